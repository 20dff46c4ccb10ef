(** Searches whose selections and samples can be steered by their draws follow every route. *)
From Coq Require Import List ZArith Bool Reals Lia Lra Permutation.
From Verif Require Import Base BaseProofs NumOps RLemmas HelperModel HelperSpec HelperProofs EngineModel EngineSpec EngineProofs
  EngineInv EngineCount EngineTheorems EngineVisits AlgoModel AlgoProofs AlgoNodes AlgoFinish ReachSpec ReachProofs.
Import ListNotations.
Open Scope R_scope.

Section Follow.
Context {S A : Type}.
Variable seqb : S -> S -> bool.
Variable aeqb : A -> A -> bool.
Hypothesis seqb_ok : decides seqb.
Hypothesis aeqb_ok : decides aeqb.
Variable C : @econf S A.
Variable G : @algo S A.
Notation dnode := (@dnode S A).
Notation cnode := (@cnode S A).
Notation astep := (astep seqb aeqb C G).
Notation arun := (arun seqb aeqb C G).
Notation areach := (areach seqb aeqb C G).
Notation dchild := (dchild aeqb).
Notation cchild := (cchild seqb).
Notation ext := (extends_tree seqb aeqb).
Hypothesis Od : one_draw G.
Variable PD : dnode -> XD G -> Prop.
Variable PC : cnode -> XC G -> Prop.
Variable PX : list A -> CX G -> Prop.
Variable QC : cnode -> XC G -> Prop.
Hypothesis Rules : node_rules C G PD PC PX QC.
Variable V : Z.
(** Some draw selects the action. *)
Hypothesis OpenS : forall m x kids cx l a, inner C m -> PD m x -> dkids_ok C G PC m kids -> PX l cx -> ddepth m = Z.of_nat (length l) ->
  (dvisits m <= V)%Z -> In a (acts C (dstate m)) ->
  exists u cx1, 0 <= u < 1 /\ forall g, gr g (nr g) = u -> select G (visit_d m) (vis_d G (is_leaf C m) x) kids cx g = Ok (a, cx1, adv g).
(** Some draw gives the outcome. *)
Hypothesis OpenO : forall c x cx o, innerc C c -> In o (succs C (cstate c) (cact c)) ->
  exists u cx1, 0 <= u < 1 /\ forall g, gr g (nr g) = u -> sample G (visit_c c) x cx g = Ok (o, cx1, adv g).

(** With suitable draws the search gets from one state to the other. *)
Definition goes (s s' : ast G) : Prop := exists f ls, same_past G s f /\ (forall i, 0 <= f i < 1) /\
  arun ls (redraw G s f) = Some s' /\ afail s' = None.
Definition live (n : nat) (g : rng R) (s : ast G) : Prop :=
  areach n (with_draws g (gr (rg s))) s /\ afail s = None /\ (forall i, 0 <= gr (rg s) i < 1).

Lemma goes_draws : forall s s' f ls, arun ls (redraw G s f) = Some s' -> afail s' = None ->
  gr (rg s') = f /\ (nr (rg s) <= nr (rg s'))%nat.
Proof using Od. intros s s' f ls H F. destruct (run_redraw seqb aeqb C G Od _ _ _ H F) as (A1 & A2 & _). auto. Qed.

Lemma goes_trans : forall s s1 s2, goes s s1 -> goes s1 s2 -> goes s s2.
Proof using Od.
  intros s s1 s2 (f1 & l1 & P1 & Q1 & R1 & F1) (f2 & l2 & P2 & Q2 & R2 & F2). exists f2, (l1 ++ l2).
  destruct (goes_draws _ _ _ _ R1 F1) as [E1 N1]. split; [|split; [exact Q2|split; [|exact F2]]].
  - intros i Hi. rewrite <- (P1 i Hi), <- E1. apply P2. lia.
  - destruct (run_redraw seqb aeqb C G Od _ _ _ R1 F1) as (_ & _ & _ & K).
    rewrite (arun_app seqb aeqb C G l1 l2 (redraw G s f2) (redraw G s1 f2)); [exact R2|]. exact (K f2 P2).
Qed.
Lemma goes_refl : forall s, afail s = None -> (forall i, 0 <= gr (rg s) i < 1) -> goes s s.
Proof using Type.
  intros s F Q. exists (gr (rg s)), []. split; [now intros i|]. split; auto. split; auto. cbn. destruct s as [b x y z r f], r. reflexivity.
Qed.
Lemma goes_live : forall n g s s', live n g s -> goes s s' -> live n g s'.
Proof using Od.
  intros n g s s' (R & F & Q) (f & ls & P & Qf & H & F'). destruct (goes_draws _ _ _ _ H F') as [E _].
  destruct (reach_redraw seqb aeqb C G Od _ _ _ _ R F P) as (R1 & _). split; [|split; [auto|now rewrite E]].
  rewrite E. eapply (areach_app seqb aeqb C G); [exact R1|exact H].
Qed.
Lemma arun_ext : forall n g ls s s', areach n g s -> arun ls s = Some s' -> ext (mem (base s)) (mem (base s')).
Proof using seqb_ok aeqb_ok.
  intros n g. induction ls as [|l ls IH]; intros s s' R H; cbn [AlgoModel.arun] in H.
  { injection H as <-. apply (ext_refl seqb aeqb C). }
  destruct (astep l s) as [s1|] eqn:E; [|discriminate].
  apply (ext_trans seqb aeqb) with (mem (base s1)); [|apply (IH s1); auto; eapply (areach_snoc seqb aeqb C G); eauto].
  destruct (astep_estep seqb aeqb C G l s s1 E) as [->|(l' & El)]; [apply (ext_refl seqb aeqb C)|].
  apply (mstep_ext _ _ C). apply gstep_mstep. eapply estep_gstep; eauto. apply (ag_good _ _ _ _ _ (areach_good seqb aeqb seqb_ok aeqb_ok C G _ _ _ R)).
Qed.
Lemma goes_ext : forall n g s s', live n g s -> goes s s' -> ext (mem (base s)) (mem (base s')).
Proof using Od seqb_ok aeqb_ok.
  intros n g s s' (R & F & Q) (f & ls & P & Qf & H & F').
  destruct (reach_redraw seqb aeqb C G Od _ _ _ _ R F P) as (R1 & _). exact (arun_ext _ _ _ _ _ R1 H).
Qed.
Lemma holds_ext : forall m m' p d, ext m m' -> holds_route seqb aeqb m d p -> holds_route seqb aeqb m' d p.
Proof using Type.
  intros m m' p d X. revert d. induction p as [|[a o] p IH]; intros d H; cbn [holds_route] in *; auto.
  destruct H as (c & d' & H1 & H2 & H3). exists c, d'. split; [now apply (xt_dchild _ _ _ _ X)|]. split; [now apply (xt_cchild _ _ _ _ X)|auto].
Qed.

(** The other workers wait for trials. *)
Definition only (s : ast G) (t : nat) : Prop := forall u y, u <> t -> nth_error (ths (base s)) u = Some y -> y = TIdle.
Lemma only_free : forall s t, only s t -> others_free G s t.
Proof using Type. intros s t O u y cy N Hy _. now rewrite (O u y N Hy). Qed.
Lemma only_unblocked : forall s t x, only s t -> blocked G s t x = false.
Proof using Type.
  intros s t x O. unfold blocked. apply not_true_is_false. intros H. apply existsb_exists in H. destruct H as (u & _ & H).
  destruct (nth_error (ths (base s)) u) as [th|] eqn:E; [|discriminate]. destruct (nth_error (cxs s) u) as [cu|]; [|discriminate].
  destruct (Nat.eq_dec u t) as [->|N].
  - destruct (held G th cu), (wants x); try discriminate. rewrite Nat.eqb_refl, Bool.andb_false_r in H. discriminate.
  - rewrite (O _ _ N E) in H. cbn in H. discriminate.
Qed.
Definition ov (f : nat -> R) (k : nat) (u : R) (i : nat) : R := if Nat.eqb i k then u else f i.
Lemma ov_eq : forall f k u, ov f k u k = u. Proof using Type. intros. unfold ov. now rewrite Nat.eqb_refl. Qed.
Lemma ov_range : forall f k u, 0 <= u < 1 -> (forall i, 0 <= f i < 1) -> forall i, 0 <= ov f k u i < 1.
Proof using Type. intros f k u Hu Hf i. unfold ov. destruct (Nat.eqb i k); auto. Qed.
Lemma ov_past : forall s u, same_past G s (ov (gr (rg s)) (nr (rg s)) u).
Proof using Type. intros s u i Hi. unfold ov. destruct (Nat.eqb_spec i (nr (rg s))); [lia|auto]. Qed.

Lemma sel_goes : forall n g s t cur flag nodes rewards m a e1, live n g s -> only s t ->
  nth_error (ths (base s)) t = Some (TSel cur flag nodes rewards) -> nth_error (dh (mem (base s))) cur = Some m ->
  should_continue C m flag = true -> In a (acts C (dstate m)) -> (dvisits m <= V)%Z ->
  estep seqb aeqb C (LSelect t a) (base s) = Some e1 ->
  exists s1, goes s s1 /\ base s1 = e1 /\ exists cx1, cxs s1 = upd (cxs s) t cx1.
Proof using All.
  intros n g s t cur flag nodes rewards m a e1 (R & F & Q) O Ht Hm Hc Ia Hv E1.
  pose proof (areach_good seqb aeqb seqb_ok aeqb_ok C G _ _ _ R) as I.
  pose proof (nodes_reach seqb aeqb seqb_ok aeqb_ok C G _ _ _ _ Rules _ _ _ R) as No.
  assert (X : exists x, nth_error (xds s) cur = Some x).
  { destruct (nth_error (xds s) cur) eqn:Z; [eauto|]. apply nth_error_None in Z. rewrite (ag_d _ _ _ _ _ I) in Z.
    assert (cur < length (dh (mem (base s))))%nat by (apply nth_error_Some; congruence). lia. }
  destruct X as (x & Hx).
  assert (X : exists cx, nth_error (cxs s) t = Some cx).
  { destruct (nth_error (cxs s) t) eqn:Z; [eauto|]. apply nth_error_None in Z. rewrite (ag_t _ _ _ _ _ I) in Z.
    assert (t < length (ths (base s)))%nat by (apply nth_error_Some; congruence). lia. }
  destruct X as (cx & Hcx).
  pose proof (no_t _ _ _ _ _ _ _ _ No _ _ _ Ht Hcx) as (l & _ & (m' & Hm' & Ed) & Px). rewrite Hm in Hm'. injection Hm' as <-.
  destruct (OpenS m x (dview s m) cx l a) as (u & cx1 & Hu & Sel); auto.
  { eapply cont_inner; eauto. } { eapply no_d; eauto. } { eapply dview_kids; eauto. }
  set (f := ov (gr (rg s)) (nr (rg s)) u).
  assert (St : astep (ARun t) (redraw G s f) = Some (aset G (redraw G s f) e1 (upd (xds s) cur (vis_d G (is_leaf C m) x)) (xcs s) t cx1 (adv (with_draws (rg s) f)))).
  { unfold AlgoModel.astep. change (afail (redraw G s f)) with (afail s). rewrite F.
    change (base (redraw G s f)) with (base s). change (cxs (redraw G s f)) with (cxs s).
    change (xds (redraw G s f)) with (xds s). change (xcs (redraw G s f)) with (xcs s). change (rg (redraw G s f)) with (with_draws (rg s) f).
    rewrite Ht, Hcx. change (blocked G (redraw G s f) t (TSel cur flag nodes rewards)) with (blocked G s t (TSel cur flag nodes rewards)).
    rewrite (only_unblocked s t _ O), Hm, Hx, Hc. change (dview (redraw G s f) m) with (dview s m).
    rewrite Sel by (unfold f; apply ov_eq). cbn [done]. now rewrite E1. }
  eexists. split; [exists f, [ARun t]; split; [apply ov_past|]; split; [now apply ov_range|]; split; [cbn [AlgoModel.arun]; rewrite St; reflexivity|exact F]|].
  split; [reflexivity|]. exists cx1. reflexivity.
Qed.
Lemma sam_goes : forall n g s t d a c flag nodes rewards m o e1, live n g s -> only s t ->
  nth_error (ths (base s)) t = Some (TChance d a c flag nodes rewards) -> nth_error (ch (mem (base s))) c = Some m ->
  In o (succs C (cstate m) (cact m)) -> estep seqb aeqb C (LSample t o) (base s) = Some e1 ->
  exists s1, goes s s1 /\ base s1 = e1 /\ exists cx1, cxs s1 = upd (cxs s) t cx1.
Proof using All.
  intros n g s t d a c flag nodes rewards m o e1 (R & F & Q) O Ht Hm Io E1.
  pose proof (areach_good seqb aeqb seqb_ok aeqb_ok C G _ _ _ R) as I.
  assert (X : exists x, nth_error (xcs s) c = Some x).
  { destruct (nth_error (xcs s) c) eqn:Z; [eauto|]. apply nth_error_None in Z. rewrite (ag_c _ _ _ _ _ I) in Z.
    assert (c < length (ch (mem (base s))))%nat by (apply nth_error_Some; congruence). lia. }
  destruct X as (x & Hx).
  assert (X : exists cx, nth_error (cxs s) t = Some cx).
  { destruct (nth_error (cxs s) t) eqn:Z; [eauto|]. apply nth_error_None in Z. rewrite (ag_t _ _ _ _ _ I) in Z.
    assert (t < length (ths (base s)))%nat by (apply nth_error_Some; congruence). lia. }
  destruct X as (cx & Hcx).
  destruct (OpenO m x cx o) as (u & cx1 & Hu & Sel); auto.
  { eapply chance_inner; eauto. }
  set (f := ov (gr (rg s)) (nr (rg s)) u).
  assert (St : astep (ARun t) (redraw G s f) = Some (aset G (redraw G s f) e1 (xds s) (xcs s) t cx1 (adv (with_draws (rg s) f)))).
  { unfold AlgoModel.astep. change (afail (redraw G s f)) with (afail s). rewrite F.
    change (base (redraw G s f)) with (base s). change (cxs (redraw G s f)) with (cxs s).
    change (xds (redraw G s f)) with (xds s). change (xcs (redraw G s f)) with (xcs s). change (rg (redraw G s f)) with (with_draws (rg s) f).
    rewrite Ht, Hcx. change (blocked G (redraw G s f) t (TChance d a c flag nodes rewards)) with (blocked G s t (TChance d a c flag nodes rewards)).
    rewrite (only_unblocked s t _ O), Hm, Hx.
    rewrite Sel by (unfold f; apply ov_eq). cbn [done]. now rewrite E1. }
  eexists. split; [exists f, [ARun t]; split; [apply ov_past|]; split; [now apply ov_range|]; split; [cbn [AlgoModel.arun]; rewrite St; reflexivity|exact F]|].
  split; [reflexivity|]. exists cx1. reflexivity.
Qed.

Notation starts s := (count is_start (etrace (base s))).

Lemma down : forall n g s t cur flag nodes rewards m a o, live n g s -> only s t ->
  nth_error (ths (base s)) t = Some (TSel cur flag nodes rewards) -> nth_error (dh (mem (base s))) cur = Some m ->
  should_continue C m flag = true -> In a (acts C (dstate m)) -> In o (succs C (dstate m) a) -> (init_visits C + starts s <= V)%Z ->
  exists s1 c d flag1 nodes1 rewards1, goes s s1 /\ only s1 t /\ nth_error (ths (base s1)) t = Some (TSel d flag1 nodes1 rewards1) /\
    starts s1 = starts s /\ dchild (mem (base s1)) cur a c /\ cchild (mem (base s1)) c o d /\
    (forall c' d', dchild (mem (base s)) cur a c' -> cchild (mem (base s)) c' o d' -> flag1 = flag /\ d' = d).
Proof using All.
  intros n g s t cur flag nodes rewards m a o L O Ht Hm Hc Ia Io Hv. pose proof L as (R & F & Q).
  pose proof (areach_ereach seqb aeqb C G _ _ _ R) as Er.
  pose proof (visits_le_starts seqb aeqb seqb_ok aeqb_ok C _ _ _ _ Er Hm) as Hv2.
  destruct (down_engine seqb aeqb seqb_ok aeqb_ok C _ _ _ _ _ _ _ _ _ _ Er Ht Hm Hc Ia Io) as
    (e1 & c & E1 & T1 & S1 & x & Hx & Ex & Ea & e2 & d & flag2 & nodes2 & rewards2 & E2 & T2 & S2 & D1 & D2 & D3).
  destruct (sel_goes n g s t cur flag nodes rewards m a e1 L O Ht Hm Hc Ia ltac:(lia) E1) as (s1 & G1 & B1 & _).
  pose proof (goes_live _ _ _ _ L G1) as L1. subst e1.
  assert (Ht1 : nth_error (ths (base s1)) t = Some (TChance cur a c flag nodes rewards)) by (rewrite T1; eapply nth_upd_eq; eauto).
  assert (O1 : only s1 t). { intros u y N Hy. rewrite T1, nth_upd_ne in Hy by auto. eauto. }
  destruct (sam_goes n g s1 t cur a c flag nodes rewards x o e2 L1 O1 Ht1 Hx ltac:(congruence) E2) as (s2 & G2 & B2 & _). subst e2.
  exists s2, c, d, flag2, nodes2, rewards2. split; [eapply goes_trans; eauto|]. split.
  { intros u y N Hy. rewrite T2, nth_upd_ne in Hy by auto. eauto. }
  split; [rewrite T2; eapply nth_upd_eq; eauto|]. split; [congruence|]. split; auto. split; auto.
  intros c' d' H1 H2. destruct (D3 c' d' H1 H2) as (? & _ & ?). auto.
Qed.

Lemma node_at : forall n e c o d x, ereach seqb aeqb C n e -> nth_error (ch (mem e)) c = Some x -> cchild (mem e) c o d ->
  exists y, nth_error (dh (mem e)) d = Some y /\ dstate y = o /\ ddepth y = (cdepth x + 1)%Z.
Proof using seqb_ok aeqb_ok.
  intros n e c o d x R Hx (x' & Hx' & L). rewrite Hx in Hx'. injection Hx' as <-.
  pose proof (ereach_good seqb aeqb seqb_ok aeqb_ok C _ _ R) as [Ti _]. pose proof (ti_wf _ _ _ _ Ti) as W.
  destruct (wf_c _ _ _ _ W _ _ _ _ Hx L) as (y & Hy & E1 & E2 & _). eauto.
Qed.

Lemma follow : forall n g t p a o s cur flag nodes rewards m, live n g s -> only s t ->
  nth_error (ths (base s)) t = Some (TSel cur flag nodes rewards) -> nth_error (dh (mem (base s))) cur = Some m ->
  route C (dstate m) (p ++ [(a, o)]) -> (ddepth m + Z.of_nat (length p) < max_depth C)%Z -> holds_route seqb aeqb (mem (base s)) cur p ->
  (mcts_mode C = true -> flag = false) -> (init_visits C + starts s <= V)%Z ->
  exists s1, goes s s1 /\ only s1 t /\ starts s1 = starts s /\ holds_route seqb aeqb (mem (base s1)) cur (p ++ [(a, o)]).
Proof using All.
  intros n g t p a o. induction p as [|[a0 o0] p IH]; intros s cur flag nodes rewards m L O Ht Hm Rt Dp Ho Fl Hv.
  - cbn [app route length] in Rt, Dp. destruct Rt as (Ns & Ia & Io & _).
    assert (Hc : should_continue C m flag = true).
    { unfold should_continue, is_leaf. rewrite Ns. cbn [orb]. destruct (Z.leb_spec (max_depth C) (ddepth m)); [lia|].
      destruct (mcts_mode C); cbn [andb]; auto. now rewrite Fl. }
    destruct (down n g s t cur flag nodes rewards m a o L O Ht Hm Hc Ia Io Hv) as (s1 & c & d & f1 & n1 & r1 & G1 & O1 & _ & S1 & D1 & D2 & _).
    exists s1. split; auto. split; auto. split; auto. cbn [app holds_route]. eauto.
  - cbn [app route length holds_route] in Rt, Dp, Ho. destruct Rt as (Ns & Ia & Io & Rt). destruct Ho as (c0 & d0 & H1 & H2 & Ho).
    assert (Hc : should_continue C m flag = true).
    { unfold should_continue, is_leaf. rewrite Ns. cbn [orb]. destruct (Z.leb_spec (max_depth C) (ddepth m)); [lia|].
      destruct (mcts_mode C); cbn [andb]; auto. now rewrite Fl. }
    destruct (down n g s t cur flag nodes rewards m a0 o0 L O Ht Hm Hc Ia Io Hv) as (s1 & c & d & f1 & n1 & r1 & G1 & O1 & T1 & S1 & D1 & D2 & D3).
    destruct (D3 c0 d0 H1 H2) as [-> ->]. pose proof (goes_live _ _ _ _ L G1) as L1. pose proof (goes_ext _ _ _ _ L G1) as X1.
    pose proof L1 as (R1 & F1 & _). pose proof (areach_ereach seqb aeqb C G _ _ _ R1) as Er1.
    assert (Hx : exists x, nth_error (ch (mem (base s1))) c = Some x /\ cdepth x = ddepth m).
    { destruct D1 as (m1 & Hm1 & L1'). pose proof (ereach_good seqb aeqb seqb_ok aeqb_ok C _ _ Er1) as [Ti _]. pose proof (ti_wf _ _ _ _ Ti) as W.
      destruct (wf_d _ _ _ _ W _ _ _ _ Hm1 L1') as (x & Hx & E1 & E2 & _). exists x. split; auto.
      destruct (xt_d _ _ _ _ X1 _ _ Hm) as (m1' & Hm1' & _ & Em & _). rewrite Hm1 in Hm1'. injection Hm1' as <-. congruence. }
    destruct Hx as (x & Hx & Dx).
    destruct (node_at _ _ _ _ _ _ Er1 Hx D2) as (y & Hy & Ey & Dy).
    destruct (IH s1 d flag n1 r1 y L1 O1 T1 Hy) as (s2 & G2 & O2 & S2 & Ho2).
    + now rewrite Ey.
    + lia.
    + eapply holds_ext; eauto.
    + exact Fl.
    + lia.
    + exists s2. split; [eapply goes_trans; eauto|]. split; auto. split; [congruence|]. cbn [app holds_route].
      pose proof (goes_ext _ _ _ _ L1 G2) as X2. exists c, d. split; [now apply (xt_dchild _ _ _ _ X2)|]. split; [now apply (xt_cchild _ _ _ _ X2)|auto].
Qed.

Variable rank : CX G -> nat.
Variable r : nat.
Hypothesis rank_le : forall cx, (rank cx <= r)%nat.
Hypothesis rank_d : forall kids cx cx1, peek_d G kids cx = Some cx1 -> (rank cx1 < rank cx)%nat.
Hypothesis rank_c : forall kids cx cx1, peek_c G kids cx = Some cx1 -> (rank cx1 < rank cx)%nat.
Hypothesis Calm : forall n g K, good_ints g -> good_reals g -> (forall i, (K <= i)%nat -> gr g i = 0) ->
  forall s, areach n g s -> (K <= nr (rg s))%nat -> afail s = None.

(** One more trial adds the next step of a route. *)
Lemma trial : forall n g s p a o, live n g s -> good_ints g -> (0 < n)%nat -> quiet (base s) ->
  holds_route seqb aeqb (mem (base s)) 0 p -> route C (root_state C) (p ++ [(a, o)]) -> (Z.of_nat (length p) < max_depth C)%Z ->
  (init_visits C + starts s + 1 <= V)%Z ->
  exists s1, goes s s1 /\ quiet (base s1) /\ starts s1 = (starts s + 1)%Z /\ holds_route seqb aeqb (mem (base s1)) 0 (p ++ [(a, o)]).
Proof using All.
  intros n g s p a o L Gi Hn Qs Ho Rt Dp Hv. pose proof L as (R & F & Q).
  pose proof (areach_ereach seqb aeqb C G _ _ _ R) as Er.
  destruct (thread_ex seqb aeqb seqb_ok aeqb_ok C n (base s) 0 Er Hn) as [x Hx]. pose proof (Qs _ _ Hx) as ->.
  assert (E : exists s1, astep (AStart 0) s = Some s1 /\ ths (base s1) = upd (ths (base s)) 0 (TSel 0 false [] []) /\
            etrace (base s1) = (0%nat, EStart) :: etrace (base s) /\ mem (base s1) = mem (base s) /\ afail s1 = None).
  { unfold AlgoModel.astep. rewrite F. unfold estep. rewrite Hx. cbn [out]. eexists. repeat split; try reflexivity. exact F. }
  destruct E as (s1 & E & Et & Ee & Em & F1).
  assert (G1 : goes s s1).
  { exists (gr (rg s)), [AStart 0]. split; [now intros i|]. split; auto. split; auto. cbn [AlgoModel.arun].
    replace (redraw G s (gr (rg s))) with s by (destruct s as [b0 x0 y0 z0 r0 f0], r0; reflexivity). now rewrite E. }
  pose proof (goes_live _ _ _ _ L G1) as L1.
  assert (S1 : starts s1 = (starts s + 1)%Z) by (rewrite Ee, count_cons; cbn [is_start b2z]; lia).
  assert (O1 : only s1 0). { intros u y N Hy. rewrite Et, nth_upd_ne in Hy by auto. eauto. }
  assert (Rn : exists m, nth_error (dh (mem (base s1))) 0 = Some m /\ dstate m = root_state C /\ ddepth m = 0%Z).
  { rewrite Em. destruct (ereach_good seqb aeqb seqb_ok aeqb_ok C _ _ Er) as [Ti _].
    destruct (wf_root _ _ _ _ (ti_wf _ _ _ _ Ti)) as (m & H1 & H2 & H3 & _). eauto. }
  destruct Rn as (m & Hm & Sm & Dm).
  destruct (follow n g 0%nat p a o s1 0%nat false [] [] m L1 O1) as (s2 & G2 & O2 & S2 & H2); auto.
  { rewrite Et. eapply nth_upd_eq; eauto. } { now rewrite Sm. } { rewrite Dm. lia. } { now rewrite Em. } { lia. }
  pose proof (goes_live _ _ _ _ L1 G2) as L2. pose proof L2 as (R2 & F2 & Q2).
  set (f := fun i => if (i <? nr (rg s2))%nat then gr (rg s2) i else 0).
  assert (P2 : same_past G s2 f). { intros i Hi. unfold f. destruct (Nat.ltb_spec i (nr (rg s2))); [auto|lia]. }
  assert (Qf : forall i, 0 <= f i < 1). { intros i. unfold f. destruct (i <? nr (rg s2))%nat; auto. lra. }
  destruct (reach_redraw seqb aeqb C G Od _ _ _ _ R2 F2 P2) as (R3 & _).
  set (s3 := redraw G s2 f) in *.
  assert (Qst : forall l a1 b1, (nr (rg s2) <= nr (rg a1))%nat -> astep l a1 = Some b1 -> (nr (rg s2) <= nr (rg b1))%nat)
    by (intros l a1 b1 H K; pose proof (nr_mono seqb aeqb C G Od l a1 b1 K); lia).
  assert (NF : forall s0, areach n (with_draws (with_draws g (gr (rg s2))) f) s0 -> (nr (rg s2) <= nr (rg s0))%nat -> afail s0 = None).
  { apply Calm with (K := nr (rg s2)); auto. intros i Hi. cbn. unfold f. destruct (Nat.ltb_spec i (nr (rg s2))); [lia|auto]. }
  destruct (finishes_in seqb aeqb seqb_ok aeqb_ok C G rank r rank_le rank_d rank_c n (with_draws (with_draws g (gr (rg s2))) f)
     (fun s => (nr (rg s2) <= nr (rg s))%nat) Qst ltac:(lia) NF s3 0%nat Hn R3 (le_n _) (only_free _ _ O2)) as
    (k & s4 & _ & E4 & I1 & I2 & I3).
  assert (F4 : afail s4 = None).
  { apply NF; [eapply (areach_app seqb aeqb C G); eauto|].
    apply (arun_keeps seqb aeqb C G (fun s => (nr (rg s2) <= nr (rg s))%nat) Qst _ _ _ (le_n _ : (nr (rg s2) <= nr (rg s3))%nat) E4). }
  assert (G4 : goes s2 s4) by (exists f; eauto).
  exists s4. split; [eapply goes_trans; [exact G1|]; eapply goes_trans; eauto|]. split; [|split].
  - intros t x Q0. destruct (Nat.eq_dec t 0) as [->|N]; [congruence|]. rewrite (proj1 (I2 t N)) in Q0. eapply O2; eauto.
  - change (base s3) with (base s2) in I3. lia.
  - eapply holds_ext; [exact (goes_ext _ _ _ _ L2 G4)|auto].
Qed.

Lemma route_init : forall s p q, route C s (p ++ q) -> route C s p.
Proof using Type. intros s p q. revert s. induction p as [|[a o] p IH]; intros s H; cbn in *; auto. destruct H as (? & ? & ? & ?). auto. Qed.

Lemma grow : forall n g p s, live n g s -> good_ints g -> (0 < n)%nat -> quiet (base s) ->
  route C (root_state C) p -> (Z.of_nat (length p) <= max_depth C)%Z -> (init_visits C + starts s + Z.of_nat (length p) <= V)%Z ->
  exists s1, goes s s1 /\ quiet (base s1) /\ starts s1 = (starts s + Z.of_nat (length p))%Z /\ holds_route seqb aeqb (mem (base s1)) 0 p.
Proof using All.
  intros n g p. induction p as [|[a o] p IH] using rev_ind; intros s L Gi Hn Qs Rt Dp Hv.
  - exists s. pose proof L as (_ & F & Q). split; [now apply goes_refl|]. split; auto. split; [cbn; lia|exact Logic.I].
  - rewrite app_length in *. cbn [length] in *.
    destruct (IH s L Gi Hn Qs (route_init _ _ _ Rt) ltac:(lia) ltac:(lia)) as (s1 & G1 & Q1 & S1 & H1).
    pose proof (goes_live _ _ _ _ L G1) as L1.
    destruct (trial n g s1 p a o L1 Gi Hn Q1 H1 Rt ltac:(lia) ltac:(lia)) as (s2 & G2 & Q2 & S2 & H2).
    exists s2. split; [eapply goes_trans; eauto|]. split; auto. split; [lia|auto].
Qed.

Lemma grow_all : forall n g ps s, live n g s -> good_ints g -> (0 < n)%nat -> quiet (base s) ->
  (forall p, In p ps -> route C (root_state C) p /\ (Z.of_nat (length p) <= max_depth C)%Z) -> (init_visits C + starts s + Z.of_nat (length (concat ps)) <= V)%Z ->
  exists s1, goes s s1 /\ quiet (base s1) /\ starts s1 = (starts s + Z.of_nat (length (concat ps)))%Z /\
    forall p, In p ps -> holds_route seqb aeqb (mem (base s1)) 0 p.
Proof using All.
  intros n g. induction ps as [|p ps IH]; intros s L Gi Hn Qs Rt Hv.
  - exists s. pose proof L as (_ & F & Q). split; [now apply goes_refl|]. split; auto. split; [cbn; lia|intros p []].
  - cbn [concat] in *. rewrite app_length in *. destruct (Rt p (or_introl eq_refl)) as [R1 D1].
    destruct (grow n g p s L Gi Hn Qs R1 D1 ltac:(lia)) as (s1 & G1 & Q1 & S1 & H1). pose proof (goes_live _ _ _ _ L G1) as L1.
    destruct (IH s1 L1 Gi Hn Q1 (fun p J => Rt p (or_intror J)) ltac:(lia)) as (s2 & G2 & Q2 & S2 & H2).
    exists s2. split; [eapply goes_trans; eauto|]. split; auto. split; [lia|].
    intros p' [<-|J]; auto. eapply holds_ext; [exact (goes_ext _ _ _ _ L1 G2)|auto].
Qed.
End Follow.

(** All routes. *)
Section Whole.
Context {S A : Type}.
Variable seqb : S -> S -> bool.
Variable aeqb : A -> A -> bool.
Hypothesis seqb_ok : decides seqb.
Hypothesis aeqb_ok : decides aeqb.
Variable C : @econf S A.
Notation dchild := (dchild aeqb).
Notation cchild := (cchild seqb).

Lemma routes_in : forall k s p, In p (routes C k s) <-> route C s p /\ (length p <= k)%nat.
Proof using Type.
  induction k as [|k IH]; intros s p; cbn [routes].
  - split; [intros [<-|[]]; cbn; auto|]. intros [_ L]. destruct p; [now left|cbn in L; lia].
  - destruct p as [|[a o] p]; [split; [cbn; split; auto; lia|intros; now left]|]. cbn [route length]. split.
    + intros [H|H]; [discriminate|]. destruct (is_sink C s); [destruct H|].
      apply in_flat_map in H. destruct H as (a' & Ia & H). apply in_flat_map in H. destruct H as (o' & Io & H).
      apply in_map_iff in H. destruct H as (p' & [= -> -> ->] & H). apply IH in H. destruct H as [H1 H2]. repeat split; auto. lia.
    + intros [(Ns & Ia & Io & Hr) L]. right. rewrite Ns. apply in_flat_map. exists a. split; auto. apply in_flat_map. exists o. split; auto.
      apply in_map. apply IH. split; auto. lia.
Qed.

(** Where a route leads. *)
Fixpoint leads (m : @store S A) (d : nat) (p : list (A * S)) (e : nat) : Prop :=
  match p with [] => d = e | (a, o) :: r => exists c d', dchild m d a c /\ cchild m c o d' /\ leads m d' r e end.
Lemma leads_app : forall m p q d e, leads m d (p ++ q) e <-> exists k, leads m d p k /\ leads m k q e.
Proof using Type.
  intros m. induction p as [|[a o] p IH]; intros q d e; cbn [app leads].
  - split; [eauto|]. now intros (k & -> & H).
  - split.
    + intros (c & d' & H1 & H2 & H3). apply IH in H3. destruct H3 as (k & H3 & H4). exists k. split; eauto.
    + intros (k & (c & d' & H1 & H2 & H3) & H4). exists c, d'. repeat split; auto. apply IH. eauto.
Qed.
Lemma leads_holds : forall m p q d e, leads m d p e -> holds_route seqb aeqb m d (p ++ q) -> holds_route seqb aeqb m e q.
Proof using Type.
  intros m. induction p as [|[a o] p IH]; intros q d e; cbn [app leads holds_route]; [now intros ->|].
  intros (c & d' & H1 & H2 & H3) (c' & d1 & H4 & H5 & H6).
  destruct H1 as (x & Hx & L1), H4 as (x' & Hx' & L4). rewrite Hx in Hx'. injection Hx' as <-. rewrite L1 in L4. injection L4 as <-.
  destruct H2 as (y & Hy & L2), H5 as (y' & Hy' & L5). rewrite Hy in Hy'. injection Hy' as <-. rewrite L2 in L5. injection L5 as <-.
  eauto.
Qed.
Lemma node_route : forall n s, ereach seqb aeqb C n s -> forall k d x, nth_error (dh (mem s)) d = Some x -> ddepth x = Z.of_nat k ->
  exists p, leads (mem s) 0 p d /\ length p = k /\ forall q, route C (dstate x) q -> route C (root_state C) (p ++ q).
Proof using seqb_ok aeqb_ok.
  intros n s R. destruct (ereach_good seqb aeqb seqb_ok aeqb_ok C _ _ R) as [Ti _]. pose proof (ti_wf _ _ _ _ Ti) as W.
  destruct (wf_root _ _ _ _ W) as (root & Hr & Sr & Dr & _).
  assert (Nn : forall d x, nth_error (dh (mem s)) d = Some x -> (0 <= ddepth x)%Z) by (intros d x Hd; apply (ti_time _ _ _ _ Ti _ _ Hd)).
  induction k as [|k IH]; intros d x Hd Ed; destruct (wf_reachD _ _ _ _ W _ _ Hd) as [|c o d Hc Cc].
  - rewrite Hr in Hd. injection Hd as <-. exists []. split; [reflexivity|]. split; auto. rewrite Sr. auto.
  - exfalso. destruct Hc as [d0 a c Hd0 Dc]. destruct Dc as (m & Hm & L1), Cc as (y & Hy & L2).
    destruct (wf_d _ _ _ _ W _ _ _ _ Hm L1) as (y' & Hy' & _ & E1 & _). rewrite Hy in Hy'. injection Hy' as <-.
    destruct (wf_c _ _ _ _ W _ _ _ _ Hy L2) as (x' & Hx' & _ & E2 & _). rewrite Hd in Hx'. injection Hx' as <-. pose proof (Nn _ _ Hm). lia.
  - rewrite Hr in Hd. injection Hd as <-. lia.
  - destruct Hc as [d0 a c Hd0 Dc]. pose proof Dc as (m & Hm & L1). pose proof Cc as (y & Hy & L2).
    destruct (wf_d _ _ _ _ W _ _ _ _ Hm L1) as (y' & Hy' & E0 & E1 & _ & Ea & Ia & Ms). rewrite Hy in Hy'. injection Hy' as <-.
    destruct (wf_c _ _ _ _ W _ _ _ _ Hy L2) as (x' & Hx' & Eo & E2 & _ & Io). rewrite Hd in Hx'. injection Hx' as <-.
    destruct (IH d0 m Hm ltac:(lia)) as (p & P1 & P2 & P3). exists (p ++ [(a, o)]). split; [|split].
    + apply leads_app. exists d0. split; auto. cbn [leads]. exists c, d. auto.
    + rewrite app_length. cbn [length]. lia.
    + intros q Hq. rewrite <- app_assoc. apply P3. cbn [app route]. split; [|split; [auto|split; [congruence|congruence]]].
      unfold must_stop in Ms. destruct (is_sink C (dstate m)); [tauto|auto].
Qed.

Lemma all_routes : forall n s, ereach seqb aeqb C n s ->
  (forall p, route C (root_state C) p -> (Z.of_nat (length p) <= max_depth C)%Z -> holds_route seqb aeqb (mem s) 0 p) -> whole seqb aeqb C (mem s).
Proof using seqb_ok aeqb_ok.
  intros n s R H d x a o Hd Ns Dp Ia Io.
  destruct (ereach_good seqb aeqb seqb_ok aeqb_ok C _ _ R) as [Ti _]. destruct (ti_time _ _ _ _ Ti _ _ Hd) as [_ D0].
  destruct (node_route n s R (Z.to_nat (ddepth x)) d x Hd ltac:(lia)) as (p & P1 & P2 & P3).
  specialize (H (p ++ [(a, o)])). rewrite app_length in H. cbn [length] in H.
  assert (Hh := H (P3 [(a, o)] ltac:(cbn; auto)) ltac:(lia)). apply (leads_holds _ _ _ _ _ P1) in Hh.
  cbn [holds_route] in Hh. destruct Hh as (c & d' & H1 & H2 & _). eauto.
Qed.
End Whole.
