(** Searches whose steps take one draw: other draws in the future leave the past alone. *)
From Coq Require Import List ZArith Bool Reals Lia Lra Permutation.
From Verif Require Import Base BaseProofs NumOps RLemmas HelperModel HelperSpec HelperProofs EngineModel EngineSpec EngineProofs
  EngineInv EngineCount EngineVisits AlgoModel AlgoProofs AlgoFinish ReachSpec.
Import ListNotations.
Open Scope R_scope.

Section Redraw.
Context {S A : Type}.
Variable seqb : S -> S -> bool.
Variable aeqb : A -> A -> bool.
Hypothesis seqb_ok : decides seqb.
Hypothesis aeqb_ok : decides aeqb.
Variable C : @econf S A.
Variable G : @algo S A.
Notation dnode := (@dnode S A).
Notation cnode := (@cnode S A).
Notation astep := (astep seqb aeqb C G).
Notation arun := (arun seqb aeqb C G).
Notation areach := (areach seqb aeqb C G).

Definition adv (g : rng R) : rng R := mkRng (gi g) (gr g) (ni g) (Datatypes.S (nr g)).
(** Selections and samples take one real draw. *)
Record one_draw : Prop := mkOneDraw {
  od_sel : forall n x kids cx, exists f : R -> outcome (A * CX G), forall g,
    select G n x kids cx g = bind (f (gr g (nr g))) (fun '(a, cx1) => Ok (a, cx1, adv g));
  od_sam : forall n x cx, exists f : R -> outcome (S * CX G), forall g,
    sample G n x cx g = bind (f (gr g (nr g))) (fun '(o, cx1) => Ok (o, cx1, adv g))
}.
Hypothesis Od : one_draw.

Lemma step_redraw : forall l s s1, astep l s = Some s1 -> afail s1 = None ->
  (nr (rg s) <= nr (rg s1))%nat /\ gr (rg s1) = gr (rg s) /\ gi (rg s1) = gi (rg s) /\
  forall f, same_past G s1 f -> astep l (redraw G s f) = Some (redraw G s1 f).
Proof using Od.
  intros l s s1 H F. unfold AlgoModel.astep in H |- *. change (afail (redraw G s ?f)) with (afail s).
  destruct (afail s) eqn:Fs; [discriminate|].
  assert (D : forall x, Some (adie G s x) = Some s1 -> False) by (intros x [= <-]; discriminate).
  set (P := (nr (rg s) <= nr (rg s1))%nat /\ gr (rg s1) = gr (rg s) /\ gi (rg s1) = gi (rg s)).
  assert (Sm : forall b ds cs t cx, Some (aset G s b ds cs t cx (rg s)) = Some s1 -> P /\
    forall f, Some (aset G (redraw G s f) b ds cs t cx (with_draws (rg s) f)) = Some (redraw G s1 f)).
  { intros b ds cs t cx [= <-]. split; [|reflexivity]. unfold P. cbn. auto. }
  destruct l as [t|t].
  - change (base (redraw G s ?f)) with (base s).
    destruct (estep seqb aeqb C (LStart t) (base s)) as [b|]; [|discriminate].
    destruct (Sm _ _ _ _ _ H) as [HP HS]. repeat split; try apply HP. intros f _. exact (HS f).
  - change (base (redraw G s ?f)) with (base s). change (cxs (redraw G s ?f)) with (cxs s).
    change (xds (redraw G s ?f)) with (xds s). change (xcs (redraw G s ?f)) with (xcs s).
    change (rg (redraw G s ?f)) with (with_draws (rg s) f).
    destruct (nth_error (ths (base s)) t) as [th|]; [|discriminate].
    destruct (nth_error (cxs s) t) as [cx|]; [|discriminate].
    change (blocked G (redraw G s ?f) t th) with (blocked G s t th).
    destruct (blocked G s t th); [discriminate|].
    destruct th; try discriminate.
    + destruct (nth_error (dh (mem (base s))) cur) as [n|]; [|destruct (D _ H)].
      destruct (nth_error (xds s) cur) as [x|]; [|destruct (D _ H)].
      destruct (should_continue C n flag).
      * destruct (od_sel Od (visit_d n) (vis_d G (is_leaf C n) x) (dview s n) cx) as (h & Eh). rewrite Eh in H.
        destruct (h (gr (rg s) (nr (rg s)))) as [[a cx1]| |] eqn:Ed; cbn [bind done] in H; [|destruct (D _ H)..].
        destruct (estep seqb aeqb C (LSelect t a) (base s)) as [b|] eqn:Ee; [|destruct (D _ H)].
        injection H as <-. cbn [rg aset adv nr gr gi]. repeat split; auto. intros f Hf.
        change (dview (redraw G s f) n) with (dview s n). rewrite Eh. cbn [with_draws gr nr].
        rewrite (Hf (nr (rg s))) by (cbn; lia). cbn [rg aset adv gr]. rewrite Ed. cbn [bind done]. rewrite Ee. reflexivity.
      * destruct (estep seqb aeqb C (LRun t) (base s)) as [b|]; [|discriminate].
        destruct (Sm _ _ _ _ _ H) as [HP HS]. repeat split; try apply HP. intros f _. exact (HS f).
    + destruct (nth_error (ch (mem (base s))) c) as [n|]; [|destruct (D _ H)].
      destruct (nth_error (xcs s) c) as [x|]; [|destruct (D _ H)].
      destruct (od_sam Od (visit_c n) x cx) as (h & Eh). rewrite Eh in H.
      destruct (h (gr (rg s) (nr (rg s)))) as [[o cx1]| |] eqn:Ed; cbn [bind done] in H; [|destruct (D _ H)..].
      destruct (estep seqb aeqb C (LSample t o) (base s)) as [b|] eqn:Ee; [|destruct (D _ H)].
      injection H as <-. cbn [rg aset adv nr gr gi]. repeat split; auto. intros f Hf. rewrite Eh. cbn [with_draws gr nr].
      rewrite (Hf (nr (rg s))) by (cbn; lia). cbn [rg aset adv gr]. rewrite Ed. cbn [bind done]. rewrite Ee. reflexivity.
    + destruct (estep seqb aeqb C (LRun t) (base s)) as [b|]; [|discriminate].
      destruct nodes as [|[d c] nodes]; [destruct (Sm _ _ _ _ _ H) as [HP HS]; repeat split; try apply HP; intros f _; exact (HS f)|].
      destruct before as [|r before]; [destruct (Sm _ _ _ _ _ H) as [HP HS]; repeat split; try apply HP; intros f _; exact (HS f)|].
      destruct (nth_error (ch (mem (base s))) c) as [n|]; [|destruct (D _ H)].
      destruct (nth_error (xcs s) c) as [x|]; [|destruct (D _ H)].
      change (cview (redraw G s ?f) n) with (cview s n).
      destruct (peek_c G (cview s n) cx) as [cx1|]; [destruct (Sm _ _ _ _ _ H) as [HP HS]; repeat split; try apply HP; intros f _; exact (HS f)|].
      destruct (back_c G n x (cview s n) cx _) as [x1| |]; cbn [done] in *; [|destruct (D _ H)..].
      destruct (Sm _ _ _ _ _ H) as [HP HS]; repeat split; try apply HP; intros f _; exact (HS f).
    + destruct (estep seqb aeqb C (LRun t) (base s)) as [b|]; [|discriminate].
      destruct (nth_error (dh (mem (base s))) d) as [n|]; [|destruct (D _ H)].
      destruct (nth_error (xds s) d) as [x|]; [|destruct (D _ H)].
      change (dview (redraw G s ?f) n) with (dview s n).
      destruct (peek_d G (dview s n) cx) as [cx1|]; [destruct (Sm _ _ _ _ _ H) as [HP HS]; repeat split; try apply HP; intros f _; exact (HS f)|].
      destruct (back_d G n x (dview s n) cx _) as [x1| |]; cbn [done] in *; [|destruct (D _ H)..].
      destruct (Sm _ _ _ _ _ H) as [HP HS]; repeat split; try apply HP; intros f _; exact (HS f).
Qed.

Lemma failed_stuck : forall ls s s', arun ls s = Some s' -> afail s' = None -> afail s = None.
Proof using Type.
  intros [|l ls] s s' H F; cbn [AlgoModel.arun] in H; [now injection H as ->|].
  destruct (afail s) eqn:E; auto. unfold AlgoModel.astep in H. rewrite E in H. discriminate.
Qed.

Lemma run_redraw : forall ls s s1, arun ls s = Some s1 -> afail s1 = None ->
  (nr (rg s) <= nr (rg s1))%nat /\ gr (rg s1) = gr (rg s) /\ gi (rg s1) = gi (rg s) /\
  forall f, same_past G s1 f -> arun ls (redraw G s f) = Some (redraw G s1 f).
Proof using Od.
  induction ls as [|l ls IH]; intros s s1 H F; cbn [AlgoModel.arun] in H |- *.
  - injection H as ->. auto.
  - destruct (astep l s) as [s2|] eqn:E; [|discriminate].
    destruct (IH _ _ H F) as (N2 & G2 & I2 & R2). pose proof (failed_stuck _ _ _ H F) as F2.
    destruct (step_redraw _ _ _ E F2) as (N1 & G1 & I1 & R1). split; [lia|]. split; [congruence|]. split; [congruence|].
    intros f Hf. rewrite R1; [now apply R2|]. intros i Hi. rewrite (Hf i ltac:(lia)). congruence.
Qed.

Lemma reach_redraw : forall n g s f, areach n g s -> afail s = None -> same_past G s f ->
  areach n (with_draws g f) (redraw G s f) /\ gr (rg s) = gr g /\ gi (rg s) = gi g.
Proof using Od.
  intros n g s f [ls H] F Hf. destruct (run_redraw _ _ _ H F) as (_ & E1 & E2 & R). split; auto. exists ls.
  change (ainit C G n (with_draws g f)) with (redraw G (ainit C G n g) f). auto.
Qed.
End Redraw.

(** ** Following a route *)
Section Follow.
Context {S A : Type}.
Variable seqb : S -> S -> bool.
Variable aeqb : A -> A -> bool.
Hypothesis seqb_ok : decides seqb.
Hypothesis aeqb_ok : decides aeqb.
Variable C : @econf S A.
Variable G : @algo S A.
Notation dnode := (@dnode S A).
Notation cnode := (@cnode S A).
Notation astep := (astep seqb aeqb C G).
Notation arun := (arun seqb aeqb C G).
Notation areach := (areach seqb aeqb C G).
Notation dchild := (dchild aeqb).
Notation cchild := (cchild seqb).
Hypothesis Od : one_draw G.

Lemma fail_draws : forall l s s1, astep l s = Some s1 -> afail s1 <> None -> rg s1 = rg s.
Proof using Type.
  intros l s s1 H F. unfold AlgoModel.astep, done in H.
  repeat match type of H with context [match ?e with _ => _ end] => destruct e eqn:?; try discriminate end;
    injection H as <-; cbn [rg adie afail aset] in *; try reflexivity; congruence.
Qed.
Lemma nr_mono : forall l s s1, astep l s = Some s1 -> (nr (rg s) <= nr (rg s1))%nat.
Proof using Od.
  intros l s s1 H. destruct (afail s1) eqn:F.
  - rewrite (fail_draws _ _ _ H) by congruence. auto.
  - exact (proj1 (step_redraw seqb aeqb C G Od _ _ _ H F)).
Qed.

(** The engine's side of the two steps of a worker that goes down one level. *)
Lemma down_engine : forall n (e : @est S A) t cur flag nodes rewards m a o, ereach seqb aeqb C n e ->
  nth_error (ths e) t = Some (TSel cur flag nodes rewards) -> nth_error (dh (mem e)) cur = Some m ->
  should_continue C m flag = true -> In a (acts C (dstate m)) -> In o (succs C (dstate m) a) ->
  exists e1 c, estep seqb aeqb C (LSelect t a) e = Some e1 /\
    ths e1 = upd (ths e) t (TChance cur a c flag nodes rewards) /\ count is_start (etrace e1) = count is_start (etrace e) /\
    exists x, nth_error (ch (mem e1)) c = Some x /\ cstate x = dstate m /\ cact x = a /\
    exists e2 d flag2 nodes2 rewards2, estep seqb aeqb C (LSample t o) e1 = Some e2 /\
      ths e2 = upd (ths e1) t (TSel d flag2 nodes2 rewards2) /\ count is_start (etrace e2) = count is_start (etrace e1) /\
      dchild (mem e2) cur a c /\ cchild (mem e2) c o d /\
      (forall c' d', dchild (mem e) cur a c' -> cchild (mem e) c' o d' -> flag2 = flag /\ c' = c /\ d' = d).
Proof using seqb_ok aeqb_ok.
  intros n e t cur flag nodes rewards m a o R Ht Hm Hc Ia Io.
  pose proof (ereach_good seqb aeqb seqb_ok aeqb_ok C _ _ R) as Gd.
  assert (E1 : exists e1, estep seqb aeqb C (LSelect t a) e = Some e1).
  { cbn [estep]. rewrite Ht, Hm, Hc. rewrite (proj2 (existsb_exists (aeqb a) _)) by (exists a; split; auto; now apply aeqb_ok).
    cbn [andb]. unfold out. repeat match goal with |- context [match ?e with _ => _ end] => destruct e end; eauto. }
  destruct E1 as (e1 & E1). pose proof (estep_gstep seqb aeqb seqb_ok aeqb_ok C _ _ _ (proj2 Gd) E1) as G1.
  pose proof (good_step seqb aeqb seqb_ok aeqb_ok C _ _ Gd G1) as Gd1.
  assert (X1 : extends_tree seqb aeqb (mem e) (mem e1)) by (apply (mstep_ext _ _ C); now apply gstep_mstep).
  assert (Ths : exists c, ths e1 = upd (ths e) t (TChance cur a c flag nodes rewards) /\ count is_start (etrace e1) = count is_start (etrace e) /\ dchild (mem e1) cur a c).
  { cbn [estep] in E1. rewrite Ht, Hm, Hc in E1. destruct (existsb (aeqb a) (acts C (dstate m))); [|discriminate]. cbn [andb] in E1.
    unfold create_child_d in E1. cbn [visit_d dkids dstate ddepth dtime] in E1.
    destruct (lookup aeqb a (dkids m)) as [c|] eqn:Hl; cbn [dh ch tt] in E1; rewrite (nth_upd_eq _ _ _ _ _ Hm) in E1; cbn [add_dkid visit_d dkids] in E1.
    - rewrite Hl in E1. injection E1 as <-. exists c. split; [reflexivity|]. split; [cbn [etrace]; rewrite ?count_cons; reflexivity|].
      apply (xt_dchild _ _ _ _ X1). exists m. auto.
    - rewrite lookup_snoc_eq in E1 by auto. injection E1 as <-. eexists. split; [reflexivity|]. split; [cbn [etrace]; rewrite ?count_cons; reflexivity|].
      eexists. cbn [mem dh]. split; [eapply nth_upd_eq; eauto|]. cbn. now apply lookup_snoc_eq. }
  destruct Ths as (c & T1 & S1 & D1). exists e1, c. split; auto. split; auto. split; auto.
  destruct D1 as (m1 & Hm1 & L1). pose proof (ti_wf _ _ _ _ (proj1 Gd1)) as W1.
  destruct (wf_d _ _ _ _ W1 _ _ _ _ Hm1 L1) as (x & Hx & Es & _ & _ & Ea & _).
  destruct (xt_d _ _ _ _ X1 _ _ Hm) as (m1' & Hm1' & Em & _). rewrite Hm1 in Hm1'. injection Hm1' as <-.
  exists x. split; auto. split; [congruence|]. split; auto.
  assert (Ht1 : nth_error (ths e1) t = Some (TChance cur a c flag nodes rewards)) by (rewrite T1; eapply nth_upd_eq; eauto).
  assert (E2 : exists e2, estep seqb aeqb C (LSample t o) e1 = Some e2).
  { cbn [estep]. rewrite Ht1, Hx, Hm1.
    rewrite (proj2 (existsb_exists (seqb o) _)) by (exists o; split; [rewrite Es, Ea, Em; auto|now apply seqb_ok]).
    unfold out. repeat match goal with |- context [match ?e with _ => _ end] => destruct e end; eauto. }
  destruct E2 as (e2 & E2). pose proof (estep_gstep seqb aeqb seqb_ok aeqb_ok C _ _ _ (proj2 Gd1) E2) as G2.
  assert (X2 : extends_tree seqb aeqb (mem e1) (mem e2)) by (apply (mstep_ext _ _ C); now apply gstep_mstep).
  assert (Q : exists d flag2 nodes2 rewards2, ths e2 = upd (ths e1) t (TSel d flag2 nodes2 rewards2) /\
    count is_start (etrace e2) = count is_start (etrace e1) /\ cchild (mem e2) c o d /\
    (lookup seqb o (ckids x) <> None -> flag2 = flag)).
  { assert (Sf1 := proj2 Gd1). cbn [estep] in E2. rewrite Ht1, Hx, Hm1 in E2. destruct (existsb (seqb o) (succs C (cstate x) (cact x))); [|discriminate].
    unfold create_child_c in E2. cbn [visit_c ckids cstate cdepth ctime] in E2.
    destruct (lookup seqb o (ckids x)) as [d|] eqn:Hl.
    - cbn [ch] in E2. rewrite (nth_upd_eq _ _ _ _ _ Hx) in E2. cbn [visit_c ckids] in E2. rewrite Hl, Nat.ltb_irrefl in E2. injection E2 as <-.
      exists d, flag. eexists _, _. split; [reflexivity|]. split; [cbn [etrace]; rewrite ?count_cons; reflexivity|]. split; auto.
      apply (xt_cchild _ _ _ _ X2). exists x. auto.
    - assert (Lt : forall d : nat, Nat.ltb (length (ckids x)) (length (ckids x ++ [(o, d)])) = true).
      { intros d. rewrite app_length. cbn. apply Nat.ltb_lt. lia. }
      destruct (use_tt C); [destruct (lookup (id_eqb seqb) (ctime x, o) (tt (mem e1))) as [d|]|];
        cbn [ch] in E2; rewrite (nth_upd_eq _ _ _ _ _ Hx) in E2; cbn [add_ckid visit_c ckids] in E2;
        rewrite lookup_snoc_eq, Lt in E2 by auto; injection E2 as <-; eexists _, _, _, _; (split; [reflexivity|]);
        (split; [cbn [etrace]; rewrite ?count_cons; reflexivity|]); (split; [|congruence]);
        eexists; cbn [mem ch]; (split; [eapply nth_upd_eq; eauto|]); cbn; now apply lookup_snoc_eq. }
  destruct Q as (d & flag2 & nodes2 & rewards2 & T2 & S2 & D2 & Fl). exists e2, d, flag2, nodes2, rewards2.
  split; auto. split; auto. split; auto. split; [apply (xt_dchild _ _ _ _ X2); exists m1; auto|]. split; auto.
  intros c' d' Dc' Cc'. apply (xt_dchild _ _ _ _ X1) in Dc'. destruct Dc' as (m2 & Hm2 & L2). rewrite Hm1 in Hm2. injection Hm2 as <-.
  rewrite L1 in L2. injection L2 as <-. apply (xt_cchild _ _ _ _ X1) in Cc'. destruct Cc' as (x' & Hx' & L'). rewrite Hx in Hx'. injection Hx' as <-.
  split; [apply Fl; congruence|]. split; auto.
  assert (Cc2 : cchild (mem e2) c o d') by (apply (xt_cchild _ _ _ _ X2); exists x; auto).
  destruct Cc2 as (y & Hy & Ly), D2 as (y2 & Hy2 & Ly2). rewrite Hy in Hy2. injection Hy2 as <-. congruence.
Qed.
End Follow.
