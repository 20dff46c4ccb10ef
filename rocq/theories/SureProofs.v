(** Where actions have certain outcomes values become exact from the bottom up, with or without the transposition table. *)
From Coq Require Import List ZArith Bool Reals Lia Lra.
From Verif Require Import Base BaseProofs NumOps RLemmas HelperModel HelperSpec EngineModel EngineSpec EngineProofs EngineInv EngineCount EngineResults EngineMade MapModel MapProofs
  AlgoModel AlgoProofs AlgoTheorems AlgoNodes UctModel MentsModel SoftSpec MentsSpec TentsSpec TreeSpec WorldSpec WorldProofs SureSpec.
Import ListNotations.
Open Scope R_scope.

Section Sure.
Context {S A : Type}.
Variable seqb : S -> S -> bool.
Variable aeqb : A -> A -> bool.
Hypothesis seqb_ok : decides seqb.
Hypothesis aeqb_ok : decides aeqb.
Variable C : @econf S A.
Variable M : @mconf S A.
Hypothesis Env : env_ok C M.
Hypothesis Mok : ments_ok C M.
Hypothesis Det : deterministic C M.
Variable rule : list A -> (A -> R) -> R -> Prop.
Hypothesis Lip : rule_lip rule.
Variable V : nat -> S -> Z -> R.
Hypothesis Sv : solves C M rule V.
Variable G : @algo S A.
Variable vd : XD G -> R.
Variable vc : XC G -> R.
(** Decision nodes that count as a sample; chance nodes that were backed up. *)
Variable Fx : XD G -> Prop.
Variable Qx : XC G -> Prop.
(** Chance nodes whose counts are not negative. *)
Variable Px : XC G -> Prop.
Notation dnode := (@dnode S A).
Notation cnode := (@cnode S A).
Notation dchild := (dchild aeqb).
Notation cchild := (cchild seqb).
Notation atr := (atr seqb aeqb C G).
Notation agood := (agood seqb aeqb C G).

Record sure_part : Prop := mkSure {
  U_new : forall s k t, vd (new_xd G (new_dnode C s k t)) = dheur (new_dnode C s k t);
  U_vis : forall b x, vd (vis_d G b x) = vd x;
  U_fvis : forall b x, Fx x -> Fx (vis_d G b x);
  U_fback : forall n x kids cx b x1, back_d G n x kids cx b = Ok x1 -> Fx x -> Fx x1;
  U_pback : forall n x kids cx b x1, back_c G n x kids cx b = Ok x1 -> Px x -> Px x1;
  U_backc : forall n x o d y cx b x1, Fx y -> Px x -> back_c G n x [(o, (d, y))] cx b = Ok x1 ->
    vc x1 = mreward M (cstate n) (cact n) + vd y /\ Qx x1;
  U_backd : forall n x kids cx b x1 q, back_d G n x kids cx b = Ok x1 -> is_sink C (dstate n) = false -> NoDup (map fst kids) ->
    (forall a, In a (acts C (dstate n)) <-> In a (map fst kids)) ->
    (forall a c y, In (a, (c, y)) kids -> Qx y /\ q a = to_mover M (dtime n) (vc y)) ->
    rule (acts C (dstate n)) q (to_mover M (dtime n) (vd x1))
}.
Hypothesis Up : sure_part.

(** Every node there can be is there, and every child counts as a sample. *)
Definition full (s : ast G) : Prop :=
  explored aeqb C (mem (base s)) /\ (forall c x, nth_error (ch (mem (base s))) c = Some x -> ckids x <> []) /\
  (forall c x o d y, nth_error (ch (mem (base s))) c = Some x -> In (o, d) (ckids x) -> nth_error (xds s) d = Some y -> Fx y) /\
  forall c y, nth_error (xcs s) c = Some y -> Px y.
Definition same_d (n n' : dnode) : Prop := dstate n' = dstate n /\ ddepth n' = ddepth n /\ dtime n' = dtime n /\ dkids n' = dkids n.
Definition same_c (n n' : cnode) : Prop := cstate n' = cstate n /\ cact n' = cact n /\ cdepth n' = cdepth n /\ ctime n' = ctime n /\ ckids n' = ckids n.
Definition frame (s s' : ast G) : Prop :=
  (forall d n', nth_error (dh (mem (base s'))) d = Some n' -> exists n, nth_error (dh (mem (base s))) d = Some n /\ same_d n n') /\
  (forall c n', nth_error (ch (mem (base s'))) c = Some n' -> exists n, nth_error (ch (mem (base s))) c = Some n /\ same_c n n').
Definition at_d (s : ast G) (d : nat) : Prop :=
  exists t nodes b a ta to, nth_error (ths (base s)) t = Some (TBackD d nodes b a ta to).
Definition backs (s : ast G) (c : nat) : Z := count (backs_c c) (etrace (base s)).

Lemma same_d_refl : forall n, same_d n n.
Proof using Type. intros n. repeat split. Qed.
Lemma same_c_refl : forall n, same_c n n.
Proof using Type. intros n. repeat split. Qed.
Lemma frame_refl : forall s s' : ast G, mem (base s') = mem (base s) -> frame s s'.
Proof using Type. intros s s' E. unfold frame. rewrite E. split; intros i n H; exists n; split; auto; repeat split. Qed.

(** The only child of a chance node. *)
Lemma only_kid : forall s c x, agood s -> full s -> nth_error (ch (mem (base s))) c = Some x ->
  exists o d n, ckids x = [(o, d)] /\ mdistr M (cstate x) (cact x) = [(o, 1)] /\ succs C (cstate x) (cact x) = [o] /\
    nth_error (dh (mem (base s))) d = Some n /\ dstate n = o /\ ddepth n = (cdepth x + 1)%Z /\ dtime n = (ctime x + 1)%Z.
Proof using seqb_ok aeqb_ok Env Mok Det.
  intros s c x I (_ & Nk & _) Hc. pose proof I as [[Ti _] _ _ _ _]. pose proof (ti_wf _ _ _ _ Ti) as W.
  destruct (wf_reachC _ _ _ _ W c x Hc) as [d0 a c Rd Ch]. destruct Ch as (nd & Hd & Ld).
  destruct (wf_d _ _ _ _ W d0 nd a c Hd Ld) as (x' & Hx' & E1 & _ & _ & E2 & Ia & Ns). rewrite Hc in Hx'. injection Hx' as <-.
  assert (Nsk : is_sink C (dstate nd) = false).
  { destruct (is_sink C (dstate nd)) eqn:Es; auto. destruct Ns. now left. }
  destruct (Det (dstate nd) a Nsk Ia) as (o & p & Ed).
  destruct (eo_distr _ _ Env (dstate nd) a Nsk Ia) as [_ T]. rewrite Ed in T. cbn in T. replace p with 1 in Ed by lra.
  assert (Es : succs C (cstate x) (cact x) = [o]) by (rewrite (proj2 Mok), E1, E2, Ed; reflexivity).
  assert (Ks : forall o' d', In (o', d') (ckids x) -> o' = o).
  { intros o' d' J. destruct (wf_c _ _ _ _ W c x o' d' Hc) as (_ & _ & _ & _ & _ & Is).
    { apply (in_lookup _ seqb_ok); auto. exact (wf_ckeys _ _ _ _ W c x Hc). }
    rewrite Es in Is. destruct Is as [<-|[]]. reflexivity. }
  pose proof (wf_ckeys _ _ _ _ W c x Hc) as ND. specialize (Nk c x Hc).
  destruct (ckids x) as [|[o1 d1] l] eqn:Ek; [contradiction|]. assert (o1 = o) by (apply (Ks o1 d1); now left). subst o1.
  destruct l as [|[o2 d2] l].
  2:{ exfalso. assert (o2 = o) by (apply (Ks o2 d2); right; now left). subst o2. cbn in ND. inversion ND as [|? ? N0 _]. apply N0. now left. }
  destruct (wf_c _ _ _ _ W c x o d1 Hc) as (n1 & Hn1 & Q1 & Q2 & Q3 & _).
  { rewrite Ek. cbn. now rewrite (keqb_refl _ seqb_ok). }
  exists o, d1, n1. rewrite E1, E2 in *. auto 10.
Qed.

Lemma upd_same_d : forall (l : list dnode) i n, nth_error l i = Some n -> forall d n', nth_error (upd l i (visit_d n)) d = Some n' ->
  exists n0, nth_error l d = Some n0 /\ same_d n0 n'.
Proof using Type.
  intros l i n H d n' H'. rewrite (nth_upd _ _ _ _ _ _ H) in H'. destruct (Nat.eqb_spec i d) as [<-|ne].
  - injection H' as <-. exists n. split; auto. repeat split.
  - exists n'. split; auto. apply same_d_refl.
Qed.
Lemma upd_same_c : forall (l : list cnode) i n, nth_error l i = Some n -> forall d n', nth_error (upd l i (visit_c n)) d = Some n' ->
  exists n0, nth_error l d = Some n0 /\ same_c n0 n'.
Proof using Type.
  intros l i n H d n' H'. rewrite (nth_upd _ _ _ _ _ _ H) in H'. destruct (Nat.eqb_spec i d) as [<-|ne].
  - injection H' as <-. exists n. split; auto. repeat split.
  - exists n'. split; auto. apply same_c_refl.
Qed.

Lemma full_frame : forall s s', agood s -> full s -> atr s s' -> frame s s'.
Proof using seqb_ok aeqb_ok Env Mok Det.
  intros s s' I F T. assert (Ds : forall d n', nth_error (dh (mem (base s))) d = Some n' -> exists n, nth_error (dh (mem (base s))) d = Some n /\ same_d n n').
  { intros d n' H. exists n'. split; auto. apply same_d_refl. }
  assert (Cs : forall d n', nth_error (ch (mem (base s))) d = Some n' -> exists n, nth_error (ch (mem (base s))) d = Some n /\ same_c n n').
  { intros d n' H. exists n'. split; auto. apply same_c_refl. }
  destruct T; try (apply frame_refl; reflexivity); unfold frame; cbn [base mem dh ch]; try (split; [|exact Cs]; apply upd_same_d; assumption);
    try (split; [exact Ds|]; apply upd_same_c; assumption).
  - (* a new action *)
    exfalso. destruct (cont_inner seqb aeqb C G s cur n flag I) as (Is & Hd & _); auto.
    refine (proj1 F cur n a _ _ _ _ _); eauto. lia.
  - exfalso. destruct (only_kid s c n I F) as (o' & d' & n' & Ek & _ & Es & _); auto.
    rewrite Es in *. match goal with J : In o [o'] |- _ => destruct J as [<-|[]] end.
    match goal with J : lookup seqb _ (ckids n) = None |- _ => rewrite Ek in J; cbn in J; rewrite (keqb_refl _ seqb_ok) in J; discriminate end.
  - exfalso. destruct (only_kid s c n I F) as (o' & d' & n' & Ek & _ & Es & _); auto.
    rewrite Es in *. match goal with J : In o [o'] |- _ => destruct J as [<-|[]] end.
    match goal with J : lookup seqb _ (ckids n) = None |- _ => rewrite Ek in J; cbn in J; rewrite (keqb_refl _ seqb_ok) in J; discriminate end.
Qed.

(** What a step does to values. *)
Inductive effect (s s' : ast G) : Prop :=
| e_none : (forall d x', nth_error (xds s') d = Some x' -> exists x, nth_error (xds s) d = Some x /\ vd x' = vd x /\ (Fx x -> Fx x')) ->
    xcs s' = xcs s -> (forall c, backs s' c = backs s c) -> (forall d, at_d s d -> at_d s' d) -> effect s s'
| e_backc : forall d a c n x cx b x1, dchild (mem (base s)) d a c -> nth_error (ch (mem (base s))) c = Some n -> nth_error (xcs s) c = Some x ->
    back_c G n x (cview s n) cx b = Ok x1 -> xds s' = xds s -> xcs s' = upd (xcs s) c x1 ->
    (forall c', c' <> c -> backs s' c' = backs s c') -> (backs s c < backs s' c)%Z -> at_d s' d -> (forall d', at_d s d' -> at_d s' d') -> effect s s'
| e_backd : forall d a c n x cx b x1, dchild (mem (base s)) d a c -> nth_error (dh (mem (base s))) d = Some n -> nth_error (xds s) d = Some x ->
    back_d G n x (dview s n) cx b = Ok x1 -> xds s' = upd (xds s) d x1 -> xcs s' = xcs s ->
    (forall c', backs s' c' = backs s c') -> (forall d', d' <> d -> at_d s d' -> at_d s' d') -> effect s s'.

Lemma triv_rules : node_rules C G (fun _ _ => True) (fun _ _ => True) (fun _ _ => True) (fun _ _ => True).
Proof using Type. constructor; intros; auto. Qed.
Lemma keep_at : forall (s s' : ast G) t x0 x', nth_error (ths (base s)) t = Some x0 -> ths (base s') = upd (ths (base s)) t x' ->
  match x0 with TBackD _ _ _ _ _ _ => False | _ => True end -> forall d, at_d s d -> at_d s' d.
Proof using Type.
  intros s s' t x0 x' H E K d (t1 & nodes & b & a & ta & to & H1). exists t1, nodes, b, a, ta, to. rewrite E, (nth_upd _ _ _ _ _ _ H).
  destruct (Nat.eqb_spec t t1) as [<-|ne]; auto. rewrite H in H1. injection H1 as ->. destruct K.
Qed.
Lemma upd_vals : forall (l : list (XD G)) i x y, nth_error l i = Some x -> vd y = vd x -> (Fx x -> Fx y) ->
  forall d x', nth_error (upd l i y) d = Some x' -> exists x0, nth_error l d = Some x0 /\ vd x' = vd x0 /\ (Fx x0 -> Fx x').
Proof using Type.
  intros l i x y H E K d x' H'. rewrite (nth_upd _ _ _ _ _ _ H) in H'. destruct (Nat.eqb_spec i d) as [<-|ne].
  - injection H' as <-. exists x. auto.
  - exists x'. auto.
Qed.
Lemma effects : forall s s', agood s -> nodes_ok aeqb C G (fun _ _ => True) (fun _ _ => True) (fun _ _ => True) (fun _ _ => True) s -> full s -> atr s s' -> effect s s'.
Proof using All.
  intros s s' I No F T. pose proof (full_frame s s' I F T) as Fr.
  assert (Vs : forall d x', nth_error (xds s) d = Some x' -> exists x, nth_error (xds s) d = Some x /\ vd x' = vd x /\ (Fx x -> Fx x')) by (intros d x' H; exists x'; auto).
  destruct T.
  - apply e_none; auto. eapply keep_at; eauto; try reflexivity; exact Logic.I.
  - apply e_none; auto; [|eapply keep_at; eauto; try reflexivity; exact Logic.I]. cbn [xds]. eapply upd_vals; eauto; [apply Up|apply (U_fvis Up)].
  - exfalso. destruct Fr as [Fr _]. cbn [base mem dh] in Fr. destruct (Fr cur (add_dkid (visit_d n) a c)) as (n0 & Hn0 & _ & _ & _ & Ek).
    { eapply nth_upd_eq; eauto. }
    assert (n0 = n) by congruence. subst n0. cbn in Ek. apply (f_equal (@length _)) in Ek. rewrite app_length in Ek. cbn in Ek. lia.
  - apply e_none; auto. eapply keep_at; eauto; try reflexivity; exact Logic.I.
  - apply e_none; auto. eapply keep_at; eauto; try reflexivity; exact Logic.I.
  - exfalso. destruct Fr as [Fr _]. cbn [base mem dh] in Fr. destruct (Fr d (new_dnode C o (cdepth n + 1) (ctime n + 1))) as (n0 & Hn0 & _).
    { rewrite nth_error_app2 by (unfold d; lia). unfold d. now rewrite Nat.sub_diag. }
    assert (d < length (dh (mem (base s))))%nat by (apply nth_error_Some; congruence). unfold d in *. lia.
  - apply e_none; auto; [|eapply keep_at; eauto; try reflexivity; exact Logic.I]. cbn [xds]. eapply upd_vals; eauto; [apply Up|apply (U_fvis Up)].
  - pose proof (no_t _ _ _ _ _ _ _ _ No _ _ _ H H2) as To. cbn [thread_ok] in To. destruct To as (l & l' & Ao & _). inversion Ao as [|? ? ? a ? ? Dc]; subst.
    eapply (e_backc s _ d a c n x); eauto; try reflexivity.
    + intros c' ne. unfold backs. cbn [base etrace]. unfold count, countb. cbn. destruct (Nat.eqb_spec c c'); [congruence|]. reflexivity.
    + unfold backs. cbn [base etrace]. unfold count, countb. cbn. rewrite Nat.eqb_refl. cbn. lia.
    + exists t, nodes, before, (r :: after), (tafter + r), total. cbn [base ths]. eapply nth_upd_eq; eauto.
    + eapply keep_at; eauto; try reflexivity; exact Logic.I.
  - pose proof (no_t _ _ _ _ _ _ _ _ No _ _ _ H H2) as To. cbn [thread_ok] in To. destruct To as (l & a & l' & _ & _ & _ & c & _ & _ & Dc & _).
    eapply (e_backd s _ d a c n x); eauto; try reflexivity.
    intros d' ne (t1 & nodes1 & b1 & a1 & ta1 & to1 & H1'). exists t1, nodes1, b1, a1, ta1, to1. cbn [base ths]. rewrite (nth_upd _ _ _ _ _ _ H).
    destruct (Nat.eqb_spec t t1) as [<-|nt]; auto. rewrite H in H1'. injection H1'. congruence.
  - apply e_none; auto.
  - apply e_none; auto.
  - apply e_none; auto. eapply keep_at; eauto; try reflexivity; exact Logic.I.
  - apply e_none; auto.
Qed.

(** ** Exact values *)
Definition worth_c (n : cnode) : R :=
  mreward M (cstate n) (cact n) + expected (fun o => V (Z.to_nat (max_depth C - cdepth n) - 1)%nat o (ctime n + 1)%Z) (mdistr M (cstate n) (cact n)).
Definition ex_d (s : ast G) (d : nat) : Prop := forall n x, nth_error (dh (mem (base s))) d = Some n -> nth_error (xds s) d = Some x ->
  vd x = V (left_at C n) (dstate n) (dtime n).
Definition ex_c (s : ast G) (c : nat) : Prop := forall n x, nth_error (ch (mem (base s))) c = Some n -> nth_error (xcs s) c = Some x ->
  vc x = worth_c n /\ Qx x.
(** Nodes at depth [k] and below have their exact values. *)
Definition exact_below (k : Z) (s : ast G) : Prop :=
  (forall d n, nth_error (dh (mem (base s))) d = Some n -> (k <= ddepth n)%Z -> ex_d s d) /\
  (forall c n, nth_error (ch (mem (base s))) c = Some n -> (k <= cdepth n)%Z -> ex_c s c).

Lemma to_mover_inj : forall t v w, to_mover M t v = to_mover M t w -> v = w.
Proof using Type. intros t v w. unfold to_mover. destruct (mtwo M && Z.odd t); lra. Qed.

Lemma backc_exact : forall s c n x cx b x1, agood s -> full s -> nth_error (ch (mem (base s))) c = Some n -> nth_error (xcs s) c = Some x ->
  back_c G n x (cview s n) cx b = Ok x1 -> (forall o d, In (o, d) (ckids n) -> ex_d s d) -> vc x1 = worth_c n /\ Qx x1.
Proof using All.
  intros s c n x cx b x1 I F Hc Hx B K. destruct (only_kid s c n I F Hc) as (o & d & dn & Ek & Em & _ & Hd & E1 & E2 & E3).
  assert (Hy : exists y, nth_error (xds s) d = Some y).
  { destruct (nth_error (xds s) d) eqn:E; eauto. apply nth_error_None in E. rewrite (ag_d _ _ _ _ s I) in E. apply nth_error_None in E. congruence. }
  destruct Hy as (y & Hy).
  assert (Ev : cview s n = [(o, (dn, y))]) by (unfold cview; rewrite Ek; cbn; rewrite Hd, Hy; reflexivity).
  rewrite Ev in B. destruct F as (_ & _ & Fk & Pk). destruct (U_backc Up _ _ _ _ _ _ _ _ (Fk c n o d y Hc ltac:(rewrite Ek; now left) Hy) (Pk c x Hx) B) as [E Qy].
  split; [|exact Qy]. rewrite E. unfold worth_c. f_equal. rewrite Em. unfold expected, rsum_of. cbn [map rsum fst snd].
  rewrite (K o d ltac:(rewrite Ek; now left) dn y Hd Hy), E1, E3. unfold left_at. rewrite E2.
  replace (Z.to_nat (max_depth C - (cdepth n + 1))) with (Z.to_nat (max_depth C - cdepth n) - 1)%nat by lia. cbn [fold_right]. ring.
Qed.

Lemma backd_exact : forall s d a0 c0 n x cx b x1, agood s -> full s -> dchild (mem (base s)) d a0 c0 ->
  nth_error (dh (mem (base s))) d = Some n -> nth_error (xds s) d = Some x ->
  back_d G n x (dview s n) cx b = Ok x1 -> (forall a c, In (a, c) (dkids n) -> ex_c s c) -> vd x1 = V (left_at C n) (dstate n) (dtime n).
Proof using All.
  intros s d a0 c0 n x cx b x1 I F Dc Hd Hx B K. destruct (edge_inner seqb aeqb aeqb_ok C G s d a0 c0 n I Dc Hd) as (Is & Hdep & _).
  pose proof I as [[Ti _] _ _ _ _]. pose proof (ti_wf _ _ _ _ Ti) as W.
  pose proof (dview_ok seqb aeqb aeqb_ok C G s d n I Hd) as Fv.
  pose proof (dview_keys seqb aeqb aeqb_ok C G s d n I Hd) as Ky.
  assert (El : left_at C n = Datatypes.S (left_at C n - 1)) by (unfold left_at; lia).
  pose proof (so_step _ _ _ _ Sv (left_at C n - 1) (dstate n) (dtime n) Is) as St. rewrite <- El in St.
  apply (to_mover_inj (dtime n)). set (q := fun a => to_mover M (dtime n) (action_worth C M V n a)).
  assert (Ru : rule (acts C (dstate n)) q (to_mover M (dtime n) (vd x1))).
  { apply (U_backd Up n x (dview s n) cx b x1); auto.
    - rewrite Ky. exact (wf_dkeys _ _ _ _ W d n Hd).
    - intros a. rewrite Ky. split.
      + intros Ia. destruct (lookup aeqb a (dkids n)) as [c|] eqn:L.
        * apply lookup_in in L; auto. exact (in_map fst _ _ L).
        * exfalso. refine (proj1 F d n a Hd Is _ Ia L). lia.
      + intros J. apply in_map_iff in J. destruct J as ([a' c] & [= <-] & J).
        destruct (wf_d _ _ _ _ W d n a' c Hd) as (_ & _ & _ & _ & _ & _ & Ia & _); auto. apply in_lookup; auto. exact (wf_dkeys _ _ _ _ W d n Hd).
    - intros a cn y J.
      assert (H : exists i, In (a, i) (dkids n) /\ nth_error (ch (mem (base s))) i = Some cn /\ nth_error (xcs s) i = Some y).
      { revert J. clear - Fv. induction Fv as [|p r l l' (H1 & H2 & H3) _ IH]; intros E; [destruct E|]. destruct E as [->|E].
        - cbn in *. exists (snd p). split; [left; destruct p; cbn in *; congruence|auto].
        - destruct (IH E) as (i & Hi & R). exists i. split; [now right|auto]. }
      destruct H as (i & Hi & Hc & Hy). destruct (K a i Hi cn y Hc Hy) as [Ev Qy]. split; [exact Qy|]. unfold q. rewrite Ev. f_equal.
      destruct (wf_d _ _ _ _ W d n a i Hd) as (cn' & Hc' & Q1 & Q2 & Q3 & Q4 & _); [apply in_lookup; auto; exact (wf_dkeys _ _ _ _ W d n Hd)|].
      assert (cn' = cn) by congruence. subst cn'. unfold action_worth, worth_c, left_at. now rewrite Q1, Q2, Q3, Q4. }
  assert (Ne : acts C (dstate n) <> []) by (apply (eo_acts _ _ Env); exact Is).
  pose proof (Lip _ _ _ _ _ 0 Ne Ru St) as L. assert (Z0 : Rabs (to_mover M (dtime n) (vd x1) - to_mover M (dtime n) (V (left_at C n) (dstate n) (dtime n))) <= 0).
  { apply L. intros a _. unfold q, action_worth. rewrite Rminus_diag_eq by reflexivity. rewrite Rabs_R0. lra. }
  pose proof (Rabs_pos (to_mover M (dtime n) (vd x1) - to_mover M (dtime n) (V (left_at C n) (dstate n) (dtime n)))) as P.
  destruct (Req_dec (to_mover M (dtime n) (vd x1) - to_mover M (dtime n) (V (left_at C n) (dstate n) (dtime n))) 0) as [E|N]; [lra|].
  apply Rabs_no_R0 in N. lra.
Qed.

Lemma full_step : forall s s', frame s s' -> effect s s' -> full s -> full s'.
Proof using Up.
  intros s s' [Fd Fc] Ef (F1 & F2 & F3 & F4). split; [|split; [|split]].
  - intros d n a Hn Is Hd Ia. destruct (Fd d n Hn) as (n0 & H0 & E1 & E2 & E3 & E4). rewrite E4. apply (F1 d n0 a H0); congruence.
  - intros c x Hx. destruct (Fc c x Hx) as (x0 & H0 & E1 & E2 & E3 & E4 & E5). rewrite E5. eauto.
  - intros c x o d y Hx J Hy. destruct (Fc c x Hx) as (x0 & H0 & E1 & E2 & E3 & E4 & E5). rewrite E5 in J.
    destruct Ef as [Ef _ _ _|? ? ? ? ? ? ? ? _ _ _ _ Ex _ _ _ _ _|d1 a1 c1 n1 x1 cx b x2 _ _ Hx1 B Ex _ _ _].
    + destruct (Ef d y Hy) as (y0 & Hy0 & _ & K). apply K. eauto.
    + rewrite Ex in Hy. eauto.
    + rewrite Ex, (nth_upd _ _ _ _ _ _ Hx1) in Hy. destruct (Nat.eqb_spec d1 d) as [->|ne]; [|eauto]. injection Hy as <-.
      apply (U_fback Up _ _ _ _ _ _ B). eauto.
  - intros c y Hy. destruct Ef as [_ Ex _ _|d1 a1 c1 n1 x1 cx b x2 _ Hn1 Hx1 B _ Ex _ _ _ _|? ? ? ? ? ? ? ? _ _ _ _ _ Ex _ _]; rewrite Ex in Hy; eauto.
    rewrite (nth_upd _ _ _ _ _ _ Hx1) in Hy. destruct (Nat.eqb_spec c1 c) as [->|ne]; [|eauto]. injection Hy as <-. apply (U_pback Up _ _ _ _ _ _ B). eauto.
Qed.

(** Steps keep exact values. *)
Lemma keep_d : forall s s' d, frame s s' -> effect s s' -> (forall a c n x cx b x1, nth_error (dh (mem (base s))) d = Some n -> nth_error (xds s) d = Some x ->
    dchild (mem (base s)) d a c -> back_d G n x (dview s n) cx b = Ok x1 -> vd x1 = V (left_at C n) (dstate n) (dtime n)) -> ex_d s d -> ex_d s' d.
Proof using All.
  intros s s' d [Fd Fc] Ef K E n x Hn Hx. destruct (Fd d n Hn) as (n0 & H0 & E1 & E2 & E3 & E4). unfold left_at. rewrite E1, E2, E3. fold (left_at C n0).
  destruct Ef as [Ef _ _ _|? ? ? ? ? ? ? ? _ _ _ _ Ex _ _ _ _ _|d1 a1 c1 n1 x1 cx b x2 Dc Hn1 Hx1 B Ex _ _ _].
  - destruct (Ef d x Hx) as (y & Hy & -> & _). eauto.
  - rewrite Ex in Hx. eauto.
  - rewrite Ex, (nth_upd _ _ _ _ _ _ Hx1) in Hx. destruct (Nat.eqb_spec d1 d) as [->|ne]; [|eauto]. injection Hx as <-.
    assert (n1 = n0) by congruence. subst n1. eapply K; eauto.
Qed.
Lemma keep_c : forall s s' c, frame s s' -> effect s s' -> (forall n x cx b x1, nth_error (ch (mem (base s))) c = Some n -> nth_error (xcs s) c = Some x ->
    back_c G n x (cview s n) cx b = Ok x1 -> vc x1 = worth_c n /\ Qx x1) -> ex_c s c -> ex_c s' c.
Proof using All.
  intros s s' c [Fd Fc] Ef K E n x Hn Hx. destruct (Fc c n Hn) as (n0 & H0 & E1 & E2 & E3 & E4 & E5). unfold worth_c. rewrite E1, E2, E3, E4. fold (worth_c n0).
  destruct Ef as [_ Ex _ _|d1 a1 c1 n1 x1 cx b x2 _ Hn1 Hx1 B _ Ex _ _ _ _|? ? ? ? ? ? ? ? _ _ _ _ _ Ex _ _].
  - rewrite Ex in Hx. eauto.
  - rewrite Ex, (nth_upd _ _ _ _ _ _ Hx1) in Hx. destruct (Nat.eqb_spec c1 c) as [->|ne]; [|eauto]. injection Hx as <-.
    assert (n1 = n0) by congruence. subst n1. eapply K; eauto.
  - rewrite Ex in Hx. eauto.
Qed.
(** Children of nodes at depth [k] and below are there too. *)
Lemma kids_c : forall s k d n a c, agood s -> exact_below k s -> nth_error (dh (mem (base s))) d = Some n -> (k <= ddepth n)%Z -> In (a, c) (dkids n) -> ex_c s c.
Proof using aeqb_ok.
  intros s k d n a c I [_ Ec] Hd L J. pose proof I as [[Ti _] _ _ _ _]. pose proof (ti_wf _ _ _ _ Ti) as W.
  destruct (wf_d _ _ _ _ W d n a c Hd) as (cn & Hc & _ & Q2 & _); [apply in_lookup; auto; exact (wf_dkeys _ _ _ _ W d n Hd)|].
  apply (Ec c cn Hc). lia.
Qed.
Lemma kids_d : forall s k c n o d, agood s -> exact_below k s -> nth_error (ch (mem (base s))) c = Some n -> (k <= cdepth n + 1)%Z -> In (o, d) (ckids n) -> ex_d s d.
Proof using seqb_ok.
  intros s k c n o d I [Ed _] Hc L J. pose proof I as [[Ti _] _ _ _ _]. pose proof (ti_wf _ _ _ _ Ti) as W.
  destruct (wf_c _ _ _ _ W c n o d Hc) as (dn & Hd & _ & Q2 & _); [apply in_lookup; auto; exact (wf_ckeys _ _ _ _ W c n Hc)|].
  apply (Ed d dn Hd). lia.
Qed.
Lemma below_step : forall k s s', agood s -> full s -> frame s s' -> effect s s' -> exact_below k s -> exact_below k s'.
Proof using All.
  intros k s s' I F Fr Ef E. pose proof Fr as [Fd Fc]. split.
  - intros d n Hd L. destruct (Fd d n Hd) as (n0 & H0 & _ & E2 & _). assert (L0 : (k <= ddepth n0)%Z) by lia.
    apply (keep_d s s' d Fr Ef); [|exact (proj1 E d n0 H0 L0)].
    intros a c n1 x cx b x1 Hn1 Hx Dc B. assert (n1 = n0) by congruence. subst n1.
    apply (backd_exact s d a c n0 x cx b x1 I F Dc H0 Hx B). intros a' c' J. exact (kids_c s k d n0 a' c' I E H0 L0 J).
  - intros c n Hc L. destruct (Fc c n Hc) as (n0 & H0 & _ & _ & E2 & _). assert (L0 : (k <= cdepth n0)%Z) by lia.
    apply (keep_c s s' c Fr Ef); [|exact (proj2 E c n0 H0 L0)].
    intros n1 x cx b x1 Hn1 Hx B. assert (n1 = n0) by congruence. subst n1.
    apply (backc_exact s c n0 x cx b x1 I F H0 Hx B). intros o d J. apply (kids_d s k c n0 o d I E H0); auto. lia.
Qed.

(** ** One round *)
(** [B0 c]: backups of chance node [c] before the round. *)
Definition progress (k : Z) (B0 : nat -> Z) (s : ast G) : Prop :=
  full s /\ exact_below k s /\
  (forall c, (B0 c <= backs s c)%Z) /\
  (forall c n, nth_error (ch (mem (base s))) c = Some n -> cdepth n = (k - 1)%Z -> (B0 c < backs s c)%Z -> ex_c s c) /\
  (forall d n, nth_error (dh (mem (base s))) d = Some n -> ddepth n = (k - 1)%Z -> dkids n <> [] ->
     (forall a c, In (a, c) (dkids n) -> (B0 c < backs s c)%Z) -> ex_d s d \/ at_d s d).

Lemma backs_mono : forall s s' c, effect s s' -> (backs s c <= backs s' c)%Z.
Proof using Type.
  intros s s' c [_ _ K _|d1 a1 c1 n1 x1 cx b x2 _ _ _ _ _ _ K K1 _ _|? ? ? ? ? ? ? ? _ _ _ _ _ _ K _]; [rewrite K; lia| |rewrite K; lia].
  destruct (Nat.eq_dec c c1) as [->|ne]; [lia|rewrite K; auto; lia].
Qed.
Lemma progress_step : forall k B0 s s', agood s -> nodes_ok aeqb C G (fun _ _ => True) (fun _ _ => True) (fun _ _ => True) (fun _ _ => True) s ->
  progress k B0 s -> atr s s' -> progress k B0 s'.
Proof using All.
  intros k B0 s s' I No (F & E & Mo & Kc & Kd) T. pose proof (full_frame s s' I F T) as Fr. pose proof (effects s s' I No F T) as Ef.
  pose proof I as [[Ti _] _ _ _ _]. pose proof (ti_wf _ _ _ _ Ti) as W. pose proof Fr as [Fd Fc].
  assert (Bc : forall c n x cx b x1, nth_error (ch (mem (base s))) c = Some n -> cdepth n = (k - 1)%Z -> nth_error (xcs s) c = Some x ->
    back_c G n x (cview s n) cx b = Ok x1 -> vc x1 = worth_c n /\ Qx x1).
  { intros c n x cx b x1 Hc Ek Hx B. apply (backc_exact s c n x cx b x1 I F Hc Hx B). intros o d J. apply (kids_d s k c n o d I E Hc); auto. lia. }
  split; [exact (full_step s s' Fr Ef F)|]. split; [exact (below_step k s s' I F Fr Ef E)|]. split; [intros c; pose proof (backs_mono s s' c Ef); specialize (Mo c); lia|]. split.
  - intros c n Hc Ek Did. destruct (Fc c n Hc) as (n0 & H0 & E1 & E2 & E3 & E4 & E5). rewrite E3 in Ek.
    destruct (Z_lt_dec (B0 c) (backs s c)) as [D0|D0].
    + apply (keep_c s s' c Fr Ef); [|exact (Kc c n0 H0 Ek D0)]. intros n1 x cx b x1 Hn1 Hx B. assert (n1 = n0) by congruence. subst n1. eapply Bc; eauto.
    + destruct Ef as [_ _ K _|d1 a1 c1 n1 x1 cx b x2 _ Hn1 Hx1 B _ Ex K _ _ _|? ? ? ? ? ? ? ? _ _ _ _ _ _ K _]; [rewrite K in Did; lia| |rewrite K in Did; lia].
      destruct (Nat.eq_dec c c1) as [->|ne]; [|rewrite K in Did by auto; lia]. assert (n1 = n0) by congruence. subst n1.
      intros n' x Hn' Hx. rewrite Ex, (nth_upd _ _ _ _ _ _ Hx1), Nat.eqb_refl in Hx. injection Hx as <-. assert (n' = n) by congruence. subst n'.
      unfold worth_c. rewrite E1, E2, E3, E4. fold (worth_c n0). eapply Bc; eauto.
  - intros d n Hd Ek NE Did. destruct (Fd d n Hd) as (n0 & H0 & E1 & E2 & E3 & E4). rewrite E2 in Ek. rewrite E4 in NE, Did.
    assert (Ed : forall a c, In (a, c) (dkids n0) -> dchild (mem (base s)) d a c).
    { intros a c J. exists n0. split; auto. apply in_lookup; auto. exact (wf_dkeys _ _ _ _ W d n0 H0). }
    assert (Old : (forall a c, In (a, c) (dkids n0) -> (B0 c < backs s c)%Z) -> forall a c, In (a, c) (dkids n0) -> ex_c s c).
    { intros D a c J. destruct (wf_d _ _ _ _ W d n0 a c H0) as (cn & Hc & _ & Q2 & _); [apply in_lookup; auto; exact (wf_dkeys _ _ _ _ W d n0 H0)|].
      apply (Kc c cn Hc); [lia|eauto]. }
    assert (Bd : (forall a c, In (a, c) (dkids n0) -> (B0 c < backs s c)%Z) -> forall a c n1 x cx b x1, nth_error (dh (mem (base s))) d = Some n1 -> nth_error (xds s) d = Some x ->
      dchild (mem (base s)) d a c -> back_d G n1 x (dview s n1) cx b = Ok x1 -> vd x1 = V (left_at C n1) (dstate n1) (dtime n1)).
    { intros D a c n1 x cx b x1 Hn1 Hx Dc B. assert (n1 = n0) by congruence. subst n1. exact (backd_exact s d a c n0 x cx b x1 I F Dc H0 Hx B (Old D)). }
    pose proof Ef as Ef0.
    destruct Ef as [_ _ K Ka|d1 a1 c1 n1 x1 cx b x2 Dc Hn1 Hx1 B _ _ K _ Ka1 Ka|d1 a1 c1 n1 x1 cx b x2 Dc Hn1 Hx1 B Ex _ K Ka].
    + assert (D : forall a c, In (a, c) (dkids n0) -> (B0 c < backs s c)%Z) by (intros a c J; rewrite <- K; eauto).
      destruct (Kd d n0 H0 Ek NE D) as [X|X]; [left; exact (keep_d s s' d Fr Ef0 (Bd D) X)|right; auto].
    + destruct (Nat.eq_dec d d1) as [->|ne]; [now right|].
      assert (D : forall a c, In (a, c) (dkids n0) -> (B0 c < backs s c)%Z).
      { intros a c J. rewrite <- K; [eauto|]. intros ->. apply ne. exact (proj1 (ti_cparent _ _ _ _ Ti _ _ _ _ _ (Ed a c1 J) Dc)). }
      destruct (Kd d n0 H0 Ek NE D) as [X|X]; [left; exact (keep_d s s' d Fr Ef0 (Bd D) X)|right; auto].
    + assert (D : forall a c, In (a, c) (dkids n0) -> (B0 c < backs s c)%Z) by (intros a c J; rewrite <- K; eauto).
      destruct (Nat.eq_dec d d1) as [->|ne].
      * left. intros n' x Hn' Hx. rewrite Ex, (nth_upd _ _ _ _ _ _ Hx1), Nat.eqb_refl in Hx. injection Hx as <-. assert (n' = n) by congruence. subst n'.
        unfold left_at. rewrite E1, E2, E3. fold (left_at C n0). assert (n1 = n0) by congruence. subst n1. exact (Bd D a1 c1 n0 x1 cx b x2 H0 Hx1 Dc B).
      * destruct (Kd d n0 H0 Ek NE D) as [X|X]; [left; exact (keep_d s s' d Fr Ef0 (Bd D) X)|right; auto].
Qed.

(** ** Runs *)
Notation triv := (nodes_ok aeqb C G (fun _ _ => True) (fun _ _ => True) (fun _ _ => True) (fun _ _ => True)).
Lemma triv_reach : forall n g s, areach seqb aeqb C G n g s -> triv s.
Proof using seqb_ok aeqb_ok. intros n g s R. exact (nodes_reach seqb aeqb seqb_ok aeqb_ok C G _ _ _ _ triv_rules n g s R). Qed.
Lemma run_keeps : forall (P : ast G -> Prop), (forall s s', agood s -> triv s -> P s -> atr s s' -> P s') ->
  forall n g s ls s', areach seqb aeqb C G n g s -> P s -> arun seqb aeqb C G ls s = Some s' -> P s'.
Proof using seqb_ok aeqb_ok.
  intros P St n g s ls s' R H Ru. pose proof (areach_good seqb aeqb seqb_ok aeqb_ok C G n g s R) as I.
  destruct (arun_inv seqb aeqb seqb_ok aeqb_ok C G (fun s => triv s /\ P s) s I (conj (triv_reach n g s R) H)) with (ls := ls) (s := s') as [[_ K] _]; auto.
  intros s1 s2 I1 [T1 P1] T. split; [|eauto]. exact (nodes_step seqb aeqb seqb_ok aeqb_ok C G _ _ _ _ triv_rules s1 s2 I1 T1 T).
Qed.
Lemma reach_on : forall n g s ls s', areach seqb aeqb C G n g s -> arun seqb aeqb C G ls s = Some s' -> areach seqb aeqb C G n g s'.
Proof using Type. intros n g s ls s' [ks H] Ru. exists (ks ++ ls). now rewrite (AlgoFinish.arun_app seqb aeqb C G ks ls _ _ H). Qed.

(** Leaves keep their first value. *)
Definition leaves (s : ast G) : Prop := forall d n x, nth_error (dh (mem (base s))) d = Some n -> nth_error (xds s) d = Some x -> is_leaf C n = true -> vd x = dheur n.
Lemma leaf_upd : forall (dl : list dnode) (xl : list (XD G)) cur n x n1 x1,
  (forall d n x, nth_error dl d = Some n -> nth_error xl d = Some x -> is_leaf C n = true -> vd x = dheur n) ->
  nth_error dl cur = Some n -> nth_error xl cur = Some x -> (is_leaf C n1 = true -> vd x1 = dheur n1) ->
  forall d n x, nth_error (upd dl cur n1) d = Some n -> nth_error (upd xl cur x1) d = Some x -> is_leaf C n = true -> vd x = dheur n.
Proof using Type.
  intros dl xl cur n x n1 x1 L Hn Hx K d n' x' Hn' Hx'. rewrite (nth_upd _ _ _ _ _ _ Hn) in Hn'. rewrite (nth_upd _ _ _ _ _ _ Hx) in Hx'.
  destruct (Nat.eqb cur d); [injection Hn' as <-; injection Hx' as <-; exact K|eauto].
Qed.
Lemma leaves_reach : forall n g s, areach seqb aeqb C G n g s -> leaves s.
Proof using seqb_ok aeqb_ok Up.
  intros n0 g. apply (areach_ind' seqb aeqb seqb_ok aeqb_ok C G n0 g).
  - intros [|d] n x; cbn; [|destruct d; discriminate]. intros [= <-] [= <-] _. apply (U_new Up).
  - intros s s' R I _ L T. pose proof (triv_reach n0 g s R) as No. destruct T; unfold leaves; cbn [base mem dh xds]; try exact L.
    + eapply leaf_upd; eauto. rewrite (U_vis Up). apply (L cur n x); auto.
    + eapply leaf_upd; eauto. rewrite (U_vis Up). apply (L cur n x); auto.
    + intros i n' x' Hn' Hx' Lf. destruct (Nat.lt_ge_cases i (length (dh (mem (base s))))) as [Lt|Ge].
      * rewrite nth_error_app1 in Hn' by auto. rewrite nth_error_app1 in Hx' by (rewrite (ag_d _ _ _ _ s I); auto). eauto.
      * rewrite nth_error_app2 in Hn' by auto. rewrite nth_error_app2 in Hx' by (rewrite (ag_d _ _ _ _ s I); auto). rewrite (ag_d _ _ _ _ s I) in Hx'.
        destruct (i - length (dh (mem (base s))))%nat as [|j]; [|destruct j; discriminate]. cbn in Hn', Hx'. injection Hn' as <-. injection Hx' as <-. apply (U_new Up).
    + eapply leaf_upd; eauto. rewrite (U_vis Up). apply (L cur n x); auto.
    + pose proof (no_t _ _ _ _ _ _ _ _ No _ _ _ H H2) as To. cbn [thread_ok] in To. destruct To as (l & a & l' & _ & _ & _ & c & _ & _ & Dc & _).
      destruct (edge_inner seqb aeqb aeqb_ok C G s d a c n I Dc H0) as (Is & Hdep & _).
      assert (Nl : is_leaf C n = false) by (unfold is_leaf; rewrite Is; apply Z.leb_gt; lia).
      intros i n' x' Hn' Hx' Lf. rewrite (nth_upd _ _ _ _ _ _ H1) in Hx'. destruct (Nat.eqb_spec d i) as [<-|ne]; [congruence|eauto].
Qed.
Lemma leaf_exact : forall n g s d node, areach seqb aeqb C G n g s -> nth_error (dh (mem (base s))) d = Some node -> is_leaf C node = true -> ex_d s d.
Proof using seqb_ok aeqb_ok Up Sv.
  intros n g s d node R Hd Lf n' x Hn' Hx. assert (n' = node) by congruence. subst n'. rewrite (leaves_reach n g s R d node x Hd Hx Lf).
  pose proof (areach_good seqb aeqb seqb_ok aeqb_ok C G n g s R) as [[Ti _] _ _ _ _]. rewrite (wf_heur _ _ _ _ (ti_wf _ _ _ _ Ti) d node Hd).
  unfold is_leaf in Lf. destruct (is_sink C (dstate node)) eqn:Es.
  - rewrite (so_sink _ _ _ _ Sv) by exact Es. destruct (heuristic C); reflexivity.
  - cbn in Lf. apply Z.leb_le in Lf. unfold left_at. replace (Z.to_nat (max_depth C - ddepth node)) with 0%nat by lia.
    rewrite (so_end _ _ _ _ Sv) by exact Es. reflexivity.
Qed.
Lemma bottom : forall n g s, areach seqb aeqb C G n g s -> exact_below (max_depth C) s.
Proof using seqb_ok aeqb_ok Up Sv.
  intros n g s R. pose proof (areach_good seqb aeqb seqb_ok aeqb_ok C G n g s R) as I. split.
  - intros d node Hd L. apply (leaf_exact n g s d node R Hd). unfold is_leaf. apply orb_true_iff. right. apply Z.leb_le. lia.
  - intros c x Hc L. destruct (chance_inner seqb aeqb C G s c x I Hc) as (_ & H & _). lia.
Qed.

Lemma round_exact : forall n g s s' k, areach seqb aeqb C G n g s -> quiet (base s) -> full s -> exact_below k s -> round seqb aeqb C s s' ->
  areach seqb aeqb C G n g s' /\ quiet (base s') /\ full s' /\ exact_below (k - 1) s'.
Proof using All.
  intros n g s s' k R Q F E ((ls & Ru) & Q' & More). pose proof (reach_on n g s ls s' R Ru) as R'.
  assert (P0 : progress k (backs s) s).
  { split; [exact F|]. split; [exact E|]. split; [intros c; lia|]. split; [intros c x _ _ H; lia|].
    intros d x Hd _ NE D. destruct (dkids x) as [|[a c] l] eqn:Ek; [contradiction|]. specialize (D a c (or_introl eq_refl)). lia. }
  destruct (run_keeps _ (progress_step k (backs s)) n g s ls s' R P0 Ru) as (F' & E' & _ & Kc & Kd).
  split; [exact R'|]. split; [exact Q'|]. split; [exact F'|].
  pose proof (areach_good seqb aeqb seqb_ok aeqb_ok C G n g s' R') as I'. pose proof I' as [[Ti _] _ _ _ _]. pose proof (ti_wf _ _ _ _ Ti) as W.
  assert (Did : forall c x', nth_error (ch (mem (base s'))) c = Some x' -> (backs s c < backs s' c)%Z).
  { intros c x' Hc.
    destruct (C10_idle' seqb aeqb seqb_ok aeqb_ok C n (base s) (areach_ereach seqb aeqb C G n g s R) Q) as (_ & _ & _ & K1 & _).
    destruct (C10_idle' seqb aeqb seqb_ok aeqb_ok C n (base s') (areach_ereach seqb aeqb C G n g s' R') Q') as (_ & _ & _ & K2 & _).
    unfold backs. destruct (K2 c x' Hc) as [<- _].
    assert (Fr : forall c x', nth_error (ch (mem (base s'))) c = Some x' -> exists x, nth_error (ch (mem (base s))) c = Some x).
    { assert (K := run_keeps (fun s1 => full s1 /\ forall c x', nth_error (ch (mem (base s1))) c = Some x' -> exists x, nth_error (ch (mem (base s))) c = Some x)).
      refine (proj2 (K _ n g s ls s' R (conj F (fun c x H => ex_intro _ x H)) Ru)). intros s1 s2 I1 T1 [F1 X1] T. pose proof (full_frame s1 s2 I1 F1 T) as Fr.
      split; [exact (full_step s1 s2 Fr (effects s1 s2 I1 T1 F1 T) F1)|]. intros c1 x1 H1. destruct (proj2 Fr c1 x1 H1) as (x0 & H0 & _). eauto. }
    destruct (Fr c x' Hc) as (x & Hx). destruct (K1 c x Hx) as [<- _]. eauto. }
  split.
  - intros d node Hd L. destruct (Z.eq_dec (ddepth node) (k - 1)) as [Ek|Nk]; [|apply (proj1 E' d node Hd); lia].
    destruct (is_leaf C node) eqn:Lf; [exact (leaf_exact n g s' d node R' Hd Lf)|].
    assert (NE : dkids node <> []).
    { intros E0. unfold is_leaf in Lf. apply orb_false_iff in Lf. destruct Lf as [Is Lf]. apply Z.leb_gt in Lf. pose proof (eo_acts _ _ Env (dstate node) Is) as Na.
      destruct (acts C (dstate node)) as [|a l] eqn:Ea; [contradiction|]. refine (proj1 F' d node a Hd Is Lf _ _); [rewrite Ea; now left|now rewrite E0]. }
    destruct (Kd d node Hd Ek NE) as [X|(t & no & b & a & ta & to & X)]; [|exact X|].
    + intros a c J. destruct (wf_d _ _ _ _ W d node a c Hd) as (cn & Hc & _); [apply in_lookup; auto; exact (wf_dkeys _ _ _ _ W d node Hd)|]. eauto.
    + specialize (Q' t _ X). discriminate.
  - intros c x Hc L. destruct (Z.eq_dec (cdepth x) (k - 1)) as [Ek|Nk]; [|apply (proj2 E' c x Hc); lia]. eauto.
Qed.
Lemma rounds_exact : forall n g s k s', areach seqb aeqb C G n g s -> quiet (base s) -> full s -> rounds seqb aeqb C k s s' ->
  areach seqb aeqb C G n g s' /\ quiet (base s') /\ full s' /\ exact_below (max_depth C - Z.of_nat k) s'.
Proof using All.
  intros n g s k s' R Q F H. induction H as [s|k s s1 s2 _ IH Ro].
  - repeat (split; [assumption|]). rewrite Z.sub_0_r. exact (bottom n g s R).
  - destruct (IH R Q F) as (R1 & Q1 & F1 & E1). destruct (round_exact n g s1 s2 _ R1 Q1 F1 E1 Ro) as (R2 & Q2 & F2 & E2).
    repeat (split; [assumption|]). replace (max_depth C - Z.of_nat (Datatypes.S k))%Z with (max_depth C - Z.of_nat k - 1)%Z by lia. exact E2.
Qed.

(** From then on all values are exact, also while trials are under way. *)
Lemma exact_from_now : forall n g s k s' ls s2, areach seqb aeqb C G n g s -> quiet (base s) -> full s -> rounds seqb aeqb C k s s' ->
  (max_depth C <= Z.of_nat k)%Z -> arun seqb aeqb C G ls s' = Some s2 -> represents aeqb C M s2 vd vc V /\ full s2 /\ exact_below 0 s2 /\ areach seqb aeqb C G n g s2.
Proof using All.
  intros n g s k s' ls s2 R Q F H L Ru. destruct (rounds_exact n g s k s' R Q F H) as (R1 & Q1 & F1 & E1).
  pose proof (reach_on n g s' ls s2 R1 Ru) as R2. pose proof (areach_good seqb aeqb seqb_ok aeqb_ok C G n g s2 R2) as I2.
  assert (E0 : exact_below (max_depth C - Z.of_nat k) s2 /\ full s2).
  { refine (run_keeps (fun s => exact_below _ s /\ full s) _ n g s' ls s2 R1 (conj E1 F1) Ru). intros s3 s4 I3 T3 [E3 F3] T.
    pose proof (full_frame s3 s4 I3 F3 T) as Fr. pose proof (effects s3 s4 I3 T3 F3 T) as Ef. split; [exact (below_step _ s3 s4 I3 F3 Fr Ef E3)|exact (full_step s3 s4 Fr Ef F3)]. }
  destruct E0 as [E0 F2]. assert (E2 : exact_below 0 s2).
  { split; [intros d x Hd Ld; apply (proj1 E0 d x Hd); lia|intros c x Hc Lc; apply (proj2 E0 c x Hc); lia]. }
  split; [|auto]. pose proof I2 as [[Ti _] _ _ _ _]. pose proof (ti_wf _ _ _ _ Ti) as W. split.
  - intros d x y Hd Hy. apply (proj1 E2 d x Hd); auto. destruct (ti_time _ _ _ _ Ti _ _ Hd). lia.
  - intros d x a c y Hd Hc Hy. destruct (wf_d _ _ _ _ W d x a c Hd Hc) as (cn & Hcn & Q1' & Q2 & Q3 & Q4 & _).
    destruct (proj2 E2 c cn Hcn) with (n := cn) (x := y) as [Ev _]; auto. { destruct (ti_time _ _ _ _ Ti _ _ Hd). lia. }
    rewrite Ev. unfold worth_c, action_worth, left_at. now rewrite Q1', Q2, Q3, Q4.
Qed.
End Sure.
