(** Proofs about the recommendations of MENTS and its relatives. *)
From Coq Require Import List ZArith Bool Reals Lia Lra Permutation.
From Verif Require Import Base BaseProofs NumOps RLemmas HelperModel HelperSpec HelperProofs EngineModel EngineSpec EngineProofs
  EngineInv EngineResults MapModel MapProofs PickSpec PickProofs AlgoModel AlgoProofs AlgoNodes UctModel MentsModel SoftSpec SoftProofs
  MentsSpec MentsProofs MentsPolicy RecSpec.
Import ListNotations.
Open Scope R_scope.

Section Rec.
Context {S A : Type}.
Variable aeqb : A -> A -> bool.
Hypothesis aeqb_ok : decides aeqb.
Variable C : @econf S A.
Variable M : @mconf S A.
Hypothesis order_ok : forall V (m : list (A * V)), Permutation m (morder M V m).
Notation dnode := (@dnode S A).
Notation cnode := (@cnode S A).

Lemma two_maps : forall l (ok : A -> Prop) v (hi lo : list (A * R)), l <> [] ->
  NoDup (map fst hi) -> NoDup (map fst lo) ->
  (forall a x, In (a, x) hi <-> In a l /\ ok a /\ x = v a) ->
  (forall a x, In (a, x) lo <-> In a l /\ ~ ok a /\ x = v a) ->
  (forall a, In a l -> ok a \/ ~ ok a) ->
  (forall a, In a l -> dbl_lowest <= v a) ->
  picks (fun g : rng R => match hi with
         | [] => get_max_key Rltb dbl_lowest (morder M R lo) g
         | _ => get_max_key Rltb dbl_lowest (morder M R hi) g end) (best_choice l ok v).
Proof using order_ok.
  intros l ok v hi lo NE Nh Nl Hh Hl Dec Low. destruct hi as [|[a0 x0] hi'] eqn:E.
  - assert (No : forall b, In b l -> ~ ok b).
    { intros b Ib Q. apply (proj2 (Hh b (v b))). auto. }
    eapply picks_ext; [reflexivity| |apply (max_picks M order_ok lo Nl)].
    + intros a. split.
      * intros (x & Q & H). apply Hl in Q. destruct Q as (Q1 & Q2 & ->). split; auto. right. split; auto.
        intros b Ib. apply (H b). apply Hl. auto.
      * intros (Ia & [[Q _]|[_ H]]); [elim (No a); auto|]. exists (v a). split; [apply Hl; auto|].
        intros b w Q. apply Hl in Q. destruct Q as (Q1 & _ & ->). auto.
    + destruct l as [|b l]; [congruence|]. exists b, (v b). split; [apply Hl|apply Low; now left].
      split; [now left|]. split; auto. apply No. now left.
  - rewrite <- E in *. assert (H0 : In (a0, x0) hi) by (rewrite E; now left).
    eapply picks_ext; [reflexivity| |apply (max_picks M order_ok hi Nh)].
    + intros a. split.
      * intros (x & Q & H). apply Hh in Q. destruct Q as (Q1 & Q2 & ->). split; auto. left. split; auto.
        intros b Ib Ob. apply (H b). apply Hh. auto.
      * intros (Ia & [[Q H]|[No _]]).
        -- exists (v a). split; [apply Hh; auto|]. intros b w Qb. apply Hh in Qb. destruct Qb as (Q1 & Q2 & ->). auto.
        -- apply Hh in H0. destruct H0 as (Q1 & Q2 & _). elim (No a0); auto.
    + exists a0, x0. split; auto. apply Hh in H0. destruct H0 as (Q1 & _ & ->). auto.
Qed.

Lemma random_picks : forall n, NoDup (acts C (dstate n)) -> acts C (dstate n) <> [] ->
  picks (random_valid C n) (fun a => In a (acts C (dstate n))).
Proof.
  intros n ND NE. apply (pick_index A R (acts C (dstate n)) vec_at_checked); auto.
  intros. now apply vec_at_checked_some.
Qed.

Lemma visits_picks : forall X n (kids : list (A * (cnode * X))), NoDup (acts C (dstate n)) -> acts C (dstate n) <> [] ->
  NoDup (map fst kids) -> (forall a c y, In (a, (c, y)) kids -> In a (acts C (dstate n)) /\ (int_lowest <= cvisits c)%Z) ->
  picks (recommend_visits aeqb C M n kids) (most_visited (acts C (dstate n)) kids).
Proof using aeqb_ok order_ok.
  intros X n kids ND NE Nk Hk. unfold recommend_visits.
  set (f := fun a => match lookup aeqb a kids with Some (c, _) => Some (cvisits c) | None => None end).
  assert (Hf : forall a v, f a = Some v <-> exists c y, In (a, (c, y)) kids /\ v = cvisits c).
  { intros a v. unfold f. destruct (lookup aeqb a kids) as [[c y]|] eqn:L.
    - apply (lookup_in _ _ _ _ _ _ aeqb_ok) in L. split.
      + intros [= <-]. eauto.
      + intros (c' & y' & Q & ->). apply (in_lookup aeqb aeqb_ok _ _ _ _ Nk) in L. apply (in_lookup aeqb aeqb_ok _ _ _ _ Nk) in Q. congruence.
    - split; [discriminate|]. intros (c' & y' & Q & ->). apply (in_lookup aeqb aeqb_ok _ _ _ _ Nk) in Q. congruence. }
  destruct (mbuild aeqb f (acts C (dstate n)) []) as [|p0 m0] eqn:Eb.
  - assert (K0 : kids = []).
    { destruct kids as [|[a [c y]] kids']; auto. pose proof (proj1 (mbuild_empty aeqb aeqb_ok _ _ _) Eb a) as Q.
      assert (f a = Some (cvisits c)) by (apply Hf; exists c, y; split; [now left|auto]).
      rewrite Q in H; [discriminate|]. apply (Hk a c y). now left. }
    eapply picks_ext; [reflexivity| |apply random_picks; auto]. intros a. unfold most_visited. rewrite K0. split; [|tauto].
    intros Q. split; auto. intros Z. now elim Z.
  - rewrite <- Eb in *. eapply picks_ext; [reflexivity| |apply (pick_built A Z R aeqb Z.ltb int_lowest f (acts C (dstate n)) (morder M Z))]; auto.
    + intros a. unfold most_visited. split.
      * intros (Ia & v & E & H). split; auto. intros _. apply Hf in E. destruct E as (c & y & Q & ->). exists c, y. split; auto.
        intros b c' y' Q'. specialize (H b (cvisits c') (proj1 (Hk _ _ _ Q')) ltac:(apply Hf; eauto)). apply Z.ltb_ge in H. exact H.
      * intros (Ia & H). destruct kids as [|[a0 [c0 y0]] kids'] eqn:Ek.
        { exfalso. assert (Ee : mbuild aeqb f (acts C (dstate n)) [] = []) by (apply mbuild_empty; auto; intros k _; reflexivity). congruence. }
        rewrite <- Ek in *. destruct (H ltac:(rewrite Ek; discriminate)) as (c & y & Q & K). split; auto. exists (cvisits c).
        split; [apply Hf; eauto|]. intros b v' Ib E. apply Hf in E. destruct E as (c' & y' & Q' & ->). apply Z.ltb_ge. eauto.
    + apply strict_total_Z.
    + destruct p0 as [a v]. exists a, v. destruct (mbuild_nil aeqb aeqb_ok Z f (acts C (dstate n))) as [_ I].
      assert (Q : In (a, v) (mbuild aeqb f (acts C (dstate n)) [])) by (rewrite Eb; now left). apply I in Q. destruct Q as [Q1 Q2].
      split; auto. split; auto. apply Hf in Q2. destruct Q2 as (c & y & Q & ->). apply Z.ltb_ge. apply (Hk _ _ _ Q).
Qed.

Lemma soft_picks : forall n x (kids : list (A * (cnode * cmem))) (q : A -> R), NoDup (acts C (dstate n)) -> acts C (dstate n) <> [] ->
  NoDup (map fst kids) ->
  (forall a, In a (acts C (dstate n)) -> ments_q aeqb M n x kids a = Ok (q a)) ->
  (forall a, In a (acts C (dstate n)) -> dbl_lowest <= q a) ->
  picks (recommend_soft aeqb C M n x kids) (best_choice (acts C (dstate n)) (visited_enough M kids) q).
Proof using aeqb_ok order_ok.
  intros n x kids q ND NE Nk Hq Low.
  assert (Eq : all_q (ments_q aeqb M n x kids) (acts C (dstate n)) = Ok (map (fun a => (a, q a)) (acts C (dstate n)))) by (apply all_q_total; auto).
  set (qs := map (fun a => (a, q a)) (acts C (dstate n))) in *.
  assert (Kq : map fst qs = acts C (dstate n)) by (unfold qs; rewrite map_map; cbn; apply map_id).
  assert (Lq : forall a v, lookup aeqb a qs = Some v <-> In a (acts C (dstate n)) /\ v = q a).
  { intros a v. rewrite (lookup_iff aeqb aeqb_ok) by now rewrite Kq. unfold qs. rewrite in_map_iff. split.
    - intros (b & [= -> <-] & Ib). auto.
    - intros [Ia ->]. eauto. }
  set (enough := fun a => match lookup aeqb a kids with Some (c, _) => (mthreshold M <=? cvisits c)%Z | None => false end).
  assert (He : forall a, enough a = true <-> visited_enough M kids a).
  { intros a. unfold enough, visited_enough. destruct (lookup aeqb a kids) as [[c y]|] eqn:L.
    - apply (lookup_in _ _ _ _ _ _ aeqb_ok) in L. rewrite Z.leb_le. split; [eauto|]. intros (c' & y' & Q & T).
      apply (in_lookup aeqb aeqb_ok _ _ _ _ Nk) in L. apply (in_lookup aeqb aeqb_ok _ _ _ _ Nk) in Q. congruence.
    - split; [discriminate|]. intros (c' & y' & Q & T). apply (in_lookup aeqb aeqb_ok _ _ _ _ Nk) in Q. congruence. }
  destruct (mbuild_nil aeqb aeqb_ok R (fun a => if enough a then lookup aeqb a qs else None) (acts C (dstate n))) as [N1 I1].
  destruct (mbuild_nil aeqb aeqb_ok R (fun a => if enough a then None else lookup aeqb a qs) (acts C (dstate n))) as [N2 I2].
  eapply picks_ext; [|intros a; split; [intros Q; exact Q|auto]|apply (two_maps (acts C (dstate n)) (visited_enough M kids) q _ _ NE N1 N2)]; auto.
  - intros g. unfold recommend_soft. rewrite Eq. cbn [bind]. fold enough. reflexivity.
  - intros a v. rewrite I1. rewrite <- He. destruct (enough a); rewrite ?Lq; intuition discriminate.
  - intros a v. rewrite I2. rewrite <- He. destruct (enough a); rewrite ?Lq; intuition (try discriminate; congruence).
  - intros a _. rewrite <- He. destruct (enough a); auto.
Qed.

Lemma value_picks : forall n (kids : list (A * vmem)) (v : A -> R), kids <> [] -> NoDup (map fst kids) ->
  (forall a y, In (a, y) kids -> v a = seen M n (v_val y)) ->
  (forall a, In a (map fst kids) -> dbl_lowest <= v a) ->
  picks (recommend_value M n kids) (best_choice (map fst kids) (backed_up_enough M kids) v).
Proof using aeqb_ok order_ok.
  intros n kids v NE Nk Hv Low.
  set (val := fun p : A * vmem => (fst p, opp_coeff M n * v_val (snd p))).
  assert (Hval : forall a y, In (a, y) kids -> opp_coeff M n * v_val y = v a).
  { intros a y Q. rewrite (Hv _ _ Q), <- opp_seen. lra. }
  assert (Un : forall a y y', In (a, y) kids -> In (a, y') kids -> y = y').
  { intros a y y' Q Q'. apply (in_lookup aeqb aeqb_ok _ _ _ _ Nk) in Q. apply (in_lookup aeqb aeqb_ok _ _ _ _ Nk) in Q'. congruence. }
  assert (Ke : forall a, In a (map fst kids) <-> exists y, In (a, y) kids).
  { intros a. rewrite in_map_iff. split; [intros ([b y] & <- & Q); eauto|intros (y & Q); exists (a, y); auto]. }
  eapply picks_ext; [reflexivity|intros a; split; [intros Q; exact Q|auto]|].
  unfold recommend_value. apply (two_maps (map fst kids) (backed_up_enough M kids) v).
  - destruct kids; [congruence|discriminate].
  - rewrite map_map. cbn [fst val]. now apply nodup_filter_map.
  - rewrite map_map. cbn [fst val]. now apply nodup_filter_map.
  - intros a w. rewrite in_map_iff, Ke. split.
    + intros ([b y] & [= <- <-] & Q). apply filter_In in Q. destruct Q as [Q T]. cbn [snd] in *. apply Z.leb_le in T. unfold backed_up_enough.
      split; [eauto|]. split; [eauto|apply (Hval _ _ Q)].
    + intros ((y0 & _) & (y & Q & T) & ->). exists (a, y). split; [cbn; now rewrite (Hval _ _ Q)|]. apply filter_In. split; auto. now apply Z.leb_le.
  - intros a w. rewrite in_map_iff, Ke. split.
    + intros ([b y] & [= <- <-] & Q). apply filter_In in Q. destruct Q as [Q T]. cbn [snd] in *. apply negb_true_iff, Z.leb_gt in T. unfold backed_up_enough.
      split; [eauto|]. split; [|apply (Hval _ _ Q)]. intros (y' & Q' & T'). rewrite (Un _ _ _ Q' Q) in T'. lia.
    + intros ((y & Q) & No & ->). exists (a, y). split; [cbn; now rewrite (Hval _ _ Q)|]. apply filter_In. split; auto.
      apply negb_true_iff, Z.leb_gt. destruct (Z_lt_le_dec (v_nb y) (mthreshold M)); auto. elim No. exists y. auto.
  - intros a Q. apply Ke in Q. destruct Q as (y & Q). destruct (Z_lt_le_dec (v_nb y) (mthreshold M)) as [L|L].
    + right. intros (y' & Q' & T'). rewrite (Un _ _ _ Q' Q) in T'. lia.
    + left. exists y. auto.
  - auto.
Qed.
End Rec.

(** Numbers of visits of nodes in searches. *)
Section Visits.
Context {S A : Type}.
Variable seqb : S -> S -> bool.
Variable aeqb : A -> A -> bool.
Hypothesis seqb_ok : decides seqb.
Hypothesis aeqb_ok : decides aeqb.
Variable C : @econf S A.
Variable G : @algo S A.
Lemma cvisits_nonneg : forall n g s c x, areach seqb aeqb C G n g s -> nth_error (ch (mem (base s))) c = Some x -> (0 <= cvisits x)%Z.
Proof using All.
  intros n g s c x R Hc. destruct (C10_always' seqb aeqb seqb_ok aeqb_ok C n (base s) (areach_ereach seqb aeqb C G _ _ _ R)) as [_ V].
  destruct (V _ _ Hc) as [-> _]. unfold count. clear. induction (etrace (base s)) as [|e tr IH]; cbn [countb]; [lia|]. destruct (visits_c c (snd e)); lia.
Qed.
(** What a node sees of its children. *)
Lemma dview_facts : forall n g s d (node : @dnode S A), areach seqb aeqb C G n g s -> nth_error (dh (mem (base s))) d = Some node ->
  NoDup (map fst (dview s node)) /\ map fst (dview s node) = map fst (dkids node) /\
  forall a c y, In (a, (c, y)) (dview s node) -> In a (acts C (dstate node)) /\ (0 <= cvisits c)%Z.
Proof using All.
  intros n g s d node R Hd. pose proof (areach_good seqb aeqb seqb_ok aeqb_ok C G _ _ _ R) as I.
  pose proof I as [[Ti _] _ _ _ _]. pose proof (ti_wf _ _ _ _ Ti) as W.
  pose proof (dview_keys seqb aeqb aeqb_ok C G s d node I Hd) as K. pose proof (wf_dkeys _ _ _ _ W _ _ Hd) as ND.
  split; [rewrite <- K in ND; exact ND|]. split; [exact K|]. intros a c y Q.
  pose proof (dview_ok seqb aeqb aeqb_ok C G s d node I Hd) as F.
  assert (H : exists i, In (a, i) (dkids node) /\ nth_error (ch (mem (base s))) i = Some c).
  { revert Q. clear - F. induction F as [|p q l l' (H1 & H2 & H3) F IH]; intros E; [destruct E|]. destruct E as [->|E].
    - cbn in *. exists (snd p). split; [left; destruct p; cbn in *; congruence|auto].
    - destruct (IH E) as (i & Hi & R). exists i. split; [now right|auto]. }
  destruct H as (i & Hi & Hc). split; [|eapply cvisits_nonneg; eauto].
  assert (Hl : lookup aeqb a (dkids node) = Some i) by (apply in_lookup; auto).
  destruct (wf_d _ _ _ _ W _ _ _ _ Hd Hl) as (x & Hx & K1 & K2 & K3 & K4 & K5 & _). exact K5.
Qed.
End Visits.
