(** Recommendations by dynamic programming values in doubles. *)
From Coq Require Import List ZArith Bool Reals Lia Lra Permutation.
From Coq Require Import Floats.SpecFloat.
From Flocq Require Import Core.Raux.
From Verif Require Import Base BaseProofs NumOps RLemmas HelperModel HelperSpec HelperProofs EngineModel EngineSpec EngineProofs EngineTheorems MapProofs AlgoModel AlgoProofs AlgoNodes
  MentsModel SoftSpec MentsSpec PickSpec PickProofs TreeSpec TreeResults DoubleSpec DoubleProofs LseModel LseSpec LseReal LseProofs Ments64Spec Ments64Proofs Dp64Model Dp64Spec Dp64Proofs Dp64Close.
Import ListNotations.
Open Scope R_scope.

Lemma Rltb_bool : forall x y, Rltb x y = Rlt_bool x y.
Proof. intros x y. unfold Rltb. destruct (Rlt_dec x y); destruct (Rlt_bool_spec x y); auto; lra. Qed.
(** The comparison of doubles is that of the numbers they stand for. *)
Lemma best_keys_real : forall T (m : list (T * F)) lo keys, double lo -> (forall k v, In (k, v) m -> double v) ->
  best_keys_loop SFltb m lo keys = best_keys_loop Rltb (map (fun p => (fst p, dval (snd p))) m) (dval lo) keys.
Proof.
  intros T m. induction m as [|[k v] m IH]; intros lo keys Dl Dm; [reflexivity|]. cbn [best_keys_loop map fst snd].
  assert (Dv : double v) by (apply (Dm k); now left). rewrite !Rltb_bool, !lt_double by auto.
  assert (Dm' : forall k v, In (k, v) m -> double v) by (intros; eapply Dm; right; eauto).
  destruct (Rlt_bool (dval v) (dval lo)); [now apply IH|]. destruct (Rlt_bool (dval lo) (dval v)); now apply IH.
Qed.
Lemma max_key_F : forall T (m m' : list (T * F)), Permutation m m' -> m <> [] -> NoDup (map fst m) ->
  (forall k v, In (k, v) m -> double v /\ Rabs (dval v) <= powerRZ 2 900) ->
  always (fun g : rng R => get_max_key SFltb f_lowest m' g) (fun k => exists v, In (k, v) m /\ forall k' v', In (k', v') m -> dval v' <= dval v).
Proof.
  intros T m m' Pm Ne ND Hm. destruct lowest_double as (Dl & Ll).
  assert (Hm' : forall k v, In (k, v) m' -> double v /\ Rabs (dval v) <= powerRZ 2 900) by (intros k v I; apply (Hm k v); eapply Permutation_in; [symmetry; exact Pm|exact I]).
  set (r := map (fun p : T * F => (fst p, dval (snd p))) m').
  assert (P : picks (fun g : rng R => get_max_key Rltb (dval f_lowest) r g) (maximal Rltb r)).
  { apply pick_max.
    - exact strict_total_R.
    - unfold r. rewrite map_map. cbn [fst]. eapply Permutation_NoDup; [apply Permutation_map; exact Pm|exact ND].
    - destruct m' as [|[k v] m'']; [apply Permutation_sym, Permutation_nil in Pm; congruence|]. exists k, (dval v). split; [now left|].
      destruct (Hm' k v (or_introl eq_refl)) as (_ & B). apply abs_inv in B. rewrite Rltb_bool. apply Rlt_bool_false.
      assert (powerRZ 2 900 <= powerRZ 2 1020) by (apply pow_mono; lia). lra. }
  destruct P as (ks & _ & _ & Ik & H). intros g Gg. destruct (H g Gg) as (k & g' & E & E1 & E2 & E3). exists k, g'. split.
  - unfold get_max_key in *. rewrite best_keys_real; [exact E|exact Dl|]. intros k0 v0 I0. now apply (Hm' k0 v0).
  - split; [exact E1|]. split; [exact E2|]. apply nth_error_In in E3. apply Ik in E3. destruct E3 as (v & I & Mx). unfold r in I. apply in_map_iff in I. destruct I as ([k1 v1] & [= <- <-] & I).
    cbn [fst]. exists v1. split; [eapply Permutation_in; [symmetry; exact Pm|exact I]|]. intros k' v' I'.
    assert (J : In (k', dval v') r) by (unfold r; apply in_map_iff; exists (k', v'); split; [reflexivity|eapply Permutation_in; eauto]).
    specialize (Mx k' (dval v') J). rewrite Rltb_bool in Mx. cbn [snd] in Mx. destruct (Rlt_bool_spec (dval v1) (dval v')); [discriminate|lra].
Qed.

Section Pick.
Context {S A : Type}.
Variable C : @econf S A.
Variable K : @dpconf S A.
Variables B0 Rw W : R.
Variable ns : Z.
Hypothesis Rg : dp_range C K B0 Rw W ns.
(** The pick is a child with the best value among those with enough backups, or among all if there is none. *)
Lemma recommend_best64 : forall n (kids : list (A * pmem)), kids <> [] -> NoDup (map fst kids) ->
  (forall a y, In (a, y) kids -> double (p_val y) /\ Rabs (dval (p_val y)) <= W) ->
  always (recommend_dp K n kids) (fun a => exists y, In (a, y) kids /\
    ((p_threshold K <= p_nb y)%Z \/ forall b z, In (b, z) kids -> (p_nb z < p_threshold K)%Z) /\
    forall b z, In (b, z) kids -> ((p_threshold K <= p_nb z)%Z \/ (p_nb y < p_threshold K)%Z) ->
      sg (p_two K && Z.odd (dtime n)) (dval (p_val z)) <= sg (p_two K && Z.odd (dtime n)) (dval (p_val y))).
Proof using Rg.
  intros n kids Ne ND Hk. destruct (dr_W _ _ _ _ _ _ Rg) as (_ & _ & W1).
  assert (Go : forall (f : A * pmem -> bool), filter f kids <> [] ->
    let l := map (fun p : A * pmem => (fst p, nmul F_ops (p_opp K n) (p_val (snd p)))) (filter f kids) in
    always (fun g : rng R => get_max_key SFltb f_lowest (p_ordera K l) g)
      (fun a => exists y, In (a, y) kids /\ f (a, y) = true /\ forall b z, In (b, z) kids -> f (b, z) = true ->
        sg (p_two K && Z.odd (dtime n)) (dval (p_val z)) <= sg (p_two K && Z.odd (dtime n)) (dval (p_val y)))).
  { intros f Nf l. assert (V : forall a y, In (a, y) kids -> double (nmul F_ops (p_opp K n) (p_val y)) /\ dval (nmul F_ops (p_opp K n) (p_val y)) = sg (p_two K && Z.odd (dtime n)) (dval (p_val y))).
    { intros a y I. destruct (Hk a y I) as (D & B). apply mul_sign; [exact D|lra]. }
    intros g Gg. destruct (max_key_F A l (p_ordera K l)) with (g := g) as (k & g' & E & E1 & E2 & v & I & Mx); auto.
    - apply (dr_ordera _ _ _ _ _ _ Rg).
    - unfold l. destruct (filter f kids); [congruence|discriminate].
    - unfold l. rewrite map_map. cbn [fst]. clear - ND. induction kids as [|p kids IH]; [constructor|]. cbn [map filter] in *. inversion ND as [|x1 l1 H1 H2]. subst. destruct (f p); [|now apply IH].
      cbn [map]. constructor; [|now apply IH]. intros I. apply H1. apply in_map_iff in I. destruct I as (q & Eq & I). apply filter_In in I. apply in_map_iff. exists q. tauto.
    - intros k v I. unfold l in I. apply in_map_iff in I. destruct I as ([a y] & Ek & I). apply filter_In in I. destruct I as (I & _). pose proof (f_equal snd Ek) as Ew. cbn [snd] in Ew. rewrite <- Ew. destruct (V a y I) as (D & Ev). split; [exact D|]. rewrite Ev.
      destruct (Hk a y I) as (_ & B). unfold sg. destruct (p_two K && Z.odd (dtime n)); rewrite ?Rabs_Ropp; lra.
    - exists k, g'. split; [exact E|]. split; [exact E1|]. split; [exact E2|]. unfold l in I. apply in_map_iff in I. destruct I as ([a y] & Ek & I). apply filter_In in I. destruct I as (I & Fy).
      pose proof (f_equal fst Ek) as Ea. pose proof (f_equal snd Ek) as Ev. cbn [fst snd] in Ea, Ev. subst a. exists y. split; [exact I|]. split; [exact Fy|]. intros b z Ib Fb.
      assert (J : In (b, nmul F_ops (p_opp K n) (p_val z)) l) by (unfold l; apply in_map_iff; exists (b, z); split; [reflexivity|apply filter_In; auto]).
      specialize (Mx _ _ J). rewrite <- Ev in Mx. destruct (V k y I) as (_ & V1). destruct (V b z Ib) as (_ & V2). lra. }
  intros g Gg. unfold recommend_dp. set (th := fun p : A * pmem => (p_threshold K <=? p_nb (snd p))%Z).
  change (fun p : A * pmem => negb (p_threshold K <=? p_nb (snd p))%Z) with (fun p => negb (th p)).
  destruct (filter th kids) as [|p0 l0] eqn:Ef.
  - assert (No : forall b z, In (b, z) kids -> th (b, z) = false).
    { intros b z I. destruct (th (b, z)) eqn:T; auto. assert (J : In (b, z) (filter th kids)) by (apply filter_In; auto). rewrite Ef in J. destruct J. }
    assert (Nf : filter (fun p => negb (th p)) kids <> []).
    { destruct kids as [|[a y] kids']; [congruence|]. intros E0. assert (J : In (a, y) (filter (fun p => negb (th p)) ((a, y) :: kids'))) by (apply filter_In; split; [now left|]; rewrite No; [reflexivity|now left]). rewrite E0 in J. destruct J. }
    destruct (Go _ Nf g Gg) as (k & g' & E & E1 & E2 & y & I & _ & Mx). exists k, g'. split; [exact E|]. split; [exact E1|]. split; [exact E2|]. exists y. split; [exact I|]. split.
    + right. intros b z Ib. specialize (No b z Ib). unfold th in No. apply Z.leb_gt in No. exact No.
    + intros b z Ib _. apply (Mx b z Ib). now rewrite No.
  - rewrite <- Ef. destruct (Go th ltac:(congruence) g Gg) as (k & g' & E & E1 & E2 & y & I & Fy & Mx). exists k, g'.
    split. { rewrite Ef in E |- *. exact E. }
    split; [exact E1|]. split; [exact E2|]. exists y. split; [exact I|]. unfold th in Fy. apply Z.leb_le in Fy. cbn [snd] in Fy. split; [now left|].
    intros b z Ib [H|H]; [|lia]. apply (Mx b z Ib). unfold th. cbn [snd]. now apply Z.leb_le.
Qed.
End Pick.
