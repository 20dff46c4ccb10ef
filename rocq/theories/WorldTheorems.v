(** Property theorems: the values of a search approach those of the environment, C89. *)
From Coq Require Import List ZArith Bool Reals Lia Lra.
From Verif Require Import Base BaseProofs NumOps HelperModel HelperSpec EngineModel EngineSpec EngineTheorems AlgoModel AlgoTheorems UctModel MentsModel SoftSpec MentsSpec
  RecSpec DentsSpec PickSpec PickProofs DpRun DbRun DentsTheorems WeightProofs QuietResults TentsSpec TentsTheorems TreeSpec TreeProofs TreeResults MixedProofs MixedResults TreeTheorems
  LseReal WorldSpec WorldProofs WorldResults WorldExamples.
Import ListNotations.
Open Scope R_scope.

Lemma exact_values : forall S A (aeqb : A -> A -> bool) (C : @econf S A) M (G : @algo S A) (s : ast G) vd vc V Hb Rw,
  approximates aeqb C M s vd vc V (sampling_error 0 Hb Rw) -> represents aeqb C M s vd vc V.
Proof.
  intros S A aeqb C M G s vd vc V Hb Rw [H1 H2]. split.
  - intros d n x Hd Hx. specialize (H1 d n x Hd Hx). unfold sampling_error in H1. rewrite Rmult_0_l in H1. apply abs_inv in H1. lra.
  - intros d n a c x Hd Hc Hx. specialize (H2 d n a c x Hd Hc Hx). unfold sampling_error in H2. rewrite Rmult_0_l in H2. apply abs_inv in H2. lra.
Qed.

Section Theorems.
Context {S A : Type}.
Variable seqb : S -> S -> bool.
Variable aeqb : A -> A -> bool.
Hypothesis seqb_ok : decides seqb.
Hypothesis aeqb_ok : decides aeqb.
Variable C : @econf S A.
Variable M : @mconf S A.
Hypothesis NoTT : use_tt C = false.
Hypothesis Env : env_ok C M.
Notation areach := (areach seqb aeqb C).
Notation approximates := (approximates aeqb C M).
Notation represents := (represents aeqb C M).
Notation explored := (explored aeqb C).

(** ** The environment has exactly one value function *)
(** ... if whoever moves takes the best action, ... *)
Theorem C89_values_exist : exists V, solves C M greatest V.
Proof. exists (solution C M top). apply (solution_solves C M Env top greatest). intros l q NE _. now apply top_greatest. Qed.
(** ... if they are paid the temperature times the entropy of the distribution they draw the action from, ... *)
Theorem C89_soft_values_exist : 0 < mtemp M -> exists V, solves C M (greatest_mixed (entropy_bonus (mtemp M))) V.
Proof. intros Tp. exists (solution C M (fun l q => soft_max (mtemp M) (map q l))). apply (solution_solves C M Env). intros l q NE _. now apply soft_mixed. Qed.
(** ... or its sparse entropy. *)
Theorem C89_sparse_values_exist : 0 < mtemp M -> exists V, solves C M (greatest_mixed (sparse_bonus (mtemp M))) V.
Proof. intros Tp. exists (solution C M (sparse_top aeqb (mtemp M))). apply (solution_solves C M Env). intros l q NE ND. now apply sparse_top_ok. Qed.
Theorem C89_values_unique : forall V W, solves C M greatest V -> solves C M greatest W -> forall h s t, V h s t = W h s t.
Proof. intros V W. exact (solves_unique C M Env greatest V W (greatest_lip A)). Qed.
Theorem C89_mixed_values_unique : forall bonus V W, solves C M (greatest_mixed bonus) V -> solves C M (greatest_mixed bonus) W -> forall h s t, V h s t = W h s t.
Proof. intros bonus V W. exact (solves_unique C M Env (greatest_mixed bonus) V W (mixed_lip A bonus)). Qed.

Variables Hb Rw : R.
Hypothesis Bd : world_bounds C M Hb Rw.

(** ** Dynamic programming values *)
(** When no trial is under way, every action was tried wherever there was a choice and outcomes were sampled as often as
    they are likely up to [eps], the values are those of the environment up to an error that grows with [eps] and the
    number of decisions left. *)
Section Best.
Variable V : nat -> S -> Z -> R.
Hypothesis Sv : solves C M greatest V.
Theorem C89_dbments : forall n g s eps, areach (dbments aeqb C M) n g s -> quiet (base s) -> 0 <= eps ->
  explored (mem (base s)) -> faithful M (dp_samples C) eps (mem (base s)) ->
  approximates s (fun x : mmem * vmem => v_val (snd x)) (fun x : cmem * vmem => v_val (snd x)) V (sampling_error eps Hb Rw).
Proof.
  exact (dp_near seqb aeqb seqb_ok aeqb_ok C M NoTT Env (dbments aeqb C M) snd snd (dbments_part aeqb C M)
    (fun x : mmem * vmem => match x with (mkMm _ _ _, mkVm _ _) => eq_refl end) (dbments_dp_counter aeqb C M) Hb Rw Bd V Sv).
Qed.
Theorem C89_dents : muse_dp M = true -> forall n g s eps, areach (dents aeqb C M) n g s -> quiet (base s) -> 0 <= eps ->
  explored (mem (base s)) -> faithful M (dp_samples C) eps (mem (base s)) ->
  approximates s (fun x : dmem => v_val (d_dp x)) (fun x : dcmem => v_val (dc_dp x)) V (sampling_error eps Hb Rw).
Proof.
  exact (fun U => dp_near seqb aeqb seqb_ok aeqb_ok C M NoTT Env (dents aeqb C M) d_dp dc_dp (dents_part aeqb C M U)
    (fun x : dmem => match x with mkDm _ _ _ (mkVm _ _) _ _ => eq_refl end) (dents_dp_counter aeqb C M U) Hb Rw Bd V Sv).
Qed.
Theorem C89_est : muse_dp M = true -> forall n g s eps, areach (est aeqb C M) n g s -> quiet (base s) -> 0 <= eps ->
  explored (mem (base s)) -> faithful M (dp_samples C) eps (mem (base s)) ->
  approximates s (fun x : dmem => v_val (d_dp x)) (fun x : dcmem => v_val (dc_dp x)) V (sampling_error eps Hb Rw).
Proof.
  exact (fun U => dp_near seqb aeqb seqb_ok aeqb_ok C M NoTT Env (est aeqb C M) d_dp dc_dp (est_part aeqb C M U)
    (fun x : dmem => match x with mkDm _ _ _ (mkVm _ _) _ _ => eq_refl end) (est_dp_counter aeqb C M U) Hb Rw Bd V Sv).
Qed.

(** Where actions have certain outcomes there is no error. *)
Section Certain.
Hypothesis Mok : ments_ok C M.
Hypothesis Det : deterministic C M.
Lemma sure : forall (G : @algo S A) n g s, areach G n g s -> quiet (base s) -> faithful M (dp_samples C) 0 (mem (base s)).
Proof using seqb_ok aeqb_ok NoTT Env Mok Det.
  intros G n g s R Q. apply (certain seqb aeqb seqb_ok aeqb_ok C M NoTT Env G Mok Det (dp_samples C) n g s R Q).
  intros c x o d node. exact (dp_weight seqb aeqb seqb_ok aeqb_ok C NoTT G n g s c x o d node R Q).
Qed.
Theorem C89_dbments_certain : forall n g s, areach (dbments aeqb C M) n g s -> quiet (base s) -> explored (mem (base s)) ->
  represents s (fun x : mmem * vmem => v_val (snd x)) (fun x : cmem * vmem => v_val (snd x)) V.
Proof. intros n g s R Q X. exact (exact_values _ _ _ _ _ _ _ _ _ _ Hb Rw (C89_dbments n g s 0 R Q (Rle_refl 0) X (sure _ n g s R Q))). Qed.
Theorem C89_dents_certain : muse_dp M = true -> forall n g s, areach (dents aeqb C M) n g s -> quiet (base s) -> explored (mem (base s)) ->
  represents s (fun x : dmem => v_val (d_dp x)) (fun x : dcmem => v_val (dc_dp x)) V.
Proof. intros U n g s R Q X. exact (exact_values _ _ _ _ _ _ _ _ _ _ Hb Rw (C89_dents U n g s 0 R Q (Rle_refl 0) X (sure _ n g s R Q))). Qed.
Theorem C89_est_certain : muse_dp M = true -> forall n g s, areach (est aeqb C M) n g s -> quiet (base s) -> explored (mem (base s)) ->
  represents s (fun x : dmem => v_val (d_dp x)) (fun x : dcmem => v_val (dc_dp x)) V.
Proof. intros U n g s R Q X. exact (exact_values _ _ _ _ _ _ _ _ _ _ Hb Rw (C89_est U n g s 0 R Q (Rle_refl 0) X (sure _ n g s R Q))). Qed.
End Certain.

(** ** Recommendations by these values *)
Section Recommend.
Hypothesis Mok : ments_ok C M.
Hypothesis ByValue : mmost_visited M = false.
Hypothesis All : (mthreshold M <= 1)%Z.
Variables hl hu rl ru : R.
Hypothesis Rg : range_ok C M hl hu rl ru.
Hypothesis Lo : dbl_lowest <= least_left C hl rl 0.
Hypothesis Hi : most_left C hu ru 0 <= - dbl_lowest.
(** The recommended action is worth what the best one is, up to twice that error ... *)
Notation good node err := (fun a => In a (acts C (dstate node)) /\
  Rabs (action_worth C M V node a - V (left_at C node) (dstate node) (dtime node)) <= 2 * err (left_at C node)).
Theorem C89_dbments_recommends : forall n g s eps d node, areach (dbments aeqb C M) n g s -> quiet (base s) -> 0 <= eps ->
  explored (mem (base s)) -> faithful M (dp_samples C) eps (mem (base s)) -> nth_error (dh (mem (base s))) d = Some node -> dkids node <> [] ->
  always (dbments_recommend aeqb C M node (dview s node)) (good node (sampling_error eps Hb Rw)).
Proof.
  intros n g s eps d node R Q E0 X F Hd NE g1 G1.
  destruct (picks_always _ _ _ _ (C80_dbments seqb aeqb seqb_ok aeqb_ok C M NoTT Env Mok ByValue All hl hu rl ru Rg Lo Hi n g s d node R Q Hd NE) g1 G1) as (k & g' & E1 & E2 & E3 & P).
  exists k, g'. repeat (split; [assumption|]).
  exact (first_near seqb aeqb seqb_ok aeqb_ok C M NoTT Env (dbments aeqb C M) snd snd (dbments_part aeqb C M)
    (fun x : mmem * vmem => match x with (mkMm _ _ _, mkVm _ _) => eq_refl end) (dbments_dp_counter aeqb C M) Hb Rw Bd V Sv n g s eps d node k R Q E0 X F Hd NE P).
Qed.
Theorem C89_dents_recommends : muse_dp M = true -> forall n g s eps d node, areach (dents aeqb C M) n g s -> quiet (base s) -> 0 <= eps ->
  explored (mem (base s)) -> faithful M (dp_samples C) eps (mem (base s)) -> nth_error (dh (mem (base s))) d = Some node -> dkids node <> [] ->
  always (dents_recommend aeqb C M node (dview s node)) (good node (sampling_error eps Hb Rw)).
Proof.
  intros U n g s eps d node R Q E0 X F Hd NE g1 G1.
  destruct (picks_always _ _ _ _ (C80_dents seqb aeqb seqb_ok aeqb_ok C M NoTT Env Mok ByValue All hl hu rl ru Rg Lo Hi U n g s d node R Q Hd NE) g1 G1) as (k & g' & E1 & E2 & E3 & P).
  exists k, g'. repeat (split; [assumption|]).
  exact (first_near seqb aeqb seqb_ok aeqb_ok C M NoTT Env (dents aeqb C M) d_dp dc_dp (dents_part aeqb C M U)
    (fun x : dmem => match x with mkDm _ _ _ (mkVm _ _) _ _ => eq_refl end) (dents_dp_counter aeqb C M U) Hb Rw Bd V Sv n g s eps d node k R Q E0 X F Hd NE P).
Qed.
Theorem C89_est_recommends : muse_dp M = true -> forall n g s eps d node, areach (est aeqb C M) n g s -> quiet (base s) -> 0 <= eps ->
  explored (mem (base s)) -> faithful M (dp_samples C) eps (mem (base s)) -> nth_error (dh (mem (base s))) d = Some node -> dkids node <> [] ->
  always (dents_recommend aeqb C M node (dview s node)) (good node (sampling_error eps Hb Rw)).
Proof.
  intros U n g s eps d node R Q E0 X F Hd NE g1 G1.
  destruct (picks_always _ _ _ _ (C80_est seqb aeqb seqb_ok aeqb_ok C M NoTT Env Mok ByValue All hl hu rl ru Rg Lo Hi U n g s d node R Q Hd NE) g1 G1) as (k & g' & E1 & E2 & E3 & P).
  exists k, g'. repeat (split; [assumption|]).
  exact (first_near seqb aeqb seqb_ok aeqb_ok C M NoTT Env (est aeqb C M) d_dp dc_dp (est_part aeqb C M U)
    (fun x : dmem => match x with mkDm _ _ _ (mkVm _ _) _ _ => eq_refl end) (est_dp_counter aeqb C M U) Hb Rw Bd V Sv n g s eps d node k R Q E0 X F Hd NE P).
Qed.
(** ... and where actions have certain outcomes it is any of the best ones. *)
Hypothesis Det : deterministic C M.
Notation best node := (fun a => In a (acts C (dstate node)) /\ action_worth C M V node a = V (left_at C node) (dstate node) (dtime node)).
Theorem C89_dbments_recommends_best : forall n g s d node, areach (dbments aeqb C M) n g s -> quiet (base s) ->
  explored (mem (base s)) -> nth_error (dh (mem (base s))) d = Some node -> dkids node <> [] ->
  picks (dbments_recommend aeqb C M node (dview s node)) (best node).
Proof.
  intros n g s d node R Q X Hd NE.
  refine (TreeResults.picks_iff _ _ _ _ _ (fun a => first_exact seqb aeqb seqb_ok aeqb_ok C M NoTT Env (dbments aeqb C M) snd snd (dbments_part aeqb C M)
    (fun x : mmem * vmem => match x with (mkMm _ _ _, mkVm _ _) => eq_refl end) (dbments_dp_counter aeqb C M) Hb Rw Bd V Sv n g s d node a R Q X (sure Mok Det _ n g s R Q) Hd NE)
    (C80_dbments seqb aeqb seqb_ok aeqb_ok C M NoTT Env Mok ByValue All hl hu rl ru Rg Lo Hi n g s d node R Q Hd NE)).
Qed.
Theorem C89_dents_recommends_best : muse_dp M = true -> forall n g s d node, areach (dents aeqb C M) n g s -> quiet (base s) ->
  explored (mem (base s)) -> nth_error (dh (mem (base s))) d = Some node -> dkids node <> [] ->
  picks (dents_recommend aeqb C M node (dview s node)) (best node).
Proof.
  intros U n g s d node R Q X Hd NE.
  refine (TreeResults.picks_iff _ _ _ _ _ (fun a => first_exact seqb aeqb seqb_ok aeqb_ok C M NoTT Env (dents aeqb C M) d_dp dc_dp (dents_part aeqb C M U)
    (fun x : dmem => match x with mkDm _ _ _ (mkVm _ _) _ _ => eq_refl end) (dents_dp_counter aeqb C M U) Hb Rw Bd V Sv n g s d node a R Q X (sure Mok Det _ n g s R Q) Hd NE)
    (C80_dents seqb aeqb seqb_ok aeqb_ok C M NoTT Env Mok ByValue All hl hu rl ru Rg Lo Hi U n g s d node R Q Hd NE)).
Qed.
Theorem C89_est_recommends_best : muse_dp M = true -> forall n g s d node, areach (est aeqb C M) n g s -> quiet (base s) ->
  explored (mem (base s)) -> nth_error (dh (mem (base s))) d = Some node -> dkids node <> [] ->
  picks (dents_recommend aeqb C M node (dview s node)) (best node).
Proof.
  intros U n g s d node R Q X Hd NE.
  refine (TreeResults.picks_iff _ _ _ _ _ (fun a => first_exact seqb aeqb seqb_ok aeqb_ok C M NoTT Env (est aeqb C M) d_dp dc_dp (est_part aeqb C M U)
    (fun x : dmem => match x with mkDm _ _ _ (mkVm _ _) _ _ => eq_refl end) (est_dp_counter aeqb C M U) Hb Rw Bd V Sv n g s d node a R Q X (sure Mok Det _ n g s R Q) Hd NE)
    (C80_est seqb aeqb seqb_ok aeqb_ok C M NoTT Env Mok ByValue All hl hu rl ru Rg Lo Hi U n g s d node R Q Hd NE)).
Qed.
End Recommend.
End Best.

(** ** Soft values *)
(** At a fixed temperature the soft values of MENTS and DB-MENTS are in the same way those of the environment in which
    whoever moves is paid the temperature times the entropy of their choice. [N] bounds the number of actions. *)
Section Fixed.
Hypothesis Pok : prior_ok C M.
Hypothesis Tp : 0 < mtemp M.
Hypothesis Dn : mdecay M = None.
Section Soft.
Variable N : R.
Hypothesis Few : few_actions C N.
Variable V : nat -> S -> Z -> R.
Hypothesis Sv : solves C M (greatest_mixed (entropy_bonus (mtemp M))) V.
Theorem C89_ments : forall n g s eps, areach (ments aeqb C M) n g s -> quiet (base s) -> 0 <= eps ->
  explored (mem (base s)) -> faithful M (samples C) eps (mem (base s)) ->
  approximates s m_soft c_soft V (sampling_error eps Hb (Rw + mtemp M * ln N)).
Proof.
  exact (soft_near seqb aeqb seqb_ok aeqb_ok C M NoTT Env (proj1 Pok) Tp Dn (ments aeqb C M) _ _ (ments_soft aeqb C M) (ments_counter aeqb C M) N Few Hb Rw Bd V Sv).
Qed.
Theorem C89_dbments_soft : forall n g s eps, areach (dbments aeqb C M) n g s -> quiet (base s) -> 0 <= eps ->
  explored (mem (base s)) -> faithful M (samples C) eps (mem (base s)) ->
  approximates s (fun x : mmem * vmem => m_soft (fst x)) (fun x : cmem * vmem => c_soft (fst x)) V (sampling_error eps Hb (Rw + mtemp M * ln N)).
Proof.
  exact (soft_near seqb aeqb seqb_ok aeqb_ok C M NoTT Env (proj1 Pok) Tp Dn (dbments aeqb C M) _ _ (dbments_soft aeqb C M) (dbments_counter aeqb C M) N Few Hb Rw Bd V Sv).
Qed.
Theorem C89_ments_certain : ments_ok C M -> deterministic C M -> forall n g s, areach (ments aeqb C M) n g s -> quiet (base s) -> explored (mem (base s)) ->
  represents s m_soft c_soft V.
Proof.
  intros Mok Det n g s R Q X. refine (exact_values _ _ _ _ _ _ _ _ _ _ _ _ (C89_ments n g s 0 R Q (Rle_refl 0) X _)).
  apply (certain seqb aeqb seqb_ok aeqb_ok C M NoTT Env _ Mok Det (samples C) n g s R Q).
  intros c x o d node. exact (soft_weight seqb aeqb seqb_ok aeqb_ok C M NoTT Env (ments aeqb C M) _ (ments_counter aeqb C M) n g s c x o d node R Q X).
Qed.
Theorem C89_dbments_soft_certain : ments_ok C M -> deterministic C M -> forall n g s, areach (dbments aeqb C M) n g s -> quiet (base s) -> explored (mem (base s)) ->
  represents s (fun x : mmem * vmem => m_soft (fst x)) (fun x : cmem * vmem => c_soft (fst x)) V.
Proof.
  intros Mok Det n g s R Q X. refine (exact_values _ _ _ _ _ _ _ _ _ _ _ _ (C89_dbments_soft n g s 0 R Q (Rle_refl 0) X _)).
  apply (certain seqb aeqb seqb_ok aeqb_ok C M NoTT Env _ Mok Det (samples C) n g s R Q).
  intros c x o d node. exact (soft_weight seqb aeqb seqb_ok aeqb_ok C M NoTT Env (dbments aeqb C M) _ (dbments_counter aeqb C M) n g s c x o d node R Q X).
Qed.
End Soft.
(** Those of TENTS, if they are paid the sparse entropy. *)
Section Sparse.
Variable V : nat -> S -> Z -> R.
Hypothesis Sv : solves C M (greatest_mixed (sparse_bonus (mtemp M))) V.
Theorem C89_tents : forall n g s eps, areach (tents aeqb C M) n g s -> quiet (base s) -> 0 <= eps ->
  explored (mem (base s)) -> faithful M (samples C) eps (mem (base s)) ->
  approximates s (fun x : @tmem A => m_soft (t_m x)) c_soft V (sampling_error eps Hb (Rw + mtemp M / 2)).
Proof. exact (tents_near seqb aeqb seqb_ok aeqb_ok C M NoTT Env Pok Tp Dn Hb Rw Bd V Sv). Qed.
Theorem C89_tents_certain : ments_ok C M -> deterministic C M -> forall n g s, areach (tents aeqb C M) n g s -> quiet (base s) -> explored (mem (base s)) ->
  represents s (fun x : @tmem A => m_soft (t_m x)) c_soft V.
Proof.
  intros Mok Det n g s R Q X. refine (exact_values _ _ _ _ _ _ _ _ _ _ _ _ (C89_tents n g s 0 R Q (Rle_refl 0) X _)).
  apply (certain seqb aeqb seqb_ok aeqb_ok C M NoTT Env _ Mok Det (samples C) n g s R Q).
  intros c x o d node. exact (soft_weight seqb aeqb seqb_ok aeqb_ok C M NoTT Env (tents aeqb C M) _ (tents_counter aeqb C M) n g s c x o d node R Q X).
Qed.
End Sparse.
End Fixed.
End Theorems.

Print Assumptions C89_values_exist.
Print Assumptions C89_soft_values_exist.
Print Assumptions C89_sparse_values_exist.
Print Assumptions C89_values_unique.
Print Assumptions C89_mixed_values_unique.
Print Assumptions C89_dbments.
Print Assumptions C89_dents.
Print Assumptions C89_est.
Print Assumptions C89_dbments_certain.
Print Assumptions C89_dents_certain.
Print Assumptions C89_est_certain.
Print Assumptions C89_dbments_recommends.
Print Assumptions C89_dents_recommends.
Print Assumptions C89_est_recommends.
Print Assumptions C89_dbments_recommends_best.
Print Assumptions C89_dents_recommends_best.
Print Assumptions C89_est_recommends_best.
Print Assumptions C89_ments.
Print Assumptions C89_dbments_soft.
Print Assumptions C89_ments_certain.
Print Assumptions C89_dbments_soft_certain.
Print Assumptions C89_tents.
Print Assumptions C89_tents_certain.

(** ** Examples that meet the hypotheses *)
(** One decision between actions of rewards 3 and 5 ([two_conf]): after two trials EST has value 5, ... *)
Lemma two_env : env_ok two_conf two_mc.
Proof.
  constructor; cbn; try lia; try discriminate.
  - intros _. repeat constructor; cbn; intuition discriminate.
  - intros s a _ _. split; [|lra]. intros k w [[= <- <-]|[]]; lra.
Qed.
Lemma two_bounds : world_bounds two_conf two_mc 0 5.
Proof. split; [lra|]. split; [lra|]. split; [intros s; cbn; rewrite Rabs_R0; lra|]. intros s [|]; cbn; rewrite Rabs_pos_eq; lra. Qed.
Lemma two_det : deterministic two_conf two_mc.
Proof. intros s a _ _. exists true, 1. reflexivity. Qed.
Lemma two_ok : ments_ok two_conf two_mc.
Proof. split; [intros V m; apply Permutation.Permutation_refl|reflexivity]. Qed.
Example C89_witness : exists s x, areach Bool.eqb Bool.eqb two_conf (est Bool.eqb two_conf two_mc) 1 g_two s /\ quiet (base s) /\ explored Bool.eqb two_conf (mem (base s)) /\
  faithful two_mc (dp_samples two_conf) 0 (mem (base s)) /\ nth_error (xds s) 0 = Some x /\ v_val (d_dp x) = 5.
Proof.
  destruct two_est as (s & R & Q & _ & X). exists s.
  pose proof (sure Bool.eqb Bool.eqb bool_decides bool_decides two_conf two_mc eq_refl two_env two_ok two_det _ 1 g_two s R Q) as F.
  destruct (C89_values_exist two_conf two_mc two_env) as (V & Sv).
  pose proof (C89_est_certain Bool.eqb Bool.eqb bool_decides bool_decides two_conf two_mc eq_refl two_env 0 5 two_bounds V Sv two_ok two_det eq_refl 1 g_two s R Q X) as [H _].
  pose proof (proj1 (C12_well_formed Bool.eqb Bool.eqb bool_decides bool_decides _ _ _ (C08_algorithms_run_the_engine _ _ _ _ _ _ _ R))) as W.
  destruct (wf_root _ _ _ _ W) as (root & Hr & Hs & Hd & Ht).
  destruct (AlgoProofs.dh_some Bool.eqb Bool.eqb two_conf _ s 0%nat (AlgoProofs.areach_good Bool.eqb Bool.eqb bool_decides bool_decides two_conf _ _ _ _ R) ltac:(apply nth_error_Some; congruence)) as (_ & x & _ & Hx).
  exists x. repeat (split; [assumption|]). rewrite (H 0%nat root x Hr Hx). unfold left_at. rewrite Hs, Hd, Ht.
  change (V 1%nat false 0%Z = 5). destruct Sv as [_ S0 S1]. specialize (S1 0%nat false 0%Z eq_refl).
  cbn -[IZR expected] in S1. unfold to_mover, expected, rsum_of, rsum in S1. cbn -[IZR] in S1. rewrite S0 in S1 by reflexivity. cbn -[IZR] in S1. unfold initial in S1. cbn -[IZR] in S1.
  destruct S1 as [([|] & _ & E) Mx]; [|lra]. specialize (Mx false ltac:(right; now left)). cbn -[IZR] in Mx. lra.
Qed.
(** ... and MENTS, at temperature 1, ln (exp 3 + exp 5). *)
Example C89_soft_witness : exists s x, areach Bool.eqb Bool.eqb two_conf (ments Bool.eqb two_conf two_mc) 1 g_two s /\ quiet (base s) /\ explored Bool.eqb two_conf (mem (base s)) /\
  nth_error (xds s) 0 = Some x /\ m_soft x = ln (exp 3 + exp 5).
Proof.
  destruct two_ments as (s & R & Q & _ & X). exists s.
  assert (Tp : 0 < mtemp two_mc) by (cbn; lra).
  destruct (C89_soft_values_exist two_conf two_mc two_env Tp) as (V & Sv).
  assert (Pok : prior_ok two_conf two_mc) by (split; [intros p [=]|left; cbn; lra]).
  assert (Few : few_actions two_conf 2) by (split; [lra|intros s0; cbn; lra]).
  pose proof (C89_ments_certain Bool.eqb Bool.eqb bool_decides bool_decides two_conf two_mc eq_refl two_env 0 5 two_bounds Pok Tp eq_refl 2 Few V Sv two_ok two_det 1 g_two s R Q X) as [H _].
  pose proof (proj1 (C12_well_formed Bool.eqb Bool.eqb bool_decides bool_decides _ _ _ (C08_algorithms_run_the_engine _ _ _ _ _ _ _ R))) as W.
  destruct (wf_root _ _ _ _ W) as (root & Hr & Hs & Hd & Ht).
  destruct (AlgoProofs.dh_some Bool.eqb Bool.eqb two_conf _ s 0%nat (AlgoProofs.areach_good Bool.eqb Bool.eqb bool_decides bool_decides two_conf _ _ _ _ R) ltac:(apply nth_error_Some; congruence)) as (_ & x & _ & Hx).
  exists x. repeat (split; [assumption|]). rewrite (H 0%nat root x Hr Hx). unfold left_at. rewrite Hs, Hd, Ht.
  change (V 1%nat false 0%Z = ln (exp 3 + exp 5)). destruct Sv as [_ S0 S1]. specialize (S1 0%nat false 0%Z eq_refl).
  change (acts two_conf false) with [true; false] in S1.
  match type of S1 with greatest_mixed _ ?l ?q _ => pose proof (soft_mixed _ 1 l q ltac:(lra) ltac:(discriminate)) as S2 end.
  match type of S1 with greatest_mixed _ _ _ ?v => match type of S2 with greatest_mixed _ _ _ ?w => assert (K : Rabs (v - w) <= 0) end end.
  { refine (mixed_lip _ _ _ _ _ _ _ 0 _ S1 S2 _); [discriminate|]. intros. rewrite Rminus_diag_eq by reflexivity. rewrite Rabs_R0. lra. }
  apply abs_inv in K. change (to_mover two_mc 0 (V 1%nat false 0%Z)) with (V 1%nat false 0%Z) in K.
  match type of K with context [soft_max 1 ?m] => assert (E : soft_max 1 m = ln (exp 3 + exp 5)) end.
  { unfold soft_max, to_mover, expected, rsum_of, rsum. cbn -[IZR]. rewrite S0 by reflexivity. unfold initial. cbn -[IZR].
    rewrite Rmult_1_l. f_equal. rewrite !Rplus_0_r. replace ((3 + 1 * 0) / 1) with 3 by field. replace ((5 + 1 * 0) / 1) with 5 by field. reflexivity. }
  rewrite E in K. lra.
Qed.
