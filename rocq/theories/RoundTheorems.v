(** C84, C85, C86: values of UCT computed in doubles; the heuristic without pseudo trials. *)
From Coq Require Import List ZArith Bool Reals Lia Lra.
From Coq Require Import Floats.SpecFloat.
From Verif Require Import Base BaseProofs NumOps HelperModel EngineModel EngineSpec EngineBound AlgoModel AlgoProofs UctModel UctSpec UctTheorems
  DoubleSpec DoubleProofs RoundModel RoundSpec RoundProofs RoundDouble RoundRun RoundResults RoundExamples.
Import ListNotations.
Open Scope R_scope.

(** ** C84: values computed in doubles are close to the exact averages *)

(** The model over real numbers is the model of UCT: the same averages, and the same returns. *)
Theorem C84_same_code :
  (forall x ret, nx_backup R_ops (mkNx (unb x) (uavg x)) ret = mkNx (unb (uct_backup x ret)) (uavg (uct_backup x ret))) /\
  (forall after, ret_after R_ops after = rsum after).
Proof.
  split; [reflexivity|]. intros after. destruct after as [|v l]; [reflexivity|]. cbn [ret_after rsum fold_right]. unfold rsum.
  revert v. induction l as [|x l IH]; intros v; cbn [fold_left fold_right]; [lra|]. rewrite IH. cbn [nadd R_ops fold_right]. lra.
Qed.

(** The operations of binary64 are the exact operations followed by one rounding, unless the result overflows. The
    rounding changes a number by at most the factor 2^-53 or by 2^-1075, respects the order and leaves doubles alone. *)
Theorem C84_doubles : exists near, rounding near u64 eta64 /\ orderly near /\
  (forall x, double x -> near (dval x) = dval x) /\
  (forall z, (Z.abs z <= 2 ^ 52)%Z -> double (nofZ F_ops z) /\ dval (nofZ F_ops z) = IZR z) /\
  (forall x y, double x -> double y ->
     (Rabs (dval x + dval y) <= powerRZ 2 1010 -> double (nadd F_ops x y) /\ dval (nadd F_ops x y) = near (dval x + dval y)) /\
     (Rabs (dval x - dval y) <= powerRZ 2 1010 -> double (nsub F_ops x y) /\ dval (nsub F_ops x y) = near (dval x - dval y)) /\
     (Rabs (dval x * dval y) <= powerRZ 2 1010 -> double (nmul F_ops x y) /\ dval (nmul F_ops x y) = near (dval x * dval y)) /\
     (dval y <> 0 -> Rabs (dval x / dval y) <= powerRZ 2 1010 -> double (ndiv F_ops x y) /\ dval (ndiv F_ops x y) = near (dval x / dval y))).
Proof.
  exists near. split; [exact near_rounding|]. split; [exact near_orderly|]. split; [exact near_dval|]. split; [exact small_int|].
  intros x y Dx Dy. repeat split; intros; try (apply add_rounds; auto; now apply near_fits); try (apply sub_rounds; auto; now apply near_fits);
    try (apply mul_rounds; auto; now apply near_fits); try (apply div_rounds; auto; now apply near_fits).
Qed.

Section Theorems.
Context {S A : Type}.
Variable seqb : S -> S -> bool.
Variable aeqb : A -> A -> bool.
Hypothesis seqb_ok : decides seqb.
Hypothesis aeqb_ok : decides aeqb.
Variable C : @econf S A.
Variable U : @uconf S A.
Hypothesis depth_ok : (0 <= max_depth C < 2 ^ 31)%Z.
Hypothesis pseudo_ok : (0 <= upseudo U)%Z.

(** At every moment of every search, whatever action and outcome each visit chooses: the value of a node is a finite
    double, and differs from the exact mean of the returns (with the heuristic counted as often as there are pseudo
    trials) by at most (2 nb + 2 L + 5) 2^-52 times the largest possible return L rho, where L - 1 is the depth limit and
    rho bounds rewards and heuristic values. *)
Theorem C84_double_values : forall enc rho sel smp, double_env C enc rho -> powerRZ 2 (-900) <= rho <= powerRZ 2 900 ->
  forall n g s, areach seqb aeqb C (uct_over C U F_ops enc sel smp) n g s ->
  let L := (max_depth C + 1)%Z in
  let err nb := IZR (2 * nb + 2 * L + 5) * powerRZ 2 (-52) * (IZR L * rho) in
  (forall d node x, nth_error (dh (mem (base s))) d = Some node -> nth_error (xds s) d = Some x -> (nnb x <= 2 ^ 31)%Z ->
     double (navg x) /\
     near_mean (err (nnb x)) (pseudo C U) (dheur node) (returns_d d (etrace (base s))) (nnb x) (dval (navg x))) /\
  (forall c x, nth_error (xcs s) c = Some x -> (nnb x <= 2 ^ 31)%Z ->
     double (navg x) /\
     near_mean (err (nnb x)) 0 0 (returns_c c (etrace (base s))) (nnb x) (dval (navg x))).
Proof.
  intros enc rho sel smp Env [H1 H2] n g s R L err.
  exact (double_values seqb aeqb seqb_ok aeqb_ok C U (proj1 depth_ok) pseudo_ok enc rho Env H1 sel smp H2 (proj2 depth_ok) n g s R).
Qed.

(** The same for every arithmetic whose results are rounded by at most the factor [u] or by [eta]: other floating-point
    formats, other rounding modes, flushing to zero. *)
Theorem C84_rounded_values : forall rnd u eta rho sel smp, rounding rnd u eta -> 0 <= rho ->
  (forall st a o, Rabs (rwd C st a o) <= rho) -> (forall h st, heuristic C = Some h -> Rabs (h st) <= rho) ->
  forall n g s, areach seqb aeqb C (uct_over C U (rnd_ops rnd) (fun r => r) sel smp) n g s ->
  let L := (max_depth C + 1)%Z in
  let err nb := IZR (2 * nb + 2 * L + 5) * (u * (IZR L * rho) + 2 * eta) in
  (forall d node x, nth_error (dh (mem (base s))) d = Some node -> nth_error (xds s) d = Some x ->
     err (nnb x) <= IZR L * rho / 8 ->
     near_mean (err (nnb x)) (pseudo C U) (dheur node) (returns_d d (etrace (base s))) (nnb x) (navg x)) /\
  (forall c x, nth_error (xcs s) c = Some x -> err (nnb x) <= IZR L * rho / 8 ->
     near_mean (err (nnb x)) 0 0 (returns_c c (etrace (base s))) (nnb x) (navg x)).
Proof.
  intros rnd u eta rho sel smp Rd H0 Hr Hh n g s R L err.
  exact (rounded_values seqb aeqb seqb_ok aeqb_ok C U (proj1 depth_ok) pseudo_ok rnd u eta rho Rd H0 Hr Hh sel smp n g s R).
Qed.

(** ** C85: values computed in doubles stay within the range of the returns *)

(** If all returns of a node, as the code adds them up, are doubles in [lo, hi], then so is its value: there is no drift,
    however many trials are run. This needs a heuristic value in the range that counts (at least one pseudo trial), or
    no heuristic (or heuristic value 0) and at least one backup. *)
Theorem C85_range : forall enc rho sel smp lo hi, double_env C enc rho -> powerRZ 2 (-900) <= rho ->
  - powerRZ 2 1000 <= lo -> hi <= powerRZ 2 1000 ->
  forall n g s, areach seqb aeqb C (uct_over C U F_ops enc sel smp) n g s ->
  (forall d node x, nth_error (dh (mem (base s))) d = Some node -> nth_error (xds s) d = Some x -> (nnb x <= 2 ^ 52)%Z ->
     (forall after, In after (afters_d d (etrace (base s))) -> in_range lo hi (ret_after F_ops (map enc after))) ->
     (1 <= pseudo C U)%Z /\ lo <= dheur node <= hi \/ dheur node = 0 /\ pseudo C U = 0%Z /\ afters_d d (etrace (base s)) <> [] ->
     in_range lo hi (navg x)) /\
  (forall c x, nth_error (xcs s) c = Some x -> (nnb x <= 2 ^ 52)%Z ->
     (forall after, In after (afters_c c (etrace (base s))) -> in_range lo hi (ret_after F_ops (map enc after))) ->
     afters_c c (etrace (base s)) <> [] -> in_range lo hi (navg x)).
Proof.
  intros enc rho sel smp lo hi Env H0 Hlo Hhi.
  exact (double_range seqb aeqb seqb_ok aeqb_ok C U (proj1 depth_ok) pseudo_ok enc rho Env H0 sel smp lo hi Hlo Hhi).
Qed.

(** With integer rewards and heuristic values the computed returns are the true returns, so values lie within the range
    of the true returns; in particular a node all of whose returns are equal to [r] has exactly the value [r]. *)
Theorem C85_integer_rewards : forall enc M sel smp lo hi, integer_env C M -> (1 <= M)%Z -> ((max_depth C + 1) * M <= 2 ^ 52)%Z ->
  double_env C enc (IZR M) -> - powerRZ 2 1000 <= lo -> hi <= powerRZ 2 1000 ->
  forall n g s, areach seqb aeqb C (uct_over C U F_ops enc sel smp) n g s ->
  (forall d node x, nth_error (dh (mem (base s))) d = Some node -> nth_error (xds s) d = Some x -> (nnb x <= 2 ^ 52)%Z ->
     (forall r, In r (returns_d d (etrace (base s))) -> lo <= r <= hi) ->
     (1 <= pseudo C U)%Z /\ lo <= dheur node <= hi \/ dheur node = 0 /\ pseudo C U = 0%Z /\ returns_d d (etrace (base s)) <> [] ->
     in_range lo hi (navg x)) /\
  (forall c x, nth_error (xcs s) c = Some x -> (nnb x <= 2 ^ 52)%Z ->
     (forall r, In r (returns_c c (etrace (base s))) -> lo <= r <= hi) ->
     returns_c c (etrace (base s)) <> [] -> in_range lo hi (navg x)).
Proof.
  intros enc M sel smp lo hi [Ir Ih] HM Hs Env Hlo Hhi n g s R.
  assert (H0 : powerRZ 2 (-900) <= IZR M).
  { apply Rle_trans with (powerRZ 2 0); [apply pow_mono; lia|]. rewrite powerRZ_O. now apply IZR_le. }
  destruct (C85_range enc (IZR M) sel smp lo hi Env H0 Hlo Hhi n g s R) as (P1 & P2).
  destruct (tame_afters seqb aeqb seqb_ok aeqb_ok C U (proj1 depth_ok) enc sel smp n g s R) as (T1 & T2).
  assert (Ex : forall after r, EngineAfter.tame_list C after r -> double (ret_after F_ops (map enc after)) /\ dval (ret_after F_ops (map enc after)) = r).
  { intros after r T. exact (int_after C (proj1 depth_ok) enc (IZR M) Env M after r HM Ir Ih Hs (proj2 depth_ok) eq_refl T). }
  split.
  - intros d node x Hd Hx Hn Hr Hc. eapply P1; eauto.
    + intros after Q. destruct (T1 _ _ Q) as (T & I). destruct (Ex _ _ T) as (D & E). split; auto. rewrite E. auto.
    + destruct Hc as [Hc|(Q1 & Q2 & Q3)]; [auto|]. right. repeat split; auto. intros E. apply Q3. now apply afters_nil.
  - intros c x Hx Hn Hr Hc. eapply P2; eauto.
    + intros after Q. destruct (T2 _ _ Q) as (T & I). destruct (Ex _ _ T) as (D & E). split; auto. rewrite E. auto.
    + intros E. apply Hc. now apply afters_nil_c.
Qed.
End Theorems.

(** With a heuristic but without pseudo trials (the default of heuristic_psuedo_trials is 0) this is false: the heuristic
    value is the start of the average. It cancels in real numbers but not in doubles. Here it is 2^60, and the value of
    the root is 0 although its only return is 1 (integer rewards, and even the exact mean is 1). *)
Theorem C85_zero_pseudo_trials_refuted : exists (C : @econf bool bool) U enc sel smp s x,
  (0 <= max_depth C < 2 ^ 31)%Z /\ upseudo U = 0%Z /\ double_env C enc (IZR (2 ^ 60)) /\ integer_env C (2 ^ 60) /\
  areach Bool.eqb Bool.eqb C (uct_over C U F_ops enc sel smp) 1 g_ex s /\ quiet (base s) /\
  nth_error (xds s) 0 = Some x /\ nnb x = 1%Z /\ returns_d 0 (etrace (base s)) = [1] /\ double (navg x) /\ dval (navg x) = 0.
Proof.
  destruct drift as (s & node & R & Q & N & T & _ & X).
  exists (one_conf (IZR (2 ^ 60)) 0 1), (one_uct 0), enc60, only_sel, only_smp, s. eexists. split; [cbn; lia|]. split; [reflexivity|].
  split.
  { constructor.
    - intros st a o. cbn. rewrite enc60_1. destruct (small_int 1) as (D & E); [cbn; lia|]. split; auto. split; auto.
      rewrite Rabs_R1. apply (IZR_le 1). lia.
    - intros h st Eh. assert (h = (fun s : bool => if s then 0 else IZR (2 ^ 60))) as -> by (unfold one_conf in Eh; cbn [heuristic] in Eh; congruence). destruct st.
      + rewrite enc60_0, Rabs_R0. split; [apply double_zero|]. split; auto. apply (IZR_le 0). lia.
      + rewrite enc60_60. destruct big_int. split; auto. split; auto. rewrite <- abs_IZR. apply IZR_le. lia.
    - rewrite enc60_0. split; [apply double_zero|reflexivity]. }
  split.
  { split; [intros st a o; exists 1%Z; split; [auto|cbn; lia]|]. intros h st Eh. assert (h = (fun s : bool => if s then 0 else IZR (2 ^ 60))) as -> by (unfold one_conf in Eh; cbn [heuristic] in Eh; congruence).
    destruct st; [exists 0%Z|exists (2 ^ 60)%Z]; split; auto; lia. }
  split; [exact R|]. split; [exact Q|]. split; [exact X|]. split; [reflexivity|]. split; [rewrite T; f_equal; lra|].
  split; [apply double_zero|reflexivity].
Qed.

(** ** C86: no pseudo trials *)

(** "A value of zero indicates that the heuristic function should be ignored entirely" is false: the heuristic value of
    the state in which a trial ends is always added to the returns. After one trial of one step with reward 1 the root
    has the value 1 + h, where h is the heuristic value of the next state. *)
Theorem C86_heuristic_ignored_refuted : exists (C : R -> @econf bool bool) U,
  (forall h, C h = mkConf (is_sink (C 0)) (acts (C 0)) (succs (C 0)) (rwd (C 0)) (heuristic (C h)) (max_depth (C 0)) (mcts_mode (C 0))
                     (use_tt (C 0)) (init_visits (C 0)) (root_state (C 0)) (root_time (C 0))) /\
  upseudo U = 0%Z /\ uct_ok (C 0) U /\ uct_ok (C 5) U /\
  forall h, exists s x, areach Bool.eqb Bool.eqb (C h) (uct Bool.eqb (C h) U) 1 g_ex s /\ quiet (base s) /\
    count is_done (etrace (base s)) = 1%Z /\ nth_error (xds s) 0 = Some x /\ uavg x = h + 1.
Proof.
  exists (fun h => one_conf 0 h 1), (one_uct 0). split; [reflexivity|]. split; [reflexivity|].
  assert (K : forall h, uct_ok (one_conf 0 h 1) (one_uct 0)).
  { intros h. split; [intros V m; apply Permutation.Permutation_refl|]. split; [reflexivity|]. split; [cbn; lia|reflexivity]. }
  split; [apply K|]. split; [apply K|]. exact end_value.
Qed.

(** What holds: without pseudo trials the value of a node that was backed up is the plain mean of its returns; the
    node's own heuristic value does not count. *)
Theorem C86_own_heuristic_ignored_partial : forall S A seqb aeqb, decides seqb -> decides aeqb -> forall (C : @econf S A) U,
  uct_ok C U -> upseudo U = 0%Z -> forall n g s, areach seqb aeqb C (uct aeqb C U) n g s ->
  forall d x, nth_error (xds s) d = Some x -> returns_d d (etrace (base s)) <> [] ->
  uavg x * IZR (Z.of_nat (length (returns_d d (etrace (base s))))) = rsum (returns_d d (etrace (base s))).
Proof.
  intros S A seqb aeqb Ds Da C U Ok Up n g s R d x Hx Hr.
  destruct (C18_value_is_mean seqb aeqb Ds Da C U Ok n g s R) as (H & _).
  pose proof (areach_good seqb aeqb Ds Da C (uct aeqb C U) _ _ _ R) as I.
  assert (X : exists y, nth_error (dh (mem (base s))) d = Some y).
  { pose proof I as [_ _ Lc _ _]. destruct (nth_error (dh (mem (base s))) d) eqn:Z; [eauto|]. apply nth_error_None in Z.
    assert (d < length (xds s))%nat by (apply nth_error_Some; congruence). lia. }
  destruct X as (y & Hy). destruct (H _ _ _ Hy Hx) as (E1 & _ & E2).
  assert (Ep : pseudo C U = 0%Z) by (unfold pseudo; destruct (heuristic C); auto). rewrite Ep in *. rewrite Z.add_0_l in E1.
  assert (Ln : (0 < Z.of_nat (length (returns_d d (etrace (base s)))))%Z).
  { destruct (returns_d d (etrace (base s))); [now elim Hr|]. cbn [length]. lia. }
  rewrite E2 by lia. rewrite E1. field. apply IZR_neq. lia.
Qed.

Print Assumptions C84_same_code.
Print Assumptions C84_doubles.
Print Assumptions C84_double_values.
Print Assumptions C84_rounded_values.
Print Assumptions C85_range.
Print Assumptions C85_integer_rewards.
Print Assumptions C85_zero_pseudo_trials_refuted.
Print Assumptions C86_heuristic_ignored_refuted.
Print Assumptions C86_own_heuristic_ignored_partial.

(** ** Examples that meet the hypotheses *)
(** Reward 1, heuristic value 0 counted once: after one trial the root has the value 1/2. *)
Example C84_witness : let C := one_conf 0 0 1 in
  (0 <= max_depth C < 2 ^ 31)%Z /\ (0 <= upseudo (one_uct 1))%Z /\ double_env C enc60 1 /\ powerRZ 2 (-900) <= 1 <= powerRZ 2 900 /\
  integer_env C 1 /\ ((max_depth C + 1) * 1 <= 2 ^ 52)%Z /\
  exists s node x, areach Bool.eqb Bool.eqb C (uct_over C (one_uct 1) F_ops enc60 only_sel only_smp) 1 g_ex s /\
    nth_error (dh (mem (base s))) 0 = Some node /\ nth_error (xds s) 0 = Some x /\ nnb x = 2%Z /\ dval (navg x) = 1/2 /\
    returns_d 0 (etrace (base s)) = [1] /\ dheur node = 0 /\ pseudo C (one_uct 1) = 1%Z.
Proof.
  split; [cbn; lia|]. split; [cbn; lia|]. split; [|split; [|split; [|split; [cbn; lia|]]]].
  - constructor.
    + intros st a o. cbn. rewrite enc60_1. destruct (small_int 1) as (D & E); [cbn; lia|]. rewrite Rabs_R1. split; auto. split; auto. lra.
    + intros h st [= <-]. replace (if st then 0 else 0) with 0 by (now destruct st). rewrite enc60_0, Rabs_R0. split; [apply double_zero|]. split; [auto|lra].
    + rewrite enc60_0. split; [apply double_zero|reflexivity].
  - rewrite <- (powerRZ_O 2). split; apply pow_mono; lia.
  - split; [intros st a o; exists 1%Z; split; auto; cbn; lia|]. intros h st [= <-]. exists 0%Z. split; [now destruct st|cbn; lia].
  - set (C := one_conf 0 0 1). set (G := uct_over C (one_uct 1) F_ops enc60 only_sel only_smp).
    destruct (one_trial 0 0 1 G g_ex Datatypes.tt Datatypes.tt g_ex g_ex
      (nx_backup F_ops (mkNx 0%Z (S754_zero false)) (ret_after F_ops [enc60 0; enc60 1]))
      (nx_backup F_ops (mkNx 1%Z (S754_zero false)) (ret_after F_ops [S754_zero false; nofZ F_ops 1]))) as (s & R & Q & _ & N & X & T1 & T2); auto.
    + intros b E _. cbn. now rewrite E.
    + intros b E _. cbn. rewrite E. cbn [map]. rewrite enc60_0, enc60_1. unfold nx_new_d. cbn. rewrite ?enc60_0. reflexivity.
    + exists s. eexists. eexists. split; [exact R|]. split; [exact N|]. split; [exact X|]. split; [reflexivity|]. split.
      { replace (navg _) with (S754_finite false 4503599627370496 (-53)) by (vm_compute; reflexivity). unfold dval.
        assert (P : powerRZ 2 52 * powerRZ 2 (-52) = 1) by (rewrite <- powerRZ_add by lra; reflexivity).
        pose proof (half_pow (-52)) as H. change (-52 + -1)%Z with (-53)%Z in H. rewrite H.
        assert (K : IZR 4503599627370496 = powerRZ 2 52) by (rewrite <- (zpow 52) by lia; reflexivity). rewrite K. lra. }
      split; [rewrite T1; f_equal; lra|]. split; reflexivity.
Qed.
Example C84_rounded_witness : rounding near u64 eta64 /\ IZR (2 * 2 + 2 * 2 + 5) * (u64 * (2 * 1) + 2 * eta64) <= 2 * 1 / 8.
Proof.
  split; [exact near_rounding|]. pose proof (round_u _ _ _ near_rounding) as U.
  assert (E : 2 * eta64 <= u64).
  { unfold eta64, u64. pose proof (half_pow (-1074)) as Q. change (-1074 + -1)%Z with (-1075)%Z in Q. rewrite Q.
    pose proof (pow_mono (-1074) (-53) ltac:(lia)). lra. }
  change (2 * 2 + 2 * 2 + 5)%Z with 13%Z. lra.
Qed.
