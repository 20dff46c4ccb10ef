(** C87: the values of MENTS computed in doubles. *)
From Coq Require Import List ZArith Bool Reals Lia Lra.
From Coq Require Import Floats.SpecFloat.
From Verif Require Import Base NumOps EngineModel EngineSpec MentsModel SoftSpec SoftProofs DoubleSpec DoubleProofs RoundExamples HelperModel UctModel
  LseModel LseSpec LseReal LseProofs LseExamples AvgDouble.
Import ListNotations.
Open Scope R_scope.

(** ** C87: soft values are computed without overflow, and close to the exact log-sum-exp *)

Section Same.
Context {S A : Type}.
Variable aeqb : A -> A -> bool.
Variable C : @econf S A.
Variable M : @mconf S A.

Lemma weight_loop_sum : forall (f : A -> R -> R) qs, snd (weight_loop aeqb f qs) = fold_left Rplus (map (fun p => f (fst p) (snd p)) qs) 0.
Proof.
  intros f qs. unfold weight_loop. generalize (@nil (A * R)) as m. generalize 0 as s. induction qs as [|p qs IH]; intros s m; [reflexivity|].
  cbn [fold_left map]. apply IH.
Qed.
(** The model over real numbers is the model of MENTS: the value of a decision node, computed from the Q values of its
    actions, and the value of a chance node, computed from the counts and values of its children. *)
Theorem C87_same_code :
  (forall n x kids qs, all_q (ments_q aeqb M n x kids) (acts C (dstate n)) = Ok qs ->
     ments_backup_d aeqb C M n x kids =
       Ok (mkMm (m_nb x + 1) (o_soft R_ops exp ln dbl_lowest (opp_coeff M n) (ments_temp M n) (map snd qs)) (m_off x))) /\
  (forall n x kids, c_soft (ments_backup_c M n x kids) =
     o_chance R_ops (mreward M (cstate n) (cact n)) (map (fun p => (m_nb (snd (snd p)), m_soft (snd (snd p)))) kids)) /\
  (forall l, o_avg R_ops l = avg_loop l) /\
  dval f_lowest = dbl_lowest.
Proof.
  split; [|split; [|split]].
  - intros n x kids qs E. unfold ments_backup_d. rewrite E. cbn [bind]. unfold ments_weights.
    assert (Nt : norm_term (ments_temp M n) qs = o_norm R_ops dbl_lowest (ments_temp M n) (map snd qs)).
    { clear E. unfold norm_term, o_norm. generalize dbl_lowest. induction qs as [|p l IH]; intros z; [reflexivity|]. cbn [fold_left map]. apply IH. }
    pose proof (weight_loop_sum (fun _ q => exp (q / ments_temp M n - norm_term (ments_temp M n) qs)) qs) as W.
    destruct (weight_loop _ _ _) as [w s] eqn:Ew. cbn [snd] in W. subst s. unfold soft_value, o_soft, o_sum, o_weights, o_args. rewrite Nt, !map_map. reflexivity.
  - reflexivity.
  - intros l. reflexivity.
  - unfold f_lowest, dval, dbl_lowest. rewrite <- zpow, <- opp_IZR, <- !mult_IZR by lia. apply f_equal. vm_compute. reflexivity.
Qed.
End Same.
Print Assumptions C87_same_code.

Section Doubles.
Variables fexp flog : F -> F.
Variable v : R.
Hypothesis Lm : libm fexp flog v.
Variables opp temp : F.
Variable qs : list F.
Variable Q : R.
Hypothesis Dt : double temp.
Hypothesis t_range : powerRZ 2 (-900) <= dval temp <= powerRZ 2 900.
Hypothesis Ho : opp = nofZ F_ops 1 \/ opp = nofZ F_ops (-1).
Hypothesis qs_ne : qs <> [].
Hypothesis qs_len : (Z.of_nat (length qs) <= 2 ^ 31)%Z.
Hypothesis Hq : forall q, In q qs -> double q /\ Rabs (dval q) <= Q.
Hypothesis Q_hi : Q <= powerRZ 2 900.
Hypothesis X_hi : Q / dval temp <= powerRZ 2 900.

Lemma opp_sign : double opp /\ (dval opp = 1 \/ dval opp = -1).
Proof using Ho.
  clear - Ho. destruct Ho as [-> | ->]; [destruct (small_int 1) as (D & V)|destruct (small_int (-1)) as (D & V)]; try lia; split; auto.
Qed.
(** The arguments of exp are doubles that are not positive, so it cannot overflow. The weights lie between 0 and 2, and
    their sum between 1/4 and 2^40, so the logarithm is taken of a positive number. The result is a finite double:
    neither an infinity nor NaN. *)
Theorem C87_finite :
  (forall a, In a (o_args F_ops f_lowest temp qs) -> double a /\ dval a <= 0) /\
  (forall w, In w (o_weights F_ops fexp f_lowest temp qs) -> double w /\ 0 <= dval w <= 2) /\
  (let sum := o_sum F_ops fexp f_lowest temp qs in double sum /\ / 4 <= dval sum <= powerRZ 2 40) /\
  double (o_soft F_ops fexp flog f_lowest opp temp qs).
Proof using All.
  destruct t_range as (T1 & T2). destruct opp_sign as (Do & So). split; [|split; [|split]].
  - intros a H. apply in_map_iff in H. destruct H as (q & <- & H). destruct (d_ok temp qs Q Dt T1 T2 qs_ne Hq X_hi q H) as (D & _ & N). now split.
  - apply (w_ok fexp flog v Lm temp qs Q Dt T1 T2 qs_ne Hq X_hi).
  - destruct (sum_ok fexp flog v Lm temp qs Q Dt T1 T2 qs_ne qs_len Hq X_hi) as (D & B & _). now split.
  - apply (soft_ok fexp flog v Lm opp temp qs Q (dval opp)); auto.
Qed.

(** The result differs from the log-sum-exp value of the same Q values by a multiple of the precision of doubles times
    the largest Q value, and by the temperature times the errors of exp, log and the summation. *)
Theorem C87_close : Q / dval temp <= powerRZ 2 50 ->
  let n := IZR (Z.of_nat (length qs)) in
  Rabs (dval (o_soft F_ops fexp flog f_lowest opp temp qs) - dval opp * soft_max (dval temp) (map dval qs))
    <= 10 * powerRZ 2 (-53) * Q + dval temp * (v * (5 + 2 * ln n) + 6 * n * powerRZ 2 (-53)).
Proof using All.
  intros X50 n. destruct t_range as (T1 & T2). destruct opp_sign as (Do & So).
  pose proof (soft_err fexp flog v Lm opp temp qs Q (dval opp) Dt T1 T2 Do eq_refl So qs_ne qs_len Hq Q_hi X_hi X50) as E. cbv zeta in E.
  unfold soft_max, rsum_of. rewrite !map_map in E |- *. exact E.
Qed.
End Doubles.
Print Assumptions C87_finite.
Print Assumptions C87_close.

(** The average of a chance node: finite, and close to the exact mean of the values of its children weighted by their
    counts. *)
Theorem C87_average : forall B l reward m,
  0 <= B <= powerRZ 2 900 -> (Z.of_nat (length l) <= 2 ^ 31)%Z -> (fold_right (fun p => Z.add (fst p)) 0 l <= 2 ^ 52)%Z ->
  Forall (fun p => (0 <= fst p <= 2 ^ 31)%Z /\ double (snd p) /\ Rabs (dval (snd p)) <= B) l ->
  double reward -> Rabs (dval reward) <= B ->
  weighted_mean (map (fun p => (fst p, dval (snd p))) l) m ->
  double (o_chance F_ops reward l) /\
  Rabs (dval (o_chance F_ops reward l) - (m + dval reward)) <= (10 * IZR (Z.of_nat (length l)) + 4) * (powerRZ 2 (-53) * B + powerRZ 2 (-1075)).
Proof.
  intros B l reward m (B0 & Bh) Hl Hs Fl Dr Hr Wm. destruct (avg_err B B0 Bh l Fl Hs Hl) as (D & E).
  assert (Cl : counts (map (fun p => (fst p, dval (snd p))) l)).
  { unfold counts. apply Forall_map. eapply Forall_impl; [|exact Fl]. cbn. tauto. }
  assert (m = avg_loop (map (fun p => (fst p, dval (snd p))) l)) as ->.
  { eapply weighted_mean_unique; [exact Wm|]. now apply avg_loop_mean. }
  set (V := avg_loop _) in *. set (n := IZR (Z.of_nat (length l))) in *.
  assert (AV : Rabs V <= B).
  { apply avg_loop_abs; auto. intros k x I. apply in_map_iff in I. destruct I as ([c y] & [= <- <-] & I). rewrite Forall_forall in Fl. now apply Fl in I. }
  destruct u_small as (U & U'). destruct eta_u as (E1 & E2). fold u64 eta64 in *.
  assert (Nl : 0 <= n <= powerRZ 2 31). { unfold n. rewrite <- zpow by lia. split; apply IZR_le; lia. }
  assert (uB : 0 <= u64 * B) by (apply Rmult_le_pos; lra).
  assert (nb : 10 * n * (u64 * B + eta64) <= / 100 * B + / 100).
  { assert (nu : 10 * n * u64 <= / 100).
    { assert (n * u64 <= powerRZ 2 (-22)).
      { apply Rle_trans with (powerRZ 2 31 * u64); [apply Rmult_le_compat_r; lra|]. unfold u64. rewrite <- powerRZ_add by lra. apply pow_mono. lia. }
      assert (powerRZ 2 (-22) <= / 1000). { apply Rle_trans with (powerRZ 2 (-10)); [apply pow_mono; lia|]. change (powerRZ 2 (-10)) with (/ 2 ^ 10). cbn [pow]. lra. }
      lra. }
    assert (10 * n * u64 * B <= / 100 * B) by (apply Rmult_le_compat_r; lra).
    assert (10 * n * eta64 <= 10 * n * u64) by (apply Rmult_le_compat_l; lra). lra. }
  assert (Aa : Rabs (dval (o_avg F_ops l) + dval reward) <= 3 * B + 1) by (apply abs_inv in E, AV, Hr; apply Rabs_le; lra).
  destruct (add_rounds (o_avg F_ops l) reward D Dr) as (D2 & V2).
  { apply fits. destruct (B950 B Bh) as (P1 & P2 & P3). assert (B <= powerRZ 2 940) by (eapply Rle_trans; [exact Bh|apply pow_mono; lia]).
    pose proof (pow_big 940 ltac:(lia)). lra. }
  split; [exact D2|]. change (o_chance F_ops reward l) with (SFadd Fprec Femax (o_avg F_ops l) reward).
  assert (Aa2 : Rabs (dval (o_avg F_ops l) + dval reward) <= 3 * B + 10 * n * eta64).
  { assert (10 * n * (u64 * B) <= B).
    { replace (10 * n * (u64 * B)) with (10 * n * u64 * B) by ring. rewrite <- (Rmult_1_l B) at 2. apply Rmult_le_compat_r; auto.
      assert (n * u64 <= powerRZ 2 (-22)).
      { apply Rle_trans with (powerRZ 2 31 * u64); [apply Rmult_le_compat_r; lra|]. unfold u64. rewrite <- powerRZ_add by lra. apply pow_mono. lia. }
      assert (powerRZ 2 (-22) <= / 1000). { apply Rle_trans with (powerRZ 2 (-10)); [apply pow_mono; lia|]. change (powerRZ 2 (-10)) with (/ 2 ^ 10). cbn [pow]. lra. }
      lra. }
    apply abs_inv in E, AV, Hr. apply Rabs_le. lra. }
  assert (Q : Rabs (dval (SFadd Fprec Femax (o_avg F_ops l) reward) - (dval (o_avg F_ops l) + dval reward)) <= u64 * (3 * B + 10 * n * eta64) + eta64).
  { rewrite V2. eapply Rle_trans; [apply (round_err _ _ _ near_rounding)|]. apply Rplus_le_compat_r, Rmult_le_compat_l; lra. }
  assert (u64 * (10 * n * eta64) <= eta64).
  { replace (u64 * (10 * n * eta64)) with (10 * n * u64 * eta64) by ring. rewrite <- (Rmult_1_l eta64) at 2. apply Rmult_le_compat_r; [lra|].
    assert (n * u64 <= powerRZ 2 (-22)).
    { apply Rle_trans with (powerRZ 2 31 * u64); [apply Rmult_le_compat_r; lra|]. unfold u64. rewrite <- powerRZ_add by lra. apply pow_mono. lia. }
    assert (powerRZ 2 (-22) <= / 1000). { apply Rle_trans with (powerRZ 2 (-10)); [apply pow_mono; lia|]. change (powerRZ 2 (-10)) with (/ 2 ^ 10). cbn [pow]. lra. }
    lra. }
  apply abs_inv in Q, E. apply Rabs_le. lra.
Qed.
Print Assumptions C87_average.

(** ** Witnesses *)

Lemma Rdiv1 : forall x, x / 1 = x.
Proof. intros. lra. Qed.
Lemma two_exp : forall k, 2 ^ k <= exp (INR k).
Proof.
  induction k as [|k IH]; [cbn; rewrite exp_0; lra|]. rewrite S_INR, exp_plus, <- tech_pow_Rmult. pose proof (exp_ineq1_le 1). pose proof (pow_lt 2 k ltac:(lra)). nra.
Qed.
(** There are exponential and logarithm functions as assumed, with an error of 2^-53. With temperature 1 and the Q values
    2000 and -2000 all hypotheses are met, although exp(2000) is far beyond the range of doubles. *)
Example C87_witness :
  libm exp64 log64 (powerRZ 2 (-53)) /\
  (let temp := nofZ F_ops 1 in let qs := [nofZ F_ops 2000; nofZ F_ops (-2000)] in
   double temp /\ powerRZ 2 (-900) <= dval temp <= powerRZ 2 900 /\
   (forall q, In q qs -> double q /\ Rabs (dval q) <= 2000) /\ 2000 / dval temp <= powerRZ 2 50 /\
   powerRZ 2 1024 < exp (dval (nofZ F_ops 2000)) /\
   Rabs (dval (o_soft F_ops exp64 log64 f_lowest (nofZ F_ops 1) temp qs) - soft_max 1 [2000; -2000]) <= / 10 ^ 10).
Proof.
  split; [exact libm64|]. cbv zeta.
  destruct (small_int 1 ltac:(lia)) as (D1 & V1). destruct (small_int 2000 ltac:(lia)) as (D2 & V2). destruct (small_int (-2000) ltac:(lia)) as (D3 & V3).
  assert (T : powerRZ 2 (-900) <= dval (nofZ F_ops 1) <= powerRZ 2 900).
  { rewrite V1. rewrite <- (powerRZ_O 2). split; apply pow_mono; lia. }
  assert (Hq : forall q, In q [nofZ F_ops 2000; nofZ F_ops (-2000)] -> double q /\ Rabs (dval q) <= 2000).
  { intros q [<-|[<-|[]]]; split; auto; [rewrite V2, Rabs_pos_eq|rewrite V3, Rabs_left]; lra. }
  assert (P11 : 2000 <= powerRZ 2 11) by (change (powerRZ 2 11) with (2 ^ 11); cbn [pow]; lra).
  assert (X : 2000 / dval (nofZ F_ops 1) <= powerRZ 2 50).
  { rewrite V1, Rdiv1. eapply Rle_trans; [exact P11|]. apply pow_mono. lia. }
  split; auto. split; auto. split; auto. split; auto. split.
  - rewrite V2. apply Rlt_le_trans with (2 ^ Pos.to_nat 2000); [|change (IZR 2000) with (IPR 2000); rewrite <- INR_IPR; apply two_exp].
    change (powerRZ 2 1024 < powerRZ 2 2000). change 2000%Z with (1024 + 976)%Z. rewrite powerRZ_add by lra. assert (0 < powerRZ 2 1024) by (apply powerRZ_lt; lra).
    assert (2 <= powerRZ 2 976). { apply Rle_trans with (powerRZ 2 1); [rewrite powerRZ_1; lra|apply pow_mono; lia]. } nra.
  - pose proof (C87_close exp64 log64 u64 libm64 (nofZ F_ops 1) (nofZ F_ops 1) [nofZ F_ops 2000; nofZ F_ops (-2000)] 2000 D1 T (or_introl eq_refl)
      ltac:(discriminate) ltac:(cbn; lia) Hq) as E. cbv zeta in E. cbn [length map] in E. rewrite V1, V2, V3 in E.
    rewrite Rmult_1_l in E. eapply Rle_trans; [apply E|].
    + eapply Rle_trans; [exact P11|]. apply pow_mono. lia.
    + rewrite Rdiv1. eapply Rle_trans; [exact P11|]. apply pow_mono. lia.
    + rewrite Rdiv1. eapply Rle_trans; [exact P11|]. apply pow_mono. lia.
    + change (Z.of_nat 2) with 2%Z. pose proof (ln_lin 2 ltac:(lra)). unfold u64. assert (0 < powerRZ 2 (-53) <= / 10 ^ 15).
      { split; [apply powerRZ_lt; lra|]. change (powerRZ 2 (-53)) with (/ 2 ^ 53). apply Rinv_le_contravar; cbn [pow]; lra. }
      assert (powerRZ 2 (-53) * ln 2 <= powerRZ 2 (-53) * 1) by (apply Rmult_le_compat_l; lra). cbn [pow] in *. lra.
Qed.

(** A chance node with three children, of which the second has no backups yet: values 2, 100 and 7 with counts 3, 0 and 1,
    reward 1. *)
Example C87_average_witness :
  let l := [(3%Z, nofZ F_ops 2); (0%Z, nofZ F_ops 100); (1%Z, nofZ F_ops 7)] in
  (Z.of_nat (length l) <= 2 ^ 31)%Z /\ (fold_right (fun p => Z.add (fst p)) 0 l <= 2 ^ 52)%Z /\
  Forall (fun p => (0 <= fst p <= 2 ^ 31)%Z /\ double (snd p) /\ Rabs (dval (snd p)) <= 100) l /\
  weighted_mean (map (fun p => (fst p, dval (snd p))) l) (13 / 4) /\
  Rabs (dval (o_chance F_ops (nofZ F_ops 1) l) - 17 / 4) <= / 10 ^ 11.
Proof.
  intros l.
  destruct (small_int 1 ltac:(lia)) as (D1 & V1). destruct (small_int 2 ltac:(lia)) as (D2 & V2). destruct (small_int 7 ltac:(lia)) as (D3 & V3).
  destruct (small_int 100 ltac:(lia)) as (D4 & V4).
  assert (Fl : Forall (fun p => (0 <= fst p <= 2 ^ 31)%Z /\ double (snd p) /\ Rabs (dval (snd p)) <= 100) l).
  { unfold l. repeat constructor; cbn [fst snd]; try lia; try apply D2; try apply D3; try apply D4; rewrite ?V2, ?V3, ?V4, Rabs_pos_eq; lra. }
  assert (Wm : weighted_mean (map (fun p => (fst p, dval (snd p))) l) (13 / 4)).
  { unfold weighted_mean, rsum_of, l. cbn [map fst snd]. rewrite V2, V3, V4. unfold rsum. cbn [fold_right]. split; intros; lra. }
  assert (L1 : (Z.of_nat (length l) <= 2 ^ 31)%Z) by (cbn; lia).
  assert (L2 : (fold_right (fun p => Z.add (fst p)) 0 l <= 2 ^ 52)%Z) by (cbn; lia).
  split; auto. split; auto. split; auto. split; auto.
  destruct (C87_average 100 l (nofZ F_ops 1) (13 / 4)) as (_ & E); auto.
  { split; [lra|]. apply Rle_trans with (powerRZ 2 7); [change (powerRZ 2 7) with (2 ^ 7); cbn [pow]; lra|apply pow_mono; lia]. }
  { rewrite V1, Rabs_pos_eq; lra. }
  rewrite V1 in E. replace (13 / 4 + 1) with (17 / 4) in E by lra. eapply Rle_trans; [exact E|].
  assert (P : 0 < powerRZ 2 (-53) <= / 10 ^ 15).
  { split; [apply powerRZ_lt; lra|]. change (powerRZ 2 (-53)) with (/ 2 ^ 53). apply Rinv_le_contravar; cbn [pow]; lra. }
  assert (P2 : powerRZ 2 (-1075) <= powerRZ 2 (-53)) by (apply pow_mono; lia).
  change (Z.of_nat (length l)) with 3%Z. cbn [pow] in *. lra.
Qed.
