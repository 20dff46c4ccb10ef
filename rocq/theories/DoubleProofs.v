(** Operations on binary64 numbers round the exact result. *)
From Coq Require Import ZArith Reals Lia Lra Floats.SpecFloat.
From Flocq Require Import Core BinarySingleNaN Relative Plus_error.
From Verif Require Import NumOps DoubleSpec.
Open Scope R_scope.

Local Instance Hp : Prec_gt_0 Fprec. Proof. reflexivity. Qed.
Local Instance Hm : Prec_lt_emax Fprec Femax. Proof. reflexivity. Qed.

Definition near (x : R) : R := round radix2 (FLT_exp (-1074) 53) ZnearestE x.
Notation B64 := (binary_float Fprec Femax).

Lemma near_fexp : forall x, round radix2 (SpecFloat.fexp Fprec Femax) (round_mode mode_NE) x = near x.
Proof. reflexivity. Qed.

(** ** Representations *)
Lemma dval_SF2R : forall x, dval x = SF2R radix2 x.
Proof.
  intros [s|s| |s m e]; cbn; auto. unfold F2R. cbn [Fnum Fexp]. rewrite bpow_powerRZ.
  destruct s; cbn [cond_Zopp Z.opp]; [change (Zneg m) with (- Zpos m)%Z; rewrite opp_IZR|]; change (IZR radix2) with 2; lra.
Qed.
Lemma double_B : forall x, double x -> exists b : B64, B2SF b = x /\ is_finite b = true /\ B2R b = dval x.
Proof.
  intros x (V & Fi). exists (SF2B x V). rewrite B2SF_SF2B, is_finite_SF2B, B2R_SF2B, <- dval_SF2R.
  split; auto. split; auto. destruct x; auto; contradiction.
Qed.
Lemma B_double : forall b : B64, is_finite b = true -> double (B2SF b) /\ dval (B2SF b) = B2R b.
Proof.
  intros b H. rewrite dval_SF2R, SF2R_B2SF. split; auto. split; [apply valid_binary_B2SF|]. destruct b; cbn in *; auto; discriminate.
Qed.

(** ** SpecFloat's operations are Flocq's, rounding to nearest even *)
Lemma rne_eq : forall s m l, round_nearest_even m l = choice_mode mode_NE s m l.
Proof. intros s m [|[]]; auto. cbn. unfold Round.cond_incr. now destruct (Z.even m). Qed.
Lemma aux_eq : forall sx mx ex lx, SpecFloat.binary_round_aux Fprec Femax sx mx ex lx = binary_round_aux Fprec Femax mode_NE sx mx ex lx.
Proof.
  intros. unfold SpecFloat.binary_round_aux, binary_round_aux. destruct (shr_fexp _ _ _) as [mrs e].
  now rewrite (rne_eq sx).
Qed.
Lemma round_eq : forall s m e, SpecFloat.binary_round Fprec Femax s m e = binary_round Fprec Femax mode_NE s m e.
Proof.
  intros. unfold SpecFloat.binary_round, binary_round, shl_align_fexp. destruct (shl_align _ _ _). apply aux_eq.
Qed.
Lemma norm_eq : forall m e z, SpecFloat.binary_normalize Fprec Femax m e z = B2SF (binary_normalize Fprec Femax _ _ mode_NE m e z).
Proof. intros [|p|p] e z; auto; cbn; rewrite B2SF_SF2B; apply round_eq. Qed.
Lemma add_eq : forall x y : B64, SFadd Fprec Femax (B2SF x) (B2SF y) = B2SF (Bplus mode_NE x y).
Proof.
  intros [sx|sx| |sx mx ex Bx] [sy|sy| |sy my ey By]; try (now (trivial || simpl; case Bool.eqb)). apply norm_eq.
Qed.
Lemma sub_eq : forall x y : B64, SFsub Fprec Femax (B2SF x) (B2SF y) = B2SF (Bminus mode_NE x y).
Proof.
  intros [sx|sx| |sx mx ex Bx] [sy|sy| |sy my ey By]; try (now (trivial || simpl; case Bool.eqb)).
  simpl. unfold Zminus. rewrite <- cond_Zopp_negb. apply norm_eq.
Qed.
Lemma mul_eq : forall x y : B64, SFmul Fprec Femax (B2SF x) (B2SF y) = B2SF (Bmult mode_NE x y).
Proof.
  intros [sx|sx| |sx mx ex Bx] [sy|sy| |sy my ey By]; try (now trivial).
  simpl. rewrite B2SF_SF2B. apply aux_eq.
Qed.
Lemma div_eq : forall x y : B64, SFdiv Fprec Femax (B2SF x) (B2SF y) = B2SF (Bdiv mode_NE x y).
Proof.
  intros [sx|sx| |sx mx ex Bx] [sy|sy| |sy my ey By]; try (now (trivial || simpl; case Bool.eqb)).
  simpl. rewrite B2SF_SF2B. destruct (SFdiv_core_binary _ _ _ _ _ _) as [[mz ez] lz]. apply aux_eq.
Qed.

(** ** Results *)
Definition huge : R := powerRZ 2 1024.
Lemma huge_bpow : huge = bpow radix2 Femax.
Proof. symmetry. apply bpow_powerRZ. Qed.

Lemma add_rounds : forall x y, double x -> double y -> Rabs (near (dval x + dval y)) < huge ->
  double (SFadd Fprec Femax x y) /\ dval (SFadd Fprec Femax x y) = near (dval x + dval y).
Proof.
  intros x y Dx Dy H. destruct (double_B _ Dx) as (bx & Ex & Fx & Vx). destruct (double_B _ Dy) as (by_ & Ey & Fy & Vy).
  pose proof (Bplus_correct Fprec Femax _ _ mode_NE bx by_ Fx Fy) as P. rewrite near_fexp, Vx, Vy in P.
  rewrite Rlt_bool_true in P by (rewrite <- huge_bpow; exact H). destruct P as (P1 & P2 & _).
  rewrite <- Ex, <- Ey, add_eq. destruct (B_double _ P2) as (Q1 & Q2). split; auto. rewrite Q2, P1. now rewrite Ex, Ey.
Qed.
Lemma sub_rounds : forall x y, double x -> double y -> Rabs (near (dval x - dval y)) < huge ->
  double (SFsub Fprec Femax x y) /\ dval (SFsub Fprec Femax x y) = near (dval x - dval y).
Proof.
  intros x y Dx Dy H. destruct (double_B _ Dx) as (bx & Ex & Fx & Vx). destruct (double_B _ Dy) as (by_ & Ey & Fy & Vy).
  pose proof (Bminus_correct Fprec Femax _ _ mode_NE bx by_ Fx Fy) as P. rewrite near_fexp, Vx, Vy in P.
  rewrite Rlt_bool_true in P by (rewrite <- huge_bpow; exact H). destruct P as (P1 & P2 & _).
  rewrite <- Ex, <- Ey, sub_eq. destruct (B_double _ P2) as (Q1 & Q2). split; auto. rewrite Q2, P1. now rewrite Ex, Ey.
Qed.
Lemma mul_rounds : forall x y, double x -> double y -> Rabs (near (dval x * dval y)) < huge ->
  double (SFmul Fprec Femax x y) /\ dval (SFmul Fprec Femax x y) = near (dval x * dval y).
Proof.
  intros x y Dx Dy H. destruct (double_B _ Dx) as (bx & Ex & Fx & Vx). destruct (double_B _ Dy) as (by_ & Ey & Fy & Vy).
  pose proof (Bmult_correct Fprec Femax _ _ mode_NE bx by_) as P. rewrite near_fexp, Vx, Vy in P.
  rewrite Rlt_bool_true in P by (rewrite <- huge_bpow; exact H). destruct P as (P1 & P2 & _). rewrite Fx, Fy in P2.
  rewrite <- Ex, <- Ey, mul_eq. destruct (B_double _ P2) as (Q1 & Q2). split; auto. rewrite Q2, P1. now rewrite Ex, Ey.
Qed.
Lemma div_rounds : forall x y, double x -> double y -> dval y <> 0 -> Rabs (near (dval x / dval y)) < huge ->
  double (SFdiv Fprec Femax x y) /\ dval (SFdiv Fprec Femax x y) = near (dval x / dval y).
Proof.
  intros x y Dx Dy N H. destruct (double_B _ Dx) as (bx & Ex & Fx & Vx). destruct (double_B _ Dy) as (by_ & Ey & Fy & Vy).
  rewrite <- Vy in N.
  pose proof (Bdiv_correct Fprec Femax _ _ mode_NE bx by_ N) as P. rewrite near_fexp, Vx, Vy in P.
  rewrite Rlt_bool_true in P by (rewrite <- huge_bpow; exact H). destruct P as (P1 & P2 & _). rewrite Fx in P2.
  rewrite <- Ex, <- Ey, div_eq. destruct (B_double _ P2) as (Q1 & Q2). split; auto. rewrite Q2, P1. now rewrite Ex, Ey.
Qed.
Lemma of_rounds : forall z, Rabs (near (IZR z)) < huge -> double (Fof z) /\ dval (Fof z) = near (IZR z).
Proof.
  intros z H. unfold Fof. rewrite norm_eq.
  pose proof (binary_normalize_correct Fprec Femax _ _ mode_NE z 0 false) as P. cbv zeta in P. rewrite near_fexp in P.
  assert (E : F2R (Float radix2 z 0) = IZR z) by (unfold F2R; cbn; lra). rewrite E in P.
  rewrite Rlt_bool_true in P by (rewrite <- huge_bpow; exact H). destruct P as (P1 & P2 & _).
  destruct (B_double _ P2) as (Q1 & Q2). split; auto. now rewrite Q2, P1.
Qed.
Lemma zero_double : double (S754_zero false) /\ dval (S754_zero false) = 0.
Proof. repeat split. Qed.

(** ** Rounding to nearest *)
Lemma half_pow : forall e, powerRZ 2 (e + -1) = / 2 * powerRZ 2 e.
Proof. intros e. rewrite powerRZ_add by lra. change (powerRZ 2 (-1)) with (/ (2 * 1)). rewrite Rmult_1_r. lra. Qed.
Lemma pow_mono : forall e f, (e <= f)%Z -> powerRZ 2 e <= powerRZ 2 f.
Proof. intros e f H. change 2 with (IZR radix2). rewrite <- !bpow_powerRZ. now apply bpow_le. Qed.
Lemma near_rounding : rounding near u64 eta64.
Proof.
  assert (U : u64 = / 2 * bpow radix2 (- (53) + 1)) by (rewrite bpow_powerRZ; apply (half_pow (- (53) + 1))).
  constructor.
  - unfold u64. split; [apply powerRZ_le; lra|]. apply Rle_trans with (powerRZ 2 (-10)); [apply pow_mono; lia|].
    change (powerRZ 2 (-10)) with (/ 2 ^ 10). apply Rinv_le_contravar; [lra|]. cbn [pow]. lra.
  - unfold eta64. apply powerRZ_le. lra.
  - intros x. unfold near. destruct (Rle_or_lt (bpow radix2 (-1074 + 53 - 1)) (Rabs x)) as [L|L].
    + pose proof (relative_error_N_FLT radix2 (-1074) 53 ltac:(reflexivity) (fun x => negb (Z.even x)) x L) as E.
      rewrite <- U in E. assert (0 <= eta64) by (unfold eta64; apply powerRZ_le; lra). eapply Rle_trans; [exact E|lra].
    + pose proof (error_le_half_ulp radix2 (FLT_exp (-1074) 53) (fun x => negb (Z.even x)) x) as E.
      rewrite ulp_FLT_small in E; [|reflexivity|eapply Rlt_trans; [exact L|apply bpow_lt; reflexivity]].
      assert (E2 : / 2 * bpow radix2 (-1074) = eta64).
      { rewrite bpow_powerRZ. symmetry. apply (half_pow (-1074)). }
      rewrite E2 in E. assert (0 <= u64 * Rabs x) by (apply Rmult_le_pos; [unfold u64; apply powerRZ_le; lra|apply Rabs_pos]).
      eapply Rle_trans; [exact E|lra].
Qed.
Lemma near_orderly : orderly near.
Proof.
  split.
  - intros x y H. unfold near. apply round_le; auto; typeclasses eauto.
  - intros x. unfold near. apply round_generic; [typeclasses eauto|]. apply generic_format_round; typeclasses eauto.
Qed.

(** Small integers are doubles; numbers up to 2^1010 do not overflow. *)
Lemma near_int : forall z, (Z.abs z <= 2 ^ 52)%Z -> near (IZR z) = IZR z.
Proof.
  intros z H. unfold near. apply round_generic; [typeclasses eauto|]. apply generic_format_FLT.
  apply (FLT_spec radix2 (-1074) 53 _ (Float radix2 z 0)).
  - unfold F2R. cbn. lra.
  - cbn [Fnum]. change (radix_val radix2 ^ 53)%Z with (2 ^ 53)%Z. lia.
  - cbn. lia.
Qed.
Definition large : R := powerRZ 2 1010.
Lemma large_huge : 4 * large <= huge.
Proof.
  assert (E : powerRZ 2 2 = 4) by (change (powerRZ 2 2) with (2 ^ 2); cbn [pow]; lra).
  unfold large, huge. rewrite <- E, <- powerRZ_add by lra. apply pow_mono. lia.
Qed.
Lemma large_pos : 1 <= large.
Proof. unfold large. rewrite <- (powerRZ_O 2). apply pow_mono. lia. Qed.
Lemma eta64_small : 0 <= eta64 <= / 2.
Proof.
  unfold eta64. split; [apply powerRZ_le; lra|]. apply Rle_trans with (powerRZ 2 (-1)); [apply pow_mono; lia|].
  pose proof (half_pow 0) as H. change (0 + -1)%Z with (-1)%Z in H. rewrite H, powerRZ_O. lra.
Qed.
Lemma near_fits : forall x, Rabs x <= large -> Rabs (near x) < huge.
Proof.
  intros x H. pose proof (round_err _ _ _ near_rounding x) as E. pose proof (round_u _ _ _ near_rounding) as U.
  pose proof large_huge. pose proof large_pos. pose proof eta64_small.
  assert (u64 * Rabs x <= / 1000 * Rabs x) by (apply Rmult_le_compat_r; [apply Rabs_pos|lra]).
  pose proof (Rabs_triang (near x - x) x) as T. replace (near x - x + x) with (near x) in T by lra. lra.
Qed.
Lemma int_large : forall z, (Z.abs z <= 2 ^ 52)%Z -> Rabs (IZR z) <= large.
Proof.
  intros z H. rewrite <- abs_IZR. apply Rle_trans with (IZR (2 ^ 52)); [now apply IZR_le|].
  change (IZR (2 ^ 52)) with (bpow radix2 52). rewrite bpow_powerRZ. change (IZR radix2) with 2. apply pow_mono. lia.
Qed.
Lemma zpow : forall k, (0 <= k)%Z -> IZR (2 ^ k) = powerRZ 2 k.
Proof. intros k H. change 2%Z with (radix_val radix2). rewrite IZR_Zpower by auto. apply bpow_powerRZ. Qed.

(** ** Averages stay between their ends *)
Lemma near_opp : forall x, near (- x) = - near x.
Proof. intros x. unfold near. apply round_NE_opp. Qed.
Lemma near_dval : forall x, double x -> near (dval x) = dval x.
Proof.
  intros x D. destruct (double_B _ D) as (b & _ & _ & <-). unfold near. apply round_generic; [typeclasses eauto|].
  apply (generic_format_B2R Fprec Femax b).
Qed.
Lemma near_rel : forall x, powerRZ 2 (-1022) <= Rabs x -> Rabs (near x - x) <= u64 * Rabs x.
Proof.
  intros x L. assert (U : u64 = / 2 * bpow radix2 (- (53) + 1)) by (rewrite bpow_powerRZ; apply (half_pow (- (53) + 1))).
  rewrite U. apply (relative_error_N_FLT radix2 (-1074) 53 ltac:(reflexivity) (fun x => negb (Z.even x)) x).
  rewrite bpow_powerRZ. exact L.
Qed.
Lemma near_pow : forall e, (-1074 <= e <= 1000)%Z -> near (powerRZ 2 e) = powerRZ 2 e.
Proof.
  intros e H. unfold near. apply round_generic; [typeclasses eauto|]. change 2 with (IZR radix2). rewrite <- bpow_powerRZ.
  apply generic_format_bpow. unfold FLT_exp. lia.
Qed.
Lemma near_half_gap : forall a r, near a = a -> near r = r -> a <= r -> near (near (r - a) / 2) <= r - a.
Proof.
  intros a r Fa Fr H. destruct near_orderly as [Mo Id]. set (s := near (r - a)).
  assert (Z0 : near 0 = 0) by (unfold near; apply round_0; typeclasses eauto).
  assert (S0 : 0 <= s) by (unfold s; rewrite <- Z0; apply Mo; lra).
  destruct (Rle_or_lt (Rabs (r - a)) (powerRZ 2 (-1021))) as [Sm|La].
  - assert (E : s = r - a).
    { unfold s, near. apply round_generic; [typeclasses eauto|]. unfold Rminus. apply FLT_format_plus_small.
      - reflexivity.
      - rewrite <- Fr. apply generic_format_round; typeclasses eauto.
      - apply generic_format_opp. rewrite <- Fa. apply generic_format_round; typeclasses eauto.
      - rewrite bpow_powerRZ. exact Sm. }
    apply Rle_trans with (near s); [apply Mo; lra|]. unfold s at 1. rewrite Id. fold s. lra.
  - assert (U : 0 <= u64 <= / 1000) by apply near_rounding.
    rewrite Rabs_pos_eq in La by lra.
    assert (P : powerRZ 2 (-1022) <= powerRZ 2 (-1021)) by (apply pow_mono; lia).
    pose proof (near_rel (r - a)) as E1. rewrite (Rabs_pos_eq (r - a)) in E1 by lra. specialize (E1 ltac:(lra)). fold s in E1.
    assert (E1' : Rabs (s - (r - a)) <= / 1000 * (r - a)).
    { eapply Rle_trans; [exact E1|]. apply Rmult_le_compat_r; lra. }
    apply Rabs_le_inv in E1'.
    assert (S1 : powerRZ 2 (-1021) <= s).
    { unfold s. rewrite <- (near_pow (-1021)) by lia. apply Mo. lra. }
    pose proof (half_pow (-1021)) as Hp. change (-1021 + -1)%Z with (-1022)%Z in Hp.
    pose proof (near_rel (s / 2)) as E2. rewrite (Rabs_pos_eq (s / 2)) in E2 by lra. specialize (E2 ltac:(lra)).
    assert (E2' : Rabs (near (s / 2) - s / 2) <= / 1000 * (s / 2)).
    { eapply Rle_trans; [exact E2|]. apply Rmult_le_compat_r; lra. }
    apply Rabs_le_inv in E2'. lra.
Qed.

Lemma near_step_up : forall a r k, near a = a -> near r = r -> a <= r -> (2 <= k)%Z ->
  a <= near (a + near (near (r - a) / IZR k)) <= r.
Proof.
  intros a r k Fa Fr H Hk. destruct near_orderly as [Mo Id].
  assert (Z0 : near 0 = 0) by (unfold near; apply round_0; typeclasses eauto).
  set (s := near (r - a)). assert (S0 : 0 <= s) by (unfold s; rewrite <- Z0; apply Mo; lra).
  assert (K2 : 2 <= IZR k) by (now apply IZR_le).
  assert (Q1 : 0 <= s / IZR k) by (apply Rmult_le_pos; [auto|apply Rlt_le, Rinv_0_lt_compat; lra]).
  assert (Q2 : s / IZR k <= s / 2) by (apply Rmult_le_compat_l; [auto|apply Rinv_le_contravar; lra]).
  assert (Q3 : 0 <= near (s / IZR k)) by (rewrite <- Z0; now apply Mo).
  assert (Q4 : near (s / IZR k) <= r - a) by (eapply Rle_trans; [apply Mo, Q2|now apply near_half_gap]).
  split; [rewrite <- Fa at 1|rewrite <- Fr]; apply Mo; lra.
Qed.
Lemma near_step : forall lo hi a r k, near a = a -> near r = r -> lo <= a <= hi -> lo <= r <= hi -> (2 <= k)%Z ->
  lo <= near (a + near (near (r - a) / IZR k)) <= hi.
Proof.
  intros lo hi a r k Fa Fr Ha Hr Hk. destruct (Rle_or_lt a r) as [H|H].
  - pose proof (near_step_up a r k Fa Fr H Hk). lra.
  - assert (Fa' : near (- a) = - a) by (rewrite near_opp; congruence). assert (Fr' : near (- r) = - r) by (rewrite near_opp; congruence).
    pose proof (near_step_up (- a) (- r) k Fa' Fr' ltac:(lra) Hk) as Q.
    replace (- r - - a) with (- (r - a)) in Q by lra. rewrite near_opp in Q.
    replace (- near (r - a) / IZR k) with (- (near (r - a) / IZR k)) in Q by (unfold Rdiv; lra). rewrite near_opp in Q.
    replace (- a + - near (near (r - a) / IZR k)) with (- (a + near (near (r - a) / IZR k))) in Q by lra. rewrite near_opp in Q. lra.
Qed.
