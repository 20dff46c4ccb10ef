(** The soft backup in doubles. *)
From Coq Require Import List ZArith Bool Reals Lia Lra.
From Coq Require Import Floats.SpecFloat.
From Flocq Require Import Core BinarySingleNaN.
From Verif Require Import Base NumOps EngineModel EngineSpec DoubleSpec DoubleProofs LseModel LseSpec LseReal.
Import ListNotations.
Open Scope R_scope.

Lemma lt_double : forall x y, double x -> double y -> SFltb x y = Rlt_bool (dval x) (dval y).
Proof.
  intros x y Dx Dy. destruct (double_B _ Dx) as (bx & <- & Fx & <-). destruct (double_B _ Dy) as (by_ & <- & Fy & <-).
  exact (Bltb_correct Fprec Femax bx by_ Fx Fy).
Qed.
Lemma lowest_double : double f_lowest /\ dval f_lowest <= - powerRZ 2 1020.
Proof.
  split; [split; [vm_compute; reflexivity|exact Logic.I]|]. unfold f_lowest, dval.
  assert (E : powerRZ 2 1020 = powerRZ 2 49 * powerRZ 2 971) by (rewrite <- powerRZ_add by lra; reflexivity).
  rewrite E. assert (P : 0 <= powerRZ 2 971) by (apply powerRZ_le; lra).
  assert (Q : powerRZ 2 49 <= IZR 9007199254740991) by (rewrite <- (zpow 49) by lia; apply IZR_le; vm_compute; discriminate).
  pose proof (Rmult_le_compat_r _ _ _ P Q). lra.
Qed.
Lemma near_z : near 0 = 0.
Proof. unfold near. apply round_0. typeclasses eauto. Qed.
Lemma near_abs : forall x, Rabs (near x) <= (1 + u64) * Rabs x + eta64.
Proof.
  intros x. pose proof (round_err _ _ _ near_rounding x) as E. pose proof (Rabs_triang (near x - x) x) as T.
  replace (near x - x + x) with (near x) in T by lra. lra.
Qed.

(** The largest of a list of doubles above lowest(). *)
Lemma norm_max : forall (f : F -> F) qs m, double m -> (forall q, In q qs -> double (f q)) ->
  let n := fold_left (fun norm q => let v := f q in if SFltb norm v then v else norm) qs m in
  double n /\ dval m <= dval n /\ (forall q, In q qs -> dval (f q) <= dval n) /\ (n = m \/ exists q, In q qs /\ n = f q).
Proof.
  intros f qs. induction qs as [|q qs IH]; intros m Dm Dq; cbv zeta in *; cbn [fold_left].
  - split; auto. split; [lra|]. split; [intros q []|auto].
  - pose proof (Dq q (or_introl eq_refl)) as D1. rewrite (lt_double _ _ Dm D1).
    destruct (Rlt_bool_spec (dval m) (dval (f q))) as [L|L].
    + destruct (IH (f q) D1 (fun y Q => Dq y (or_intror Q))) as (I1 & I2 & I3 & I4).
      split; auto. split; [lra|]. split; [intros y [<-|Q]; auto|]. right. destruct I4 as [I4|(y & Q & I4)]; [exists q|exists y]; split; auto; [now left|now right].
    + destruct (IH m Dm (fun y Q => Dq y (or_intror Q))) as (I1 & I2 & I3 & I4).
      split; auto. split; [lra|]. split; [intros y [<-|Q]; auto; lra|]. destruct I4 as [I4|(y & Q & I4)]; [now left|right; exists y; split; auto; now right].
Qed.

(** Sums of non-negative doubles. *)
Lemma fsum_core : forall ws s k T, double s -> 0 <= dval s -> (0 <= k)%Z ->
  (forall w, In w ws -> double w /\ 0 <= dval w) -> 0 <= T ->
  dval s <= (T + IZR k * eta64) * exp (IZR k * u64) -> T * exp (- (2 * (IZR k * u64))) - IZR k * eta64 <= dval s ->
  (k + Z.of_nat (length ws) <= 2 ^ 31)%Z -> T + rsum (map dval ws) <= powerRZ 2 32 ->
  let n := (k + Z.of_nat (length ws))%Z in
  let r := fold_left (SFadd Fprec Femax) ws s in
  let T' := T + rsum (map dval ws) in
  double r /\ dval s <= dval r /\ (forall w, In w ws -> dval w <= dval r) /\
  dval r <= (T' + IZR n * eta64) * exp (IZR n * u64) /\ T' * exp (- (2 * (IZR n * u64))) - IZR n * eta64 <= dval r.
Proof.
  pose proof (round_u _ _ _ near_rounding) as Hu. pose proof (round_eta _ _ _ near_rounding) as He. destruct near_orderly as [Mo Id].
  induction ws as [|w ws IH]; intros s k T Ds Ps Hk Hw HT S1 S2 Hl Hs n r T'.
  - cbn in r, T'. subst r. unfold n, T'. cbn [length]. rewrite Z.add_0_r, Rplus_0_r. repeat split; auto; try apply Ds. lra. intros w [].
  - destruct (Hw w (or_introl eq_refl)) as (Dw & Pw).
    cbn [map rsum fold_right] in Hs, T'. fold (rsum (map dval ws)) in Hs, T'. cbn [length] in Hl. rewrite Nat2Z.inj_succ in Hl.
    assert (Pr : 0 <= rsum (map dval ws)).
    { apply rsum_pos. intros x Q. apply in_map_iff in Q. destruct Q as (y & <- & Q). apply (Hw y (or_intror Q)). }
    assert (K0 : 0 <= IZR k) by (now apply IZR_le).
    assert (K1 : IZR k <= powerRZ 2 31) by (rewrite <- (zpow 31) by lia; apply IZR_le; lia).
    set (z := dval s + dval w).
    assert (Ku : 0 <= IZR k * u64 <= 1).
    { split; [apply Rmult_le_pos; lra|]. apply Rle_trans with (powerRZ 2 31 * u64); [apply Rmult_le_compat_r; lra|].
      unfold u64. rewrite <- powerRZ_add by lra. rewrite <- (powerRZ_O 2). apply pow_mono. lia. }
    assert (Ke : 0 <= IZR k * eta64 <= 1).
    { split; [apply Rmult_le_pos; lra|]. apply Rle_trans with (powerRZ 2 31 * eta64); [apply Rmult_le_compat_r; lra|].
      unfold eta64. rewrite <- powerRZ_add by lra. rewrite <- (powerRZ_O 2). apply pow_mono. lia. }
    assert (E3 : exp (IZR k * u64) <= 3) by (pose proof exp_le_3; pose proof (exp_le (IZR k * u64) 1 ltac:(lra)); lra).
    assert (P32 : 1 <= powerRZ 2 32) by (rewrite <- (powerRZ_O 2); apply pow_mono; lia).
    assert (Zl : Rabs z <= large).
    { rewrite Rabs_pos_eq by (unfold z; lra).
      assert (dval s <= (powerRZ 2 32 + 1) * 3) by (eapply Rle_trans; [exact S1|]; apply Rmult_le_compat; try lra; apply Rlt_le, exp_pos).
      assert (powerRZ 2 3 * powerRZ 2 32 <= large) by (rewrite <- powerRZ_add by lra; apply pow_mono; lia).
      replace (powerRZ 2 3) with 8 in * by (change (powerRZ 2 3) with (2 ^ 3); cbn [pow]; lra). unfold z. lra. }
    destruct (add_rounds s w Ds Dw (near_fits _ Zl)) as (D1 & V1). fold z in V1.
    pose proof (round_err _ _ _ near_rounding z) as Er. rewrite (Rabs_pos_eq z) in Er by (unfold z; lra). rewrite <- V1 in Er. apply abs_inv in Er.
    set (s1 := SFadd Fprec Femax s w) in *.
    assert (M1 : dval s <= dval s1). { rewrite V1, <- (near_dval s Ds) at 1. apply Mo. unfold z. lra. }
    assert (M2 : dval w <= dval s1). { rewrite V1, <- (near_dval w Dw) at 1. apply Mo. unfold z. lra. }
    assert (I1 : IZR (k + 1) = IZR k + 1) by apply plus_IZR.
    assert (Xk : 1 <= exp (IZR k * u64)) by (apply exp_one; lra).
    assert (Yk : 0 < exp (- (2 * (IZR k * u64))) <= 1).
    { split; [apply exp_pos|]. rewrite <- exp_0. apply exp_le. lra. }
    destruct (IH s1 (k + 1)%Z (T + dval w)) as (R1 & R2 & R3 & R4 & R5); auto; try lra; try lia.
    { intros y Q. apply Hw. now right. }
    { rewrite I1. replace ((IZR k + 1) * u64) with (IZR k * u64 + u64) by ring. rewrite exp_plus.
      set (ek := exp (IZR k * u64)) in *. assert (Eu : 1 + u64 <= exp u64) by apply exp_ineq1_le.
      set (ke := IZR k * eta64) in *. replace ((IZR k + 1) * eta64) with (ke + eta64) by (unfold ke; ring).
      assert (A1 : dval s1 <= z * (1 + u64) + eta64) by lra.
      assert (A2 : z <= (T + dval w + ke) * ek). { unfold z. assert (dval w <= dval w * ek) by nra. nra. }
      assert (A3 : z * (1 + u64) <= (T + dval w + ke) * ek * exp u64).
      { apply Rmult_le_compat; try lra. unfold z. lra. }
      assert (A4 : 1 <= ek * exp u64) by nra. nra. }
    { rewrite I1. replace (- (2 * ((IZR k + 1) * u64))) with (- (2 * (IZR k * u64)) + - (2 * u64)) by ring. rewrite exp_plus.
      set (ek := exp (- (2 * (IZR k * u64)))) in *. pose proof (exp_lin u64 ltac:(lra)) as Eu. pose proof (exp_pos (- (2 * u64))) as Ep.
      set (ke := IZR k * eta64) in *. replace ((IZR k + 1) * eta64) with (ke + eta64) by (unfold ke; ring).
      assert (A1 : z * (1 - u64) - eta64 <= dval s1) by lra.
      assert (A2 : (T + dval w) * ek - ke <= z). { unfold z. assert (dval w * ek <= dval w) by nra. nra. }
      assert (A0 : 0 <= (T + dval w) * ek) by (apply Rmult_le_pos; lra).
      assert (A3 : (T + dval w) * ek * exp (- (2 * u64)) <= (T + dval w) * ek * (1 - u64)) by (apply Rmult_le_compat_l; lra).
      assert (A4 : ((T + dval w) * ek - ke) * (1 - u64) <= z * (1 - u64)) by (apply Rmult_le_compat_r; lra).
      assert (A5 : ke * (1 - u64) <= ke) by nra. lra. }
    change (fold_left (SFadd Fprec Femax) ws s1) with r in R1, R2, R3, R4, R5.
    replace (k + 1 + Z.of_nat (length ws))%Z with n in R4, R5 by (unfold n; cbn [length]; lia).
    replace (T + dval w + rsum (map dval ws)) with T' in R4, R5 by (unfold T'; lra).
    split; auto. split; [lra|]. split; auto. intros y [<-|Q]; auto. lra.
Qed.

Lemma u_eta : 0 < u64 <= / 1000 /\ 0 < eta64 <= u64 * powerRZ 2 (-940) /\ powerRZ 2 (-940) <= / 1000.
Proof.
  pose proof (round_u _ _ _ near_rounding). split; [split; [unfold u64; apply powerRZ_lt; lra|lra]|]. split; [split; [unfold eta64; apply powerRZ_lt; lra|]|].
  - unfold eta64, u64. rewrite <- powerRZ_add by lra. apply pow_mono. lia.
  - apply Rle_trans with (powerRZ 2 (-10)); [apply pow_mono; lia|]. change (powerRZ 2 (-10)) with (/ 2 ^ 10). cbn [pow]. lra.
Qed.
Lemma eta_small : 0 < eta64 <= / 1000000.
Proof. destruct u_eta as (H1 & (H2 & H3) & H4). split; auto. nra. Qed.
Lemma pow_big : forall k, (0 <= k)%Z -> 1 <= powerRZ 2 k.
Proof. intros k H. rewrite <- (powerRZ_O 2). now apply pow_mono. Qed.
Lemma large_910 : 64 * powerRZ 2 950 <= large.
Proof.
  replace 64 with (powerRZ 2 6) by (change (powerRZ 2 6) with (2 ^ 6); cbn [pow]; lra). rewrite <- powerRZ_add by lra. apply pow_mono. lia.
Qed.
Lemma fits : forall x, Rabs x <= powerRZ 2 950 -> Rabs (near x) < huge.
Proof. intros x H. apply near_fits. pose proof large_910. pose proof (pow_big 950 ltac:(lia)). lra. Qed.

Lemma rsum_le : forall (l : list R) c, (forall x, In x l -> x <= c) -> rsum l <= IZR (Z.of_nat (length l)) * c.
Proof.
  induction l as [|x l IH]; intros c H; [cbn; lra|]. cbn [length rsum fold_right]. rewrite Nat2Z.inj_succ, succ_IZR. fold (rsum l).
  pose proof (H x (or_introl eq_refl)). pose proof (IH c (fun y K => H y (or_intror K))). lra.
Qed.

Section Soft.
Variables fexp flog : F -> F.
Variable v : R.
Hypothesis Lm : libm fexp flog v.
Variables opp temp : F.
Variable qs : list F.
Variables Q sg : R.
Notation t := (dval temp).
Notation n := (Z.of_nat (length qs)).
Hypothesis Dt : double temp.
Hypothesis t_lo : powerRZ 2 (-900) <= t.
Hypothesis t_hi : t <= powerRZ 2 900.
Hypothesis Dopp : double opp.
Hypothesis Vopp : dval opp = sg.
Hypothesis Hsg : sg = 1 \/ sg = -1.
Hypothesis qs_ne : qs <> [].
Hypothesis qs_len : (n <= 2 ^ 31)%Z.
Hypothesis Hq : forall q, In q qs -> double q /\ Rabs (dval q) <= Q.
Hypothesis Q_hi : Q <= powerRZ 2 900.
Notation X := (Q / t).
Hypothesis X_hi : X <= powerRZ 2 900.
Notation xq := (fun q => SFdiv Fprec Femax q temp).
Notation norm := (o_norm F_ops f_lowest temp qs).
Notation dq := (fun q => SFsub Fprec Femax (SFdiv Fprec Femax q temp) norm).
Notation ws := (o_weights F_ops fexp f_lowest temp qs).
Notation sum := (o_sum F_ops fexp f_lowest temp qs).

Lemma t_pos : 0 < t.
Proof using t_lo. assert (0 < powerRZ 2 (-900)) by (apply powerRZ_lt; lra). lra. Qed.
Lemma some_q : exists q, In q qs.
Proof using qs_ne. clear - qs_ne. destruct qs as [|q l]; [now elim qs_ne|]. exists q. now left. Qed.
Lemma Q_pos : 0 <= Q.
Proof using Hq qs_ne. destruct some_q as (q & Iq). destruct (Hq q Iq) as (_ & H). pose proof (Rabs_pos (dval q)). lra. Qed.
Lemma X_pos : 0 <= X.
Proof using Hq qs_ne t_lo. pose proof Q_pos. pose proof t_pos. apply Rmult_le_pos; auto. apply Rlt_le, Rinv_0_lt_compat. auto. Qed.
Lemma e_X : forall q, In q qs -> Rabs (dval q / t) <= X.
Proof using Hq t_lo.
  intros q H. destruct (Hq q H) as (_ & H1). pose proof t_pos. unfold Rdiv. rewrite Rabs_mult, (Rabs_pos_eq (/ t)) by (apply Rlt_le, Rinv_0_lt_compat; auto).
  apply Rmult_le_compat_r; auto. apply Rlt_le, Rinv_0_lt_compat. auto.
Qed.
Lemma x_ok : forall q, In q qs -> double (xq q) /\ dval (xq q) = near (dval q / t) /\ Rabs (dval (xq q)) <= 2 * X + 1 /\
  Rabs (dval (xq q) - dval q / t) <= u64 * X + eta64.
Proof using Hq t_lo t_hi Dt X_hi qs_ne.
  intros q H. pose proof (e_X q H) as E. pose proof t_pos. pose proof X_pos. destruct (Hq q H) as (D & _). destruct u_eta as (U1 & _). pose proof eta_small as E1.
  assert (P : powerRZ 2 900 <= powerRZ 2 950) by (apply pow_mono; lia).
  destruct (div_rounds q temp D Dt ltac:(lra) (fits (dval q / t) ltac:(lra))) as (D1 & V1). split; auto. split; auto. rewrite V1.
  pose proof (round_err _ _ _ near_rounding (dval q / t)) as Er. pose proof (near_abs (dval q / t)) as Na. split.
  - eapply Rle_trans; [exact Na|]. assert ((1 + u64) * Rabs (dval q / t) <= 2 * X) by (apply Rmult_le_compat; try lra; apply Rabs_pos). lra.
  - eapply Rle_trans; [exact Er|]. assert (u64 * Rabs (dval q / t) <= u64 * X) by (apply Rmult_le_compat_l; lra). lra.
Qed.

Lemma norm_ok : double norm /\ (exists q, In q qs /\ norm = xq q) /\ (forall q, In q qs -> dval (xq q) <= dval norm) /\ Rabs (dval norm) <= 2 * X + 1.
Proof using Hq t_lo t_hi Dt X_hi qs_ne.
  destruct lowest_double as (Dl & Vl). pose proof (norm_max xq qs f_lowest Dl (fun q H => proj1 (x_ok q H))) as M. cbv zeta in M.
  destruct M as (M1 & M2 & M3 & M4). change (fold_left _ qs f_lowest) with norm in *.
  assert (Ex : exists q, In q qs /\ norm = xq q).
  { destruct M4 as [M4|M4]; auto. exfalso. destruct some_q as (q & I). pose proof (M3 q I) as L. destruct (x_ok q I) as (_ & _ & B & _). apply abs_inv in B. rewrite M4 in L.
    assert (P : 4 * powerRZ 2 900 <= powerRZ 2 1020).
    { replace 4 with (powerRZ 2 2) by (change (powerRZ 2 2) with (2 ^ 2); cbn [pow]; lra). rewrite <- powerRZ_add by lra. apply pow_mono. lia. }
    pose proof (pow_big 900 ltac:(lia)). lra. }
  split; auto. split; auto. split; auto. destruct Ex as (q & I & ->). now apply x_ok.
Qed.

Lemma d_ok : forall q, In q qs -> double (dq q) /\ dval (dq q) = near (dval (xq q) - dval norm) /\ dval (dq q) <= 0.
Proof using Hq t_lo t_hi Dt X_hi qs_ne.
  intros q H. destruct (x_ok q H) as (D1 & _ & B1 & _). destruct norm_ok as (D2 & _ & B2 & B3).
  destruct (sub_rounds (xq q) norm D1 D2) as (D & V).
  { apply fits. apply abs_inv in B1, B3. pose proof (pow_big 900 ltac:(lia)). pose proof X_pos.
    assert (P : 64 * powerRZ 2 900 <= powerRZ 2 950).
    { replace 64 with (powerRZ 2 6) by (change (powerRZ 2 6) with (2 ^ 6); cbn [pow]; lra). rewrite <- powerRZ_add by lra. apply pow_mono. lia. }
    apply Rabs_le. lra. }
  split; auto. split; auto. rewrite V, <- near_z. apply near_orderly. pose proof (B2 q H). lra.
Qed.

Lemma w_ok : forall w, In w ws -> double w /\ 0 <= dval w <= 2.
Proof using Hq t_lo t_hi Dt X_hi qs_ne Lm.
  intros w H. unfold o_weights, o_args in H. rewrite map_map in H. apply in_map_iff in H. destruct H as (q & <- & H).
  destruct (d_ok q H) as (D & _ & Ng). destruct (libm_exp _ _ _ Lm (dq q) D Ng) as (W1 & W2 & W3). split; auto. split; auto.
  apply abs_inv in W3. pose proof (libm_v _ _ _ Lm). pose proof eta_small. assert (exp (dval (dq q)) <= 1) by (rewrite <- exp_0; now apply exp_le).
  pose proof (exp_pos (dval (dq q))). assert (v * exp (dval (dq q)) <= / 1000 * 1) by (apply Rmult_le_compat; lra). 
  change (dval (fexp (nsub F_ops (ndiv F_ops q temp) norm)) <= 2). cbn [nsub ndiv F_ops]. lra.
Qed.
Lemma len_ws : length ws = length qs.
Proof using Type. unfold o_weights, o_args. now rewrite !map_length. Qed.
Lemma n_real : 1 <= IZR n <= powerRZ 2 31.
Proof using qs_ne qs_len.
  split; [apply IZR_le; clear - qs_ne; destruct qs; [now elim qs_ne|cbn [length]; lia]|]. rewrite <- (zpow 31) by lia. now apply IZR_le.
Qed.
Lemma T_hi : 0 <= rsum (map dval ws) <= powerRZ 2 32.
Proof using Hq t_lo t_hi Dt X_hi qs_ne Lm qs_len.
  pose proof n_real. split.
  - apply rsum_pos. intros x H1. apply in_map_iff in H1. destruct H1 as (y & <- & H1). now apply w_ok.
  - eapply Rle_trans; [apply (rsum_le _ 2)|].
    + intros x H1. apply in_map_iff in H1. destruct H1 as (y & <- & H1). now apply w_ok.
    + rewrite map_length, len_ws. replace (powerRZ 2 32) with (powerRZ 2 31 * 2); [apply Rmult_le_compat_r; lra|].
      change (powerRZ 2 32) with (powerRZ 2 (31 + 1)). rewrite powerRZ_add by lra. now rewrite powerRZ_1.
Qed.

Lemma sum_ok : double sum /\ / 4 <= dval sum <= powerRZ 2 40 /\
  dval sum <= (rsum (map dval ws) + IZR n * eta64) * exp (IZR n * u64) /\
  rsum (map dval ws) * exp (- (2 * (IZR n * u64))) - IZR n * eta64 <= dval sum.
Proof using Hq t_lo t_hi Dt X_hi qs_ne Lm qs_len.
  pose proof T_hi as Th. destruct u_eta as (U1 & _). pose proof eta_small as E1. pose proof n_real as Nr.
  pose proof (fsum_core ws (S754_zero false) 0 0 (proj1 zero_double)) as P.
  cbn [Z.of_nat dval] in P. rewrite len_ws, Z.add_0_l, Rplus_0_l in P. cbv zeta in P.
  destruct P as (P1 & _ & P3 & P4 & P5); try lra; try lia.
  { intros w H. destruct (w_ok w H) as (D & B). split; auto. lra. }
  rewrite Rplus_0_l in P4, P5. change (fold_left (SFadd Fprec Femax) ws (S754_zero false)) with sum in *.
  split; auto. split; [|auto]. split.
  - destruct norm_ok as (_ & (q & I & E) & _ & _). destruct (d_ok q I) as (D & V & Ng).
    assert (Z : dval (dq q) = 0). { rewrite V, E. replace (dval (xq q) - dval (xq q)) with 0 by lra. apply near_z. }
    destruct (libm_exp _ _ _ Lm (dq q) D Ng) as (_ & _ & W3). rewrite Z, exp_0 in W3. apply abs_inv in W3. pose proof (libm_v _ _ _ Lm).
    apply Rle_trans with (dval (fexp (dq q))); [lra|]. apply P3. unfold o_weights, o_args. rewrite map_map. apply in_map_iff. exists q. split; auto.
  - assert (Ku : 0 <= IZR n * u64 <= 1).
    { split; [apply Rmult_le_pos; lra|]. apply Rle_trans with (powerRZ 2 31 * u64); [apply Rmult_le_compat_r; lra|].
      unfold u64. rewrite <- powerRZ_add by lra. rewrite <- (powerRZ_O 2). apply pow_mono. lia. }
    assert (Ke : 0 <= IZR n * eta64 <= powerRZ 2 31). { split; [apply Rmult_le_pos; lra|]. rewrite <- (Rmult_1_r (powerRZ 2 31)). apply Rmult_le_compat; lra. }
    assert (E3 : exp (IZR n * u64) <= 3) by (pose proof exp_le_3; pose proof (exp_le (IZR n * u64) 1 ltac:(lra)); lra).
    assert (P31 : powerRZ 2 31 <= powerRZ 2 32) by (apply pow_mono; lia).
    assert (P40 : powerRZ 2 3 * powerRZ 2 32 <= powerRZ 2 40) by (rewrite <- powerRZ_add by lra; apply pow_mono; lia).
    replace (powerRZ 2 3) with 8 in P40 by (change (powerRZ 2 3) with (2 ^ 3); cbn [pow]; lra).
    eapply Rle_trans; [exact P4|]. apply Rle_trans with ((powerRZ 2 32 + powerRZ 2 32) * 3); [|lra].
    apply Rmult_le_compat; try lra. apply Rlt_le, exp_pos.
Qed.

Lemma log_ok : let l := flog sum in double l /\ Rabs (dval l - ln (dval sum)) <= v * (1 + Rabs (ln (dval sum))) /\ Rabs (ln (dval sum)) <= powerRZ 2 40.
Proof using Hq t_lo t_hi Dt X_hi qs_ne Lm qs_len.
  destruct sum_ok as (D & B & _). destruct (libm_log _ _ _ Lm sum D B) as (L1 & L2). split; auto. split; auto.
  pose proof (ln_lin (dval sum) ltac:(lra)) as U. assert (Lo : - 3 <= ln (dval sum)).
  { pose proof (ln_lin (/ dval sum) ltac:(apply Rinv_0_lt_compat; lra)) as K. rewrite ln_Rinv in K by lra.
    assert (/ dval sum <= 4); [|lra]. rewrite <- (Rinv_inv 4). apply Rinv_le_contravar; lra. }
  assert (3 <= powerRZ 2 40).
  { apply Rle_trans with (powerRZ 2 2); [change (powerRZ 2 2) with (2 ^ 2); cbn [pow]; lra|apply pow_mono; lia]. }
  apply Rabs_le. lra.
Qed.

Lemma soft_ok : let l := flog sum in let m := SFadd Fprec Femax l norm in let r := o_soft F_ops fexp flog f_lowest opp temp qs in
  double r /\ dval m = near (dval l + dval norm) /\ dval r = near (sg * t * dval m).
Proof using All.
  cbv zeta. destruct log_ok as (D1 & L1 & L2). destruct norm_ok as (D2 & _ & _ & N2). pose proof (libm_v _ _ _ Lm) as Hv. pose proof t_pos. pose proof X_pos as Xp.
  destruct u_eta as (U1 & _). pose proof eta_small as E1.
  assert (P40 : 1 <= powerRZ 2 40) by (apply pow_big; lia). assert (P900 : 1 <= powerRZ 2 900) by (apply pow_big; lia).
  assert (Ll : Rabs (dval (flog sum)) <= 2 * powerRZ 2 40).
  { apply abs_inv in L1, L2. assert (v * (1 + Rabs (ln (dval sum))) <= / 1000 * (1 + powerRZ 2 40)).
    { apply Rmult_le_compat; try lra. pose proof (Rabs_pos (ln (dval sum))). lra. apply Rplus_le_compat_l, Rabs_le; lra. }
    apply Rabs_le. lra. }
  assert (P : 64 * powerRZ 2 900 <= powerRZ 2 950).
  { replace 64 with (powerRZ 2 6) by (change (powerRZ 2 6) with (2 ^ 6); cbn [pow]; lra). rewrite <- powerRZ_add by lra. apply pow_mono. lia. }
  assert (P' : powerRZ 2 40 <= powerRZ 2 900) by (apply pow_mono; lia).
  assert (Mb : Rabs (dval (flog sum) + dval norm) <= 2 * powerRZ 2 40 + (2 * X + 1)) by (pose proof (Rabs_triang (dval (flog sum)) (dval norm)); lra).
  destruct (add_rounds (flog sum) norm D1 D2 (fits (dval (flog sum) + dval norm) ltac:(lra))) as (D3 & V3). set (m := SFadd Fprec Femax (flog sum) norm) in *.
  assert (Mm : Rabs (dval m) <= 4 * powerRZ 2 40 + (4 * X + 4)).
  { rewrite V3. pose proof (near_abs (dval (flog sum) + dval norm)) as Na.
    assert ((1 + u64) * Rabs (dval (flog sum) + dval norm) <= 2 * (2 * powerRZ 2 40 + (2 * X + 1))) by (apply Rmult_le_compat; try lra; apply Rabs_pos). lra. }
  assert (St : near (sg * t) = sg * t).
  { destruct Hsg as [-> | ->]; [rewrite Rmult_1_l; now apply near_dval|]. replace (-1 * t) with (- t) by lra. rewrite near_opp. now rewrite near_dval. }
  assert (At : Rabs (sg * t) = t).
  { destruct Hsg as [-> | ->]; [rewrite Rmult_1_l; apply Rabs_pos_eq; lra|]. replace (-1 * t) with (- t) by lra. rewrite Rabs_Ropp. apply Rabs_pos_eq. lra. }
  destruct (mul_rounds opp temp Dopp Dt) as (D4 & V4).
  { rewrite Vopp. apply fits. rewrite At. lra. }
  rewrite Vopp, St in V4.
  destruct (mul_rounds (SFmul Fprec Femax opp temp) m D4 D3) as (D5 & V5).
  { apply fits. rewrite V4, Rabs_mult, At.
    assert (A1 : t * Rabs (dval m) <= t * (4 * powerRZ 2 40 + (4 * X + 4))) by (apply Rmult_le_compat_l; lra).
    assert (A2 : t * X = Q) by (field; lra).
    assert (A3 : t * powerRZ 2 40 <= powerRZ 2 940).
    { replace (powerRZ 2 940) with (powerRZ 2 900 * powerRZ 2 40) by (rewrite <- powerRZ_add by lra; reflexivity). apply Rmult_le_compat_r; lra. }
    assert (A4 : 64 * powerRZ 2 940 <= powerRZ 2 950).
    { replace 64 with (powerRZ 2 6) by (change (powerRZ 2 6) with (2 ^ 6); cbn [pow]; lra). rewrite <- powerRZ_add by lra. apply pow_mono. lia. }
    assert (A5 : powerRZ 2 900 <= powerRZ 2 940) by (apply pow_mono; lia).
    replace (t * (4 * powerRZ 2 40 + (4 * X + 4))) with (4 * (t * powerRZ 2 40) + 4 * (t * X) + 4 * t) in A1 by ring. lra. }
  split; [exact D5|]. split; [exact V3|]. rewrite <- V4. exact V5.
Qed.

Hypothesis X_50 : X <= powerRZ 2 50.
Notation em := (map (fun q => dval q / t) qs).
Lemma top : exists q, In q qs /\ forall p, In p qs -> dval p / t <= dval q / t.
Proof using qs_ne.
  clear - qs_ne. induction qs as [|q l IH]; [now elim qs_ne|]. destruct l as [|p l].
  - exists q. split; [now left|]. intros p [<-|[]]. lra.
  - destruct IH as (r & I & M); [discriminate|]. destruct (Rle_dec (dval q / t) (dval r / t)) as [L|L].
    + exists r. split; [now right|]. intros x [<-|K]; auto.
    + exists q. split; [now left|]. intros x [<-|K]; [lra|]. pose proof (M x K). lra.
Qed.
Lemma uX : u64 * X <= / 8.
Proof using X_50.
  apply Rle_trans with (u64 * powerRZ 2 50); [apply Rmult_le_compat_l; [destruct u_eta; lra|auto]|].
  unfold u64. rewrite <- powerRZ_add by lra. change (powerRZ 2 (-53 + 50)) with (/ 2 ^ 3). cbn [pow]. lra.
Qed.
Lemma nu : IZR n * u64 <= / 1000.
Proof using qs_ne qs_len.
  apply Rle_trans with (powerRZ 2 31 * u64); [apply Rmult_le_compat_r; [destruct u_eta; lra|apply n_real]|].
  unfold u64. rewrite <- powerRZ_add by lra. apply Rle_trans with (powerRZ 2 (-10)); [apply pow_mono; lia|]. change (powerRZ 2 (-10)) with (/ 2 ^ 10). cbn [pow]. lra.
Qed.
Lemma neta : IZR n * eta64 <= / 1000000.
Proof using qs_ne qs_len.
  destruct u_eta as (U & (E1 & E2) & E3). pose proof nu. pose proof n_real.
  apply Rle_trans with (IZR n * u64 * powerRZ 2 (-940)); [rewrite Rmult_assoc; apply Rmult_le_compat_l; lra|].
  replace (/ 1000000) with (/ 1000 * / 1000) by lra. apply Rmult_le_compat; try lra. apply Rmult_le_pos; lra. apply Rlt_le, powerRZ_lt. lra.
Qed.

Lemma log_err : exists m La, ln (rsum (map exp em)) = La + m /\ 0 <= La <= ln (IZR n) /\ Rabs m <= X /\
  Rabs (dval norm - m) <= u64 * X + eta64 /\
  Rabs (ln (dval sum) - La) <= 5 * (u64 * X + eta64) + 2 * v + 2 * (IZR n * u64) + 12 * (IZR n * eta64) /\
  5 * (u64 * X + eta64) + 2 * v + 2 * (IZR n * u64) + 12 * (IZR n * eta64) <= 1.
Proof using Hq t_lo t_hi Dt X_hi qs_ne Lm qs_len X_50.
  destruct top as (q0 & I0 & M0). set (m := dval q0 / t) in *. destruct u_eta as (U & _). pose proof eta_small as E1. pose proof (libm_v _ _ _ Lm) as Hv.
  pose proof uX as UX. pose proof nu as NU. pose proof neta as NE. pose proof X_pos as Xp. pose proof n_real as Nr.
  assert (uX0 : 0 <= u64 * X) by (apply Rmult_le_pos; lra). assert (nu0 : 0 <= IZR n * u64) by (apply Rmult_le_pos; lra).
  assert (ne0 : 0 <= IZR n * eta64) by (apply Rmult_le_pos; lra).
  assert (Nm : dval norm = near m).
  { destruct norm_ok as (_ & (q & I & E) & B & _). destruct (x_ok q0 I0) as (_ & V0 & _). destruct (x_ok q I) as (_ & V1 & _).
    apply Rle_antisym; [rewrite E, V1; apply near_orderly; now apply M0|]. unfold m. rewrite <- V0. now apply B. }
  destruct (lse_shift em m) as (Sb & Sl).
  { apply in_map_iff. now exists q0. } { intros e K. apply in_map_iff in K. destruct K as (p & <- & K). now apply M0. }
  rewrite map_length in Sb. set (Sx := rsum (map exp (map (fun e => e - m) em))) in *.
  assert (Mx : Rabs m <= X) by now apply e_X.
  assert (Ne : Rabs (dval norm - m) <= u64 * X + eta64).
  { rewrite Nm. eapply Rle_trans; [apply (round_err _ _ _ near_rounding)|]. apply Rplus_le_compat_r, Rmult_le_compat_l; lra. }
  set (b := 5 * (u64 * X + eta64)).
  assert (Db : forall q, In q qs -> Rabs (dval (dq q) - (dval q / t - m)) <= b).
  { intros q K. destruct (x_ok q K) as (_ & V1 & _ & X1). destruct (d_ok q K) as (_ & V & _). 
    assert (Er : Rabs (dval (dq q) - (dval (xq q) - dval norm)) <= u64 * (2 * (X + (u64 * X + eta64))) + eta64).
    { rewrite V. eapply Rle_trans; [apply (round_err _ _ _ near_rounding)|]. apply Rplus_le_compat_r, Rmult_le_compat_l; [lra|].
      pose proof (e_X q K) as Eq. apply abs_inv in Eq, X1, Ne, Mx. apply Rabs_le. lra. }
    assert (u64 * (2 * (X + (u64 * X + eta64))) <= 2 * (u64 * X) + / 2 * (u64 * X + eta64)).
    { replace (u64 * (2 * (X + (u64 * X + eta64)))) with (2 * (u64 * X) + 2 * u64 * (u64 * X + eta64)) by ring. apply Rplus_le_compat_l, Rmult_le_compat_r; lra. }
    apply abs_inv in Er, X1, Ne. unfold b. apply Rabs_le. lra. }
  destruct (weights_core (map dval (map dq qs)) (map (fun e => e - m) em) (map dval ws) b v eta64) as (W1 & W2); try lra.
  { rewrite !map_map. clear - Db. revert Db. generalize norm. intros nm Db. induction qs as [|q l IH]; cbn [map]; constructor. apply Db. now left. apply IH. intros p K. apply Db. now right. }
  { unfold o_weights, o_args. rewrite !map_map.
    assert (K : forall q, In q qs -> Rabs (dval (fexp (dq q)) - exp (dval (dq q))) <= v * exp (dval (dq q)) + eta64).
    { intros q K. destruct (d_ok q K) as (D & _ & Ng). now apply (libm_exp _ _ _ Lm). }
    clear - K. revert K. generalize norm. intros nm K. induction qs as [|q l IH]; cbn [map]; constructor. apply (K q). now left. apply IH. intros p Kp. apply K. now right. }
  rewrite map_length, len_ws in W1, W2. fold Sx in W1, W2.
  destruct sum_ok as (_ & _ & S1 & S2). pose proof T_hi as Th.
  destruct (ln_core Sx (rsum (map dval ws)) (dval sum) (IZR n) b v u64 eta64) as (_ & C); try lra; try (unfold b; lra).
  exists m, (ln Sx). repeat split; auto; try lra.
  - apply ln_nonneg. lra.
  - apply ln_le; lra.
  - unfold b. lra.
Qed.

Lemma soft_err : let r := o_soft F_ops fexp flog f_lowest opp temp qs in
  Rabs (dval r - sg * (t * ln (rsum (map exp em)))) <= 10 * u64 * Q + t * (v * (5 + 2 * ln (IZR n)) + 6 * IZR n * u64).
Proof using All.
  intros r. destruct soft_ok as (_ & Vm & Vr). fold r in Vr. destruct log_ok as (_ & Ll & _). destruct log_err as (m & La & -> & LaB & Mx & Ne & Le & Lc).
  set (l := dval (flog sum)) in *. set (mm := dval (SFadd Fprec Femax (flog sum) norm)) in *. set (ls := ln (dval sum)) in *. set (N' := dval norm) in *.
  set (x := X) in *. set (nn := IZR n) in *. set (Ln := ln nn) in *.
  destruct u_eta as (U & (He & Hee) & _). pose proof eta_small as E1. pose proof (libm_v _ _ _ Lm) as Hv.
  pose proof uX as UX. pose proof nu as NU. pose proof neta as NE. pose proof X_pos as Xp. pose proof n_real as Nr. fold x in UX, Xp. fold nn in NU, NE, Nr.
  assert (Tx : t * x = Q) by (unfold x; field; pose proof t_pos; lra). pose proof t_pos as Tp.
  pose proof (ln_lin nn ltac:(lra)) as Lin. fold Ln in Lin.
  assert (uX0 : 0 <= u64 * x) by (apply Rmult_le_pos; lra). assert (nu0 : 0 <= nn * u64) by (apply Rmult_le_pos; lra).
  assert (uL : 0 <= u64 * La <= u64 * Ln) by (split; [apply Rmult_le_pos|apply Rmult_le_compat_l]; lra).
  assert (vL : 0 <= v * La <= v * Ln) by (split; [apply Rmult_le_pos|apply Rmult_le_compat_l]; lra).
  assert (uLn : u64 * Ln <= nn * u64 - u64) by (replace (nn * u64 - u64) with (u64 * (nn - 1)) by ring; apply Rmult_le_compat_l; lra).
  assert (ne0 : 0 <= nn * eta64) by (apply Rmult_le_pos; lra).
  assert (ne1 : eta64 <= nn * eta64) by (rewrite <- (Rmult_1_l eta64) at 1; apply Rmult_le_compat_r; lra).
  assert (Als : Rabs ls <= La + 1) by (apply abs_inv in Le; apply Rabs_le; lra).
  assert (Ll' : Rabs (l - ls) <= v * (2 + La)).
  { eapply Rle_trans; [exact Ll|]. apply Rmult_le_compat_l; lra. }
  assert (Al : Rabs l <= 2 * La + 2).
  { assert (v * (2 + La) <= / 2 * (2 + La)) by (apply Rmult_le_compat_r; lra). apply abs_inv in Als, Ll'. apply Rabs_le. lra. }
  assert (AN : Rabs N' <= 2 * x + 1).
  { apply abs_inv in Ne, Mx. assert (u64 * x <= / 1000 * x) by (apply Rmult_le_compat_r; lra). apply Rabs_le. lra. }
  assert (Em : Rabs (mm - (l + N')) <= 2 * (u64 * x) + 2 * (u64 * La) + 3 * u64 + eta64).
  { rewrite Vm. eapply Rle_trans; [apply (round_err _ _ _ near_rounding)|]. apply Rplus_le_compat_r.
    replace (2 * (u64 * x) + 2 * (u64 * La) + 3 * u64) with (u64 * (2 * x + 1 + (2 * La + 2))) by ring. apply Rmult_le_compat_l; [lra|].
    pose proof (Rabs_triang l N'). lra. }
  replace (v * (2 + La)) with (2 * v + v * La) in Ll' by ring.
  assert (Et : Rabs (mm - (La + m)) <= 8 * (u64 * x) + (4 * v + v * La) + (2 * (nn * u64) + 2 * (u64 * La) + 3 * u64) + 20 * (nn * eta64)).
  { apply abs_inv in Em, Ll', Le, Ne. apply Rabs_le. lra. }
  assert (Er : Rabs (dval r - sg * t * mm) <= t * (u64 * Rabs mm) + eta64).
  { rewrite Vr. eapply Rle_trans; [apply (round_err _ _ _ near_rounding)|]. apply Rplus_le_compat_r. rewrite !Rabs_mult, (Rabs_pos_eq t) by lra.
    replace (Rabs sg) with 1; [right; ring|]. destruct Hsg as [-> | ->]; [now rewrite Rabs_R1|]. rewrite Rabs_left; lra. }
  set (E := 8 * (u64 * x) + (4 * v + v * La) + (2 * (nn * u64) + 2 * (u64 * La) + 3 * u64) + 20 * (nn * eta64)) in *.
  assert (E0 : 0 <= E) by (pose proof (Rabs_pos (mm - (La + m))); lra).
  assert (Um : u64 * Rabs mm <= / 1000 * E + u64 * La + u64 * x).
  { apply Rle_trans with (u64 * (E + La + x)).
    - apply Rmult_le_compat_l; [lra|]. apply abs_inv in Et, Mx. apply Rabs_le. lra.
    - assert (u64 * E <= / 1000 * E) by (apply Rmult_le_compat_r; lra). replace (u64 * (E + La + x)) with (u64 * E + u64 * La + u64 * x) by ring. lra. }
  assert (Eta : eta64 <= t * (/ 1000 * u64)).
  { apply Rle_trans with (powerRZ 2 (-900) * (/ 1000 * u64)); [|apply Rmult_le_compat_r; lra].
    eapply Rle_trans; [exact Hee|]. replace (powerRZ 2 (-900) * (/ 1000 * u64)) with (u64 * (powerRZ 2 (-900) * / 1000)) by ring. apply Rmult_le_compat_l; [lra|].
    change (-940)%Z with (-900 + -40)%Z. rewrite powerRZ_add by lra. apply Rmult_le_compat_l; [apply Rlt_le, powerRZ_lt; lra|].
    apply Rle_trans with (powerRZ 2 (-10)); [apply pow_mono; lia|]. change (powerRZ 2 (-10)) with (/ 2 ^ 10). cbn [pow]. lra. }
  assert (un : u64 <= nn * u64) by (rewrite <- (Rmult_1_l u64) at 1; apply Rmult_le_compat_r; lra).
  assert (neu : nn * eta64 <= / 1000 * (nn * u64)).
  { replace (/ 1000 * (nn * u64)) with (nn * (u64 * / 1000)) by ring. apply Rmult_le_compat_l; [lra|]. eapply Rle_trans; [exact Hee|]. apply Rmult_le_compat_l; [lra|]. apply u_eta. }
  assert (vn : 0 <= v * Ln) by lra.
  replace (10 * u64 * Q + t * (v * (5 + 2 * Ln) + 6 * nn * u64)) with (t * (10 * (u64 * x) + (5 * v + 2 * (v * Ln)) + 6 * (nn * u64))) by (rewrite <- Tx; ring).
  apply Rle_trans with (t * (u64 * Rabs mm) + t * (/ 1000 * u64) + t * E).
  - replace (dval r - sg * (t * (La + m))) with ((dval r - sg * t * mm) + sg * t * (mm - (La + m))) by ring.
    eapply Rle_trans; [apply Rabs_triang|]. apply Rplus_le_compat; [lra|]. rewrite !Rabs_mult, (Rabs_pos_eq t) by lra.
    replace (Rabs sg) with 1; [rewrite Rmult_1_l; apply Rmult_le_compat_l; lra|]. destruct Hsg as [-> | ->]; [now rewrite Rabs_R1|]. rewrite Rabs_left; lra.
  - rewrite <- !Rmult_plus_distr_l. apply Rmult_le_compat_l; [lra|]. unfold E in *. lra.
Qed.
End Soft.
