(** The running average of chance nodes in doubles. *)
From Coq Require Import List ZArith Bool Reals Lia Lra.
From Coq Require Import Floats.SpecFloat.
From Verif Require Import Base NumOps MentsModel DoubleSpec DoubleProofs LseModel LseSpec LseReal LseProofs RoundExamples.
Import ListNotations.
Open Scope R_scope.

Section Avg.
Variable B : R.
Hypothesis B0 : 0 <= B.
Hypothesis B_hi : B <= powerRZ 2 900.
Notation b := (u64 * B + eta64).

Lemma u_small : 0 < u64 <= powerRZ 2 (-50) /\ powerRZ 2 (-50) <= / 1000000.
Proof.
  unfold u64. split; [split; [apply powerRZ_lt; lra|apply pow_mono; lia]|]. apply Rle_trans with (powerRZ 2 (-20)); [apply pow_mono; lia|].
  change (powerRZ 2 (-20)) with (/ 2 ^ 20). cbn [pow]. lra.
Qed.
Lemma eta_u : 0 < eta64 <= / 1000000 * u64.
Proof.
  destruct u_eta as (U & (E1 & E2) & _). split; auto. eapply Rle_trans; [exact E2|]. rewrite (Rmult_comm _ u64). apply Rmult_le_compat_l; [lra|].
  apply Rle_trans with (powerRZ 2 (-50)); [apply pow_mono; lia|]. apply u_small.
Qed.
Lemma B950 : B * powerRZ 2 40 <= powerRZ 2 940 /\ 64 * powerRZ 2 940 <= powerRZ 2 950 /\ 1 <= powerRZ 2 40.
Proof using B_hi.
  split; [|split; [|apply pow_big; lia]].
  - replace (powerRZ 2 940) with (powerRZ 2 900 * powerRZ 2 40) by (rewrite <- powerRZ_add by lra; reflexivity).
    apply Rmult_le_compat_r; auto. apply Rlt_le, powerRZ_lt. lra.
  - replace 64 with (powerRZ 2 6) by (change (powerRZ 2 6) with (2 ^ 6); cbn [pow]; lra). rewrite <- powerRZ_add by lra. apply pow_mono. lia.
Qed.
Lemma conv : forall p q x y r, 0 <= p -> 0 <= q -> p + q = 1 -> Rabs x <= r -> Rabs y <= r -> Rabs (x * p + q * y) <= r.
Proof using Type. intros p q x y r Hp Hq E Hx Hy. apply abs_inv in Hx, Hy. apply Rabs_le. nra. Qed.

(** One step: [V] is the exact average so far, of [k] backups; [e] is the error so far. *)
Lemma avg_step_core : forall v V s k c x e,
  double v -> double s -> dval s = IZR k -> double x -> Rabs V <= B -> Rabs (dval x) <= B -> (0 <= k)%Z -> (0 < c <= 2 ^ 31)%Z -> (k + c <= 2 ^ 52)%Z ->
  Rabs (dval v - V) <= e -> e <= / 100 * B + eta64 * powerRZ 2 40 ->
  let r := o_avg_step F_ops (v, s) (c, x) in
  let V' := V * ((IZR k + IZR c - IZR c) / (IZR k + IZR c)) + IZR c * dval x / (IZR k + IZR c) in
  double (fst r) /\ double (snd r) /\ dval (snd r) = IZR (k + c) /\ Rabs V' <= B /\ Rabs (dval (fst r) - V') <= e + 10 * b.
Proof using B0 B_hi.
  intros v V s k c x e Dv Ds Es Dx HV Hx Hk Hc Hkc He Hee r V'.
  destruct (small_int c ltac:(lia)) as (Dc & Ec). destruct u_small as (U & U'). destruct eta_u as (E1 & E2). destruct B950 as (P1 & P2 & P3).
  pose proof (round_err _ _ _ near_rounding) as Er. pose proof near_orderly as (Mo & Id).
  assert (Kc : 0 < IZR c) by (apply IZR_lt; lia). assert (K0 : 0 <= IZR k) by (apply IZR_le; lia). assert (Kb : IZR c <= powerRZ 2 31) by (rewrite <- zpow by lia; apply IZR_le; lia).
  (* the count *)
  set (cF := nofZ F_ops c) in *.
  destruct (add_rounds s cF Ds Dc) as (D1 & V1).
  { rewrite Es, Ec, <- plus_IZR. apply near_fits, int_large. lia. }
  rewrite Es, Ec, <- plus_IZR, near_int in V1 by lia. set (s' := SFadd Fprec Femax s cF) in *.
  destruct (sub_rounds s' cF D1 Dc) as (D2 & V2).
  { rewrite V1, Ec, <- minus_IZR. apply near_fits, int_large. lia. }
  rewrite V1, Ec, <- minus_IZR, near_int in V2 by lia. replace (k + c - c)%Z with k in V2 by lia.
  set (Sr := IZR (k + c)) in *. assert (Sr1 : 1 <= Sr) by (apply IZR_le; lia). assert (SrE : Sr = IZR k + IZR c) by apply plus_IZR.
  (* the weight of the old average *)
  set (rho := IZR k / Sr). assert (Rh : 0 <= rho <= 1).
  { unfold rho. split; [apply Rmult_le_pos; [lra|apply Rlt_le, Rinv_0_lt_compat; lra]|]. apply Rmult_le_reg_r with Sr; [lra|]. unfold Rdiv. rewrite Rmult_assoc, Rinv_l; lra. }
  set (sg := IZR c / Sr). assert (Sg : 0 <= sg /\ rho + sg = 1). { unfold sg, rho. split; [apply Rmult_le_pos; [lra|apply Rlt_le, Rinv_0_lt_compat; lra]|]. rewrite SrE. field. lra. }
  assert (VE : V' = V * rho + sg * dval x). { unfold V', rho, sg. rewrite <- SrE. replace (Sr - IZR c) with (IZR k) by lra. field. lra. }
  destruct (div_rounds (SFsub Fprec Femax s' cF) s' D2 D1) as (D3 & V3); [lra|rewrite V2, V1; apply near_fits; fold rho; rewrite Rabs_pos_eq by lra; pose proof large_pos; lra|].
  rewrite V2, V1 in V3. fold Sr rho in V3. set (rF := SFdiv Fprec Femax (SFsub Fprec Femax s' cF) s') in *.
  assert (R1 : 0 <= dval rF <= 1).
  { rewrite V3. rewrite <- near_z at 1. rewrite <- (near_int 1) by lia. split; apply Mo; lra. }
  assert (R2 : Rabs (dval rF - rho) <= u64 + eta64).
  { rewrite V3. eapply Rle_trans; [apply Er|]. rewrite Rabs_pos_eq by lra. assert (u64 * rho <= u64 * 1) by (apply Rmult_le_compat_l; lra). lra. }
  (* the old average times its weight *)
  assert (e0 : 0 <= e) by (pose proof (Rabs_pos (dval v - V)); lra).
  assert (uB : 0 <= u64 * B) by (apply Rmult_le_pos; lra).
  assert (Eta40 : eta64 * powerRZ 2 40 <= / 1000000).
  { apply Rle_trans with (powerRZ 2 (-1000)).
    - unfold eta64. rewrite <- powerRZ_add by lra. apply pow_mono. lia.
    - apply Rle_trans with (powerRZ 2 (-50)); [apply pow_mono; lia|apply u_small]. }
  assert (ue : u64 * e <= / 100 * (u64 * B) + / 4 * eta64).
  { apply Rle_trans with (u64 * (/ 100 * B + eta64 * powerRZ 2 40)); [apply Rmult_le_compat_l; lra|].
    replace (u64 * (/ 100 * B + eta64 * powerRZ 2 40)) with (/ 100 * (u64 * B) + u64 * powerRZ 2 40 * eta64) by ring. apply Rplus_le_compat_l, Rmult_le_compat_r; [lra|].
    unfold u64. rewrite <- powerRZ_add by lra. apply Rle_trans with (powerRZ 2 (-2)); [apply pow_mono; lia|]. change (powerRZ 2 (-2)) with (/ 2 ^ 2). cbn [pow]. lra. }
  assert (ee : eta64 * (B + e) <= / 1000 * (u64 * B) + / 1000 * eta64).
  { assert (eta64 * B <= / 1000000 * u64 * B) by (apply Rmult_le_compat_r; lra). assert (eta64 * e <= / 1000000 * u64 * e) by (apply Rmult_le_compat_r; lra). lra. }
  assert (Av : Rabs (dval v) <= B + e) by (apply abs_inv in HV, He; apply Rabs_le; lra).
  assert (Avr : Rabs (dval v * dval rF) <= B + e).
  { rewrite Rabs_mult, (Rabs_pos_eq (dval rF)) by lra. replace (B + e) with ((B + e) * 1) by lra. apply Rmult_le_compat; try lra. apply Rabs_pos. }
  assert (PB : B <= powerRZ 2 940 /\ 1 <= powerRZ 2 940). { split; [|apply pow_big; lia]. eapply Rle_trans; [exact B_hi|]. apply pow_mono. lia. }
  destruct (mul_rounds v rF Dv D3) as (D4 & V4). { apply fits. lra. }
  set (p := SFmul Fprec Femax v rF) in *.
  assert (Ep : Rabs (dval p - V * rho) <= e + 2 * (u64 * B + u64 * e) + eta64 * (B + e) + eta64).
  { assert (Q1 : Rabs (dval p - dval v * dval rF) <= u64 * (B + e) + eta64). { rewrite V4. eapply Rle_trans; [apply Er|]. apply Rplus_le_compat_r, Rmult_le_compat_l; lra. }
    assert (Q2 : Rabs (dval v * (dval rF - rho)) <= (B + e) * (u64 + eta64)). { rewrite Rabs_mult. apply Rmult_le_compat; auto using Rabs_pos. }
    assert (Q3 : Rabs ((dval v - V) * rho) <= e * 1). { rewrite Rabs_mult, (Rabs_pos_eq rho) by lra. apply Rmult_le_compat; try lra. apply Rabs_pos. }
    replace (dval p - V * rho) with ((dval p - dval v * dval rF) + dval v * (dval rF - rho) + (dval v - V) * rho) by ring.
    apply abs_inv in Q1, Q2, Q3. apply Rabs_le. lra. }
  (* the new value *)
  assert (cx : Rabs (IZR c * dval x) <= powerRZ 2 940).
  { rewrite Rabs_mult, (Rabs_pos_eq (IZR c)) by lra. eapply Rle_trans; [|exact P1]. rewrite Rmult_comm. apply Rmult_le_compat; auto using Rabs_pos; try lra.
    eapply Rle_trans; [exact Kb|]. apply pow_mono. lia. }
  destruct (mul_rounds cF x Dc Dx) as (D5 & V5). { rewrite Ec. apply fits. lra. }
  rewrite Ec in V5. set (y1 := SFmul Fprec Femax cF x) in *.
  assert (Y1 : Rabs (dval y1 / Sr - sg * dval x) <= u64 * B + eta64).
  { replace (dval y1 / Sr - sg * dval x) with ((dval y1 - IZR c * dval x) * / Sr) by (unfold sg; field; lra).
    rewrite Rabs_mult, (Rabs_pos_eq (/ Sr)) by (apply Rlt_le, Rinv_0_lt_compat; lra). apply Rmult_le_reg_r with Sr; [lra|]. rewrite Rmult_assoc, Rinv_l, Rmult_1_r by lra.
    rewrite V5. eapply Rle_trans; [apply Er|]. rewrite Rabs_mult, (Rabs_pos_eq (IZR c)) by lra.
    assert (IZR c * Rabs (dval x) <= Sr * B) by (apply Rmult_le_compat; auto using Rabs_pos; lra).
    assert (u64 * (IZR c * Rabs (dval x)) <= u64 * (Sr * B)) by (apply Rmult_le_compat_l; lra).
    assert (eta64 * 1 <= eta64 * Sr) by (apply Rmult_le_compat_l; lra). replace ((u64 * B + eta64) * Sr) with (u64 * (Sr * B) + eta64 * Sr) by ring. lra. }
  assert (sx : Rabs (sg * dval x) <= B).
  { rewrite Rabs_mult, (Rabs_pos_eq sg) by lra. replace B with (1 * B) by lra. apply Rmult_le_compat; auto using Rabs_pos; lra. }
  assert (uB1 : u64 * B <= / 1000 * B) by (apply Rmult_le_compat_r; lra).
  assert (Y1a : Rabs (dval y1 / Sr) <= 2 * B + eta64) by (apply abs_inv in Y1, sx; apply Rabs_le; lra).
  destruct (div_rounds y1 s' D5 D1) as (D6 & V6); [lra|rewrite V1; apply fits; lra|].
  rewrite V1 in V6. set (y := SFdiv Fprec Femax y1 s') in *.
  assert (Ey : Rabs (dval y - sg * dval x) <= 3 * (u64 * B) + 5 / 2 * eta64).
  { assert (Q1 : Rabs (dval y - dval y1 / Sr) <= u64 * (2 * B + eta64) + eta64). { rewrite V6. eapply Rle_trans; [apply Er|]. apply Rplus_le_compat_r, Rmult_le_compat_l; lra. }
    assert (u64 * eta64 <= / 1000 * eta64) by (apply Rmult_le_compat_r; lra). apply abs_inv in Q1, Y1. apply Rabs_le. lra. }
  (* their sum *)
  assert (HV' : Rabs V' <= B) by (rewrite VE; apply conv; auto; lra).
  assert (Epy : Rabs (dval p + dval y - V') <= e + (5 + 3 / 100) * (u64 * B) + 41 / 10 * eta64).
  { rewrite VE. apply abs_inv in Ep, Ey. apply Rabs_le. lra. }
  assert (Apy : Rabs (dval p + dval y) <= B + (e + (5 + 3 / 100) * (u64 * B) + 41 / 10 * eta64)) by (apply abs_inv in Epy, HV'; apply Rabs_le; lra).
  destruct (add_rounds p y D4 D6) as (D7 & V7). { apply fits. lra. }
  assert (r = (SFadd Fprec Femax p y, s')) as ->.
  { unfold r, o_avg_step. cbn [fst snd]. destruct (Z.eqb_spec c 0) as [->|_]; [lia|reflexivity]. }
  cbn [fst snd]. split; auto. split; auto. split; auto. split; auto.
  assert (Q : Rabs (dval (SFadd Fprec Femax p y) - (dval p + dval y)) <= u64 * (B + (e + (5 + 3 / 100) * (u64 * B) + 41 / 10 * eta64)) + eta64).
  { rewrite V7. eapply Rle_trans; [apply Er|]. apply Rplus_le_compat_r, Rmult_le_compat_l; lra. }
  assert (u64 * (u64 * B) <= / 1000 * (u64 * B)) by (apply Rmult_le_compat_r; lra). assert (u64 * eta64 <= / 1000 * eta64) by (apply Rmult_le_compat_r; lra).
  apply abs_inv in Q, Epy. apply Rabs_le. lra.
Qed.

Notation vals l := (map (fun p => (fst p, dval (snd p))) l).
Lemma avg_fold_core : forall l v V s k e, double v -> double s -> dval s = IZR k -> (0 <= k)%Z -> Rabs V <= B ->
  Forall (fun p => (0 <= fst p <= 2 ^ 31)%Z /\ double (snd p) /\ Rabs (dval (snd p)) <= B) l ->
  (k + fold_right (fun p => Z.add (fst p)) 0 l <= 2 ^ 52)%Z ->
  Rabs (dval v - V) <= e -> e + 10 * IZR (Z.of_nat (length l)) * b <= / 100 * B + eta64 * powerRZ 2 40 ->
  let r := fold_left (o_avg_step F_ops) l (v, s) in
  let r' := fold_left avg_step (vals l) (V, IZR k) in
  double (fst r) /\ Rabs (dval (fst r) - fst r') <= e + 10 * IZR (Z.of_nat (length l)) * b.
Proof using B0 B_hi.
  assert (Hb : 0 <= b). { destruct u_small as (U & _). destruct eta_u as (E1 & _). assert (0 <= u64 * B) by (apply Rmult_le_pos; lra). lra. }
  induction l as [|[c x] l IH]; intros v V s k e Dv Ds Es Hk HV Fl Hs He Hee; cbn [map fold_left fold_right fst snd] in *.
  - cbn [length] in *. split; auto. cbn [fst]. change (Z.of_nat 0) with 0%Z. lra.
  - inversion Fl as [|? ? (F1 & F2 & F3) Fl']; subst. cbn [fst snd] in *. cbn [length] in *. rewrite Nat2Z.inj_succ, succ_IZR in *.
    assert (Sp : (0 <= fold_right (fun p => Z.add (fst p)) 0 l)%Z).
    { clear - Fl'. induction Fl' as [|[d y] l (F1 & _) _ IH]; cbn [fold_right fst] in *; lia. }
    assert (Lp : 0 <= IZR (Z.of_nat (length l))) by (apply IZR_le; lia).
    assert (Lb : 0 <= 10 * IZR (Z.of_nat (length l)) * b) by (apply Rmult_le_pos; lra).
    destruct (Z.eq_dec c 0) as [-> | Hc].
    + unfold o_avg_step at 2, avg_step at 2. cbn [fst snd]. destruct (IH v V s k e) as (I1 & I2); auto; try lia; try lra. split; [exact I1|]. eapply Rle_trans; [exact I2|]. lra.
    + destruct (avg_step_core v V s k c x e) as (S1 & S2 & S3 & S4 & S5); auto; try lia; try lra.
      destruct (o_avg_step F_ops (v, s) (c, x)) as [v' s'] eqn:Eo. cbn [fst snd] in *.
      assert (Ea : avg_step (V, IZR k) (c, dval x) = (V * ((IZR k + IZR c - IZR c) / (IZR k + IZR c)) + IZR c * dval x / (IZR k + IZR c), IZR (k + c))).
      { unfold avg_step. cbn [fst snd]. destruct (Z.eqb_spec c 0); [lia|]. now rewrite plus_IZR. }
      rewrite Ea. set (V' := V * _ + _) in *.
      destruct (IH v' V' s' (k + c)%Z (e + 10 * b)) as (I1 & I2); auto; try lia; try lra. split; [exact I1|]. eapply Rle_trans; [exact I2|]. lra.
Qed.

Lemma avg_err : forall l, Forall (fun p => (0 <= fst p <= 2 ^ 31)%Z /\ double (snd p) /\ Rabs (dval (snd p)) <= B) l ->
  (fold_right (fun p => Z.add (fst p)) 0 l <= 2 ^ 52)%Z -> (Z.of_nat (length l) <= 2 ^ 31)%Z ->
  double (o_avg F_ops l) /\ Rabs (dval (o_avg F_ops l) - avg_loop (vals l)) <= 10 * IZR (Z.of_nat (length l)) * b.
Proof using B0 B_hi.
  intros l Fl Hs Hl. destruct zero_double as (Dz & Vz). destruct u_small as (U & U'). destruct eta_u as (E1 & E2).
  destruct (avg_fold_core l (S754_zero false) 0 (S754_zero false) 0 0) as (I1 & I2); auto; try lra; try lia.
  - rewrite Rabs_R0. lra.
  - rewrite Vz, Rminus_0_r, Rabs_R0. lra.
  - assert (Nl : 0 <= IZR (Z.of_nat (length l)) <= powerRZ 2 31). { rewrite <- zpow by lia. split; apply IZR_le; lia. }
    set (n := IZR (Z.of_nat (length l))) in *. replace (0 + 10 * n * b) with (10 * (n * u64) * B + eta64 * (10 * n)) by ring.
    apply Rplus_le_compat; [apply Rmult_le_compat_r; auto|apply Rmult_le_compat_l; [lra|]].
    + assert (n * u64 <= powerRZ 2 (-22)).
      { apply Rle_trans with (powerRZ 2 31 * u64); [apply Rmult_le_compat_r; lra|]. unfold u64. rewrite <- powerRZ_add by lra. apply pow_mono. lia. }
      assert (powerRZ 2 (-22) <= / 1000). { apply Rle_trans with (powerRZ 2 (-10)); [apply pow_mono; lia|]. change (powerRZ 2 (-10)) with (/ 2 ^ 10). cbn [pow]. lra. }
      lra.
    + apply Rle_trans with (powerRZ 2 4 * powerRZ 2 31); [change (powerRZ 2 4) with (2 ^ 4); cbn [pow]; lra|]. rewrite <- powerRZ_add by lra. apply pow_mono. lia.
  - rewrite Rplus_0_l in I2. split; auto.
Qed.
End Avg.
