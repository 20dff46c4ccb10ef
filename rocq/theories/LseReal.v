(** Error analysis of the soft backup: facts about real numbers. *)
From Coq Require Import List ZArith Bool Reals Lia Lra.
From Verif Require Import Base EngineModel EngineSpec.
Import ListNotations.
Open Scope R_scope.

Lemma abs_inv : forall x a, Rabs x <= a -> - a <= x <= a.
Proof. intros x a. unfold Rabs. destruct (Rcase_abs x); lra. Qed.
Lemma exp_lin : forall u, 0 <= u <= / 2 -> exp (- (2 * u)) <= 1 - u.
Proof.
  intros u H. rewrite exp_Ropp. pose proof (exp_ineq1_le (2 * u)) as E.
  apply Rle_trans with (/ (1 + 2 * u)); [apply Rinv_le_contravar; lra|].
  apply Rmult_le_reg_l with (1 + 2 * u); [lra|]. rewrite Rinv_r by lra. nra.
Qed.
Lemma exp_le : forall x y, x <= y -> exp x <= exp y.
Proof. intros x y [H| ->]; [apply Rlt_le, exp_increasing; auto|lra]. Qed.
Lemma exp_third : forall c, c <= 1 -> / 3 <= exp (- c).
Proof.
  intros c H. rewrite exp_Ropp. apply Rinv_le_contravar; [apply exp_pos|]. pose proof exp_le_3. pose proof (exp_le c 1 H). lra.
Qed.
Lemma exp_one : forall x, 0 <= x -> 1 <= exp x.
Proof. intros x H. rewrite <- exp_0. now apply exp_le. Qed.

Lemma ln_core : forall Sx T s n b v u eta, 1 <= Sx -> 0 <= b -> 0 <= v <= / 2 -> 0 <= n * u -> 0 <= n * eta ->
  T <= Sx * exp (b + v) + n * eta -> Sx * exp (- (b + 2 * v)) - n * eta <= T -> 0 <= T ->
  s <= (T + n * eta) * exp (n * u) -> T * exp (- (2 * (n * u))) - n * eta <= s ->
  let c := b + 2 * v + 2 * (n * u) + 12 * (n * eta) in c <= 1 ->
  0 < s /\ Rabs (ln s - ln Sx) <= c.
Proof.
  intros Sx T s n b v u eta HS Hb Hv Hu He T1 T2 T0 S1 S2 c Hc. set (y := n * eta) in *. set (z := n * u) in *.
  assert (Up : s <= Sx * exp (b + v + 2 * y + z)).
  { eapply Rle_trans; [exact S1|]. apply Rle_trans with (Sx * exp (b + v) * exp (2 * y) * exp z).
    - apply Rmult_le_compat_r; [apply Rlt_le, exp_pos|]. pose proof (exp_ineq1_le (2 * y)) as E. pose proof (exp_one (b + v) ltac:(lra)).
      assert (1 <= Sx * exp (b + v)) by nra. nra.
    - rewrite !exp_plus. apply Req_le. ring. }
  set (c0 := b + 2 * v + 2 * z) in *.
  assert (Lo : Sx * exp (- c0) - 2 * y <= s).
  { eapply Rle_trans; [|exact S2]. assert (E : exp (- c0) = exp (- (b + 2 * v)) * exp (- (2 * z))) by (rewrite <- exp_plus; f_equal; unfold c0; lra).
    rewrite E. assert (X0 : 0 < exp (- (2 * z))) by apply exp_pos. assert (X1 : exp (- (2 * z)) <= 1) by (rewrite <- exp_0; apply exp_le; lra).
    pose proof (Rmult_le_compat_r _ _ _ (Rlt_le _ _ X0) T2) as Q.
    pose proof (Rmult_le_compat_l y _ _ He X1). lra. }
  assert (K : / 3 <= exp (- c0)) by (apply exp_third; unfold c0; unfold c, c0 in Hc; lra).
  assert (K1 : / 3 <= Sx * exp (- c0)) by nra.
  assert (Lo2 : Sx * exp (- c) <= s).
  { apply Rle_trans with (Sx * exp (- c0) * (1 - 6 * y)); [|nra].
    assert (E : exp (- c) = exp (- c0) * exp (- (2 * (6 * y)))) by (rewrite <- exp_plus; f_equal; unfold c, c0; lra).
    rewrite E, <- Rmult_assoc. apply Rmult_le_compat_l; [lra|]. apply exp_lin. unfold c, c0 in Hc. lra. }
  assert (Sp : 0 < s) by (pose proof (exp_pos (- c)); nra).
  split; auto.
  assert (L1 : ln s <= ln Sx + c).
  { apply Rle_trans with (ln (Sx * exp (b + v + 2 * y + z))).
    - destruct Up as [Up| ->]; [apply Rlt_le, ln_increasing; auto|lra].
    - rewrite ln_mult by (try apply exp_pos; lra). rewrite ln_exp. unfold c, c0. lra. }
  assert (L2 : ln Sx - c <= ln s).
  { apply Rle_trans with (ln (Sx * exp (- c))).
    - rewrite ln_mult by (try apply exp_pos; lra). rewrite ln_exp. lra.
    - destruct Lo2 as [Q| ->]; [apply Rlt_le, ln_increasing; auto; pose proof (exp_pos (- c)); nra|lra]. }
  apply Rabs_le. lra.
Qed.

(** One weight. *)
Lemma weight_core : forall d e w b v eta, Rabs (d - e) <= b -> 0 <= v <= / 2 -> 0 <= eta -> Rabs (w - exp d) <= v * exp d + eta ->
  w <= exp e * exp (b + v) + eta /\ exp e * exp (- (b + 2 * v)) - eta <= w.
Proof.
  intros d e w b v eta Hd Hv He Hw. apply abs_inv in Hd, Hw.
  assert (U : exp d <= exp (e + b)) by (apply exp_le; lra). assert (Lw : exp (e + - b) <= exp d) by (apply exp_le; lra).
  rewrite exp_plus in U, Lw. pose proof (exp_pos d). pose proof (exp_ineq1_le v). pose proof (exp_lin v Hv).
  pose proof (exp_pos e). pose proof (exp_pos b). pose proof (exp_pos (- b)). pose proof (exp_pos v). pose proof (exp_pos (- (2 * v))). split.
  - rewrite exp_plus. apply Rle_trans with (exp d * (1 + v) + eta); [lra|]. apply Rplus_le_compat_r.
    rewrite <- Rmult_assoc. apply Rmult_le_compat; lra.
  - replace (- (b + 2 * v)) with (- b + - (2 * v)) by lra. rewrite exp_plus. apply Rle_trans with (exp d * (1 - v) - eta); [|lra].
    apply Rplus_le_compat_r. rewrite <- Rmult_assoc. apply Rmult_le_compat; try lra. apply Rmult_le_pos; lra.
Qed.

Lemma weights_core : forall ds es ws b v eta, 0 <= v <= / 2 -> 0 <= eta ->
  Forall2 (fun d e => Rabs (d - e) <= b) ds es -> Forall2 (fun w d => Rabs (w - exp d) <= v * exp d + eta) ws ds ->
  rsum ws <= rsum (map exp es) * exp (b + v) + IZR (Z.of_nat (length ws)) * eta /\
  rsum (map exp es) * exp (- (b + 2 * v)) - IZR (Z.of_nat (length ws)) * eta <= rsum ws.
Proof.
  intros ds es ws b v eta Hv He F1 F2. revert ws F2. induction F1 as [|d e ds es Q1 F1 IH]; intros ws F2; inversion F2 as [|w d' ws' ds' Q2 F2' E1 E2]; subst.
  - cbn. lra.
  - destruct (IH _ F2') as (I1 & I2). destruct (weight_core d e w b v eta Q1 Hv He Q2) as (W1 & W2).
    cbn [length]. rewrite Nat2Z.inj_succ, succ_IZR. cbn [map rsum fold_right]. fold (rsum ws') (rsum (map exp es)). lra.
Qed.

(** The sum of exponentials relative to the largest exponent. *)
Lemma rsum_pos : forall l, (forall x, In x l -> 0 <= x) -> 0 <= rsum l.
Proof.
  induction l as [|x l IH]; intros H; cbn; [lra|]. fold (rsum l). pose proof (H x (or_introl eq_refl)). specialize (IH (fun y Q => H y (or_intror Q))). lra.
Qed.
Lemma lse_shift : forall es m, In m es -> (forall e, In e es -> e <= m) ->
  1 <= rsum (map exp (map (fun e => e - m) es)) <= IZR (Z.of_nat (length es)) /\
  ln (rsum (map exp es)) = ln (rsum (map exp (map (fun e => e - m) es))) + m.
Proof.
  intros es m Hm Hx.
  assert (B : 1 <= rsum (map exp (map (fun e => e - m) es)) <= IZR (Z.of_nat (length es))).
  { split.
    - clear Hx. induction es as [|e es IH]; [contradiction|]. cbn. fold (rsum (map exp (map (fun e => e - m) es))). destruct Hm as [->|Hm].
      + replace (m - m) with 0 by lra. rewrite exp_0.
        assert (0 <= rsum (map exp (map (fun e => e - m) es))); [|lra]. apply rsum_pos. intros x Q. apply in_map_iff in Q.
        destruct Q as (y & <- & _). apply Rlt_le, exp_pos.
      + specialize (IH Hm). pose proof (exp_pos (e - m)). lra.
    - clear Hm. induction es as [|e es IH]; [cbn; lra|]. cbn [length map rsum fold_right]. rewrite Nat2Z.inj_succ, succ_IZR.
      fold (rsum (map exp (map (fun e => e - m) es))). pose proof (IH (fun y Q => Hx y (or_intror Q))).
      assert (exp (e - m) <= 1); [|lra]. rewrite <- exp_0. apply exp_le. pose proof (Hx e (or_introl eq_refl)). lra. }
  split; auto.
  assert (E : rsum (map exp es) = rsum (map exp (map (fun e => e - m) es)) * exp m).
  { clear. induction es as [|e es IH]; [cbn; lra|]. cbn [map rsum fold_right]. fold (rsum (map exp es)) (rsum (map exp (map (fun e => e - m) es))).
    rewrite IH. replace (exp e) with (exp (e - m) * exp m) by (rewrite <- exp_plus; f_equal; lra). lra. }
  rewrite E, ln_mult, ln_exp; auto; [lra|apply exp_pos].
Qed.
Lemma ln_nonneg : forall x, 1 <= x -> 0 <= ln x.
Proof. intros x [H| <-]; [rewrite <- ln_1; apply Rlt_le, ln_increasing; lra|rewrite ln_1; lra]. Qed.
Lemma ln_le : forall x y, 0 < x -> x <= y -> ln x <= ln y.
Proof. intros x y H [L| ->]; [apply Rlt_le, ln_increasing; auto|lra]. Qed.
Lemma ln_lin : forall x, 0 < x -> ln x <= x - 1.
Proof. intros x H. pose proof (exp_ineq1_le (ln x)) as E. rewrite exp_ln in E; auto. lra. Qed.
