(** Error analysis of rounded sums and running averages. *)
From Coq Require Import List ZArith Bool Reals Lia Lra.
From Verif Require Import Base NumOps EngineModel EngineSpec EngineBound DoubleSpec AlgoModel UctModel UctSpec UctProofs RoundModel RoundSpec.
Import ListNotations.
Open Scope R_scope.

Lemma abs_le : forall x y, Rabs x <= y <-> - y <= x <= y.
Proof. intros x y. split; [intros H; pose proof (Rle_abs x); pose proof (Rle_abs (- x)); rewrite Rabs_Ropp in *; lra|intros [H1 H2]; now apply Rabs_le]. Qed.
Lemma mul_abs : forall x i b, 0 <= i <= 1 -> Rabs x <= b -> Rabs (x * i) <= b * i.
Proof.
  intros x i b Hi H. rewrite Rabs_mult, (Rabs_pos_eq i) by lra. apply Rmult_le_compat_r; lra.
Qed.
Lemma scale_le : forall i b, 0 <= i <= 1 -> 0 <= b -> 0 <= b * i <= b.
Proof. intros i b Hi Hb. split; [apply Rmult_le_pos; lra|]. rewrite <- (Rmult_1_r b) at 2. apply Rmult_le_compat_l; lra. Qed.

Section Error.
Variable rnd : R -> R.
Variables u eta : R.
Hypothesis Rd : rounding rnd u eta.
Notation O := (rnd_ops rnd).

Lemma rnd_err : forall x b, Rabs x <= b -> Rabs (rnd x - x) <= u * b + eta.
Proof using Rd.
  intros x b H. pose proof (round_err _ _ _ Rd x). pose proof (round_u _ _ _ Rd).
  assert (u * Rabs x <= u * b) by (apply Rmult_le_compat_l; lra). lra.
Qed.

(** One step of the running average. *)
Lemma step_err : forall B a m r r' e dl i, 0 <= B -> 0 <= i <= 1 -> eta <= B / 100 ->
  Rabs (a - m) <= e -> e <= B / 8 -> Rabs m <= B -> Rabs r <= B -> Rabs (r' - r) <= dl -> dl <= B / 8 ->
  Rabs (rnd (a + rnd (rnd (r' - a) * i)) - (m + (r - m) * i)) <=
    e * (1 - i) + (dl + 5 * (u * B)) * i + (6/5 * (u * B) + 3 * eta).
Proof using Rd.
  intros B a m r r' e dl i HB Hi He Ham Heb Hm Hr Hrr Hd.
  pose proof (round_u _ _ _ Rd) as Hu. pose proof (round_eta _ _ _ Rd) as He0.
  set (v := u * B). assert (Hv : 0 <= v <= B / 1000).
  { unfold v. split; [apply Rmult_le_pos; lra|]. apply Rle_trans with (/ 1000 * B); [apply Rmult_le_compat_r; lra|lra]. }
  pose proof (proj1 (abs_le _ _) Ham). pose proof (proj1 (abs_le _ _) Hm). pose proof (proj1 (abs_le _ _) Hr).
  pose proof (proj1 (abs_le _ _) Hrr).
  assert (HX : Rabs (r' - a) <= 9/4 * B) by (apply abs_le; lra).
  pose proof (rnd_err _ _ HX) as D1. set (d1 := rnd (r' - a) - (r' - a)) in *.
  replace (rnd (r' - a)) with (r' - a + d1) by (unfold d1; lra).
  replace (u * (9/4 * B)) with (9/4 * v) in D1 by (unfold v; lra).
  pose proof (proj1 (abs_le _ _) D1) as D1'.
  assert (HT : Rabs ((r' - a + d1) * i) <= 2.3 * B * i).
  { apply mul_abs; auto. pose proof (proj1 (abs_le _ _) HX). apply abs_le. lra. }
  pose proof (rnd_err _ _ HT) as D2. set (T := (r' - a + d1) * i) in *. set (d2 := rnd T - T) in *.
  replace (rnd T) with (T + d2) by (unfold d2; lra).
  replace (u * (2.3 * B * i)) with (2.3 * (v * i)) in D2 by (unfold v; lra).
  pose proof (proj1 (abs_le _ _) D2) as D2'.
  pose proof (scale_le i v Hi (proj1 Hv)) as Hvi. pose proof (scale_le i eta Hi He0) as Hei.
  pose proof (mul_abs d1 i _ Hi D1) as D1i. pose proof (proj1 (abs_le _ _) D1i) as D1i'.
  replace ((9/4 * v + eta) * i) with (9/4 * (v * i) + eta * i) in D1i' by lra.
  assert (E1 : Rabs ((a - m) * (1 - i)) <= e * (1 - i)) by (apply mul_abs; lra).
  assert (E2 : Rabs ((r' - r) * i) <= dl * i) by (apply mul_abs; lra).
  pose proof (proj1 (abs_le _ _) E1) as E1'. pose proof (proj1 (abs_le _ _) E2) as E2'.
  assert (E3 : Rabs (a * (1 - i)) <= 9/8 * B * (1 - i)) by (apply mul_abs; [lra|apply abs_le; lra]).
  assert (E4 : Rabs (r' * i) <= 9/8 * B * i) by (apply mul_abs; [lra|apply abs_le; lra]).
  pose proof (proj1 (abs_le _ _) E3) as E3'. pose proof (proj1 (abs_le _ _) E4) as E4'.
  assert (HY : Rabs (a + (T + d2)) <= 6/5 * B).
  { replace (a + (T + d2)) with (a * (1 - i) + r' * i + d1 * i + d2) by (unfold T; lra). apply abs_le. lra. }
  pose proof (rnd_err _ _ HY) as D3. replace (u * (6/5 * B)) with (6/5 * v) in D3 by (unfold v; lra).
  pose proof (proj1 (abs_le _ _) D3) as D3'.
  apply abs_le.
  replace (rnd (a + (T + d2)) - (m + (r - m) * i)) with
    ((rnd (a + (T + d2)) - (a + (T + d2))) + ((a - m) * (1 - i) + (r' - r) * i + d1 * i + d2)) by (unfold T; lra).
  replace ((dl + 5 * v) * i) with (dl * i + 5 * (v * i)) by lra. lra.
Qed.

(** The exact average. *)
Definition run {N} (O : numops N) (x : nx N) (l : list N) : nx N := fold_right (fun r x => nx_backup O x r) x l.

Lemma run_cons : forall N (P : numops N) x r l, run P x (r :: l) = nx_backup P (run P x l) r.
Proof. reflexivity. Qed.
Lemma run_nb : forall N (P : numops N) l x, nnb (run P x l) = (nnb x + Z.of_nat (length l))%Z.
Proof. intros N P l x. induction l as [|r l IH]; [cbn; lia|]. rewrite run_cons. cbn [nx_backup nnb length]. rewrite IH. lia. Qed.

Lemma run_mean : forall w h l, (0 <= w)%Z -> is_mean w h l (nnb (run R_ops (mkNx w h) l)) (navg (run R_ops (mkNx w h) l)).
Proof.
  intros w h l Hw. induction l as [|r l IH].
  - unfold is_mean. cbn [run fold_right nnb navg rsum length]. split; [lia|]. split; auto. intros N. field. now apply not_0_IZR.
  - rewrite run_cons. cbn [nx_backup nnb navg nadd ndiv nsub nofZ R_ops]. apply mean_step; auto.
Qed.

Lemma inv_unit : forall k, (1 <= k)%Z -> 0 <= / IZR k <= 1.
Proof.
  intros k H. apply IZR_le in H. split; [apply Rlt_le, Rinv_0_lt_compat; lra|]. rewrite <- Rinv_1. apply Rinv_le_contravar; lra.
Qed.

Lemma run_bound : forall B w h l, (0 <= w)%Z -> Rabs h <= B -> (forall r, In r l -> Rabs r <= B) ->
  Rabs (navg (run R_ops (mkNx w h) l)) <= B.
Proof.
  intros B w h l Hw Hh Hl. induction l as [|r l IH]; auto. rewrite run_cons.
  cbn [nx_backup navg nadd ndiv nsub nofZ R_ops]. rewrite run_nb. cbn [nnb].
  specialize (IH (fun x Q => Hl x (or_intror Q))). pose proof (Hl r (or_introl eq_refl)) as Hr.
  set (m := navg _) in *. pose proof (inv_unit (w + Z.of_nat (length l) + 1) ltac:(lia)) as Hi. unfold Rdiv.
  set (i := / _) in *.
  assert (E3 : Rabs (m * (1 - i)) <= B * (1 - i)) by (apply mul_abs; [lra|auto]).
  assert (E4 : Rabs (r * i) <= B * i) by (apply mul_abs; auto).
  apply abs_le in E3. apply abs_le in E4. apply abs_le. lra.
Qed.

Lemma Forall2_len : forall T T' (P : T -> T' -> Prop) l l', Forall2 P l l' -> length l = length l'.
Proof. induction 1; cbn; auto. Qed.

(** The rounded average of rounded numbers. *)
Lemma run_err : forall B dl w h rs rs', 0 <= B -> (0 <= w)%Z -> Rabs h <= B -> 0 <= dl ->
  Forall2 (fun r r' => Rabs r <= B /\ Rabs (r' - r) <= dl) rs rs' ->
  dl + 5 * (u * B) + IZR (Z.of_nat (length rs)) * (6/5 * (u * B) + 3 * eta) <= B / 8 -> eta <= B / 100 ->
  Rabs (navg (run O (mkNx w h) rs') - navg (run R_ops (mkNx w h) rs)) <=
    dl + 5 * (u * B) + IZR (Z.of_nat (length rs)) * (6/5 * (u * B) + 3 * eta).
Proof using Rd.
  intros B dl w h rs rs' HB Hw Hh Hdl Hf Hc He. pose proof (round_u _ _ _ Rd) as Hu. pose proof (round_eta _ _ _ Rd) as He0.
  assert (Hv : 0 <= u * B) by (apply Rmult_le_pos; lra).
  assert (Hl : forall r, In r rs -> Rabs r <= B).
  { clear -Hf. induction Hf as [|a b l m [H _] Hf IH]; intros r []; subst; auto. }
  induction Hf as [|r r' l l' [Hr Hrr] Hf IH].
  - cbn. rewrite Rminus_diag_eq by reflexivity. rewrite Rabs_R0. lra.
  - cbn [length] in *. rewrite Nat2Z.inj_succ, succ_IZR in *. rewrite !run_cons.
    set (c := 6/5 * (u * B) + 3 * eta) in *. assert (0 <= c) by (unfold c; lra).
    assert (N0 : 0 <= IZR (Z.of_nat (length l))) by (apply IZR_le; lia).
    assert (Nc : 0 <= IZR (Z.of_nat (length l)) * c) by (apply Rmult_le_pos; auto).
    specialize (IH ltac:(lra) (fun x Q => Hl x (or_intror Q))).
    cbn [nx_backup navg nadd ndiv nsub nofZ R_ops rnd_ops]. rewrite !run_nb. cbn [nnb].
    rewrite <- (Forall2_len _ _ _ _ _ Hf). set (k := (w + Z.of_nat (length l) + 1)%Z).
    pose proof (inv_unit k ltac:(unfold k; lia)) as Hi. unfold Rdiv at 1 2. set (i := / IZR k) in *.
    assert (Hm := run_bound B w h l Hw Hh (fun x Q => Hl x (or_intror Q))).
    set (m := navg (run R_ops _ _)) in *. set (a := navg (run O _ _)) in *.
    eapply Rle_trans; [apply (step_err B a m r r' _ dl i HB Hi He IH); try lra|]. fold c.
    set (n := IZR (Z.of_nat (length l))) in *. pose proof (scale_le i (n * c) Hi Nc). lra.
Qed.

(** A rounded sum. *)
Lemma sum_err : forall B rho after, 0 <= rho -> IZR (Z.of_nat (length after)) * rho <= B ->
  (forall x, In x after -> Rabs x <= rho) -> IZR (Z.of_nat (length after)) * (2 * (u * B) + eta) <= B ->
  Rabs (ret_after O after - rsum after) <= IZR (Z.of_nat (length after)) * (2 * (u * B) + eta).
Proof using Rd.
  intros B rho [|v l] Hr HB Hx Hc; [cbn; rewrite Rminus_0_r, Rabs_R0; lra|].
  pose proof (round_u _ _ _ Rd) as Hu. pose proof (round_eta _ _ _ Rd) as He0.
  assert (HB0 : 0 <= B). { eapply Rle_trans; [|exact HB]. apply Rmult_le_pos; auto. apply IZR_le. lia. }
  assert (Hv : 0 <= u * B) by (apply Rmult_le_pos; lra).
  set (c := 2 * (u * B) + eta) in *. assert (0 <= c) by (unfold c; lra).
  cbn [ret_after].
  assert (G : forall l k s s', (forall x, In x l -> Rabs x <= rho) -> Rabs s <= IZR k * rho -> Rabs (s' - s) <= IZR k * c ->
    IZR (k + Z.of_nat (length l)) * rho <= B -> IZR (k + Z.of_nat (length l)) * c <= B -> (0 <= k)%Z ->
    Rabs (fold_left (nadd O) l s' - (s + rsum l)) <= IZR (k + Z.of_nat (length l)) * c).
  { clear -Rd Hr Hu He0 Hv HB0. intros l. fold c. assert (0 <= c) by (unfold c; lra).
    induction l as [|x l IH]; intros k s s' Hl Hs Hss H1 H2 Hk.
    - cbn [fold_left rsum length]. rewrite Z.add_0_r, Rplus_0_r. auto.
    - cbn [fold_left rsum length] in *. rewrite Nat2Z.inj_succ in *.
      replace (k + Z.succ (Z.of_nat (length l)))%Z with (k + 1 + Z.of_nat (length l))%Z in * by lia.
      rewrite <- Rplus_assoc. pose proof (Hl x (or_introl eq_refl)) as Hx.
      pose proof (proj1 (abs_le _ _) Hx). pose proof (proj1 (abs_le _ _) Hs). pose proof (proj1 (abs_le _ _) Hss).
      assert (M : forall y, 0 <= y -> IZR (k + 1) * y <= IZR (k + 1 + Z.of_nat (length l)) * y)
        by (intros y Hy; apply Rmult_le_compat_r; auto; apply IZR_le; lia).
      pose proof (M rho Hr) as M1. pose proof (M c ltac:(auto)) as M2. rewrite (plus_IZR k 1) in M1, M2.
      assert (K1 : Rabs (s + x) <= IZR (k + 1) * rho) by (rewrite plus_IZR; apply abs_le; lra).
      assert (K2 : Rabs (nadd O s' x - (s + x)) <= IZR (k + 1) * c).
      { rewrite plus_IZR. cbn [nadd rnd_ops].
        assert (HQ : Rabs (s' + x) <= 2 * B) by (apply abs_le; lra).
        pose proof (rnd_err _ _ HQ) as D. apply abs_le in D. apply abs_le. unfold c in *. lra. }
      apply (IH (k + 1)%Z (s + x) _ (fun y Q => Hl y (or_intror Q)) K1 K2 H1 H2). lia. }
  cbn [rsum length] in *. rewrite Nat2Z.inj_succ in *.
  replace (Z.succ (Z.of_nat (length l))) with (1 + Z.of_nat (length l))%Z in * by lia.
  apply (G l 1%Z v v); auto; try lia; try lra.
  - intros x Q. apply Hx. now right.
  - rewrite Rmult_1_l. apply Hx. now left.
  - rewrite Rminus_diag_eq by reflexivity. rewrite Rabs_R0. lra.
Qed.
End Error.
