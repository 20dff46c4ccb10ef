(** Sums and averages of doubles are the rounded sums and averages of their values. *)
From Coq Require Import List ZArith Bool Reals Lia Lra.
From Coq Require Import Floats.SpecFloat.
From Verif Require Import Base NumOps EngineModel EngineSpec EngineBound DoubleSpec DoubleProofs AlgoModel UctModel UctSpec UctProofs
  RoundModel RoundSpec RoundProofs.
Import ListNotations.
Open Scope R_scope.
Notation NO := (rnd_ops near).

Lemma ret_snoc : forall N (O : numops N) v l x, ret_after O (v :: l ++ [x]) = nadd O (ret_after O (v :: l)) x.
Proof. intros. cbn [ret_after]. now rewrite fold_left_app. Qed.

Section Sum.
Variables B rho : R.
Hypothesis rho0 : 0 <= rho.
Hypothesis BL : 4 * B <= large.

Lemma sum_double : forall after, IZR (Z.of_nat (length after)) * rho <= B ->
  IZR (Z.of_nat (length after)) * (2 * (u64 * B) + eta64) <= B ->
  (forall x, In x after -> double x /\ Rabs (dval x) <= rho) ->
  double (ret_after F_ops after) /\ dval (ret_after F_ops after) = ret_after NO (map dval after).
Proof using rho0 BL.
  intros after. destruct after as [|v l]; [intros; apply zero_double|].
  induction l as [|x l IH] using rev_ind; intros H1 H2 H3.
  - cbn. destruct (H3 v (or_introl eq_refl)) as (D & _). auto.
  - pose proof (round_u _ _ _ near_rounding) as Hu. pose proof (round_eta _ _ _ near_rounding) as He.
    assert (HB0 : 0 <= B). { eapply Rle_trans; [|exact H1]. apply Rmult_le_pos; auto. apply IZR_le. lia. }
    assert (Hv : 0 <= u64 * B) by (apply Rmult_le_pos; lra).
    assert (L : (length (v :: l) <= length (v :: l ++ [x]))%nat) by (cbn; rewrite app_length; cbn; lia).
    assert (M : forall y, 0 <= y -> IZR (Z.of_nat (length (v :: l))) * y <= IZR (Z.of_nat (length (v :: l ++ [x]))) * y).
    { intros y Hy. apply Rmult_le_compat_r; auto. apply IZR_le. lia. }
    pose proof (M rho rho0) as M1. pose proof (M (2 * (u64 * B) + eta64) ltac:(lra)) as M2.
    destruct IH as (D & E); try lra.
    { intros y [<-|Q]; [now apply H3; left|]. apply H3. right. apply in_or_app. auto. }
    destruct (H3 x) as (Dx & Hx); [right; apply in_or_app; right; now left|].
    rewrite ret_snoc. cbn [map]. rewrite map_app. cbn [map]. rewrite ret_snoc.
    change (nadd F_ops) with (SFadd Fprec Femax). change (nadd NO) with (fun a b => near (a + b)). cbv beta.
    rewrite <- map_cons, <- E. apply add_rounds; auto. apply near_fits.
    assert (S : Rabs (ret_after NO (map dval (v :: l)) - rsum (map dval (v :: l))) <=
                IZR (Z.of_nat (length (map dval (v :: l)))) * (2 * (u64 * B) + eta64)).
    { apply (sum_err near u64 eta64 near_rounding B rho); auto; rewrite ?map_length; try lra.
      intros y Q. apply in_map_iff in Q. destruct Q as (z & <- & Q). apply H3. destruct Q as [<-|Q]; [now left|].
      right. apply in_or_app. auto. }
    rewrite map_length in S.
    assert (S2 : Rabs (rsum (map dval (v :: l))) <= B).
    { eapply Rle_trans; [apply (rsum_abs _ rho)|rewrite map_length; lra]. intros y Q. apply in_map_iff in Q.
      destruct Q as (z & <- & Q). apply H3. destruct Q as [<-|Q]; [now left|]. right. apply in_or_app. auto. }
    assert (R1 : rho <= B).
    { eapply Rle_trans; [|exact H1]. rewrite <- (Rmult_1_l rho) at 1. apply Rmult_le_compat_r; auto. apply IZR_le. cbn [length]. lia. }
    rewrite E. apply abs_le in S. apply abs_le in S2. apply abs_le in Hx. apply abs_le. lra.
Qed.
End Sum.

Lemma div_unit : forall x b k, (1 <= k)%Z -> Rabs x <= b -> Rabs (x / IZR k) <= b.
Proof.
  intros x b k Hk H. unfold Rdiv. pose proof (inv_unit k Hk) as Hi.
  eapply Rle_trans; [apply (mul_abs _ _ _ Hi H)|]. apply scale_le; auto. eapply Rle_trans; [apply Rabs_pos|exact H].
Qed.
Lemma near_abs : forall x b, Rabs x <= b -> 1 <= b -> Rabs (near x) <= 2 * b.
Proof.
  intros x b H Hb. pose proof (rnd_err _ _ _ near_rounding x b H) as E. pose proof (round_u _ _ _ near_rounding) as U.
  pose proof eta64_small.
  assert (u64 * b <= / 1000 * b) by (apply Rmult_le_compat_r; lra). apply abs_le in E. apply abs_le in H. apply abs_le. lra.
Qed.

(** One backup. *)
Lemma backup_double : forall x r, double (navg x) -> double r -> (0 <= nnb x)%Z -> (nnb x + 1 <= 2 ^ 52)%Z ->
  16 * (Rabs (dval (navg x)) + Rabs (dval r) + 1) <= large ->
  double (navg (nx_backup F_ops x r)) /\
  dval (navg (nx_backup F_ops x r)) = navg (nx_backup NO (mkNx (nnb x) (dval (navg x))) (dval r)).
Proof.
  intros [nb a] r Da Dr N0 N1 L. cbn [nnb navg nx_backup] in *. set (k := (nb + 1)%Z) in *.
  assert (Ik : Rabs (IZR k) <= large) by (apply int_large; lia).
  destruct (of_rounds k) as (Dk & Ek); [now apply near_fits|]. rewrite near_int in Ek by lia.
  set (b := Rabs (dval a) + Rabs (dval r) + 1) in *. pose proof (Rabs_pos (dval a)). pose proof (Rabs_pos (dval r)).
  assert (Hb : 1 <= b) by (unfold b; lra).
  assert (X : Rabs (dval r - dval a) <= b).
  { unfold b. eapply Rle_trans; [apply Rabs_triang|]. rewrite Rabs_Ropp. lra. }
  destruct (sub_rounds r a Dr Da) as (Ds & Es); [apply near_fits; lra|].
  pose proof (near_abs _ _ X ltac:(unfold b; lra)) as Y. rewrite <- Es in Y.
  pose proof (div_unit _ _ k ltac:(lia) Y) as Z0.
  assert (Kn : IZR k <> 0) by (apply not_0_IZR; lia).
  destruct (div_rounds (SFsub Fprec Femax r a) (Fof k) Ds Dk) as (Dq & Eq); rewrite ?Ek; auto; [apply near_fits; lra|].
  rewrite Ek in Eq. pose proof (near_abs _ _ Z0 ltac:(unfold b; lra)) as W. rewrite <- Eq in W.
  destruct (add_rounds a _ Da Dq) as (Dz & Ez).
  { apply near_fits. eapply Rle_trans; [apply Rabs_triang|]. unfold b in *. lra. }
  cbn [nadd ndiv nsub nofZ F_ops rnd_ops]. split; [exact Dz|]. etransitivity; [exact Ez|]. now rewrite Eq, Es.
Qed.

(** All backups of a node. *)
Lemma run_double : forall B dl w h rs rsF, 0 <= B -> 64 * (B + 1) <= large -> (0 <= w)%Z -> double h -> Rabs (dval h) <= B -> 0 <= dl ->
  Forall2 (fun r f => Rabs r <= B /\ double f /\ Rabs (dval f - r) <= dl) rs rsF ->
  dl + 5 * (u64 * B) + IZR (Z.of_nat (length rs)) * (6/5 * (u64 * B) + 3 * eta64) <= B / 8 -> eta64 <= B / 100 ->
  (w + Z.of_nat (length rs) <= 2 ^ 52)%Z ->
  double (navg (run F_ops (mkNx w h) rsF)) /\
  dval (navg (run F_ops (mkNx w h) rsF)) = navg (run NO (mkNx w (dval h)) (map dval rsF)) /\
  Rabs (dval (navg (run F_ops (mkNx w h) rsF)) - navg (run R_ops (mkNx w (dval h)) rs)) <=
    dl + 5 * (u64 * B) + IZR (Z.of_nat (length rs)) * (6/5 * (u64 * B) + 3 * eta64).
Proof.
  intros B dl w h rs rsF HB BL Hw Dh Hh Hdl Hf Hc He HN.
  pose proof (round_u _ _ _ near_rounding) as Hu. pose proof (round_eta _ _ _ near_rounding) as He0.
  assert (Hv : 0 <= u64 * B) by (apply Rmult_le_pos; lra). set (c := 6/5 * (u64 * B) + 3 * eta64) in *.
  assert (Fd : Forall2 (fun r r' => Rabs r <= B /\ Rabs (r' - r) <= dl) rs (map dval rsF)).
  { clear -Hf. induction Hf as [|r f l m (H1 & _ & H2) Hf IH]; cbn; constructor; auto. }
  pose proof (run_err near u64 eta64 near_rounding B dl w (dval h) rs (map dval rsF) HB Hw Hh Hdl Fd Hc He) as Er.
  enough (G : double (navg (run F_ops (mkNx w h) rsF)) /\
    dval (navg (run F_ops (mkNx w h) rsF)) = navg (run NO (mkNx w (dval h)) (map dval rsF))).
  { destruct G as (G1 & G2). split; auto. split; auto. rewrite G2. exact Er. }
  clear Er Fd. induction Hf as [|r f l m (H1 & H2 & H3) Hf IH].
  - cbn. auto.
  - cbn [length] in *. rewrite Nat2Z.inj_succ, succ_IZR in *.
    assert (0 <= c) by (unfold c; lra). assert (N0 : 0 <= IZR (Z.of_nat (length l))) by (apply IZR_le; lia).
    assert (Nc : 0 <= IZR (Z.of_nat (length l)) * c) by (apply Rmult_le_pos; auto).
    destruct IH as (IH1 & IH2); [lra|lia|].
    assert (Fd : Forall2 (fun r r' => Rabs r <= B /\ Rabs (r' - r) <= dl) l (map dval m)).
    { clear -Hf. induction Hf as [|r f l m (H1 & _ & H2) Hf IH]; cbn; constructor; auto. }
    assert (Hc' : dl + 5 * (u64 * B) + IZR (Z.of_nat (length l)) * (6/5 * (u64 * B) + 3 * eta64) <= B / 8) by (fold c; lra).
    pose proof (run_err near u64 eta64 near_rounding B dl w (dval h) l (map dval m) HB Hw Hh Hdl Fd Hc' He) as Er.
    rewrite <- IH2 in Er.
    assert (Hl : forall r, In r l -> Rabs r <= B).
    { clear -Hf. induction Hf as [|a b l m [H _] Hf IH]; intros r []; subst; auto. }
    pose proof (run_bound B w (dval h) l Hw Hh Hl) as Em.
    rewrite !run_cons. cbn [map]. rewrite run_cons. rewrite (Forall2_len _ _ _ _ _ Hf) in HN.
    assert (Nb : nnb (run F_ops (mkNx w h) m) = nnb (run NO (mkNx w (dval h)) (map dval m))).
    { rewrite !run_nb, map_length. reflexivity. }
    destruct (backup_double (run F_ops (mkNx w h) m) f IH1 H2) as (K1 & K2).
    + rewrite run_nb. cbn [nnb]. lia.
    + rewrite run_nb. cbn [nnb]. lia.
    + assert (Rabs (dval (navg (run F_ops (mkNx w h) m))) <= 9/8 * B).
      { apply abs_le in Er. apply abs_le in Em. apply abs_le. fold c in Er. lra. }
      assert (Rabs (dval f) <= 9/8 * B).
      { apply abs_le in H1. apply abs_le in H3. apply abs_le. lra. }
      lra.
    + split; auto. rewrite K2. rewrite IH2, Nb. now destruct (run NO (mkNx w (dval h)) (map dval m)).
Qed.
