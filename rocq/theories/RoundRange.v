(** Averages of doubles stay in the range of the averaged numbers; sums of integers are exact. *)
From Coq Require Import List ZArith Bool Reals Lia Lra.
From Coq Require Import Floats.SpecFloat.
From Verif Require Import Base NumOps EngineModel EngineSpec EngineBound DoubleSpec DoubleProofs AlgoModel UctModel UctSpec UctProofs
  RoundModel RoundSpec RoundProofs RoundDouble.
Import ListNotations.
Open Scope R_scope.

Lemma near_zero : near 0 = 0.
Proof. apply (near_int 0). discriminate. Qed.

Section Range.
Variables lo hi : R.
Hypothesis small_lo : - powerRZ 2 1000 <= lo.
Hypothesis small_hi : hi <= powerRZ 2 1000.

Lemma in_large : forall x, lo <= x <= hi -> 64 * (Rabs x + 1) <= large.
Proof using small_lo small_hi.
  intros x H. assert (Rabs x <= powerRZ 2 1000) by (apply abs_le; lra).
  assert (H1 : 1 <= powerRZ 2 1000) by (rewrite <- (powerRZ_O 2); apply pow_mono; lia).
  assert (H2 : powerRZ 2 7 * powerRZ 2 1000 <= large) by (rewrite <- powerRZ_add by lra; apply pow_mono; lia).
  assert (H3 : powerRZ 2 7 = 128) by (change (powerRZ 2 7) with (2 ^ 7); cbn [pow]; lra). rewrite H3 in H2. lra.
Qed.

Lemma range_run : forall w h l, (0 <= w)%Z -> double h -> (forall f, In f l -> double f /\ lo <= dval f <= hi) ->
  (w + Z.of_nat (length l) <= 2 ^ 52)%Z ->
  ((1 <= w)%Z /\ lo <= dval h <= hi) \/ (w = 0%Z /\ dval h = 0 /\ l <> []) ->
  double (navg (run F_ops (mkNx w h) l)) /\ lo <= dval (navg (run F_ops (mkNx w h) l)) <= hi.
Proof using small_lo small_hi.
  intros w h l Hw Dh Hl Hn Hs. induction l as [|r l IH].
  - destruct Hs as [(_ & Hs)|(_ & _ & Hs)]; [|now elim Hs]. split; auto.
  - assert (Hl' : forall f, In f l -> double f /\ lo <= dval f <= hi) by (intros f Q; apply Hl; now right).
    destruct (Hl r (or_introl eq_refl)) as (Dr & Hr). rewrite run_cons. cbn [length] in Hn.
    assert (Case : (w = 0%Z /\ l = [] /\ dval h = 0) \/ (((1 <= w)%Z /\ lo <= dval h <= hi) \/ (w = 0%Z /\ dval h = 0 /\ l <> []))).
    { destruct Hs as [Hs|(E1 & E2 & _)]; [auto|]. destruct l; [auto|]. right. right. repeat split; auto. discriminate. }
    destruct Case as [(-> & -> & Eh)|Hs'].
    + cbn [run fold_right]. destruct (backup_double (mkNx 0 h) r) as (D & E); auto; cbn [nnb navg] in *; try lia.
      * rewrite Eh, Rabs_R0. pose proof (in_large _ Hr). pose proof (Rabs_pos (dval r)). lra.
      * split; auto. rewrite E. cbn [nx_backup navg nnb nadd ndiv nsub nofZ rnd_ops]. rewrite Eh. change (IZR (0 + 1)) with 1.
        rewrite Rminus_0_r, Rplus_0_l. unfold Rdiv. rewrite Rinv_1, Rmult_1_r. rewrite !(near_dval r Dr). lra.
    + destruct (IH Hl') as (D0 & R0); [lia|auto|]. clear IH.
      assert (N1 : nnb (run F_ops (mkNx w h) l) = (w + Z.of_nat (length l))%Z) by apply run_nb.
      assert (N2 : (1 <= w + Z.of_nat (length l))%Z).
      { destruct Hs' as [(H & _)|(_ & _ & H)]; [lia|]. destruct l; [now elim H|]. cbn [length]. lia. }
      destruct (backup_double (run F_ops (mkNx w h) l) r) as (D & E); auto; try lia.
      * pose proof (in_large _ Hr). pose proof (in_large _ R0). pose proof (Rabs_pos (dval r)).
        pose proof (Rabs_pos (dval (navg (run F_ops (mkNx w h) l)))). lra.
      * split; auto. rewrite E. cbn [nx_backup navg nnb nadd ndiv nsub nofZ rnd_ops].
        apply near_step; auto using near_dval. lia.
Qed.
End Range.

(** Sums of integers are exact. *)
Lemma int_sum : forall rho after, (forall x, In x after -> exists z, x = IZR z /\ (Z.abs z <= rho)%Z) ->
  (Z.of_nat (length after) * rho <= 2 ^ 52)%Z -> ret_after NO after = rsum after /\ exists z, rsum after = IZR z /\ (Z.abs z <= Z.of_nat (length after) * rho)%Z.
Proof.
  intros rho after. destruct after as [|v l]; [intros _ _; split; [auto|exists 0%Z; split; [auto|cbn; lia]]|].
  induction l as [|x l IH] using rev_ind; intros H1 H2.
  - cbn. rewrite Rplus_0_r. split; auto. destruct (H1 v (or_introl eq_refl)) as (z & -> & Hz). exists z. split; auto.
    cbn [length]. rewrite Z.mul_1_l. exact Hz.
  - destruct (H1 x) as (z & -> & Hz); [right; apply in_or_app; right; now left|].
    assert (Ln : length (v :: l ++ [IZR z]) = Datatypes.S (length (v :: l))) by (cbn; rewrite app_length; cbn; lia).
    rewrite Ln, Nat2Z.inj_succ in *.
    destruct IH as (E & (y & Ey & Hy)).
    { intros q [<-|Q]; [now apply H1; left|]. apply H1. right. apply in_or_app. auto. }
    { pose proof (Z.abs_nonneg z). nia. }
    rewrite ret_snoc. change (v :: l ++ [IZR z]) with ((v :: l) ++ [IZR z]). rewrite rsum_app. cbn [nadd rnd_ops].
    change (rsum [IZR z]) with (IZR z + 0). rewrite Rplus_0_r, E, Ey, <- plus_IZR. assert (Za : (Z.abs (y + z) <= Z.succ (Z.of_nat (length (v :: l))) * rho)%Z) by lia.
    split; [apply near_int; lia|]. exists (y + z)%Z. auto.
Qed.
