(** Averages computed in searches. *)
From Coq Require Import List ZArith Bool Reals Lia Lra.
From Coq Require Import Floats.SpecFloat.
From Verif Require Import Base BaseProofs NumOps HelperModel EngineModel EngineSpec EngineProofs EngineInv EngineBound EngineAfter
  DoubleSpec DoubleProofs AlgoModel AlgoProofs AlgoNodes AlgoHist ArgsHist UctModel UctSpec UctProofs
  RoundModel RoundSpec RoundProofs RoundDouble.
Import ListNotations.
Open Scope R_scope.

Section Run.
Context {S A N : Type}.
Variable seqb : S -> S -> bool.
Variable aeqb : A -> A -> bool.
Hypothesis seqb_ok : decides seqb.
Hypothesis aeqb_ok : decides aeqb.
Variable C : @econf S A.
Variable U : @uconf S A.
Variable O : numops N.
Variable enc : R -> N.
Variable sel : @dnode S A -> nx N -> list (A * (@cnode S A * nx N)) -> rng R -> outcome (A * rng R).
Variable smp : @cnode S A -> rng R -> outcome (S * rng R).
Notation alg := (uct_over C U O enc sel smp).

Definition rets (l : list bargs) : list N := map (fun b => ret_after O (map enc (b_after b))) l.
Definition start (n : @dnode S A) : nx N := nx_new_d C U O enc n.

Lemma over_rules : arg_rules C alg (fun n l x => x = run O (start n) (rets l)) (fun n l x => x = run O (mkNx 0 (nzero O)) (rets l)).
Proof using Type.
  constructor; intros; subst; try reflexivity.
  - cbn in H1. injection H1 as <-. reflexivity.
  - cbn in H0. injection H0 as <-. reflexivity.
Qed.

Lemma over_reach : forall n g s, areach seqb aeqb C alg n g s ->
  (forall d node x, nth_error (dh (mem (base s))) d = Some node -> nth_error (xds s) d = Some x ->
     x = run O (start node) (rets (args_d d (etrace (base s))))) /\
  (forall c x, nth_error (xcs s) c = Some x -> x = run O (mkNx 0 (nzero O)) (rets (args_c c (etrace (base s))))).
Proof using seqb_ok aeqb_ok.
  intros n g s R. destruct (ahist_reach seqb aeqb seqb_ok aeqb_ok C alg _ _ over_rules n g s R) as (H1 & _ & H2 & _). split; [eauto|].
  intros c x Hx. pose proof (areach_good seqb aeqb seqb_ok aeqb_ok C alg _ _ _ R) as I.
  assert (X : exists y, nth_error (ch (mem (base s))) c = Some y).
  { pose proof I as [_ _ _ Lc _]. destruct (nth_error (ch (mem (base s))) c) eqn:Z; [eauto|]. apply nth_error_None in Z.
    assert (c < length (xcs s))%nat by (apply nth_error_Some; congruence). lia. }
  destruct X as (y & Hy). eauto.
Qed.

Lemma args_tame : (0 <= max_depth C)%Z -> forall n g s, areach seqb aeqb C alg n g s ->
  (forall d b, In b (args_d d (etrace (base s))) -> tame_list C (b_after b) (b_tafter b)) /\
  (forall c b, In b (args_c c (etrace (base s))) -> tame_list C (b_after b) (b_tafter b)) /\
  hfrom C (mem (base s)).
Proof using seqb_ok aeqb_ok.
  intros Hd n g s R. pose proof (areach_ereach seqb aeqb C alg _ _ _ R) as E.
  destruct (tamed_reach seqb aeqb seqb_ok aeqb_ok C Hd n _ E) as (_ & Hf & T).
  assert (G : forall tr : list (nat * @event S A), (forall e, In e tr -> tame C e) ->
    (forall d b, In b (args_d d tr) -> tame_list C (b_after b) (b_tafter b)) /\
    (forall c b, In b (args_c c tr) -> tame_list C (b_after b) (b_tafter b))).
  { clear. intros tr H. split; intros i b Q; apply in_flat_map in Q; destruct Q as ((t & e) & Q1 & Q2); specialize (H _ Q1);
      cbn in Q2; destruct e; cbn in Q2; try contradiction.
    - destruct (Nat.eqb d i); cbn in Q2; [|contradiction]. destruct Q2 as [<-|[]]. exact H.
    - destruct (Nat.eqb c i); cbn in Q2; [|contradiction]. destruct Q2 as [<-|[]]. exact H. }
  destruct (G _ T). auto.
Qed.
End Run.

(** The error of an average: [n] backups, trials of at most [L] - 1 decisions, returns of at most [B]. *)
Section Real.
Variable rnd : R -> R.
Variables u eta B rho : R.
Variable L : Z.
Hypothesis Rd : rounding rnd u eta.
Hypothesis L1 : (1 <= L)%Z.
Hypothesis rho0 : 0 <= rho.
Hypothesis BE : B = IZR L * rho.

Definition err (n : Z) : R := IZR (2 * n + 2 * L + 5) * (u * B + 2 * eta).

Lemma sums_close : forall after, (Z.of_nat (length after) <= L)%Z -> (forall x, In x after -> Rabs x <= rho) ->
  IZR L * (2 * (u * B) + eta) <= B ->
  Rabs (rsum after) <= B /\ Rabs (ret_after (rnd_ops rnd) after - rsum after) <= IZR L * (2 * (u * B) + eta).
Proof using All.
  intros after Hl Hx Hc. pose proof (round_u _ _ _ Rd) as Hu. pose proof (round_eta _ _ _ Rd) as He.
  assert (HB0 : 0 <= B). { rewrite BE. apply Rmult_le_pos; auto. apply IZR_le. lia. }
  assert (Hv : 0 <= u * B) by (apply Rmult_le_pos; lra).
  assert (M : forall y, 0 <= y -> IZR (Z.of_nat (length after)) * y <= IZR L * y).
  { intros y Hy. apply Rmult_le_compat_r; auto. now apply IZR_le. }
  pose proof (M rho rho0). pose proof (M (2 * (u * B) + eta) ltac:(lra)). split.
  - eapply Rle_trans; [apply (rsum_abs _ rho Hx)|]. lra.
  - eapply Rle_trans; [apply (sum_err rnd u eta Rd B rho); auto; lra|]. lra.
Qed.

Lemma err_parts : forall n, (0 <= n)%Z -> err n <= B / 8 ->
  let dl := IZR L * (2 * (u * B) + eta) in
  0 <= dl /\ dl <= B /\ eta <= B / 100 /\
  dl + 5 * (u * B) + IZR n * (6/5 * (u * B) + 3 * eta) <= err n.
Proof using All.
  intros n Hn H dl. pose proof (round_u _ _ _ Rd) as Hu. pose proof (round_eta _ _ _ Rd) as He.
  assert (HB0 : 0 <= B). { rewrite BE. apply Rmult_le_pos; auto. apply IZR_le. lia. }
  assert (Hv : 0 <= u * B) by (apply Rmult_le_pos; lra).
  unfold err in *. rewrite !plus_IZR, !mult_IZR in *. assert (0 <= IZR n) by (apply IZR_le; lia). assert (1 <= IZR L) by (apply IZR_le; lia).
  set (v := u * B) in *. set (l := IZR L) in *. set (m := IZR n) in *.
  assert (0 <= l * v) by (apply Rmult_le_pos; lra). assert (0 <= l * eta) by (apply Rmult_le_pos; lra).
  assert (0 <= m * v) by (apply Rmult_le_pos; lra). assert (0 <= m * eta) by (apply Rmult_le_pos; lra).
  assert (eta <= l * eta) by (rewrite <- (Rmult_1_l eta) at 1; apply Rmult_le_compat_r; lra).
  unfold dl. repeat split; try lra.
Qed.

Section Engine.
Context {S A : Type}.
Variable C : @econf S A.
Hypothesis depth_ok : (0 <= max_depth C)%Z.
Hypothesis LE : L = (max_depth C + 1)%Z.
Hypothesis bound : forall x, from_env C x -> Rabs x <= rho.

(** Computed returns and true returns. *)
Lemma rets_close : forall l, (forall b, In b l -> tame_list C (b_after b) (b_tafter b)) -> IZR L * (2 * (u * B) + eta) <= B ->
  Forall2 (fun r r' => Rabs r <= B /\ Rabs (r' - r) <= IZR L * (2 * (u * B) + eta)) (map b_tafter l) (rets (rnd_ops rnd) (fun r => r) l).
Proof using All.
  intros l H Hc. induction l as [|b l IH]; cbn; constructor; [|apply IH; intros; apply H; now right].
  destruct (H b (or_introl eq_refl)) as (-> & Hl & Hx). rewrite map_id. apply sums_close; auto. now rewrite LE.
Qed.

Lemma run_near : forall w h l, (0 <= w)%Z -> Rabs h <= rho -> (forall b, In b l -> tame_list C (b_after b) (b_tafter b)) ->
  err (Z.of_nat (length l)) <= B / 8 ->
  let x := run (rnd_ops rnd) (mkNx w h) (rets (rnd_ops rnd) (fun r => r) l) in
  near_mean (err (Z.of_nat (length l))) w h (map b_tafter l) (nnb x) (navg x).
Proof using All.
  intros w h l Hw Hh Hl He x. pose proof (err_parts (Z.of_nat (length l)) ltac:(lia) He) as P. cbv zeta in P.
  destruct P as (P1 & P2 & P3 & P4). set (dl := IZR L * (2 * (u * B) + eta)) in *.
  assert (HB : rho <= B). { rewrite BE, <- (Rmult_1_l rho) at 1. apply Rmult_le_compat_r; auto. apply IZR_le. lia. }
  pose proof (rets_close l Hl P2) as Cl.
  exists (navg (run R_ops (mkNx w h) (map b_tafter l))). split.
  - replace (nnb x) with (nnb (run R_ops (mkNx w h) (map b_tafter l))); [now apply run_mean|].
    unfold x, rets. rewrite !run_nb, !map_length. reflexivity.
  - assert (E : length (map b_tafter l) = length l) by apply map_length.
    eapply Rle_trans; [apply (run_err rnd u eta Rd B dl); auto; rewrite ?E; lra|]. rewrite E. exact P4.
Qed.
End Engine.
End Real.

(** Doubles. *)
Section Doubles.
Context {S A : Type}.
Variable C : @econf S A.
Variable enc : R -> F.
Variables rho : R.
Variable L : Z.
Hypothesis depth_ok : (0 <= max_depth C)%Z.
Hypothesis LE : L = (max_depth C + 1)%Z.
Hypothesis Env : double_env C enc rho.
Hypothesis rho_lo : powerRZ 2 (-900) <= rho.
Hypothesis rho_hi : rho <= powerRZ 2 900.
Hypothesis L_hi : (L <= 2 ^ 31)%Z.
Notation B := (IZR L * rho).

Lemma env_num : forall x, from_env C x -> double (enc x) /\ dval (enc x) = x /\ Rabs x <= rho.
Proof using Env rho_lo.
  assert (R0 : 0 < powerRZ 2 (-900)) by (apply powerRZ_lt; lra).
  intros x [(s & a & o & ->)|[(h & s & E & ->)| ->]].
  - apply Env.
  - now apply (denv_heur _ _ _ Env).
  - destruct (denv_zero _ _ _ Env). rewrite Rabs_R0. split; [auto|]. split; auto. lra.
Qed.

Lemma L_pos : 1 <= IZR L <= powerRZ 2 31.
Proof using LE depth_ok L_hi. split; [apply IZR_le; lia|]. rewrite <- zpow by lia. now apply IZR_le. Qed.
Lemma rho_pos : 0 < rho.
Proof using rho_lo. assert (0 < powerRZ 2 (-900)) by (apply powerRZ_lt; lra). lra. Qed.
Lemma B_rho : rho <= B.
Proof using LE depth_ok L_hi rho_lo.
  pose proof L_pos. pose proof rho_pos. rewrite <- (Rmult_1_l rho) at 1. apply Rmult_le_compat_r; lra.
Qed.
Lemma B_large : 64 * (B + 1) <= large.
Proof using LE depth_ok L_hi rho_lo rho_hi.
  pose proof L_pos. pose proof rho_pos.
  assert (HB : B <= powerRZ 2 31 * powerRZ 2 900) by (apply Rmult_le_compat; lra).
  rewrite <- powerRZ_add in HB by lra. change (31 + 900)%Z with 931%Z in HB.
  assert (H1 : 1 <= powerRZ 2 931) by (rewrite <- (powerRZ_O 2); apply pow_mono; lia).
  assert (H2 : powerRZ 2 7 * powerRZ 2 931 <= large) by (rewrite <- powerRZ_add by lra; apply pow_mono; lia).
  assert (H3 : powerRZ 2 7 = 128) by (change (powerRZ 2 7) with (2 ^ 7); cbn [pow]; lra). rewrite H3 in H2. lra.
Qed.
Lemma eta_B : 2 * eta64 <= u64 * B.
Proof using LE depth_ok L_hi rho_lo.
  pose proof B_rho. assert (E : 2 * eta64 = powerRZ 2 (-1074)).
  { unfold eta64. pose proof (half_pow (-1074)) as Q. change (-1074 + -1)%Z with (-1075)%Z in Q. rewrite Q. lra. }
  rewrite E. apply Rle_trans with (powerRZ 2 (-53) * powerRZ 2 (-900)).
  - rewrite <- powerRZ_add by lra. apply pow_mono. lia.
  - unfold u64. apply Rmult_le_compat_l; [apply powerRZ_le; lra|lra].
Qed.
Lemma u64_52 : 2 * u64 = powerRZ 2 (-52).
Proof using Type. unfold u64. pose proof (half_pow (-52)) as Q. change (-52 + -1)%Z with (-53)%Z in Q. rewrite Q. lra. Qed.

(** The error bound in doubles. *)
Definition derr (n : Z) : R := IZR (2 * n + 2 * L + 5) * powerRZ 2 (-52) * B.
Lemma derr_err : forall n, (0 <= n <= 2 ^ 31)%Z -> err u64 eta64 B L n <= derr n /\ derr n <= B / 8.
Proof using LE depth_ok L_hi rho_lo rho_hi.
  intros n Hn. pose proof eta_B. pose proof B_rho. pose proof rho_pos. unfold err, derr.
  assert (N0 : 0 <= IZR (2 * n + 2 * L + 5)) by (apply IZR_le; lia).
  split.
  - rewrite Rmult_assoc. apply Rmult_le_compat_l; auto. rewrite <- u64_52. lra.
  - assert (N1 : IZR (2 * n + 2 * L + 5) <= powerRZ 2 34) by (rewrite <- zpow by lia; apply IZR_le; lia).
    replace (B / 8) with (/ 8 * B) by lra. apply Rmult_le_compat_r; [lra|].
    apply Rle_trans with (powerRZ 2 34 * powerRZ 2 (-52)); [apply Rmult_le_compat_r; [apply powerRZ_le; lra|auto]|].
    rewrite <- powerRZ_add by lra. apply Rle_trans with (powerRZ 2 (-3)); [apply pow_mono; lia|].
    change (powerRZ 2 (-3)) with (/ 2 ^ 3). cbn [pow]. apply Req_le. field.
Qed.

(** Computed returns are doubles close to the true returns. *)
Lemma drets_close : forall l, (forall b, In b l -> tame_list C (b_after b) (b_tafter b)) -> IZR L * (2 * (u64 * B) + eta64) <= B ->
  Forall2 (fun r f => Rabs r <= B /\ double f /\ Rabs (dval f - r) <= IZR L * (2 * (u64 * B) + eta64))
    (map b_tafter l) (rets F_ops enc l).
Proof using All.
  intros l H Hc. pose proof rho_pos. pose proof L_pos. pose proof B_large. pose proof B_rho.
  induction l as [|b l IH]; cbn; constructor; [|apply IH; intros; apply H; now right].
  destruct (H b (or_introl eq_refl)) as (-> & Hl & Hx). rewrite <- LE in Hl.
  assert (Hb : forall x, In x (b_after b) -> Rabs x <= rho) by (intros x Q; now apply env_num, Hx).
  assert (M : forall y, 0 <= y -> IZR (Z.of_nat (length (b_after b))) * y <= IZR L * y).
  { intros y Hy. apply Rmult_le_compat_r; auto. now apply IZR_le. }
  pose proof (round_u _ _ _ near_rounding). pose proof (round_eta _ _ _ near_rounding).
  assert (Hv : 0 <= u64 * B) by (apply Rmult_le_pos; lra).
  pose proof (M rho ltac:(lra)). pose proof (M (2 * (u64 * B) + eta64) ltac:(lra)).
  destruct (sum_double B rho ltac:(lra) ltac:(lra) (map enc (b_after b))) as (D & E); rewrite ?map_length; try lra.
  { intros x Q. apply in_map_iff in Q. destruct Q as (y & <- & Q). destruct (env_num y (Hx y Q)) as (Q1 & Q2 & Q3). now rewrite Q2. }
  assert (Em : map dval (map enc (b_after b)) = b_after b).
  { rewrite map_map. rewrite <- (map_id (b_after b)) at 2. apply map_ext_in. intros y Q. apply env_num; auto. }
  rewrite Em in E. destruct (sums_close near u64 eta64 B rho L near_rounding ltac:(lia) ltac:(lra) eq_refl (b_after b) Hl Hb Hc) as (S1 & S2).
  split; auto. split; auto. now rewrite E.
Qed.

Lemma drun_near : forall w h l, (0 <= w)%Z -> double h -> Rabs (dval h) <= rho ->
  (forall b, In b l -> tame_list C (b_after b) (b_tafter b)) -> (w + Z.of_nat (length l) <= 2 ^ 31)%Z ->
  let x := run F_ops (mkNx w h) (rets F_ops enc l) in
  double (navg x) /\ near_mean (derr (Z.of_nat (length l))) w (dval h) (map b_tafter l) (nnb x) (dval (navg x)).
Proof using All.
  intros w h l Hw Dh Hh Hl Hn x. pose proof rho_pos. pose proof L_pos. pose proof B_large. pose proof B_rho.
  destruct (derr_err (Z.of_nat (length l)) ltac:(lia)) as (D1 & D2).
  pose proof (err_parts near u64 eta64 B rho L near_rounding ltac:(lia) ltac:(lra) eq_refl (Z.of_nat (length l)) ltac:(lia) ltac:(lra)) as P.
  cbv zeta in P. destruct P as (P1 & P2 & P3 & P4). set (dl := IZR L * (2 * (u64 * B) + eta64)) in *.
  pose proof (drets_close l Hl P2) as Cl. fold dl in Cl.
  assert (E : length (map b_tafter l) = length l) by apply map_length.
  destruct (run_double B dl w h (map b_tafter l) (rets F_ops enc l)) as (Q1 & Q2 & Q3); auto; rewrite ?E; try lra; try lia.
  split; auto. exists (navg (run R_ops (mkNx w (dval h)) (map b_tafter l))). split.
  - replace (nnb x) with (nnb (run R_ops (mkNx w (dval h)) (map b_tafter l))); [now apply run_mean|].
    unfold x, rets. rewrite !run_nb, !map_length. reflexivity.
  - rewrite E in Q3. fold x in Q3. lra.
Qed.
End Doubles.
