(** Sampling from an outcome distribution by draws that are multiples of [1/N], and a bound on exponentials *)
From Coq Require Import List ZArith Bool Reals Lia Lra Psatz.
From Verif Require Import Base BaseProofs NumOps HelperModel HelperSpec HelperProofs SoftSpec SoftProofs WorldSpec OddsSpec OddsCover.
Import ListNotations.
Open Scope R_scope.

Lemma exp_quadratic : forall x, x <= 1 / 2 -> exp x <= 1 + x + 2 * x ^ 2.
Proof.
  intros x H. pose proof (exp_ineq1_le (- x)) as L. rewrite exp_Ropp in L. pose proof (exp_pos x) as P.
  assert (Q : (1 - x) * exp x <= 1). { apply (Rmult_le_compat_r (exp x)) in L; [|lra]. rewrite Rinv_l in L by lra. lra. }
  assert (1 <= (1 - x) * (1 + x + 2 * x ^ 2)).
  { replace ((1 - x) * (1 + x + 2 * x ^ 2)) with (1 + x ^ 2 * (1 - 2 * x)) by ring. assert (0 <= x ^ 2 * (1 - 2 * x)) by (apply Rmult_le_pos; [apply pow2_ge_0|lra]). lra. }
  apply (Rmult_le_reg_l (1 - x)); lra.
Qed.

Section Avg.
Context {T : Type}.
Variable N : nat.
Hypothesis Npos : (0 < N)%nat.
Variable F : T -> R.
Definition scaled (L : list (T * nat)) : list (T * R) := map (fun p => (fst p, INR (snd p) / INR N)) L.
Definition picked (o : outcome T) : R := match o with Ok k => F k | _ => 0 end.
Definition mass (L : list (T * nat)) : nat := fold_right (fun p m => (snd p + m)%nat) 0%nat L.

Lemma avg_loop : forall L q0, (forall p, In p L -> (0 < snd p)%nat) -> (q0 + mass L = N)%nat ->
  sum_to (N - q0) (fun j => picked (sample_loop R_ops (scaled L) 1 (INR (q0 + j) / INR N) (INR q0 / INR N))) = rsum_of (fun p => INR (snd p) * F (fst p)) L.
Proof using Npos.
  assert (HN : 0 < INR N) by (apply lt_0_INR; lia).
  assert (Lt : forall a b, (a < b)%nat -> INR a / INR N < INR b / INR N).
  { intros a b H. unfold Rdiv. apply Rmult_lt_compat_r; [now apply Rinv_0_lt_compat|]. now apply lt_INR. }
  assert (Le : forall a b, (a <= b)%nat -> INR a / INR N <= INR b / INR N).
  { intros a b H. unfold Rdiv. apply Rmult_le_compat_r; [left; now apply Rinv_0_lt_compat|]. now apply le_INR. }
  assert (One : INR N / INR N = 1) by (field; lra).
  induction L as [|[k q] L IH]; intros q0 Hp Hm.
  - cbn in Hm. replace (N - q0)%nat with 0%nat by lia. reflexivity.
  - cbn [mass fold_right snd] in Hm. fold (mass L) in Hm. pose proof (Hp (k, q) (or_introl eq_refl)) as Hq. cbn in Hq.
    replace (N - q0)%nat with (q + (N - (q0 + q)))%nat by lia. rewrite sum_to_split.
    rewrite rsum_of_cons. cbn [fst snd].
    assert (Run : nadd R_ops (INR q0 / INR N) (ndiv R_ops (INR q / INR N) 1) = INR (q0 + q) / INR N) by (cbn; rewrite plus_INR; field; lra).
    assert (Much : nltb R_ops (nadd R_ops 1 (neps R_ops)) (INR (q0 + q) / INR N) = false).
    { cbn. unfold Rltb. destruct (Rlt_dec _ _) as [B|]; auto. exfalso. pose proof (Le (q0 + q)%nat N ltac:(lia)). rewrite One in *.
      assert (0 < / IZR (10 ^ 12)) by (apply Rinv_0_lt_compat, IZR_lt; reflexivity). cbn in *. lra. }
    assert (Early : nleb R_ops 1 (INR (q0 + q) / INR N) && match scaled L with [] => false | _ => true end = false).
    { destruct L as [|[k' q'] L']; [apply andb_false_r|]. cbn. rewrite andb_true_r. unfold Rleb. destruct (Rle_dec _ _) as [B|]; auto. exfalso.
      pose proof (Hp (k', q') ltac:(cbn; auto)) as Hq'. cbn in Hq', Hm. pose proof (Lt (q0 + q)%nat N ltac:(lia)). lra. }
    f_equal.
    + rewrite (sum_to_ext q _ (fun _ => F k)); [apply sum_to_const|]. intros j Hj. cbn [scaled map fst snd sample_loop]. fold (scaled L). rewrite Run, Much, Early.
      cbn [orb]. replace (nltb R_ops _ _) with true; [reflexivity|]. cbn. unfold Rltb. destruct (Rlt_dec _ _) as [|B]; auto. destruct B. apply Lt. lia.
    + rewrite <- (IH (q0 + q)%nat) by (intros; try apply Hp; cbn; auto; lia). apply sum_to_ext. intros j Hj. cbn [scaled map fst snd sample_loop]. fold (scaled L).
      rewrite Run, Much, Early. cbn [orb]. replace (q0 + (q + j))%nat with (q0 + q + j)%nat by lia.
      replace (nltb R_ops _ _) with false; [reflexivity|]. cbn. unfold Rltb. destruct (Rlt_dec _ _) as [B|]; auto. pose proof (Le (q0 + q)%nat (q0 + q + j)%nat ltac:(lia)). lra.
Qed.

(** Over all values of the draw the outcomes are sampled as often as their probabilities say. *)
Lemma avg_sample : forall D : list (T * R), (forall p, In p D -> 0 < snd p) -> total D = 1 -> multiples N D ->
  sum_to N (fun j => picked (sample_loop R_ops D 1 (INR j / INR N) 0)) = INR N * expected F D.
Proof using Npos.
  assert (HN : 0 < INR N) by (apply lt_0_INR; lia).
  intros D Hp Ht Hm.
  assert (X : exists L, D = scaled L /\ (forall p, In p L -> (0 < snd p)%nat)).
  { clear Ht. induction D as [|[k w] D IH]; [exists []; split; [reflexivity|intros p []]|].
    destruct IH as (L & -> & HL); [intros p Ip; apply Hp; cbn; auto|intros p Ip; apply Hm; cbn; auto|].
    destruct (Hm (k, w) (or_introl eq_refl)) as (q & Eq). cbn in Eq. exists ((k, q) :: L). split; [cbn; now rewrite Eq|].
    intros p [<-|Ip]; auto. cbn. pose proof (Hp (k, w) (or_introl eq_refl)) as Hw. cbn in Hw. destruct q; [|lia]. exfalso. rewrite Eq in Hw. cbn in Hw. unfold Rdiv in Hw. rewrite Rmult_0_l in Hw. lra. }
  destruct X as (L & -> & HL).
  assert (Ms : total (scaled L) = INR (mass L) / INR N).
  { clear Ht Hp Hm HL. induction L as [|[k q] L IH]; [cbn; unfold Rdiv; ring|]. cbn [scaled map mass fold_right fst snd]. fold (scaled L) (mass L).
    transitivity (INR q / INR N + total (scaled L)); [reflexivity|]. rewrite IH, plus_INR. field. lra. }
  assert (HM : mass L = N). { rewrite Ms in Ht. apply INR_eq. apply (Rmult_eq_reg_r (/ INR N)); [|apply Rinv_neq_0_compat; lra]. rewrite Rinv_r by lra. exact Ht. }
  pose proof (avg_loop L 0%nat HL ltac:(lia)) as E. rewrite Nat.sub_0_r in E. cbn [Nat.add] in E. replace (INR 0 / INR N) with 0 in E by (cbn; unfold Rdiv; ring).
  rewrite E. unfold expected. rewrite <- rsum_of_scale. unfold scaled. rewrite rsum_of_map. apply rsum_of_ext. intros p _. cbn. field. lra.
Qed.
End Avg.

Lemma expected_lin : forall T (f : T -> R) a b D, total D = 1 -> expected (fun o => a + b * f o) D = a + b * expected f D.
Proof.
  intros T f a b D H. unfold expected. rewrite (rsum_of_ext _ _ (fun p => a * snd p + b * (snd p * f (fst p)))) by (intros; ring).
  rewrite rsum_of_plus, !rsum_of_scale. assert (E : rsum_of snd D = total D).
  { clear. induction D as [|[k w] D IH]; [reflexivity|]. rewrite rsum_of_cons, IH. reflexivity. }
  rewrite H in E. change (rsum_of (fun x => snd x) D) with (rsum_of snd D). rewrite E. ring.
Qed.
Lemma expected_le : forall T (f g : T -> R) D, (forall p, In p D -> 0 <= snd p) -> (forall p, In p D -> f (fst p) <= g (fst p)) -> expected f D <= expected g D.
Proof. intros T f g D Hp H. unfold expected. apply rsum_of_le. intros p Ip. apply Rmult_le_compat_l; auto. Qed.

(** The factor by which a sample multiplies the exponential of its deviation has mean at most 1. *)
Lemma factor_mean : forall T (phi : T -> R) l D, (forall p, In p D -> 0 < snd p) -> total D = 1 -> (forall o, 0 <= phi o <= 1) -> 0 < l <= 1 / 2 ->
  expected (fun o => exp (l * (phi o - expected phi D) - 2 * l ^ 2)) D <= 1.
Proof.
  intros T phi l D Hp Ht Hf Hl. set (E := expected phi D).
  assert (P0 : forall p, In p D -> 0 <= snd p) by (intros p Ip; left; auto).
  assert (HE : 0 <= E <= 1).
  { pose proof (expected_lin T phi 0 0 D Ht) as A0. pose proof (expected_lin T phi 1 0 D Ht) as A1.
    pose proof (expected_le T (fun o => 0 + 0 * phi o) phi D P0 ltac:(intros p _; pose proof (Hf (fst p)); lra)).
    pose proof (expected_le T phi (fun o => 1 + 0 * phi o) D P0 ltac:(intros p _; pose proof (Hf (fst p)); lra)). unfold E. lra. }
  assert (Bd : expected (fun o => exp (l * (phi o - E) - 2 * l ^ 2)) D <= expected (fun o => exp (- (2 * l ^ 2)) * (1 + 2 * l ^ 2 - l * E) + exp (- (2 * l ^ 2)) * l * phi o) D).
  { apply expected_le; auto. intros p _. pose proof (Hf (fst p)) as B. replace (l * (phi (fst p) - E) - 2 * l ^ 2) with (- (2 * l ^ 2) + l * (phi (fst p) - E)) by ring.
    rewrite exp_plus. rewrite (Rmult_assoc (exp (- (2 * l ^ 2))) l), <- Rmult_plus_distr_l. apply Rmult_le_compat_l; [left; apply exp_pos|].
    eapply Rle_trans; [apply exp_quadratic; nra|]. assert (0 <= l ^ 2 * (1 - (phi (fst p) - E) ^ 2)) by (apply Rmult_le_pos; [apply pow2_ge_0|nra]). nra. }
  eapply Rle_trans; [exact Bd|]. rewrite expected_lin by auto. fold E. rewrite exp_Ropp. set (e := exp (2 * l ^ 2)).
  assert (He : 1 + 2 * l ^ 2 <= e) by (apply exp_ineq1_le). assert (Pe : 0 < e) by apply exp_pos.
  replace (/ e * (1 + 2 * l ^ 2 - l * E) + / e * l * E) with ((1 + 2 * l ^ 2) / e) by (field; lra).
  apply (Rmult_le_reg_r e); auto. unfold Rdiv. rewrite Rmult_assoc, Rinv_l by lra. lra.
Qed.
