(** C103: average returns of DENTS and EST computed in doubles. *)
From Coq Require Import List ZArith Bool Reals Lia Lra Permutation.
From Coq Require Import Floats.SpecFloat.
From Verif Require Import Base BaseProofs NumOps HelperModel EngineModel EngineSpec EngineBound AlgoModel AlgoProofs UctModel UctSpec UctTheorems MentsModel PickSpec
  DoubleSpec DoubleProofs RoundModel RoundSpec RoundProofs RoundDouble RoundRun RoundResults RoundExamples DentsResults Emp64Model Emp64Spec Emp64Proofs.
Import ListNotations.
Open Scope R_scope.

(** ** C103: average returns stay finite and close to the exact averages, never leave the range of the returns, and
    recommendations by them are nearly best *)

Definition emp_nx (x : vmem) : nx R := mkNx (v_nb x) (v_val x).

(** The nodes of DENTS and EST, without dynamic programming values, keep average returns in the sense of [keeps_avg]. *)
Theorem C103_same_code : forall S A aeqb (C : @econf S A) M, muse_dp M = false ->
  keeps_avg R_ops dheur b_tafter (dents aeqb C M) (fun x => emp_nx (d_emp x)) (fun x => emp_nx (dc_emp x)) /\
  keeps_avg R_ops dheur b_tafter (MentsModel.est aeqb C M) (fun x => emp_nx (d_emp x)) (fun x => emp_nx (dc_emp x)).
Proof.
  assert (X : forall S A (G : @algo S A) eD eC, emp_part G eD eC -> keeps_avg R_ops dheur b_tafter G (fun x => emp_nx (eD x)) (fun x => emp_nx (eC x))).
  { intros S A G eD eC E. constructor.
    - intros n. now rewrite (E_new _ _ _ E).
    - intros n. now rewrite (E_newc _ _ _ E).
    - intros leaf x. now rewrite (E_vis _ _ _ E).
    - intros n x kids cx b x1 H. rewrite (E_back _ _ _ E _ _ _ _ _ _ H). reflexivity.
    - intros n x kids cx b x1 H. rewrite (E_backc _ _ _ E _ _ _ _ _ _ H). reflexivity. }
  intros S A aeqb C M U. split; apply X; [now apply dents_emp|now apply est_emp].
Qed.

Section Theorems.
Context {S A : Type}.
Variable seqb : S -> S -> bool.
Variable aeqb : A -> A -> bool.
Hypothesis seqb_ok : decides seqb.
Hypothesis aeqb_ok : decides aeqb.
Variable C : @econf S A.
Hypothesis depth_ok : (0 <= max_depth C < 2 ^ 31)%Z.
(** Rewards and heuristic values are doubles of size at most [rho]. *)
Variable enc : R -> F.
Variable rho : R.
Hypothesis Env : double_env C enc rho.
(** Any algorithm that keeps average returns in doubles. *)
Variable G : @algo S A.
Variable eD : XD G -> nx F.
Variable eC : XC G -> nx F.
Hypothesis Ka : keeps_avg F_ops (fun n => enc (dheur n)) (ret64 enc) G eD eC.
Notation L := (max_depth C + 1)%Z.
Notation in_range := RoundSpec.in_range.

(** At every moment of every search the estimate of a node is a finite double, and differs from the exact average of its
    returns (at decision nodes the heuristic value counts once more) by at most (2 nb + 2 L + 5) 2^-52 times the largest
    possible return. *)
Theorem C103_values : powerRZ 2 (-900) <= rho <= powerRZ 2 900 -> forall n g s, areach seqb aeqb C G n g s ->
  (forall d node x, nth_error (dh (mem (base s))) d = Some node -> nth_error (xds s) d = Some x -> (nnb (eD x) <= 2 ^ 31)%Z ->
     double (navg (eD x)) /\
     near_mean (avg_error L rho (nnb (eD x))) 1 (dheur node) (returns_d d (etrace (base s))) (nnb (eD x)) (dval (navg (eD x)))) /\
  (forall c x, nth_error (xcs s) c = Some x -> (nnb (eC x) <= 2 ^ 31)%Z ->
     double (navg (eC x)) /\
     near_mean (avg_error L rho (nnb (eC x))) 0 0 (returns_c c (etrace (base s))) (nnb (eC x)) (dval (navg (eC x)))).
Proof.
  intros [H1 H2]. exact (avg_values seqb aeqb seqb_ok aeqb_ok C (proj1 depth_ok) enc rho Env H1 G eD eC Ka H2 (proj2 depth_ok)).
Qed.

(** If all returns of a node, as the code adds them up, and the heuristic value of a decision node are in [lo, hi], then
    so is the estimate: there is no drift, however many trials are run. Unlike for UCT (C85) there is no exception. *)
Theorem C103_range : powerRZ 2 (-900) <= rho -> forall lo hi, - powerRZ 2 1000 <= lo -> hi <= powerRZ 2 1000 ->
  forall n g s, areach seqb aeqb C G n g s ->
  (forall d node x, nth_error (dh (mem (base s))) d = Some node -> nth_error (xds s) d = Some x -> (nnb (eD x) <= 2 ^ 52)%Z ->
     (forall after, In after (afters_d d (etrace (base s))) -> in_range lo hi (ret_after F_ops (map enc after))) ->
     lo <= dheur node <= hi -> in_range lo hi (navg (eD x))) /\
  (forall c x, nth_error (xcs s) c = Some x -> (nnb (eC x) <= 2 ^ 52)%Z ->
     (forall after, In after (afters_c c (etrace (base s))) -> in_range lo hi (ret_after F_ops (map enc after))) ->
     afters_c c (etrace (base s)) <> [] -> in_range lo hi (navg (eC x))).
Proof.
  intros H1. exact (avg_range seqb aeqb seqb_ok aeqb_ok C (proj1 depth_ok) enc rho Env H1 G eD eC Ka).
Qed.

(** A recommendation by value at a node with children always succeeds. It returns an action tried often enough (if there
    is one), and up to the errors above no action tried often enough has a better exact average. *)
Theorem C103_recommends : powerRZ 2 (-900) <= rho <= powerRZ 2 800 ->
  forall two thr order, (forall l : list (A * F), Permutation l (order l)) ->
  forall n g s d node, areach seqb aeqb C G n g s -> nth_error (dh (mem (base s))) d = Some node -> dkids node <> [] ->
  let rets c := returns_c c (etrace (base s)) in
  (forall a c, In (a, c) (dkids node) -> (count_of (rets c) <= 2 ^ 31)%Z) ->
  always (recommend_emp two thr order node (members eC (dview s node))) (fun a =>
    exists c, In (a, c) (dkids node) /\
      ((thr <= count_of (rets c))%Z \/ forall b c', In (b, c') (dkids node) -> (count_of (rets c') < thr)%Z) /\
      forall b c', In (b, c') (dkids node) -> ((thr <= count_of (rets c'))%Z \/ (count_of (rets c) < thr)%Z) ->
        for_mover two node (average (rets c')) <=
          for_mover two node (average (rets c)) + avg_error L rho (count_of (rets c)) + avg_error L rho (count_of (rets c'))).
Proof.
  intros [H1 H2]. exact (recommends seqb aeqb seqb_ok aeqb_ok C (proj1 depth_ok) enc rho Env H1 G eD eC Ka H2 (proj2 depth_ok)).
Qed.
End Theorems.

(** With integer rewards and heuristic values the computed returns are the true returns, so estimates lie within the
    range of the true returns. *)
Theorem C103_integer_rewards : forall S A seqb aeqb, decides seqb -> decides aeqb -> forall (C : @econf S A), (0 <= max_depth C < 2 ^ 31)%Z ->
  forall enc M, integer_env C M -> (1 <= M)%Z -> ((max_depth C + 1) * M <= 2 ^ 52)%Z -> double_env C enc (IZR M) ->
  forall G eD eC, keeps_avg F_ops (fun n => enc (dheur n)) (ret64 enc) G eD eC ->
  forall lo hi, - powerRZ 2 1000 <= lo -> hi <= powerRZ 2 1000 -> forall n g s, areach seqb aeqb C G n g s ->
  (forall d node x, nth_error (dh (mem (base s))) d = Some node -> nth_error (xds s) d = Some x -> (nnb (eD x) <= 2 ^ 52)%Z ->
     (forall r, In r (returns_d d (etrace (base s))) -> lo <= r <= hi) -> lo <= dheur node <= hi -> RoundSpec.in_range lo hi (navg (eD x))) /\
  (forall c x, nth_error (xcs s) c = Some x -> (nnb (eC x) <= 2 ^ 52)%Z ->
     (forall r, In r (returns_c c (etrace (base s))) -> lo <= r <= hi) ->
     returns_c c (etrace (base s)) <> [] -> RoundSpec.in_range lo hi (navg (eC x))).
Proof.
  intros S A seqb aeqb Ds Da C Dep enc M [Ir Ih] HM Hs Env G eD eC Ka lo hi Hlo Hhi n g s R.
  assert (H0 : powerRZ 2 (-900) <= IZR M).
  { apply Rle_trans with (powerRZ 2 0); [apply pow_mono; lia|]. rewrite powerRZ_O. now apply IZR_le. }
  destruct (C103_range seqb aeqb Ds Da C Dep enc (IZR M) Env G eD eC Ka H0 lo hi Hlo Hhi n g s R) as (P1 & P2).
  destruct (tame_lists seqb aeqb Ds Da C G (proj1 Dep) n g s R) as (T1 & T2).
  assert (Ex : forall after r, EngineAfter.tame_list C after r -> double (ret_after F_ops (map enc after)) /\ dval (ret_after F_ops (map enc after)) = r).
  { intros after r T. exact (int_after C (proj1 Dep) enc (IZR M) Env M after r HM Ir Ih Hs (proj2 Dep) eq_refl T). }
  split.
  - intros d node x Hd Hx Hn Hr Hc. eapply P1; eauto. intros after Q. destruct (T1 _ _ Q) as (T & I). destruct (Ex _ _ T) as (D & E). split; auto. rewrite E. auto.
  - intros c x Hx Hn Hr Hc. eapply P2; eauto.
    + intros after Q. destruct (T2 _ _ Q) as (T & I). destruct (Ex _ _ T) as (D & E). split; auto. rewrite E. auto.
    + intros E. apply Hc. now apply afters_nil_c.
Qed.

Print Assumptions C103_same_code.
Print Assumptions C103_values.
Print Assumptions C103_range.
Print Assumptions C103_recommends.
Print Assumptions C103_integer_rewards.

(** ** An example that meets the hypotheses *)
(** Reward 1, heuristic value 0: after one trial the root has the estimate 1/2, its child 1, and the child is
    recommended. *)
Example C103_witness : let C := one_conf 0 0 1 in
  let G := emp_over F_ops (fun n => enc60 (dheur n)) (ret64 enc60) only_sel only_smp in
  (0 <= max_depth C < 2 ^ 31)%Z /\ double_env C enc60 1 /\ powerRZ 2 (-900) <= 1 <= powerRZ 2 800 /\
  integer_env C 1 /\ ((max_depth C + 1) * 1 <= 2 ^ 52)%Z /\
  keeps_avg F_ops (fun n => enc60 (dheur n)) (ret64 enc60) G (fun x => x) (fun x => x) /\
  exists s node x, areach Bool.eqb Bool.eqb C G 1 g_ex s /\
    nth_error (dh (mem (base s))) 0 = Some node /\ nth_error (xds s) 0 = Some x /\ nnb x = 2%Z /\ dval (navg x) = 1/2 /\
    returns_d 0 (etrace (base s)) = [1] /\ dheur node = 0 /\ dkids node = [(true, 0%nat)].
Proof.
  split; [cbn; lia|]. split; [|split; [|split; [|split; [cbn; lia|split]]]].
  - constructor.
    + intros st a o. cbn. rewrite enc60_1. destruct (small_int 1) as (D & E); [cbn; lia|]. rewrite Rabs_R1. split; auto. split; auto. lra.
    + intros h st [= <-]. replace (if st then 0 else 0) with 0 by (now destruct st). rewrite enc60_0, Rabs_R0. split; [apply double_zero|]. split; [auto|lra].
    + rewrite enc60_0. split; [apply double_zero|reflexivity].
  - rewrite <- (powerRZ_O 2). split; apply pow_mono; lia.
  - split; [intros st a o; exists 1%Z; split; auto; cbn; lia|]. intros h st [= <-]. exists 0%Z. split; [now destruct st|cbn; lia].
  - constructor; intros; try reflexivity; cbn in H; injection H as <-; reflexivity.
  - set (C := one_conf 0 0 1). set (G := emp_over F_ops (fun n => enc60 (dheur n)) (ret64 enc60) only_sel only_smp).
    destruct (one_trial 0 0 1 G g_ex Datatypes.tt Datatypes.tt g_ex g_ex
      (nx_backup F_ops (mkNx 0%Z (S754_zero false)) (ret_after F_ops [enc60 0; enc60 1]))
      (nx_backup F_ops (mkNx 1%Z (S754_zero false)) (ret_after F_ops [S754_zero false; nofZ F_ops 1]))) as (s & R & Q & _ & N & X & T1 & T2); auto.
    + intros b E _. cbn. unfold ret64. now rewrite E.
    + intros b E _. cbn. unfold ret64. rewrite E. cbn [map]. rewrite ?enc60_0, ?enc60_1. reflexivity.
    + exists s. eexists. eexists. split; [exact R|]. split; [exact N|]. split; [exact X|]. split; [reflexivity|]. split.
      { replace (navg _) with (S754_finite false 4503599627370496 (-53)) by (vm_compute; reflexivity). unfold dval.
        assert (P : powerRZ 2 52 * powerRZ 2 (-52) = 1) by (rewrite <- powerRZ_add by lra; reflexivity).
        pose proof (half_pow (-52)) as H. change (-52 + -1)%Z with (-53)%Z in H. rewrite H.
        assert (K : IZR 4503599627370496 = powerRZ 2 52) by (rewrite <- (zpow 52) by lia; reflexivity). rewrite K. lra. }
      split; [rewrite T1; f_equal; lra|]. split; reflexivity.
Qed.
