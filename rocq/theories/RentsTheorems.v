(** Property theorems C105: the values of RENTS stay within bounds, and its recommendations always succeed. *)
From Coq Require Import List ZArith Bool Reals Lia Lra Permutation.
From Verif Require Import Base HelperModel HelperSpec EngineModel EngineSpec PickSpec RecSpec AlgoModel UctModel
  MentsModel MentsSpec DentsSpec DefaultModel DefaultSpec DefaultTheorems RentsSpec RentsProofs.
Import ListNotations.
Open Scope R_scope.

Section Theorems.
Context {S A : Type}.
Variable seqb : S -> S -> bool.
Variable aeqb : A -> A -> bool.
Hypothesis seqb_ok : decides seqb.
Hypothesis aeqb_ok : decides aeqb.
Variable C : @econf S A.
Variable M : @mconf S A.
Notation areach := (areach seqb aeqb C (rents aeqb C M)).
Hypothesis Mok : ments_ok C M.
Hypothesis Env : env_ok C M.
Hypothesis Tok : temps_ok M.
Hypothesis Pr : prior_ok C M.
Hypothesis Ex : explore_ok M.
Variable B N : R.
Hypothesis Vok : values_ok C M B.
Hypothesis Few : few_actions C N.
Hypothesis Small : relative_bound C M B N 0 / least_temp M <= - dbl_lowest.

(** ** C105 *)
(** At every moment of every search, the soft values of all nodes are within the bound for their depth. *)
Theorem C105_rents_values : forall n g s, areach n g s ->
  (forall d node x, nth_error (dh (mem (base s))) d = Some node -> nth_error (xds s) d = Some x ->
     Rabs (m_soft (x : mmem)) <= relative_bound C M B N (ddepth node)) /\
  (forall c node x, nth_error (ch (mem (base s))) c = Some node -> nth_error (xcs s) c = Some x ->
     Rabs (c_soft (x : cmem)) <= B + relative_bound C M B N (cdepth node + 1)).
Proof. exact (rents_values seqb aeqb seqb_ok aeqb_ok C M Mok Env Tok Pr Ex B N Vok Few Small). Qed.

(** Recommendations therefore succeed at every node above the depth limit that is not a sink: an action of largest value among
    those visited often enough (among all if there are none), or a most visited child; each equally likely. *)
Theorem C105_rents_recommends : forall n g s d (node : dnode) x, areach n g s -> nth_error (dh (mem (base s))) d = Some node ->
  nth_error (xds s) d = Some x -> is_sink C (dstate node) = false -> (ddepth node < max_depth C)%Z ->
  relative_bound C M B N 0 <= - dbl_lowest ->
  exists q, (forall a, In a (acts C (dstate node)) -> q_of M c_soft node (m_off (x : mmem)) (dview s node) a (q a)) /\
   picks (ments_recommend aeqb C M node (x : mmem) (dview s node))
    (if mmost_visited M then most_visited (acts C (dstate node)) (dview s node)
     else best_choice (acts C (dstate node)) (visited_enough M (dview s node)) q).
Proof. exact (rents_recommends seqb aeqb seqb_ok aeqb_ok C M Mok Env Tok Pr Ex B N Vok Few Small). Qed.
End Theorems.

Lemma relative_small x B : (0 <= x <= 2 ^ 31 - 1)%Z -> 0 <= B <= powerRZ 2 900 ->
  B + 256 + IZR x * (B + 256 + 1 * ln (IZR (10 ^ 16))) <= - dbl_lowest.
Proof.
  intros D H. assert (L : ln (IZR (10 ^ 16)) <= IZR (10 ^ 16)).
  { assert (P : 0 < IZR (10 ^ 16)) by (apply (IZR_lt 0); reflexivity).
    pose proof (exp_ineq1_le (ln (IZR (10 ^ 16)))) as Q. rewrite exp_ln in Q by exact P. lra. }
  assert (L0 : 0 <= ln (IZR (10 ^ 16))). { rewrite <- ln_1. left. apply ln_increasing; [lra|apply IZR_lt; reflexivity]. }
  unfold dbl_lowest. rewrite Ropp_involutive.
  apply Rle_trans with (IZR (2 ^ 31) * IZR (2 ^ 900 + (256 + 10 ^ 16))).
  - assert (B1 : B <= IZR (2 ^ 900)).
    { replace (IZR (2 ^ 900)) with (powerRZ 2 900); [apply H|]. change 900%Z with (Z.of_nat 900). rewrite <- pow_powerRZ, pow_IZR. reflexivity. }
    assert (Q : B + 256 + ln (IZR (10 ^ 16)) <= IZR (2 ^ 900 + (256 + 10 ^ 16))).
    { rewrite !plus_IZR. lra. }
    assert (X : 0 <= IZR x) by (apply (IZR_le 0); lia).
    assert (X1 : IZR x + 1 <= IZR (2 ^ 31)) by (rewrite <- plus_IZR; apply IZR_le; lia).
    set (L1 := ln (IZR (10 ^ 16))) in *.
    apply Rle_trans with ((IZR x + 1) * (B + 256 + L1)); [rewrite Rmult_1_l; lra|].
    apply Rmult_le_compat; [lra|lra|exact X1|exact Q].
  - rewrite <- mult_IZR. apply IZR_le. vm_compute. discriminate.
Qed.

Section Defaults.
Context {S A : Type}.
Variable seqb : S -> S -> bool.
Variable aeqb : A -> A -> bool.
Hypothesis seqb_ok : decides seqb.
Hypothesis aeqb_ok : decides aeqb.
Variable order : forall V, list (A * V) -> list (A * V).
Hypothesis ord : iterates order.

Lemma default_bound (E : @environment S A) T B time : args_make_sense E T B -> 0 <= B <= powerRZ 2 900 ->
  let C := ments_search_conf E (dents_defaults (ments_defaults T)) time in
  let M := dents_manager E (dents_defaults (ments_defaults T)) order in
  relative_bound C M (B + 256) (IZR (10 ^ 14)) 0 <= - dbl_lowest.
Proof using Type.
  intros Y Hb C M. unfold relative_bound. rewrite Z.sub_0_r. change (max_depth C) with (t_max_depth T). change (mtemp M) with 1.
  rewrite (Rmax_right (IZR (10 ^ 14))) by (apply IZR_le; lia). rewrite Rmax_left.
  - apply relative_small; [apply (s_depth _ _ _ Y)|exact Hb].
  - change (mmin_temp M) with (1 / IZR (10 ^ 6)). assert (1 <= IZR (10 ^ 6)) by (apply IZR_le; lia).
    apply Rmult_le_reg_r with (IZR (10 ^ 6)); [lra|]. unfold Rdiv. rewrite Rmult_assoc, Rinv_l by lra. lra.
Qed.

(** With default arguments and rewards and heuristic values up to 2^900 all of this applies. *)
Theorem C105_rents_defaults : forall (E : @environment S A) T B time, works_in E (IZR (10 ^ 14)) B -> args_make_sense E T B ->
  0 <= B <= powerRZ 2 900 ->
  let C := ments_search_conf E (dents_defaults (ments_defaults T)) time in
  let M := dents_manager E (dents_defaults (ments_defaults T)) order in
  forall n g s d node x, areach seqb aeqb C (rents aeqb C M) n g s -> nth_error (dh (mem (base s))) d = Some node ->
  nth_error (xds s) d = Some x ->
  Rabs (m_soft (x : mmem)) <= relative_bound C M (B + 256) (IZR (10 ^ 14)) (ddepth node) /\
  (v_sink E (dstate node) = false -> (ddepth node < t_max_depth T)%Z ->
   exists q, (forall a, In a (v_acts E (dstate node)) -> q_of M c_soft node (m_off (x : mmem)) (dview s node) a (q a)) /\
     picks (ments_recommend aeqb C M node (x : mmem) (dview s node))
       (best_choice (v_acts E (dstate node)) (visited_enough M (dview s node)) q)).
Proof using seqb_ok aeqb_ok ord.
  intros E T B time W Y Hb C M n g s d node x R Hd Hx.
  destruct (entropy_default_ok order ord E T B time W Y (proj1 Hb)) as (Mok & Env & Tok & Pr & Vok & Few & Ex & _ & _).
  fold C M in Mok, Env, Tok, Pr, Vok, Few, Ex. pose proof (default_bound E T B time Y Hb) as L. fold C M in L.
  assert (Small : relative_bound C M (B + 256) (IZR (10 ^ 14)) 0 / least_temp M <= - dbl_lowest).
  { change (least_temp M) with 1. unfold Rdiv. rewrite Rinv_1, Rmult_1_r. exact L. }
  split.
  - exact (proj1 (C105_rents_values seqb aeqb seqb_ok aeqb_ok C M Mok Env Tok Pr Ex _ _ Vok Few Small n g s R) d node x Hd Hx).
  - intros Hs Hl. exact (C105_rents_recommends seqb aeqb seqb_ok aeqb_ok C M Mok Env Tok Pr Ex _ _ Vok Few Small n g s d node x R Hd Hx Hs Hl L).
Qed.
End Defaults.
Print Assumptions C105_rents_values.
Print Assumptions C105_rents_recommends.
Print Assumptions C105_rents_defaults.

(** The premises are met by the walk of C104. *)
Example C105_witness : let C := ments_search_conf walk (dents_defaults (ments_defaults thts_defaults)) 0 in
  let M := dents_manager walk (dents_defaults (ments_defaults thts_defaults)) (fun V (m : list (bool * V)) => rev m) in
  ments_ok C M /\ env_ok C M /\ temps_ok M /\ prior_ok C M /\ explore_ok M /\ values_ok C M (5 + 256) /\
  few_actions C (IZR (10 ^ 14)) /\ relative_bound C M (5 + 256) (IZR (10 ^ 14)) 0 / least_temp M <= - dbl_lowest.
Proof.
  intros C M. destruct C104_witness as (W & Y & Hb & O).
  destruct (entropy_default_ok _ O walk thts_defaults 5 0 W Y (proj1 Hb)) as (H1 & H2 & H3 & H4 & H5 & H6 & H7 & _ & _).
  repeat (split; [assumption|]). change (least_temp M) with 1. unfold Rdiv. rewrite Rinv_1, Rmult_1_r.
  exact (default_bound _ walk thts_defaults 5 0 Y Hb).
Qed.
