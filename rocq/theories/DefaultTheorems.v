(** Property theorems C104: searches with default arguments never fail. *)
From Coq Require Import List ZArith Bool Reals Lia Lra Permutation.
From Verif Require Import Base HelperModel HelperSpec EngineModel EngineSpec PickSpec RecSpec AlgoModel UctModel UctSpec UctTheorems
  MentsModel MentsSpec DentsSpec MentsTheorems DentsTheorems TentsTheorems DefaultModel DefaultSpec.
Import ListNotations.
Open Scope R_scope.

Lemma uct_term_nonneg : forall n c, 0 <= uct_term n c.
Proof. intros. apply sqrt_pos. Qed.
Lemma puct_term_nonneg : forall p n c, 0 <= puct_term p n c.
Proof.
  intros p n c. unfold puct_term. cbv zeta.
  assert (H : 0 < (if (0 <? c)%Z then IZR c else 1)). { destruct (0 <? c)%Z eqn:E; [apply Z.ltb_lt in E; now apply (IZR_lt 0)|lra]. }
  assert (I : 0 <= / (if (0 <? c)%Z then IZR c else 1)) by (left; now apply Rinv_0_lt_compat).
  destruct (Req_EM_T p (1 / 2)); unfold Rdiv; (apply Rmult_le_pos; [|exact I]); [apply sqrt_pos|left; apply exp_pos].
Qed.
Lemma Rabs_between x B : Rabs x <= B -> - B <= x <= B.
Proof. intros H. pose proof (Rle_abs x). pose proof (Rle_abs (- x)). rewrite Rabs_Ropp in *. lra. Qed.
Lemma int_ln : ln (IZR (2 ^ 31 - 1) + 2) <= 32.
Proof.
  assert (L2 : ln 2 <= 1). { left. rewrite <- (ln_exp 1). apply ln_increasing; [lra|]. pose proof (exp_ineq1 1 ltac:(lra)). lra. }
  apply Rle_trans with (ln (2 ^ 32)).
  - left. rewrite pow_IZR, <- plus_IZR. apply ln_increasing; [apply (IZR_lt 0)|apply IZR_lt]; reflexivity.
  - rewrite ln_pow by lra. replace (INR 32) with 32 by (cbn; lra). lra.
Qed.
Lemma dbl_bound B : 0 <= B -> B <= powerRZ 2 900 -> (IZR (2 ^ 31 - 1) + 1) * B <= - dbl_lowest.
Proof.
  intros P H. unfold dbl_lowest. rewrite Ropp_involutive.
  apply Rle_trans with (IZR (2 ^ 31) * IZR (2 ^ 900)).
  - apply Rmult_le_compat; [rewrite <- plus_IZR; apply (IZR_le 0); lia|exact P| |].
    + rewrite <- plus_IZR. apply IZR_le. lia.
    + replace (IZR (2 ^ 900)) with (powerRZ 2 900); [exact H|]. change 900%Z with (Z.of_nat 900).
      rewrite <- pow_powerRZ, pow_IZR. reflexivity.
  - rewrite <- mult_IZR. apply IZR_le. vm_compute. discriminate.
Qed.

Lemma left_bound x B : (0 <= x <= 2 ^ 31 - 1)%Z -> 0 <= B <= powerRZ 2 900 -> B + IZR x * B <= - dbl_lowest.
Proof.
  intros D H. eapply Rle_trans; [|apply dbl_bound; apply H]. pose proof (IZR_le _ _ (proj2 D)). nra.
Qed.
Lemma soft_bound x B : (0 <= x <= 2 ^ 31 - 1)%Z -> 0 <= B <= powerRZ 2 900 ->
  B + 256 + IZR x * (B + 256 + 1 * ln (IZR (10 ^ 14))) <= - dbl_lowest.
Proof.
  intros D H. assert (L : ln (IZR (10 ^ 14)) <= IZR (10 ^ 14)).
  { assert (P : 0 < IZR (10 ^ 14)) by (apply (IZR_lt 0); reflexivity).
    pose proof (exp_ineq1_le (ln (IZR (10 ^ 14)))) as Q. rewrite exp_ln in Q by exact P. lra. }
  assert (L0 : 0 <= ln (IZR (10 ^ 14))). { rewrite <- ln_1. left. apply ln_increasing; [lra|apply IZR_lt; reflexivity]. }
  unfold dbl_lowest. rewrite Ropp_involutive.
  apply Rle_trans with (IZR (2 ^ 31) * IZR (2 ^ 900 + (256 + 10 ^ 14))).
  - assert (B1 : B <= IZR (2 ^ 900)).
    { replace (IZR (2 ^ 900)) with (powerRZ 2 900); [apply H|]. change 900%Z with (Z.of_nat 900). rewrite <- pow_powerRZ, pow_IZR. reflexivity. }
    assert (Q : B + 256 + ln (IZR (10 ^ 14)) <= IZR (2 ^ 900 + (256 + 10 ^ 14))).
    { rewrite !plus_IZR. lra. }
    assert (X : 0 <= IZR x) by (apply (IZR_le 0); lia).
    assert (X1 : IZR x + 1 <= IZR (2 ^ 31)) by (rewrite <- plus_IZR; apply IZR_le; lia).
    set (L1 := ln (IZR (10 ^ 14))) in *.
    apply Rle_trans with ((IZR x + 1) * (B + 256 + L1)); [rewrite Rmult_1_l; lra|].
    apply Rmult_le_compat; [lra|lra|exact X1|exact Q].
  - rewrite <- mult_IZR. apply IZR_le. vm_compute. discriminate.
Qed.

Section Theorems.
Context {S A : Type}.
Variable seqb : S -> S -> bool.
Variable aeqb : A -> A -> bool.
Hypothesis seqb_ok : decides seqb.
Hypothesis aeqb_ok : decides aeqb.
Variable order : forall V, list (A * V) -> list (A * V).
Hypothesis ord : iterates order.
Notation env := (@environment S A).

Lemma uct_default_ok (E : env) T time term : (forall n c, 0 <= term n c) -> forall N B, works_in E N B -> args_make_sense E T B ->
  0 <= B <= powerRZ 2 900 ->
  uct_ok (uct_search_conf E (uct_defaults T) time) (uct_settings E (uct_defaults T) term order) /\
  sane (uct_search_conf E (uct_defaults T) time) (uct_settings E (uct_defaults T) term order) B.
Proof using ord.
  intros Ht N B W Y Hb. split.
  - unfold uct_ok, pseudo. cbn. repeat split; auto; lia.
  - pose proof (s_depth _ _ _ Y) as D. unfold sane. cbn [uct_search_conf thts_conf uct_settings uct_defaults ua_thts ua_bias ua_pseudo ua_most ua_eps
      is_sink acts rwd heuristic max_depth udistr uprior ubias uterm].
    repeat apply conj.
    + apply (w_acts _ _ _ W).
    + intros s a Hs Ha. destruct (w_distr _ _ _ W s a Hs Ha) as [P Q]. split; [|exact Q]. intros [k w] Hp. exact (P k w Hp).
    + intros. apply (w_reward _ _ _ W).
    + apply (s_heur _ _ _ Y).
    + apply Hb.
    + lia.
    + eapply Rle_trans; [|apply dbl_bound; apply Hb]. apply Rmult_le_compat_r; [apply Hb|]. apply Rplus_le_compat_r, IZR_le. lia.
    + intros p Hp s. destruct (s_prior _ _ _ Y p Hp s) as (_ & P & Q & _). split; [intros a Ha; apply P; exact Ha|].
      intros [k w] Hq. exact (Q k w Hq).
    + left. reflexivity.
    + exact Ht.
Qed.

(** What the default arguments of MENTS and its relatives guarantee. *)
Lemma entropy_default_ok (E : env) T B time : works_in E (IZR (10 ^ 14)) B -> args_make_sense E T B -> 0 <= B ->
  let C := ments_search_conf E (dents_defaults (ments_defaults T)) time in
  let M := dents_manager E (dents_defaults (ments_defaults T)) order in
  ments_ok C M /\ env_ok C M /\ temps_ok M /\ prior_ok C M /\ values_ok C M (B + 256) /\ few_actions C (IZR (10 ^ 14)) /\
  explore_ok M /\ fresh_known C M /\ range_ok C M (- B) B (- B) B.
Proof using ord.
  intros W Y Hb C M.
  assert (Mok : ments_ok C M) by (split; [exact ord|intros; reflexivity]).
  assert (Env : env_ok C M).
  { split; [apply (w_acts _ _ _ W)|apply (w_nodup _ _ _ W)|apply (w_distr _ _ _ W)|apply (s_depth _ _ _ Y)|cbn; lia]. }
  assert (Tok : temps_ok M) by (split; [cbn; lra|cbn; discriminate]).
  assert (Pr : prior_ok C M) by (split; [exact (s_prior _ _ _ Y)|left; cbn; lra]).
  assert (Vok : values_ok C M (B + 256)).
  { split.
    - intros. cbn. pose proof (w_reward _ _ _ W s a None). lra.
    - intros h s Hh. pose proof (s_heur _ _ _ Y h s Hh). lra.
    - cbn. rewrite Rabs_R0. lra.
    - intros _. cbn. rewrite Rabs_R0. lra. }
  assert (Few : few_actions C (IZR (10 ^ 14))) by (split; [apply (IZR_le 1); lia|exact (w_few _ _ _ W)]).
  assert (Ex : explore_ok M) by (unfold explore_ok; cbn; lra).
  assert (Fr : fresh_known C M) by (right; cbn; lra).
  assert (Rg : range_ok C M (- B) B (- B) B).
  { split; [lra|lra| |].
    - intros h s Hh. apply Rabs_between. exact (s_heur _ _ _ Y h s Hh).
    - intros s a. apply Rabs_between. exact (w_reward _ _ _ W s a None). }
  exact (conj Mok (conj Env (conj Tok (conj Pr (conj Vok (conj Few (conj Ex (conj Fr Rg)))))))).
Qed.

(** ** C104 *)
(** UCT and PUCT with default arguments never throw and never run into undefined behaviour, with any number of threads,
    any interleaving and any random numbers ... *)
Theorem C104_uct_defaults : forall (E : env) T N B time, works_in E N B -> args_make_sense E T B -> 0 <= B <= powerRZ 2 900 ->
  let C := uct_search_conf E (uct_defaults T) time in
  forall U, U = uct_manager E (uct_defaults T) order \/ U = puct_manager E (uct_defaults T) order ->
  forall n g, good_ints g -> good_reals g ->
  (forall s, areach seqb aeqb C (uct aeqb C U) n g s -> afail s = None) /\
  ((0 < n)%nat -> forall k, exists s, areach seqb aeqb C (uct aeqb C U) n g s /\ quiet (base s) /\
     count is_done (etrace (base s)) = Z.of_nat k).
Proof using seqb_ok aeqb_ok ord.
  intros E T N B time W Y Hb C U HU n g Gi Gr.
  assert (X : uct_ok C U /\ sane C U B).
  { destruct HU as [-> | ->]; apply (uct_default_ok E T time _) with (N := N); auto; [apply uct_term_nonneg|apply puct_term_nonneg]. }
  destruct X as [X1 X2]. split.
  - intros s R. exact (C63_uct_never_fails seqb aeqb seqb_ok aeqb_ok C U X1 B X2 n g s Gi Gr R).
  - intros Hn k. exact (C63_uct_completes seqb aeqb seqb_ok aeqb_ok C U X1 B X2 n g Gi Gr Hn k).
Qed.

(** ... and so do MENTS and its relatives, in environments with at most 10^14 actions per state, as long as the visit
    counters (ints) of the nodes do not overflow. *)
Theorem C104_entropy_defaults : forall (E : env) T B time, works_in E (IZR (10 ^ 14)) B -> args_make_sense E T B -> 0 <= B ->
  let C := ments_search_conf E (dents_defaults (ments_defaults T)) time in
  let M := dents_manager E (dents_defaults (ments_defaults T)) order in
  forall G, In G [ments aeqb C M; dbments aeqb C M; dents aeqb C M; MentsModel.est aeqb C M; rents aeqb C M; tents aeqb C M] ->
  forall n g s, good_ints g -> good_reals g -> areach seqb aeqb C G n g s ->
  (forall d node, nth_error (dh (mem (base s))) d = Some node -> (dvisits node <= 2 ^ 31 - 1)%Z) -> afail s = None.
Proof using seqb_ok aeqb_ok ord.
  intros E T B time W Y Hb C M G HG n g s Gi Gr R Hv.
  destruct (entropy_default_ok E T B time W Y Hb) as (Mok & Env & Tok & Pr & Vok & Few & Ex & Fr & _).
  fold C M in Mok, Env, Tok, Pr, Vok, Few, Ex, Fr.
  assert (H16 : IZR (10 ^ 16) = 100 * IZR (10 ^ 14)) by (rewrite <- mult_IZR; reflexivity).
  assert (P14 : 0 < IZR (10 ^ 14)) by (apply (IZR_lt 0); lia).
  assert (E1 : 0 < 1 / 2) by lra.
  assert (E2 : 1 / 2 <= meps M) by (cbn; lra).
  assert (E3 : mroot_eps M <= 0 \/ 1 / 2 <= mroot_eps M) by (left; cbn; lra).
  assert (E4 : (0 <= 2 ^ 31 - 1)%Z) by lia.
  assert (E5 : IZR (10 ^ 14) * ln (IZR (2 ^ 31 - 1) + 2) / IZR (10 ^ 16) <= 1 / 2).
  { rewrite H16. pose proof int_ln. replace (IZR (10 ^ 14) * ln (IZR (2 ^ 31 - 1) + 2) / (100 * IZR (10 ^ 14)))
      with (ln (IZR (2 ^ 31 - 1) + 2) / 100) by (field; lra). lra. }
  assert (E6 : IZR (10 ^ 14) / IZR (10 ^ 16) <= mmax_explore M).
  { rewrite H16. replace (IZR (10 ^ 14) / (100 * IZR (10 ^ 14))) with (1 / 100) by (field; lra). cbn. lra. }
  cbn [In] in HG. repeat destruct HG as [<- | HG]; [| | | | | |contradiction].
  - exact (C65_exploring seqb aeqb seqb_ok aeqb_ok C M Mok Env Tok Pr _ _ Vok Few Ex _ _ E1 E2 E3 E4 E5 E6 n g s Gi Gr R Hv).
  - exact (C71_dbments_exploring seqb aeqb seqb_ok aeqb_ok C M Mok Env Pr Ex _ Few _ _ E1 E2 E3 E4 E5 E6 n g s Gi Gr R Hv).
  - exact (C71_dents_exploring seqb aeqb seqb_ok aeqb_ok C M Mok Env Pr Ex _ Few Fr _ _ E1 E2 E3 E4 E5 E6 n g s Gi Gr R Hv).
  - exact (C71_est_exploring seqb aeqb seqb_ok aeqb_ok C M Mok Env Pr Ex _ Few _ _ E1 E2 E3 E4 E5 E6 n g s Gi Gr R Hv).
  - exact (C75_rents_exploring seqb aeqb seqb_ok aeqb_ok C M Mok Env Pr Ex _ Few _ _ E1 E2 E3 E4 E5 E6 n g s Gi Gr R Hv).
  - exact (C75_tents_exploring seqb aeqb seqb_ok aeqb_ok C M Mok Env Pr Ex _ Few _ _ E1 E2 E3 E4 E5 E6 n g s Gi Gr R Hv).
Qed.

(** Recommendations with default arguments succeed at every node that is not a sink, during and after every search:
    UCT and PUCT choose fairly among the most visited children (all actions if there is none), ... *)
Theorem C104_uct_recommends : forall (E : env) T N B time, works_in E N B -> args_make_sense E T B -> 0 <= B <= powerRZ 2 900 ->
  let C := uct_search_conf E (uct_defaults T) time in
  forall U, U = uct_manager E (uct_defaults T) order \/ U = puct_manager E (uct_defaults T) order ->
  forall n g s d node, areach seqb aeqb C (uct aeqb C U) n g s -> nth_error (dh (mem (base s))) d = Some node ->
  v_sink E (dstate node) = false ->
  picks (uct_recommend aeqb C U node (dview s node))
    (fun a => In a (v_acts E (dstate node)) /\
       (dkids node <> [] -> In a (map fst (dkids node)) /\
          forall b, In b (map fst (dkids node)) -> (kid_visits aeqb (dview s node) b <= kid_visits aeqb (dview s node) a)%Z)).
Proof using seqb_ok aeqb_ok ord.
  intros E T N B time W Y Hb C U HU n g s d node R Hd Hs.
  assert (X : (uct_ok C U /\ sane C U B) /\ umost_visited U = true).
  { destruct HU as [-> | ->]; (split; [|reflexivity]); apply (uct_default_ok E T time _) with (N := N); auto; [apply uct_term_nonneg|apply puct_term_nonneg]. }
  destruct X as [[X1 X2] X3].
  pose proof (C21_uct_recommendation seqb aeqb seqb_ok aeqb_ok C U B X1 X2 n g s d node R Hd Hs (w_nodup _ _ _ W _)) as Q.
  rewrite X3 in Q. exact Q.
Qed.

(** ... MENTS among the actions of largest soft value that have been visited often enough (all actions if there is
    none), ... *)
Theorem C104_ments_recommends : forall (E : env) T B time, works_in E (IZR (10 ^ 14)) B -> args_make_sense E T B ->
  0 <= B <= powerRZ 2 900 ->
  let C := ments_search_conf E (dents_defaults (ments_defaults T)) time in
  let M := dents_manager E (dents_defaults (ments_defaults T)) order in
  forall n g s d node x, areach seqb aeqb C (ments aeqb C M) n g s -> nth_error (dh (mem (base s))) d = Some node ->
  nth_error (xds s) d = Some x -> v_sink E (dstate node) = false -> (ddepth node < t_max_depth T)%Z ->
  exists q, (forall a, In a (v_acts E (dstate node)) -> q_of M c_soft node (m_off x) (dview s node) a (q a)) /\
    picks (ments_recommend aeqb C M node x (dview s node))
      (best_choice (v_acts E (dstate node)) (visited_enough M (dview s node)) q).
Proof using seqb_ok aeqb_ok ord.
  intros E T B time W Y Hb C M n g s d node x R Hd Hx Hs Hl.
  destruct (entropy_default_ok E T B time W Y (proj1 Hb)) as (Mok & Env & Tok & Pr & Vok & Few & Ex & _ & _).
  fold C M in Mok, Env, Tok, Pr, Vok, Few, Ex.
  apply (C21_ments_recommendation seqb aeqb seqb_ok aeqb_ok C M Mok Env Tok Pr _ _ Vok Few Ex n g s d node x R Hd Hx Hs Hl).
  unfold value_bound. rewrite Z.sub_0_r. change (max_depth C) with (t_max_depth T). change (mtemp M) with 1.
  rewrite Rmax_left.
  - apply soft_bound; [apply (s_depth _ _ _ Y)|exact Hb].
  - change (mmin_temp M) with (1 / IZR (10 ^ 6)). assert (1 <= IZR (10 ^ 6)) by (apply IZR_le; lia).
    apply Rmult_le_reg_r with (IZR (10 ^ 6)); [lra|]. unfold Rdiv. rewrite Rmult_assoc, Rinv_l by lra. lra.
Qed.

(** ... and DB-MENTS, DENTS and EST among the children of best dynamic programming value (all actions if there is no
    child). *)
Theorem C104_dp_recommends : forall (E : env) T B time, works_in E (IZR (10 ^ 14)) B -> args_make_sense E T B ->
  0 <= B <= powerRZ 2 900 ->
  let C := ments_search_conf E (dents_defaults (ments_defaults T)) time in
  let M := dents_manager E (dents_defaults (ments_defaults T)) order in
  forall n g d node, v_sink E (dstate node) = false ->
  (forall s, areach seqb aeqb C (dbments aeqb C M) n g s -> nth_error (dh (mem (base s))) d = Some node ->
    picks (dbments_recommend aeqb C M node (dview s node)) (best_by_value C M node (members snd (dview s node)))) /\
  (forall s, areach seqb aeqb C (dents aeqb C M) n g s -> nth_error (dh (mem (base s))) d = Some node ->
    picks (dents_recommend aeqb C M node (dview s node)) (best_by_value C M node (members dc_dp (dview s node)))) /\
  (forall s, areach seqb aeqb C (MentsModel.est aeqb C M) n g s -> nth_error (dh (mem (base s))) d = Some node ->
    picks (dents_recommend aeqb C M node (dview s node)) (best_by_value C M node (members dc_dp (dview s node)))).
Proof using seqb_ok aeqb_ok ord.
  intros E T B time W Y Hb C M n g d node Hs.
  destruct (entropy_default_ok E T B time W Y (proj1 Hb)) as (Mok & Env & _ & _ & _ & _ & _ & _ & Rg).
  fold C M in Mok, Env, Rg. pose proof (left_bound (t_max_depth T) B (s_depth _ _ _ Y) Hb) as L.
  assert (Hi : most_left C B B 0 <= - dbl_lowest) by (unfold most_left; rewrite Z.sub_0_r; exact L).
  assert (Lo : dbl_lowest <= least_left C (- B) (- B) 0).
  { unfold least_left. rewrite Z.sub_0_r. change (max_depth C) with (t_max_depth T). lra. }
  split; [|split]; intros s R Hd.
  - exact (C21_dbments_recommendation seqb aeqb seqb_ok aeqb_ok C M Mok Env n g d node Hs _ _ _ _ Rg Lo Hi s R Hd).
  - exact (C21_dents_recommendation seqb aeqb seqb_ok aeqb_ok C M Mok Env n g d node Hs _ _ _ _ Rg Lo Hi s eq_refl R Hd).
  - exact (C21_est_recommendation seqb aeqb seqb_ok aeqb_ok C M Mok Env n g d node Hs _ _ _ _ Rg Lo Hi s eq_refl R Hd).
Qed.

(** The default base arguments make sense in every environment. *)
Theorem C104_base_defaults : forall (E : env) B, 0 <= B -> args_make_sense E thts_defaults B.
Proof.
  intros E B H. split; cbn; [lia|intros h s [= <-]; now rewrite Rabs_R0|discriminate].
Qed.
End Theorems.
Print Assumptions C104_uct_defaults.
Print Assumptions C104_entropy_defaults.
Print Assumptions C104_uct_recommends.
Print Assumptions C104_ments_recommends.
Print Assumptions C104_dp_recommends.
Print Assumptions C104_base_defaults.

(** The premises are met by an unbounded walk on the integers in which a step goes astray one time in four. *)
Definition walk : @environment Z bool :=
  mkEnv (fun s => (s =? 10)%Z) (fun s => if (s =? 10)%Z then [] else [true; false])
    (fun s a => let d := if a then 1%Z else (-1)%Z in [((s + d)%Z, 3 / 4); ((s - d)%Z, 1 / 4)])
    (fun s a o => match o with Some t => if (t =? 10)%Z then 5 else -1 | None => if a then -1 else -2 end) 0%Z.
Example C104_witness : works_in walk (IZR (10 ^ 14)) 5 /\ args_make_sense walk thts_defaults 5 /\ 0 <= 5 <= powerRZ 2 900 /\
  iterates (fun V (m : list (bool * V)) => rev m).
Proof.
  split; [|split; [|split]].
  - split; cbn [walk v_sink v_acts v_distr v_reward].
    + intros s ->. discriminate.
    + intros s. destruct (s =? 10)%Z; repeat constructor; cbn; intuition discriminate.
    + intros s. apply Rle_trans with 2; [destruct (s =? 10)%Z; cbn; lra|apply IZR_le; lia].
    + intros s a _ _. split; [intros k w [[= <- <-] | [[= <- <-] | []]]; lra|unfold total; cbn; lra].
    + intros s a [t|]; [destruct (t =? 10)%Z|destruct a]; unfold Rabs; destruct (Rcase_abs _); lra.
  - apply C104_base_defaults. lra.
  - split; [lra|]. change 900%Z with (Z.of_nat (3 + 897)). rewrite <- pow_powerRZ, pow_add.
    assert (1 <= 2 ^ 897) by (apply pow_R1_Rle; lra). change (5 <= 2 * (2 * (2 * 1)) * 2 ^ 897). lra.
  - intros V m. apply Permutation_rev.
Qed.
