(** Property theorems about the unit of rewards: C101. *)
From Coq Require Import List ZArith Bool Reals Lia Lra Permutation.
From Verif Require Import Base NumOps HelperModel HelperSpec EngineModel EngineSpec EngineProofs MapModel AlgoModel UctModel UctSpec UctProofs UctTheorems MentsModel MentsSpec MentsTheorems MirrorSpec ScaleSpec ScaleProofs ScaleAlgos ScaleUct.
Import ListNotations.
Open Scope R_scope.

Section Theorems.
Context {S A : Type}.
Variable seqb : S -> S -> bool.
Variable aeqb : A -> A -> bool.
(** The unit: every old unit of reward becomes [al] new units. *)
Variable al : R.
Hypothesis al_pos : 0 < al.
Variable C : @econf S A.
Notation C' := (scl_conf al C).
Notation dnode := (@dnode S A).
Notation cnode := (@cnode S A).

(** ** UCT and PUCT with a fixed bias *)
Section Uct.
Variable U : @uconf S A.
Notation U' := (scl_uconf al U).
Hypothesis seqb_ok : decides seqb.
Hypothesis aeqb_ok : decides aeqb.
Hypothesis Fixed : ubias U <> -1 /\ al * ubias U <> -1.
Hypothesis Keyed : keyed (uorder U).
Hypothesis Uok : uct_ok C U.
(** Whole searches: with the same schedule and random numbers the search with the new unit is the scaled search, if returns
    are doubles in both units. *)
Theorem C101_uct_search : forall B, sane C U B -> (IZR (max_depth C) + 1) * (al * B) <= - dbl_lowest -> forall n g ls,
  arun seqb aeqb C' (uct aeqb C' U') ls (ainit C' (uct aeqb C' U') n g) =
  option_map (scl_ast al (G := uct aeqb C U) (G' := uct aeqb C' U') (scl_u al) (scl_u al) (fun cx => cx)) (arun seqb aeqb C (uct aeqb C U) ls (ainit C (uct aeqb C U) n g)).
Proof.
  intros B Sn Room n g. destruct Fixed as [F1 F2]. refine (arun_scl al seqb aeqb C _ _ _ _ _ _ (uct_scaled al al_pos aeqb C U F1 F2 Keyed (proj1 Uok)) n g _).
  intros s d m. exact (fit_reach al al_pos aeqb C U F1 F2 Keyed (proj1 Uok) seqb seqb_ok aeqb_ok Uok B Sn Room n g s d m).
Qed.
Theorem C101_uct_recommends : forall n (kids : list (A * (cnode * ux))) g,
  (forall a c x, lookup aeqb a kids = Some (c, x) -> dbl_lowest <= uct_opp U n * uavg x /\ dbl_lowest <= al * (uct_opp U n * uavg x)) ->
  uct_recommend aeqb C' U' (scl_d al n) (scl_dkids (scl_u al) kids) g = uct_recommend aeqb C U n kids g.
Proof. exact (urec_scl al al_pos aeqb C U Keyed (proj1 Uok)). Qed.
End Uct.

(** ** MENTS and its relatives without priors *)
Section Ments.
Variable M : @mconf S A.
Notation M' := (scl_mconf al M).
Hypothesis NoPrior : mprior M = None.
(** MENTS at a node. *)
Theorem C101_ments_node : scales al (G := ments aeqb C M) (G' := ments aeqb C' M') (scl_m al) (scl_cm al) (fun cx => cx).
Proof. exact (scaled_scales al _ _ _ _ _ _ _ (ments_scaled al al_pos aeqb C M NoPrior)). Qed.
Theorem C101_ments_recommends : keyed (morder M) -> (forall V (m : list (A * V)), Permutation m (morder M V m)) ->
  forall n x (kids : list (A * (cnode * cmem))) g,
  (forall a v, In a (acts C (dstate n)) -> ments_q aeqb M n x kids a = Ok v -> dbl_lowest <= v /\ dbl_lowest <= al * v) ->
  ments_recommend aeqb C' M' (scl_d al n) (scl_m al x) (scl_dkids (scl_cm al) kids) g = ments_recommend aeqb C M n x kids g.
Proof. intros K Pm. exact (rec_scl al al_pos aeqb C M NoPrior K Pm). Qed.
(** Whole searches: with the same schedule and random numbers the search with the new unit is the scaled search. *)
Theorem C101_ments_search : forall n g ls,
  arun seqb aeqb C' (ments aeqb C' M') ls (ainit C' (ments aeqb C' M') n g) =
  option_map (scl_ast al (G := ments aeqb C M) (G' := ments aeqb C' M') (scl_m al) (scl_cm al) (fun cx => cx)) (arun seqb aeqb C (ments aeqb C M) ls (ainit C (ments aeqb C M) n g)).
Proof. intros n g. now refine (arun_scl al seqb aeqb C _ _ _ _ _ _ (ments_scaled al al_pos aeqb C M NoPrior) n g _). Qed.
(** DB-MENTS at a node. *)
Theorem C101_dbments_node : scales al (G := dbments aeqb C M) (G' := dbments aeqb C' M') (scl_mv al) (scl_cv al) (scl_looks al (scl_mv al) (scl_cv al)).
Proof. exact (scaled_scales al _ _ _ _ _ _ _ (dbments_scaled al al_pos aeqb C M NoPrior)). Qed.
Theorem C101_dbments_recommends : keyed (morder M) -> (forall V (m : list (A * V)), Permutation m (morder M V m)) ->
  forall n (kids : list (A * (cnode * (cmem * vmem)))) g,
  Forall (fun k => dbl_lowest <= opp_coeff M n * v_val (snd (snd (snd k))) /\ dbl_lowest <= al * (opp_coeff M n * v_val (snd (snd (snd k))))) kids ->
  dbments_recommend aeqb C' M' (scl_d al n) (scl_dkids (scl_cv al) kids) g = dbments_recommend aeqb C M n kids g.
Proof. intros K Pm. exact (dbrec_scl al al_pos aeqb C M K Pm). Qed.
(** Whole searches: with the same schedule and random numbers the search with the new unit is the scaled search. *)
Theorem C101_dbments_search : forall n g ls,
  arun seqb aeqb C' (dbments aeqb C' M') ls (ainit C' (dbments aeqb C' M') n g) =
  option_map (scl_ast al (G := dbments aeqb C M) (G' := dbments aeqb C' M') (scl_mv al) (scl_cv al) (scl_looks al (scl_mv al) (scl_cv al))) (arun seqb aeqb C (dbments aeqb C M) ls (ainit C (dbments aeqb C M) n g)).
Proof. intros n g. now refine (arun_scl al seqb aeqb C _ _ _ _ _ _ (dbments_scaled al al_pos aeqb C M NoPrior) n g _). Qed.
(** DENTS at a node. *)
Theorem C101_dents_node : scales al (G := dents aeqb C M) (G' := dents aeqb C' M') (scl_dm al) (scl_dc al) (scl_looks al (scl_dm al) (scl_dc al)).
Proof. exact (scaled_scales al _ _ _ _ _ _ _ (dents_scaled al al_pos aeqb C M NoPrior)). Qed.
(** DENTS and EST recommend by the same function. *)
Theorem C101_dents_recommends : keyed (morder M) -> (forall V (m : list (A * V)), Permutation m (morder M V m)) ->
  forall n (kids : list (A * (cnode * dcmem))) g,
  Forall (fun k => dbl_lowest <= opp_coeff M n * dents_est M (snd (snd k)) /\ dbl_lowest <= al * (opp_coeff M n * dents_est M (snd (snd k)))) kids ->
  dents_recommend aeqb C' M' (scl_d al n) (scl_dkids (scl_dc al) kids) g = dents_recommend aeqb C M n kids g.
Proof. intros K Pm. exact (drec_scl al al_pos aeqb C M K Pm). Qed.
(** Whole searches: with the same schedule and random numbers the search with the new unit is the scaled search. *)
Theorem C101_dents_search : forall n g ls,
  arun seqb aeqb C' (dents aeqb C' M') ls (ainit C' (dents aeqb C' M') n g) =
  option_map (scl_ast al (G := dents aeqb C M) (G' := dents aeqb C' M') (scl_dm al) (scl_dc al) (scl_looks al (scl_dm al) (scl_dc al))) (arun seqb aeqb C (dents aeqb C M) ls (ainit C (dents aeqb C M) n g)).
Proof. intros n g. now refine (arun_scl al seqb aeqb C _ _ _ _ _ _ (dents_scaled al al_pos aeqb C M NoPrior) n g _). Qed.
(** EST at a node. *)
Theorem C101_est_node : scales al (G := est aeqb C M) (G' := est aeqb C' M') (scl_dm al) (scl_dc al) (fun cx => cx).
Proof. exact (scaled_scales al _ _ _ _ _ _ _ (est_scaled al al_pos aeqb C M NoPrior)). Qed.
(** Whole searches: with the same schedule and random numbers the search with the new unit is the scaled search. *)
Theorem C101_est_search : forall n g ls,
  arun seqb aeqb C' (est aeqb C' M') ls (ainit C' (est aeqb C' M') n g) =
  option_map (scl_ast al (G := est aeqb C M) (G' := est aeqb C' M') (scl_dm al) (scl_dc al) (fun cx => cx)) (arun seqb aeqb C (est aeqb C M) ls (ainit C (est aeqb C M) n g)).
Proof. intros n g. now refine (arun_scl al seqb aeqb C _ _ _ _ _ _ (est_scaled al al_pos aeqb C M NoPrior) n g _). Qed.
(** RENTS at a node. *)
Theorem C101_rents_node : scales al (G := rents aeqb C M) (G' := rents aeqb C' M') (scl_m al) (scl_cm al) (fun cx => cx).
Proof. exact (scaled_scales al _ _ _ _ _ _ _ (rents_scaled al al_pos aeqb C M NoPrior)). Qed.
(** Whole searches: with the same schedule and random numbers the search with the new unit is the scaled search. *)
Theorem C101_rents_search : forall n g ls,
  arun seqb aeqb C' (rents aeqb C' M') ls (ainit C' (rents aeqb C' M') n g) =
  option_map (scl_ast al (G := rents aeqb C M) (G' := rents aeqb C' M') (scl_m al) (scl_cm al) (fun cx => cx)) (arun seqb aeqb C (rents aeqb C M) ls (ainit C (rents aeqb C M) n g)).
Proof. intros n g. now refine (arun_scl al seqb aeqb C _ _ _ _ _ _ (rents_scaled al al_pos aeqb C M NoPrior) n g _). Qed.
(** TENTS at a node. *)
Theorem C101_tents_node : scales al (G := tents aeqb C M) (G' := tents aeqb C' M') (scl_t al) (scl_cm al) (fun cx => cx).
Proof. exact (scaled_scales al _ _ _ _ _ _ _ (tents_scaled al al_pos aeqb C M NoPrior)). Qed.
(** Whole searches: with the same schedule and random numbers the search with the new unit is the scaled search. *)
Theorem C101_tents_search : forall n g ls,
  arun seqb aeqb C' (tents aeqb C' M') ls (ainit C' (tents aeqb C' M') n g) =
  option_map (scl_ast al (G := tents aeqb C M) (G' := tents aeqb C' M') (scl_t al) (scl_cm al) (fun cx => cx)) (arun seqb aeqb C (tents aeqb C M) ls (ainit C (tents aeqb C M) n g)).
Proof. intros n g. now refine (arun_scl al seqb aeqb C _ _ _ _ _ _ (tents_scaled al al_pos aeqb C M NoPrior) n g _). Qed.
End Ments.
End Theorems.

(** ** With priors the unit matters *)
(** Two actions; the prior gives the second one no weight, so that its Q-value is the logarithm -32 in every unit. At a node
    whose first child is worth 0 the soft value is [ln (1 + exp (-32))]; in a unit half as large it should be twice that, but is
    [2 * ln (1 + exp (-16))]. *)
Definition prior_conf : @econf nat bool :=
  mkConf (fun s => Nat.eqb s 1) (fun _ => [true; false]) (fun _ _ => [1%nat]) (fun _ _ _ => 0) None 2 true false 0 0%nat 0.
Definition prior_ex : @mconf nat bool :=
  @mkM nat bool 1 (-1) (1/2) (-1) 1 None (1/10) 1 (-1) 0 false 0 0 false (Some (fun _ => [(true, 1); (false, 0)])) false (fun _ _ => 0)
      (fun _ _ => [(1%nat, 1)]) (fun V m => m) None 1 (1/10) 1 (-1) true.
Lemma low5 : forall z, (- 100 <= z)%Z -> Rltb dbl_lowest (IZR z) = true.
Proof.
  intros z H. unfold Rltb. destruct (Rlt_dec dbl_lowest (IZR z)) as [|N]; auto. exfalso. apply N. apply Rlt_le_trans with (IZR (- 100)); [|now apply IZR_le].
  unfold dbl_lowest. rewrite <- opp_IZR. apply IZR_lt. vm_compute. reflexivity.
Qed.
Theorem C101_prior_refuted : exists (C : @econf nat bool) (M : @mconf nat bool) n x kids,
  0 < mtemp M /\ mprior M <> None /\
  ments_backup_d Bool.eqb (scl_conf 2 C) (scl_mconf 2 M) (scl_d 2 n) (scl_m 2 x) (scl_dkids (scl_cm 2) kids) <>
  omap (scl_m 2) (ments_backup_d Bool.eqb C M n x kids).
Proof.
  exists prior_conf, prior_ex, (new_dnode prior_conf 0%nat 0 0), (mkMm 1 0 0), [(true, (new_cnode 0%nat true 1 0, mkCm 1 0))].
  split; [cbn; lra|]. split; [discriminate|].
  assert (LM : Rleb log_max_arg 0 = false).
  { unfold Rleb, log_max_arg. destruct (Rle_dec _ _) as [H|]; auto. apply (le_IZR _ 0) in H. exfalso. revert H. apply Zlt_not_le. reflexivity. }
  assert (LL : Rltb log_min_arg 0 = false).
  { unfold Rltb, log_min_arg. destruct (Rlt_dec _ _) as [H|]; auto. exfalso. apply (Rlt_asym _ _ H). unfold Rdiv. rewrite Rmult_1_l. apply Rinv_0_lt_compat, (IZR_lt 0). reflexivity. }
  assert (W : forall t, 0 < t -> ments_weights Bool.eqb t [(true, 0); (false, -32)] = ([(true, exp 0); (false, exp (- 32 / t))], 1 + exp (- 32 / t), 0)).
  { intros t Ht. unfold ments_weights, norm_term. cbn [fold_left snd]. replace (0 / t) with 0 by (unfold Rdiv; ring). change 0 with (IZR 0) at 2. rewrite (low5 0) by lia.
    assert (E : Rltb 0 (-32 / t) = false).
    { unfold Rltb. destruct (Rlt_dec _ _) as [H|]; auto. exfalso. assert (-32 / t < 0); [|lra]. unfold Rdiv. pose proof (Rinv_0_lt_compat t Ht). lra. }
    rewrite E. cbv zeta. unfold weight_loop. cbn [fold_left fst snd mput Bool.eqb]. replace (0 / t - 0) with 0 by (unfold Rdiv; ring). replace (-32 / t - 0) with (-32 / t) by ring.
    rewrite exp_0. do 2 f_equal. ring. }
  unfold ments_backup_d. cbn [acts scl_conf prior_conf dstate scl_d new_dnode].
  assert (Q : all_q (ments_q Bool.eqb prior_ex (new_dnode prior_conf 0%nat 0 0) (mkMm 1 0 0) [(true, (new_cnode 0%nat true 1 0, mkCm 1 0))]) [true; false] = Ok [(true, 0); (false, -32)]).
  { cbn. unfold log_weight. rewrite LM, LL. do 2 f_equal; [f_equal; ring|]. do 2 f_equal. ring. }
  assert (Q' : all_q (ments_q Bool.eqb (scl_mconf 2 prior_ex) (scl_d 2 (new_dnode prior_conf 0%nat 0 0)) (scl_m 2 (mkMm 1 0 0)) (scl_dkids (scl_cm 2) [(true, (new_cnode 0%nat true 1 0, mkCm 1 0))]))
    [true; false] = Ok [(true, 0); (false, -32)]).
  { cbn. unfold log_weight. rewrite LM, LL. do 2 f_equal; [f_equal; ring|]. do 2 f_equal. ring. }
  unfold new_dnode in Q, Q' |- *. cbn [heuristic prior_conf is_sink acts init_visits] in Q, Q' |- *. rewrite Q, Q'. cbn [bind].
  unfold ments_temp, scl_mconf. cbn [mdecay prior_ex mtemp]. rewrite !W by lra. cbn [omap]. unfold scl_m, soft_value, ments_temp. cbn [m_nb m_soft m_off mdecay mtemp].
  intros E. injection E as E.
  assert (P : ln (1 + exp (-32 / (2 * 1))) = ln (1 + exp (-32 / 1))) by (unfold opp_coeff in E; cbn in E; lra).
  assert (P2 : exp (-32 / 1) < exp (-32 / (2 * 1))) by (apply exp_increasing; lra).
  pose proof (exp_pos (-32 / 1)). pose proof (exp_pos (-32 / (2 * 1))). apply ln_inv in P; lra.
Qed.

Print Assumptions C101_uct_search.
Print Assumptions C101_uct_recommends.
Print Assumptions C101_ments_node.
Print Assumptions C101_ments_recommends.
Print Assumptions C101_ments_search.
Print Assumptions C101_dbments_node.
Print Assumptions C101_dbments_recommends.
Print Assumptions C101_dbments_search.
Print Assumptions C101_dents_node.
Print Assumptions C101_dents_recommends.
Print Assumptions C101_dents_search.
Print Assumptions C101_est_node.
Print Assumptions C101_est_search.
Print Assumptions C101_rents_node.
Print Assumptions C101_rents_search.
Print Assumptions C101_tents_node.
Print Assumptions C101_tents_search.
Print Assumptions C101_prior_refuted.

(** ** Examples *)
(** The walks of the other examples: the search of seven MENTS trials on two threads looks the same in a unit a thousand times
    smaller; for UCT, with a bias of 3. *)
Definition uct_fix : @uconf nat bool :=
  mkU 3 2 true 0 None true uct_term (fun s _ => [(s, 1/2); (Datatypes.S s, 1/2)]) (fun V m => rev m).
Example C101_witness : 0 < 1000 /\ mprior (ments_ex 100) = None /\ ubias uct_fix <> -1 /\ 1000 * ubias uct_fix <> -1 /\ keyed (uorder uct_fix) /\
  keyed (morder (ments_ex 100)) /\ uct_ok uct_ex_conf uct_fix /\ sane uct_ex_conf uct_fix 5 /\ (IZR (max_depth uct_ex_conf) + 1) * (1000 * 5) <= - dbl_lowest.
Proof.
  assert (K : forall A, keyed (fun V (m : list (A * V)) => rev m)) by (intros A V W f m; symmetry; apply map_rev).
  split; [lra|]. split; [reflexivity|]. split; [cbn; lra|]. split; [cbn; lra|]. split; [exact (K bool)|]. split; [exact (K bool)|].
  split; [exact (uct_ok_witness 0)|]. split.
  - destruct (uct_sane_witness 0) as (H1 & H2 & H3 & H4 & H5 & H6 & H7 & H8 & _ & H10). repeat (split; [assumption|]). split; [right; cbn; lra|exact H10].
  - cbn [max_depth uct_ex_conf]. unfold dbl_lowest. rewrite Ropp_involutive. rewrite <- plus_IZR, <- !mult_IZR. apply IZR_le. vm_compute. discriminate.
Qed.
