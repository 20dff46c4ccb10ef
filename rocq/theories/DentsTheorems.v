(** Property theorems about searches with DB-MENTS, DENTS and EST: C21 and C36 (for these), C39 (in searches), C71, C72, C73. *)
From Coq Require Import List ZArith Bool Reals Lia Lra Permutation.
From Verif Require Import QuietSpec AlgoFinish Base BaseProofs NumOps RLemmas HelperModel HelperSpec EngineModel EngineSpec EngineTheorems MapModel
  PickSpec AlgoModel AlgoTheorems AlgoSafe UctModel UctSpec UctTheorems MentsModel SoftSpec SoftProofs MentsSpec MentsPolicy MentsRun SoftTheorems RecSpec
  MentsTheorems DentsSpec DpRun FamilyRun DbRun DentsRun DentsResults DentsNan.
Import ListNotations.
Open Scope R_scope.

Section Theorems.
Context {S A : Type}.
Variable seqb : S -> S -> bool.
Variable aeqb : A -> A -> bool.
Hypothesis seqb_ok : decides seqb.
Hypothesis aeqb_ok : decides aeqb.
Variable C : @econf S A.
Variable M : @mconf S A.
Notation dnode := (@dnode S A).
Notation cnode := (@cnode S A).
Notation db := (dbments aeqb C M).
Notation es := (est aeqb C M).
Notation de := (dents aeqb C M).
Notation areach := (areach seqb aeqb C).

(** ** C36 for the relatives *)
(** Selection samples the search policy for the action values: soft values (DB-MENTS), value estimates (EST), or
    estimates plus the entropy below, weighted with the value temperature (DENTS). *)
Theorem C36_dbments : forall n (x : mmem * vmem) (kids : list (A * (cnode * (cmem * vmem)))), policy_sane C M n ->
  exists q m, (forall a, In a (acts C (dstate n)) -> q_of M (fun y => c_soft (fst y)) n (m_off (fst x)) kids a (q a)) /\
    search_policy aeqb C M n q m /\
    forall cx g, select db n x kids cx g = bind (sample_actions M (Some m) g) (fun '(a, g1) => Ok (a, cx, g1)).
Proof. exact (C36_dbments' aeqb aeqb_ok C M). Qed.
Theorem C36_est : forall n (x : dmem) (kids : list (A * (cnode * dcmem))), policy_sane C M n ->
  exists q m, (forall a, In a (acts C (dstate n)) -> q_of M (estimate M) n (d_off x) kids a (q a)) /\
    search_policy aeqb C M n q m /\
    forall cx g, select es n x kids cx g = bind (sample_actions M (Some m) g) (fun '(a, g1) => Ok (a, cx, g1)).
Proof. exact (C36_est' aeqb aeqb_ok C M). Qed.
Theorem C36_dents : forall n (x : dmem) (kids : list (A * (cnode * dcmem))), policy_sane C M n ->
  (forall a c y, In (a, (c, y)) kids -> ec_sub (dc_ent y) <> None) ->
  exists q m, (forall a, In a (acts C (dstate n)) ->
      q_of M (fun y => estimate M y + value_temp M n * entropy_below y) n (d_off x) kids a (q a)) /\
    search_policy aeqb C M n q m /\
    forall cx g, select de n x kids cx g = bind (sample_actions M (Some m) g) (fun '(a, g1) => Ok (a, cx, g1)).
Proof. exact (C36_dents' aeqb aeqb_ok C M). Qed.

(** ** C72 *)
(** Without dynamic programming values, the estimate of a node is at every moment of every search the mean of the
    returns it was backed up with; at decision nodes the heuristic value counts once more. *)
Theorem C72_dents_means : muse_dp M = false -> forall n g s, areach de n g s ->
  (forall d node x, nth_error (dh (mem (base s))) d = Some node -> nth_error (xds s) d = Some x ->
     is_mean 1 (dheur node) (returns_d d (etrace (base s))) (v_nb (d_emp x)) (v_val (d_emp x))) /\
  (forall c x, nth_error (xcs s) c = Some x -> is_mean 0 0 (returns_c c (etrace (base s))) (v_nb (dc_emp x)) (v_val (dc_emp x))).
Proof. exact (fun U => emp_means seqb aeqb seqb_ok aeqb_ok C de d_emp dc_emp (dents_emp aeqb C M U)). Qed.
Theorem C72_est_means : muse_dp M = false -> forall n g s, areach es n g s ->
  (forall d node x, nth_error (dh (mem (base s))) d = Some node -> nth_error (xds s) d = Some x ->
     is_mean 1 (dheur node) (returns_d d (etrace (base s))) (v_nb (d_emp x)) (v_val (d_emp x))) /\
  (forall c x, nth_error (xcs s) c = Some x -> is_mean 0 0 (returns_c c (etrace (base s))) (v_nb (dc_emp x)) (v_val (dc_emp x))).
Proof. exact (fun U => emp_means seqb aeqb seqb_ok aeqb_ok C es d_emp dc_emp (est_emp aeqb C M U)). Qed.

(** Rewards and heuristic values of size at most [B] keep these estimates within (max_depth + 1) * B. *)
Section Small.
Variable B : R.
Hypothesis Rew : forall s a o, Rabs (rwd C s a o) <= B.
Hypothesis Heu : forall h s, heuristic C = Some h -> Rabs (h s) <= B.
Hypothesis Dep : (0 <= max_depth C)%Z.
Hypothesis Pos : 0 <= B.
Theorem C72_dents_bounds : muse_dp M = false -> forall n g s, areach de n g s ->
  (forall d x, nth_error (xds s) d = Some x -> Rabs (v_val (d_emp x)) <= (IZR (max_depth C) + 1) * B) /\
  (forall c x, nth_error (xcs s) c = Some x -> Rabs (v_val (dc_emp x)) <= (IZR (max_depth C) + 1) * B).
Proof. exact (fun U => emp_bounds seqb aeqb seqb_ok aeqb_ok C de d_emp dc_emp (dents_emp aeqb C M U) B Rew Heu Dep Pos). Qed.
Theorem C72_est_bounds : muse_dp M = false -> forall n g s, areach es n g s ->
  (forall d x, nth_error (xds s) d = Some x -> Rabs (v_val (d_emp x)) <= (IZR (max_depth C) + 1) * B) /\
  (forall c x, nth_error (xcs s) c = Some x -> Rabs (v_val (dc_emp x)) <= (IZR (max_depth C) + 1) * B).
Proof. exact (fun U => emp_bounds seqb aeqb seqb_ok aeqb_ok C es d_emp dc_emp (est_emp aeqb C M U) B Rew Heu Dep Pos). Qed.
End Small.

Section Sane.
Hypothesis Mok : ments_ok C M.
Hypothesis Env : env_ok C M.

(** ** C21 for the relatives *)
(** The recommendation is a most visited child or, by value, a child of best value among those with enough backups
    (among all if there are none); any valid action at a node without children. Each of these is equally likely. *)
Section Recommend.
Variables (n : nat) (g : rng R) (d : nat) (node : dnode).
Hypothesis Ns : is_sink C (dstate node) = false.
Section Dp.
Variables hl hu rl ru : R.
Hypothesis Rg : range_ok C M hl hu rl ru.
Hypothesis Lo : dbl_lowest <= least_left C hl rl 0.
Hypothesis Hi : most_left C hu ru 0 <= - dbl_lowest.
Theorem C21_dbments_recommendation : forall s, areach db n g s -> nth_error (dh (mem (base s))) d = Some node ->
  picks (dbments_recommend aeqb C M node (dview s node))
    (if mmost_visited M then most_visited (acts C (dstate node)) (dview s node)
     else best_by_value C M node (members snd (dview s node))).
Proof.
  exact (fun s R Hd => recommend_in_search seqb aeqb seqb_ok aeqb_ok C M db snd n g s d node Mok Env R Hd Ns
    (dp_small seqb aeqb seqb_ok aeqb_ok C M Env hl hu rl ru Rg db snd snd (dbments_part aeqb C M) Lo Hi n g s R)).
Qed.
Theorem C21_dents_recommendation : forall s, muse_dp M = true -> areach de n g s -> nth_error (dh (mem (base s))) d = Some node ->
  picks (dents_recommend aeqb C M node (dview s node))
    (if mmost_visited M then most_visited (acts C (dstate node)) (dview s node)
     else best_by_value C M node (members dc_dp (dview s node))).
Proof.
  intros s U R Hd. unfold dents_recommend. rewrite U.
  exact (recommend_in_search seqb aeqb seqb_ok aeqb_ok C M de dc_dp n g s d node Mok Env R Hd Ns
    (dp_small seqb aeqb seqb_ok aeqb_ok C M Env hl hu rl ru Rg de d_dp dc_dp (dents_part aeqb C M U) Lo Hi n g s R)).
Qed.
Theorem C21_est_recommendation : forall s, muse_dp M = true -> areach es n g s -> nth_error (dh (mem (base s))) d = Some node ->
  picks (dents_recommend aeqb C M node (dview s node))
    (if mmost_visited M then most_visited (acts C (dstate node)) (dview s node)
     else best_by_value C M node (members dc_dp (dview s node))).
Proof.
  intros s U R Hd. unfold dents_recommend. rewrite U.
  exact (recommend_in_search seqb aeqb seqb_ok aeqb_ok C M es dc_dp n g s d node Mok Env R Hd Ns
    (dp_small seqb aeqb seqb_ok aeqb_ok C M Env hl hu rl ru Rg es d_dp dc_dp (est_part aeqb C M U) Lo Hi n g s R)).
Qed.
End Dp.
Section Emp.
Variable B : R.
Hypothesis Rew : forall s a o, Rabs (rwd C s a o) <= B.
Hypothesis Heu : forall h s, heuristic C = Some h -> Rabs (h s) <= B.
Hypothesis Pos : 0 <= B.
Hypothesis Lim : (IZR (max_depth C) + 1) * B <= - dbl_lowest.
Theorem C21_dents_recommendation_mean : forall s, muse_dp M = false -> areach de n g s -> nth_error (dh (mem (base s))) d = Some node ->
  picks (dents_recommend aeqb C M node (dview s node))
    (if mmost_visited M then most_visited (acts C (dstate node)) (dview s node)
     else best_by_value C M node (members dc_emp (dview s node))).
Proof.
  intros s U R Hd. unfold dents_recommend. rewrite U.
  exact (recommend_in_search seqb aeqb seqb_ok aeqb_ok C M de dc_emp n g s d node Mok Env R Hd Ns
    (fun c y Q => Rle_trans _ _ _ (proj2 (C72_dents_bounds B Rew Heu (eo_depth _ _ Env) Pos U n g s R) c y Q) Lim)).
Qed.
Theorem C21_est_recommendation_mean : forall s, muse_dp M = false -> areach es n g s -> nth_error (dh (mem (base s))) d = Some node ->
  picks (dents_recommend aeqb C M node (dview s node))
    (if mmost_visited M then most_visited (acts C (dstate node)) (dview s node)
     else best_by_value C M node (members dc_emp (dview s node))).
Proof.
  intros s U R Hd. unfold dents_recommend. rewrite U.
  exact (recommend_in_search seqb aeqb seqb_ok aeqb_ok C M es dc_emp n g s d node Mok Env R Hd Ns
    (fun c y Q => Rle_trans _ _ _ (proj2 (C72_est_bounds B Rew Heu (eo_depth _ _ Env) Pos U n g s R) c y Q) Lim)).
Qed.
End Emp.
End Recommend.

(** ** C39 in searches *)
(** Dynamic programming values never leave the range of what can still be collected below a node. *)
Section Range.
Variables hl hu rl ru : R.
Hypothesis Rg : range_ok C M hl hu rl ru.
Theorem C39_dbments_range : forall n g s, areach db n g s ->
  (forall d node x, nth_error (dh (mem (base s))) d = Some node -> nth_error (xds s) d = Some x ->
     (1 <= v_nb (snd x))%Z /\ least_left C hl rl (ddepth node) <= v_val (snd x) <= most_left C hu ru (ddepth node)) /\
  (forall c node x, nth_error (ch (mem (base s))) c = Some node -> nth_error (xcs s) c = Some x ->
     (0 <= v_nb (snd x))%Z /\ least_left C hl rl (cdepth node) <= v_val (snd x) <= most_left C hu ru (cdepth node)).
Proof. exact (dp_ranges seqb aeqb seqb_ok aeqb_ok C M Env hl hu rl ru Rg db snd snd (dbments_part aeqb C M)). Qed.
Theorem C39_dents_range : muse_dp M = true -> forall n g s, areach de n g s ->
  (forall d node x, nth_error (dh (mem (base s))) d = Some node -> nth_error (xds s) d = Some x ->
     (1 <= v_nb (d_dp x))%Z /\ least_left C hl rl (ddepth node) <= v_val (d_dp x) <= most_left C hu ru (ddepth node)) /\
  (forall c node x, nth_error (ch (mem (base s))) c = Some node -> nth_error (xcs s) c = Some x ->
     (0 <= v_nb (dc_dp x))%Z /\ least_left C hl rl (cdepth node) <= v_val (dc_dp x) <= most_left C hu ru (cdepth node)).
Proof. exact (fun U => dp_ranges seqb aeqb seqb_ok aeqb_ok C M Env hl hu rl ru Rg de d_dp dc_dp (dents_part aeqb C M U)). Qed.
Theorem C39_est_range : muse_dp M = true -> forall n g s, areach es n g s ->
  (forall d node x, nth_error (dh (mem (base s))) d = Some node -> nth_error (xds s) d = Some x ->
     (1 <= v_nb (d_dp x))%Z /\ least_left C hl rl (ddepth node) <= v_val (d_dp x) <= most_left C hu ru (ddepth node)) /\
  (forall c node x, nth_error (ch (mem (base s))) c = Some node -> nth_error (xcs s) c = Some x ->
     (0 <= v_nb (dc_dp x))%Z /\ least_left C hl rl (cdepth node) <= v_val (dc_dp x) <= most_left C hu ru (cdepth node)).
Proof. exact (fun U => dp_ranges seqb aeqb seqb_ok aeqb_ok C M Env hl hu rl ru Rg es d_dp dc_dp (est_part aeqb C M U)). Qed.
End Range.

(** ** C71 *)
Hypothesis Pr : prior_ok C M.
Hypothesis Ex : explore_ok M.
Variable N : R.
Hypothesis Few : few_actions C N.

(** DB-MENTS and EST: the only way to fail is a draw on the probability lost with dropped entries, at a node with
    next to no exploration; searches that explore do not fail while nodes have at most V visits; and any number of
    trials completes if no draw is within N * 1e-16 of one. *)
Theorem C71_dbments_failures : forall n g s, good_ints g -> good_reals g -> areach db n g s -> afail s <> None ->
  exists d node, nth_error (dh (mem (base s))) d = Some node /\ is_sink C (dstate node) = false /\
    1 - INR (length (acts C (dstate node))) / IZR (10 ^ 16) <= gr (rg s) (nr (rg s)) /\
    explore_rate M (visit_d node) < INR (length (acts C (dstate node))) / IZR (10 ^ 16).
Proof.
  exact (fam_failures seqb aeqb seqb_ok aeqb_ok C M Env Pr Ex N Few db _ _ _ _ (db_rules aeqb C M Env) (fun n x P => proj1 P)
    (db_safe aeqb aeqb_ok C M Mok Env Pr Ex)).
Qed.
Theorem C71_dbments_exploring : forall e V, 0 < e -> e <= meps M -> (mroot_eps M <= 0 \/ e <= mroot_eps M) -> (0 <= V)%Z ->
  N * ln (IZR V + 2) / IZR (10 ^ 16) <= e -> N / IZR (10 ^ 16) <= mmax_explore M ->
  forall n g s, good_ints g -> good_reals g -> areach db n g s ->
  (forall d node, nth_error (dh (mem (base s))) d = Some node -> (dvisits node <= V)%Z) -> afail s = None.
Proof.
  exact (fam_explores seqb aeqb seqb_ok aeqb_ok C M Env Pr Ex N Few db _ _ _ _ (db_rules aeqb C M Env) (fun n x P => proj1 P)
    (db_safe aeqb aeqb_ok C M Mok Env Pr Ex)).
Qed.
Theorem C71_dbments_completes : forall n g, good_ints g -> good_reals g -> (forall i, gr g i < 1 - N / IZR (10 ^ 16)) -> (0 < n)%nat ->
  forall k, exists s, areach db n g s /\ quiet (base s) /\ count is_done (etrace (base s)) = Z.of_nat k.
Proof.
  exact (fam_completes seqb aeqb seqb_ok aeqb_ok C M Env Pr Ex N Few db _ _ _ _ (db_rules aeqb C M Env) (fun n x P => proj1 P)
    (db_safe aeqb aeqb_ok C M Mok Env Pr Ex) 2 (dbments_looks S A aeqb C M)).
Qed.
Theorem C71_est_failures : forall n g s, good_ints g -> good_reals g -> areach es n g s -> afail s <> None ->
  exists d node, nth_error (dh (mem (base s))) d = Some node /\ is_sink C (dstate node) = false /\
    1 - INR (length (acts C (dstate node))) / IZR (10 ^ 16) <= gr (rg s) (nr (rg s)) /\
    explore_rate M (visit_d node) < INR (length (acts C (dstate node))) / IZR (10 ^ 16).
Proof.
  exact (fam_failures seqb aeqb seqb_ok aeqb_ok C M Env Pr Ex N Few es _ _ _ _ (es_rules aeqb C M Env) (fun n x P => proj1 P)
    (es_safe aeqb aeqb_ok C M Mok Env Pr Ex)).
Qed.
Theorem C71_est_exploring : forall e V, 0 < e -> e <= meps M -> (mroot_eps M <= 0 \/ e <= mroot_eps M) -> (0 <= V)%Z ->
  N * ln (IZR V + 2) / IZR (10 ^ 16) <= e -> N / IZR (10 ^ 16) <= mmax_explore M ->
  forall n g s, good_ints g -> good_reals g -> areach es n g s ->
  (forall d node, nth_error (dh (mem (base s))) d = Some node -> (dvisits node <= V)%Z) -> afail s = None.
Proof.
  exact (fam_explores seqb aeqb seqb_ok aeqb_ok C M Env Pr Ex N Few es _ _ _ _ (es_rules aeqb C M Env) (fun n x P => proj1 P)
    (es_safe aeqb aeqb_ok C M Mok Env Pr Ex)).
Qed.
Theorem C71_est_completes : forall n g, good_ints g -> good_reals g -> (forall i, gr g i < 1 - N / IZR (10 ^ 16)) -> (0 < n)%nat ->
  forall k, exists s, areach es n g s /\ quiet (base s) /\ count is_done (etrace (base s)) = Z.of_nat k.
Proof.
  exact (fam_completes seqb aeqb seqb_ok aeqb_ok C M Env Pr Ex N Few es _ _ _ _ (es_rules aeqb C M Env) (fun n x P => proj1 P)
    (es_safe aeqb aeqb_ok C M Mok Env Pr Ex) 0 (one_look_at_most _ _ es (fun _ => conj eq_refl eq_refl))).
Qed.

(** DENTS needs in addition that the exploration share of unvisited nodes is defined: a positive epsilon or
    initial visits. *)
Section Fresh.
Hypothesis Fr : fresh_known C M.
Theorem C71_dents_failures_partial : forall n g s, good_ints g -> good_reals g -> areach de n g s -> afail s <> None ->
  exists d node, nth_error (dh (mem (base s))) d = Some node /\ is_sink C (dstate node) = false /\
    1 - INR (length (acts C (dstate node))) / IZR (10 ^ 16) <= gr (rg s) (nr (rg s)) /\
    explore_rate M (visit_d node) < INR (length (acts C (dstate node))) / IZR (10 ^ 16).
Proof.
  exact (fam_failures seqb aeqb seqb_ok aeqb_ok C M Env Pr Ex N Few de _ _ _ _ (de_rules aeqb aeqb_ok C M Mok Env Pr Ex N Few Fr)
    (fun n x P => proj1 (proj1 (proj1 P))) (de_safe aeqb aeqb_ok C M Mok Env Pr Ex N Few)).
Qed.
Theorem C71_dents_exploring : forall e V, 0 < e -> e <= meps M -> (mroot_eps M <= 0 \/ e <= mroot_eps M) -> (0 <= V)%Z ->
  N * ln (IZR V + 2) / IZR (10 ^ 16) <= e -> N / IZR (10 ^ 16) <= mmax_explore M ->
  forall n g s, good_ints g -> good_reals g -> areach de n g s ->
  (forall d node, nth_error (dh (mem (base s))) d = Some node -> (dvisits node <= V)%Z) -> afail s = None.
Proof.
  exact (fam_explores seqb aeqb seqb_ok aeqb_ok C M Env Pr Ex N Few de _ _ _ _ (de_rules aeqb aeqb_ok C M Mok Env Pr Ex N Few Fr)
    (fun n x P => proj1 (proj1 (proj1 P))) (de_safe aeqb aeqb_ok C M Mok Env Pr Ex N Few)).
Qed.
Theorem C71_dents_completes : forall n g, good_ints g -> good_reals g -> (forall i, gr g i < 1 - N / IZR (10 ^ 16)) -> (0 < n)%nat ->
  forall k, exists s, areach de n g s /\ quiet (base s) /\ count is_done (etrace (base s)) = Z.of_nat k.
Proof.
  exact (fam_completes seqb aeqb seqb_ok aeqb_ok C M Env Pr Ex N Few de _ _ _ _ (de_rules aeqb aeqb_ok C M Mok Env Pr Ex N Few Fr)
    (fun n x P => proj1 (proj1 (proj1 P))) (de_safe aeqb aeqb_ok C M Mok Env Pr Ex N Few) 3 (dents_looks S A aeqb C M)).
Qed.

(** ** C73 *)
(** In DENTS searches all entropies are defined (never NaN) and bounded, and without an opponent not negative. *)
Theorem C73_entropies_partial : forall n g s, areach de n g s ->
  (forall d node x, nth_error (dh (mem (base s))) d = Some node -> nth_error (xds s) d = Some x ->
     (exists h, e_local (d_ent x) = Some h /\ 0 <= h <= entropy_cap N) /\
     exists h, e_sub (d_ent x) = Some h /\ Rabs h <= entropy_left C N (ddepth node) /\ (mtwo M = false -> 0 <= h)) /\
  (forall c node x, nth_error (ch (mem (base s))) c = Some node -> nth_error (xcs s) c = Some x ->
     exists h, ec_sub (dc_ent x) = Some h /\ Rabs h <= entropy_left C N (cdepth node + 1) /\ (mtwo M = false -> 0 <= h)).
Proof. exact (dents_entropies seqb aeqb seqb_ok aeqb_ok C M Mok Env Pr Ex N Few Fr). Qed.
End Fresh.
End Sane.
End Theorems.

(** Without that condition the entropy of the root is undefined from the start ... *)
Theorem C73_entropies_refuted : ~ forall (S A : Type) (seqb : S -> S -> bool) (aeqb : A -> A -> bool) (C : @econf S A) (M : @mconf S A),
  decides seqb -> decides aeqb -> ments_ok C M -> env_ok C M -> temps_ok M -> prior_ok C M -> explore_ok M ->
  forall n g s d x, good_ints g -> good_reals g -> areach seqb aeqb C (dents aeqb C M) n g s -> nth_error (xds s) d = Some x ->
  e_local (d_ent x) <> None.
Proof.
  intros H. destruct nan_ok as (Mok & Env & Pr & Ex & Few & Tok).
  refine (H _ _ ueqb ueqb nan_conf nan_ments unit_decides unit_decides Mok Env Tok Pr Ex 1%nat g_ex (ainit nan_conf (dents ueqb nan_conf nan_ments) 1 g_ex) 0%nat _ _ _ _ eq_refl _).
  - intros i. cbn. lia.
  - intros i. cbn. lra.
  - exists []. reflexivity.
  - apply (nan_new Datatypes.tt 0 0).
Qed.
(** ... and some searches with reasonable settings throw in their second trial, also if no draw is above 1/2. *)
Theorem C71_dents_refuted : ~ forall (S A : Type) (seqb : S -> S -> bool) (aeqb : A -> A -> bool) (C : @econf S A) (M : @mconf S A),
  decides seqb -> decides aeqb -> ments_ok C M -> env_ok C M -> temps_ok M -> prior_ok C M -> explore_ok M ->
  forall n g s, good_ints g -> good_reals g -> (forall i, gr g i <= 1/2) -> areach seqb aeqb C (dents aeqb C M) n g s ->
  afail s <> Some FThrow.
Proof.
  intros H. destruct nan_ok as (Mok & Env & Pr & Ex & Few & Tok). destruct nan_fails as (s & R & F).
  refine (H _ _ ueqb ueqb nan_conf nan_ments unit_decides unit_decides Mok Env Tok Pr Ex 1%nat g_ex s _ _ _ R F).
  - intros i. cbn. lia.
  - intros i. cbn. lra.
  - intros i. cbn. lra.
Qed.

Print Assumptions C36_dbments.
Print Assumptions C36_est.
Print Assumptions C36_dents.
Print Assumptions C72_dents_means.
Print Assumptions C72_est_means.
Print Assumptions C72_dents_bounds.
Print Assumptions C72_est_bounds.
Print Assumptions C21_dbments_recommendation.
Print Assumptions C21_dents_recommendation.
Print Assumptions C21_est_recommendation.
Print Assumptions C21_dents_recommendation_mean.
Print Assumptions C21_est_recommendation_mean.
Print Assumptions C39_dbments_range.
Print Assumptions C39_dents_range.
Print Assumptions C39_est_range.
Print Assumptions C71_dbments_failures.
Print Assumptions C71_dbments_exploring.
Print Assumptions C71_dbments_completes.
Print Assumptions C71_est_failures.
Print Assumptions C71_est_exploring.
Print Assumptions C71_est_completes.
Print Assumptions C71_dents_failures_partial.
Print Assumptions C71_dents_exploring.
Print Assumptions C71_dents_completes.
Print Assumptions C73_entropies_partial.
Print Assumptions C73_entropies_refuted.
Print Assumptions C71_dents_refuted.

(** ** Examples that meet the hypotheses: the two-player walk of MentsTheorems.v *)
Example dents_settings_witness : forall temp, 0 < temp ->
  fresh_known ments_ex_conf (ments_ex temp) /\ range_ok ments_ex_conf (ments_ex temp) 0 1 0 1 /\
  policy_sane ments_ex_conf (ments_ex temp) (visit_d (new_dnode ments_ex_conf 0%nat 0 0)) /\
  dbl_lowest <= least_left ments_ex_conf 0 0 0 /\ most_left ments_ex_conf 1 1 0 <= - dbl_lowest /\
  (IZR (max_depth ments_ex_conf) + 1) * 1 <= - dbl_lowest.
Proof.
  intros temp Ht. destruct (ments_sane_witness temp Ht) as (Mok & Env & Tok & Pr & Vok & Few & Ex).
  assert (Big : 3 <= - dbl_lowest) by (unfold dbl_lowest; rewrite Ropp_involutive; apply IZR_le; vm_compute; discriminate).
  split; [right; cbn; lra|]. split.
  { constructor; try lra; [intros h s [= <-]; lra|]. intros s [|]; cbn; lra. }
  split.
  { split; [left; cbn; lia|]. split; [intros p [=]|]. split; [exact Ex|]. split; [cbn; lia|]. split; [cbn; lra|]. split.
    - cbn [ments_ex mprior_w]. change (dvisits (visit_d (new_dnode ments_ex_conf 0%nat 0 0))) with 1%Z.
      apply Rle_trans with 0; [lra|]. rewrite <- ln_1. left. apply ln_increasing; lra.
    - split; [apply Env|discriminate]. }
  unfold least_left, most_left. cbn [max_depth ments_ex_conf]. change (2 - 0)%Z with 2%Z. split; [lra|]. split; lra.
Qed.
Lemma g_ex_low : forall i, gr g_ex i < 1 - 2 / IZR (10 ^ 16).
Proof.
  intros i. assert (H : 2 / IZR (10 ^ 16) < 1 / 4).
  { apply Rmult_lt_reg_r with (IZR (10 ^ 16)); [apply IZR_lt; reflexivity|]. unfold Rdiv. rewrite Rmult_assoc, Rinv_l by (apply not_0_IZR; discriminate).
    assert (8 < IZR (10 ^ 16)) by (apply IZR_lt; reflexivity). lra. }
  cbn [g_ex gr]. lra.
Qed.
(** Seven complete trials on two threads for each algorithm. *)
Example dbments_run_witness : exists s,
  areach Nat.eqb Bool.eqb ments_ex_conf (dbments Bool.eqb ments_ex_conf (ments_ex 1)) 2 g_ex s /\ quiet (base s) /\
  count is_done (etrace (base s)) = 7%Z.
Proof.
  assert (Gi : good_ints g_ex) by (intros i; cbn; lia). assert (Gr : good_reals g_ex) by (intros i; cbn; lra).
  destruct (ments_sane_witness 1 ltac:(lra)) as (Mok & Env & Tok & Pr & Vok & Few & Ex).
  exact (C71_dbments_completes Nat.eqb Bool.eqb nat_decides bool_decides _ _ Mok Env Pr Ex 2 Few 2 g_ex Gi Gr g_ex_low ltac:(lia) 7).
Qed.
Example est_run_witness : exists s,
  areach Nat.eqb Bool.eqb ments_ex_conf (est Bool.eqb ments_ex_conf (ments_ex 1)) 2 g_ex s /\ quiet (base s) /\
  count is_done (etrace (base s)) = 7%Z.
Proof.
  assert (Gi : good_ints g_ex) by (intros i; cbn; lia). assert (Gr : good_reals g_ex) by (intros i; cbn; lra).
  destruct (ments_sane_witness 1 ltac:(lra)) as (Mok & Env & Tok & Pr & Vok & Few & Ex).
  exact (C71_est_completes Nat.eqb Bool.eqb nat_decides bool_decides _ _ Mok Env Pr Ex 2 Few 2 g_ex Gi Gr g_ex_low ltac:(lia) 7).
Qed.
Example dents_run_witness : exists s,
  areach Nat.eqb Bool.eqb ments_ex_conf (dents Bool.eqb ments_ex_conf (ments_ex 1)) 2 g_ex s /\ quiet (base s) /\
  count is_done (etrace (base s)) = 7%Z.
Proof.
  assert (Gi : good_ints g_ex) by (intros i; cbn; lia). assert (Gr : good_reals g_ex) by (intros i; cbn; lra).
  destruct (ments_sane_witness 1 ltac:(lra)) as (Mok & Env & Tok & Pr & Vok & Few & Ex).
  destruct (dents_settings_witness 1 ltac:(lra)) as (Fr & _).
  exact (C71_dents_completes Nat.eqb Bool.eqb nat_decides bool_decides _ _ Mok Env Pr Ex 2 Few Fr 2 g_ex Gi Gr g_ex_low ltac:(lia) 7).
Qed.
(** The hypotheses of [C61_looking_trials_finish] and [C61_trials_drain]: DENTS looks at the children at most three times
    before its last look and does not fail here. *)
Example dents_drain_witness : looks_at_most (dents Bool.eqb ments_ex_conf (ments_ex 1)) 3 /\
  forall s, areach Nat.eqb Bool.eqb ments_ex_conf (dents Bool.eqb ments_ex_conf (ments_ex 1)) 2 g_ex s ->
  afail s = None /\ exists ts s', arun Nat.eqb Bool.eqb ments_ex_conf (dents Bool.eqb ments_ex_conf (ments_ex 1)) (map ARun ts) s = Some s' /\ quiet (base s').
Proof.
  assert (Gi : good_ints g_ex) by (intros i; cbn; lia). assert (Gr : good_reals g_ex) by (intros i; cbn; lra).
  destruct (ments_sane_witness 1 ltac:(lra)) as (Mok & Env & Tok & Pr & Vok & Few & Ex).
  destruct (dents_settings_witness 1 ltac:(lra)) as (Fr & _).
  pose proof (fam_low_draws Nat.eqb Bool.eqb nat_decides bool_decides _ _ Env Pr Ex 2 Few _ _ _ _ _ (de_rules _ bool_decides _ _ Mok Env Pr Ex 2 Few Fr)
    (fun n x P => proj1 (proj1 (proj1 P))) (de_safe _ bool_decides _ _ Mok Env Pr Ex 2 Few) 2 g_ex Gi Gr g_ex_low) as NF.
  split; [apply dents_looks|]. intros s R. split; [auto|].
  exact (C61_trials_drain Nat.eqb Bool.eqb nat_decides bool_decides _ _ 2 g_ex 3 (dents_looks _ _ _ _ _) (eo_depth _ _ Env) NF s R).
Qed.
