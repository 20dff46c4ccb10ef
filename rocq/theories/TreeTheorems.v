(** Property theorems: what the values of a search are the values of, C78 and C79. *)
From Coq Require Import List ZArith Bool Reals Lia Lra.
From Verif Require Import Base BaseProofs NumOps HelperModel HelperSpec EngineModel EngineSpec EngineTheorems AlgoModel AlgoTheorems UctModel UctTheorems MentsModel SoftSpec MentsSpec
  RecSpec MentsTheorems DentsSpec PickSpec DpRun DbRun DentsTheorems WeightProofs WeightTheorems QuietResults TentsSpec TentsTheorems TreeSpec TreeProofs TreeResults MixedProofs MixedResults.
Import ListNotations.
Open Scope R_scope.

Section Theorems.
Context {S A : Type}.
Variable seqb : S -> S -> bool.
Variable aeqb : A -> A -> bool.
Hypothesis seqb_ok : decides seqb.
Hypothesis aeqb_ok : decides aeqb.
Variable C : @econf S A.
Variable M : @mconf S A.
Hypothesis NoTT : use_tt C = false.
Hypothesis Env : env_ok C M.
Notation areach := (areach seqb aeqb C).
Notation optimal := (optimal aeqb C M).
Notation worth := (worth aeqb C M).
Notation mixed_optimal := (mixed_optimal aeqb C M).
Notation mixed_worth := (mixed_worth aeqb C M).

Lemma not_sink : forall (G : @algo S A) n g s d node, areach G n g s -> nth_error (dh (mem (base s))) d = Some node -> dkids node <> [] ->
  is_sink C (dstate node) = false.
Proof using seqb_ok aeqb_ok.
  intros G n g s d node R Hd NE.
  exact (inner_not_sink _ _ seqb aeqb C _ d node aeqb_ok (proj1 (C12_well_formed seqb aeqb seqb_ok aeqb_ok C n (base s) (C08_algorithms_run_the_engine _ _ _ _ _ _ _ R))) Hd NE).
Qed.

(** ** C78 *)
(** When no trial is under way the dynamic programming values, all together, are what an optimal plan is worth in the
    tree with the sampled frequencies: DB-MENTS, and DENTS and EST with use_dp_value. *)
Theorem C78_dbments : forall n g s, areach (dbments aeqb C M) n g s -> quiet (base s) ->
  exists p, optimal (mem (base s)) p /\ forall d x, nth_error (xds s) d = Some x -> worth (mem (base s)) p d = v_val (snd x).
Proof.
  exact (dp_tree seqb aeqb seqb_ok aeqb_ok C M NoTT Env (dbments aeqb C M) snd snd (dbments_part aeqb C M)
    (fun x : mmem * vmem => match x with (mkMm _ _ _, mkVm _ _) => eq_refl end) (dbments_dp_counter aeqb C M)).
Qed.
Theorem C78_dents : muse_dp M = true -> forall n g s, areach (dents aeqb C M) n g s -> quiet (base s) ->
  exists p, optimal (mem (base s)) p /\ forall d x, nth_error (xds s) d = Some x -> worth (mem (base s)) p d = v_val (d_dp x).
Proof.
  exact (fun U => dp_tree seqb aeqb seqb_ok aeqb_ok C M NoTT Env (dents aeqb C M) d_dp dc_dp (dents_part aeqb C M U)
    (fun x : dmem => match x with mkDm _ _ _ (mkVm _ _) _ _ => eq_refl end) (dents_dp_counter aeqb C M U)).
Qed.
Theorem C78_est : muse_dp M = true -> forall n g s, areach (est aeqb C M) n g s -> quiet (base s) ->
  exists p, optimal (mem (base s)) p /\ forall d x, nth_error (xds s) d = Some x -> worth (mem (base s)) p d = v_val (d_dp x).
Proof.
  exact (fun U => dp_tree seqb aeqb seqb_ok aeqb_ok C M NoTT Env (est aeqb C M) d_dp dc_dp (est_part aeqb C M U)
    (fun x : dmem => match x with mkDm _ _ _ (mkVm _ _) _ _ => eq_refl end) (est_dp_counter aeqb C M U)).
Qed.
(** All optimal plans are worth the same, so the tree determines the values. *)
Theorem C78_unique : forall (m : @store S A) d n v w, nth_error (dh m) d = Some n ->
  tree_value aeqb C M m d v -> tree_value aeqb C M m d w -> v = w.
Proof. exact (value_unique aeqb C M). Qed.
(** Without an opponent no plan at all does better. *)
Theorem C78_one_player : mtwo M = false -> forall n g s, areach (dbments aeqb C M) n g s -> quiet (base s) ->
  forall q, plays aeqb (mem (base s)) q -> forall d x, nth_error (xds s) d = Some x -> worth (mem (base s)) q d <= v_val (snd x).
Proof. exact (one_player_dp seqb aeqb seqb_ok aeqb_ok C M NoTT Env). Qed.

(** ** C80 *)
(** If every child counts for recommendations and none is made by visits, the recommendation at a node with children,
    when no trial is under way, is a first action of an optimal plan for the tree; all of these are equally likely. *)
Section Recommend.
Hypothesis Mok : ments_ok C M.
Hypothesis ByValue : mmost_visited M = false.
Hypothesis All : (mthreshold M <= 1)%Z.
Variables hl hu rl ru : R.
Hypothesis Rg : range_ok C M hl hu rl ru.
Hypothesis Lo : dbl_lowest <= least_left C hl rl 0.
Hypothesis Hi : most_left C hu ru 0 <= - dbl_lowest.
Notation first m d := (fun a => exists p, optimal m p /\ p d = Some a).
Theorem C80_dbments : forall n g s d node, areach (dbments aeqb C M) n g s -> quiet (base s) ->
  nth_error (dh (mem (base s))) d = Some node -> dkids node <> [] ->
  picks (dbments_recommend aeqb C M node (dview s node)) (first (mem (base s)) d).
Proof.
  intros n g s d node R Q Hd NE.
  refine (picks_iff _ _ _ _ _ (fun a => dp_first seqb aeqb seqb_ok aeqb_ok C M NoTT Env (dbments aeqb C M) snd snd (dbments_part aeqb C M)
    (fun x : mmem * vmem => match x with (mkMm _ _ _, mkVm _ _) => eq_refl end) (dbments_dp_counter aeqb C M) All n g s d node a R Q Hd NE) _).
  pose proof (C21_dbments_recommendation seqb aeqb seqb_ok aeqb_ok C M Mok Env n g d node
    (not_sink (dbments aeqb C M) n g s d node R Hd NE) hl hu rl ru Rg Lo Hi s R Hd) as K. rewrite ByValue in K. exact K.
Qed.
Theorem C80_dents : muse_dp M = true -> forall n g s d node, areach (dents aeqb C M) n g s -> quiet (base s) ->
  nth_error (dh (mem (base s))) d = Some node -> dkids node <> [] ->
  picks (dents_recommend aeqb C M node (dview s node)) (first (mem (base s)) d).
Proof.
  intros U n g s d node R Q Hd NE.
  refine (picks_iff _ _ _ _ _ (fun a => dp_first seqb aeqb seqb_ok aeqb_ok C M NoTT Env (dents aeqb C M) d_dp dc_dp (dents_part aeqb C M U)
    (fun x : dmem => match x with mkDm _ _ _ (mkVm _ _) _ _ => eq_refl end) (dents_dp_counter aeqb C M U) All n g s d node a R Q Hd NE) _).
  pose proof (C21_dents_recommendation seqb aeqb seqb_ok aeqb_ok C M Mok Env n g d node
    (not_sink (dents aeqb C M) n g s d node R Hd NE) hl hu rl ru Rg Lo Hi s U R Hd) as K. rewrite ByValue in K. exact K.
Qed.
Theorem C80_est : muse_dp M = true -> forall n g s d node, areach (est aeqb C M) n g s -> quiet (base s) ->
  nth_error (dh (mem (base s))) d = Some node -> dkids node <> [] ->
  picks (dents_recommend aeqb C M node (dview s node)) (first (mem (base s)) d).
Proof.
  intros U n g s d node R Q Hd NE.
  refine (picks_iff _ _ _ _ _ (fun a => dp_first seqb aeqb seqb_ok aeqb_ok C M NoTT Env (est aeqb C M) d_dp dc_dp (est_part aeqb C M U)
    (fun x : dmem => match x with mkDm _ _ _ (mkVm _ _) _ _ => eq_refl end) (est_dp_counter aeqb C M U) All n g s d node a R Q Hd NE) _).
  pose proof (C21_est_recommendation seqb aeqb seqb_ok aeqb_ok C M Mok Env n g d node
    (not_sink (est aeqb C M) n g s d node R Hd NE) hl hu rl ru Rg Lo Hi s U R Hd) as K. rewrite ByValue in K. exact K.
Qed.
End Recommend.

(** ** C79 *)
(** At a fixed temperature the soft values of MENTS and DB-MENTS are what an optimal mixed plan is worth in that tree if
    whoever moves is paid the temperature times the entropy of their mixture. *)
Section Fixed.
Hypothesis Pok : prior_ok C M.
Hypothesis Tp : 0 < mtemp M.
Hypothesis Dn : mdecay M = None.
Notation off := (fun k => m_off (ments_new_d C M k)).
Theorem C79_ments : forall n g s, areach (ments aeqb C M) n g s -> quiet (base s) ->
  exists p, mixed_optimal (mem (base s)) (entropy_bonus (mtemp M)) off p /\
    forall d x, nth_error (xds s) d = Some x -> mixed_worth (mem (base s)) (entropy_bonus (mtemp M)) off p d = m_soft x.
Proof.
  exact (soft_tree seqb aeqb seqb_ok aeqb_ok C M NoTT Env (proj1 Pok) Tp Dn (ments aeqb C M) _ _ (ments_soft aeqb C M) (ments_counter aeqb C M)).
Qed.
Theorem C79_dbments : forall n g s, areach (dbments aeqb C M) n g s -> quiet (base s) ->
  exists p, mixed_optimal (mem (base s)) (entropy_bonus (mtemp M)) off p /\
    forall d x, nth_error (xds s) d = Some x -> mixed_worth (mem (base s)) (entropy_bonus (mtemp M)) off p d = m_soft (fst x).
Proof.
  exact (soft_tree seqb aeqb seqb_ok aeqb_ok C M NoTT Env (proj1 Pok) Tp Dn (dbments aeqb C M) _ _ (dbments_soft aeqb C M) (dbments_counter aeqb C M)).
Qed.
(** Those of TENTS, if they are paid the sparse entropy instead. *)
Theorem C79_tents : forall n g s, areach (tents aeqb C M) n g s -> quiet (base s) ->
  exists p, mixed_optimal (mem (base s)) (sparse_bonus (mtemp M)) off p /\
    forall d x, nth_error (xds s) d = Some x -> mixed_worth (mem (base s)) (sparse_bonus (mtemp M)) off p d = m_soft (t_m (x : @tmem A)).
Proof. exact (tents_tree seqb aeqb seqb_ok aeqb_ok C M NoTT Env (proj1 Pok) Tp Dn Pok). Qed.
End Fixed.
Theorem C79_unique : forall (m : @store S A) bonus offset d n v w, nth_error (dh m) d = Some n ->
  mixed_value aeqb C M m bonus offset d v -> mixed_value aeqb C M m bonus offset d w -> v = w.
Proof. exact (mixed_value_unique aeqb C M). Qed.
(** The offset is zero unless there is a prior and its pseudo values are shifted. *)
Theorem C79_offset : (mprior M = None \/ mshift M = false) -> forall n : @dnode S A, m_off (ments_new_d C M n) = 0.
Proof. intros [E|E] n; cbn; rewrite E; [reflexivity|]. destruct (mprior M); reflexivity. Qed.
End Theorems.

Print Assumptions C78_dbments.
Print Assumptions C78_dents.
Print Assumptions C78_est.
Print Assumptions C78_unique.
Print Assumptions C78_one_player.
Print Assumptions C80_dbments.
Print Assumptions C80_dents.
Print Assumptions C80_est.
Print Assumptions C79_ments.
Print Assumptions C79_dbments.
Print Assumptions C79_tents.
Print Assumptions C79_unique.
Print Assumptions C79_offset.

(** ** Examples that meet the hypotheses *)
(** Searches of two threads with seven trials whose root has been expanded: with an opponent ... *)
Example C78_witness : exists s root a c,
  areach Nat.eqb Bool.eqb ments_ex_conf (dbments Bool.eqb ments_ex_conf (ments_ex 1)) 2 g_ex s /\ quiet (base s) /\
  nth_error (dh (mem (base s))) 0 = Some root /\ dvisits root = 7%Z /\ In (a, c) (dkids root) /\ mtwo (ments_ex 1) = true.
Proof.
  destruct dbments_run_witness as (s & R & Q & K).
  pose proof (C08_algorithms_run_the_engine _ _ _ _ _ _ _ R) as E.
  destruct (C10_idle Nat.eqb Bool.eqb nat_decides bool_decides _ _ _ E Q) as (_ & (root & Hr & Hv) & _).
  pose proof (proj1 (C12_well_formed Nat.eqb Bool.eqb nat_decides bool_decides _ _ _ E)) as W.
  destruct (wf_root _ _ _ _ W) as (root' & Hr' & Hs & Hd & _). assert (root' = root) by congruence. subst root'.
  destruct (first_path Nat.eqb Bool.eqb nat_decides bool_decides ments_ex_conf 2 (base s) root E Q ltac:(rewrite K; reflexivity) ltac:(now right) Hr) as (a & c & o & d & (n & Hn & L) & _).
  { unfold is_leaf. rewrite Hs, Hd. reflexivity. }
  assert (n = root) by congruence. subst n. exists s, root, a, c. split; [exact R|]. split; [exact Q|]. split; [exact Hr|].
  split; [rewrite Hv, K; reflexivity|]. split; [|reflexivity]. apply (MapProofs.lookup_iff _ bool_decides); [exact (wf_dkeys _ _ _ _ W 0%nat root Hr)|exact L].
Qed.
(** ... and without. *)
Definition solo : @mconf nat bool :=
  @mkM nat bool 1 (-1) (1/2) (-1) 1 None (1/10) 1 (-1) 0 true 0 0 false None false (fun _ a => if a then 1 else 0)
      (fun s _ => [(s, 1/2); (S s, 1/2)]) (fun V m => rev m) None 1 (1/10) 1 (-1) true.
Example C78_one_player_witness : mtwo solo = false /\ env_ok ments_ex_conf solo /\ exists s,
  areach Nat.eqb Bool.eqb ments_ex_conf (dbments Bool.eqb ments_ex_conf solo) 2 g_ex s /\ quiet (base s) /\ count is_done (etrace (base s)) = 7%Z.
Proof.
  assert (Env : env_ok ments_ex_conf solo).
  { constructor; cbn; try lia; try discriminate.
    - intros _. repeat constructor; cbn; intuition discriminate.
    - intros s a _ _. split; [|lra]. intros k w [[= <- <-]|[[= <- <-]|[]]]; lra. }
  split; [reflexivity|]. split; [exact Env|].
  assert (Gi : good_ints g_ex) by (intros i; cbn; lia). assert (Gr : good_reals g_ex) by (intros i; cbn; lra).
  destruct (ments_sane_witness 1 ltac:(lra)) as (_ & _ & _ & _ & _ & Few & _).
  refine (C71_dbments_completes Nat.eqb Bool.eqb nat_decides bool_decides _ _ _ Env _ _ 2 Few 2 g_ex Gi Gr g_ex_low ltac:(lia) 7).
  - split; [intros V m; apply Permutation.Permutation_rev|reflexivity].
  - split; [intros p [=]|left; cbn; lra].
  - split; cbn; lra.
Qed.
(** The settings meet C79's hypotheses; [ments_run_witness], [dbments_run_witness] and [tents_run_witness] are searches. *)
Example C79_settings_witness : use_tt ments_ex_conf = false /\ env_ok ments_ex_conf (ments_ex 1) /\ prior_ok ments_ex_conf (ments_ex 1) /\
  0 < mtemp (ments_ex 1) /\ mdecay (ments_ex 1) = None.
Proof. destruct (ments_sane_witness 1 ltac:(lra)) as (Mok & Env & Tok & Pr & _). repeat (split; auto). cbn. lra. Qed.

(** A tree in which plans are worth different things: action true (reward 1) led to two nodes of heuristic values 3 and
    6 that were reached once and twice, action false (reward 0) to a node of value 8. With the initial values as
    samples the plans are worth 1 + (2 * 3 + 3 * 6) / 5 and 8. *)
Definition tiny : @store nat bool :=
  mkStore [mkD 0%nat 0 0 4 0 [(true, 0%nat); (false, 1%nat)]; mkD 0%nat 1 1 1 3 []; mkD 1%nat 1 1 2 6 []; mkD 0%nat 1 1 1 8 []]
          [mkC 0%nat true 0 0 3 [(0%nat, 1%nat); (1%nat, 2%nat)]; mkC 0%nat false 0 0 1 [(0%nat, 3%nat)]] [].
Definition tiny_conf : @econf nat bool :=
  mkConf (fun s => Nat.eqb s 2) (fun _ => [true; false]) (fun s _ => [s; S s])
         (fun _ a o => if a then 1 else 0) (Some (fun s => 1)) 1 false false 0 0%nat 0.
Example C78_tiny : worth Bool.eqb tiny_conf solo tiny (fun _ => Some true) 0 = 29 / 5 /\ worth Bool.eqb tiny_conf solo tiny (fun _ => Some false) 0 = 8.
Proof.
  unfold worth. change (Datatypes.S (Z.to_nat (max_depth tiny_conf))) with 2%nat.
  cbn -[mean dp_samples tiny_conf]. unfold dp_samples, samples, reached. cbn. unfold mean.
  change (1 - 0 + 1)%Z with 2%Z. change (2 - 0 + 1)%Z with 3%Z. split; destruct (Req_EM_T _ 0) as [E|_]; unfold rsum_of, rsum in *; cbn in *; lra.
Qed.
(** C80's settings; [C78_witness] is a search whose root has children. *)
Example C80_settings_witness : ments_ok ments_ex_conf (ments_ex 1) /\ mmost_visited (ments_ex 1) = false /\ (mthreshold (ments_ex 1) <= 1)%Z /\
  range_ok ments_ex_conf (ments_ex 1) 0 1 0 1 /\ dbl_lowest <= least_left ments_ex_conf 0 0 0 /\ most_left ments_ex_conf 1 1 0 <= - dbl_lowest /\
  muse_dp (ments_ex 1) = true.
Proof.
  destruct (ments_sane_witness 1 ltac:(lra)) as (Mok & _). destruct (dents_settings_witness 1 ltac:(lra)) as (_ & Rg & _ & Lo & Hi & _).
  repeat (split; auto). cbn. lia.
Qed.
