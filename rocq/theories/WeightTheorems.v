(** Property theorems about the weights of outcomes in chance backups: C40. *)
From Coq Require Import List ZArith Bool Reals Lia Lra.
From Verif Require Import Base BaseProofs NumOps HelperModel HelperSpec EngineModel EngineSpec EngineTheorems MapModel
  AlgoModel AlgoProofs AlgoTheorems UctTheorems MentsModel SoftSpec SoftProofs MentsSpec MentsTheorems WeightProofs DentsTheorems.
Import ListNotations.
Open Scope Z_scope.

(** In every quiet state of every search the weight [nb] of a child of a chance node is [f leaf k], where [leaf] says
    whether it cannot be left (a sink or at the depth limit) and [k] is how often the chance node sampled it. *)
Definition weights {S A} (seqb : S -> S -> bool) (aeqb : A -> A -> bool) (C : @econf S A) (G : @algo S A) (nb : XD G -> Z)
  (f : bool -> Z -> Z) : Prop :=
  forall n g s c o d node x, areach seqb aeqb C G n g s -> quiet (base s) -> cchild seqb (mem (base s)) c o d ->
  nth_error (dh (mem (base s))) d = Some node -> nth_error (xds s) d = Some x ->
  nb x = f (is_leaf C node) (count (goes c d) (etrace (base s))).

Section Theorems.
Context {S A : Type}.
Variable seqb : S -> S -> bool.
Variable aeqb : A -> A -> bool.
Hypothesis seqb_ok : decides seqb.
Hypothesis aeqb_ok : decides aeqb.
Variable C : @econf S A.
Variable M : @mconf S A.
Notation weights := (weights seqb aeqb C).

(** At every moment a counter counts the backups of the node and the trials that ended there as at a leaf. *)
Theorem C40_counts : forall n g s d node x, areach seqb aeqb C (ments aeqb C M) n g s ->
  nth_error (dh (mem (base s))) d = Some node -> nth_error (xds s) d = Some x ->
  m_nb x = count (backs_d d) (etrace (base s)) + (if is_leaf C node then count (ends_at d) (etrace (base s)) else 0).
Proof.
  intros n g s d node x R Hd Hx.
  rewrite (weight_always seqb aeqb seqb_ok aeqb_ok C (ments aeqb C M) m_nb 0 1 (ments_counter aeqb C M) n g s d node x R Hd Hx), Z.mul_1_l. reflexivity.
Qed.

Section NoTable.
Hypothesis NoTT : use_tt C = false.
Lemma law : forall (G : @algo S A) (nb : XD G -> Z) (k0 lf : Z) (f : bool -> Z -> Z), counter G nb k0 lf ->
  (forall (leaf : bool) k, k0 + (if leaf then lf * k else k - (if mcts_mode C then 1 else 0)) = f leaf k) -> weights G nb f.
Proof using All.
  intros G nb k0 lf f Cn H n g s c o d node x R Q Ch Hd Hx.
  rewrite (weight_quiet seqb aeqb seqb_ok aeqb_ok C G nb k0 lf Cn n g s c o d node x NoTT R Q Ch Hd Hx), <- H.
  destruct (is_leaf C node), (mcts_mode C); lia.
Qed.

(** Soft values: the number of samples if trials run to the end (mcts_mode off) ... *)
Section Full.
Hypothesis Full : mcts_mode C = false.
Theorem C40_soft_partial : weights (ments aeqb C M) m_nb (fun _ k => k) /\ weights (rents aeqb C M) m_nb (fun _ k => k) /\
  weights (tents aeqb C M) (fun x => m_nb (t_m x)) (fun _ k => k) /\ weights (dbments aeqb C M) (fun x => m_nb (fst x)) (fun _ k => k).
Proof using All.
  assert (H : forall leaf k, 0 + (if leaf : bool then 1 * k else k - (if mcts_mode C then 1 else 0)) = k) by (rewrite Full; intros [|] k; lia).
  split; [exact (law (ments aeqb C M) _ 0 1 _ (ments_counter aeqb C M) H)|]. split; [exact (law (rents aeqb C M) _ 0 1 _ (rents_counter aeqb C M) H)|].
  split; [exact (law (tents aeqb C M) _ 0 1 _ (tents_counter aeqb C M) H)|exact (law (dbments aeqb C M) _ 0 1 _ (dbments_counter aeqb C M) H)].
Qed.
(** Dynamic programming values: one more, because the constructor counts the heuristic value as a backup. *)
Theorem C40_dp_partial : weights (dbments aeqb C M) (fun x => v_nb (snd x)) (fun _ k => k + 1) /\
  (muse_dp M = true -> weights (dents aeqb C M) (fun x => v_nb (d_dp x)) (fun _ k => k + 1) /\
                       weights (est aeqb C M) (fun x => v_nb (d_dp x)) (fun _ k => k + 1)).
Proof using All.
  assert (H : forall leaf k, 1 + (if leaf : bool then 1 * k else k - (if mcts_mode C then 1 else 0)) = k + 1) by (rewrite Full; intros [|] k; lia).
  split; [exact (law (dbments aeqb C M) _ 1 1 _ (dbments_dp_counter aeqb C M) H)|]. intros U.
  split; [exact (law (dents aeqb C M) _ 1 1 _ (dents_dp_counter aeqb C M U) H)|exact (law (est aeqb C M) _ 1 1 _ (est_dp_counter aeqb C M U) H)].
Qed.
(** Entropies: one more at nodes that can be left, always one at others. *)
Theorem C40_entropy_partial : weights (dents aeqb C M) (fun x => e_nb (d_ent x)) (fun leaf k => if leaf then 1 else k + 1).
Proof using All. apply (law (dents aeqb C M) _ 1 0 _ (dents_ent_counter aeqb C M)). rewrite Full. intros [|] k; lia. Qed.
End Full.

(** In mcts_mode the first trial to reach a node that can be left stops there without a backup, so one sample is not
    counted: soft values have one too few, dynamic programming values and entropies the right number, except at leaves. *)
Section Mcts.
Hypothesis Mcts : mcts_mode C = true.
Theorem C40_soft_mcts : let f := fun (leaf : bool) k => if leaf then k else k - 1 in
  weights (ments aeqb C M) m_nb f /\ weights (rents aeqb C M) m_nb f /\
  weights (tents aeqb C M) (fun x => m_nb (t_m x)) f /\ weights (dbments aeqb C M) (fun x => m_nb (fst x)) f.
Proof using All.
  assert (H : forall leaf k, 0 + (if leaf : bool then 1 * k else k - (if mcts_mode C then 1 else 0)) = if leaf then k else k - 1) by (rewrite Mcts; intros [|] k; lia).
  cbv zeta. split; [exact (law (ments aeqb C M) _ 0 1 _ (ments_counter aeqb C M) H)|]. split; [exact (law (rents aeqb C M) _ 0 1 _ (rents_counter aeqb C M) H)|].
  split; [exact (law (tents aeqb C M) _ 0 1 _ (tents_counter aeqb C M) H)|exact (law (dbments aeqb C M) _ 0 1 _ (dbments_counter aeqb C M) H)].
Qed.
Theorem C40_dp_mcts : let f := fun (leaf : bool) k => if leaf then k + 1 else k in
  weights (dbments aeqb C M) (fun x => v_nb (snd x)) f /\
  (muse_dp M = true -> weights (dents aeqb C M) (fun x => v_nb (d_dp x)) f /\ weights (est aeqb C M) (fun x => v_nb (d_dp x)) f).
Proof using All.
  assert (H : forall leaf k, 1 + (if leaf : bool then 1 * k else k - (if mcts_mode C then 1 else 0)) = if leaf then k + 1 else k) by (rewrite Mcts; intros [|] k; lia).
  cbv zeta. split; [exact (law (dbments aeqb C M) _ 1 1 _ (dbments_dp_counter aeqb C M) H)|]. intros U.
  split; [exact (law (dents aeqb C M) _ 1 1 _ (dents_dp_counter aeqb C M U) H)|exact (law (est aeqb C M) _ 1 1 _ (est_dp_counter aeqb C M U) H)].
Qed.
Theorem C40_entropy_mcts : weights (dents aeqb C M) (fun x => e_nb (d_ent x)) (fun leaf k => if leaf then 1 else k).
Proof using All. apply (law (dents aeqb C M) _ 1 0 _ (dents_ent_counter aeqb C M)). rewrite Mcts. intros [|] k; lia. Qed.
End Mcts.
End NoTable.
End Theorems.

Section Ex.
Open Scope R_scope.
(** The walk of MentsTheorems.v in both modes, for trials of length 3 so that the root's grandchildren can be left. *)
Definition weight_conf (mcts : bool) : @econf nat bool :=
  mkConf (fun s => Nat.eqb s 2) (fun _ => [true; false]) (fun s _ => [s; S s])
         (fun _ a o => if a then 1 else 0) (Some (fun s => 1)) 2 mcts false 0 0%nat 0.
Lemma weight_conf_ok : forall b, ments_ok (weight_conf b) (ments_ex 1) /\ env_ok (weight_conf b) (ments_ex 1) /\
  prior_ok (weight_conf b) (ments_ex 1) /\ explore_ok (ments_ex 1) /\ few_actions (weight_conf b) 2.
Proof.
  intros b. split; [split; [intros V m; apply Permutation.Permutation_rev|reflexivity]|]. split.
  { constructor; cbn; try lia; try discriminate.
    - intros _. repeat constructor; cbn; intuition discriminate.
    - intros s a _ _. split; [|lra]. intros k w [[= <- <-]|[[= <- <-]|[]]]; lra. }
  split; [split; [intros p [=]|left; cbn; lra]|]. split; [split; cbn; lra|]. split; [lra|intros s; cbn; lra].
Qed.
(** After a trial the root has a grandchild that was reached and can be left. *)
Lemma weight_state : forall b (G : @algo nat bool) n s, areach Nat.eqb Bool.eqb (weight_conf b) G n g_ex s -> quiet (base s) ->
  (0 < count is_done (etrace (base s)))%Z ->
  exists c o d node x, cchild Nat.eqb (mem (base s)) c o d /\ nth_error (dh (mem (base s))) d = Some node /\ nth_error (xds s) d = Some x /\
  is_leaf (weight_conf b) node = false /\ (0 < count (goes c d) (etrace (base s)))%Z.
Proof.
  intros b G n s R Q K.
  pose proof (C08_algorithms_run_the_engine _ _ _ _ _ _ _ R) as E.
  pose proof (proj1 (C12_well_formed Nat.eqb Bool.eqb nat_decides bool_decides _ n (base s) E)) as W.
  destruct (wf_root _ _ _ _ W) as (root & Hr & Hs & Hd & Ht).
  destruct (first_path Nat.eqb Bool.eqb nat_decides bool_decides _ n (base s) root E Q K ltac:(now right) Hr) as (a & c & o & d & Dc & Cc & P).
  { unfold is_leaf. rewrite Hs, Hd. reflexivity. }
  pose proof Cc as (cn & Hc & Lc). pose proof Dc as (rn & Hrn & Lr).
  assert (rn = root) by congruence. subst rn.
  destruct (wf_d _ _ _ _ W _ _ _ _ Hr Lr) as (cn' & Hc' & C1 & C2 & C3 & C4 & _).
  assert (cn' = cn) by congruence. subst cn'.
  destruct (wf_c _ _ _ _ W _ _ _ _ Hc Lc) as (node & Hn & N1 & N2 & N3 & N4).
  pose proof (areach_good Nat.eqb Bool.eqb nat_decides bool_decides _ G _ _ _ R) as I.
  destruct (dh_some Nat.eqb Bool.eqb (weight_conf b) G s d I ltac:(apply nth_error_Some; congruence)) as (node' & x & Hn' & Hx).
  exists c, o, d, node, x. split; [exact Cc|]. split; [exact Hn|]. split; [exact Hx|]. split; [|exact P].
  unfold is_leaf. rewrite N1, N2, C2, Hd. rewrite C1, Hs in N4. cbn in N4. destruct N4 as [<-|[<-|[]]]; reflexivity.
Qed.
(** Quiet states of searches in both modes with a child of a chance node. *)
Example C40_witness : forall b, exists s c o d node x,
  areach Nat.eqb Bool.eqb (weight_conf b) (dbments Bool.eqb (weight_conf b) (ments_ex 1)) 1 g_ex s /\ quiet (base s) /\
  cchild Nat.eqb (mem (base s)) c o d /\ nth_error (dh (mem (base s))) d = Some node /\ nth_error (xds s) d = Some x /\
  (0 < count (goes c d) (etrace (base s)))%Z.
Proof.
  intros b. destruct (weight_conf_ok b) as (Mok & Env & Pr & Ex & Few).
  assert (Gi : good_ints g_ex) by (intros i; cbn; lia). assert (Gr : good_reals g_ex) by (intros i; cbn; lra).
  destruct (C71_dbments_completes Nat.eqb Bool.eqb nat_decides bool_decides _ _ Mok Env Pr Ex 2 Few 1 g_ex Gi Gr g_ex_low ltac:(lia) 5) as (s & R & Q & K).
  destruct (weight_state b _ 1 s R Q ltac:(rewrite K; reflexivity)) as (c & o & d & node & x & H1 & H2 & H3 & H4 & H5).
  exists s, c, o, d, node, x. tauto.
Qed.
End Ex.

(** The property as stated, that the weight is the number of samples, fails for MENTS in mcts_mode ... *)
Theorem C40_refuted : ~ forall (S A : Type) (seqb : S -> S -> bool) (aeqb : A -> A -> bool) (C : @econf S A) (M : @mconf S A),
  decides seqb -> decides aeqb -> ments_ok C M -> env_ok C M -> temps_ok M -> prior_ok C M -> explore_ok M -> use_tt C = false ->
  weights seqb aeqb C (ments aeqb C M) m_nb (fun _ k => k).
Proof.
  intros H. destruct (ments_sane_witness 100 ltac:(lra)) as (Mok & Env & Tok & Pr & Vok & Few & Ex).
  specialize (H _ _ Nat.eqb Bool.eqb ments_ex_conf (ments_ex 100) nat_decides bool_decides Mok Env Tok Pr Ex eq_refl).
  destruct ments_run_witness as (s & R & F & Q & K & _).
  destruct (weight_state true _ 2 s R Q ltac:(rewrite K; reflexivity)) as (c & o & d & node & x & H1 & H2 & H3 & H4 & H5).
  pose proof (H _ _ s c o d node x R Q H1 H2 H3) as E1.
  destruct (C40_soft_mcts Nat.eqb Bool.eqb nat_decides bool_decides ments_ex_conf (ments_ex 100) eq_refl eq_refl) as (E2 & _).
  specialize (E2 _ _ s c o d node x R Q H1 H2 H3). cbv beta in E1, E2. change ments_ex_conf with (weight_conf true) in E2. rewrite H4 in E2.
  assert (N : forall k, k <> k - 1) by lia. exact (N _ (eq_trans (eq_sym E1) E2)).
Qed.
(** ... and for DB-MENTS's dynamic programming values also without it. *)
Theorem C40_dp_refuted : ~ forall (S A : Type) (seqb : S -> S -> bool) (aeqb : A -> A -> bool) (C : @econf S A) (M : @mconf S A),
  decides seqb -> decides aeqb -> ments_ok C M -> env_ok C M -> prior_ok C M -> explore_ok M -> use_tt C = false -> mcts_mode C = false ->
  weights seqb aeqb C (dbments aeqb C M) (fun x => v_nb (snd x)) (fun _ k => k).
Proof.
  intros H. destruct (weight_conf_ok false) as (Mok & Env & Pr & Ex & _).
  specialize (H _ _ Nat.eqb Bool.eqb _ _ nat_decides bool_decides Mok Env Pr Ex eq_refl eq_refl).
  destruct (C40_witness false) as (s & c & o & d & node & x & R & Q & H1 & H2 & H3 & H5).
  pose proof (H _ _ s c o d node x R Q H1 H2 H3) as E1.
  destruct (C40_dp_partial Nat.eqb Bool.eqb nat_decides bool_decides (weight_conf false) (ments_ex 1) eq_refl eq_refl) as (E2 & _).
  specialize (E2 _ _ s c o d node x R Q H1 H2 H3). cbv beta in E1, E2. 
  assert (N : forall k, k <> k + 1) by lia. exact (N _ (eq_trans (eq_sym E1) E2)).
Qed.

Print Assumptions C40_counts.
Print Assumptions C40_soft_partial.
Print Assumptions C40_dp_partial.
Print Assumptions C40_entropy_partial.
Print Assumptions C40_soft_mcts.
Print Assumptions C40_dp_mcts.
Print Assumptions C40_entropy_mcts.
Print Assumptions C40_refuted.
Print Assumptions C40_dp_refuted.
