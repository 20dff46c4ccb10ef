(** Property theorems: counters cannot overflow before 2^31 trials, C99. *)
From Coq Require Import List ZArith Bool Reals Lia Lra.
From Verif Require Import Base BaseProofs NumOps HelperModel EngineModel EngineSpec EngineProofs EngineResults EngineTheorems AlgoModel AlgoProofs AlgoNodes UctModel MentsModel TreeSpec WorldSpec
  BoundSpec BoundProofs BoundResults WorldExamples SureExamples SureTheorems.
Import ListNotations.
Open Scope Z_scope.

Section Bound.
Context {S A : Type}.
Variable seqb : S -> S -> bool.
Variable aeqb : A -> A -> bool.
Hypothesis seqb_ok : decides seqb.
Hypothesis aeqb_ok : decides aeqb.
Variable C : @econf S A.
Notation started s := (count is_start (etrace s)).
Notation areach := (areach seqb aeqb C).

(** At every moment of every search by any number of threads, with and without the transposition table, the nodes of one
    depth have together at most one visit per trial started, decision nodes and chance nodes alike. *)
Theorem C99_levels : forall n s k, ereach seqb aeqb C n s -> visits_at C k (mem s) <= started s /\ visits_at_c k (mem s) <= started s.
Proof. exact (level seqb aeqb seqb_ok aeqb_ok C). Qed.
(** In particular no node has more visits than trials were started, and while that number (and what new nodes start with)
    is below 2^31 no num_visits overflows. *)
Theorem C99_visits : forall n s, ereach seqb aeqb C n s ->
  (forall d node, nth_error (dh (mem s)) d = Some node -> init_visits C <= dvisits node <= init_visits C + started s) /\
  (forall c node, nth_error (ch (mem s)) c = Some node -> 0 <= cvisits node <= started s).
Proof. exact (node_visits seqb aeqb seqb_ok aeqb_ok C). Qed.
Theorem C99_visits_fit : forall n s, ereach seqb aeqb C n s -> 0 <= init_visits C -> init_visits C + started s < 2 ^ 31 ->
  (forall d node, nth_error (dh (mem s)) d = Some node -> fits (dvisits node)) /\
  (forall c node, nth_error (ch (mem s)) c = Some node -> fits (cvisits node)).
Proof.
  intros n s R I L. destruct (C99_visits n s R) as [H1 H2]. unfold fits. split; [intros d node H; specialize (H1 d node H)|intros d node H; specialize (H2 d node H)]; lia.
Qed.
(** The bound is sharp: the next trial overflows the root's counter. *)
Theorem C99_sharp : forall n s, ereach seqb aeqb C n s -> quiet s -> 2 ^ 31 <= init_visits C + started s ->
  exists root, nth_error (dh (mem s)) 0 = Some root /\ ~ fits (dvisits root).
Proof.
  intros n s R Q L. destruct (C10_idle' seqb aeqb seqb_ok aeqb_ok C n s R Q) as (E & (root & H & V) & _). exists root. split; [exact H|]. unfold fits. lia.
Qed.

(** All counters of backups: they stay between 0 and the number of trials started plus what new nodes start with. *)
Definition in_range (lo hi : Z) (l : list Z) : Prop := Forall (fun z => lo <= z <= hi) l.
Theorem C99_uct : forall (U : @uconf S A), 0 <= upseudo U -> forall n g s, areach (uct aeqb C U) n g s ->
  (forall d x, nth_error (xds s) d = Some x -> 0 <= unb x <= upseudo U + started (base s)) /\
  (forall c x, nth_error (xcs s) c = Some x -> 0 <= unb x <= upseudo U + started (base s)).
Proof. intros U P. exact (slow_bound seqb aeqb seqb_ok aeqb_ok C _ _ _ _ (uct_slow aeqb C U P)). Qed.

Variable M : @mconf S A.
Theorem C99_ments : forall n g s, areach (ments aeqb C M) n g s ->
  (forall d x, nth_error (xds s) d = Some x -> 0 <= m_nb x <= started (base s)) /\ (forall c x, nth_error (xcs s) c = Some x -> 0 <= c_nb x <= started (base s)).
Proof. exact (slow_bound seqb aeqb seqb_ok aeqb_ok C _ _ _ _ (ments_slow aeqb C M)). Qed.
Theorem C99_rents : forall n g s, areach (rents aeqb C M) n g s ->
  (forall d x, nth_error (xds s) d = Some x -> 0 <= m_nb x <= started (base s)) /\ (forall c x, nth_error (xcs s) c = Some x -> 0 <= c_nb x <= started (base s)).
Proof. exact (slow_bound seqb aeqb seqb_ok aeqb_ok C _ _ _ _ (rents_slow aeqb C M)). Qed.
Theorem C99_tents : forall n g s, areach (tents aeqb C M) n g s ->
  (forall d x, nth_error (xds s) d = Some x -> 0 <= m_nb (t_m x) <= started (base s)) /\ (forall c x, nth_error (xcs s) c = Some x -> 0 <= c_nb x <= started (base s)).
Proof. exact (slow_bound seqb aeqb seqb_ok aeqb_ok C _ _ _ _ (tents_slow aeqb C M)). Qed.
Theorem C99_dbments : forall n g s, areach (dbments aeqb C M) n g s ->
  (forall d x, nth_error (xds s) d = Some x -> in_range 0 (1 + started (base s)) [m_nb (fst x); v_nb (snd x)]) /\
  (forall c x, nth_error (xcs s) c = Some x -> in_range 0 (1 + started (base s)) [c_nb (fst x); v_nb (snd x)]).
Proof.
  intros n g s R. destruct (dbments_slow aeqb C M) as [S1 S2]. destruct (slow_bound seqb aeqb seqb_ok aeqb_ok C _ _ _ _ S1 n g s R) as [A1 A2].
  destruct (slow_bound seqb aeqb seqb_ok aeqb_ok C _ _ _ _ S2 n g s R) as [B1 B2].
  split; intros d x H; repeat constructor; first [specialize (A1 d x H); specialize (B1 d x H)|specialize (A2 d x H); specialize (B2 d x H)]; cbv beta in *; lia.
Qed.
Lemma four_range_d : forall k (x : dmem), (forall i, 0 <= nth i (four_d x) 0 <= k) -> in_range 0 k (four_d x).
Proof. intros k x H. repeat constructor; first [apply (H 0%nat)|apply (H 1%nat)|apply (H 2%nat)|apply (H 3%nat)]. Qed.
Lemma four_range_c : forall k (x : dcmem), (forall i, 0 <= nth i (four_c x) 0 <= k) -> in_range 0 k (four_c x).
Proof. intros k x H. repeat constructor; first [apply (H 0%nat)|apply (H 1%nat)|apply (H 2%nat)|apply (H 3%nat)]. Qed.
Theorem C99_dents : forall n g s, areach (dents aeqb C M) n g s ->
  (forall d x, nth_error (xds s) d = Some x -> in_range 0 (1 + started (base s)) [d_nb x; v_nb (d_dp x); e_nb (d_ent x); v_nb (d_emp x)]) /\
  (forall c x, nth_error (xcs s) c = Some x -> in_range 0 (1 + started (base s)) [dc_nb x; v_nb (dc_dp x); ec_nb (dc_ent x); v_nb (dc_emp x)]).
Proof.
  intros n g s R. split; intros d x H; [apply four_range_d|apply four_range_c]; intros i;
  destruct (slow_bound seqb aeqb seqb_ok aeqb_ok C _ _ _ _ (dents_slow aeqb C M i) n g s R) as [A1 A2]; first [exact (A1 d x H)|exact (A2 d x H)].
Qed.
Theorem C99_est : forall n g s, areach (MentsModel.est aeqb C M) n g s ->
  (forall d x, nth_error (xds s) d = Some x -> in_range 0 (1 + started (base s)) [d_nb x; v_nb (d_dp x); e_nb (d_ent x); v_nb (d_emp x)]) /\
  (forall c x, nth_error (xcs s) c = Some x -> in_range 0 (1 + started (base s)) [dc_nb x; v_nb (dc_dp x); ec_nb (dc_ent x); v_nb (dc_emp x)]).
Proof.
  intros n g s R. split; intros d x H; [apply four_range_d|apply four_range_c]; intros i;
  destruct (slow_bound seqb aeqb seqb_ok aeqb_ok C _ _ _ _ (est_slow aeqb C M i) n g s R) as [A1 A2]; first [exact (A1 d x H)|exact (A2 d x H)].
Qed.
End Bound.
Print Assumptions C99_levels.
Print Assumptions C99_visits.
Print Assumptions C99_visits_fit.
Print Assumptions C99_sharp.
Print Assumptions C99_uct.
Print Assumptions C99_ments.
Print Assumptions C99_rents.
Print Assumptions C99_tents.
Print Assumptions C99_dbments.
Print Assumptions C99_dents.
Print Assumptions C99_est.

(** ** Examples that meet the hypotheses *)
(** The searches of [SureExamples]: trials of MENTS and EST with the table that have completed. *)
Example C99_witness : (exists s, areach Bool.eqb Bool.eqb four_conf (ments Bool.eqb four_conf two_mc) 1 g_four s /\ quiet (base s) /\
    explored Bool.eqb four_conf (mem (base s)) /\ 0 <= init_visits four_conf /\ ereach Bool.eqb Bool.eqb four_conf 1 (base s)) /\
  exists s, areach Bool.eqb Bool.eqb four_conf (MentsModel.est Bool.eqb four_conf two_mc) 1 g_four s /\ quiet (base s) /\ explored Bool.eqb four_conf (mem (base s)).
Proof.
  split.
  - destruct four_ments as (s & _ & R & Q & X & _). exists s. repeat (split; [first [assumption|cbn; lia]|]). exact (areach_ereach _ _ _ _ _ _ _ R).
  - destruct four_est as (s & _ & R & Q & X & _). exists s. auto.
Qed.
(** Three interleaved trials by two threads; with a search whose nodes start at 2^31 - 3 visits, the third one overflows. *)
Example C99_witness_threads : exists s : @EngineModel.est nat bool, ereach Nat.eqb Bool.eqb (ex_conf true false) 2 s /\ quiet s /\ count is_start (etrace s) = 3 /\
  visits_at (ex_conf true false) 0 (mem s) = 3 /\ visits_at_c 0 (mem s) = 3.
Proof.
  eexists. split; [exists ex_run; vm_compute; reflexivity|]. split; [intros [|[|[|t]]] x H; cbn in H; congruence|]. repeat split; reflexivity.
Qed.
Definition full_conf : @econf nat bool :=
  let c := ex_conf true false in mkConf (is_sink c) (acts c) (succs c) (rwd c) (heuristic c) (max_depth c) (mcts_mode c) (use_tt c) (2 ^ 31 - 3) (root_state c) (root_time c).
Example C99_witness_full : exists s : @EngineModel.est nat bool, ereach Nat.eqb Bool.eqb full_conf 2 s /\ quiet s /\ 2 ^ 31 <= init_visits full_conf + count is_start (etrace s).
Proof.
  eexists. split; [exists ex_run; vm_compute; reflexivity|]. split; [intros [|[|[|t]]] x H; cbn in H; congruence|]. vm_compute. discriminate.
Qed.
