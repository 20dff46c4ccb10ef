(** Property theorems about the pool together with its trials: C62. *)
From Coq Require Import List ZArith Bool Reals Lia.
From Verif Require Import Base BaseProofs NumOps PoolModel PoolSpec EngineModel EngineSpec EngineProofs EngineInv
  EngineCount EngineTheorems ProductModel ProductProofs.
Import ListNotations.
Open Scope Z_scope.

Section Theorems.
Context {S A : Type}.
Variable seqb : S -> S -> bool.
Variable aeqb : A -> A -> bool.
Hypothesis seqb_ok : decides seqb.
Hypothesis aeqb_ok : decides aeqb.
Variable C : @econf S A.

(** Whenever join or a blocking run_trials returns, no trial is in progress on the tree, and the
    root has been visited once for every trial ever started. *)
Theorem C62_join_means_tree_idle : forall n z0 tr p e,
  preach seqb aeqb C n z0 (EvJoinRet :: tr) p e ->
  quiet e /\
  exists root, nth_error (dh (mem e)) 0 = Some root /\ dvisits root = init_visits C + total_starts tr.
Proof.
  intros n z0 tr p e R. destruct (joined _ _ seqb_ok aeqb_ok C _ _ _ _ _ R) as (Q & D & _). split; auto.
  destruct (C10_idle _ _ seqb_ok aeqb_ok C n e (pi_eng _ _ _ _ _ _ _ _ (pinv_reach _ _ seqb_ok aeqb_ok C _ _ _ _ _ R)) Q)
    as (_ & (r & Hr & E) & _). exists r. split; auto. lia.
Qed.

(** The first run_trials(k, t, blocking), returning before its time limit: exactly max(k,0) trials
    were run on the tree, each complete; the tree is well formed and in mcts_mode has at most
    max(k,0)+1 decision nodes. *)
Theorem C62_run_trials : forall n z0 k t z tr2 tr1 p e,
  preach seqb aeqb C n z0 (EvJoinRet :: tr2 ++ EvRun k t z :: tr1) p e -> no_run tr1 -> no_run tr2 ->
  in_time z0 (tr2 ++ EvRun k t z :: tr1) ->
  quiet e /\
  count is_start (etrace e) = Z.max 0 k /\ count is_done (etrace e) = Z.max 0 k /\
  (exists root, nth_error (dh (mem e)) 0 = Some root /\ dvisits root = init_visits C + Z.max 0 k) /\
  well_formed seqb aeqb C (mem e) /\
  (mcts_mode C = true -> Z.of_nat (length (dh (mem e))) <= Z.max 0 k + 1).
Proof.
  intros n z0 k t z tr2 tr1 p e R N1 N2 T. pose proof (one_run _ _ seqb_ok aeqb_ok C _ _ _ _ _ _ _ _ _ R N1 N2 T) as O.
  pose proof (pi_eng _ _ _ _ _ _ _ _ (pinv_reach _ _ seqb_ok aeqb_ok C _ _ _ _ _ R)) as Re.
  destruct (joined _ _ seqb_ok aeqb_ok C _ _ _ _ _ R) as (Q & D & _).
  destruct (C10_idle _ _ seqb_ok aeqb_ok C n e Re Q) as (SD & (r & Hr & E) & _).
  split; auto. split; [lia|]. split; [lia|]. split; [exists r; split; auto; lia|].
  split; [exact (proj1 (C12_well_formed _ _ seqb_ok aeqb_ok C n e Re))|].
  intros M. pose proof (C11_tree_size _ _ seqb_ok aeqb_ok C n e Re M). lia.
Qed.

(** While a call waits and its time limit is not reached, some worker, trial or the client can make
    a step: neither the pool protocol nor a trial blocks the other. *)
Theorem C62_progress : forall n z0 tr p e,
  (0 < n)%nat -> preach seqb aeqb C n z0 tr p e -> never_timed_out z0 tr -> client_busy p ->
  (forall st, is_sink C st = false -> acts C st <> []) ->
  (forall st a, is_sink C st = false -> In a (acts C st) -> succs C st a <> []) ->
  exists l s', (match l with PPool pl => program_label pl = true | PTrial _ => True end) /\
               prod_step seqb aeqb C l (p, e) = Some s'.
Proof. exact (prod_progress _ _ seqb_ok aeqb_ok C). Qed.
End Theorems.
Print Assumptions C62_join_means_tree_idle.
Print Assumptions C62_run_trials.
Print Assumptions C62_progress.

(** Two workers, run_trials(2, 100, blocking) on the example environment: both trials run. *)
Definition ex_trial (t : nat) : list (@plabel nat bool) :=
  map PTrial [LSelect t true; LSample t 2%nat; LRun t; LRun t; LRun t].
Definition W (i : nat) : @plabel nat bool := PPool (LWorker i).
Definition ex_prod : list (@plabel nat bool) :=
  [PPool (LCall (CallRun 2 100 true)); PPool LClient; PPool LClient; PPool LClient;
   W 0; W 0; W 0; W 0; W 1; W 1; W 1; W 1] ++
  ex_trial 0 ++ [W 0; W 0; W 0; W 0; W 0] ++ ex_trial 1 ++ [W 1; W 1; W 1; W 1; W 1] ++ [PPool LClient; PPool LClient].
Definition ex_conf2 : @econf nat bool :=
  mkConf (fun s => Nat.eqb s 2) (fun _ => [true; false]) (fun _ _ => [1; 2]%nat) (fun _ _ _ => 1%R) None 3 true false 0 0%nat 0.
Example C62_witness : exists tr2 tr1 p e,
  preach Nat.eqb Bool.eqb ex_conf2 2 0 (EvJoinRet :: tr2 ++ EvRun 2 100 0 :: tr1) p e /\ no_run tr1 /\ no_run tr2 /\
  in_time 0 (tr2 ++ EvRun 2 100 0 :: tr1).
Proof.
  exists [EvNone; EvNone; EvNone; EvNone; EvNone; EvEnd 1; EvNone; EvNone; EvNone; EvNone; EvNone; EvNone; EvNone;
          EvNone; EvNone; EvEnd 0; EvNone; EvNone; EvNone; EvNone; EvNone; EvStart 1; EvNone; EvNone; EvNone; EvStart 0;
          EvNone; EvNone; EvNone; EvNone], [EvNone; EvNone].
  eexists _, _. split; [exists ex_prod; vm_compute; reflexivity|].
  split; [intros n t z H; repeat (destruct H as [H|H]; [discriminate|]); destruct H|].
  split; [intros n t z H; repeat (destruct H as [H|H]; [discriminate|]); destruct H|].
  vm_compute. reflexivity.
Qed.
Example C62_witness_env :
  (forall st, is_sink ex_conf2 st = false -> acts ex_conf2 st <> []) /\
  (forall st a, is_sink ex_conf2 st = false -> In a (acts ex_conf2 st) -> succs ex_conf2 st a <> []).
Proof. split; discriminate. Qed.
