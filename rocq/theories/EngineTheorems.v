(** Property theorems about trials on a search tree: C08-C14 and C61. They hold for every
    environment, every selection policy and outcome sampler, every number of threads and every
    interleaving of their steps. *)
From Coq Require Import List ZArith Bool Reals Lia Lra.
From Verif Require Import Base BaseProofs NumOps EngineModel EngineSpec EngineProofs EngineInv EngineCount EngineResults.
Import ListNotations.
Open Scope Z_scope.

(** A concrete environment for the examples: a walk on 0,1,2 (2 is terminal), two actions, each
    staying or moving on, two worker threads. *)
Definition ex_conf (mcts table : bool) : @econf nat bool :=
  mkConf (fun s => Nat.eqb s 2) (fun _ => [true; false]) (fun s _ => [s; S s]) (fun _ _ o => IZR (Z.of_nat o))
         (Some (fun s => IZR (Z.of_nat (10 + s)))) 3 mcts table 0 0%nat 0.
Definition ex_step (t : nat) (a : bool) (o : nat) : list (@elabel nat bool) := [LSelect t a; LSample t o].
(** Thread 1 starts while thread 0 is in the middle of a trial. *)
Definition ex_run : list (@elabel nat bool) :=
  [LStart 0; LSelect 0 true; LStart 1; LSample 0 1%nat; LSelect 1 true; LSample 1 1%nat] ++
  [LRun 0; LRun 0; LRun 0; LRun 0] ++ ex_step 1 false 2 ++ repeat (LRun 1) 6 ++
  [LStart 0] ++ ex_step 0 true 1 ++ ex_step 0 false 2 ++ repeat (LRun 0) 6.
Lemma nat_decides : decides Nat.eqb.
Proof. intros x y. apply Nat.eqb_eq. Qed.
Lemma bool_decides : decides Bool.eqb.
Proof. intros x y. apply Bool.eqb_true_iff. Qed.

Section Theorems.
Context {S A : Type}.
Variable seqb : S -> S -> bool.
Variable aeqb : A -> A -> bool.
Hypothesis seqb_ok : decides seqb.
Hypothesis aeqb_ok : decides aeqb.
Variable C : @econf S A.

(** ** C08 *)
(** When thread [t] ends the selection phase of a trial, the events of the trial are: a start, then
    for each of some steps the visit of a decision node and of a chance node, then the visit of the
    last node. The steps follow child pointers from the root, every action was chosen at a node
    that is neither terminal nor at the maximal depth among its valid actions, every outcome is a
    possible one. The last node is terminal or at the maximal depth, or (mcts_mode) the last step
    extended the tree; in mcts_mode no earlier step did. *)
Theorem C08_path : forall n s t w last hv,
  ereach seqb aeqb C n s -> (t < n)%nat -> walk t (etrace s) = w ++ [EFinal last hv] ->
  exists steps,
    w = EStart :: sel_events steps /\
    chain seqb aeqb (mem s) 0 steps last /\
    (forall x, In x steps -> goes_on C (mem s) x) /\
    (mcts_mode C = true -> only_last_gains steps) /\
    exists node, nth_error (dh (mem s)) last = Some node /\
      hv = match heuristic C with
           | Some h => if is_sink C (dstate node) then 0%R else h (dstate node)
           | None => 0%R end /\
      (must_stop C node \/ (mcts_mode C = true /\ last_gains steps)).
Proof. exact (C08_path' seqb aeqb seqb_ok aeqb_ok C). Qed.

(** At every moment: no action was ever selected at a terminal node or a node at the maximal depth. *)
Theorem C08_never_selects_at_end : forall n s t d a c,
  ereach seqb aeqb C n s -> In (t, EVisitD d a c) (etrace s) ->
  exists node, nth_error (dh (mem s)) d = Some node /\ ~ must_stop C node /\ In a (acts C (dstate node)).
Proof. exact (C08_never_selects_at_end' seqb aeqb seqb_ok aeqb_ok C). Qed.

(** ** C09 *)
(** The events of a complete trial: the selection, then the backups of all steps, the last step first, the
    chance node before its decision node, with the rewards received before and after the step. *)
Theorem C09_backups : forall n s t w,
  ereach seqb aeqb C n s -> (t < n)%nat -> walk t (etrace s) = w ++ [EDone] ->
  exists steps last hv,
    w = EStart :: sel_events steps ++ EFinal last hv :: backs C [] steps hv (rsum (map (srew C) steps) + hv) /\
    chain seqb aeqb (mem s) 0 steps last.
Proof. exact (C09_backups' seqb aeqb seqb_ok aeqb_ok C). Qed.

(** ** C10 *)
(** When no trial is in progress, as many trials are complete as were started, and: *)
Theorem C10_idle : forall n s, ereach seqb aeqb C n s -> quiet s ->
  count is_start (etrace s) = count is_done (etrace s) /\
  (* the root was visited once per trial *)
  (exists root, nth_error (dh (mem s)) 0 = Some root /\ dvisits root = init_visits C + count is_done (etrace s)) /\
  (* decision nodes: visits = backups + trials that ended there; also visits = visits of the
     children + trials that ended there *)
  (forall d node, nth_error (dh (mem s)) d = Some node ->
     dvisits node = init_visits C + count (backs_d d) (etrace s) + count (ends_at d) (etrace s) /\
     dvisits node = init_visits C + count (ends_at d) (etrace s) +
       sumZ (fun p => match nth_error (ch (mem s)) (snd p) with Some x => cvisits x | None => 0 end) (dkids node)) /\
  (* chance nodes: visits = backups = times its children were entered from it *)
  (forall c x, nth_error (ch (mem s)) c = Some x ->
     cvisits x = count (backs_c c) (etrace s) /\
     cvisits x = sumZ (fun p => count (goes c (snd p)) (etrace s)) (ckids x)) /\
  (* without transposition table the visits of a chance node are those of its children *)
  (use_tt C = false -> forall c x, nth_error (ch (mem s)) c = Some x ->
     cvisits x = sumZ (fun p => match nth_error (dh (mem s)) (snd p) with
                                | Some node => dvisits node - init_visits C | None => 0 end) (ckids x)).
Proof. exact (C10_idle' seqb aeqb seqb_ok aeqb_ok C). Qed.

(** At every moment (trials in progress or not): a node's visit count is its initial value plus the
    number of visits that happened, and never smaller than the number of backups. *)
Theorem C10_always : forall n s, ereach seqb aeqb C n s ->
  (forall d node, nth_error (dh (mem s)) d = Some node ->
     dvisits node = init_visits C + count (visits_d d) (etrace s) + count (ends_at d) (etrace s) /\
     count (backs_d d) (etrace s) <= count (visits_d d) (etrace s)) /\
  (forall c x, nth_error (ch (mem s)) c = Some x ->
     cvisits x = count (visits_c c) (etrace s) /\ count (backs_c c) (etrace s) <= cvisits x).
Proof. exact (C10_always' seqb aeqb seqb_ok aeqb_ok C). Qed.

(** ** C11 *)
(** In mcts_mode a trial makes at most one decision node; in any mode at most one chance node per
    selected action. *)
Theorem C11_one_per_trial : forall n s t, ereach seqb aeqb C n s -> (t < n)%nat ->
  countb makes_c (trial t (etrace s)) <= countb selects (trial t (etrace s)) /\
  (mcts_mode C = true -> countb makes_d (trial t (etrace s)) <= 1).
Proof. exact (C11_one_per_trial' seqb aeqb seqb_ok aeqb_ok C). Qed.

(** After k trials were started the tree has at most k + 1 decision nodes. *)
Theorem C11_tree_size : forall n s, ereach seqb aeqb C n s -> mcts_mode C = true ->
  Z.of_nat (length (dh (mem s))) <= count is_start (etrace s) + 1.
Proof. exact (C11_tree_size' seqb aeqb seqb_ok aeqb_ok C). Qed.

(** Without mcts_mode every trial goes on to a terminal state or the maximal depth. *)
Theorem C11_full_length : forall n s t w last hv, mcts_mode C = false ->
  ereach seqb aeqb C n s -> (t < n)%nat -> walk t (etrace s) = w ++ [EFinal last hv] ->
  exists node, nth_error (dh (mem s)) last = Some node /\
    (is_sink C (dstate node) = true \/ max_depth C <= ddepth node).
Proof. exact (C11_full_length' seqb aeqb seqb_ok aeqb_ok C). Qed.

(** ** C12 *)
Theorem C12_well_formed : forall n s, ereach seqb aeqb C n s ->
  well_formed seqb aeqb C (mem s) /\
  (0 <= max_depth C -> forall d node, nth_error (dh (mem s)) d = Some node -> 0 <= ddepth node <= max_depth C).
Proof. exact (C12_well_formed' seqb aeqb seqb_ok aeqb_ok C). Qed.

(** ** C13 *)
(** Whatever happens later, a child stays the same node, and a node keeps its state, depth, timestep
    and heuristic value. *)
Theorem C13_children_stay : forall n s ls s', ereach seqb aeqb C n s -> erun seqb aeqb C ls s = Some s' ->
  extends_tree seqb aeqb (mem s) (mem s').
Proof. exact (C13_children_stay' seqb aeqb seqb_ok aeqb_ok C). Qed.

(** create_child on an existing key changes nothing, on a new key it adds exactly that child, and
    has_child/get_child for all other keys are as before. *)
Theorem C13_create_d : forall (m : @store S A) d node a, nth_error (dh m) d = Some node ->
  let m' := create_child_d aeqb m d node a in
  (forall c, dchild aeqb m d a c -> dh m' = dh m /\ ch m' = ch m /\ tt m' = tt m) /\
  ((forall c, ~ dchild aeqb m d a c) ->
     dchild aeqb m' d a (length (ch m)) /\ length (ch m') = Datatypes.S (length (ch m)) /\
     (exists node', nth_error (dh m') d = Some node' /\ length (dkids node') = Datatypes.S (length (dkids node))) /\
     forall d' a' c, (d', a') <> (d, a) -> dchild aeqb m' d' a' c <-> dchild aeqb m d' a' c).
Proof. exact (C13_create_d' seqb aeqb seqb_ok aeqb_ok C). Qed.

Theorem C13_create_c : forall (m : @store S A) c x o, nth_error (ch m) c = Some x ->
  let m' := fst (create_child_c seqb C m c x o) in
  (forall d, cchild seqb m c o d -> dh m' = dh m /\ ch m' = ch m /\ tt m' = tt m) /\
  ((forall d, ~ cchild seqb m c o d) ->
     (exists d, cchild seqb m' c o d) /\
     (exists x', nth_error (ch m') c = Some x' /\ length (ckids x') = Datatypes.S (length (ckids x))) /\
     forall c' o' d, (c', o') <> (c, o) -> cchild seqb m' c' o' d <-> cchild seqb m c' o' d).
Proof. exact (C13_create_c' seqb aeqb seqb_ok aeqb_ok C). Qed.

(** ** C14 *)
(** With the transposition table: equal outcomes at equal timesteps lead to the same node, different
    ones to different nodes. *)
Theorem C14_shared : forall n s, ereach seqb aeqb C n s -> use_tt C = true ->
  forall c x o d c' x' o' d',
    nth_error (ch (mem s)) c = Some x -> cchild seqb (mem s) c o d ->
    nth_error (ch (mem s)) c' = Some x' -> cchild seqb (mem s) c' o' d' ->
    (d = d' <-> ctime x = ctime x' /\ o = o').
Proof. exact (C14_shared' seqb aeqb seqb_ok aeqb_ok C). Qed.

(** Without it the nodes form a tree: no node has two parents or is its parent's child twice. *)
Theorem C14_tree : forall n s, ereach seqb aeqb C n s -> use_tt C = false ->
  forall c o c' o' d, cchild seqb (mem s) c o d -> cchild seqb (mem s) c' o' d -> c = c' /\ o = o'.
Proof. exact (C14_tree' seqb aeqb seqb_ok aeqb_ok C). Qed.

(** In both cases chance nodes have one parent, and nothing leads back to the root. *)
Theorem C14_chance_parent : forall n s, ereach seqb aeqb C n s ->
  (forall d a d' a' c, dchild aeqb (mem s) d a c -> dchild aeqb (mem s) d' a' c -> d = d' /\ a = a') /\
  (forall c o, ~ cchild seqb (mem s) c o 0%nat).
Proof. exact (C14_chance_parent' seqb aeqb seqb_ok aeqb_ok C). Qed.

(** ** C61 *)
(** A trial has at most 4*max_depth+3 events, and a trial in progress can always take its next
    step, provided that non-terminal states have actions and outcomes. *)
Theorem C61_trial_bounded : forall n s t, ereach seqb aeqb C n s -> 0 <= max_depth C -> (t < n)%nat ->
  Z.of_nat (length (walk t (etrace s))) <= 4 * max_depth C + 3.
Proof. exact (C61_trial_bounded' seqb aeqb seqb_ok aeqb_ok C). Qed.
Theorem C61_trial_progress : forall n s t x, ereach seqb aeqb C n s -> nth_error (ths s) t = Some x -> x <> TIdle ->
  (forall st, is_sink C st = false -> acts C st <> []) ->
  (forall st a, is_sink C st = false -> In a (acts C st) -> succs C st a <> []) ->
  exists l s', (l = LRun t \/ (exists a, l = LSelect t a) \/ (exists o, l = LSample t o)) /\
               estep seqb aeqb C l s = Some s'.
Proof. exact (C61_trial_progress' seqb aeqb seqb_ok aeqb_ok C). Qed.
End Theorems.

Print Assumptions C08_path.
Print Assumptions C08_never_selects_at_end.
Print Assumptions C09_backups.
Print Assumptions C10_idle.
Print Assumptions C10_always.
Print Assumptions C11_one_per_trial.
Print Assumptions C11_tree_size.
Print Assumptions C11_full_length.
Print Assumptions C12_well_formed.
Print Assumptions C13_children_stay.
Print Assumptions C13_create_d.
Print Assumptions C13_create_c.
Print Assumptions C14_shared.
Print Assumptions C14_tree.
Print Assumptions C14_chance_parent.
Print Assumptions C61_trial_bounded.
Print Assumptions C61_trial_progress.

(** ** Examples that meet the hypotheses *)
(** Three trials by two threads, interleaved, in mcts_mode without table: all complete, the second one
    ended at a terminal state, six decision-node and chance-node backups. *)
Example engine_witness : exists s : @est nat bool,
  ereach Nat.eqb Bool.eqb (ex_conf true false) 2 s /\ quiet s /\
  count is_done (etrace s) = 3 /\ length (dh (mem s)) = 3%nat /\ length (ch (mem s)) = 2%nat /\
  (exists w, walk 0 (etrace s) = w ++ [EDone] /\ length w = 10%nat) /\
  (exists w, walk 1 (etrace s) = w ++ [EDone] /\ length w = 10%nat).
Proof.
  eexists. split; [exists ex_run; vm_compute; reflexivity|]. split.
  { intros [|[|[|t]]] x H; cbn in H; congruence. }
  split; [reflexivity|]. split; [reflexivity|]. split; [reflexivity|]. split.
  - eexists (_ :: _ :: _ :: _ :: _ :: _ :: _ :: _ :: _ :: [_]). split; reflexivity.
  - eexists (_ :: _ :: _ :: _ :: _ :: _ :: _ :: _ :: _ :: [_]). split; reflexivity.
Qed.

(** In the middle of two concurrent trials, one of which has just ended its selection phase. *)
Example engine_witness_mid : exists s : @est nat bool,
  ereach Nat.eqb Bool.eqb (ex_conf true false) 2 s /\
  (exists w last hv, walk 0 (etrace s) = w ++ [EFinal last hv] /\ length w = 3%nat) /\
  (exists x, nth_error (ths s) 1 = Some x /\ x <> TIdle).
Proof.
  eexists. split; [exists (firstn 7 ex_run); vm_compute; reflexivity|]. split.
  - eexists [_; _; _], _, _. split; reflexivity.
  - eexists. split; [reflexivity|discriminate].
Qed.

(** With the table two chance nodes share a decision node; without mcts_mode the walk goes on. *)
Example engine_witness_table : exists s : @est nat bool,
  ereach Nat.eqb Bool.eqb (ex_conf false true) 1 s /\
  exists c c' d x x', c <> c' /\
    nth_error (ch (mem s)) c = Some x /\ cchild Nat.eqb (mem s) c 1%nat d /\
    nth_error (ch (mem s)) c' = Some x' /\ cchild Nat.eqb (mem s) c' 1%nat d.
Proof.
  eexists. split; [exists (LStart 0 :: ex_step 0 true 1 ++ ex_step 0 true 2 ++ repeat (LRun 0) 6 ++
                           LStart 0 :: ex_step 0 false 1); vm_compute; reflexivity|].
  exists 0%nat, 2%nat, 1%nat. eexists _, _. split; [discriminate|].
  split; [reflexivity|]. split; [eexists; split; reflexivity|]. split; [reflexivity|]. eexists; split; reflexivity.
Qed.
Example engine_witness_env : forall mcts table,
  (forall st, is_sink (ex_conf mcts table) st = false -> acts (ex_conf mcts table) st <> []) /\
  (forall st a, is_sink (ex_conf mcts table) st = false -> In a (acts (ex_conf mcts table) st) ->
                succs (ex_conf mcts table) st a <> []).
Proof. intros mcts table. split; discriminate. Qed.
