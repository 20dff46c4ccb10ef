(** Property theorems: nodes and managers live exactly as long as somebody needs them, C102. *)
From Coq Require Import List Arith Bool Lia.
From Verif Require Import RcModel RcSpec RcProofs.
Import ListNotations.

(** After every history of operations, on any number of managers and trees, with or without transposition table, an object
    exists exactly if it is wanted: somebody outside points to it, or it is a child or the manager of a wanted node. So nothing
    that can still be reached has been destroyed, and nothing else is left. *)
Theorem C102_exact : forall stack tt l s, rhist stack tt rnew l = Some s -> forall x, exists_now s x <-> wanted s x.
Proof. intros stack tt l s H x. pose proof (hist_good _ _ _ _ _ good_new H) as G. split; [apply exists_wanted|apply wanted_exists]; auto. Qed.
Print Assumptions C102_exact.

(** In particular, once all pointers have been given up nothing is left, in whatever order that happened. *)
Theorem C102_no_leak : forall stack tt l s, rhist stack tt rnew l = Some s -> hands s = [] -> forall x, ~ exists_now s x.
Proof.
  intros stack tt l s H E x X. apply (C102_exact _ _ _ _ H) in X. induction X as [x I|n lev m kids u k c X IH En I|n lev m kids u X IH En]; auto.
  rewrite E in I. destruct I.
Qed.
Print Assumptions C102_no_leak.

(** While somebody holds a node, its whole subtree and its manager can be used. *)
Theorem C102_subtree_kept : forall stack tt l s n lev m kids u, rhist stack tt rnew l = Some s ->
  exists_now s n -> nth_error (heap s) n = Some (mkO (Node lev m kids) u) -> exists_now s m /\ forall k c, In (k, c) kids -> exists_now s c.
Proof.
  intros stack tt l s n lev m kids u H X E. pose proof (C102_exact _ _ _ _ H) as Q. apply Q in X.
  split; [|intros k c I]; apply Q; [eapply wanted_mgr|eapply wanted_kid]; eauto.
Qed.
Print Assumptions C102_subtree_kept.

(** No operation releases an object twice, and giving up a pointer nests at most L + 2 destructor calls if no node is deeper
    than L: at most 2 * D + 2 in a search with maximal depth D. *)
Theorem C102_no_crash : forall stack tt l s L o, rhist stack tt rnew l = Some s -> no_deeper L s -> L + 2 <= stack ->
  rdo stack tt s o <> Crash.
Proof.
  intros stack tt l s L o H Nd Le E. destruct (rdo_ok stack tt L s o (hist_good _ _ _ _ _ good_new H)) as [R|(s' & R & _)]; [auto|congruence|congruence].
Qed.
Print Assumptions C102_no_crash.
(** So every history runs, given stack enough. *)
Theorem C102_runs : forall stack tt l, length l + 2 <= stack -> exists s, rhist stack tt rnew l = Some s.
Proof.
  intros stack tt l Le. apply (hist_runs stack tt l rnew 0); auto; [apply good_new|]. intros [|x] lev m kids u E; discriminate.
Qed.
Print Assumptions C102_runs.

(** use_count() of every object is the number of pointers to it: those held outside and those in nodes that exist. *)
Theorem C102_use_count : forall stack tt l s x o, rhist stack tt rnew l = Some s -> nth_error (heap s) x = Some o ->
  uses o = count_occ Nat.eq_dec (hands s) x + count_occ Nat.eq_dec (flat_map (fun y => links (what y)) (filter (fun y => negb (uses y =? 0)) (heap s))) x.
Proof.
  intros stack tt l s x o H E. rewrite (g_count s (hist_good _ _ _ _ _ good_new H) x o E). f_equal. clear. induction (heap s) as [|a h IH]; auto.
  cbn [flat_map filter]. rewrite count_occ_app, IH. unfold strong. destruct (uses a); cbn [Nat.eqb negb flat_map]; [reflexivity|]. rewrite count_occ_app. auto.
Qed.
Print Assumptions C102_use_count.

(** Two trees built with one manager share node 3 through the table. Giving up the manager and the first root leaves the
    second tree with the shared node; giving up the second leaves nothing. *)
Definition two_trees : list rop :=
  [RMgr; RRoot 0; RChild 1 0; RTake 2; RChild 2 7; RRoot 0; RChild 4 0; RTake 5; RChild 5 7; RDrop 2; RDrop 5; RDrop 0; RDrop 1].
Example C102_witness :
  (exists s, rhist 4 true rnew two_trees = Some s /\ map uses (heap s) = [3; 0; 0; 1; 1; 1] /\ hands s = [4] /\ no_deeper 2 s) /\
  (exists s, rhist 4 true rnew (two_trees ++ [RDrop 4]) = Some s /\ map uses (heap s) = [0; 0; 0; 0; 0; 0] /\ hands s = []).
Proof.
  split; eexists; (split; [reflexivity|]); (split; [reflexivity|]); [split; [reflexivity|]|reflexivity].
  intros x lev m kids u E. do 6 (destruct x as [|x]; [cbn in E; try discriminate; injection E as <- <- <- <-; lia|]). destruct x; discriminate.
Qed.
(** The bound on nested calls is sharp. *)
Example C102_sharp : rhist 4 true rnew (two_trees ++ [RDrop 4]) <> None /\ rhist 3 true rnew (two_trees ++ [RDrop 4]) = None.
Proof. split; [discriminate|reflexivity]. Qed.
