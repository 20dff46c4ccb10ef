(** C81: printed states, actions, vectors, maps and tables. *)
From Coq Require Import List ZArith Bool String Permutation.
From Verif Require Import Base TypesModel PrintModel PrintSpec PrintProofs.
Import ListNotations.
Local Open Scope string_scope.

(** Reading a printed integer gives it back. *)
Theorem C81_ints : forall z, read_int (print_int z) = Some z.
Proof. exact read_print. Qed.
(** States of all classes that print alike are equal; only the base classes cannot be printed. *)
Theorem C81_states : forall x y s, obs_print x = Ok s -> obs_print y = Ok s -> x = y.
Proof. exact print_state_inj. Qed.
Theorem C81_states_printable : forall x, (exists s, obs_print x = Ok s) <-> x <> NullObs /\ x <> NullState.
Proof. intros [| | | |]; cbn; split; try (intros [s H]; discriminate H); try (intros [H K]; congruence); intros _; try (eexists; reflexivity); (split; discriminate). Qed.
(** The same for the ids of nodes. *)
Theorem C81_ids : forall x y s, id_print x = Ok s -> id_print y = Ok s -> x = y.
Proof. exact print_id_inj. Qed.
(** Actions of one class that print alike are equal ... *)
Theorem C81_actions_partial : (forall a b s, action_print (IntAction a) = Ok s -> action_print (IntAction b) = Ok s -> a = b) /\
  forall a b s, action_print (StringAction a) = Ok s -> action_print (StringAction b) = Ok s -> a = b.
Proof. split; cbn; intros a b s [= <-] [= E]; [symmetry; apply print_int_inj; exact E|congruence]. Qed.
(** ... but not actions of different classes. *)
Theorem C81_actions_refuted : exists x y s, action_print x = Ok s /\ action_print y = Ok s /\ x <> y.
Proof. exists (IntAction 7), (StringAction "7"), "7". repeat split. discriminate. Qed.
(** A vector is printed as its elements in order, between brackets and with commas between them; if one of them cannot
    be printed, nothing is. *)
Theorem C81_vectors : forall (T : Type) (show : T -> outcome string) l s,
  vector_print show l = Ok s <-> exists ss, shown show l ss /\ s = listing "[" "]" ss.
Proof. exact vector_printed. Qed.
(** Vectors of int actions that print alike are equal; of string actions not. *)
Theorem C81_int_vectors : forall l1 l2 s,
  vector_print action_print (map IntAction l1) = Ok s -> vector_print action_print (map IntAction l2) = Ok s -> l1 = l2.
Proof. exact int_vector_inj. Qed.
Theorem C81_string_vectors_refuted : exists l1 l2 s,
  vector_print action_print (map StringAction l1) = Ok s /\ vector_print action_print (map StringAction l2) = Ok s /\ l1 <> l2.
Proof. exists ["a"; "b"], ["a,b"], "[a,b]". repeat split. discriminate. Qed.
(** A map is printed as its entries in iteration order. *)
Theorem C81_maps : forall (K V : Type) (show_k : K -> outcome string) (show_v : V -> outcome string) delimiter m s,
  map_print show_k show_v delimiter m = Ok s <-> exists ks vs, shown show_k (map fst m) ks /\ shown show_v (map snd m) vs /\
    s = listing "{" "}" (map (fun '(k, v) => k ++ delimiter ++ v) (combine ks vs)).
Proof. exact map_printed. Qed.
(** Equal maps with different iteration orders print differently. *)
Theorem C81_equal_maps_refuted : exists (m1 m2 : list (action * Z)) s1 s2, Permutation m1 m2 /\ NoDup (map fst m1) /\
  map_print action_print (fun v => Ok (print_int v)) ":" m1 = Ok s1 /\
  map_print action_print (fun v => Ok (print_int v)) ":" m2 = Ok s2 /\ s1 <> s2.
Proof.
  exists [(IntAction 1, 2%Z); (IntAction 3, 4%Z)], [(IntAction 3, 4%Z); (IntAction 1, 2%Z)], "{1:2,3:4}", "{3:4,1:2}".
  split; [constructor|]. split; [|repeat split; discriminate].
  constructor; [cbn; intros [H|[]]; discriminate H|constructor; [intros []|constructor]].
Qed.
(** The transposition table is printed with an entry for each id if all its nodes are alive; otherwise printing throws. *)
Theorem C81_table : forall (P : Type) (show : P -> string) order (tbl : list ((Z * obs) * option P)),
  (exists k, In (k, None) tbl) -> table_print show order tbl = Throw.
Proof.
  intros P show order tbl (k & I). unfold table_print. destruct (locked _ _ tbl) as [(l & _ & E)|(-> & _)]; [|reflexivity].
  exfalso. rewrite E in I. apply in_map_iff in I. destruct I as ([? ?] & [=] & _).
Qed.
Theorem C81_table_alive : forall (P : Type) (show : P -> string) order (l : list ((Z * obs) * P)) s,
  (forall l, Permutation (order l) l) ->
  table_print show order (map (fun '(k, p) => (k, Some p)) l) = Ok s ->
  exists l' ks, Permutation l' l /\ shown id_print (map fst l') ks /\
    s = listing "{" "}" (map (fun '(k, v) => k ++ ":" ++ v) (combine ks (map (fun e => show (snd e)) l'))).
Proof.
  intros P show order l s Ord H. unfold table_print in H.
  assert (E : table_lock (map (fun '(k, p) => (k, Some p)) l) = Ok l) by (clear; induction l as [|[k p] r IH]; [reflexivity|]; cbn [map table_lock]; rewrite IH; reflexivity).
  rewrite E in H. cbn [bind] in H. apply map_printed in H. destruct H as (ks & vs & A & B & ->). exists (order l), ks. split; [apply Ord|].
  split; [exact A|]. do 3 f_equal. revert B. generalize (order l). clear. intros l. revert vs.
  induction l as [|e l IH]; intros vs B; inversion B; subst; cbn; [reflexivity|]. f_equal; [congruence|]. apply IH. assumption.
Qed.
Print Assumptions C81_ints.
Print Assumptions C81_states.
Print Assumptions C81_states_printable.
Print Assumptions C81_ids.
Print Assumptions C81_actions_partial.
Print Assumptions C81_actions_refuted.
Print Assumptions C81_vectors.
Print Assumptions C81_int_vectors.
Print Assumptions C81_string_vectors_refuted.
Print Assumptions C81_maps.
Print Assumptions C81_equal_maps_refuted.
Print Assumptions C81_table.
Print Assumptions C81_table_alive.

(** Cases that meet the hypotheses. *)
Example print_witness : obs_print (Int3TupleState 0 (-12) 305) = Ok "(0,-12,305)" /\ id_print (3, IntState (-4))%Z = Ok "DNodeId(3,(-4))" /\
  vector_print action_print (map IntAction [1; -20; 3]%Z) = Ok "[1,-20,3]" /\ read_int "-305" = Some (-305)%Z /\
  table_print (fun p : string => p) (@rev _) [((0, IntState 1)%Z, Some "p"); ((1, IntState 2)%Z, Some "q")] =
    Ok "{DNodeId(1,(2)):q,DNodeId(0,(1)):p}" /\
  table_print (fun p : string => p) (@rev _) [((0, IntState 1)%Z, Some "p"); ((1, IntState 2)%Z, None)] = Throw.
Proof. repeat split. Qed.
