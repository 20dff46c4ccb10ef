(* C82: data races. *)
From Coq Require Import List Arith Bool Permutation Lia.
From Verif Require Import LockModel AccessModel AccessSpec AccessProofs.
Import ListNotations.

(** UCT and PUCT; MENTS and RENTS; DB-MENTS; DENTS; EST; TENTS. *)
Definition searches : list (bool -> list (list mact)) :=
  [uct_sections; ments_sections; dbments_sections; dents_sections; est_sections; tents_sections].

Lemma not_peek c bodies : In bodies searches -> forall body, In body (bodies c) -> ~ In PeekKids body.
Proof.
  intros I. repeat (destruct I as [<-|I]; [destruct c; cbn; intuition (subst; cbn in *; intuition discriminate)|]). destruct I.
Qed.

(** * C82 *)

(** Whatever the algorithm: if its methods read no child they have not locked, no two threads are ever about to access
    the same data, be it to read or to write it. For the table this needs a single mutex (see C15). *)
Theorem C82_exclusive (A : aconf) (s : astate) (d : data) (t u : nat) (w w' : bool) :
  areorders A -> locks_children A -> (d = DTable -> a_tt A = false \/ a_mutexes A <= 1) -> areach A s ->
  about_to s t w d -> about_to s u w' d -> t = u.
Proof.
  intros P L O R. destruct d.
  - apply (exclusive A P L false); auto; [discriminate|]. right; discriminate.
  - apply (exclusive A P L true); auto.
  - apply (exclusive A P L false); auto; [discriminate|]. right; discriminate.
  - apply (exclusive A P L false); auto; [discriminate|]. right; discriminate.
Qed.
Print Assumptions C82_exclusive.

(** No search of the library, with any number of threads, has a data race. *)
Theorem C82_searches (A : aconf) (s : astate) (d : data) :
  areorders A -> In (a_bodies A) searches -> (d = DTable -> a_tt A = false \/ a_mutexes A <= 1) -> areach A s -> ~ race s d.
Proof.
  intros P L O R (t & u & w & w' & N & Ht & Hu & _). apply N.
  refine (C82_exclusive A s d t u w w' P _ O R Ht Hu). intros c body. exact (not_peek c _ L body).
Qed.
Print Assumptions C82_searches.

(** Nor has it one with a user who recommends actions by value for DB-MENTS, DENTS and EST in the meantime, at nodes the
    user has locked. *)
Theorem C82_recommend_partial (A : aconf) (bodies : bool -> list (list mact)) (s : astate) (d : data) :
  areorders A -> In bodies searches -> a_bodies A = recommending recommend_locked bodies ->
  (d = DTable -> a_tt A = false \/ a_mutexes A <= 1) -> areach A s -> ~ race s d.
Proof.
  intros P L E O R (t & u & w & w' & N & Ht & Hu & _). apply N.
  refine (C82_exclusive A s d t u w w' P _ O R Ht Hu). intros c body. rewrite E. unfold recommending. destruct c.
  - exact (not_peek true _ L body).
  - rewrite in_app_iff. intros [H|[<-|[]]]; [exact (not_peek false _ L body H)|]. cbn. intuition discriminate.
Qed.
Print Assumptions C82_recommend_partial.

(** * Schedules *)
Definition go (t k n : nat) : list llabel := repeat (LGo t k 0) n.
(** Thread 0 selects the first action and creates the child 1 of the root; thread 1 recommends an action at the root,
    thread 0 continues at the child. *)
Definition meanwhile (b : nat) : list llabel := LBegin 0 0 0 :: go 0 0 10 ++ LBegin 1 0 b :: go 1 0 3 ++ [LBegin 0 1 0; LGo 0 0 0].
Definition config (tt : bool) (mutexes : nat) (hash : nat * nat -> nat) (log : bool) (bodies : bool -> list (list mact)) : aconf :=
  mkAc tt mutexes hash bodies log (fun _ l => l).

(** But with the recommendations of UCT and MENTS, or by visits, there is one for every algorithm and setting, although the
    user holds the lock of the node: the user reads the child that a thread of the search is changing. *)
Theorem C82_recommend_refuted (bodies : bool -> list (list mact)) (tt : bool) (mutexes : nat) (hash : nat * nat -> nat) (log : bool) :
  In bodies searches ->
  exists s, areach (config tt mutexes hash log (recommending recommend_unlocked bodies)) s /\ race s (DNode 1).
Proof.
  intros I.
  assert (H : exists s, arun (config tt mutexes hash log (recommending recommend_unlocked bodies)) ainit
                          (meanwhile (length (bodies false))) = Some s /\
                        (exists r, atodo s 1 = Access false (DNode 1) :: r) /\ (exists r, atodo s 0 = Access true (DNode 1) :: r)).
  { repeat (destruct I as [<-|I]; [destruct tt; eexists; (split; [lazy; reflexivity|]); split; eexists; lazy; reflexivity|]).
    destruct I. }
  destruct H as (s & R & (r1 & E1) & (r0 & E0)). exists s. split; [now exists (meanwhile (length (bodies false)))|].
  exists 1, 0, false, true. split; [discriminate|]. split; [exists (Access false (DNode 1)), r1; split; [exact E1|now left]|].
  split; [exists (Access true (DNode 1)), r0; split; [exact E0|now left]|]. now right.
Qed.
Print Assumptions C82_recommend_refuted.

(** With more than one mutex for the table, two threads of a search can be changing it at the same time (C15). *)
Theorem C82_table_refuted : exists s, areach (config true 2 snd false uct_sections) s /\ race s DTable.
Proof.
  set (ls := LBegin 0 0 0 :: go 0 0 10 ++ LBegin 0 0 0 :: go 0 1 13 ++ LBegin 0 1 0 :: go 0 0 7 ++ LBegin 1 2 0 :: go 1 1 7).
  assert (H : exists s, arun (config true 2 snd false uct_sections) ainit ls = Some s /\
                (exists r, atodo s 0 = Do (ITouch 1 0) :: r) /\ (exists r, atodo s 1 = Do (ITouch 2 1) :: r)).
  { eexists; (split; [lazy; reflexivity|]); split; eexists; lazy; reflexivity. }
  destruct H as (s & R & (r0 & E0) & (r1 & E1)). exists s. split; [now exists ls|].
  exists 0, 1, true, true. split; [discriminate|]. split; [eexists _, r0; split; [exact E0|right; now left]|].
  split; [eexists _, r1; split; [exact E1|right; now left]|]. now right.
Qed.
Print Assumptions C82_table_refuted.

(** The hypotheses can be met: in the same situation with a recommendation that locks the children, the user is about to
    read the child, and the thread of the search has to wait. *)
Example access_witness : exists s,
  areorders (config true 1 snd true (recommending recommend_locked dents_sections)) /\
  areach (config true 1 snd true (recommending recommend_locked dents_sections)) s /\
  about_to s 1 false (DNode 1) /\ (exists r, atodo s 0 = Do (ILock (LNode 1)) :: r) /\ aowner s (LNode 1) = Some 1.
Proof.
  set (A := config true 1 snd true (recommending recommend_locked dents_sections)).
  set (ls := LBegin 0 0 0 :: go 0 0 10 ++ LBegin 1 0 4 :: go 1 0 4 ++ [LBegin 0 1 0]).
  assert (H : exists s, arun A ainit ls = Some s /\ (exists r, atodo s 1 = Access false (DNode 1) :: r) /\
            (exists r, atodo s 0 = Do (ILock (LNode 1)) :: r) /\ aowner s (LNode 1) = Some 1).
  { eexists; (split; [lazy; reflexivity|]); split; [|split]; [eexists; lazy; reflexivity..|lazy; reflexivity]. }
  destruct H as (s & R & (r & E1) & E0 & Ow). exists s.
  split; [intros n l; apply Permutation_refl|]. split; [now exists ls|].
  split; [exists (Access false (DNode 1)), r; split; [exact E1|now left]|]. split; assumption.
Qed.
