(* C15 and C17: what the locks of the search guarantee, for every number of threads and every schedule. *)
From Coq Require Import List Arith Bool Permutation Lia.
From Verif Require Import LockModel LockSpec LockProofs.
Import ListNotations.

Section Facts.
Variable C : lconf.
Hypothesis perm : reorders C.

Lemma table_owner s t n k rest : lreach C s -> todo s t = ITouch n k :: rest ->
  exists x, nth_error (lnodes s) n = Some x /\ owner s (LTable (mutex_index C (lev x, k))) = Some t.
Proof.
  intros R E. destruct (inv_reach C perm s R) as [T (ph & Ht & Hp & Ho)].
  pose proof (Hp t) as Op. rewrite Ht in E.
  assert (X : forall m b, tail m b <> ITouch n k :: rest) by (intros m [|[] b]; discriminate).
  destruct (ph t) as [|m body|m body|m body|m pre post body|m suf body|m k0 i body|m k0 i body|m k0 i body| | | | |] eqn:Ep;
    cbn [code] in E; try discriminate; try (exfalso; exact (X _ _ E)).
  - destruct post; [destruct pre|]; try discriminate; exfalso; exact (X _ _ E).
  - destruct suf; try discriminate; exfalso; exact (X _ _ E).
  - injection E as <- <- <-. cbn in Op. destruct Op as (x & Ex & _ & _ & _ & -> & _). exists x; split; auto.
    apply Ho. rewrite Ep. cbn. auto.
Qed.

Lemma index_small id : 0 < l_mutexes C -> mutex_index C id < l_mutexes C.
Proof.
  intros P. unfold mutex_index. destruct (Nat.ltb_spec 1 (l_mutexes C)); auto. apply Nat.mod_upper_bound. lia.
Qed.

Lemma table_index s t i rest : lreach C s -> todo s t = ILock (LTable i) :: rest -> exists id, i = mutex_index C id.
Proof.
  intros R E. destruct (inv_reach C perm s R) as [T (ph & Ht & Hp & Ho)].
  pose proof (Hp t) as Op. rewrite Ht in E.
  assert (X : forall m b, tail m b <> ILock (LTable i) :: rest) by (intros m [|[] b]; discriminate).
  destruct (ph t) as [|m body|m body|m body|m pre post body|m suf body|m k0 i0 body|m k0 i0 body|m k0 i0 body| | | | |] eqn:Ep;
    cbn [code] in E; try discriminate; try (exfalso; exact (X _ _ E)).
  - destruct post; [destruct pre|]; try discriminate; exfalso; exact (X _ _ E).
  - destruct suf; try discriminate; exfalso; exact (X _ _ E).
  - injection E as <- <-. cbn in Op. destruct Op as (x & _ & _ & _ & _ & -> & _). eauto.
Qed.
End Facts.

(** * C15: the table mutexes *)

(** Two threads whose node ids are guarded by the same mutex are never both inside the table. *)
Theorem C15_same_mutex_partial C s t u n k n' k' x x' rest rest' :
  reorders C -> lreach C s ->
  todo s t = ITouch n k :: rest -> nth_error (lnodes s) n = Some x ->
  todo s u = ITouch n' k' :: rest' -> nth_error (lnodes s) n' = Some x' ->
  mutex_index C (lev x, k) = mutex_index C (lev x', k') -> t = u.
Proof.
  intros P R E1 N1 E2 N2 I.
  destruct (table_owner C P s t n k rest R E1) as (y & Ny & O1). rewrite N1 in Ny. injection Ny as <-.
  destruct (table_owner C P s u n' k' rest' R E2) as (y & Ny & O2). rewrite N2 in Ny. injection Ny as <-.
  rewrite <- I in O2. congruence.
Qed.
Print Assumptions C15_same_mutex_partial.

(** With one mutex, the default, the table is never used by two threads at once. *)
Theorem C15_one_mutex_partial C s t u :
  reorders C -> l_mutexes C <= 1 -> lreach C s -> in_table s t -> in_table s u -> t = u.
Proof.
  intros P M R (n & k & rest & E1) (n' & k' & rest' & E2).
  destruct (table_owner C P s t n k rest R E1) as (x & Nx & _).
  destruct (table_owner C P s u n' k' rest' R E2) as (x' & Nx' & _).
  eapply C15_same_mutex_partial; eauto.
  unfold mutex_index. rewrite (proj2 (Nat.ltb_ge 1 (l_mutexes C)) M). reflexivity.
Qed.
Print Assumptions C15_one_mutex_partial.

(** The mutex that is locked exists, if there is one at all. *)
Theorem C15_mutex_exists C s t : reorders C -> 0 < l_mutexes C -> lreach C s -> ~ no_such_mutex C s t.
Proof.
  intros P M R (i & rest & E & L). destruct (table_index C P s t i rest R E) as (id & ->).
  pose proof (index_small C id M). lia.
Qed.
Print Assumptions C15_mutex_exists.

(** The algorithms of the library. *)
Definition library : list (bool -> list (list act)) :=
  [uct_bodies; ments_bodies; dbments_bodies; dents_bodies; est_bodies; tents_bodies].

(** A search in which the root gets the children 1 and 2: thread 0 selects an action, twice. *)
Definition root_children : list llabel :=
  LBegin 0 0 1 :: repeat (LGo 0 0 0) 6 ++ LBegin 0 0 1 :: repeat (LGo 0 1 0) 8.
(** Thread t starts to sample an outcome below chance node n, and goes on until it needs the table mutex. *)
Definition to_table (t n k : nat) : list llabel := LBegin t n 1 :: repeat (LGo t k 0) 4.

Definition plain_order : nat -> list (nat * nat) -> list (nat * nat) := fun _ l => l.

Lemma lrun_app C a : forall b s, lrun C s (a ++ b) = match lrun C s a with Some s' => lrun C s' b | None => None end.
Proof. induction a as [|l a IH]; intros b s; cbn; auto. destruct (lstep C s l); auto. Qed.

(** ** C15 is false with several mutexes: whenever two node ids are guarded by different mutexes, two threads can be
    inside the table at the same time, whatever the algorithm. *)
Theorem C15_several_mutexes_refuted bodies mutexes hash k1 k2 log :
  In bodies library -> 1 < mutexes -> hash (1, k1) mod mutexes <> hash (1, k2) mod mutexes ->
  let C := mkLc true mutexes hash bodies log plain_order in
  exists s, lreach C s /\ in_table s 0 /\ in_table s 1.
Proof.
  intros B M H C.
  assert (I1 : mutex_index C (1, k1) <> mutex_index C (1, k2)).
  { unfold mutex_index. cbn [l_mutexes l_hash C]. rewrite (proj2 (Nat.ltb_lt 1 mutexes) M). exact H. }
  set (ls := root_children ++ to_table 0 1 k1 ++ to_table 1 2 k2).
  assert (X : match lrun C linit ls with
              | Some s => todo s 0 = [ILock (LTable (mutex_index C (1, k1))); ITouch 1 k1; IUnlock (LTable (mutex_index C (1, k1))); IUnlock (LNode 1)] /\
                          todo s 1 = [ILock (LTable (mutex_index C (1, k2))); ITouch 2 k2; IUnlock (LTable (mutex_index C (1, k2))); IUnlock (LNode 2)] /\
                          (forall i, owner s (LTable i) = None)
              | None => False
              end).
  { unfold ls, C. cbn in B. decompose [or] B; clear B; try contradiction; subst bodies; lazy -[mutex_index]; auto. }
  destruct (lrun C linit ls) as [s|] eqn:R; [|contradiction]. destruct X as (E1 & E2 & O).
  set (i := mutex_index C (1, k1)) in *. set (j := mutex_index C (1, k2)) in *.
  assert (R2 : lrun C s [LGo 0 0 0; LGo 1 0 0] = Some
     (mkLs (lnodes s) (table s) (set_owner (set_owner (owner s) (LTable i) (Some 0)) (LTable j) (Some 1))
        (set_todo (set_todo (todo s) 0 [ITouch 1 k1; IUnlock (LTable i); IUnlock (LNode 1)]) 1 [ITouch 2 k2; IUnlock (LTable j); IUnlock (LNode 2)]))).
  { cbn [lrun lstep]. rewrite E1, O. cbn [todo owner]. unfold set_todo at 1. cbn [Nat.eqb]. rewrite E2.
    unfold set_owner at 1. cbn [lock_eqb]. rewrite (proj2 (Nat.eqb_neq j i)) by auto. rewrite O. reflexivity. }
  eexists. split.
  - exists (ls ++ [LGo 0 0 0; LGo 1 0 0]).
    rewrite lrun_app, R. exact R2.
  - split; do 3 eexists; cbn; reflexivity.
Qed.
Print Assumptions C15_several_mutexes_refuted.

(** The hypotheses are met, for instance, with two mutexes and the timestep plus the outcome as hash. *)
Example C15_several_mutexes_witness :
  exists s, lreach (mkLc true 2 (fun id => fst id + snd id) uct_bodies false plain_order) s /\ in_table s 0 /\ in_table s 1.
Proof. apply (C15_several_mutexes_refuted uct_bodies 2 (fun id => fst id + snd id) 0 1 false); cbn; auto; lia. Qed.

(** With no mutex at all (num_transposition_table_mutexes = 0) a mutex that does not exist is locked. *)
Theorem C15_no_mutex_refuted bodies hash log :
  In bodies library ->
  let C := mkLc true 0 hash bodies log plain_order in
  exists s, lreach C s /\ no_such_mutex C s 0.
Proof.
  intros B C. set (ls := root_children ++ to_table 0 1 0).
  assert (X : match lrun C linit ls with
              | Some s => todo s 0 = [ILock (LTable 0); ITouch 1 0; IUnlock (LTable 0); IUnlock (LNode 1)]
              | None => False
              end).
  { unfold ls, C. cbn in B. decompose [or] B; clear B; try contradiction; subst bodies; lazy; auto. }
  destruct (lrun C linit ls) as [s|] eqn:R; [|contradiction].
  exists s. split; [exists ls; auto|]. exists 0. eexists. split; [eauto|]. cbn. lia.
Qed.
Print Assumptions C15_no_mutex_refuted.

(** * C17: deadlock *)

(** Every thread that is waiting is waiting, possibly through others, for a thread that can go on. *)
Definition never_stuck (C : lconf) (s : lstate) : Prop :=
  ~ deadlock s /\ forall t, todo s t <> [] -> exists u, waits_star s t u /\ can_go C s u.

(** Without transposition table no schedule of any number of threads reaches a deadlock, whatever the algorithm locks
    while it holds a node: all children, one child, the random number generator; and with or without logging. *)
Theorem C17_without_table_partial C s :
  reorders C -> l_tt C = false -> lreach C s -> never_stuck C s.
Proof.
  intros P T R. assert (I := inv_reach C P s R). split.
  - eapply no_deadlock; eauto.
  - intros t. apply progress; auto.
Qed.
Print Assumptions C17_without_table_partial.

(** With transposition table the same holds for the algorithms whose chance nodes do not lock all their children: UCT
    and PUCT. *)
Theorem C17_table_partial C s :
  reorders C -> chance_keeps_off C -> lreach C s -> never_stuck C s.
Proof.
  intros P T R. assert (I := inv_reach C P s R). split.
  - eapply no_deadlock; eauto.
  - intros t. apply progress; auto.
Qed.
Print Assumptions C17_table_partial.

Theorem C17_uct_partial C s : reorders C -> l_bodies C = uct_bodies -> lreach C s -> never_stuck C s.
Proof.
  intros P B. apply C17_table_partial; auto. intros body. rewrite B. cbn. intros [<-|[<-|[]]]; cbn; intuition discriminate.
Qed.
Print Assumptions C17_uct_partial.

(** Also, what a thread locks it releases: an idle thread holds nothing, so when all are idle everything is unlocked. *)
Theorem C17_all_released C s l t : reorders C -> lreach C s -> owner s l = Some t -> todo s t <> [].
Proof.
  intros P R O. destruct (inv_reach C P s R) as [T (ph & Ht & Hp & Ho)]. apply Ho in O. rewrite Ht.
  destruct (ph t) as [|m body|m body|m body|m pre post body|m suf body|m k0 i body|m k0 i body|m k0 i body| | | | |];
    cbn in O |- *; try discriminate; try contradiction.
  - destruct body as [|[] ?]; discriminate.
  - destruct post; [destruct pre|]; try discriminate. destruct body as [|[] ?]; discriminate.
  - destruct suf; try discriminate. destruct body as [|[] ?]; discriminate.
Qed.
Print Assumptions C17_all_released.

(** A child of a chance node, created or shared, from the start of the section to its end. *)
Definition sample (t n k : nat) : list llabel := LBegin t n 1 :: repeat (LGo t k 0) 8.

(** Chance nodes 1 and 2 get the same two children, but in different orders; then two backups start on them. *)
Definition crossing : list llabel :=
  root_children ++ sample 0 1 0 ++ sample 0 1 1 ++ sample 0 2 1 ++ sample 0 2 0 ++
  LBegin 0 1 2 :: repeat (LGo 0 0 0) 3 ++ LBegin 1 2 2 :: repeat (LGo 1 0 0) 3.

(** ** C17 is false with transposition table for all the algorithms whose chance nodes lock their children in a backup
    (MENTS and RENTS, DBMENTS, DENTS, EST, TENTS): two threads wait for each other. *)
Theorem C17_table_refuted bodies hash log :
  In bodies [ments_bodies; dbments_bodies; dents_bodies; est_bodies; tents_bodies] ->
  let C := mkLc true 1 hash bodies log plain_order in
  exists s, lreach C s /\ deadlock s /\ waits s 0 1 /\ waits s 1 0.
Proof.
  intros B C.
  assert (X : match lrun C linit crossing with
              | Some s => (hd_error (todo s 0) = Some (ILock (LNode 3)) /\ owner s (LNode 3) = Some 1) /\
                          (hd_error (todo s 1) = Some (ILock (LNode 4)) /\ owner s (LNode 4) = Some 0)
              | None => False
              end).
  { unfold C. cbn in B. decompose [or] B; clear B; try contradiction; subst bodies; lazy; auto. }
  destruct (lrun C linit crossing) as [s|] eqn:R; [|contradiction]. destruct X as [[E1 O1] [E2 O2]].
  assert (W1 : waits s 0 1).
  { destruct (todo s 0) as [|i0 r0] eqn:E; [discriminate|]. injection E1 as ->. exists (LNode 3), r0; auto. }
  assert (W2 : waits s 1 0).
  { destruct (todo s 1) as [|i0 r0] eqn:E; [discriminate|]. injection E2 as ->. exists (LNode 4), r0; auto. }
  exists s. split; [exists crossing; auto|]. split; auto. exists [0; 1]. split; [discriminate|].
  intros t [<-|[<-|[]]]; [exists 1|exists 0]; cbn; auto.
Qed.
Print Assumptions C17_table_refuted.

(** The positive theorems speak about busy states: here two threads are inside backups of the two children of the root,
    holding the chance node and its children, and a third waits for one of them. *)
Example C17_witness :
  let C := mkLc false 1 (fun _ => 0) ments_bodies true plain_order in
  exists s, lreach C s /\ waits s 2 0 /\ todo s 0 <> [] /\ todo s 1 <> [] /\ owner s (LNode 3) = Some 0.
Proof.
  set (C := mkLc false 1 (fun _ => 0) ments_bodies true plain_order).
  set (ls := root_children ++ (LBegin 0 1 1 :: repeat (LGo 0 0 0) 5) ++ (LBegin 0 2 1 :: repeat (LGo 0 0 0) 5) ++
             (LBegin 0 1 2 :: repeat (LGo 0 0 0) 3) ++ (LBegin 1 2 2 :: repeat (LGo 1 0 0) 3) ++ [LBegin 2 1 0]).
  assert (X : match lrun C linit ls with
              | Some s => (hd_error (todo s 2) = Some (ILock (LNode 1)) /\ owner s (LNode 1) = Some 0) /\
                          todo s 0 <> [] /\ todo s 1 <> [] /\ owner s (LNode 3) = Some 0
              | None => False
              end).
  { lazy. repeat split; discriminate. }
  destruct (lrun C linit ls) as [s|] eqn:R; [|contradiction]. destruct X as [[E1 O1] X].
  exists s. split; [exists ls; auto|]. split; auto.
  destruct (todo s 2) as [|i0 r0] eqn:E; [discriminate|]. injection E1 as ->. exists (LNode 1), r0; auto.
Qed.
