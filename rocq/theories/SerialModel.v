(** Locked sections with the data they read and write.

    AccessModel.v says when a thread accesses which node; here the accesses have an effect. A thread runs sections one
    after another; which one comes next depends on what it has seen so far. A section locks a node, reads and writes the
    node's members in several steps, may lock some children, read them one by one and unlock them again, may look up and
    change the transposition table under its mutex, and may create a child.

    The section programs are parameters (functions on node contents and the thread's local variables), so this covers the
    select_action, sample_observation and backup methods of every algorithm; AccessModel.v lists their structure.

    Simplifications. Random numbers come with the thread's local variables: each thread gets some sequence of
    draws, whatever the order in which threads use the shared generator, and theorems hold for all sequences.
    The address of a new node consists of the thread that creates it and a number, since addresses are never inspected.
    The table has one mutex (see C15 for more). Nodes are not destroyed during a search. *)
From Coq Require Import List Arith Bool.
Import ListNotations.

Definition addr : Type := (nat * nat)%type.
Definition addr_eqb (a b : addr) : bool := (fst a =? fst b) && (snd a =? snd b).

Section Serial.
(** Contents of a node (all members, including the map of children), local variables of a thread, the table. *)
Context {V L T : Type}.

(** One part of a section. [Own]: access to the node's own members. [Look sel f]: lock the children [sel], read them, use
    what was read, unlock them (lock_all_children ... unlock_all_children, or a single child). [Table f]: the look-up and
    insertion of src/thts_chance_node.cpp:119-129; it may create a node. [New f]: a new child,
    src/thts_decision_node.cpp:113-118. [f] gets the address a new node would have. *)
Inductive micro : Type :=
| Own (f : V -> L -> V * L)
| Look (sel : V -> L -> list addr) (f : list V -> L -> L)
| Table (f : T -> V -> L -> addr -> T * V * L * option V)
| New (f : V -> L -> addr -> V * L * V).

Definition upd {X} (h : addr -> X) (a : addr) (x : X) : addr -> X := fun b => if addr_eqb b a then x else h b.
Definition updt {X} (h : nat -> X) (t : nat) (x : X) : nat -> X := fun u => if u =? t then x else h u.
Definition alloc (h : addr -> option V) (a : addr) (v : option V) : addr -> option V :=
  match v with Some _ => upd h a v | None => h end.
Definition bump (k : nat) (v : option V) : nat := match v with Some _ => S k | None => k end.

(** The section a thread with these local variables runs next: the node and the program. [None]: it is finished.
    src/thts.cpp:124-220: run_selection_phase and run_backup_phase. *)
Variable next : L -> option (addr * list micro).

(** * Threads interleaved at single operations *)

Inductive op : Type :=
| OLock (a : addr) | OUnlock (a : addr) | OLockT | OUnlockT
| OOwn (f : V -> L -> V * L)
| OLook (sel : V -> L -> list addr) (f : list V -> L -> L) | ORead (a : addr) | OUse (f : list V -> L -> L)
| OTable (f : T -> V -> L -> addr -> T * V * L * option V)
| ONew (f : V -> L -> addr -> V * L * V).

(** The operations of one part, of a section. *)
Definition ops (m : micro) : list op :=
  match m with
  | Own f => [OOwn f]
  | Look sel f => [OLook sel f]
  | Table f => [OLockT; OTable f; OUnlockT]
  | New f => [ONew f]
  end.
Definition section (n : addr) (p : list micro) : list op := OLock n :: flat_map ops p ++ [OUnlock n].
(** lock_all_children, reading, unlock_all_children: src/thts_decision_node.cpp:67-80, src/thts_chance_node.cpp:63-76. *)
Definition look (cs : list addr) (f : list V -> L -> L) : list op :=
  map OLock cs ++ map ORead cs ++ OUse f :: map OUnlock cs.

(** Of a thread: local variables, number of nodes created, children read so far, what is left of the section, its node. *)
Record thr : Type := mkThr { loc : L; cnt : nat; buf : list V; code : list op; cur : addr }.
Record cst : Type := mkCst {
  heap : addr -> option V;
  tab : T;
  owner : addr -> option nat;     (* who has locked a node *)
  towner : option nat;            (* who has locked the table *)
  thrs : nat -> thr
}.

Inductive clabel : Type := CBegin (t : nat) | CGo (t : nat).

Definition cstep (s : cst) (lb : clabel) : option cst :=
  match lb with
  | CBegin t =>
      let x := thrs s t in
      match code x, next (loc x) with
      | [], Some (n, p) =>
          match heap s n with
          | Some _ => Some (mkCst (heap s) (tab s) (owner s) (towner s) (updt (thrs s) t (mkThr (loc x) (cnt x) [] (section n p) n)))
          | None => None
          end
      | _, _ => None
      end
  | CGo t =>
      let x := thrs s t in
      let go h tb o w y := Some (mkCst h tb o w (updt (thrs s) t y)) in
      match code x with
      | [] => None
      | OLock a :: r =>
          match owner s a with
          | None => go (heap s) (tab s) (upd (owner s) a (Some t)) (towner s) (mkThr (loc x) (cnt x) (buf x) r (cur x))
          | Some _ => None
          end
      | OUnlock a :: r => go (heap s) (tab s) (upd (owner s) a None) (towner s) (mkThr (loc x) (cnt x) (buf x) r (cur x))
      | OLockT :: r =>
          match towner s with
          | None => go (heap s) (tab s) (owner s) (Some t) (mkThr (loc x) (cnt x) (buf x) r (cur x))
          | Some _ => None
          end
      | OUnlockT :: r => go (heap s) (tab s) (owner s) None (mkThr (loc x) (cnt x) (buf x) r (cur x))
      | OOwn f :: r =>
          match heap s (cur x) with
          | Some v => let '(v1, l1) := f v (loc x) in
              go (upd (heap s) (cur x) (Some v1)) (tab s) (owner s) (towner s) (mkThr l1 (cnt x) (buf x) r (cur x))
          | None => None
          end
      | OLook sel f :: r =>
          match heap s (cur x) with
          | Some v => go (heap s) (tab s) (owner s) (towner s) (mkThr (loc x) (cnt x) [] (look (sel v (loc x)) f ++ r) (cur x))
          | None => None
          end
      | ORead a :: r =>
          match heap s a with
          | Some v => go (heap s) (tab s) (owner s) (towner s) (mkThr (loc x) (cnt x) (buf x ++ [v]) r (cur x))
          | None => None
          end
      | OUse f :: r => go (heap s) (tab s) (owner s) (towner s) (mkThr (f (buf x) (loc x)) (cnt x) (buf x) r (cur x))
      | OTable f :: r =>
          match heap s (cur x) with
          | Some v => let '(tb, v1, l1, nw) := f (tab s) v (loc x) (t, cnt x) in
              go (alloc (upd (heap s) (cur x) (Some v1)) (t, cnt x) nw) tb (owner s) (towner s) (mkThr l1 (bump (cnt x) nw) (buf x) r (cur x))
          | None => None
          end
      | ONew f :: r =>
          match heap s (cur x) with
          | Some v => let '(v1, l1, nw) := f v (loc x) (t, cnt x) in
              go (alloc (upd (heap s) (cur x) (Some v1)) (t, cnt x) (Some nw)) (tab s) (owner s) (towner s)
                 (mkThr l1 (S (cnt x)) (buf x) r (cur x))
          | None => None
          end
      end
  end.

(** A new search: some nodes of the client, which are not addresses of a worker's; nothing locked; threads idle. *)
Definition cinit (h : addr -> option V) (tb : T) (ls : nat -> L) (ks : nat -> nat) : cst :=
  mkCst h tb (fun _ => None) None (fun t => mkThr (ls t) (ks t) [] [] (0, 0)).
Fixpoint crun (s : cst) (ls : list clabel) : option cst :=
  match ls with
  | [] => Some s
  | l :: r => match cstep s l with Some s1 => crun s1 r | None => None end
  end.

(** * Whole sections, one after another *)

Record sst : Type := mkSst { sheap : addr -> option V; stab : T; sloc : nat -> L; scnt : nat -> nat }.

(** Contents of the given nodes, if all exist. *)
Fixpoint fetch (h : addr -> option V) (cs : list addr) : option (list V) :=
  match cs with
  | [] => Some []
  | c :: r => match h c, fetch h r with Some v, Some vs => Some (v :: vs) | _, _ => None end
  end.

(** One part, run by thread t at node n on heap, table, local variables and counter. *)
Definition exec (t : nat) (n : addr) (m : micro) (c : (addr -> option V) * T * L * nat) : option ((addr -> option V) * T * L * nat) :=
  let '(h, tb, l, k) := c in
  match h n with
  | None => None
  | Some v =>
      match m with
      | Own f => let '(v1, l1) := f v l in Some (upd h n (Some v1), tb, l1, k)
      | Look sel f => match fetch h (sel v l) with Some vs => Some (h, tb, f vs l, k) | None => None end
      | Table f => let '(tb1, v1, l1, nw) := f tb v l (t, k) in Some (alloc (upd h n (Some v1)) (t, k) nw, tb1, l1, bump k nw)
      | New f => let '(v1, l1, nw) := f v l (t, k) in Some (alloc (upd h n (Some v1)) (t, k) (Some nw), tb, l1, S k)
      end
  end.
Fixpoint execs (t : nat) (n : addr) (p : list micro) (c : (addr -> option V) * T * L * nat) : option ((addr -> option V) * T * L * nat) :=
  match p with
  | [] => Some c
  | m :: r => match exec t n m c with Some c1 => execs t n r c1 | None => None end
  end.

(** Thread t runs its next section from beginning to end. *)
Definition sstep (t : nat) (s : sst) : option sst :=
  match next (sloc s t) with
  | None => None
  | Some (n, p) =>
      match execs t n p (sheap s, stab s, sloc s t, scnt s t) with
      | Some (h, tb, l, k) => Some (mkSst h tb (updt (sloc s) t l) (updt (scnt s) t k))
      | None => None
      end
  end.
Fixpoint srun (s : sst) (ts : list nat) : option sst :=
  match ts with
  | [] => Some s
  | t :: r => match sstep t s with Some s1 => srun s1 r | None => None end
  end.
End Serial.
Arguments micro : clear implicits.
Arguments op : clear implicits.
Arguments thr : clear implicits.
Arguments cst : clear implicits.
Arguments sst : clear implicits.
