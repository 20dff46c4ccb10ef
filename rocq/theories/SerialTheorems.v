(* C83: concurrent searches are serialisable. *)
From Coq Require Import List Arith Bool Lia.
From Verif Require Import LockModel AccessModel SerialModel SerialSpec SerialProofs.
Import ListNotations.

(** * C83 *)

(** Whatever the algorithm: if every section looks at other nodes, or at the table, at most once, then a concurrent search
    leaves what some sequence of whole sections, of the same threads, leaves. *)
Theorem C83_serial (V L T : Type) (next : L -> option (addr * list (micro V L T)))
    (h : addr -> option V) (tb : T) (ls : nat -> L) (ks : nat -> nat) (sched : list clabel) (s : cst V L T) :
  (forall l n p, next l = Some (n, p) -> looks_once p) -> unused h ks ->
  crun next (cinit h tb ls ks) sched = Some s -> between s ->
  exists ts a, srun next (mkSst h tb ls ks) ts = Some a /\ same s a.
Proof.
  intros O U R B. destruct (sim_run next O sched _ _ s (sim_init next h tb ls ks U) R) as (ts & a & E & Sm).
  exists ts, a. split; [exact E|exact (sim_between next s a Sm B)].
Qed.
Print Assumptions C83_serial.

Lemma fits_once (V L T : Type) (bodies : bool -> list (list mact)) (p : list (micro V L T)) :
  In bodies [uct_sections; ments_sections; est_sections; tents_sections] -> has_structure bodies p -> looks_once p.
Proof.
  intros I (chance & body & Ib & F).
  repeat (destruct I as [<-|I];
    [destruct chance; cbv [uct_sections ments_sections est_sections tents_sections outcome_section select_section last_section app] in Ib; cbn [In] in Ib;
     repeat (destruct Ib as [<-|Ib];
       [repeat match goal with H : Forall2 _ (_ :: _) _ |- _ => inversion H; subst; clear H end;
        repeat match goal with H : Forall2 _ [] _ |- _ => inversion H; subst; clear H end;
        repeat match goal with H : fit _ _ ?m |- _ => destruct m; cbn in H; try contradiction; try discriminate; clear H end;
        repeat (first [apply lo_here; solve [repeat constructor] | apply lo_own])|]); try contradiction|]).
  destruct I.
Qed.

(** That is the case for UCT, PUCT, MENTS, RENTS, EST and TENTS. *)
Theorem C83_library_partial (V L T : Type) (next : L -> option (addr * list (micro V L T))) (bodies : bool -> list (list mact))
    (h : addr -> option V) (tb : T) (ls : nat -> L) (ks : nat -> nat) (sched : list clabel) (s : cst V L T) :
  In bodies [uct_sections; ments_sections; est_sections; tents_sections] ->
  (forall l n p, next l = Some (n, p) -> has_structure bodies p) -> unused h ks ->
  crun next (cinit h tb ls ks) sched = Some s -> between s ->
  exists ts a, srun next (mkSst h tb ls ks) ts = Some a /\ same s a.
Proof.
  intros I O U R B. exact (C83_serial V L T next h tb ls ks sched s (fun l n p E => fits_once V L T bodies p I (O l n p E)) U R B).
Qed.
Print Assumptions C83_library_partial.

(** * The other algorithms *)

(** The backups of DB-MENTS and DENTS lock and read the children twice. Below, a node's contents are two values (say, the
    soft value and the dp value); thread 0 backs up the parent, taking one value from each reading of the child,
    and thread 1 backs up the child. *)
Definition parent : addr := (0, 0).
Definition child : addr := (0, 1).
Definition vars : Type := (nat * nat * nat)%type.
Definition first_look : micro (nat * nat) vars unit :=
  Look (fun _ _ => [child]) (fun vs l => (fst (fst l), match vs with v :: _ => fst v | [] => 0 end, snd l)).
Definition second_look : micro (nat * nat) vars unit :=
  Look (fun _ _ => [child]) (fun vs l => (fst l, match vs with v :: _ => snd v | [] => 0 end)).
Definition idle_own : micro (nat * nat) vars unit := SerialModel.Own (fun v l => (v, l)).
Definition blind_look : micro (nat * nat) vars unit := Look (fun _ _ => []) (fun _ l => l).
Definition two_looks (l : vars) : option (addr * list (micro (nat * nat) vars unit)) :=
  match fst (fst l) with
  | 1 => Some (parent, [idle_own; first_look; idle_own; second_look; SerialModel.Own (fun _ l => ((snd (fst l), snd l), (0, 0, 0)))])
  | 2 => Some (child, [idle_own; blind_look; idle_own; blind_look; SerialModel.Own (fun _ _ => ((1, 1), (0, 0, 0)))])
  | _ => None
  end.
Definition two_nodes (a : addr) : option (nat * nat) := if addr_eqb a parent || addr_eqb a child then Some (0, 0) else None.
Definition two_threads (t : nat) : vars := match t with 0 => (1, 0, 0) | 1 => (2, 0, 0) | _ => (0, 0, 0) end.
Definition two_used (t : nat) : nat := match t with 0 => 2 | _ => 0 end.
(** Thread 1 runs its section between the two readings of thread 0. *)
Definition between_looks : list clabel := CBegin 0 :: repeat (CGo 0) 7 ++ CBegin 1 :: repeat (CGo 1) 9 ++ repeat (CGo 0) 8.

Lemma two_unused : unused two_nodes two_used.
Proof.
  intros [|t] k K; unfold two_nodes, parent, child, addr_eqb; cbn in *; auto. destruct k as [|[|k]]; try lia. reflexivity.
Qed.

(** One whole section after another, both values always come from the same reading. *)
Lemma serial_equal ts : forall a b x, srun two_looks a ts = Some b ->
  (exists v, sheap a parent = Some (v, v)) -> (exists v, sheap a child = Some (v, v)) -> sheap b parent = Some x -> fst x = snd x.
Proof.
  induction ts as [|t ts IH]; cbn [srun]; intros a b x R (v & Ev) (w & Ew) E.
  - injection R as <-. rewrite Ev in E. injection E as <-. reflexivity.
  - destruct (sstep two_looks t a) as [a1|] eqn:St; [|discriminate]. apply (IH a1 b x R); auto; unfold sstep, two_looks in St.
    + destruct (fst (fst (sloc a t))) as [|[|[|j]]]; try discriminate.
      * cbn in St. rewrite Ev in St. cbn in St. rewrite Ew in St. cbn in St. rewrite Ew in St. cbn in St. injection St as <-. cbn. eauto.
      * cbn in St. rewrite Ew in St. cbn in St. injection St as <-. cbn. eauto.
    + destruct (fst (fst (sloc a t))) as [|[|[|j]]]; try discriminate.
      * cbn in St. rewrite Ev in St. cbn in St. rewrite Ew in St. cbn in St. rewrite Ew in St. cbn in St. injection St as <-. cbn. eauto.
      * cbn in St. rewrite Ew in St. cbn in St. injection St as <-. cbn. eauto.
Qed.

(** So a search of DB-MENTS or DENTS can leave nodes that no sequence of whole sections leaves: values of one
    node that belong to different states of its children. *)
Theorem C83_refuted (bodies : bool -> list (list mact)) : In bodies [dbments_sections; dents_sections] ->
  (forall l n p, two_looks l = Some (n, p) -> has_structure bodies p) /\ unused two_nodes two_used /\
  exists s, crun two_looks (cinit two_nodes tt two_threads two_used) between_looks = Some s /\ between s /\
    heap s parent = Some (0, 1) /\
    forall ts a, srun two_looks (mkSst two_nodes tt two_threads two_used) ts = Some a -> ~ same s a.
Proof.
  intros I. split; [|split; [exact two_unused|]].
  - intros l n p. unfold two_looks. destruct (fst (fst l)) as [|[|[|j]]]; try discriminate; intros [= <- <-].
    + destruct I as [<-|[<-|[]]].
      * exists false, [AccessModel.Own true; With AAll; AccessModel.Own true; With AAll; AccessModel.Own true]. split; [cbn; tauto|repeat constructor].
      * exists false, [AccessModel.Own true; With AAll; AccessModel.Own false; With AAll; AccessModel.Own true]. split; [cbn; tauto|repeat constructor].
    + destruct I as [<-|[<-|[]]];
        exists true, [AccessModel.Own true; With AAll; AccessModel.Own true; With AAll; AccessModel.Own true]; (split; [cbn; tauto|repeat constructor]).
  - assert (H : exists s, crun two_looks (cinit two_nodes tt two_threads two_used) between_looks = Some s /\ between s /\ heap s parent = Some (0, 1)).
    { eexists. split; [lazy; reflexivity|]. split; [intros [|[|t]]; reflexivity|reflexivity]. }
    destruct H as (s & R & B & E). exists s. repeat (split; auto). intros ts a Ra (Hs & _).
    rewrite Hs in E. enough (fst (0, 1) = snd (0, 1)) by discriminate.
    refine (serial_equal ts _ a (0, 1) Ra _ _ E); exists 0; reflexivity.
Qed.
Print Assumptions C83_refuted.

(** * Witness *)

(** Two MENTS backups, of the parent and of the child, begin at the same time; the one of the parent waits for the child. *)
Definition one_look (l : vars) : option (addr * list (micro (nat * nat) vars unit)) :=
  match fst (fst l) with
  | 1 => Some (parent, [idle_own; first_look; SerialModel.Own (fun _ l => ((snd (fst l), 7), (0, 0, 0)))])
  | 2 => Some (child, [idle_own; blind_look; SerialModel.Own (fun v _ => ((S (fst v), 1), (0, 0, 0)))])
  | _ => None
  end.
Definition both_begin : list clabel := [CBegin 0; CBegin 1; CGo 1; CGo 0; CGo 0; CGo 0; CGo 1; CGo 1] ++ repeat (CGo 1) 3 ++ repeat (CGo 0) 6.
Example serial_witness :
  (forall l n p, one_look l = Some (n, p) -> has_structure ments_sections p) /\ unused two_nodes two_used /\
  (exists s, crun one_look (cinit two_nodes tt two_threads two_used) both_begin = Some s /\ between s /\
     heap s parent = Some (1, 7) /\ heap s child = Some (1, 1)) /\
  (exists a, srun one_look (mkSst two_nodes tt two_threads two_used) [1; 0] = Some a /\ sheap a parent = Some (1, 7) /\ sheap a child = Some (1, 1)).
Proof.
  split; [|split; [exact two_unused|split]].
  - intros l n p. unfold one_look. destruct (fst (fst l)) as [|[|[|j]]]; try discriminate; intros [= <- <-].
    + exists false, [AccessModel.Own true; With AAll; AccessModel.Own true]. split; [cbn; tauto|repeat constructor].
    + exists true, [AccessModel.Own true; With AAll; AccessModel.Own true]. split; [cbn; tauto|repeat constructor].
  - eexists. split; [lazy; reflexivity|]. split; [intros [|[|t]]; reflexivity|split; reflexivity].
  - eexists. split; [lazy; reflexivity|]. split; reflexivity.
Qed.
