(** Specification of trials on a search tree, in terms of the tree that can be read through the API
    and of the events of a run. *)
From Coq Require Import List ZArith Bool Reals.
From Verif Require Import Base NumOps EngineModel.
Import ListNotations.

Section Spec.
Context {S A : Type}.
Variable seqb : S -> S -> bool.
Variable aeqb : A -> A -> bool.
Variable C : @econf S A.
Notation store := (@store S A).
Notation est := (@est S A).
Notation event := (@event S A).
Notation dnode := (@dnode S A).
Notation cnode := (@cnode S A).

(** States a pool of [n] workers can be in. *)
Definition ereach (n : nat) (s : est) : Prop := exists ls, erun seqb aeqb C ls (einit C n) = Some s.

(** get_child of a decision node / chance node. *)
Definition dchild (m : store) (d : nat) (a : A) (c : nat) : Prop :=
  exists n, nth_error (dh m) d = Some n /\ lookup aeqb a (dkids n) = Some c.
Definition cchild (m : store) (c : nat) (o : S) (d : nat) : Prop :=
  exists n, nth_error (ch m) c = Some n /\ lookup seqb o (ckids n) = Some d.

(** ** The events of one trial *)
(** Events of thread [t] since its last trial began, oldest first ([tr] is newest first). *)
Fixpoint trial (t : nat) (tr : list (nat * event)) : list event :=
  match tr with
  | [] => []
  | (t', e) :: r =>
      if Nat.eqb t' t
      then match e with EStart => [EStart] | _ => trial t r ++ [e] end
      else trial t r
  end.

(** Node constructions are not part of the walk. *)
Definition walk_event (e : event) : bool := match e with ENewD _ | ENewC _ => false | _ => true end.
Definition walk (t : nat) (tr : list (nat * event)) : list event := filter walk_event (trial t tr).

(** One step of a trial: at decision node [sd] with state [ss] action [sa] led to chance node [sc],
    there outcome [so] led to decision node [sn]; [sg] tells whether [sc] gained a child. *)
Record tstep : Type := mkStep { sd : nat; ss : S; sa : A; sc : nat; so : S; sn : nat; sg : bool }.
Definition srew (s : tstep) : R := rwd C (ss s) (sa s) (so s).

Definition sel_events (steps : list tstep) : list event :=
  flat_map (fun s => [EVisitD (sd s) (sa s) (sc s); EVisitC (sc s) (so s) (sn s) (sg s)]) steps.

Fixpoint rsum (l : list R) : R := match l with [] => 0%R | x :: r => (x + rsum r)%R end.

(** Backups of the steps, the last step first; [before] are the rewards received before the first
    of [steps]. The chance node of a step is backed up just before its decision node. *)
Fixpoint backs (before : list R) (steps : list tstep) (hv total : R) : list event :=
  match steps with
  | [] => []
  | s :: r =>
      let after := hv :: rev (map srew (s :: r)) in
      backs (before ++ [srew s]) r hv total ++
      [EBackC (sc s) before after (rsum after) total; EBackD (sd s) before after (rsum after) total]
  end.

(** The steps follow child pointers from node [d] to node [last]. *)
Fixpoint chain (m : store) (d : nat) (steps : list tstep) (last : nat) : Prop :=
  match steps with
  | [] => d = last
  | s :: r => sd s = d /\ (exists n, nth_error (dh m) d = Some n /\ dstate n = ss s) /\
              dchild m (sd s) (sa s) (sc s) /\ cchild m (sc s) (so s) (sn s) /\ chain m (sn s) r last
  end.

(** The node is a sink or at the maximal depth. *)
Definition must_stop (n : dnode) : Prop := is_sink C (dstate n) = true \/ (max_depth C <= ddepth n)%Z.

(** Every step was taken at a node where the trial should go on. *)
Definition goes_on (m : store) (s : tstep) : Prop :=
  exists n, nth_error (dh m) (sd s) = Some n /\ ~ must_stop n /\
    In (sa s) (acts C (ss s)) /\ In (so s) (succs C (ss s) (sa s)).

(** Only the last of the steps may have extended the tree. *)
Definition only_last_gains (steps : list tstep) : Prop :=
  forall p s q, steps = p ++ s :: q -> q <> [] -> sg s = false.
Definition last_gains (steps : list tstep) : Prop := exists p s, steps = p ++ [s] /\ sg s = true.

(** ** Well-formed trees *)
Inductive reachD (m : store) : nat -> Prop :=
| rd_root : reachD m 0
| rd_step : forall c o d, reachC m c -> cchild m c o d -> reachD m d
with reachC (m : store) : nat -> Prop :=
| rc_step : forall d a c, reachD m d -> dchild m d a c -> reachC m c.

Record well_formed (m : store) : Prop := mkWf {
  (* the root *)
  wf_root : exists n, nth_error (dh m) 0 = Some n /\ dstate n = root_state C /\ ddepth n = 0%Z /\
            dtime n = root_time C;
  (* a child of a decision node has its state, depth, timestep and the edge's action *)
  wf_d : forall d n a c, nth_error (dh m) d = Some n -> lookup aeqb a (dkids n) = Some c ->
         exists x, nth_error (ch m) c = Some x /\ cstate x = dstate n /\ cdepth x = ddepth n /\
           ctime x = dtime n /\ cact x = a /\ In a (acts C (dstate n)) /\ ~ must_stop n;
  (* a child of a chance node is one deeper and later and has the observed state *)
  wf_c : forall c x o d, nth_error (ch m) c = Some x -> lookup seqb o (ckids x) = Some d ->
         exists n, nth_error (dh m) d = Some n /\ dstate n = o /\ ddepth n = (cdepth x + 1)%Z /\
           dtime n = (ctime x + 1)%Z /\ In o (succs C (cstate x) (cact x));
  (* child maps have one entry per key *)
  wf_dkeys : forall d n, nth_error (dh m) d = Some n -> NoDup (map fst (dkids n));
  wf_ckeys : forall c x, nth_error (ch m) c = Some x -> NoDup (map fst (ckids x));
  (* every node hangs in the tree *)
  wf_reachD : forall d n, nth_error (dh m) d = Some n -> reachD m d;
  wf_reachC : forall c x, nth_error (ch m) c = Some x -> reachC m c;
  (* terminal values *)
  wf_heur : forall d n, nth_error (dh m) d = Some n ->
         dheur n = match heuristic C with
                   | Some h => if is_sink C (dstate n) then 0%R else h (dstate n)
                   | None => 0%R end
}.

(** ** Later trees extend earlier ones *)
Record extends_tree (m m' : store) : Prop := mkExt {
  xt_d : forall d n, nth_error (dh m) d = Some n -> exists n', nth_error (dh m') d = Some n' /\
         dstate n' = dstate n /\ ddepth n' = ddepth n /\ dtime n' = dtime n /\ dheur n' = dheur n /\
         (dvisits n <= dvisits n')%Z;
  xt_c : forall c x, nth_error (ch m) c = Some x -> exists x', nth_error (ch m') c = Some x' /\
         cstate x' = cstate x /\ cact x' = cact x /\ cdepth x' = cdepth x /\ ctime x' = ctime x /\
         (cvisits x <= cvisits x')%Z;
  xt_dchild : forall d a c, dchild m d a c -> dchild m' d a c;
  xt_cchild : forall c o d, cchild m c o d -> cchild m' c o d
}.

(** ** Counting *)
Definition count (f : event -> bool) (tr : list (nat * event)) : Z := countb (fun p => f (snd p)) tr.
Definition is_start (e : event) : bool := match e with EStart => true | _ => false end.
Definition is_done (e : event) : bool := match e with EDone => true | _ => false end.
Definition visits_d (d : nat) (e : event) : bool := match e with EVisitD d' _ _ => Nat.eqb d' d | _ => false end.
Definition selects_c (c : nat) (e : event) : bool := match e with EVisitD _ _ c' => Nat.eqb c' c | _ => false end.
Definition visits_c (c : nat) (e : event) : bool := match e with EVisitC c' _ _ _ => Nat.eqb c' c | _ => false end.
Definition enters_d (d : nat) (e : event) : bool := match e with EVisitC _ _ d' _ => Nat.eqb d' d | _ => false end.
Definition ends_at (d : nat) (e : event) : bool := match e with EFinal d' _ => Nat.eqb d' d | _ => false end.
Definition backs_c (c : nat) (e : event) : bool := match e with EBackC c' _ _ _ _ => Nat.eqb c' c | _ => false end.
Definition backs_d (d : nat) (e : event) : bool := match e with EBackD d' _ _ _ _ => Nat.eqb d' d | _ => false end.
Definition makes_d (e : event) : bool := match e with ENewD _ => true | _ => false end.
Definition makes_c (e : event) : bool := match e with ENewC _ => true | _ => false end.
Definition selects (e : event) : bool := match e with EVisitD _ _ _ => true | _ => false end.
Definition goes (c d : nat) (e : event) : bool :=
  match e with EVisitC c' _ d' _ => Nat.eqb c' c && Nat.eqb d' d | _ => false end.

(** No trial in progress. *)
Definition quiet (s : est) : Prop := forall t x, nth_error (ths s) t = Some x -> x = TIdle.
End Spec.
Arguments mkStep {S A}. Arguments sd {S A}. Arguments ss {S A}. Arguments sa {S A}. Arguments sc {S A}.
Arguments so {S A}. Arguments sn {S A}. Arguments sg {S A}.
