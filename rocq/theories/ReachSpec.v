(** Specification vocabulary for what a search can still reach. *)
From Coq Require Import List ZArith Bool Reals.
From Verif Require Import Base NumOps HelperModel EngineModel EngineSpec AlgoModel.
Import ListNotations.
Open Scope R_scope.

Section Spec.
Context {S A : Type}.
Variable seqb : S -> S -> bool.
Variable aeqb : A -> A -> bool.
Variable C : @econf S A.
Variable G : @algo S A.

(** A route: actions and their outcomes that the environment allows one after the other, starting in [s]. *)
Fixpoint route (s : S) (p : list (A * S)) : Prop :=
  match p with
  | [] => True
  | (a, o) :: r => is_sink C s = false /\ In a (acts C s) /\ In o (succs C s a) /\ route o r
  end.
(** The tree holds the route below decision node [d]. *)
Fixpoint holds_route (m : @store S A) (d : nat) (p : list (A * S)) : Prop :=
  match p with
  | [] => True
  | (a, o) :: r => exists c d', dchild aeqb m d a c /\ cchild seqb m c o d' /\ holds_route m d' r
  end.

(** The generator with other real draws. *)
Definition with_draws (g : rng R) (f : nat -> R) : rng R := mkRng (gi g) f (ni g) (nr g).
(** The same state of the search with other draws to come ... *)
Definition redraw (s : ast G) (f : nat -> R) : ast G :=
  mkA (base s) (xds s) (xcs s) (cxs s) (with_draws (rg s) f) (afail s).
(** ... which leaves the draws made so far alone. *)
Definition same_past (s : ast G) (f : nat -> R) : Prop := forall i, (i < nr (rg s))%nat -> f i = gr (rg s) i.

(** With other draws to come the search in state [s] completes [k] further trials without failing, and then [P] holds. *)
Definition can_continue (n : nat) (g : rng R) (s : ast G) (k : Z) (P : ast G -> Prop) : Prop :=
  exists f ls s', same_past s f /\ (forall i, 0 <= f i < 1) /\ areach seqb aeqb C G n (with_draws g f) (redraw s f) /\
    arun seqb aeqb C G ls (redraw s f) = Some s' /\ afail s' = None /\ quiet (base s') /\
    count is_done (etrace (base s')) = (count is_done (etrace (base s)) + k)%Z /\ P s'.

(** All routes of at most [k] steps from [s]. *)
Fixpoint routes (k : nat) (s : S) : list (list (A * S)) :=
  [] :: match k with
        | 0%nat => []
        | Datatypes.S k1 => if is_sink C s then [] else
            flat_map (fun a => flat_map (fun o => map (cons (a, o)) (routes k1 o)) (succs C s a)) (acts C s)
        end.
(** The tree is the whole environment up to the maximal depth: wherever there is a choice, every action and every outcome
    has its node. *)
Definition whole (m : @store S A) : Prop := forall d n a o, nth_error (dh m) d = Some n -> is_sink C (dstate n) = false ->
  (ddepth n < max_depth C)%Z -> In a (acts C (dstate n)) -> In o (succs C (dstate n) a) ->
  exists c d', dchild aeqb m d a c /\ cchild seqb m c o d'.
End Spec.
