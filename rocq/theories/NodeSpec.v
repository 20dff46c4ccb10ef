(** Specification vocabulary for nodes and printing. *)
From Coq Require Import List ZArith Bool.
From Verif Require Import Base EngineModel NodeModel.
Import ListNotations.

Section Spec.
Context {S A : Type}.
(** [path m d l e]: the steps [l] (an action and an observation each) lead from decision node [d] to decision node [e]. *)
Inductive path (m : @store S A) : nat -> list (A * S) -> nat -> Prop :=
| path_nil : forall d n, nth_error (dh m) d = Some n -> path m d [] d
| path_cons : forall d n a c x o e l f, nth_error (dh m) d = Some n -> In (a, c) (dkids n) ->
    nth_error (ch m) c = Some x -> In (o, e) (ckids x) -> path m e l f -> path m d ((a, o) :: l) f.
(** Visits of the decision and chance nodes with these numbers. *)
Definition visits_d (m : @store S A) (d : nat) : Z := match nth_error (dh m) d with Some n => dvisits n | None => 0 end.
Definition visits_c (m : @store S A) (c : nat) : Z := match nth_error (ch m) c with Some n => cvisits n | None => 0 end.

(** The printed nodes, with the printed visit counts, in order. *)
Definition printed_d (l : list (@piece S A)) : list (nat * Z) := flat_map (fun p => match p with DHead d v => [(d, v)] | _ => [] end) l.
Definition printed_c (l : list (@piece S A)) : list (nat * Z) := flat_map (fun p => match p with CHead c v => [(c, v)] | _ => [] end) l.
Definition dots (l : list (@piece S A)) : nat := length (filter (fun p => match p with Dots => true | _ => false end) l).

(** Layout: [open] brackets are open. A line starts with one tab per open bracket, or one less if it closes one. *)
Fixpoint tabs_then (l : list (@piece S A)) : nat * option piece :=
  match l with
  | Tab :: r => let '(n, x) := tabs_then r in (Datatypes.S n, x)
  | p :: _ => (0, Some p)
  | [] => (0, None)
  end.
Fixpoint laid_out (open : nat) (l : list (@piece S A)) : Prop :=
  match l with
  | [] => open = 0
  | DHead _ _ :: r | CHead _ _ :: r => laid_out (Datatypes.S open) r
  | Close :: r => match open with 0 => False | Datatypes.S k => laid_out k r end
  | Newline :: r =>
      match tabs_then r with
      | (n, Some Close) => Datatypes.S n = open
      | (n, Some (ActEdge _)) | (n, Some (ObsEdge _)) => n = open
      | _ => False
      end /\ laid_out open r
  | _ :: r => laid_out open r
  end.
End Spec.
