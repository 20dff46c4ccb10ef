(** Specification vocabulary: the value of playing a search tree. *)
From Coq Require Import List ZArith Bool Reals.
From Verif Require Import Base NumOps EngineModel EngineSpec MentsModel SoftSpec MentsSpec TentsSpec.
Import ListNotations.
Open Scope R_scope.

Section Tree.
Context {S A : Type}.
Variable aeqb : A -> A -> bool.
Variable C : @econf S A.
Variable M : @mconf S A.
Variable m : @store S A.
Notation dnode := (@dnode S A).
Notation cnode := (@cnode S A).

(** How often the search reached a node. *)
Definition reached (n : dnode) : Z := (dvisits n - init_visits C)%Z.
(** Samples of its value: a trial that stops at a new node that could be left (in mcts_mode) is none. Dynamic
    programming values count the initial heuristic value as one more. *)
Definition samples (n : dnode) : Z :=
  if mcts_mode C && negb (is_sink C (dstate n) || (max_depth C <=? ddepth n)%Z) then (reached n - 1)%Z else reached n.
Definition dp_samples (n : dnode) : Z := (samples n + 1)%Z.

(** Mean weighted by counts; 0 if there are none. *)
Definition mean (l : list (Z * R)) : R :=
  if Req_EM_T (rsum_of (fun p => IZR (fst p)) l) 0 then 0
  else rsum_of (fun p => IZR (fst p) * snd p) l / rsum_of (fun p => IZR (fst p)) l.

(** A plan picks a child at every decision node that has children. *)
Definition plan : Type := nat -> option A.
Definition plays (p : plan) : Prop := forall d n, nth_error (dh m) d = Some n -> dkids n <> [] ->
  exists a c, p d = Some a /\ lookup aeqb a (dkids n) = Some c.

(** What plan [p] is worth at decision node [d] of the tree, looking [fuel] decisions ahead: the heuristic value at
    nodes without children, otherwise the reward of the picked action plus what the plan is worth at its outcomes,
    each as likely as it was sampled. *)
Fixpoint payoff (p : plan) (fuel : nat) (d : nat) : R :=
  match fuel, nth_error (dh m) d with
  | Datatypes.S f, Some n =>
    match dkids n, p d with
    | [], _ => dheur n
    | kids, Some a =>
      match lookup aeqb a kids with
      | Some c =>
        match nth_error (ch m) c with
        | Some x => mreward M (cstate x) (cact x) +
            mean (map (fun k => (match nth_error (dh m) (snd k) with Some y => dp_samples y | None => 0%Z end, payoff p f (snd k))) (ckids x))
        | None => 0
        end
      | None => 0
      end
    | _, None => 0
    end
  | _, _ => 0
  end.
(** To the end of the tree. *)
Definition worth (p : plan) (d : nat) : R := payoff p (Datatypes.S (Z.to_nat (max_depth C))) d.

(** The plans agree wherever [who] says. *)
Definition agree (who : dnode -> bool) (p q : plan) : Prop :=
  forall d n, nth_error (dh m) d = Some n -> who n = true -> p d = q d.

(** [p] is optimal everywhere: neither the player nor (in two-player games) the opponent can do better against it. *)
Definition optimal (p : plan) : Prop :=
  plays p /\ forall q, plays q -> forall d n, nth_error (dh m) d = Some n ->
    (agree (opponent M) p q -> worth q d <= worth p d) /\
    (agree (fun k => negb (opponent M k)) p q -> worth p d <= worth q d).

(** [v] is the value of the tree at [d]. *)
Definition tree_value (d : nat) (v : R) : Prop := exists p, optimal p /\ worth p d = v.

(** ** Mixed plans *)
(** A mixed plan gives, at every decision node that has children, a distribution on the valid actions. *)
Definition mixed_plan : Type := nat -> A -> R.
Definition mixes (p : mixed_plan) : Prop := forall d n, nth_error (dh m) d = Some n -> dkids n <> [] -> on_simplex (acts C (dstate n)) (p d).

(** [bonus l p] is what the distribution [p] on [l] itself is worth to whoever plays it. *)
Variable bonus : list A -> (A -> R) -> R.
(** Actions without a child are worth the default value, or to whoever moves the logarithm of the prior plus [offset]. *)
Variable offset : dnode -> R.
Definition unexplored (n : dnode) (a : A) : R :=
  match mprior M with
  | Some _ => seen M n (clamped_log (prior_prob aeqb M n a) + offset n)
  | None => mdefault_q M
  end.
Fixpoint mixed_payoff (p : mixed_plan) (fuel : nat) (d : nat) : R :=
  match fuel, nth_error (dh m) d with
  | Datatypes.S f, Some n =>
    match dkids n with
    | [] => dheur n
    | kids =>
      rsum_of (fun a => p d a *
        match lookup aeqb a kids with
        | Some c =>
          match nth_error (ch m) c with
          | Some x => mreward M (cstate x) (cact x) +
              mean (map (fun k => (match nth_error (dh m) (snd k) with Some y => samples y | None => 0%Z end, mixed_payoff p f (snd k))) (ckids x))
          | None => 0
          end
        | None => unexplored n a
        end) (acts C (dstate n)) + seen M n (bonus (acts C (dstate n)) (p d))
    end
  | _, _ => 0
  end.
Definition mixed_worth (p : mixed_plan) (d : nat) : R := mixed_payoff p (Datatypes.S (Z.to_nat (max_depth C))) d.
Definition mixed_agree (who : dnode -> bool) (p q : mixed_plan) : Prop :=
  forall d n a, nth_error (dh m) d = Some n -> who n = true -> In a (acts C (dstate n)) -> p d a = q d a.
Definition mixed_optimal (p : mixed_plan) : Prop :=
  mixes p /\ forall q, mixes q -> forall d n, nth_error (dh m) d = Some n ->
    (mixed_agree (opponent M) p q -> mixed_worth q d <= mixed_worth p d) /\
    (mixed_agree (fun k => negb (opponent M k)) p q -> mixed_worth p d <= mixed_worth q d).
Definition mixed_value (d : nat) (v : R) : Prop := exists p, mixed_optimal p /\ mixed_worth p d = v.
End Tree.

(** Bonuses: entropy and sparse (Tsallis) entropy at temperature [t]. *)
Definition entropy_bonus {A} (t : R) (l : list A) (p : A -> R) : R := t * shannon (map p l).
Definition sparse_bonus {A} (t : R) (l : list A) (p : A -> R) : R := t * (rsum_of (fun a => p a * (1 - p a)) l / 2).
