(** Model of src/mc_eval.cpp: EvalPolicy and MCEvaluator.

    The search tree is not changed by an evaluation (it is reached through pointers to const), so it is a parameter:
    the children of nodes and a recommendation per node. The environment is a parameter too; its sampling functions may
    draw from the shared generator and may fail. Rewards are real numbers. *)
From Coq Require Import List ZArith Bool Reals.
From Verif Require Import Base NumOps HelperModel.
Import ListNotations.

Section Eval.
Context {S A O DN CN : Type}.

(** What an EvalPolicy uses of decision and chance nodes: has_child_node_itfc / get_child_node_itfc and
    recommend_action_itfc (include/thts_decision_node.h, include/thts_chance_node.h). [uses_context d] tells whether the
    recommendation at [d] reads the context passed to it. *)
Record tree : Type := mkTree {
  kid_c : DN -> A -> option CN;
  kid_d : CN -> O -> option DN;
  recommend : DN -> rng R -> outcome (A * rng R);
  uses_context : DN -> bool
}.
(** What is used of ThtsEnv (include/thts_env.h). [keeps_context] tells whether the environment itself keeps a pointer to
    the context that sample_context_itfc returns. *)
Record env : Type := mkEnv {
  init_state : S;
  sink : S -> bool;
  valid : S -> list A;
  next : S -> A -> rng R -> outcome (S * rng R);       (* sample_transition_distribution_itfc *)
  observe : A -> S -> rng R -> outcome (O * rng R);    (* sample_observation_distribution_itfc *)
  reward : S -> A -> O -> R;
  keeps_context : bool
}.

Variable T : tree.
Variable E : env.

(** ** EvalPolicy *)

(** Members, include/mc_eval.h. [None] is nullptr. *)
Record policy : Type := mkPol { proot : option DN; pcur : option DN }.

(** Constructor, mc_eval.cpp:12-14. *)
Definition new_policy (root : option DN) : policy := mkPol root root.
(** Copy constructor, mc_eval.cpp:16-20: the copy starts at the root. *)
Definition copy_policy (p : policy) : policy := mkPol (proot p) (proot p).
(** reset, mc_eval.cpp:25-27. *)
Definition reset (p : policy) : policy := mkPol (proot p) (proot p).
(** get_random_action, mc_eval.cpp:32-36. *)
Definition get_random_action (s : S) (g : rng R) : outcome (A * rng R) :=
  let actions := valid E s in
  bind (get_rand_int 0 (Z.of_nat (length actions)) g) (fun '(i, g1) =>
  bind (vec_at_checked actions i) (fun a => Ok (a, g1))).
(** get_action, mc_eval.cpp:41-44. [live] tells whether the context object exists; reading one that does not is
    undefined. *)
Definition get_action (p : policy) (live : bool) (s : S) (g : rng R) : outcome (A * rng R) :=
  match pcur p with
  | None => get_random_action s g
  | Some d => if uses_context T d && negb live then UB else recommend T d g
  end.
(** update_step, mc_eval.cpp:49-61. *)
Definition update_step (p : policy) (a : A) (o : O) : policy :=
  match pcur p with
  | None => p
  | Some d =>
      match kid_c T d a with
      | None => mkPol (proot p) None
      | Some c =>
          match kid_d T c o with
          | None => mkPol (proot p) None
          | Some d' => mkPol (proot p) (Some d')
          end
      end
  end.

(** ** MCEvaluator: run_rollouts with its threads *)

Variable max_length : Z.                       (* max_trial_length *)

(** Local variables of run_rollout, mc_eval.cpp:82-109, with the index of the rollout. [hist] is not in the code: the
    steps taken, latest first. *)
Record roll : Type := mkRoll {
  index : Z;
  pol : policy;
  taken : Z;                                   (* num_actions_taken *)
  cur : S;                                     (* state *)
  ret : R;                                     (* sample_return *)
  hist : list (S * A * O * S)
}.
Inductive fault := FThrow | FUB.
Inductive worker : Type :=
| WLoop (i : Z) (p : policy)                   (* loop head of thread_run_rollouts, 119 *)
| WHead (r : roll)                             (* loop head of run_rollout, 93 *)
| WNext (r : roll) (a : A)                     (* 95 *)
| WObs (r : roll) (a : A) (s' : S)             (* 97 *)
| WPush (r : roll)                             (* 107 *)
| WDone                                        (* thread function returned *)
| WFail (f : fault).
Inductive main_pc := MSpawn (i : nat) | MJoin (i : nat) | MDone.

Record estate : Type := mkE {
  main : main_pc;
  ws : list worker;                            (* vector<thread> threads *)
  returns : list R;                            (* sampled_returns *)
  rg : rng R;
  done : list (Z * list (S * A * O * S))       (* not in the code: index and steps of stored rollouts, in order *)
}.

Definition int_max : Z := 2 ^ 31 - 1.

(** One step of a thread; the shared generator and the returns are the only shared data, each accessed under its lock.
    Local computation is merged with the following or preceding shared access. *)
Definition wstep (n k : Z) (w : worker) (s : estate) : option (worker * list R * rng R * list (Z * list (S * A * O * S))) :=
  let same x := Some (x, returns s, rg s, done s) in
  let fail {X} (o : outcome X) := same (WFail match o with UB => FUB | _ => FThrow end) in
  match w with
  | WLoop i p =>                                                            (* 119 *)
      if (i <? n)%Z
      then same (WHead (mkRoll i (reset p) 0 (init_state E) 0 []))          (* 84-90 *)
      else same WDone
  | WHead r =>                                                              (* 93-94 *)
      if (taken r <? max_length)%Z && negb (sink E (cur r)) then
        match get_action (pol r) (keeps_context E) (cur r) (rg s) with
        | Ok (a, g) => Some (WNext r a, returns s, g, done s)
        | f => fail f
        end
      else same (WPush r)
  | WNext r a =>                                                            (* 95-96 *)
      match next E (cur r) a (rg s) with
      | Ok (s', g) => Some (WObs r a s', returns s, g, done s)
      | f => fail f
      end
  | WObs r a s' =>                                                          (* 97-103 *)
      match observe E a s' (rg s) with
      | Ok (o, g) =>
          Some (WHead (mkRoll (index r) (update_step (pol r) a o) (taken r) s' (ret r + reward E (cur r) a o)
                              ((cur r, a, o, s') :: hist r)), returns s, g, done s)
      | f => fail f
      end
  | WPush r =>                                                              (* 107-108, then 119: i += num_threads *)
      let i := (index r + k)%Z in
      Some (if (i <=? int_max)%Z then WLoop i (pol r) else WFail FUB,
            returns s ++ [ret r], rg s, done s ++ [(index r, hist r)])
  | WDone => None
  | WFail _ => None
  end.

(** run_rollouts(n, k), mc_eval.cpp:129-147, with policy [p]. *)
Inductive elabel := LMain | LWork (t : nat).
Definition estep (p : policy) (n k : Z) (s : estate) (l : elabel) : option estate :=
  match l with
  | LMain =>
      match main s with
      | MSpawn i =>
          if (Z.of_nat i <? k)%Z
          then Some (mkE (MSpawn (i + 1)) (ws s ++ [WLoop (Z.of_nat i) (copy_policy p)]) (returns s) (rg s) (done s))
          else Some (mkE (MJoin 0) (ws s) (returns s) (rg s) (done s))
      | MJoin i =>
          if (Z.of_nat i <? k)%Z then
            match nth_error (ws s) i with
            | Some WDone => Some (mkE (MJoin (i + 1)) (ws s) (returns s) (rg s) (done s))
            | _ => None                                                     (* join blocks *)
            end
          else Some (mkE MDone (ws s) (returns s) (rg s) (done s))
      | MDone => None
      end
  | LWork t =>
      match nth_error (ws s) t with
      | Some w =>
          match wstep n k w s with
          | Some (w', rs, g, dn) => Some (mkE (main s) (upd (ws s) t w') rs g dn)
          | None => None
          end
      | None => None
      end
  end.
(** At the call: [old] are the returns stored before. *)
Definition einit (old : list R) (g : rng R) : estate := mkE (MSpawn 0) [] old g [].
Fixpoint erun (p : policy) (n k : Z) (s : estate) (ls : list elabel) : option estate :=
  match ls with
  | [] => Some s
  | l :: r => match estep p n k s l with Some s' => erun p n k s' r | None => None end
  end.
End Eval.

(** ** Statistics *)
Section Stats.
Context {N : Type}.
Variable O : numops N.
(** get_mean_return, mc_eval.cpp:152-159. *)
Definition mean_return (rs : list N) : N :=
  let weight := ndiv O (none_ O) (nofZ O (Z.of_nat (length rs))) in
  fold_left (fun mean v => nadd O mean (nmul O weight v)) rs (nzero O).
(** get_stddev_return, mc_eval.cpp:164-172; pow(x, 2.0) is x*x. *)
Definition stddev_return (rs : list N) : N :=
  let mean := mean_return rs in
  let weight := ndiv O (none_ O) (nsub O (nofZ O (Z.of_nat (length rs))) (none_ O)) in
  fold_left (fun sd v => nadd O sd (nmul O weight (nmul O (nsub O v mean) (nsub O v mean)))) rs (nzero O).
End Stats.
Arguments mkTree {A O DN CN}. Arguments mkEnv {S A O}. Arguments mkPol {DN}. Arguments proot {DN}. Arguments pcur {DN}.
Arguments mkE {S A O DN}. Arguments mkRoll {S A O DN}.
