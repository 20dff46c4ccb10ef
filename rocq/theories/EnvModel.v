(** Model of src/thts_env.cpp (default implementations of ThtsEnv) and of the conversions in
    include/templates/thts_env_template.h, the code users are told to copy into their environments.

    Simplifications: a typed distribution map of the template is keyed by shared_ptr<const _S>, for which neither
    std::hash nor std::equal_to is specialised, so its keys are addresses (numbers) with pairwise different addresses;
    [at_] gives the state an address points to. Interface maps (StateDistr, ObservationDistr) compare states
    (std::equal_to specialisations in include/thts_types.h). *)
From Coq Require Import List ZArith Bool Reals.
From Verif Require Import Base NumOps HelperModel EngineModel MapModel.
Import ListNotations.

Section Env.
Context {S : Type}.                                   (* observations; states are observations *)
Variable seqb : S -> S -> bool.
Variable fully_observable : bool.                     (* _is_fully_observable, thts_env.cpp:13 *)

(** Default get_observation_distribution_itfc, thts_env.cpp:27-37. *)
Definition default_observation_distribution (next_state : S) : outcome (list (S * R)) :=
  if fully_observable then Ok (mput seqb [] next_state 1%R) else Throw.
(** Default sample_observation_distribution_itfc, thts_env.cpp:46-57. [distr] is the (virtual) observation distribution
    for the action. *)
Definition default_sample_observation (distr : S -> outcome (list (S * R))) (next_state : S) (g : rng R)
  : outcome (S * rng R) :=
  if fully_observable then Ok (next_state, g)
  else bind (distr next_state) (fun d => sample_from_distribution R_ops d true g).

(** The template's conversion of a transition distribution, thts_env_template.h:390-404. *)
Definition template_transition_itfc (at_ : nat -> S) (d : list (nat * R)) : list (S * R) :=
  fold_left (fun m kv => mput seqb m (at_ (fst kv)) (snd kv)) d [].
(** The template's get_observation_distribution, thts_env_template.h:326-339, and get_observation_distribution_itfc,
    415-428: the result pointer [distr] is null, and each entry is inserted through it. [None] is a null pointer. *)
Definition fill_null {K} (d : list (K * R)) : outcome (option (list (S * R))) :=
  match d with [] => Ok None | _ :: _ => UB end.
Definition template_observation_distribution (next_state : S) : outcome (option (list (S * R))) :=
  bind (default_observation_distribution next_state) fill_null.
Definition template_observation_itfc (next_state : S) : outcome (option (list (S * R))) :=
  bind (template_observation_distribution next_state) (fun d =>
  match d with
  | None => UB                                         (* *distr_itfc, 423 *)
  | Some d => fill_null d
  end).
End Env.
