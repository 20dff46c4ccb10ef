(** Arguments of managers and their defaults: ThtsManagerArgs (include/thts_manager.h:29-61), UctManagerArgs and
    UctManager (include/algorithms/uct/uct_manager.h), PuctManagerArgs (puct_manager.h), MentsManagerArgs and
    MentsManager (include/algorithms/ments/ments_manager.h), DentsManagerArgs and DentsManager
    (include/algorithms/ments/dents/dents_manager.h). The settings that a search reads ([econf], [uconf], [mconf]) are
    copied from the arguments by the constructors of the managers. Not modelled here: the seed (the stream of random
    numbers is arbitrary) and num_transposition_table_mutexes (see the lock model). *)
From Coq Require Import List ZArith Bool Reals.
From Verif Require Import EngineModel UctModel MentsModel.
Import ListNotations.
Open Scope R_scope.

Section Model.
Context {S A : Type}.

(** ThtsEnv as a search uses it, include/thts_env.h. A missing observation (nullptr, the default argument of
    get_reward_itfc) is [None]. *)
Record environment : Type := mkEnv {
  v_sink : S -> bool;                      (* is_sink_state_itfc *)
  v_acts : S -> list A;                    (* get_valid_actions_itfc *)
  v_distr : S -> A -> list (S * R);        (* get_transition_distribution_itfc *)
  v_reward : S -> A -> option S -> R;      (* get_reward_itfc *)
  v_start : S                              (* get_initial_state_itfc *)
}.

(** ThtsManagerArgs, thts_manager.h:39-50. *)
Record thts_args : Type := mkTA {
  t_max_depth : Z; t_heuristic : option (S -> R); t_prior : option (S -> list (A * R));
  t_mcts : bool; t_two : bool; t_table : bool }.
(** Its defaults, thts_manager.h:30-37 and 52-61; helper::zero_heuristic_fn is constantly zero. *)
Definition thts_defaults : thts_args := mkTA (2 ^ 31 - 1) (Some (fun _ => 0)) None true false false.

(** UctManagerArgs, uct_manager.h:18-21, with puct_power of PuctManagerArgs, puct_manager.h:12. *)
Record uct_args : Type := mkUA { ua_thts : thts_args; ua_bias : R; ua_pseudo : Z; ua_most : bool; ua_eps : R; ua_power : R }.
(** Defaults for given base arguments, uct_manager.h:10-28 and puct_manager.h:10-16. *)
Definition uct_defaults (T : thts_args) : uct_args := mkUA T (-1) 0 true 0 (1 / 2).

(** MentsManagerArgs, ments_manager.h:29-45. *)
Record ments_args : Type := mkMA {
  ma_thts : thts_args; ma_temp : R; ma_prior_w : R; ma_eps : R; ma_root_eps : R; ma_max_explore : R;
  ma_decay : option (R -> R); ma_min_temp : R; ma_scale : R; ma_root_scale : R;
  ma_default_q : R; ma_shift : bool; ma_offset : R; ma_threshold : Z; ma_most : bool }.
(** Defaults for given base arguments, ments_manager.h:11-27 and 47-62. *)
Definition ments_defaults (T : thts_args) : ments_args :=
  mkMA T 1 0 (1 / 2) (-1) 1 None (1 / IZR (10 ^ 6)) 1 (-1) 0 false 0 0 false.

(** DentsManagerArgs, dents_manager.h:17-23. *)
Record dents_args : Type := mkDA {
  da_ments : ments_args; da_decay : option (R -> R); da_init : R; da_min : R; da_scale : R; da_root_scale : R; da_dp : bool }.
(** Defaults for given base arguments, dents_manager.h:10-15 and 25-32. *)
Definition dents_defaults (M : ments_args) : dents_args :=
  mkDA M (Some decay_inv_sqrt) 1 (1 / IZR (10 ^ 6)) 1 (-1) true.

(** ThtsManager constructor, thts_manager.h:195-207, with the environment and the root that the search is given. *)
Definition thts_conf (E : environment) (T : thts_args) (visits time : Z) : @econf S A :=
  mkConf (v_sink E) (v_acts E) (fun s a => map fst (v_distr E s a)) (fun s a o => v_reward E s a (Some o))
    (t_heuristic T) (t_max_depth T) (t_mcts T) (t_table T) visits (v_start E) time.

(** UctManager constructor, uct_manager.h:62-67; the initial visits of nodes are the pseudo trials if there is a
    heuristic, uct_decision_node.cpp:36-40. *)
Definition uct_search_conf (E : environment) (a : uct_args) (time : Z) : @econf S A :=
  thts_conf E (ua_thts a) (match t_heuristic (ua_thts a) with Some _ => ua_pseudo a | None => 0 end) time.
Definition uct_settings (E : environment) (a : uct_args) (term : Z -> Z -> R) (order : forall V, list (A * V) -> list (A * V)) : @uconf S A :=
  mkU (ua_bias a) (ua_pseudo a) (ua_most a) (ua_eps a) (t_prior (ua_thts a)) (t_two (ua_thts a)) term (v_distr E) order.
(** UctDNode and PuctDNode under their managers, puct_manager.h:32-34. *)
Definition uct_manager E a order := uct_settings E a uct_term order.
Definition puct_manager E a order := uct_settings E a (puct_term (ua_power a)) order.

(** MentsManager and DentsManager constructors, ments_manager.h:148-163, dents_manager.h:74-81. A MentsManager has no
    value temperatures: algorithms other than DENTS and EST do not read them. *)
Definition dents_manager (E : environment) (a : dents_args) (order : forall V, list (A * V) -> list (A * V)) : @mconf S A :=
  let m := da_ments a in let T := ma_thts m in
  mkM (ma_temp m) (ma_prior_w m) (ma_eps m) (ma_root_eps m) (ma_max_explore m) (ma_decay m) (ma_min_temp m) (ma_scale m)
    (ma_root_scale m) (ma_default_q m) (ma_shift m) (ma_offset m) (ma_threshold m) (ma_most m) (t_prior T) (t_two T)
    (fun s x => v_reward E s x None) (v_distr E) order (da_decay a) (da_init a) (da_min a) (da_scale a) (da_root_scale a) (da_dp a).
Definition ments_search_conf (E : environment) (a : dents_args) (time : Z) : @econf S A :=
  thts_conf E (ma_thts (da_ments a)) 0 time.
End Model.
