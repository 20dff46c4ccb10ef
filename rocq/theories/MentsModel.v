(** Model of MENTS, DB-MENTS, DENTS and EST: src/algorithms/ments/*.cpp, src/algorithms/ments/dents/*.cpp,
    src/algorithms/est/*.cpp and src/algorithms/common/*.cpp, as [algo]s (AlgoModel.v).

    Doubles are real numbers. NaN is modelled where the code produces it (the entropy members of DENTS, [None]);
    infinities are not: where the code would store one the model reports [UB] (and a theorem shows that no search
    gets there). Hash maps are association lists; [morder] is the order in which a map built by the code is
    iterated, an arbitrary rearrangement. A backup that locks the children twice (soft and DP backup) is one step. *)
From Coq Require Import List ZArith Bool Reals.
From Verif Require Import Base NumOps HelperModel EngineModel MapModel AlgoModel UctModel.
Import ListNotations.
Open Scope R_scope.

(** ** src/algorithms/common/decaying_temp.cpp *)

(** compute_decayed_temp, decaying_temp.cpp:11-17. *)
Definition decayed_temp (f : R -> R) (init_temp min_temp : R) (num_visits : Z) (visits_scale : R) : R :=
  let temp := init_temp * f (visits_scale * IZR num_visits) in
  if Rltb temp min_temp then min_temp else temp.
(** decayed_temp_inv_sqrt, decaying_temp.cpp:23-25. *)
Definition decay_inv_sqrt (m : R) : R := 1 / sqrt (1 + m).
(** decayed_temp_inv_log, decaying_temp.cpp:31-33. *)
Definition decay_inv_log (m : R) : R := 1 / ln (exp 1 + m).
(** decayed_temp_sigmoid, decaying_temp.cpp:39-41. *)
Definition decay_sigmoid (m : R) : R := (1 + exp (-5)) / (1 + exp (m - 5)).

(** ** Constants, ments_decision_node.cpp:13-17 *)
Definition ments_eps : R := 1 / IZR (10 ^ 16).
Definition log_min_arg : R := 1 / IZR (10 ^ 32).
Definition log_max_arg : R := IZR (10 ^ 32).

(** Clamped logarithm, ments_decision_node.cpp:47-53 and 115-121. *)
Definition log_weight (w : R) : R :=
  if Rleb log_max_arg w then 32 else if Rltb log_min_arg w then ln w else -32.

(** Running average over children with their counts, in iteration order: ments_chance_node.cpp:78-87,
    dp_chance_node.cpp:29-37, ent_chance_node.cpp:20-29. The accumulators are the value and sum_child_backups. *)
Definition avg_step (p : R * R) (c : Z * R) : R * R :=
  if (fst c =? 0)%Z then p
  else let s := snd p + IZR (fst c) in
       (fst p * ((s - IZR (fst c)) / s) + IZR (fst c) * snd c / s, s).
Definition avg_loop (l : list (Z * R)) : R := fst (fold_left avg_step l (0, 0)).

(** Loop of DPDNode::backup_dp_impl, dp_decision_node.cpp:61-74. [None] is opp_coeff * -infinity: every finite
    value is preferred to it. *)
Definition dp_step (opp : R) (best : option R) (c : Z * R) : option R :=
  if (fst c =? 0)%Z then best
  else match best with
       | None => Some (snd c)
       | Some b => if Rltb (opp * b) (opp * snd c) then Some (snd c) else best
       end.
Definition dp_loop (opp : R) (l : list (Z * R)) : option R := fold_left (dp_step opp) l None.

(** Arithmetic with NaN ([None]). *)
Definition nan2 (f : R -> R -> R) (a b : option R) : option R :=
  match a, b with Some x, Some y => Some (f x y) | _, _ => None end.

(** Local entropy, ent_decision_node.cpp:39-44. *)
Definition entropy_loop (policy : list R) : R :=
  fold_left (fun h p => if Req_EM_T p 0 then h else h - p * ln p) policy 0.

Section Ments.
Context {S A : Type}.
Variable seqb : S -> S -> bool.
Variable aeqb : A -> A -> bool.
Variable C : @econf S A.
Notation dnode := (@dnode S A).
Notation cnode := (@cnode S A).

(** MentsManager (include/algorithms/ments/ments_manager.h), DentsManager
    (include/algorithms/ments/dents/dents_manager.h) and the parts of ThtsManager and ThtsEnv not in [econf]. *)
Record mconf : Type := mkM {
  mtemp : R;                               (* temp *)
  mprior_w : R;                            (* prior_policy_search_weight *)
  meps : R;                                (* epsilon *)
  mroot_eps : R;                           (* root_node_epsilon *)
  mmax_explore : R;                        (* max_explore_prob *)
  mdecay : option (R -> R);                (* temp_decay_fn, None = nullptr *)
  mmin_temp : R;                           (* temp_decay_min_temp *)
  mscale : R;                              (* temp_decay_visits_scale *)
  mroot_scale : R;                         (* temp_decay_root_node_visits_scale *)
  mdefault_q : R;                          (* default_q_value *)
  mshift : bool;                           (* shift_pseudo_q_values *)
  moffset : R;                             (* psuedo_q_value_offset *)
  mthreshold : Z;                          (* recommend_visit_threshold *)
  mmost_visited : bool;                    (* recommend_most_visited *)
  mprior : option (S -> list (A * R));     (* prior_fn, None = nullptr *)
  mtwo : bool;                             (* is_two_player_game *)
  mreward : S -> A -> R;                   (* get_reward_itfc(state, action) *)
  mdistr : S -> A -> list (S * R);         (* get_transition_distribution_itfc *)
  morder : forall V, list (A * V) -> list (A * V);   (* iteration order of a map *)
  vdecay : option (R -> R);                (* value_temp_decay_fn *)
  vinit : R;                               (* value_temp_init *)
  vmin : R;                                (* value_temp_decay_min_temp *)
  vscale : R;                              (* value_temp_decay_visits_scale *)
  vroot_scale : R;                         (* value_temp_decay_root_node_visits_scale *)
  muse_dp : bool                           (* use_dp_value *)
}.
Variable M : mconf.

(** is_opponent as a coefficient, src/thts_decision_node.cpp:141-144. *)
Definition opp_coeff (n : dnode) : R := if mtwo M && Z.odd (dtime n) then -1 else 1.
(** is_root_node, src/thts_decision_node.cpp:126-128. *)
Definition is_root (n : dnode) : bool := (ddepth n =? 0)%Z.

(** MentsDNode::get_temp, ments_decision_node.cpp:75-86. *)
Definition ments_temp (n : dnode) : R :=
  match mdecay M with
  | None => mtemp M
  | Some f =>
      decayed_temp f (mtemp M) (mmin_temp M) (dvisits n)
        (if is_root n && Rltb 0 (mroot_scale M) then mroot_scale M else mscale M)
  end.

(** Members num_backups, soft_value and psuedo_q_value_offset of MentsDNode. *)
Record mmem : Type := mkMm { m_nb : Z; m_soft : R; m_off : R }.
(** Members num_backups and soft_value of MentsCNode; local_reward is [mreward] and next_state_distr [mdistr]. *)
Record cmem : Type := mkCm { c_nb : Z; c_soft : R }.

(** Loop computing mean_log_weight, ments_decision_node.cpp:44-57. The variable [i] is never incremented. *)
Definition mean_log_weight (prior : list (A * R)) : R :=
  let i := 1 in
  fold_left (fun mean p => mean * ((i - 1) / i) + log_weight (snd p) / i) prior 0.

(** Constructor, ments_decision_node.cpp:20-62. prior_fn is called once with the node's state; it is assumed to be
    a function of the state. *)
Definition ments_new_d (n : dnode) : mmem :=
  mkMm 0 (match heuristic C with Some _ => dheur n | None => 0 end)
       (match mprior M with
        | Some p => if mshift M then moffset M - mean_log_weight (morder M R (p (dstate n))) else 0
        | None => 0
        end).
(** MentsCNode constructor, ments_chance_node.cpp:11-30. *)
Definition ments_new_c (_ : cnode) : cmem := mkCm 0 (mdefault_q M).
(** MentsDNode::visit, ments_decision_node.cpp:95-100; the flag is is_leaf(). *)
Definition ments_visit (leaf : bool) (x : mmem) : mmem :=
  if leaf then mkMm (m_nb x + 1) (m_soft x) (m_off x) else x.

(** Q value of an action without child, ments_decision_node.cpp:114-126. *)
Definition unexpanded_q (n : dnode) (off : R) (a : A) : outcome R :=
  match mprior M with
  | Some p => bind (mat aeqb (p (dstate n)) a) (fun w => Ok (log_weight w + off))
  | None => Ok (mdefault_q M * opp_coeff n)
  end.
(** get_soft_q_value, ments_decision_node.cpp:108-127. *)
Definition ments_q (n : dnode) (x : mmem) (kids : list (A * (cnode * cmem))) (a : A) : outcome R :=
  match lookup aeqb a kids with
  | Some (_, c) => Ok (c_soft c * opp_coeff n)
  | None => unexpanded_q n (m_off x) a
  end.

(** The calls of get_soft_q_value for the actions in turn. (The code computes each value twice, with the same
    result.) *)
Fixpoint all_q (q : A -> outcome R) (l : list A) : outcome (list (A * R)) :=
  match l with
  | [] => Ok []
  | a :: r => bind (q a) (fun v => bind (all_q q r) (fun vs => Ok ((a, v) :: vs)))
  end.

(** Normalisation term, ments_decision_node.cpp:160-166. *)
Definition norm_term (temp : R) (qs : list (A * R)) : R :=
  fold_left (fun norm p => if Rltb norm (snd p / temp) then snd p / temp else norm) qs dbl_lowest.
(** Weight loop, ments_decision_node.cpp:169-175: the map and the sum. *)
Definition weight_loop (f : A -> R -> R) (qs : list (A * R)) : list (A * R) * R :=
  fold_left (fun '(m, s) p => let w := f (fst p) (snd p) in (mput aeqb m (fst p) w, s + w)) qs ([], 0).
(** compute_action_weights, ments_decision_node.cpp:149-176: weights, sum and normalisation term. *)
Definition ments_weights (temp : R) (qs : list (A * R)) : list (A * R) * R * R :=
  let norm := norm_term temp qs in
  (weight_loop (fun _ q => exp (q / temp - norm)) qs, norm).

(** lambda, ments_decision_node.cpp:203-208, for a positive number of visits. With no visits the quotient is
    epsilon / 0: infinite and capped for a positive epsilon, otherwise the probabilities become NaN ([None]). *)
Definition ments_lambda (n : dnode) : option R :=
  let eps := if is_root n && Rltb 0 (mroot_eps M) then mroot_eps M else meps M in
  if (dvisits n =? 0)%Z then (if Rltb 0 eps then Some (mmax_explore M) else None)
  else let lambda := eps / ln (IZR (dvisits n + 1)) in
       Some (if Rltb (mmax_explore M) lambda then mmax_explore M else lambda).

(** Mixing loop, ments_decision_node.cpp:214-225, on one entry. policy_prior is a null pointer if there is no
    prior_fn. *)
Definition mix_entry (n : dnode) (lambda : R) (sum : R) (num : R) (a : A) (w : R) : outcome R :=
  let p1 := w * ((1 - lambda) / sum) in
  bind (if Rltb 0 (mprior_w M) then
          let lt := mprior_w M / ln (IZR (dvisits n + 3)) in
          match mprior M with
          | None => UB
          | Some pr => bind (mat aeqb (pr (dstate n)) a) (fun pw => Ok (p1 * (1 - lt) + (1 - lambda) * lt * pw))
          end
        else Ok p1) (fun p2 =>
  Ok (p2 + lambda * (1 / num))).
(** The loop over all actions: the map and the vector near_zero_prob_actions. *)
Fixpoint mix_loop (n : dnode) (lambda sum num : R) (l : list A) (m : list (A * R)) : outcome (list (A * R) * list A) :=
  match l with
  | [] => Ok (m, [])
  | a :: r =>
      bind (mat aeqb m a) (fun w =>
      bind (mix_entry n lambda sum num a w) (fun p =>
      bind (mix_loop n lambda sum num r (mput aeqb m a p)) (fun '(m1, z) =>
      Ok (m1, if Rltb p ments_eps then a :: z else z))))
  end.
(** compute_action_distribution, ments_decision_node.cpp:190-231, after the weights. [None]: all entries NaN. *)
Definition mix (n : dnode) (weights : list (A * R)) (sum : R) : outcome (option (list (A * R))) :=
  match ments_lambda n with
  | None => Ok None
  | Some lambda =>
      let l := acts C (dstate n) in
      bind (mix_loop n lambda sum (INR (length l)) l weights) (fun '(m, z) =>
      Ok (Some (fold_left (mdel aeqb) z m)))
  end.

(** Sampling from the distribution, ments_decision_node.cpp:243. With NaN entries every comparison is false and
    sample_from_distribution throws at its end. *)
Definition sample_actions (d : option (list (A * R))) (g : rng R) : outcome (A * rng R) :=
  match d with
  | None => Throw
  | Some m => sample_from_distribution R_ops (morder M R m) true g
  end.

(** compute_action_distribution for Q values [q]. *)
Definition action_distr (n : dnode) (q : A -> outcome R) : outcome (option (list (A * R))) :=
  bind (all_q q (acts C (dstate n))) (fun qs =>
  let '(w, sum, _) := ments_weights (ments_temp n) qs in mix n w sum).

(** select_action_ments, ments_decision_node.cpp:240-248. The child is created by the engine (LSelect). *)
Definition ments_select (n : dnode) (x : mmem) (kids : list (A * (cnode * cmem))) (g : rng R) : outcome (A * rng R) :=
  bind (action_distr n (ments_q n x kids)) (fun d => sample_actions d g).

(** A random valid action, ments_decision_node.cpp:296-297, dbments_decision_node.cpp:34-37. *)
Definition random_valid (n : dnode) (g : rng R) : outcome (A * rng R) :=
  let l := acts C (dstate n) in
  bind (get_rand_int 0 (Z.of_nat (length l)) g) (fun '(i, g1) =>
  bind (vec_at_checked l i) (fun a => Ok (a, g1))).

(** recommend_action_best_soft_value, ments_decision_node.cpp:262-281. *)
Definition recommend_soft (n : dnode) (x : mmem) (kids : list (A * (cnode * cmem))) (g : rng R) : outcome (A * rng R) :=
  bind (all_q (ments_q n x kids) (acts C (dstate n))) (fun qs =>
  let enough a := match lookup aeqb a kids with Some (c, _) => (mthreshold M <=? cvisits c)%Z | None => false end in
  let hi := mbuild aeqb (fun a => if enough a then lookup aeqb a qs else None) (acts C (dstate n)) [] in
  let lo := mbuild aeqb (fun a => if enough a then None else lookup aeqb a qs) (acts C (dstate n)) [] in
  match hi with
  | [] => get_max_key Rltb dbl_lowest (morder M R lo) g
  | _ => get_max_key Rltb dbl_lowest (morder M R hi) g
  end).
(** recommend_action_most_visited, ments_decision_node.cpp:286-301. *)
Definition recommend_visits {X} (n : dnode) (kids : list (A * (cnode * X))) (g : rng R) : outcome (A * rng R) :=
  let m := mbuild aeqb (fun a => match lookup aeqb a kids with
                                 | Some (c, _) => Some (cvisits c)
                                 | None => None end) (acts C (dstate n)) [] in
  match m with
  | [] => random_valid n g
  | _ => get_max_key Z.ltb int_lowest (morder M Z m) g
  end.
(** recommend_action, ments_decision_node.cpp:308-314. *)
Definition ments_recommend (n : dnode) (x : mmem) (kids : list (A * (cnode * cmem))) (g : rng R) : outcome (A * rng R) :=
  if mmost_visited M then recommend_visits n kids g else recommend_soft n x kids g.

(** backup_soft, ments_decision_node.cpp:330-343, given the sum and the normalisation term. *)
Definition soft_value (n : dnode) (sum norm : R) : R := opp_coeff n * ments_temp n * (ln sum + norm).
Definition ments_backup_d (n : dnode) (x : mmem) (kids : list (A * (cnode * cmem))) : outcome mmem :=
  bind (all_q (ments_q n x kids) (acts C (dstate n))) (fun qs =>
  let '(_, sum, norm) := ments_weights (ments_temp n) qs in
  Ok (mkMm (m_nb x + 1) (soft_value n sum norm) (m_off x))).
(** MentsCNode::backup_soft, ments_chance_node.cpp:75-90. *)
Definition ments_backup_c (n : cnode) (x : cmem) (kids : list (S * (dnode * mmem))) : cmem :=
  mkCm (c_nb x + 1)
       (avg_loop (map (fun p => (m_nb (snd (snd p)), m_soft (snd (snd p)))) kids) + mreward M (cstate n) (cact n)).

(** sample_observation_random, ments_chance_node.cpp:42-48. *)
Definition ments_sample (n : cnode) (g : rng R) : outcome (S * rng R) :=
  sample_from_distribution R_ops (mdistr M (cstate n) (cact n)) true g.

(** MentsDNode and MentsCNode. *)
Definition ments : @algo S A :=
  mkAlgo mmem cmem unit Datatypes.tt ments_new_d ments_new_c ments_visit
    (fun n x kids cx g => bind (ments_select n x kids g) (fun '(a, g1) => Ok (a, cx, g1)))
    (fun n _ cx g => bind (ments_sample n g) (fun '(o, g1) => Ok (o, cx, g1)))
    (fun n x kids _ _ => ments_backup_d n x kids)
    (fun n x kids _ _ => Ok (ments_backup_c n x kids)).

(** ** DB-MENTS *)

(** Members num_backups and dp_value of DPDNode and DPCNode, and of EmpNode (num_backups, avg_return). *)
Record vmem : Type := mkVm { v_nb : Z; v_val : R }.

(** Constructors DPDNode(heuristic_value), dp_decision_node.h:37 and dbments_decision_node.cpp:7-20, and DPCNode(),
    dp_chance_node.h:37. *)
Definition dp_new_d (n : dnode) : vmem := mkVm 1 (dheur n).
Definition dp_new_c : vmem := mkVm 0 0.
(** visit_dp, dp_decision_node.cpp:15-17. *)
Definition dp_visit (leaf : bool) (x : vmem) : vmem := if leaf then mkVm (v_nb x + 1) (v_val x) else x.
(** DPDNode::backup_dp_impl, dp_decision_node.cpp:61-74; an infinite value is reported as [UB]. *)
Definition dp_backup_d (n : dnode) (x : vmem) (kids : list (A * vmem)) : outcome vmem :=
  match dp_loop (opp_coeff n) (map (fun p => (v_nb (snd p), v_val (snd p))) kids) with
  | Some v => Ok (mkVm (v_nb x + 1) v)
  | None => UB
  end.
(** DPCNode::backup_dp_impl, dp_chance_node.cpp:28-41. *)
Definition dp_backup_c (n : cnode) (x : vmem) (kids : list (S * vmem)) : vmem :=
  mkVm (v_nb x + 1) (avg_loop (map (fun p => (v_nb (snd p), v_val (snd p))) kids) + mreward M (cstate n) (cact n)).
(** recommend_action_best_dp_value_impl, dp_decision_node.cpp:24-44, and recommend_action_best_emp_value_impl,
    emp_node.cpp:24-44. *)
Definition recommend_value (n : dnode) (kids : list (A * vmem)) (g : rng R) : outcome (A * rng R) :=
  let val p := (fst p, opp_coeff n * v_val (snd p)) in
  let hi := map val (filter (fun p => (mthreshold M <=? v_nb (snd p))%Z) kids) in
  let lo := map val (filter (fun p => negb (mthreshold M <=? v_nb (snd p))%Z) kids) in
  match hi with
  | [] => get_max_key Rltb dbl_lowest (morder M R lo) g
  | _ => get_max_key Rltb dbl_lowest (morder M R hi) g
  end.
(** recommend_action_best_dp_value, dbments_decision_node.cpp:33-42, and recommend_action_best_empirical_value,
    dents_decision_node.cpp:72-81. *)
Definition recommend_best (n : dnode) (kids : list (A * vmem)) (g : rng R) : outcome (A * rng R) :=
  match kids with [] => random_valid n g | _ => recommend_value n kids g end.

Definition onto {K X Y : Type} (f : X -> Y) (kids : list (K * (dnode * X))) : list (K * (dnode * Y)) :=
  map (fun p => (fst p, (fst (snd p), f (snd (snd p))))) kids.
Definition ontoc {K X Y : Type} (f : X -> Y) (kids : list (K * (cnode * X))) : list (K * (cnode * Y)) :=
  map (fun p => (fst p, (fst (snd p), f (snd (snd p))))) kids.
Definition members {K N X Y : Type} (f : X -> Y) (kids : list (K * (N * X))) : list (K * Y) :=
  map (fun p => (fst p, f (snd (snd p)))) kids.

(** DBMentsDNode::recommend_action, dbments_decision_node.cpp:47-53. *)
Definition dbments_recommend (n : dnode) (kids : list (A * (cnode * (cmem * vmem)))) (g : rng R) : outcome (A * rng R) :=
  if mmost_visited M then recommend_visits n kids g else recommend_best n (members snd kids) g.
(** DBMentsDNode::backup, dbments_decision_node.cpp:60-69: backup_soft sees the children as [k1]
    (ments_decision_node.cpp:336-338), backup_dp as [k2] (dp_decision_node.h:163-165). *)
Definition dbments_backup_d (n : dnode) (x : mmem * vmem) (k1 k2 : list (A * (cnode * (cmem * vmem)))) : outcome (mmem * vmem) :=
  bind (ments_backup_d n (fst x) (ontoc fst k1)) (fun m =>
  bind (dp_backup_d n (snd x) (members snd k2)) (fun v => Ok (m, v))).
(** DBMentsCNode::backup, dbments_chance_node.cpp:32-41: backup_soft sees [k1] (ments_chance_node.cpp:80-88), backup_dp
    [k2] (dp_chance_node.h:100-102). *)
Definition dbments_backup_c (n : cnode) (x : cmem * vmem) (k1 k2 : list (S * (dnode * (mmem * vmem)))) : cmem * vmem :=
  (ments_backup_c n (fst x) (onto fst k1), dp_backup_c n (snd x) (members snd k2)).
(** DBMentsDNode and DBMentsCNode; visit is dbments_decision_node.cpp:25-28. A backup looks at the children once before
    its last look. *)
Definition dbments : @algo S A :=
  mkLooking (mmem * vmem) (cmem * vmem) (looks (mmem * vmem) (cmem * vmem) S A) ([], [])
    (fun n => (ments_new_d n, dp_new_d n)) (fun n => (ments_new_c n, dp_new_c))
    (fun leaf x => (ments_visit leaf (fst x), dp_visit leaf (snd x)))
    (fun n x kids cx g => bind (ments_select n (fst x) (ontoc fst kids) g) (fun '(a, g1) => Ok (a, cx, g1)))
    (fun n _ cx g => bind (ments_sample n g) (fun '(o, g1) => Ok (o, cx, g1)))
    (fun n x kids cx _ => dbments_backup_d n x (hd kids (fst cx)) kids)
    (fun n x kids cx _ => Ok (dbments_backup_c n x (hd kids (snd cx)) kids))
    (note 1) (note2 1) fst snd (fun _ => ([], [])) (note_sees _ _ 1) (note2_sees _ _ 1) (fun _ => conj eq_refl eq_refl).

(** ** DENTS *)

(** Members num_backups, local_entropy and subtree_entropy of EntDNode, num_backups and subtree_entropy of EntCNode. *)
Record emem : Type := mkEm { e_nb : Z; e_local : option R; e_sub : option R }.
Record ecmem : Type := mkEc { ec_nb : Z; ec_sub : option R }.

(** All members of DentsDNode and DentsCNode. soft_value may be NaN here. *)
Record dmem : Type := mkDm { d_nb : Z; d_soft : option R; d_off : R; d_dp : vmem; d_ent : emem; d_emp : vmem }.
Record dcmem : Type := mkDc { dc_nb : Z; dc_soft : option R; dc_dp : vmem; dc_ent : ecmem; dc_emp : vmem }.

(** EntDNode::backup_ent_impl, ent_decision_node.cpp:34-54. [policy[action]] is 0 for a missing action; a NaN
    distribution makes everything NaN. *)
Definition ent_backup_d (n : dnode) (x : emem) (policy : option (list (A * R))) (kids : list (A * ecmem)) : emem :=
  match policy with
  | None => mkEm (e_nb x + 1) (match acts C (dstate n) with [] => Some 0 | _ => None end)
                 (match acts C (dstate n) with [] => Some 0 | _ => None end)
  | Some pol =>
      let h := entropy_loop (map snd (morder M R pol)) in
      mkEm (e_nb x + 1) (Some h)
        (fold_left (fun s p => nan2 (fun s e => s + match lookup aeqb (fst p) pol with Some w => w | None => 0 end * e)
                                    s (ec_sub (snd p))) kids (Some (opp_coeff n * h)))
  end.
(** EntCNode::backup_ent_impl, ent_chance_node.cpp:17-30. *)
Definition ent_backup_c (x : ecmem) (kids : list (S * emem)) : ecmem :=
  let l := filter (fun p => negb (e_nb (snd p) =? 0)%Z) kids in
  mkEc (ec_nb x + 1)
       (if existsb (fun p => match e_sub (snd p) with None => true | _ => false end) l then None
        else Some (avg_loop (map (fun p => (e_nb (snd p), match e_sub (snd p) with Some h => h | None => 0 end)) kids))).
(** EmpNode::backup_emp, emp_node.cpp:49-52. *)
Definition emp_backup (x : vmem) (ret : R) : vmem :=
  let nb := (v_nb x + 1)%Z in mkVm nb (v_val x + (ret - v_val x) / IZR nb).

(** DentsDNode::get_value_temp, dents_decision_node.cpp:33-47; DentsCNode::get_value_temp, dents_chance_node.cpp:31-41. *)
Definition value_temp (n : dnode) : R :=
  match vdecay M with
  | None => vinit M
  | Some f => decayed_temp f (vinit M) (vmin M) (dvisits n)
                (if is_root n && Rltb 0 (vroot_scale M) then vroot_scale M else vscale M)
  end.
Definition value_temp_c (n : cnode) : R :=
  match vdecay M with None => vinit M | Some f => decayed_temp f (vinit M) (vmin M) (cvisits n) (vscale M) end.

(** DentsDNode constructor, dents_decision_node.cpp:8-28 (with its base classes). Exceptions from the constructor
    (a prior without an entry for an action) are not modelled: such a node gets NaN entropies. *)
Definition dents_new_d (n : dnode) : dmem :=
  let m := ments_new_d n in
  let pol := match action_distr n (unexpanded_q n (m_off m)) with Ok d => d | _ => None end in
  mkDm (m_nb m) (Some (m_soft m)) (m_off m) (dp_new_d n)
       (ent_backup_d n (mkEm 0 (Some 0) (Some 0)) pol []) (mkVm 1 (dheur n)).
(** DentsCNode constructor, dents_chance_node.cpp:9-26. *)
Definition dents_new_c (n : cnode) : dcmem :=
  mkDc 0 (Some (mdefault_q M)) dp_new_c (mkEc 0 (Some 0)) (mkVm 0 0).
(** visit is DBMentsDNode::visit, dbments_decision_node.cpp:25-28. *)
Definition dents_visit (leaf : bool) (x : dmem) : dmem :=
  mkDm (if leaf then d_nb x + 1 else d_nb x)%Z (d_soft x) (d_off x) (dp_visit leaf (d_dp x)) (d_ent x) (d_emp x).

Definition dents_est (x : dcmem) : R := if muse_dp M then v_val (dc_dp x) else v_val (dc_emp x).
(** DentsDNode::get_soft_q_value, dents_decision_node.cpp:57-67. *)
Definition dents_q (n : dnode) (off : R) (kids : list (A * (cnode * dcmem))) (a : A) : outcome (option R) :=
  match lookup aeqb a kids with
  | Some (_, c) => Ok (match ec_sub (dc_ent c) with
                       | Some h => Some (opp_coeff n * (dents_est c + value_temp n * h))
                       | None => None
                       end)
  | None => bind (unexpanded_q n off a) (fun v => Ok (Some v))
  end.
(** A NaN Q value makes the sum of the weights and so every probability NaN. *)
Fixpoint nan_free {T} (l : list (T * option R)) : option (list (T * R)) :=
  match l with
  | [] => Some []
  | (a, Some v) :: r => match nan_free r with Some vs => Some ((a, v) :: vs) | None => None end
  | (_, None) :: _ => None
  end.
Fixpoint all_nq (q : A -> outcome (option R)) (l : list A) : outcome (list (A * option R)) :=
  match l with
  | [] => Ok []
  | a :: r => bind (q a) (fun v => bind (all_nq q r) (fun vs => Ok ((a, v) :: vs)))
  end.
Definition dents_distr (n : dnode) (off : R) (kids : list (A * (cnode * dcmem))) : outcome (option (list (A * R))) :=
  bind (all_nq (dents_q n off kids) (acts C (dstate n))) (fun qs =>
  match nan_free qs with
  | Some qs' => let '(w, sum, _) := ments_weights (ments_temp n) qs' in mix n w sum
  | None => Ok None
  end).
Definition dents_select (n : dnode) (x : dmem) (kids : list (A * (cnode * dcmem))) (g : rng R) : outcome (A * rng R) :=
  bind (dents_distr n (d_off x) kids) (fun d => sample_actions d g).
(** DentsDNode::recommend_action, dents_decision_node.cpp:86-95. *)
Definition dents_recommend (n : dnode) (kids : list (A * (cnode * dcmem))) (g : rng R) : outcome (A * rng R) :=
  if mmost_visited M then recommend_visits n kids g
  else recommend_best n (members (if muse_dp M then dc_dp else dc_emp) kids) g.
(** Value part of the backups, dents_decision_node.cpp:116-125, est_decision_node.cpp:52-58. *)
Definition value_backup_d (n : dnode) (x : dmem) (kids : list (A * (cnode * dcmem))) (ret : R) : outcome (vmem * vmem) :=
  if muse_dp M then bind (dp_backup_d n (d_dp x) (members dc_dp kids)) (fun v => Ok (v, d_emp x))
  else Ok (d_dp x, emp_backup (d_emp x) ret).
Definition value_backup_c (n : cnode) (x : dcmem) (kids : list (S * (dnode * dmem))) (ret : R) : vmem * vmem :=
  if muse_dp M then (dp_backup_c n (dc_dp x) (members d_dp kids), dc_emp x)
  else (dc_dp x, emp_backup (dc_emp x) ret).
(** DentsDNode::backup, dents_decision_node.cpp:102-129: compute_action_distribution sees the children as [k1]
    (ments_decision_node.cpp:197-199), backup_ent as [k2] (ent_decision_node.h:112-114), backup_dp as [k3]
    (dp_decision_node.h:163-165). *)
Definition dents_backup_d (n : dnode) (x : dmem) (k1 k2 k3 : list (A * (cnode * dcmem))) (ret : R) : outcome dmem :=
  bind (dents_distr n (d_off x) k1) (fun pol =>
  let e := ent_backup_d n (d_ent x) pol (members dc_ent k2) in
  bind (value_backup_d n x k3 ret) (fun '(dp, emp) =>
  Ok (mkDm (d_nb x + 1)
        (nan2 (fun v h => v + value_temp n * h) (Some (if muse_dp M then v_val dp else v_val emp)) (e_sub e))
        (d_off x) dp e emp))).
(** DentsCNode::backup, dents_chance_node.cpp:48-73: backup_ent sees the children as [k1] (ent_chance_node.h:97-99),
    backup_dp as [k2] (dp_chance_node.h:100-102). *)
Definition dents_backup_c (n : cnode) (x : dcmem) (k1 k2 : list (S * (dnode * dmem))) (ret : R) : dcmem :=
  let e := ent_backup_c (dc_ent x) (members d_ent k1) in
  let '(dp, emp) := value_backup_c n x k2 ret in
  mkDc (dc_nb x + 1)
    (nan2 (fun v h => v + value_temp_c n * h) (Some (if muse_dp M then v_val dp else v_val emp)) (ec_sub e)) dp e emp.
(** DentsDNode and DentsCNode. With DP values a backup of a decision node looks at the children three times and one of a
    chance node twice; with average returns twice and once. *)
Definition dents : @algo S A :=
  let kd := if muse_dp M then 2%nat else 1%nat in
  let kc := if muse_dp M then 1%nat else 0%nat in
  mkLooking dmem dcmem (looks dmem dcmem S A) ([], []) dents_new_d dents_new_c dents_visit
    (fun n x kids cx g => bind (dents_select n x kids g) (fun '(a, g1) => Ok (a, cx, g1)))
    (fun n _ cx g => bind (ments_sample n g) (fun '(o, g1) => Ok (o, cx, g1)))
    (fun n x kids cx b => dents_backup_d n x (nth 0 (fst cx) kids) (nth 1 (fst cx) kids) kids (b_tafter b))
    (fun n x kids cx b => Ok (dents_backup_c n x (hd kids (snd cx)) kids (b_tafter b)))
    (note kd) (note2 kc) fst snd (fun _ => ([], [])) (note_sees _ _ kd) (note2_sees _ _ kc) (fun _ => conj eq_refl eq_refl).

(** ** EST *)

(** EstDNode::get_soft_q_value, est_decision_node.cpp:27-36. *)
Definition est_q (n : dnode) (off : R) (kids : list (A * (cnode * dcmem))) (a : A) : outcome R :=
  match lookup aeqb a kids with
  | Some (_, c) => Ok (dents_est c * opp_coeff n)
  | None => unexpanded_q n off a
  end.
Definition est_select (n : dnode) (x : dmem) (kids : list (A * (cnode * dcmem))) (g : rng R) : outcome (A * rng R) :=
  bind (action_distr n (est_q n (d_off x) kids)) (fun d => sample_actions d g).
(** EstDNode::backup, est_decision_node.cpp:43-59. *)
Definition est_backup_d (n : dnode) (x : dmem) (kids : list (A * (cnode * dcmem))) (ret : R) : outcome dmem :=
  bind (value_backup_d n x kids ret) (fun '(dp, emp) =>
  Ok (mkDm (d_nb x + 1) (d_soft x) (d_off x) dp (d_ent x) emp)).
(** EstCNode::backup, est_chance_node.cpp:31-47. *)
Definition est_backup_c (n : cnode) (x : dcmem) (kids : list (S * (dnode * dmem))) (ret : R) : dcmem :=
  let '(dp, emp) := value_backup_c n x kids ret in mkDc (dc_nb x + 1) (dc_soft x) dp (dc_ent x) emp.
(** EstDNode and EstCNode (constructors, visit and recommend_action are those of DENTS). *)
Definition est : @algo S A :=
  mkAlgo dmem dcmem unit Datatypes.tt dents_new_d dents_new_c dents_visit
    (fun n x kids cx g => bind (est_select n x kids g) (fun '(a, g1) => Ok (a, cx, g1)))
    (fun n _ cx g => bind (ments_sample n g) (fun '(o, g1) => Ok (o, cx, g1)))
    (fun n x kids _ b => est_backup_d n x kids (b_tafter b))
    (fun n x kids _ b => Ok (est_backup_c n x kids (b_tafter b))).

(** ** RENTS *)

(** The entries "d_{depth}" of the trial's context (RentsDNode constructor, rents_decision_node.cpp:27-35), keyed by
    depth. *)
Definition rctx : Type := list (Z * list (A * R)).
(** get_parent_distr_from_context, rents_decision_node.cpp:42-45. *)
Definition parent_distr (n : dnode) (cx : rctx) : outcome (option (list (A * R))) :=
  if (ddepth n <? 1)%Z then Ok None else bind (mat Z.eqb cx (ddepth n - 1)%Z) (fun d => Ok (Some d)).
(** get_parent_action_prob, rents_decision_node.cpp:62-68. *)
Definition parent_prob (d : option (list (A * R))) (a : A) : R :=
  match d with
  | None => 1
  | Some m => match lookup aeqb a m with Some p => p | None => 0 end
  end.
(** Replacement of very small weights, rents_decision_node.cpp:111-117, tents_decision_node.cpp:151-157. *)
Definition uniform_if_small (l : list A) (ws : list (A * R) * R) : list (A * R) * R :=
  if Rltb (snd ws) ments_eps then (fold_left (fun m a => mput aeqb m a (1 / INR (length l))) l (fst ws), 1) else ws.
(** RentsDNode::compute_action_weights, rents_decision_node.cpp:78-118. *)
Definition rents_weights (n : dnode) (qs : list (A * R)) (par : option (list (A * R))) : list (A * R) * R * R :=
  let norm := norm_term (ments_temp n) qs in
  (uniform_if_small (acts C (dstate n))
     (weight_loop (fun a q => exp (q / ments_temp n - norm) * parent_prob par a) qs), norm).
(** select_action_rents, rents_decision_node.cpp:128-137. A NaN distribution cannot occur here: the node has been
    visited. *)
Definition rents_distr (n : dnode) (x : mmem) (kids : list (A * (cnode * cmem))) (cx : rctx) : outcome (option (list (A * R))) :=
  bind (all_q (ments_q n x kids) (acts C (dstate n))) (fun qs =>
  bind (parent_distr n cx) (fun par =>
  let '(w, sum, _) := rents_weights n qs par in mix n w sum)).
Definition rents_select (n : dnode) (x : mmem) (kids : list (A * (cnode * cmem))) (cx : rctx) (g : rng R)
  : outcome (A * rctx * rng R) :=
  bind (rents_distr n x kids cx) (fun d =>
  let cx1 := match d with Some m => mput Z.eqb cx (ddepth n) m | None => cx end in
  bind (sample_actions d g) (fun '(a, g1) => Ok (a, cx1, g1))).
(** MentsDNode::backup_soft with the weights of RENTS. *)
Definition rents_backup_d (n : dnode) (x : mmem) (kids : list (A * (cnode * cmem))) (cx : rctx) : outcome mmem :=
  bind (all_q (ments_q n x kids) (acts C (dstate n))) (fun qs =>
  bind (parent_distr n cx) (fun par =>
  let '(_, sum, norm) := rents_weights n qs par in
  Ok (mkMm (m_nb x + 1) (soft_value n sum norm) (m_off x)))).
(** RentsDNode and RentsCNode. *)
Definition rents : @algo S A :=
  mkAlgo mmem cmem rctx [] ments_new_d ments_new_c ments_visit
    rents_select
    (fun n _ cx g => bind (ments_sample n g) (fun '(o, g1) => Ok (o, cx, g1)))
    (fun n x kids cx _ => rents_backup_d n x kids cx)
    (fun n x kids _ _ => Ok (ments_backup_c n x kids)).

(** ** TENTS *)

(** Members of TentsDNode: act_to_qval (an unordered_map), qval_to_act (a multimap: a list ordered by value, equal
    values in order of insertion) and those of MentsDNode. *)
Record tmem : Type := mkTm { t_m : mmem; t_a2q : list (A * R); t_q2a : list (R * A) }.

(** multimap::insert: after the entries with equal key. *)
Fixpoint mm_insert (v : R) (a : A) (l : list (R * A)) : list (R * A) :=
  match l with
  | [] => [(v, a)]
  | (v', a') :: r => if Rltb v v' then (v, a) :: l else (v', a') :: mm_insert v a r
  end.
(** Erasing loop of update_maps, tents_decision_node.cpp:59-64, from the first entry with key [old] on
    (multimap::find in libstdc++ returns the first). *)
Fixpoint mm_erase_from (old : R) (a : A) (l : list (R * A)) : outcome (list (R * A)) :=
  match l with
  | [] => Ok []
  | (v, a') :: r =>
      if Req_EM_T v old then
        if aeqb a' a then Ok r else bind (mm_erase_from old a r) (fun r' => Ok ((v, a') :: r'))
      else Throw
  end.
Fixpoint mm_erase (old : R) (a : A) (l : list (R * A)) : outcome (list (R * A)) :=
  match l with
  | [] => Ok []
  | (v, a') :: r => if Req_EM_T v old then mm_erase_from old a l
                    else bind (mm_erase old a r) (fun r' => Ok ((v, a') :: r'))
  end.
(** update_maps, tents_decision_node.cpp:56-68; act_to_qval[action] of a missing action is 0. *)
Definition update_maps (x : tmem) (a : A) (v : R) : outcome tmem :=
  let old := match lookup aeqb a (t_a2q x) with Some o => o | None => 0 end in
  bind (mm_erase old a (t_q2a x)) (fun l =>
  Ok (mkTm (t_m x) (mput aeqb (mdel aeqb (t_a2q x) a) a v) (mm_insert v a l))).
(** get_soft_q_value_over_temp, tents_decision_node.cpp:47-51. *)
Definition q_over_temp (n : dnode) (x : mmem) (kids : list (A * (cnode * cmem))) (a : A) : outcome R :=
  bind (ments_q n x kids a) (fun q => Ok (q / ments_temp n)).
(** Constructor, tents_decision_node.cpp:20-42. As for DENTS, exceptions are not modelled: an action without a value
    (missing in the prior) is left out. *)
Definition tents_new_d (n : dnode) : tmem :=
  let m := ments_new_d n in
  fold_left (fun x a => match q_over_temp n m [] a with
                        | Ok v => mkTm m (mput aeqb (t_a2q x) a v) (mm_insert v a (t_q2a x))
                        | _ => x
                        end) (acts C (dstate n)) (mkTm m [] []).
(** get_sparse_action_set, tents_decision_node.cpp:78-92, on the reversed multimap. *)
Fixpoint sparse_loop (l : list (R * A)) (i sum : R) : list A :=
  match l with
  | [] => []
  | (v, a) :: r =>
      let sum1 := sum + v in
      if Rltb sum1 (1 + (i + 1) * v) then a :: sparse_loop r (i + 1) sum1 else sparse_loop r (i + 1) sum1
  end.
Definition sparse_set (x : tmem) : list A := sparse_loop (rev (t_q2a x)) 0 0.
(** spmax, tents_decision_node.cpp:99-115. *)
Definition spmax (x : tmem) : outcome R :=
  let l := sparse_set x in
  bind (all_q (fun a => mat aeqb (t_a2q x) a) l) (fun vs =>
  let sum := fold_left (fun s p => s + snd p) vs 0 in
  let common := 1 / 2 * (sum - 1) ^ 2 / (INR (length l)) ^ 2 in
  Ok (fold_left (fun s p => s + (snd p ^ 2 / 2 - common)) vs (1 / 2))).
(** compute_action_weights, tents_decision_node.cpp:125-158. *)
Definition tents_weights (n : dnode) (x : tmem) (kids : list (A * (cnode * cmem))) : outcome (list (A * R) * R) :=
  let l := sparse_set x in
  bind (all_q (q_over_temp n (t_m x) kids) l) (fun sv =>
  let common := (fold_left (fun s p => s + snd p) sv 0 - 1) / INR (length l) in
  bind (all_q (q_over_temp n (t_m x) kids) (acts C (dstate n))) (fun qs =>
  Ok (uniform_if_small (acts C (dstate n))
        (weight_loop (fun _ q => if Rltb (q - common) 0 then 0 else q - common) qs)))).
(** The entries "{depth}" of the context, keyed by depth. *)
Definition tctx : Type := list (Z * A).
(** select_action, tents_decision_node.cpp:164-168. *)
Definition tents_select (n : dnode) (x : tmem) (kids : list (A * (cnode * cmem))) (cx : tctx) (g : rng R)
  : outcome (A * tctx * rng R) :=
  bind (tents_weights n x kids) (fun '(w, sum) =>
  bind (mix n w sum) (fun d =>
  bind (sample_actions d g) (fun '(a, g1) => Ok (a, mput Z.eqb cx (ddepth n) a, g1)))).
(** backup_tents and backup_update_map, tents_decision_node.cpp:175-205. *)
Definition tents_backup_d (n : dnode) (x : tmem) (kids : list (A * (cnode * cmem))) (cx : tctx) : outcome tmem :=
  bind (mat Z.eqb cx (ddepth n)) (fun a =>
  bind (q_over_temp n (t_m x) kids a) (fun v =>
  bind (update_maps x a v) (fun x1 =>
  bind (spmax x1) (fun sp =>
  Ok (mkTm (mkMm (m_nb (t_m x) + 1) (opp_coeff n * ments_temp n * sp) (m_off (t_m x))) (t_a2q x1) (t_q2a x1)))))).
(** TentsDNode and TentsCNode. *)
Definition tents : @algo S A :=
  mkAlgo tmem cmem tctx [] tents_new_d ments_new_c
    (fun leaf x => mkTm (ments_visit leaf (t_m x)) (t_a2q x) (t_q2a x))
    tents_select
    (fun n _ cx g => bind (ments_sample n g) (fun '(o, g1) => Ok (o, cx, g1)))
    (fun n x kids cx _ => tents_backup_d n x kids cx)
    (fun n x kids _ _ => Ok (ments_backup_c n x (onto t_m kids))).
End Ments.
