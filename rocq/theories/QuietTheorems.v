(** Property theorems about the values in a search tree between trials: C74. *)
From Coq Require Import List ZArith Bool Reals Lia Lra Permutation.
From Verif Require Import Base BaseProofs NumOps RLemmas HelperModel HelperSpec EngineModel EngineSpec EngineTheorems MapModel
  AlgoModel UctModel UctSpec UctTheorems MentsModel SoftSpec MentsSpec RecSpec MentsTheorems DentsSpec DpRun DbRun DentsTheorems QuietSpec QuietResults.
Import ListNotations.
Open Scope R_scope.

Section Theorems.
Context {S A : Type}.
Variable seqb : S -> S -> bool.
Variable aeqb : A -> A -> bool.
Hypothesis seqb_ok : decides seqb.
Hypothesis aeqb_ok : decides aeqb.
Variable C : @econf S A.
Variable M : @mconf S A.
Hypothesis NoTT : use_tt C = false.
Hypothesis Env : env_ok C M.
Notation dnode := (@dnode S A).
Notation cnode := (@cnode S A).
Notation areach := (areach seqb aeqb C).

(** Whatever the number of threads and the order of their steps, when no trial is under way every value agrees with
    the present values of the children. *)

(** MENTS: a node without children has its heuristic value, any other the soft maximum of its action values, at the
    temperature of its last backup; a chance node the reward plus the weighted mean of its children. *)
Theorem C74_ments : temps_ok M -> forall n g s, areach (ments aeqb C M) n g s -> quiet (base s) ->
  (forall d node x, nth_error (dh (mem (base s))) d = Some node -> nth_error (xds s) d = Some x ->
     dkids node = [] /\ m_soft x = dheur node \/
     exists (v : Z) (q : A -> R), (0 <= v <= dvisits node)%Z /\
       (forall a, In a (acts C (dstate node)) -> q_of M c_soft node (m_off x) (dview s node) a (q a)) /\
       m_soft x = seen M node (soft_max (ments_temp M (with_visits node v)) (map q (acts C (dstate node))))) /\
  (forall c node x, nth_error (ch (mem (base s))) c = Some node -> nth_error (xcs s) c = Some x ->
     exists v, weighted_mean (map (fun k => (m_nb (snd (snd k)), m_soft (snd (snd k)))) (cview s node)) v /\
       c_soft x = mreward M (cstate node) (cact node) + v).
Proof. exact (soft_quiet seqb aeqb seqb_ok aeqb_ok C M NoTT Env (ments aeqb C M) _ _ (ments_soft aeqb C M)). Qed.
Theorem C74_ments_fixed_temperature : 0 < mtemp M -> mdecay M = None -> forall n g s d node x,
  areach (ments aeqb C M) n g s -> quiet (base s) ->
  nth_error (dh (mem (base s))) d = Some node -> nth_error (xds s) d = Some x -> dkids node <> [] ->
  exists q : A -> R, (forall a, In a (acts C (dstate node)) -> q_of M c_soft node (m_off x) (dview s node) a (q a)) /\
    m_soft x = seen M node (soft_max (mtemp M) (map q (acts C (dstate node)))).
Proof.
  intros Tp Dn n g s d node x R Q Hd Hx NE. destruct (C74_ments) with (n := n) (g := g) (s := s) as [K _]; auto.
  { split; auto. intros f E. congruence. }
  destruct (K d node x Hd Hx) as [[E _]|(v & q & _ & H1 & H2)]; [contradiction|]. exists q. split; auto.
  rewrite H2. unfold ments_temp. now rewrite Dn.
Qed.
(** DB-MENTS keeps the same soft values, ... *)
Theorem C74_dbments_soft : temps_ok M -> forall n g s, areach (dbments aeqb C M) n g s -> quiet (base s) ->
  (forall d node x, nth_error (dh (mem (base s))) d = Some node -> nth_error (xds s) d = Some x ->
     dkids node = [] /\ m_soft (fst x) = dheur node \/
     exists (v : Z) (q : A -> R), (0 <= v <= dvisits node)%Z /\
       (forall a, In a (acts C (dstate node)) -> q_of M (fun y => c_soft (fst y)) node (m_off (fst x)) (dview s node) a (q a)) /\
       m_soft (fst x) = seen M node (soft_max (ments_temp M (with_visits node v)) (map q (acts C (dstate node))))) /\
  (forall c node x, nth_error (ch (mem (base s))) c = Some node -> nth_error (xcs s) c = Some x ->
     exists v, weighted_mean (map (fun k => (m_nb (fst (snd (snd k))), m_soft (fst (snd (snd k))))) (cview s node)) v /\
       c_soft (fst x) = mreward M (cstate node) (cact node) + v).
Proof. exact (soft_quiet seqb aeqb seqb_ok aeqb_ok C M NoTT Env (dbments aeqb C M) _ _ (dbments_soft aeqb C M)). Qed.
(** ... and like DENTS and EST dynamic programming values: the best value of a child (the smallest for the opponent),
    the weighted mean at chance nodes. All children count, each has been backed up. *)
Theorem C74_dbments_values : forall n g s, areach (dbments aeqb C M) n g s -> quiet (base s) ->
  (forall d node x, nth_error (dh (mem (base s))) d = Some node -> nth_error (xds s) d = Some x ->
     dkids node = [] /\ v_val (snd x) = dheur node \/
     let l := map (fun k => (v_nb (snd (snd (snd k))), v_val (snd (snd (snd k))))) (dview s node) in
     if opponent M node then is_min l (v_val (snd x)) else is_max l (v_val (snd x))) /\
  (forall c node x, nth_error (ch (mem (base s))) c = Some node -> nth_error (xcs s) c = Some x ->
     (1 <= v_nb (snd x))%Z /\
     exists v, weighted_mean (map (fun k => (v_nb (snd (snd (snd k))), v_val (snd (snd (snd k))))) (cview s node)) v /\
       v_val (snd x) = mreward M (cstate node) (cact node) + v).
Proof.
  exact (dp_quiet seqb aeqb seqb_ok aeqb_ok C M NoTT Env (dbments aeqb C M) snd snd (dbments_part aeqb C M)
    (fun x : mmem * vmem => match x with (mkMm _ _ _, mkVm _ _) => eq_refl end)).
Qed.
Theorem C74_dents_values : muse_dp M = true -> forall n g s, areach (dents aeqb C M) n g s -> quiet (base s) ->
  (forall d node x, nth_error (dh (mem (base s))) d = Some node -> nth_error (xds s) d = Some x ->
     dkids node = [] /\ v_val (d_dp x) = dheur node \/
     let l := map (fun k => (v_nb (dc_dp (snd (snd k))), v_val (dc_dp (snd (snd k))))) (dview s node) in
     if opponent M node then is_min l (v_val (d_dp x)) else is_max l (v_val (d_dp x))) /\
  (forall c node x, nth_error (ch (mem (base s))) c = Some node -> nth_error (xcs s) c = Some x ->
     (1 <= v_nb (dc_dp x))%Z /\
     exists v, weighted_mean (map (fun k => (v_nb (d_dp (snd (snd k))), v_val (d_dp (snd (snd k))))) (cview s node)) v /\
       v_val (dc_dp x) = mreward M (cstate node) (cact node) + v).
Proof.
  exact (fun U => dp_quiet seqb aeqb seqb_ok aeqb_ok C M NoTT Env (dents aeqb C M) d_dp dc_dp (dents_part aeqb C M U)
    (fun x : dmem => match x with mkDm _ _ _ (mkVm _ _) _ _ => eq_refl end)).
Qed.
Theorem C74_est_values : muse_dp M = true -> forall n g s, areach (est aeqb C M) n g s -> quiet (base s) ->
  (forall d node x, nth_error (dh (mem (base s))) d = Some node -> nth_error (xds s) d = Some x ->
     dkids node = [] /\ v_val (d_dp x) = dheur node \/
     let l := map (fun k => (v_nb (dc_dp (snd (snd k))), v_val (dc_dp (snd (snd k))))) (dview s node) in
     if opponent M node then is_min l (v_val (d_dp x)) else is_max l (v_val (d_dp x))) /\
  (forall c node x, nth_error (ch (mem (base s))) c = Some node -> nth_error (xcs s) c = Some x ->
     (1 <= v_nb (dc_dp x))%Z /\
     exists v, weighted_mean (map (fun k => (v_nb (d_dp (snd (snd k))), v_val (d_dp (snd (snd k))))) (cview s node)) v /\
       v_val (dc_dp x) = mreward M (cstate node) (cact node) + v).
Proof.
  exact (fun U => dp_quiet seqb aeqb seqb_ok aeqb_ok C M NoTT Env (est aeqb C M) d_dp dc_dp (est_part aeqb C M U)
    (fun x : dmem => match x with mkDm _ _ _ (mkVm _ _) _ _ => eq_refl end)).
Qed.
(** DENTS: the entropy of a node is that of its search policy plus the policy's mean of the entropies below. *)
Theorem C74_dents_entropies : ments_ok C M -> prior_ok C M -> explore_ok M -> forall N, few_actions C N -> fresh_known C M ->
  forall n g s, areach (dents aeqb C M) n g s -> quiet (base s) ->
  (forall d node x, nth_error (dh (mem (base s))) d = Some node -> nth_error (xds s) d = Some x ->
     dkids node = [] \/
     exists (v : Z) (q p : A -> R) pol, (0 <= v <= dvisits node)%Z /\
       let at_v := with_visits node v in
       (forall a, In a (acts C (dstate node)) ->
          q_of M (fun y => estimate M y + value_temp M at_v * entropy_below y) node (d_off x) (dview s node) a (q a)) /\
       search_policy aeqb C M at_v q pol /\
       (forall a w, In (a, w) pol -> p a = w) /\ (forall a, ~ In a (map fst pol) -> p a = 0) /\
       e_local (d_ent x) = Some (shannon (map snd pol)) /\
       e_sub (d_ent x) = Some (seen M node (shannon (map snd pol)) +
         rsum_of (fun k => p (fst k) * entropy_below (snd (snd k))) (dview s node))) /\
  (forall c node x, nth_error (ch (mem (base s))) c = Some node -> nth_error (xcs s) c = Some x ->
     exists v, weighted_mean (map (fun k => (e_nb (d_ent (snd (snd k))), match e_sub (d_ent (snd (snd k))) with Some h => h | None => 0 end)) (cview s node)) v /\
       ec_sub (dc_ent x) = Some v).
Proof.
  exact (fun Mok Pr Ex N Few Fr => ent_quiet seqb aeqb seqb_ok aeqb_ok C M NoTT Env Mok Pr Ex N Few Fr).
Qed.
End Theorems.

Print Assumptions C74_ments.
Print Assumptions C74_ments_fixed_temperature.
Print Assumptions C74_dbments_soft.
Print Assumptions C74_dbments_values.
Print Assumptions C74_dents_values.
Print Assumptions C74_est_values.
Print Assumptions C74_dents_entropies.

(** ** Examples that meet the hypotheses *)
(** The settings of MentsTheorems.v; [ments_run_witness], [dbments_run_witness], [est_run_witness] and
    [dents_run_witness] are searches of seven trials by two threads that end with no trial under way. *)
Example C74_settings_witness : use_tt ments_ex_conf = false /\ env_ok ments_ex_conf (ments_ex 1) /\ temps_ok (ments_ex 1) /\
  muse_dp (ments_ex 1) = true /\ mdecay (ments_ex 1) = None.
Proof. destruct (ments_sane_witness 1 ltac:(lra)) as (Mok & Env & Tok & _). repeat (split; auto). Qed.
