(** Property theorems about TENTS and RENTS: C21 and C74 (for these), C44, C45, C46, C75, C76. *)
From Coq Require Import List ZArith Bool Reals Lia Lra Permutation Sorted.
From Verif Require Import AlgoFinish Base BaseProofs NumOps RLemmas HelperModel HelperSpec EngineModel EngineSpec EngineTheorems MapModel MapProofs
  PickSpec AlgoModel AlgoTheorems AlgoSafe QuietSpec UctModel UctSpec UctTheorems MentsModel SoftSpec SoftProofs MentsSpec MentsProofs MentsPolicy MentsRun SoftTheorems RecSpec RecProofs
  MentsTheorems FamilyRun DentsTheorems TentsSpec TentsProofs AlgoTrail TentsRun TentsStale TentsResults.
Import ListNotations.
Open Scope R_scope.

Section Theorems.
Context {S A : Type}.
Variable seqb : S -> S -> bool.
Variable aeqb : A -> A -> bool.
Hypothesis seqb_ok : decides seqb.
Hypothesis aeqb_ok : decides aeqb.
Variable C : @econf S A.
Variable M : @mconf S A.
Notation dnode := (@dnode S A).
Notation cnode := (@cnode S A).
Notation ta := (tents aeqb C M).
Notation ra := (rents aeqb C M).
Notation areach := (areach seqb aeqb C).

(** ** C44 *)
(** When the maps hold the current action values over the temperature, the weights are the projection of these on
    the simplex (a unique point), and the stored sum of the weights is one. *)
Theorem C44_weights : forall n (x : @tmem A) (kids : list (A * (cnode * cmem))) (q : A -> R),
  (forall s, NoDup (acts C s)) -> prior_total C M n -> acts C (dstate n) <> [] -> NoDup (map fst kids) ->
  (forall a, In a (acts C (dstate n)) -> q_of M c_soft n (m_off (t_m x)) kids a (q a)) ->
  maps_hold (acts C (dstate n)) x (fun a => q a / ments_temp M n) ->
  exists p, projection (acts C (dstate n)) (fun a => q a / ments_temp M n) p /\
    (forall p', projection (acts C (dstate n)) (fun a => q a / ments_temp M n) p' -> forall a, In a (acts C (dstate n)) -> p' a = p a) /\
    tents_weights aeqb C M n x kids = Ok (map (fun a => (a, p a)) (acts C (dstate n)), 1).
Proof. exact (C44_weights' aeqb aeqb_ok C M). Qed.
(** After any sequence of updates the two maps hold the same pairs, the second in order, and every action has the
    value last given to it. *)
Theorem C44_updates : forall l us (x : @tmem A), maps_ok l x -> (forall a v, In (a, v) us -> In a l) ->
  exists x', fold_left (fun o p => bind o (fun x => update_maps aeqb x (fst p) (snd p))) us (Ok x) = Ok x' /\ maps_ok l x' /\
    forall a v, In a l -> (In (a, v) (t_a2q x') <-> last_given us a v \/ ~ In a (map fst us) /\ In (a, v) (t_a2q x)).
Proof. exact (C44_updates' aeqb aeqb_ok). Qed.
Section Maps.
Hypothesis Env : env_ok C M.
Hypothesis Pr : prior_ok C M.
(** The maps of all nodes of every search are in order, at any time. *)
Theorem C44_in_searches : forall n g s d node x, areach ta n g s -> nth_error (dh (mem (base s))) d = Some node ->
  nth_error (xds s) d = Some x -> maps_ok (acts C (dstate node)) (x : @tmem A).
Proof. exact (C44_maps' seqb aeqb seqb_ok aeqb_ok C M Env Pr). Qed.
(** A backup stores the current value of the selected action and no other, and the soft value becomes temperature times the
    sparse maximum of the stored values (negated for the opponent). *)
Theorem C44_backup : forall n (x : @tmem A) (kids : list (A * (cnode * cmem))) a q (cx : list (Z * A)) b,
  acts C (dstate n) <> [] -> NoDup (map fst kids) -> maps_ok (acts C (dstate n)) x ->
  mat Z.eqb cx (ddepth n) = Ok a -> In a (acts C (dstate n)) -> q_of M c_soft n (m_off (t_m x)) kids a q ->
  exists (x1 : @tmem A) sp, back_d ta n x kids cx b = Ok x1 /\ maps_ok (acts C (dstate n)) x1 /\
    In (a, q / ments_temp M n) (t_a2q x1) /\ (forall c v, c <> a -> (In (c, v) (t_a2q x1) <-> In (c, v) (t_a2q x))) /\
    (forall z, maps_hold (acts C (dstate n)) x1 z -> sparse_max (acts C (dstate n)) z sp) /\
    m_soft (t_m x1) = seen M n (ments_temp M n * sp) /\ m_nb (t_m x1) = (m_nb (t_m x) + 1)%Z /\ m_off (t_m x1) = m_off (t_m x).
Proof. exact (C44_backup' aeqb aeqb_ok C M Env Pr). Qed.

(** ** C45 *)
Section NoTable.
Hypothesis NoTT : use_tt C = false.
(** At a node that no worker is about to back up, the stored value of each action is its current value over a
    temperature the node had at some time. *)
Theorem C45_stored_values_partial : forall n g s d node x a, areach ta n g s -> settled (base s) d ->
  nth_error (dh (mem (base s))) d = Some node -> nth_error (xds s) d = Some x -> In a (acts C (dstate node)) ->
  exists v q, (0 <= v <= dvisits node)%Z /\ q_of M c_soft node (m_off (t_m (x : @tmem A))) (dview s node) a q /\
    In (a, q / ments_temp M (with_visits node v)) (t_a2q (x : @tmem A)).
Proof. exact (C45_ages' seqb aeqb seqb_ok aeqb_ok C M Env Pr NoTT). Qed.
(** Without temperature decay it is the current value over the temperature. *)
Theorem C45_fixed_temperature_partial : 0 < mtemp M -> mdecay M = None -> forall n g s d node x, areach ta n g s -> settled (base s) d ->
  nth_error (dh (mem (base s))) d = Some node -> nth_error (xds s) d = Some x ->
  exists q, (forall a, In a (acts C (dstate node)) -> q_of M c_soft node (m_off (t_m (x : @tmem A))) (dview s node) a (q a)) /\
    maps_hold (acts C (dstate node)) (x : @tmem A) (fun a => q a / mtemp M).
Proof. exact (C45_fixed' seqb aeqb seqb_ok aeqb_ok C M Env Pr NoTT). Qed.
(** A single worker without decay therefore always draws from the projection of the current values. *)
Theorem C45_selection_partial : 0 < mtemp M -> mdecay M = None ->
  forall g s d n x cx a cx1 g1, areach ta 1 g s -> selects_now C s 0 d n x cx a cx1 g1 ->
  exists q p m, (forall a, In a (acts C (dstate n)) -> q_of M c_soft n (m_off (t_m (x : @tmem A))) (dview s n) a (q a)) /\
    projection (acts C (dstate n)) (fun a => q a / mtemp M) p /\
    holds_from (1 / IZR (10 ^ 16)) (mixture aeqb C M (visit_d n) p) (acts C (dstate n)) m /\
    sample_actions M (Some m) (rg s) = Ok (a, g1).
Proof. exact (C45_selection' seqb aeqb seqb_ok aeqb_ok C M Env Pr NoTT). Qed.

(** ** C74 for TENTS *)
(** Between trials a decision node without children has its heuristic value, any other the sparse maximum of its stored
    values times a temperature it had; chance nodes the reward plus the weighted mean of their children. *)
Theorem C74_tents : forall n g s, areach ta n g s -> quiet (base s) ->
  (forall d node x, nth_error (dh (mem (base s))) d = Some node -> nth_error (xds s) d = Some x ->
     dkids node = [] /\ m_soft (t_m (x : @tmem A)) = dheur node \/
     exists (v : Z) (sp : R), (0 <= v <= dvisits node)%Z /\
       (forall z, maps_hold (acts C (dstate node)) (x : @tmem A) z -> sparse_max (acts C (dstate node)) z sp) /\
       m_soft (t_m (x : @tmem A)) = seen M node (ments_temp M (with_visits node v) * sp)) /\
  (forall c node x, nth_error (ch (mem (base s))) c = Some node -> nth_error (xcs s) c = Some x ->
     exists v, weighted_mean (map (fun k => (m_nb (t_m (snd (snd k) : @tmem A)), m_soft (t_m (snd (snd k) : @tmem A)))) (cview s node)) v /\
       c_soft (x : cmem) = mreward M (cstate node) (cact node) + v).
Proof. exact (C74_tents' seqb aeqb seqb_ok aeqb_ok C M Env Pr NoTT). Qed.
Theorem C74_tents_fixed_temperature : 0 < mtemp M -> mdecay M = None -> forall n g s d node x, areach ta n g s -> quiet (base s) ->
  nth_error (dh (mem (base s))) d = Some node -> nth_error (xds s) d = Some x -> dkids node <> [] ->
  exists q sp, (forall a, In a (acts C (dstate node)) -> q_of M c_soft node (m_off (t_m (x : @tmem A))) (dview s node) a (q a)) /\
    sparse_max (acts C (dstate node)) (fun a => q a / mtemp M) sp /\ m_soft (t_m (x : @tmem A)) = seen M node (mtemp M * sp).
Proof. exact (C74_fixed' seqb aeqb seqb_ok aeqb_ok C M Env Pr NoTT). Qed.
End NoTable.
End Maps.

(** ** C46 *)
(** TENTS: the context of a trial holds, under the depth of every decision node the trial has visited, the action
    selected there by the same trial. *)
Theorem C46_tents_actions : forall n g s t th cx d a c, areach ta n g s -> nth_error (ths (base s)) t = Some th ->
  nth_error (cxs s) t = Some cx -> In (EVisitD d a c) (trial t (etrace (base s))) ->
  exists node s0 n0 x0 cx0 cx1 g1 w, nth_error (dh (mem (base s))) d = Some node /\
    mat Z.eqb (cx : list (Z * A)) (ddepth node) = Ok a /\
    areach ta n g s0 /\ selects_now C s0 t d n0 x0 cx0 a cx1 g1 /\
    trial t (etrace (base s)) = trial t (etrace (base s0)) ++ EVisitD d a c :: w.
Proof. exact (C46_tents' seqb aeqb seqb_ok aeqb_ok C M). Qed.
(** A node is backed up only if the trial visited it. *)
Theorem C46_tents_backups : forall n g s t cx d nodes before after tafter total, areach ta n g s ->
  nth_error (ths (base s)) t = Some (TBackD d nodes before after tafter total) -> nth_error (cxs s) t = Some cx ->
  exists a c, In (EVisitD d a c) (trial t (etrace (base s))).
Proof. exact (C46_tents_backup' seqb aeqb seqb_ok aeqb_ok C M). Qed.
(** RENTS: a worker at a decision node is at the root, where no policy is looked up, or finds the policy from which the
    parent node drew its action earlier in the same trial. *)
Theorem C46_rents_policies : forall n g s t th cx d nodes node, areach ra n g s -> nth_error (ths (base s)) t = Some th ->
  at_decision th d nodes -> nth_error (cxs s) t = Some cx -> nth_error (dh (mem (base s))) d = Some node ->
  ddepth node = 0%Z /\ nodes = [] /\ looks_up node (cx : list (Z * list (A * R))) None \/
  exists p parent a c o rest s0 n0 x0 cx0 cx1 g1 w m, nodes = (p, c) :: rest /\
    nth_error (dh (mem (base s))) p = Some parent /\ ddepth node = (ddepth parent + 1)%Z /\ cchild seqb (mem (base s)) c o d /\
    areach ra n g s0 /\ selects_now C s0 t p n0 x0 cx0 a cx1 g1 /\
    trial t (etrace (base s)) = trial t (etrace (base s0)) ++ EVisitD p a c :: w /\
    rents_distr aeqb C M (visit_d n0) (vis_d ra (is_leaf C n0) x0) (dview s0 n0) cx0 = Ok (Some m) /\
    looks_up node (cx : list (Z * list (A * R))) (Some m).
Proof.
  intros n g s t th cx d nodes node R Ht Hat Hx Hd.
  destruct (C46_rents' seqb aeqb seqb_ok aeqb_ok C M n g s t th cx d nodes node R Ht Hat Hx Hd)
    as [(H1 & H2 & H3)|(p & parent & a & c & o & rest & s0 & n0 & x0 & cx0 & cx1 & g1 & w & m & H1 & H2 & H3 & H4 & H5 & H6 & H7 & H8 & H9)].
  - left. split; auto. split; auto. now apply looks_parent.
  - right. exists p, parent, a, c, o, rest, s0, n0, x0, cx0, cx1, g1, w, m. repeat (split; [assumption|]). now apply looks_parent.
Qed.

(** ** C76 *)
(** RENTS policies are Boltzmann policies relative to the parent's policy, and the soft value is the logarithm of the
    same sum, unless the relative weights vanish: then the policy is uniform and the value is the largest action value. *)
Section Rents.
Hypothesis Env : env_ok C M.
Hypothesis Pr : prior_ok C M.
Section Node.
Variables (n : dnode) (x : mmem) (kids : list (A * (cnode * cmem))) (cx : list (Z * list (A * R))) (parent : option (list (A * R))) (f q : A -> R) (best : A).
Notation l := (acts C (dstate n)).
Notation temp := (ments_temp M n).
Hypothesis NK : NoDup (map fst kids).
Hypothesis Look : looks_up n cx parent.
Hypothesis Np : forall m, parent = Some m -> NoDup (map fst m).
Hypothesis Sh : shares parent f.
Hypothesis Hf : forall a, 0 <= f a <= 1.
Hypothesis Tp : 0 < temp.
Hypothesis Hq : forall a, In a l -> q_of M c_soft n (m_off x) kids a (q a).
Hypothesis Ib : In best l.
Hypothesis Hb : forall a, In a l -> q a <= q best.
Hypothesis Lo : dbl_lowest <= q best / temp.
Theorem C76_rents_policy : rate_known M n ->
  exists m, rents_distr aeqb C M n x kids cx = Ok (Some m) /\
  (1 / IZR (10 ^ 16) <= relative temp f q l / exp (q best / temp) -> holds_from (1 / IZR (10 ^ 16)) (mixture aeqb C M n (relative_boltzmann temp f q l)) l m) /\
  (relative temp f q l / exp (q best / temp) < 1 / IZR (10 ^ 16) -> holds_from (1 / IZR (10 ^ 16)) (mixture aeqb C M n (fun _ => 1 / INR (length l))) l m).
Proof. exact (C76_policy' aeqb aeqb_ok C M Env Pr n x kids cx parent f q best NK (proj1 (looks_parent n cx parent) Look) Np Sh Hf Tp Hq Ib Hb Lo). Qed.
Theorem C76_rents_value : forall b, exists x1, back_d ra n x kids cx b = Ok x1 /\
  (1 / IZR (10 ^ 16) <= relative temp f q l / exp (q best / temp) -> m_soft (x1 : mmem) = seen M n (temp * ln (relative temp f q l))) /\
  (relative temp f q l / exp (q best / temp) < 1 / IZR (10 ^ 16) -> m_soft (x1 : mmem) = seen M n (q best)) /\
  m_nb (x1 : mmem) = (m_nb x + 1)%Z /\ m_off (x1 : mmem) = m_off x.
Proof. intros b. exact (C76_value' aeqb aeqb_ok C M Env Pr n x kids cx parent f q best NK (proj1 (looks_parent n cx parent) Look) Np Sh Hf Tp Hq Ib Hb Lo). Qed.
End Node.
End Rents.

Section Sane.
Hypothesis Mok : ments_ok C M.
Hypothesis Env : env_ok C M.
Hypothesis Pr : prior_ok C M.
(** ** C21 for RENTS and TENTS *)
Theorem C21_rents_recommendation : forall n g s d (node : dnode) x, areach ra n g s -> nth_error (dh (mem (base s))) d = Some node ->
  nth_error (xds s) d = Some x -> is_sink C (dstate node) = false ->
  exists q, (forall a, In a (acts C (dstate node)) -> q_of M c_soft node (m_off (x : mmem)) (dview s node) a (q a)) /\
  (mmost_visited M = true \/ (forall a, In a (acts C (dstate node)) -> dbl_lowest <= q a) ->
   picks (ments_recommend aeqb C M node (x : mmem) (dview s node))
    (if mmost_visited M then most_visited (acts C (dstate node)) (dview s node)
     else best_choice (acts C (dstate node)) (visited_enough M (dview s node)) q)).
Proof. exact (C21_rents' seqb aeqb seqb_ok aeqb_ok C M Mok Env Pr). Qed.
Theorem C21_tents_recommendation : forall n g s d (node : dnode) x, areach ta n g s -> nth_error (dh (mem (base s))) d = Some node ->
  nth_error (xds s) d = Some x -> is_sink C (dstate node) = false ->
  exists q, (forall a, In a (acts C (dstate node)) -> q_of M c_soft node (m_off (t_m (x : @tmem A))) (dview s node) a (q a)) /\
  (mmost_visited M = true \/ (forall a, In a (acts C (dstate node)) -> dbl_lowest <= q a) ->
   picks (ments_recommend aeqb C M node (t_m (x : @tmem A)) (dview s node))
    (if mmost_visited M then most_visited (acts C (dstate node)) (dview s node)
     else best_choice (acts C (dstate node)) (visited_enough M (dview s node)) q)).
Proof. exact (C21_tents' seqb aeqb seqb_ok aeqb_ok C M Mok Env Pr). Qed.

(** ** C75 *)
(** Searches fail in one way only: a draw above everything the policy holds, which needs a random number within
    (number of actions) * 1e-16 of one and an exploration share below that. *)
Hypothesis Ex : explore_ok M.
Variable N : R.
Hypothesis Few : few_actions C N.
Theorem C75_rents_failures : forall n g s, good_ints g -> good_reals g -> areach ra n g s -> afail s <> None ->
  exists d node, nth_error (dh (mem (base s))) d = Some node /\ is_sink C (dstate node) = false /\
    1 - INR (length (acts C (dstate node))) / IZR (10 ^ 16) <= gr (rg s) (nr (rg s)) /\
    explore_rate M (visit_d node) < INR (length (acts C (dstate node))) / IZR (10 ^ 16).
Proof.
  exact (fam_failures seqb aeqb seqb_ok aeqb_ok C M Env Pr Ex N Few ra _ _ _ _ (rents_rules aeqb aeqb_ok C M Mok Env Pr Ex) (fun n x P => P)
    (rents_safe aeqb aeqb_ok C M Mok Env Pr Ex)).
Qed.
Theorem C75_rents_exploring : forall e V, 0 < e -> e <= meps M -> (mroot_eps M <= 0 \/ e <= mroot_eps M) -> (0 <= V)%Z ->
  N * ln (IZR V + 2) / IZR (10 ^ 16) <= e -> N / IZR (10 ^ 16) <= mmax_explore M ->
  forall n g s, good_ints g -> good_reals g -> areach ra n g s ->
  (forall d node, nth_error (dh (mem (base s))) d = Some node -> (dvisits node <= V)%Z) -> afail s = None.
Proof.
  exact (fam_explores seqb aeqb seqb_ok aeqb_ok C M Env Pr Ex N Few ra _ _ _ _ (rents_rules aeqb aeqb_ok C M Mok Env Pr Ex) (fun n x P => P)
    (rents_safe aeqb aeqb_ok C M Mok Env Pr Ex)).
Qed.
Theorem C75_rents_completes : forall n g, good_ints g -> good_reals g -> (forall i, gr g i < 1 - N / IZR (10 ^ 16)) -> (0 < n)%nat ->
  forall k, exists s, areach ra n g s /\ quiet (base s) /\ count is_done (etrace (base s)) = Z.of_nat k.
Proof.
  exact (fam_completes seqb aeqb seqb_ok aeqb_ok C M Env Pr Ex N Few ra _ _ _ _ (rents_rules aeqb aeqb_ok C M Mok Env Pr Ex) (fun n x P => P)
    (rents_safe aeqb aeqb_ok C M Mok Env Pr Ex) 0 (one_look_at_most _ _ ra (fun _ => conj eq_refl eq_refl))).
Qed.
Theorem C75_tents_failures : forall n g s, good_ints g -> good_reals g -> areach ta n g s -> afail s <> None ->
  exists d node, nth_error (dh (mem (base s))) d = Some node /\ is_sink C (dstate node) = false /\
    1 - INR (length (acts C (dstate node))) / IZR (10 ^ 16) <= gr (rg s) (nr (rg s)) /\
    explore_rate M (visit_d node) < INR (length (acts C (dstate node))) / IZR (10 ^ 16).
Proof.
  exact (fam_failures seqb aeqb seqb_ok aeqb_ok C M Env Pr Ex N Few ta _ _ _ _ (tents_rules aeqb aeqb_ok C M Env Pr) (fun n x P => proj1 P)
    (tents_safe aeqb aeqb_ok C M Mok Env Pr Ex)).
Qed.
Theorem C75_tents_exploring : forall e V, 0 < e -> e <= meps M -> (mroot_eps M <= 0 \/ e <= mroot_eps M) -> (0 <= V)%Z ->
  N * ln (IZR V + 2) / IZR (10 ^ 16) <= e -> N / IZR (10 ^ 16) <= mmax_explore M ->
  forall n g s, good_ints g -> good_reals g -> areach ta n g s ->
  (forall d node, nth_error (dh (mem (base s))) d = Some node -> (dvisits node <= V)%Z) -> afail s = None.
Proof.
  exact (fam_explores seqb aeqb seqb_ok aeqb_ok C M Env Pr Ex N Few ta _ _ _ _ (tents_rules aeqb aeqb_ok C M Env Pr) (fun n x P => proj1 P)
    (tents_safe aeqb aeqb_ok C M Mok Env Pr Ex)).
Qed.
Theorem C75_tents_completes : forall n g, good_ints g -> good_reals g -> (forall i, gr g i < 1 - N / IZR (10 ^ 16)) -> (0 < n)%nat ->
  forall k, exists s, areach ta n g s /\ quiet (base s) /\ count is_done (etrace (base s)) = Z.of_nat k.
Proof.
  exact (fam_completes seqb aeqb seqb_ok aeqb_ok C M Env Pr Ex N Few ta _ _ _ _ (tents_rules aeqb aeqb_ok C M Env Pr) (fun n x P => proj1 P)
    (tents_safe aeqb aeqb_ok C M Mok Env Pr Ex) 0 (one_look_at_most _ _ ta (fun _ => conj eq_refl eq_refl))).
Qed.
End Sane.
End Theorems.

(** With a decaying temperature the stored values need not be current, not even in a search by a single worker at rest. *)
Theorem C45_current_values_refuted : ~ forall (S A : Type) (seqb : S -> S -> bool) (aeqb : A -> A -> bool) (C : @econf S A) (M : @mconf S A),
  decides seqb -> decides aeqb -> ments_ok C M -> env_ok C M -> temps_ok M -> prior_ok C M -> explore_ok M -> use_tt C = false ->
  forall g s d node x a q, good_ints g -> good_reals g -> areach seqb aeqb C (tents aeqb C M) 1 g s -> quiet (base s) ->
  nth_error (dh (mem (base s))) d = Some node -> nth_error (xds s) d = Some x -> In a (acts C (dstate node)) ->
  q_of M c_soft node (m_off (t_m (x : @tmem A))) (dview s node) a q ->
  In (a, q / ments_temp M node) (t_a2q (x : @tmem A)).
Proof.
  intros H. destruct stale_ok as (Mok & Env & Tok & Pr & _ & _ & Ex).
  destruct stale_run as (s & a & n & x & c & y & R & Q & _ & Hd & Hx & _ & Ev & Et & _ & Eq & _ & I2 & _).
  assert (Gi : good_ints g_ex) by (intros i; cbn; lia). assert (Gr : good_reals g_ex) by (intros i; cbn; lra).
  assert (Ia : In (negb a) (acts stale_conf (dstate n))) by (destruct a; cbn; auto).
  assert (Q2 : q_of stale_ments c_soft n (m_off (t_m x)) (dview s n) (negb a) (7/4)).
  { rewrite Ev. exact (ments_q_spec Bool.eqb bool_dec_ok stale_ments n (t_m x) _ _ _ Eq). }
  pose proof (H _ _ _ _ _ _ seqb1_decides bool_dec_ok Mok Env Tok Pr Ex eq_refl g_ex s 0%nat n x (negb a) (7/4) Gi Gr R Q Hd Hx Ia Q2) as K.
  pose proof (C44_in_searches _ _ seqb1_decides bool_dec_ok _ _ Env Pr _ _ _ _ _ _ R Hd Hx) as Mo.
  pose proof (in_lookup Bool.eqb bool_dec_ok _ _ _ _ (mo_nodup _ _ Mo) K) as L1. pose proof (in_lookup Bool.eqb bool_dec_ok _ _ _ _ (mo_nodup _ _ Mo) I2) as L2.
  rewrite L1 in L2. injection L2 as L2. rewrite Et in L2. lra.
Qed.
(** The soft value of a node can then be below the value of an action, which the sparse maximum never is. *)
Theorem C45_soft_value_refuted : ~ forall (S A : Type) (seqb : S -> S -> bool) (aeqb : A -> A -> bool) (C : @econf S A) (M : @mconf S A),
  decides seqb -> decides aeqb -> ments_ok C M -> env_ok C M -> temps_ok M -> prior_ok C M -> explore_ok M -> use_tt C = false -> mtwo M = false ->
  forall g s d node x a q, good_ints g -> good_reals g -> areach seqb aeqb C (tents aeqb C M) 1 g s -> quiet (base s) ->
  nth_error (dh (mem (base s))) d = Some node -> nth_error (xds s) d = Some x -> dkids node <> [] -> In a (acts C (dstate node)) ->
  q_of M c_soft node (m_off (t_m (x : @tmem A))) (dview s node) a q -> q <= m_soft (t_m (x : @tmem A)).
Proof.
  intros H. destruct stale_ok as (Mok & Env & Tok & Pr & _ & _ & Ex).
  destruct stale_run as (s & a & n & x & c & y & R & Q & _ & Hd & Hx & _ & Ev & _ & _ & Eq & _ & _ & Ls).
  assert (Gi : good_ints g_ex) by (intros i; cbn; lia). assert (Gr : good_reals g_ex) by (intros i; cbn; lra).
  assert (Ia : In (negb a) (acts stale_conf (dstate n))) by (destruct a; cbn; auto).
  assert (Q2 : q_of stale_ments c_soft n (m_off (t_m x)) (dview s n) (negb a) (7/4)).
  { rewrite Ev. exact (ments_q_spec Bool.eqb bool_dec_ok stale_ments n (t_m x) _ _ _ Eq). }
  assert (NK : dkids n <> []).
  { intros E. destruct (dview_facts seqb1 Bool.eqb seqb1_decides bool_dec_ok stale_conf _ _ _ _ _ _ R Hd) as (_ & Ek & _). rewrite Ev, E in Ek. discriminate. }
  pose proof (H _ _ _ _ _ _ seqb1_decides bool_dec_ok Mok Env Tok Pr Ex eq_refl eq_refl g_ex s 0%nat n x (negb a) (7/4) Gi Gr R Q Hd Hx NK Ia Q2) as K.
  lra.
Qed.

Print Assumptions C44_weights.
Print Assumptions C44_updates.
Print Assumptions C44_in_searches.
Print Assumptions C44_backup.
Print Assumptions C45_stored_values_partial.
Print Assumptions C45_fixed_temperature_partial.
Print Assumptions C45_selection_partial.
Print Assumptions C45_current_values_refuted.
Print Assumptions C45_soft_value_refuted.
Print Assumptions C46_tents_actions.
Print Assumptions C46_tents_backups.
Print Assumptions C46_rents_policies.
Print Assumptions C74_tents.
Print Assumptions C74_tents_fixed_temperature.
Print Assumptions C76_rents_policy.
Print Assumptions C76_rents_value.
Print Assumptions C21_rents_recommendation.
Print Assumptions C21_tents_recommendation.
Print Assumptions C75_rents_failures.
Print Assumptions C75_rents_exploring.
Print Assumptions C75_rents_completes.
Print Assumptions C75_tents_failures.
Print Assumptions C75_tents_exploring.
Print Assumptions C75_tents_completes.

(** ** Witnesses *)
(** Searches with two workers and seven trials meet the hypotheses. *)
Example rents_run_witness : exists s,
  areach Nat.eqb Bool.eqb ments_ex_conf (rents Bool.eqb ments_ex_conf (ments_ex 1)) 2 g_ex s /\ quiet (base s) /\
  count is_done (etrace (base s)) = 7%Z.
Proof.
  assert (Gi : good_ints g_ex) by (intros i; cbn; lia). assert (Gr : good_reals g_ex) by (intros i; cbn; lra).
  destruct (ments_sane_witness 1 ltac:(lra)) as (Mok & Env & Tok & Pr & Vok & Few & Ex).
  exact (C75_rents_completes Nat.eqb Bool.eqb nat_decides bool_decides _ _ Mok Env Pr Ex 2 Few 2 g_ex Gi Gr g_ex_low ltac:(lia) 7).
Qed.
Example tents_run_witness : exists s,
  areach Nat.eqb Bool.eqb ments_ex_conf (tents Bool.eqb ments_ex_conf (ments_ex 1)) 2 g_ex s /\ quiet (base s) /\
  count is_done (etrace (base s)) = 7%Z.
Proof.
  assert (Gi : good_ints g_ex) by (intros i; cbn; lia). assert (Gr : good_reals g_ex) by (intros i; cbn; lra).
  destruct (ments_sane_witness 1 ltac:(lra)) as (Mok & Env & Tok & Pr & Vok & Few & Ex).
  exact (C75_tents_completes Nat.eqb Bool.eqb nat_decides bool_decides _ _ Mok Env Pr Ex 2 Few 2 g_ex Gi Gr g_ex_low ltac:(lia) 7).
Qed.
Example C45_settings_witness : use_tt ments_ex_conf = false /\ 0 < mtemp (ments_ex 1) /\ mdecay (ments_ex 1) = None.
Proof. split; [reflexivity|]. split; [cbn; lra|reflexivity]. Qed.
(** Two actions with values 1 and 0 at temperature 2: the projection of (1/2, 0) on the simplex is (3/4, 1/4). *)
Example C44_witness : projection [true; false] (fun b : bool => if b then 1/2 else 0) (fun b : bool => if b then 3/4 else 1/4).
Proof.
  split.
  - split; [intros b _; destruct b; lra|]. cbn. lra.
  - intros p [Hp Sp]. unfold dist2. cbn in *. assert (E : p false = 1 - p true) by lra. rewrite E. pose proof (Rle_0_sqr (p true - 3/4)). unfold Rsqr in *. nra.
Qed.
Example C44_updates_witness : maps_ok [true; false] (mkTm (mkMm 0 0 0) [(true, 2); (false, 1)] [(1, false); (2, true)]).
Proof.
  constructor; cbn.
  - intros [|]; tauto.
  - repeat constructor; cbn; intuition discriminate.
  - apply perm_swap.
  - repeat constructor; cbn; lra.
Qed.
(** A node at depth one below a policy that holds one of its two actions: the other gets no weight, and the value is
    that of the held action plus the logarithm of its probability. *)
Example C76_witness : let n := new_dnode ments_ex_conf 0%nat 1 1 in let parent := Some [(true, 1/2)] in
  looks_up n [(0%Z, [(true, 1/2)])] parent /\ shares parent (fun b : bool => if b then 1/2 else 0) /\
  relative 1 (fun b : bool => if b then 1/2 else 0) (fun _ => 0) [true; false] / exp (0 / 1) = 1/2.
Proof.
  cbv zeta. split; [|split].
  - right. split; [cbn; lia|]. eexists. split; reflexivity.
  - intros [|]; cbn; [now left; left|right]. split; [|lra]. intros [H|[]]. discriminate.
  - unfold relative. cbn. replace (0 / 1) with 0 by lra. rewrite exp_0. lra.
Qed.
