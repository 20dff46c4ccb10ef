(** Property theorems about MENTS searches: C21 (MENTS), C35, C36, C37, C38 (in searches), C65. *)
From Coq Require Import List ZArith Bool Reals Lia Lra Permutation.
From Verif Require Import QuietSpec AlgoFinish Base BaseProofs NumOps RLemmas HelperModel HelperSpec EngineModel EngineSpec EngineTheorems MapModel
  PickSpec AlgoModel AlgoTheorems AlgoSafe UctModel UctTheorems MentsModel SoftSpec SoftProofs MentsSpec MentsPolicy MentsRun SoftTheorems RecSpec
  MentsResults.
Import ListNotations.
Open Scope R_scope.

Section Theorems.
Context {S A : Type}.
Variable seqb : S -> S -> bool.
Variable aeqb : A -> A -> bool.
Hypothesis seqb_ok : decides seqb.
Hypothesis aeqb_ok : decides aeqb.
Variable C : @econf S A.
Variable M : @mconf S A.
Notation dnode := (@dnode S A).
Notation cnode := (@cnode S A).
Notation alg := (ments aeqb C M).
Notation areach := (areach seqb aeqb C alg).

(** ** C35 *)
(** A soft backup sets the node's value, seen by the player who moves, to the soft maximum of the action values,
    which is at least the largest and at most temp * log(number of actions) larger. *)
Theorem C35_soft_value : forall n x (kids : list (A * (cnode * cmem))) x', 0 < ments_temp M n ->
  NoDup (acts C (dstate n)) -> acts C (dstate n) <> [] -> ments_backup_d aeqb C M n x kids = Ok x' ->
  exists q : A -> R, (forall a, In a (acts C (dstate n)) -> q_of M c_soft n (m_off x) kids a (q a)) /\
    let v := soft_max (ments_temp M n) (map q (acts C (dstate n))) in
    m_soft x' = seen M n v /\ (forall a, In a (acts C (dstate n)) -> q a <= v) /\
    (exists a, In a (acts C (dstate n)) /\ v <= q a + ments_temp M n * ln (INR (length (acts C (dstate n))))).
Proof. exact (C35_soft_value' aeqb aeqb_ok C M). Qed.
(** The exponentials are of non-positive numbers, so every weight is at most one, and the largest is one unless all
    values are below the smallest double. *)
Theorem C35_weights : forall temp (qs : list (A * R)) w sum norm, NoDup (map fst qs) ->
  ments_weights aeqb temp qs = (w, sum, norm) ->
  map fst w = map fst qs /\ sum = total w /\
  (forall a p, In (a, p) w -> 0 < p <= 1) /\
  ((exists a q, In (a, q) qs /\ dbl_lowest <= q / temp) -> exists a, In (a, 1) w).
Proof. exact (weights_unit aeqb aeqb_ok). Qed.

Section Sane.
Hypothesis Mok : ments_ok C M.
Hypothesis Env : env_ok C M.
Hypothesis Tok : temps_ok M.
Hypothesis Pr : prior_ok C M.
Variable B N : R.
Hypothesis Vok : values_ok C M B.
Hypothesis Few : few_actions C N.

(** In searches the backup always succeeds ... *)
Theorem C35_backups : forall n g s d (node : dnode) (x : mmem) cx b, areach n g s ->
  nth_error (dh (mem (base s))) d = Some node -> is_sink C (dstate node) = false ->
  exists q x', back_d alg node x (dview s node) cx b = Ok x' /\
    (forall a, In a (acts C (dstate node)) -> q_of M c_soft node (m_off x) (dview s node) a (q a)) /\
    m_soft x' = seen M node (soft_max (ments_temp M node) (map q (acts C (dstate node)))).
Proof. exact (C35_backups' seqb aeqb seqb_ok aeqb_ok C M Mok Env Tok Pr B N Vok Few). Qed.
(** ... and all values stay bounded. *)
Theorem C35_in_searches : forall n g s, areach n g s ->
  (forall d node x, nth_error (dh (mem (base s))) d = Some node -> nth_error (xds s) d = Some x ->
     (0 <= m_nb x)%Z /\ Rabs (m_soft x) <= value_bound C M B N (ddepth node)) /\
  (forall c node x, nth_error (ch (mem (base s))) c = Some node -> nth_error (xcs s) c = Some x ->
     (0 <= c_nb x)%Z /\ Rabs (c_soft x) <= B + value_bound C M B N (cdepth node + 1)).
Proof. exact (C35_in_searches' seqb aeqb seqb_ok aeqb_ok C M Mok Env Tok Pr B N Vok Few). Qed.

(** ** C38 *)
(** In searches chance backups set the value to the reward plus the weighted mean. *)
Theorem C38_in_searches : forall n g s c (node : cnode) (x : cmem) b, areach n g s ->
  nth_error (ch (mem (base s))) c = Some node ->
  exists v, weighted_mean (map (fun k => (m_nb (snd (snd k)), m_soft (snd (snd k)))) (cview s node)) v /\
    back_c alg node x (cview s node) Datatypes.tt b = Ok (mkCm (c_nb x + 1) (mreward M (cstate node) (cact node) + v)).
Proof. exact (C38_in_searches' seqb aeqb seqb_ok aeqb_ok C M Mok Env Tok Pr B N Vok Few). Qed.
End Sane.

(** ** C36 *)
(** The action distribution holds the entries of at least EPS = 1e-16 of a mixture of the Boltzmann distribution of
    the action values, the prior and the uniform distribution. The mixture is a distribution that gives every action
    its share of exploration and prefers actions with larger values. *)
Theorem C36_distribution : forall n x (kids : list (A * (cnode * cmem))), rate_known M n -> prior_policy C M -> explore_ok M ->
  (0 <= dvisits n)%Z -> (0 < mprior_w M -> mprior M <> None) -> mprior_w M <= ln (IZR (dvisits n) + 3) ->
  NoDup (acts C (dstate n)) -> acts C (dstate n) <> [] ->
  exists (q pi : A -> R) m,
    (forall a, In a (acts C (dstate n)) -> q_of M c_soft n (m_off x) kids a (q a)) /\
    action_distr aeqb C M n (ments_q aeqb M n x kids) = Ok (Some m) /\
    holds_from (1 / IZR (10 ^ 16)) pi (acts C (dstate n)) m /\
    (forall a, pi a = mixture aeqb C M n (boltzmann (ments_temp M n) q (acts C (dstate n))) a) /\
    rsum_of pi (acts C (dstate n)) = 1 /\
    (forall a, In a (acts C (dstate n)) -> 0 <= pi a /\ explore_rate M n / INR (length (acts C (dstate n))) <= pi a) /\
    (0 < ments_temp M n -> explore_rate M n < 1 -> prior_rate M n < 1 ->
     forall a b, In a (acts C (dstate n)) -> In b (acts C (dstate n)) ->
       prior_prob aeqb M n a <= prior_prob aeqb M n b -> q a < q b -> pi a < pi b).
Proof. exact (C36_distribution' aeqb aeqb_ok C M). Qed.

(** ** C37 and C65 *)
Section Safe.
Hypothesis Mok : ments_ok C M.
Hypothesis Env : env_ok C M.
Hypothesis Tok : temps_ok M.
Hypothesis Pr : prior_ok C M.
Variable B N : R.
Hypothesis Vok : values_ok C M B.
Hypothesis Few : few_actions C N.
Hypothesis Ex : explore_ok M.

(** The only way for a search to fail is a draw that falls on the probability lost with the dropped entries, at a
    node with next to no exploration. *)
Theorem C37_samples_partial : forall n g s, good_ints g -> good_reals g -> areach n g s -> afail s <> None ->
  exists d node, nth_error (dh (mem (base s))) d = Some node /\ is_sink C (dstate node) = false /\
    1 - INR (length (acts C (dstate node))) / IZR (10 ^ 16) <= gr (rg s) (nr (rg s)) /\
    explore_rate M (visit_d node) < INR (length (acts C (dstate node))) / IZR (10 ^ 16).
Proof. exact (C37_failures' seqb aeqb seqb_ok aeqb_ok C M Mok Env Tok Pr B N Vok Few Ex). Qed.

(** Searches without prior mixing never fail if values are not too far apart relative to the temperature ... *)
Theorem C65_never_fails : mprior_w M <= 0 -> 1 / IZR (10 ^ 16) <= least_weight C M B N ->
  forall n g s, good_ints g -> good_reals g -> areach n g s -> afail s = None.
Proof. exact (C65_never_fails' seqb aeqb seqb_ok aeqb_ok C M Mok Env Tok Pr B N Vok Few Ex). Qed.
(** ... so any number of trials completes. *)
Theorem C65_completes : mprior_w M <= 0 -> 1 / IZR (10 ^ 16) <= least_weight C M B N ->
  forall n g, good_ints g -> good_reals g -> (0 < n)%nat ->
  forall k, exists s, areach n g s /\ quiet (base s) /\ count is_done (etrace (base s)) = Z.of_nat k.
Proof.
  exact (fun Hw Hl n g Gi Gr Hn => C61_algorithm_completes seqb aeqb seqb_ok aeqb_ok C alg n g 0 (one_look_at_most _ _ alg (fun _ => conj eq_refl eq_refl)) (eo_depth _ _ Env) Hn
    (fun s R => C65_never_fails Hw Hl n g s Gi Gr R)).
Qed.
(** Searches that explore never fail, with any values, while nodes have at most V visits. *)
Theorem C65_exploring : forall e V, 0 < e -> e <= meps M -> (mroot_eps M <= 0 \/ e <= mroot_eps M) -> (0 <= V)%Z ->
  N * ln (IZR V + 2) / IZR (10 ^ 16) <= e -> N / IZR (10 ^ 16) <= mmax_explore M ->
  forall n g s, good_ints g -> good_reals g -> areach n g s ->
  (forall d node, nth_error (dh (mem (base s))) d = Some node -> (dvisits node <= V)%Z) -> afail s = None.
Proof. exact (C65_explores' seqb aeqb seqb_ok aeqb_ok C M Mok Env Tok Pr B N Vok Few Ex). Qed.

(** ** C21 for MENTS *)
(** The recommendation is an action of largest value among those with enough visits (among all if there are none),
    or a most visited child; each of these is equally likely. *)
Theorem C21_ments_recommendation : forall n g s d (node : dnode) x, areach n g s -> nth_error (dh (mem (base s))) d = Some node ->
  nth_error (xds s) d = Some x -> is_sink C (dstate node) = false -> (ddepth node < max_depth C)%Z ->
  value_bound C M B N 0 <= - dbl_lowest ->
  exists q, (forall a, In a (acts C (dstate node)) -> q_of M c_soft node (m_off x) (dview s node) a (q a)) /\
  picks (ments_recommend aeqb C M node x (dview s node))
    (if mmost_visited M then most_visited (acts C (dstate node)) (dview s node)
     else best_choice (acts C (dstate node)) (visited_enough M (dview s node)) q).
Proof. exact (C21_ments' seqb aeqb seqb_ok aeqb_ok C M Mok Env Tok Pr B N Vok Few Ex). Qed.
End Safe.
End Theorems.

(** Some searches with reasonable settings fail: already the first selection can throw. *)
Theorem C37_samples_refuted : ~ forall (S A : Type) (seqb : S -> S -> bool) (aeqb : A -> A -> bool) (C : @econf S A) (M : @mconf S A),
  decides seqb -> decides aeqb -> ments_ok C M -> env_ok C M -> temps_ok M -> prior_ok C M -> (exists B, values_ok C M B) ->
  explore_ok M ->
  forall n g s, good_ints g -> good_reals g -> areach seqb aeqb C (ments aeqb C M) n g s -> afail s <> Some FThrow.
Proof. exact fail_refutes. Qed.

Print Assumptions C35_soft_value.
Print Assumptions C35_weights.
Print Assumptions C35_backups.
Print Assumptions C35_in_searches.
Print Assumptions C38_in_searches.
Print Assumptions C36_distribution.
Print Assumptions C37_samples_partial.
Print Assumptions C65_never_fails.
Print Assumptions C65_completes.
Print Assumptions C65_exploring.
Print Assumptions C21_ments_recommendation.
Print Assumptions C37_samples_refuted.

(** ** Examples that meet the hypotheses *)
(** A two-player walk on 0,1,2 with coin-flip moves at temperature 100. *)
Definition ments_ex_conf : @econf nat bool :=
  mkConf (fun s => Nat.eqb s 2) (fun _ => [true; false]) (fun s _ => [s; S s])
         (fun _ a o => if a then 1 else 0) (Some (fun s => 1)) 2 true false 0 0%nat 0.
Definition ments_ex (temp : R) : @mconf nat bool :=
  @mkM nat bool temp (-1) (1/2) (-1) 1 None (1/10) 1 (-1) 0 true 0 0 false None true (fun _ a => if a then 1 else 0)
      (fun s _ => [(s, 1/2); (S s, 1/2)]) (fun V m => rev m) None 1 (1/10) 1 (-1) true.
Example ments_sane_witness : forall temp, 0 < temp ->
  ments_ok ments_ex_conf (ments_ex temp) /\ env_ok ments_ex_conf (ments_ex temp) /\ temps_ok (ments_ex temp) /\
  prior_ok ments_ex_conf (ments_ex temp) /\ values_ok ments_ex_conf (ments_ex temp) 1 /\ few_actions ments_ex_conf 2 /\
  explore_ok (ments_ex temp).
Proof.
  intros temp Ht. split; [split; [intros V m; apply Permutation_rev|reflexivity]|]. split.
  { constructor; cbn; try lia; try discriminate.
    - intros _. repeat constructor; cbn; intuition discriminate.
    - intros s a _ _. split; [|lra]. intros k w [[= <- <-]|[[= <- <-]|[]]]; lra. }
  split; [split; [exact Ht|intros f [=]]|]. split; [split; [intros p [=]|left; cbn; lra]|]. split.
  { constructor.
    - intros s [|]; cbn; rewrite ?Rabs_R0, ?Rabs_R1; lra.
    - intros h s [= <-]. rewrite Rabs_R1. lra.
    - cbn. rewrite Rabs_R0. lra.
    - intros H. elim H. reflexivity. }
  split; [split; [lra|intros s; cbn; lra]|]. split; cbn; lra.
Qed.
Lemma ln_2_le_1 : ln 2 <= 1.
Proof. rewrite <- (ln_exp 1). left. apply ln_increasing; [lra|]. pose proof (exp_ineq1 1 ltac:(lra)). lra. Qed.
Example ments_weight_witness : 1 / IZR (10 ^ 16) <= least_weight ments_ex_conf (ments_ex 100) 1 2 /\
  value_bound ments_ex_conf (ments_ex 100) 1 2 0 <= - dbl_lowest.
Proof.
  assert (Vb : value_bound ments_ex_conf (ments_ex 100) 1 2 0 <= 203).
  { unfold value_bound. cbn [max_depth ments_ex_conf ments_ex mtemp mmin_temp]. pose proof ln_2_le_1. rewrite Rmax_left by lra.
    change (2 - 0)%Z with 2%Z. lra. }
  split.
  - unfold least_weight. change (least_temp (ments_ex 100)) with 100.
    assert (E : exp (Ropp 5) <= exp (- (2 * value_bound ments_ex_conf (ments_ex 100) 1 2 0 / 100))).
    { left. apply exp_increasing. lra. }
    assert (E3 : / 243 <= exp (Ropp 5)).
    { rewrite exp_Ropp. replace 5 with (1 + 1 + 1 + 1 + 1) by lra. rewrite !exp_plus. pose proof exp_le_3 as L. pose proof (exp_pos 1) as P.
      apply Rinv_le_contravar; [repeat apply Rmult_lt_0_compat; auto|].
      set (e := exp 1) in *. assert (e * e <= 9) by nra. assert (e * e * e <= 27) by nra. assert (e * e * e * e <= 81) by nra. nra. }
    assert (1 / IZR (10 ^ 16) <= / 486).
    { unfold Rdiv. rewrite Rmult_1_l. apply Rinv_le_contravar; [lra|]. apply IZR_le. vm_compute. discriminate. }
    lra.
  - apply Rle_trans with 203; auto. unfold dbl_lowest. rewrite Ropp_involutive. apply IZR_le. vm_compute. discriminate.
Qed.
(** Seven complete trials on two threads. *)
Example ments_run_witness : exists s,
  areach Nat.eqb Bool.eqb ments_ex_conf (ments Bool.eqb ments_ex_conf (ments_ex 100)) 2 g_ex s /\ afail s = None /\
  quiet (base s) /\ count is_done (etrace (base s)) = 7%Z /\
  exists root, nth_error (dh (mem (base s))) 0 = Some root /\ dvisits root = 7%Z /\ is_sink ments_ex_conf (dstate root) = false /\
    ddepth root = 0%Z.
Proof.
  assert (Gi : good_ints g_ex) by (intros i; cbn; lia). assert (Gr : good_reals g_ex) by (intros i; cbn; lra).
  destruct (ments_sane_witness 100 ltac:(lra)) as (Mok & Env & Tok & Pr & Vok & Few & Ex).
  destruct ments_weight_witness as [Lw _]. assert (Hw : mprior_w (ments_ex 100) <= 0) by (cbn; lra).
  destruct (C65_completes Nat.eqb Bool.eqb nat_decides bool_decides ments_ex_conf (ments_ex 100) Mok Env Tok Pr 1 2 Vok Few Ex Hw Lw
              2 g_ex Gi Gr ltac:(lia) 7) as (s & R & Q & K).
  exists s. split; auto. split.
  { exact (C65_never_fails Nat.eqb Bool.eqb nat_decides bool_decides ments_ex_conf (ments_ex 100) Mok Env Tok Pr 1 2 Vok Few Ex Hw Lw 2 g_ex s Gi Gr R). }
  split; auto. split; [exact K|].
  pose proof (C08_algorithms_run_the_engine _ _ _ _ _ _ _ R) as E.
  destruct (C10_idle Nat.eqb Bool.eqb nat_decides bool_decides ments_ex_conf 2 (base s) E Q) as (_ & (root & Hr & V) & _).
  exists root. split; auto. rewrite K in V. split; [exact V|].
  destruct (wf_root _ _ _ _ (proj1 (C12_well_formed Nat.eqb Bool.eqb nat_decides bool_decides ments_ex_conf 2 (base s) E))) as (n0 & Hn & Hs & Hd & _).
  rewrite Hr in Hn. injection Hn as <-. rewrite Hs. split; [reflexivity|exact Hd].
Qed.
(** C35_soft_value: an opponent's node with one child; the value is minus the soft maximum of -3 and 0. *)
Example C35_witness : let n := new_dnode ments_ex_conf 0%nat 1 1 in let kids := [(true, (new_cnode 0%nat true 1 1, mkCm 1 3))] in
  exists x', ments_backup_d Bool.eqb ments_ex_conf (ments_ex 1) n (mkMm 1 0 0) kids = Ok x' /\
  m_soft x' = - ln (exp (-3) + 1).
Proof.
  cbv zeta. set (n := new_dnode ments_ex_conf 0%nat 1 1). set (kids := [(true, (new_cnode 0%nat true 1 1, mkCm 1 3))]).
  destruct (ments_sane_witness 1 ltac:(lra)) as (Mok & Env & Tok & Pr & _).
  destruct (soft_backup_total Bool.eqb bool_decides ments_ex_conf (ments_ex 1) n (mkMm 1 0 0) kids) as (x' & E).
  { intros p [=]. }
  exists x'. split; auto.
  destruct (C35_soft_value Bool.eqb bool_decides ments_ex_conf (ments_ex 1) n (mkMm 1 0 0) kids x') as (q & Hq & V & _); auto; try discriminate.
  { cbn; lra. }
  { apply Env. }
  assert (Q1 : q true = -3).
  { destruct (Hq true ltac:(now left)) as [c y [[= <- <-]|[]]|p w No|No]; [reflexivity| |]; elim No; now left. }
  assert (Q2 : q false = 0).
  { assert (Z : forall v, q_of (ments_ex 1) c_soft n 0 kids false v -> v = 0).
    { intros v [c y [H|[]]|p w _ [=]|_ _]; [discriminate|]. cbn. lra. }
    apply Z, Hq. right. now left. }
  rewrite V. change (acts ments_ex_conf (dstate n)) with [true; false]. cbn [map]. rewrite Q1, Q2.
  change (ments_temp (ments_ex 1) n) with 1. unfold seen, soft_max. change (opponent (ments_ex 1) n) with true. cbv iota.
  unfold rsum_of. cbn [map rsum]. replace (-3 / 1) with (-3) by field. replace (0 / 1) with 0 by field. rewrite exp_0, Rplus_0_r. ring.
Qed.
(** C36: the root of that search after its first visit. *)
Example C36_witness : let n := visit_d (new_dnode ments_ex_conf 0%nat 0 0) in
  rate_known (ments_ex 1) n /\ prior_policy ments_ex_conf (ments_ex 1) /\ explore_ok (ments_ex 1) /\ (0 <= dvisits n)%Z /\
  mprior_w (ments_ex 1) <= ln (IZR (dvisits n) + 3) /\ 0 < ments_temp (ments_ex 1) n /\ explore_rate (ments_ex 1) n < 1 /\
  prior_rate (ments_ex 1) n < 1.
Proof.
  assert (L2 : 0 < ln 2) by (rewrite <- ln_1; apply ln_increasing; lra).
  assert (L3 : 1 / 2 < ln 2).
  { apply exp_lt_inv. rewrite exp_ln by lra. assert (Q : exp (1/2) * exp (1/2) <= 3) by (rewrite <- exp_plus; replace (1/2 + 1/2) with 1 by field; apply exp_le_3).
    pose proof (exp_pos (1/2)). nra. }
  cbv zeta. split; [left; cbn; lia|]. split; [intros p [=]|]. split; [split; cbn; lra|]. split; [cbn; lia|]. split.
  { cbn [ments_ex mprior_w]. change (dvisits (visit_d (new_dnode ments_ex_conf 0%nat 0 0))) with 1%Z.
    apply Rle_trans with 0; [lra|]. rewrite <- ln_1. left. apply ln_increasing; lra. }
  split; [cbn; lra|]. split.
  - unfold explore_rate, node_eps. cbn [dvisits visit_d new_dnode ments_ex_conf init_visits ddepth ments_ex mroot_eps meps mmax_explore].
    change (0 + 1)%Z with 1%Z. destruct (Z.eq_dec 1 0) as [?|_]; [discriminate|]. destruct (Z.eq_dec 0 0) as [_|?]; [|lia].
    destruct (Rlt_dec 0 (-1)) as [?|_]; [lra|]. apply Rle_lt_trans with (1/2 / ln (1 + 1)); [apply Rmin_r|].
    replace (1 + 1) with 2 by lra. apply Rmult_lt_reg_r with (ln 2); auto. unfold Rdiv at 1. rewrite Rmult_assoc, Rinv_l; lra.
  - unfold prior_rate. cbn [ments_ex mprior_w]. destruct (Rlt_dec 0 (-1)); lra.
Qed.
(** C65_exploring with doubles' usual ranges: two actions, epsilon 1/2, at most 2^31 visits. *)
Example C65_exploring_witness : let M := ments_ex 1 in
  0 < 1/2 /\ 1/2 <= meps M /\ (mroot_eps M <= 0 \/ 1/2 <= mroot_eps M) /\
  2 * ln (IZR (2 ^ 31) + 2) / IZR (10 ^ 16) <= 1/2 /\ 2 / IZR (10 ^ 16) <= mmax_explore M.
Proof.
  assert (P16 : 0 < IZR (10 ^ 16)) by (apply IZR_lt; reflexivity).
  assert (K : IZR (2 ^ 31) + 3 <= IZR (10 ^ 15)) by (rewrite <- plus_IZR; apply IZR_le; vm_compute; discriminate).
  assert (K2 : IZR (10 ^ 16) = 10 * IZR (10 ^ 15)) by (rewrite <- mult_IZR; reflexivity).
  assert (K0 : 0 < IZR (2 ^ 31)) by (apply IZR_lt; reflexivity).
  assert (Ln : ln (IZR (2 ^ 31) + 2) <= IZR (2 ^ 31) + 2).
  { left. apply exp_lt_inv. rewrite exp_ln by lra. pose proof (exp_ineq1 (IZR (2 ^ 31) + 2) ltac:(lra)). lra. }
  cbv zeta. split; [lra|]. split; [cbn; lra|]. split; [left; cbn; lra|]. split.
  - apply Rmult_le_reg_r with (IZR (10 ^ 16)); auto. unfold Rdiv. rewrite Rmult_assoc, Rinv_l by lra. lra.
  - change (mmax_explore (ments_ex 1)) with 1. apply Rmult_le_reg_r with (IZR (10 ^ 16)); auto. unfold Rdiv.
    rewrite Rmult_assoc, Rinv_l by lra. lra.
Qed.
