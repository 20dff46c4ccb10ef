(** Proofs of the theorems in MentsTheorems.v. *)
From Coq Require Import List ZArith Bool Reals Lia Lra Permutation.
From Verif Require Import Base BaseProofs NumOps RLemmas HelperModel HelperSpec HelperProofs EngineModel EngineSpec EngineProofs
  EngineInv MapModel MapProofs PickSpec PickProofs AlgoModel AlgoProofs AlgoNodes AlgoSafe UctModel MentsModel SoftSpec SoftProofs
  MentsSpec MentsProofs MentsPolicy MentsRun SoftResults RecSpec RecProofs.
Import ListNotations.
Open Scope R_scope.

Section Results.
Context {S A : Type}.
Variable seqb : S -> S -> bool.
Variable aeqb : A -> A -> bool.
Hypothesis seqb_ok : decides seqb.
Hypothesis aeqb_ok : decides aeqb.
Variable C : @econf S A.
Variable M : @mconf S A.
Notation dnode := (@dnode S A).
Notation cnode := (@cnode S A).
Notation alg := (ments aeqb C M).
Notation areach := (areach seqb aeqb C alg).

Lemma C35_soft_value' : forall n x (kids : list (A * (cnode * cmem))) x', 0 < ments_temp M n ->
  NoDup (acts C (dstate n)) -> acts C (dstate n) <> [] -> ments_backup_d aeqb C M n x kids = Ok x' ->
  exists q : A -> R, (forall a, In a (acts C (dstate n)) -> q_of M c_soft n (m_off x) kids a (q a)) /\
    let v := soft_max (ments_temp M n) (map q (acts C (dstate n))) in
    m_soft x' = seen M n v /\ (forall a, In a (acts C (dstate n)) -> q a <= v) /\
    (exists a, In a (acts C (dstate n)) /\ v <= q a + ments_temp M n * ln (INR (length (acts C (dstate n))))).
Proof using aeqb_ok.
  intros n x kids x' Ht ND NE H. destruct (soft_backup aeqb aeqb_ok C M n x kids x' Ht ND NE H) as (q & Hq & E & _).
  exists q. split; auto. cbv zeta. split; auto. apply soft_band; auto.
Qed.

Lemma C36_distribution' : forall n x (kids : list (A * (cnode * cmem))), rate_known M n -> prior_policy C M -> explore_ok M ->
  (0 <= dvisits n)%Z -> (0 < mprior_w M -> mprior M <> None) -> mprior_w M <= ln (IZR (dvisits n) + 3) ->
  NoDup (acts C (dstate n)) -> acts C (dstate n) <> [] ->
  exists (q pi : A -> R) m,
    (forall a, In a (acts C (dstate n)) -> q_of M c_soft n (m_off x) kids a (q a)) /\
    action_distr aeqb C M n (ments_q aeqb M n x kids) = Ok (Some m) /\
    holds_from (1 / IZR (10 ^ 16)) pi (acts C (dstate n)) m /\
    (forall a, pi a = mixture aeqb C M n (boltzmann (ments_temp M n) q (acts C (dstate n))) a) /\
    rsum_of pi (acts C (dstate n)) = 1 /\
    (forall a, In a (acts C (dstate n)) -> 0 <= pi a /\ explore_rate M n / INR (length (acts C (dstate n))) <= pi a) /\
    (0 < ments_temp M n -> explore_rate M n < 1 -> prior_rate M n < 1 ->
     forall a b, In a (acts C (dstate n)) -> In b (acts C (dstate n)) ->
       prior_prob aeqb M n a <= prior_prob aeqb M n b -> q a < q b -> pi a < pi b).
Proof using aeqb_ok.
  intros n x kids Rk PP Ex Hv Th Hw ND NE.
  assert (Th' : prior_there M n) by exact Th.
  destruct (action_distr_ok aeqb aeqb_ok C M n (ments_q aeqb M n x kids) Rk (pp_total C M PP n) Th' ND NE) as (q & m & Hq & E & H).
  { intros a Ia. apply (ments_q_total aeqb aeqb_ok C); auto. now apply pp_total. }
  set (b := boltzmann (ments_temp M n) q (acts C (dstate n))) in *.
  exists q, (mixture aeqb C M n b), m.
  pose proof (prior_rate_range M n Hv Hw) as Pr.
  pose proof (explore_rate_range M n Hv Ex) as Er. destruct Ex as [_ E2].
  assert (Ln : 0 < INR (length (acts C (dstate n)))) by (apply lt_0_INR; destruct (acts C (dstate n)); [congruence|cbn; lia]).
  split; [intros a Ia; now apply (ments_q_spec aeqb aeqb_ok), Hq|]. split; [exact E|]. split; [exact H|]. split; [reflexivity|].
  split.
  { apply mixture_total; auto; [now apply boltzmann_sum|]. now apply pp_sum. }
  split.
  { intros a Ia. assert (L : explore_rate M n / INR (length (acts C (dstate n))) <= mixture aeqb C M n b a).
    { apply mixture_low; auto; [lra|left; now apply boltzmann_pos|now apply (pp_prob aeqb aeqb_ok C)]. }
    split; auto. apply Rle_trans with (explore_rate M n / INR (length (acts C (dstate n)))); auto.
    apply Rmult_le_pos; [lra|]. left. now apply Rinv_0_lt_compat. }
  intros Ht Le Lp a c Ia Ic Hp Hlt. unfold mixture.
  assert (Bm : b a < b c) by (now apply boltzmann_mono).
  apply Rplus_lt_compat_r. apply Rmult_lt_compat_l; [lra|].
  assert ((1 - prior_rate M n) * b a < (1 - prior_rate M n) * b c) by (apply Rmult_lt_compat_l; lra).
  assert (prior_rate M n * prior_prob aeqb M n a <= prior_rate M n * prior_prob aeqb M n c) by (apply Rmult_le_compat_l; lra). lra.
Qed.

Section Sane.
Hypothesis Mok : ments_ok C M.
Hypothesis Env : env_ok C M.
Hypothesis Tok : temps_ok M.
Hypothesis Pr : prior_ok C M.
Variable B N : R.
Hypothesis Vok : values_ok C M B.
Hypothesis Few : few_actions C N.

Lemma ments_nodes : forall n g s, areach n g s -> nodes_ok aeqb C alg (md_ok C M B N) (mc_ok C M B N) (no_ctx aeqb C M) (fun _ _ => True) s.
Proof using All.
  intros n g s R. exact (nodes_reach seqb aeqb seqb_ok aeqb_ok C alg _ _ _ _ (ments_rules aeqb aeqb_ok C M Env Tok B N Vok Few) _ _ _ R).
Qed.

(** Bound for the values of nodes at depth [k]. *)
Lemma C35_in_searches' : forall n g s, areach n g s ->
  (forall d node x, nth_error (dh (mem (base s))) d = Some node -> nth_error (xds s) d = Some x ->
     (0 <= m_nb x)%Z /\ Rabs (m_soft x) <= value_bound C M B N (ddepth node)) /\
  (forall c node x, nth_error (ch (mem (base s))) c = Some node -> nth_error (xcs s) c = Some x ->
     (0 <= c_nb x)%Z /\ Rabs (c_soft x) <= B + value_bound C M B N (cdepth node + 1)).
Proof using All.
  intros n g s R. pose proof (ments_nodes _ _ _ R) as K. split.
  - intros d node x Hd Hx. destruct (no_d _ _ _ _ _ _ _ _ K _ _ _ Hd Hx) as (_ & _ & H1 & H2 & _). split; auto.
  - intros c node x Hc Hx. destruct (no_c _ _ _ _ _ _ _ _ K _ _ _ Hc Hx) as (_ & H1 & H2). split; auto.
    rewrite vbound_step in H2. change (value_bound C M B N (cdepth node + 1)) with (vbound C M B N (cdepth node + 1)). lra.
Qed.

(** Chance backups in searches. *)
Lemma C38_in_searches' : forall n g s c (node : cnode) (x : cmem) b, areach n g s ->
  nth_error (ch (mem (base s))) c = Some node ->
  exists v, weighted_mean (map (fun k => (m_nb (snd (snd k)), m_soft (snd (snd k)))) (cview s node)) v /\
    back_c alg node x (cview s node) Datatypes.tt b = Ok (mkCm (c_nb x + 1) (mreward M (cstate node) (cact node) + v)).
Proof using All.
  intros n g s c node x b R Hc. pose proof (ments_nodes _ _ _ R) as K.
  pose proof (areach_good seqb aeqb seqb_ok aeqb_ok C alg _ _ _ R) as I.
  destruct (cview_kids seqb aeqb seqb_ok C alg _ _ _ _ _ _ _ I K Hc) as [_ Hk].
  destruct (C38_ments' M node x (cview s node)) as (v & Hv & E).
  - intros o d y Q. apply (Hk _ _ _ Q).
  - exists v. split; [exact Hv|]. cbn [back_c ments]. f_equal. exact E.
Qed.

(** Decision backups in searches never fail. *)
Lemma C35_backups' : forall n g s d (node : dnode) (x : mmem) cx b, areach n g s ->
  nth_error (dh (mem (base s))) d = Some node -> is_sink C (dstate node) = false -> 
  exists q x', back_d alg node x (dview s node) cx b = Ok x' /\
    (forall a, In a (acts C (dstate node)) -> q_of M c_soft node (m_off x) (dview s node) a (q a)) /\
    m_soft x' = seen M node (soft_max (ments_temp M node) (map q (acts C (dstate node)))).
Proof using All.
  intros n g s d node x cx b R Hd Ns. pose proof (ments_nodes _ _ _ R) as K.
  destruct (soft_backup_total aeqb aeqb_ok C M node x (dview s node) (pr_total C M Pr node)) as (x' & E).
  destruct (soft_backup aeqb aeqb_ok C M node x (dview s node) x') as (q & Hq & E' & _).
  - pose proof (areach_good seqb aeqb seqb_ok aeqb_ok C alg _ _ _ R) as I.
    assert (X : exists y, nth_error (xds s) d = Some y).
    { pose proof I as [_ _ Ld _ _]. destruct (nth_error (xds s) d) eqn:Z; [eauto|]. apply nth_error_None in Z.
      assert (d < length (dh (mem (base s))))%nat by (apply nth_error_Some; congruence). lia. }
    destruct X as (y & Hy). destruct (no_d _ _ _ _ _ _ _ _ K _ _ _ Hd Hy) as (Hv & _).
    destruct (temp_bounds M Tok node Hv) as (P & Q & _). lra.
  - apply Env.
  - now apply Env.
  - exact E.
  - exists q, x'. split; [exact E|]. split; auto.
Qed.

Hypothesis Ex : explore_ok M.

Lemma C37_failures' : forall n g s, good_ints g -> good_reals g -> areach n g s -> afail s <> None ->
  exists d node, nth_error (dh (mem (base s))) d = Some node /\ is_sink C (dstate node) = false /\
    1 - INR (length (acts C (dstate node))) / IZR (10 ^ 16) <= gr (rg s) (nr (rg s)) /\
    explore_rate M (visit_d node) < INR (length (acts C (dstate node))) / IZR (10 ^ 16).
Proof using All.
  intros n g s Gi Gr R F. destruct (failed seqb aeqb seqb_ok aeqb_ok C alg _ _ _ R F) as (s0 & f & R0 & F0 & Rs & ->).
  pose proof (fail_why seqb aeqb seqb_ok aeqb_ok C alg _ _ _ _ _ (ments_rules aeqb aeqb_ok C M Env Tok B N Vok Few)
    (ments_safe aeqb aeqb_ok C M Mok Env Pr B N Ex) _ _ _ Gi Gr R0 Rs) as
    (t & cur & flag & nodes & rewards & m & x & cx & _ & Hm & Hx & _ & Hc & Bd).
  pose proof (streams seqb aeqb seqb_ok aeqb_ok C alg _ _ _ _ _ (ments_rules aeqb aeqb_ok C M Env Tok B N Vok Few)
    (ments_safe aeqb aeqb_ok C M Mok Env Pr B N Ex) _ _ _ Gi Gr R0) as St.
  destruct (good_stream _ _ St Gi Gr) as [_ Gr0].
  pose proof (areach_good seqb aeqb seqb_ok aeqb_ok C alg _ _ _ R0) as I.
  destruct (cont_inner seqb aeqb C alg _ _ _ _ I Hm Hc) as (Ns & _).
  destruct (no_d _ _ _ _ _ _ _ _ (ments_nodes _ _ _ R0) _ _ _ Hm Hx) as (Hv & _).
  exists cur, m. split; [exact Hm|]. split; auto.
  assert (Hv' : (0 <= dvisits (visit_d m))%Z) by (cbn [visit_d dvisits]; lia).
  assert (NE : acts C (dstate (visit_d m)) <> []) by (now apply Env).
  destruct (lost_needs aeqb aeqb_ok C M Pr Ex Env (visit_d m) _ (rg s0) Hv' NE Gr0 Bd) as [L1 L2].
  - change (dstate (visit_d m)) with (dstate m) in *. unfold ments_eps in *. cbn [rg adie]. split.
    + unfold Rdiv in *. lra.
    + unfold Rdiv in *. lra.
Qed.

Lemma C21_ments' : forall n g s d (node : dnode) x, areach n g s -> nth_error (dh (mem (base s))) d = Some node ->
  nth_error (xds s) d = Some x -> is_sink C (dstate node) = false -> (ddepth node < max_depth C)%Z -> vbound C M B N 0 <= - dbl_lowest ->
  exists q, (forall a, In a (acts C (dstate node)) -> q_of M c_soft node (m_off x) (dview s node) a (q a)) /\
  picks (ments_recommend aeqb C M node x (dview s node))
    (if mmost_visited M then most_visited (acts C (dstate node)) (dview s node)
     else best_choice (acts C (dstate node)) (visited_enough M (dview s node)) q).
Proof using All.
  intros n g s d node x R Hd Hx Ns Dp Lim.
  pose proof (ments_nodes _ _ _ R) as K. pose proof (areach_good seqb aeqb seqb_ok aeqb_ok C alg _ _ _ R) as I.
  destruct (dview_facts seqb aeqb seqb_ok aeqb_ok C alg _ _ _ _ _ R Hd) as (ND & _ & Hf).
  destruct (dview_kids seqb aeqb aeqb_ok C alg _ _ _ _ _ _ _ I K Hd) as [_ Hk].
  pose proof (no_d _ _ _ _ _ _ _ _ K _ _ _ Hd Hx) as P.
  assert (In1 : inner C node).
  { split; auto. destruct P as (_ & P & _). split; [lia|]. pose proof I as [[Ti _] _ _ _ _]. apply (ti_time _ _ _ _ Ti _ _ Hd). }
  destruct (all_q_ex (ments_q aeqb M node x (dview s node)) (acts C (dstate node))) as (qs & Eq).
  { intros a Ia. apply (ments_q_total aeqb aeqb_ok C); auto. now apply pr_total. }
  assert (NDa : NoDup (acts C (dstate node))) by apply Env.
  assert (NEa : acts C (dstate node) <> []) by (now apply Env).
  destruct (all_q_fun aeqb aeqb_ok _ _ _ NDa Eq) as [_ Hq].
  exists (valf aeqb qs). split; [intros a Ia; now apply (ments_q_spec aeqb aeqb_ok), Hq|].
  unfold ments_recommend. destruct (mmost_visited M).
  - apply (visits_picks aeqb aeqb_ok C M (proj1 Mok)); auto. intros a c y Q. destruct (Hf _ _ _ Q) as [Q1 Q2]. split; auto.
    unfold int_lowest. lia.
  - apply (soft_picks aeqb aeqb_ok C M (proj1 Mok)); auto. intros a Ia.
    pose proof (ments_q_abs aeqb aeqb_ok C M Tok B N Vok Few node x (dview s node) a _ In1 P Hk (Hq a Ia)) as L.
    revert L. unfold Rabs. destruct (Rcase_abs _); lra.
Qed.

Lemma C65_never_fails' : mprior_w M <= 0 -> ments_eps <= low_weight C M B N ->
  forall n g s, good_ints g -> good_reals g -> areach n g s -> afail s = None.
Proof using All.
  intros Hw Lo. apply (no_fail seqb aeqb seqb_ok aeqb_ok C alg _ _ _ _ _ (ments_rules aeqb aeqb_ok C M Env Tok B N Vok Few)
    (ments_safe_low aeqb aeqb_ok C M Mok Env Tok Pr B N Vok Few Ex Hw Lo)). auto.
Qed.
(** Exploration prevents failures up to a number of visits. *)
Lemma C65_explores' : forall e V, 0 < e -> e <= meps M -> (mroot_eps M <= 0 \/ e <= mroot_eps M) -> (0 <= V)%Z ->
  N * ln (IZR V + 2) / IZR (10 ^ 16) <= e -> N / IZR (10 ^ 16) <= mmax_explore M ->
  forall n g s, good_ints g -> good_reals g -> areach n g s ->
  (forall d node, nth_error (dh (mem (base s))) d = Some node -> (dvisits node <= V)%Z) -> afail s = None.
Proof using All.
  intros e V He L1 L2 HV Le Lm n g s Gi Gr R Bv. destruct (afail s) eqn:F; auto. exfalso.
  destruct (C37_failures' n g s Gi Gr R ltac:(congruence)) as (d & node & Hd & Ns & _ & L). specialize (Bv _ _ Hd).
  pose proof (areach_good seqb aeqb seqb_ok aeqb_ok C alg _ _ _ R) as I.
  assert (X : exists y, nth_error (xds s) d = Some y).
  { pose proof I as [_ _ Ld _ _]. destruct (nth_error (xds s) d) eqn:Z; [eauto|]. apply nth_error_None in Z.
    assert (d < length (dh (mem (base s))))%nat by (apply nth_error_Some; congruence). lia. }
  destruct X as (y & Hy). destruct (no_d _ _ _ _ _ _ _ _ (ments_nodes _ _ _ R) _ _ _ Hd Hy) as (Hv & _).
  assert (E16 : 0 < IZR (10 ^ 16)) by (apply IZR_lt; reflexivity).
  assert (A1 : INR (length (acts C (dstate node))) / IZR (10 ^ 16) <= N / IZR (10 ^ 16)).
  { unfold Rdiv. apply Rmult_le_compat_r; [left; now apply Rinv_0_lt_compat|apply Few]. }
  assert (N1 : 1 <= N) by apply Few.
  assert (Ne : e <= node_eps M (visit_d node)).
  { unfold node_eps. destruct (Z.eq_dec _ _), (Rlt_dec 0 (mroot_eps M)); lra. }
  unfold explore_rate in L. cbn [visit_d dvisits] in L. destruct (Z.eq_dec (dvisits node + 1) 0) as [?|_]; [lia|].
  assert (Hv1 : 0 <= IZR (dvisits node)) by (now apply IZR_le).
  assert (Hv2 : IZR (dvisits node) <= IZR V) by (now apply IZR_le).
  rewrite plus_IZR in L.
  assert (P : 0 < ln (IZR (dvisits node) + 1 + 1)) by (rewrite <- ln_1; apply ln_increasing; lra).
  assert (P2 : ln (IZR (dvisits node) + 1 + 1) <= ln (IZR V + 2)).
  { destruct (Req_dec (IZR (dvisits node)) (IZR V)) as [->|]; [right; f_equal; lra|left; apply ln_increasing; lra]. }
  assert (A2 : N / IZR (10 ^ 16) <= node_eps M (visit_d node) / ln (IZR (dvisits node) + 1 + 1)).
  { apply Rle_trans with (N * ln (IZR V + 2) / IZR (10 ^ 16) / ln (IZR (dvisits node) + 1 + 1)).
    - apply Rmult_le_reg_r with (ln (IZR (dvisits node) + 1 + 1)); auto.
      replace (N * ln (IZR V + 2) / IZR (10 ^ 16) / ln (IZR (dvisits node) + 1 + 1) * ln (IZR (dvisits node) + 1 + 1))
        with (N / IZR (10 ^ 16) * ln (IZR V + 2)) by (field; lra).
      apply Rmult_le_compat_l; auto. apply Rmult_le_pos; [lra|left; now apply Rinv_0_lt_compat].
    - apply Rmult_le_compat_r; [left; now apply Rinv_0_lt_compat|]. lra. }
  revert L. apply Rle_not_lt. apply Rle_trans with (N / IZR (10 ^ 16)); auto. apply Rmin_glb; auto.
Qed.
End Sane.
End Results.

(** ** A search that fails at its first selection *)
Section Failing.
Definition tiny : R := 8 / IZR (10 ^ 17).
(** A prior with four tiny probabilities. *)
Definition peaked (_ : nat) : list (nat * R) := [(0%nat, 1 - 4 * tiny); (1%nat, tiny); (2%nat, tiny); (3%nat, tiny); (4%nat, tiny)].
Definition fail_conf : @econf nat nat :=
  mkConf (fun s => Nat.eqb s 1) (fun _ => [0; 1; 2; 3; 4]%nat) (fun _ _ => [1%nat]) (fun _ _ _ => 0) None 3 true false 0 0%nat 0.
Definition fail_ments : @mconf nat nat :=
  mkM 1 (-1) 0 (-1) 1 None (1/10) 1 (-1) 0 false 0 0 false (Some peaked) false (fun _ _ => 0)
      (fun _ _ => [(1%nat, 1)]) (fun V m => m) None 1 (1/10) 1 (-1) true.
(** The largest double below one. *)
Definition last_draw : rng R := mkRng (fun _ => 0%Z) (fun _ => 1 - 1 / IZR (2 ^ 53)) 0 0.

Lemma tiny_eq : IZR (10 ^ 17) * tiny = 8 /\ 0 < tiny.
Proof.
  unfold tiny. assert (0 < IZR (10 ^ 17)) by (apply IZR_lt; reflexivity). split; [field; lra|]. now apply Rdiv_lt_0_compat; [lra|].
Qed.
Lemma p16 : IZR (10 ^ 17) = 10 * IZR (10 ^ 16).
Proof. rewrite <- mult_IZR. reflexivity. Qed.

Lemma fail_ok : ments_ok fail_conf fail_ments /\ env_ok fail_conf fail_ments /\ temps_ok fail_ments /\ prior_ok fail_conf fail_ments /\
  values_ok fail_conf fail_ments 256 /\ explore_ok fail_ments.
Proof.
  destruct tiny_eq as [T1 T2]. assert (T3 : tiny < 1/4).
  { apply Rmult_lt_reg_l with (IZR (10 ^ 17)); [apply IZR_lt; reflexivity|]. rewrite T1. assert (32 < IZR (10 ^ 17)) by (apply IZR_lt; reflexivity). lra. }
  split; [split; [intros; cbn; apply Permutation_refl|reflexivity]|]. split.
  { constructor.
    - discriminate.
    - intros s. cbn. repeat constructor; cbn; intuition discriminate.
    - intros s a _ _. split; [intros k w [[= <- <-]|[]]; cbn; lra|cbn; lra].
    - cbn; lia.
    - cbn; lia. }
  split; [split; [cbn; lra|intros f [=]]|]. split.
  { split; [|left; cbn; lra]. intros p [= <-] s. split; [cbn; repeat constructor; cbn; intuition discriminate|].
    split; [intros a; reflexivity|]. split.
    - intros k w Q. unfold peaked in Q. cbn in Q. repeat (destruct Q as [[= <- <-]|Q]; [lra|]). destruct Q.
    - unfold peaked. cbn. lra. }
  split; [|split; cbn; lra]. constructor.
  - intros s a. cbn. rewrite Rabs_R0. lra.
  - intros h s [=].
  - cbn. rewrite Rabs_R0. lra.
  - intros _. cbn. rewrite Rabs_R0. lra.
Qed.

Lemma last_draw_ok : good_reals last_draw.
Proof.
  intros i. cbn [gr last_draw]. assert (1 < IZR (2 ^ 53)) by (apply IZR_lt; reflexivity).
    assert (0 < 1 / IZR (2 ^ 53) <= 1); [|lra]. split; [apply Rdiv_lt_0_compat; lra|].
    unfold Rdiv. rewrite Rmult_1_l, <- Rinv_1. apply Rinv_le_contravar; lra.
Qed.

Lemma fail_select : ments_select Nat.eqb fail_conf fail_ments (visit_d (new_dnode fail_conf 0%nat 0 0))
  (ments_new_d fail_conf fail_ments (new_dnode fail_conf 0%nat 0 0)) [] last_draw = Throw.
Proof.
  destruct fail_ok as (Mok & Env & Tok & Pr & Vok & Ex). destruct tiny_eq as [T1 T2].
  set (n := visit_d (new_dnode fail_conf 0%nat 0 0)). set (x := ments_new_d fail_conf fail_ments (new_dnode fail_conf 0%nat 0 0)).
  pose proof last_draw_ok as Gr.
  destruct (distr_policy Nat.eqb Nat.eqb_eq fail_conf fail_ments Pr Env n (ments_q Nat.eqb fail_ments n x [])) as (q & m & Hq & E & P).
  { left. cbn. lia. }
  { discriminate. }
  { intros a Ia. apply (ments_q_total Nat.eqb Nat.eqb_eq fail_conf); auto. now apply pr_total. }
  assert (T3 : tiny < 1/8).
  { apply Rmult_lt_reg_l with (IZR (10 ^ 17)); [apply IZR_lt; reflexivity|]. rewrite T1. assert (64 < IZR (10 ^ 17)) by (apply IZR_lt; reflexivity). lra. }
  assert (Lw : forall w, tiny <= w < 1 -> log_weight w = ln w).
  { intros w [W1 W2]. unfold log_weight, log_max_arg, log_min_arg.
    assert (X1 : Rleb (IZR (10 ^ 32)) w = false).
    { apply Rleb_false. assert (1 < IZR (10 ^ 32)) by (apply IZR_lt; reflexivity). lra. }
    assert (X2 : Rltb (1 / IZR (10 ^ 32)) w = true).
    { apply Rltb_true. apply Rlt_le_trans with tiny; auto. unfold tiny.
      apply Rmult_lt_reg_l with (IZR (10 ^ 32)); [apply IZR_lt; reflexivity|].
      replace (IZR (10 ^ 32) * (1 / IZR (10 ^ 32))) with 1 by (field; apply not_0_IZR; discriminate).
      change (10 ^ 32)%Z with (10 ^ 15 * 10 ^ 17)%Z. rewrite mult_IZR.
      replace (IZR (10 ^ 15) * IZR (10 ^ 17) * (8 / IZR (10 ^ 17))) with (8 * IZR (10 ^ 15)) by (field; apply not_0_IZR; discriminate).
      assert (1 < IZR (10 ^ 15)) by (apply IZR_lt; reflexivity). lra. }
    now rewrite X1, X2. }
  assert (V : forall k w, In (k, w) (peaked 0) -> exp (q k / 1) = w).
  { intros k w Q. assert (Iw : tiny <= w < 1) by (unfold peaked in Q; cbn in Q; repeat (destruct Q as [[= <- <-]|Q]; [lra|]); destruct Q).
    assert (Ik : In k (acts fail_conf (dstate n))) by (apply (in_map fst) in Q; exact Q).
    specialize (Hq k Ik). unfold ments_q, unexpanded_q in Hq. cbn [lookup mprior fail_ments] in Hq.
    assert (Lk : lookup Nat.eqb k (peaked 0) = Some w).
    { apply (in_lookup Nat.eqb Nat.eqb_eq); auto. cbn; repeat constructor; cbn; intuition discriminate. }
    unfold mat in Hq. change (dstate n) with 0%nat in Hq. rewrite Lk in Hq. cbn [bind] in Hq. rewrite (Lw w Iw) in Hq.
    change (m_off x) with 0 in Hq. injection Hq as <-. unfold Rdiv. rewrite Rinv_1, Rmult_1_r, Rplus_0_r. apply exp_ln. lra. }
  assert (V0 : exp (q 0%nat / 1) = 1 - 4 * tiny) by (apply V; cbn; auto).
  assert (V1 : exp (q 1%nat / 1) = tiny) by (apply V; cbn; auto).
  assert (V2 : exp (q 2%nat / 1) = tiny) by (apply V; cbn; auto).
  assert (V3 : exp (q 3%nat / 1) = tiny) by (apply V; cbn; auto).
  assert (V4 : exp (q 4%nat / 1) = tiny) by (apply V; cbn; auto 6).
  unfold ments_select. rewrite E. cbn [bind].
  destruct P as (P1 & P2 & P3).
  destruct (mixture_distr Nat.eqb Nat.eqb_eq fail_conf fail_ments Pr Ex Env n (boltzmann 1 q (acts fail_conf (dstate n))) ltac:(cbn; lia) ltac:(discriminate) P1 P2) as [S1 S2].
  assert (Pos : forall a, In a (acts fail_conf (dstate n)) -> 0 <= mixture Nat.eqb fail_conf fail_ments n (boltzmann 1 q (acts fail_conf (dstate n))) a).
  { intros a Ia. specialize (S2 a Ia). lra. }
  apply (sample_policy Nat.eqb Nat.eqb_eq fail_ments (proj1 Mok) _ _ m last_draw (eo_nodup _ _ Env (dstate n)) Pos S1 P3 Gr).
  rewrite (kept_total Nat.eqb Nat.eqb_eq _ _ m (eo_nodup _ _ Env _) Pos P3).
  assert (Mx : forall a, mixture Nat.eqb fail_conf fail_ments n (boltzmann 1 q (acts fail_conf (dstate n))) a = exp (q a / 1)).
  { intros a. unfold mixture, explore_rate, prior_rate, node_eps. cbn [fail_ments mprior_w mroot_eps meps mmax_explore].
    destruct (Rlt_dec 0 (-1)) as [?|_]; [lra|]. change (dvisits n) with 1%Z. change (ddepth n) with 0%Z. cbn [Z.eq_dec].
    replace (if Z.eq_dec 0 0 then 0 else 0) with 0 by (destruct (Z.eq_dec 0 0); auto).
    destruct (Z.eq_dec 1 0) as [?|_]; [discriminate|].
    replace (0 / ln (1 + 1)) with 0 by (unfold Rdiv; ring). rewrite Rmin_right by lra.
    unfold boltzmann. change (acts fail_conf (dstate n)) with [0; 1; 2; 3; 4]%nat. unfold rsum_of at 1. cbn [map rsum].
    rewrite V0, V1, V2, V3, V4. field. split; [|lra]. cbn. lra. }
  rewrite (rsum_of_ext _ _ (fun a => if Rlt_dec (exp (q a / 1)) ments_eps then 0 else exp (q a / 1))) by (intros a _; now rewrite Mx).
  change (acts fail_conf (dstate n)) with [0; 1; 2; 3; 4]%nat. unfold rsum_of. cbn [map rsum]. rewrite V0, V1, V2, V3, V4.
  assert (T4 : tiny < ments_eps).
  { unfold tiny, ments_eps. rewrite p16. assert (0 < IZR (10 ^ 16)) by (apply IZR_lt; reflexivity).
    apply Rmult_lt_reg_l with (10 * IZR (10 ^ 16)); [lra|]. 
    replace (10 * IZR (10 ^ 16) * (8 / (10 * IZR (10 ^ 16)))) with 8 by (field; lra).
    replace (10 * IZR (10 ^ 16) * (1 / IZR (10 ^ 16))) with 10 by (field; lra). lra. }
  destruct (Rlt_dec tiny ments_eps) as [_|]; [|lra].
  assert (T5 : 1 / IZR (2 ^ 53) <= 4 * tiny).
  { unfold tiny. apply Rmult_le_reg_l with (IZR (2 ^ 53 * 10 ^ 17)); [apply IZR_lt; reflexivity|]. rewrite mult_IZR.
    replace (IZR (2 ^ 53) * IZR (10 ^ 17) * (1 / IZR (2 ^ 53))) with (IZR (10 ^ 17)) by (field; apply not_0_IZR; discriminate).
    replace (IZR (2 ^ 53) * IZR (10 ^ 17) * (4 * (8 / IZR (10 ^ 17)))) with (IZR (32 * 2 ^ 53)) by (rewrite mult_IZR; field; apply not_0_IZR; discriminate).
    apply IZR_le. vm_compute. discriminate. }
  cbn [last_draw gr nr]. destruct (Rlt_dec (1 - 4 * tiny) ments_eps); lra.
Qed.
End Failing.
Lemma fail_refutes : ~ forall (S A : Type) (seqb : S -> S -> bool) (aeqb : A -> A -> bool) (C : @econf S A) (M : @mconf S A),
  decides seqb -> decides aeqb -> ments_ok C M -> env_ok C M -> temps_ok M -> prior_ok C M -> (exists B, values_ok C M B) ->
  explore_ok M ->
  forall n g s, good_ints g -> good_reals g -> areach seqb aeqb C (ments aeqb C M) n g s -> afail s <> Some FThrow.
Proof.
  intros H. destruct fail_ok as (Mok & Env & Tok & Pr & Vok & Ex).
  destruct (first_selection_fails Nat.eqb Nat.eqb fail_conf (ments Nat.eqb fail_conf fail_ments) 1 last_draw) as (s & R & F); [lia|reflexivity| |].
  - change (bind (ments_select Nat.eqb fail_conf fail_ments (visit_d (new_dnode fail_conf 0%nat 0 0))
      (ments_new_d fail_conf fail_ments (new_dnode fail_conf 0%nat 0 0)) [] last_draw)
      (fun '(a, g1) => Ok (a, Datatypes.tt, g1)) = Throw). now rewrite fail_select.
  - apply (H nat nat Nat.eqb Nat.eqb fail_conf fail_ments Nat.eqb_eq Nat.eqb_eq Mok Env Tok Pr (ex_intro _ 256 Vok) Ex 1%nat last_draw s); auto.
    + intros i. cbn. lia.
    + exact last_draw_ok.
Qed.
