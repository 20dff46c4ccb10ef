(** Values of RENTS stay within bounds. *)
From Coq Require Import List ZArith Bool Reals Lia Lra Permutation.
From Verif Require Import Base BaseProofs NumOps RLemmas HelperModel HelperSpec HelperProofs EngineModel EngineSpec EngineProofs
  EngineInv MapModel MapProofs AlgoModel AlgoProofs AlgoNodes PickSpec RecSpec UctModel MentsModel SoftSpec SoftProofs
  MentsSpec MentsProofs MentsPolicy MentsRun MentsResults FamilyRun TentsSpec TentsProofs TentsRun TentsResults RentsSpec.
Import ListNotations.
Open Scope R_scope.

Section Bound.
Context {S A : Type}.
Variable seqb : S -> S -> bool.
Variable aeqb : A -> A -> bool.
Hypothesis seqb_ok : decides seqb.
Hypothesis aeqb_ok : decides aeqb.
Variable C : @econf S A.
Variable M : @mconf S A.
Notation dnode := (@dnode S A).
Notation cnode := (@cnode S A).
Notation ra := (rents aeqb C M).
Hypothesis Mok : ments_ok C M.
Hypothesis Env : env_ok C M.
Hypothesis Tok : temps_ok M.
Hypothesis Pr : prior_ok C M.
Hypothesis Ex : explore_ok M.
Variable B N : R.
Hypothesis Vok : values_ok C M B.
Hypothesis Few : few_actions C N.
Notation N' := (Rmax N (IZR (10 ^ 16))).
Hypothesis Small : relative_bound C M B N 0 / least_temp M <= - dbl_lowest.

Lemma few' : few_actions C N'.
Proof using Few.
  destruct Few as [F1 F2]. pose proof (Rmax_l N (IZR (10 ^ 16))). split; [lra|]. intros s. specialize (F2 s). lra.
Qed.
Lemma ln_N' : ln (IZR (10 ^ 16)) <= ln N' /\ ln N <= ln N' /\ 0 <= ln N'.
Proof using Few.
  destruct Few as [F1 _]. pose proof (Rmax_l N (IZR (10 ^ 16))) as H1. pose proof (Rmax_r N (IZR (10 ^ 16))) as H2.
  assert (P : 0 < IZR (10 ^ 16)) by (apply (IZR_lt 0); reflexivity).
  assert (Mo : forall a b, 0 < a -> a <= b -> ln a <= ln b) by (intros a b Pa [L|<-]; [left; now apply ln_increasing|lra]).
  split; [now apply Mo|]. split; [apply Mo; lra|]. rewrite <- ln_1. apply Mo; lra.
Qed.

Lemma rents_value_abs : forall n q sum norm b, (0 <= dvisits n)%Z ->
  (forall a, In a (acts C (dstate n)) -> Rabs (q a) <= b) -> ments_eps <= sum <= N' ->
  (exists a, In a (acts C (dstate n)) /\ norm = q a / ments_temp M n) ->
  Rabs (soft_value M n sum norm) <= b + slack M N'.
Proof using Tok Few.
  intros n q sum norm b Hv Hq [S1 S2] (a & Ia & ->). destruct (temp_bounds M Tok n Hv) as (T0 & T1 & T2).
  destruct ln_N' as (L1 & L2 & L3). pose proof (@ments_eps_pos) as Pe.
  assert (E : soft_value M n sum (q a / ments_temp M n) = seen M n (ments_temp M n * ln sum + q a)).
  { rewrite <- opp_seen. unfold soft_value. field. lra. }
  rewrite E, Rabs_seen. eapply Rle_trans; [apply Rabs_triang|]. rewrite (Rplus_comm b). apply Rplus_le_compat; auto.
  rewrite Rabs_mult, Rabs_pos_eq by lra. unfold slack. apply Rmult_le_compat; [lra|apply Rabs_pos|lra|].
  apply Rabs_le. split.
  - apply Rle_trans with (ln ments_eps).
    + unfold ments_eps, Rdiv. rewrite Rmult_1_l, ln_Rinv by (apply (IZR_lt 0); reflexivity). lra.
    + destruct S1 as [S1|<-]; [left; now apply ln_increasing|lra].
  - destruct S2 as [S2|<-]; [left; apply ln_increasing; lra|lra].
Qed.

Notation md := (md_ok C M B N').
Notation mc := (mc_ok C M B N').
Lemma rents_backup_bound : forall n x (kids : list (A * (cnode * cmem))) cx l l' x1, inner C n -> md n x -> NoDup (map fst kids) ->
  (forall a c y, In (a, (c, y)) kids -> dkid C n a c /\ mc c y) -> rx_ok aeqb C M (l' ++ l) cx -> ddepth n = Z.of_nat (length l) ->
  rents_backup_d aeqb C M n x kids cx = Ok x1 -> md n x1.
Proof using aeqb_ok Env Tok Pr Vok Few Small.
  intros n x kids cx l l' x1 In1 (H1 & H2 & H3 & H4 & H5) ND Hk Px Ed E. destruct (temp_bounds M Tok n H1) as (T0 & T1 & T2).
  assert (NE : acts C (dstate n) <> []) by (apply Env, In1).
  destruct (parent_known aeqb aeqb_ok C M n l' l cx Px Ed) as (par & Ep & Bp & _).
  destruct (rents_weights_ok aeqb aeqb_ok C M Env Pr n x kids par NE Bp) as (qs & w & norm & E1 & E2 & Kw & Ws & En & Hq & U1 & U2).
  unfold rents_backup_d in E. rewrite E1 in E. cbn [bind] in E. rewrite Ep in E. cbn [bind] in E. rewrite E2 in E. injection E as <-.
  assert (NDa : NoDup (acts C (dstate n))) by apply Env.
  destruct (all_q_fun aeqb aeqb_ok _ _ _ NDa E1) as [Em _].
  assert (Qb : forall a, In a (acts C (dstate n)) -> Rabs (valf aeqb qs a) <= vbound C M B N' (ddepth n) - slack M N').
  { intros a Ia. eapply (q_abs C M Tok B N' Vok few'); eauto. apply (ments_q_spec aeqb aeqb_ok); auto. }
  assert (Low : forall a, In a (acts C (dstate n)) -> dbl_lowest <= valf aeqb qs a / ments_temp M n).
  { intros a Ia. specialize (Qb a Ia). pose proof (slack_pos C M Tok N' few') as Sp.
    pose proof (vbound_mono C M Tok B N' Vok few' (ddepth n) 0 ltac:(lia)) as Mo.
    change (relative_bound C M B N 0) with (vbound C M B N' 0) in Small. change (least_temp M) with (temp_min M) in Small.
    assert (V0 : 0 <= vbound C M B N' 0). { pose proof (B_pos C M B Vok). pose proof (vbound_ge C M Tok B N' Vok few' 0 (eo_depth _ _ Env)). lra. }
    assert (Q : - valf aeqb qs a <= vbound C M B N' 0). { pose proof (Rle_abs (- valf aeqb qs a)) as X. rewrite Rabs_Ropp in X. lra. }
    apply Ropp_le_cancel. eapply Rle_trans; [|exact Small]. unfold Rdiv. rewrite Ropp_mult_distr_l.
    apply Rle_trans with (vbound C M B N' 0 * / ments_temp M n).
    - apply Rmult_le_compat_r; auto. left. apply Rinv_0_lt_compat. lra.
    - apply Rmult_le_compat_l; auto. apply Rinv_le_contravar; lra. }
  assert (Top : forall a, In a (acts C (dstate n)) -> In (a, valf aeqb qs a) qs).
  { intros a Ia. rewrite Em at 2. apply in_map_iff. eauto. }
  assert (Nm : exists a, In a (acts C (dstate n)) /\ norm = valf aeqb qs a / ments_temp M n).
  { rewrite En. destruct (norm_term_max (ments_temp M n) qs) as (a & q & Iq & Eq).
    - destruct (acts C (dstate n)) as [|a0 r] eqn:Ea; [congruence|]. exists a0, (valf aeqb qs a0). split; [apply Top|apply Low]; now left.
    - rewrite Em in Iq. apply in_map_iff in Iq. destruct Iq as (a' & [= <- <-] & Ia). exists a'. split; auto. }
  assert (Sm : ments_eps <= rsum_of (valf aeqb w) (acts C (dstate n)) <= N').
  { split; auto. destruct few' as [F1 F2]. cbv zeta in U1, U2.
    destruct (Rle_lt_dec ments_eps (rsum_of (fun a => exp (valf aeqb qs a / ments_temp M n - norm) * parent_prob aeqb par a) (acts C (dstate n)))) as [L|L].
    - apply Rle_trans with (rsum_of (fun _ : A => 1) (acts C (dstate n))); [|rewrite SoftProofs.rsum_of_const, Rmult_1_r; apply F2].
      apply SoftProofs.rsum_of_le. intros a Ia. rewrite (U1 L a Ia). specialize (Bp a).
      assert (X : exp (valf aeqb qs a / ments_temp M n - norm) <= 1).
      { rewrite <- exp_0. pose proof (norm_term_ge (ments_temp M n) qs _ _ (Top a Ia)) as G. rewrite <- En in G.
        assert (Y : valf aeqb qs a / ments_temp M n - norm <= 0) by lra. destruct Y as [Y| ->]; [left; now apply exp_increasing|lra]. }
      pose proof (exp_pos (valf aeqb qs a / ments_temp M n - norm)). nra.
    - rewrite (SoftProofs.rsum_of_ext _ _ (fun _ => 1 / INR (length (acts C (dstate n))))) by (intros a Ia; apply (U2 L a Ia)).
      rewrite SoftProofs.rsum_of_const.
      assert (Ln : 0 < INR (length (acts C (dstate n)))) by (apply lt_0_INR; destruct (acts C (dstate n)); [congruence|cbn; lia]).
      replace (INR (length (acts C (dstate n))) * (1 / INR (length (acts C (dstate n))))) with 1 by (field; lra). lra. }
  unfold md_ok. cbn [m_nb m_soft m_off]. repeat (split; [lia || auto|]); auto.
  replace (vbound C M B N' (ddepth n)) with (vbound C M B N' (ddepth n) - slack M N' + slack M N') by ring.
  now apply (rents_value_abs n (valf aeqb qs)).
Qed.

Lemma rents_bound_rules : node_rules C ra md mc (rx_ok aeqb C M) (fun _ _ => True).
Proof using All.
  pose proof (rents_rules aeqb aeqb_ok C M Mok Env Pr Ex) as Ru.
  constructor; try (intros; exact I).
  - apply (md_new C M Env Tok B N' Vok few'). split; [lia|apply Env].
  - intros c o (_ & H & _) _. apply (md_new C M Env Tok B N' Vok few'). lia.
  - intros n a H _. now apply (mc_new C M Tok B N' Vok few').
  - intros n x H. now apply md_visit.
  - intros n x a c H. exact H.
  - intros n x H. exact H.
  - intros n x o d H. exact H.
  - intros n x kids cx b x1 l a l' H1 H2 [H3 H4] Px Ed _ _ E.
    replace (l' ++ a :: l) with ((l' ++ [a]) ++ l) in Px by (now rewrite <- app_assoc).
    eapply rents_backup_bound; eauto.
  - intros n x kids cx b x1 H1 H2 [_ H3] _ E. injection E as <-. split; [|exact I]. now apply (mc_backup C M Tok B N' Vok few').
  - exact (P_cx0 _ _ _ _ _ _ Ru).
  - intros n x kids cx g a cx1 g1 l I1 P [K1 K2] Px Ed E. eapply (P_sel _ _ _ _ _ _ Ru); eauto.
    + exact (proj1 P).
    + split; auto. intros a0 c y Q. split; [apply (K2 _ _ _ Q)|exact I].
  - intros n x cx g o cx1 g1 l I1 P Px E. eapply (P_sam _ _ _ _ _ _ Ru); eauto.
  - intros kids cx cx1 l _ E. discriminate E.
  - intros kids cx cx1 l _ E. discriminate E.
  - intros cx l Px. exact Px.
Qed.

Notation areach := (areach seqb aeqb C ra).
Lemma rents_bounded_nodes : forall n g s, areach n g s -> nodes_ok aeqb C ra md mc (rx_ok aeqb C M) (fun _ _ => True) s.
Proof using All.
  intros n g s R. exact (nodes_reach seqb aeqb seqb_ok aeqb_ok C ra _ _ _ _ rents_bound_rules _ _ _ R).
Qed.
Lemma rents_values : forall n g s, areach n g s ->
  (forall d node x, nth_error (dh (mem (base s))) d = Some node -> nth_error (xds s) d = Some x ->
     Rabs (m_soft (x : mmem)) <= relative_bound C M B N (ddepth node)) /\
  (forall c node x, nth_error (ch (mem (base s))) c = Some node -> nth_error (xcs s) c = Some x ->
     Rabs (c_soft (x : cmem)) <= B + relative_bound C M B N (cdepth node + 1)).
Proof using All.
  intros n g s R. pose proof (rents_bounded_nodes _ _ _ R) as K. split.
  - intros d node x Hd Hx. destruct (no_d _ _ _ _ _ _ _ _ K _ _ _ Hd Hx) as (_ & _ & _ & H2 & _). exact H2.
  - intros c node x Hc Hx. destruct (no_c _ _ _ _ _ _ _ _ K _ _ _ Hc Hx) as (_ & _ & H2).
    rewrite vbound_step in H2. change (relative_bound C M B N (cdepth node + 1)) with (vbound C M B N' (cdepth node + 1)). lra.
Qed.
Lemma rents_recommends : forall n g s d (node : dnode) x, areach n g s -> nth_error (dh (mem (base s))) d = Some node ->
  nth_error (xds s) d = Some x -> is_sink C (dstate node) = false -> (ddepth node < max_depth C)%Z ->
  relative_bound C M B N 0 <= - dbl_lowest ->
  exists q, (forall a, In a (acts C (dstate node)) -> q_of M c_soft node (m_off (x : mmem)) (dview s node) a (q a)) /\
   picks (ments_recommend aeqb C M node (x : mmem) (dview s node))
    (if mmost_visited M then most_visited (acts C (dstate node)) (dview s node)
     else best_choice (acts C (dstate node)) (visited_enough M (dview s node)) q).
Proof using All.
  intros n g s d node x R Hd Hx Ns Dp Lim.
  destruct (C21_rents' seqb aeqb seqb_ok aeqb_ok C M Mok Env Pr n g s d node x R Hd Hx Ns) as (q & Hq & Hp).
  exists q. split; [exact Hq|]. apply Hp. right. intros a Ia.
  pose proof (rents_bounded_nodes _ _ _ R) as K. pose proof (areach_good seqb aeqb seqb_ok aeqb_ok C ra _ _ _ R) as I.
  destruct (dview_kids seqb aeqb aeqb_ok C ra _ _ _ _ _ _ _ I K Hd) as [_ Hk].
  pose proof (no_d _ _ _ _ _ _ _ _ K _ _ _ Hd Hx) as P.
  assert (In1 : inner C node).
  { split; auto. destruct P as (_ & P & _). split; [lia|]. pose proof I as [[Ti _] _ _ _ _]. apply (ti_time _ _ _ _ Ti _ _ Hd). }
  destruct P as (P1 & P2 & P3 & P4 & P5).
  pose proof (q_abs C M Tok B N' Vok few' node (m_off (x : mmem)) (dview s node) a (q a) In1 P5 Hk (Hq a Ia)) as Q.
  pose proof (slack_pos C M Tok N' few') as Sp. pose proof (vbound_mono C M Tok B N' Vok few' (ddepth node) 0 ltac:(lia)) as Mo.
  change (relative_bound C M B N 0) with (vbound C M B N' 0) in Lim.
  pose proof (Rle_abs (- q a)) as X. rewrite Rabs_Ropp in X. lra.
Qed.
End Bound.
