(** Values of TENTS stay within bounds. *)
From Coq Require Import List ZArith Bool Reals Lia Lra Permutation.
From Verif Require Import Base BaseProofs NumOps RLemmas HelperModel HelperSpec HelperProofs EngineModel EngineSpec EngineProofs
  EngineInv MapModel MapProofs AlgoModel AlgoProofs AlgoNodes PickSpec RecSpec UctModel MentsModel SoftSpec SoftProofs
  MentsSpec MentsProofs MentsPolicy MentsRun MentsResults FamilyRun TentsSpec TentsProofs TentsRun TentsResults TboundSpec.
Import ListNotations.
Open Scope R_scope.

(** The sparse maximum of values of size at most [b] over the temperature. *)
Lemma sparse_abs : forall A (l : list A) z sp temp b, 0 < temp -> sparse_max l z sp -> (forall a, In a l -> temp * Rabs (z a) <= b) ->
  Rabs (temp * sp) <= b + temp * (1 / 2).
Proof.
  intros A l z sp temp b T [(p & [P1 P2] & ->) _] Hz. unfold sparse_objective.
  assert (Sq : 0 <= rsum_of (fun a => p a ^ 2) l <= 1).
  { split; [apply rsum_of_nonneg; intros a _; apply pow2_ge_0|]. rewrite <- P2. apply SoftProofs.rsum_of_le. intros a Ia.
    pose proof (P1 a Ia). pose proof (rsum_of_mem _ p l a P1 Ia). rewrite P2 in *. nra. }
  assert (Mean : Rabs (temp * rsum_of (fun a => p a * z a) l) <= b).
  { rewrite <- rsum_of_scale.
    assert (U : rsum_of (fun a => p a * b) l = b). { rewrite (rsum_of_ext _ _ (fun a => b * p a)) by (intros; ring). rewrite rsum_of_scale, P2. ring. }
    assert (Q : forall a, In a l -> - (p a * b) <= temp * (p a * z a) <= p a * b).
    { intros a Ia. specialize (Hz a Ia). pose proof (P1 a Ia) as Pa.
      pose proof (Rle_abs (z a)) as X1. pose proof (Rle_abs (- z a)) as X2. rewrite Rabs_Ropp in X2.
      assert (Y1 : temp * z a <= b) by nra. assert (Y2 : - b <= temp * z a) by nra. split; nra. }
    apply Rabs_le. split.
    - apply Rle_trans with (rsum_of (fun a => - (p a * b)) l).
      + rewrite (rsum_of_ext _ _ (fun a => (-1) * (p a * b))) by (intros; ring). rewrite rsum_of_scale, U. lra.
      + apply SoftProofs.rsum_of_le. intros a Ia. apply (Q a Ia).
    - rewrite <- U. apply SoftProofs.rsum_of_le. intros a Ia. apply (Q a Ia). }
  rewrite Rmult_plus_distr_l. eapply Rle_trans; [apply Rabs_triang|]. apply Rplus_le_compat; auto.
  rewrite Rabs_pos_eq; nra.
Qed.

Section Bound.
Context {S A : Type}.
Variable seqb : S -> S -> bool.
Variable aeqb : A -> A -> bool.
Hypothesis seqb_ok : decides seqb.
Hypothesis aeqb_ok : decides aeqb.
Variable C : @econf S A.
Variable M : @mconf S A.
Notation dnode := (@dnode S A).
Notation cnode := (@cnode S A).
Notation ta := (tents aeqb C M).
Hypothesis Mok : ments_ok C M.
Hypothesis Env : env_ok C M.
Hypothesis Tok : temps_ok M.
Hypothesis Pr : prior_ok C M.
Variable B N : R.
Hypothesis Vok : values_ok C M B.
Hypothesis Few : few_actions C N.
Notation N' := (Rmax N 2).

Lemma few2 : few_actions C N'.
Proof using Few.
  destruct Few as [F1 F2]. pose proof (Rmax_l N 2). split; [lra|]. intros s. specialize (F2 s). lra.
Qed.
Lemma half_slack : forall n : dnode, (0 <= dvisits n)%Z -> ments_temp M n * (1 / 2) <= slack M N'.
Proof using Tok.
  intros n Hv. destruct (temp_bounds M Tok n Hv) as (T0 & T1 & T2). unfold slack. apply Rmult_le_compat; try lra.
  pose proof (Rmax_r N 2) as H. apply Rle_trans with (ln 2).
  - rewrite <- (ln_exp (1 / 2)). left. apply ln_increasing; [apply exp_pos|].
    assert (E : exp (1 / 2) * exp (1 / 2) <= 3). { rewrite <- exp_plus. replace (1 / 2 + 1 / 2) with 1 by field. apply exp_le_3. }
    pose proof (exp_pos (1 / 2)). nra.
  - destruct H as [H| <-]; [left; apply ln_increasing; lra|lra].
Qed.
Lemma temp_visit : forall n : dnode, (0 <= dvisits n)%Z -> ments_temp M (visit_d n) <= ments_temp M n.
Proof using Tok.
  intros n Hv. destruct Tok as [T0 T1]. unfold ments_temp. destruct (mdecay M) as [f|]; [|lra].
  destruct (T1 f eq_refl) as (D & Mi & Sc). change (is_root (visit_d n)) with (is_root n). cbn [visit_d dvisits].
  apply decayed_antitone; auto; [lra| |lia].
  destruct (is_root n && Rltb 0 (mroot_scale M)) eqn:E; [|lra]. apply andb_prop in E. destruct E as [_ E]. apply Rltb_true in E. lra.
Qed.

Notation md := (md_ok C M B N').
Notation mc := (mc_ok C M B N').
Definition tb_ok (n : dnode) (x : XD ta) : Prop :=
  md n (t_m (x : @tmem A)) /\ maps_ok (acts C (dstate n)) (x : @tmem A) /\
  (inner C n -> forall a v, In (a, v) (t_a2q (x : @tmem A)) -> ments_temp M n * Rabs v <= vbound C M B N' (ddepth n) - slack M N').

Lemma q_temp_abs : forall n x (kids : list (A * (cnode * cmem))) a v, inner C n -> md n x ->
  (forall a c y, In (a, (c, y)) kids -> dkid C n a c /\ mc c y) -> q_over_temp aeqb M n x kids a = Ok v ->
  ments_temp M n * Rabs v <= vbound C M B N' (ddepth n) - slack M N'.
Proof using aeqb_ok Tok Vok Few.
  intros n x kids a v In1 (H1 & H2 & H3 & H4 & H5) Hk E. destruct (temp_bounds M Tok n H1) as (T0 & T1 & T2).
  unfold q_over_temp in E. destruct (ments_q aeqb M n x kids a) as [q| |] eqn:Eq; try discriminate. injection E as <-.
  apply (ments_q_spec aeqb aeqb_ok) in Eq. pose proof (q_abs C M Tok B N' Vok few2 n (m_off x) kids a q In1 H5 Hk Eq) as Q.
  unfold Rdiv. rewrite Rabs_mult, (Rabs_pos_eq (/ _)) by (left; apply Rinv_0_lt_compat; lra).
  replace (ments_temp M n * (Rabs q * / ments_temp M n)) with (Rabs q) by (field; lra). exact Q.
Qed.
Lemma tb_new : forall s k t, (0 <= k <= max_depth C)%Z -> tb_ok (new_dnode C s k t) (new_xd ta (new_dnode C s k t)).
Proof using aeqb_ok Env Tok Pr Vok Few.
  intros s k t Hk. pose proof (md_new C M Env Tok B N' Vok few2 s k t Hk) as Hm. cbn [new_xd tents].
  destruct (new_maps aeqb aeqb_ok C M (eo_nodup _ _ Env) (new_dnode C s k t)) as (E & H & Hv); [now apply pr_total|].
  split; [now rewrite E|]. split; auto. intros In1 a v Q. apply Hv in Q. destruct Q as [_ Q].
  eapply q_temp_abs; eauto. intros a0 c y [].
Qed.
Lemma tb_backup : forall n (x : @tmem A) (kids : list (A * (cnode * cmem))) l' a l (cx : tctx) x1, inner C n -> tb_ok n x ->
  (forall a c y, In (a, (c, y)) kids -> dkid C n a c /\ mc c y) -> tents_trail (l' ++ a :: l) cx ->
  ddepth n = Z.of_nat (length l) -> In a (acts C (dstate n)) ->
  tents_backup_d aeqb M n x kids cx = Ok x1 -> tb_ok n x1.
Proof using aeqb_ok Env Tok Pr Vok Few.
  intros n x kids l' a l cx x1 In1 (Hm & Mo & Hv) Hk T Ed Ia E.
  destruct (tents_backup_ok aeqb aeqb_ok C M Env Pr n x kids l' a l cx) as (v & x2 & sp & E1 & E2 & E3 & Mo2 & Q1 & Q2 & Sp & E4); auto; [apply Env, In1|].
  rewrite E4 in E. injection E as <-. pose proof (q_temp_abs n _ kids a v In1 Hm Hk E1) as Qa.
  destruct Hm as (H1 & H2 & H3 & H4 & H5). destruct (temp_bounds M Tok n H1) as (T0 & T1 & T2).
  assert (All : forall b w, In (b, w) (t_a2q x2) -> ments_temp M n * Rabs w <= vbound C M B N' (ddepth n) - slack M N').
  { intros b w Q. destruct (aeqb b a) eqn:Eb.
    - apply aeqb_ok in Eb. subst b. assert (w = v); [|now subst].
      pose proof (in_lookup aeqb aeqb_ok _ _ _ _ (mo_nodup _ _ Mo2) Q) as L1.
      pose proof (in_lookup aeqb aeqb_ok _ _ _ _ (mo_nodup _ _ Mo2) Q1) as L2. congruence.
    - apply Hv with (a := b); auto. apply Q2; auto. intros ->. now rewrite (keqb_refl aeqb aeqb_ok) in Eb. }
  split; [|split].
  - unfold md_ok. cbn [t_m m_nb m_soft m_off]. repeat (split; [lia || auto|]); auto.
    replace (opp_coeff M n * ments_temp M n * sp) with (ments_temp M n * sp * opp_coeff M n) by ring. rewrite opp_seen, Rabs_seen.
    apply Rle_trans with (vbound C M B N' (ddepth n) - slack M N' + ments_temp M n * (1 / 2)); [|pose proof (half_slack n H1); lra].
    apply (sparse_abs A (acts C (dstate n)) (valf aeqb (t_a2q x2))); [lra|exact Sp|].
    intros b Ib. apply All with (b := b). apply (proj2 (maps_values aeqb aeqb_ok _ _ Mo2) b Ib).
  - destruct Mo2 as [K1 K2 K3 K4]. now constructor.
  - intros _. exact All.
Qed.

Lemma tents_bound_rules : node_rules C ta tb_ok mc (tx_ok aeqb C M) (fun _ _ => True).
Proof using aeqb_ok Env Tok Pr Vok Few.
  pose proof (tents_rules aeqb aeqb_ok C M Env Pr) as Ru.
  constructor; try (intros; exact I).
  - apply tb_new. split; [lia|apply Env].
  - intros c o (_ & H & _) _. apply tb_new. lia.
  - intros n a H _. now apply (mc_new C M Tok B N' Vok few2).
  - intros n x (Hm & Mo & Hv). split; [now apply md_visit|]. split; [destruct Mo as [K1 K2 K3 K4]; now constructor|].
    intros In1 a v Q. destruct Hm as (H1 & _). specialize (Hv In1 a v Q). pose proof (temp_visit n H1). pose proof (Rabs_pos v).
    change (ddepth (visit_d n)) with (ddepth n). eapply Rle_trans; [|exact Hv]. now apply Rmult_le_compat_r.
  - intros n x a c H. exact H.
  - intros n x H. exact H.
  - intros n x o d H. exact H.
  - intros n x kids cx b x1 l a l' H1 H2 [H3 H4] Px Ed (c & y & Q & _) _ E. destruct (H4 _ _ _ Q) as [(_ & _ & _ & _ & Ia) _].
    eapply (tb_backup n x kids l' a l cx); eauto.
  - intros n x kids cx b x1 H1 H2 [_ H3] _ E. injection E as <-. split; [|exact I]. apply (mc_backup C M Tok B N' Vok few2); auto.
    intros o d y Q. unfold onto in Q. apply in_map_iff in Q. destruct Q as ([o' [d' y']] & [= <- <- <-] & Q). destruct (H3 _ _ _ Q) as [Q1 Q2].
    split; [exact Q1|apply Q2].
  - exact (P_cx0 _ _ _ _ _ _ Ru).
  - intros n x kids cx g a cx1 g1 l I1 (Hm & Mo & _) [K1 K2] Px Ed E. eapply (P_sel _ _ _ _ _ _ Ru); eauto.
    + destruct Hm as (H1 & _ & H3 & _). split; auto.
    + split; auto. intros a0 c y Q. split; [apply (K2 _ _ _ Q)|exact I].
  - intros n x cx g o cx1 g1 l I1 P Px E. eapply (P_sam _ _ _ _ _ _ Ru); eauto.
  - intros kids cx cx1 l _ E. discriminate E.
  - intros kids cx cx1 l _ E. discriminate E.
  - intros cx l Px. exact Px.
Qed.

Notation areach := (areach seqb aeqb C ta).
Lemma tents_bounded_nodes : forall n g s, areach n g s -> nodes_ok aeqb C ta tb_ok mc (tx_ok aeqb C M) (fun _ _ => True) s.
Proof using All.
  intros n g s R. exact (nodes_reach seqb aeqb seqb_ok aeqb_ok C ta _ _ _ _ tents_bound_rules _ _ _ R).
Qed.
Lemma tents_values : forall n g s, areach n g s ->
  (forall d node x, nth_error (dh (mem (base s))) d = Some node -> nth_error (xds s) d = Some x ->
     Rabs (m_soft (t_m (x : @tmem A))) <= sparse_bound C M B N (ddepth node)) /\
  (forall c node x, nth_error (ch (mem (base s))) c = Some node -> nth_error (xcs s) c = Some x ->
     Rabs (c_soft (x : cmem)) <= B + sparse_bound C M B N (cdepth node + 1)).
Proof using All.
  intros n g s R. pose proof (tents_bounded_nodes _ _ _ R) as K. split.
  - intros d node x Hd Hx. destruct (no_d _ _ _ _ _ _ _ _ K _ _ _ Hd Hx) as ((_ & _ & _ & H2 & _) & _). exact H2.
  - intros c node x Hc Hx. destruct (no_c _ _ _ _ _ _ _ _ K _ _ _ Hc Hx) as (_ & _ & H2).
    rewrite vbound_step in H2. change (sparse_bound C M B N (cdepth node + 1)) with (vbound C M B N' (cdepth node + 1)). lra.
Qed.
Lemma tents_recommends : forall n g s d (node : dnode) x, areach n g s -> nth_error (dh (mem (base s))) d = Some node ->
  nth_error (xds s) d = Some x -> is_sink C (dstate node) = false -> (ddepth node < max_depth C)%Z ->
  sparse_bound C M B N 0 <= - dbl_lowest ->
  exists q, (forall a, In a (acts C (dstate node)) -> q_of M c_soft node (m_off (t_m (x : @tmem A))) (dview s node) a (q a)) /\
   picks (ments_recommend aeqb C M node (t_m (x : @tmem A)) (dview s node))
    (if mmost_visited M then most_visited (acts C (dstate node)) (dview s node)
     else best_choice (acts C (dstate node)) (visited_enough M (dview s node)) q).
Proof using All.
  intros n g s d node x R Hd Hx Ns Dp Lim.
  destruct (C21_tents' seqb aeqb seqb_ok aeqb_ok C M Mok Env Pr n g s d node x R Hd Hx Ns) as (q & Hq & Hp).
  exists q. split; [exact Hq|]. apply Hp. right. intros a Ia.
  pose proof (tents_bounded_nodes _ _ _ R) as K. pose proof (areach_good seqb aeqb seqb_ok aeqb_ok C ta _ _ _ R) as I.
  destruct (dview_kids seqb aeqb aeqb_ok C ta _ _ _ _ _ _ _ I K Hd) as [_ Hk].
  destruct (no_d _ _ _ _ _ _ _ _ K _ _ _ Hd Hx) as (P & _ & _).
  assert (In1 : inner C node).
  { split; auto. destruct P as (_ & P & _). split; [lia|]. pose proof I as [[Ti _] _ _ _ _]. apply (ti_time _ _ _ _ Ti _ _ Hd). }
  destruct P as (P1 & P2 & P3 & P4 & P5).
  pose proof (q_abs C M Tok B N' Vok few2 node (m_off (t_m (x : @tmem A))) (dview s node) a (q a) In1 P5 Hk (Hq a Ia)) as Q.
  pose proof (slack_pos C M Tok N' few2) as Sp. pose proof (vbound_mono C M Tok B N' Vok few2 (ddepth node) 0 ltac:(lia)) as Mo.
  change (sparse_bound C M B N 0) with (vbound C M B N' 0) in Lim.
  pose proof (Rle_abs (- q a)) as X. rewrite Rabs_Ropp in X. lra.
Qed.
End Bound.
