(** MENTS and its relatives keep trying every action; searches that do so explore and sample the whole environment. *)
From Coq Require Import List ZArith Bool Reals Lia Lra Permutation Classical.
From Verif Require Import QuietSpec AlgoFinish Base BaseProofs NumOps RLemmas HelperModel HelperSpec HelperProofs EngineModel EngineSpec EngineProofs
  EngineInv MapModel MapProofs AlgoModel AlgoProofs AlgoTheorems AlgoNodes AlgoSafe UctModel MentsModel SoftSpec SoftProofs
  MentsSpec MentsProofs MentsPolicy MentsRun FamilyRun DbRun DentsRun TentsRun EngineResults ReachSpec ReachProofs ReachFollow ReachFamily
  UctSpec ExploreSpec ConvSpec TreeSpec WorldSpec OddsSpec OddsCover OddsStep OddsVille OddsLaw OddsDraws OddsReads OddsNodes OddsTry OddsOften OddsGrow OddsBoldSpec.
Import ListNotations.
Open Scope R_scope.

Section Family.
Context {S A : Type}.
Variable seqb : S -> S -> bool.
Variable aeqb : A -> A -> bool.
Hypothesis seqb_ok : decides seqb.
Hypothesis aeqb_ok : decides aeqb.
Variable C : @econf S A.
Variable M : @mconf S A.
Notation dnode := (@dnode S A).
Notation cnode := (@cnode S A).
Hypothesis Mok : ments_ok C M.
Hypothesis Env : env_ok C M.
Hypothesis Pr : prior_ok C M.
Hypothesis Ex : explore_ok M.
Variable N : R.
Hypothesis Few : few_actions C N.

Section One.
Variable G : @algo S A.
Variable PD : dnode -> XD G -> Prop.
Variable PC : cnode -> XC G -> Prop.
Variable PX : list A -> CX G -> Prop.
Variable QC : cnode -> XC G -> Prop.
Hypothesis D : drawn aeqb C M G PD PC PX.
Hypothesis Rules : node_rules C G PD PC PX QC.
Hypothesis Vis : forall n x, PD n x -> (0 <= dvisits n)%Z.

Lemma family_reads : forall n x kids cx, exists j, (j <= 1)%nat /\ reads j (select G n x kids cx).
Proof using D.
  intros n x kids cx. exists 1%nat. split; auto. destruct (dw_sel _ _ _ _ _ _ _ D n x kids cx) as (d & F & E). intros g r g1 H. rewrite E in H.
  destruct d as [d0| |]; try discriminate H. cbn [bind] in H. destruct d0 as [m|]; cbn [sample_actions bind] in H; try discriminate H.
  rewrite sample_distribution_unfold in H. destruct (sample_loop R_ops (morder M R m) 1 (gr g (nr g)) 0) as [a| |] eqn:El; cbn [bind] in H; try discriminate H.
  injection H as <- <-. cbn. split; auto. split; auto. split; [lia|]. intros f Hf. rewrite E. cbn [bind sample_actions]. rewrite sample_distribution_unfold. cbn [regr gr nr].
  rewrite Hf by lia. rewrite El. reflexivity.
Qed.
Lemma family_samples : forall n x cx, exists cx1, forall g, sample G n x cx g = bind (sample_from_distribution R_ops (mdistr M (cstate n) (cact n)) true g) (fun '(o, g1) => Ok (o, cx1, g1)).
Proof using D. intros n x cx. exists cx. intros g. rewrite (dw_sam _ _ _ _ _ _ _ D). reflexivity. Qed.

Variables (q : R) (Vm : nat).
Hypothesis Bold : bold M N q (init_visits C + Z.of_nat Vm).

Lemma bold_rate : forall node, (0 <= dvisits node <= init_visits C + Z.of_nat Vm)%Z -> q * N <= explore_rate M (visit_d node).
Proof using Few Bold.
  intros node [Hv Bv]. destruct Bold as (Q0 & B1 & B2 & B3). set (V := (init_visits C + Z.of_nat Vm)%Z) in *.
  assert (E16 : 0 < / IZR (10 ^ 16)) by (apply Rinv_0_lt_compat, IZR_lt; reflexivity).
  assert (N1 : 1 <= N) by apply Few.
  assert (Ne : q * N * ln (IZR V + 2) <= node_eps M (visit_d node)) by (unfold node_eps; destruct (Z.eq_dec _ _), (Rlt_dec 0 (mroot_eps M)); lra).
  unfold explore_rate. cbn [visit_d dvisits]. destruct (Z.eq_dec (dvisits node + 1) 0) as [?|_]; [lia|].
  assert (Hv1 : 0 <= IZR (dvisits node)) by (now apply IZR_le).
  assert (Hv2 : IZR (dvisits node) <= IZR V) by (now apply IZR_le).
  rewrite plus_IZR.
  assert (P : 0 < ln (IZR (dvisits node) + 1 + 1)) by (rewrite <- ln_1; apply ln_increasing; lra).
  assert (P2 : ln (IZR (dvisits node) + 1 + 1) <= ln (IZR V + 2)).
  { destruct (Req_dec (IZR (dvisits node)) (IZR V)) as [->|]; [right; f_equal; lra|left; apply ln_increasing; lra]. }
  apply Rmin_glb; auto. apply Rmult_le_reg_r with (ln (IZR (dvisits node) + 1 + 1)); auto.
  replace (node_eps M (visit_d node) / ln (IZR (dvisits node) + 1 + 1) * ln (IZR (dvisits node) + 1 + 1)) with (node_eps M (visit_d node)) by (field; lra).
  eapply Rle_trans; [|exact Ne]. apply Rmult_le_compat_l; auto. nra.
Qed.

Lemma bold_actions : forall m x kids cx l a, inner C m -> PD m x -> dkids_ok C G PC m kids -> PX l cx -> ddepth m = Z.of_nat (length l) ->
  (dvisits m <= init_visits C + Z.of_nat Vm)%Z -> In a (acts C (dstate m)) ->
  exists lo cx1, 0 <= lo /\ lo + q <= 1 /\ forall g, lo <= gr g (nr g) < lo + q -> select G (visit_d m) (vis_d G (is_leaf C m) x) kids cx g = Ok (a, cx1, adv g).
Proof using aeqb_ok Mok Env Pr Ex Few D Vis Bold.
  intros m x kids cx l a In1 P K Px Ed Hv Ia. destruct (dw_pol _ _ _ _ _ _ _ D m x kids cx l In1 P K Px Ed) as (b & p & F & Pq & E).
  pose proof (Vis _ _ P) as Hv0. assert (Hv1 : (0 <= dvisits (visit_d m))%Z) by (cbn [visit_d dvisits]; lia).
  assert (NE : acts C (dstate (visit_d m)) <> []) by (apply Env, In1).
  pose proof Pq as (P1 & P2 & P3). destruct (mixture_distr aeqb aeqb_ok C M Pr Ex Env (visit_d m) b Hv1 NE P1 P2) as [S1 S2].
  destruct (S2 a Ia) as [S3 S4]. change (dstate (visit_d m)) with (dstate m) in *.
  assert (E16 : 0 < / IZR (10 ^ 16)) by (apply Rinv_0_lt_compat, IZR_lt; reflexivity).
  assert (Qm : q <= mixture aeqb C M (visit_d m) b a).
  { apply Rle_trans with (2 := S4). pose proof (bold_rate m ltac:(lia)) as X. set (k := INR (length (acts C (dstate m)))) in *.
    assert (K1 : 1 <= k). { unfold k. destruct (acts C (dstate m)); [congruence|]. cbn [length]. rewrite S_INR. pose proof (pos_INR (length l0)). lra. }
    assert (K2 : k <= N) by apply Few. pose proof (proj1 Bold).
    apply Rmult_le_reg_r with k; [lra|]. replace (explore_rate M (visit_d m) / k * k) with (explore_rate M (visit_d m)) by (field; lra). nra. }
  assert (Hi : ments_eps <= mixture aeqb C M (visit_d m) b a).
  { apply Rle_trans with (2 := Qm). pose proof (proj1 Bold). unfold ments_eps, Rdiv. rewrite Rmult_1_l. lra. }
  assert (J : In (a, mixture aeqb C M (visit_d m) b a) (morder M R p)).
  { eapply Permutation_in; [apply (proj1 Mok)|]. apply P3. auto. }
  apply in_split in J. destruct J as (m1 & m2 & Em). set (w := mixture aeqb C M (visit_d m) b a) in *.
  assert (E0 : 0 < ments_eps) by (unfold ments_eps, Rdiv; rewrite Rmult_1_l; auto).
  assert (Nn : nonneg_weights (morder M R p)).
  { intros k v Q. apply (Permutation_in _ (Permutation_sym (proj1 Mok R p))) in Q. apply P3 in Q. destruct Q as (_ & _ & Q). lra. }
  assert (N1 : 0 <= total m1). { apply total_nonneg. intros k v Q. apply (Nn k). rewrite Em. apply in_or_app. now left. }
  assert (N2 : 0 <= total m2). { apply total_nonneg. intros k v Q. apply (Nn k). rewrite Em. apply in_or_app. right. now right. }
  assert (Tq : total (morder M R p) = total m1 + (w + total m2)) by (rewrite Em, total_app; reflexivity).
  assert (T1 : total p = total (morder M R p)) by (apply total_perm; apply (proj1 Mok)).
  assert (T2 : total p <= 1).
  { apply (kept_bounds aeqb aeqb_ok (mixture aeqb C M (visit_d m) b) (acts C (dstate m)) p); auto; [apply Env|]. intros c Q. specialize (S2 c Q). lra. }
  exists (total m1), (F a). split; [lra|]. split; [lra|]. intros g Hg. rewrite E.
  set (g0 := mkRng (fun _ => 0%Z) (fun _ => gr g (nr g)) 0%nat 0%nat : rng R).
  destruct (policy_select aeqb aeqb_ok C M Mok Pr Ex Env (visit_d m) b p g0 Hv1 NE Pq) as [(a' & g' & E1 & O & Ia' & _ & Ow)|[L _]].
  { intros i. cbn. lra. }
  - cbn [gr nr g0] in Ow. assert (a = a'). { apply Ow. exists m1, w, m2. split; auto. lra. }
    subst a'. cbn [sample_actions] in E1 |- *. rewrite sample_distribution_unfold in E1 |- *. cbn [gr nr g0] in E1.
    destruct (sample_loop R_ops (morder M R p) 1 (gr g (nr g)) 0); cbn [bind] in E1 |- *; try discriminate. injection E1 as -> _. reflexivity.
  - cbn [gr nr g0] in L. lra.
Qed.

Lemma family_generous : forall n, generous seqb aeqb C q Vm G n.
Proof using All.
  intros n g s t cur flag nodes rewards nd x cx a Gi Gr R F Ht Hd Hx Hcx Hc Hv Ia.
  pose proof (nodes_reach seqb aeqb seqb_ok aeqb_ok C G PD PC PX QC Rules _ _ _ R) as No.
  pose proof (areach_good seqb aeqb seqb_ok aeqb_ok C G _ _ _ R) as Ag.
  pose proof (no_t _ _ _ _ _ _ _ _ No _ _ _ Ht Hcx) as (l & _ & (m' & Hm' & Ed) & Px). rewrite Hd in Hm'. injection Hm' as <-.
  apply (bold_actions nd x (dview s nd) cx l a); auto.
  - eapply cont_inner; eauto.
  - eapply no_d; eauto.
  - eapply dview_kids; eauto.
Qed.
End One.
End Family.
