(** MENTS and its relatives can be steered along every route. *)
From Coq Require Import List ZArith Bool Reals Lia Lra Permutation.
From Verif Require Import QuietSpec AlgoFinish Base BaseProofs NumOps RLemmas HelperModel HelperSpec HelperProofs EngineModel EngineSpec EngineProofs
  EngineInv MapModel MapProofs AlgoModel AlgoProofs AlgoTheorems AlgoNodes AlgoSafe UctModel MentsModel SoftSpec SoftProofs
  MentsSpec MentsProofs MentsPolicy MentsRun FamilyRun DbRun DentsRun TentsRun EngineResults ReachSpec ReachProofs ReachFollow.
Import ListNotations.
Open Scope R_scope.

Section Family.
Context {S A : Type}.
Variable seqb : S -> S -> bool.
Variable aeqb : A -> A -> bool.
Hypothesis seqb_ok : decides seqb.
Hypothesis aeqb_ok : decides aeqb.
Variable C : @econf S A.
Variable M : @mconf S A.
Notation dnode := (@dnode S A).
Notation cnode := (@cnode S A).
Hypothesis Mok : ments_ok C M.
Hypothesis Env : env_ok C M.
Hypothesis Pr : prior_ok C M.
Hypothesis Ex : explore_ok M.
Variable N : R.
Hypothesis Few : few_actions C N.

(** What the members of the family have in common: selections sample from a policy, samples from the transition distribution. *)
Record drawn (G : @algo S A) (PD : dnode -> XD G -> Prop) (PC : cnode -> XC G -> Prop) (PX : list A -> CX G -> Prop) : Prop := mkDrawn {
  dw_sel : forall n x kids cx, exists (d : outcome (option (list (A * R)))) (F : option (list (A * R)) -> A -> CX G), forall g,
    select G n x kids cx g = bind d (fun d0 => bind (sample_actions M d0 g) (fun '(a, g1) => Ok (a, F d0 a, g1)));
  dw_sam : forall n x cx g, sample G n x cx g = bind (ments_sample M n g) (fun '(o, g1) => Ok (o, cx, g1));
  dw_pol : forall n x kids cx l, inner C n -> PD n x -> dkids_ok C G PC n kids -> PX l cx -> ddepth n = Z.of_nat (length l) ->
    exists b m F, policy_of aeqb C M (visit_d n) b m /\ forall g,
      select G (visit_d n) (vis_d G (is_leaf C n) x) kids cx g = bind (sample_actions M (Some m) g) (fun '(a, g1) => Ok (a, F a, g1))
}.

Section One.
Variable G : @algo S A.
Variable PD : dnode -> XD G -> Prop.
Variable PC : cnode -> XC G -> Prop.
Variable PX : list A -> CX G -> Prop.
Variable QC : cnode -> XC G -> Prop.
Hypothesis D : drawn G PD PC PX.
Hypothesis Rules : node_rules C G PD PC PX QC.
Hypothesis Safe : safe_rules C G PD PC PX QC (fam_bad aeqb C M G).
Hypothesis Vis : forall n x, PD n x -> (0 <= dvisits n)%Z.

Lemma family_draws : one_draw G.
Proof using D.
  constructor.
  - intros n x kids cx. destruct (dw_sel _ _ _ _ D n x kids cx) as (d & F & E).
    exists (fun u => bind d (fun d0 => match d0 with None => Throw | Some m =>
      bind (sample_loop R_ops (morder M R m) 1 u 0) (fun a => Ok (a, F d0 a)) end)).
    intros g. rewrite E. destruct d as [[m|]| |]; cbn [bind sample_actions]; auto.
    rewrite sample_distribution_unfold. destruct (sample_loop R_ops (morder M R m) 1 (gr g (nr g)) 0); reflexivity.
  - intros n x cx. exists (fun u => bind (sample_loop R_ops (mdistr M (cstate n) (cact n)) 1 u 0) (fun o => Ok (o, cx))).
    intros g. rewrite (dw_sam _ _ _ _ D). unfold ments_sample. rewrite sample_distribution_unfold.
    destruct (sample_loop R_ops (mdistr M (cstate n) (cact n)) 1 (gr g (nr g)) 0); reflexivity.
Qed.

Lemma family_outcomes : forall c x cx o, innerc C c -> In o (succs C (cstate c) (cact c)) ->
  exists u cx1, 0 <= u < 1 /\ forall g, gr g (nr g) = u -> sample G (visit_c c) x cx g = Ok (o, cx1, adv g).
Proof using D Mok Env.
  intros c x cx o (Hs & _ & Ha & _) Io. destruct (eo_distr _ _ Env _ _ Hs Ha) as [Hp Ht].
  rewrite (proj2 Mok) in Io. apply in_map_iff in Io. destruct Io as ((o' & w) & E & J). cbn in E. subst o'.
  apply in_split in J. destruct J as (m1 & m2 & Em). set (m := mdistr M (cstate c) (cact c)) in *.
  assert (Nn : nonneg_weights m) by (now apply positive_nonneg).
  assert (W : 0 < w) by (apply (Hp o); rewrite Em; apply in_or_app; right; now left).
  assert (N1 : 0 <= total m1). { apply total_nonneg. intros k q Q. apply (Nn k). rewrite Em. apply in_or_app. now left. }
  assert (N2 : 0 <= total m2). { apply total_nonneg. intros k q Q. apply (Nn k). rewrite Em. apply in_or_app. right. now right. }
  assert (Tt : total m1 + (w + total m2) = 1) by (rewrite <- Ht, Em, total_app; reflexivity).
  exists (total m1), cx. split; [lra|]. intros g Eg. rewrite (dw_sam _ _ _ _ D). unfold ments_sample. rewrite sample_distribution_unfold.
  cbn [visit_c cstate cact]. fold m. rewrite Eg.
  destruct (sample_iff_owns _ m 1 (total m1) Nn) as [_ I]; try lra.
  { destruct m as [|p m' _] eqn:E using rev_ind; [destruct m1; discriminate|]. destruct p as [k0 w0]. apply not_early_last; auto; try lra. apply (Hp k0). apply in_or_app. right. now left. }
  rewrite (proj2 (I o)); [reflexivity|]. exists m1, w, m2. split; auto. lra.
Qed.

Variables (e : R) (V : Z).
Hypothesis He : 0 < e.
Hypothesis Le1 : e <= meps M.
Hypothesis Le2 : mroot_eps M <= 0 \/ e <= mroot_eps M.
Hypothesis HV : (0 <= V)%Z.
Hypothesis Le3 : N * ln (IZR V + 2) / IZR (10 ^ 16) <= e.
Hypothesis Le4 : N / IZR (10 ^ 16) <= mmax_explore M.

Lemma explores : forall node, (0 <= dvisits node <= V)%Z -> N / IZR (10 ^ 16) <= explore_rate M (visit_d node).
Proof using Few He Le1 Le2 HV Le3 Le4.
  intros node [Hv Bv].
  assert (E16 : 0 < IZR (10 ^ 16)) by (apply IZR_lt; reflexivity).
  assert (N1 : 1 <= N) by apply Few.
  assert (Ne : e <= node_eps M (visit_d node)).
  { unfold node_eps. destruct (Z.eq_dec _ _), (Rlt_dec 0 (mroot_eps M)); lra. }
  unfold explore_rate. cbn [visit_d dvisits]. destruct (Z.eq_dec (dvisits node + 1) 0) as [?|_]; [lia|].
  assert (Hv1 : 0 <= IZR (dvisits node)) by (now apply IZR_le).
  assert (Hv2 : IZR (dvisits node) <= IZR V) by (now apply IZR_le).
  rewrite plus_IZR.
  assert (P : 0 < ln (IZR (dvisits node) + 1 + 1)) by (rewrite <- ln_1; apply ln_increasing; lra).
  assert (P2 : ln (IZR (dvisits node) + 1 + 1) <= ln (IZR V + 2)).
  { destruct (Req_dec (IZR (dvisits node)) (IZR V)) as [->|]; [right; f_equal; lra|left; apply ln_increasing; lra]. }
  assert (A2 : N / IZR (10 ^ 16) <= node_eps M (visit_d node) / ln (IZR (dvisits node) + 1 + 1)).
  { apply Rle_trans with (N * ln (IZR V + 2) / IZR (10 ^ 16) / ln (IZR (dvisits node) + 1 + 1)).
    - apply Rmult_le_reg_r with (ln (IZR (dvisits node) + 1 + 1)); auto.
      replace (N * ln (IZR V + 2) / IZR (10 ^ 16) / ln (IZR (dvisits node) + 1 + 1) * ln (IZR (dvisits node) + 1 + 1))
        with (N / IZR (10 ^ 16) * ln (IZR V + 2)) by (field; lra).
      apply Rmult_le_compat_l; auto. apply Rmult_le_pos; [lra|left; now apply Rinv_0_lt_compat].
    - apply Rmult_le_compat_r; [left; now apply Rinv_0_lt_compat|]. lra. }
  apply Rmin_glb; auto.
Qed.

Lemma family_actions : forall m x kids cx l a, inner C m -> PD m x -> dkids_ok C G PC m kids -> PX l cx -> ddepth m = Z.of_nat (length l) ->
  (dvisits m <= V)%Z -> In a (acts C (dstate m)) ->
  exists u cx1, 0 <= u < 1 /\ forall g, gr g (nr g) = u -> select G (visit_d m) (vis_d G (is_leaf C m) x) kids cx g = Ok (a, cx1, adv g).
Proof using All.
  intros m x kids cx l a In1 P K Px Ed Hv Ia. destruct (dw_pol _ _ _ _ D m x kids cx l In1 P K Px Ed) as (b & q & F & Pq & E).
  pose proof (Vis _ _ P) as Hv0. assert (Hv1 : (0 <= dvisits (visit_d m))%Z) by (cbn [visit_d dvisits]; lia).
  assert (NE : acts C (dstate (visit_d m)) <> []) by (apply Env, In1).
  pose proof Pq as (P1 & P2 & P3). destruct (mixture_distr aeqb aeqb_ok C M Pr Ex Env (visit_d m) b Hv1 NE P1 P2) as [S1 S2].
  destruct (S2 a Ia) as [S3 S4]. change (dstate (visit_d m)) with (dstate m) in *.
  assert (E16 : 0 < IZR (10 ^ 16)) by (apply IZR_lt; reflexivity).
  assert (Hi : ments_eps <= mixture aeqb C M (visit_d m) b a).
  { apply Rle_trans with (2 := S4). pose proof (explores m ltac:(lia)) as X. set (k := INR (length (acts C (dstate m)))) in *.
    assert (K1 : 1 <= k). { unfold k. destruct (acts C (dstate m)); [congruence|]. cbn [length]. rewrite S_INR. pose proof (pos_INR (length l0)). lra. }
    assert (K2 : k <= N) by apply Few.
    apply Rmult_le_reg_r with k; [lra|]. replace (explore_rate M (visit_d m) / k * k) with (explore_rate M (visit_d m)) by (field; lra).
    apply Rle_trans with (2 := X). unfold ments_eps, Rdiv. rewrite (Rmult_comm N). 
    replace (1 * / IZR (10 ^ 16)) with (/ IZR (10 ^ 16)) by ring.
    apply Rmult_le_compat_l; [left; now apply Rinv_0_lt_compat|lra]. }
  assert (J : In (a, mixture aeqb C M (visit_d m) b a) (morder M R q)).
  { eapply Permutation_in; [apply (proj1 Mok)|]. apply P3. auto. }
  apply in_split in J. destruct J as (m1 & m2 & Em).
  assert (Nn : nonneg_weights (morder M R q)).
  { intros k w Q. apply (Permutation_in _ (Permutation_sym (proj1 Mok R q))) in Q. apply P3 in Q. destruct Q as (_ & _ & Q).
    apply Rle_trans with (2 := Q). unfold ments_eps. left. now apply Rinv_0_lt_compat || (apply Rdiv_lt_0_compat; lra). }
  assert (W : 0 < mixture aeqb C M (visit_d m) b a).
  { apply Rlt_le_trans with (2 := Hi). unfold ments_eps. now apply Rinv_0_lt_compat || (apply Rdiv_lt_0_compat; lra). }
  assert (N1 : 0 <= total m1). { apply total_nonneg. intros k w Q. apply (Nn k). rewrite Em. apply in_or_app. now left. }
  assert (N2 : 0 <= total m2). { apply total_nonneg. intros k w Q. apply (Nn k). rewrite Em. apply in_or_app. right. now right. }
  assert (Tq : total (morder M R q) = total m1 + (mixture aeqb C M (visit_d m) b a + total m2)) by (rewrite Em, total_app; reflexivity).
  set (g0 := mkRng (fun _ => 0%Z) (fun _ => total m1) 0%nat 0%nat : rng R).
  assert (T1 : total q = total (morder M R q)) by (apply total_perm; apply (proj1 Mok)).
  assert (T2 : total q <= 1).
  { apply (kept_bounds aeqb aeqb_ok (mixture aeqb C M (visit_d m) b) (acts C (dstate m)) q); auto; [apply Env|]. intros c Q. specialize (S2 c Q). lra. }
  exists (total m1), (F a). split; [lra|]. intros g Eg. rewrite E.
  destruct (policy_select aeqb aeqb_ok C M Mok Pr Ex Env (visit_d m) b q g0 Hv1 NE Pq) as [(a' & g' & E1 & O & Ia' & _ & Ow)|[L _]].
  { intros i. cbn. lra. }
  - cbn [gr nr g0] in Ow. assert (a = a'). { apply Ow. exists m1, (mixture aeqb C M (visit_d m) b a), m2. split; auto. lra. }
    subst a'. cbn [sample_actions] in E1 |- *. rewrite sample_distribution_unfold in E1 |- *. cbn [gr nr g0] in E1. rewrite Eg.
    destruct (sample_loop R_ops (morder M R q) 1 (total m1) 0); cbn [bind] in E1 |- *; try discriminate. injection E1 as -> _. reflexivity.
  - cbn [gr nr g0] in L. lra.
Qed.

Lemma family_calm : N < IZR (10 ^ 16) -> forall n g K, good_ints g -> good_reals g -> (forall i, (K <= i)%nat -> gr g i = 0) ->
  forall s, areach seqb aeqb C G n g s -> (K <= nr (rg s))%nat -> afail s = None.
Proof using All.
  intros LN n g K Gi Gr Z s R Hk. destruct (afail s) eqn:F; auto. exfalso.
  destruct (fam_failures seqb aeqb seqb_ok aeqb_ok C M Env Pr Ex N Few G _ _ _ _ Rules Vis Safe n g s Gi Gr R ltac:(congruence)) as (d & node & Hd & Ns & L & _).
  pose proof (streams seqb aeqb seqb_ok aeqb_ok C G _ _ _ _ _ Rules Safe _ _ _ Gi Gr R) as [_ St]. rewrite St, Z in L by auto.
  assert (E16 : 0 < IZR (10 ^ 16)) by (apply IZR_lt; reflexivity).
  assert (A1 : INR (length (acts C (dstate node))) / IZR (10 ^ 16) <= N / IZR (10 ^ 16)).
  { unfold Rdiv. apply Rmult_le_compat_r; [left; now apply Rinv_0_lt_compat|apply Few]. }
  assert (A2 : N / IZR (10 ^ 16) < 1).
  { apply Rmult_lt_reg_r with (IZR (10 ^ 16)); auto. replace (N / IZR (10 ^ 16) * IZR (10 ^ 16)) with N by (field; lra). lra. }
  lra.
Qed.

Theorem family_reaches : N < IZR (10 ^ 16) -> forall r, looks_at_most G r ->
  forall n g s ps, good_ints g -> good_reals g -> (0 < n)%nat -> areach seqb aeqb C G n g s -> quiet (base s) ->
  (forall p, In p ps -> route C (root_state C) p /\ (Z.of_nat (length p) <= max_depth C)%Z) ->
  (init_visits C + count is_done (etrace (base s)) + Z.of_nat (length (concat ps)) <= V)%Z ->
  can_continue seqb aeqb C G n g s (Z.of_nat (length (concat ps))) (fun s' => forall p, In p ps -> holds_route seqb aeqb (mem (base s')) 0 p).
Proof using All.
  intros LN r (rank & Rl & Rd & Rc) n g s ps Gi Gr Hn R Qs Rt Hv.
  pose proof (areach_ereach seqb aeqb C G _ _ _ R) as Er.
  destruct (C10_idle' seqb aeqb seqb_ok aeqb_ok C n (base s) Er Qs) as [E _].
  assert (F : afail s = None).
  { destruct (afail s) eqn:F; auto. exfalso.
    destruct (failed seqb aeqb seqb_ok aeqb_ok C G _ _ _ R ltac:(congruence)) as (s0 & fl0 & R0 & F0 & Rs & ->).
    destruct Rs; pose proof (Qs _ _ H); discriminate. }
  pose proof family_draws as Od.
  destruct (reach_redraw seqb aeqb C G Od n g s (gr (rg s)) R F (fun i _ => eq_refl)) as (_ & Eg & _).
  assert (L : live seqb aeqb C G n g s).
  { split; [|split; auto; intros i; rewrite Eg; apply Gr]. rewrite Eg. replace (with_draws g (gr g)) with g by (destruct g; reflexivity). exact R. }
  destruct (grow_all seqb aeqb seqb_ok aeqb_ok C G Od _ _ _ _ Rules V family_actions family_outcomes rank r Rl Rd Rc (family_calm LN)
    n g ps s L Gi Hn Qs Rt ltac:(lia)) as (s' & (f & ls & P & Qf & H & F') & Q' & S' & Ho).
  exists f, ls, s'. split; auto. split; auto. split; [now apply (reach_redraw seqb aeqb C G Od)|]. split; auto. split; auto. split; auto. split; [|exact Ho].
  assert (L' : live seqb aeqb C G n g s') by (eapply goes_live; eauto; exists f, ls; auto).
  destruct L' as (R' & _ & _).
  destruct (C10_idle' seqb aeqb seqb_ok aeqb_ok C n (base s') (areach_ereach seqb aeqb C G _ _ _ R') Q') as [E' _]. lia.
Qed.

Theorem family_whole : N < IZR (10 ^ 16) -> forall r, looks_at_most G r ->
  forall n g s, good_ints g -> good_reals g -> (0 < n)%nat -> areach seqb aeqb C G n g s -> quiet (base s) ->
  let k := Z.of_nat (length (concat (routes C (Z.to_nat (max_depth C)) (root_state C)))) in
  (init_visits C + count is_done (etrace (base s)) + k <= V)%Z ->
  can_continue seqb aeqb C G n g s k (fun s' => whole seqb aeqb C (mem (base s'))).
Proof using All.
  intros LN r Lk n g s Gi Gr Hn R Qs k Hv. pose proof (eo_depth _ _ Env) as Hm.
  destruct (family_reaches LN r Lk n g s (routes C (Z.to_nat (max_depth C)) (root_state C)) Gi Gr Hn R Qs) as (f & ls & s' & H1 & H2 & H3 & H4 & H5 & H6 & H7 & H8).
  { intros p J. apply routes_in in J. destruct J as [J1 J2]. split; auto. lia. }
  { exact Hv. }
  exists f, ls, s'. repeat (split; [assumption|]).
  assert (R' : areach seqb aeqb C G n (with_draws g f) s') by (eapply (areach_app seqb aeqb C G); eauto).
  apply (all_routes seqb aeqb seqb_ok aeqb_ok C n (base s') (areach_ereach seqb aeqb C G _ _ _ R')).
  intros p J1 J2. apply H8. apply routes_in. split; auto. lia.
Qed.
End One.

(** ** The members of the family *)
Notation vis := (fun (n : dnode) _ => (0 <= dvisits n)%Z) (only parsing).
Notation top := (fun _ _ => True) (only parsing).
Notation me := (ments aeqb C M).
Lemma ments_rules0 : node_rules C me vis top top top.
Proof using Env. exact (rules_visits C me (eo_visits _ _ Env)). Qed.
Lemma q_policy : forall n (qf : A -> outcome R), inner C n -> (0 <= dvisits n)%Z -> (forall a, In a (acts C (dstate n)) -> exists v, qf a = Ok v) ->
  exists b m, action_distr aeqb C M (visit_d n) qf = Ok (Some m) /\ policy_of aeqb C M (visit_d n) b m.
Proof using aeqb_ok Env Pr.
  intros n qf In1 Hv Hq. assert (NE : acts C (dstate n) <> []) by apply Env, In1.
  destruct (distr_policy aeqb aeqb_ok C M Pr Env (visit_d n) qf) as (q & m & _ & E & P); auto.
  { left. cbn [visit_d dvisits]. lia. }
  eauto.
Qed.
Lemma ments_drawn : drawn me vis top top.
Proof using aeqb_ok Env Pr.
  constructor.
  - intros n x kids cx. exists (action_distr aeqb C M n (ments_q aeqb M n x kids)), (fun _ _ => cx). intros g. cbn [select ments]. unfold ments_select.
    destruct (action_distr aeqb C M n (ments_q aeqb M n x kids)); reflexivity.
  - reflexivity.
  - intros n x kids cx l In1 Hv K _ _.
    destruct (q_policy n (ments_q aeqb M (visit_d n) (vis_d me (is_leaf C n) x) kids) In1 Hv) as (b & m & E & P).
    { intros a Ia. apply (ments_q_total aeqb aeqb_ok C); auto. now apply pr_total. }
    exists b, m, (fun _ => cx). split; auto. intros g. cbn [select ments]. unfold ments_select. rewrite E. reflexivity.
Qed.
Lemma ments_safe0 : safe_rules C me vis top top top (fam_bad aeqb C M me).
Proof using aeqb_ok Mok Env Pr Ex.
  constructor.
  - intros n x kids cx g l In1 P K _ _ Gi Gr. cbn [select ments].
    destruct (ments_select_ok aeqb aeqb_ok C M Mok Env Pr Ex (visit_d n) (vis_d me (is_leaf C n) x) kids g) as [(a & g1 & E & Ia & O)|[L T]]; auto.
    + cbn [visit_d dvisits]. lia.
    + left. rewrite E. cbn [bind]. exists a, cx, g1. split; auto. split; auto. destruct O as (O1 & O2 & _). split; auto.
    + right. rewrite T. split; [eexists; exact L|]. intros r. discriminate.
  - intros n x cx g l In1 _ _ Gi Gr. cbn [sample ments].
    destruct (sample_ok C M Mok Env (visit_c n) g In1 Gr) as (o & g1 & E & Io & St). rewrite E. cbn [bind]. eauto 10.
  - intros n x kids cx b l a l' In1 P K _ _ _ _. cbn [back_d ments]. apply soft_backup_total; auto. now apply pr_total.
  - intros n x kids cx b In1 P K _. cbn [back_c ments]. eauto.
Qed.

Notation db := (dbments aeqb C M).
Lemma db_drawn : drawn db (db_d aeqb C M) (db_c aeqb C M) (db_x aeqb C M).
Proof using aeqb_ok Env Pr.
  constructor.
  - intros n x kids cx. exists (action_distr aeqb C M n (ments_q aeqb M n (fst x) (ontoc fst kids))), (fun _ _ => cx). intros g. cbn [select dbments]. unfold ments_select.
    destruct (action_distr aeqb C M n (ments_q aeqb M n (fst x) (ontoc fst kids))); reflexivity.
  - reflexivity.
  - intros n x kids cx l In1 [Hv _] K _ _.
    destruct (q_policy n (ments_q aeqb M (visit_d n) (fst (vis_d db (is_leaf C n) x)) (ontoc fst kids)) In1 Hv) as (b & m & E & P).
    { intros a Ia. apply (ments_q_total aeqb aeqb_ok C); auto. now apply pr_total. }
    exists b, m, (fun _ => cx). split; auto. intros g. cbn [select dbments]. unfold ments_select. rewrite E. reflexivity.
Qed.

Notation es := (est aeqb C M).
Lemma es_drawn : drawn es (es_d aeqb C M) (es_c aeqb C M) (es_x aeqb C M).
Proof using aeqb_ok Env Pr.
  constructor.
  - intros n x kids cx. exists (action_distr aeqb C M n (est_q aeqb M n (d_off x) kids)), (fun _ _ => cx). intros g. cbn [select est]. unfold est_select.
    destruct (action_distr aeqb C M n (est_q aeqb M n (d_off x) kids)); reflexivity.
  - reflexivity.
  - intros n x kids cx l In1 [Hv _] K _ _.
    destruct (q_policy n (est_q aeqb M (visit_d n) (d_off (vis_d es (is_leaf C n) x)) kids) In1 Hv) as (b & m & E & P).
    { intros a Ia. now apply (est_q_total aeqb aeqb_ok C M Pr). }
    exists b, m, (fun _ => cx). split; auto. intros g. cbn [select est]. unfold est_select. rewrite E. reflexivity.
Qed.

Notation de := (dents aeqb C M).
Lemma de_drawn : drawn de (de_d aeqb C M N) (de_c aeqb C M N) (de_x aeqb C M).
Proof using aeqb_ok Env Pr.
  constructor.
  - intros n x kids cx. exists (dents_distr aeqb C M n (d_off x) kids), (fun _ _ => cx). intros g. cbn [select dents]. unfold dents_select.
    destruct (dents_distr aeqb C M n (d_off x) kids); reflexivity.
  - reflexivity.
  - intros n x kids cx l In1 [P0 _] [ND K] _ _.
    assert (Cl : forall a c y, In (a, (c, y)) kids -> exists h, ec_sub (dc_ent y) = Some h).
    { intros a c y Q. destruct (K _ _ _ Q) as (_ & (_ & _ & h & E & _) & _). eauto. }
    destruct (q_policy n (clean (dents_q aeqb M (visit_d n) (d_off (vis_d de (is_leaf C n) x)) kids)) In1) as (b & m & E & P).
    { destruct P0 as ((P & _) & _). exact P. } { intros a Ia. apply (clean_total aeqb aeqb_ok C M Pr (visit_d n)); auto. }
    exists b, m, (fun _ => cx). split; auto. intros g. cbn [select dents]. unfold dents_select.
    rewrite dents_distr_eq by (intros a; now apply dents_q_total). rewrite E. reflexivity.
Qed.

Notation ra := (rents aeqb C M).
Lemma ra_drawn : drawn ra (rd_ok aeqb C M) top (rx_ok aeqb C M).
Proof using aeqb_ok Mok Env Pr Ex.
  constructor.
  - intros n x kids cx. exists (rents_distr aeqb C M n x kids cx),
      (fun d _ => match d with Some m => mput Z.eqb cx (ddepth n) m | None => cx end). intros g. reflexivity.
  - reflexivity.
  - intros n x kids cx l In1 Hv K Px Ed.
    destruct (rents_policy aeqb aeqb_ok C M Env Pr (visit_d n) (vis_d ra (is_leaf C n) x) kids l cx) as (b & m & Em & Pm); auto.
    { left. unfold rd_ok in Hv. cbn [visit_d dvisits]. lia. } { apply Env, In1. }
    exists b, m, (fun _ => mput Z.eqb cx (ddepth (visit_d n)) m). split; auto. intros g. cbn [select rents]. unfold rents_select. rewrite Em. reflexivity.
Qed.

Notation ta := (tents aeqb C M).
Lemma ta_drawn : drawn ta (td_ok aeqb C M) top (tx_ok aeqb C M).
Proof using aeqb_ok Mok Env Pr Ex.
  constructor.
  - intros n x kids cx. exists (bind (tents_weights aeqb C M n x kids) (fun '(w, sum) => mix aeqb C M n w sum)),
      (fun _ a => mput Z.eqb cx (ddepth n) a). intros g. cbn [select tents]. unfold tents_select.
    destruct (tents_weights aeqb C M n x kids) as [[w sum]| |]; reflexivity.
  - reflexivity.
  - intros n x kids cx l In1 (Hv & Mo & _) K Px Ed.
    destruct (tents_policy aeqb aeqb_ok C M Env Pr (visit_d n) (vis_d ta (is_leaf C n) x) kids) as (w & sum & b & m & E1 & E2 & Pm); auto.
    { left. cbn [visit_d dvisits]. lia. } { apply Env, In1. } { cbn [vis_d tents]. destruct Mo as [K1 K2 K3 K4]. now constructor. }
    exists b, m, (fun a => mput Z.eqb cx (ddepth (visit_d n)) a). split; auto. intros g. cbn [select tents]. unfold tents_select.
    rewrite E1. cbn [bind]. rewrite E2. reflexivity.
Qed.
End Family.
