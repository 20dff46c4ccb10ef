(** Invariants of MENTS searches. *)
From Coq Require Import List ZArith Bool Reals Lia Lra Permutation.
From Verif Require Import Base BaseProofs NumOps RLemmas HelperModel HelperSpec HelperProofs EngineModel EngineSpec EngineProofs
  EngineInv MapModel MapProofs PickSpec PickProofs AlgoModel AlgoProofs AlgoNodes AlgoSafe UctModel MentsModel SoftSpec SoftProofs
  MentsSpec MentsProofs MentsPolicy.
Import ListNotations.
Open Scope R_scope.

Lemma ln_10_lt_4 : ln 10 < 4.
Proof.
  rewrite <- (ln_exp 4). apply ln_increasing; [lra|].
  assert (E : 2 < exp 1) by (pose proof (exp_ineq1 1); lra).
  replace 4 with (1 + 1 + 1 + 1) by lra. rewrite !exp_plus. set (e := exp 1) in *.
  assert (4 < e * e) by nra. assert (16 < e * e * e * e) by nra. lra.
Qed.
Lemma ln_1e32 : 0 < ln (IZR (10 ^ 32)) < 128.
Proof.
  assert (E : forall n, ln (IZR (10 ^ Z.of_nat n)) = INR n * ln 10).
  { induction n as [|n IH]; [cbn; rewrite ln_1; lra|].
    replace (Z.of_nat (Datatypes.S n)) with (Z.of_nat n + 1)%Z by lia. rewrite Z.pow_add_r, mult_IZR, ln_mult by
      (lia || apply IZR_lt, Z.pow_pos_nonneg; lia).
    rewrite IH, S_INR. change (10 ^ 1)%Z with 10%Z. lra. }
  specialize (E 32%nat). change (10 ^ Z.of_nat 32)%Z with (10 ^ 32)%Z in E. rewrite E. pose proof ln_10_lt_4.
  assert (0 < ln 10) by (rewrite <- ln_1; apply ln_increasing; lra). cbn [INR]. lra.
Qed.
Lemma log_weight_abs : forall w, Rabs (log_weight w) <= 128.
Proof.
  intros w. unfold log_weight. pose proof ln_1e32 as L. apply Rabs_le.
  destruct (Rleb log_max_arg w) eqn:E1; [lra|]. destruct (Rltb log_min_arg w) eqn:E2; [|lra].
  apply Rleb_false in E1. apply Rltb_true in E2. unfold log_max_arg, log_min_arg in *.
  assert (P : 0 < IZR (10 ^ 32)) by (apply IZR_lt; reflexivity). set (h := IZR (10 ^ 32)) in *.
  assert (P1 : 0 < 1 / h) by (apply Rdiv_lt_0_compat; lra).
  apply ln_increasing in E1; [|lra]. apply ln_increasing in E2; auto. rewrite ln_quot, ln_1 in E2 by lra. lra.
Qed.

Section Run.
Context {S A : Type}.
Variable seqb : S -> S -> bool.
Variable aeqb : A -> A -> bool.
Hypothesis seqb_ok : decides seqb.
Hypothesis aeqb_ok : decides aeqb.
Variable C : @econf S A.
Variable M : @mconf S A.
Notation dnode := (@dnode S A).
Notation cnode := (@cnode S A).

(** ** Facts from the settings *)
Definition temp_max : R := Rmax (mtemp M) (mmin_temp M).
Definition temp_min : R := match mdecay M with None => mtemp M | Some _ => mmin_temp M end.
Lemma temp_bounds : temps_ok M -> forall n, (0 <= dvisits n)%Z ->
  0 < temp_min /\ temp_min <= ments_temp M n <= temp_max.
Proof.
  intros [T0 T1] n Hv. unfold temp_min, ments_temp, temp_max. destruct (mdecay M) as [f|].
  - destruct (T1 f eq_refl) as (D & Mi & Sc). split; auto. apply decayed_bounds; auto; [lra|].
    destruct (is_root n && Rltb 0 (mroot_scale M)) eqn:E; [|lra]. apply andb_prop in E. destruct E as [_ E]. apply Rltb_true in E. lra.
  - split; auto. split; [lra|]. apply Rmax_l.
Qed.

Lemma mean_log_abs : forall (l : list (A * R)), Rabs (mean_log_weight l) <= 128.
Proof.
  intros l. unfold mean_log_weight. cbv zeta.
  assert (H : forall l m, Rabs m <= 128 -> Rabs (fold_left (fun mean (p : A * R) => mean * ((1 - 1) / 1) + log_weight (snd p) / 1) l m) <= 128).
  { induction l0 as [|p l0 IH]; intros m Hm; cbn [fold_left]; auto. apply IH.
    replace (m * ((1 - 1) / 1) + log_weight (snd p) / 1) with (log_weight (snd p)) by field. apply log_weight_abs. }
  apply H. rewrite Rabs_R0. lra.
Qed.

Section PriorPolicy.
Hypothesis PP : prior_policy C M.
Lemma pp_total : forall n, prior_total C M n.
Proof using PP.
  intros n p Ep. destruct (PP p Ep (dstate n)) as (N & K & _). split; auto. intros a Q. now apply K.
Qed.
Lemma pp_prob : forall n a, 0 <= prior_prob aeqb M n a.
Proof using aeqb_ok PP.
  intros n a. unfold prior_prob. destruct (mprior M) as [p|] eqn:E; [|lra].
  destruct (lookup aeqb a (p (dstate n))) as [w|] eqn:L; [|lra]. apply lookup_in in L; auto.
  destruct (PP p E (dstate n)) as (_ & _ & H & _). exact (H _ _ L).
Qed.
Lemma pp_sum : forall n, prior_there M n -> NoDup (acts C (dstate n)) ->
  prior_rate M n = 0 \/ rsum_of (prior_prob aeqb M n) (acts C (dstate n)) = 1.
Proof using aeqb_ok PP.
  intros n Th ND. unfold prior_rate. destruct (Rlt_dec 0 (mprior_w M)) as [L|]; auto. right.
  destruct (mprior M) as [p|] eqn:E; [|elim (Th L); exact E]. destruct (PP p E (dstate n)) as (N & K & _ & T).
  assert (P : Permutation (acts C (dstate n)) (map fst (p (dstate n)))).
  { apply NoDup_Permutation; auto. intros a. symmetry. apply K. }
  rewrite (rsum_of_perm _ _ _ _ P), rsum_of_map, <- T, total_rsum. apply rsum_of_ext. intros [a w] Q.
  unfold prior_prob. rewrite E. cbn [fst snd]. apply (in_lookup aeqb aeqb_ok) in Q; auto. now rewrite Q.
Qed.
End PriorPolicy.

Section Prior.
Hypothesis Pr : prior_ok C M.
Lemma pr_total : forall n, prior_total C M n.
Proof using Pr. exact (pp_total (proj1 Pr)). Qed.
Lemma pr_there : forall n, prior_there M n.
Proof using Pr. intros n H. destruct (proj2 Pr) as [Q|[Q _]]; [lra|auto]. Qed.
Lemma pr_rate : forall n, (0 <= dvisits n)%Z -> 0 <= prior_rate M n <= 1.
Proof using Pr.
  intros n Hv. destruct (proj2 Pr) as [Q|[_ Q]].
  - unfold prior_rate. destruct (Rlt_dec 0 (mprior_w M)); lra.
  - apply prior_rate_range; auto. apply Rle_trans with (ln 3); auto. apply IZR_le in Hv.
    destruct (Req_dec (IZR (dvisits n) + 3) 3) as [->|]; [lra|]. left. apply ln_increasing; lra.
Qed.
Lemma pr_prob : forall n a, 0 <= prior_prob aeqb M n a.
Proof using aeqb_ok Pr. exact (pp_prob (proj1 Pr)). Qed.
Lemma pr_sum : forall n, NoDup (acts C (dstate n)) ->
  prior_rate M n = 0 \/ rsum_of (prior_prob aeqb M n) (acts C (dstate n)) = 1.
Proof using aeqb_ok Pr. intros n. apply (pp_sum (proj1 Pr)), pr_there. Qed.

Hypothesis Ex : explore_ok M.
Hypothesis Env : env_ok C M.
Lemma mixture_distr : forall n b, (0 <= dvisits n)%Z -> acts C (dstate n) <> [] ->
  (forall a, In a (acts C (dstate n)) -> 0 <= b a) -> rsum_of b (acts C (dstate n)) = 1 ->
  rsum_of (mixture aeqb C M n b) (acts C (dstate n)) = 1 /\
  forall a, In a (acts C (dstate n)) ->
    0 <= explore_rate M n / INR (length (acts C (dstate n))) <= mixture aeqb C M n b a.
Proof using aeqb_ok Pr Ex Env.
  intros n b Hv NE Hb Sb. split; [apply mixture_total; auto; apply pr_sum, Env|]. intros a Ia.
  pose proof (explore_rate_range M n Hv Ex). destruct Ex as [_ E2]. split.
  - apply Rmult_le_pos; [lra|]. left. apply Rinv_0_lt_compat, lt_0_INR. destruct (acts C (dstate n)); [congruence|cbn; lia].
  - apply mixture_low; auto; [lra|now apply pr_rate|apply pr_prob].
Qed.
End Prior.

Lemma sample_ok : ments_ok C M -> env_ok C M -> forall c g, innerc C c -> good_reals g ->
  exists o g', ments_sample M c g = Ok (o, g') /\ In o (succs C (cstate c) (cact c)) /\ same_stream g g'.
Proof.
  intros [_ Hsu] Env c g (Hs & _ & Ha & _) Hg. destruct (eo_distr _ _ Env _ _ Hs Ha) as [Hp Ht].
  assert (NE : exists m0 k0 w0, mdistr M (cstate c) (cact c) = m0 ++ [(k0, w0)] /\ 0 < w0).
  { destruct (mdistr M (cstate c) (cact c)) as [|p0 m0 _] eqn:E using rev_ind; [cbn in Ht; lra|].
    destruct p0 as [k0 w0]. exists m0, k0, w0. split; auto. apply (Hp k0 w0). apply in_or_app. right. now left. }
  destruct (sample_normalised _ (mdistr M (cstate c) (cact c)) g) as (k & g' & E & O & Q); auto.
  { now apply positive_nonneg. }
  exists k, g'. split; [exact E|]. split.
  - rewrite Hsu. destruct (proj1 (Q k) eq_refl) as (m1 & w & m2 & -> & _). rewrite map_app. apply in_or_app. right. now left.
  - destruct O as (O1 & O2 & _). split; auto.
Qed.

(** ** Selecting from a policy *)

(** The policy of a node with weights [b], kept in [m]. *)
Definition policy_of (n : dnode) (b : A -> R) (m : list (A * R)) : Prop :=
  (forall a, In a (acts C (dstate n)) -> 0 <= b a) /\ rsum_of b (acts C (dstate n)) = 1 /\
  holds_from ments_eps (mixture aeqb C M n b) (acts C (dstate n)) m.
(** The draw falls on the probability that was lost with the actions below EPS. *)
Definition lost_draw (n : dnode) (d : outcome (option (list (A * R)))) (g : rng R) : Prop :=
  exists b m, d = Ok (Some m) /\ policy_of n b m /\ total m <= gr g (nr g).

Section Policy.
Hypothesis Mok : ments_ok C M.
Hypothesis Pr : prior_ok C M.
Hypothesis Ex : explore_ok M.
Hypothesis Env : env_ok C M.

Lemma policy_select : forall n b m g, (0 <= dvisits n)%Z -> acts C (dstate n) <> [] -> policy_of n b m -> good_reals g ->
  (exists a g', sample_actions M (Some m) g = Ok (a, g') /\ one_real g g' /\ In a (acts C (dstate n)) /\
     ments_eps <= mixture aeqb C M n b a /\ forall c, c = a <-> owns (morder M R m) 1 (gr g (nr g)) c) \/
  (total m <= gr g (nr g) /\ sample_actions M (Some m) g = Throw).
Proof using aeqb_ok Mok Pr Ex Env.
  intros n b m g Hv NE (P1 & P2 & P3) Hg. destruct (mixture_distr Pr Ex Env n b Hv NE P1 P2) as [S1 S2].
  destruct (sample_policy aeqb aeqb_ok M (proj1 Mok) (mixture aeqb C M n b) (acts C (dstate n)) m g) as (_ & K1 & K2); auto.
  - apply Env.
  - intros a Q. specialize (S2 a Q). lra.
  - destruct (Rlt_le_dec (gr g (nr g)) (total m)) as [L|L]; auto.
Qed.
(** What it takes to lose a draw. *)
Lemma lost_needs : forall n d g, (0 <= dvisits n)%Z -> acts C (dstate n) <> [] -> good_reals g -> lost_draw n d g ->
  1 - INR (length (acts C (dstate n))) * ments_eps <= gr g (nr g) /\
  explore_rate M n < INR (length (acts C (dstate n))) * ments_eps.
Proof using aeqb_ok Pr Ex Env.
  intros n d g Hv NE Hg (b & m & _ & (P1 & P2 & P3) & L). destruct (mixture_distr Pr Ex Env n b Hv NE P1 P2) as [S1 S2].
  assert (ND : NoDup (acts C (dstate n))) by apply Env.
  assert (Hm : forall a, In a (acts C (dstate n)) -> 0 <= mixture aeqb C M n b a) by (intros a Q; specialize (S2 a Q); lra).
  pose proof (kept_bounds aeqb aeqb_ok _ _ m ND Hm S1 P3) as Kb. split; [lra|].
  destruct (Rlt_le_dec (explore_rate M n) (INR (length (acts C (dstate n))) * ments_eps)) as [|Le]; auto. exfalso.
  assert (Ln : 0 < INR (length (acts C (dstate n)))) by (apply lt_0_INR; destruct (acts C (dstate n)); [congruence|cbn; lia]).
  rewrite (kept_all aeqb aeqb_ok (mixture aeqb C M n b) (acts C (dstate n)) m) in L; auto.
  - specialize (Hg (nr g)). lra.
  - intros a Q. specialize (S2 a Q). apply Rle_trans with (explore_rate M n / INR (length (acts C (dstate n)))); [|lra].
    apply Rmult_le_reg_r with (INR (length (acts C (dstate n)))); auto. unfold Rdiv. rewrite Rmult_assoc, Rinv_l; lra.
Qed.
(** Weights bounded from below are enough, without a prior. *)
Lemma lost_weights : forall n d g low, (0 <= dvisits n)%Z -> acts C (dstate n) <> [] -> good_reals g ->
  prior_rate M n = 0 -> ments_eps <= low -> low <= / INR (length (acts C (dstate n))) ->
  (forall b m, d = Ok (Some m) -> policy_of n b m -> exists b', policy_of n b' m /\ forall a, In a (acts C (dstate n)) -> low <= b' a) ->
  ~ lost_draw n d g.
Proof using aeqb_ok Pr Ex Env.
  intros n d g low Hv NE Hg Hr Hl Hi Hb (b & m & Ed & P & L). destruct (Hb b m Ed P) as (b' & (P1 & P2 & P3) & Lo).
  destruct (mixture_distr Pr Ex Env n b' Hv NE P1 P2) as [S1 S2].
  assert (ND : NoDup (acts C (dstate n))) by apply Env.
  rewrite (kept_all aeqb aeqb_ok (mixture aeqb C M n b') (acts C (dstate n)) m) in L; auto.
  - specialize (Hg (nr g)). lra.
  - intros a Q. unfold mixture. rewrite Hr. specialize (Lo a Q). pose proof (explore_rate_range M n Hv Ex).
    destruct Ex as [_ E2]. unfold Rdiv. nra.
Qed.
Lemma policy_ext : forall n b b' m, (forall a, In a (acts C (dstate n)) -> b a = b' a) -> policy_of n b m -> policy_of n b' m.
Proof using Type.
  intros n b b' m E (P1 & P2 & P3 & P4). split; [intros a Q; rewrite <- E; auto|].
  split; [rewrite <- P2; symmetry; now apply rsum_of_ext|]. split; auto. intros a p. rewrite P4. unfold mixture.
  split; intros (Q & -> & L); repeat split; auto; try (rewrite (E a Q) in *; auto); try (rewrite <- (E a Q) in *; auto).
Qed.

(** Policies from values. *)
Lemma distr_policy : forall n (qf : A -> outcome R), rate_known M n -> acts C (dstate n) <> [] ->
  (forall a, In a (acts C (dstate n)) -> exists v, qf a = Ok v) ->
  exists q m, (forall a, In a (acts C (dstate n)) -> qf a = Ok (q a)) /\ action_distr aeqb C M n qf = Ok (Some m) /\
    policy_of n (boltzmann (ments_temp M n) q (acts C (dstate n))) m.
Proof using aeqb_ok Pr Env.
  intros n qf Hv NE Hq.
  destruct (action_distr_ok aeqb aeqb_ok C M n qf Hv (pr_total Pr n) (pr_there Pr n) (eo_nodup _ _ Env _) NE Hq) as (q & m & E1 & E2 & H).
  exists q, m. split; auto. split; auto. split; [|split; auto].
  - intros a _. left. now apply boltzmann_pos.
  - now apply boltzmann_sum.
Qed.
End Policy.

(** ** Values of MENTS *)
Section Values.
Hypothesis Mok : ments_ok C M.
Hypothesis Env : env_ok C M.
Hypothesis Tok : temps_ok M.
Hypothesis Pr : prior_ok C M.
Variable B N : R.
Hypothesis Vok : values_ok C M B.
Hypothesis Few : few_actions C N.

Definition slack : R := temp_max * ln N.
Definition vbound (depth : Z) : R := B + IZR (max_depth C - depth) * (B + slack).

Definition md_ok (n : dnode) (x : mmem) : Prop :=
  (0 <= dvisits n)%Z /\ (0 <= ddepth n <= max_depth C)%Z /\ (0 <= m_nb x)%Z /\
  Rabs (m_soft x) <= vbound (ddepth n) /\ (mprior M <> None -> Rabs (m_off x) <= 128 + Rabs (moffset M)).
Definition mc_ok (n : cnode) (x : cmem) : Prop :=
  (0 <= cdepth n < max_depth C)%Z /\ (0 <= c_nb x)%Z /\ Rabs (c_soft x) <= vbound (cdepth n) - slack.

Lemma B_pos : 0 <= B.
Proof using Vok. pose proof (vo_default _ _ _ Vok). pose proof (Rabs_pos (mdefault_q M)). lra. Qed.
Lemma slack_pos : 0 <= slack.
Proof using Tok Few.
  destruct Few as [L _]. unfold slack. apply Rmult_le_pos.
  - unfold temp_max. destruct Tok. apply Rle_trans with (mtemp M); [lra|apply Rmax_l].
  - rewrite <- ln_1. destruct L as [L|<-]; [left; apply ln_increasing; lra|lra].
Qed.
Lemma vbound_step : forall k, vbound k - slack = vbound (k + 1) + B.
Proof using Type. intros k. unfold vbound. rewrite !minus_IZR, plus_IZR. ring. Qed.
Lemma vbound_ge : forall k, (k <= max_depth C)%Z -> B <= vbound k.
Proof using Vok Tok Few.
  intros k H. unfold vbound. pose proof B_pos. pose proof slack_pos.
  assert (0 <= IZR (max_depth C - k)) by (apply IZR_le; lia). nra.
Qed.
Lemma vbound_mono : forall k j, (j <= k)%Z -> vbound k <= vbound j.
Proof using Vok Tok Few.
  intros k j H. unfold vbound. pose proof B_pos. pose proof slack_pos.
  assert (IZR (max_depth C - k) <= IZR (max_depth C - j)) by (apply IZR_le; lia). nra.
Qed.

Lemma heur_abs : forall s k t, Rabs (dheur (new_dnode C s k t)) <= B.
Proof using Vok.
  intros s k t. cbn. pose proof B_pos. destruct (heuristic C) as [h|] eqn:E; [|rewrite Rabs_R0; auto].
  destruct (is_sink C s); [rewrite Rabs_R0; auto|]. now apply (vo_heur _ _ _ Vok).
Qed.
Lemma md_new : forall s k t, (0 <= k <= max_depth C)%Z -> md_ok (new_dnode C s k t) (ments_new_d C M (new_dnode C s k t)).
Proof using Env Vok Tok Few.
  intros s k t Hk. unfold md_ok. cbn [dvisits ddepth new_dnode ments_new_d m_nb m_soft m_off].
  pose proof (vbound_ge k (proj2 Hk)) as L. pose proof (heur_abs s k t) as Hh. split; [cbn; apply Env|]. split; [exact Hk|]. split; [cbn; lia|].
  change (ddepth (new_dnode C s k t)) with k. split.
  - destruct (heuristic C); [eapply Rle_trans; eauto|]. rewrite Rabs_R0. pose proof B_pos. lra.
  - intros NP. destruct (mprior M) as [p|]; [|congruence]. pose proof (Rabs_pos (moffset M)). destruct (mshift M).
    + pose proof (mean_log_abs (morder M R (p s))). change (dstate (new_dnode C s k t)) with s.
      replace (moffset M - mean_log_weight (morder M R (p s))) with (moffset M + - mean_log_weight (morder M R (p s))) by ring.
      eapply Rle_trans; [apply Rabs_triang|]. rewrite Rabs_Ropp. lra.
    + rewrite Rabs_R0. lra.
Qed.
Lemma mc_new : forall n a, inner C n -> mc_ok (new_cnode (dstate n) a (ddepth n) (dtime n)) (ments_new_c M (new_cnode (dstate n) a (ddepth n) (dtime n))).
Proof using Vok Tok Few.
  intros n a (_ & Hd & _). unfold mc_ok. cbn [cdepth new_cnode ments_new_c c_nb c_soft]. split; [lia|]. split; [lia|].
  rewrite vbound_step. pose proof (vbound_ge (ddepth n + 1)). pose proof (vo_default _ _ _ Vok). pose proof B_pos.
  assert (B <= vbound (ddepth n + 1)) by (apply H; lia). lra.
Qed.
Lemma md_visit : forall n x leaf, md_ok n x -> md_ok (visit_d n) (ments_visit leaf x).
Proof using Type.
  intros n x leaf (H1 & H2 & H3 & H4 & H5). unfold md_ok, ments_visit. cbn [visit_d dvisits ddepth].
  destruct leaf; cbn [m_nb m_soft m_off]; repeat (split; [lia || auto|]); auto.
Qed.

Lemma q_abs : forall n off (kids : list (A * (cnode * cmem))) a v, inner C n ->
  (mprior M <> None -> Rabs off <= 128 + Rabs (moffset M)) ->
  (forall a c y, In (a, (c, y)) kids -> dkid C n a c /\ mc_ok c y) ->
  q_of M c_soft n off kids a v -> Rabs v <= vbound (ddepth n) - slack.
Proof using Vok Tok Few.
  intros n off kids a v (_ & Hd & _) Ho Hk Q.
  assert (BV : B <= vbound (ddepth n) - slack).
  { rewrite vbound_step. pose proof (vbound_ge (ddepth n + 1)). pose proof B_pos. assert (B <= vbound (ddepth n + 1)) by (apply H; lia). lra. }
  assert (Sn : forall w, Rabs (seen M n w) = Rabs w) by (intros w; unfold seen; destruct (opponent M n); auto; apply Rabs_Ropp).
  destruct Q as [c x I|p w _ Ep _|_ _].
  - rewrite Sn. destruct (Hk _ _ _ I) as [(_ & Ed & _) (_ & _ & H)]. now rewrite Ed in H.
  - assert (NP : mprior M <> None) by congruence. pose proof (vo_prior _ _ _ Vok NP). specialize (Ho NP).
    pose proof (log_weight_abs w). rewrite log_weight_eq in *. eapply Rle_trans; [apply Rabs_triang|]. lra.
  - rewrite Sn. pose proof (vo_default _ _ _ Vok). lra.
Qed.

Lemma Rabs_seen : forall n w, Rabs (seen M n w) = Rabs w.
Proof using Type. intros n w; unfold seen; destruct (opponent M n); auto; apply Rabs_Ropp. Qed.

Lemma soft_abs : forall n (q : A -> R) b, (0 <= dvisits n)%Z -> acts C (dstate n) <> [] -> (forall a, In a (acts C (dstate n)) -> Rabs (q a) <= b) ->
  Rabs (soft_max (ments_temp M n) (map q (acts C (dstate n)))) <= b + slack.
Proof using Tok Few.
  intros n q b Hv NE Hq. destruct (temp_bounds Tok n Hv) as (T0 & T1 & T2). destruct Few as [N1 Nf].
  destruct (soft_band (ments_temp M n) q (acts C (dstate n))) as [L (a & Ia & U)]; auto; [lra|].
  assert (Q : forall a, In a (acts C (dstate n)) -> - b <= q a <= b).
  { intros c Ic. specialize (Hq c Ic). revert Hq. unfold Rabs. destruct (Rcase_abs _); lra. }
  assert (Ln : 1 <= INR (length (acts C (dstate n)))).
  { change 1 with (INR 1). apply le_INR. destruct (acts C (dstate n)); [congruence|cbn; lia]. }
  assert (W : ments_temp M n * ln (INR (length (acts C (dstate n)))) <= slack).
  { unfold slack. specialize (Nf (dstate n)).
    assert (0 <= ln (INR (length (acts C (dstate n))))).
    { rewrite <- ln_1. destruct Ln as [Ln|<-]; [left; apply ln_increasing; lra|lra]. }
    assert (ln (INR (length (acts C (dstate n)))) <= ln N).
    { destruct Nf as [Nf|<-]; [left; apply ln_increasing; lra|lra]. }
    apply Rmult_le_compat; lra. }
  pose proof slack_pos. specialize (L a Ia). specialize (Q a Ia). apply Rabs_le. lra.
Qed.
Lemma md_backup : forall n x (kids : list (A * (cnode * cmem))) x1, inner C n -> md_ok n x ->
  (forall a c y, In (a, (c, y)) kids -> dkid C n a c /\ mc_ok c y) ->
  ments_backup_d aeqb C M n x kids = Ok x1 -> md_ok n x1.
Proof using aeqb_ok Env Vok Tok Few.
  intros n x kids x1 In1 (H1 & H2 & H3 & H4 & H5) Hk E. destruct (temp_bounds Tok n H1) as (T0 & T1 & T2).
  destruct (soft_backup aeqb aeqb_ok C M n x kids x1) as (q & Hq & Es & En & Eo); auto; try apply Env; [lra|apply In1|].
  unfold md_ok. rewrite Es, En, Eo, Rabs_seen. repeat (split; [lia || auto|]); auto.
  replace (vbound (ddepth n)) with (vbound (ddepth n) - slack + slack) by ring. apply soft_abs; auto; [apply Env, In1|].
  intros a Ia. eapply q_abs; eauto.
Qed.
Lemma mc_backup : forall n x (kids : list (S * (dnode * mmem))), innerc C n -> mc_ok n x ->
  (forall o d y, In (o, (d, y)) kids -> ckid C n o d /\ md_ok d y) -> mc_ok n (ments_backup_c M n x kids).
Proof using Vok Tok Few.
  intros n x kids (I1 & I2 & _) (H1 & H2 & H3) Hk. unfold mc_ok, ments_backup_c. cbn [c_nb c_soft]. split; auto. split; [lia|].
  rewrite vbound_step. eapply Rle_trans; [apply Rabs_triang|]. apply Rplus_le_compat; [|apply (vo_reward _ _ _ Vok)].
  apply avg_loop_abs.
  - apply Forall_forall. intros p Q. apply in_map_iff in Q. destruct Q as ([o [d y]] & <- & Q). apply (Hk _ _ _ Q).
  - pose proof B_pos. assert (B <= vbound (cdepth n + 1)) by (apply vbound_ge; lia). lra.
  - intros k v Q. apply in_map_iff in Q. destruct Q as ([o [d y]] & [= <- <-] & Q). destruct (Hk _ _ _ Q) as [(_ & Ed & _) (_ & _ & _ & L & _)].
    cbn [snd]. rewrite Ed in L. exact L.
Qed.

(** ** MENTS *)
Notation alg := (ments aeqb C M).
Definition no_ctx (l : list A) (_ : CX alg) : Prop := True.
Lemma ments_rules : node_rules C alg md_ok mc_ok no_ctx (fun _ _ => True).
Proof using aeqb_ok Env Vok Tok Few.
  constructor; try (intros; exact I).
  - apply md_new. split; [lia|apply Env].
  - intros c o (_ & H & _) _. apply md_new. lia.
  - intros n a H _. now apply mc_new.
  - intros n x H. now apply md_visit.
  - intros n x a c H. exact H.
  - intros n x H. exact H.
  - intros n x o d H. exact H.
  - intros n x kids cx b x1 l a l' H1 H2 [_ H3] _ _ _ _ E. eapply md_backup; eauto.
  - intros n x kids cx b x1 H1 H2 [_ H3] _ E. injection E as <-. split; [|exact I]. now apply mc_backup.
Qed.

Hypothesis Ex : explore_ok M.
Definition ments_bad (n : dnode) (x : mmem) (kids : list (A * (cnode * cmem))) (_ : unit) (g : rng R) : Prop :=
  lost_draw n (action_distr aeqb C M n (ments_q aeqb M n x kids)) g.

Lemma ments_select_ok : forall n x (kids : list (A * (cnode * cmem))) g, inner C n -> (1 <= dvisits n)%Z -> good_reals g ->
  (exists a g1, ments_select aeqb C M n x kids g = Ok (a, g1) /\ In a (acts C (dstate n)) /\ one_real g g1) \/
  (lost_draw n (action_distr aeqb C M n (ments_q aeqb M n x kids)) g /\ ments_select aeqb C M n x kids g = Throw).
Proof using aeqb_ok Mok Env Pr Ex.
  intros n x kids g In1 Hv Hg. assert (NE : acts C (dstate n) <> []) by apply Env, In1.
  destruct (distr_policy Pr Env n (ments_q aeqb M n x kids)) as (q & m & Hq & E & P); auto.
  { now left. }
  { intros a Ia. apply (ments_q_total aeqb aeqb_ok C); auto. now apply pr_total. }
  unfold ments_select. rewrite E. cbn [bind].
  destruct (policy_select Mok Pr Ex Env n _ m g ltac:(lia) NE P Hg) as [(a & g1 & E1 & O & Ia & _)|[L T]].
  - left. eauto.
  - right. split; auto. eexists _, m. split; [reflexivity|]. split; [exact P|auto].
Qed.
Lemma ments_safe : safe_rules C alg md_ok mc_ok no_ctx (fun _ _ => True) ments_bad.
Proof using aeqb_ok Mok Env Pr Ex.
  constructor.
  - intros n x kids cx g l In1 P K _ _ Gi Gr. cbn [select ments].
    destruct (ments_select_ok (visit_d n) (vis_d alg (is_leaf C n) x) kids g) as [(a & g1 & E & Ia & O)|[L T]]; auto.
    + destruct P as (P & _). cbn [visit_d dvisits]. lia.
    + left. rewrite E. cbn [bind]. exists a, cx, g1. split; auto. split; auto. destruct O as (O1 & O2 & _). split; auto.
    + right. rewrite T. split; [exact L|]. intros r. discriminate.
  - intros n x cx g l In1 _ _ Gi Gr. cbn [sample ments].
    destruct (sample_ok Mok Env (visit_c n) g In1 Gr) as (o & g1 & E & Io & St). rewrite E. cbn [bind]. eauto 10.
  - intros n x kids cx b l a l' In1 P K _ _ _ _. cbn [back_d ments]. apply soft_backup_total; auto. now apply pr_total.
  - intros n x kids cx b In1 P K _. cbn [back_c ments]. eauto.
Qed.

(** With values in a range the weights stay above EPS. *)
Lemma ments_q_abs : forall n x (kids : list (A * (cnode * cmem))) a v, inner C n -> md_ok n x ->
  (forall a c y, In (a, (c, y)) kids -> dkid C n a c /\ mc_ok c y) -> ments_q aeqb M n x kids a = Ok v -> Rabs v <= vbound 0.
Proof using aeqb_ok Vok Tok Few.
  intros n x kids a v In1 (H1 & H2 & H3 & H4 & H5) Hk E. apply (ments_q_spec aeqb aeqb_ok) in E.
  pose proof (q_abs n (m_off x) kids a v In1 H5 Hk E). pose proof slack_pos. pose proof (vbound_mono (ddepth n) 0 ltac:(lia)). lra.
Qed.
Definition low_weight : R := exp (- (2 * vbound 0 / temp_min)) / N.
Lemma boltzmann_floor : forall n (q : A -> R) a, (0 <= dvisits n)%Z -> In a (acts C (dstate n)) ->
  (forall b, In b (acts C (dstate n)) -> Rabs (q b) <= vbound 0) -> low_weight <= boltzmann (ments_temp M n) q (acts C (dstate n)) a.
Proof using Tok Few.
  intros n q a Hv Ia Hq. destruct (temp_bounds Tok n Hv) as (T0 & T1 & T2).
  assert (V0 : 0 <= vbound 0) by (eapply Rle_trans; [apply Rabs_pos|apply (Hq a Ia)]).
  assert (Ln : 0 < INR (length (acts C (dstate n)))) by (apply lt_0_INR; destruct (acts C (dstate n)); [destruct Ia|cbn; lia]).
  apply Rle_trans with (exp (- (2 * vbound 0 / ments_temp M n)) / INR (length (acts C (dstate n)))).
  - unfold low_weight. destruct Few as [N1 Nf]. specialize (Nf (dstate n)).
    unfold Rdiv at 1 3. apply Rmult_le_compat.
    + left. apply exp_pos.
    + left. apply Rinv_0_lt_compat. lra.
    + assert (L : - (2 * vbound 0 / temp_min) <= - (2 * vbound 0 / ments_temp M n)).
      { apply Ropp_le_contravar. unfold Rdiv. apply Rmult_le_compat_l; [lra|]. apply Rinv_le_contravar; lra. }
      destruct L as [L|L]; [left; now apply exp_increasing|right; now rewrite L].
    + apply Rinv_le_contravar; lra.
  - apply boltzmann_low; [lra|auto|]. intros b Ib. pose proof (Hq a Ia) as Qa. pose proof (Hq b Ib) as Qb.
    revert Qa Qb. unfold Rabs. destruct (Rcase_abs _), (Rcase_abs _); lra.
Qed.
Lemma low_le : forall n : dnode, (0 <= dvisits n)%Z -> acts C (dstate n) <> [] -> 0 <= vbound 0 -> low_weight <= / INR (length (acts C (dstate n))).
Proof using Tok Few.
  intros n Hv NE V0. destruct (temp_bounds Tok n Hv) as (T0 & T1 & T2). destruct Few as [N1 Nf]. specialize (Nf (dstate n)).
  assert (Ln : 0 < INR (length (acts C (dstate n)))) by (apply lt_0_INR; destruct (acts C (dstate n)); [congruence|cbn; lia]).
  unfold low_weight. replace (/ INR (length (acts C (dstate n)))) with (1 * / INR (length (acts C (dstate n)))) by ring.
  unfold Rdiv at 1. apply Rmult_le_compat.
  - left. apply exp_pos.
  - left. apply Rinv_0_lt_compat. lra.
  - rewrite <- exp_0. assert (L : - (2 * vbound 0 / temp_min) <= 0).
    { assert (0 <= 2 * vbound 0 / temp_min); [|lra]. unfold Rdiv. apply Rmult_le_pos; [lra|]. left. now apply Rinv_0_lt_compat. }
    destruct L as [L|L]; [left; now apply exp_increasing|right; now rewrite L].
  - apply Rinv_le_contravar; lra.
Qed.

Section NoPrior.
Hypothesis NoP : mprior_w M <= 0.
Hypothesis Low : ments_eps <= low_weight.
Lemma ments_not_lost : forall n x (kids : list (A * (cnode * cmem))) g, inner C n -> (1 <= dvisits n)%Z -> md_ok n x ->
  (forall a c y, In (a, (c, y)) kids -> dkid C n a c /\ mc_ok c y) -> good_reals g ->
  ~ lost_draw n (action_distr aeqb C M n (ments_q aeqb M n x kids)) g.
Proof using aeqb_ok Vok Tok Few Env Pr Ex NoP Low.
  intros n x kids g In1 Hv P Hk Hg. assert (NE : acts C (dstate n) <> []) by apply Env, In1.
  assert (V0 : 0 <= vbound 0).
  { pose proof B_pos. pose proof (vbound_ge 0 (eo_depth _ _ Env)). lra. }
  apply lost_weights with (low := low_weight); auto; [lia| | |].
  - unfold prior_rate. destruct (Rlt_dec 0 (mprior_w M)); [lra|auto].
  - apply low_le; auto. lia.
  - intros b m Ed Pb. destruct (distr_policy Pr Env n (ments_q aeqb M n x kids)) as (q & m' & Hq & E & P'); auto.
    { now left. }
    { intros a Ia. apply (ments_q_total aeqb aeqb_ok C); auto. now apply pr_total. }
    rewrite E in Ed. injection Ed as ->. exists (boltzmann (ments_temp M n) q (acts C (dstate n))). split; auto.
    intros a Ia. apply boltzmann_floor; auto; [lia|]. intros c Ic. eapply ments_q_abs; eauto.
Qed.
Lemma ments_safe_low : safe_rules C alg md_ok mc_ok no_ctx (fun _ _ => True) (fun _ _ _ _ _ => False).
Proof using aeqb_ok Mok Vok Tok Few Env Pr Ex NoP Low.
  destruct ments_safe as [S1 S2 S3 S4]. constructor; auto.
  intros n x kids cx g l In1 P K Hx Hd Gi Gr x'. destruct (S1 n x kids cx g l In1 P K Hx Hd Gi Gr) as [Q|[Q _]]; auto.
  exfalso. revert Q. apply ments_not_lost; auto.
  - destruct P as (P & _). cbn [visit_d dvisits]. lia.
  - now apply md_visit.
  - apply K.
Qed.
End NoPrior.
End Values.
End Run.
