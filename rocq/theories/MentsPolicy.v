(** Backups, search policies and recommendations of single nodes. *)
From Coq Require Import List ZArith Bool Reals Lia Lra Permutation.
From Verif Require Import Base BaseProofs NumOps RLemmas HelperModel HelperSpec HelperProofs EngineModel EngineSpec EngineProofs
  MapModel MapProofs PickSpec PickProofs AlgoModel UctModel MentsModel SoftSpec SoftProofs MentsSpec MentsProofs.
Import ListNotations.
Open Scope R_scope.

Section Policy.
Context {S A : Type}.
Variable aeqb : A -> A -> bool.
Hypothesis aeqb_ok : decides aeqb.
Variable C : @econf S A.
Variable M : @mconf S A.
Notation dnode := (@dnode S A).
Notation cnode := (@cnode S A).

Lemma seen_seen : forall n v, seen M n (seen M n v) = v.
Proof. intros n v. unfold seen. destruct (opponent M n); lra. Qed.

(** ** Soft values *)
Lemma soft_backup : forall n x (kids : list (A * (cnode * cmem))) x', 0 < ments_temp M n ->
  NoDup (acts C (dstate n)) -> acts C (dstate n) <> [] -> ments_backup_d aeqb C M n x kids = Ok x' ->
  exists q : A -> R, (forall a, In a (acts C (dstate n)) -> q_of M c_soft n (m_off x) kids a (q a)) /\
    m_soft x' = seen M n (soft_max (ments_temp M n) (map q (acts C (dstate n)))) /\
    m_nb x' = (m_nb x + 1)%Z /\ m_off x' = m_off x.
Proof using aeqb_ok.
  intros n x kids x' Ht ND NE H. unfold ments_backup_d in H.
  destruct (all_q (ments_q aeqb M n x kids) (acts C (dstate n))) as [qs| |] eqn:E; try discriminate.
  destruct (all_q_fun aeqb aeqb_ok _ _ _ ND E) as [Eq Hq]. destruct (all_q_spec _ _ _ E) as [Ek _].
  cbn [bind] in H. rewrite (ments_weights_eq aeqb aeqb_ok) in H by (auto; now rewrite Ek). injection H as <-.
  assert (NQ : qs <> []) by (intros ->; apply NE; now rewrite <- Ek).
  exists (valf aeqb qs). split; [intros a Ia; now apply (ments_q_spec aeqb aeqb_ok), Hq|]. split; [|auto].
  cbn [m_soft]. rewrite soft_value_eq by auto. f_equal. f_equal. rewrite Eq at 1. rewrite map_map. reflexivity.
Qed.
Lemma soft_backup_total : forall n x (kids : list (A * (cnode * cmem))), prior_total C M n ->
  exists x', ments_backup_d aeqb C M n x kids = Ok x'.
Proof using aeqb_ok.
  intros n x kids Hp. unfold ments_backup_d.
  destruct (all_q_ex (ments_q aeqb M n x kids) (acts C (dstate n))) as (qs & ->); [intros; now apply (ments_q_total aeqb aeqb_ok C)|].
  cbn [bind]. destruct (ments_weights aeqb (ments_temp M n) qs) as [[w s] k]. eauto.
Qed.
Lemma soft_band : forall t (q : A -> R) l, 0 < t -> l <> [] ->
  (forall a, In a l -> q a <= soft_max t (map q l)) /\
  exists a, In a l /\ soft_max t (map q l) <= q a + t * ln (INR (length l)).
Proof.
  intros t q l Ht NE. split.
  - intros a Ia. apply soft_max_ge; auto. now apply in_map.
  - assert (X : exists a, In a l /\ forall b, In b l -> q b <= q a).
    { clear - NE. induction l as [|a l IH]; [congruence|]. destruct l as [|b l].
      - exists a. split; [now left|]. intros c [->|[]]. lra.
      - destruct IH as (m & Im & Hm); [discriminate|]. destruct (Rle_dec (q a) (q m)) as [L|L].
        + exists m. split; [now right|]. intros c [<-|Q]; auto.
        + exists a. split; [now left|]. intros c [->|Q]; [lra|]. specialize (Hm c Q). lra. }
    destruct X as (a & Ia & Ha). exists a. split; auto. rewrite <- (map_length q l). apply soft_max_le; auto.
    + destruct l; [congruence|discriminate].
    + intros v Q. apply in_map_iff in Q. destruct Q as (b & <- & Q). auto.
Qed.
Lemma weights_unit : forall temp (qs : list (A * R)) w sum norm, NoDup (map fst qs) ->
  ments_weights aeqb temp qs = (w, sum, norm) ->
  map fst w = map fst qs /\ sum = total w /\
  (forall a p, In (a, p) w -> 0 < p <= 1) /\
  ((exists a q, In (a, q) qs /\ dbl_lowest <= q / temp) -> exists a, In (a, 1) w).
Proof using aeqb_ok.
  intros temp qs w sum norm ND H. rewrite (ments_weights_eq aeqb aeqb_ok) in H by auto. injection H as <- <- <-.
  split; [now rewrite map_map|]. split; [rewrite total_rsum, rsum_of_map; reflexivity|]. split.
  - intros a p Q. apply in_map_iff in Q. destruct Q as ([b q] & [= <- <-] & Q). cbn [snd]. split; [apply exp_pos|].
    pose proof (norm_term_ge temp qs _ _ Q) as L. rewrite <- exp_0.
    destruct L as [L|L]; [left; apply exp_increasing; lra|]. right. f_equal. lra.
  - intros Q. destruct (norm_term_max temp qs Q) as (a & q & Ia & E). exists a. apply in_map_iff. exists (a, q).
    split; auto. cbn. rewrite E, Rminus_eq_0, exp_0. reflexivity.
Qed.

(** ** Search policies *)
Lemma boltzmann_sum : forall t (q : A -> R) l, l <> [] -> rsum_of (boltzmann t q l) l = 1.
Proof.
  intros t q l NE. unfold boltzmann.
  assert (P : 0 < rsum_of (fun b => exp (q b / t)) l).
  { rewrite <- (rsum_of_map _ _ (fun v => exp (v / t)) q). apply sum_exp_pos. destruct l; [congruence|discriminate]. }
  rewrite (rsum_of_ext _ _ (fun a => / rsum_of (fun b => exp (q b / t)) l * exp (q a / t))) by (intros; unfold Rdiv; lra).
  rewrite rsum_of_scale. field. lra.
Qed.
Lemma boltzmann_pos : forall t (q : A -> R) l a, l <> [] -> 0 < boltzmann t q l a.
Proof.
  intros t q l a NE. unfold boltzmann. apply Rdiv_lt_0_compat; [apply exp_pos|].
  rewrite <- (rsum_of_map _ _ (fun v => exp (v / t)) q). apply sum_exp_pos. destruct l; [congruence|discriminate].
Qed.
Lemma boltzmann_mono : forall t (q : A -> R) l a b, 0 < t -> l <> [] ->
  (q a < q b -> boltzmann t q l a < boltzmann t q l b) /\ (q a = q b -> boltzmann t q l a = boltzmann t q l b).
Proof.
  intros t q l a b Ht NE. unfold boltzmann. split.
  - intros L. apply Rdiv_lt.
    + rewrite <- (rsum_of_map _ _ (fun v => exp (v / t)) q). apply sum_exp_pos. destruct l; [congruence|discriminate].
    + apply exp_increasing. now apply Rdiv_lt.
  - intros ->. reflexivity.
Qed.
(** Lower bound from the range of the values. *)
Lemma boltzmann_low : forall t (q : A -> R) l a r, 0 < t -> In a l -> (forall b, In b l -> q b - q a <= r) ->
  exp (- (r / t)) / INR (length l) <= boltzmann t q l a.
Proof.
  intros t q l a r Ht Ia H. unfold boltzmann.
  assert (Ln : 0 < INR (length l)) by (apply lt_0_INR; destruct l; [destruct Ia|cbn; lia]).
  assert (P : 0 < rsum_of (fun b => exp (q b / t)) l).
  { rewrite <- (rsum_of_map _ _ (fun v => exp (v / t)) q). apply sum_exp_pos. destruct l; [destruct Ia|discriminate]. }
  assert (U : rsum_of (fun b => exp (q b / t)) l <= INR (length l) * (exp (q a / t) * exp (r / t))).
  { rewrite <- rsum_of_const. apply rsum_of_le. intros b Ib. rewrite <- exp_plus. specialize (H b Ib).
    assert (q b / t <= q a / t + r / t).
    { replace (q a / t + r / t) with ((q a + r) / t) by (field; lra). apply Rdiv_le; auto. lra. }
    destruct H0 as [H0|H0]; [left; now apply exp_increasing|rewrite H0; lra]. }
  rewrite exp_Ropp. pose proof (exp_pos (r / t)). pose proof (exp_pos (q a / t)).
  apply Rmult_le_reg_r with (rsum_of (fun b => exp (q b / t)) l); auto.
  replace (exp (q a / t) / rsum_of (fun b => exp (q b / t)) l * rsum_of (fun b => exp (q b / t)) l)
    with (exp (q a / t)) by (field; lra).
  apply Rle_trans with (/ exp (r / t) / INR (length l) * (INR (length l) * (exp (q a / t) * exp (r / t)))).
  - apply Rmult_le_compat_l; auto. unfold Rdiv. apply Rmult_le_pos; left; now apply Rinv_0_lt_compat.
  - right. field. lra.
Qed.

(** Policies from Boltzmann weights over values [q]. *)
Lemma distr_of_q : forall n (qf : A -> outcome R) qs, rate_known M n -> prior_total C M n -> prior_there M n ->
  NoDup (acts C (dstate n)) -> acts C (dstate n) <> [] ->
  all_q qf (acts C (dstate n)) = Ok qs ->
  exists m, (let '(w, sum, _) := ments_weights aeqb (ments_temp M n) qs in mix aeqb C M n w sum) = Ok (Some m) /\
    holds_from ments_eps (mixture aeqb C M n (boltzmann (ments_temp M n) (valf aeqb qs) (acts C (dstate n)))) (acts C (dstate n)) m.
Proof using aeqb_ok.
  intros n qf qs Hv Hp Ht ND NE E.
  destruct (all_q_fun aeqb aeqb_ok _ _ _ ND E) as [Eq Hq]. destruct (all_q_spec _ _ _ E) as [Ek _].
  rewrite (ments_weights_eq aeqb aeqb_ok) by (auto; now rewrite Ek). set (t := ments_temp M n). set (k := norm_term t qs).
  set (w := map (fun p : A * R => (fst p, exp (snd p / t - k))) qs). set (sum := rsum_of (fun p : A * R => exp (snd p / t - k)) qs).
  assert (Kw : map fst w = acts C (dstate n)) by (unfold w; rewrite map_map; cbn; exact Ek).
  destruct (mix_spec aeqb aeqb_ok C M n w sum) as (m & Em & H); auto.
  - now rewrite Kw.
  - intros a. now rewrite Kw.
  - exists m. split; auto. destruct H as [H1 H2]. split; auto. intros a p. rewrite H2.
    assert (B : In a (acts C (dstate n)) -> valf aeqb w a / sum = boltzmann t (valf aeqb qs) (acts C (dstate n)) a).
    { intros Ia. assert (Vw : valf aeqb w a = exp (- k) * exp (valf aeqb qs a / t)).
      { unfold valf at 1. assert (Q : In (a, exp (valf aeqb qs a / t - k)) w).
        { unfold w. apply in_map_iff. exists (a, valf aeqb qs a). split; auto. rewrite Eq. apply in_map_iff. exists a.
          split; auto. rewrite <- Eq. reflexivity. }
        apply (in_lookup aeqb aeqb_ok) in Q; [|now rewrite Kw]. rewrite Q. rewrite <- exp_plus. f_equal. lra. }
      assert (Vs : sum = exp (- k) * rsum_of (fun b => exp (valf aeqb qs b / t)) (acts C (dstate n))).
      { unfold sum. rewrite Eq at 1. rewrite rsum_of_map. cbn [snd]. rewrite <- rsum_of_scale. apply rsum_of_ext. intros b _.
        rewrite <- exp_plus. f_equal. lra. }
      unfold boltzmann. rewrite Vw, Vs. field.
      assert (0 < rsum_of (fun b => exp (valf aeqb qs b / t)) (acts C (dstate n))).
      { rewrite <- (rsum_of_map _ _ (fun v => exp (v / t)) (valf aeqb qs)). apply sum_exp_pos.
        destruct (acts C (dstate n)); [congruence|discriminate]. }
      pose proof (exp_pos (- k)). split; lra. }
    unfold mixture. split; intros (Q1 & -> & Q3); repeat split; auto; try rewrite (B Q1) in *; auto.
Qed.

Lemma action_distr_ok : forall n (qf : A -> outcome R), rate_known M n -> prior_total C M n -> prior_there M n ->
  NoDup (acts C (dstate n)) -> acts C (dstate n) <> [] -> (forall a, In a (acts C (dstate n)) -> exists v, qf a = Ok v) ->
  exists q m, (forall a, In a (acts C (dstate n)) -> qf a = Ok (q a)) /\ action_distr aeqb C M n qf = Ok (Some m) /\
    holds_from ments_eps (mixture aeqb C M n (boltzmann (ments_temp M n) q (acts C (dstate n)))) (acts C (dstate n)) m.
Proof using aeqb_ok.
  intros n qf Hv Hp Ht ND NE Hq. destruct (all_q_ex _ _ Hq) as (qs & E).
  destruct (distr_of_q n qf qs Hv Hp Ht ND NE E) as (m & Em & H).
  exists (valf aeqb qs), m. split; [now apply (all_q_fun aeqb aeqb_ok _ _ _ ND E)|]. split; auto.
  unfold action_distr. rewrite E. exact Em.
Qed.

(** Rates *)
Lemma explore_rate_range : forall n, (0 <= dvisits n)%Z -> explore_ok M -> 0 <= explore_rate M n <= mmax_explore M.
Proof.
  intros n Hv [He Hm]. unfold explore_rate. destruct (Z.eq_dec (dvisits n) 0); [lra|].
  assert (V : 0 < ln (IZR (dvisits n) + 1)).
  { rewrite <- ln_1. apply ln_increasing; [lra|]. assert (1 <= dvisits n)%Z by lia. apply IZR_le in H. lra. }
  assert (E : 0 <= node_eps M n) by (unfold node_eps; destruct (Z.eq_dec _ _); [destruct (Rlt_dec _ _)|]; lra).
  split; [|apply Rmin_l]. apply Rmin_glb; [lra|]. apply Rmult_le_pos; auto. left. now apply Rinv_0_lt_compat.
Qed.
Lemma prior_rate_range : forall n, (0 <= dvisits n)%Z -> mprior_w M <= ln (IZR (dvisits n) + 3) -> 0 <= prior_rate M n <= 1.
Proof.
  intros n Hv Hw. assert (V : 0 < ln (IZR (dvisits n) + 3)).
  { rewrite <- ln_1. apply ln_increasing; [lra|]. apply IZR_le in Hv. lra. }
  unfold prior_rate. destruct (Rlt_dec 0 (mprior_w M)); [|lra]. split.
  - apply Rmult_le_pos; [lra|]. left. now apply Rinv_0_lt_compat.
  - apply Rmult_le_reg_r with (ln (IZR (dvisits n) + 3)); auto. unfold Rdiv. rewrite Rmult_assoc, Rinv_l, Rmult_1_l; lra.
Qed.

Hypothesis order_ok : forall V (m : list (A * V)), Permutation m (morder M V m).

(** Sampling a policy whose entries below EPS were dropped. *)
Lemma sample_policy : forall (f : A -> R) l m g, NoDup l -> (forall a, In a l -> 0 <= f a) -> rsum_of f l = 1 ->
  holds_from ments_eps f l m -> good_reals g ->
  1 - INR (length l) * ments_eps <= total m <= 1 /\
  (gr g (nr g) < total m -> exists a g', sample_actions M (Some m) g = Ok (a, g') /\ one_real g g' /\ In a l /\
     ments_eps <= f a /\ forall b, b = a <-> owns (morder M R m) 1 (gr g (nr g)) b) /\
  (total m <= gr g (nr g) -> sample_actions M (Some m) g = Throw).
Proof using aeqb_ok order_ok.
  intros f l m g ND Hf S1 H Hg. pose proof (kept_bounds aeqb aeqb_ok f l m ND Hf S1 H) as Kb. split; auto.
  pose proof ments_eps_pos as Ep.
  assert (PW : positive_weights m) by (intros a w Q; apply H in Q; lra).
  destruct (sample_actions_spec M order_ok m g Hg PW (proj2 Kb)) as [S2 S3]. split; auto.
  intros L. destruct (S2 L) as (a & g' & E & O & Ia & Q). exists a, g'. split; auto. split; auto.
  apply in_map_iff in Ia. destruct Ia as ([a' p] & <- & Ia). apply H in Ia. cbn. destruct Ia as (I1 & -> & I3). auto.
Qed.

(** ** Recommendations *)
Lemma max_picks : forall (m : list (A * R)), NoDup (map fst m) -> (exists a v, In (a, v) m /\ dbl_lowest <= v) ->
  picks (fun g : rng R => get_max_key Rltb dbl_lowest (morder M R m) g)
        (fun a => exists v, In (a, v) m /\ forall b w, In (b, w) m -> w <= v).
Proof using order_ok.
  intros m ND (a0 & v0 & I0 & L0). pose proof (order_ok R m) as P.
  eapply picks_ext; [reflexivity| |apply (pick_max A R R Rltb dbl_lowest (morder M R m))].
  - intros a. unfold maximal. split.
    + intros (v & Q & H). exists v. split; [eapply Permutation_in; [apply Permutation_sym|]; eauto|].
      intros b w Q'. specialize (H b w). apply Rltb_false. apply H. eapply Permutation_in; eauto.
    + intros (v & Q & H). exists v. split; [eapply Permutation_in; eauto|]. intros b w Q'. apply Rltb_false. apply (H b w).
      eapply Permutation_in; [apply Permutation_sym|]; eauto.
  - apply strict_total_R.
  - eapply perm_nodup_keys; eauto.
  - exists a0, v0. split; [eapply Permutation_in; eauto|]. apply Rltb_false. lra.
Qed.
End Policy.
