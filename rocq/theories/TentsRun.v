(** Invariants of RENTS and TENTS searches. *)
From Coq Require Import List ZArith Bool Reals Lia Lra Sorted Permutation.
From Verif Require Import Base BaseProofs NumOps RLemmas HelperModel HelperSpec HelperProofs EngineModel EngineSpec EngineProofs
  EngineInv MapModel MapProofs AlgoModel AlgoProofs AlgoNodes AlgoSafe UctModel MentsModel SoftSpec SoftProofs
  MentsSpec MentsProofs MentsPolicy MentsRun FamilyRun TentsSpec TentsProofs.
Import ListNotations.
Open Scope R_scope.

(** ** Contexts *)
Section Context.
Context {A V : Type}.
Lemma z_decides : decides Z.eqb.
Proof. intros a b. apply Z.eqb_eq. Qed.
Lemma mat_mput : forall (cx : list (Z * V)) k v k', mat Z.eqb (mput Z.eqb cx k v) k' = if Z.eqb k k' then Ok v else mat Z.eqb cx k'.
Proof.
  intros cx k v k'. unfold mat. rewrite (lookup_mput Z.eqb z_decides). destruct (Z.eqb_spec k k') as [->|]; cbn; auto.
  all: destruct (Z.eqb_spec k' k); congruence.
Qed.
(** A new entry extends a trail. *)
Lemma trail_cons : forall (P : A -> V -> Prop) l (cx : list (Z * V)) a v,
  (forall l1 b l2, l = l1 ++ b :: l2 -> exists m, mat Z.eqb cx (Z.of_nat (length l2)) = Ok m /\ P b m) -> P a v ->
  forall l1 b l2, a :: l = l1 ++ b :: l2 -> exists m, mat Z.eqb (mput Z.eqb cx (Z.of_nat (length l)) v) (Z.of_nat (length l2)) = Ok m /\ P b m.
Proof.
  intros P l cx a v H Pv l1 b l2 E. rewrite mat_mput. destruct l1 as [|a1 l1].
  - cbn in E. injection E as <- <-. rewrite Z.eqb_refl. eauto.
  - cbn in E. injection E as <- E. rewrite E, app_length. cbn [length].
    destruct (Z.eqb_spec (Z.of_nat (length l1 + Datatypes.S (length l2))) (Z.of_nat (length l2))); [lia|]. eapply H; eauto.
Qed.
End Context.

(** What is drawn is in the map. *)
Lemma loop_in : forall T (m : list (T * R)) sumw u run k, sample_loop R_ops m sumw u run = Ok k -> exists w, In (k, w) m.
Proof.
  intros T m sumw u. induction m as [|[k0 w] m IH]; intros run k H; cbn [sample_loop] in H; [discriminate|].
  destruct (_ || _); [discriminate|]. destruct (nltb R_ops u _).
  - injection H as <-. exists w. now left.
  - destruct (IH _ _ H) as (w' & Q). exists w'. now right.
Qed.
Lemma in_sampled : forall T (m : list (T * R)) nrm g k g', sample_from_distribution R_ops m nrm g = Ok (k, g') -> exists w, In (k, w) m.
Proof.
  intros T m nrm g k g' H. unfold sample_from_distribution in H. destruct (get_rand_uniform g) as [u g2]. cbv zeta in H.
  destruct (sample_loop R_ops m _ u _) as [k'| |] eqn:E; try discriminate. cbn in H. injection H as <- <-. eapply loop_in; eauto.
Qed.
Lemma mput_same : forall K V (keqb : K -> K -> bool) (m : list (K * V)) k v, decides keqb -> In k (map fst m) -> map fst (mput keqb m k v) = map fst m.
Proof.
  intros K V keqb m k v D. induction m as [|[k0 v0] m IH]; intros H; cbn in *; [destruct H|].
  destruct (keqb k0 k) eqn:E; cbn; [apply D in E; now subst|]. f_equal. apply IH. destruct H as [->|]; auto.
  now rewrite (keqb_refl keqb D) in E.
Qed.

Section Run.
Context {S A : Type}.
Variable seqb : S -> S -> bool.
Variable aeqb : A -> A -> bool.
Hypothesis seqb_ok : decides seqb.
Hypothesis aeqb_ok : decides aeqb.
Variable C : @econf S A.
Variable M : @mconf S A.
Notation dnode := (@dnode S A).
Notation cnode := (@cnode S A).
Hypothesis Mok : ments_ok C M.
Hypothesis Env : env_ok C M.
Hypothesis Pr : prior_ok C M.
Hypothesis Ex : explore_ok M.

(** ** Policies from non-negative weights *)
Lemma weights_policy : forall n (w : list (A * R)), rate_known M n -> acts C (dstate n) <> [] -> map fst w = acts C (dstate n) ->
  (forall a, In a (acts C (dstate n)) -> 0 <= valf aeqb w a) -> 0 < rsum_of (valf aeqb w) (acts C (dstate n)) ->
  exists m, mix aeqb C M n w (rsum_of (valf aeqb w) (acts C (dstate n))) = Ok (Some m) /\
    policy_of aeqb C M n (fun a => valf aeqb w a / rsum_of (valf aeqb w) (acts C (dstate n))) m.
Proof using aeqb_ok Env Pr.
  intros n w Hr NE Ek Hw Hs. set (sum := rsum_of (valf aeqb w) (acts C (dstate n))) in *.
  destruct (mix_spec aeqb aeqb_ok C M n w sum Hr (pr_total C M Pr n) (pr_there C M Pr n)) as (m & E & H); try apply Env.
  - rewrite Ek. apply Env.
  - rewrite Ek. tauto.
  - exists m. split; auto. split; [|split; auto].
    + intros a Ia. apply Rmult_le_pos; auto. left. now apply Rinv_0_lt_compat.
    + unfold Rdiv. rewrite (rsum_of_ext _ _ (fun a => / sum * valf aeqb w a)) by (intros; lra). rewrite rsum_of_scale. fold sum. field. lra.
Qed.
(** Probabilities kept in a policy. *)
Lemma policy_range : forall n b m a p, (0 <= dvisits n)%Z -> acts C (dstate n) <> [] -> policy_of aeqb C M n b m -> In (a, p) m ->
  In a (acts C (dstate n)) /\ 0 <= p <= 1.
Proof using aeqb_ok Env Pr Ex.
  intros n b m a p Hv NE (P1 & P2 & P3) Q. destruct (mixture_distr aeqb aeqb_ok C M Pr Ex Env n b Hv NE P1 P2) as [S1 S2].
  apply P3 in Q. destruct Q as (Ia & -> & _). split; auto.
  assert (H0 : forall a, In a (acts C (dstate n)) -> 0 <= mixture aeqb C M n b a) by (intros c Ic; specialize (S2 c Ic); lra).
  split; auto. rewrite <- S1. now apply (rsum_of_mem _ (mixture aeqb C M n b)).
Qed.

(** ** RENTS *)
Notation ra := (rents aeqb C M).
Definition rd_ok (n : dnode) (_ : XD ra) : Prop := (0 <= dvisits n)%Z.
Definition rx_ok (l : list A) (cx : CX ra) : Prop :=
  rents_trail l cx /\ forall k m, mat Z.eqb cx k = Ok m -> forall a p, In (a, p) m -> 0 <= p <= 1.

Lemma parent_known : forall (n : dnode) l' l (cx : rctx), rx_ok (l' ++ l) cx -> ddepth n = Z.of_nat (length l) ->
  exists par, parent_distr n cx = Ok par /\ (forall a, 0 <= parent_prob aeqb par a <= 1) /\
    (par = None <-> l = []) /\ forall m, par = Some m -> mat Z.eqb cx (ddepth n - 1)%Z = Ok m.
Proof using aeqb_ok.
  intros n l' l cx [T B] Ed. unfold parent_distr. destruct (ddepth n <? 1)%Z eqn:E.
  - exists None. assert (l = []) by (apply Z.ltb_lt in E; destruct l; [auto|cbn in Ed; lia]).
    repeat split; auto; try (intros; cbn; lra). intros m; discriminate.
  - apply Z.ltb_ge in E. destruct l as [|a l]; [cbn in Ed; lia|].
    destruct (T l' a l eq_refl) as (m & p & Em & _). replace (ddepth n - 1)%Z with (Z.of_nat (length l)) by (cbn [length] in Ed; lia).
    rewrite Em. cbn [bind]. exists (Some m). split; auto. split; [|split; [split; discriminate|intros m' [= <-]; auto]].
    intros b. cbn. destruct (lookup aeqb b m) as [q|] eqn:L; [|lra]. apply lookup_in in L; auto. exact (B _ _ Em _ _ L).
Qed.

(** The weights, replaced if they are too small. *)
Lemma uniform_keys : forall l w, NoDup l -> map fst w = l ->
  map fst (fold_left (fun m a => mput aeqb m a (1 / INR (length l))) l w) = l /\
  forall a, In a l -> valf aeqb (fold_left (fun m a => mput aeqb m a (1 / INR (length l))) l w) a = 1 / INR (length l).
Proof using aeqb_ok.
  intros l w ND Ek. set (u := 1 / INR (length l)).
  assert (G : forall l2 m, (forall a, In a l2 -> In a (map fst m)) -> NoDup (map fst m) ->
    map fst (fold_left (fun m a => mput aeqb m a u) l2 m) = map fst m /\
    forall a, In a (map fst m) -> (In a l2 \/ valf aeqb m a = u) -> valf aeqb (fold_left (fun m a => mput aeqb m a u) l2 m) a = u).
  { induction l2 as [|b l2 IH]; intros m Hi Hn; cbn [fold_left].
    - split; auto. intros a _ [[]|]; auto.
    - assert (Eb : map fst (mput aeqb m b u) = map fst m).
      { apply mput_same; auto. apply Hi. now left. }
      destruct (IH (mput aeqb m b u)) as [K1 K2]; [intros a Q; rewrite Eb; apply Hi; now right|now rewrite Eb|].
      split; [congruence|]. intros a Ia Q. apply K2; [now rewrite Eb|]. unfold valf. rewrite (lookup_mput aeqb aeqb_ok).
      destruct (aeqb b a) eqn:E.
      + apply aeqb_ok in E. subst. now right.
      + destruct Q as [[->|Q]|Q]; auto. now rewrite (keqb_refl aeqb aeqb_ok) in E. }
  destruct (G l w) as [K1 K2]; [rewrite Ek; auto|rewrite Ek; auto|]. rewrite Ek in *. split; auto.
Qed.
Lemma rents_weights_ok : forall n x (kids : list (A * (cnode * cmem))) par, acts C (dstate n) <> [] ->
  (forall a, 0 <= parent_prob aeqb par a <= 1) ->
  exists qs w norm, all_q (ments_q aeqb M n x kids) (acts C (dstate n)) = Ok qs /\
    rents_weights aeqb C M n qs par = (w, rsum_of (valf aeqb w) (acts C (dstate n)), norm) /\
    map fst w = acts C (dstate n) /\ ments_eps <= rsum_of (valf aeqb w) (acts C (dstate n)) /\
    norm = norm_term (ments_temp M n) qs /\
    (forall a, In a (acts C (dstate n)) -> ments_q aeqb M n x kids a = Ok (valf aeqb qs a)) /\
    let u a := exp (valf aeqb qs a / ments_temp M n - norm) * parent_prob aeqb par a in
    (ments_eps <= rsum_of u (acts C (dstate n)) -> forall a, In a (acts C (dstate n)) -> valf aeqb w a = u a) /\
    (rsum_of u (acts C (dstate n)) < ments_eps -> forall a, In a (acts C (dstate n)) -> valf aeqb w a = 1 / INR (length (acts C (dstate n)))).
Proof using aeqb_ok Env Pr.
  intros n x kids par NE Hp. set (l := acts C (dstate n)) in *. assert (ND : NoDup l) by apply Env.
  destruct (all_q_ex (ments_q aeqb M n x kids) l) as (qs & Eq).
  { intros a Ia. apply (ments_q_total aeqb aeqb_ok C); auto. now apply pr_total. }
  destruct (all_q_fun aeqb aeqb_ok _ _ _ ND Eq) as [Em Ev].
  set (norm := norm_term (ments_temp M n) qs).
  assert (Ek : map fst qs = l) by (rewrite Em, map_map; cbn; now rewrite map_id).
  set (u := fun a => exp (valf aeqb qs a / ments_temp M n - norm) * parent_prob aeqb par a).
  set (w := map (fun p => (fst p, exp (snd p / ments_temp M n - norm) * parent_prob aeqb par (fst p))) qs).
  assert (Kw : map fst w = l) by (unfold w; rewrite map_map; cbn; exact Ek).
  assert (Vw : forall a, In a l -> valf aeqb w a = u a).
  { intros a Ia. unfold valf at 1. assert (Q : In (a, u a) w).
    { unfold w. apply in_map_iff. exists (a, valf aeqb qs a). split; auto. rewrite Em. apply in_map_iff. exists a. now rewrite <- Em. }
    rewrite (in_lookup aeqb aeqb_ok _ w a (u a)); auto. now rewrite Kw. }
  assert (Sw : rsum_of (fun p => exp (snd p / ments_temp M n - norm) * parent_prob aeqb par (fst p)) qs = rsum_of u l).
  { assert (E1 : rsum_of (fun p => exp (snd p / ments_temp M n - norm) * parent_prob aeqb par (fst p)) qs =
      rsum_of (fun p => exp (snd p / ments_temp M n - norm) * parent_prob aeqb par (fst p)) (map (fun a => (a, valf aeqb qs a)) l)) by congruence.
    rewrite E1, rsum_of_map. reflexivity. }
  assert (Er : rents_weights aeqb C M n qs par = (uniform_if_small aeqb l (w, rsum_of u l), norm)).
  { unfold rents_weights. fold l. cbv zeta. fold norm. rewrite (weight_loop_eq aeqb aeqb_ok) by (rewrite Ek; exact ND).
    now rewrite Sw. }
  unfold uniform_if_small in Er. cbn [fst snd] in Er. pose proof ments_eps_pos as Ep.
  assert (Ln : 0 < INR (length l)) by (apply lt_0_INR; destruct l; [congruence|cbn; lia]).
  destruct (Rltb (rsum_of u l) ments_eps) eqn:E.
  - apply Rltb_true in E. destruct (uniform_keys l w ND Kw) as [K1 K2].
    set (w' := fold_left (fun m a => mput aeqb m a (1 / INR (length l))) l w) in *.
    assert (S1 : rsum_of (valf aeqb w') l = 1).
    { rewrite (rsum_of_ext _ _ (fun _ => 1 / INR (length l))) by auto. rewrite rsum_of_const. field. lra. }
    exists qs, w', norm. rewrite S1. assert (ments_eps < 1) by (unfold ments_eps; lra).
    split; auto. split; auto. split; auto. split; [lra|]. split; auto. split; auto. cbv zeta. fold u.
    split; [intros; lra|auto].
  - apply Rltb_false in E. assert (S1 : rsum_of (valf aeqb w) l = rsum_of u l) by (apply rsum_of_ext; auto).
    exists qs, w, norm. rewrite S1. split; auto. split; auto. split; auto. split; [lra|]. split; auto. split; auto. cbv zeta. fold u.
    split; [auto|intros; lra].
Qed.
Lemma rents_policy : forall n x (kids : list (A * (cnode * cmem))) l (cx : rctx), rate_known M n -> acts C (dstate n) <> [] ->
  rx_ok l cx -> ddepth n = Z.of_nat (length l) ->
  exists b m, rents_distr aeqb C M n x kids cx = Ok (Some m) /\ policy_of aeqb C M n b m.
Proof using aeqb_ok Env Pr.
  intros n x kids l cx Hr NE Px Ed. destruct (parent_known n [] l cx Px Ed) as (par & Ep & Bp & _).
  destruct (rents_weights_ok n x kids par NE Bp) as (qs & w & norm & E1 & E2 & Kw & Ws & En & Hq & U1 & U2).
  pose proof ments_eps_pos as Pe.
  destruct (weights_policy n w Hr NE Kw) as (m & Em & Pm).
  - intros a Ia. cbv zeta in *. destruct (Rle_lt_dec ments_eps (rsum_of (fun a => exp (valf aeqb qs a / ments_temp M n - norm) * parent_prob aeqb par a) (acts C (dstate n)))) as [L|L].
    + rewrite (U1 L a Ia). apply Rmult_le_pos; [left; apply exp_pos|apply Bp].
    + rewrite (U2 L a Ia). left. apply Rdiv_lt_0_compat; [lra|]. apply lt_0_INR. destruct (acts C (dstate n)); [congruence|cbn; lia].
  - lra.
  - unfold rents_distr. rewrite E1. cbn [bind]. rewrite Ep. cbn [bind]. rewrite E2. eauto.
Qed.

Lemma rx_put : forall n l (cx : rctx) b m a, (0 <= dvisits n)%Z -> acts C (dstate n) <> [] -> policy_of aeqb C M n b m ->
  In a (acts C (dstate n)) -> ments_eps <= mixture aeqb C M n b a ->
  rx_ok l cx -> ddepth n = Z.of_nat (length l) -> rx_ok (a :: l) (mput Z.eqb cx (ddepth n) m).
Proof using aeqb_ok Env Pr Ex.
  intros n l cx b m a Hv NE P Ia Ge [T B] Ed. split.
  - rewrite Ed. intros l1 c l2 E.
    destruct (trail_cons (fun c m => exists p, In (c, p) m) l cx a m) with (l1 := l1) (b := c) (l2 := l2) as (m' & E' & p & Q); auto.
    + intros k1 k k2 E'. destruct (T _ _ _ E') as (m0 & p & Q1 & Q2). eauto.
    + exists (mixture aeqb C M n b a). destruct P as (_ & _ & P3). apply P3. auto.
    + eauto.
  - intros k m0 E c p Q. rewrite mat_mput in E. destruct (Z.eqb (ddepth n) k); [|eauto]. injection E as <-.
    now apply (policy_range n b m c p).
Qed.

Lemma rents_rules : node_rules C ra rd_ok (fun _ _ => True) rx_ok (fun _ _ => True).
Proof using aeqb_ok Mok Env Pr Ex.
  constructor; try (intros; exact I); unfold rd_ok; try (intros; cbn [new_dnode dvisits]; apply Env).
  - intros n x H. cbn. lia.
  - intros n x a c H. exact H.
  - intros n x kids cx b x1 l a l' _ H _ _ _ _ _ _. exact H.
  - intros n x kids cx b x1 _ _ _ _ _. auto.
  - split.
    + intros l1 a l2 E. destruct l1; discriminate.
    + intros k m E. discriminate.
  - intros n x kids cx g a cx1 g1 l In1 Hv K Px Ed E. cbn [select rents] in E. unfold rents_select in E.
    assert (NE : acts C (dstate (visit_d n)) <> []) by (apply Env, In1).
    destruct (rents_policy (visit_d n) (vis_d ra (is_leaf C n) x) kids l cx) as (b & m & Em & Pm); auto.
    { left. cbn [visit_d dvisits]. lia. }
    rewrite Em in E. cbn [bind] in E. destruct (sample_actions M (Some m) g) as [[a' g']| |] eqn:Es; try discriminate.
    cbn [bind] in E. injection E as <- <- <-.
    assert (Hv' : (0 <= dvisits (visit_d n))%Z) by (cbn [visit_d dvisits]; lia).
    assert (H : In a' (acts C (dstate (visit_d n))) /\ ments_eps <= mixture aeqb C M (visit_d n) b a').
    { destruct Pm as (P1 & P2 & P3). clear - Es P3 Mok.
      assert (Q : exists p, In (a', p) m).
      { unfold sample_actions in Es. destruct Mok as [Om _].
        apply in_sampled in Es. destruct Es as (p & Es). exists p. eapply Permutation_in; [|exact Es]. apply Permutation_sym, Om. }
      destruct Q as (p & Q). apply P3 in Q. destruct Q as (Q1 & -> & Q2). auto. }
    apply (rx_put (visit_d n) l cx b m a'); auto; apply H.
  - intros n x cx g o cx1 g1 l _ _ Px E. cbn [sample rents] in E.
    destruct (ments_sample M (visit_c n) g) as [[o' g']| |]; try discriminate. cbn in E. injection E as <- <- <-. exact Px.
  - intros kids cx cx1 l _ E. discriminate E.
  - intros kids cx cx1 l _ E. discriminate E.
  - intros cx l Px. exact Px.
Qed.

Lemma rents_backup_total : forall n x (kids : list (A * (cnode * cmem))) l' l (cx : rctx), acts C (dstate n) <> [] ->
  rx_ok (l' ++ l) cx -> ddepth n = Z.of_nat (length l) -> exists x1, rents_backup_d aeqb C M n x kids cx = Ok x1.
Proof using aeqb_ok Env Pr.
  intros n x kids l' l cx NE Px Ed. destruct (parent_known n l' l cx Px Ed) as (par & Ep & Bp & _).
  destruct (rents_weights_ok n x kids par NE Bp) as (qs & w & norm & E1 & E2 & _).
  unfold rents_backup_d. rewrite E1. cbn [bind]. rewrite Ep. cbn [bind]. rewrite E2. eauto.
Qed.
Lemma rents_safe : safe_rules C ra rd_ok (fun _ _ => True) rx_ok (fun _ _ => True) (fam_bad aeqb C M ra).
Proof using aeqb_ok Mok Env Pr Ex.
  constructor.
  - intros n x kids cx g l In1 Hv K Px Ed Gi Gr. cbn [select rents]. unfold rents_select. cbv zeta.
    assert (NE : acts C (dstate (visit_d n)) <> []) by (apply Env, In1).
    assert (Hv' : (1 <= dvisits (visit_d n))%Z) by (unfold rd_ok in Hv; cbn [visit_d dvisits]; lia).
    destruct (rents_policy (visit_d n) (vis_d ra (is_leaf C n) x) kids l cx) as (b & m & Em & Pm); auto; [now left|].
    rewrite Em. cbn [bind].
    destruct (policy_select aeqb aeqb_ok C M Mok Pr Ex Env (visit_d n) b m g ltac:(lia) NE Pm Gr) as [(a & g1 & E1 & O & Ia & _)|[L T]].
    + left. rewrite E1. cbn [bind]. eexists a, _, g1. split; [reflexivity|]. split; auto. destruct O as (O1 & O2 & _). split; auto.
    + right. rewrite T. cbn [bind]. split; [|intros r; discriminate]. eexists (Ok (Some m)), b, m. auto.
  - intros n x cx g l In1 _ _ Gi Gr. cbn [sample rents].
    destruct (sample_ok C M Mok Env (visit_c n) g In1 Gr) as (o & g1 & E & Io & St). rewrite E. cbn [bind]. eauto 10.
  - intros n x kids cx b l a l' In1 P K Px Ed _ _. cbn [back_d rents].
    apply rents_backup_total with (l' := l' ++ [a]) (l := l); [apply Env, In1| |exact Ed]. now rewrite <- app_assoc.
  - intros n x kids cx b In1 P K _. cbn [back_c rents]. eauto.
Qed.

(** ** TENTS *)
Notation ta := (tents aeqb C M).
Definition td_ok (n : dnode) (x : XD ta) : Prop :=
  (0 <= dvisits n)%Z /\ maps_ok (acts C (dstate n)) (x : @tmem A) /\ (0 <= m_nb (t_m (x : @tmem A)))%Z.
Definition tx_ok (l : list A) (cx : CX ta) : Prop := tents_trail l cx.

Lemma td_new : forall s k t, td_ok (new_dnode C s k t) (new_xd ta (new_dnode C s k t)).
Proof using aeqb_ok Env Pr.
  intros s k t. split; [cbn; apply Env|]. cbn [new_xd tents].
  destruct (new_maps aeqb aeqb_ok C M (eo_nodup _ _ Env) (new_dnode C s k t)) as (E & H & _); [now apply pr_total|]. split; auto.
  rewrite E. cbn. lia.
Qed.
Lemma tents_policy : forall n (x : @tmem A) (kids : list (A * (cnode * cmem))), rate_known M n -> acts C (dstate n) <> [] ->
  maps_ok (acts C (dstate n)) x ->
  exists w sum b m, tents_weights aeqb C M n x kids = Ok (w, sum) /\ mix aeqb C M n w sum = Ok (Some m) /\ policy_of aeqb C M n b m.
Proof using aeqb_ok Env Pr.
  intros n x kids Hr NE Mo.
  destruct (tents_weights_ok aeqb aeqb_ok C M (eo_nodup _ _ Env) n x kids (pr_total C M Pr n) NE Mo) as (w & tau & E & Kw & Ge & Hw & _).
  destruct (weights_policy n w Hr NE Kw) as (m & Em & Pm).
  - intros a Ia. destruct (Hw a Ia) as (q & _ & ->). apply Rmax_r.
  - lra.
  - eexists w, _, _, m. eauto.
Qed.
Lemma tents_backup_at : forall n (x : @tmem A) (kids : list (A * (cnode * cmem))) a (cx : tctx), prior_total C M n ->
  acts C (dstate n) <> [] -> NoDup (acts C (dstate n)) ->
  maps_ok (acts C (dstate n)) x -> mat Z.eqb cx (ddepth n) = Ok a -> In a (acts C (dstate n)) ->
  exists v x1 sp, q_over_temp aeqb M n (t_m x) kids a = Ok v /\ update_maps aeqb x a v = Ok x1 /\ spmax aeqb x1 = Ok sp /\
    maps_ok (acts C (dstate n)) x1 /\ In (a, v) (t_a2q x1) /\ (forall b w, b <> a -> (In (b, w) (t_a2q x1) <-> In (b, w) (t_a2q x))) /\
    sparse_max (acts C (dstate n)) (valf aeqb (t_a2q x1)) sp /\
    tents_backup_d aeqb M n x kids cx =
      Ok (mkTm (mkMm (m_nb (t_m x) + 1) (opp_coeff M n * ments_temp M n * sp) (m_off (t_m x))) (t_a2q x1) (t_q2a x1)).
Proof using aeqb_ok.
  intros n x kids a cx Pt NE ND Mo T Ia.
  unfold tents_backup_d. rewrite T. cbn [bind]. unfold q_over_temp.
  destruct (ments_q_total aeqb aeqb_ok C M n (t_m x) kids a Pt Ia) as (q & Eq). rewrite Eq. cbn [bind].
  destruct (update_ok aeqb aeqb_ok (acts C (dstate n)) x a (q / ments_temp M n) Mo Ia) as (x1 & Eu & Mo1 & _ & H1 & H2).
  rewrite Eu. cbn [bind].
  destruct (spmax_ok aeqb aeqb_ok (acts C (dstate n)) x1 _ NE ND (maps_values aeqb aeqb_ok _ _ Mo1)) as (sp & Es & Hs).
  rewrite Es. cbn [bind]. exists (q / ments_temp M n), x1, sp. auto 10.
Qed.
Lemma tents_backup_ok : forall n (x : @tmem A) (kids : list (A * (cnode * cmem))) l' a l (cx : tctx), acts C (dstate n) <> [] ->
  maps_ok (acts C (dstate n)) x -> tents_trail (l' ++ a :: l) cx -> ddepth n = Z.of_nat (length l) -> In a (acts C (dstate n)) ->
  exists v x1 sp, q_over_temp aeqb M n (t_m x) kids a = Ok v /\ update_maps aeqb x a v = Ok x1 /\ spmax aeqb x1 = Ok sp /\
    maps_ok (acts C (dstate n)) x1 /\ In (a, v) (t_a2q x1) /\ (forall b w, b <> a -> (In (b, w) (t_a2q x1) <-> In (b, w) (t_a2q x))) /\
    sparse_max (acts C (dstate n)) (valf aeqb (t_a2q x1)) sp /\
    tents_backup_d aeqb M n x kids cx =
      Ok (mkTm (mkMm (m_nb (t_m x) + 1) (opp_coeff M n * ments_temp M n * sp) (m_off (t_m x))) (t_a2q x1) (t_q2a x1)).
Proof using aeqb_ok Env Pr.
  intros n x kids l' a l cx NE Mo T Ed Ia. specialize (T l' a l eq_refl). rewrite <- Ed in T.
  apply tents_backup_at; auto; [now apply pr_total|apply Env].
Qed.

Lemma tents_rules : node_rules C ta td_ok (fun _ _ => True) tx_ok (fun _ _ => True).
Proof using aeqb_ok Env Pr.
  constructor; try (intros; exact I).
  - apply td_new.
  - intros c o _ _. apply td_new.
  - intros n x (H1 & H2 & H3). split; [cbn; lia|]. cbn [vis_d tents]. destruct H2 as [K1 K2 K3 K4]. split; [now constructor|].
    cbn. unfold ments_visit. destruct (is_leaf C n); cbn; lia.
  - intros n x a c H. exact H.
  - intros n x kids cx b x1 l a l' In1 (Hv & Mo & Nb) [_ K] Px Ed (c & y & Q & _) _ E. split; auto. cbn [back_d tents] in E.
    destruct (K _ _ _ Q) as [(_ & _ & _ & _ & Ia) _].
    destruct (tents_backup_ok n x kids l' a l cx) as (v & x2 & sp & _ & _ & _ & [K1 K2 K3 K4] & _ & _ & _ & E2); auto; [apply Env, In1|].
    rewrite E2 in E. injection E as <-. split; [now constructor|]. cbn. lia.
  - intros n x kids cx b x1 _ _ _ _ _. auto.
  - intros l1 a l2 E. destruct l1; discriminate.
  - intros n x kids cx g a cx1 g1 l In1 _ _ Px Ed E. cbn [select tents] in E. unfold tents_select in E.
    destruct (tents_weights aeqb C M (visit_d n) _ kids) as [[w sum]| |]; try discriminate. cbn [bind] in E.
    destruct (mix aeqb C M (visit_d n) w sum) as [d| |]; try discriminate. cbn [bind] in E.
    destruct (sample_actions M d g) as [[a' g']| |]; try discriminate. cbn [bind] in E. injection E as <- <- <-.
    change (ddepth (visit_d n)) with (ddepth n). rewrite Ed. intros l1 c l2 E.
    destruct (trail_cons (fun c v => v = c) l cx a' a') with (l1 := l1) (b := c) (l2 := l2) as (m' & E' & ->); auto.
    intros k1 k k2 E'. exists k. split; auto. exact (Px _ _ _ E').
  - intros n x cx g o cx1 g1 l _ _ Px E. cbn [sample tents] in E.
    destruct (ments_sample M (visit_c n) g) as [[o' g']| |]; try discriminate. cbn in E. injection E as <- <- <-. exact Px.
  - intros kids cx cx1 l _ E. discriminate E.
  - intros kids cx cx1 l _ E. discriminate E.
  - intros cx l Px. exact Px.
Qed.
Lemma tents_safe : safe_rules C ta td_ok (fun _ _ => True) tx_ok (fun _ _ => True) (fam_bad aeqb C M ta).
Proof using aeqb_ok Mok Env Pr Ex.
  constructor.
  - intros n x kids cx g l In1 (Hv & Mo & _) K Px Ed Gi Gr. cbn [select tents]. unfold tents_select. cbv zeta.
    assert (NE : acts C (dstate (visit_d n)) <> []) by (apply Env, In1).
    assert (Hv' : (1 <= dvisits (visit_d n))%Z) by (cbn [visit_d dvisits]; lia).
    destruct (tents_policy (visit_d n) (vis_d ta (is_leaf C n) x) kids) as (w & sum & b & m & E1 & E2 & Pm); auto; [now left| |].
    { cbn [vis_d tents]. destruct Mo as [K1 K2 K3 K4]. now constructor. }
    rewrite E1. cbn [bind]. rewrite E2. cbn [bind].
    destruct (policy_select aeqb aeqb_ok C M Mok Pr Ex Env (visit_d n) b m g ltac:(lia) NE Pm Gr) as [(a & g1 & E3 & O & Ia & _)|[L T]].
    + left. rewrite E3. cbn [bind]. eexists a, _, g1. split; [reflexivity|]. split; auto. destruct O as (O1 & O2 & _). split; auto.
    + right. rewrite T. cbn [bind]. split; [|intros r; discriminate]. eexists (Ok (Some m)), b, m. auto.
  - intros n x cx g l In1 _ _ Gi Gr. cbn [sample tents].
    destruct (sample_ok C M Mok Env (visit_c n) g In1 Gr) as (o & g1 & E & Io & St). rewrite E. cbn [bind]. eauto 10.
  - intros n x kids cx b l a l' In1 (Hv & Mo & _) [_ K] Px Ed (c & y & Q & _) _. cbn [back_d tents].
    destruct (K _ _ _ Q) as [(_ & _ & _ & _ & Ia) _].
    destruct (tents_backup_ok n x kids l' a l cx) as (v & x2 & sp & _ & _ & _ & _ & _ & _ & _ & E2); eauto. apply Env, In1.
  - intros n x kids cx b In1 P K _. cbn [back_c tents]. eauto.
Qed.
End Run.
