(** Proofs of the theorems in TentsTheorems.v. *)
From Coq Require Import List ZArith Bool Reals Lia Lra Sorted Permutation.
From Verif Require Import Base BaseProofs NumOps RLemmas HelperModel HelperSpec HelperProofs EngineModel EngineSpec EngineProofs
  EngineInv EngineCount MapModel MapProofs PickSpec PickProofs AlgoModel AlgoProofs AlgoTheorems AlgoNodes AlgoSafe QuietSpec AlgoQuiet UctModel MentsModel SoftSpec SoftProofs
  MentsSpec MentsProofs MentsPolicy MentsRun SoftResults SoftTheorems RecSpec RecProofs FamilyRun QuietResults TentsSpec TentsProofs AlgoTrail TentsRun TentsStale.
Import ListNotations.
Open Scope R_scope.

Section Results.
Context {S A : Type}.
Variable seqb : S -> S -> bool.
Variable aeqb : A -> A -> bool.
Hypothesis seqb_ok : decides seqb.
Hypothesis aeqb_ok : decides aeqb.
Variable C : @econf S A.
Variable M : @mconf S A.
Notation dnode := (@dnode S A).
Notation cnode := (@cnode S A).
Notation ta := (tents aeqb C M).
Notation ra := (rents aeqb C M).

(** ** C44 *)
Lemma q_of_fun : forall X (val : X -> R) n off (kids : list (A * (cnode * X))) a u v, NoDup (map fst kids) ->
  (forall p, mprior M = Some p -> NoDup (map fst (p (dstate n)))) ->
  q_of M val n off kids a u -> q_of M val n off kids a v -> u = v.
Proof using Type.
  intros X val n off kids a u v ND NP U V.
  assert (K : forall V (m : list (A * V)) x y, NoDup (map fst m) -> In (a, x) m -> In (a, y) m -> x = y).
  { clear. intros V m x y. induction m as [|[b z] m IH]; cbn; intros ND I J; [destruct I|]. inversion ND as [|? ? N1 N2]; subst.
    destruct I as [I|I], J as [J|J]; try congruence.
    3: now auto.
    - injection I as -> ->. exfalso. apply N1. apply in_map_iff. now exists (a, y).
    - injection J as -> ->. exfalso. apply N1. apply in_map_iff. now exists (a, x). }
  assert (I : forall c (x : X), In (a, (c, x)) kids -> In a (map fst kids)) by (intros c x Q; apply in_map_iff; now exists (a, (c, x))).
  destruct U as [c x U|p w U E1 I1|U E1], V as [c' x' V|p' w' V E2 I2|V E2]; try congruence.
  - assert (E : (c, x) = (c', x')) by (eapply K; eauto). congruence.
  - exfalso. eauto.
  - exfalso. eauto.
  - exfalso. eauto.
  - assert (p = p') as <- by congruence. assert (w = w') by (eapply K; eauto). congruence.
  - exfalso. eauto.
Qed.
Lemma q_over_of : forall n x (kids : list (A * (cnode * cmem))) a q, NoDup (map fst kids) -> prior_total C M n -> In a (acts C (dstate n)) ->
  q_of M c_soft n (m_off x) kids a q -> q_over_temp aeqb M n x kids a = Ok (q / ments_temp M n).
Proof using aeqb_ok.
  intros n x kids a q ND Pt Ia Q. destruct (ments_q_total aeqb aeqb_ok C M n x kids a Pt Ia) as (v & E). unfold q_over_temp. rewrite E. cbn [bind].
  apply (ments_q_spec aeqb aeqb_ok) in E. do 2 f_equal. eapply q_of_fun; eauto. intros p Ep. now apply Pt.
Qed.
Lemma assoc_eta : forall (w : list (A * R)), NoDup (map fst w) -> w = map (fun a => (a, valf aeqb w a)) (map fst w).
Proof using aeqb_ok.
  intros w ND. rewrite map_map. rewrite <- (map_id w) at 1. apply map_ext_in. intros [a v] I. cbn. f_equal. unfold valf.
  now rewrite (in_lookup aeqb aeqb_ok _ _ _ _ ND I).
Qed.

Lemma C44_weights' : forall n (x : @tmem A) (kids : list (A * (cnode * cmem))) (q : A -> R),
  (forall s, NoDup (acts C s)) -> prior_total C M n -> acts C (dstate n) <> [] -> NoDup (map fst kids) ->
  (forall a, In a (acts C (dstate n)) -> q_of M c_soft n (m_off (t_m x)) kids a (q a)) ->
  maps_hold (acts C (dstate n)) x (fun a => q a / ments_temp M n) ->
  exists p, projection (acts C (dstate n)) (fun a => q a / ments_temp M n) p /\
    (forall p', projection (acts C (dstate n)) (fun a => q a / ments_temp M n) p' -> forall a, In a (acts C (dstate n)) -> p' a = p a) /\
    tents_weights aeqb C M n x kids = Ok (map (fun a => (a, p a)) (acts C (dstate n)), 1).
Proof using aeqb_ok.
  intros n x kids q NDs Pt NE NK Hq Mh. pose proof (NDs (dstate n)) as ND. set (l := acts C (dstate n)) in *. set (z := fun a => q a / ments_temp M n) in *.
  assert (Hz : forall a, In a l -> q_over_temp aeqb M n (t_m x) kids a = Ok (z a)) by (intros a Ia; apply q_over_of; auto).
  destruct (tents_weights_ok aeqb aeqb_ok C M NDs n x kids Pt NE (proj1 Mh)) as (w & tau & E & Kw & _ & Hw & Ht).
  specialize (Ht z Hz).
  destruct (sparse_threshold aeqb aeqb_ok l x z NE ND Mh) as (t0 & Ns & Hs & NDt & Et). cbv zeta in *.
  assert (Lp : 0 < INR (length (sparse_set x))) by (apply lt_0_INR; destruct (sparse_set x); [congruence|cbn; lia]).
  assert (tau = t0) as ->.
  { rewrite Ht, <- Et. field. lra. }
  set (p := fun a => Rmax (z a - t0) 0).
  assert (Wp : forall a, In a l -> valf aeqb w a = p a).
  { intros a Ia. destruct (Hw a Ia) as (v & Ev & ->). rewrite (Hz a Ia) in Ev. injection Ev as <-. reflexivity. }
  exists p. split; [now apply (w_projection aeqb aeqb_ok l z t0 (sparse_set x))|].
  split; [now apply (w_unique aeqb aeqb_ok l z t0 (sparse_set x))|].
  rewrite E. f_equal. f_equal.
  - rewrite (assoc_eta w) by (rewrite Kw; exact ND). rewrite Kw. fold l. apply map_ext_in. intros a Ia. now rewrite Wp.
  - fold l. rewrite (rsum_of_ext _ _ p) by exact Wp. now apply (w_total aeqb aeqb_ok l z t0 (sparse_set x)).
Qed.

Lemma C44_updates' : forall l us (x : @tmem A), maps_ok l x -> (forall a v, In (a, v) us -> In a l) ->
  exists x', fold_left (fun o p => bind o (fun x => update_maps aeqb x (fst p) (snd p))) us (Ok x) = Ok x' /\ maps_ok l x' /\
    forall a v, In a l -> (In (a, v) (t_a2q x') <-> last_given us a v \/ ~ In a (map fst us) /\ In (a, v) (t_a2q x)).
Proof using aeqb_ok.
  intros l us. induction us as [|[b u] us IH]; intros x Mo Hu; cbn [fold_left].
  - exists x. split; auto. split; auto. intros a v Ia. split; [intros Q; right; auto|].
    intros [(u1 & u2 & E & _)|[_ Q]]; auto. destruct u1; discriminate.
  - cbn [bind fst snd]. destruct (update_ok aeqb aeqb_ok l x b u Mo (Hu b u (or_introl eq_refl))) as (x1 & E1 & Mo1 & _ & H1 & H2).
    rewrite E1. destruct (IH x1 Mo1) as (x' & E & Mo' & H); [intros a v Q; eapply Hu; right; exact Q|].
    exists x'. split; auto. split; auto. intros a v Ia. rewrite (H a v Ia). cbn [map fst]. split.
    + intros [(u1 & u2 & -> & N)|[N Q]].
      * left. exists ((b, u) :: u1), u2. auto.
      * destruct (aeq_dec aeqb aeqb_ok a b) as [->|Nab].
        -- left. assert (v = u) as ->.
           { pose proof (in_lookup aeqb aeqb_ok _ _ _ _ (mo_nodup _ _ Mo1) Q). pose proof (in_lookup aeqb aeqb_ok _ _ _ _ (mo_nodup _ _ Mo1) H1). congruence. }
           exists [], us. auto.
        -- right. split; [intros [->|Q']; [now apply Nab|contradiction]|]. now apply H2.
    + intros [(u1 & u2 & E2 & N)|[N Q]].
      * destruct u1 as [|p u1]; cbn in E2.
        -- injection E2 as -> -> ->. right. auto.
        -- injection E2 as _ ->. left. exists u1, u2. auto.
      * right. split; [intros Q'; apply N; now right|]. apply H2; auto. intros ->. apply N. now left.
Qed.

Section Sane.
Hypothesis Env : env_ok C M.
Hypothesis Pr : prior_ok C M.

Lemma C44_maps' : forall n g s d node x, areach seqb aeqb C ta n g s -> nth_error (dh (mem (base s))) d = Some node -> nth_error (xds s) d = Some x ->
  maps_ok (acts C (dstate node)) (x : @tmem A).
Proof using aeqb_ok seqb_ok Env Pr.
  intros n g s d node x R Hd Hx.
  exact (proj1 (proj2 (no_d _ _ _ _ _ _ _ _ (nodes_reach seqb aeqb seqb_ok aeqb_ok C ta _ _ _ _ (tents_rules aeqb aeqb_ok C M Env Pr) _ _ _ R) _ _ _ Hd Hx))).
Qed.

Lemma hold_values : forall l (x : @tmem A) z, maps_hold l x z -> forall a, In a l -> z a = valf aeqb (t_a2q x) a.
Proof using aeqb_ok.
  intros l x z H a Ia. unfold valf. now rewrite (hold_lookup aeqb aeqb_ok l x z a H Ia).
Qed.
Lemma sparse_max_ext : forall (l : list A) z z' v, (forall a, In a l -> z a = z' a) -> sparse_max l z v -> sparse_max l z' v.
Proof using Type.
  intros l z z' v E [(p & P1 & P2) H].
  assert (K : forall p, sparse_objective l z' p = sparse_objective l z p).
  { intros p'. unfold sparse_objective. f_equal. apply rsum_of_ext. intros a Ia. now rewrite E. }
  split; [exists p; split; auto; now rewrite K|]. intros p' P'. rewrite K. now apply H.
Qed.

Lemma C44_backup' : forall n (x : @tmem A) (kids : list (A * (cnode * cmem))) a q (cx : list (Z * A)) b,
  acts C (dstate n) <> [] -> NoDup (map fst kids) -> maps_ok (acts C (dstate n)) x ->
  mat Z.eqb cx (ddepth n) = Ok a -> In a (acts C (dstate n)) -> q_of M c_soft n (m_off (t_m x)) kids a q ->
  exists (x1 : @tmem A) sp, back_d ta n x kids cx b = Ok x1 /\ maps_ok (acts C (dstate n)) x1 /\
    In (a, q / ments_temp M n) (t_a2q x1) /\ (forall c v, c <> a -> (In (c, v) (t_a2q x1) <-> In (c, v) (t_a2q x))) /\
    (forall z, maps_hold (acts C (dstate n)) x1 z -> sparse_max (acts C (dstate n)) z sp) /\
    m_soft (t_m x1) = seen M n (ments_temp M n * sp) /\ m_nb (t_m x1) = (m_nb (t_m x) + 1)%Z /\ m_off (t_m x1) = m_off (t_m x).
Proof using aeqb_ok Env Pr.
  intros n x kids a q cx b NE NK Mo Hc Ia Q. pose proof (pr_total C M Pr n) as Pt.
  destruct (tents_backup_at aeqb aeqb_ok C M n x kids a cx Pt NE (eo_nodup _ _ Env _) Mo Hc Ia) as (v & x1 & sp & Ev & _ & _ & Mo1 & H1 & H2 & Sm & E).
  rewrite (q_over_of n (t_m x) kids a q NK Pt Ia Q) in Ev. injection Ev as <-.
  cbn [back_d tents]. rewrite E. eexists. exists sp. split; [reflexivity|]. cbn [t_a2q t_m m_soft m_nb m_off].
  split; [destruct Mo1 as [K1 K2 K3 K4]; now constructor|]. split; auto. split; auto. split.
  - intros z Hz. eapply sparse_max_ext; [|exact Sm]. intros c Ic. symmetry. exact (hold_values _ _ _ Hz c Ic).
  - split; auto. rewrite <- opp_seen. ring.
Qed.

(** ** C45 and the values between trials *)
Section Agree.
Hypothesis NoTT : use_tt C = false.
Definition cons_q (a : A) (n : dnode) (x : XD ta) (kids : list (A * (cnode * XC ta))) : Prop :=
  In a (acts C (dstate n)) -> exists v q, (0 <= v <= dvisits n)%Z /\ ments_q aeqb M n (t_m (x : @tmem A)) kids a = Ok q /\
    In (a, q / ments_temp M (with_visits n v)) (t_a2q (x : @tmem A)).
Definition cons_c (n : cnode) (x : XC ta) (kids : list (S * (dnode * XD ta))) : Prop :=
  exists v, weighted_mean (map (fun k => (m_nb (t_m (snd (snd k) : @tmem A)), m_soft (t_m (snd (snd k) : @tmem A)))) kids) v /\
    c_soft (x : cmem) = mreward M (cstate n) (cact n) + v.
Lemma with_same : forall n : dnode, with_visits n (dvisits n) = n.
Proof. intros [? ? ? ? ? ?]. reflexivity. Qed.
Lemma q_same : forall n n' x (kids kids' : list (A * (cnode * cmem))) a, dstate n' = dstate n -> dtime n' = dtime n ->
  lookup aeqb a kids' = lookup aeqb a kids -> ments_q aeqb M n' x kids' a = ments_q aeqb M n x kids a.
Proof using Type.
  intros n n' x kids kids' a E1 E2 E3. unfold ments_q. rewrite E3. unfold opp_coeff, unexpanded_q, opp_coeff. rewrite E1, E2. reflexivity.
Qed.
Lemma q_off : forall n x x' (kids : list (A * (cnode * cmem))) a, m_off x' = m_off x -> ments_q aeqb M n x' kids a = ments_q aeqb M n x kids a.
Proof using Type. intros n x x' kids a E. unfold ments_q. now rewrite E. Qed.
Lemma temp_same : forall n n' : dnode, ddepth n' = ddepth n -> dvisits n' = dvisits n -> ments_temp M n' = ments_temp M n.
Proof using Type. intros n n' E1 E2. unfold ments_temp, is_root. now rewrite E1, E2. Qed.
Lemma cons_backc : forall n x kids cx b x1, innerc C n -> True -> ckids_ok C ta (td_ok aeqb C M) n kids ->
  (forall v, In v (seen_c ta cx) -> v = kids) -> back_c ta n x kids cx b = Ok x1 -> cons_c n x1 kids.
Proof using Type.
  intros n x kids cx b x1 In1 _ [_ K] _ E. cbn [back_c tents] in E. injection E as <-.
  destruct (C38_soft_value M n x (onto t_m kids)) as (v & W & E).
  - intros o d y I1. unfold onto in I1. apply in_map_iff in I1. destruct I1 as ([o' [d' y']] & [= -> -> <-] & I1).
    destruct (K _ _ _ I1) as [_ (_ & _ & P2)]. exact P2.
  - exists v. split; [|now rewrite E]. unfold onto in W. rewrite map_map in W. exact W.
Qed.
Lemma cons_rules : quiet_rules aeqb C ta (td_ok aeqb C M) (fun _ _ => True) (tx_ok aeqb C M) A (fun a => a) cons_q cons_c.
Proof using aeqb_ok Env Pr.
  constructor.
  - intros a s k t Ia. set (n := new_dnode C s k t) in *. cbn [new_xd tents].
    destruct (new_maps aeqb aeqb_ok C M (eo_nodup _ _ Env) n) as (Em & _ & H); [now apply pr_total|].
    destruct (ments_q_total aeqb aeqb_ok C M n (ments_new_d C M n) [] a (pr_total C M Pr n) Ia) as (q & Eq).
    exists (dvisits n), q. split; [cbn; pose proof (eo_visits _ _ Env); lia|]. split.
    + rewrite Em. exact Eq.
    + rewrite with_same. apply H. split; auto. unfold q_over_temp. rewrite Eq. reflexivity.
  - intros a n x kids (Hv & _) H Ia. destruct (H Ia) as (v & q & Bv & Eq & I). exists v, q. split; [cbn; lia|]. split.
    + cbn [vis_d tents t_m]. rewrite <- Eq. rewrite (q_same n (visit_d n) _ kids kids a) by reflexivity. apply q_off. unfold ments_visit. now destruct (is_leaf C n).
    + exact I.
  - intros a n n' x kids kids' H _ E1 E2 E3 E4 E5 El Ia. rewrite E1 in Ia. destruct (H Ia) as (v & q & Bv & Eq & I). exists v, q.
    split; [lia|]. split.
    + rewrite <- Eq. apply q_same; auto.
    + rewrite (temp_same (with_visits n v)); auto.
  - intros n x kids cx b x1 k a k' In1 (Hv & Mo & _) [_ K] Px Ed (c & y & Q) _ E. cbn [back_d tents] in E.
    destruct (K _ _ _ Q) as [(_ & _ & _ & _ & Ia) _].
    destruct (tents_backup_ok aeqb aeqb_ok C M Env Pr n x kids k' a k cx) as (v & x2 & sp & Ev & _ & _ & _ & H1 & H2 & _ & E2); auto; [apply Env, In1|].
    rewrite E2 in E. injection E as <-. split.
    + intros _. unfold q_over_temp in Ev. destruct (ments_q aeqb M n (t_m x) kids a) as [q| |] eqn:Eq; cbn [bind] in Ev; try discriminate.
      injection Ev as <-. exists (dvisits n), q. split; [lia|]. split.
      * cbn [t_m]. rewrite <- Eq. now apply q_off.
      * rewrite with_same. exact H1.
    + intros l Nl H Il. destruct (H Il) as (w & q & Bw & Eq & I). exists w, q. split; auto. split.
      * cbn [t_m]. rewrite <- Eq. now apply q_off.
      * cbn [t_a2q]. now apply H2.
  - apply cons_backc.
Qed.
Lemma cons_reach : forall n g s, areach seqb aeqb C ta n g s -> forall d node x a, settled (base s) d ->
  nth_error (dh (mem (base s))) d = Some node -> nth_error (xds s) d = Some x -> cons_q a node x (dview s node).
Proof using seqb_ok aeqb_ok Env Pr NoTT.
  intros n g s R d node x a St Hd Hx.
  destruct (q_reach seqb aeqb seqb_ok aeqb_ok C ta NoTT _ _ _ _ (tents_rules aeqb aeqb_ok C M Env Pr) A (fun a => a) (aeq_dec aeqb aeqb_ok) cons_q cons_c cons_rules (or_introl (fun _ => eq_refl)) n g s R)
    as (ga & [_ _ K1 _]).
  destruct (K1 _ _ _ a Hd Hx) as [K|(t & th & Ht & O)]; auto. exfalso. apply (St _ _ Ht). clear - O.
  destruct O as [(a' & c & I & _)|(a' & I & _)].
  - assert (J : In d (map fst (pairs th))) by (apply in_map_iff; now exists (d, c)). destruct th; cbn in *; auto.
  - destruct th; cbn in *; auto; contradiction.
Qed.
(** The value by which an action is ranked is its current value over the temperature of some number of visits. *)
Lemma C45_ages' : forall n g s d node x a, areach seqb aeqb C ta n g s -> settled (base s) d ->
  nth_error (dh (mem (base s))) d = Some node -> nth_error (xds s) d = Some x -> In a (acts C (dstate node)) ->
  exists v q, (0 <= v <= dvisits node)%Z /\ q_of M c_soft node (m_off (t_m (x : @tmem A))) (dview s node) a q /\
    In (a, q / ments_temp M (with_visits node v)) (t_a2q (x : @tmem A)).
Proof using seqb_ok aeqb_ok Env Pr NoTT.
  intros n g s d node x a R St Hd Hx Ia. destruct (cons_reach n g s R d node x a St Hd Hx Ia) as (v & q & Bv & Eq & I).
  exists v, q. split; auto. split; auto. now apply (ments_q_spec aeqb aeqb_ok).
Qed.
Lemma C45_fixed' : 0 < mtemp M -> mdecay M = None -> forall n g s d node x, areach seqb aeqb C ta n g s -> settled (base s) d ->
  nth_error (dh (mem (base s))) d = Some node -> nth_error (xds s) d = Some x ->
  exists q, (forall a, In a (acts C (dstate node)) -> q_of M c_soft node (m_off (t_m (x : @tmem A))) (dview s node) a (q a)) /\
    maps_hold (acts C (dstate node)) (x : @tmem A) (fun a => q a / mtemp M).
Proof using seqb_ok aeqb_ok Env Pr NoTT.
  intros Tp Dn n g s d node x R St Hd Hx. pose proof (C44_maps' n g s d node x R Hd Hx) as Mo.
  exists (fun a => valf aeqb (t_a2q (x : @tmem A)) a * mtemp M).
  assert (K : forall a, In a (acts C (dstate node)) -> exists q, q_of M c_soft node (m_off (t_m (x : @tmem A))) (dview s node) a q /\
     valf aeqb (t_a2q (x : @tmem A)) a = q / mtemp M).
  { intros a Ia. destruct (C45_ages' n g s d node x a R St Hd Hx Ia) as (v & q & _ & Q & I). exists q. split; auto.
    unfold ments_temp in I. rewrite Dn in I. unfold valf. now rewrite (in_lookup aeqb aeqb_ok _ _ _ _ (mo_nodup _ _ Mo) I). }
  split.
  - intros a Ia. destruct (K a Ia) as (q & Q & ->). replace (q / mtemp M * mtemp M) with q by (field; lra). exact Q.
  - destruct (maps_values aeqb aeqb_ok _ _ Mo) as [_ H]. split; auto. intros a Ia.
    replace (valf aeqb (t_a2q (x : @tmem A)) a * mtemp M / mtemp M) with (valf aeqb (t_a2q (x : @tmem A)) a) by (field; lra). now apply H.
Qed.
(** A single worker finds the node at which it selects settled. *)
Lemma tents_ent : forall n x kids cx g a cx1 g1 k, select ta n x kids cx g = Ok (a, cx1, g1) -> k <> ddepth n ->
  mat Z.eqb (cx1 : list (Z * A)) k = mat Z.eqb (cx : list (Z * A)) k.
Proof using Type.
  intros n x kids cx g a cx1 g1 k E N. cbn [select tents] in E. unfold tents_select in E.
  destruct (tents_weights aeqb C M n x kids) as [[w sum]| |]; try discriminate. cbn [bind] in E.
  destruct (mix aeqb C M n w sum) as [d| |]; try discriminate. cbn [bind] in E.
  destruct (sample_actions M d g) as [[a' g']| |]; try discriminate. cbn [bind] in E. injection E as <- <- <-.
  rewrite mat_mput. destruct (Z.eqb_spec (ddepth n) k); congruence.
Qed.
Lemma tents_put : forall n x kids cx g a cx1 g1, select ta n x kids cx g = Ok (a, cx1, g1) -> mat Z.eqb (cx1 : list (Z * A)) (ddepth n) = Ok a.
Proof using Type.
  intros n x kids cx g a cx1 g1 E. cbn [select tents] in E. unfold tents_select in E.
  destruct (tents_weights aeqb C M n x kids) as [[w sum]| |]; try discriminate. cbn [bind] in E.
  destruct (mix aeqb C M n w sum) as [d| |]; try discriminate. cbn [bind] in E.
  destruct (sample_actions M d g) as [[a' g']| |]; try discriminate. cbn [bind] in E. injection E as <- <- <-.
  rewrite mat_mput. now rewrite Z.eqb_refl.
Qed.
Lemma tents_sam : forall n x cx g o cx1 g1 k, sample ta n x cx g = Ok (o, cx1, g1) -> mat Z.eqb (cx1 : list (Z * A)) k = mat Z.eqb (cx : list (Z * A)) k.
Proof using Type.
  intros n x cx g o cx1 g1 k E. cbn [sample tents] in E. destruct (ments_sample M n g) as [[o' g']| |]; try discriminate.
  cbn in E. now injection E as <- <- <-.
Qed.
Lemma settled_quiet : forall s : @EngineModel.est S A, quiet s -> forall d, settled s d.
Proof using Type. intros s Q d t th Ht. rewrite (Q t th Ht). exact (fun F => F). Qed.

(** ** Values between trials *)
Lemma put_has : forall (m : list (A * R)) a v, In (a, v) (mput aeqb m a v).
Proof using aeqb_ok. intros m a v. apply (EngineProofs.lookup_in _ _ aeqb); auto. rewrite (lookup_mput aeqb aeqb_ok). now rewrite (proj2 (aeqb_ok a a) eq_refl). Qed.
Lemma C74_tents' : forall n g s, areach seqb aeqb C ta n g s -> quiet (base s) ->
  (forall d node x, nth_error (dh (mem (base s))) d = Some node -> nth_error (xds s) d = Some x ->
     dkids node = [] /\ m_soft (t_m (x : @tmem A)) = dheur node \/
     exists (v : Z) (sp : R), (0 <= v <= dvisits node)%Z /\
       (forall z, maps_hold (acts C (dstate node)) (x : @tmem A) z -> sparse_max (acts C (dstate node)) z sp) /\
       m_soft (t_m (x : @tmem A)) = seen M node (ments_temp M (with_visits node v) * sp)) /\
  (forall c node x, nth_error (ch (mem (base s))) c = Some node -> nth_error (xcs s) c = Some x ->
     exists v, weighted_mean (map (fun k => (m_nb (t_m (snd (snd k) : @tmem A)), m_soft (t_m (snd (snd k) : @tmem A)))) (cview s node)) v /\
       c_soft (x : cmem) = mreward M (cstate node) (cact node) + v).
Proof using seqb_ok aeqb_ok Env Pr NoTT.
  intros n g s R Q.
  destruct (quiet_backups seqb aeqb seqb_ok aeqb_ok C ta NoTT _ _ _ _ (tents_rules aeqb aeqb_ok C M Env Pr)
     (fun x : @tmem A => match x with mkTm (mkMm _ _ _) _ _ => eq_refl end) (fun n (x : XD ta) => m_soft (t_m (x : @tmem A)) = dheur n)) with (n := n) (g := g) (s := s) as [K1 K2]; auto.
  { intros s0 k t. cbn [new_xd tents].
    destruct (new_maps aeqb aeqb_ok C M (eo_nodup _ _ Env) (new_dnode C s0 k t)) as (Em & _); [now apply pr_total|]. rewrite Em.
    cbn. destruct (heuristic C); reflexivity. }
  { intros n0 x leaf H. cbn [vis_d tents t_m]. unfold ments_visit. destruct leaf; exact H. }
  split.
  - intros d node x Hd Hx. destruct (K1 d node x Hd Hx) as [[E F]|(v & x0 & cx & b & Hv & In1 & (P1 & P2 & P3) & K & _ & B)].
    { left. split; [eapply dview_nil; eauto|exact F]. }
    right. pose proof (C44_maps' n g s d node x R Hd Hx) as Mo. cbn in P1, P2.
    assert (Ha : exists a, mat Z.eqb (cx : list (Z * A)) (ddepth (with_visits node v)) = Ok a /\ In a (acts C (dstate node))).
    { cbn [back_d tents] in B. unfold tents_backup_d in B. destruct (mat Z.eqb (cx : list (Z * A)) _) as [a| |]; try discriminate. cbn [bind] in B.
      destruct (q_over_temp _ _ _ _ _ _) as [w| |]; try discriminate. cbn [bind] in B. unfold update_maps in B.
      destruct (mm_erase _ _ _ _) as [l| |]; try discriminate. cbn [bind] in B. cbv zeta in B. destruct (spmax _ _) as [sp| |]; try discriminate. cbn [bind t_a2q] in B.
      injection B as B. exists a. split; auto. apply (mo_keys _ _ Mo). rewrite <- B. cbn [t_a2q]. apply in_map_iff. exists (a, w). split; auto. apply put_has. }
    destruct Ha as (a & Ha & Ia).
    destruct (tents_backup_at aeqb aeqb_ok C M (with_visits node v) x0 (dview s node) a cx (pr_total C M Pr _) ltac:(apply (eo_acts _ _ Env); exact (proj1 In1)) (eo_nodup _ _ Env _) P2 Ha Ia)
      as (w & x1 & sp & _ & _ & _ & _ & _ & _ & Sm & E).
    cbn [back_d tents] in B. rewrite E in B. injection B as <-. exists v, sp. split; [lia|]. cbn [t_m m_soft]. split.
    + intros z Hz. eapply sparse_max_ext; [|exact Sm]. intros c Ic. symmetry. exact (hold_values _ _ _ Hz c Ic).
    + rewrite <- opp_seen. unfold opp_coeff. cbn. ring.
  - intros c node x Hc Hx. destruct (K2 c node x Hc Hx) as (x0 & cx & b & In1 & P & [ND K] & V & B).
    exact (cons_backc node x0 (cview s node) cx b x In1 P (conj ND K) V B).
Qed.
Lemma C74_fixed' : 0 < mtemp M -> mdecay M = None -> forall n g s d node x, areach seqb aeqb C ta n g s -> quiet (base s) ->
  nth_error (dh (mem (base s))) d = Some node -> nth_error (xds s) d = Some x -> dkids node <> [] ->
  exists q sp, (forall a, In a (acts C (dstate node)) -> q_of M c_soft node (m_off (t_m (x : @tmem A))) (dview s node) a (q a)) /\
    sparse_max (acts C (dstate node)) (fun a => q a / mtemp M) sp /\ m_soft (t_m (x : @tmem A)) = seen M node (mtemp M * sp).
Proof using seqb_ok aeqb_ok Env Pr NoTT.
  intros Tp Dn n g s d node x R Q Hd Hx NE.
  destruct (C45_fixed' Tp Dn n g s d node x R (settled_quiet (base s) Q d) Hd Hx) as (q & Hq & Hm).
  destruct (proj1 (C74_tents' n g s R Q) d node x Hd Hx) as [[E _]|(v & sp & _ & H1 & H2)]; [contradiction|].
  exists q, sp. split; auto. split; [now apply H1|]. rewrite H2. unfold ments_temp. now rewrite Dn.
Qed.
End Agree.
End Sane.

Lemma linked_in : forall m (w : list (@event S A)) cur nodes p c, linked seqb m w cur nodes -> In (p, c) nodes -> exists a, In (EVisitD p a c) w.
Proof using Type.
  intros m w cur nodes p c H. induction H as [cur n Hn E|cur q c' nodes a o n np Hi Hc Hn Hp E _ IH]; [intros []|].
  intros [[= -> ->]|Q]; eauto.
Qed.
Lemma trail_tents : forall n g s, areach seqb aeqb C ta n g s ->
  trail seqb aeqb C ta _ (fun (cx : list (Z * A)) k => mat Z.eqb cx k) n g s.
Proof using seqb_ok aeqb_ok.
  intros n g. apply (trail_reach seqb aeqb seqb_ok aeqb_ok C ta _ (fun (cx : list (Z * A)) k => mat Z.eqb cx k)); [apply tents_ent|apply tents_sam| | |]; try reflexivity; intros kids cx cx1 k E; discriminate E.
Qed.

Lemma one_settled : forall g s d flag nodes rewards, areach seqb aeqb C ta 1 g s -> nth_error (ths (base s)) 0 = Some (TSel d flag nodes rewards) ->
  settled (base s) d.
Proof using seqb_ok aeqb_ok.
  intros g s d flag nodes rewards R Ht t th Ht' O.
  assert (L : length (ths (base s)) = 1%nat) by (apply (ths_length seqb aeqb seqb_ok aeqb_ok C 1 (base s)); exact (areach_ereach seqb aeqb C ta _ _ _ R)).
  assert (t = 0%nat) as -> by (assert (t < length (ths (base s)))%nat by (apply nth_error_Some; congruence); lia).
  rewrite Ht in Ht'. injection Ht' as <-. cbn in O.
  pose proof (areach_good seqb aeqb seqb_ok aeqb_ok C ta _ _ _ R) as I.
  assert (X : exists cx, nth_error (cxs s) 0 = Some cx).
  { pose proof (ag_t _ _ _ _ _ I) as Lt. destruct (nth_error (cxs s) 0) eqn:E; [eauto|]. apply nth_error_None in E. lia. }
  destruct X as (cx & Hx). destruct (trail_tents _ _ _ R _ _ _ Ht Hx) as [_ [Lk (n & Hn & Bl)]].
  apply in_map_iff in O. destruct O as ([d' c] & E & Q). cbn in E. subst d'. destruct (linked_in _ _ _ _ _ _ Lk Q) as (a & Qa).
  destruct (Bl _ _ _ Qa) as (n' & Hn' & Lt). rewrite Hn in Hn'. injection Hn' as <-. lia.
Qed.
(** ** C46 *)
Lemma C46_tents' : forall n g s t th cx d a c, areach seqb aeqb C ta n g s -> nth_error (ths (base s)) t = Some th ->
  nth_error (cxs s) t = Some cx -> In (EVisitD d a c) (trial t (etrace (base s))) ->
  exists node s0 n0 x0 cx0 cx1 g1 w, nth_error (dh (mem (base s))) d = Some node /\
    mat Z.eqb (cx : list (Z * A)) (ddepth node) = Ok a /\
    areach seqb aeqb C ta n g s0 /\ selects_now C s0 t d n0 x0 cx0 a cx1 g1 /\
    trial t (etrace (base s)) = trial t (etrace (base s0)) ++ EVisitD d a c :: w.
Proof using seqb_ok aeqb_ok.
  intros n g s t th cx d a c R Ht Hx Q. destruct (trail_tents _ _ _ R _ _ _ Ht Hx) as [K _]. cbv zeta in K.
  destruct (K _ _ _ Q) as (s0 & nd & x & cx0 & cx1 & g1 & w' & node & R0 & Sn & E & Hn & Ed & Ee).
  exists node, s0, nd, x, cx0, cx1, g1, w'. split; auto. split; [|auto]. rewrite Ed, Ee.
  destruct Sn as (flag & nodes & rewards & _ & _ & _ & _ & _ & _ & Es). now apply tents_put in Es.
Qed.
Lemma C46_tents_backup' : forall n g s t cx d nodes before after tafter total, areach seqb aeqb C ta n g s ->
  nth_error (ths (base s)) t = Some (TBackD d nodes before after tafter total) -> nth_error (cxs s) t = Some cx ->
  exists a c, In (EVisitD d a c) (trial t (etrace (base s))).
Proof using seqb_ok aeqb_ok.
  intros n g s t cx d nodes before after tafter total R Ht Hx. destruct (trail_tents _ _ _ R _ _ _ Ht Hx) as [_ [_ K]]. exact K.
Qed.

Lemma rents_sel : forall n x kids cx g a cx1 g1, select ra n x kids cx g = Ok (a, cx1, g1) ->
  exists m, rents_distr aeqb C M n x kids cx = Ok (Some m) /\ (cx1 : list (Z * list (A * R))) = mput Z.eqb (cx : list (Z * list (A * R))) (ddepth n) m.
Proof using Type.
  intros n x kids cx g a cx1 g1 E. cbn [select rents] in E. unfold rents_select in E.
  destruct (rents_distr aeqb C M n x kids cx) as [[m|]| |]; cbn [bind] in E; try discriminate.
  cbv zeta in E. destruct (sample_actions M (Some m) g) as [[a' g']| |]; try discriminate. cbn [bind] in E. injection E as <- <- <-. eauto.
Qed.
Lemma rents_ent : forall n x kids cx g a cx1 g1 k, select ra n x kids cx g = Ok (a, cx1, g1) -> k <> ddepth n ->
  mat Z.eqb (cx1 : list (Z * list (A * R))) k = mat Z.eqb (cx : list (Z * list (A * R))) k.
Proof using Type.
  intros n x kids cx g a cx1 g1 k E N. apply rents_sel in E. destruct E as (m & _ & E). cbn in E. rewrite E, mat_mput. destruct (Z.eqb_spec (ddepth n) k); congruence.
Qed.
Lemma rents_sam : forall n x cx g o cx1 g1 k, sample ra n x cx g = Ok (o, cx1, g1) ->
  mat Z.eqb (cx1 : list (Z * list (A * R))) k = mat Z.eqb (cx : list (Z * list (A * R))) k.
Proof using Type.
  intros n x cx g o cx1 g1 k E. cbn [sample rents] in E. destruct (ments_sample M n g) as [[o' g']| |]; try discriminate.
  cbn in E. now injection E as <- <- <-.
Qed.
Lemma trail_rents : forall n g s, areach seqb aeqb C ra n g s ->
  trail seqb aeqb C ra _ (fun (cx : list (Z * list (A * R))) k => mat Z.eqb cx k) n g s.
Proof using seqb_ok aeqb_ok.
  intros n g. apply (trail_reach seqb aeqb seqb_ok aeqb_ok C ra _ (fun (cx : list (Z * list (A * R))) k => mat Z.eqb cx k)); [apply rents_ent|apply rents_sam| | |]; try reflexivity; intros kids cx cx1 k E; discriminate E.
Qed.
Lemma C46_rents' : forall n g s t th cx d nodes node, areach seqb aeqb C ra n g s -> nth_error (ths (base s)) t = Some th ->
  at_decision th d nodes -> nth_error (cxs s) t = Some cx -> nth_error (dh (mem (base s))) d = Some node ->
  ddepth node = 0%Z /\ nodes = [] /\ parent_distr node (cx : list (Z * list (A * R))) = Ok None \/
  exists p parent a c o rest s0 n0 x0 cx0 cx1 g1 w m, nodes = (p, c) :: rest /\
    nth_error (dh (mem (base s))) p = Some parent /\ ddepth node = (ddepth parent + 1)%Z /\ cchild seqb (mem (base s)) c o d /\
    areach seqb aeqb C ra n g s0 /\ selects_now C s0 t p n0 x0 cx0 a cx1 g1 /\
    trial t (etrace (base s)) = trial t (etrace (base s0)) ++ EVisitD p a c :: w /\
    rents_distr aeqb C M (visit_d n0) (vis_d ra (is_leaf C n0) x0) (dview s0 n0) cx0 = Ok (Some m) /\
    parent_distr node (cx : list (Z * list (A * R))) = Ok (Some m).
Proof using seqb_ok aeqb_ok.
  intros n g s t th cx d nodes node R Ht Hat Hx Hd. destruct (trail_rents _ _ _ R _ _ _ Ht Hx) as [K T]. cbv zeta in K.
  assert (Lk : linked seqb (mem (base s)) (trial t (etrace (base s))) d nodes).
  { destruct th; cbn in Hat; try contradiction; destruct Hat as [-> ->]; apply T. }
  inversion Lk as [cur n1 H1 E1|cur p c rest a o n1 np Hi Hc H1 Hp E1 _]; subst.
  - left. rewrite Hd in H1. injection H1 as <-. split; auto. split; auto. unfold parent_distr. now rewrite E1.
  - right. rewrite Hd in H1. injection H1 as <-.
    destruct (K _ _ _ Hi) as (s0 & nd & x & cx0 & cx1 & g1 & w' & np' & R0 & Sn & E & Hn & Ed & Ee).
    rewrite Hp in Hn. injection Hn as <-.
    pose proof Sn as (flag & nodes' & rewards & _ & Hn0 & _ & _ & _ & _ & Es). apply rents_sel in Es. destruct Es as (m & Em & Ex).
    exists p, np, a, c, o, rest, s0, nd, x, cx0, cx1, g1, w', m. split; auto. split; auto. split; auto. split; auto. split; auto. split; auto. split; auto. split; auto.
    assert (Dp : (0 <= ddepth np)%Z).
    { pose proof (areach_good seqb aeqb seqb_ok aeqb_ok C ra _ _ _ R) as I. pose proof I as [[Ti _] _ _ _ _]. apply (ti_time _ _ _ _ Ti _ _ Hp). }
    unfold parent_distr. replace (ddepth node <? 1)%Z with false by (symmetry; apply Z.ltb_ge; lia).
    replace (ddepth node - 1)%Z with (ddepth nd) by lia. rewrite Ee, Ex. change (ddepth (visit_d nd)) with (ddepth nd). rewrite mat_mput, Z.eqb_refl. reflexivity.
Qed.

(** ** What a single worker samples *)
Section One.
Hypothesis Mok : ments_ok C M.
Hypothesis Env : env_ok C M.
Hypothesis Pr : prior_ok C M.
Hypothesis NoTT : use_tt C = false.
Hypothesis Tp : 0 < mtemp M.
Hypothesis Dn : mdecay M = None.
Lemma C45_selection' : forall g s d n x cx a cx1 g1, areach seqb aeqb C ta 1 g s -> selects_now C s 0 d n x cx a cx1 g1 ->
  exists q p m, (forall a, In a (acts C (dstate n)) -> q_of M c_soft n (m_off (t_m (x : @tmem A))) (dview s n) a (q a)) /\
    projection (acts C (dstate n)) (fun a => q a / mtemp M) p /\
    holds_from (1 / IZR (10 ^ 16)) (mixture aeqb C M (visit_d n) p) (acts C (dstate n)) m /\
    sample_actions M (Some m) (rg s) = Ok (a, g1).
Proof using seqb_ok aeqb_ok Env Pr NoTT Tp Dn.
  intros g s d n x cx a cx1 g1 R (flag & nodes & rewards & Ht & Hd & Hx & Hcx & Hc & _ & E).
  pose proof (one_settled _ _ _ _ _ _ R Ht) as St.
  destruct (C45_fixed' Env Pr NoTT Tp Dn _ _ _ _ _ _ R St Hd Hx) as (q & Hq & Mh).
  pose proof (areach_good seqb aeqb seqb_ok aeqb_ok C ta _ _ _ R) as I.
  pose proof (cont_inner seqb aeqb C ta _ _ _ _ I Hd Hc) as In1.
  destruct (dview_facts seqb aeqb seqb_ok aeqb_ok C ta _ _ _ _ _ R Hd) as (ND & _ & _).
  pose proof (no_d _ _ _ _ _ _ _ _ (nodes_reach seqb aeqb seqb_ok aeqb_ok C ta _ _ _ _ (tents_rules aeqb aeqb_ok C M Env Pr) _ _ _ R) _ _ _ Hd Hx) as [Hv _].
  assert (NE : acts C (dstate n) <> []) by (apply Env, In1).
  set (x' := vis_d ta (is_leaf C n) x) in *.
  assert (Off : m_off (t_m (x' : @tmem A)) = m_off (t_m (x : @tmem A))) by (cbn; unfold ments_visit; now destruct (is_leaf C n)).
  assert (Tv : ments_temp M (visit_d n) = mtemp M) by (unfold ments_temp; now rewrite Dn).
  destruct (C44_weights' (visit_d n) (x' : @tmem A) (dview s n) q (eo_nodup _ _ Env) (pr_total C M Pr _) NE ND) as (p & Pp & _ & Ew).
  { intros b Ib. rewrite Off. specialize (Hq b Ib). destruct Hq as [c y Q|p0 w Q E1 I1|Q E1]; [exact (q_child M c_soft (visit_d n) _ _ _ c y Q)|eapply q_prior; eauto|exact (q_default M c_soft (visit_d n) _ _ b Q E1)]. }
  { rewrite Tv. destruct Mh as [[K1 K2 K3 K4] K]. split; [now constructor|exact K]. }
  rewrite Tv in Pp.
  assert (Kp : map fst (map (fun a => (a, p a)) (acts C (dstate n))) = acts C (dstate n)) by (rewrite map_map; cbn; apply map_id).
  assert (Vp : forall b, In b (acts C (dstate n)) -> valf aeqb (map (fun a => (a, p a)) (acts C (dstate n))) b = p b).
  { intros b Ib. unfold valf. rewrite (in_lookup aeqb aeqb_ok _ (map (fun a => (a, p a)) (acts C (dstate n))) b (p b)); auto.
    - rewrite Kp. apply Env.
    - apply in_map_iff. exists b. auto. }
  destruct Pp as [[P1 P2] P3].
  cbn [select tents] in E. unfold tents_select in E.
  change (bind (tents_weights aeqb C M (visit_d n) (x' : @tmem A) (dview s n)) (fun '(w, sum) => bind (mix aeqb C M (visit_d n) w sum) (fun d => bind (sample_actions M d (rg s)) (fun '(a, g1) => Ok (a, mput Z.eqb cx (ddepth n) a, g1)))) = Ok (a, cx1, g1)) in E.
  change (dstate (visit_d n)) with (dstate n) in *. rewrite Ew in E. cbn [bind] in E.
  destruct (mix_spec aeqb aeqb_ok C M (visit_d n) (map (fun a => (a, p a)) (acts C (dstate n))) 1) as (m & Em & Hn1 & Hm).
  { left. cbn [visit_d dvisits]. lia. }
  { exact (pr_total C M Pr _). }
  { exact (pr_there C M Pr _). }
  { apply Env. }
  { rewrite Kp. apply Env. }
  { rewrite Kp. cbn. tauto. }
  rewrite Em in E. cbn [bind] in E. destruct (sample_actions M (Some m) (rg s)) as [[a' g']| |] eqn:Es; try discriminate. cbn [bind] in E.
  injection E as <- <- <-. exists q, p, m. split; auto. split; [split; [split; auto|auto]|]. split; [|exact Es].
  split; auto. intros b v. rewrite Hm. cbn [visit_d dstate].
  assert (Eb : In b (acts C (dstate n)) -> mixture aeqb C M (visit_d n) (fun a => valf aeqb (map (fun a => (a, p a)) (acts C (dstate n))) a / 1) b = mixture aeqb C M (visit_d n) p b).
  { intros Ib. unfold mixture. rewrite Vp by exact Ib. f_equal. f_equal. f_equal. f_equal. lra. }
  unfold ments_eps. split; intros (K1 & K2 & K3); (split; [exact K1|]); rewrite (Eb K1) in *; auto.
Qed.
End One.

(** ** Weights and values of RENTS *)
Lemma looks_parent : forall (n : dnode) cx parent, looks_up n cx parent <-> parent_distr n cx = Ok parent.
Proof using Type.
  intros n cx parent. unfold looks_up, parent_distr. destruct (Z.ltb_spec (ddepth n) 1).
  - split; [intros [[_ ->]|[H1 _]]; [auto|lia]|]. intros [= <-]. left. split; auto. lia.
  - destruct (mat Z.eqb cx (ddepth n - 1)%Z) as [m| |]; cbn [bind]; split.
    + intros [[H1 _]|(_ & m' & [= <-] & ->)]; auto. lia.
    + intros [= <-]. right. split; [lia|]. eauto.
    + intros [[H1 _]|(_ & m' & E & _)]; [lia|discriminate].
    + discriminate.
    + intros [[H1 _]|(_ & m' & E & _)]; [lia|discriminate].
    + discriminate.
Qed.
Section Rents.
Hypothesis Env : env_ok C M.
Hypothesis Pr : prior_ok C M.
Lemma shares_prob : forall par f, (forall m, par = Some m -> NoDup (map fst m)) -> shares par f -> forall a, parent_prob aeqb par a = f a.
Proof using aeqb_ok.
  intros par f ND H a. specialize (H a). destruct par as [m|]; cbn; [|now rewrite H]. destruct H as [I|[N ->]].
  - now rewrite (in_lookup aeqb aeqb_ok _ _ _ _ (ND m eq_refl) I).
  - destruct (lookup aeqb a m) eqn:E; auto. exfalso. apply N. apply EngineProofs.lookup_in in E; auto. apply in_map_iff. now exists (a, r).
Qed.
Lemma norm_best : forall t (qs : list (A * R)) l q best, map (fun a => (a, q a)) l = qs -> In best l -> 0 < t ->
  (forall a, In a l -> q a <= q best) -> dbl_lowest <= q best / t -> norm_term t qs = q best / t.
Proof using Type.
  intros t qs l q best <- Ib Ht Hb Lo. unfold norm_term.
  assert (K : forall l acc, (forall a, In a l -> q a <= q best) -> acc <= q best / t -> (In best l \/ acc = q best / t) ->
    fold_left (fun norm p => if Rltb norm (snd p / t) then snd p / t else norm) (map (fun a => (a, q a)) l) acc = q best / t).
  { clear - Ht. induction l as [|a l IH]; intros acc Hq La Hi; cbn [map fold_left snd].
    - destruct Hi as [Hi|E]; [destruct Hi|auto].
    - assert (La' : q a / t <= q best / t) by (apply Rmult_le_compat_r; [left; now apply Rinv_0_lt_compat|apply Hq; now left]).
      apply IH; [intros b Ib; apply Hq; now right| |].
      + destruct (Rltb acc (q a / t)); auto.
      + destruct (Rltb acc (q a / t)) eqn:E; [apply Rltb_true in E|apply Rltb_false in E].
        * destruct Hi as [[Hi|Hi]|Hi]; [right; now rewrite Hi|now left|lra].
        * destruct Hi as [[Hi|Hi]|Hi]; [right; subst a; lra|now left|now right]. }
  apply K; auto.
Qed.
Section Node.
Variables (n : dnode) (x : mmem) (kids : list (A * (cnode * cmem))) (cx : list (Z * list (A * R))) (par : option (list (A * R))) (f q : A -> R) (best : A).
Notation l := (acts C (dstate n)).
Notation t := (ments_temp M n).
Hypothesis NK : NoDup (map fst kids).
Hypothesis Ep : parent_distr n cx = Ok par.
Hypothesis Np : forall m, par = Some m -> NoDup (map fst m).
Hypothesis Sh : shares par f.
Hypothesis Hf : forall a, 0 <= f a <= 1.
Hypothesis Tp : 0 < t.
Hypothesis Hq : forall a, In a l -> q_of M c_soft n (m_off x) kids a (q a).
Hypothesis Ib : In best l.
Hypothesis Hb : forall a, In a l -> q a <= q best.
Hypothesis Lo : dbl_lowest <= q best / t.

Lemma rents_node : exists qs w, all_q (ments_q aeqb M n x kids) l = Ok qs /\
  rents_weights aeqb C M n qs par = (w, rsum_of (valf aeqb w) l, q best / t) /\ map fst w = l /\
  ments_eps <= rsum_of (valf aeqb w) l /\
  let u a := f a * exp (q a / t) / exp (q best / t) in
  (ments_eps <= rsum_of u l -> forall a, In a l -> valf aeqb w a = u a) /\
  (rsum_of u l < ments_eps -> forall a, In a l -> valf aeqb w a = 1 / INR (length l)).
Proof using aeqb_ok Env Pr NK Ep Np Sh Hf Tp Hq Ib Hb Lo.
  assert (NE : l <> []) by (intros E; rewrite E in Ib; exact Ib). assert (ND : NoDup l) by apply Env.
  pose proof (shares_prob par f Np Sh) as Pf.
  destruct (rents_weights_ok aeqb aeqb_ok C M Env Pr n x kids par NE) as (qs & w & norm & E1 & E2 & Kw & Ws & En & Eq & U1 & U2).
  { intros a. rewrite Pf. apply Hf. }
  assert (Vq : forall a, In a l -> valf aeqb qs a = q a).
  { intros a Ia. specialize (Eq a Ia). apply (ments_q_spec aeqb aeqb_ok) in Eq. eapply q_of_fun; [exact NK| |exact Eq|now apply Hq].
    intros p E. now apply (pr_total C M Pr n). }
  assert (Kq : map (fun a => (a, q a)) l = qs).
  { assert (X : all_q (ments_q aeqb M n x kids) l = Ok (map (fun a => (a, q a)) l)).
    { apply all_q_total. intros a Ia. rewrite (Eq a Ia), Vq by exact Ia. reflexivity. }
    rewrite E1 in X. congruence. }
  assert (En' : norm = q best / t) by (rewrite En; eapply norm_best; eauto).
  assert (Eu : forall a, In a l -> exp (valf aeqb qs a / t - norm) * parent_prob aeqb par a = f a * exp (q a / t) / exp (q best / t)).
  { intros a Ia. rewrite Vq, Pf, En' by exact Ia. unfold Rminus. rewrite exp_plus, exp_Ropp. unfold Rdiv. ring. }
  exists qs, w. rewrite En' in E2. split; auto. split; auto. split; auto. split; auto. cbv zeta in *.
  assert (Es : rsum_of (fun a => exp (valf aeqb qs a / t - norm) * parent_prob aeqb par a) l = rsum_of (fun a => f a * exp (q a / t) / exp (q best / t)) l)
    by (apply rsum_of_ext; exact Eu).
  rewrite Es in U1, U2. split; intros H a Ia; [rewrite (U1 H a Ia); now apply Eu|now apply U2].
Qed.
Lemma rel_sum : rsum_of (fun a => f a * exp (q a / t) / exp (q best / t)) l = relative t f q l / exp (q best / t).
Proof using Type.
  unfold relative, Rdiv. rewrite (rsum_of_ext _ _ (fun a => / exp (q best * / t) * (f a * exp (q a * / t)))) by (intros; ring). rewrite rsum_of_scale. ring.
Qed.
Lemma C76_policy' : rate_known M n ->
  exists m, rents_distr aeqb C M n x kids cx = Ok (Some m) /\
  (1 / IZR (10 ^ 16) <= relative t f q l / exp (q best / t) -> holds_from (1 / IZR (10 ^ 16)) (mixture aeqb C M n (relative_boltzmann t f q l)) l m) /\
  (relative t f q l / exp (q best / t) < 1 / IZR (10 ^ 16) -> holds_from (1 / IZR (10 ^ 16)) (mixture aeqb C M n (fun _ => 1 / INR (length l))) l m).
Proof using aeqb_ok Env Pr NK Ep Np Sh Hf Tp Hq Ib Hb Lo.
  intros Hr. destruct rents_node as (qs & w & E1 & E2 & Kw & Ws & U1 & U2). rewrite rel_sum in U1, U2.
  destruct (mix_spec aeqb aeqb_ok C M n w (rsum_of (valf aeqb w) l) Hr (pr_total C M Pr n) (pr_there C M Pr n)) as (m & E & N1 & H); try apply Env.
  { rewrite Kw. apply Env. }
  { rewrite Kw. tauto. }
  exists m. split.
  - unfold rents_distr. rewrite E1. cbn [bind]. rewrite Ep. cbn [bind]. rewrite E2. exact E.
  - assert (K : forall b, (forall a, In a l -> valf aeqb w a / rsum_of (valf aeqb w) l = b a) -> holds_from (1 / IZR (10 ^ 16)) (mixture aeqb C M n b) l m).
    { intros b Hb'. split; auto. intros a p. rewrite H. unfold ments_eps. unfold mixture.
      split; intros (K1 & K2 & K3); (split; [exact K1|]); rewrite Hb' in * by exact K1; auto. }
    unfold ments_eps in *. split; intros Hc; apply K.
    + specialize (U1 Hc). intros a Ia. rewrite (rsum_of_ext _ (valf aeqb w) (fun a => f a * exp (q a / t) / exp (q best / t))) by exact U1. rewrite rel_sum, (U1 a Ia).
      assert (P1 : 0 < relative t f q l / exp (q best / t)) by (pose proof ments_eps_pos as P; unfold ments_eps in P; lra).
      assert (P2 : 0 < exp (q best / t)) by apply exp_pos.
      assert (P3 : relative t f q l <> 0) by (intros Z; rewrite Z in P1; unfold Rdiv in P1; lra).
      unfold relative_boltzmann. field. lra.
    + specialize (U2 Hc). intros a Ia. rewrite (rsum_of_ext _ (valf aeqb w) (fun a => 1 / INR (length l))) by exact U2. rewrite rsum_of_const, (U2 a Ia).
      assert (Ln : 0 < INR (length l)) by (apply lt_0_INR; destruct l; [destruct Ib|cbn; lia]). field. lra.
Qed.
Lemma C76_value' : exists x1, rents_backup_d aeqb C M n x kids cx = Ok x1 /\
  (1 / IZR (10 ^ 16) <= relative t f q l / exp (q best / t) -> m_soft x1 = seen M n (t * ln (relative t f q l))) /\
  (relative t f q l / exp (q best / t) < 1 / IZR (10 ^ 16) -> m_soft x1 = seen M n (q best)) /\
  m_nb x1 = (m_nb x + 1)%Z /\ m_off x1 = m_off x.
Proof using aeqb_ok Env Pr NK Ep Np Sh Hf Tp Hq Ib Hb Lo.
  destruct rents_node as (qs & w & E1 & E2 & Kw & Ws & U1 & U2). rewrite rel_sum in U1, U2. unfold rents_backup_d. rewrite E1. cbn [bind]. rewrite Ep. cbn [bind]. rewrite E2.
  eexists. split; [reflexivity|]. cbn [m_soft m_nb m_off]. unfold ments_eps in *. unfold soft_value. split; [|split; [|auto]]; intros Hc.
  - specialize (U1 Hc). rewrite (rsum_of_ext _ (valf aeqb w) (fun a => f a * exp (q a / t) / exp (q best / t))) by exact U1. rewrite rel_sum.
    assert (P1 : 0 < relative t f q l / exp (q best / t)) by (pose proof ments_eps_pos as P; unfold ments_eps in P; lra).
    assert (P2 : 0 < exp (q best / t)) by apply exp_pos.
    assert (P3 : 0 < relative t f q l).
    { replace (relative t f q l) with (relative t f q l / exp (q best / t) * exp (q best / t)) by (field; lra). now apply Rmult_lt_0_compat. }
    unfold Rdiv at 1. rewrite ln_mult; [|auto|now apply Rinv_0_lt_compat]. rewrite ln_Rinv, ln_exp by auto. rewrite <- opp_seen. ring.
  - specialize (U2 Hc). rewrite (rsum_of_ext _ (valf aeqb w) (fun a => 1 / INR (length l))) by exact U2. rewrite rsum_of_const.
    assert (Ln : 0 < INR (length l)) by (apply lt_0_INR; destruct l; [destruct Ib|cbn; lia]).
    replace (INR (length l) * (1 / INR (length l))) with 1 by (field; lra). rewrite ln_1, <- opp_seen. field. lra.
Qed.
End Node.
End Rents.

(** ** Recommendations *)
Section Rec.
Hypothesis Mok : ments_ok C M.
Hypothesis Env : env_ok C M.
Hypothesis Pr : prior_ok C M.
Lemma family_recommends : forall (node : dnode) x (kids : list (A * (cnode * cmem))), is_sink C (dstate node) = false -> NoDup (map fst kids) ->
  (forall a c y, In (a, (c, y)) kids -> In a (acts C (dstate node)) /\ (0 <= cvisits c)%Z) ->
  exists q, (forall a, In a (acts C (dstate node)) -> q_of M c_soft node (m_off x) kids a (q a)) /\
  (mmost_visited M = true \/ (forall a, In a (acts C (dstate node)) -> dbl_lowest <= q a) ->
   picks (ments_recommend aeqb C M node x kids)
    (if mmost_visited M then most_visited (acts C (dstate node)) kids
     else best_choice (acts C (dstate node)) (visited_enough M kids) q)).
Proof using All.
  intros node x kids Ns ND Hf.
  destruct (all_q_ex (ments_q aeqb M node x kids) (acts C (dstate node))) as (qs & Eq).
  { intros a Ia. apply (ments_q_total aeqb aeqb_ok C); auto. now apply pr_total. }
  assert (NDa : NoDup (acts C (dstate node))) by apply Env.
  assert (NEa : acts C (dstate node) <> []) by (now apply Env).
  destruct (all_q_fun aeqb aeqb_ok _ _ _ NDa Eq) as [_ Hq].
  exists (valf aeqb qs). split; [intros a Ia; now apply (ments_q_spec aeqb aeqb_ok), Hq|].
  intros Hl. unfold ments_recommend. destruct (mmost_visited M).
  - apply (visits_picks aeqb aeqb_ok C M (proj1 Mok)); auto. intros a c y Q. destruct (Hf _ _ _ Q) as [Q1 Q2]. split; auto.
    unfold int_lowest. lia.
  - apply (soft_picks aeqb aeqb_ok C M (proj1 Mok)); auto. destruct Hl as [Hl|Hl]; [discriminate|]. exact Hl.
Qed.
Lemma C21_rents' : forall n g s d (node : dnode) x, areach seqb aeqb C ra n g s -> nth_error (dh (mem (base s))) d = Some node ->
  nth_error (xds s) d = Some x -> is_sink C (dstate node) = false ->
  exists q, (forall a, In a (acts C (dstate node)) -> q_of M c_soft node (m_off (x : mmem)) (dview s node) a (q a)) /\
  (mmost_visited M = true \/ (forall a, In a (acts C (dstate node)) -> dbl_lowest <= q a) ->
   picks (ments_recommend aeqb C M node (x : mmem) (dview s node))
    (if mmost_visited M then most_visited (acts C (dstate node)) (dview s node)
     else best_choice (acts C (dstate node)) (visited_enough M (dview s node)) q)).
Proof using All.
  intros n g s d node x R Hd Hx Ns.
  destruct (dview_facts seqb aeqb seqb_ok aeqb_ok C ra _ _ _ _ _ R Hd) as (ND & _ & Hf).
  apply family_recommends; auto.
Qed.
Lemma C21_tents' : forall n g s d (node : dnode) x, areach seqb aeqb C ta n g s -> nth_error (dh (mem (base s))) d = Some node ->
  nth_error (xds s) d = Some x -> is_sink C (dstate node) = false ->
  exists q, (forall a, In a (acts C (dstate node)) -> q_of M c_soft node (m_off (t_m (x : @tmem A))) (dview s node) a (q a)) /\
  (mmost_visited M = true \/ (forall a, In a (acts C (dstate node)) -> dbl_lowest <= q a) ->
   picks (ments_recommend aeqb C M node (t_m (x : @tmem A)) (dview s node))
    (if mmost_visited M then most_visited (acts C (dstate node)) (dview s node)
     else best_choice (acts C (dstate node)) (visited_enough M (dview s node)) q)).
Proof using All.
  intros n g s d node x R Hd Hx Ns.
  destruct (dview_facts seqb aeqb seqb_ok aeqb_ok C ta _ _ _ _ _ R Hd) as (ND & _ & Hf).
  apply family_recommends; auto.
Qed.
End Rec.
End Results.
