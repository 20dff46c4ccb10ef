(** Soft and sparse values of searches are the values of their trees under mixed plans. *)
From Coq Require Import List ZArith Bool Reals Lia Lra.
From Verif Require Import Base BaseProofs NumOps RLemmas EngineModel EngineSpec EngineProofs EngineInv EngineCount EngineTheorems MapModel MapProofs AlgoModel AlgoProofs AlgoNodes AlgoHist
  UctModel UctSpec MentsModel SoftSpec SoftProofs MentsSpec WeightProofs QuietSpec QuietResults TentsSpec TentsResults TreeSpec TreeProofs TreeResults MixedProofs.
Import ListNotations.
Open Scope R_scope.

(** ** The variational formula of the log-sum-exp *)
Lemma ln_le_minus : forall x, 0 < x -> ln x <= x - 1.
Proof. intros x H. pose proof (exp_ineq1_le (ln x)) as E. rewrite exp_ln in E by exact H. lra. Qed.
Lemma gibbs_term : forall p e, 0 <= p -> 0 < e -> p * ln e - (if Req_EM_T p 0 then 0 else p * ln p) <= e - p.
Proof.
  intros p e Hp He. destruct (Req_EM_T p 0) as [->|N]; [lra|]. assert (P : 0 < p) by lra.
  replace (p * ln e - p * ln p) with (p * ln (e / p)).
  - assert (Q : 0 < e / p) by (apply Rdiv_lt_0_compat; auto). pose proof (ln_le_minus _ Q).
    apply Rle_trans with (p * (e / p - 1)); [apply Rmult_le_compat_l; lra|]. right. field. lra.
  - unfold Rdiv. rewrite ln_mult, ln_Rinv; auto; [ring|]. now apply Rinv_0_lt_compat.
Qed.
Lemma shannon_is : forall A (l : list A) p, shannon (map p l) = - rsum_of (fun a => if Req_EM_T (p a) 0 then 0 else p a * ln (p a)) l.
Proof. intros. unfold shannon. now rewrite rsum_of_map. Qed.

Section Gibbs.
Context {A : Type}.
Variable t : R.
Hypothesis T : 0 < t.
Variable l : list A.
Hypothesis NE : l <> [].
Variable q : A -> R.
Let Z := rsum_of (fun a => exp (q a / t)) l.
Lemma Z_pos : 0 < Z.
Proof using NE.
  unfold Z. destruct l as [|a k]; [contradiction|]. rewrite rsum_of_cons. pose proof (exp_pos (q a / t)).
  assert (0 <= rsum_of (fun a => exp (q a / t)) k); [|lra]. apply rsum_of_nonneg. intros. left. apply exp_pos.
Qed.
Lemma soft_is : soft_max t (map q l) = t * ln Z.
Proof using Type. unfold soft_max, Z. now rewrite rsum_of_map. Qed.
Lemma gibbs_le : forall p, on_simplex l p -> rsum_of (fun a => p a * q a) l + entropy_bonus t l p <= soft_max t (map q l).
Proof using T NE.
  intros p [P0 P1]. rewrite soft_is. unfold entropy_bonus. rewrite shannon_is. pose proof Z_pos as Zp.
  assert (K : rsum_of (fun a => p a * (q a / t - ln Z) - (if Req_EM_T (p a) 0 then 0 else p a * ln (p a))) l <= 0).
  { apply Rle_trans with (rsum_of (fun a => exp (q a / t) / Z - p a) l).
    - apply rsum_of_le. intros a I. replace (q a / t - ln Z) with (ln (exp (q a / t) / Z)).
      + apply gibbs_term; [now apply P0|]. apply Rdiv_lt_0_compat; [apply exp_pos|exact Zp].
      + unfold Rdiv at 1. rewrite ln_mult, ln_Rinv, ln_exp; auto using exp_pos, Rinv_0_lt_compat. 
    - right. rewrite (rsum_of_ext _ _ (fun a => / Z * exp (q a / t) + (-1) * p a)) by (intros; unfold Rdiv; ring).
      rewrite rsum_of_plus, !rsum_of_scale, P1. fold Z. rewrite Rinv_l by lra. ring. }
  rewrite (rsum_of_ext _ _ (fun a => / t * (p a * q a) + ((- ln Z) * p a + (-1) * (if Req_EM_T (p a) 0 then 0 else p a * ln (p a))))) in K
    by (intros; unfold Rdiv; ring).
  rewrite !rsum_of_plus, !rsum_of_scale, P1 in K.
  apply Rmult_le_compat_l with (r := t) in K; [|lra]. rewrite !Rmult_plus_distr_l, <- Rmult_assoc, Rinv_r, Rmult_1_l, Rmult_0_r in K by lra. lra.
Qed.
Lemma gibbs_eq : on_simplex l (boltzmann t q l) /\
  rsum_of (fun a => boltzmann t q l a * q a) l + entropy_bonus t l (boltzmann t q l) = soft_max t (map q l).
Proof using T NE.
  pose proof Z_pos as Zp. assert (P1 : rsum_of (boltzmann t q l) l = 1).
  { unfold boltzmann. fold Z. rewrite (rsum_of_ext _ _ (fun a => / Z * exp (q a / t))) by (intros; unfold Rdiv; ring).
    rewrite rsum_of_scale. fold Z. apply Rinv_l. lra. }
  assert (Bp : forall a, 0 < boltzmann t q l a).
  { intros a. unfold boltzmann. apply Rdiv_lt_0_compat; [apply exp_pos|exact Zp]. }
  split; [split; [intros a _; left; apply Bp|exact P1]|].
  rewrite soft_is. unfold entropy_bonus. rewrite shannon_is.
  rewrite (rsum_of_ext _ (fun a => if Req_EM_T (boltzmann t q l a) 0 then 0 else boltzmann t q l a * ln (boltzmann t q l a))
    (fun a => / t * (boltzmann t q l a * q a) + (- ln Z) * boltzmann t q l a)).
  - rewrite rsum_of_plus, !rsum_of_scale, P1. field. lra.
  - intros a _. destruct (Req_EM_T _ 0) as [E|_]; [pose proof (Bp a); lra|].
    replace (ln (boltzmann t q l a)) with (q a / t - ln Z); [unfold Rdiv; ring|].
    unfold boltzmann at 1. fold Z. unfold Rdiv at 2. rewrite ln_mult, ln_Rinv, ln_exp; auto using exp_pos, Rinv_0_lt_compat.
Qed.
End Gibbs.

(** ** Searches *)
Section Search.
Context {S A : Type}.
Variable seqb : S -> S -> bool.
Variable aeqb : A -> A -> bool.
Hypothesis seqb_ok : decides seqb.
Hypothesis aeqb_ok : decides aeqb.
Variable C : @econf S A.
Variable M : @mconf S A.
Hypothesis NoTT : use_tt C = false.
Hypothesis Env : env_ok C M.
Hypothesis Pr : prior_policy C M.
Notation dnode := (@dnode S A).
Notation cnode := (@cnode S A).

Lemma seen_seen : forall (n : dnode) v, seen M n (seen M n v) = v.
Proof using Type. intros n v. unfold seen. destruct (opponent M n); lra. Qed.
Lemma seen_plus : forall (n : dnode) v w, seen M n (v + w) = seen M n v + seen M n w.
Proof using Type. intros n v w. unfold seen. destruct (opponent M n); lra. Qed.

(** A node without children was never backed up. *)
Lemma childless : forall n s d node, ereach seqb aeqb C n s -> quiet s -> nth_error (dh (mem s)) d = Some node -> dkids node = [] ->
  count (backs_d d) (etrace s) = 0%Z.
Proof using seqb_ok aeqb_ok.
  intros n s d node R Q Hd E. destruct (C10_idle seqb aeqb seqb_ok aeqb_ok C n s R Q) as (_ & _ & K & _).
  destruct (K d node Hd) as [K1 K2]. rewrite E in K2. cbn in K2. lia.
Qed.

Section Regular.
Variable G : @algo S A.
Variable soft : XD G -> R.
Variable nb : XD G -> Z.
Variable softC : XC G -> R.
Variable bonus : list A -> (A -> R) -> R.
Hypothesis Ext : forall l p q, (forall a, In a l -> p a = q a) -> bonus l p = bonus l q.
Variable offset : dnode -> R.
Hypothesis Cn : counter G nb 0 1.
Definition reg_max (l : list A) (q : A -> R) (v : R) : Prop :=
  (exists p, on_simplex l p /\ v = rsum_of (fun a => p a * q a) l + bonus l p) /\
  forall p, on_simplex l p -> rsum_of (fun a => p a * q a) l + bonus l p <= v.

Lemma q_seen : forall n g s d node a v, areach seqb aeqb C G n g s -> nth_error (dh (mem (base s))) d = Some node ->
  In a (acts C (dstate node)) -> q_of M softC node (offset node) (dview s node) a v ->
  v = seen M node (qval aeqb M offset (fun c => match nth_error (xcs s) c with Some x => softC x | None => 0 end) node a).
Proof using seqb_ok aeqb_ok Pr.
  intros n g s d node a v R Hd Ia Hq. pose proof (areach_good seqb aeqb seqb_ok aeqb_ok C G _ _ _ R) as I.
  pose proof (areach_ereach seqb aeqb C G _ _ _ R) as E.
  pose proof (proj1 (C12_well_formed seqb aeqb seqb_ok aeqb_ok C n (base s) E)) as W.
  pose proof (dview_ok seqb aeqb aeqb_ok C G s d node I Hd) as F. pose proof (dview_keys seqb aeqb aeqb_ok C G s d node I Hd) as Keys.
  unfold qval. destruct Hq as [c x Ic|p w N1 Ep Iw|N1 Ep].
  - destruct (forall2_in_r _ _ _ _ _ _ F Ic) as ([a' k] & Ik & E1 & E2 & E3). cbn in E1, E2, E3. subst a'.
    rewrite (in_lookup _ aeqb_ok _ _ _ _ (wf_dkeys _ _ _ _ W d node Hd) Ik), E3. reflexivity.
  - assert (L : lookup aeqb a (dkids node) = None).
    { apply (lookup_none_iff _ aeqb_ok). intros H. apply N1. now rewrite <- Keys in H. }
    rewrite L. unfold unexplored, prior_prob. rewrite Ep. destruct (Pr p Ep (dstate node)) as (ND & _).
    rewrite (in_lookup _ aeqb_ok _ _ _ _ ND Iw). now rewrite seen_seen.
  - assert (L : lookup aeqb a (dkids node) = None).
    { apply (lookup_none_iff _ aeqb_ok). intros H. apply N1. now rewrite <- Keys in H. }
    rewrite L. unfold unexplored. now rewrite Ep.
Qed.

Theorem reg_tree : forall n g s, areach seqb aeqb C G n g s -> quiet (base s) ->
  (forall d node x, nth_error (dh (mem (base s))) d = Some node -> nth_error (xds s) d = Some x ->
     dkids node = [] /\ soft x = dheur node \/
     dkids node <> [] /\ exists q, (forall a, In a (acts C (dstate node)) -> q_of M softC node (offset node) (dview s node) a (q a)) /\
       reg_max (acts C (dstate node)) q (seen M node (soft x))) ->
  (forall c node x, nth_error (ch (mem (base s))) c = Some node -> nth_error (xcs s) c = Some x ->
     exists v, weighted_mean (map (fun k => (nb (snd (snd k)), soft (snd (snd k)))) (cview s node)) v /\
       softC x = mreward M (cstate node) (cact node) + v) ->
  exists p, mixed_optimal aeqb C M (mem (base s)) bonus offset p /\
    forall d x, nth_error (xds s) d = Some x -> mixed_worth aeqb C M (mem (base s)) bonus offset p d = soft x.
Proof using All.
  intros n g s R Q QD QC. pose proof (areach_good seqb aeqb seqb_ok aeqb_ok C G _ _ _ R) as I.
  pose proof (areach_ereach seqb aeqb C G _ _ _ R) as E.
  destruct (C12_well_formed seqb aeqb seqb_ok aeqb_ok C n (base s) E) as [W Dep]. specialize (Dep (eo_depth _ _ Env)).
  pose proof (fun d node a v => q_seen n g s d node a v R) as QS.
  set (m := mem (base s)) in *.
  set (VD := fun d => match nth_error (xds s) d with Some x => soft x | None => 0 end).
  set (VC := fun c => match nth_error (xcs s) c with Some x => softC x | None => 0 end) in *.
  assert (Kid : forall c x o d, nth_error (ch m) c = Some x -> In (o, d) (ckids x) -> cchild seqb m c o d).
  { intros c x o d Hc Io. exists x. split; auto. apply (in_lookup _ seqb_ok); auto. exact (wf_ckeys _ _ _ _ W c x Hc). }
  assert (Nb : forall c x o d node y, nth_error (ch m) c = Some x -> In (o, d) (ckids x) -> nth_error (dh m) d = Some node ->
    nth_error (xds s) d = Some y -> nb y = samples C node).
  { intros c x o d node y Hc Io Hd Hy.
    exact (nb_samples seqb aeqb seqb_ok aeqb_ok C NoTT G _ 0 Cn n g s c o d node y R Q (Kid _ _ _ _ Hc Io) Hd Hy). }
  assert (Pos : forall c x o d node, nth_error (ch m) c = Some x -> In (o, d) (ckids x) -> nth_error (dh m) d = Some node -> (0 <= samples C node)%Z).
  { intros c x o d node Hc Io Hd. destruct (dh_some seqb aeqb C G s d I ltac:(apply nth_error_Some; fold m; congruence)) as (node' & y & Hn & Hy).
    fold m in Hn. rewrite <- (Nb c x o d node y Hc Io Hd Hy).
    rewrite (weight_always seqb aeqb seqb_ok aeqb_ok C G _ 0 1 Cn n g s d node y R Hd Hy).
    pose proof (countb_nonneg _ (fun p => backs_d d (snd p)) (etrace (base s))). pose proof (countb_nonneg _ (fun p => ends_at d (snd p)) (etrace (base s))).
    unfold count. destruct (is_leaf C node); lia. }
  assert (HC : forall c x, nth_error (ch m) c = Some x ->
    VC c = mreward M (cstate x) (cact x) + mean (map (fun k => (swt C m k, VD (snd k))) (ckids x))).
  { intros c x Hc. destruct (ch_some seqb aeqb C G s c I ltac:(apply nth_error_Some; fold m; congruence)) as (x' & y & Hn & Hy).
    destruct (QC c x y Hc Hy) as (v & Wm & Ev). unfold VC. rewrite Hy, Ev. f_equal. rewrite (mean_is _ _ Wm). f_equal. symmetry.
    pose proof (cview_ok seqb aeqb seqb_ok C G s c x I Hc) as F.
    refine (forall2_map_eq _ _ _ _ _ _ _ _ F _). intros [o d] [o' [node z]] Io (E1 & E2 & E3). cbn in E1, E2, E3. subst o'.
    unfold swt, VD. cbn. fold m in E2. rewrite E2, E3. f_equal. symmetry. exact (Nb c x o d node z Hc Io E2 E3). }
  assert (HD : forall d node, nth_error (dh m) d = Some node ->
    dkids node = [] /\ VD d = dheur node \/
    dkids node <> [] /\ (exists p, on_simplex (acts C (dstate node)) p /\ obj aeqb C M bonus offset VC node p = VD d) /\
    forall p, on_simplex (acts C (dstate node)) p ->
      if opponent M node then VD d <= obj aeqb C M bonus offset VC node p else obj aeqb C M bonus offset VC node p <= VD d).
  { intros d node Hd. destruct (dh_some seqb aeqb C G s d I ltac:(apply nth_error_Some; fold m; congruence)) as (node' & x & Hn & Hx).
    unfold VD. rewrite Hx. destruct (QD d node x Hd Hx) as [K|(NE & q & Hq & (p0 & S0 & V0) & Mx)]; [now left|]. right. split; [exact NE|].
    assert (O : forall p, obj aeqb C M bonus offset VC node p = seen M node (rsum_of (fun a => p a * q a) (acts C (dstate node)) + bonus (acts C (dstate node)) p)).
    { intros p. unfold obj. rewrite seen_plus. f_equal.
      rewrite (rsum_of_ext _ (fun a => p a * q a) (fun a => p a * seen M node (qval aeqb M offset VC node a))).
      - unfold seen. destruct (opponent M node); [|reflexivity].
        rewrite (rsum_of_ext _ (fun a => p a * - qval aeqb M offset VC node a) (fun a => (-1) * (p a * qval aeqb M offset VC node a))) by (intros; ring).
        rewrite rsum_of_scale. ring.
      - intros a Ia. f_equal. exact (QS d node a (q a) Hd Ia (Hq a Ia)). }
    split.
    - exists p0. split; [exact S0|]. now rewrite O, <- V0, seen_seen.
    - intros p Sp. rewrite O. specialize (Mx p Sp). unfold seen in *. destruct (opponent M node); lra. }
  destruct (mixed_tree seqb aeqb seqb_ok aeqb_ok C M m W Dep Pos bonus offset Ext VD VC HC HD) as (p & Op & Wp).
  exists p. split; [exact Op|]. intros d x Hx. destruct (dh_some seqb aeqb C G s d I) as (node & x' & Hn & Hx').
  { rewrite <- (ag_d _ _ _ _ s I). apply nth_error_Some. congruence. }
  rewrite (Wp d node Hn). unfold VD. now rewrite Hx.
Qed.
End Regular.

(** The offset never changes, and a node that was not backed up has its heuristic value. *)
Section Kept.
Variable G : @algo S A.
Variable mD : XD G -> mmem.
Hypothesis New : forall n, mD (new_xd G n) = ments_new_d C M n.
Hypothesis Vis : forall leaf x, mD (vis_d G leaf x) = ments_visit leaf (mD x).
Hypothesis Back : forall n x kids cx b x1, back_d G n x kids cx b = Ok x1 -> m_off (mD x1) = m_off (mD x).
Definition keeps (n : dnode) (l : list R) (x : XD G) : Prop :=
  m_off (mD x) = m_off (ments_new_d C M n) /\ (l = [] -> m_soft (mD x) = dheur n).
Lemma keeps_rules : hist_rules C G keeps (fun _ _ _ => True).
Proof using All.
  constructor; unfold keeps; auto.
  - intros o k t. rewrite New. split; [reflexivity|]. intros _. cbn. destruct (heuristic C); reflexivity.
  - intros n l x [H1 H2]. rewrite Vis. unfold ments_visit. destruct (is_leaf C n); cbn; auto.
  - intros n l x kids cx b x1 _ [H1 H2] B. rewrite (Back _ _ _ _ _ _ B). split; [exact H1|discriminate].
Qed.
Lemma kept : forall n g s d node x, areach seqb aeqb C G n g s -> quiet (base s) ->
  nth_error (dh (mem (base s))) d = Some node -> nth_error (xds s) d = Some x ->
  m_off (mD x) = m_off (ments_new_d C M node) /\ (dkids node = [] -> m_soft (mD x) = dheur node).
Proof using All.
  intros n g s d node x R Q Hd Hx.
  destruct (hist_reach seqb aeqb seqb_ok aeqb_ok C G _ _ keeps_rules n g s R) as [H _]. destruct (H d x node Hx Hd) as [H1 H2].
  split; [exact H1|]. intros E. apply H2.
  pose proof (childless n (base s) d node (areach_ereach seqb aeqb C G _ _ _ R) Q Hd E) as K.
  rewrite <- returns_count_d in K. destruct (returns_d d (etrace (base s))); [reflexivity|cbn in K; lia].
Qed.
End Kept.

Hypothesis Tp : 0 < mtemp M.
Hypothesis Dn : mdecay M = None.

Section Soft.
Variable G : @algo S A.
Variable mD : XD G -> mmem.
Variable mC : XC G -> cmem.
Hypothesis Sp : soft_part aeqb C M G mD mC.
Hypothesis Cn : counter G (fun x => m_nb (mD x)) 0 1.
Theorem soft_tree : forall n g s, areach seqb aeqb C G n g s -> quiet (base s) ->
  exists p, mixed_optimal aeqb C M (mem (base s)) (entropy_bonus (mtemp M)) (fun k => m_off (ments_new_d C M k)) p /\
    forall d x, nth_error (xds s) d = Some x ->
      mixed_worth aeqb C M (mem (base s)) (entropy_bonus (mtemp M)) (fun k => m_off (ments_new_d C M k)) p d = m_soft (mD x).
Proof using All.
  intros n g s R Q.
  assert (Tok : temps_ok M) by (split; [exact Tp|intros f E; congruence]).
  destruct (soft_quiet seqb aeqb seqb_ok aeqb_ok C M NoTT Env G mD mC Sp Tok n g s R Q) as [KD KC].
  assert (Keep : forall d node x, nth_error (dh (mem (base s))) d = Some node -> nth_error (xds s) d = Some x ->
    m_off (mD x) = m_off (ments_new_d C M node) /\ (dkids node = [] -> m_soft (mD x) = dheur node)).
  { intros d node x. apply (kept G mD (SP_new _ _ _ _ _ _ Sp) (SP_vis _ _ _ _ _ _ Sp)) with (n := n) (g := g); auto.
    intros k x0 kids cx b x1 B. apply (SP_back _ _ _ _ _ _ Sp) in B. exact (proj2 (backup_keeps aeqb C M _ _ _ _ B)). }
  apply (reg_tree G (fun x => m_soft (mD x)) (fun x => m_nb (mD x)) (fun y => c_soft (mC y)) (entropy_bonus (mtemp M))) with (n := n) (g := g); auto.
  - intros l p q H. unfold entropy_bonus. do 2 f_equal. apply map_ext_in. exact H.
  - intros d node x Hd Hx. destruct (Keep d node x Hd Hx) as [Ko Kl].
    destruct (dkids node) as [|k0 ks] eqn:Ek; [left; auto|]. right. split; [discriminate|].
    destruct (KD d node x Hd Hx) as [[E _]|(v & q & _ & Hq & Hv)]; [congruence|]. rewrite Ko in Hq. exists q. split; [exact Hq|].
    rewrite Hv, seen_seen. unfold ments_temp. rewrite Dn.
    assert (NE : acts C (dstate node) <> []).
    { intros E0. pose proof (areach_ereach seqb aeqb C G _ _ _ R) as E.
      pose proof (proj1 (C12_well_formed seqb aeqb seqb_ok aeqb_ok C n (base s) E)) as W. destruct k0 as [a c].
      destruct (wf_d _ _ _ _ W d node a c Hd) as (_ & _ & _ & _ & _ & _ & Ia & _).
      - rewrite Ek. cbn. now rewrite (keqb_refl _ aeqb_ok).
      - rewrite E0 in Ia. exact Ia. }
    split.
    + exists (boltzmann (mtemp M) q (acts C (dstate node))). destruct (gibbs_eq (mtemp M) Tp _ NE q) as [G1 G2]. split; [exact G1|]. now rewrite G2.
    + intros p. apply gibbs_le; auto.
Qed.
End Soft.

Section Tents.
Hypothesis Pok : prior_ok C M.
Notation ta := (tents aeqb C M).
Lemma tents_facts : forall n g s, areach seqb aeqb C ta n g s -> quiet (base s) ->
  (forall d node x, nth_error (dh (mem (base s))) d = Some node -> nth_error (xds s) d = Some x ->
     dkids node = [] /\ m_soft (t_m (x : @tmem A)) = dheur node \/
     dkids node <> [] /\ exists q, (forall a, In a (acts C (dstate node)) -> q_of M (fun y : cmem => c_soft y) node (m_off (ments_new_d C M node)) (dview s node) a (q a)) /\
       reg_max (sparse_bonus (mtemp M)) (acts C (dstate node)) q (seen M node (m_soft (t_m (x : @tmem A))))) /\
  (forall c node x, nth_error (ch (mem (base s))) c = Some node -> nth_error (xcs s) c = Some x ->
     exists v, weighted_mean (map (fun k => (m_nb (t_m (snd (snd k) : @tmem A)), m_soft (t_m (snd (snd k) : @tmem A)))) (cview s node)) v /\
       c_soft (x : cmem) = mreward M (cstate node) (cact node) + v).
Proof using All.
  intros n g s R Q.
  destruct (C74_tents' seqb aeqb seqb_ok aeqb_ok C M Env Pok NoTT n g s R Q) as [KD KC].
  assert (Keep : forall d node (x : @tmem A), nth_error (dh (mem (base s))) d = Some node -> nth_error (xds s) d = Some x ->
    m_off (t_m x) = m_off (ments_new_d C M node) /\ (dkids node = [] -> m_soft (t_m x) = dheur node)).
  { intros d node x Hd Hx. apply (kept ta (fun x : @tmem A => t_m x)) with (n := n) (g := g) (s := s) (d := d); auto.
    - intros k. cbn [tents new_xd]. unfold tents_new_d. generalize (acts C (dstate k)). intros l.
      match goal with |- t_m (fold_left ?f l ?x0) = _ =>
        cut (forall x, t_m x = ments_new_d C M k -> t_m (fold_left f l x) = ments_new_d C M k) end.
      { intros H. now rewrite H. }
      induction l as [|a l IH]; intros x1 E; cbn [fold_left]; auto. apply IH. destruct (q_over_temp _ _ _ _ _ _); auto.
    - intros k x0 kids cx b x1 B. cbn in B. unfold tents_backup_d in B.
      destruct (mat _ _ _); cbn [bind] in B; try discriminate. destruct (q_over_temp _ _ _ _ _ _); cbn [bind] in B; try discriminate.
      destruct (update_maps _ _ _ _); cbn [bind] in B; try discriminate. destruct (spmax _ _); cbn [bind] in B; try discriminate.
      injection B as <-. reflexivity. }
  split; [|exact KC].
  intros d node x Hd Hx. destruct (Keep d node x Hd Hx) as [Ko Kl].
    destruct (dkids node) as [|k0 ks] eqn:Ek; [left; auto|]. right. split; [discriminate|].
    destruct (C74_fixed' seqb aeqb seqb_ok aeqb_ok C M Env Pok NoTT Tp Dn n g s d node x R Q Hd Hx) as (q & sp & Hq & [(p0 & S0 & V0) Mx] & Hv); [congruence|].
    rewrite Ko in Hq. exists q. split; [exact Hq|]. rewrite Hv, seen_seen.
    assert (O : forall p, on_simplex (acts C (dstate node)) p ->
      rsum_of (fun a => p a * q a) (acts C (dstate node)) + sparse_bonus (mtemp M) (acts C (dstate node)) p =
      mtemp M * sparse_objective (acts C (dstate node)) (fun a => q a / mtemp M) p).
    { intros p [_ P1]. unfold sparse_bonus, sparse_objective.
      rewrite (rsum_of_ext _ (fun a => p a * (q a / mtemp M)) (fun a => / mtemp M * (p a * q a))) by (intros; unfold Rdiv; ring).
      rewrite (rsum_of_ext _ (fun a => p a * (1 - p a)) (fun a => p a + (-1) * (p a ^ 2))) by (intros; ring).
      rewrite rsum_of_plus, !rsum_of_scale, P1. field. lra. }
    split.
    + exists p0. split; [exact S0|]. now rewrite O, V0.
    + intros p Hp. rewrite (O p Hp). apply Rmult_le_compat_l; [lra|]. now apply Mx.
Qed.
Theorem tents_tree : forall n g s, areach seqb aeqb C ta n g s -> quiet (base s) ->
  exists p, mixed_optimal aeqb C M (mem (base s)) (sparse_bonus (mtemp M)) (fun k => m_off (ments_new_d C M k)) p /\
    forall d x, nth_error (xds s) d = Some x ->
      mixed_worth aeqb C M (mem (base s)) (sparse_bonus (mtemp M)) (fun k => m_off (ments_new_d C M k)) p d = m_soft (t_m (x : @tmem A)).
Proof using All.
  intros n g s R Q. destruct (tents_facts n g s R Q) as [KD KC].
  apply (reg_tree ta (fun x : @tmem A => m_soft (t_m x)) (fun x : @tmem A => m_nb (t_m x)) (fun y : cmem => c_soft y) (sparse_bonus (mtemp M))) with (n := n) (g := g); auto.
  - intros l p q H. unfold sparse_bonus. do 2 f_equal. apply rsum_of_ext. intros a Ia. now rewrite H.
  - exact (tents_counter aeqb C M).
Qed.
End Tents.
End Search.
