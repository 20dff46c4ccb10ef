(** The dynamic programming values of a search are the values of its tree. *)
From Coq Require Import List ZArith Bool Reals Lia Lra.
From Verif Require Import Base BaseProofs NumOps RLemmas EngineModel EngineSpec EngineProofs EngineInv EngineCount EngineTheorems MapModel MapProofs AlgoModel AlgoProofs
  MentsModel SoftSpec SoftProofs MentsSpec RecSpec DentsSpec DpRun DbRun WeightProofs QuietSpec QuietResults PickSpec TreeSpec TreeProofs.
Import ListNotations.
Open Scope R_scope.

Lemma forall2_map_eq : forall X Y T (R : X -> Y -> Prop) (f : X -> T) (g : Y -> T) l k, Forall2 R l k ->
  (forall x y, In x l -> R x y -> f x = g y) -> map f l = map g k.
Proof.
  intros X Y T R f g l k F. induction F as [|x y l k H F IH]; intros E; auto. cbn. f_equal; [apply E; auto; now left|]. apply IH. intros; apply E; auto. now right.
Qed.
Lemma forall2_in_l : forall X Y (R : X -> Y -> Prop) l k x, Forall2 R l k -> In x l -> exists y, In y k /\ R x y.
Proof. intros X Y R l k x F. induction F as [|a b l k H F IH]; [easy|]. intros [E|H0].
  - subst. exists b. split; [now left|exact H].
  - destruct (IH H0) as (y & I & E). exists y. split; [now right|exact E].
Qed.
Lemma forall2_in_r : forall X Y (R : X -> Y -> Prop) l k y, Forall2 R l k -> In y k -> exists x, In x l /\ R x y.
Proof. intros X Y R l k y F. induction F as [|a b l k H F IH]; [easy|]. intros [E|H0].
  - subst. exists a. split; [now left|exact H].
  - destruct (IH H0) as (x & I & E). exists x. split; [now right|exact E].
Qed.

Section Dp.
Context {S A : Type}.
Variable seqb : S -> S -> bool.
Variable aeqb : A -> A -> bool.
Hypothesis seqb_ok : decides seqb.
Hypothesis aeqb_ok : decides aeqb.
Variable C : @econf S A.
Variable M : @mconf S A.
Hypothesis NoTT : use_tt C = false.
Hypothesis Env : env_ok C M.
Variable G : @algo S A.
Variable vD : XD G -> vmem.
Variable vC : XC G -> vmem.
Hypothesis Dp : dp_part M G vD vC.
Hypothesis Idle : forall x, vis_d G false x = x.
Hypothesis Cn : counter G (fun x => v_nb (vD x)) 1 1.

Definition vals_d (s : ast G) (d : nat) : R := match nth_error (xds s) d with Some x => v_val (vD x) | None => 0 end.
Definition vals_c (s : ast G) (c : nat) : R := match nth_error (xcs s) c with Some x => v_val (vC x) | None => 0 end.
Definition local (m : @store S A) (VD VC : nat -> R) : Prop :=
  well_formed seqb aeqb C m /\
  (forall d n, nth_error (dh m) d = Some n -> (0 <= ddepth n <= max_depth C)%Z) /\
  (forall c x o d n, nth_error (ch m) c = Some x -> In (o, d) (ckids x) -> nth_error (dh m) d = Some n -> (0 <= dp_samples C n)%Z) /\
  (forall d n, nth_error (dh m) d = Some n ->
    dkids n = [] /\ VD d = dheur n \/
    (exists a c, In (a, c) (dkids n) /\ VC c = VD d) /\
    forall a c, In (a, c) (dkids n) -> if opponent M n then VD d <= VC c else VC c <= VD d) /\
  (forall c x, nth_error (ch m) c = Some x ->
    VC c = mreward M (cstate x) (cact x) + mean (map (fun k => (wt C m k, VD (snd k))) (ckids x))).
Lemma dp_local : forall n g s, areach seqb aeqb C G n g s -> quiet (base s) -> local (mem (base s)) (vals_d s) (vals_c s).
Proof using All.
  intros n g s R Q. pose proof (areach_good seqb aeqb seqb_ok aeqb_ok C G _ _ _ R) as I.
  pose proof (areach_ereach seqb aeqb C G _ _ _ R) as E.
  destruct (C12_well_formed seqb aeqb seqb_ok aeqb_ok C n (base s) E) as [W Dep]. specialize (Dep (eo_depth _ _ Env)).
  destruct (dp_quiet seqb aeqb seqb_ok aeqb_ok C M NoTT Env G vD vC Dp Idle n g s R Q) as [QD QC].
  set (m := mem (base s)) in *.
  set (VD := vals_d s).
  set (VC := vals_c s).
  assert (Kid : forall c x o d, nth_error (ch m) c = Some x -> In (o, d) (ckids x) -> cchild seqb m c o d).
  { intros c x o d Hc Io. exists x. split; auto. apply (in_lookup _ seqb_ok); auto. exact (wf_ckeys _ _ _ _ W c x Hc). }
  assert (Nb : forall c x o d node y, nth_error (ch m) c = Some x -> In (o, d) (ckids x) -> nth_error (dh m) d = Some node ->
    nth_error (xds s) d = Some y -> v_nb (vD y) = dp_samples C node).
  { intros c x o d node y Hc Io Hd Hy.
    rewrite (nb_samples seqb aeqb seqb_ok aeqb_ok C NoTT G _ 1 Cn n g s c o d node y R Q (Kid _ _ _ _ Hc Io) Hd Hy). unfold dp_samples. lia. }
  assert (Pos : forall c x o d node, nth_error (ch m) c = Some x -> In (o, d) (ckids x) -> nth_error (dh m) d = Some node -> (0 <= dp_samples C node)%Z).
  { intros c x o d node Hc Io Hd. destruct (dh_some seqb aeqb C G s d I ltac:(apply nth_error_Some; fold m; congruence)) as (node' & y & Hn & Hy).
    fold m in Hn. rewrite <- (Nb c x o d node y Hc Io Hd Hy).
    rewrite (weight_always seqb aeqb seqb_ok aeqb_ok C G _ 1 1 Cn n g s d node y R Hd Hy).
    pose proof (countb_nonneg _ (fun p => backs_d d (snd p)) (etrace (base s))). pose proof (countb_nonneg _ (fun p => ends_at d (snd p)) (etrace (base s))).
    unfold count. destruct (is_leaf C node); lia. }
  assert (HD : forall d node, nth_error (dh m) d = Some node ->
    dkids node = [] /\ VD d = dheur node \/
    (exists a c, In (a, c) (dkids node) /\ VC c = VD d) /\
    forall a c, In (a, c) (dkids node) -> if opponent M node then VD d <= VC c else VC c <= VD d).
  { intros d node Hd. destruct (dh_some seqb aeqb C G s d I ltac:(apply nth_error_Some; fold m; congruence)) as (node' & x & Hn & Hx).
    unfold VD, vals_d. rewrite Hx. destruct (QD d node x Hd Hx) as [K|K]; [now left|]. right. cbv zeta in K.
    pose proof (dview_ok seqb aeqb aeqb_ok C G s d node I Hd) as F.
    assert (Seen : forall a c y, In (a, (c, y)) (dview s node) -> (0 < v_nb (vC y))%Z).
    { intros a c y Iy. destruct (forall2_in_r _ _ _ _ _ _ F Iy) as ([a' k] & Ik & _ & Hk1 & Hk2). cbn in Hk1, Hk2. destruct (QC k c y Hk1 Hk2). lia. }
    assert (X1 : forall a k, In (a, k) (dkids node) -> exists c y, In (a, (c, y)) (dview s node) /\ VC k = v_val (vC y)).
    { intros a k Ik. destruct (forall2_in_l _ _ _ _ _ _ F Ik) as ([a' [c y]] & Iy & E1 & E2 & E3). cbn in E1, E2, E3. subst a'.
      exists c, y. split; auto. unfold VC, vals_c. now rewrite E3. }
    assert (X2 : exists nn, In (nn, v_val (vD x)) (map (fun k => (v_nb (vC (snd (snd k))), v_val (vC (snd (snd k))))) (dview s node))).
    { destruct (opponent M node); destruct K as [(nn & K1 & _) _]; now exists nn. }
    split.
    - destruct X2 as (nn & X2). apply in_map_iff in X2. destruct X2 as ([a [c y]] & [= _ Ev] & Iy).
      destruct (forall2_in_r _ _ _ _ _ _ F Iy) as ([a' k] & Ik & E1 & E2 & E3). cbn in E1, E2, E3. subst a'.
      exists a, k. split; auto. unfold VC, vals_c. now rewrite E3.
    - intros a k Ik. destruct (X1 a k Ik) as (c & y & Iy & ->).
      assert (Im : In (v_nb (vC y), v_val (vC y)) (map (fun k => (v_nb (vC (snd (snd k))), v_val (vC (snd (snd k))))) (dview s node))).
      { apply in_map_iff. now exists (a, (c, y)). }
      destruct (opponent M node); destruct K as [_ K]; exact (K _ _ Im (Seen _ _ _ Iy)). }
  assert (HC : forall c x, nth_error (ch m) c = Some x ->
    VC c = mreward M (cstate x) (cact x) + mean (map (fun k => (wt C m k, VD (snd k))) (ckids x))).
  { intros c x Hc. destruct (ch_some seqb aeqb C G s c I ltac:(apply nth_error_Some; fold m; congruence)) as (x' & y & Hn & Hy).
    destruct (QC c x y Hc Hy) as [_ (v & Wm & Ev)]. unfold VC, vals_c. rewrite Hy, Ev. f_equal. rewrite (mean_is _ _ Wm). f_equal. symmetry.
    pose proof (cview_ok seqb aeqb seqb_ok C G s c x I Hc) as F.
    refine (forall2_map_eq _ _ _ _ _ _ _ _ F _). intros [o d] [o' [node z]] Io (E1 & E2 & E3). cbn in E1, E2, E3. subst o'.
    unfold wt, VD, vals_d. cbn. fold m in E2. rewrite E2, E3. f_equal. symmetry. exact (Nb c x o d node z Hc Io E2 E3). }
  exact (conj W (conj Dep (conj Pos (conj HD HC)))).
Qed.
Theorem dp_tree : forall n g s, areach seqb aeqb C G n g s -> quiet (base s) ->
  exists p, optimal aeqb C M (mem (base s)) p /\
    forall d x, nth_error (xds s) d = Some x -> worth aeqb C M (mem (base s)) p d = v_val (vD x).
Proof using All.
  intros n g s R Q. destruct (dp_local n g s R Q) as (W & Dep & Pos & HD & HC). pose proof (areach_good seqb aeqb seqb_ok aeqb_ok C G _ _ _ R) as I.
  exists (best (mem (base s)) (vals_d s) (vals_c s)). split.
  - exact (greedy_optimal seqb aeqb seqb_ok aeqb_ok C M _ W Dep Pos _ _ HD HC _ (best_pick seqb aeqb aeqb_ok C M _ W _ _ HD)).
  - intros d x Hx. destruct (dh_some seqb aeqb C G s d I) as (node & x' & Hn & Hx').
    { rewrite <- (ag_d _ _ _ _ s I). apply nth_error_Some. congruence. }
    rewrite (greedy_worth seqb aeqb seqb_ok aeqb_ok C M _ W Dep Pos _ _ HD HC _ (best_pick seqb aeqb aeqb_ok C M _ W _ _ HD) d node Hn). unfold vals_d. now rewrite Hx.
Qed.

(** Recommendations by value, when every child counts. *)
Theorem dp_first : (mthreshold M <= 1)%Z -> forall n g s d node a, areach seqb aeqb C G n g s -> quiet (base s) ->
  nth_error (dh (mem (base s))) d = Some node -> dkids node <> [] ->
  best_by_value C M node (members vC (dview s node)) a <-> exists p, optimal aeqb C M (mem (base s)) p /\ p d = Some a.
Proof using All.
  intros Th n g s d node a R Q Hd NE. destruct (dp_local n g s R Q) as (W & Dep & Pos & HD & HC).
  rewrite (optimal_first seqb aeqb seqb_ok aeqb_ok C M _ W Dep Pos _ _ HD HC d node a Hd NE).
  pose proof (areach_good seqb aeqb seqb_ok aeqb_ok C G _ _ _ R) as I.
  pose proof (dview_ok seqb aeqb aeqb_ok C G s d node I Hd) as F.
  pose proof (dview_keys seqb aeqb aeqb_ok C G s d node I Hd) as Keys.
  pose proof (wf_dkeys _ _ _ _ W d node Hd) as ND.
  destruct (dp_quiet seqb aeqb seqb_ok aeqb_ok C M NoTT Env G vD vC Dp Idle n g s R Q) as [_ QC].
  (* the children *)
  assert (K : forall b y, In (b, y) (members vC (dview s node)) <-> exists c z, In (b, c) (dkids node) /\ nth_error (xcs s) c = Some z /\ y = vC z).
  { intros b y. unfold members. rewrite in_map_iff. split.
    - intros ([b' [cn z]] & [= -> <-] & Iz). destruct (forall2_in_r _ _ _ _ _ _ F Iz) as ([b2 c] & Ic & E1 & E2 & E3). cbn in *. subst b2. exists c, z. auto.
    - intros (c & z & Ic & Hz & ->). destruct (forall2_in_l _ _ _ _ _ _ F Ic) as ([b2 [cn z']] & Iz & E1 & E2 & E3). cbn in *. subst b2.
      assert (z' = z) by congruence. subst z'. now exists (b, (cn, z)). }
  assert (Mk : map fst (members vC (dview s node)) = map fst (dkids node)).
  { rewrite <- Keys. unfold members. rewrite map_map. apply map_ext. intros [b [cn z]]. reflexivity. }
  assert (Enough : forall b, In b (map fst (dkids node)) -> backed_up_enough M (members vC (dview s node)) b).
  { intros b Ib. apply in_map_iff in Ib. destruct Ib as ([b' c] & [= <-] & Ic).
    destruct (forall2_in_l _ _ _ _ _ _ F Ic) as ([b2 [cn z]] & Iz & E1 & E2 & E3). cbn in E1, E2, E3. subst b2.
    destruct (QC c cn z E2 E3) as [Q1 _]. exists (vC z). split; [|lia]. apply K. exists c, z. auto. }
  assert (VCis : forall c z, nth_error (xcs s) c = Some z -> vals_c s c = v_val (vC z)) by (intros c z E; unfold vals_c; now rewrite E).
  unfold best_by_value. destruct (members vC (dview s node)) as [|m0 ms] eqn:Em.
  { cbn in Mk. destruct (dkids node); [contradiction|discriminate]. }
  rewrite <- Em in *. clear m0 ms Em.
  destruct (HD d node Hd) as [[E0 _]|[(a0 & c0 & I0 & V0) Ex]]; [contradiction|].
  split.
  - intros (v & Hv & Ia & [[_ Hm]|[No _]]).
    2:{ rewrite Mk in Ia. exfalso. exact (No a ltac:(now rewrite Mk) (Enough a Ia)). }
    rewrite Mk in Ia. apply in_map_iff in Ia. destruct Ia as ([a' c] & [= <-] & Ic). exists c. split; [now apply (in_lookup _ aeqb_ok)|].
    destruct (forall2_in_l _ _ _ _ _ _ F Ic) as ([b2 [cn z]] & _ & _ & _ & E3). cbn in E3.
    destruct (forall2_in_l _ _ _ _ _ _ F I0) as ([b3 [cn0 z0]] & _ & _ & _ & E30). cbn in E30.
    assert (Va : v a' = seen M node (vals_c s c)) by (rewrite (VCis _ _ E3); apply Hv; apply K; exists c, z; auto).
    assert (Va0 : v a0 = seen M node (vals_c s c0)) by (rewrite (VCis _ _ E30); apply Hv; apply K; exists c0, z0; auto).
    assert (Ia0 : In a0 (map fst (dkids node))) by exact (in_map fst _ _ I0).
    specialize (Hm a0 ltac:(now rewrite Mk) (Enough a0 Ia0)). specialize (Ex a' c Ic). rewrite Va, Va0, V0 in Hm. unfold seen in Hm. destruct (opponent M node); lra.
  - intros (c & Ec & Ev). exists (fun b => seen M node (match lookup aeqb b (dkids node) with Some k => vals_c s k | None => 0 end)).
    assert (Vb : forall b k, In (b, k) (dkids node) -> lookup aeqb b (dkids node) = Some k) by (intros; now apply (in_lookup _ aeqb_ok)).
    split.
    + intros b y Iy. apply K in Iy. destruct Iy as (k & z & Ik & Hz & ->). rewrite (Vb b k Ik). now rewrite (VCis k z Hz).
    + assert (Ia : In a (map fst (dkids node))) by (apply (lookup_iff _ aeqb_ok _ _ _ _ ND) in Ec; exact (in_map fst _ _ Ec)).
      split; [now rewrite Mk|]. left. split; [now apply Enough|]. intros b Ib _. rewrite Mk in Ib. apply in_map_iff in Ib. destruct Ib as ([b' k] & [= <-] & Ik).
      rewrite (Vb b' k Ik), Ec, Ev. specialize (Ex b' k Ik). unfold seen. destruct (opponent M node); lra.
Qed.
End Dp.

Section OnePlayer.
Context {S A : Type}.
Variable seqb : S -> S -> bool.
Variable aeqb : A -> A -> bool.
Hypothesis seqb_ok : decides seqb.
Hypothesis aeqb_ok : decides aeqb.
Variable C : @econf S A.
Variable M : @mconf S A.
Hypothesis NoTT : use_tt C = false.
Hypothesis Env : env_ok C M.
Lemma one_player_dp : mtwo M = false -> forall n g s, areach seqb aeqb C (dbments aeqb C M) n g s -> quiet (base s) ->
  forall q, plays aeqb (mem (base s)) q -> forall d x, nth_error (xds s) d = Some x -> worth aeqb C M (mem (base s)) q d <= v_val (snd x).
Proof using All.
  intros T n g s R Q q Pq d x Hx.
  destruct (dp_tree seqb aeqb seqb_ok aeqb_ok C M NoTT Env (dbments aeqb C M) snd snd (dbments_part aeqb C M)
    (fun x : mmem * vmem => match x with (mkMm _ _ _, mkVm _ _) => eq_refl end) (dbments_dp_counter aeqb C M) n g s R Q) as (p & [Pp Op] & Wp).
  pose proof (areach_good seqb aeqb seqb_ok aeqb_ok C (dbments aeqb C M) _ _ _ R) as I.
  destruct (dh_some seqb aeqb C (dbments aeqb C M) s d I) as (node & x' & Hn & Hx').
  { rewrite <- (ag_d _ _ _ _ s I). apply nth_error_Some. congruence. }
  rewrite <- (Wp d x Hx). apply (Op q Pq d node Hn). intros e k He O. unfold opponent in O. rewrite T in O. discriminate.
Qed.
End OnePlayer.

Lemma picks_iff : forall T N (f : HelperModel.rng N -> outcome (T * HelperModel.rng N)) (P Q : T -> Prop), (forall a, P a <-> Q a) -> picks f P -> picks f Q.
Proof. intros T N f P Q H (ks & H1 & H2 & H3 & H4). exists ks. split; auto. split; auto. split; auto. intros k. rewrite H3. apply H. Qed.
Lemma inner_not_sink : forall S A (seqb : S -> S -> bool) (aeqb : A -> A -> bool) (C : @econf S A) m d node, decides aeqb -> well_formed seqb aeqb C m ->
  nth_error (dh m) d = Some node -> dkids node <> [] -> is_sink C (dstate node) = false.
Proof.
  intros S A seqb aeqb C m d node Ok W Hd NE. destruct (dkids node) as [|[a c] l] eqn:E; [contradiction|].
  destruct (wf_d _ _ _ _ W d node a c Hd) as (x & _ & _ & _ & _ & _ & _ & N).
  - rewrite E. cbn. now rewrite (keqb_refl _ Ok).
  - destruct (is_sink C (dstate node)) eqn:Es; auto. destruct N. now left.
Qed.
