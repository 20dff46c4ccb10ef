(** UCT and PUCT searches converge: the values of nodes to the values of the environment, the choices to the best actions. *)
From Coq Require Import List ZArith Bool Reals Lia Lra Permutation.
From Verif Require Import Base BaseProofs NumOps RLemmas HelperModel HelperSpec HelperProofs EngineModel EngineSpec
  EngineProofs EngineInv EngineCount EngineBound EngineEnds EngineLedger MapModel MapProofs PickSpec PickProofs AlgoModel AlgoProofs
  AlgoHist UctModel UctSpec UctProofs UctInv UctSelect UctRun UctResults ExploreSpec ExploreProofs SoftSpec WorldSpec WorldProofs
  LseReal ConvSpec ConvCount.
Import ListNotations.
Open Scope R_scope.

(** ** The two exploration terms *)
Lemma uct_term_sublinear : sublinear uct_term.
Proof.
  intros delta eta Hd He. set (b := 2 / (eta * Rsqr delta)).
  assert (D2 : 0 < Rsqr delta) by (apply Rsqr_pos_lt; lra). assert (P : 0 < eta * Rsqr delta) by now apply Rmult_lt_0_compat.
  assert (Hb : 0 < b) by (apply Rmult_lt_0_compat; [lra|now apply Rinv_0_lt_compat]).
  exists (Z.max 1 (up (Rsqr b))). intros m c Hm Hc. rewrite uct_term_eq, (cnt_of m) by lia.
  assert (Hx : 1 <= IZR m) by (apply IZR_le; lia). set (x := IZR m) in *.
  assert (Hs : b <= sqrt x).
  { rewrite <- (sqrt_Rsqr b) by lra. apply sqrt_le_1_alt. apply up_ge. lia. }
  assert (Cc : IZR c <= cnt c) by (unfold cnt; destruct (Z.ltb_spec 0 c); [lra|]; apply IZR_le in H; lra).
  assert (Ec : 0 < eta * x) by (apply Rmult_lt_0_compat; lra).
  assert (Sx : sqrt x * sqrt x = x) by (apply sqrt_sqrt; lra).
  assert (Ln : ln x <= 2 * sqrt x).
  { rewrite <- Sx at 1. rewrite ln_mult by (apply sqrt_lt_R0; lra). assert (ln (sqrt x) < sqrt x).
    { pose proof (sqrt_lt_R0 x ltac:(lra)). rewrite <- (ln_exp (sqrt x)) at 2. apply ln_increasing; auto. pose proof (exp_ineq1 (sqrt x) ltac:(lra)). lra. }
    lra. }
  rewrite <- (sqrt_Rsqr delta) by lra. apply sqrt_le_1_alt.
  apply Rle_trans with (2 * sqrt x / (eta * x)).
  - apply Rle_trans with (ln x / (eta * x)).
    + apply div_anti; auto; [|lra]. rewrite <- ln_1. apply ln_le; lra.
    + apply Rmult_le_compat_r; auto. left. now apply Rinv_0_lt_compat.
  - pose proof (sqrt_lt_R0 x ltac:(lra)) as Sp.
    replace (2 * sqrt x / (eta * x)) with (2 / (eta * sqrt x)).
    2: { replace (eta * x) with (eta * (sqrt x * sqrt x)) by (rewrite Sx; reflexivity). field. split; lra. }
    apply Rmult_le_reg_r with (eta * sqrt x); [now apply Rmult_lt_0_compat|].
    replace (2 / (eta * sqrt x) * (eta * sqrt x)) with 2 by (field; split; lra).
    replace (Rsqr delta * (eta * sqrt x)) with (eta * Rsqr delta * sqrt x) by ring.
    replace 2 with (eta * Rsqr delta * b) by (unfold b; field; lra). apply Rmult_le_compat_l; lra.
Qed.

Lemma puct_term_sublinear : forall p, 0 < p < 1 -> sublinear (puct_term p).
Proof.
  intros p Hp delta eta Hd He. set (b := Rpower (/ (eta * delta)) (/ (1 - p))).
  assert (P : 0 < eta * delta) by now apply Rmult_lt_0_compat. assert (Ip : 0 < / (eta * delta)) by now apply Rinv_0_lt_compat.
  exists (Z.max 1 (up b)). intros m c Hm Hc. rewrite puct_term_eq, (cnt_of m) by lia.
  assert (Hx : 1 <= IZR m) by (apply IZR_le; lia). assert (Hb : b <= IZR m) by (apply up_ge; lia). set (x := IZR m) in *.
  assert (Cc : IZR c <= cnt c) by (unfold cnt; destruct (Z.ltb_spec 0 c); [lra|]; apply IZR_le in H; lra).
  assert (Ec : 0 < eta * x) by (apply Rmult_lt_0_compat; lra).
  apply Rle_trans with (Rpower x p / (eta * x)).
  - apply div_anti; auto; [left; apply exp_pos|lra].
  - assert (Q : / (eta * delta) <= Rpower x (1 - p)).
    { replace (/ (eta * delta)) with (Rpower b (1 - p)).
      - apply Rle_Rpower_l; [lra|]. split; auto. apply exp_pos.
      - unfold b. rewrite Rpower_mult. replace (/ (1 - p) * (1 - p)) with 1 by (field; lra). now apply Rpower_1. }
    assert (E : Rpower x p * Rpower x (1 - p) = x) by (rewrite <- Rpower_plus; replace (p + (1 - p)) with 1 by ring; apply Rpower_1; lra).
    assert (Px : 0 < Rpower x p) by apply exp_pos.
    apply Rmult_le_reg_r with (eta * x); auto. replace (Rpower x p / (eta * x) * (eta * x)) with (Rpower x p) by (field; split; lra).
    replace (delta * (eta * x)) with (Rpower x p * ((eta * delta) * Rpower x (1 - p))) by (transitivity (delta * (eta * (Rpower x p * Rpower x (1 - p)))); [ring|now rewrite E]).
    apply Rle_trans with (Rpower x p * 1); [lra|]. apply Rmult_le_compat_l; [lra|].
    apply Rle_trans with ((eta * delta) * / (eta * delta)); [rewrite Rinv_r; lra|]. apply Rmult_le_compat_l; lra.
Qed.

(** ** Finitely many bounds have a common one *)
Lemma common_bound : forall T (P : T -> R -> Prop) l, (forall x k k', k <= k' -> P x k -> P x k') ->
  (forall x, In x l -> exists k, 0 <= k /\ P x k) -> exists k, 0 <= k /\ forall x, In x l -> P x k.
Proof.
  intros T P l M. induction l as [|x l IH]; intros H; [exists 0; split; [lra|intros x []]|].
  destruct IH as (k & K0 & K); [intros; apply H; now right|]. destruct (H x (or_introl eq_refl)) as (k' & K0' & K').
  exists (Rmax k k'). pose proof (Rmax_l k k'). pose proof (Rmax_r k k'). split; [lra|]. intros y [<-|I]; [eapply M; [|exact K']; auto|eapply M; [|exact (K y I)]; auto].
Qed.
Lemma up_nat : forall x, 0 <= x -> exists k, (0 <= k)%Z /\ x <= IZR k.
Proof. intros x H. exists (up x). destruct (archimed x). split; [|lra]. apply le_IZR. lra. Qed.
Lemma Rabs_sum3 : forall a b c x y z, Rabs a <= x -> Rabs b <= y -> Rabs c <= z -> Rabs (a + b + c) <= x + y + z.
Proof. intros a b c x y z. unfold Rabs. repeat destruct (Rcase_abs _); lra. Qed.

Lemma expected_centre : forall S (f : S -> R) l, total l = 1 -> expected (fun o => f o - expected f l) l = 0.
Proof.
  intros S f l T. set (E := expected f l). unfold expected.
  rewrite (rsum_of_ext _ _ (fun p => snd p * f (fst p) + (- E) * snd p)) by (intros; ring).
  rewrite rsum_of_add, rsum_of_scal. change (rsum_of (fun p => snd p * f (fst p)) l) with E. replace (rsum_of snd l) with 1; [ring|].
  rewrite <- T. clear. induction l as [|[o p] l IH]; [reflexivity|]. rewrite rsum_of_cons, <- IH. reflexivity.
Qed.

Section Conv.
Context {S A : Type}.
Variable seqb : S -> S -> bool.
Variable aeqb : A -> A -> bool.
Hypothesis seqb_ok : decides seqb.
Hypothesis aeqb_ok : decides aeqb.
Variable C : @econf S A.
Variable U : @uconf S A.
Hypothesis Uok : uct_ok C U.
Variable B : R.
Hypothesis Sane : sane C U B.
Hypothesis Heps : ueps U <= 0.
Hypothesis Hex : explores U.
Hypothesis Hsub : sublinear (uterm U).
Hypothesis NoTT : use_tt C = false.
Variable V : nat -> S -> Z -> R.
Hypothesis Sv : usolves C U V.
Variable n : nat.
Variable K : R -> Z.
Notation alg := (uct aeqb C U).
Notation areach := (areach seqb aeqb C alg).
Notation ast := (ast alg).
Notation Lim := (limit C B).
Notation times := (times aeqb).
Notation N := (Z.of_nat n).

Definition ok (g : rng R) (s : ast) : Prop := good_ints g /\ good_reals g /\ areach n g s /\ fair U K (base s).

Lemma B_ge0 : 0 <= B. Proof using Sane. apply Sane. Qed.
Lemma dep_ok : (0 <= max_depth C)%Z. Proof using Sane. apply Sane. Qed.
Lemma rwd_le : forall s a o, Rabs (rwd C s a o) <= B. Proof using Sane. apply Sane. Qed.
Lemma heur_le : forall h s, heuristic C = Some h -> Rabs (h s) <= B. Proof using Sane. apply Sane. Qed.
Lemma lim_pos : 0 <= Lim. Proof using Sane. apply Lim_pos; [exact dep_ok|exact B_ge0]. Qed.
Lemma distr_ok : forall s a, is_sink C s = false -> In a (acts C s) -> positive_weights (udistr U s a) /\ total (udistr U s a) = 1.
Proof using Sane. intros s a Ns Ia. destruct Sane as (_ & H & _). destruct (H s a Ns Ia) as [P T]. split; auto. intros k w I. exact (P (k, w) I). Qed.

Lemma umover_abs : forall t x y, Rabs (umover U t x - umover U t y) = Rabs (x - y).
Proof using Type. intros t x y. unfold umover. destruct (utwo U && Z.odd t); auto. replace (- x - - y) with (- (x - y)) by ring. apply Rabs_Ropp. Qed.
Lemma umover_inj : forall t x y, umover U t x = umover U t y -> x = y.
Proof using Type. intros t x y. unfold umover. destruct (utwo U && Z.odd t); lra. Qed.
Lemma coeff_umover : forall (nd : @dnode S A) x, coeff U nd * x = umover U (dtime nd) x.
Proof using Type. intros nd x. unfold coeff, umover. destruct (utwo U && Z.odd (dtime nd)); lra. Qed.

(** ** Sizes of the values *)
Lemma V_small : forall h s t, Rabs (V h s t) <= (INR h + 1) * B.
Proof using Sv Sane.
  pose proof B_ge0 as B0. induction h as [|h IH]; intros s t.
  - destruct (is_sink C s) eqn:E; [rewrite (us_sink _ _ _ Sv) by auto; rewrite Rabs_R0; cbn; lra|].
    rewrite (us_end _ _ _ Sv) by auto. unfold initial. destruct (heuristic C) as [f|] eqn:F; [|rewrite Rabs_R0; cbn; lra].
    pose proof (heur_le f s F). cbn. lra.
  - rewrite S_INR. assert (Ih : 0 <= INR h) by apply pos_INR. assert (0 <= INR h * B) by now apply Rmult_le_pos.
    destruct (is_sink C s) eqn:E; [rewrite (us_sink _ _ _ Sv) by auto; rewrite Rabs_R0; nra|].
    destruct (us_step _ _ _ Sv h s t E) as ((a & Ia & Ea) & _). apply umover_inj in Ea. rewrite Ea. destruct (distr_ok s a E Ia) as [Pw T].
    unfold uworth. apply expected_bound; auto. intros o. pose proof (rwd_le s a o). pose proof (IH o (t + 1)%Z).
    pose proof (Rabs_triang (rwd C s a o) (V h o (t + 1)%Z)). lra.
Qed.
Lemma V_lim : forall h s t, (Z.of_nat h <= max_depth C)%Z -> Rabs (V h s t) <= Lim.
Proof using Sv Sane.
  intros h s t H. eapply Rle_trans; [apply V_small|]. unfold limit. apply Rmult_le_compat_r; [exact B_ge0|]. rewrite INR_IZR_INZ. apply IZR_le in H. lra.
Qed.
Lemma worth_lim : forall h s t a, (Z.of_nat (Datatypes.S h) <= max_depth C)%Z -> is_sink C s = false -> In a (acts C s) -> Rabs (uworth C U V h s t a) <= Lim.
Proof using Sv Sane.
  intros h s t a H E Ia. destruct (distr_ok s a E Ia) as [Pw T]. unfold uworth. apply expected_bound; auto. intros o.
  pose proof (rwd_le s a o). pose proof (V_small h o (t + 1)%Z). pose proof (Rabs_triang (rwd C s a o) (V h o (t + 1)%Z)).
  apply IZR_le in H. rewrite <- INR_IZR_INZ, S_INR in H. unfold limit. pose proof B_ge0.
  assert ((INR h + 1) * B <= IZR (max_depth C) * B) by (apply Rmult_le_compat_r; lra). lra.
Qed.

(** ** Facts about states of a search *)
Lemma ok_ereach : forall g s, ok g s -> ereach seqb aeqb C n (base s).
Proof using Type. intros g s (_ & _ & R & _). exact (areach_ereach seqb aeqb C alg _ _ _ R). Qed.
Lemma ok_tinv : forall g s, ok g s -> tinv seqb aeqb C (mem (base s)).
Proof using seqb_ok aeqb_ok. intros g s H. exact (proj1 (ereach_good seqb aeqb seqb_ok aeqb_ok C _ _ (ok_ereach g s H))). Qed.

Lemma gstep_trace : forall s s', gstep seqb aeqb C s s' -> exists l, etrace s' = l ++ etrace s.
Proof using Type.
  intros s s' G. destruct G; cbn [etrace]; match goal with
  | |- exists l, ?e1 :: ?e2 :: etrace s = l ++ etrace s => exists [e1; e2]; reflexivity
  | |- exists l, ?e1 :: etrace s = l ++ etrace s => exists [e1]; reflexivity end.
Qed.
Lemma fair_before : forall s s', atr seqb aeqb C alg s s' -> fair U K (base s') -> fair U K (base s).
Proof using Type.
  intros s s' X F. destruct (atr_gstep seqb aeqb C alg _ _ X) as [E|G]; [now rewrite E in F|].
  intros c x later tr Hx Ht delta g Hd Hg Hk. pose proof (mstep_ext _ _ C _ _ (gstep_mstep _ _ _ _ _ G)) as Xt.
  destruct (xt_c _ _ _ _ Xt _ _ Hx) as (x' & Hx' & E1 & E2 & _). destruct (gstep_trace _ _ G) as (l & El).
  rewrite <- E1, <- E2. apply (F c x' (l ++ later) tr Hx'); auto. rewrite El, Ht. now rewrite app_assoc.
Qed.

(** Returns of a chance node as deviations. *)
Lemma devC_returns : forall (e : @est S A) v c, devC e v c = rsum (returns_c c (etrace e)) - v * IZR (count (backs_c c) (etrace e)).
Proof using Type.
  intros e v c. unfold devC, returns_c. induction (etrace e) as [|[t ev] l IH]; [unfold wsum, rsum_of, count; cbn; lra|].
  rewrite wsum_cons, count_cons, IH, plus_IZR. cbn [flat_map snd]. rewrite rsum_app. destruct ev; cbn [addC backs_c b2z rsum]; try lra. destruct (Nat.eqb _ _); cbn [b2z rsum]; lra.
Qed.
Lemma kid_dev : forall g s d nd a c v, ok g s -> nth_error (dh (mem (base s))) d = Some nd -> lookup aeqb a (dkids nd) = Some c ->
  (0 < count (backs_c c) (etrace (base s)))%Z ->
  Rabs (kid_avg aeqb (dview s nd) a - v) * IZR (count (backs_c c) (etrace (base s))) = Rabs (devC (base s) v c).
Proof using seqb_ok aeqb_ok Uok.
  intros g s d nd a c v Ok Hd Lc Pos. pose proof Ok as (_ & _ & R & _).
  pose proof (areach_good seqb aeqb seqb_ok aeqb_ok C alg _ _ _ R) as I. pose proof (dview_ok seqb aeqb aeqb_ok C alg s d nd I Hd) as F.
  assert (E : exists x, nth_error (xcs s) c = Some x /\ kid_avg aeqb (dview s nd) a = uavg x).
  { unfold kid_avg. clear - F Lc. induction F as [|[a1 c1] [a2 [x2 y2]] l l' (H1 & H2 & H3) F IH]; cbn in *; [discriminate|]. subst a2.
    destruct (aeqb a1 a); [injection Lc as ->; eauto|auto]. }
  destruct E as (x & Hx & ->). destruct (C18_value_is_mean' seqb aeqb seqb_ok aeqb_ok C U Uok _ _ _ R) as [_ M].
  destruct (M _ _ Hx) as (E1 & _ & E2). rewrite returns_count_c, Z.add_0_l in E1. rewrite devC_returns, E2 by lia. rewrite E1.
  assert (P : 0 < IZR (count (backs_c c) (etrace (base s)))) by (apply IZR_lt in Pos; lra).
  rewrite <- (Rabs_pos_eq (IZR (count _ _))) at 2 by lra. rewrite <- Rabs_mult. f_equal. field. lra.
Qed.

Definition timeof (h : nat) : Z := (root_time C + (max_depth C - Z.of_nat h))%Z.
Lemma dtime_of : forall g s d nd h, ok g s -> nth_error (dh (mem (base s))) d = Some nd -> ddepth nd = (max_depth C - Z.of_nat h)%Z ->
  dtime nd = timeof h /\ (Z.of_nat h <= max_depth C)%Z.
Proof using seqb_ok aeqb_ok.
  intros g s d nd h Ok Hd E. destruct (ti_time _ _ _ _ (ok_tinv _ _ Ok) _ _ Hd) as [T P]. unfold timeof. lia.
Qed.

(** ** One step up: chance nodes *)
Definition near_state (h : nat) (st : S) : Prop := forall eps, 0 < eps -> exists k, 0 <= k /\ forall g s d nd, ok g s ->
  nth_error (dh (mem (base s))) d = Some nd -> dstate nd = st -> ddepth nd = (max_depth C - Z.of_nat h)%Z ->
  Rabs (devD (base s) (V h st (timeof h)) d) <= eps * IZR (cntD (base s) d) + k.
Definition near_action (h : nat) (st : S) (a : A) : Prop := forall eps, 0 < eps -> exists k, 0 <= k /\ forall g s d nd c, ok g s ->
  nth_error (dh (mem (base s))) d = Some nd -> dstate nd = st -> ddepth nd = (max_depth C - Z.of_nat (Datatypes.S h))%Z ->
  lookup aeqb a (dkids nd) = Some c ->
  Rabs (devC (base s) (uworth C U V h st (timeof (Datatypes.S h)) a) c) <= eps * IZR (count (backs_c c) (etrace (base s))) + k.

Lemma cntD_pos : forall (e : @est S A) d, (0 <= cntD e d)%Z.
Proof using Type. intros e d. unfold cntD, count. pose proof (countb_nonneg _ (fun p : nat * @event S A => backs_d d (snd p)) (etrace e)). pose proof (countb_nonneg _ (fun p : nat * @event S A => ends_at d (snd p)) (etrace e)). lia. Qed.

Lemma sumZ_le_in : forall T (f g : T -> Z) l, (forall x, In x l -> (f x <= g x)%Z) -> (sumZ f l <= sumZ g l)%Z.
Proof using Type. intros T f g l. induction l as [|x l IH]; intros H; cbn; [lia|]. pose proof (H x (or_introl eq_refl)). assert (sumZ f l <= sumZ g l)%Z by (apply IH; intros; apply H; now right). lia. Qed.

Lemma near_up_action : forall h st a, is_sink C st = false -> In a (acts C st) -> (forall o, near_state h o) -> near_action h st a.
Proof using All.
  intros h st a Ns Ia IH eps He. pose proof lim_pos as LP. pose proof B_ge0 as B0.
  set (q := uworth C U V h st (timeof (Datatypes.S h)) a). set (gam := fun o => rwd C st a o + V h o (timeof h) - q).
  set (G := 1 + 3 * (Lim + B)). assert (Gp : 0 < G) by (unfold G; lra).
  destruct (common_bound S (fun o k => forall g s d nd, ok g s -> nth_error (dh (mem (base s))) d = Some nd -> dstate nd = o ->
     ddepth nd = (max_depth C - Z.of_nat h)%Z -> Rabs (devD (base s) (V h o (timeof h)) d) <= eps / 4 * IZR (cntD (base s) d) + k) (succs C st a)) as (k1 & K1 & H1).
  { intros o k k' Hk H g s d nd O1 O2 O3 O4. specialize (H g s d nd O1 O2 O3 O4). lra. }
  { intros o _. apply (IH o (eps / 4)). lra. }
  set (del := eps / (4 * G)). assert (Hdel : 0 < del) by (apply Rmult_lt_0_compat; [lra|apply Rinv_0_lt_compat; lra]).
  set (len := INR (length (succs C st a))). assert (Hlen : 0 <= len) by apply pos_INR. assert (HN : 0 <= IZR N) by (apply IZR_le; lia).
  set (Kd := IZR (Z.max 0 (K del))). assert (HKd : 0 <= Kd) by (apply IZR_le; lia).
  exists (IZR N * (2 * Lim) + len * k1 + len * (2 * IZR N * G) + 2 * G * Kd + eps * IZR N).
  assert (Pn1 : 0 <= IZR N * (2 * Lim)) by (apply Rmult_le_pos; lra). assert (Pn2 : 0 <= len * k1) by (apply Rmult_le_pos; lra).
  assert (Pn3 : 0 <= len * (2 * IZR N * G)) by (apply Rmult_le_pos; [lra|]; apply Rmult_le_pos; lra).
  assert (Pn4 : 0 <= 2 * G * Kd) by (apply Rmult_le_pos; lra). assert (Pn5 : 0 <= eps * IZR N) by (apply Rmult_le_pos; lra).
  split; [lra|]. intros g s d nd c Ok Hd Est Hdep Lc. subst st.
  pose proof (ok_ereach _ _ Ok) as Re. pose proof (ok_tinv _ _ Ok) as Ti. destruct (dtime_of _ _ _ _ _ Ok Hd Hdep) as [Et Hmd].
  destruct (wf_d _ _ _ _ (ti_wf _ _ _ _ Ti) _ _ _ _ Hd Lc) as (x & Hx & X1 & X2 & X3 & X4 & _).
  assert (Hq : Rabs q <= Lim) by (apply worth_lim; auto).
  pose proof (devC_split seqb aeqb seqb_ok aeqb_ok C NoTT B rwd_le heur_le dep_ok B0 n (base s) Re q c x Hq Hx) as Sp.
  set (e := base s) in *.
  assert (Kids : forall o d', In (o, d') (ckids x) -> In o (succs C (dstate nd) a) /\ cchild seqb (mem e) c o d' /\ exists n', nth_error (dh (mem e)) d' = Some n' /\ dstate n' = o /\ ddepth n' = (max_depth C - Z.of_nat h)%Z).
  { intros o d' I. assert (Lo : lookup seqb o (ckids x) = Some d') by (apply lookup_of_in; auto; exact (wf_ckeys _ _ _ _ (ti_wf _ _ _ _ Ti) _ _ Hx)).
    destruct (wf_c _ _ _ _ (ti_wf _ _ _ _ Ti) _ _ _ _ Hx Lo) as (n' & Hn' & Y1 & Y2 & Y3 & Y4). rewrite X1, X4 in Y4. split; auto. split; [exists x; auto|].
    exists n'. split; auto. split; auto. lia. }
  assert (Klen : INR (length (ckids x)) <= len).
  { unfold len. apply le_INR. rewrite <- (map_length fst). apply NoDup_incl_length; [exact (wf_ckeys _ _ _ _ (ti_wf _ _ _ _ Ti) _ _ Hx)|].
    intros o I. apply in_map_iff in I. destruct I as ([o' d'] & <- & I). apply (Kids _ _ I). }
  (* what was sampled *)
  set (m := count (visits_c c) (etrace e)).
  assert (Hm : (0 <= m)%Z) by apply countb_nonneg.
  assert (Hmb : (m - N <= count (backs_c c) (etrace e) <= m)%Z).
  { apply (behind_c seqb aeqb seqb_ok aeqb_ok C NoTT n e Re (d) a c). exists nd. auto. }
  assert (Gam : forall o, Rabs (gam o) <= G).
  { intros o. unfold gam, G. pose proof (rwd_le (dstate nd) a o). assert (Rabs (V h o (timeof h)) <= Lim) by (apply V_lim; lia).
    unfold Rabs in *. repeat destruct (Rcase_abs _); lra. }
  assert (Eg : expected gam (udistr U (dstate nd) a) = 0).
  { destruct (distr_ok _ _ Ns Ia) as [_ T]. unfold gam, q, uworth. replace (timeof (Datatypes.S h) + 1)%Z with (timeof h) by (unfold timeof; lia).
    exact (expected_centre _ (fun o => rwd C (dstate nd) a o + V h o (timeof h)) _ T). }
  assert (Sam : Rabs (rsum_of gam (sampled c (etrace e))) <= eps / 4 * IZR m + 2 * G * Kd).
  { pose proof (sampled_len e c) as SL. fold m in SL. assert (Em : INR (length (sampled c (etrace e))) = IZR m) by (rewrite INR_IZR_INZ, SL; reflexivity).
    assert (PM : 0 <= IZR m) by (apply IZR_le; lia). assert (P0 : 0 <= eps / 4 * IZR m) by (apply Rmult_le_pos; lra).
    destruct (Z.le_gt_cases (K del) m) as [Le|Gt].
    - destruct Ok as (_ & _ & _ & Fr). pose proof (Fr c x [] (etrace e) Hx eq_refl del (fun o => / G * gam o) Hdel) as Q. rewrite SL, Em, X1, X4 in Q.
      assert (Q1 : forall o, Rabs (/ G * gam o) <= 1).
      { intros o. rewrite Rabs_mult, (Rabs_pos_eq (/ G)) by (left; now apply Rinv_0_lt_compat). apply Rmult_le_reg_l with G; auto. rewrite <- Rmult_assoc, Rinv_r by lra. specialize (Gam o). lra. }
      specialize (Q Q1 Le). rewrite rsum_of_scal in Q.
      replace (expected (fun o => / G * gam o) (udistr U (dstate nd) a)) with (/ G * expected gam (udistr U (dstate nd) a)) in Q.
      2: { unfold expected. rewrite <- rsum_of_scal. apply rsum_of_ext. intros; ring. }
      rewrite Eg, Rmult_0_r, Rmult_0_r, Rminus_0_r, Rabs_mult, (Rabs_pos_eq (/ G)) in Q by (left; now apply Rinv_0_lt_compat).
      apply (Rmult_le_compat_l G) in Q; [|lra]. rewrite <- Rmult_assoc, Rinv_r, Rmult_1_l in Q by lra.
      replace (G * (del * IZR m)) with (eps / 4 * IZR m) in Q by (unfold del; field; lra). lra.
    - assert (Rabs (rsum_of gam (sampled c (etrace e))) <= INR (length (sampled c (etrace e))) * G) by (apply rsum_of_abs; [lra|]; intros; apply Gam).
      rewrite Em in H. assert (IZR m <= Kd) by (apply IZR_le; lia). assert (IZR m * G <= Kd * G) by (apply Rmult_le_compat_r; lra). lra. }
  rewrite (sampled_split seqb aeqb seqb_ok aeqb_ok C n e Re c x gam Hx) in Sam.
  (* the kids *)
  assert (D1 : Rabs (rsum_of (fun p => devD e (V h (fst p) (timeof h)) (snd p)) (ckids x)) <= eps / 4 * IZR m + len * k1).
  { eapply Rle_trans; [apply (rsum_of_abs_le _ _ (fun p => eps / 4 * IZR (cntD e (snd p)) + k1))|].
    - intros [o d'] I. cbn [fst snd]. destruct (Kids o d' I) as (Io & _ & n' & Hn' & Y1 & Y2). subst o. apply (H1 (dstate n') Io g s d' n'); auto.
    - rewrite rsum_of_add, rsum_of_scal, rsum_of_const, rsum_of_sumZ. apply Rplus_le_compat.
      + apply Rmult_le_compat_l; [lra|]. apply IZR_le. unfold m. rewrite (visits_split_c seqb aeqb seqb_ok C e (ereach_good seqb aeqb seqb_ok aeqb_ok C _ _ Re) (evs_reach seqb aeqb seqb_ok aeqb_ok C _ _ Re) c x Hx).
        apply sumZ_le_in. intros [o d'] I. destruct (Kids o d' I) as (_ & Cc & _). apply (behind_e seqb aeqb seqb_ok aeqb_ok C NoTT n e Re c o d' Cc).
      + apply Rmult_le_compat_r; lra. }
  assert (D2 : Rabs (rsum_of (fun p => gam (fst p) * IZR (cntD e (snd p))) (ckids x) - rsum_of (fun p => gam (fst p) * IZR (count (goes c (snd p)) (etrace e))) (ckids x)) <= len * (2 * IZR N * G)).
  { replace (_ - _) with (rsum_of (fun p => gam (fst p) * (IZR (cntD e (snd p)) - IZR (count (goes c (snd p)) (etrace e)))) (ckids x)).
    2: { rewrite (rsum_of_ext _ _ (fun p => gam (fst p) * IZR (cntD e (snd p)) + -1 * (gam (fst p) * IZR (count (goes c (snd p)) (etrace e))))) by (intros; ring). rewrite rsum_of_add, rsum_of_scal. ring. }
    eapply Rle_trans; [apply (rsum_of_abs _ _ _ (2 * IZR N * G)); [apply Rmult_le_pos; lra|]|].
    - intros [o d'] I. cbn [fst snd]. destruct (Kids o d' I) as (_ & Cc & _). pose proof (behind_e seqb aeqb seqb_ok aeqb_ok C NoTT n e Re c o d' Cc) as Bh.
      rewrite Rabs_mult, Rmult_comm. apply Rmult_le_compat; try apply Rabs_pos; [|apply Gam]. destruct Bh as [Bh1 Bh2]. unfold cntD. apply IZR_le in Bh1, Bh2. rewrite minus_IZR, mult_IZR in Bh1.
      apply Rabs_le. lra.
    - apply Rmult_le_compat_r; [apply Rmult_le_pos; lra|auto]. }
  assert (Eq : rsum_of (fun p => devD e q (snd p) + rwd C (cstate x) (cact x) (fst p) * IZR (cntD e (snd p))) (ckids x) =
               rsum_of (fun p => devD e (V h (fst p) (timeof h)) (snd p)) (ckids x) + rsum_of (fun p => gam (fst p) * IZR (cntD e (snd p))) (ckids x)).
  { rewrite <- rsum_of_add. apply rsum_of_ext. intros [o d'] _. cbn [fst snd]. rewrite (devD_shift e q (V h o (timeof h))). unfold gam. rewrite X1, X4. ring. }
  rewrite Eq in Sp.
  assert (M1 : IZR m <= IZR (count (backs_c c) (etrace e)) + IZR N) by (rewrite <- plus_IZR; apply IZR_le; lia).
  assert (M2 : eps * IZR m <= eps * (IZR (count (backs_c c) (etrace e)) + IZR N)) by (apply Rmult_le_compat_l; lra).
  assert (M3 : 0 <= eps * IZR m) by (apply Rmult_le_pos; [lra|apply IZR_le; lia]).
  apply abs_inv in Sp, D1, D2, Sam. apply Rabs_le. lra.
Qed.

(** ** Actions that are not best are rarely selected *)
Lemma bias_bounded : exists b, 0 < b /\ forall g s d nd, ok g s -> nth_error (dh (mem (base s))) d = Some nd ->
  0 <= bias_of aeqb U (acts C (dstate nd)) (dview s nd) <= b.
Proof using All.
  pose proof lim_pos as LP. exists (Rmax 1 (Rmax (ubias U) (1 + Lim))). pose proof (Rmax_l 1 (Rmax (ubias U) (1 + Lim))). split; [lra|].
  intros g s d nd Ok Hd. pose proof (bias_ge aeqb U (acts C (dstate nd)) (dview s nd)). pose proof (bias_min_pos U Hex). split; [lra|].
  pose proof (Rmax_r 1 (Rmax (ubias U) (1 + Lim))). pose proof (Rmax_l (ubias U) (1 + Lim)). pose proof (Rmax_r (ubias U) (1 + Lim)).
  unfold bias_of. destruct (Req_EM_T (ubias U) (-1)); [|lra]. apply Rle_trans with (1 + Lim); [|lra]. unfold auto_bias.
  destruct Ok as (_ & _ & R & _). generalize (acts C (dstate nd)). induction l as [|a l IH]; cbn [map fold_right]; [lra|].
  apply Rmax_lub; auto. pose proof (kid_small seqb aeqb seqb_ok aeqb_ok C U Uok B Sane _ _ _ _ _ R Hd a). lra.
Qed.

Lemma rarely_step : forall h st a, is_sink C st = false -> In a (acts C st) -> (forall b, In b (acts C st) -> near_action h st b) ->
  umover U (timeof (Datatypes.S h)) (uworth C U V h st (timeof (Datatypes.S h)) a) < umover U (timeof (Datatypes.S h)) (V (Datatypes.S h) st (timeof (Datatypes.S h))) ->
  forall eta, 0 < eta -> exists L, 0 <= L /\ forall g s d nd g1, ok g s ->
    nth_error (dh (mem (base s))) d = Some nd -> dstate nd = st -> ddepth nd = (max_depth C - Z.of_nat (Datatypes.S h))%Z ->
    uct_select aeqb C U (visit_d nd) (dview s nd) (rg s) = Ok (a, g1) ->
    IZR (times d a (etrace (base s))) <= eta * IZR (count (visits_d d) (etrace (base s))) + L.
Proof using All.
  intros h st a Ns Ia Near Sub eta Heta. set (T := timeof (Datatypes.S h)) in *.
  destruct (us_step _ _ _ Sv h st T Ns) as ((b & Ib & Eb) & _). rewrite Eb in Sub.
  set (gap := umover U T (uworth C U V h st T b) - umover U T (uworth C U V h st T a)). assert (Hgap : 0 < gap) by (unfold gap; lra).
  destruct (common_bound A (fun x k => forall g s d nd c, ok g s ->
     nth_error (dh (mem (base s))) d = Some nd -> dstate nd = st -> ddepth nd = (max_depth C - Z.of_nat (Datatypes.S h))%Z ->
     lookup aeqb x (dkids nd) = Some c ->
     Rabs (devC (base s) (uworth C U V h st T x) c) <= gap / 8 * IZR (count (backs_c c) (etrace (base s))) + k) (acts C st)) as (k1 & K1 & H1).
  { intros x k k' Hk H g s d nd c O1 O2 O3 O4 O5. specialize (H g s d nd c O1 O2 O3 O4 O5). lra. }
  { intros x Ix. apply (Near x Ix). lra. }
  destruct (up_nat (k1 / (gap / 8))) as (Nb & Nb0 & HNb).
  { apply Rmult_le_pos; auto. left. apply Rinv_0_lt_compat. lra. }
  assert (HNb' : k1 <= gap / 8 * IZR Nb).
  { apply (Rmult_le_compat_l (gap / 8)) in HNb; [|lra]. replace (gap / 8 * (k1 / (gap / 8))) with k1 in HNb by (field; lra). exact HNb. }
  set (Kk := (Nb + 2 * N + 1)%Z).
  destruct (starve_reach seqb aeqb seqb_ok aeqb_ok C U Uok B Sane Heps Hex st n Kk) as (L0 & L00 & Starve).
  destruct (weights A (prior_of aeqb U (new_dnode C st 0 0)) (acts C st)) as (lo & hi & Plo & Plh & W).
  { intros x Ix. now apply (prior_pos aeqb aeqb_ok C U B Sane Hex). }
  destruct bias_bounded as (bm & Pbm & Hbm).
  set (del := gap / (4 * (hi * bm))). assert (Phb : 0 < hi * bm) by (apply Rmult_lt_0_compat; lra).
  assert (Hdel : 0 < del) by (apply Rmult_lt_0_compat; [lra|apply Rinv_0_lt_compat; lra]).
  destruct (Hsub del eta Hdel Heta) as (m0 & Hm0).
  assert (Iv : (0 <= init_visits C)%Z).
  { destruct Uok as (_ & Ev & Up & _). rewrite Ev. unfold pseudo. destruct (heuristic C); lia. }
  assert (HN : 0 <= IZR N) by (apply IZR_le; lia). assert (HIv : 0 <= IZR (init_visits C)) by (apply IZR_le; lia).
  set (L := 2 + IZR N + eta * (IZR (init_visits C) + 2) + IZR (Z.abs m0) + IZR L0 + IZR Kk).
  assert (P1 : 0 <= eta * (IZR (init_visits C) + 2)) by (apply Rmult_le_pos; lra). assert (P2 : 0 <= IZR (Z.abs m0)) by (apply IZR_le; lia).
  assert (P3 : 0 <= IZR L0) by (apply IZR_le; lia). assert (P4 : 0 <= IZR Kk) by (apply IZR_le; unfold Kk; lia).
  exists L. split; [unfold L; lra|]. intros g s d nd g1 Ok Hd Est Hdep Hs.
  destruct (Rle_lt_dec (IZR (times d a (etrace (base s)))) (eta * IZR (count (visits_d d) (etrace (base s))) + L)) as [|Gt]; auto. exfalso.
  pose proof Ok as (Gi & Gr & R & Fr). pose proof (areach_good seqb aeqb seqb_ok aeqb_ok C alg _ _ _ R) as I.
  pose proof (ok_ereach _ _ Ok) as E. pose proof (ok_tinv _ _ Ok) as Ti. destruct (dtime_of _ _ _ _ _ Ok Hd Hdep) as [Et Hmd].
  destruct (cinv_reach seqb aeqb seqb_ok aeqb_ok C _ _ E) as [Kc _].
  pose proof (evs_reach seqb aeqb seqb_ok aeqb_ok C _ _ E) as Ev.
  set (m := count (visits_d d) (etrace (base s))) in *. assert (Hm : 0 <= IZR m) by (apply IZR_le; apply countb_nonneg).
  assert (P5 : 0 <= eta * IZR m) by (apply Rmult_le_pos; lra).
  assert (Ta : (L0 < times d a (etrace (base s)))%Z) by (apply lt_IZR; unfold L in Gt; lra).
  assert (All : forall x, In x (acts C st) -> (Kk <= times d x (etrace (base s)))%Z) by (intros x Ix; exact (Starve g s Gi Gr R d nd Hd Est a Ta x Ix)).
  assert (Kid : forall x, In x (acts C st) -> exists c, lookup aeqb x (dkids nd) = Some c).
  { intros x Ix. destruct (lookup aeqb x (dkids nd)) as [c|] eqn:Lx; eauto. specialize (All x Ix). rewrite (times_none seqb aeqb aeqb_ok _ Ev _ _ _ Hd Lx) in All. unfold Kk in All. lia. }
  assert (Q : uprior U <> None \/ forall a0, In a0 (acts C (dstate nd)) -> In a0 (map fst (dkids nd))).
  { right. rewrite Est. intros x Ix. destruct (Kid x Ix) as (c & Lx). apply lookup_in in Lx; auto. now apply (in_map fst) in Lx. }
  assert (Gs : good_ints (rg s)).
  { destruct (streams_reach seqb aeqb seqb_ok aeqb_ok C U Uok B Sane _ _ _ Gi Gr R) as [E1 _]. intros i. rewrite E1. apply Gi. }
  assert (Ns' : is_sink C (dstate nd) = false) by now rewrite Est.
  pose proof (C20_in_searches' seqb aeqb seqb_ok aeqb_ok C U B Uok Sane Heps _ _ _ _ _ R Hd Ns' Q) as P.
  destruct (picks_always _ _ _ _ P (rg s) Gs) as (a' & g' & Ea & _ & _ & _ & Max). rewrite Hs in Ea. injection Ea as <- <-.
  rewrite Est in Max. specialize (Max b Ib).
  assert (Close : forall x, In x (acts C st) -> Rabs (kid_avg aeqb (dview s nd) x - uworth C U V h st T x) <= gap / 4).
  { intros x Ix. destruct (Kid x Ix) as (c & Lx). specialize (All x Ix). rewrite (times_child seqb aeqb aeqb_ok C _ (ag_good _ _ _ _ _ I) Ev d x c) in All by (exists nd; auto).
    assert (Dc : dchild aeqb (mem (base s)) d x c) by (exists nd; auto).
    pose proof (behind_c seqb aeqb seqb_ok aeqb_ok C NoTT n _ E d x c Dc) as Bc. pose proof (behind_s seqb aeqb seqb_ok aeqb_ok C n _ E c) as Bs.
    assert (Pc : (Nb + 1 <= count (backs_c c) (etrace (base s)))%Z) by (unfold Kk in All; lia).
    pose proof (kid_dev g s d nd x c (uworth C U V h st T x) Ok Hd Lx ltac:(lia)) as Kd. specialize (H1 x Ix g s d nd c Ok Hd Est Hdep Lx). rewrite <- Kd in H1.
    apply IZR_le in Pc. rewrite plus_IZR in Pc. set (y := IZR (count (backs_c c) (etrace (base s)))) in *. apply IZR_le in Nb0.
    apply Rmult_le_reg_r with y; [lra|]. assert (gap / 8 * IZR Nb <= gap / 8 * y) by (apply Rmult_le_compat_l; lra). lra. }
  pose proof (Close a Ia) as Ca. pose proof (Close b Ib) as Cb.
  rewrite <- (umover_abs T) in Ca, Cb. apply abs_inv in Ca, Cb.
  assert (Pw : forall x, prior_of aeqb U (visit_d nd) x = prior_of aeqb U (new_dnode C st 0 0) x).
  { intros x. unfold prior_of. cbn. now rewrite Est. }
  unfold score in Max. rewrite !Pw in Max. change (coeff U (visit_d nd)) with (coeff U nd) in Max. rewrite !coeff_umover, Et in Max. fold T in Max.
  change (acts C (dstate (visit_d nd))) with (acts C (dstate nd)) in Max.
  destruct (Hbm g s d nd Ok Hd) as [B1 B2]. set (be := bias_of aeqb U (acts C (dstate nd)) (dview s nd)) in *.
  destruct (W a Ia) as [Wa1 Wa2]. destruct (W b Ib) as [Wb1 _].
  set (wa := prior_of aeqb U (new_dnode C st 0 0) a) in *. set (wb := prior_of aeqb U (new_dnode C st 0 0) b) in *.
  assert (T0 : forall x y, 0 <= uterm U x y) by apply Sane.
  set (nv := dvisits (visit_d nd)) in *.
  assert (Nv : (m <= nv <= init_visits C + m + 2)%Z).
  { pose proof (ci_dv _ _ Kc _ _ Hd) as Dv. fold m in Dv. unfold nv. cbn [visit_d dvisits]. rewrite Dv.
    destruct (ends_reach seqb aeqb seqb_ok aeqb_ok C _ _ E) as (_ & En1 & En2).
    assert (Nl : is_leaf C nd = false).
    { unfold is_leaf. rewrite Ns', Hdep. cbn [orb]. destruct (Z.leb_spec (max_depth C) (max_depth C - Z.of_nat (Datatypes.S h))); auto. lia. }
    assert (Z0 : (0 <= count (ends_at d) (etrace (base s)))%Z) by apply countb_nonneg.
    assert (Z1 : (0 <= sumZ (atnew d) (ths (base s)))%Z) by (apply sumZ_nonneg; intros y; destruct y as [|? [] ? ?| | | |]; cbn; try lia; destruct (Nat.eqb _ _); cbn; lia).
    destruct (mcts_mode C) eqn:Mm; [specialize (En2 eq_refl NoTT d nd Hd Nl); destruct (Nat.eqb d 0)|specialize (En1 eq_refl d nd Hd Nl)]; lia. }
  destruct (kid_visits_times seqb aeqb seqb_ok aeqb_ok C U _ _ _ _ _ R Hd a) as [[Ka _] _]. set (ka := kid_visits aeqb (dview s nd) a) in *.
  assert (Tt : uterm U nv ka <= del).
  { apply Hm0.
    - assert (IZR m0 <= IZR nv); [|now apply le_IZR]. destruct Nv as [Nv _]. apply IZR_le in Nv. pose proof (times_le aeqb d a (etrace (base s))) as Tl. fold m in Tl. destruct Tl as [_ Tl]. apply IZR_le in Tl.
      assert (IZR m0 <= IZR (Z.abs m0)) by (apply IZR_le; lia). unfold L in Gt. lra.
    - apply IZR_le in Ka. rewrite minus_IZR in Ka. destruct Nv as [_ Nv]. apply IZR_le in Nv. rewrite !plus_IZR in Nv.
      apply (Rmult_le_compat_l eta) in Nv; [|lra]. unfold L in Gt. lra. }
  assert (A2 : wa * be * uterm U nv ka <= hi * bm * del).
  { apply Rmult_le_compat; [apply Rmult_le_pos; lra|apply T0| |exact Tt]. apply Rmult_le_compat; lra. }
  replace (hi * bm * del) with (gap / 4) in A2 by (unfold del; field; lra).
  assert (A3 : 0 <= wb * be * uterm U nv (kid_visits aeqb (dview s nd) b)) by (apply Rmult_le_pos; [apply Rmult_le_pos; lra|apply T0]).
  unfold gap in *. lra.
Qed.

Lemma rarely : forall h st a, is_sink C st = false -> In a (acts C st) -> (forall b, In b (acts C st) -> near_action h st b) ->
  umover U (timeof (Datatypes.S h)) (uworth C U V h st (timeof (Datatypes.S h)) a) < umover U (timeof (Datatypes.S h)) (V (Datatypes.S h) st (timeof (Datatypes.S h))) ->
  forall eta, 0 < eta -> exists L, 0 <= L /\ forall g s d nd, ok g s ->
    nth_error (dh (mem (base s))) d = Some nd -> dstate nd = st -> ddepth nd = (max_depth C - Z.of_nat (Datatypes.S h))%Z ->
    IZR (times d a (etrace (base s))) <= eta * IZR (count (visits_d d) (etrace (base s))) + L.
Proof using All.
  intros h st a Ns Ia Near Sub eta Heta. destruct (rarely_step h st a Ns Ia Near Sub eta Heta) as (L & L0 & St).
  exists (L + 1). split; [lra|]. intros g s d nd (Gi & Gr & R & Fr). revert s R Fr d nd.
  apply (areach_ind' seqb aeqb seqb_ok aeqb_ok C alg n g (fun s => fair U K (base s) -> forall d nd, nth_error (dh (mem (base s))) d = Some nd -> dstate nd = st ->
    ddepth nd = (max_depth C - Z.of_nat (Datatypes.S h))%Z -> IZR (times d a (etrace (base s))) <= eta * IZR (count (visits_d d) (etrace (base s))) + (L + 1))).
  - intros _ d nd _ _ _. cbn. unfold count. cbn. lra.
  - intros s s' R I _ IH X Fr d nd Hd Est Hdep. pose proof (fair_before _ _ X Fr) as Fr0. specialize (IH Fr0).
    assert (Old : (exists node0, nth_error (dh (mem (base s))) d = Some node0 /\ dstate node0 = dstate nd /\ ddepth node0 = ddepth nd) \/
                  (length (dh (mem (base s))) <= d)%nat).
    { destruct (nth_error (dh (mem (base s))) d) as [m|] eqn:Hm; [|right; now apply nth_error_None].
      left. exists m. split; auto.
      destruct (atr_gstep seqb aeqb C alg _ _ X) as [E|Gs]; [rewrite E in Hd; split; congruence|].
      pose proof (mstep_ext _ _ C _ _ (gstep_mstep _ _ _ _ _ Gs)) as Xt.
      destruct (xt_d _ _ _ _ Xt _ _ Hm) as (n' & Hn' & E1 & E2 & _). rewrite Hd in Hn'. injection Hn' as <-. auto. }
    pose proof (areach_ereach seqb aeqb C alg _ _ _ R) as E.
    destruct (cinv_reach seqb aeqb seqb_ok aeqb_ok C _ _ E) as [Kc _].
    assert (New : (length (dh (mem (base s))) <= d)%nat -> selected d (etrace (base s)) = []).
    { intros Lt. destruct (ci_fd _ _ Kc d Lt) as [Z _]. rewrite <- selected_len in Z. destruct (selected d (etrace (base s))); [auto|cbn in Z; lia]. }
    rewrite <- selected_len in *. unfold ExploreSpec.times in *.
    destruct (atr_selected seqb aeqb C U _ _ X) as [Eq|(t & cur & flag & nodes & rewards & m & x & cx & a1 & cx1 & g1 & H1 & H2 & H3 & H4 & H5 & Eq)];
      rewrite Eq in *.
    + destruct Old as [(node0 & Hn0 & E0 & E1)|Lt].
      * specialize (IH d node0 Hn0 (eq_trans E0 Est) (eq_trans E1 Hdep)). rewrite <- selected_len in IH. exact IH.
      * rewrite (New Lt). cbn. lra.
    + destruct (Nat.eqb_spec cur d) as [->|ne].
      * destruct Old as [(node0 & Hn0 & E0 & E1)|Lt]; [|apply nth_error_None in Lt; congruence].
        rewrite H2 in Hn0. injection Hn0 as <-. specialize (IH d m H2 (eq_trans E0 Est) (eq_trans E1 Hdep)). rewrite <- selected_len in IH.
        rewrite countb_app, app_length, plus_IZR, Nat2Z.inj_add, plus_IZR. cbn [countb length].
        destruct (aeqb a a1) eqn:Ea; [|change (IZR (Z.of_nat 1)) with 1; change (0 + 0)%Z with 0%Z; lra].
        apply aeqb_ok in Ea. subst a1. cbn [select uct vis_d] in H5.
        destruct (uct_select aeqb C U (visit_d m) (dview s m) (rg s)) as [[a' g2]| |] eqn:Es; try discriminate.
        cbn [bind] in H5. injection H5 as -> _ _.
        assert (Ok : ok g s) by (split; auto).
        pose proof (St g s d m g2 Ok H2 (eq_trans E0 Est) (eq_trans E1 Hdep) Es) as Q. rewrite <- selected_len in Q. unfold ExploreSpec.times in Q.
        change (IZR (1 + 0)) with 1. change (IZR (Z.of_nat 1)) with 1. lra.
      * cbn [app] in *. destruct Old as [(node0 & Hn0 & E0 & E1)|Lt].
        -- specialize (IH d node0 Hn0 (eq_trans E0 Est) (eq_trans E1 Hdep)). rewrite <- selected_len in IH. exact IH.
        -- rewrite (New Lt). cbn. lra.
Qed.
End Conv.
