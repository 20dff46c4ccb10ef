(** No action of a UCT or PUCT search starves. *)
From Coq Require Import List ZArith Bool Reals Lia Lra Permutation.
From Verif Require Import Base BaseProofs NumOps RLemmas HelperModel HelperSpec HelperProofs EngineModel EngineSpec
  EngineProofs EngineInv EngineCount EngineBound MapModel MapProofs PickSpec PickProofs AlgoModel AlgoProofs UctModel
  UctSpec UctProofs UctInv UctSelect UctRun UctResults ExploreSpec.
Import ListNotations.
Open Scope R_scope.

(** ** The two exploration terms *)
Lemma cnt_of : forall n, (1 <= n)%Z -> cnt n = IZR n.
Proof. intros n H. unfold cnt. destruct (Z.ltb_spec 0 n); auto. lia. Qed.

Lemma up_ge : forall x n, (up x <= n)%Z -> x <= IZR n.
Proof. intros x n H. destruct (archimed x) as [Q _]. apply IZR_le in H. lra. Qed.

Lemma uct_term_exploring : exploring uct_term.
Proof.
  split; [intros; now apply uct_term_child|]. split; [intros; now apply uct_term_parent|]. split.
  - intros k x. exists (Z.max 1 (up (exp (cnt k * Rsqr x)))). intros n H. rewrite uct_term_eq.
    rewrite cnt_of by lia. pose proof (cnt_pos k) as Hk.
    assert (E : exp (cnt k * Rsqr x) <= IZR n) by (apply up_ge; lia).
    assert (L : cnt k * Rsqr x <= ln (IZR n)).
    { rewrite <- (ln_exp (cnt k * Rsqr x)). apply ln_le; auto. apply exp_pos. }
    apply Rle_trans with (Rabs x); [apply Rle_abs|]. rewrite <- sqrt_Rsqr_abs. apply sqrt_le_1_alt.
    apply Rmult_le_reg_l with (cnt k); [lra|]. replace (cnt k * (ln (IZR n) / cnt k)) with (ln (IZR n)) by (field; lra). exact L.
  - intros k q Hq. exists (Z.max 1 (up (cnt k / Rsqr q))). intros n c H. rewrite !uct_term_eq.
    pose proof (cnt_pos k) as Hk. pose proof (cnt_pos n) as Hn. pose proof (ln_ge0 _ Hn) as Ln.
    assert (Q2 : 0 < Rsqr q) by (apply Rsqr_pos_lt; lra).
    assert (E : cnt k / Rsqr q <= cnt c) by (rewrite (cnt_of c) by lia; apply up_ge; lia).
    pose proof (cnt_pos c) as Hc.
    replace (q * sqrt (ln (cnt n) / cnt k)) with (sqrt (Rsqr q * (ln (cnt n) / cnt k))).
    2:{ rewrite sqrt_mult_alt by lra. now rewrite sqrt_Rsqr by lra. }
    apply sqrt_le_1_alt.
    replace (Rsqr q * (ln (cnt n) / cnt k)) with (ln (cnt n) / (cnt k / Rsqr q)) by (field; split; lra).
    apply div_anti; auto. apply Rmult_lt_0_compat; [lra|]. now apply Rinv_0_lt_compat.
Qed.

Lemma puct_term_exploring : forall p, 0 < p -> exploring (puct_term p).
Proof.
  intros p Hp. split; [intros; now apply puct_term_child|]. split; [intros; apply puct_term_parent; auto; lra|]. split.
  - intros k x. pose proof (cnt_pos k) as Hk. set (y := Rmax 1 (cnt k * x)).
    assert (Hy : 1 <= y) by apply Rmax_l. assert (Hxy : cnt k * x <= y) by apply Rmax_r.
    exists (Z.max 1 (up (Rpower y (/ p)))). intros n H. rewrite puct_term_eq, (cnt_of n) by lia.
    assert (E : Rpower y (/ p) <= IZR n) by (apply up_ge; lia).
    assert (L : y <= Rpower (IZR n) p).
    { replace y with (Rpower (Rpower y (/ p)) p).
      - apply Rle_Rpower_l; [lra|]. split; auto. apply exp_pos.
      - rewrite Rpower_mult. replace (/ p * p) with 1 by (field; lra). apply Rpower_1. lra. }
    apply Rmult_le_reg_l with (cnt k); [lra|].
    replace (cnt k * (Rpower (IZR n) p / cnt k)) with (Rpower (IZR n) p) by (field; lra). lra.
  - intros k q Hq. exists (Z.max 1 (up (cnt k / q))). intros n c H. rewrite !puct_term_eq.
    pose proof (cnt_pos k) as Hk. pose proof (cnt_pos c) as Hc.
    assert (E : cnt k / q <= cnt c) by (rewrite (cnt_of c) by lia; apply up_ge; lia).
    replace (q * (Rpower (cnt n) p / cnt k)) with (Rpower (cnt n) p / (cnt k / q)) by (field; split; lra).
    apply div_anti; auto; [left; apply exp_pos|]. apply Rmult_lt_0_compat; [lra|]. now apply Rinv_0_lt_compat.
Qed.

(** ** Pigeonhole *)
Lemma countb_app : forall T (f : T -> bool) l m, countb f (l ++ m) = (countb f l + countb f m)%Z.
Proof. intros T f l m. induction l as [|x l IH]; cbn [app countb]; auto. rewrite IH. lia. Qed.

Lemma sumZ_add : forall T (f g : T -> Z) l, sumZ (fun x => f x + g x)%Z l = (sumZ f l + sumZ g l)%Z.
Proof. intros T f g l. induction l as [|x l IH]; cbn [sumZ]; lia. Qed.

Lemma b2z_if : forall b : bool, (if b then 1 else 0)%Z = b2z b.
Proof. now intros []. Qed.

Lemma count_cover : forall T (eqb : T -> T -> bool) l L, decides eqb -> incl L l ->
  (Z.of_nat (length L) <= sumZ (fun a => countb (eqb a) L) l)%Z.
Proof.
  intros T eqb l L D. induction L as [|x L IH]; intros H.
  - cbn [length]. apply sumZ_nonneg. intros a. cbn. lia.
  - specialize (IH (fun y Q => H y (or_intror Q))).
    assert (E : forall a, countb (eqb a) (x :: L) = (b2z (eqb a x) + countb (eqb a) L)%Z).
    { intros a. cbn [countb]. destruct (eqb a x); reflexivity. }
    assert (E2 : sumZ (fun a => countb (eqb a) (x :: L)) l = (sumZ (fun a => b2z (eqb a x)) l + sumZ (fun a => countb (eqb a) L) l)%Z).
    { rewrite <- sumZ_add. clear - E. induction l as [|a l IHl]; cbn [sumZ]; [reflexivity|]. rewrite ?E, ?IHl. reflexivity. }
    rewrite E2. enough (1 <= sumZ (fun a => b2z (eqb a x)) l)%Z by (cbn [length]; lia).
    assert (Hx : In x l) by (apply H; now left). clear - Hx D. induction l as [|a l IH]; [destruct Hx|]. cbn [sumZ].
    assert (0 <= sumZ (fun a => b2z (eqb a x)) l)%Z by (apply sumZ_nonneg; intros b; destruct (eqb b x); cbn; lia).
    destruct Hx as [->|Hx].
    + rewrite (proj2 (D x x) eq_refl). cbn [b2z]. lia.
    + specialize (IH Hx). assert (0 <= b2z (eqb a x))%Z by (destruct (eqb a x); cbn; lia). lia.
Qed.

Lemma pigeon : forall T (f : T -> Z) l m, (0 <= m)%Z -> (Z.of_nat (length l) * m < sumZ f l)%Z -> exists b, In b l /\ (m < f b)%Z.
Proof.
  intros T f l m Hm. induction l as [|a l IH]; intros H; [cbn in H; lia|]. cbn [sumZ length] in H.
  destruct (Z.ltb_spec m (f a)) as [Q|Q]; [exists a; split; [now left|auto]|].
  destruct IH as (b & Ib & Hb); [lia|]. exists b. split; [now right|auto].
Qed.

Lemma weights : forall T (f : T -> R) l, (forall a, In a l -> 0 < f a) ->
  exists lo hi, 0 < lo /\ lo <= hi /\ forall a, In a l -> lo <= f a <= hi.
Proof.
  intros T f l. induction l as [|a l IH]; intros H.
  - exists 1, 1. split; [lra|]. split; [lra|]. intros a [].
  - destruct IH as (lo & hi & P & Q & R); [intros; apply H; now right|].
    exists (Rmin lo (f a)), (Rmax hi (f a)). pose proof (H a (or_introl eq_refl)).
    pose proof (Rmin_l lo (f a)). pose proof (Rmin_r lo (f a)). pose proof (Rmax_l hi (f a)). pose proof (Rmax_r hi (f a)).
    split; [now apply Rmin_glb_lt|]. split; [lra|]. intros b [<-|Ib]; [lra|]. specialize (R b Ib). lra.
Qed.

Section Explore.
Context {S A : Type}.
Variable seqb : S -> S -> bool.
Variable aeqb : A -> A -> bool.
Hypothesis seqb_ok : decides seqb.
Hypothesis aeqb_ok : decides aeqb.
Variable C : @econf S A.
Variable U : @uconf S A.
Notation alg := (uct aeqb C U).
Notation areach := (areach seqb aeqb C alg).
Notation ast := (ast alg).
Notation atr := (atr seqb aeqb C alg).
Notation agood := (agood seqb aeqb C alg).
Notation times := (times aeqb).

(** ** Counting selections *)
Lemma selected_len : forall d (tr : list (nat * @event S A)), Z.of_nat (length (selected d tr)) = count (visits_d d) tr.
Proof using.
  intros d tr. induction tr as [|[t e] tr IH]; auto. rewrite selected_app, count_cons, app_length, Nat2Z.inj_add, IH.
  f_equal. destruct e; auto. cbn. destruct (Nat.eqb _ _); reflexivity.
Qed.

Lemma times_le : forall d a (tr : list (nat * @event S A)), (0 <= times d a tr <= count (visits_d d) tr)%Z.
Proof using. intros d a tr. rewrite <- selected_len. unfold ExploreSpec.times. split; [apply countb_nonneg|apply countb_le_length]. Qed.

Lemma times_child : forall s, good seqb aeqb C s -> evs_ok seqb aeqb s -> forall d a c, dchild aeqb (mem s) d a c ->
  times d a (etrace s) = count (selects_c c) (etrace s).
Proof using aeqb_ok.
  intros s [I _] K d a c D. unfold evs_ok in K. revert K. generalize (etrace s).
  induction l as [|[t e] tr IH]; intros K; auto.
  unfold ExploreSpec.times in *. rewrite selected_app, countb_app, count_cons, IH by (intros; eapply K; right; eauto).
  f_equal. specialize (K t e (or_introl eq_refl)). destruct e as [|d' a' c'| | | | | | |]; auto.
  cbn [selected flat_map snd selects_c]. cbn [evok] in K. rewrite app_nil_r.
  destruct (Nat.eqb_spec d' d) as [->|ne]; cbn [countb].
  - destruct (aeqb a a') eqn:E.
    + apply aeqb_ok in E. subst a'. destruct D as (n1 & H1 & H2), K as (n2 & H3 & H4).
      rewrite H1 in H3. injection H3 as <-. rewrite H2 in H4. injection H4 as <-. now rewrite Nat.eqb_refl.
    + destruct (Nat.eqb_spec c' c) as [->|]; auto. destruct (ti_cparent _ _ _ _ I _ _ _ _ _ D K) as [_ <-].
      rewrite (proj2 (aeqb_ok a a) eq_refl) in E. discriminate.
  - destruct (Nat.eqb_spec c' c) as [->|]; auto. destruct (ti_cparent _ _ _ _ I _ _ _ _ _ D K) as [<- _]. congruence.
Qed.

Lemma times_none : forall s, evs_ok seqb aeqb s -> forall d n a, nth_error (dh (mem s)) d = Some n ->
  lookup aeqb a (dkids n) = None -> times d a (etrace s) = 0%Z.
Proof using aeqb_ok.
  intros s K d n a Hn L. unfold evs_ok in K. revert K. generalize (etrace s).
  induction l as [|[t e] tr IH]; intros K; auto.
  unfold ExploreSpec.times in *. rewrite selected_app, countb_app, IH by (intros; eapply K; right; eauto).
  specialize (K t e (or_introl eq_refl)). destruct e as [|d' a' c'| | | | | | |]; auto.
  cbn [selected flat_map snd]. cbn [evok] in K. rewrite app_nil_r.
  destruct (Nat.eqb_spec d' d) as [->|ne]; cbn [countb]; auto.
  destruct (aeqb a a') eqn:E; auto. apply aeqb_ok in E. subst a'. destruct K as (n2 & H3 & H4).
  rewrite Hn in H3. injection H3 as <-. congruence.
Qed.

Lemma sum_at : forall c (l : list (@tstate A)), (0 <= sumZ (atC c) l <= Z.of_nat (length l))%Z.
Proof using.
  intros c l. induction l as [|x l IH]; cbn [sumZ length]; [lia|].
  assert (0 <= atC c x <= 1)%Z by (destruct x; cbn; try lia; destruct (Nat.eqb _ _); cbn; lia). lia.
Qed.

Lemma threads_len : forall n s, ereach seqb aeqb C n s -> length (ths s) = n.
Proof using.
  intros n s [ls R]. revert R. cut (length (ths (einit C n)) = n); [|cbn; apply repeat_length].
  generalize (einit C n). induction ls as [|l ls IH]; intros s0 H0 R; cbn in R; [now injection R as <-|].
  destruct (estep seqb aeqb C l s0) as [s1|] eqn:E; [|discriminate]. apply (IH s1); auto. rewrite <- H0.
  unfold estep, out in E.
  repeat match type of E with
  | context [match ?x with _ => _ end] => destruct x; try discriminate E
  end; injection E as <-; cbn; apply upd_length.
Qed.

(** Visits of the children, as seen by the node, and selections of the action differ by at most one per thread. *)
Lemma kid_visits_times : forall n g s d node, areach n g s -> nth_error (dh (mem (base s))) d = Some node ->
  forall a, (times d a (etrace (base s)) - Z.of_nat n <= kid_visits aeqb (dview s node) a <= times d a (etrace (base s)))%Z /\
    forall c, lookup aeqb a (dkids node) = Some c ->
      exists x, nth_error (ch (mem (base s))) c = Some x /\ kid_visits aeqb (dview s node) a = cvisits x.
Proof using seqb_ok aeqb_ok.
  intros n g s d node R Hd a.
  pose proof (areach_good seqb aeqb seqb_ok aeqb_ok C alg _ _ _ R) as I. pose proof (ag_good _ _ _ _ _ I) as Gd.
  pose proof (areach_ereach seqb aeqb C alg _ _ _ R) as E.
  pose proof (evs_reach seqb aeqb seqb_ok aeqb_ok C _ _ E) as Ev.
  destruct (cinv_reach seqb aeqb seqb_ok aeqb_ok C _ _ E) as [K _].
  pose proof (dview_ok seqb aeqb aeqb_ok C alg s d node I Hd) as F.
  unfold kid_visits.
  assert (V : match lookup aeqb a (dkids node) with
              | Some c => exists x y, nth_error (ch (mem (base s))) c = Some x /\ @lookup A (@cnode S A * ux) aeqb a (dview s node) = Some (x, y)
              | None => @lookup A (@cnode S A * ux) aeqb a (dview s node) = None end).
  { clear - F. induction F as [|[a1 c1] [a2 [x2 y2]] l l' (H1 & H2 & H3) F IH]; cbn in *; auto. subst a2.
    destruct (aeqb a1 a); eauto. }
  destruct (lookup aeqb a (dkids node)) as [c|] eqn:L.
  - destruct V as (x & y & Hx & ->). split.
    + rewrite (times_child _ Gd Ev d a c) by (exists node; auto). rewrite (ci_sc _ _ K), (ci_cv _ _ K _ _ Hx).
      pose proof (sum_at c (ths (base s))) as Q. rewrite (threads_len _ _ E) in Q. lia.
    + intros c0 [= <-]. eauto.
  - rewrite V. split; [|discriminate]. rewrite (times_none _ Ev _ _ _ Hd L). lia.
Qed.

Lemma selected_valid : forall n g s d node, areach n g s -> nth_error (dh (mem (base s))) d = Some node ->
  incl (selected d (etrace (base s))) (acts C (dstate node)).
Proof using seqb_ok aeqb_ok.
  intros n g s d node R Hd a Ia. pose proof (areach_ereach seqb aeqb C alg _ _ _ R) as E.
  pose proof (evs_reach seqb aeqb seqb_ok aeqb_ok C _ _ E) as Ev.
  destruct (ereach_good seqb aeqb seqb_ok aeqb_ok C _ _ E) as [I _].
  unfold selected in Ia. apply in_flat_map in Ia. destruct Ia as ([t e] & Ie & Q). specialize (Ev _ _ Ie).
  cbn [snd] in Q. destruct e as [|d' a' c'| | | | | | |]; try destruct Q. destruct (Nat.eqb_spec d' d) as [->|]; [|destruct Q].
  destruct Q as [<-|[]]. destruct Ev as (n2 & H3 & H4). rewrite Hd in H3. injection H3 as <-.
  destruct (wf_d _ _ _ _ (ti_wf _ _ _ _ I) _ _ _ _ Hd H4) as (x & _ & _ & _ & _ & _ & Q & _). exact Q.
Qed.

(** ** Trials end at the root only if it is a leaf *)
Lemma chain_to_root : forall m steps d, tinv seqb aeqb C m -> chain seqb aeqb m d steps 0 -> steps = [].
Proof using.
  intros m steps d I H. destruct steps as [|x steps _] using rev_ind; auto. exfalso.
  revert d H. induction steps as [|y steps IH]; intros d H; cbn [app chain] in H.
  - destruct H as (_ & _ & _ & Q & E). rewrite E in Q. exact (ti_noroot _ _ _ _ I _ _ _ Q eq_refl).
  - destruct H as (_ & _ & _ & _ & H). exact (IH _ H).
Qed.

Lemma no_end_at_root : forall n s, ereach seqb aeqb C n s -> forall root, nth_error (dh (mem s)) 0 = Some root ->
  is_leaf C root = false -> count (ends_at 0) (etrace s) = 0%Z.
Proof using seqb_ok aeqb_ok.
  intros n s R root Hr Hl.
  assert (L0 : is_leaf C (new_dnode C (root_state C) 0 (root_time C)) = false).
  { destruct (wf_root _ _ _ _ (ti_wf _ _ _ _ (proj1 (ereach_good seqb aeqb seqb_ok aeqb_ok C _ _ R)))) as (r0 & H0 & E1 & E2 & _).
    rewrite Hr in H0. injection H0 as <-. unfold is_leaf in *. cbn. now rewrite <- E1, <- E2. }
  clear root Hr Hl. revert s R.
  enough (Q : forall s, ereach seqb aeqb C n s -> (count (ends_at 0) (etrace s) = 0)%Z /\ walks seqb aeqb C s).
  { intros s R. apply (Q s R). }
  apply ereach_inv; auto.
  - split; [reflexivity|]. intros t x H. cbn in H. apply nth_error_In in H. apply repeat_spec in H. subst. cbn. auto.
  - intros s s' Gd [K W] St. split; [|eapply walks_step; eauto].
    destruct St; cbn [etrace]; rewrite ?count_cons, ?K; try reflexivity. cbn [ends_at].
    destruct (Nat.eqb_spec cur 0) as [->|]; [|reflexivity]. exfalso.
    pose proof (W _ _ H) as Wt. cbn in Wt. destruct Wt as (steps & _ & (Ch & _) & _ & _ & Fl).
    pose proof (chain_to_root _ _ _ (proj1 Gd) Ch) as Es. subst steps. cbn in Fl. subst flag.
    destruct (wf_root _ _ _ _ (ti_wf _ _ _ _ (proj1 Gd))) as (r0 & H2 & E1 & E2 & _). rewrite H0 in H2. injection H2 as <-.
    unfold should_continue in H1. unfold is_leaf in *. cbn in L0. rewrite E1, E2, L0 in H1.
    rewrite andb_false_r in H1. discriminate.
Qed.

(** ** The argument *)
Section Arg.
Hypothesis Uok : uct_ok C U.
Variable B : R.
Hypothesis Sane : sane C U B.
Hypothesis Heps : ueps U <= 0.
Hypothesis Hex : explores U.

Lemma prior_pos : forall (m : @dnode S A) a, In a (acts C (dstate m)) -> 0 < prior_of aeqb U m a.
Proof using aeqb_ok Sane Hex.
  intros m a Ia. pose proof (covers C U B Sane m) as Cv. destruct Hex as (_ & Hp & _). unfold prior_of, prior_covers in *.
  destruct (uprior U) as [p|]; [|lra]. specialize (Cv a Ia). destruct (lookup aeqb a (p (dstate m))) as [w|] eqn:El.
  - apply lookup_in in El; auto. exact (Hp p eq_refl _ _ El).
  - exfalso. apply lookup_none in El; auto.
Qed.

Definition bias_min : R := if Req_EM_T (ubias U) (-1) then 1/1000 else ubias U.
Lemma bias_min_pos : 0 < bias_min.
Proof using Hex. unfold bias_min. destruct Hex as ([H|H] & _); destruct (Req_EM_T (ubias U) (-1)); lra. Qed.
Lemma bias_ge : forall l (kids : list (A * (@cnode S A * ux))), bias_min <= bias_of aeqb U l kids.
Proof using.
  intros l kids. unfold bias_min, bias_of. destruct (Req_EM_T (ubias U) (-1)); [|lra]. apply auto_bias_bounds.
Qed.

(** An action that was selected very often is not selected again while another one was selected few times. *)
Lemma threshold : forall st n K, exists L0, (0 <= L0)%Z /\ forall g s d node b g1, good_ints g -> areach n g s ->
  nth_error (dh (mem (base s))) d = Some node -> dstate node = st -> is_sink C st = false ->
  uct_select aeqb C U (visit_d node) (dview s node) (rg s) = Ok (b, g1) ->
  (L0 <= times d b (etrace (base s)))%Z -> good_reals g ->
  forall a, In a (acts C st) -> (K <= times d a (etrace (base s)))%Z.
Proof using All.
  intros st n K.
  set (m0 := new_dnode C st 0 0).
  destruct (weights A (prior_of aeqb U m0) (acts C st)) as (lo & hi & Plo & Plh & W); [intros a Ia; now apply prior_pos|].
  destruct Hex as (_ & _ & T1 & T2 & T3 & T4).
  set (V := limit C B). pose proof bias_min_pos as Bp.
  destruct (T4 K (lo / (2 * hi))) as (c0 & Hc0).
  { apply Rmult_lt_0_compat; auto. apply Rinv_0_lt_compat. lra. }
  destruct (T3 K ((4 * V + 1) / (lo * bias_min))) as (n0 & Hn0).
  exists (Z.max 1 (Z.max n0 (c0 + Z.of_nat n))). split; [lia|].
  intros g s d node b g1 Gi R Hd Est Ns Hs HL Gr a Ia.
  pose proof (areach_good seqb aeqb seqb_ok aeqb_ok C alg _ _ _ R) as I.
  pose proof (areach_ereach seqb aeqb C alg _ _ _ R) as E.
  destruct (cinv_reach seqb aeqb seqb_ok aeqb_ok C _ _ E) as [Kc _].
  pose proof (evs_reach seqb aeqb seqb_ok aeqb_ok C _ _ E) as Ev.
  destruct (Z.le_gt_cases K (times d a (etrace (base s)))) as [|Lt]; auto. exfalso.
  assert (Hb : In b (map fst (dkids node))).
  { destruct (lookup aeqb b (dkids node)) as [c|] eqn:L.
    - apply lookup_in in L; auto. now apply (in_map fst) in L.
    - rewrite (times_none _ Ev _ _ _ Hd L) in HL. lia. }
  assert (Keys : @map (A * (@cnode S A * ux)) A fst (dview s node) = map fst (dkids node))
    by exact (dview_keys seqb aeqb aeqb_ok C alg s d node I Hd).
  assert (Q : uprior U <> None \/ forall a0, In a0 (acts C (dstate node)) -> In a0 (map fst (dkids node))).
  { destruct (uprior U) as [p|] eqn:Ep; [left; discriminate|]. right. intros a0 Ia0.
    destruct (lookup aeqb a0 (dkids node)) as [c|] eqn:L; [apply lookup_in in L; auto; now apply (in_map fst) in L|].
    exfalso. apply (lookup_none _ _ aeqb a0 (dkids node) aeqb_ok) in L.
    refine (select_new aeqb aeqb_ok C U Heps Ep _ _ _ _ _ Hs _ _).
    - exists a0. split; [exact Ia0|]. rewrite Keys. exact L.
    - rewrite Keys. exact Hb. }
  assert (Gs : good_ints (rg s)).
  { destruct (streams_reach seqb aeqb seqb_ok aeqb_ok C U Uok B Sane _ _ _ Gi Gr R) as [E1 _]. intros i. rewrite E1. apply Gi. }
  rewrite <- Est in Ns.
  pose proof (C20_in_searches' seqb aeqb seqb_ok aeqb_ok C U B Uok Sane Heps _ _ _ _ _ R Hd Ns Q) as P.
  destruct (picks_always _ _ _ _ P (rg s) Gs) as (b' & g' & Eb & _ & _ & Ib & Max). rewrite Hs in Eb. injection Eb as <- <-.
  rewrite <- Est in Ia. specialize (Max a Ia).
  assert (Pw : forall x, prior_of aeqb U (visit_d node) x = prior_of aeqb U m0 x).
  { intros x. unfold prior_of, m0. cbn. now rewrite Est. }
  unfold score in Max. rewrite !Pw in Max.
  set (be := bias_of aeqb U (acts C (dstate (visit_d node))) (dview s node)) in *.
  assert (Hbe : bias_min <= be) by apply bias_ge.
  destruct (kid_visits_times _ _ _ _ _ R Hd a) as [[_ Ka] _]. destruct (kid_visits_times _ _ _ _ _ R Hd b) as [[Kb _] _].
  assert (Nv : (n0 <= dvisits (visit_d node))%Z).
  { pose proof (ci_dv _ _ Kc _ _ Hd) as D. pose proof (times_le d b (etrace (base s))) as T.
    assert (0 <= count (ends_at d) (etrace (base s)))%Z by apply countb_nonneg.
    destruct Uok as (_ & Iv & Up & _). assert (0 <= init_visits C)%Z.
    { rewrite Iv. unfold pseudo. destruct (heuristic C); lia. }
    cbn [visit_d dvisits]. lia. }
  set (nv := dvisits (visit_d node)) in *.
  set (ka := kid_visits aeqb (dview s node) a) in *. set (kb := kid_visits aeqb (dview s node) b) in *.
  assert (Ta : uterm U nv K <= uterm U nv ka) by (apply T1; lia).
  assert (Tb : uterm U nv kb <= lo / (2 * hi) * uterm U nv K) by (apply Hc0; lia).
  assert (Tn : (4 * V + 1) / (lo * bias_min) <= uterm U nv K) by (apply Hn0; lia).
  assert (T0 : 0 <= uterm U nv kb) by apply Sane.
  set (tK := uterm U nv K) in *. set (ta := uterm U nv ka) in *. set (tb := uterm U nv kb) in *.
  assert (Va : Rabs (kid_avg aeqb (dview s node) a) <= V) by exact (kid_small seqb aeqb seqb_ok aeqb_ok C U Uok B Sane _ _ _ _ _ R Hd a).
  assert (Vb : Rabs (kid_avg aeqb (dview s node) b) <= V) by exact (kid_small seqb aeqb seqb_ok aeqb_ok C U Uok B Sane _ _ _ _ _ R Hd b).
  assert (V0 : 0 <= V) by (pose proof (Rabs_pos (kid_avg aeqb (dview s node) a)); lra).
  assert (Ca : - V <= coeff U (visit_d node) * kid_avg aeqb (dview s node) a).
  { unfold coeff. revert Va. unfold Rabs. destruct (Rcase_abs _); destruct (utwo U && _); lra. }
  assert (Cb : coeff U (visit_d node) * kid_avg aeqb (dview s node) b <= V).
  { unfold coeff. revert Vb. unfold Rabs. destruct (Rcase_abs _); destruct (utwo U && _); lra. }
  cbn [visit_d dstate] in Ib. rewrite Est in Ia, Ib. destruct (W a Ia) as [Wa _]. destruct (W b Ib) as [Wb0 Wb].
  set (wa := prior_of aeqb U m0 a) in *. set (wb := prior_of aeqb U m0 b) in *.
  assert (P1 : 0 < lo * bias_min) by now apply Rmult_lt_0_compat.
  assert (tKpos : 0 < tK).
  { eapply Rlt_le_trans; [|exact Tn]. apply Rmult_lt_0_compat; [lra|]. now apply Rinv_0_lt_compat. }
  assert (A1 : lo * be * tK <= wa * be * ta).
  { apply Rmult_le_compat; [apply Rmult_le_pos; lra|lra| |exact Ta]. apply Rmult_le_compat_r; lra. }
  assert (A2 : wb * be * tb <= hi * be * (lo / (2 * hi) * tK)).
  { apply Rmult_le_compat; [apply Rmult_le_pos; lra|exact T0| |exact Tb]. apply Rmult_le_compat_r; lra. }
  replace (hi * be * (lo / (2 * hi) * tK)) with (lo * be * tK / 2) in A2 by (field; lra).
  assert (A3 : 4 * V + 1 <= lo * be * tK).
  { apply Rle_trans with (lo * bias_min * tK).
    - apply (Rmult_le_compat_l (lo * bias_min)) in Tn; [|lra].
      replace (lo * bias_min * ((4 * V + 1) / (lo * bias_min))) with (4 * V + 1) in Tn; [exact Tn|].
      field. split; lra.
    - apply Rmult_le_compat_r; [lra|]. apply Rmult_le_compat_l; lra. }
  lra.
Qed.

Lemma times_mono : forall d a e (tr : list (nat * @event S A)), (times d a tr <= times d a (e :: tr))%Z.
Proof using. intros d a e tr. unfold ExploreSpec.times. rewrite selected_app, countb_app. pose proof (countb_nonneg _ (aeqb a) (selected d [e])). lia. Qed.
Lemma times_skip : forall d a e (tr : list (nat * @event S A)), selected d [e] = [] -> times d a (e :: tr) = times d a tr.
Proof using. intros d a e tr H. unfold ExploreSpec.times. now rewrite selected_app, H. Qed.

(** The event a step adds that concerns selections at a node. *)
Lemma atr_selected : forall s s', atr s s' ->
  (forall d, selected d (etrace (base s')) = selected d (etrace (base s))) \/
  (exists t cur flag nodes rewards n x cx a cx1 g1,
     nth_error (ths (base s)) t = Some (TSel cur flag nodes rewards) /\
     nth_error (dh (mem (base s))) cur = Some n /\ nth_error (xds s) cur = Some x /\ should_continue C n flag = true /\
     select alg (visit_d n) (vis_d alg (is_leaf C n) x) (dview s n) cx (rg s) = Ok (a, cx1, g1) /\
     forall d, selected d (etrace (base s')) = (if Nat.eqb cur d then [a] else []) ++ selected d (etrace (base s))).
Proof using.
  intros s s' X. destruct X; try (left; intros d'; reflexivity); right.
  - exists t, cur, flag, nodes, rewards, n, x, cx, a, cx1, g1. repeat split; auto.
  - exists t, cur, flag, nodes, rewards, n, x, cx, a, cx1, g1. repeat split; auto.
Qed.

Lemma starve_reach : forall st n K, exists L0, (0 <= L0)%Z /\ forall g s, good_ints g -> good_reals g -> areach n g s ->
  forall d node, nth_error (dh (mem (base s))) d = Some node -> dstate node = st ->
  forall b, (L0 < times d b (etrace (base s)))%Z -> forall a, In a (acts C st) -> (K <= times d a (etrace (base s)))%Z.
Proof using All.
  intros st n K. destruct (threshold st n K) as (L0 & P0 & Th). exists L0. split; auto. intros g s Gi Gr R. revert s R.
  apply (areach_ind' seqb aeqb seqb_ok aeqb_ok C alg n g (fun s => forall d node, nth_error (dh (mem (base s))) d = Some node -> dstate node = st ->
    forall b, (L0 < times d b (etrace (base s)))%Z -> forall a, In a (acts C st) -> (K <= times d a (etrace (base s)))%Z)).
  - intros d node _ _ b H. cbn in H. lia.
  - intros s s' R I _ IH X d node Hd Est b Hb a Ia.
    assert (Old : (exists node0, nth_error (dh (mem (base s))) d = Some node0 /\ dstate node0 = dstate node) \/
                  (length (dh (mem (base s))) <= d)%nat).
    { destruct (nth_error (dh (mem (base s))) d) as [m|] eqn:Hm; [|right; now apply nth_error_None].
      left. exists m. split; auto.
      destruct (atr_gstep seqb aeqb C alg _ _ X) as [E|Gs]; [rewrite E in Hd; congruence|].
      pose proof (mstep_ext _ _ C _ _ (gstep_mstep _ _ _ _ _ Gs)) as Xt.
      destruct (xt_d _ _ _ _ Xt _ _ Hm) as (n' & Hn' & E1 & _). rewrite Hd in Hn'. injection Hn' as <-. auto. }
    pose proof (areach_ereach seqb aeqb C alg _ _ _ R) as E.
    destruct (cinv_reach seqb aeqb seqb_ok aeqb_ok C _ _ E) as [Kc _].
    unfold ExploreSpec.times in *.
    destruct (atr_selected _ _ X) as [Eq|(t & cur & flag & nodes & rewards & m & x & cx & a1 & cx1 & g1 & H1 & H2 & H3 & H4 & H5 & Eq)];
      rewrite Eq in *.
    + destruct Old as [(node0 & Hn0 & E0)|L]; [apply (IH d node0 Hn0 (eq_trans E0 Est) b); auto|].
      destruct (ci_fd _ _ Kc d L) as [Z _]. rewrite <- selected_len in Z. destruct (selected d (etrace (base s))); [cbn in Hb; lia|cbn in Z; lia].
    + destruct (Nat.eqb_spec cur d) as [->|ne].
      * destruct Old as [(node0 & Hn0 & E0)|L]; [|apply nth_error_None in L; congruence].
        rewrite H2 in Hn0. injection Hn0 as <-. rewrite countb_app in *.
        assert (0 <= countb (aeqb a) [a1])%Z by apply countb_nonneg.
        destruct (Z.ltb_spec L0 (countb (aeqb b) (selected d (etrace (base s))))) as [Q|Q].
        { pose proof (IH d m H2 (eq_trans E0 Est) b Q a Ia). lia. }
        assert (Eb : aeqb b a1 = true).
        { cbn [countb] in Hb. destruct (aeqb b a1); auto. cbn in Hb. lia. }
        assert (b = a1) by now apply aeqb_ok. subst a1. cbn [countb] in Hb. rewrite Eb in Hb.
        cbn [select uct vis_d] in H5.
        destruct (uct_select aeqb C U (visit_d m) (dview s m) (rg s)) as [[a' g2]| |] eqn:Es; try discriminate.
        cbn [bind] in H5. injection H5 as -> _ _.
        enough (K <= times d a (etrace (base s)))%Z by (unfold ExploreSpec.times in *; lia).
        eapply (Th g s d m b g2 Gi R H2 (eq_trans E0 Est)); eauto.
        -- destruct (continue_not_stop C _ _ H4) as [Ns _]. unfold must_stop in Ns. rewrite <- Est, <- E0.
           destruct (is_sink C (dstate m)); auto. tauto.
        -- unfold ExploreSpec.times. lia.
      * cbn [app] in *. destruct Old as [(node0 & Hn0 & E0)|L]; [apply (IH d node0 Hn0 (eq_trans E0 Est) b); auto|].
        destruct (ci_fd _ _ Kc d L) as [Z _]. rewrite <- selected_len in Z. destruct (selected d (etrace (base s))); [cbn in Hb; lia|cbn in Z; lia].
Qed.

Lemma no_starvation : forall st n k, exists N, forall g s, good_ints g -> good_reals g -> areach n g s ->
  forall d node, nth_error (dh (mem (base s))) d = Some node -> dstate node = st ->
  (N <= Z.of_nat (length (selected d (etrace (base s)))))%Z ->
  all_tried aeqb C k (mem (base s)) d.
Proof using All.
  intros st n k. destruct (starve_reach st n (Z.max 1 (k + Z.of_nat n))) as (L0 & P0 & St).
  exists (Z.of_nat (length (acts C st)) * L0 + 1)%Z. intros g s Gi Gr R d node Hd Est HN.
  exists node. split; auto. intros a Ia.
  pose proof (selected_valid _ _ _ _ _ R Hd) as Inc. rewrite Est in Inc, Ia.
  pose proof (count_cover A aeqb _ _ aeqb_ok Inc) as Cov.
  destruct (pigeon A (fun a => countb (aeqb a) (selected d (etrace (base s)))) (acts C st) L0 P0) as (b & _ & Hb); [lia|].
  pose proof (St g s Gi Gr R d node Hd Est b Hb a Ia) as Q.
  destruct (kid_visits_times _ _ _ _ _ R Hd a) as [[Kv _] Kx].
  destruct (lookup aeqb a (dkids node)) as [c|] eqn:L.
  - destruct (Kx c eq_refl) as (x & Hx & Ex). exists c, x. split; auto. split; auto. lia.
  - rewrite (times_none (base s)) with (n := node) in Q; auto; [lia|].
    exact (evs_reach seqb aeqb seqb_ok aeqb_ok C _ _ (areach_ereach seqb aeqb C alg _ _ _ R)).
Qed.

Lemma no_starvation_root : is_sink C (root_state C) = false -> (0 < max_depth C)%Z ->
  forall n k, exists N, forall g s, good_ints g -> good_reals g -> areach n g s ->
  (N <= count is_done (etrace (base s)))%Z -> all_tried aeqb C k (mem (base s)) 0.
Proof using All.
  intros Ns Hm n k. destruct (no_starvation (root_state C) n k) as (N & H).
  exists N. intros g s Gi Gr R HN. pose proof (areach_ereach seqb aeqb C alg _ _ _ R) as E.
  destruct (wf_root _ _ _ _ (ti_wf _ _ _ _ (proj1 (ereach_good seqb aeqb seqb_ok aeqb_ok C _ _ E)))) as (r0 & H0 & E1 & E2 & _).
  apply (H g s Gi Gr R 0%nat r0 H0 E1). rewrite selected_len.
  destruct (cinv_reach seqb aeqb seqb_ok aeqb_ok C _ _ E) as [Kc _].
  pose proof (ci_en _ _ Kc 0%nat) as En. cbn [Nat.eqb b2z] in En.
  rewrite (no_end_at_root _ _ E r0 H0) in En.
  2:{ unfold is_leaf. rewrite E1, E2, Ns. cbn [orb]. destruct (Z.leb_spec (max_depth C) 0); auto. lia. }
  pose proof (ci_done _ _ Kc) as Dn.
  assert (Z1 : (0 <= count (enters_d 0) (etrace (base s)))%Z) by apply countb_nonneg.
  assert (Z2 : (sumZ (atD 0) (ths (base s)) <= sumZ busy (ths (base s)))%Z).
  { clear. induction (ths (base s)) as [|x l IH]; cbn [sumZ]; [lia|].
    assert (atD 0 x <= busy x)%Z by (destruct x as [|[|c]| | | |]; cbn; lia). lia. }
  lia.
Qed.
End Arg.
End Explore.
