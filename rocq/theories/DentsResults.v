(** Proofs of the theorems in DentsTheorems.v. *)
From Coq Require Import List ZArith Bool Reals Lia Lra Permutation.
From Verif Require Import Base BaseProofs NumOps RLemmas HelperModel HelperSpec HelperProofs EngineModel EngineSpec EngineProofs
  EngineInv EngineBound MapModel MapProofs PickSpec PickProofs AlgoModel AlgoProofs AlgoTheorems AlgoNodes AlgoSafe AlgoHist UctSpec UctProofs
  UctModel MentsModel SoftSpec SoftProofs MentsSpec MentsProofs MentsPolicy MentsRun SoftResults RecSpec RecProofs DentsSpec DpRun FamilyRun
  DbRun DentsRun.
Import ListNotations.
Open Scope R_scope.

Lemma picks_iff : forall T N (f : rng N -> outcome (T * rng N)) P Q, picks f P -> (forall a, P a <-> Q a) -> picks f Q.
Proof.
  intros T N f P Q (ks & H1 & H2 & H3 & H4) E. exists ks. split; auto. split; auto. split; auto. intros k. rewrite H3. apply E.
Qed.

Section Results.
Context {S A : Type}.
Variable seqb : S -> S -> bool.
Variable aeqb : A -> A -> bool.
Hypothesis seqb_ok : decides seqb.
Hypothesis aeqb_ok : decides aeqb.
Variable C : @econf S A.
Variable M : @mconf S A.
Notation dnode := (@dnode S A).
Notation cnode := (@cnode S A).

(** ** Policies *)
Lemma policy_law : forall n (qf : A -> outcome R), policy_sane C M n -> (forall a, In a (acts C (dstate n)) -> exists v, qf a = Ok v) ->
  exists q m, (forall a, In a (acts C (dstate n)) -> qf a = Ok (q a)) /\ action_distr aeqb C M n qf = Ok (Some m) /\
    search_policy aeqb C M n q m.
Proof using aeqb_ok.
  intros n qf (Rk & PP & Ex & Hv & Th & Hw & ND & NE) Tq.
  assert (Th' : prior_there M n) by exact Th.
  destruct (action_distr_ok aeqb aeqb_ok C M n qf Rk (pp_total C M PP n) Th' ND NE Tq) as (q & m & Hq & E & H).
  set (b := boltzmann (ments_temp M n) q (acts C (dstate n))) in *.
  exists q, m. split; auto. split; auto. exists (mixture aeqb C M n b).
  pose proof (prior_rate_range M n Hv Hw) as Pr.
  pose proof (explore_rate_range M n Hv Ex) as Er. destruct Ex as [_ E2].
  assert (Ln : 0 < INR (length (acts C (dstate n)))) by (apply lt_0_INR; destruct (acts C (dstate n)); [congruence|cbn; lia]).
  split; [exact H|]. split; [reflexivity|].
  split.
  { apply mixture_total; auto; [now apply boltzmann_sum|]. now apply pp_sum. }
  split.
  { intros a Ia. assert (L : explore_rate M n / INR (length (acts C (dstate n))) <= mixture aeqb C M n b a).
    { apply mixture_low; auto; [lra|left; now apply boltzmann_pos|now apply (pp_prob aeqb aeqb_ok C)]. }
    split; auto. apply Rle_trans with (explore_rate M n / INR (length (acts C (dstate n)))); auto.
    apply Rmult_le_pos; [lra|]. left. now apply Rinv_0_lt_compat. }
  intros Ht Le Lp a c Ia Ic Hp Hlt. unfold mixture.
  assert (Bm : b a < b c) by (now apply boltzmann_mono).
  apply Rplus_lt_compat_r. apply Rmult_lt_compat_l; [lra|].
  assert ((1 - prior_rate M n) * b a < (1 - prior_rate M n) * b c) by (apply Rmult_lt_compat_l; lra).
  assert (prior_rate M n * prior_prob aeqb M n a <= prior_rate M n * prior_prob aeqb M n c) by (apply Rmult_le_compat_l; lra). lra.
Qed.

Lemma q_of_ontoc : forall X Y (f : X -> Y) (val : Y -> R) n off (kids : list (A * (cnode * X))) a v,
  q_of M val n off (ontoc f kids) a v <-> q_of M (fun y => val (f y)) n off kids a v.
Proof using Type.
  intros X Y f val n off kids a v.
  assert (K : map fst (ontoc f kids) = map fst kids) by (unfold ontoc; rewrite map_map; reflexivity).
  split; intros [c x Q|p w Q E I|Q E]; try (rewrite K in Q).
  - unfold ontoc in Q. apply in_map_iff in Q. destruct Q as ([a' [c' x']] & [= <- <- <-] & Q). now apply (q_child M (fun y => val (f y))) with c'.
  - now apply (q_prior M (fun y => val (f y))) with p.
  - now apply (q_default M (fun y => val (f y))).
  - apply (q_child M val n off (ontoc f kids) a c (f x)). unfold ontoc. apply in_map_iff. exists (a, (c, x)). auto.
  - apply q_prior with p; auto. now rewrite K.
  - apply q_default; auto. now rewrite K.
Qed.

Lemma C36_dbments' : forall n (x : mmem * vmem) (kids : list (A * (cnode * (cmem * vmem)))), policy_sane C M n ->
  exists q m, (forall a, In a (acts C (dstate n)) -> q_of M (fun y => c_soft (fst y)) n (m_off (fst x)) kids a (q a)) /\
    search_policy aeqb C M n q m /\
    forall cx g, select (dbments aeqb C M) n x kids cx g = bind (sample_actions M (Some m) g) (fun '(a, g1) => Ok (a, cx, g1)).
Proof using aeqb_ok.
  intros n x kids P. pose proof P as (_ & PP & _).
  destruct (policy_law n (ments_q aeqb M n (fst x) (ontoc fst kids)) P) as (q & m & Hq & E & H).
  { intros a Ia. apply (ments_q_total aeqb aeqb_ok C); auto. now apply pp_total. }
  exists q, m. split.
  { intros a Ia. apply (q_of_ontoc (cmem * vmem) cmem fst c_soft). apply (ments_q_spec aeqb aeqb_ok). now apply Hq. }
  split; auto. intros cx g. cbn [select dbments]. unfold ments_select. rewrite E. reflexivity.
Qed.

Lemma unexpanded_spec : forall X (val : X -> R) n off (kids : list (A * (cnode * X))) a v, ~ In a (map fst kids) ->
  unexpanded_q aeqb M n off a = Ok v -> q_of M val n off kids a v.
Proof using aeqb_ok.
  intros X val n off kids a v Na E.
  assert (Q : q_of M c_soft n off (@nil (A * (cnode * cmem))) a v).
  { apply (ments_q_spec aeqb aeqb_ok M n (mkMm 0 0 off) []). unfold ments_q. cbn [lookup find]. exact E. }
  destruct Q as [c x []|p w _ E1 I|_ E1]; [eapply q_prior; eauto|now apply q_default].
Qed.
Lemma est_q_spec : forall n off (kids : list (A * (cnode * dcmem))) a v,
  est_q aeqb M n off kids a = Ok v -> q_of M (estimate M) n off kids a v.
Proof using aeqb_ok.
  intros n off kids a v E. unfold est_q in E. destruct (lookup aeqb a kids) as [[c y]|] eqn:L.
  - injection E as <-. apply EngineProofs.lookup_in in L; [|auto].
    replace (dents_est M y * opp_coeff M n) with (seen M n (estimate M y)); [now apply q_child with c|].
    rewrite <- opp_seen. unfold dents_est, estimate. destruct (muse_dp M); lra.
  - apply unexpanded_spec; auto. now apply (lookup_none_iff aeqb aeqb_ok).
Qed.
Lemma C36_est' : forall n (x : dmem) (kids : list (A * (cnode * dcmem))), policy_sane C M n ->
  exists q m, (forall a, In a (acts C (dstate n)) -> q_of M (estimate M) n (d_off x) kids a (q a)) /\
    search_policy aeqb C M n q m /\
    forall cx g, select (est aeqb C M) n x kids cx g = bind (sample_actions M (Some m) g) (fun '(a, g1) => Ok (a, cx, g1)).
Proof using aeqb_ok.
  intros n x kids P. pose proof P as (_ & PP & _).
  destruct (policy_law n (est_q aeqb M n (d_off x) kids) P) as (q & m & Hq & E & H).
  { intros a Ia. unfold est_q. destruct (lookup aeqb a kids) as [[c y]|]; [eauto|].
    destruct (unexpanded_total aeqb aeqb_ok C M n (d_off x) a (pp_total C M PP n) Ia) as (v & E). eauto. }
  exists q, m. split; [intros a Ia; now apply est_q_spec, Hq|].
  split; auto. intros cx g. cbn [select est]. unfold est_select. rewrite E. reflexivity.
Qed.
Lemma dents_policy : forall n (x : dmem) (kids : list (A * (cnode * dcmem))), policy_sane C M n ->
  (forall a c y, In (a, (c, y)) kids -> ec_sub (dc_ent y) <> None) ->
  exists q m, (forall a, In a (acts C (dstate n)) ->
      q_of M (fun y => estimate M y + value_temp M n * entropy_below y) n (d_off x) kids a (q a)) /\
    search_policy aeqb C M n q m /\
    dents_distr aeqb C M n (d_off x) kids = Ok (Some m).
Proof using aeqb_ok.
  intros n x kids P Hn. pose proof P as (_ & PP & _).
  assert (Hn' : forall a c y, In (a, (c, y)) kids -> exists h, ec_sub (dc_ent y) = Some h).
  { intros a c y Q. specialize (Hn _ _ _ Q). destruct (ec_sub (dc_ent y)); [eauto|congruence]. }
  assert (Tq : forall a, In a (acts C (dstate n)) -> exists v, dents_q aeqb M n (d_off x) kids a = Ok (Some v)).
  { intros a Ia. unfold dents_q. destruct (lookup aeqb a kids) as [[c y]|] eqn:L.
    - apply EngineProofs.lookup_in in L; [|auto]. destruct (Hn' _ _ _ L) as (h & ->). eauto.
    - destruct (unexpanded_total aeqb aeqb_ok C M n (d_off x) a (pp_total C M PP n) Ia) as (v & ->). cbn. eauto. }
  destruct (policy_law n (clean (dents_q aeqb M n (d_off x) kids)) P) as (q & m & Hq & E & H).
  { intros a Ia. unfold clean. destruct (Tq a Ia) as (v & ->). eauto. }
  exists q, m. split.
  { intros a Ia. specialize (Hq a Ia). unfold clean in Hq. unfold dents_q in Hq.
    destruct (lookup aeqb a kids) as [[c y]|] eqn:L.
    - apply EngineProofs.lookup_in in L; [|auto]. destruct (Hn' _ _ _ L) as (h & Eh). rewrite Eh in Hq. injection Hq as <-.
      replace (opp_coeff M n * (dents_est M y + value_temp M n * h)) with (seen M n (estimate M y + value_temp M n * entropy_below y)).
      + apply (q_child M (fun y => estimate M y + value_temp M n * entropy_below y)) with c; auto.
      + rewrite <- opp_seen. unfold dents_est, estimate, entropy_below. rewrite Eh. destruct (muse_dp M); lra.
    - destruct (unexpanded_q aeqb M n (d_off x) a) as [v| |] eqn:Eu; cbn [bind] in Hq; try discriminate. injection Hq as <-.
      apply unexpanded_spec; auto. now apply (lookup_none_iff aeqb aeqb_ok). }
  split; auto. rewrite dents_distr_eq by auto. exact E.
Qed.

Lemma C36_dents' : forall n (x : dmem) (kids : list (A * (cnode * dcmem))), policy_sane C M n ->
  (forall a c y, In (a, (c, y)) kids -> ec_sub (dc_ent y) <> None) ->
  exists q m, (forall a, In a (acts C (dstate n)) ->
      q_of M (fun y => estimate M y + value_temp M n * entropy_below y) n (d_off x) kids a (q a)) /\
    search_policy aeqb C M n q m /\
    forall cx g, select (dents aeqb C M) n x kids cx g = bind (sample_actions M (Some m) g) (fun '(a, g1) => Ok (a, cx, g1)).
Proof using aeqb_ok.
  intros n x kids P Hn. destruct (dents_policy n x kids P Hn) as (q & m & H1 & H2 & E). exists q, m. split; auto. split; auto.
  intros cx g. cbn [select dents]. unfold dents_select. rewrite E. reflexivity.
Qed.

(** ** Recommendations by value *)
Lemma best_kids : forall n (kids : list (A * vmem)) a, kids <> [] -> (best_by_value C M n kids a <->
  exists v : A -> R, (forall b y, In (b, y) kids -> v b = seen M n (v_val y)) /\ best_choice (map fst kids) (backed_up_enough M kids) v a).
Proof using Type. intros n [|k kids] a H; [congruence|]. reflexivity. Qed.
Lemma best_picks : forall n (kids : list (A * vmem)), (forall V (m : list (A * V)), Permutation m (morder M V m)) ->
  NoDup (acts C (dstate n)) -> acts C (dstate n) <> [] -> NoDup (map fst kids) ->
  (forall a y, In (a, y) kids -> Rabs (v_val y) <= - dbl_lowest) ->
  picks (recommend_best C M n kids) (best_by_value C M n kids).
Proof using aeqb_ok.
  intros n kids Ord ND NE Nk Hb. destruct kids as [|k0 l0] eqn:Ek.
  - cbn [recommend_best best_by_value]. apply random_picks; auto.
  - rewrite <- Ek in *. assert (Kn : kids <> []) by (rewrite Ek; discriminate).
    set (v := fun a => match lookup aeqb a kids with Some y => seen M n (v_val y) | None => 0 end).
    assert (Hv : forall a y, In (a, y) kids -> v a = seen M n (v_val y)).
    { intros a y Q. unfold v. apply (in_lookup aeqb aeqb_ok) in Q; auto. now rewrite Q. }
    assert (Pk : picks (recommend_value M n kids) (best_choice (map fst kids) (backed_up_enough M kids) v)).
    { apply (value_picks aeqb aeqb_ok M Ord); auto. intros a Ia. apply in_map_iff in Ia. destruct Ia as ([a' y] & <- & Ia). cbn.
      rewrite (Hv _ _ Ia). specialize (Hb _ _ Ia). rewrite <- (seen_abs M n) in Hb. apply abs_in in Hb. lra. }
    rewrite Ek in Pk |- *. change (recommend_best C M n (k0 :: l0)) with (recommend_value M n (k0 :: l0)).
    rewrite <- Ek in Pk |- *.
    eapply picks_iff; [exact Pk|]. intros a. rewrite best_kids by auto. split; [intros H; exists v; auto|].
    intros (v' & Hv' & (I & H)). split; auto.
    assert (Eq : forall b, In b (map fst kids) -> v' b = v b).
    { intros b Ib. apply in_map_iff in Ib. destruct Ib as ([b' y] & <- & Ib). cbn. now rewrite (Hv _ _ Ib), (Hv' _ _ Ib). }
    destruct H as [[H1 H2]|[H1 H2]]; [left|right]; split; auto.
    + intros b Ib Hbb. rewrite <- !Eq; auto.
    + intros b Ib. rewrite <- !Eq; auto.
Qed.

(** ** Chance nodes seen by a decision node *)
Lemma view_kid : forall (G : @algo S A) n g s d (node : dnode) a c y, areach seqb aeqb C G n g s -> nth_error (dh (mem (base s))) d = Some node ->
  In (a, (c, y)) (dview s node) -> exists i, nth_error (ch (mem (base s))) i = Some c /\ nth_error (xcs s) i = Some y.
Proof using seqb_ok aeqb_ok.
  intros G n g s d node a c y R Hd Q. pose proof (areach_good seqb aeqb seqb_ok aeqb_ok C G _ _ _ R) as I.
  pose proof (dview_ok seqb aeqb aeqb_ok C G s d node I Hd) as F. revert Q. clear - F.
  induction F as [|p q l l' (H1 & H2 & H3) F IH]; intros E; [destruct E|]. destruct E as [->|E]; eauto.
Qed.

(** Recommendations in searches. *)
Lemma recommend_in_search : forall (G : @algo S A) (vC : XC G -> vmem) n g s d (node : dnode),
  ments_ok C M -> env_ok C M -> areach seqb aeqb C G n g s -> nth_error (dh (mem (base s))) d = Some node ->
  is_sink C (dstate node) = false ->
  (forall c y, nth_error (xcs s) c = Some y -> Rabs (v_val (vC y)) <= - dbl_lowest) ->
  picks (fun r => if mmost_visited M then recommend_visits aeqb C M node (dview s node) r else recommend_best C M node (members vC (dview s node)) r)
    (if mmost_visited M then most_visited (acts C (dstate node)) (dview s node) else best_by_value C M node (members vC (dview s node))).
Proof using seqb_ok aeqb_ok.
  intros G vC n g s d node Mok Env R Hd Ns Hb.
  destruct (dview_facts seqb aeqb seqb_ok aeqb_ok C G _ _ _ _ _ R Hd) as (ND & _ & Hf).
  assert (NDa : NoDup (acts C (dstate node))) by apply Env.
  assert (NEa : acts C (dstate node) <> []) by (now apply Env).
  destruct (mmost_visited M).
  - apply (visits_picks aeqb aeqb_ok C M (proj1 Mok)); auto. intros a c y Q. destruct (Hf _ _ _ Q) as [Q1 Q2]. split; auto.
    unfold int_lowest. lia.
  - apply best_picks; auto; [apply Mok| |].
    + unfold members. rewrite map_map. exact ND.
    + intros a y Q. unfold members in Q. apply in_map_iff in Q. destruct Q as ([a' [c y']] & [= <- <-] & Q). cbn.
      destruct (view_kid G _ _ _ _ _ _ _ _ R Hd Q) as (i & _ & Hi). eauto.
Qed.

(** ** Mean returns *)
Section Emp.
Variable G : @algo S A.
Variable eD : XD G -> vmem.
Variable eC : XC G -> vmem.
Record emp_part : Prop := mkEmp {
  E_new : forall n, eD (new_xd G n) = mkVm 1 (dheur n);
  E_newc : forall n, eC (new_xc G n) = mkVm 0 0;
  E_vis : forall leaf x, eD (vis_d G leaf x) = eD x;
  E_back : forall n x kids cx b x1, back_d G n x kids cx b = Ok x1 -> eD x1 = emp_backup (eD x) (b_tafter b);
  E_backc : forall n x kids cx b x1, back_c G n x kids cx b = Ok x1 -> eC x1 = emp_backup (eC x) (b_tafter b)
}.
Hypothesis Emp : emp_part.
Lemma emp_hist : hist_rules C G (fun n l x => is_mean 1 (dheur n) l (v_nb (eD x)) (v_val (eD x)))
  (fun n l x => is_mean 0 0 l (v_nb (eC x)) (v_val (eC x))).
Proof using Emp.
  constructor.
  - intros o k t. rewrite (E_new Emp). cbn [v_nb v_val]. split; [reflexivity|]. split; [discriminate|]. intros _. cbn [rsum]. lra.
  - intros o a k t. rewrite (E_newc Emp). cbn [v_nb v_val]. split; [reflexivity|]. split; [reflexivity|]. intros H. elim H. reflexivity.
  - intros n l x H. rewrite (E_vis Emp). exact H.
  - auto.
  - auto.
  - auto.
  - intros n l x kids cx b x1 _ H E. rewrite (E_back Emp _ _ _ _ _ _ E). cbn [emp_backup v_nb v_val]. apply mean_step; [lia|exact H].
  - intros n l x kids cx b x1 H E. rewrite (E_backc Emp _ _ _ _ _ _ E). cbn [emp_backup v_nb v_val]. apply mean_step; [lia|exact H].
Qed.
Lemma emp_means : forall n g s, areach seqb aeqb C G n g s ->
  (forall d node x, nth_error (dh (mem (base s))) d = Some node -> nth_error (xds s) d = Some x ->
     is_mean 1 (dheur node) (returns_d d (etrace (base s))) (v_nb (eD x)) (v_val (eD x))) /\
  (forall c x, nth_error (xcs s) c = Some x -> is_mean 0 0 (returns_c c (etrace (base s))) (v_nb (eC x)) (v_val (eC x))).
Proof using Emp seqb_ok aeqb_ok.
  intros n g s R. destruct (hist_reach seqb aeqb seqb_ok aeqb_ok C G _ _ emp_hist n g s R) as (H1 & _ & H2 & _). split; [eauto|].
  intros c x Hx. pose proof (areach_good seqb aeqb seqb_ok aeqb_ok C G _ _ _ R) as I.
  assert (X : exists y, nth_error (ch (mem (base s))) c = Some y).
  { pose proof I as [_ _ _ Lc _]. destruct (nth_error (ch (mem (base s))) c) eqn:Z; [eauto|]. apply nth_error_None in Z.
    assert (c < length (xcs s))%nat by (apply nth_error_Some; congruence). lia. }
  destruct X as (y & Hy). eauto.
Qed.
Lemma emp_bounds : forall B, (forall s a o, Rabs (rwd C s a o) <= B) -> (forall h s, heuristic C = Some h -> Rabs (h s) <= B) ->
  (0 <= max_depth C)%Z -> 0 <= B ->
  forall n g s, areach seqb aeqb C G n g s ->
  (forall d x, nth_error (xds s) d = Some x -> Rabs (v_val (eD x)) <= (IZR (max_depth C) + 1) * B) /\
  (forall c x, nth_error (xcs s) c = Some x -> Rabs (v_val (eC x)) <= (IZR (max_depth C) + 1) * B).
Proof using Emp seqb_ok aeqb_ok.
  intros B Hr Hh Dp B0 n g s R. destruct (emp_means n g s R) as [M1 M2].
  destruct (bounded_reach seqb aeqb seqb_ok aeqb_ok C B Hr Hh Dp B0 n _ (areach_ereach seqb aeqb C G _ _ _ R)) as (_ & Hb & Sm).
  pose proof (areach_good seqb aeqb seqb_ok aeqb_ok C G _ _ _ R) as I.
  assert (Dp' : 0 <= IZR (max_depth C)) by (now apply IZR_le).
  set (L := (IZR (max_depth C) + 1) * B).
  assert (L0 : B <= L) by (unfold L; nra).
  assert (Ab : forall v, - L <= v <= L -> Rabs v <= L) by (intros v; unfold Rabs; destruct (Rcase_abs v); lra).
  split.
  - intros d x Hx. assert (X : exists y, nth_error (dh (mem (base s))) d = Some y).
    { pose proof I as [_ _ Ld _ _]. destruct (nth_error (dh (mem (base s))) d) eqn:Z; [eauto|]. apply nth_error_None in Z.
      assert (d < length (xds s))%nat by (apply nth_error_Some; congruence). lia. }
    destruct X as (y & Hy). apply Ab. eapply mean_bounds; [|exact (M1 _ _ _ Hy Hx)| |]; [lia| |].
    + left. specialize (Hb _ _ Hy). apply abs_in in Hb. lra.
    + intros r Q. unfold returns_d in Q. apply in_flat_map in Q. destruct Q as (e & Ie & Q). specialize (Sm e Ie). unfold small, limit in Sm.
      destruct (snd e); try destruct Q. destruct (Nat.eqb d0 d); [destruct Q as [<-|[]]; now apply abs_in in Sm|destruct Q].
  - intros c x Hx. apply Ab. eapply mean_bounds; [|exact (M2 _ _ Hx)| |]; [lia|left; lra|].
    intros r Q. unfold returns_c in Q. apply in_flat_map in Q. destruct Q as (e & Ie & Q). specialize (Sm e Ie). unfold small, limit in Sm.
    destruct (snd e); try destruct Q. destruct (Nat.eqb c0 c); [destruct Q as [<-|[]]; now apply abs_in in Sm|destruct Q].
Qed.
End Emp.
Ltac bk :=
  repeat match goal with
  | H : bind ?o _ = Ok _ |- _ => destruct o eqn:?; cbn [bind] in H; try discriminate
  | H : (let '(_, _) := ?p in _) = Ok _ |- _ => destruct p eqn:?
  | H : Ok _ = Ok _ |- _ => injection H; clear H; intros; subst
  end.
Lemma dents_emp : muse_dp M = false -> emp_part (dents aeqb C M) d_emp dc_emp.
Proof using Type.
  intros U. constructor; auto.
  - intros n x kids cx b x1 E. cbn [back_d dents] in E. unfold dents_backup_d, value_backup_d in E. rewrite U in E. bk. reflexivity.
  - intros n x kids cx b x1 E. cbn [back_c dents] in E. unfold dents_backup_c, value_backup_c in E. rewrite U in E. bk. reflexivity.
Qed.
Lemma est_emp : muse_dp M = false -> emp_part (est aeqb C M) d_emp dc_emp.
Proof using Type.
  intros U. constructor; auto.
  - intros n x kids cx b x1 E. cbn [back_d est] in E. unfold est_backup_d, value_backup_d in E. rewrite U in E. bk. reflexivity.
  - intros n x kids cx b x1 E. cbn [back_c est] in E. unfold est_backup_c, value_backup_c in E. rewrite U in E. bk. reflexivity.
Qed.

(** ** Dynamic programming values *)
Section DpRange.
Hypothesis Env : env_ok C M.
Variables hl hu rl ru : R.
Hypothesis Rg : range_ok C M hl hu rl ru.
Lemma dp_ranges : forall (G : @algo S A) vD vC, dp_part M G vD vC -> forall n g s, areach seqb aeqb C G n g s ->
  (forall d node x, nth_error (dh (mem (base s))) d = Some node -> nth_error (xds s) d = Some x ->
     (1 <= v_nb (vD x))%Z /\ least_left C hl rl (ddepth node) <= v_val (vD x) <= most_left C hu ru (ddepth node)) /\
  (forall c node x, nth_error (ch (mem (base s))) c = Some node -> nth_error (xcs s) c = Some x ->
     (0 <= v_nb (vC x))%Z /\ least_left C hl rl (cdepth node) <= v_val (vC x) <= most_left C hu ru (cdepth node)).
Proof using All.
  intros G vD vC P n g s R.
  pose proof (nodes_reach seqb aeqb seqb_ok aeqb_ok C G _ _ _ _ (dp_rules C M Env hl hu rl ru Rg G vD vC P) _ _ _ R) as K. split.
  - intros d node x Hd Hx. destruct (no_d _ _ _ _ _ _ _ _ K _ _ _ Hd Hx) as (_ & _ & H). exact H.
  - intros c node x Hc Hx. destruct (no_c _ _ _ _ _ _ _ _ K _ _ _ Hc Hx) as (_ & H). exact H.
Qed.
Lemma dp_small : forall (G : @algo S A) vD vC, dp_part M G vD vC ->
  dbl_lowest <= least_left C hl rl 0 -> most_left C hu ru 0 <= - dbl_lowest ->
  forall n g s, areach seqb aeqb C G n g s -> forall c x, nth_error (xcs s) c = Some x -> Rabs (v_val (vC x)) <= - dbl_lowest.
Proof using All.
  intros G vD vC P L1 L2 n g s R c x Hx.
  pose proof (nodes_reach seqb aeqb seqb_ok aeqb_ok C G _ _ _ _ (dp_rules C M Env hl hu rl ru Rg G vD vC P) _ _ _ R) as K.
  pose proof (areach_good seqb aeqb seqb_ok aeqb_ok C G _ _ _ R) as I.
  assert (X : exists y, nth_error (ch (mem (base s))) c = Some y).
  { pose proof I as [_ _ _ Lc _]. destruct (nth_error (ch (mem (base s))) c) eqn:Z; [eauto|]. apply nth_error_None in Z.
    assert (c < length (xcs s))%nat by (apply nth_error_Some; congruence). lia. }
  destruct X as (y & Hy). destruct (no_c _ _ _ _ _ _ _ _ K _ _ _ Hy Hx) as (Hd & _ & H).
  assert (least_left C hl rl 0 <= least_left C hl rl (cdepth y)).
  { unfold least_left. destruct Rg as [_ R0 _ _]. assert (IZR (max_depth C - cdepth y) <= IZR (max_depth C - 0)) by (apply IZR_le; lia). nra. }
  assert (most_left C hu ru (cdepth y) <= most_left C hu ru 0).
  { unfold most_left. destruct Rg as [_ R0 _ _]. assert (IZR (max_depth C - cdepth y) <= IZR (max_depth C - 0)) by (apply IZR_le; lia). nra. }
  unfold Rabs. destruct (Rcase_abs _); lra.
Qed.
End DpRange.

(** ** Entropies *)
Lemma dents_entropies : ments_ok C M -> env_ok C M -> prior_ok C M -> explore_ok M -> forall N, few_actions C N -> fresh_known C M ->
  forall n g s, areach seqb aeqb C (dents aeqb C M) n g s ->
  (forall d node x, nth_error (dh (mem (base s))) d = Some node -> nth_error (xds s) d = Some x ->
     (exists h, e_local (d_ent x) = Some h /\ 0 <= h <= entropy_cap N) /\
     exists h, e_sub (d_ent x) = Some h /\ Rabs h <= entropy_left C N (ddepth node) /\ (mtwo M = false -> 0 <= h)) /\
  (forall c node x, nth_error (ch (mem (base s))) c = Some node -> nth_error (xcs s) c = Some x ->
     exists h, ec_sub (dc_ent x) = Some h /\ Rabs h <= entropy_left C N (cdepth node + 1) /\ (mtwo M = false -> 0 <= h)).
Proof using All.
  intros Mok Env Pr Ex N Few Fr n g s R.
  pose proof (nodes_reach seqb aeqb seqb_ok aeqb_ok C _ _ _ _ _ (ent_rules aeqb aeqb_ok C M Mok Env Pr Ex N Few Fr) _ _ _ R) as K. split.
  - intros d node x Hd Hx. destruct (no_d _ _ _ _ _ _ _ _ K _ _ _ Hd Hx) as (_ & _ & _ & H). exact H.
  - intros c node x Hc Hx. destruct (no_c _ _ _ _ _ _ _ _ K _ _ _ Hc Hx) as (_ & _ & H). exact H.
Qed.
End Results.
