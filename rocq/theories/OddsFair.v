(** Sampling is fair for all but a small share of the draws *)
From Coq Require Import List ZArith Bool Reals Lia Lra Psatz.
From Verif Require Import Base BaseProofs NumOps HelperModel HelperSpec HelperProofs EngineModel EngineSpec EngineProofs EngineInv EngineCount AlgoModel AlgoProofs
  SoftSpec SoftProofs WorldSpec ConvSpec OddsSpec OddsCover OddsStep OddsAvg OddsVille.
Import ListNotations.
Open Scope R_scope.

Section Fair.
Context {S A : Type}.
Variable seqb : S -> S -> bool.
Variable aeqb : A -> A -> bool.
Hypothesis seqb_ok : decides seqb.
Hypothesis aeqb_ok : decides aeqb.
Variable C : @econf S A.
Notation event := (@event S A).
Notation est := (@EngineModel.est S A).
Notation estep := (estep seqb aeqb C).
Notation ereach := (ereach seqb aeqb C).

Lemma sampled_cons : forall c t (e : event) tr, sampled c ((t, e) :: tr) = match e with EVisitC c' o _ _ => if Nat.eqb c' c then [o] else [] | _ => [] end ++ sampled c tr.
Proof. reflexivity. Qed.
Lemma sampled_none : forall n b c, ereach n b -> nth_error (ch (mem b)) c = None -> sampled c (etrace b) = [].
Proof using seqb_ok aeqb_ok.
  intros n b c R H. pose proof (evs_reach seqb aeqb seqb_ok aeqb_ok C _ _ R) as Ev. unfold evs_ok in Ev. induction (etrace b) as [|[t e] tr IH]; auto.
  rewrite sampled_cons, IH by (intros; eapply Ev; right; eauto). destruct e; auto. destruct (Nat.eqb_spec c0 c) as [->|]; auto.
  destruct (Ev t _ (or_introl eq_refl)) as (x & Hx & _). congruence.
Qed.
(** Steps other than samples. *)
Lemma keeps : forall l b b1, estep l b = Some b1 -> (forall t o, l <> LSample t o) -> forall c, sampled c (etrace b1) = sampled c (etrace b).
Proof using.
  intros l b b1 H Hl c. destruct l as [t|t a|t o|t]; cbn [EngineModel.estep] in H.
  - destruct (nth_error (ths b) t) as [[]|]; try discriminate. injection H as <-. reflexivity.
  - destruct (nth_error (ths b) t) as [[]|]; try discriminate. destruct (nth_error (dh _) cur) as [n|]; [|injection H as <-; reflexivity].
    destruct (_ && _); [|discriminate]. destruct (nth_error (dh _) cur) as [n1|]; [|injection H as <-; reflexivity].
    destruct (lookup aeqb a (dkids n1)) as [c1|]; [|injection H as <-; reflexivity]. injection H as <-. destruct (lookup _ _ _); reflexivity.
  - destruct (Hl t o eq_refl).
  - destruct (nth_error (ths b) t) as [[]|]; try discriminate.
    + destruct (nth_error (dh _) cur) as [n|]; [|injection H as <-; reflexivity]. destruct (should_continue _ _ _); [discriminate|]. injection H as <-. reflexivity.
    + destruct nodes as [|[d c1] nodes]; [injection H as <-; reflexivity|]. destruct before; injection H as <-; reflexivity.
    + injection H as <-. reflexivity.
Qed.
(** Samples. *)
Lemma adds : forall t o b b1 cur a c flag nodes rewards, safe b -> nth_error (ths b) t = Some (TChance cur a c flag nodes rewards) -> estep (LSample t o) b = Some b1 ->
  forall c', sampled c' (etrace b1) = (if Nat.eqb c c' then [o] else []) ++ sampled c' (etrace b).
Proof using seqb_ok aeqb_ok.
  intros t o b b1 cur a c flag nodes rewards Sf Ht H.
  assert (Lg : (length (etrace b) < length (etrace b1))%nat).
  { destruct (estep_gstep seqb aeqb seqb_ok aeqb_ok C _ _ _ Sf H); cbn [etrace length]; lia. }
  cbn [EngineModel.estep] in H. rewrite Ht in H.
  assert (Bad : forall m1, out b t m1 TBad [] = Some b1 -> False) by (intros m1 [= <-]; cbn in Lg; lia).
  destruct (nth_error (ch (mem b)) c) as [x|]; [|destruct (Bad _ H)]. destruct (nth_error (dh (mem b)) cur) as [dn|]; [|destruct (Bad _ H)].
  destruct (existsb _ _); [|discriminate]. destruct (create_child_c _ _ _ _ _ _) as [m1 isnew]. destruct (nth_error (ch m1) c) as [x1|]; [|destruct (Bad _ H)].
  destruct (lookup seqb o (ckids x1)) as [d|]; [|destruct (Bad _ H)]. injection H as <-. intros c'. destruct isnew; reflexivity.
Qed.

Section Deviation.
Variable distr : S -> A -> list (S * R).
Hypothesis Dsucc : forall s a, succs C s a = map fst (distr s a).
Hypothesis Dpos : forall s a, is_sink C s = false -> In a (acts C s) -> (forall p, In p (distr s a) -> 0 < snd p) /\ total (distr s a) = 1.
Variable N : nat.
Hypothesis Npos : (0 < N)%nat.
Hypothesis Dmul : forall s a, is_sink C s = false -> In a (acts C s) -> multiples N (distr s a).
(** The exponential of the deviation of the samples of node [c] from the mean of [phi]. *)
Variable c : nat.
Variable phi : S -> A -> S -> R.
Hypothesis Phi : forall s a o, 0 <= phi s a o <= 1.
Variable l : R.
Hypothesis Hl : 0 < l <= 1 / 2.
Notation mean s a := (expected (phi s a) (distr s a)).
Definition drift (s : S) (a : A) (os : list S) : R := rsum_of (fun o => l * (phi s a o - mean s a) - 2 * l ^ 2) os.
Definition W (b : est) : R := match nth_error (ch (mem b)) c with Some x => exp (drift (cstate x) (cact x) (sampled c (etrace b))) | None => 1 end.

Lemma W_pos : forall b, 0 <= W b.
Proof using. intros b. unfold W. destruct (nth_error _ _); [left; apply exp_pos|lra]. Qed.
Lemma W_init : forall n, W (einit C n) = 1.
Proof using. intros n. unfold W, einit. cbn. now destruct c. Qed.
Lemma W_keep : forall n b b1, ereach n b -> gstep seqb aeqb C b b1 -> sampled c (etrace b1) = sampled c (etrace b) -> W b1 = W b.
Proof using seqb_ok aeqb_ok.
  intros n b b1 R St E. unfold W. rewrite E. pose proof (mstep_ext _ _ C _ _ (gstep_mstep _ _ _ _ _ St)) as X.
  destruct (nth_error (ch (mem b)) c) as [x|] eqn:Ex.
  - destruct (xt_c _ _ _ _ X c x Ex) as (x' & -> & -> & -> & _). reflexivity.
  - rewrite (sampled_none n b c R Ex). destruct (nth_error (ch (mem b1)) c); auto. unfold drift. rewrite rsum_of_nil. apply exp_0.
Qed.
Lemma W_add : forall b b1 x o, gstep seqb aeqb C b b1 -> nth_error (ch (mem b)) c = Some x -> sampled c (etrace b1) = o :: sampled c (etrace b) ->
  W b1 = W b * exp (l * (phi (cstate x) (cact x) o - mean (cstate x) (cact x)) - 2 * l ^ 2).
Proof using.
  intros b b1 x o St Ex E. unfold W. rewrite E, Ex. pose proof (mstep_ext _ _ C _ _ (gstep_mstep _ _ _ _ _ St)) as X.
  destruct (xt_c _ _ _ _ X c x Ex) as (x' & -> & -> & -> & _). unfold drift. rewrite rsum_of_cons, exp_plus. ring.
Qed.
(** Chance nodes stand for legal actions in states that are no sinks. *)
Lemma chance_legal : forall n b c' x, ereach n b -> nth_error (ch (mem b)) c' = Some x -> is_sink C (cstate x) = false /\ In (cact x) (acts C (cstate x)) /\
  exists d nd, nth_error (dh (mem b)) d = Some nd /\ dchild aeqb (mem b) d (cact x) c' /\ cstate x = dstate nd /\ cdepth x = ddepth nd /\ (ddepth nd < max_depth C)%Z.
Proof using seqb_ok aeqb_ok.
  intros n b c' x R Hx. destruct (ereach_good seqb aeqb seqb_ok aeqb_ok C _ _ R) as [I _]. pose proof (ti_wf _ _ _ _ I) as Wf.
  pose proof (wf_reachC _ _ _ _ Wf c' x Hx) as Rc. inversion Rc as [d a c1 Rd Dc]; subst c1. pose proof Dc as (nd & Hn & Ln).
  destruct (wf_d _ _ _ _ Wf d nd a c' Hn Ln) as (y & Hy & E1 & E2 & E3 & E4 & Ia & Ns). rewrite Hx in Hy. injection Hy as <-. subst a. rewrite E1.
  split; [destruct (is_sink C (dstate nd)) eqn:Es; auto; destruct Ns; unfold must_stop; auto|]. split; auto. exists d, nd. repeat (split; auto).
  destruct (Z_lt_le_dec (ddepth nd) (max_depth C)); auto. destruct Ns. unfold must_stop. auto.
Qed.

Variable G : @algo S A.
Hypothesis Hsam : forall n x cx, exists cx1, forall g, sample G n x cx g =
  bind (sample_from_distribution R_ops (distr (cstate n) (cact n)) true g) (fun '(o, g1) => Ok (o, cx1, g1)).
Notation areach := (areach seqb aeqb C G).
Notation astep := (astep seqb aeqb C G).

Lemma W_sup : forall n g s lb (f : nat -> nat -> R), good_ints g -> good_reals g -> areach n g s ->
  (forall j, (j < N)%nat -> f j (nr (rg s)) = INR j / INR N) ->
  sum_to N (fun j => after G W (astep lb (regrs G (f j) s))) <= INR N * W (base s).
Proof using seqb_ok aeqb_ok Dsucc Dpos Npos Dmul Phi Hl Hsam.
  intros n g s lb f _ _ R Hf. pose proof (areach_ereach seqb aeqb C G _ _ _ R) as Re. destruct (ereach_good seqb aeqb seqb_ok aeqb_ok C _ _ Re) as [I Sf].
  assert (Keep : (forall j, (j < N)%nat -> after G W (astep lb (regrs G (f j) s)) <= W (base s)) -> sum_to N (fun j => after G W (astep lb (regrs G (f j) s))) <= INR N * W (base s)).
  { intros H. rewrite <- sum_to_const. now apply sum_to_le. }
  assert (One : forall le b1, (forall t o, le <> LSample t o) -> estep le (base s) = Some b1 -> W b1 <= W (base s)).
  { intros le b1 Hn E. right. eapply W_keep; eauto; [eapply estep_gstep; eauto|eapply keeps; eauto]. }
  assert (Same : W (base s) <= W (base s)) by lra. pose proof (W_pos (base s)) as Wp.
  unfold AlgoModel.astep in *. cbn [regrs afail base cxs xds xcs] in *.
  destruct (afail s) as [fl|]; [apply Keep; intros; exact Wp|]. destruct lb as [t|t].
  { apply Keep. intros j _. destruct (estep (LStart t) (base s)) as [b|] eqn:E; cbn; auto. eapply One; [|exact E]. discriminate. }
  destruct (nth_error (ths (base s)) t) as [th|] eqn:Ht; [|apply Keep; intros; exact Wp]. destruct (nth_error (cxs s) t) as [cx|]; [|apply Keep; intros; exact Wp].
  assert (Bl : forall j, blocked G (regrs G (f j) s) t th = blocked G s t th) by reflexivity.
  assert (Dv : forall j nd, dview (regrs G (f j) s) nd = dview s nd) by reflexivity.
  assert (Cv : forall j nd, cview (regrs G (f j) s) nd = cview s nd) by reflexivity.
  destruct (blocked G s t th) eqn:Eb; [apply Keep; intros; rewrite Bl; exact Wp|].
  destruct th as [|cur flag nodes rewards|cur a c0 flag nodes rewards|nodes before aft tafter tot|d nodes before aft tafter tot|]; try (apply Keep; intros; rewrite Bl; exact Wp).
  - apply Keep. intros j _. rewrite Bl. destruct (nth_error (dh (mem (base s))) cur) as [nd|]; [|exact Same]. destruct (nth_error (xds s) cur) as [x|]; [|exact Same].
    destruct (should_continue C nd flag).
    + destruct (select G _ _ _ _ _) as [[[a cx1] g1]| |]; cbn [done]; [|exact Same|exact Same].
      destruct (estep (LSelect t a) (base s)) as [b|] eqn:E; [|exact Same]. cbn. eapply One; [|exact E]. discriminate.
    + destruct (estep (LRun t) (base s)) as [b|] eqn:E; [|exact Wp]. cbn. eapply One; [|exact E]. discriminate.
  - destruct (nth_error (ch (mem (base s))) c0) as [nd|] eqn:En; [|apply Keep; intros; rewrite Bl; exact Same].
    destruct (nth_error (xcs s) c0) as [x|]; [|apply Keep; intros; rewrite Bl; exact Same].
    destruct (chance_legal n (base s) c0 nd Re En) as (Ns & Ia & _). destruct (Dpos _ _ Ns Ia) as (Dp & Dt). pose proof (Dmul _ _ Ns Ia) as Dm.
    set (D := distr (cstate nd) (cact nd)) in *. set (e := fun o => exp (l * (phi (cstate nd) (cact nd) o - mean (cstate nd) (cact nd)) - 2 * l ^ 2)).
    destruct (Hsam (visit_c nd) x cx) as (cx1 & Hs). change (distr (cstate (visit_c nd)) (cact (visit_c nd))) with D in Hs.
    set (e' := fun o => if Nat.eqb c0 c then e o else 1).
    apply Rle_trans with (sum_to N (fun j => W (base s) * picked e' (sample_loop R_ops D 1 (INR j / INR N) 0))).
    + apply sum_to_le. intros j Hj. rewrite Bl. cbn [rg regrs]. rewrite Hs. unfold sample_from_distribution, get_rand_uniform. cbn [bind regr gr nr gi ni R_ops nzero none_].
      rewrite (Hf j Hj). pose proof (share N Npos j Hj) as Sh.
      assert (HD : D <> []) by (intros HD; rewrite HD in Dt; cbn in Dt; lra).
      destruct (exists_last HD) as (D0 & (k0 & w0) & ED).
      assert (NN : nonneg_weights D) by (intros k w Ik; left; apply (Dp (k, w)); auto).
      destruct (sample_iff_owns S D 1 (INR j / INR N) NN ltac:(lra)) as ((o & Eo) & Ow); [lra| |lra|].
      { rewrite ED in *. apply not_early_last; auto; try lra. apply (Dp (k0, w0)). apply in_or_app. cbn. auto. }
      rewrite Eo. cbn [bind done picked].
      assert (Io : In o (succs C (cstate nd) (cact nd))).
      { rewrite Dsucc. apply Ow in Eo. destruct Eo as (m1 & w & m2 & E & _). fold D. rewrite E. apply in_map_iff. exists (o, w). split; auto. apply in_or_app. cbn. auto. }
      destruct (estep (LSample t o) (base s)) as [b1|] eqn:E.
      * cbn [after aset base]. pose proof (estep_gstep seqb aeqb seqb_ok aeqb_ok C _ _ _ Sf E) as Gs. pose proof (adds _ _ _ _ _ _ _ _ _ _ Sf Ht E c) as Ad.
        unfold e'. destruct (Nat.eqb_spec c0 c) as [->|]; cbn [app] in Ad.
        -- right. apply (W_add (base s) b1 nd o); auto.
        -- rewrite Rmult_1_r. right. eapply W_keep; eauto.
      * exfalso. pose proof (Sf t _ Ht) as (L1 & L2 & _). clear - E Ht En L1 Io seqb_ok. cbn [EngineModel.estep] in E. rewrite Ht, En in E.
        destruct (nth_error (dh (mem (base s))) cur) as [dn|]; [|discriminate]. replace (existsb _ _) with true in E.
        2: { symmetry. apply existsb_exists. exists o. split; auto. now apply seqb_ok. }
        destruct (create_child_c _ _ _ _ _ _) as [m1 isnew]. destruct (nth_error (ch m1) c0); [|discriminate]. destruct (lookup _ _ _); discriminate.
    + rewrite sum_to_scal, (avg_sample N Npos e' D Dp Dt Dm). assert (Ee : expected e' D <= 1).
      { unfold e'. destruct (Nat.eqb c0 c).
        - exact (factor_mean S (phi (cstate nd) (cact nd)) l D Dp Dt (Phi _ _) Hl).
        - pose proof (expected_lin S (fun _ => 0) 1 0 D Dt) as El. right. transitivity (1 + 0 * expected (fun _ : S => 0) D); [|ring]. rewrite <- El. unfold expected. apply rsum_of_ext. intros p _. ring. }
      pose proof (pos_INR N). rewrite (Rmult_comm (W _)), Rmult_assoc. apply Rmult_le_compat_l; auto. nra.
  - apply Keep. intros j _. rewrite Bl. destruct (estep (LRun t) (base s)) as [b|] eqn:E; [|exact Wp].
    assert (Wb : W b <= W (base s)) by (eapply One; [|exact E]; discriminate).
    destruct nodes as [|[d c1] nodes1]; [exact Wb|]. destruct before as [|r before1]; [exact Wb|].
    destruct (nth_error (ch (mem (base s))) c1) as [nd|]; [|exact Same]. destruct (nth_error (xcs s) c1) as [x|]; [|exact Same].
    rewrite Cv. destruct (peek_c G (cview s nd) cx); [exact Same|]. destruct (back_c G nd x (cview s nd) cx _); cbn [done]; [exact Wb|exact Same|exact Same].
  - apply Keep. intros j _. rewrite Bl. destruct (estep (LRun t) (base s)) as [b|] eqn:E; [|exact Wp].
    assert (Wb : W b <= W (base s)) by (eapply One; [|exact E]; discriminate).
    destruct (nth_error (dh (mem (base s))) d) as [nd|]; [|exact Same]. destruct (nth_error (xds s) d) as [x|]; [|exact Same].
    rewrite Dv. destruct (peek_d G (dview s nd) cx); [exact Same|]. destruct (back_d G nd x (dview s nd) cx _); cbn [done]; [exact Wb|exact Same|exact Same].
Qed.
End Deviation.
End Fair.
