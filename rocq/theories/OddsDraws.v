(** How many uniform numbers a search uses *)
From Coq Require Import List ZArith Bool Reals Lia.
From Verif Require Import Base BaseProofs NumOps HelperModel HelperSpec EngineModel EngineSpec EngineProofs EngineInv EngineCount AlgoModel AlgoProofs OddsSpec OddsStep.
Import ListNotations.
Open Scope Z_scope.

Lemma sumZ_same : forall T (f g : T -> Z) l, (forall x, In x l -> f x = g x) -> sumZ f l = sumZ g l.
Proof. intros T f g l. induction l as [|x l IH]; intros H; cbn; auto. rewrite (H x (or_introl eq_refl)), IH; auto. intros y I. apply H. now right. Qed.

Section Draws.
Context {S A : Type}.
Variable seqb : S -> S -> bool.
Variable aeqb : A -> A -> bool.
Hypothesis seqb_ok : decides seqb.
Hypothesis aeqb_ok : decides aeqb.
Variable C : @econf S A.
Hypothesis Md : 0 <= max_depth C.
Notation event := (@event S A).
Notation est := (@EngineModel.est S A).
Notation estep := (estep seqb aeqb C).
Notation ereach := (ereach seqb aeqb C).

(** Node visits on the way down. *)
Definition goes_down (e : event) : bool := match e with EVisitD _ _ _ | EVisitC _ _ _ _ => true | _ => false end.
(** How many a worker's trial can still make. *)
Definition pot (m : @store S A) (th : @tstate A) : Z :=
  match th with
  | TSel cur _ _ _ => match nth_error (dh m) cur with Some nd => 2 * (max_depth C - ddepth nd) | None => 0 end
  | TChance _ _ c _ _ _ => match nth_error (ch m) c with Some x => 2 * (max_depth C - cdepth x) - 1 | None => 0 end
  | _ => 0
  end.
Lemma pot_ext : forall m m' th, extends_tree seqb aeqb m m' -> safe_thread m th -> pot m' th = pot m th.
Proof using.
  intros m m' th X Sf. destruct th as [|cur flag nodes rewards|cur a c flag nodes rewards| | |]; auto; cbn in *.
  - destruct Sf as (L & _). destruct (nth_error (dh m) cur) as [nd|] eqn:E; [|apply nth_error_None in E; lia]. destruct (xt_d _ _ _ _ X cur nd E) as (n' & -> & _ & -> & _). reflexivity.
  - destruct Sf as (_ & L & _). destruct (nth_error (ch m) c) as [x|] eqn:E; [|apply nth_error_None in E; lia]. destruct (xt_c _ _ _ _ X c x E) as (x' & -> & _ & _ & -> & _). reflexivity.
Qed.

Lemma down_inv : forall n b, ereach n b -> count goes_down (etrace b) + sumZ (pot (mem b)) (ths b) <= 2 * max_depth C * count is_start (etrace b).
Proof using seqb_ok aeqb_ok Md.
  intros n. apply (ereach_inv seqb aeqb seqb_ok aeqb_ok C); auto.
  { cbn. rewrite (sumZ_repeat0 (pot (mem (einit C n)))) by reflexivity. unfold count. cbn. lia. }
  intros b b1 Gd IH St. pose proof (good_step seqb aeqb seqb_ok aeqb_ok C _ _ Gd St) as [I1 _]. destruct Gd as [I Sf].
  pose proof (mstep_ext _ _ C _ _ (gstep_mstep _ _ _ _ _ St)) as X.
  assert (Old : sumZ (pot (mem b1)) (ths b) = sumZ (pot (mem b)) (ths b)).
  { apply sumZ_same. intros th Ith. apply In_nth_error in Ith. destruct Ith as (t & Ht). apply pot_ext; auto. exact (Sf t th Ht). }
  pose proof (ti_wf _ _ _ _ I1) as Wf.
  destruct St; cbn [etrace ths mem] in *; rewrite !count_cons; cbn [goes_down is_start b2z]; erewrite sumZ_upd by eassumption; try rewrite Old.
  - cbn [pot]. destruct (wf_root _ _ _ _ Wf) as (n0 & -> & _ & -> & _). lia.
  - cbn [pot dh ch]. erewrite nth_upd_eq by eassumption. destruct (wf_d _ _ _ _ (ti_wf _ _ _ _ I) cur n0 a c H0 H3) as (x & -> & _ & -> & _). cbn. lia.
  - cbn [pot dh ch]. erewrite nth_upd_eq by eassumption. unfold c. rewrite nth_error_app2, Nat.sub_diag by lia. cbn. lia.
  - cbn [pot dh ch]. erewrite nth_upd_eq by eassumption. destruct (wf_c _ _ _ _ (ti_wf _ _ _ _ I) c n0 o d H0 H3) as (x & -> & _ & -> & _). cbn. lia.
  - cbn [pot dh ch]. erewrite nth_upd_eq by eassumption. destruct (wf_c _ _ _ _ Wf c (add_ckid (visit_c n0) o d) o d) as (x & Hx & _ & Ex & _).
    { cbn [ch]. eapply nth_upd_eq; eauto. } { cbn. apply lookup_snoc_eq; auto. } cbn [dh] in Hx. rewrite Hx, Ex. cbn. lia.
  - cbn [pot dh ch]. erewrite nth_upd_eq by eassumption. unfold d. rewrite nth_error_app2, Nat.sub_diag by lia. cbn. lia.
  - cbn [pot dh ch]. erewrite nth_upd_eq by eassumption. pose proof (ti_depth _ _ _ _ I Md cur n0 H0). cbn. lia.
  - cbn [pot]. lia.
  - cbn [pot]. lia.
  - cbn [pot]. lia.
Qed.
Lemma pot_nonneg : forall n b t th, ereach n b -> nth_error (ths b) t = Some th -> 0 <= pot (mem b) th.
Proof using seqb_ok aeqb_ok Md.
  intros n b t th R Ht. destruct (ereach_good seqb aeqb seqb_ok aeqb_ok C _ _ R) as [I _]. destruct th; cbn; try lia.
  - destruct (nth_error (dh _) cur) as [nd|] eqn:E; [|lia]. pose proof (ti_depth _ _ _ _ I Md cur nd E). lia.
  - destruct (nth_error (ch _) c) as [x|] eqn:E; [|lia]. destruct (ti_cstop _ _ _ _ I c x E) as (_ & K & _). lia.
Qed.
Lemma down_few : forall n b, ereach n b -> count goes_down (etrace b) <= 2 * max_depth C * count is_start (etrace b).
Proof using seqb_ok aeqb_ok Md.
  intros n b R. pose proof (down_inv n b R). assert (0 <= sumZ (pot (mem b)) (ths b)); [|lia].
  assert (P : forall th, In th (ths b) -> 0 <= pot (mem b) th) by (intros th Ith; apply In_nth_error in Ith; destruct Ith as (t & Ht); eapply pot_nonneg; eauto).
  clear H. induction (ths b) as [|th l IH]; cbn; [lia|]. pose proof (P th (or_introl eq_refl)). specialize (IH (fun y Iy => P y (or_intror Iy))). lia.
Qed.

Variable G : @algo S A.
Variable distr : S -> A -> list (S * R).
Hypothesis Hsel : forall n x kids cx, exists j, (j <= 1)%nat /\ reads j (select G n x kids cx).
Hypothesis Hsam : forall n x cx, exists cx1, forall g, sample G n x cx g =
  bind (sample_from_distribution R_ops (distr (cstate n) (cact n)) true g) (fun '(o, g1) => Ok (o, cx1, g1)).

Lemma step_down : forall l b b1, safe b -> estep l b = Some b1 -> count goes_down (etrace b) <= count goes_down (etrace b1) /\
  ((exists t a, l = LSelect t a) \/ (exists t o, l = LSample t o) -> count goes_down (etrace b) + 1 <= count goes_down (etrace b1)).
Proof using seqb_ok aeqb_ok.
  intros l b b1 Sf H.
  assert (Lg : (length (etrace b) < length (etrace b1))%nat).
  { destruct (estep_gstep seqb aeqb seqb_ok aeqb_ok C _ _ _ Sf H); cbn [etrace length]; lia. }
  split.
  { destruct (estep_gstep seqb aeqb seqb_ok aeqb_ok C _ _ _ Sf H); cbn [etrace]; rewrite !count_cons; cbn; lia. }
  assert (Bad : forall t m1, out b t m1 TBad [] = Some b1 -> False) by (intros t m1 [= <-]; cbn in Lg; lia).
  intros [(t & a & ->)|(t & o & ->)]; cbn [EngineModel.estep] in H; destruct (nth_error (ths b) t) as [[]|]; try discriminate.
  - destruct (nth_error (dh _) cur) as [nd|]; [|destruct (Bad _ _ H)]. destruct (_ && _); [|discriminate]. destruct (nth_error (dh _) cur) as [n1|]; [|destruct (Bad _ _ H)].
    destruct (lookup aeqb a (dkids n1)) as [c1|]; [|destruct (Bad _ _ H)]. injection H as <-. destruct (lookup _ _ _); cbn [etrace rev app map]; rewrite ?count_cons; cbn; lia.
  - destruct (nth_error (ch _) c) as [x|]; [|destruct (Bad _ _ H)]. destruct (nth_error (dh _) cur) as [dn|]; [|destruct (Bad _ _ H)].
    destruct (existsb _ _); [|discriminate]. destruct (create_child_c _ _ _ _ _ _) as [m1 isnew]. destruct (nth_error (ch m1) c) as [x1|]; [|destruct (Bad _ _ H)].
    destruct (lookup seqb o (ckids x1)) as [d|]; [|destruct (Bad _ _ H)]. injection H as <-. destruct isnew; cbn [etrace rev app map]; rewrite ?count_cons; cbn; lia.
Qed.

(** At most one uniform number for every node visited on the way down, so at most two for every decision. *)
Lemma draws_down : forall n g s, nr g = 0%nat -> areach seqb aeqb C G n g s -> Z.of_nat (nr (rg s)) <= count goes_down (etrace (base s)).
Proof using seqb_ok aeqb_ok Hsel Hsam.
  intros n g s Hg. assert (Ind : forall P : ast G -> Prop, P (ainit C G n g) -> (forall s0 l s1, areach seqb aeqb C G n g s0 -> P s0 -> astep seqb aeqb C G l s0 = Some s1 -> P s1) ->
    forall s, areach seqb aeqb C G n g s -> P s).
  { clear. intros P P0 H s [ls R]. revert s R. induction ls as [|l ls IH] using rev_ind; intros s R; [injection R as <-; exact P0|].
    assert (Q : exists s1, arun seqb aeqb C G ls (ainit C G n g) = Some s1 /\ astep seqb aeqb C G l s1 = Some s).
    { clear IH H P0. revert R. generalize (ainit C G n g). induction ls as [|k ls IH]; intros s0 R; cbn in *.
      - destruct (astep seqb aeqb C G l s0) eqn:E; [|discriminate]. injection R as <-. eauto.
      - destruct (astep seqb aeqb C G k s0); [|discriminate]. auto. }
    destruct Q as (s1 & R1 & E). apply (H s1 l s); auto. exists ls. exact R1. }
  apply (Ind (fun s => Z.of_nat (nr (rg s)) <= count goes_down (etrace (base s)))).
  { cbn. rewrite Hg. unfold count. cbn. lia. }
  clear Ind. intros s0 l s1 R IH E. pose proof (areach_ereach _ _ _ _ _ _ _ R) as Re. destruct (ereach_good seqb aeqb seqb_ok aeqb_ok C _ _ Re) as [_ Sf].
  assert (One : forall le b1, estep le (base s0) = Some b1 -> count goes_down (etrace (base s0)) <= count goes_down (etrace b1)) by (intros le b1 Eb; apply (step_down le _ _ Sf Eb)).
  unfold astep in E. destruct (afail s0); [discriminate|]. destruct l as [t|t].
  { destruct (estep (LStart t) (base s0)) as [b|] eqn:Eb; [|discriminate]. injection E as <-. cbn. specialize (One _ _ Eb). lia. }
  destruct (nth_error (ths (base s0)) t) as [th|]; [|discriminate]. destruct (nth_error (cxs s0) t) as [cx|]; [|discriminate]. destruct (blocked G s0 t th); [discriminate|].
  destruct th; try discriminate.
  - destruct (nth_error (dh _) cur) as [nd|]; [|injection E as <-; exact IH]. destruct (nth_error (xds s0) cur) as [x|]; [|injection E as <-; exact IH].
    destruct (should_continue C nd flag).
    + destruct (Hsel (visit_d nd) (vis_d G (is_leaf C nd) x) (dview s0 nd) cx) as (j & Hj & Rd).
      destruct (select G _ _ _ _ _) as [[[a cx1] g1]| |] eqn:Es; cbn [done] in E; try (injection E as <-; exact IH). destruct (Rd _ _ _ Es) as (_ & _ & Hn & _).
      destruct (estep (LSelect t a) (base s0)) as [b|] eqn:Eb; injection E as <-; [|exact IH]. cbn. pose proof (proj2 (step_down _ _ _ Sf Eb) ltac:(left; eauto)). lia.
    + destruct (estep (LRun t) (base s0)) as [b|] eqn:Eb; [|discriminate]. injection E as <-. cbn. specialize (One _ _ Eb). lia.
  - destruct (nth_error (ch _) c) as [nd|]; [|injection E as <-; exact IH]. destruct (nth_error (xcs s0) c) as [x|]; [|injection E as <-; exact IH].
    pose proof (sample_reads G distr Hsam (visit_c nd) x cx) as Rd.
    destruct (sample G _ _ _ _) as [[[o cx1] g1]| |] eqn:Es; cbn [done] in E; try (injection E as <-; exact IH). destruct (Rd _ _ _ Es) as (_ & _ & Hn & _).
    destruct (estep (LSample t o) (base s0)) as [b|] eqn:Eb; injection E as <-; [|exact IH]. cbn. pose proof (proj2 (step_down _ _ _ Sf Eb) ltac:(right; eauto)). lia.
  - destruct (estep (LRun t) (base s0)) as [b|] eqn:Eb; [|discriminate]. specialize (One _ _ Eb).
    destruct nodes as [|[d c] nodes]; [injection E as <-; cbn; lia|]. destruct before; [injection E as <-; cbn; lia|].
    destruct (nth_error (ch _) c) as [nd|]; [|injection E as <-; exact IH]. destruct (nth_error (xcs s0) c) as [x|]; [|injection E as <-; exact IH].
    destruct (peek_c _ _ _); [injection E as <-; exact IH|]. destruct (back_c _ _ _ _ _ _); cbn [done] in E; injection E as <-; try exact IH. cbn. lia.
  - destruct (estep (LRun t) (base s0)) as [b|] eqn:Eb; [|discriminate]. specialize (One _ _ Eb).
    destruct (nth_error (dh _) d) as [nd|]; [|injection E as <-; exact IH]. destruct (nth_error (xds s0) d) as [x|]; [|injection E as <-; exact IH].
    destruct (peek_d _ _ _); [injection E as <-; exact IH|]. destruct (back_d _ _ _ _ _ _); cbn [done] in E; injection E as <-; try exact IH. cbn. lia.
Qed.
Lemma draws_few : forall n g s, nr g = 0%nat -> areach seqb aeqb C G n g s -> Z.of_nat (nr (rg s)) <= 2 * max_depth C * count is_start (etrace (base s)).
Proof using seqb_ok aeqb_ok Md Hsel Hsam.
  intros n g s Hg R. eapply Z.le_trans; [eapply draws_down; eauto|]. apply (down_few n). exact (areach_ereach _ _ _ _ _ _ _ R).
Qed.
End Draws.
