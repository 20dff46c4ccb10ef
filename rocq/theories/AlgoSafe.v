(** When the searches of an algorithm can fail. *)
From Coq Require Import List ZArith Bool Reals Lia.
From Verif Require Import Base BaseProofs NumOps HelperModel HelperSpec EngineModel EngineSpec EngineProofs EngineInv MapModel
  MapProofs AlgoModel AlgoProofs AlgoNodes.
Import ListNotations.

Section Safe.
Context {S A : Type}.
Variable seqb : S -> S -> bool.
Variable aeqb : A -> A -> bool.
Hypothesis seqb_ok : decides seqb.
Hypothesis aeqb_ok : decides aeqb.
Variable C : @econf S A.
Variable G : @algo S A.
Notation dnode := (@dnode S A).
Notation cnode := (@cnode S A).
Variable PD : dnode -> XD G -> Prop.
Variable PC : cnode -> XC G -> Prop.
Variable PX : list A -> CX G -> Prop.
Variable QC : cnode -> XC G -> Prop.
(** The states in which a selection is allowed to fail. *)
Variable Bad : dnode -> XD G -> list (A * (cnode * XC G)) -> CX G -> rng R -> Prop.

Definition same_stream (g g' : rng R) : Prop := gi g' = gi g /\ gr g' = gr g.

Record safe_rules : Prop := mkSafe {
  S_sel : forall n x0 kids cx g l, inner C n -> PD n x0 -> dkids_ok C G PC n kids -> PX l cx ->
     ddepth n = Z.of_nat (length l) -> good_ints g -> good_reals g ->
     let x := vis_d G (is_leaf C n) x0 in
     (exists a cx1 g1, select G (visit_d n) x kids cx g = Ok (a, cx1, g1) /\ In a (acts C (dstate n)) /\ same_stream g g1) \/
     (Bad (visit_d n) x kids cx g /\ forall r, select G (visit_d n) x kids cx g <> Ok r);
  S_sam : forall n x cx g l, innerc C n -> PC (visit_c n) x -> PX l cx -> good_ints g -> good_reals g ->
     exists o cx1 g1, sample G (visit_c n) x cx g = Ok (o, cx1, g1) /\ In o (succs C (cstate n) (cact n)) /\ same_stream g g1;
  S_backd : forall n x kids cx b l a l', inner C n -> PD n x -> dkids_ok C G PC n kids ->
     PX (l' ++ a :: l) cx -> ddepth n = Z.of_nat (length l) -> (exists c y, In (a, (c, y)) kids /\ QC c y) ->
     sees_d C G PC QC n a cx -> exists x1, back_d G n x kids cx b = Ok x1;
  S_backc : forall n x kids cx b, innerc C n -> PC n x -> ckids_ok C G PD n kids ->
     sees_c C G PD n cx -> exists x1, back_c G n x kids cx b = Ok x1
}.

Hypothesis Rules : node_rules C G PD PC PX QC.
Hypothesis Safe : safe_rules.

Lemma good_stream : forall g g', same_stream g g' -> good_ints g -> good_reals g -> good_ints g' /\ good_reals g'.
Proof. intros g g' [E1 E2] G1 G2. unfold good_ints, good_reals. rewrite E1, E2. auto. Qed.

Lemma streams : forall n g s, good_ints g -> good_reals g -> areach seqb aeqb C G n g s -> same_stream g (rg s).
Proof using All.
  intros n g s Gi Gr. revert s. apply areach_ind'; auto.
  - split; reflexivity.
  - intros s s' R I F E T. destruct (good_stream _ _ E Gi Gr) as [Sg Sr].
    pose proof (nodes_reach seqb aeqb seqb_ok aeqb_ok C G PD PC PX QC Rules _ _ _ R) as N.
    assert (Tr : forall g1, same_stream (rg s) g1 -> same_stream g g1).
    { intros g1 [K1 K2]. destruct E as [K3 K4]. split; congruence. }
    assert (Sel : forall t cur (m : dnode) a x cx cx1 g1 flag nodes rewards,
       nth_error (ths (base s)) t = Some (TSel cur flag nodes rewards) ->
       nth_error (dh (mem (base s))) cur = Some m -> nth_error (xds s) cur = Some x -> nth_error (cxs s) t = Some cx ->
       should_continue C m flag = true ->
       select G (visit_d m) (vis_d G (is_leaf C m) x) (dview s m) cx (rg s) = Ok (a, cx1, g1) -> same_stream g g1).
    { intros t cur m a x cx cx1 g1 flag nodes rewards Ht Hm Hx Hcx Hc Q.
      pose proof (no_t _ _ _ _ _ _ _ _ N _ _ _ Ht Hcx) as (l & _ & (m' & Hm' & Ed) & Px). rewrite Hm in Hm'. injection Hm' as <-.
      destruct (S_sel Safe m x (dview s m) cx (rg s) l) as [(a' & cx' & g' & E' & _ & K)|[_ K]]; auto.
      - eapply cont_inner; eauto.
      - eapply no_d; eauto.
      - eapply dview_kids; eauto.
      - rewrite E' in Q. injection Q as <- <- <-. auto.
      - destruct (K _ Q). }
    assert (Sam : forall t cur a c flag nodes rewards (m : cnode) x cx o cx1 g1,
       nth_error (ths (base s)) t = Some (TChance cur a c flag nodes rewards) ->
       nth_error (ch (mem (base s))) c = Some m -> nth_error (xcs s) c = Some x -> nth_error (cxs s) t = Some cx ->
       sample G (visit_c m) x cx (rg s) = Ok (o, cx1, g1) -> same_stream g g1).
    { intros t cur a c flag nodes rewards m x cx o cx1 g1 Ht Hm Hx Hcx Q.
      pose proof (no_t _ _ _ _ _ _ _ _ N _ _ _ Ht Hcx) as (l & _ & Px).
      destruct (S_sam Safe m x cx (rg s) (a :: l)) as (o' & cx' & g' & E' & _ & K); auto.
      - eapply chance_inner; eauto.
      - apply (P_visc _ _ _ _ _ _ Rules). eapply no_c; eauto.
      - rewrite E' in Q. injection Q as <- <- <-. auto. }
    destruct T; cbn [rg adie]; auto; try (eapply Sel; eauto; fail); eapply Sam; eauto.
Qed.

Lemma fail_why : forall n g s, good_ints g -> good_reals g -> areach seqb aeqb C G n g s -> reason C G s ->
  exists t cur flag nodes rewards m x cx, nth_error (ths (base s)) t = Some (TSel cur flag nodes rewards) /\
    nth_error (dh (mem (base s))) cur = Some m /\ nth_error (xds s) cur = Some x /\ nth_error (cxs s) t = Some cx /\
    should_continue C m flag = true /\ Bad (visit_d m) (vis_d G (is_leaf C m) x) (dview s m) cx (rg s).
Proof using All.
  intros n g s Gi Gr R Rs. pose proof (streams _ _ _ Gi Gr R) as E. destruct (good_stream _ _ E Gi Gr) as [Sg Sr].
  pose proof (nodes_reach seqb aeqb seqb_ok aeqb_ok C G PD PC PX QC Rules _ _ _ R) as N.
  pose proof (areach_good seqb aeqb seqb_ok aeqb_ok C G _ _ _ R) as I.
  destruct Rs.
  - pose proof (no_t _ _ _ _ _ _ _ _ N _ _ _ H H2) as (l & _ & (m' & Hm' & Ed) & Px). rewrite H0 in Hm'. injection Hm' as <-.
    destruct (S_sel Safe n0 x (dview s n0) cx (rg s) l) as [(a' & cx' & g' & E' & K & _)|[K _]]; auto.
    + eapply cont_inner; eauto.
    + eapply no_d; eauto.
    + eapply dview_kids; eauto.
    + destruct (H4 _ _ _ E' K).
    + exists t, cur, flag, nodes, rewards, n0, x, cx. auto 10.
  - exfalso. pose proof (no_t _ _ _ _ _ _ _ _ N _ _ _ H H2) as (l & _ & Px).
    destruct (S_sam Safe n0 x cx (rg s) (a :: l)) as (o' & cx' & g' & E' & K & _); auto.
    + eapply chance_inner; eauto.
    + apply (P_visc _ _ _ _ _ _ Rules). eapply no_c; eauto.
    + exact (H3 _ _ _ E' K).
  - exfalso. destruct (S_backc Safe n0 x (cview s n0) cx (mkArgs (rev before) (rev (r :: after)) (tafter + r)%R total)) as (x1 & E1).
    + eapply chance_inner; eauto.
    + eapply no_c; eauto.
    + eapply cview_kids; eauto.
    + pose proof (no_t _ _ _ _ _ _ _ _ N _ _ _ H H2) as (l & l' & _ & _ & Q). auto.
    + exact (H3 _ E1).
  - exfalso. pose proof (no_t _ _ _ _ _ _ _ _ N _ _ _ H H2) as (l & a & l' & _ & Px & (m' & Hm' & Ed) & c & n' & y & Q1 & Q2 & Q3 & Q4 & Q5).
    rewrite H0 in Hm'. injection Hm' as <-.
    destruct (S_backd Safe n0 x (dview s n0) cx (mkArgs (rev before) (rev after) tafter total) l a l') as (x1 & E1); auto.
    + eapply edge_inner; eauto.
    + eapply no_d; eauto.
    + eapply dview_kids; eauto.
    + exists n', y. split; auto. eapply dview_has; eauto.
    + exact (H3 _ E1).
Qed.

Lemma no_fail : (forall n x kids cx g, ~ Bad n x kids cx g) ->
  forall n g s, good_ints g -> good_reals g -> areach seqb aeqb C G n g s -> afail s = None.
Proof using All.
  intros NB n g s Gi Gr. revert s. apply (never_fails seqb aeqb seqb_ok aeqb_ok). intros s R F Rs.
  destruct (fail_why _ _ _ Gi Gr R Rs) as (t & cur & flag & nodes & rewards & m & x & cx & _ & _ & _ & _ & _ & K). exact (NB _ _ _ _ _ K).
Qed.
End Safe.

(** Failures and their reasons. *)
Section Failures.
Context {S A : Type}.
Variable seqb : S -> S -> bool.
Variable aeqb : A -> A -> bool.
Hypothesis seqb_ok : decides seqb.
Hypothesis aeqb_ok : decides aeqb.
Variable C : @econf S A.
Variable G : @algo S A.

Lemma failed : forall n g s, areach seqb aeqb C G n g s -> afail s <> None ->
  exists s0 f, areach seqb aeqb C G n g s0 /\ afail s0 = None /\ reason C G s0 /\ s = adie G s0 f.
Proof using seqb_ok aeqb_ok.
  intros n g. apply (areach_ind' seqb aeqb seqb_ok aeqb_ok C G n g (fun s => afail s <> None ->
    exists s0 f, areach seqb aeqb C G n g s0 /\ afail s0 = None /\ reason C G s0 /\ s = adie G s0 f)).
  - intros H. now elim H.
  - intros s s' R I F _ T N. destruct T; try (now elim N). exists s, f. auto.
Qed.

(** A selection at the fresh root that throws makes a search fail at its first step. *)
Lemma first_selection_fails : forall n g, (0 < n)%nat -> is_leaf C (new_dnode C (root_state C) 0 (root_time C)) = false ->
  select G (visit_d (new_dnode C (root_state C) 0 (root_time C))) (vis_d G false (new_xd G (new_dnode C (root_state C) 0 (root_time C))))
    [] (cx0 G) g = Throw ->
  exists s, areach seqb aeqb C G n g s /\ afail s = Some FThrow.
Proof.
  intros n g Hn L E. destruct n as [|n]; [lia|]. set (root := new_dnode C (root_state C) 0 (root_time C)) in *.
  set (s1 := mkA (mkEst (mkStore [root] [] []) (TSel 0 false [] [] :: repeat TIdle n) [(0%nat, EStart)])
     [new_xd G root] [] (cx0 G :: repeat (cx0 G) n) g None : ast G).
  assert (E1 : astep seqb aeqb C G (AStart 0) (ainit C G (Datatypes.S n) g) = Some s1) by reflexivity.
  assert (E2 : astep seqb aeqb C G (ARun 0) s1 = Some (adie G s1 FThrow)).
  { unfold astep. change (afail s1) with (@None failure). change (nth_error (ths (base s1)) 0) with (Some (TSel (A := A) 0 false [] [])).
    change (nth_error (cxs s1) 0) with (Some (cx0 G)). cbv beta iota.
    assert (Al : blocked G s1 0 (TSel 0 false [] []) = false).
    { apply not_blocked. intros [|u] y cy k Nu Hy _ Hh; [contradiction|]. cbn in Hy. apply nth_error_In, repeat_spec in Hy. subst y. discriminate. }
    rewrite Al.
    change (nth_error (dh (mem (base s1))) 0) with (Some root). change (nth_error (xds s1) 0) with (Some (new_xd G root)). cbv beta iota zeta.
    assert (Sc : should_continue C root false = true).
    { unfold should_continue. rewrite L. destruct (mcts_mode C); reflexivity. }
    rewrite Sc, L. change (dview s1 root) with (@nil (A * (@cnode S A * XC G))). change (rg s1) with g. rewrite E. reflexivity. }
  exists (adie G s1 FThrow). split; [|reflexivity]. exists [AStart 0; ARun 0]. cbn [arun]. rewrite E1. cbn [arun]. rewrite E2. reflexivity.
Qed.
End Failures.
