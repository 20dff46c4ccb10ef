(** Order of selections and absence of failures in UCT searches. *)
From Coq Require Import List ZArith Bool Reals Lia Lra Permutation.
From Verif Require Import Base BaseProofs NumOps RLemmas HelperModel HelperSpec HelperProofs EngineModel EngineSpec
  EngineProofs EngineInv EngineCount EngineBound MapModel MapProofs PickSpec PickProofs AlgoModel AlgoProofs UctModel
  UctSpec UctProofs UctInv UctSelect.
Import ListNotations.
Open Scope R_scope.

Section Run.
Context {S A : Type}.
Variable seqb : S -> S -> bool.
Variable aeqb : A -> A -> bool.
Hypothesis seqb_ok : decides seqb.
Hypothesis aeqb_ok : decides aeqb.
Variable C : @econf S A.
Variable U : @uconf S A.
Notation alg := (uct aeqb C U).
Notation areach := (areach seqb aeqb C alg).
Notation ast := (ast alg).
Notation atr := (atr seqb aeqb C alg).
Notation agood := (agood seqb aeqb C alg).

(** ** Every action first *)
Section First.
Hypothesis Heps : ueps U <= 0.
Hypothesis Hprior : uprior U = None.
Hypothesis Hnd : forall s, NoDup (acts C s).

Definition ordered (l : list A) (L : list A) : Prop :=
  incl L l /\ (NoDup L \/ exists L2 L1, L = L2 ++ L1 /\ NoDup L1 /\ length L1 = length l).

Definition tried (s : ast) : Prop :=
  (forall d n, nth_error (dh (mem (base s))) d = Some n ->
     (forall a, In a (map fst (dkids n)) <-> In a (selected d (etrace (base s)))) /\
     ordered (acts C (dstate n)) (selected d (etrace (base s)))) /\
  (forall d, (length (dh (mem (base s))) <= d)%nat -> selected d (etrace (base s)) = []).

Lemma eq_dec_of : forall x y : A, {x = y} + {x <> y}.
Proof using aeqb_ok.
  intros x y. destruct (aeqb x y) eqn:E; [left; now apply aeqb_ok|right; intros ->].
  assert (aeqb y y = true) by now apply aeqb_ok. congruence.
Qed.

Lemma vec_at_in : forall (l : list A) i a, vec_at l i = Ok a -> In a l.
Proof.
  intros l i a H. unfold vec_at in H. destruct (i <? 0)%Z; [discriminate|].
  destruct (nth_error l (Z.to_nat i)) eqn:E; [|discriminate]. injection H as <-. eapply nth_error_In; eauto.
Qed.

Lemma select_new : forall n (kids : list (A * (@cnode S A * ux))) g a g1, uct_select aeqb C U n kids g = Ok (a, g1) ->
  (exists b, In b (acts C (dstate n)) /\ ~ In b (map fst kids)) -> ~ In a (map fst kids).
Proof using aeqb_ok Heps Hprior.
  intros n kids g a g1 H (b & Q). rewrite no_eps in H by auto. unfold uct_select_ucb in H. rewrite Hprior in H.
  apply untried_iff with (aeqb := aeqb) in Q; auto.
  destruct (untried aeqb kids (acts C (dstate n))) as [|x l] eqn:E; [destruct Q|].
  destruct (get_rand_int 0 (Z.of_nat (length (x :: l))) g) as [[i g2]| |]; try discriminate. cbn [bind] in H.
  destruct (vec_at (x :: l) i) as [a'| |] eqn:Ea; try discriminate. injection H as <- <-.
  apply vec_at_in in Ea. rewrite <- E in Ea. apply untried_iff in Ea; auto. tauto.
Qed.

Lemma ordered_cons : forall l L a, NoDup l -> In a l -> ordered l L ->
  ((exists b, In b l /\ ~ In b L) -> ~ In a L) -> ordered l (a :: L).
Proof using aeqb_ok.
  intros l L a ND Ia [Inc O] H. split; [intros x [<-|Q]; auto|].
  destruct O as [N|(L2 & L1 & -> & N1 & E)].
  - destruct (in_dec eq_dec_of a L) as [Q|Q].
    + right. exists [a], L. split; auto. split; auto. apply Nat.le_antisymm.
      * now apply NoDup_incl_length.
      * apply NoDup_incl_length; auto. intros b Ib. destruct (in_dec eq_dec_of b L); auto.
        exfalso. apply H; eauto.
    + left. now constructor.
  - right. exists (a :: L2), L1. auto.
Qed.

Lemma selected_app : forall d e tr, selected d (e :: tr) = selected d [e] ++ selected (S:=S) (A:=A) d tr.
Proof. intros. unfold selected. cbn [flat_map]. now rewrite app_nil_r. Qed.

Lemma tried_step : forall s s', agood s -> tried s -> atr s s' -> tried s'.
Proof using aeqb_ok Heps Hprior Hnd.
  intros s s' I T X. pose proof I as [Gd Ps Ld Lc Lt]. destruct T as (T1 & T2).
  assert (Sel : forall (t cur : nat) (n : dnode) a (x : ux) cx cx1 g1 k,
    nth_error (dh (mem (base s))) cur = Some n ->
    select alg (visit_d n) (vis_d alg (is_leaf C n) x) (dview s n) cx (rg s) = Ok (a, cx1, g1) ->
    In a (acts C (dstate n)) -> (forall b, In b (map fst k) <-> b = a \/ In b (map fst (dkids n))) ->
    forall n', dstate n' = dstate n -> dkids n' = k -> forall c : nat,
    forall d m, nth_error (upd (dh (mem (base s))) cur n') d = Some m ->
     (forall b, In b (map fst (dkids m)) <-> In b (selected d ((t, EVisitD cur a c) :: etrace (base s)))) /\
     ordered (acts C (dstate m)) (selected d ((t, EVisitD cur a c) :: etrace (base s)))).
  { intros t cur n a x cx cx1 g1 k Hn Hs Ia Hk n' E1 E2 c d m Q. rewrite (nth_upd _ _ _ _ _ _ Hn) in Q.
    rewrite selected_app. cbn [selected flat_map snd]. rewrite app_nil_r.
    destruct (Nat.eqb_spec cur d) as [->|ne]; [|cbn [app]; auto]. injection Q as <-. rewrite E1, E2. cbn [app].
    destruct (T1 _ _ Hn) as [K O]. split.
    - intros b. rewrite Hk, K. cbn [In]. split; intros [Q|Q]; auto.
    - apply ordered_cons; auto. intros (b & Ib & Nb).
      cbn [select uct vis_d] in Hs.
      destruct (uct_select aeqb C U (visit_d n) (dview s n) (rg s)) as [[a' g2]| |] eqn:Es; try discriminate.
      cbn [bind] in Hs. injection Hs as -> _ _. apply select_new in Es.
      + intros Q. apply Es. apply K in Q. rewrite <- (dview_keys seqb aeqb aeqb_ok C alg s d n I Hn) in Q. exact Q.
      + exists b. split; auto. intros Q. apply Nb. apply K. rewrite <- (dview_keys seqb aeqb aeqb_ok C alg s d n I Hn). exact Q. }
  assert (Skip : forall tr' e, tr' = e :: etrace (base s) -> (forall d, selected d [e] = []) ->
    forall l', length l' = length (dh (mem (base s))) ->
      (forall d m', nth_error l' d = Some m' -> exists m, nth_error (dh (mem (base s))) d = Some m /\ dstate m' = dstate m /\ dkids m' = dkids m) ->
      (forall d n, nth_error l' d = Some n ->
        (forall a, In a (map fst (dkids n)) <-> In a (selected d tr')) /\ ordered (acts C (dstate n)) (selected d tr')) /\
      (forall d, (length l' <= d)%nat -> selected d tr' = [])).
  { intros tr' e -> E l' Ll Hl. split.
    - intros d m' Q. destruct (Hl _ _ Q) as (m & Hm & E1 & E2). rewrite selected_app, E, E1, E2. cbn [app]. auto.
    - intros d Q. rewrite selected_app, E. cbn [app]. apply T2. lia. }
  assert (Same : forall d m', nth_error (dh (mem (base s))) d = Some m' ->
     exists m, nth_error (dh (mem (base s))) d = Some m /\ dstate m' = dstate m /\ dkids m' = dkids m) by eauto.
  assert (OOR : forall t cur a c n, nth_error (dh (mem (base s))) cur = Some n -> forall d, (length (dh (mem (base s))) <= d)%nat ->
     selected d ((t, EVisitD cur a c) :: etrace (base s)) = []).
  { intros t cur a c n Hn d Q. assert (cur < length (dh (mem (base s))))%nat by (apply nth_error_Some; congruence).
    rewrite selected_app. cbn [selected flat_map snd]. destruct (Nat.eqb_spec cur d); [lia|]. cbn [app]. auto. }
  destruct X; unfold tried; cbn [base mem dh etrace adie].
  - eapply Skip; eauto.
  - rewrite upd_length. split; [|eapply OOR; eauto].
    refine (Sel t cur n a x cx cx1 g1 (dkids n) H0 H4 H5 _ (visit_d n) eq_refl eq_refl c).
    intros b. split; auto. intros [->|Q]; auto. apply lookup_in in H6; auto. now apply (in_map fst) in H6.
  - change (tried (mkA (mkEst (mkStore (upd (dh (mem (base s))) cur (add_dkid (visit_d n) a c)) [] []) [] ((t, EVisitD cur a c) :: etrace (base s))) [] [] [] (rg s) None)).
    unfold tried. cbn [base mem dh etrace]. rewrite upd_length. split; [|eapply OOR; eauto].
    refine (Sel t cur n a x cx cx1 g1 _ H0 H4 H5 _ (add_dkid (visit_d n) a c) eq_refl eq_refl c).
    intros b. cbn [add_dkid dkids visit_d]. rewrite map_app, in_app_iff. cbn. intuition congruence.
  - eapply Skip; eauto.
  - eapply Skip; eauto.
  - change (tried (mkA (mkEst (mkStore (dh (mem (base s)) ++ [new_dnode C o (cdepth n + 1) (ctime n + 1)]) [] []) [] (etrace (base s))) [] [] [] (rg s) None)).
    unfold tried. cbn [base mem dh etrace]. rewrite app_length. cbn [length]. split.
    + intros d0 m Q. apply nth_snoc in Q. destruct Q as [Q|[-> ->]]; auto. rewrite T2 by lia. cbn. split; [tauto|].
      split; [intros y []|]. left. constructor.
    + intros d0 Q. apply T2. lia.
  - eapply Skip; [reflexivity|reflexivity| |].
    + apply upd_length.
    + intros d m' Q. rewrite (nth_upd _ _ _ _ _ _ H0) in Q. destruct (Nat.eqb_spec cur d) as [->|]; eauto.
      injection Q as <-. exists n. auto.
  - eapply Skip; eauto.
  - eapply Skip; eauto.
  - split; auto.
  - split; auto.
  - eapply Skip; eauto.
  - split; auto.
Qed.

Lemma tried_reach : forall n g s, areach n g s -> tried s.
Proof using seqb_ok aeqb_ok Heps Hprior Hnd.
  intros n g. apply areach_ind'; auto.
  - split; cbn; auto. intros [|[|d]] m [= <-]. cbn. split; [tauto|]. split; [intros y []|]. left. constructor.
  - intros s s' _ I _ M T. eapply tried_step; eauto.
Qed.
End First.

(** ** No failures *)
Section Safe.
Hypothesis Uok : uct_ok C U.
Variable B : R.
Hypothesis Sane : sane C U B.

Lemma kid_avg_cases : forall (kids : list (A * (@cnode S A * ux))) a,
  (exists c x, In (a, (c, x)) kids /\ kid_avg aeqb kids a = uavg x) \/ kid_avg aeqb kids a = 0.
Proof using aeqb_ok.
  intros kids a. unfold kid_avg. destruct (lookup aeqb a kids) as [[c x]|] eqn:E; auto.
  apply lookup_in in E; auto. left. eauto.
Qed.

Lemma kid_small : forall n g s d m, areach n g s -> nth_error (dh (mem (base s))) d = Some m ->
  forall a, Rabs (kid_avg aeqb (dview s m) a) <= limit C B.
Proof using All.
  intros n g s d m R Hm a. destruct Sane as (_ & _ & Hr & Hh & B0 & Hd & _).
  pose proof (areach_good seqb aeqb seqb_ok aeqb_ok C alg _ _ _ R) as I.
  pose proof (areach_ereach seqb aeqb C alg _ _ _ R) as R'.
  destruct (bounded_reach seqb aeqb seqb_ok aeqb_ok C B Hr Hh Hd B0 _ _ R') as (_ & _ & Sm).
  assert (L0 : 0 <= limit C B).
  { unfold limit. apply Rmult_le_pos; auto. apply IZR_le in Hd. lra. }
  destruct (kid_avg_cases (dview s m) a) as [(c & x & E & ->)| ->]; [|now rewrite Rabs_R0].
  pose proof (dview_ok seqb aeqb aeqb_ok C alg s d m I Hm) as F.
  assert (Q : exists k, nth_error (xcs s) k = Some x).
  { clear - F E. revert E. induction F as [|p q l l' H F IH]; intros E; [destruct E|]. destruct E as [->|E]; eauto. exists (snd p). apply H. }
  destruct Q as (k & Hk). destruct (means_reach seqb aeqb seqb_ok aeqb_ok C U Uok _ _ _ R) as (_ & _ & M3 & _).
  specialize (M3 _ _ Hk). apply Rabs_le.
  assert (P1 : forall r, In r (returns_c k (etrace (base s))) -> - limit C B <= r <= limit C B).
  { intros r Q. unfold returns_c in Q. apply in_flat_map in Q. destruct Q as ([t e] & Ie & Q). specialize (Sm _ Ie).
    cbn [snd] in Q. destruct e; try destruct Q. destruct (Nat.eqb _ k); [|destruct Q]. destruct Q as [<-|[]].
    cbn in Sm. revert Sm. unfold Rabs. destruct (Rcase_abs _); lra. }
  eapply (mean_bounds 0 0); [lia|exact M3|left; lra|exact P1].
Qed.

Lemma score_ok : forall n g s d m, areach n g s -> nth_error (dh (mem (base s))) d = Some m ->
  forall a, dbl_lowest <= score aeqb C U (visit_d m) (dview s m) a.
Proof using All.
  intros n g s d m R Hm a. pose proof (kid_small _ _ _ _ _ R Hm a) as K.
  destruct Sane as (_ & _ & _ & _ & _ & _ & Hl & Hp & Hb & Ht). unfold score.
  assert (N : 0 <= prior_of aeqb U (visit_d m) a * bias_of aeqb U (acts C (dstate (visit_d m))) (dview s m) *
                   uterm U (dvisits (visit_d m)) (kid_visits aeqb (dview s m) a)).
  { apply Rmult_le_pos; auto. apply Rmult_le_pos.
    - unfold prior_of. destruct (uprior U) as [p|] eqn:E; [|lra]. destruct (lookup aeqb a (p (dstate (visit_d m)))) as [w|] eqn:El; [|lra].
      apply lookup_in in El; auto. destruct (Hp p eq_refl (dstate (visit_d m))) as [_ Hq]. exact (Hq _ El).
    - unfold bias_of. destruct (Req_EM_T (ubias U) (-1)).
      + destruct (auto_bias_bounds (A:=A) aeqb (acts C (dstate (visit_d m))) (dview s m)). lra.
      + destruct Hb; [contradiction|auto]. }
  assert (Q : - limit C B <= coeff U (visit_d m) * kid_avg aeqb (dview s m) a).
  { unfold coeff. revert K. unfold Rabs. destruct (Rcase_abs _); destruct (utwo U && _); lra. }
  unfold limit in Q. lra.
Qed.

Lemma covers : forall m : dnode, prior_covers C U m.
Proof using Sane.
  intros m. destruct Sane as (_ & _ & _ & _ & _ & _ & _ & Hp & _). unfold prior_covers.
  destruct (uprior U) as [p|] eqn:E; auto. apply (Hp p eq_refl (dstate m)).
Qed.

Lemma sample_works : forall (c : cnode) g, is_sink C (cstate c) = false -> In (cact c) (acts C (cstate c)) -> good_reals g ->
  exists o g', uct_sample U c g = Ok (o, g') /\ In o (succs C (cstate c) (cact c)) /\ gi g' = gi g /\ gr g' = gr g.
Proof using Uok Sane.
  intros c g Hs Ha Hg. destruct Sane as (_ & Hd & _). destruct (Hd _ _ Hs Ha) as [Hp Ht].
  destruct Uok as (_ & _ & _ & Hsu).
  assert (NE : exists m0 k0 w0, udistr U (cstate c) (cact c) = m0 ++ [(k0, w0)] /\ 0 < w0).
  { destruct (udistr U (cstate c) (cact c)) as [|p0 m0 _] eqn:E using rev_ind; [cbn in Ht; lra|].
    destruct p0 as [k0 w0]. exists m0, k0, w0. split; auto. apply (Hp (k0, w0)). rewrite E || idtac. apply in_or_app. right. now left. }
  destruct (sample_normalised _ (udistr U (cstate c) (cact c)) g) as (k & g' & E & O & Q); auto.
  { intros k1 w1 Q. left. exact (Hp _ Q). }
  exists k, g'. split; [exact E|]. split.
  - rewrite Hsu. destruct (proj1 (Q k) eq_refl) as (m1 & w & m2 & -> & _). rewrite map_app. apply in_or_app. right. now left.
  - destruct O as (O1 & O2 & _). auto.
Qed.

Lemma streams_reach : forall n g s, good_ints g -> good_reals g -> areach n g s -> gi (rg s) = gi g /\ gr (rg s) = gr g.
Proof using All.
  intros n g s Gi Gr. revert s. apply areach_ind'; auto.
  intros s s' R I F [E1 E2] T.
  assert (Sg : good_ints (rg s)) by (unfold good_ints; rewrite E1; exact Gi).
  assert (Sr : good_reals (rg s)) by (unfold good_reals; rewrite E2; exact Gr).
  pose proof I as [[Ti _] _ _ _ _].
  assert (Sel : forall cur (m : dnode) a (x : ux) cx cx1 g1 flag, nth_error (dh (mem (base s))) cur = Some m ->
     should_continue C m flag = true ->
     select alg (visit_d m) (vis_d alg (is_leaf C m) x) (dview s m) cx (rg s) = Ok (a, cx1, g1) -> gi g1 = gi g /\ gr g1 = gr g).
  { intros cur m a x cx cx1 g1 flag Hm Hc Q. cbn [select uct] in Q.
    destruct (continue_not_stop C _ _ Hc) as [NS _].
    assert (NA : acts C (dstate (visit_d m)) <> []).
    { destruct Sane as (Ha & _). apply Ha. cbn. destruct (is_sink C (dstate m)) eqn:Es; auto. exfalso. apply NS. now left. }
    destruct (uct_select_always aeqb aeqb_ok C U (proj1 Uok) (visit_d m) (dview s m) (covers _) NA) with (g := rg s) as (k & g' & E & K1 & K2 & _); auto.
    { destruct (acts C (dstate (visit_d m))) as [|b l] eqn:El; [contradiction|]. exists b. split; [now left|]. eapply score_ok; eauto. }
    rewrite E in Q. cbn [bind] in Q. injection Q as <- <- <-. split; congruence. }
  assert (Sam : forall c (m : cnode) x cx o cx1 g1, nth_error (ch (mem (base s))) c = Some m ->
     sample alg (visit_c m) x cx (rg s) = Ok (o, cx1, g1) -> gi g1 = gi g /\ gr g1 = gr g).
  { intros c m x cx o cx1 g1 Hm Q. cbn [sample uct] in Q.
    destruct (ti_cstop _ _ _ _ Ti _ _ Hm) as (K1 & _ & _ & K2).
    destruct (sample_works (visit_c m) (rg s) K1 K2 Sr) as (o' & g' & E & _ & Q1 & Q2).
    rewrite E in Q. cbn [bind] in Q. injection Q as <- <- <-. split; congruence. }
  destruct T; cbn [rg adie]; auto; try (eapply Sel; eauto; fail); eapply Sam; eauto.
Qed.

Lemma uct_no_fail : forall n g s, good_ints g -> good_reals g -> areach n g s -> afail s = None.
Proof using All.
  intros n g s Gi Gr. revert s. apply (never_fails seqb aeqb seqb_ok aeqb_ok). intros s R F Rs.
  destruct (streams_reach _ _ _ Gi Gr R) as [E1 E2].
  assert (Sg : good_ints (rg s)) by (unfold good_ints; rewrite E1; exact Gi).
  assert (Sr : good_reals (rg s)) by (unfold good_reals; rewrite E2; exact Gr).
  pose proof (areach_good seqb aeqb seqb_ok aeqb_ok C alg _ _ _ R) as I. pose proof I as [[Ti _] _ _ _ _].
  destruct Rs.
  - destruct (continue_not_stop C _ _ H3) as [NS _].
    assert (NA : acts C (dstate (visit_d n0)) <> []).
    { destruct Sane as (Ha & _). apply Ha. cbn. destruct (is_sink C (dstate n0)) eqn:Es; auto. exfalso. apply NS. now left. }
    destruct (uct_select_always aeqb aeqb_ok C U (proj1 Uok) (visit_d n0) (dview s n0) (covers _) NA) with (g := rg s) as (k & g' & E & K1 & K2 & K3); auto.
    { destruct (acts C (dstate (visit_d n0))) as [|b l] eqn:El; [contradiction|]. exists b. split; [now left|]. eapply score_ok; eauto. }
    apply (H4 k cx g'); [|exact K3]. cbn [select uct]. rewrite E. reflexivity.
  - destruct (ti_cstop _ _ _ _ Ti _ _ H0) as (K1 & _ & _ & K2).
    destruct (sample_works (visit_c n0) (rg s) K1 K2 Sr) as (o' & g' & E & K3 & Q1 & Q2).
    apply (H3 o' cx g'); [|exact K3]. cbn [sample uct]. rewrite E. reflexivity.
  - eapply H3. cbn [back_c uct]. reflexivity.
  - eapply H3. cbn [back_d uct]. reflexivity.
Qed.
End Safe.
End Run.
