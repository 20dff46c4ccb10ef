(** Proofs of the property theorems of UctTheorems.v. *)
From Coq Require Import List ZArith Bool Reals Lia Lra Permutation.
From Verif Require Import Base BaseProofs NumOps RLemmas HelperModel HelperSpec HelperProofs EngineModel EngineSpec
  EngineProofs EngineInv EngineCount EngineResults EngineBound MapModel MapProofs PickSpec PickProofs AlgoModel AlgoProofs
  AlgoFinish UctModel UctSpec UctProofs UctInv UctSelect UctRun.
Import ListNotations.
Open Scope R_scope.

Section Results.
Context {S A : Type}.
Variable seqb : S -> S -> bool.
Variable aeqb : A -> A -> bool.
Hypothesis seqb_ok : decides seqb.
Hypothesis aeqb_ok : decides aeqb.
Variable C : @econf S A.
Variable U : @uconf S A.
Notation alg := (uct aeqb C U).
Notation areach := (areach seqb aeqb C alg).

Lemma C18_value_is_mean' : uct_ok C U -> forall n g s, areach n g s ->
  (forall d node x, nth_error (dh (mem (base s))) d = Some node -> nth_error (xds s) d = Some x ->
     is_mean (pseudo C U) (dheur node) (returns_d d (etrace (base s))) (unb x) (uavg x)) /\
  (forall c x, nth_error (xcs s) c = Some x -> is_mean 0 0 (returns_c c (etrace (base s))) (unb x) (uavg x)).
Proof using All.
  intros Uok n g s R. destruct (means_reach seqb aeqb seqb_ok aeqb_ok C U Uok _ _ _ R) as (M1 & _ & M3 & _). split; eauto.
Qed.

Lemma mean_perm : forall w h l l' nb nb' avg avg', is_mean w h l nb avg -> is_mean w h l' nb' avg' -> Permutation l l' ->
  avg = avg' /\ nb = nb'.
Proof.
  intros w h l l' nb nb' avg avg' (E & Z0 & NZ) (E' & Z0' & NZ') P.
  assert (En : nb' = nb) by (rewrite E, E', (Permutation_length P); reflexivity). rewrite En in *. clear nb' En. split; auto.
  destruct (Z.eq_dec nb 0) as [N|N]; [rewrite (Z0 N), (Z0' N); auto|]. rewrite (NZ N), (NZ' N), (rsum_perm _ _ P). auto.
Qed.

Lemma mean_scale : forall c w h l nb avg nb' avg', is_mean w h l nb avg ->
  is_mean w (c * h) (map (Rmult c) l) nb' avg' -> avg' = c * avg.
Proof.
  intros c w h l nb avg nb' avg' (E & Z0 & NZ) (E' & Z0' & NZ'). rewrite map_length in E'.
  assert (En : nb' = nb) by congruence. rewrite En in *. clear nb' En.
  assert (Rs : rsum (map (Rmult c) l) = c * rsum l) by (clear; induction l; cbn; [|rewrite IHl]; ring).
  destruct (Z.eq_dec nb 0) as [N|N]; [rewrite (Z0 N), (Z0' N); auto|]. rewrite (NZ N), (NZ' N), Rs.
  field. now apply not_0_IZR.
Qed.

Lemma C19_first_selections_differ' : ueps U <= 0 -> uprior U = None -> (forall st, NoDup (acts C st)) ->
  forall n g s d node, areach n g s -> nth_error (dh (mem (base s))) d = Some node ->
  NoDup (firstn (length (acts C (dstate node))) (rev (selected d (etrace (base s))))) /\
  incl (selected d (etrace (base s))) (acts C (dstate node)).
Proof using All.
  intros He Hp Hn n g s d node R Hd.
  destruct (tried_reach seqb aeqb seqb_ok aeqb_ok C U He Hp Hn _ _ _ R) as (T & _).
  destruct (T _ _ Hd) as (_ & Inc & O). split; auto. set (L := selected d (etrace (base s))) in *.
  destruct O as [N|(L2 & L1 & -> & N & E)].
  - apply NoDup_rev in N. rewrite <- (firstn_skipn (length (acts C (dstate node))) (rev L)) in N.
    revert N. generalize (firstn (length (acts C (dstate node))) (rev L)). generalize (skipn (length (acts C (dstate node))) (rev L)).
    clear. intros l2 l1. induction l1 as [|x l1 IH]; intros N; constructor; inversion N; subst; auto.
    intros Q. apply H1. apply in_or_app. now left.
  - rewrite rev_app_distr, firstn_app. rewrite <- E, <- rev_length, firstn_all, rev_length, Nat.sub_diag. cbn [firstn].
    rewrite app_nil_r. now apply NoDup_rev.
Qed.

Lemma C19_untried_first' : ueps U <= 0 -> uprior U = None ->
  forall node (kids : list (A * (cnode * ux))), NoDup (acts C (dstate node)) ->
  (exists a, In a (acts C (dstate node)) /\ ~ In a (map fst kids)) ->
  picks (uct_select aeqb C U node kids) (fun a => In a (acts C (dstate node)) /\ ~ In a (map fst kids)).
Proof using aeqb_ok.
  intros He Hp node kids ND Q. eapply picks_ext; [|intros a; apply iff_refl|apply uct_untried_picks; eauto].
  intros g. symmetry. now apply no_eps.
Qed.

Lemma C20_select_is_argmax' : uct_ok C U -> ueps U <= 0 ->
  forall node (kids : list (A * (cnode * ux))), prior_covers C U node ->
  (uprior U <> None \/ forall a, In a (acts C (dstate node)) -> In a (map fst kids)) ->
  (exists a, In a (acts C (dstate node)) /\ dbl_lowest <= score aeqb C U node kids a) ->
  picks (uct_select aeqb C U node kids)
        (fun a => In a (acts C (dstate node)) /\
                  forall b, In b (acts C (dstate node)) -> score aeqb C U node kids b <= score aeqb C U node kids a).
Proof using aeqb_ok.
  intros Uok He node kids Hp Q L. eapply picks_ext; [|intros a; apply iff_refl|apply (uct_argmax_picks aeqb aeqb_ok C U (proj1 Uok)); eauto].
  intros g. rewrite no_eps by auto. symmetry. now apply uct_ucb_tried.
Qed.

Lemma C20_in_searches' : forall B, uct_ok C U -> sane C U B -> ueps U <= 0 ->
  forall n g s d node, areach n g s -> nth_error (dh (mem (base s))) d = Some node -> is_sink C (dstate node) = false ->
  (uprior U <> None \/ forall a, In a (acts C (dstate node)) -> In a (map fst (dkids node))) ->
  picks (uct_select aeqb C U (visit_d node) (dview s node))
        (fun a => In a (acts C (dstate node)) /\
                  forall b, In b (acts C (dstate node)) ->
                    score aeqb C U (visit_d node) (dview s node) b <= score aeqb C U (visit_d node) (dview s node) a).
Proof using All.
  intros B Uok Sane He n g s d node R Hd Ns Q.
  apply (C20_select_is_argmax' Uok He (visit_d node) (dview s node)).
  - eapply covers; eauto.
  - destruct Q as [Q|Q]; auto. right. intros a Ia. cbn in Ia.
    pose proof (dview_keys seqb aeqb aeqb_ok C alg s d node (areach_good seqb aeqb seqb_ok aeqb_ok C alg _ _ _ R) Hd) as K.
    apply Q in Ia. rewrite <- K in Ia. exact Ia.
  - cbn [visit_d dstate]. pose proof (proj1 Sane _ Ns) as Ha.
    destruct (acts C (dstate node)) as [|b l]; [contradiction|]. exists b. split; [now left|].
    apply (score_ok seqb aeqb seqb_ok aeqb_ok C U Uok B Sane _ _ _ _ _ R Hd).
Qed.

Lemma C20_epsilon' : 0 < ueps U -> forall node (kids : list (A * (cnode * ux))) g,
  let g1 := mkRng (gi g) (gr g) (ni g) (Datatypes.S (nr g)) in
  (NoDup (acts C (dstate node)) -> acts C (dstate node) <> [] -> good_ints g -> gr g (nr g) < ueps U ->
     exists a g2, uct_select aeqb C U node kids g = Ok (a, g2) /\
       nth_error (acts C (dstate node)) (Z.to_nat (gi g (ni g) mod Z.of_nat (length (acts C (dstate node))))) = Some a) /\
  (ueps U <= gr g (nr g) -> uct_select aeqb C U node kids g =
     uct_select aeqb C (mkU (ubias U) (upseudo U) (umost_visited U) 0 (uprior U) (utwo U) (uterm U) (udistr U) (uorder U))
       node kids g1).
Proof using aeqb_ok.
  intros He node kids g g1. destruct (uct_select_explore aeqb C U node kids g He) as [E1 E2]. fold g1 in E1, E2. split.
  - intros ND NE Gi L. rewrite (E1 L). unfold uct_random.
    assert (Lz : (0 < Z.of_nat (length (acts C (dstate node))))%Z) by (destruct (acts C (dstate node)); [contradiction|cbn; lia]).
    destruct (rand_int_range R 0 (Z.of_nat (length (acts C (dstate node)))) g1 Lz Gi) as (r & g2 & Er & Br & Eq & _).
    rewrite Er. cbn [bind]. destruct (nth_error (acts C (dstate node)) (Z.to_nat r)) as [a|] eqn:Ea.
    + rewrite (vec_at_checked_some _ _ r a) by (auto; lia). cbn [bind]. exists a, g2. split; auto.
      rewrite <- Ea. f_equal. f_equal. cbn in Eq. rewrite Eq, Z.sub_0_r. reflexivity.
    + apply nth_error_None in Ea. lia.
  - intros L. rewrite (E2 L). unfold uct_select at 1. cbn [ueps].
    rewrite (proj2 (Rltb_false 0 0)) by lra. reflexivity.
Qed.

Lemma C21_uct_recommendation' : forall B, uct_ok C U -> sane C U B ->
  forall n g s d node, areach n g s -> nth_error (dh (mem (base s))) d = Some node -> is_sink C (dstate node) = false ->
  NoDup (acts C (dstate node)) ->
  picks (uct_recommend aeqb C U node (dview s node))
        (fun a => In a (acts C (dstate node)) /\
           (dkids node <> [] -> In a (map fst (dkids node)) /\
              forall b, In b (map fst (dkids node)) ->
                if umost_visited U then (kid_visits aeqb (dview s node) b <= kid_visits aeqb (dview s node) a)%Z
                else coeff U node * kid_avg aeqb (dview s node) b <= coeff U node * kid_avg aeqb (dview s node) a)).
Proof using All.
  intros B Uok Sane n g s d node R Hd Ns ND.
  pose proof (areach_good seqb aeqb seqb_ok aeqb_ok C alg _ _ _ R) as I.
  pose proof (dview_keys seqb aeqb aeqb_ok C alg s d node I Hd) as K.
  pose proof I as [[Ti _] _ _ _ _].
  assert (KA : forall a, In a (map fst (dkids node)) -> In a (acts C (dstate node))).
  { intros a Q. apply in_map_iff in Q. destruct Q as ([a' c] & <- & Q).
    pose proof (wf_dkeys _ _ _ _ (ti_wf _ _ _ _ Ti) _ _ Hd) as NDk.
    assert (Hl : lookup aeqb a' (dkids node) = Some c) by (apply in_lookup; auto).
    destruct (wf_d _ _ _ _ (ti_wf _ _ _ _ Ti) _ _ _ _ Hd Hl) as (x & Hx & _ & _ & _ & _ & Q2 & _). exact Q2. }
  assert (NA : acts C (dstate node) <> []) by (apply Sane; auto).
  set (kids := dview s node : list (A * (cnode * ux))) in *.
  assert (Kk : forall a, In a (map fst kids) <-> In a (map fst (dkids node))) by (intros a; rewrite <- K; reflexivity).
  destruct (dkids node) as [|[a0 c0] rest] eqn:Ek.
  - eapply picks_ext; [| |apply (uct_random_picks C node ND NA)].
    + intros g0. symmetry. apply uct_nokids; auto. intros a _ Q. apply Kk in Q. destruct Q.
    + intros a. cbv beta. split; [|tauto]. intros Q. split; auto. intros X. now elim X.
  - rewrite <- Ek in *. assert (NE : dkids node <> []) by (rewrite Ek; discriminate).
    assert (I0 : In a0 (map fst (dkids node))) by (rewrite Ek; now left).
    unfold uct_recommend. destruct (umost_visited U) eqn:Em.
    + eapply picks_ext; [reflexivity| |apply (uct_visited_picks aeqb aeqb_ok C U (proj1 Uok) node kids)].
      * intros a. cbv beta. split.
        -- intros (Q1 & Q2 & Q3). split; auto. intros _. split; [now apply Kk|]. intros b Ib. apply Q3; auto. now apply Kk.
        -- intros (Q1 & Q2). destruct (Q2 NE) as [Q3 Q4]. split; auto. split; [now apply Kk|]. intros b _ Ib. apply Q4. now apply Kk.
      * exists a0. split; auto. split; [now apply Kk|].
        assert (0 <= kid_visits aeqb kids a0)%Z.
        { unfold kid_visits. destruct (lookup aeqb a0 kids) as [[c x]|] eqn:El; [|lia]. apply lookup_in in El; auto.
          assert (Q : exists k, nth_error (ch (mem (base s))) k = Some c).
          { pose proof (dview_ok seqb aeqb aeqb_ok C alg s d node I Hd) as F. unfold kids in El.
            revert El. clear - F. induction F as [|p q l l' H F IH]; intros E; [destruct E|].
            destruct E as [->|E]; eauto. exists (snd p). apply H. }
          destruct Q as (k & Hk).
          destruct (C10_always' seqb aeqb seqb_ok aeqb_ok C n (base s) (areach_ereach seqb aeqb C alg _ _ _ R)) as [_ V].
          destruct (V _ _ Hk) as [-> _]. unfold count. clear. induction (etrace (base s)) as [|e tr IH]; cbn [countb]; [lia|]. destruct (visits_c k (snd e)); lia. }
        unfold int_lowest. lia.
    + eapply picks_ext; [reflexivity| |apply (uct_best_picks aeqb aeqb_ok C U (proj1 Uok) node kids)].
      * intros a. cbv beta. split.
        -- intros (Q1 & Q2 & Q3). split; auto. intros _. split; [now apply Kk|]. intros b Ib. apply Q3; auto. now apply Kk.
        -- intros (Q1 & Q2). destruct (Q2 NE) as [Q3 Q4]. split; auto. split; [now apply Kk|]. intros b _ Ib. apply Q4. now apply Kk.
      * exists a0. split; auto. split; [now apply Kk|].
        pose proof (kid_small seqb aeqb seqb_ok aeqb_ok C U Uok B Sane _ _ _ _ _ R Hd a0) as Sm.
        destruct Sane as (_ & _ & _ & _ & _ & _ & Hl & _). unfold limit in Sm. fold kids in Sm. unfold coeff.
        revert Sm. unfold Rabs. destruct (Rcase_abs _); destruct (utwo U && _); lra.
Qed.

Lemma C22_scale_invariant' : forall c node (kids kids' : list (A * (cnode * ux))) a0, 0 < c -> ubias U = -1 ->
  In a0 (acts C (dstate node)) ->
  (forall x, kid_avg aeqb kids' x = c * kid_avg aeqb kids x) ->
  (forall x, kid_visits aeqb kids' x = kid_visits aeqb kids x) ->
  1/1000 <= Rabs (kid_avg aeqb kids a0) -> 1/1000 <= c * Rabs (kid_avg aeqb kids a0) ->
  forall a, (forall b, In b (acts C (dstate node)) -> score aeqb C U node kids' b <= score aeqb C U node kids' a) <->
            (forall b, In b (acts C (dstate node)) -> score aeqb C U node kids b <= score aeqb C U node kids a).
Proof using All.
  intros c node kids kids' a0 Hc Hb Ia Hk Hv L1 L2 a.
  pose proof (score_scale aeqb C U c node kids kids' a0 Hc Hb Ia Hk Hv L1 L2) as E.
  split; intros H b Ib; specialize (H b Ib); rewrite !E in *.
  - apply Rmult_le_reg_l in H; auto.
  - apply Rmult_le_compat_l; lra.
Qed.

Lemma C63_trials_finish' : forall B, uct_ok C U -> sane C U B -> forall n g, good_ints g -> good_reals g ->
  forall s t, (t < n)%nat -> areach n g s ->
  exists k s', (Z.of_nat k <= 4 * max_depth C + 3)%Z /\ arun seqb aeqb C alg (repeat (ARun t) k) s = Some s' /\
    nth_error (ths (base s')) t = Some TIdle /\
    (forall t', t' <> t -> nth_error (ths (base s')) t' = nth_error (ths (base s)) t') /\
    count is_start (etrace (base s')) = count is_start (etrace (base s)).
Proof using All.
  intros B Uok Sane n g Gi Gr s t Ht R. apply (one_look_trials_finish S A seqb aeqb seqb_ok aeqb_ok C alg n g); auto.
  - intros cx. split; reflexivity.
  - apply Sane.
  - intros s0 R0. eapply uct_no_fail; eauto.
Qed.
End Results.
