(** Proofs about action selection and recommendation of UCT and PUCT. *)
From Coq Require Import List ZArith Bool Reals Lia Lra Permutation.
From Verif Require Import Base BaseProofs NumOps RLemmas HelperModel HelperSpec HelperProofs EngineModel EngineSpec
  EngineProofs MapModel MapProofs PickSpec PickProofs AlgoModel UctModel UctSpec UctProofs.
Import ListNotations.
Open Scope R_scope.

Section Select.
Context {S A : Type}.
Variable aeqb : A -> A -> bool.
Hypothesis aeqb_ok : decides aeqb.
Variable C : @econf S A.
Variable U : @uconf S A.
Hypothesis Uord : forall V (m : list (A * V)), Permutation m (uorder U V m).
Notation dnode := (@dnode S A).
Notation cnode := (@cnode S A).

Lemma fold_rmax : forall l x b, fold_right Rmax (Rmax x b) l = Rmax x (fold_right Rmax b l).
Proof.
  induction l as [|y l IH]; intros x b; cbn; auto. rewrite IH. rewrite !Rmax_assoc. f_equal. apply Rmax_comm.
Qed.

Lemma uct_bias_eq : forall l (kids : list (A * (cnode * ux))), uct_bias aeqb U l kids = bias_of aeqb U l kids.
Proof.
  intros l kids. unfold uct_bias, bias_of. destruct (Req_EM_T (ubias U) (-1)); auto. unfold auto_bias.
  assert (H : forall b, 0 <= b -> fold_left (fun bias a =>
                 match lookup aeqb a kids with
                 | None => bias
                 | Some (_, x) => if Rltb bias (Rabs (uavg x)) then Rabs (uavg x) else bias
                 end) l b = fold_right Rmax b (map (fun a => Rabs (kid_avg aeqb kids a)) l)).
  { induction l as [|a l IH]; intros b Hb; cbn [fold_left map fold_right]; auto.
    assert (E : match lookup aeqb a kids with
                 | None => b
                 | Some (_, x) => if Rltb b (Rabs (uavg x)) then Rabs (uavg x) else b
                 end = Rmax (Rabs (kid_avg aeqb kids a)) b).
    { unfold kid_avg. destruct (lookup aeqb a kids) as [[c x]|].
      - destruct (Rltb b (Rabs (uavg x))) eqn:E.
        + apply Rltb_true in E. rewrite Rmax_left; lra.
        + apply Rltb_false in E. rewrite Rmax_right; lra.
      - rewrite Rabs_R0, Rmax_right; lra. }
    rewrite E, IH.
    - apply fold_rmax.
    - eapply Rle_trans; [exact Hb|apply Rmax_r]. }
  apply H. lra.
Qed.

Lemma uct_value_eq : forall n b (kids : list (A * (cnode * ux))) a, prior_covers C U n -> In a (acts C (dstate n)) ->
  uct_value aeqb U n b kids a =
    Ok (coeff U n * kid_avg aeqb kids a + prior_of aeqb U n a * b * uterm U (dvisits n) (kid_visits aeqb kids a)).
Proof.
  intros n b kids a Hp Ia. unfold uct_value, prior_covers, prior_of, kid_avg, kid_visits, uct_opp, coeff, mat in *.
  destruct (uprior U) as [p|].
  - specialize (Hp a Ia). destruct (lookup aeqb a (p (dstate n))) as [w|] eqn:E.
    + cbn [bind]. f_equal. destruct (lookup aeqb a kids) as [[c x]|]; lra.
    + apply (lookup_none_iff aeqb aeqb_ok) in E. contradiction.
  - cbn [bind]. f_equal. destruct (lookup aeqb a kids) as [[c x]|]; lra.
Qed.

Lemma uct_fill_build : forall n b (kids : list (A * (cnode * ux))) f l m,
  (forall a, In a l -> uct_value aeqb U n b kids a = Ok (f a)) ->
  uct_fill aeqb U n b kids l m = Ok (mbuild aeqb (fun a => Some (f a)) l m).
Proof.
  intros n b kids f. induction l as [|a l IH]; intros m H; cbn [uct_fill mbuild fold_left]; auto.
  rewrite H by now left. cbn [bind]. apply IH. intros; apply H; now right.
Qed.

Lemma uct_argmax_picks : forall n (kids : list (A * (cnode * ux))), prior_covers C U n ->
  (exists a, In a (acts C (dstate n)) /\ dbl_lowest <= score aeqb C U n kids a) ->
  picks (uct_argmax aeqb C U n kids)
        (fun a => In a (acts C (dstate n)) /\ forall b, In b (acts C (dstate n)) ->
                    score aeqb C U n kids b <= score aeqb C U n kids a).
Proof.
  intros n kids Hp (a0 & Ia0 & L0).
  assert (F : uct_fill aeqb U n (uct_bias aeqb U (acts C (dstate n)) kids) kids (acts C (dstate n)) [] =
              Ok (mbuild aeqb (fun a => Some (score aeqb C U n kids a)) (acts C (dstate n)) [])).
  { apply uct_fill_build. intros a Ia. rewrite uct_value_eq by auto. rewrite uct_bias_eq. reflexivity. }
  eapply picks_ext; [| |apply (pick_built A R R aeqb Rltb dbl_lowest (fun a => Some (score aeqb C U n kids a))
      (acts C (dstate n)) (uorder U R) aeqb_ok strict_total_R (Uord R))].
  - intros g. unfold uct_argmax. rewrite F. reflexivity.
  - intros a. cbv beta. split.
    + intros (Ia & v & [= <-] & H). split; auto. intros b Ib. apply Rltb_false. eapply H; eauto.
    + intros (Ia & H). split; auto. exists (score aeqb C U n kids a). split; auto. intros b v Ib [= <-]. apply Rltb_false. auto.
  - exists a0, (score aeqb C U n kids a0). repeat split; auto. now apply Rltb_false.
Qed.

Lemma untried_iff : forall (kids : list (A * (cnode * ux))) l a,
  In a (untried aeqb kids l) <-> In a l /\ ~ In a (map fst kids).
Proof.
  intros kids l a. unfold untried. rewrite filter_In, negb_true_iff, <- not_true_iff_false, has_key_true by auto. tauto.
Qed.

Lemma no_eps : forall n (kids : list (A * (cnode * ux))) g, ueps U <= 0 ->
  uct_select aeqb C U n kids g = uct_select_ucb aeqb C U n kids g.
Proof.
  intros n kids g H. unfold uct_select. destruct (Rltb 0 (ueps U)) eqn:E; auto. apply Rltb_true in E. lra.
Qed.

Lemma uct_untried_picks : forall n (kids : list (A * (cnode * ux))), uprior U = None -> NoDup (acts C (dstate n)) ->
  (exists a, In a (acts C (dstate n)) /\ ~ In a (map fst kids)) ->
  picks (uct_select_ucb aeqb C U n kids) (fun a => In a (acts C (dstate n)) /\ ~ In a (map fst kids)).
Proof.
  intros n kids Hp ND (a0 & Q). apply untried_iff in Q. unfold uct_select_ucb. rewrite Hp.
  destruct (untried aeqb kids (acts C (dstate n))) as [|a1 l] eqn:E; [destruct Q|].
  eapply picks_ext; [reflexivity| |apply (pick_index A R (a1 :: l) vec_at)].
  - intros a. cbv beta. rewrite <- E. apply untried_iff.
  - intros. now apply vec_at_some.
  - rewrite <- E. unfold untried. now apply NoDup_filter.
  - discriminate.
Qed.

Lemma uct_ucb_tried : forall n (kids : list (A * (cnode * ux))) g,
  uprior U <> None \/ (forall a, In a (acts C (dstate n)) -> In a (map fst kids)) ->
  uct_select_ucb aeqb C U n kids g = uct_argmax aeqb C U n kids g.
Proof.
  intros n kids g H. unfold uct_select_ucb. destruct (uprior U); auto.
  destruct (untried aeqb kids (acts C (dstate n))) as [|a l] eqn:E; auto. exfalso.
  assert (Q : In a (untried aeqb kids (acts C (dstate n)))) by (rewrite E; now left). apply untried_iff in Q.
  destruct H as [H|H]; [congruence|]. apply Q. apply H. tauto.
Qed.

Lemma uct_random_picks : forall n, NoDup (acts C (dstate n)) -> acts C (dstate n) <> [] ->
  picks (uct_random C n) (fun a => In a (acts C (dstate n))).
Proof.
  intros n ND NE. apply (pick_index A R (acts C (dstate n)) vec_at_checked); auto.
  intros. now apply vec_at_checked_some.
Qed.

(** Epsilon exploration. *)
Lemma uct_select_explore : forall n (kids : list (A * (cnode * ux))) g, 0 < ueps U ->
  let g1 := mkRng (gi g) (gr g) (ni g) (Datatypes.S (nr g)) in
  (gr g (nr g) < ueps U -> uct_select aeqb C U n kids g = uct_random C n g1) /\
  (ueps U <= gr g (nr g) -> uct_select aeqb C U n kids g = uct_select_ucb aeqb C U n kids g1).
Proof.
  intros n kids g H. cbv zeta. unfold uct_select. rewrite (proj2 (Rltb_true _ _) H). cbn [get_rand_uniform].
  split; intros L.
  - now rewrite (proj2 (Rltb_true _ _) L).
  - now rewrite (proj2 (Rltb_false _ _) L).
Qed.

(** ** Recommendations *)
Lemma uct_best_picks : forall n (kids : list (A * (cnode * ux))),
  (exists a, In a (acts C (dstate n)) /\ In a (map fst kids) /\ dbl_lowest <= coeff U n * kid_avg aeqb kids a) ->
  picks (uct_best_empirical aeqb C U n kids)
        (fun a => In a (acts C (dstate n)) /\ In a (map fst kids) /\
           forall b, In b (acts C (dstate n)) -> In b (map fst kids) ->
             coeff U n * kid_avg aeqb kids b <= coeff U n * kid_avg aeqb kids a).
Proof.
  intros n kids (a0 & Ia0 & Ik0 & L0). unfold uct_best_empirical.
  set (f := fun a => match lookup aeqb a kids with Some (_, x) => Some (uct_opp U n * uavg x) | None => None end).
  assert (F : forall a v, f a = Some v <-> In a (map fst kids) /\ v = coeff U n * kid_avg aeqb kids a).
  { intros a v. unfold f, kid_avg, coeff, uct_opp. destruct (lookup aeqb a kids) as [[c x]|] eqn:E.
    - assert (In a (map fst kids)) by (apply lookup_in in E; auto; apply (in_map fst) in E; exact E).
      split; [intros [= <-]; auto|intros [_ ->]; auto].
    - apply (lookup_none_iff aeqb aeqb_ok) in E. split; [discriminate|tauto]. }
  destruct (mbuild aeqb f (acts C (dstate n)) []) as [|p m] eqn:E.
  - exfalso. rewrite mbuild_empty in E by auto. specialize (E a0 Ia0).
    assert (f a0 = Some (coeff U n * kid_avg aeqb kids a0)) by (apply F; auto). congruence.
  - rewrite <- E. eapply picks_ext; [reflexivity| |apply (pick_built A R R aeqb Rltb dbl_lowest f
      (acts C (dstate n)) (uorder U R) aeqb_ok strict_total_R (Uord R))].
    + intros a. cbv beta. split.
      * intros (Ia & v & Hv & H). apply F in Hv. destruct Hv as [K ->]. split; auto. split; auto.
        intros b Ib Kb. apply Rltb_false. apply (H b); auto. now apply F.
      * intros (Ia & K & H). split; auto. exists (coeff U n * kid_avg aeqb kids a). split; [now apply F|].
        intros b v Ib Hv. apply F in Hv. destruct Hv as [Kb ->]. apply Rltb_false. auto.
    + exists a0, (coeff U n * kid_avg aeqb kids a0). repeat split; auto; [now apply F|now apply Rltb_false].
Qed.

Lemma uct_visited_picks : forall n (kids : list (A * (cnode * ux))),
  (exists a, In a (acts C (dstate n)) /\ In a (map fst kids) /\ (int_lowest <= kid_visits aeqb kids a)%Z) ->
  picks (uct_most_visited aeqb C U n kids)
        (fun a => In a (acts C (dstate n)) /\ In a (map fst kids) /\
           forall b, In b (acts C (dstate n)) -> In b (map fst kids) ->
             (kid_visits aeqb kids b <= kid_visits aeqb kids a)%Z).
Proof.
  intros n kids (a0 & Ia0 & Ik0 & L0). unfold uct_most_visited.
  set (f := fun a => match lookup aeqb a kids with Some (c, _) => Some (cvisits c) | None => None end).
  assert (F : forall a v, f a = Some v <-> In a (map fst kids) /\ v = kid_visits aeqb kids a).
  { intros a v. unfold f, kid_visits. destruct (lookup aeqb a kids) as [[c x]|] eqn:E.
    - assert (In a (map fst kids)) by (apply lookup_in in E; auto; apply (in_map fst) in E; exact E).
      split; [intros [= <-]; auto|intros [_ ->]; auto].
    - apply (lookup_none_iff aeqb aeqb_ok) in E. split; [discriminate|tauto]. }
  destruct (mbuild aeqb f (acts C (dstate n)) []) as [|p m] eqn:E.
  - exfalso. rewrite mbuild_empty in E by auto. specialize (E a0 Ia0).
    assert (f a0 = Some (kid_visits aeqb kids a0)) by (apply F; auto). congruence.
  - rewrite <- E. eapply picks_ext; [reflexivity| |apply (pick_built A Z R aeqb Z.ltb int_lowest f
      (acts C (dstate n)) (uorder U Z) aeqb_ok strict_total_Z (Uord Z))].
    + intros a. cbv beta. split.
      * intros (Ia & v & Hv & H). apply F in Hv. destruct Hv as [K ->]. split; auto. split; auto.
        intros b Ib Kb. apply Z.ltb_ge. apply (H b); auto. now apply F.
      * intros (Ia & K & H). split; auto. exists (kid_visits aeqb kids a). split; [now apply F|].
        intros b v Ib Hv. apply F in Hv. destruct Hv as [Kb ->]. apply Z.ltb_ge. auto.
    + exists a0, (kid_visits aeqb kids a0). repeat split; auto; [now apply F|now apply Z.ltb_ge].
Qed.

Lemma uct_nokids : forall n (kids : list (A * (cnode * ux))) g,
  (forall a, In a (acts C (dstate n)) -> ~ In a (map fst kids)) ->
  uct_recommend aeqb C U n kids g = uct_random C n g.
Proof.
  intros n kids g H. unfold uct_recommend, uct_most_visited, uct_best_empirical.
  assert (N : forall a, In a (acts C (dstate n)) -> lookup aeqb a kids = None) by (intros; apply lookup_none_iff; auto).
  rewrite !(proj2 (mbuild_empty aeqb aeqb_ok _ _ _)).
  - now destruct (umost_visited U).
  - intros a Ia. now rewrite N.
  - intros a Ia. now rewrite N.
Qed.

(** ** Scaling *)
Lemma fold_rmax_ge : forall l b, b <= fold_right Rmax b l.
Proof. induction l as [|x l IH]; intros b; cbn; [lra|]. eapply Rle_trans; [apply IH|apply Rmax_r]. Qed.
Lemma fold_rmax_in : forall l b x, In x l -> x <= fold_right Rmax b l.
Proof.
  induction l as [|y l IH]; intros b x H; cbn; [destruct H|]. destruct H as [->|H]; [apply Rmax_l|].
  eapply Rle_trans; [now apply IH|apply Rmax_r].
Qed.
Lemma fold_rmax_lub : forall l b m, b <= m -> (forall x, In x l -> x <= m) -> fold_right Rmax b l <= m.
Proof.
  induction l as [|y l IH]; intros b m H K; cbn; auto. apply Rmax_lub; [apply K; now left|].
  apply IH; auto. intros; apply K; now right.
Qed.
Lemma auto_bias_bounds : forall l (kids : list (A * (cnode * ux))), 1/1000 <= auto_bias aeqb l kids /\
  forall a, In a l -> Rabs (kid_avg aeqb kids a) <= auto_bias aeqb l kids.
Proof.
  intros l kids. unfold auto_bias. split; [apply fold_rmax_ge|]. intros a Ia. apply fold_rmax_in.
  now apply (in_map (fun a => Rabs (kid_avg aeqb kids a))).
Qed.
Lemma auto_bias_least : forall l (kids : list (A * (cnode * ux))) m, 1/1000 <= m ->
  (forall a, In a l -> Rabs (kid_avg aeqb kids a) <= m) -> auto_bias aeqb l kids <= m.
Proof.
  intros l kids m H K. unfold auto_bias. apply fold_rmax_lub; auto. intros x Q. apply in_map_iff in Q.
  destruct Q as (a & <- & Ia). auto.
Qed.
Lemma auto_bias_scale : forall c l (kids kids' : list (A * (cnode * ux))) a, 0 < c -> In a l ->
  (forall x, kid_avg aeqb kids' x = c * kid_avg aeqb kids x) ->
  1/1000 <= Rabs (kid_avg aeqb kids a) -> 1/1000 <= c * Rabs (kid_avg aeqb kids a) ->
  auto_bias aeqb l kids' = c * auto_bias aeqb l kids.
Proof.
  intros c l kids kids' a Hc Ia Hk L1 L2. destruct (auto_bias_bounds l kids) as [B1 B2].
  assert (Sc : forall x, Rabs (kid_avg aeqb kids' x) = c * Rabs (kid_avg aeqb kids x)).
  { intros x. rewrite Hk, Rabs_mult, (Rabs_right c) by lra. reflexivity. }
  destruct (auto_bias_bounds l kids') as [B3 B4].
  apply Rle_antisym.
  - apply auto_bias_least.
    + specialize (B2 a Ia). apply Rle_trans with (c * Rabs (kid_avg aeqb kids a)); auto.
      apply Rmult_le_compat_l; lra.
    + intros x Ix. rewrite Sc. apply Rmult_le_compat_l; [lra|auto].
  - apply Rmult_le_reg_l with (/ c); [now apply Rinv_0_lt_compat|].
    rewrite <- Rmult_assoc, Rinv_l, Rmult_1_l by lra. apply auto_bias_least.
    + apply Rmult_le_reg_l with c; auto. rewrite <- Rmult_assoc, Rinv_r, Rmult_1_l by lra.
      apply Rle_trans with (c * Rabs (kid_avg aeqb kids a)).
      * apply Rmult_le_compat_l; lra.
      * rewrite <- Sc. auto.
    + intros x Ix. apply Rmult_le_reg_l with c; auto. rewrite <- Rmult_assoc, Rinv_r, Rmult_1_l by lra.
      rewrite <- Sc. auto.
Qed.
Lemma score_scale : forall c n kids kids' a0, 0 < c -> ubias U = -1 -> In a0 (acts C (dstate n)) ->
  (forall x, kid_avg aeqb kids' x = c * kid_avg aeqb kids x) ->
  (forall x, kid_visits aeqb kids' x = kid_visits aeqb kids x) ->
  1/1000 <= Rabs (kid_avg aeqb kids a0) -> 1/1000 <= c * Rabs (kid_avg aeqb kids a0) ->
  forall a, score aeqb C U n kids' a = c * score aeqb C U n kids a.
Proof.
  intros c n kids kids' a0 Hc Hb Ia Hk Hv L1 L2 a. unfold score. rewrite Hk, Hv. unfold bias_of.
  destruct (Req_EM_T (ubias U) (-1)); [|contradiction]. rewrite (auto_bias_scale c _ kids kids' a0) by auto. ring.
Qed.

(** ** Success of selection *)
Lemma uct_random_always : forall n, acts C (dstate n) <> [] -> always (uct_random C n) (fun a => In a (acts C (dstate n))).
Proof.
  intros n NE g Hg. unfold uct_random.
  assert (L : (0 < Z.of_nat (length (acts C (dstate n))))%Z) by (destruct (acts C (dstate n)); [contradiction|cbn; lia]).
  destruct (rand_int_range R 0 (Z.of_nat (length (acts C (dstate n)))) g L Hg) as (r & g' & E & B & Er & (E1 & E2 & _)).
  rewrite E. cbn [bind]. destruct (nth_error (acts C (dstate n)) (Z.to_nat r)) as [a|] eqn:Ea.
  - rewrite (vec_at_checked_some _ _ r a) by (auto; lia). cbn [bind]. exists a, g'. repeat split; auto. eapply nth_error_In; eauto.
  - apply nth_error_None in Ea. lia.
Qed.
Lemma uct_select_always : forall n kids, prior_covers C U n -> acts C (dstate n) <> [] ->
  (exists a, In a (acts C (dstate n)) /\ dbl_lowest <= score aeqb C U n kids a) ->
  always (uct_select aeqb C U n kids) (fun a => In a (acts C (dstate n))).
Proof.
  intros n kids Hp NE L.
  assert (B : always (uct_select_ucb aeqb C U n kids) (fun a => In a (acts C (dstate n)))).
  { assert (B' : always (uct_argmax aeqb C U n kids) (fun a => In a (acts C (dstate n)))).
    { intros g Hg. destruct (picks_always _ _ _ _ (uct_argmax_picks n kids Hp L) g Hg) as (a & g' & E & E1 & E2 & Q & _).
      exists a, g'. auto. }
    unfold uct_select_ucb. destruct (uprior U); auto.
    destruct (untried aeqb kids (acts C (dstate n))) as [|a1 l] eqn:E; auto.
    intros g Hg. assert (Lz : (0 < Z.of_nat (length (a1 :: l)))%Z) by (cbn; lia).
    destruct (rand_int_range R 0 (Z.of_nat (length (a1 :: l))) g Lz Hg) as (r & g' & Er & Br & _ & (E1 & E2 & _)).
    rewrite Er. cbn [bind]. destruct (nth_error (a1 :: l) (Z.to_nat r)) as [a|] eqn:Ea.
    - rewrite (vec_at_some _ _ r a) by (auto; lia). cbn [bind]. exists a, g'. repeat split; auto.
      apply nth_error_In in Ea. rewrite <- E in Ea. apply untried_iff in Ea. tauto.
    - apply nth_error_None in Ea. lia. }
  intros g Hg. unfold uct_select. destruct (Rltb 0 (ueps U)); auto. cbn [get_rand_uniform].
  destruct (Rltb (gr g (nr g)) (ueps U)).
  - exact (uct_random_always n NE (mkRng (gi g) (gr g) (ni g) (Datatypes.S (nr g))) Hg).
  - exact (B (mkRng (gi g) (gr g) (ni g) (Datatypes.S (nr g))) Hg).
Qed.
End Select.
