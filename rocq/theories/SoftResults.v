(** Proofs of the theorems in SoftTheorems.v. *)
From Coq Require Import List ZArith Bool Reals Lia Lra Permutation.
From Verif Require Import Base BaseProofs NumOps RLemmas HelperModel HelperSpec EngineModel EngineSpec MapModel
  MapProofs EngineProofs AlgoModel UctModel MentsModel SoftSpec SoftProofs MentsSpec MentsProofs MentsPolicy.
Import ListNotations.
Open Scope R_scope.

Section Results.
Context {S A : Type}.
Variable aeqb : A -> A -> bool.
Hypothesis aeqb_ok : decides aeqb.
Variable C : @econf S A.
Variable M : @mconf S A.
Notation dnode := (@dnode S A).
Notation cnode := (@cnode S A).

(** ** Means *)
Lemma kids_counts : forall K X (f : X -> Z) (v : X -> R) (kids : list (K * X)),
  (forall k y, In (k, y) kids -> (0 <= f y)%Z) -> counts (map (fun k => (f (snd k), v (snd k))) kids).
Proof.
  intros K X f v kids H. apply Forall_forall. intros p Q. apply in_map_iff in Q. destruct Q as ([k y] & <- & Q).
  cbn. eapply H; eauto.
Qed.
Lemma C38_ments' : forall (n : cnode) x (kids : list (S * (dnode * mmem))),
  (forall o d y, In (o, (d, y)) kids -> (0 <= m_nb y)%Z) ->
  exists v, weighted_mean (map (fun k => (m_nb (snd (snd k)), m_soft (snd (snd k)))) kids) v /\
    ments_backup_c M n x kids = mkCm (c_nb x + 1) (mreward M (cstate n) (cact n) + v).
Proof.
  intros n x kids H. eexists. split.
  - apply avg_loop_mean. apply Forall_forall. intros p Q. apply in_map_iff in Q. destruct Q as ([o [d y]] & <- & Q). cbn. eauto.
  - unfold ments_backup_c. f_equal. lra.
Qed.
Lemma C38_dp' : forall (n : cnode) x (kids : list (S * vmem)),
  (forall o y, In (o, y) kids -> (0 <= v_nb y)%Z) ->
  exists v, weighted_mean (map (fun k => (v_nb (snd k), v_val (snd k))) kids) v /\
    dp_backup_c M n x kids = mkVm (v_nb x + 1) (mreward M (cstate n) (cact n) + v).
Proof.
  intros n x kids H. eexists. split.
  - apply avg_loop_mean, kids_counts, H.
  - unfold dp_backup_c. f_equal. lra.
Qed.
Lemma C38_ent' : forall x (kids : list (S * emem)) (h : emem -> R),
  (forall o y, In (o, y) kids -> (0 <= e_nb y)%Z /\ e_sub y = Some (h y)) ->
  exists v, weighted_mean (map (fun k => (e_nb (snd k), h (snd k))) kids) v /\
    ent_backup_c x kids = mkEc (ec_nb x + 1) (Some v).
Proof.
  intros x kids h H. eexists. split.
  - apply avg_loop_mean, kids_counts. intros k y Q. apply (H _ _ Q).
  - unfold ent_backup_c. f_equal.
    replace (existsb _ (filter _ kids)) with false.
    + f_equal. f_equal. apply map_ext_in. intros [o y] Q. cbn. destruct (H _ _ Q) as [_ ->]. reflexivity.
    + symmetry. apply not_true_is_false. intros Q. apply existsb_exists in Q. destruct Q as ([o y] & Q & E).
      apply filter_In in Q. destruct Q as [Q _]. cbn in E. destruct (H _ _ Q) as [_ K]. rewrite K in E. discriminate.
Qed.
Lemma C38_order' : forall (n : cnode) x (kids kids' : list (S * (dnode * mmem))),
  (forall o d y, In (o, (d, y)) kids -> (0 <= m_nb y)%Z) -> Permutation kids kids' ->
  ments_backup_c M n x kids = ments_backup_c M n x kids'.
Proof.
  intros n x kids kids' H P. unfold ments_backup_c. f_equal. f_equal. apply avg_loop_perm.
  - apply Forall_forall. intros p Q. apply in_map_iff in Q. destruct Q as ([o [d y]] & <- & Q). cbn. eauto.
  - now apply Permutation_map.
Qed.
Lemma C38_dp_order' : forall (n : cnode) x (kids kids' : list (S * vmem)),
  (forall o y, In (o, y) kids -> (0 <= v_nb y)%Z) -> Permutation kids kids' ->
  dp_backup_c M n x kids = dp_backup_c M n x kids'.
Proof.
  intros n x kids kids' H P. unfold dp_backup_c. f_equal. f_equal. apply avg_loop_perm; [apply kids_counts, H|].
  now apply Permutation_map.
Qed.

(** ** Dynamic programming *)
Lemma C39_backup' : forall (n : dnode) x (kids : list (A * vmem)),
  (forall a y, In (a, y) kids -> (0 <= v_nb y)%Z) -> (exists a y, In (a, y) kids /\ (0 < v_nb y)%Z) ->
  exists v, dp_backup_d M n x kids = Ok (mkVm (v_nb x + 1) v) /\
    let l := map (fun k => (v_nb (snd k), v_val (snd k))) kids in
    if opponent M n then is_min l v else is_max l v.
Proof.
  intros n x kids H (a & y & I & P). unfold dp_backup_d, opp_coeff. fold (opponent M n).
  set (l := map (fun p : A * vmem => (v_nb (snd p), v_val (snd p))) kids).
  assert (F : counts l) by (apply kids_counts; auto).
  assert (X : exists k w, In (k, w) l /\ (0 < k)%Z).
  { exists (v_nb y), (v_val y). split; auto. apply in_map_iff. exists (a, y). auto. }
  destruct (opponent M n).
  - destruct (dp_loop_min l F X) as (v & -> & Q). eauto.
  - destruct (dp_loop_max l F X) as (v & -> & Q). eauto.
Qed.
Lemma C39_order' : forall (n : dnode) x (kids kids' : list (A * vmem)),
  (forall a y, In (a, y) kids -> (0 <= v_nb y)%Z) -> (exists a y, In (a, y) kids /\ (0 < v_nb y)%Z) ->
  Permutation kids kids' -> dp_backup_d M n x kids = dp_backup_d M n x kids'.
Proof.
  intros n x kids kids' H X P. destruct (C39_backup' n x kids H X) as (v & E & Q).
  destruct (C39_backup' n x kids') as (v' & E' & Q').
  - intros a y I. apply (H a y). eapply Permutation_in; [symmetry|]; eauto.
  - destruct X as (a & y & I & L). exists a, y. split; auto. eapply Permutation_in; eauto.
  - rewrite E, E'. f_equal. f_equal. cbv zeta in Q, Q'.
    assert (Pm := Permutation_map (fun k : A * vmem => (v_nb (snd k), v_val (snd k))) P). destruct (opponent M n).
    + eapply is_min_unique; [|exact Q']. eapply is_min_perm; eauto.
    + eapply is_max_unique; [|exact Q']. eapply is_max_perm; eauto.
Qed.

(** ** Entropy *)
Lemma ent_fold : forall (p : A -> R) (h : A -> R) (pol : list (A * R)) (kids : list (A * ecmem)) s0,
  (forall a y, In (a, y) kids -> ec_sub y = Some (h a)) ->
  (forall a, match lookup aeqb a pol with Some w => w | None => 0 end = p a) ->
  fold_left (fun s k => nan2 (fun s e => s + match lookup aeqb (fst k) pol with Some w => w | None => 0 end * e) s (ec_sub (snd k)))
    kids (Some s0) = Some (s0 + rsum_of (fun a => p a * h a) (map fst kids)).
Proof.
  intros p h pol kids. induction kids as [|[a y] kids IH]; intros s0 H Hp; cbn [fold_left map].
  - rewrite rsum_of_nil, Rplus_0_r. reflexivity.
  - cbn [snd fst]. rewrite (H a y) by now left. cbn [nan2]. rewrite IH; auto.
    + rewrite rsum_of_cons. rewrite Hp. f_equal. lra.
    + intros b z Q. apply H. now right.
Qed.
Lemma shannon_perm : forall l k, Permutation l k -> shannon l = shannon k.
Proof. intros l k P. unfold shannon. f_equal. now apply rsum_of_perm. Qed.

Lemma C43_backup' : forall (n : dnode) x pol (kids : list (A * ecmem)) (p h : A -> R),
  (forall V (m : list (A * V)), Permutation m (morder M V m)) -> NoDup (map fst pol) ->
  (forall a w, In (a, w) pol -> p a = w) -> (forall a, ~ In a (map fst pol) -> p a = 0) ->
  (forall a y, In (a, y) kids -> ec_sub y = Some (h a)) ->
  ent_backup_d aeqb C M n x (Some pol) kids =
    mkEm (e_nb x + 1) (Some (shannon (map snd pol)))
         (Some (seen M n (shannon (map snd pol)) + rsum_of (fun a => p a * h a) (map fst kids))).
Proof using aeqb_ok.
  intros n x pol kids p h Ho ND Hp Hz Hk. unfold ent_backup_d. cbv zeta. rewrite entropy_shannon.
  rewrite (shannon_perm (map snd (morder M R pol)) (map snd pol)).
  2:{ apply Permutation_map, Permutation_sym, Ho. }
  rewrite (ent_fold p h); auto.
  - rewrite <- opp_seen. f_equal. f_equal. lra.
  - intros a. destruct (lookup aeqb a pol) as [w|] eqn:L.
    + symmetry. apply Hp. now apply lookup_in in L.
    + symmetry. apply Hz. now apply lookup_none_iff in L.
Qed.

Lemma shannon_sub_max : forall ps, ps <> [] -> (forall p, In p ps -> 0 <= p) -> rsum ps <= 1 ->
  shannon ps <= ln (INR (length ps)) + (1 - rsum ps).
Proof.
  intros ps NE P S1.
  assert (Ln : 1 <= INR (length ps)).
  { change 1 with (INR 1). apply le_INR. destruct ps; [congruence|cbn; lia]. }
  assert (Iv : 0 < / INR (length ps)) by (apply Rinv_0_lt_compat; lra).
  assert (L0 : 0 <= ln (INR (length ps))).
  { rewrite <- ln_1. destruct Ln as [Ln|<-]; [left; apply ln_increasing; lra|lra]. }
  assert (H : rsum_of (fun p => p * ln (/ INR (length ps)) - (if Req_EM_T p 0 then 0 else p * ln p)) ps <=
              rsum_of (fun p => / INR (length ps) + (-1) * p) ps).
  { apply rsum_of_le. intros p Q. pose proof (plogp p (/ INR (length ps)) Iv (P p Q)). lra. }
  rewrite rsum_of_plus, rsum_of_const, rsum_of_scale in H. unfold Rminus in H.
  rewrite rsum_of_plus in H. rewrite Rinv_r in H by lra.
  rewrite (rsum_of_ext _ (fun p => p * ln (/ INR (length ps))) (fun p => ln (/ INR (length ps)) * p)) in H by (intros; lra).
  rewrite rsum_of_scale in H. rewrite (rsum_of_ext _ (fun x => - (if Req_EM_T x 0 then 0 else x * ln x)) (fun x => (-1) * (if Req_EM_T x 0 then 0 else x * ln x))) in H by (intros; lra).
  rewrite rsum_of_scale in H. rewrite ln_Rinv in H by lra.
  assert (E : rsum_of (fun p : R => p) ps = rsum ps) by (unfold rsum_of; now rewrite map_id). rewrite E in H.
  unfold shannon. set (X := rsum_of _ ps) in *. nra.
Qed.

(** ** Pseudo values *)
Lemma mean_log_last : forall (l : list (A * R)) a w, mean_log_weight (l ++ [(a, w)]) = clamped_log w.
Proof.
  intros l a w. unfold mean_log_weight. rewrite fold_left_app. cbn [fold_left snd]. rewrite log_weight_eq. field.
Qed.
Lemma C41_offset' : forall (n : dnode) p, mprior M = Some p -> mshift M = true ->
  forall l a w, morder M R (p (dstate n)) = l ++ [(a, w)] -> m_off (ments_new_d C M n) = moffset M - clamped_log w.
Proof.
  intros n p E1 E2 l a w E3. unfold ments_new_d. cbn [m_off]. rewrite E1, E2, E3, mean_log_last. reflexivity.
Qed.
End Results.

Lemma ln_10_gt_2 : 2 < ln 10.
Proof.
  rewrite <- (ln_exp 2). apply ln_increasing; [apply exp_pos|]. replace 2 with (1 + 1) by lra. rewrite exp_plus.
  pose proof exp_le_3. pose proof (exp_pos 1). nra.
Qed.
Lemma ln_1em20 : ln (1 / IZR (10 ^ 20)) < -32.
Proof.
  assert (P : 0 < IZR (10 ^ 20)) by (apply IZR_lt; reflexivity).
  replace (1 / IZR (10 ^ 20)) with (/ IZR (10 ^ 20)) by (field; lra). rewrite ln_Rinv by auto.
  assert (E : forall n, ln (IZR (10 ^ Z.of_nat n)) = INR n * ln 10).
  { induction n as [|n IH]; [cbn; rewrite ln_1; lra|].
    replace (Z.of_nat (Datatypes.S n)) with (Z.of_nat n + 1)%Z by lia. rewrite Z.pow_add_r, mult_IZR, ln_mult by
      (lia || apply IZR_lt, Z.pow_pos_nonneg; lia).
    rewrite IH, S_INR. change (10 ^ 1)%Z with 10%Z. lra. }
  specialize (E 20%nat). change (10 ^ Z.of_nat 20)%Z with (10 ^ 20)%Z in E. rewrite E. pose proof ln_10_gt_2. cbn [INR]. lra.
Qed.
