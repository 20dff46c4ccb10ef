(** Proofs about the helper templates. *)
From Coq Require Import List ZArith Lia Bool Reals Lra.
From Verif Require Import Base NumOps HelperModel HelperSpec RLemmas.
Import ListNotations.

(** ** Max key *)
Section MaxKey.
Context {T V : Type}.
Variable ltb : V -> V -> bool.
Variable lowest : V.
Hypothesis ST : strict_total ltb.

Definition at_least (b : V) (m : list (T * V)) : list T :=
  map fst (filter (fun kv => negb (ltb (snd kv) b)) m).

Lemma best_keys_spec : forall m best keys,
  exists b, (forall k v, In (k, v) m -> ltb b v = false) /\ ltb b best = false /\
    ((b = best /\ best_keys_loop ltb m best keys = keys ++ at_least best m) \/
     (ltb best b = true /\ (exists k, In (k, b) m) /\
      best_keys_loop ltb m best keys = at_least b m)).
Proof.
  destruct ST as [Irr Tr Tot].
  induction m as [|[k v] m IH]; intros best keys; cbn [best_keys_loop].
  - exists best. split; [intros k v []|]. split; [apply Irr|]. left. split; auto. cbn. now rewrite app_nil_r.
  - destruct (ltb v best) eqn:E1.
    + destruct (IH best keys) as (b & A & B & C). exists b.
      split; [|split; auto].
      * intros k' v' [[= <- <-]|Q]; [|eauto].
        destruct (ltb b v) eqn:E; auto. rewrite (Tr _ _ _ E E1) in B. discriminate.
      * destruct C as [[-> C]|(C1 & (k' & C2) & C3)].
        { left. split; auto. rewrite C. unfold at_least. cbn. now rewrite E1. }
        right. split; auto. split; [exists k'; now right|]. rewrite C3. unfold at_least. cbn.
        now rewrite (Tr _ _ _ E1 C1).
    + destruct (ltb best v) eqn:E2.
      * destruct (IH v [k]) as (b & A & B & C). exists b.
        assert (Hb : ltb best b = true).
        { destruct C as [[-> _]|(C1 & _)]; auto. eapply Tr; eauto. }
        split; [|split].
        { intros k' v' [[= <- <-]|Q]; eauto. }
        { destruct (ltb b best) eqn:E; auto. specialize (Tr _ _ _ Hb E). rewrite Irr in Tr. discriminate. }
        right. split; auto. destruct C as [[-> C]|(C1 & (k' & C2) & C3)].
        { split; [exists k; now left|]. rewrite C. unfold at_least. cbn. now rewrite Irr. }
        split; [exists k'; now right|]. rewrite C3. unfold at_least. cbn. now rewrite C1.
      * assert (v = best) by (apply Tot; auto). subst v.
        destruct (IH best (keys ++ [k])) as (b & A & B & C). exists b. split; [|split; auto].
        { intros k' v' [[= <- <-]|Q]; eauto. }
        destruct C as [[-> C]|(C1 & (k' & C2) & C3)].
        { left. split; auto. rewrite C. unfold at_least. cbn. rewrite E1. cbn. now rewrite <- app_assoc. }
        right. split; auto. split; [exists k'; now right|]. rewrite C3. unfold at_least. cbn.
        now rewrite C1.
Qed.

Lemma best_keys_max : forall m,
  (exists k v, In (k, v) m /\ ltb v lowest = false) ->
  exists b, (exists k, In (k, b) m) /\ (forall k v, In (k, v) m -> ltb b v = false) /\
    best_keys_loop ltb m lowest [] = at_least b m.
Proof.
  intros m (k0 & v0 & H0 & L0). destruct (best_keys_spec m lowest []) as (b & A & B & C).
  exists b. split; [|split; auto].
  - destruct C as [[-> _]|(_ & C & _)]; auto. exists k0.
    assert (v0 = lowest) by (destruct ST as [? ? Tot]; apply Tot; auto; eauto). now subst.
  - destruct C as [[-> C]|(_ & _ & C)]; auto.
Qed.

Lemma at_least_maximal : forall m b,
  (exists k, In (k, b) m) -> (forall k v, In (k, v) m -> ltb b v = false) ->
  forall k, In k (at_least b m) <-> maximal ltb m k.
Proof.
  destruct ST as [Irr Tr Tot].
  intros m b (kb & Hb) Hm k. unfold at_least. rewrite in_map_iff. split.
  - intros ((k' & v) & <- & Q). apply filter_In in Q. destruct Q as [Q N]. cbn in *.
    apply negb_true_iff in N. exists v. split; auto.
    assert (v = b) by (apply Tot; eauto). subst v. eauto.
  - intros (v & Q & M). exists (k, v). split; auto. apply filter_In. split; auto.
    cbn. apply negb_true_iff. eauto.
Qed.

Lemma NoDup_map_filter : forall (m : list (T * V)) f, NoDup (map fst m) -> NoDup (map fst (filter f m)).
Proof.
  induction m as [|[k v] m IH]; intros f N; cbn in *; auto. inversion N; subst.
  destruct (f (k, v)); auto. cbn. constructor; auto.
  intros Q. apply H1. apply in_map_iff in Q. destruct Q as (kv & <- & Q). apply filter_In in Q.
  apply in_map. tauto.
Qed.

Lemma get_max_key_correct : forall N (m : list (T * V)),
  NoDup (map fst m) ->
  (exists k v, In (k, v) m /\ ltb v lowest = false) ->
  exists ks, NoDup ks /\ ks <> [] /\ (forall k, In k ks <-> maximal ltb m k) /\
    forall g : rng N, good_ints g ->
    exists k g', get_max_key ltb lowest m g = Ok (k, g') /\
      nth_error ks (Z.to_nat (gi g (ni g) mod Z.of_nat (length ks))) = Some k /\
      (length ks = 1%nat -> g' = g) /\ (length ks <> 1%nat -> one_int g g').
Proof.
  intros N m ND H. destruct (best_keys_max m H) as (b & Hb & Hm & E).
  exists (at_least b m).
  assert (ND' : NoDup (at_least b m)) by (apply NoDup_map_filter; auto).
  assert (Mx := at_least_maximal m b Hb Hm).
  assert (NE : at_least b m <> []).
  { destruct Hb as (kb & Hb). intros Q. assert (In kb (at_least b m)).
    { apply Mx. exists b. split; eauto. } rewrite Q in H0. destruct H0. }
  repeat split; auto; try (apply Mx).
  intros g Hg. unfold get_max_key. rewrite E. specialize (Hg (ni g)).
  destruct (at_least b m) as [|k1 [|k2 ks]] eqn:EL; [congruence| |].
  - exists k1, g. cbn [length]. rewrite Z.mod_1_r. cbn. repeat split; auto; congruence.
  - set (L := k1 :: k2 :: ks) in *.
    set (n := Z.of_nat (length L)).
    assert (Hn : (1 < n)%Z) by (unfold n, L; cbn [length]; lia).
    unfold get_rand_int. rewrite Z.sub_0_r.
    destruct (Z.eqb_spec n 0); [lia|]. cbn [bind].
    rewrite Z.add_0_l. rewrite Z.rem_mod_nonneg by lia.
    pose proof (Z.mod_pos_bound (gi g (ni g)) n ltac:(lia)) as B.
    unfold vec_at. destruct (Z.ltb_spec (gi g (ni g) mod n) 0); [lia|].
    destruct (nth_error L (Z.to_nat (gi g (ni g) mod n))) as [k|] eqn:Q.
    + cbn. eexists k, _. repeat split; auto. unfold L; cbn [length]; lia.
    + exfalso. apply nth_error_None in Q. unfold n in *. lia.
Qed.
End MaxKey.

(** ** Sampling over R *)
Open Scope R_scope.

(** Proper prefixes do not complete the mass. *)
Definition not_early {T} (m : list (T * R)) (s run : R) : Prop :=
  forall m1 k w m2, m = m1 ++ (k, w) :: m2 -> m2 <> [] -> run + (total m1 + w) / s < s.

Lemma sample_loop_spec : forall T (m : list (T * R)) s u run,
  nonneg_weights m -> 0 < s -> run + total m / s <= s -> not_early m s run -> run <= u ->
  (u < run + total m / s ->
    exists m1 k w m2, m = m1 ++ (k, w) :: m2 /\
      run + total m1 / s <= u < run + (total m1 + w) / s /\ sample_loop R_ops m s u run = Ok k) /\
  (run + total m / s <= u -> sample_loop R_ops m s u run = Throw).
Proof.
  intros T. induction m as [|[k w] m IH]; intros s u run NN Hs Hf NE Hu; cbn [total] in *.
  - cbn. split; intros; auto. exfalso. unfold Rdiv in *. lra.
  - assert (Hw : 0 <= w) by (apply (NN k); now left).
    assert (NN' : nonneg_weights m) by (intros k' w' Q; apply (NN k'); now right).
    pose proof (total_nonneg _ _ NN') as Tm.
    set (run' := run + w / s).
    assert (Ew : run + (w + total m) / s = run' + total m / s) by (unfold run'; field; lra).
    assert (Hts : 0 <= total m / s) by (apply Rmult_le_pos; [auto|left; now apply Rinv_0_lt_compat]).
    assert (TM : Rltb (s + neps R_ops) run' = false).
    { apply Rltb_false. pose proof eps_pos. lra. }
    assert (TE : Rleb s run' && match m with [] => false | _ => true end = false).
    { destruct m as [|p m']; [now rewrite andb_false_r|]. rewrite andb_true_r. apply Rleb_false.
      specialize (NE [] k w (p :: m') eq_refl). cbn in NE.
      assert (run + (0 + w) / s < s) by (apply NE; discriminate).
      unfold run'. replace (w / s) with ((0 + w) / s) by (f_equal; lra). auto. }
    assert (SL : sample_loop R_ops ((k, w) :: m) s u run =
                 if Rltb u run' then Ok k else sample_loop R_ops m s u run').
    { cbn [sample_loop R_ops nadd ndiv nltb nleb]. fold run'.
      change (nltb R_ops) with Rltb in *. change (nleb R_ops) with Rleb in *.
      rewrite TM, TE. reflexivity. }
    rewrite SL. destruct (Rltb u run') eqn:Q.
    + apply Rltb_true in Q. split.
      * intros _. exists [], k, w, m. split; auto. cbn. split; auto.
        unfold run' in Q. replace ((0 + w) / s) with (w / s) by (f_equal; lra). unfold Rdiv; lra.
      * intros. exfalso. lra.
    + apply Rltb_false in Q.
      assert (NE' : not_early m s run').
      { intros m1 k' w' m2 Em Hm2. subst m. specialize (NE ((k, w) :: m1) k' w' m2 eq_refl Hm2).
        cbn in NE. unfold run'. replace (run + w / s + (total m1 + w') / s)
          with (run + (w + total m1 + w') / s); auto. field. lra. }
      destruct (IH s u run' NN' Hs) as [IH1 IH2]; auto; try lra.
      split.
      * intros Hlt. destruct IH1 as (m1 & k' & w' & m2 & -> & B & S); [lra|].
        exists ((k, w) :: m1), k', w', m2. split; auto. split; auto. cbn [total].
        replace (run + (w + total m1) / s) with (run' + total m1 / s) by (unfold run'; field; lra).
        replace (run + (w + total m1 + w') / s) with (run' + (total m1 + w') / s) by (unfold run'; field; lra).
        auto.
      * intros. apply IH2. lra.
Qed.

(** Two splits of one list whose half-open intervals share a point are the same split. *)
Lemma split_unique : forall T (a a' : list (T * R)) k w b k' w' b' u,
  nonneg_weights (a ++ (k, w) :: b) ->
  a ++ (k, w) :: b = a' ++ (k', w') :: b' ->
  total a <= u < total a + w -> total a' <= u < total a' + w' -> k = k' /\ w = w' /\ a = a'.
Proof.
  induction a as [|[x y] a IH]; intros a' k w b k' w' b' u NN E H H'; destruct a' as [|[x' y'] a']; cbn in *.
  - injection E as <- <- <-. auto.
  - injection E as <- <- ->. assert (0 <= total a').
    { apply total_nonneg. intros p q Q. apply (NN p q). right. apply in_or_app. auto. } lra.
  - injection E as <- <- Eb. assert (0 <= total a).
    { apply total_nonneg. intros p q Q. apply (NN p q). right. apply in_or_app. auto. } lra.
  - injection E as <- <- E.
    destruct (IH a' k w b k' w' b' (u - y)) as (A & B & C); try lra; auto.
    + intros p q Q. apply (NN p q). now right.
    + subst. auto.
Qed.

Lemma sample_iff_owns : forall T (m : list (T * R)) s u,
  nonneg_weights m -> 0 < s -> total m / s <= s -> not_early m s 0 -> 0 <= u < total m / s ->
  (exists k, sample_loop R_ops m s u 0 = Ok k) /\
  forall k, sample_loop R_ops m s u 0 = Ok k <-> owns m s u k.
Proof.
  intros T m s u NN Hs Hf NE [H0 H1].
  destruct (sample_loop_spec T m s u 0 NN Hs) as [S _]; auto; try lra.
  destruct S as (m1 & k & w & m2 & E & B & S); [lra|].
  assert (OW : owns m s u k).
  { exists m1, w, m2. split; auto. rewrite !Rplus_0_l in B. auto. }
  split; [eauto|]. intros k'. rewrite S. split.
  - intros [= <-]. auto.
  - intros (a & w' & b & E' & B'). f_equal.
    assert (Mul : forall x y, x / s <= y -> x <= y * s).
    { intros x y Q. apply (Rmult_le_compat_r s) in Q; [|lra]. unfold Rdiv in Q.
      rewrite Rmult_assoc, Rinv_l, Rmult_1_r in Q by lra. auto. }
    assert (Mul' : forall x y, y < x / s -> y * s < x).
    { intros x y Q. apply (Rmult_lt_compat_r s) in Q; [|lra]. unfold Rdiv in Q.
      rewrite (Rmult_assoc x), Rinv_l, Rmult_1_r in Q by lra. auto. }
    rewrite !Rplus_0_l in B. destruct B as [B1 B2], B' as [B1' B2'].
    apply Mul in B1. apply Mul in B1'. apply Mul' in B2. apply Mul' in B2'.
    destruct (split_unique T m1 a k w m2 k' w' b (u * s)) as (A & _ & _); auto;
      try (rewrite <- E; auto; congruence); split; lra.
Qed.

Lemma not_early_last : forall T (m : list (T * R)) s k w,
  nonneg_weights (m ++ [(k, w)]) -> 0 < w -> 0 < s -> total (m ++ [(k, w)]) / s <= s ->
  not_early (m ++ [(k, w)]) s 0.
Proof.
  intros T m s k w NN Hw Hs Hf m1 k' w' m2 E Hm2.
  assert (X : exists m3, m2 = m3 ++ [(k, w)]).
  { destruct (exists_last Hm2) as (m3 & p & ->). exists m3. f_equal.
    replace (m1 ++ (k', w') :: m3 ++ [p]) with ((m1 ++ (k', w') :: m3) ++ [p]) in E
      by (now rewrite <- app_assoc).
    apply app_inj_tail in E. destruct E as [_ ->]. auto. }
  destruct X as [m3 ->]. rewrite E in *. rewrite total_app in Hf. cbn [total] in Hf.
  rewrite total_app in Hf. cbn [total] in Hf.
  assert (0 <= total m3).
  { apply total_nonneg. intros p q Q. apply (NN p q). apply in_or_app. right. right. apply in_or_app. auto. }
  rewrite Rplus_0_l. eapply Rlt_le_trans; [|exact Hf]. apply Rdiv_lt; auto. lra.
Qed.

Lemma not_early_positive : forall T (m : list (T * R)) s,
  positive_weights m -> 0 < s -> total m / s <= s -> not_early m s 0.
Proof.
  intros T m s PW Hs Hf. destruct m as [|p m0].
  - intros m1 k w m2 Q. destruct m1; discriminate.
  - assert (NEm : p :: m0 <> []) by discriminate. destruct (exists_last NEm) as (m' & [k w] & E').
    rewrite E' in *. apply not_early_last; auto.
    + now apply positive_nonneg.
    + apply (PW k). apply in_or_app. right. now left.
Qed.

Lemma sum_weights_total : forall T (m : list (T * R)), sum_weights R_ops m = total m.
Proof.
  intros T m. unfold sum_weights. cbn [R_ops nzero nadd].
  assert (G : forall a, fold_left (fun acc p => acc + snd p) m a = a + total m).
  { induction m as [|[k w] m IH]; intros a; cbn; [lra|rewrite IH; lra]. }
  rewrite G. lra.
Qed.

Lemma sample_distribution_unfold : forall T (m : list (T * R)) nrm (g : rng R),
  sample_from_distribution R_ops m nrm g =
  bind (sample_loop R_ops m (if nrm then 1 else total m) (gr g (nr g)) 0)
       (fun k => Ok (k, mkRng (gi g) (gr g) (ni g) (S (nr g)))).
Proof.
  intros. unfold sample_from_distribution. rewrite sum_weights_total. reflexivity.
Qed.

Lemma sample_normalised : forall T (m : list (T * R)) (g : rng R),
  nonneg_weights m -> total m = 1 ->
  (exists m0 k0 w0, m = m0 ++ [(k0, w0)] /\ 0 < w0) ->
  good_reals g ->
  exists k g', sample_from_distribution R_ops m true g = Ok (k, g') /\ one_real g g' /\
    forall k', k' = k <-> owns m 1 (gr g (nr g)) k'.
Proof.
  intros T m g NN Tm (m0 & k0 & w0 & E & Hw0) Hg. specialize (Hg (nr g)).
  destruct (sample_iff_owns T m 1 (gr g (nr g)) NN) as [[k S] I]; try lra.
  - rewrite E in *. apply not_early_last; auto; lra.
  - rewrite sample_distribution_unfold. rewrite S. cbn. exists k. eexists. split; [reflexivity|].
    split; [repeat split|]. intros k'. rewrite <- I, S. split; congruence.
Qed.

Lemma sample_unnormalised : forall T (m : list (T * R)) (g : rng R),
  positive_weights m -> 1 <= total m -> good_reals g ->
  exists k g', sample_from_distribution R_ops m false g = Ok (k, g') /\ one_real g g' /\
    forall k', k' = k <-> owns m (total m) (gr g (nr g)) k'.
Proof.
  intros T m g PW Tm Hg. specialize (Hg (nr g)).
  assert (E1 : total m / total m = 1) by (field; lra).
  destruct (sample_iff_owns T m (total m) (gr g (nr g)) (positive_nonneg _ _ PW)) as [[k S] I]; try lra.
  - apply not_early_positive; auto; lra.
  - rewrite sample_distribution_unfold. rewrite S. cbn. exists k. eexists. split; [reflexivity|].
    split; [repeat split|]. intros k'. rewrite <- I, S. split; congruence.
Qed.

(** A running mass that exceeds the bound at the last entry throws. *)
Lemma sample_loop_overflow : forall T (m : list (T * R)) s u run k w,
  0 < s -> positive_weights (m ++ [(k, w)]) ->
  s + neps R_ops < run + (total m + w) / s -> run + total m / s <= u ->
  sample_loop R_ops (m ++ [(k, w)]) s u run = Throw.
Proof.
  intros T. induction m as [|[k1 w1] m IH]; intros s u run k w Hs PW Hov Hu; cbn [app total] in *.
  - cbn [sample_loop R_ops nadd ndiv nltb nleb].
    replace (Rltb (s + neps R_ops) (run + w / s)) with true.
    + reflexivity.
    + symmetry. apply Rltb_true. replace (w / s) with ((0 + w) / s) by (f_equal; lra). auto.
  - cbn [sample_loop R_ops nadd ndiv nltb nleb].
    match goal with |- (if ?c then _ else _) = _ => destruct c; auto end.
    assert (0 <= total m).
    { apply total_nonneg. intros p q Q. left. apply (PW p q). right. apply in_or_app. auto. }
    replace (Rltb u (run + w1 / s)) with false.
    + apply IH; auto.
      * intros p q Q. apply (PW p q). now right.
      * replace (run + w1 / s + (total m + w) / s) with (run + (w1 + total m + w) / s); auto. field; lra.
      * replace (run + w1 / s + total m / s) with (run + (w1 + total m) / s); auto. field; lra.
    + symmetry. apply Rltb_false. eapply Rle_trans; [|exact Hu]. apply Rplus_le_compat_l.
      apply Rdiv_le; auto. lra.
Qed.

Lemma sample_small_sum_throws : forall T (m : list (T * R)) k w (g : rng R),
  positive_weights (m ++ [(k, w)]) -> total (m ++ [(k, w)]) + neps R_ops < 1 ->
  total m / total (m ++ [(k, w)]) <= gr g (nr g) ->
  sample_from_distribution R_ops (m ++ [(k, w)]) false g = Throw.
Proof.
  intros T m k w g PW Hs Hu. rewrite sample_distribution_unfold.
  set (s := total (m ++ [(k, w)])) in *.
  assert (Es : s = total m + w) by (unfold s; rewrite total_app; cbn; lra).
  assert (0 < w) by (apply (PW k); apply in_or_app; right; now left).
  assert (0 <= total m).
  { apply total_nonneg. intros p q Q. left. apply (PW p q). apply in_or_app. auto. }
  rewrite sample_loop_overflow; auto; try lra.
  rewrite <- Es. replace (0 + s / s) with 1 by (field; lra). auto.
Qed.

(** A zero-weight entry after the full mass throws. *)
Lemma sample_loop_early : forall T (m : list (T * R)) k0 w0 u run k,
  nonneg_weights (m ++ [(k0, w0)]) -> run + (total m + w0) = 1 -> run + total m <= u ->
  sample_loop R_ops (m ++ [(k0, w0); (k, 0)]) 1 u run = Throw.
Proof.
  intros T. induction m as [|[k1 w1] m IH]; intros k0 w0 u run k NN Hf Hu; cbn [app total] in *.
  - cbn [sample_loop R_ops nadd ndiv nltb nleb].
    replace (Rleb 1 (run + w0 / 1)) with true.
    + rewrite orb_true_r. reflexivity.
    + symmetry. apply Rleb_true. lra.
  - cbn [sample_loop R_ops nadd ndiv nltb nleb].
    match goal with |- (if ?c then _ else _) = _ => destruct c; auto end.
    assert (0 <= total m).
    { apply total_nonneg. intros p q Q. apply (NN p q). right. apply in_or_app. auto. }
    replace (Rltb u (run + w1 / 1)) with false.
    + apply IH; try lra. intros p q Q. apply (NN p q). now right.
    + symmetry. apply Rltb_false. lra.
Qed.

Lemma sample_zero_throws : forall T (m : list (T * R)) k0 w0 k (g : rng R),
  nonneg_weights (m ++ [(k0, w0)]) -> total (m ++ [(k0, w0)]) = 1 -> total m <= gr g (nr g) ->
  sample_from_distribution R_ops (m ++ [(k0, w0); (k, 0)]) true g = Throw.
Proof.
  intros T m k0 w0 k g NN Ht Hu. rewrite sample_distribution_unfold.
  rewrite total_app in Ht. cbn in Ht.
  rewrite sample_loop_early; auto; lra.
Qed.

(** A zero-weight entry owns nothing. *)
Lemma owns_positive : forall T (m : list (T * R)) s u k,
  NoDup (map fst m) -> owns m s u k -> 0 < s -> exists w, In (k, w) m /\ 0 < w.
Proof.
  intros T m s u k ND (m1 & w & m2 & -> & B) Hs. exists w. split.
  - apply in_or_app. right. now left.
  - destruct B as [B1 B2]. assert (total m1 / s < (total m1 + w) / s) by lra.
    apply (Rmult_lt_compat_r s) in H; auto. unfold Rdiv in H.
    rewrite !Rmult_assoc, !Rinv_l, !Rmult_1_r in H by lra. lra.
Qed.

(** ** Totality of the max-key helper for arbitrary comparisons *)
Lemma best_keys_subset : forall T V (ltb : V -> V -> bool) (m : list (T * V)) best keys k,
  In k (best_keys_loop ltb m best keys) -> In k keys \/ In k (map fst m).
Proof.
  induction m as [|[k0 v] m IH]; intros best keys k H; cbn [best_keys_loop] in H; auto.
  cbn [map fst]. destruct (ltb v best).
  - destruct (IH _ _ _ H); auto. right; now right.
  - destruct (ltb best v).
    + destruct (IH _ _ _ H) as [[->|[]]|]; right; [now left|now right].
    + destruct (IH _ _ _ H) as [Q|Q].
      * apply in_app_or in Q. destruct Q as [|[->|[]]]; auto. right; now left.
      * right; now right.
Qed.

Lemma best_keys_keep : forall T V (ltb : V -> V -> bool) (m : list (T * V)) best keys,
  keys <> [] -> best_keys_loop ltb m best keys <> [].
Proof.
  induction m as [|[k0 v] m IH]; intros best keys H; cbn [best_keys_loop]; auto.
  destruct (ltb v best); auto. destruct (ltb best v); apply IH; [discriminate|].
  intros Q. apply app_eq_nil in Q. destruct Q; discriminate.
Qed.

Lemma best_keys_nonempty : forall T V (ltb : V -> V -> bool) lowest (m : list (T * V)),
  (exists k v, In (k, v) m /\ ltb v lowest = false) -> best_keys_loop ltb m lowest [] <> [].
Proof.
  induction m as [|[k0 v] m IH]; intros (k & w & H & L); [destruct H|]. cbn [best_keys_loop].
  destruct (ltb v lowest) eqn:E.
  - apply IH. destruct H as [[= <- <-]|H]; [congruence|eauto].
  - destruct (ltb lowest v); apply best_keys_keep; discriminate.
Qed.

Lemma get_max_key_total : forall T V N (ltb : V -> V -> bool) lowest (m : list (T * V)) (g : rng N),
  (exists k v, In (k, v) m /\ ltb v lowest = false) -> good_ints g ->
  exists k g', get_max_key ltb lowest m g = Ok (k, g') /\ In k (map fst m).
Proof.
  intros T V N ltb lowest m g H Hg. unfold get_max_key.
  pose proof (best_keys_nonempty _ _ ltb lowest m H) as NE.
  pose proof (fun k Q => best_keys_subset _ _ ltb m lowest [] k Q) as Sub.
  assert (Sub' : forall k, In k (best_keys_loop ltb m lowest []) -> In k (map fst m)).
  { intros k Q. destruct (Sub k Q) as [[]|]; auto. }
  clear Sub. specialize (Hg (ni g)).
  destruct (best_keys_loop ltb m lowest []) as [|k1 [|k2 ks]] eqn:E; [congruence| |].
  - exists k1, g. split; auto. apply Sub'. now left.
  - set (L := k1 :: k2 :: ks) in *. set (n := Z.of_nat (length L)).
    assert (Hn : (1 < n)%Z) by (unfold n, L; cbn [length]; lia).
    unfold get_rand_int. rewrite Z.sub_0_r. destruct (Z.eqb_spec n 0); [lia|]. cbn [bind].
    rewrite Z.add_0_l, Z.rem_mod_nonneg by lia.
    pose proof (Z.mod_pos_bound (gi g (ni g)) n ltac:(lia)) as B.
    unfold vec_at. destruct (Z.ltb_spec (gi g (ni g) mod n) 0); [lia|].
    destruct (nth_error L (Z.to_nat (gi g (ni g) mod n))) as [k|] eqn:Q.
    + cbn. eexists k, _. split; [reflexivity|]. apply Sub'. eapply nth_error_In; eauto.
    + exfalso. apply nth_error_None in Q. unfold n in *. lia.
Qed.

Lemma rand_int_range : forall N a b (g : rng N), (a < b)%Z -> good_ints g ->
  exists r g', get_rand_int a b g = Ok (r, g') /\ (a <= r < b)%Z /\
    (r = a + gi g (ni g) mod (b - a))%Z /\ one_int g g'.
Proof.
  intros N a b g H Hg. specialize (Hg (ni g)). unfold get_rand_int.
  destruct (Z.eqb_spec (b - a) 0); [lia|].
  pose proof (Z.mod_pos_bound (gi g (ni g)) (b - a) ltac:(lia)).
  rewrite Z.rem_mod_nonneg by lia.
  eexists; eexists. split; [reflexivity|]. repeat split; lia.
Qed.

Lemma rand_int_onto : forall N a b r (g : rng N), (a <= r < b)%Z ->
  gi g (ni g) = (r - a)%Z -> exists g', get_rand_int a b g = Ok (r, g').
Proof.
  intros N a b r g H E. unfold get_rand_int. destruct (Z.eqb_spec (b - a) 0); [lia|].
  rewrite E, Z.rem_small by lia. eexists. repeat f_equal. lia.
Qed.
