(** Proofs about the functions of MentsModel.v. *)
From Coq Require Import List ZArith Bool Reals Lia Lra Permutation.
From Verif Require Import Base BaseProofs NumOps RLemmas HelperModel HelperSpec HelperProofs EngineModel EngineSpec EngineProofs
  MapModel MapProofs PickSpec PickProofs AlgoModel UctModel MentsModel SoftSpec SoftProofs MentsSpec.
Import ListNotations.
Open Scope R_scope.

(** ** Maps *)
Lemma perm_of_entries : forall K (f : K -> R) ks (m : list (K * R)), NoDup ks -> NoDup (map fst m) ->
  (forall k v, In (k, v) m <-> In k ks /\ v = f k) -> Permutation m (map (fun k => (k, f k)) ks).
Proof.
  intros K f ks m N1 N2 H. apply NoDup_Permutation.
  - now apply NoDup_map_inv in N2.
  - apply (NoDup_map_inv fst). rewrite map_map. cbn. now rewrite map_id.
  - intros [k v]. rewrite H, in_map_iff. split.
    + intros [Q ->]. eauto.
    + intros (k' & [= -> <-] & Q). auto.
Qed.
Lemma nodup_filter_map : forall K V (f : K * V -> bool) (m : list (K * V)), NoDup (map fst m) -> NoDup (map fst (filter f m)).
Proof.
  intros K V f m H. induction m as [|[k v] m IH]; cbn in *; [constructor|]. inversion H as [|? ? H1 H2]; subst.
  destruct (f (k, v)); cbn; auto. constructor; auto. intros Q. apply H1. apply in_map_iff in Q.
  destruct Q as ([k' v'] & <- & Q). apply filter_In in Q. destruct Q as [Q _]. now apply (in_map fst) in Q.
Qed.

Section Proofs.
Context {S A : Type}.
Variable aeqb : A -> A -> bool.
Hypothesis aeqb_ok : decides aeqb.
Variable C : @econf S A.
Variable M : @mconf S A.
Notation dnode := (@dnode S A).
Notation cnode := (@cnode S A).

Lemma opp_seen : forall n v, v * opp_coeff M n = seen M n v.
Proof. intros n v. unfold opp_coeff, seen, opponent. destruct (mtwo M && Z.odd (dtime n)); lra. Qed.

(** ** Q values *)
Lemma all_q_spec : forall (q : A -> outcome R) l qs, all_q q l = Ok qs ->
  map fst qs = l /\ forall a v, In (a, v) qs -> q a = Ok v.
Proof.
  intros q l. induction l as [|a l IH]; intros qs H; cbn in H.
  - injection H as <-. split; auto. intros a v [].
  - destruct (q a) as [v| |] eqn:E; try discriminate. cbn in H. destruct (all_q q l) as [vs| |]; try discriminate.
    injection H as <-. destruct (IH vs eq_refl) as [E1 E2]. split; [cbn; now rewrite E1|].
    intros b w [[= <- <-]|Q]; auto.
Qed.
Lemma all_q_total : forall (q : A -> outcome R) (f : A -> R) l, (forall a, In a l -> q a = Ok (f a)) ->
  all_q q l = Ok (map (fun a => (a, f a)) l).
Proof.
  intros q f l. induction l as [|a l IH]; intros H; cbn; auto. rewrite (H a) by now left. cbn.
  rewrite IH; auto. intros b Q. apply H. now right.
Qed.
Lemma all_q_ex : forall (q : A -> outcome R) l, (forall a, In a l -> exists v, q a = Ok v) -> exists qs, all_q q l = Ok qs.
Proof.
  intros q l. induction l as [|a l IH]; intros H; cbn; [eauto|]. destruct (H a (or_introl eq_refl)) as (v & ->). cbn.
  destruct IH as (qs & ->); [intros b Q; apply H; now right|]. cbn. eauto.
Qed.

(** A function with the values of a map. *)
Definition valf (qs : list (A * R)) (a : A) : R := match lookup aeqb a qs with Some v => v | None => 0 end.
Lemma qs_map : forall qs, NoDup (map fst qs) -> qs = map (fun a => (a, valf qs a)) (map fst qs).
Proof using aeqb_ok.
  intros qs ND. rewrite map_map. transitivity (map (fun p : A * R => p) qs); [symmetry; apply map_id|].
  apply map_ext_in. intros [a v] Q. cbn. unfold valf. now rewrite (in_lookup aeqb aeqb_ok R _ _ _ ND Q).
Qed.
Lemma all_q_fun : forall (q : A -> outcome R) l qs, NoDup l -> all_q q l = Ok qs ->
  qs = map (fun a => (a, valf qs a)) l /\ forall a, In a l -> q a = Ok (valf qs a).
Proof using aeqb_ok.
  intros q l qs ND H. destruct (all_q_spec _ _ _ H) as [E1 E2]. subst l. split; [now apply qs_map|].
  intros a Q. apply in_map_iff in Q. destruct Q as ([a' v] & <- & Q). cbn. unfold valf.
  rewrite (in_lookup aeqb aeqb_ok R _ _ _ ND Q). now apply E2.
Qed.

Lemma log_weight_eq : forall w, log_weight w = clamped_log w.
Proof.
  intros w. unfold log_weight, clamped_log, log_max_arg, log_min_arg. destruct (Rle_dec _ w) as [L|L].
  - apply Rleb_true in L. now rewrite L.
  - assert (Q : Rleb (IZR (10 ^ 32)) w = false) by (apply Rleb_false; lra). rewrite Q.
    destruct (Rlt_dec _ w) as [K|K]; [apply Rltb_true in K|assert (K' := K); apply Rnot_lt_le, Rltb_false in K]; now rewrite K.
Qed.
Lemma unexpanded_spec : forall X (val : X -> R) n off (kids : list (A * (cnode * X))) a v, ~ In a (map fst kids) ->
  unexpanded_q aeqb M n off a = Ok v -> q_of M val n off kids a v.
Proof using aeqb_ok.
  intros X val n off kids a v N H. unfold unexpanded_q in H. destruct (mprior M) as [p|] eqn:E.
  - unfold mat in H. destruct (lookup aeqb a (p (dstate n))) as [w|] eqn:L; [|discriminate]. injection H as <-.
    rewrite log_weight_eq. eapply q_prior; eauto. now apply lookup_in in L.
  - injection H as <-. rewrite opp_seen. now apply q_default.
Qed.
Lemma unexpanded_total : forall n off a, prior_total C M n -> In a (acts C (dstate n)) ->
  exists v, unexpanded_q aeqb M n off a = Ok v.
Proof using aeqb_ok.
  intros n off a Hp Ia. unfold unexpanded_q. destruct (mprior M) as [p|] eqn:E; [|eauto].
  destruct (Hp p E) as [_ Hc]. unfold mat. destruct (lookup aeqb a (p (dstate n))) as [w|] eqn:L; [cbn; eauto|].
  apply lookup_none_iff in L; auto. elim L. now apply Hc.
Qed.
Lemma ments_q_spec : forall n x (kids : list (A * (cnode * cmem))) a v, ments_q aeqb M n x kids a = Ok v ->
  q_of M c_soft n (m_off x) kids a v.
Proof using aeqb_ok.
  intros n x kids a v H. unfold ments_q in H. destruct (lookup aeqb a kids) as [[c y]|] eqn:L.
  - injection H as <-. rewrite opp_seen. eapply q_child. apply lookup_in in L; eauto.
  - apply unexpanded_spec; auto. now apply lookup_none_iff in L.
Qed.
Lemma ments_q_total : forall n x (kids : list (A * (cnode * cmem))) a, prior_total C M n -> In a (acts C (dstate n)) ->
  exists v, ments_q aeqb M n x kids a = Ok v.
Proof using aeqb_ok.
  intros n x kids a Hp Ia. unfold ments_q. destruct (lookup aeqb a kids) as [[c y]|]; [eauto|]. now apply unexpanded_total.
Qed.

(** ** Weights *)
Lemma mput_new : forall V (m : list (A * V)) a v, ~ In a (map fst m) -> mput aeqb m a v = m ++ [(a, v)].
Proof using aeqb_ok.
  intros V m a v. induction m as [|[k w] m IH]; intros H; cbn in *; auto.
  rewrite keqb_ne by (auto; intros ->; apply H; auto). f_equal. apply IH. tauto.
Qed.
Lemma weight_fold : forall (f : A -> R -> R) qs m s, NoDup (map fst m ++ map fst qs) ->
  fold_left (fun '(m, s) p => let w := f (fst p) (snd p) in (mput aeqb m (fst p) w, s + w)) qs (m, s) =
  (m ++ map (fun p => (fst p, f (fst p) (snd p))) qs, s + rsum_of (fun p => f (fst p) (snd p)) qs).
Proof using aeqb_ok.
  intros f. induction qs as [|[a v] qs IH]; intros m s ND; cbn [fold_left map].
  - rewrite app_nil_r. unfold rsum_of. cbn. f_equal. lra.
  - cbn [map fst snd] in *. rewrite mput_new.
    2:{ intros Q. apply NoDup_remove_2 in ND. apply ND. apply in_or_app. now left. }
    rewrite IH.
    + rewrite <- app_assoc. cbn [app]. f_equal. rewrite rsum_of_cons. cbn. lra.
    + rewrite map_app. cbn [map fst]. rewrite <- app_assoc. exact ND.
Qed.
Lemma weight_loop_eq : forall (f : A -> R -> R) qs, NoDup (map fst qs) ->
  weight_loop aeqb f qs = (map (fun p => (fst p, f (fst p) (snd p))) qs, rsum_of (fun p => f (fst p) (snd p)) qs).
Proof using aeqb_ok.
  intros f qs ND. unfold weight_loop. rewrite weight_fold by exact ND. cbn [app]. f_equal. lra.
Qed.

Lemma norm_fold : forall temp (qs : list (A * R)) b,
  let r := fold_left (fun norm p => if Rltb norm (snd p / temp) then snd p / temp else norm) qs b in
  b <= r /\ (forall a q, In (a, q) qs -> q / temp <= r) /\ (r = b \/ exists a q, In (a, q) qs /\ r = q / temp).
Proof.
  intros temp qs. induction qs as [|[a q] qs IH]; intros b; cbn [fold_left snd].
  - cbv zeta. split; [lra|]. split; [intros a q []|auto].
  - destruct (IH (if Rltb b (q / temp) then q / temp else b)) as (I1 & I2 & I3). cbv zeta.
    destruct (Rltb b (q / temp)) eqn:E; [apply Rltb_true in E|apply Rltb_false in E].
    + split; [lra|]. split.
      * intros a' q' [[= <- <-]|Q]; [lra|eauto].
      * right. destruct I3 as [->|(a' & q' & Q & ->)]; [exists a, q|exists a', q']; cbn; auto.
    + split; [lra|]. split.
      * intros a' q' [[= <- <-]|Q]; [lra|eauto].
      * destruct I3 as [->|(a' & q' & Q & ->)]; [auto|right; exists a', q'; cbn; auto].
Qed.
(** The normalisation term is the largest exponent, unless all exponents are below the least double. *)
Lemma norm_term_ge : forall temp (qs : list (A * R)) a q, In (a, q) qs -> q / temp <= norm_term temp qs.
Proof. intros temp qs a q Q. destruct (norm_fold temp qs dbl_lowest) as (_ & H & _). eapply H; eauto. Qed.
Lemma norm_term_max : forall temp (qs : list (A * R)), (exists a q, In (a, q) qs /\ dbl_lowest <= q / temp) ->
  exists a q, In (a, q) qs /\ norm_term temp qs = q / temp.
Proof.
  intros temp qs (a & q & Q & L). destruct (norm_fold temp qs dbl_lowest) as (H1 & H2 & [H|H]); auto.
  exists a, q. split; auto. unfold norm_term. rewrite H in *. apply Rle_antisym; auto. eapply H2; eauto.
Qed.

(** Sum and shift of the Boltzmann weights give the log-sum-exp value. *)
Lemma ments_weights_eq : forall temp qs, NoDup (map fst qs) ->
  ments_weights aeqb temp qs =
    (map (fun p => (fst p, exp (snd p / temp - norm_term temp qs))) qs,
     rsum_of (fun p => exp (snd p / temp - norm_term temp qs)) qs, norm_term temp qs).
Proof using aeqb_ok. intros temp qs ND. unfold ments_weights. rewrite weight_loop_eq by auto. reflexivity. Qed.

Lemma soft_value_eq : forall n qs, 0 < ments_temp M n -> qs <> [] ->
  soft_value M n (rsum_of (fun p : A * R => exp (snd p / ments_temp M n - norm_term (ments_temp M n) qs)) qs)
             (norm_term (ments_temp M n) qs) =
  seen M n (soft_max (ments_temp M n) (map snd qs)).
Proof.
  intros n qs Ht NE. unfold soft_value.
  rewrite <- (soft_max_shift (ments_temp M n) (map snd qs) (norm_term (ments_temp M n) qs)); auto.
  - rewrite rsum_of_map, <- opp_seen. lra.
  - destruct qs; [congruence|discriminate].
Qed.

(** ** The search policy *)
Lemma node_eps_eq : forall n, (if is_root n && Rltb 0 (mroot_eps M) then mroot_eps M else meps M) = node_eps M n.
Proof.
  intros n. unfold node_eps, is_root.
  destruct (Z.eqb_spec (ddepth n) 0); destruct (Z.eq_dec (ddepth n) 0); try contradiction; cbn [andb]; auto.
  destruct (Rltb 0 (mroot_eps M)) eqn:E; [apply Rltb_true in E|apply Rltb_false in E];
    destruct (Rlt_dec 0 (mroot_eps M)); auto; lra.
Qed.
Lemma lambda_eq : forall n, rate_known M n -> ments_lambda M n = Some (explore_rate M n).
Proof.
  intros n Hv. unfold ments_lambda, explore_rate. rewrite node_eps_eq.
  destruct Hv as [Hv|[Hv He]]; destruct (Z.eqb_spec (dvisits n) 0); destruct (Z.eq_dec (dvisits n) 0); try lia.
  - rewrite plus_IZR. cbv zeta. f_equal. set (x := node_eps M n / _). unfold Rmin.
    destruct (Rle_dec (mmax_explore M) x) as [L|L]; destruct (Rltb (mmax_explore M) x) eqn:E'; auto;
      [apply Rltb_false in E'|apply Rltb_true in E']; lra.
  - destruct (Rltb 0 (node_eps M n)) eqn:E; auto. apply Rltb_false in E. lra.
Qed.

Definition prior_there (n : dnode) : Prop := 0 < mprior_w M -> mprior M <> None.

Lemma mix_entry_eq : forall n sum num a w, prior_total C M n -> prior_there n -> In a (acts C (dstate n)) ->
  mix_entry aeqb M n (explore_rate M n) sum num a w =
    Ok ((1 - explore_rate M n) * ((1 - prior_rate M n) * (w / sum) + prior_rate M n * prior_prob aeqb M n a) +
        explore_rate M n / num).
Proof using aeqb_ok.
  intros n sum num a w Hp Ht Ia. unfold mix_entry, prior_rate, prior_prob.
  destruct (Rltb 0 (mprior_w M)) eqn:E; [apply Rltb_true in E|apply Rltb_false in E].
  - destruct (Rlt_dec 0 (mprior_w M)) as [_|]; [|lra].
    destruct (mprior M) as [p|] eqn:Ep; [|elim (Ht E); exact Ep]. destruct (Hp p Ep) as [_ Hc].
    unfold mat. destruct (lookup aeqb a (p (dstate n))) as [pw|] eqn:L.
    2:{ apply lookup_none_iff in L; auto. elim L. now apply Hc. }
    cbn [bind]. rewrite plus_IZR. f_equal. unfold Rdiv. ring.
  - destruct (Rlt_dec 0 (mprior_w M)); [lra|]. cbn [bind]. f_equal. unfold Rdiv. ring.
Qed.

Lemma mix_loop_spec : forall n lambda sum num (f : A -> R -> R), 
  forall l m, NoDup l -> NoDup (map fst m) ->
  (forall a w, In a l -> mix_entry aeqb M n lambda sum num a w = Ok (f a w)) ->
  (forall a, In a l -> In a (map fst m)) ->
  exists m1, mix_loop aeqb M n lambda sum num l m = Ok (m1, filter (fun a => Rltb (f a (valf m a)) ments_eps) l) /\
    NoDup (map fst m1) /\
    (forall a, In a l -> lookup aeqb a m1 = Some (f a (valf m a))) /\
    (forall a, ~ In a l -> lookup aeqb a m1 = lookup aeqb a m).
Proof using aeqb_ok.
  intros n lambda sum num f. induction l as [|a l IH]; intros m ND NM Hf Hk; cbn [mix_loop filter].
  - exists m. split; auto. split; auto. split; [intros a []|auto].
  - inversion ND as [|? ? N1 N2]; subst. assert (Ka : In a (map fst m)) by (apply Hk; now left).
    destruct (lookup aeqb a m) as [w|] eqn:L.
    2:{ apply lookup_none_iff in L; auto. contradiction. }
    unfold mat. rewrite L. cbn [bind]. rewrite Hf by now left. cbn [bind].
    destruct (IH (mput aeqb m a (f a w)) N2) as (m1 & E & D & I1 & I2).
    + now apply mput_nodup.
    + intros b v Q. apply Hf. now right.
    + intros b Q. apply mput_keys; auto. right. apply Hk. now right.
    + rewrite E. cbn [bind]. exists m1.
      assert (V : forall b, b <> a -> valf (mput aeqb m a (f a w)) b = valf m b).
      { intros b Nb. unfold valf. rewrite lookup_mput by auto. rewrite keqb_ne by (auto; congruence). auto. }
      assert (Fe : filter (fun b => Rltb (f b (valf (mput aeqb m a (f a w)) b)) ments_eps) l =
                   filter (fun b => Rltb (f b (valf m b)) ments_eps) l).
      { clear - V N1. induction l as [|b l IH]; cbn; auto. rewrite V by (intros ->; apply N1; now left).
        rewrite IH; auto. intros Q. apply N1. now right. }
      rewrite Fe.
      assert (Va : valf m a = w) by (unfold valf; now rewrite L). rewrite Va. split; auto. split; auto. split.
      * intros b [<-|Q].
        -- rewrite I2 by auto. rewrite lookup_mput by auto. rewrite keqb_refl by auto. now rewrite Va.
        -- rewrite I1 by auto. rewrite V; auto. intros ->. contradiction.
      * intros b Q. cbn in Q. rewrite I2 by tauto. rewrite lookup_mput by auto. rewrite keqb_ne by (auto; intros ->; tauto). auto.
Qed.

Lemma dels_spec : forall z (m : list (A * R)), NoDup (map fst m) ->
  NoDup (map fst (fold_left (mdel aeqb) z m)) /\
  forall a v, In (a, v) (fold_left (mdel aeqb) z m) <-> In (a, v) m /\ ~ In a z.
Proof using aeqb_ok.
  induction z as [|b z IH]; intros m ND; cbn [fold_left].
  - split; auto. intros a v. cbn. tauto.
  - destruct (IH (mdel aeqb m b)) as [I1 I2].
    + unfold mdel. now apply nodup_filter_map.
    + split; auto. intros a v. rewrite I2. unfold mdel. rewrite filter_In. cbn [fst In].
      rewrite negb_true_iff. split.
      * intros [[Q1 Q2] Q3]. split; auto. intros [->|Q]; auto. now rewrite keqb_refl in Q2.
      * intros [Q1 Q2]. split; [split; auto|tauto]. apply keqb_ne; auto.
Qed.

Lemma mix_spec : forall n (w : list (A * R)) sum, rate_known M n -> prior_total C M n -> prior_there n ->
  NoDup (acts C (dstate n)) -> NoDup (map fst w) -> (forall a, In a (map fst w) <-> In a (acts C (dstate n))) ->
  exists m, mix aeqb C M n w sum = Ok (Some m) /\
    holds_from ments_eps (mixture aeqb C M n (fun a => valf w a / sum)) (acts C (dstate n)) m.
Proof using aeqb_ok.
  intros n w sum Hv Hp Ht ND NW Hk. unfold mix. rewrite lambda_eq by auto. cbv zeta.
  set (l := acts C (dstate n)) in *.
  set (f := fun a v => (1 - explore_rate M n) * ((1 - prior_rate M n) * (v / sum) + prior_rate M n * prior_prob aeqb M n a) +
        explore_rate M n / INR (length l)).
  destruct (mix_loop_spec n (explore_rate M n) sum (INR (length l)) f l w ND NW) as (m1 & E & D & I1 & I2).
  - intros a v Q. now apply mix_entry_eq.
  - intros a Q. now apply Hk.
  - rewrite E. cbn [bind]. eexists. split; [reflexivity|].
    destruct (dels_spec (filter (fun a => Rltb (f a (valf w a)) ments_eps) l) m1 D) as [D1 D2].
    split; auto. intros a p. rewrite D2, filter_In, <- (lookup_iff aeqb aeqb_ok) by auto. split.
    + intros [L Q]. assert (Ia : In a l).
      { destruct (in_dec (fun x y => ltac:(destruct (aeqb x y) eqn:E0; [left; now apply aeqb_ok|right; intros ->; rewrite keqb_refl in E0; auto; discriminate])) a l) as [|Na]; auto.
        exfalso. rewrite I2 in L by auto. apply lookup_in in L; auto. apply (in_map fst) in L. apply Hk in L. contradiction. }
      rewrite I1 in L by auto. injection L as <-. split; auto. split; [reflexivity|].
      destruct (Rltb (f a (valf w a)) ments_eps) eqn:Er; [tauto|]. now apply Rltb_false in Er.
    + intros (Ia & -> & Le). rewrite I1 by auto. split; [reflexivity|]. intros [_ Er]. apply Rltb_true in Er.
      unfold mixture in Le. fold l in Le. unfold f in Er. lra.
Qed.
Lemma mixture_total : forall n b, acts C (dstate n) <> [] ->
  rsum_of b (acts C (dstate n)) = 1 ->
  (prior_rate M n = 0 \/ rsum_of (prior_prob aeqb M n) (acts C (dstate n)) = 1) ->
  rsum_of (mixture aeqb C M n b) (acts C (dstate n)) = 1.
Proof.
  intros n b NE Sb Sp. set (l := acts C (dstate n)) in *. unfold mixture. fold l.
  assert (Ln : 0 < INR (length l)) by (apply lt_0_INR; destruct l; [congruence|cbn; lia]).
  rewrite (rsum_of_ext _ _ (fun a => (1 - explore_rate M n) * (1 - prior_rate M n) * b a +
     ((1 - explore_rate M n) * prior_rate M n * prior_prob aeqb M n a + explore_rate M n / INR (length l)))).
  2:{ intros a _. ring. }
  rewrite !rsum_of_plus, !rsum_of_scale, rsum_of_const, Sb.
  replace (INR (length l) * (explore_rate M n / INR (length l))) with (explore_rate M n) by (field; lra).
  destruct Sp as [->| ->]; ring.
Qed.
Lemma mixture_low : forall n b a, acts C (dstate n) <> [] -> 0 <= explore_rate M n <= 1 -> 0 <= prior_rate M n <= 1 ->
  0 <= b a -> 0 <= prior_prob aeqb M n a ->
  explore_rate M n / INR (length (acts C (dstate n))) <= mixture aeqb C M n b a.
Proof.
  intros n b a NE L P Hb Hq. unfold mixture.
  assert (0 <= (1 - explore_rate M n) * ((1 - prior_rate M n) * b a + prior_rate M n * prior_prob aeqb M n a)).
  { apply Rmult_le_pos; [lra|]. apply Rplus_le_le_0_compat; apply Rmult_le_pos; lra. }
  lra.
Qed.

(** Kept entries weigh at most one, and at least one minus the dropped ones. *)
Lemma kept_total : forall (f : A -> R) l m, NoDup l -> (forall a, In a l -> 0 <= f a) -> holds_from ments_eps f l m ->
  total m = rsum_of (fun a => if Rlt_dec (f a) ments_eps then 0 else f a) l.
Proof using aeqb_ok.
  intros f l m ND Hf [N I].
  assert (P : Permutation m (map (fun a => (a, f a)) (filter (fun a => if Rlt_dec (f a) ments_eps then false else true) l))).
  { apply perm_of_entries; auto.
    - now apply NoDup_filter.
    - intros a v. rewrite I, filter_In. split.
      + intros (Q & -> & L). repeat split; auto. destruct (Rlt_dec (f a) ments_eps); [lra|auto].
      + intros ((Q & L) & ->). repeat split; auto. destruct (Rlt_dec (f a) ments_eps); [discriminate|lra]. }
  rewrite total_rsum, (rsum_of_perm _ _ _ _ P), rsum_of_map. cbn [snd]. clear - ND.
  induction l as [|a l IH]; cbn [filter]; [reflexivity|]. inversion ND; subst. rewrite rsum_of_cons.
  destruct (Rlt_dec (f a) ments_eps); [rewrite IH by auto; lra|]. rewrite rsum_of_cons, IH by auto. reflexivity.
Qed.
Lemma ments_eps_pos : 0 < ments_eps.
Proof. unfold ments_eps. apply Rdiv_lt_0_compat; [lra|]. apply IZR_lt. reflexivity. Qed.
Lemma kept_bounds : forall (f : A -> R) l m, NoDup l -> (forall a, In a l -> 0 <= f a) -> rsum_of f l = 1 ->
  holds_from ments_eps f l m -> 1 - INR (length l) * ments_eps <= total m <= 1.
Proof using aeqb_ok.
  intros f l m ND Hf S1 H. rewrite (kept_total f l m ND Hf H). pose proof ments_eps_pos as Ep. split.
  - rewrite <- S1, <- rsum_of_const. 
    assert (rsum_of f l <= rsum_of (fun a => (if Rlt_dec (f a) ments_eps then 0 else f a) + ments_eps) l).
    { apply rsum_of_le. intros a _. destruct (Rlt_dec (f a) ments_eps); lra. }
    rewrite rsum_of_plus in H0. lra.
  - rewrite <- S1. apply rsum_of_le. intros a Q. specialize (Hf a Q). destruct (Rlt_dec (f a) ments_eps); lra.
Qed.
Lemma kept_all : forall (f : A -> R) l m, NoDup l -> (forall a, In a l -> ments_eps <= f a) -> rsum_of f l = 1 ->
  holds_from ments_eps f l m -> total m = 1.
Proof using aeqb_ok.
  intros f l m ND Hf S1 H. pose proof ments_eps_pos as Ep.
  rewrite (kept_total f l m ND) by (auto; intros a Q; specialize (Hf a Q); lra).
  rewrite <- S1. apply rsum_of_ext. intros a Q. specialize (Hf a Q). destruct (Rlt_dec (f a) ments_eps); lra.
Qed.

Hypothesis order_ok : forall V (m : list (A * V)), Permutation m (morder M V m).

Lemma total_perm : forall (m m' : list (A * R)), Permutation m m' -> total m = total m'.
Proof using Type. intros m m' P. rewrite !total_rsum. now apply rsum_of_perm. Qed.

(** Sampling: the entry that owns the draw, or an exception if the draw is beyond the total. *)
Lemma sample_actions_spec : forall m g, good_reals g -> positive_weights m -> total m <= 1 ->
  (gr g (nr g) < total m -> exists a g', sample_actions M (Some m) g = Ok (a, g') /\ one_real g g' /\
     In a (map fst m) /\ forall b, b = a <-> owns (morder M R m) 1 (gr g (nr g)) b) /\
  (total m <= gr g (nr g) -> sample_actions M (Some m) g = Throw).
Proof using order_ok.
  intros m g Hg PW Tm. specialize (Hg (nr g)). cbn [sample_actions]. rewrite sample_distribution_unfold.
  pose proof (order_ok R m) as P. set (k := morder M R m) in *.
  assert (PK : positive_weights k) by (intros a w Q; apply (PW a w); eapply Permutation_in; [apply Permutation_sym; exact P|auto]).
  assert (TK : total k = total m) by (symmetry; now apply total_perm).
  assert (NE : not_early k 1 0) by (apply not_early_positive; auto; lra).
  assert (NN : nonneg_weights k) by now apply positive_nonneg.
  split.
  - intros L. destruct (sample_iff_owns A k 1 (gr g (nr g)) NN) as [[a Sa] I]; auto; try lra.
    rewrite Sa. cbn [bind]. exists a. eexists. split; [reflexivity|]. split; [repeat split|]. split.
    + destruct (proj1 (I a) Sa) as (m1 & w & m2 & E & _).
      apply (in_map fst m (a, w)). eapply Permutation_in; [apply Permutation_sym; exact P|].
      rewrite E. apply in_or_app. right. now left.
    + intros b. rewrite <- I, Sa. split; congruence.
  - intros L. destruct (sample_loop_spec A k 1 (gr g (nr g)) 0 NN) as [_ T]; auto; try lra.
    rewrite T; [reflexivity|]. lra.
Qed.
End Proofs.
