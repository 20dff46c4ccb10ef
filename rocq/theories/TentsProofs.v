(** The maps and weights of TENTS. *)
From Coq Require Import List ZArith Bool Reals Lia Lra Sorted Permutation.
From Verif Require Import Base BaseProofs NumOps RLemmas HelperModel HelperSpec EngineModel EngineSpec EngineProofs MapModel MapProofs
  AlgoModel MentsModel SoftSpec SoftProofs MentsSpec MentsProofs TentsSpec.
Import ListNotations.
Open Scope R_scope.

Section Maps.
Context {A : Type}.
Variable aeqb : A -> A -> bool.
Hypothesis aeqb_ok : decides aeqb.
Notation le1 := (fun p q : R * A => fst p <= fst q).
Notation sorted := (StronglySorted le1).

Lemma insert_perm : forall v (a : A) l, Permutation (mm_insert v a l) ((v, a) :: l).
Proof.
  intros v a. induction l as [|[v' a'] l IH]; cbn; auto. destruct (Rltb v v'); auto.
  apply perm_trans with ((v', a') :: (v, a) :: l); [now constructor|apply perm_swap].
Qed.
Lemma insert_sorted : forall v (a : A) l, sorted l -> sorted (mm_insert v a l).
Proof.
  intros v a l H. induction H as [|[v' a'] l H IH F]; cbn; [repeat constructor|].
  destruct (Rltb v v') eqn:E.
  - apply Rltb_true in E. constructor; [now constructor|]. constructor; [cbn; lra|].
    rewrite Forall_forall in *. intros p Q. specialize (F p Q). cbn in *. lra.
  - apply Rltb_false in E. constructor; auto. rewrite Forall_forall in *. intros p Q.
    apply (Permutation_in _ (insert_perm v a l)) in Q. destruct Q as [<-|Q]; cbn; [lra|]. exact (F p Q).
Qed.
Lemma sub_sorted : forall (l1 l2 : list (R * A)) p, sorted (l1 ++ p :: l2) -> sorted (l1 ++ l2).
Proof.
  induction l1 as [|q l1 IH]; cbn; intros l2 p H; inversion H as [|? ? H1 H2]; subst; auto.
  constructor; [eapply IH; eauto|]. apply Forall_app in H2. destruct H2 as [F1 F2]. apply Forall_app. split; auto.
  now inversion F2.
Qed.
(** Erasing removes exactly the entry. *)
Lemma erase_from_ok : forall old (a : A) l, sorted l -> (forall p, In p l -> old <= fst p) -> In (old, a) l ->
  exists l1 l2, l = l1 ++ (old, a) :: l2 /\ mm_erase_from aeqb old a l = Ok (l1 ++ l2).
Proof using aeqb_ok.
  intros old a l H. induction H as [|[v a'] l H IH F]; intros Hl Q; [destruct Q|]. cbn.
  assert (Ev : v = old).
  { destruct Q as [[= -> _]|Q]; auto. rewrite Forall_forall in F. specialize (F _ Q). cbn in F.
    specialize (Hl (v, a') (or_introl eq_refl)). cbn in Hl. lra. }
  subst v. destruct (Req_EM_T old old) as [_|]; [|congruence]. destruct (aeqb a' a) eqn:E.
  - apply aeqb_ok in E. subst a'. exists [], l. auto.
  - destruct Q as [[= ->]|Q]; [rewrite (keqb_refl aeqb aeqb_ok) in E; discriminate|].
    destruct IH as (l1 & l2 & El & Ee); auto; [intros p P; apply Hl; now right|]. rewrite Ee. cbn [bind].
    exists ((old, a') :: l1), l2. split; [cbn; now rewrite <- El|reflexivity].
Qed.
Lemma erase_ok : forall old (a : A) l, sorted l -> In (old, a) l ->
  exists l1 l2, l = l1 ++ (old, a) :: l2 /\ mm_erase aeqb old a l = Ok (l1 ++ l2).
Proof using aeqb_ok.
  intros old a l H. induction H as [|[v a'] l H IH F]; intros Q; [destruct Q|]. cbn [mm_erase].
  destruct (Req_EM_T v old) as [->|N].
  - apply erase_from_ok; auto; [now constructor|]. intros p [<-|P]; cbn; [lra|]. rewrite Forall_forall in F. exact (F p P).
  - destruct Q as [[= -> _]|Q]; [congruence|]. destruct (IH Q) as (l1 & l2 & El & Ee). rewrite Ee. cbn [bind].
    exists ((v, a') :: l1), l2. split; [cbn; now rewrite <- El|reflexivity].
Qed.

Lemma mdel_in : forall V (m : list (A * V)) a p, In p (mdel aeqb m a) <-> In p m /\ fst p <> a.
Proof using aeqb_ok.
  intros V m a p. unfold mdel. rewrite filter_In, negb_true_iff. split; intros [H1 H2]; split; auto.
  - intros <-. now rewrite (keqb_refl aeqb aeqb_ok) in H2.
  - now apply (keqb_ne aeqb aeqb_ok).
Qed.
Lemma mdel_nodup : forall V (m : list (A * V)) a, NoDup (map fst m) -> NoDup (map fst (mdel aeqb m a)).
Proof using Type. intros V m a H. now apply nodup_filter_map. Qed.
Lemma mdel_perm : forall V (m : list (A * V)) a v, NoDup (map fst m) -> In (a, v) m -> Permutation m ((a, v) :: mdel aeqb m a).
Proof using aeqb_ok.
  intros V m a v ND I. apply NoDup_Permutation.
  - eapply NoDup_map_inv; eauto.
  - constructor; [rewrite mdel_in; cbn; tauto|]. eapply NoDup_map_inv. now apply mdel_nodup.
  - intros [a' v']. cbn. rewrite mdel_in. cbn. split.
    + intros Q. destruct (aeqb a' a) eqn:E.
      * apply aeqb_ok in E. subst a'. left. f_equal.
        pose proof (in_lookup aeqb aeqb_ok _ _ _ _ ND I). pose proof (in_lookup aeqb aeqb_ok _ _ _ _ ND Q). congruence.
      * right. split; auto. intros ->. now rewrite (keqb_refl aeqb aeqb_ok) in E.
    + intros [[= -> ->]|[Q _]]; auto.
Qed.

(** update_maps *)
Lemma update_ok : forall l (x : @tmem A) a v, maps_ok l x -> In a l ->
  exists x', update_maps aeqb x a v = Ok x' /\ maps_ok l x' /\ t_m x' = t_m x /\ In (a, v) (t_a2q x') /\
    forall b w, b <> a -> (In (b, w) (t_a2q x') <-> In (b, w) (t_a2q x)).
Proof using aeqb_ok.
  intros l x a v [K N P S] Ia. unfold update_maps. apply K in Ia. apply in_map_iff in Ia. destruct Ia as ([a' old] & E & I).
  cbn in E. subst a'. rewrite (in_lookup aeqb aeqb_ok _ _ _ _ N I).
  assert (Iq : In (old, a) (t_q2a x)).
  { eapply Permutation_in; [exact P|]. apply in_map_iff. now exists (a, old). }
  destruct (erase_ok old a (t_q2a x) S Iq) as (l1 & l2 & El & Ee). rewrite Ee. cbn [bind]. eexists. split; [reflexivity|].
  assert (Na : ~ In a (map fst (mdel aeqb (t_a2q x) a))).
  { intros Q. apply in_map_iff in Q. destruct Q as (p & E & Q). apply mdel_in in Q. now apply Q. }
  assert (Em : mput aeqb (mdel aeqb (t_a2q x) a) a v = mdel aeqb (t_a2q x) a ++ [(a, v)]) by (now apply (mput_new aeqb aeqb_ok)).
  split; [constructor; cbn [t_a2q t_q2a]|cbn [t_m t_a2q]].
  - intros b. rewrite Em, map_app, in_app_iff. cbn. rewrite <- K. split.
    + intros [Q|[<-|[]]].
      * apply in_map_iff in Q. destruct Q as (p & <- & Q). apply mdel_in in Q. apply in_map. tauto.
      * apply in_map_iff. now exists (a, old).
    + intros Q. apply in_map_iff in Q. destruct Q as ([b' w] & <- & Q). cbn. destruct (aeqb b' a) eqn:E.
      * apply aeqb_ok in E. auto.
      * left. apply in_map_iff. exists (b', w). split; auto. apply mdel_in. split; auto. cbn. intros ->.
        now rewrite (keqb_refl aeqb aeqb_ok) in E.
  - apply (mput_nodup aeqb aeqb_ok), mdel_nodup, N.
  - rewrite Em, map_app. cbn. eapply perm_trans; [apply Permutation_sym, Permutation_cons_append|].
    eapply perm_trans; [|apply Permutation_sym, insert_perm]. constructor.
    pose proof (Permutation_map (fun p : A * R => (snd p, fst p)) (mdel_perm _ _ _ _ N I)) as P1. cbn in P1.
    apply Permutation_cons_inv with (a := (old, a)). eapply perm_trans; [apply Permutation_sym, P1|].
    eapply perm_trans; [exact P|]. rewrite El. apply Permutation_sym, Permutation_middle.
  - apply insert_sorted. rewrite El in S. eapply sub_sorted; eauto.
  - split; auto. rewrite Em. split; [apply in_or_app; right; now left|].
    intros b w Nb. rewrite in_app_iff, mdel_in. cbn. split; [|tauto]. intros [Q|[[= -> ->]|[]]]; tauto.
Qed.

(** ** The sparse set *)
Definition vsum (l : list (R * A)) : R := rsum_of fst l.
Notation desc := (StronglySorted (fun p q : R * A => fst q <= fst p)).
(** Once an entry is left out, so are all later ones. *)
Lemma loop_out : forall l i sum v, 0 <= i -> desc l -> (forall p, In p l -> fst p <= v) -> 1 + i * v <= sum -> sparse_loop l i sum = @nil A.
Proof.
  intros l i sum v Hi H. revert i sum v Hi. induction H as [|[w a] l H IH F]; intros i sum v Hi Hv Hs; cbn; auto.
  assert (Hw : w <= v) by (apply (Hv (w, a)); now left).
  assert (Hc : 1 + (i + 1) * w <= sum + w) by nra.
  destruct (Rltb (sum + w) (1 + (i + 1) * w)) eqn:E; [apply Rltb_true in E; lra|].
  apply IH with w; auto; [lra|]. rewrite Forall_forall in F. exact F.
Qed.
Lemma loop_prefix : forall l i sum, 0 <= i -> desc l ->
  exists l1 l2, l = l1 ++ l2 /\ sparse_loop l i sum = map snd l1 /\
    (forall p, In p l1 -> sum + vsum l1 < 1 + (i + INR (length l1)) * fst p) /\
    (0 < i \/ l1 <> [] -> forall p, In p l2 -> 1 + (i + INR (length l1)) * fst p <= sum + vsum l1) /\
    (i = 0 -> sum = 0 -> l <> [] -> l1 <> []).
Proof.
  intros l i sum Hi H. revert i sum Hi. induction H as [|[v a] l H IH F]; intros i sum Hi.
  - exists [], []. cbn. split; [|split; [|split; [|split]]]; auto; try (intros; contradiction); try (intros _ p []).
  - rewrite Forall_forall in F. cbn [sparse_loop]. destruct (Rltb (sum + v) (1 + (i + 1) * v)) eqn:E.
    + apply Rltb_true in E. destruct (IH (i + 1) (sum + v)) as (l1 & l2 & El & Es & H1 & H2 & _); [lra|].
      exists ((v, a) :: l1), l2. split; [cbn; now rewrite <- El|]. split; [cbn; now rewrite Es|].
      cbn [length]. rewrite S_INR. unfold vsum in *. rewrite rsum_of_cons. cbn [fst].
      assert (Inr : 0 <= INR (length l1)) by apply pos_INR.
      split.
      * intros p [<-|Q]; cbn [fst].
        -- destruct l1 as [|q l1]; [rewrite rsum_of_nil; cbn [length INR]; lra|]. specialize (H1 q (or_introl eq_refl)).
           assert (fst q <= v) by (apply F; rewrite El; now left). nra.
        -- specialize (H1 p Q). lra.
      * split; [|discriminate]. intros _ p Q. assert (L : 0 < i + 1 \/ l1 <> []) by (left; lra). specialize (H2 L p Q). lra.
    + apply Rltb_false in E. exists [], ((v, a) :: l). split; auto.
      assert (Eo : sparse_loop l (i + 1) (sum + v) = []) by (apply loop_out with v; auto; lra).
      rewrite Eo. split; auto. split; [intros p []|]. split.
      * intros [Pi|]; [|congruence]. unfold vsum. rewrite rsum_of_nil. cbn [length INR]. intros p [<-|Q]; cbn [fst].
        -- lra.
        -- specialize (F p Q). cbn in F. nra.
      * intros -> -> _. exfalso. lra.
Qed.

Lemma sorted_app1 : forall (T : Type) (r : T -> T -> Prop) l x, StronglySorted r l -> (forall y, In y l -> r y x) -> StronglySorted r (l ++ [x]).
Proof.
  intros T r l x H. induction H as [|y l H IH F]; intros K; cbn; [repeat constructor|].
  constructor; [apply IH; intros z Q; apply K; now right|]. apply Forall_app. split; auto. constructor; auto. apply K. now left.
Qed.
Lemma sorted_rev : forall l : list (R * A), sorted l -> desc (rev l).
Proof.
  intros l H. induction H as [|p l H IH F]; cbn; [constructor|]. apply sorted_app1; auto.
  intros q Q. apply in_rev in Q. rewrite Forall_forall in F. now apply F.
Qed.

(** The threshold that makes the positive parts sum to one. *)
Lemma sparse_threshold : forall l (x : @tmem A) z, l <> [] -> NoDup l -> maps_hold l x z ->
  exists tau, let s := sparse_set x in s <> [] /\
    (forall a, In a s <-> In a l /\ tau < z a) /\ NoDup s /\ tau * INR (length s) = rsum_of z s - 1.
Proof using aeqb_ok.
  intros l x z NE NDl ([K N P S] & Hz). unfold sparse_set. cbv zeta.
  assert (Pk : Permutation (map snd (rev (t_q2a x))) l).
  { eapply perm_trans; [rewrite map_rev; apply Permutation_sym, Permutation_rev|].
    eapply perm_trans; [apply Permutation_map, Permutation_sym, P|]. rewrite map_map. cbn.
    apply NoDup_Permutation; auto. }
  destruct (loop_prefix (rev (t_q2a x)) 0 0 ltac:(lra) (sorted_rev _ S)) as (l1 & l2 & El & Es & H1 & H2 & H3).
  assert (NEr : rev (t_q2a x) <> []) by (intros E; rewrite E in Pk; cbn in Pk; apply Permutation_nil in Pk; congruence).
  specialize (H3 eq_refl eq_refl NEr). rewrite Es. specialize (H2 (or_intror H3)).
  assert (Lp : 0 < INR (length l1)) by (apply lt_0_INR; destruct l1; [congruence|cbn; lia]).
  assert (Ev : forall p, In p (rev (t_q2a x)) -> In (snd p) l /\ fst p = z (snd p)).
  { intros [v a] Q. assert (Ia : In a l) by (eapply Permutation_in; [exact Pk|]; apply in_map_iff; now exists (v, a)).
    split; auto. cbn. apply in_rev in Q. apply (Permutation_in _ (Permutation_sym P)) in Q. apply in_map_iff in Q.
    destruct Q as ([a' v'] & [= <- <-] & Q). cbn in *. destruct (Hz a' Ia) as [Q2 _].
    pose proof (in_lookup aeqb aeqb_ok _ _ _ _ N Q). pose proof (in_lookup aeqb aeqb_ok _ _ _ _ N Q2). congruence. }
  assert (Sm : vsum l1 = rsum_of z (map snd l1)).
  { unfold vsum. rewrite rsum_of_map. apply rsum_of_ext. intros p Q. apply Ev. rewrite El. apply in_or_app. now left. }
  exists ((vsum l1 - 1) / INR (length l1)). split; [destruct l1; [congruence|discriminate]|]. split; [|split].
  - intros a. split.
    + intros Q. apply in_map_iff in Q. destruct Q as (p & <- & Q). specialize (H1 p Q).
      destruct (Ev p) as [Q1 Q2]; [rewrite El; apply in_or_app; now left|]. split; auto. rewrite <- Q2.
      apply Rmult_lt_reg_r with (INR (length l1)); auto. unfold Rdiv. rewrite Rmult_assoc, Rinv_l by lra. lra.
    + intros [Ia Lt]. apply (Permutation_in _ (Permutation_sym Pk)) in Ia. apply in_map_iff in Ia. destruct Ia as (p & <- & Q).
      destruct (Ev p Q) as [_ E2]. rewrite El in Q. apply in_app_or in Q. destruct Q as [Q|Q]; [now apply in_map|].
      exfalso. specialize (H2 p Q). rewrite <- E2 in Lt.
      apply Rmult_lt_compat_r with (r := INR (length l1)) in Lt; auto. unfold Rdiv in Lt. rewrite Rmult_assoc, Rinv_l in Lt by lra. lra.
  - assert (NDr : NoDup (map snd (rev (t_q2a x)))) by (eapply Permutation_NoDup; [apply Permutation_sym, Pk|exact NDl]).
    rewrite El, map_app in NDr. revert NDr. generalize (map snd l1) (map snd l2). clear.
    intros u w. induction u as [|b u IH]; cbn; intros H; [constructor|]. inversion H as [|? ? Nb H']; subst. constructor; auto.
    intros Q. apply Nb. apply in_or_app. now left.
  - rewrite map_length, <- Sm. field. lra.
Qed.

Lemma aeq_dec : forall a b : A, {a = b} + {a <> b}.
Proof using aeqb_ok.
  intros a b. destruct (aeqb a b) eqn:E; [left; now apply aeqb_ok|right]. intros ->. now rewrite (keqb_refl aeqb aeqb_ok) in E.
Qed.
(** Sums of functions that vanish outside a subset. *)
Lemma sum_on : forall (f : A -> R) l s, NoDup l -> NoDup s -> (forall a, In a s -> In a l) -> (forall a, In a l -> ~ In a s -> f a = 0) ->
  rsum_of f l = rsum_of f s.
Proof using aeqb_ok.
  intros f l s. revert l. induction s as [|b s IH]; intros l Hl Hs Sub Z.
  - rewrite rsum_of_nil. rewrite (rsum_of_ext _ _ (fun _ => 0)); [|intros a Q; apply Z; auto]. rewrite rsum_of_const. lra.
  - inversion Hs as [|? ? Nb Hs']; subst. assert (Q : In b l) by (apply Sub; now left). apply in_split in Q. destruct Q as (u & w & ->).
    rewrite (rsum_of_perm _ f (u ++ b :: w) (b :: u ++ w)) by (apply Permutation_sym, Permutation_middle).
    rewrite !rsum_of_cons. f_equal. pose proof (NoDup_remove_1 _ _ _ Hl) as H1. pose proof (NoDup_remove_2 _ _ _ Hl) as H2. apply IH; auto.
    + intros a Q. specialize (Sub a (or_intror Q)). apply in_app_or in Sub. apply in_or_app. destruct Sub as [|[->|]]; auto. contradiction.
    + intros a Q NQ. apply Z; [apply in_app_or in Q; apply in_or_app; cbn; tauto|]. intros [->|]; auto.
Qed.

(** ** The positive part above the threshold is the projection on the simplex *)
Section Threshold.
Variables (l : list A) (z : A -> R) (tau : R).
Notation w := (fun a => Rmax (z a - tau) 0).
Hypothesis one : rsum_of w l = 1.
Lemma w_simplex : on_simplex l w.
Proof. split; [intros; apply Rmax_r|exact one]. Qed.
Lemma w_near : forall p, on_simplex l p -> dist2 l w z + dist2 l p w <= dist2 l p z.
Proof.
  intros p [P0 P1]. unfold dist2.
  assert (H : rsum_of (fun a => (w a - z a) ^ 2 + (p a - w a) ^ 2) l <= rsum_of (fun a => (p a - z a) ^ 2 + 2 * tau * (p a - w a)) l).
  { apply rsum_of_le. intros a Q. specialize (P0 a Q). unfold Rmax. destruct (Rle_dec (z a - tau) 0); nra. }
  rewrite !rsum_of_plus in H.
  assert (E : rsum_of (fun a => 2 * tau * (p a - w a)) l = 0).
  { rewrite rsum_of_scale. replace (fun a => p a - w a) with (fun a => p a + -1 * w a).
    - rewrite rsum_of_plus, rsum_of_scale, P1. rewrite one. lra.
    - apply FunctionalExtensionality.functional_extensionality. intros; lra. }
  lra.
Qed.
End Threshold.

(** Maps that are in order hold some values. *)
Lemma maps_values : forall l (x : @tmem A), maps_ok l x -> maps_hold l x (valf aeqb (t_a2q x)).
Proof using aeqb_ok.
  intros l x H. split; auto. destruct H as [K N P S]. intros a Ia. apply K in Ia. apply in_map_iff in Ia.
  destruct Ia as ([a' v] & E & I). cbn in E. subst a'. unfold valf. rewrite (in_lookup aeqb aeqb_ok _ _ _ _ N I).
  split; auto. eapply Permutation_in; [exact P|]. apply in_map_iff. now exists (a, v).
Qed.
Lemma hold_lookup : forall l (x : @tmem A) z a, maps_hold l x z -> In a l -> lookup aeqb a (t_a2q x) = Some (z a).
Proof using aeqb_ok. intros l x z a ([K N P S] & H) Ia. apply (in_lookup aeqb aeqb_ok); auto. now apply H. Qed.

Lemma objective_dist : forall (l : list A) z p, sparse_objective l z p = 1 / 2 + 1 / 2 * rsum_of (fun a => z a ^ 2) l - 1 / 2 * dist2 l p z.
Proof.
  intros l z p. unfold sparse_objective, dist2.
  assert (E : forall c d e f : R, c = (d - e + f) / 2 -> c + 1 / 2 * (1 - d) = 1 / 2 + 1 / 2 * f - 1 / 2 * e) by (intros; lra).
  apply E. induction l as [|a l IH]; rewrite ?rsum_of_nil, ?rsum_of_cons; [lra|]. rewrite IH. unfold Rdiv.
  ring_simplify. set (u := rsum_of (fun a0 : A => p a0 ^ 2) l). lra.
Qed.
Section Sparse.
Variables (l : list A) (z : A -> R) (tau : R) (s : list A).
Hypothesis NDl : NoDup l.
Hypothesis NDs : NoDup s.
Hypothesis Hs : forall a, In a s <-> In a l /\ tau < z a.
Hypothesis Ht : tau * INR (length s) = rsum_of z s - 1.
Notation w := (fun a => Rmax (z a - tau) 0).
Lemma w_total : rsum_of w l = 1.
Proof using All.
  rewrite (sum_on w l s); auto.
  - rewrite (rsum_of_ext _ _ (fun a => z a + - tau)).
    + rewrite rsum_of_plus, rsum_of_const. lra.
    + intros a Q. apply Hs in Q. rewrite Rmax_left; lra.
  - intros a Q. now apply Hs.
  - intros a Q NQ. apply Rmax_right. destruct (Rlt_le_dec tau (z a)); [|lra]. elim NQ. now apply Hs.
Qed.
Lemma w_projection : projection l z w.
Proof using All.
  split; [apply w_simplex, w_total|]. intros p P. pose proof (w_near l z tau w_total p P).
  assert (0 <= dist2 l p w) by (apply rsum_of_nonneg; intros; apply pow2_ge_0). lra.
Qed.
Lemma w_unique : forall p, projection l z p -> forall a, In a l -> p a = w a.
Proof using All.
  intros p [P1 P2] a Ia. pose proof (w_near l z tau w_total p P1) as H. specialize (P2 w (w_simplex l z tau w_total)).
  assert (Z : (p a - w a) ^ 2 <= dist2 l p w) by (apply (rsum_of_mem _ (fun b => (p b - w b) ^ 2)); auto; intros; apply pow2_ge_0).
  pose proof (pow2_ge_0 (p a - w a)). assert (E : (p a - w a) ^ 2 = 0) by lra.
  assert (E2 : p a - w a = 0) by (apply Rsqr_0_uniq; unfold Rsqr; lra). lra.
Qed.
Lemma w_objective : sparse_objective l z w = 1 / 2 + rsum_of (fun a => z a ^ 2 / 2 - tau ^ 2 / 2) s.
Proof using All.
  assert (Sub : forall a, In a s -> In a l) by (intros a Q; now apply Hs).
  assert (Off : forall a, In a l -> ~ In a s -> w a = 0).
  { intros a Q NQ. apply Rmax_right. destruct (Rlt_le_dec tau (z a)); [|lra]. elim NQ. now apply Hs. }
  unfold sparse_objective. rewrite (sum_on (fun a => w a * z a) l s), (sum_on (fun a => w a ^ 2) l s); auto;
    try (intros a Q NQ; rewrite (Off a Q NQ); lra).
  rewrite (rsum_of_ext _ (fun a => w a * z a) (fun a => (z a - tau) * z a)),
    (rsum_of_ext _ (fun a => w a ^ 2) (fun a => (z a - tau) ^ 2));
    try (intros a Q; apply Hs in Q; cbv beta; rewrite Rmax_left; lra).
  assert (G : forall t, rsum_of (fun a => (z a - tau) * z a) t - 1 / 2 * rsum_of (fun a => (z a - tau) ^ 2) t =
    rsum_of (fun a => z a ^ 2 / 2 - tau ^ 2 / 2) t).
  { induction t as [|a t IH]; rewrite ?rsum_of_nil, ?rsum_of_cons; lra. }
  specialize (G s). lra.
Qed.
Lemma w_max : sparse_max l z (1 / 2 + rsum_of (fun a => z a ^ 2 / 2 - tau ^ 2 / 2) s).
Proof using All.
  split.
  - exists w. split; [apply w_simplex, w_total|]. symmetry. apply w_objective.
  - intros p P. rewrite <- w_objective, !objective_dist. pose proof (proj2 w_projection p P). lra.
Qed.
End Sparse.

Lemma fold_rsum : forall (l : list (A * R)) b (f : A * R -> R), fold_left (fun s p => s + f p) l b = b + rsum_of f l.
Proof.
  induction l as [|p l IH]; intros b f; cbn [fold_left]; [rewrite rsum_of_nil; lra|]. rewrite IH, rsum_of_cons. lra.
Qed.
(** spmax is the sparse maximum of the values in the maps. *)
Lemma spmax_ok : forall l (x : @tmem A) z, l <> [] -> NoDup l -> maps_hold l x z ->
  exists v, spmax aeqb x = Ok v /\ sparse_max l z v.
Proof using aeqb_ok.
  intros l x z NE ND H. destruct (sparse_threshold l x z NE ND H) as (tau & Ns & Hs & NDs & Ht). unfold spmax.
  rewrite (all_q_total _ z).
  2:{ intros a Q. apply Hs in Q. unfold mat. now rewrite (hold_lookup l x z a H (proj1 Q)). }
  cbn [bind]. eexists. split; [reflexivity|]. rewrite (fold_rsum _ (1 / 2) (fun p => snd p ^ 2 / 2 - _)), fold_rsum, !rsum_of_map. cbn [snd].
  match goal with |- sparse_max _ _ ?v => replace v with (1 / 2 + rsum_of (fun a => z a ^ 2 / 2 - tau ^ 2 / 2) (sparse_set x)) end;
    [apply w_max; auto|].
  f_equal. apply rsum_of_ext. intros a _. f_equal. assert (Lp : 0 < INR (length (sparse_set x))).
  { apply lt_0_INR. destruct (sparse_set x); [congruence|cbn; lia]. }
  change (rsum_of (fun x0 : A => z x0) (sparse_set x)) with (rsum_of z (sparse_set x)).
  replace (rsum_of z (sparse_set x)) with (tau * INR (length (sparse_set x)) + 1) by lra. field. lra.
Qed.
End Maps.

Section Nodes.
Context {S A : Type}.
Variable aeqb : A -> A -> bool.
Hypothesis aeqb_ok : decides aeqb.
Variable C : @econf S A.
Variable M : @mconf S A.
Notation dnode := (@dnode S A).
Notation cnode := (@cnode S A).
Hypothesis acts_nodup : forall s, NoDup (acts C s).

(** The constructor puts every action with its value into both maps. *)
Lemma new_maps : forall n, prior_total C M n ->
  t_m (tents_new_d aeqb C M n) = ments_new_d C M n /\
  maps_ok (acts C (dstate n)) (tents_new_d aeqb C M n) /\
  forall a v, In (a, v) (t_a2q (tents_new_d aeqb C M n)) <->
    In a (acts C (dstate n)) /\ q_over_temp aeqb M n (ments_new_d C M n) [] a = Ok v.
Proof using aeqb_ok acts_nodup.
  intros n Hp. unfold tents_new_d. cbv zeta. set (m := ments_new_d C M n).
  assert (Hq : forall a, In a (acts C (dstate n)) -> exists v, q_over_temp aeqb M n m [] a = Ok v).
  { intros a Ia. unfold q_over_temp. destruct (ments_q_total aeqb aeqb_ok C M n m [] a Hp Ia) as (v & ->). cbn. eauto. }
  assert (G : forall l x done, NoDup (done ++ l) -> (forall a, In a l -> exists v, q_over_temp aeqb M n m [] a = Ok v) ->
    t_m x = m -> maps_ok done x ->
    (forall a v, In (a, v) (t_a2q x) <-> In a done /\ q_over_temp aeqb M n m [] a = Ok v) ->
    let x' := fold_left (fun x a => match q_over_temp aeqb M n m [] a with
                        | Ok v => mkTm m (mput aeqb (t_a2q x) a v) (mm_insert v a (t_q2a x))
                        | _ => x end) l x in
    t_m x' = m /\ maps_ok (done ++ l) x' /\
    (forall a v, In (a, v) (t_a2q x') <-> In a (done ++ l) /\ q_over_temp aeqb M n m [] a = Ok v)).
  { induction l as [|a l IH]; intros x done ND Hl Em [K N P Ss] Hx; cbn [fold_left].
    - rewrite app_nil_r. split; [|split]; auto. now constructor.
    - destruct (Hl a (or_introl eq_refl)) as (v & Ev). rewrite Ev.
      assert (Na : ~ In a (map fst (t_a2q x))).
      { rewrite K. intros Q. apply NoDup_remove_2 in ND. apply ND, in_or_app. now left. }
      specialize (IH (mkTm m (mput aeqb (t_a2q x) a v) (mm_insert v a (t_q2a x))) (done ++ [a])).
      rewrite <- app_assoc in IH. cbn [app] in IH. rewrite (mput_new aeqb aeqb_ok) in * by exact Na.
      apply IH; auto.
      + intros b Q. apply Hl. now right.
      + constructor; cbn [t_a2q t_q2a].
        * intros b. rewrite map_app, !in_app_iff, K. reflexivity.
        * rewrite map_app. cbn. apply Permutation_NoDup with (a :: map fst (t_a2q x)); [apply Permutation_cons_append|].
          constructor; auto.
        * rewrite map_app. cbn. eapply perm_trans; [apply Permutation_sym, Permutation_cons_append|].
          eapply perm_trans; [|apply Permutation_sym, insert_perm]. now constructor.
        * now apply insert_sorted.
      + intros b w. cbn [t_a2q]. rewrite !in_app_iff, Hx. cbn. split.
        * intros [[Q1 Q2]|[[= <- <-]|[]]]; auto.
        * intros [[Q|[<-|[]]] E]; auto. right. left. congruence. }
  specialize (G (acts C (dstate n)) (mkTm m [] []) []). cbn [app] in G. apply G; auto.
  - constructor; cbn; [tauto|constructor|constructor|constructor].
  - intros a v. cbn. tauto.
Qed.

(** The weights, whatever the maps hold. *)
Lemma tents_weights_ok : forall n x (kids : list (A * (cnode * cmem))), prior_total C M n -> acts C (dstate n) <> [] ->
  maps_ok (acts C (dstate n)) x ->
  exists w tau, tents_weights aeqb C M n x kids = Ok (w, rsum_of (valf aeqb w) (acts C (dstate n))) /\
    map fst w = acts C (dstate n) /\ 1 <= rsum_of (valf aeqb w) (acts C (dstate n)) /\
    (forall a, In a (acts C (dstate n)) -> exists q, q_over_temp aeqb M n (t_m x) kids a = Ok q /\ valf aeqb w a = Rmax (q - tau) 0) /\
    forall z, (forall a, In a (acts C (dstate n)) -> q_over_temp aeqb M n (t_m x) kids a = Ok (z a)) ->
      tau = (rsum_of z (sparse_set x) - 1) / INR (length (sparse_set x)).
Proof using aeqb_ok acts_nodup.
  intros n x kids Hp NE Mo. set (l := acts C (dstate n)) in *. pose proof (acts_nodup (dstate n)) as ND. fold l in ND.
  destruct (sparse_threshold aeqb aeqb_ok l x _ NE ND (maps_values aeqb aeqb_ok l x Mo)) as (t0 & Ns & Hs & NDs & _). cbv zeta in *.
  unfold tents_weights. fold l. cbv zeta.
  assert (Hq : forall a, In a l -> exists v, q_over_temp aeqb M n (t_m x) kids a = Ok v).
  { intros a Ia. unfold q_over_temp. destruct (ments_q_total aeqb aeqb_ok C M n (t_m x) kids a Hp Ia) as (v & ->). cbn. eauto. }
  destruct (all_q_ex _ _ Hq) as (qs & Eq). destruct (all_q_fun aeqb aeqb_ok _ _ _ ND Eq) as [Em Ev].
  rewrite (all_q_total _ (valf aeqb qs) (sparse_set x)) by (intros a Q; apply Ev; now apply Hs). cbn [bind]. rewrite Eq. cbn [bind].
  rewrite fold_rsum, rsum_of_map. cbn [snd]. rewrite Rplus_0_l.
  set (tau := (rsum_of (fun x0 => valf aeqb qs x0) (sparse_set x) - 1) / INR (length (sparse_set x))).
  assert (Lp : 0 < INR (length (sparse_set x))) by (apply lt_0_INR; destruct (sparse_set x); [congruence|cbn; lia]).
  assert (Ek : map fst qs = l) by (rewrite Em, map_map; cbn; now rewrite map_id).
  rewrite (weight_loop_eq aeqb aeqb_ok) by (rewrite Ek; exact ND).
  set (f := fun q : R => if Rltb (q - tau) 0 then 0 else q - tau).
  assert (Ef : forall q, f q = Rmax (q - tau) 0).
  { intros q. unfold f. destruct (Rltb (q - tau) 0) eqn:E; [apply Rltb_true in E; rewrite Rmax_right; lra|apply Rltb_false in E; rewrite Rmax_left; lra]. }
  set (w := map (fun p => (fst p, f (snd p))) qs).
  assert (Kw : map fst w = l) by (unfold w; rewrite map_map; cbn; exact Ek).
  assert (Vw : forall a, In a l -> valf aeqb w a = f (valf aeqb qs a)).
  { intros a Ia. unfold valf at 1. assert (Q : In (a, f (valf aeqb qs a)) w).
    { unfold w. rewrite Em, map_map. cbn. apply in_map_iff. exists a. split; auto. now rewrite <- Em. }
    rewrite (in_lookup aeqb aeqb_ok _ w a (f (valf aeqb qs a))); auto. now rewrite Kw. }
  assert (Sw : rsum_of (fun p => f (snd p)) qs = rsum_of (valf aeqb w) l).
  { rewrite Em, rsum_of_map. cbn [snd]. apply rsum_of_ext. intros a Q. now rewrite Vw. }
  assert (Ge : 1 <= rsum_of (valf aeqb w) l).
  { assert (E1 : rsum_of (fun a => valf aeqb qs a + - tau) (sparse_set x) = 1).
    { rewrite rsum_of_plus, rsum_of_const. change (rsum_of (valf aeqb qs) (sparse_set x)) with (rsum_of (fun x0 => valf aeqb qs x0) (sparse_set x)). unfold tau. field. lra. }
    assert (E2 : rsum_of (fun a => if in_dec (aeq_dec aeqb aeqb_ok) a (sparse_set x) then valf aeqb qs a + - tau else 0) l = 1).
    { rewrite (sum_on aeqb aeqb_ok _ l (sparse_set x)); auto.
      - rewrite <- E1. apply rsum_of_ext. intros a Q. destruct (in_dec _ a (sparse_set x)); [auto|contradiction].
      - intros a Q. now apply Hs.
      - intros a _ Q. destruct (in_dec _ a (sparse_set x)); [contradiction|auto]. }
    rewrite <- E2 at 1. apply rsum_of_le. intros a Q. rewrite Vw, Ef by exact Q.
    destruct (in_dec _ a (sparse_set x)); [eapply Rle_trans; [|apply Rmax_l]; lra|apply Rmax_r]. }
  exists w, tau. unfold uniform_if_small. cbn [fst snd]. change (rsum_of (fun p : A * R => if Rltb (snd p - tau) 0 then 0 else snd p - tau) qs)
    with (rsum_of (fun p : A * R => f (snd p)) qs). rewrite Sw.
  destruct (Rltb (rsum_of (valf aeqb w) l) ments_eps) eqn:E.
  { exfalso. apply Rltb_true in E. assert (ments_eps < 1) by (unfold ments_eps; lra). lra. }
  split; [reflexivity|]. split; auto. split; auto. split; [intros a Ia; exists (valf aeqb qs a); split; auto; now rewrite Vw, Ef|].
  intros z Hz. unfold tau. do 2 f_equal. apply rsum_of_ext. intros a Q. apply Hs in Q. destruct Q as [Q _].
  specialize (Hz a Q). rewrite (Ev a Q) in Hz. congruence.
Qed.
End Nodes.
