(** Proofs about the numeric loops of the soft-value algorithms. *)
From Coq Require Import List ZArith Bool Reals Lia Lra Permutation.
From Verif Require Import Base NumOps EngineModel EngineSpec HelperSpec RLemmas MentsModel SoftSpec.
Import ListNotations.
Open Scope R_scope.

(** ** Sums *)
Lemma rsum_of_cons : forall T (f : T -> R) x l, rsum_of f (x :: l) = f x + rsum_of f l.
Proof. reflexivity. Qed.
Lemma rsum_of_nil : forall T (f : T -> R), rsum_of f [] = 0.
Proof. reflexivity. Qed.
Lemma rsum_of_app : forall T (f : T -> R) l k, rsum_of f (l ++ k) = rsum_of f l + rsum_of f k.
Proof.
  intros T f l k. induction l as [|x l IH]; cbn [app]; rewrite ?rsum_of_cons, ?rsum_of_nil; [lra|rewrite IH; lra].
Qed.
Lemma rsum_of_perm : forall T (f : T -> R) l k, Permutation l k -> rsum_of f l = rsum_of f k.
Proof. intros T f l k P. induction P; rewrite ?rsum_of_cons in *; lra. Qed.
Lemma rsum_of_ext : forall T (f g : T -> R) l, (forall x, In x l -> f x = g x) -> rsum_of f l = rsum_of g l.
Proof.
  intros T f g l H. induction l as [|x l IH]; [reflexivity|]. rewrite !rsum_of_cons, IH, (H x); cbn; auto.
  intros y Q. apply H. now right.
Qed.
Lemma rsum_of_le : forall T (f g : T -> R) l, (forall x, In x l -> f x <= g x) -> rsum_of f l <= rsum_of g l.
Proof.
  intros T f g l H. induction l as [|x l IH]; [rewrite !rsum_of_nil; lra|]. rewrite !rsum_of_cons.
  pose proof (H x (or_introl eq_refl)). specialize (IH (fun y Q => H y (or_intror Q))). lra.
Qed.
Lemma rsum_of_scale : forall T (f : T -> R) c l, rsum_of (fun x => c * f x) l = c * rsum_of f l.
Proof. intros T f c l. induction l as [|x l IH]; rewrite ?rsum_of_cons, ?rsum_of_nil; [|rewrite IH]; lra. Qed.
Lemma rsum_of_plus : forall T (f g : T -> R) l, rsum_of (fun x => f x + g x) l = rsum_of f l + rsum_of g l.
Proof. intros T f g l. induction l as [|x l IH]; rewrite ?rsum_of_cons, ?rsum_of_nil; [|rewrite IH]; lra. Qed.
Lemma rsum_of_const : forall T c (l : list T), rsum_of (fun _ => c) l = INR (length l) * c.
Proof.
  intros T c l. induction l as [|x l IH]; [cbn; lra|]. rewrite rsum_of_cons, IH. cbn [length]. rewrite S_INR. lra.
Qed.
Lemma rsum_of_map : forall T U (f : U -> R) (h : T -> U) l, rsum_of f (map h l) = rsum_of (fun x => f (h x)) l.
Proof. intros. unfold rsum_of. now rewrite map_map. Qed.
Lemma rsum_of_nonneg : forall T (f : T -> R) l, (forall x, In x l -> 0 <= f x) -> 0 <= rsum_of f l.
Proof. intros T f l H. pose proof (rsum_of_le _ (fun _ => 0) f l H). rewrite rsum_of_const in H0. lra. Qed.
Lemma rsum_of_mem : forall T (f : T -> R) l x, (forall y, In y l -> 0 <= f y) -> In x l -> f x <= rsum_of f l.
Proof.
  intros T f l x H I. induction l as [|y l IH]; [destruct I|]. rewrite rsum_of_cons.
  assert (N : 0 <= rsum_of f l) by (apply rsum_of_nonneg; intros z Q; apply H; now right).
  destruct I as [->|I]; [lra|]. assert (0 <= f y) by (apply H; now left).
  assert (f x <= rsum_of f l) by (apply IH; auto; intros z Q; apply H; now right). lra.
Qed.
Lemma total_rsum : forall T (m : list (T * R)), total m = rsum_of snd m.
Proof. intros T m. induction m as [|[k w] m IH]; [reflexivity|]. cbn [total]. rewrite IH, rsum_of_cons. reflexivity. Qed.

(** ** Weighted averages *)
Definition wsum (l : list (Z * R)) : R := rsum_of (fun p => IZR (fst p) * snd p) l.
Definition nsum (l : list (Z * R)) : R := rsum_of (fun p => IZR (fst p)) l.

Lemma avg_fold : forall l v s, Forall (fun p => (0 <= fst p)%Z) l -> 0 <= s -> (s = 0 -> v = 0) ->
  let r := fold_left avg_step l (v, s) in
  snd r = s + nsum l /\ fst r * snd r = v * s + wsum l /\ (snd r = 0 -> fst r = 0).
Proof.
  induction l as [|[n x] l IH]; intros v s F Hs Hz; cbn [fold_left].
  - cbn. unfold nsum, wsum. cbn. repeat split; lra || auto.
  - inversion F as [|? ? F1 F2]; subst. unfold nsum, wsum. rewrite !rsum_of_cons. fold (nsum l) (wsum l). cbn [fst snd] in *.
    assert (A : avg_step (v, s) (n, x) = if (n =? 0)%Z then (v, s) else
      (v * ((s + IZR n - IZR n) / (s + IZR n)) + IZR n * x / (s + IZR n), s + IZR n)) by reflexivity.
    rewrite A. clear A. destruct (Z.eqb_spec n 0) as [->|Hn].
    + destruct (IH v s F2 Hs Hz) as (E1 & E2 & E3). split; [rewrite E1; lra|]. split; [rewrite E2; lra|]. exact E3.
    + assert (0 < IZR n) by (apply IZR_lt; lia).
      assert (S1 : 0 < s + IZR n) by lra.
      destruct (IH (v * ((s + IZR n - IZR n) / (s + IZR n)) + IZR n * x / (s + IZR n)) (s + IZR n) F2) as (E1 & E2 & E3); [lra|lra|].
      split; [rewrite E1; lra|]. split; [rewrite E2; field; lra|]. exact E3.
Qed.

Definition counts (l : list (Z * R)) : Prop := Forall (fun p => (0 <= fst p)%Z) l.

Lemma avg_loop_mean : forall l, counts l -> weighted_mean l (avg_loop l).
Proof.
  intros l F. destruct (avg_fold l 0 0 F (Rle_refl 0) (fun _ => eq_refl)) as (E1 & E2 & E3).
  unfold weighted_mean, avg_loop. fold (nsum l) (wsum l). split.
  - intros Z. apply E3. rewrite E1, Z. lra.
  - intros _. cbv zeta in *. rewrite E1 in E2. lra.
Qed.
Lemma weighted_mean_unique : forall l v w, weighted_mean l v -> weighted_mean l w -> v = w.
Proof.
  intros l v w [V1 V2] [W1 W2]. cbv zeta in *. destruct (Req_dec (rsum_of (fun p => IZR (fst p)) l) 0) as [E|E].
  - rewrite V1, W1; auto.
  - specialize (V2 E). specialize (W2 E). rewrite <- W2 in V2. eapply Rmult_eq_reg_r; eauto.
Qed.
Lemma weighted_mean_perm : forall l k v, Permutation l k -> weighted_mean l v -> weighted_mean k v.
Proof.
  intros l k v P. unfold weighted_mean. now rewrite (rsum_of_perm _ (fun p => IZR (fst p)) _ _ P),
    (rsum_of_perm _ (fun p => IZR (fst p) * snd p) _ _ P).
Qed.
Lemma avg_loop_perm : forall l k, counts l -> Permutation l k -> avg_loop l = avg_loop k.
Proof.
  intros l k F P. apply (weighted_mean_unique k); [|apply avg_loop_mean].
  - eapply weighted_mean_perm; [exact P|]. now apply avg_loop_mean.
  - eapply Permutation_Forall; eauto.
Qed.
Lemma nsum_zero : forall l, counts l -> nsum l = 0 -> forall n x, In (n, x) l -> n = 0%Z.
Proof.
  intros l F E n x I. assert (H : IZR n <= nsum l).
  { apply (rsum_of_mem _ (fun p => IZR (fst p)) l (n, x)); auto. intros y Q. apply IZR_le.
    unfold counts in F. rewrite Forall_forall in F. now apply F. }
  rewrite E in H. apply le_IZR in H. unfold counts in F. rewrite Forall_forall in F. specialize (F _ I). cbn in F. lia.
Qed.
Lemma weighted_mean_between : forall l v lo hi, counts l -> weighted_mean l v ->
  (exists n x, In (n, x) l /\ (0 < n)%Z) -> (forall n x, In (n, x) l -> (0 < n)%Z -> lo <= x <= hi) -> lo <= v <= hi.
Proof.
  intros l v lo hi F [_ W] (n0 & x0 & I0 & P0) H. fold (nsum l) (wsum l) in W.
  assert (F' := F). unfold counts in F'. rewrite Forall_forall in F'.
  assert (N : 0 < nsum l).
  { assert (IZR n0 <= nsum l).
    { apply (rsum_of_mem _ (fun p => IZR (fst p)) l (n0, x0)); auto. intros y Q. apply IZR_le. now apply F'. }
    assert (0 < IZR n0) by (now apply IZR_lt). lra. }
  specialize (W ltac:(lra)).
  assert (L : lo * nsum l <= wsum l).
  { unfold nsum. rewrite <- rsum_of_scale. apply rsum_of_le. intros [n x] Q. cbn. specialize (F' _ Q). cbn in F'.
    destruct (Z.eq_dec n 0) as [->|]; [lra|]. assert (0 < n)%Z by lia. specialize (H _ _ Q H0).
    assert (0 < IZR n) by (now apply IZR_lt). nra. }
  assert (U : wsum l <= hi * nsum l).
  { unfold nsum. rewrite <- rsum_of_scale. apply rsum_of_le. intros [n x] Q. cbn. specialize (F' _ Q). cbn in F'.
    destruct (Z.eq_dec n 0) as [->|]; [lra|]. assert (0 < n)%Z by lia. specialize (H _ _ Q H0).
    assert (0 < IZR n) by (now apply IZR_lt). nra. }
  rewrite <- W in L, U. split; eapply Rmult_le_reg_r; eauto; lra.
Qed.
Lemma avg_loop_abs : forall l b, counts l -> 0 <= b -> (forall n x, In (n, x) l -> Rabs x <= b) -> Rabs (avg_loop l) <= b.
Proof.
  intros l b F B H. pose proof (avg_loop_mean l F) as W.
  destruct (Req_dec (nsum l) 0) as [E|E].
  - destruct W as [W _]. rewrite W by exact E. rewrite Rabs_R0. exact B.
  - assert (X : exists n x, In (n, x) l /\ (0 < n)%Z).
    { clear - F E. unfold nsum in E. induction l as [|[n x] l IH]; [cbn in E; lra|].
      inversion F as [|? ? F1 F2]; subst. cbn in F1. destruct (Z.eq_dec n 0) as [->|].
      - destruct IH as (m & y & I & P); auto. { intros Q. apply E. rewrite rsum_of_cons, Q. cbn. lra. }
        exists m, y. split; [now right|auto].
      - exists n, x. split; [now left|lia]. }
    apply Rabs_le. apply (weighted_mean_between l _ (-b) b F W X). intros n x I _.
    specialize (H _ _ I). unfold Rabs in H; destruct (Rcase_abs x); lra.
Qed.

(** ** Extremal values *)
Lemma dp_fold_max : forall l b, counts l ->
  match fold_left (dp_step 1) l b with
  | Some v => ((b = Some v) \/ exists n, In (n, v) l /\ (0 < n)%Z) /\
              (forall n x, In (n, x) l -> (0 < n)%Z -> x <= v) /\ (forall x, b = Some x -> x <= v)
  | None => b = None /\ forall n x, In (n, x) l -> n = 0%Z
  end.
Proof.
  induction l as [|[n x] l IH]; intros b F; cbn [fold_left].
  - destruct b as [v|]; [|split; [auto|intros n x []]]. split; [auto|]. split; [intros n x []|]. intros x [= ->]. lra.
  - inversion F as [|? ? F1 F2]; subst. cbn in F1. specialize (IH (dp_step 1 b (n, x)) F2).
    destruct (fold_left (dp_step 1) l (dp_step 1 b (n, x))) as [v|].
    + destruct IH as (I1 & I2 & I3). unfold dp_step in I1, I3. cbn [fst snd] in I1, I3.
      destruct (Z.eqb_spec n 0) as [->|Hn].
      * split; [|split]; auto.
        -- destruct I1 as [I1|(m & Q & P)]; [auto|]. right. exists m. split; [now right|auto].
        -- intros m y [[= <- <-]|Q] P; [lia|eauto].
      * destruct b as [b|].
        -- destruct (Rltb (1 * b) (1 * x)) eqn:E.
           ++ apply Rltb_true in E. split; [|split].
              ** right. destruct I1 as [[= <-]|(m & Q & P)]; [exists n; split; [now left|lia]|exists m; split; [now right|auto]].
              ** intros m y [[= <- <-]|Q] P; [now apply I3|eauto].
              ** intros y [= <-]. specialize (I3 _ eq_refl). lra.
           ++ apply Rltb_false in E. split; [|split].
              ** destruct I1 as [I1|(m & Q & P)]; [auto|]. right. exists m. split; [now right|auto].
              ** intros m y [[= <- <-]|Q] P; [specialize (I3 _ eq_refl); lra|eauto].
              ** auto.
        -- split; [|split].
           ++ right. destruct I1 as [[= <-]|(m & Q & P)]; [exists n; split; [now left|lia]|exists m; split; [now right|auto]].
           ++ intros m y [[= <- <-]|Q] P; [now apply I3|eauto].
           ++ discriminate.
    + destruct IH as [I1 I2]. unfold dp_step in I1. cbn [fst snd] in I1. destruct (Z.eqb_spec n 0) as [->|Hn].
      * split; auto. intros m y [[= <- <-]|Q]; eauto.
      * exfalso. destruct b as [b|]; [destruct (Rltb _ _)|]; discriminate.
Qed.

Definition neg_values (l : list (Z * R)) : list (Z * R) := map (fun p => (fst p, - snd p)) l.

Lemma dp_fold_neg : forall l b, fold_left (dp_step (-1)) l b = option_map Ropp (fold_left (dp_step 1) (neg_values l) (option_map Ropp b)).
Proof.
  induction l as [|[n x] l IH]; intros b; cbn [fold_left neg_values map].
  - destruct b; cbn; [f_equal; lra|reflexivity].
  - rewrite IH. f_equal. unfold neg_values. f_equal. unfold dp_step. cbn [fst snd]. destruct (n =? 0)%Z; [reflexivity|].
    destruct b as [b|]; cbn [option_map]; [|reflexivity].
    replace (1 * - b) with (-1 * b) by lra. replace (1 * - x) with (-1 * x) by lra.
    destruct (Rltb (-1 * b) (-1 * x)); reflexivity.
Qed.
Lemma neg_counts : forall l, counts l -> counts (neg_values l).
Proof. intros l F. unfold counts, neg_values. apply Forall_map. exact F. Qed.

Lemma dp_loop_max : forall l, counts l -> (exists n x, In (n, x) l /\ (0 < n)%Z) ->
  exists v, dp_loop 1 l = Some v /\ is_max l v.
Proof.
  intros l F (n & x & I & P). unfold dp_loop. pose proof (dp_fold_max l None F) as H.
  destruct (fold_left (dp_step 1) l None) as [v|].
  - destruct H as ([H|H] & H2 & _); [discriminate|]. exists v. split; [reflexivity|]. split; auto.
  - destruct H as [_ H]. specialize (H _ _ I). lia.
Qed.
Lemma dp_loop_min : forall l, counts l -> (exists n x, In (n, x) l /\ (0 < n)%Z) ->
  exists v, dp_loop (-1) l = Some v /\ is_min l v.
Proof.
  intros l F (n & x & I & P). unfold dp_loop. rewrite dp_fold_neg. cbn [option_map].
  destruct (dp_loop_max (neg_values l) (neg_counts l F)) as (v & E & M1 & M2).
  { exists n, (- x). split; auto. unfold neg_values. apply in_map_iff. exists (n, x). auto. }
  unfold dp_loop in E. rewrite E. exists (- v). split; [reflexivity|]. split.
  - destruct M1 as (m & Q & P'). unfold neg_values in Q. apply in_map_iff in Q. destruct Q as ([m' y] & [= -> <-] & Q).
    exists m. split; auto. cbn. now rewrite Ropp_involutive.
  - intros m y Q P'. specialize (M2 m (- y)). assert (In (m, - y) (neg_values l)).
    { unfold neg_values. apply in_map_iff. exists (m, y). auto. }
    specialize (M2 H P'). lra.
Qed.
Lemma dp_loop_none : forall opp l, (opp = 1 \/ opp = -1) -> counts l -> dp_loop opp l = None -> forall n x, In (n, x) l -> n = 0%Z.
Proof.
  intros opp l [-> | ->] F E n x I.
  - unfold dp_loop in E. pose proof (dp_fold_max l None F) as H. rewrite E in H. destruct H as [_ H]. eauto.
  - unfold dp_loop in E. rewrite dp_fold_neg in E. cbn [option_map] in E.
    pose proof (dp_fold_max (neg_values l) None (neg_counts l F)) as H.
    destruct (fold_left (dp_step 1) (neg_values l) None); [discriminate|]. destruct H as [_ H].
    apply (H n (- x)). unfold neg_values. apply in_map_iff. exists (n, x). auto.
Qed.
Lemma is_max_unique : forall l v w, is_max l v -> is_max l w -> v = w.
Proof. intros l v w [(n & I & P) H] [(m & J & Q) K]. apply Rle_antisym; [apply (K _ _ I P)|apply (H _ _ J Q)]. Qed.
Lemma is_min_unique : forall l v w, is_min l v -> is_min l w -> v = w.
Proof. intros l v w [(n & I & P) H] [(m & J & Q) K]. apply Rle_antisym; [apply (H _ _ J Q)|apply (K _ _ I P)]. Qed.
Lemma is_max_perm : forall l k v, Permutation l k -> is_max l v -> is_max k v.
Proof.
  intros l k v P [(n & I & Pn) H]. split.
  - exists n. split; auto. eapply Permutation_in; eauto.
  - intros m x Q. apply H. eapply Permutation_in; [symmetry|]; eauto.
Qed.
Lemma is_min_perm : forall l k v, Permutation l k -> is_min l v -> is_min k v.
Proof.
  intros l k v P [(n & I & Pn) H]. split.
  - exists n. split; auto. eapply Permutation_in; eauto.
  - intros m x Q. apply H. eapply Permutation_in; [symmetry|]; eauto.
Qed.

(** ** Entropy *)
Lemma entropy_shannon : forall ps, entropy_loop ps = shannon ps.
Proof.
  intros ps. unfold entropy_loop, shannon.
  assert (H : forall l h, fold_left (fun h p => if Req_EM_T p 0 then h else h - p * ln p) l h =
                          h - rsum_of (fun p => if Req_EM_T p 0 then 0 else p * ln p) l).
  { induction l as [|p l IH]; intros h; cbn [fold_left]; [rewrite rsum_of_nil; lra|].
    rewrite rsum_of_cons, IH. destruct (Req_EM_T p 0); lra. }
  rewrite H. lra.
Qed.
Lemma ln_le_sub : forall x, 0 < x -> ln x <= x - 1.
Proof.
  intros x Hx. pose proof (exp_ineq1_le (ln x)) as H. rewrite exp_ln in H by auto. lra.
Qed.
Lemma ln_quot : forall x y, 0 < x -> 0 < y -> ln (x / y) = ln x - ln y.
Proof. intros x y Hx Hy. unfold Rdiv. assert (0 < / y) by (now apply Rinv_0_lt_compat). rewrite ln_mult, ln_Rinv; auto. Qed.
Lemma plogp : forall p q, 0 < q -> 0 <= p -> p * ln q - (if Req_EM_T p 0 then 0 else p * ln p) <= q - p.
Proof.
  intros p q Hq Hp. destruct (Req_EM_T p 0) as [->|N]; [lra|]. assert (P : 0 < p) by lra.
  replace (p * ln q - p * ln p) with (p * (ln q - ln p)) by lra. rewrite <- ln_quot by auto.
  assert (D : 0 < q / p) by (apply Rdiv_lt_0_compat; auto).
  pose proof (ln_le_sub (q / p) D). replace (q - p) with (p * (q / p - 1)) by (field; lra).
  apply Rmult_le_compat_l; lra.
Qed.
Lemma shannon_nonneg : forall ps, (forall p, In p ps -> 0 <= p <= 1) -> 0 <= shannon ps.
Proof.
  intros ps H. unfold shannon.
  assert (rsum_of (fun p => if Req_EM_T p 0 then 0 else p * ln p) ps <= rsum_of (fun _ => 0) ps).
  { apply rsum_of_le. intros p I. destruct (Req_EM_T p 0); [lra|]. specialize (H p I).
    assert (ln p <= 0). { rewrite <- ln_1. destruct (Req_dec p 1) as [->|]; [lra|]. left. apply ln_increasing; lra. }
    nra. }
  rewrite rsum_of_const in H0. lra.
Qed.
Lemma shannon_max : forall ps, ps <> [] -> (forall p, In p ps -> 0 <= p) -> rsum ps = 1 -> shannon ps <= ln (INR (length ps)).
Proof.
  intros ps NE H S1. set (n := INR (length ps)).
  assert (Pn : 0 < n) by (apply lt_0_INR; destruct ps; [congruence|cbn; lia]).
  assert (E : rsum_of (fun p => p) ps = 1) by (unfold rsum_of; rewrite map_id; auto).
  assert (K : rsum_of (fun p => p * ln (1 / n) - (if Req_EM_T p 0 then 0 else p * ln p)) ps <=
              rsum_of (fun p => 1 / n - p) ps).
  { apply rsum_of_le. intros p I. apply plogp; auto. apply Rdiv_lt_0_compat; lra. }
  rewrite (rsum_of_ext _ (fun p => p * ln (1 / n) - (if Req_EM_T p 0 then 0 else p * ln p))
    (fun p => ln (1 / n) * p + (-1) * (if Req_EM_T p 0 then 0 else p * ln p))) in K by (intros; lra).
  rewrite rsum_of_plus, !rsum_of_scale, E in K.
  rewrite (rsum_of_ext _ (fun p => 1 / n - p) (fun p => 1 / n + (-1) * p)) in K by (intros; lra).
  rewrite rsum_of_plus, rsum_of_scale, E, rsum_of_const in K. fold n in K.
  replace (n * (1 / n)) with 1 in K by (field; lra).
  assert (ln (1 / n) = - ln n) by (replace (1 / n) with (/ n) by (field; lra); apply ln_Rinv; auto).
  unfold shannon. lra.
Qed.

(** ** Log-sum-exp *)
Lemma sum_exp_pos : forall t qs, qs <> [] -> 0 < rsum_of (fun q => exp (q / t)) qs.
Proof.
  intros t [|q qs] N; [congruence|]. rewrite rsum_of_cons. pose proof (exp_pos (q / t)).
  assert (0 <= rsum_of (fun q => exp (q / t)) qs) by (apply rsum_of_nonneg; intros; left; apply exp_pos). lra.
Qed.
Lemma soft_max_ge : forall t qs q, 0 < t -> In q qs -> q <= soft_max t qs.
Proof.
  intros t qs q Ht I. unfold soft_max.
  assert (H : exp (q / t) <= rsum_of (fun q => exp (q / t)) qs).
  { apply (rsum_of_mem _ (fun q => exp (q / t))); auto. intros; left; apply exp_pos. }
  assert (q / t <= ln (rsum_of (fun q => exp (q / t)) qs)).
  { rewrite <- (ln_exp (q / t)). destruct H as [H|H]; [left; apply ln_increasing; [apply exp_pos|auto]|rewrite H; lra]. }
  replace q with (t * (q / t)) by (field; lra). apply Rmult_le_compat_l; lra.
Qed.
Lemma soft_max_le : forall t qs b, 0 < t -> qs <> [] -> (forall q, In q qs -> q <= b) ->
  soft_max t qs <= b + t * ln (INR (length qs)).
Proof.
  intros t qs b Ht N H. unfold soft_max.
  assert (Pn : 0 < INR (length qs)) by (apply lt_0_INR; destruct qs; [congruence|cbn; lia]).
  assert (L : rsum_of (fun q => exp (q / t)) qs <= INR (length qs) * exp (b / t)).
  { rewrite <- rsum_of_const. apply rsum_of_le. intros q I. specialize (H q I).
    destruct H as [H| ->]; [left; apply exp_increasing; apply Rdiv_lt; auto|lra]. }
  assert (ln (rsum_of (fun q => exp (q / t)) qs) <= ln (INR (length qs)) + b / t).
  { rewrite <- (ln_exp (b / t)). rewrite <- ln_mult; [|auto|apply exp_pos].
    destruct L as [L|L]; [left; apply ln_increasing; [now apply sum_exp_pos|auto]|rewrite L; lra]. }
  replace (b + t * ln (INR (length qs))) with (t * (ln (INR (length qs)) + b / t)) by (field; lra).
  apply Rmult_le_compat_l; lra.
Qed.
(** The value does not depend on the shift used in the exponentials. *)
Lemma soft_max_shift : forall t qs c, 0 < t -> qs <> [] ->
  t * (ln (rsum_of (fun q => exp (q / t - c)) qs) + c) = soft_max t qs.
Proof.
  intros t qs c Ht N. unfold soft_max. f_equal.
  assert (E : rsum_of (fun q => exp (q / t - c)) qs = exp (- c) * rsum_of (fun q => exp (q / t)) qs).
  { rewrite <- rsum_of_scale. apply rsum_of_ext. intros q _. rewrite <- exp_plus. f_equal. lra. }
  rewrite E, ln_mult; [rewrite ln_exp; lra|apply exp_pos|now apply sum_exp_pos].
Qed.

(** ** Decay functions *)
Lemma inv_sqrt_decay : decay_function decay_inv_sqrt.
Proof.
  unfold decay_function, decay_inv_sqrt. split; [rewrite Rplus_0_r, sqrt_1; lra|]. split.
  - intros x H. apply Rdiv_lt_0_compat; [lra|]. apply sqrt_lt_R0. lra.
  - intros x y [H1 H2]. unfold Rdiv. apply Rmult_le_compat_l; [lra|].
    apply Rinv_le_contravar; [apply sqrt_lt_R0; lra|]. apply sqrt_le_1_alt. lra.
Qed.
Lemma inv_log_decay : decay_function decay_inv_log.
Proof.
  assert (L : forall x, 0 <= x -> 1 <= ln (exp 1 + x)).
  { intros x H. rewrite <- (ln_exp 1) at 1. destruct H as [H| <-]; [left; apply ln_increasing; [apply exp_pos|lra]|].
    rewrite Rplus_0_r. lra. }
  unfold decay_function, decay_inv_log. split; [rewrite Rplus_0_r, ln_exp; lra|]. split.
  - intros x H. apply Rdiv_lt_0_compat; [lra|]. specialize (L x H). lra.
  - intros x y [H1 H2]. unfold Rdiv. apply Rmult_le_compat_l; [lra|].
    apply Rinv_le_contravar; [specialize (L x H1); lra|]. destruct H2 as [H2| ->]; [|lra].
    left. apply ln_increasing; [|lra]. pose proof (exp_pos 1). lra.
Qed.
Lemma sigmoid_decay : decay_function decay_sigmoid.
Proof.
  unfold decay_function, decay_sigmoid. pose proof (exp_pos (-5)) as P. split.
  - replace (0 - 5) with (-5) by lra. field. lra.
  - split.
    + intros x H. apply Rdiv_lt_0_compat; [lra|]. pose proof (exp_pos (x - 5)). lra.
    + intros x y [H1 H2]. unfold Rdiv. apply Rmult_le_compat_l; [lra|]. pose proof (exp_pos (x - 5)).
      apply Rinv_le_contravar; [lra|]. destruct H2 as [H2| ->]; [|lra].
      assert (exp (x - 5) < exp (y - 5)) by (apply exp_increasing; lra). lra.
Qed.
Lemma decayed_bounds : forall f init mn v scale, decay_function f -> 0 <= init -> 0 <= scale -> (0 <= v)%Z ->
  mn <= decayed_temp f init mn v scale <= Rmax init mn.
Proof.
  intros f init mn v scale (F0 & F1 & F2) Hi Hs Hv. unfold decayed_temp.
  assert (Hx : 0 <= scale * IZR v) by (apply Rmult_le_pos; auto; now apply IZR_le).
  assert (f (scale * IZR v) <= 1) by (rewrite <- F0; apply F2; lra).
  assert (0 < f (scale * IZR v)) by auto.
  assert (init * f (scale * IZR v) <= init) by nra.
  pose proof (Rmax_l init mn). pose proof (Rmax_r init mn).
  destruct (Rltb _ mn) eqn:E; [lra|]. apply Rltb_false in E. lra.
Qed.
Lemma decayed_zero : forall f init mn scale, decay_function f -> decayed_temp f init mn 0 scale = Rmax init mn.
Proof.
  intros f init mn scale (F0 & _). unfold decayed_temp. rewrite Rmult_0_r, F0, Rmult_1_r.
  destruct (Rltb init mn) eqn:E.
  - apply Rltb_true in E. rewrite Rmax_right; lra.
  - apply Rltb_false in E. rewrite Rmax_left; lra.
Qed.
Lemma decayed_antitone : forall f init mn v w scale, decay_function f -> 0 <= init -> 0 <= scale -> (0 <= v <= w)%Z ->
  decayed_temp f init mn w scale <= decayed_temp f init mn v scale.
Proof.
  intros f init mn v w scale (F0 & F1 & F2) Hi Hs [Hv Hw]. unfold decayed_temp.
  assert (Hx : 0 <= scale * IZR v) by (apply Rmult_le_pos; auto; now apply IZR_le).
  assert (Hy : scale * IZR v <= scale * IZR w) by (apply Rmult_le_compat_l; auto; now apply IZR_le).
  assert (f (scale * IZR w) <= f (scale * IZR v)) by (apply F2; lra).
  assert (init * f (scale * IZR w) <= init * f (scale * IZR v)) by (apply Rmult_le_compat_l; auto).
  destruct (Rltb (init * f (scale * IZR w)) mn) eqn:E; destruct (Rltb (init * f (scale * IZR v)) mn) eqn:E';
    try apply Rltb_true in E; try apply Rltb_true in E'; try apply Rltb_false in E; try apply Rltb_false in E'; lra.
Qed.
