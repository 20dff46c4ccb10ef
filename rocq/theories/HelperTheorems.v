(** Property theorems about the helper templates: C24-C28, C60. *)
From Coq Require Import List ZArith Lia Bool Reals Lra.
From Coq Require Import Floats.SpecFloat.
From Verif Require Import Base NumOps HelperModel HelperSpec RLemmas HelperProofs.
Import ListNotations.

(** ** C24 *)
(** For every map (in any iteration order) with a value not below [lowest], over any strictly
    totally ordered numeric type: there is a fixed list [ks] of exactly the maximal keys such that,
    for every state of the random generator, the key returned is the one at position
    (draw mod |ks|), and the generator is consulted once if there are ties and not at all otherwise.
    So every tied key is returned for exactly one residue of the draw. *)
Theorem C24_max_key : forall T V (ltb : V -> V -> bool) lowest, strict_total ltb ->
  forall N (m : list (T * V)),
  NoDup (map fst m) -> (exists k v, In (k, v) m /\ ltb v lowest = false) ->
  exists ks, NoDup ks /\ ks <> [] /\ (forall k, In k ks <-> maximal ltb m k) /\
    forall g : rng N, good_ints g ->
    exists k g', get_max_key ltb lowest m g = Ok (k, g') /\
      nth_error ks (Z.to_nat (gi g (ni g) mod Z.of_nat (length ks))) = Some k /\
      (length ks = 1%nat -> g' = g) /\ (length ks <> 1%nat -> one_int g g').
Proof. intros T V ltb lowest ST. exact (get_max_key_correct ltb lowest ST). Qed.
Print Assumptions C24_max_key.

Example C24_witness : strict_total Z.ltb /\
  let m := [(1%nat, 4%Z); (2%nat, 7%Z); (3%nat, (-2)%Z); (4%nat, 7%Z)] in
  NoDup (map fst m) /\ (exists k v, In (k, v) m /\ (v <? -2147483648)%Z = false) /\
  maximal Z.ltb m 2%nat /\ maximal Z.ltb m 4%nat /\
  get_max_key Z.ltb (-2147483648)%Z m (mkRng (fun _ => 3%Z) (fun _ => tt) 0 0)
    = Ok (4%nat, mkRng (fun _ => 3%Z) (fun _ => tt) 1 0).
Proof.
  split; [apply strict_total_Z|]. cbv zeta. repeat split.
  - cbn. repeat constructor; cbn; intuition lia.
  - exists 1%nat, 4%Z. split; [now left|reflexivity].
  - exists 7%Z. split; [now right; left|]. intros k v Q. cbn in Q. repeat destruct Q as [[= <- <-]|Q]; try reflexivity. destruct Q.
  - exists 7%Z. split; [now right; right; right; left|]. intros k v Q. cbn in Q. repeat destruct Q as [[= <- <-]|Q]; try reflexivity. destruct Q.
Qed.

(** ** C25 *)
(** Binary64 instances. [F_lowest] is numeric_limits<double>::lowest(). *)
Definition F_lowest : F := S754_finite true 9007199254740991 971.
Definition F_neg_inf : F := S754_infinity true.

(** The claim is false: a map whose only value is -infinity leads to a remainder by zero ... *)
Theorem C25_neg_infinity_refuted : forall g : rng F,
  get_max_key SFltb F_lowest [(0%nat, F_neg_inf)] g = UB.
Proof. intros g. reflexivity. Qed.
Print Assumptions C25_neg_infinity_refuted.

(** ... and so does the empty map. *)
Theorem C25_empty_refuted : forall T V N (ltb : V -> V -> bool) lowest (g : rng N),
  @get_max_key T V ltb lowest N [] g = UB.
Proof. intros. reflexivity. Qed.
Print Assumptions C25_empty_refuted.

(** A NaN value ties with the maximum found so far, so its key can be returned. *)
Theorem C25_nan_refuted : exists g : rng F, good_ints g /\
  exists g', get_max_key SFltb F_lowest [(0%nat, Fof 5); (1%nat, S754_nan)] g = Ok (1%nat, g').
Proof.
  exists (mkRng (fun _ => 1%Z) (fun _ => Fof 0) 0 0). split; [intros i; cbn; lia|].
  eexists. vm_compute. reflexivity.
Qed.
Print Assumptions C25_nan_refuted.

(** What holds, for any comparison whatever (so also with NaN): if some value is not below [lowest],
    a key of the map is returned. Missing compared to the claim: maps whose values are all -inf. *)
Theorem C25_partial : forall T V N (ltb : V -> V -> bool) lowest (m : list (T * V)) (g : rng N),
  (exists k v, In (k, v) m /\ ltb v lowest = false) -> good_ints g ->
  exists k g', get_max_key ltb lowest m g = Ok (k, g') /\ In k (map fst m).
Proof. exact get_max_key_total. Qed.
Print Assumptions C25_partial.

Example C25_witness : exists k v, In (k, v) [(0%nat, S754_nan); (1%nat, F_neg_inf)] /\ SFltb v F_lowest = false.
Proof. exists 0%nat, S754_nan. split; [now left|reflexivity]. Qed.

(** ** C26 *)
Open Scope R_scope.
(** For positive weights summing to one, every iteration order and every draw: sampling succeeds,
    uses exactly one real draw [u], and returns [k] iff [u] lies in the interval [k] owns. The
    interval of an entry of weight w has length w, and together they tile [0,1). *)
Theorem C26_sample_exact : forall T (m : list (T * R)) (g : rng R),
  m <> [] -> positive_weights m -> total m = 1 -> good_reals g ->
  exists k g', sample_from_distribution R_ops m true g = Ok (k, g') /\ one_real g g' /\
    forall k', k' = k <-> owns m 1 (gr g (nr g)) k'.
Proof.
  intros T m g NE PW Tm Hg. apply sample_normalised; auto.
  - now apply positive_nonneg.
  - destruct (exists_last NE) as (m0 & [k0 w0] & E). exists m0, k0, w0. split; auto.
    apply (PW k0). rewrite E. apply in_or_app. right. now left.
Qed.
Print Assumptions C26_sample_exact.

Example C26_witness :
  let m := [(1%nat, 1/4); (2%nat, 1/2); (3%nat, 1/4)] in
  m <> [] /\ positive_weights m /\ total m = 1 /\ owns m 1 (3/5) 2%nat.
Proof.
  cbv zeta. repeat split.
  - discriminate.
  - intros k w Q. cbn in Q. repeat destruct Q as [[= <- <-]|Q]; lra.
  - cbn. lra.
  - exists [(1%nat, 1/4)], (1/2), [(3%nat, 1/4)]. split; auto. cbn. lra.
Qed.

(** In binary64 the claim fails: for ten entries of weight 0.1 the accumulated mass is the largest
    double below one, and that draw makes sampling throw. *)
Definition F_tenth : F := SFdiv Fprec Femax (Fof 1) (Fof 10).
Definition F_below_one : F := SFsub Fprec Femax (Fof 1) (SFdiv Fprec Femax (Fof 1) (Fof (2 ^ 53))).
Theorem C26_binary64_refuted :
  let m := map (fun k => (k, F_tenth)) [1;2;3;4;5;6;7;8;9;10]%nat in
  let g := mkRng (fun _ => 0%Z) (fun _ => F_below_one) 0 0 in
  SFltb F_below_one (Fof 1) = true /\ sample_from_distribution F_ops m true g = Throw.
Proof. vm_compute. auto. Qed.
Print Assumptions C26_binary64_refuted.

(** ** C27 *)
(** The claim is false for every positive distribution whose weights sum to less than 1 - 1e-12:
    with normalised=false sampling throws whenever the draw falls in the last entry's interval. *)
Theorem C27_refuted : forall T (m : list (T * R)) k w (g : rng R),
  positive_weights (m ++ [(k, w)]) -> total (m ++ [(k, w)]) + / IZR (10 ^ 12) < 1 ->
  total m / total (m ++ [(k, w)]) <= gr g (nr g) ->
  sample_from_distribution R_ops (m ++ [(k, w)]) false g = Throw.
Proof. exact sample_small_sum_throws. Qed.
Print Assumptions C27_refuted.

(** The same on a concrete map and in binary64: {0.25, 0.25} throws for every draw. *)
Theorem C27_quarters_refuted : forall u : F,
  let q := SFdiv Fprec Femax (Fof 1) (Fof 4) in
  sample_from_distribution F_ops [(1%nat, q); (2%nat, q)] false (mkRng (fun _ => 0%Z) (fun _ => u) 0 0) = Throw.
Proof. intros u. vm_compute. reflexivity. Qed.
Print Assumptions C27_quarters_refuted.

(** What holds: for positive weights summing to at least one, [k] is returned exactly on an interval
    of length weight(k)/sum. Missing: sums below one. *)
Theorem C27_partial : forall T (m : list (T * R)) (g : rng R),
  positive_weights m -> 1 <= total m -> good_reals g ->
  exists k g', sample_from_distribution R_ops m false g = Ok (k, g') /\ one_real g g' /\
    forall k', k' = k <-> owns m (total m) (gr g (nr g)) k'.
Proof. exact sample_unnormalised. Qed.
Print Assumptions C27_partial.

Example C27_witness :
  let m := [(1%nat, 2); (2%nat, 5)] in positive_weights m /\ 1 <= total m /\ owns m (total m) (1/2) 2%nat.
Proof.
  cbv zeta. repeat split.
  - intros k w Q. cbn in Q. repeat destruct Q as [[= <- <-]|Q]; lra.
  - cbn. lra.
  - exists [(1%nat, 2)], 5, []. split; auto. cbn. lra.
Qed.
Example C27_refuted_witness : exists (m : list (nat * R)) k w (g : rng R),
  positive_weights (m ++ [(k, w)]) /\ total (m ++ [(k, w)]) + / IZR (10 ^ 12) < 1 /\
  total m / total (m ++ [(k, w)]) <= gr g (nr g) /\ good_reals g.
Proof.
  exists [(1%nat, 1/8)], 2%nat, (1/8), (mkRng (fun _ => 0%Z) (fun _ => 1/2) 0 0). repeat split.
  - intros k w Q. cbn in Q. repeat destruct Q as [[= <- <-]|Q]; lra.
  - cbn [app total]. assert (/ IZR (10 ^ 12) < 1/8); [|lra].
    replace (1/8) with (/ 8) by lra. apply Rinv_lt_contravar; [|apply IZR_lt; reflexivity].
    apply Rmult_lt_0_compat; [lra|apply IZR_lt; reflexivity].
  - cbn. lra.
  - cbn. lra.
  - cbn. lra.
Qed.

(** ** C28 *)
(** The claim is false: a zero-weight entry that comes last in iteration order makes sampling throw
    for every draw in the interval of the entry before it. *)
Theorem C28_refuted : forall T (m : list (T * R)) k0 w0 k (g : rng R),
  nonneg_weights (m ++ [(k0, w0)]) -> total (m ++ [(k0, w0)]) = 1 -> total m <= gr g (nr g) ->
  sample_from_distribution R_ops (m ++ [(k0, w0); (k, 0)]) true g = Throw.
Proof. exact sample_zero_throws. Qed.
Print Assumptions C28_refuted.

(** {a: 1.0, b: 0.0} iterated in this order throws for every draw, also in binary64. *)
Theorem C28_two_entries_refuted : forall u : F,
  sample_from_distribution F_ops [(1%nat, Fof 1); (2%nat, Fof 0)] true
    (mkRng (fun _ => 0%Z) (fun _ => u) 0 0) = Throw.
Proof. intros u. vm_compute. reflexivity. Qed.
Print Assumptions C28_two_entries_refuted.

(** What holds: zero weights anywhere before the last positive entry are harmless and never
    returned. Missing: zero-weight entries after the last positive one. *)
Theorem C28_partial : forall T (m : list (T * R)) (g : rng R),
  NoDup (map fst m) -> nonneg_weights m -> total m = 1 ->
  (exists m0 k0 w0, m = m0 ++ [(k0, w0)] /\ 0 < w0) -> good_reals g ->
  exists k g', sample_from_distribution R_ops m true g = Ok (k, g') /\
    (exists w, In (k, w) m /\ 0 < w) /\ forall k', k' = k <-> owns m 1 (gr g (nr g)) k'.
Proof.
  intros T m g ND NN Tm L Hg. destruct (sample_normalised T m g NN Tm L Hg) as (k & g' & S & _ & O).
  exists k, g'. split; auto. split; auto.
  apply (owns_positive T m 1 (gr g (nr g)) k ND); [now apply O|lra].
Qed.
Print Assumptions C28_partial.

Example C28_witness :
  let m := [(1%nat, 0); (2%nat, 1/2); (3%nat, 0); (4%nat, 1/2)] in
  NoDup (map fst m) /\ nonneg_weights m /\ total m = 1 /\
  (exists m0 k0 w0, m = m0 ++ [(k0, w0)] /\ 0 < w0).
Proof.
  cbv zeta. repeat split.
  - cbn. repeat constructor; cbn; intuition lia.
  - intros k w Q. cbn in Q. repeat destruct Q as [[= <- <-]|Q]; lra.
  - cbn. lra.
  - exists [(1%nat, 0); (2%nat, 1/2); (3%nat, 0)], 4%nat, (1/2). split; auto. lra.
Qed.

(** ** C60 *)
Theorem C60_rand_int_range : forall N a b (g : rng N), (a < b)%Z -> good_ints g ->
  exists r g', get_rand_int a b g = Ok (r, g') /\ (a <= r < b)%Z /\
    (r = a + gi g (ni g) mod (b - a))%Z /\ one_int g g'.
Proof. exact rand_int_range. Qed.
Print Assumptions C60_rand_int_range.

Theorem C60_every_value_possible : forall N a b r (g : rng N), (a <= r < b)%Z ->
  gi g (ni g) = (r - a)%Z -> exists g', get_rand_int a b g = Ok (r, g').
Proof. exact rand_int_onto. Qed.
Print Assumptions C60_every_value_possible.

Theorem C60_empty_range_undefined : forall N a (g : rng N), get_rand_int a a g = UB.
Proof. intros N a g. unfold get_rand_int. now rewrite Z.sub_diag. Qed.
Print Assumptions C60_empty_range_undefined.

Example C60_witness : (3 < 7)%Z /\ good_ints (mkRng (fun _ => 13%Z) (fun _ => tt) 0 0) /\
  exists g', get_rand_int 3 7 (mkRng (fun _ => 13%Z) (fun _ => tt) 0 0) = Ok (4%Z, g').
Proof. split; [lia|]. split; [intros i; cbn; lia|]. eexists. reflexivity. Qed.
