(** Property theorems about the distributions: C29-C34. *)
From Coq Require Import List ZArith Lia Bool Reals Lra Permutation.
From Coq Require Import Floats.SpecFloat.
From Verif Require Import Base NumOps HelperModel HelperSpec RLemmas HelperProofs DistModel DistSpec DistProofs.
Import ListNotations.
Open Scope R_scope.

(** ** C29 *)
(** For every map with distinct keys, non-negative weights and positive sum the constructor succeeds
    and the object samples from the map exactly (see [exact_sampler]). *)
Theorem C29_alias_exact : forall T (teqb : T -> T -> bool), decides teqb ->
  forall (m : list (T * R)) f, proper m ->
  exists c, cat_new R_ops m true f = Ok c /\ exact_sampler (cat_sample R_ops c) m.
Proof.
  intros T teqb D m f P. destruct (cat_new_built teqb D m f) as (c & E & B & _). exists c. split; auto. now apply B.
Qed.
Print Assumptions C29_alias_exact.

(** After any history of single updates and same-size replacements the object samples exactly from
    the map as it was at the last rebuild. *)
Theorem C29_after_rebuilds : forall T (teqb : T -> T -> bool), decides teqb ->
  forall f c cur snap n, lives teqb f c cur snap n -> proper snap ->
  exact_sampler (cat_sample R_ops c) snap.
Proof. intros T teqb D. exact (lives_exact teqb D). Qed.
Print Assumptions C29_after_rebuilds.

Definition dist_ex : list (nat * R) := [(1%nat, 4); (2%nat, 0); (3%nat, 2)].
Lemma dist_ex_proper : proper dist_ex.
Proof.
  repeat split.
  - cbn. repeat constructor; cbn; intuition lia.
  - intros k w Q. cbn in Q. repeat destruct Q as [[= <- <-]|Q]; lra.
  - cbn. lra.
Qed.
Lemma nat_decides : decides Nat.eqb.
Proof. intros x y. apply Nat.eqb_eq. Qed.
Example C29_witness : proper dist_ex /\ exists c cur,
  lives Nat.eqb 2 c cur dist_ex 1 /\ cur = [(1%nat, 4); (2%nat, 7); (3%nat, 2)].
Proof.
  split; [apply dist_ex_proper|].
  destruct (cat_new_built Nat.eqb nat_decides dist_ex 2) as (c & E & B & Dd & F & U).
  assert (L0 : lives Nat.eqb 2 c dist_ex dist_ex 0).
  { apply lives_new; auto. apply dist_ex_proper. }
  destruct (proj1 (lives_total Nat.eqb nat_decides _ _ _ _ _ L0) (fun l => l) 2%nat 7) as (c' & E').
  { cbn. auto. }
  exists c'. eexists. split; [|reflexivity].
  apply (lives_set Nat.eqb 2 c dist_ex dist_ex 0 (fun l => l) 2%nat 7 c' L0); auto. cbn. auto.
Qed.

(** ** C30 *)
(** In every arithmetic (rounding, infinities and NaN included) building the table from any map takes
    at most n pairings ([build] gives the loop n units of fuel, and running out of fuel is not [Ok]),
    stays inside the table and leaves one entry per key. *)
Theorem C30_terminates_in_bounds : forall T N (O : numops N) (m : list (T * N)),
  exists t, construct O m [] = Ok t /\ length t = length m.
Proof. exact @construct_ok. Qed.
Print Assumptions C30_terminates_in_bounds.

Theorem C30_rebuild_in_bounds : forall T N (O : numops N) (m : list (T * N)) (t : list (@entry T N)),
  length t = length m -> exists t', reconstruct O m t = Ok t' /\ length t' = length m.
Proof. intros T N O m t H. rewrite reconstruct_same_size by auto. exact (construct_ok O m). Qed.
Print Assumptions C30_rebuild_in_bounds.

Theorem C30_thresholds : forall T (teqb : T -> T -> bool), decides teqb -> forall m : list (T * R), proper m ->
  exists t, construct R_ops m [] = Ok t /\ forall e, In e t -> 0 <= thr e <= 1.
Proof.
  intros T teqb D m P. destruct (construct_exact teqb D m P) as (t & E & _ & Fin & _). exists t. split; auto.
  intros e Q. apply In_nth_error in Q. destruct Q as (i & Q). now apply (Fin i).
Qed.
Print Assumptions C30_thresholds.

Example C30_witness : proper dist_ex /\
  construct F_ops [(1%nat, Fof 4); (2%nat, Fof 0); (3%nat, Fof 2)] [] =
    Ok [mkEntry (Fof 1) 1%nat 1%nat; mkEntry (Fof 0) 2%nat 1%nat; mkEntry (Fof 1) 3%nat 3%nat].
Proof. split; [apply dist_ex_proper|]. vm_compute. reflexivity. Qed.

(** ** C31 *)
(** Without the alias method, whatever is returned is a key of the current map (any arithmetic). *)
Theorem C31_no_alias : forall T N (O : numops N) (c : @cat T N) g k g',
  use_alias c = false -> cat_sample O c g = Ok (k, g') -> In k (map fst (distr c)).
Proof.
  intros T N O c g k g' U H. unfold cat_sample in H. rewrite U in H. exact (sample_in_map _ _ _ _ _ _ _ _ H).
Qed.
Print Assumptions C31_no_alias.

(** With the alias method, sampling succeeds and returns a key of positive weight in the map of the
    last rebuild. *)
Theorem C31_alias : forall T (teqb : T -> T -> bool), decides teqb ->
  forall f c cur snap n g, lives teqb f c cur snap n -> proper snap -> good_ints g -> good_reals g ->
  exists k g', cat_sample R_ops c g = Ok (k, g') /\ exists w, In (k, w) snap /\ 0 < w.
Proof.
  intros T teqb D f c cur snap n g Lv P Hi Hr. pose proof (lives_exact teqb D f c cur snap n Lv P) as X.
  destruct (proj1 X g Hi) as (k & g' & E). exists k, g'. split; auto.
  exact (exact_positive teqb D _ snap g k g' X P Hi Hr E).
Qed.
Print Assumptions C31_alias.

(** ** C32 *)
(** With a rebuild frequency f >= 1, after any list of updates of existing keys the object samples
    exactly from the map with the first f*(number of updates / f) updates applied. *)
Theorem C32_delay : forall T (teqb : T -> T -> bool), decides teqb ->
  forall (m : list (T * R)) f reorder us c0,
  NoDup (map fst m) -> (1 <= f)%nat -> cat_new R_ops m true (Z.of_nat f) = Ok c0 ->
  (forall k w, In (k, w) us -> In k (map fst m)) ->
  exists c, update_all teqb reorder us c0 = Ok c /\
    (let seen := reweight_all teqb m (firstn (f * (length us / f)) us) in
     proper seen -> exact_sampler (cat_sample R_ops c) seen).
Proof.
  intros T teqb D m f reorder us c0 ND Hf E K.
  destruct (updates_delay teqb D m f reorder us c0 ND Hf E K) as (c & E' & Lv). exists c. split; auto.
  cbv zeta. exact (lives_exact teqb D _ _ _ _ _ Lv).
Qed.
Print Assumptions C32_delay.

(** With frequency one the object always samples from the current weights. *)
Theorem C32_frequency_one : forall T (teqb : T -> T -> bool), decides teqb ->
  forall (m : list (T * R)) reorder us c0,
  NoDup (map fst m) -> cat_new R_ops m true 1 = Ok c0 ->
  (forall k w, In (k, w) us -> In k (map fst m)) ->
  exists c, update_all teqb reorder us c0 = Ok c /\
    (proper (reweight_all teqb m us) -> exact_sampler (cat_sample R_ops c) (reweight_all teqb m us)).
Proof.
  intros T teqb D m reorder us c0 ND E K.
  destruct (C32_delay T teqb D m 1 reorder us c0 ND (le_n 1) E K) as (c & E' & X). exists c. split; auto.
  cbv zeta in X. rewrite Nat.div_1_r, Nat.mul_1_l, firstn_all in X. exact X.
Qed.
Print Assumptions C32_frequency_one.

(** The last sentence of the claim is false: updating a new key is undefined behaviour at once when
    it triggers a rebuild, and otherwise for every later draw of the last index. *)
Theorem C32_new_key_refuted : forall T (teqb : T -> T -> bool), decides teqb ->
  forall f (c : cat) cur snap n reorder k w,
  lives teqb f c cur snap n -> ~ In k (map fst cur) -> (forall l, length (reorder l) = length l) ->
  if (n + 1 =? f)%Z then cat_update teqb R_ops reorder k w c = UB
  else exists c', cat_update teqb R_ops reorder k w c = Ok c' /\
       forall g, gi g (ni g) = Z.of_nat (length cur) -> cat_sample R_ops c' g = UB.
Proof. exact new_key_sample. Qed.
Print Assumptions C32_new_key_refuted.

Example C32_witness : exists c0, cat_new R_ops dist_ex true 2 = Ok c0 /\ NoDup (map fst dist_ex) /\
  let us := [(2%nat, 7); (1%nat, 5); (3%nat, 9)] in
  (forall k w, In (k, w) us -> In k (map fst dist_ex)) /\
  reweight_all Nat.eqb dist_ex (firstn (2 * (length us / 2)) us) = [(1%nat, 5); (2%nat, 7); (3%nat, 2)] /\
  proper (reweight_all Nat.eqb dist_ex (firstn (2 * (length us / 2)) us)).
Proof.
  destruct (cat_new_built Nat.eqb nat_decides dist_ex 2) as (c & E & _). exists c. split; auto.
  split; [apply dist_ex_proper|]. cbv zeta. repeat split.
  - intros k w Q. cbn in *. repeat destruct Q as [[= <- <-]|Q]; auto.
  - cbn. repeat constructor; cbn; intuition lia.
  - intros k w Q. cbn in Q. repeat destruct Q as [[= <- <-]|Q]; lra.
  - cbn. lra.
Qed.

(** ** C33 *)
(** Replacing by a map of the same size is fine ... *)
Theorem C33_partial : forall T (teqb : T -> T -> bool), decides teqb ->
  forall f c cur snap n m, lives teqb f c cur snap n -> length m = length cur -> NoDup (map fst m) ->
  exists c', cat_replace R_ops m c = Ok c' /\ lives teqb f c' m m 0 /\
    (proper m -> exact_sampler (cat_sample R_ops c') m).
Proof.
  intros T teqb D f c cur snap n m Lv L ND.
  destruct (proj2 (lives_total teqb D _ _ _ _ _ Lv) m L) as (c' & E). exists c'. split; auto.
  assert (L' : lives teqb f c' m m 0) by (eapply lives_replace; eauto). split; auto.
  exact (lives_exact teqb D _ _ _ _ _ L').
Qed.
Print Assumptions C33_partial.

(** ... by a larger map it is undefined behaviour ... *)
Theorem C33_larger_refuted : forall T (teqb : T -> T -> bool), decides teqb ->
  forall f (c : cat) cur snap n m, lives teqb f c cur snap n -> (length cur < length m)%nat ->
  cat_replace R_ops m c = UB.
Proof.
  intros T teqb D f c cur snap n m Lv L.
  destruct (lives_inv teqb D f c cur snap n Lv) as (_ & Dc & _ & _ & (Ua & Lt & _) & Len).
  unfold cat_replace. rewrite Ua, Nat.eqb_refl, reconstruct_grown by lia. reflexivity.
Qed.
Print Assumptions C33_larger_refuted.

(** ... and by a smaller map the probabilities can be wrong: from {a:4, b:1, c:1} to {a:1, b:3}
    (binary64, all values exact). Index 0 returns a whatever the real draw, so a has probability at
    least 1/2, while the freshly built object returns b there for draws of at least 1/2. *)
Definition old3 : list (nat * F) := [(1%nat, Fof 4); (2%nat, Fof 1); (3%nat, Fof 1)].
Definition new2 : list (nat * F) := [(1%nat, Fof 1); (2%nat, Fof 3)].
Definition F_half : F := SFdiv Fprec Femax (Fof 1) (Fof 2).
Theorem C33_smaller_refuted : exists c c' fresh,
  cat_new F_ops old3 true 1 = Ok c /\ cat_replace F_ops new2 c = Ok c' /\
  cat_new F_ops new2 true 1 = Ok fresh /\
  (forall u, exists g', cat_sample F_ops c' (mkRng (fun _ => 0%Z) (fun _ => u) 0 0) = Ok (1%nat, g')) /\
  exists g', cat_sample F_ops fresh (mkRng (fun _ => 0%Z) (fun _ => F_half) 0 0) = Ok (2%nat, g').
Proof.
  eexists. eexists. eexists. split; [vm_compute; reflexivity|]. split; [vm_compute; reflexivity|].
  split; [vm_compute; reflexivity|]. split; [intros u|]; eexists; vm_compute; reflexivity.
Qed.
Print Assumptions C33_smaller_refuted.

(** Without the alias method every update, also of new keys, and every replacement succeeds, and the object samples
    from the map last seen (if its weights are positive and sum to at least one, see C27). *)
Theorem C33_no_alias : forall T (teqb : T -> T -> bool), decides teqb -> forall c cur, plain teqb c cur ->
  (forall reorder k w, exists c', cat_update teqb R_ops reorder k w c = Ok c') /\
  (forall m, exists c', cat_replace R_ops m c = Ok c') /\
  (positive_weights cur -> 1 <= total cur -> exists order, Permutation order cur /\ forall g, good_reals g ->
     exists k g', cat_sample R_ops c g = Ok (k, g') /\ one_real g g' /\ forall k', k' = k <-> owns order (total cur) (gr g (nr g)) k').
Proof. exact @plain_samples. Qed.
Print Assumptions C33_no_alias.
Example C33_no_alias_witness : exists c, plain Nat.eqb c [(5%nat, 2); (7%nat, 3)].
Proof.
  pose (re := fun l : list (nat * R) => l). assert (Hre : forall l, Permutation (re l) l) by (intros l; apply Permutation_refl).
  eexists. change [(5%nat, 2); (7%nat, 3)] with ((5%nat, 2) :: reweight Nat.eqb [(7%nat, 1)] 7%nat 3).
  eapply (plain_add Nat.eqb _ _ re).
  - eapply (plain_set Nat.eqb _ _ re 7%nat 3).
    + eapply plain_replace; [apply (plain_new Nat.eqb dist_ex 1); [|reflexivity]| |reflexivity].
      * apply dist_ex_proper.
      * cbn. repeat constructor; cbn; intuition lia.
    + exact Hre.
    + cbn. auto.
    + reflexivity.
  - exact Hre.
  - cbn. intuition lia.
  - reflexivity.
Qed.

(** ** C34 *)
Theorem C34_uniform : forall T N (keys : list T) (g : rng N), keys <> [] -> good_ints g ->
  exists k g', uniform_sample keys g = Ok (k, g') /\ one_int g g' /\
    nth_error keys (Z.to_nat (gi g (ni g) mod Z.of_nat (length keys))) = Some k.
Proof. exact uniform_exact. Qed.
Print Assumptions C34_uniform.

(** A component [d] is used exactly for the draws in its interval, whose length is its weight, and
    the value is what that component samples next. *)
Theorem C34_mixture : forall T (m : list ((rng R -> outcome (T * rng R)) * R)) (g : rng R),
  nonneg_weights m -> total m = 1 -> (exists m0 k0 w0, m = m0 ++ [(k0, w0)] /\ 0 < w0) -> good_reals g ->
  exists d g1, one_real g g1 /\ mixed_sample R_ops m g = d g1 /\ forall d', d' = d <-> owns m 1 (gr g (nr g)) d'.
Proof. exact mixed_exact. Qed.
Print Assumptions C34_mixture.

Example C34_witness :
  let m : list ((rng R -> outcome (nat * rng R)) * R) :=
    [(uniform_sample [1%nat; 2%nat], 1/4); (uniform_sample [3%nat], 3/4)] in
  nonneg_weights m /\ total m = 1 /\ (exists m0 k0 w0, m = m0 ++ [(k0, w0)] /\ 0 < w0).
Proof.
  cbv zeta. split; [|split].
  - intros k w Q. cbn in Q. destruct Q as [Q|[Q|[]]]; apply (f_equal snd) in Q; cbn in Q; lra.
  - cbn. lra.
  - exists [(uniform_sample [1%nat; 2%nat], 1/4)]. eexists. eexists. split; [reflexivity|]. lra.
Qed.
