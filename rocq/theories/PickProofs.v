(** Proofs about random choices. *)
From Coq Require Import List ZArith Bool Lia Permutation.
From Verif Require Import Base NumOps HelperModel HelperSpec HelperProofs EngineModel EngineProofs MapModel MapProofs PickSpec.
Import ListNotations.

Lemma picks_always : forall T N (f : rng N -> outcome (T * rng N)) P, picks f P -> always f P.
Proof.
  intros T N f P (ks & ND & NE & I & H) g Hg. destruct (H g Hg) as (k & g' & E & E1 & E2 & Q).
  exists k, g'. repeat split; auto. apply I. eapply nth_error_In; eauto.
Qed.

(** A random index into a vector. *)
Lemma pick_index : forall T N (l : list T) (at_ : list T -> Z -> outcome T),
  (forall i x, (0 <= i)%Z -> nth_error l (Z.to_nat i) = Some x -> at_ l i = Ok x) ->
  NoDup l -> l <> [] ->
  picks (fun g : rng N => bind (get_rand_int 0 (Z.of_nat (length l)) g) (fun '(i, g1) =>
                          bind (at_ l i) (fun a => Ok (a, g1)))) (fun a => In a l).
Proof.
  intros T N l at_ Hat ND NE. exists l. split; [exact ND|]. split; [exact NE|]. split; [intros; reflexivity|].
  intros g Hg. assert (L : (0 < Z.of_nat (length l))%Z) by (destruct l; [contradiction|cbn; lia]).
  destruct (rand_int_range N 0 (Z.of_nat (length l)) g L Hg) as (r & g' & E & B & Er & (E1 & E2 & _)).
  rewrite E. cbn [bind]. rewrite Z.sub_0_r, Z.add_0_l in Er.
  destruct (nth_error l (Z.to_nat r)) as [a|] eqn:Ea.
  - rewrite (Hat r a) by (auto; lia). cbn [bind]. exists a, g'. repeat split; auto. now rewrite <- Er.
  - apply nth_error_None in Ea. lia.
Qed.
Lemma vec_at_some : forall T (l : list T) i x, (0 <= i)%Z -> nth_error l (Z.to_nat i) = Some x -> vec_at l i = Ok x.
Proof. intros T l i x H E. unfold vec_at. destruct (Z.ltb_spec i 0); [lia|]. now rewrite E. Qed.
Lemma vec_at_checked_some : forall T (l : list T) i x, (0 <= i)%Z -> nth_error l (Z.to_nat i) = Some x -> vec_at_checked l i = Ok x.
Proof. intros T l i x H E. unfold vec_at_checked. destruct (Z.ltb_spec i 0); [lia|]. now rewrite E. Qed.

(** The key of a map with the largest value. *)
Lemma pick_max : forall K V N (ltb : V -> V -> bool) lowest (m : list (K * V)), strict_total ltb ->
  NoDup (map fst m) -> (exists k v, In (k, v) m /\ ltb v lowest = false) ->
  picks (fun g : rng N => get_max_key ltb lowest m g) (maximal ltb m).
Proof.
  intros K V N ltb lowest m ST ND H. destruct (get_max_key_correct ltb lowest ST N m ND H) as (ks & N1 & N2 & I & Hg).
  exists ks. repeat split; try apply I; auto. intros g Gg. destruct (Hg g Gg) as (k & g' & E & En & H1 & H2).
  exists k, g'. destruct (Nat.eq_dec (length ks) 1) as [L|L].
  - rewrite (H1 L) in *. auto.
  - destruct (H2 L) as (? & ? & _). auto.
Qed.

Lemma picks_ext : forall T N (f f' : rng N -> outcome (T * rng N)) (P Q : T -> Prop),
  (forall g, f g = f' g) -> (forall k, P k <-> Q k) -> picks f P -> picks f' Q.
Proof.
  intros T N f f' P Q E PQ (ks & ND & NE & I & H). exists ks. repeat split; auto.
  - intros Hk. apply PQ. now apply I.
  - intros Hk. apply I. now apply PQ.
  - intros g Hg. rewrite <- E. auto.
Qed.

(** The best of the keys of [l] for which [f] is defined. *)
Lemma pick_built : forall K V N (keqb : K -> K -> bool) (ltb : V -> V -> bool) lowest (f : K -> option V) l ord,
  decides keqb -> strict_total ltb -> (forall m : list (K * V), Permutation m (ord m)) ->
  (exists k v, In k l /\ f k = Some v /\ ltb v lowest = false) ->
  picks (fun g : rng N => get_max_key ltb lowest (ord (mbuild keqb f l [])) g)
        (fun k => In k l /\ exists v, f k = Some v /\ forall k' v', In k' l -> f k' = Some v' -> ltb v v' = false).
Proof.
  intros K V N keqb ltb lowest f l ord D ST P (k0 & v0 & Ik & Ef & El).
  destruct (mbuild_nil keqb D V f l) as [ND I].
  set (m := mbuild keqb f l []) in *. pose proof (P m) as Pm.
  assert (Im : forall k v, In (k, v) (ord m) <-> In k l /\ f k = Some v).
  { intros k v. rewrite <- I. split; apply Permutation_in; auto. now apply Permutation_sym. }
  eapply picks_ext; [reflexivity| |apply pick_max; auto].
  - intros k. unfold maximal. split.
    + intros (v & Q & H). apply Im in Q. split; [tauto|]. exists v. split; [tauto|].
      intros k' v' H1 H2. apply (H k' v'). apply Im. auto.
    + intros (Q & v & E & H). exists v. split; [apply Im; auto|]. intros k' v' Q'. apply Im in Q'. now apply (H k' v').
  - eapply perm_nodup_keys; eauto.
  - exists k0, v0. split; auto. apply Im. auto.
Qed.
