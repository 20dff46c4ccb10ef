(** Proofs about association lists. *)
From Coq Require Import List Bool Permutation.
From Verif Require Import Base EngineModel EngineProofs MapModel.
Import ListNotations.

Section Map.
Context {K : Type}.
Variable keqb : K -> K -> bool.
Hypothesis keqb_ok : decides keqb.

Lemma keqb_refl : forall k, keqb k k = true.
Proof. intros k. now apply keqb_ok. Qed.
Lemma keqb_ne : forall k k', k <> k' -> keqb k k' = false.
Proof. intros k k' H. destruct (keqb k k') eqn:E; auto. apply keqb_ok in E. contradiction. Qed.
Lemma keqb_sym : forall k k', keqb k k' = keqb k' k.
Proof.
  intros k k'. destruct (keqb k k') eqn:E.
  - apply keqb_ok in E. subst. symmetry. apply keqb_refl.
  - symmetry. apply keqb_ne. intros ->. rewrite keqb_refl in E. discriminate.
Qed.

Lemma in_lookup : forall V (m : list (K * V)) k v, NoDup (map fst m) -> In (k, v) m -> lookup keqb k m = Some v.
Proof.
  induction m as [|[k' v'] m IH]; intros k v ND H; [destruct H|]. cbn in *. inversion ND as [|? ? N1 N2]; subst.
  destruct H as [[= -> ->]|H].
  - now rewrite keqb_refl.
  - rewrite keqb_ne; auto. intros ->. apply N1. apply (in_map fst) in H. exact H.
Qed.
Lemma lookup_iff : forall V (m : list (K * V)) k v, NoDup (map fst m) -> (lookup keqb k m = Some v <-> In (k, v) m).
Proof. intros V m k v ND. split; [now apply lookup_in|now apply in_lookup]. Qed.
Lemma lookup_none_iff : forall V (m : list (K * V)) k, lookup keqb k m = None <-> ~ In k (map fst m).
Proof.
  intros V m k. split; [now apply lookup_none|]. intros H. destruct (lookup keqb k m) as [v|] eqn:E; auto.
  apply lookup_in in E; auto. apply (in_map fst) in E. contradiction.
Qed.

Lemma lookup_mput : forall V (m : list (K * V)) k v k',
  lookup keqb k' (mput keqb m k v) = if keqb k k' then Some v else lookup keqb k' m.
Proof.
  induction m as [|[k0 v0] m IH]; intros k v k'; cbn [mput lookup].
  - reflexivity.
  - destruct (keqb k0 k) eqn:E; cbn [lookup].
    + apply keqb_ok in E. subst k0. destruct (keqb k k'); auto.
    + destruct (keqb k0 k') eqn:E'; [|apply IH].
      apply keqb_ok in E'. subst k0. rewrite keqb_sym, E. reflexivity.
Qed.
Lemma mput_keys : forall V (m : list (K * V)) k v k',
  In k' (map fst (mput keqb m k v)) <-> k' = k \/ In k' (map fst m).
Proof.
  intros V m k v k'. induction m as [|[k0 v0] m IH]; cbn.
  - intuition congruence.
  - destruct (keqb k0 k) eqn:E; cbn.
    + apply keqb_ok in E. subst. intuition congruence.
    + rewrite IH. intuition congruence.
Qed.
Lemma mput_nodup : forall V (m : list (K * V)) k v, NoDup (map fst m) -> NoDup (map fst (mput keqb m k v)).
Proof.
  induction m as [|[k0 v0] m IH]; intros k v ND; cbn.
  - constructor; auto.
  - inversion ND as [|? ? N1 N2]; subst. destruct (keqb k0 k) eqn:E; cbn; auto. constructor; auto.
    rewrite mput_keys. intros [->|Q]; [rewrite keqb_refl in E; discriminate|contradiction].
Qed.

Lemma mbuild_spec : forall V (f : K -> option V) l m, NoDup (map fst m) ->
  NoDup (map fst (mbuild keqb f l m)) /\
  forall k, lookup keqb k (mbuild keqb f l m) =
            if existsb (keqb k) l then (match f k with Some v => Some v | None => lookup keqb k m end)
            else lookup keqb k m.
Proof.
  intros V f. induction l as [|a l IH]; intros m ND; cbn [mbuild fold_left existsb].
  - auto.
  - destruct (f a) as [v|] eqn:Ef.
    + destruct (IH (mput keqb m a v) (mput_nodup _ _ _ _ ND)) as [N L]. split; [exact N|]. intros k.
      unfold mbuild in L. rewrite L, lookup_mput. destruct (keqb k a) eqn:E; cbn [orb].
      * apply keqb_ok in E. subst k. rewrite keqb_refl, Ef. now destruct (existsb (keqb a) l).
      * rewrite keqb_sym, E. reflexivity.
    + destruct (IH m ND) as [N L]. split; [exact N|]. intros k. unfold mbuild in L. rewrite L.
      destruct (keqb k a) eqn:E; cbn [orb]; auto. apply keqb_ok in E. subst k. rewrite Ef.
      now destruct (existsb (keqb a) l).
Qed.
Lemma mbuild_nil : forall V (f : K -> option V) l, NoDup (map fst (mbuild keqb f l [])) /\
  forall k v, In (k, v) (mbuild keqb f l []) <-> In k l /\ f k = Some v.
Proof.
  intros V f l. destruct (mbuild_spec V f l []) as [N L]; [constructor|]. split; auto.
  intros k v. rewrite <- lookup_iff by auto. rewrite L. destruct (existsb (keqb k) l) eqn:E.
  - apply existsb_in in E; auto. cbn. split; [intros H; split; auto; destruct (f k); congruence|].
    intros [_ ->]. reflexivity.
  - cbn. split; [discriminate|]. intros [Q _]. exfalso.
    assert (existsb (keqb k) l = true) by (apply existsb_exists; exists k; split; auto; apply keqb_refl). congruence.
Qed.
Lemma mbuild_empty : forall V (f : K -> option V) l, mbuild keqb f l [] = [] <-> (forall k, In k l -> f k = None).
Proof.
  intros V f l. destruct (mbuild_nil V f l) as [N L]. split.
  - intros E k Hk. destruct (f k) as [v|] eqn:F; auto. assert (Q : In (k, v) []) by (rewrite <- E; apply L; auto). destruct Q.
  - intros H. destruct (mbuild keqb f l []) as [|[k v] m] eqn:E; auto.
    assert (Q : In (k, v) ((k, v) :: m)) by now left. apply L in Q. destruct Q as [Q1 Q2]. rewrite H in Q2; auto. discriminate.
Qed.

Lemma perm_nodup_keys : forall V (m m' : list (K * V)), Permutation m m' -> NoDup (map fst m) -> NoDup (map fst m').
Proof. intros V m m' P. apply Permutation_NoDup. now apply Permutation_map. Qed.

Lemma has_key_true : forall V (m : list (K * V)) k, has_key keqb m k = true <-> In k (map fst m).
Proof.
  intros V m k. unfold has_key. destruct (lookup keqb k m) as [v|] eqn:E.
  - split; auto. intros _. apply lookup_in in E; auto. apply (in_map fst) in E. exact E.
  - apply lookup_none_iff in E. split; [discriminate|contradiction].
Qed.
End Map.
