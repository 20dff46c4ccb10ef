(** Property theorems about equality and hashing: C55. *)
From Coq Require Import ZArith Bool String Lia List.
From Verif Require Import Base BaseProofs TypesModel EngineModel.
Import ListNotations.

(** Direct instances of the base classes, which are not meant to be used. *)
Definition proper (x : obs) : Prop := x <> NullObs /\ x <> NullState.
Definition proper_action (x : action) : Prop := x <> NullAction.
(** The class of an object. *)
Definition class_of (x : obs) : nat :=
  match x with NullObs => 0 | NullState => 1 | IntState _ => 2 | IntPairState _ _ => 3 | Int3TupleState _ _ _ => 4 end.
Definition action_class (x : action) : nat := match x with NullAction => 0 | IntAction _ => 1 | StringAction _ => 2 end.

(** ** C55 *)
(** Equality of observations decides whether they have the same class and contents; it never throws on proper objects. *)
Theorem C55_equals : forall x y, proper x -> exists b, obs_equals x y = Ok b /\ (b = true <-> x = y).
Proof.
  intros x y [P1 P2]. destruct x; try congruence; destruct y; cbn; eexists; (split; [reflexivity|]);
    rewrite ?andb_true_iff, ?Z.eqb_eq; split; intros H; try discriminate; try (now injection H); try congruence;
    repeat match goal with H : _ /\ _ |- _ => destruct H end; congruence.
Qed.
Theorem C55_action_equals : forall x y, proper_action x -> exists b, action_equals x y = Ok b /\ (b = true <-> x = y).
Proof.
  intros x y P. destruct x; [congruence| |]; destruct y; cbn; eexists; (split; [reflexivity|]);
    rewrite ?Z.eqb_eq, ?String.eqb_eq; split; intros H; try discriminate; try (now injection H); congruence.
Qed.
(** So it is an equivalence ... *)
Theorem C55_equivalence : forall x y z, proper x -> proper y ->
  obs_equals x x = Ok true /\ obs_equals x y = obs_equals y x /\
  (obs_equals x y = Ok true -> obs_equals y z = Ok true -> obs_equals x z = Ok true).
Proof.
  intros x y z Px Py. destruct (C55_equals x x Px) as (b & E & I). destruct (C55_equals x y Px) as (b1 & E1 & I1).
  destruct (C55_equals y x Py) as (b2 & E2 & I2). destruct (C55_equals y z Py) as (b3 & E3 & I3). destruct (C55_equals x z Px) as (b4 & E4 & I4).
  rewrite E, E1, E2, E3, E4. assert (b = true) by now apply I. subst b. split; auto. split.
  - f_equal. apply eq_true_iff_eq. rewrite I1, I2. split; congruence.
  - intros H1 H2. injection H1 as ->. injection H2 as ->. f_equal. apply I4. rewrite <- (proj1 I3); auto. now apply I1.
Qed.
Theorem C55_action_equivalence : forall x y z, proper_action x -> proper_action y ->
  action_equals x x = Ok true /\ action_equals x y = action_equals y x /\
  (action_equals x y = Ok true -> action_equals y z = Ok true -> action_equals x z = Ok true).
Proof.
  intros x y z Px Py. destruct (C55_action_equals x x Px) as (b & E & I). destruct (C55_action_equals x y Px) as (b1 & E1 & I1).
  destruct (C55_action_equals y x Py) as (b2 & E2 & I2). destruct (C55_action_equals y z Py) as (b3 & E3 & I3).
  destruct (C55_action_equals x z Px) as (b4 & E4 & I4).
  rewrite E, E1, E2, E3, E4. assert (b = true) by now apply I. subst b. split; auto. split.
  - f_equal. apply eq_true_iff_eq. rewrite I1, I2. split; congruence.
  - intros H1 H2. injection H1 as ->. injection H2 as ->. f_equal. apply I4. rewrite <- (proj1 I3); auto. now apply I1.
Qed.
(** ... under which objects of different classes are unequal. *)
Theorem C55_classes : forall x y, proper x -> class_of x <> class_of y -> obs_equals x y = Ok false.
Proof.
  intros x y Px N. destruct (C55_equals x y Px) as (b & E & I). rewrite E. destruct b; auto. elim N. now rewrite (proj1 I).
Qed.
Theorem C55_action_classes : forall x y, proper_action x -> action_class x <> action_class y -> action_equals x y = Ok false.
Proof.
  intros x y Px N. destruct (C55_action_equals x y Px) as (b & E & I). rewrite E. destruct b; auto. elim N. now rewrite (proj1 I).
Qed.
(** Node ids are equal iff timestep and observation are. *)
Theorem C55_ids : forall t x u y, proper x -> exists b, id_equals (t, x) (u, y) = Ok b /\ (b = true <-> t = u /\ x = y).
Proof.
  intros t x u y Px. unfold id_equals. cbn. destruct (C55_equals x y Px) as (b & E & I). destruct (Z.eqb_spec t u).
  - exists b. split; auto. rewrite I. intuition.
  - exists false. split; auto. split; [discriminate|]. intros [? _]. contradiction.
Qed.

Section Hash.
Variable hash_int : Z -> Z.
Variable hash_string : string -> Z.
Notation oh := (obs_hash hash_int).
Notation ah := (action_hash hash_int hash_string).
Notation ih := (id_hash hash_int).
(** Equal objects have equal hashes, and hashing does not throw. *)
Theorem C55_hash : forall x y, proper x -> obs_equals x y = Ok true -> oh x = oh y /\ oh x <> Throw /\ oh x <> UB.
Proof.
  intros x y Px E. destruct (C55_equals x y Px) as (b & E' & I). rewrite E' in E. injection E as ->. assert (x = y) by now apply I. subst y.
  split; auto. destruct Px. destruct x; try congruence; cbn; split; discriminate.
Qed.
Theorem C55_action_hash : forall x y, proper_action x -> action_equals x y = Ok true -> ah x = ah y /\ ah x <> Throw /\ ah x <> UB.
Proof.
  intros x y Px E. destruct (C55_action_equals x y Px) as (b & E' & I). rewrite E' in E. injection E as ->. assert (x = y) by now apply I. subst y.
  split; auto. destruct x; try congruence; cbn; split; discriminate.
Qed.
Theorem C55_id_hash : forall t x u y, proper x -> id_equals (t, x) (u, y) = Ok true ->
  ih (t, x) = ih (u, y) /\ ih (t, x) <> Throw /\ ih (t, x) <> UB.
Proof.
  intros t x u y Px E. destruct (C55_ids t x u y Px) as (b & E' & I). rewrite E' in E. injection E as ->.
  destruct (proj1 I eq_refl) as [-> ->]. split; auto. destruct Px. destruct y; try congruence; cbn; split; discriminate.
Qed.
(** Hashes are size_t values if those of ints and strings are. *)
Lemma combine_range : forall c h, (0 <= c < size_max)%Z -> (0 <= hash_combine c h < size_max)%Z.
Proof.
  intros c h Hc. unfold hash_combine. set (z := (_ mod size_max)%Z).
  assert (Hz : (0 <= z < size_max)%Z) by (apply Z.mod_pos_bound; reflexivity).
  split; [apply Z.lxor_nonneg; lia|]. destruct (Z.eq_dec (Z.lxor c z) 0) as [->|N]; [reflexivity|].
  apply Z.log2_lt_pow2; [assert (0 <= Z.lxor c z)%Z by (apply Z.lxor_nonneg; lia); lia|].
  apply Z.le_lt_trans with (Z.max (Z.log2 c) (Z.log2 z)); [apply Z.log2_lxor; lia|].
  assert (L : forall v, (0 <= v < size_max)%Z -> (Z.log2 v < 64)%Z).
  { intros v Hv. destruct (Z.eq_dec v 0) as [->|]; [reflexivity|]. apply Z.log2_lt_pow2; [lia|exact (proj2 Hv)]. }
  apply Z.max_lub_lt; auto.
Qed.
Local Opaque hash_combine.
Theorem C55_hash_range : (forall i, 0 <= hash_int i < size_max)%Z -> forall t x h,
  (oh x = Ok h -> 0 <= h < size_max)%Z /\ (ih (t, x) = Ok h -> 0 <= h < size_max)%Z.
Proof.
  intros Hi t x h. assert (Z0 : (0 <= 0 < size_max)%Z) by (split; [lia|reflexivity]). split; intros E.
  - destruct x; cbn [obs_hash] in E; try discriminate; injection E as <-; repeat apply combine_range; auto.
  - unfold id_hash in E. destruct (oh (snd (t, x))); try discriminate. cbn [bind] in E. injection E as <-. repeat apply combine_range; auto.
Qed.
End Hash.

(** Comparing a proper object with a direct instance of the base class depends on the order. *)
Theorem C55_null_asymmetric : forall s, obs_equals (IntState s) NullState = Ok false /\ obs_equals NullState (IntState s) = Throw.
Proof. split; reflexivity. Qed.

(** The tree and the transposition table use these tests as their keys' equality: on states and actions of the
    provided types they decide equality, as assumed of [seqb] and [aeqb] by the theorems about searches. *)
Definition int_state_eqb (x y : Z) : bool := match obs_equals (IntState x) (IntState y) with Ok b => b | _ => false end.
Definition int_pair_eqb (x y : Z * Z) : bool :=
  match obs_equals (IntPairState (fst x) (snd x)) (IntPairState (fst y) (snd y)) with Ok b => b | _ => false end.
Definition int_triple_eqb (x y : Z * Z * Z) : bool :=
  match obs_equals (Int3TupleState (fst (fst x)) (snd (fst x)) (snd x)) (Int3TupleState (fst (fst y)) (snd (fst y)) (snd y)) with
  | Ok b => b | _ => false end.
Definition int_action_eqb (x y : Z) : bool := match action_equals (IntAction x) (IntAction y) with Ok b => b | _ => false end.
Definition string_action_eqb (x y : string) : bool :=
  match action_equals (StringAction x) (StringAction y) with Ok b => b | _ => false end.
Theorem C55_decides : decides int_state_eqb /\ decides int_pair_eqb /\ decides int_triple_eqb /\
  decides int_action_eqb /\ decides string_action_eqb.
Proof.
  repeat apply conj.
  - intros x y. apply Z.eqb_eq.
  - intros [a b] [c d]. unfold int_pair_eqb. cbn. rewrite andb_true_iff, !Z.eqb_eq. split; [intros [-> ->]; auto|intros E; now injection E].
  - intros [[a b] c] [[d e] f]. unfold int_triple_eqb. cbn. rewrite !andb_true_iff, !Z.eqb_eq. split; [intros [[-> ->] ->]; auto|intros E; now injection E].
  - intros x y. apply Z.eqb_eq.
  - intros x y. apply String.eqb_eq.
Qed.
Theorem C55_id_decides : forall (t u : Z) (x y : Z),
  id_eqb int_state_eqb (t, x) (u, y) = true <-> id_equals (t, IntState x) (u, IntState y) = Ok true.
Proof.
  intros t u x y. unfold id_eqb, id_equals, int_state_eqb. cbn. destruct (t =? u)%Z; cbn; [|split; discriminate].
  destruct (x =? y)%Z; split; congruence.
Qed.

Example C55_witness : proper (IntPairState 1 2) /\ obs_equals (IntPairState 1 2) (IntPairState 1 2) = Ok true /\
  obs_equals (IntPairState 1 2) (IntPairState 2 1) = Ok false /\ obs_equals (IntState 1) (IntPairState 1 2) = Ok false /\
  obs_hash (fun i => i mod size_max)%Z (IntPairState 1 2) <> obs_hash (fun i => i mod size_max)%Z (IntPairState 2 1).
Proof. repeat split; try discriminate. Qed.

Print Assumptions C55_equals.
Print Assumptions C55_action_equals.
Print Assumptions C55_equivalence.
Print Assumptions C55_action_equivalence.
Print Assumptions C55_classes.
Print Assumptions C55_action_classes.
Print Assumptions C55_ids.
Print Assumptions C55_hash.
Print Assumptions C55_action_hash.
Print Assumptions C55_id_hash.
Print Assumptions C55_hash_range.
Print Assumptions C55_null_asymmetric.
Print Assumptions C55_decides.
Print Assumptions C55_id_decides.
