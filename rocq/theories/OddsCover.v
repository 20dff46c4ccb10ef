(** Shares of sequences of draws. *)
From Coq Require Import List ZArith Bool Reals Lia Lra.
From Verif Require Import Base OddsSpec.
Import ListNotations.
Open Scope R_scope.

Section Cover.
Variable N : nat.

(** The sequences of length [i] with property [Bad] are at most a share [a]. *)
Definition cov (i : nat) (a : R) (Bad : list nat -> Prop) : Prop :=
  exists l, INR (length l) <= a * INR N ^ i /\ forall w, word N i w -> Bad w -> In w l.

Lemma cov_mono : forall i a b (P Q : list nat -> Prop), a <= b -> (forall w, word N i w -> Q w -> P w) -> cov i a P -> cov i b Q.
Proof.
  intros i a b P Q H HQ (l & L & K). exists l. split.
  - eapply Rle_trans; [exact L|]. apply Rmult_le_compat_r; auto. apply pow_le, pos_INR.
  - intros w Ww Qw. apply K; auto.
Qed.
Lemma cov_none : forall i a (P : list nat -> Prop), 0 <= a -> (forall w, word N i w -> ~ P w) -> cov i a P.
Proof.
  intros i a P H HP. exists []. split.
  - cbn. apply Rmult_le_pos; auto. apply pow_le, pos_INR.
  - intros w Ww Pw. destruct (HP w Ww Pw).
Qed.
Lemma cov_or : forall i a b P Q, cov i a P -> cov i b Q -> cov i (a + b) (fun w => P w \/ Q w).
Proof.
  intros i a b P Q (l & L & K) (l' & L' & K'). exists (l ++ l'). split.
  - rewrite app_length, plus_INR. lra.
  - intros w Ww [Pw|Qw]; apply in_or_app; auto.
Qed.
Lemma cov_any : forall X i (a : X -> R) (P : X -> list nat -> Prop) (xs : list X), (forall x, In x xs -> cov i (a x) (P x)) ->
  cov i (fold_right Rplus 0 (map a xs)) (fun w => exists x, In x xs /\ P x w).
Proof.
  intros X i a P xs. induction xs as [|x xs IH]; intros H.
  - apply cov_none; [cbn; lra|]. intros w _ (x & [] & _).
  - cbn [map fold_right]. eapply cov_mono; [apply Rle_refl| |apply cov_or; [apply (H x); cbn; auto|apply IH; intros y Iy; apply H; cbn; auto]].
    intros w _ (y & [<-|Iy] & Py); [left; auto|right; eauto].
Qed.

(** All sequences of length [i]. *)
Fixpoint all_words (i : nat) : list (list nat) :=
  match i with O => [[]] | Datatypes.S i' => flat_map (fun j => map (cons j) (all_words i')) (seq 0 N) end.
Lemma flat_len : forall X Y (f : X -> list Y) k l, (forall x, In x l -> length (f x) = k) -> length (flat_map f l) = (length l * k)%nat.
Proof.
  intros X Y f k l. induction l as [|x l IH]; intros H; cbn; auto. rewrite app_length, IH by (intros y Iy; apply H; cbn; auto).
  rewrite (H x) by (cbn; auto). lia.
Qed.
Lemma all_words_len : forall i, length (all_words i) = (N ^ i)%nat.
Proof.
  induction i as [|i IH]; cbn; auto. rewrite (flat_len _ _ _ (N ^ i)%nat); [now rewrite seq_length|]. intros j _. now rewrite map_length.
Qed.
Lemma all_words_in : forall i w, word N i w -> In w (all_words i).
Proof.
  induction i as [|i IH]; intros w (L & B); cbn.
  - destruct w; [auto|discriminate].
  - destruct w as [|j w]; [discriminate|]. apply in_flat_map. exists j. split; [apply in_seq; pose proof (B j (or_introl eq_refl)); lia|].
    apply in_map, IH. split; [cbn in L; congruence|]. intros x Ix. apply B. now right.
Qed.
Lemma cov_all : forall i a P, 1 <= a -> cov i a P.
Proof.
  intros i a P H. exists (all_words i). split.
  - rewrite all_words_len, pow_INR. pose proof (pow_le (INR N) i (pos_INR N)). nra.
  - intros w Ww _. now apply all_words_in.
Qed.

Fixpoint sum_to (n : nat) (f : nat -> R) : R := match n with O => 0 | Datatypes.S n' => sum_to n' f + f n' end.
Lemma sum_to_le : forall n f g, (forall j, (j < n)%nat -> f j <= g j) -> sum_to n f <= sum_to n g.
Proof. induction n as [|n IH]; intros f g H; cbn; [lra|]. pose proof (H n ltac:(lia)). specialize (IH f g ltac:(intros; apply H; lia)). lra. Qed.
Lemma sum_to_ext : forall n f g, (forall j, (j < n)%nat -> f j = g j) -> sum_to n f = sum_to n g.
Proof. induction n as [|n IH]; intros f g H; cbn; auto. now rewrite (IH f g), (H n) by (intros; try apply H; lia). Qed.
Lemma sum_to_const : forall n c, sum_to n (fun _ => c) = INR n * c.
Proof. induction n as [|n IH]; intros c; [cbn; ring|]. cbn [sum_to]. rewrite IH, S_INR. ring. Qed.
Lemma sum_to_add : forall n f g, sum_to n (fun j => f j + g j) = sum_to n f + sum_to n g.
Proof. induction n as [|n IH]; intros f g; cbn; [ring|]. rewrite IH. ring. Qed.
Lemma sum_to_scal : forall n c f, sum_to n (fun j => c * f j) = c * sum_to n f.
Proof. induction n as [|n IH]; intros c f; cbn; [ring|]. rewrite IH. ring. Qed.
Lemma sum_to_split : forall n m f, sum_to (n + m) f = sum_to n f + sum_to m (fun j => f (n + j)%nat).
Proof. intros n m f. induction m as [|m IH]; [rewrite Nat.add_0_r; cbn; ring|]. rewrite Nat.add_succ_r. cbn [sum_to]. rewrite IH. ring. Qed.

(** The share of the sequences is the average, over the first draw, of the share of the rest. *)
Lemma cov_first : (0 < N)%nat -> forall i (a : nat -> R) Bad, (forall j, (j < N)%nat -> cov i (a j) (fun w => Bad (j :: w))) ->
  cov (Datatypes.S i) (sum_to N a / INR N) Bad.
Proof.
  intros Npos i a Bad H.
  assert (X : forall n, (n <= N)%nat -> exists l, INR (length l) <= sum_to n a * INR N ^ i /\
    forall j w, (j < n)%nat -> word N i w -> Bad (j :: w) -> In (j :: w) l).
  { induction n as [|n IH]; intros Hn.
    - exists []. split; [cbn; lra|]. intros j w Hj. lia.
    - destruct (IH ltac:(lia)) as (l & L & K). destruct (H n ltac:(lia)) as (l' & L' & K'). exists (l ++ map (cons n) l'). split.
      + rewrite app_length, map_length, plus_INR. cbn [sum_to]. lra.
      + intros j w Hj Ww Bw. apply in_or_app. destruct (Nat.eq_dec j n) as [->|Ne]; [right; apply in_map; auto|left; apply K; auto; lia]. }
  destruct (X N (le_n N)) as (l & L & K). exists l. split.
  - replace (sum_to N a / INR N * INR N ^ Datatypes.S i) with (sum_to N a * INR N ^ i); [exact L|].
    cbn [pow]. field. apply not_0_INR. lia.
  - intros w (Lw & B) Bw. destruct w as [|j w]; [discriminate|]. apply K; auto; [apply B; now left|]. split; [cbn in Lw; congruence|]. intros x Ix. apply B. now right.
Qed.

Lemma cov_all_but : forall delta T P, cov T delta (fun u => ~ P u) -> (forall u, P u \/ ~ P u) -> all_but delta N T P.
Proof.
  intros delta T P (l & L & K) Dec. exists l. split; [exact L|]. intros u Wu Nu. destruct (Dec u) as [Pu|Npu]; auto. destruct (Nu (K u Wu Npu)).
Qed.
End Cover.
