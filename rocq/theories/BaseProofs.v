(** Lemmas about the helpers of Base.v. *)
From Coq Require Import List ZArith Lia Bool.
From Verif Require Import Base.
Import ListNotations.
Open Scope Z_scope.

(** Keep integer arithmetic folded under [cbn]/[simpl]. *)
Global Arguments Z.add : simpl never.
Global Arguments Z.sub : simpl never.
Global Arguments Z.mul : simpl never.

Lemma upd_length : forall A (l : list A) i x, length (upd l i x) = length l.
Proof. induction l as [|h t IH]; intros [|i] x; cbn; auto. Qed.

Lemma nth_upd_eq : forall A (l : list A) i x w,
  nth_error l i = Some w -> nth_error (upd l i x) i = Some x.
Proof. induction l as [|h t IH]; intros [|i] x w H; cbn in *; try discriminate; eauto. Qed.

Lemma nth_upd_ne : forall A (l : list A) i j x,
  i <> j -> nth_error (upd l i x) j = nth_error l j.
Proof.
  induction l as [|h t IH]; intros [|i] [|j] x H; cbn in *; auto; try congruence.
Qed.

Lemma nth_upd : forall A (l : list A) i j x w,
  nth_error l i = Some w ->
  nth_error (upd l i x) j = if Nat.eqb i j then Some x else nth_error l j.
Proof.
  intros A l i j x w H. destruct (Nat.eqb_spec i j) as [->|N].
  - eapply nth_upd_eq; eauto.
  - now apply nth_upd_ne.
Qed.

Definition b2z (b : bool) : Z := if b then 1 else 0.

Lemma countb_upd : forall A (f : A -> bool) l i w x,
  nth_error l i = Some w ->
  countb f (upd l i x) = countb f l - b2z (f w) + b2z (f x).
Proof.
  unfold b2z. induction l as [|h t IH]; intros [|i] w x H; cbn in *; try discriminate.
  - injection H as ->. lia.
  - rewrite (IH _ _ x H). lia.
Qed.

Lemma sumZ_upd : forall A (f : A -> Z) l i w x,
  nth_error l i = Some w ->
  sumZ f (upd l i x) = sumZ f l - f w + f x.
Proof.
  induction l as [|h t IH]; intros [|i] w x H; cbn in *; try discriminate.
  - injection H as ->. lia.
  - rewrite (IH _ _ x H). lia.
Qed.

Lemma countb_nonneg : forall A (f : A -> bool) l, 0 <= countb f l.
Proof. induction l as [|h t IH]; cbn; [lia|destruct (f h); lia]. Qed.

Lemma countb_le_length : forall A (f : A -> bool) l, countb f l <= Z.of_nat (length l).
Proof. induction l as [|h t IH]; cbn [countb length]; [lia|destruct (f h); lia]. Qed.

Lemma countb_map : forall A B (f : B -> bool) (g : A -> B) l,
  countb f (map g l) = countb (fun x => f (g x)) l.
Proof. induction l as [|h t IH]; cbn; auto. rewrite IH. auto. Qed.

Lemma countb_ext : forall A (f g : A -> bool) l, (forall x, f x = g x) -> countb f l = countb g l.
Proof. intros A f g l H; induction l as [|h t IH]; cbn; auto. now rewrite H, IH. Qed.

Lemma countb_pos : forall A (f : A -> bool) l,
  0 < countb f l <-> exists i w, nth_error l i = Some w /\ f w = true.
Proof.
  intros A f l. split.
  - induction l as [|h t IH]; cbn; intros H; [lia|].
    destruct (f h) eqn:E.
    + exists O, h. auto.
    + destruct IH as (i & w & ? & ?); [lia|]. exists (S i), w. auto.
  - intros (i & w & H & F). revert i H.
    induction l as [|h t IH]; intros [|i] H; cbn in *; try discriminate.
    + injection H as ->. rewrite F. pose proof (countb_nonneg _ f t). lia.
    + specialize (IH _ H). destruct (f h); lia.
Qed.

Lemma countb_zero : forall A (f : A -> bool) l i w,
  countb f l = 0 -> nth_error l i = Some w -> f w = false.
Proof.
  intros A f l i w H N. destruct (f w) eqn:E; auto.
  assert (0 < countb f l) by (apply countb_pos; eauto). lia.
Qed.

Lemma countb_repeat : forall A (f : A -> bool) x n,
  countb f (repeat x n) = if f x then Z.of_nat n else 0.
Proof. induction n as [|n IH]; cbn [repeat countb]; [destruct (f x); lia|rewrite IH; destruct (f x); lia]. Qed.

Lemma nth_error_map' : forall A B (f : A -> B) l i,
  nth_error (map f l) i = match nth_error l i with Some x => Some (f x) | None => None end.
Proof. induction l as [|h t IH]; intros [|i]; cbn; auto. Qed.

Lemma nth_error_In_ex : forall A (l : list A) x, In x l -> exists i, nth_error l i = Some x.
Proof. intros A l x H. now apply In_nth_error. Qed.

Lemma sumZ_nonneg : forall A (f : A -> Z) l, (forall x, 0 <= f x) -> 0 <= sumZ f l.
Proof. intros A f l H; induction l as [|h t IH]; cbn; [lia|specialize (H h); lia]. Qed.

Lemma sumZ_map : forall A B (f : B -> Z) (g : A -> B) l,
  sumZ f (map g l) = sumZ (fun x => f (g x)) l.
Proof. induction l as [|h t IH]; cbn; auto. rewrite IH. auto. Qed.
