(** Facts about real numbers used in several proofs. *)
From Coq Require Import Reals Lra List ZArith Lia.
From Verif Require Import NumOps HelperSpec.
Import ListNotations.
Open Scope R_scope.

Lemma Rltb_true : forall x y, Rltb x y = true <-> x < y.
Proof. intros x y. unfold Rltb. destruct (Rlt_dec x y); split; auto; discriminate. Qed.
Lemma Rltb_false : forall x y, Rltb x y = false <-> y <= x.
Proof. intros x y. unfold Rltb. destruct (Rlt_dec x y); split; auto; try discriminate; lra. Qed.
Lemma Rleb_true : forall x y, Rleb x y = true <-> x <= y.
Proof. intros x y. unfold Rleb. destruct (Rle_dec x y); split; auto; discriminate. Qed.
Lemma Rleb_false : forall x y, Rleb x y = false <-> y < x.
Proof. intros x y. unfold Rleb. destruct (Rle_dec x y); split; auto; try discriminate; lra. Qed.

Lemma eps_pos : 0 < neps R_ops.
Proof. cbn. apply Rinv_0_lt_compat. apply IZR_lt. reflexivity. Qed.

Lemma total_app : forall T (a b : list (T * R)), total (a ++ b) = total a + total b.
Proof. induction a as [|[k w] a IH]; intros b; cbn; [lra|rewrite IH; lra]. Qed.

Lemma total_nonneg : forall T (m : list (T * R)), nonneg_weights m -> 0 <= total m.
Proof.
  induction m as [|[k w] m IH]; intros H; cbn; [lra|].
  assert (0 <= w) by (apply (H k); now left).
  assert (0 <= total m) by (apply IH; intros k' w' Q; apply (H k'); now right). lra.
Qed.

Lemma positive_nonneg : forall T (m : list (T * R)), positive_weights m -> nonneg_weights m.
Proof. intros T m H k w Q. apply Rlt_le. eapply H; eauto. Qed.

Lemma Rdiv_lt : forall a b s, 0 < s -> a < b -> a / s < b / s.
Proof. intros a b s Hs H. apply Rmult_lt_compat_r; auto. now apply Rinv_0_lt_compat. Qed.
Lemma Rdiv_le : forall a b s, 0 < s -> a <= b -> a / s <= b / s.
Proof. intros a b s Hs H. apply Rmult_le_compat_r; auto. left. now apply Rinv_0_lt_compat. Qed.

Lemma strict_total_R : strict_total Rltb.
Proof.
  constructor.
  - intros x. apply Rltb_false. lra.
  - intros x y z. rewrite !Rltb_true. lra.
  - intros x y. rewrite !Rltb_false. lra.
Qed.

Lemma strict_total_Z : strict_total Z.ltb.
Proof.
  constructor.
  - apply Z.ltb_irrefl.
  - intros x y z. rewrite !Z.ltb_lt. lia.
  - intros x y. rewrite !Z.ltb_ge. lia.
Qed.
