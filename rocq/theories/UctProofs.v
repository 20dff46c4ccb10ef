(** Proofs about UCT and PUCT. *)
From Coq Require Import List ZArith Bool Reals Lia Lra Permutation.
From Verif Require Import Base BaseProofs NumOps RLemmas HelperModel HelperSpec HelperProofs EngineModel EngineSpec
  EngineProofs EngineInv MapModel MapProofs PickSpec PickProofs AlgoModel AlgoProofs UctModel UctSpec.
Import ListNotations.
Open Scope R_scope.

(** ** Averages *)
Lemma mean_step : forall w h l nb avg r, (0 <= w)%Z -> is_mean w h l nb avg ->
  is_mean w h (r :: l) (nb + 1) (avg + (r - avg) / IZR (nb + 1)).
Proof.
  intros w h l nb avg r Hw (E & Z0 & NZ). assert (P : (0 <= nb)%Z) by lia.
  split; [cbn [length]; lia|]. split; [intros; lia|]. intros _. cbn [rsum].
  assert (Hn : 0 < IZR (nb + 1)) by (apply IZR_lt; lia).
  destruct (Z.eq_dec nb 0) as [->|N].
  - rewrite (Z0 eq_refl). assert (w = 0%Z /\ l = []) as [-> ->] by (destruct l; cbn in E; split; auto; lia).
    cbn [rsum]. change (0 + 1)%Z with 1%Z. field.
  - rewrite (NZ N). rewrite plus_IZR in *. field. split; [lra|apply not_0_IZR; auto].
Qed.

Lemma rsum_perm : forall l l', Permutation l l' -> rsum l = rsum l'.
Proof. induction 1; cbn; lra. Qed.
Lemma rsum_bounds : forall lo hi l, (forall r, In r l -> lo <= r <= hi) ->
  IZR (Z.of_nat (length l)) * lo <= rsum l <= IZR (Z.of_nat (length l)) * hi.
Proof.
  induction l as [|r l IH]; intros H.
  - cbn. lra.
  - cbn [length rsum]. rewrite Nat2Z.inj_succ, succ_IZR. pose proof (H r (or_introl eq_refl)).
    assert (forall x, In x l -> lo <= x <= hi) by (intros; apply H; now right). specialize (IH H1). lra.
Qed.
Lemma mean_bounds : forall w h l nb avg lo hi, (0 <= w)%Z -> is_mean w h l nb avg ->
  lo <= h <= hi \/ (w = 0%Z /\ l <> []) -> (forall r, In r l -> lo <= r <= hi) -> lo <= avg <= hi.
Proof.
  intros w h l nb avg lo hi Hw (E & Z0 & NZ) Hh Hl. destruct (Z.eq_dec nb 0) as [N|N].
  - rewrite (Z0 N). destruct Hh as [Hh|[-> Hl']]; auto. destruct l; [contradiction|cbn in E; lia].
  - rewrite (NZ N). assert (Hn : 0 < IZR nb) by (apply IZR_lt; lia).
    pose proof (rsum_bounds lo hi l Hl) as B.
    assert (IZR nb * lo <= IZR w * h + rsum l <= IZR nb * hi) as [B1 B2].
    { rewrite E, plus_IZR. assert (0 <= IZR w) by (apply IZR_le; lia).
      destruct Hh as [Hh|[-> _]]; [|lra].
      pose proof (Rmult_le_compat_l (IZR w) lo h H (proj1 Hh)).
      pose proof (Rmult_le_compat_l (IZR w) h hi H (proj2 Hh)). lra. }
    split.
    + apply Rmult_le_reg_l with (IZR nb); auto. replace (IZR nb * ((IZR w * h + rsum l) / IZR nb)) with (IZR w * h + rsum l) by (field; lra). auto.
    + apply Rmult_le_reg_l with (IZR nb); auto. replace (IZR nb * ((IZR w * h + rsum l) / IZR nb)) with (IZR w * h + rsum l) by (field; lra). auto.
Qed.

(** ** Exploration terms *)
Definition cnt (n : Z) : R := if (0 <? n)%Z then IZR n else 1.
Lemma cnt_pos : forall n, 1 <= cnt n.
Proof. intros n. unfold cnt. destruct (Z.ltb_spec 0 n); [apply IZR_le; lia|lra]. Qed.
Lemma cnt_mono : forall n m, (n <= m)%Z -> cnt n <= cnt m.
Proof.
  intros n m H. unfold cnt. destruct (Z.ltb_spec 0 n), (Z.ltb_spec 0 m); try lia; try lra; apply IZR_le; lia.
Qed.
Lemma ln_ge0 : forall x, 1 <= x -> 0 <= ln x.
Proof.
  intros x H. destruct (Req_dec x 1) as [->|N]; [rewrite ln_1; lra|].
  rewrite <- ln_1. left. apply ln_increasing; lra.
Qed.
Lemma ln_le : forall x y, 0 < x -> x <= y -> ln x <= ln y.
Proof. intros x y H [L| ->]; [left; now apply ln_increasing|lra]. Qed.
Lemma div_anti : forall a b c, 0 <= a -> 0 < b -> b <= c -> a / c <= a / b.
Proof.
  intros a b c Ha Hb H. unfold Rdiv. apply Rmult_le_compat_l; auto. apply Rinv_le_contravar; lra.
Qed.
Lemma div_ge0 : forall a b, 0 <= a -> 0 < b -> 0 <= a / b.
Proof. intros a b Ha Hb. unfold Rdiv. apply Rmult_le_pos; auto. left. now apply Rinv_0_lt_compat. Qed.

Lemma uct_term_eq : forall n c, uct_term n c = sqrt (ln (cnt n) / cnt c).
Proof. reflexivity. Qed.
Lemma uct_term_nonneg : forall n c, 0 <= uct_term n c.
Proof. intros n c. rewrite uct_term_eq. apply sqrt_pos. Qed.
Lemma uct_term_parent : forall n m c, (n <= m)%Z -> uct_term n c <= uct_term m c.
Proof.
  intros n m c H. rewrite !uct_term_eq. apply sqrt_le_1_alt. apply Rdiv_le; [pose proof (cnt_pos c); lra|].
  apply ln_le; [pose proof (cnt_pos n); lra|now apply cnt_mono].
Qed.
Lemma uct_term_child : forall n c d, (c <= d)%Z -> uct_term n d <= uct_term n c.
Proof.
  intros n c d H. rewrite !uct_term_eq. apply sqrt_le_1_alt. apply div_anti.
  - apply ln_ge0, cnt_pos.
  - pose proof (cnt_pos c). lra.
  - now apply cnt_mono.
Qed.
Lemma puct_term_eq : forall p n c, puct_term p n c = Rpower (cnt n) p / cnt c.
Proof.
  intros p n c. unfold puct_term. fold (cnt n). fold (cnt c). destruct (Req_EM_T p (1/2)) as [->|]; auto.
  rewrite <- Rpower_sqrt by (pose proof (cnt_pos n); lra). now replace (/ 2) with (1 / 2) by lra.
Qed.
Lemma puct_term_nonneg : forall p n c, 0 < puct_term p n c.
Proof.
  intros p n c. rewrite puct_term_eq. pose proof (cnt_pos c). apply Rdiv_lt_0_compat; [apply exp_pos|lra].
Qed.
Lemma puct_term_parent : forall p n m c, 0 <= p -> (n <= m)%Z -> puct_term p n c <= puct_term p m c.
Proof.
  intros p n m c Hp H. rewrite !puct_term_eq. apply Rdiv_le; [pose proof (cnt_pos c); lra|].
  apply Rle_Rpower_l; auto. split; [pose proof (cnt_pos n); lra|now apply cnt_mono].
Qed.
Lemma puct_term_child : forall p n c d, (c <= d)%Z -> puct_term p n d <= puct_term p n c.
Proof.
  intros p n c d H. rewrite !puct_term_eq. apply div_anti.
  - left. apply exp_pos.
  - pose proof (cnt_pos c). lra.
  - now apply cnt_mono.
Qed.
