(** Invariants of UCT searches. *)
From Coq Require Import List ZArith Bool Reals Lia Lra Permutation.
From Verif Require Import Base BaseProofs NumOps RLemmas HelperModel HelperSpec HelperProofs EngineModel EngineSpec
  EngineProofs EngineInv EngineCount MapModel MapProofs PickSpec PickProofs AlgoModel AlgoProofs UctModel UctSpec UctProofs.
Import ListNotations.
Open Scope R_scope.

Section Inv.
Context {S A : Type}.
Variable seqb : S -> S -> bool.
Variable aeqb : A -> A -> bool.
Hypothesis seqb_ok : decides seqb.
Hypothesis aeqb_ok : decides aeqb.
Variable C : @econf S A.
Variable U : @uconf S A.
Hypothesis Uok : uct_ok C U.
Notation alg := (uct aeqb C U).
Notation areach := (areach seqb aeqb C alg).
Notation ast := (ast alg).
Notation atr := (atr seqb aeqb C alg).
Notation agood := (agood seqb aeqb C alg).

Lemma pseudo_pos : (0 <= pseudo C U)%Z.
Proof. destruct Uok as (_ & _ & P & _). unfold pseudo. destruct (heuristic C); lia. Qed.

(** ** Averages *)
Definition means (s : ast) : Prop :=
  (forall d x n, nth_error (xds s) d = Some x -> nth_error (dh (mem (base s))) d = Some n ->
     is_mean (pseudo C U) (dheur n) (returns_d d (etrace (base s))) (unb x) (uavg x)) /\
  (forall d, (length (dh (mem (base s))) <= d)%nat -> returns_d d (etrace (base s)) = []) /\
  (forall c x, nth_error (xcs s) c = Some x -> is_mean 0 0 (returns_c c (etrace (base s))) (unb x) (uavg x)) /\
  (forall c, (length (ch (mem (base s))) <= c)%nat -> returns_c c (etrace (base s)) = []).

Lemma new_mean : forall n, dheur n = (match heuristic C with
       | Some h => if is_sink C (dstate n) then 0 else h (dstate n) | None => 0 end) ->
  is_mean (pseudo C U) (dheur n) [] (unb (uct_new_d C U n)) (uavg (uct_new_d C U n)).
Proof.
  intros n H. unfold uct_new_d, pseudo. destruct (heuristic C) as [h|]; unfold is_mean;
    change (Z.of_nat (length (@nil R))) with 0%Z; cbn [unb uavg rsum].
  - split; [lia|]. split; auto. intros N. field. now apply not_0_IZR.
  - rewrite H. split; auto. split; auto. intros N. lia.
Qed.

Lemma means_init : forall n g, means (ainit C alg n g).
Proof.
  intros n g. split; [|split; [|split]]; cbn -[uct_new_d is_mean].
  - intros [|[|d]] x n0 [= <-] [= <-]. now apply new_mean.
  - reflexivity.
  - intros [|d] x; discriminate.
  - reflexivity.
Qed.

Lemma ub : forall s cur x, nth_error (xds s) cur = Some x -> forall d, nth_error (upd (xds s) cur (vis_d alg true x)) d = nth_error (@xds _ _ alg s) d.
Proof.
  intros s cur x H d. rewrite (nth_upd _ _ _ _ _ _ H). destruct (Nat.eqb_spec cur d) as [->|]; auto.
Qed.

Lemma visit_heur : forall l cur (n : @dnode S A) k d m, nth_error l cur = Some n ->
  nth_error (upd l cur (add_dkid (visit_d n) k m)) d = nth_error l d \/
  exists n' n0, nth_error (upd l cur (add_dkid (visit_d n) k m)) d = Some n' /\ nth_error l d = Some n0 /\ dheur n' = dheur n0.
Proof.
  intros l cur n k d m H. rewrite (nth_upd _ _ _ _ _ _ H). destruct (Nat.eqb_spec cur d) as [->|]; auto.
  right. exists (add_dkid (visit_d n) k m), n. auto.
Qed.

Lemma means_step : forall s s', agood s -> means s -> atr s s' -> means s'.
Proof.
  intros s s' I M T. pose proof I as [Gd Ps Ld Lc Lt]. destruct M as (M1 & M2 & M3 & M4).
  (* updates of a visited node *)
  assert (V : forall cur n x n1, nth_error (dh (mem (base s))) cur = Some n -> nth_error (xds s) cur = Some x ->
    dheur n1 = dheur n ->
    forall d x0 n0, nth_error (upd (xds s) cur (vis_d alg (is_leaf C n) x)) d = Some x0 ->
      nth_error (upd (dh (mem (base s))) cur n1) d = Some n0 ->
      is_mean (pseudo C U) (dheur n0) (returns_d d (etrace (base s))) (unb x0) (uavg x0)).
  { intros cur n x n1 Hn Hx Hh d x0 n0 Q1 Q2. cbn [vis_d uct] in Q1.
    rewrite (nth_upd _ _ _ _ _ _ Hx) in Q1. rewrite (nth_upd _ _ _ _ _ _ Hn) in Q2.
    destruct (Nat.eqb_spec cur d) as [->|]; [|eapply M1; eauto]. injection Q1 as <-. injection Q2 as <-.
    rewrite Hh. eapply M1; eauto. }
  destruct T; unfold means; cbn [base xds xcs mem dh ch etrace adie returns_d returns_c flat_map snd app];
    fold (returns_d (S:=S) (A:=A)); fold (returns_c (S:=S) (A:=A)).
  - exact (conj M1 (conj M2 (conj M3 M4))).
  - rewrite upd_length. split; [|split; [|split]]; auto. exact (V cur n x (visit_d n) H0 H1 eq_refl).
  - rewrite upd_length, app_length. cbn [length]. split; [|split; [|split]]; auto.
    + exact (V cur n x (add_dkid (visit_d n) a c) H0 H1 eq_refl).
    + intros c0 x0 Q. apply nth_snoc in Q. destruct Q as [Q|[-> ->]]; [eapply M3; eauto|].
      change (is_mean 0 0 (returns_c (length (xcs s)) (etrace (base s))) 0 0).
      rewrite M4 by lia. split; auto. split; auto. intros N; lia.
    + intros c0 Q. apply M4. lia.
  - rewrite upd_length. auto.
  - rewrite upd_length. auto.
  - rewrite upd_length, app_length. cbn [length]. split; [|split; [|split]]; auto.
    + intros d0 x0 n0 Q1 Q2. apply nth_snoc in Q1. apply nth_snoc in Q2.
      assert (L : forall i y, nth_error (dh (mem (base s))) i = Some y -> (i < length (dh (mem (base s))))%nat)
        by (intros i y Hi; apply nth_error_Some; congruence).
      assert (L' : forall i y, nth_error (xds s) i = Some y -> (i < length (xds s))%nat)
        by (intros i y Hi; apply nth_error_Some; congruence).
      destruct Q1 as [Q1|[-> ->]], Q2 as [Q2|[E ->]].
      * eapply M1; eauto.
      * apply L' in Q1. lia.
      * apply L in Q2. lia.
      * match goal with |- is_mean ?a ?b _ ?c ?e => change (is_mean a b (returns_d (length (xds s)) (etrace (base s))) c e) end.
        rewrite M2 by lia. apply (new_mean (new_dnode C o (cdepth n + 1) (ctime n + 1))). reflexivity.
    + intros d0 Q. apply M2. lia.
  - rewrite upd_length. split; [|split; [|split]]; auto. exact (V cur n x (visit_d n) H0 H1 eq_refl).
  - split; [|split; [|split]]; auto.
    + intros c0 x0 Q. rewrite (nth_upd _ _ _ _ _ _ H1) in Q.
      change (back_c alg n x (cview s n) cx (mkArgs (rev before) (rev (r :: after)) (tafter + r) total) = Ok x1) in H3.
      cbn in H3. injection H3 as <-.
      destruct (Nat.eqb_spec c c0) as [->|]; [|eapply M3; eauto]. injection Q as <-.
      cbn [uct_backup unb uavg app]. apply mean_step; [lia|]. apply M3; auto.
    + intros c0 Q. assert (c < length (ch (mem (base s))))%nat by (apply nth_error_Some; congruence).
      destruct (Nat.eqb_spec c c0); [lia|]. exact (M4 c0 Q).
  - split; [|split; [|split]]; auto.
    + intros d0 x0 n0 Q Q2. rewrite (nth_upd _ _ _ _ _ _ H1) in Q. cbn in H3. injection H3 as <-.
      destruct (Nat.eqb_spec d d0) as [->|]; [|eapply M1; eauto]. injection Q as <-.
      cbn [uct_backup unb uavg app]. apply mean_step; [apply pseudo_pos|]. apply M1; auto.
    + intros d0 Q. assert (d < length (dh (mem (base s))))%nat by (apply nth_error_Some; congruence).
      destruct (Nat.eqb_spec d d0); [lia|]. exact (M2 d0 Q).
  - exact (conj M1 (conj M2 (conj M3 M4))).
  - exact (conj M1 (conj M2 (conj M3 M4))).
  - exact (conj M1 (conj M2 (conj M3 M4))).
  - exact (conj M1 (conj M2 (conj M3 M4))).
Qed.
Lemma means_reach : forall n g s, areach n g s -> means s.
Proof.
  intros n g. apply areach_ind'; auto.
  - apply means_init.
  - intros s s' _ I _ M T. eapply means_step; eauto.
Qed.
End Inv.
