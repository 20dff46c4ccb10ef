(** Where trials stop: how often a trial ends at a node. *)
From Coq Require Import List ZArith Bool Reals Lia Lra.
From Verif Require Import Base BaseProofs NumOps EngineModel EngineSpec EngineProofs EngineInv EngineCount.
Import ListNotations.

Section Ends.
Context {S A : Type}.
Variable seqb : S -> S -> bool.
Variable aeqb : A -> A -> bool.
Hypothesis seqb_ok : decides seqb.
Hypothesis aeqb_ok : decides aeqb.
Variable C : @econf S A.
Notation store := (@store S A).
Notation est := (@est S A).
Notation event := (@event S A).
Notation gstep := (gstep seqb aeqb C).
Notation ereach := (ereach seqb aeqb C).
Notation good := (good seqb aeqb C).
Open Scope Z_scope.

(** A worker about to look at d with a fresh node on its path. *)
Definition atnew (d : nat) (x : @tstate A) : Z := match x with TSel d' true _ _ => b2z (Nat.eqb d' d) | _ => 0 end.

Definition ends (s : est) : Prop :=
  (forall d n, nth_error (dh (mem s)) d = Some n -> is_leaf C n = true -> count (visits_d d) (etrace s) = 0) /\
  (mcts_mode C = false -> forall d n, nth_error (dh (mem s)) d = Some n -> is_leaf C n = false ->
     count (ends_at d) (etrace s) = 0) /\
  (mcts_mode C = true -> use_tt C = false -> forall d n, nth_error (dh (mem s)) d = Some n -> is_leaf C n = false ->
     count (ends_at d) (etrace s) + sumZ (atnew d) (ths s) = (if Nat.eqb d 0 then 0 else 1)).

Ltac cnorm H :=
  cbn [mem ths etrace dh ch] in *; rewrite ?(sumZ_upd _ _ _ _ _ _ H), ?count_cons;
  cbn [pendD pendC atC atD busy eager visits_d backs_d visits_c backs_c selects_c enters_d ends_at is_start is_done
       makes_d makes_c selects countb fst snd];
  rewrite ?app_length, ?upd_length; cbn [length];
  change (b2z true) with 1 in *; change (b2z false) with 0 in *.

Lemma leaf_visit : forall n, is_leaf C (visit_d n) = is_leaf C n.
Proof. reflexivity. Qed.
Lemma leaf_add : forall n a c, is_leaf C (add_dkid n a c) = is_leaf C n.
Proof. reflexivity. Qed.

Lemma atnew_fresh : forall s d, good s -> (length (dh (mem s)) <= d)%nat -> sumZ (atnew d) (ths s) = 0.
Proof.
  intros s d [_ Sf] L. unfold safe in Sf.
  assert (Q : forall x, In x (ths s) -> safe_thread (mem s) x).
  { intros x Hx. apply In_nth_error in Hx. destruct Hx as (t & Ht). eauto. }
  revert Q. generalize (ths s). induction l as [|x l IH]; intros Q; auto. cbn [sumZ]. rewrite IH by (intros; apply Q; now right).
  pose proof (Q x (or_introl eq_refl)) as Z. destruct x as [|cur [] ? ?|? ? ? ? ? ?|? ? ? ? ?|? ? ? ? ? ?|]; cbn [atnew]; try lia. cbn in Z.
  destruct (Nat.eqb_spec cur d); cbn; lia.
Qed.

Lemma ends_step : forall s s', good s -> walks seqb aeqb C s -> cinv C s -> ends s -> gstep s s' -> ends s'.
Proof.
  intros s s' Gd W K (E1 & E2 & E3) G. pose proof Gd as [I Sf]. pose proof (ci_fd _ _ K) as Fd.
  assert (Up : forall cur n n' d m, nth_error (dh (mem s)) cur = Some n -> is_leaf C n' = is_leaf C n ->
    nth_error (upd (dh (mem s)) cur n') d = Some m ->
    (cur = d /\ m = n' /\ is_leaf C m = is_leaf C n) \/ (cur <> d /\ nth_error (dh (mem s)) d = Some m)).
  { intros cur n n' d m H1 H2 H3. rewrite (nth_upd _ _ _ _ _ _ H1) in H3. destruct (Nat.eqb_spec cur d); [|auto].
    injection H3 as <-. auto. }
  assert (Leaf : forall n flag, should_continue C n flag = true -> is_leaf C n = false).
  { intros n flag Q. unfold should_continue in Q. destruct (is_leaf C n); auto; discriminate. }
  destruct G; pose proof (Sf _ _ H) as Z; cbn [safe_thread] in Z; specialize (W _ _ H);
    (split; [intros d1 m1 Q L|split; [intros M d1 m1 Q L|intros M U d1 m1 Q L]]); cnorm H; cbn [atnew]; rewrite ?Z.add_0_l;
    try match type of Q with
    | nth_error (upd _ _ _) _ = Some _ =>
        first [destruct (Up _ _ _ _ _ H0 (leaf_visit n) Q) as [(-> & _ & El)|(Ne & Q')]
              |destruct (Up _ _ _ _ _ H0 (eq_trans (leaf_add (visit_d n) _ _) (leaf_visit n)) Q) as [(-> & _ & El)|(Ne & Q')]];
        [rewrite L in El; symmetry in El|]
    end.
  all: try (apply Leaf in H1; congruence).
  all: try match type of Ne with ?x <> ?y => rewrite (proj2 (Nat.eqb_neq x y) Ne) end.
  all: rewrite ?Nat.eqb_refl.
  all: change (b2z true) with 1 in *; change (b2z false) with 0 in *; rewrite ?Z.add_0_l in *.
  all: try (eapply E1; eassumption); try (eapply E2; eassumption).
  all: try (destruct flag; rewrite ?Z.sub_0_r, ?Z.add_0_r; first [exact (E3 M U _ _ Q L)|exact (E3 M U _ _ Q' L)|exact (E3 M U _ _ H0 El)]).
  all: try (rewrite ?Z.sub_0_r, ?Z.add_0_r; first [exact (E3 M U _ _ Q L)|exact (E3 M U _ _ Q' L)|exact (E3 M U _ _ H0 El)]).
  - assert (flag = false) as -> by (unfold should_continue in H1; rewrite El, M in H1; destruct flag; auto; discriminate).
    pose proof (E3 M U _ _ H0 El). lia.
  - assert (flag = false) as -> by (unfold should_continue in H1; rewrite El, M in H1; destruct flag; auto; discriminate).
    pose proof (E3 M U _ _ H0 El). lia.
  - cbn in W. destruct W as (? & ? & _ & _ & _ & _ & _ & Q2 & _). specialize (Q2 M). subst flag. pose proof (E3 M U _ _ Q L). lia.
  - congruence.
  - apply nth_snoc in Q. destruct Q as [Q|[-> ->]]; [eauto|]. destruct (Fd _ (le_n _)) as [-> _]. lia.
  - apply nth_snoc in Q. destruct Q as [Q|[-> ->]]; [eauto|]. destruct (Fd _ (le_n _)) as [_ ->]. lia.
  - apply nth_snoc in Q. destruct Q as [Q|[-> ->]].
    + assert (d1 < length (dh (mem s)))%nat by (apply nth_error_Some; congruence). unfold d.
      destruct (Nat.eqb_spec (length (dh (mem s))) d1); [lia|]. pose proof (E3 M U _ _ Q L). cbn [b2z]. lia.
    + destruct (Fd _ (le_n _)) as [_ ->]. rewrite (atnew_fresh s _ Gd (le_n _)). unfold d. rewrite Nat.eqb_refl.
      destruct (Nat.eqb_spec (length (dh (mem s))) 0) as [E|]; [|cbn; lia].
      destruct (wf_root _ _ _ _ (ti_wf _ _ _ _ I)) as (n1 & Hn1 & _). apply length_zero_iff_nil in E. rewrite E in Hn1. discriminate.
  - unfold should_continue in H1. rewrite El, M in H1. discriminate.
  - assert (flag = true) as -> by (unfold should_continue in H1; rewrite El, M in H1; destruct flag; auto; discriminate).
    pose proof (E3 M U _ _ H0 El). lia.
Qed.

Lemma ends_init : forall n, ends (einit C n).
Proof.
  intros n. split; [|split]; cbn; intros; auto. destruct d as [|[|d]]; cbn in *; try discriminate.
  clear. induction n; cbn in *; auto.
Qed.
Lemma ends_reach : forall n s, ereach n s -> ends s.
Proof.
  intros n s R. assert (K : ends s /\ cinv C s /\ walks seqb aeqb C s).
  { revert s R. apply ereach_inv; auto.
    - split; [apply ends_init|]. split; [apply cinv_init|]. intros t x H. cbn in H. apply nth_error_In in H.
      apply repeat_spec in H. subst. cbn. auto.
    - intros s s' G (E & K & W) St. split; [eapply ends_step; eauto|]. split; [eapply cinv_step; eauto|eapply walks_step; eauto]. }
  apply K.
Qed.
Lemma atnew_quiet : forall (s : est) d, quiet s -> sumZ (atnew d) (ths s) = 0.
Proof. intros s d Q. apply quiet_sum; auto. Qed.
End Ends.
