(** A trial visits a decision node at most once. *)
From Coq Require Import List ZArith Bool Reals Lia Lra.
From Verif Require Import Base BaseProofs NumOps EngineModel EngineSpec EngineProofs EngineInv EngineCount.
Import ListNotations.
Open Scope Z_scope.

Section Visits.
Context {S A : Type}.
Variable seqb : S -> S -> bool.
Variable aeqb : A -> A -> bool.
Hypothesis seqb_ok : decides seqb.
Hypothesis aeqb_ok : decides aeqb.
Variable C : @econf S A.
Notation store := (@store S A).
Notation est := (@est S A).
Notation tstate := (@tstate A).
Notation gstep := (gstep seqb aeqb C).
Notation ereach := (ereach seqb aeqb C).

Definition dep (m : store) (d : nat) : Z := match nth_error (dh m) d with Some n => ddepth n | None => 0 end.
(** The worker may still visit a node of depth [k]. *)
Definition can (m : store) (k : Z) (x : tstate) : Z :=
  match x with
  | TSel cur _ _ _ => b2z (dep m cur <=? k)
  | TChance cur _ _ _ _ _ => b2z (dep m cur <? k)
  | _ => 0
  end.
Definition once (s : est) : Prop := forall d n, nth_error (dh (mem s)) d = Some n ->
  count (visits_d d) (etrace s) + count (ends_at d) (etrace s) + sumZ (can (mem s) (ddepth n)) (ths s) <= count is_start (etrace s).

Lemma sumZ_same : forall (f g : tstate -> Z) l, (forall t x, nth_error l t = Some x -> f x = g x) -> sumZ f l = sumZ g l.
Proof.
  intros f g l. induction l as [|x l IH]; intros H; cbn; auto. rewrite (H 0%nat x eq_refl), IH; auto. intros t y Q. exact (H (Datatypes.S t) y Q).
Qed.
Lemma sumZ_below : forall (f g : tstate -> Z) l, (forall x, f x <= g x) -> sumZ f l <= sumZ g l.
Proof. intros f g l H. induction l as [|x l IH]; cbn; [lia|]. specialize (H x). lia. Qed.
Lemma dep_ext : forall m m' d, extends_tree seqb aeqb m m' -> (d < length (dh m))%nat -> dep m' d = dep m d.
Proof.
  intros m m' d X L. unfold dep. destruct (nth_error (dh m) d) as [n|] eqn:E; [|apply nth_error_None in E; lia].
  destruct (xt_d _ _ _ _ X _ _ E) as (n' & -> & _ & Ed & _). auto.
Qed.
Lemma can_ext : forall m m' k x, extends_tree seqb aeqb m m' -> safe_thread m x -> can m' k x = can m k x.
Proof.
  intros m m' k x X Sx. destruct x; cbn in *; auto; [rewrite (dep_ext m m')|rewrite (dep_ext m m')]; tauto.
Qed.
Lemma can_busy : forall m k x, can m k x <= busy x.
Proof. intros m k x. destruct x; cbn; try lia; match goal with |- b2z ?b <= 1 => destruct b; cbn; lia end. Qed.

Lemma once_step : forall s s', good seqb aeqb C s -> walks seqb aeqb C s -> cinv C s -> cinv C s' -> once s -> gstep s s' -> once s'.
Proof using All.
  intros s s' Gd W K K' Hn G d n' Hd. pose proof Gd as [Ti Sf].
  pose proof (mstep_ext _ _ C _ _ (gstep_mstep _ _ _ _ _ G)) as X.
  pose proof (good_step seqb aeqb seqb_ok aeqb_ok C _ _ Gd G) as [Ti' _].
  assert (Old : (d < length (dh (mem s)))%nat \/ (length (dh (mem s)) <= d)%nat) by lia. destruct Old as [Old|New].
  2: { (* a new node *)
    pose proof (ci_done _ _ K') as Kd. pose proof (ci_fd _ _ K d New) as [F1 F2].
    assert (Z1 : count (visits_d d) (etrace s') = 0 /\ count (ends_at d) (etrace s') = 0).
    { destruct G; pose proof (Sf _ _ H) as Z; cbn [safe_thread] in Z; cbn [etrace]; rewrite !count_cons; cbn [visits_d ends_at];
        try (destruct (Nat.eqb_spec cur d); [subst; lia|]); change (b2z false) with 0; lia. }
    destruct Z1 as [-> ->]. rewrite Kd. pose proof (sumZ_below _ _ (ths s') (can_busy (mem s') (ddepth n'))).
    assert (0 <= count is_done (etrace s')).
    { unfold count. clear. induction (etrace s') as [|p l IH]; cbn; [lia|]. destruct (is_done (snd p)); cbn; lia. }
    lia. }
  assert (En : exists n, nth_error (dh (mem s)) d = Some n /\ ddepth n = ddepth n').
  { destruct (nth_error (dh (mem s)) d) as [n|] eqn:E; [|apply nth_error_None in E; lia]. exists n. split; auto.
    destruct (xt_d _ _ _ _ X _ _ E) as (n2 & Hn2 & _ & Ed & _). congruence. }
  destruct En as (n & En & Ed). specialize (Hn d n En). rewrite <- Ed. clear n' Hd Ed.
  set (k := ddepth n) in *.
  assert (Dk : dep (mem s) d = k) by (unfold dep; now rewrite En).
  assert (Sm : sumZ (can (mem s') k) (ths s) = sumZ (can (mem s) k) (ths s)).
  { apply sumZ_same. intros t x Q. apply can_ext; auto. exact (Sf _ _ Q). }
  assert (Up : forall t w x, nth_error (ths s) t = Some w -> ths s' = upd (ths s) t x ->
     sumZ (can (mem s') k) (ths s') = sumZ (can (mem s) k) (ths s) - can (mem s) k w + can (mem s') k x).
  { intros t w x Q ->. rewrite (sumZ_upd _ _ _ _ _ _ Q), Sm, (can_ext (mem s) (mem s') k w); auto. exact (Sf _ _ Q). }
  assert (Down : forall t cur a c flag nodes rewards o dd, nth_error (ths s) t = Some (TChance cur a c flag nodes rewards) ->
     cchild seqb (mem s') c o dd -> dep (mem s') dd = dep (mem s) cur + 1).
  { intros t cur a c flag nodes rewards o dd Q (x & Hx & Lx). pose proof (W _ _ Q) as (st & nn & _ & _ & _ & _ & _ & _ & Hnn & _ & _ & Dc).
    apply (xt_dchild _ _ _ _ X) in Dc. destruct Dc as (nn' & Hnn' & Ln').
    destruct (wf_d _ _ _ _ (ti_wf _ _ _ _ Ti') _ _ _ _ Hnn' Ln') as (x' & Hx' & _ & E1 & _). rewrite Hx in Hx'. injection Hx' as <-.
    destruct (wf_c _ _ _ _ (ti_wf _ _ _ _ Ti') _ _ _ _ Hx Lx) as (m & Hm & _ & E2 & _).
    destruct (xt_d _ _ _ _ X _ _ Hnn) as (nn2 & Hnn2 & _ & E3 & _). rewrite Hnn' in Hnn2. injection Hnn2 as <-.
    unfold dep. rewrite Hm, Hnn. lia. }
  destruct G; pose proof (Sf _ _ H) as Z; cbn [safe_thread] in Z; pose proof (Up _ _ _ H eq_refl) as U; cbn [etrace mem ths] in *;
    rewrite !count_cons; cbn [visits_d ends_at is_start] in *; change (b2z true) with 1 in *; change (b2z false) with 0 in *;
    rewrite U; cbn [can].
  - match goal with |- context [b2z (?b)] => destruct b; cbn; lia end.
  - rewrite (dep_ext _ _ cur X) by tauto. destruct (Nat.eqb_spec cur d) as [->|]; cbn [b2z]; rewrite ?Dk;
      repeat match goal with |- context [?a <=? ?b] => destruct (Z.leb_spec a b) | |- context [?a <? ?b] => destruct (Z.ltb_spec a b) end; cbn; lia.
  - rewrite (dep_ext _ _ cur X) by tauto. destruct (Nat.eqb_spec cur d) as [->|]; cbn [b2z]; rewrite ?Dk;
      repeat match goal with |- context [?a <=? ?b] => destruct (Z.leb_spec a b) | |- context [?a <? ?b] => destruct (Z.ltb_spec a b) end; cbn; lia.
  - rewrite (Down _ _ _ _ _ _ _ o d0 H).
    2: { apply (xt_cchild _ _ _ _ X). exists n0. auto. }
    repeat match goal with |- context [?a <=? ?b] => destruct (Z.leb_spec a b) | |- context [?a <? ?b] => destruct (Z.ltb_spec a b) end; cbn; lia.
  - rewrite (Down _ _ _ _ _ _ _ o d0 H).
    2: { eexists. cbn [ch]. split; [eapply nth_upd_eq; eauto|]. cbn. now apply lookup_snoc_eq. }
    repeat match goal with |- context [?a <=? ?b] => destruct (Z.leb_spec a b) | |- context [?a <? ?b] => destruct (Z.ltb_spec a b) end; cbn; lia.
  - rewrite (Down _ _ _ _ _ _ _ o d0 H).
    2: { eexists. cbn [ch]. split; [eapply nth_upd_eq; eauto|]. cbn. now apply lookup_snoc_eq. }
    repeat match goal with |- context [?a <=? ?b] => destruct (Z.leb_spec a b) | |- context [?a <? ?b] => destruct (Z.ltb_spec a b) end; cbn; lia.
  - destruct (Nat.eqb_spec cur d) as [->|]; cbn [b2z]; rewrite ?Dk;
      repeat match goal with |- context [?a <=? ?b] => destruct (Z.leb_spec a b) end; cbn; lia.
  - lia.
  - lia.
  - lia.
Qed.

Lemma once_reach : forall n s, ereach n s -> once s.
Proof using All.
  intros n s R.
  assert (P : (cinv C s /\ walks seqb aeqb C s) /\ once s); [|apply P]. revert s R.
  apply (ereach_inv seqb aeqb seqb_ok aeqb_ok C (fun s => (cinv C s /\ walks seqb aeqb C s) /\ once s)).
  - split; [apply (cinv_reach seqb aeqb seqb_ok aeqb_ok C n); exists []; reflexivity|].
    intros d x Hx. destruct d as [|d]; [|destruct d; discriminate]. cbn in Hx. injection Hx as <-. cbn.
    rewrite sumZ_repeat0 by reflexivity. unfold count. cbn. lia.
  - intros s s' Gd [[K W] O] St. pose proof (cinv_step seqb aeqb C _ _ Gd W K St) as K'.
    pose proof (walks_step seqb aeqb seqb_ok aeqb_ok C _ _ Gd W St) as W'. split; auto. eapply once_step; eauto.
Qed.

Lemma visits_le_starts : forall n s d x, ereach n s -> nth_error (dh (mem s)) d = Some x ->
  dvisits x <= init_visits C + count is_start (etrace s).
Proof using All.
  intros n s d x R Hx. destruct (cinv_reach seqb aeqb seqb_ok aeqb_ok C _ _ R) as [K _].
  rewrite (ci_dv _ _ K _ _ Hx). pose proof (once_reach _ _ R _ _ Hx).
  assert (0 <= sumZ (can (mem s) (ddepth x)) (ths s)).
  { apply sumZ_nonneg. intros []; cbn; try lia; match goal with |- 0 <= b2z ?b => destruct b; cbn; lia end. }
  lia.
Qed.
End Visits.
