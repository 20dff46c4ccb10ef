(** Every edge of the tree was walked. *)
From Coq Require Import List ZArith Bool Reals Lia Lra.
From Verif Require Import Base BaseProofs NumOps EngineModel EngineSpec EngineProofs EngineInv EngineCount EngineTheorems MapModel MapProofs.
Import ListNotations.
Open Scope Z_scope.

Section Made.
Context {S A : Type}.
Variable seqb : S -> S -> bool.
Variable aeqb : A -> A -> bool.
Hypothesis seqb_ok : decides seqb.
Hypothesis aeqb_ok : decides aeqb.
Variable C : @econf S A.
Notation est := (@est S A).
Notation event := (@event S A).
Notation gstep := (gstep seqb aeqb C).
Notation ereach := (ereach seqb aeqb C).
Notation dchild := (dchild aeqb).
Notation cchild := (cchild seqb).

Definition made (s : est) : Prop :=
  (forall d a c, dchild (mem s) d a c -> exists t, In (t, EVisitD d a c) (etrace s)) /\
  (forall c o d, cchild (mem s) c o d -> exists t b, In (t, EVisitC c o d b) (etrace s)).
Lemma made_step : forall s s', gstep s s' -> made s -> made s'.
Proof using seqb_ok aeqb_ok.
  intros s s' G [KD KC].
  assert (OD : forall l, (forall d a c, dchild (mem s) d a c -> exists t, In (t, EVisitD d a c) (l ++ etrace s))).
  { intros l d a c H. destruct (KD d a c H) as (t & I). exists t. apply in_or_app. now right. }
  assert (OC : forall l, (forall c o d, cchild (mem s) c o d -> exists t b, In (t, EVisitC c o d b) (l ++ etrace s))).
  { intros l c o d H. destruct (KC c o d H) as (t & b & I). exists t, b. apply in_or_app. now right. }
  destruct G; split; intros *; cbn [mem etrace]; intros (x & Hx & Lx); cbn [dh ch] in Hx;
    repeat match type of Hx with
    | nth_error (_ ++ [_]) _ = Some _ => apply nth_snoc in Hx; destruct Hx as [Hx|[-> ->]]; [|cbn in Lx; discriminate]
    | nth_error (upd _ ?i _) ?j = Some _ =>
        match goal with H0 : nth_error _ i = Some _ |- _ => rewrite (nth_upd _ _ _ _ _ _ H0) in Hx end;
        destruct (Nat.eqb_spec i j) as [<-|ne]; [injection Hx as <-|]
    end;
    try (match goal with
    | |- exists t', In (t', EVisitD ?d ?a ?c) (?e1 :: ?e2 :: etrace s) => apply (OD [e1; e2])
    | |- exists t', In (t', EVisitD ?d ?a ?c) (?e1 :: etrace s) => apply (OD [e1])
    | |- exists t' b', In (t', EVisitC ?c ?o ?d b') (?e1 :: ?e2 :: etrace s) => apply (OC [e1; e2])
    | |- exists t' b', In (t', EVisitC ?c ?o ?d b') (?e1 :: etrace s) => apply (OC [e1])
    end; eexists; split; eauto; fail).
  all: cbn [add_dkid add_ckid visit_d visit_c dkids ckids] in Lx.
  all: rewrite lookup_app in Lx; match type of Lx with match lookup ?e ?k ?m with _ => _ end = Some ?w =>
    destruct (lookup e k m) as [v'|] eqn:E; [injection Lx as ->|cbn [lookup] in Lx; match type of Lx with (if ?q then _ else _) = _ => destruct q eqn:Q; [|discriminate] end; injection Lx as <-] end.
  all: try match goal with
    | OD : forall l, _ |- exists t', In (t', EVisitD ?d ?a ?c) (?e1 :: ?e2 :: ?r) => apply (OD [e1; e2]); eexists; split; eauto; fail
    | OC : forall l, _ |- exists t' b', In (t', EVisitC ?c ?o ?d b') (?e1 :: ?e2 :: ?r) => apply (OC [e1; e2]); eexists; split; eauto; fail
    | OC : forall l, _ |- exists t' b', In (t', EVisitC ?c ?o ?d b') (?e1 :: ?r) => apply (OC [e1]); eexists; split; eauto; fail
    end.
  all: first [apply aeqb_ok in Q | apply seqb_ok in Q]; subst.
  - exists t. right. now left.
  - exists t, true. now left.
  - exists t, true. right. now left.
Qed.
Lemma made_reach : forall n s, ereach n s -> made s.
Proof using seqb_ok aeqb_ok.
  intros n. apply ereach_inv; auto.
  - split; intros *; intros (x & Hx & Lx); cbn in Hx.
    + destruct d as [|d]; cbn in Hx; [injection Hx as <-; cbn in Lx; discriminate|destruct d; discriminate].
    + destruct c; discriminate.
  - intros s s' _ K St. eapply made_step; eauto.
Qed.

Lemma count_in : forall (f : event -> bool) tr t e, In (t, e) tr -> f e = true -> 1 <= count f tr.
Proof using Type.
  intros f tr t e. induction tr as [|[t' e'] tr IH]; [easy|]. intros [[= -> ->]|I] E; rewrite count_cons.
  - rewrite E. cbn. pose proof (countb_nonneg _ (fun p => f (snd p)) tr). unfold count. lia.
  - specialize (IH I E). destruct (f e'); cbn [b2z]; lia.
Qed.

(** Every node but the root was entered, and when no trial is under way every chance node has been visited and has a
    child. *)
Lemma edge_walked : forall n s c o d, ereach n s -> cchild (mem s) c o d -> 1 <= count (goes c d) (etrace s).
Proof using seqb_ok aeqb_ok.
  intros n s c o d R H. destruct (proj2 (made_reach n s R) c o d H) as (t & b & I). apply (count_in _ _ t (EVisitC c o d b) I).
  cbn. now rewrite !Nat.eqb_refl.
Qed.
Lemma chance_visited : forall n s c x, ereach n s -> quiet s -> nth_error (ch (mem s)) c = Some x -> 1 <= cvisits x /\ ckids x <> [].
Proof using seqb_ok aeqb_ok.
  intros n s c x R Q Hc. pose proof (proj1 (C12_well_formed seqb aeqb seqb_ok aeqb_ok C n s R)) as W.
  destruct (cinv_reach seqb aeqb seqb_ok aeqb_ok C _ _ R) as [K _].
  assert (Sel : 1 <= count (selects_c c) (etrace s)).
  { pose proof (wf_reachC _ _ _ _ W c x Hc) as Rc. destruct Rc as [d a c' Rd Ch].
    all: try (destruct (proj1 (made_reach n s R) _ _ _ Ch) as (t & I); apply (count_in _ _ t _ I); cbn; now rewrite Nat.eqb_refl). }
  assert (V : 1 <= cvisits x).
  { rewrite (ci_cv _ _ K c x Hc). pose proof (ci_sc _ _ K c) as E. rewrite (quiet_sum s (atC c) eq_refl Q) in E. lia. }
  split; [exact V|]. destruct (C10_idle seqb aeqb seqb_ok aeqb_ok C n s R Q) as (_ & _ & _ & Kc & _).
  destruct (Kc c x Hc) as [_ E]. intros Ek. rewrite Ek in E. cbn in E. lia.
Qed.
End Made.
