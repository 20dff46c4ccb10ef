(** A trial visits at most one decision node and one chance node of each depth. *)
From Coq Require Import List ZArith Bool Reals Lia Lra.
From Verif Require Import Base BaseProofs NumOps MapModel EngineModel EngineSpec EngineProofs EngineInv EngineCount BoundSpec.
Import ListNotations.
Open Scope Z_scope.

Section Bound.
Context {S A : Type}.
Variable seqb : S -> S -> bool.
Variable aeqb : A -> A -> bool.
Hypothesis seqb_ok : decides seqb.
Hypothesis aeqb_ok : decides aeqb.
Variable C : @econf S A.
Notation est := (@est S A).
Notation tstate := (@tstate A).
Notation gstep := (gstep seqb aeqb C).
Notation ereach := (ereach seqb aeqb C).
Notation good := (good seqb aeqb C).

(** The depth of the node a trial is at is the number of steps it took. *)
Definition deep_thread (m : @store S A) (x : tstate) : Prop :=
  match x with
  | TSel cur _ nodes _ => forall n, nth_error (dh m) cur = Some n -> ddepth n = Z.of_nat (length nodes)
  | TChance cur _ c _ nodes _ =>
      (forall n, nth_error (dh m) cur = Some n -> ddepth n = Z.of_nat (length nodes)) /\ (forall y, nth_error (ch m) c = Some y -> cdepth y = Z.of_nat (length nodes))
  | _ => True
  end.
Definition deep (s : est) : Prop := forall t x, nth_error (ths s) t = Some x -> deep_thread (mem s) x.
(** Trials that may still visit a node of depth [k]. *)
Definition left_d (k : Z) (x : tstate) : Z :=
  match x with TSel _ _ nodes _ => b2z (Z.of_nat (length nodes) <=? k) | TChance _ _ _ _ nodes _ => b2z (Z.of_nat (length nodes) <? k) | _ => 0 end.
Definition left_c (k : Z) (x : tstate) : Z :=
  match x with TSel _ _ nodes _ | TChance _ _ _ _ nodes _ => b2z (Z.of_nat (length nodes) <=? k) | _ => 0 end.
Definition wd (k : Z) (n : dnode (S := S) (A := A)) : Z := if ddepth n =? k then dvisits n - init_visits C else 0.
Definition wc (k : Z) (x : cnode (S := S) (A := A)) : Z := if cdepth x =? k then cvisits x else 0.
Definition binv (s : est) : Prop := deep s /\
  (forall k, 0 <= k -> visits_at C k (mem s) + sumZ (left_d k) (ths s) <= count is_start (etrace s)) /\
  (forall k, 0 <= k -> visits_at_c k (mem s) + sumZ (left_c k) (ths s) <= count is_start (etrace s)).

Lemma sumZ_snoc : forall T (f : T -> Z) l x, sumZ f (l ++ [x]) = sumZ f l + f x.
Proof. induction l as [|y l IH]; intros x; cbn [sumZ app]; [lia|]. rewrite IH. lia. Qed.
Lemma depth_kept : forall m m', mstep seqb aeqb C m m' -> forall d n', nth_error (dh m') d = Some n' -> (d < length (dh m))%nat -> exists n, nth_error (dh m) d = Some n /\ ddepth n' = ddepth n.
Proof.
  intros m m' St. destruct St; cbn [dh]; intros d' n' H' L; eauto.
  - rewrite (nth_upd _ _ _ _ _ _ H) in H'. destruct (Nat.eqb_spec d d') as [<-|]; eauto. injection H' as <-. eauto.
  - rewrite (nth_upd _ _ _ _ _ _ H) in H'. destruct (Nat.eqb_spec d d') as [<-|]; eauto. injection H' as <-. eauto.
  - apply nth_snoc in H'. destruct H' as [H'|[-> _]]; [eauto|lia].
Qed.
Lemma cdepth_kept : forall m m', mstep seqb aeqb C m m' -> forall c x', nth_error (ch m') c = Some x' -> (c < length (ch m))%nat -> exists x, nth_error (ch m) c = Some x /\ cdepth x' = cdepth x.
Proof.
  intros m m' St. destruct St; cbn [ch]; intros c' x' H' L; eauto.
  - apply nth_snoc in H'. destruct H' as [H'|[-> _]]; [eauto|lia].
  - rewrite (nth_upd _ _ _ _ _ _ H) in H'. destruct (Nat.eqb_spec c c') as [<-|]; eauto. injection H' as <-. eauto.
  - rewrite (nth_upd _ _ _ _ _ _ H) in H'. destruct (Nat.eqb_spec c c') as [<-|]; eauto. injection H' as <-. eauto.
  - rewrite (nth_upd _ _ _ _ _ _ H) in H'. destruct (Nat.eqb_spec c c') as [<-|]; eauto. injection H' as <-. eauto.
Qed.
Lemma deep_step : forall s s', good s -> deep s -> gstep s s' -> deep s'.
Proof.
  intros s s' Gd D G. pose proof (gstep_mstep _ _ _ _ _ G) as Mm. pose proof (good_step seqb aeqb seqb_ok aeqb_ok C s s' Gd G) as [I' _]. destruct Gd as [I Sf].
  assert (Old : forall t x, nth_error (ths s) t = Some x -> deep_thread (mem s') x).
  { intros t x Ht. specialize (D t x Ht). pose proof (Sf t x Ht) as L. destruct x; cbn [deep_thread safe_thread] in *; auto.
    - intros n' H'. destruct (depth_kept _ _ Mm _ _ H' (proj1 L)) as (n & Hn & ->). auto.
    - destruct D as [D1 D2]. destruct L as (L1 & L2 & _). split.
      + intros n' H'. destruct (depth_kept _ _ Mm _ _ H' L1) as (n & Hn & ->). auto.
      + intros y' H'. destruct (cdepth_kept _ _ Mm _ _ H' L2) as (y & Hn & ->). auto. }
  pose proof (ti_wf _ _ _ _ I') as W'.
  intros t' x' Hx'. destruct G; cbn [mem ths] in *;
    rewrite (nth_upd _ _ _ _ _ _ H) in Hx'; (destruct (Nat.eqb_spec t t') as [<-|ne]; [injection Hx' as <-|exact (Old _ _ Hx')]); pose proof (Old _ _ H) as Z; cbn [deep_thread] in *; auto.
  - intros n Hn. destruct (wf_root _ _ _ _ W') as (r & Hr & _ & Hd & _). assert (n = r) by congruence. subst. cbn. exact Hd.
  - split; [exact Z|]. intros y Hy. cbn [ch] in Hy. destruct (wf_d _ _ _ _ W' cur (visit_d n) a c) as (y' & Hy' & _ & E & _).
    + cbn [dh]. rewrite (nth_upd _ _ _ _ _ _ H0), Nat.eqb_refl. reflexivity.
    + cbn [visit_d dkids]. exact H3.
    + cbn [ch] in Hy'. assert (y' = y) by congruence. subst. rewrite E. apply (Z (visit_d n)). cbn [dh]. now rewrite (nth_upd _ _ _ _ _ _ H0), Nat.eqb_refl.
  - split; [exact Z|]. intros y Hy. cbn [ch] in Hy. unfold c in Hy. rewrite nth_error_app2, Nat.sub_diag in Hy by lia. injection Hy as <-. cbn [new_cnode cdepth].
    apply (Z (add_dkid (visit_d n) a c)). cbn [dh]. now rewrite (nth_upd _ _ _ _ _ _ H0), Nat.eqb_refl.
  - intros n' Hn'. destruct Z as [_ Zc]. cbn [dh ch] in *.
    destruct (wf_c _ _ _ _ W' c (visit_c n) o d) as (n2 & Hn2 & _ & E & _).
    + cbn [ch]. now rewrite (nth_upd _ _ _ _ _ _ H0), Nat.eqb_refl.
    + exact H3.
    + cbn [dh] in Hn2. assert (n2 = n') by congruence. subst. rewrite E. cbn [length]. rewrite (Zc (visit_c n)); [lia|]. now rewrite (nth_upd _ _ _ _ _ _ H0), Nat.eqb_refl.
  - intros n' Hn'. destruct Z as [_ Zc]. cbn [dh ch] in *.
    destruct (wf_c _ _ _ _ W' c (add_ckid (visit_c n) o d) o d) as (n2 & Hn2 & _ & E & _).
    + cbn [ch]. now rewrite (nth_upd _ _ _ _ _ _ H0), Nat.eqb_refl.
    + cbn [add_ckid ckids visit_c]. rewrite lookup_app, H3. apply (lookup_snoc_eq _ _ seqb o [] d seqb_ok). reflexivity.
    + cbn [dh] in Hn2. assert (n2 = n') by congruence. subst. rewrite E. cbn [length]. rewrite (Zc (add_ckid (visit_c n) o d)); [lia|]. now rewrite (nth_upd _ _ _ _ _ _ H0), Nat.eqb_refl.
  - intros n' Hn'. destruct Z as [_ Zc]. cbn [dh ch] in *. unfold d in Hn'. rewrite nth_error_app2, Nat.sub_diag in Hn' by lia. injection Hn' as <-. cbn [new_dnode ddepth length].
    specialize (Zc (add_ckid (visit_c n) o d)). rewrite (nth_upd _ _ _ _ _ _ H0), Nat.eqb_refl in Zc. specialize (Zc eq_refl). cbn in Zc. lia.
Qed.
Lemma binv_step : forall s s', good s -> binv s -> gstep s s' -> binv s'.
Proof.
  intros s s' Gd (D & Kd & Kc) G. split; [eapply deep_step; eauto|].
  destruct Gd as [I Sf]. 
  split; intros k K0; specialize (Kd k K0); specialize (Kc k K0); unfold visits_at, visits_at_c in *; fold (wd k) (wc k) in *;
    destruct G; pose proof (D _ _ H) as Z; cbn [deep_thread] in Z; cbn [mem ths etrace dh ch] in *; rewrite ?(sumZ_upd _ _ _ _ _ _ H), ?count_cons;
    rewrite ?(sumZ_upd _ (wd k) _ _ _ _ H0), ?(sumZ_upd _ (wc k) _ _ _ _ H0), ?sumZ_snoc;
    cbn [left_d left_c is_start length]; change (b2z true) with 1 in *; change (b2z false) with 0 in *; rewrite ?Nat2Z.inj_succ; try lia.
  all: try (destruct (Z.leb_spec (Z.of_nat 0) k); cbn [b2z]; lia).
  all: try (unfold wd, wc in *; cbn [visit_d add_dkid new_dnode new_cnode visit_c add_ckid ddepth dvisits cdepth cvisits]).
  all: try pose proof (Z _ H0) as Z1; try pose proof (proj2 Z _ H0) as Z1.
  all: repeat match goal with |- context [?a =? ?b] => destruct (Z.eqb_spec a b) | |- context [?a <=? ?b] => destruct (Z.leb_spec a b) | |- context [?a <? ?b] => destruct (Z.ltb_spec a b) end; cbn [b2z] in *; try lia.
Qed.
End Bound.

Section Reach.
Context {S A : Type}.
Variable seqb : S -> S -> bool.
Variable aeqb : A -> A -> bool.
Hypothesis seqb_ok : decides seqb.
Hypothesis aeqb_ok : decides aeqb.
Variable C : @econf S A.
Notation ereach := (ereach seqb aeqb C).
Lemma binv_reach : forall n s, ereach n s -> binv C s.
Proof.
  intros n. apply (ereach_inv seqb aeqb seqb_ok aeqb_ok C (binv C) n).
  - split; [|split].
    + intros t x H. cbn in H. apply nth_error_In, repeat_spec in H. subst. exact Logic.I.
    + intros k _. cbn [einit mem dh ths etrace visits_at sumZ]. rewrite sumZ_repeat0 by reflexivity. unfold visits_at, count. cbn. destruct k; lia.
    + intros k _. cbn [einit mem dh ths etrace]. rewrite sumZ_repeat0 by reflexivity. unfold visits_at_c, count. cbn. lia.
  - intros s s' G K St. eapply binv_step; eauto.
Qed.
Lemma sumZ_in : forall T (f : T -> Z) l i x, (forall y, In y l -> 0 <= f y) -> nth_error l i = Some x -> f x <= sumZ f l.
Proof.
  induction l as [|y l IH]; intros [|i] x P H; try discriminate; cbn [sumZ].
  - injection H as ->. assert (0 <= sumZ f l); [|lia]. clear -P. assert (Q : forall y, In y l -> 0 <= f y) by (intros; apply P; now right). clear P.
    induction l as [|z l IH]; cbn [sumZ]; [lia|]. pose proof (Q z ltac:(now left)). specialize (IH (fun y I => Q y (or_intror I))). lia.
  - pose proof (P y ltac:(now left)). specialize (IH i x (fun y I => P y (or_intror I)) H). lia.
Qed.
Lemma count_pos : forall (f : @event S A -> bool) tr, 0 <= count f tr.
Proof. intros f tr. unfold count. induction tr as [|[t e] tr IH]; cbn; [lia|]. destruct (f e); lia. Qed.
Lemma visits_pos : forall n s, ereach n s -> (forall d x, nth_error (dh (mem s)) d = Some x -> init_visits C <= dvisits x) /\ (forall c x, nth_error (ch (mem s)) c = Some x -> 0 <= cvisits x).
Proof.
  intros n s R. destruct (cinv_reach seqb aeqb seqb_ok aeqb_ok C n s R) as [K _]. split.
  - intros d x H. rewrite (ci_dv _ _ K d x H). pose proof (count_pos (visits_d d) (etrace s)). pose proof (count_pos (ends_at d) (etrace s)). lia.
  - intros c x H. rewrite (ci_cv _ _ K c x H). apply count_pos.
Qed.
Lemma level : forall n s k, ereach n s -> visits_at C k (mem s) <= count is_start (etrace s) /\ visits_at_c k (mem s) <= count is_start (etrace s).
Proof.
  intros n s k R. destruct (binv_reach n s R) as (_ & K1 & K2). destruct (Z_le_gt_dec 0 k) as [P|P].
  - specialize (K1 k P). specialize (K2 k P).
    assert (0 <= sumZ (left_d k) (ths s)) by (apply sumZ_nonneg; intros []; cbn [left_d]; try lia; match goal with |- _ <= b2z ?b => destruct b end; cbn; lia).
    assert (0 <= sumZ (left_c k) (ths s)) by (apply sumZ_nonneg; intros []; cbn [left_c]; try lia; match goal with |- _ <= b2z ?b => destruct b end; cbn; lia). lia.
  - pose proof (count_pos is_start (etrace s)).
    assert (Z1 : forall T (f : T -> Z) l, (forall y, In y l -> f y = 0) -> sumZ f l = 0).
    { intros T f l. induction l as [|y l IH]; intros H1; cbn [sumZ]; [reflexivity|]. rewrite (H1 y) by now left. rewrite IH; auto. intros z I. apply H1. now right. }
    destruct (ereach_good seqb aeqb seqb_ok aeqb_ok C n s R) as [I _]. unfold visits_at, visits_at_c. rewrite !Z1; [lia| |].
    + intros x Hx. apply In_nth_error in Hx. destruct Hx as (c & Hc). destruct (ti_cstop _ _ _ _ I c x Hc) as (_ & _ & (_ & L) & _). destruct (Z.eqb_spec (cdepth x) k); [lia|reflexivity].
    + intros x Hx. apply In_nth_error in Hx. destruct Hx as (d & Hd). destruct (ti_time _ _ _ _ I d x Hd) as (_ & L). destruct (Z.eqb_spec (ddepth x) k); [lia|reflexivity].
Qed.
Lemma node_visits : forall n s, ereach n s -> (forall d x, nth_error (dh (mem s)) d = Some x -> init_visits C <= dvisits x <= init_visits C + count is_start (etrace s)) /\
  (forall c x, nth_error (ch (mem s)) c = Some x -> 0 <= cvisits x <= count is_start (etrace s)).
Proof.
  intros n s R. destruct (visits_pos n s R) as [P1 P2]. split.
  - intros d x H. split; [eauto|]. destruct (level n s (ddepth x) R) as [L _]. unfold visits_at in L.
    pose proof (sumZ_in _ (fun n => if ddepth n =? ddepth x then dvisits n - init_visits C else 0) (dh (mem s)) d x) as Q. cbv beta in Q. rewrite Z.eqb_refl in Q.
    enough (dvisits x - init_visits C <= sumZ (fun n => if ddepth n =? ddepth x then dvisits n - init_visits C else 0) (dh (mem s))) by lia. apply Q; auto.
    intros y I. apply In_nth_error in I. destruct I as (i & Hi). specialize (P1 i y Hi). destruct (_ =? _); lia.
  - intros d x H. split; [eauto|]. destruct (level n s (cdepth x) R) as [_ L]. unfold visits_at_c in L.
    pose proof (sumZ_in _ (fun n => if cdepth n =? cdepth x then cvisits n else 0) (ch (mem s)) d x) as Q. cbv beta in Q. rewrite Z.eqb_refl in Q.
    enough (cvisits x <= sumZ (fun n => if cdepth n =? cdepth x then cvisits n else 0) (ch (mem s))) by lia. apply Q; auto.
    intros y I. apply In_nth_error in I. destruct I as (i & Hi). specialize (P2 i y Hi). destruct (_ =? _); lia.
Qed.
End Reach.
