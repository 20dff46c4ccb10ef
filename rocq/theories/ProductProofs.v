(** Proofs about the pool together with its trials. *)
From Coq Require Import List ZArith Bool Reals Lia.
From Verif Require Import Base BaseProofs NumOps PoolModel PoolSpec PoolProofs PoolLive PoolWitness EngineModel EngineSpec EngineProofs
  EngineInv EngineCount EngineResults ProductModel.
Import ListNotations.
Open Scope Z_scope.

Section Product.
Context {S A : Type}.
Variable seqb : S -> S -> bool.
Variable aeqb : A -> A -> bool.
Hypothesis seqb_ok : decides seqb.
Hypothesis aeqb_ok : decides aeqb.
Variable C : @econf S A.

Notation preach := (preach seqb aeqb C).

(** Pool events without the [EvNone] that stand for trial steps. *)
Record pinv (n : nat) (z0 : Z) (tr : list PoolModel.event) (p : pool) (e : @est S A) : Prop := mkPi {
  pi_pool : exists tr0, reach n z0 tr0 p /\ filter (fun x => match x with EvNone => false | _ => true end) tr
                                          = filter (fun x => match x with EvNone => false | _ => true end) tr0;
  pi_eng : ereach seqb aeqb C n e;
  pi_st : total_starts tr = count is_start (etrace e);
  pi_en : total_ends tr = count is_done (etrace e)
}.

Definition vis (x : PoolModel.event) : bool := match x with EvNone => false | _ => true end.
Lemma vis_total_starts : forall tr, total_starts tr = total_starts (filter vis tr).
Proof. induction tr as [|[] tr IH]; cbn; auto; lia. Qed.
Lemma vis_total_ends : forall tr, total_ends tr = total_ends (filter vis tr).
Proof. induction tr as [|[] tr IH]; cbn; auto; lia. Qed.
Lemma vis_starts : forall tr, starts_since_run tr = starts_since_run (filter vis tr).
Proof. induction tr as [|[] tr IH]; cbn; auto; lia. Qed.
Lemma vis_budget : forall tr, budget tr = budget (filter vis tr).
Proof. induction tr as [|[] tr IH]; cbn; auto. Qed.
Lemma vis_clock : forall z tr, clock z tr = clock z (filter vis tr).
Proof. induction tr as [|[] tr IH]; cbn; auto. Qed.
Lemma vis_deadline : forall z tr, deadline z tr = deadline z (filter vis tr).
Proof. induction tr as [|[] tr IH]; cbn; auto. Qed.

Lemma pool_exec_app : forall ls1 ls2 tr s tr1 s1, pool_exec tr s ls1 = Some (tr1, s1) ->
  pool_exec tr s (ls1 ++ ls2) = pool_exec tr1 s1 ls2.
Proof.
  induction ls1 as [|l ls1 IH]; intros ls2 tr s tr1 s1 H; cbn in *.
  - now injection H as <- <-.
  - destruct (pool_step s l) as [[e s']|]; [|discriminate]. eauto.
Qed.
Lemma reach_snoc : forall n z0 tr p l ev p', reach n z0 tr p -> pool_step p l = Some (ev, p') -> reach n z0 (ev :: tr) p'.
Proof.
  intros n z0 tr p l ev p' [ls H] St. exists (ls ++ [l]). rewrite (pool_exec_app _ _ _ _ _ _ H). cbn. now rewrite St.
Qed.
Lemma erun_app : forall ls1 ls2 s s1, erun seqb aeqb C ls1 s = Some s1 -> erun seqb aeqb C (ls1 ++ ls2) s = erun seqb aeqb C ls2 s1.
Proof.
  induction ls1 as [|l ls1 IH]; intros ls2 s s1 H; cbn in *; [now injection H as <-|].
  destruct (estep seqb aeqb C l s); [|discriminate]. eauto.
Qed.
Lemma ereach_snoc : forall n e l e', ereach seqb aeqb C n e -> estep seqb aeqb C l e = Some e' -> ereach seqb aeqb C n e'.
Proof. intros n e l e' [ls H] St. exists (ls ++ [l]). rewrite (erun_app _ _ _ _ H). cbn. now rewrite St. Qed.

(** A trial step neither starts nor ends a trial. *)
Lemma inner_step : forall l (e e' : @est S A), good seqb aeqb C e -> estep seqb aeqb C l e = Some e' ->
  (forall t, l <> LStart t) -> (forall t, l = LRun t -> trial_over e t = false) ->
  count is_start (etrace e') = count is_start (etrace e) /\ count is_done (etrace e') = count is_done (etrace e).
Proof.
  intros l e e' [_ Sf] H N1 N2. destruct l as [t|t a|t o|t]; [now destruct (N1 t)| | |].
  - cbn [estep] in H. destruct (nth_error (ths e) t) as [[]|]; try discriminate.
    destruct (nth_error (dh (mem e)) cur); [|injection H as <-; auto].
    destruct (should_continue C d flag && existsb (aeqb a) (acts C (dstate d))); [|discriminate].
    match type of H with match ?X with _ => _ end = _ => destruct X as [n1|] end; [|injection H as <-; auto].
    destruct (lookup aeqb a (dkids n1)); [|injection H as <-; auto].
    destruct (lookup aeqb a (dkids d)); injection H as <-; unfold count; cbn; auto.
  - cbn [estep] in H. destruct (nth_error (ths e) t) as [[]|]; try discriminate.
    destruct (nth_error (ch (mem e)) c); [|injection H as <-; auto].
    destruct (nth_error (dh (mem e)) cur); [|injection H as <-; auto].
    destruct (existsb (seqb o) (succs C (cstate c0) (cact c0))); [|discriminate].
    match type of H with context [create_child_c ?a ?b ?c ?d ?e ?f] => destruct (create_child_c a b c d e f) as [m1 isnew] end.
    destruct (nth_error (ch m1) c) as [n1|]; [|injection H as <-; auto].
    destruct (lookup seqb o (ckids n1)); [|injection H as <-; auto].
    destruct isnew; injection H as <-; unfold count; cbn; auto.
  - specialize (N2 t eq_refl). unfold trial_over in N2. cbn [estep] in H.
    destruct (nth_error (ths e) t) as [[]|]; try discriminate.
    + destruct (nth_error (dh (mem e)) cur); [|injection H as <-; auto].
      destruct (should_continue C d flag); [discriminate|]. injection H as <-. unfold count; cbn; auto.
    + destruct nodes as [|[d c] nodes]; [discriminate|]. destruct before; injection H as <-; unfold count; cbn; auto.
    + injection H as <-; unfold count; cbn; auto.
Qed.

Lemma start_step : forall t (e e' : @est S A), estep seqb aeqb C (LStart t) e = Some e' ->
  count is_start (etrace e') = 1 + count is_start (etrace e) /\ count is_done (etrace e') = count is_done (etrace e).
Proof.
  intros t e e' H. cbn [estep] in H. destruct (nth_error (ths e) t) as [[]|]; try discriminate. injection H as <-.
  unfold count; cbn; lia.
Qed.
Lemma end_step : forall t (e e' : @est S A), trial_over e t = true -> estep seqb aeqb C (LRun t) e = Some e' ->
  count is_start (etrace e') = count is_start (etrace e) /\ count is_done (etrace e') = 1 + count is_done (etrace e).
Proof.
  intros t e e' T H. cbn [estep] in H. unfold trial_over in T. destruct (nth_error (ths e) t) as [[]|]; try discriminate.
  destruct nodes as [|[d c] nodes]; [|discriminate]. injection H as <-. unfold count; cbn; lia.
Qed.

Lemma pinv_step : forall n z0 tr p e l ev p' e', pinv n z0 tr p e -> prod_step seqb aeqb C l (p, e) = Some (ev, (p', e')) ->
  pinv n z0 (ev :: tr) p' e'.
Proof.
  intros n z0 tr p e l ev p' e' [(tr0 & Rp & F) Re Es Ed] H.
  pose proof (ereach_good _ _ seqb_ok aeqb_ok C n e Re) as G.
  assert (Keep : forall x, ev = x -> vis x = true -> reach n z0 (x :: tr0) p' ->
     exists tr1, reach n z0 tr1 p' /\ filter vis (ev :: tr) = filter vis tr1).
  { intros x -> Vx R'. exists (x :: tr0). split; auto. cbn. rewrite Vx. f_equal. exact F. }
  destruct l as [pl|el]; cbn [prod_step] in H.
  - destruct (pool_step p pl) as [[x p1]|] eqn:Sp; [|discriminate].
    pose proof (reach_snoc _ _ _ _ _ _ _ Rp Sp) as R'.
    destruct x; try discriminate;
      try (injection H as <- <- <-; constructor; [solve [eapply Keep; eauto]|exact Re|exact Es|exact Ed]).
    + destruct (estep seqb aeqb C (LStart i) e) as [e1|] eqn:Se; [|discriminate]. injection H as <- <- <-.
      destruct (start_step _ _ _ Se). constructor; [eapply Keep; eauto|eapply ereach_snoc; eauto|cbn; lia|cbn; lia].
    + destruct (trial_over e i) eqn:T; [|discriminate].
      destruct (estep seqb aeqb C (LRun i) e) as [e1|] eqn:Se; [|discriminate]. injection H as <- <- <-.
      destruct (end_step _ _ _ T Se). constructor; [eapply Keep; eauto|eapply ereach_snoc; eauto|cbn; lia|cbn; lia].
    + injection H as <- <- <-. constructor; auto. exists (EvNone :: tr0). split; auto.
  - assert (X : exists e1, estep seqb aeqb C el e = Some e1 /\ ev = EvNone /\ p' = p /\ e' = e1 /\
        (forall t, el <> LStart t) /\ (forall t, el = LRun t -> trial_over e t = false)).
    { destruct el as [t|t a|t o|t]; [discriminate| | |].
      - destruct (estep seqb aeqb C (LSelect t a) e) as [e1|]; [|discriminate]. injection H as <- <- <-.
        exists e1. repeat split; auto; discriminate.
      - destruct (estep seqb aeqb C (LSample t o) e) as [e1|]; [|discriminate]. injection H as <- <- <-.
        exists e1. repeat split; auto; discriminate.
      - destruct (trial_over e t) eqn:T; [discriminate|].
        destruct (estep seqb aeqb C (LRun t) e) as [e1|]; [|discriminate]. injection H as <- <- <-.
        exists e1. repeat split; auto; try discriminate. intros t' [= <-]. auto. }
    destruct X as (e1 & Se & -> & -> & -> & N1 & N2). destruct (inner_step _ _ _ G Se N1 N2) as [Q1 Q2].
    constructor; [exists tr0; split; auto|eapply ereach_snoc; eauto|cbn; lia|cbn; lia].
Qed.

Lemma pinv_reach : forall n z0 tr p e, preach n z0 tr p e -> pinv n z0 tr p e.
Proof.
  intros n z0 tr p e [ls H].
  assert (G : forall ls tr0 p0 e0, pinv n z0 tr0 p0 e0 -> prod_run seqb aeqb C tr0 ls (p0, e0) = Some (tr, (p, e)) -> pinv n z0 tr p e).
  { clear ls H. induction ls as [|l ls IH]; intros tr0 p0 e0 I H; cbn [prod_run] in H.
    - injection H as <- <- <-. auto.
    - destruct (prod_step seqb aeqb C l (p0, e0)) as [[ev [p1 e1]]|] eqn:E; [|discriminate].
      eapply IH; [|exact H]. eapply pinv_step; eauto. }
  eapply G; [|exact H]. constructor; auto.
  - exists []. split; auto. exists []. reflexivity.
  - exists []. reflexivity.
Qed.

Lemma filter_cons_inv : forall (f : PoolModel.event -> bool) l x m, filter f l = x :: m ->
  exists a b, l = a ++ x :: b /\ filter f a = [] /\ filter f b = m.
Proof.
  induction l as [|y l IH]; intros x m H; cbn in H; [discriminate|]. destruct (f y) eqn:E.
  - injection H as -> <-. exists [], l. auto.
  - destruct (IH _ _ H) as (a & b & -> & Fa & Fb). exists (y :: a), b. cbn. rewrite E. auto.
Qed.

Lemma reach_prefix : forall n z0 a tr p, reach n z0 (a ++ tr) p -> exists p', reach n z0 tr p'.
Proof.
  intros n z0 a tr p [ls H].
  assert (G : forall ls tr0 s0 a tr s, pool_exec tr0 s0 ls = Some (a ++ tr, s) -> (length tr0 <= length tr)%nat ->
     exists ls' s', pool_exec tr0 s0 ls' = Some (tr, s')).
  { clear. intros ls. induction ls as [|l ls IH] using rev_ind; intros tr0 s0 a tr s H L.
    - cbn in H. injection H as -> ->. destruct a as [|x a]; [|rewrite app_length in L; cbn in L; lia].
      exists [], s. reflexivity.
    - destruct (pool_exec tr0 s0 ls) as [[tr1 s1]|] eqn:E.
      + pose proof (pool_exec_app ls [l] _ _ _ _ E) as Q. rewrite H in Q. cbn in Q.
        destruct (pool_step s1 l) as [[ev s2]|] eqn:Sp; [|discriminate]. injection Q as Q1 Q2.
        destruct a as [|x a].
        * cbn in Q1. exists (ls ++ [l]), s. cbn in H. exact H.
        * cbn in Q1. injection Q1 as -> <-. eapply (IH tr0 s0 a tr s1); eauto.
      + exfalso. clear - H E. revert tr0 s0 H E. induction ls as [|l' ls IH]; intros; cbn in *; [discriminate|].
        destruct (pool_step s0 l') as [[]|]; [eauto|discriminate]. }
  destruct (G ls [] (pool_init n z0) a tr p H) as (ls' & s' & Q); [cbn; lia|]. exists s', ls'. exact Q.
Qed.

Lemma joined : forall n z0 tr p e, preach n z0 (EvJoinRet :: tr) p e -> 
  quiet e /\ count is_done (etrace e) = total_starts tr /\
  (in_time z0 tr -> starts_since_run tr = Z.max 0 (budget tr)).
Proof.
  intros n z0 tr p e R. destruct (pinv_reach _ _ _ _ _ R) as [(tr0 & Rp & F) Re Es Ed].
  change (filter vis (EvJoinRet :: tr) = filter vis tr0) in F. cbn [filter vis] in F. symmetry in F.
  destruct (filter_cons_inv _ _ _ _ F) as (a & b & -> & Fa & Fb).
  destruct (reach_prefix _ _ _ _ _ Rp) as (p' & Rp').
  destruct (join_quiescent _ _ _ _ Rp') as [Q _]. unfold in_progress in Q.
  rewrite (vis_total_starts b), (vis_total_ends b), Fb, <- vis_total_starts, <- vis_total_ends in Q.
  cbn [total_starts total_ends] in Es, Ed.
  destruct (cinv_reach _ _ seqb_ok aeqb_ok C n e Re) as [K _]. pose proof (ci_done _ _ K) as K5.
  assert (Z0 : sumZ busy (ths e) = 0) by lia.
  split; [|split; [lia|]].
  - intros t x Hx. assert (B : busy x = 0).
    { assert (0 <= busy x) by (destruct x; cbn; lia). pose proof (sumZ_upd _ busy (ths e) t x TIdle Hx) as U. cbn in U.
      assert (0 <= sumZ busy (upd (ths e) t TIdle)) by (apply sumZ_nonneg; intros []; cbn; lia). lia. }
    destruct x; cbn in B; try lia. reflexivity.
  - intros T. destruct (join_exact_full _ _ _ _ Rp') as [J _].
    + unfold in_time in *. rewrite (vis_clock z0 b), (vis_deadline z0 b), Fb, <- vis_clock, <- vis_deadline. exact T.
    + rewrite (vis_starts b), (vis_budget b), Fb, <- vis_starts, <- vis_budget in J. exact J.
Qed.

(** One run of run_trials, from the constructor. *)
Lemma total_no_run : forall tr, no_run tr -> total_starts tr = starts_since_run tr /\ budget tr = 0.
Proof.
  induction tr as [|x tr IH]; intros H; cbn; auto.
  assert (no_run tr) by (intros n t z Q; apply (H n t z); now right). destruct (IH H0).
  destruct x; cbn; auto; try lia. exfalso. apply (H n t z). now left.
Qed.
Lemma total_starts_app : forall a b, total_starts (a ++ b) = total_starts a + total_starts b.
Proof. induction a as [|[] a IH]; intros b; cbn [app total_starts]; rewrite ?IH; lia. Qed.
Lemma since_app : forall a n t z b, no_run a -> starts_since_run (a ++ EvRun n t z :: b) = total_starts a /\
  budget (a ++ EvRun n t z :: b) = n.
Proof.
  induction a as [|x a IH]; intros n t z b H; cbn [app starts_since_run budget total_starts]; auto.
  assert (Q : no_run a) by (intros n0 t0 z0 Q; apply (H n0 t0 z0); now right). destruct (IH n t z b Q) as [E1 E2].
  destruct x; cbn; auto; try lia. exfalso. apply (H n0 t0 z0). now left.
Qed.

Lemma filter_no_run : forall tr, no_run tr -> no_run (filter vis tr).
Proof. intros tr H n t z Q. apply filter_In in Q. apply (H n t z). tauto. Qed.

Lemma one_run : forall n z0 k t z tr2 tr1 p e,
  preach n z0 (EvJoinRet :: tr2 ++ EvRun k t z :: tr1) p e -> no_run tr1 -> no_run tr2 ->
  in_time z0 (tr2 ++ EvRun k t z :: tr1) ->
  total_starts (tr2 ++ EvRun k t z :: tr1) = Z.max 0 k.
Proof.
  intros n z0 k t z tr2 tr1 p e R N1 N2 T. destruct (joined _ _ _ _ _ R) as (_ & _ & J). specialize (J T).
  destruct (since_app tr2 k t z tr1 N2) as [E1 E2]. rewrite E1, E2 in J.
  rewrite total_starts_app. cbn [total_starts].
  enough (total_starts tr1 = 0) by lia.
  (* before the first run nothing starts *)
  destruct (pinv_reach _ _ _ _ _ R) as [(tr0 & Rp & F) _ _ _].
  change (filter vis (EvJoinRet :: tr2 ++ EvRun k t z :: tr1) = filter vis tr0) in F.
  cbn [filter vis] in F. rewrite filter_app in F. cbn [filter vis] in F. symmetry in F.
  rewrite app_comm_cons in F. set (pre := EvJoinRet :: filter vis tr2) in F.
  assert (X : exists a b, tr0 = a ++ b /\ filter vis b = filter vis tr1).
  { clear - F. revert tr0 F. induction pre as [|x pre IH]; intros tr0 F; cbn [app] in F.
    - destruct (filter_cons_inv _ _ _ _ F) as (a & b & -> & _ & Fb). exists (a ++ [EvRun k t z]), b.
      rewrite <- app_assoc. auto.
    - destruct (filter_cons_inv _ _ _ _ F) as (a & b & -> & _ & Fb). destruct (IH b Fb) as (a1 & b1 & -> & Q).
      exists (a ++ x :: a1), b1. rewrite <- app_assoc. auto. }
  destruct X as (a & b & -> & Fb). destruct (reach_prefix _ _ _ _ _ Rp) as (p1 & Rp1).
  pose proof (budget_bound _ _ _ _ Rp1) as B.
  rewrite vis_starts, vis_budget, Fb, <- vis_starts, <- vis_budget in B.
  destruct (total_no_run tr1 N1) as [E3 E4]. rewrite E4 in B. rewrite E3.
  assert (0 <= total_starts tr1) by (clear; induction tr1 as [|[] tr1 IH]; cbn; lia). lia.
Qed.

(** ** Progress of the whole *)
Definition is_trial (w : wpc) : bool := match w with WTrial => true | _ => false end.
Lemma wake_trial : forall w, is_trial (wake_w w) = is_trial w.
Proof. now intros []. Qed.

Lemma pool_step_trial : forall p l ev p', pool_step p l = Some (ev, p') ->
  match ev with
  | EvStart i => (exists w, nth_error (ws p) i = Some w /\ is_trial w = false) /\ ws p' = upd (ws p) i WTrial
  | EvEnd i => nth_error (ws p) i = Some WTrial /\ ws p' = upd (ws p) i WRelock
  | _ => map is_trial (ws p') = map is_trial (ws p)
  end.
Proof.
  assert (U : forall l i w v, nth_error l i = Some w -> is_trial w = is_trial v -> map is_trial (upd l i v) = map is_trial l).
  { induction l as [|x l IH]; intros [|i] w v H E; cbn in *; try discriminate.
    - injection H as ->. congruence.
    - f_equal. eauto. }
  assert (WK : forall l, map is_trial (map wake_w l) = map is_trial l).
  { intros l. rewrite map_map. apply map_ext. apply wake_trial. }
  intros p l ev p' H. destruct l as [i| |c|i| |z]; cbn [pool_step] in H.
  - destruct (nth_error (ws p) i) as [w|] eqn:Hw; [|discriminate].
    destruct w; cbn [worker_step] in H;
      repeat match type of H with context [match ?x with _ => _ end] => destruct x eqn:?; try discriminate end;
      try discriminate; injection H as <- <-; cbn; eauto; try (eapply U; eauto; fail).
    rewrite <- (WK (ws p)). eapply U; [rewrite nth_error_map', Hw; reflexivity|reflexivity].
  - unfold client_step in H.
    repeat match type of H with context [match ?x with _ => _ end] => destruct x eqn:?; try discriminate end;
      try discriminate; injection H as <- <-; cbn; auto.
  - unfold call_step in H.
    repeat match type of H with context [match ?x with _ => _ end] => destruct x eqn:?; try discriminate end;
      try discriminate; injection H as <- <-; cbn; auto.
  - destruct (nth_error (ws p) i) as [[]|] eqn:Hw; try discriminate. injection H as <- <-. cbn. eapply U; eauto.
  - destruct (cl p); try discriminate. injection H as <- <-. reflexivity.
  - injection H as <- <-. reflexivity.
Qed.

Definition idle_b (x : @tstate A) : bool := match x with TIdle => false | _ => true end.
Definition coupled (p : pool) (e : @est S A) : Prop := map is_trial (ws p) = map idle_b (ths e).

Lemma map_upd : forall X Y (f : X -> Y) l i x, map f (upd l i x) = upd (map f l) i (f x).
Proof. induction l as [|y l IH]; intros [|i] x; cbn; auto. now rewrite IH. Qed.
Lemma upd_same : forall X (l : list X) i x, nth_error l i = Some x -> upd l i x = l.
Proof. induction l as [|y l IH]; intros [|i] x H; cbn in *; try discriminate; [now injection H as ->|]. now rewrite IH. Qed.

Lemma estep_coupled : forall n l (e e' : @est S A), ereach seqb aeqb C n e -> estep seqb aeqb C l e = Some e' ->
  match l with
  | LStart t => map idle_b (ths e') = upd (map idle_b (ths e)) t true
  | LRun t => if trial_over e t then map idle_b (ths e') = upd (map idle_b (ths e)) t false
              else map idle_b (ths e') = map idle_b (ths e)
  | _ => map idle_b (ths e') = map idle_b (ths e)
  end.
Proof.
  intros n l e e' R H.
  assert (S1 : forall t x y, nth_error (ths e) t = Some x -> idle_b x = true -> idle_b y = true ->
            map idle_b (upd (ths e) t y) = map idle_b (ths e)).
  { intros t x y Hx Ix Iy. rewrite map_upd, Iy. apply upd_same. rewrite nth_error_map', Hx, Ix. reflexivity. }
  destruct l as [t|t a|t o|t]; cbn [estep] in H; unfold trial_over.
  - destruct (nth_error (ths e) t) as [[]|]; try discriminate. injection H as <-. cbn. apply map_upd.
  - destruct (nth_error (ths e) t) as [[]|] eqn:Hx; try discriminate.
    destruct (nth_error (dh (mem e)) cur); [|injection H as <-; cbn; eapply S1; eauto].
    destruct (should_continue C d flag && existsb (aeqb a) (acts C (dstate d))); [|discriminate].
    match type of H with match ?X with _ => _ end = _ => destruct X as [n1|] end; [|injection H as <-; cbn; eapply S1; eauto].
    destruct (lookup aeqb a (dkids n1)); injection H as <-; cbn; eapply S1; eauto.
  - destruct (nth_error (ths e) t) as [[]|] eqn:Hx; try discriminate.
    destruct (nth_error (ch (mem e)) c); [|injection H as <-; cbn; eapply S1; eauto].
    destruct (nth_error (dh (mem e)) cur); [|injection H as <-; cbn; eapply S1; eauto].
    destruct (existsb (seqb o) (succs C (cstate c0) (cact c0))); [|discriminate].
    match type of H with context [create_child_c ?a ?b ?c ?d ?e ?f] => destruct (create_child_c a b c d e f) as [m1 isnew] end.
    destruct (nth_error (ch m1) c) as [n1|]; [|injection H as <-; cbn; eapply S1; eauto].
    destruct (lookup seqb o (ckids n1)); injection H as <-; cbn; eapply S1; eauto.
  - destruct (nth_error (ths e) t) as [[]|] eqn:Hx; try discriminate.
    + destruct (nth_error (dh (mem e)) cur); [|injection H as <-; cbn; eapply S1; eauto].
      destruct (should_continue C d flag); [discriminate|]. injection H as <-. cbn. eapply S1; eauto.
    + destruct nodes as [|[d c] nodes].
      * injection H as <-. cbn. apply map_upd.
      * destruct before; injection H as <-; cbn; eapply S1; eauto.
    + injection H as <-. cbn. eapply S1; eauto.
Qed.

Lemma coupled_step : forall n z0 tr p e l ev p' e', pinv n z0 tr p e -> coupled p e ->
  prod_step seqb aeqb C l (p, e) = Some (ev, (p', e')) -> coupled p' e'.
Proof.
  intros n z0 tr p e l ev p' e' I K H. pose proof (pi_eng _ _ _ _ _ I) as Re. unfold coupled in *.
  destruct l as [pl|el]; cbn [prod_step] in H.
  - destruct (pool_step p pl) as [[x p1]|] eqn:Sp; [|discriminate]. pose proof (pool_step_trial _ _ _ _ Sp) as T.
    destruct x; try discriminate; try (injection H as <- <- <-; rewrite T; exact K).
    + destruct (estep seqb aeqb C (LStart i) e) as [e1|] eqn:Se; [|discriminate]. injection H as <- <- <-.
      pose proof (estep_coupled n _ _ _ Re Se) as E. cbn in E. destruct T as [_ T]. rewrite T, E, map_upd, K. reflexivity.
    + destruct (trial_over e i) eqn:O; [|discriminate].
      destruct (estep seqb aeqb C (LRun i) e) as [e1|] eqn:Se; [|discriminate]. injection H as <- <- <-.
      pose proof (estep_coupled n _ _ _ Re Se) as E. cbn in E. rewrite O in E. destruct T as [_ T].
      rewrite T, E, map_upd, K. reflexivity.
  - destruct el as [t|t a|t o|t]; [discriminate| | |].
    + destruct (estep seqb aeqb C (LSelect t a) e) as [e1|] eqn:Se; [|discriminate]. injection H as <- <- <-.
      pose proof (estep_coupled n _ _ _ Re Se) as E. cbn in E. congruence.
    + destruct (estep seqb aeqb C (LSample t o) e) as [e1|] eqn:Se; [|discriminate]. injection H as <- <- <-.
      pose proof (estep_coupled n _ _ _ Re Se) as E. cbn in E. congruence.
    + destruct (trial_over e t) eqn:O; [discriminate|].
      destruct (estep seqb aeqb C (LRun t) e) as [e1|] eqn:Se; [|discriminate]. injection H as <- <- <-.
      pose proof (estep_coupled n _ _ _ Re Se) as E. cbn in E. rewrite O in E. congruence.
Qed.

Lemma coupled_reach : forall n z0 tr p e, preach n z0 tr p e -> coupled p e.
Proof.
  intros n z0 tr p e [ls H].
  assert (G : forall ls tr0 p0 e0, pinv n z0 tr0 p0 e0 -> coupled p0 e0 ->
     prod_run seqb aeqb C tr0 ls (p0, e0) = Some (tr, (p, e)) -> coupled p e).
  { clear ls H. induction ls as [|l ls IH]; intros tr0 p0 e0 I K H; cbn [prod_run] in H.
    - injection H as <- <- <-. auto.
    - destruct (prod_step seqb aeqb C l (p0, e0)) as [[ev [p1 e1]]|] eqn:E; [|discriminate].
      eapply (IH (ev :: tr0) p1 e1); [eapply pinv_step; eauto|eapply coupled_step; eauto|exact H]. }
  eapply G; [| |exact H].
  - eapply pinv_reach. exists []. reflexivity.
  - unfold coupled. cbn. clear. induction n; cbn; auto. now rewrite IHn.
Qed.

Lemma vis_never : forall z tr, never_timed_out z tr <-> never_timed_out z (filter vis tr).
Proof.
  assert (HR : forall tr, has_run tr = has_run (filter vis tr)) by (induction tr as [|[] tr IH]; cbn; auto).
  induction tr as [|[] tr IH]; cbn; try tauto. rewrite IH, (HR tr), (vis_deadline z tr). tauto.
Qed.

(** The program (pool protocol and trials) can always make a step while the client waits. *)
Lemma prod_progress : forall n z0 tr p e, (0 < n)%nat -> preach n z0 tr p e -> never_timed_out z0 tr -> client_busy p ->
  (forall st, is_sink C st = false -> acts C st <> []) ->
  (forall st a, is_sink C st = false -> In a (acts C st) -> succs C st a <> []) ->
  exists l s', (match l with PPool pl => program_label pl = true | PTrial _ => True end) /\
               prod_step seqb aeqb C l (p, e) = Some s'.
Proof.
  intros n z0 tr p e Hn R T B HA HS. pose proof (pinv_reach _ _ _ _ _ R) as I. destruct I as [(tr0 & Rp & F) Re _ _].
  change (filter vis tr = filter vis tr0) in F. rewrite vis_never, F, <- vis_never in T.
  destruct (progress_in_time n z0 tr0 p Hn Rp T B) as (pl & Pl & St).
  destruct (pool_step p pl) as [[ev p1]|] eqn:Sp; [|congruence].
  pose proof (pool_step_trial _ _ _ _ Sp) as TT. pose proof (coupled_reach _ _ _ _ _ R) as K. unfold coupled in K.
  assert (Th : forall i w, nth_error (ws p) i = Some w -> exists x, nth_error (ths e) i = Some x /\ idle_b x = is_trial w).
  { intros i w Hw. assert (Q : nth_error (map is_trial (ws p)) i = Some (is_trial w)) by (rewrite nth_error_map', Hw; auto).
    rewrite K, nth_error_map' in Q. destruct (nth_error (ths e) i) as [x|]; [|discriminate]. injection Q as Q. eauto. }
  destruct ev; try (exists (PPool pl); eexists; split; [exact Pl|]; cbn [prod_step]; rewrite Sp; reflexivity).
  - destruct TT as [(w & Hw & Iw) _]. destruct (Th _ _ Hw) as (x & Hx & Ix). rewrite Iw in Ix.
    destruct x; try discriminate. exists (PPool pl). eexists. split; [exact Pl|]. cbn [prod_step]. rewrite Sp.
    cbn [estep]. rewrite Hx. reflexivity.
  - destruct TT as [Hw _]. destruct (Th _ _ Hw) as (x & Hx & Ix). cbn in Ix.
    destruct (trial_over e i) eqn:O.
    + exists (PPool pl). eexists. split; [exact Pl|]. cbn [prod_step]. rewrite Sp, O. cbn [estep]. unfold trial_over in O.
      destruct (nth_error (ths e) i) as [[]|]; try discriminate. destruct nodes as [|[]]; [|discriminate]. reflexivity.
    + destruct (trial_progress _ _ seqb_ok aeqb_ok C n e i x Re Hx) as (l & e1 & Hl & Se); auto.
      { intros ->. discriminate. }
      exists (PTrial l). destruct Hl as [->|[[a ->]|[o ->]]]; cbn [prod_step]; rewrite ?O, Se; eexists; split; auto.
  - exfalso. destruct pl; try discriminate Pl; cbn [pool_step] in Sp.
    + destruct (nth_error (ws p) i) as [[]|]; cbn [worker_step] in Sp; try discriminate;
        repeat match type of Sp with context [match ?x with _ => _ end] => destruct x; try discriminate end.
    + unfold client_step in Sp.
      repeat match type of Sp with context [match ?x with _ => _ end] => destruct x; try discriminate end.
Qed.
End Product.
