(** Invariants of the thread pool. *)
From Coq Require Import List ZArith Lia Bool.
From Verif Require Import Base BaseProofs PoolModel PoolSpec.
Import ListNotations.
Open Scope Z_scope.

(** Worker holds the mutex. *)
Definition holds (w : wpc) : bool :=
  match w with WLoop | WCheck1 | WCheck2 | WAfterWait => true | _ => false end.
Definition cholds (c : cpc) : bool :=
  match c with CRunSet _ _ _ | CJoinCheck | CDtorSet => true | _ => false end.
(** Worker counted in num_threads_working. *)
Definition counted (w : wpc) : bool :=
  match w with WStart | WLoop | WTrial | WRelock => true | WExit b => b | _ => false end.
Definition is_trial (w : wpc) : bool := match w with WTrial => true | _ => false end.
Definition in_dtor (c : cpc) : bool := match c with CDtorJoin | CDead => true | _ => false end.

Record inv (n : nat) (z0 : Z) (tr : list event) (s : pool) : Prop := mkInv {
  i_len : length (ws s) = n;
  i_hold : forall i w, nth_error (ws s) i = Some w -> holds w = true -> lock s = Some (TWorker i);
  i_hold' : forall i, lock s = Some (TWorker i) ->
            exists w, nth_error (ws s) i = Some w /\ holds w = true;
  i_chold : cholds (cl s) = true <-> lock s = Some TClient;
  i_work : working s = countb counted (ws s);
  i_rem : remaining s + starts_since_run tr = budget tr;
  i_ntr : ntrials s = budget tr;
  i_spos : 0 <= starts_since_run tr;
  i_rpos : 0 < starts_since_run tr -> 0 <= remaining s;
  i_prog : in_progress tr = countb is_trial (ws s);
  i_now : now s = clock z0 tr;
  i_dead : start s + maxt s = deadline z0 tr;
  i_alive : alive s = negb (in_dtor (cl s));
  i_exit : alive s = true -> forall i w, nth_error (ws s) i = Some w -> is_exit w = false
}.

Lemma inv_init : forall n z0, inv n z0 [] (pool_init n z0).
Proof.
  intros n z0. constructor; cbn; try lia; auto.
  - apply repeat_length.
  - intros i w H Hh. apply nth_error_In in H. apply repeat_spec in H. subst w. discriminate.
  - discriminate.
  - split; discriminate.
  - rewrite countb_repeat. reflexivity.
  - unfold in_progress. cbn. rewrite countb_repeat. reflexivity.
  - intros _ i w H. apply nth_error_In in H. apply repeat_spec in H. now subst w.
Qed.

Lemma wake_holds : forall w, holds (wake_w w) = holds w.
Proof. destruct w; reflexivity. Qed.
Lemma wake_counted : forall w, counted (wake_w w) = counted w.
Proof. destruct w; reflexivity. Qed.
Lemma wake_trial : forall w, is_trial (wake_w w) = is_trial w.
Proof. destruct w; reflexivity. Qed.
Lemma wake_exit : forall w, is_exit (wake_w w) = is_exit w.
Proof. destruct w; reflexivity. Qed.
Lemma wakec_holds : forall c, cholds (wake_c c) = cholds c.
Proof. destruct c; reflexivity. Qed.
Lemma wakec_dtor : forall c, in_dtor (wake_c c) = in_dtor c.
Proof. destruct c; reflexivity. Qed.

(** Waking waiting threads preserves everything in the invariant. *)
Lemma inv_notify : forall n z0 tr s, inv n z0 tr s -> inv n z0 tr (notify_all s).
Proof.
  intros n z0 tr s [Hl Hh Hh' Hc Hw Hr Hn Hsp Hrp Hp Hnow Hd Ha He].
  constructor; cbn; auto.
  - now rewrite map_length.
  - intros i w. rewrite nth_error_map'. destruct (nth_error (ws s) i) eqn:E; [|discriminate].
    intros [= <-]. rewrite wake_holds. eauto.
  - intros i Hi. destruct (Hh' i Hi) as (w & E & F). exists (wake_w w).
    rewrite nth_error_map', E, wake_holds. auto.
  - now rewrite wakec_holds.
  - rewrite countb_map, (countb_ext _ _ counted); auto. apply wake_counted.
  - rewrite countb_map, (countb_ext _ _ is_trial); auto. apply wake_trial.
  - now rewrite wakec_dtor.
  - intros A i w. rewrite nth_error_map'. destruct (nth_error (ws s) i) eqn:E; [|discriminate].
    intros [= <-]. rewrite wake_exit. eauto.
Qed.

Lemma work_left_true : forall s, work_left s = true -> 0 < remaining s /\ now s - start s < maxt s.
Proof.
  intros s. unfold work_left.
  destruct (Z.leb_spec (remaining s) 0); [discriminate|].
  destruct (Z.leb_spec (maxt s) (now s - start s)); [discriminate|lia].
Qed.

Lemma work_left_false : forall s, work_left s = false -> remaining s <= 0 \/ maxt s <= now s - start s.
Proof.
  intros s. unfold work_left.
  destruct (Z.leb_spec (remaining s) 0); [auto|].
  destruct (Z.leb_spec (maxt s) (now s - start s)); [auto|discriminate].
Qed.

(** Moving a worker that keeps its exit status, when [alive] is unchanged. *)
Lemma exit_upd : forall (l : list wpc) i w x,
  nth_error l i = Some w -> is_exit x = false ->
  (forall j v, nth_error l j = Some v -> is_exit v = false) ->
  forall j v, nth_error (upd l i x) j = Some v -> is_exit v = false.
Proof.
  intros l i w x H Hx Hall j v. rewrite (nth_upd _ _ _ _ _ _ H).
  destruct (Nat.eqb i j); [intros [= <-]; auto|eauto].
Qed.

(** A worker acquires the mutex. *)
Lemma hold_acquire : forall (l : list wpc) (lk : option tid) i w x,
  (forall j v, nth_error l j = Some v -> holds v = true -> lk = Some (TWorker j)) ->
  lk = None -> nth_error l i = Some w -> holds x = true ->
  (forall j v, nth_error (upd l i x) j = Some v -> holds v = true -> Some (TWorker i) = Some (TWorker j)) /\
  (forall j, Some (TWorker i) = Some (TWorker j) -> exists v, nth_error (upd l i x) j = Some v /\ holds v = true).
Proof.
  intros l lk i w x H N E X. split.
  - intros j v. rewrite (nth_upd _ _ _ _ _ _ E). destruct (Nat.eqb_spec i j) as [->|]; auto.
    intros A B. specialize (H _ _ A B). congruence.
  - intros j [= <-]. exists x. split; auto. eapply nth_upd_eq; eauto.
Qed.

(** The holder releases the mutex. *)
Lemma hold_release : forall (l : list wpc) (lk : option tid) i w x,
  (forall j v, nth_error l j = Some v -> holds v = true -> lk = Some (TWorker j)) ->
  nth_error l i = Some w -> holds w = true -> holds x = false ->
  (forall j v, nth_error (upd l i x) j = Some v -> holds v = true -> @None tid = Some (TWorker j)).
Proof.
  intros l lk i w x H E W X j v. rewrite (nth_upd _ _ _ _ _ _ E). destruct (Nat.eqb_spec i j) as [->|].
  - intros [= <-]. congruence.
  - intros A B. pose proof (H _ _ A B) as P. pose proof (H _ _ E W) as Q. congruence.
Qed.

(** A worker moves without changing whether it holds the mutex. *)
Lemma hold_keep : forall (l : list wpc) (lk : option tid) i w x,
  nth_error l i = Some w -> holds x = holds w ->
  (forall j v, nth_error l j = Some v -> holds v = true -> lk = Some (TWorker j)) ->
  (forall j, lk = Some (TWorker j) -> exists v, nth_error l j = Some v /\ holds v = true) ->
  (forall j v, nth_error (upd l i x) j = Some v -> holds v = true -> lk = Some (TWorker j)) /\
  (forall j, lk = Some (TWorker j) -> exists v, nth_error (upd l i x) j = Some v /\ holds v = true).
Proof.
  intros l lk i w x E X H H'. split.
  - intros j v. rewrite (nth_upd _ _ _ _ _ _ E). destruct (Nat.eqb_spec i j) as [->|]; eauto.
    intros [= <-] B. apply (H _ _ E). congruence.
  - intros j J. destruct (H' _ J) as (v & A & B). rewrite (nth_upd _ _ _ _ _ _ E).
    destruct (Nat.eqb_spec i j) as [->|]; eauto.
    exists x. split; auto. rewrite E in A. injection A as ->. congruence.
Qed.

Ltac cnt E := rewrite ?(countb_upd _ _ _ _ _ _ E); cbn; try lia.

Lemma inv_worker : forall n z0 tr s i w e s',
  inv n z0 tr s -> nth_error (ws s) i = Some w -> worker_step s i w = Some (e, s') ->
  inv n z0 (e :: tr) s'.
Proof.
  intros n z0 tr s i w e s' I E H.
  destruct w; cbn in H.
  - (* WStart *)
    destruct (lock s) eqn:L; [discriminate|]. injection H as <- <-. destruct I.
    destruct (hold_acquire (ws s) (lock s) i WStart WLoop) as [P Q]; auto.
    constructor; cbn; auto.
    + now rewrite upd_length.
    + rewrite L in i_chold0. rewrite i_chold0. split; congruence.
    + rewrite i_work0. cnt E.
    + unfold in_progress in *; cbn [total_starts total_ends]; cnt E.
    + intros A. eapply exit_upd; eauto.
  - (* WLoop *)
    destruct (alive s) eqn:A; injection H as <- <-.
    + destruct I. destruct (hold_keep (ws s) (lock s) i WLoop WCheck1) as [P Q]; auto.
      constructor; cbn; auto.
      * now rewrite upd_length.
      * rewrite i_work0. cnt E.
      * unfold in_progress in *; cbn [total_starts total_ends]; cnt E.
      * intros _. eapply exit_upd; eauto.
    + destruct I. constructor; cbn; auto.
      * now rewrite upd_length.
      * eapply hold_release; eauto.
      * discriminate.
      * rewrite i_chold0, (i_hold0 _ _ E eq_refl). split; congruence.
      * rewrite i_work0. cnt E.
      * unfold in_progress in *; cbn [total_starts total_ends]; cnt E.
      * rewrite A. discriminate.
  - (* WCheck1 *)
    assert (K : forall t, inv n z0 tr t -> nth_error (ws t) i = Some WCheck1 ->
                inv n z0 (EvNone :: tr) (goto t i WCheck2)).
    { intros t I' E'. destruct I'.
      destruct (hold_keep (ws t) (lock t) i WCheck1 WCheck2) as [P Q]; auto.
      constructor; cbn; auto.
      - now rewrite upd_length.
      - rewrite i_work0. cnt E'.
      - unfold in_progress in *; cbn [total_starts total_ends]; cnt E'.
      - intros A. eapply exit_upd; eauto. }
    destruct (work_left s); injection H as <- <-.
    + now apply K.
    + apply K; [now apply inv_notify|]. cbn. rewrite nth_error_map', E. reflexivity.
  - (* WCheck2 *)
    destruct (work_left s) eqn:W; injection H as <- <-.
    + apply work_left_true in W. destruct W as [W _]. destruct I. constructor; cbn; auto; try lia.
      * now rewrite upd_length.
      * eapply hold_release; eauto.
      * discriminate.
      * rewrite i_chold0, (i_hold0 _ _ E eq_refl). split; congruence.
      * rewrite i_work0. cnt E.
      * unfold in_progress in *. cbn [total_starts total_ends]. cnt E.
      * intros A. eapply exit_upd; eauto.
    + destruct I. constructor; cbn; auto.
      * now rewrite upd_length.
      * eapply hold_release; eauto.
      * discriminate.
      * rewrite i_chold0, (i_hold0 _ _ E eq_refl). split; congruence.
      * rewrite i_work0. cnt E.
      * unfold in_progress in *. cbn [total_starts total_ends]. cnt E.
      * intros A. eapply exit_upd; eauto.
  - discriminate.
  - (* WWoken *)
    destruct (lock s) eqn:L; [discriminate|]. injection H as <- <-. destruct I.
    destruct (hold_acquire (ws s) (lock s) i WWoken WAfterWait) as [P Q]; auto.
    constructor; cbn; auto.
    + now rewrite upd_length.
    + rewrite L in i_chold0. rewrite i_chold0. split; congruence.
    + rewrite i_work0. cnt E.
    + unfold in_progress in *; cbn [total_starts total_ends]; cnt E.
    + intros A. eapply exit_upd; eauto.
  - (* WAfterWait *)
    destruct (alive s) eqn:A; injection H as <- <-; destruct I.
    + destruct (hold_keep (ws s) (lock s) i WAfterWait WCheck2) as [P Q]; auto.
      constructor; cbn; auto.
      * now rewrite upd_length.
      * rewrite i_work0. cnt E.
      * unfold in_progress in *; cbn [total_starts total_ends]; cnt E.
      * intros _. eapply exit_upd; eauto.
    + constructor; cbn; auto.
      * now rewrite upd_length.
      * eapply hold_release; eauto.
      * discriminate.
      * rewrite i_chold0, (i_hold0 _ _ E eq_refl). split; congruence.
      * rewrite i_work0. cnt E.
      * unfold in_progress in *; cbn [total_starts total_ends]; cnt E.
      * rewrite A. discriminate.
  - (* WTrial *)
    injection H as <- <-. destruct I.
    destruct (hold_keep (ws s) (lock s) i WTrial WRelock) as [P Q]; auto.
    constructor; cbn; auto.
    + now rewrite upd_length.
    + rewrite i_work0. cnt E.
    + unfold in_progress in *. cbn [total_starts total_ends]. cnt E.
    + intros A. eapply exit_upd; eauto.
  - (* WRelock *)
    destruct (lock s) eqn:L; [discriminate|]. injection H as <- <-. destruct I.
    destruct (hold_acquire (ws s) (lock s) i WRelock WLoop) as [P Q]; auto.
    constructor; cbn; auto.
    + now rewrite upd_length.
    + rewrite L in i_chold0. rewrite i_chold0. split; congruence.
    + rewrite i_work0. cnt E.
    + unfold in_progress in *; cbn [total_starts total_ends]; cnt E.
    + intros A. eapply exit_upd; eauto.
  - discriminate.
Qed.

(** Client steps that only move the client and possibly the mutex. *)
Lemma inv_cl : forall n z0 tr s e c lk,
  inv n z0 tr s ->
  (forall l, starts_since_run (e :: l) = starts_since_run l) ->
  (forall l, budget (e :: l) = budget l) ->
  (forall l, total_starts (e :: l) = total_starts l) ->
  (forall l, total_ends (e :: l) = total_ends l) ->
  (forall l, clock z0 (e :: l) = clock z0 l) ->
  (forall l, deadline z0 (e :: l) = deadline z0 l) ->
  in_dtor c = in_dtor (cl s) ->
  (forall i w, nth_error (ws s) i = Some w -> holds w = true -> lk = Some (TWorker i)) ->
  (forall i, lk = Some (TWorker i) -> exists w, nth_error (ws s) i = Some w /\ holds w = true) ->
  (cholds c = true <-> lk = Some TClient) ->
  inv n z0 (e :: tr) (set_cl (set_lock s lk) c).
Proof.
  intros n z0 tr s e c lk [] E1 E2 E3 E4 E5 E6 D H H' C.
  unfold in_progress in *.
  constructor; cbn [ws lock cl working remaining ntrials now start maxt alive set_cl set_lock];
    unfold in_progress; rewrite ?E1, ?E2, ?E3, ?E4, ?E5, ?E6; auto; congruence.
Qed.

Lemma set_lock_same : forall s, set_lock s (lock s) = s.
Proof. destruct s; reflexivity. Qed.

(** Client moves that leave the mutex alone. *)
Lemma inv_cl0 : forall n z0 tr s c,
  inv n z0 tr s -> in_dtor c = in_dtor (cl s) -> cholds c = cholds (cl s) ->
  inv n z0 (EvNone :: tr) (set_cl s c).
Proof.
  intros n z0 tr s c I D H. rewrite <- (set_lock_same s).
  pose proof I as J. destruct J. apply inv_cl; auto. now rewrite H.
Qed.

Ltac side :=
  match goal with
  | |- forall l, _ = _ => reflexivity
  | |- in_dtor _ = in_dtor _ => cbn; congruence
  | _ => idtac
  end.

Lemma inv_client : forall n z0 tr s e s',
  inv n z0 tr s -> client_step s = Some (e, s') -> inv n z0 (e :: tr) s'.
Proof.
  intros n z0 tr s e s' I H. pose proof I as I0. destruct I0.
  unfold client_step in H.
  destruct (cl s) eqn:C; cbn in H; try discriminate.
  - destruct (lock s) eqn:L; [discriminate|]. injection H as <- <-.
    apply inv_cl; auto; side.
    + rewrite C; reflexivity.
    + intros i w A B. specialize (i_hold0 _ _ A B). discriminate.
    + discriminate.
    + split; auto.
  - injection H as <- <-. constructor; cbn; auto; try lia.
    + intros i w A B. specialize (i_hold0 _ _ A B).
      destruct i_chold0 as [P _]. rewrite P in i_hold0; [discriminate|reflexivity].
    + discriminate.
    + split; discriminate.
  - injection H as <- <-.
    apply inv_notify in I. destruct I.
    assert (lk : lock s <> Some TClient).
    { intros Q. apply i_chold0 in Q. discriminate. }
    destruct blocking.
    + constructor; cbn in *; auto; rewrite ?C in *; auto.
    + constructor; cbn in *; auto; rewrite ?C in *; auto.
  - destruct (lock s) eqn:L; [discriminate|]. injection H as <- <-.
    apply inv_cl; auto; side.
    + rewrite C; reflexivity.
    + intros i w A B. specialize (i_hold0 _ _ A B). discriminate.
    + discriminate.
    + split; auto.
  - assert (L : lock s = Some TClient) by now apply i_chold0.
    assert (NH : forall i w, nth_error (ws s) i = Some w -> holds w = true -> @None tid = Some (TWorker i)).
    { intros i w A B. specialize (i_hold0 _ _ A B). congruence. }
    destruct (work_left s || (0 <? working s)); injection H as <- <-.
    + apply inv_cl; auto; side; try (rewrite C; reflexivity); try discriminate. split; discriminate.
    + apply inv_cl; auto; side; try (rewrite C; reflexivity); try discriminate. split; discriminate.
  - destruct (lock s) eqn:L; [discriminate|]. injection H as <- <-.
    apply inv_cl; auto; side.
    + rewrite C; reflexivity.
    + intros i w A B. specialize (i_hold0 _ _ A B). discriminate.
    + discriminate.
    + split; auto.
  - destruct (lock s) eqn:L; [discriminate|]. injection H as <- <-.
    apply inv_cl; auto; side.
    + rewrite C; reflexivity.
    + intros i w A B. specialize (i_hold0 _ _ A B). discriminate.
    + discriminate.
    + split; auto.
  - assert (L : lock s = Some TClient) by now apply i_chold0.
    injection H as <- <-.
    constructor; cbn; auto; try discriminate.
    + now rewrite map_length.
    + intros i w. rewrite nth_error_map'. destruct (nth_error (ws s) i) eqn:E; [|discriminate].
      intros [= <-]. rewrite wake_holds. intros B. specialize (i_hold0 _ _ E B). congruence.
    + split; discriminate.
    + rewrite countb_map, (countb_ext _ _ counted); auto. apply wake_counted.
    + unfold in_progress in *. cbn. rewrite countb_map, (countb_ext _ _ is_trial); auto. apply wake_trial.
  - destruct (forallb is_exit (ws s)) eqn:F; [|discriminate]. injection H as <- <-.
    rewrite <- (set_lock_same s). apply inv_cl; auto; side; try (rewrite C; reflexivity).
Qed.

Lemma inv_step : forall n z0 tr s l e s',
  inv n z0 tr s -> pool_step s l = Some (e, s') -> inv n z0 (e :: tr) s'.
Proof.
  intros n z0 tr s l e s' I H. destruct l as [i| |c|i| |z]; cbn [pool_step] in H.
  - destruct (nth_error (ws s) i) eqn:E; [|discriminate]. eapply inv_worker; eauto.
  - eapply inv_client; eauto.
  - unfold call_step in H. destruct (cl s) eqn:C; try discriminate.
    destruct c; injection H as <- <-.
    + apply inv_cl0; auto; rewrite C; reflexivity.
    + apply inv_cl0; auto; rewrite C; reflexivity.
    + destruct I. destruct (work_left s); constructor; auto; rewrite C in *; auto.
    + apply inv_cl0; auto; rewrite C; reflexivity.
  - destruct (nth_error (ws s) i) as [w|] eqn:E; [|discriminate].
    destruct w; try discriminate. injection H as <- <-. destruct I.
    destruct (hold_keep (ws s) (lock s) i WWait WWoken) as [P Q]; auto.
    constructor; cbn; auto.
    + now rewrite upd_length.
    + rewrite i_work0. cnt E.
    + unfold in_progress in *; cbn [total_starts total_ends]; cnt E.
    + intros A. eapply exit_upd; eauto.
  - destruct (cl s) eqn:C; try discriminate. injection H as <- <-.
    apply inv_cl0; auto; rewrite C; reflexivity.
  - injection H as <- <-. destruct I. constructor; cbn; auto.
Qed.

Lemma inv_exec : forall n z0 ls tr s tr' s',
  inv n z0 tr s -> pool_exec tr s ls = Some (tr', s') -> inv n z0 tr' s'.
Proof.
  induction ls as [|l ls IH]; intros tr s tr' s' I H; cbn in H.
  - injection H as <- <-. auto.
  - destruct (pool_step s l) as [[e t]|] eqn:E; [|discriminate].
    eapply IH; [eapply inv_step; eauto|eauto].
Qed.

Lemma reach_inv : forall n z0 tr s, reach n z0 tr s -> inv n z0 tr s.
Proof. intros n z0 tr s [ls H]. eapply inv_exec; eauto. apply inv_init. Qed.

Lemma pool_exec_app : forall l1 l2 tr s,
  pool_exec tr s (l1 ++ l2) =
  match pool_exec tr s l1 with Some (tr', s') => pool_exec tr' s' l2 | None => None end.
Proof.
  induction l1 as [|l l1 IH]; intros l2 tr s; cbn; auto.
  destruct (pool_step s l) as [[e t]|]; auto.
Qed.

Lemma reach_extends : forall n z0 tr s ls tr' s',
  reach n z0 tr s -> extends tr s ls tr' s' -> reach n z0 tr' s'.
Proof.
  intros n z0 tr s ls tr' s' [l0 H] E. exists (l0 ++ ls). rewrite pool_exec_app, H. exact E.
Qed.

(** Last step of a reachable trace. *)
Lemma reach_last : forall n z0 e tr s,
  reach n z0 (e :: tr) s -> exists l s0, reach n z0 tr s0 /\ pool_step s0 l = Some (e, s).
Proof.
  intros n z0 e tr s [ls H].
  destruct (exists_last (l:=ls)) as (l0 & l & ->).
  { intros ->. discriminate. }
  rewrite pool_exec_app in H.
  destruct (pool_exec [] (pool_init n z0) l0) as [[t1 s1]|] eqn:E; [|discriminate].
  cbn in H. destruct (pool_step s1 l) as [[e' s2]|] eqn:F; [|discriminate].
  injection H as -> -> <-. exists l, s1. split; auto. exists l0. auto.
Qed.

(** ** C01, C07 *)
Lemma budget_bound : forall n z0 tr s,
  reach n z0 tr s -> starts_since_run tr <= Z.max 0 (budget tr).
Proof. intros n z0 tr s R. destruct (reach_inv _ _ _ _ R). destruct (Z.eq_dec (starts_since_run tr) 0); lia. Qed.

Lemma join_ret_state : forall n z0 tr s,
  reach n z0 (EvJoinRet :: tr) s ->
  exists s0, reach n z0 tr s0 /\ work_left s0 = false /\ working s0 <= 0 /\ cl s0 = CJoinCheck
     /\ s = set_cl (set_lock s0 None) CIdle.
Proof.
  intros n z0 tr s R. apply reach_last in R. destruct R as (l & s0 & R & H). exists s0. split; auto.
  destruct l as [i| |c|i| |z]; cbn [pool_step] in H.
  - destruct (nth_error (ws s0) i) as [w|]; [|discriminate].
    destruct w; cbn in H; try discriminate;
      try (destruct (lock s0); discriminate); try (destruct (alive s0); discriminate);
      destruct (work_left s0); discriminate.
  - unfold client_step in H. destruct (cl s0) eqn:C; try discriminate;
      try (destruct (lock s0); discriminate).
    + destruct (work_left s0 || (0 <? working s0)) eqn:W; [discriminate|].
      injection H as <-. apply orb_false_elim in W. destruct W as [W1 W2].
      repeat split; auto. apply Z.ltb_ge in W2. lia.
    + destruct (forallb is_exit (ws s0)); discriminate.
  - unfold call_step in H. destruct (cl s0); try discriminate. destruct c; try discriminate.
    destruct (work_left s0); discriminate.
  - destruct (nth_error (ws s0) i) as [[]|]; discriminate.
  - destruct (cl s0); discriminate.
  - discriminate.
Qed.

Lemma join_quiescent : forall n z0 tr s,
  reach n z0 (EvJoinRet :: tr) s ->
  in_progress tr = 0 /\ (forall i w, nth_error (ws s) i = Some w -> ~ in_trial w).
Proof.
  intros n z0 tr s R. destruct (join_ret_state _ _ _ _ R) as (s0 & R0 & _ & W & _ & ->).
  destruct (reach_inv _ _ _ _ R0).
  assert (T : forall i w, nth_error (ws s0) i = Some w -> is_trial w = false).
  { intros i w E. assert (counted w = false).
    { eapply countb_zero; eauto. pose proof (countb_nonneg _ counted (ws s0)). lia. }
    destruct w; auto; discriminate. }
  split.
  - rewrite i_prog0. destruct (Z.eq_dec (countb is_trial (ws s0)) 0) as [|N]; auto.
    pose proof (countb_nonneg _ is_trial (ws s0)).
    assert (0 < countb is_trial (ws s0)) as P by lia. apply countb_pos in P.
    destruct P as (i & w & A & B). rewrite (T _ _ A) in B. discriminate.
  - cbn. intros i w E X. red in X. subst w. specialize (T _ _ E). discriminate.
Qed.

Lemma join_exact : forall n z0 tr s,
  reach n z0 (EvJoinRet :: tr) s -> in_time z0 tr ->
  starts_since_run tr = Z.max 0 (budget tr).
Proof.
  intros n z0 tr s R T. destruct (join_ret_state _ _ _ _ R) as (s0 & R0 & W & _ & _ & _).
  destruct (reach_inv _ _ _ _ R0). red in T.
  apply work_left_false in W. destruct W as [W|W]; [|lia].
  destruct (Z.eq_dec (starts_since_run tr) 0); lia.
Qed.

Lemma bookkeeping : forall n z0 tr s,
  reach n z0 tr s ->
  remaining s = budget tr - starts_since_run tr /\
  in_progress tr = countb is_trial (ws s) /\
  0 <= in_progress tr <= Z.of_nat n /\
  working s = countb counted (ws s).
Proof.
  intros n z0 tr s R. destruct (reach_inv _ _ _ _ R).
  pose proof (countb_nonneg _ is_trial (ws s)). pose proof (countb_le_length _ is_trial (ws s)).
  repeat split; auto; lia.
Qed.

(** ** C02, second half: nothing starts after join until the next run *)
Definition idle_inv (z0 : Z) (tr : list event) (s : pool) : Prop :=
  remaining s <= 0 \/ deadline z0 tr <= clock z0 tr.

Lemma start_step_work : forall s l i s',
  pool_step s l = Some (EvStart i, s') -> work_left s = true.
Proof.
  intros s l i s' H. destruct l as [j| |c|j| |z]; cbn [pool_step] in H.
  - destruct (nth_error (ws s) j) as [w|]; [|discriminate].
    destruct w; cbn in H; try discriminate;
      try (destruct (lock s); discriminate); try (destruct (alive s); discriminate);
      destruct (work_left s); auto; discriminate.
  - unfold client_step in H. destruct (cl s); try discriminate;
      try (destruct (lock s); discriminate).
    + destruct (work_left s || (0 <? working s)); discriminate.
    + destruct (forallb is_exit (ws s)); discriminate.
  - unfold call_step in H. destruct (cl s); try discriminate. destruct c; try discriminate.
    destruct (work_left s); discriminate.
  - destruct (nth_error (ws s) j) as [[]|]; discriminate.
  - destruct (cl s); discriminate.
  - discriminate.
Qed.

Lemma step_event_head : forall s l e s' tr ls tr' s'',
  pool_step s l = Some (e, s') -> pool_exec (e :: tr) s' ls = Some (tr', s'') ->
  exists tr2, tr' = tr2 ++ e :: tr.
Proof.
  intros s l e s' tr ls. revert s l e s' tr.
  induction ls as [|l' ls IH]; intros s l e s' tr tr' s'' H1 H2; cbn in H2.
  - injection H2 as <- <-. exists []. auto.
  - destruct (pool_step s' l') as [[e' t]|] eqn:E; [|discriminate].
    destruct (IH _ _ _ _ _ _ _ E H2) as [t2 ->]. exists (t2 ++ [e']).
    now rewrite <- app_assoc.
Qed.

(** Induction principle on reachable continuations by trace suffix. *)
Lemma reach_suffix : forall n z0 tr2 tr1 s,
  reach n z0 (tr2 ++ tr1) s -> exists s1, reach n z0 tr1 s1.
Proof.
  induction tr2 as [|e t IH]; intros tr1 s R; cbn in R; eauto.
  apply reach_last in R. destruct R as (l & s0 & R & _). eauto.
Qed.

(** [budget]/[deadline] do not change without a run. *)
Lemma no_run_budget : forall z0 tr2 tr1, no_run tr2 ->
  budget (tr2 ++ tr1) = budget tr1 /\ deadline z0 (tr2 ++ tr1) = deadline z0 tr1
  /\ starts_since_run tr1 <= starts_since_run (tr2 ++ tr1).
Proof.
  induction tr2 as [|e t IH]; intros tr1 N; cbn; [repeat split; auto; lia|].
  destruct (IH tr1) as (A & B & C). { intros n' t' z' Q. apply (N n' t' z'). now right. }
  destruct e; auto; try (repeat split; auto; lia).
  exfalso. apply (N n t0 z). now left.
Qed.

Lemma after_join_no_start : forall n z0 tr2 tr1 s,
  reach n z0 (tr2 ++ EvJoinRet :: tr1) s -> no_run tr2 ->
  monotone_clock z0 tr2 (EvJoinRet :: tr1) -> no_start tr2.
Proof.
  intros n z0 tr2 tr1 s R N M.
  destruct (reach_suffix _ _ _ _ _ R) as [s1 R1].
  destruct (join_ret_state _ _ _ _ R1) as (s0 & R0 & W & _ & _ & _).
  apply work_left_false in W. destruct (reach_inv _ _ _ _ R0) as [_ _ _ _ _ Hrem _ _ _ _ Hnow Hdead _ _].
  assert (Base : budget tr1 - starts_since_run tr1 <= 0 \/ deadline z0 tr1 <= clock z0 tr1) by lia.
  clear W Hrem Hnow Hdead R0 s0 R1 s1.
  assert (G : forall t, (exists s', reach n z0 (t ++ EvJoinRet :: tr1) s') -> no_run t ->
     monotone_clock z0 t (EvJoinRet :: tr1) ->
     no_start t /\ (budget tr1 - starts_since_run tr1 <= 0 \/ deadline z0 tr1 <= clock z0 (t ++ EvJoinRet :: tr1))).
  { induction t as [|e t IH]; intros [s' R'] N' M'.
    - split; [intros i []|]. cbn. tauto.
    - cbn in R'. apply reach_last in R'. destruct R' as (l & s0 & R0 & H).
      assert (N'' : no_run t) by (intros a b c Q; apply (N' a b c); now right).
      destruct M' as [M1 M2].
      destruct (IH (ex_intro _ _ R0) N'' M1) as [NS D].
      split.
      + intros i [-> | Q]; [|now apply (NS i)].
        apply start_step_work in H. apply work_left_true in H.
        destruct (reach_inv _ _ _ _ R0).
        destruct (no_run_budget z0 t (EvJoinRet :: tr1) N'') as (A & B & C). cbn in A, B, C. lia.
      + destruct D as [D|D]; [auto|right]. cbn [app]. lia. }
  apply (G tr2); eauto.
Qed.

(** ** C05: after the destructor's critical section no trial starts *)
Lemma dtor_not_alive : forall n z0 tr2 tr1 s,
  reach n z0 (tr2 ++ EvDtor :: tr1) s -> alive s = false /\ no_start tr2 /\ no_run tr2.
Proof.
  assert (Key : forall n z0 tr s l e s', reach n z0 tr s -> alive s = false ->
     (forall w, In w (ws s) -> w <> WCheck1 /\ w <> WCheck2) ->
     pool_step s l = Some (e, s') ->
     alive s' = false /\ (forall w, In w (ws s') -> w <> WCheck1 /\ w <> WCheck2)
     /\ (forall i, e <> EvStart i) /\ (forall a b c, e <> EvRun a b c)).
  { intros n z0 tr s l e s' R A W H. pose proof (reach_inv _ _ _ _ R) as I. destruct I.
    rewrite A in i_alive0. symmetry in i_alive0. apply negb_false_iff in i_alive0.
    assert (U : forall i x w, nth_error (ws s) i = Some w -> x <> WCheck1 /\ x <> WCheck2 ->
       forall v, In v (upd (ws s) i x) -> v <> WCheck1 /\ v <> WCheck2).
    { intros i x w E X v V. apply In_nth_error in V. destruct V as [j V].
      rewrite (nth_upd _ _ _ _ _ _ E) in V. destruct (Nat.eqb i j).
      - injection V as <-. auto.
      - apply W. eapply nth_error_In; eauto. }
    destruct l as [j| |c|j| |z]; cbn [pool_step] in H.
    - destruct (nth_error (ws s) j) as [w|] eqn:E; [|discriminate].
      assert (Q := W w (nth_error_In _ _ E)).
      destruct w; cbn in H; rewrite ?A in H; try discriminate; try (destruct Q; congruence);
        try (destruct (lock s); [discriminate|]); injection H as <- <-; cbn;
        (split; [auto|split; [eapply U; eauto; split; discriminate|split; discriminate]]).
    - unfold client_step in H. destruct (cl s) eqn:C; cbn in i_alive0; try discriminate.
      destruct (forallb is_exit (ws s)); [|discriminate]. injection H as <- <-. cbn.
      repeat split; auto; try discriminate; apply W; auto.
    - unfold call_step in H. destruct (cl s); cbn in i_alive0; discriminate.
    - destruct (nth_error (ws s) j) as [[]|] eqn:E; try discriminate. injection H as <- <-. cbn.
      split; [auto|split; [eapply U; eauto; split; discriminate|split; discriminate]].
    - destruct (cl s); cbn in i_alive0; discriminate.
    - injection H as <- <-. cbn. repeat split; auto; try discriminate; apply W; auto. }
  assert (Dt : forall n z0 tr s, reach n z0 (EvDtor :: tr) s ->
     alive s = false /\ (forall w, In w (ws s) -> w <> WCheck1 /\ w <> WCheck2)).
  { intros n z0 tr s R. apply reach_last in R. destruct R as (l & s0 & R & H).
    destruct l as [j| |c|j| |z]; cbn [pool_step] in H.
    - destruct (nth_error (ws s0) j) as [w|]; [|discriminate].
      destruct w; cbn in H; try discriminate;
        try (destruct (lock s0); discriminate); try (destruct (alive s0); discriminate);
        destruct (work_left s0); discriminate.
    - unfold client_step in H. destruct (cl s0) eqn:C; try discriminate;
        try (destruct (lock s0); discriminate).
      + destruct (work_left s0 || (0 <? working s0)); discriminate.
      + injection H as <-. cbn. split; auto. intros w V.
        apply in_map_iff in V. destruct V as (v & <- & V).
        apply In_nth_error in V. destruct V as [i V].
        destruct (reach_inv _ _ _ _ R). rewrite C in i_chold0. cbn in i_chold0.
        destruct i_chold0 as [P _]. specialize (P eq_refl).
        destruct v; cbn; try (split; discriminate); specialize (i_hold0 _ _ V eq_refl); congruence.
      + destruct (forallb is_exit (ws s0)); discriminate.
    - unfold call_step in H. destruct (cl s0); try discriminate. destruct c; try discriminate.
      destruct (work_left s0); discriminate.
    - destruct (nth_error (ws s0) j) as [[]|]; discriminate.
    - destruct (cl s0); discriminate.
    - discriminate. }
  intros n z0 tr2 tr1.
  assert (G : forall t s, reach n z0 (t ++ EvDtor :: tr1) s ->
     alive s = false /\ (forall w, In w (ws s) -> w <> WCheck1 /\ w <> WCheck2) /\ no_start t /\ no_run t).
  { induction t as [|e t IH]; intros s R.
    - destruct (Dt _ _ _ _ R). repeat split; auto; try apply H0; auto.
      + intros i [].
      + intros a b c [].
    - cbn in R. apply reach_last in R. destruct R as (l & s0 & R & H).
      destruct (IH _ R) as (A & W & NS & NR).
      destruct (Key _ _ _ _ _ _ _ R A W H) as (A' & W' & E1 & E2).
      repeat split; auto; try (apply W'; auto).
      + intros i [Q|Q]; [now apply (E1 i)|now apply (NS i)].
      + intros a b c [Q|Q]; [now apply (E2 a b c)|now apply (NR a b c)]. }
  intros s R. destruct (G _ _ R) as (A & _ & B & C). auto.
Qed.

Lemma dtor_ret_all_exit : forall n z0 tr s,
  reach n z0 (EvDtorRet :: tr) s ->
  (forall i w, nth_error (ws s) i = Some w -> is_exit w = true) /\ in_progress tr = 0.
Proof.
  intros n z0 tr s R. apply reach_last in R. destruct R as (l & s0 & R & H).
  destruct l as [j| |c|j| |z]; cbn [pool_step] in H.
  - destruct (nth_error (ws s0) j) as [w|]; [|discriminate].
    destruct w; cbn in H; try discriminate;
      try (destruct (lock s0); discriminate); try (destruct (alive s0); discriminate);
      destruct (work_left s0); discriminate.
  - unfold client_step in H. destruct (cl s0) eqn:C; try discriminate;
      try (destruct (lock s0); discriminate).
    + destruct (work_left s0 || (0 <? working s0)); discriminate.
    + destruct (forallb is_exit (ws s0)) eqn:F; [|discriminate]. injection H as <-. cbn.
      assert (X : forall i w, nth_error (ws s0) i = Some w -> is_exit w = true).
      { intros i w E. rewrite forallb_forall in F. apply F. eapply nth_error_In; eauto. }
      split; auto. destruct (reach_inv _ _ _ _ R). rewrite i_prog0.
      pose proof (countb_nonneg _ is_trial (ws s0)).
      destruct (Z.eq_dec (countb is_trial (ws s0)) 0) as [|N]; auto.
      assert (0 < countb is_trial (ws s0)) as P by lia. apply countb_pos in P.
      destruct P as (i & w & A & B). specialize (X _ _ A). destruct w; discriminate.
  - unfold call_step in H. destruct (cl s0); try discriminate. destruct c; try discriminate.
    destruct (work_left s0); discriminate.
  - destruct (nth_error (ws s0) j) as [[]|]; discriminate.
  - destruct (cl s0); discriminate.
  - discriminate.
Qed.
