(** Concrete schedules and derived lemmas used by PoolTheorems.v. *)
From Coq Require Import List ZArith Lia Bool.
From Verif Require Import Base BaseProofs PoolModel PoolSpec PoolProofs PoolLive.
Import ListNotations.
Open Scope Z_scope.

Lemma join_exact_full : forall n z0 tr s,
  reach n z0 (EvJoinRet :: tr) s -> in_time z0 tr ->
  starts_since_run tr = Z.max 0 (budget tr) /\ total_starts tr = total_ends tr.
Proof.
  intros n z0 tr s R T. split; [eapply join_exact; eauto|].
  destruct (join_quiescent _ _ _ _ R) as [P _]. unfold in_progress in P. lia.
Qed.

Lemma call_returns : forall n z0 tr s,
  (0 < n)%nat -> reach n z0 tr s ->
  exists b, forall ls tr' s', extends tr s ls tr' s' ->
    (forall l, In l ls -> call_label l = false) -> never_timed_out z0 tr' ->
    Z.of_nat (count_labels program_label ls) <= b + 3 * Z.of_nat (count_labels spurious_label ls) /\
    (~ can_step s' -> ~ client_busy s').
Proof.
  intros n z0 tr s Hn R. destruct (steps_bounded_from _ _ _ _ R) as [b B]. exists b.
  intros ls tr' s' X NC T. split; [eauto|]. intros S Q. apply S.
  eapply progress_in_time; eauto. eapply reach_extends; eauto.
Qed.

Lemma exec_suffix : forall ls tr s tr' s',
  pool_exec tr s ls = Some (tr', s') -> exists t, tr' = t ++ tr.
Proof.
  induction ls as [|l ls IH]; intros tr s tr' s' E; cbn in E.
  - injection E as <- <-. exists []. auto.
  - destruct (pool_step s l) as [[e s1]|] eqn:ST; [|discriminate].
    destruct (IH _ _ _ _ E) as [t ->]. exists (t ++ [e]). now rewrite <- app_assoc.
Qed.

Lemma dtor_no_start : forall n z0 tr2 tr1 s,
  reach n z0 (tr2 ++ EvDtor :: tr1) s -> no_start tr2.
Proof. intros n z0 tr2 tr1 s R. eapply dtor_not_alive; eauto. Qed.

Lemma dtor_no_calls : forall n z0 ls tr s tr' s',
  reach n z0 tr s -> In EvDtor tr -> pool_exec tr s ls = Some (tr', s') ->
  forall l, In l ls -> call_label l = false.
Proof.
  induction ls as [|l0 ls IH]; intros tr s tr' s' R D E l Q; [destruct Q|].
  cbn in E. destruct (pool_step s l0) as [[e s1]|] eqn:ST; [|discriminate].
  destruct Q as [<-|Q].
  - destruct l0; auto. exfalso. cbn in ST. unfold call_step in ST.
    apply in_split in D. destruct D as (t2 & t1 & ->).
    destruct (dtor_not_alive _ _ _ _ _ R) as (A & _ & _).
    destruct (reach_inv _ _ _ _ R). rewrite A in i_alive. destruct (cl s); cbn in i_alive; discriminate.
  - eapply (IH (e :: tr) s1); eauto.
    + eapply (reach_extends _ _ _ _ [l0]); eauto. red. cbn. now rewrite ST.
    + now right.
Qed.

Lemma dtor_returns : forall n z0 tr s,
  reach n z0 tr s -> In EvDtor tr ->
  exists b, forall ls tr' s', extends tr s ls tr' s' ->
    Z.of_nat (count_labels program_label ls) <= b + 3 * Z.of_nat (count_labels spurious_label ls) /\
    (~ can_step s' -> ~ client_busy s').
Proof.
  intros n z0 tr s R D. destruct (steps_bounded_from _ _ _ _ R) as [b B]. exists b.
  intros ls tr' s' X. split.
  - eapply B; eauto. eapply dtor_no_calls; eauto.
  - intros S Q. apply S. apply (in_dtor_progress n z0 tr' s'); auto.
    + eapply reach_extends; eauto.
    + destruct (exec_suffix _ _ _ _ _ X) as [t ->]. apply in_or_app. auto.
Qed.

Lemma setenv_throws_iff : forall n z0 e tr s,
  reach n z0 (e :: tr) s -> e = EvSetEnvOk \/ e = EvSetEnvThrow ->
  (e = EvSetEnvThrow <-> starts_since_run tr < budget tr /\ in_time z0 tr).
Proof.
  intros n z0 e tr s R Q. apply reach_last in R. destruct R as (l & s0 & R & H).
  destruct (reach_inv _ _ _ _ R). unfold in_time.
  assert (X : e = if work_left s0 then EvSetEnvThrow else EvSetEnvOk).
  { destruct l as [j| |c|j| |z]; cbn [pool_step] in H.
    - destruct (nth_error (ws s0) j) as [w|]; [|discriminate].
      destruct w; cbn in H; try discriminate;
        try (destruct (lock s0); [discriminate|]); try (destruct (alive s0));
        try (destruct (work_left s0)); injection H as <- <-; destruct Q; discriminate.
    - unfold client_step in H. destruct (cl s0); try discriminate;
        try (destruct (lock s0); [discriminate|]); try (destruct (work_left s0 || (0 <? working s0)));
        try (destruct (forallb is_exit (ws s0)); [|discriminate]);
        injection H as <- <-; destruct Q; discriminate.
    - unfold call_step in H. destruct (cl s0); try discriminate.
      destruct c; injection H as <- <-; auto; destruct Q; discriminate.
    - destruct (nth_error (ws s0) j) as [[]|]; try discriminate. injection H as <- <-. destruct Q; discriminate.
    - destruct (cl s0); try discriminate. injection H as <- <-. destruct Q; discriminate.
    - injection H as <- <-. destruct Q; discriminate. }
  unfold work_left in X.
  destruct (Z.leb_spec (remaining s0) 0); [|destruct (Z.leb_spec (maxt s0) (now s0 - start s0))];
    subst e; split; try discriminate; try lia; auto.
Qed.

Lemma in_progress_no_start : forall t tr, no_start t -> in_progress (t ++ tr) <= in_progress tr.
Proof.
  unfold in_progress. induction t as [|e t IH]; intros tr N; cbn [app]; [lia|].
  assert (N' : no_start t) by (intros i Q; apply (N i); now right).
  specialize (IH tr N'). destruct e; cbn [total_starts total_ends]; try lia.
  exfalso. apply (N i). now left.
Qed.

Lemma setenv_after_join : forall n z0 tr2 tr1 s,
  reach n z0 (EvSetEnvOk :: tr2 ++ EvJoinRet :: tr1) s -> no_run tr2 ->
  monotone_clock z0 tr2 (EvJoinRet :: tr1) ->
  in_progress (tr2 ++ EvJoinRet :: tr1) = 0.
Proof.
  intros n z0 tr2 tr1 s R N M. apply reach_last in R. destruct R as (l & s0 & R & _).
  pose proof (after_join_no_start _ _ _ _ _ R N M) as NS.
  pose proof (in_progress_no_start tr2 (EvJoinRet :: tr1) NS) as P.
  destruct (reach_suffix _ _ _ _ _ R) as [s1 R1].
  destruct (join_quiescent _ _ _ _ R1) as [Q _].
  change (in_progress (EvJoinRet :: tr1)) with (in_progress tr1) in P.
  destruct (bookkeeping _ _ _ _ R) as (_ & _ & B & _). lia.
Qed.

Lemma countb_filter : forall A (f : A -> bool) l, countb f l = Z.of_nat (length (filter f l)).
Proof. induction l as [|h t IH]; cbn; auto. rewrite IH. destruct (f h); cbn [length]; lia. Qed.

Lemma bookkeeping_full : forall n z0 tr s,
  reach n z0 tr s ->
  remaining s + starts_since_run tr = budget tr /\
  in_progress tr = Z.of_nat (length (filter (fun w => match w with WTrial => true | _ => false end) (ws s))) /\
  0 <= in_progress tr <= Z.of_nat n /\
  (alive s = true -> working s = Z.of_nat (length (filter
     (fun w => match w with WStart | WLoop | WTrial | WRelock => true | _ => false end) (ws s)))).
Proof.
  intros n z0 tr s R. destruct (bookkeeping _ _ _ _ R) as (A & B & C & D).
  destruct (reach_inv _ _ _ _ R).
  split; [lia|]. split; [|split; [auto|]].
  - rewrite B, countb_filter. reflexivity.
  - intros Al. rewrite D, countb_filter. f_equal. f_equal. apply filter_ext_in.
    intros w Hw. apply In_nth_error in Hw. destruct Hw as [i E].
    specialize (i_exit Al _ _ E). destruct w; auto; discriminate.
Qed.

(** ** Schedules *)
Definition rep (k : nat) (l : label) : list label := repeat l k.

(** Both workers settle in wait: worker 0, then worker 1 (whose check wakes worker 0 again). *)
Definition settle2 : list label :=
  rep 4 (LWorker 0) ++ rep 4 (LWorker 1) ++ rep 3 (LWorker 0).

(** run_trials(3, 100, blocking) up to the point where both workers are in a trial and the client
    waits in join. *)
Definition run3_start : list label :=
  settle2 ++ [LCall (CallRun 3 100 true)] ++ rep 3 LClient ++ rep 2 LClient ++
  rep 3 (LWorker 0) ++ rep 3 (LWorker 1).

Definition run3 : list label :=
  run3_start ++ [LTick 7] ++
  (* worker 0 finishes, takes the third trial, finishes *)
  rep 5 (LWorker 0) ++ rep 1 (LWorker 0) ++ rep 4 (LWorker 0) ++
  (* worker 1 finishes *)
  rep 5 (LWorker 1) ++ rep 2 LClient.

Lemma reach_by : forall n z0 ls tr s,
  pool_exec [] (pool_init n z0) ls = Some (tr, s) -> reach n z0 tr s.
Proof. intros. exists ls; auto. Qed.

Ltac by_schedule ls :=
  eexists; eexists; split; [apply (reach_by _ _ ls); vm_compute; reflexivity|].

Lemma w_run3 : exists tr s,
  reach 2 0 (EvJoinRet :: tr) s /\ in_time 0 tr /\ budget tr = 3 /\ total_ends tr = 3.
Proof. by_schedule run3. repeat split; vm_compute; auto. Qed.

Lemma w_busy : exists tr s,
  reach 2 0 tr s /\ never_timed_out 0 tr /\ client_busy s /\ budget tr = 3 /\ in_progress tr = 2.
Proof. by_schedule run3_start. cbn. repeat split; vm_compute; auto. Qed.

Lemma w_bookkeeping : exists tr s, reach 2 0 tr s /\ in_progress tr = 2 /\ remaining s = 1.
Proof. by_schedule run3_start. split; vm_compute; auto. Qed.

Lemma w_after_join : exists tr2 tr1 s,
  reach 2 0 (tr2 ++ EvJoinRet :: tr1) s /\ no_run tr2 /\ monotone_clock 0 tr2 (EvJoinRet :: tr1) /\
  tr2 <> [] /\ total_ends tr1 = 3.
Proof.
  destruct (pool_exec [] (pool_init 2 0) run3) as [[tr s]|] eqn:E; [|discriminate].
  pose proof E as E'. vm_compute in E'. injection E' as <- <-.
  eexists [EvTick 50; EvTick 30], _, _. split.
  - apply (reach_by _ _ (run3 ++ [LTick 30; LTick 50])). rewrite pool_exec_app, E. reflexivity.
  - repeat split.
    + intros a b c [Q|[Q|[]]]; discriminate.
    + cbn; lia.
    + cbn; lia.
    + discriminate.
Qed.

(** One worker; run_trials(2, 5, blocking); the first trial finishes after the deadline. *)
Definition back_sched : list label :=
  rep 4 (LWorker 0) ++ [LCall (CallRun 2 5 true)] ++ rep 5 LClient ++ rep 3 (LWorker 0) ++
  [LTick 10] ++ rep 5 (LWorker 0) ++ rep 2 LClient.

Lemma w_clock_back : exists n z0 tr2 tr1 s,
  reach n z0 (tr2 ++ EvJoinRet :: tr1) s /\ no_run tr2 /\ ~ no_start tr2.
Proof.
  exists 1%nat, 0.
  destruct (pool_exec [] (pool_init 1 0) back_sched) as [[tr s]|] eqn:E; [|discriminate].
  pose proof E as E'. vm_compute in E'. injection E' as <- <-.
  eexists [EvStart 0%nat; EvNone; EvNone; EvNone; EvTick 1], _, _. split; [|split].
  - apply (reach_by _ _ (back_sched ++ [LTick 1; LSpurW 0] ++ rep 3 (LWorker 0))).
    rewrite pool_exec_app, E. reflexivity.
  - intros a b c Q. cbn in Q. intuition discriminate.
  - intros Q. apply (Q 0%nat). now left.
Qed.

Lemma w_zero_threads : exists tr s,
  reach 0 0 tr s /\ never_timed_out 0 tr /\ client_busy s /\ ~ can_step s.
Proof.
  by_schedule ([LCall (CallRun 1 100 true)] ++ rep 5 LClient).
  repeat split.
  intros (l & P & N). destruct l as [i| |c|i| |z]; try discriminate.
  - destruct i; cbn in N; congruence.
  - cbn in N; congruence.
Qed.

(** One worker waits; run_trials(1, 5, blocking); the worker is notified but the clock passes the
    deadline before it re-acquires the mutex. *)
Definition hang_sched : list label :=
  rep 4 (LWorker 0) ++ [LCall (CallRun 1 5 true)] ++ rep 5 LClient ++ [LTick 5] ++ rep 3 (LWorker 0).

Lemma hung_stuck : forall s, hung s -> client_busy s /\ ~ can_step s.
Proof.
  intros s H. split; [destruct H as [C _]; unfold client_busy; rewrite C; exact I|].
  intros (l & P & N). destruct (pool_step s l) as [[e s']|] eqn:E; [|congruence].
  destruct (hung_step _ _ _ _ H E) as [_ [z ->]].
  - destruct l; auto; discriminate.
  - destruct l as [j| |c|j| |z']; try discriminate; cbn [pool_step] in E.
    + destruct (nth_error (ws s) j) as [w|] eqn:En; [|discriminate].
      destruct H as (_ & _ & W). rewrite (W _ _ En) in E. discriminate.
    + destruct H as (C & _). unfold client_step in E. rewrite C in E. discriminate.
Qed.

Ltac hung_tac :=
  match goal with
  | |- forall ls tr' s', extends _ ?s ls tr' s' -> _ -> _ =>
      let H := fresh in
      assert (H : hung s) by
        (split; [reflexivity|split; [reflexivity|]]; intros [|[|i]] w E; cbn in E; try discriminate;
         injection E as <-; reflexivity);
      intros ls tr' s' X NS; apply hung_stuck; eapply hung_forever; eauto
  end.

Lemma w_timeout_hang : exists tr s,
  reach 1 0 tr s /\ deadline 0 tr <= clock 0 tr /\ in_progress tr = 0 /\ client_busy s /\
  forall ls tr' s', extends tr s ls tr' s' -> (forall l, In l ls -> spurious_label l = false) ->
    client_busy s' /\ ~ can_step s'.
Proof.
  by_schedule hang_sched. split; [cbn; lia|]. split; [reflexivity|]. split; [exact I|].
  hung_tac.
Qed.

(** One worker; run_trials(2, 5, blocking); after the first trial the worker reads the clock in time
    at line 307 and too late at line 310. *)
Definition hang_sched2 : list label :=
  rep 4 (LWorker 0) ++ [LCall (CallRun 2 5 true)] ++ rep 5 LClient ++ rep 3 (LWorker 0) ++
  [LTick 4] ++ rep 4 (LWorker 0) ++ [LTick 5] ++ rep 1 (LWorker 0).

Lemma w_timeout_hang2 : exists tr s,
  reach 1 0 tr s /\ deadline 0 tr <= clock 0 tr /\ total_ends tr = 1 /\ in_progress tr = 0 /\ client_busy s /\
  forall ls tr' s', extends tr s ls tr' s' -> (forall l, In l ls -> spurious_label l = false) ->
    client_busy s' /\ ~ can_step s'.
Proof.
  by_schedule hang_sched2. split; [cbn; lia|]. split; [reflexivity|]. split; [reflexivity|]. split; [exact I|].
  hung_tac.
Qed.

Lemma w_late : exists tr s,
  reach 1 0 tr s /\ deadline 0 tr <= clock 0 tr /\ 0 < in_progress tr /\ cl s = CJoinWait.
Proof.
  by_schedule (rep 4 (LWorker 0) ++ [LCall (CallRun 2 5 true)] ++ rep 5 LClient ++ rep 3 (LWorker 0) ++ [LTick 6]).
  repeat split; cbn; lia.
Qed.

Lemma w_dtor : exists tr s,
  reach 2 0 (EvDtorRet :: tr) s /\ budget tr = 5 /\ total_ends tr = 1.
Proof.
  by_schedule (settle2 ++ [LCall (CallRun 5 100 false)] ++ rep 3 LClient ++ rep 3 (LWorker 0) ++
    [LCall CallDtor] ++ rep 2 LClient ++ rep 3 (LWorker 0) ++ rep 2 (LWorker 1) ++ rep 1 LClient).
  split; vm_compute; auto.
Qed.

Lemma w_setenv : exists tr s, reach 1 0 (EvSetEnvOk :: tr) s /\ in_progress tr = 1.
Proof.
  by_schedule (rep 4 (LWorker 0) ++ [LCall (CallRun 1 100 false)] ++ rep 3 LClient ++ rep 3 (LWorker 0) ++
    [LCall CallSetEnv]).
  vm_compute; auto.
Qed.

Lemma w_setenv_throw : exists tr s, reach 1 0 (EvSetEnvThrow :: tr) s.
Proof.
  eexists; eexists. apply (reach_by _ _ (rep 4 (LWorker 0) ++ [LCall (CallRun 1 100 false)] ++ rep 3 LClient ++
    [LCall CallSetEnv])). vm_compute. reflexivity.
Qed.

Lemma w_setenv_ok : exists tr2 tr1 s,
  reach 1 0 (EvSetEnvOk :: tr2 ++ EvJoinRet :: tr1) s /\ no_run tr2 /\
  monotone_clock 0 tr2 (EvJoinRet :: tr1) /\ total_starts tr1 = 2.
Proof.
  set (sch := rep 4 (LWorker 0) ++ [LCall (CallRun 2 100 true)] ++ rep 5 LClient ++ rep 3 (LWorker 0) ++
    rep 5 (LWorker 0) ++ rep 5 (LWorker 0) ++ rep 2 LClient).
  destruct (pool_exec [] (pool_init 1 0) sch) as [[tr s]|] eqn:E; [|discriminate].
  pose proof E as E'. vm_compute in E'. injection E' as <- <-.
  eexists [EvTick 5], _, _. split; [|split; [|split]].
  - apply (reach_by _ _ (sch ++ [LTick 5; LCall CallSetEnv])). rewrite pool_exec_app, E. reflexivity.
  - intros a b c [Q|[]]; discriminate.
  - cbn; lia.
  - reflexivity.
Qed.
