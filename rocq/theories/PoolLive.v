(** Termination and progress of the thread pool. *)
From Coq Require Import List ZArith Lia Bool.
From Verif Require Import Base BaseProofs PoolModel PoolSpec PoolProofs.
Import ListNotations.
Open Scope Z_scope.

(** ** A potential that every program step decreases *)
Section Measure.
Variable n : Z.
Definition bb : Z := 3 * n + 2.
Definition kk : Z := bb + 5.
Definition wcost (w : wpc) : Z :=
  match w with
  | WStart => bb + 4 | WLoop => bb + 3 | WCheck1 => bb + 2 | WCheck2 => 1
  | WWait => 0 | WWoken => 3 | WAfterWait => 2 | WTrial => bb + 5 | WRelock => bb + 4
  | WExit _ => 0
  end.
Definition ccost (c : cpc) : Z :=
  match c with
  | CIdle => 0
  | CRunAcq k _ _ => bb + 3 + kk * Z.max 0 k
  | CRunSet k _ _ => bb + 2 + kk * Z.max 0 k
  | CNotify _ => bb + 1
  | CJoinAcq => 2 | CJoinCheck => 1 | CJoinWait => 0 | CJoinWoken => 2
  | CDtorAcq => bb + 3 | CDtorSet => bb + 2 | CDtorJoin => 1 | CDead => 0
  end.
Definition potential (s : pool) : Z :=
  kk * Z.max 0 (remaining s) + sumZ wcost (ws s) + ccost (cl s).
End Measure.

Lemma wake_cost : forall n l, sumZ (wcost n) (map wake_w l) <= sumZ (wcost n) l + 3 * Z.of_nat (length l).
Proof.
  induction l as [|h t IH]; cbn [map sumZ length]; [lia|].
  assert (wcost n (wake_w h) <= wcost n h + 3) by (destruct h; cbn; lia). lia.
Qed.

Lemma wakec_cost : forall n c, ccost n (wake_c c) <= ccost n c + 2.
Proof. destruct c; cbn; lia. Qed.

Lemma potential_nonneg : forall n s, 0 <= n -> 0 <= potential n s.
Proof.
  intros n s Hn. unfold potential.
  assert (0 <= sumZ (wcost n) (ws s)).
  { apply sumZ_nonneg. intros []; unfold wcost, bb; lia. }
  assert (0 <= ccost n (cl s)).
  { destruct (cl s); unfold ccost, kk, bb; try lia; nia. }
  assert (0 <= kk n * Z.max 0 (remaining s)) by (unfold kk, bb; nia). lia.
Qed.

Lemma worker_potential : forall n s i w e s',
  Z.of_nat (length (ws s)) = n ->
  nth_error (ws s) i = Some w -> worker_step s i w = Some (e, s') ->
  potential n s' + 1 <= potential n s.
Proof.
  intros n s i w e s' Hn E H. unfold potential.
  assert (U : forall x, sumZ (wcost n) (upd (ws s) i x) = sumZ (wcost n) (ws s) - wcost n w + wcost n x).
  { intros x. now apply sumZ_upd. }
  assert (Hb : 0 <= bb n) by (unfold bb; lia).
  destruct w; cbn in H; try discriminate.
  - destruct (lock s); [discriminate|]. injection H as <- <-. cbn. rewrite U. cbn. lia.
  - destruct (alive s); injection H as <- <-; cbn; rewrite U; cbn; lia.
  - destruct (work_left s); injection H as <- <-; cbn.
    + rewrite U; cbn. lia.
    + rewrite (sumZ_upd _ _ _ _ WCheck1) by (rewrite nth_error_map', E; reflexivity).
      pose proof (wake_cost n (ws s)). pose proof (wakec_cost n (cl s)). cbn. unfold bb in *. lia.
  - destruct (work_left s) eqn:W; injection H as <- <-; cbn; rewrite U; cbn; [|lia].
    apply work_left_true in W. destruct W as [W _]. unfold kk. nia.
  - destruct (lock s); [discriminate|]. injection H as <- <-. cbn. rewrite U. cbn. lia.
  - destruct (alive s); injection H as <- <-; cbn; rewrite U; cbn; lia.
  - injection H as <- <-. cbn. rewrite U. cbn. lia.
  - destruct (lock s); [discriminate|]. injection H as <- <-. cbn. rewrite U. cbn. lia.
Qed.

Lemma client_potential : forall n s e s',
  Z.of_nat (length (ws s)) = n -> client_step s = Some (e, s') ->
  potential n s' + 1 <= potential n s.
Proof.
  intros n s e s' Hn H. unfold potential, client_step in *.
  assert (Hb : 0 <= bb n) by (unfold bb; lia).
  pose proof (wake_cost n (ws s)) as WC.
  destruct (cl s) eqn:C; try discriminate;
    try (destruct (lock s); [discriminate|injection H as <- <-; cbn; lia]).
  - injection H as <- <-. cbn. unfold kk in *. nia.
  - injection H as <- <-. cbn. unfold bb in *. destruct blocking; cbn; lia.
  - destruct (work_left s || (0 <? working s)); injection H as <- <-; cbn; lia.
  - injection H as <- <-. cbn. unfold bb in *. lia.
  - destruct (forallb is_exit (ws s)); [|discriminate]. injection H as <- <-. cbn. lia.
Qed.

Lemma step_length : forall s l e s', pool_step s l = Some (e, s') -> length (ws s') = length (ws s).
Proof.
  intros s l e s' H. destruct l as [j| |c|j| |z]; cbn [pool_step] in H.
  - destruct (nth_error (ws s) j) as [w|]; [|discriminate].
    destruct w; cbn in H; try discriminate;
      try (destruct (lock s); [discriminate|]); try (destruct (alive s)); try (destruct (work_left s));
      injection H as <- <-; cbn; rewrite ?upd_length, ?map_length; auto.
  - unfold client_step in H. destruct (cl s); try discriminate;
      try (destruct (lock s); [discriminate|]); try (destruct (work_left s || (0 <? working s)));
      try (destruct (forallb is_exit (ws s)); [|discriminate]);
      injection H as <- <-; cbn; rewrite ?map_length; auto.
  - unfold call_step in H. destruct (cl s); try discriminate. destruct c; injection H as <- <-; auto.
  - destruct (nth_error (ws s) j) as [[]|]; try discriminate. injection H as <- <-. cbn. apply upd_length.
  - destruct (cl s); try discriminate. injection H as <- <-. auto.
  - injection H as <- <-. auto.
Qed.

Lemma step_potential : forall n s l e s',
  Z.of_nat (length (ws s)) = n -> pool_step s l = Some (e, s') ->
  potential n s' + b2z (program_label l) <= potential n s + 3 * b2z (spurious_label l) + call_cost n l.
Proof.
  intros n s l e s' Hn H. destruct l as [j| |c|j| |z]; cbn [pool_step] in H; cbn [program_label spurious_label b2z call_cost].
  - destruct (nth_error (ws s) j) eqn:E; [|discriminate].
    pose proof (worker_potential n _ _ _ _ _ Hn E H). lia.
  - pose proof (client_potential n _ _ _ Hn H). lia.
  - unfold call_step in H. unfold potential. destruct (cl s) eqn:C; try discriminate.
    destruct c; injection H as <- <-; cbn; rewrite ?C; cbn; unfold kk, bb; try lia; nia.
  - destruct (nth_error (ws s) j) as [w|] eqn:E; try discriminate. destruct w; try discriminate.
    injection H as <- <-. unfold potential. cbn.
    rewrite (sumZ_upd _ _ _ _ _ _ E). cbn. lia.
  - destruct (cl s) eqn:C; try discriminate. injection H as <- <-. unfold potential. cbn. rewrite C. cbn. lia.
  - injection H as <- <-. unfold potential. cbn. lia.
Qed.

Fixpoint sum_costs (n : Z) (ls : list label) : Z :=
  match ls with [] => 0 | l :: t => call_cost n l + sum_costs n t end.

Lemma exec_potential : forall n ls tr s tr' s',
  Z.of_nat (length (ws s)) = n -> pool_exec tr s ls = Some (tr', s') ->
  potential n s' + Z.of_nat (count_labels program_label ls)
  <= potential n s + 3 * Z.of_nat (count_labels spurious_label ls) + sumZ (call_cost n) ls.
Proof.
  unfold count_labels.
  induction ls as [|l ls IH]; intros tr s tr' s' Hn H; cbn [pool_exec] in H.
  - injection H as <- <-. cbn. lia.
  - destruct (pool_step s l) as [[e t]|] eqn:E; [|discriminate].
    pose proof (step_potential _ _ _ _ _ Hn E) as P.
    rewrite <- (step_length _ _ _ _ E) in Hn. specialize (IH _ _ _ _ Hn H).
    cbn [filter sumZ]. destruct (program_label l), (spurious_label l); cbn [length b2z] in *; lia.
Qed.

Lemma steps_bounded : forall n z0 ls tr s,
  pool_exec [] (pool_init n z0) ls = Some (tr, s) ->
  let m := Z.of_nat n in
  Z.of_nat (count_labels program_label ls)
  <= m * (3 * m + 6) + 3 * Z.of_nat (count_labels spurious_label ls) + sumZ (call_cost m) ls.
Proof.
  intros n z0 ls tr s H m.
  assert (L : Z.of_nat (length (ws (pool_init n z0))) = m) by (cbn; rewrite repeat_length; reflexivity).
  pose proof (exec_potential m ls _ _ _ _ L H) as P.
  assert (N : 0 <= potential m s) by (apply potential_nonneg; unfold m; lia).
  assert (I : potential m (pool_init n z0) = m * (3 * m + 6)).
  { unfold potential. cbn. assert (forall k, sumZ (wcost m) (repeat WStart k) = Z.of_nat k * (bb m + 4)).
    { induction k as [|k IH]; cbn [repeat sumZ]; [lia|]. rewrite IH. cbn [wcost]. lia. }
    rewrite H0. unfold bb, m. lia. }
  lia.
Qed.

(** From any reachable state, program steps before the next API call are bounded. *)
Lemma steps_bounded_from : forall n z0 tr s, reach n z0 tr s ->
  exists b, forall ls tr' s', extends tr s ls tr' s' ->
    (forall l, In l ls -> call_label l = false) ->
    Z.of_nat (count_labels program_label ls) <= b + 3 * Z.of_nat (count_labels spurious_label ls).
Proof.
  intros n z0 tr s R. exists (potential (Z.of_nat n) s). intros ls tr' s' X NC.
  assert (L : Z.of_nat (length (ws s)) = Z.of_nat n) by (f_equal; apply (reach_inv _ _ _ _ R)).
  pose proof (exec_potential _ ls _ _ _ _ L X) as P.
  assert (N : 0 <= potential (Z.of_nat n) s') by (apply potential_nonneg; lia).
  assert (Z0 : sumZ (call_cost (Z.of_nat n)) ls = 0).
  { clear - NC. induction ls as [|l ls IH]; cbn [sumZ]; auto. rewrite IH.
    - specialize (NC l (or_introl eq_refl)). destruct l; try discriminate; reflexivity.
    - intros l' Q. apply NC. now right. }
  lia.
Qed.

(** ** Progress *)
(** A worker that will pass the notifying check (line 307). *)
Definition active (w : wpc) : bool :=
  match w with WStart | WLoop | WTrial | WRelock | WCheck1 => true | _ => false end.
(** A worker that is not blocked and has not returned. *)
Definition awake (w : wpc) : bool :=
  match w with WWait | WExit _ => false | _ => true end.

Definition some_w (f : wpc -> bool) (s : pool) : Prop := exists i w, nth_error (ws s) i = Some w /\ f w = true.

(** Stuck states. *)
Lemma stuck_shape : forall n z0 tr s,
  reach n z0 tr s -> ~ can_step s ->
  (forall i w, nth_error (ws s) i = Some w -> awake w = false) /\ lock s = None /\
  (cl s = CIdle \/ cl s = CJoinWait \/ cl s = CDead \/
   (cl s = CDtorJoin /\ forallb is_exit (ws s) = false)).
Proof.
  intros n z0 tr s R S. pose proof (reach_inv _ _ _ _ R) as I. destruct I.
  assert (SW : forall i w, nth_error (ws s) i = Some w -> worker_step s i w = None).
  { intros i w E. destruct (worker_step s i w) eqn:Q; auto. exfalso. apply S.
    exists (LWorker i). split; auto. cbn. rewrite E, Q. discriminate. }
  assert (SC : client_step s = None).
  { destruct (client_step s) eqn:Q; auto. exfalso. apply S. exists LClient. split; auto. cbn. rewrite Q. discriminate. }
  assert (L : lock s = None).
  { destruct (lock s) as [[i|]|] eqn:Q; auto.
    - destruct (i_hold' _ eq_refl) as (w & E & Hw). specialize (SW _ _ E).
      destruct w; cbn in Hw, SW; try discriminate;
        try (destruct (alive s); discriminate); destruct (work_left s); discriminate.
    - destruct i_chold as [_ P]. specialize (P eq_refl). unfold client_step in SC.
      destruct (cl s); cbn in P; try discriminate.
      destruct (work_left s || (0 <? working s)); discriminate. }
  split; [|split; auto].
  - intros i w E. pose proof (SW _ _ E) as W.
    destruct w; cbn in W; rewrite ?L in W; try discriminate; auto;
      try (destruct (alive s); discriminate); destruct (work_left s); discriminate.
  - unfold client_step in SC. rewrite L in SC. destruct (cl s) eqn:C; try discriminate; auto.
    + destruct (work_left s || (0 <? working s)); discriminate.
    + destruct (forallb is_exit (ws s)); [discriminate|auto 6].
Qed.

(** After the destructor's notification no worker waits. *)
Lemma dead_no_wait : forall n z0 tr s,
  reach n z0 tr s -> alive s = false -> forall i w, nth_error (ws s) i = Some w ->
  w <> WWait /\ w <> WCheck1 /\ w <> WCheck2.
Proof.
  intros n z0 tr s [ls H]. revert tr s H.
  induction ls as [|l ls IH] using rev_ind; intros tr s H.
  - injection H as <- <-. discriminate.
  - rewrite pool_exec_app in H.
    destruct (pool_exec [] (pool_init n z0) ls) as [[t0 s0]|] eqn:E0; [|discriminate].
    specialize (IH _ _ eq_refl).
    assert (R0 : reach n z0 t0 s0) by (exists ls; auto).
    cbn in H. destruct (pool_step s0 l) as [[e s1]|] eqn:ST; [|discriminate].
    injection H as <- <-. intros A i w Nth.
    pose proof (reach_inv _ _ _ _ R0) as I. destruct I.
    destruct (alive s0) eqn:A0.
    + (* the destructor step *)
      destruct l as [j| |c|j| |z]; cbn [pool_step] in ST.
      * destruct (nth_error (ws s0) j) as [v|]; [|discriminate].
        destruct v; cbn in ST; rewrite ?A0 in ST; try discriminate;
          try (destruct (lock s0); [discriminate|]); try (destruct (work_left s0));
          injection ST as <- <-; cbn in A; congruence.
      * unfold client_step in ST. destruct (cl s0) eqn:C; try discriminate;
          try (destruct (lock s0); [discriminate|]);
          try match type of ST with (if ?b then _ else _) = _ => destruct b; try discriminate end;
          injection ST as <- <-; cbn in A; try congruence.
        cbn in Nth. rewrite nth_error_map' in Nth.
        destruct (nth_error (ws s0) i) as [v|] eqn:Ev; [|discriminate]. injection Nth as <-.
        assert (Lk : lock s0 = Some TClient) by now apply i_chold.
        destruct v; cbn; try (repeat split; discriminate); specialize (i_hold _ _ Ev eq_refl); congruence.
      * unfold call_step in ST. destruct (cl s0); try discriminate. destruct c; injection ST as <- <-; cbn in A; congruence.
      * destruct (nth_error (ws s0) j) as [[]|]; try discriminate. injection ST as <- <-; cbn in A; congruence.
      * destruct (cl s0); try discriminate. injection ST as <- <-; cbn in A; congruence.
      * injection ST as <- <-; cbn in A; congruence.
    + specialize (IH eq_refl). symmetry in i_alive. apply negb_false_iff in i_alive.
      assert (U : forall j v x, nth_error (ws s0) j = Some v -> x <> WWait /\ x <> WCheck1 /\ x <> WCheck2 ->
         nth_error (upd (ws s0) j x) i = Some w -> w <> WWait /\ w <> WCheck1 /\ w <> WCheck2).
      { intros j v x Ev X. rewrite (nth_upd _ _ _ _ _ _ Ev). destruct (Nat.eqb j i); eauto.
        now intros [= <-]. }
      destruct l as [j| |c|j| |z]; cbn [pool_step] in ST.
      * destruct (nth_error (ws s0) j) as [v|] eqn:Ev; [|discriminate].
        destruct v; cbn in ST; rewrite ?A0 in ST; try discriminate;
          try (destruct (lock s0); [discriminate|]);
          try (destruct (IH _ _ Ev) as (? & ? & ?); congruence);
          injection ST as <- <-; cbn in Nth; refine (U _ _ _ Ev _ Nth); repeat split; discriminate.
      * unfold client_step in ST. destruct (cl s0) eqn:C; cbn in i_alive; try discriminate.
        destruct (forallb is_exit (ws s0)); [|discriminate]. injection ST as <- <-; cbn in Nth; eauto.
      * unfold call_step in ST. destruct (cl s0); cbn in i_alive; discriminate.
      * destruct (nth_error (ws s0) j) as [[]|] eqn:Ev; try discriminate. injection ST as <- <-; cbn in Nth.
        refine (U _ _ _ Ev _ Nth); repeat split; discriminate.
      * destruct (cl s0); cbn in i_alive; discriminate.
      * injection ST as <- <-; cbn in Nth; eauto.
Qed.

Lemma in_dtor_progress : forall n z0 tr s,
  reach n z0 tr s -> In EvDtor tr -> client_busy s -> can_step s.
Proof.
  intros n z0 tr s R D B.
  assert (A : alive s = false).
  { apply in_split in D. destruct D as (t2 & t1 & ->). eapply dtor_not_alive; eauto. }
  assert (Dec : can_step s \/ ~ can_step s).
  { destruct (client_step s) as [x|] eqn:Q.
    - left. exists LClient. split; auto. cbn. rewrite Q. discriminate.
    - destruct (existsb (fun i => match pool_step s (LWorker i) with Some _ => true | None => false end)
                  (seq 0 (length (ws s)))) eqn:X.
      + apply existsb_exists in X. destruct X as (i & _ & P). left. exists (LWorker i). split; auto.
        destruct (pool_step s (LWorker i)); congruence.
      + right. intros (l & P & N). destruct l; try discriminate.
        * assert (W : existsb (fun i => match pool_step s (LWorker i) with Some _ => true | None => false end)
                  (seq 0 (length (ws s))) = true).
          { apply existsb_exists. exists i. split.
            - apply in_seq. cbn in N. destruct (nth_error (ws s) i) eqn:E; [|congruence].
              assert (nth_error (ws s) i <> None) by congruence. apply nth_error_Some in H. lia.
            - destruct (pool_step s (LWorker i)); congruence. }
          congruence.
        * cbn in N. congruence. }
  destruct Dec as [|S]; auto. exfalso.
  destruct (stuck_shape _ _ _ _ R S) as (W & _ & C).
  pose proof (reach_inv _ _ _ _ R) as I. destruct I. rewrite A in i_alive.
  symmetry in i_alive. apply negb_false_iff in i_alive. unfold client_busy in B.
  destruct C as [C|[C|[C|[C F]]]]; rewrite C in *; try discriminate; auto.
  assert (T : forallb is_exit (ws s) = true).
  { apply forallb_forall. intros w Hw. apply In_nth_error in Hw. destruct Hw as [i E].
    pose proof (W _ _ E). destruct (dead_no_wait _ _ _ _ R A _ _ E). destruct w; try discriminate; try reflexivity; congruence. }
  congruence.
Qed.

(** Decidability of [can_step]. *)
Lemma can_step_dec : forall s, can_step s \/ ~ can_step s.
Proof.
  intros s. destruct (client_step s) as [x|] eqn:Q.
  - left. exists LClient. split; auto. cbn. rewrite Q. discriminate.
  - destruct (existsb (fun i => match pool_step s (LWorker i) with Some _ => true | None => false end)
                  (seq 0 (length (ws s)))) eqn:X.
    + apply existsb_exists in X. destruct X as (i & _ & P). left. exists (LWorker i). split; auto.
      destruct (pool_step s (LWorker i)); congruence.
    + right. intros (l & P & N). destruct l; try discriminate.
      * assert (W : existsb (fun i => match pool_step s (LWorker i) with Some _ => true | None => false end)
                (seq 0 (length (ws s))) = true).
        { apply existsb_exists. exists i. split.
          - apply in_seq. cbn in N. destruct (nth_error (ws s) i) eqn:E; [|congruence].
            assert (nth_error (ws s) i <> None) by congruence. apply nth_error_Some in H. lia.
          - destruct (pool_step s (LWorker i)); congruence. }
        congruence.
      * cbn in N. congruence.
Qed.

(** The key liveness invariant, valid as long as the time limit has not been reached.
    [live1]: if work is left somebody is awake, or the client is about to notify.
    [live2]: if the client waits in join, somebody will wake it. *)
Definition live1 (s : pool) : Prop :=
  0 < remaining s -> alive s = true -> some_w awake s \/ exists b, cl s = CNotify b.
Definition live2 (s : pool) : Prop :=
  cl s = CJoinWait -> (0 < remaining s /\ some_w awake s) \/ some_w active s.

Lemma never_timed_out_work : forall n z0 tr s,
  reach n z0 tr s -> never_timed_out z0 tr -> 0 < remaining s -> work_left s = true.
Proof.
  intros n z0 tr s R T P. destruct (reach_inv _ _ _ _ R).
  assert (X : clock z0 tr < deadline z0 tr).
  { assert (Hr : has_run tr = true).
    { destruct (has_run tr) eqn:Hr; auto. exfalso.
      assert (budget tr = 0).
      { clear - Hr. induction tr as [|e t IH]; cbn in *; auto. destruct e; auto; discriminate. }
      lia. }
    clear - T Hr. induction tr as [|e t IH]; cbn in *; [discriminate|].
    destruct e; auto; try lia. destruct T as [T1 T2]. auto. }
  unfold work_left. destruct (Z.leb_spec (remaining s) 0); [lia|].
  destruct (Z.leb_spec (maxt s) (now s - start s)); [lia|reflexivity].
Qed.

Lemma never_timed_out_tail : forall z0 e tr,
  never_timed_out z0 (e :: tr) -> (forall n t z, e <> EvRun n t z) -> never_timed_out z0 tr.
Proof. intros z0 e tr H N. destruct e; cbn in H; auto; try tauto. exfalso. eapply N; eauto. Qed.

Lemma some_upd : forall f s i w x, nth_error (ws s) i = Some w -> f x = true ->
  exists j v, nth_error (upd (ws s) i x) j = Some v /\ f v = true.
Proof. intros f s i w x E F. exists i, x. split; auto. eapply nth_upd_eq; eauto. Qed.

(** Updating worker [i] keeps a witness unless the witness was [i] itself. *)
Lemma some_keep : forall (f : wpc -> bool) l i w x,
  nth_error l i = Some w -> (f w = true -> f x = true) ->
  (exists j v, nth_error l j = Some v /\ f v = true) ->
  exists j v, nth_error (upd l i x) j = Some v /\ f v = true.
Proof.
  intros f l i w x E F (j & v & A & B). destruct (Nat.eq_dec i j) as [->|N].
  - exists j, x. split; [eapply nth_upd_eq; eauto|]. apply F. congruence.
  - exists j, v. split; auto. rewrite nth_upd_ne; auto.
Qed.

Lemma some_wake : forall f s, (forall w, f w = true -> f (wake_w w) = true) ->
  some_w f s -> some_w f (notify_all s).
Proof.
  intros f s F (j & v & A & B). exists j, (wake_w v). cbn. rewrite nth_error_map', A. auto.
Qed.

Lemma live_step : forall n z0 tr s l e s',
  (0 < n)%nat ->
  reach n z0 tr s -> pool_step s l = Some (e, s') ->
  never_timed_out z0 (e :: tr) ->
  (never_timed_out z0 tr -> live1 s /\ live2 s) ->
  live1 s' /\ live2 s'.
Proof.
  intros n z0 tr s l e s' Hn R H T IH.
  pose proof (reach_inv _ _ _ _ R) as I. destruct I.
  assert (RunCase : (exists a b c, e = EvRun a b c) \/ forall a b c, e <> EvRun a b c).
  { destruct e; try (right; intros; discriminate). left; eauto. }
  destruct RunCase as [(a & b & c & ->)|NR].
  { (* the client has just set the budget *)
    destruct l as [j| |c'|j| |z]; cbn [pool_step] in H.
    - destruct (nth_error (ws s) j) as [w|]; [|discriminate].
      destruct w; cbn in H; try discriminate;
        try (destruct (lock s); discriminate); try (destruct (alive s); discriminate);
        destruct (work_left s); discriminate.
    - unfold client_step in H. destruct (cl s) eqn:C; try discriminate;
        try (destruct (lock s); discriminate).
      + injection H as <- <- <- <-. split.
        * intros _ _. right. cbn. eauto.
        * intros Q. discriminate.
      + destruct (work_left s || (0 <? working s)); discriminate.
      + destruct (forallb is_exit (ws s)); discriminate.
    - unfold call_step in H. destruct (cl s); try discriminate. destruct c'; try discriminate.
      destruct (work_left s); discriminate.
    - destruct (nth_error (ws s) j) as [[]|]; discriminate.
    - destruct (cl s); discriminate.
    - discriminate. }
  assert (T0 : never_timed_out z0 tr) by (eapply never_timed_out_tail; eauto).
  destruct (IH T0) as [L1 L2]. clear IH.
  assert (WL : 0 < remaining s -> work_left s = true) by (eapply never_timed_out_work; eauto).
  destruct l as [i| |c'|i| |z]; cbn [pool_step] in H.
  - destruct (nth_error (ws s) i) as [w|] eqn:E; [|discriminate].
    unfold live1, live2, some_w in *.
    destruct w; cbn in H; try discriminate.
    + destruct (lock s); [discriminate|]. injection H as <- <-. cbn. split.
      * intros _ _. left. eapply some_upd; eauto.
      * intros Q. right. eapply some_upd; eauto.
    + destruct (alive s) eqn:A; injection H as <- <-; cbn; split.
      * intros _ _. left. eapply some_upd; eauto.
      * intros Q. right. eapply some_upd; eauto.
      * congruence.
      * intros Q. rewrite Q in i_alive. discriminate.
    + destruct (work_left s) eqn:W; injection H as <- <-; cbn; split.
      * intros _ _. left. eapply some_upd; eauto.
      * intros Q. left. apply work_left_true in W. split; [tauto|]. eapply some_upd; eauto.
      * intros P. apply WL in P. congruence.
      * intros Q. destruct (cl s); discriminate.
    + destruct (work_left s) eqn:W; injection H as <- <-; cbn; split.
      * intros _ _. left. eapply some_upd; eauto.
      * intros Q. right. eapply some_upd; eauto.
      * intros P. apply WL in P. congruence.
      * intros Q. destruct (L2 Q) as [[P _]|S].
        { apply WL in P. congruence. }
        right. eapply some_keep; eauto.
    + destruct (lock s); [discriminate|]. injection H as <- <-. cbn. split.
      * intros _ _. left. eapply some_upd; eauto.
      * intros Q. destruct (L2 Q) as [[P S]|S].
        { left. split; auto. eapply some_upd; eauto. }
        right. eapply some_keep; eauto.
    + destruct (alive s) eqn:A; injection H as <- <-; cbn; split.
      * intros _ _. left. eapply some_upd; eauto.
      * intros Q. destruct (L2 Q) as [[P S]|S].
        { left. split; auto. eapply some_upd; eauto. }
        right. eapply some_keep; eauto.
      * congruence.
      * intros Q. rewrite Q in i_alive. discriminate.
    + injection H as <- <-. cbn. split.
      * intros _ _. left. eapply some_upd; eauto.
      * intros Q. right. eapply some_upd; eauto.
    + destruct (lock s); [discriminate|]. injection H as <- <-. cbn. split.
      * intros _ _. left. eapply some_upd; eauto.
      * intros Q. right. eapply some_upd; eauto.
  - unfold client_step in H. unfold live1, live2 in *. destruct (cl s) eqn:C; try discriminate.
    + destruct (lock s); [discriminate|]. injection H as <- <-. cbn. split; [|discriminate].
      intros P A. destruct (L1 P A) as [S|[b S]]; [left; exact S|discriminate].
    + injection H as <- <-. exfalso. eapply NR. reflexivity.
    + injection H as <- <-. cbn. split; [|destruct blocking; discriminate].
      intros P A. left. destruct (ws s) as [|w t] eqn:Ews; [cbn in i_len; lia|].
      exists O, (wake_w w). cbn. rewrite Ews. cbn. split; auto.
      assert (X : is_exit w = false) by (apply (i_exit A O w); reflexivity).
      destruct w; try reflexivity; discriminate.
    + destruct (lock s); [discriminate|]. injection H as <- <-. cbn. split; [|discriminate].
      intros P A. destruct (L1 P A) as [S|[b S]]; [left; exact S|discriminate].
    + destruct (work_left s || (0 <? working s)) eqn:W; injection H as <- <-; cbn; split; try discriminate.
      * intros P A. destruct (L1 P A) as [S|[b S]]; [left; exact S|discriminate].
      * intros _. apply orb_prop in W. destruct W as [W|W].
        { left. apply work_left_true in W. destruct W as [W _]. split; auto.
          assert (A : alive s = true) by (rewrite i_alive; reflexivity).
          destruct (L1 W A) as [S|[b S]]; [exact S|discriminate]. }
        right. apply Z.ltb_lt in W. rewrite i_work in W. apply countb_pos in W.
        destruct W as (i & w & E & F). exists i, w. cbn. split; auto.
        assert (A : alive s = true) by (rewrite i_alive; reflexivity).
        specialize (i_exit A _ _ E). destruct w; auto; discriminate.
      * intros P A. destruct (L1 P A) as [S|[b S]]; [left; exact S|discriminate].
    + destruct (lock s); [discriminate|]. injection H as <- <-. cbn. split; [|discriminate].
      intros P A. destruct (L1 P A) as [S|[b S]]; [left; exact S|discriminate].
    + destruct (lock s); [discriminate|]. injection H as <- <-. cbn. split; [|discriminate].
      intros P A. destruct (L1 P A) as [S|[b S]]; [left; exact S|discriminate].
    + injection H as <- <-. cbn. split; discriminate.
    + destruct (forallb is_exit (ws s)); [|discriminate]. injection H as <- <-. cbn. split; [|discriminate].
      intros P A. rewrite A in i_alive. discriminate.
  - unfold call_step in H. unfold live1, live2 in *. destruct (cl s) eqn:C; try discriminate.
    assert (K : forall P : Prop, 0 < remaining s -> alive s = true -> some_w awake s \/ P).
    { intros P X A. destruct (L1 X A) as [S|[b S]]; [left; exact S|discriminate]. }
    destruct c'; injection H as <- <-; cbn; (split; [intros X A; apply (K _ X A)|]);
      rewrite ?C; discriminate.
  - destruct (nth_error (ws s) i) as [w|] eqn:E; [|discriminate]. destruct w; try discriminate.
    injection H as <- <-. unfold live1, live2, some_w in *. cbn. split.
    + intros _ _. left. eapply some_upd; eauto.
    + intros Q. destruct (L2 Q) as [[P S]|S].
      { left. split; auto. eapply some_upd; eauto. }
      right. eapply some_keep; eauto.
  - destruct (cl s) eqn:C; try discriminate. injection H as <- <-. unfold live1, live2 in *. cbn.
    split; [|discriminate]. intros P A. rewrite C in L1. destruct (L1 P A) as [S|[b S]]; [left; exact S|discriminate].
  - injection H as <- <-. unfold live1, live2, some_w in *. cbn. split; auto.
Qed.

Lemma live_reach : forall n z0 tr s,
  (0 < n)%nat -> reach n z0 tr s -> never_timed_out z0 tr -> live1 s /\ live2 s.
Proof.
  intros n z0 tr s Hn [ls H]. revert tr s H.
  induction ls as [|l ls IH] using rev_ind; intros tr s H.
  - injection H as <- <-. intros _. split; [intros P; cbn in P; lia|discriminate].
  - rewrite pool_exec_app in H.
    destruct (pool_exec [] (pool_init n z0) ls) as [[t0 s0]|] eqn:E0; [|discriminate].
    specialize (IH _ _ eq_refl).
    assert (R0 : reach n z0 t0 s0) by (exists ls; auto).
    cbn in H. destruct (pool_step s0 l) as [[e s1]|] eqn:ST; [|discriminate].
    injection H as <- <-. intros T. eapply live_step; eauto.
Qed.

Lemma progress_in_time : forall n z0 tr s,
  (0 < n)%nat -> reach n z0 tr s -> never_timed_out z0 tr -> client_busy s -> can_step s.
Proof.
  intros n z0 tr s Hn R T B. destruct (can_step_dec s) as [|S]; auto. exfalso.
  destruct (stuck_shape _ _ _ _ R S) as (W & _ & C).
  destruct (live_reach _ _ _ _ Hn R T) as [_ L2].
  unfold client_busy in B. destruct C as [C|[C|[C|[C F]]]]; rewrite C in *; auto.
  - destruct (L2 C) as [[_ (i & w & E & X)]|(i & w & E & X)]; specialize (W _ _ E); [congruence|].
    destruct w; discriminate.
  - assert (D : alive s = false).
    { destruct (reach_inv _ _ _ _ R). rewrite i_alive, C. reflexivity. }
    assert (T' : forallb is_exit (ws s) = true).
    { apply forallb_forall. intros w Hw. apply In_nth_error in Hw. destruct Hw as [i E].
      pose proof (W _ _ E). destruct (dead_no_wait _ _ _ _ R D _ _ E). destruct w; try discriminate; try reflexivity; congruence. }
    congruence.
Qed.

(** ** With a time limit *)
(** After the deadline, with a monotone clock, a client waiting in join still gets woken provided a
    worker that has yet to pass line 307 exists. *)
Definition late_ok (s : pool) : Prop := cl s = CJoinWait -> some_w active s.

Lemma late_step : forall n z0 tr s l e s',
  reach n z0 tr s -> pool_step s l = Some (e, s') -> call_label l = false ->
  (match cl s with CJoinAcq | CJoinCheck | CJoinWait | CJoinWoken | CIdle => True | _ => False end) ->
  deadline z0 tr <= clock z0 tr -> late_ok s ->
  late_ok s' /\
  (match cl s' with CJoinAcq | CJoinCheck | CJoinWait | CJoinWoken | CIdle => True | _ => False end) /\
  deadline z0 (e :: tr) = deadline z0 tr.
Proof.
  intros n z0 tr s l e s' R H NC CC D L.
  pose proof (reach_inv _ _ _ _ R) as I. destruct I.
  assert (A : alive s = true) by (rewrite i_alive; destruct (cl s); auto; contradiction).
  assert (WF : work_left s = false).
  { unfold work_left. destruct (Z.leb_spec (remaining s) 0); auto.
    destruct (Z.leb_spec (maxt s) (now s - start s)); auto. lia. }
  unfold late_ok, some_w in *.
  destruct l as [i| |c'|i| |z]; cbn [pool_step] in H; try discriminate.
  - destruct (nth_error (ws s) i) as [w|] eqn:E; [|discriminate].
    destruct w; cbn in H; rewrite ?A, ?WF in H; try discriminate;
      try (destruct (lock s); [discriminate|]); injection H as <- <-; cbn;
      repeat split; auto; try (destruct (cl s); cbn; auto; contradiction);
      try (intros Q; eapply some_upd; eauto; fail);
      try (intros Q; eapply some_keep; eauto; fail).
    intros Q. destruct (cl s); discriminate.
  - unfold client_step in H. destruct (cl s) eqn:C; try discriminate; try contradiction.
    + destruct (lock s); [discriminate|]. injection H as <- <-. cbn. repeat split; auto. discriminate.
    + rewrite WF in H. cbn in H. destruct (Z.ltb_spec 0 (working s)); injection H as <- <-; cbn; repeat split; auto.
      * intros _. assert (W : 0 < countb counted (ws s)) by lia. apply countb_pos in W.
        destruct W as (i & w & E & F). exists i, w. split; auto.
        specialize (i_exit A _ _ E). destruct w; auto; discriminate.
      * discriminate.
    + destruct (lock s); [discriminate|]. injection H as <- <-. cbn. repeat split; auto. discriminate.
  - destruct (nth_error (ws s) i) as [w|] eqn:E; [|discriminate]. destruct w; try discriminate.
    injection H as <- <-. cbn. repeat split; auto. intros Q. eapply some_keep; eauto.
  - destruct (cl s) eqn:C; try discriminate. injection H as <- <-. cbn. repeat split; auto.
  - injection H as <- <-. cbn. repeat split; auto.
Qed.

Lemma late_exec : forall n z0 ls tr s tr2 s',
  reach n z0 tr s -> pool_exec tr s ls = Some (tr2 ++ tr, s') ->
  (forall l, In l ls -> call_label l = false) ->
  (match cl s with CJoinAcq | CJoinCheck | CJoinWait | CJoinWoken | CIdle => True | _ => False end) ->
  deadline z0 tr <= clock z0 tr -> monotone_clock z0 tr2 tr -> late_ok s ->
  late_ok s' /\
  (match cl s' with CJoinAcq | CJoinCheck | CJoinWait | CJoinWoken | CIdle => True | _ => False end) /\
  deadline z0 (tr2 ++ tr) <= clock z0 (tr2 ++ tr).
Proof.
  intros n z0 ls. induction ls as [|l ls IH] using rev_ind; intros tr s tr2 s' R H NC CC D M L.
  - cbn in H. assert (tr2 = []).
    { injection H as H _. apply (f_equal (@length _)) in H. rewrite app_length in H.
      destruct tr2; auto. cbn in H. lia. }
    subst. injection H as <-. auto.
  - rewrite pool_exec_app in H.
    destruct (pool_exec tr s ls) as [[t0 s0]|] eqn:E0; [|discriminate].
    cbn in H. destruct (pool_step s0 l) as [[e s1]|] eqn:ST; [|discriminate].
    injection H as Ht <-.
    assert (X : exists t3, t0 = t3 ++ tr).
    { clear - E0. revert tr s E0. induction ls as [|l ls IH]; intros tr s E; cbn in E.
      - injection E as <- <-. exists []. auto.
      - destruct (pool_step s l) as [[e s1]|] eqn:ST; [|discriminate].
        destruct (IH _ _ E) as [t ->]. exists (t ++ [e]). now rewrite <- app_assoc. }
    destruct X as [t3 ->]. change (e :: t3 ++ tr) with ((e :: t3) ++ tr) in Ht.
    apply app_inv_tail in Ht. subst tr2. destruct M as [M1 M2].
    assert (NC' : forall l', In l' ls -> call_label l' = false) by (intros; apply NC; apply in_or_app; auto).
    destruct (IH _ _ _ _ R E0 NC' CC D M1 L) as (L' & CC' & D').
    assert (R0 : reach n z0 (t3 ++ tr) s0) by (eapply reach_extends; eauto; exact E0).
    destruct (late_step _ _ _ _ _ _ _ R0 ST) as (L'' & CC'' & D''); auto.
    { apply NC. apply in_or_app. right. now left. }
    repeat split; auto. cbn [app]. rewrite D''. lia.
Qed.

Lemma late_progress : forall n z0 tr s ls tr2 s',
  reach n z0 tr s -> deadline z0 tr <= clock z0 tr -> 0 < in_progress tr ->
  cl s = CJoinWait ->
  extends tr s ls (tr2 ++ tr) s' -> (forall l, In l ls -> call_label l = false) ->
  monotone_clock z0 tr2 tr ->
  client_busy s' -> can_step s'.
Proof.
  intros n z0 tr s ls tr2 s' R D P C X NC M B.
  destruct (can_step_dec s') as [|S]; auto. exfalso.
  assert (R' : reach n z0 (tr2 ++ tr) s') by (eapply reach_extends; eauto).
  assert (L : late_ok s).
  { intros _. destruct (reach_inv _ _ _ _ R). rewrite i_prog in P. apply countb_pos in P.
    destruct P as (i & w & E & F). exists i, w. split; auto. destruct w; auto; discriminate. }
  destruct (late_exec n z0 ls tr s tr2 s' R X NC) as (L' & CC & _); auto.
  { rewrite C; exact I. }
  destruct (stuck_shape _ _ _ _ R' S) as (W & _ & C').
  unfold client_busy in B. destruct C' as [C'|[C'|[C'|[C' F]]]]; rewrite C' in *; auto.
  destruct (L' C') as (i & w & E & F). specialize (W _ _ E). destruct w; discriminate.
Qed.

(** ** Hang: the state in which everyone waits and the deadline is past never changes *)
Definition hung (s : pool) : Prop :=
  cl s = CJoinWait /\ lock s = None /\ (forall i w, nth_error (ws s) i = Some w -> w = WWait).

Lemma hung_step : forall s l e s', hung s -> pool_step s l = Some (e, s') -> spurious_label l = false ->
  hung s' /\ (exists z, e = EvTick z).
Proof.
  intros s l e s' (C & L & W) H NS. destruct l as [i| |c'|i| |z]; cbn in H, NS; try discriminate.
  - destruct (nth_error (ws s) i) as [w|] eqn:E; [|discriminate]. rewrite (W _ _ E) in H. discriminate.
  - unfold client_step in H. rewrite C in H. discriminate.
  - unfold call_step in H. rewrite C in H. discriminate.
  - injection H as <- <-. split; [|eauto]. repeat split; auto.
Qed.

Lemma hung_forever : forall ls tr s tr' s',
  hung s -> pool_exec tr s ls = Some (tr', s') -> (forall l, In l ls -> spurious_label l = false) ->
  hung s' /\ (forall e, In e tr' -> In e tr \/ exists z, e = EvTick z).
Proof.
  induction ls as [|l ls IH]; intros tr s tr' s' Hg H NS; cbn in H.
  - injection H as <- <-. auto.
  - destruct (pool_step s l) as [[e s1]|] eqn:E; [|discriminate].
    destruct (hung_step _ _ _ _ Hg E) as [Hg' [z ->]]. { apply NS. now left. }
    destruct (IH _ _ _ _ Hg' H) as [A B]. { intros; apply NS; now right. }
    split; auto. intros e Q. destruct (B e Q) as [[<-|Q']|Q']; eauto.
Qed.
