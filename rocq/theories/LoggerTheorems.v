(** Property theorems about logging: C51, C52, C53, C66. *)
From Coq Require Import List ZArith Bool Reals Sorted Lia Lra.
From Verif Require Import Base BaseProofs NumOps RLemmas LoggerModel LoggerSpec LoggerProofs.
Import ListNotations.
Open Scope R_scope.

Definition log_ex (d : Z) : plog := new_plog (set_runtime_delta (set_trials_delta (new_logger 0 0 0 0) d) 1000).
Ltac log_step := first
  [ rewrite run_start
  | rewrite (run_trial true false) by (first [reflexivity | apply Rleb_false; lra])
  | rewrite (run_trial false false) by (first [reflexivity | apply Rleb_false; lra])
  | rewrite (run_trial true true) by (first [reflexivity | apply Rleb_true; lra])
  | rewrite (run_trial false true) by (first [reflexivity | apply Rleb_true; lra]) ];
  cbv beta iota zeta delta [app orb Z.add Z.eqb Pos.add Pos.eqb Pos.succ].
Ltac run_log := unfold log_ex, new_plog, set_runtime_delta, set_trials_delta, new_logger, a_run;
  cbn [map app r1 r2 r3 tvisits entries prior_runtime lstart lcompleted trials_delta last_log runtime_delta next_threshold];
  repeat log_step; rewrite run_nil; cbn [lg entries map num_visits runtime].

(** ** C51 *)
(** A run of trials that does not reach the runtime threshold logs exactly at the positions [logs_at], which depend on
    the number of trials the logger has counted before. *)
Theorem C51_entries : forall p n now ts T, (1 <= trials_delta (lg p))%Z -> (0 <= lcompleted (lg p))%Z ->
  0 <= T -> within now T ts -> prior_runtime (lg p) + 2 * T < runtime_delta (lg p) ->
  map num_visits (entries (lg (lrun p (a_run n now ts)))) =
  (if (size (lg p) =? 0)%Z then [0%Z] else map num_visits (entries (lg p))) ++
  map tvisits (at_positions (logs_at (lcompleted (lg p)) (trials_delta (lg p))) ts).
Proof. exact C51_entries'. Qed.
(** The first run of a logger whose counter happens to start at zero: an origin entry and every d-th trial.
    Missing: later runs and other initial contents of the uninitialised counter. *)
Theorem C51_first_run_partial : forall last st nx d n now ts T, (1 <= d)%Z -> 0 <= T -> within now T ts -> 2 * T < dbl_max ->
  let es := entries (lg (lrun (new_plog (set_trials_delta (new_logger 0 last st nx) d)) (a_run n now ts))) in
  map num_visits es = 0%Z :: map tvisits (at_positions (every d) ts) /\
  Z.of_nat (length es) = (Z.of_nat (length ts) / d + 1)%Z.
Proof.
  intros last st nx d n now ts T Hd HT Hw Hr. cbv zeta.
  pose proof (C51_entries (new_plog (set_trials_delta (new_logger 0 last st nx) d)) n now ts T Hd ltac:(cbn; lia) HT Hw) as E.
  specialize (E ltac:(cbn [lg new_plog set_trials_delta new_logger prior_runtime runtime_delta]; lra)).
  assert (F : at_positions (logs_at (lcompleted (lg (new_plog (set_trials_delta (new_logger 0 last st nx) d))))
      (trials_delta (lg (new_plog (set_trials_delta (new_logger 0 last st nx) d))))) ts = at_positions (every d) ts).
  { apply at_ext. intros i _. cbn. unfold logs_at. destruct (Z.ltb_spec 0 d); [reflexivity|lia]. }
  rewrite F in E. cbn [size entries lg new_plog set_trials_delta new_logger length Z.of_nat Z.eqb app] in E. split; [exact E|].
  rewrite <- (map_length num_visits), E. cbn [length]. rewrite map_length.
  pose proof (count_every tend d ts 0 Hd ltac:(lia)) as K. unfold at_positions. change (0 + 1)%Z with 1%Z in K.
  rewrite Zdiv_0_l, Z.add_0_l in K. rewrite Nat2Z.inj_succ. fold (@at_positions tend) in *. lia.
Qed.
(** In later runs the entries are at other positions ... *)
Theorem C51_later_runs_refuted : ~ forall d rd n1 n2 now1 now2 ts1 ts2 T, (1 <= d)%Z -> 0 <= T -> within now1 T ts1 -> within now2 T ts2 ->
  4 * T < rd ->
  map num_visits (entries (lg (lrun (new_plog (set_runtime_delta (set_trials_delta (new_logger 0 0 0 0) d) rd)) (a_run n1 now1 ts1 ++ a_run n2 now2 ts2)))) =
  0%Z :: map tvisits (at_positions (every d) ts1) ++ map tvisits (at_positions (every d) ts2).
Proof.
  intros H. set (ts := [mkT 1 1 1 1; mkT 1 1 1 2; mkT 1 1 1 3]).
  assert (W : within 1 0 ts) by (intros t [<-|[<-|[<-|[]]]]; cbn; lra).
  specialize (H 2%Z 1000 3%Z 3%Z 1 1 ts ts 0 ltac:(lia) ltac:(lra) W W ltac:(lra)). unfold ts in H. revert H.
  change (map tvisits (at_positions (every 2) [mkT 1 1 1 1; mkT 1 1 1 2; mkT 1 1 1 3])) with [2%Z].
  run_log. discriminate.
Qed.
(** ... and if the uninitialised counter holds d or more, already the first trial is logged. *)
Theorem C51_uninitialised_refuted : ~ forall tc d n now ts T, (0 <= tc)%Z -> (1 <= d)%Z -> 0 <= T -> within now T ts -> 2 * T < dbl_max ->
  map num_visits (entries (lg (lrun (new_plog (set_trials_delta (new_logger tc 0 0 0) d)) (a_run n now ts)))) =
  0%Z :: map tvisits (at_positions (every d) ts).
Proof.
  intros H. assert (Db : 4 < dbl_max) by (apply IZR_lt; reflexivity).
  assert (W : within 1 0 [mkT 1 1 1 1]) by (intros t [<-|[]]; cbn; lra).
  specialize (H 10%Z 10%Z 1%Z 1 [mkT 1 1 1 1] 0 ltac:(lia) ltac:(lia) ltac:(lra) W ltac:(lra)).
  rewrite (C51_entries _ 1 1 [mkT 1 1 1 1] 0) in H; auto; try (cbn; lia); try lra.
  - cbv in H. discriminate.
  - cbn [lg new_plog set_trials_delta new_logger prior_runtime runtime_delta]. lra.
Qed.

(** ** C52 *)
(** Within a run the logged runtimes are nondecreasing and include the prior runtime. *)
Theorem C52_within_run : forall p n now ts, clock now ts ->
  exists new, entries (lg (lrun p (a_run n now ts))) = (if (size (lg p) =? 0)%Z then [mkEntry 0 0] else entries (lg p)) ++ new /\
    nondecreasing new /\ forall e, In e new -> prior_runtime (lg p) <= runtime e.
Proof. exact C52_within'. Qed.
(** Two runs with a new pool and a new logger, the first of which ran all its trials: its time, until the end of the
    last trial, is counted and the logged runtimes are nondecreasing. Missing: more runs, runs that end early, a pool
    that ran trials before. *)
Theorem C52_two_runs_partial : forall p n1 now1 ts1 n2 now2 ts2,
  entries (lg p) = [] -> prior_runtime (lg p) = 0 -> pcompleted p = 0%Z ->
  (1 <= n1)%Z -> Z.of_nat (length ts1) = n1 -> clock now1 ts1 -> clock now2 ts2 ->
  (exists last, (forall t, In t ts1 -> r3 t <= last) /\ In last (map r3 ts1) /\
     prior_runtime (lg (lrun p (a_run n1 now1 ts1))) = last - now1) /\
  nondecreasing (entries (lg (lrun p (a_run n1 now1 ts1 ++ a_run n2 now2 ts2)))).
Proof. exact C52_two'. Qed.

(** Three complete runs: the second is not counted. *)
Theorem C52_later_runs_refuted : ~ forall p n1 now1 ts1 n2 now2 ts2 n3 now3 ts3,
  entries (lg p) = [] -> prior_runtime (lg p) = 0 -> pcompleted p = 0%Z ->
  Z.of_nat (length ts1) = n1 -> Z.of_nat (length ts2) = n2 -> Z.of_nat (length ts3) = n3 ->
  clock now1 ts1 -> clock now2 ts2 -> clock now3 ts3 ->
  (forall t, In t ts1 -> r3 t <= now2) -> (forall t, In t ts2 -> r3 t <= now3) ->
  nondecreasing (entries (lg (lrun p (a_run n1 now1 ts1 ++ a_run n2 now2 ts2 ++ a_run n3 now3 ts3)))).
Proof.
  intros H. specialize (H (log_ex 1) 1%Z 0 [mkT 1 1 1 1] 1%Z 1 [mkT 11 11 11 2] 1%Z 11 [mkT 12 12 12 3]).
  assert (E : map runtime (entries (lg (lrun (log_ex 1) (a_run 1 0 [mkT 1 1 1 1] ++ a_run 1 1 [mkT 11 11 11 2] ++ a_run 1 11 [mkT 12 12 12 3]))))
    = [0; 1; 11; 2]).
  { run_log. repeat (f_equal; try lra). }
  assert (N : nondecreasing (entries (lg (lrun (log_ex 1) (a_run 1 0 [mkT 1 1 1 1] ++ a_run 1 1 [mkT 11 11 11 2] ++ a_run 1 11 [mkT 12 12 12 3]))))).
  { apply H; try reflexivity; cbn; try lra; intros t [<-|[]]; cbn; lra. }
  unfold nondecreasing in N. rewrite E in N. repeat (apply StronglySorted_inv in N; destruct N as [N ?]).
  match goal with Q : Forall (Rle 11) [2] |- _ => inversion Q; lra end.
Qed.
(** A first run that ends before its last trial is not counted either. *)
Theorem C52_timeout_refuted : ~ forall p n1 now1 ts1 n2 now2 ts2,
  entries (lg p) = [] -> prior_runtime (lg p) = 0 -> pcompleted p = 0%Z ->
  (Z.of_nat (length ts1) <= n1)%Z -> (Z.of_nat (length ts2) <= n2)%Z ->
  clock now1 ts1 -> clock now2 ts2 -> (forall t, In t ts1 -> r3 t <= now2) ->
  nondecreasing (entries (lg (lrun p (a_run n1 now1 ts1 ++ a_run n2 now2 ts2)))).
Proof.
  intros H. specialize (H (log_ex 1) 5%Z 0 [mkT 10 10 10 1] 5%Z 10 [mkT 11 11 11 2]).
  assert (E : map runtime (entries (lg (lrun (log_ex 1) (a_run 5 0 [mkT 10 10 10 1] ++ a_run 5 10 [mkT 11 11 11 2])))) = [0; 10; 1]).
  { run_log. repeat (f_equal; try lra). }
  assert (N : nondecreasing (entries (lg (lrun (log_ex 1) (a_run 5 0 [mkT 10 10 10 1] ++ a_run 5 10 [mkT 11 11 11 2]))))).
  { apply H; try reflexivity; cbn; try lra; try lia. intros t [<-|[]]; cbn; lra. }
  unfold nondecreasing in N. rewrite E in N. repeat (apply StronglySorted_inv in N; destruct N as [N ?]).
  match goal with Q : Forall (Rle 10) [1] |- _ => inversion Q; lra end.
Qed.
(** A later, longer run counts time twice: an entry can exceed the time since the first run started. *)
Theorem C52_overcount_refuted : ~ forall p n1 now1 ts1 n2 now2 ts2,
  entries (lg p) = [] -> prior_runtime (lg p) = 0 -> pcompleted p = 0%Z ->
  Z.of_nat (length ts1) = n1 -> Z.of_nat (length ts2) = n2 ->
  clock now1 ts1 -> clock now2 ts2 -> (forall t, In t ts1 -> r3 t <= now2) ->
  forall e T, (forall t, In t ts2 -> r3 t <= now1 + T) ->
  In e (entries (lg (lrun p (a_run n1 now1 ts1 ++ a_run n2 now2 ts2)))) -> runtime e <= T.
Proof.
  intros H. specialize (H (log_ex 1) 1%Z 0 [mkT 1 1 1 1] 2%Z 1 [mkT 11 11 11 2; mkT 12 12 12 3]).
  assert (E : map runtime (entries (lg (lrun (log_ex 1) (a_run 1 0 [mkT 1 1 1 1] ++ a_run 2 1 [mkT 11 11 11 2; mkT 12 12 12 3])))) = [0; 1; 11; 22]).
  { run_log. repeat (f_equal; try lra). }
  assert (I : In 22 (map runtime (entries (lg (lrun (log_ex 1) (a_run 1 0 [mkT 1 1 1 1] ++ a_run 2 1 [mkT 11 11 11 2; mkT 12 12 12 3])))))).
  { rewrite E. cbn. auto. }
  apply in_map_iff in I. destruct I as (e & E22 & I).
  assert (L : runtime e <= 12).
  { apply H with (e := e); try reflexivity; auto; cbn; try lra; intros t Q; repeat (destruct Q as [<-|Q]; [cbn; lra|]); destruct Q. }
  lra.
Qed.

(** ** C66 *)
(** The i-th entry that a run logs because of its runtime has at least i times runtime_delta on it, so there are at most
    elapsed/runtime_delta of them. *)
Theorem C66_runtime_entries_partial : forall p n now ts, clock now ts -> 0 <= runtime_delta (lg p) ->
  (lcompleted (lg p) + Z.of_nat (length ts) < trials_delta (lg p))%Z ->
  exists new, entries (lg (lrun p (a_run n now ts))) = (if (size (lg p) =? 0)%Z then [mkEntry 0 0] else entries (lg p)) ++ new /\
    forall i e, nth_error new i = Some e -> INR (i + 1) * runtime_delta (lg p) <= runtime e.
Proof. exact C66_late'. Qed.
(** But entries are not runtime_delta apart: after a long trial several short ones are logged. *)
Theorem C66_spacing_refuted : ~ forall p n now ts, clock now ts -> entries (lg p) = [] -> 0 < runtime_delta (lg p) ->
  (lcompleted (lg p) + Z.of_nat (length ts) < trials_delta (lg p))%Z ->
  forall i e e', nth_error (entries (lg (lrun p (a_run n now ts)))) i = Some e ->
    nth_error (entries (lg (lrun p (a_run n now ts)))) (S i) = Some e' -> runtime e + runtime_delta (lg p) <= runtime e'.
Proof.
  intros H. set (p := new_plog (set_runtime_delta (set_trials_delta (new_logger 0 0 0 0) 100) 1)).
  specialize (H p 9%Z 0 [mkT 10 10 10 1; mkT (21/2) (21/2) (21/2) 2]).
  assert (E : map runtime (entries (lg (lrun p (a_run 9 0 [mkT 10 10 10 1; mkT (21/2) (21/2) (21/2) 2])))) = [0; 10; 21/2]).
  { unfold p. run_log. repeat (f_equal; try lra). }
  destruct (entries (lg (lrun p (a_run 9 0 [mkT 10 10 10 1; mkT (21/2) (21/2) (21/2) 2])))) as [|e0 [|e1 [|e2 l]]]; try discriminate.
  cbn [map] in E. injection E as _ E1 E2 _.
  assert (L : runtime e1 + 1 <= runtime e2).
  { apply (H ltac:(cbn; lra) eq_refl ltac:(cbn; lra) ltac:(cbn; lia) 1%nat); reflexivity. }
  lra.
Qed.

(** ** C53 *)
(** Whatever is logged, only runtime and visits are written, under a header naming these two. *)
Theorem C53_sliced : forall o os, written (o :: os) =
  Some ([HRuntime; HVisits], map (fun x => [CRuntime (runtime (object_base x)); CVisits (num_visits (object_base x))]) (o :: os)).
Proof. intros o os. unfold written. cbn. f_equal. f_equal. f_equal. now rewrite map_map. Qed.
(** So a logged value is not among the rows written. *)
Theorem C53_columns_refuted : ~ forall os x h rows, written os = Some (h, rows) -> In x os -> In (columns x) rows.
Proof.
  intros H. specialize (H [OValue (mkEntry 0 0) 0 0] (OValue (mkEntry 0 0) 0 0) _ _ (C53_sliced _ _) (or_introl eq_refl)).
  destruct H as [H|[]]. discriminate.
Qed.
(** Loggers of the base type write everything they logged. *)
Theorem C53_base_partial : forall os, (forall x, In x os -> exists e, x = OBase e) -> written os = write os.
Proof.
  intros os H. unfold written. f_equal. rewrite <- (map_id os) at 2. apply map_ext_in. intros x I. destruct (H x I) as (e & ->). reflexivity.
Qed.

Print Assumptions C51_entries.
Print Assumptions C51_first_run_partial.
Print Assumptions C51_later_runs_refuted.
Print Assumptions C51_uninitialised_refuted.
Print Assumptions C52_within_run.
Print Assumptions C52_two_runs_partial.
Print Assumptions C52_later_runs_refuted.
Print Assumptions C52_timeout_refuted.
Print Assumptions C52_overcount_refuted.
Print Assumptions C66_runtime_entries_partial.
Print Assumptions C66_spacing_refuted.
Print Assumptions C53_sliced.
Print Assumptions C53_columns_refuted.
Print Assumptions C53_base_partial.

(** ** Examples that meet the hypotheses *)
(** Five trials logged every second one, then three more. *)
Example logger_witness : let ts1 := [mkT 1 1 1 1; mkT 2 2 2 2; mkT 3 3 3 3; mkT 4 4 4 4; mkT 5 5 5 5] in
  let ts2 := [mkT 7 7 7 6; mkT 8 8 8 7; mkT 9 9 9 8] in
  within 0 5 ts1 /\ clock 0 ts1 /\ clock 6 ts2 /\ (forall t, In t ts1 -> r3 t <= 6) /\
  map num_visits (entries (lg (lrun (log_ex 2) (a_run 5 0 ts1 ++ a_run 3 6 ts2)))) = [0; 2; 4; 6; 8]%Z /\
  map runtime (entries (lg (lrun (log_ex 2) (a_run 5 0 ts1 ++ a_run 3 6 ts2)))) = [0; 2; 4; 6; 8].
Proof.
  cbv zeta. split; [intros t Q; repeat (destruct Q as [<-|Q]; [cbn; lra|]); destruct Q|].
  split; [cbn; lra|]. split; [cbn; lra|]. split; [intros t Q; repeat (destruct Q as [<-|Q]; [cbn; lra|]); destruct Q|].
  split; run_log; [reflexivity|]. repeat (f_equal; try lra).
Qed.
