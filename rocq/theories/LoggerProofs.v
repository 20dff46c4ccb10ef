(** Proofs about logging. *)
From Coq Require Import List ZArith Bool Reals Sorted Lia Lra.
From Verif Require Import Base BaseProofs NumOps RLemmas LoggerModel LoggerSpec.
Import ListNotations.
Open Scope R_scope.

Definition the_trial (t : tend) : lop := LTrial (r1 t) (r2 t) (r3 t) (tvisits t).
Lemma run_split : forall p n now ts, lrun p (a_run n now ts) = lrun (log_run p n now) (map the_trial ts).
Proof. reflexivity. Qed.
Lemma lrun_app : forall p a b, lrun p (a ++ b) = lrun (lrun p a) b.
Proof. intros. apply fold_left_app. Qed.

(** ** Trials *)

(** One trial when the runtime threshold is not reached. *)
Lemma quiet_trial : forall p t, total_runtime (lg p) (r1 t) < next_threshold (lg p) ->
  let hit := (last_log (lg p) + trials_delta (lg p) <=? lcompleted (lg p) + 1)%Z in
  let p' := lstep p (the_trial t) in
  entries (lg p') = entries (lg p) ++ (if hit then [mkEntry (total_runtime (lg p) (r2 t)) (tvisits t)] else []) /\
  lcompleted (lg p') = (lcompleted (lg p) + 1)%Z /\ trials_delta (lg p') = trials_delta (lg p) /\
  last_log (lg p') = (if hit then lcompleted (lg p) + 1 else last_log (lg p))%Z /\
  next_threshold (lg p') = next_threshold (lg p) /\ lstart (lg p') = lstart (lg p) /\
  prior_runtime (lg p') = prior_runtime (lg p) + (if (pcompleted p + 1 =? pnum p)%Z then r3 t - lstart (lg p) else 0) /\
  pcompleted p' = (pcompleted p + 1)%Z /\ pnum p' = pnum p.
Proof.
  intros [l c n] t H. cbn [lg] in H. cbv zeta. cbn [lstep the_trial]. unfold try_log, should_log. cbn [lg pcompleted pnum].
  change (last_log (trial_completed l)) with (last_log l). change (trials_delta (trial_completed l)) with (trials_delta l).
  change (lcompleted (trial_completed l)) with (lcompleted l + 1)%Z.
  assert (Rl : forall l1, next_threshold l1 = next_threshold l -> total_runtime l1 (r1 t) = total_runtime l (r1 t) ->
     Rleb (next_threshold l1) (total_runtime l1 (r1 t)) = false) by (intros l1 -> ->; apply Rleb_false; lra).
  destruct (last_log l + trials_delta l <=? lcompleted l + 1)%Z; rewrite Rl by reflexivity;
    destruct (c + 1 =? n)%Z; cbn; rewrite ?app_nil_r; repeat split; auto; lra.
Qed.

Lemma at_shift : forall X (f : Z -> bool) a (l : list X) b, at_from (fun i => f (a + i)%Z) b l = at_from f (a + b) l.
Proof.
  intros X f a l. induction l as [|x l IH]; intros b; cbn; auto. rewrite IH. now replace (a + (b + 1))%Z with (a + b + 1)%Z by lia.
Qed.
Lemma at_ext : forall X (f g : Z -> bool) (l : list X) b, (forall i, (b <= i)%Z -> f i = g i) -> at_from f b l = at_from g b l.
Proof.
  intros X f g l. induction l as [|x l IH]; intros b H; cbn; auto. rewrite (H b) by lia. rewrite (IH (b + 1)%Z); auto.
  intros i Hi. apply H. lia.
Qed.

(** Room below the threshold: the prior runtime is updated at most once. *)
Definition room (p : plog) (T : R) : Prop :=
  if (pcompleted p <? pnum p)%Z then prior_runtime (lg p) + 2 * T < next_threshold (lg p)
  else prior_runtime (lg p) + T < next_threshold (lg p).
Lemma room_now : forall p T t now, lstart (lg p) = now -> room p T -> now <= r1 t <= now + T ->
  total_runtime (lg p) (r1 t) < next_threshold (lg p).
Proof. intros p T t now Hst Hp W. unfold room in Hp. unfold total_runtime. rewrite Hst. destruct (pcompleted p <? pnum p)%Z; lra. Qed.
Lemma room_next : forall p T t now, lstart (lg p) = now -> room p T -> now <= r1 t <= now + T -> now <= r3 t <= now + T ->
  room (lstep p (the_trial t)) T.
Proof.
  intros p T t now Hst Hp W1 W3. destruct (quiet_trial p t (room_now p T t now Hst Hp W1)) as (_ & _ & _ & _ & E5 & _ & E7 & E8 & E9).
  unfold room in *. rewrite E5, E7, E8, E9, Hst.
  destruct (Z.ltb_spec (pcompleted p + 1) (pnum p)), (Z.ltb_spec (pcompleted p) (pnum p)), (Z.eqb_spec (pcompleted p + 1) (pnum p));
    try lia; lra.
Qed.

(** Runs of trials when the threshold is never reached. *)
Lemma quiet_run : forall ts p now T i0, lstart (lg p) = now -> within now T ts -> room p T ->
  (1 <= trials_delta (lg p))%Z -> (last_log (lg p) <= lcompleted (lg p) < last_log (lg p) + trials_delta (lg p))%Z ->
  (trials_delta (lg p) | lcompleted (lg p) - last_log (lg p) + 1 - i0)%Z ->
  map num_visits (entries (lg (lrun p (map the_trial ts)))) =
    map num_visits (entries (lg p)) ++ map tvisits (at_from (every (trials_delta (lg p))) i0 ts).
Proof.
  induction ts as [|t ts IH]; intros p now T i0 Hst Hw Hp Hd Hl Hi.
  - cbn. now rewrite app_nil_r.
  - cbn [map]. change (lrun p (the_trial t :: map the_trial ts)) with (lrun (lstep p (the_trial t)) (map the_trial ts)).
    destruct (Hw t (or_introl eq_refl)) as (W1 & W2 & W3).
    destruct (quiet_trial p t (room_now p T t now Hst Hp W1)) as (E1 & E2 & E3 & E4 & E5 & E6 & _).
    pose proof (room_next p T t now Hst Hp W1 W3) as Hp'.
    set (p' := lstep p (the_trial t)) in *. cbn [at_from].
    assert (Hit : (last_log (lg p) + trials_delta (lg p) <=? lcompleted (lg p) + 1)%Z = every (trials_delta (lg p)) i0).
    { unfold every. destruct (Z.leb_spec (last_log (lg p) + trials_delta (lg p)) (lcompleted (lg p) + 1)) as [L|L]; symmetry.
      - apply Z.eqb_eq, Z.mod_divide; [lia|].
        replace i0 with (trials_delta (lg p) - (lcompleted (lg p) - last_log (lg p) + 1 - i0))%Z by lia.
        apply Z.divide_sub_r; [apply Z.divide_refl|exact Hi].
      - apply Z.eqb_neq. intros E. apply Z.mod_divide in E; [|lia].
        assert (D : (trials_delta (lg p) | lcompleted (lg p) - last_log (lg p) + 1)%Z).
        { replace (lcompleted (lg p) - last_log (lg p) + 1)%Z with (lcompleted (lg p) - last_log (lg p) + 1 - i0 + i0)%Z by lia.
          now apply Z.divide_add_r. }
        apply Z.divide_pos_le in D; lia. }
    rewrite (IH p' now T (i0 + 1)%Z); auto; try (rewrite ?E3; auto; fail).
    + rewrite E1, E3, Hit, map_app, <- app_assoc. destruct (every (trials_delta (lg p)) i0); reflexivity.
    + congruence.
    + intros u Q. apply Hw. now right.
    + rewrite E2, E3, E4. destruct (last_log (lg p) + trials_delta (lg p) <=? lcompleted (lg p) + 1)%Z eqn:L; [lia|].
      apply Z.leb_gt in L. lia.
    + rewrite E2, E3, E4. destruct (last_log (lg p) + trials_delta (lg p) <=? lcompleted (lg p) + 1)%Z eqn:L.
      * assert (L' : every (trials_delta (lg p)) i0 = true) by congruence. unfold every in L'. apply Z.eqb_eq, Z.mod_divide in L'; [|lia].
        replace (lcompleted (lg p) + 1 - (lcompleted (lg p) + 1) + 1 - (i0 + 1))%Z with (- i0)%Z by lia. now apply Z.divide_opp_r.
      * now replace (lcompleted (lg p) + 1 - last_log (lg p) + 1 - (i0 + 1))%Z with (lcompleted (lg p) - last_log (lg p) + 1 - i0)%Z by lia.
Qed.

Lemma log_run_facts : forall p n now, let p' := log_run p n now in
  entries (lg p') = (if (size (lg p) =? 0)%Z then [mkEntry 0 0] else entries (lg p)) /\
  prior_runtime (lg p') = prior_runtime (lg p) /\ lstart (lg p') = now /\ lcompleted (lg p') = lcompleted (lg p) /\
  trials_delta (lg p') = trials_delta (lg p) /\ last_log (lg p') = 0%Z /\ next_threshold (lg p') = runtime_delta (lg p) /\
  runtime_delta (lg p') = runtime_delta (lg p) /\ pcompleted p' = pcompleted p /\ pnum p' = n.
Proof.
  intros p n now. cbv zeta. unfold log_run, size. destruct (entries (lg p)) as [|e l] eqn:E; cbn; rewrite ?E; cbn;
    repeat split; auto.
Qed.

(** ** C51 *)
Lemma C51_entries' : forall p n now ts T, (1 <= trials_delta (lg p))%Z -> (0 <= lcompleted (lg p))%Z ->
  0 <= T -> within now T ts -> prior_runtime (lg p) + 2 * T < runtime_delta (lg p) ->
  map num_visits (entries (lg (lrun p (a_run n now ts)))) =
  (if (size (lg p) =? 0)%Z then [0%Z] else map num_visits (entries (lg p))) ++
  map tvisits (at_positions (logs_at (lcompleted (lg p)) (trials_delta (lg p))) ts).
Proof.
  intros p n now ts T Hd Hc HT Hw Hr. rewrite run_split.
  destruct (log_run_facts p n now) as (F1 & F2 & F3 & F4 & F5 & F6 & F7 & _). set (p0 := log_run p n now) in *.
  assert (Rm : room p0 T) by (unfold room; rewrite F2, F7; destruct (pcompleted p0 <? pnum p0)%Z; lra).
  replace (if (size (lg p) =? 0)%Z then [0%Z] else map num_visits (entries (lg p))) with (map num_visits (entries (lg p0)))
    by (rewrite F1; destruct (size (lg p) =? 0)%Z; reflexivity).
  unfold logs_at, at_positions. destruct (Z.ltb_spec (lcompleted (lg p)) (trials_delta (lg p))) as [L|L].
  - rewrite (quiet_run ts p0 now T (lcompleted (lg p) + 1)%Z); auto; try lia.
    + rewrite F5. f_equal. f_equal. symmetry. apply at_shift.
    + rewrite F4, F6. exists 0%Z. lia.
  - destruct ts as [|t ts]; [cbn; now rewrite app_nil_r|]. cbn [map].
    change (lrun p0 (the_trial t :: map the_trial ts)) with (lrun (lstep p0 (the_trial t)) (map the_trial ts)).
    destruct (Hw t (or_introl eq_refl)) as (W1 & W2 & W3).
    destruct (quiet_trial p0 t (room_now p0 T t now F3 Rm W1)) as (E1 & E2 & E3 & E4 & E5 & E6 & _).
    pose proof (room_next p0 T t now F3 Rm W1 W3) as Rm'. set (p' := lstep p0 (the_trial t)) in *.
    rewrite F4, F5, F6 in *. assert (Ht : (0 + trials_delta (lg p) <=? lcompleted (lg p) + 1)%Z = true) by (apply Z.leb_le; lia).
    rewrite Ht in *. rewrite (quiet_run ts p' now T 1%Z); auto; try lia.
    + rewrite E1, E3, map_app, <- app_assoc. f_equal. cbn [at_from]. change (every (trials_delta (lg p)) (1 - 1)) with (0 mod trials_delta (lg p) =? 0)%Z.
      rewrite Z.mod_0_l by lia. cbn [Z.eqb map app]. f_equal. f_equal.
      rewrite (at_ext _ (fun i => every (trials_delta (lg p)) (i - 1)%Z) (fun i => every (trials_delta (lg p)) (-1 + i)%Z) ts) by (intros i _; now replace (i - 1)%Z with (-1 + i)%Z by lia).
      rewrite at_shift. reflexivity.
    + intros u Q. apply Hw. now right.
    + rewrite E2, E4. exists 0%Z. lia.
Qed.

Lemma count_every : forall X d (l : list X) k, (1 <= d)%Z -> (0 <= k)%Z ->
  Z.of_nat (length (at_from (every d) (k + 1) l)) = ((k + Z.of_nat (length l)) / d - k / d)%Z.
Proof.
  intros X d l. induction l as [|x l IH]; intros k Hd Hk.
  - cbn. rewrite Z.add_0_r. lia.
  - assert (St : ((k + 1) / d = k / d + if every d (k + 1) then 1 else 0)%Z).
    { unfold every. pose proof (Z.div_mod k d ltac:(lia)) as E1. pose proof (Z.mod_pos_bound k d ltac:(lia)) as B1.
      pose proof (Z.div_mod (k + 1) d ltac:(lia)) as E2. pose proof (Z.mod_pos_bound (k + 1) d ltac:(lia)) as B2.
      destruct (Z.eqb_spec ((k + 1) mod d) 0) as [E|E].
      - symmetry. apply Z.div_unique with (r := 0%Z); [lia|]. rewrite E in E2.
        assert (X1 : (d * ((k + 1) / d) = k + 1)%Z) by lia.
        assert (k mod d = d - 1)%Z; [|lia].
        assert (Q : ((k + 1 - 1) mod d = (d - 1) mod d)%Z).
        { rewrite <- X1. replace (d * ((k + 1) / d) - 1)%Z with ((d - 1) + ((k + 1) / d - 1) * d)%Z by lia. apply Z.mod_add. lia. }
        replace (k + 1 - 1)%Z with k in Q by lia. rewrite Q. apply Z.mod_small. lia.
      - symmetry. apply Z.div_unique with (r := (k mod d + 1)%Z); [|lia]. left.
        destruct (Z.eq_dec (k mod d) (d - 1)) as [Q|Q]; [|lia]. exfalso. apply E.
        replace (k + 1)%Z with ((k / d + 1) * d)%Z by lia. apply Z.mod_mul. lia. }
    cbn [at_from length]. replace (k + 1 + 1)%Z with ((k + 1) + 1)%Z by lia. specialize (IH (k + 1)%Z Hd ltac:(lia)).
    replace (k + Z.of_nat (Datatypes.S (length l)))%Z with (k + 1 + Z.of_nat (length l))%Z by lia.
    destruct (every d (k + 1)); cbn [length]; lia.
Qed.

(** ** C52 *)
Lemma sorted_snoc : forall l x, StronglySorted Rle l -> (forall y, In y l -> y <= x) -> StronglySorted Rle (l ++ [x]).
Proof.
  induction l as [|y l IH]; intros x H1 H2; cbn.
  - constructor; constructor.
  - apply StronglySorted_inv in H1. destruct H1 as [H1 H3]. constructor; [apply IH; auto; intros z Q; apply H2; now right|].
    apply Forall_app. split; auto. constructor; [apply H2; now left|constructor].
Qed.

(** Any trial: at most one entry is added, with the runtime at the second reading. *)
Lemma any_trial : forall p t, let p' := lstep p (the_trial t) in
  (exists b, entries (lg p') = entries (lg p) ++ (if b : bool then [mkEntry (total_runtime (lg p) (r2 t)) (tvisits t)] else []) /\
     (b = false -> total_runtime (lg p) (r1 t) < next_threshold (lg p) /\ (lcompleted (lg p) + 1 < last_log (lg p) + trials_delta (lg p))%Z /\
        next_threshold (lg p') = next_threshold (lg p) /\ last_log (lg p') = last_log (lg p)) /\
     (b = true -> (lcompleted (lg p) + 1 < last_log (lg p) + trials_delta (lg p))%Z ->
        next_threshold (lg p) <= total_runtime (lg p) (r1 t) /\ next_threshold (lg p') = next_threshold (lg p) + runtime_delta (lg p) /\
        last_log (lg p') = last_log (lg p))) /\
  lcompleted (lg p') = (lcompleted (lg p) + 1)%Z /\ trials_delta (lg p') = trials_delta (lg p) /\ runtime_delta (lg p') = runtime_delta (lg p) /\
  lstart (lg p') = lstart (lg p) /\
  prior_runtime (lg p') = prior_runtime (lg p) + (if (pcompleted p + 1 =? pnum p)%Z then r3 t - lstart (lg p) else 0) /\
  pcompleted p' = (pcompleted p + 1)%Z /\ pnum p' = pnum p.
Proof.
  intros [l c n] t. cbv zeta. cbn [lstep the_trial]. unfold try_log, should_log. cbn [lg pcompleted pnum].
  change (last_log (trial_completed l)) with (last_log l). change (trials_delta (trial_completed l)) with (trials_delta l).
  change (lcompleted (trial_completed l)) with (lcompleted l + 1)%Z.
  destruct (last_log l + trials_delta l <=? lcompleted l + 1)%Z eqn:H1.
  - match goal with |- context [Rleb ?a ?b] => destruct (Rleb a b) end; split;
      try (exists true; split; [|split; [discriminate|intros _ Q; apply Z.leb_le in H1; lia]]);
      destruct (c + 1 =? n)%Z; cbn; repeat split; auto; lra.
  - apply Z.leb_gt in H1. match goal with |- context [Rleb ?a ?b] => destruct (Rleb a b) eqn:H2 end.
    + apply Rleb_true in H2. split.
      * exists true. split; [destruct (c + 1 =? n)%Z; reflexivity|]. split; [discriminate|]. intros _ _. split; [exact H2|].
        destruct (c + 1 =? n)%Z; cbn; auto.
      * destruct (c + 1 =? n)%Z; cbn; repeat split; auto; lra.
    + apply Rleb_false in H2. split.
      * exists false. split; [destruct (c + 1 =? n)%Z; cbn; now rewrite app_nil_r|]. split; [|discriminate].
        intros _. split; [exact H2|]. split; [lia|]. destruct (c + 1 =? n)%Z; cbn; auto.
      * destruct (c + 1 =? n)%Z; cbn; repeat split; auto; lra.
Qed.

Lemma entries_grow : forall ts p, exists new, entries (lg (lrun p (map the_trial ts))) = entries (lg p) ++ new.
Proof.
  induction ts as [|t ts IH]; intros p.
  - exists []. cbn. now rewrite app_nil_r.
  - cbn [map]. destruct (IH (lstep p (the_trial t))) as (new & E). destruct (any_trial p t) as ((b & Eb & _) & _).
    eexists. change (lrun p (the_trial t :: map the_trial ts)) with (lrun (lstep p (the_trial t)) (map the_trial ts)).
    rewrite E, Eb, <- app_assoc. reflexivity.
Qed.

(** Runtimes are nondecreasing and at most the current runtime. *)
Definition ordered (p : plog) (cur : R) : Prop :=
  nondecreasing (entries (lg p)) /\ (forall e, In e (entries (lg p)) -> runtime e <= total_runtime (lg p) cur) /\ lstart (lg p) <= cur.
Lemma ordered_trial : forall p t cur, ordered p cur -> cur <= r1 t -> r1 t <= r2 t -> r2 t <= r3 t -> ordered (lstep p (the_trial t)) (r3 t).
Proof.
  intros p t cur (H1 & H2 & H3) C1 C2 C3. destruct (any_trial p t) as ((b & Eb & _) & _ & _ & _ & Es & Ep & _).
  unfold total_runtime in H2.
  assert (Q : forall e, In e (entries (lg p)) -> runtime e <= total_runtime (lg p) (r2 t)).
  { intros e I. specialize (H2 e I). unfold total_runtime. lra. }
  assert (Pm : total_runtime (lg p) (r3 t) <= total_runtime (lg (lstep p (the_trial t))) (r3 t)).
  { unfold total_runtime. rewrite Ep, Es. destruct (pcompleted p + 1 =? pnum p)%Z; lra. }
  split; [|split].
  - unfold nondecreasing. rewrite Eb. destruct b; [|now rewrite app_nil_r]. rewrite map_app. cbn [map runtime].
    apply sorted_snoc; auto. intros y I. apply in_map_iff in I. destruct I as (e & <- & I). auto.
  - intros e I. rewrite Eb in I. apply in_app_or in I. apply Rle_trans with (total_runtime (lg p) (r3 t)); auto.
    destruct I as [I|I].
    + specialize (Q e I). unfold total_runtime in *. lra.
    + destruct b; [|destruct I]. destruct I as [<-|[]]. cbn [runtime]. unfold total_runtime. lra.
  - rewrite Es. lra.
Qed.
Lemma ordered_trials : forall ts p cur, ordered p cur -> clock cur ts -> exists cur', cur <= cur' /\ ordered (lrun p (map the_trial ts)) cur'.
Proof.
  induction ts as [|t ts IH]; intros p cur H K.
  - exists cur. split; [lra|exact H].
  - cbn [clock] in K. destruct K as (C1 & C2 & C3 & K).
    destruct (IH (lstep p (the_trial t)) (r3 t) (ordered_trial p t cur H C1 C2 C3) K) as (cur' & L & O). exists cur'. split; [lra|exact O].
Qed.

(** What is written by the trials alone is ordered, whatever was there before. *)
Lemma C52_within' : forall p n now ts, clock now ts ->
  exists new, entries (lg (lrun p (a_run n now ts))) = (if (size (lg p) =? 0)%Z then [mkEntry 0 0] else entries (lg p)) ++ new /\
    nondecreasing new /\ forall e, In e new -> prior_runtime (lg p) <= runtime e.
Proof.
  intros p n now ts K. rewrite run_split. destruct (log_run_facts p n now) as (F1 & F2 & F3 & _). rewrite <- F1, <- F2.
  set (p0 := log_run p n now) in *.
  assert (G : forall ts q cur old new0, clock cur ts -> entries (lg q) = old ++ new0 -> nondecreasing new0 ->
    (forall e, In e new0 -> prior_runtime (lg p0) <= runtime e <= total_runtime (lg q) cur) -> lstart (lg q) <= cur ->
    prior_runtime (lg p0) <= prior_runtime (lg q) ->
    exists new, entries (lg (lrun q (map the_trial ts))) = old ++ new /\ nondecreasing new /\
      forall e, In e new -> prior_runtime (lg p0) <= runtime e).
  { clear. induction ts as [|t ts IH]; intros q cur old new0 K E N H Ls Pr.
    - exists new0. split; [exact E|]. split; auto. intros e I. now apply H.
    - cbn [clock] in K. destruct K as (C1 & C2 & C3 & K). cbn [map].
      change (lrun q (the_trial t :: map the_trial ts)) with (lrun (lstep q (the_trial t)) (map the_trial ts)).
      destruct (any_trial q t) as ((b & Eb & _) & _ & _ & _ & Es & Ep & _).
      assert (Pm : prior_runtime (lg q) <= prior_runtime (lg (lstep q (the_trial t)))).
      { rewrite Ep. destruct (pcompleted q + 1 =? pnum q)%Z; lra. }
      apply (IH _ (r3 t) old (new0 ++ (if b then [mkEntry (total_runtime (lg q) (r2 t)) (tvisits t)] else []))); auto.
      + rewrite Eb, E, <- app_assoc. reflexivity.
      + unfold nondecreasing. destruct b; [|now rewrite app_nil_r]. rewrite map_app. apply sorted_snoc; auto.
        intros y I. apply in_map_iff in I. destruct I as (e & <- & I). destruct (H e I) as [_ I2]. unfold total_runtime in *. cbn [runtime]. lra.
      + intros e I. apply in_app_or in I. unfold total_runtime in *. rewrite Es. destruct I as [I|I].
        * destruct (H e I). lra.
        * destruct b; [|destruct I]. destruct I as [<-|[]]. cbn [runtime]. lra.
      + rewrite Es. lra.
      + lra. }
  apply (G ts p0 now (entries (lg p0)) []); auto.
  - now rewrite app_nil_r.
  - constructor.
  - intros e [].
  - rewrite F3. lra.
  - lra.
Qed.

(** The prior runtime after a complete first run. *)
Lemma prior_first : forall ts p now, clock now ts -> lstart (lg p) <= now -> (pcompleted p < pnum p)%Z ->
  Z.of_nat (length ts) = (pnum p - pcompleted p)%Z -> ordered p now ->
  exists last, In last (map r3 ts) /\ prior_runtime (lg (lrun p (map the_trial ts))) = prior_runtime (lg p) + (last - lstart (lg p)) /\
    (forall t, In t ts -> r3 t <= last) /\
    nondecreasing (entries (lg (lrun p (map the_trial ts)))) /\
    (forall e, In e (entries (lg (lrun p (map the_trial ts)))) -> runtime e <= prior_runtime (lg (lrun p (map the_trial ts)))).
Proof.
  induction ts as [|t ts IH]; intros p now K Ls Hlt Hn O.
  - cbn in Hn. lia.
  - cbn [clock] in K. destruct K as (C1 & C2 & C3 & K). cbn [map length] in *.
    change (lrun p (the_trial t :: map the_trial ts)) with (lrun (lstep p (the_trial t)) (map the_trial ts)).
    destruct (any_trial p t) as ((b & Eb & _) & _ & _ & _ & Es & Ep & Ec & En).
    pose proof (ordered_trial p t now O C1 C2 C3) as O'.
    destruct ts as [|u ts].
    + cbn [map lrun fold_left]. cbn [length] in Hn.
      assert (Hh : (pcompleted p + 1 =? pnum p)%Z = true) by (apply Z.eqb_eq; lia). rewrite Hh in Ep.
      exists (r3 t). split; [now left|]. split; [exact Ep|]. split; [intros v [<-|[]]; lra|].
      split; [exact (proj1 O')|].
      intros e I. rewrite Eb in I. rewrite Ep. destruct O as (O1 & O2 & O3). unfold total_runtime in *.
      apply in_app_or in I. destruct I as [I|I]; [specialize (O2 e I); lra|].
      destruct b; [|destruct I]. destruct I as [<-|[]]. cbn [runtime]. lra.
    + assert (Hh : (pcompleted p + 1 =? pnum p)%Z = false) by (apply Z.eqb_neq; cbn [length] in Hn; lia). rewrite Hh in Ep.
      destruct (IH (lstep p (the_trial t)) (r3 t) K) as (last & L1 & L2 & L3 & L4 & L5).
      * rewrite Es. lra.
      * rewrite Ec, En. cbn [length] in Hn. lia.
      * rewrite Ec, En. cbn [length] in *. lia.
      * exact O'.
      * exists last. split; [now right|]. split; [rewrite L2, Ep, Es; lra|]. split; [|split; auto].
        intros v [<-|I]; [|now apply L3]. cbn [clock] in K. destruct K as (D1 & D2 & D3 & _).
        specialize (L3 u (or_introl eq_refl)). lra.
Qed.

(** ** Runtime-triggered entries *)
Lemma C66_late' : forall p n now ts, clock now ts -> 0 <= runtime_delta (lg p) ->
  (lcompleted (lg p) + Z.of_nat (length ts) < trials_delta (lg p))%Z ->
  exists new, entries (lg (lrun p (a_run n now ts))) = (if (size (lg p) =? 0)%Z then [mkEntry 0 0] else entries (lg p)) ++ new /\
    forall i e, nth_error new i = Some e -> INR (i + 1) * runtime_delta (lg p) <= runtime e.
Proof.
  intros p n now ts K Hd Ht. rewrite run_split. destruct (log_run_facts p n now) as (F1 & F2 & F3 & F4 & F5 & F6 & F7 & F8 & _).
  rewrite <- F1, <- F8. rewrite <- F4, <- F5 in Ht. rewrite <- F8 in F7. rewrite <- F8 in Hd. set (p0 := log_run p n now) in *. clearbody p0. clear F1 F2 F4 F5 F8 F3.
  assert (G : forall ts q cur old new0, clock cur ts -> runtime_delta (lg q) = runtime_delta (lg p0) -> last_log (lg q) = 0%Z ->
    (lcompleted (lg q) + Z.of_nat (length ts) < trials_delta (lg q))%Z -> entries (lg q) = old ++ new0 ->
    next_threshold (lg q) = INR (length new0 + 1) * runtime_delta (lg p0) ->
    (forall i e, nth_error new0 i = Some e -> INR (i + 1) * runtime_delta (lg p0) <= runtime e) ->
    exists new, entries (lg (lrun q (map the_trial ts))) = old ++ new /\
      forall i e, nth_error new i = Some e -> INR (i + 1) * runtime_delta (lg p0) <= runtime e).
  { clear - Hd. induction ts as [|t ts IH]; intros q cur old new0 K Er Ll Ht E Nx H.
    - exists new0. split; [exact E|exact H].
    - cbn [clock] in K. destruct K as (C1 & C2 & C3 & K). cbn [map length] in *.
      change (lrun q (the_trial t :: map the_trial ts)) with (lrun (lstep q (the_trial t)) (map the_trial ts)).
      destruct (any_trial q t) as ((b & Eb & B1 & B2) & Ec & Ed & Er' & Es & Ep & _).
      apply (IH _ (r3 t) old (new0 ++ (if b then [mkEntry (total_runtime (lg q) (r2 t)) (tvisits t)] else []))); auto.
      + congruence.
      + destruct b; [destruct (B2 eq_refl ltac:(lia)) as (_ & _ & Z)|destruct (B1 eq_refl) as (_ & _ & _ & Z)]; congruence.
      + rewrite Ec, Ed. lia.
      + rewrite Eb, E, <- app_assoc. reflexivity.
      + destruct b.
        * destruct (B2 eq_refl ltac:(lia)) as (_ & Z & _). rewrite Z, Nx, Er, app_length. cbn [length].
          rewrite (plus_INR (length new0 + 1) 1). cbn [INR]. lra.
        * destruct (B1 eq_refl) as (_ & _ & Z & _). rewrite app_nil_r. congruence.
      + intros i e I. destruct b; [|rewrite app_nil_r in I; now apply H].
        destruct (Nat.lt_ge_cases i (length new0)) as [L|L].
        * rewrite nth_error_app1 in I by auto. now apply H.
        * rewrite nth_error_app2 in I by auto. destruct (i - length new0)%nat as [|k] eqn:Ei; [|destruct k; discriminate].
          cbn in I. injection I as <-. cbn [runtime]. destruct (B2 eq_refl ltac:(lia)) as (Z & _ & _).
          replace i with (length new0) by lia. rewrite <- Nx. unfold total_runtime in *. lra. }
  apply (G ts p0 now (entries (lg p0)) []); auto.
  - now rewrite app_nil_r.
  - rewrite F7. cbn. lra.
  - intros [|i] e [=].
Qed.

Lemma C52_two' : forall p n1 now1 ts1 n2 now2 ts2, entries (lg p) = [] -> prior_runtime (lg p) = 0 -> pcompleted p = 0%Z ->
  (1 <= n1)%Z -> Z.of_nat (length ts1) = n1 -> clock now1 ts1 -> clock now2 ts2 ->
  (exists last, (forall t, In t ts1 -> r3 t <= last) /\ In last (map r3 ts1) /\
     prior_runtime (lg (lrun p (a_run n1 now1 ts1))) = last - now1) /\
  nondecreasing (entries (lg (lrun p (a_run n1 now1 ts1 ++ a_run n2 now2 ts2)))).
Proof.
  intros p n1 now1 ts1 n2 now2 ts2 He Hp Hc Hn Hl K1 K2. rewrite lrun_app, run_split.
  destruct (log_run_facts p n1 now1) as (F1 & F2 & F3 & _ & _ & _ & _ & _ & F9 & F10). set (p0 := log_run p n1 now1) in *.
  assert (Sz : (size (lg p) =? 0)%Z = true) by (unfold size; rewrite He; reflexivity). rewrite Sz in F1.
  assert (O : ordered p0 now1).
  { split; [|split].
    - unfold nondecreasing. rewrite F1. cbn. constructor; constructor.
    - intros e I. rewrite F1 in I. destruct I as [<-|[]]. unfold total_runtime. cbn [runtime]. rewrite F2, F3, Hp. lra.
    - rewrite F3. lra. }
  destruct (prior_first ts1 p0 now1 K1) as (last & L1 & L2 & L3 & L4 & L5); auto.
  - rewrite F3. lra.
  - rewrite F9, F10, Hc. lia.
  - rewrite F9, F10, Hc. lia.
  - split.
    + exists last. split; auto. split; auto. rewrite L2, F2, F3, Hp. lra.
    + set (q := lrun p0 (map the_trial ts1)) in *. rewrite run_split.
      destruct (log_run_facts q n2 now2) as (G1 & G2 & G3 & _). set (q0 := log_run q n2 now2) in *.
      assert (Sq : (size (lg q) =? 0)%Z = false).
      { destruct (entries_grow ts1 p0) as (new & E). unfold size. unfold q. rewrite E, F1. apply Z.eqb_neq. cbn. lia. }
      rewrite Sq in G1.
      assert (O2 : ordered q0 now2).
      { split; [|split].
        - rewrite G1. exact L4.
        - intros e I. rewrite G1 in I. unfold total_runtime. rewrite G2, G3. specialize (L5 e I). lra.
        - rewrite G3. lra. }
      destruct (ordered_trials ts2 q0 now2 O2 K2) as (cur & _ & O3). exact (proj1 O3).
Qed.

(** ** Concrete runs *)
Lemma run_nil : forall p, lrun p [] = p.
Proof. reflexivity. Qed.
Lemma run_start : forall es pr st c d last rd nx pc pn n now os,
  lrun (mkP (mkLog es pr st c d last rd nx) pc pn) (LRun n now :: os) =
  lrun (mkP (mkLog (match es with [] => [mkEntry 0 0] | _ => es end) pr now c d 0 rd rd) pc n) os.
Proof.
  intros [|e es] pr st c d last rd nx pc pn n now os; reflexivity.
Qed.
Lemma run_trial : forall b1 b2 es pr st c d last rd nx pc pn t1 t2 t3 v os,
  (last + d <=? c + 1)%Z = b1 -> Rleb nx (pr + (t1 - st)) = b2 ->
  lrun (mkP (mkLog es pr st c d last rd nx) pc pn) (LTrial t1 t2 t3 v :: os) =
  lrun (mkP (mkLog (es ++ if b1 || b2 then [mkEntry (pr + (t2 - st)) v] else []) (if (pc + 1 =? pn)%Z then pr + (t3 - st) else pr)
                   st (c + 1) d (if b1 then c + 1 else last)%Z rd (if b2 then nx + rd else nx)) (pc + 1) pn) os.
Proof.
  intros b1 b2 es pr st c d last rd nx pc pn t1 t2 t3 v os H1 H2.
  unfold lrun. cbn [fold_left lstep]. f_equal. unfold try_log, should_log, trial_completed, total_runtime.
  cbn [lg pcompleted pnum entries prior_runtime lstart lcompleted trials_delta last_log runtime_delta next_threshold]. rewrite H1.
  destruct b1; cbn [lg pcompleted pnum entries prior_runtime lstart lcompleted trials_delta last_log runtime_delta next_threshold];
    rewrite H2; destruct b2; cbn [orb]; destruct (pc + 1 =? pn)%Z; rewrite ?app_nil_r; reflexivity.
Qed.
