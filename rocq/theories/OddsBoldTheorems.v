(** Property theorem C95: with probability as close to 1 as wanted, MENTS and its relatives explore the whole environment up to
    the maximal depth, sample outcomes as often as they are likely, and their values converge - for every game, every number of
    threads and every scheduler that cannot see coming random numbers. Probability is counted as in C93. *)
From Coq Require Import List ZArith Bool Reals Lia Lra Permutation.
From Verif Require Import Base BaseProofs NumOps HelperModel HelperSpec EngineModel EngineSpec EngineProofs EngineTheorems AlgoModel AlgoProofs AlgoTheorems AlgoFinish QuietSpec UctModel
  MentsModel SoftSpec MentsSpec DbRun DentsRun TentsRun MentsTheorems DentsSpec DentsTheorems TentsSpec TreeSpec TreeTheorems WorldSpec WorldProofs WorldExamples WorldTheorems
  UctTheorems RecSpec PickSpec LseReal ConvSpec ConvMain ConvTheorems OddsSpec OddsReads OddsBoldSpec OddsBoldResults.
Import ListNotations.
Open Scope R_scope.

Section Theorems.
Context {S A : Type}.
Variable seqb : S -> S -> bool.
Variable aeqb : A -> A -> bool.
Hypothesis seqb_ok : decides seqb.
Hypothesis aeqb_ok : decides aeqb.
(** A game: trees, not graphs; at most [NA] actions. *)
Variable C : @econf S A.
Variable M0 : @mconf S A.
Hypothesis NoTT : use_tt C = false.
Hypothesis Env0 : env_ok C M0.
Hypothesis Succ : forall s a, succs C s a = map fst (mdistr M0 s a).
Variable NA : R.
Hypothesis Few : few_actions C NA.

(** [alg] with any settings for the game that meet [extra] and give every action the probability [q] for [N0] visits makes [P]
    true in all but a share [delta] of draws, in any state with no trial under way after [N0] trials. [N0] depends on the game,
    [delta] and [q] only. *)
Notation converges alg extra delta q P := (exists N0 : nat, forall M : @mconf S A, settings_for C M0 M -> extra M -> bold M NA q (init_visits C + Z.of_nat N0) ->
  forall n ints N sched T, (forall i, (0 <= ints i)%Z) -> exact_draws C (mdistr M0) N -> 2 <= q * INR N ->
  surely_but seqb aeqb C (alg M) delta n ints N sched T (fun s => quiet (base s) -> (Z.of_nat N0 <= count is_done (etrace (base s)))%Z -> P M s)) (only parsing).

(** ** Exploration *)
Notation explores alg := (forall delta q eps, 0 < delta -> 0 < q <= 1 -> 0 < eps ->
  converges alg (fun _ : @mconf S A => True) delta q (fun M (s : ast (alg M)) => explored aeqb C (mem (base s)) /\ faithful M0 (samples C) eps (mem (base s)) /\ faithful M0 (dp_samples C) eps (mem (base s)))) (only parsing).
Theorem C95_ments_explores : explores (fun M => ments aeqb C M).
Proof. exact (spreads seqb aeqb seqb_ok aeqb_ok C M0 NoTT Env0 Succ NA _ _ (ments_member seqb aeqb seqb_ok aeqb_ok C M0 Env0 NA Few)). Qed.
Theorem C95_dbments_explores : explores (fun M => dbments aeqb C M).
Proof. exact (spreads seqb aeqb seqb_ok aeqb_ok C M0 NoTT Env0 Succ NA _ _ (db_member seqb aeqb seqb_ok aeqb_ok C M0 Env0 NA Few)). Qed.
Theorem C95_est_explores : explores (fun M => est aeqb C M).
Proof. exact (spreads seqb aeqb seqb_ok aeqb_ok C M0 NoTT Env0 Succ NA _ _ (es_member seqb aeqb seqb_ok aeqb_ok C M0 Env0 NA Few)). Qed.
Theorem C95_rents_explores : explores (fun M => rents aeqb C M).
Proof. exact (spreads seqb aeqb seqb_ok aeqb_ok C M0 NoTT Env0 Succ NA _ _ (ra_member seqb aeqb seqb_ok aeqb_ok C M0 Env0 NA Few)). Qed.
Theorem C95_tents_explores : explores (fun M => tents aeqb C M).
Proof. exact (spreads seqb aeqb seqb_ok aeqb_ok C M0 NoTT Env0 Succ NA _ _ (ta_member seqb aeqb seqb_ok aeqb_ok C M0 Env0 NA Few)). Qed.
Theorem C95_dents_explores : explores (fun M => dents aeqb C M).
Proof.
  intros delta q eps Hd Hq He. destruct (spreads seqb aeqb seqb_ok aeqb_ok C M0 NoTT Env0 Succ NA _ _ (de_member seqb aeqb seqb_ok aeqb_ok C M0 Env0 NA Few) delta q eps Hd Hq He) as (N0 & H).
  exists N0. intros M St _ B. apply H; auto. apply (bold_fresh C NA Few M q (init_visits C + Z.of_nat N0)); auto; [lra|]. pose proof (eo_visits _ _ Env0). lia.
Qed.

(** ** Values *)
Variables Hb Rw : R.
Hypothesis Bd : world_bounds C M0 Hb Rw.
(** Those of dynamic programming become those of the game. *)
Section Best.
Variable V : nat -> S -> Z -> R.
Hypothesis Sv : solves C M0 greatest V.
Theorem C95_dbments_values : forall delta q err, 0 < delta -> 0 < q <= 1 -> 0 < err ->
  converges (fun M => dbments aeqb C M) (fun _ : @mconf S A => True) delta q (fun M (s : ast (dbments aeqb C M)) => approximates aeqb C M0 s (fun x : mmem * vmem => v_val (snd x)) (fun x : cmem * vmem => v_val (snd x)) V (fun _ => err)).
Proof.
  intros delta q err Hd Hq He.
  destruct (near seqb aeqb seqb_ok aeqb_ok C M0 NoTT Env0 Succ NA Hb Rw Bd (fun M => dbments aeqb C M) _ (fun _ => True) (dp_samples C) (fun M x => v_val (snd x)) (fun M x => v_val (snd x)) V Rw (db_member seqb aeqb seqb_ok aeqb_ok C M0 Env0 NA Few)
    (or_intror eq_refl) ltac:(apply Bd)) with (delta := delta) (q := q) (err := err) as (N0 & H); auto.
  - intros M (_ & _ & _ & Sg) _. exact (C89_dbments seqb aeqb seqb_ok aeqb_ok C M NoTT (game_env C M0 Env0 M Sg) Hb Rw (game_bounds C M0 M Hb Rw Sg Bd) V (game_solves C M0 M _ V Sg Sv)).
  - exists N0. intros M St Ex B. exact (H M St Logic.I Logic.I B).
Qed.
Theorem C95_dents_values : forall delta q err, 0 < delta -> 0 < q <= 1 -> 0 < err ->
  converges (fun M => dents aeqb C M) (fun M : @mconf S A => muse_dp M = true) delta q (fun M (s : ast (dents aeqb C M)) => approximates aeqb C M0 s (fun x : dmem => v_val (d_dp x)) (fun x : dcmem => v_val (dc_dp x)) V (fun _ => err)).
Proof.
  intros delta q err Hd Hq He.
  destruct (near seqb aeqb seqb_ok aeqb_ok C M0 NoTT Env0 Succ NA Hb Rw Bd (fun M => dents aeqb C M) _ (fun M => muse_dp M = true) (dp_samples C) (fun M x => v_val (d_dp x)) (fun M x => v_val (dc_dp x)) V Rw (de_member seqb aeqb seqb_ok aeqb_ok C M0 Env0 NA Few)
    (or_intror eq_refl) ltac:(apply Bd)) with (delta := delta) (q := q) (err := err) as (N0 & H); auto.
  - intros M (_ & _ & _ & Sg) U. exact (C89_dents seqb aeqb seqb_ok aeqb_ok C M NoTT (game_env C M0 Env0 M Sg) Hb Rw (game_bounds C M0 M Hb Rw Sg Bd) V (game_solves C M0 M _ V Sg Sv) U).
  - exists N0. intros M St U B. refine (H M St _ U B). apply (bold_fresh C NA Few M q (init_visits C + Z.of_nat N0)); auto; [lra|]. pose proof (eo_visits _ _ Env0). lia.
Qed.
Theorem C95_est_values : forall delta q err, 0 < delta -> 0 < q <= 1 -> 0 < err ->
  converges (fun M => est aeqb C M) (fun M : @mconf S A => muse_dp M = true) delta q (fun M (s : ast (est aeqb C M)) => approximates aeqb C M0 s (fun x : dmem => v_val (d_dp x)) (fun x : dcmem => v_val (dc_dp x)) V (fun _ => err)).
Proof.
  intros delta q err Hd Hq He.
  destruct (near seqb aeqb seqb_ok aeqb_ok C M0 NoTT Env0 Succ NA Hb Rw Bd (fun M => est aeqb C M) _ (fun M => muse_dp M = true) (dp_samples C) (fun M x => v_val (d_dp x)) (fun M x => v_val (dc_dp x)) V Rw (es_member seqb aeqb seqb_ok aeqb_ok C M0 Env0 NA Few)
    (or_intror eq_refl) ltac:(apply Bd)) with (delta := delta) (q := q) (err := err) as (N0 & H); auto.
  - intros M (_ & _ & _ & Sg) U. exact (C89_est seqb aeqb seqb_ok aeqb_ok C M NoTT (game_env C M0 Env0 M Sg) Hb Rw (game_bounds C M0 M Hb Rw Sg Bd) V (game_solves C M0 M _ V Sg Sv) U).
  - exists N0. intros M St U B. exact (H M St Logic.I U B).
Qed.

(** ** Recommendations *)
(** By these values, at the root: only actions that are worth as much as the game. *)
Section Recommend.
Hypothesis Start : is_sink C (root_state C) = false.
Hypothesis Some_depth : (0 < max_depth C)%Z.
Variables hl hu rl ru : R.
Hypothesis Rg : range_ok C M0 hl hu rl ru.
Hypothesis Lo : dbl_lowest <= least_left C hl rl 0.
Hypothesis Hi : most_left C hu ru 0 <= - dbl_lowest.
Definition by_value (M : @mconf S A) : Prop := mmost_visited M = false /\ (mthreshold M <= 1)%Z.
Notation recommends alg rec := (fun M (s : ast (alg M)) => exists root, nth_error (dh (mem (base s))) 0 = Some root /\ always (rec M root (dview s root)) (best_first C M0 V)) (only parsing).
Lemma game_range : forall M, same_game M0 M -> range_ok C M hl hu rl ru.
Proof using Rg. intros M (_ & E & _). destruct Rg. constructor; auto. now rewrite E. Qed.
Theorem C95_dbments_recommends_best : forall delta q, 0 < delta -> 0 < q <= 1 ->
  converges (fun M => dbments aeqb C M) by_value delta q (recommends (fun M => dbments aeqb C M) (fun M => dbments_recommend aeqb C M)).
Proof.
  intros delta q Hd Hq.
  destruct (picks_well seqb aeqb seqb_ok aeqb_ok C M0 NoTT Env0 Succ NA Hb Rw Bd (fun M => dbments aeqb C M) _ by_value (fun M => dbments_recommend aeqb C M) V (db_member seqb aeqb seqb_ok aeqb_ok C M0 Env0 NA Few)) with (delta := delta) (q := q) as (N0 & H); auto.
  - intros M (Mok & _ & _ & Sg) (B1 & B2). exact (C89_dbments_recommends seqb aeqb seqb_ok aeqb_ok C M NoTT (game_env C M0 Env0 M Sg) Hb Rw (game_bounds C M0 M Hb Rw Sg Bd) V (game_solves C M0 M _ V Sg Sv) Mok B1 B2 hl hu rl ru (game_range M Sg) Lo Hi).
  - exists N0. intros M St Ex B. exact (H M St Logic.I Ex B).
Qed.
Theorem C95_dents_recommends_best : forall delta q, 0 < delta -> 0 < q <= 1 ->
  converges (fun M => dents aeqb C M) (fun M => by_value M /\ muse_dp M = true) delta q (recommends (fun M => dents aeqb C M) (fun M => dents_recommend aeqb C M)).
Proof.
  intros delta q Hd Hq.
  destruct (picks_well seqb aeqb seqb_ok aeqb_ok C M0 NoTT Env0 Succ NA Hb Rw Bd (fun M => dents aeqb C M) _ (fun M => by_value M /\ muse_dp M = true) (fun M => dents_recommend aeqb C M) V (de_member seqb aeqb seqb_ok aeqb_ok C M0 Env0 NA Few)) with (delta := delta) (q := q) as (N0 & H); auto.
  - intros M (Mok & _ & _ & Sg) ((B1 & B2) & U). exact (C89_dents_recommends seqb aeqb seqb_ok aeqb_ok C M NoTT (game_env C M0 Env0 M Sg) Hb Rw (game_bounds C M0 M Hb Rw Sg Bd) V (game_solves C M0 M _ V Sg Sv) Mok B1 B2 hl hu rl ru (game_range M Sg) Lo Hi U).
  - exists N0. intros M St Ex B. refine (H M St _ Ex B). apply (bold_fresh C NA Few M q (init_visits C + Z.of_nat N0)); auto; [lra|]. pose proof (eo_visits _ _ Env0). lia.
Qed.
Theorem C95_est_recommends_best : forall delta q, 0 < delta -> 0 < q <= 1 ->
  converges (fun M => est aeqb C M) (fun M => by_value M /\ muse_dp M = true) delta q (recommends (fun M => est aeqb C M) (fun M => dents_recommend aeqb C M)).
Proof.
  intros delta q Hd Hq.
  destruct (picks_well seqb aeqb seqb_ok aeqb_ok C M0 NoTT Env0 Succ NA Hb Rw Bd (fun M => est aeqb C M) _ (fun M => by_value M /\ muse_dp M = true) (fun M => dents_recommend aeqb C M) V (es_member seqb aeqb seqb_ok aeqb_ok C M0 Env0 NA Few)) with (delta := delta) (q := q) as (N0 & H); auto.
  - intros M (Mok & _ & _ & Sg) ((B1 & B2) & U). exact (C89_est_recommends seqb aeqb seqb_ok aeqb_ok C M NoTT (game_env C M0 Env0 M Sg) Hb Rw (game_bounds C M0 M Hb Rw Sg Bd) V (game_solves C M0 M _ V Sg Sv) Mok B1 B2 hl hu rl ru (game_range M Sg) Lo Hi U).
  - exists N0. intros M St Ex B. exact (H M St Logic.I Ex B).
Qed.
End Recommend.
End Best.

(** Soft values at a fixed temperature [tau] become those of the game in which whoever moves is paid [tau] times the entropy of
    their choice; for TENTS, its sparse entropy. *)
Section Soft.
Variable tau : R.
Hypothesis Tp : 0 < tau.
Definition steady (M : @mconf S A) : Prop := mtemp M = tau /\ mdecay M = None.
Lemma paid : 0 <= Rw + tau * ln NA.
Proof using Tp Few Bd.
  assert (0 <= ln NA). { rewrite <- ln_1. destruct (Req_dec NA 1) as [->|]; [lra|]. left. apply ln_increasing; [lra|]. destruct Few. lra. }
  assert (0 <= Rw) by apply Bd. nra.
Qed.
Theorem C95_ments_values : forall V, solves C M0 (greatest_mixed (entropy_bonus tau)) V -> forall delta q err, 0 < delta -> 0 < q <= 1 -> 0 < err ->
  converges (fun M => ments aeqb C M) steady delta q (fun M (s : ast (ments aeqb C M)) => approximates aeqb C M0 s m_soft c_soft V (fun _ => err)).
Proof.
  intros V Sv delta q err Hd Hq He.
  destruct (near seqb aeqb seqb_ok aeqb_ok C M0 NoTT Env0 Succ NA Hb Rw Bd (fun M => ments aeqb C M) _ steady (samples C) (fun M x => m_soft x) (fun M x => c_soft x) V (Rw + tau * ln NA) (ments_member seqb aeqb seqb_ok aeqb_ok C M0 Env0 NA Few)
    (or_introl eq_refl) paid) with (delta := delta) (q := q) (err := err) as (N0 & H); auto.
  - intros M (_ & Pr & _ & Sg) (<- & Dn). exact (C89_ments seqb aeqb seqb_ok aeqb_ok C M NoTT (game_env C M0 Env0 M Sg) Hb Rw (game_bounds C M0 M Hb Rw Sg Bd) Pr Tp Dn NA Few V (game_solves C M0 M _ V Sg Sv)).
  - exists N0. intros M St U B. exact (H M St Logic.I U B).
Qed.
Theorem C95_dbments_soft_values : forall V, solves C M0 (greatest_mixed (entropy_bonus tau)) V -> forall delta q err, 0 < delta -> 0 < q <= 1 -> 0 < err ->
  converges (fun M => dbments aeqb C M) steady delta q (fun M (s : ast (dbments aeqb C M)) => approximates aeqb C M0 s (fun x : mmem * vmem => m_soft (fst x)) (fun x : cmem * vmem => c_soft (fst x)) V (fun _ => err)).
Proof.
  intros V Sv delta q err Hd Hq He.
  destruct (near seqb aeqb seqb_ok aeqb_ok C M0 NoTT Env0 Succ NA Hb Rw Bd (fun M => dbments aeqb C M) _ steady (samples C) (fun M x => m_soft (fst x)) (fun M x => c_soft (fst x)) V (Rw + tau * ln NA) (db_member seqb aeqb seqb_ok aeqb_ok C M0 Env0 NA Few)
    (or_introl eq_refl) paid) with (delta := delta) (q := q) (err := err) as (N0 & H); auto.
  - intros M (_ & Pr & _ & Sg) (<- & Dn). exact (C89_dbments_soft seqb aeqb seqb_ok aeqb_ok C M NoTT (game_env C M0 Env0 M Sg) Hb Rw (game_bounds C M0 M Hb Rw Sg Bd) Pr Tp Dn NA Few V (game_solves C M0 M _ V Sg Sv)).
  - exists N0. intros M St U B. exact (H M St Logic.I U B).
Qed.
Theorem C95_tents_values : forall V, solves C M0 (greatest_mixed (sparse_bonus tau)) V -> forall delta q err, 0 < delta -> 0 < q <= 1 -> 0 < err ->
  converges (fun M => tents aeqb C M) steady delta q (fun M (s : ast (tents aeqb C M)) => approximates aeqb C M0 s (fun x : @tmem A => m_soft (t_m x)) c_soft V (fun _ => err)).
Proof.
  intros V Sv delta q err Hd Hq He. assert (Rp : 0 <= Rw) by apply Bd.
  destruct (near seqb aeqb seqb_ok aeqb_ok C M0 NoTT Env0 Succ NA Hb Rw Bd (fun M => tents aeqb C M) _ steady (samples C) (fun M x => m_soft (t_m x)) (fun M x => c_soft x) V (Rw + tau / 2) (ta_member seqb aeqb seqb_ok aeqb_ok C M0 Env0 NA Few)
    (or_introl eq_refl) ltac:(lra)) with (delta := delta) (q := q) (err := err) as (N0 & H); auto.
  - intros M (_ & Pr & _ & Sg) (<- & Dn). exact (C89_tents seqb aeqb seqb_ok aeqb_ok C M NoTT (game_env C M0 Env0 M Sg) Hb Rw (game_bounds C M0 M Hb Rw Sg Bd) Pr Tp Dn V (game_solves C M0 M _ V Sg Sv)).
  - exists N0. intros M St U B. exact (H M St Logic.I U B).
Qed.
End Soft.

(** ** None of this is empty *)
(** Any settings for the game become bold ones, for as many visits as wanted, if exploration is turned up. *)
Definition turn_up (q : R) (V : Z) (M : @mconf S A) : @mconf S A :=
  @mkM S A (mtemp M) (mprior_w M) (q * NA * ln (IZR V + 2)) (-1) 1 (mdecay M) (mmin_temp M) (mscale M) (mroot_scale M) (mdefault_q M) (mshift M) (moffset M) (mthreshold M) (mmost_visited M) (mprior M) (mtwo M) (mreward M)
    (mdistr M) (morder M) (vdecay M) (vinit M) (vmin M) (vscale M) (vroot_scale M) (muse_dp M).
Theorem C95_bold_settings_exist : forall M q V, settings_for C M0 M -> / IZR (10 ^ 16) <= q -> q * NA <= 1 -> (0 <= V)%Z ->
  settings_for C M0 (turn_up q V M) /\ bold (turn_up q V M) NA q V.
Proof using Few.
  intros M q V (Mok & Pr & Ex & Sg) Hq Hm HV. assert (N1 : 1 <= NA) by apply Few. apply IZR_le in HV.
  assert (E16 : 0 < / IZR (10 ^ 16)) by (apply Rinv_0_lt_compat, IZR_lt; reflexivity).
  assert (L : 0 < ln (IZR V + 2)) by (rewrite <- ln_1; apply ln_increasing; lra). split.
  - split; [exact Mok|]. split; [exact Pr|]. split; [|exact Sg]. split; cbn; [|lra]. repeat apply Rmult_le_pos; lra.
  - split; auto. split; [cbn; lra|]. split; [left; cbn; lra|cbn; lra].
Qed.
(** Schedulers exist under which any number of trials is completed, whatever is drawn (with fewer than 10^16 / [NA] values per draw). *)
Notation runs alg extra := (forall (M : @mconf S A) n ints, settings_for C M0 M -> extra M -> (0 < n)%nat -> (forall i, (0 <= ints i)%Z) ->
  exists sched, forall N T u m, (0 < N)%nat -> INR N * NA < IZR (10 ^ 16) -> word N T u ->
  exists s, outcome_of seqb aeqb C (alg M) n ints N sched u s /\ quiet (base s) /\ count is_start (etrace (base s)) = Z.of_nat m /\ count is_done (etrace (base s)) = Z.of_nat m) (only parsing).
Notation all := (fun _ : @mconf S A => True) (only parsing).
Theorem C95_ments_runs : runs (fun M => ments aeqb C M) all.
Proof. exact (bold_runs seqb aeqb seqb_ok aeqb_ok C M0 Env0 NA Few _ _ 0%nat (ments_member seqb aeqb seqb_ok aeqb_ok C M0 Env0 NA Few) (fun M => one_look_at_most _ _ (ments aeqb C M) (fun _ => conj eq_refl eq_refl))). Qed.
Theorem C95_dbments_runs : runs (fun M => dbments aeqb C M) all.
Proof. exact (bold_runs seqb aeqb seqb_ok aeqb_ok C M0 Env0 NA Few _ _ 2%nat (db_member seqb aeqb seqb_ok aeqb_ok C M0 Env0 NA Few) (fun M => dbments_looks S A aeqb C M)). Qed.
Theorem C95_est_runs : runs (fun M => est aeqb C M) all.
Proof. exact (bold_runs seqb aeqb seqb_ok aeqb_ok C M0 Env0 NA Few _ _ 0%nat (es_member seqb aeqb seqb_ok aeqb_ok C M0 Env0 NA Few) (fun M => one_look_at_most _ _ (est aeqb C M) (fun _ => conj eq_refl eq_refl))). Qed.
Theorem C95_rents_runs : runs (fun M => rents aeqb C M) all.
Proof. exact (bold_runs seqb aeqb seqb_ok aeqb_ok C M0 Env0 NA Few _ _ 0%nat (ra_member seqb aeqb seqb_ok aeqb_ok C M0 Env0 NA Few) (fun M => one_look_at_most _ _ (rents aeqb C M) (fun _ => conj eq_refl eq_refl))). Qed.
Theorem C95_tents_runs : runs (fun M => tents aeqb C M) all.
Proof. exact (bold_runs seqb aeqb seqb_ok aeqb_ok C M0 Env0 NA Few _ _ 0%nat (ta_member seqb aeqb seqb_ok aeqb_ok C M0 Env0 NA Few) (fun M => one_look_at_most _ _ (tents aeqb C M) (fun _ => conj eq_refl eq_refl))). Qed.
Theorem C95_dents_runs : runs (fun M => dents aeqb C M) (fun M => fresh_known C M).
Proof. exact (bold_runs seqb aeqb seqb_ok aeqb_ok C M0 Env0 NA Few _ _ 3%nat (de_member seqb aeqb seqb_ok aeqb_ok C M0 Env0 NA Few) (fun M => dents_looks S A aeqb C M)). Qed.
End Theorems.

Print Assumptions C95_ments_explores.
Print Assumptions C95_dbments_explores.
Print Assumptions C95_est_explores.
Print Assumptions C95_rents_explores.
Print Assumptions C95_tents_explores.
Print Assumptions C95_dents_explores.
Print Assumptions C95_dbments_values.
Print Assumptions C95_dents_values.
Print Assumptions C95_est_values.
Print Assumptions C95_dbments_recommends_best.
Print Assumptions C95_dents_recommends_best.
Print Assumptions C95_est_recommends_best.
Print Assumptions C95_ments_values.
Print Assumptions C95_dbments_soft_values.
Print Assumptions C95_tents_values.
Print Assumptions C95_bold_settings_exist.
Print Assumptions C95_ments_runs.
Print Assumptions C95_dbments_runs.
Print Assumptions C95_est_runs.
Print Assumptions C95_rents_runs.
Print Assumptions C95_tents_runs.
Print Assumptions C95_dents_runs.

(** ** A game that meets the hypotheses *)
(** From state 0, action true leads to state 1 or 2 by the toss of a coin, action false to state 3. Whatever is done next pays 4 in
    state 1, nothing in state 2 and 1 in state 3. *)
Definition toss_pays (s : nat) : R := match s with 1%nat => 4 | 3%nat => 1 | _ => 0 end.
Definition toss_distr (s : nat) (a : bool) : list (nat * R) := match s with O => if a then [(1%nat, 1/2); (2%nat, 1/2)] else [(3%nat, 1)] | _ => [(s, 1)] end.
Definition toss_conf : @econf nat bool :=
  mkConf (fun _ => false) (fun _ => [true; false]) (fun s a => map fst (toss_distr s a)) (fun s _ _ => toss_pays s) None 2 false false 0 0%nat 0.
Definition toss_mc : @mconf nat bool :=
  @mkM nat bool 1 (-1) 1 (-1) 1 None (1/10) 1 (-1) 0 false 0 0 false None false (fun s _ => toss_pays s)
      toss_distr (fun (V : Type) (m : list (bool * V)) => m) None 1 1 1 1 true.
Lemma toss_env : env_ok toss_conf toss_mc.
Proof.
  constructor; cbn; try lia.
  - discriminate.
  - intros _. repeat constructor; cbn; intuition discriminate.
  - intros s a _ _. split.
    + intros k w I. destruct s as [|s]; [destruct a|]; cbn in I; intuition (match goal with H : (_, _) = _ |- _ => injection H as <- <- end; lra).
    + destruct s as [|s]; [destruct a|]; cbn; lra.
Qed.
Lemma toss_settings : settings_for toss_conf toss_mc toss_mc.
Proof.
  split; [split; [intros; cbn; apply Permutation_refl|reflexivity]|]. split; [split; [intros p [=]|left; cbn; lra]|]. split; [split; cbn; lra|repeat split].
Qed.
Lemma toss_few : few_actions toss_conf 2.
Proof. split; [lra|intros s; cbn; lra]. Qed.
Lemma toss_bounds : world_bounds toss_conf toss_mc 0 4.
Proof.
  split; [lra|]. split; [lra|]. split; [intros s; cbn; rewrite Rabs_R0; lra|]. intros s a. cbn. unfold toss_pays. destruct s as [|[|[|[|s]]]]; rewrite ?Rabs_R0; try lra; rewrite Rabs_pos_eq; lra.
Qed.
Lemma toss_draws : exact_draws toss_conf (mdistr toss_mc) 8.
Proof.
  split; [lia|]. intros s a _ _ p I. cbn in I. unfold toss_distr in I. destruct s as [|s]; [destruct a|]; cbn in I.
  - exists 4%nat. destruct I as [<-|[<-|[]]]; cbn; lra.
  - exists 8%nat. destruct I as [<-|[]]; cbn; lra.
  - exists 8%nat. destruct I as [<-|[]]; cbn; lra.
Qed.
Lemma toss_value : forall V, solves toss_conf toss_mc greatest V -> V 2%nat 0%nat 0%Z = 2 /\ forall a, best_first toss_conf toss_mc V a -> a = true.
Proof.
  intros V [_ E St].
  assert (V1 : forall s t, V 1%nat (Datatypes.S s) t = toss_pays (Datatypes.S s)).
  { intros s t. destruct (St 0%nat (Datatypes.S s) t eq_refl) as ((a & _ & Q) & _). unfold to_mover, expected, rsum_of in Q. cbn -[toss_pays] in Q. rewrite E in Q by reflexivity. cbn -[toss_pays] in Q. lra. }
  assert (W : forall a, mreward toss_mc 0%nat a + expected (fun o => V 1%nat o 1%Z) (mdistr toss_mc 0%nat a) = if a then 2 else 1).
  { intros a. unfold expected, rsum_of. destruct a; cbn -[toss_pays]; rewrite ?V1; cbn; lra. }
  assert (V2 : V 2%nat 0%nat 0%Z = 2).
  { destruct (St 1%nat 0%nat 0%Z eq_refl) as ((a & _ & Q) & Most). unfold to_mover in *. change (mtwo toss_mc && Z.odd 0) with false in *. cbv iota in *. change (0 + 1)%Z with 1%Z in *.
    rewrite W in Q. specialize (Most true (or_introl eq_refl)). cbv beta in Most. rewrite W in Most. destruct a; lra. }
  split; auto. intros a (_ & Q). unfold first_worth in Q. change (Z.to_nat (max_depth toss_conf)) with 2%nat in Q. change (2 - 1)%nat with 1%nat in Q. change (root_state toss_conf) with 0%nat in Q. change (root_time toss_conf) with 0%Z in Q. change (0 + 1)%Z with 1%Z in Q.
  rewrite W, V2 in Q. destruct a; auto. lra.
Qed.

(** DB-MENTS with three threads and settings that try each action a quarter of the time, whatever number of trials from some number on:
    it ends up recommending the toss. *)
Example C95_witness : exists M N0, settings_for toss_conf toss_mc M /\ exists sched, forall m, (N0 <= m)%nat -> exists u s root,
  word 8 (4 * m) u /\ outcome_of Nat.eqb Bool.eqb toss_conf (dbments Bool.eqb toss_conf M) 3 (fun _ => 0%Z) 8 sched u s /\
  count is_done (etrace (base s)) = Z.of_nat m /\ nth_error (dh (mem (base s))) 0 = Some root /\
  always (dbments_recommend Bool.eqb toss_conf M root (dview s root)) (fun a => a = true).
Proof.
  destruct (C89_values_exist toss_conf toss_mc toss_env) as (V & Sv).
  assert (Rg : range_ok toss_conf toss_mc 0 0 0 4).
  { constructor; try lra; [intros h s [=]|]. intros s a. cbn. unfold toss_pays. destruct s as [|[|[|[|s]]]]; lra. }
  assert (Big : 8 <= - dbl_lowest) by (unfold dbl_lowest; rewrite Ropp_involutive; apply IZR_le; vm_compute; discriminate).
  destruct (C95_dbments_recommends_best Nat.eqb Bool.eqb nat_decides bool_decides toss_conf toss_mc eq_refl toss_env (fun _ _ => eq_refl) 2 toss_few 0 4 toss_bounds V Sv eq_refl ltac:(cbn; lia)
    0 0 0 4 Rg ltac:(unfold least_left; change (max_depth toss_conf - 0)%Z with 2%Z; lra) ltac:(unfold most_left; change (max_depth toss_conf - 0)%Z with 2%Z; lra) (1/2) (1/4) ltac:(lra) ltac:(lra)) as (N0 & Conv).
  assert (Q16 : / IZR (10 ^ 16) <= 1/4).
  { apply Rmult_le_reg_r with (IZR (10 ^ 16)); [apply IZR_lt; reflexivity|]. rewrite Rinv_l by (apply not_0_IZR; discriminate). change (10 ^ 16)%Z with 10000000000000000%Z. lra. }
  destruct (C95_bold_settings_exist toss_conf toss_mc 2 toss_few toss_mc (1/4) (init_visits toss_conf + Z.of_nat N0) toss_settings Q16 ltac:(lra) ltac:(cbn; lia)) as (St & Bo).
  set (M := turn_up 2 (1/4) (init_visits toss_conf + Z.of_nat N0) toss_mc) in *. exists M, N0. split; auto.
  destruct (C95_dbments_runs Nat.eqb Bool.eqb nat_decides bool_decides toss_conf toss_mc toss_env 2 toss_few M 3%nat (fun _ => 0%Z) St Logic.I ltac:(lia) ltac:(lia)) as (sched & Run).
  exists sched. intros m Hm. pose proof (Conv M St ltac:(split; [reflexivity|cbn; lia]) Bo 3%nat (fun _ => 0%Z) 8%nat sched (Z.of_nat m) ltac:(lia) toss_draws ltac:(cbn; lra) (4 * m)%nat ltac:(cbn; lia)) as P.
  apply some_word in P; [|lra|lia]. destruct P as (u & Wu & P).
  destruct (Run 8%nat (4 * m)%nat u m ltac:(lia)) as (s & O & Qs & E1 & E2); auto.
  { change (10 ^ 16)%Z with 10000000000000000%Z. cbn. lra. }
  destruct (P s O ltac:(lia) Qs ltac:(lia)) as (root & Hr & Al). exists u, s, root. repeat (split; [assumption|]).
  intros g1 G1. destruct (Al g1 G1) as (a & g' & A1 & A2 & A3 & A4). exists a, g'. repeat (split; [assumption|]). exact (proj2 (toss_value V Sv) a A4).
Qed.
