(** Members of the MENTS family explore and sample the whole environment, with probability close to one. *)
From Coq Require Import List ZArith Bool Reals Lia Lra.
From Verif Require Import Base BaseProofs NumOps HelperModel HelperSpec EngineModel EngineSpec EngineProofs EngineInv EngineResults AlgoModel AlgoProofs AlgoTheorems AlgoFinish AlgoNodes AlgoSafe QuietSpec UctModel
  MentsModel SoftSpec MentsSpec MentsRun FamilyRun DbRun DentsRun TentsRun MentsTheorems DentsSpec DentsTheorems TentsSpec TreeSpec TreeTheorems WorldSpec WorldTheorems ReachFamily
  UctTheorems RecSpec PickSpec ConvSpec OddsSpec OddsStep OddsVille OddsLaw OddsReads OddsNodes OddsTry OddsRuns OddsBoldSpec OddsFamily OddsSpread.
Import ListNotations.
Open Scope R_scope.

Section Results.
Context {S A : Type}.
Variable seqb : S -> S -> bool.
Variable aeqb : A -> A -> bool.
Hypothesis seqb_ok : decides seqb.
Hypothesis aeqb_ok : decides aeqb.
Variable C : @econf S A.
Variable M0 : @mconf S A.
Hypothesis NoTT : use_tt C = false.
Hypothesis Env0 : env_ok C M0.
Hypothesis Succ : forall s a, succs C s a = map fst (mdistr M0 s a).
Variable NA : R.
Hypothesis Few : few_actions C NA.
Notation settings M := (settings_for C M0 M).

Lemma game_env : forall (M : @mconf S A), same_game M0 M -> env_ok C M.
Proof using Env0. intros M (E & _ & _). destruct Env0 as [E1 E2 E3 E4 E5]. constructor; auto. rewrite E. auto. Qed.
Lemma game_bounds : forall M Hb Rw, same_game M0 M -> world_bounds C M0 Hb Rw -> world_bounds C M Hb Rw.
Proof using Type. intros M Hb Rw (_ & E & _) (B1 & B2 & B3 & B4). repeat split; auto. now rewrite E. Qed.
Lemma game_solves : forall M rule V, same_game M0 M -> solves C M0 rule V -> solves C M rule V.
Proof using Type. intros M rule V (E1 & E2 & E3) [H1 H2 H3]. constructor; auto. intros h s t Hs. specialize (H3 h s t Hs). unfold to_mover in *. rewrite E1, E2, E3. exact H3. Qed.
Lemma game_near : forall M (G : @algo S A) (s : ast G) vd vc V err err', same_game M0 M -> (forall d n, nth_error (dh (mem (base s))) d = Some n -> err (left_at C n) <= err' (left_at C n)) ->
  approximates aeqb C M s vd vc V err -> approximates aeqb C M0 s vd vc V err'.
Proof using Type.
  intros M G s vd vc V err err' (E1 & E2 & _) He [H1 H2]. split.
  - intros d n x Hd Hx. specialize (H1 d n x Hd Hx). specialize (He d n Hd). lra.
  - intros d n a c x Hd Hl Hx. specialize (H2 d n a c x Hd Hl Hx). specialize (He d n Hd). unfold action_worth in *. rewrite <- E1, <- E2. lra.
Qed.
Lemma game_faithful : forall M w eps m, same_game M0 M -> faithful M0 w eps m -> faithful M w eps m.
Proof using Type. intros M w eps m (E & _). unfold faithful. now rewrite E. Qed.
Lemma bold_fresh : forall (M : @mconf S A) q V, 0 < q -> (0 <= V)%Z -> bold M NA q V -> fresh_known C M.
Proof using Few.
  intros M q V Hq HV (_ & B & _). right. assert (N1 : 1 <= NA) by apply Few. apply IZR_le in HV. apply Rlt_le_trans with (2 := B).
  assert (0 < ln (IZR V + 2)) by (rewrite <- ln_1; apply ln_increasing; lra). repeat apply Rmult_lt_0_compat; lra.
Qed.

(** What the members have in common. *)
Definition member (alg : @mconf S A -> @algo S A) (extra : @mconf S A -> Prop) : Prop := forall M, settings M -> extra M ->
  (forall n x kids cx, exists j, (j <= 1)%nat /\ reads j (select (alg M) n x kids cx)) /\
  (forall n x cx, exists cx1, forall g, sample (alg M) n x cx g = bind (sample_from_distribution R_ops (mdistr M0 (cstate n) (cact n)) true g) (fun '(o, g1) => Ok (o, cx1, g1))) /\
  (forall q V n, bold M NA q (init_visits C + Z.of_nat V) -> generous seqb aeqb C q V (alg M) n) /\
  (forall n g s, good_ints g -> good_reals g -> (forall i, gr g i < 1 - NA / IZR (10 ^ 16)) -> areach seqb aeqb C (alg M) n g s -> afail s = None).
Lemma is_member : forall alg (extra : @mconf S A -> Prop), (forall M, settings M -> extra M -> exists PD PC PX QC, drawn aeqb C M (alg M) PD PC PX /\ node_rules C (alg M) PD PC PX QC /\
  safe_rules C (alg M) PD PC PX QC (fam_bad aeqb C M (alg M)) /\ forall n x, PD n x -> (0 <= dvisits n)%Z) -> member alg extra.
Proof using seqb_ok aeqb_ok Env0 Few.
  intros alg extra H M St Ext. destruct (H M St Ext) as (PD & PC & PX & QC & D & Rules & Safe & Vis). destruct St as (Mok & Pr & Ex & Sg). pose proof (game_env M Sg) as Env.
  split; [exact (family_reads aeqb C M (alg M) PD PC PX D)|]. split; [rewrite <- (proj1 Sg); exact (family_samples aeqb C M (alg M) PD PC PX D)|]. split.
  - intros q V n B. exact (family_generous seqb aeqb seqb_ok aeqb_ok C M Mok Env Pr Ex NA Few (alg M) PD PC PX QC D Rules Vis q V B n).
  - intros n g s Gi Gr Lo R. exact (fam_low_draws seqb aeqb seqb_ok aeqb_ok C M Env Pr Ex NA Few (alg M) PD PC PX QC Rules Vis Safe n g Gi Gr Lo s R).
Qed.
Lemma ments_member : member (fun M => ments aeqb C M) (fun _ => True).
Proof using seqb_ok aeqb_ok Env0 Few.
  apply is_member. intros M (Mok & Pr & Ex & Sg) _. pose proof (game_env M Sg) as Env. do 4 eexists. split; [exact (ments_drawn aeqb aeqb_ok C M Env Pr)|]. split; [exact (ments_rules0 aeqb C M Env)|].
  split; [exact (ments_safe0 aeqb aeqb_ok C M Mok Env Pr Ex)|exact (fun n x P => P)].
Qed.
Lemma db_member : member (fun M => dbments aeqb C M) (fun _ => True).
Proof using seqb_ok aeqb_ok Env0 Few.
  apply is_member. intros M (Mok & Pr & Ex & Sg) _. pose proof (game_env M Sg) as Env. do 4 eexists. split; [exact (db_drawn aeqb aeqb_ok C M Env Pr)|]. split; [exact (db_rules aeqb C M Env)|].
  split; [exact (db_safe aeqb aeqb_ok C M Mok Env Pr Ex)|exact (fun n x P => proj1 P)].
Qed.
Lemma es_member : member (fun M => est aeqb C M) (fun _ => True).
Proof using seqb_ok aeqb_ok Env0 Few.
  apply is_member. intros M (Mok & Pr & Ex & Sg) _. pose proof (game_env M Sg) as Env. do 4 eexists. split; [exact (es_drawn aeqb aeqb_ok C M Env Pr)|]. split; [exact (es_rules aeqb C M Env)|].
  split; [exact (es_safe aeqb aeqb_ok C M Mok Env Pr Ex)|exact (fun n x P => proj1 P)].
Qed.
Lemma ra_member : member (fun M => rents aeqb C M) (fun _ => True).
Proof using seqb_ok aeqb_ok Env0 Few.
  apply is_member. intros M (Mok & Pr & Ex & Sg) _. pose proof (game_env M Sg) as Env. do 4 eexists. split; [exact (ra_drawn aeqb aeqb_ok C M Mok Env Pr Ex)|]. split; [exact (rents_rules aeqb aeqb_ok C M Mok Env Pr Ex)|].
  split; [exact (rents_safe aeqb aeqb_ok C M Mok Env Pr Ex)|exact (fun n x P => P)].
Qed.
Lemma ta_member : member (fun M => tents aeqb C M) (fun _ => True).
Proof using seqb_ok aeqb_ok Env0 Few.
  apply is_member. intros M (Mok & Pr & Ex & Sg) _. pose proof (game_env M Sg) as Env. do 4 eexists. split; [exact (ta_drawn aeqb aeqb_ok C M Mok Env Pr Ex)|]. split; [exact (tents_rules aeqb aeqb_ok C M Env Pr)|].
  split; [exact (tents_safe aeqb aeqb_ok C M Mok Env Pr Ex)|exact (fun n x P => proj1 P)].
Qed.
Lemma de_member : member (fun M => dents aeqb C M) (fun M => fresh_known C M).
Proof using seqb_ok aeqb_ok Env0 Few.
  apply is_member. intros M (Mok & Pr & Ex & Sg) Fr. pose proof (game_env M Sg) as Env. do 4 eexists. split; [exact (de_drawn aeqb aeqb_ok C M Env Pr NA)|]. split; [exact (de_rules aeqb aeqb_ok C M Mok Env Pr Ex NA Few Fr)|].
  split; [exact (de_safe aeqb aeqb_ok C M Mok Env Pr Ex NA Few)|exact (fun n x P => proj1 (proj1 (proj1 P)))].
Qed.

Lemma sure_mono : forall (G : @algo S A) delta n ints N sched Mt (P Q : ast G -> Prop), 
  (forall g s, areach seqb aeqb C G n g s -> P s -> Q s) -> surely_but seqb aeqb C G delta n ints N sched Mt P -> surely_but seqb aeqb C G delta n ints N sched Mt Q.
Proof using Type.
  intros G delta n ints N sched Mt P Q Imp H T HT. destruct (H T HT) as (bad & Hb & HP). exists bad. split; auto. intros u Wu Nu s (k & E) Hs.
  eapply Imp; [eapply follow_areach; exact E|]. apply (HP u Wu Nu s); auto. exists k. exact E.
Qed.
Lemma count_close : forall y : @dnode S A, (Z.abs (samples C y - reached C y) <= 1)%Z /\ (Z.abs (dp_samples C y - reached C y) <= 1)%Z.
Proof using Type. intros y. unfold dp_samples, samples. destruct (_ && _); lia. Qed.


Theorem spreads : forall (alg : @mconf S A -> @algo S A) (extra : @mconf S A -> Prop), member alg extra -> forall delta q eps, 0 < delta -> 0 < q <= 1 -> 0 < eps -> exists N0 : nat, forall M, settings M -> extra M -> bold M NA q (init_visits C + Z.of_nat N0) ->
  forall n ints N sched Mt, (forall i, (0 <= ints i)%Z) -> exact_draws C (mdistr M0) N -> 2 <= q * INR N ->
  surely_but seqb aeqb C (alg M) delta n ints N sched Mt (fun s => quiet (base s) -> (Z.of_nat N0 <= count is_done (etrace (base s)))%Z ->
    explored aeqb C (mem (base s)) /\ faithful M0 (samples C) eps (mem (base s)) /\ faithful M0 (dp_samples C) eps (mem (base s))).
Proof using seqb_ok aeqb_ok NoTT Env0 Succ.
  intros alg extra Mem delta q eps Hd Hq He.
  destruct (spread seqb aeqb seqb_ok aeqb_ok C NoTT (eo_depth _ _ Env0) (mdistr M0) Succ) with (delta := delta) (q := q) (eps := eps) as (N0 & H); auto.
  { intros s a Ns Ia. destruct (eo_distr _ _ Env0 s a Ns Ia) as (H1 & H2). split; auto. intros [o w] I. exact (H1 o w I). }
  exists N0. intros M St Ext B n ints N sched Mt Ints Ed Fine. destruct (Mem M St Ext) as (Hsel & Hsam & Gen & _).
  apply (sure_mono _ _ _ _ _ _ _ _ _) with (2 := H (alg M) n ints N sched Mt Hsel Hsam Ints Ed Fine (Gen q N0 n B)).
  intros g s R P Q Hm. destruct (P Q Hm) as (P1 & P2). split; auto. split; apply (P2 M0); auto; intros y; apply count_close.
Qed.

Variables Hb Rw : R.
Hypothesis Bd : world_bounds C M0 Hb Rw.
(** Values, for any claim that holds of explored and faithfully sampled trees. *)
Theorem near : forall (alg : @mconf S A -> @algo S A) (extra extra' : @mconf S A -> Prop) (w : @dnode S A -> Z) (vd : forall M, XD (alg M) -> R) (vc : forall M, XC (alg M) -> R) V Rw', member alg extra -> (w = samples C \/ w = dp_samples C) -> 0 <= Rw' ->
  (forall M, settings M -> extra' M -> forall n g s eps, areach seqb aeqb C (alg M) n g s -> quiet (base s) -> 0 <= eps -> explored aeqb C (mem (base s)) -> faithful M w eps (mem (base s)) ->
     approximates aeqb C M s (vd M) (vc M) V (sampling_error eps Hb Rw')) ->
  forall delta q err, 0 < delta -> 0 < q <= 1 -> 0 < err -> exists N0 : nat, forall M, settings M -> extra M -> extra' M -> bold M NA q (init_visits C + Z.of_nat N0) ->
  forall n ints N sched Mt, (forall i, (0 <= ints i)%Z) -> exact_draws C (mdistr M0) N -> 2 <= q * INR N ->
  surely_but seqb aeqb C (alg M) delta n ints N sched Mt (fun s => quiet (base s) -> (Z.of_nat N0 <= count is_done (etrace (base s)))%Z -> approximates aeqb C M0 s (vd M) (vc M) V (fun _ => err)).
Proof using seqb_ok aeqb_ok NoTT Env0 Succ Bd.
  intros alg extra extra' w vd vc V Rw' Mem Hw HRw Near delta q err Hd Hq He.
  destruct (fine_enough Hb Rw' err (Z.to_nat (max_depth C)) ltac:(apply Bd) HRw He) as (eps & Hep & Fine).
  destruct (spreads alg extra Mem delta q eps Hd Hq Hep) as (N0 & H). exists N0. intros M St Ext Ext' B n ints N sched Mt Ints Ed F2.
  apply (sure_mono _ _ _ _ _ _ _ _ _) with (2 := H M St Ext B n ints N sched Mt Ints Ed F2). intros g s R P Q Hm. destruct (P Q Hm) as (P1 & P2 & P3). pose proof (proj2 (proj2 (proj2 St))) as Sg.
  apply (game_near M _ s _ _ _ (sampling_error eps Hb Rw')); auto.
  - intros d nd Hd'. apply Fine. unfold left_at. pose proof (node_depth seqb aeqb seqb_ok aeqb_ok C n (base s) d nd (areach_ereach seqb aeqb C (alg M) _ _ _ R) Hd'). lia.
  - apply (Near M St Ext' n g s eps R Q); auto; [lra|]. apply game_faithful; auto. destruct Hw as [->| ->]; auto.
Qed.
(** Recommendations at the root. *)
Theorem picks_well : forall (alg : @mconf S A -> @algo S A) (extra extra' : @mconf S A -> Prop) (rec : forall M, @dnode S A -> list (A * (@cnode S A * XC (alg M))) -> rng R -> outcome (A * rng R)) V, member alg extra ->
  (forall M, settings M -> extra' M -> forall n g s eps d node, areach seqb aeqb C (alg M) n g s -> quiet (base s) -> 0 <= eps ->
     explored aeqb C (mem (base s)) -> faithful M (dp_samples C) eps (mem (base s)) -> nth_error (dh (mem (base s))) d = Some node -> dkids node <> [] ->
     always (rec M node (dview s node)) (fun a => In a (acts C (dstate node)) /\
       Rabs (action_worth C M V node a - V (left_at C node) (dstate node) (dtime node)) <= 2 * sampling_error eps Hb Rw (left_at C node))) ->
  is_sink C (root_state C) = false -> (0 < max_depth C)%Z ->
  forall delta q, 0 < delta -> 0 < q <= 1 -> exists N0 : nat, forall M, settings M -> extra M -> extra' M -> bold M NA q (init_visits C + Z.of_nat N0) ->
  forall n ints N sched Mt, (forall i, (0 <= ints i)%Z) -> exact_draws C (mdistr M0) N -> 2 <= q * INR N ->
  surely_but seqb aeqb C (alg M) delta n ints N sched Mt (fun s => quiet (base s) -> (Z.of_nat N0 <= count is_done (etrace (base s)))%Z ->
    exists root, nth_error (dh (mem (base s))) 0 = Some root /\ always (rec M root (dview s root)) (best_first C M0 V)).
Proof using seqb_ok aeqb_ok NoTT Env0 Succ Bd.
  intros alg extra extra' rec V Mem Rec Ns Hm delta q Hd Hq. set (D := Z.to_nat (max_depth C)).
  destruct (gap A (acts C (root_state C)) (first_worth C M0 V) (V D (root_state C) (root_time C))) as (err & He & Gap).
  destruct (fine_enough Hb Rw (err / 2) D ltac:(apply Bd) ltac:(apply Bd) ltac:(lra)) as (eps & Hep & Fine).
  destruct (spreads alg extra Mem delta q eps Hd Hq Hep) as (N0 & H). exists N0. intros M St Ext Ext' B n ints N sched Mt Ints Ed F2.
  apply (sure_mono _ _ _ _ _ _ _ _ _) with (2 := H M St Ext B n ints N sched Mt Ints Ed F2). intros g s R P Q Hn. destruct (P Q Hn) as (P1 & P2 & P3). pose proof (proj2 (proj2 (proj2 St))) as Sg.
  pose proof (areach_ereach seqb aeqb C (alg M) _ _ _ R) as Er. destruct (ereach_good seqb aeqb seqb_ok aeqb_ok C _ _ Er) as [I _]. pose proof (ti_wf _ _ _ _ I) as Wf.
  destruct (wf_root _ _ _ _ Wf) as (root & Hr & Es & Edp & Et). exists root. split; auto.
  assert (Lr : left_at C root = D) by (unfold left_at, D; f_equal; lia).
  assert (Kids : dkids root <> []).
  { intros Ek. destruct (acts C (root_state C)) as [|a l] eqn:Ea; [exact (eo_acts _ _ Env0 _ Ns Ea)|].
    apply (P1 0%nat root a Hr); [congruence|lia|rewrite Es, Ea; now left|]. now rewrite Ek. }
  intros g1 G1. destruct (Rec M St Ext' n g s eps 0%nat root R Q ltac:(lra) P1 (game_faithful _ _ _ _ Sg P3) Hr Kids g1 G1) as (a & g' & E1 & E2 & E3 & Ia & Hw).
  exists a, g'. repeat (split; [assumption|]). rewrite Es in Ia. split; auto. apply Gap; auto.
  rewrite Lr, Es, Et in Hw. pose proof (Fine D (le_n _)) as F. unfold action_worth in Hw. rewrite Lr, Es, Et in Hw. destruct Sg as (S1 & S2 & _). rewrite S1, S2 in Hw. unfold first_worth, D in *. lra.
Qed.

(** Schedulers exist under which any number of trials is completed, whatever is drawn. *)
Theorem bold_runs : forall (alg : @mconf S A -> @algo S A) (extra : @mconf S A -> Prop) r, member alg extra -> (forall M, looks_at_most (alg M) r) -> forall M n ints, settings M -> extra M -> (0 < n)%nat -> (forall i, (0 <= ints i)%Z) ->
  exists sched, forall N T u m, (0 < N)%nat -> INR N * NA < IZR (10 ^ 16) -> word N T u ->
  exists s, outcome_of seqb aeqb C (alg M) n ints N sched u s /\ quiet (base s) /\ count is_start (etrace (base s)) = Z.of_nat m /\ count is_done (etrace (base s)) = Z.of_nat m.
Proof using seqb_ok aeqb_ok Env0 Few.
  intros alg extra r Mem Lk M n ints St Ext Hn Hi. destruct (Mem M St Ext) as (Hsel & Hsam & _ & NF).
  destruct (runs_exist seqb aeqb seqb_ok aeqb_ok C (eo_depth _ _ Env0) (alg M) (mdistr M0) Hsel Hsam n (fun x => x < 1 - NA / IZR (10 ^ 16)) (fun g s Gi Gr Lo R => NF n g s Gi Gr Lo R) r (Lk M) Hn ints Hi) as (sched & H).
  exists sched. intros N T u m HN Few16 Wu. destruct (H N u m HN (proj2 Wu)) as (k & s & E & Q & E1 & E2).
  - intros j Hj. assert (Np : 0 < INR N) by (apply lt_0_INR; lia). assert (E16 : 0 < IZR (10 ^ 16)) by (apply IZR_lt; reflexivity).
    assert (J : INR j <= INR N - 1) by (change 1 with (INR 1); rewrite <- minus_INR by lia; apply le_INR; lia).
    apply Rmult_lt_reg_r with (INR N); auto. unfold Rdiv at 1. rewrite Rmult_assoc, Rinv_l, Rmult_1_r by lra.
    assert (NA / IZR (10 ^ 16) * INR N < 1). { apply Rmult_lt_reg_r with (IZR (10 ^ 16)); auto. replace (NA / IZR (10 ^ 16) * INR N * IZR (10 ^ 16)) with (INR N * NA) by (field; lra). lra. }
    lra.
  - exists s. split; [exists k; exact E|auto].
Qed.
End Results.
