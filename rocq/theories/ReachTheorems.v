(** Property theorems: no part of the environment stays out of reach, C90. *)
From Coq Require Import List ZArith Bool Reals Lia Lra.
From Verif Require Import QuietSpec Base BaseProofs NumOps HelperModel HelperSpec EngineModel EngineSpec EngineTheorems EngineVisits AlgoModel AlgoProofs AlgoTheorems AlgoFinish UctModel MentsModel SoftSpec MentsSpec
  DbRun DentsRun TentsRun MentsTheorems DentsSpec DentsTheorems TreeSpec TreeTheorems WorldSpec WorldExamples WorldTheorems ReachSpec ReachProofs ReachFollow ReachFamily UctTheorems.
Import ListNotations.
Open Scope R_scope.

Section Theorems.
Context {S A : Type}.
Variable seqb : S -> S -> bool.
Variable aeqb : A -> A -> bool.
Hypothesis seqb_ok : decides seqb.
Hypothesis aeqb_ok : decides aeqb.
Variable C : @econf S A.
Variable M : @mconf S A.

(** A trial visits a decision node at most once: no node has more visits than trials were started. *)
Theorem C90_visits : forall n s d x, ereach seqb aeqb C n s -> nth_error (dh (mem s)) d = Some x ->
  (dvisits x <= init_visits C + count is_start (etrace s))%Z.
Proof. exact (visits_le_starts seqb aeqb seqb_ok aeqb_ok C). Qed.

Hypothesis Mok : ments_ok C M.
Hypothesis Env : env_ok C M.
Hypothesis Pr : prior_ok C M.
Hypothesis Ex : explore_ok M.
Variable N : R.
Hypothesis Few : few_actions C N.
Hypothesis Fewer : N < IZR (10 ^ 16).
(** Exploration that is enough for [V] visits, as in C71. *)
Variables (e : R) (V : Z).
Hypothesis He : 0 < e.
Hypothesis Le1 : e <= meps M.
Hypothesis Le2 : mroot_eps M <= 0 \/ e <= mroot_eps M.
Hypothesis HV : (0 <= V)%Z.
Hypothesis Le3 : N * ln (IZR V + 2) / IZR (10 ^ 16) <= e.
Hypothesis Le4 : N / IZR (10 ^ 16) <= mmax_explore M.

(** Whatever the search has done so far, when no trial is under way: for any routes of the environment there are draws with
    which it completes as many further trials as the routes have steps, without failing, and has every route in its tree. *)
Notation reaches G := (forall n g (s : ast G) ps, good_ints g -> good_reals g -> (0 < n)%nat -> areach seqb aeqb C G n g s -> quiet (base s) ->
  (forall p, In p ps -> route C (root_state C) p /\ (Z.of_nat (length p) <= max_depth C)%Z) ->
  (init_visits C + count is_done (etrace (base s)) + Z.of_nat (length (concat ps)) <= V)%Z ->
  can_continue seqb aeqb C G n g s (Z.of_nat (length (concat ps))) (fun s' => forall p, In p ps -> holds_route seqb aeqb (mem (base s')) 0 p)) (only parsing).
(** In particular the whole environment, up to the maximal depth. *)
Notation reaches_all G := (forall n g (s : ast G), good_ints g -> good_reals g -> (0 < n)%nat -> areach seqb aeqb C G n g s -> quiet (base s) ->
  let k := Z.of_nat (length (concat (routes C (Z.to_nat (max_depth C)) (root_state C)))) in
  (init_visits C + count is_done (etrace (base s)) + k <= V)%Z ->
  can_continue seqb aeqb C G n g s k (fun s' => whole seqb aeqb C (mem (base s')))) (only parsing).

Theorem C90_ments : reaches (ments aeqb C M).
Proof.
  exact (family_reaches seqb aeqb seqb_ok aeqb_ok C M Mok Env Pr Ex N Few (ments aeqb C M) _ _ _ _ (ments_drawn aeqb aeqb_ok C M Env Pr) (ments_rules0 aeqb C M Env) (ments_safe0 aeqb aeqb_ok C M Mok Env Pr Ex) (fun n x P => P)
    e V He Le1 Le2 HV Le3 Le4 Fewer 0 (one_look_at_most _ _ (ments aeqb C M) (fun _ => conj eq_refl eq_refl))).
Qed.
Theorem C90_ments_whole : reaches_all (ments aeqb C M).
Proof.
  exact (family_whole seqb aeqb seqb_ok aeqb_ok C M Mok Env Pr Ex N Few (ments aeqb C M) _ _ _ _ (ments_drawn aeqb aeqb_ok C M Env Pr) (ments_rules0 aeqb C M Env) (ments_safe0 aeqb aeqb_ok C M Mok Env Pr Ex) (fun n x P => P)
    e V He Le1 Le2 HV Le3 Le4 Fewer 0 (one_look_at_most _ _ (ments aeqb C M) (fun _ => conj eq_refl eq_refl))).
Qed.
Theorem C90_dbments : reaches (dbments aeqb C M).
Proof.
  exact (family_reaches seqb aeqb seqb_ok aeqb_ok C M Mok Env Pr Ex N Few (dbments aeqb C M) _ _ _ _ (db_drawn aeqb aeqb_ok C M Env Pr) (db_rules aeqb C M Env) (db_safe aeqb aeqb_ok C M Mok Env Pr Ex) (fun n x P => proj1 P)
    e V He Le1 Le2 HV Le3 Le4 Fewer 2 (dbments_looks S A aeqb C M)).
Qed.
Theorem C90_dbments_whole : reaches_all (dbments aeqb C M).
Proof.
  exact (family_whole seqb aeqb seqb_ok aeqb_ok C M Mok Env Pr Ex N Few (dbments aeqb C M) _ _ _ _ (db_drawn aeqb aeqb_ok C M Env Pr) (db_rules aeqb C M Env) (db_safe aeqb aeqb_ok C M Mok Env Pr Ex) (fun n x P => proj1 P)
    e V He Le1 Le2 HV Le3 Le4 Fewer 2 (dbments_looks S A aeqb C M)).
Qed.
Theorem C90_est : reaches (est aeqb C M).
Proof.
  exact (family_reaches seqb aeqb seqb_ok aeqb_ok C M Mok Env Pr Ex N Few (est aeqb C M) _ _ _ _ (es_drawn aeqb aeqb_ok C M Env Pr) (es_rules aeqb C M Env) (es_safe aeqb aeqb_ok C M Mok Env Pr Ex) (fun n x P => proj1 P)
    e V He Le1 Le2 HV Le3 Le4 Fewer 0 (one_look_at_most _ _ (est aeqb C M) (fun _ => conj eq_refl eq_refl))).
Qed.
Theorem C90_est_whole : reaches_all (est aeqb C M).
Proof.
  exact (family_whole seqb aeqb seqb_ok aeqb_ok C M Mok Env Pr Ex N Few (est aeqb C M) _ _ _ _ (es_drawn aeqb aeqb_ok C M Env Pr) (es_rules aeqb C M Env) (es_safe aeqb aeqb_ok C M Mok Env Pr Ex) (fun n x P => proj1 P)
    e V He Le1 Le2 HV Le3 Le4 Fewer 0 (one_look_at_most _ _ (est aeqb C M) (fun _ => conj eq_refl eq_refl))).
Qed.
Theorem C90_rents : reaches (rents aeqb C M).
Proof.
  exact (family_reaches seqb aeqb seqb_ok aeqb_ok C M Mok Env Pr Ex N Few (rents aeqb C M) _ _ _ _ (ra_drawn aeqb aeqb_ok C M Mok Env Pr Ex) (rents_rules aeqb aeqb_ok C M Mok Env Pr Ex) (rents_safe aeqb aeqb_ok C M Mok Env Pr Ex) (fun n x P => P)
    e V He Le1 Le2 HV Le3 Le4 Fewer 0 (one_look_at_most _ _ (rents aeqb C M) (fun _ => conj eq_refl eq_refl))).
Qed.
Theorem C90_rents_whole : reaches_all (rents aeqb C M).
Proof.
  exact (family_whole seqb aeqb seqb_ok aeqb_ok C M Mok Env Pr Ex N Few (rents aeqb C M) _ _ _ _ (ra_drawn aeqb aeqb_ok C M Mok Env Pr Ex) (rents_rules aeqb aeqb_ok C M Mok Env Pr Ex) (rents_safe aeqb aeqb_ok C M Mok Env Pr Ex) (fun n x P => P)
    e V He Le1 Le2 HV Le3 Le4 Fewer 0 (one_look_at_most _ _ (rents aeqb C M) (fun _ => conj eq_refl eq_refl))).
Qed.
Theorem C90_tents : reaches (tents aeqb C M).
Proof.
  exact (family_reaches seqb aeqb seqb_ok aeqb_ok C M Mok Env Pr Ex N Few (tents aeqb C M) _ _ _ _ (ta_drawn aeqb aeqb_ok C M Mok Env Pr Ex) (tents_rules aeqb aeqb_ok C M Env Pr) (tents_safe aeqb aeqb_ok C M Mok Env Pr Ex) (fun n x P => proj1 P)
    e V He Le1 Le2 HV Le3 Le4 Fewer 0 (one_look_at_most _ _ (tents aeqb C M) (fun _ => conj eq_refl eq_refl))).
Qed.
Theorem C90_tents_whole : reaches_all (tents aeqb C M).
Proof.
  exact (family_whole seqb aeqb seqb_ok aeqb_ok C M Mok Env Pr Ex N Few (tents aeqb C M) _ _ _ _ (ta_drawn aeqb aeqb_ok C M Mok Env Pr Ex) (tents_rules aeqb aeqb_ok C M Env Pr) (tents_safe aeqb aeqb_ok C M Mok Env Pr Ex) (fun n x P => proj1 P)
    e V He Le1 Le2 HV Le3 Le4 Fewer 0 (one_look_at_most _ _ (tents aeqb C M) (fun _ => conj eq_refl eq_refl))).
Qed.
(** DENTS needs in addition that the exploration share of unvisited nodes is defined. *)
Section Fresh.
Hypothesis Fr : fresh_known C M.
Theorem C90_dents : reaches (dents aeqb C M).
Proof.
  exact (family_reaches seqb aeqb seqb_ok aeqb_ok C M Mok Env Pr Ex N Few (dents aeqb C M) _ _ _ _ (de_drawn aeqb aeqb_ok C M Env Pr N) (de_rules aeqb aeqb_ok C M Mok Env Pr Ex N Few Fr) (de_safe aeqb aeqb_ok C M Mok Env Pr Ex N Few) (fun n x P => proj1 (proj1 (proj1 P)))
    e V He Le1 Le2 HV Le3 Le4 Fewer 3 (dents_looks S A aeqb C M)).
Qed.
Theorem C90_dents_whole : reaches_all (dents aeqb C M).
Proof.
  exact (family_whole seqb aeqb seqb_ok aeqb_ok C M Mok Env Pr Ex N Few (dents aeqb C M) _ _ _ _ (de_drawn aeqb aeqb_ok C M Env Pr N) (de_rules aeqb aeqb_ok C M Mok Env Pr Ex N Few Fr) (de_safe aeqb aeqb_ok C M Mok Env Pr Ex N Few) (fun n x P => proj1 (proj1 (proj1 P)))
    e V He Le1 Le2 HV Le3 Le4 Fewer 3 (dents_looks S A aeqb C M)).
Qed.
End Fresh.

(** Such a tree is explored in the sense of C89 ... *)
Theorem C90_whole_explored : forall m, whole seqb aeqb C m -> explored aeqb C m.
Proof using Mok Env.
  intros m W d n a Hd Ns Dp Ia.
  assert (O : exists o, In o (succs C (dstate n) a)).
  { rewrite (proj2 Mok). destruct (eo_distr _ _ Env _ _ Ns Ia) as [_ T]. destruct (mdistr M (dstate n) a) as [|[o w] l]; [cbn in T; lra|]. exists o. now left. }
  destruct O as (o & Io). destruct (W d n a o Hd Ns Dp Ia Io) as (c & d' & (n' & Hn & L) & _). rewrite Hd in Hn. injection Hn as <-. congruence.
Qed.
(** ... so that, where actions have certain outcomes, every search can still arrive at the values of the environment. *)
Section Certain.
Hypothesis NoTT : use_tt C = false.
Hypothesis Det : deterministic C M.
Variables Hb Rw : R.
Hypothesis Bd : world_bounds C M Hb Rw.
Notation right G vd vc W := (forall n g (s : ast G), good_ints g -> good_reals g -> (0 < n)%nat -> areach seqb aeqb C G n g s -> quiet (base s) ->
  let k := Z.of_nat (length (concat (routes C (Z.to_nat (max_depth C)) (root_state C)))) in
  (init_visits C + count is_done (etrace (base s)) + k <= V)%Z ->
  can_continue seqb aeqb C G n g s k (fun s' => represents aeqb C M s' vd vc W)) (only parsing).
Lemma then_right : forall (G : @algo S A) (P Q : ast G -> Prop) n g s k, (forall g s', areach seqb aeqb C G n g s' -> quiet (base s') -> P s' -> Q s') ->
  can_continue seqb aeqb C G n g s k P -> can_continue seqb aeqb C G n g s k Q.
Proof using Type.
  intros G P Q n g s k H (f & ls & s' & H1 & H2 & H3 & H4 & H5 & H6 & H7 & H8). exists f, ls, s'. repeat (split; [assumption|]).
  apply (H (with_draws g f)); auto. eapply (areach_app seqb aeqb C G); eauto.
Qed.
Theorem C90_dbments_values : forall W, solves C M greatest W ->
  right (dbments aeqb C M) (fun x : mmem * vmem => v_val (snd x)) (fun x : cmem * vmem => v_val (snd x)) W.
Proof.
  intros W Sv n g s Gi Gr Hn R Q k Hv. apply (then_right _ _ _ _ _ _ _) with (2 := C90_dbments_whole n g s Gi Gr Hn R Q Hv).
  intros g' s' R' Q' Wh. exact (C89_dbments_certain seqb aeqb seqb_ok aeqb_ok C M NoTT Env Hb Rw Bd W Sv Mok Det n g' s' R' Q' (C90_whole_explored _ Wh)).
Qed.
Theorem C90_ments_values : 0 < mtemp M -> mdecay M = None -> forall W, solves C M (greatest_mixed (entropy_bonus (mtemp M))) W ->
  right (ments aeqb C M) m_soft c_soft W.
Proof.
  intros Tp Dn W Sv n g s Gi Gr Hn R Q k Hv. apply (then_right _ _ _ _ _ _ _) with (2 := C90_ments_whole n g s Gi Gr Hn R Q Hv).
  intros g' s' R' Q' Wh. exact (C89_ments_certain seqb aeqb seqb_ok aeqb_ok C M NoTT Env Hb Rw Bd Pr Tp Dn N Few W Sv Mok Det n g' s' R' Q' (C90_whole_explored _ Wh)).
Qed.
Theorem C90_tents_values : 0 < mtemp M -> mdecay M = None -> forall W, solves C M (greatest_mixed (sparse_bonus (mtemp M))) W ->
  right (tents aeqb C M) (fun x : @tmem A => m_soft (t_m x)) c_soft W.
Proof.
  intros Tp Dn W Sv n g s Gi Gr Hn R Q k Hv. apply (then_right _ _ _ _ _ _ _) with (2 := C90_tents_whole n g s Gi Gr Hn R Q Hv).
  intros g' s' R' Q' Wh. exact (C89_tents_certain seqb aeqb seqb_ok aeqb_ok C M NoTT Env Hb Rw Bd Pr Tp Dn W Sv Mok Det n g' s' R' Q' (C90_whole_explored _ Wh)).
Qed.
End Certain.
End Theorems.

Print Assumptions C90_visits.
Print Assumptions C90_ments.
Print Assumptions C90_ments_whole.
Print Assumptions C90_dbments.
Print Assumptions C90_dbments_whole.
Print Assumptions C90_est.
Print Assumptions C90_est_whole.
Print Assumptions C90_rents.
Print Assumptions C90_rents_whole.
Print Assumptions C90_tents.
Print Assumptions C90_tents_whole.
Print Assumptions C90_dents.
Print Assumptions C90_dents_whole.
Print Assumptions C90_whole_explored.
Print Assumptions C90_dbments_values.
Print Assumptions C90_ments_values.
Print Assumptions C90_tents_values.

(** ** Examples that meet the hypotheses *)
(** The environment of C89's examples (rewards 3 and 5): from the start DB-MENTS can reach the value 5 ... *)
Lemma two_prior : prior_ok two_conf two_mc.
Proof. split; [intros p [=]|left; cbn; lra]. Qed.
Lemma two_few : few_actions two_conf 2.
Proof. split; [lra|intros s0; cbn; lra]. Qed.
Lemma two_explore : explore_ok two_mc.
Proof. split; cbn; lra. Qed.
Lemma ln_102 : 2 * ln (IZR 100 + 2) / IZR (10 ^ 16) <= 1.
Proof.
  assert (P : 0 < ln (IZR 100 + 2)) by (rewrite <- ln_1; apply ln_increasing; lra).
  pose proof (exp_ineq1 _ (Rgt_not_eq _ _ P)) as K. rewrite exp_ln in K by lra.
  apply Rmult_le_reg_r with (IZR (10 ^ 16)); [apply IZR_lt; reflexivity|]. unfold Rdiv. rewrite Rmult_assoc, Rinv_l by (apply not_0_IZR; discriminate).
  assert (1000 < IZR (10 ^ 16)) by (apply IZR_lt; reflexivity). lra.
Qed.
Lemma few_16 : 2 < IZR (10 ^ 16). Proof. apply IZR_lt. reflexivity. Qed.
Lemma few_17 : 2 / IZR (10 ^ 16) <= 1.
Proof. pose proof few_16. apply Rmult_le_reg_r with (IZR (10 ^ 16)); [lra|]. unfold Rdiv. rewrite Rmult_assoc, Rinv_l by lra. lra. Qed.
Example C90_witness : exists W, solves two_conf two_mc greatest W /\ W 1%nat false 0%Z = 5 /\
  can_continue Bool.eqb Bool.eqb two_conf (dbments Bool.eqb two_conf two_mc) 1 g_two (ainit two_conf (dbments Bool.eqb two_conf two_mc) 1 g_two) 2
    (fun s' => represents Bool.eqb two_conf two_mc s' (fun x : mmem * vmem => v_val (snd x)) (fun x : cmem * vmem => v_val (snd x)) W).
Proof.
  destruct (C89_values_exist two_conf two_mc two_env) as (W & Sv). exists W. split; [exact Sv|]. split.
  - destruct Sv as [_ S0 S1]. specialize (S1 0%nat false 0%Z eq_refl).
    cbn -[IZR expected] in S1. unfold to_mover, expected, rsum_of, rsum in S1. cbn -[IZR] in S1. rewrite S0 in S1 by reflexivity. cbn -[IZR] in S1. unfold initial in S1. cbn -[IZR] in S1.
    destruct S1 as [([|] & _ & E) Mx]; [|lra]. specialize (Mx false ltac:(right; now left)). cbn -[IZR] in Mx. lra.
  - pose proof (C90_dbments_values Bool.eqb Bool.eqb bool_decides bool_decides two_conf two_mc two_ok two_env two_prior two_explore 2 two_few few_16
      1 100 ltac:(lra) ltac:(cbn; lra) ltac:(left; cbn; lra) ltac:(lia) ln_102 few_17 eq_refl two_det 0 5 two_bounds W Sv 1 g_two) as H.
    apply H.
    + intros i. cbn. lia.
    + intros i. cbn. destruct i as [|[|[|i]]]; cbn; lra.
    + lia.
    + exists []. reflexivity.
    + intros t th Q. destruct t as [|[|t]]; cbn in Q; congruence.
    + vm_compute. discriminate.
Qed.
(** ... and in the two-player coin-flip walk DENTS, with two threads, can reach every one of its routes from the start. *)
Example C90_chance_witness : can_continue Nat.eqb Bool.eqb ments_ex_conf (dents Bool.eqb ments_ex_conf (ments_ex 1)) 2 g_ex
  (ainit ments_ex_conf (dents Bool.eqb ments_ex_conf (ments_ex 1)) 2 g_ex) 36 (fun s' => whole Nat.eqb Bool.eqb ments_ex_conf (mem (base s'))).
Proof.
  destruct (ments_sane_witness 1 ltac:(lra)) as (Mok & Env & Tok & Pr & Vok & Few & Ex).
  assert (Hl : 2 * ln (IZR 100 + 2) / IZR (10 ^ 16) <= 1 / 10).
  { assert (P : 0 < ln (IZR 100 + 2)) by (rewrite <- ln_1; apply ln_increasing; lra).
    pose proof (exp_ineq1 _ (Rgt_not_eq _ _ P)) as K. rewrite exp_ln in K by lra.
    apply Rmult_le_reg_r with (IZR (10 ^ 16)); [apply IZR_lt; reflexivity|]. unfold Rdiv. rewrite Rmult_assoc, Rinv_l by (apply not_0_IZR; discriminate).
    assert (10000 < IZR (10 ^ 16)) by (apply IZR_lt; reflexivity). lra. }
  pose proof (C90_dents_whole Nat.eqb Bool.eqb nat_decides bool_decides ments_ex_conf (ments_ex 1) Mok Env Pr Ex 2 Few few_16
    (1/10) 100 ltac:(lra) ltac:(cbn; lra) ltac:(left; cbn; lra) ltac:(lia) Hl few_17 ltac:(right; cbn; lra) 2 g_ex) as H.
  apply H.
  - intros i. cbn. lia.
  - intros i. cbn. lra.
  - lia.
  - exists []. reflexivity.
  - intros t th Q. destruct t as [|[|[|t]]]; cbn in Q; congruence.
  - vm_compute. discriminate.
Qed.
