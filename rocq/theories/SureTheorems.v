(** Property theorems: with certain outcomes the values become exact also with the transposition table, C98. *)
From Coq Require Import List ZArith Bool Reals Lia Lra.
From Verif Require Import Base BaseProofs NumOps MapModel HelperModel HelperSpec EngineModel EngineSpec AlgoModel UctModel MentsModel SoftSpec MentsSpec RecSpec DentsSpec PickSpec TentsSpec TreeSpec EngineResults AlgoTheorems
  DpRun DbRun DentsTheorems WorldSpec WorldExamples WorldTheorems SureSpec SureProofs SureResults SureExamples.
Import ListNotations.
Open Scope R_scope.

Section Sure.
Context {S A : Type}.
Variable seqb : S -> S -> bool.
Variable aeqb : A -> A -> bool.
Hypothesis seqb_ok : decides seqb.
Hypothesis aeqb_ok : decides aeqb.
Variable C : @econf S A.
Variable M : @mconf S A.
Hypothesis Env : env_ok C M.
Hypothesis Mok : ments_ok C M.
Hypothesis Det : deterministic C M.
Notation areach := (areach seqb aeqb C).
Notation arun := (arun seqb aeqb C).
Notation rounds := (rounds seqb aeqb C).
Notation represents := (represents aeqb C M).
Notation explored := (explored aeqb C).

(** Once everything was explored, and every action was then tried again as many times in turn as the search is deep, all
    values are those of the environment, and stay so for ever, whatever the search does next and while trials are under
    way: the dynamic programming values of DB-MENTS, DENTS and EST, ... *)
Section Dp.
Variable V : nat -> S -> Z -> R.
Hypothesis Sv : solves C M greatest V.
Theorem C98_dbments : forall n g s k s1 ls s2, areach (dbments aeqb C M) n g s -> quiet (base s) -> explored (mem (base s)) -> rounds k s s1 -> (max_depth C <= Z.of_nat k)%Z ->
  arun (dbments aeqb C M) ls s1 = Some s2 -> represents s2 (fun x : mmem * vmem => v_val (snd x)) (fun x : cmem * vmem => v_val (snd x)) V.
Proof. exact (dp_exact seqb aeqb seqb_ok aeqb_ok C M Env Mok Det (dbments aeqb C M) snd snd (dbments_part aeqb C M) V Sv). Qed.
Theorem C98_dents : muse_dp M = true -> forall n g s k s1 ls s2, areach (dents aeqb C M) n g s -> quiet (base s) -> explored (mem (base s)) -> rounds k s s1 -> (max_depth C <= Z.of_nat k)%Z ->
  arun (dents aeqb C M) ls s1 = Some s2 -> represents s2 (fun x : dmem => v_val (d_dp x)) (fun x : dcmem => v_val (dc_dp x)) V.
Proof. exact (fun U => dp_exact seqb aeqb seqb_ok aeqb_ok C M Env Mok Det (dents aeqb C M) d_dp dc_dp (dents_part aeqb C M U) V Sv). Qed.
Theorem C98_est : muse_dp M = true -> forall n g s k s1 ls s2, areach (est aeqb C M) n g s -> quiet (base s) -> explored (mem (base s)) -> rounds k s s1 -> (max_depth C <= Z.of_nat k)%Z ->
  arun (est aeqb C M) ls s1 = Some s2 -> represents s2 (fun x : dmem => v_val (d_dp x)) (fun x : dcmem => v_val (dc_dp x)) V.
Proof. exact (fun U => dp_exact seqb aeqb seqb_ok aeqb_ok C M Env Mok Det (est aeqb C M) d_dp dc_dp (est_part aeqb C M U) V Sv). Qed.

(** and from then on they recommend best actions only. *)
Section Recommend.
Hypothesis ByValue : mmost_visited M = false.
Hypothesis All : (mthreshold M <= 1)%Z.
Variables hl hu rl ru : R.
Hypothesis Rg : range_ok C M hl hu rl ru.
Hypothesis Lo : dbl_lowest <= least_left C hl rl 0.
Hypothesis Hi : most_left C hu ru 0 <= - dbl_lowest.
Definition best (node : dnode) (a : A) : Prop := In a (acts C (dstate node)) /\ WorldSpec.action_worth C M V node a = V (left_at C node) (dstate node) (dtime node).
Lemma inner : forall node, is_leaf C node = false -> is_sink C (dstate node) = false.
Proof using Type. intros node H. unfold is_leaf in H. now apply orb_false_iff in H. Qed.
Lemma went : forall G n g s k s1 ls s2, areach G n g s -> rounds k s s1 -> arun G ls s1 = Some s2 -> areach G n g s2.
Proof using Type.
  intros G n g s k s1 ls s2 R H. revert ls s2. induction H as [s|k s s1 s2 H IH Ro]; intros ls s3 Ru.
  - destruct R as (l0 & R). exists (l0 ++ ls). now rewrite (AlgoFinish.arun_app seqb aeqb C G l0 ls _ _ R).
  - destruct Ro as ((l1 & R1) & _). apply (IH R (l1 ++ ls)). now rewrite (AlgoFinish.arun_app seqb aeqb C G l1 ls _ _ R1).
Qed.
Theorem C98_dbments_recommends_best : forall n g s k s1 ls s2 d node, areach (dbments aeqb C M) n g s -> quiet (base s) -> explored (mem (base s)) -> rounds k s s1 -> (max_depth C <= Z.of_nat k)%Z ->
  arun (dbments aeqb C M) ls s1 = Some s2 -> nth_error (dh (mem (base s2))) d = Some node -> is_leaf C node = false ->
  picks (dbments_recommend aeqb C M node (dview s2 node)) (best node).
Proof.
  intros n g s k s1 ls s2 d node R Q X H L Ru Hd Nl.
  pose proof (C21_dbments_recommendation seqb aeqb seqb_ok aeqb_ok C M Mok Env n g d node (inner node Nl) hl hu rl ru Rg Lo Hi s2 (went _ _ _ _ _ _ _ _ R H Ru) Hd) as P.
  rewrite ByValue in P. refine (TreeResults.picks_iff _ _ _ _ _ (fun a => _) P).
  exact (dp_best seqb aeqb seqb_ok aeqb_ok C M Env Mok Det (dbments aeqb C M) snd snd (dbments_part aeqb C M) V Sv All n g s k s1 ls s2 d node a R Q X H L Ru Hd Nl).
Qed.
Theorem C98_dents_recommends_best : muse_dp M = true -> forall n g s k s1 ls s2 d node, areach (dents aeqb C M) n g s -> quiet (base s) -> explored (mem (base s)) -> rounds k s s1 -> (max_depth C <= Z.of_nat k)%Z ->
  arun (dents aeqb C M) ls s1 = Some s2 -> nth_error (dh (mem (base s2))) d = Some node -> is_leaf C node = false ->
  picks (dents_recommend aeqb C M node (dview s2 node)) (best node).
Proof.
  intros U n g s k s1 ls s2 d node R Q X H L Ru Hd Nl.
  pose proof (C21_dents_recommendation seqb aeqb seqb_ok aeqb_ok C M Mok Env n g d node (inner node Nl) hl hu rl ru Rg Lo Hi s2 U (went _ _ _ _ _ _ _ _ R H Ru) Hd) as P.
  rewrite ByValue in P. refine (TreeResults.picks_iff _ _ _ _ _ (fun a => _) P).
  exact (dp_best seqb aeqb seqb_ok aeqb_ok C M Env Mok Det (dents aeqb C M) d_dp dc_dp (dents_part aeqb C M U) V Sv All n g s k s1 ls s2 d node a R Q X H L Ru Hd Nl).
Qed.
Theorem C98_est_recommends_best : muse_dp M = true -> forall n g s k s1 ls s2 d node, areach (est aeqb C M) n g s -> quiet (base s) -> explored (mem (base s)) -> rounds k s s1 -> (max_depth C <= Z.of_nat k)%Z ->
  arun (est aeqb C M) ls s1 = Some s2 -> nth_error (dh (mem (base s2))) d = Some node -> is_leaf C node = false ->
  picks (dents_recommend aeqb C M node (dview s2 node)) (best node).
Proof.
  intros U n g s k s1 ls s2 d node R Q X H L Ru Hd Nl.
  pose proof (C21_est_recommendation seqb aeqb seqb_ok aeqb_ok C M Mok Env n g d node (inner node Nl) hl hu rl ru Rg Lo Hi s2 U (went _ _ _ _ _ _ _ _ R H Ru) Hd) as P.
  rewrite ByValue in P. refine (TreeResults.picks_iff _ _ _ _ _ (fun a => _) P).
  exact (dp_best seqb aeqb seqb_ok aeqb_ok C M Env Mok Det (est aeqb C M) d_dp dc_dp (est_part aeqb C M U) V Sv All n g s k s1 ls s2 d node a R Q X H L Ru Hd Nl).
Qed.
End Recommend.
End Dp.

(** ... and the soft values of MENTS at a fixed temperature, if the search is paid the entropy of what it does. *)
Theorem C98_ments : 0 < mtemp M -> mdecay M = None -> forall V, solves C M (greatest_mixed (entropy_bonus (mtemp M))) V ->
  forall n g s k s1 ls s2, areach (ments aeqb C M) n g s -> quiet (base s) -> explored (mem (base s)) -> rounds k s s1 -> (max_depth C <= Z.of_nat k)%Z ->
  arun (ments aeqb C M) ls s1 = Some s2 -> represents s2 m_soft c_soft V.
Proof. exact (soft_exact seqb aeqb seqb_ok aeqb_ok C M Env Mok Det). Qed.
End Sure.
Print Assumptions C98_dbments.
Print Assumptions C98_dents.
Print Assumptions C98_est.
Print Assumptions C98_dbments_recommends_best.
Print Assumptions C98_dents_recommends_best.
Print Assumptions C98_est_recommends_best.
Print Assumptions C98_ments.

(** ** Examples that meet the hypotheses *)
(** With the table both actions of [four_conf] lead to the same node. After two trials everything is explored, two more
    are a round, and the search is one step deep. *)
Lemma four_env : env_ok four_conf two_mc.
Proof.
  constructor; cbn; try lia; try discriminate.
  - intros _. repeat constructor; cbn; intuition discriminate.
  - intros s a _ _. split; [|lra]. intros k w [[= <- <-]|[]]; lra.
Qed.
Lemma four_ok : ments_ok four_conf two_mc.
Proof. exact two_ok. Qed.
Lemma four_range : range_ok four_conf two_mc 0 0 0 5.
Proof. split; cbn; [lra|lra|discriminate|]. intros s []; lra. Qed.
Example C98_witness : use_tt four_conf = true /\ env_ok four_conf two_mc /\ ments_ok four_conf two_mc /\ deterministic four_conf two_mc /\ muse_dp two_mc = true /\
  mmost_visited two_mc = false /\ (mthreshold two_mc <= 1)%Z /\ range_ok four_conf two_mc 0 0 0 5 /\ dbl_lowest <= least_left four_conf 0 0 0 /\ most_left four_conf 0 5 0 <= - dbl_lowest /\
  exists s s', areach Bool.eqb Bool.eqb four_conf (est Bool.eqb four_conf two_mc) 1 g_four s /\ quiet (base s) /\ explored Bool.eqb four_conf (mem (base s)) /\
    rounds Bool.eqb Bool.eqb four_conf 1 s s' /\ (max_depth four_conf <= Z.of_nat 1)%Z /\ arun Bool.eqb Bool.eqb four_conf (est Bool.eqb four_conf two_mc) [] s' = Some s'.
Proof.
  repeat (split; [first [reflexivity|exact four_env|exact four_ok|exact two_det|exact four_range|cbn; lia]|]).
  assert (L : dbl_lowest <= -5) by (unfold dbl_lowest; apply Ropp_le_contravar, (IZR_le 5); vm_compute; discriminate).
  split; [unfold least_left; cbn [max_depth four_conf]; lra|]. split; [unfold most_left; cbn [max_depth four_conf]; change (IZR (1 - 0)) with 1; lra|].
  destruct four_est as (s & s' & R & Q & X & H). exists s, s'. repeat (split; [assumption|]). split; [cbn; lia|reflexivity].
Qed.
Example C98_witness_soft : 0 < mtemp two_mc /\ mdecay two_mc = None /\
  exists s s', areach Bool.eqb Bool.eqb four_conf (ments Bool.eqb four_conf two_mc) 1 g_four s /\ quiet (base s) /\ explored Bool.eqb four_conf (mem (base s)) /\
    rounds Bool.eqb Bool.eqb four_conf 1 s s'.
Proof. split; [cbn; lra|]. split; [reflexivity|]. exact four_ments. Qed.
