(** Theorems about trials run by any search algorithm (a record [algo] of virtual functions): they are
    runs of the engine of EngineModel.v, so C08-C14 hold for them, and threads can finish their trials. *)
From Coq Require Import List ZArith Bool Reals Lia.
From Verif Require Import Base NumOps HelperModel EngineModel EngineSpec AlgoModel AlgoProofs QuietSpec AlgoFinish.
Import ListNotations.

Section Theorems.
Context {S A : Type}.
Variable seqb : S -> S -> bool.
Variable aeqb : A -> A -> bool.
Hypothesis seqb_ok : decides seqb.
Hypothesis aeqb_ok : decides aeqb.
Variable C : @econf S A.
Variable G : @algo S A.

(** Every reachable state of an algorithm is a reachable state of the engine: selection, sampling and
    backups of an algorithm cannot make a trial do anything the engine theorems exclude. *)
Theorem C08_algorithms_run_the_engine : forall n g s, areach seqb aeqb C G n g s -> ereach seqb aeqb C n (base s).
Proof. exact (areach_ereach seqb aeqb C G). Qed.

(** If an algorithm whose backups look at the children once cannot fail, then from every reachable state every thread can
    finish its trial alone within 4*max_depth+3 steps, whatever the other threads are doing. *)
Theorem C61_algorithm_trials_finish : forall n g, one_look G -> (0 <= max_depth C)%Z ->
  (forall s, areach seqb aeqb C G n g s -> afail s = None) ->
  forall s t, (t < n)%nat -> areach seqb aeqb C G n g s ->
  exists k s', (Z.of_nat k <= 4 * max_depth C + 3)%Z /\ arun seqb aeqb C G (repeat (ARun t) k) s = Some s' /\
    nth_error (ths (base s')) t = Some TIdle /\
    (forall t', t' <> t -> nth_error (ths (base s')) t' = nth_error (ths (base s)) t') /\
    count is_start (etrace (base s')) = count is_start (etrace (base s)).
Proof. exact (one_look_trials_finish S A seqb aeqb seqb_ok aeqb_ok C G). Qed.

(** If it looks at them at most [r] more times, a thread can finish its trial alone within (4*max_depth+3)*(r+1) steps if no
    other thread is in the middle of a backup. *)
Theorem C61_looking_trials_finish : forall n g r, looks_at_most G r -> (0 <= max_depth C)%Z ->
  (forall s, areach seqb aeqb C G n g s -> afail s = None) ->
  forall s t, (t < n)%nat -> areach seqb aeqb C G n g s ->
  (forall u y cy, u <> t -> nth_error (ths (base s)) u = Some y -> nth_error (cxs s) u = Some cy -> held G y cy = None) ->
  exists k s', (Z.of_nat k <= (4 * max_depth C + 3) * (1 + Z.of_nat r))%Z /\ arun seqb aeqb C G (repeat (ARun t) k) s = Some s' /\
    nth_error (ths (base s')) t = Some TIdle /\
    (forall t', t' <> t -> nth_error (ths (base s')) t' = nth_error (ths (base s)) t') /\
    count is_start (etrace (base s')) = count is_start (etrace (base s)).
Proof.
  intros n g r (rank & R1 & R2 & R3) Hm NF s t Ht R Fr.
  destruct (finishes seqb aeqb seqb_ok aeqb_ok C G rank r R1 R2 R3 n g Hm NF s t Ht R Fr) as (k & s' & K1 & K2 & K3 & K4 & K5).
  exists k, s'. split; [lia|]. split; auto. split; auto. split; auto. intros t' N. now apply K4.
Qed.

(** From every reachable state, the trials in progress can all be completed without starting another one: workers that
    wait for each other's locks do not block each other for ever. *)
Theorem C61_trials_drain : forall n g r, looks_at_most G r -> (0 <= max_depth C)%Z ->
  (forall s, areach seqb aeqb C G n g s -> afail s = None) ->
  forall s, areach seqb aeqb C G n g s ->
  exists ts s', arun seqb aeqb C G (map ARun ts) s = Some s' /\ quiet (base s').
Proof. intros n g r (rank & R1 & R2 & R3). exact (drains seqb aeqb seqb_ok aeqb_ok C G rank r R1 R2 R3 n g). Qed.

(** ... and any number of trials can be completed. *)
Theorem C61_algorithm_completes : forall n g r, looks_at_most G r -> (0 <= max_depth C)%Z -> (0 < n)%nat ->
  (forall s, areach seqb aeqb C G n g s -> afail s = None) ->
  forall k, exists s, areach seqb aeqb C G n g s /\ quiet (base s) /\ count is_done (etrace (base s)) = Z.of_nat k.
Proof. intros n g r (rank & R1 & R2 & R3). exact (completes seqb aeqb seqb_ok aeqb_ok C G rank r R1 R2 R3 n g). Qed.
End Theorems.
Print Assumptions C08_algorithms_run_the_engine.
Print Assumptions C61_algorithm_trials_finish.
Print Assumptions C61_looking_trials_finish.
Print Assumptions C61_trials_drain.
Print Assumptions C61_algorithm_completes.
(** Examples that meet the hypotheses: [uct_never_fails_witness] in UctTheorems.v. *)
