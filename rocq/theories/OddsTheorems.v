(** Property theorem C93: with probability as close to 1 as wanted, UCT and PUCT searches converge to the values of the
    environment and end up recommending best actions - for every environment, every number of threads and every scheduler that
    cannot see coming random numbers. Probability is counted: random numbers are [T] independent draws from [N] equally likely
    values, and a share [1 - delta] of all [N ^ T] sequences of draws is good. *)
From Coq Require Import List ZArith Bool Reals Lia Lra Permutation.
From Verif Require Import Base BaseProofs NumOps HelperModel HelperSpec EngineModel EngineSpec EngineProofs EngineInv EngineTheorems PickSpec AlgoModel
  AlgoProofs AlgoTheorems AlgoFinish QuietSpec UctModel UctSpec UctProofs UctTheorems ExploreSpec ExploreTheorems SoftSpec WorldSpec LseReal ConvSpec ConvMain ConvTheorems ConvCoin
  OddsSpec OddsCover OddsStep OddsVille OddsLaw OddsDraws OddsReads OddsRuns.
Import ListNotations.
Open Scope R_scope.

(** Less than all sequences are bad: if [delta] is below 1, some sequence is good. *)
Theorem C93_shares_mean_something : forall delta N T P, delta < 1 -> (0 < N)%nat -> all_but delta N T P -> exists u, word N T u /\ P u.
Proof. exact some_word. Qed.

Section Theorems.
Context {S A : Type}.
Variable seqb : S -> S -> bool.
Variable aeqb : A -> A -> bool.
Hypothesis seqb_ok : decides seqb.
Hypothesis aeqb_ok : decides aeqb.
Variable C : @econf S A.
Variable U : @uconf S A.
Notation alg := (uct aeqb C U).
Hypothesis Uok : uct_ok C U.
Variable B : R.
Hypothesis Sane : sane C U B.

(** Sampling is fair with any probability below 1: the number of samples after which the errors stay small does not depend on the
    number of trials, threads, draws, or the scheduler. *)
Theorem C93_sampling_is_fair : forall delta, 0 < delta -> exists K, forall n ints N sched M, (forall i, (0 <= ints i)%Z) -> exact_draws C (udistr U) N ->
  surely_but seqb aeqb C alg delta n ints N sched M (fun s => fair U K (base s)).
Proof.
  intros delta Hd. destruct (sampling_fair seqb aeqb seqb_ok aeqb_ok C (udistr U)) with (delta := delta) as (K & HK); auto; [apply Uok|apply Sane|].
  exists K. intros n ints N sched M Hi (HN & Hm) T HT.
  assert (Hsel := reads_uct aeqb C U).
  assert (Hsam : forall n x cx, exists cx1, forall g, sample alg n x cx g = bind (sample_from_distribution R_ops (udistr U (cstate n) (cact n)) true g) (fun '(o, g1) => Ok (o, cx1, g1))) by (intros m x cx; exists cx; reflexivity).
  destruct (HK alg n ints N sched T Hsel Hsam) as (bad & Hb & H); auto.
  exists bad. split; auto. intros u Wu Nu s (k & E) Hs. apply (H u Wu Nu k s E).
  assert (Md : (0 <= max_depth C)%Z) by apply Sane.
  pose proof (draws_few seqb aeqb seqb_ok aeqb_ok C Md alg (udistr U) Hsel Hsam n (dice ints N u) s eq_refl ltac:(eapply follow_areach; exact E)) as D.
  apply Nat2Z.inj_le. nia.
Qed.

Lemma surely_mono : forall delta n ints N sched M (P Q : ast alg -> Prop), (0 < N)%nat -> (forall i, (0 <= ints i)%Z) ->
  (forall g s, good_ints g -> good_reals g -> areach seqb aeqb C alg n g s -> P s -> Q s) -> surely_but seqb aeqb C alg delta n ints N sched M P -> surely_but seqb aeqb C alg delta n ints N sched M Q.
Proof.
  intros delta n ints N sched M P Q HN Hi Imp H T HT. destruct (H T HT) as (bad & Hb & HP). exists bad. split; auto. intros u Wu Nu s (k & E) Hs.
  destruct (dice_good ints Hi N HN u (proj2 Wu)) as (Gi & Gr). eapply Imp; eauto using follow_areach. apply (HP u Wu Nu s); eauto. exists k. exact E.
Qed.

(** Convergence: trees, not graphs; actions are chosen by score only; the exploration term dies out as it should. *)
Section Converge.
Hypothesis NoTT : use_tt C = false.
Hypothesis NoEps : ueps U <= 0.
Hypothesis Explores : explores U.
Hypothesis Dies : sublinear (uterm U).
Variable V : nat -> S -> Z -> R.
Hypothesis Sv : usolves C U V.

(** Values of decision nodes. *)
Theorem C93_values_converge : forall delta n h st eps, 0 < delta -> 0 < eps -> exists N0, forall ints N sched M, (forall i, (0 <= ints i)%Z) -> exact_draws C (udistr U) N ->
  surely_but seqb aeqb C alg delta n ints N sched M (fun s =>
    forall d node x, nth_error (dh (mem (base s))) d = Some node -> nth_error (xds s) d = Some x ->
    dstate node = st -> left_at C node = h -> (N0 <= dvisits node)%Z -> Rabs (uavg x - V h st (dtime node)) <= eps).
Proof.
  intros delta n h st eps Hd He. destruct (C93_sampling_is_fair delta Hd) as (K & HK).
  destruct (C91_values_converge seqb aeqb seqb_ok aeqb_ok C U Uok B Sane NoTT NoEps Explores Dies V Sv n K h st eps He) as (N0 & H).
  exists N0. intros ints N sched M Hi HN. apply (surely_mono _ _ _ _ _ _ _ _ (proj1 HN) Hi (fun g s Gi Gr R F => H g s Gi Gr R F)). apply HK; auto.
Qed.
(** Recommendations at any node. *)
Theorem C93_recommends_best : forall delta n h st, 0 < delta -> NoDup (acts C st) -> is_sink C st = false -> exists N0, forall ints N sched M, (forall i, (0 <= ints i)%Z) -> exact_draws C (udistr U) N ->
  surely_but seqb aeqb C alg delta n ints N sched M (fun s =>
    forall d node, nth_error (dh (mem (base s))) d = Some node -> dstate node = st -> left_at C node = Datatypes.S h -> (N0 <= dvisits node)%Z ->
    always (uct_recommend aeqb C U node (dview s node)) (best_action C U V (Datatypes.S h) st (dtime node))).
Proof.
  intros delta n h st Hd Nd Ns. destruct (C93_sampling_is_fair delta Hd) as (K & HK).
  destruct (C91_recommends_best seqb aeqb seqb_ok aeqb_ok C U Uok B Sane NoTT NoEps Explores Dies V Sv n K h st Nd Ns) as (N0 & H).
  exists N0. intros ints N sched M Hi HN. apply (surely_mono _ _ _ _ _ _ _ _ (proj1 HN) Hi (fun g s Gi Gr R F => H g s Gi Gr R F)). apply HK; auto.
Qed.
(** The root, by the number of completed trials. *)
Theorem C93_root_converges : forall delta n eps, 0 < delta -> 0 < eps -> exists N0, forall ints N sched M, (forall i, (0 <= ints i)%Z) -> exact_draws C (udistr U) N ->
  surely_but seqb aeqb C alg delta n ints N sched M (fun s => (N0 <= count is_done (etrace (base s)))%Z ->
    exists x, nth_error (xds s) 0 = Some x /\ Rabs (uavg x - V (Z.to_nat (max_depth C)) (root_state C) (root_time C)) <= eps).
Proof.
  intros delta n eps Hd He. destruct (C93_sampling_is_fair delta Hd) as (K & HK).
  destruct (C91_root_converges seqb aeqb seqb_ok aeqb_ok C U Uok B Sane NoTT NoEps Explores Dies V Sv n K eps He) as (N0 & H).
  exists N0. intros ints N sched M Hi HN. apply (surely_mono _ _ _ _ _ _ _ _ (proj1 HN) Hi (fun g s Gi Gr R F => H g s Gi Gr R F)). apply HK; auto.
Qed.
Theorem C93_root_recommends_best : is_sink C (root_state C) = false -> (0 < max_depth C)%Z -> NoDup (acts C (root_state C)) ->
  forall delta n, 0 < delta -> exists N0, forall ints N sched M, (forall i, (0 <= ints i)%Z) -> exact_draws C (udistr U) N ->
  surely_but seqb aeqb C alg delta n ints N sched M (fun s => (N0 <= count is_done (etrace (base s)))%Z ->
    exists root, nth_error (dh (mem (base s))) 0 = Some root /\
      always (uct_recommend aeqb C U root (dview s root)) (best_action C U V (Z.to_nat (max_depth C)) (root_state C) (root_time C))).
Proof.
  intros Ns Hm Nd delta n Hd. destruct (C93_sampling_is_fair delta Hd) as (K & HK).
  destruct (C91_root_recommends_best seqb aeqb seqb_ok aeqb_ok C U Uok B Sane NoTT NoEps Explores Dies V Sv Ns Hm Nd n K) as (N0 & H).
  exists N0. intros ints N sched M Hi HN. apply (surely_mono _ _ _ _ _ _ _ _ (proj1 HN) Hi (fun g s Gi Gr R F => H g s Gi Gr R F)). apply HK; auto.
Qed.
End Converge.

(** Schedulers exist under which any number of trials is completed, whatever is drawn. *)
Theorem C93_runs_exist : forall n ints, (0 < n)%nat -> (forall i, (0 <= ints i)%Z) -> exists sched, forall N T u m, (0 < N)%nat -> word N T u ->
  exists s, outcome_of seqb aeqb C alg n ints N sched u s /\ count is_start (etrace (base s)) = Z.of_nat m /\ count is_done (etrace (base s)) = Z.of_nat m.
Proof.
  intros n ints Hn Hi.
  assert (Hsam : forall n x cx, exists cx1, forall g, sample alg n x cx g = bind (sample_from_distribution R_ops (udistr U (cstate n) (cact n)) true g) (fun '(o, g1) => Ok (o, cx1, g1))) by (intros m x cx; exists cx; reflexivity).
  destruct (runs_exist seqb aeqb seqb_ok aeqb_ok C) with (G := alg) (distr := udistr U) (n := n) (Fit := fun _ : R => True) (r := 0%nat) (ints := ints) as (sched & H); auto.
  - apply Sane.
  - apply reads_uct.
  - intros g s Gi Gr _ R. exact (C63_uct_never_fails seqb aeqb seqb_ok aeqb_ok C U Uok B Sane n g s Gi Gr R).
  - apply one_look_at_most. intros cx; split; reflexivity.
  - exists sched. intros N T u m HN Wu. destruct (H N u m HN (proj2 Wu) (fun _ _ => Logic.I)) as (k & s & E & _ & E1 & E2). exists s. split; [exists k; exact E|auto].
Qed.
End Theorems.

Print Assumptions C93_shares_mean_something.
Print Assumptions C93_sampling_is_fair.
Print Assumptions C93_values_converge.
Print Assumptions C93_recommends_best.
Print Assumptions C93_root_converges.
Print Assumptions C93_root_recommends_best.
Print Assumptions C93_runs_exist.

(** ** A search that meets the hypotheses *)
(** A fair coin decides between the rewards 1 and 0 (ConvCoin.v): two values per draw are enough. *)
Lemma coin_draws : exact_draws coin_conf (udistr coin_uct) 2.
Proof. split; [lia|]. intros s a _ _ p I. exists 1%nat. cbn in I. destruct I as [<-|[<-|[]]]; cbn; lra. Qed.

Example C93_witness : forall eps, 0 < eps -> exists sched N0, forall m, (N0 <= m)%nat -> exists u s x,
  word 2 (2 * m) u /\ outcome_of Nat.eqb Bool.eqb coin_conf coin 3 (fun _ => 0%Z) 2 sched u s /\
  count is_done (etrace (base s)) = Z.of_nat m /\ nth_error (xds s) 0 = Some x /\ Rabs (uavg x - 1/2) <= eps.
Proof.
  intros eps He. destruct (C93_runs_exist Nat.eqb Bool.eqb nat_decides bool_decides coin_conf coin_uct coin_ok 1 coin_sane 3 (fun _ => 0%Z) ltac:(lia) ltac:(lia)) as (sched & Run).
  destruct (C93_root_converges Nat.eqb Bool.eqb nat_decides bool_decides coin_conf coin_uct coin_ok 1 coin_sane eq_refl ltac:(cbn; lra) coin_explores C91_uct_term
    (uvalues coin_conf coin_uct) (uvalues_solve coin_conf coin_uct 1 coin_sane) (1/2) 3 eps ltac:(lra) He) as (N0 & Conv).
  exists sched, (Z.to_nat N0). intros m Hm.
  pose proof (Conv (fun _ => 0%Z) 2%nat sched (Z.of_nat m) ltac:(lia) coin_draws (2 * m)%nat ltac:(cbn; lia)) as P.
  apply C93_shares_mean_something in P; [|lra|lia]. destruct P as (u & Wu & P). destruct (Run 2%nat (2 * m)%nat u m ltac:(lia) Wu) as (s & O & E1 & E2).
  destruct (P s O ltac:(lia) ltac:(lia)) as (x & Hx & Q). exists u, s, x. repeat (split; auto).
  replace (1/2) with (uvalues coin_conf coin_uct (Z.to_nat (max_depth coin_conf)) (root_state coin_conf) (root_time coin_conf)); auto.
  change (Z.to_nat (max_depth coin_conf)) with 1%nat. cbn. unfold umover, expected, rsum_of, initial. cbn. lra.
Qed.
