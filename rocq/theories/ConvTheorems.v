(** Property theorem C91: UCT and PUCT searches converge to the values of the environment and end up recommending best
    actions. For every environment, every number of threads, every interleaving and every run in which sampling is fair. *)
From Coq Require Import List ZArith Bool Reals Lia Lra Permutation.
From Verif Require Import Base BaseProofs NumOps HelperModel HelperSpec EngineModel EngineSpec EngineProofs EngineInv EngineTheorems PickSpec AlgoModel
  AlgoProofs AlgoTheorems UctModel UctSpec UctProofs UctTheorems ExploreSpec ExploreProofs ExploreTheorems SoftSpec WorldSpec WorldProofs LseReal ConvSpec ConvCount ConvProofs ConvMain.
Import ListNotations.
Open Scope R_scope.

Section Theorems.
Context {S A : Type}.
Variable seqb : S -> S -> bool.
Variable aeqb : A -> A -> bool.
Hypothesis seqb_ok : decides seqb.
Hypothesis aeqb_ok : decides aeqb.
Variable C : @econf S A.
Variable U : @uconf S A.
Notation alg := (uct aeqb C U).
Notation areach := (areach seqb aeqb C alg).
Notation ereach := (ereach seqb aeqb C).

(** Nodes are trees, not graphs; actions are chosen by score only; the exploration term dies out as it should. *)
Hypothesis Uok : uct_ok C U.
Variable B : R.
Hypothesis Sane : sane C U B.
Hypothesis NoTT : use_tt C = false.
Hypothesis NoEps : ueps U <= 0.
Hypothesis Explores : explores U.
Hypothesis Dies : sublinear (uterm U).

(** The environment has values, and only one choice of them. *)
Theorem C91_values_exist : exists V, usolves C U V.
Proof. exists (uvalues C U). exact (uvalues_solve C U B Sane). Qed.
Theorem C91_values_unique : forall V W, usolves C U V -> usolves C U W -> forall h s t, V h s t = W h s t.
Proof. exact (usolves_unique C U). Qed.

Variable V : nat -> S -> Z -> R.
Hypothesis Sv : usolves C U V.

(** The average return of decision nodes of state [st] with [h] decisions left converges to the value of the state: for every
    [eps] there is a number of visits after which the two differ by at most [eps]. *)
Theorem C91_values_converge : forall n K h st eps, 0 < eps -> exists N0, forall g s,
  good_ints g -> good_reals g -> areach n g s -> fair U K (base s) ->
  forall d node x, nth_error (dh (mem (base s))) d = Some node -> nth_error (xds s) d = Some x ->
  dstate node = st -> left_at C node = h -> (N0 <= dvisits node)%Z -> Rabs (uavg x - V h st (dtime node)) <= eps.
Proof.
  intros n K h st eps He. destruct (values_converge seqb aeqb seqb_ok aeqb_ok C U Uok B Sane NoEps Explores Dies NoTT V Sv n K h st eps He) as (N0 & H).
  exists N0. intros g s Gi Gr R F. exact (H g s (conj Gi (conj Gr (conj R F)))).
Qed.
(** So does the average return of chance nodes, to what the action is worth. *)
Theorem C91_actions_converge : forall n K h st a eps, is_sink C st = false -> In a (acts C st) -> 0 < eps -> exists N0, forall g s,
  good_ints g -> good_reals g -> areach n g s -> fair U K (base s) ->
  forall d node, nth_error (dh (mem (base s))) d = Some node ->
  dstate node = st -> left_at C node = Datatypes.S h -> (N0 <= kid_visits aeqb (dview s node) a)%Z ->
  Rabs (kid_avg aeqb (dview s node) a - uworth C U V h st (dtime node) a) <= eps.
Proof.
  intros n K h st a eps Ns Ia He. destruct (actions_converge seqb aeqb seqb_ok aeqb_ok C U Uok B Sane NoEps Explores Dies NoTT V Sv n K h st a eps Ns Ia He) as (N0 & H).
  exists N0. intros g s Gi Gr R F. exact (H g s (conj Gi (conj Gr (conj R F)))).
Qed.
(** The share of selections that go to an action which is not best tends to zero. *)
Theorem C91_rarely_tried : forall n K h st a eta, is_sink C st = false -> In a (acts C st) ->
  ~ best_action C U V (Datatypes.S h) st (root_time C + (max_depth C - Z.of_nat (Datatypes.S h))) a -> 0 < eta -> exists N0, forall g s,
  good_ints g -> good_reals g -> areach n g s -> fair U K (base s) ->
  forall d node, nth_error (dh (mem (base s))) d = Some node -> dstate node = st -> left_at C node = Datatypes.S h ->
  (N0 <= Z.of_nat (length (selected d (etrace (base s)))))%Z ->
  IZR (times aeqb d a (etrace (base s))) <= eta * INR (length (selected d (etrace (base s)))).
Proof.
  intros n K h st a eta Ns Ia Nb He. destruct (rarely_tried seqb aeqb seqb_ok aeqb_ok C U Uok B Sane NoEps Explores Dies NoTT V Sv n K h st a eta Ns Ia Nb He) as (N0 & H).
  exists N0. intros g s Gi Gr R F. exact (H g s (conj Gi (conj Gr (conj R F)))).
Qed.
(** After enough visits the recommendation is a best action, whichever recommendation rule is set and however ties fall. *)
Theorem C91_recommends_best : forall n K h st, NoDup (acts C st) -> is_sink C st = false -> exists N0, forall g s,
  good_ints g -> good_reals g -> areach n g s -> fair U K (base s) ->
  forall d node, nth_error (dh (mem (base s))) d = Some node ->
  dstate node = st -> left_at C node = Datatypes.S h -> (N0 <= dvisits node)%Z ->
  always (uct_recommend aeqb C U node (dview s node)) (best_action C U V (Datatypes.S h) st (dtime node)).
Proof.
  intros n K h st Nd Ns. destruct (recommendation_best seqb aeqb seqb_ok aeqb_ok C U Uok B Sane NoEps Explores Dies NoTT V Sv n K h st Nd Ns) as (N0 & H).
  exists N0. intros g s Gi Gr R F. exact (H g s (conj Gi (conj Gr (conj R F)))).
Qed.
(** At the root, by the number of completed trials. *)
Theorem C91_root_converges : forall n K eps, 0 < eps -> exists N0, forall g s,
  good_ints g -> good_reals g -> areach n g s -> fair U K (base s) -> (N0 <= count is_done (etrace (base s)))%Z ->
  exists x, nth_error (xds s) 0 = Some x /\ Rabs (uavg x - V (Z.to_nat (max_depth C)) (root_state C) (root_time C)) <= eps.
Proof.
  intros n K eps He. destruct (root_converges seqb aeqb seqb_ok aeqb_ok C U Uok B Sane NoEps Explores Dies NoTT V Sv n K eps He) as (N0 & H).
  exists N0. intros g s Gi Gr R F. exact (H g s (conj Gi (conj Gr (conj R F)))).
Qed.
Theorem C91_root_recommends_best : is_sink C (root_state C) = false -> (0 < max_depth C)%Z -> NoDup (acts C (root_state C)) ->
  forall n K, exists N0, forall g s, good_ints g -> good_reals g -> areach n g s -> fair U K (base s) -> (N0 <= count is_done (etrace (base s)))%Z ->
  exists root, nth_error (dh (mem (base s))) 0 = Some root /\
    always (uct_recommend aeqb C U root (dview s root)) (best_action C U V (Z.to_nat (max_depth C)) (root_state C) (root_time C)).
Proof.
  intros Ns Hm Nd n K. destruct (root_recommends seqb aeqb seqb_ok aeqb_ok C U Uok B Sane NoEps Explores Dies NoTT V Sv n K Ns Hm Nd) as (N0 & H).
  exists N0. intros g s Gi Gr R F. exact (H g s (conj Gi (conj Gr (conj R F)))).
Qed.
(** Where actions have certain outcomes sampling is always fair: every run converges. *)
Theorem C91_certain_is_fair : sure_outcomes C U -> forall K n s, ereach n s -> fair U K s.
Proof. exact (sure_fair seqb aeqb seqb_ok aeqb_ok C U Uok B Sane). Qed.
Theorem C91_root_certain : sure_outcomes C U -> is_sink C (root_state C) = false -> (0 < max_depth C)%Z -> NoDup (acts C (root_state C)) ->
  forall n eps, 0 < eps -> exists N0, forall g s, good_ints g -> good_reals g -> areach n g s -> (N0 <= count is_done (etrace (base s)))%Z ->
  exists root x, nth_error (dh (mem (base s))) 0 = Some root /\ nth_error (xds s) 0 = Some x /\
    Rabs (uavg x - V (Z.to_nat (max_depth C)) (root_state C) (root_time C)) <= eps /\
    always (uct_recommend aeqb C U root (dview s root)) (best_action C U V (Z.to_nat (max_depth C)) (root_state C) (root_time C)).
Proof.
  intros Det Ns Hm Nd n eps He. destruct (C91_root_converges n (fun _ => 0%Z) eps He) as (N1 & H1). destruct (C91_root_recommends_best Ns Hm Nd n (fun _ => 0%Z)) as (N2 & H2).
  exists (Z.max N1 N2). intros g s Gi Gr R Hk. pose proof (C91_certain_is_fair Det (fun _ => 0%Z) n _ (C08_algorithms_run_the_engine _ _ _ _ _ _ _ R)) as F.
  destruct (H1 g s Gi Gr R F ltac:(lia)) as (x & Hx & E1). destruct (H2 g s Gi Gr R F ltac:(lia)) as (root & Hr & E2). exists root, x. auto.
Qed.
End Theorems.

(** The exploration terms of UCT and of PUCT with a power between 0 and 1 die out. *)
Theorem C91_uct_term : sublinear uct_term.
Proof. exact uct_term_sublinear. Qed.
Theorem C91_puct_term : forall p, 0 < p < 1 -> sublinear (puct_term p).
Proof. exact puct_term_sublinear. Qed.

Print Assumptions C91_values_exist.
Print Assumptions C91_values_unique.
Print Assumptions C91_values_converge.
Print Assumptions C91_actions_converge.
Print Assumptions C91_rarely_tried.
Print Assumptions C91_recommends_best.
Print Assumptions C91_root_converges.
Print Assumptions C91_root_recommends_best.
Print Assumptions C91_certain_is_fair.
Print Assumptions C91_root_certain.
Print Assumptions C91_uct_term.
Print Assumptions C91_puct_term.

(** ** A game that meets the hypotheses *)
(** Two moves, the second by the opponent. The action with the better first reward loses against best play. *)
Definition conv_reward (s : nat) (a : bool) (_ : nat) : R :=
  match s, a with 0%nat, true => 1 | 1%nat, true => 1 | 1%nat, false => -3 | 2%nat, false => 2 | _, _ => 0 end.
Definition conv_conf : @econf nat bool :=
  mkConf (fun _ => false) (fun _ => [true; false]) (fun s a => [if a then (2 * s + 1)%nat else (2 * s + 2)%nat])
         conv_reward None 2 true false 0 0%nat 0.
Definition conv_uct (most : bool) : @uconf nat bool :=
  mkU (-1) 0 most 0 None true uct_term (fun (s : nat) (a : bool) => [((if a then (2 * s + 1)%nat else (2 * s + 2)%nat), 1)]) (fun V m => rev m).

Lemma conv_ok : forall m, uct_ok conv_conf (conv_uct m).
Proof. intros m. split; [|split; [|split]]; try reflexivity; intros V l; apply Permutation_rev. Qed.
Lemma conv_sane : forall m, sane conv_conf (conv_uct m) 3.
Proof.
  intros m. split; [discriminate|]. split.
  { intros s a _ _. cbn. split; [|lra]. intros p [<-|[]]; cbn; lra. }
  split; [intros [|[|[|s]]] [|] o; cbn; apply Rabs_le; lra|].
  split; [intros h s [=]|]. split; [lra|]. split; [cbn; lia|]. split.
  { cbn [max_depth conv_conf]. unfold dbl_lowest. rewrite Ropp_involutive. rewrite <- plus_IZR, <- mult_IZR.
    apply IZR_le. vm_compute. discriminate. }
  split; [intros p [=]|]. split; [left; reflexivity|]. apply uct_term_nonneg.
Qed.
Lemma conv_explores : forall m, explores (conv_uct m).
Proof. intros m. split; [now left|]. split; [discriminate|exact C77_uct_term]. Qed.
Lemma conv_sure : forall m, sure_outcomes conv_conf (conv_uct m).
Proof. intros m s a _ _. cbn. eauto. Qed.

(** However small [eps] is and whichever recommendation rule is set, some search on two threads values the game at 0 up to [eps]
    and recommends the action that holds the draw. *)
Example C91_witness : forall most eps, 0 < eps -> exists s root x,
  areach Nat.eqb Bool.eqb conv_conf (uct Bool.eqb conv_conf (conv_uct most)) 2 g_ex s /\ quiet (base s) /\
  nth_error (dh (mem (base s))) 0 = Some root /\ nth_error (xds s) 0 = Some x /\ Rabs (uavg x) <= eps /\
  always (uct_recommend Bool.eqb conv_conf (conv_uct most) root (dview s root)) (fun a => a = false).
Proof.
  intros most eps He. assert (Gi : good_ints g_ex) by (intros i; cbn; lia). assert (Gr : good_reals g_ex) by (intros i; cbn; lra).
  destruct (C91_values_exist conv_conf (conv_uct most) 3 (conv_sane most)) as (V & Sv).
  assert (E1 : forall t s, V 1%nat s t = umover (conv_uct most) t (WorldResults.top [true; false] (fun a => umover (conv_uct most) t (conv_reward s a 0)))).
  { intros t s. rewrite (C91_values_unique conv_conf (conv_uct most) V (uvalues conv_conf (conv_uct most)) Sv (uvalues_solve _ _ 3 (conv_sane most))).
    cbn [uvalues is_sink conv_conf acts]. f_equal. cbn [WorldResults.top]. unfold expected, SoftSpec.rsum_of. cbn. unfold initial. cbn.
    f_equal; f_equal; destruct s as [|[|[|s]]]; cbn; ring. }
  assert (W : forall a, uworth conv_conf (conv_uct most) V 1 0%nat 0 a = if a then -2 else 0).
  { intros [|]; unfold uworth, expected, SoftSpec.rsum_of; cbn [udistr conv_uct map rsum fst snd]; rewrite E1; cbn; unfold Rmax; destruct (Rle_dec _ _) as [q|q]; revert q; unfold umover; change (Z.odd (0 + 1)) with true; cbn; intros q; lra. }
  destruct (us_step _ _ _ Sv 1%nat 0%nat 0%Z eq_refl) as [(b & Ib & Eb) Ub]. pose proof (Ub false ltac:(cbn; auto)) as Uf. rewrite W in Eb, Uf.
  unfold umover in Eb, Uf. cbn [utwo conv_uct Z.odd andb] in Eb, Uf.
  assert (V2 : V 2%nat 0%nat 0%Z = 0) by (destruct b; lra).
  destruct (C91_root_certain Nat.eqb Bool.eqb nat_decides bool_decides conv_conf (conv_uct most) (conv_ok most) 3 (conv_sane most) eq_refl (Rle_refl 0)
              (conv_explores most) C91_uct_term V Sv (conv_sure most) eq_refl ltac:(cbn; lia)) with (n := 2%nat) (eps := eps) as (N0 & H); auto.
  { cbn. repeat constructor; cbn; intuition discriminate. }
  destruct (C63_uct_completes Nat.eqb Bool.eqb nat_decides bool_decides conv_conf (conv_uct most) (conv_ok most) 3
              (conv_sane most) 2 g_ex Gi Gr ltac:(lia) (Z.to_nat N0)) as (s & R & Q & Kd).
  destruct (H g_ex s Gi Gr R ltac:(rewrite Kd; lia)) as (root & x & Hr & Hx & Hv & Hrec). exists s, root, x. do 4 (split; auto). split.
  - change (Z.to_nat (max_depth conv_conf)) with 2%nat in Hv. cbn [root_state root_time conv_conf] in Hv. rewrite V2, Rminus_0_r in Hv. exact Hv.
  - intros g0 G0. destruct (Hrec g0 G0) as (a & g' & Er & Eg1 & Eg2 & _ & Ea). exists a, g'. do 3 (split; auto).
    change (Z.to_nat (max_depth conv_conf)) with 2%nat in Ea. cbn [root_state root_time conv_conf Nat.sub] in Ea. rewrite W, V2 in Ea. destruct a; auto. lra.
Qed.
