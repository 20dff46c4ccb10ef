(** Property theorem C77: no action of a UCT or PUCT search starves. For every environment, every number of threads,
    every interleaving and every stream of random numbers. *)
From Coq Require Import List ZArith Bool Reals Lia Lra Permutation.
From Verif Require Import Base BaseProofs NumOps HelperModel HelperSpec EngineModel EngineSpec EngineTheorems AlgoModel
  AlgoTheorems UctModel UctSpec UctTheorems ExploreSpec ExploreProofs.
Import ListNotations.
Open Scope R_scope.

Section Theorems.
Context {S A : Type}.
Variable seqb : S -> S -> bool.
Variable aeqb : A -> A -> bool.
Hypothesis seqb_ok : decides seqb.
Hypothesis aeqb_ok : decides aeqb.
Variable C : @econf S A.
Variable U : @uconf S A.
Notation alg := (uct aeqb C U).
Notation areach := (areach seqb aeqb C alg).

(** For every state, number of threads and k there is a number N such that in every search every node of that state
    at which N selections were made has a child for every valid action, visited at least k times. *)
Theorem C77_no_action_starves : uct_ok C U -> forall B, sane C U B -> ueps U <= 0 -> explores U ->
  forall st n k, exists N, forall g s, good_ints g -> good_reals g -> areach n g s ->
  forall d node, nth_error (dh (mem (base s))) d = Some node -> dstate node = st ->
  (N <= Z.of_nat (length (selected d (etrace (base s)))))%Z -> all_tried aeqb C k (mem (base s)) d.
Proof. exact (no_starvation seqb aeqb seqb_ok aeqb_ok C U). Qed.

(** At the root: after N completed trials every action was tried k times. *)
Theorem C77_root : uct_ok C U -> forall B, sane C U B -> ueps U <= 0 -> explores U ->
  is_sink C (root_state C) = false -> (0 < max_depth C)%Z ->
  forall n k, exists N, forall g s, good_ints g -> good_reals g -> areach n g s ->
  (N <= count is_done (etrace (base s)))%Z -> all_tried aeqb C k (mem (base s)) 0.
Proof. exact (no_starvation_root seqb aeqb seqb_ok aeqb_ok C U). Qed.
End Theorems.

(** The exploration terms of UCT and of PUCT with a positive power never die out. *)
Theorem C77_uct_term : exploring uct_term.
Proof. exact uct_term_exploring. Qed.
Theorem C77_puct_term : forall p, 0 < p -> exploring (puct_term p).
Proof. exact puct_term_exploring. Qed.

Print Assumptions C77_no_action_starves.
Print Assumptions C77_root.
Print Assumptions C77_uct_term.
Print Assumptions C77_puct_term.

(** ** Examples that meet the hypotheses *)
Example C77_explores_witness : explores (uct_ex 0).
Proof. split; [now left|]. split; [discriminate|exact C77_uct_term]. Qed.

(** However large k is, some search on two threads has visited both actions of the root k times. *)
Example C77_witness : forall k, exists s,
  areach Nat.eqb Bool.eqb uct_ex_conf (uct Bool.eqb uct_ex_conf (uct_ex 0)) 2 g_ex s /\ quiet (base s) /\
  all_tried Bool.eqb uct_ex_conf k (mem (base s)) 0.
Proof.
  intros k. assert (Gi : good_ints g_ex) by (intros i; cbn; lia). assert (Gr : good_reals g_ex) by (intros i; cbn; lra).
  destruct (C77_root Nat.eqb Bool.eqb nat_decides bool_decides uct_ex_conf (uct_ex 0) (uct_ok_witness 0) 5
              (uct_sane_witness 0) (Rle_refl 0) C77_explores_witness eq_refl ltac:(cbn; lia) 2 k) as (N & H).
  destruct (C63_uct_completes Nat.eqb Bool.eqb nat_decides bool_decides uct_ex_conf (uct_ex 0) (uct_ok_witness 0) 5
              (uct_sane_witness 0) 2 g_ex Gi Gr ltac:(lia) (Z.to_nat N)) as (s & R & Q & K).
  exists s. split; auto. split; auto. apply (H g_ex s Gi Gr R). rewrite K. lia.
Qed.
