(** Property theorems C106: the values of TENTS stay within bounds, and its recommendations always succeed. *)
From Coq Require Import List ZArith Bool Reals Lia Lra Permutation.
From Verif Require Import Base HelperModel HelperSpec EngineModel EngineSpec PickSpec RecSpec AlgoModel UctModel
  MentsModel MentsSpec DentsSpec DefaultModel DefaultSpec DefaultTheorems RentsSpec RentsTheorems TboundSpec TboundProofs.
Import ListNotations.
Open Scope R_scope.

Section Theorems.
Context {S A : Type}.
Variable seqb : S -> S -> bool.
Variable aeqb : A -> A -> bool.
Hypothesis seqb_ok : decides seqb.
Hypothesis aeqb_ok : decides aeqb.
Variable C : @econf S A.
Variable M : @mconf S A.
Notation areach := (areach seqb aeqb C (tents aeqb C M)).
Hypothesis Mok : ments_ok C M.
Hypothesis Env : env_ok C M.
Hypothesis Tok : temps_ok M.
Hypothesis Pr : prior_ok C M.
Variable B N : R.
Hypothesis Vok : values_ok C M B.
Hypothesis Few : few_actions C N.

(** ** C106 *)
(** At every moment of every search, the values of all nodes are within the bound for their depth. *)
Theorem C106_tents_values : forall n g s, areach n g s ->
  (forall d node x, nth_error (dh (mem (base s))) d = Some node -> nth_error (xds s) d = Some x ->
     Rabs (m_soft (t_m (x : @tmem A))) <= sparse_bound C M B N (ddepth node)) /\
  (forall c node x, nth_error (ch (mem (base s))) c = Some node -> nth_error (xcs s) c = Some x ->
     Rabs (c_soft (x : cmem)) <= B + sparse_bound C M B N (cdepth node + 1)).
Proof. exact (tents_values seqb aeqb seqb_ok aeqb_ok C M Mok Env Tok Pr B N Vok Few). Qed.

(** Recommendations therefore succeed at every node above the depth limit that is not a sink: an action of largest value among
    those visited often enough (among all if there are none), or a most visited child; each equally likely. *)
Theorem C106_tents_recommends : forall n g s d (node : dnode) x, areach n g s -> nth_error (dh (mem (base s))) d = Some node ->
  nth_error (xds s) d = Some x -> is_sink C (dstate node) = false -> (ddepth node < max_depth C)%Z ->
  sparse_bound C M B N 0 <= - dbl_lowest ->
  exists q, (forall a, In a (acts C (dstate node)) -> q_of M c_soft node (m_off (t_m (x : @tmem A))) (dview s node) a (q a)) /\
   picks (ments_recommend aeqb C M node (t_m (x : @tmem A)) (dview s node))
    (if mmost_visited M then most_visited (acts C (dstate node)) (dview s node)
     else best_choice (acts C (dstate node)) (visited_enough M (dview s node)) q).
Proof. exact (tents_recommends seqb aeqb seqb_ok aeqb_ok C M Mok Env Tok Pr B N Vok Few). Qed.
End Theorems.

Lemma sparse_small {S A : Type} (E : @environment S A) T B time order : args_make_sense E T B -> 0 <= B <= powerRZ 2 900 ->
  let C := ments_search_conf E (dents_defaults (ments_defaults T)) time in
  let M := dents_manager E (dents_defaults (ments_defaults T)) order in
  sparse_bound C M (B + 256) (IZR (10 ^ 14)) 0 <= - dbl_lowest.
Proof.
  intros Y Hb C M. pose proof (default_bound order E T B time Y Hb) as L. fold C M in L. eapply Rle_trans; [|exact L].
  unfold sparse_bound, relative_bound. apply Rplus_le_compat_l, Rmult_le_compat_l.
  - apply (IZR_le 0). rewrite Z.sub_0_r. change (max_depth C) with (t_max_depth T). apply (s_depth _ _ _ Y).
  - apply Rplus_le_compat_l, Rmult_le_compat_l.
    + apply Rle_trans with (mtemp M); [change (mtemp M) with 1; lra|apply Rmax_l].
    + left. apply ln_increasing.
      * eapply Rlt_le_trans; [|apply Rmax_r]. lra.
      * rewrite Rmax_left by (apply IZR_le; lia). rewrite Rmax_right by (apply IZR_le; lia). apply IZR_lt. lia.
Qed.

Section Defaults.
Context {S A : Type}.
Variable seqb : S -> S -> bool.
Variable aeqb : A -> A -> bool.
Hypothesis seqb_ok : decides seqb.
Hypothesis aeqb_ok : decides aeqb.
Variable order : forall V, list (A * V) -> list (A * V).
Hypothesis ord : iterates order.

(** With default arguments and rewards and heuristic values up to 2^900 all of this applies. *)
Theorem C106_tents_defaults : forall (E : @environment S A) T B time, works_in E (IZR (10 ^ 14)) B -> args_make_sense E T B ->
  0 <= B <= powerRZ 2 900 ->
  let C := ments_search_conf E (dents_defaults (ments_defaults T)) time in
  let M := dents_manager E (dents_defaults (ments_defaults T)) order in
  forall n g s d node x, areach seqb aeqb C (tents aeqb C M) n g s -> nth_error (dh (mem (base s))) d = Some node ->
  nth_error (xds s) d = Some x ->
  Rabs (m_soft (t_m (x : @tmem A))) <= sparse_bound C M (B + 256) (IZR (10 ^ 14)) (ddepth node) /\
  (v_sink E (dstate node) = false -> (ddepth node < t_max_depth T)%Z ->
   exists q, (forall a, In a (v_acts E (dstate node)) -> q_of M c_soft node (m_off (t_m (x : @tmem A))) (dview s node) a (q a)) /\
     picks (ments_recommend aeqb C M node (t_m (x : @tmem A)) (dview s node))
       (best_choice (v_acts E (dstate node)) (visited_enough M (dview s node)) q)).
Proof using seqb_ok aeqb_ok ord.
  intros E T B time W Y Hb C M n g s d node x R Hd Hx.
  destruct (entropy_default_ok order ord E T B time W Y (proj1 Hb)) as (Mok & Env & Tok & Pr & Vok & Few & _ & _ & _).
  fold C M in Mok, Env, Tok, Pr, Vok, Few. pose proof (sparse_small E T B time order Y Hb) as L. fold C M in L.
  split.
  - exact (proj1 (C106_tents_values seqb aeqb seqb_ok aeqb_ok C M Mok Env Tok Pr _ _ Vok Few n g s R) d node x Hd Hx).
  - intros Hs Hl. exact (C106_tents_recommends seqb aeqb seqb_ok aeqb_ok C M Mok Env Tok Pr _ _ Vok Few n g s d node x R Hd Hx Hs Hl L).
Qed.
End Defaults.
Print Assumptions C106_tents_values.
Print Assumptions C106_tents_recommends.
Print Assumptions C106_tents_defaults.

(** The premises are met by the walk of C104. *)
Example C106_witness : let C := ments_search_conf walk (dents_defaults (ments_defaults thts_defaults)) 0 in
  let M := dents_manager walk (dents_defaults (ments_defaults thts_defaults)) (fun V (m : list (bool * V)) => rev m) in
  ments_ok C M /\ env_ok C M /\ temps_ok M /\ prior_ok C M /\ values_ok C M (5 + 256) /\
  few_actions C (IZR (10 ^ 14)) /\ sparse_bound C M (5 + 256) (IZR (10 ^ 14)) 0 <= - dbl_lowest.
Proof.
  intros C M. destruct C104_witness as (W & Y & Hb & O).
  destruct (entropy_default_ok _ O walk thts_defaults 5 0 W Y (proj1 Hb)) as (H1 & H2 & H3 & H4 & H5 & H6 & H7 & _ & _).
  repeat (split; [assumption|]).
  exact (sparse_small walk thts_defaults 5 0 _ Y Hb).
Qed.
