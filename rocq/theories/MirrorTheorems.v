(** Property theorems about opponents: C59. *)
From Coq Require Import List ZArith Bool Reals Lia Lra.
From Verif Require Import Base NumOps HelperModel EngineModel EngineSpec AlgoModel UctModel UctSpec UctTheorems MentsModel MentsSpec MentsTheorems MirrorSpec MirrorProofs MirrorAlgos.
Import ListNotations.
Open Scope R_scope.

Section Theorems.
Context {S A : Type}.
Variable seqb : S -> S -> bool.
Variable aeqb : A -> A -> bool.
Variable C : @econf S A.
Notation C' := (neg_conf C).
Notation dnode := (@dnode S A).
Notation cnode := (@cnode S A).

(** ** UCT and PUCT *)
Section Uct.
Variable U : @uconf S A.
Hypothesis Two : utwo U = true.
(** The roles are exchanged. *)
Theorem C59_uct_roles : forall n : dnode, uct_opp U (neg_d n) = - uct_opp U n.
Proof. exact (uopp_neg U Two). Qed.
(** UCT and PUCT at a node. *)
Theorem C59_uct_node : mirrors (G := uct aeqb C U) (G' := uct aeqb C' U) neg_u neg_u (fun cx => cx).
Proof. exact (mirrored_mirrors _ _ _ _ _ _ _ (uct_mirrored aeqb C U Two)). Qed.
Theorem C59_uct_recommends : forall n (kids : list (A * (cnode * ux))) g, uct_recommend aeqb C' U (neg_d n) (neg_dkids neg_u kids) g = uct_recommend aeqb C U n kids g.
Proof. exact (urec_neg aeqb C U Two). Qed.
(** Whole searches: with the same schedule and random numbers, the search of the negated problem is the negated search. *)
Theorem C59_uct_search : forall n g ls,
  arun seqb aeqb C' (uct aeqb C' U) ls (ainit C' (uct aeqb C' U) n g) =
  option_map (neg_ast (G := uct aeqb C U) (G' := uct aeqb C' U) neg_u neg_u (fun cx => cx)) (arun seqb aeqb C (uct aeqb C U) ls (ainit C (uct aeqb C U) n g)).
Proof. exact (arun_neg seqb aeqb C _ _ _ _ _ (uct_mirrored aeqb C U Two)). Qed.
End Uct.

(** ** MENTS and its relatives *)
Section Ments.
Variable M : @mconf S A.
Notation M' := (neg_mconf M).
Hypothesis Two : mtwo M = true.
(** The roles are exchanged. *)
Theorem C59_roles : forall n : dnode, opponent M' (neg_d n) = negb (opponent M n).
Proof. intros n. unfold opponent. cbn [mtwo neg_mconf dtime neg_d]. rewrite Two, odd_next. reflexivity. Qed.
(** MENTS at a node. *)
Theorem C59_ments_node : mirrors (G := ments aeqb C M) (G' := ments aeqb C' M') neg_m neg_cm (fun cx => cx).
Proof. exact (mirrored_mirrors _ _ _ _ _ _ _ (ments_mirrored aeqb C M Two)). Qed.
Theorem C59_ments_recommends : forall n x (kids : list (A * (cnode * cmem))) g,
  ments_recommend aeqb C' M' (neg_d n) (neg_m x) (neg_dkids neg_cm kids) g = ments_recommend aeqb C M n x kids g.
Proof. exact (rec_neg aeqb C M Two). Qed.
(** Whole searches: with the same schedule and random numbers, the search of the negated problem is the negated search. *)
Theorem C59_ments_search : forall n g ls,
  arun seqb aeqb C' (ments aeqb C' M') ls (ainit C' (ments aeqb C' M') n g) =
  option_map (neg_ast (G := ments aeqb C M) (G' := ments aeqb C' M') neg_m neg_cm (fun cx => cx)) (arun seqb aeqb C (ments aeqb C M) ls (ainit C (ments aeqb C M) n g)).
Proof. exact (arun_neg seqb aeqb C _ _ _ _ _ (ments_mirrored aeqb C M Two)). Qed.
(** DB-MENTS at a node. *)
Theorem C59_dbments_node : mirrors (G := dbments aeqb C M) (G' := dbments aeqb C' M') neg_mv neg_cv (neg_looks neg_mv neg_cv).
Proof. exact (mirrored_mirrors _ _ _ _ _ _ _ (dbments_mirrored aeqb C M Two)). Qed.
Theorem C59_dbments_recommends : forall n (kids : list (A * (cnode * (cmem * vmem)))) g,
  dbments_recommend aeqb C' M' (neg_d n) (neg_dkids neg_cv kids) g = dbments_recommend aeqb C M n kids g.
Proof. exact (dbrec_neg aeqb C M Two). Qed.
(** Whole searches: with the same schedule and random numbers, the search of the negated problem is the negated search. *)
Theorem C59_dbments_search : forall n g ls,
  arun seqb aeqb C' (dbments aeqb C' M') ls (ainit C' (dbments aeqb C' M') n g) =
  option_map (neg_ast (G := dbments aeqb C M) (G' := dbments aeqb C' M') neg_mv neg_cv (neg_looks neg_mv neg_cv)) (arun seqb aeqb C (dbments aeqb C M) ls (ainit C (dbments aeqb C M) n g)).
Proof. exact (arun_neg seqb aeqb C _ _ _ _ _ (dbments_mirrored aeqb C M Two)). Qed.
(** DENTS at a node. *)
Theorem C59_dents_node : mirrors (G := dents aeqb C M) (G' := dents aeqb C' M') neg_dm neg_dc (neg_looks neg_dm neg_dc).
Proof. exact (mirrored_mirrors _ _ _ _ _ _ _ (dents_mirrored aeqb C M Two)). Qed.
Theorem C59_dents_recommends : forall n (kids : list (A * (cnode * dcmem))) g,
  dents_recommend aeqb C' M' (neg_d n) (neg_dkids neg_dc kids) g = dents_recommend aeqb C M n kids g.
Proof. exact (drec_neg aeqb C M Two). Qed.
(** Whole searches: with the same schedule and random numbers, the search of the negated problem is the negated search. *)
Theorem C59_dents_search : forall n g ls,
  arun seqb aeqb C' (dents aeqb C' M') ls (ainit C' (dents aeqb C' M') n g) =
  option_map (neg_ast (G := dents aeqb C M) (G' := dents aeqb C' M') neg_dm neg_dc (neg_looks neg_dm neg_dc)) (arun seqb aeqb C (dents aeqb C M) ls (ainit C (dents aeqb C M) n g)).
Proof. exact (arun_neg seqb aeqb C _ _ _ _ _ (dents_mirrored aeqb C M Two)). Qed.
(** EST at a node. *)
Theorem C59_est_node : mirrors (G := est aeqb C M) (G' := est aeqb C' M') neg_dm neg_dc (fun cx => cx).
Proof. exact (mirrored_mirrors _ _ _ _ _ _ _ (est_mirrored aeqb C M Two)). Qed.
(** Whole searches: with the same schedule and random numbers, the search of the negated problem is the negated search. *)
Theorem C59_est_search : forall n g ls,
  arun seqb aeqb C' (est aeqb C' M') ls (ainit C' (est aeqb C' M') n g) =
  option_map (neg_ast (G := est aeqb C M) (G' := est aeqb C' M') neg_dm neg_dc (fun cx => cx)) (arun seqb aeqb C (est aeqb C M) ls (ainit C (est aeqb C M) n g)).
Proof. exact (arun_neg seqb aeqb C _ _ _ _ _ (est_mirrored aeqb C M Two)). Qed.
(** RENTS at a node. *)
Theorem C59_rents_node : mirrors (G := rents aeqb C M) (G' := rents aeqb C' M') neg_m neg_cm (fun cx => cx).
Proof. exact (mirrored_mirrors _ _ _ _ _ _ _ (rents_mirrored aeqb C M Two)). Qed.
(** Whole searches: with the same schedule and random numbers, the search of the negated problem is the negated search. *)
Theorem C59_rents_search : forall n g ls,
  arun seqb aeqb C' (rents aeqb C' M') ls (ainit C' (rents aeqb C' M') n g) =
  option_map (neg_ast (G := rents aeqb C M) (G' := rents aeqb C' M') neg_m neg_cm (fun cx => cx)) (arun seqb aeqb C (rents aeqb C M) ls (ainit C (rents aeqb C M) n g)).
Proof. exact (arun_neg seqb aeqb C _ _ _ _ _ (rents_mirrored aeqb C M Two)). Qed.
(** TENTS at a node. *)
Theorem C59_tents_node : mirrors (G := tents aeqb C M) (G' := tents aeqb C' M') neg_t neg_cm (fun cx => cx).
Proof. exact (mirrored_mirrors _ _ _ _ _ _ _ (tents_mirrored aeqb C M Two)). Qed.
(** Whole searches: with the same schedule and random numbers, the search of the negated problem is the negated search. *)
Theorem C59_tents_search : forall n g ls,
  arun seqb aeqb C' (tents aeqb C' M') ls (ainit C' (tents aeqb C' M') n g) =
  option_map (neg_ast (G := tents aeqb C M) (G' := tents aeqb C' M') neg_t neg_cm (fun cx => cx)) (arun seqb aeqb C (tents aeqb C M) ls (ainit C (tents aeqb C M) n g)).
Proof. exact (arun_neg seqb aeqb C _ _ _ _ _ (tents_mirrored aeqb C M Two)). Qed.
End Ments.
End Theorems.

Print Assumptions C59_uct_roles.
Print Assumptions C59_roles.
Print Assumptions C59_uct_node.
Print Assumptions C59_ments_node.
Print Assumptions C59_dbments_node.
Print Assumptions C59_dents_node.
Print Assumptions C59_est_node.
Print Assumptions C59_rents_node.
Print Assumptions C59_tents_node.
Print Assumptions C59_uct_recommends.
Print Assumptions C59_ments_recommends.
Print Assumptions C59_dbments_recommends.
Print Assumptions C59_dents_recommends.
Print Assumptions C59_uct_search.
Print Assumptions C59_ments_search.
Print Assumptions C59_dbments_search.
Print Assumptions C59_dents_search.
Print Assumptions C59_est_search.
Print Assumptions C59_rents_search.
Print Assumptions C59_tents_search.

(** ** Examples *)
(** The two-player walks of the other examples are of this kind; a search of seven trials on two threads has a mirror. *)
Example C59_witness : utwo (uct_ex 0) = true /\ mtwo (ments_ex 100) = true /\
  exists ls s, arun Nat.eqb Bool.eqb uct_ex_conf (uct Bool.eqb uct_ex_conf (uct_ex 0)) ls (ainit uct_ex_conf (uct Bool.eqb uct_ex_conf (uct_ex 0)) 2 g_ex) = Some s /\
    arun Nat.eqb Bool.eqb (neg_conf uct_ex_conf) (uct Bool.eqb (neg_conf uct_ex_conf) (uct_ex 0)) ls
      (ainit (neg_conf uct_ex_conf) (uct Bool.eqb (neg_conf uct_ex_conf) (uct_ex 0)) 2 g_ex) =
      Some (neg_ast (G := uct Bool.eqb uct_ex_conf (uct_ex 0)) (G' := uct Bool.eqb (neg_conf uct_ex_conf) (uct_ex 0)) neg_u neg_u (fun cx => cx) s) /\
    count is_done (etrace (base s)) = 7%Z.
Proof.
  split; [reflexivity|]. split; [reflexivity|]. destruct uct_never_fails_witness as (s & (ls & E) & _ & _ & K & _). exists ls, s. split; auto. split; auto.
  rewrite (C59_uct_search Nat.eqb Bool.eqb uct_ex_conf (uct_ex 0) eq_refl), E. reflexivity.
Qed.
(** A MENTS node of the opponent (time 1) with children worth 3 and -2: the best soft value from their point of view is -2; in the
    negated problem the player moves there. *)
Example C59_node_witness : forall h, let n := mkD 0%nat 1 1 4 h (@nil (bool * nat)) in
  opponent (ments_ex 100) n = true /\ opponent (neg_mconf (ments_ex 100)) (neg_d n) = false /\
  ments_q Bool.eqb (ments_ex 100) n (mkMm 2 1 0) [(true, (new_cnode 0%nat true 1 1, mkCm 1 3))] true = Ok (-3).
Proof. intros h. split; [reflexivity|]. split; [reflexivity|]. cbn. f_equal. lra. Qed.
