(* C16: reusing a manager, with its transposition table, for several trees. *)
From Coq Require Import List Arith Bool Lia.
From Verif Require Import TTModel TTSpec TTProofs.
Import ListNotations.

(** In every history a table entry is expired exactly if its node is not alive any more. *)
Theorem C16_expired_means_gone tt l s n :
  thist tt tnew l = Some s -> (exists_still s n = true <-> alive s n).
Proof. intros H. apply exists_owned. eapply hist_ok; [apply good_new|eauto]. Qed.
Print Assumptions C16_expired_means_gone.

(** In every history, if a child is returned then it is a usable node: alive, the child of the node it was asked for
    under that outcome or action, and one level below; and all the nodes that were alive still are. *)
Theorem C16_returned_usable tt l s n x k c s' :
  thist tt tnew l = Some s -> nth_error (theap s) n = Some x -> alive s n ->
  create_child tt s n x k = Made c s' ->
  alive s' c /\
  (exists x', nth_error (theap s') n = Some x' /\ In (k, c) (tkids x') /\ incl (tkids x) (tkids x')) /\
  (exists y, nth_error (theap s') c = Some y /\ tlev y = S (tlev x)) /\
  (forall m, alive s m -> alive s' m).
Proof.
  intros H E A M. assert (G : good s) by (eapply hist_ok; [apply good_new|eauto]).
  destruct (create_ok tt _ _ _ _ _ _ G E M) as (G' & St & (x' & Ex' & J & L) & R).
  assert (K : forall m, alive s m -> alive s' m) by (intros m Am; eapply owned_keep; eauto; rewrite R; apply incl_refl).
  assert (J' : In c (map snd (tkids x'))) by (apply (in_map snd) in J; exact J).
  split; [|split; [|split]]; auto.
  - eapply ow_kid; eauto. apply K; auto.
  - exists x'; split; auto. split; auto. destruct (h_keep _ _ St _ _ E) as (x2 & E2 & _ & I). rewrite Ex' in E2. injection E2 as <-. auto.
  - destruct (g_kids _ G' _ _ _ Ex' J') as (y & Ey & Ly). exists y; split; auto. lia.
Qed.
Print Assumptions C16_returned_usable.

(** C16 holds as long as no tree built with the manager is given up. *)
Theorem C16_trees_kept_partial tt l s n x k :
  thist tt tnew l = Some s -> keeps_trees l -> nth_error (theap s) n = Some x ->
  exists c s', create_child tt s n x k = Made c s'.
Proof.
  intros H K E. assert (G : good s) by (eapply hist_ok; [apply good_new|eauto]).
  assert (A : all_exist s).
  { eapply (all_exist_hist tt l tnew); eauto. { apply good_new. } intros [|m] y; discriminate. }
  unfold create_child, fresh. destruct (kid k (tkids x)); eauto. destruct (tt && chance_node x); eauto.
  destruct (entry (tlev x, k) (ttab s)) as [c|] eqn:Ee; eauto.
  destruct (g_tab _ G _ _ _ Ee) as (y & Ey & _). rewrite (proj2 (exists_owned s c G)); eauto.
Qed.
Print Assumptions C16_trees_kept_partial.

(** It also holds, whatever was given up, without table and for node ids that no earlier tree had. *)
Theorem C16_new_ids_partial tt s n x k :
  tt = false \/ entry (tlev x, k) (ttab s) = None -> exists c s', create_child tt s n x k = Made c s'.
Proof.
  unfold create_child, fresh. intros H. destruct (kid k (tkids x)); eauto. destruct tt; cbn; eauto.
  destruct (chance_node x); eauto. destruct H as [H|H]; [discriminate|]. rewrite H. eauto.
Qed.
Print Assumptions C16_new_ids_partial.

(** ** C16 is false: once the nodes of a tree are gone, every later attempt, in any tree and however much later, to create
    a child with the timestep and outcome of one of those nodes throws std::bad_weak_ptr. *)
Theorem C16_reuse_refuted l1 s1 n x k c l2 s2 l3 s3 n' x' :
  thist true tnew l1 = Some s1 ->
  nth_error (theap s1) n = Some x -> chance_node x = true -> In (k, c) (tkids x) ->
  thist true s1 l2 = Some s2 -> ~ alive s2 c ->
  thist true s2 l3 = Some s3 ->
  nth_error (theap s3) n' = Some x' -> tlev x' = tlev x -> kid k (tkids x') = None ->
  create_child true s3 n' x' k = BadWeakPtr.
Proof.
  intros H1 E Ch J H2 Na H3 E' L Nk.
  assert (G1 : good s1) by (eapply hist_ok; [apply good_new|eauto]).
  assert (I1 : in_step s1).
  { eapply (in_step_hist l1 tnew); eauto. { apply good_new. } intros [|m] y; discriminate. }
  assert (G2 : good s2) by (eapply hist_ok; eauto).
  assert (Ent2 : entry (tlev x, k) (ttab s2) = Some c).
  { assert (Ent1 : entry (tlev x, k) (ttab s1) = Some c) by (eapply I1; eauto).
    clear - G1 H2 Ent1. revert s1 G1 H2 Ent1. induction l2 as [|o l2 IH]; intros s1 G1 H2 Ent1; cbn in H2; [injection H2 as <-; auto|].
    destruct (tdo true s1 o) as [s|] eqn:Eo; [|discriminate]. destruct (do_ok true _ _ _ G1 Eo) as [Gs Hs].
    eapply (IH s); eauto. apply (h_tab _ _ Hs); auto. }
  destruct (gone_forever true l3 s2 s3 c (tlev x) k G2 H3 Ent2 Na) as [Ent3 Na3].
  assert (G3 : good s3) by (eapply hist_ok; eauto).
  assert (Ch' : chance_node x' = true) by (unfold chance_node in *; rewrite L; auto).
  unfold create_child. rewrite Nk, Ch'. cbn [andb]. rewrite L, Ent3.
  destruct (exists_still s3 c) eqn:Es; auto. exfalso. apply Na3. apply exists_owned; auto.
Qed.
Print Assumptions C16_reuse_refuted.

(** The smallest such history: a tree with one action and one outcome is searched and given up, and then searched again
    from a new root with the same manager. *)
Example C16_witness :
  let first := [TRoot; TChild 0 0; TChild 1 7] in
  let again := [TDrop 0; TRoot; TChild 3 0] in
  exists s, thist true tnew (first ++ again) = Some s /\ alive s 4 /\
    exists x, nth_error (theap s) 4 = Some x /\ chance_node x = true /\ create_child true s 4 x 7 = BadWeakPtr.
Proof.
  cbn zeta. eexists. split; [reflexivity|]. split.
  - apply (exists_owned _ 4); [|reflexivity]. eapply (hist_ok true [TRoot; TChild 0 0; TChild 1 7; TDrop 0; TRoot; TChild 3 0] tnew); [apply good_new|reflexivity].
  - eexists; split; [reflexivity|]. split; reflexivity.
Qed.

(** And a history that keeps its trees and in which two trees share nodes through the table. *)
Example C16_shared_witness :
  exists s, thist true tnew [TRoot; TChild 0 0; TChild 1 7; TRoot; TChild 3 0; TChild 4 7] = Some s /\
    map snd (concat (map tkids (theap s))) = [1; 2; 4; 2].
Proof. eexists. split; reflexivity. Qed.
