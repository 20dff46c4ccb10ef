(** Property theorems about UCT and PUCT: C18-C23 and C63, for every environment, every number of
    threads, every interleaving and every stream of random numbers. *)
From Coq Require Import List ZArith Bool Reals Lia Lra Permutation.
From Verif Require Import QuietSpec AlgoFinish Base BaseProofs NumOps RLemmas HelperModel HelperSpec EngineModel EngineSpec EngineTheorems
  MapModel PickSpec AlgoModel AlgoProofs AlgoTheorems UctModel UctSpec UctProofs UctInv UctSelect UctRun UctResults.
Import ListNotations.
Open Scope R_scope.

Section Theorems.
Context {S A : Type}.
Variable seqb : S -> S -> bool.
Variable aeqb : A -> A -> bool.
Hypothesis seqb_ok : decides seqb.
Hypothesis aeqb_ok : decides aeqb.
Variable C : @econf S A.
Variable U : @uconf S A.
Notation alg := (uct aeqb C U).
Notation areach := (areach seqb aeqb C alg).

(** ** C18 *)
(** At every moment of every search the value of a node is the mean of the returns it was backed up with, where
    the heuristic value of a decision node counts as many times as there are pseudo trials. *)
Theorem C18_value_is_mean : uct_ok C U -> forall n g s, areach n g s ->
  (forall d node x, nth_error (dh (mem (base s))) d = Some node -> nth_error (xds s) d = Some x ->
     is_mean (pseudo C U) (dheur node) (returns_d d (etrace (base s))) (unb x) (uavg x)) /\
  (forall c x, nth_error (xcs s) c = Some x -> is_mean 0 0 (returns_c c (etrace (base s))) (unb x) (uavg x)).
Proof. exact (C18_value_is_mean' seqb aeqb seqb_ok aeqb_ok C U). Qed.

(** Such a mean lies between bounds of the returns and (if counted) the heuristic value ... *)
Theorem C18_mean_between : forall w h l nb avg lo hi, (0 <= w)%Z -> is_mean w h l nb avg ->
  lo <= h <= hi \/ (w = 0%Z /\ l <> []) -> (forall r, In r l -> lo <= r <= hi) -> lo <= avg <= hi.
Proof. exact mean_bounds. Qed.

(** ... and does not depend on the order of the backups. *)
Theorem C18_order_irrelevant : forall w h l l' nb nb' avg avg', is_mean w h l nb avg -> is_mean w h l' nb' avg' ->
  Permutation l l' -> avg = avg' /\ nb = nb'.
Proof. exact mean_perm. Qed.

(** ** C19 *)
(** The first |A| actions selected at a node are pairwise different, and all selected actions are valid. *)
Theorem C19_first_selections_differ : ueps U <= 0 -> uprior U = None -> (forall st, NoDup (acts C st)) ->
  forall n g s d node, areach n g s -> nth_error (dh (mem (base s))) d = Some node ->
  NoDup (firstn (length (acts C (dstate node))) (rev (selected d (etrace (base s))))) /\
  incl (selected d (etrace (base s))) (acts C (dstate node)).
Proof. exact (C19_first_selections_differ' seqb aeqb seqb_ok aeqb_ok C U). Qed.

(** While some valid action has no child, selection is uniform among those. *)
Theorem C19_untried_first : ueps U <= 0 -> uprior U = None ->
  forall node (kids : list (A * (@cnode S A * ux))), NoDup (acts C (dstate node)) ->
  (exists a, In a (acts C (dstate node)) /\ ~ In a (map fst kids)) ->
  picks (uct_select aeqb C U node kids) (fun a => In a (acts C (dstate node)) /\ ~ In a (map fst kids)).
Proof. exact (C19_untried_first' aeqb aeqb_ok C U). Qed.

(** ** C20 *)
(** Once every action has a child, or with a prior, selection is uniform among the actions that maximise the
    UCB value. *)
Theorem C20_select_is_argmax : uct_ok C U -> ueps U <= 0 ->
  forall node (kids : list (A * (@cnode S A * ux))), prior_covers C U node ->
  (uprior U <> None \/ forall a, In a (acts C (dstate node)) -> In a (map fst kids)) ->
  (exists a, In a (acts C (dstate node)) /\ dbl_lowest <= score aeqb C U node kids a) ->
  picks (uct_select aeqb C U node kids)
        (fun a => In a (acts C (dstate node)) /\
                  forall b, In b (acts C (dstate node)) -> score aeqb C U node kids b <= score aeqb C U node kids a).
Proof. exact (C20_select_is_argmax' aeqb aeqb_ok C U). Qed.

(** In a search of a sane environment the last hypothesis always holds. *)
Theorem C20_in_searches : forall B, uct_ok C U -> sane C U B -> ueps U <= 0 ->
  forall n g s d node, areach n g s -> nth_error (dh (mem (base s))) d = Some node -> is_sink C (dstate node) = false ->
  (uprior U <> None \/ forall a, In a (acts C (dstate node)) -> In a (map fst (dkids node))) ->
  picks (uct_select aeqb C U (visit_d node) (dview s node))
        (fun a => In a (acts C (dstate node)) /\
                  forall b, In b (acts C (dstate node)) ->
                    score aeqb C U (visit_d node) (dview s node) b <= score aeqb C U (visit_d node) (dview s node) a).
Proof. exact (C20_in_searches' seqb aeqb seqb_ok aeqb_ok C U). Qed.

(** With epsilon exploration: a draw below epsilon selects a uniformly random valid action, any other draw
    selects as without exploration. *)
Theorem C20_epsilon : 0 < ueps U -> forall node (kids : list (A * (@cnode S A * ux))) g,
  let g1 := mkRng (gi g) (gr g) (ni g) (Datatypes.S (nr g)) in
  (NoDup (acts C (dstate node)) -> acts C (dstate node) <> [] -> good_ints g -> gr g (nr g) < ueps U ->
     exists a g2, uct_select aeqb C U node kids g = Ok (a, g2) /\
       nth_error (acts C (dstate node)) (Z.to_nat (gi g (ni g) mod Z.of_nat (length (acts C (dstate node))))) = Some a) /\
  (ueps U <= gr g (nr g) -> uct_select aeqb C U node kids g =
     uct_select aeqb C (mkU (ubias U) (upseudo U) (umost_visited U) 0 (uprior U) (utwo U) (uterm U) (udistr U) (uorder U))
       node kids g1).
Proof. exact (C20_epsilon' aeqb aeqb_ok C U). Qed.

(** ** C21 *)
(** In every search of a sane environment a recommendation at any node is a fair choice: of all valid actions
    if the node has no children, otherwise among the children with the most visits / the best value. *)
Theorem C21_uct_recommendation : forall B, uct_ok C U -> sane C U B ->
  forall n g s d node, areach n g s -> nth_error (dh (mem (base s))) d = Some node -> is_sink C (dstate node) = false ->
  NoDup (acts C (dstate node)) ->
  picks (uct_recommend aeqb C U node (dview s node))
        (fun a => In a (acts C (dstate node)) /\
           (dkids node <> [] -> In a (map fst (dkids node)) /\
              forall b, In b (map fst (dkids node)) ->
                if umost_visited U then (kid_visits aeqb (dview s node) b <= kid_visits aeqb (dview s node) a)%Z
                else coeff U node * kid_avg aeqb (dview s node) b <= coeff U node * kid_avg aeqb (dview s node) a)).
Proof. exact (C21_uct_recommendation' seqb aeqb seqb_ok aeqb_ok C U). Qed.

(** ** C22 *)
Theorem C22_auto_bias_bounds : forall (node : @dnode S A) (kids : list (A * (@cnode S A * ux))), ubias U = -1 ->
  1/1000 <= bias_of aeqb U (acts C (dstate node)) kids /\
  (forall a, In a (acts C (dstate node)) -> Rabs (kid_avg aeqb kids a) <= bias_of aeqb U (acts C (dstate node)) kids) /\
  uct_bias aeqb U (acts C (dstate node)) kids = bias_of aeqb U (acts C (dstate node)) kids.
Proof.
  intros node kids H. destruct (auto_bias_bounds aeqb (acts C (dstate node)) kids) as [B1 B2].
  split; [|split; [|apply uct_bias_eq]]; unfold bias_of; destruct (Req_EM_T (ubias U) (-1)); auto; contradiction.
Qed.

(** Multiplying all returns and heuristic values by [c] multiplies the means by [c] ... *)
Theorem C22_means_scale : forall c w h l nb avg nb' avg', is_mean w h l nb avg ->
  is_mean w (c * h) (map (Rmult c) l) nb' avg' -> avg' = c * avg.
Proof. exact mean_scale. Qed.

(** ... which leaves the maximisers of the UCB value unchanged. *)
Theorem C22_scale_invariant : forall c node (kids kids' : list (A * (@cnode S A * ux))) a0, 0 < c -> ubias U = -1 ->
  In a0 (acts C (dstate node)) ->
  (forall x, kid_avg aeqb kids' x = c * kid_avg aeqb kids x) ->
  (forall x, kid_visits aeqb kids' x = kid_visits aeqb kids x) ->
  1/1000 <= Rabs (kid_avg aeqb kids a0) -> 1/1000 <= c * Rabs (kid_avg aeqb kids a0) ->
  forall a, (forall b, In b (acts C (dstate node)) -> score aeqb C U node kids' b <= score aeqb C U node kids' a) <->
            (forall b, In b (acts C (dstate node)) -> score aeqb C U node kids b <= score aeqb C U node kids a).
Proof. exact (C22_scale_invariant' seqb aeqb seqb_ok aeqb_ok C U). Qed.

(** ** C63 *)
(** UCT never throws and never runs into undefined behaviour in a sane environment ... *)
Theorem C63_uct_never_fails : uct_ok C U -> forall B, sane C U B ->
  forall n g s, good_ints g -> good_reals g -> areach n g s -> afail s = None.
Proof. exact (uct_no_fail seqb aeqb seqb_ok aeqb_ok C U). Qed.

(** ... and any number of trials can be completed. *)
Theorem C63_uct_completes : uct_ok C U -> forall B, sane C U B -> forall n g, good_ints g -> good_reals g -> (0 < n)%nat ->
  forall k, exists s, areach n g s /\ quiet (base s) /\ count is_done (etrace (base s)) = Z.of_nat k.
Proof.
  intros Uok B Sane n g Gi Gr Hn. apply (C61_algorithm_completes seqb aeqb seqb_ok aeqb_ok C _ n g 0); auto; [apply one_look_at_most; intros cx; split; reflexivity|apply Sane|].
  intros s R. eapply uct_no_fail; eauto.
Qed.
End Theorems.

(** ** C23 *)
(** The exploration terms are non-negative, grow with the visits of the parent, shrink with the visits of the
    child; zero counts are treated as one. *)
Theorem C23_uct_bonus : forall n m c d, (n <= m)%Z -> (c <= d)%Z ->
  0 <= uct_term n c /\ uct_term n c <= uct_term m c /\ uct_term n d <= uct_term n c /\
  uct_term 0 c = uct_term 1 c /\ uct_term n 0 = uct_term n 1 /\
  ((1 <= n)%Z -> (1 <= c)%Z -> uct_term n c = sqrt (ln (IZR n) / IZR c)).
Proof.
  intros n m c d H K. split; [apply uct_term_nonneg|]. split; [now apply uct_term_parent|].
  split; [now apply uct_term_child|]. split; [reflexivity|]. split; [reflexivity|].
  intros H1 H2. unfold uct_term. destruct (Z.ltb_spec 0 n), (Z.ltb_spec 0 c); try lia. reflexivity.
Qed.
Theorem C23_puct_bonus : forall p n m c d, 0 <= p -> (n <= m)%Z -> (c <= d)%Z ->
  0 <= puct_term p n c /\ puct_term p n c <= puct_term p m c /\ puct_term p n d <= puct_term p n c /\
  puct_term p 0 c = puct_term p 1 c /\ puct_term p n 0 = puct_term p n 1 /\
  ((1 <= n)%Z -> (1 <= c)%Z -> puct_term p n c = Rpower (IZR n) p / IZR c).
Proof.
  intros p n m c d Hp H K. split; [left; apply puct_term_nonneg|]. split; [now apply puct_term_parent|].
  split; [now apply puct_term_child|]. split; [reflexivity|]. split; [reflexivity|].
  intros H1 H2. rewrite puct_term_eq. unfold cnt. destruct (Z.ltb_spec 0 n), (Z.ltb_spec 0 c); try lia. reflexivity.
Qed.

Print Assumptions C18_value_is_mean.
Print Assumptions C18_mean_between.
Print Assumptions C18_order_irrelevant.
Print Assumptions C19_first_selections_differ.
Print Assumptions C19_untried_first.
Print Assumptions C20_select_is_argmax.
Print Assumptions C20_in_searches.
Print Assumptions C20_epsilon.
Print Assumptions C21_uct_recommendation.
Print Assumptions C22_auto_bias_bounds.
Print Assumptions C22_means_scale.
Print Assumptions C22_scale_invariant.
Print Assumptions C23_uct_bonus.
Print Assumptions C23_puct_bonus.
Print Assumptions C63_uct_never_fails.
Print Assumptions C63_uct_completes.

(** ** Examples that meet the hypotheses *)
(** A two-player walk on 0,1,2 with coin-flip moves, a heuristic counted twice, maps iterated backwards. *)
Definition uct_ex_conf : @econf nat bool :=
  mkConf (fun s => Nat.eqb s 2) (fun _ => [true; false]) (fun s _ => [s; S s])
         (fun _ a o => if a then 1 else 0) (Some (fun s => 5)) 3 true false 2 0%nat 0.
Definition uct_ex (eps : R) : @uconf nat bool :=
  mkU (-1) 2 true eps None true uct_term (fun s _ => [(s, 1/2); (S s, 1/2)]) (fun V m => rev m).
Definition g_ex : rng R := mkRng (fun i => Z.of_nat (i * i)) (fun _ => 1/3) 0 0.

Example uct_ok_witness : forall eps, uct_ok uct_ex_conf (uct_ex eps).
Proof. intros eps. split; [|split; [|split]]; try reflexivity; [intros V m; apply Permutation_rev|cbn; lia]. Qed.

Example uct_sane_witness : forall eps, sane uct_ex_conf (uct_ex eps) 5.
Proof.
  intros eps. split; [discriminate|]. split.
  { intros s a _ _. cbn. split; [|lra]. intros p [<-|[<-|[]]]; cbn; lra. }
  split; [intros s [|] o; cbn; rewrite ?Rabs_R0, ?Rabs_R1; lra|].
  split; [intros h s [= <-]; rewrite Rabs_right; lra|]. split; [lra|]. split; [cbn; lia|]. split.
  { cbn [max_depth uct_ex_conf]. unfold dbl_lowest. rewrite Ropp_involutive. rewrite <- plus_IZR, <- mult_IZR.
    apply IZR_le. vm_compute. discriminate. }
  split; [intros p [=]|]. split; [left; reflexivity|]. apply uct_term_nonneg.
Qed.

(** Seven complete trials on two threads. *)
Example uct_never_fails_witness : exists s,
  areach Nat.eqb Bool.eqb uct_ex_conf (uct Bool.eqb uct_ex_conf (uct_ex 0)) 2 g_ex s /\ afail s = None /\
  quiet (base s) /\ count is_done (etrace (base s)) = 7%Z /\
  exists root, nth_error (dh (mem (base s))) 0 = Some root /\ dvisits root = 9%Z /\ is_sink uct_ex_conf (dstate root) = false.
Proof.
  assert (Gi : good_ints g_ex) by (intros i; cbn; lia). assert (Gr : good_reals g_ex) by (intros i; cbn; lra).
  destruct (C63_uct_completes Nat.eqb Bool.eqb nat_decides bool_decides uct_ex_conf (uct_ex 0) (uct_ok_witness 0) 5
              (uct_sane_witness 0) 2 g_ex Gi Gr ltac:(lia) 7) as (s & R & Q & K).
  exists s. split; auto. split.
  { apply (C63_uct_never_fails Nat.eqb Bool.eqb nat_decides bool_decides _ _ (uct_ok_witness 0) 5 (uct_sane_witness 0) _ _ _ Gi Gr R). }
  split; auto. split; [exact K|].
  pose proof (C08_algorithms_run_the_engine _ _ _ _ _ _ _ R) as E.
  destruct (C10_idle Nat.eqb Bool.eqb nat_decides bool_decides uct_ex_conf 2 (base s) E Q) as (_ & (root & Hr & V) & _).
  exists root. split; auto. rewrite K in V. split; [exact V|].
  destruct (wf_root _ _ _ _ (proj1 (C12_well_formed Nat.eqb Bool.eqb nat_decides bool_decides uct_ex_conf 2 (base s) E))) as (n0 & Hn & Hs & _).
  rewrite Hr in Hn. injection Hn as <-. rewrite Hs. reflexivity.
Qed.

(** C20: node values -3 and 2 at an opponent's node where both actions were tried. *)
Example C20_witness : forall node, dstate node = 0%nat ->
  let c0 := new_cnode 0%nat true 0 1 in
  let kids := [(true, (c0, mkUx 1 (-3))); (false, (c0, mkUx 1 2))] in
  prior_covers uct_ex_conf (uct_ex 0) node /\
  (forall a, In a (acts uct_ex_conf (dstate node)) -> In a (map fst kids)) /\
  exists a, In a (acts uct_ex_conf (dstate node)) /\ dbl_lowest <= score Bool.eqb uct_ex_conf (uct_ex 0) node kids a.
Proof.
  intros node E c0 kids. split; [exact I|]. split; [intros [|] _; cbn; auto|].
  assert (L : dbl_lowest <= -3).
  { unfold dbl_lowest. rewrite <- opp_IZR. apply IZR_le. vm_compute. discriminate. }
  exists (if Z.odd (dtime node) then true else false).
  assert (P : forall a, 0 <= prior_of Bool.eqb (uct_ex 0) node a * bias_of Bool.eqb (uct_ex 0) (acts uct_ex_conf (dstate node)) kids *
        uterm (uct_ex 0) (dvisits node) (kid_visits Bool.eqb kids a)).
  { intros a. apply Rmult_le_pos; [|apply uct_term_nonneg]. unfold prior_of. cbn [uprior uct_ex].
    destruct (C22_auto_bias_bounds Bool.eqb uct_ex_conf (uct_ex 0) node kids eq_refl) as [B _]. lra. }
  split; [destruct (Z.odd _); cbn; auto|]. unfold score.
  destruct (Z.odd (dtime node)) eqn:O; match goal with |- _ <= _ + ?x => assert (0 <= x) by apply P; generalize dependent x; intros y Hy end;
    unfold coeff, kid_avg; cbn [utwo uct_ex andb]; rewrite O; cbn; lra.
Qed.

(** C22: values 2 and 3 doubled. *)
Example C22_witness : let c0 := new_cnode 0%nat true 0 0 in
  let kids := [(true, (c0, mkUx 1 2)); (false, (c0, mkUx 1 3))] in
  let kids' := [(true, (c0, mkUx 1 4)); (false, (c0, mkUx 1 6))] in
  (forall x, kid_avg Bool.eqb kids' x = 2 * kid_avg Bool.eqb kids x) /\
  (forall x, kid_visits Bool.eqb kids' x = kid_visits Bool.eqb kids x) /\
  1/1000 <= Rabs (kid_avg Bool.eqb kids true) /\ 1/1000 <= 2 * Rabs (kid_avg Bool.eqb kids true).
Proof. cbv zeta. repeat split; try (intros [|]; cbn; lra); try (intros [|]; reflexivity); cbn; rewrite Rabs_right; lra. Qed.
