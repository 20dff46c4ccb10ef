(** Property theorems about nodes of search trees: C56 and C57. They hold in every state of every search. *)
From Coq Require Import List ZArith Bool Reals Lia.
From Verif Require Import Base BaseProofs EngineModel EngineSpec EngineProofs EngineTheorems MapProofs UctModel MentsModel NodeModel NodeSpec NodeProofs.
Import ListNotations.
Open Scope nat_scope.

Section Theorems.
Context {S A : Type}.
Variable seqb : S -> S -> bool.
Variable aeqb : A -> A -> bool.
Hypothesis seqb_ok : decides seqb.
Hypothesis aeqb_ok : decides aeqb.
Variable C : @econf S A.

Section Wf.
Variable m : @store S A.
Hypothesis W : well_formed seqb aeqb C m.

Lemma kid_c : forall d n a c, nth_error (dh m) d = Some n -> In (a, c) (dkids n) ->
  exists x, nth_error (ch m) c = Some x /\ cstate x = dstate n /\ cdepth x = ddepth n /\ ctime x = dtime n.
Proof using W aeqb_ok.
  intros d n a c N I. destruct (wf_d _ _ _ _ W d n a c N) as (x & X & E1 & E2 & E3 & _).
  - apply (in_lookup aeqb aeqb_ok); auto. eapply wf_dkeys; eauto.
  - eauto.
Qed.
Lemma kid_d : forall c x o d, nth_error (ch m) c = Some x -> In (o, d) (ckids x) ->
  exists n, nth_error (dh m) d = Some n /\ ddepth n = (cdepth x + 1)%Z /\ dtime n = (ctime x + 1)%Z.
Proof using W seqb_ok.
  intros c x o d X I. destruct (wf_c _ _ _ _ W c x o d X) as (n & N & _ & E2 & E3 & _).
  - apply (in_lookup seqb seqb_ok); auto. eapply wf_ckeys; eauto.
  - eauto.
Qed.
Lemma path_node : forall d l e, path m d l e -> forall n, nth_error (dh m) d = Some n ->
  exists n', nth_error (dh m) e = Some n' /\ ddepth n' = (ddepth n + Z.of_nat (length l))%Z /\ dtime n' = (dtime n + Z.of_nat (length l))%Z.
Proof using W aeqb_ok seqb_ok.
  intros d l e P. induction P as [d n0 N0|d n0 a c x o e l f N0 I X J P IH]; intros n N.
  - exists n. cbn [length]. split; [auto|lia].
  - rewrite N in N0. injection N0 as <-. destruct (kid_c _ _ _ _ N I) as (x' & X' & _ & E1 & E2). rewrite X in X'. injection X' as <-.
    destruct (kid_d _ _ _ _ X J) as (n1 & N1 & F1 & F2). destruct (IH n1 N1) as (n' & N' & G1 & G2). exists n'. cbn [length]. split; auto. lia.
Qed.
Lemma path_snoc : forall d l e, path m d l e -> forall n a c x o f n', nth_error (dh m) e = Some n -> In (a, c) (dkids n) ->
  nth_error (ch m) c = Some x -> In (o, f) (ckids x) -> nth_error (dh m) f = Some n' -> path m d (l ++ [(a, o)]) f.
Proof using.
  intros d l e P. induction P as [d n0 N0|d n0 b c0 x0 o0 e l f N0 I X J P IH]; intros n a c x o f' n' N I' X' J' N'; cbn [app].
  - econstructor; eauto. econstructor; eauto.
  - econstructor; eauto.
Qed.
Lemma all_paths : forall d, reachD seqb aeqb m d -> exists l, path m 0 l d.
Proof using W aeqb_ok seqb_ok.
  fix F 2. intros d Rd. destruct Rd as [|c o d Rc K].
  - destruct (wf_root _ _ _ _ W) as (n & N & _). exists []. econstructor; eauto.
  - destruct Rc as [d0 a c Rd0 K0]. destruct (F d0 Rd0) as (l & P). destruct K0 as (n & N & L). destruct K as (x & X & L').
    exists (l ++ [(a, o)]). apply EngineProofs.lookup_in in L; [|auto]. apply EngineProofs.lookup_in in L'; [|auto].
    destruct (kid_d _ _ _ _ X L') as (n' & N' & _). eapply path_snoc; eauto.
Qed.
End Wf.

(** ** C56 *)
(** What is_opponent means, and that it is what the algorithms use. *)
Theorem C56_opponent : forall two t, is_opponent two t = two && Z.odd t.
Proof using.
  intros [] t; [|reflexivity]. unfold is_opponent. cbn [negb andb]. change 1%Z with (Z.ones 1) at 1. rewrite Z.land_ones by lia.
  change (2 ^ 1)%Z with 2%Z. rewrite Zmod_odd. now destruct (Z.odd t).
Qed.
Theorem C56_opponent_uct : forall (U : @uconf S A) n, uct_opp U n = if is_opponent (utwo U) (dtime n) then (-1)%R else 1%R.
Proof using. intros U n. now rewrite C56_opponent. Qed.
Theorem C56_opponent_ments : forall (M : @mconf S A) n, opp_coeff M n = if is_opponent (mtwo M) (dtime n) then (-1)%R else 1%R.
Proof using. intros M n. now rewrite C56_opponent. Qed.
(** Every decision node is reached by a path from the root; after k steps it is the opponent's turn iff root timestep + k is odd
    and the game has two players. Chance nodes have the role of their parent. *)
Theorem C56_every_node : forall nt s d node, ereach seqb aeqb C nt s -> nth_error (dh (mem s)) d = Some node ->
  exists l, path (mem s) 0 l d.
Proof.
  intros nt s d node Rs N. destruct (C12_well_formed seqb aeqb seqb_ok aeqb_ok C nt s Rs) as [W _].
  apply (all_paths _ W). eapply wf_reachD; eauto.
Qed.
Theorem C56_roles : forall nt s l d node two, ereach seqb aeqb C nt s -> path (mem s) 0 l d -> nth_error (dh (mem s)) d = Some node ->
  is_opponent two (dtime node) = two && xorb (Z.odd (root_time C)) (Nat.odd (length l)) /\
  forall a c x, In (a, c) (dkids node) -> nth_error (ch (mem s)) c = Some x -> is_opponent two (ctime x) = is_opponent two (dtime node).
Proof.
  intros nt s l d node two Rs P N. destruct (C12_well_formed seqb aeqb seqb_ok aeqb_ok C nt s Rs) as [W _].
  destruct (wf_root _ _ _ _ W) as (n0 & N0 & _ & _ & T0). destruct (path_node _ W _ _ _ P _ N0) as (n' & N' & _ & T').
  rewrite N in N'. injection N' as <-. rewrite C56_opponent, T', T0, Z.odd_add. split.
  - do 2 f_equal. rewrite <- (Nat2Z.id (length l)) at 2. generalize (length l). intros k. rewrite Nat2Z.id.
    rewrite <- Nat.negb_even, <- Z.negb_even. f_equal. apply eq_true_iff_eq. rewrite Z.even_spec, Nat.even_spec. split; intros [q Q].
    + exists (Z.to_nat q). lia.
    + exists (Z.of_nat q). lia.
  - intros a c x I X. destruct (kid_c _ W _ _ _ _ N I) as (x' & X' & _ & _ & E). rewrite X in X'. injection X' as <-.
    now rewrite E, T', T0, C56_opponent, Z.odd_add.
Qed.
(** So along every edge of a two-player game the role changes, and the root of a tree with timestep 0 is the player's. *)
Theorem C56_alternates : forall nt s d n a c x o e n', ereach seqb aeqb C nt s ->
  nth_error (dh (mem s)) d = Some n -> In (a, c) (dkids n) -> nth_error (ch (mem s)) c = Some x -> In (o, e) (ckids x) ->
  nth_error (dh (mem s)) e = Some n' ->
  is_opponent true (dtime n') = negb (is_opponent true (dtime n)) /\ is_opponent false (dtime n') = false.
Proof.
  intros nt s d n a c x o e n' Rs N I X J N'. destruct (C12_well_formed seqb aeqb seqb_ok aeqb_ok C nt s Rs) as [W _].
  destruct (kid_c _ W _ _ _ _ N I) as (x' & X' & _ & _ & E). rewrite X in X'. injection X' as <-.
  destruct (kid_d _ W _ _ _ _ X J) as (n2 & N2 & _ & F). rewrite N' in N2. injection N2 as <-.
  split; [|reflexivity]. rewrite !C56_opponent, F, E. cbn [andb]. rewrite Z.odd_add. cbn. now rewrite xorb_true_r.
Qed.
(** Sinks have heuristic value zero, other nodes the value of the heuristic function (zero without one). *)
Theorem C56_values : forall nt s d node, ereach seqb aeqb C nt s -> nth_error (dh (mem s)) d = Some node ->
  (is_sink C (dstate node) = true -> dheur node = 0%R) /\
  (heuristic C = None -> dheur node = 0%R) /\
  (forall h, heuristic C = Some h -> is_sink C (dstate node) = false -> dheur node = h (dstate node)).
Proof.
  intros nt s d node Rs N. destruct (C12_well_formed seqb aeqb seqb_ok aeqb_ok C nt s Rs) as [W _].
  rewrite (wf_heur _ _ _ _ W d node N). split; [|split].
  - intros ->. now destruct (heuristic C).
  - intros ->. reflexivity.
  - intros h -> ->. reflexivity.
Qed.
(** is_leaf: a sink, or reached by at least max_depth steps; is_root_node: only the root. *)
Theorem C56_leaf : forall nt s l d node, ereach seqb aeqb C nt s -> path (mem s) 0 l d -> nth_error (dh (mem s)) d = Some node ->
  (is_leaf C node = true <-> is_sink C (dstate node) = true \/ (max_depth C <= Z.of_nat (length l))%Z) /\
  (is_root_node node = true <-> d = 0).
Proof.
  intros nt s l d node Rs P N. destruct (C12_well_formed seqb aeqb seqb_ok aeqb_ok C nt s Rs) as [W _].
  destruct (wf_root _ _ _ _ W) as (n0 & N0 & _ & D0 & _). destruct (path_node _ W _ _ _ P _ N0) as (n' & N' & D' & _).
  rewrite N in N'. injection N' as <-. unfold is_leaf, is_root_node. rewrite orb_true_iff, Z.leb_le, Z.eqb_eq, D', D0. split; [reflexivity|].
  split.
  - intros E. assert (L : l = []) by (destruct l; [auto|cbn [length] in E; lia]). subst l. now inversion P.
  - intros ->. rewrite N in N0. injection N0 as <-. lia.
Qed.
(** Children are found iff they are in the map; asking for a missing one throws. *)
Theorem C56_children : forall nt s d node a, ereach seqb aeqb C nt s -> nth_error (dh (mem s)) d = Some node ->
  (has_child_d aeqb node a = true <-> exists c, In (a, c) (dkids node)) /\
  (forall c, get_child_d aeqb node a = Ok c <-> In (a, c) (dkids node)) /\
  (has_child_d aeqb node a = false -> get_child_d aeqb node a = Throw).
Proof.
  intros nt s d node a Rs N. destruct (C12_well_formed seqb aeqb seqb_ok aeqb_ok C nt s Rs) as [W _].
  pose proof (wf_dkeys _ _ _ _ W d node N) as ND. unfold has_child_d, get_child_d.
  pose proof (fun c => lookup_iff aeqb aeqb_ok _ (dkids node) a c ND) as L. destruct (lookup aeqb a (dkids node)) as [c0|] eqn:E.
  - split; [|split].
    + split; [intros _; exists c0; now apply L|auto].
    + intros c. rewrite <- L. split; congruence.
    + discriminate.
  - split; [|split].
    + split; [discriminate|]. intros (c & I). apply L in I. discriminate.
    + intros c. rewrite <- L. split; congruence.
    + auto.
Qed.

(** ** C57 *)
(** Printing a decision node with depth k shows, one after the other, the decision nodes at the ends of the paths with at most k
    steps - one entry per path - with their visit counts, ... *)
Theorem C57_decision_nodes : forall nt s k d, ereach seqb aeqb C nt s ->
  exists ps, printed_d (print_d C (mem s) k 0 d) = map (fun '(_, e) => (e, visits_d (mem s) e)) ps /\
    NoDup (map fst ps) /\ forall l e, In (l, e) ps <-> path (mem s) d l e /\ length l <= k.
Proof.
  intros nt s k d Rs. destruct (C12_well_formed seqb aeqb seqb_ok aeqb_ok C nt s Rs) as [W _].
  exists (paths (mem s) k d). split; [apply printed_d_is|]. split; [|intros; apply paths_in].
  apply paths_nodup; [apply W|apply W].
Qed.
(** ... the chance nodes below those with fewer than k steps, one entry per path and action, ... *)
Theorem C57_chance_nodes : forall nt s k d, ereach seqb aeqb C nt s ->
  exists ps, printed_c (print_d C (mem s) k 0 d) = map (fun '(_, _, c) => (c, visits_c (mem s) c)) ps /\
    NoDup (map fst ps) /\
    forall l a c, In (l, a, c) ps <-> exists e n x, path (mem s) d l e /\ length l < k /\ nth_error (dh (mem s)) e = Some n /\
                                       In (a, c) (dkids n) /\ nth_error (ch (mem s)) c = Some x.
Proof.
  intros nt s k d Rs. destruct (C12_well_formed seqb aeqb seqb_ok aeqb_ok C nt s Rs) as [W _].
  exists (edges (mem s) k d). split; [apply printed_c_is|]. split; [|intros; apply edges_in].
  apply edges_nodup; [apply W|apply W].
Qed.
(** ... and dots for each path with exactly k steps to a node that is not a leaf. *)
Theorem C57_dots : forall nt s k d, ereach seqb aeqb C nt s ->
  exists ps : list (list (A * S)), dots (print_d C (mem s) k 0 d) = length ps /\ NoDup ps /\
    forall l, In l ps <-> exists e n, path (mem s) d l e /\ length l = k /\ nth_error (dh (mem s)) e = Some n /\ is_leaf C n = false.
Proof.
  intros nt s k d Rs. destruct (C12_well_formed seqb aeqb seqb_ok aeqb_ok C nt s Rs) as [W _].
  exists (map fst (filter (cut C (mem s) k) (paths (mem s) k d))). split; [|split].
  - rewrite dots_is, map_length. reflexivity.
  - pose proof (paths_nodup (mem s) (wf_dkeys _ _ _ _ W) (wf_ckeys _ _ _ _ W) k d) as ND. revert ND. clear.
    induction (paths (mem s) k d) as [|q r IH]; cbn [filter map]; intros ND; [constructor|]. inversion ND as [|? ? N1 N2]; subst.
    destruct (cut C (mem s) k q); cbn [map]; auto. constructor; auto. intros I. apply N1. apply in_map_iff in I. destruct I as (q' & <- & I).
    apply filter_In in I. now apply in_map.
  - intros l. rewrite in_map_iff. split.
    + intros ([l' e] & <- & I). apply filter_In in I. destruct I as [I Q]. apply paths_in in I. destruct I as [P L]. unfold cut in Q. cbn [fst snd] in Q.
      apply andb_true_iff in Q. destruct Q as [Q1 Q2]. apply Nat.eqb_eq in Q1. destruct (nth_error (dh (mem s)) e) as [n|] eqn:N; [|discriminate].
      exists e, n. repeat split; auto. now apply negb_true_iff in Q2.
    + intros (e & n & P & L & N & F). exists (l, e). split; auto. apply filter_In. split; [apply paths_in; split; auto; lia|].
      unfold cut. cbn [fst snd]. rewrite N, F, L, Nat.eqb_refl. reflexivity.
Qed.
(** Brackets match, and every line is indented by the number of open brackets (one less if it closes one). *)
Theorem C57_layout : forall nt s k d, ereach seqb aeqb C nt s -> laid_out 0 (print_d C (mem s) k 0 d).
Proof.
  intros nt s k d Rs. destruct (C12_well_formed seqb aeqb seqb_ok aeqb_ok C nt s Rs) as [W _].
  rewrite <- (app_nil_r (print_d _ _ _ _ _)). apply (laid C (mem s)).
  - intros e n a c N I. destruct (kid_c _ W _ _ _ _ N I) as (x & X & _). congruence.
  - reflexivity.
Qed.
End Theorems.
Print Assumptions C56_opponent.
Print Assumptions C56_opponent_uct.
Print Assumptions C56_opponent_ments.
Print Assumptions C56_every_node.
Print Assumptions C56_roles.
Print Assumptions C56_alternates.
Print Assumptions C56_values.
Print Assumptions C56_leaf.
Print Assumptions C56_children.
Print Assumptions C57_decision_nodes.
Print Assumptions C57_chance_nodes.
Print Assumptions C57_dots.
Print Assumptions C57_layout.

(** The tree of [engine_witness]: a path with two steps to a sink, printed with depth 1 and 2. *)
Example C56_witness : exists s : @EngineModel.est nat bool, ereach Nat.eqb Bool.eqb (ex_conf true false) 2 s /\
  (exists d node, path (mem s) 0 [(true, 1); (false, 2)] d /\ nth_error (dh (mem s)) d = Some node /\
     is_opponent true (dtime node) = false /\ is_leaf (ex_conf true false) node = true) /\
  dots (print_d (ex_conf true false) (mem s) 1 0 0) = 1 /\ dots (print_d (ex_conf true false) (mem s) 2 0 0) = 0 /\
  length (printed_d (print_d (ex_conf true false) (mem s) 2 0 0)) = 3.
Proof.
  eexists. split; [exists ex_run; vm_compute; reflexivity|]. split.
  - exists 2. eexists. split; [|split; [reflexivity|split; reflexivity]].
    eapply path_cons; [reflexivity|left; reflexivity|reflexivity|left; reflexivity|].
    eapply path_cons; [reflexivity|left; reflexivity|reflexivity|left; reflexivity|]. eapply path_nil. reflexivity.
  - repeat split.
Qed.
