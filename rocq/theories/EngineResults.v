(** Proofs of the theorems in EngineTheorems.v, about trials on a search tree: C08-C14 and C61. They hold for every
    environment, every selection policy and outcome sampler, every number of threads and every
    interleaving of their steps. *)
From Coq Require Import List ZArith Bool Reals Lia Lra.
From Verif Require Import Base BaseProofs NumOps EngineModel EngineSpec EngineProofs EngineInv EngineCount.
Import ListNotations.
Open Scope Z_scope.

Section Results.
Context {S A : Type}.
Variable seqb : S -> S -> bool.
Variable aeqb : A -> A -> bool.
Hypothesis seqb_ok : decides seqb.
Hypothesis aeqb_ok : decides aeqb.
Variable C : @econf S A.

(** When thread [t] ends the selection phase of a trial, the events of the trial are: a start, then
    for each of some steps the visit of a decision node and of a chance node, then the visit of the
    last node. The steps follow child pointers from the root, every action was chosen at a node
    that is neither terminal nor at the maximal depth among its valid actions, every outcome is a
    possible one. The last node is terminal or at the maximal depth, or (mcts_mode) the last step
    extended the tree; in mcts_mode no earlier step did. *)
Lemma C08_path' : forall n s t w last hv,
  ereach seqb aeqb C n s -> (t < n)%nat -> walk t (etrace s) = w ++ [EFinal last hv] ->
  exists steps,
    w = EStart :: sel_events steps /\
    chain seqb aeqb (mem s) 0 steps last /\
    (forall x, In x steps -> goes_on C (mem s) x) /\
    (mcts_mode C = true -> only_last_gains steps) /\
    exists node, nth_error (dh (mem s)) last = Some node /\
      hv = match heuristic C with
           | Some h => if is_sink C (dstate node) then 0%R else h (dstate node)
           | None => 0%R end /\
      (must_stop C node \/ (mcts_mode C = true /\ last_gains steps)).
Proof using All.
  intros n s t w last hv R Ht E.
  destruct (selection_done _ _ seqb_ok aeqb_ok C n s t w last hv R Ht E) as (steps & E1 & (P1 & P2 & P3) & nd & Hn & Hh & St).
  exists steps. repeat (split; [assumption|]). exists nd. split; auto. split; auto. rewrite <- Hh.
  exact (wf_heur _ _ _ _ (ti_wf _ _ _ _ (proj1 (ereach_good _ _ seqb_ok aeqb_ok C n s R))) _ _ Hn).
Qed.

(** At every moment: no action was ever selected at a terminal node or a node at the maximal depth. *)
Lemma C08_never_selects_at_end' : forall n s t d a c,
  ereach seqb aeqb C n s -> In (t, EVisitD d a c) (etrace s) ->
  exists node, nth_error (dh (mem s)) d = Some node /\ ~ must_stop C node /\ In a (acts C (dstate node)).
Proof using All.
  intros n s t d a c R H. destruct (evs_reach _ _ seqb_ok aeqb_ok C n s R _ _ H) as (nd & Hn & Hl).
  destruct (wf_d _ _ _ _ (ti_wf _ _ _ _ (proj1 (ereach_good _ _ seqb_ok aeqb_ok C n s R))) _ _ _ _ Hn Hl)
    as (x & _ & _ & _ & _ & _ & Ia & NS). eauto.
Qed.

(** The events of a complete trial: the selection, then the backups of all steps, the last step first, the
    chance node before its decision node, with the rewards received before and after the step. *)
Lemma C09_backups' : forall n s t w,
  ereach seqb aeqb C n s -> (t < n)%nat -> walk t (etrace s) = w ++ [EDone] ->
  exists steps last hv,
    w = EStart :: sel_events steps ++ EFinal last hv :: backs C [] steps hv (rsum (map (srew C) steps) + hv) /\
    chain seqb aeqb (mem s) 0 steps last.
Proof using All.
  intros n s t w R Ht E. destruct (trial_done _ _ seqb_ok aeqb_ok C n s t w R Ht E) as (steps & last & hv & E1 & P & _).
  exists steps, last, hv. split; [|apply P]. rewrite app_comm_cons in E1.
  rewrite !app_comm_cons, !app_assoc in E1. apply app_inj_tail in E1. destruct E1 as [-> _].
  cbn [app]. rewrite <- ?app_assoc. reflexivity.
Qed.

(** When no trial is in progress, as many trials are complete as were started, and: *)
Lemma C10_idle' : forall n s, ereach seqb aeqb C n s -> quiet s ->
  count is_start (etrace s) = count is_done (etrace s) /\
  (* the root was visited once per trial *)
  (exists root, nth_error (dh (mem s)) 0 = Some root /\ dvisits root = init_visits C + count is_done (etrace s)) /\
  (* decision nodes: visits = backups + trials that ended there; also visits = visits of the
     children + trials that ended there *)
  (forall d node, nth_error (dh (mem s)) d = Some node ->
     dvisits node = init_visits C + count (backs_d d) (etrace s) + count (ends_at d) (etrace s) /\
     dvisits node = init_visits C + count (ends_at d) (etrace s) +
       sumZ (fun p => match nth_error (ch (mem s)) (snd p) with Some x => cvisits x | None => 0 end) (dkids node)) /\
  (* chance nodes: visits = backups = times its children were entered from it *)
  (forall c x, nth_error (ch (mem s)) c = Some x ->
     cvisits x = count (backs_c c) (etrace s) /\
     cvisits x = sumZ (fun p => count (goes c (snd p)) (etrace s)) (ckids x)) /\
  (* without transposition table the visits of a chance node are those of its children *)
  (use_tt C = false -> forall c x, nth_error (ch (mem s)) c = Some x ->
     cvisits x = sumZ (fun p => match nth_error (dh (mem s)) (snd p) with
                                | Some node => dvisits node - init_visits C | None => 0 end) (ckids x)).
Proof using All.
  intros n s R Q. destruct (cinv_reach _ _ seqb_ok aeqb_ok C n s R) as [K _].
  pose proof (ereach_good _ _ seqb_ok aeqb_ok C n s R) as G. pose proof (evs_reach _ _ seqb_ok aeqb_ok C n s R) as EV.
  assert (Z : forall f, f TIdle = 0 -> sumZ f (ths s) = 0) by (intros f F; now apply quiet_sum).
  pose proof (ci_done _ _ K) as K5. rewrite Z in K5 by auto.
  assert (SC : forall c x, nth_error (ch (mem s)) c = Some x -> count (selects_c c) (etrace s) = cvisits x).
  { intros c x Hx. rewrite (ci_sc _ _ K), Z by auto. rewrite (ci_cv _ _ K _ _ Hx). lia. }
  assert (EN : forall d nd, nth_error (dh (mem s)) d = Some nd -> d <> 0%nat ->
            count (enters_d d) (etrace s) = dvisits nd - init_visits C).
  { intros d nd Hd N. pose proof (ci_en _ _ K d) as E. rewrite Z in E by auto.
    rewrite (ci_dv _ _ K _ _ Hd). destruct (Nat.eqb_spec d 0); [congruence|]. cbn in E. lia. }
  split; [lia|]. split; [|split; [|split]].
  - destruct (wf_root _ _ _ _ (ti_wf _ _ _ _ (proj1 G))) as (r & Hr & _). exists r. split; auto.
    rewrite (ci_dv _ _ K _ _ Hr). pose proof (ci_en _ _ K 0%nat) as E. rewrite Z in E by auto.
    rewrite (never_enters_root _ _ C s G EV) in E. cbn in E. lia.
  - intros d nd Hd. pose proof (ci_vd _ _ K d) as E. rewrite Z in E by auto. rewrite (ci_dv _ _ K _ _ Hd). split; [lia|].
    rewrite (visits_split _ _ aeqb_ok C s G EV d nd Hd) at 1.
    enough (sumZ (fun p => count (selects_c (snd p)) (etrace s)) (dkids nd) =
            sumZ (fun p => match nth_error (ch (mem s)) (snd p) with Some x => cvisits x | None => 0 end) (dkids nd)) by lia.
    assert (B : forall p, In p (dkids nd) -> exists x, nth_error (ch (mem s)) (snd p) = Some x).
    { intros [a c] Hp. destruct (wf_d _ _ _ _ (ti_wf _ _ _ _ (proj1 G)) d nd a c Hd) as (x & Hx & _); eauto.
      apply lookup_of_in; auto. exact (wf_dkeys _ _ _ _ (ti_wf _ _ _ _ (proj1 G)) _ _ Hd). }
    revert B. generalize (dkids nd). induction l as [|p l IH]; intros B; auto. cbn [sumZ].
    destruct (B p) as (x & Hx); [now left|]. rewrite Hx, (SC _ _ Hx), IH; auto. intros. apply B. now right.
  - intros c x Hx. split.
    + rewrite (ci_cv _ _ K _ _ Hx). pose proof (ci_vc _ _ K c) as E. rewrite Z in E by auto. lia.
    + rewrite (ci_cv _ _ K _ _ Hx). exact (visits_split_c _ _ seqb_ok C s G EV c x Hx).
  - intros U c x Hx. rewrite (ci_cv _ _ K _ _ Hx), (visits_split_c _ _ seqb_ok C s G EV c x Hx).
    assert (B : forall p, In p (ckids x) -> cchild seqb (mem s) c (fst p) (snd p) /\ exists nd, nth_error (dh (mem s)) (snd p) = Some nd).
    { intros [o d] Hp. assert (L : lookup seqb o (ckids x) = Some d).
      { apply lookup_of_in; auto. exact (wf_ckeys _ _ _ _ (ti_wf _ _ _ _ (proj1 G)) _ _ Hx). }
      split; [exists x; auto|].
      destruct (wf_c _ _ _ _ (ti_wf _ _ _ _ (proj1 G)) c x o d Hx L) as (nd & Hn & _). eauto. }
    revert B. generalize (ckids x). induction l as [|p l IH]; intros B; auto. cbn [sumZ].
    destruct (B p) as (Hc & nd & Hn); [now left|]. rewrite Hn, IH; [|intros; apply B; now right].
    rewrite <- (enters_goes _ _ C s G EV U _ _ _ Hc). rewrite (EN _ _ Hn); auto.
    exact (ti_noroot _ _ _ _ (proj1 G) _ _ _ Hc).
Qed.

(** At every moment (trials in progress or not): a node's visit count is its initial value plus the
    number of visits that happened, and never smaller than the number of backups. *)
Lemma C10_always' : forall n s, ereach seqb aeqb C n s ->
  (forall d node, nth_error (dh (mem s)) d = Some node ->
     dvisits node = init_visits C + count (visits_d d) (etrace s) + count (ends_at d) (etrace s) /\
     count (backs_d d) (etrace s) <= count (visits_d d) (etrace s)) /\
  (forall c x, nth_error (ch (mem s)) c = Some x ->
     cvisits x = count (visits_c c) (etrace s) /\ count (backs_c c) (etrace s) <= cvisits x).
Proof using All.
  intros n s R. destruct (cinv_reach _ _ seqb_ok aeqb_ok C n s R) as [K _]. split.
  - intros d nd Hd. split; [exact (ci_dv _ _ K _ _ Hd)|]. rewrite (ci_vd _ _ K).
    assert (0 <= sumZ (pendD d) (ths s)); [|lia]. apply sumZ_nonneg.
    intros []; cbn; try lia; try apply countb_nonneg;
      match goal with |- 0 <= b2z ?b + ?x => assert (0 <= x) by apply countb_nonneg; destruct b; cbn; lia end.
  - intros c x Hx. split; [exact (ci_cv _ _ K _ _ Hx)|]. rewrite (ci_cv _ _ K _ _ Hx), (ci_vc _ _ K).
    assert (0 <= sumZ (pendC c) (ths s)); [|lia]. apply sumZ_nonneg.
    intros []; cbn; try lia; apply countb_nonneg.
Qed.

(** In mcts_mode a trial makes at most one decision node; in any mode at most one chance node per
    selected action. *)
Lemma C11_one_per_trial' : forall n s t, ereach seqb aeqb C n s -> (t < n)%nat ->
  countb makes_c (trial t (etrace s)) <= countb selects (trial t (etrace s)) /\
  (mcts_mode C = true -> countb makes_d (trial t (etrace s)) <= 1).
Proof using All. exact (tnew_one _ _ seqb_ok aeqb_ok C). Qed.

(** After k trials were started the tree has at most k + 1 decision nodes. *)
Lemma C11_tree_size' : forall n s, ereach seqb aeqb C n s -> mcts_mode C = true ->
  Z.of_nat (length (dh (mem s))) <= count is_start (etrace s) + 1.
Proof using All.
  intros n s R M. destruct (cinv_reach _ _ seqb_ok aeqb_ok C n s R) as [K _].
  pose proof (ci_mcts _ _ K M) as K1. rewrite <- (ci_newd _ _ K).
  assert (0 <= sumZ eager (ths s)); [|lia]. apply sumZ_nonneg. intros [|? []|? ? ? []| | |]; cbn; lia.
Qed.

(** Without mcts_mode every trial goes on to a terminal state or the maximal depth. *)
Lemma C11_full_length' : forall n s t w last hv, mcts_mode C = false ->
  ereach seqb aeqb C n s -> (t < n)%nat -> walk t (etrace s) = w ++ [EFinal last hv] ->
  exists node, nth_error (dh (mem s)) last = Some node /\
    (is_sink C (dstate node) = true \/ max_depth C <= ddepth node).
Proof using All.
  intros n s t w last hv M R Ht E. destruct (C08_path' n s t w last hv R Ht E) as (st & _ & _ & _ & _ & nd & Hn & _ & [Q|[Q _]]).
  - exists nd. auto.
  - congruence.
Qed.

Lemma C12_well_formed' : forall n s, ereach seqb aeqb C n s ->
  well_formed seqb aeqb C (mem s) /\
  (0 <= max_depth C -> forall d node, nth_error (dh (mem s)) d = Some node -> 0 <= ddepth node <= max_depth C).
Proof using All.
  intros n s R. pose proof (proj1 (ereach_good _ _ seqb_ok aeqb_ok C n s R)) as I. split; [apply I|].
  intros Hm d nd Hd. split; [apply (ti_time _ _ _ _ I _ _ Hd)|exact (ti_depth _ _ _ _ I Hm _ _ Hd)].
Qed.

(** Whatever happens later, a child stays the same node, and a node keeps its state, depth, timestep
    and heuristic value. *)
Lemma C13_children_stay' : forall n s ls s', ereach seqb aeqb C n s -> erun seqb aeqb C ls s = Some s' ->
  extends_tree seqb aeqb (mem s) (mem s').
Proof using All. intros n s ls s' R. apply erun_ext; auto. eapply ereach_good; eauto. Qed.

(** create_child on an existing key changes nothing, on a new key it adds exactly that child, and
    has_child/get_child for all other keys are as before. *)
Lemma C13_create_d' : forall (m : @store S A) d node a, nth_error (dh m) d = Some node ->
  let m' := create_child_d aeqb m d node a in
  (forall c, dchild aeqb m d a c -> dh m' = dh m /\ ch m' = ch m /\ tt m' = tt m) /\
  ((forall c, ~ dchild aeqb m d a c) ->
     dchild aeqb m' d a (length (ch m)) /\ length (ch m') = Datatypes.S (length (ch m)) /\
     (exists node', nth_error (dh m') d = Some node' /\ length (dkids node') = Datatypes.S (length (dkids node))) /\
     forall d' a' c, (d', a') <> (d, a) -> dchild aeqb m' d' a' c <-> dchild aeqb m d' a' c).
Proof using All.
  intros m d nd a Hd m'. unfold m', create_child_d. split.
  - intros c (x & Hx & L). rewrite Hd in Hx. injection Hx as <-. rewrite L. cbn. repeat split; auto.
    clear - Hd. revert d Hd. induction (dh m) as [|y l IH]; intros [|d] Hd; cbn in *; try discriminate.
    + now injection Hd as ->.
    + now rewrite IH.
  - intros N. destruct (lookup aeqb a (dkids nd)) as [c|] eqn:L; [exfalso; eapply N; exists nd; eauto|].
    cbn [dh ch]. split; [|split; [|split]].
    + eexists. cbn [dh]. split; [eapply nth_upd_eq; eauto|]. cbn. now apply lookup_snoc_eq.
    + rewrite app_length. cbn. lia.
    + eexists. split; [eapply nth_upd_eq; eauto|]. cbn. rewrite app_length. cbn. lia.
    + intros d' a' c Ne. unfold dchild. cbn [dh]. rewrite (nth_upd _ _ _ _ _ _ Hd).
      destruct (Nat.eqb_spec d d') as [<-|]; [|tauto]. 
      assert (Na : aeqb a a' = false). { destruct (aeqb a a') eqn:E; auto. apply aeqb_ok in E. congruence. }
      split; intros (x & Hx & Lx).
      * injection Hx as <-. cbn in Lx. rewrite lookup_app in Lx. exists nd. split; auto.
        destruct (lookup aeqb a' (dkids nd)); auto. cbn in Lx. rewrite Na in Lx. discriminate.
      * rewrite Hd in Hx. injection Hx as <-. eexists. split; [reflexivity|]. cbn. rewrite lookup_app, Lx. reflexivity.
Qed.

Lemma C13_create_c' : forall (m : @store S A) c x o, nth_error (ch m) c = Some x ->
  let m' := fst (create_child_c seqb C m c x o) in
  (forall d, cchild seqb m c o d -> dh m' = dh m /\ ch m' = ch m /\ tt m' = tt m) /\
  ((forall d, ~ cchild seqb m c o d) ->
     (exists d, cchild seqb m' c o d) /\
     (exists x', nth_error (ch m') c = Some x' /\ length (ckids x') = Datatypes.S (length (ckids x))) /\
     forall c' o' d, (c', o') <> (c, o) -> cchild seqb m' c' o' d <-> cchild seqb m c' o' d).
Proof using All.
  intros m c x o Hc m'. unfold m', create_child_c. split.
  - intros d (y & Hy & L). rewrite Hc in Hy. injection Hy as <-. rewrite L. cbn. repeat split; auto.
    clear - Hc. revert c Hc. induction (ch m) as [|y l IH]; intros [|c] Hc; cbn in *; try discriminate.
    + now injection Hc as ->.
    + now rewrite IH.
  - intros N. destruct (lookup seqb o (ckids x)) as [d|] eqn:L; [exfalso; eapply N; exists x; eauto|].
    assert (G : forall d D T, let m2 := mkStore D (upd (ch m) c (add_ckid x o d)) T in
      cchild seqb m2 c o d /\
      (exists x', nth_error (ch m2) c = Some x' /\ length (ckids x') = Datatypes.S (length (ckids x))) /\
      forall c' o' e, (c', o') <> (c, o) -> cchild seqb m2 c' o' e <-> cchild seqb m c' o' e).
    { intros d D T m2. split; [|split].
      + eexists. cbn [m2 ch]. split; [eapply nth_upd_eq; eauto|]. cbn. now apply lookup_snoc_eq.
      + eexists. cbn [m2 ch]. split; [eapply nth_upd_eq; eauto|]. cbn. rewrite app_length. cbn. lia.
      + intros c' o' e Ne. unfold cchild. cbn [m2 ch]. rewrite (nth_upd _ _ _ _ _ _ Hc).
        destruct (Nat.eqb_spec c c') as [<-|]; [|tauto]. 
        assert (Na : seqb o o' = false). { destruct (seqb o o') eqn:E; auto. apply seqb_ok in E. congruence. }
        split; intros (y & Hy & Ly).
        * injection Hy as <-. cbn in Ly. rewrite lookup_app in Ly. exists x. split; auto.
          destruct (lookup seqb o' (ckids x)); auto. cbn in Ly. rewrite Na in Ly. discriminate.
        * rewrite Hc in Hy. injection Hy as <-. eexists. split; [reflexivity|]. cbn. rewrite lookup_app, Ly. reflexivity. }
    destruct (use_tt C); [destruct (lookup (id_eqb seqb) (ctime x, o) (tt m)) as [d|]|]; cbn [fst];
      match goal with |- context [mkStore ?D (upd (ch m) c (add_ckid x o ?d)) ?T] =>
        destruct (G d D T) as (G1 & G2 & G3); split; [exists d; exact G1|]; split; [exact G2|exact G3] end.
Qed.

(** With the transposition table: equal outcomes at equal timesteps lead to the same node, different
    ones to different nodes. *)
Lemma C14_shared' : forall n s, ereach seqb aeqb C n s -> use_tt C = true ->
  forall c x o d c' x' o' d',
    nth_error (ch (mem s)) c = Some x -> cchild seqb (mem s) c o d ->
    nth_error (ch (mem s)) c' = Some x' -> cchild seqb (mem s) c' o' d' ->
    (d = d' <-> ctime x = ctime x' /\ o = o').
Proof using All.
  intros n s R U c x o d c' x' o' d' Hx (y & Hy & L) Hx' (y' & Hy' & L').
  rewrite Hx in Hy. injection Hy as <-. rewrite Hx' in Hy'. injection Hy' as <-.
  pose proof (proj1 (ereach_good _ _ seqb_ok aeqb_ok C n s R)) as I. pose proof (ti_tt _ _ _ _ I) as T. rewrite U in T.
  destruct T as (_ & _ & T). pose proof (T _ _ _ _ Hx L) as T1. pose proof (T _ _ _ _ Hx' L') as T2.
  split.
  - intros <-. destruct (wf_c _ _ _ _ (ti_wf _ _ _ _ I) _ _ _ _ Hx L) as (n1 & Hn1 & ? & _ & ? & _).
    destruct (wf_c _ _ _ _ (ti_wf _ _ _ _ I) _ _ _ _ Hx' L') as (n2 & Hn2 & ? & _ & ? & _).
    rewrite Hn1 in Hn2. injection Hn2 as <-. split; [lia|congruence].
  - intros [E <-]. rewrite E in T1. congruence.
Qed.

(** Without it the nodes form a tree: no node has two parents or is its parent's child twice. *)
Lemma C14_tree' : forall n s, ereach seqb aeqb C n s -> use_tt C = false ->
  forall c o c' o' d, cchild seqb (mem s) c o d -> cchild seqb (mem s) c' o' d -> c = c' /\ o = o'.
Proof using All.
  intros n s R U. pose proof (proj1 (ereach_good _ _ seqb_ok aeqb_ok C n s R)) as I. pose proof (ti_tt _ _ _ _ I) as T.
  rewrite U in T. apply T.
Qed.

(** In both cases chance nodes have one parent, and nothing leads back to the root. *)
Lemma C14_chance_parent' : forall n s, ereach seqb aeqb C n s ->
  (forall d a d' a' c, dchild aeqb (mem s) d a c -> dchild aeqb (mem s) d' a' c -> d = d' /\ a = a') /\
  (forall c o, ~ cchild seqb (mem s) c o 0%nat).
Proof using All.
  intros n s R. pose proof (proj1 (ereach_good _ _ seqb_ok aeqb_ok C n s R)) as I. split; [apply I|].
  intros c o H. exact (ti_noroot _ _ _ _ I _ _ _ H eq_refl).
Qed.

(** A trial has at most 4*max_depth+3 events, and a trial in progress can always take its next
    step, provided that non-terminal states have actions and outcomes. *)
Lemma C61_trial_bounded' : forall n s t, ereach seqb aeqb C n s -> 0 <= max_depth C -> (t < n)%nat ->
  Z.of_nat (length (walk t (etrace s))) <= 4 * max_depth C + 3.
Proof using All. exact (walk_bound _ _ seqb_ok aeqb_ok C). Qed.
Lemma C61_trial_progress' : forall n s t x, ereach seqb aeqb C n s -> nth_error (ths s) t = Some x -> x <> TIdle ->
  (forall st, is_sink C st = false -> acts C st <> []) ->
  (forall st a, is_sink C st = false -> In a (acts C st) -> succs C st a <> []) ->
  exists l s', (l = LRun t \/ (exists a, l = LSelect t a) \/ (exists o, l = LSample t o)) /\
               estep seqb aeqb C l s = Some s'.
Proof using All. exact (trial_progress _ _ seqb_ok aeqb_ok C). Qed.
End Results.
