(** Invariants of trials on a search tree. *)
From Coq Require Import List ZArith Bool Reals Lia Lra.
From Verif Require Import Base BaseProofs NumOps EngineModel EngineSpec EngineProofs.
Import ListNotations.

Section Inv.
Context {S A : Type}.
Variable seqb : S -> S -> bool.
Variable aeqb : A -> A -> bool.
Hypothesis seqb_ok : decides seqb.
Hypothesis aeqb_ok : decides aeqb.
Variable C : @econf S A.
Notation store := (@store S A).
Notation est := (@est S A).
Notation event := (@event S A).
Notation dnode := (@dnode S A).
Notation cnode := (@cnode S A).
Notation tstate := (@tstate A).
Notation gstep := (gstep seqb aeqb C).
Notation tinv := (tinv seqb aeqb C).
Notation ereach := (ereach seqb aeqb C).
Notation dchild := (dchild aeqb).
Notation cchild := (cchild seqb).
Notation ext := (extends_tree seqb aeqb).

Lemma mstep_len : forall m m', mstep seqb aeqb C m m' ->
  (length (dh m) <= length (dh m'))%nat /\ (length (ch m) <= length (ch m'))%nat.
Proof. intros m m' M. destruct M; cbn [dh ch]; rewrite ?upd_length, ?app_length; cbn; lia. Qed.

Lemma safe_mono : forall (m m' : store) (x : tstate), (length (dh m) <= length (dh m'))%nat -> (length (ch m) <= length (ch m'))%nat ->
  safe_thread m x -> safe_thread m' x.
Proof. intros m m' x L1 L2 H. destruct x; cbn in *; intuition lia. Qed.

Lemma dchild_lt : forall m, tinv m -> forall d a c, dchild m d a c -> (c < length (ch m))%nat.
Proof.
  intros m I d a c (n & Hn & Hl). destruct (wf_d _ _ _ _ (ti_wf _ _ _ _ I) _ _ _ _ Hn Hl) as (x & Hx & _).
  apply nth_error_Some. congruence.
Qed.
Lemma cchild_lt : forall m, tinv m -> forall c o d, cchild m c o d -> (d < length (dh m))%nat.
Proof.
  intros m I d a c (n & Hn & Hl). destruct (wf_c _ _ _ _ (ti_wf _ _ _ _ I) _ _ _ _ Hn Hl) as (x & Hx & _).
  apply nth_error_Some. congruence.
Qed.

Definition good (s : est) : Prop := tinv (mem s) /\ safe s.

Lemma good_step : forall s s', good s -> gstep s s' -> good s'.
Proof.
  intros s s' [I Sf] G. pose proof (gstep_mstep _ _ _ _ _ G) as M.
  pose proof (tinv_step seqb aeqb seqb_ok aeqb_ok C _ _ M I) as I'. split; auto.
  destruct (mstep_len _ _ M) as [L1 L2]. pose proof (mstep_ext _ _ C _ _ M) as X.
  intros t' x' Hx'. 
  assert (Old : forall t x, nth_error (ths s) t = Some x -> safe_thread (mem s') x).
  { intros t0 x0 Q. eapply safe_mono; eauto. }
  destruct G; cbn [mem ths] in *;
    rewrite (nth_upd _ _ _ _ _ _ H) in Hx'; (destruct (Nat.eqb_spec t t') as [<-|ne]; [injection Hx' as <-|exact (Old _ _ Hx')]);
    pose proof (Old _ _ H) as Z; cbn [safe_thread] in *; cbn [dh ch length] in *; auto.
  - split; auto. destruct (wf_root _ _ _ _ (ti_wf _ _ _ _ I')) as (n & Q & _). apply nth_error_Some. congruence.
  - rewrite upd_length in *. repeat split; try tauto. eapply (dchild_lt (mem s)); eauto. exists n. eauto.
  - rewrite app_length. cbn. repeat split; try tauto. lia.
  - split; [|lia]. eapply (cchild_lt (mem s)); eauto. exists n. eauto.
  - split; [|lia]. eapply (cchild_lt _ I'). exists (add_ckid (visit_c n) o d). cbn [ch]. split.
    + eapply nth_upd_eq; eauto.
    + cbn. apply lookup_snoc_eq; auto.
  - rewrite app_length. cbn. split; lia.
  - tauto.
Qed.

Lemma good_init : forall n, good (einit C n).
Proof.
  intros n. split.
  - assert (D : forall d x, nth_error [new_dnode C (root_state C) 0 (root_time C)] d = Some x ->
        d = 0%nat /\ x = new_dnode C (root_state C) 0 (root_time C)).
    { intros [|[|d]] x [= <-]. auto. }
    assert (E : forall d x, @nth_error cnode [] d = Some x -> False) by (intros [|d] x; discriminate).
    constructor; cbn [mem dh ch tt einit]; try (intros; exfalso; eauto; fail).
    + constructor; cbn [dh ch]; try (intros; exfalso; eauto; fail).
      * eexists. split; [reflexivity|]. auto.
      * intros d x a c Q L. apply D in Q. destruct Q as [-> ->]. discriminate.
      * intros d x Q. apply D in Q. destruct Q as [-> ->]. constructor.
      * intros d x Q. apply D in Q. destruct Q as [-> ->]. constructor.
      * intros d x Q. apply D in Q. destruct Q as [-> ->]. reflexivity.
    + intros d x Q. apply D in Q. destruct Q as [-> ->]. cbn. lia.
    + intros Hm d x Q. apply D in Q. destruct Q as [-> ->]. cbn. lia.
    + destruct (use_tt C).
      * repeat split; try constructor; try (intros; exfalso; eauto; fail); intros; discriminate.
      * split; auto. intros c o c' o' d (x & Q & _). exfalso. eauto.
    + intros c o d (x & Q & _). exfalso. eauto.
    + intros d a d' a' c (x & Q & L). apply D in Q. destruct Q as [-> ->]. discriminate.
  - intros t x H. cbn in H. apply nth_error_In in H. apply repeat_spec in H. subst. cbn. auto.
Qed.

(** Induction over runs. *)
Lemma erun_inv : forall (P : est -> Prop) (s0 : est), good s0 -> P s0 ->
  (forall s s', good s -> P s -> gstep s s' -> P s') ->
  forall ls s, erun seqb aeqb C ls s0 = Some s -> P s /\ good s.
Proof.
  intros P s0 G0 P0 St ls. revert s0 G0 P0. induction ls as [|l ls IH]; intros s0 G0 P0 s H; cbn in H.
  - injection H as <-. auto.
  - destruct (estep seqb aeqb C l s0) as [s1|] eqn:E; [|discriminate].
    assert (G : gstep s0 s1) by (eapply estep_gstep; eauto; apply G0).
    eapply IH; [eapply good_step; eauto|eapply St; eauto|exact H].
Qed.

Lemma ereach_inv : forall (P : est -> Prop) n, P (einit C n) ->
  (forall s s', good s -> P s -> gstep s s' -> P s') -> forall s, ereach n s -> P s.
Proof.
  intros P n P0 St s [ls H]. eapply (erun_inv P (einit C n)); eauto. apply good_init.
Qed.
Lemma ereach_good : forall n s, ereach n s -> good s.
Proof. intros n s. apply ereach_inv; [apply good_init|]. intros. eapply good_step; eauto. Qed.

Lemma erun_ext : forall ls s s', good s -> erun seqb aeqb C ls s = Some s' -> ext (mem s) (mem s').
Proof.
  intros ls s s' G H. apply (erun_inv (fun x => ext (mem s) (mem x)) s G) in H; [tauto|apply ext_refl; auto|].
  intros s1 s2 _ X St. eapply ext_trans; eauto. eapply mstep_ext, gstep_mstep; eauto.
Qed.

(** ** The walk of a thread *)
Lemma trial_other : forall t t' (e : event) tr, t' <> t -> trial t ((t', e) :: tr) = trial t tr.
Proof. intros t t' e tr H. cbn. destruct (Nat.eqb_spec t' t); congruence. Qed.
Lemma walk_other : forall t t' (e : event) tr, t' <> t -> walk t ((t', e) :: tr) = walk t tr.
Proof. intros. unfold walk. now rewrite trial_other. Qed.
Lemma walk_start : forall t (tr : list (nat * event)), walk t ((t, EStart) :: tr) = [EStart].
Proof. intros t tr. unfold walk. cbn. now rewrite Nat.eqb_refl. Qed.
Lemma walk_more : forall t (e : event) tr, e <> EStart -> walk_event e = true ->
  walk t ((t, e) :: tr) = walk t tr ++ [e].
Proof.
  intros t e tr H W. unfold walk. cbn. rewrite Nat.eqb_refl.
  destruct e; try congruence; try discriminate W; rewrite filter_app; reflexivity.
Qed.
Lemma walk_skip : forall t (e : event) tr, walk_event e = false -> walk t ((t, e) :: tr) = walk t tr.
Proof.
  intros t e tr W. unfold walk. cbn. rewrite Nat.eqb_refl.
  destruct e; try discriminate W; rewrite filter_app; cbn; apply app_nil_r.
Qed.

Lemma rsum_app : forall l m, rsum (l ++ m) = (rsum l + rsum m)%R.
Proof. induction l; intros m; cbn; [lra|]. rewrite IHl. lra. Qed.
Lemma sumR_rsum : forall l, sumR l = rsum l.
Proof.
  intros l. unfold sumR. assert (H : forall x, fold_left Rplus l x = (x + rsum l)%R).
  { induction l; intros x; cbn; [lra|]. rewrite IHl. lra. }
  rewrite H. lra.
Qed.

Lemma sel_events_app : forall (p q : list (@tstep S A)), sel_events (p ++ q) = sel_events p ++ sel_events q.
Proof. intros. unfold sel_events. apply flat_map_app. Qed.

Lemma chain_app : forall m p d mid q last, chain seqb aeqb m d p mid -> chain seqb aeqb m mid q last ->
  chain seqb aeqb m d (p ++ q) last.
Proof. induction p as [|s p IH]; intros d mid q last H K; cbn in *; [now subst|]. intuition eauto. Qed.

Lemma chain_ext : forall m m', ext m m' -> forall p d last, chain seqb aeqb m d p last -> chain seqb aeqb m' d p last.
Proof.
  intros m m' X. induction p as [|s p IH]; intros d last H; cbn in *; auto.
  destruct H as (E & (n & Hn & Hs) & D & K & R). split; auto. split.
  - destruct (xt_d _ _ _ _ X _ _ Hn) as (n' & Hn' & E1 & _). exists n'. split; auto. congruence.
  - split; [now apply (xt_dchild _ _ _ _ X)|]. split; [now apply (xt_cchild _ _ _ _ X)|]. auto.
Qed.

Lemma must_stop_ext : forall (n n' : dnode), dstate n' = dstate n -> ddepth n' = ddepth n -> must_stop C n' <-> must_stop C n.
Proof. intros n n' E1 E2. unfold must_stop. rewrite E1, E2. tauto. Qed.

Lemma goes_on_ext : forall m m', ext m m' -> forall s, goes_on C m s -> goes_on C m' s.
Proof.
  intros m m' X s (n & Hn & NS & Q). destruct (xt_d _ _ _ _ X _ _ Hn) as (n' & Hn' & E1 & E2 & _).
  exists n'. split; auto. split; auto. now rewrite (must_stop_ext n n').
Qed.

Notation tstep := (@tstep S A).
Definition path (m : store) (steps : list tstep) (last : nat) : Prop :=
  chain seqb aeqb m 0 steps last /\ (forall x, In x steps -> goes_on C m x) /\
  (mcts_mode C = true -> only_last_gains steps).
Definition ended (m : store) (steps : list tstep) (last : nat) (hv : R) : Prop :=
  exists n, nth_error (dh m) last = Some n /\ dheur n = hv /\
    (must_stop C n \/ (mcts_mode C = true /\ last_gains steps)).

Lemma path_ext : forall m m', ext m m' -> forall p d, path m p d -> path m' p d.
Proof.
  intros m m' X p d (H1 & H2 & H3). split; [eapply chain_ext; eauto|]. split; auto.
  intros x Q. eapply goes_on_ext; eauto.
Qed.
Lemma ended_ext : forall m m', ext m m' -> forall p d hv, ended m p d hv -> ended m' p d hv.
Proof.
  intros m m' X p d hv (n & Hn & Hh & Q). destruct (xt_d _ _ _ _ X _ _ Hn) as (n' & Hn' & E1 & E2 & E3 & E4 & _).
  exists n'. split; auto. split; [congruence|]. destruct Q as [Q|Q]; auto. left. now rewrite (must_stop_ext n n').
Qed.

Definition full (m : store) (w : list event) (tail : list event) : Prop :=
  exists steps last hv,
    w = EStart :: sel_events steps ++ EFinal last hv :: backs C [] steps hv (rsum (map (srew C) steps) + hv) ++ tail /\
    path m steps last /\ ended m steps last hv.

Definition wthread (m : store) (w : list event) (x : tstate) : Prop :=
  match x with
  | TIdle => w = [] \/ full m w [EDone]
  | TSel cur flag nodes rewards => exists steps,
      w = EStart :: sel_events steps /\ path m steps cur /\
      nodes = rev (map (fun s => (sd s, sc s)) steps) /\ rewards = rev (map (srew C) steps) /\
      flag = existsb sg steps
  | TChance cur a c flag nodes rewards => exists steps n,
      w = EStart :: sel_events steps ++ [EVisitD cur a c] /\ path m steps cur /\
      nodes = rev (map (fun s => (sd s, sc s)) steps) /\ rewards = rev (map (srew C) steps) /\
      flag = existsb sg steps /\ (mcts_mode C = true -> flag = false) /\
      nth_error (dh m) cur = Some n /\ ~ must_stop C n /\ In a (acts C (dstate n)) /\ dchild m cur a c
  | TBack nodes before after tafter total => exists pend fin last hv,
      w = EStart :: sel_events (pend ++ fin) ++ EFinal last hv :: backs C (map (srew C) pend) fin hv total /\
      path m (pend ++ fin) last /\ ended m (pend ++ fin) last hv /\
      nodes = rev (map (fun s => (sd s, sc s)) pend) /\ before = rev (map (srew C) pend) /\
      after = map (srew C) fin ++ [hv] /\ tafter = rsum (hv :: rev (map (srew C) fin)) /\
      total = (rsum (map (srew C) (pend ++ fin)) + hv)%R
  | TBackD d nodes before after tafter total => exists pend s fin last hv,
      w = EStart :: sel_events (pend ++ s :: fin) ++ EFinal last hv ::
            backs C (map (srew C) pend ++ [srew C s]) fin hv total ++
            [EBackC (sc s) (map (srew C) pend) (hv :: rev (map (srew C) (s :: fin)))
               (rsum (hv :: rev (map (srew C) (s :: fin)))) total] /\
      path m (pend ++ s :: fin) last /\ ended m (pend ++ s :: fin) last hv /\ d = sd s /\
      nodes = rev (map (fun s => (sd s, sc s)) pend) /\ before = rev (map (srew C) pend) /\
      after = map (srew C) (s :: fin) ++ [hv] /\ tafter = rsum (hv :: rev (map (srew C) (s :: fin))) /\
      total = (rsum (map (srew C) (pend ++ s :: fin)) + hv)%R
  | TBad => False
  end.

Lemma full_ext : forall m m' w tl, ext m m' -> full m w tl -> full m' w tl.
Proof.
  intros m m' w tl X (st & la & hv & H1 & H2 & H3). exists st, la, hv.
  eauto using path_ext, ended_ext.
Qed.

Lemma wthread_ext : forall m m' w x, ext m m' -> wthread m w x -> wthread m' w x.
Proof.
  intros m m' w x X H. destruct x; cbn in *; auto.
  - destruct H; eauto using full_ext.
  - destruct H as (st & H1 & H2 & H3). exists st. eauto using path_ext.
  - destruct H as (st & n & H1 & H2 & H3 & H4 & H5 & H6 & H7 & H8 & H9 & H10).
    destruct (xt_d _ _ _ _ X _ _ H7) as (n' & Hn' & E1 & E2 & _).
    exists st, n'. repeat (split; eauto using path_ext).
    + now rewrite (must_stop_ext n n').
    + congruence.
    + now apply (xt_dchild _ _ _ _ X).
  - destruct H as (p & f & la & hv & H1 & H2 & H3 & H4). exists p, f, la, hv.
    repeat (split; [now eauto using path_ext, ended_ext|]). apply H4.
  - destruct H as (p & s & f & la & hv & H1 & H2 & H3 & H4). exists p, s, f, la, hv.
    repeat (split; [now eauto using path_ext, ended_ext|]). apply H4.
Qed.

Definition walks (s : est) : Prop :=
  forall t x, nth_error (ths s) t = Some x -> wthread (mem s) (walk t (etrace s)) x.

Lemma existsb_snoc : forall X (f : X -> bool) l x, existsb f (l ++ [x]) = existsb f l || f x.
Proof. intros. rewrite existsb_app. cbn. now rewrite orb_false_r. Qed.

Lemma only_last_snoc : forall (p : list tstep) s, existsb sg p = false -> only_last_gains (p ++ [s]).
Proof.
  intros p s H a y b E Nb.
  assert (In y p).
  { assert (Q : exists b', b = b' ++ [s] /\ p = a ++ y :: b').
    { destruct (exists_last Nb) as (b' & z & ->). exists b'.
      replace (a ++ y :: b' ++ [z]) with ((a ++ y :: b') ++ [z]) in E by (rewrite <- app_assoc; reflexivity).
      apply app_inj_tail in E. destruct E as [-> ->]. auto. }
    destruct Q as (b' & _ & ->). apply in_or_app. right. now left. }
  destruct (sg y) eqn:E1; auto. assert (existsb sg p = true) by (apply existsb_exists; eauto). congruence.
Qed.

Lemma last_gains_of_flag : forall p, only_last_gains p -> existsb sg p = true -> @last_gains S A p.
Proof.
  intros p O H. apply existsb_exists in H. destruct H as (x & Hx & Hg). apply in_split in Hx. destruct Hx as (a & b & E).
  destruct b as [|y b]; [exists a, x; auto|]. specialize (O a x (y :: b) E). rewrite O in Hg; [discriminate|congruence].
Qed.

Lemma walks_step : forall s s', good s -> walks s -> gstep s s' -> walks s'.
Proof.
  intros s s' G W St. pose proof (mstep_ext _ _ C _ _ (gstep_mstep _ _ _ _ _ St)) as X.
  pose proof (good_step s s' G St) as G'. destruct G as [I Sf]. destruct G' as [I' _].
  assert (Rest : forall t t' x, t <> t' -> nth_error (ths s) t' = Some x -> forall evs,
     Forall (fun e => fst e = t) evs -> wthread (mem s') (walk t' (evs ++ etrace s)) x).
  { intros t t' x ne Hx evs F. replace (walk t' (evs ++ etrace s)) with (walk t' (etrace s)).
    - eapply wthread_ext; eauto.
    - induction evs as [|[t1 e] evs IH]; auto. inversion F; subst. cbn [fst] in *. cbn [app].
      rewrite walk_other by auto. auto. }
  intros t' x' Hx'.
  destruct St; cbn [mem ths etrace] in *;
    rewrite (nth_upd _ _ _ _ _ _ H) in Hx'; (destruct (Nat.eqb_spec t t') as [<-|ne];
      [injection Hx' as <-
      |first [refine (Rest _ _ _ ne Hx' [_] _); now repeat constructor | refine (Rest _ _ _ ne Hx' [_; _] _); now repeat constructor]]);
    specialize (W _ _ H); cbn [wthread] in W.
  - (* start *) rewrite walk_start. exists []. cbn. repeat split; auto. intros x []. intros _ p y q E. destruct p; discriminate.
  - (* select, existing child *)
    destruct W as (st & W1 & W2 & W3 & W4 & W5). rewrite walk_more by (easy || auto).
    destruct (continue_not_stop C _ _ H1) as [NS Fl].
    eexists st, (visit_d n). rewrite W1. repeat (split; [now eauto using path_ext|]).
    split; [cbn [dh]; eapply nth_upd_eq; eauto|]. split; [exact NS|]. split; [exact H2|].
    apply (xt_dchild _ _ _ _ X). exists n. auto.
  - (* select, new child *)
    destruct W as (st & W1 & W2 & W3 & W4 & W5). rewrite walk_skip by auto. rewrite walk_more by (easy || auto).
    destruct (continue_not_stop C _ _ H1) as [NS Fl].
    eexists st, _. rewrite W1. repeat (split; [now eauto using path_ext|]).
    split; [cbn [dh]; eapply nth_upd_eq; eauto|]. split; [exact NS|]. split; [exact H2|].
    eexists. cbn [dh]. split; [eapply nth_upd_eq; eauto|]. cbn. apply lookup_snoc_eq; auto.
  - (* outcome with existing child *)
    destruct W as (st & n' & W1 & W2 & W3 & W4 & W5 & W6 & W7 & W8 & W9 & W10). rewrite H1 in W7. injection W7 as <-.
    destruct W10 as (n2 & Q1 & Q2). rewrite H1 in Q1. injection Q1 as <-.
    destruct (wf_d _ _ _ _ (ti_wf _ _ _ _ I) _ _ _ _ H1 Q2) as (x & Hx & D1 & _ & _ & D2 & _). rewrite H0 in Hx. injection Hx as <-.
    rewrite walk_more by (easy || auto).
    exists (st ++ [mkStep cur (dstate dn) a c o d false]). rewrite W1.
    split; [rewrite sel_events_app; cbn; now rewrite <- app_assoc|].
    split; [split; [|split]|split; [|split]].
    + eapply chain_app; [eapply chain_ext; eauto; apply W2|]. cbn.
      split; auto. split; [exists dn; auto|]. split; [apply (xt_dchild _ _ _ _ X); exists dn; auto|].
      split; auto. apply (xt_cchild _ _ _ _ X). exists n. auto.
    + intros y Hy. apply in_app_or in Hy. destruct Hy as [Hy|[<-|[]]].
      * eapply goes_on_ext; eauto. now apply W2.
      * exists dn. cbn. repeat split; auto. congruence.
    + intros M. apply only_last_snoc. rewrite <- W5. auto.
    + rewrite map_app, rev_app_distr, W3. reflexivity.
    + rewrite map_app, rev_app_distr, W4. reflexivity.
    + rewrite existsb_snoc, W5. cbn. now rewrite orb_false_r.
  - (* shared child *)
    destruct W as (st & n' & W1 & W2 & W3 & W4 & W5 & W6 & W7 & W8 & W9 & W10). rewrite H1 in W7. injection W7 as <-.
    destruct W10 as (n2 & Q1 & Q2). rewrite H1 in Q1. injection Q1 as <-.
    destruct (wf_d _ _ _ _ (ti_wf _ _ _ _ I) _ _ _ _ H1 Q2) as (x & Hx & D1 & _ & _ & D2 & _). rewrite H0 in Hx. injection Hx as <-.
    rewrite walk_more by (easy || auto).
    exists (st ++ [mkStep cur (dstate dn) a c o d true]). rewrite W1.
    split; [rewrite sel_events_app; cbn; now rewrite <- app_assoc|].
    split; [split; [|split]|split; [|split]].
    + eapply chain_app; [eapply chain_ext; eauto; apply W2|]. cbn.
      split; auto. split; [exists dn; auto|]. split; [apply (xt_dchild _ _ _ _ X); exists dn; auto|].
      split; auto. eexists. cbn [ch]. split; [eapply nth_upd_eq; eauto|]. cbn. now apply lookup_snoc_eq.
    + intros y Hy. apply in_app_or in Hy. destruct Hy as [Hy|[<-|[]]].
      * eapply goes_on_ext; eauto. now apply W2.
      * exists dn. cbn. repeat split; auto. congruence.
    + intros M. apply only_last_snoc. rewrite <- W5. auto.
    + rewrite map_app, rev_app_distr, W3. reflexivity.
    + rewrite map_app, rev_app_distr, W4. reflexivity.
    + rewrite existsb_snoc. cbn. now rewrite orb_true_r.
  - (* new child *)
    destruct W as (st & n' & W1 & W2 & W3 & W4 & W5 & W6 & W7 & W8 & W9 & W10). rewrite H1 in W7. injection W7 as <-.
    destruct W10 as (n2 & Q1 & Q2). rewrite H1 in Q1. injection Q1 as <-.
    destruct (wf_d _ _ _ _ (ti_wf _ _ _ _ I) _ _ _ _ H1 Q2) as (x & Hx & D1 & _ & _ & D2 & _). rewrite H0 in Hx. injection Hx as <-.
    rewrite walk_skip by auto. rewrite walk_more by (easy || auto).
    exists (st ++ [mkStep cur (dstate dn) a c o d true]). rewrite W1.
    split; [rewrite sel_events_app; cbn; now rewrite <- app_assoc|].
    split; [split; [|split]|split; [|split]].
    + eapply chain_app; [eapply chain_ext; eauto; apply W2|]. cbn.
      split; auto. split; [exists dn; split; auto; now apply nth_app_l|].
      split; [apply (xt_dchild _ _ _ _ X); exists dn; auto|].
      split; auto. eexists. cbn [ch]. split; [eapply nth_upd_eq; eauto|]. cbn. now apply lookup_snoc_eq.
    + intros y Hy. apply in_app_or in Hy. destruct Hy as [Hy|[<-|[]]].
      * eapply goes_on_ext; eauto. now apply W2.
      * exists dn. cbn. repeat split; auto; [now apply nth_app_l|congruence].
    + intros M. apply only_last_snoc. rewrite <- W5. auto.
    + rewrite map_app, rev_app_distr, W3. reflexivity.
    + rewrite map_app, rev_app_distr, W4. reflexivity.
    + rewrite existsb_snoc. cbn. now rewrite orb_true_r.
  - (* last node *)
    destruct W as (st & W1 & W2 & W3 & W4 & W5). rewrite walk_more by (easy || auto).
    exists st, [], cur, (dheur n). rewrite app_nil_r, W1. cbn [backs app].
    repeat (split; [now eauto using path_ext|]). split.
    { eapply ended_ext; [exact X|]. exists n. split; auto. split; auto.
      destruct (stop_reason C _ _ H1) as [Q|[M F]]; auto. right. split; auto.
      apply last_gains_of_flag; [now apply W2|congruence]. }
    repeat (split; [now auto|]). split; [cbn; lra|].
    rewrite sumR_rsum. cbn [rev]. rewrite rsum_app, W4, rev_involutive. cbn. lra.
  - (* backup of a chance node *)
    destruct W as (p & f & la & hv & W1 & W2 & W3 & W4 & W5 & W6 & W7 & W8). rewrite walk_more by (easy || auto).
    destruct p as [|s0 p0] using rev_ind; [discriminate|]. clear IHp0.
    rewrite map_app, rev_app_distr in W4, W5. cbn in W4, W5. injection W4 as -> -> ->. injection W5 as -> ->.
    rewrite <- app_assoc in *. cbn [app] in *.
    exists p0, s0, f, la, hv. 
    assert (E : rsum (hv :: rev (map (srew C) (s0 :: f))) = (tafter + srew C s0)%R).
    { rewrite W7. cbn [map rev rsum]. rewrite rsum_app. cbn. lra. }
    split.
    { rewrite W1, E. rewrite rev_involutive, W6. cbn [map rev]. rewrite rev_app_distr. cbn [rev app].
      rewrite map_app. cbn [map]. now rewrite <- !app_assoc. }
    repeat (split; [now eauto|]). split; [cbn; now rewrite W6|]. split; [now rewrite E|]. exact W8.
  - (* backup of a decision node *)
    destruct W as (p & s0 & f & la & hv & W1 & W2 & W3 & W4 & W5 & W6 & W7 & W8 & W9). rewrite walk_more by (easy || auto).
    exists p, (s0 :: f), la, hv. split.
    { rewrite W1. rewrite W4, W6, W7, W8. rewrite rev_involutive, rev_app_distr. cbn [backs rev app map].
      rewrite <- !app_assoc. cbn [app]. rewrite <- !app_assoc. reflexivity. }
    repeat (split; [now eauto|]). exact W9.
  - (* end *)
    destruct W as (p & f & la & hv & W1 & W2 & W3 & W4 & W5 & W6 & W7 & W8). rewrite walk_more by (easy || auto).
    destruct p as [|s0 p0] using rev_ind; [|rewrite map_app, rev_app_distr in W4; discriminate].
    cbn [app map] in *. right. exists f, la, hv. split; [|auto]. rewrite W1, <- W8. cbn [app]. now rewrite <- !app_assoc.
Qed.

Lemma walks_reach : forall n s, ereach n s -> walks s.
Proof.
  intros n. apply ereach_inv.
  - intros t x H. cbn in H. apply nth_error_In in H. apply repeat_spec in H. subst. cbn. auto.
  - intros s s' G W St. eapply walks_step; eauto.
Qed.
End Inv.
