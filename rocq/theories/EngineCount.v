(** Counting arguments about trials on a search tree. *)
From Coq Require Import List ZArith Bool Reals Lia Lra.
From Verif Require Import Base BaseProofs NumOps EngineModel EngineSpec EngineProofs EngineInv.
Import ListNotations.

Section Count.
Context {S A : Type}.
Variable seqb : S -> S -> bool.
Variable aeqb : A -> A -> bool.
Hypothesis seqb_ok : decides seqb.
Hypothesis aeqb_ok : decides aeqb.
Variable C : @econf S A.
Notation store := (@store S A).
Notation est := (@est S A).
Notation event := (@event S A).
Notation dnode := (@dnode S A).
Notation cnode := (@cnode S A).
Notation tstate := (@tstate A).
Notation gstep := (gstep seqb aeqb C).
Notation tinv := (tinv seqb aeqb C).
Notation ereach := (ereach seqb aeqb C).
Notation dchild := (dchild aeqb).
Notation cchild := (cchild seqb).
Notation good := (good seqb aeqb C).
Open Scope Z_scope.

(** Visits not yet backed up. *)
Definition pendD (d : nat) (x : tstate) : Z :=
  match x with
  | TSel _ _ nodes _ => countb (fun p => Nat.eqb (fst p) d) nodes
  | TChance cur _ _ _ nodes _ => b2z (Nat.eqb cur d) + countb (fun p => Nat.eqb (fst p) d) nodes
  | TBack nodes _ _ _ _ => countb (fun p => Nat.eqb (fst p) d) nodes
  | TBackD d' nodes _ _ _ _ => b2z (Nat.eqb d' d) + countb (fun p => Nat.eqb (fst p) d) nodes
  | _ => 0
  end.
Definition pendC (c : nat) (x : tstate) : Z :=
  match x with
  | TSel _ _ nodes _ => countb (fun p => Nat.eqb (snd p) c) nodes
  | TChance _ _ _ _ nodes _ => countb (fun p => Nat.eqb (snd p) c) nodes
  | TBack nodes _ _ _ _ => countb (fun p => Nat.eqb (snd p) c) nodes
  | TBackD _ nodes _ _ _ _ => countb (fun p => Nat.eqb (snd p) c) nodes
  | _ => 0
  end.
Definition atC (c : nat) (x : tstate) : Z := match x with TChance _ _ c' _ _ _ => b2z (Nat.eqb c' c) | _ => 0 end.
Definition atD (d : nat) (x : tstate) : Z := match x with TSel d' _ _ _ => b2z (Nat.eqb d' d) | _ => 0 end.
Definition busy (x : tstate) : Z := match x with TIdle => 0 | _ => 1 end.
(** Selecting and not yet extended. *)
Definition eager (x : tstate) : Z :=
  match x with TSel _ false _ _ => 1 | TChance _ _ _ false _ _ => 1 | _ => 0 end.

Record cinv (s : est) : Prop := mkCi {
  ci_vd : forall d, count (visits_d d) (etrace s) = count (backs_d d) (etrace s) + sumZ (pendD d) (ths s);
  ci_vc : forall c, count (visits_c c) (etrace s) = count (backs_c c) (etrace s) + sumZ (pendC c) (ths s);
  ci_sc : forall c, count (selects_c c) (etrace s) = count (visits_c c) (etrace s) + sumZ (atC c) (ths s);
  ci_en : forall d, b2z (Nat.eqb d 0) * count is_start (etrace s) + count (enters_d d) (etrace s)
            = count (visits_d d) (etrace s) + count (ends_at d) (etrace s) + sumZ (atD d) (ths s);
  ci_done : count is_start (etrace s) = count is_done (etrace s) + sumZ busy (ths s);
  ci_newd : 1 + count makes_d (etrace s) = Z.of_nat (length (dh (mem s)));
  ci_newc : count makes_c (etrace s) = Z.of_nat (length (ch (mem s)));
  ci_csel : count makes_c (etrace s) <= count selects (etrace s);
  ci_mcts : mcts_mode C = true -> count makes_d (etrace s) + sumZ eager (ths s) <= count is_start (etrace s);
  ci_dv : forall d n, nth_error (dh (mem s)) d = Some n ->
            dvisits n = init_visits C + count (visits_d d) (etrace s) + count (ends_at d) (etrace s);
  ci_cv : forall c x, nth_error (ch (mem s)) c = Some x -> cvisits x = count (visits_c c) (etrace s);
  ci_fd : forall d, (length (dh (mem s)) <= d)%nat ->
            count (visits_d d) (etrace s) = 0 /\ count (ends_at d) (etrace s) = 0;
  ci_fc : forall c, (length (ch (mem s)) <= c)%nat -> count (visits_c c) (etrace s) = 0
}.

Lemma count_cons : forall f t (e : event) tr, count f ((t, e) :: tr) = b2z (f e) + count f tr.
Proof. intros f t e tr. unfold count. cbn. destruct (f e); reflexivity. Qed.

Lemma sumZ_repeat0 : forall (f : tstate -> Z) n, f TIdle = 0 -> sumZ f (repeat TIdle n) = 0.
Proof. intros f n H. induction n; cbn; auto. lia. Qed.

Lemma cinv_init : forall n, cinv (einit C n).
Proof.
  intros n. constructor; cbn; intros; rewrite ?sumZ_repeat0 by auto; unfold count; cbn; auto; try lia.
  - destruct d as [|[|d]]; cbn in H; try discriminate. injection H as <-. cbn. lia.
  - destruct c; discriminate.
Qed.


Ltac cnorm H :=
  cbn [mem ths etrace dh ch] in *; rewrite ?(sumZ_upd _ _ _ _ _ _ H), ?count_cons;
  cbn [pendD pendC atC atD busy eager visits_d backs_d visits_c backs_c selects_c enters_d ends_at is_start is_done
       makes_d makes_c selects countb fst snd];
  rewrite ?app_length, ?upd_length; cbn [length];
  change (b2z true) with 1 in *; change (b2z false) with 0 in *.

Lemma cb : forall (b : bool) x, (if b then 1 else 0) + x = b2z b + x.
Proof. intros [] x; reflexivity. Qed.

Lemma step_dv : forall s s', good s -> cinv s -> gstep s s' ->
  (forall d n, nth_error (dh (mem s')) d = Some n ->
     dvisits n = init_visits C + count (visits_d d) (etrace s') + count (ends_at d) (etrace s')) /\
  (forall d, (length (dh (mem s')) <= d)%nat ->
     count (visits_d d) (etrace s') = 0 /\ count (ends_at d) (etrace s') = 0).
Proof.
  intros s s' [I Sf] K G. pose proof (ci_dv _ K) as K1. pose proof (ci_fd _ K) as K2.
  destruct G; pose proof (Sf _ _ H) as Z; cbn [safe_thread] in Z; split; intros; cnorm H; auto;
    match goal with
    | K : nth_error (upd (dh (mem s)) ?cur _) ?d = Some _, H0 : nth_error (dh (mem s)) ?cur = Some _ |- _ =>
        rewrite (nth_upd _ _ _ _ _ _ H0) in K; destruct (Nat.eqb_spec cur d) as [<-|ne];
          [injection K as <-; cbn [visit_d add_dkid dvisits]; rewrite (K1 _ _ H0)
          |rewrite (K1 _ _ K)]; cbn; lia
    | K : nth_error (dh _ ++ _) _ = Some _ |- _ =>
        apply nth_snoc in K; destruct K as [K|[-> ->]]; [rewrite (K1 _ _ K); lia|]; cbn [new_dnode dvisits];
        destruct (K2 (length (dh (mem s))) ltac:(lia)) as [-> ->]; lia
    | _ => rewrite ?app_length, ?upd_length in *; cbn [length] in *;
           match goal with Q : (_ <= ?d)%nat |- _ => destruct (K2 d ltac:(lia)) as [E1 E2]; try (rewrite E1, E2);
             try match goal with |- context [Nat.eqb ?x d] => destruct (Nat.eqb_spec x d); [subst; exfalso; lia|] end; cbn; auto end
    | _ => idtac
    end.
  all: match goal with K : nth_error _ _ = Some ?n |- _ ?n = _ => rewrite (K1 _ _ K); lia end.
Qed.

Lemma step_cv : forall s s', good s -> cinv s -> gstep s s' ->
  (forall c x, nth_error (ch (mem s')) c = Some x -> cvisits x = count (visits_c c) (etrace s')) /\
  (forall c, (length (ch (mem s')) <= c)%nat -> count (visits_c c) (etrace s') = 0).
Proof.
  intros s s' [I Sf] K G. pose proof (ci_cv _ K) as K1. pose proof (ci_fc _ K) as K2.
  destruct G; pose proof (Sf _ _ H) as Z; cbn [safe_thread] in Z; split; intros; cnorm H; auto;
    match goal with
    | K : nth_error (upd (ch (mem s)) ?c _) ?d = Some _, H0 : nth_error (ch (mem s)) ?c = Some _ |- _ =>
        rewrite (nth_upd _ _ _ _ _ _ H0) in K; destruct (Nat.eqb_spec c d) as [<-|ne];
          [injection K as <-; cbn [visit_c add_ckid cvisits]; rewrite (K1 _ _ H0)
          |rewrite (K1 _ _ K)]; cbn; lia
    | K : nth_error (ch _ ++ _) _ = Some _ |- _ =>
        apply nth_snoc in K; destruct K as [K|[-> ->]]; [rewrite (K1 _ _ K); lia|]; cbn [new_cnode cvisits];
        rewrite (K2 (length (ch (mem s))) ltac:(lia)); lia
    | _ => rewrite ?app_length, ?upd_length in *; cbn [length] in *;
           match goal with Q : (_ <= ?d)%nat |- _ => pose proof (K2 d ltac:(lia)) as E1; try rewrite E1;
             try match goal with |- context [Nat.eqb ?x d] => destruct (Nat.eqb_spec x d); [subst; exfalso; lia|] end; cbn; auto end
    | _ => idtac
    end.
  all: match goal with K : nth_error _ _ = Some ?n |- _ ?n = _ => rewrite (K1 _ _ K); lia end.
Qed.


Lemma step_mcts : forall s s', walks seqb aeqb C s -> mcts_mode C = true -> gstep s s' ->
  count makes_d (etrace s) + sumZ eager (ths s) <= count is_start (etrace s) ->
  count makes_d (etrace s') + sumZ eager (ths s') <= count is_start (etrace s').
Proof.
  intros s s' W M G K. destruct G; specialize (W _ _ H); cnorm H; try destruct flag; try lia.
  cbn in W. destruct W as (? & ? & _ & _ & _ & _ & _ & Q & _). specialize (Q M). discriminate.
Qed.

Lemma cinv_step : forall s s', good s -> walks seqb aeqb C s -> cinv s -> gstep s s' -> cinv s'.
Proof.
  intros s s' Gd W K G. destruct (step_dv s s' Gd K G) as [V1 V2]. destruct (step_cv s s' Gd K G) as [V3 V4].
  assert (V5 : mcts_mode C = true -> count makes_d (etrace s') + sumZ eager (ths s') <= count is_start (etrace s')).
  { intros M. eapply step_mcts; eauto. apply K; auto. }
  destruct K as [K1 K2 K3 K4 K5 K6 K7 K8 _ _ _ _ _].
  constructor; auto; clear V1 V2 V3 V4 V5; intros; destruct G; cnorm H; rewrite ?cb;
    try (specialize (K1 d)); try specialize (K2 c); try specialize (K3 c); try specialize (K4 d);
    try match goal with d : nat |- _ = count (backs_d ?d) _ + _ => specialize (K1 d) end; try lia.
  all: try (rewrite (Nat.eqb_sym 0 d); lia).
Qed.

Lemma cinv_reach : forall n s, ereach n s -> cinv s /\ walks seqb aeqb C s.
Proof.
  intros n. apply ereach_inv; auto.
  - split; [apply cinv_init|]. intros t x H. cbn in H. apply nth_error_In in H. apply repeat_spec in H. subst. cbn. auto.
  - intros s s' G [K W] St. split; [eapply cinv_step; eauto|eapply walks_step; eauto].
Qed.

(** ** Edges walked exist *)
Definition evok (m : store) (e : event) : Prop :=
  match e with
  | EVisitD d a c => dchild m d a c
  | EVisitC c o d _ => cchild m c o d
  | _ => True
  end.
Definition evs_ok (s : est) : Prop := forall t e, In (t, e) (etrace s) -> evok (mem s) e.

Lemma evs_step : forall s s', gstep s s' -> evs_ok s -> evs_ok s'.
Proof.
  intros s s' G K. pose proof (mstep_ext _ _ C _ _ (gstep_mstep _ _ _ _ _ G)) as X.
  assert (Old : forall t e, In (t, e) (etrace s) -> evok (mem s') e).
  { intros t e Q. specialize (K t e Q). destruct e; cbn in *; auto; [now apply (xt_dchild _ _ _ _ X)|now apply (xt_cchild _ _ _ _ X)]. }
  destruct G; intros t' e Q; cbn [etrace mem] in *.
  - destruct Q as [[= <- <-]|Q]; [exact Logic.I|eauto].
  - destruct Q as [[= <- <-]|Q]; [|eauto]. apply (xt_dchild _ _ _ _ X). exists n. auto.
  - destruct Q as [[= <- <-]|[[= <- <-]|Q]]; [exact Logic.I| |eauto]. eexists. cbn [dh]. split; [eapply nth_upd_eq; eauto|].
    cbn. now apply lookup_snoc_eq.
  - destruct Q as [[= <- <-]|Q]; [|eauto]. apply (xt_cchild _ _ _ _ X). exists n. auto.
  - destruct Q as [[= <- <-]|Q]; [|eauto]. eexists. cbn [ch]. split; [eapply nth_upd_eq; eauto|]. cbn. now apply lookup_snoc_eq.
  - destruct Q as [[= <- <-]|[[= <- <-]|Q]]; [exact Logic.I| |eauto]. eexists. cbn [ch]. split; [eapply nth_upd_eq; eauto|].
    cbn. now apply lookup_snoc_eq.
  - destruct Q as [[= <- <-]|Q]; [exact Logic.I|eauto].
  - destruct Q as [[= <- <-]|Q]; [exact Logic.I|eauto].
  - destruct Q as [[= <- <-]|Q]; [exact Logic.I|eauto].
  - destruct Q as [[= <- <-]|Q]; [exact Logic.I|eauto].
Qed.
Lemma evs_reach : forall n s, ereach n s -> evs_ok s.
Proof.
  intros n. apply ereach_inv; auto.
  - intros t e [].
  - intros s s' _ K St. eapply evs_step; eauto.
Qed.

(** ** Sums over children *)
Lemma count_zero : forall f (tr : list (nat * event)), (forall t e, In (t, e) tr -> f e = false) -> count f tr = 0.
Proof.
  intros f tr H. induction tr as [|[t e] tr IH]; auto. rewrite count_cons, (H t e) by now left. cbn.
  rewrite IH; auto. intros. eapply H. right. eauto.
Qed.

(** Every event counted by [g] is counted by exactly one [f k], k in [ks]. *)
Lemma count_split : forall K (f : K -> event -> bool) g (ks : list K) (tr : list (nat * event)), NoDup ks ->
  (forall t e, In (t, e) tr -> g e = true -> exists k, In k ks /\ forall k', f k' e = true <-> k' = k) ->
  (forall t e k, In (t, e) tr -> In k ks -> f k e = true -> g e = true) ->
  count g tr = sumZ (fun k => count (f k) tr) ks.
Proof.
  intros K f g ks tr ND H1 H2. induction tr as [|[t e] tr IH].
  - unfold count. cbn. clear. induction ks; cbn; lia.
  - rewrite count_cons. rewrite IH; [|intros t0 e0 Q; exact (H1 t0 e0 (or_intror Q))|intros t0 e0 k Q; exact (H2 t0 e0 k (or_intror Q))].
    assert (E : sumZ (fun k => count (f k) ((t, e) :: tr)) ks = sumZ (fun k => b2z (f k e)) ks + sumZ (fun k => count (f k) tr) ks).
    { clear. induction ks as [|k ks IH]; cbn [sumZ]; [lia|]. rewrite IH, count_cons. lia. }
    rewrite E. enough (b2z (g e) = sumZ (fun k => b2z (f k e)) ks) by lia.
    destruct (g e) eqn:G.
    + destruct (H1 t e (or_introl eq_refl) G) as (k & Hk & U). clear - ND Hk U.
      induction ks as [|k' ks IH]; [destruct Hk|]. inversion ND; subst. cbn. destruct Hk as [<-|Hk].
      * assert (f k' e = true) as -> by now apply U. cbn.
        assert (Z : sumZ (fun k => b2z (f k e)) ks = 0).
        { assert (forall x, In x ks -> f x e = false).
          { intros x Hx. destruct (f x e) eqn:F; auto. apply U in F. congruence. }
          clear - H. induction ks; cbn; auto. rewrite (H a) by now left. cbn. rewrite IHks; auto. intros. apply H. now right. }
        rewrite Z. reflexivity.
      * assert (f k' e = false) as -> by (destruct (f k' e) eqn:F; auto; apply U in F; congruence).
        cbn [b2z]. rewrite <- IH; auto.
    + assert (forall k, In k ks -> f k e = false).
      { intros k Hk. destruct (f k e) eqn:F; auto. rewrite <- G. symmetry. eapply H2; eauto. now left. }
      clear - H. induction ks; cbn; auto. rewrite (H a) by now left. cbn. rewrite <- IHks; auto. intros. apply H. now right.
Qed.

Lemma lookup_of_in : forall K V (eqb : K -> K -> bool) (m : list (K * V)) k v, decides eqb ->
  NoDup (map fst m) -> In (k, v) m -> lookup eqb k m = Some v.
Proof.
  intros K V eqb m k v D. induction m as [|[k' v'] m IH]; intros ND H; [destruct H|]. cbn in *. inversion ND; subst.
  destruct H as [[= -> ->]|H].
  - now rewrite (proj2 (D k k) eq_refl).
  - destruct (eqb k' k) eqn:E; auto. apply D in E. subst. exfalso. apply H2. change k with (fst (k, v)). now apply in_map.
Qed.

Lemma dkids_nodup : forall m, tinv m -> forall d n, nth_error (dh m) d = Some n -> NoDup (map snd (dkids n)).
Proof.
  intros m I d n Hn. pose proof (wf_dkeys _ _ _ _ (ti_wf _ _ _ _ I) _ _ Hn) as ND.
  assert (U : forall a a' c, In (a, c) (dkids n) -> In (a', c) (dkids n) -> a = a').
  { intros a a' c Q1 Q2. apply (ti_cparent _ _ _ _ I d a d a' c); exists n; split; auto; apply lookup_of_in; auto. }
  revert ND U. generalize (dkids n). clear. induction l as [|[a c] l IH]; intros ND U; [constructor|].
  cbn in *. inversion ND; subst. constructor; [|apply IH; eauto].
  intros Q. apply in_map_iff in Q. destruct Q as ([a' c'] & E & Q). cbn in E. subst.
  assert (a = a') by (eapply U; eauto). subst. apply H1. change a' with (fst (a', c)). now apply in_map.
Qed.

Lemma ckids_nodup : forall m, tinv m -> forall c n, nth_error (ch m) c = Some n -> NoDup (map snd (ckids n)).
Proof.
  intros m I d n Hn. pose proof (wf_ckeys _ _ _ _ (ti_wf _ _ _ _ I) _ _ Hn) as ND.
  assert (U : forall a a' c, In (a, c) (ckids n) -> In (a', c) (ckids n) -> a = a').
  { intros a a' c Q1 Q2. apply (lookup_of_in _ _ seqb) in Q1, Q2; auto.
    destruct (wf_c _ _ _ _ (ti_wf _ _ _ _ I) _ _ _ _ Hn Q1) as (x & Hx & E1 & _).
    destruct (wf_c _ _ _ _ (ti_wf _ _ _ _ I) _ _ _ _ Hn Q2) as (y & Hy & E2 & _). congruence. }
  revert ND U. generalize (ckids n). clear. induction l as [|[a c] l IH]; intros ND U; [constructor|].
  cbn in *. inversion ND; subst. constructor; [|apply IH; eauto].
  intros Q. apply in_map_iff in Q. destruct Q as ([a' c'] & E & Q). cbn in E. subst.
  assert (a = a') by (eapply U; eauto). subst. apply H1. change a' with (fst (a', c)). now apply in_map.
Qed.

Lemma visits_split : forall s, good s -> evs_ok s -> forall d n, nth_error (dh (mem s)) d = Some n ->
  count (visits_d d) (etrace s) = sumZ (fun p => count (selects_c (snd p)) (etrace s)) (dkids n).
Proof.
  intros s [I _] K d n Hn. rewrite <- (sumZ_map _ _ (fun c => count (selects_c c) (etrace s)) snd).
  apply (count_split nat selects_c).
  - eapply dkids_nodup; eauto.
  - intros t e Hin G. destruct e; try discriminate. cbn in G. apply Nat.eqb_eq in G. subst d0.
    destruct (K _ _ Hin) as (n' & Hn' & L). rewrite Hn in Hn'. injection Hn' as <-.
    exists c. split.
    + change c with (snd (a, c)). apply in_map. now apply (lookup_in _ _ aeqb).
    + intros k'. cbn. rewrite Nat.eqb_eq. split; congruence.
  - intros t e c Hin Hk F. destruct e; try discriminate. cbn in F. apply Nat.eqb_eq in F. subst c0.
    apply in_map_iff in Hk. destruct Hk as ([a' c'] & E & Hk). cbn in E. subst c'.
    destruct (ti_cparent _ _ _ _ I d0 a d a' c (K _ _ Hin)) as [-> _].
    + exists n. split; auto. apply lookup_of_in; auto. eapply wf_dkeys; eauto. apply I.
    + cbn. apply Nat.eqb_refl.
Qed.

Lemma visits_split_c : forall s, good s -> evs_ok s -> forall c n, nth_error (ch (mem s)) c = Some n ->
  count (visits_c c) (etrace s) = sumZ (fun p => count (goes c (snd p)) (etrace s)) (ckids n).
Proof.
  intros s [I _] K d n Hn. rewrite <- (sumZ_map _ _ (fun c => count (goes d c) (etrace s)) snd).
  apply (count_split nat (goes d)).
  - eapply ckids_nodup; eauto.
  - intros t e Hin G. destruct e; try discriminate. cbn in G. apply Nat.eqb_eq in G. subst d.
    destruct (K _ _ Hin) as (n' & Hn' & L). rewrite Hn in Hn'. injection Hn' as <-.
    exists d0. split.
    + change d0 with (snd (o, d0)). apply in_map. now apply (lookup_in _ _ seqb).
    + intros k'. cbn. rewrite Nat.eqb_refl. cbn. rewrite Nat.eqb_eq. split; congruence.
  - intros t e c Hin Hk F. destruct e; try discriminate. cbn in F. apply andb_prop in F. destruct F as [F _]. exact F.
Qed.

Lemma enters_goes : forall s, good s -> evs_ok s -> use_tt C = false -> forall c o d, cchild (mem s) c o d ->
  count (enters_d d) (etrace s) = count (goes c d) (etrace s).
Proof.
  intros s [I _] K U c o d H. pose proof (ti_tt _ _ _ _ I) as T. rewrite U in T. destruct T as [_ T].
  assert (E : forall t e, In (t, e) (etrace s) -> enters_d d e = goes c d e).
  { intros t e Hin. destruct e; auto. cbn. destruct (Nat.eqb_spec d0 d) as [->|ne]; [|now rewrite andb_false_r].
    rewrite andb_true_r. destruct (T _ _ _ _ _ (K _ _ Hin) H) as [-> _]. now rewrite Nat.eqb_refl. }
  revert E. generalize (etrace s). clear. induction l as [|[t e] l IH]; intros E; auto.
  rewrite !count_cons, (E t e) by now left. rewrite IH; auto. intros. apply (E t0). now right.
Qed.

Lemma quiet_sum : forall (s : est) (f : tstate -> Z), f TIdle = 0 -> quiet s -> sumZ f (ths s) = 0.
Proof.
  intros s f F Q. unfold quiet in Q. revert Q. generalize (ths s). induction l as [|x l IH]; intros Q; auto.
  cbn. rewrite (Q 0%nat x eq_refl), F, IH; [lia|]. intros t y Hy. exact (Q (Datatypes.S t) y Hy).
Qed.

Lemma never_enters_root : forall s, good s -> evs_ok s -> count (enters_d 0) (etrace s) = 0.
Proof.
  intros s [I _] K. apply count_zero. intros t e Hin. destruct e; auto. cbn.
  destruct (Nat.eqb_spec d 0); auto. subst. exfalso. apply (ti_noroot _ _ _ _ I _ _ _ (K _ _ Hin)). reflexivity.
Qed.

(** ** Consequences for finished trials *)
Lemma ths_length : forall n s, ereach n s -> length (ths s) = n.
Proof.
  intros n. apply ereach_inv; auto.
  - cbn. apply repeat_length.
  - intros s s' _ K St. destruct St; cbn [ths]; now rewrite upd_length.
Qed.

Lemma thread_ex : forall n s t, ereach n s -> (t < n)%nat -> exists x, nth_error (ths s) t = Some x.
Proof.
  intros n s t R H. destruct (nth_error (ths s) t) eqn:E; eauto. apply nth_error_None in E.
  rewrite (ths_length n s R) in E. lia.
Qed.

Lemma snoc_inv : forall X (l m : list X) x y, l ++ [x] = m ++ [y] -> l = m /\ x = y.
Proof. intros. now apply app_inj_tail. Qed.

Lemma backs_ends : forall before st hv total, st <> [] -> exists l d b a ta, backs C before st hv total = l ++ [EBackD d b a ta total].
Proof.
  intros before st hv total H. destruct st as [|s st]; [congruence|]. cbn [backs].
  eexists (backs _ _ _ _ _ ++ [_]), _, _, _, _. rewrite <- app_assoc. cbn [app]. reflexivity.
Qed.

Lemma sel_ends : forall (st : list (@tstep S A)), st <> [] -> exists l c o d g, sel_events st = l ++ [EVisitC c o d g].
Proof.
  intros st H. destruct (exists_last H) as (p & x & ->). rewrite sel_events_app. cbn.
  eexists (sel_events p ++ [_]), _, _, _, _. rewrite <- app_assoc. cbn. reflexivity.
Qed.

Lemma selection_done : forall n s t w last hv, ereach n s -> (t < n)%nat ->
  walk t (etrace s) = w ++ [EFinal last hv] ->
  exists steps, w = EStart :: sel_events steps /\ path seqb aeqb C (mem s) steps last /\ ended C (mem s) steps last hv.
Proof.
  intros n s t w last hv R Ht E. destruct (cinv_reach n s R) as [_ W]. destruct (thread_ex n s t R Ht) as [x Hx].
  specialize (W t x Hx). rewrite E in W. destruct x; cbn [wthread] in W.
  - destruct W as [W|(st & la & h & W & _)]; [destruct w; discriminate|]. exfalso.
    rewrite !app_comm_cons in W. rewrite !app_assoc in W. apply snoc_inv in W. destruct W as [_ W]. discriminate.
  - exfalso. destruct W as (st & W & _). destruct st as [|x st].
    + destruct w as [|? [|]]; discriminate.
    + destruct (sel_ends (x :: st)) as (l & c & o & d & g & Q); [congruence|]. rewrite Q in W.
      rewrite app_comm_cons in W. apply snoc_inv in W. destruct W as [_ W]. discriminate.
  - exfalso. destruct W as (st & nn & W & _). rewrite app_comm_cons in W. apply snoc_inv in W. destruct W as [_ W]. discriminate.
  - destruct W as (p & f & la & h & W & W2 & W3 & _). destruct f as [|y f].
    + cbn [backs] in W. rewrite app_nil_r in *. rewrite app_comm_cons in W. apply snoc_inv in W. destruct W as [-> W].
      injection W as <- <-. eauto.
    + exfalso. destruct (backs_ends (map (srew C) p) (y :: f) h total) as (l & d & b & a & ta & Q); [congruence|].
      rewrite Q in W. rewrite !app_comm_cons in W. rewrite !app_assoc in W. apply snoc_inv in W. destruct W as [_ W]. discriminate.
  - exfalso. destruct W as (p & y & f & la & h & W & _). rewrite !app_comm_cons in W. rewrite !app_assoc in W.
    apply snoc_inv in W. destruct W as [_ W]. discriminate.
  - destruct W.
Qed.

Lemma trial_done : forall n s t w, ereach n s -> (t < n)%nat ->
  walk t (etrace s) = w ++ [EDone] -> full seqb aeqb C (mem s) (w ++ [EDone]) [EDone].
Proof.
  intros n s t w R Ht E. destruct (cinv_reach n s R) as [_ W]. destruct (thread_ex n s t R Ht) as [x Hx].
  specialize (W t x Hx). rewrite E in W. destruct x; cbn [wthread] in W.
  - destruct W as [W|W]; [destruct w; discriminate|]. exact W.
  - exfalso. destruct W as (st & W & _). destruct st as [|x st].
    + destruct w as [|? [|]]; discriminate.
    + destruct (sel_ends (x :: st)) as (l & c & o & d & g & Q); [congruence|]. rewrite Q in W.
      rewrite app_comm_cons in W. apply snoc_inv in W. destruct W as [_ W]. discriminate.
  - exfalso. destruct W as (st & nn & W & _). rewrite app_comm_cons in W. apply snoc_inv in W. destruct W as [_ W]. discriminate.
  - exfalso. destruct W as (p & f & la & h & W & W2 & W3 & _). destruct f as [|y f].
    + cbn [backs] in W. rewrite app_comm_cons in W. apply snoc_inv in W. destruct W as [_ W]. discriminate.
    + destruct (backs_ends (map (srew C) p) (y :: f) h total) as (l & d & b & a & ta & Q); [congruence|].
      rewrite Q in W. rewrite !app_comm_cons in W. rewrite !app_assoc in W. apply snoc_inv in W. destruct W as [_ W]. discriminate.
  - exfalso. destruct W as (p & y & f & la & h & W & _). rewrite !app_comm_cons in W. rewrite !app_assoc in W.
    apply snoc_inv in W. destruct W as [_ W]. discriminate.
  - destruct W.
Qed.

(** Depth along a chain. *)
Lemma chain_depth : forall m, tinv m -> forall steps d n last, nth_error (dh m) d = Some n ->
  chain seqb aeqb m d steps last -> exists n', nth_error (dh m) last = Some n' /\ ddepth n' = ddepth n + Z.of_nat (length steps).
Proof.
  intros m I. induction steps as [|s steps IH]; intros d n last Hn H; cbn [chain] in H.
  - subst. exists n. cbn. split; auto. lia.
  - destruct H as (E & _ & (n1 & Q1 & Q2) & (x & Q3 & Q4) & H).
    destruct (wf_d _ _ _ _ (ti_wf _ _ _ _ I) _ _ _ _ Q1 Q2) as (x' & Q5 & _ & D1 & _). rewrite Q3 in Q5. injection Q5 as <-.
    destruct (wf_c _ _ _ _ (ti_wf _ _ _ _ I) _ _ _ _ Q3 Q4) as (n2 & Q6 & _ & D2 & _).
    destruct (IH _ _ _ Q6 H) as (n' & Q7 & D3). exists n'. split; auto. rewrite E in Q1. rewrite Hn in Q1. injection Q1 as <-.
    cbn [length]. lia.
Qed.

Lemma path_length : forall m, tinv m -> 0 <= max_depth C -> forall steps last, path seqb aeqb C m steps last ->
  Z.of_nat (length steps) <= max_depth C.
Proof.
  intros m I Hm steps last (P & _). destruct (wf_root _ _ _ _ (ti_wf _ _ _ _ I)) as (n & Hn & _ & E & _).
  destruct (chain_depth m I steps _ _ _ Hn P) as (n' & Hn' & D). pose proof (ti_depth _ _ _ _ I Hm _ _ Hn'). lia.
Qed.

Lemma sel_length : forall st : list (@tstep S A), length (sel_events st) = (2 * length st)%nat.
Proof. unfold sel_events. induction st; cbn [flat_map app length] in *; lia. Qed.
Lemma backs_length : forall st b hv tot, length (backs C b st hv tot) = (2 * length st)%nat.
Proof. induction st as [|s st IH]; intros; cbn [backs length]; auto. rewrite app_length, IH. cbn. lia. Qed.

Lemma walk_bound : forall n s t, ereach n s -> 0 <= max_depth C -> (t < n)%nat ->
  Z.of_nat (length (walk t (etrace s))) <= 4 * max_depth C + 3.
Proof.
  intros n s t R Hm Ht. destruct (cinv_reach n s R) as [_ W]. destruct (thread_ex n s t R Ht) as [x Hx].
  specialize (W t x Hx). destruct (ereach_good _ _ seqb_ok aeqb_ok C n s R) as [I _].
  pose proof (path_length (mem s) I Hm) as PL.
  destruct x; cbn [wthread] in W.
  - destruct W as [->|(st & la & h & -> & P & _)]; [cbn; lia|]. specialize (PL _ _ P).
    cbn [length]. rewrite !app_length. cbn [length]. rewrite !app_length, sel_length, backs_length. cbn [length]. lia.
  - destruct W as (st & -> & P & _). specialize (PL _ _ P). cbn [length]. rewrite sel_length. lia.
  - destruct W as (st & nn & -> & P & _ & _ & _ & _ & Hn & NS & _). 
    destruct (wf_root _ _ _ _ (ti_wf _ _ _ _ I)) as (n0 & Hn0 & _ & E & _).
    destruct (chain_depth _ I st _ _ _ Hn0 (proj1 P)) as (n' & Hn' & D). rewrite Hn in Hn'. injection Hn' as <-.
    assert (ddepth nn < max_depth C) by (unfold must_stop in NS; lia).
    cbn [length]. rewrite app_length, sel_length. cbn [length]. lia.
  - destruct W as (p & f & la & h & -> & P & _). specialize (PL _ _ P). rewrite app_length in PL.
    cbn [length]. rewrite !app_length. cbn [length]. rewrite sel_length, backs_length, app_length. lia.
  - destruct W as (p & y & f & la & h & -> & P & _). specialize (PL _ _ P). rewrite app_length in PL. cbn [length] in PL.
    cbn [length]. rewrite !app_length. cbn [length]. rewrite !app_length, sel_length, backs_length, app_length. cbn [length]. lia.
  - destruct W.
Qed.

(** ** A trial in progress can always go on *)
Lemma trial_progress : forall n s t x, ereach n s -> nth_error (ths s) t = Some x -> x <> TIdle ->
  (forall st, is_sink C st = false -> acts C st <> []) ->
  (forall st a, is_sink C st = false -> In a (acts C st) -> succs C st a <> []) ->
  exists l s', (l = LRun t \/ (exists a, l = LSelect t a) \/ (exists o, l = LSample t o)) /\ estep seqb aeqb C l s = Some s'.
Proof.
  intros n s t x R Hx Nx HA HS. destruct (ereach_good _ _ seqb_ok aeqb_ok C n s R) as [I Sf]. specialize (Sf t x Hx).
  destruct x as [|cur flag nodes rewards|cur a c flag nodes rewards|nodes before after ta tot|d nodes before after ta tot|];
    cbn [safe_thread] in Sf; try congruence; try tauto.
  - destruct (nth_error (dh (mem s)) cur) as [nd|] eqn:Hn; [|apply nth_error_None in Hn; lia].
    destruct (should_continue C nd flag) eqn:Hc.
    + destruct (acts C (dstate nd)) as [|a l] eqn:Ha.
      { exfalso. apply (HA (dstate nd)); auto. destruct (continue_not_stop C _ _ Hc) as [NS _]. unfold must_stop in NS.
        destruct (is_sink C (dstate nd)); tauto. }
      exists (LSelect t a). cbn [estep]. rewrite Hx, Hn, Hc, Ha. cbn [existsb andb].
      rewrite (proj2 (aeqb_ok a a) eq_refl). cbn [orb].
      match goal with |- context [match nth_error ?l ?i with _ => _ end] => destruct (nth_error l i) as [n1|] end;
      [destruct (lookup aeqb a (dkids n1))|]; eexists; (split; [eauto|reflexivity]).
    + exists (LRun t). cbn [estep]. rewrite Hx, Hn, Hc. eexists; split; [eauto|reflexivity].
  - destruct Sf as (B1 & B2 & _).
    destruct (nth_error (ch (mem s)) c) as [nc|] eqn:Hn; [|apply nth_error_None in Hn; lia].
    destruct (nth_error (dh (mem s)) cur) as [dn|] eqn:Hd; [|apply nth_error_None in Hd; lia].
    destruct (ti_cstop _ _ _ _ I c nc Hn) as (NS & _ & _ & Ia).
    destruct (succs C (cstate nc) (cact nc)) as [|o l] eqn:Ho; [exfalso; eapply HS; eauto|].
    exists (LSample t o). cbn [estep]. rewrite Hx, Hn, Hd, Ho. cbn [existsb]. rewrite (proj2 (seqb_ok o o) eq_refl). cbn [orb].
    destruct (create_child_c seqb C (mem s) c (visit_c nc) o) as [m1 isnew].
    destruct (nth_error (ch m1) c) as [n1|]; [destruct (lookup seqb o (ckids n1))|]; eexists; (split; [eauto|reflexivity]).
  - exists (LRun t). cbn [estep]. rewrite Hx. destruct nodes as [|[d c] nodes]; [|destruct before];
      eexists; (split; [eauto|reflexivity]).
  - exists (LRun t). cbn [estep]. rewrite Hx. eexists; split; [eauto|reflexivity].
Qed.

(** ** Nodes made by one trial *)
Lemma trial_count_other : forall f t t' (e : event) tr, t' <> t ->
  countb f (trial t ((t', e) :: tr)) = countb f (trial t tr).
Proof. intros. now rewrite trial_other. Qed.
Lemma countb_app : forall X (f : X -> bool) l m, countb f (l ++ m) = countb f l + countb f m.
Proof. induction l; intros; cbn; [lia|]. rewrite IHl. lia. Qed.
Lemma trial_count_start : forall f t (tr : list (nat * event)),
  countb f (trial t ((t, EStart) :: tr)) = b2z (f EStart).
Proof. intros. cbn. rewrite Nat.eqb_refl. cbn. unfold b2z. destruct (f EStart); lia. Qed.
Lemma trial_count_same : forall f t (e : event) tr, e <> EStart ->
  countb f (trial t ((t, e) :: tr)) = countb f (trial t tr) + b2z (f e).
Proof.
  intros f t e tr H. cbn. rewrite Nat.eqb_refl. destruct e; try congruence; rewrite countb_app; cbn; unfold b2z;
    match goal with |- context [if ?b then _ else _] => destruct b end; lia.
Qed.

Definition tnew (tr : list (nat * event)) (t : nat) (x : tstate) : Prop :=
  countb makes_c (trial t tr) <= countb selects (trial t tr) /\
  (mcts_mode C = true ->
   match x with
   | TSel _ flag _ _ | TChance _ _ _ flag _ _ => countb makes_d (trial t tr) <= b2z flag
   | _ => countb makes_d (trial t tr) <= 1
   end).

Lemma tnew_step : forall s s', walks seqb aeqb C s -> gstep s s' ->
  (forall t x, nth_error (ths s) t = Some x -> tnew (etrace s) t x) ->
  forall t x, nth_error (ths s') t = Some x -> tnew (etrace s') t x.
Proof.
  intros s s' W G K t' x' Hx'.
  destruct G; cbn [mem ths etrace] in *; rewrite (nth_upd _ _ _ _ _ _ H) in Hx';
    (destruct (Nat.eqb_spec t t') as [<-|ne];
      [injection Hx' as <-
      |specialize (K _ _ Hx'); unfold tnew; rewrite ?trial_count_other by auto; exact K]);
    specialize (K _ _ H); specialize (W _ _ H); unfold tnew in *; rewrite ?trial_count_start;
    rewrite ?trial_count_same by discriminate; cbn [makes_c makes_d selects b2z] in *;
    (split; [lia|intros M; try (destruct K as [_ K]; specialize (K M)); cbn in *; try destruct flag; cbn in *; try lia]).
  cbn in W. destruct W as (? & ? & _ & _ & _ & _ & _ & Q & _). specialize (Q M). discriminate.
Qed.

Lemma tnew_reach : forall n s, ereach n s -> forall t x, nth_error (ths s) t = Some x -> tnew (etrace s) t x.
Proof.
  intros n s R. enough (walks seqb aeqb C s /\ forall t x, nth_error (ths s) t = Some x -> tnew (etrace s) t x) by tauto.
  revert s R. apply ereach_inv; auto.
  - split.
    + intros t x H. cbn in H. apply nth_error_In in H. apply repeat_spec in H. subst. cbn. auto.
    + intros t x H. cbn in H. apply nth_error_In in H. apply repeat_spec in H. subst. unfold tnew. cbn. split; lia.
  - intros s s' G [W K] St. split; [eapply walks_step; eauto|eapply tnew_step; eauto].
Qed.

Lemma tnew_one : forall n s t, ereach n s -> (t < n)%nat ->
  countb makes_c (trial t (etrace s)) <= countb selects (trial t (etrace s)) /\
  (mcts_mode C = true -> countb makes_d (trial t (etrace s)) <= 1).
Proof.
  intros n s t R Ht. destruct (thread_ex n s t R Ht) as [x Hx]. destruct (tnew_reach n s R t x Hx) as [K1 K2].
  split; auto. intros M. specialize (K2 M). destruct x as [|? []|? ? ? []| | |]; cbn in K2; lia.
Qed.
End Count.
