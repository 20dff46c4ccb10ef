(** Where the returns of a search come from: every return of a chance node is a return of one of its children and the
    reward on the way, every return of a decision node is one of its children, apart from those under way. *)
From Coq Require Import List ZArith Bool Reals Lia Lra.
From Verif Require Import Base BaseProofs NumOps EngineModel EngineSpec EngineProofs EngineInv EngineCount SoftSpec.
Import ListNotations.
Open Scope R_scope.

Lemma rsum_of_cons : forall T (f : T -> R) x l, rsum_of f (x :: l) = f x + rsum_of f l.
Proof. reflexivity. Qed.
Lemma rsum_of_app : forall T (f : T -> R) l m, rsum_of f (l ++ m) = rsum_of f l + rsum_of f m.
Proof. intros T f l m. unfold rsum_of. induction l as [|x l IH]; cbn; [lra|]. rewrite IH. lra. Qed.
Lemma rsum_of_upd : forall T (f : T -> R) l i w x, nth_error l i = Some w -> rsum_of f (upd l i x) = rsum_of f l - f w + f x.
Proof.
  intros T f l. induction l as [|y l IH]; intros [|i] w x H; cbn [nth_error upd] in *; try discriminate; rewrite !rsum_of_cons.
  - injection H as ->. lra.
  - rewrite (IH _ _ _ H). lra.
Qed.
Lemma rsum_of_ext : forall T (f g : T -> R) l, (forall x, In x l -> f x = g x) -> rsum_of f l = rsum_of g l.
Proof. intros T f g l. induction l as [|x l IH]; intros H; auto. rewrite !rsum_of_cons, (H x (or_introl eq_refl)), IH; auto. intros y I. apply H. now right. Qed.
Lemma rsum_of_add : forall T (f g : T -> R) l, rsum_of (fun x => f x + g x) l = rsum_of f l + rsum_of g l.
Proof. intros T f g l. induction l as [|x l IH]; [unfold rsum_of; cbn; lra|]. rewrite !rsum_of_cons, IH. lra. Qed.
Lemma rsum_of_zero : forall T (f : T -> R) l, (forall x, In x l -> f x = 0) -> rsum_of f l = 0.
Proof. intros T f l H. rewrite (rsum_of_ext _ f (fun _ => 0)); auto. clear. induction l; [reflexivity|]. rewrite rsum_of_cons, IHl. lra. Qed.
Lemma rsum_of_at : forall K (g : K * nat -> R) (l : list (K * nat)) o d, NoDup (map snd l) -> In (o, d) l ->
  rsum_of (fun p => if Nat.eqb (snd p) d then g p else 0) l = g (o, d).
Proof.
  intros K g l o d. induction l as [|[o' d'] l IH]; [easy|]. cbn [map snd]. intros ND I. inversion ND as [|x y N1 N2]; subst. rewrite rsum_of_cons. cbn [snd].
  destruct I as [[= -> ->]|I].
  - rewrite Nat.eqb_refl, rsum_of_zero; [lra|]. intros [o2 d2] I2. cbn. destruct (Nat.eqb_spec d2 d); auto. subst. destruct N1. now apply (in_map snd) in I2.
  - destruct (Nat.eqb_spec d' d) as [->|]; [destruct N1; now apply (in_map snd) in I|]. rewrite IH; auto. lra.
Qed.
Lemma rsum_of_off : forall K (g : K * nat -> R) (l : list (K * nat)) d, ~ In d (map snd l) ->
  rsum_of (fun p => if Nat.eqb (snd p) d then g p else 0) l = 0.
Proof.
  intros K g l d N. apply rsum_of_zero. intros [o d'] I. cbn. destruct (Nat.eqb_spec d' d); auto. subst. destruct N. now apply (in_map snd) in I.
Qed.

Section Ledger.
Context {S A : Type}.
Variable seqb : S -> S -> bool.
Variable aeqb : A -> A -> bool.
Hypothesis seqb_ok : decides seqb.
Hypothesis aeqb_ok : decides aeqb.
Variable C : @econf S A.
Hypothesis NoTT : use_tt C = false.
Notation store := (@store S A).
Notation est := (@est S A).
Notation event := (@event S A).
Notation tstate := (@tstate A).
Notation gstep := (gstep seqb aeqb C).
Notation ereach := (ereach seqb aeqb C).
Notation dchild := (dchild aeqb).
Notation cchild := (cchild seqb).

(** The way a worker came. *)
Fixpoint linked (m : store) (cur : nat) (nodes : list (nat * nat)) (rs : list R) : Prop :=
  match nodes, rs with
  | [], [] => cur = 0%nat
  | (d, c) :: nodes1, r :: rs1 => exists a o x, dchild m d a c /\ nth_error (ch m) c = Some x /\ lookup seqb o (ckids x) = Some cur /\
      r = rwd C (cstate x) (cact x) o /\ linked m d nodes1 rs1
  | _, _ => False
  end.
Definition tlink (m : store) (x : tstate) : Prop :=
  match x with
  | TIdle => True
  | TSel cur _ nodes rs => linked m cur nodes rs
  | TChance cur a c _ nodes rs => dchild m cur a c /\ linked m cur nodes rs
  | TBack nodes before _ _ _ => exists cur, linked m cur nodes before
  | TBackD d nodes before _ _ _ => linked m d nodes before
  | TBad => False
  end.
Definition links (s : est) : Prop := forall t x, nth_error (ths s) t = Some x -> tlink (mem s) x.

Lemma linked_ext : forall m m', extends_tree seqb aeqb m m' -> forall nodes rs cur, linked m cur nodes rs -> linked m' cur nodes rs.
Proof using Type.
  intros m m' X nodes. induction nodes as [|[d c] nodes IH]; intros [|r rs] cur; cbn; auto. intros (a & o & x & Hd & Hx & L & -> & H).
  destruct (xt_cchild _ _ _ _ X c o cur) as (x' & Hx' & L'); [exists x; auto|].
  destruct (xt_c _ _ _ _ X _ _ Hx) as (x2 & Hx2 & E1 & E2 & _). rewrite Hx' in Hx2. injection Hx2 as <-.
  exists a, o, x'. split; [now apply (xt_dchild _ _ _ _ X)|]. split; auto. split; auto. split; [now rewrite E1, E2|auto].
Qed.
Lemma tlink_ext : forall m m' x, extends_tree seqb aeqb m m' -> tlink m x -> tlink m' x.
Proof using Type.
  intros m m' x X H. destruct x; cbn in *; auto.
  - eapply linked_ext; eauto.
  - destruct H. split; [now apply (xt_dchild _ _ _ _ X)|eapply linked_ext; eauto].
  - destruct H as (cur & H). exists cur. eapply linked_ext; eauto.
  - eapply linked_ext; eauto.
Qed.

Lemma links_step : forall s s', good seqb aeqb C s -> gstep s s' -> links s -> links s'.
Proof using All.
  intros s s' Gd G L. pose proof (mstep_ext _ _ C _ _ (gstep_mstep _ _ _ _ _ G)) as X. pose proof Gd as [Ti _].
  pose proof (good_step seqb aeqb seqb_ok aeqb_ok C _ _ Gd G) as [Ti' _].
  assert (Old : forall t x, nth_error (ths s) t = Some x -> tlink (mem s') x) by (intros t x Q; eapply tlink_ext; eauto).
  assert (Down : forall cur a c nodes rs o d dn, tlink (mem s') (TChance cur a c false nodes rs) -> cchild (mem s') c o d ->
    nth_error (dh (mem s)) cur = Some dn -> tlink (mem s') (TSel d false ((cur, c) :: nodes) (rwd C (dstate dn) a o :: rs))).
  { intros cur a c nodes rs o d dn [D Lk] (x & Hx & Lx) Hn. cbn. exists a, o, x. split; auto. split; auto. split; auto. split; auto.
    destruct D as (dn' & Hn' & Ld). destruct (wf_d _ _ _ _ (ti_wf _ _ _ _ Ti') _ _ _ _ Hn' Ld) as (x' & Hx' & Es & _ & _ & Ea & _).
    rewrite Hx in Hx'. injection Hx' as <-. destruct (xt_d _ _ _ _ X _ _ Hn) as (n2 & Hn2 & E & _). rewrite Hn' in Hn2. injection Hn2 as <-. congruence. }
  intros t' x' Hx'.
  destruct G; cbn [mem ths] in *; rewrite (nth_upd _ _ _ _ _ _ H) in Hx'; (destruct (Nat.eqb_spec t t') as [<-|ne]; [injection Hx' as <-|exact (Old _ _ Hx')]);
    pose proof (Old _ _ H) as Z.
  - reflexivity.
  - split; [|exact Z]. eapply (xt_dchild _ _ _ _ X). exists n. auto.
  - split; [|exact Z]. eexists. cbn [dh]. split; [eapply nth_upd_eq; eauto|]. cbn. now apply lookup_snoc_eq.
  - eapply (Down cur a c nodes rewards o d dn); eauto. apply (xt_cchild _ _ _ _ X). exists n. auto.
  - congruence.
  - eapply (Down cur a c nodes rewards o d dn); eauto. eexists. cbn [ch]. split; [eapply nth_upd_eq; eauto|]. cbn. now apply lookup_snoc_eq.
  - exists cur. exact Z.
  - destruct Z as (cur & Z). cbn in Z |- *. destruct Z as (a & o & x & _ & _ & _ & _ & Z). exact Z.
  - exists d. exact Z.
  - exact Logic.I.
Qed.
Lemma links_reach : forall n s, ereach n s -> links s.
Proof using All.
  intros n. apply ereach_inv; auto.
  - intros t x H. cbn in H. apply nth_error_In in H. apply repeat_spec in H. subst. exact Logic.I.
  - intros s s' Gd K St. eapply links_step; eauto.
Qed.

Variable F : R -> R.

(** What event [e] adds to the returns of chance node [c], of decision node [d], and to what arrives at [d] (with [w] on the way
    there). *)
Definition addC (c : nat) (e : event) : R := match e with EBackC c' _ _ r _ => if Nat.eqb c' c then F r else 0 | _ => 0 end.
Definition addD (d : nat) (e : event) : R := match e with EBackD d' _ _ r _ => if Nat.eqb d' d then F r else 0 | _ => 0 end.
Definition into (d : nat) (w : R) (e : event) : R :=
  match e with
  | EBackD d' _ _ r _ => if Nat.eqb d' d then F (r + w) else 0
  | EFinal d' hv => if Nat.eqb d' d then F (hv + w) else 0
  | _ => 0 end.
Definition wsum (f : event -> R) (tr : list (nat * event)) : R := rsum_of (fun p => f (snd p)) tr.
(** The same for backups under way. *)
Definition owedC (c : nat) (x : tstate) : R := match x with TBack ((_, c') :: _) (r :: _) _ ta _ => if Nat.eqb c' c then F (ta + r) else 0 | _ => 0 end.
Definition owedD (d : nat) (x : tstate) : R := match x with TBackD d' _ _ _ ta _ => if Nat.eqb d' d then F ta else 0 | _ => 0 end.

Definition kidsC (m : store) (tr : list (nat * event)) (c : nat) : R :=
  match nth_error (ch m) c with
  | Some x => rsum_of (fun p => wsum (into (snd p) (rwd C (cstate x) (cact x) (fst p))) tr) (ckids x)
  | None => 0 end.
Definition kidsD (m : store) (tr : list (nat * event)) (d : nat) : R :=
  match nth_error (dh m) d with
  | Some n => rsum_of (fun p => wsum (addC (snd p)) tr) (dkids n)
  | None => 0 end.
Definition balanced (s : est) : Prop :=
  (forall c, wsum (addC c) (etrace s) + rsum_of (owedC c) (ths s) = kidsC (mem s) (etrace s) c) /\
  (forall d, wsum (addD d) (etrace s) + rsum_of (owedD d) (ths s) = kidsD (mem s) (etrace s) d).

Lemma wsum_cons : forall f t e tr, wsum f ((t, e) :: tr) = f e + wsum f tr.
Proof using Type. reflexivity. Qed.
Lemma wsum_zero : forall (f : event -> R) (g : event -> bool) tr, (forall e, g e = false -> f e = 0) -> count g tr = 0%Z -> wsum f tr = 0.
Proof using Type.
  intros f g tr H K. apply rsum_of_zero. intros [t e] I. cbn. apply H. destruct (g e) eqn:E; auto. exfalso.
  unfold count in K. revert I K. induction tr as [|[t' e'] tr IH]; [easy|]. cbn [countb snd]. intros I K. pose proof (countb_nonneg _ (fun p : nat * event => g (snd p)) tr).
  destruct I as [[= -> ->]|I]; [rewrite E in K; lia|]. apply IH; auto. destruct (g e'); lia.
Qed.

(** A chance node gains what arrives at one of its children. *)
Lemma kidsC_gain : forall m tr tr' c d (v : R), tinv seqb aeqb C m ->
  (forall d' w, wsum (into d' w) tr' = wsum (into d' w) tr + (if Nat.eqb d' d then F (v + w) else 0)) ->
  (forall o x, nth_error (ch m) c = Some x -> lookup seqb o (ckids x) = Some d ->
     kidsC m tr' c = kidsC m tr c + F (v + rwd C (cstate x) (cact x) o)) /\
  ((forall o, ~ cchild m c o d) -> kidsC m tr' c = kidsC m tr c).
Proof using All.
  intros m tr tr' c d v Ti E. unfold kidsC. split.
  - intros o x Hx Lx. rewrite Hx.
    rewrite (rsum_of_ext _ _ (fun p => wsum (into (snd p) (rwd C (cstate x) (cact x) (fst p))) tr + (if Nat.eqb (snd p) d then F (v + rwd C (cstate x) (cact x) (fst p)) else 0))) by (intros; apply E).
    rewrite rsum_of_add. f_equal. apply lookup_in in Lx; auto.
    rewrite (rsum_of_at _ (fun p => F (v + rwd C (cstate x) (cact x) (fst p))) _ o d); auto. eapply ckids_nodup; eauto.
  - intros N. destruct (nth_error (ch m) c) as [x|] eqn:Hx; auto.
    rewrite (rsum_of_ext _ _ (fun p => wsum (into (snd p) (rwd C (cstate x) (cact x) (fst p))) tr + (if Nat.eqb (snd p) d then F (v + rwd C (cstate x) (cact x) (fst p)) else 0))) by (intros; apply E).
    rewrite rsum_of_add, (rsum_of_off _ (fun p => F (v + rwd C (cstate x) (cact x) (fst p)))); [lra|].
    intros I. apply in_map_iff in I. destruct I as ([o d'] & E' & I). cbn in E'. subst d'. apply (N o). exists x. split; auto.
    apply lookup_of_in; auto. exact (wf_ckeys _ _ _ _ (ti_wf _ _ _ _ Ti) _ _ Hx).
Qed.

Lemma kidsC_same : forall m tr tr' c, (forall d w, wsum (into d w) tr' = wsum (into d w) tr) -> kidsC m tr' c = kidsC m tr c.
Proof using Type. intros m tr tr' c E. unfold kidsC. destruct (nth_error (ch m) c); auto. apply rsum_of_ext. intros. apply E. Qed.
Lemma kidsD_same : forall m tr tr' d, (forall c, wsum (addC c) tr' = wsum (addC c) tr) -> kidsD m tr' d = kidsD m tr d.
Proof using Type. intros m tr tr' d E. unfold kidsD. destruct (nth_error (dh m) d); auto. apply rsum_of_ext. intros. apply E. Qed.

Lemma add_if : forall b x, 0 + x = x /\ (if b : bool then 0 else 0) = 0.
Proof using Type. intros [] x; split; lra. Qed.

(** Steps that back nothing up: no return changes; a node may gain a child without returns. *)
Lemma balanced_quiet : forall s t w x evs m', balanced s -> nth_error (ths s) t = Some w ->
  (forall c, owedC c w = 0 /\ owedC c x = 0) -> (forall d, owedD d w = 0 /\ owedD d x = 0) ->
  (forall e, In e evs -> (forall c, addC c (snd e) = 0) /\ (forall d, addD d (snd e) = 0) /\ (forall d v, into d v (snd e) = 0)) ->
  (forall c, kidsC m' (etrace s) c = kidsC (mem s) (etrace s) c) -> (forall d, kidsD m' (etrace s) d = kidsD (mem s) (etrace s) d) ->
  balanced (mkEst m' (upd (ths s) t x) (evs ++ etrace s)).
Proof using Type.
  intros s t w x evs m' [B1 B2] Ht Oc Od Ev Kc Kd.
  assert (Nw : forall f, (forall e, In e evs -> f (snd e) = 0) -> wsum f (evs ++ etrace s) = wsum f (etrace s)).
  { intros f H. unfold wsum. rewrite rsum_of_app, rsum_of_zero by exact H. lra. }
  split; intros i; cbn [mem ths etrace].
  - rewrite (kidsC_same m' (etrace s)) by (intros; apply Nw; intros e I; apply (Ev e I)). rewrite Kc, <- B1, Nw by (intros e I; apply (Ev e I)).
    rewrite (rsum_of_upd _ _ _ _ _ _ Ht). destruct (Oc i) as [-> ->]. lra.
  - rewrite (kidsD_same m' (etrace s)) by (intros; apply Nw; intros e I; apply (Ev e I)). rewrite Kd, <- B2, Nw by (intros e I; apply (Ev e I)).
    rewrite (rsum_of_upd _ _ _ _ _ _ Ht). destruct (Od i) as [-> ->]. lra.
Qed.

Lemma balanced_step : forall s s', good seqb aeqb C s -> cinv C s -> links s -> gstep s s' -> balanced s -> balanced s'.
Proof using All.
  intros s s' Gd K L G B. pose proof Gd as [Ti Sf].
  assert (Fc : forall c, (length (ch (mem s)) <= c)%nat -> wsum (addC c) (etrace s) = 0).
  { intros c Q. apply (wsum_zero _ (backs_c c)).
    - intros e He. destruct e; auto. cbn in *. now rewrite He.
    - pose proof (ci_vc _ _ K c) as V. rewrite (ci_fc _ _ K c Q) in V. pose proof (countb_nonneg _ (fun p : nat * event => backs_c c (snd p)) (etrace s)). unfold count in *.
      assert (0 <= sumZ (pendC c) (ths s))%Z; [|lia]. apply sumZ_nonneg. intros y. destruct y; cbn; try lia; apply countb_nonneg. }
  assert (Fd : forall d v, (length (dh (mem s)) <= d)%nat -> wsum (into d v) (etrace s) = 0).
  { intros d v Q. destruct (ci_fd _ _ K d Q) as [V0 E0]. pose proof (ci_vd _ _ K d) as V. rewrite V0 in V.
    assert (Bz : count (backs_d d) (etrace s) = 0%Z).
    { pose proof (countb_nonneg _ (fun p : nat * event => backs_d d (snd p)) (etrace s)). unfold count in *.
      assert (0 <= sumZ (pendD d) (ths s))%Z; [|lia]. apply sumZ_nonneg. intros y. destruct y; cbn; try lia; try apply countb_nonneg.
      all: match goal with |- (0 <= b2z ?b + countb ?f ?l)%Z => pose proof (countb_nonneg _ f l); destruct b; cbn [b2z]; lia end. }
    apply (wsum_zero _ (fun e => backs_d d e || ends_at d e)).
    - intros e He. destruct e; auto; cbn in *; rewrite ?orb_false_r in He; now rewrite He.
    - unfold count in *. revert Bz E0. clear. induction (etrace s) as [|p l IH]; cbn [countb]; auto. intros Z1 Z2.
      pose proof (countb_nonneg _ (fun p : nat * event => backs_d d (snd p)) l). pose proof (countb_nonneg _ (fun p : nat * event => ends_at d (snd p)) l).
      destruct (backs_d d (snd p)), (ends_at d (snd p)); cbn [orb]; lia. }
  destruct G.
  - apply (balanced_quiet s t TIdle _ [_] _ B H); auto. intros e [<-|[]]. auto.
  - apply (balanced_quiet s t _ _ [_] _ B H); auto.
    + intros e [<-|[]]. auto.
    + intros d. unfold kidsD. cbn [dh]. rewrite (nth_upd _ _ _ _ _ _ H0). destruct (Nat.eqb_spec cur d) as [->|]; auto. now rewrite H0.
  - apply (balanced_quiet s t _ _ [_; _] _ B H); auto.
    + intros e [<-|[<-|[]]]; auto.
    + intros c'. unfold kidsC. cbn [ch]. destruct (nth_error (ch (mem s) ++ _) c') as [x|] eqn:E.
      * apply nth_snoc in E. destruct E as [E|[-> ->]]; [now rewrite E|]. rewrite (proj2 (nth_error_None _ _)) by lia. reflexivity.
      * apply nth_error_None in E. rewrite app_length in E. cbn in E. rewrite (proj2 (nth_error_None _ _)) by lia. reflexivity.
    + intros d. unfold kidsD. cbn [dh]. rewrite (nth_upd _ _ _ _ _ _ H0). destruct (Nat.eqb_spec cur d) as [->|]; auto. rewrite H0. cbn [add_dkid visit_d dkids].
      rewrite rsum_of_app, rsum_of_cons. cbn [snd]. rewrite Fc by (unfold c; lia). unfold rsum_of. cbn. lra.
  - apply (balanced_quiet s t _ _ [_] _ B H); auto.
    + intros e [<-|[]]. auto.
    + intros c'. unfold kidsC. cbn [ch]. rewrite (nth_upd _ _ _ _ _ _ H0). destruct (Nat.eqb_spec c c') as [->|]; auto. now rewrite H0.
  - congruence.
  - apply (balanced_quiet s t _ _ [_; _] _ B H); auto.
    + intros e [<-|[<-|[]]]; auto.
    + intros c'. unfold kidsC. cbn [ch]. rewrite (nth_upd _ _ _ _ _ _ H0). destruct (Nat.eqb_spec c c') as [->|]; auto. rewrite H0. cbn [add_ckid visit_c ckids cstate cact].
      rewrite rsum_of_app, rsum_of_cons. cbn [snd]. rewrite Fd by (unfold d; lia). unfold rsum_of. cbn. lra.
    + intros d'. unfold kidsD. cbn [dh]. destruct (nth_error (dh (mem s) ++ _) d') as [x|] eqn:E.
      * apply nth_snoc in E. destruct E as [E|[-> ->]]; [now rewrite E|]. rewrite (proj2 (nth_error_None _ _)) by lia. reflexivity.
      * apply nth_error_None in E. rewrite app_length in E. cbn in E. rewrite (proj2 (nth_error_None _ _)) by lia. reflexivity.
  - (* the end of a path *)
    pose proof (L _ _ H) as Lk. cbn in Lk. destruct B as [B1 B2]. split.
    + intros c. cbn [mem ths etrace]. change (kidsC (mkStore (upd (dh (mem s)) cur (visit_d n)) (ch (mem s)) (tt (mem s)))) with (kidsC (mem s)).
      rewrite wsum_cons, (rsum_of_upd _ _ _ _ _ _ H). cbn [addC owedC].
      destruct (kidsC_gain (mem s) (etrace s) ((t, EFinal cur (dheur n)) :: etrace s) c cur (dheur n) Ti) as [G1 G2].
      { intros d' w. rewrite wsum_cons. cbn [into]. rewrite (Nat.eqb_sym d' cur). lra. }
      destruct nodes as [|[d1 c1] nodes], rewards as [|r rewards]; try (destruct Lk; fail).
      * cbn in Lk. subst cur. rewrite G2; [rewrite <- B1; lra|]. intros o Q. exact (ti_noroot _ _ _ _ Ti _ _ _ Q eq_refl).
      * destruct Lk as (a & o & x & Dc & Hx & Lx & -> & _). destruct (Nat.eqb_spec c1 c) as [->|ne].
        -- rewrite (G1 o x Hx Lx), <- B1. lra.
        -- rewrite G2; [rewrite <- B1; lra|]. intros o' Q. apply ne. pose proof (ti_tt _ _ _ _ Ti) as T. rewrite NoTT in T. destruct T as [_ T].
           apply (T c1 o c o' cur); auto. exists x. auto.
    + intros d. cbn [mem ths etrace]. rewrite wsum_cons, (rsum_of_upd _ _ _ _ _ _ H). cbn [addD owedD].
      assert (E : kidsD (mkStore (upd (dh (mem s)) cur (visit_d n)) (ch (mem s)) (tt (mem s))) ((t, EFinal cur (dheur n)) :: etrace s) d = kidsD (mem s) (etrace s) d).
      { unfold kidsD. cbn [dh]. rewrite (nth_upd _ _ _ _ _ _ H0). destruct (Nat.eqb_spec cur d) as [->|].
        - rewrite H0. cbn [visit_d dkids]. apply rsum_of_ext. intros p _. rewrite wsum_cons. cbn. lra.
        - destruct (nth_error (dh (mem s)) d); auto. apply rsum_of_ext. intros p _. rewrite wsum_cons. cbn. lra. }
      rewrite E, <- B2. lra.
  - (* backup of a chance node *)
    pose proof (L _ _ H) as (cur & a & o & x & (n & Hn & Ln) & Hx & Lx & _). destruct B as [B1 B2]. split.
    + intros c'. cbn [mem ths etrace]. rewrite wsum_cons, (rsum_of_upd _ _ _ _ _ _ H). cbn [addC owedC].
      rewrite (kidsC_same (mem s) (etrace s)); [|intros; rewrite wsum_cons; cbn; lra]. rewrite <- B1. lra.
    + intros d'. cbn [mem ths etrace]. rewrite wsum_cons, (rsum_of_upd _ _ _ _ _ _ H). cbn [addD owedD]. unfold kidsD.
      destruct (nth_error (dh (mem s)) d') as [n'|] eqn:Hn'.
      2: { destruct (Nat.eqb_spec d d') as [->|]; [congruence|]. specialize (B2 d'). unfold kidsD in B2. rewrite Hn' in B2. lra. }
      rewrite (rsum_of_ext _ _ (fun p => wsum (addC (snd p)) (etrace s) + (if Nat.eqb (snd p) c then F (tafter + r) else 0))).
      2: { intros p _. rewrite wsum_cons. cbn [addC]. rewrite (Nat.eqb_sym c). lra. }
      rewrite rsum_of_add. specialize (B2 d'). unfold kidsD in B2. rewrite Hn' in B2. rewrite <- B2.
      destruct (Nat.eqb_spec d d') as [->|ne].
      * rewrite Hn in Hn'. injection Hn' as <-. apply lookup_in in Ln; auto. rewrite (rsum_of_at _ (fun _ => F (tafter + r)) _ a c); auto; [lra|]. eapply dkids_nodup; eauto.
      * rewrite (rsum_of_off _ (fun _ => F (tafter + r))); [lra|]. intros Q. apply in_map_iff in Q. destruct Q as ([a' c'] & E' & Q). cbn in E'. subst c'. apply ne.
        apply (ti_cparent _ _ _ _ Ti d a d' a' c); [exists n; auto|]. exists n'. split; auto. apply lookup_of_in; auto. exact (wf_dkeys _ _ _ _ (ti_wf _ _ _ _ Ti) _ _ Hn').
  - (* backup of a decision node *)
    pose proof (L _ _ H) as Lk. cbn in Lk. destruct B as [B1 B2]. split.
    + intros c. cbn [mem ths etrace]. rewrite wsum_cons, (rsum_of_upd _ _ _ _ _ _ H). cbn [addC owedC].
      destruct (kidsC_gain (mem s) (etrace s) ((t, EBackD d (rev before) (rev after) tafter total) :: etrace s) c d tafter Ti) as [G1 G2].
      { intros d' w. rewrite wsum_cons. cbn [into]. rewrite (Nat.eqb_sym d' d). lra. }
      destruct nodes as [|[d1 c1] nodes], before as [|r before]; try (destruct Lk; fail).
      * cbn in Lk. subst d. rewrite G2; [rewrite <- B1; lra|]. intros o Q. exact (ti_noroot _ _ _ _ Ti _ _ _ Q eq_refl).
      * destruct Lk as (a & o & x & Dc & Hx & Lx & -> & _). destruct (Nat.eqb_spec c1 c) as [->|ne].
        -- rewrite (G1 o x Hx Lx), <- B1. lra.
        -- rewrite G2; [rewrite <- B1; lra|]. intros o' Q. apply ne. pose proof (ti_tt _ _ _ _ Ti) as T. rewrite NoTT in T. destruct T as [_ T].
           apply (T c1 o c o' d); auto. exists x. auto.
    + intros d'. cbn [mem ths etrace]. rewrite wsum_cons, (rsum_of_upd _ _ _ _ _ _ H). cbn [addD owedD].
      rewrite (kidsD_same (mem s) (etrace s)); [|intros; rewrite wsum_cons; cbn; lra]. rewrite <- B2. destruct (Nat.eqb d d'); lra.
  - apply (balanced_quiet s t _ _ [_] _ B H); auto. intros e [<-|[]]. auto.
Qed.

Lemma balanced_reach : forall n s, ereach n s -> balanced s.
Proof using All.
  intros n s R. assert (P : ((cinv C s /\ walks seqb aeqb C s) /\ links s) /\ balanced s); [|apply P]. revert s R.
  apply (ereach_inv seqb aeqb seqb_ok aeqb_ok C (fun s => ((cinv C s /\ walks seqb aeqb C s) /\ links s) /\ balanced s)).
  - split; [split; [apply (cinv_reach seqb aeqb seqb_ok aeqb_ok C n); exists []; reflexivity|apply (links_reach n); exists []; reflexivity]|].
    assert (Z : forall f : tstate -> R, f TIdle = 0 -> rsum_of f (repeat TIdle n) = 0).
    { intros f Hf. apply rsum_of_zero. intros x I. apply repeat_spec in I. now subst. }
    split; intros i; cbn [einit mem ths etrace]; rewrite Z by reflexivity; unfold wsum, rsum_of, kidsC, kidsD; cbn.
    + destruct i; cbn; lra.
    + destruct i as [|[|i]]; cbn; lra.
  - intros s s' Gd [[[K W] L] B] St. split; [split; [split|]|].
    + eapply cinv_step; eauto.
    + eapply walks_step; eauto.
    + eapply links_step; eauto.
    + eapply balanced_step; eauto.
Qed.
End Ledger.
