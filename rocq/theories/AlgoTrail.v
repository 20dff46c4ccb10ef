(** What a trial's context holds, for algorithms that store one entry per depth. *)
From Coq Require Import List ZArith Bool Reals Lia.
From Verif Require Import Base BaseProofs NumOps RLemmas HelperModel HelperSpec EngineModel EngineSpec EngineProofs EngineInv
  MapModel MapProofs AlgoModel AlgoProofs AlgoNodes TentsSpec.
Import ListNotations.

Section Trail.
Context {S A : Type}.
Variable seqb : S -> S -> bool.
Variable aeqb : A -> A -> bool.
Hypothesis seqb_ok : decides seqb.
Hypothesis aeqb_ok : decides aeqb.
Variable C : @econf S A.
Variable G : @algo S A.
Variable V : Type.
Variable ent : CX G -> Z -> V.
Notation dnode := (@dnode S A).
Notation cnode := (@cnode S A).
Notation store := (@store S A).
Notation event := (@event S A).
(** A selection changes the entry of its depth only; sampling changes nothing. *)
Hypothesis sel_ent : forall n x kids cx g a cx1 g1 k, select G n x kids cx g = Ok (a, cx1, g1) -> k <> ddepth n -> ent cx1 k = ent cx k.
Hypothesis sam_ent : forall n x cx g o cx1 g1 k, sample G n x cx g = Ok (o, cx1, g1) -> ent cx1 k = ent cx k.
(** Nor do backups. *)
Hypothesis fin_ent : forall cx k, ent (fin G cx) k = ent cx k.
Hypothesis peekd_ent : forall kids cx cx1 k, peek_d G kids cx = Some cx1 -> ent cx1 k = ent cx k.
Hypothesis peekc_ent : forall kids cx cx1 k, peek_c G kids cx = Some cx1 -> ent cx1 k = ent cx k.
Variable nth : nat.
Variable g0 : rng R.
Notation areach := (areach seqb aeqb C G nth g0).

Definition stored (t : nat) (m : store) (w : list event) (cx : CX G) (d : nat) (a : A) (c : nat) : Prop :=
  exists s0 nd x cx0 cx1 g1 w' node, areach s0 /\ selects_now C s0 t d nd x cx0 a cx1 g1 /\
    w = trial t (etrace (base s0)) ++ EVisitD d a c :: w' /\
    nth_error (dh m) d = Some node /\ ddepth node = ddepth nd /\ ent cx (ddepth nd) = ent cx1 (ddepth nd).
Definition below (m : store) (w : list event) (b : Z) : Prop :=
  forall d a c, In (EVisitD d a c) w -> exists nd, nth_error (dh m) d = Some nd /\ (ddepth nd < b)%Z.
Definition tdepth (m : store) (w : list event) (th : @tstate A) : Prop :=
  match th with
  | TSel cur _ nodes _ => linked seqb m w cur nodes /\ exists n, nth_error (dh m) cur = Some n /\ below m w (ddepth n)
  | TChance cur a c _ nodes _ => linked seqb m w cur nodes /\ In (EVisitD cur a c) w /\ dchild aeqb m cur a c /\
      exists n, nth_error (dh m) cur = Some n /\ below m w (ddepth n + 1)
  | TBack nodes _ _ _ _ => exists cur, linked seqb m w cur nodes
  | TBackD d nodes _ _ _ _ => linked seqb m w d nodes /\ exists a c, In (EVisitD d a c) w
  | _ => True
  end.
Definition trail (s : ast G) : Prop := forall t th cx, nth_error (ths (base s)) t = Some th -> nth_error (cxs s) t = Some cx ->
  let w := trial t (etrace (base s)) in
  (forall d a c, In (EVisitD d a c) w -> stored t (mem (base s)) w cx d a c) /\ tdepth (mem (base s)) w th.

Lemma stored_mono : forall t m m' w e cx cx' d a c, extends_tree seqb aeqb m m' -> stored t m w cx d a c ->
  (forall node, nth_error (dh m) d = Some node -> ent cx' (ddepth node) = ent cx (ddepth node)) -> stored t m' (w ++ e) cx' d a c.
Proof.
  intros t m m' w e cx cx' d a c X (s0 & nd & x & cx0 & cx1 & g1 & w' & node & R & Sn & E & Hn & Ed & Ee) K.
  destruct (xt_d _ _ _ _ X _ _ Hn) as (n' & Hn' & _ & Ed' & _).
  exists s0, nd, x, cx0, cx1, g1, (w' ++ e), n'. split; auto. split; auto. split.
  - now rewrite E, <- app_assoc.
  - split; auto. split; [congruence|]. rewrite <- Ed, (K _ Hn), Ed. exact Ee.
Qed.
Lemma linked_mono : forall m m' w e cur nodes, extends_tree seqb aeqb m m' -> linked seqb m w cur nodes -> linked seqb m' (w ++ e) cur nodes.
Proof.
  intros m m' w e cur nodes X H. induction H as [cur n Hn E|cur p c nodes a o n np Hi Hc Hn Hp E _ IH].
  - destruct (xt_d _ _ _ _ X _ _ Hn) as (n' & Hn' & _ & Ed & _). econstructor; eauto. congruence.
  - destruct (xt_d _ _ _ _ X _ _ Hn) as (n' & Hn' & _ & Ed & _). destruct (xt_d _ _ _ _ X _ _ Hp) as (n2 & Hn2 & _ & Ed2 & _).
    econstructor; [apply in_or_app; left; exact Hi|apply X; exact Hc|exact Hn'|exact Hn2|congruence|exact IH].
Qed.
Definition no_sel (e : list event) : Prop := forall d a c, ~ In (EVisitD d a c) e.
Lemma below_mono : forall m m' w e b, extends_tree seqb aeqb m m' -> no_sel e -> below m w b -> below m' (w ++ e) b.
Proof.
  intros m m' w e b X Ne H d a c Q. apply in_app_or in Q. destruct Q as [Q|Q]; [|now apply Ne in Q].
  destruct (H _ _ _ Q) as (nd & Hn & L). destruct (xt_d _ _ _ _ X _ _ Hn) as (n' & Hn' & _ & Ed & _). exists n'. split; auto. lia.
Qed.
Lemma below_nil : forall m b, below m [EStart] b.
Proof. intros m b d a c [Q|[]]. discriminate. Qed.
Lemma tdepth_mono : forall m m' w e th, extends_tree seqb aeqb m m' -> no_sel e -> tdepth m w th -> tdepth m' (w ++ e) th.
Proof.
  intros m m' w e th X Ne H. destruct th; cbn in *; auto.
  - destruct H as (L & n & Hn & B). split; [eapply linked_mono; eauto|]. destruct (xt_d _ _ _ _ X _ _ Hn) as (n' & Hn' & _ & Ed & _).
    exists n'. split; auto. rewrite Ed. eapply below_mono; eauto.
  - destruct H as (L & I & D & n & Hn & B). split; [eapply linked_mono; eauto|]. split; [apply in_or_app; auto|]. split; [now apply X|].
    destruct (xt_d _ _ _ _ X _ _ Hn) as (n' & Hn' & _ & Ed & _). exists n'. split; auto. rewrite Ed. eapply below_mono; eauto.
  - destruct H as (cur & L). exists cur. eapply linked_mono; eauto.
  - destruct H as (L & a & c & I). split; [eapply linked_mono; eauto|]. exists a, c. apply in_or_app. auto.
Qed.

Lemma trial_mine : forall t (e : event) tr, e <> EStart -> trial t ((t, e) :: tr) = trial t tr ++ [e].
Proof. intros t e tr N. cbn. rewrite Nat.eqb_refl. destruct e; auto. congruence. Qed.

Lemma trail_step : forall s s', areach s -> agood seqb aeqb C G s -> afail s = None -> trail s -> atr seqb aeqb C G s s' -> trail s'.
Proof using All.
  intros s s' R I F T H. pose proof (agood_atr seqb aeqb seqb_ok aeqb_ok C G _ _ I H) as I'.
  assert (X : extends_tree seqb aeqb (mem (base s)) (mem (base s'))).
  { destruct (atr_gstep seqb aeqb C G _ _ H) as [->|Q].
    - constructor; auto; intros; eexists; repeat split; eauto; lia.
    - apply (mstep_ext _ _ C). now apply gstep_mstep. }
  (* other threads and steps without selections *)
  assert (Gen : forall t0 th0 th' cx' es, nth_error (ths (base s)) t0 = Some th0 -> ths (base s') = upd (ths (base s)) t0 th' ->
    cxs s' = upd (cxs s) t0 cx' -> etrace (base s') = map (fun e => (t0, e)) es ++ etrace (base s) ->
    (forall cx, nth_error (cxs s) t0 = Some cx ->
       let w := trial t0 (etrace (base s')) in
       (forall d a c, In (EVisitD d a c) w -> stored t0 (mem (base s')) w cx' d a c) /\ tdepth (mem (base s')) w th') -> trail s').
  { intros t0 th0 th' cx' es Ht Et Ec Ee K t th cx Q1 Q2.
    pose proof (ag_t _ _ _ _ _ I) as Lt.
    assert (Hcx : exists cx0, nth_error (cxs s) t0 = Some cx0).
    { destruct (nth_error (cxs s) t0) eqn:E0; eauto. apply nth_error_None in E0.
      assert (t0 < length (ths (base s)))%nat by (apply nth_error_Some; congruence). lia. }
    destruct Hcx as (cx0 & Hcx). rewrite Et, (nth_upd _ _ _ _ _ _ Ht) in Q1. rewrite Ec, (nth_upd _ _ _ _ _ _ Hcx) in Q2.
    destruct (Nat.eqb_spec t0 t) as [<-|Nt]; [injection Q1 as <-; injection Q2 as <-; now apply (K cx0)|].
    destruct (T _ _ _ Q1 Q2) as [T1 T2]. cbv zeta in *.
    assert (E : trial t (etrace (base s')) = trial t (etrace (base s)) ++ []).
    { rewrite Ee, app_nil_r. clear - Nt. induction es as [|e es IH]; cbn [map app]; auto. now rewrite trial_other. }
    rewrite E. split; [|apply tdepth_mono with (mem (base s)); auto; intros ? ? ? []].
    intros d a c Q. rewrite app_nil_r in Q. eapply stored_mono; eauto. }
  assert (Keep : forall t0 th0 th' cx cx' es, nth_error (ths (base s)) t0 = Some th0 -> nth_error (cxs s) t0 = Some cx ->
    ths (base s') = upd (ths (base s)) t0 th' -> cxs s' = upd (cxs s) t0 cx' ->
    etrace (base s') = map (fun e => (t0, e)) es ++ etrace (base s) -> (forall e, In e es -> e <> EStart) -> no_sel es ->
    (forall k, ent cx' k = ent cx k) ->
    (tdepth (mem (base s)) (trial t0 (etrace (base s))) th0 -> tdepth (mem (base s')) (trial t0 (etrace (base s)) ++ rev es) th') -> trail s').
  { intros t0 th0 th' cx cx' es Ht Hcx Et Ec Ee Ns Nv Kc K. eapply Gen; eauto. intros cx2 Hcx2. rewrite Hcx in Hcx2. injection Hcx2 as <-.
    destruct (T _ _ _ Ht Hcx) as [T1 T2]. cbv zeta in *.
    assert (E : trial t0 (etrace (base s')) = trial t0 (etrace (base s)) ++ rev es).
    { rewrite Ee. clear - Ns. induction es as [|e es IH]; cbn [map app rev]; [now rewrite app_nil_r|].
      rewrite trial_mine by (apply Ns; now left). rewrite IH by (intros e' Q; apply Ns; now right). now rewrite app_assoc. }
    rewrite E. split; auto. intros d a c Q. apply in_app_or in Q. destruct Q as [Q|Q].
    - eapply stored_mono; eauto.
    - apply in_rev in Q. now apply Nv in Q. }
  (* selections *)
  assert (Sel : forall t cur flag nodes rewards n a c x cx cx1 g1 es,
    nth_error (ths (base s)) t = Some (TSel cur flag nodes rewards) ->
    nth_error (dh (mem (base s))) cur = Some n -> nth_error (xds s) cur = Some x ->
    nth_error (cxs s) t = Some cx -> should_continue C n flag = true ->
    select G (visit_d n) (vis_d G (is_leaf C n) x) (dview s n) cx (rg s) = Ok (a, cx1, g1) ->
    dchild aeqb (mem (base s')) cur a c -> no_sel es -> (forall e, In e es -> e <> EStart) ->
    ths (base s') = upd (ths (base s)) t (TChance cur a c flag nodes rewards) ->
    cxs s' = upd (cxs s) t cx1 -> etrace (base s') = map (fun e => (t, e)) es ++ (t, EVisitD cur a c) :: etrace (base s) -> trail s').
  { intros t cur flag nodes rewards n a c x cx cx1 g1 es Ht Hn Hx Hcx Hc Hs Dc Nv Ns Et Ec Ee.
    destruct (T _ _ _ Ht Hcx) as [T1 (L & n2 & Hn2 & B)]. rewrite Hn in Hn2. injection Hn2 as <-. cbv zeta in *.
    apply (Gen t _ (TChance cur a c flag nodes rewards) cx1 (es ++ [EVisitD cur a c]) Ht Et Ec).
    { rewrite Ee, map_app, <- app_assoc. reflexivity. }
    intros cx2 _. cbv zeta.
    assert (E : trial t (etrace (base s')) = (trial t (etrace (base s)) ++ [EVisitD cur a c]) ++ rev es).
    { rewrite Ee. clear - Ns. induction es as [|e es IH]; cbn [map app rev].
      - rewrite trial_mine by discriminate. now rewrite app_nil_r.
      - rewrite trial_mine by (apply Ns; now left). rewrite IH by (intros e' Q; apply Ns; now right). now rewrite <- !app_assoc. }
    rewrite E. destruct (xt_d _ _ _ _ X _ _ Hn) as (n' & Hn' & _ & Ed & _). split.
    - intros d a0 c0 Q. rewrite <- app_assoc in *. apply in_app_or in Q. destruct Q as [Q|Q].
      + specialize (T1 _ _ _ Q). destruct (B _ _ _ Q) as (nd & Hnd & Lt). eapply stored_mono; eauto. intros node Hnode.
        assert (nd = node) by congruence. subst nd. eapply sel_ent; eauto. cbn [visit_d ddepth]. lia.
      + cbn in Q. destruct Q as [[= <- <- <-]|Q]; [|apply in_rev in Q; now apply Nv in Q].
        exists s, n, x, cx, cx1, g1, (rev es), n'. repeat split; auto. exists flag, nodes, rewards. auto 10.
    - cbn. split; [rewrite <- app_assoc; eapply linked_mono; eauto|]. split; [apply in_or_app; left; apply in_or_app; right; now left|].
      split; auto. exists n'. split; auto. intros d a0 c0 Q. rewrite Ed. rewrite <- app_assoc in Q. apply in_app_or in Q. destruct Q as [Q|Q].
      + destruct (B _ _ _ Q) as (nd & Hnd & Lt). destruct (xt_d _ _ _ _ X _ _ Hnd) as (n3 & Hn3 & _ & Ed3 & _). exists n3. split; auto. lia.
      + cbn in Q. destruct Q as [[= <- <- <-]|Q]; [|apply in_rev in Q; now apply Nv in Q]. exists n'. split; auto. lia. }
  (* samples *)
  assert (Down : forall cur a c flag nodes rewards o d flag' rewards' w e, no_sel e ->
    tdepth (mem (base s)) w (TChance cur a c flag nodes rewards) -> cchild seqb (mem (base s')) c o d ->
    tdepth (mem (base s')) (w ++ e) (TSel d flag' ((cur, c) :: nodes) rewards')).
  { intros cur a c flag nodes rewards o d flag' rewards' w e Ne H0 Hc. pose proof (tdepth_mono _ _ _ e _ X Ne H0) as H1.
    cbn in H1 |- *. destruct H1 as (L & Hi & (nc & Hnc & Hl) & n & Hn & B). rewrite Hn in Hnc. injection Hnc as <-.
    pose proof I' as [[Ti _] _ _ _ _]. pose proof (ti_wf _ _ _ _ Ti) as W.
    destruct (wf_d _ _ _ _ W _ _ _ _ Hn Hl) as (xc & Hxc & _ & Dx & _). pose proof Hc as (xc' & Hxc' & Hlo). rewrite Hxc in Hxc'. injection Hxc' as <-.
    destruct (wf_c _ _ _ _ W _ _ _ _ Hxc Hlo) as (nd & Hnd & _ & Dd & _). split.
    - econstructor; [exact Hi|exact Hc|exact Hnd|exact Hn|lia|exact L].
    - exists nd. split; auto. replace (ddepth nd) with (ddepth n + 1)%Z by lia. exact B. }
  destruct H; cbn [base mem ths etrace cxs] in *.
  - (* start *)
    apply (Gen t TIdle (TSel 0 false [] []) (cx0 G) [EStart]); auto. intros cx _. cbn [base etrace mem trial map app].
    rewrite Nat.eqb_refl. split; [intros d a c [Q|[]]; discriminate|]. cbn. pose proof I' as [[Ti _] _ _ _ _].
    destruct (wf_root _ _ _ _ (ti_wf _ _ _ _ Ti)) as (n & Hn & _ & Dn & _). split; [econstructor; eauto|]. exists n. split; auto. apply below_nil.
  - eapply (Sel t cur flag nodes rewards n a c x cx cx1 g1 []); eauto; try (intros ? []).
    + exists (visit_d n). cbn [dh]. split; [eapply nth_upd_eq; eauto|auto].
    + intros ? ? ? [].
  - eapply (Sel t cur flag nodes rewards n a c x cx cx1 g1 [ENewC c]); eauto; cbn.
    + exists (add_dkid (visit_d n) a c). cbn [dh]. split; [eapply nth_upd_eq; eauto|]. cbn [add_dkid dkids visit_d]. now apply lookup_snoc_eq.
    + intros ? ? ? [Q|[]]. discriminate.
    + intros e [<-|[]]. discriminate.
  - eapply (Keep t _ (TSel d flag ((cur, c) :: nodes) (rwd C (dstate dn) a o :: rewards)) cx cx1 [EVisitC c o d false]); eauto.
    + intros e [<-|[]]. discriminate.
    + intros ? ? ? [Q|[]]. discriminate.
    + intros Q. cbn [rev app]. apply (Down cur a c flag nodes rewards o d); auto; [intros ? ? ? [Q'|[]]; discriminate|]. cbn [base mem].
      exists (visit_c n). cbn [ch]. split; [eapply nth_upd_eq; eauto|auto].
  - eapply (Keep t _ (TSel d true ((cur, c) :: nodes) (rwd C (dstate dn) a o :: rewards)) cx cx1 [EVisitC c o d true]); eauto.
    + intros e [<-|[]]. discriminate.
    + intros ? ? ? [Q|[]]. discriminate.
    + intros Q. cbn [rev app]. apply (Down cur a c flag nodes rewards o d); auto; [intros ? ? ? [Q'|[]]; discriminate|]. cbn [base mem].
      exists (add_ckid (visit_c n) o d). cbn [ch]. split; [eapply nth_upd_eq; eauto|]. cbn [add_ckid ckids visit_c]. now apply lookup_snoc_eq.
  - eapply (Keep t _ (TSel d true ((cur, c) :: nodes) (rwd C (dstate dn) a o :: rewards)) cx cx1 [ENewD d; EVisitC c o d true]); eauto.
    + intros e [<-|[<-|[]]]; discriminate.
    + intros ? ? ? [Q|[Q|[]]]; discriminate.
    + intros Q. cbn [rev app]. apply (Down cur a c flag nodes rewards o d); auto; [intros ? ? ? [Q'|[Q'|[]]]; discriminate|]. cbn [base mem].
      exists (add_ckid (visit_c n) o d). cbn [ch]. split; [eapply nth_upd_eq; eauto|]. cbn [add_ckid ckids visit_c]. now apply lookup_snoc_eq.
  - eapply (Keep t _ (TBack nodes rewards [dheur n] (dheur n) (sumR (rev (dheur n :: rewards)))) cx (fin G cx) [EFinal cur (dheur n)]); eauto.
    + intros e [<-|[]]. discriminate.
    + intros ? ? ? [Q|[]]. discriminate.
    + intros (L & _). exists cur. eapply linked_mono; eauto.
  - eapply (Keep t _ (TBackD d nodes before (r :: after) (tafter + r)%R total) cx (fin G cx) [EBackC c (rev before) (rev (r :: after)) (tafter + r)%R total]); eauto.
    + intros e [<-|[]]. discriminate.
    + intros ? ? ? [Q|[]]. discriminate.
    + intros (cur & L). inversion L; subst. split; [eapply linked_mono; eauto|]. eexists _, c. apply in_or_app. left. eauto.
  - eapply (Keep t _ (TBack nodes before after tafter total) cx (fin G cx) [EBackD d (rev before) (rev after) tafter total]); eauto.
    + intros e [<-|[]]. discriminate.
    + intros ? ? ? [Q|[]]. discriminate.
    + intros (L & _). exists d. eapply linked_mono; eauto.
  - eapply (Keep t _ (TBack ((d, c) :: nodes) (r :: before) after tafter total) cx cx1 []); eauto.
    + cbn [base]. symmetry. now apply upd_self.
    + intros ? ? ? [].
    + cbn [rev base]. rewrite app_nil_r. auto.
  - eapply (Keep t _ (TBackD d nodes before after tafter total) cx cx1 []); eauto.
    + cbn [base]. symmetry. now apply upd_self.
    + intros ? ? ? [].
    + cbn [rev base]. rewrite app_nil_r. auto.
  - eapply (Keep t _ TIdle cx cx [EDone]); eauto.
    + intros e [<-|[]]. discriminate.
    + intros ? ? ? [Q|[]]. discriminate.
    + intros _. exact Logic.I.
  - exact T.
Qed.

Lemma trail_reach : forall s, areach s -> trail s.
Proof using All.
  apply areach_ind'; auto.
  - intros t th cx Q _. cbn in Q. assert (th = TIdle) by (eapply repeat_spec, nth_error_In; eauto). subst th. cbn.
    split; [intros ? ? ? []|exact Logic.I].
  - intros. eapply trail_step; eauto.
Qed.
End Trail.
