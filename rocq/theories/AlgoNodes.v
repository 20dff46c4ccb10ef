(** Invariants of single nodes and of contexts in searches. *)
From Coq Require Import List ZArith Bool Reals Lia.
From Verif Require Import Base BaseProofs NumOps HelperModel EngineModel EngineSpec EngineProofs EngineInv MapModel MapProofs
  AlgoModel AlgoProofs.
Import ListNotations.

Section Nodes.
Context {S A : Type}.
Variable seqb : S -> S -> bool.
Variable aeqb : A -> A -> bool.
Hypothesis seqb_ok : decides seqb.
Hypothesis aeqb_ok : decides aeqb.
Variable C : @econf S A.
Variable G : @algo S A.
Notation dnode := (@dnode S A).
Notation cnode := (@cnode S A).

(** Facts about the nodes that a node sees as its children. *)
Definition dkid (n : dnode) (a : A) (c : cnode) : Prop :=
  cstate c = dstate n /\ cdepth c = ddepth n /\ ctime c = dtime n /\ cact c = a /\ In a (acts C (dstate n)).
Definition ckid (n : cnode) (o : S) (d : dnode) : Prop :=
  dstate d = o /\ ddepth d = (cdepth n + 1)%Z /\ dtime d = (ctime n + 1)%Z /\ In o (succs C (cstate n) (cact n)).
Definition inner (n : dnode) : Prop :=
  is_sink C (dstate n) = false /\ (0 <= ddepth n < max_depth C)%Z /\ dtime n = (root_time C + ddepth n)%Z.
Definition innerc (n : cnode) : Prop :=
  is_sink C (cstate n) = false /\ (0 <= cdepth n < max_depth C)%Z /\ In (cact n) (acts C (cstate n)) /\
  ctime n = (root_time C + cdepth n)%Z.

Variable PD : dnode -> XD G -> Prop.
Variable PC : cnode -> XC G -> Prop.
(** [PX l cx]: the context holds what the selections of the actions [l] (the latest first) left behind. *)
Variable PX : list A -> CX G -> Prop.
Variable QC : cnode -> XC G -> Prop.     (* has been backed up *)

Definition dkids_ok (n : dnode) (kids : list (A * (cnode * XC G))) : Prop :=
  NoDup (map fst kids) /\ forall a c y, In (a, (c, y)) kids -> dkid n a c /\ PC c y.
Definition ckids_ok (n : cnode) (kids : list (S * (dnode * XD G))) : Prop :=
  NoDup (map fst kids) /\ forall o d y, In (o, (d, y)) kids -> ckid n o d /\ PD d y.

(** Earlier looks of a backup. *)
Definition sees_d (n : dnode) (a : A) (cx : CX G) : Prop := forall v, In v (seen_d G cx) ->
  dkids_ok n v /\ exists c y, In (a, (c, y)) v /\ QC c y.
Definition sees_c (n : cnode) (cx : CX G) : Prop := forall v, In v (seen_c G cx) -> ckids_ok n v.

Record node_rules : Prop := mkRules {
  P_root : PD (new_dnode C (root_state C) 0 (root_time C)) (new_xd G (new_dnode C (root_state C) 0 (root_time C)));
  P_newd : forall c o, innerc c -> In o (succs C (cstate c) (cact c)) ->
     PD (new_dnode C o (cdepth c + 1) (ctime c + 1)) (new_xd G (new_dnode C o (cdepth c + 1) (ctime c + 1)));
  P_newc : forall n a, inner n -> In a (acts C (dstate n)) ->
     PC (new_cnode (dstate n) a (ddepth n) (dtime n)) (new_xc G (new_cnode (dstate n) a (ddepth n) (dtime n)));
  P_visd : forall n x, PD n x -> PD (visit_d n) (vis_d G (is_leaf C n) x);
  P_addd : forall n x a c, PD n x -> PD (add_dkid n a c) x;
  P_visc : forall n x, PC n x -> PC (visit_c n) x;
  P_addc : forall n x o d, PC n x -> PC (add_ckid n o d) x;
  P_backd : forall n x kids cx b x1 l a l', inner n -> PD n x -> dkids_ok n kids ->
     PX (l' ++ a :: l) cx -> ddepth n = Z.of_nat (length l) -> (exists c y, In (a, (c, y)) kids /\ QC c y) ->
     sees_d n a cx -> back_d G n x kids cx b = Ok x1 -> PD n x1;
  P_backc : forall n x kids cx b x1, innerc n -> PC n x -> ckids_ok n kids ->
     sees_c n cx -> back_c G n x kids cx b = Ok x1 -> PC n x1 /\ QC n x1;
  Q_visc : forall n x, QC n x -> QC (visit_c n) x;
  Q_addc : forall n x o d, QC n x -> QC (add_ckid n o d) x;
  P_cx0 : PX [] (cx0 G);
  P_sel : forall n x kids cx g a cx1 g1 l, inner n -> PD n x -> dkids_ok n kids -> PX l cx ->
     ddepth n = Z.of_nat (length l) ->
     select G (visit_d n) (vis_d G (is_leaf C n) x) kids cx g = Ok (a, cx1, g1) -> PX (a :: l) cx1;
  P_sam : forall n x cx g o cx1 g1 l, innerc n -> PC (visit_c n) x -> PX l cx ->
     sample G (visit_c n) x cx g = Ok (o, cx1, g1) -> PX l cx1;
  P_peekd : forall kids cx cx1 l, PX l cx -> peek_d G kids cx = Some cx1 -> PX l cx1;
  P_peekc : forall kids cx cx1 l, PX l cx -> peek_c G kids cx = Some cx1 -> PX l cx1;
  P_fin : forall cx l, PX l cx -> PX l (fin G cx)
}.

(** The nodes of a trial with the actions taken, the latest first. *)
Inductive acts_of (m : @store S A) : list (nat * nat) -> list A -> Prop :=
| ao_nil : acts_of m [] []
| ao_cons : forall d c nodes a l n, dchild aeqb m d a c -> nth_error (dh m) d = Some n ->
    ddepth n = Z.of_nat (length l) -> acts_of m nodes l -> acts_of m ((d, c) :: nodes) (a :: l).
Definition depth_of (m : @store S A) (d : nat) (k : nat) : Prop :=
  exists n, nth_error (dh m) d = Some n /\ ddepth n = Z.of_nat k.

Definition thread_ok (s : ast G) (x : @tstate A) (cx : CX G) : Prop :=
  match x with
  | TIdle | TBad => True
  | TSel cur _ nodes _ => exists l, acts_of (mem (base s)) nodes l /\ depth_of (mem (base s)) cur (length l) /\ PX l cx
  | TChance cur a c _ nodes _ => exists l, acts_of (mem (base s)) ((cur, c) :: nodes) (a :: l) /\ PX (a :: l) cx
  | TBack nodes _ _ _ _ => exists l l', acts_of (mem (base s)) nodes l /\ PX (l' ++ l) cx /\
      match nodes with
      | (_, c) :: _ => forall n, nth_error (ch (mem (base s))) c = Some n -> sees_c n cx
      | [] => True
      end
  | TBackD d nodes _ _ _ _ => exists l a l', acts_of (mem (base s)) nodes l /\ PX (l' ++ a :: l) cx /\
      depth_of (mem (base s)) d (length l) /\
      exists c n y, dchild aeqb (mem (base s)) d a c /\ nth_error (ch (mem (base s))) c = Some n /\
        nth_error (xcs s) c = Some y /\ QC n y /\
        forall m, nth_error (dh (mem (base s))) d = Some m -> sees_d m a cx
  end.

Record nodes_ok (s : ast G) : Prop := mkNo {
  no_d : forall d n x, nth_error (dh (mem (base s))) d = Some n -> nth_error (xds s) d = Some x -> PD n x;
  no_c : forall c n x, nth_error (ch (mem (base s))) c = Some n -> nth_error (xcs s) c = Some x -> PC n x;
  no_t : forall t x cx, nth_error (ths (base s)) t = Some x -> nth_error (cxs s) t = Some cx -> thread_ok s x cx
}.

Hypothesis Rules : node_rules.

Lemma sees_d_same : forall n n' a cx, dstate n' = dstate n -> ddepth n' = ddepth n -> dtime n' = dtime n -> sees_d n a cx -> sees_d n' a cx.
Proof using Type.
  intros n n' a cx E1 E2 E3 H v Hv. destruct (H v Hv) as [[H1 H2] H3]. split; auto. split; auto.
  intros a0 c y Q. unfold dkid. rewrite E1, E2, E3. exact (H2 a0 c y Q).
Qed.
Lemma sees_c_same : forall n n' cx, cstate n' = cstate n -> cact n' = cact n -> cdepth n' = cdepth n -> ctime n' = ctime n -> sees_c n cx -> sees_c n' cx.
Proof using Type.
  intros n n' cx E1 E2 E3 E4 H v Hv. destruct (H v Hv) as [H1 H2]. split; auto.
  intros a0 c y Q. unfold ckid. rewrite E1, E2, E3, E4. exact (H2 a0 c y Q).
Qed.
Lemma sees_d_fin : forall n a cx, sees_d n a (fin G cx).
Proof using Type. intros n a cx v Hv. rewrite (proj1 (fin_sees G cx)) in Hv. destruct Hv. Qed.
Lemma sees_c_fin : forall n cx, sees_c n (fin G cx).
Proof using Type. intros n cx v Hv. rewrite (proj2 (fin_sees G cx)) in Hv. destruct Hv. Qed.

Lemma edge_inner : forall s d a c n, agood seqb aeqb C G s -> dchild aeqb (mem (base s)) d a c ->
  nth_error (dh (mem (base s))) d = Some n -> inner n.
Proof using aeqb_ok.
  intros s d a c n I (n' & Hn' & Hl) Hn. rewrite Hn in Hn'. injection Hn' as <-.
  pose proof I as [[Ti _] _ _ _ _]. destruct (wf_d _ _ _ _ (ti_wf _ _ _ _ Ti) _ _ _ _ Hn Hl) as (x & Hx & _ & _ & _ & _ & _ & NS).
  destruct (ti_time _ _ _ _ Ti _ _ Hn). unfold inner, must_stop in *.
  destruct (is_sink C (dstate n)); [tauto|]. split; auto. split; [lia|auto].
Qed.
Lemma cont_inner : forall s d n flag, agood seqb aeqb C G s -> nth_error (dh (mem (base s))) d = Some n ->
  should_continue C n flag = true -> inner n.
Proof using Type.
  intros s d n flag I Hn Hc. pose proof I as [[Ti _] _ _ _ _]. destruct (continue_not_stop C _ _ Hc) as [NS _].
  destruct (ti_time _ _ _ _ Ti _ _ Hn). unfold inner, must_stop in *.
  destruct (is_sink C (dstate n)); [tauto|]. split; auto. split; [lia|auto].
Qed.
Lemma chance_inner : forall s c n, agood seqb aeqb C G s -> nth_error (ch (mem (base s))) c = Some n -> innerc n.
Proof using Type.
  intros s c n I Hn. pose proof I as [[Ti _] _ _ _ _]. destruct (ti_cstop _ _ _ _ Ti _ _ Hn) as (K1 & K2 & (K3 & K4) & K5).
  repeat split; auto.
Qed.

Lemma dview_kids : forall s d n, agood seqb aeqb C G s -> nodes_ok s -> nth_error (dh (mem (base s))) d = Some n ->
  dkids_ok n (dview s n).
Proof using aeqb_ok.
  intros s d n I N Hn. pose proof I as [[Ti _] _ _ _ _]. pose proof (ti_wf _ _ _ _ Ti) as W.
  pose proof (dview_ok seqb aeqb aeqb_ok C G s d n I Hn) as F. split.
  - pose proof (dview_keys seqb aeqb aeqb_ok C G s d n I Hn) as K. pose proof (wf_dkeys _ _ _ _ W _ _ Hn) as ND.
    rewrite <- K in ND. exact ND.
  - intros a c y Q.
    assert (H : exists i, In (a, i) (dkids n) /\ nth_error (ch (mem (base s))) i = Some c /\ nth_error (xcs s) i = Some y).
    { revert Q. clear - F. induction F as [|p q l l' (H1 & H2 & H3) F IH]; intros E; [destruct E|]. destruct E as [->|E].
      - cbn in *. exists (snd p). split; [left; destruct p; cbn in *; congruence|auto].
      - destruct (IH E) as (i & Hi & R). exists i. split; [now right|auto]. }
    destruct H as (i & Hi & Hc & Hy). split; [|eapply no_c; eauto].
    assert (Hl : lookup aeqb a (dkids n) = Some i) by (apply in_lookup; auto; eapply wf_dkeys; eauto).
    destruct (wf_d _ _ _ _ W _ _ _ _ Hn Hl) as (x & Hx & K1 & K2 & K3 & K4 & K5 & _). rewrite Hc in Hx. injection Hx as <-.
    unfold dkid. auto.
Qed.
Lemma cview_kids : forall s c n, agood seqb aeqb C G s -> nodes_ok s -> nth_error (ch (mem (base s))) c = Some n ->
  ckids_ok n (cview s n).
Proof using seqb_ok.
  intros s c n I N Hn. pose proof I as [[Ti _] _ _ _ _]. pose proof (ti_wf _ _ _ _ Ti) as W.
  pose proof (cview_ok seqb aeqb seqb_ok C G s c n I Hn) as F. split.
  - pose proof (cview_keys seqb aeqb seqb_ok C G s c n I Hn) as K. pose proof (wf_ckeys _ _ _ _ W _ _ Hn) as ND.
    rewrite <- K in ND. exact ND.
  - intros o d y Q.
    assert (H : exists i, In (o, i) (ckids n) /\ nth_error (dh (mem (base s))) i = Some d /\ nth_error (xds s) i = Some y).
    { revert Q. clear - F. induction F as [|p q l l' (H1 & H2 & H3) F IH]; intros E; [destruct E|]. destruct E as [->|E].
      - cbn in *. exists (snd p). split; [left; destruct p; cbn in *; congruence|auto].
      - destruct (IH E) as (i & Hi & R). exists i. split; [now right|auto]. }
    destruct H as (i & Hi & Hc & Hy). split; [|eapply no_d; eauto].
    assert (Hl : lookup seqb o (ckids n) = Some i) by (apply in_lookup; auto; eapply wf_ckeys; eauto).
    destruct (wf_c _ _ _ _ W _ _ _ _ Hn Hl) as (x & Hx & K1 & K2 & K3 & K4). rewrite Hc in Hx. injection Hx as <-.
    unfold ckid. auto.
Qed.
(** A child seen through the map, for an edge. *)
Lemma dview_has : forall s d n a c x y, nth_error (dh (mem (base s))) d = Some n ->
  dchild aeqb (mem (base s)) d a c -> nth_error (ch (mem (base s))) c = Some x -> nth_error (xcs s) c = Some y ->
  In (a, (x, y)) (dview (G:=G) s n).
Proof using aeqb_ok.
  intros s d n a c x y Hn (n' & Hn' & Hl) Hx Hy. rewrite Hn in Hn'. injection Hn' as <-.
  apply lookup_in in Hl; auto. unfold dview. apply in_flat_map. exists (a, c). split; auto. cbn. rewrite Hx, Hy. now left.
Qed.

Lemma acts_of_mono : forall m m' nodes l, extends_tree seqb aeqb m m' -> acts_of m nodes l -> acts_of m' nodes l.
Proof.
  intros m m' nodes l X H. induction H as [|d c nodes a l n H Hn E _ IH]; [constructor|].
  destruct (xt_d _ _ _ _ X _ _ Hn) as (n' & Hn' & _ & Ed & _). econstructor; eauto; [now apply (xt_dchild _ _ _ _ X)|congruence].
Qed.
Lemma depth_of_mono : forall m m' d k, extends_tree seqb aeqb m m' -> depth_of m d k -> depth_of m' d k.
Proof.
  intros m m' d k X (n & Hn & E). destruct (xt_d _ _ _ _ X _ _ Hn) as (n' & Hn' & _ & Ed & _). exists n'. split; auto. congruence.
Qed.
Lemma acts_of_len : forall m nodes l, acts_of m nodes l -> length nodes = length l.
Proof. intros m nodes l H. induction H; cbn; auto. Qed.

Lemma thread_mono : forall (s s' : ast G) x cx, extends_tree seqb aeqb (mem (base s)) (mem (base s')) ->
  (forall d n a c, nth_error (dh (mem (base s))) d = Some n -> lookup aeqb a (dkids n) = Some c ->
     exists m, nth_error (ch (mem (base s))) c = Some m) ->
  (forall c n y, nth_error (ch (mem (base s))) c = Some n -> nth_error (xcs s) c = Some y -> QC n y ->
     exists n' y', nth_error (ch (mem (base s'))) c = Some n' /\ nth_error (xcs s') c = Some y' /\ QC n' y') ->
  thread_ok s x cx -> thread_ok s' x cx.
Proof using Type.
  intros s s' x cx X Cex K H. destruct x; cbn in *; auto.
  - destruct H as (l & H1 & H2 & H3). exists l. eauto using acts_of_mono, depth_of_mono.
  - destruct H as (l & H1 & H2). exists l. eauto using acts_of_mono.
  - destruct H as (l & l' & H1 & H2 & H3). exists l, l'. split; [eauto using acts_of_mono|]. split; auto.
    destruct nodes as [|[d c] nodes]; auto. intros n' Hn'. inversion H1 as [|? ? ? a k nd Hc Hnd Ed Hr]; subst.
    destruct (nth_error (ch (mem (base s))) c) as [n|] eqn:En.
    + destruct (xt_c _ _ _ _ X _ _ En) as (n2 & Hn2 & E1 & E2 & E3 & E4 & _). rewrite Hn' in Hn2. injection Hn2 as <-.
      eapply sees_c_same; eauto.
    + exfalso. destruct Hc as (nd' & Hnd' & Hl). destruct (Cex _ _ _ _ Hnd' Hl) as (? & Q). congruence.
  - destruct H as (l & a & l' & H1 & H2 & H3 & c & n & y & Q & Q1 & Q2 & Q3 & Q4). exists l, a, l'.
    split; [eauto using acts_of_mono|]. split; auto. split; [eauto using depth_of_mono|].
    destruct (K _ _ _ Q1 Q2 Q3) as (n' & y' & P1 & P2 & P3). exists c, n', y'. split; [now apply (xt_dchild _ _ _ _ X)|]. split; auto. split; auto. split; auto.
    intros m' Hm'. destruct H3 as (m & Hm & _). destruct (xt_d _ _ _ _ X _ _ Hm) as (m2 & Hm2 & E1 & E2 & E3 & _). rewrite Hm' in Hm2. injection Hm2 as <-.
    eapply sees_d_same; eauto.
Qed.

Lemma nodes_step : forall s s', agood seqb aeqb C G s -> nodes_ok s -> atr seqb aeqb C G s s' -> nodes_ok s'.
Proof using All.
  intros s s' I N T. pose proof I as [Gd Ps Ld Lc Lt]. pose proof Gd as [Ti _].
  pose proof (agood_atr seqb aeqb seqb_ok aeqb_ok C G _ _ I T) as I'.
  assert (X : extends_tree seqb aeqb (mem (base s)) (mem (base s'))).
  { destruct (atr_gstep seqb aeqb C G _ _ T) as [->|Q].
    - constructor; auto; intros; eexists; repeat split; eauto; lia.
    - apply (mstep_ext _ _ C). now apply gstep_mstep. }
  (* the parts that do not depend on the step *)
  assert (UpD : forall i n0 n' x0 x', nth_error (dh (mem (base s))) i = Some n0 -> nth_error (xds s) i = Some x0 -> PD n' x' ->
    forall d n x, nth_error (upd (dh (mem (base s))) i n') d = Some n -> nth_error (upd (xds s) i x') d = Some x -> PD n x).
  { intros i n0 n' x0 x' H1 H2 P d n x Q1 Q2. rewrite (nth_upd _ _ _ _ _ _ H1) in Q1. rewrite (nth_upd _ _ _ _ _ _ H2) in Q2.
    destruct (Nat.eqb i d); [injection Q1 as <-; injection Q2 as <-; auto|eapply no_d; eauto]. }
  assert (UpDx : forall i n0 x0 x', nth_error (dh (mem (base s))) i = Some n0 -> nth_error (xds s) i = Some x0 -> PD n0 x' ->
    forall d n x, nth_error (dh (mem (base s))) d = Some n -> nth_error (upd (xds s) i x') d = Some x -> PD n x).
  { intros i n0 x0 x' H1 H2 P d n x Q1 Q2. rewrite (nth_upd _ _ _ _ _ _ H2) in Q2.
    destruct (Nat.eqb_spec i d) as [->|]; [injection Q2 as <-; congruence|eapply no_d; eauto]. }
  assert (UpC : forall i n0 n', nth_error (ch (mem (base s))) i = Some n0 -> (forall x, PC n0 x -> PC n' x) ->
    forall d n x, nth_error (upd (ch (mem (base s))) i n') d = Some n -> nth_error (xcs s) d = Some x -> PC n x).
  { intros i n0 n' H1 P d n x Q1 Q2. rewrite (nth_upd _ _ _ _ _ _ H1) in Q1.
    destruct (Nat.eqb_spec i d) as [->|]; [injection Q1 as <-; apply P|]; eapply no_c; eauto. }
  assert (Cex : forall d n a c, nth_error (dh (mem (base s))) d = Some n -> lookup aeqb a (dkids n) = Some c ->
     exists m, nth_error (ch (mem (base s))) c = Some m).
  { intros d n a c Hn Hl. destruct (wf_d _ _ _ _ (ti_wf _ _ _ _ Ti) _ _ _ _ Hn Hl) as (m & Hm & _). eauto. }
  assert (KeepQ : forall s2 : ast G, ch (mem (base s2)) = ch (mem (base s)) -> xcs s2 = xcs s ->
    forall c n y, nth_error (ch (mem (base s))) c = Some n -> nth_error (xcs s) c = Some y -> QC n y ->
     exists n' y', nth_error (ch (mem (base s2))) c = Some n' /\ nth_error (xcs s2) c = Some y' /\ QC n' y').
  { intros s2 E1 E2 c n y Q1 Q2 Q3. rewrite E1, E2. eauto. }
  assert (UpT : forall s2 : ast G, extends_tree seqb aeqb (mem (base s)) (mem (base s2)) ->
    (forall c n y, nth_error (ch (mem (base s))) c = Some n -> nth_error (xcs s) c = Some y -> QC n y ->
     exists n' y', nth_error (ch (mem (base s2))) c = Some n' /\ nth_error (xcs s2) c = Some y' /\ QC n' y') ->
    forall t0 x0 x' cx', nth_error (ths (base s)) t0 = Some x0 -> ths (base s2) = upd (ths (base s)) t0 x' ->
    cxs s2 = upd (cxs s) t0 cx' -> thread_ok s2 x' cx' ->
    forall t x cx, nth_error (ths (base s2)) t = Some x -> nth_error (cxs s2) t = Some cx -> thread_ok s2 x cx).
  { intros s2 X2 K t0 x0 x' cx' H E E' P t x cx Q Q'.
    assert (Hcx : exists cx0, nth_error (cxs s) t0 = Some cx0).
    { destruct (nth_error (cxs s) t0) eqn:E0; eauto. apply nth_error_None in E0.
      assert (t0 < length (ths (base s)))%nat by (apply nth_error_Some; congruence). lia. }
    destruct Hcx as (cx0 & Hcx). rewrite E, (nth_upd _ _ _ _ _ _ H) in Q. rewrite E', (nth_upd _ _ _ _ _ _ Hcx) in Q'.
    destruct (Nat.eqb t0 t); [injection Q as <-; injection Q' as <-; auto|]. eapply (thread_mono s); eauto. eapply no_t; eauto. }
  (* going down to a child of a chance node *)
  assert (Down : forall t cur a c flag nodes rewards cx n o d m2,
    nth_error (ths (base s)) t = Some (TChance cur a c flag nodes rewards) -> nth_error (cxs s) t = Some cx ->
    nth_error (ch (mem (base s))) c = Some n -> m2 = mem (base s') ->
    (exists n2, nth_error (ch m2) c = Some n2 /\ lookup seqb o (ckids n2) = Some d) ->
    exists l, acts_of (mem (base s)) nodes l /\ acts_of m2 ((cur, c) :: nodes) (a :: l) /\ depth_of m2 d (length (a :: l)) /\ PX (a :: l) cx).
  { intros t cur a c flag nodes rewards cx n o d m2 Ht Hcx Hn -> (n2 & Hn2 & Hl).
    pose proof (no_t _ N _ _ _ Ht Hcx) as Q. cbn in Q. destruct Q as (l & Q1 & Q2). exists l.
    pose proof (acts_of_mono _ _ _ _ X Q1) as Q3. inversion Q1; subst. split; auto. split; auto. split; auto.
    inversion Q3 as [|? ? ? ? ? dn' Hch Hdn' Ed _]; subst.
    pose proof I' as [[Ti' _] _ _ _ _]. destruct Hch as (dn & Hdn & Hla). rewrite Hdn' in Hdn. injection Hdn as ->.
    destruct (wf_d _ _ _ _ (ti_wf _ _ _ _ Ti') _ _ _ _ Hdn' Hla) as (x & Hx & _ & Kx & _).
    rewrite Hn2 in Hx. injection Hx as <-.
    destruct (wf_c _ _ _ _ (ti_wf _ _ _ _ Ti') _ _ _ _ Hn2 Hl) as (y & Hy & _ & Ky & _).
    exists y. split; auto. cbn [length]. lia. }
  assert (Wait : forall t0 cx1, (forall x, nth_error (ths (base s)) t0 = Some x -> thread_ok s x cx1) ->
    nodes_ok (mkA (base s) (xds s) (xcs s) (upd (cxs s) t0 cx1) (rg s) None)).
  { intros t0 cx1 P. constructor; cbn [base xds xcs cxs]; try apply N. intros t x cx Q Q'.
    change (thread_ok s x cx). destruct (Nat.eq_dec t t0) as [->|ne].
    - destruct (nth_error (cxs s) t0) as [cx0|] eqn:E0.
      + rewrite (nth_upd_eq _ _ _ _ _ E0) in Q'. injection Q' as <-. auto.
      + apply nth_error_None in E0. assert (t0 < length (ths (base s)))%nat by (apply nth_error_Some; congruence). lia.
    - rewrite nth_upd_ne in Q' by auto. eapply no_t; eauto. }
  destruct T.
  - (* start *) constructor; cbn [base mem dh ch xds xcs]; try apply N.
    refine (UpT _ X (KeepQ _ eq_refl eq_refl) _ _ _ _ H eq_refl eq_refl _). exists []. cbn [base mem length]. split; [constructor|].
    split; [|apply Rules]. destruct (wf_root _ _ _ _ (ti_wf _ _ _ _ Ti)) as (r & Hr & _ & E & _). exists r. auto.
  - (* select, old child *)
    assert (P1 : PD (visit_d n) (vis_d G (is_leaf C n) x)) by (apply Rules; eapply no_d; eauto).
    assert (In1 : inner n) by (exact (cont_inner s _ _ _ I H0 H3)).
    constructor; cbn [base mem dh ch xds xcs].
    + eapply UpD; eauto.
    + apply N.
    + refine (UpT _ X (KeepQ _ eq_refl eq_refl) _ _ _ _ H eq_refl eq_refl _).
      pose proof (no_t _ N _ _ _ H H2) as Q. cbn in Q. destruct Q as (l & Q1 & (n' & Hn' & Ed) & Q3).
      rewrite H0 in Hn'. injection Hn' as <-. exists l. split.
      * econstructor; [|eapply nth_upd_eq; exact H0|exact Ed|exact (acts_of_mono _ _ _ _ X Q1)].
        apply (xt_dchild _ _ _ _ X). exists n. auto.
      * refine (P_sel Rules n _ (dview s n) cx _ _ _ _ _ In1 (no_d _ N _ _ _ H0 H1) _ Q3 Ed H4). exact (dview_kids s _ _ I N H0).
  - (* select, new child *)
    assert (P1 : PD (visit_d n) (vis_d G (is_leaf C n) x)) by (apply Rules; eapply no_d; eauto).
    assert (In1 : inner n) by (exact (cont_inner s _ _ _ I H0 H3)).
    constructor; cbn [base mem dh ch xds xcs].
    + eapply UpD; eauto. now apply Rules.
    + intros c0 n0 x0 Q1 Q2. apply nth_snoc in Q1. apply nth_snoc in Q2.
      destruct Q1 as [Q1|[Q1 ->]]; destruct Q2 as [Q2|[Q2 ->]].
      * eapply no_c; eauto.
      * exfalso. assert (c0 < length (ch (mem (base s))))%nat by (apply nth_error_Some; congruence). lia.
      * exfalso. assert (c0 < length (xcs s))%nat by (apply nth_error_Some; congruence). lia.
      * now apply Rules.
    + refine (UpT _ X _ _ _ _ _ H eq_refl eq_refl _).
      * cbn [base mem ch xcs]. intros c0 n0 y Q1 Q2 Q3. exists n0, y. rewrite !nth_error_app1; auto; apply nth_error_Some; congruence.
      * pose proof (no_t _ N _ _ _ H H2) as Q. cbn in Q. destruct Q as (l & Q1 & (n' & Hn' & Ed) & Q3).
        rewrite H0 in Hn'. injection Hn' as <-. exists l. split.
        -- econstructor; [|eapply nth_upd_eq; exact H0|exact Ed|exact (acts_of_mono _ _ _ _ X Q1)].
           exists (add_dkid (visit_d n) a c). cbn [base mem dh fst snd]. split; [eapply nth_upd_eq; eauto|].
           cbn [add_dkid dkids visit_d]. now apply lookup_snoc_eq.
        -- refine (P_sel Rules n _ (dview s n) cx _ _ _ _ _ In1 (no_d _ N _ _ _ H0 H1) _ Q3 Ed H4). exact (dview_kids s _ _ I N H0).
  - (* sample, old child *)
    assert (In1 : innerc n) by (exact (chance_inner s _ _ I H0)).
    constructor; cbn [base mem dh ch xds xcs].
    + apply N.
    + eapply UpC; eauto. intros; now apply Rules.
    + refine (UpT _ X _ _ _ _ _ H eq_refl eq_refl _).
      * cbn [base mem ch xcs]. intros c0 n0 y Q1 Q2 Q3. rewrite (nth_upd _ _ _ _ _ _ H0).
        destruct (Nat.eqb_spec c c0) as [->|]; [|eauto]. exists (visit_c n), y. repeat split; auto. apply Rules.
        rewrite H0 in Q1. now injection Q1 as ->.
      * edestruct (Down _ _ _ _ _ _ _ _ n o d _ H H3 H0 eq_refl) as (l & _ & Q2 & Q3 & Q4).
        { cbn [base mem ch]. exists (visit_c n). split; [eapply nth_upd_eq; eauto|auto]. }
        exists (a :: l). split; [exact Q2|]. split; [exact Q3|].
        eapply (P_sam Rules n); eauto. apply Rules. eapply no_c; eauto.
  - (* sample, shared child *)
    assert (In1 : innerc n) by (exact (chance_inner s _ _ I H0)).
    constructor; cbn [base mem dh ch xds xcs].
    + apply N.
    + eapply UpC; eauto. intros; now apply Rules, Rules.
    + refine (UpT _ X _ _ _ _ _ H eq_refl eq_refl _).
      * cbn [base mem ch xcs]. intros c0 n0 y Q1 Q2 Q3. rewrite (nth_upd _ _ _ _ _ _ H0).
        destruct (Nat.eqb_spec c c0) as [->|]; [|eauto]. exists (add_ckid (visit_c n) o d), y. repeat split; auto. apply Rules, Rules.
        rewrite H0 in Q1. now injection Q1 as ->.
      * edestruct (Down _ _ _ _ _ _ _ _ n o d _ H H3 H0 eq_refl) as (l & _ & Q2 & Q3 & Q4).
        { cbn [base mem ch]. exists (add_ckid (visit_c n) o d). split; [eapply nth_upd_eq; eauto|].
          cbn [add_ckid ckids visit_c]. now apply lookup_snoc_eq. }
        exists (a :: l). split; [exact Q2|]. split; [exact Q3|].
        eapply (P_sam Rules n); eauto. apply Rules. eapply no_c; eauto.
  - (* sample, new child *)
    assert (In1 : innerc n) by (exact (chance_inner s _ _ I H0)).
    constructor; cbn [base mem dh ch xds xcs].
    + intros c0 n0 x0 Q1 Q2. apply nth_snoc in Q1. apply nth_snoc in Q2.
      destruct Q1 as [Q1|[Q1 ->]]; destruct Q2 as [Q2|[Q2 ->]].
      * eapply no_d; eauto.
      * exfalso. assert (c0 < length (dh (mem (base s))))%nat by (apply nth_error_Some; congruence). lia.
      * exfalso. assert (c0 < length (xds s))%nat by (apply nth_error_Some; congruence). lia.
      * now apply Rules.
    + eapply UpC; eauto. intros; now apply Rules, Rules.
    + refine (UpT _ X _ _ _ _ _ H eq_refl eq_refl _).
      * cbn [base mem ch xcs]. intros c0 n0 y Q1 Q2 Q3. rewrite (nth_upd _ _ _ _ _ _ H0).
        destruct (Nat.eqb_spec c c0) as [->|]; [|eauto]. exists (add_ckid (visit_c n) o d), y. repeat split; auto. apply Rules, Rules.
        rewrite H0 in Q1. now injection Q1 as ->.
      * edestruct (Down _ _ _ _ _ _ _ _ n o d _ H H3 H0 eq_refl) as (l & _ & Q2 & Q3 & Q4).
        { cbn [base mem ch]. exists (add_ckid (visit_c n) o d). split; [eapply nth_upd_eq; eauto|].
          cbn [add_ckid ckids visit_c]. now apply lookup_snoc_eq. }
        exists (a :: l). split; [exact Q2|]. split; [exact Q3|].
        eapply (P_sam Rules n); eauto. apply Rules. eapply no_c; eauto.
  - (* final *)
    assert (P1 : PD (visit_d n) (vis_d G (is_leaf C n) x)) by (apply Rules; eapply no_d; eauto).
    constructor; cbn [base mem dh ch xds xcs].
    + eapply UpD; eauto.
    + apply N.
    + refine (UpT _ X (KeepQ _ eq_refl eq_refl) _ _ _ _ H eq_refl eq_refl _). pose proof (no_t _ N _ _ _ H H2) as Q. cbn in Q.
      destruct Q as (l & Q1 & _ & Q3). exists l, []. split; [exact (acts_of_mono _ _ _ _ X Q1)|].
      split; [apply (P_fin Rules); exact Q3|]. destruct nodes as [|[d' c'] nodes]; auto. intros ? _. apply sees_c_fin.
  - (* chance backup *)
    assert (In1 : innerc n) by (exact (chance_inner s _ _ I H0)).
    assert (P1 : PC n x1 /\ QC n x1).
    { eapply (P_backc Rules); [exact In1|eapply no_c; eauto|exact (cview_kids s _ _ I N H0)| |exact H3].
      pose proof (no_t _ N _ _ _ H H2) as Q. cbn in Q. destruct Q as (l0 & l' & Q1 & Q2 & Q3). auto. }
    constructor; cbn [base mem dh ch xds xcs].
    + apply N.
    + intros c0 n0 x0 Q1 Q2. rewrite (nth_upd _ _ _ _ _ _ H1) in Q2.
      destruct (Nat.eqb_spec c c0) as [->|]; [injection Q2 as <-; rewrite H0 in Q1; injection Q1 as <-; apply P1|eapply no_c; eauto].
    + pose proof (no_t _ N _ _ _ H H2) as Q. cbn in Q. destruct Q as (l0 & l' & Q1 & Q2 & Q2'). inversion Q1 as [|? ? ? a l nd Hc Hnd Ed Q3]; subst.
      refine (UpT _ X _ _ _ _ _ H eq_refl eq_refl _).
      * cbn [base mem ch xcs]. intros c0 n0 y K1 K2 K3. rewrite (nth_upd _ _ _ _ _ _ H1).
        destruct (Nat.eqb_spec c c0) as [->|]; [|eauto]. exists n, x1. repeat split; auto. apply P1.
      * exists l, a, l'. split; [exact Q3|]. split; [apply (P_fin Rules); exact Q2|]. split; [exists nd; auto|].
        exists c, n, x1. cbn [base mem ch xcs]. split; auto. split; auto. split; [eapply nth_upd_eq; eauto|]. split; [apply P1|]. intros ? _. apply sees_d_fin.
  - (* decision backup *)
    pose proof (no_t _ N _ _ _ H H2) as Q. cbn in Q. destruct Q as (l & a & l' & Q & Q0 & (n2 & Hn2 & Ed) & c & n' & y & Q1 & Q2 & Q3 & Q4 & Q5).
    rewrite H0 in Hn2. injection Hn2 as <-.
    assert (In1 : inner n) by (exact (edge_inner s _ _ _ _ I Q1 H0)).
    assert (P1 : PD n x1).
    { eapply (P_backd Rules); [exact In1|eapply no_d; eauto|exact (dview_kids s _ _ I N H0)|exact Q0|exact Ed| |exact (Q5 _ H0)|exact H3].
      exists n', y. split; auto. eapply dview_has; eauto. }
    constructor; cbn [base mem dh ch xds xcs].
    + eapply UpDx; eauto.
    + apply N.
    + refine (UpT _ X (KeepQ _ eq_refl eq_refl) _ _ _ _ H eq_refl eq_refl _). exists l, (l' ++ [a]). split; [exact Q|].
      rewrite <- app_assoc. split; [apply (P_fin Rules); exact Q0|]. destruct nodes as [|[d' c'] nodes]; auto. intros ? _. apply sees_c_fin.
  - (* look at the children of a chance node *)
    apply Wait. intros x0 Hx0. rewrite H in Hx0. injection Hx0 as <-.
    pose proof (no_t _ N _ _ _ H H2) as Q. cbn in Q. destruct Q as (l & l' & Q1 & Q2 & Q3). exists l, l'. split; auto.
    split; [exact (P_peekc Rules _ _ _ _ Q2 H3)|]. intros n0 Hn0. assert (n0 = n) by congruence. subst n0.
    intros v Hv. rewrite (peek_c_sees G _ _ _ H3) in Hv. apply in_app_iff in Hv. destruct Hv as [Hv|[<-|[]]]; [exact (Q3 _ H0 v Hv)|].
    exact (cview_kids s _ _ I N H0).
  - (* look at the children of a decision node *)
    apply Wait. intros x0 Hx0. rewrite H in Hx0. injection Hx0 as <-.
    pose proof (no_t _ N _ _ _ H H2) as Q. cbn in Q. destruct Q as (l & a & l' & Q & Q0 & Hd & c & n' & y & Q1 & Q2 & Q3 & Q4 & Q5).
    exists l, a, l'. split; auto. split; [exact (P_peekd Rules _ _ _ _ Q0 H3)|]. split; auto. exists c, n', y. split; auto. split; auto. split; auto. split; auto.
    intros n0 Hn0. assert (n0 = n) by congruence. subst n0.
    intros v Hv. rewrite (peek_d_sees G _ _ _ H3) in Hv. apply in_app_iff in Hv. destruct Hv as [Hv|[<-|[]]]; [exact (Q5 _ H0 v Hv)|].
    split; [exact (dview_kids s _ _ I N H0)|]. exists n', y. split; auto. eapply dview_has; eauto.
  - (* done *)
    constructor; cbn [base mem dh ch xds xcs]; try apply N.
    refine (UpT _ X (KeepQ _ eq_refl eq_refl) _ _ _ _ H eq_refl eq_refl _). constructor.
  - (* failure *) constructor; apply N.
Qed.

Lemma nodes_reach : forall n g s, areach seqb aeqb C G n g s -> nodes_ok s.
Proof using All.
  intros n g. apply (areach_inv seqb aeqb seqb_ok aeqb_ok C G).
  - constructor; cbn.
    + intros [|[|d]] m x; cbn; try discriminate. intros [= <-] [= <-]. apply Rules.
    + intros [|c]; discriminate.
    + intros t x cx Q _. apply nth_error_In, repeat_spec in Q. now subst.
  - intros s s'. apply nodes_step.
Qed.
End Nodes.
