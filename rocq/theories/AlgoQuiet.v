(** What holds once no trial is in progress: nodes agree with their children. *)
From Coq Require Import List ZArith Bool Reals Lia.
From Verif Require Import Base BaseProofs NumOps HelperModel EngineModel EngineSpec EngineProofs EngineInv MapModel MapProofs
  AlgoModel AlgoProofs AlgoNodes QuietSpec.
Import ListNotations.

Section Quiet.
Context {S A : Type}.
Variable seqb : S -> S -> bool.
Variable aeqb : A -> A -> bool.
Hypothesis seqb_ok : decides seqb.
Hypothesis aeqb_ok : decides aeqb.
Variable C : @econf S A.
Variable G : @algo S A.
Hypothesis NoTT : use_tt C = false.
Notation dnode := (@dnode S A).
Notation cnode := (@cnode S A).
Notation dchild := (dchild aeqb).
Notation cchild := (cchild seqb).

Variable PD : dnode -> XD G -> Prop.
Variable PC : cnode -> XC G -> Prop.
Variable PX : list A -> CX G -> Prop.
Variable QC : cnode -> XC G -> Prop.
Hypothesis Rules : node_rules C G PD PC PX QC.

(** The agreement of a decision node with its children may be in parts, one for each label; a backup after action [a]
    restores the part [lab a]. *)
Variable L : Type.
Variable lab : A -> L.
Hypothesis leq : forall l l' : L, {l = l'} + {l <> l'}.
Variable ConsD : L -> dnode -> XD G -> list (A * (cnode * XC G)) -> Prop.
Variable ConsC : cnode -> XC G -> list (S * (dnode * XD G)) -> Prop.

Record quiet_rules : Prop := mkQr {
  K_newd : forall l s depth time, ConsD l (new_dnode C s depth time) (new_xd G (new_dnode C s depth time)) [];
  K_visd : forall l n x kids, PD n x -> ConsD l n x kids -> ConsD l (visit_d n) (vis_d G (is_leaf C n) x) kids;
  K_ext : forall l n n' x kids kids', ConsD l n x kids -> (exists a, lab a <> l) ->
     dstate n' = dstate n -> ddepth n' = ddepth n -> dtime n' = dtime n -> dvisits n' = dvisits n -> dheur n' = dheur n ->
     (forall a, lab a = l -> lookup aeqb a kids' = lookup aeqb a kids) -> ConsD l n' x kids';
  K_backd : forall n x kids cx b x1 k a k', inner C n -> PD n x -> dkids_ok C G PC n kids ->
     PX (k' ++ a :: k) cx -> ddepth n = Z.of_nat (length k) -> (exists c y, In (a, (c, y)) kids) ->
     (forall v, In v (seen_d G cx) -> v = kids) -> back_d G n x kids cx b = Ok x1 ->
     ConsD (lab a) n x1 kids /\ forall l, l <> lab a -> ConsD l n x kids -> ConsD l n x1 kids;
  K_backc : forall n x kids cx b x1, innerc C n -> PC n x -> ckids_ok C G PD n kids ->
     (forall v, In v (seen_c G cx) -> v = kids) -> back_c G n x kids cx b = Ok x1 -> ConsC n x1 kids
}.
Hypothesis QRules : quiet_rules.
(** Algorithms that look at the children several times do not have agreement in parts. *)
Hypothesis OneLab : (forall cx, seen_d G cx = []) \/ (forall l l' : L, l = l').

(** The nodes whose backups a worker still owes. *)
Definition pairs (x : @tstate A) : list (nat * nat) :=
  match x with
  | TSel _ _ nodes _ | TBack nodes _ _ _ _ | TBackD _ nodes _ _ _ _ => nodes
  | TChance cur _ c _ nodes _ => (cur, c) :: nodes
  | _ => []
  end.
Inductive chain (m : @store S A) : list (nat * nat) -> nat -> Prop :=
| ch_nil : chain m [] 0
| ch_cons : forall d c nodes a o cur, dchild m d a c -> cchild m c o cur -> chain m nodes d -> chain m ((d, c) :: nodes) cur.
Definition tchain (m : @store S A) (x : @tstate A) : Prop :=
  match x with
  | TIdle | TBad => True
  | TSel cur _ nodes _ => chain m nodes cur
  | TChance cur a c _ nodes _ => chain m nodes cur /\ dchild m cur a c
  | TBack nodes _ _ _ _ => exists cur, chain m nodes cur
  | TBackD d nodes _ _ _ _ => chain m nodes d
  end.
(** [ga t] is the action whose chance node worker [t] backed up last. *)
Definition owesD (m : @store S A) (ga : nat -> option A) (t : nat) (x : @tstate A) (d : nat) (l : L) : Prop :=
  (exists a c, In (d, c) (pairs x) /\ dchild m d a c /\ lab a = l) \/
  (exists a, match x with TBackD d' _ _ _ _ _ => d' = d | _ => False end /\ ga t = Some a /\ lab a = l).
Definition holdsD (s : ast G) (ga : nat -> option A) (d : nat) (l : L) : Prop :=
  exists t x, nth_error (ths (base s)) t = Some x /\ owesD (mem (base s)) ga t x d l.
Definition holdsC (s : ast G) (c : nat) : Prop :=
  exists t x d, nth_error (ths (base s)) t = Some x /\ In (d, c) (pairs x).

Record qinv (s : ast G) (ga : nat -> option A) : Prop := mkQ {
  q_chain : forall t x, nth_error (ths (base s)) t = Some x -> tchain (mem (base s)) x;
  q_act : forall t cx d nodes before after tafter total, nth_error (ths (base s)) t = Some (TBackD d nodes before after tafter total) ->
     nth_error (cxs s) t = Some cx ->
     exists a k k' c, ga t = Some a /\ PX (k' ++ a :: k) cx /\ depth_of (mem (base s)) d (length k) /\ dchild (mem (base s)) d a c;
  q_d : forall d n x l, nth_error (dh (mem (base s))) d = Some n -> nth_error (xds s) d = Some x ->
     ConsD l n x (dview s n) \/ holdsD s ga d l;
  q_c : forall c n x, nth_error (ch (mem (base s))) c = Some n -> nth_error (xcs s) c = Some x ->
     ConsC n x (cview s n) \/ holdsC s c
}.

Lemma chain_mono : forall m m' nodes cur, extends_tree seqb aeqb m m' -> chain m nodes cur -> chain m' nodes cur.
Proof.
  intros m m' nodes cur X H. induction H as [|d c nodes a o cur H1 H2 _ IH]; [constructor|].
  econstructor; [apply (xt_dchild _ _ _ _ X); eauto|apply (xt_cchild _ _ _ _ X); eauto|auto].
Qed.
Lemma tchain_mono : forall m m' x, extends_tree seqb aeqb m m' -> tchain m x -> tchain m' x.
Proof.
  intros m m' x X H. destruct x; cbn in *; auto; try (eapply chain_mono; eauto; fail).
  - destruct H as (H1 & H2). split; [eapply chain_mono; eauto|apply (xt_dchild _ _ _ _ X); auto].
  - destruct H as (c & H). exists c. eapply chain_mono; eauto.
Qed.

(** Worker [t] moves from [x0] to [x']; the others owe what they owed. *)
Lemma holdsD_step : forall (s s' : ast G) ga ga' t x0 x' d l, extends_tree seqb aeqb (mem (base s)) (mem (base s')) ->
  nth_error (ths (base s)) t = Some x0 -> ths (base s') = upd (ths (base s)) t x' -> (forall t', t' <> t -> ga' t' = ga t') ->
  holdsD s ga d l -> (owesD (mem (base s)) ga t x0 d l -> owesD (mem (base s')) ga' t x' d l) -> holdsD s' ga' d l.
Proof using Type.
  intros s s' ga ga' t x0 x' d l X H E Eg (t1 & x1 & H1 & O) Own. unfold holdsD. rewrite E.
  destruct (Nat.eq_dec t1 t) as [->|ne].
  - rewrite H in H1. injection H1 as <-. exists t, x'. split; [eapply nth_upd_eq; eauto|auto].
  - exists t1, x1. split; [rewrite nth_upd_ne; auto|]. destruct O as [(a & c & I & Dc & El)|(a & I & Eg' & El)].
    + left. exists a, c. split; auto. split; auto. now apply (xt_dchild _ _ _ _ X).
    + right. exists a. rewrite Eg; auto.
Qed.
Lemma holdsC_step : forall (s s' : ast G) t x0 x' c, nth_error (ths (base s)) t = Some x0 ->
  ths (base s') = upd (ths (base s)) t x' -> holdsC s c ->
  (forall d, In (d, c) (pairs x0) -> In (d, c) (pairs x')) -> holdsC s' c.
Proof using Type.
  intros s s' t x0 x' c H E (t1 & x1 & d & H1 & I) Own. unfold holdsC. rewrite E.
  destruct (Nat.eq_dec t1 t) as [->|ne].
  - rewrite H in H1. injection H1 as <-. exists t, x', d. split; [eapply nth_upd_eq; eauto|auto].
  - exists t1, x1, d. split; [rewrite nth_upd_ne; auto|auto].
Qed.

Lemma lookup_snoc_ne : forall V k k' (m : list (A * V)) v, k' <> k -> lookup aeqb k (m ++ [(k', v)]) = lookup aeqb k m.
Proof using aeqb_ok.
  intros V k k' m v ne. induction m as [|[k1 v1] m IH]; cbn; [|now rewrite IH].
  destruct (aeqb k' k) eqn:E; auto. apply aeqb_ok in E. contradiction.
Qed.
(** Views of nodes whose children did not change. *)
Lemma dview_same : forall (s s' : ast G) n n', dkids n' = dkids n ->
  (forall a c, In (a, c) (dkids n) -> nth_error (ch (mem (base s'))) c = nth_error (ch (mem (base s))) c /\ nth_error (xcs s') c = nth_error (xcs s) c) ->
  dview s' n' = dview s n.
Proof using Type.
  intros s s' n n' E H. unfold dview. rewrite E. revert H. generalize (dkids n). induction l as [|[a c] l IH]; intros H; auto. cbn.
  destruct (H a c (or_introl eq_refl)) as [-> ->]. rewrite IH; auto. intros. apply (H a0). now right.
Qed.
Lemma cview_same : forall (s s' : ast G) n n', ckids n' = ckids n ->
  (forall o d, In (o, d) (ckids n) -> nth_error (dh (mem (base s'))) d = nth_error (dh (mem (base s))) d /\ nth_error (xds s') d = nth_error (xds s) d) ->
  cview s' n' = cview s n.
Proof using Type.
  intros s s' n n' E H. unfold cview. rewrite E. revert H. generalize (ckids n). induction l as [|[a c] l IH]; intros H; auto. cbn.
  destruct (H a c (or_introl eq_refl)) as [-> ->]. rewrite IH; auto. intros. apply (H o). now right.
Qed.
(** Lookups of other children. *)
Lemma dview_other : forall (s s' : ast G) n n' b, dkids n' = dkids n ->
  (forall c, In (b, c) (dkids n) -> nth_error (ch (mem (base s'))) c = nth_error (ch (mem (base s))) c /\ nth_error (xcs s') c = nth_error (xcs s) c) ->
  (forall a c, In (a, c) (dkids n) -> (nth_error (ch (mem (base s'))) c = None <-> nth_error (ch (mem (base s))) c = None) /\
                                      (nth_error (xcs s') c = None <-> nth_error (xcs s) c = None)) ->
  lookup aeqb b (dview s' n') = lookup aeqb b (dview s n).
Proof using aeqb_ok.
  intros s s' n n' b E. unfold dview. rewrite E. generalize (dkids n). induction l as [|[a c] l IH]; intros H H'; auto. cbn [flat_map snd fst].
  destruct (H' a c (or_introl eq_refl)) as [K1 K2]. specialize (IH (fun c0 I => H c0 (or_intror I)) (fun a0 c0 I => H' a0 c0 (or_intror I))).
  destruct (aeqb a b) eqn:Eb.
  - apply aeqb_ok in Eb. subst a. destruct (H c (or_introl eq_refl)) as [-> ->].
    destruct (nth_error (ch (mem (base s))) c), (nth_error (xcs s) c); cbn [app lookup]; auto. destruct (aeqb b b); auto.
  - destruct (nth_error (ch (mem (base s))) c), (nth_error (xcs s) c), (nth_error (ch (mem (base s'))) c), (nth_error (xcs s') c);
      cbn [app lookup]; rewrite ?Eb; auto; exfalso;
      try (destruct K1 as [K1 K1']; specialize (K1 eq_refl); discriminate);
      try (destruct K1 as [K1 K1']; specialize (K1' eq_refl); discriminate);
      try (destruct K2 as [K2 K2']; specialize (K2 eq_refl); discriminate);
      try (destruct K2 as [K2 K2']; specialize (K2' eq_refl); discriminate).
Qed.

Lemma parent_d : forall s, agood seqb aeqb C G s -> forall d a c d' a', dchild (mem (base s)) d a c -> dchild (mem (base s)) d' a' c -> d = d' /\ a = a'.
Proof using Type. intros s [[Ti _] _ _ _ _] d a c d' a'. exact (ti_cparent _ _ _ _ Ti d a d' a' c). Qed.
Lemma parent_c : forall s, agood seqb aeqb C G s -> forall c o d c' o', cchild (mem (base s)) c o d -> cchild (mem (base s)) c' o' d -> c = c' /\ o = o'.
Proof using NoTT. intros s [[Ti _] _ _ _ _] c o d c' o'. pose proof (ti_tt _ _ _ _ Ti) as T. rewrite NoTT in T. apply T. Qed.
Lemma kid_edge : forall s d n a c, agood seqb aeqb C G s -> nth_error (dh (mem (base s))) d = Some n -> In (a, c) (dkids n) -> dchild (mem (base s)) d a c.
Proof using aeqb_ok.
  intros s d n a c [[Ti _] _ _ _ _] Hn I. exists n. split; auto. apply in_lookup; auto. eapply wf_dkeys; [apply Ti|eauto].
Qed.
Lemma ckid_edge : forall s c n o d, agood seqb aeqb C G s -> nth_error (ch (mem (base s))) c = Some n -> In (o, d) (ckids n) -> cchild (mem (base s)) c o d.
Proof using seqb_ok.
  intros s c n o d [[Ti _] _ _ _ _] Hn I. exists n. split; auto. apply in_lookup; auto. eapply wf_ckeys; [apply Ti|eauto].
Qed.
Lemma dchild_lt : forall s d a c, agood seqb aeqb C G s -> dchild (mem (base s)) d a c -> (c < length (ch (mem (base s))))%nat.
Proof using Type.
  intros s d a c [[Ti _] _ _ _ _] (n & Hn & Hl). destruct (wf_d _ _ _ _ (ti_wf _ _ _ _ Ti) _ _ _ _ Hn Hl) as (x & Hx & _).
  apply nth_error_Some. congruence.
Qed.
Lemma cchild_lt : forall s c o d, agood seqb aeqb C G s -> cchild (mem (base s)) c o d -> (d < length (dh (mem (base s))))%nat.
Proof using Type.
  intros s c o d [[Ti _] _ _ _ _] (n & Hn & Hl). destruct (wf_c _ _ _ _ (ti_wf _ _ _ _ Ti) _ _ _ _ Hn Hl) as (x & Hx & _).
  apply nth_error_Some. congruence.
Qed.

(** A change of decision node [cur]: its parent is owed a backup by the worker that is there. *)
Lemma parent_owed : forall s nodes cur c n o, agood seqb aeqb C G s -> chain (mem (base s)) nodes cur ->
  nth_error (ch (mem (base s))) c = Some n -> In (o, cur) (ckids n) -> exists d, In (d, c) nodes.
Proof using All.
  intros s nodes cur c n o I Ch Hn Hi. pose proof (ckid_edge _ _ _ _ _ I Hn Hi) as E.
  inversion Ch as [|d c' nodes' a o' cur' H1 H2 H3]; subst.
  - exfalso. destruct I as [[Ti _] _ _ _ _]. now apply (ti_noroot _ _ _ _ Ti _ _ _ E).
  - destruct (parent_c _ I _ _ _ _ _ E H2) as [-> _]. exists d. now left.
Qed.

Definition setg (ga : nat -> option A) (t : nat) (a : A) (t' : nat) : option A := if Nat.eqb t' t then Some a else ga t'.

(** Earlier looks: what a worker saw of a node's children is how they are now, or another worker owes the node a backup. *)
Definition near (x : @tstate A) (d : nat) : Prop := (exists c, In (d, c) (pairs x)) \/ match x with TBackD d' _ _ _ _ _ => d' = d | _ => False end.
Definition nearC (x : @tstate A) (c : nat) : Prop := exists d, In (d, c) (pairs x).
Definition otherD (s : ast G) (t d : nat) : Prop := exists u y, u <> t /\ nth_error (ths (base s)) u = Some y /\ near y d.
Definition otherC (s : ast G) (t c : nat) : Prop := exists u y, u <> t /\ nth_error (ths (base s)) u = Some y /\ nearC y c.
Definition mid1 (s : ast G) (t : nat) (x : @tstate A) (cx : CX G) : Prop :=
  match x with
  | TBackD d _ _ _ _ _ => forall n, nth_error (dh (mem (base s))) d = Some n ->
      (forall v, In v (seen_d G cx) -> v = dview s n) \/ otherD s t d
  | TBack ((_, c) :: _) _ _ _ _ => forall n, nth_error (ch (mem (base s))) c = Some n ->
      (forall v, In v (seen_c G cx) -> v = cview s n) \/ otherC s t c
  | _ => True
  end.
Definition mid (s : ast G) : Prop := forall t x cx, nth_error (ths (base s)) t = Some x -> nth_error (cxs s) t = Some cx -> mid1 s t x cx.

(** A step of worker [t] from [x0] to [x']. *)
Lemma mid_gen : forall (s s' : ast G) t x0 x' cx0 cx', mid s -> nth_error (ths (base s)) t = Some x0 -> nth_error (cxs s) t = Some cx0 ->
  ths (base s') = upd (ths (base s)) t x' -> cxs s' = upd (cxs s) t cx' -> alone G s t x0 -> mid1 s' t x' cx' ->
  (forall d, near x0 d -> near x' d \/ wants x0 = Some (false, d)) ->
  (forall c, nearC x0 c -> nearC x' c \/ wants x0 = Some (true, c)) ->
  (forall d n', nth_error (dh (mem (base s'))) d = Some n' ->
     (exists n, nth_error (dh (mem (base s))) d = Some n /\ dview s' n' = dview s n) \/ near x' d \/ wants x0 = Some (false, d) \/
     d = length (dh (mem (base s)))) ->
  (forall c n', nth_error (ch (mem (base s'))) c = Some n' ->
     (exists n, nth_error (ch (mem (base s))) c = Some n /\ cview s' n' = cview s n) \/ nearC x' c \/ wants x0 = Some (true, c) \/
     c = length (ch (mem (base s)))) ->
  (forall u y d, nth_error (ths (base s)) u = Some y -> wants y = Some (false, d) -> (d < length (dh (mem (base s))))%nat) ->
  (forall u y c, nth_error (ths (base s)) u = Some y -> wants y = Some (true, c) -> (c < length (ch (mem (base s))))%nat) ->
  mid s'.
Proof using Type.
  intros s s' t x0 x' cx0 cx' M H Hcx E E' Al Mt ND NC VD VC LD LC u y cy Hy Hcy.
  destruct (Nat.eq_dec u t) as [->|ne].
  { rewrite E, (nth_upd _ _ _ _ _ _ H), Nat.eqb_refl in Hy. rewrite E', (nth_upd _ _ _ _ _ _ Hcx), Nat.eqb_refl in Hcy.
    injection Hy as <-. injection Hcy as <-. exact Mt. }
  rewrite E, nth_upd_ne in Hy by auto. rewrite E', nth_upd_ne in Hcy by auto.
  pose proof (M _ _ _ Hy Hcy) as Mu. pose proof (Al u y cy) as Alu.
  assert (Ht : nth_error (ths (base s')) t = Some x') by (rewrite E; eapply nth_upd_eq; eauto).
  destruct y as [| | |[|[d c] nodes] b f ta to|d nodes b f ta to|]; cbn [mid1] in *; auto.
  - intros n' Hn'. destruct (seen_c G cy) as [|v0 vs] eqn:Es; [left; intros v []|].
    assert (Hh : held G (TBack ((d, c) :: nodes) b f ta to) cy = Some (true, c)) by (cbn [held wants]; unfold inside; rewrite Es; destruct (seen_d G cy); reflexivity).
    specialize (Alu _ ne Hy Hcy Hh).
    destruct (VC _ _ Hn') as [(n & Hn & Ev)|[V|[V|V]]].
    + destruct (Mu _ Hn) as [K|(w & y & Nw & Hw & Kw)]; [left; rewrite Ev; exact K|right].
      destruct (Nat.eq_dec w t) as [->|nw].
      * rewrite H in Hw. injection Hw as <-. destruct (NC _ Kw) as [K|K]; [|contradiction]. exists t, x'. auto.
      * exists w, y. rewrite E, nth_upd_ne by auto. auto.
    + right. exists t, x'. auto.
    + contradiction.
    + exfalso. pose proof (LC _ _ c Hy eq_refl). lia.
  - intros n' Hn'. destruct (seen_d G cy) as [|v0 vs] eqn:Es; [left; intros v []|].
    assert (Hh : held G (TBackD d nodes b f ta to) cy = Some (false, d)) by (cbn [held wants]; unfold inside; rewrite Es; reflexivity).
    specialize (Alu _ ne Hy Hcy Hh).
    destruct (VD _ _ Hn') as [(n & Hn & Ev)|[V|[V|V]]].
    + destruct (Mu _ Hn) as [K|(w & y & Nw & Hw & Kw)]; [left; rewrite Ev; exact K|right].
      destruct (Nat.eq_dec w t) as [->|nw].
      * rewrite H in Hw. injection Hw as <-. destruct (ND _ Kw) as [K|K]; [|contradiction]. exists t, x'. auto.
      * exists w, y. rewrite E, nth_upd_ne by auto. auto.
    + right. exists t, x'. auto.
    + contradiction.
    + exfalso. pose proof (LD _ _ d Hy eq_refl). lia.
Qed.

Lemma chain_there : forall s nodes cur, agood seqb aeqb C G s -> chain (mem (base s)) nodes cur -> (cur < length (dh (mem (base s))))%nat.
Proof using Type.
  intros s nodes cur I Ch. inversion Ch; subst; [|eapply cchild_lt; eauto].
  destruct I as [[Ti _] _ _ _ _]. destruct (wf_root _ _ _ _ (ti_wf _ _ _ _ Ti)) as (r & Hr & _). apply nth_error_Some. congruence.
Qed.
Lemma chain_edge : forall m nodes cur d c, chain m nodes cur -> In (d, c) nodes -> exists a, dchild m d a c.
Proof using Type. intros m nodes cur d c Ch. induction Ch as [|d1 c1 nodes a o cur Dc _ _ IH]; [intros []|]. intros [[= -> ->]|J]; eauto. Qed.
Lemma pairs_edge : forall m x d c, tchain m x -> In (d, c) (pairs x) -> exists a, dchild m d a c.
Proof using Type.
  intros m x d c Tc J. destruct x; cbn [pairs tchain] in *; try contradiction.
  - eapply chain_edge; eauto.
  - destruct Tc as [Ch Dc]. destruct J as [[= <- <-]|J]; [eauto|eapply chain_edge; eauto].
  - destruct Tc as [cur Ch]. eapply chain_edge; eauto.
  - eapply chain_edge; eauto.
Qed.
Lemma wants_there : forall s, agood seqb aeqb C G s -> forall x, tchain (mem (base s)) x ->
  match wants x with Some (false, d) => (d < length (dh (mem (base s))))%nat | Some (true, c) => (c < length (ch (mem (base s))))%nat | None => True end.
Proof using Type.
  intros s I x Tc. destruct x as [|cur f nodes r|cur a c f nodes r|[|[d c] nodes] b f ta to|d nodes b f ta to|]; cbn in *; auto.
  - eapply chain_there; eauto.
  - destruct Tc as [_ Dc]. eapply dchild_lt; eauto.
  - destruct Tc as (cur & Ch). inversion Ch; subst. eapply dchild_lt; eauto.
  - eapply chain_there; eauto.
Qed.

Lemma mid_step : forall s s', agood seqb aeqb C G s -> (forall t x, nth_error (ths (base s)) t = Some x -> tchain (mem (base s)) x) ->
  mid s -> atr seqb aeqb C G s s' -> mid s'.
Proof using All.
  intros s s' I Tc M T. pose proof I as [Gd Ps Ld Lc Lt].
  assert (LD : forall u y d, nth_error (ths (base s)) u = Some y -> wants y = Some (false, d) -> (d < length (dh (mem (base s))))%nat).
  { intros u y d H W. pose proof (wants_there _ I _ (Tc _ _ H)) as K. now rewrite W in K. }
  assert (LC : forall u y c, nth_error (ths (base s)) u = Some y -> wants y = Some (true, c) -> (c < length (ch (mem (base s))))%nat).
  { intros u y d H W. pose proof (wants_there _ I _ (Tc _ _ H)) as K. now rewrite W in K. }
  (* decision node [cur] changes *)
  assert (VCur : forall (s2 : ast G) nodes cur c n, chain (mem (base s)) nodes cur ->
    (forall i, i <> cur -> (i < length (dh (mem (base s))))%nat -> nth_error (dh (mem (base s2))) i = nth_error (dh (mem (base s))) i /\
        nth_error (xds s2) i = nth_error (xds s) i) ->
    nth_error (ch (mem (base s))) c = Some n -> (exists n0, nth_error (ch (mem (base s))) c = Some n0 /\ cview s2 n = cview s n0) \/ exists d, In (d, c) nodes).
  { intros s2 nodes cur c n Ch Same H1.
    destruct (in_dec Nat.eq_dec cur (map snd (ckids n))) as [J|J].
    - right. apply in_map_iff in J. destruct J as ([o d] & E & J). cbn in E. subst d. eapply parent_owed; eauto.
    - left. exists n. split; auto. apply cview_same; auto. intros o d J'. apply Same.
      + intros ->. apply J. apply in_map_iff. exists (o, cur). auto.
      + exact (cchild_lt _ _ _ _ I (ckid_edge _ _ _ _ _ I H1 J')). }
  (* chance node [c0] below [d0] changes *)
  assert (VKid : forall (s2 : ast G) d0 a0 c0 d n, dchild (mem (base s)) d0 a0 c0 ->
    (forall i, i <> c0 -> (i < length (ch (mem (base s))))%nat -> nth_error (ch (mem (base s2))) i = nth_error (ch (mem (base s))) i /\
        nth_error (xcs s2) i = nth_error (xcs s) i) ->
    nth_error (dh (mem (base s))) d = Some n -> (exists n0, nth_error (dh (mem (base s))) d = Some n0 /\ dview s2 n = dview s n0) \/ d = d0).
  { intros s2 d0 a0 c0 d n E0 Same H1. destruct (Nat.eq_dec d d0) as [->|ne]; [now right|left]. exists n. split; auto.
    apply dview_same; auto. intros a c J. apply Same; [|exact (dchild_lt _ _ _ _ I (kid_edge _ _ _ _ _ I H1 J))].
    intros ->. destruct (parent_d _ I _ _ _ _ _ E0 (kid_edge _ _ _ _ _ I H1 J)) as [-> _]. contradiction. }
  (* dview after new chance nodes, cview after new decision nodes *)
  assert (GrowD : forall (s2 : ast G) d n, nth_error (dh (mem (base s))) d = Some n ->
    (forall i, (i < length (ch (mem (base s))))%nat -> nth_error (ch (mem (base s2))) i = nth_error (ch (mem (base s))) i /\
        nth_error (xcs s2) i = nth_error (xcs s) i) -> dview s2 n = dview s n).
  { intros s2 d n H1 Same. apply dview_same; auto. intros a c J. apply Same. exact (dchild_lt _ _ _ _ I (kid_edge _ _ _ _ _ I H1 J)). }
  assert (GrowC : forall (s2 : ast G) c n, nth_error (ch (mem (base s))) c = Some n ->
    (forall i, (i < length (dh (mem (base s))))%nat -> nth_error (dh (mem (base s2))) i = nth_error (dh (mem (base s))) i /\
        nth_error (xds s2) i = nth_error (xds s) i) -> cview s2 n = cview s n).
  { intros s2 c n H1 Same. apply cview_same; auto. intros o d J. apply Same. exact (cchild_lt _ _ _ _ I (ckid_edge _ _ _ _ _ I H1 J)). }
  destruct T; try lazymatch goal with K : alone _ _ _ _ |- _ => rename K into Al end.
  - (* start *)
    assert (Hcx : exists cx, nth_error (cxs s) t = Some cx).
    { destruct (nth_error (cxs s) t) eqn:E0; eauto. apply nth_error_None in E0.
      assert (t < length (ths (base s)))%nat by (apply nth_error_Some; congruence). lia. }
    destruct Hcx as (cxo & Hcx).
    match goal with |- mid ?s2 => refine (mid_gen s s2 t _ _ _ _ M H Hcx eq_refl eq_refl _ _ _ _ _ _ LD LC) end.
    + intros u y cy k Nu Hy Hcy Hk. discriminate.
    + exact Logic.I.
    + intros d [(c & [])|[]].
    + intros c (d & []).
    + intros d n' Hn. left. exists n'. auto.
    + intros d n' Hn. left. exists n'. auto.
  - (* select, old child *)
    pose proof (Tc _ _ H) as Ch. cbn in Ch.
    match goal with |- mid ?s2 => refine (mid_gen s s2 t _ _ _ _ M H H2 eq_refl eq_refl Al _ _ _ _ _ LD LC) end.
    + exact Logic.I.
    + intros d [(c0 & J)|[]]. left. left. exists c0. now right.
    + intros c0 (d & J). left. exists d. now right.
    + cbn [base mem dh]. intros d n' Hn. destruct (Nat.eq_dec d cur) as [->|ne]; [right; right; left; reflexivity|].
      rewrite nth_upd_ne in Hn by auto. left. exists n'. auto.
    + intros c0 n' Hn. match goal with |- context [cview ?s2 n'] => destruct (VCur s2 _ _ c0 n' Ch) with (2 := Hn) as [K|(d & K)] end; [|left; exact K|].
      * cbn [base mem dh xds]. intros i ni _. rewrite !nth_upd_ne; auto.
      * right. left. exists d. now right.
  - (* select, new child *)
    pose proof (Tc _ _ H) as Ch. cbn in Ch.
    match goal with |- mid ?s2 => refine (mid_gen s s2 t _ _ _ _ M H H2 eq_refl eq_refl Al _ _ _ _ _ LD LC) end.
    + exact Logic.I.
    + intros d [(c0 & J)|[]]. left. left. exists c0. now right.
    + intros c0 (d & J). left. exists d. now right.
    + cbn [base mem dh]. intros d n' Hn. destruct (Nat.eq_dec d cur) as [->|ne]; [right; right; left; reflexivity|].
      rewrite nth_upd_ne in Hn by auto. left. exists n'. split; auto. eapply GrowD; eauto.
      cbn [base mem ch xcs]. intros i Li. rewrite !nth_error_app1 by lia. auto.
    + cbn [base mem ch]. intros c0 n' Hn. apply nth_snoc in Hn. destruct Hn as [Hn|[Hn ->]]; [|now right; right; right].
      match goal with |- context [cview ?s2 n'] => destruct (VCur s2 _ _ c0 n' Ch) with (2 := Hn) as [K|(d & K)] end; [|left; exact K|].
      * cbn [base mem dh xds]. intros i ni _. rewrite !nth_upd_ne; auto.
      * right. left. exists d. now right.
  - (* sample, old child *)
    destruct (Tc _ _ H) as [Ch Dc].
    match goal with |- mid ?s2 => refine (mid_gen s s2 t _ _ _ _ M H H3 eq_refl eq_refl Al _ _ _ _ _ LD LC) end.
    + exact Logic.I.
    + intros d0 [(c0 & J)|[]]. left. left. exists c0. exact J.
    + intros c0 (d0 & J). left. exists d0. exact J.
    + intros d0 n' Hn. match goal with |- context [dview ?s2 n'] => destruct (VKid s2 _ _ _ d0 n' Dc) with (2 := Hn) as [K|K] end; [|left; exact K|].
      * cbn [base mem ch xcs]. intros i ni _. rewrite nth_upd_ne; auto.
      * right. left. left. exists c. left. now rewrite K.
    + cbn [base mem ch]. intros c0 n' Hn. destruct (Nat.eq_dec c0 c) as [->|ne]; [right; right; left; reflexivity|].
      rewrite nth_upd_ne in Hn by auto. left. exists n'. auto.
  - (* sample, shared child *) congruence.
  - (* sample, new child *)
    destruct (Tc _ _ H) as [Ch Dc].
    match goal with |- mid ?s2 => refine (mid_gen s s2 t _ _ _ _ M H H3 eq_refl eq_refl Al _ _ _ _ _ LD LC) end.
    + exact Logic.I.
    + intros d0 [(c0 & J)|[]]. left. left. exists c0. exact J.
    + intros c0 (d0 & J). left. exists d0. exact J.
    + cbn [base mem dh]. intros d0 n' Hn. apply nth_snoc in Hn. destruct Hn as [Hn|[Hn ->]]; [|now right; right; right].
      match goal with |- context [dview ?s2 n'] => destruct (VKid s2 _ _ _ d0 n' Dc) with (2 := Hn) as [K|K] end; [|left; exact K|].
      * cbn [base mem ch xcs]. intros i ni _. rewrite nth_upd_ne; auto.
      * right. left. left. exists c. left. now rewrite K.
    + cbn [base mem ch]. intros c0 n' Hn. destruct (Nat.eq_dec c0 c) as [->|ne]; [right; right; left; reflexivity|].
      rewrite nth_upd_ne in Hn by auto. left. exists n'. split; auto. eapply GrowC; eauto.
      cbn [base mem dh xds]. intros i Li. rewrite !nth_error_app1 by lia. auto.
  - (* final *)
    pose proof (Tc _ _ H) as Ch. cbn in Ch.
    match goal with |- mid ?s2 => refine (mid_gen s s2 t _ _ _ _ M H H2 eq_refl eq_refl Al _ _ _ _ _ LD LC) end.
    + cbn [mid1]. destruct nodes as [|[d c] nodes]; auto. intros m _. left. destruct (fin_sees G cx) as [_ ->]. intros v [].
    + intros d [(c0 & J)|[]]. left. left. exists c0. exact J.
    + intros c0 (d & J). left. exists d. exact J.
    + cbn [base mem dh]. intros d n' Hn. destruct (Nat.eq_dec d cur) as [->|ne]; [right; right; left; reflexivity|].
      rewrite nth_upd_ne in Hn by auto. left. exists n'. auto.
    + intros c0 n' Hn. match goal with |- context [cview ?s2 n'] => destruct (VCur s2 _ _ c0 n' Ch) with (2 := Hn) as [K|(d & K)] end; [|left; exact K|].
      * cbn [base mem dh xds]. intros i ni _. rewrite !nth_upd_ne; auto.
      * right. left. exists d. exact K.
  - (* chance backup *)
    destruct (Tc _ _ H) as [cur Ch]. inversion Ch as [|d1 c1 nodes1 a1 o1 cur1 Dc Cc Ch']; subst.
    match goal with |- mid ?s2 => refine (mid_gen s s2 t _ _ _ _ M H H2 eq_refl eq_refl Al _ _ _ _ _ LD LC) end.
    + cbn [mid1]. intros m _. left. destruct (fin_sees G cx) as [-> _]. intros v [].
    + intros d0 [(c0 & J)|[]]. left. destruct J as [[= <- <-]|J]; [now right|]. left. exists c0. exact J.
    + intros c0 (d0 & J). destruct J as [[= <- <-]|J]; [now right|]. left. exists d0. exact J.
    + intros d0 n' Hn. match goal with |- context [dview ?s2 n'] => destruct (VKid s2 _ _ _ d0 n' Dc) with (2 := Hn) as [K|K] end; [|left; exact K|].
      * cbn [base mem ch xcs]. intros i ni _. rewrite nth_upd_ne; auto.
      * right. left. right. now rewrite K.
    + cbn [base mem ch]. intros c0 n' Hn. left. exists n'. auto.
  - (* decision backup *)
    pose proof (Tc _ _ H) as Ch. cbn in Ch.
    match goal with |- mid ?s2 => refine (mid_gen s s2 t _ _ _ _ M H H2 eq_refl eq_refl Al _ _ _ _ _ LD LC) end.
    + cbn [mid1]. destruct nodes as [|[d0 c] nodes]; auto. intros m _. left. destruct (fin_sees G cx) as [_ ->]. intros v [].
    + intros d0 [(c0 & J)|J]; [left; left; exists c0; exact J|right]. cbn in *. now rewrite J.
    + intros c0 (d0 & J). left. exists d0. exact J.
    + cbn [base mem dh]. intros d0 n' Hn. left. exists n'. auto.
    + intros c0 n' Hn. match goal with |- context [cview ?s2 n'] => destruct (VCur s2 _ _ c0 n' Ch) with (2 := Hn) as [K|(d0 & K)] end; [|left; exact K|].
      * cbn [base mem dh xds]. intros i ni _. rewrite nth_upd_ne; auto.
      * right. left. exists d0. exact K.
  - (* look of a chance backup *)
    match goal with |- mid ?s2 => refine (mid_gen s s2 t _ (TBack ((d, c) :: nodes) (r :: before) after tafter total) _ _ M H H2 _ eq_refl Al _ _ _ _ _ LD LC) end; auto.
    + cbn [base]. symmetry. now apply upd_self.
    + cbn [mid1]. intros n' Hn. cbn [base] in Hn. assert (n' = n) by congruence. subst n'. pose proof (M _ _ _ H H2) as K. cbn [mid1] in K.
      destruct (K n H0) as [K'|K']; [left|right; exact K'].
      rewrite (peek_c_sees G _ _ _ H3). intros v J. apply in_app_or in J. destruct J as [J|[<-|[]]]; [exact (K' _ J)|reflexivity].
    + intros d0 n' Hn. left. exists n'. auto.
    + intros d0 n' Hn. left. exists n'. auto.
  - (* look of a decision backup *)
    match goal with |- mid ?s2 => refine (mid_gen s s2 t _ (TBackD d nodes before after tafter total) _ _ M H H2 _ eq_refl Al _ _ _ _ _ LD LC) end; auto.
    + cbn [base]. symmetry. now apply upd_self.
    + cbn [mid1]. intros n' Hn. cbn [base] in Hn. assert (n' = n) by congruence. subst n'. pose proof (M _ _ _ H H2) as K. cbn [mid1] in K.
      destruct (K n H0) as [K'|K']; [left|right; exact K'].
      rewrite (peek_d_sees G _ _ _ H3). intros v J. apply in_app_or in J. destruct J as [J|[<-|[]]]; [exact (K' _ J)|reflexivity].
    + intros d0 n' Hn. left. exists n'. auto.
    + intros d0 n' Hn. left. exists n'. auto.
  - (* done *)
    match goal with |- mid ?s2 => refine (mid_gen s s2 t _ _ _ _ M H H0 eq_refl eq_refl _ _ _ _ _ _ LD LC) end.
    + intros u y cy k Nu Hy Hcy Hk. discriminate.
    + exact Logic.I.
    + intros d [(c & [])|[]].
    + intros c (d & []).
    + intros d n' Hn. left. exists n'. auto.
    + intros d n' Hn. left. exists n'. auto.
  - (* failure *) exact M.
Qed.

Lemma q_step : forall s s' ga, agood seqb aeqb C G s -> nodes_ok aeqb C G PD PC PX QC s -> qinv s ga -> mid s -> atr seqb aeqb C G s s' ->
  exists ga', qinv s' ga'.
Proof using All.
  intros s s' ga I N Q M T. pose proof I as [Gd Ps Ld Lc Lt]. pose proof Gd as [Ti _].
  assert (X : extends_tree seqb aeqb (mem (base s)) (mem (base s'))).
  { destruct (atr_gstep seqb aeqb C G _ _ T) as [->|R].
    - constructor; auto; intros; eexists; repeat split; eauto; lia.
    - apply (mstep_ext _ _ C). now apply gstep_mstep. }
  (* chains *)
  assert (UpChain : forall t x0 x', nth_error (ths (base s)) t = Some x0 -> ths (base s') = upd (ths (base s)) t x' ->
    tchain (mem (base s')) x' -> forall t1 x1, nth_error (ths (base s')) t1 = Some x1 -> tchain (mem (base s')) x1).
  { intros t x0 x' H E P t1 x1 Q1. rewrite E, (nth_upd _ _ _ _ _ _ H) in Q1.
    destruct (Nat.eqb t t1); [injection Q1 as <-; auto|]. eapply tchain_mono; eauto. eapply q_chain; eauto. }
  (* actions *)
  assert (UpAct : forall ga' t x0 x' cx', nth_error (ths (base s)) t = Some x0 -> ths (base s') = upd (ths (base s)) t x' ->
    cxs s' = upd (cxs s) t cx' -> (forall t', t' <> t -> ga' t' = ga t') ->
    (forall d nodes before after tafter total, x' = TBackD d nodes before after tafter total ->
     exists a k k' c, ga' t = Some a /\ PX (k' ++ a :: k) cx' /\ depth_of (mem (base s')) d (length k) /\ dchild (mem (base s')) d a c) ->
    forall t1 cx d nodes before after tafter total, nth_error (ths (base s')) t1 = Some (TBackD d nodes before after tafter total) ->
     nth_error (cxs s') t1 = Some cx ->
     exists a k k' c, ga' t1 = Some a /\ PX (k' ++ a :: k) cx /\ depth_of (mem (base s')) d (length k) /\ dchild (mem (base s')) d a c).
  { intros ga' t x0 x' cx' H E E' Eg P t1 cx d nodes before after tafter total Q1 Q2.
    assert (Hcx : exists cx0, nth_error (cxs s) t = Some cx0).
    { destruct (nth_error (cxs s) t) eqn:E0; eauto. apply nth_error_None in E0.
      assert (t < length (ths (base s)))%nat by (apply nth_error_Some; congruence). lia. }
    destruct Hcx as (cx0 & Hcx). rewrite E, (nth_upd _ _ _ _ _ _ H) in Q1. rewrite E', (nth_upd _ _ _ _ _ _ Hcx) in Q2.
    destruct (Nat.eqb_spec t t1) as [->|ne].
    - injection Q1 as ->. injection Q2 as <-. eapply P. reflexivity.
    - destruct (q_act _ _ Q _ _ _ _ _ _ _ _ Q1 Q2) as (a & k & k' & c & K1 & K2 & K3 & K4). exists a, k, k', c.
      rewrite Eg by auto. split; auto. split; auto. split; [eapply depth_of_mono; eauto|now apply (xt_dchild _ _ _ _ X)]. }
  (* nodes without changes *)
  assert (SameD : forall d n l x, nth_error (dh (mem (base s))) d = Some n -> nth_error (xds s) d = Some x -> dview s' n = dview s n ->
    ConsD l n x (dview s' n) \/ holdsD s ga d l).
  { intros d n l x H1 H2 ->. eapply q_d; eauto. }
  assert (SameC : forall c n x, nth_error (ch (mem (base s))) c = Some n -> nth_error (xcs s) c = Some x -> cview s' n = cview s n ->
    ConsC n x (cview s' n) \/ holdsC s c).
  { intros c n x H1 H2 ->. eapply q_c; eauto. }
  (* workers that owe at least what they owed *)
  assert (MonoD : forall t x0 x', nth_error (ths (base s)) t = Some x0 -> ths (base s') = upd (ths (base s)) t x' ->
    (forall p, In p (pairs x0) -> In p (pairs x')) -> match x0 with TBackD _ _ _ _ _ _ => False | _ => True end ->
    forall d l, holdsD s ga d l -> holdsD s' ga d l).
  { intros t x0 x' H E Sub Nb d l K. apply (holdsD_step s s' ga ga t x0 x' d l X H E ltac:(auto) K).
    intros [(a & c & J & Dc & El)|(a & J & _)]; [|destruct x0; contradiction].
    left. exists a, c. split; auto. split; auto. now apply (xt_dchild _ _ _ _ X). }
  assert (MonoC : forall t x0 x', nth_error (ths (base s)) t = Some x0 -> ths (base s') = upd (ths (base s)) t x' ->
    (forall p, In p (pairs x0) -> In p (pairs x')) -> forall c, holdsC s c -> holdsC s' c).
  { intros t x0 x' H E Sub c K. apply (holdsC_step s s' t x0 x' c H E K). auto. }
  (* decision node [cur] changes *)
  assert (Cur : forall nodes cur, chain (mem (base s)) nodes cur ->
    (forall i, i <> cur -> (i < length (dh (mem (base s))))%nat -> nth_error (dh (mem (base s'))) i = nth_error (dh (mem (base s))) i /\
        nth_error (xds s') i = nth_error (xds s) i) ->
    forall c n x, nth_error (ch (mem (base s))) c = Some n -> nth_error (xcs s) c = Some x ->
      (ConsC n x (cview s' n) \/ holdsC s c) \/ exists d, In (d, c) nodes).
  { intros nodes cur Ch Same c n x H1 H2.
    destruct (in_dec Nat.eq_dec cur (map snd (ckids n))) as [J|J].
    - right. apply in_map_iff in J. destruct J as ([o d] & E & J). cbn in E. subst d. eapply parent_owed; eauto.
    - left. apply SameC; auto. apply cview_same; auto. intros o d J'. apply Same.
      + intros ->. apply J. apply in_map_iff. exists (o, cur). auto.
      + exact (cchild_lt _ _ _ _ I (ckid_edge _ _ _ _ _ I H1 J')). }
  (* chance node [c] below [d] changes *)
  assert (Kid : forall d0 a0 c0, dchild (mem (base s)) d0 a0 c0 ->
    (forall i, i <> c0 -> (i < length (ch (mem (base s))))%nat -> nth_error (ch (mem (base s'))) i = nth_error (ch (mem (base s))) i /\
        nth_error (xcs s') i = nth_error (xcs s) i) ->
    (exists n1 x1, nth_error (ch (mem (base s'))) c0 = Some n1 /\ nth_error (xcs s') c0 = Some x1) ->
    forall d n x l, nth_error (dh (mem (base s))) d = Some n -> nth_error (xds s) d = Some x ->
      (ConsD l n x (dview s' n) \/ holdsD s ga d l) \/ (d = d0 /\ lab a0 = l)).
  { intros d0 a0 c0 E0 Same (n1 & x1 & Hn1 & Hx1) d n x l H1 H2.
    assert (Lc0 : (c0 < length (ch (mem (base s))))%nat) by (eapply dchild_lt; eauto).
    destruct (Nat.eq_dec d d0) as [->|ne].
    - destruct (leq (lab a0) l) as [El|El]; [now right|]. left. destruct (q_d _ _ Q _ _ _ l H1 H2) as [K|K]; [left|now right].
      refine (K_ext QRules l n n x (dview s n) _ K _ eq_refl eq_refl eq_refl eq_refl eq_refl _); [eauto|].
      intros b Eb. apply dview_other; auto.
      + intros c J. apply Same; [|exact (dchild_lt _ _ _ _ I (kid_edge _ _ _ _ _ I H1 J))]. intros ->.
        destruct (parent_d _ I _ _ _ _ _ E0 (kid_edge _ _ _ _ _ I H1 J)) as [_ <-]. contradiction.
      + intros a c J. assert (Lc' : (c < length (ch (mem (base s))))%nat) by exact (dchild_lt _ _ _ _ I (kid_edge _ _ _ _ _ I H1 J)).
        destruct (Nat.eq_dec c c0) as [->|nc].
        * rewrite Hn1, Hx1. split; (split; [discriminate|intros K'; apply nth_error_None in K'; lia]).
        * destruct (Same c nc Lc') as [-> ->]. tauto.
    - left. apply SameD; auto. apply dview_same; auto. intros a c J. apply Same; [|exact (dchild_lt _ _ _ _ I (kid_edge _ _ _ _ _ I H1 J))].
      intros ->. destruct (parent_d _ I _ _ _ _ _ E0 (kid_edge _ _ _ _ _ I H1 J)) as [-> _]. contradiction. }
  destruct T.
  - (* start *)
    exists ga. constructor.
    + eapply UpChain; [exact H|reflexivity|]. constructor.
    + eapply UpAct; [exact H|reflexivity|reflexivity|auto|]. discriminate.
    + cbn [base mem dh xds]. intros d n x l H1 H2. destruct (SameD _ _ l _ H1 H2 eq_refl) as [K|K]; [now left|right].
      eapply MonoD; [exact H|reflexivity| | |exact K]; cbn; auto.
    + cbn [base mem ch xcs]. intros d n x H1 H2. destruct (SameC _ _ _ H1 H2 eq_refl) as [K|K]; [now left|right].
      eapply MonoC; [exact H|reflexivity| |exact K]; cbn; auto.
  - (* select, old child *)
    pose proof (q_chain _ _ Q _ _ H) as Ch. cbn in Ch.
    exists ga. constructor.
    + eapply UpChain; [exact H|reflexivity|]. cbn [tchain]. split; [eapply chain_mono; eauto|].
      apply (xt_dchild _ _ _ _ X). exists n. auto.
    + eapply UpAct; [exact H|reflexivity|reflexivity|auto|]. discriminate.
    + cbn [base mem dh xds]. intros d n0 x0 l K1 K2.
      rewrite (nth_upd _ _ _ _ _ _ H0) in K1. rewrite (nth_upd _ _ _ _ _ _ H1) in K2. destruct (Nat.eqb_spec cur d) as [->|ne].
      * injection K1 as <-. injection K2 as <-. destruct (q_d _ _ Q _ _ _ l H0 H1) as [K|K].
        -- left. exact (K_visd QRules l n x (dview s n) (no_d _ _ _ _ _ _ _ _ N _ _ _ H0 H1) K).
        -- right. eapply MonoD; [exact H|reflexivity| | |exact K]; cbn; auto.
      * destruct (SameD _ _ l _ K1 K2 eq_refl) as [K|K]; [now left|right].
        eapply MonoD; [exact H|reflexivity| | |exact K]; cbn; auto.
    + cbn [base mem ch xcs]. intros c0 n0 x0 K1 K2.
      destruct (Cur _ _ Ch) with (c := c0) (n := n0) (x := x0) as [[K|K]|(d & K)]; auto.
      * cbn [base mem dh xds]. intros i ni _. rewrite !nth_upd_ne; auto.
      * right. eapply MonoC; [exact H|reflexivity| |exact K]; cbn; auto.
      * right. exists t. eexists _, d. cbn [base ths]. split; [eapply nth_upd_eq; eauto|]. cbn. auto.
  - (* select, new child *)
    pose proof (q_chain _ _ Q _ _ H) as Ch. cbn in Ch.
    exists ga. constructor.
    + eapply UpChain; [exact H|reflexivity|]. cbn [tchain]. split; [eapply chain_mono; eauto|].
      exists (add_dkid (visit_d n) a c). cbn [base mem dh fst snd]. split; [eapply nth_upd_eq; eauto|].
      cbn [add_dkid dkids visit_d]. now apply lookup_snoc_eq.
    + eapply UpAct; [exact H|reflexivity|reflexivity|auto|]. discriminate.
    + cbn [base mem dh xds]. intros d n0 x0 l K1 K2.
      rewrite (nth_upd _ _ _ _ _ _ H0) in K1. rewrite (nth_upd _ _ _ _ _ _ H1) in K2. destruct (Nat.eqb_spec cur d) as [->|ne].
      * injection K1 as <-. injection K2 as <-.
        destruct (leq (lab a) l) as [<-|El].
        { right. exists t. eexists. cbn [base ths]. split; [eapply nth_upd_eq; eauto|]. left. exists a, c. cbn [pairs]. split; [now left|].
          split; auto. exists (add_dkid (visit_d n) a c). cbn [base mem dh fst snd]. split; [eapply nth_upd_eq; eauto|].
          cbn [add_dkid dkids visit_d]. now apply lookup_snoc_eq. }
        destruct (q_d _ _ Q _ _ _ l H0 H1) as [K|K].
        -- left. pose proof (K_visd QRules l n x (dview s n) (no_d _ _ _ _ _ _ _ _ N _ _ _ H0 H1) K) as K'.
           refine (K_ext QRules l (visit_d n) (add_dkid (visit_d n) a c) _ (dview s n) _ K' _ eq_refl eq_refl eq_refl eq_refl eq_refl _); [eauto|].
           intros b Eb. unfold dview. cbn [add_dkid dkids visit_d base mem ch xcs]. rewrite flat_map_app.
           assert (F : forall k, (forall p, In p k -> In p (dkids n)) -> flat_map (fun p => match nth_error (ch (mem (base s)) ++ [new_cnode (dstate n) a (ddepth n) (dtime n)]) (snd p),
               nth_error (xcs s ++ [new_xc G (new_cnode (dstate n) a (ddepth n) (dtime n))]) (snd p) with Some x0, Some y => [(fst p, (x0, y))] | _, _ => [] end) k =
             flat_map (fun p => match nth_error (ch (mem (base s))) (snd p), nth_error (xcs s) (snd p) with Some x0, Some y => [(fst p, (x0, y))] | _, _ => [] end) k).
           { induction k as [|[a1 c1] k IHk]; intros Sub; auto. cbn [flat_map fst snd].
             assert (Lc1 : (c1 < length (ch (mem (base s))))%nat) by exact (dchild_lt _ _ _ _ I (kid_edge _ _ _ _ _ I H0 (Sub _ (or_introl eq_refl)))).
             rewrite !nth_error_app1 by lia. rewrite IHk; auto. intros p J. apply Sub. now right. }
           rewrite F by auto. cbn [flat_map fst snd]. unfold c. rewrite (nth_error_app2 (ch (mem (base s)))), Nat.sub_diag by lia.
           rewrite (nth_error_app2 (xcs s)) by lia. rewrite Lc, Nat.sub_diag. cbn [nth_error app]. apply lookup_snoc_ne; auto. intros ->. contradiction.
        -- right. eapply MonoD; [exact H|reflexivity| | |exact K]; cbn; auto.
      * assert (E : dview s n0 = dview s n0) by auto.
        match goal with |- ConsD _ _ _ (dview ?s2 _) \/ _ => assert (E' : dview s2 n0 = dview s n0) end.
        { apply dview_same; auto. intros a1 c1 J. pose proof (dchild_lt _ _ _ _ I (kid_edge _ _ _ _ _ I K1 J)) as Lc1. cbn [base mem ch xcs].
          rewrite !nth_error_app1 by lia. auto. }
        destruct (SameD _ _ l _ K1 K2 E') as [K|K]; [now left|right].
        eapply MonoD; [exact H|reflexivity| | |exact K]; cbn; auto.
    + cbn [base mem ch xcs]. intros c0 n0 x0 K1 K2. apply nth_snoc in K1. apply nth_snoc in K2.
      destruct K1 as [K1|[K1 ->]]; destruct K2 as [K2|[K2 ->]].
      * destruct (Cur _ _ Ch) with (c := c0) (n := n0) (x := x0) as [[K|K]|(d & K)]; auto.
        -- cbn [base mem dh xds]. intros i ni _. rewrite !nth_upd_ne; auto.
        -- right. eapply MonoC; [exact H|reflexivity| |exact K]; cbn; auto.
        -- right. exists t. eexists _, d. cbn [base ths]. split; [eapply nth_upd_eq; eauto|]. cbn. auto.
      * exfalso. assert (c0 < length (ch (mem (base s))))%nat by (apply nth_error_Some; congruence). lia.
      * exfalso. assert (c0 < length (xcs s))%nat by (apply nth_error_Some; congruence). lia.
      * right. exists t. eexists _, cur. cbn [base ths]. split; [eapply nth_upd_eq; eauto|]. left. now rewrite K1.
  - (* sample, old child *)
    destruct (q_chain _ _ Q _ _ H) as [Ch Dc].
    exists ga. constructor.
    + eapply UpChain; [exact H|reflexivity|]. cbn [tchain]. econstructor; [apply (xt_dchild _ _ _ _ X); exact Dc| |eapply chain_mono; eauto].
      exists (visit_c n). cbn [base mem ch]. split; [eapply nth_upd_eq; eauto|]. eauto.
    + eapply UpAct; [exact H|reflexivity|reflexivity|auto|]. discriminate.
    + cbn [base mem dh xds]. intros d0 n0 x0 l K1 K2.
      destruct (Kid _ _ _ Dc) with (d := d0) (n := n0) (x := x0) (l := l) as [[K|K]|[-> E]]; auto.
      * cbn [base mem ch xcs]. intros i ni _. rewrite nth_upd_ne; auto.
      * cbn [base mem ch xcs]. do 2 eexists. split; [eapply nth_upd_eq; eauto|eauto].
      * right. eapply MonoD; [exact H|reflexivity| | |exact K]; cbn; auto.
      * right. exists t. eexists. cbn [base ths]. split; [eapply nth_upd_eq; eauto|]. left. exists a, c. cbn [pairs]. split; [now left|].
        split; [now apply (xt_dchild _ _ _ _ X)|exact E].
    + cbn [base mem ch xcs]. intros c0 n0 x0 K1 K2. rewrite (nth_upd _ _ _ _ _ _ H0) in K1. destruct (Nat.eqb_spec c c0) as [->|ne].
      * right. exists t. eexists _, cur. cbn [base ths]. split; [eapply nth_upd_eq; eauto|]. cbn. auto.
      * destruct (SameC _ _ _ K1 K2 eq_refl) as [K|K]; [now left|right]. eapply MonoC; [exact H|reflexivity| |exact K]; cbn; auto.
  - (* sample, shared child *) congruence.
  - (* sample, new child *)
    destruct (q_chain _ _ Q _ _ H) as [Ch Dc].
    exists ga. constructor.
    + eapply UpChain; [exact H|reflexivity|]. cbn [tchain]. econstructor; [apply (xt_dchild _ _ _ _ X); exact Dc| |eapply chain_mono; eauto].
      exists (add_ckid (visit_c n) o d). cbn [base mem ch]. split; [eapply nth_upd_eq; eauto|].
      cbn [add_ckid ckids visit_c]. now apply lookup_snoc_eq.
    + eapply UpAct; [exact H|reflexivity|reflexivity|auto|]. discriminate.
    + cbn [base mem dh xds]. intros d0 n0 x0 l K1 K2. apply nth_snoc in K1. apply nth_snoc in K2.
      destruct K1 as [K1|[K1 ->]]; destruct K2 as [K2|[K2 ->]].
      * destruct (Kid _ _ _ Dc) with (d := d0) (n := n0) (x := x0) (l := l) as [[K|K]|[-> E]]; auto.
        -- cbn [base mem ch xcs]. intros i ni _. rewrite nth_upd_ne; auto.
        -- cbn [base mem ch xcs]. do 2 eexists. split; [eapply nth_upd_eq; eauto|eauto].
        -- right. eapply MonoD; [exact H|reflexivity| | |exact K]; cbn; auto.
        -- right. exists t. eexists. cbn [base ths]. split; [eapply nth_upd_eq; eauto|]. left. exists a, c. cbn [pairs]. split; [now left|].
           split; [now apply (xt_dchild _ _ _ _ X)|exact E].
      * exfalso. assert (d0 < length (dh (mem (base s))))%nat by (apply nth_error_Some; congruence). lia.
      * exfalso. assert (d0 < length (xds s))%nat by (apply nth_error_Some; congruence). lia.
      * left. apply QRules.
    + cbn [base mem ch xcs]. intros c0 n0 x0 K1 K2. rewrite (nth_upd _ _ _ _ _ _ H0) in K1. destruct (Nat.eqb_spec c c0) as [->|ne].
      * right. exists t. eexists _, cur. cbn [base ths]. split; [eapply nth_upd_eq; eauto|]. cbn. auto.
      * match goal with |- ConsC _ _ (cview ?s2 _) \/ _ => assert (E' : cview s2 n0 = cview s n0) end.
        { apply cview_same; auto. intros o1 d1 J. pose proof (cchild_lt _ _ _ _ I (ckid_edge _ _ _ _ _ I K1 J)) as Ld1. cbn [base mem dh xds].
          rewrite !nth_error_app1 by lia. auto. }
        destruct (SameC _ _ _ K1 K2 E') as [K|K]; [now left|right]. eapply MonoC; [exact H|reflexivity| |exact K]; cbn; auto.
  - (* final *)
    pose proof (q_chain _ _ Q _ _ H) as Ch. cbn in Ch.
    exists ga. constructor.
    + eapply UpChain; [exact H|reflexivity|]. exists cur. eapply chain_mono; eauto.
    + eapply UpAct; [exact H|reflexivity|reflexivity|auto|]. discriminate.
    + cbn [base mem dh xds]. intros d n0 x0 l K1 K2.
      rewrite (nth_upd _ _ _ _ _ _ H0) in K1. rewrite (nth_upd _ _ _ _ _ _ H1) in K2. destruct (Nat.eqb_spec cur d) as [->|ne].
      * injection K1 as <-. injection K2 as <-. destruct (q_d _ _ Q _ _ _ l H0 H1) as [K|K].
        -- left. exact (K_visd QRules l n x (dview s n) (no_d _ _ _ _ _ _ _ _ N _ _ _ H0 H1) K).
        -- right. eapply MonoD; [exact H|reflexivity| | |exact K]; cbn; auto.
      * destruct (SameD _ _ l _ K1 K2 eq_refl) as [K|K]; [now left|right].
        eapply MonoD; [exact H|reflexivity| | |exact K]; cbn; auto.
    + cbn [base mem ch xcs]. intros c0 n0 x0 K1 K2.
      destruct (Cur _ _ Ch) with (c := c0) (n := n0) (x := x0) as [[K|K]|(d & K)]; auto.
      * cbn [base mem dh xds]. intros i ni _. rewrite !nth_upd_ne; auto.
      * right. eapply MonoC; [exact H|reflexivity| |exact K]; cbn; auto.
      * right. exists t. eexists _, d. cbn [base ths]. split; [eapply nth_upd_eq; eauto|]. cbn. auto.
  - (* chance backup *)
    destruct (q_chain _ _ Q _ _ H) as (cur & Ch).
    pose proof (no_t _ _ _ _ _ _ _ _ N _ _ _ H H2) as Tk. cbn in Tk. destruct Tk as (k0 & k' & Tk1 & Tk2 & _).
    inversion Tk1 as [|? ? ? a k nd Dc Hnd Ed Tk3]; subst. inversion Ch as [|? ? ? a' o' ? Dc' Cc' Ch']; subst.
    set (ga' := setg ga t a).
    assert (Eg : forall t', t' <> t -> ga' t' = ga t') by (intros t' nt; unfold ga', setg; apply Nat.eqb_neq in nt; now rewrite nt).
    assert (Egt : ga' t = Some a) by (unfold ga', setg; now rewrite Nat.eqb_refl).
    exists ga'. constructor.
    + eapply UpChain; [exact H|reflexivity|]. exact Ch'.
    + eapply UpAct; [exact H|reflexivity|reflexivity|auto|]. intros d0 nodes0 b0 f0 ta0 to0 [= <- <- <- <- <- <-].
      exists a, k, k', c. split; auto. split; [apply (P_fin _ _ _ _ _ _ Rules); exact Tk2|]. split; [exists nd; auto|exact Dc].
    + cbn [base mem dh xds]. intros d0 n0 x0 l K1 K2.
      destruct (Kid _ _ _ Dc) with (d := d0) (n := n0) (x := x0) (l := l) as [[K|K]|[-> E]]; auto.
      * cbn [base mem ch xcs]. intros i ni _. rewrite nth_upd_ne; auto.
      * cbn [base mem ch xcs]. do 2 eexists. split; [eauto|eapply nth_upd_eq; eauto].
      * right. apply (holdsD_step s _ ga ga' t _ _ d0 l X H eq_refl Eg K).
        intros [(a1 & c1 & J & Dc1 & El)|(a1 & [] & _)]. destruct J as [[= <- <-]|J].
        -- right. exists a. split; auto. split; auto. destruct (parent_d _ I _ _ _ _ _ Dc Dc1) as [_ ->]. exact El.
        -- left. exists a1, c1. auto.
      * right. exists t. eexists. cbn [base ths]. split; [eapply nth_upd_eq; eauto|]. right. exists a. auto.
    + cbn [base mem ch xcs]. intros c0 n0 x0 K1 K2. rewrite (nth_upd _ _ _ _ _ _ H1) in K2. destruct (Nat.eqb_spec c c0) as [->|ne].
      * injection K2 as <-. assert (n0 = n) by congruence. subst n0.
        pose proof (M _ _ _ H H2) as Mt. cbn [mid1] in Mt. destruct (Mt _ H0) as [Mt'|(u & y & Nu & Hu & (d' & Ku))].
        2:{ right. exists u, y, d'. cbn [base ths]. rewrite nth_upd_ne by auto. auto. }
        left. exact (K_backc QRules n x (cview s n) cx _ x1 (chance_inner seqb aeqb C G s _ _ I H0) (no_c _ _ _ _ _ _ _ _ N _ _ _ H0 H1)
                 (cview_kids seqb aeqb seqb_ok C G PD PC PX QC s _ _ I N H0) Mt' H3).
      * destruct (SameC _ _ _ K1 K2 eq_refl) as [K|K]; [now left|right].
        match goal with |- holdsC ?s2 _ => apply (holdsC_step s s2 t _ _ c0 H eq_refl K) end. intros d1 J. cbn [pairs In] in *.
        destruct J as [J|J]; [congruence|exact J].
  - (* decision backup *)
    pose proof (q_chain _ _ Q _ _ H) as Ch. cbn in Ch.
    destruct (q_act _ _ Q _ _ _ _ _ _ _ _ H H2) as (a & k & k' & c & Ga & Px & (n2 & Hn2 & Ed) & Dc).
    rewrite H0 in Hn2. injection Hn2 as <-.
    assert (Hc : exists nc yc, nth_error (ch (mem (base s))) c = Some nc /\ nth_error (xcs s) c = Some yc).
    { apply (ch_some seqb aeqb C G s c I). exact (dchild_lt _ _ _ _ I Dc). }
    destruct Hc as (nc & yc & Hnc & Hyc).
    (* a look that is no longer right: somebody else owes the node a backup *)
    assert (Stale : (forall v, In v (seen_d G cx) -> v = dview s n) \/
      (forall l, exists u y, u <> t /\ nth_error (ths (base s)) u = Some y /\ owesD (mem (base s)) ga u y d l)).
    { destruct OneLab as [No|One]; [left; rewrite No; intros v []|].
      pose proof (M _ _ _ H H2) as Mt. cbn [mid1] in Mt. destruct (Mt _ H0) as [Mt'|(u & y & Nu & Hu & Ku)]; [now left|right].
      intros l. exists u, y. split; auto. split; auto. destruct Ku as [(c' & Ku)|Ku].
      - left. pose proof (q_chain _ _ Q _ _ Hu) as Tcu. destruct (pairs_edge _ _ _ _ Tcu Ku) as (a' & Da). exists a', c'. auto.
      - right. destruct y; try contradiction. subst d0.
        assert (Hcu : exists cu, nth_error (cxs s) u = Some cu).
        { destruct (nth_error (cxs s) u) eqn:E0; eauto. apply nth_error_None in E0.
          assert (u < length (ths (base s)))%nat by (apply nth_error_Some; congruence). lia. }
        destruct Hcu as (cu & Hcu). destruct (q_act _ _ Q _ _ _ _ _ _ _ _ Hu Hcu) as (a' & _ & _ & _ & Ga' & _). exists a'. auto. }
    destruct Stale as [Now|Stale].
    2:{ exists ga. constructor.
      + eapply UpChain; [exact H|reflexivity|]. exists d. exact Ch.
      + eapply UpAct; [exact H|reflexivity|reflexivity|auto|]. discriminate.
      + cbn [base mem dh xds]. intros d0 n0 x0 l K1 K2. rewrite (nth_upd _ _ _ _ _ _ H1) in K2. destruct (Nat.eqb_spec d d0) as [->|ne].
        * right. destruct (Stale l) as (u & y & Nu & Hu & Ou). exists u, y. cbn [base ths mem]. rewrite nth_upd_ne by auto. auto.
        * destruct (SameD _ _ l _ K1 K2 eq_refl) as [K|K]; [now left|right].
          apply (holdsD_step s _ ga ga t _ _ d0 l X H eq_refl ltac:(auto) K).
          intros [(a1 & c1 & J & Dc1 & El')|(a1 & J & _)]; [|exfalso; congruence]. left. exists a1, c1. auto.
      + cbn [base mem ch xcs]. intros c0 n0 x0 K1 K2.
        destruct (Cur _ _ Ch) with (c := c0) (n := n0) (x := x0) as [[K|K]|(d1 & K)]; auto.
        * cbn [base mem dh xds]. intros i ni _. rewrite nth_upd_ne; auto.
        * right. eapply MonoC; [exact H|reflexivity| |exact K]; cbn; auto.
        * right. exists t. eexists _, d1. cbn [base ths]. split; [eapply nth_upd_eq; eauto|]. cbn. auto. }
    destruct (K_backd QRules n x (dview s n) cx _ x1 k a k' (edge_inner seqb aeqb aeqb_ok C G s _ _ _ _ I Dc H0) (no_d _ _ _ _ _ _ _ _ N _ _ _ H0 H1)
                (dview_kids seqb aeqb aeqb_ok C G PD PC PX QC s _ _ I N H0) Px Ed
                (ex_intro _ nc (ex_intro _ yc (dview_has aeqb aeqb_ok G s _ _ _ _ _ _ H0 Dc Hnc Hyc))) Now H3) as [B1 B2].
    exists ga. constructor.
    + eapply UpChain; [exact H|reflexivity|]. exists d. exact Ch.
    + eapply UpAct; [exact H|reflexivity|reflexivity|auto|]. discriminate.
    + cbn [base mem dh xds]. intros d0 n0 x0 l K1 K2. rewrite (nth_upd _ _ _ _ _ _ H1) in K2. destruct (Nat.eqb_spec d d0) as [->|ne].
      * injection K2 as <-. assert (n0 = n) by congruence. subst n0. destruct (leq l (lab a)) as [->|El]; [left; exact B1|].
        destruct (q_d _ _ Q _ _ _ l H0 H1) as [K|K]; [left; now apply B2|right].
        apply (holdsD_step s _ ga ga t _ _ d0 l X H eq_refl ltac:(auto) K).
        intros [(a1 & c1 & J & Dc1 & El')|(a1 & _ & Ea & El')]; [|exfalso; congruence]. left. exists a1, c1. auto.
      * destruct (SameD _ _ l _ K1 K2 eq_refl) as [K|K]; [now left|right].
        apply (holdsD_step s _ ga ga t _ _ d0 l X H eq_refl ltac:(auto) K).
        intros [(a1 & c1 & J & Dc1 & El')|(a1 & J & _)]; [|exfalso; congruence]. left. exists a1, c1. auto.
    + cbn [base mem ch xcs]. intros c0 n0 x0 K1 K2.
      destruct (Cur _ _ Ch) with (c := c0) (n := n0) (x := x0) as [[K|K]|(d1 & K)]; auto.
      * cbn [base mem dh xds]. intros i ni _. rewrite nth_upd_ne; auto.
      * right. eapply MonoC; [exact H|reflexivity| |exact K]; cbn; auto.
      * right. exists t. eexists _, d1. cbn [base ths]. split; [eapply nth_upd_eq; eauto|]. cbn. auto.
  - (* look of a chance backup *)
    exists ga. constructor; cbn [base xds xcs cxs].
    + exact (q_chain _ _ Q).
    + intros t1 cx' d0 nodes0 b0 f0 ta0 to0 Q1 Q2. rewrite nth_upd_ne in Q2 by (intros ->; congruence). exact (q_act _ _ Q _ _ _ _ _ _ _ _ Q1 Q2).
    + intros d0 n0 x0 l K1 K2. exact (q_d _ _ Q _ _ _ l K1 K2).
    + exact (q_c _ _ Q).
  - (* look of a decision backup *)
    exists ga. constructor; cbn [base xds xcs cxs].
    + exact (q_chain _ _ Q).
    + intros t1 cx' d0 nodes0 b0 f0 ta0 to0 Q1 Q2. rewrite (nth_upd _ _ _ _ _ _ H2) in Q2. destruct (Nat.eqb_spec t t1) as [<-|ne].
      * injection Q2 as <-. destruct (q_act _ _ Q _ _ _ _ _ _ _ _ Q1 H2) as (a & k & k' & c & K1 & K2 & K3).
        exists a, k, k', c. split; auto. split; auto. exact (P_peekd _ _ _ _ _ _ Rules _ _ _ _ K2 H3).
      * exact (q_act _ _ Q _ _ _ _ _ _ _ _ Q1 Q2).
    + intros d0 n0 x0 l K1 K2. exact (q_d _ _ Q _ _ _ l K1 K2).
    + exact (q_c _ _ Q).
  - (* done *)
    exists ga. constructor.
    + eapply UpChain; [exact H|reflexivity|]. exact Logic.I.
    + eapply UpAct; [exact H|reflexivity|reflexivity|auto|]. discriminate.
    + cbn [base mem dh xds]. intros d n x l H1 H2. destruct (SameD _ _ l _ H1 H2 eq_refl) as [K|K]; [now left|right].
      eapply MonoD; [exact H|reflexivity| | |exact K]; cbn; auto.
    + cbn [base mem ch xcs]. intros d n x H1 H2. destruct (SameC _ _ _ H1 H2 eq_refl) as [K|K]; [now left|right].
      eapply MonoC; [exact H|reflexivity| |exact K]; cbn; auto.
  - (* failure *) exists ga. destruct Q as [Q1 Q2 Q3 Q4]. constructor; assumption.
Qed.

Lemma q_reach : forall n g s, areach seqb aeqb C G n g s -> exists ga, qinv s ga.
Proof using All.
  intros n g s R.
  enough (K : nodes_ok aeqb C G PD PC PX QC s /\ mid s /\ exists ga, qinv s ga) by apply K. revert s R.
  apply (areach_inv seqb aeqb seqb_ok aeqb_ok C G).
  - split; [apply (nodes_reach seqb aeqb seqb_ok aeqb_ok C G PD PC PX QC Rules n g); exists []; reflexivity|].
    split. { intros t x cx H _. cbn in H. apply nth_error_In, repeat_spec in H. subst x. exact Logic.I. }
    exists (fun _ => None). constructor; cbn.
    + intros t x H. apply nth_error_In, repeat_spec in H. now subst.
    + intros t cx d nodes b f ta to H _. apply nth_error_In, repeat_spec in H. discriminate.
    + intros [|[|d]] m x l; cbn; try discriminate. intros [= <-] [= <-]. left. apply QRules.
    + intros [|c]; discriminate.
  - intros s s' I [N [M [ga Q]]] T. split; [exact (nodes_step seqb aeqb seqb_ok aeqb_ok C G PD PC PX QC Rules _ _ I N T)|].
    split; [exact (mid_step s s' I (q_chain _ _ Q) M T)|]. exact (q_step s s' ga I N Q M T).
Qed.

(** Once no trial is in progress, every node agrees with its children. *)
Lemma quiet_cons : forall n g s, areach seqb aeqb C G n g s -> quiet (base s) ->
  (forall d node x l, nth_error (dh (mem (base s))) d = Some node -> nth_error (xds s) d = Some x -> ConsD l node x (dview s node)) /\
  (forall c node x, nth_error (ch (mem (base s))) c = Some node -> nth_error (xcs s) c = Some x -> ConsC node x (cview s node)).
Proof using All.
  intros n g s R Q. destruct (q_reach _ _ _ R) as (ga & [_ _ K1 K2]).
  assert (Idle : forall t x, nth_error (ths (base s)) t = Some x -> x = TIdle).
  { intros t x H. eapply Q; eauto using nth_error_In. }
  split.
  - intros d node x l H1 H2. destruct (K1 _ _ _ l H1 H2) as [K|(t & x0 & Ht & O)]; auto. rewrite (Idle _ _ Ht) in O.
    destruct O as [(a & c & [] & _)|(a & [] & _)].
  - intros c node x H1 H2. destruct (K2 _ _ _ H1 H2) as [K|(t & x0 & d & Ht & O)]; auto. rewrite (Idle _ _ Ht) in O. destruct O.
Qed.
End Quiet.

(** ** Every node holds the result of a backup from the present values of its children *)
Section Backups.
Context {S A : Type}.
Variable seqb : S -> S -> bool.
Variable aeqb : A -> A -> bool.
Hypothesis seqb_ok : decides seqb.
Hypothesis aeqb_ok : decides aeqb.
Variable C : @econf S A.
Variable G : @algo S A.
Hypothesis NoTT : use_tt C = false.
Variable PD : @dnode S A -> XD G -> Prop.
Variable PC : @cnode S A -> XC G -> Prop.
Variable PX : list A -> CX G -> Prop.
Variable QC : @cnode S A -> XC G -> Prop.
Hypothesis Rules : node_rules C G PD PC PX QC.
Hypothesis Vis : forall x, vis_d G false x = x.
(** What is known of nodes without children. *)
Variable Fresh : @dnode S A -> XD G -> Prop.
Hypothesis FreshNew : forall s depth time, Fresh (new_dnode C s depth time) (new_xd G (new_dnode C s depth time)).
Hypothesis FreshVis : forall n x leaf, Fresh n x -> Fresh (visit_d n) (vis_d G leaf x).

Definition from_backup_d (n : @dnode S A) (x : XD G) (kids : list (A * (@cnode S A * XC G))) : Prop :=
  exists v x0 cx b, (v <= dvisits n)%Z /\ inner C n /\ PD (with_visits n v) x0 /\ dkids_ok C G PC n kids /\
    (forall v, In v (seen_d G cx) -> v = kids) /\ back_d G (with_visits n v) x0 kids cx b = Ok x.
Definition from_backup_c (n : @cnode S A) (x : XC G) (kids : list (S * (@dnode S A * XD G))) : Prop :=
  exists x0 cx b, innerc C n /\ PC n x0 /\ ckids_ok C G PD n kids /\
    (forall v, In v (seen_c G cx) -> v = kids) /\ back_c G n x0 kids cx b = Ok x.

Lemma quiet_backups : forall n g s, areach seqb aeqb C G n g s -> quiet (base s) ->
  (forall d node x, nth_error (dh (mem (base s))) d = Some node -> nth_error (xds s) d = Some x ->
     dview s node = [] /\ Fresh node x \/ from_backup_d node x (dview s node)) /\
  (forall c node x, nth_error (ch (mem (base s))) c = Some node -> nth_error (xcs s) c = Some x -> from_backup_c node x (cview s node)).
Proof using All.
  intros n g s R Q.
  pose (ConsD := fun (_ : unit) (n : @dnode S A) (x : XD G) kids => kids = [] /\ Fresh n x \/ from_backup_d n x kids).
  assert (QR : quiet_rules aeqb C G PD PC PX unit (fun _ => Datatypes.tt) ConsD from_backup_c).
  { constructor.
    - intros l s0 depth time. left. split; auto.
    - intros l n0 x kids _ [[-> F]|(v & x0 & cx & b & Hv & In0 & P & K & V & B)]; [left; split; auto|right].
      assert (Lf : is_leaf C n0 = false).
      { destruct In0 as (I1 & I2 & _). unfold is_leaf. rewrite I1. cbn [orb]. apply Z.leb_gt. lia. }
      rewrite Lf, Vis. exists v, x0, cx, b. split; [cbn; lia|]. split; [exact In0|]. split; [exact P|]. split; [exact K|]. split; [exact V|exact B].
    - intros [] n0 n' x kids kids' _ [a []]. reflexivity.
    - intros n0 x kids cx b x1 k a k' In0 P K _ _ _ V B. split; [right|intros [] []; reflexivity].
      exists (dvisits n0), x, cx, b. replace (with_visits n0 (dvisits n0)) with n0 by (destruct n0; reflexivity).
      split; [lia|]. tauto.
    - intros n0 x kids cx b x1 In0 P K V B. exists x, cx, b. tauto. }
  destruct (quiet_cons seqb aeqb seqb_ok aeqb_ok C G NoTT PD PC PX QC Rules unit (fun _ => Datatypes.tt) (fun l l' => match l, l' with Datatypes.tt, Datatypes.tt => left eq_refl end)
              ConsD from_backup_c QR (or_intror (fun l l' => match l, l' with Datatypes.tt, Datatypes.tt => eq_refl end)) n g s R Q) as [K1 K2].
  split; [|exact K2]. intros d node x H1 H2. exact (K1 d node x Datatypes.tt H1 H2).
Qed.
End Backups.
