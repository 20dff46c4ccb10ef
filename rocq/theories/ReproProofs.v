(** A search with one worker is deterministic, and more workers that take turns do the same. *)
From Coq Require Import List ZArith Bool Reals Lia.
From Verif Require Import Base BaseProofs NumOps HelperModel EngineModel EngineSpec EngineProofs EngineInv EngineCount AlgoModel AlgoProofs AlgoFinish BoundProofs ReproSpec.
Import ListNotations.
Open Scope nat_scope.

Section Repro.
Context {S A : Type}.
Variable seqb : S -> S -> bool.
Variable aeqb : A -> A -> bool.
Hypothesis seqb_ok : decides seqb.
Hypothesis aeqb_ok : decides aeqb.
Variable C : @econf S A.
Variable G : @algo S A.
Notation estep := (estep seqb aeqb C).
Notation astep := (astep seqb aeqb C G).
Notation arun := (arun seqb aeqb C G).
Notation areach := (areach seqb aeqb C G).
Implicit Types s : ast G.

Definition owner (l : @elabel S A) : nat := match l with LStart t | LSelect t _ | LSample t _ | LRun t => t end.
Definition retag (l : @elabel S A) : @elabel S A :=
  match l with LStart _ => LStart 0 | LSelect _ a => LSelect 0 a | LSample _ o => LSample 0 o | LRun _ => LRun 0 end.

Lemma estep_solo : forall l b th, nth_error (ths b) (owner l) = Some th ->
  match estep l b with
  | Some b' => exists x evs, b' = mkEst (mem b') (upd (ths b) (owner l) x) (map (pair (owner l)) evs ++ etrace b) /\
      (forall tr1, estep (retag l) (mkEst (mem b) [th] tr1) = Some (mkEst (mem b') [x] (map (pair 0) evs ++ tr1))) /\ th <> x
  | None => forall tr1, estep (retag l) (mkEst (mem b) [th] tr1) = None
  end.
Proof using Type.
  intros l b th H.
  destruct l as [t|t a|t o|t]; cbn [owner retag] in *; unfold EngineModel.estep, out; cbn [ths nth_error mem etrace upd]; rewrite H;
    destruct th; auto.
  all: repeat match goal with
  | |- context [match ?x with Some _ => _ | None => _ end] => lazymatch x with
      | Some _ => fail | None => fail | _ => destruct x eqn:? end
  | |- context [if ?x then _ else _] => lazymatch x with true => fail | false => fail | _ => destruct x eqn:? end
  | |- context [let '(_, _) := ?x in _] => destruct x eqn:?
  | |- context [match ?x with [] => _ | _ :: _ => _ end] => is_var x; destruct x
  | |- context [match ?p with (_, _) => _ end] => is_var p; destruct p
  end; cbv zeta in *; cbn [mem] in *; auto; try discriminate;
  try match goal with H : Some _ = Some _ |- _ => injection H; clear H; intros; subst end; try (match goal with |- context [map (pair 0) (rev ?l)] => eexists _, (rev l) end; split; [reflexivity|]; split; [intros tr1; reflexivity|]; discriminate).
Qed.

(** The only active worker of [s] on its own. *)
Definition anon (p : nat * @event S A) : nat * @event S A := (0, snd p).
Definition solo s (th : @tstate A) (cx : CX G) : ast G :=
  mkA (mkEst (mem (base s)) [th] (map anon (etrace (base s)))) (xds s) (xcs s) [cx] (rg s) (afail s).
Definition active s (t : nat) (th : @tstate A) (cx : CX G) : Prop :=
  nth_error (ths (base s)) t = Some th /\ nth_error (cxs s) t = Some cx /\ forall u y, u <> t -> nth_error (ths (base s)) u = Some y -> y = TIdle.

Lemma anon_tag : forall t evs tr, map anon (map (pair t) evs ++ tr) = map (pair 0) evs ++ map anon tr.
Proof using Type. intros. rewrite map_app, map_map. f_equal. Qed.
Lemma set_solo : forall s th cx t m x evs ds cs cx1 g1,
  aset G (solo s th cx) (mkEst m [x] (map (pair 0) evs ++ map anon (etrace (base s)))) ds cs 0 cx1 g1 =
  solo (aset G s (mkEst m (upd (ths (base s)) t x) (map (pair t) evs ++ etrace (base s))) ds cs t cx1 g1) x cx1.
Proof using Type. intros. unfold aset, solo. cbn [base mem etrace xds xcs cxs rg afail upd ths]. now rewrite anon_tag. Qed.
Lemma set_active : forall s t th cx m x evs ds cs cx1 g1, active s t th cx ->
  active (aset G s (mkEst m (upd (ths (base s)) t x) evs) ds cs t cx1 g1) t x cx1.
Proof using Type.
  intros s t th cx m x evs ds cs cx1 g1 (H1 & H2 & H3). unfold active, aset. cbn [base ths cxs].
  split; [eapply nth_upd_eq; eauto|]. split; [eapply nth_upd_eq; eauto|]. intros u y N Hu. rewrite nth_upd_ne in Hu by auto. eauto.
Qed.
Lemma look_solo : forall s t th cx cx1, active s t th cx ->
  aset G (solo s th cx) (base (solo s th cx)) (xds s) (xcs s) 0 cx1 (rg s) = solo (aset G s (base s) (xds s) (xcs s) t cx1 (rg s)) th cx1 /\
  active (aset G s (base s) (xds s) (xcs s) t cx1 (rg s)) t th cx1.
Proof using Type.
  intros s t th cx cx1 (H1 & H2 & H3). split; [reflexivity|]. unfold active, aset. cbn [base ths cxs]. split; [exact H1|]. split; [eapply nth_upd_eq; eauto|exact H3].
Qed.
Lemma solo_free : forall s t th cx, active s t th cx -> blocked G s t th = false /\ blocked G (solo s th cx) 0 th = false.
Proof using Type.
  intros s t th cx (H1 & H2 & H3). split; apply not_blocked.
  - intros u y cy k N Hy Hc Hh. rewrite (H3 u y N Hy) in Hh. discriminate.
  - intros u y cy k N Hy. cbn in Hy. destruct u as [|u]; [congruence|]. destruct u; discriminate.
Qed.

Lemma astep_solo : forall t s s' th cx, active s t th cx -> astep (ARun t) s = Some s' ->
  exists th' cx', astep (ARun 0) (solo s th cx) = Some (solo s' th' cx') /\ active s' t th' cx' /\ th <> TIdle.
Proof using Type.
  intros t s s' th cx Ac H. pose proof Ac as (H1 & H2 & H3). destruct (solo_free s t th cx Ac) as [B1 B2].
  unfold AlgoModel.astep in H |- *. rewrite H1, H2, B1 in H. cbn [afail solo]. destruct (afail s) eqn:Ef; [discriminate|].
  replace (nth_error (ths (base (solo s th cx))) 0) with (Some th) by reflexivity. replace (nth_error (cxs (solo s th cx)) 0) with (Some cx) by reflexivity.
  rewrite B2. replace (mem (base (solo s th cx))) with (mem (base s)) by reflexivity.
  assert (Q : forall l ds cs cx1 g1, owner l = t -> th <> TIdle ->
    match estep l (base s) with
    | Some b => exists b1, estep (retag l) (base (solo s th cx)) = Some b1 /\ exists x, aset G (solo s th cx) b1 ds cs 0 cx1 g1 = solo (aset G s b ds cs t cx1 g1) x cx1 /\ active (aset G s b ds cs t cx1 g1) t x cx1
    | None => estep (retag l) (base (solo s th cx)) = None
    end).
  { intros l ds cs cx1 g1 <- N. pose proof (estep_solo l (base s) th H1) as E. destruct (estep l (base s)) as [b|].
    - destruct E as (x & evs & Eb & E & _). eexists. split; [apply E|]. exists x. rewrite Eb. cbn [mem]. split; [apply set_solo|eapply set_active; eauto].
    - apply E. }
  assert (D : forall f, exists th' cx', Some (adie G (solo s th cx) f) = Some (solo (adie G s f) th' cx') /\ active (adie G s f) t th' cx').
  { intros f. exists th, cx. split; [reflexivity|exact Ac]. }
  assert (V1 : forall n, dview (solo s th cx) n = dview s n) by reflexivity. assert (V2 : forall n, cview (solo s th cx) n = cview s n) by reflexivity.
  assert (DD : forall f, Some (adie G s f) = Some s' -> th <> TIdle -> exists th' cx', Some (adie G (solo s th cx) f) = Some (solo s' th' cx') /\ active s' t th' cx' /\ th <> TIdle).
  { intros f [= <-] N. destruct (D f) as (a & b & ? & ?). exists a, b. auto. }
  assert (ST : forall l ds cs cx1 g1, owner l = t -> th <> TIdle -> forall k k1,
    match estep l (base s) with Some b => Some (aset G s b ds cs t cx1 g1) | None => k end = Some s' ->
    (k = Some s' -> exists th' cx', k1 = Some (solo s' th' cx') /\ active s' t th' cx') ->
    exists th' cx', match estep (retag l) (base (solo s th cx)) with Some b => Some (aset G (solo s th cx) b ds cs 0 cx1 g1) | None => k1 end = Some (solo s' th' cx') /\ active s' t th' cx' /\ th <> TIdle).
  { intros l ds cs cx1 g1 O N k k1 E K. specialize (Q l ds cs cx1 g1 O N). destruct (estep l (base s)) as [b|].
    - injection E as <-. destruct Q as (b1 & -> & x & -> & Ax). exists x, cx1. auto.
    - rewrite Q. destruct (K E) as (a & b & ? & ?). exists a, b. auto. }
  destruct th; try discriminate; cbv zeta in H |- *.
  - replace (xds (solo s (TSel cur flag nodes rewards) cx)) with (xds s) by reflexivity. replace (xcs (solo s (TSel cur flag nodes rewards) cx)) with (xcs s) by reflexivity.
    replace (rg (solo s (TSel cur flag nodes rewards) cx)) with (rg s) by reflexivity.
    destruct (nth_error (dh (mem (base s))) cur) as [n|]; [|apply DD; auto; discriminate]. destruct (nth_error (xds s) cur) as [x|]; [|apply DD; auto; discriminate].
    destruct (should_continue C n flag).
    + rewrite V1. destruct (select G _ _ _ _ _) as [[[a cx1] g1]| |]; cbn [done] in H |- *; [|apply DD; auto; discriminate..].
      apply (ST (LSelect t a) _ _ _ _ eq_refl ltac:(discriminate) _ _ H). intros [= <-]. apply D.
    + apply (ST (LRun t) _ _ _ _ eq_refl ltac:(discriminate) _ _ H). discriminate.
  - replace (xds (solo s _ cx)) with (xds s) by reflexivity. replace (xcs (solo s _ cx)) with (xcs s) by reflexivity. replace (rg (solo s _ cx)) with (rg s) by reflexivity.
    destruct (nth_error (ch (mem (base s))) c) as [n|]; [|apply DD; auto; discriminate]. destruct (nth_error (xcs s) c) as [x|]; [|apply DD; auto; discriminate].
    destruct (sample G _ _ _ _) as [[[o cx1] g1]| |]; cbn [done] in H |- *; [|apply DD; auto; discriminate..].
    apply (ST (LSample t o) _ _ _ _ eq_refl ltac:(discriminate) _ _ H). intros [= <-]. apply D.
  - replace (xds (solo s _ cx)) with (xds s) by reflexivity. replace (xcs (solo s _ cx)) with (xcs s) by reflexivity. replace (rg (solo s _ cx)) with (rg s) by reflexivity.
    pose proof (fun ds cs cx1 g1 => Q (LRun t) ds cs cx1 g1 eq_refl ltac:(discriminate)) as Q1. cbn [retag] in Q1.
    destruct (estep (LRun t) (base s)) as [b|]; [|discriminate].
    assert (St : forall ds cs cx1 g1, Some (aset G s b ds cs t cx1 g1) = Some s' -> exists b1, estep (LRun 0) (base (solo s (TBack nodes before after tafter total) cx)) = Some b1 /\
      exists th' cx', Some (aset G (solo s (TBack nodes before after tafter total) cx) b1 ds cs 0 cx1 g1) = Some (solo s' th' cx') /\ active s' t th' cx').
    { intros ds cs cx1 g1 [= <-]. destruct (Q1 ds cs cx1 g1) as (b1 & E & x & Ex & Ax). exists b1. split; [exact E|]. exists x, cx1. rewrite Ex. auto. }
    assert (Ex : exists b1, estep (LRun 0) (base (solo s (TBack nodes before after tafter total) cx)) = Some b1) by (destruct (Q1 (xds s) (xcs s) cx (rg s)) as (b1 & E & _); eauto).
    destruct Ex as (b1 & Eb1). rewrite Eb1.
    assert (St1 : forall ds cs cx1 g1, Some (aset G s b ds cs t cx1 g1) = Some s' ->
      exists th' cx', Some (aset G (solo s (TBack nodes before after tafter total) cx) b1 ds cs 0 cx1 g1) = Some (solo s' th' cx') /\ active s' t th' cx' /\ TBack nodes before after tafter total <> (@TIdle A)).
    { intros ds cs cx1 g1 E. destruct (St ds cs cx1 g1 E) as (b2 & E2 & a & c & ? & ?). replace b2 with b1 in * by congruence. exists a, c. split; [assumption|]. split; [assumption|discriminate]. }
    destruct nodes as [|[d c] nodes]; [apply St1; exact H|]. destruct before as [|r before]; [apply St1; exact H|].
    destruct (nth_error (ch (mem (base s))) c) as [n|]; [|apply DD; auto; discriminate]. destruct (nth_error (xcs s) c) as [x|]; [|apply DD; auto; discriminate].
    rewrite V2. destruct (peek_c G (cview s n) cx) as [cx1|].
    { injection H as <-. destruct (look_solo s t _ cx cx1 Ac) as [E1 E2]. eexists _, cx1. split; [rewrite <- E1; reflexivity|]. split; [exact E2|discriminate]. }
    destruct (back_c G _ _ _ _ _) as [x1| |]; cbn [done] in H |- *; [|apply DD; auto; discriminate..]. apply St1. exact H.
  - replace (xds (solo s _ cx)) with (xds s) by reflexivity. replace (xcs (solo s _ cx)) with (xcs s) by reflexivity. replace (rg (solo s _ cx)) with (rg s) by reflexivity.
    pose proof (fun ds cs cx1 g1 => Q (LRun t) ds cs cx1 g1 eq_refl ltac:(discriminate)) as Q1. cbn [retag] in Q1.
    destruct (estep (LRun t) (base s)) as [b|]; [|discriminate].
    assert (Ex : exists b1, estep (LRun 0) (base (solo s (TBackD d nodes before after tafter total) cx)) = Some b1) by (destruct (Q1 (xds s) (xcs s) cx (rg s)) as (b1 & E & _); eauto).
    destruct Ex as (b1 & Eb1). rewrite Eb1.
    destruct (nth_error (dh (mem (base s))) d) as [n|]; [|apply DD; auto; discriminate]. destruct (nth_error (xds s) d) as [x|]; [|apply DD; auto; discriminate].
    rewrite V1. destruct (peek_d G (dview s n) cx) as [cx1|].
    { injection H as <-. destruct (look_solo s t _ cx cx1 Ac) as [E1 E2]. eexists _, cx1. split; [rewrite <- E1; reflexivity|]. split; [exact E2|discriminate]. }
    destruct (back_d G _ _ _ _ _) as [x1| |]; cbn [done] in H |- *; [|apply DD; auto; discriminate..]. injection H as <-.
    destruct (Q1 (upd (xds s) d x1) (xcs s) (fin G cx) (rg s)) as (b2 & E2 & y & Ey & Ay). replace b2 with b1 in * by congruence. exists y, (fin G cx). split; [f_equal; exact Ey|]. split; [exact Ay|discriminate].
Qed.

Lemma count_app : forall (f : @event S A -> bool) l r, count f (l ++ r) = (count f l + count f r)%Z.
Proof using Type. intros f l r. induction l as [|[t e] l IH]; [reflexivity|]. cbn [app]. rewrite !count_cons, IH. lia. Qed.
(** One worker. *)
Lemma one_label : forall l l' s s1 s2, length (ths (base s)) = 1 -> astep l s = Some s1 -> astep l' s = Some s2 -> l = l'.
Proof using Type.
  intros l l' s s1 s2 L H1 H2. destruct (ths (base s)) as [|th [|? ?]] eqn:T; try discriminate. clear L.
  assert (St : forall t x, astep (AStart t) s = Some x -> t = 0 /\ th = TIdle).
  { intros t x H. unfold AlgoModel.astep in H. destruct (afail s); [discriminate|]. unfold EngineModel.estep in H. rewrite T in H. destruct t as [|[|t]]; cbn in H; try discriminate. destruct th; try discriminate. auto. }
  assert (Ru : forall t x, astep (ARun t) s = Some x -> t = 0 /\ th <> TIdle).
  { intros t x H. unfold AlgoModel.astep in H. destruct (afail s); [discriminate|]. rewrite T in H. destruct t as [|[|t]]; [|discriminate..]. change (nth_error [th] 0) with (Some th) in H. destruct (nth_error (cxs s) 0); [|discriminate].
    split; [reflexivity|]. intros ->. destruct (blocked _ _ _ _); discriminate. }
  destruct l as [t|t], l' as [t'|t'].
  - destruct (St _ _ H1), (St _ _ H2). congruence.
  - destruct (St _ _ H1), (Ru _ _ H2). congruence.
  - destruct (Ru _ _ H1), (St _ _ H2). congruence.
  - destruct (Ru _ _ H1), (Ru _ _ H2). congruence.
Qed.
Lemma workers_kept : forall l s s', astep l s = Some s' -> length (ths (base s')) = length (ths (base s)).
Proof using Type.
  intros l s s' H. destruct (astep_estep seqb aeqb C G l s s' H) as [E|(l1 & E)]; [now rewrite E|].
  destruct (nth_error (ths (base s)) (owner l1)) as [th|] eqn:Ht.
  - pose proof (estep_solo l1 (base s) th Ht) as K. rewrite E in K. destruct K as (x & evs & K & _). rewrite K. cbn [ths]. apply upd_length.
  - exfalso. destruct l1; cbn [owner] in Ht; unfold EngineModel.estep in E; rewrite Ht in E; discriminate.
Qed.
Lemma one_order : forall ls1 ls2 s s1 s2, length (ths (base s)) = 1 -> arun ls1 s = Some s1 -> arun ls2 s = Some s2 ->
  (exists ls, arun ls s1 = Some s2) \/ (exists ls, arun ls s2 = Some s1).
Proof using Type.
  induction ls1 as [|l ls1 IH]; intros ls2 s s1 s2 L H1 H2; cbn [AlgoModel.arun] in H1.
  - injection H1 as <-. left. eauto.
  - destruct ls2 as [|l' ls2]; cbn [AlgoModel.arun] in H2.
    + injection H2 as <-. right. exists (l :: ls1). exact H1.
    + destruct (astep l s) as [x|] eqn:E; [|discriminate]. destruct (astep l' s) as [x'|] eqn:E'; [|discriminate].
      pose proof (one_label l l' s x x' L E E') as <-. rewrite E in E'. injection E' as <-. apply (IH ls2 x); auto. rewrite (workers_kept l s x E). exact L.
Qed.
Lemma starts_kept : forall l s s', astep l s = Some s' -> (count is_start (etrace (base s)) <= count is_start (etrace (base s')))%Z.
Proof using Type.
  intros l s s' H. destruct (astep_estep seqb aeqb C G l s s' H) as [E|(l1 & E)]; [rewrite E; lia|].
  destruct (nth_error (ths (base s)) (owner l1)) as [th|] eqn:Ht.
  - pose proof (estep_solo l1 (base s) th Ht) as K. rewrite E in K. destruct K as (x & evs & K & _). rewrite K. cbn [etrace]. rewrite count_app.
    pose proof (count_pos (@is_start S A) (map (pair (owner l1)) evs)). lia.
  - exfalso. destruct l1; cbn [owner] in Ht; unfold EngineModel.estep in E; rewrite Ht in E; discriminate.
Qed.
Lemma starts_run : forall ls s s', arun ls s = Some s' -> (count is_start (etrace (base s)) <= count is_start (etrace (base s')))%Z.
Proof using Type.
  induction ls as [|l ls IH]; intros s s' H; cbn [AlgoModel.arun] in H; [injection H as <-; lia|]. destruct (astep l s) as [x|] eqn:E; [|discriminate].
  pose proof (starts_kept l s x E). specialize (IH x s' H). lia.
Qed.
Lemma quiet_more : forall ls s s', quiet (base s) -> arun ls s = Some s' -> count is_start (etrace (base s')) = count is_start (etrace (base s)) -> s' = s.
Proof using Type.
  intros [|l ls] s s' Q H N; cbn [AlgoModel.arun] in H; [injection H as <-; reflexivity|]. exfalso. destruct (astep l s) as [x|] eqn:E; [|discriminate].
  pose proof (starts_run ls x s' H) as K. unfold AlgoModel.astep in E. destruct (afail s); [discriminate|]. destruct l as [t|t].
  - unfold EngineModel.estep in E. destruct (nth_error (ths (base s)) t) as [[]|]; try discriminate. injection E as <-. unfold out in K. cbn in K. unfold count in K. cbn in K. unfold count in N. lia.
  - destruct (nth_error (ths (base s)) t) as [th|] eqn:Ht; [|discriminate]. destruct (nth_error (cxs s) t); [|discriminate]. rewrite (Q t th Ht) in E. destruct (blocked _ _ _ _); discriminate.
Qed.
Lemma one_worker : forall g s s', areach 1 g s -> areach 1 g s' -> quiet (base s) -> quiet (base s') -> count is_start (etrace (base s)) = count is_start (etrace (base s')) -> s = s'.
Proof using Type.
  intros g s s' [l1 R1] [l2 R2] Q1 Q2 N. destruct (one_order l1 l2 (ainit C G 1 g) s s' eq_refl R1 R2) as [[ls H]|[ls H]].
  - symmetry. exact (quiet_more ls s s' Q1 H (eq_sym N)).
  - exact (quiet_more ls s' s Q2 H N).
Qed.

(** Workers that take turns. *)
Lemma turn : forall n g ls s s', areach n g s -> one_at_a_time seqb aeqb C ls s -> arun ls s = Some s' ->
  (exists t th cx, active s t th cx /\ areach 1 g (solo s th cx)) ->
  exists t th cx, active s' t th cx /\ areach 1 g (solo s' th cx).
Proof using All.
  intros n g. induction ls as [|l ls IH]; intros s s' R0 O H X; cbn [AlgoModel.arun one_at_a_time] in *; [injection H as <-; exact X|].
  destruct O as [O1 O2]. destruct (astep l s) as [s1|] eqn:E; [|discriminate]. apply (IH s1 s' (areach_snoc seqb aeqb C G n g s l s1 R0 E) O2 H). clear IH H O2.
  pose proof (ag_t _ _ _ _ s (areach_good seqb aeqb seqb_ok aeqb_ok C G n g s R0)) as Lt.
  destruct X as (t & th & cx & Ac & R). pose proof Ac as (H1 & H2 & H3). destruct l as [u|u].
  - unfold AlgoModel.astep in E. destruct (afail s) eqn:Ef; [discriminate|]. pose proof (O1 t th H1) as ->.
    destruct (nth_error (ths (base s)) u) as [tu|] eqn:Hu; [|unfold EngineModel.estep in E; rewrite Hu in E; discriminate].
    pose proof (O1 u tu Hu) as ->. pose proof (estep_solo (LStart u) (base s) TIdle Hu) as K. destruct (estep (LStart u) (base s)) as [b|]; [|discriminate]. injection E as <-.
    destruct K as (x & evs & Eb & K & _). cbn [owner retag] in *. exists u, x, (cx0 G). rewrite Eb. split.
    + unfold active, aset. cbn [base ths cxs]. split; [eapply nth_upd_eq; eauto|]. split; [|intros v y Nv Hv; rewrite nth_upd_ne in Hv by auto; eauto].
      assert (L : u < length (cxs s)) by (rewrite Lt; apply nth_error_Some; congruence).
      destruct (nth_error (cxs s) u) as [c|] eqn:Ec; [eapply nth_upd_eq; eauto|apply nth_error_None in Ec; lia].
    + destruct R as [ks R]. exists (ks ++ [AStart 0]). rewrite (arun_app seqb aeqb C G _ _ _ _ R). cbn [AlgoModel.arun]. unfold AlgoModel.astep. cbn [afail solo]. rewrite Ef.
      replace (base (solo s TIdle cx)) with (mkEst (mem (base s)) [TIdle] (map anon (etrace (base s)))) by reflexivity. rewrite K. f_equal. apply set_solo.
  - assert (u = t) as ->.
    { destruct (Nat.eq_dec u t) as [|Nu]; [assumption|]. exfalso. unfold AlgoModel.astep in E. destruct (afail s); [discriminate|]. destruct (nth_error (ths (base s)) u) as [y|] eqn:Hy; [|discriminate].
      destruct (nth_error (cxs s) u); [|discriminate]. rewrite (H3 u y Nu Hy) in E. destruct (blocked _ _ _ _); discriminate. }
    destruct (astep_solo t s s1 th cx Ac E) as (th' & cx' & E' & A' & _). exists t, th', cx'. split; [exact A'|]. destruct R as [ks R]. exists (ks ++ [ARun 0]). rewrite (arun_app seqb aeqb C G _ _ _ _ R). cbn [AlgoModel.arun]. now rewrite E'.
Qed.
End Repro.
