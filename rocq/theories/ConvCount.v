(** Deviations of returns from a value, at a node and below it. *)
From Coq Require Import List ZArith Bool Reals Lia Lra.
From Verif Require Import Base BaseProofs NumOps EngineModel EngineSpec EngineProofs EngineInv EngineCount EngineBound EngineEnds
  EngineLedger SoftSpec UctModel UctSpec WorldSpec ConvSpec.
Import ListNotations.
Open Scope R_scope.

Lemma rsum_of_abs : forall T (f : T -> R) l b, 0 <= b -> (forall x, In x l -> Rabs (f x) <= b) -> Rabs (rsum_of f l) <= INR (length l) * b.
Proof.
  intros T f l b B. induction l as [|x l IH]; intros H.
  - unfold rsum_of. cbn. rewrite Rabs_R0. lra.
  - rewrite rsum_of_cons. cbn [length]. rewrite S_INR. pose proof (Rabs_triang (f x) (rsum_of f l)). pose proof (H x (or_introl eq_refl)).
    assert (Rabs (rsum_of f l) <= INR (length l) * b) by (apply IH; intros; apply H; now right). lra.
Qed.
Lemma rsum_of_abs_le : forall T (f g : T -> R) l, (forall x, In x l -> Rabs (f x) <= g x) -> Rabs (rsum_of f l) <= rsum_of g l.
Proof.
  intros T f g l. induction l as [|x l IH]; intros H.
  - unfold rsum_of. cbn. rewrite Rabs_R0. lra.
  - rewrite !rsum_of_cons. pose proof (Rabs_triang (f x) (rsum_of f l)). pose proof (H x (or_introl eq_refl)).
    assert (Rabs (rsum_of f l) <= rsum_of g l) by (apply IH; intros; apply H; now right). lra.
Qed.
Lemma rsum_of_scal : forall T k (f : T -> R) l, rsum_of (fun x => k * f x) l = k * rsum_of f l.
Proof. intros T k f l. induction l as [|x l IH]; [unfold rsum_of; cbn; lra|]. rewrite !rsum_of_cons, IH. lra. Qed.
Lemma rsum_of_const : forall T k (l : list T), rsum_of (fun _ => k) l = INR (length l) * k.
Proof. intros T k l. induction l as [|x l IH]; [unfold rsum_of; cbn; lra|]. rewrite rsum_of_cons, IH. cbn [length]. rewrite S_INR. lra. Qed.
Lemma rsum_of_sumZ : forall T (f : T -> Z) l, rsum_of (fun x => IZR (f x)) l = IZR (sumZ f l).
Proof. intros T f l. induction l as [|x l IH]; [reflexivity|]. rewrite rsum_of_cons, IH. cbn [sumZ]. rewrite plus_IZR. lra. Qed.
Lemma rsum_of_le : forall T (f g : T -> R) l, (forall x, In x l -> f x <= g x) -> rsum_of f l <= rsum_of g l.
Proof.
  intros T f g l. induction l as [|x l IH]; intros H; [unfold rsum_of; cbn; lra|].
  rewrite !rsum_of_cons. pose proof (H x (or_introl eq_refl)). assert (rsum_of f l <= rsum_of g l) by (apply IH; intros; apply H; now right). lra.
Qed.

Section Count.
Context {S A : Type}.
Variable seqb : S -> S -> bool.
Variable aeqb : A -> A -> bool.
Hypothesis seqb_ok : decides seqb.
Hypothesis aeqb_ok : decides aeqb.
Variable C : @econf S A.
Hypothesis NoTT : use_tt C = false.
Variable B : R.
Hypothesis rwd_b : forall s a o, Rabs (rwd C s a o) <= B.
Hypothesis heur_b : forall h s, heuristic C = Some h -> Rabs (h s) <= B.
Hypothesis depth_ok : (0 <= max_depth C)%Z.
Hypothesis B0 : 0 <= B.
Notation store := (@store S A).
Notation est := (@est S A).
Notation event := (@event S A).
Notation tstate := (@tstate A).
Notation gstep := (gstep seqb aeqb C).
Notation ereach := (ereach seqb aeqb C).
Notation dchild := (dchild aeqb).
Notation cchild := (cchild seqb).
Notation Lim := (limit C B).
Notation linked := (linked seqb aeqb C).

Lemma Lim_pos : 0 <= Lim.
Proof using B0 depth_ok. unfold limit. apply Rmult_le_pos; auto. apply IZR_le in depth_ok. lra. Qed.

(** ** A worker is at most once at every node *)
Lemma linked_once : forall m, tinv seqb aeqb C m -> forall nodes rs cur n, nth_error (dh m) cur = Some n -> linked m cur nodes rs ->
  forall d, (countb (fun p => Nat.eqb (fst p) d) nodes <= 1)%Z /\
    (forall nd, nth_error (dh m) d = Some nd -> (ddepth n <= ddepth nd)%Z -> countb (fun p => Nat.eqb (fst p) d) nodes = 0%Z).
Proof using Type.
  intros m I nodes. induction nodes as [|[d1 c1] nodes IH]; intros [|r rs] cur n Hn L d; cbn in L; try (destruct L; fail).
  - cbn. split; [lia|auto].
  - destruct L as (a & o & x & (n1 & Hn1 & L1) & Hx & Lx & _ & L).
    destruct (wf_d _ _ _ _ (ti_wf _ _ _ _ I) _ _ _ _ Hn1 L1) as (x' & Hx' & _ & Ed & _). rewrite Hx in Hx'. injection Hx' as <-.
    destruct (wf_c _ _ _ _ (ti_wf _ _ _ _ I) _ _ _ _ Hx Lx) as (n' & Hn' & _ & Ed' & _). rewrite Hn in Hn'. injection Hn' as <-.
    destruct (IH _ _ _ Hn1 L d) as [P Q]. cbn [countb fst]. destruct (Nat.eqb_spec d1 d) as [->|ne].
    + rewrite (Q n1 Hn1) by lia. split; [lia|]. intros nd Hnd Le. rewrite Hn1 in Hnd. injection Hnd as <-. lia.
    + split; [lia|]. intros nd Hnd Le. rewrite (Q nd Hnd) by lia. lia.
Qed.
Lemma linked_once_c : forall m, tinv seqb aeqb C m -> forall nodes rs cur, linked m cur nodes rs ->
  forall c d a, dchild m d a c -> (countb (fun p => Nat.eqb (snd p) c) nodes <= countb (fun p => Nat.eqb (fst p) d) nodes)%Z.
Proof using Type.
  intros m I nodes. induction nodes as [|[d1 c1] nodes IH]; intros [|r rs] cur L c d a D; cbn in L; try (destruct L; fail).
  - cbn. lia.
  - destruct L as (a1 & o & x & D1 & _ & _ & _ & L). specialize (IH _ _ L c d a D). cbn [countb fst snd].
    destruct (Nat.eqb_spec c1 c) as [->|]; [|destruct (Nat.eqb d1 d); lia].
    destruct (ti_cparent _ _ _ _ I _ _ _ _ _ D D1) as [<- _]. rewrite Nat.eqb_refl. lia.
Qed.

Lemma linked_node : forall s, good seqb aeqb C s -> links seqb aeqb C s -> forall t x, nth_error (ths s) t = Some x ->
  (forall d, (0 <= pendD d x <= 1)%Z) /\ (forall c d a, dchild (mem s) d a c -> (0 <= pendC c x <= 1)%Z).
Proof using Type.
  intros s [I Sf] L t x Hx. pose proof (L _ _ Hx) as Lx. pose proof (Sf _ _ Hx) as Z.
  assert (Root : exists r, nth_error (dh (mem s)) 0 = Some r).
  { destruct (wf_root _ _ _ _ (ti_wf _ _ _ _ I)) as (r & Hr & _). eauto. }
  assert (Node : forall cur nodes rs, linked (mem s) cur nodes rs -> exists n, nth_error (dh (mem s)) cur = Some n).
  { intros cur nodes rs Lk. destruct nodes as [|[d c] nodes], rs as [|r rs]; cbn in Lk; try (destruct Lk; fail); [subst; auto|].
    destruct Lk as (a & o & y & _ & Hy & Ly & _). destruct (wf_c _ _ _ _ (ti_wf _ _ _ _ I) _ _ _ _ Hy Ly) as (n & Hn & _). eauto. }
  assert (G : forall cur nodes rs, linked (mem s) cur nodes rs ->
    (forall d, (0 <= countb (fun p : nat * nat => Nat.eqb (fst p) d) nodes <= 1)%Z) /\
    (forall d, (0 <= b2z (Nat.eqb cur d) + countb (fun p : nat * nat => Nat.eqb (fst p) d) nodes <= 1)%Z) /\
    (forall c d a, dchild (mem s) d a c -> (0 <= countb (fun p : nat * nat => Nat.eqb (snd p) c) nodes <= 1)%Z)).
  { intros cur nodes rs Lk. destruct (Node _ _ _ Lk) as (n & Hn).
    assert (P1 : forall d, (0 <= countb (fun p : nat * nat => Nat.eqb (fst p) d) nodes <= 1)%Z).
    { intros d. split; [apply countb_nonneg|]. apply (linked_once _ I _ _ _ _ Hn Lk d). }
    split; auto. split.
    - intros d. specialize (P1 d). destruct (Nat.eqb_spec cur d) as [->|]; cbn [b2z]; [|lia].
      rewrite (proj2 (linked_once _ I _ _ _ _ Hn Lk d) n Hn) by lia. lia.
    - intros c d a D. split; [apply countb_nonneg|]. pose proof (linked_once_c _ I _ _ _ Lk c d a D). specialize (P1 d). lia. }
  destruct x; cbn [pendD pendC tlink] in *; try (split; intros; lia).
  - destruct (G _ _ _ Lx) as (G1 & G2 & G3). split; auto.
  - destruct Lx as [_ Lx]. destruct (G _ _ _ Lx) as (G1 & G2 & G3). split; auto.
  - destruct Lx as (cur & Lx). destruct (G _ _ _ Lx) as (G1 & G2 & G3). split; auto.
  - destruct (G _ _ _ Lx) as (G1 & G2 & G3). split; auto.
Qed.

Lemma sumZ_unit : forall (f : tstate -> Z) l, (forall t x, nth_error l t = Some x -> (0 <= f x <= 1)%Z) -> (0 <= sumZ f l <= Z.of_nat (length l))%Z.
Proof using Type.
  intros f l. induction l as [|x l IH]; intros H; cbn [sumZ length]; [lia|].
  pose proof (H 0%nat x eq_refl). assert (0 <= sumZ f l <= Z.of_nat (length l))%Z by (apply IH; intros t y Q; exact (H (Datatypes.S t) y Q)). lia.
Qed.

Section Reach.
Variable n : nat.
Variable s : est.
Hypothesis Rs : ereach n s.
Notation N := (Z.of_nat n).
Notation tr := (etrace s).

Lemma behind_d : forall d, (count (visits_d d) tr - N <= count (backs_d d) tr <= count (visits_d d) tr)%Z.
Proof using Rs NoTT seqb_ok aeqb_ok.
  intros d. destruct (cinv_reach seqb aeqb seqb_ok aeqb_ok C _ _ Rs) as [K _]. pose proof (ereach_good seqb aeqb seqb_ok aeqb_ok C _ _ Rs) as Gd.
  pose proof (links_reach seqb aeqb seqb_ok aeqb_ok C NoTT _ _ Rs) as L. rewrite (ci_vd _ _ K d).
  pose proof (sumZ_unit (pendD d) (ths s) (fun t x Q => proj1 (linked_node _ Gd L t x Q) d)) as P.
  rewrite (ths_length seqb aeqb seqb_ok aeqb_ok C _ _ Rs) in P. lia.
Qed.
Lemma behind_c : forall d a c, dchild (mem s) d a c -> (count (visits_c c) tr - N <= count (backs_c c) tr <= count (visits_c c) tr)%Z.
Proof using Rs NoTT seqb_ok aeqb_ok.
  intros d a c D. destruct (cinv_reach seqb aeqb seqb_ok aeqb_ok C _ _ Rs) as [K _]. pose proof (ereach_good seqb aeqb seqb_ok aeqb_ok C _ _ Rs) as Gd.
  pose proof (links_reach seqb aeqb seqb_ok aeqb_ok C NoTT _ _ Rs) as L. rewrite (ci_vc _ _ K c).
  pose proof (sumZ_unit (pendC c) (ths s) (fun t x Q => proj2 (linked_node _ Gd L t x Q) c d a D)) as P.
  rewrite (ths_length seqb aeqb seqb_ok aeqb_ok C _ _ Rs) in P. lia.
Qed.
Lemma behind_s : forall c, (count (selects_c c) tr - N <= count (visits_c c) tr <= count (selects_c c) tr)%Z.
Proof using Rs seqb_ok aeqb_ok.
  intros c. destruct (cinv_reach seqb aeqb seqb_ok aeqb_ok C _ _ Rs) as [K _]. rewrite (ci_sc _ _ K c).
  assert (P : (0 <= sumZ (atC c) (ths s) <= Z.of_nat (length (ths s)))%Z).
  { apply sumZ_unit. intros t x _. destruct x; cbn; try lia. destruct (Nat.eqb _ _); cbn; lia. }
  rewrite (ths_length seqb aeqb seqb_ok aeqb_ok C _ _ Rs) in P. lia.
Qed.
(** Arrivals at a node other than the root. *)
Lemma behind_e : forall c o d, cchild (mem s) c o d ->
  (count (goes c d) tr - 2 * N <= count (backs_d d) tr + count (ends_at d) tr <= count (goes c d) tr)%Z.
Proof using Rs NoTT seqb_ok aeqb_ok.
  intros c o d H. destruct (cinv_reach seqb aeqb seqb_ok aeqb_ok C _ _ Rs) as [K _]. pose proof (ereach_good seqb aeqb seqb_ok aeqb_ok C _ _ Rs) as Gd.
  pose proof (evs_reach seqb aeqb seqb_ok aeqb_ok C _ _ Rs) as Ev.
  rewrite <- (enters_goes seqb aeqb C s Gd Ev NoTT c o d H). pose proof (ci_en _ _ K d) as E.
  assert (Ne : d <> 0%nat) by exact (ti_noroot _ _ _ _ (proj1 Gd) _ _ _ H). rewrite (proj2 (Nat.eqb_neq d 0) Ne) in E. cbn [b2z] in E.
  assert (P : (0 <= sumZ (atD d) (ths s) <= Z.of_nat (length (ths s)))%Z).
  { apply sumZ_unit. intros t x _. destruct x; cbn; try lia. destruct (Nat.eqb _ _); cbn; lia. }
  rewrite (ths_length seqb aeqb seqb_ok aeqb_ok C _ _ Rs) in P. pose proof (behind_d d). lia.
Qed.

(** ** Sizes *)
Lemma finals_ok : forall t d hv, In (t, EFinal d hv) tr -> exists nd, nth_error (dh (mem s)) d = Some nd /\ dheur nd = hv.
Proof using Rs seqb_ok aeqb_ok.
  clear NoTT. revert s Rs.
  apply (ereach_inv seqb aeqb seqb_ok aeqb_ok C (fun s => forall t d hv, In (t, EFinal d hv) (etrace s) -> exists nd, nth_error (dh (mem s)) d = Some nd /\ dheur nd = hv)).
  - intros t d hv [].
  - intros s0 s1 Gd IH G t d hv H. pose proof (mstep_ext _ _ C _ _ (gstep_mstep _ _ _ _ _ G)) as X.
    assert (Old : In (t, EFinal d hv) (etrace s0) -> exists nd, nth_error (dh (mem s1)) d = Some nd /\ dheur nd = hv).
    { intros Q. destruct (IH _ _ _ Q) as (nd & Hd & E). destruct (xt_d _ _ _ _ X _ _ Hd) as (nd' & Hd' & _ & _ & _ & Eh & _). exists nd'. split; auto. congruence. }
    destruct G; cbn [etrace mem] in *; try (destruct H as [Q|H]; [discriminate Q|auto]; fail); try (destruct H as [Q|[Q|H]]; [discriminate Q|discriminate Q|auto]; fail).
    + destruct H as [Q|H]; auto. injection Q as <- <- <-. cbn [dh]. rewrite (nth_upd_eq _ _ _ _ _ H1). eexists. split; reflexivity.
Qed.
Lemma final_small : forall t d hv, In (t, EFinal d hv) tr -> Rabs hv <= Lim.
Proof using All.
  intros t d hv H. destruct (finals_ok _ _ _ H) as (nd & Hd & <-).
  destruct (bounded_reach seqb aeqb seqb_ok aeqb_ok C B rwd_b heur_b depth_ok B0 _ _ Rs) as (_ & Hb & _). specialize (Hb _ _ Hd).
  unfold limit. assert (0 <= IZR (max_depth C) * B) by (apply Rmult_le_pos; auto; now apply IZR_le in depth_ok). lra.
Qed.
Lemma back_small : forall t e, In (t, e) tr -> match e with EBackC _ _ _ r _ | EBackD _ _ _ r _ => Rabs r <= Lim | _ => True end.
Proof using All.
  intros t e H. destruct (bounded_reach seqb aeqb seqb_ok aeqb_ok C B rwd_b heur_b depth_ok B0 _ _ Rs) as (_ & _ & Hs). exact (Hs _ H).
Qed.
Lemma owed_small : forall t x, nth_error (ths s) t = Some x ->
  match x with TBack _ (r :: _) _ ta _ => Rabs (ta + r) <= Lim | TBackD _ _ _ _ ta _ => Rabs ta <= Lim | _ => True end.
Proof using All.
  intros t x Hx. destruct (cinv_reach seqb aeqb seqb_ok aeqb_ok C _ _ Rs) as [_ W]. specialize (W _ _ Hx).
  destruct (bounded_reach seqb aeqb seqb_ok aeqb_ok C B rwd_b heur_b depth_ok B0 _ _ Rs) as (_ & Hb & _).
  pose proof (proj1 (ereach_good seqb aeqb seqb_ok aeqb_ok C _ _ Rs)) as I.
  destruct x as [| | |nodes before after ta total|d nodes before after ta total|]; auto.
  - destruct before as [|r before]; auto. cbn in W. destruct W as (p & f & la & hv & _ & P & (n0 & Hn0 & Eh & _) & E1 & E2 & E3 & E4 & _).
    destruct p as [|z p _] using rev_ind; [discriminate|]. rewrite map_app, rev_app_distr in E2. cbn in E2. injection E2 as -> E2.
    rewrite E4. replace (hv + rsum (rev (map (srew C) f)) + srew C z) with (rsum (hv :: rev (map (srew C) (z :: f)))).
    + rewrite <- app_assoc in P. cbn [app] in P. apply (path_sum seqb aeqb C B rwd_b depth_ok _ I _ _ _ _ P). rewrite <- Eh. eauto.
    + cbn [map rev rsum]. rewrite rsum_app. cbn [rsum]. lra.
  - cbn in W. destruct W as (p & z & f & la & hv & _ & P & (n0 & Hn0 & Eh & _) & E0 & E1 & E2 & E3 & E4 & _).
    rewrite E4. apply (path_sum seqb aeqb C B rwd_b depth_ok _ I _ _ _ _ P). rewrite <- Eh. eauto.
Qed.

(** ** Deviations of the returns from [v] *)
Definition devD (v : R) (d : nat) : R := wsum (into (fun r => r - v) d 0) tr.
Definition devC (v : R) (c : nat) : R := wsum (addC (fun r => r - v) c) tr.
Definition cntD (d : nat) : Z := (count (backs_d d) tr + count (ends_at d) tr)%Z.

Lemma wsum_shift : forall v w d, wsum (into (fun r => r - v) d w) tr = devD v d + w * IZR (cntD d).
Proof using Type.
  intros v w d. unfold devD, cntD. induction tr as [|[t e] l IH]; [unfold wsum, rsum_of, count; cbn; change (0 + 0)%Z with 0%Z; lra|].
  rewrite !wsum_cons, !count_cons, IH, !plus_IZR. destruct e; cbn [into backs_d ends_at b2z]; try lra; destruct (Nat.eqb _ _); cbn [b2z]; lra.
Qed.
Lemma devD_shift : forall v v' d, devD v d = devD v' d + (v' - v) * IZR (cntD d).
Proof using Type.
  intros v v' d. unfold devD, cntD. induction tr as [|[t e] l IH]; [unfold wsum, rsum_of, count; cbn; change (0 + 0)%Z with 0%Z; lra|].
  rewrite !wsum_cons, !count_cons, IH, !plus_IZR. destruct e; cbn [into backs_d ends_at b2z]; try lra; destruct (Nat.eqb _ _); cbn [b2z]; lra.
Qed.
Lemma devC_size : forall v c, Rabs v <= Lim -> Rabs (devC v c) <= 2 * Lim * IZR (count (backs_c c) tr).
Proof using All.
  intros v c Hv. unfold devC. pose proof back_small as Sm. revert Sm. induction tr as [|[t e] l IH]; intros Sm.
  - unfold wsum, rsum_of, count. cbn. rewrite Rabs_R0. lra.
  - rewrite wsum_cons, count_cons, plus_IZR. specialize (IH (fun t e Q => Sm t e (or_intror Q))). specialize (Sm t e (or_introl eq_refl)).
    assert (Q : Rabs (addC (fun r => r - v) c e) <= 2 * Lim * IZR (b2z (backs_c c e))).
    { destruct e; cbn [addC backs_c b2z]; rewrite ?Rabs_R0, ?Rmult_0_r; try lra. destruct (Nat.eqb _ _); cbn [b2z]; rewrite ?Rabs_R0; [|lra].
      unfold Rabs in *. repeat destruct (Rcase_abs _); lra. }
    pose proof (Rabs_triang (addC (fun r => r - v) c e) (wsum (addC (fun r => r - v) c) l)). lra.
Qed.

Lemma rsum_abs_ths : forall (f : tstate -> R) b, 0 <= b -> (forall t x, nth_error (ths s) t = Some x -> Rabs (f x) <= b) -> Rabs (rsum_of f (ths s)) <= IZR N * b.
Proof using Rs seqb_ok aeqb_ok.
  intros f b Hb H. rewrite <- INR_IZR_INZ, <- (ths_length seqb aeqb seqb_ok aeqb_ok C _ _ Rs). apply rsum_of_abs; auto.
  intros x I. apply In_nth_error in I. destruct I as (t & Ht). eauto.
Qed.

Lemma devC_split : forall v c x, Rabs v <= Lim -> nth_error (ch (mem s)) c = Some x ->
  Rabs (devC v c - rsum_of (fun p => devD v (snd p) + rwd C (cstate x) (cact x) (fst p) * IZR (cntD (snd p))) (ckids x)) <= IZR N * (2 * Lim).
Proof using All.
  intros v c x Hv Hx. destruct (balanced_reach seqb aeqb seqb_ok aeqb_ok C NoTT (fun r => r - v) _ _ Rs) as [Bc _]. specialize (Bc c).
  unfold kidsC in Bc. rewrite Hx in Bc. rewrite (rsum_of_ext _ _ (fun p => devD v (snd p) + rwd C (cstate x) (cact x) (fst p) * IZR (cntD (snd p)))) in Bc by (intros; apply wsum_shift).
  fold (devC v c) in Bc. rewrite <- Bc. replace (devC v c - _) with (- rsum_of (owedC (fun r => r - v) c) (ths s)) by lra. rewrite Rabs_Ropp.
  pose proof Lim_pos. apply rsum_abs_ths; [lra|]. intros t y Hy. pose proof (owed_small _ _ Hy) as O.
  destruct y as [| | |[|[d1 c1] nodes] [|r before] after ta total| |]; cbn [owedC]; rewrite ?Rabs_R0; try lra.
  destruct (Nat.eqb _ _); rewrite ?Rabs_R0; [|lra]. unfold Rabs in *. repeat destruct (Rcase_abs _); lra.
Qed.

Lemma devD_split : forall v d nd, Rabs v <= Lim -> nth_error (dh (mem s)) d = Some nd ->
  Rabs (devD v d - rsum_of (fun p => devC v (snd p)) (dkids nd)) <= IZR (N + count (ends_at d) tr) * (2 * Lim).
Proof using All.
  intros v d nd Hv Hd. destruct (balanced_reach seqb aeqb seqb_ok aeqb_ok C NoTT (fun r => r - v) _ _ Rs) as [_ Bd]. specialize (Bd d).
  unfold kidsD in Bd. rewrite Hd in Bd. fold tr in Bd. change (rsum_of (fun p => wsum (addC (fun r => r - v) (snd p)) tr) (dkids nd)) with (rsum_of (fun p => devC v (snd p)) (dkids nd)) in Bd.
  rewrite <- Bd. pose proof Lim_pos as LP.
  assert (O : Rabs (rsum_of (owedD (fun r => r - v) d) (ths s)) <= IZR N * (2 * Lim)).
  { apply rsum_abs_ths; [lra|]. intros t y Hy. pose proof (owed_small _ _ Hy) as O. destruct y; cbn [owedD]; rewrite ?Rabs_R0; try lra.
    destruct (Nat.eqb _ _); rewrite ?Rabs_R0; [|lra]. unfold Rabs in *. repeat destruct (Rcase_abs _); lra. }
  assert (E : Rabs (devD v d - wsum (addD (fun r => r - v) d) tr) <= IZR (count (ends_at d) tr) * (2 * Lim)).
  { unfold devD. pose proof final_small as Sm. revert Sm. generalize tr. induction l as [|[t e] l IH]; intros Sm.
    - unfold wsum, rsum_of, count. cbn. rewrite Rminus_0_r, Rabs_R0. lra.
    - rewrite !wsum_cons, count_cons, plus_IZR. specialize (IH (fun t d hv Q => Sm t d hv (or_intror Q))). pose proof (fun d hv Q => Sm t d hv (or_introl Q)) as Sm'.
      assert (Q : Rabs (into (fun r => r - v) d 0 e - addD (fun r => r - v) d e) <= 2 * Lim * IZR (b2z (ends_at d e))).
      { destruct e; cbn [into addD ends_at b2z]; rewrite ?Rminus_0_r, ?Rabs_R0, ?Rmult_0_r; try lra.
        - destruct (Nat.eqb _ _); cbn [b2z]; rewrite ?Rminus_0_r, ?Rabs_R0; [|lra]. specialize (Sm' _ _ eq_refl). rewrite Rplus_0_r. unfold Rabs in *. repeat destruct (Rcase_abs _); lra.
        - match goal with |- Rabs ?z <= _ => replace z with 0 by (destruct (Nat.eqb _ _); lra) end. rewrite Rabs_R0. lra. }
      pose proof (Rabs_triang (into (fun r => r - v) d 0 e - addD (fun r => r - v) d e) (wsum (into (fun r => r - v) d 0) l - wsum (addD (fun r => r - v) d) l)) as T.
      replace (into (fun r => r - v) d 0 e + wsum (into (fun r => r - v) d 0) l - (addD (fun r => r - v) d e + wsum (addD (fun r => r - v) d) l))
        with (into (fun r => r - v) d 0 e - addD (fun r => r - v) d e + (wsum (into (fun r => r - v) d 0) l - wsum (addD (fun r => r - v) d) l)) by lra. lra. }
  pose proof (Rabs_triang (devD v d - wsum (addD (fun r => r - v) d) tr) (- rsum_of (owedD (fun r => r - v) d) (ths s))) as T. rewrite Rabs_Ropp in T.
  rewrite plus_IZR. replace (devD v d - (wsum (addD (fun r => r - v) d) tr + rsum_of (owedD (fun r => r - v) d) (ths s)))
    with (devD v d - wsum (addD (fun r => r - v) d) tr + - rsum_of (owedD (fun r => r - v) d) (ths s)) by lra. lra.
Qed.

(** ** What was sampled *)
Lemma sampled_len : forall c, Z.of_nat (length (sampled c tr)) = count (visits_c c) tr.
Proof using Type.
  intros c. induction tr as [|[t e] l IH]; auto. rewrite count_cons. unfold sampled in *. cbn [flat_map snd]. rewrite app_length, Nat2Z.inj_add, IH. f_equal.
  destruct e; auto. cbn. destruct (Nat.eqb _ _); reflexivity.
Qed.
Lemma sampled_split : forall c x (g : S -> R), nth_error (ch (mem s)) c = Some x ->
  rsum_of g (sampled c tr) = rsum_of (fun p => g (fst p) * IZR (count (goes c (snd p)) tr)) (ckids x).
Proof using Rs seqb_ok aeqb_ok.
  intros c x g Hx. pose proof (ereach_good seqb aeqb seqb_ok aeqb_ok C _ _ Rs) as [I _]. pose proof (evs_reach seqb aeqb seqb_ok aeqb_ok C _ _ Rs) as Ev.
  unfold evs_ok in Ev. revert Ev. induction tr as [|[t e] l IH]; intros Ev.
  - symmetry. apply rsum_of_zero. intros p _. unfold count. cbn. lra.
  - specialize (IH (fun t e Q => Ev t e (or_intror Q))). specialize (Ev t e (or_introl eq_refl)). unfold sampled in *. cbn [flat_map snd]. rewrite rsum_of_app, IH.
    rewrite (rsum_of_ext _ (fun p => g (fst p) * IZR (count (goes c (snd p)) ((t, e) :: l))) (fun p => g (fst p) * IZR (b2z (goes c (snd p) e)) + g (fst p) * IZR (count (goes c (snd p)) l))).
    2: { intros p _. rewrite count_cons, plus_IZR. lra. }
    rewrite rsum_of_add. f_equal. destruct e; try (symmetry; apply rsum_of_zero; intros p _; cbn; lra).
    cbn [goes]. cbn in Ev. destruct Ev as (x' & Hx' & Lo). destruct (Nat.eqb_spec c0 c) as [->|ne].
    + rewrite Hx in Hx'. injection Hx' as <-. rewrite (rsum_of_ext _ _ (fun p => if Nat.eqb (snd p) d then g (fst p) else 0)).
      2: { intros p _. cbn. rewrite (Nat.eqb_sym d). destruct (Nat.eqb _ _); cbn; lra. }
      apply lookup_in in Lo; auto. rewrite (rsum_of_at _ (fun p => g (fst p)) _ o d); [unfold rsum_of; cbn; lra| |exact Lo]. eapply ckids_nodup; eauto.
    + symmetry. apply rsum_of_zero. intros p _. cbn. lra.
Qed.
End Reach.
End Count.
