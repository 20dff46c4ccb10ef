(** Proofs for the size of the search tree *)
From Coq Require Import List ZArith Bool Lia.
From Verif Require Import Base BaseProofs EngineModel EngineSpec EngineProofs EngineInv EngineCount EngineTheorems ReachSpec ReachFollow SizeSpec OddsNodes.
Import ListNotations.

Lemma count_by : forall Y (F : nat -> Y -> Prop) (L : list Y) n, (forall i, (i < n)%nat -> exists y, F i y /\ In y L) ->
  (forall i j y, F i y -> F j y -> i = j) -> (n <= length L)%nat.
Proof.
  intros Y F L n H1 H2.
  assert (X : forall k, (k <= n)%nat -> exists ys, length ys = k /\ NoDup ys /\ incl ys L /\ forall y, In y ys -> exists i, (i < k)%nat /\ F i y).
  { induction k as [|k IH]; intros Hk.
    - exists []. repeat split; [constructor|intros y []|intros y []].
    - destruct (IH ltac:(lia)) as (ys & Y1 & Y2 & Y3 & Y4). destruct (H1 k ltac:(lia)) as (y & F1 & I1). exists (y :: ys). repeat split.
      + cbn. now rewrite Y1.
      + constructor; auto. intros J. destruct (Y4 y J) as (i & Li & Fi). rewrite (H2 i k y Fi F1) in Li. lia.
      + intros z [<-|J]; auto.
      + intros z [<-|J]; [exists k; split; auto; lia|]. destruct (Y4 z J) as (i & Li & Fi). exists i. split; auto; lia. }
  destruct (X n (Nat.le_refl _)) as (ys & Y1 & Y2 & Y3 & _). rewrite <- Y1. now apply NoDup_incl_length.
Qed.
Lemma nodup_app_disj : forall X (l1 l2 : list X), NoDup l1 -> NoDup l2 -> (forall x, In x l1 -> ~ In x l2) -> NoDup (l1 ++ l2).
Proof.
  intros X l1. induction l1 as [|x l1 IH]; intros l2 N1 N2 H; cbn; auto. inversion N1; subst. constructor.
  - intros J. apply in_app_or in J. destruct J as [J|J]; [auto|]. apply (H x); cbn; auto.
  - apply IH; auto. intros y J. apply H. now right.
Qed.
Lemma nodup_flat : forall X Y (f : X -> list Y) l, NoDup l -> (forall x, In x l -> NoDup (f x)) -> (forall x y z, In z (f x) -> In z (f y) -> x = y) -> NoDup (flat_map f l).
Proof.
  intros X Y f l. induction l as [|x l IH]; intros N H1 H2; cbn; [constructor|]. inversion N; subst. apply nodup_app_disj.
  - apply H1. now left.
  - apply IH; auto. intros y J. apply H1. now right.
  - intros z J K. apply in_flat_map in K. destruct K as (y & Jy & Kz). rewrite (H2 x y z J Kz) in *. contradiction.
Qed.

Section Proofs.
Context {S A : Type}.
Variable seqb : S -> S -> bool.
Variable aeqb : A -> A -> bool.
Hypothesis seqb_ok : decides seqb.
Hypothesis aeqb_ok : decides aeqb.
Variable C : @econf S A.
Notation ereach := (ereach seqb aeqb C).
Notation leads := (leads seqb aeqb).

Lemma choices_in : forall k s p a, In (p, a) (choices C k s) <-> route C s p /\ (length p < k)%nat /\ is_sink C (end_of s p) = false /\ In a (acts C (end_of s p)).
Proof.
  induction k as [|k IH]; intros s p a; cbn [choices].
  - split; [intros []|lia].
  - destruct (is_sink C s) eqn:K.
    + split; [intros []|]. intros (Rt & L & E & Ia). destruct p as [|[b o] p]; cbn [end_of route] in *; [congruence|]. destruct Rt as (E' & _). congruence.
    + split.
      * intros J. apply in_app_or in J. destruct J as [J|J].
        -- apply in_map_iff in J. destruct J as (b & E & Ib). injection E as <- <-. cbn. repeat split; auto; lia.
        -- apply in_flat_map in J. destruct J as (b & Ib & J). apply in_flat_map in J. destruct J as (o & Io & J). apply in_map_iff in J. destruct J as ([q c] & E & Ic).
           cbn [fst snd] in E. injection E as <- <-. apply IH in Ic. destruct Ic as (R1 & L1 & E1 & I1). cbn [end_of route length]. repeat split; auto; lia.
      * intros (Rt & L & E & Ia). apply in_or_app. destruct p as [|[b o] p]; cbn [end_of route length] in *.
        -- left. apply in_map_iff. eauto.
        -- right. destruct Rt as (_ & Ib & Io & Rt). apply in_flat_map. exists b. split; auto. apply in_flat_map. exists o. split; auto.
           apply in_map_iff. exists (p, a). split; auto. apply IH. repeat split; auto; lia.
Qed.
Lemma routes_nodup : no_repeats C -> forall k s, NoDup (routes C k s).
Proof.
  intros N. induction k as [|k IH]; intros s; cbn [routes]; [repeat constructor; intros []|]. constructor.
  - destruct (is_sink C s); [intros []|]. intros J. apply in_flat_map in J. destruct J as (b & _ & J). apply in_flat_map in J. destruct J as (o & _ & J). apply in_map_iff in J. destruct J as (q & E & _). discriminate.
  - destruct (is_sink C s); [constructor|]. apply nodup_flat; [apply N| |].
    + intros a _. apply nodup_flat; [apply N| |].
      * intros o _. apply FinFun.Injective_map_NoDup; auto. intros x y E. now injection E.
      * intros o o' z J K. apply in_map_iff in J, K. destruct J as (p & <- & _), K as (q & E & _). now injection E.
    + intros a a' z J K. apply in_flat_map in J, K. destruct J as (o & _ & J), K as (o' & _ & K). apply in_map_iff in J, K. destruct J as (p & <- & _), K as (q & E & _). now injection E.
Qed.
Lemma choices_nodup : no_repeats C -> forall k s, NoDup (choices C k s).
Proof.
  intros N. induction k as [|k IH]; intros s; cbn [choices]; [constructor|]. destruct (is_sink C s); [constructor|]. apply nodup_app_disj.
  - apply FinFun.Injective_map_NoDup; [|apply N]. intros x y E. now injection E.
  - apply nodup_flat; [apply N| |].
    + intros a _. apply nodup_flat; [apply N| |].
      * intros o _. apply FinFun.Injective_map_NoDup; auto. intros [x1 x2] [y1 y2] E. cbn in E. now injection E as -> ->.
      * intros o o' z J K. apply in_map_iff in J, K. destruct J as (p & <- & _), K as (q & E & _). now injection E.
    + intros a a' z J K. apply in_flat_map in J, K. destruct J as (o & _ & J), K as (o' & _ & K). apply in_map_iff in J, K. destruct J as (p & <- & _), K as (q & E & _). now injection E.
  - intros x J K. apply in_map_iff in J. destruct J as (a & <- & _). apply in_flat_map in K. destruct K as (b & _ & K). apply in_flat_map in K. destruct K as (o & _ & K).
    apply in_map_iff in K. destruct K as (q & E & _). discriminate.
Qed.

Lemma leads_fun : forall m p d e e', leads m d p e -> leads m d p e' -> e = e'.
Proof.
  intros m. induction p as [|[a o] p IH]; intros d e e'; cbn [ReachFollow.leads]; [congruence|].
  intros (c & d1 & (x & Hx & L1) & (y & Hy & L2) & L3) (c' & d2 & (x' & Hx' & L4) & (y' & Hy' & L5) & L6).
  rewrite Hx in Hx'. injection Hx' as <-. rewrite L1 in L4. injection L4 as <-. rewrite Hy in Hy'. injection Hy' as <-. rewrite L2 in L5. injection L5 as <-. eapply IH; eauto.
Qed.
Lemma leads_end : forall n s, ereach n s -> forall p d x e y, nth_error (dh (mem s)) d = Some x -> leads (mem s) d p e -> nth_error (dh (mem s)) e = Some y ->
  dstate y = end_of (dstate x) p /\ ddepth y = (ddepth x + Z.of_nat (length p))%Z /\ route C (dstate x) p.
Proof using seqb_ok aeqb_ok.
  intros n s R. destruct (ereach_good seqb aeqb seqb_ok aeqb_ok C _ _ R) as [Ti _]. pose proof (ti_wf _ _ _ _ Ti) as W.
  induction p as [|[a o] p IH]; intros d x e y Hd L He; cbn [ReachFollow.leads end_of length route] in *.
  - subst e. rewrite Hd in He. injection He as <-. repeat split; auto. lia.
  - destruct L as (c & d1 & (x' & Hx' & L1) & (z & Hz & L2) & L3). rewrite Hd in Hx'. injection Hx' as <-.
    destruct (wf_d _ _ _ _ W _ _ _ _ Hd L1) as (z' & Hz' & E0 & E1 & _ & Ea & Ia & Ms). rewrite Hz in Hz'. injection Hz' as <-.
    destruct (wf_c _ _ _ _ W _ _ _ _ Hz L2) as (x1 & Hx1 & Eo & E2 & _ & Io).
    destruct (IH d1 x1 e y Hx1 L3 He) as (K1 & K2 & K3). rewrite Eo in *. repeat split; auto; try lia; try congruence.
    unfold must_stop in Ms. destruct (is_sink C (dstate x)); [tauto|auto].
Qed.
Lemma depth_le : forall n s d x, ereach n s -> nth_error (dh (mem s)) d = Some x -> (0 <= ddepth x <= Z.of_nat (horizon C))%Z.
Proof using seqb_ok aeqb_ok.
  intros n s d x R Hd. destruct (ereach_good seqb aeqb seqb_ok aeqb_ok C _ _ R) as [Ti _]. pose proof (ti_wf _ _ _ _ Ti) as W. destruct (ti_time _ _ _ _ Ti _ _ Hd) as [_ P]. split; auto. unfold horizon.
  destruct (wf_reachD _ _ _ _ W _ _ Hd) as [|c o d Hc (z & Hz & Lz)].
  - destruct (wf_root _ _ _ _ W) as (n0 & H0 & _ & E0 & _). rewrite Hd in H0. injection H0 as <-. lia.
  - destruct (wf_c _ _ _ _ W _ _ _ _ Hz Lz) as (x1 & Hx1 & Eo & E2 & _). rewrite Hd in Hx1. injection Hx1 as <-. destruct (ti_cstop _ _ _ _ Ti c z Hz) as (_ & K & _). lia.
Qed.
Lemma in_range : forall X (l : list X) i, (i < length l)%nat -> exists x, nth_error l i = Some x.
Proof. intros X l i H. destruct (nth_error l i) eqn:E; eauto. apply nth_error_None in E. lia. Qed.
Lemma to_node : forall n s d x, ereach n s -> nth_error (dh (mem s)) d = Some x -> exists p, leads (mem s) 0 p d /\ In p (routes C (horizon C) (root_state C)) /\ end_of (root_state C) p = dstate x /\ ddepth x = Z.of_nat (length p).
Proof using seqb_ok aeqb_ok.
  intros n s d x R Hd. destruct (depth_le n s d x R Hd) as [D0 D1]. destruct (ereach_good seqb aeqb seqb_ok aeqb_ok C _ _ R) as [Ti _]. pose proof (ti_wf _ _ _ _ Ti) as W.
  destruct (wf_root _ _ _ _ W) as (root & Hr & Sr & Dr & _).
  destruct (node_route seqb aeqb seqb_ok aeqb_ok C n s R (Z.to_nat (ddepth x)) d x Hd ltac:(lia)) as (p & P1 & P2 & P3). exists p. split; auto.
  destruct (leads_end n s R p 0 root d x Hr P1 Hd) as (K1 & K2 & K3). rewrite Sr in *. split; [|split; [auto|lia]]. apply routes_in. split; auto. lia.
Qed.
Lemma to_chance : forall n s c z, ereach n s -> nth_error (ch (mem s)) c = Some z -> exists p d, leads (mem s) 0 p d /\ dchild aeqb (mem s) d (cact z) c /\ In (p, cact z) (choices C (horizon C) (root_state C)).
Proof using seqb_ok aeqb_ok.
  intros n s c z R Hc. destruct (ereach_good seqb aeqb seqb_ok aeqb_ok C _ _ R) as [Ti _]. pose proof (ti_wf _ _ _ _ Ti) as W.
  pose proof (wf_reachC _ _ _ _ W c z Hc) as Rc. inversion Rc as [d a c1 Rd Dc]; subst c1. pose proof Dc as (x & Hx & Lx).
  destruct (wf_d _ _ _ _ W d x a c Hx Lx) as (y & Hy & E1 & E2 & _ & E4 & Ia & Ms). rewrite Hc in Hy. injection Hy as <-. subst a.
  destruct (to_node n s d x R Hx) as (p & P1 & P2 & P3 & P4). exists p, d. split; auto. split; auto. apply routes_in in P2. destruct (ti_cstop _ _ _ _ Ti c z Hc) as (K1 & K2 & _).
  apply choices_in. rewrite P3. split; [tauto|]. unfold horizon. split; [lia|]. split; [congruence|auto].
Qed.

Lemma size_d : forall n s, ereach n s -> (length (dh (mem s)) <= length (routes C (horizon C) (root_state C)))%nat.
Proof using seqb_ok aeqb_ok.
  intros n s R. apply (count_by _ (fun d p => leads (mem s) 0 p d)).
  - intros d Hd. destruct (in_range _ _ _ Hd) as (x & Hx). destruct (to_node n s d x R Hx) as (p & P1 & P2 & _). eauto.
  - intros i j p. apply leads_fun.
Qed.
Lemma size_c : forall n s, ereach n s -> (length (ch (mem s)) <= length (choices C (horizon C) (root_state C)))%nat.
Proof using seqb_ok aeqb_ok.
  intros n s R. apply (count_by _ (fun c q => exists d, leads (mem s) 0 (fst q) d /\ dchild aeqb (mem s) d (snd q) c)).
  - intros c Hc. destruct (in_range _ _ _ Hc) as (z & Hz). destruct (to_chance n s c z R Hz) as (p & d & P1 & P2 & P3). exists (p, cact z). cbn. eauto.
  - intros i j [p a] (d & L1 & (x & Hx & E)) (d' & L2 & (x' & Hx' & E')). cbn in *. rewrite (leads_fun _ _ _ _ _ L1 L2) in *. rewrite Hx in Hx'. injection Hx' as <-. congruence.
Qed.

(** ** With the transposition table *)
Lemma same_key : forall n s, ereach n s -> use_tt C = true -> forall d x d' x', nth_error (dh (mem s)) d = Some x -> nth_error (dh (mem s)) d' = Some x' ->
  dstate x = dstate x' -> ddepth x = ddepth x' -> d = d'.
Proof using seqb_ok aeqb_ok.
  intros n s R U d x d' x' Hx Hx' E1 E2. destruct (ereach_good seqb aeqb seqb_ok aeqb_ok C _ _ R) as [Ti _]. pose proof (ti_wf _ _ _ _ Ti) as W.
  assert (Root : forall e y, nth_error (dh (mem s)) e = Some y -> ddepth y = 0%Z -> e = 0%nat).
  { intros e y He Ee. pose proof (wf_reachD _ _ _ _ W _ _ He) as Rd. inversion Rd as [|c o d1 Rc (z & Hz & Lz)]; auto. subst d1. exfalso.
    destruct (wf_c _ _ _ _ W _ _ _ _ Hz Lz) as (n1 & H1 & _ & D1 & _). rewrite He in H1. injection H1 as <-. destruct (ti_cstop _ _ _ _ Ti c z Hz) as (_ & _ & (_ & K) & _). lia. }
  destruct (wf_root _ _ _ _ W) as (n0 & H0 & _ & E0 & _).
  pose proof (wf_reachD _ _ _ _ W _ _ Hx) as Rd. pose proof (wf_reachD _ _ _ _ W _ _ Hx') as Rd'.
  inversion Rd as [Z|c o d1 Rc Cc]; [subst d; rewrite Hx in H0; injection H0 as <-; symmetry; apply (Root _ _ Hx'); lia|]. subst d1.
  inversion Rd' as [Z|c' o' d1 Rc' Cc']; [subst d'; rewrite Hx' in H0; injection H0 as <-; apply (Root _ _ Hx); lia|]. subst d1.
  pose proof Cc as (z & Hz & Lz). pose proof Cc' as (z' & Hz' & Lz'). apply (C14_shared seqb aeqb seqb_ok aeqb_ok C n s R U c z o d c' z' o' d' Hz Cc Hz' Cc').
  destruct (wf_c _ _ _ _ W _ _ _ _ Hz Lz) as (n1 & H1 & S1 & D1 & T1 & _). destruct (wf_c _ _ _ _ W _ _ _ _ Hz' Lz') as (n2 & H2 & S2 & D2 & T2 & _).
  rewrite Hx in H1. injection H1 as <-. rewrite Hx' in H2. injection H2 as <-. destruct (ti_time _ _ _ _ Ti _ _ Hx) as [T3 _], (ti_time _ _ _ _ Ti _ _ Hx') as [T4 _]. split; [lia|congruence].
Qed.
Lemma size_table : forall n s, ereach n s -> use_tt C = true -> forall L : list (S * nat),
  (forall p, In p (routes C (horizon C) (root_state C)) -> In (end_of (root_state C) p, length p) L) -> (length (dh (mem s)) <= length L)%nat.
Proof using seqb_ok aeqb_ok.
  intros n s R U L HL. apply (count_by _ (fun d k => exists x, nth_error (dh (mem s)) d = Some x /\ dstate x = fst k /\ ddepth x = Z.of_nat (snd k))).
  - intros d Hd. destruct (in_range _ _ _ Hd) as (x & Hx). destruct (to_node n s d x R Hx) as (p & P1 & P2 & P3 & P4). exists (end_of (root_state C) p, length p). split; auto. exists x. cbn. auto.
  - intros i j k (x & Hx & E1 & E2) (y & Hy & E3 & E4). apply (same_key n s R U i x j y Hx Hy); congruence.
Qed.

(** ** Without it a whole tree has exactly one node for every route *)
Lemma leads_inj : forall n s, ereach n s -> use_tt C = false -> forall p q d, leads (mem s) 0 p d -> leads (mem s) 0 q d -> p = q.
Proof using seqb_ok aeqb_ok.
  intros n s R U. destruct (C14_chance_parent seqb aeqb seqb_ok aeqb_ok C n s R) as [Par Nr]. pose proof (C14_tree seqb aeqb seqb_ok aeqb_ok C n s R U) as Tr.
  induction p as [|[a o] p IH] using rev_ind; intros q d; destruct q as [|[b r] q _] using rev_ind; auto.
  - intros L1 L2. cbn in L1. subst d. apply leads_app in L2. destruct L2 as (k & _ & (c & d' & _ & L3 & L4)). cbn in L4. subst d'. destruct (Nr _ _ L3).
  - intros L2 L1. cbn in L1. subst d. apply leads_app in L2. destruct L2 as (k & _ & (c & d' & _ & L3 & L4)). cbn in L4. subst d'. destruct (Nr _ _ L3).
  - intros L1 L2. apply leads_app in L1, L2. destruct L1 as (k & L1 & (c & d' & D1 & C1 & E1)), L2 as (k' & L2 & (c' & d1 & D2 & C2 & E2)). cbn in E1, E2. subst d' d1.
    destruct (Tr _ _ _ _ _ C1 C2) as [<- <-]. destruct (Par _ _ _ _ _ D1 D2) as [<- <-]. now rewrite (IH q k L1 L2).
Qed.
Lemma whole_leads : forall n s, ereach n s -> whole seqb aeqb C (mem s) -> forall p d x, nth_error (dh (mem s)) d = Some x -> route C (dstate x) p ->
  (ddepth x + Z.of_nat (length p) <= max_depth C)%Z -> exists e y, leads (mem s) d p e /\ nth_error (dh (mem s)) e = Some y.
Proof using seqb_ok aeqb_ok.
  intros n s R Wh. destruct (ereach_good seqb aeqb seqb_ok aeqb_ok C _ _ R) as [Ti _]. pose proof (ti_wf _ _ _ _ Ti) as W.
  induction p as [|[a o] p IH]; intros d x Hd Rt Ld; cbn [ReachFollow.leads route length] in *; [eauto|].
  destruct Rt as (K & Ia & Io & Rt). destruct (Wh d x a o Hd K ltac:(lia) Ia Io) as (c & d' & Dc & Cc).
  pose proof Dc as (x' & Hx' & L1). rewrite Hd in Hx'. injection Hx' as <-. pose proof Cc as (z & Hz & L2).
  destruct (wf_d _ _ _ _ W _ _ _ _ Hd L1) as (z' & Hz' & E0 & E1 & _). rewrite Hz in Hz'. injection Hz' as <-.
  destruct (wf_c _ _ _ _ W _ _ _ _ Hz L2) as (x1 & Hx1 & Eo & E2 & _). rewrite <- Eo in Rt.
  destruct (IH d' x1 Hx1 Rt ltac:(lia)) as (e & y & Le & He). exists e, y. split; auto. exists c, d'. auto.
Qed.
Lemma size_whole : forall n s, ereach n s -> (0 <= max_depth C)%Z -> use_tt C = false -> no_repeats C -> whole seqb aeqb C (mem s) ->
  length (dh (mem s)) = length (routes C (horizon C) (root_state C)).
Proof using seqb_ok aeqb_ok.
  intros n s R Md U N Wh. apply Nat.le_antisymm; [eapply size_d; eauto|]. destruct (ereach_good seqb aeqb seqb_ok aeqb_ok C _ _ R) as [Ti _]. pose proof (ti_wf _ _ _ _ Ti) as W.
  destruct (wf_root _ _ _ _ W) as (root & Hr & Sr & Dr & _). set (L := routes C (horizon C) (root_state C)).
  rewrite <- (seq_length (length (dh (mem s))) 0).
  apply (count_by _ (fun i d => exists p, nth_error L i = Some p /\ leads (mem s) 0 p d)).
  - intros i Hi. destruct (in_range _ _ _ Hi) as (p & Hp). pose proof (nth_error_In _ _ Hp) as Ip. apply routes_in in Ip. destruct Ip as [P1 P2]. rewrite <- Sr in P1.
    destruct (whole_leads n s R Wh p 0 root Hr P1) as (e & y & Le & He); [unfold horizon in P2; lia|]. exists e. split; [eauto|]. apply in_seq. split; [lia|]. cbn. apply nth_error_Some. now rewrite He.
  - intros i j d (p & Hp & Lp) (q & Hq & Lq). rewrite <- (leads_inj n s R U p q d Lp Lq) in Hq. pose proof (routes_nodup N (horizon C) (root_state C)) as Nd. fold L in Nd.
    rewrite NoDup_nth_error in Nd. apply Nd; [apply nth_error_Some; now rewrite Hp|congruence].
Qed.

(** ** Branching *)
Lemma routes_geometric : forall a b, (forall s, is_sink C s = false -> (length (acts C s) <= a)%nat) -> (forall s x, In x (acts C s) -> (length (succs C s x) <= b)%nat) ->
  forall k s, (length (routes C k s) <= geometric (a * b) k)%nat.
Proof.
  intros a b Ha Hb. induction k as [|k IH]; intros s; cbn [routes geometric length]; [lia|]. apply le_n_S. destruct (is_sink C s) eqn:K; [cbn; lia|].
  eapply Nat.le_trans; [apply (flat_len_le _ _ _ (b * geometric (a * b) k))|].
  - intros x Ix. eapply Nat.le_trans; [apply (flat_len_le _ _ _ (geometric (a * b) k))|].
    + intros o _. rewrite map_length. apply IH.
    + apply Nat.mul_le_mono_r. auto.
  - rewrite Nat.mul_assoc. apply Nat.mul_le_mono_r. apply Nat.mul_le_mono_r. auto.
Qed.
Lemma choices_geometric : forall a b, (forall s, is_sink C s = false -> (length (acts C s) <= a)%nat) -> (forall s x, In x (acts C s) -> (length (succs C s x) <= b)%nat) ->
  forall k s, (length (choices C (Datatypes.S k) s) <= a * geometric (a * b) k)%nat.
Proof.
  intros a b Ha Hb. induction k as [|k IH]; intros s.
  - cbn [choices geometric]. destruct (is_sink C s) eqn:K; [cbn; lia|]. rewrite app_length, map_length.
    assert (E : length (flat_map (fun x : A => flat_map (fun o : S => map (fun c : list (A * S) * A => ((x, o) :: fst c, snd c)) []) (succs C s x)) (acts C s)) = 0%nat).
    { apply Nat.le_0_r. eapply Nat.le_trans; [apply (flat_len_le _ _ _ 0%nat)|now rewrite Nat.mul_0_r].
      intros x _. eapply Nat.le_trans; [apply (flat_len_le _ _ _ 0%nat)|now rewrite Nat.mul_0_r]. intros o _. cbn. lia. }
    rewrite E. specialize (Ha s K). lia.
  - cbn [geometric]. change (choices C (Datatypes.S (Datatypes.S k)) s) with (if is_sink C s then [] else
      map (pair []) (acts C s) ++ flat_map (fun x => flat_map (fun o => map (fun c => ((x, o) :: fst c, snd c)) (choices C (Datatypes.S k) o)) (succs C s x)) (acts C s)).
    destruct (is_sink C s) eqn:K; [cbn; lia|]. rewrite app_length, map_length. pose proof (Ha s K) as Ha'.
    assert (E : (length (flat_map (fun x : A => flat_map (fun o : S => map (fun c : list (A * S) * A => ((x, o) :: fst c, snd c)) (choices C (Datatypes.S k) o)) (succs C s x)) (acts C s))
      <= length (acts C s) * (b * (a * geometric (a * b) k)))%nat).
    { apply flat_len_le. intros x Ix. eapply Nat.le_trans; [apply (flat_len_le _ _ _ (a * geometric (a * b) k))|].
      - intros o _. rewrite map_length. apply IH.
      - apply Nat.mul_le_mono_r. auto. }
    assert (E2 : (length (acts C s) * (b * (a * geometric (a * b) k)) <= a * (b * (a * geometric (a * b) k)))%nat) by now apply Nat.mul_le_mono_r.
    nia.
Qed.
End Proofs.
