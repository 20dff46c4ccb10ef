(** The number of nodes a search can make is bounded by the environment *)
From Coq Require Import List ZArith Bool Reals Lia.
From Verif Require Import Base BaseProofs NumOps EngineModel EngineSpec EngineProofs EngineInv EngineCount.
Import ListNotations.

Lemma flat_len_le : forall X Y (f : X -> list Y) k l, (forall x, In x l -> (length (f x) <= k)%nat) -> (length (flat_map f l) <= length l * k)%nat.
Proof.
  intros X Y f k l. induction l as [|x l IH]; intros H; cbn; auto. rewrite app_length. pose proof (H x (or_introl eq_refl)). specialize (IH (fun y Iy => H y (or_intror Iy))). lia.
Qed.
Lemma list_max_in : forall X (f : X -> nat) l x, In x l -> (f x <= list_max (map f l))%nat.
Proof.
  intros X f l x I. pose proof (proj1 (list_max_le (map f l) (list_max (map f l))) (Nat.le_refl _)) as H. rewrite Forall_forall in H. apply H. now apply in_map.
Qed.

Section Nodes.
Context {S A : Type}.
Variable seqb : S -> S -> bool.
Variable aeqb : A -> A -> bool.
Hypothesis seqb_ok : decides seqb.
Hypothesis aeqb_ok : decides aeqb.
Variable C : @econf S A.
Notation ereach := (ereach seqb aeqb C).

Lemma dkids_few : forall n b d nd, ereach n b -> nth_error (dh (mem b)) d = Some nd -> (length (dkids nd) <= length (acts C (dstate nd)))%nat.
Proof using seqb_ok aeqb_ok.
  intros n b d nd R Hn. destruct (ereach_good seqb aeqb seqb_ok aeqb_ok C _ _ R) as [I _]. pose proof (ti_wf _ _ _ _ I) as Wf.
  rewrite <- (map_length fst). pose proof (wf_dkeys _ _ _ _ Wf d nd Hn) as Nd. apply NoDup_incl_length; auto. intros a Ia. apply in_map_iff in Ia. destruct Ia as ([a' c] & <- & Ic).
  assert (L : lookup aeqb a' (dkids nd) = Some c) by (apply lookup_of_in; auto). destruct (wf_d _ _ _ _ Wf d nd a' c Hn L) as (x & _ & _ & _ & _ & _ & Ia & _). exact Ia.
Qed.
Lemma ckids_few : forall n b c x, ereach n b -> nth_error (ch (mem b)) c = Some x -> (length (ckids x) <= length (succs C (cstate x) (cact x)))%nat.
Proof using seqb_ok aeqb_ok.
  intros n b c x R Hx. destruct (ereach_good seqb aeqb seqb_ok aeqb_ok C _ _ R) as [I _]. pose proof (ti_wf _ _ _ _ I) as Wf.
  rewrite <- (map_length fst). pose proof (wf_ckeys _ _ _ _ Wf c x Hx) as Nd. apply NoDup_incl_length; auto. intros o Io. apply in_map_iff in Io. destruct Io as ([o' d] & <- & Id).
  assert (L : lookup seqb o' (ckids x) = Some d) by (apply lookup_of_in; auto). destruct (wf_c _ _ _ _ Wf c x o' d Hx L) as (nd & _ & _ & _ & _ & Io). exact Io.
Qed.
Lemma parent : forall n b c x, ereach n b -> nth_error (ch (mem b)) c = Some x -> exists d nd, nth_error (dh (mem b)) d = Some nd /\ In (cact x, c) (dkids nd) /\ cstate x = dstate nd /\ cdepth x = ddepth nd.
Proof using seqb_ok aeqb_ok.
  intros n b c x R Hx. destruct (ereach_good seqb aeqb seqb_ok aeqb_ok C _ _ R) as [I _]. pose proof (ti_wf _ _ _ _ I) as Wf.
  pose proof (wf_reachC _ _ _ _ Wf c x Hx) as Rc. inversion Rc as [d a c1 Rd (nd & Hn & Ln)]; subst c1.
  destruct (wf_d _ _ _ _ Wf d nd a c Hn Ln) as (y & Hy & E1 & E2 & _ & E4 & _). rewrite Hx in Hy. injection Hy as <-. subst a. exists d, nd. repeat split; auto. eapply lookup_in; eauto.
Qed.

Definition next_states (Lv : list S) : list S := flat_map (fun s => flat_map (succs C s) (acts C s)) Lv.
Fixpoint level (h : nat) : list S := match h with O => [root_state C] | Datatypes.S h' => next_states (level h') end.

Lemma in_level : forall h n b d nd, ereach n b -> nth_error (dh (mem b)) d = Some nd -> ddepth nd = Z.of_nat h -> In (dstate nd) (level h).
Proof using seqb_ok aeqb_ok.
  induction h as [|h IH]; intros n b d nd R Hn Hd; destruct (ereach_good seqb aeqb seqb_ok aeqb_ok C _ _ R) as [I _]; pose proof (ti_wf _ _ _ _ I) as Wf;
    pose proof (wf_reachD _ _ _ _ Wf d nd Hn) as Rd; inversion Rd as [E|c o d1 Rc (x & Hx & Lx) E]; try subst d1.
  - subst d. destruct (wf_root _ _ _ _ Wf) as (n0 & H0 & E0 & _). rewrite Hn in H0. injection H0 as <-. rewrite E0. cbn. auto.
  - exfalso. destruct (wf_c _ _ _ _ Wf c x o d Hx Lx) as (n1 & H1 & _ & D1 & _). rewrite Hn in H1. injection H1 as <-. destruct (ti_cstop _ _ _ _ I c x Hx) as (_ & _ & (_ & K) & _). lia.
  - exfalso. subst d. destruct (wf_root _ _ _ _ Wf) as (n0 & H0 & _ & E0 & _). rewrite Hn in H0. injection H0 as <-. lia.
  - destruct (wf_c _ _ _ _ Wf c x o d Hx Lx) as (n1 & H1 & S1 & D1 & _ & Io). rewrite Hn in H1. injection H1 as <-.
    destruct (parent n b c x R Hx) as (d0 & n0 & H0 & _ & Es & Ed). destruct (ti_cstop _ _ _ _ I c x Hx) as (_ & _ & _ & Ia).
    cbn [level]. apply in_flat_map. exists (cstate x). split; [rewrite Es; apply (IH n b d0 n0 R H0); lia|]. apply in_flat_map. exists (cact x). split; auto. now rewrite S1.
Qed.
Lemma in_level_c : forall h n b c x, ereach n b -> nth_error (ch (mem b)) c = Some x -> cdepth x = Z.of_nat h -> In (cstate x) (level h).
Proof using seqb_ok aeqb_ok. intros h n b c x R Hx Hd. destruct (parent n b c x R Hx) as (d0 & n0 & H0 & _ & Es & Ed). rewrite Es. eapply in_level; eauto. lia. Qed.

Lemma few_at : forall h, exists bd bc, forall n b, ereach n b ->
  (exists ids, (length ids <= bd)%nat /\ forall d nd, nth_error (dh (mem b)) d = Some nd -> ddepth nd = Z.of_nat h -> In d ids) /\
  (exists ids, (length ids <= bc)%nat /\ forall c x, nth_error (ch (mem b)) c = Some x -> cdepth x = Z.of_nat h -> In c ids).
Proof using seqb_ok aeqb_ok.
  assert (Down : forall h bd, exists bc, forall n b, ereach n b -> (exists ids, (length ids <= bd)%nat /\ forall d nd, nth_error (dh (mem b)) d = Some nd -> ddepth nd = Z.of_nat h -> In d ids) ->
    exists ids, (length ids <= bc)%nat /\ forall c x, nth_error (ch (mem b)) c = Some x -> cdepth x = Z.of_nat h -> In c ids).
  { intros h bd. set (am := list_max (map (fun s => length (acts C s)) (level h))). exists (bd * am)%nat. intros n b R (ids & Li & Hi).
    exists (flat_map (fun d => match nth_error (dh (mem b)) d with Some nd => if Z.eqb (ddepth nd) (Z.of_nat h) then map snd (dkids nd) else [] | None => [] end) ids). split.
    - eapply Nat.le_trans; [apply (flat_len_le _ _ _ am)|now apply Nat.mul_le_mono_r]. intros d _. destruct (nth_error (dh (mem b)) d) as [nd|] eqn:Hn; [|cbn; lia].
      destruct (Z.eqb_spec (ddepth nd) (Z.of_nat h)) as [Ed|]; [|cbn; lia]. rewrite map_length. pose proof (dkids_few n b d nd R Hn).
      pose proof (list_max_in _ (fun s => length (acts C s)) _ _ (in_level h n b d nd R Hn Ed)). fold am in H0. cbn in H0. lia.
    - intros c x Hx Hd. destruct (parent n b c x R Hx) as (d0 & n0 & H0 & In0 & Es & Ed). apply in_flat_map. exists d0. split; [apply (Hi d0 n0 H0); lia|].
      rewrite H0. replace (Z.eqb _ _) with true by (symmetry; apply Z.eqb_eq; lia). apply in_map_iff. exists (cact x, c). auto. }
  induction h as [|h (bd & bc & IH)].
  - destruct (Down 0%nat 1%nat) as (bc & H). exists 1%nat, bc. intros n b R.
    assert (D0 : exists ids : list nat, (length ids <= 1)%nat /\ forall d nd, nth_error (dh (mem b)) d = Some nd -> ddepth nd = Z.of_nat 0 -> In d ids).
    { exists [0%nat]. split; [cbn; lia|]. intros d nd Hn Hd. destruct (ereach_good seqb aeqb seqb_ok aeqb_ok C _ _ R) as [I _]; pose proof (ti_wf _ _ _ _ I) as Wf.
      pose proof (wf_reachD _ _ _ _ Wf d nd Hn) as Rd; inversion Rd as [E|c o d1 Rc (x & Hx & Lx) E]; [cbn; auto|]. subst d1. exfalso.
      destruct (wf_c _ _ _ _ Wf c x o d Hx Lx) as (n1 & H1 & _ & D1 & _). rewrite Hn in H1. injection H1 as <-. destruct (ti_cstop _ _ _ _ I c x Hx) as (_ & _ & (_ & K) & _). lia. }
    split; auto. exact (H n b R D0).
  - set (sm := list_max (map (fun s => list_max (map (fun a => length (succs C s a)) (acts C s))) (level h))).
    destruct (Down (Datatypes.S h) (bc * sm)%nat) as (bc' & H). exists (bc * sm)%nat, bc'. intros n b R. destruct (IH n b R) as (_ & (ids & Li & Hi)).
    assert (D1 : exists ids : list nat, (length ids <= bc * sm)%nat /\ forall d nd, nth_error (dh (mem b)) d = Some nd -> ddepth nd = Z.of_nat (Datatypes.S h) -> In d ids).
    { exists (flat_map (fun c => match nth_error (ch (mem b)) c with Some x => if Z.eqb (cdepth x) (Z.of_nat h) then map snd (ckids x) else [] | None => [] end) ids). split.
      - eapply Nat.le_trans; [apply (flat_len_le _ _ _ sm)|now apply Nat.mul_le_mono_r]. intros c _. destruct (nth_error (ch (mem b)) c) as [x|] eqn:Hx; [|cbn; lia].
        destruct (Z.eqb_spec (cdepth x) (Z.of_nat h)) as [Ed|]; [|cbn; lia]. rewrite map_length. pose proof (ckids_few n b c x R Hx).
        destruct (ereach_good seqb aeqb seqb_ok aeqb_ok C _ _ R) as [I _]. destruct (ti_cstop _ _ _ _ I c x Hx) as (_ & _ & _ & Ia).
        pose proof (list_max_in _ (fun a => length (succs C (cstate x) a)) _ _ Ia) as M1.
        pose proof (list_max_in _ (fun s => list_max (map (fun a => length (succs C s a)) (acts C s))) _ _ (in_level_c h n b c x R Hx Ed)) as M2. fold sm in M2. cbn in M1, M2. lia.
      - intros d nd Hn Hd. destruct (ereach_good seqb aeqb seqb_ok aeqb_ok C _ _ R) as [I _]; pose proof (ti_wf _ _ _ _ I) as Wf.
        pose proof (wf_reachD _ _ _ _ Wf d nd Hn) as Rd; inversion Rd as [E|c o d1 Rc (x & Hx & Lx) E].
        + exfalso. subst d. destruct (wf_root _ _ _ _ Wf) as (n0 & H0 & _ & E0 & _). rewrite Hn in H0. injection H0 as <-. lia.
        + subst d1. destruct (wf_c _ _ _ _ Wf c x o d Hx Lx) as (n1 & H1 & S1 & D1 & _ & Io). rewrite Hn in H1. injection H1 as <-.
          apply in_flat_map. exists c. split; [apply (Hi c x Hx); lia|]. rewrite Hx. replace (Z.eqb _ _) with true by (symmetry; apply Z.eqb_eq; lia).
          apply in_map_iff. exists (o, d). split; auto. eapply lookup_in; eauto. }
    split; auto. exact (H n b R D1).
Qed.

(** However long the search goes on. *)
Lemma few_chance : exists Bn, forall n b, ereach n b -> (length (ch (mem b)) <= Bn)%nat.
Proof using seqb_ok aeqb_ok.
  assert (X : forall H, exists Bn, forall n b, ereach n b -> exists ids, (length ids <= Bn)%nat /\ forall c x, nth_error (ch (mem b)) c = Some x -> (cdepth x < Z.of_nat H)%Z -> In c ids).
  { induction H as [|H (Bn & IH)].
    - exists 0%nat. intros n b R. exists []. split; [cbn; lia|]. intros c x Hx Hd. destruct (ereach_good seqb aeqb seqb_ok aeqb_ok C _ _ R) as [I _].
      destruct (ti_cstop _ _ _ _ I c x Hx) as (_ & _ & (_ & K) & _). lia.
    - destruct (few_at H) as (bd & bc & F). exists (Bn + bc)%nat. intros n b R. destruct (IH n b R) as (ids & Li & Hi). destruct (F n b R) as (_ & (ids' & Li' & Hi')).
      exists (ids ++ ids'). split; [rewrite app_length; lia|]. intros c x Hx Hd. apply in_or_app. destruct (Z.eq_dec (cdepth x) (Z.of_nat H)); [right|left]; eauto. eapply Hi; eauto. lia. }
  destruct (X (Z.to_nat (max_depth C))) as (Bn & H). exists Bn. intros n b R. destruct (H n b R) as (ids & Li & Hi). eapply Nat.le_trans; [|exact Li].
  rewrite <- (seq_length (length (ch (mem b))) 0). apply NoDup_incl_length; [apply seq_NoDup|]. intros c Hc. apply in_seq in Hc.
  destruct (nth_error (ch (mem b)) c) as [x|] eqn:Hx; [|apply nth_error_None in Hx; lia]. eapply Hi; eauto.
  destruct (ereach_good seqb aeqb seqb_ok aeqb_ok C _ _ R) as [I _]. destruct (ti_cstop _ _ _ _ I c x Hx) as (_ & K1 & (_ & K) & _). lia.
Qed.
Lemma few_outcomes : exists Om, forall n b c x, ereach n b -> nth_error (ch (mem b)) c = Some x -> (length (succs C (cstate x) (cact x)) <= Om)%nat.
Proof using seqb_ok aeqb_ok.
  assert (X : forall H, exists Om, forall n b c x, ereach n b -> nth_error (ch (mem b)) c = Some x -> (cdepth x < Z.of_nat H)%Z -> (length (succs C (cstate x) (cact x)) <= Om)%nat).
  { induction H as [|H (Om & IH)].
    - exists 0%nat. intros n b c x R Hx Hd. destruct (ereach_good seqb aeqb seqb_ok aeqb_ok C _ _ R) as [I _]. destruct (ti_cstop _ _ _ _ I c x Hx) as (_ & _ & (_ & K) & _). lia.
    - set (sm := list_max (map (fun s => list_max (map (fun a => length (succs C s a)) (acts C s))) (level H))). exists (Om + sm)%nat. intros n b c x R Hx Hd.
      destruct (Z.eq_dec (cdepth x) (Z.of_nat H)) as [Ed|]; [|pose proof (IH n b c x R Hx ltac:(lia)); lia].
      destruct (ereach_good seqb aeqb seqb_ok aeqb_ok C _ _ R) as [I _]. destruct (ti_cstop _ _ _ _ I c x Hx) as (_ & _ & _ & Ia).
      pose proof (list_max_in _ (fun a => length (succs C (cstate x) a)) _ _ Ia) as M1.
      pose proof (list_max_in _ (fun s => list_max (map (fun a => length (succs C s a)) (acts C s))) _ _ (in_level_c H n b c x R Hx Ed)) as M2. fold sm in M2. cbn in M1, M2. lia. }
  destruct (X (Z.to_nat (max_depth C))) as (Om & H). exists Om. intros n b c x R Hx. eapply H; eauto.
  destruct (ereach_good seqb aeqb seqb_ok aeqb_ok C _ _ R) as [I _]. destruct (ti_cstop _ _ _ _ I c x Hx) as (_ & K1 & (_ & K) & _). lia.
Qed.
(** Decision nodes. *)
Lemma node_depth : forall n b d nd, ereach n b -> nth_error (dh (mem b)) d = Some nd -> (0 <= ddepth nd <= Z.max 0 (max_depth C))%Z.
Proof using seqb_ok aeqb_ok.
  intros n b d nd R Hn. destruct (ereach_good seqb aeqb seqb_ok aeqb_ok C _ _ R) as [I _]. pose proof (ti_wf _ _ _ _ I) as Wf.
  pose proof (wf_reachD _ _ _ _ Wf d nd Hn) as Rd; inversion Rd as [E|c o d1 Rc (x & Hx & Lx) E].
  - subst d. destruct (wf_root _ _ _ _ Wf) as (n0 & H0 & _ & E0 & _). rewrite Hn in H0. injection H0 as <-. lia.
  - subst d1. destruct (wf_c _ _ _ _ Wf c x o d Hx Lx) as (n1 & H1 & _ & D1 & _). rewrite Hn in H1. injection H1 as <-. destruct (ti_cstop _ _ _ _ I c x Hx) as (_ & K1 & (_ & K) & _). lia.
Qed.
Lemma few_decisions : exists Bd, forall n b, ereach n b -> (length (dh (mem b)) <= Bd)%nat.
Proof using seqb_ok aeqb_ok.
  assert (X : forall H, exists Bn, forall n b, ereach n b -> exists ids, (length ids <= Bn)%nat /\ forall d nd, nth_error (dh (mem b)) d = Some nd -> (ddepth nd < Z.of_nat H)%Z -> In d ids).
  { induction H as [|H (Bn & IH)].
    - exists 0%nat. intros n b R. exists []. split; [cbn; lia|]. intros d nd Hx Hd. pose proof (node_depth n b d nd R Hx). lia.
    - destruct (few_at H) as (bd & bc & F). exists (Bn + bd)%nat. intros n b R. destruct (IH n b R) as (ids & Li & Hi). destruct (F n b R) as ((ids' & Li' & Hi') & _).
      exists (ids ++ ids'). split; [rewrite app_length; lia|]. intros d nd Hx Hd. apply in_or_app. destruct (Z.eq_dec (ddepth nd) (Z.of_nat H)); [right|left]; eauto. eapply Hi; eauto. lia. }
  destruct (X (Z.to_nat (Z.max 0 (max_depth C) + 1))) as (Bn & H). exists Bn. intros n b R. destruct (H n b R) as (ids & Li & Hi). eapply Nat.le_trans; [|exact Li].
  rewrite <- (seq_length (length (dh (mem b))) 0). apply NoDup_incl_length; [apply seq_NoDup|]. intros d Hc. apply in_seq in Hc.
  destruct (nth_error (dh (mem b)) d) as [nd|] eqn:Hx; [|apply nth_error_None in Hx; lia]. eapply Hi; eauto. pose proof (node_depth n b d nd R Hx). lia.
Qed.
(** Something that is bounded for the states of every level is bounded for all nodes. *)
Lemma level_bound : forall f : S -> nat, exists Bn, forall n b d nd, ereach n b -> nth_error (dh (mem b)) d = Some nd -> (f (dstate nd) <= Bn)%nat.
Proof using seqb_ok aeqb_ok.
  intros f. assert (X : forall H, exists Bn, forall n b d nd, ereach n b -> nth_error (dh (mem b)) d = Some nd -> (ddepth nd < Z.of_nat H)%Z -> (f (dstate nd) <= Bn)%nat).
  { induction H as [|H (Bn & IH)].
    - exists 0%nat. intros n b d nd R Hx Hd. pose proof (node_depth n b d nd R Hx). lia.
    - exists (Nat.max Bn (list_max (map f (level H)))). intros n b d nd R Hx Hd. destruct (Z.eq_dec (ddepth nd) (Z.of_nat H)) as [E|].
      + pose proof (list_max_in _ f _ _ (in_level H n b d nd R Hx E)). cbn in *. lia.
      + pose proof (IH n b d nd R Hx ltac:(lia)). lia. }
  destruct (X (Z.to_nat (Z.max 0 (max_depth C) + 1))) as (Bn & H). exists Bn. intros n b d nd R Hx. eapply H; eauto. pose proof (node_depth n b d nd R Hx). lia.
Qed.
End Nodes.
