(** Returns passed to backups are bounded if rewards and heuristic values are. *)
From Coq Require Import List ZArith Bool Reals Lia Lra.
From Verif Require Import Base BaseProofs EngineModel EngineSpec EngineProofs EngineInv EngineCount.
Import ListNotations.
Open Scope R_scope.

Section Bound.
Context {S A : Type}.
Variable seqb : S -> S -> bool.
Variable aeqb : A -> A -> bool.
Hypothesis seqb_ok : decides seqb.
Hypothesis aeqb_ok : decides aeqb.
Variable C : @econf S A.
Variable B : R.
Hypothesis rwd_b : forall s a o, Rabs (rwd C s a o) <= B.
Hypothesis heur_b : forall h s, heuristic C = Some h -> Rabs (h s) <= B.
Hypothesis depth_ok : (0 <= max_depth C)%Z.

Lemma B_pos : forall (s : S) (a : A), 0 <= B.
Proof using rwd_b. intros s a. eapply Rle_trans; [apply Rabs_pos|apply (rwd_b s a s)]. Qed.

Lemma rsum_app : forall l k, rsum (l ++ k) = rsum l + rsum k.
Proof. induction l; intros; cbn; [lra|rewrite IHl; lra]. Qed.

Lemma rsum_abs : forall l b, (forall r, In r l -> Rabs r <= b) -> Rabs (rsum l) <= IZR (Z.of_nat (length l)) * b.
Proof.
  induction l as [|r l IH]; intros b H.
  - cbn. rewrite Rabs_R0. lra.
  - cbn [length rsum]. rewrite Nat2Z.inj_succ, succ_IZR. eapply Rle_trans; [apply Rabs_triang|].
    pose proof (H r (or_introl eq_refl)). specialize (IH b (fun x Q => H x (or_intror Q))). lra.
Qed.

Definition hb (m : @store S A) : Prop := forall d n, nth_error (dh m) d = Some n -> Rabs (dheur n) <= B.
Definition limit : R := (IZR (max_depth C) + 1) * B.

Definition small (e : nat * @event S A) : Prop :=
  match snd e with
  | EBackC _ _ _ r _ | EBackD _ _ _ r _ => Rabs r <= limit
  | _ => True
  end.

Lemma path_sum : forall m, tinv seqb aeqb C m -> forall p q last hv, path seqb aeqb C m (p ++ q) last ->
  Rabs hv <= B -> Rabs (rsum (hv :: rev (map (srew C) q))) <= limit.
Proof using rwd_b depth_ok.
  intros m I p q last hv P Hb. cbn [rsum]. unfold limit.
  pose proof (path_length seqb aeqb C m I depth_ok _ _ P) as L. rewrite app_length in L.
  assert (Q : Rabs (rsum (rev (map (srew C) q))) <= IZR (Z.of_nat (length q)) * B).
  { rewrite <- (map_length (srew C) q), <- (rev_length (map (srew C) q)). apply rsum_abs.
    intros r H. apply in_rev in H. apply in_map_iff in H. destruct H as (s & <- & _). apply rwd_b. }
  assert (Bp : 0 <= B) by (eapply Rle_trans; [apply Rabs_pos|exact Hb]).
  assert (IZR (Z.of_nat (length q)) * B <= IZR (max_depth C) * B).
  { apply Rmult_le_compat_r; auto. apply IZR_le. lia. }
  eapply Rle_trans; [apply Rabs_triang|]. lra.
Qed.

Lemma new_heur : 0 <= B -> forall o dep t, Rabs (dheur (new_dnode C o dep t)) <= B.
Proof using heur_b.
  intros Bp o dep t. cbn. destruct (heuristic C) as [h|] eqn:E; [|rewrite Rabs_R0; auto].
  destruct (is_sink C o); [rewrite Rabs_R0; auto|]. now apply heur_b.
Qed.

Lemma hb_upd : forall m d (n n' : @dnode S A) c t, hb m -> nth_error (dh m) d = Some n -> dheur n' = dheur n ->
  hb (mkStore (upd (dh m) d n') c t).
Proof.
  intros m d n n' c t H Hn E i y Q. cbn in Q. rewrite (nth_upd _ _ _ _ _ _ Hn) in Q.
  destruct (Nat.eqb d i); [injection Q as <-; rewrite E|]; eauto.
Qed.

Hypothesis B0 : 0 <= B.

Definition bounded (s : @est S A) : Prop := walks seqb aeqb C s /\ hb (mem s) /\ forall e, In e (etrace s) -> small e.

Lemma bounded_step : forall s s', good seqb aeqb C s -> bounded s -> gstep seqb aeqb C s s' -> bounded s'.
Proof using All.
  intros s s' G (W & H & T) St. split; [eapply walks_step; eauto|].
  pose proof G as [I _].
  destruct St; cbn [mem etrace]; (split; [|intros e Q; cbn [In] in Q; repeat (destruct Q as [<-|Q]; [cbn; auto|]); auto]);
    try (eapply hb_upd; eauto; fail); auto.
  - intros i y Q. cbn [dh] in Q. apply nth_snoc in Q. destruct Q as [Q|[_ ->]]; [eauto|]. now apply new_heur.
  - specialize (W _ _ H0). cbn in W. destruct W as (p & f & la & hv & _ & P & (n0 & Hn0 & Eh & _) & E1 & E2 & E3 & E4 & _).
    destruct p as [|z p _] using rev_ind; [discriminate|]. rewrite map_app, rev_app_distr in E2. cbn in E2. injection E2 as -> E2.
    rewrite E4. replace (hv + rsum (rev (map (srew C) f)) + srew C z) with (rsum (hv :: rev (map (srew C) (z :: f)))).
    + rewrite <- app_assoc in P. cbn [app] in P. apply (path_sum _ I _ _ _ _ P). rewrite <- Eh. eauto.
    + cbn [map rev rsum]. rewrite rsum_app. cbn [rsum]. lra.
  - specialize (W _ _ H0). cbn in W. destruct W as (p & z & f & la & hv & _ & P & (n0 & Hn0 & Eh & _) & E0 & E1 & E2 & E3 & E4 & _).
    rewrite E4. apply (path_sum _ I _ _ _ _ P). rewrite <- Eh. eauto.
Qed.

Lemma bounded_reach : forall n s, ereach seqb aeqb C n s -> bounded s.
Proof using All.
  intros n. apply ereach_inv; auto.
  - split; [|split].
    + intros t x H. cbn in H. apply nth_error_In in H. apply repeat_spec in H. subst. cbn. auto.
    + intros [|[|d]] y H; cbn [einit mem dh nth_error] in H; try discriminate. injection H as <-. now apply new_heur.
    + intros e [].
  - intros s s' G W St. eapply bounded_step; eauto.
Qed.
End Bound.
