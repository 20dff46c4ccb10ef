(** What the rewards passed to backups consist of. *)
From Coq Require Import List ZArith Bool Reals Lia Lra.
From Verif Require Import Base BaseProofs EngineModel EngineSpec EngineProofs EngineInv EngineCount EngineBound.
Import ListNotations.
Open Scope R_scope.

Section After.
Context {S A : Type}.
Variable seqb : S -> S -> bool.
Variable aeqb : A -> A -> bool.
Hypothesis seqb_ok : decides seqb.
Hypothesis aeqb_ok : decides aeqb.
Variable C : @econf S A.
Hypothesis depth_ok : (0 <= max_depth C)%Z.

(** A reward, a heuristic value, or zero. *)
Definition from_env (x : R) : Prop :=
  (exists s a o, x = rwd C s a o) \/ (exists h s, heuristic C = Some h /\ x = h s) \/ x = 0.

Definition tame_list (after : list R) (r : R) : Prop :=
  r = rsum after /\ (Z.of_nat (length after) <= max_depth C + 1)%Z /\ (forall x, In x after -> from_env x).
Definition tame (e : nat * @event S A) : Prop :=
  match snd e with EBackC _ _ af r _ | EBackD _ _ af r _ => tame_list af r | _ => True end.
Definition hfrom (m : @store S A) : Prop := forall d n, nth_error (dh m) d = Some n -> from_env (dheur n).

Lemma path_tame : forall m, tinv seqb aeqb C m -> forall p q last hv, path seqb aeqb C m (p ++ q) last ->
  from_env hv -> tame_list (hv :: rev (map (srew C) q)) (rsum (hv :: rev (map (srew C) q))).
Proof using depth_ok.
  intros m I p q last hv P Hb. split; auto.
  pose proof (path_length seqb aeqb C m I depth_ok _ _ P) as L. rewrite app_length in L. split.
  - cbn [length]. rewrite rev_length, map_length. lia.
  - intros x [<-|Q]; auto. apply in_rev in Q. apply in_map_iff in Q. destruct Q as (z & <- & _). left. unfold srew. eauto.
Qed.
Lemma new_from : forall o dep t, from_env (dheur (new_dnode C o dep t)).
Proof using Type.
  intros o dep t. cbn. destruct (heuristic C) as [h|] eqn:E; [|now right; right].
  destruct (is_sink C o); [now right; right|]. right. left. eauto.
Qed.
Lemma hfrom_upd : forall m d (n n' : @dnode S A) c t, hfrom m -> nth_error (dh m) d = Some n -> dheur n' = dheur n ->
  hfrom (mkStore (upd (dh m) d n') c t).
Proof using Type.
  intros m d n n' c t H Hn E i y Q. cbn in Q. rewrite (nth_upd _ _ _ _ _ _ Hn) in Q.
  destruct (Nat.eqb d i); [injection Q as <-; rewrite E|]; eauto.
Qed.

Definition tamed (s : @est S A) : Prop := walks seqb aeqb C s /\ hfrom (mem s) /\ forall e, In e (etrace s) -> tame e.

Lemma tamed_step : forall s s', good seqb aeqb C s -> tamed s -> gstep seqb aeqb C s s' -> tamed s'.
Proof using All.
  intros s s' G (W & H & T) St. split; [eapply walks_step; eauto|].
  pose proof G as [I _].
  destruct St; cbn [mem etrace]; (split; [|intros e Q; cbn [In] in Q; repeat (destruct Q as [<-|Q]; [cbn; auto|]); auto]);
    try (eapply hfrom_upd; eauto; fail); auto.
  - intros i y Q. cbn [dh] in Q. apply nth_snoc in Q. destruct Q as [Q|[_ ->]]; [eauto|]. now apply new_from.
  - specialize (W _ _ H0). cbn in W. destruct W as (p & f & la & hv & _ & P & (n0 & Hn0 & Eh & _) & E1 & E2 & E3 & E4 & _).
    destruct p as [|z p _] using rev_ind; [discriminate|]. rewrite map_app, rev_app_distr in E2. cbn in E2. injection E2 as -> E2.
    rewrite <- app_assoc in P. cbn [app] in P. pose proof (path_tame _ I _ _ _ hv P) as Q. rewrite <- Eh in Q.
    specialize (Q (H _ _ Hn0)). rewrite Eh in Q. rewrite E3, E4. 
    replace (hv + rsum (rev (map (srew C) f)) + srew C z) with (rsum (hv :: rev (map (srew C) (z :: f)))).
    + match goal with |- tame_list ?l _ => replace l with (hv :: rev (map (srew C) (z :: f))); auto end.
      cbn [map rev]. now rewrite rev_app_distr.
    + cbn [map rev rsum]. rewrite rsum_app. cbn [rsum]. lra.
  - specialize (W _ _ H0). cbn in W. destruct W as (p & z & f & la & hv & _ & P & (n0 & Hn0 & Eh & _) & E0 & E1 & E2 & E3 & E4 & _).
    pose proof (path_tame _ I _ _ _ hv P) as Q. rewrite <- Eh in Q. specialize (Q (H _ _ Hn0)). rewrite Eh in Q. rewrite E3, E4.
    match goal with |- tame_list ?l _ => replace l with (hv :: rev (map (srew C) (z :: f))); auto end.
    cbn [map rev]. now rewrite rev_app_distr.
Qed.

Lemma tamed_reach : forall n s, ereach seqb aeqb C n s -> tamed s.
Proof using All.
  intros n. apply ereach_inv; auto.
  - split; [|split].
    + intros t x H. cbn in H. apply nth_error_In in H. apply repeat_spec in H. subst. cbn. auto.
    + intros [|[|d]] y H; cbn [einit mem dh nth_error] in H; try discriminate. injection H as <-. now apply new_from.
    + intros e [].
  - intros s s' G W St. eapply tamed_step; eauto.
Qed.
End After.
