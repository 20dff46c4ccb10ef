(** Soft values in doubles and the values of the environment. *)
From Coq Require Import List ZArith Bool Reals Lia Lra Permutation.
From Verif Require Import Base BaseProofs NumOps HelperModel HelperSpec EngineModel EngineSpec EngineProofs EngineTheorems MapProofs AlgoModel AlgoProofs AlgoNodes
  MentsModel SoftSpec MentsSpec PickSpec QuietSpec TreeSpec TreeProofs TreeResults WeightProofs MixedProofs MixedResults WorldSpec WorldProofs WorldResults DoubleSpec DoubleProofs LseModel LseSpec LseReal
  Ments64Model Ments64Spec Ments64Proofs Ments64Close.
Import ListNotations.
Open Scope R_scope.

Section World.
Context {S A : Type}.
Variable seqb : S -> S -> bool.
Variable aeqb : A -> A -> bool.
Hypothesis seqb_ok : decides seqb.
Hypothesis aeqb_ok : decides aeqb.
Variable C : @econf S A.
Variables fexp flog : F -> F.
Variable K : @fconf S A.
Variable M : @mconf S A.
Variables v B0 Rw tlo thi W : R.
Variables na ns : Z.
Hypothesis Lm : libm fexp flog v.
Hypothesis Rg : in_range C K v B0 Rw tlo thi W na ns.
Hypothesis Sn : same_numbers C K M.
Hypothesis NoTT : use_tt C = false.
Hypothesis Env : env_ok C M.
Variable N : R.
Hypothesis Few : few_actions C N.
Variables Hb Rr : R.
Hypothesis Bd : world_bounds C M Hb Rr.
Variable V : nat -> S -> Z -> R.
Hypothesis Sv : solves C M (greatest_mixed (entropy_bonus (mtemp M))) V.
Notation search := (areach seqb aeqb C (ments64 aeqb C fexp flog K)).
Notation serr eps := (sampling_error eps Hb (Rr + mtemp M * ln N)).
Notation err eps := (fun h : nat => serr eps h + INR h * (err_c W ns + err_d v W thi na)).

Lemma temp_pos : 0 < mtemp M.
Proof using Rg Sn.
  rewrite <- (sn_temp _ _ _ Sn (new_dnode C (root_state C) 0 0)). destruct (ir_temp _ _ _ _ _ _ _ _ _ _ Rg (new_dnode C (root_state C) 0 0)) as (_ & T1 & _).
  pose proof (tlo_pos C K v B0 Rw tlo thi W na ns Rg). lra.
Qed.

Theorem soft_near64 : forall n g s eps, search n g s -> quiet (base s) -> 0 <= eps ->
  explored aeqb C (mem (base s)) -> faithful M (samples C) eps (mem (base s)) ->
  approximates aeqb C M s (fun x : fdmem => dval (fd_soft x)) (fun y : fcmem => dval (fc_soft y)) V (err eps).
Proof using All.
  intros n g s eps R Q Ep Full Fair. pose proof temp_pos as Tp.
  pose proof (areach_good seqb aeqb seqb_ok aeqb_ok C _ _ _ _ R) as I.
  destruct (C12_well_formed seqb aeqb seqb_ok aeqb_ok C n (base s) (areach_ereach seqb aeqb C _ _ _ _ R)) as [Wf Dep]. specialize (Dep (ir_depth _ _ _ _ _ _ _ _ _ _ Rg)).
  destruct (range_reach seqb aeqb seqb_ok aeqb_ok C fexp flog K v B0 Rw tlo thi W na ns Lm Rg n g s R) as [RD RC].
  pose proof (fun c x o d node => soft_weight seqb aeqb seqb_ok aeqb_ok C M NoTT Env _ _ (counter64 aeqb C fexp flog K) n g s c x o d node R Q Full) as Pos.
  set (m := mem (base s)) in *. set (VD := exact aeqb C M m (full C)).
  assert (HD : forall d node, nth_error (dh m) d = Some node ->
    dkids node = [] /\ VD d = dheur node \/
    dkids node <> [] /\ exists q, (forall a c, In a (acts C (dstate node)) -> lookup aeqb a (dkids node) = Some c -> q a = seen M node (exact_c C M m VD c)) /\
      greatest_mixed (entropy_bonus (mtemp M)) (acts C (dstate node)) q (seen M node (VD d))).
  { intros d node Hd. unfold VD at 1 3. unfold full. cbn [exact]. rewrite Hd. unfold exact_d.
    destruct (dkids node) as [|[a0 c0] ks] eqn:Ek; [left; split; reflexivity|right]. split; [discriminate|]. rewrite <- Ek.
    exists (fun a => seen M node (exact_q aeqb C M m VD node a)). split.
    - intros a c _ Lc. unfold exact_q. now rewrite Lc.
    - rewrite seen_seen. erewrite map_ext_in; [apply soft_mixed; [exact Tp|]|].
      + destruct (wf_d _ _ _ _ Wf d node a0 c0 Hd) as (_ & _ & _ & _ & _ & _ & Ia & _); [rewrite Ek; cbn; now rewrite (keqb_refl _ aeqb_ok)|]. intros E0. rewrite E0 in Ia. exact Ia.
      + intros a _. cbv beta. unfold VD. apply (f_equal (seen M node)). apply (exact_q_ext seqb aeqb seqb_ok C M m Wf) with (d := d); auto. intros e k He De.
        apply (exact_fuel seqb aeqb seqb_ok C M m Wf Dep) with (n := k); auto; [|apply (enough C m Dep e k He)]. pose proof (Dep d node Hd). pose proof (Dep e k He). lia. }
  assert (Ln : 0 <= mtemp M * ln N).
  { apply Rmult_le_pos; [lra|]. destruct Few as [N1 _]. rewrite <- ln_1. destruct (Req_dec 1 N) as [<-|]; [lra|]. left. apply ln_increasing; lra. }
  destruct (tree_values seqb aeqb seqb_ok aeqb_ok C M Env (greatest_mixed (entropy_bonus (mtemp M))) (mixed_lip A _) (mtemp M * ln N) (mixed_adds A _ _ _ Ln (entropy_range C M Tp N Few)) V Sv Hb Rr Bd Ln
    m Wf Dep (samples C) (fun c x o d node H1 H2 H3 => Z.lt_le_incl _ _ (Pos c x o d node H1 H2 H3)) VD (exact_c C M m VD) HD) with (eps := eps) as [T1 T2]; auto.
  { intros c x Hc. unfold exact_c. now rewrite Hc. }
  assert (El : forall d node, nth_error (dh m) d = Some node -> INR (left_at C node) = IZR (max_depth C - ddepth node)).
  { intros d node Hd. unfold left_at. rewrite INR_IZR_INZ, Z2Nat.id; [reflexivity|]. pose proof (Dep d node Hd). lia. }
  assert (Cd : forall d node x, nth_error (dh m) d = Some node -> nth_error (xds s) d = Some x ->
    Rabs (dval (fd_soft x) - VD d) <= IZR (max_depth C - ddepth node) * (err_c W ns + err_d v W thi na)).
  { intros d node x Hd Hx. apply (close64 seqb aeqb seqb_ok aeqb_ok C fexp flog K M v B0 Rw tlo thi W na ns Lm Rg Sn NoTT n g s R Q); auto. apply (enough C m Dep d node Hd). }
  split.
  - intros d node x Hd Hx. specialize (T1 d node Hd). specialize (Cd d node x Hd Hx). rewrite (El d node Hd). apply abs_inv in T1, Cd. apply Rabs_le. lra.
  - intros d node a c y Hd Lc Hy. specialize (T2 d node a c Hd Lc). destruct (wf_d _ _ _ _ Wf d node a c Hd Lc) as (x & Hx & _ & Dx & _ & _ & _ & Ns).
    destruct (errs_pos C fexp flog K v B0 Rw tlo thi W na ns Lm Rg) as (E1 & E2). pose proof (Dep d node Hd) as Dd.
    assert (Lt : (ddepth node < max_depth C)%Z) by (apply Z.nle_gt; intros L; apply Ns; now right).
    assert (Cc : Rabs (dval (fc_soft y) - exact_c C M m VD c) <= IZR (max_depth C - ddepth node - 1) * (err_c W ns + err_d v W thi na) + err_c W ns).
    { apply (chance64 seqb aeqb seqb_ok aeqb_ok C fexp flog K M v B0 Rw tlo thi W na ns Lm Rg Sn NoTT n g s R Q VD c x y); auto.
      - apply Rmult_le_pos; [apply IZR_le; lia|lra].
      - intros e en z He Hz De. replace (max_depth C - ddepth node - 1)%Z with (max_depth C - ddepth en)%Z by lia. now apply Cd. }
    rewrite (El d node Hd). rewrite minus_IZR in Cc. unfold action_worth in *. unfold WorldSpec.action_worth. apply abs_inv in T2, Cc. apply Rabs_le. lra.
Qed.

(** So an action whose value is highest is nearly the best. *)
Theorem soft_choice64 : forall n g s eps d node a ca ya, search n g s -> quiet (base s) -> 0 <= eps ->
  explored aeqb C (mem (base s)) -> faithful M (samples C) eps (mem (base s)) ->
  nth_error (dh (mem (base s))) d = Some node -> lookup aeqb a (dkids node) = Some ca -> nth_error (xcs s) ca = Some ya ->
  (forall b cb yb, lookup aeqb b (dkids node) = Some cb -> nth_error (xcs s) cb = Some yb ->
     seen M node (dval (fc_soft yb)) <= seen M node (dval (fc_soft ya))) ->
  forall b, In b (acts C (dstate node)) ->
    seen M node (WorldSpec.action_worth C M V node b) <= seen M node (WorldSpec.action_worth C M V node a) + 2 * err eps (left_at C node).
Proof using All.
  intros n g s eps d node a ca ya R Q Ep Full Fair Hd La Hya Mx b Ib.
  destruct (soft_near64 n g s eps R Q Ep Full Fair) as [_ T2].
  pose proof (areach_good seqb aeqb seqb_ok aeqb_ok C _ _ _ _ R) as I.
  pose proof (proj1 (C12_well_formed seqb aeqb seqb_ok aeqb_ok C n (base s) (areach_ereach seqb aeqb C _ _ _ _ R))) as Wf.
  destruct (wf_d _ _ _ _ Wf d node a ca Hd La) as (_ & _ & _ & _ & _ & _ & _ & Ns).
  destruct (lookup aeqb b (dkids node)) as [cb|] eqn:Lb.
  2:{ exfalso. refine (Full d node b Hd _ _ Ib Lb); [destruct (is_sink C (dstate node)) eqn:Es; [destruct Ns; left; exact Es|reflexivity]|]. apply Z.nle_gt. intros L. apply Ns. now right. }
  destruct (wf_d _ _ _ _ Wf d node b cb Hd Lb) as (xb & Hxb & _).
  destruct (ch_some seqb aeqb C _ s cb I) as (_ & yb & _ & Hyb); [apply nth_error_Some; congruence|].
  specialize (Mx b cb yb Lb Hyb). pose proof (T2 d node a ca ya Hd La Hya) as Ta. pose proof (T2 d node b cb yb Hd Lb Hyb) as Tb.
  apply abs_inv in Ta, Tb. unfold seen in *. destruct (opponent M node); lra.
Qed.
End World.
