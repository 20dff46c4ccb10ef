(** Algorithms whose values become exact where actions have certain outcomes. *)
From Coq Require Import List ZArith Bool Reals Lia Lra.
From Verif Require Import Base BaseProofs NumOps RLemmas HelperModel HelperSpec EngineModel EngineSpec EngineProofs EngineInv EngineCount EngineResults EngineMade MapModel MapProofs
  AlgoModel AlgoProofs AlgoTheorems AlgoNodes UctModel MentsModel SoftSpec SoftProofs MentsSpec RecSpec DentsSpec PickSpec TentsSpec TreeSpec TreeResults WorldSpec WorldProofs
  SoftResults SoftTheorems MentsTheorems DpRun DbRun WeightProofs QuietResults SureSpec SureProofs.
Import ListNotations.
Open Scope R_scope.

Lemma one_mean : forall k v w, (1 <= k)%Z -> weighted_mean [(k, v)] w -> w = v.
Proof.
  intros k v w K [_ H]. unfold rsum_of in H. cbn in H. apply IZR_le in K. specialize (H ltac:(lra)).
  apply (Rmult_eq_reg_r (IZR k)); lra.
Qed.

Section Sure.
Context {S A : Type}.
Variable seqb : S -> S -> bool.
Variable aeqb : A -> A -> bool.
Hypothesis seqb_ok : decides seqb.
Hypothesis aeqb_ok : decides aeqb.
Variable C : @econf S A.
Variable M : @mconf S A.
Hypothesis Env : env_ok C M.
Hypothesis Mok : ments_ok C M.
Hypothesis Det : deterministic C M.

Lemma members_one : forall T U K N (f : T -> U) (o : K) (d : N) y, members f [(o, (d, y))] = [(o, f y)].
Proof using Type. reflexivity. Qed.

(** ** Dynamic programming values *)
Section Dp.
Variable G : @algo S A.
Variable vD : XD G -> vmem.
Variable vC : XC G -> vmem.
Hypothesis Dp : dp_part M G vD vC.
Definition dp_fx (x : XD G) : Prop := (1 <= v_nb (vD x))%Z.
Definition dp_qx (x : XC G) : Prop := (1 <= v_nb (vC x))%Z.
Definition dp_px (x : XC G) : Prop := (0 <= v_nb (vC x))%Z.
Lemma dp_sure : sure_part C M greatest G (fun x => v_val (vD x)) (fun x => v_val (vC x)) dp_fx dp_qx dp_px.
Proof using All.
  constructor; unfold dp_fx, dp_qx, dp_px.
  - intros s k t. now rewrite (D_new _ _ _ _ Dp).
  - intros b x. rewrite (D_vis _ _ _ _ Dp). unfold dp_visit. destruct b; reflexivity.
  - intros b x H. rewrite (D_vis _ _ _ _ Dp). unfold dp_visit. destruct b; cbn; lia.
  - intros n x kids cx b x1 B H. apply (D_back _ _ _ _ Dp) in B. unfold dp_backup_d in B.
    repeat match type of B with context [match ?e with _ => _ end] => destruct e; try discriminate end; injection B as <-; cbn; lia.
  - intros n x kids cx b x1 B H. apply (D_backc _ _ _ _ Dp) in B. rewrite B. cbn. lia.
  - intros n x o d y cx b x1 Fy Px B. apply (D_backc _ _ _ _ Dp) in B. rewrite members_one in B.
    destruct (C38_dp_value M n (vC x) [(o, vD y)]) as (v & W & E); [intros o' y' [[= <- <-]|[]]; lia|]. rewrite B, E. cbn [v_val v_nb].
    apply one_mean in W; [|exact Fy]. cbn in W. rewrite W. split; [reflexivity|lia].
  - intros n x kids cx b x1 q B Is ND Ka Kq. apply (D_back _ _ _ _ Dp) in B.
    assert (Q : forall a y, In (a, y) (members vC kids) -> (1 <= v_nb y)%Z /\ q a = to_mover M (dtime n) (v_val y)).
    { intros a y J. unfold members in J. apply in_map_iff in J. destruct J as ([a' [c y']] & [= <- <-] & J). cbn. exact (Kq a' c y' J). }
    assert (Ne : exists a y, In (a, y) (members vC kids)).
    { pose proof (eo_acts _ _ Env (dstate n) Is) as N. destruct (acts C (dstate n)) as [|a l] eqn:Ea; [contradiction|].
      destruct (Ka a) as [K _]. specialize (K (or_introl eq_refl)). apply in_map_iff in K. destruct K as ([a' [c y]] & [= <-] & J).
      exists a', (vC y). unfold members. apply in_map_iff. exists (a', (c, y)). auto. }
    assert (Mem : forall a, In a (acts C (dstate n)) <-> exists y, In (a, y) (members vC kids)).
    { intros a. rewrite Ka. unfold members. split.
      - intros J. apply in_map_iff in J. destruct J as ([a' [c y]] & [= <-] & J). exists (vC y). apply in_map_iff. exists (a', (c, y)). auto.
      - intros (y & J). apply in_map_iff in J. destruct J as ([a' [c y']] & [= <- <-] & J). apply in_map_iff. exists (a', (c, y')). auto. }
    destruct (C39_best_child M n (vD x) (members vC kids)) as (v & E & H).
    + intros a y J. destruct (Q a y J). lia.
    + destruct Ne as (a & y & J). exists a, y. destruct (Q a y J). split; auto. lia.
    + rewrite E in B. injection B as B. rewrite <- B. cbn [v_val]. cbv zeta in H. unfold to_mover in *. fold (opponent M n) in *. unfold greatest.
      destruct (opponent M n) eqn:Op.
      * destruct H as [(k & J & _) Mx]. apply in_map_iff in J. destruct J as ([a y] & [= <- <-] & J). cbn [snd] in *. split.
        -- exists a. split; [apply Mem; eauto|]. symmetry. exact (proj2 (Q a y J)).
        -- intros a' Ia. apply Mem in Ia. destruct Ia as (y' & J'). destruct (Q a' y' J') as [K ->].
           specialize (Mx (v_nb y') (v_val y')). apply Ropp_le_contravar. apply Mx; [|lia]. apply in_map_iff. exists (a', y'). auto.
      * destruct H as [(k & J & _) Mx]. apply in_map_iff in J. destruct J as ([a y] & [= <- <-] & J). cbn [snd] in *. split.
        -- exists a. split; [apply Mem; eauto|]. symmetry. exact (proj2 (Q a y J)).
        -- intros a' Ia. apply Mem in Ia. destruct Ia as (y' & J'). destruct (Q a' y' J') as [K ->].
           specialize (Mx (v_nb y') (v_val y')). apply Mx; [|lia]. apply in_map_iff. exists (a', y'). auto.
Qed.
Lemma dp_full : forall n g s, areach seqb aeqb C G n g s -> quiet (base s) -> explored aeqb C (mem (base s)) -> full aeqb C G dp_fx dp_px s.
Proof using All.
  intros n g s R Q X. pose proof (nodes_reach seqb aeqb seqb_ok aeqb_ok C G _ _ _ _ (cnt_rules C M G vD vC Dp) n g s R) as No.
  pose proof (areach_good seqb aeqb seqb_ok aeqb_ok C G n g s R) as I.
  split; [exact X|]. split; [|split].
  - intros c x Hc. exact (proj2 (chance_visited seqb aeqb seqb_ok aeqb_ok C n (base s) c x (areach_ereach seqb aeqb C G n g s R) Q Hc)).
  - intros c x o d y _ _ Hy. destruct (nth_error (dh (mem (base s))) d) as [nd|] eqn:Hd.
    + exact (no_d _ _ _ _ _ _ _ _ No d nd y Hd Hy).
    + apply nth_error_None in Hd. assert (d < length (xds s))%nat by (apply nth_error_Some; congruence). rewrite (ag_d _ _ _ _ s I) in *. lia.
  - intros c y Hy. destruct (nth_error (ch (mem (base s))) c) as [nd|] eqn:Hd.
    + exact (no_c _ _ _ _ _ _ _ _ No c nd y Hd Hy).
    + apply nth_error_None in Hd. assert (c < length (xcs s))%nat by (apply nth_error_Some; congruence). rewrite (ag_c _ _ _ _ s I) in *. lia.
Qed.

Variable V : nat -> S -> Z -> R.
Hypothesis Sv : solves C M greatest V.
Lemma dp_exact : forall n g s k s1 ls s2, areach seqb aeqb C G n g s -> quiet (base s) -> explored aeqb C (mem (base s)) -> rounds seqb aeqb C k s s1 ->
  (max_depth C <= Z.of_nat k)%Z -> arun seqb aeqb C G ls s1 = Some s2 ->
  represents aeqb C M s2 (fun x => v_val (vD x)) (fun x => v_val (vC x)) V.
Proof using All.
  intros n g s k s1 ls s2 R Q X H L Ru.
  exact (proj1 (exact_from_now seqb aeqb seqb_ok aeqb_ok C M Env Mok Det greatest (greatest_lip A) V Sv G _ _ _ _ _ dp_sure n g s k s1 ls s2 R Q (dp_full n g s R Q X) H L Ru)).
Qed.
(** The best children by value are the best actions. *)
Lemma dp_best : (mthreshold M <= 1)%Z -> forall n g s k s1 ls s2 d node a, areach seqb aeqb C G n g s -> quiet (base s) -> explored aeqb C (mem (base s)) -> rounds seqb aeqb C k s s1 ->
  (max_depth C <= Z.of_nat k)%Z -> arun seqb aeqb C G ls s1 = Some s2 -> nth_error (dh (mem (base s2))) d = Some node -> is_leaf C node = false ->
  (best_by_value C M node (members vC (dview s2 node)) a <-> In a (acts C (dstate node)) /\ WorldSpec.action_worth C M V node a = V (left_at C node) (dstate node) (dtime node)).
Proof using All.
  intros Th n g s k s1 ls s2 d node a R Q X H L Ru Hd Nl.
  destruct (exact_from_now seqb aeqb seqb_ok aeqb_ok C M Env Mok Det greatest (greatest_lip A) V Sv G _ _ _ _ _ dp_sure n g s k s1 ls s2 R Q (dp_full n g s R Q X) H L Ru)
    as ((_ & Rc) & F2 & E2 & R2).
  pose proof (areach_good seqb aeqb seqb_ok aeqb_ok C G n g s2 R2) as I. pose proof I as [[Ti _] _ _ _ _]. pose proof (ti_wf _ _ _ _ Ti) as W.
  unfold is_leaf in Nl. apply orb_false_iff in Nl. destruct Nl as [Is Nl]. apply Z.leb_gt in Nl.
  pose proof (dview_ok seqb aeqb aeqb_ok C G s2 d node I Hd) as Fv.
  pose proof (dview_keys seqb aeqb aeqb_ok C G s2 d node I Hd) as Keys.
  pose proof (wf_dkeys _ _ _ _ W d node Hd) as ND.
  set (aw := fun b => WorldSpec.action_worth C M V node b).
  assert (K : forall b y, In (b, y) (members vC (dview s2 node)) -> In b (acts C (dstate node)) /\ (1 <= v_nb y)%Z /\ v_val y = aw b).
  { intros b y J. unfold members in J. apply in_map_iff in J. destruct J as ([b' [cn z]] & [= -> <-] & J).
    destruct (forall2_in_r _ _ _ _ _ _ Fv J) as ([b2 c] & Ic & Q1 & Q2 & Q3). cbn in *. subst b2.
    assert (Lk : lookup aeqb b (dkids node) = Some c) by (apply in_lookup; auto).
    destruct (wf_d _ _ _ _ W d node b c Hd Lk) as (cn' & Hc & P1 & P2 & P3 & P4 & P5 & _). assert (cn' = cn) by congruence. subst cn'.
    split; [exact P5|]. split; [|exact (Rc d node b c z Hd Lk Q3)].
    destruct (proj2 E2 c cn Q2) with (n := cn) (x := z) as [_ Qz]; auto. destruct (ti_time _ _ _ _ Ti _ _ Hd). lia. }
  assert (Mk : forall b, In b (map fst (members vC (dview s2 node))) <-> In b (acts C (dstate node))).
  { intros b. split.
    - intros J. apply in_map_iff in J. destruct J as ([b' y] & [= <-] & J). exact (proj1 (K b' y J)).
    - intros Ib. destruct (lookup aeqb b (dkids node)) as [c|] eqn:Lk; [|exfalso; exact (proj1 F2 d node b Hd Is Nl Ib Lk)].
      assert (Em : map fst (members vC (dview s2 node)) = map fst (dkids node)) by (rewrite <- Keys; unfold members; rewrite map_map; apply map_ext; intros [b' [cn z]]; reflexivity).
      rewrite Em. apply lookup_in in Lk; auto. exact (in_map fst _ _ Lk). }
  assert (En : forall b, In b (map fst (members vC (dview s2 node))) -> backed_up_enough M (members vC (dview s2 node)) b).
  { intros b J. apply in_map_iff in J. destruct J as ([b' y] & [= <-] & J). exists y. split; auto. destruct (K b' y J) as (_ & Ny & _). lia. }
  assert (El : left_at C node = Datatypes.S (left_at C node - 1)) by (unfold left_at; lia).
  pose proof (so_step _ _ _ _ Sv (left_at C node - 1) (dstate node) (dtime node) Is) as St. rewrite <- El in St. destruct St as [(a0 & I0 & V0) Mx].
  change (to_mover M (dtime node) (V (left_at C node) (dstate node) (dtime node)) = to_mover M (dtime node) (aw a0)) in V0.
  change (forall b, In b (acts C (dstate node)) -> to_mover M (dtime node) (aw b) <= to_mover M (dtime node) (V (left_at C node) (dstate node) (dtime node))) in Mx.
  unfold best_by_value. destruct (members vC (dview s2 node)) as [|m0 ms] eqn:Em.
  { exfalso. apply Mk in I0. destruct I0. }
  rewrite <- Em in *. clear m0 ms Em. fold (aw a). split.
  - intros (v & Hv & Ia & [[_ Hm]|[No _]]); [|exfalso; exact (No a Ia (En a Ia))].
    split; [now apply Mk|]. specialize (Hm a0 (proj2 (Mk a0) I0) (En a0 (proj2 (Mk a0) I0))).
    assert (Va : forall b, In b (map fst (members vC (dview s2 node))) -> v b = to_mover M (dtime node) (aw b)).
    { intros b J. apply in_map_iff in J. destruct J as ([b' y] & [= <-] & J). rewrite (Hv b' y J), seen_mover. f_equal. exact (proj2 (proj2 (K b' y J))). }
    rewrite (Va a Ia), (Va a0 (proj2 (Mk a0) I0)), <- V0 in Hm. specialize (Mx a (proj1 (Mk a) Ia)). unfold to_mover in Hm, Mx. destruct (mtwo M && Z.odd (dtime node)); lra.
  - intros [Ia Ea]. exists (fun b => to_mover M (dtime node) (aw b)). split.
    + intros b y J. rewrite seen_mover. f_equal. symmetry. exact (proj2 (proj2 (K b y J))).
    + split; [now apply Mk|]. left. split; [apply En; now apply Mk|]. intros b Ib _. rewrite Ea. apply Mx. now apply Mk.
Qed.
End Dp.

(** ** Soft values *)
Section Soft.
Hypothesis Tp : 0 < mtemp M.
Hypothesis Dn : mdecay M = None.
Notation me := (ments aeqb C M).
Definition me_fx (x : mmem) : Prop := (1 <= m_nb x)%Z.
Lemma ments_sure : sure_part C M (greatest_mixed (entropy_bonus (mtemp M))) me m_soft c_soft me_fx (fun _ => True) (fun _ => True).
Proof using All.
  constructor; unfold me_fx; cbn [XD XC ments new_xd vis_d back_d back_c].
  - intros s k t. cbn. destruct (heuristic C); reflexivity.
  - intros b x. unfold ments_visit. destruct b; reflexivity.
  - intros b x H. unfold ments_visit. destruct b; cbn; lia.
  - intros n x kids cx b x1 B H. apply backup_keeps in B. lia.
  - auto.
  - intros n x o d y cx b x1 Fy _ B. injection B as <-. destruct (C38_soft_value M n x [(o, (d, y))]) as (v & W & E); [intros o' d' y' [[= <- <- <-]|[]]; lia|].
    rewrite E. cbn [map snd fst] in W. apply one_mean in W; [|exact Fy]. rewrite W. cbn. auto.
  - intros n x kids cx b x1 q B Is ND Ka Kq.
    assert (Tn : ments_temp M n = mtemp M) by (unfold ments_temp; now rewrite Dn).
    destruct (C35_soft_value aeqb aeqb_ok C M n x kids x1) as (q' & Hq & E & _); auto.
    + rewrite Tn. exact Tp.
    + apply (eo_nodup _ _ Env).
    + apply (eo_acts _ _ Env). exact Is.
    + rewrite E.
      assert (Inv : forall v, to_mover M (dtime n) (seen M n v) = v) by (intros v; rewrite (seen_mover M n v); unfold to_mover; destruct (mtwo M && Z.odd (dtime n)); ring).
      rewrite Inv.
      rewrite Tn. replace (map q' (acts C (dstate n))) with (map q (acts C (dstate n))); [apply soft_mixed; auto; apply (eo_acts _ _ Env); exact Is|].
      apply map_ext_in. intros a Ia. specialize (Hq a Ia). destruct (Ka a) as [K _]. specialize (K Ia). inversion Hq as [c y I1 E1|p w N1 E1 I1 E2|N1 E1 E2]; subst; try contradiction.
      destruct (Kq a c y I1) as [_ ->]. now rewrite seen_mover.
Qed.
Lemma ments_full : forall n g s, areach seqb aeqb C me n g s -> quiet (base s) -> explored aeqb C (mem (base s)) -> full aeqb C me me_fx (fun _ => True) s.
Proof using All.
  intros n g s R Q X. pose proof (areach_ereach seqb aeqb C me _ _ _ R) as E.
  pose proof (areach_good seqb aeqb seqb_ok aeqb_ok C me n g s R) as I. pose proof I as [[Ti _] _ _ _ _]. pose proof (ti_wf _ _ _ _ Ti) as W.
  split; [exact X|]. split; [|split; [|auto]].
  - intros c x Hc. exact (proj2 (chance_visited seqb aeqb seqb_ok aeqb_ok C n (base s) c x E Q Hc)).
  - intros c x o d y Hc J Hy. destruct (nth_error (dh (mem (base s))) d) as [nd|] eqn:Hd.
    2:{ apply nth_error_None in Hd. assert (d < length (xds s))%nat by (apply nth_error_Some; congruence). rewrite (ag_d _ _ _ _ s I) in *. lia. }
    unfold me_fx. rewrite (weight_always seqb aeqb seqb_ok aeqb_ok C me _ 0 1 (ments_counter aeqb C M) n g s d nd y R Hd Hy).
    destruct (cinv_reach seqb aeqb seqb_ok aeqb_ok C _ _ E) as [K _].
    assert (Ch : cchild seqb (mem (base s)) c o d) by (exists x; split; auto; apply in_lookup; auto; exact (wf_ckeys _ _ _ _ W c x Hc)).
    destruct (is_leaf C nd) eqn:Lf.
    + destruct (proj2 (made_reach seqb aeqb seqb_ok aeqb_ok C n (base s) E) c o d Ch) as (t & b & It).
      pose proof (count_in (enters_d d) (etrace (base s)) t _ It ltac:(cbn; now rewrite Nat.eqb_refl)) as K3.
      pose proof (ci_en _ _ K d) as K4. rewrite (quiet_sum (base s) (atD d) eq_refl Q) in K4. pose proof (ci_vd _ _ K d) as K5. rewrite (quiet_sum (base s) (pendD d) eq_refl Q) in K5.
      assert (D0 : d <> 0%nat) by (intros ->; exact (ti_noroot _ _ _ _ Ti _ _ _ Ch eq_refl)). apply Nat.eqb_neq in D0. rewrite D0 in K4. change (b2z false) with 0%Z in K4. lia.
    + unfold is_leaf in Lf. apply orb_false_iff in Lf. destruct Lf as [Is Lf]. apply Z.leb_gt in Lf. pose proof (eo_acts _ _ Env (dstate nd) Is) as Na.
      destruct (acts C (dstate nd)) as [|a l] eqn:Ea; [contradiction|]. pose proof (X d nd a Hd Is Lf ltac:(rewrite Ea; now left)) as NE.
      destruct (lookup aeqb a (dkids nd)) as [k|] eqn:Lk; [|contradiction].
      destruct (proj1 (made_reach seqb aeqb seqb_ok aeqb_ok C n (base s) E) d a k) as (t & It); [exists nd; auto|].
      pose proof (count_in (visits_d d) (etrace (base s)) t _ It ltac:(cbn; now rewrite Nat.eqb_refl)) as K3.
      pose proof (ci_vd _ _ K d) as K5. rewrite (quiet_sum (base s) (pendD d) eq_refl Q) in K5. lia.
Qed.
Variable V : nat -> S -> Z -> R.
Hypothesis Sv : solves C M (greatest_mixed (entropy_bonus (mtemp M))) V.
Lemma soft_exact : forall n g s k s1 ls s2, areach seqb aeqb C me n g s -> quiet (base s) -> explored aeqb C (mem (base s)) -> rounds seqb aeqb C k s s1 ->
  (max_depth C <= Z.of_nat k)%Z -> arun seqb aeqb C me ls s1 = Some s2 -> represents aeqb C M s2 m_soft c_soft V.
Proof using All.
  intros n g s k s1 ls s2 R Q X H L Ru.
  exact (proj1 (exact_from_now seqb aeqb seqb_ok aeqb_ok C M Env Mok Det _ (mixed_lip A _) V Sv me _ _ _ _ _ ments_sure n g s k s1 ls s2 R Q (ments_full n g s R Q X) H L Ru)).
Qed.
End Soft.
End Sure.
