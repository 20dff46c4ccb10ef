(** Searches that give every action a minimal probability try every action often, for all but a small share of the draws *)
From Coq Require Import List ZArith Bool Reals Lia Lra Psatz Classical.
From Verif Require Import Base BaseProofs NumOps HelperModel HelperSpec HelperProofs EngineModel EngineSpec EngineProofs EngineInv EngineCount EngineEnds EngineResults AlgoModel AlgoProofs
  UctModel UctSpec ExploreSpec ExploreProofs SoftSpec SoftProofs WorldSpec ConvSpec OddsSpec OddsCover OddsStep OddsAvg OddsVille OddsFair OddsNodes OddsLaw ReachProofs.
Import ListNotations.
Open Scope R_scope.

(** ** Draws in an interval *)
Definition within (x y z : R) : bool := if Rle_dec x z then (if Rlt_dec z y then true else false) else false.
Definition below (y z : R) : R := if Rlt_dec z y then 1 else 0.
Lemma below_ge : forall y n, Rmin (INR n) y <= sum_to n (fun j => below y (INR j)).
Proof.
  intros y. induction n as [|n IH]; [cbn; apply Rmin_l|]. cbn [sum_to]. rewrite S_INR. unfold below at 2. destruct (Rlt_dec (INR n) y) as [L|L].
  - rewrite Rmin_left in IH by lra. pose proof (Rmin_l (INR n + 1) y). lra.
  - rewrite Rmin_right in IH by lra. pose proof (Rmin_r (INR n + 1) y). lra.
Qed.
Lemma below_le : forall x n, 0 <= x -> sum_to n (fun j => below x (INR j)) <= Rmin (INR n) (x + 1).
Proof.
  intros x n Hx. induction n as [|n IH]; [cbn; apply Rmin_glb; lra|]. cbn [sum_to]. rewrite S_INR. unfold below at 2.
  pose proof (Rmin_l (INR n) (x + 1)). pose proof (Rmin_r (INR n) (x + 1)). destruct (Rlt_dec (INR n) x) as [L|L]; apply Rmin_glb; lra.
Qed.
Lemma interval : forall N lo q, (0 < N)%nat -> 0 <= lo -> 0 <= q -> lo + q <= 1 -> q * INR N - 1 <= sum_to N (fun j => if within lo (lo + q) (INR j / INR N) then 1 else 0).
Proof.
  intros N lo q HN Hl Hq H1. assert (P : 0 < INR N) by (apply lt_0_INR; lia).
  apply Rle_trans with (sum_to N (fun j => below ((lo + q) * INR N) (INR j) + (-1) * below (lo * INR N) (INR j))).
  - rewrite sum_to_add, sum_to_scal. pose proof (below_ge ((lo + q) * INR N) N) as B1. rewrite Rmin_right in B1 by nra.
    pose proof (below_le (lo * INR N) N ltac:(nra)) as B2. pose proof (Rmin_r (INR N) (lo * INR N + 1)). lra.
  - apply sum_to_le. intros j _. assert (Q : forall y, INR j < y * INR N <-> INR j / INR N < y).
    { intros y. split; intros H.
      - apply (Rmult_lt_reg_r (INR N)); auto. unfold Rdiv. rewrite Rmult_assoc, Rinv_l, Rmult_1_r by lra. lra.
      - apply (Rmult_lt_compat_r (INR N)) in H; auto. unfold Rdiv in H. rewrite Rmult_assoc, Rinv_l, Rmult_1_r in H by lra. lra. }
    unfold below, within. destruct (Rlt_dec (INR j) ((lo + q) * INR N)) as [L1|L1], (Rlt_dec (INR j) (lo * INR N)) as [L2|L2]; rewrite Q in L1, L2;
      destruct (Rle_dec lo (INR j / INR N)), (Rlt_dec (INR j / INR N) (lo + q)); lra.
Qed.
Lemma exp_m1 : exp (-1) <= 1 / 2.
Proof.
  assert (E : exp 1 * exp (-1) = 1) by (rewrite <- exp_plus, Rplus_opp_r; apply exp_0).
  assert (2 <= exp 1) by (pose proof (exp_ineq1 1 ltac:(lra)); lra). pose proof (exp_pos (-1)). nra.
Qed.

Section Try.
Context {S A : Type}.
Variable seqb : S -> S -> bool.
Variable aeqb : A -> A -> bool.
Hypothesis seqb_ok : decides seqb.
Hypothesis aeqb_ok : decides aeqb.
Variable C : @econf S A.
Hypothesis NoTT : use_tt C = false.
Notation event := (@event S A).
Notation est := (@EngineModel.est S A).
Notation estep := (estep seqb aeqb C).
Notation ereach := (ereach seqb aeqb C).
Notation times := (times aeqb).

Lemma selected_cons : forall d t (e : event) tr, selected d ((t, e) :: tr) = match e with EVisitD d' a _ => if Nat.eqb d' d then [a] else [] | _ => [] end ++ selected d tr.
Proof using. reflexivity. Qed.
Lemma selected_none : forall n b d, ereach n b -> nth_error (dh (mem b)) d = None -> selected d (etrace b) = [].
Proof using seqb_ok aeqb_ok.
  intros n b d R H. pose proof (evs_reach seqb aeqb seqb_ok aeqb_ok C _ _ R) as Ev. unfold evs_ok in Ev. induction (etrace b) as [|[t e] tr IH]; auto.
  rewrite selected_cons, IH by (intros; eapply Ev; right; eauto). destruct e; auto. destruct (Nat.eqb_spec d0 d) as [->|]; auto.
  destruct (Ev t _ (or_introl eq_refl)) as (x & Hx & _). congruence.
Qed.
Lemma keeps_sel : forall l b b1, estep l b = Some b1 -> (forall t a, l <> LSelect t a) -> forall d, selected d (etrace b1) = selected d (etrace b).
Proof using.
  intros l b b1 H Hl d. destruct l as [t|t a|t o|t]; cbn [EngineModel.estep] in H.
  - destruct (nth_error (ths b) t) as [[]|]; try discriminate. injection H as <-. reflexivity.
  - destruct (Hl t a eq_refl).
  - destruct (nth_error (ths b) t) as [[]|]; try discriminate. destruct (nth_error (ch _) c) as [x|]; [|injection H as <-; reflexivity].
    destruct (nth_error (dh _) cur) as [n|]; [|injection H as <-; reflexivity]. destruct (existsb _ _); [|discriminate].
    destruct (create_child_c _ _ _ _ _ _) as [m1 isnew]. destruct (nth_error (ch m1) c) as [x1|]; [|injection H as <-; reflexivity].
    destruct (lookup seqb o (ckids x1)) as [d1|]; [|injection H as <-; reflexivity]. injection H as <-. destruct isnew; reflexivity.
  - destruct (nth_error (ths b) t) as [[]|]; try discriminate.
    + destruct (nth_error (dh _) cur) as [n|]; [|injection H as <-; reflexivity]. destruct (should_continue _ _ _); [discriminate|]. injection H as <-. reflexivity.
    + destruct nodes as [|[d1 c1] nodes]; [injection H as <-; reflexivity|]. destruct before; injection H as <-; reflexivity.
    + injection H as <-. reflexivity.
Qed.
Lemma adds_sel : forall t a b b1 cur flag nodes rewards, safe b -> nth_error (ths b) t = Some (TSel cur flag nodes rewards) -> estep (LSelect t a) b = Some b1 ->
  forall d, selected d (etrace b1) = (if Nat.eqb cur d then [a] else []) ++ selected d (etrace b).
Proof using seqb_ok aeqb_ok.
  intros t a b b1 cur flag nodes rewards Sf Ht H.
  assert (Lg : (length (etrace b) < length (etrace b1))%nat).
  { destruct (estep_gstep seqb aeqb seqb_ok aeqb_ok C _ _ _ Sf H); cbn [etrace length]; lia. }
  cbn [EngineModel.estep] in H. rewrite Ht in H.
  assert (Bad : forall m1, out b t m1 TBad [] = Some b1 -> False) by (intros m1 [= <-]; cbn in Lg; lia).
  destruct (nth_error (dh (mem b)) cur) as [x|]; [|destruct (Bad _ H)]. destruct (_ && _); [|discriminate].
  destruct (nth_error (dh (create_child_d _ _ _ _ _)) cur) as [n1|]; [|destruct (Bad _ H)].
  destruct (lookup aeqb a (dkids n1)) as [c1|]; [|destruct (Bad _ H)]. injection H as <-. intros d. destruct (lookup aeqb a (dkids x)); reflexivity.
Qed.
(** Visits of nodes with a decision to make. *)
Lemma inner_visits : forall n b d nd, ereach n b -> nth_error (dh (mem b)) d = Some nd -> is_leaf C nd = false ->
  (Z.of_nat (length (selected d (etrace b))) + init_visits C <= dvisits nd <= init_visits C + Z.of_nat (length (selected d (etrace b))) + 1)%Z.
Proof using seqb_ok aeqb_ok NoTT.
  intros n b d nd R Hd Nl. destruct (C10_always' seqb aeqb seqb_ok aeqb_ok C n b R) as (Dv & _). destruct (Dv d nd Hd) as (-> & _). rewrite selected_len.
  destruct (ends_reach seqb aeqb seqb_ok aeqb_ok C _ _ R) as (_ & En1 & En2).
  assert (Z0 : (0 <= count (ends_at d) (etrace b))%Z) by apply countb_nonneg.
  assert (Z1 : (0 <= sumZ (atnew d) (ths b))%Z) by (apply sumZ_nonneg; intros y; destruct y as [|? [] ? ?| | | |]; cbn; try lia; destruct (Nat.eqb _ _); cbn; lia).
  destruct (mcts_mode C) eqn:Mm; [specialize (En2 eq_refl NoTT d nd Hd Nl); destruct (Nat.eqb d 0)|specialize (En1 eq_refl d nd Hd Nl)]; lia.
Qed.

(** Every action was tried at least the share [kap] of the selections at a node, up to a constant [B0] and [Vm] selections. *)
Definition tried (kap B0 : R) (Vm : nat) (b : est) : Prop := forall d nd a, nth_error (dh (mem b)) d = Some nd -> In a (acts C (dstate nd)) ->
  kap * INR (Nat.min (length (selected d (etrace b))) Vm) - B0 <= IZR (times d a (etrace b)).

Section Rate.
Variable N : nat.
Hypothesis Npos : (0 < N)%nat.
Variable q : R.
Hypothesis Hq : 0 < q <= 1.
Hypothesis Fine : 2 <= q * INR N.
Variable Vm : nat.
(** Node and number of the action. *)
Variables d k : nat.
Definition Y (b : est) : R := match nth_error (dh (mem b)) d with
  | None => 1
  | Some nd => match nth_error (acts C (dstate nd)) k with
      | None => 0
      | Some a => if Nat.leb (length (selected d (etrace b))) Vm then exp (q / 4 * INR (length (selected d (etrace b))) - IZR (times d a (etrace b))) else 0
      end
  end.
Lemma Y_pos : forall b, 0 <= Y b.
Proof using. intros b. unfold Y. destruct (nth_error _ _); [|lra]. destruct (nth_error _ _); [|lra]. destruct (Nat.leb _ _); [left; apply exp_pos|lra]. Qed.
Lemma Y_init : forall n, Y (einit C n) <= 1.
Proof using.
  intros n. unfold Y, einit. cbn [mem dh etrace]. destruct d as [|d']; cbn [nth_error]; [|destruct (nth_error [] d') eqn:E; [destruct d'; discriminate|lra]].
  destruct (nth_error _ _); [|lra]. cbn. rewrite Rmult_0_r, Rminus_0_r, exp_0. lra.
Qed.
Lemma Y_keep : forall n b b1, ereach n b -> gstep seqb aeqb C b b1 -> selected d (etrace b1) = selected d (etrace b) -> Y b1 <= Y b.
Proof using seqb_ok aeqb_ok.
  intros n b b1 R St E. unfold Y, ExploreSpec.times. rewrite E. pose proof (mstep_ext _ _ C _ _ (gstep_mstep _ _ _ _ _ St)) as X.
  destruct (nth_error (dh (mem b)) d) as [x|] eqn:Ex.
  - destruct (xt_d _ _ _ _ X d x Ex) as (x' & -> & -> & _). lra.
  - rewrite (selected_none n b d R Ex). destruct (nth_error (dh (mem b1)) d); [|lra]. destruct (nth_error (acts C (dstate _)) k); [|lra]. cbn. rewrite Rmult_0_r, Rminus_0_r, exp_0. lra.
Qed.
Lemma Y_add : forall b b1 nd a a', gstep seqb aeqb C b b1 -> nth_error (dh (mem b)) d = Some nd -> nth_error (acts C (dstate nd)) k = Some a ->
  selected d (etrace b1) = a' :: selected d (etrace b) ->
  Y b1 <= Y b * (exp (q / 4) * (1 + (exp (-1) - 1) * if aeqb a a' then 1 else 0)) /\ ((Vm <= length (selected d (etrace b)))%nat -> Y b1 = 0).
Proof using Npos.
  intros b b1 nd a a' St Ed Ea E. unfold Y, ExploreSpec.times. rewrite E, Ed, Ea. pose proof (mstep_ext _ _ C _ _ (gstep_mstep _ _ _ _ _ St)) as X.
  destruct (xt_d _ _ _ _ X d nd Ed) as (x' & -> & -> & _). rewrite Ea. cbn [length countb]. set (l := length _). set (z := countb _ _).
  assert (P : 0 <= 1 + (exp (-1) - 1) * (if aeqb a a' then 1 else 0)) by (pose proof (exp_pos (-1)); destruct (aeqb a a'); lra). pose proof (exp_pos (q / 4)).
  destruct (Nat.leb_spec (Datatypes.S l) Vm) as [L|L].
  - split; [|lia]. replace (Nat.leb l Vm) with true by (symmetry; apply Nat.leb_le; lia). right. rewrite S_INR. destruct (aeqb a a').
    + rewrite plus_IZR. replace (exp (q / 4) * _) with (exp (q / 4) * exp (-1)) by ring. rewrite <- !exp_plus. f_equal. ring.
    + rewrite Z.add_0_l. rewrite Rmult_0_r, Rplus_0_r, Rmult_1_r. rewrite <- exp_plus. f_equal. ring.
  - split; auto. destruct (Nat.leb l Vm); [|rewrite Rmult_0_l; lra]. apply Rmult_le_pos; [left; apply exp_pos|]. apply Rmult_le_pos; lra.
Qed.
(** On average over draws that hit a share [q] of the unit interval. *)
Lemma rate : forall hit : nat -> R, q * INR N - 1 <= sum_to N hit -> sum_to N (fun j => exp (q / 4) * (1 + (exp (-1) - 1) * hit j)) <= INR N.
Proof using Npos Hq Fine.
  intros hit H. rewrite sum_to_scal, sum_to_add, sum_to_const, sum_to_scal, Rmult_1_r. pose proof exp_m1 as E1. assert (P : 0 < INR N) by (apply lt_0_INR; lia).
  assert (H1 : INR N + (exp (-1) - 1) * sum_to N hit <= INR N * (1 - q / 4)) by nra.
  assert (E2 : 1 - q / 4 <= exp (- (q / 4))) by (destruct (Req_dec (- (q / 4)) 0); [lra|]; pose proof (exp_ineq1 (- (q / 4)) ltac:(lra)); lra).
  assert (E3 : exp (q / 4) * exp (- (q / 4)) = 1) by (rewrite <- exp_plus, Rplus_opp_r; apply exp_0). pose proof (exp_pos (q / 4)) as P4.
  apply Rle_trans with (exp (q / 4) * (INR N * exp (- (q / 4)))).
  - apply Rmult_le_compat_l; [lra|]. eapply Rle_trans; [exact H1|]. apply Rmult_le_compat_l; lra.
  - right. transitivity (INR N * (exp (q / 4) * exp (- (q / 4)))); [ring|rewrite E3; ring].
Qed.

Variable G : @algo S A.
Notation areach := (areach seqb aeqb C G).
Notation astep := (astep seqb aeqb C G).
(** Selections give every action an interval of length [q], up to [Vm] selections at a node. *)
Definition generous (n : nat) : Prop := forall g s t cur flag nodes rewards nd x cx a, good_ints g -> good_reals g -> areach n g s -> afail s = None ->
  nth_error (ths (base s)) t = Some (TSel cur flag nodes rewards) -> nth_error (dh (mem (base s))) cur = Some nd -> nth_error (xds s) cur = Some x -> nth_error (cxs s) t = Some cx ->
  should_continue C nd flag = true -> (dvisits nd <= init_visits C + Z.of_nat Vm)%Z -> In a (acts C (dstate nd)) ->
  exists lo cx1, 0 <= lo /\ lo + q <= 1 /\ forall g', lo <= gr g' (nr g') < lo + q -> select G (visit_d nd) (vis_d G (is_leaf C nd) x) (dview s nd) cx g' = Ok (a, cx1, adv g').
Variable n : nat.
Hypothesis Gen : generous n.

Lemma Y_sup : forall g s lb (f : nat -> nat -> R), good_ints g -> good_reals g -> areach n g s ->
  (forall j, (j < N)%nat -> f j (nr (rg s)) = INR j / INR N) ->
  sum_to N (fun j => after G Y (astep lb (regrs G (f j) s))) <= INR N * Y (base s).
Proof using seqb_ok aeqb_ok NoTT Npos Hq Fine Gen.
  intros g s lb f Gi Gr R Hf. pose proof (areach_ereach seqb aeqb C G _ _ _ R) as Re. destruct (ereach_good seqb aeqb seqb_ok aeqb_ok C _ _ Re) as [I Sf].
  assert (Keep : (forall j, (j < N)%nat -> after G Y (astep lb (regrs G (f j) s)) <= Y (base s)) -> sum_to N (fun j => after G Y (astep lb (regrs G (f j) s))) <= INR N * Y (base s)).
  { intros H. rewrite <- sum_to_const. now apply sum_to_le. }
  assert (One : forall le b1, (forall t o, le <> LSelect t o) -> estep le (base s) = Some b1 -> Y b1 <= Y (base s)).
  { intros le b1 Hn E. eapply Y_keep; eauto; [eapply estep_gstep; eauto|eapply keeps_sel; eauto]. }
  assert (Same : Y (base s) <= Y (base s)) by lra. pose proof (Y_pos (base s)) as Wp.
  unfold AlgoModel.astep in *. cbn [regrs afail base cxs xds xcs] in *.
  destruct (afail s) as [fl|] eqn:Fs; [apply Keep; intros; exact Wp|]. destruct lb as [t|t].
  { apply Keep. intros j _. destruct (estep (LStart t) (base s)) as [b|] eqn:E; cbn; auto. eapply One; [|exact E]. discriminate. }
  destruct (nth_error (ths (base s)) t) as [th|] eqn:Ht; [|apply Keep; intros; exact Wp]. destruct (nth_error (cxs s) t) as [cx|] eqn:Hcx; [|apply Keep; intros; exact Wp].
  assert (Bl : forall j, blocked G (regrs G (f j) s) t th = blocked G s t th) by reflexivity.
  assert (Dv : forall j nd, dview (regrs G (f j) s) nd = dview s nd) by reflexivity.
  assert (Cv : forall j nd, cview (regrs G (f j) s) nd = cview s nd) by reflexivity.
  destruct (blocked G s t th) eqn:Eb; [apply Keep; intros; rewrite Bl; exact Wp|].
  destruct th as [|cur flag nodes rewards|cur a c0 flag nodes rewards|nodes before aft tafter tot|d0 nodes before aft tafter tot|]; try (apply Keep; intros; rewrite Bl; exact Wp).
  - destruct (nth_error (dh (mem (base s))) cur) as [nd|] eqn:Hn; [|apply Keep; intros; rewrite Bl; exact Same]. destruct (nth_error (xds s) cur) as [x|] eqn:Hx; [|apply Keep; intros; rewrite Bl; exact Same].
    destruct (should_continue C nd flag) eqn:Sc.
    2: { apply Keep. intros j _. rewrite Bl. destruct (estep (LRun t) (base s)) as [b|] eqn:E; [|exact Wp]. cbn. eapply One; [|exact E]. discriminate. }
    assert (Other : (forall j a b1, (j < N)%nat -> estep (LSelect t a) (base s) = Some b1 -> Y b1 <= Y (base s)) ->
      forall j, (j < N)%nat -> after G Y (astep (ARun t) (regrs G (f j) s)) <= Y (base s)).
    { intros H j Hj. unfold AlgoModel.astep. cbn [regrs afail base cxs xds xcs]. rewrite Fs, Ht, Hcx, Bl, Hn, Hx, Sc.
      destruct (select G _ _ _ _ _) as [[[a cx1] g1]| |]; cbn [done]; [|exact Same|exact Same].
      destruct (estep (LSelect t a) (base s)) as [b|] eqn:E; [|exact Same]. cbn. eapply H; eauto. }
    unfold AlgoModel.astep in Other. cbn [regrs afail base cxs xds xcs] in Other.
    destruct (Nat.eq_dec cur d) as [->|Ncd].
    2: { apply Keep. intros j Hj. specialize (Other ltac:(intros j' a b1 _ E; eapply Y_keep; eauto; [eapply estep_gstep; eauto|rewrite (adds_sel _ _ _ _ _ _ _ _ Sf Ht E d); replace (Nat.eqb cur d) with false by (symmetry; now apply Nat.eqb_neq); reflexivity]) j Hj).
         rewrite Fs, Ht, Hcx, Hn, Hx, Sc in Other. exact Other. }
    assert (Add : forall a' b1, estep (LSelect t a') (base s) = Some b1 -> gstep seqb aeqb C (base s) b1 /\ selected d (etrace b1) = a' :: selected d (etrace (base s))).
    { intros a' b1 E. split; [eapply estep_gstep; eauto|]. rewrite (adds_sel _ _ _ _ _ _ _ _ Sf Ht E d), Nat.eqb_refl. reflexivity. }
    destruct (nth_error (acts C (dstate nd)) k) as [a|] eqn:Ea.
    2: { apply Keep. intros j Hj. specialize (Other ltac:(intros j' a b1 _ E; destruct (Add _ _ E) as (St & _);
           pose proof (mstep_ext _ _ C _ _ (gstep_mstep _ _ _ _ _ St)) as X; unfold Y; destruct (xt_d _ _ _ _ X d nd Hn) as (x' & -> & -> & _); rewrite Hn, Ea; lra) j Hj).
         rewrite Fs, Ht, Hcx, Hn, Hx, Sc in Other. exact Other. }
    destruct (Nat.leb_spec Vm (length (selected d (etrace (base s))))) as [Full|Room].
    { apply Keep. intros j Hj. specialize (Other ltac:(intros j' a' b1 _ E; destruct (Add _ _ E) as (St & Es); rewrite (proj2 (Y_add _ _ _ _ _ St Hn Ea Es) Full); exact Wp) j Hj).
      rewrite Fs, Ht, Hcx, Hn, Hx, Sc in Other. exact Other. }
    assert (Nl : is_leaf C nd = false) by (unfold should_continue in Sc; destruct (is_leaf C nd); auto; discriminate).
    pose proof (inner_visits n (base s) d nd Re Hn Nl) as Vs.
    destruct (Gen g s t d flag nodes rewards nd x cx a Gi Gr R Fs Ht Hn Hx Hcx Sc ltac:(lia) ltac:(eapply nth_error_In; eauto)) as (lo & cx1 & L0 & L1 & Hs).
    pose proof (interval N lo q Npos L0 ltac:(lra) L1) as Iv.
    apply Rle_trans with (sum_to N (fun j => Y (base s) * (exp (q / 4) * (1 + (exp (-1) - 1) * if within lo (lo + q) (INR j / INR N) then 1 else 0)))).
    + apply sum_to_le. intros j Hj. rewrite Bl. cbn [rg regrs]. set (h := if within lo (lo + q) (INR j / INR N) then 1 else 0).
      assert (P1 : 1 <= exp (q / 4)) by (pose proof (exp_ineq1 (q / 4) ltac:(lra)); lra).
      assert (Hit : within lo (lo + q) (INR j / INR N) = true -> select G (visit_d nd) (vis_d G (is_leaf C nd) x) (dview s nd) cx (regr (f j) (rg s)) = Ok (a, cx1, adv (regr (f j) (rg s)))).
      { intros W. apply Hs. cbn [regr gr nr]. rewrite (Hf j Hj). unfold within in W. destruct (Rle_dec _ _); [|discriminate]. destruct (Rlt_dec _ _); [|discriminate]. lra. }
      unfold h. destruct (within lo (lo + q) (INR j / INR N)) eqn:W.
      * change (dview (regrs G (f j) s) nd) with (dview s nd). rewrite (Hit eq_refl). cbn [done].
        destruct (estep (LSelect t a) (base s)) as [b1|] eqn:E.
        -- destruct (Add _ _ E) as (St & Es). cbn. destruct (Y_add _ _ _ _ _ St Hn Ea Es) as (Q & _). rewrite (proj2 (aeqb_ok a a) eq_refl) in Q. exact Q.
        -- exfalso. clear - E Ht Hn Sc Ea aeqb_ok. cbn [EngineModel.estep] in E. rewrite Ht, Hn, Sc in E. cbn [andb] in E.
           replace (existsb _ _) with true in E. 2: { symmetry. apply existsb_exists. exists a. split; [eapply nth_error_In; eauto|now apply aeqb_ok]. }
           destruct (nth_error (dh (create_child_d _ _ _ _ _)) d); [|discriminate]. destruct (lookup _ _ _); discriminate.
      * apply Rle_trans with (Y (base s) * exp (q / 4)); [|right; ring].
        assert (Up : Y (base s) <= Y (base s) * exp (q / 4)) by nra.
        destruct (select G _ _ _ _ _) as [[[a' cx2] g1]| |]; cbn [done]; [|exact Up|exact Up].
        destruct (estep (LSelect t a') (base s)) as [b1|] eqn:E; [|exact Up]. cbn. destruct (Add _ _ E) as (St & Es). destruct (Y_add _ _ _ _ _ St Hn Ea Es) as (Q & _).
        eapply Rle_trans; [exact Q|]. apply Rmult_le_compat_l; auto. pose proof exp_m1. destruct (aeqb a a'); nra.
    + rewrite sum_to_scal, (Rmult_comm (INR N)). apply Rmult_le_compat_l; auto. exact (rate (fun j => if within lo (lo + q) (INR j / INR N) then 1 else 0) Iv).
  - apply Keep. intros j _. rewrite Bl. destruct (nth_error (ch (mem (base s))) c0) as [nd|]; [|exact Same]. destruct (nth_error (xcs s) c0) as [x|]; [|exact Same].
    destruct (sample G _ _ _ _) as [[[o cx1] g1]| |]; cbn [done]; [|exact Same|exact Same].
    destruct (estep (LSample t o) (base s)) as [b|] eqn:E; [|exact Same]. cbn. eapply One; [|exact E]. discriminate.
  - apply Keep. intros j _. rewrite Bl. destruct (estep (LRun t) (base s)) as [b|] eqn:E; [|exact Wp].
    assert (Wb : Y b <= Y (base s)) by (eapply One; [|exact E]; discriminate).
    destruct nodes as [|[d1 c1] nodes1]; [exact Wb|]. destruct before as [|r before1]; [exact Wb|].
    destruct (nth_error (ch (mem (base s))) c1) as [nd|]; [|exact Same]. destruct (nth_error (xcs s) c1) as [x|]; [|exact Same].
    rewrite Cv. destruct (peek_c G (cview s nd) cx); [exact Same|]. destruct (back_c G nd x (cview s nd) cx _); cbn [done]; [exact Wb|exact Same|exact Same].
  - apply Keep. intros j _. rewrite Bl. destruct (estep (LRun t) (base s)) as [b|] eqn:E; [|exact Wp].
    assert (Wb : Y b <= Y (base s)) by (eapply One; [|exact E]; discriminate).
    destruct (nth_error (dh (mem (base s))) d0) as [nd|]; [|exact Same]. destruct (nth_error (xds s) d0) as [x|]; [|exact Same].
    rewrite Dv. destruct (peek_d G (dview s nd) cx); [exact Same|]. destruct (back_d G nd x (dview s nd) cx _); cbn [done]; [exact Wb|exact Same|exact Same].
Qed.
End Rate.
End Try.
