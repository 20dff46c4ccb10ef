(** Average returns in doubles: proofs. *)
From Coq Require Import List ZArith Bool Reals Lia Lra Permutation.
From Coq Require Import Floats.SpecFloat.
From Verif Require Import Base BaseProofs NumOps HelperModel EngineModel EngineSpec EngineProofs EngineInv EngineBound EngineAfter EngineTheorems
  DoubleSpec DoubleProofs AlgoModel AlgoProofs AlgoNodes AlgoHist ArgsHist UctModel UctSpec UctProofs MentsModel PickSpec TreeResults LseSpec
  RoundModel RoundSpec RoundProofs RoundDouble RoundRange RoundRun RoundResults Ments64Spec Dp64Model Dp64Spec Dp64Proofs Dp64Pick Emp64Model Emp64Spec.
Import ListNotations.
Open Scope R_scope.

Lemma average_mean : forall l nb m, is_mean 0 0 l nb m -> nb = count_of l /\ m = average l.
Proof.
  intros l nb m (H1 & H2 & H3). split; [unfold count_of; lia|]. unfold average. destruct l as [|r l].
  - apply H2. cbn in H1. lia.
  - rewrite H3 by (cbn [length] in H1; lia). rewrite H1, Z.add_0_l, Rmult_0_l, Rplus_0_l. reflexivity.
Qed.

Section Reach.
Context {S A N : Type}.
Variable seqb : S -> S -> bool.
Variable aeqb : A -> A -> bool.
Hypothesis seqb_ok : decides seqb.
Hypothesis aeqb_ok : decides aeqb.
Variable C : @econf S A.
Variable O : numops N.
Variable val : R -> N.
Variable ret : bargs -> N.
Variable G : @algo S A.
Variable eD : XD G -> nx N.
Variable eC : XC G -> nx N.
Hypothesis Ka : keeps_avg O (fun n => val (dheur n)) ret G eD eC.

Lemma keeps_rules : arg_rules C G (fun n l x => eD x = run O (mkNx 1 (val (dheur n))) (map ret l)) (fun _ l x => eC x = run O (mkNx 0 (nzero O)) (map ret l)).
Proof using Ka.
  constructor; intros.
  - apply (ka_new _ _ _ _ _ _ Ka).
  - apply (ka_newc _ _ _ _ _ _ Ka).
  - rewrite (ka_vis _ _ _ _ _ _ Ka). exact H.
  - exact H.
  - exact H.
  - exact H.
  - rewrite (ka_back _ _ _ _ _ _ Ka _ _ _ _ _ _ H1), H0. reflexivity.
  - rewrite (ka_backc _ _ _ _ _ _ Ka _ _ _ _ _ _ H0), H. reflexivity.
Qed.
Lemma keeps_reach : forall n g s, areach seqb aeqb C G n g s ->
  (forall d node x, nth_error (dh (mem (base s))) d = Some node -> nth_error (xds s) d = Some x ->
     eD x = run O (mkNx 1 (val (dheur node))) (map ret (args_d d (etrace (base s))))) /\
  (forall c x, nth_error (xcs s) c = Some x -> eC x = run O (mkNx 0 (nzero O)) (map ret (args_c c (etrace (base s))))).
Proof using Ka seqb_ok aeqb_ok.
  intros n g s R. destruct (ahist_reach seqb aeqb seqb_ok aeqb_ok C G _ _ keeps_rules n g s R) as (H1 & _ & H2 & _).
  split; [intros; eapply H1; eauto|].
  intros c x Hx. pose proof (areach_good seqb aeqb seqb_ok aeqb_ok C G _ _ _ R) as I.
  assert (X : exists y, nth_error (ch (mem (base s))) c = Some y).
  { pose proof I as [_ _ _ Lc _]. destruct (nth_error (ch (mem (base s))) c) eqn:Z; [eauto|]. apply nth_error_None in Z.
    assert (c < length (xcs s))%nat by (apply nth_error_Some; congruence). lia. }
  destruct X as (y & Hy). eapply H2; eauto.
Qed.
End Reach.

Section Tame.
Context {S A : Type}.
Variable seqb : S -> S -> bool.
Variable aeqb : A -> A -> bool.
Hypothesis seqb_ok : decides seqb.
Hypothesis aeqb_ok : decides aeqb.
Variable C : @econf S A.
Variable G : @algo S A.
Lemma tame_args : (0 <= max_depth C)%Z -> forall n g s, areach seqb aeqb C G n g s ->
  (forall d b, In b (args_d d (etrace (base s))) -> tame_list C (b_after b) (b_tafter b)) /\
  (forall c b, In b (args_c c (etrace (base s))) -> tame_list C (b_after b) (b_tafter b)) /\
  hfrom C (mem (base s)).
Proof using seqb_ok aeqb_ok.
  intros Hd n g s R. pose proof (areach_ereach seqb aeqb C G _ _ _ R) as E.
  destruct (tamed_reach seqb aeqb seqb_ok aeqb_ok C Hd n _ E) as (_ & Hf & T).
  assert (X : forall tr : list (nat * @event S A), (forall e, In e tr -> tame C e) ->
    (forall d b, In b (args_d d tr) -> tame_list C (b_after b) (b_tafter b)) /\
    (forall c b, In b (args_c c tr) -> tame_list C (b_after b) (b_tafter b))).
  { clear. intros tr H. split; intros i b Q; apply in_flat_map in Q; destruct Q as ((t & e) & Q1 & Q2); specialize (H _ Q1);
      cbn in Q2; destruct e; cbn in Q2; try contradiction.
    - destruct (Nat.eqb d i); cbn in Q2; [|contradiction]. destruct Q2 as [<-|[]]. exact H.
    - destruct (Nat.eqb c i); cbn in Q2; [|contradiction]. destruct Q2 as [<-|[]]. exact H. }
  destruct (X _ T). auto.
Qed.
Lemma tame_lists : (0 <= max_depth C)%Z -> forall n g s, areach seqb aeqb C G n g s ->
  (forall d after, In after (afters_d d (etrace (base s))) -> tame_list C after (rsum after) /\ In (rsum after) (returns_d d (etrace (base s)))) /\
  (forall c after, In after (afters_c c (etrace (base s))) -> tame_list C after (rsum after) /\ In (rsum after) (returns_c c (etrace (base s)))).
Proof using seqb_ok aeqb_ok.
  intros Hd n g s R. destruct (tame_args Hd n g s R) as (T1 & T2 & _). split.
  - intros d after Q. rewrite <- args_afters_d in Q. apply in_map_iff in Q. destruct Q as (b & <- & Q).
    rewrite <- args_returns_d. pose proof (T1 _ _ Q) as T. pose proof T as (E & _). rewrite <- E. split; auto. now apply in_map.
  - intros d after Q. rewrite <- args_afters_c in Q. apply in_map_iff in Q. destruct Q as (b & <- & Q).
    rewrite <- args_returns_c. pose proof (T2 _ _ Q) as T. pose proof T as (E & _). rewrite <- E. split; auto. now apply in_map.
Qed.
End Tame.

Section Results.
Context {S A : Type}.
Variable seqb : S -> S -> bool.
Variable aeqb : A -> A -> bool.
Hypothesis seqb_ok : decides seqb.
Hypothesis aeqb_ok : decides aeqb.
Variable C : @econf S A.
Hypothesis depth_ok : (0 <= max_depth C)%Z.
Variable enc : R -> F.
Variable rho : R.
Hypothesis Env : double_env C enc rho.
Hypothesis rho_lo : powerRZ 2 (-900) <= rho.
Variable G : @algo S A.
Variable eD : XD G -> nx F.
Variable eC : XC G -> nx F.
Hypothesis Ka : keeps_avg F_ops (fun n => enc (dheur n)) (ret64 enc) G eD eC.
Notation L := (max_depth C + 1)%Z.
Notation in_range := RoundSpec.in_range.

Lemma own_heur : forall n g s, areach seqb aeqb C G n g s -> forall d node, nth_error (dh (mem (base s))) d = Some node ->
  double (enc (dheur node)) /\ dval (enc (dheur node)) = dheur node /\ Rabs (dheur node) <= rho.
Proof using seqb_ok aeqb_ok Env rho_lo depth_ok.
  intros n g s R d node Hd. destruct (tame_args seqb aeqb seqb_ok aeqb_ok C G depth_ok n g s R) as (_ & _ & T3).
  exact (env_num C enc rho Env rho_lo _ (T3 _ _ Hd)).
Qed.

Lemma avg_values : rho <= powerRZ 2 900 -> (max_depth C < 2 ^ 31)%Z -> forall n g s, areach seqb aeqb C G n g s ->
  (forall d node x, nth_error (dh (mem (base s))) d = Some node -> nth_error (xds s) d = Some x -> (nnb (eD x) <= 2 ^ 31)%Z ->
     double (navg (eD x)) /\
     near_mean (avg_error L rho (nnb (eD x))) 1 (dheur node) (returns_d d (etrace (base s))) (nnb (eD x)) (dval (navg (eD x)))) /\
  (forall c x, nth_error (xcs s) c = Some x -> (nnb (eC x) <= 2 ^ 31)%Z ->
     double (navg (eC x)) /\
     near_mean (avg_error L rho (nnb (eC x))) 0 0 (returns_c c (etrace (base s))) (nnb (eC x)) (dval (navg (eC x)))).
Proof using All.
  intros Hhi HL n g s R. destruct (keeps_reach seqb aeqb seqb_ok aeqb_ok C F_ops enc (ret64 enc) G eD eC Ka n g s R) as (H1 & H2).
  destruct (tame_args seqb aeqb seqb_ok aeqb_ok C G depth_ok n g s R) as (T1 & T2 & T3).
  pose proof (rho_pos rho rho_lo) as R0. split.
  - intros d node x Hd Hx Hn. rewrite (H1 _ _ _ Hd Hx) in *. rewrite <- args_returns_d. set (l := args_d d _) in *.
    destruct (own_heur _ _ _ R _ _ Hd) as (Dh & Eh & Hh). rewrite <- Eh in Hh.
    change (map (ret64 enc) l) with (rets F_ops enc l) in *. change (avg_error L rho) with (derr rho L).
    assert (Ln : nnb (run F_ops (mkNx 1 (enc (dheur node))) (rets F_ops enc l)) = (1 + Z.of_nat (length l))%Z).
    { rewrite run_nb. unfold rets. now rewrite map_length. }
    rewrite Ln in Hn.
    destruct (drun_near C enc rho L depth_ok eq_refl Env rho_lo Hhi ltac:(lia) 1 (enc (dheur node)) l) as (Q1 & Q2); auto; try lia.
    { intros b Q. eapply T1; eauto. }
    rewrite Eh in Q2.
    split; auto. eapply near_mean_weaken; [|exact Q2]. apply derr_mono; [exact depth_ok|lra|]. rewrite Ln. lia.
  - intros c x Hx Hn. rewrite (H2 _ _ Hx) in *. rewrite <- args_returns_c. set (l := args_c c _) in *.
    change (map (ret64 enc) l) with (rets F_ops enc l) in *. change (avg_error L rho) with (derr rho L).
    assert (Ln : nnb (run F_ops (mkNx 0 (nzero F_ops)) (rets F_ops enc l)) = (0 + Z.of_nat (length l))%Z).
    { rewrite run_nb. unfold rets. now rewrite map_length. }
    rewrite Ln in Hn.
    destruct (drun_near C enc rho L depth_ok eq_refl Env rho_lo Hhi ltac:(lia) 0 (nzero F_ops) l) as (Q1 & Q2); auto; try lia.
    { apply double_zero. }
    { cbn. rewrite Rabs_R0. lra. }
    { intros b Q. eapply T2; eauto. }
    split; auto. eapply near_mean_weaken; [|exact Q2]. apply derr_mono; [exact depth_ok|lra|]. rewrite Ln. lia.
Qed.

Lemma avg_range : forall lo hi, - powerRZ 2 1000 <= lo -> hi <= powerRZ 2 1000 -> forall n g s, areach seqb aeqb C G n g s ->
  (forall d node x, nth_error (dh (mem (base s))) d = Some node -> nth_error (xds s) d = Some x -> (nnb (eD x) <= 2 ^ 52)%Z ->
     (forall after, In after (afters_d d (etrace (base s))) -> in_range lo hi (ret_after F_ops (map enc after))) ->
     lo <= dheur node <= hi -> in_range lo hi (navg (eD x))) /\
  (forall c x, nth_error (xcs s) c = Some x -> (nnb (eC x) <= 2 ^ 52)%Z ->
     (forall after, In after (afters_c c (etrace (base s))) -> in_range lo hi (ret_after F_ops (map enc after))) ->
     afters_c c (etrace (base s)) <> [] -> in_range lo hi (navg (eC x))).
Proof using All.
  intros lo hi Hlo Hhi n g s R. destruct (keeps_reach seqb aeqb seqb_ok aeqb_ok C F_ops enc (ret64 enc) G eD eC Ka n g s R) as (H1 & H2). split.
  - intros d node x Hd Hx Hn Hr Hs. rewrite (H1 _ _ _ Hd Hx) in *.
    destruct (own_heur _ _ _ R _ _ Hd) as (Dh & Eh & Hh). change (map (ret64 enc)) with (rets F_ops enc) in *. rewrite rets_afters_d in *.
    rewrite run_nb in Hn. cbn [nnb] in Hn. apply range_run; auto; try lia.
    + intros f Q. apply in_map_iff in Q. destruct Q as (a & <- & Q). now apply Hr.
    + left. rewrite Eh. split; [lia|exact Hs].
  - intros c x Hx Hn Hr Hs. rewrite (H2 _ _ Hx) in *. change (map (ret64 enc)) with (rets F_ops enc) in *. rewrite rets_afters_c in *.
    rewrite run_nb in Hn. cbn [nnb] in Hn. apply range_run; auto; try lia.
    + apply double_zero.
    + intros f Q. apply in_map_iff in Q. destruct Q as (a & <- & Q). now apply Hr.
    + right. repeat split; auto. intros Q. now apply map_eq_nil in Q.
Qed.

(** The picks of a recommendation are those of one by dynamic programming values with the same members. *)
Lemma pick_best : forall two thr order (n : @dnode S A) (kids : list (A * nx F)), (forall l, Permutation l (order l)) -> kids <> [] -> NoDup (map fst kids) ->
  (forall a y, In (a, y) kids -> double (navg y) /\ Rabs (dval (navg y)) <= powerRZ 2 900) ->
  always (recommend_emp two thr order n kids) (fun a => exists y, In (a, y) kids /\
    ((thr <= nnb y)%Z \/ forall b z, In (b, z) kids -> (nnb z < thr)%Z) /\
    forall b z, In (b, z) kids -> ((thr <= nnb z)%Z \/ (nnb y < thr)%Z) ->
      for_mover two n (dval (navg z)) <= for_mover two n (dval (navg y))).
Proof using Type.
  clear. intros two thr order n kids Po Ne ND Hk.
  set (K := @mkDc64 S A two thr (fun _ _ => S754_zero false) (fun _ => S754_zero false) (fun _ l => l) (fun _ l => l) order).
  set (C0 := @mkConf S A (fun _ => true) (fun _ => []) (fun _ _ => []) (fun _ _ _ => 0) None 0 false false 0 (dstate n) 0).
  assert (Rg : dp_range C0 K 0 0 (powerRZ 2 900) 0).
  { assert (P0 : 0 <= powerRZ 2 900) by (apply powerRZ_le; lra).
    constructor; intros; try (split; [apply double_zero|cbn [dval p_heur p_reward K]; rewrite Rabs_R0; lra]); try (cbn; lia); try (cbn; apply Permutation_refl).
    - exact (Po l).
    - cbn [max_depth C0]. rewrite Rmult_0_l. lra.
    - lra. }
  set (k' := map (fun p : A * nx F => (fst p, mkP (nnb (snd p)) (navg (snd p)))) kids).
  assert (Same : forall g, recommend_emp two thr order n kids g = recommend_dp K n k' g).
  { intros g. unfold recommend_emp, recommend_dp, k', p_opp. cbn [p_threshold p_two p_ordera K].
    assert (X : forall f : pmem -> bool, map (fun p : A * pmem => (fst p, nmul F_ops (nofZ F_ops (if two && Z.odd (dtime n) then -1 else 1)%Z) (p_val (snd p))))
       (filter (fun p => f (snd p)) (map (fun p : A * nx F => (fst p, mkP (nnb (snd p)) (navg (snd p)))) kids)) =
       map (fun p : A * nx F => (fst p, nmul F_ops (nofZ F_ops (if two && Z.odd (dtime n) then -1 else 1)%Z) (navg (snd p))))
        (filter (fun p => f (mkP (nnb (snd p)) (navg (snd p)))) kids)).
    { intros f. clear. induction kids as [|p l IH]; [reflexivity|]. cbn [map filter snd fst]. destruct (f _); cbn [map fst snd p_val]; rewrite IH; reflexivity. }
    rewrite (X (fun y => (thr <=? p_nb y)%Z)), (X (fun y => negb (thr <=? p_nb y)%Z)). reflexivity. }
  intros g Gg. destruct (recommend_best64 C0 K 0 0 (powerRZ 2 900) 0 Rg n k') with (g := g) as (a & g' & E & E1 & E2 & y & Iy & Ty & Mx); auto.
  - unfold k'. destruct kids; [congruence|discriminate].
  - unfold k'. rewrite map_map. exact ND.
  - intros a y I. unfold k' in I. apply in_map_iff in I. destruct I as ([a' x] & [= <- <-] & I). cbn [p_val snd]. exact (Hk _ _ I).
  - exists a, g'. split; [now rewrite Same|]. split; [exact E1|]. split; [exact E2|].
    unfold k' in Iy. apply in_map_iff in Iy. destruct Iy as ([a' x] & Eq & I). injection Eq as Ea Ey. cbn [fst] in Ea. subst a' y. cbn [p_nb p_val snd] in *.
    assert (Up : forall b z, In (b, z) kids -> In (b, mkP (nnb z) (navg z)) k').
    { intros b z J. unfold k'. apply in_map_iff. exists (b, z). auto. }
    exists x. split; [exact I|]. split.
    + destruct Ty as [T|T]; [left; exact T|right]. intros b z J. exact (T _ _ (Up _ _ J)).
    + intros b z J H. exact (Mx _ _ (Up _ _ J) H).
Qed.

Lemma rsum_le : forall (M : R) l, (forall r, In r l -> Rabs r <= M) -> Rabs (rsum l) <= IZR (Z.of_nat (length l)) * M.
Proof using Type.
  clear. intros M l. induction l as [|r l IH]; intros H.
  - cbn. rewrite Rabs_R0. lra.
  - cbn [rsum fold_right length]. rewrite Nat2Z.inj_succ, succ_IZR. fold (rsum l).
    pose proof (Rabs_triang r (rsum l)). pose proof (H r (or_introl eq_refl)). specialize (IH (fun x Q => H x (or_intror Q))). unfold rsum in *. lra.
Qed.

Lemma recommends : rho <= powerRZ 2 800 -> (max_depth C < 2 ^ 31)%Z ->
  forall two thr order, (forall l : list (A * F), Permutation l (order l)) ->
  forall n g s d node, areach seqb aeqb C G n g s -> nth_error (dh (mem (base s))) d = Some node -> dkids node <> [] ->
  let rets c := returns_c c (etrace (base s)) in
  (forall a c, In (a, c) (dkids node) -> (count_of (rets c) <= 2 ^ 31)%Z) ->
  always (recommend_emp two thr order node (members eC (dview s node))) (fun a =>
    exists c, In (a, c) (dkids node) /\
      ((thr <= count_of (rets c))%Z \/ forall b c', In (b, c') (dkids node) -> (count_of (rets c') < thr)%Z) /\
      forall b c', In (b, c') (dkids node) -> ((thr <= count_of (rets c'))%Z \/ (count_of (rets c) < thr)%Z) ->
        for_mover two node (average (rets c')) <=
          for_mover two node (average (rets c)) + avg_error L rho (count_of (rets c)) + avg_error L rho (count_of (rets c'))).
Proof using All.
  intros Hhi HL two thr order Po n g s d node R Hd NE rets0 Hc.
  assert (P89 : powerRZ 2 800 <= powerRZ 2 900) by (apply pow_mono; lia).
  destruct (avg_values ltac:(lra) HL n g s R) as (_ & V). destruct (tame_args seqb aeqb seqb_ok aeqb_ok C G depth_ok n g s R) as (_ & T2 & _).
  destruct (keeps_reach seqb aeqb seqb_ok aeqb_ok C F_ops enc (ret64 enc) G eD eC Ka n g s R) as (_ & KR).
  pose proof (areach_good seqb aeqb seqb_ok aeqb_ok C G _ _ _ R) as I.
  pose proof (proj1 (EngineTheorems.C12_well_formed seqb aeqb seqb_ok aeqb_ok C n (base s) (areach_ereach seqb aeqb C _ _ _ _ R))) as Wf.
  pose proof (dview_ok seqb aeqb aeqb_ok C G s d node I Hd) as Fv.
  set (kids := members eC (dview s node)).
  assert (Kid : forall a y, In (a, y) kids <-> exists c x, In (a, c) (dkids node) /\ nth_error (xcs s) c = Some x /\ y = eC x).
  { intros a y. unfold kids, members. rewrite in_map_iff. split.
    - intros ([a' [c' y']] & [= <- <-] & Iy). destruct (forall2_in_r _ _ _ _ _ _ Fv Iy) as ([a'' k] & Ik & E1 & _ & E3). cbn in E1, E3. subst. exists k, y'. auto.
    - intros (k & x & Ik & Hy & ->). destruct (forall2_in_l _ _ _ _ _ _ Fv Ik) as ([a' [c' y']] & Iy & E1 & E2 & E3). cbn in E1, E2, E3. subst. exists (a', (c', y')). split; [|exact Iy]. cbn. congruence. }
  assert (ND : NoDup (map fst kids)).
  { replace (map fst kids) with (map fst (dkids node)); [exact (wf_dkeys _ _ _ _ Wf d node Hd)|]. unfold kids, members. rewrite map_map. refine (forall2_map_eq _ _ _ _ _ _ _ _ Fv _). intros [a k] [a' q] _ (E1 & _). exact E1. }
  assert (NE' : kids <> []).
  { destruct (dkids node) as [|[a k] l] eqn:Ek; [congruence|]. inversion Fv as [|k1 [a1 [c1 y1]] l1 l2 F1 F2 E1 E2]. unfold kids. rewrite <- E2. discriminate. }
  assert (Nb : forall c x, nth_error (xcs s) c = Some x -> nnb (eC x) = count_of (rets0 c)).
  { intros c x Hx. rewrite (KR _ _ Hx), run_nb, map_length. cbn [nnb]. unfold rets0, count_of. rewrite <- args_returns_c, map_length. lia. }
  pose proof (rho_pos rho rho_lo) as R0.
  pose proof (L_pos C L depth_ok eq_refl ltac:(lia)) as Lp.
  assert (Bd : 0 <= IZR L * rho <= powerRZ 2 831).
  { split; [apply Rmult_le_pos; lra|]. apply Rle_trans with (powerRZ 2 31 * powerRZ 2 800); [apply Rmult_le_compat; lra|]. rewrite <- powerRZ_add by lra. apply pow_mono. lia. }
  assert (Val : forall a c x, In (a, c) (dkids node) -> nth_error (xcs s) c = Some x ->
    double (navg (eC x)) /\ Rabs (dval (navg (eC x)) - average (rets0 c)) <= avg_error L rho (count_of (rets0 c)) /\ Rabs (dval (navg (eC x))) <= powerRZ 2 900).
  { intros a c x Ic Hx. pose proof (Nb c x Hx) as En. pose proof (Hc _ _ Ic) as Hn. rewrite <- En in Hn. destruct (V c x Hx Hn) as (D & m & Im & Em).
    destruct (average_mean _ _ _ Im) as (_ & ->). rewrite En in Em. change (returns_c c (etrace (base s))) with (rets0 c) in Em. split; [exact D|]. split; [exact Em|].
    assert (Hav : Rabs (average (rets0 c)) <= IZR L * rho).
    { assert (Hr : forall r, In r (rets0 c) -> Rabs r <= IZR L * rho).
      { intros r Q. unfold rets0 in Q. rewrite <- args_returns_c in Q. apply in_map_iff in Q. destruct Q as (b & <- & Q). destruct (T2 _ _ Q) as (-> & Tl & Tx).
        assert (Rabs (rsum (b_after b)) <= IZR (Z.of_nat (length (b_after b))) * rho).
        { apply rsum_le. intros r Q'. destruct (env_num C enc rho Env rho_lo _ (Tx _ Q')) as (_ & _ & B). exact B. }
        eapply Rle_trans; [eassumption|]. apply Rmult_le_compat_r; [lra|]. apply IZR_le. exact Tl. }
      unfold average. destruct (rets0 c) as [|r0 l0] eqn:E; [rewrite Rabs_R0; apply Bd|]. rewrite <- E in *.
      assert (Lz : 0 < IZR (Z.of_nat (length (rets0 c)))) by (apply IZR_lt; rewrite E; cbn [length]; lia).
      unfold Rdiv. rewrite Rabs_mult, (Rabs_right (/ _)) by (apply Rle_ge, Rlt_le, Rinv_0_lt_compat; exact Lz).
      apply Rmult_le_reg_r with (IZR (Z.of_nat (length (rets0 c)))); [exact Lz|]. rewrite Rmult_assoc, Rinv_l, Rmult_1_r by lra.
      rewrite Rmult_comm. apply rsum_le. exact Hr. }
    assert (Her : avg_error L rho (count_of (rets0 c)) <= IZR L * rho / 8).
    { apply (derr_err C rho L depth_ok eq_refl rho_lo ltac:(lra) ltac:(lia) (count_of (rets0 c))). split; [unfold count_of; lia|]. rewrite <- En. exact Hn. }
    assert (P2 : 2 * powerRZ 2 831 <= powerRZ 2 900).
    { replace (2 * powerRZ 2 831) with (powerRZ 2 1 * powerRZ 2 831) by (rewrite powerRZ_1; reflexivity). rewrite <- powerRZ_add by lra. apply pow_mono. lia. }
    replace (dval (navg (eC x))) with ((dval (navg (eC x)) - average (rets0 c)) + average (rets0 c)) by ring.
    eapply Rle_trans; [apply Rabs_triang|]. lra. }
  intros g' Gg. destruct (pick_best two thr order node kids Po NE' ND) with (g := g') as (a & g'' & E & E1 & E2 & y & Iy & Ty & Mx); auto.
  { intros a y Iy. apply Kid in Iy. destruct Iy as (c & x & Ic & Hx & ->). destruct (Val a c x Ic Hx) as (Q1 & _ & Q3). auto. }
  exists a, g''. split; [exact E|]. split; [exact E1|]. split; [exact E2|]. apply Kid in Iy. destruct Iy as (c & x & Ic & Hx & ->). exists c. split; [exact Ic|].
  rewrite (Nb c x Hx) in *.
  assert (Some_x : forall b c', In (b, c') (dkids node) -> exists x', nth_error (xcs s) c' = Some x' /\ In (b, eC x') kids).
  { intros b c' Ib. destruct (forall2_in_l _ _ _ _ _ _ Fv Ib) as ([a' [k' y']] & Iy & F1 & F2 & F3). cbn in F1, F2, F3. exists y'. split; [exact F3|]. apply Kid. exists c', y'. auto. }
  split.
  - destruct Ty as [T|T]; [left; exact T|right]. intros b c' Ib. destruct (Some_x b c' Ib) as (x' & Hx' & J). rewrite <- (Nb c' x' Hx'). exact (T _ _ J).
  - intros b c' Ib H. destruct (Some_x b c' Ib) as (x' & Hx' & J). rewrite <- (Nb c' x' Hx') in H. specialize (Mx _ _ J H).
    destruct (Val a c x Ic Hx) as (_ & V1 & _). destruct (Val b c' x' Ib Hx') as (_ & V2 & _).
    unfold for_mover in *. destruct (two && Z.odd (dtime node)); revert V1 V2 Mx; unfold Rabs; destruct (Rcase_abs _); destruct (Rcase_abs _); lra.
Qed.
End Results.
