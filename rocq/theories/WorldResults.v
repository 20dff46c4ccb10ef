(** Values of searches and the values of the environment. *)
From Coq Require Import List ZArith Bool Reals Lia Lra Sorted Permutation.
From Verif Require Import Base BaseProofs NumOps RLemmas HelperSpec EngineModel EngineSpec EngineProofs EngineInv EngineCount EngineTheorems EngineMade MapModel MapProofs AlgoModel AlgoProofs AlgoNodes AlgoHist
  UctModel UctSpec MentsModel SoftSpec SoftProofs MentsSpec RecSpec DentsSpec DpRun DbRun WeightProofs QuietSpec QuietResults PickSpec TentsSpec TentsResults TreeSpec TreeProofs TreeResults MixedProofs MixedResults
  LseReal WorldSpec WorldProofs.
Import ListNotations.
Open Scope R_scope.

Section Search.
Context {S A : Type}.
Variable seqb : S -> S -> bool.
Variable aeqb : A -> A -> bool.
Hypothesis seqb_ok : decides seqb.
Hypothesis aeqb_ok : decides aeqb.
Variable C : @econf S A.
Variable M : @mconf S A.
Hypothesis NoTT : use_tt C = false.
Hypothesis Env : env_ok C M.

(** ** Deterministic environments *)
Section Certain.
Variable G : @algo S A.
Hypothesis Mok : ments_ok C M.
Hypothesis Det : deterministic C M.
Lemma certain : forall (w : @dnode S A -> Z) n g s, areach seqb aeqb C G n g s -> quiet (base s) ->
  (forall c x o d node, nth_error (ch (mem (base s))) c = Some x -> In (o, d) (ckids x) -> nth_error (dh (mem (base s))) d = Some node -> (0 < w node)%Z) ->
  faithful M w 0 (mem (base s)).
Proof using All.
  intros w n g s R Q Wp c x Hc f b _. rewrite Rmult_0_l.
  pose proof (areach_ereach seqb aeqb C G _ _ _ R) as E.
  pose proof (proj1 (C12_well_formed seqb aeqb seqb_ok aeqb_ok C n (base s) E)) as W.
  destruct (chance_visited seqb aeqb seqb_ok aeqb_ok C n (base s) c x E Q Hc) as [_ NE].
  (* the node is the child of a node that is not a sink *)
  destruct (wf_reachC _ _ _ _ W c x Hc) as [d0 a c Rd Ch]. destruct Ch as (nd & Hd & Ld).
  destruct (wf_d _ _ _ _ W d0 nd a c Hd Ld) as (x' & Hx' & E1 & _ & _ & E2 & Ia & Ns). rewrite Hc in Hx'. injection Hx' as <-.
  assert (Nk : is_sink C (dstate nd) = false).
  { destruct (is_sink C (dstate nd)) eqn:Es; auto. destruct Ns. now left. }
  rewrite E1, E2. destruct (Det (dstate nd) a Nk Ia) as (o & p & Ed). rewrite Ed.
  destruct (eo_distr _ _ Env (dstate nd) a Nk Ia) as [_ T]. rewrite Ed in T. cbn in T.
  (* its only child *)
  assert (Ks : forall o' d', In (o', d') (ckids x) -> o' = o).
  { intros o' d' I. destruct (wf_c _ _ _ _ W c x o' d' Hc) as (_ & _ & _ & _ & _ & Is).
    { apply (in_lookup _ seqb_ok); auto. exact (wf_ckeys _ _ _ _ W c x Hc). }
    rewrite (proj2 Mok), E1, E2, Ed in Is. destruct Is as [<-|[]]. reflexivity. }
  pose proof (wf_ckeys _ _ _ _ W c x Hc) as ND.
  destruct (ckids x) as [|[o1 d1] l] eqn:Ek; [contradiction|]. assert (o1 = o) by (apply (Ks o1 d1); now left). subst o1.
  destruct l as [|[o2 d2] l].
  2:{ exfalso. assert (o2 = o) by (apply (Ks o2 d2); right; now left). subst o2. cbn in ND. inversion ND as [|? ? N0 _]. apply N0. now left. }
  cbn [map fst snd]. unfold expected. rewrite rsum_of_cons. cbn [fst snd]. change (rsum_of _ []) with 0.
  destruct (wf_c _ _ _ _ W c x o d1 Hc) as (n1 & Hn1 & _).
  { rewrite Ek. cbn. now rewrite (keqb_refl _ seqb_ok). }
  rewrite Hn1. pose proof (Wp c x o d1 n1 Hc ltac:(rewrite Ek; now left) Hn1) as P1. apply IZR_lt in P1.
  unfold mean, rsum_of. cbn [map rsum fst snd]. destruct (Req_EM_T _ 0) as [E0|N0]; [lra|].
  replace ((IZR (w n1) * f o + 0) / (IZR (w n1) + 0) - (p * f o + 0)) with 0; [rewrite Rabs_R0; lra|].
  replace p with 1 by lra. field. lra.
Qed.
End Certain.

(** ** Dynamic programming values *)
Section Dp.
Variable G : @algo S A.
Variable vD : XD G -> vmem.
Variable vC : XC G -> vmem.
Hypothesis Dp : dp_part M G vD vC.
Hypothesis Idle : forall x, vis_d G false x = x.
Hypothesis Cn : counter G (fun x => v_nb (vD x)) 1 1.
Variables Hb Rw : R.
Hypothesis Bd : world_bounds C M Hb Rw.
Variable V : nat -> S -> Z -> R.
Hypothesis Sv : solves C M greatest V.

Lemma dp_greatest : forall (m : @store S A) VD VC, local seqb aeqb C M m VD VC -> explored aeqb C m -> forall d n, nth_error (dh m) d = Some n ->
  dkids n = [] /\ VD d = dheur n \/
  dkids n <> [] /\ exists q, (forall a c, In a (acts C (dstate n)) -> lookup aeqb a (dkids n) = Some c -> q a = seen M n (VC c)) /\ greatest (acts C (dstate n)) q (seen M n (VD d)).
Proof using aeqb_ok.
  intros m VD VC (W & Dep & Pos & HD & HC) Full d n Hd. destruct (HD d n Hd) as [K|[(a & c & Ia & Ev) Mx]]; [now left|right].
  assert (NE : dkids n <> []) by (intros E; rewrite E in Ia; destruct Ia).
  split; [exact NE|]. exists (fun b => match lookup aeqb b (dkids n) with Some c => seen M n (VC c) | None => 0 end).
  split; [intros b k _ E; now rewrite E|].
  assert (La : lookup aeqb a (dkids n) = Some c) by (apply (in_lookup _ aeqb_ok); auto; exact (wf_dkeys _ _ _ _ W d n Hd)).
  destruct (wf_d _ _ _ _ W d n a c Hd La) as (_ & _ & _ & _ & _ & _ & Aa & Ns).
  split.
  - exists a. split; [exact Aa|]. now rewrite La, Ev.
  - intros b Ib. destruct (lookup aeqb b (dkids n)) as [k|] eqn:E.
    + apply (lookup_iff _ aeqb_ok _ _ _ _ (wf_dkeys _ _ _ _ W d n Hd)) in E. specialize (Mx b k E). unfold seen. destruct (opponent M n); lra.
    + exfalso. refine (Full d n b Hd _ _ Ib E).
      * destruct (is_sink C (dstate n)) eqn:Es; auto. destruct Ns. now left.
      * apply Z.nle_gt. intros L. apply Ns. now right.
Qed.
Theorem dp_near : forall n g s eps, areach seqb aeqb C G n g s -> quiet (base s) -> 0 <= eps -> explored aeqb C (mem (base s)) -> faithful M (dp_samples C) eps (mem (base s)) ->
  (forall d node x, nth_error (dh (mem (base s))) d = Some node -> nth_error (xds s) d = Some x ->
     Rabs (v_val (vD x) - V (left_at C node) (dstate node) (dtime node)) <= sampling_error eps Hb Rw (left_at C node)) /\
  (forall d node a c x, nth_error (dh (mem (base s))) d = Some node -> lookup aeqb a (dkids node) = Some c -> nth_error (xcs s) c = Some x ->
     Rabs (v_val (vC x) - (mreward M (dstate node) a + expected (fun o => V (left_at C node - 1) o (dtime node + 1)%Z) (mdistr M (dstate node) a))) <= sampling_error eps Hb Rw (left_at C node)).
Proof using All.
  intros n g s eps R Q Ep Full Fair. pose proof (dp_local seqb aeqb seqb_ok aeqb_ok C M NoTT Env G vD vC Dp Idle Cn n g s R Q) as L.
  pose proof (dp_greatest _ _ _ L Full) as HD. destruct L as (W & Dep & Pos & _ & HC).
  destruct (tree_values seqb aeqb seqb_ok aeqb_ok C M Env greatest (greatest_lip A) 0 (greatest_adds A _) V Sv Hb Rw Bd (Rle_refl 0)
    (mem (base s)) W Dep (dp_samples C) Pos _ _ HD HC eps Ep Full Fair) as [T1 T2].
  rewrite Rplus_0_r in T1, T2. split.
  - intros d node x Hd Hx. specialize (T1 d node Hd). unfold vals_d in T1. now rewrite Hx in T1.
  - intros d node a c x Hd Lc Hx. specialize (T2 d node a c Hd Lc). unfold vals_c in T2. now rewrite Hx in T2.
Qed.
End Dp.

(** ** Weights are positive *)
Lemma dp_weight : forall (G : @algo S A) n g s c x o d node, areach seqb aeqb C G n g s -> quiet (base s) ->
  nth_error (ch (mem (base s))) c = Some x -> In (o, d) (ckids x) -> nth_error (dh (mem (base s))) d = Some node -> (0 < dp_samples C node)%Z.
Proof using seqb_ok aeqb_ok NoTT.
  intros G n g s c x o d node R Q Hc Io Hd. pose proof (areach_ereach seqb aeqb C G _ _ _ R) as E.
  pose proof (proj1 (C12_well_formed seqb aeqb seqb_ok aeqb_ok C n (base s) E)) as W.
  assert (Ch : cchild seqb (mem (base s)) c o d) by (exists x; split; auto; apply (in_lookup _ seqb_ok); auto; exact (wf_ckeys _ _ _ _ W c x Hc)).
  pose proof (edge_walked seqb aeqb seqb_ok aeqb_ok C n (base s) c o d E Ch) as K.
  rewrite <- (reached_goes seqb aeqb seqb_ok aeqb_ok C NoTT n (base s) c o d node E Q Ch Hd) in K.
  unfold dp_samples, samples. destruct (_ && _); lia.
Qed.
Lemma soft_weight : forall (G : @algo S A) nb, counter G nb 0 1 -> forall n g s c x o d node, areach seqb aeqb C G n g s -> quiet (base s) -> explored aeqb C (mem (base s)) ->
  nth_error (ch (mem (base s))) c = Some x -> In (o, d) (ckids x) -> nth_error (dh (mem (base s))) d = Some node -> (0 < samples C node)%Z.
Proof using seqb_ok aeqb_ok NoTT Env.
  intros G nb Cn n g s c x o d node R Q Full Hc Io Hd. pose proof (areach_ereach seqb aeqb C G _ _ _ R) as E.
  pose proof (proj1 (C12_well_formed seqb aeqb seqb_ok aeqb_ok C n (base s) E)) as W. pose proof (areach_good seqb aeqb seqb_ok aeqb_ok C G _ _ _ R) as I.
  assert (Ch : cchild seqb (mem (base s)) c o d) by (exists x; split; auto; apply (in_lookup _ seqb_ok); auto; exact (wf_ckeys _ _ _ _ W c x Hc)).
  pose proof (edge_walked seqb aeqb seqb_ok aeqb_ok C n (base s) c o d E Ch) as K.
  rewrite <- (reached_goes seqb aeqb seqb_ok aeqb_ok C NoTT n (base s) c o d node E Q Ch Hd) in K.
  unfold samples. destruct (is_sink C (dstate node) || (max_depth C <=? ddepth node)%Z) eqn:Lf.
  { rewrite andb_false_r. lia. }
  cbn [negb]. rewrite andb_true_r. destruct (mcts_mode C) eqn:Mc; [|lia].
  (* the node has a child, so it was backed up *)
  destruct (dh_some seqb aeqb C G s d I ltac:(apply nth_error_Some; congruence)) as (node' & y & Hn & Hy).
  pose proof (nb_samples seqb aeqb seqb_ok aeqb_ok C NoTT G _ 0 Cn n g s c o d node y R Q Ch Hd Hy) as K1.
  pose proof (weight_always seqb aeqb seqb_ok aeqb_ok C G _ 0 1 Cn n g s d node y R Hd Hy) as K2.
  unfold samples in K1. rewrite Lf, Mc in K1. cbn in K1. unfold is_leaf in K2. rewrite Lf in K2.
  apply orb_false_iff in Lf. destruct Lf as [L1 L2]. apply Z.leb_gt in L2.
  destruct (acts C (dstate node)) as [|a l] eqn:Ea; [exfalso; exact (eo_acts _ _ Env _ L1 Ea)|].
  pose proof (Full d node a Hd L1 L2 ltac:(rewrite Ea; now left)) as NE.
  destruct (lookup aeqb a (dkids node)) as [k|] eqn:Lk; [|contradiction].
  destruct (wf_d _ _ _ _ W d node a k Hd Lk) as (xk & Hk & _).
  destruct (chance_visited seqb aeqb seqb_ok aeqb_ok C n (base s) k xk E Q Hk) as [Vk _].
  assert (B : (1 <= count (backs_d d) (etrace (base s)))%Z).
  { destruct (proj1 (made_reach seqb aeqb seqb_ok aeqb_ok C n (base s) E) d a k) as (t & It); [exists node; auto|].
    pose proof (count_in (visits_d d) (etrace (base s)) t _ It ltac:(cbn; now rewrite Nat.eqb_refl)) as K3.
    destruct (cinv_reach seqb aeqb seqb_ok aeqb_ok C _ _ E) as [Ci _]. rewrite (ci_vd _ _ Ci d), (quiet_sum (base s) (pendD d) eq_refl Q) in K3. lia. }
  lia.
Qed.

(** ** Soft values *)
Section Regular.
Hypothesis Pr : prior_policy C M.
Variable G : @algo S A.
Variable soft : XD G -> R.
Variable nb : XD G -> Z.
Variable softC : XC G -> R.
Variable offset : @dnode S A -> R.
Hypothesis Cn : counter G nb 0 1.
Variable rule : list A -> (A -> R) -> R -> Prop.
Hypothesis Lip : rule_lip rule.
Variable x0 : R.
Hypothesis X0 : 0 <= x0.
Hypothesis Adds : rule_adds rule (fun l => exists s, l = acts C s) x0.
Variables Hb Rw : R.
Hypothesis Bd : world_bounds C M Hb Rw.
Variable V : nat -> S -> Z -> R.
Hypothesis Sv : solves C M rule V.
Theorem reg_near : forall n g s eps, areach seqb aeqb C G n g s -> quiet (base s) -> 0 <= eps -> explored aeqb C (mem (base s)) -> faithful M (samples C) eps (mem (base s)) ->
  (forall d node x, nth_error (dh (mem (base s))) d = Some node -> nth_error (xds s) d = Some x ->
     dkids node = [] /\ soft x = dheur node \/
     dkids node <> [] /\ exists q, (forall a, In a (acts C (dstate node)) -> q_of M softC node (offset node) (dview s node) a (q a)) /\
       rule (acts C (dstate node)) q (seen M node (soft x))) ->
  (forall c node x, nth_error (ch (mem (base s))) c = Some node -> nth_error (xcs s) c = Some x ->
     exists v, weighted_mean (map (fun k => (nb (snd (snd k)), soft (snd (snd k)))) (cview s node)) v /\
       softC x = mreward M (cstate node) (cact node) + v) ->
  (forall d node x, nth_error (dh (mem (base s))) d = Some node -> nth_error (xds s) d = Some x ->
     Rabs (soft x - V (left_at C node) (dstate node) (dtime node)) <= sampling_error eps Hb (Rw + x0) (left_at C node)) /\
  (forall d node a c x, nth_error (dh (mem (base s))) d = Some node -> lookup aeqb a (dkids node) = Some c -> nth_error (xcs s) c = Some x ->
     Rabs (softC x - (mreward M (dstate node) a + expected (fun o => V (left_at C node - 1) o (dtime node + 1)%Z) (mdistr M (dstate node) a))) <= sampling_error eps Hb (Rw + x0) (left_at C node)).
Proof using All.
  intros n g s eps R Q Ep Full Fair QD QC. pose proof (areach_good seqb aeqb seqb_ok aeqb_ok C G _ _ _ R) as I.
  pose proof (areach_ereach seqb aeqb C G _ _ _ R) as E.
  destruct (C12_well_formed seqb aeqb seqb_ok aeqb_ok C n (base s) E) as [W Dep]. specialize (Dep (eo_depth _ _ Env)).
  pose proof (fun d node a v => q_seen seqb aeqb seqb_ok aeqb_ok C M Pr G softC offset n g s d node a v R) as QS.
  pose proof (fun c x o d node => soft_weight G nb Cn n g s c x o d node R Q Full) as Pos.
  set (m := mem (base s)) in *.
  set (VD := fun d => match nth_error (xds s) d with Some x => soft x | None => 0 end).
  set (VC := fun c => match nth_error (xcs s) c with Some x => softC x | None => 0 end) in *.
  assert (Kid : forall c x o d, nth_error (ch m) c = Some x -> In (o, d) (ckids x) -> cchild seqb m c o d).
  { intros c x o d Hc Io. exists x. split; auto. apply (in_lookup _ seqb_ok); auto. exact (wf_ckeys _ _ _ _ W c x Hc). }
  assert (Nb : forall c x o d node y, nth_error (ch m) c = Some x -> In (o, d) (ckids x) -> nth_error (dh m) d = Some node ->
    nth_error (xds s) d = Some y -> nb y = samples C node).
  { intros c x o d node y Hc Io Hd Hy.
    exact (nb_samples seqb aeqb seqb_ok aeqb_ok C NoTT G _ 0 Cn n g s c o d node y R Q (Kid _ _ _ _ Hc Io) Hd Hy). }
  assert (HC : forall c x, nth_error (ch m) c = Some x ->
    VC c = mreward M (cstate x) (cact x) + mean (map (fun k => (match nth_error (dh m) (snd k) with Some y => samples C y | None => 0%Z end, VD (snd k))) (ckids x))).
  { intros c x Hc. destruct (ch_some seqb aeqb C G s c I ltac:(apply nth_error_Some; fold m; congruence)) as (x' & y & Hn & Hy).
    destruct (QC c x y Hc Hy) as (v & Wm & Ev). unfold VC. rewrite Hy, Ev. f_equal. rewrite (mean_is _ _ Wm). f_equal. symmetry.
    pose proof (cview_ok seqb aeqb seqb_ok C G s c x I Hc) as F.
    refine (forall2_map_eq _ _ _ _ _ _ _ _ F _). intros [o d] [o' [node z]] Io (E1 & E2 & E3). cbn in E1, E2, E3. subst o'.
    unfold VD. cbn. fold m in E2. rewrite E2, E3. f_equal. symmetry. exact (Nb c x o d node z Hc Io E2 E3). }
  assert (HD : forall d node, nth_error (dh m) d = Some node ->
    dkids node = [] /\ VD d = dheur node \/
    dkids node <> [] /\ exists q, (forall a c, In a (acts C (dstate node)) -> lookup aeqb a (dkids node) = Some c -> q a = seen M node (VC c)) /\ rule (acts C (dstate node)) q (seen M node (VD d))).
  { intros d node Hd. destruct (dh_some seqb aeqb C G s d I ltac:(apply nth_error_Some; fold m; congruence)) as (node' & x & Hn & Hx).
    unfold VD. rewrite Hx. destruct (QD d node x Hd Hx) as [K|(NE & q & Hq & Hr)]; [now left|]. right. split; [exact NE|].
    exists q. split; [|exact Hr]. intros a c Ia Lc. rewrite (QS d node a (q a) Hd Ia (Hq a Ia)). unfold qval. now rewrite Lc. }
  destruct (tree_values seqb aeqb seqb_ok aeqb_ok C M Env rule Lip x0 Adds V Sv Hb Rw Bd X0 m W Dep (samples C)
    (fun c x o d node H1 H2 H3 => Z.lt_le_incl _ _ (Pos c x o d node H1 H2 H3)) VD VC HD HC eps Ep Full Fair) as [T1 T2].
  split.
  - intros d node x Hd Hx. specialize (T1 d node Hd). unfold VD in T1. now rewrite Hx in T1.
  - intros d node a c x Hd Lc Hx. specialize (T2 d node a c Hd Lc). unfold VC in T2. now rewrite Hx in T2.
Qed.
End Regular.

(** MENTS and its relatives at a fixed temperature. *)
Section Soft.
Hypothesis Pr : prior_policy C M.
Hypothesis Tp : 0 < mtemp M.
Hypothesis Dn : mdecay M = None.
Variable G : @algo S A.
Variable mD : XD G -> mmem.
Variable mC : XC G -> cmem.
Hypothesis Sp : soft_part aeqb C M G mD mC.
Hypothesis Cn : counter G (fun x => m_nb (mD x)) 0 1.
Variable N : R.
Hypothesis Few : few_actions C N.
Variables Hb Rw : R.
Hypothesis Bd : world_bounds C M Hb Rw.
Variable V : nat -> S -> Z -> R.
Hypothesis Sv : solves C M (greatest_mixed (entropy_bonus (mtemp M))) V.
Lemma entropy_range : forall l p, (exists s, l = acts C s) -> on_simplex l p -> 0 <= entropy_bonus (mtemp M) l p <= mtemp M * ln N.
Proof using Tp Few.
  intros l p (s & ->) Sp0. unfold entropy_bonus.
  assert (NE : acts C s <> []) by (intros E; destruct Sp0 as [_ P1]; rewrite E in P1; unfold rsum_of in P1; cbn in P1; lra).
  split.
  - apply Rmult_le_pos; [lra|]. rewrite shannon_is. destruct Sp0 as [P0 P1].
    assert (K : forall a, In a (acts C s) -> p a <= 1).
    { intros a Ia. rewrite <- P1. apply rsum_of_mem; auto. }
    assert (rsum_of (fun a => if Req_EM_T (p a) 0 then 0 else p a * ln (p a)) (acts C s) <= 0); [|lra].
    apply Rle_trans with (rsum_of (fun _ => 0) (acts C s)).
    + apply rsum_of_le. intros a Ia. destruct (Req_EM_T (p a) 0); [lra|]. pose proof (P0 a Ia). specialize (K a Ia).
      assert (ln (p a) <= 0). { rewrite <- ln_1. destruct (Req_dec (p a) 1) as [->|]; [lra|]. left. apply ln_increasing; lra. }
      pose proof (Rmult_le_compat_l (p a) (ln (p a)) 0 ltac:(lra) H0). lra.
    + right. clear. induction (acts C s) as [|a l IH]; [reflexivity|]. rewrite rsum_of_cons, IH. ring.
  - pose proof (gibbs_le (mtemp M) Tp (acts C s) NE (fun _ => 0) p Sp0) as K. unfold entropy_bonus in K.
    rewrite mixed_const in K by exact Sp0. rewrite soft_is in K. destruct Few as [N1 N2]. specialize (N2 s).
    assert (L : mtemp M * ln (rsum_of (fun _ => exp (0 / mtemp M)) (acts C s)) <= mtemp M * ln N).
    { apply Rmult_le_compat_l; [lra|]. replace (0 / mtemp M) with 0 by (unfold Rdiv; ring). rewrite exp_0.
      assert (E : rsum_of (fun _ : A => 1) (acts C s) = INR (length (acts C s))).
      { clear. induction (acts C s) as [|a l IH]; [reflexivity|]. rewrite rsum_of_cons, IH. cbn [length]. rewrite S_INR. ring. }
      rewrite E. destruct (Req_dec (INR (length (acts C s))) N) as [->|]; [lra|]. left. apply ln_increasing; [|lra]. apply lt_0_INR. destruct (acts C s); [contradiction|cbn; lia]. }
    lra.
Qed.
Theorem soft_near : forall n g s eps, areach seqb aeqb C G n g s -> quiet (base s) -> 0 <= eps -> explored aeqb C (mem (base s)) -> faithful M (samples C) eps (mem (base s)) ->
  (forall d node x, nth_error (dh (mem (base s))) d = Some node -> nth_error (xds s) d = Some x ->
     Rabs (m_soft (mD x) - V (left_at C node) (dstate node) (dtime node)) <= sampling_error eps Hb (Rw + mtemp M * ln N) (left_at C node)) /\
  (forall d node a c x, nth_error (dh (mem (base s))) d = Some node -> lookup aeqb a (dkids node) = Some c -> nth_error (xcs s) c = Some x ->
     Rabs (c_soft (mC x) - (mreward M (dstate node) a + expected (fun o => V (left_at C node - 1) o (dtime node + 1)%Z) (mdistr M (dstate node) a))) <= sampling_error eps Hb (Rw + mtemp M * ln N) (left_at C node)).
Proof using All.
  intros n g s eps R Q Ep Full Fair.
  assert (Tok : temps_ok M) by (split; [exact Tp|intros f E; congruence]).
  destruct (soft_quiet seqb aeqb seqb_ok aeqb_ok C M NoTT Env G mD mC Sp Tok n g s R Q) as [KD KC].
  assert (Keep : forall d node x, nth_error (dh (mem (base s))) d = Some node -> nth_error (xds s) d = Some x ->
    m_off (mD x) = m_off (ments_new_d C M node) /\ (dkids node = [] -> m_soft (mD x) = dheur node)).
  { intros d node x. apply (kept seqb aeqb seqb_ok aeqb_ok C M NoTT Env Pr G mD (SP_new _ _ _ _ _ _ Sp) (SP_vis _ _ _ _ _ _ Sp)) with (n := n) (g := g); auto.
    intros k x0 kids cx b x1 B. apply (SP_back _ _ _ _ _ _ Sp) in B. exact (proj2 (backup_keeps aeqb C M _ _ _ _ B)). }
  apply (reg_near Pr G (fun x => m_soft (mD x)) (fun x => m_nb (mD x)) (fun y => c_soft (mC y)) (fun k => m_off (ments_new_d C M k)) Cn
    (greatest_mixed (entropy_bonus (mtemp M))) (mixed_lip A _) (mtemp M * ln N)) with (n := n) (g := g); auto.
  - apply Rmult_le_pos; [lra|]. destruct Few as [N1 _]. rewrite <- ln_1. destruct (Req_dec 1 N) as [<-|]; [lra|]. left. apply ln_increasing; lra.
  - apply mixed_adds; [|exact entropy_range]. apply Rmult_le_pos; [lra|]. destruct Few as [N1 _]. rewrite <- ln_1. destruct (Req_dec 1 N) as [<-|]; [lra|]. left. apply ln_increasing; lra.
  - intros d node x Hd Hx. destruct (Keep d node x Hd Hx) as [Ko Kl].
    destruct (dkids node) as [|k0 ks] eqn:Ek; [left; auto|]. right. split; [discriminate|].
    destruct (KD d node x Hd Hx) as [[E _]|(v & q & _ & Hq & Hv)]; [congruence|]. rewrite Ko in Hq. exists q. split; [exact Hq|].
    rewrite Hv, seen_seen. unfold ments_temp. rewrite Dn. apply soft_mixed; auto.
    intros E0. pose proof (areach_ereach seqb aeqb C G _ _ _ R) as E.
    pose proof (proj1 (C12_well_formed seqb aeqb seqb_ok aeqb_ok C n (base s) E)) as W. destruct k0 as [a c].
    destruct (wf_d _ _ _ _ W d node a c Hd) as (_ & _ & _ & _ & _ & _ & Ia & _).
    + rewrite Ek. cbn. now rewrite (keqb_refl _ aeqb_ok).
    + rewrite E0 in Ia. exact Ia.
Qed.
End Soft.

Section Tents.
Hypothesis Pok : prior_ok C M.
Hypothesis Tp : 0 < mtemp M.
Hypothesis Dn : mdecay M = None.
Notation ta := (tents aeqb C M).
Variables Hb Rw : R.
Hypothesis Bd : world_bounds C M Hb Rw.
Variable V : nat -> S -> Z -> R.
Hypothesis Sv : solves C M (greatest_mixed (sparse_bonus (mtemp M))) V.
Lemma sparse_range : forall (l : list A) p, on_simplex l p -> 0 <= sparse_bonus (mtemp M) l p <= mtemp M / 2.
Proof using Tp.
  intros l p [P0 P1]. unfold sparse_bonus.
  assert (K : 0 <= rsum_of (fun a => p a * (1 - p a)) l <= 1).
  { split.
    - apply rsum_of_nonneg. intros a Ia. pose proof (P0 a Ia). pose proof (rsum_of_mem _ p l a P0 Ia) as K. rewrite P1 in K. apply Rmult_le_pos; lra.
    - rewrite <- P1. apply rsum_of_le. intros a Ia. pose proof (P0 a Ia). nra. }
  revert K. generalize (rsum_of (fun a => p a * (1 - p a)) l). intros u K. pose proof (Rmult_le_compat_l (mtemp M) u 1 ltac:(lra) (proj2 K)). pose proof (Rmult_le_pos (mtemp M) u ltac:(lra) (proj1 K)). lra.
Qed.
Theorem tents_near : forall n g s eps, areach seqb aeqb C ta n g s -> quiet (base s) -> 0 <= eps -> explored aeqb C (mem (base s)) -> faithful M (samples C) eps (mem (base s)) ->
  (forall d node x, nth_error (dh (mem (base s))) d = Some node -> nth_error (xds s) d = Some x ->
     Rabs (m_soft (t_m (x : @tmem A)) - V (left_at C node) (dstate node) (dtime node)) <= sampling_error eps Hb (Rw + mtemp M / 2) (left_at C node)) /\
  (forall d node a c x, nth_error (dh (mem (base s))) d = Some node -> lookup aeqb a (dkids node) = Some c -> nth_error (xcs s) c = Some x ->
     Rabs (c_soft (x : cmem) - (mreward M (dstate node) a + expected (fun o => V (left_at C node - 1) o (dtime node + 1)%Z) (mdistr M (dstate node) a))) <= sampling_error eps Hb (Rw + mtemp M / 2) (left_at C node)).
Proof using All.
  intros n g s eps R Q Ep Full Fair.
  destruct (tents_facts seqb aeqb seqb_ok aeqb_ok C M NoTT Env (proj1 Pok) Tp Dn Pok n g s R Q) as [KD KC].
  apply (reg_near (proj1 Pok) ta (fun x : @tmem A => m_soft (t_m x)) (fun x : @tmem A => m_nb (t_m x)) (fun y : cmem => c_soft y) (fun k => m_off (ments_new_d C M k)) (tents_counter aeqb C M)
    (greatest_mixed (sparse_bonus (mtemp M))) (mixed_lip A _) (mtemp M / 2)) with (n := n) (g := g); auto; [lra|].
  apply mixed_adds; [lra|]. intros l p _. apply sparse_range.
Qed.
End Tents.

(** ** Recommendations by dynamic programming value *)
Section Recommend.
Variable G : @algo S A.
Variable vD : XD G -> vmem.
Variable vC : XC G -> vmem.
Hypothesis Dp : dp_part M G vD vC.
Hypothesis Idle : forall x, vis_d G false x = x.
Hypothesis Cn : counter G (fun x => v_nb (vD x)) 1 1.
Variables Hb Rw : R.
Hypothesis Bd : world_bounds C M Hb Rw.
Variable V : nat -> S -> Z -> R.
Hypothesis Sv : solves C M greatest V.
Notation Qv node a := (mreward M (dstate node) a + expected (fun o => V (left_at C node - 1) o (dtime node + 1)%Z) (mdistr M (dstate node) a)).
Lemma first_near : forall n g s eps d node a, areach seqb aeqb C G n g s -> quiet (base s) -> 0 <= eps -> explored aeqb C (mem (base s)) -> faithful M (dp_samples C) eps (mem (base s)) ->
  nth_error (dh (mem (base s))) d = Some node -> dkids node <> [] ->
  (exists p, optimal aeqb C M (mem (base s)) p /\ p d = Some a) ->
  In a (acts C (dstate node)) /\ Rabs (Qv node a - V (left_at C node) (dstate node) (dtime node)) <= 2 * sampling_error eps Hb Rw (left_at C node).
Proof using All.
  intros n g s eps d node a R Q Ep Full Fair Hd NE F.
  destruct (dp_local seqb aeqb seqb_ok aeqb_ok C M NoTT Env G vD vC Dp Idle Cn n g s R Q) as (W & Dep & Pos & HD & HC).
  destruct (dp_near G vD vC Dp Idle Cn Hb Rw Bd V Sv n g s eps R Q Ep Full Fair) as [T1 T2].
  apply (optimal_first seqb aeqb seqb_ok aeqb_ok C M _ W Dep Pos _ _ HD HC d node a Hd NE) in F. destruct F as (c & Lc & Ev).
  destruct (wf_d _ _ _ _ W d node a c Hd Lc) as (cn & Hc & _ & _ & _ & _ & Ia & _). split; [exact Ia|].
  pose proof (areach_good seqb aeqb seqb_ok aeqb_ok C G _ _ _ R) as I.
  destruct (dh_some seqb aeqb C G s d I ltac:(apply nth_error_Some; congruence)) as (_ & x & _ & Hx).
  destruct (ch_some seqb aeqb C G s c I ltac:(apply nth_error_Some; congruence)) as (_ & y & _ & Hy).
  specialize (T1 d node x Hd Hx). specialize (T2 d node a c y Hd Lc Hy). unfold vals_d, vals_c in Ev. rewrite Hx, Hy in Ev. rewrite <- Ev in T1.
  apply abs_inv in T1, T2. apply Rabs_le. lra.
Qed.
Lemma first_exact : forall n g s d node a, areach seqb aeqb C G n g s -> quiet (base s) -> explored aeqb C (mem (base s)) -> faithful M (dp_samples C) 0 (mem (base s)) ->
  nth_error (dh (mem (base s))) d = Some node -> dkids node <> [] ->
  (exists p, optimal aeqb C M (mem (base s)) p /\ p d = Some a) <->
  In a (acts C (dstate node)) /\ Qv node a = V (left_at C node) (dstate node) (dtime node).
Proof using All.
  intros n g s d node a R Q Full Fair Hd NE. split.
  - intros F. destruct (first_near n g s 0 d node a R Q (Rle_refl 0) Full Fair Hd NE F) as [Ia K]. split; [exact Ia|].
    unfold sampling_error in K. rewrite Rmult_0_l, Rmult_0_r in K. apply abs_inv in K. lra.
  - intros [Ia E]. destruct (dp_local seqb aeqb seqb_ok aeqb_ok C M NoTT Env G vD vC Dp Idle Cn n g s R Q) as (W & Dep & Pos & HD & HC).
    destruct (dp_near G vD vC Dp Idle Cn Hb Rw Bd V Sv n g s 0 R Q (Rle_refl 0) Full Fair) as [T1 T2].
    apply (optimal_first seqb aeqb seqb_ok aeqb_ok C M _ W Dep Pos _ _ HD HC d node a Hd NE).
    destruct (lookup aeqb a (dkids node)) as [c|] eqn:Lc.
    2:{ exfalso. destruct (dkids node) as [|[b k] l] eqn:Ek; [contradiction|].
        destruct (wf_d _ _ _ _ W d node b k Hd) as (_ & _ & _ & _ & _ & _ & _ & Ns); [rewrite Ek; cbn; now rewrite (keqb_refl _ aeqb_ok)|].
        refine (Full d node a Hd _ _ Ia _); [| |now rewrite Ek].
        - destruct (is_sink C (dstate node)) eqn:Es; auto. destruct Ns. now left.
        - apply Z.nle_gt. intros L. apply Ns. now right. }
    exists c. split; [reflexivity|]. destruct (wf_d _ _ _ _ W d node a c Hd Lc) as (cn & Hc & _).
    pose proof (areach_good seqb aeqb seqb_ok aeqb_ok C G _ _ _ R) as I.
    destruct (dh_some seqb aeqb C G s d I ltac:(apply nth_error_Some; congruence)) as (_ & x & _ & Hx).
    destruct (ch_some seqb aeqb C G s c I ltac:(apply nth_error_Some; congruence)) as (_ & y & _ & Hy).
    specialize (T1 d node x Hd Hx). specialize (T2 d node a c y Hd Lc Hy). unfold vals_d, vals_c. rewrite Hx, Hy.
    unfold sampling_error in T1, T2. rewrite Rmult_0_l in T1, T2. apply abs_inv in T1, T2. lra.
Qed.
End Recommend.

(** ** The environment has values *)
Section Solutions.
Variable best : list A -> (A -> R) -> R.
Fixpoint solution (h : nat) (s : S) (t : Z) : R :=
  if is_sink C s then 0
  else match h with
  | O => initial C s
  | Datatypes.S h' => to_mover M t (best (acts C s) (fun a => to_mover M t (mreward M s a + expected (fun o => solution h' o (t + 1)%Z) (mdistr M s a))))
  end.
Lemma mover_mover : forall t v, to_mover M t (to_mover M t v) = v.
Proof using Type. intros t v. unfold to_mover. destruct (mtwo M && Z.odd t); ring. Qed.
Lemma solution_solves : forall rule : list A -> (A -> R) -> R -> Prop, (forall l q, l <> [] -> NoDup l -> rule l q (best l q)) -> solves C M rule solution.
Proof using Env.
  intros rule H. constructor.
  - intros h s t E. destruct h; cbn; now rewrite E.
  - intros s t E. cbn. now rewrite E.
  - intros h s t E. cbn [solution]. rewrite E, mover_mover. apply H; [exact (eo_acts _ _ Env s E)|exact (eo_nodup _ _ Env s)].
Qed.
End Solutions.
Lemma solves_unique : forall rule V V', rule_lip rule -> solves C M rule V -> solves C M rule V' -> forall h s t, V h s t = V' h s t.
Proof using Env.
  intros rule V V' Lip [A1 A2 A3] [B1 B2 B3]. induction h as [|h IH]; intros s t; (destruct (is_sink C s) eqn:E; [now rewrite A1, B1|]).
  - now rewrite A2, B2.
  - specialize (A3 h s t E). specialize (B3 h s t E).
    pose proof (Lip _ _ _ _ _ 0 (eo_acts _ _ Env s E) A3 B3) as K. rewrite mover_abs in K.
    assert (K0 : Rabs (V (Datatypes.S h) s t - V' (Datatypes.S h) s t) <= 0).
    { apply K. intros a Ia. rewrite mover_abs. replace (expected (fun o => V h o (t + 1)%Z) (mdistr M s a)) with (expected (fun o => V' h o (t + 1)%Z) (mdistr M s a)).
      + rewrite Rminus_diag_eq by reflexivity. rewrite Rabs_R0. lra.
      + unfold expected. apply rsum_of_ext. intros x _. now rewrite IH. }
    apply abs_inv in K0. lra.
Qed.
End Search.

(** Greatest elements and sparse maxima exist. *)
Fixpoint top {A} (l : list A) (q : A -> R) : R := match l with [] => 0 | [a] => q a | a :: k => Rmax (q a) (top k q) end.
Lemma top_greatest : forall A (l : list A) q, l <> [] -> greatest l q (top l q).
Proof.
  intros A l q. induction l as [|a [|b k] IH]; intros NE; [contradiction| |].
  - split; [exists a; split; [now left|reflexivity]|]. intros b [->|[]]. cbn. lra.
  - destruct IH as [(c & Ic & Ec) Hc]; [discriminate|]. change (top (a :: b :: k) q) with (Rmax (q a) (top (b :: k) q)). split.
    + unfold Rmax. destruct (Rle_dec (q a) (top (b :: k) q)); [exists c; split; [now right|exact Ec]|exists a; split; [now left|reflexivity]].
    + intros e [->|Ie]; [apply Rmax_l|]. apply Rle_trans with (top (b :: k) q); [now apply Hc|apply Rmax_r].
Qed.
Fixpoint put {A} (p : R * A) (l : list (R * A)) : list (R * A) :=
  match l with [] => [p] | r :: k => if Rle_dec (fst p) (fst r) then p :: l else r :: put p k end.
Definition sorted_pairs {A} (z : A -> R) (l : list A) : list (R * A) := fold_right (fun a k => put (z a, a) k) [] l.
Lemma put_perm : forall A (p : R * A) l, Permutation (p :: l) (put p l).
Proof.
  induction l as [|r k IH]; cbn; [auto|]. destruct (Rle_dec _ _); [auto|]. eapply Permutation_trans; [apply perm_swap|]. now apply perm_skip.
Qed.
Lemma put_sorted : forall A (p : R * A) l, StronglySorted (fun p q : R * A => fst p <= fst q) l -> StronglySorted (fun p q : R * A => fst p <= fst q) (put p l).
Proof.
  induction l as [|r k IH]; intros H; cbn; [repeat constructor|]. inversion H as [|? ? H1 H2]; subst. destruct (Rle_dec (fst p) (fst r)) as [L|L].
  - constructor; [exact H|]. constructor; [exact L|]. eapply Forall_impl; [|exact H2]. cbn. intros; lra.
  - constructor; [now apply IH|]. apply Forall_forall. intros x Ix. apply (Permutation_in _ (Permutation_sym (put_perm _ p k))) in Ix.
    destruct Ix as [<-|Ix]; [lra|]. rewrite Forall_forall in H2. now apply H2.
Qed.
Definition pair_maps {A} (z : A -> R) (l : list A) : @tmem A := mkTm (mkMm 0 0 0) (map (fun a => (a, z a)) l) (sorted_pairs z l).
Lemma pair_maps_hold : forall A (z : A -> R) l, NoDup l -> maps_hold l (pair_maps z l) z.
Proof.
  intros A z l ND.
  assert (P : Permutation (map (fun a => (z a, a)) l) (sorted_pairs z l)).
  { clear ND. induction l as [|a l IH]; cbn; [constructor|]. eapply Permutation_trans; [apply perm_skip; exact IH|]. apply put_perm. }
  split; [constructor|].
  - intros a. cbn. rewrite map_map. cbn. now rewrite map_id.
  - cbn. rewrite map_map. cbn. now rewrite map_id.
  - cbn. rewrite map_map. exact P.
  - cbn. clear. induction l as [|a l IH]; cbn; [constructor|]. now apply put_sorted.
  - intros a Ia. cbn. split.
    + apply in_map_iff. now exists a.
    + apply (Permutation_in _ P). apply in_map_iff. now exists a.
Qed.
Definition sparse_top {A} (aeqb : A -> A -> bool) (t : R) (l : list A) (q : A -> R) : R :=
  match spmax aeqb (pair_maps (fun a => q a / t) l) with Ok v => t * v | _ => 0 end.
Lemma sparse_top_ok : forall A (aeqb : A -> A -> bool) t (l : list A) q, decides aeqb -> 0 < t -> l <> [] -> NoDup l ->
  greatest_mixed (sparse_bonus t) l q (sparse_top aeqb t l q).
Proof.
  intros A aeqb t l q De T NE ND. destruct (TentsProofs.spmax_ok aeqb De l _ _ NE ND (pair_maps_hold A (fun a => q a / t) l ND)) as (v & E & (p0 & S0 & V0) & Mx).
  unfold sparse_top. rewrite E.
  assert (O : forall p, on_simplex l p -> rsum_of (fun a => p a * q a) l + sparse_bonus t l p = t * sparse_objective l (fun a => q a / t) p).
  { intros p [_ P1]. unfold sparse_bonus, sparse_objective.
    rewrite (rsum_of_ext _ (fun a => p a * (q a / t)) (fun a => / t * (p a * q a))) by (intros; unfold Rdiv; ring).
    rewrite (rsum_of_ext _ (fun a => p a * (1 - p a)) (fun a => p a + (-1) * (p a ^ 2))) by (intros; ring).
    rewrite rsum_of_plus, !rsum_of_scale, P1. field. lra. }
  split.
  - exists p0. split; [exact S0|]. now rewrite O, V0.
  - intros p Hp. rewrite (O p Hp). apply Rmult_le_compat_l; [lra|]. now apply Mx.
Qed.
