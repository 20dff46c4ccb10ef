(** C96: searches in doubles and the values of the environment. *)
From Coq Require Import List ZArith Bool Reals Lia Lra Permutation.
From Coq Require Import Floats.SpecFloat.
From Verif Require Import Base BaseProofs NumOps HelperModel HelperSpec EngineModel EngineSpec EngineProofs EngineTheorems AlgoModel AlgoProofs
  MentsModel SoftSpec MentsSpec PickSpec QuietSpec TreeSpec TreeResults WorldSpec WorldProofs WorldResults WorldTheorems UctModel UctSpec UctTheorems
  DoubleSpec DoubleProofs RoundExamples LseModel LseSpec LseReal LseExamples Ments64Model Ments64Spec Ments64Theorems Ments64World Dp64Model Dp64Spec Dp64Theorems Dp64World.
Import ListNotations.
Open Scope R_scope.
Notation action_worth := WorldSpec.action_worth.

(** ** C96: values computed in doubles are those of the environment, up to sampling and rounding errors *)

Section Theorems.
Context {S A : Type}.
Variable seqb : S -> S -> bool.
Variable aeqb : A -> A -> bool.
Hypothesis seqb_ok : decides seqb.
Hypothesis aeqb_ok : decides aeqb.
Variable C : @econf S A.
Variable M : @mconf S A.
Hypothesis NoTT : use_tt C = false.
Hypothesis Env : env_ok C M.
(** Bounds of heuristic values and rewards. *)
Variables Hb Rr : R.
Hypothesis Bd : world_bounds C M Hb Rr.

(** ** Dynamic programming values *)
Section Best.
Variable K : @dpconf S A.
Variables B0 Rw W : R.
Variable ns : Z.
Hypothesis Rg : dp_range C K B0 Rw W ns.
Hypothesis Sn : dp_numbers C K M.
Variable V : nat -> S -> Z -> R.
Hypothesis Sv : solves C M greatest V.
(** Sampling errors, and the rounding errors of one backup per decision left. *)
Notation err eps := (fun h : nat => sampling_error eps Hb Rr h + INR h * err_c W ns).

(** When no trial is under way, every action was tried wherever there was a choice and outcomes were sampled as often as
    they are likely up to [eps], the doubles held by the search are the values of the environment up to these errors. *)
Theorem C96_values : forall n g s eps, areach seqb aeqb C (dp64 C K) n g s -> quiet (base s) -> 0 <= eps ->
  explored aeqb C (mem (base s)) -> faithful M (dp_samples C) eps (mem (base s)) ->
  approximates aeqb C M s (fun x : pmem => dval (p_val x)) (fun y : pmem => dval (p_val y)) V (err eps).
Proof.
  intros n g s eps R Q Ep Full Fair. exact (proj2 (near64 seqb aeqb seqb_ok aeqb_ok C K M B0 Rw W ns Rg Sn NoTT Env Hb Rr Bd V Sv n g s eps R Q Ep Full Fair)).
Qed.
(** Recommendations by them succeed, and lose at most twice these errors against best play ... *)
Theorem C96_recommends : forall n g s d node eps, areach seqb aeqb C (dp64 C K) n g s -> quiet (base s) -> 0 <= eps ->
  explored aeqb C (mem (base s)) -> faithful M (dp_samples C) eps (mem (base s)) ->
  nth_error (dh (mem (base s))) d = Some node -> dkids node <> [] -> (p_threshold K <= 1)%Z ->
  always (recommend_dp K node (members (fun y => y) (dview s node))) (fun a =>
    In a (acts C (dstate node)) /\
    Rabs (action_worth C M V node a - V (left_at C node) (dstate node) (dtime node)) <= 2 * err eps (left_at C node)).
Proof. exact (picks64 seqb aeqb seqb_ok aeqb_ok C K M B0 Rw W ns Rg Sn NoTT Env Hb Rr Bd V Sv). Qed.
(** ... so they are best if every other action loses more. *)
Theorem C96_recommends_best : forall n g s d node eps, areach seqb aeqb C (dp64 C K) n g s -> quiet (base s) -> 0 <= eps ->
  explored aeqb C (mem (base s)) -> faithful M (dp_samples C) eps (mem (base s)) ->
  nth_error (dh (mem (base s))) d = Some node -> dkids node <> [] -> (p_threshold K <= 1)%Z ->
  (forall b, In b (acts C (dstate node)) -> action_worth C M V node b <> V (left_at C node) (dstate node) (dtime node) ->
     2 * err eps (left_at C node) < Rabs (action_worth C M V node b - V (left_at C node) (dstate node) (dtime node))) ->
  always (recommend_dp K node (members (fun y => y) (dview s node))) (fun a =>
    In a (acts C (dstate node)) /\ action_worth C M V node a = V (left_at C node) (dstate node) (dtime node)).
Proof.
  intros n g s d node eps R Q Ep Full Fair Hd NE Th Gap g' Gg.
  destruct (C96_recommends n g s d node eps R Q Ep Full Fair Hd NE Th g' Gg) as (a & g'' & E & E1 & E2 & Ia & Er).
  exists a, g''. do 3 (split; [assumption|]). split; [exact Ia|].
  destruct (Req_dec (action_worth C M V node a) (V (left_at C node) (dstate node) (dtime node))) as [|Ne]; [assumption|].
  specialize (Gap a Ia Ne). lra.
Qed.
End Best.

(** ** Soft values *)
(** The same for MENTS at a fixed temperature and the values of the environment in which whoever moves is paid the
    temperature times the entropy of their choice. [N] bounds the number of actions. *)
Section Soft.
Variables fexp flog : F -> F.
Variable K : @fconf S A.
Variables v B0 Rw tlo thi W : R.
Variables na ns : Z.
Hypothesis Lm : libm fexp flog v.
Hypothesis Rg : in_range C K v B0 Rw tlo thi W na ns.
Hypothesis Sn : same_numbers C K M.
Variable N : R.
Hypothesis Few : few_actions C N.
Variable V : nat -> S -> Z -> R.
Hypothesis Sv : solves C M (greatest_mixed (entropy_bonus (mtemp M))) V.
Notation err eps := (fun h : nat => sampling_error eps Hb (Rr + mtemp M * ln N) h + INR h * (err_c W ns + err_d v W thi na)).

Theorem C96_soft_values : forall n g s eps, areach seqb aeqb C (ments64 aeqb C fexp flog K) n g s -> quiet (base s) -> 0 <= eps ->
  explored aeqb C (mem (base s)) -> faithful M (samples C) eps (mem (base s)) ->
  approximates aeqb C M s (fun x : fdmem => dval (fd_soft x)) (fun y : fcmem => dval (fc_soft y)) V (err eps).
Proof. exact (soft_near64 seqb aeqb seqb_ok aeqb_ok C fexp flog K M v B0 Rw tlo thi W na ns Lm Rg Sn NoTT Env N Few Hb Rr Bd V Sv). Qed.
(** An action whose value is highest for whoever moves is, up to twice these errors, the best of all actions. *)
Theorem C96_soft_choice : forall n g s eps d node a ca ya, areach seqb aeqb C (ments64 aeqb C fexp flog K) n g s -> quiet (base s) -> 0 <= eps ->
  explored aeqb C (mem (base s)) -> faithful M (samples C) eps (mem (base s)) ->
  nth_error (dh (mem (base s))) d = Some node -> lookup aeqb a (dkids node) = Some ca -> nth_error (xcs s) ca = Some ya ->
  (forall b cb yb, lookup aeqb b (dkids node) = Some cb -> nth_error (xcs s) cb = Some yb ->
     seen M node (dval (fc_soft yb)) <= seen M node (dval (fc_soft ya))) ->
  forall b, In b (acts C (dstate node)) ->
    seen M node (action_worth C M V node b) <= seen M node (action_worth C M V node a) + 2 * err eps (left_at C node).
Proof. exact (soft_choice64 seqb aeqb seqb_ok aeqb_ok C fexp flog K M v B0 Rw tlo thi W na ns Lm Rg Sn NoTT Env N Few Hb Rr Bd V Sv). Qed.
End Soft.
End Theorems.
Print Assumptions C96_values.
Print Assumptions C96_recommends.
Print Assumptions C96_recommends_best.
Print Assumptions C96_soft_values.
Print Assumptions C96_soft_choice.

(** ** Witnesses *)
Lemma shallow : forall (C : @econf bool bool) (m : @store bool bool) d n, well_formed Bool.eqb Bool.eqb C m -> (forall d n, nth_error (dh m) d = Some n -> (0 <= ddepth n <= max_depth C)%Z) ->
  nth_error (dh m) d = Some n -> (ddepth n <= 0)%Z -> d = 0%nat.
Proof.
  intros C m d n W Dep Hd L. destruct (wf_reachD _ _ _ _ W d n Hd) as [|c o e Rc Ch]; [reflexivity|exfalso]. destruct Ch as (x & Hc & Lo).
  destruct (wf_c _ _ _ _ W c x o e Hc Lo) as (n' & Hn & _ & D & _). destruct Rc as [d0 a0 c Rd Ch0]. destruct Ch0 as (n0 & H0 & L0).
  destruct (wf_d _ _ _ _ W d0 n0 a0 c H0 L0) as (x' & Hx & _ & D' & _). pose proof (Dep d0 n0 H0). assert (x = x') by congruence. assert (n = n') by congruence. subst. lia.
Qed.

(** Two workers in the game of one step of C92: the values in doubles are those of the game, and the opponent, who moves
    first, is recommended what is best for them. *)
Lemma duo_env : env_ok duo_conf duo_mc.
Proof.
  constructor; cbn; try lia; try (intros; discriminate).
  - intros _. repeat constructor; cbn; intuition discriminate.
  - intros s a _ _. split; [|lra]. intros k w [[= <- <-]|[]]; lra.
Qed.
Lemma duo_bounds : world_bounds duo_conf duo_mc 2 3.
Proof. split; [lra|]. split; [lra|]. split; [intros s; cbn; rewrite Rabs_pos_eq; lra|]. intros s [|]; cbn; rewrite Rabs_pos_eq; lra. Qed.
Lemma duo_value : forall V, solves duo_conf duo_mc greatest V -> V 1%nat false 1%Z = 3 /\
  forall node, dstate node = false -> ddepth node = 0%Z -> dtime node = 1%Z -> forall a, action_worth duo_conf duo_mc V node a = if a then 5 else 3.
Proof.
  intros V [_ S0 S1]. assert (E0 : forall s t, V 0%nat s t = 2) by (intros s t; rewrite S0 by reflexivity; reflexivity). split.
  - specialize (S1 0%nat false 1%Z eq_refl). unfold to_mover, expected, rsum_of in S1. cbn -[IZR] in S1.
    destruct S1 as [(a & _ & E) Mx]. pose proof (Mx false ltac:(right; now left)) as H. cbn -[IZR] in H, E. rewrite E0 in H, E. destruct a; cbn -[IZR] in E; lra.
  - intros node Hs Hd Ht a. unfold WorldSpec.action_worth, expected, rsum_of, left_at. rewrite Hs, Hd, Ht. cbn -[IZR]. rewrite E0. destruct a; lra.
Qed.
Example C96_witness : exists s node, areach Bool.eqb Bool.eqb duo_conf (dp64 duo_conf duo_dp) 2 g_duo s /\ quiet (base s) /\
  explored Bool.eqb duo_conf (mem (base s)) /\ faithful duo_mc (dp_samples duo_conf) 0 (mem (base s)) /\
  nth_error (dh (mem (base s))) 0 = Some node /\
  always (recommend_dp duo_dp node (members (fun y => y) (dview s node))) (fun a => a = false).
Proof.
  destruct C92_witness as (Rg & Sn & s & node & R & Q & Hn & Ek & _). exists s, node.
  pose proof (C12_well_formed Bool.eqb Bool.eqb bool_decides bool_decides duo_conf 2 (base s) (areach_ereach Bool.eqb Bool.eqb duo_conf _ _ _ _ R)) as [Wf Dep].
  specialize (Dep ltac:(cbn; lia)).
  assert (X : explored Bool.eqb duo_conf (mem (base s))).
  { intros d n a Hd _ L _ Lk. cbn in L. assert (d = 0%nat) by (apply (shallow duo_conf _ d n Wf Dep Hd); lia). subst d. assert (n = node) by congruence. subst n.
    apply (MapProofs.lookup_none_iff Bool.eqb bool_decides) in Lk. apply Lk. rewrite Ek. destruct a; cbn; auto. }
  assert (F : faithful duo_mc (dp_samples duo_conf) 0 (mem (base s))).
  { apply (sure Bool.eqb Bool.eqb bool_decides bool_decides duo_conf duo_mc eq_refl duo_env) with (n := 2%nat) (g := g_duo) (G := dp64 duo_conf duo_dp) (s := s); auto.
    - split; [intros; apply Permutation_refl|reflexivity].
    - intros s0 a _ _. exists true, 1. reflexivity. }
  repeat (split; [assumption|]).
  destruct (C89_values_exist duo_conf duo_mc duo_env) as (V & Sv). destruct (duo_value V Sv) as [V0 Vq].
  destruct (wf_root _ _ _ _ Wf) as (root & Hr & Hs & Hd & Ht). assert (root = node) by congruence. subst root.
  assert (El : left_at duo_conf node = 1%nat) by (unfold left_at; now rewrite Hd).
  pose proof (C96_recommends_best Bool.eqb Bool.eqb bool_decides bool_decides duo_conf duo_mc eq_refl duo_env 2 3 duo_bounds duo_dp 2 3 100 1 Rg Sn V Sv 2%nat g_duo s 0%nat node 0 R Q (Rle_refl 0) X F Hn) as H.
  rewrite El, Hs, Ht in H. change (root_state duo_conf) with false in *. change (root_time duo_conf) with 1%Z in *.
  intros g' Gg. destruct (H ltac:(intros E; rewrite E in Ek; discriminate) ltac:(cbn; lia)) with (g := g') as (a & g'' & E & E1 & E2 & _ & Ev); auto.
  - intros b _ Nb. rewrite (Vq node Hs Hd Ht b), V0 in *. destruct b; [|congruence]. unfold sampling_error, err_c.
    assert (U : 0 < u64 <= / 10 ^ 15).
    { split; [apply powerRZ_lt; lra|]. unfold u64. change (powerRZ 2 (-53)) with (/ 2 ^ 53). apply Rinv_le_contravar; cbn [pow]; lra. }
    assert (Eta : 0 < eta64 <= u64) by (split; [apply powerRZ_lt; lra|apply pow_mono; lia]).
    rewrite Rabs_pos_eq by lra. cbn [INR pow] in *. lra.
  - exists a, g''. repeat (split; [assumption|]). rewrite (Vq node Hs Hd Ht a), V0 in Ev. destruct a; [lra|reflexivity].
Qed.

(** One worker in the environment of one step of C88: the soft value in doubles is that of the environment. *)
Lemma one_env : env_ok (one_conf 0 2 1) one_mc.
Proof.
  constructor; cbn; try lia; try (intros; discriminate).
  - intros _. repeat constructor; cbn; intuition discriminate.
  - intros s a _ _. split; [|lra]. intros k w [[= <- <-]|[]]; lra.
Qed.
Lemma one_bounds : world_bounds (one_conf 0 2 1) one_mc 2 1.
Proof. split; [lra|]. split; [lra|]. split; [intros [|]; cbn; rewrite Rabs_pos_eq; lra|]. intros s a; cbn; rewrite Rabs_pos_eq; lra. Qed.
Example C96_soft_witness : exists s, areach Bool.eqb Bool.eqb (one_conf 0 2 1) (ments64 Bool.eqb (one_conf 0 2 1) exp64 log64 one_fc) 1 g_ex s /\ quiet (base s) /\
  explored Bool.eqb (one_conf 0 2 1) (mem (base s)) /\ faithful one_mc (samples (one_conf 0 2 1)) 0 (mem (base s)).
Proof.
  set (C := one_conf 0 2 1). set (G := ments64 Bool.eqb C exp64 log64 one_fc).
  destruct (one_trial 0 2 1 G g_ex Datatypes.tt Datatypes.tt (mkRng (gi g_ex) (gr g_ex) 1 0) (mkRng (gi g_ex) (gr g_ex) 2 0)
    (mkFm 1 (o_chance F_ops (nofZ F_ops 1) [(1%Z, nofZ F_ops 2)]))
    (mkFd 1 (o_soft F_ops exp64 log64 f_lowest (nofZ F_ops 1) (nofZ F_ops 1) [nmul F_ops (o_chance F_ops (nofZ F_ops 1) [(1%Z, nofZ F_ops 2)]) (nofZ F_ops 1)])))
    as (s & R & Q & Dn & Hd & Hx & _); try reflexivity.
  exists s. split; [exact R|]. split; [exact Q|].
  pose proof (C12_well_formed Bool.eqb Bool.eqb bool_decides bool_decides C 1 (base s) (areach_ereach Bool.eqb Bool.eqb C _ _ _ _ R)) as [Wf Dep].
  specialize (Dep ltac:(cbn; lia)).
  assert (X : explored Bool.eqb C (mem (base s))).
  { intros d n a Hn _ L Ia Lk. cbn in L. assert (d = 0%nat) by (apply (shallow C _ d n Wf Dep Hn); lia). subst d. destruct Ia as [<-|[]].
    fold C in Hd. rewrite Hd in Hn. injection Hn as <-. discriminate Lk. }
  split; [exact X|].
  apply (certain Bool.eqb Bool.eqb bool_decides bool_decides C one_mc eq_refl one_env G) with (n := 1%nat) (g := g_ex); auto.
  - split; [intros; apply Permutation_refl|reflexivity].
  - intros s0 a _ _. exists true, 1. reflexivity.
  - intros c x o d node. exact (soft_weight Bool.eqb Bool.eqb bool_decides bool_decides C one_mc eq_refl one_env G _ (Ments64Close.counter64 Bool.eqb C exp64 log64 one_fc) 1 g_ex s c x o d node R Q X).
Qed.
