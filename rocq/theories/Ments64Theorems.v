(** C88: searches of MENTS in doubles. *)
From Coq Require Import List ZArith Bool Reals Lia Lra Permutation.
From Coq Require Import Floats.SpecFloat.
From Verif Require Import Base BaseProofs NumOps HelperModel EngineModel EngineSpec EngineProofs AlgoModel AlgoProofs
  MentsModel SoftSpec MentsSpec TreeSpec UctModel UctSpec UctTheorems DoubleSpec DoubleProofs RoundExamples LseModel LseSpec LseReal LseExamples LseTheorems
  Ments64Model Ments64Spec Ments64Proofs Ments64Close.
Import ListNotations.
Open Scope R_scope.

(** ** C88: soft values stay finite over a whole search, and close to the exact values of the tree *)

Section Theorems.
Context {S A : Type}.
Variable seqb : S -> S -> bool.
Variable aeqb : A -> A -> bool.
Hypothesis seqb_ok : decides seqb.
Hypothesis aeqb_ok : decides aeqb.
Variable C : @econf S A.
Variables fexp flog : F -> F.
Variable K : @fconf S A.
Variables v B0 Rw tlo thi W : R.
Variables na ns : Z.
Hypothesis Lm : libm fexp flog v.
Hypothesis Rg : in_range C K v B0 Rw tlo thi W na ns.
Notation search := (areach seqb aeqb C (ments64 aeqb C fexp flog K)).

(** In every state of every search (any number of threads, with or without transposition table), whatever actions and
    outcomes were picked, the value of every node is a finite double, no larger than a leaf value plus, for every level
    below the node, a reward, the largest entropy and the rounding errors of two backups; in particular at most [W]. *)
Theorem C88_finite : forall n g s, search n g s ->
  (forall d node x, nth_error (dh (mem (base s))) d = Some node -> nth_error (xds s) d = Some x ->
     double (fd_soft x) /\
     Rabs (dval (fd_soft x)) <= B0 + IZR (max_depth C - ddepth node) * (Rw + thi * ln (IZR na) + (err_c W ns + err_d v W thi na)) /\
     Rabs (dval (fd_soft x)) <= W) /\
  (forall c node y, nth_error (ch (mem (base s))) c = Some node -> nth_error (xcs s) c = Some y ->
     double (fc_soft y) /\ Rabs (dval (fc_soft y)) <= W).
Proof using All.
  intros n g s R. destruct (range_reach seqb aeqb seqb_ok aeqb_ok C fexp flog K v B0 Rw tlo thi W na ns Lm Rg n g s R) as [RD RC]. split.
  - intros d node x Hd Hx. destruct (RD d node x Hd Hx) as (_ & Dp & D & B). split; [exact D|]. split; [exact B|].
    pose proof (bnd_le C fexp flog K v B0 Rw tlo thi W na ns Lm Rg (max_depth C - ddepth node) ltac:(lia)). lra.
  - intros c node y Hc Hy. destruct (RC c node y Hc Hy) as (Dp & D & B). split; [exact D|].
    pose proof (bnd_le C fexp flog K v B0 Rw tlo thi W na ns Lm Rg (max_depth C - cdepth node) ltac:(lia)) as Q. rewrite bnd_S in Q.
    destruct (step_pos C fexp flog K v B0 Rw tlo thi W na ns Lm Rg). destruct (errs_pos C fexp flog K v B0 Rw tlo thi W na ns Lm Rg). lra.
Qed.

Variable M : @mconf S A.
Hypothesis Sn : same_numbers C K M.
Hypothesis NoTT : use_tt C = false.
Notation bonus := (entropy_bonus (mtemp M)).

(** Between trials, without transposition table, some plan that is optimal for the tree (for rewards plus entropy, exact
    arithmetic) is everywhere worth what the search computed, up to the rounding errors of one backup of a decision node
    and one of a chance node per level: errors do not accumulate with the number of trials. *)
Theorem C88_close : forall n g s, search n g s -> quiet (base s) ->
  exists p, mixed_optimal aeqb C M (mem (base s)) bonus off0 p /\
    (forall d node x, nth_error (dh (mem (base s))) d = Some node -> nth_error (xds s) d = Some x ->
       Rabs (dval (fd_soft x) - mixed_worth aeqb C M (mem (base s)) bonus off0 p d) <=
         IZR (max_depth C - ddepth node) * (err_c W ns + err_d v W thi na)) /\
    (forall c node y, nth_error (ch (mem (base s))) c = Some node -> nth_error (xcs s) c = Some y ->
       Rabs (dval (fc_soft y) - action_worth aeqb C M (mem (base s)) bonus off0 p node) <=
         IZR (max_depth C - cdepth node) * (err_c W ns + err_d v W thi na)).
Proof using All.
  intros n g s R Q. exact (close_tree64 seqb aeqb seqb_ok aeqb_ok C fexp flog K M v B0 Rw tlo thi W na ns Lm Rg Sn NoTT n g s R Q).
Qed.

(** So an explored action whose computed value is highest (for whoever moves) is, up to twice that error, the best of the
    explored actions. *)
Theorem C88_choice : forall n g s, search n g s -> quiet (base s) ->
  exists p, mixed_optimal aeqb C M (mem (base s)) bonus off0 p /\
    forall d node a ca xa ya, nth_error (dh (mem (base s))) d = Some node ->
      lookup aeqb a (dkids node) = Some ca -> nth_error (ch (mem (base s))) ca = Some xa -> nth_error (xcs s) ca = Some ya ->
      (forall b cb yb, lookup aeqb b (dkids node) = Some cb -> nth_error (xcs s) cb = Some yb ->
         seen M node (dval (fc_soft yb)) <= seen M node (dval (fc_soft ya))) ->
      forall b cb xb, lookup aeqb b (dkids node) = Some cb -> nth_error (ch (mem (base s))) cb = Some xb ->
        seen M node (action_worth aeqb C M (mem (base s)) bonus off0 p xb) <=
          seen M node (action_worth aeqb C M (mem (base s)) bonus off0 p xa) +
          2 * IZR (max_depth C - ddepth node) * (err_c W ns + err_d v W thi na).
Proof using All.
  intros n g s R Q. destruct (C88_close n g s R Q) as (p & Op & _ & Cc). exists p. split; [exact Op|].
  intros d node a ca xa ya Hd La Hca Hya Mx b cb xb Lb Hcb.
  pose proof (areach_good seqb aeqb seqb_ok aeqb_ok C _ _ _ _ R) as I.
  pose proof (proj1 (EngineTheorems.C12_well_formed seqb aeqb seqb_ok aeqb_ok C n (base s) (areach_ereach seqb aeqb C _ _ _ _ R))) as Wf.
  destruct (ch_some seqb aeqb C _ s cb I) as (xb' & yb & Hcb' & Hyb); [apply nth_error_Some; congruence|].
  destruct (wf_d _ _ _ _ Wf d node a ca Hd La) as (xa' & Ha' & _ & Da & _). rewrite Hca in Ha'. injection Ha' as <-.
  destruct (wf_d _ _ _ _ Wf d node b cb Hd Lb) as (xb'' & Hb' & _ & Db & _). rewrite Hcb in Hb'. injection Hb' as <-.
  specialize (Mx b cb yb Lb Hyb). pose proof (Cc ca xa ya Hca Hya) as Ea. pose proof (Cc cb xb yb Hcb Hyb) as Eb. rewrite Da in Ea. rewrite Db in Eb.
  apply abs_inv in Ea, Eb. unfold seen in *. destruct (opponent M node); lra.
Qed.
End Theorems.
Print Assumptions C88_finite.
Print Assumptions C88_close.
Print Assumptions C88_choice.

(** ** Witness *)

(** One step with reward 1 to a state with heuristic value 2; temperature 1. *)
Definition one_fc : @fconf bool bool :=
  @mkFc bool bool (fun _ => nofZ F_ops 1) (nofZ F_ops 0) false (fun _ _ => nofZ F_ops 1) (fun s : bool => if s then nofZ F_ops 2 else nofZ F_ops 0) (fun _ l => l).
Definition one_mc : @mconf bool bool :=
  @mkM bool bool 1 (-1) (1/2) (-1) 1 None (1/10) 1 (-1) 0 false 0 0 false None false (fun _ _ => 1) (fun _ _ => [(true, 1)]) (fun (V : Type) (m : list (bool * V)) => m) None 1 1 1 1 false.
Example C88_witness :
  in_range (one_conf 0 2 1) one_fc u64 2 1 1 1 100 1 1 /\ same_numbers (one_conf 0 2 1) one_fc one_mc /\
  exists s x, areach Bool.eqb Bool.eqb (one_conf 0 2 1) (ments64 Bool.eqb (one_conf 0 2 1) exp64 log64 one_fc) 1 g_ex s /\ quiet (base s) /\
    count is_done (etrace (base s)) = 1%Z /\ nth_error (xds s) 0 = Some x /\ double (fd_soft x) /\ Rabs (dval (fd_soft x) - 3) <= / 10 ^ 10.
Proof.
  destruct (small_int 0 ltac:(lia)) as (D0 & V0). destruct (small_int 1 ltac:(lia)) as (D1 & V1). destruct (small_int 2 ltac:(lia)) as (D2 & V2).
  assert (U : 0 < u64 <= / 10 ^ 15).
  { split; [apply powerRZ_lt; lra|]. unfold u64. change (powerRZ 2 (-53)) with (/ 2 ^ 53). apply Rinv_le_contravar; cbn [pow]; lra. }
  assert (E : 0 < eta64 <= u64) by (split; [apply powerRZ_lt; lra|apply pow_mono; lia]).
  assert (Er : err_c 100 1 + err_d u64 100 1 1 <= / 10 ^ 11).
  { unfold err_c, err_d. rewrite ln_1. cbn [pow] in *. lra. }
  assert (Rg : in_range (one_conf 0 2 1) one_fc u64 2 1 1 1 100 1 1).
  { constructor; cbn [one_fc f_temp f_default f_reward f_heur f_order one_conf acts succs max_depth length]; try lia.
    - intros _. rewrite V1. split; [exact D1|lra].
    - rewrite <- (powerRZ_O 2). apply pow_mono. lia.
    - rewrite <- (powerRZ_O 2). apply pow_mono. lia.
    - rewrite V0, Rabs_R0. split; [exact D0|lra].
    - intros [|]; rewrite ?V2, ?V0, ?Rabs_R0; split; auto; try lra. rewrite Rabs_pos_eq; lra.
    - intros _ _. rewrite V1, Rabs_pos_eq by lra. split; [exact D1|lra].
    - auto.
    - intros _ _. split; [discriminate|lia].
    - rewrite ln_1. cbn [pow] in *. lra.
    - split; [lra|]. assert (100 <= powerRZ 2 7) by (change (powerRZ 2 7) with (2 ^ 7); cbn [pow]; lra).
      assert (powerRZ 2 7 <= powerRZ 2 50) by (apply pow_mono; lia). assert (powerRZ 2 50 <= powerRZ 2 900) by (apply pow_mono; lia). lra. }
  assert (Sn : same_numbers (one_conf 0 2 1) one_fc one_mc).
  { constructor; try reflexivity; cbn [one_fc f_temp f_default f_reward f_heur one_mc mdefault_q mreward mtemp]; auto.
    intros [|] depth time; [rewrite V2|rewrite V0]; reflexivity. }
  split; [exact Rg|]. split; [exact Sn|].
  set (G := ments64 Bool.eqb (one_conf 0 2 1) exp64 log64 one_fc).
  destruct (one_trial 0 2 1 G g_ex Datatypes.tt Datatypes.tt (mkRng (gi g_ex) (gr g_ex) 1 0) (mkRng (gi g_ex) (gr g_ex) 2 0)
    (mkFm 1 (o_chance F_ops (nofZ F_ops 1) [(1%Z, nofZ F_ops 2)]))
    (mkFd 1 (o_soft F_ops exp64 log64 f_lowest (nofZ F_ops 1) (nofZ F_ops 1) [nmul F_ops (o_chance F_ops (nofZ F_ops 1) [(1%Z, nofZ F_ops 2)]) (nofZ F_ops 1)])))
    as (s & R & Q & Dn & Hd & Hx & _); try reflexivity.
  exists s. eexists. split; [exact R|]. split; [exact Q|]. split; [exact Dn|]. split; [exact Hx|].
  destruct (C88_finite Bool.eqb Bool.eqb EngineTheorems.bool_decides EngineTheorems.bool_decides (one_conf 0 2 1) exp64 log64 one_fc u64 2 1 1 1 100 1 1 libm64 Rg 1 g_ex s R) as (Fd & _).
  destruct (Fd _ _ _ Hd Hx) as (D & _). split; [exact D|].
  destruct (chance_range (one_conf 0 2 1) exp64 log64 one_fc u64 2 1 1 1 100 1 1 libm64 Rg (new_cnode false true 0 0) (nofZ F_ops 1) [(1%Z, nofZ F_ops 2)] 2) as (Dc & Ec & Bc); auto.
  { cbn. lia. } { lra. } { lra. } { rewrite V1, Rabs_pos_eq; lra. }
  { intros c x [H|[]]. pose proof (f_equal fst H) as H1. pose proof (f_equal snd H) as H2. cbn [fst snd] in H1, H2. rewrite <- H1, <- H2. split; [lia|]. split; [exact D2|]. rewrite V2, Rabs_pos_eq; lra. }
  change (f_order one_fc (new_cnode false true 0 0) [(1%Z, nofZ F_ops 2)]) with [(1%Z, nofZ F_ops 2)] in Dc, Ec, Bc.
  cbn [map fst snd] in Ec. rewrite V1, V2 in Ec.
  assert (Av : avg_loop [(1%Z, 2)] = 2). { unfold avg_loop, fold_left, avg_step. cbn. lra. }
  rewrite Av in Ec. set (y := o_chance F_ops (nofZ F_ops 1) [(1%Z, nofZ F_ops 2)]) in *.
  destruct (errs_pos (one_conf 0 2 1) exp64 log64 one_fc u64 2 1 1 1 100 1 1 libm64 Rg) as (P1 & P2).
  assert (Eb : / 10 ^ 11 <= / 10 ^ 10 / 2) by (cbn [pow]; lra). assert (Es : / 10 ^ 10 <= 1) by (cbn [pow]; lra).
  destruct (sign_mul false y Dc) as (Dq & Vq).
  { assert (1 <= powerRZ 2 0) by (cbn; lra). assert (4 <= powerRZ 2 2) by (change (powerRZ 2 2) with (2 ^ 2); cbn [pow]; lra). assert (powerRZ 2 2 <= powerRZ 2 900) by (apply pow_mono; lia).
    apply abs_inv in Bc. apply Rabs_le. lra. }
  cbv iota in Dq, Vq. set (q := nmul F_ops y (nofZ F_ops 1)) in *.
  destruct (soft_range (one_conf 0 2 1) exp64 log64 one_fc u64 2 1 1 1 100 1 1 libm64 Rg (new_dnode (one_conf 0 2 1) false 0 0) false [q] 50) as (_ & Ed & _).
  { discriminate. } { cbn. lia. } { lra. }
  { intros q' [<-|[]]. split; [exact Dq|]. rewrite Vq. apply abs_inv in Bc. apply Rabs_le. lra. }
  cbn [fd_soft]. change (f_temp one_fc (new_dnode (one_conf 0 2 1) false 0 0)) with (nofZ F_ops 1) in Ed.
  cbv iota in Ed. cbn [map] in Ed. rewrite V1, Vq in Ed.
  assert (Sm : soft_max 1 [dval y] = dval y). { unfold soft_max, rsum_of, rsum. cbn [map fold_right]. rewrite Rplus_0_r, ln_exp. lra. }
  rewrite Sm in Ed. apply abs_inv in Ec, Ed. apply Rabs_le. lra.
Qed.
