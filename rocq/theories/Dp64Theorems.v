(** C92: dynamic programming values in doubles. *)
From Coq Require Import List ZArith Bool Reals Lia Lra Permutation.
From Coq Require Import Floats.SpecFloat.
From Verif Require Import Base BaseProofs NumOps HelperModel HelperSpec EngineModel EngineSpec EngineProofs AlgoModel AlgoProofs
  MentsModel SoftSpec MentsSpec PickSpec TreeSpec TreeResults UctModel DoubleSpec DoubleProofs LseReal RoundExamples Ments64Spec Ments64Proofs Dp64Model Dp64Spec Dp64Proofs Dp64Close Dp64Pick.
Import ListNotations.
Open Scope R_scope.

(** ** C92: dynamic programming values stay finite over a whole search, close to the exact values of the tree, and
    recommendations by them are nearly optimal *)

Section Theorems.
Context {S A : Type}.
Variable seqb : S -> S -> bool.
Variable aeqb : A -> A -> bool.
Hypothesis seqb_ok : decides seqb.
Hypothesis aeqb_ok : decides aeqb.
Variable C : @econf S A.
Variable K : @dpconf S A.
Variables B0 Rw W : R.
Variable ns : Z.
Hypothesis Rg : dp_range C K B0 Rw W ns.
Notation search := (areach seqb aeqb C (dp64 C K)).

(** In every state of every search (any number of threads, with or without transposition table), whatever actions and
    outcomes were picked, the value of every node is a finite double, no larger than a heuristic value plus, for every
    level below the node, a reward and the rounding errors of a chance node; in particular at most [W]. *)
Theorem C92_finite : forall n g s, search n g s ->
  (forall d node x, nth_error (dh (mem (base s))) d = Some node -> nth_error (xds s) d = Some x ->
     double (p_val x) /\ Rabs (dval (p_val x)) <= B0 + IZR (max_depth C - ddepth node) * (Rw + err_c W ns) /\ Rabs (dval (p_val x)) <= W) /\
  (forall c node y, nth_error (ch (mem (base s))) c = Some node -> nth_error (xcs s) c = Some y ->
     double (p_val y) /\ Rabs (dval (p_val y)) <= B0 + IZR (max_depth C - cdepth node) * (Rw + err_c W ns) /\ Rabs (dval (p_val y)) <= W).
Proof using All.
  intros n g s R. destruct (dp64_reach seqb aeqb seqb_ok aeqb_ok C K B0 Rw W ns Rg n g s R) as [RD RC]. split.
  - intros d node x Hd Hx. destruct (RD d node x Hd Hx) as (_ & Dp & D & B). pose proof (bndp_le C K B0 Rw W ns Rg (max_depth C - ddepth node) ltac:(lia)). split; [exact D|]. split; [exact B|lra].
  - intros c node y Hc Hy. destruct (RC c node y Hc Hy) as (_ & Dp & D & B). pose proof (bndp_le C K B0 Rw W ns Rg (max_depth C - cdepth node) ltac:(lia)). split; [exact D|]. split; [exact B|lra].
Qed.

Variable M : @mconf S A.
Hypothesis Sn : dp_numbers C K M.
Hypothesis NoTT : use_tt C = false.

(** Between trials, without transposition table, some plan that is optimal for the tree (exact arithmetic) is everywhere
    worth what the search computed, up to the rounding errors of one chance node per level: errors do not accumulate
    with the number of trials, and picking the best child adds none. *)
Theorem C92_close : forall n g s, search n g s -> quiet (base s) ->
  exists p, optimal aeqb C M (mem (base s)) p /\
    (forall d node x, nth_error (dh (mem (base s))) d = Some node -> nth_error (xds s) d = Some x ->
       Rabs (dval (p_val x) - worth aeqb C M (mem (base s)) p d) <= IZR (max_depth C - ddepth node) * err_c W ns) /\
    (forall c node y, nth_error (ch (mem (base s))) c = Some node -> nth_error (xcs s) c = Some y ->
       Rabs (dval (p_val y) - pure_worth aeqb C M (mem (base s)) p node) <= IZR (max_depth C - cdepth node) * err_c W ns).
Proof using All.
  intros n g s R Q. exact (close_treep seqb aeqb seqb_ok aeqb_ok C K M B0 Rw W ns Rg Sn NoTT n g s R Q).
Qed.

(** A recommendation at a node with children always succeeds. If every child with a backup counts, it returns an
    explored action that is, up to twice that error, the best (for whoever moves) of the explored actions. *)
Theorem C92_recommends : forall n g s d node, search n g s -> quiet (base s) ->
  nth_error (dh (mem (base s))) d = Some node -> dkids node <> [] -> (p_threshold K <= 1)%Z ->
  exists p, optimal aeqb C M (mem (base s)) p /\
    always (recommend_dp K node (members (fun y => y) (dview s node))) (fun a =>
      exists c x, lookup aeqb a (dkids node) = Some c /\ nth_error (ch (mem (base s))) c = Some x /\
        forall b cb xb, lookup aeqb b (dkids node) = Some cb -> nth_error (ch (mem (base s))) cb = Some xb ->
          seen M node (pure_worth aeqb C M (mem (base s)) p xb) <=
            seen M node (pure_worth aeqb C M (mem (base s)) p x) + 2 * IZR (max_depth C - ddepth node) * err_c W ns).
Proof using All.
  intros n g s d node R Q Hd NE Th. destruct (C92_close n g s R Q) as (p & Op & _ & Cc). exists p. split; [exact Op|].
  pose proof (areach_good seqb aeqb seqb_ok aeqb_ok C _ _ _ _ R) as I.
  pose proof (proj1 (EngineTheorems.C12_well_formed seqb aeqb seqb_ok aeqb_ok C n (base s) (areach_ereach seqb aeqb C _ _ _ _ R))) as Wf.
  pose proof (dview_ok seqb aeqb aeqb_ok C _ s d node I Hd) as Fv.
  destruct (C92_finite n g s R) as (_ & Fc).
  set (kids := members (fun y => y) (dview s node)).
  assert (Kid : forall a y, In (a, y) kids <-> exists c, In (a, c) (dkids node) /\ nth_error (xcs s) c = Some y).
  { intros a y. unfold kids, members. rewrite in_map_iff. split.
    - intros ([a' [c' y']] & [= <- <-] & Iy). destruct (forall2_in_r _ _ _ _ _ _ Fv Iy) as ([a'' k] & Ik & E1 & _ & E3). cbn in E1, E3. subst. exists k. auto.
    - intros (k & Ik & Hy). destruct (forall2_in_l _ _ _ _ _ _ Fv Ik) as ([a' [c' y']] & Iy & E1 & E2 & E3). cbn in E1, E2, E3. subst. exists (a', (c', y')). split; [|exact Iy]. change (XC (dp64 C K)) with (@pmem) in *. cbn. congruence. }
  assert (Look : forall a c, lookup aeqb a (dkids node) = Some c <-> In (a, c) (dkids node)) by (intros; apply (MapProofs.lookup_iff _ aeqb_ok); exact (wf_dkeys _ _ _ _ Wf d node Hd)).
  assert (ND : NoDup (map fst kids)).
  { replace (map fst kids) with (map fst (dkids node)); [exact (wf_dkeys _ _ _ _ Wf d node Hd)|]. unfold kids, members. rewrite map_map. refine (forall2_map_eq _ _ _ _ _ _ _ _ Fv _). intros [a k] [a' q] _ (E1 & _). exact E1. }
  assert (NE' : kids <> []).
  { destruct (dkids node) as [|[a k] l] eqn:Ek; [congruence|]. inversion Fv as [|k1 [a1 [c1 y1]] l1 l2 F1 F2 E1 E2]. unfold kids. rewrite <- E2. discriminate. }
  intros g' Gg. destruct (recommend_best64 C K B0 Rw W ns Rg node kids NE' ND) with (g := g') as (a & g'' & E & E1 & E2 & y & Iy & _ & Mx); auto.
  { intros a y Iy. apply Kid in Iy. destruct Iy as (c & Ic & Hy). apply Look in Ic. destruct (wf_d _ _ _ _ Wf d node a c Hd Ic) as (x & Hx & _). destruct (Fc c x y Hx Hy) as (D & _ & B). auto. }
  exists a, g''. split; [exact E|]. split; [exact E1|]. split; [exact E2|]. apply Kid in Iy. destruct Iy as (c & Ic & Hy). apply Look in Ic.
  destruct (wf_d _ _ _ _ Wf d node a c Hd Ic) as (x & Hx & _ & Dx & _). exists c, x. split; [exact Ic|]. split; [exact Hx|].
  intros b cb xb Lb Hxb. destruct (ch_some seqb aeqb C _ s cb I) as (xb' & yb & Hxb' & Hyb); [apply nth_error_Some; congruence|].
  destruct (wf_d _ _ _ _ Wf d node b cb Hd Lb) as (xb2 & Hxb2 & _ & Dxb & _). rewrite Hxb in Hxb2. injection Hxb2 as <-.
  assert (Sg : seen M node (dval (p_val yb)) <= seen M node (dval (p_val y))).
  { rewrite <- !(sg_seen C K M Sn). apply (Mx b yb).
    - apply Kid. exists cb. split; [now apply Look|exact Hyb].
    - left. pose proof (backedp seqb aeqb seqb_ok aeqb_ok C K M B0 Rw W ns Rg Sn NoTT n g s R Q cb xb yb Hxb Hyb). lia. }
  pose proof (Cc c x y Hx Hy) as Ea. pose proof (Cc cb xb yb Hxb Hyb) as Eb. rewrite Dx in Ea. rewrite Dxb in Eb.
  apply abs_inv in Ea, Eb. unfold seen in *. destruct (opponent M node); lra.
Qed.
End Theorems.
Print Assumptions C92_finite.
Print Assumptions C92_close.
Print Assumptions C92_recommends.

(** ** Witness *)

(** A two-player game of one step, the opponent moving first: action true pays 3, action false pays 1. *)
Definition duo_conf : @econf bool bool :=
  mkConf (fun _ => false) (fun _ => [true; false]) (fun _ _ => [true]) (fun _ a _ => if a : bool then 3 else 1) (Some (fun _ : bool => 2)) 1 false false 0 false 1.
Definition duo_dp : @dpconf bool bool :=
  @mkDc64 bool bool true 1 (fun _ a => if a : bool then nofZ F_ops 3 else nofZ F_ops 1) (fun _ => nofZ F_ops 2) (fun _ l => rev l) (fun _ l => l) (fun l => l).
Definition duo_mc : @mconf bool bool :=
  @mkM bool bool 1 (-1) (1/2) (-1) 1 None (1/10) 1 (-1) 0 false 0 1 false None true (fun _ a => if a : bool then 3 else 1) (fun _ _ => [(true, 1)]) (fun (V : Type) (m : list (bool * V)) => m) None 1 1 1 1 false.
(** Two workers try one action each at the same time. *)
Definition g_duo : rng R := mkRng (fun i => Z.of_nat i) (fun _ => 0) 0 0.
Definition duo_steps : list alabel :=
  [AStart 0; AStart 1; ARun 0; ARun 1; ARun 0; ARun 1; ARun 0; ARun 1; ARun 0; ARun 1; ARun 0; ARun 1; ARun 0; ARun 1]%nat.
Lemma Some_inj : forall {T} (a b : T), Some a = Some b -> a = b.
Proof. intros T a b [= ->]. reflexivity. Qed.
Example C92_witness :
  dp_range duo_conf duo_dp 2 3 100 1 /\ dp_numbers duo_conf duo_dp duo_mc /\
  exists s node, areach Bool.eqb Bool.eqb duo_conf (dp64 duo_conf duo_dp) 2 g_duo s /\ quiet (base s) /\
    nth_error (dh (mem (base s))) 0 = Some node /\ map fst (dkids node) = [true; false] /\
    nth_error (xds s) 0 = Some (mkP 3 (nofZ F_ops 3)) /\ map p_val (xcs s) = [nofZ F_ops 5; nofZ F_ops 3].
Proof.
  destruct (small_int 1 ltac:(lia)) as (D1 & V1). destruct (small_int 2 ltac:(lia)) as (D2 & V2). destruct (small_int 3 ltac:(lia)) as (D3 & V3).
  split; [|split].
  - assert (U : 0 < u64 <= / 10 ^ 15).
    { split; [apply powerRZ_lt; lra|]. unfold u64. change (powerRZ 2 (-53)) with (/ 2 ^ 53). apply Rinv_le_contravar; cbn [pow]; lra. }
    assert (E : 0 < eta64 <= u64) by (split; [apply powerRZ_lt; lra|apply pow_mono; lia]).
    constructor; cbn [duo_conf duo_dp p_heur p_reward p_orderd p_orderc p_ordera succs max_depth length]; auto; try lia.
    + intros _. split; [exact D2|]. rewrite V2, Rabs_pos_eq; lra.
    + intros _ [|]; (split; [assumption|]); rewrite ?V3, ?V1, Rabs_pos_eq; lra.
    + intros _ l. apply Permutation_rev.
    + unfold err_c. cbn [pow] in *. lra.
    + split; [lra|]. split; [lra|]. assert (100 <= powerRZ 2 7) by (change (powerRZ 2 7) with (2 ^ 7); cbn [pow]; lra). assert (powerRZ 2 7 <= powerRZ 2 900) by (apply pow_mono; lia). lra.
  - constructor; cbn [duo_conf duo_dp duo_mc p_two p_reward p_heur mtwo mreward]; auto.
    intros _ [|]; [rewrite V3|rewrite V1]; reflexivity.
  - set (ok := fun s : ast (dp64 duo_conf duo_dp) => (ths (base s), option_map (fun n => map fst (dkids n)) (nth_error (dh (mem (base s))) 0),
      nth_error (xds s) 0 : option pmem, map p_val (xcs s : list pmem))).
    assert (X : option_map ok (arun Bool.eqb Bool.eqb duo_conf (dp64 duo_conf duo_dp) duo_steps (ainit duo_conf (dp64 duo_conf duo_dp) 2 g_duo)) =
      Some ([TIdle; TIdle], Some [true; false], Some (mkP 3 (nofZ F_ops 3)), [nofZ F_ops 5; nofZ F_ops 3])) by (vm_compute; reflexivity).
    destruct (arun _ _ _ _ _ _) as [s|] eqn:E; [|discriminate]. unfold option_map at 1 in X. apply Some_inj in X. unfold ok in X. clear ok.
    pose proof (f_equal (fun t => fst (fst (fst t))) X) as T. pose proof (f_equal (fun t => snd (fst (fst t))) X) as N. pose proof (f_equal (fun t => snd (fst t)) X) as Hx. pose proof (f_equal snd X) as Hc.
    cbn [fst snd] in T, N, Hx, Hc. destruct (nth_error (dh (mem (base s))) 0) as [node|] eqn:Hn; [|discriminate]. cbn [option_map] in N. apply Some_inj in N.
    exists s, node. split; [exists duo_steps; exact E|]. split; [|auto].
    intros t th H. rewrite T in H. destruct t as [|[|t]]; cbn in H; congruence || (destruct t; discriminate).
Qed.
