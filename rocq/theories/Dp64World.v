(** Dynamic programming values in doubles and the values of the environment. *)
From Coq Require Import List ZArith Bool Reals Lia Lra Permutation.
From Verif Require Import Base BaseProofs NumOps HelperModel HelperSpec EngineModel EngineSpec EngineProofs EngineTheorems MapProofs AlgoModel AlgoProofs AlgoNodes
  MentsModel SoftSpec MentsSpec PickSpec QuietSpec TreeSpec TreeProofs TreeResults WeightProofs MentsPolicy WorldSpec WorldProofs WorldResults DoubleSpec DoubleProofs Ments64Spec Ments64Proofs Dp64Model Dp64Spec Dp64Proofs Dp64Close Dp64Pick Dp64Theorems LseReal.
Import ListNotations.
Open Scope R_scope.

Section World.
Context {S A : Type}.
Variable seqb : S -> S -> bool.
Variable aeqb : A -> A -> bool.
Hypothesis seqb_ok : decides seqb.
Hypothesis aeqb_ok : decides aeqb.
Variable C : @econf S A.
Variable K : @dpconf S A.
Variable M : @mconf S A.
Variables B0 Rw W : R.
Variable ns : Z.
Hypothesis Rg : dp_range C K B0 Rw W ns.
Hypothesis Sn : dp_numbers C K M.
Hypothesis NoTT : use_tt C = false.
Hypothesis Env : env_ok C M.
Variables Hb Rr : R.
Hypothesis Bd : world_bounds C M Hb Rr.
Variable V : nat -> S -> Z -> R.
Hypothesis Sv : solves C M greatest V.
Notation search := (areach seqb aeqb C (dp64 C K)).
Notation err eps := (fun h : nat => sampling_error eps Hb Rr h + INR h * err_c W ns).

Section State.
Variables (n0 : nat) (g : rng R) (s : ast (dp64 C K)).
Hypothesis R0 : search n0 g s.
Hypothesis Q0 : quiet (base s).
Notation m := (mem (base s)).
Variable p : @plan A.
Hypothesis Op : optimal aeqb C M m p.
Definition plan_c (c : nat) : R := match nth_error (ch m) c with Some x => pure_worth aeqb C M m p x | None => 0 end.

Lemma plan_local : local seqb aeqb C M m (worth aeqb C M m p) plan_c.
Proof using All.
  pose proof (areach_good seqb aeqb seqb_ok aeqb_ok C _ _ _ _ R0) as I.
  destruct (C12_well_formed seqb aeqb seqb_ok aeqb_ok C n0 (base s) (areach_ereach seqb aeqb C _ _ _ _ R0)) as [Wf Dep]. specialize (Dep (dr_depth _ _ _ _ _ _ Rg)).
  destruct (dp64_reach seqb aeqb seqb_ok aeqb_ok C K B0 Rw W ns Rg n0 g s R0) as [RD RC].
  assert (Pos : forall c cn o e en, nth_error (ch m) c = Some cn -> In (o, e) (ckids cn) -> nth_error (dh m) e = Some en -> (0 <= dp_samples C en)%Z).
  { intros c cn o e en Hc Io He. destruct (dh_some seqb aeqb C _ s e I) as (en' & z & He' & Hz); [apply nth_error_Some; congruence|].
    assert (Ch : cchild seqb m c o e) by (exists cn; split; auto; apply (in_lookup _ seqb_ok); [exact (wf_ckeys _ _ _ _ Wf c cn Hc)|exact Io]).
    pose proof (nb_samples seqb aeqb seqb_ok aeqb_ok C NoTT _ _ 1 (counterp C K) n0 g s c o e en z R0 Q0 Ch He Hz) as Nz.
    destruct (RD e en z He Hz) as (Nn & _). unfold dp_samples. cbn in Nz. lia. }
  split; [exact Wf|]. split; [exact Dep|]. split; [exact Pos|].
  destruct (pure_tree seqb aeqb seqb_ok aeqb_ok C M m Wf Dep Pos) as (q & Oq & Wq).
  set (VD := pure C M m (Datatypes.S (Z.to_nat (max_depth C)))) in *.
  assert (Wp : forall d n, nth_error (dh m) d = Some n -> worth aeqb C M m p d = VD d).
  { intros d n Hd. rewrite <- (Wq d n Hd). apply (value_unique aeqb C M m d n); [exact Hd|now exists p|now exists q]. }
  assert (Wc : forall c x, nth_error (ch m) c = Some x -> plan_c c = pure_c C M m VD c).
  { intros c x Hc. unfold plan_c, pure_c. rewrite Hc. unfold pure_worth. f_equal. f_equal. apply map_ext_in. intros [o e] Ie. f_equal. cbn [snd].
    assert (Lo : lookup seqb o (ckids x) = Some e) by (apply (in_lookup _ seqb_ok); [exact (wf_ckeys _ _ _ _ Wf c x Hc)|exact Ie]).
    destruct (wf_c _ _ _ _ Wf c x o e Hc Lo) as (y & Hy & _). exact (Wp e y Hy). }
  assert (St : forall d n, nth_error (dh m) d = Some n -> VD d = pure_d C M m VD n).
  { intros d n Hd. unfold VD at 1. cbn [pure]. rewrite Hd. apply (pure_d_ext seqb aeqb seqb_ok aeqb_ok C M m Wf) with (d := d); auto. intros e k He De. pose proof (Dep d n Hd). pose proof (Dep e k He).
    apply (pure_fuel seqb aeqb seqb_ok aeqb_ok C M m Wf Dep) with (n := k); auto; lia. }
  split.
  - intros d n Hd. rewrite (Wp d n Hd), (St d n Hd). unfold pure_d.
    assert (Cc : forall k, In k (dkids n) -> plan_c (snd k) = pure_c C M m VD (snd k)).
    { intros [a c] Ik. assert (Ec : lookup aeqb a (dkids n) = Some c) by (apply (in_lookup _ aeqb_ok); [exact (wf_dkeys _ _ _ _ Wf d n Hd)|exact Ik]).
      destruct (wf_d _ _ _ _ Wf d n a c Hd Ec) as (x & Hx & _). exact (Wc c x Hx). }
    destruct (dkids n) as [|k ks]; [left; split; reflexivity|right]. split.
    + destruct (most_in _ (fun k => seen M n (pure_c C M m VD (snd k))) k ks) as ([a c] & Ik & E). exists a, c. split; [exact Ik|]. pose proof (Cc (a, c) Ik) as E2. cbn [snd] in E, E2. rewrite E2, E. now rewrite seen_seen.
    + intros a c Ik. pose proof (Cc (a, c) Ik) as E2. cbn [snd] in E2. rewrite E2. pose proof (most_ge _ (fun k => seen M n (pure_c C M m VD (snd k))) k ks (a, c) Ik) as H. cbn [snd] in *. unfold seen in *. destruct (opponent M n); lra.
  - intros c x Hc. unfold plan_c. now rewrite Hc.
Qed.
End State.

Theorem near64 : forall n g s eps, search n g s -> quiet (base s) -> 0 <= eps ->
  explored aeqb C (mem (base s)) -> faithful M (dp_samples C) eps (mem (base s)) ->
  (forall p, optimal aeqb C M (mem (base s)) p ->
     forall d node a c x, nth_error (dh (mem (base s))) d = Some node -> lookup aeqb a (dkids node) = Some c -> nth_error (ch (mem (base s))) c = Some x ->
       Rabs (pure_worth aeqb C M (mem (base s)) p x - WorldSpec.action_worth C M V node a) <= sampling_error eps Hb Rr (left_at C node)) /\
  approximates aeqb C M s (fun x : pmem => dval (p_val x)) (fun y : pmem => dval (p_val y)) V (err eps).
Proof using All.
  intros n g s eps R Q Ep Full Fair.
  assert (T : forall p, optimal aeqb C M (mem (base s)) p ->
    (forall d node, nth_error (dh (mem (base s))) d = Some node -> Rabs (worth aeqb C M (mem (base s)) p d - V (left_at C node) (dstate node) (dtime node)) <= sampling_error eps Hb Rr (left_at C node)) /\
    (forall d node a c, nth_error (dh (mem (base s))) d = Some node -> lookup aeqb a (dkids node) = Some c ->
       Rabs (plan_c s p c - WorldSpec.action_worth C M V node a) <= sampling_error eps Hb Rr (left_at C node))).
  { intros p Op. pose proof (plan_local n g s R Q p Op) as L. pose proof (dp_greatest seqb aeqb aeqb_ok C M _ _ _ L Full) as HD. destruct L as (Wf & Dep & Pos & _ & HC).
    pose proof (tree_values seqb aeqb seqb_ok aeqb_ok C M Env greatest (greatest_lip A) 0 (greatest_adds A _) V Sv Hb Rr Bd (Rle_refl 0)
      (mem (base s)) Wf Dep (dp_samples C) Pos _ _ HD HC eps Ep Full Fair) as [T1 T2]. rewrite Rplus_0_r in T1, T2. split; [exact T1|exact T2]. }
  split.
  - intros p Op d node a c x Hd Lc Hc. destruct (T p Op) as [_ T2]. specialize (T2 d node a c Hd Lc). unfold plan_c in T2. now rewrite Hc in T2.
  - destruct (C92_close seqb aeqb seqb_ok aeqb_ok C K B0 Rw W ns Rg M Sn NoTT n g s R Q) as (p & Op & Cd & Cc). destruct (T p Op) as [T1 T2].
    destruct (C12_well_formed seqb aeqb seqb_ok aeqb_ok C n (base s) (areach_ereach seqb aeqb C _ _ _ _ R)) as [Wf Dep]. specialize (Dep (dr_depth _ _ _ _ _ _ Rg)).
    assert (El : forall d node, nth_error (dh (mem (base s))) d = Some node -> INR (left_at C node) = IZR (max_depth C - ddepth node)).
    { intros d node Hd. unfold left_at. rewrite INR_IZR_INZ, Z2Nat.id; [reflexivity|]. pose proof (Dep d node Hd). lia. }
    split.
    + intros d node x Hd Hx. specialize (T1 d node Hd). specialize (Cd d node x Hd Hx). rewrite (El d node Hd). apply abs_inv in T1, Cd. apply Rabs_le. lra.
    + intros d node a c y Hd Lc Hy. specialize (T2 d node a c Hd Lc). destruct (wf_d _ _ _ _ Wf d node a c Hd Lc) as (x & Hx & _ & Dx & _).
      specialize (Cc c x y Hx Hy). unfold plan_c in T2. rewrite Hx in T2. rewrite Dx in Cc. rewrite (El d node Hd). apply abs_inv in T2, Cc. apply Rabs_le. lra.
Qed.

(** The best action is the one that is worth what the state is. *)
Lemma best_action : forall (node : @dnode S A), is_sink C (dstate node) = false -> (0 < left_at C node)%nat ->
  greatest (acts C (dstate node)) (fun a => seen M node (WorldSpec.action_worth C M V node a)) (seen M node (V (left_at C node) (dstate node) (dtime node))).
Proof using Sv.
  intros node Ns Lt. pose proof (so_step _ _ _ _ Sv (left_at C node - 1) (dstate node) (dtime node) Ns) as H.
  replace (Datatypes.S (left_at C node - 1)) with (left_at C node) in H by lia. exact H.
Qed.

Theorem picks64 : forall n g s d node eps, search n g s -> quiet (base s) -> 0 <= eps ->
  explored aeqb C (mem (base s)) -> faithful M (dp_samples C) eps (mem (base s)) ->
  nth_error (dh (mem (base s))) d = Some node -> dkids node <> [] -> (p_threshold K <= 1)%Z ->
  always (recommend_dp K node (members (fun y => y) (dview s node))) (fun a =>
    In a (acts C (dstate node)) /\
    Rabs (WorldSpec.action_worth C M V node a - V (left_at C node) (dstate node) (dtime node)) <= 2 * err eps (left_at C node)).
Proof using All.
  intros n g s d node eps R Q Ep Full Fair Hd NE Th.
  destruct (C92_recommends seqb aeqb seqb_ok aeqb_ok C K B0 Rw W ns Rg M Sn NoTT n g s d node R Q Hd NE Th) as (p & Op & Rec).
  destruct (near64 n g s eps R Q Ep Full Fair) as [Nr _]. specialize (Nr p Op).
  destruct (C12_well_formed seqb aeqb seqb_ok aeqb_ok C n (base s) (areach_ereach seqb aeqb C _ _ _ _ R)) as [Wf Dep]. specialize (Dep (dr_depth _ _ _ _ _ _ Rg) d node Hd).
  assert (El : INR (left_at C node) = IZR (max_depth C - ddepth node)) by (unfold left_at; rewrite INR_IZR_INZ, Z2Nat.id; [reflexivity|lia]).
  assert (Ns : is_sink C (dstate node) = false /\ (0 < left_at C node)%nat).
  { destruct (dkids node) as [|[a c] l] eqn:Ek; [congruence|]. destruct (wf_d _ _ _ _ Wf d node a c Hd) as (_ & _ & _ & _ & _ & _ & _ & N); [rewrite Ek; cbn; now rewrite (keqb_refl _ aeqb_ok)|].
    split; [destruct (is_sink C (dstate node)) eqn:Es; [destruct N; left; exact Es|reflexivity]|]. unfold left_at. destruct (Z_le_gt_dec (max_depth C) (ddepth node)); [destruct N; now right|lia]. }
  destruct Ns as [Ns Lt]. destruct (best_action node Ns Lt) as [(b & Ib & Eb) Mx].
  intros g' Gg. destruct (Rec g' Gg) as (a & g'' & E & E1 & E2 & c & x & Lc & Hx & Best). exists a, g''. split; [exact E|]. split; [exact E1|]. split; [exact E2|].
  destruct (wf_d _ _ _ _ Wf d node a c Hd Lc) as (_ & _ & _ & _ & _ & _ & Ia & _). split; [exact Ia|].
  destruct (lookup aeqb b (dkids node)) as [cb|] eqn:Lb; [|exfalso; refine (Full d node b Hd Ns _ Ib Lb); unfold left_at in Lt; lia].
  destruct (wf_d _ _ _ _ Wf d node b cb Hd Lb) as (xb & Hxb & _).
  specialize (Best b cb xb Lb Hxb). pose proof (Nr d node a c x Hd Lc Hx) as Na. pose proof (Nr d node b cb xb Hd Lb Hxb) as Nb.
  specialize (Mx a Ia). rewrite El. apply abs_inv in Na, Nb. apply Rabs_le. set (ec := err_c W ns) in *. set (dl := IZR (max_depth C - ddepth node)) in *.
  assert (P : 0 <= dl * ec) by (apply Rmult_le_pos; [apply IZR_le; lia|exact (dc_pos C K B0 Rw W ns Rg)]).
  replace (2 * dl * ec) with (2 * (dl * ec)) in Best by ring. unfold seen in *. destruct (opponent M node); lra.
Qed.
End World.
