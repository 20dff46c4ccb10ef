(** Without transposition table what the children of a chance node count is what was sampled there. *)
From Coq Require Import List ZArith Bool Reals Lia Lra.
From Verif Require Import Base BaseProofs NumOps HelperModel HelperSpec EngineModel EngineSpec EngineProofs EngineInv EngineCount EngineResults EngineTheorems MapProofs AlgoModel AlgoProofs AlgoTheorems UctModel
  MentsModel SoftSpec SoftProofs MentsSpec TentsSpec TreeSpec TreeProofs DentsSpec PickSpec WorldSpec WorldTheorems LseReal OddsNodes TableSpec.
Import ListNotations.
Open Scope R_scope.

Section Fair.
Context {S A : Type}.
Variable seqb : S -> S -> bool.
Variable aeqb : A -> A -> bool.
Hypothesis seqb_ok : decides seqb.
Hypothesis aeqb_ok : decides aeqb.
Variable C : @econf S A.
Variable M : @mconf S A.
Hypothesis NoTT : use_tt C = false.

(** Adding at most one to each of [m] counts of sum at least [k] changes the mean little. *)
Lemma mean_more : forall (T : Type) (l : list T) (w e : T -> Z) (g : T -> R) b k, 
  (forall p, In p l -> (e p <= w p <= e p + 1)%Z) -> (forall p, In p l -> Rabs (g p) <= b) -> (forall p, In p l -> (0 <= e p)%Z) ->
  (1 <= k)%Z -> IZR k <= rsum_of (fun p => IZR (e p)) l ->
  Rabs (mean (map (fun p => (w p, g p)) l) - mean (map (fun p => (e p, g p)) l)) <= 2 * INR (length l) / IZR k * b.
Proof using.
  intros T l w e g b k Hw Hg He K1 Hk.
  assert (Kp : 1 <= IZR k) by (apply (IZR_le 1); exact K1).
  assert (Sums : forall l0, (forall p, In p l0 -> (e p <= w p <= e p + 1)%Z) -> (forall p, In p l0 -> Rabs (g p) <= b) -> (forall p, In p l0 -> (0 <= e p)%Z) ->
    0 <= rsum_of (fun p => IZR (w p)) l0 - rsum_of (fun p => IZR (e p)) l0 <= INR (length l0) /\
    Rabs (rsum_of (fun p => IZR (w p) * g p) l0 - rsum_of (fun p => IZR (e p) * g p) l0) <= INR (length l0) * b /\
    Rabs (rsum_of (fun p => IZR (e p) * g p) l0) <= rsum_of (fun p => IZR (e p)) l0 * b).
  { induction l0 as [|p l0 IH]; intros A1 A2 A3.
    - cbn. rewrite Rminus_0_r, Rabs_R0. repeat split; lra.
    - destruct IH as (I1 & I2 & I3); [intros q Iq; apply A1; now right|intros q Iq; apply A2; now right|intros q Iq; apply A3; now right|].
      rewrite !rsum_of_cons. cbn [length]. rewrite S_INR.
      specialize (A1 p (or_introl eq_refl)). specialize (A2 p (or_introl eq_refl)). specialize (A3 p (or_introl eq_refl)).
      destruct A1 as [A1 A1']. apply IZR_le in A1, A1', A3. rewrite plus_IZR in A1'. apply abs_inv in A2. apply abs_inv in I2. apply abs_inv in I3.
      repeat split; [lra|lra|apply Rabs_le; nra|apply Rabs_le; nra]. }
  destruct (Sums l Hw Hg He) as (S1 & S2 & S3).
  unfold mean. rewrite !rsum_of_map. cbn [fst snd].
  set (W := rsum_of (fun p => IZR (w p)) l) in *. set (E := rsum_of (fun p => IZR (e p)) l) in *.
  set (wg := rsum_of (fun p => IZR (w p) * g p) l) in *. set (eg := rsum_of (fun p => IZR (e p) * g p) l) in *.
  destruct (Req_EM_T W 0); [lra|]. destruct (Req_EM_T E 0); [lra|].
  replace (wg / W - eg / E) with ((wg - eg) / W - eg / E * ((W - E) / W)) by (field; lra).
  eapply Rle_trans; [apply Rabs_triang|]. rewrite Rabs_Ropp.
  assert (Le : 0 <= INR (length l)) by apply pos_INR.
  assert (Bp : 0 <= INR (length l) * b) by (eapply Rle_trans; [apply Rabs_pos|exact S2]).
  assert (T1 : Rabs ((wg - eg) / W) <= INR (length l) * b / IZR k).
  { unfold Rdiv. rewrite Rabs_mult, (Rabs_pos_eq (/ W)) by (left; apply Rinv_0_lt_compat; lra).
    apply Rmult_le_compat; [apply Rabs_pos|left; apply Rinv_0_lt_compat; lra|exact S2|apply Rinv_le_contravar; lra]. }
  assert (T2 : Rabs (eg / E * ((W - E) / W)) <= b * (INR (length l) / IZR k)).
  { rewrite Rabs_mult. apply Rmult_le_compat; try apply Rabs_pos.
    - unfold Rdiv. rewrite Rabs_mult, (Rabs_pos_eq (/ E)) by (left; apply Rinv_0_lt_compat; lra). apply Rmult_le_reg_r with E; [lra|]. rewrite Rmult_assoc, Rinv_l by lra. lra.
    - unfold Rdiv. rewrite Rabs_mult, (Rabs_pos_eq (/ W)), (Rabs_pos_eq (W - E)) by (try (left; apply Rinv_0_lt_compat); lra).
      apply Rmult_le_compat; [lra|left; apply Rinv_0_lt_compat; lra|lra|apply Rinv_le_contravar; lra]. }
  replace (2 * INR (length l) / IZR k * b) with (INR (length l) * b / IZR k + b * (INR (length l) / IZR k)) by (field; lra). lra.
Qed.

Lemma faithful_of : forall n s eps k m, ereach seqb aeqb C n s -> quiet s -> (forall s a, (length (succs C s a) <= m)%nat) -> (1 <= k)%Z -> well_sampled M eps k s ->
  faithful M (dp_samples C) (eps + 2 * INR m / IZR k) (mem s).
Proof using seqb_ok aeqb_ok NoTT.
  intros n s eps k m R Q Hm K1 Ws c x Hx g b Hg. destruct (Ws c x Hx) as (Kx & Wg). specialize (Wg g b Hg).
  destruct (ereach_good seqb aeqb seqb_ok aeqb_ok C _ _ R) as [I _]. pose proof (ti_wf _ _ _ _ I) as Wf.
  destruct (C10_idle' seqb aeqb seqb_ok aeqb_ok C n s R Q) as (_ & _ & _ & Cc & _). destruct (Cc c x Hx) as (_ & Ev).
  assert (Kp : 1 <= IZR k) by (apply (IZR_le 1); exact K1).
  assert (Bp : 0 <= b) by (eapply Rle_trans; [apply Rabs_pos|apply (Hg (cstate x))]).
  set (wt := fun p : S * nat => match nth_error (dh (mem s)) (snd p) with Some y => dp_samples C y | None => 0%Z end).
  assert (Hw : forall p, In p (ckids x) -> (count (goes c (snd p)) (etrace s) <= wt p <= count (goes c (snd p)) (etrace s) + 1)%Z).
  { intros [o d] Ik. pose proof (lookup_of_in _ _ _ _ _ _ seqb_ok (wf_ckeys _ _ _ _ Wf c x Hx) Ik) as Lx. destruct (wf_c _ _ _ _ Wf c x o d Hx Lx) as (nd & Hd & _).
    unfold wt. cbn [snd]. rewrite Hd, <- (reached_goes seqb aeqb seqb_ok aeqb_ok C NoTT n s c o d nd R Q ltac:(exists x; auto) Hd).
    unfold dp_samples, samples. destruct (mcts_mode C && negb _); lia. }
  assert (Sum : rsum_of (fun p => IZR (count (goes c (snd p)) (etrace s))) (ckids x) = IZR (cvisits x)).
  { rewrite Ev. generalize (ckids x). induction l as [|p l IH]; [reflexivity|]. rewrite rsum_of_cons, IH. cbn [sumZ]. now rewrite plus_IZR. }
  assert (Mm := mean_more _ (ckids x) wt (fun p => count (goes c (snd p)) (etrace s)) (fun p => g (fst p)) b k Hw (fun p _ => Hg (fst p)) (fun p _ => countb_nonneg _ _ _) K1 (Rle_trans _ _ _ (IZR_le _ _ Kx) (Req_le _ _ (eq_sym Sum)))).
  change (map _ (ckids x)) with (map (fun p => (wt p, g (fst p))) (ckids x)).
  assert (Len : 2 * INR (length (ckids x)) / IZR k * b <= 2 * INR m / IZR k * b).
  { pose proof (ckids_few seqb aeqb seqb_ok aeqb_ok C n s c x R Hx) as F. specialize (Hm (cstate x) (cact x)). assert (L : INR (length (ckids x)) <= INR m) by (apply le_INR; lia).
    apply Rmult_le_compat_r; auto. unfold Rdiv. apply Rmult_le_compat_r; [left; apply Rinv_0_lt_compat; lra|lra]. }
  apply abs_inv in Mm. apply abs_inv in Wg. apply Rabs_le. rewrite Rmult_plus_distr_r. lra.
Qed.

Lemma range_of : forall Hb Rw, world_bounds C M Hb Rw -> range_ok C M (- Hb) Hb (- Rw) Rw.
Proof using.
  intros Hb Rw (B1 & B2 & B3 & B4). split; [lra|lra| |].
  - intros h s E. specialize (B3 s). unfold initial in B3. rewrite E in B3. apply abs_inv in B3. lra.
  - intros s a. specialize (B4 s a). apply abs_inv in B4. lra.
Qed.
End Fair.

Lemma without_table : recommends_well false.
Proof.
  intros S A seqb aeqb C M So Ao NoTT Env Mok U By Al Hb Rw V Bd Big Sv m Hm n g s eps k d node R Q X E0 K1 Ws Hd NE.
  assert (Kp : 1 <= IZR k) by (apply (IZR_le 1); exact K1).
  refine (C89_est_recommends seqb aeqb So Ao C M NoTT Env Hb Rw Bd V Sv Mok By Al (- Hb) Hb (- Rw) Rw (range_of C M Hb Rw Bd) _ _ U n g s _ d node R Q _ X _ Hd NE).
  - unfold least_left. rewrite Z.sub_0_r. lra.
  - unfold most_left. rewrite Z.sub_0_r. lra.
  - assert (0 <= 2 * INR m / IZR k); [|lra]. apply Rmult_le_pos; [pose proof (pos_INR m); lra|left; apply Rinv_0_lt_compat; lra].
  - apply (faithful_of seqb aeqb So Ao C M NoTT n); auto. exact (C08_algorithms_run_the_engine _ _ _ _ _ _ _ R).
Qed.
