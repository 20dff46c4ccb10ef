(** Computed averages in searches: results. *)
From Coq Require Import List ZArith Bool Reals Lia Lra.
From Coq Require Import Floats.SpecFloat.
From Verif Require Import Base BaseProofs NumOps HelperModel EngineModel EngineSpec EngineProofs EngineInv EngineBound EngineAfter
  DoubleSpec DoubleProofs AlgoModel AlgoProofs AlgoNodes AlgoHist ArgsHist UctModel UctSpec UctProofs
  RoundModel RoundSpec RoundProofs RoundDouble RoundRange RoundRun.
Import ListNotations.
Open Scope R_scope.

Lemma args_afters_d : forall S A d (tr : list (nat * @event S A)), map b_after (args_d d tr) = afters_d d tr.
Proof.
  intros S A d tr. induction tr as [|[t e] tr IH]; [reflexivity|]. cbn [args_d afters_d flat_map snd].
  rewrite map_app. fold (args_d d tr) (afters_d d tr). rewrite IH. destruct e; auto. destruct (Nat.eqb d0 d); auto.
Qed.
Lemma args_afters_c : forall S A c (tr : list (nat * @event S A)), map b_after (args_c c tr) = afters_c c tr.
Proof.
  intros S A c tr. induction tr as [|[t e] tr IH]; [reflexivity|]. cbn [args_c afters_c flat_map snd].
  rewrite map_app. fold (args_c c tr) (afters_c c tr). rewrite IH. destruct e; auto. destruct (Nat.eqb c0 c); auto.
Qed.
Lemma near_mean_weaken : forall e e' w h l nb a, e <= e' -> near_mean e w h l nb a -> near_mean e' w h l nb a.
Proof. intros e e' w h l nb a H (m & H1 & H2). exists m. split; auto. lra. Qed.
Lemma pseudo_pos : forall S A (C : @econf S A) U, (0 <= upseudo U)%Z -> (0 <= pseudo C U)%Z.
Proof. intros S A C U H. unfold pseudo. destruct (heuristic C); lia. Qed.

Section Results.
Context {S A : Type}.
Variable seqb : S -> S -> bool.
Variable aeqb : A -> A -> bool.
Hypothesis seqb_ok : decides seqb.
Hypothesis aeqb_ok : decides aeqb.
Variable C : @econf S A.
Variable U : @uconf S A.
Hypothesis depth_ok : (0 <= max_depth C)%Z.
Hypothesis pseudo_ok : (0 <= upseudo U)%Z.

Lemma heur_wf : forall G n g s, areach seqb aeqb C G n g s -> forall d node, nth_error (dh (mem (base s))) d = Some node ->
  dheur node = match heuristic C with Some h => if is_sink C (dstate node) then 0 else h (dstate node) | None => 0 end.
Proof using seqb_ok aeqb_ok.
  intros G n g s R. apply (wf_heur _ _ _ _ (ti_wf _ _ _ _ (proj1 (ereach_good _ _ seqb_ok aeqb_ok C n _ (areach_ereach seqb aeqb C G _ _ _ R))))).
Qed.

Section Rounded.
Variable rnd : R -> R.
Variables u eta rho : R.
Hypothesis Rd : rounding rnd u eta.
Hypothesis rho0 : 0 <= rho.
Hypothesis Hr : forall s a o, Rabs (rwd C s a o) <= rho.
Hypothesis Hh : forall h s, heuristic C = Some h -> Rabs (h s) <= rho.
Variable sel : @dnode S A -> nx R -> list (A * (@cnode S A * nx R)) -> rng R -> outcome (A * rng R).
Variable smp : @cnode S A -> rng R -> outcome (S * rng R).
Notation alg := (uct_over C U (rnd_ops rnd) (fun r => r) sel smp).
Notation L := (max_depth C + 1)%Z.
Notation B := (IZR L * rho).

Lemma env_bound : forall x, from_env C x -> Rabs x <= rho.
Proof using rho0 Hr Hh. intros x [(s & a & o & ->)|[(h & s & E & ->)| ->]]; eauto. now rewrite Rabs_R0. Qed.

Lemma err_mono : forall m n, (m <= n)%Z -> err u eta B L m <= err u eta B L n.
Proof using Rd rho0 depth_ok.
  intros m n H. unfold err. pose proof (round_u _ _ _ Rd) as Hu. pose proof (round_eta _ _ _ Rd) as He.
  assert (0 <= u * B). { apply Rmult_le_pos; [lra|]. apply Rmult_le_pos; auto. apply IZR_le. lia. }
  apply Rmult_le_compat_r; [lra|]. apply IZR_le. lia.
Qed.

Lemma rounded_values : forall n g s, areach seqb aeqb C alg n g s ->
  (forall d node x, nth_error (dh (mem (base s))) d = Some node -> nth_error (xds s) d = Some x ->
     err u eta B L (nnb x) <= B / 8 ->
     near_mean (err u eta B L (nnb x)) (pseudo C U) (dheur node) (returns_d d (etrace (base s))) (nnb x) (navg x)) /\
  (forall c x, nth_error (xcs s) c = Some x -> err u eta B L (nnb x) <= B / 8 ->
     near_mean (err u eta B L (nnb x)) 0 0 (returns_c c (etrace (base s))) (nnb x) (navg x)).
Proof using All.
  intros n g s R. destruct (over_reach seqb aeqb seqb_ok aeqb_ok C U _ _ sel smp n g s R) as (H1 & H2).
  destruct (args_tame seqb aeqb seqb_ok aeqb_ok C U _ _ sel smp depth_ok n g s R) as (T1 & T2 & T3). split.
  - intros d node x Hd Hx He. rewrite (H1 _ _ _ Hd Hx) in *. rewrite <- args_returns_d in *. set (l := args_d d _) in *.
    assert (E : start C U (rnd_ops rnd) (fun r => r) node = mkNx (pseudo C U) (dheur node) \/ 
                (start C U (rnd_ops rnd) (fun r => r) node = mkNx 0 0 /\ pseudo C U = 0%Z /\ dheur node = 0)).
    { unfold start, nx_new_d, pseudo. destruct (heuristic C) eqn:Eh; auto. right. split; auto. split; auto.
      pose proof (heur_wf _ _ _ _ R _ _ Hd) as W. rewrite Eh in W. exact W. }
    assert (E' : start C U (rnd_ops rnd) (fun r => r) node = mkNx (pseudo C U) (dheur node)).
    { destruct E as [E|(E & E1 & E2)]; auto. now rewrite E1, E2. }
    rewrite E' in *. pose proof (pseudo_pos _ _ C U pseudo_ok) as Pp.
    assert (Le : (Z.of_nat (length l) <= nnb (run (rnd_ops rnd) (mkNx (pseudo C U) (dheur node)) (rets (rnd_ops rnd) (fun r => r) l)))%Z).
    { rewrite run_nb. unfold rets. rewrite map_length. cbn [nnb]. lia. }
    pose proof (err_mono _ _ Le) as Em. eapply near_mean_weaken; [exact Em|].
    apply (run_near rnd u eta B rho L Rd ltac:(lia) rho0 eq_refl C depth_ok eq_refl env_bound); auto.
    + apply env_bound. eauto.
    + intros b Q. eapply T1; eauto.
    + lra.
  - intros c x Hx He. rewrite (H2 _ _ Hx) in *. rewrite <- args_returns_c in *. set (l := args_c c _) in *.
    assert (Le : (Z.of_nat (length l) <= nnb (run (rnd_ops rnd) (mkNx 0 (nzero (rnd_ops rnd))) (rets (rnd_ops rnd) (fun r => r) l)))%Z).
    { rewrite run_nb. unfold rets. rewrite map_length. cbn [nnb]. lia. }
    pose proof (err_mono _ _ Le) as Em. eapply near_mean_weaken; [exact Em|].
    apply (run_near rnd u eta B rho L Rd ltac:(lia) rho0 eq_refl C depth_ok eq_refl env_bound); auto.
    + lia.
    + cbn [nzero rnd_ops]; now rewrite Rabs_R0.
    + intros b Q. eapply T2; eauto.
    + lra.
Qed.
End Rounded.

Section Double.
Variable enc : R -> F.
Variable rho : R.
Hypothesis Env : double_env C enc rho.
Hypothesis rho_lo : powerRZ 2 (-900) <= rho.
Variable sel : @dnode S A -> nx F -> list (A * (@cnode S A * nx F)) -> rng R -> outcome (A * rng R).
Variable smp : @cnode S A -> rng R -> outcome (S * rng R).
Notation alg := (uct_over C U F_ops enc sel smp).
Notation L := (max_depth C + 1)%Z.

Lemma double_zero : double (S754_zero false).
Proof using Type. split; [reflexivity|exact Logic.I]. Qed.

(** A fresh decision node. *)
Lemma dstart : forall n g s, areach seqb aeqb C alg n g s -> forall d node, nth_error (dh (mem (base s))) d = Some node ->
  exists h, start C U F_ops enc node = mkNx (pseudo C U) h /\ double h /\ dval h = dheur node /\ Rabs (dheur node) <= rho.
Proof using seqb_ok aeqb_ok Env rho_lo depth_ok.
  intros n g s R d node Hd.
  destruct (args_tame seqb aeqb seqb_ok aeqb_ok C U _ _ sel smp depth_ok n g s R) as (_ & _ & T3).
  pose proof (heur_wf _ _ _ _ R _ _ Hd) as W. specialize (T3 _ _ Hd).
  destruct (env_num C enc rho Env rho_lo _ T3) as (E1 & E2 & E3).
  unfold start, nx_new_d, pseudo. destruct (heuristic C).
  - exists (enc (dheur node)). auto.
  - exists (S754_zero false). split; [reflexivity|]. split; [apply double_zero|]. split; auto. 
Qed.

Lemma derr_mono : 0 <= rho -> forall m n, (m <= n)%Z -> derr rho L m <= derr rho L n.
Proof using depth_ok.
  intros H0 m n H. unfold derr. apply Rmult_le_compat_r; [apply Rmult_le_pos; auto; apply IZR_le; lia|].
  apply Rmult_le_compat_r; [apply powerRZ_le; lra|]. apply IZR_le. lia.
Qed.

Lemma double_values : rho <= powerRZ 2 900 -> (max_depth C < 2 ^ 31)%Z -> forall n g s, areach seqb aeqb C alg n g s ->
  (forall d node x, nth_error (dh (mem (base s))) d = Some node -> nth_error (xds s) d = Some x -> (nnb x <= 2 ^ 31)%Z ->
     double (navg x) /\
     near_mean (derr rho L (nnb x)) (pseudo C U) (dheur node) (returns_d d (etrace (base s))) (nnb x) (dval (navg x))) /\
  (forall c x, nth_error (xcs s) c = Some x -> (nnb x <= 2 ^ 31)%Z ->
     double (navg x) /\
     near_mean (derr rho L (nnb x)) 0 0 (returns_c c (etrace (base s))) (nnb x) (dval (navg x))).
Proof using All.
  intros Hhi HL n g s R. destruct (over_reach seqb aeqb seqb_ok aeqb_ok C U _ _ sel smp n g s R) as (H1 & H2).
  destruct (args_tame seqb aeqb seqb_ok aeqb_ok C U _ _ sel smp depth_ok n g s R) as (T1 & T2 & T3).
  pose proof (rho_pos rho rho_lo) as R0. pose proof (pseudo_pos _ _ C U pseudo_ok) as Pp. split.
  - intros d node x Hd Hx Hn. rewrite (H1 _ _ _ Hd Hx) in *. rewrite <- args_returns_d. set (l := args_d d _) in *.
    destruct (dstart _ _ _ R _ _ Hd) as (h & E & Dh & <- & Hh). rewrite E in *.
    assert (Ln : nnb (run F_ops (mkNx (pseudo C U) h) (rets F_ops enc l)) = (pseudo C U + Z.of_nat (length l))%Z).
    { rewrite run_nb. unfold rets. now rewrite map_length. }
    rewrite Ln in Hn.
    destruct (drun_near C enc rho L depth_ok eq_refl Env rho_lo Hhi ltac:(lia) (pseudo C U) h l) as (Q1 & Q2); auto.
    { intros b Q. eapply T1; eauto. }
    split; auto. eapply near_mean_weaken; [|exact Q2]. apply derr_mono; [lra|]. rewrite Ln. lia.
  - intros c x Hx Hn. rewrite (H2 _ _ Hx) in *. rewrite <- args_returns_c. set (l := args_c c _) in *.
    assert (Ln : nnb (run F_ops (mkNx 0 (nzero F_ops)) (rets F_ops enc l)) = (0 + Z.of_nat (length l))%Z).
    { rewrite run_nb. unfold rets. now rewrite map_length. }
    rewrite Ln in Hn.
    destruct (drun_near C enc rho L depth_ok eq_refl Env rho_lo Hhi ltac:(lia) 0 (nzero F_ops) l) as (Q1 & Q2); auto; try lia.
    { apply double_zero. }
    { cbn. rewrite Rabs_R0. lra. }
    { intros b Q. eapply T2; eauto. }
    split; auto. eapply near_mean_weaken; [|exact Q2]. apply derr_mono; [lra|]. rewrite Ln. lia.
Qed.

(** Ranges. *)
Lemma rets_afters_d : forall d (tr : list (nat * @event S A)), rets F_ops enc (args_d d tr) = map (fun l => ret_after F_ops (map enc l)) (afters_d d tr).
Proof using Type. intros d tr. rewrite <- args_afters_d, map_map. reflexivity. Qed.
Lemma rets_afters_c : forall c (tr : list (nat * @event S A)), rets F_ops enc (args_c c tr) = map (fun l => ret_after F_ops (map enc l)) (afters_c c tr).
Proof using Type. intros c tr. rewrite <- args_afters_c, map_map. reflexivity. Qed.

Lemma double_range : forall lo hi, - powerRZ 2 1000 <= lo -> hi <= powerRZ 2 1000 -> forall n g s, areach seqb aeqb C alg n g s ->
  (forall d node x, nth_error (dh (mem (base s))) d = Some node -> nth_error (xds s) d = Some x -> (nnb x <= 2 ^ 52)%Z ->
     (forall after, In after (afters_d d (etrace (base s))) -> in_range lo hi (ret_after F_ops (map enc after))) ->
     (1 <= pseudo C U)%Z /\ lo <= dheur node <= hi \/ dheur node = 0 /\ pseudo C U = 0%Z /\ afters_d d (etrace (base s)) <> [] ->
     in_range lo hi (navg x)) /\
  (forall c x, nth_error (xcs s) c = Some x -> (nnb x <= 2 ^ 52)%Z ->
     (forall after, In after (afters_c c (etrace (base s))) -> in_range lo hi (ret_after F_ops (map enc after))) ->
     afters_c c (etrace (base s)) <> [] -> in_range lo hi (navg x)).
Proof using All.
  intros lo hi Hlo Hhi n g s R. destruct (over_reach seqb aeqb seqb_ok aeqb_ok C U _ _ sel smp n g s R) as (H1 & H2).
  pose proof (pseudo_pos _ _ C U pseudo_ok) as Pp. split.
  - intros d node x Hd Hx Hn Hr Hs. rewrite (H1 _ _ _ Hd Hx) in *.
    destruct (dstart _ _ _ R _ _ Hd) as (h & E & Dh & Eh & Hh). rewrite E in *. rewrite rets_afters_d in *.
    rewrite run_nb in Hn. cbn [nnb] in Hn. apply range_run; auto.
    + intros f Q. apply in_map_iff in Q. destruct Q as (a & <- & Q). now apply Hr.
    + rewrite Eh. destruct Hs as [Hs|(Q1 & Q2 & Q3)]; [auto|]. right. repeat split; auto. intros Q. now apply map_eq_nil in Q.
  - intros c x Hx Hn Hr Hs. rewrite (H2 _ _ Hx) in *. rewrite rets_afters_c in *.
    rewrite run_nb in Hn. cbn [nnb] in Hn. apply range_run; auto; try lia.
    + apply double_zero.
    + intros f Q. apply in_map_iff in Q. destruct Q as (a & <- & Q). now apply Hr.
    + right. repeat split; auto. intros Q. now apply map_eq_nil in Q.
Qed.

(** Integer rewards: computed returns are the true returns. *)
Lemma int_after : forall M after r, (1 <= M)%Z -> (forall st a o, exists z, rwd C st a o = IZR z /\ (Z.abs z <= M)%Z) ->
  (forall h st, heuristic C = Some h -> exists z, h st = IZR z /\ (Z.abs z <= M)%Z) ->
  ((max_depth C + 1) * M <= 2 ^ 52)%Z -> (max_depth C < 2 ^ 31)%Z -> rho = IZR M -> tame_list C after r ->
  double (ret_after F_ops (map enc after)) /\ dval (ret_after F_ops (map enc after)) = r.
Proof using Env depth_ok.
  intros M after r HM Ir Ih Hs HL Er (-> & Hl & Hx).
  assert (Hz : forall x, In x after -> exists z, x = IZR z /\ (Z.abs z <= M)%Z).
  { intros x Q. destruct (Hx x Q) as [(st & a & o & ->)|[(h & st & E & ->)| ->]]; eauto. exists 0%Z. split; auto. cbn; lia. }
  assert (R1 : 1 <= rho) by (rewrite Er; now apply IZR_le).
  assert (R2 : rho <= powerRZ 2 900).
  { rewrite Er. apply Rle_trans with (IZR (2 ^ 52)); [apply IZR_le; nia|]. rewrite (zpow 52) by lia. apply pow_mono. lia. }
  assert (R3 : powerRZ 2 (-900) <= rho).
  { apply Rle_trans with (powerRZ 2 0); [apply pow_mono; lia|]. rewrite powerRZ_O. exact R1. }
  pose proof (B_large C rho (max_depth C + 1) depth_ok eq_refl R3 R2 ltac:(lia)) as BL.
  pose proof (L_pos C (max_depth C + 1) depth_ok eq_refl ltac:(lia)) as Lp.
  pose proof (eta_B C rho (max_depth C + 1) depth_ok eq_refl R3 ltac:(lia)) as Eb.
  set (B := IZR (max_depth C + 1) * rho) in *.
  assert (B0 : 0 <= B) by (apply Rmult_le_pos; lra).
  assert (Ln : IZR (Z.of_nat (length after)) <= IZR (max_depth C + 1)) by (apply IZR_le; lia).
  assert (L0 : 0 <= IZR (Z.of_nat (length after))) by (apply IZR_le; lia).
  destruct (sum_double B rho ltac:(lra) ltac:(lra) (map enc after)) as (D & E); rewrite ?map_length.
  - apply Rmult_le_compat_r; lra.
  - pose proof (round_u _ _ _ near_rounding). assert (0 <= u64 * B) by (apply Rmult_le_pos; lra).
    pose proof (round_eta _ _ _ near_rounding).
    apply Rle_trans with (powerRZ 2 31 * (3 * (u64 * B))).
    { apply Rmult_le_compat; lra. }
    replace (powerRZ 2 31 * (3 * (u64 * B))) with (3 * (powerRZ 2 31 * u64) * B) by ring.
    rewrite <- (Rmult_1_l B) at 2. apply Rmult_le_compat_r; auto. unfold u64. rewrite <- powerRZ_add by lra.
    apply Rle_trans with (3 * powerRZ 2 (-2)); [apply Rmult_le_compat_l; [lra|apply pow_mono; lia]|].
    change (powerRZ 2 (-2)) with (/ 2 ^ 2). cbn [pow]. lra.
  - intros x Q. apply in_map_iff in Q. destruct Q as (y & <- & Q). destruct (env_num C enc rho Env R3 y (Hx y Q)) as (Q1 & Q2 & Q3). rewrite Q2. auto.
  - split; auto. rewrite E. rewrite map_map.
    replace (map (fun x => dval (enc x)) after) with after.
    2: { rewrite <- (map_id after) at 1. apply map_ext_in. intros y Q. symmetry. apply (env_num C enc rho Env R3). auto. }
    apply (int_sum M after Hz). nia.
Qed.

Lemma tame_afters : forall n g s, areach seqb aeqb C alg n g s ->
  (forall d after, In after (afters_d d (etrace (base s))) -> tame_list C after (rsum after) /\ In (rsum after) (returns_d d (etrace (base s)))) /\
  (forall c after, In after (afters_c c (etrace (base s))) -> tame_list C after (rsum after) /\ In (rsum after) (returns_c c (etrace (base s)))).
Proof using seqb_ok aeqb_ok depth_ok.
  intros n g s R. destruct (args_tame seqb aeqb seqb_ok aeqb_ok C U _ _ sel smp depth_ok n g s R) as (T1 & T2 & _). split.
  - intros d after Q. rewrite <- args_afters_d in Q. apply in_map_iff in Q. destruct Q as (b & <- & Q).
    rewrite <- args_returns_d. pose proof (T1 _ _ Q) as T. pose proof T as (E & _). rewrite <- E. split; auto. now apply in_map.
  - intros d after Q. rewrite <- args_afters_c in Q. apply in_map_iff in Q. destruct Q as (b & <- & Q).
    rewrite <- args_returns_c. pose proof (T2 _ _ Q) as T. pose proof T as (E & _). rewrite <- E. split; auto. now apply in_map.
Qed.
Lemma afters_nil : forall d (tr : list (nat * @event S A)), afters_d d tr = [] -> returns_d d tr = [].
Proof using Type. intros d tr. rewrite <- args_afters_d, <- args_returns_d. intros E. apply map_eq_nil in E. now rewrite E. Qed.
Lemma afters_nil_c : forall d (tr : list (nat * @event S A)), afters_c d tr = [] -> returns_c d tr = [].
Proof using Type. intros d tr. rewrite <- args_afters_c, <- args_returns_c. intros E. apply map_eq_nil in E. now rewrite E. Qed.
End Double.
End Results.
