(** Searches of MENTS and its relatives: failures and completion, for any member of the family. *)
From Coq Require Import List ZArith Bool Reals Lia Lra Permutation.
From Verif Require Import QuietSpec AlgoFinish Base BaseProofs NumOps RLemmas HelperModel HelperSpec HelperProofs EngineModel EngineSpec EngineProofs
  EngineInv MapModel MapProofs AlgoModel AlgoProofs AlgoTheorems AlgoNodes AlgoSafe UctModel MentsModel SoftSpec SoftProofs
  MentsSpec MentsProofs MentsPolicy MentsRun.
Import ListNotations.
Open Scope R_scope.

Section And.
Context {S A : Type}.
Variable C : @econf S A.
Variable G : @algo S A.
Notation dnode := (@dnode S A).
Notation cnode := (@cnode S A).
Variables PD1 PD2 : dnode -> XD G -> Prop.
Variables PC1 PC2 : cnode -> XC G -> Prop.
Variables PX1 PX2 : list A -> CX G -> Prop.
Variables QC1 QC2 : cnode -> XC G -> Prop.
(** Invariants can be combined. *)
Lemma rules_and : node_rules C G PD1 PC1 PX1 QC1 -> node_rules C G PD2 PC2 PX2 QC2 ->
  node_rules C G (fun n x => PD1 n x /\ PD2 n x) (fun n x => PC1 n x /\ PC2 n x) (fun l cx => PX1 l cx /\ PX2 l cx)
    (fun n x => QC1 n x /\ QC2 n x).
Proof.
  intros [A1 A2 A3 A4 A5 A6 A7 A8 A9 A10 A11 A12 A13 A14 A15 A16 A17] [B1 B2 B3 B4 B5 B6 B7 B8 B9 B10 B11 B12 B13 B14 B15 B16 B17].
  assert (Kd : forall n kids, dkids_ok C G (fun n x => PC1 n x /\ PC2 n x) n kids -> dkids_ok C G PC1 n kids /\ dkids_ok C G PC2 n kids).
  { intros n kids [N K]. split; (split; [exact N|]); intros a c y Q; destruct (K a c y Q) as (K1 & K2 & K3); auto. }
  assert (Kc : forall n kids, ckids_ok C G (fun n x => PD1 n x /\ PD2 n x) n kids -> ckids_ok C G PD1 n kids /\ ckids_ok C G PD2 n kids).
  { intros n kids [N K]. split; (split; [exact N|]); intros a c y Q; destruct (K a c y Q) as (K1 & K2 & K3); auto. }
  assert (Sd : forall n a cx, sees_d C G (fun n x => PC1 n x /\ PC2 n x) (fun n x => QC1 n x /\ QC2 n x) n a cx ->
    sees_d C G PC1 QC1 n a cx /\ sees_d C G PC2 QC2 n a cx).
  { intros n a cx Se. split; intros v J; destruct (Se v J) as [K (c & y & H & H1 & H2)]; destruct (Kd _ _ K); eauto. }
  assert (Sc : forall n cx, sees_c C G (fun n x => PD1 n x /\ PD2 n x) n cx -> sees_c C G PD1 n cx /\ sees_c C G PD2 n cx).
  { intros n cx Se. split; intros v J; destruct (Kc _ _ (Se v J)); auto. }
  constructor.
  - auto.
  - intros; split; auto.
  - intros; split; auto.
  - intros n x [P Q]. split; auto.
  - intros n x a c [P Q]. split; auto.
  - intros n x [P Q]. split; auto.
  - intros n x o d [P Q]. split; auto.
  - intros n x kids cx b x1 l a l' I [P Q] K [X Y] D (c & y & H & H1 & H2) Se E. destruct (Kd _ _ K), (Sd _ _ _ Se). split; [eapply A8|eapply B8]; eauto.
  - intros n x kids cx b x1 I [P Q] K Se E. destruct (Kc _ _ K), (Sc _ _ Se). destruct (A9 n x kids cx b x1), (B9 n x kids cx b x1); auto.
  - intros n x [P Q]. split; auto.
  - intros n x o d [P Q]. split; auto.
  - auto.
  - intros n x kids cx g a cx1 g1 l I [P Q] K [X Y] D E. destruct (Kd _ _ K). split; [eapply A13|eapply B13]; eauto.
  - intros n x cx g o cx1 g1 l I [P Q] [X Y] E. split; [eapply A14|eapply B14]; eauto.
  - intros kids cx cx1 l [X Y] E. split; eauto.
  - intros kids cx cx1 l [X Y] E. split; eauto.
  - intros cx l [X Y]. split; eauto.
Qed.
End And.

Section Family.
Context {S A : Type}.
Variable seqb : S -> S -> bool.
Variable aeqb : A -> A -> bool.
Hypothesis seqb_ok : decides seqb.
Hypothesis aeqb_ok : decides aeqb.
Variable C : @econf S A.
Variable M : @mconf S A.
Notation dnode := (@dnode S A).
Notation cnode := (@cnode S A).
Hypothesis Env : env_ok C M.
Hypothesis Pr : prior_ok C M.
Hypothesis Ex : explore_ok M.
Variable N : R.
Hypothesis Few : few_actions C N.
Variable G : @algo S A.
Notation areach := (areach seqb aeqb C G).
Variable PD : dnode -> XD G -> Prop.
Variable PC : cnode -> XC G -> Prop.
Variable PX : list A -> CX G -> Prop.
Variable QC : cnode -> XC G -> Prop.
Hypothesis Rules : node_rules C G PD PC PX QC.
Hypothesis Vis : forall n x, PD n x -> (0 <= dvisits n)%Z.
(** Selections fail only if the draw falls on lost probability. *)
Definition fam_bad (n : dnode) (x : XD G) (kids : list (A * (cnode * XC G))) (cx : CX G) (g : rng R) : Prop :=
  exists d, lost_draw aeqb C M n d g.
Hypothesis Safe : safe_rules C G PD PC PX QC fam_bad.

Lemma fam_failures : forall n g s, good_ints g -> good_reals g -> areach n g s -> afail s <> None ->
  exists d node, nth_error (dh (mem (base s))) d = Some node /\ is_sink C (dstate node) = false /\
    1 - INR (length (acts C (dstate node))) / IZR (10 ^ 16) <= gr (rg s) (nr (rg s)) /\
    explore_rate M (visit_d node) < INR (length (acts C (dstate node))) / IZR (10 ^ 16).
Proof using All.
  intros n g s Gi Gr R F. destruct (failed seqb aeqb seqb_ok aeqb_ok C G _ _ _ R F) as (s0 & f & R0 & F0 & Rs & ->).
  pose proof (fail_why seqb aeqb seqb_ok aeqb_ok C G _ _ _ _ _ Rules Safe _ _ _ Gi Gr R0 Rs) as
    (t & cur & flag & nodes & rewards & m & x & cx & _ & Hm & Hx & _ & Hc & (dd & Bd)).
  pose proof (streams seqb aeqb seqb_ok aeqb_ok C G _ _ _ _ _ Rules Safe _ _ _ Gi Gr R0) as St.
  destruct (good_stream _ _ St Gi Gr) as [_ Gr0].
  pose proof (areach_good seqb aeqb seqb_ok aeqb_ok C G _ _ _ R0) as I.
  destruct (cont_inner seqb aeqb C G _ _ _ _ I Hm Hc) as (Ns & _).
  pose proof (Vis _ _ (no_d _ _ _ _ _ _ _ _ (nodes_reach seqb aeqb seqb_ok aeqb_ok C G _ _ _ _ Rules _ _ _ R0) _ _ _ Hm Hx)) as Hv.
  exists cur, m. split; [exact Hm|]. split; auto.
  assert (Hv' : (0 <= dvisits (visit_d m))%Z) by (cbn [visit_d dvisits]; lia).
  assert (NE : acts C (dstate (visit_d m)) <> []) by (now apply Env).
  destruct (lost_needs aeqb aeqb_ok C M Pr Ex Env (visit_d m) _ (rg s0) Hv' NE Gr0 Bd) as [L1 L2].
  change (dstate (visit_d m)) with (dstate m) in *. unfold ments_eps in *. cbn [rg adie]. split; unfold Rdiv in *; lra.
Qed.

Lemma fam_visits : forall n g s d node, areach n g s -> nth_error (dh (mem (base s))) d = Some node -> (0 <= dvisits node)%Z.
Proof using All.
  intros n g s d node R Hd. pose proof (areach_good seqb aeqb seqb_ok aeqb_ok C G _ _ _ R) as I.
  assert (X : exists y, nth_error (xds s) d = Some y).
  { pose proof I as [_ _ Ld _ _]. destruct (nth_error (xds s) d) eqn:Z; [eauto|]. apply nth_error_None in Z.
    assert (d < length (dh (mem (base s))))%nat by (apply nth_error_Some; congruence). lia. }
  destruct X as (y & Hy). eapply Vis. exact (no_d _ _ _ _ _ _ _ _ (nodes_reach seqb aeqb seqb_ok aeqb_ok C G _ _ _ _ Rules _ _ _ R) _ _ _ Hd Hy).
Qed.

(** Exploration prevents failures up to a number of visits. *)
Lemma fam_explores : forall e V, 0 < e -> e <= meps M -> (mroot_eps M <= 0 \/ e <= mroot_eps M) -> (0 <= V)%Z ->
  N * ln (IZR V + 2) / IZR (10 ^ 16) <= e -> N / IZR (10 ^ 16) <= mmax_explore M ->
  forall n g s, good_ints g -> good_reals g -> areach n g s ->
  (forall d node, nth_error (dh (mem (base s))) d = Some node -> (dvisits node <= V)%Z) -> afail s = None.
Proof using All.
  intros e V He L1 L2 HV Le Lm n g s Gi Gr R Bv. destruct (afail s) eqn:F; auto. exfalso.
  destruct (fam_failures n g s Gi Gr R ltac:(congruence)) as (d & node & Hd & Ns & _ & L). specialize (Bv _ _ Hd).
  pose proof (fam_visits _ _ _ _ _ R Hd) as Hv.
  assert (E16 : 0 < IZR (10 ^ 16)) by (apply IZR_lt; reflexivity).
  assert (A1 : INR (length (acts C (dstate node))) / IZR (10 ^ 16) <= N / IZR (10 ^ 16)).
  { unfold Rdiv. apply Rmult_le_compat_r; [left; now apply Rinv_0_lt_compat|apply Few]. }
  assert (N1 : 1 <= N) by apply Few.
  assert (Ne : e <= node_eps M (visit_d node)).
  { unfold node_eps. destruct (Z.eq_dec _ _), (Rlt_dec 0 (mroot_eps M)); lra. }
  unfold explore_rate in L. cbn [visit_d dvisits] in L. destruct (Z.eq_dec (dvisits node + 1) 0) as [?|_]; [lia|].
  assert (Hv1 : 0 <= IZR (dvisits node)) by (now apply IZR_le).
  assert (Hv2 : IZR (dvisits node) <= IZR V) by (now apply IZR_le).
  rewrite plus_IZR in L.
  assert (P : 0 < ln (IZR (dvisits node) + 1 + 1)) by (rewrite <- ln_1; apply ln_increasing; lra).
  assert (P2 : ln (IZR (dvisits node) + 1 + 1) <= ln (IZR V + 2)).
  { destruct (Req_dec (IZR (dvisits node)) (IZR V)) as [->|]; [right; f_equal; lra|left; apply ln_increasing; lra]. }
  assert (A2 : N / IZR (10 ^ 16) <= node_eps M (visit_d node) / ln (IZR (dvisits node) + 1 + 1)).
  { apply Rle_trans with (N * ln (IZR V + 2) / IZR (10 ^ 16) / ln (IZR (dvisits node) + 1 + 1)).
    - apply Rmult_le_reg_r with (ln (IZR (dvisits node) + 1 + 1)); auto.
      replace (N * ln (IZR V + 2) / IZR (10 ^ 16) / ln (IZR (dvisits node) + 1 + 1) * ln (IZR (dvisits node) + 1 + 1))
        with (N / IZR (10 ^ 16) * ln (IZR V + 2)) by (field; lra).
      apply Rmult_le_compat_l; auto. apply Rmult_le_pos; [lra|left; now apply Rinv_0_lt_compat].
    - apply Rmult_le_compat_r; [left; now apply Rinv_0_lt_compat|]. lra. }
  revert L. apply Rle_not_lt. apply Rle_trans with (N / IZR (10 ^ 16)); auto. apply Rmin_glb; auto.
Qed.

(** So do draws that stay away from one. *)
Lemma fam_low_draws : forall n g, good_ints g -> good_reals g -> (forall i, gr g i < 1 - N / IZR (10 ^ 16)) ->
  forall s, areach n g s -> afail s = None.
Proof using All.
  intros n g Gi Gr Lo s R. destruct (afail s) eqn:F; auto. exfalso.
  destruct (fam_failures n g s Gi Gr R ltac:(congruence)) as (d & node & Hd & Ns & L & _).
  pose proof (streams seqb aeqb seqb_ok aeqb_ok C G _ _ _ _ _ Rules Safe _ _ _ Gi Gr R) as [_ St]. rewrite St in L.
  specialize (Lo (nr (rg s))).
  assert (A1 : INR (length (acts C (dstate node))) / IZR (10 ^ 16) <= N / IZR (10 ^ 16)).
  { unfold Rdiv. apply Rmult_le_compat_r; [left; apply Rinv_0_lt_compat, IZR_lt; reflexivity|apply Few]. }
  lra.
Qed.
Lemma fam_completes : forall r, looks_at_most G r -> forall n g, good_ints g -> good_reals g -> (forall i, gr g i < 1 - N / IZR (10 ^ 16)) -> (0 < n)%nat ->
  forall k, exists s, areach n g s /\ quiet (base s) /\ count is_done (etrace (base s)) = Z.of_nat k.
Proof using All.
  intros r Lk n g Gi Gr Lo Hn. apply (C61_algorithm_completes seqb aeqb seqb_ok aeqb_ok C G n g r Lk (eo_depth _ _ Env) Hn).
  intros s R. eapply fam_low_draws; eauto.
Qed.
End Family.
