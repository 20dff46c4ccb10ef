(** Dynamic programming values in searches. *)
From Coq Require Import List ZArith Bool Reals Lia Lra Permutation.
From Verif Require Import Base BaseProofs NumOps RLemmas HelperModel HelperSpec HelperProofs EngineModel EngineSpec EngineProofs
  EngineInv MapModel MapProofs AlgoModel AlgoProofs AlgoTheorems AlgoNodes AlgoSafe UctModel MentsModel SoftSpec SoftProofs
  MentsSpec SoftResults DentsSpec.
Import ListNotations.
Open Scope R_scope.

Section Dp.
Context {S A : Type}.
Variable C : @econf S A.
Variable M : @mconf S A.
Notation dnode := (@dnode S A).
Notation cnode := (@cnode S A).
Hypothesis Env : env_ok C M.
Variables hl hu rl ru : R.
Hypothesis Rg : range_ok C M hl hu rl ru.
Notation lo := (least_left C hl rl).
Notation hi := (most_left C hu ru).

Lemma lo_step : forall k, lo k = lo (k + 1) + rl.
Proof using Type. intros k. unfold least_left. rewrite !minus_IZR, plus_IZR. ring. Qed.
Lemma hi_step : forall k, hi k = hi (k + 1) + ru.
Proof using Type. intros k. unfold most_left. rewrite !minus_IZR, plus_IZR. ring. Qed.
Lemma lo_zero : forall k, (k <= max_depth C)%Z -> lo k <= hl.
Proof using Rg.
  intros k H. unfold least_left. destruct Rg as [_ R0 _ _]. assert (0 <= IZR (max_depth C - k)) by (apply IZR_le; lia). nra.
Qed.
Lemma hi_zero : forall k, (k <= max_depth C)%Z -> hu <= hi k.
Proof using Rg.
  intros k H. unfold most_left. destruct Rg as [_ R0 _ _]. assert (0 <= IZR (max_depth C - k)) by (apply IZR_le; lia). nra.
Qed.

Definition vd_ok (n : dnode) (v : vmem) : Prop :=
  (0 <= dvisits n)%Z /\ (0 <= ddepth n <= max_depth C)%Z /\ (1 <= v_nb v)%Z /\ lo (ddepth n) <= v_val v <= hi (ddepth n).
Definition vc_ok (n : cnode) (v : vmem) : Prop :=
  (0 <= cdepth n < max_depth C)%Z /\ (0 <= v_nb v)%Z /\ lo (cdepth n) <= v_val v <= hi (cdepth n).

Lemma vd_new : forall s k t, (0 <= k <= max_depth C)%Z -> vd_ok (new_dnode C s k t) (dp_new_d (new_dnode C s k t)).
Proof using Env Rg.
  intros s k t Hk. unfold vd_ok. cbn [new_dnode dvisits ddepth dp_new_d v_nb v_val dheur].
  split; [apply Env|]. split; auto. split; [lia|]. pose proof (lo_zero k (proj2 Hk)). pose proof (hi_zero k (proj2 Hk)).
  destruct Rg as [R0 _ Rh _]. destruct (heuristic C) as [h|]; [|lra]. destruct (is_sink C s); [lra|].
  specialize (Rh h s eq_refl). lra.
Qed.
Lemma vc_new : forall n a, inner C n -> vc_ok (new_cnode (dstate n) a (ddepth n) (dtime n)) dp_new_c.
Proof using Rg.
  intros n a (_ & Hd & _). unfold vc_ok. cbn. split; auto. split; [lia|].
  pose proof (lo_zero (ddepth n) ltac:(lia)). pose proof (hi_zero (ddepth n) ltac:(lia)). destruct Rg as [R0 _ _ _]. lra.
Qed.
Lemma vd_visit : forall n v leaf, vd_ok n v -> vd_ok (visit_d n) (dp_visit leaf v).
Proof using Type.
  intros n v leaf (H1 & H2 & H3 & H4). unfold vd_ok, dp_visit. cbn [visit_d dvisits ddepth].
  destruct leaf; cbn [v_nb v_val]; (split; [lia|]); (split; [lia|]); (split; [lia|]); auto.
Qed.
Lemma vd_backup : forall n x (kids : list (A * vmem)), inner C n -> vd_ok n x ->
  (forall a y, In (a, y) kids -> (0 <= v_nb y)%Z /\ lo (ddepth n) <= v_val y <= hi (ddepth n)) ->
  (exists a y, In (a, y) kids /\ (1 <= v_nb y)%Z) -> exists x1, dp_backup_d M n x kids = Ok x1 /\ vd_ok n x1.
Proof using Type.
  intros n x kids In1 (H1 & H2 & H3 & H4) Hk (a & y & I & P).
  destruct (C39_backup' M n x kids) as (v & E & Q).
  - intros b z Ib. now apply (Hk b z).
  - exists a, y. split; auto. lia.
  - rewrite E. eexists. split; [reflexivity|]. unfold vd_ok. cbn [v_nb v_val]. split; auto. split; auto. split; [lia|].
    cbv zeta in Q. assert (X : exists k, In (k, v) (map (fun k => (v_nb (snd k), v_val (snd k))) kids) /\ (0 < k)%Z).
    { destruct (opponent M n); apply Q. }
    destruct X as (k & X & _). apply in_map_iff in X. destruct X as ([b z] & [= <- <-] & Ib). exact (proj2 (Hk b z Ib)).
Qed.
Lemma vc_backup : forall n x (kids : list (S * vmem)), innerc C n -> vc_ok n x ->
  (forall o y, In (o, y) kids -> (1 <= v_nb y)%Z /\ lo (cdepth n + 1) <= v_val y <= hi (cdepth n + 1)) ->
  vc_ok n (dp_backup_c M n x kids) /\ (1 <= v_nb (dp_backup_c M n x kids))%Z.
Proof using Rg.
  intros n x kids (_ & Hd & _) (H1 & H2 & H3) Hk.
  destruct (C38_dp' M n x kids) as (v & W & ->); [intros o y Q; destruct (Hk o y Q); lia|].
  unfold vc_ok. cbn [v_nb v_val]. split; [|lia]. split; auto. split; [lia|]. rewrite lo_step, hi_step.
  pose proof (ra_reward _ _ _ _ _ _ Rg (cstate n) (cact n)).
  assert (lo (cdepth n + 1) <= v <= hi (cdepth n + 1)); [|lra].
  destruct kids as [|[o y] kids].
  - destruct W as [W _]. rewrite W by reflexivity. pose proof (lo_zero (cdepth n + 1) ltac:(lia)). pose proof (hi_zero (cdepth n + 1) ltac:(lia)).
    destruct Rg as [R0 _ _ _]. lra.
  - eapply weighted_mean_between; [| exact W| |].
    + apply kids_counts. intros o' y' Q. destruct (Hk _ _ Q). lia.
    + exists (v_nb y), (v_val y). split; [now left|]. destruct (Hk o y (or_introl eq_refl)). lia.
    + intros k z Q _. apply in_map_iff in Q. destruct Q as ([o' y'] & [= <- <-] & Q). exact (proj2 (Hk _ _ Q)).
Qed.

(** ** Algorithms that keep such values *)
Section Part.
Variable G : @algo S A.
Variable vD : XD G -> vmem.
Variable vC : XC G -> vmem.
Record dp_part : Prop := mkPart {
  D_new : forall n, vD (new_xd G n) = dp_new_d n;
  D_newc : forall n, vC (new_xc G n) = dp_new_c;
  D_vis : forall leaf x, vD (vis_d G leaf x) = dp_visit leaf (vD x);
  D_back : forall n x kids cx b x1, back_d G n x kids cx b = Ok x1 -> dp_backup_d M n (vD x) (members vC kids) = Ok (vD x1);
  D_backc : forall n x kids cx b x1, back_c G n x kids cx b = Ok x1 -> vC x1 = dp_backup_c M n (vC x) (members vD kids)
}.
Hypothesis Dp : dp_part.
Definition any_cx (l : list A) (cx : CX G) : Prop := True.
Definition dp_d (n : dnode) (x : XD G) : Prop := vd_ok n (vD x).
Definition dp_c (n : cnode) (x : XC G) : Prop := vc_ok n (vC x).
Definition dp_q (n : cnode) (x : XC G) : Prop := (1 <= v_nb (vC x))%Z.

Lemma dp_backs : forall n x kids, inner C n -> dp_d n x -> dkids_ok C G dp_c n kids ->
  (exists a c y, In (a, (c, y)) kids /\ dp_q c y) -> exists x1, dp_backup_d M n (vD x) (members vC kids) = Ok x1 /\ vd_ok n x1.
Proof using Type.
  intros n x kids In1 P [_ K] (a & c & y & Q & L). apply vd_backup; auto.
  - intros b z Iz. unfold members in Iz. apply in_map_iff in Iz. destruct Iz as ([b' [c' y']] & [= <- <-] & Iz).
    destruct (K _ _ _ Iz) as ((_ & Hd & _) & (P1 & P2 & P3)). cbn. rewrite Hd in P3. auto.
  - exists a, (vC y). split; auto. unfold members. apply in_map_iff. exists (a, (c, y)). auto.
Qed.
Lemma dp_rules : node_rules C G dp_d dp_c any_cx dp_q.
Proof using All.
  constructor; unfold dp_d, dp_c, dp_q; try (intros; exact I).
  - rewrite (D_new Dp). apply vd_new. split; [lia|apply Env].
  - intros c o (_ & H & _) _. rewrite (D_new Dp). apply vd_new. lia.
  - intros n a H _. rewrite (D_newc Dp). now apply vc_new.
  - intros n x P. rewrite (D_vis Dp). now apply vd_visit.
  - auto.
  - auto.
  - auto.
  - intros n x kids cx b x1 l a l' In1 P K _ _ (c & y & Q & L) _ E. apply (D_back Dp) in E.
    destruct (dp_backs n x kids In1 P K) as (x2 & E2 & P2); [now exists a, c, y|]. congruence.
  - intros n x kids cx b x1 In1 P [_ K] _ E. apply (D_backc Dp) in E. rewrite E. apply vc_backup; auto.
    intros o y Q. unfold members in Q. apply in_map_iff in Q. destruct Q as ([o' [d' y']] & [= <- <-] & Q).
    destruct (K _ _ _ Q) as ((_ & Hd & _) & (P1 & P2 & P3 & P4)). cbn. rewrite Hd in P4. auto.
  - auto.
  - auto.
Qed.
End Part.
End Dp.
