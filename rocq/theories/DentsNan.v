(** A DENTS search without exploration fails in its second trial. *)
From Coq Require Import List ZArith Bool Reals Lia Lra Permutation.
From Verif Require Import Base BaseProofs NumOps RLemmas HelperModel HelperSpec HelperProofs EngineModel EngineSpec EngineProofs
  EngineInv MapModel MapProofs AlgoModel AlgoProofs AlgoTheorems AlgoNodes AlgoSafe UctModel UctTheorems MentsModel SoftSpec SoftProofs
  MentsSpec MentsProofs MentsPolicy MentsRun SoftResults DentsSpec DpRun FamilyRun DbRun DentsRun.
Import ListNotations.
Open Scope R_scope.

(** One state with one action that leads back to it; trials of length one. *)
Definition ueqb (_ _ : unit) : bool := true.
Lemma unit_decides : decides ueqb.
Proof. intros [] []. split; auto. Qed.
Definition nan_conf : @econf unit unit :=
  mkConf (fun _ => false) (fun _ => [Datatypes.tt]) (fun _ _ => [Datatypes.tt]) (fun _ _ _ => 0) None 1 false false 0 Datatypes.tt 0.

(** Settings without exploration, otherwise usual. *)
Definition nan_ments : @mconf unit unit :=
  mkM 1 (-1) 0 (-1) 1 None (1/10) 1 (-1) 0 false 0 0 false None false (fun _ _ => 0)
      (fun _ _ => [(Datatypes.tt, 1)]) (fun V m => m) None 1 (1/10) 1 (-1) true.
Section Second.
Notation G := (dents ueqb nan_conf nan_ments).
Variable g : rng R.
Notation n0 := (new_dnode nan_conf Datatypes.tt 0 0).
Notation n1 := (visit_d n0).
Notation c0 := (new_cnode Datatypes.tt Datatypes.tt 0 0).
Notation d1 := (new_dnode nan_conf Datatypes.tt 1 1).
Notation n2 := (add_dkid n1 Datatypes.tt 0%nat).
Notation c1 := (add_ckid (visit_c c0) Datatypes.tt 1%nat).
Variable Bad : XC G -> Prop.
Variables g1 g2 : rng R.
Notation kc := [(Datatypes.tt, (visit_d d1, vis_d G true (new_xd G d1)))].
Notation kd := (fun y => [(Datatypes.tt, (c1, y))]).
Hypothesis H1 : select G n1 (vis_d G false (new_xd G n0)) [] ([], []) g = Ok (Datatypes.tt, ([], []), g1).
Hypothesis H2 : sample G (visit_c c0) (new_xc G c0) ([], []) g1 = Ok (Datatypes.tt, ([], []), g2).
Hypothesis H3 : forall b, exists y, back_c G c1 (new_xc G c0) kc ([], [kc]) b = Ok y /\ Bad y.
Hypothesis H4 : forall y b, Bad y -> exists x, back_d G n2 (vis_d G false (new_xd G n0)) (kd y) ([kd y; kd y], []) b = Ok x.
Hypothesis H5 : forall y x, Bad y -> select G (visit_d n2) (vis_d G false x) (kd y) ([], []) g2 = Throw.

Ltac go := cbn -[select sample back_c back_d new_xd new_xc vis_d Rplus IZR].
Lemma second_trial_fails : exists s, areach ueqb ueqb nan_conf G 1 g s /\ afail s = Some FThrow.
Proof using H1 H2 H3 H4 H5.
  set (ls := [AStart 0; ARun 0; ARun 0; ARun 0; ARun 0; ARun 0; ARun 0; ARun 0; ARun 0; ARun 0; AStart 0; ARun 0]).
  assert (X : exists s, arun ueqb ueqb nan_conf G ls (ainit nan_conf G 1 g) = Some s /\ afail s = Some FThrow).
  { unfold ls. cbn -[select sample back_c back_d new_xd new_xc vis_d Rplus IZR] in H1, H2, H3, H4, H5. go. rewrite H1. go. rewrite H2. go. change (0 + 1)%Z with 1%Z. go.
    match goal with |- context [back_c G _ _ _ _ ?b] => destruct (H3 b) as (y & E3 & By) end. rewrite E3. go.
    match goal with |- context [back_d G _ _ _ _ ?b] => destruct (H4 y b By) as (x & E4) end. rewrite E4. go.
    rewrite (H5 y x By). go. eexists. split; reflexivity. }
  destruct X as (s & E & F). exists s. split; [exists ls; exact E|exact F].
Qed.
End Second.
Lemma nan_ok : ments_ok nan_conf nan_ments /\ env_ok nan_conf nan_ments /\ prior_ok nan_conf nan_ments /\ explore_ok nan_ments /\
  few_actions nan_conf 1 /\ temps_ok nan_ments.
Proof.
  split; [split; [intros; apply Permutation_refl|reflexivity]|]. split.
  { constructor; cbn; try discriminate; try lia.
    - intros _. repeat constructor; cbn; intuition.
    - intros s a _ _. split; [|lra]. intros k w [[= <- <-]|[]]. lra. }
  split; [split; [intros p [=]|left; cbn; lra]|]. split; [split; cbn; lra|].
  split; [split; [lra|intros s; cbn; lra]|]. split; [cbn; lra|intros f [=]].
Qed.
Lemma nan_lambda : forall n, dvisits n = 0%Z -> ments_lambda nan_ments n = None.
Proof.
  intros n H. unfold ments_lambda. rewrite H. cbn [Z.eqb nan_ments mroot_eps meps].
  assert (E : Rltb 0 (-1) = false) by (apply Rltb_false; lra). assert (E0 : Rltb 0 0 = false) by (apply Rltb_false; lra).
  rewrite E, andb_false_r, E0. reflexivity.
Qed.
Lemma nan_new : forall s k t, let x := dents_new_d ueqb nan_conf nan_ments (new_dnode nan_conf s k t) in
  e_nb (d_ent x) = 1%Z /\ e_local (d_ent x) = None /\ e_sub (d_ent x) = None.
Proof.
  intros s k t. cbv zeta. unfold dents_new_d. cbv zeta. cbn [d_ent].
  assert (E : action_distr ueqb nan_conf nan_ments (new_dnode nan_conf s k t)
    (unexpanded_q ueqb nan_ments (new_dnode nan_conf s k t) (m_off (ments_new_d nan_conf nan_ments (new_dnode nan_conf s k t)))) = Ok None).
  { unfold action_distr. cbn [acts nan_conf all_q unexpanded_q mprior nan_ments bind].
    destruct (ments_weights _ _ _) as [[w sum] nm]. unfold mix. rewrite nan_lambda by reflexivity. reflexivity. }
  rewrite E. cbn. auto.
Qed.
Lemma nan_step : forall n (qf : unit -> outcome R) g, (1 <= dvisits n)%Z -> (0 <= ddepth n < 1)%Z -> (0 <= dtime n)%Z -> good_ints g -> good_reals g ->
  gr g (nr g) < 1/2 -> qf Datatypes.tt = Ok 0 ->
  exists g1, bind (action_distr ueqb nan_conf nan_ments n qf) (fun d => sample_actions nan_ments d g) = Ok (Datatypes.tt, g1) /\ one_real g g1.
Proof.
  intros n qf g Hv Hd Ht Gi Gr Lo Q. destruct nan_ok as (Mok & Env & Pr & Ex & Few & _).
  assert (NE : acts nan_conf (dstate n) <> []) by discriminate.
  destruct (distr_policy ueqb unit_decides nan_conf nan_ments Pr Env n qf) as (q & m & _ & E & P); auto.
  { now left. }
  { intros [] _. eauto. }
  rewrite E. cbn [bind].
  destruct (policy_select ueqb unit_decides nan_conf nan_ments Mok Pr Ex Env n _ m g ltac:(lia) NE P Gr) as [([] & g1 & E1 & O & _ & _)|[L T]].
  - eauto.
  - exfalso. assert (B : lost_draw ueqb nan_conf nan_ments n (Ok (Some m)) g) by (eexists _, m; split; [reflexivity|split; [exact P|auto]]).
    destruct (lost_needs ueqb unit_decides nan_conf nan_ments Pr Ex Env n _ g ltac:(lia) NE Gr B) as [L1 _].
    cbn [acts nan_conf length INR] in L1. unfold ments_eps in L1.
    assert (1 / IZR (10 ^ 16) <= 1 / 2); [|lra]. unfold Rdiv. rewrite !Rmult_1_l. apply Rinv_le_contravar; [lra|]. apply IZR_le. vm_compute. discriminate.
Qed.

Lemma nan_fails : exists s, areach ueqb ueqb nan_conf (dents ueqb nan_conf nan_ments) 1 g_ex s /\ afail s = Some FThrow.
Proof.
  destruct nan_ok as (Mok & Env & Pr & Ex & Few & _).
  assert (Gi : good_ints g_ex) by (intros i; cbn; lia). assert (Gr : good_reals g_ex) by (intros i; cbn; lra).
  set (G := dents ueqb nan_conf nan_ments).
  set (n0 := new_dnode nan_conf Datatypes.tt 0 0).
  destruct (nan_step (visit_d n0) (clean (dents_q ueqb nan_ments (visit_d n0) 0 [])) g_ex) as (g1 & E1 & O1); auto; try (cbn; lia); try (cbn; lra).
  { unfold clean, dents_q, unexpanded_q. cbn. f_equal. ring. }
  assert (H1 : select G (visit_d n0) (vis_d G false (new_xd G n0)) [] (cx0 G) g_ex = Ok (Datatypes.tt, cx0 G, g1)).
  { cbn [select G dents vis_d new_xd]. unfold dents_select. rewrite dents_distr_eq.
    - exact (f_equal (fun o => bind o (fun '(a, r) => Ok (a, cx0 G, r))) E1).
    - intros a _. unfold dents_q. cbn. eauto. }
  destruct O1 as (O1 & O2 & O3 & _).
  assert (Gr1 : good_reals g1) by (intros i; rewrite O2; apply Gr).
  destruct (sample_ok nan_conf nan_ments Mok Env (visit_c (new_cnode Datatypes.tt Datatypes.tt 0 0)) g1) as ([] & g2 & E2 & _); auto.
  { split; [reflexivity|]. cbn. split; [lia|]. split; [now left|reflexivity]. }
  eapply (second_trial_fails g_ex (fun y => ec_sub (dc_ent y) = None /\ v_nb (dc_dp y) = 1%Z) g1 g2).
  - exact H1.
  - cbn [sample G dents]. rewrite E2. reflexivity.
  - intros b. cbn [back_c G dents]. eexists. split; [reflexivity|].
    destruct (nan_new Datatypes.tt 1 1) as (N1 & _ & N3). set (x1 := dents_new_d ueqb nan_conf nan_ments (new_dnode nan_conf Datatypes.tt 1 1)) in *.
    unfold dents_backup_c, value_backup_c. cbn [muse_dp nan_ments dc_ent dc_dp v_nb members map snd fst]. split; [|reflexivity].
    unfold ent_backup_c. cbn [hd members ec_sub filter map snd fst vis_d dents dents_visit d_ent G new_xd]. fold x1. rewrite N1. cbn [Z.eqb negb existsb snd]. rewrite N3. reflexivity.
  - intros y b [By Bn]. cbn [back_d G dents fst nth]. unfold dents_backup_d.
    match goal with |- exists x, bind (dents_distr _ _ _ ?n ?o ?k) _ = _ => assert (E : dents_distr ueqb nan_conf nan_ments n o k = Ok None) end.
    { unfold dents_distr. cbn. unfold dents_q. cbn. rewrite By. reflexivity. }
    rewrite E. cbn [bind]. unfold value_backup_d. cbn [muse_dp nan_ments].
    match goal with |- exists x, bind (bind (dp_backup_d _ ?n ?v ?k) _) _ = _ => destruct (C39_backup' nan_ments n v k) as (w & E' & _) end.
    + intros a z [[= <- <-]|[]]. cbn. lia.
    + exists Datatypes.tt, (dc_dp y). split; [now left|lia].
    + rewrite E'. cbn [bind]. eauto.
  - intros y x [By _]. cbn [select G dents]. unfold dents_select.
    match goal with |- bind (bind (dents_distr _ _ _ ?n ?o ?k) _) _ = _ => assert (E : dents_distr ueqb nan_conf nan_ments n o k = Ok None) end.
    { unfold dents_distr. cbn. unfold dents_q. cbn. rewrite By. reflexivity. }
    rewrite E. reflexivity.
Qed.
