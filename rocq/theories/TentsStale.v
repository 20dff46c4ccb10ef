(** With a temperature decay function TENTS ranks actions by values of different ages. *)
From Coq Require Import List ZArith Bool Reals Lia Lra Sorted Permutation.
From Verif Require Import Base BaseProofs NumOps RLemmas HelperModel HelperSpec HelperProofs EngineModel EngineSpec EngineProofs
  EngineInv MapModel MapProofs AlgoModel AlgoProofs AlgoTheorems AlgoNodes AlgoSafe UctModel UctTheorems MentsModel SoftSpec SoftProofs
  MentsSpec MentsProofs MentsPolicy MentsRun FamilyRun TentsSpec TentsProofs TentsRun.
Import ListNotations.
Open Scope R_scope.

(** One state, two actions that lead back to it; trials of length one. *)
Definition seqb1 (_ _ : unit) : bool := true.
Lemma seqb1_decides : decides seqb1.
Proof. intros [] []. split; auto. Qed.
Lemma bool_dec_ok : decides Bool.eqb.
Proof. intros a b. apply Bool.eqb_true_iff. Qed.
Definition stale_conf : @econf unit bool :=
  mkConf (fun _ => false) (fun _ => [true; false]) (fun _ _ => [Datatypes.tt]) (fun _ _ _ => 3/2) None 1 false false 0 Datatypes.tt 0.

Section One.
Variable G : @algo unit bool.
Variable g : rng R.
Notation n0 := (new_dnode stale_conf Datatypes.tt 0 0).
Notation n1 := (visit_d n0).
Variable a : bool.
Notation c0 := (new_cnode Datatypes.tt a 0 0).
Notation d1 := (new_dnode stale_conf Datatypes.tt 1 1).
Notation n2 := (add_dkid n1 a 0%nat).
Notation c1 := (add_ckid (visit_c c0) Datatypes.tt 1%nat).
Variables (cx1 cx2 : CX G) (g1 g2 : rng R) (y : XC G) (x : XD G).
Hypothesis H1 : select G n1 (vis_d G false (new_xd G n0)) [] (cx0 G) g = Ok (a, cx1, g1).
Hypothesis H2 : sample G (visit_c c0) (new_xc G c0) cx1 g1 = Ok (Datatypes.tt, cx2, g2).
Hypothesis H3 : forall b, back_c G c1 (new_xc G c0) [(Datatypes.tt, (visit_d d1, vis_d G true (new_xd G d1)))] cx2 b = Ok y.
Hypothesis H4 : forall b, back_d G n2 (vis_d G false (new_xd G n0)) [(a, (c1, y))] cx2 b = Ok x.

Hypothesis P1 : forall kids cx, peek_d G kids cx = None.
Hypothesis P2 : forall kids cx, peek_c G kids cx = None.
Hypothesis P3 : forall cx, inside G cx = false.
Hypothesis P4 : forall cx, fin G cx = cx.

Ltac go := repeat (cbn -[select sample back_c back_d new_xd new_xc vis_d cx0 Rplus IZR Rdiv peek_d peek_c inside fin]; rewrite ?P1, ?P2, ?P3, ?P4).
Lemma first_trial : exists s, areach seqb1 Bool.eqb stale_conf G 1 g s /\ quiet (base s) /\ count is_done (etrace (base s)) = 1%Z /\
  nth_error (dh (mem (base s))) 0 = Some n2 /\ nth_error (xds s) 0 = Some x /\ dview s n2 = [(a, (c1, y))].
Proof using All.
  set (ls := [AStart 0; ARun 0; ARun 0; ARun 0; ARun 0; ARun 0; ARun 0]).
  assert (X : exists s, arun seqb1 Bool.eqb stale_conf G ls (ainit stale_conf G 1 g) = Some s /\
    quiet (base s) /\ count is_done (etrace (base s)) = 1%Z /\
    nth_error (dh (mem (base s))) 0 = Some n2 /\ nth_error (xds s) 0 = Some x /\ dview s n2 = [(a, (c1, y))]).
  { assert (Ia : (if existsb (Bool.eqb a) [true; false] then true else false) = true) by (destruct a; reflexivity).
    unfold ls. cbn in H1, H2, H3, H4. go. rewrite H1. go. destruct a; go. all: rewrite H2; go; change (0 + 1)%Z with 1%Z; go; rewrite H3; go; rewrite H4; go.
    all: eexists; split; [reflexivity|]; (split; [intros t th Q; cbn in Q; destruct t as [|[|t]]; cbn in Q; congruence|]); repeat split. }
  destruct X as (s & E & F). exists s. split; [exists ls; exact E|exact F].
Qed.
End One.

(** TENTS with temperature 1 decayed by the inverse square root: 1/2 after one visit. *)
Definition stale_ments : @mconf unit bool :=
  @mkM unit bool 1 (-1) 1 (-1) 1 (Some decay_inv_sqrt) (1/10) 3 (-1) (7/4) false 0 0 false None false (fun _ _ => 3/2)
      (fun _ _ => [(Datatypes.tt, 1)]) (fun V m => m) None 1 (1/10) 1 (-1) false.
Lemma stale_ok : ments_ok stale_conf stale_ments /\ env_ok stale_conf stale_ments /\ temps_ok stale_ments /\
  prior_ok stale_conf stale_ments /\ values_ok stale_conf stale_ments 2 /\ few_actions stale_conf 2 /\ explore_ok stale_ments.
Proof.
  split; [split; [intros V m; apply Permutation_refl|reflexivity]|]. split.
  { constructor; cbn; try lia; try discriminate.
    - intros _. repeat constructor; cbn; intuition discriminate.
    - intros s a _ _. split; [|lra]. intros k w [[= <- <-]|[]]; lra. }
  split; [split; [cbn; lra|]|].
  { intros f [= <-]. split; [apply inv_sqrt_decay|]. cbn. lra. }
  split; [split; [intros p [=]|left; cbn; lra]|]. split.
  { constructor.
    - intros s [|]; cbn; rewrite Rabs_pos_eq; lra.
    - intros h s [=].
    - cbn. rewrite Rabs_pos_eq; lra.
    - intros H. elim H. reflexivity. }
  split; [split; [lra|intros s; cbn; lra]|]. split; cbn; lra.
Qed.
Lemma temp_0 : forall n : @dnode unit bool, dvisits n = 0%Z -> ments_temp stale_ments n = 1.
Proof.
  intros n E. unfold ments_temp. cbn [mdecay stale_ments]. rewrite E. unfold decayed_temp, decay_inv_sqrt. cbn [mtemp mmin_temp mroot_scale mscale stale_ments].
  replace (is_root n && Rltb 0 (-1)) with false.
  2: { unfold Rltb. destruct (Rlt_dec 0 (-1)); [lra|]. now rewrite andb_false_r. }
  replace (1 + 3 * 0) with 1 by ring. rewrite sqrt_1. unfold Rltb. destruct (Rlt_dec _ (1/10)); lra.
Qed.
Lemma temp_1 : forall n : @dnode unit bool, dvisits n = 1%Z -> ments_temp stale_ments n = 1/2.
Proof.
  intros n E. unfold ments_temp. cbn [mdecay stale_ments]. rewrite E. unfold decayed_temp, decay_inv_sqrt. cbn [mtemp mmin_temp mroot_scale mscale stale_ments].
  replace (is_root n && Rltb 0 (-1)) with false.
  2: { unfold Rltb. destruct (Rlt_dec 0 (-1)); [lra|]. now rewrite andb_false_r. }
  replace (1 + 3 * 1) with (2 * 2) by ring. rewrite sqrt_square by lra. unfold Rltb. destruct (Rlt_dec _ (1/10)); lra.
Qed.

(** After the first trial. *)
Notation sn := (new_dnode stale_conf Datatypes.tt 0 0).
Notation sc a := (add_ckid (visit_c (new_cnode Datatypes.tt a 0 0)) Datatypes.tt 1%nat).
Lemma stale_run : exists s a n x c y, areach seqb1 Bool.eqb stale_conf (tents Bool.eqb stale_conf stale_ments) 1 g_ex s /\ quiet (base s) /\
  count is_done (etrace (base s)) = 1%Z /\ nth_error (dh (mem (base s))) 0 = Some n /\ nth_error (xds s) 0 = Some x /\ dstate n = Datatypes.tt /\
  dview s n = [(a, (c, y))] /\ ments_temp stale_ments n = 1/2 /\
  ments_q Bool.eqb stale_ments n (t_m x) [(a, (c, y))] a = Ok (3/2) /\ ments_q Bool.eqb stale_ments n (t_m x) [(a, (c, y))] (negb a) = Ok (7/4) /\
  In (a, 3) (t_a2q x) /\ In (negb a, 7/4) (t_a2q x) /\ m_soft (t_m x) <= 3/2.
Proof.
  destruct stale_ok as (Mok & Env & Tok & Pr & Vok & Few & Ex).
  assert (Gi : good_ints g_ex) by (intros i; cbn; lia). assert (Gr : good_reals g_ex) by (intros i; cbn; lra).
  set (G := tents Bool.eqb stale_conf stale_ments).
  assert (T0 : td_ok Bool.eqb stale_conf stale_ments sn (new_xd G sn)) by (apply (td_new Bool.eqb bool_dec_ok); auto).
  assert (NE : acts stale_conf (dstate (visit_d sn)) <> []) by discriminate.
  set (x0 := vis_d G false (new_xd G sn)).
  assert (Mo : maps_ok (acts stale_conf (dstate sn)) (x0 : @tmem bool)) by (destruct T0 as [_ [[K1 K2 K3 K4] _]]; now constructor).
  destruct (tents_policy Bool.eqb bool_dec_ok stale_conf stale_ments Env Pr (visit_d sn) x0 []) as (w & sum & b & m & E1 & E2 & P); auto.
  { now left. }
  destruct (policy_select Bool.eqb bool_dec_ok stale_conf stale_ments Mok Pr Ex Env (visit_d sn) b m g_ex ltac:(cbn; lia) NE P Gr)
    as [(a & g1 & Es & O & Ia & _)|[L T]].
  2: { exfalso. assert (B : lost_draw Bool.eqb stale_conf stale_ments (visit_d sn) (Ok (Some m)) g_ex) by (eexists _, m; split; [reflexivity|split; [exact P|auto]]).
    destruct (lost_needs Bool.eqb bool_dec_ok stale_conf stale_ments Pr Ex Env (visit_d sn) _ g_ex ltac:(cbn; lia) NE Gr B) as [L1 _].
    cbn [acts stale_conf length INR] in L1. unfold ments_eps in L1. cbn [g_ex gr] in L1.
    assert (1 / IZR (10 ^ 16) <= 1 / 10); [|lra]. unfold Rdiv. rewrite !Rmult_1_l. apply Rinv_le_contravar; [lra|]. apply IZR_le. vm_compute. discriminate. }
  set (cx1 := mput Z.eqb [] 0%Z a : CX G).
  assert (H1 : select G (visit_d sn) x0 [] (cx0 G) g_ex = Ok (a, cx1, g1)).
  { cbn [select G tents]. unfold tents_select. change (bind (tents_weights Bool.eqb stale_conf stale_ments (visit_d sn) x0 []) (fun '(w, sum) => bind (mix Bool.eqb stale_conf stale_ments (visit_d sn) w sum) (fun d => bind (sample_actions stale_ments d g_ex) (fun '(a, g1) => Ok (a, mput Z.eqb [] 0%Z a, g1)))) = Ok (a, cx1, g1)). rewrite E1. cbn [bind]. rewrite E2. cbn [bind]. rewrite Es. reflexivity. }
  destruct O as (O1 & O2 & O3 & _). assert (Gr1 : good_reals g1) by (intros i; rewrite O2; apply Gr).
  destruct (sample_ok stale_conf stale_ments Mok Env (visit_c (new_cnode Datatypes.tt a 0 0)) g1) as ([] & g2 & E3 & _); auto.
  { split; [reflexivity|]. cbn. split; [lia|]. split; [|reflexivity]. destruct a; auto. }
  set (n2 := add_dkid (visit_d sn) a 0%nat).
  set (d1 := new_dnode stale_conf Datatypes.tt 1 1).
  set (y := ments_backup_c stale_ments (sc a) (new_xc G (new_cnode Datatypes.tt a 0 0)) (onto t_m [(Datatypes.tt, (visit_d d1, vis_d G true (new_xd G d1)))])).
  destruct (new_maps Bool.eqb bool_dec_ok stale_conf stale_ments (eo_nodup _ _ Env) d1) as (M1 & _); [now apply pr_total|].
  destruct (new_maps Bool.eqb bool_dec_ok stale_conf stale_ments (eo_nodup _ _ Env) sn) as (M0 & _ & M2); [now apply pr_total|].
  assert (Ey : c_soft y = 3/2).
  { unfold y, ments_backup_c. cbn [c_soft mreward stale_ments]. cbn [onto map fst snd vis_d G tents t_m new_xd ments_visit m_nb m_soft].
    rewrite M1. cbn. change (0 + 1)%Z with 1%Z. unfold avg_loop, avg_step. cbn [fold_left fst snd]. change (1 =? 0)%Z with false. cbn [fst snd]. lra. }
  assert (Px : tents_trail ([] ++ a :: []) (cx1 : list (Z * bool))).
  { intros l1 b' l2 E. destruct l1 as [|? [|]]; [|discriminate|discriminate]. cbn in E. injection E as <- <-. reflexivity. }
  assert (Qa : ments_q Bool.eqb stale_ments n2 (t_m (x0 : @tmem bool)) [(a, (sc a, y))] a = Ok (3/2)).
  { unfold ments_q. cbn [lookup]. rewrite Bool.eqb_reflx. unfold opp_coeff. cbn [mtwo stale_ments andb]. f_equal. rewrite Ey. lra. }
  assert (Tn : ments_temp stale_ments n2 = 1/2) by (apply temp_1; reflexivity).
  destruct (tents_backup_ok Bool.eqb bool_dec_ok stale_conf stale_ments Env Pr n2 x0 [(a, (sc a, y))] [] a [] cx1) as (v & x1 & sp & Ev & Eu & Esp & Mo1 & Iv & Oth & Smax & Eb); auto.
  assert (v = 3) as ->.
  { unfold q_over_temp in Ev. rewrite Qa in Ev. cbn [bind] in Ev. rewrite Tn in Ev. injection Ev as <-. lra. }
  assert (Hb : In (negb a, 7/4) (t_a2q x1)).
  { apply Oth; [now destruct a|]. cbn [x0 vis_d G tents t_a2q new_xd]. apply M2. split; [destruct a; cbn; auto|].
    unfold q_over_temp, ments_q, unexpanded_q. cbn [lookup mprior stale_ments bind]. rewrite temp_0 by reflexivity. unfold opp_coeff. cbn [mtwo mdefault_q stale_ments andb].
    f_equal. lra. }
  destruct (first_trial G g_ex a cx1 cx1 g1 g2 y (mkTm (mkMm (m_nb (t_m (x0 : @tmem bool)) + 1) (opp_coeff stale_ments n2 * ments_temp stale_ments n2 * sp) (m_off (t_m (x0 : @tmem bool)))) (t_a2q x1) (t_q2a x1)))
    as (s & Rs & Qs & Ks & Ns & Xs & Vs); auto.
  { cbn [sample G tents]. rewrite E3. reflexivity. }
  exists s, a, n2. eexists. exists (sc a), y. split; [exact Rs|]. split; [exact Qs|]. split; [exact Ks|]. split; [exact Ns|]. split; [exact Xs|]. split; [reflexivity|].
  split; [exact Vs|]. split; [exact Tn|]. cbn [t_m t_a2q m_soft]. split; [|split; [|split; [exact Iv|split; [exact Hb|]]]].
  - rewrite <- Qa. reflexivity.
  - unfold ments_q. cbn [lookup]. replace (Bool.eqb a (negb a)) with false by (now destruct a). unfold unexpanded_q, opp_coeff. cbn [mprior mtwo mdefault_q stale_ments andb].
    f_equal. lra.
  - destruct Smax as [(p & [Sp Sq] & ->) _].
    assert (Va : valf Bool.eqb (t_a2q x1) a = 3) by (unfold valf; now rewrite (in_lookup Bool.eqb bool_dec_ok _ _ _ _ (mo_nodup _ _ Mo1) Iv)).
    assert (Vb : valf Bool.eqb (t_a2q x1) (negb a) = 7/4) by (unfold valf; now rewrite (in_lookup Bool.eqb bool_dec_ok _ _ _ _ (mo_nodup _ _ Mo1) Hb)).
    pose proof (Sp true (or_introl eq_refl)) as P1. pose proof (Sp false (or_intror (or_introl eq_refl))) as P2.
    unfold sparse_objective. cbn [acts stale_conf dstate n2] in *. rewrite Tn. unfold opp_coeff. cbn [mtwo stale_ments andb].
    unfold rsum_of in *. cbn [fold_right map rsum] in *. destruct a; cbn [negb] in *; rewrite Va, Vb; clear -P1 P2 Sq; cbn in Sq; cbn; set (u := p true) in *; set (v := p false) in *; assert (u = 1 - v) as E by lra; rewrite E in *; nra.
Qed.
