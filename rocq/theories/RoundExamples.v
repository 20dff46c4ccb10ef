(** Concrete searches for the theorems on computed averages. *)
From Coq Require Import List ZArith Bool Reals Lia Lra.
From Coq Require Import Floats.SpecFloat.
From Verif Require Import Base BaseProofs NumOps HelperModel EngineModel EngineSpec EngineProofs AlgoModel AlgoProofs UctModel UctSpec UctTheorems
  DoubleSpec DoubleProofs RoundModel RoundSpec RoundProofs RoundResults.
Import ListNotations.
Open Scope R_scope.

(** Trials of one step from state false to state true, with reward [r]; the heuristic values are [h0] and [h1]. *)
Definition one_conf (h0 h1 r : R) : @econf bool bool :=
  mkConf (fun _ => false) (fun _ => [true]) (fun _ _ => [true]) (fun _ _ _ => r) (Some (fun s : bool => if s then h1 else h0)) 1 false false 0 false 0.

Section One.
Variables h0 h1 r : R.
Notation C := (one_conf h0 h1 r).
Variable G : @algo bool bool.
Variable g : rng R.
Notation n0 := (new_dnode C false 0 0).
Notation n1 := (visit_d n0).
Notation c0 := (new_cnode false true 0 0).
Notation d1 := (new_dnode C true 1 1).
Notation n2 := (add_dkid n1 true 0%nat).
Notation c1 := (add_ckid (visit_c c0) true 1%nat).
Variables (cx1 cx2 : CX G) (g1 g2 : rng R) (y : XC G) (x : XD G).
Hypothesis H1 : select G n1 (vis_d G false (new_xd G n0)) [] (cx0 G) g = Ok (true, cx1, g1).
Hypothesis H2 : sample G (visit_c c0) (new_xc G c0) cx1 g1 = Ok (true, cx2, g2).
Hypothesis H3 : forall b, b_after b = [h1; r] -> b_tafter b = h1 + r -> back_c G c1 (new_xc G c0) [(true, (visit_d d1, vis_d G true (new_xd G d1)))] cx2 b = Ok y.
Hypothesis H4 : forall b, b_after b = [h1; r] -> b_tafter b = h1 + r -> back_d G n2 (vis_d G false (new_xd G n0)) [(true, (c1, y))] cx2 b = Ok x.
Hypothesis P1 : forall kids cx, peek_d G kids cx = None.
Hypothesis P2 : forall kids cx, peek_c G kids cx = None.
Hypothesis P3 : forall cx, inside G cx = false.
Hypothesis P4 : forall cx, fin G cx = cx.

Ltac go := repeat (cbn -[select sample back_c back_d new_xd new_xc vis_d cx0 Rplus IZR Rdiv peek_d peek_c inside fin]; rewrite ?P1, ?P2, ?P3, ?P4).
Lemma one_trial : exists s, areach Bool.eqb Bool.eqb C G 1 g s /\ quiet (base s) /\ count is_done (etrace (base s)) = 1%Z /\
  nth_error (dh (mem (base s))) 0 = Some n2 /\ nth_error (xds s) 0 = Some x /\ 
  returns_d 0 (etrace (base s)) = [h1 + r] /\ afters_d 0 (etrace (base s)) = [[h1; r]].
Proof using All.
  set (ls := [AStart 0; ARun 0; ARun 0; ARun 0; ARun 0; ARun 0; ARun 0]).
  assert (X : exists s, arun Bool.eqb Bool.eqb C G ls (ainit C G 1 g) = Some s /\
    quiet (base s) /\ count is_done (etrace (base s)) = 1%Z /\
    nth_error (dh (mem (base s))) 0 = Some n2 /\ nth_error (xds s) 0 = Some x /\
    returns_d 0 (etrace (base s)) = [h1 + r] /\ afters_d 0 (etrace (base s)) = [[h1; r]]).
  { unfold ls. cbn in H1, H2, H3, H4. go. rewrite H1. go. rewrite H2; go; change (0 + 1)%Z with 1%Z; go; rewrite H3 by reflexivity; go; rewrite H4 by reflexivity; go.
    all: eexists; split; [reflexivity|]; (split; [intros t th Q; cbn in Q; destruct t as [|[|t]]; cbn in Q; congruence|]); repeat split. }
  destruct X as (s & E & F). exists s. split; [exists ls; exact E|exact F].
Qed.
End One.

(** Action and outcome are forced. *)
Definition only_sel {N} (_ : @dnode bool bool) (_ : nx N) (_ : list (bool * (@cnode bool bool * nx N))) (g : rng R) : outcome (bool * rng R) := Ok (true, g).
Definition only_smp (_ : @cnode bool bool) (g : rng R) : outcome (bool * rng R) := Ok (true, g).
Definition one_uct (w : Z) : @uconf bool bool := mkU 1 w true 0 None false uct_term (fun _ _ => [(true, 1)]) (fun V m => m).
(** The doubles of 0, 1 and 2^60. *)
Definition enc60 (r : R) : F :=
  if Req_EM_T r 1 then nofZ F_ops 1 else if Req_EM_T r (IZR (2 ^ 60)) then nofZ F_ops (2 ^ 60) else S754_zero false.
Lemma enc60_1 : enc60 1 = nofZ F_ops 1.
Proof. unfold enc60. destruct (Req_EM_T 1 1); congruence. Qed.
Lemma enc60_60 : enc60 (IZR (2 ^ 60)) = nofZ F_ops (2 ^ 60).
Proof.
  unfold enc60. destruct (Req_EM_T (IZR (2 ^ 60)) 1) as [E|_]; [apply (eq_IZR _ 1) in E; discriminate|].
  destruct (Req_EM_T (IZR (2 ^ 60)) (IZR (2 ^ 60))); congruence.
Qed.
Lemma enc60_0 : enc60 0 = S754_zero false.
Proof.
  unfold enc60. destruct (Req_EM_T 0 1) as [E|_]; [lra|].
  destruct (Req_EM_T 0 (IZR (2 ^ 60))) as [E|_]; [apply (eq_IZR 0) in E; discriminate|reflexivity].
Qed.
Lemma small_int : forall z, (Z.abs z <= 2 ^ 52)%Z -> double (nofZ F_ops z) /\ dval (nofZ F_ops z) = IZR z.
Proof.
  intros z H. destruct (of_rounds z) as (D & E). { now apply near_fits, int_large. } split; auto. rewrite <- (near_int z H). exact E.
Qed.
Lemma big_int : double (nofZ F_ops (2 ^ 60)) /\ dval (nofZ F_ops (2 ^ 60)) = IZR (2 ^ 60).
Proof.
  split; [split; [vm_compute; reflexivity|vm_compute; exact Logic.I]|].
  replace (nofZ F_ops (2 ^ 60)) with (S754_finite false 4503599627370496 8) by (vm_compute; reflexivity).
  unfold dval. change (powerRZ 2 8) with (2 ^ 8). cbn [pow]. change (2 ^ 60)%Z with 1152921504606846976%Z. lra.
Qed.

(** One trial with heuristic values 2^60 at the root and 0 at the end, and reward 1, in doubles. *)
Lemma drift : exists s node, areach Bool.eqb Bool.eqb (one_conf (IZR (2 ^ 60)) 0 1) (uct_over (one_conf (IZR (2 ^ 60)) 0 1) (one_uct 0) F_ops enc60 only_sel only_smp) 1 g_ex s /\
  quiet (base s) /\ nth_error (dh (mem (base s))) 0 = Some node /\
  returns_d 0 (etrace (base s)) = [0 + 1] /\ afters_d 0 (etrace (base s)) = [[0; 1]] /\ nth_error (xds s) 0 = Some (mkNx 1%Z (S754_zero false)).
Proof.
  set (h := IZR (2 ^ 60)). set (G := uct_over (one_conf h 0 1) (one_uct 0) F_ops enc60 only_sel only_smp).
  destruct (one_trial h 0 1 G g_ex Datatypes.tt Datatypes.tt g_ex g_ex
    (nx_backup F_ops (mkNx 0%Z (S754_zero false)) (ret_after F_ops [enc60 0; enc60 1]))
    (mkNx 1%Z (S754_zero false))) as (s & R & Q & _ & N & X & T1 & T2); auto.
  - intros b E _. cbn. rewrite E. reflexivity.
  - intros b E _. cbn. rewrite E. cbn [map]. rewrite enc60_0, enc60_1. unfold nx_new_d. cbn. unfold h. rewrite enc60_60.
    unfold nx_backup. cbn [nnb navg]. f_equal. 
  - exists s. eexists. split; [exact R|]. repeat split; eauto.
Qed.

(** One trial of UCT itself, without pseudo trials. *)
Lemma end_value : forall h, exists s x, areach Bool.eqb Bool.eqb (one_conf 0 h 1) (uct Bool.eqb (one_conf 0 h 1) (one_uct 0)) 1 g_ex s /\
  quiet (base s) /\ count is_done (etrace (base s)) = 1%Z /\ nth_error (xds s) 0 = Some x /\ uavg x = h + 1.
Proof.
  intros h. set (G := uct Bool.eqb (one_conf 0 h 1) (one_uct 0)).
  assert (E0 : Rltb 0 0 = false) by (unfold Rltb; destruct (Rlt_dec 0 0); auto; lra).
  assert (X1 : exists g1, select G (visit_d (new_dnode (one_conf 0 h 1) false 0 0)) (vis_d G false (new_xd G (new_dnode (one_conf 0 h 1) false 0 0))) [] (cx0 G) g_ex = Ok (true, Datatypes.tt, g1) /\ gr g1 = gr g_ex).
  { eexists. cbn. unfold uct_select. cbn [ueps one_uct]. rewrite E0. cbn. split; reflexivity. }
  destruct X1 as (g1 & X1 & Eg).
  assert (X2 : exists g2, sample G (visit_c (new_cnode false true 0 0)) (new_xc G (new_cnode false true 0 0)) Datatypes.tt g1 = Ok (true, Datatypes.tt, g2)).
  { exists (snd (get_rand_uniform g1)). cbn [sample G uct]. unfold uct_sample, sample_from_distribution, get_rand_uniform. cbn [udistr one_uct sample_loop none_ nzero R_ops nadd ndiv nltb nleb].
    rewrite Eg. cbn [gr g_ex]. replace (0 + 1 / 1) with 1 by lra. rewrite andb_false_r, orb_false_r.
    replace (Rltb (1 + neps R_ops) 1) with false.
    2: { unfold Rltb. destruct (Rlt_dec _ _) as [L|_]; auto. exfalso. assert (0 < neps R_ops); [|lra]. apply Rinv_0_lt_compat, IZR_lt. vm_compute. reflexivity. }
    replace (Rltb (1 / 3) 1) with true by (unfold Rltb; destruct (Rlt_dec (1/3) 1); auto; lra). reflexivity. }
  destruct X2 as (g2 & X2).
  destruct (one_trial 0 h 1 G g_ex Datatypes.tt Datatypes.tt g1 g2 (uct_backup (mkUx 0 0) (h + 1)) (uct_backup (mkUx 0 0) (h + 1)))
    as (s & Rs & Q & K & _ & X & _ & _); auto.
  - intros b _ E. cbn. now rewrite E.
  - intros b _ E. cbn. rewrite E. reflexivity.
  - exists s. eexists. repeat split; eauto. cbn. change (0 + 1)%Z with 1%Z. field.
Qed.
