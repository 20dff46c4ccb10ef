(** A search of four trials with the transposition table, where both actions lead to the same state. *)
From Coq Require Import List ZArith Bool Reals Lia Lra.
From Verif Require Import Base BaseProofs NumOps HelperModel EngineModel EngineSpec EngineProofs MapModel AlgoModel AlgoProofs AlgoFinish UctModel MentsModel MentsSpec WorldSpec WorldExamples SureSpec.
Import ListNotations.
Open Scope R_scope.

(** One decision between actions true and false, which both lead from state false to state true, with the transposition table. *)
Definition four_conf : @econf bool bool :=
  mkConf (fun _ => false) (fun _ => [true; false]) (fun _ _ => [true]) (fun _ (a : bool) _ => if a then 3 else 5) None 1 false true 0 false 0.
(** Draws that choose the actions true, false, true, false. *)
Definition g_four : rng R := mkRng (fun _ => 0%Z) (fun i => match i with 2%nat | 6%nat => 3/4 | _ => 1/4 end) 0 0.

Section Four.
Variable G : @algo bool bool.
Hypothesis Sel : forall n x kids cx g, dstate n = false -> (1 <= dvisits n <= 4)%Z -> gr g (nr g) < 1 ->
  select G n x kids cx g = Ok (if Rltb (gr g (nr g)) (1/2) then true else false, cx, adv g).
Hypothesis Smp : forall n x cx g, (gr g (nr g) < 1) -> sample G n x cx g = Ok (true, cx, adv g).
Variables oks okc : XC G -> Prop.
Hypothesis Nc : forall n, oks (new_xc G n).
Hypothesis Ss : forall x, okc x -> oks x.
Hypothesis Bc : forall n x kids cx b, oks x -> exists y, back_c G n x kids cx b = Ok y /\ okc y.
Hypothesis Bd : forall n x k kids cx b, okc (snd (snd k)) -> exists y, back_d G n x (k :: kids) cx b = Ok y.
Hypothesis P1 : forall kids cx, peek_d G kids cx = None.
Hypothesis P2 : forall kids cx, peek_c G kids cx = None.
Hypothesis P3 : forall cx, inside G cx = false.
Hypothesis P4 : forall cx, fin G cx = cx.
Ltac go := repeat (cbn -[select sample back_c back_d new_xd new_xc vis_d cx0 Rplus IZR Rdiv Rltb peek_d peek_c inside fin]; rewrite ?P1, ?P2, ?P3, ?P4, ?low, ?high).
Ltac fit := match goal with
  | |- context [select G ?n ?x ?k ?c ?g] => rewrite (Sel n x k c g) by (cbn; try reflexivity; first [lia|lra])
  | |- context [sample G ?n ?x ?c ?g] => rewrite (Smp n x c g) by (cbn; lra)
  | |- context [back_c G ?n ?x ?k ?c ?b] => let y := fresh "y" in let E := fresh "E" in let O := fresh "O" in destruct (Bc n x k c b ltac:(first [assumption|apply Nc|apply Ss; assumption])) as (y & E & O); rewrite E; clear E
  | |- context [back_d G ?n ?x (?k :: ?l) ?c ?b] => let y := fresh "y" in let E := fresh "E" in destruct (Bd n x k l c b ltac:(cbn; assumption)) as (y & E); rewrite E; clear E
  end; go; change (0 + 1)%Z with 1%Z; go.
Definition two_more : list alabel := [AStart 0; ARun 0; ARun 0; ARun 0; ARun 0; ARun 0; ARun 0; AStart 0; ARun 0; ARun 0; ARun 0; ARun 0; ARun 0; ARun 0].
Lemma four_trials : exists s s', areach Bool.eqb Bool.eqb four_conf G 1 g_four s /\ quiet (base s) /\ explored Bool.eqb four_conf (mem (base s)) /\
  rounds Bool.eqb Bool.eqb four_conf 1 s s'.
Proof using All.
  assert (X : exists s s', arun Bool.eqb Bool.eqb four_conf G two_more (ainit four_conf G 1 g_four) = Some s /\ arun Bool.eqb Bool.eqb four_conf G two_more s = Some s' /\
    quiet (base s) /\ explored Bool.eqb four_conf (mem (base s)) /\ quiet (base s') /\
    forall c x x', nth_error (ch (mem (base s))) c = Some x -> nth_error (ch (mem (base s'))) c = Some x' -> (cvisits x < cvisits x')%Z).
  { unfold two_more. go. fit. fit. fit. fit. fit. fit. fit. fit. 
    match goal with |- exists s s', Some ?e = Some s /\ _ => exists e end. go. fit. fit. fit. fit. fit. fit. fit. fit. eexists. split; [reflexivity|]. split; [reflexivity|].
    cbn -[IZR Rplus Rdiv]. split; [|split; [|split]].
    - intros t th Q. destruct t as [|[|t]]; cbn in Q; congruence.
    - intros d n a Hd _ L Ia. destruct d as [|[|d]]; cbn in Hd; [|injection Hd as <-; cbn in L; lia|destruct d; discriminate].
      injection Hd as <-. destruct a; cbn; discriminate.
    - intros t th Q. destruct t as [|[|t]]; cbn in Q; congruence.
    - intros [|[|c]] x x' H H'; cbn in H, H'; [injection H as <-; injection H' as <-; cbn; lia|injection H as <-; injection H' as <-; cbn; lia|destruct c; discriminate]. }
  destruct X as (s & s' & E & E' & Q & F & Q' & K). exists s, s'. split; [exists two_more; exact E|]. split; [exact Q|]. split; [exact F|].
  apply rounds_more with s; [apply rounds_none|]. split; [exists two_more; exact E'|]. split; [exact Q'|exact K].
Qed.
End Four.

Lemma four_mix : forall (n : @dnode bool bool) w1 w2 sum, dstate n = false -> (1 <= dvisits n <= 4)%Z ->
  mix Bool.eqb four_conf two_mc n [(true, w1); (false, w2)] sum = Ok (Some [(true, 1/2); (false, 1/2)]).
Proof.
  intros n w1 w2 sum Sn Vn. unfold mix, ments_lambda. cbn [two_mc mroot_eps meps mmax_explore].
  replace (Rltb 0 (-1)) with false by (unfold Rltb; destruct (Rlt_dec _ _); auto; lra). rewrite andb_false_r.
  destruct (dvisits n =? 0)%Z eqn:E; [lia|]. clear E.
  assert (L : 0 < ln (IZR (dvisits n + 1)) < 100).
  { assert (B : 2 <= IZR (dvisits n + 1) <= 5) by (split; apply IZR_le; lia).
    assert (P : 0 < ln (IZR (dvisits n + 1))) by (rewrite <- ln_1; apply ln_increasing; lra).
    split; [exact P|]. pose proof (exp_ineq1 _ (Rgt_not_eq _ _ P)) as K. rewrite exp_ln in K; lra. }
  replace (Rltb 1 (100 / ln (IZR (dvisits n + 1)))) with true.
  2:{ unfold Rltb. destruct (Rlt_dec _ _) as [|N]; auto. destruct N. apply Rmult_lt_reg_r with (ln (IZR (dvisits n + 1))); [lra|]. unfold Rdiv. rewrite Rmult_assoc, Rinv_l; lra. }
  cbn [four_conf acts length]. unfold mix_loop, mix_entry. cbn [two_mc mprior_w mat lookup Bool.eqb bind].
  replace (Rltb 0 (-1)) with false by (unfold Rltb; destruct (Rlt_dec _ _); auto; lra). cbn -[Rltb ments_eps].
  assert (Ep : ments_eps < 1 / 2).
  { unfold ments_eps. apply Rmult_lt_reg_r with (IZR (10 ^ 16)); [apply IZR_lt; reflexivity|]. unfold Rdiv. rewrite Rmult_assoc, Rinv_l by (apply not_0_IZR; discriminate).
    assert (2 < IZR (10 ^ 16)) by (apply IZR_lt; reflexivity). lra. }
  assert (H : forall w, w * ((1 - 1) / sum) + 1 * (1 / (1 + 1)) = 1 / 2) by (intros w; unfold Rdiv; ring_simplify; field).
  rewrite !H. replace (Rltb (1 / 2) ments_eps) with false by (unfold Rltb; destruct (Rlt_dec _ _); auto; lra). reflexivity.
Qed.
Lemma four_distr : forall (n : @dnode bool bool) q, (forall a, exists v, q a = Ok v) -> dstate n = false -> (1 <= dvisits n <= 4)%Z ->
  action_distr Bool.eqb four_conf two_mc n q = Ok (Some [(true, 1/2); (false, 1/2)]).
Proof.
  intros n q Hq Sn Vn. destruct (Hq true) as (v1 & E1). destruct (Hq false) as (v2 & E2). unfold action_distr. cbn [four_conf acts all_q].
  rewrite E1, E2. cbn [bind]. destruct (two_weights (ments_temp two_mc n) v1 v2) as (w1 & w2 & sum & nt & ->). now apply four_mix.
Qed.
Lemma four_ments : exists s s', areach Bool.eqb Bool.eqb four_conf (ments Bool.eqb four_conf two_mc) 1 g_four s /\ quiet (base s) /\
  explored Bool.eqb four_conf (mem (base s)) /\ rounds Bool.eqb Bool.eqb four_conf 1 s s'.
Proof.
  apply four_trials with (oks := fun _ => True) (okc := fun _ => True); auto.
  - intros n x kids cx g Sn Vn G1. cbn [select ments]. unfold ments_select. rewrite four_distr by (auto; intros a; apply two_q). cbn [bind]. now rewrite two_draw.
  - intros n x cx g G1. cbn [sample ments]. now rewrite one_outcome.
  - intros. eexists. split; [reflexivity|exact Logic.I].
  - intros n x k kids cx b. intros _. cbn [back_d ments]. unfold ments_backup_d. cbn [four_conf acts all_q].
    destruct (two_q n x (k :: kids) true) as (v1 & ->). destruct (two_q n x (k :: kids) false) as (v2 & ->). cbn [bind].
    destruct (ments_weights _ _ _) as [[w sum] nt]. eexists. reflexivity.
Qed.
Lemma four_est : exists s s', areach Bool.eqb Bool.eqb four_conf (est Bool.eqb four_conf two_mc) 1 g_four s /\ quiet (base s) /\
  explored Bool.eqb four_conf (mem (base s)) /\ rounds Bool.eqb Bool.eqb four_conf 1 s s'.
Proof.
  apply four_trials with (oks := fun x : dcmem => (0 <= v_nb (dc_dp x))%Z) (okc := fun x : dcmem => (0 < v_nb (dc_dp x))%Z); auto.
  - intros n x kids cx g Sn Vn G1. cbn [select est]. unfold est_select. rewrite four_distr by (auto; intros a; apply two_est_q). cbn [bind]. now rewrite two_draw.
  - intros n x cx g G1. cbn [sample est]. now rewrite one_outcome.
  - intros n. cbn. lia.
  - intros x. cbv beta. lia.
  - intros n x kids cx b Ok0. eexists. split; [reflexivity|]. cbn. lia.
  - intros n x [a [c y]] kids cx b Oy. cbn [snd] in Oy. cbn [back_d est]. unfold est_backup_d, value_backup_d, dp_backup_d. cbn [two_mc muse_dp members map snd].
    unfold dp_loop. cbn [fold_left]. unfold dp_step at 2. cbn [fst snd]. destruct (v_nb (dc_dp y) =? 0)%Z eqn:E; [lia|].
    match goal with |- context [fold_left ?f _ (Some _)] => assert (K : forall l0 v0, exists v1, fold_left f l0 (Some v0) = Some v1) end.
    { clear. induction l0 as [|p l0 IH]; intros v0; cbn [fold_left]; [eauto|]. unfold dp_step at 2. destruct (fst p =? 0)%Z; [apply IH|]. destruct (Rltb _ _); apply IH. }
    match goal with |- context [fold_left ?f ?l (Some ?v)] => destruct (K l v) as (v' & ->) end. eexists. reflexivity.
Qed.
