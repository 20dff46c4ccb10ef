(** A search of two trials that takes two actions in turn. *)
From Coq Require Import List ZArith Bool Reals Lia Lra.
From Verif Require Import Base BaseProofs NumOps HelperModel EngineModel EngineSpec EngineProofs MapModel AlgoModel AlgoProofs UctModel MentsModel MentsSpec WorldSpec.
Import ListNotations.
Open Scope R_scope.

(** One decision between actions true and false, which lead from state false to state true. *)
Definition two_conf : @econf bool bool :=
  mkConf (fun _ => false) (fun _ => [true; false]) (fun _ _ => [true]) (fun _ (a : bool) _ => if a then 3 else 5) None 1 false false 0 false 0.
Definition two_mc : @mconf bool bool :=
  @mkM bool bool 1 (-1) 100 (-1) 1 None (1/10) 1 (-1) 0 false 0 0 false None false (fun _ (a : bool) => if a then 3 else 5)
      (fun _ _ => [(true, 1)]) (fun (V : Type) (m : list (bool * V)) => m) None 1 1 1 1 true.
(** Draws that choose action true, then action false. *)
Definition g_two : rng R := mkRng (fun _ => 0%Z) (fun i => match i with 2%nat => 3/4 | _ => 1/4 end) 0 0.
Notation adv g := (mkRng (gi g) (gr g) (ni g) (Datatypes.S (nr g))).

Section Two.
Variable G : @algo bool bool.
Hypothesis Sel : forall n x kids cx g, dstate n = false -> (1 <= dvisits n <= 2)%Z -> gr g (nr g) < 1 ->
  select G n x kids cx g = Ok (if Rltb (gr g (nr g)) (1/2) then true else false, cx, adv g).
Hypothesis Smp : forall n x cx g, (gr g (nr g) < 1) -> sample G n x cx g = Ok (true, cx, adv g).
Variables oks okc : XC G -> Prop.
Hypothesis Nc : forall n, oks (new_xc G n).
Hypothesis Bc : forall n x kids cx b, oks x -> exists y, back_c G n x kids cx b = Ok y /\ okc y.
Hypothesis Bd : forall n x k kids cx b, okc (snd (snd k)) -> exists y, back_d G n x (k :: kids) cx b = Ok y.
Hypothesis P1 : forall kids cx, peek_d G kids cx = None.
Hypothesis P2 : forall kids cx, peek_c G kids cx = None.
Hypothesis P3 : forall cx, inside G cx = false.
Hypothesis P4 : forall cx, fin G cx = cx.
Lemma low : Rltb (1/4) (1/2) = true. Proof using Type. unfold Rltb. destruct (Rlt_dec _ _); auto; lra. Qed.
Lemma high : Rltb (3/4) (1/2) = false. Proof using Type. unfold Rltb. destruct (Rlt_dec _ _); auto; lra. Qed.
Ltac go := repeat (cbn -[select sample back_c back_d new_xd new_xc vis_d cx0 Rplus IZR Rdiv Rltb peek_d peek_c inside fin]; rewrite ?P1, ?P2, ?P3, ?P4, ?low, ?high).
Ltac fit := match goal with
  | |- context [select G ?n ?x ?k ?c ?g] => rewrite (Sel n x k c g) by (cbn; try reflexivity; first [lia|lra])
  | |- context [sample G ?n ?x ?c ?g] => rewrite (Smp n x c g) by (cbn; lra)
  | |- context [back_c G ?n ?x ?k ?c ?b] => let y := fresh "y" in let E := fresh "E" in let O := fresh "O" in destruct (Bc n x k c b ltac:(first [assumption|apply Nc])) as (y & E & O); rewrite E; clear E
  | |- context [back_d G ?n ?x (?k :: ?l) ?c ?b] => let y := fresh "y" in let E := fresh "E" in destruct (Bd n x k l c b ltac:(cbn; assumption)) as (y & E); rewrite E; clear E
  end; go; change (0 + 1)%Z with 1%Z; go.
Lemma two_trials : exists s, areach Bool.eqb Bool.eqb two_conf G 1 g_two s /\ quiet (base s) /\ count is_done (etrace (base s)) = 2%Z /\
  explored Bool.eqb two_conf (mem (base s)).
Proof using All.
  set (ls := [AStart 0; ARun 0; ARun 0; ARun 0; ARun 0; ARun 0; ARun 0; AStart 0; ARun 0; ARun 0; ARun 0; ARun 0; ARun 0; ARun 0]).
  assert (X : exists s, arun Bool.eqb Bool.eqb two_conf G ls (ainit two_conf G 1 g_two) = Some s /\ quiet (base s) /\ count is_done (etrace (base s)) = 2%Z /\
    explored Bool.eqb two_conf (mem (base s))).
  { unfold ls. go. fit. fit. fit. fit. fit. fit. fit. fit. eexists. split; [reflexivity|]. cbn -[IZR Rplus Rdiv]. split; [|split; [reflexivity|]].
    - intros t th Q. destruct t as [|[|t]]; cbn in Q; congruence.
    - intros d n a Hd _ L Ia. destruct d as [|[|[|d]]]; cbn in Hd; [|injection Hd as <-; cbn in L; lia|injection Hd as <-; cbn in L; lia|destruct d; discriminate].
      injection Hd as <-. destruct a; cbn; discriminate. }
  destruct X as (s & E & F). exists s. split; [exists ls; exact E|exact F].
Qed.
End Two.

(** MENTS and EST explore uniformly with these settings, for nodes of one or two visits. *)
Lemma two_mix : forall (n : @dnode bool bool) w1 w2 sum, dstate n = false -> (1 <= dvisits n <= 2)%Z ->
  mix Bool.eqb two_conf two_mc n [(true, w1); (false, w2)] sum = Ok (Some [(true, 1/2); (false, 1/2)]).
Proof.
  intros n w1 w2 sum Sn Vn. unfold mix, ments_lambda. cbn [two_mc mroot_eps meps mmax_explore].
  replace (Rltb 0 (-1)) with false by (unfold Rltb; destruct (Rlt_dec _ _); auto; lra). rewrite andb_false_r.
  destruct (dvisits n =? 0)%Z eqn:E; [lia|]. clear E.
  assert (L : 0 < ln (IZR (dvisits n + 1)) < 100).
  { assert (B : 2 <= IZR (dvisits n + 1) <= 3) by (split; apply IZR_le; lia).
    assert (P : 0 < ln (IZR (dvisits n + 1))) by (rewrite <- ln_1; apply ln_increasing; lra).
    split; [exact P|]. pose proof (exp_ineq1 _ (Rgt_not_eq _ _ P)) as K. rewrite exp_ln in K; lra. }
  replace (Rltb 1 (100 / ln (IZR (dvisits n + 1)))) with true.
  2:{ unfold Rltb. destruct (Rlt_dec _ _) as [|N]; auto. destruct N. apply Rmult_lt_reg_r with (ln (IZR (dvisits n + 1))); [lra|]. unfold Rdiv. rewrite Rmult_assoc, Rinv_l; lra. }
  cbn [two_conf acts length]. unfold mix_loop, mix_entry. cbn [two_mc mprior_w mat lookup Bool.eqb bind].
  replace (Rltb 0 (-1)) with false by (unfold Rltb; destruct (Rlt_dec _ _); auto; lra). cbn -[Rltb ments_eps].
  assert (Ep : ments_eps < 1 / 2).
  { unfold ments_eps. apply Rmult_lt_reg_r with (IZR (10 ^ 16)); [apply IZR_lt; reflexivity|]. unfold Rdiv. rewrite Rmult_assoc, Rinv_l by (apply not_0_IZR; discriminate).
    assert (2 < IZR (10 ^ 16)) by (apply IZR_lt; reflexivity). lra. }
  assert (H : forall w, w * ((1 - 1) / sum) + 1 * (1 / (1 + 1)) = 1 / 2) by (intros w; unfold Rdiv; ring_simplify; field).
  rewrite !H. replace (Rltb (1 / 2) ments_eps) with false by (unfold Rltb; destruct (Rlt_dec _ _); auto; lra). reflexivity.
Qed.
Lemma neps_pos : 0 < neps R_ops. Proof. apply Rinv_0_lt_compat, IZR_lt. vm_compute. reflexivity. Qed.
Lemma two_draw : forall g : rng R, gr g (nr g) < 1 ->
  sample_actions two_mc (Some [(true, 1/2); (false, 1/2)]) g = Ok (if Rltb (gr g (nr g)) (1/2) then true else false, adv g).
Proof.
  intros g G1. pose proof neps_pos as E. unfold sample_actions, sample_from_distribution, get_rand_uniform. cbn [two_mc morder sample_loop none_ nzero R_ops nadd ndiv nltb nleb] in *.
  replace (0 + 1 / 2 / 1) with (1 / 2) by field. replace (1 / 2 + 1 / 2 / 1) with 1 by field.
  replace (Rltb (1 + neps R_ops) (1 / 2)) with false by (unfold Rltb; destruct (Rlt_dec _ _); auto; lra).
  replace (Rltb (1 + neps R_ops) 1) with false by (unfold Rltb; destruct (Rlt_dec _ _); auto; lra).
  replace (Rleb 1 (1 / 2)) with false by (unfold Rleb; destruct (Rle_dec _ _); auto; lra). cbn [orb andb]. rewrite andb_false_r.
  destruct (Rltb (gr g (nr g)) (1 / 2)); [reflexivity|].
  replace (Rltb (gr g (nr g)) 1) with true by (unfold Rltb; destruct (Rlt_dec _ _); auto; lra). reflexivity.
Qed.
Lemma one_outcome : forall (n : @cnode bool bool) (g : rng R), gr g (nr g) < 1 -> ments_sample two_mc n g = Ok (true, adv g).
Proof.
  intros n g G1. pose proof neps_pos as E. unfold ments_sample, sample_from_distribution, get_rand_uniform. cbn [two_mc mdistr sample_loop none_ nzero R_ops nadd ndiv nltb nleb] in *.
  replace (0 + 1 / 1) with 1 by field.
  replace (Rltb (1 + neps R_ops) 1) with false by (unfold Rltb; destruct (Rlt_dec _ _); auto; lra).
  rewrite andb_false_r. cbn [orb]. replace (Rltb (gr g (nr g)) 1) with true by (unfold Rltb; destruct (Rlt_dec _ _); auto; lra). reflexivity.
Qed.
Lemma two_weights : forall t v1 v2, exists w1 w2 sum nt, ments_weights Bool.eqb t [(true, v1); (false, v2)] = ([(true, w1); (false, w2)], sum, nt).
Proof. intros. unfold ments_weights, weight_loop. cbn. do 4 eexists. reflexivity. Qed.
Lemma two_distr : forall (n : @dnode bool bool) q, (forall a, exists v, q a = Ok v) -> dstate n = false -> (1 <= dvisits n <= 2)%Z ->
  action_distr Bool.eqb two_conf two_mc n q = Ok (Some [(true, 1/2); (false, 1/2)]).
Proof.
  intros n q Hq Sn Vn. destruct (Hq true) as (v1 & E1). destruct (Hq false) as (v2 & E2). unfold action_distr. cbn [two_conf acts all_q].
  rewrite E1, E2. cbn [bind]. destruct (two_weights (ments_temp two_mc n) v1 v2) as (w1 & w2 & sum & nt & ->). now apply two_mix.
Qed.
Lemma two_q : forall (n : @dnode bool bool) x kids a, exists v, ments_q Bool.eqb two_mc n x kids a = Ok v.
Proof. intros n x kids a. unfold ments_q. destruct (lookup _ _ _) as [[c y]|]; eexists; reflexivity. Qed.
Lemma two_est_q : forall (n : @dnode bool bool) off kids a, exists v, est_q Bool.eqb two_mc n off kids a = Ok v.
Proof. intros n x kids a. unfold est_q. destruct (lookup _ _ _) as [[c y]|]; eexists; reflexivity. Qed.
Lemma two_ments : exists s, areach Bool.eqb Bool.eqb two_conf (ments Bool.eqb two_conf two_mc) 1 g_two s /\ quiet (base s) /\ count is_done (etrace (base s)) = 2%Z /\ explored Bool.eqb two_conf (mem (base s)).
Proof.
  apply two_trials with (oks := fun _ => True) (okc := fun _ => True); auto.
  - intros n x kids cx g Sn Vn G1. cbn [select ments]. unfold ments_select. rewrite two_distr by (auto; intros a; apply two_q). cbn [bind]. now rewrite two_draw.
  - intros n x cx g G1. cbn [sample ments]. now rewrite one_outcome.
  - intros. eexists. split; [reflexivity|exact Logic.I].
  - intros n x k kids cx b. intros _. cbn [back_d ments]. unfold ments_backup_d. cbn [two_conf acts all_q].
    destruct (two_q n x (k :: kids) true) as (v1 & ->). destruct (two_q n x (k :: kids) false) as (v2 & ->). cbn [bind].
    destruct (ments_weights _ _ _) as [[w sum] nt]. eexists. reflexivity.
Qed.
Lemma two_est : exists s, areach Bool.eqb Bool.eqb two_conf (est Bool.eqb two_conf two_mc) 1 g_two s /\ quiet (base s) /\ count is_done (etrace (base s)) = 2%Z /\
  explored Bool.eqb two_conf (mem (base s)).
Proof.
  apply two_trials with (oks := fun x : dcmem => (0 <= v_nb (dc_dp x))%Z) (okc := fun x : dcmem => (0 < v_nb (dc_dp x))%Z); auto.
  - intros n x kids cx g Sn Vn G1. cbn [select est]. unfold est_select. rewrite two_distr by (auto; intros a; apply two_est_q). cbn [bind]. now rewrite two_draw.
  - intros n x cx g G1. cbn [sample est]. now rewrite one_outcome.
  - intros n. cbn. lia.
  - intros n x kids cx b Ok0. eexists. split; [reflexivity|]. cbn. lia.
  - intros n x [a [c y]] kids cx b Oy. cbn [snd] in Oy. cbn [back_d est]. unfold est_backup_d, value_backup_d, dp_backup_d. cbn [two_mc muse_dp members map snd].
    unfold dp_loop. cbn [fold_left]. unfold dp_step at 2. cbn [fst snd]. destruct (v_nb (dc_dp y) =? 0)%Z eqn:E; [lia|].
    match goal with |- context [fold_left ?f _ (Some _)] => assert (K : forall l0 v0, exists v1, fold_left f l0 (Some v0) = Some v1) end.
    { clear. induction l0 as [|p l0 IH]; intros v0; cbn [fold_left]; [eauto|]. unfold dp_step at 2. destruct (fst p =? 0)%Z; [apply IH|]. destruct (Rltb _ _); apply IH. }
    match goal with |- context [fold_left ?f ?l (Some ?v)] => destruct (K l v) as (v' & ->) end. eexists. reflexivity.
Qed.
