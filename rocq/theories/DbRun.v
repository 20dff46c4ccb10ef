(** Searches of DB-MENTS and EST. *)
From Coq Require Import List ZArith Bool Reals Lia Lra Permutation.
From Verif Require Import QuietSpec AlgoFinish Base BaseProofs NumOps RLemmas HelperModel HelperSpec HelperProofs EngineModel EngineSpec EngineProofs
  EngineInv MapModel MapProofs AlgoModel AlgoProofs AlgoTheorems AlgoNodes AlgoSafe UctModel MentsModel SoftSpec SoftProofs
  MentsSpec MentsProofs MentsPolicy MentsRun SoftResults DentsSpec DpRun FamilyRun.
Import ListNotations.
Open Scope R_scope.

(** Looks of DB-MENTS and DENTS. *)
Lemma dbments_looks : forall S A aeqb (C : @econf S A) M, looks_at_most (dbments aeqb C M) 2.
Proof.
  intros S A aeqb C M. exists (fun cx => 1 - length (fst cx) + (1 - length (snd cx)))%nat. split; [intros cx; lia|].
  split; intros kids cx cx1 E; [exact (note_left _ _ 1 1 _ _ _ E)|exact (note2_left _ _ 1 1 _ _ _ E)].
Qed.
Lemma dents_looks : forall S A aeqb (C : @econf S A) M, looks_at_most (dents aeqb C M) 3.
Proof.
  intros S A aeqb C M. set (kd := if muse_dp M then 2%nat else 1%nat). set (kc := if muse_dp M then 1%nat else 0%nat).
  exists (fun cx => kd - length (fst cx) + (kc - length (snd cx)))%nat. split; [intros cx; subst kd kc; destruct (muse_dp M); lia|].
  split; intros kids cx cx1 E; [exact (note_left _ _ kd kc _ _ _ E)|exact (note2_left _ _ kd kc _ _ _ E)].
Qed.

(** Invariants that hold under a condition, and the one on visits. *)
Section When.
Context {S A : Type}.
Variable C : @econf S A.
Variable G : @algo S A.
Notation dnode := (@dnode S A).
Notation cnode := (@cnode S A).
Lemma rules_when : forall (b : bool) (PD : dnode -> XD G -> Prop) (PC : cnode -> XC G -> Prop) (PX : list A -> CX G -> Prop) (QC : cnode -> XC G -> Prop),
  (b = true -> node_rules C G PD PC PX QC) ->
  node_rules C G (fun n x => b = true -> PD n x) (fun n x => b = true -> PC n x) (fun l cx => b = true -> PX l cx)
    (fun n x => b = true -> QC n x).
Proof.
  intros b PD PC PX QC H. destruct b; [|constructor; intros; try split; intros; discriminate].
  specialize (H eq_refl). destruct H as [A1 A2 A3 A4 A5 A6 A7 A8 A9 A10 A11 A12 A13 A14 A15 A16 A17].
  assert (Kd : forall n kids, dkids_ok C G (fun n x => true = true -> PC n x) n kids -> dkids_ok C G PC n kids).
  { intros n kids [N K]. split; [exact N|]. intros a c y Q. destruct (K a c y Q). auto. }
  assert (Kc : forall n kids, ckids_ok C G (fun n x => true = true -> PD n x) n kids -> ckids_ok C G PD n kids).
  { intros n kids [N K]. split; [exact N|]. intros a c y Q. destruct (K a c y Q). auto. }
  assert (Sd : forall n a cx, sees_d C G (fun n x => true = true -> PC n x) (fun n x => true = true -> QC n x) n a cx -> sees_d C G PC QC n a cx).
  { intros n a cx Se v J. destruct (Se v J) as [K (c & y & Q & L)]. split; [auto|]. exists c, y. auto. }
  assert (Sc : forall n cx, sees_c C G (fun n x => true = true -> PD n x) n cx -> sees_c C G PD n cx).
  { intros n cx Se v J. auto. }
  constructor.
  1-7: intros; auto.
  - intros n x kids cx b x1 l a l' I P K X D (c0 & y0 & HH & HQ) Se E _. apply (A8 n x kids cx b x1 l a l'); auto. exists c0, y0. auto.
  - intros n x kids cx b x1 I P K Se E. destruct (A9 n x kids cx b x1); auto.
  - auto.
  - auto.
  - auto.
  - intros n x kids cx g a cx1 g1 l I P K X D E _. apply (A13 n x kids cx g a cx1 g1 l); auto.
  - intros n x cx g o cx1 g1 l I P X E _. apply (A14 n x cx g o cx1 g1 l); auto.
  - intros kids cx cx1 l X E _. apply (A15 kids cx cx1 l); auto.
  - intros kids cx cx1 l X E _. apply (A16 kids cx cx1 l); auto.
  - auto.
Qed.
Lemma rules_visits : (0 <= init_visits C)%Z ->
  node_rules C G (fun n _ => (0 <= dvisits n)%Z) (fun _ _ => True) (any_cx G) (fun _ _ => True).
Proof.
  intros H. constructor; auto; try (intros; exact I).
  intros n x P. cbn [visit_d dvisits]. lia.
Qed.
End When.

(** Counts of dynamic programming values. *)
Section Counts.
Context {S A : Type}.
Variable C : @econf S A.
Variable M : @mconf S A.
Variable G : @algo S A.
Variable vD : XD G -> vmem.
Variable vC : XC G -> vmem.
Hypothesis Dp : dp_part M G vD vC.
Notation dnode := (@dnode S A).
Notation cnode := (@cnode S A).
Definition cnt_d (n : dnode) (x : XD G) : Prop := (1 <= v_nb (vD x))%Z.
Definition cnt_c (n : cnode) (x : XC G) : Prop := (0 <= v_nb (vC x))%Z.
Definition cnt_q (n : cnode) (x : XC G) : Prop := (1 <= v_nb (vC x))%Z.
Lemma cnt_rules : node_rules C G cnt_d cnt_c (any_cx G) cnt_q.
Proof using Dp.
  constructor; unfold cnt_d, cnt_c, cnt_q; try (intros; exact I); auto.
  - rewrite (D_new _ _ _ _ Dp). cbn. lia.
  - intros c o _ _. rewrite (D_new _ _ _ _ Dp). cbn. lia.
  - intros n a H _. rewrite (D_newc _ _ _ _ Dp). cbn. lia.
  - intros n x P. rewrite (D_vis _ _ _ _ Dp). unfold dp_visit. destruct (is_leaf C n); cbn; lia.
  - intros n x kids cx b x1 l a l' In1 P K _ _ _ _ E. apply (D_back _ _ _ _ Dp) in E. unfold dp_backup_d in E.
    destruct (dp_loop _ _); [|discriminate]. injection E as E. rewrite <- E. cbn. lia.
  - intros n x kids cx b x1 In1 P [_ K] _ E. apply (D_backc _ _ _ _ Dp) in E. rewrite E. cbn. lia.
Qed.
Lemma cnt_backs : forall n x kids, dkids_ok C G cnt_c n kids -> (exists a c y, In (a, (c, y)) kids /\ cnt_q c y) ->
  exists x1, dp_backup_d M n (vD x) (members vC kids) = Ok x1.
Proof using Type.
  intros n x kids [_ K] (a & c & y & Q & L). destruct (C39_backup' M n (vD x) (members vC kids)) as (v & E & _); [| |eauto].
  - intros b z Iz. unfold members in Iz. apply in_map_iff in Iz. destruct Iz as ([b' [c' y']] & [= <- <-] & Iz). apply (K _ _ _ Iz).
  - exists a, (vC y). split; [|unfold cnt_q in L; lia]. unfold members. apply in_map_iff. exists (a, (c, y)). auto.
Qed.
End Counts.

Section Db.
Context {S A : Type}.
Variable seqb : S -> S -> bool.
Variable aeqb : A -> A -> bool.
Hypothesis seqb_ok : decides seqb.
Hypothesis aeqb_ok : decides aeqb.
Variable C : @econf S A.
Variable M : @mconf S A.
Notation dnode := (@dnode S A).
Notation cnode := (@cnode S A).

Ltac bk :=
  repeat match goal with
  | H : bind ?o _ = Ok _ |- _ => destruct o eqn:?; cbn [bind] in H; try discriminate
  | H : (let '(_, _) := ?p in _) = Ok _ |- _ => destruct p eqn:?
  | H : Ok _ = Ok _ |- _ => injection H; clear H; intros; subst
  end.

Lemma dbments_part : dp_part M (dbments aeqb C M) snd snd.
Proof using Type.
  constructor; auto.
  - intros n x kids cx b x1 E. cbn [back_d dbments] in E. unfold dbments_backup_d in E. bk. auto.
  - intros n x kids cx b x1 E. cbn [back_c dbments] in E. bk. reflexivity.
Qed.
Lemma dents_part : muse_dp M = true -> dp_part M (dents aeqb C M) d_dp dc_dp.
Proof using Type.
  intros U. constructor; auto.
  - intros n x kids cx b x1 E. cbn [back_d dents] in E. unfold dents_backup_d, value_backup_d in E. rewrite U in E. bk. assumption.
  - intros n x kids cx b x1 E. cbn [back_c dents] in E. unfold dents_backup_c, value_backup_c in E. rewrite U in E. bk. reflexivity.
Qed.
Lemma est_part : muse_dp M = true -> dp_part M (est aeqb C M) d_dp dc_dp.
Proof using Type.
  intros U. constructor; auto.
  - intros n x kids cx b x1 E. cbn [back_d est] in E. unfold est_backup_d, value_backup_d in E. rewrite U in E. bk. assumption.
  - intros n x kids cx b x1 E. cbn [back_c est] in E. unfold est_backup_c, value_backup_c in E. rewrite U in E. bk. reflexivity.
Qed.

Hypothesis Mok : ments_ok C M.
Hypothesis Env : env_ok C M.
Hypothesis Pr : prior_ok C M.
Hypothesis Ex : explore_ok M.

(** Selecting by a policy with known values. *)
Lemma policy_step : forall n (qf : A -> outcome R) g, inner C n -> (1 <= dvisits n)%Z -> good_reals g ->
  (forall a, In a (acts C (dstate n)) -> exists v, qf a = Ok v) ->
  (exists a g1, bind (action_distr aeqb C M n qf) (fun d => sample_actions M d g) = Ok (a, g1) /\ In a (acts C (dstate n)) /\ one_real g g1) \/
  (lost_draw aeqb C M n (action_distr aeqb C M n qf) g /\ bind (action_distr aeqb C M n qf) (fun d => sample_actions M d g) = Throw).
Proof using aeqb_ok Mok Env Pr Ex.
  intros n qf g In1 Hv Hg Hq. assert (NE : acts C (dstate n) <> []) by apply Env, In1.
  destruct (distr_policy aeqb aeqb_ok C M Pr Env n qf) as (q & m & _ & E & P); auto.
  { now left. }
  rewrite E. cbn [bind].
  destruct (policy_select aeqb aeqb_ok C M Mok Pr Ex Env n _ m g ltac:(lia) NE P Hg) as [(a & g1 & E1 & O & Ia & _)|[L T]].
  - left. eauto.
  - right. split; auto. eexists _, m. split; [reflexivity|]. split; [exact P|auto].
Qed.

(** ** DB-MENTS *)
Notation db := (dbments aeqb C M).
Definition db_d (n : dnode) (x : XD db) : Prop := (0 <= dvisits n)%Z /\ cnt_d db snd n x.
Definition db_c (n : cnode) (x : XC db) : Prop := True /\ cnt_c db snd n x.
Definition db_x (l : list A) (cx : CX db) : Prop := any_cx db l cx /\ any_cx db l cx.
Definition db_q (n : cnode) (x : XC db) : Prop := True /\ cnt_q db snd n x.
Lemma db_rules : node_rules C db db_d db_c db_x db_q.
Proof using Env.
  apply (rules_and C db _ _ _ _ _ _ _ _ (rules_visits C db (eo_visits _ _ Env)) (cnt_rules C M db snd snd dbments_part)).
Qed.
Lemma db_safe : safe_rules C db db_d db_c db_x db_q (fam_bad aeqb C M db).
Proof using aeqb_ok Mok Env Pr Ex.
  constructor.
  - intros n x kids cx g l In1 [P _] K _ _ Gi Gr. cbn [select dbments vis_d].
    destruct (policy_step (visit_d n) (ments_q aeqb M (visit_d n) (fst (ments_visit (is_leaf C n) (fst x), dp_visit (is_leaf C n) (snd x))) (ontoc fst kids)) g) as [(a & g1 & E & Ia & O)|[L T]]; auto.
    + cbn [visit_d dvisits]. lia.
    + intros a Ia. apply (ments_q_total aeqb aeqb_ok C); auto. now apply pr_total.
    + left. unfold ments_select. rewrite E. cbn [bind]. exists a, cx, g1. split; auto. split; auto. destruct O as (O1 & O2 & _). split; auto.
    + right. unfold ments_select. rewrite T. split; [eexists; exact L|]. intros r. discriminate.
  - intros n x cx g l In1 _ _ Gi Gr. cbn [sample dbments].
    destruct (sample_ok C M Mok Env (visit_c n) g In1 Gr) as (o & g1 & E & Io & St). rewrite E. cbn [bind]. eauto 10.
  - intros n x kids cx b l a l' In1 P K _ _ (c & y & Q & _ & L) _. cbn [back_d dbments]. unfold dbments_backup_d.
    match goal with |- context [ments_backup_d aeqb C M n ?y ?k] => destruct (soft_backup_total aeqb aeqb_ok C M n y k (pr_total C M Pr n)) as (m & ->) end. cbn [bind].
    destruct (cnt_backs C M db snd snd n x kids) as (v & E).
    + destruct K as [N K]. split; [exact N|]. intros a0 c0 y0 Q0. destruct (K _ _ _ Q0) as (K1 & _ & K2). auto.
    + exists a, c, y. auto.
    + assert (E' : dp_backup_d M n (@snd mmem vmem x) (members (X := (cmem * vmem)%type) (@snd cmem vmem) kids) = Ok v) by exact E.
      rewrite E'. cbn [bind]. eauto.
  - intros n x kids cx b In1 P K _. cbn [back_c dbments]. eauto.
Qed.

(** ** EST *)
Notation es := (est aeqb C M).
Definition es_d (n : dnode) (x : XD es) : Prop := (0 <= dvisits n)%Z /\ (muse_dp M = true -> cnt_d es d_dp n x).
Definition es_c (n : cnode) (x : XC es) : Prop := True /\ (muse_dp M = true -> cnt_c es dc_dp n x).
Definition es_x (l : list A) (cx : CX es) : Prop := any_cx es l cx /\ (muse_dp M = true -> any_cx es l cx).
Definition es_q (n : cnode) (x : XC es) : Prop := True /\ (muse_dp M = true -> cnt_q es dc_dp n x).
Lemma es_rules : node_rules C es es_d es_c es_x es_q.
Proof using Env.
  apply (rules_and C es _ _ _ _ _ _ _ _ (rules_visits C es (eo_visits _ _ Env))
    (rules_when C es (muse_dp M) _ _ _ _ (fun U => cnt_rules C M es d_dp dc_dp (est_part U)))).
Qed.
Lemma value_backs : forall (G : @algo S A) (f : XD G -> vmem) (h : XC G -> vmem) n x (xm : dmem) (kids : list (A * (cnode * XC G))) (kids' : list (A * (cnode * dcmem))) ret,
  (muse_dp M = true -> dp_part M G f h) -> (muse_dp M = true -> d_dp xm = f x /\ members dc_dp kids' = members h kids) ->
  dkids_ok C G (fun n x => True /\ (muse_dp M = true -> cnt_c G h n x)) n kids ->
  (exists a c y, In (a, (c, y)) kids /\ (muse_dp M = true -> cnt_q G h c y)) ->
  exists p, value_backup_d M n xm kids' ret = Ok p.
Proof using Type.
  intros G f h n x xm kids kids' ret Pa Eq [N K] (a & c & y & Q & L). unfold value_backup_d. destruct (muse_dp M) eqn:U; [|eauto].
  destruct (Eq eq_refl) as [-> ->]. destruct (cnt_backs C M G f h n x kids) as (v & ->).
  - split; [exact N|]. intros a0 c0 y0 Q0. destruct (K _ _ _ Q0) as (K1 & _ & K2). auto.
  - exists a, c, y. split; auto.
  - cbn [bind]. eauto.
Qed.
Lemma est_q_total : forall n off (kids : list (A * (cnode * dcmem))) a, In a (acts C (dstate n)) -> exists v, est_q aeqb M n off kids a = Ok v.
Proof using aeqb_ok Pr.
  intros n off kids a Ia. unfold est_q. destruct (lookup aeqb a kids) as [[c y]|]; [eauto|].
  destruct (unexpanded_total aeqb aeqb_ok C M n off a (pr_total C M Pr n) Ia) as (v & E). eauto.
Qed.
Lemma es_safe : safe_rules C es es_d es_c es_x es_q (fam_bad aeqb C M es).
Proof using aeqb_ok Mok Env Pr Ex.
  constructor.
  - intros n x kids cx g l In1 [P _] K _ _ Gi Gr. cbn [select est vis_d].
    destruct (policy_step (visit_d n) (est_q aeqb M (visit_d n) (d_off (dents_visit (is_leaf C n) x)) kids) g) as [(a & g1 & E & Ia & O)|[L T]]; auto.
    + cbn [visit_d dvisits]. lia.
    + intros a Ia. now apply est_q_total.
    + left. unfold est_select. rewrite E. cbn [bind]. exists a, cx, g1. split; auto. split; auto. destruct O as (O1 & O2 & _). split; auto.
    + right. unfold est_select. rewrite T. split; [eexists; exact L|]. intros r. discriminate.
  - intros n x cx g l In1 _ _ Gi Gr. cbn [sample est].
    destruct (sample_ok C M Mok Env (visit_c n) g In1 Gr) as (o & g1 & E & Io & St). rewrite E. cbn [bind]. eauto 10.
  - intros n x kids cx b l a l' In1 P K _ _ (c & y & Q & _ & L) _. cbn [back_d est]. unfold est_backup_d.
    destruct (value_backs es d_dp dc_dp n x x kids kids (b_tafter b) est_part (fun _ => conj eq_refl eq_refl) K) as ([dp emp] & E).
    + exists a, c, y. auto.
    + rewrite E. cbn [bind]. eauto.
  - intros n x kids cx b In1 P K _. cbn [back_c est]. eauto.
Qed.
End Db.
