(** The counters of the algorithms grow by at most one per visit or backup. *)
From Coq Require Import List ZArith Bool Reals Lia Lra.
From Verif Require Import Base BaseProofs NumOps HelperModel EngineModel EngineSpec EngineProofs EngineInv EngineCount EngineResults AlgoModel AlgoProofs AlgoNodes AlgoHist UctModel MentsModel WeightProofs BoundSpec BoundProofs.
Import ListNotations.
Open Scope Z_scope.

Section Slow.
Context {S A : Type}.
Variable seqb : S -> S -> bool.
Variable aeqb : A -> A -> bool.
Hypothesis seqb_ok : decides seqb.
Hypothesis aeqb_ok : decides aeqb.
Variable C : @econf S A.
Variable G : @algo S A.
Variable nb : XD G -> Z.
Variable nbc : XC G -> Z.
Variable k0 : Z.
Record slow : Prop := mkSlow {
  W_new : forall n, 0 <= nb (new_xd G n) <= k0;
  W_newc : forall n, 0 <= nbc (new_xc G n) <= k0;
  W_vis : forall leaf x, nb x <= nb (vis_d G leaf x) <= nb x + (if leaf then 1 else 0);
  W_back : forall n x kids cx b x1, back_d G n x kids cx b = Ok x1 -> nb x <= nb x1 <= nb x + 1;
  W_backc : forall n x kids cx b x1, back_c G n x kids cx b = Ok x1 -> nbc x <= nbc x1 <= nbc x + 1
}.
Hypothesis Sl : slow.
Definition low_d (n : dnode) (l : list R) (x : XD G) : Prop :=
  0 <= nb x <= k0 + (if is_leaf C n then dvisits n - init_visits C else Z.of_nat (length l)).
Definition low_c (n : @cnode S A) (l : list R) (x : XC G) : Prop := 0 <= nbc x <= k0 + Z.of_nat (length l).
Lemma low_rules : hist_rules C G low_d low_c.
Proof using All.
  constructor; unfold low_d, low_c; auto.
  - intros. pose proof (W_new Sl (new_dnode C o k t)). cbn [length new_dnode dvisits]. destruct (is_leaf _ _); lia.
  - intros. pose proof (W_newc Sl (new_cnode o a k t)). cbn [length]. lia.
  - intros n l x H. pose proof (W_vis Sl (is_leaf C n) x). change (is_leaf C (visit_d n)) with (is_leaf C n). cbn [visit_d dvisits]. destruct (is_leaf C n); lia.
  - intros n l x kids cx b x1 In H B. pose proof (W_back Sl _ _ _ _ _ _ B). unfold inner in In. cbn [length].
    destruct (is_leaf C n) eqn:L; [|lia]. unfold is_leaf in L. destruct In as [I1 I2]. rewrite I1 in L. cbn in L. apply Z.leb_le in L. lia.
  - intros n l x kids cx b x1 H B. pose proof (W_backc Sl _ _ _ _ _ _ B). cbn [length]. lia.
Qed.
Lemma slow_bound : forall n g s, areach seqb aeqb C G n g s ->
  (forall d x, nth_error (xds s) d = Some x -> 0 <= nb x <= k0 + count is_start (etrace (base s))) /\
  (forall c x, nth_error (xcs s) c = Some x -> 0 <= nbc x <= k0 + count is_start (etrace (base s))).
Proof using All.
  intros n g s R. pose proof (areach_ereach seqb aeqb C G _ _ _ R) as E. pose proof (areach_good seqb aeqb seqb_ok aeqb_ok C G _ _ _ R) as I.
  destruct (hist_reach seqb aeqb seqb_ok aeqb_ok C G _ _ low_rules _ _ _ R) as (H1 & _ & H2 & _).
  destruct (node_visits seqb aeqb seqb_ok aeqb_ok C n (base s) E) as [V1 V2]. destruct (C10_always' seqb aeqb seqb_ok aeqb_ok C n (base s) E) as [B1 B2]. split.
  - intros d x Hx. destruct (nth_error (dh (mem (base s))) d) as [node|] eqn:Hd.
    + specialize (H1 d x node Hx Hd). unfold low_d in H1. rewrite returns_count_d in H1. specialize (V1 d node Hd). destruct (B1 d node Hd) as [B3 B4].
      pose proof (count_pos (ends_at d) (etrace (base s))). destruct (is_leaf C node); lia.
    + apply nth_error_None in Hd. assert (d < length (xds s))%nat by (apply nth_error_Some; congruence). rewrite (ag_d _ _ _ _ s I) in *. lia.
  - intros d x Hx. destruct (nth_error (ch (mem (base s))) d) as [node|] eqn:Hd.
    + specialize (H2 d x node Hx Hd). unfold low_c in H2. rewrite returns_count_c in H2. specialize (V2 d node Hd). destruct (B2 d node Hd) as [B3 B4]. lia.
    + apply nth_error_None in Hd. assert (d < length (xcs s))%nat by (apply nth_error_Some; congruence). rewrite (ag_c _ _ _ _ s I) in *. lia.
Qed.
End Slow.

Section Algorithms.
Context {S A : Type}.
Variable aeqb : A -> A -> bool.
Variable C : @econf S A.
Ltac bk :=
  repeat match goal with
  | H : bind ?o _ = Ok _ |- _ => destruct o eqn:?; cbn [bind] in H; try discriminate
  | H : (let '(_, _) := ?p in _) = Ok _ |- _ => destruct p eqn:?
  | H : Ok _ = Ok _ |- _ => injection H; clear H; intros; subst
  end.
Lemma uct_slow : forall (U : @uconf S A), 0 <= upseudo U -> slow (uct aeqb C U) unb unb (upseudo U).
Proof.
  intros U P. constructor; cbn; try lia.
  - intros n. unfold uct_new_d. destruct (heuristic C); cbn; lia.
  - intros [] x; lia.
  - intros n x kids cx b x1 [= <-]. cbn. lia.
  - intros n x kids cx b x1 [= <-]. cbn. lia.
Qed.
Variable M : @mconf S A.
Lemma ments_slow : slow (ments aeqb C M) m_nb c_nb 0.
Proof.
  constructor; cbn; try lia.
  - intros [] x; cbn; lia.
  - intros n x kids cx b x1 H. unfold ments_backup_d in H. bk. cbn. lia.
  - intros n x kids cx b x1 [= <-]. cbn. lia.
Qed.
Lemma rents_slow : slow (rents aeqb C M) m_nb c_nb 0.
Proof.
  constructor; cbn; try lia.
  - intros [] x; cbn; lia.
  - intros n x kids cx b x1 H. unfold rents_backup_d in H. bk. cbn. lia.
  - intros n x kids cx b x1 [= <-]. cbn. lia.
Qed.
Lemma tents_slow : slow (tents aeqb C M) (fun x => m_nb (t_m x)) c_nb 0.
Proof.
  destruct (WeightProofs.tents_counter aeqb C M) as [N1 N2 N3]. constructor; [| | | |intros n x kids cx b x1 [= <-]; cbn; lia].
  - intros n. pose proof (N1 n). cbn in *. lia.
  - intros n. cbn. lia.
  - intros leaf x. pose proof (N2 leaf x). cbn in *. destruct leaf; lia.
  - intros n x kids cx b x1 H. pose proof (N3 n x kids cx b x1 H) as N. clear - N. cbv beta in *. lia.
Qed.
Lemma dbments_slow : slow (dbments aeqb C M) (fun x => m_nb (fst x)) (fun x => c_nb (fst x)) 0 /\ slow (dbments aeqb C M) (fun x => v_nb (snd x)) (fun x => v_nb (snd x)) 1.
Proof.
  split.
  - destruct (WeightProofs.dbments_counter aeqb C M) as [N1 N2 N3]. constructor; [| | | |intros n x kids cx b x1 [= <-]; cbn; lia].
    + intros n. pose proof (N1 n). cbn in *. lia.
    + intros n. cbn. lia.
    + intros leaf x. pose proof (N2 leaf x). cbn in *. destruct leaf; lia.
    + intros n x kids cx b x1 H. pose proof (N3 n x kids cx b x1 H) as N. clear - N. cbv beta in *. lia.
  - destruct (WeightProofs.dbments_dp_counter aeqb C M) as [N1 N2 N3]. constructor; [| | | |intros n x kids cx b x1 [= <-]; cbn; lia].
    + intros n. pose proof (N1 n). cbn in *. lia.
    + intros n. cbn. lia.
    + intros leaf x. pose proof (N2 leaf x). cbn in *. destruct leaf; lia.
    + intros n x kids cx b x1 H. pose proof (N3 n x kids cx b x1 H) as N. clear - N. cbv beta in *. lia.
Qed.
Lemma dp_nb : forall n x kids y, dp_backup_d M n x kids = Ok y -> v_nb y = v_nb x + 1.
Proof. intros n x kids y H. unfold dp_backup_d in H. destruct (dp_loop _ _); [|discriminate]. injection H as <-. reflexivity. Qed.
Lemma value_nb : forall n x kids ret p, value_backup_d M n x kids ret = Ok p -> v_nb (d_dp x) <= v_nb (fst p) <= v_nb (d_dp x) + 1 /\ v_nb (d_emp x) <= v_nb (snd p) <= v_nb (d_emp x) + 1.
Proof.
  intros n x kids ret p H. unfold value_backup_d in H. destruct (muse_dp M).
  - destruct (dp_backup_d _ _ _ _) as [v| |] eqn:E; cbn [bind] in H; try discriminate. injection H as <-. apply dp_nb in E. cbn. lia.
  - injection H as <-. cbn. lia.
Qed.
Lemma value_nb_c : forall n x kids ret p, value_backup_c M n x kids ret = p -> v_nb (dc_dp x) <= v_nb (fst p) <= v_nb (dc_dp x) + 1 /\ v_nb (dc_emp x) <= v_nb (snd p) <= v_nb (dc_emp x) + 1.
Proof. intros n x kids ret p H. unfold value_backup_c in H. destruct (muse_dp M); subst p; cbn; lia. Qed.
(** The four counters of EST and DENTS nodes. *)
Definition four_d (x : dmem) : list Z := [d_nb x; v_nb (d_dp x); e_nb (d_ent x); v_nb (d_emp x)].
Definition four_c (x : dcmem) : list Z := [dc_nb x; v_nb (dc_dp x); ec_nb (dc_ent x); v_nb (dc_emp x)].
Lemma ent_nb : forall n x pol kids, e_nb (ent_backup_d aeqb C M n x pol kids) = e_nb x + 1.
Proof. intros n x [|] kids; reflexivity. Qed.
Lemma new_four : forall n i, 0 <= nth i (four_d (dents_new_d aeqb C M n)) 0 <= 1.
Proof.
  intros n [|[|[|[|i]]]]; cbn; try lia.
  - rewrite ent_nb. cbn. lia.
  - destruct i; lia.
Qed.
Lemma new_four_c : forall n i, 0 <= nth i (four_c (dents_new_c M n)) 0 <= 1.
Proof. intros n [|[|[|[|i]]]]; cbn; try lia. destruct i; lia. Qed.
Lemma vis_four : forall leaf x i, nth i (four_d x) 0 <= nth i (four_d (dents_visit leaf x)) 0 <= nth i (four_d x) 0 + (if leaf then 1 else 0).
Proof. intros [] x [|[|[|[|i]]]]; cbn; try lia; destruct i; lia. Qed.
Lemma dents_slow : forall i, slow (dents aeqb C M) (fun x => nth i (four_d x) 0) (fun x => nth i (four_c x) 0) 1.
Proof.
  intros i. constructor.
  - intros n. apply new_four.
  - intros n. apply new_four_c.
  - intros leaf x. apply vis_four.
  - intros n x kids cx b x1 H. cbn in H. unfold dents_backup_d in H. bk.
    match goal with H : value_backup_d _ _ _ _ _ = Ok _ |- _ => destruct (value_nb _ _ _ _ _ H) as [V1 V2] end. cbn [fst snd] in *.
    destruct i as [|[|[|[|i]]]]; cbn; rewrite ?ent_nb; lia.
  - intros n x kids cx b x1 H. cbn in H. unfold dents_backup_c in H. destruct (value_backup_c _ _ _ _ _) as [dp emp] eqn:E. injection H as <-. destruct (value_nb_c _ _ _ _ _ E) as [V1 V2]. cbn [fst snd] in *.
    destruct i as [|[|[|[|i]]]]; cbn; lia.
Qed.
Lemma est_slow : forall i, slow (MentsModel.est aeqb C M) (fun x => nth i (four_d x) 0) (fun x => nth i (four_c x) 0) 1.
Proof.
  intros i. constructor.
  - intros n. apply new_four.
  - intros n. apply new_four_c.
  - intros leaf x. apply vis_four.
  - intros n x kids cx b x1 H. cbn in H. unfold est_backup_d in H. bk.
    match goal with H : value_backup_d _ _ _ _ _ = Ok _ |- _ => destruct (value_nb _ _ _ _ _ H) as [V1 V2] end. cbn [fst snd] in *.
    destruct i as [|[|[|[|i]]]]; cbn; lia.
  - intros n x kids cx b x1 H. cbn in H. unfold est_backup_c in H. destruct (value_backup_c _ _ _ _ _) as [dp emp] eqn:E. injection H as <-. destruct (value_nb_c _ _ _ _ _ E) as [V1 V2]. cbn [fst snd] in *.
    destruct i as [|[|[|[|i]]]]; cbn; lia.
Qed.
End Algorithms.
