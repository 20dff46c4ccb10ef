(** Searches that keep trying every action explore and sample the whole environment, with probability close to one. *)
From Coq Require Import List ZArith Bool Reals Lia Lra.
From Verif Require Import Base BaseProofs NumOps HelperModel HelperSpec EngineModel EngineSpec EngineProofs EngineInv AlgoModel AlgoProofs AlgoTheorems QuietSpec UctModel UctSpec
  MentsModel SoftSpec MentsSpec TreeSpec TreeTheorems WorldSpec ConvSpec OddsSpec OddsCover OddsStep OddsVille OddsLaw OddsDraws OddsReads OddsNodes OddsTry OddsOften OddsGrow OddsBoldSpec.
Import ListNotations.
Open Scope R_scope.

Section Spread.
Context {S A : Type}.
Variable seqb : S -> S -> bool.
Variable aeqb : A -> A -> bool.
Hypothesis seqb_ok : decides seqb.
Hypothesis aeqb_ok : decides aeqb.
Variable C : @econf S A.
Hypothesis NoTT : use_tt C = false.
Hypothesis Depth : (0 <= max_depth C)%Z.
Variable distr : S -> A -> list (S * R).
Hypothesis Dsucc : forall s a, succs C s a = map fst (distr s a).
Hypothesis Dpos : forall s a, is_sink C s = false -> In a (acts C s) -> (forall p, In p (distr s a) -> 0 < snd p) /\ total (distr s a) = 1.

Theorem spread : forall delta q eps, 0 < delta -> 0 < q <= 1 -> 0 < eps -> exists N0 : nat, forall (G : @algo S A) n ints N sched Mt,
  (forall n x kids cx, exists j, (j <= 1)%nat /\ reads j (select G n x kids cx)) ->
  (forall n x cx, exists cx1, forall g, sample G n x cx g = bind (sample_from_distribution R_ops (distr (cstate n) (cact n)) true g) (fun '(o, g1) => Ok (o, cx1, g1))) ->
  (forall i, (0 <= ints i)%Z) -> exact_draws C distr N -> 2 <= q * INR N -> generous seqb aeqb C q N0 G n ->
  surely_but seqb aeqb C G delta n ints N sched Mt (fun s => quiet (base s) -> (Z.of_nat N0 <= count is_done (etrace (base s)))%Z ->
    explored aeqb C (mem (base s)) /\
    forall (M : @mconf S A) w, mdistr M = distr -> (forall y, (Z.abs (w y - reached C y) <= 1)%Z) -> faithful M w eps (mem (base s))).
Proof using seqb_ok aeqb_ok NoTT Depth Dsucc Dpos.
  intros delta q eps Hd Hq He.
  destruct (sampling_fair seqb aeqb seqb_ok aeqb_ok C distr Dsucc Dpos (delta / 2) ltac:(lra)) as (K & HK).
  destruct (trying seqb aeqb seqb_ok aeqb_ok C NoTT distr (delta / 2) ltac:(lra)) as (B0 & HB).
  destruct (grow seqb aeqb seqb_ok aeqb_ok C NoTT Depth distr Dsucc Dpos K (q / 4) B0 eps ltac:(lra) He) as (N0 & HG).
  exists N0. intros G n ints N sched Mt Hsel Hsam Ints (Npos & Mul) Fine Gen T HT.
  destruct (HK G n ints N sched T Hsel Hsam Ints Npos Mul) as (bad1 & Hb1 & P1).
  destruct (HB G n ints N sched T q N0 Hsel Hsam Ints Npos Hq Fine Gen) as (bad2 & Hb2 & P2).
  exists (bad1 ++ bad2). split. { rewrite app_length, plus_INR. lra. }
  intros u Wu Nu s (k & E) Hs Q Hm.
  assert (R : areach seqb aeqb C G n (dice ints N u) s) by (eapply follow_areach; exact E).
  assert (Dr : (nr (rg s) <= T)%nat).
  { pose proof (draws_few seqb aeqb seqb_ok aeqb_ok C Depth G distr Hsel Hsam n (dice ints N u) s eq_refl R) as X. apply Nat2Z.inj_le. nia. }
  destruct (HG n (base s) N0 (areach_ereach seqb aeqb C G _ _ _ R) Q) as (H1 & H2); auto.
  - apply (P1 u Wu) with (k := k); auto. intros I. apply Nu. apply in_or_app. now left.
  - apply (P2 u Wu) with (k := k); auto. intros I. apply Nu. apply in_or_app. now right.
  - split; auto. intros M w Md. apply H2. intros st a. now rewrite Md.
Qed.
End Spread.

(** Errors as small as wanted. *)
Lemma fine_enough : forall Hb Rw err D, 0 <= Hb -> 0 <= Rw -> 0 < err -> exists eps, 0 < eps /\ forall h, (h <= D)%nat -> sampling_error eps Hb Rw h <= err.
Proof.
  intros Hb Rw err D H1 H2 He. set (b := INR D * Hb + INR D * INR D * Rw). pose proof (pos_INR D) as Dp. assert (Bp : 0 <= b) by (unfold b; apply Rplus_le_le_0_compat; repeat apply Rmult_le_pos; auto).
  exists (err / (1 + b)). assert (Ep : 0 < err / (1 + b)) by (apply Rdiv_lt_0_compat; lra). split; auto. intros h Hh. apply le_INR in Hh. pose proof (pos_INR h) as Hp. unfold sampling_error.
  apply Rle_trans with (err / (1 + b) * b).
  - apply Rmult_le_compat_l; [lra|]. unfold b. apply Rplus_le_compat; [now apply Rmult_le_compat_r|]. apply Rmult_le_compat_r; auto.
    apply Rle_trans with (INR h * INR h); [|apply Rmult_le_compat; auto]. destruct h; [cbn; lra|]. rewrite S_INR in *. pose proof (pos_INR h). nra.
  - apply Rmult_le_reg_r with (1 + b); [lra|]. replace (err / (1 + b) * b * (1 + b)) with (err * b) by (field; lra). nra.
Qed.
(** Finitely many values near [v]: those near enough are [v]. *)
Lemma gap : forall T (l : list T) (f : T -> R) v, exists err, 0 < err /\ forall x, In x l -> Rabs (f x - v) <= err -> f x = v.
Proof.
  intros T l f v. induction l as [|x l (e & He & IH)]; [exists 1; split; [lra|intros x []]|].
  destruct (Req_dec (f x) v) as [E|E].
  - exists e. split; auto. intros y [<-|I]; auto.
  - exists (Rmin e (Rabs (f x - v) / 2)). assert (0 < Rabs (f x - v)) by (apply Rabs_pos_lt; lra). pose proof (Rmin_l e (Rabs (f x - v) / 2)). pose proof (Rmin_r e (Rabs (f x - v) / 2)).
    split; [apply Rmin_glb_lt; lra|]. intros y [<-|I] Hy; [lra|]. apply IH; auto. lra.
Qed.
