(** Every action is tried often, at every node, for all but a small share of the draws *)
From Coq Require Import List ZArith Bool Reals Lia Lra Psatz Classical.
From Verif Require Import Base BaseProofs NumOps HelperModel HelperSpec HelperProofs EngineModel EngineSpec EngineProofs EngineInv EngineCount AlgoModel AlgoProofs
  UctModel UctSpec ExploreSpec ExploreProofs SoftSpec SoftProofs WorldSpec ConvSpec OddsSpec OddsCover OddsStep OddsAvg OddsVille OddsFair OddsNodes OddsLaw OddsTry.
Import ListNotations.
Open Scope R_scope.

Lemma selected_app' : forall S A d (l l' : list (nat * @event S A)), selected d (l ++ l') = selected d l ++ selected d l'.
Proof. intros S A d l l'. unfold selected. apply flat_map_app. Qed.
Lemma gstep_sel : forall S A seqb aeqb (C : @econf S A) b b1, gstep seqb aeqb C b b1 -> exists evs, etrace b1 = evs ++ etrace b /\ forall d, (length (selected d evs) <= 1)%nat.
Proof.
  intros S A seqb aeqb C b b1 St. destruct St; cbn [etrace];
    first [eexists [_]; split; [reflexivity|] | eexists [_; _]; split; [reflexivity|]]; intros c'; unfold selected; cbn; try lia; destruct (Nat.eqb _ _); cbn; lia.
Qed.

Section Often.
Context {S A : Type}.
Variable seqb : S -> S -> bool.
Variable aeqb : A -> A -> bool.
Hypothesis seqb_ok : decides seqb.
Hypothesis aeqb_ok : decides aeqb.
Variable C : @econf S A.
Hypothesis NoTT : use_tt C = false.
Variable distr : S -> A -> list (S * R).
Notation ereach := (ereach seqb aeqb C).
Notation tried := (tried aeqb C).
Notation times := (times aeqb).

Section Main.
Variable Bn Na : nat.
Hypothesis HBn : forall n b, ereach n b -> (length (dh (mem b)) <= Bn)%nat.
Hypothesis HNa : forall n b d nd, ereach n b -> nth_error (dh (mem b)) d = Some nd -> (length (acts C (dstate nd)) <= Na)%nat.
Variable delta : R.
Hypothesis Hd : 0 < delta.
Definition cap : R := Rmax 1 (INR Bn * INR Na / delta).
Variable G : @algo S A.
Hypothesis Hsel : forall n x kids cx, exists j, (j <= 1)%nat /\ reads j (select G n x kids cx).
Hypothesis Hsam : forall n x cx, exists cx1, forall g, sample G n x cx g =
  bind (sample_from_distribution R_ops (distr (cstate n) (cact n)) true g) (fun '(o, g1) => Ok (o, cx1, g1)).
Variable n : nat.
Variable ints : nat -> Z.
Hypothesis Ints : forall i, (0 <= ints i)%Z.
Variable N : nat.
Hypothesis Npos : (0 < N)%nat.
Variable sched : nat -> list R -> alabel.
Variable T : nat.
Variable q : R.
Hypothesis Hq : 0 < q <= 1.
Hypothesis Fine : 2 <= q * INR N.
Variable Vm : nat.
Hypothesis Gen : generous seqb aeqb C q Vm G n.
Notation X := (X seqb aeqb C G n ints N sched).
Notation Yt d k := (Y aeqb C q Vm d k).
Definition shuns (m : nat) (u : list nat) : Prop := exists d, In d (seq 0 Bn) /\ exists k, In k (seq 0 Na) /\
  exists k' s, (k' <= m)%nat /\ X k' u = Some s /\ (nr (rg s) <= T)%nat /\ cap <= Yt d k (base s).

Lemma cap_pos : 1 <= cap.
Proof using. apply Rmax_l. Qed.
Lemma cap_big : INR Bn * (INR Na * (1 / cap)) <= delta.
Proof using Hd.
  pose proof cap_pos as P. assert (L : INR Bn * INR Na / delta <= cap) by apply Rmax_r.
  assert (Q : INR Bn * INR Na <= cap * delta). { apply (Rmult_le_compat_r delta) in L; [|lra]. unfold Rdiv in L. rewrite Rmult_assoc, Rinv_l, Rmult_1_r in L by lra. exact L. }
  apply (Rmult_le_reg_r cap); [lra|]. replace (INR Bn * (INR Na * (1 / cap)) * cap) with (INR Bn * INR Na) by (field; lra). lra.
Qed.
Lemma shun_share : forall m, cov N T delta (shuns m).
Proof using seqb_ok aeqb_ok NoTT Hd Hsel Hsam Ints Npos Hq Fine Gen.
  intros m. eapply cov_mono; [apply cap_big|intros w _ h; exact h|].
  rewrite <- (seq_length Bn 0) at 1. rewrite <- rsum_of_const, <- fold_sum. apply cov_any. intros d _.
  rewrite <- (seq_length Na 0) at 1. rewrite <- rsum_of_const, <- fold_sum. apply cov_any. intros k _.
  pose proof cap_pos as P.
  pose proof (ville_run seqb aeqb C G distr Hsel Hsam n ints Ints N Npos sched (Yt d k) (Y_pos aeqb C q Vm d k)) as V.
  eapply cov_mono; [|intros w _ h; exact h|apply V; [|lra]].
  - apply div_le; [lra|]. apply Y_init.
  - intros g s lb f Gi Gr R Hf. apply (Y_sup seqb aeqb seqb_ok aeqb_ok C NoTT N Npos q Hq Fine Vm d k G n Gen g); auto.
Qed.
Lemma often : cov N T delta (fun u => exists k s, X k u = Some s /\ (nr (rg s) <= T)%nat /\ ~ tried (q / 4) (ln cap) Vm (base s)).
Proof using seqb_ok aeqb_ok NoTT Hd Hsel Hsam Ints Npos Hq Fine Gen HBn HNa.
  eapply cov_mono; [apply Rle_refl| |apply (cov_lim N T delta shuns)].
  - intros u (Lu & Hu) (k & s & E & Hn & Nf). destruct (classic (exists m, shuns m u)) as [H|No]; auto. exfalso. apply Nf. clear Nf.
    pose proof cap_pos as P. assert (L0 : 0 <= ln cap). { destruct P as [P|P]; [left; rewrite <- ln_1; apply ln_increasing; lra|rewrite <- P, ln_1; lra]. }
    revert s E Hn. induction k as [|k IH]; intros s E Hn d nd a Hd' Ia.
    + injection E as <-. cbn. rewrite Rmult_0_r. unfold ExploreSpec.times. cbn. lra.
    + pose proof (X_ok seqb aeqb C G n ints N sched _ u s E) as (R0 & _). pose proof (areach_ereach _ _ _ _ _ _ _ R0) as Re.
      assert (Tp : 0 <= IZR (times d a (etrace (base s)))) by (apply IZR_le, countb_nonneg).
      destruct (Nat.le_gt_cases (length (selected d (etrace (base s)))) Vm) as [Le|Gt].
      * rewrite Nat.min_l by auto. destruct (In_nth_error _ _ Ia) as (i & Hi).
        assert (Low : Yt d i (base s) < cap).
        { apply Rnot_le_lt. intros Bad. apply No. exists (Datatypes.S k). exists d. split. { apply in_seq. pose proof (HBn n _ Re). assert (d < length (dh (mem (base s))))%nat by (apply nth_error_Some; congruence). lia. }
          exists i. split. { apply in_seq. pose proof (HNa n _ d nd Re Hd'). assert (i < length (acts C (dstate nd)))%nat by (apply nth_error_Some; congruence). lia. }
          exists (Datatypes.S k), s. repeat (split; auto). }
        unfold Y in Low. rewrite Hd', Hi in Low. replace (Nat.leb _ Vm) with true in Low by (symmetry; now apply Nat.leb_le). rewrite <- (exp_ln cap) in Low by lra. apply exp_lt_inv in Low. lra.
      * rewrite Nat.min_r by lia. destruct (Nat.eq_dec Vm 0) as [->|Nv]; [cbn; rewrite Rmult_0_r; lra|].
        pose proof E as E0. rewrite X_next in E. destruct (X k u) as [s1|] eqn:E1; [|discriminate].
        pose proof (X_mono seqb aeqb C G distr Hsel Hsam n ints Ints N Npos sched k u s1 s Hu E1 E0) as Mo.
        pose proof (X_ok seqb aeqb C G n ints N sched k u s1 E1) as (R1 & _). pose proof (areach_ereach _ _ _ _ _ _ _ R1) as Re1.
        destruct (ereach_good seqb aeqb seqb_ok aeqb_ok C _ _ Re1) as [_ Sf]. specialize (IH s1 eq_refl ltac:(lia)).
        apply live_some in E. destruct E as (E & _). destruct (astep_estep _ _ _ _ _ _ _ E) as [Eb|(le & Eb)].
        -- rewrite Eb in *. specialize (IH d nd a Hd' Ia). rewrite Nat.min_r in IH by lia. exact IH.
        -- pose proof (estep_gstep seqb aeqb seqb_ok aeqb_ok C _ _ _ Sf Eb) as Gs. destruct (gstep_sel _ _ _ _ _ _ _ Gs) as (evs & Ee & L1). specialize (L1 d).
           pose proof (mstep_ext _ _ C _ _ (gstep_mstep _ _ _ _ _ Gs)) as Ex. rewrite Ee, selected_app', app_length in Gt. unfold ExploreSpec.times. rewrite Ee, selected_app', countb_app.
           destruct (nth_error (dh (mem (base s1))) d) as [nd1|] eqn:Hd1.
           ++ destruct (xt_d _ _ _ _ Ex d nd1 Hd1) as (x' & Hx' & Es & _). rewrite Hd' in Hx'. injection Hx' as <-. rewrite Es in Ia. specialize (IH d nd1 a Hd1 Ia). rewrite Nat.min_r in IH by lia.
              unfold ExploreSpec.times in IH. pose proof (countb_nonneg _ (aeqb a) (selected d evs)) as Cn. rewrite plus_IZR. apply IZR_le in Cn. lra.
           ++ rewrite (selected_none seqb aeqb seqb_ok aeqb_ok C n _ d Re1 Hd1) in Gt. cbn in Gt. lia.
  - intros m m' u Hm (d & Id & k & Ik & k' & s & Hk & E). exists d. split; auto. exists k. split; auto. exists k', s. split; [lia|auto].
  - exact shun_share.
Qed.
End Main.

(** For every share there is a constant such that every action gets its share of the selections at every node up to this constant;
    it depends on the environment only. *)
Theorem trying : forall delta, 0 < delta -> exists B0, forall G n ints N sched T q Vm,
  (forall n x kids cx, exists j, (j <= 1)%nat /\ reads j (select G n x kids cx)) ->
  (forall n x cx, exists cx1, forall g, sample G n x cx g = bind (sample_from_distribution R_ops (distr (cstate n) (cact n)) true g) (fun '(o, g1) => Ok (o, cx1, g1))) ->
  (forall i, (0 <= ints i)%Z) -> (0 < N)%nat -> 0 < q <= 1 -> 2 <= q * INR N -> generous seqb aeqb C q Vm G n ->
  all_but delta N T (fun u => forall k s, follow seqb aeqb C G sched k (ainit C G n (dice ints N u)) = Some s -> (nr (rg s) <= T)%nat -> tried (q / 4) B0 Vm (base s)).
Proof using seqb_ok aeqb_ok NoTT.
  intros delta Hd. destruct (few_decisions seqb aeqb seqb_ok aeqb_ok C) as (Bn & HBn). destruct (level_bound seqb aeqb seqb_ok aeqb_ok C (fun s => length (acts C s))) as (Na & HNa).
  exists (ln (cap Bn Na delta)). intros G n ints N sched T q Vm Hsel Hsam Ints Npos Hq Fine Gen. apply cov_all_but; [|intros u; apply classic].
  eapply cov_mono; [apply Rle_refl| |apply (often Bn Na HBn HNa delta Hd G Hsel Hsam n ints Ints N Npos sched T q Hq Fine Vm Gen)].
  intros u _ H. apply NNPP. intros No. apply H. intros k s E Hn. apply NNPP. intros Nf. apply No. destruct (X_base seqb aeqb C G n ints N sched k u s E) as (k' & s' & E' & Eb & En). exists k', s'. rewrite Eb, En. split; [exact E'|auto].
Qed.
End Often.
