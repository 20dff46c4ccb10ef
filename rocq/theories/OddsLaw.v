(** A law of large numbers for the samples of searches *)
From Coq Require Import List ZArith Bool Reals Lia Lra Psatz Classical.
From Verif Require Import Base BaseProofs NumOps HelperModel HelperSpec HelperProofs EngineModel EngineSpec EngineProofs EngineInv EngineCount AlgoModel AlgoProofs
  SoftSpec SoftProofs WorldSpec ConvSpec OddsSpec OddsCover OddsStep OddsAvg OddsVille OddsFair OddsNodes.
Import ListNotations.
Open Scope R_scope.

(** Shares of growing sets of sequences that stay below a bound have a union below it. *)
Lemma cov_lim : forall N T a (P : nat -> list nat -> Prop), (forall m m' u, (m <= m')%nat -> P m u -> P m' u) -> (forall m, cov N T a (P m)) -> cov N T a (fun u => exists m, P m u).
Proof.
  intros N T a P Mo H.
  assert (X : forall l : list (list nat), exists M, forall u, In u l -> (exists m, P m u) -> P M u).
  { induction l as [|u l (M & IH)]; [exists 0%nat; intros u []|]. destruct (classic (exists m, P m u)) as [(m & Pm)|No].
    - exists (Nat.max m M). intros u' [<-|I] E; [eapply Mo; [|exact Pm]; lia|]. eapply Mo; [|apply IH; eauto]. lia.
    - exists M. intros u' [<-|I] E; [destruct (No E)|auto]. }
  destruct (X (all_words N T)) as (M & HM). eapply cov_mono; [apply Rle_refl| |apply (H M)]. intros w Ww E. apply HM; auto. now apply all_words_in.
Qed.

Lemma sum_swap : forall X (f : nat -> X -> R) n l, rsum_of (fun x => sum_to n (fun k => f k x)) l = sum_to n (fun k => rsum_of (f k) l).
Proof. intros X f n l. induction n as [|n IH]; cbn; [rewrite rsum_of_const; ring|]. now rewrite rsum_of_plus, IH. Qed.
Lemma sum_one : forall n k (f : nat -> R), (k < n)%nat -> sum_to n (fun j => f j * (if Nat.eqb k j then 1 else 0)) = f k.
Proof.
  induction n as [|n IH]; intros k f H; [lia|]. cbn [sum_to]. destruct (Nat.eq_dec k n) as [->|].
  - rewrite Nat.eqb_refl. rewrite (sum_to_ext n _ (fun _ => 0)). { rewrite sum_to_const. ring. }
    intros j Hj. replace (Nat.eqb n j) with false by (symmetry; apply Nat.eqb_neq; lia). ring.
  - rewrite IH by lia. replace (Nat.eqb k n) with false by (symmetry; now apply Nat.eqb_neq). ring.
Qed.
Lemma sum_to_abs : forall n f b, (forall k, (k < n)%nat -> Rabs (f k) <= b) -> Rabs (sum_to n f) <= INR n * b.
Proof.
  induction n as [|n IH]; intros f b H; [cbn; rewrite Rabs_R0; lra|]. cbn [sum_to]. rewrite S_INR. eapply Rle_trans; [apply Rabs_triang|].
  pose proof (IH f b ltac:(intros; apply H; lia)). pose proof (H n ltac:(lia)). lra.
Qed.

Section Rank.
Context {S : Type}.
Variable seqb : S -> S -> bool.
Hypothesis seqb_ok : decides seqb.
Fixpoint rank (D : list (S * R)) (o : S) : nat := match D with [] => 0%nat | p :: D' => if seqb (fst p) o then 0%nat else Datatypes.S (rank D' o) end.
Lemma rank_in : forall D o, In o (map fst D) -> nth_error (map fst D) (rank D o) = Some o.
Proof using seqb_ok.
  induction D as [|p D IH]; intros o I; [destruct I|]. cbn [rank map]. destruct (seqb (fst p) o) eqn:E; [apply seqb_ok in E; cbn; now rewrite E|].
  destruct I as [Eo|I]; [|cbn; auto]. apply seqb_ok in Eo. congruence.
Qed.
Definition hits (D : list (S * R)) (k : nat) (o : S) : R := if Nat.eqb (rank D o) k then 1 else 0.
Lemma by_rank : forall D Om (g : S -> R), (length D <= Om)%nat -> exists G : nat -> R, ((forall o, Rabs (g o) <= 1) -> forall k, Rabs (G k) <= 1) /\
  forall o, In o (map fst D) -> g o = sum_to Om (fun k => G k * hits D k o).
Proof using seqb_ok.
  intros D Om g L. exists (fun k => match nth_error (map fst D) k with Some o => g o | None => 0 end). split.
  - intros H k. destruct (nth_error _ _); auto. rewrite Rabs_R0. lra.
  - intros o I. pose proof (rank_in D o I) as E. unfold hits. rewrite sum_one; [now rewrite E|].
    assert (rank D o < length (map fst D))%nat by (apply nth_error_Some; congruence). rewrite map_length in *. lia.
Qed.
(** If all outcomes are sampled about as often as they should, then all functions have about the right sampled mean. *)
Lemma freq : forall D os Om eta (g : S -> R), (length D <= Om)%nat -> (forall o, In o os -> In o (map fst D)) -> (forall o, Rabs (g o) <= 1) ->
  (forall k, (k < Om)%nat -> Rabs (rsum_of (hits D k) os - INR (length os) * expected (hits D k) D) <= eta) ->
  Rabs (rsum_of g os - INR (length os) * expected g D) <= INR Om * eta.
Proof using seqb_ok.
  intros D os Om eta g L Hos Hg H. destruct (by_rank D Om g L) as (G & G1 & GE). specialize (G1 Hg).
  assert (E1 : rsum_of g os = sum_to Om (fun k => G k * rsum_of (hits D k) os)).
  { rewrite (rsum_of_ext _ g (fun o => sum_to Om (fun k => G k * hits D k o))) by (intros o Io; apply GE; auto).
    rewrite (sum_swap _ (fun k o => G k * hits D k o)). apply sum_to_ext. intros k _. apply rsum_of_scale. }
  assert (E2 : expected g D = sum_to Om (fun k => G k * expected (hits D k) D)).
  { unfold expected. rewrite (rsum_of_ext _ _ (fun p => sum_to Om (fun k => G k * (snd p * hits D k (fst p))))).
    - rewrite (sum_swap _ (fun k p => G k * (snd p * hits D k (fst p)))). apply sum_to_ext. intros k _. apply rsum_of_scale.
    - intros p Ip. rewrite (GE (fst p)) by now apply in_map. rewrite <- sum_to_scal. apply sum_to_ext. intros k _. ring. }
  rewrite E1, E2, <- sum_to_scal.
  replace (sum_to Om (fun k => G k * rsum_of (hits D k) os) - _) with (sum_to Om (fun k => G k * (rsum_of (hits D k) os - INR (length os) * expected (hits D k) D))).
  - apply sum_to_abs. intros k Hk. rewrite Rabs_mult. pose proof (G1 k). pose proof (H k Hk). pose proof (Rabs_pos (G k)).
    pose proof (Rabs_pos (rsum_of (hits D k) os - INR (length os) * expected (hits D k) D)). nra.
  - rewrite (sum_to_ext Om _ (fun k => G k * rsum_of (hits D k) os + (-1) * (INR (length os) * (G k * expected (hits D k) D)))) by (intros; ring).
    rewrite sum_to_add, (sum_to_scal _ (-1)). ring.
Qed.
End Rank.

Lemma gstep_evs : forall S A seqb aeqb (C : @econf S A) b b1, gstep seqb aeqb C b b1 -> exists evs, etrace b1 = evs ++ etrace b /\ forall c, (length (sampled c evs) <= 1)%nat.
Proof.
  intros S A seqb aeqb C b b1 St. destruct St; cbn [etrace];
    first [eexists [_]; split; [reflexivity|] | eexists [_; _]; split; [reflexivity|]]; intros c'; unfold sampled; cbn; try lia; destruct (Nat.eqb _ _); cbn; lia.
Qed.

Section Law.
Context {S A : Type}.
Variable seqb : S -> S -> bool.
Variable aeqb : A -> A -> bool.
Hypothesis seqb_ok : decides seqb.
Hypothesis aeqb_ok : decides aeqb.
Variable C : @econf S A.
Variable distr : S -> A -> list (S * R).
Hypothesis Dsucc : forall s a, succs C s a = map fst (distr s a).
Hypothesis Dpos : forall s a, is_sink C s = false -> In a (acts C s) -> (forall p, In p (distr s a) -> 0 < snd p) /\ total (distr s a) = 1.
Notation ereach := (ereach seqb aeqb C).

(** Sampled outcomes are possible ones. *)
Lemma sampled_possible : forall n b c x tr later, ereach n b -> nth_error (ch (mem b)) c = Some x -> etrace b = later ++ tr ->
  forall o, In o (sampled c tr) -> In o (map fst (distr (cstate x) (cact x))).
Proof using seqb_ok aeqb_ok Dsucc.
  intros n b c x tr later R Hx Et o I. unfold sampled in I. apply in_flat_map in I. destruct I as ((t & e) & Ie & Io). cbn in Io. destruct e as [| |c' o' d b'| | | | | |]; try destruct Io.
  destruct (Nat.eqb_spec c' c) as [->|]; [|destruct Io]. destruct Io as [<-|[]].
  pose proof (evs_reach seqb aeqb seqb_ok aeqb_ok C _ _ R t (EVisitC c o' d b')) as Ev. destruct Ev as (y & Hy & Ly); [rewrite Et; apply in_or_app; auto|].
  rewrite Hx in Hy. injection Hy as <-. destruct (ereach_good seqb aeqb seqb_ok aeqb_ok C _ _ R) as [I _].
  destruct (wf_c _ _ _ _ (ti_wf _ _ _ _ I) c x o' d Hx Ly) as (nd & _ & _ & _ & _ & Io). now rewrite <- Dsucc.
Qed.

Section Run.
Variable G : @algo S A.
Hypothesis Hsel : forall n x kids cx, exists j, (j <= 1)%nat /\ reads j (select G n x kids cx).
Hypothesis Hsam : forall n x cx, exists cx1, forall g, sample G n x cx g =
  bind (sample_from_distribution R_ops (distr (cstate n) (cact n)) true g) (fun '(o, g1) => Ok (o, cx1, g1)).
Variable n : nat.
Variable ints : nat -> Z.
Hypothesis Ints : forall i, (0 <= ints i)%Z.
Variable N : nat.
Hypothesis Npos : (0 < N)%nat.
Hypothesis Dmul : forall s a, is_sink C s = false -> In a (acts C s) -> multiples N (distr s a).
Variable sched : nat -> list R -> alabel.
Notation X := (X seqb aeqb C G n ints N sched).

(** Every past of the trace is, as far as the samples of one node go, the trace of an earlier state. *)
Lemma past : forall c k u s, (forall i, In i u -> (i < N)%nat) -> X k u = Some s -> forall later tr, etrace (base s) = later ++ tr ->
  exists k' s', X k' u = Some s' /\ (nr (rg s') <= nr (rg s))%nat /\ sampled c (etrace (base s')) = sampled c tr /\ extends_tree seqb aeqb (mem (base s')) (mem (base s)).
Proof using seqb_ok aeqb_ok Hsel Hsam Ints Npos.
  intros c k u. induction k as [|k IH]; intros s Hu E later tr Et.
  - exists 0%nat, s. split; auto. split; auto. split; [|exact (ext_refl seqb aeqb C _)]. injection E as <-. cbn in Et |- *. symmetry in Et. apply app_eq_nil in Et. destruct Et as (_ & ->). reflexivity.
  - pose proof E as E0. rewrite X_next in E. destruct (X k u) as [s1|] eqn:E1; [|discriminate].
    pose proof (X_mono seqb aeqb C G distr Hsel Hsam n ints Ints N Npos sched k u s1 s Hu E1 E0) as Mo.
    pose proof (X_ok seqb aeqb C G n ints N sched k u s1 E1) as (R1 & _).
    pose proof (areach_ereach _ _ _ _ _ _ _ R1) as Re. destruct (ereach_good seqb aeqb seqb_ok aeqb_ok C _ _ Re) as [_ Sf].
    apply live_some in E. destruct E as (E & _). destruct (astep_estep _ _ _ _ _ _ _ E) as [Eb|(le & Eb)].
    + rewrite Eb in Et |- *. destruct (IH s1 Hu eq_refl later tr Et) as (k' & s' & H1 & H2 & H3 & H4). exists k', s'. split; auto. split; [lia|auto].
    + pose proof (estep_gstep seqb aeqb seqb_ok aeqb_ok C _ _ _ Sf Eb) as Gs. destruct (gstep_evs _ _ _ _ _ _ _ Gs) as (evs & Ee & L1).
      pose proof (mstep_ext _ _ C _ _ (gstep_mstep _ _ _ _ _ Gs)) as Ex.
      assert (Old : forall later' tr', etrace (base s1) = later' ++ tr' -> sampled c tr' = sampled c tr ->
        exists k' s', X k' u = Some s' /\ (nr (rg s') <= nr (rg s))%nat /\ sampled c (etrace (base s')) = sampled c tr /\ extends_tree seqb aeqb (mem (base s')) (mem (base s))).
      { intros later' tr' Et' Es. destruct (IH s1 Hu eq_refl later' tr' Et') as (k' & s' & H1 & H2 & H3 & H4). exists k', s'. split; auto. split; [lia|]. split; [congruence|]. eapply ext_trans; eauto. }
      rewrite Ee in Et. destruct (Nat.le_gt_cases (length evs) (length later)) as [Hl|Hl].
      * apply (Old (skipn (length evs) later) tr); auto. apply (f_equal (skipn (length evs))) in Et. rewrite skipn_app, skipn_all, Nat.sub_diag in Et. cbn [app skipn] in Et.
        rewrite Et, skipn_app. replace (length evs - length later)%nat with 0%nat by lia. reflexivity.
      * assert (Etr : tr = skipn (length later) evs ++ etrace (base s1)).
        { apply (f_equal (skipn (length later))) in Et. rewrite skipn_app, (skipn_app _ later), skipn_all, Nat.sub_diag in Et. cbn [app skipn] in Et.
          replace (length later - length evs)%nat with 0%nat in Et by lia. cbn [skipn] in Et. auto. }
        pose proof (L1 c) as L. rewrite <- (firstn_skipn (length later) evs) in L. unfold sampled in L. rewrite flat_map_app, app_length in L. fold (sampled c (skipn (length later) evs)) in L.
        destruct (sampled c (skipn (length later) evs)) as [|o os] eqn:Es.
        -- apply (Old [] (etrace (base s1))); auto. rewrite Etr. unfold sampled in *. rewrite flat_map_app, Es. reflexivity.
        -- exists (Datatypes.S k), s. split; auto. split; auto. split; [|exact (ext_refl seqb aeqb C _)]. rewrite Ee, Etr. rewrite <- (firstn_skipn (length later) evs) at 1. rewrite <- app_assoc.
           unfold sampled. rewrite flat_map_app. destruct (flat_map _ (firstn _ _)); [reflexivity|]. cbn in L. lia.
Qed.
End Run.

Definition side (k : nat) (sgn : bool) (s : S) (a : A) (o : S) : R := if sgn then hits seqb (distr s a) k o else 1 - hits seqb (distr s a) k o.
Lemma side_range : forall k sgn s a o, 0 <= side k sgn s a o <= 1.
Proof using. intros k sgn s a o. unfold side, hits. destruct sgn, (Nat.eqb _ _); lra. Qed.
Lemma drift_eq : forall phi l s a os, drift distr phi l s a os = l * (rsum_of (phi s a) os - INR (length os) * expected (phi s a) (distr s a)) - 2 * l ^ 2 * INR (length os).
Proof using.
  intros phi l s a os. unfold drift. rewrite (rsum_of_ext _ _ (fun o => l * phi s a o + (- l * expected (phi s a) (distr s a) - 2 * l ^ 2))) by (intros; ring).
  rewrite rsum_of_plus, rsum_of_scale, rsum_of_const. ring.
Qed.

Section Numbers.
Variable Bn Om : nat.
Variable delta : R.
Hypothesis Hd : 0 < delta.
Definition eta (j : nat) : R := / (INR (Datatypes.S Om) * INR (Datatypes.S j)).
Definition limit (j : nat) : R := Rmax 1 (2 * INR (Datatypes.S Bn) * INR (Datatypes.S Om) * 2 ^ (Datatypes.S j) / delta).
Definition grade (d : R) : nat := Z.to_nat (up (1 / d)).
Definition enough (d : R) : Z := up (8 * ln (limit (grade d)) / eta (grade d) ^ 2).
Lemma eta_pos : forall j, 0 < eta j <= 1.
Proof using.
  intros j. assert (1 <= INR (Datatypes.S Om)) by (rewrite S_INR; pose proof (pos_INR Om); lra). assert (1 <= INR (Datatypes.S j)) by (rewrite S_INR; pose proof (pos_INR j); lra).
  assert (1 <= INR (Datatypes.S Om) * INR (Datatypes.S j)) by nra. unfold eta. split; [apply Rinv_0_lt_compat; lra|]. rewrite <- Rinv_1. apply Rinv_le_contravar; lra.
Qed.
Lemma limit_pos : forall j, 1 <= limit j.
Proof using. intros j. apply Rmax_l. Qed.
Lemma grade_ok : forall d, 0 < d -> INR (Datatypes.S Om) * eta (grade d) <= d.
Proof using.
  intros d H. unfold eta. assert (0 < INR (Datatypes.S Om)) by (apply lt_0_INR; lia). assert (0 < INR (Datatypes.S (grade d))) by (apply lt_0_INR; lia).
  rewrite Rinv_mult. rewrite <- Rmult_assoc, Rinv_r, Rmult_1_l by lra.
  destruct (archimed (1 / d)) as (U1 & _). assert (P : 0 < 1 / d) by (apply Rdiv_lt_0_compat; lra).
  assert (Q : 1 / d <= INR (Datatypes.S (grade d))).
  { rewrite S_INR. unfold grade. rewrite INR_IZR_INZ, Z2Nat.id by (apply le_IZR; lra). lra. }
  apply (Rmult_le_reg_r (INR (Datatypes.S (grade d)))); auto. rewrite Rinv_l by lra. apply (Rmult_le_compat_l d) in Q; [|lra]. unfold Rdiv in Q. rewrite Rmult_1_l, Rinv_r in Q by lra. exact Q.
Qed.
(** What not reaching the limit says about the deviation. *)
Lemma within : forall j (dev m : R), 0 <= m -> 8 * ln (limit j) / eta j ^ 2 <= m -> exp (eta j / 4 * dev - 2 * (eta j / 4) ^ 2 * m) < limit j -> dev <= eta j * m.
Proof using.
  intros j dev m Hm Hk H. pose proof (eta_pos j) as He. pose proof (limit_pos j) as Hl. rewrite <- (exp_ln (limit j)) in H by lra. apply exp_lt_inv in H.
  set (L := ln (limit j)) in *. set (e := eta j) in *.
  assert (K : 8 * L <= m * e ^ 2). { apply (Rmult_le_compat_r (e ^ 2)) in Hk; [|apply pow2_ge_0]. unfold Rdiv in Hk. rewrite Rmult_assoc, Rinv_l, Rmult_1_r in Hk by (apply pow_nonzero; lra). exact Hk. }
  apply (Rmult_le_reg_l e); [lra|]. nra.
Qed.
Lemma halves : forall m, sum_to m (fun j => delta / 2 ^ Datatypes.S j) <= delta.
Proof using Hd.
  intros m. assert (E : sum_to m (fun j => delta / 2 ^ Datatypes.S j) = delta - delta / 2 ^ m).
  { induction m as [|m IH]; [cbn; field|]. cbn [sum_to]. rewrite IH. cbn [pow]. field; apply pow_nonzero; lra. }
  rewrite E. assert (0 < delta / 2 ^ m) by (apply Rdiv_lt_0_compat; auto; apply pow_lt; lra). lra.
Qed.
Lemma fold_sum : forall X (f : X -> R) l, fold_right Rplus 0 (map f l) = rsum_of f l.
Proof using. intros X f l. induction l as [|x l IH]; [reflexivity|]. cbn [map fold_right]. rewrite rsum_of_cons. congruence. Qed.
Lemma fold_to : forall m (f : nat -> R), fold_right Rplus 0 (map f (seq 0 m)) = sum_to m f.
Proof using.
  induction m as [|m IH]; intros f; auto. rewrite fold_sum, seq_S, rsum_of_app, <- fold_sum, IH. cbn [sum_to]. rewrite rsum_of_cons, rsum_of_nil. cbn [Nat.add]. ring.
Qed.
Lemma few_enough : forall j, INR (Datatypes.S Bn) * (INR (Datatypes.S Om) * (2 * (1 / limit j))) <= delta / 2 ^ Datatypes.S j.
Proof using Hd.
  intros j. set (b := INR (Datatypes.S Bn)). set (o := INR (Datatypes.S Om)). set (q := 2 ^ Datatypes.S j).
  assert (0 < b) by (apply lt_0_INR; lia). assert (0 < o) by (apply lt_0_INR; lia). assert (0 < q) by (apply pow_lt; lra).
  assert (L : 2 * b * o * q / delta <= limit j) by (apply Rmax_r). pose proof (limit_pos j) as L1.
  assert (Q : 2 * b * o * q <= limit j * delta). { apply (Rmult_le_compat_r delta) in L; [|lra]. unfold Rdiv in L. rewrite Rmult_assoc, Rinv_l, Rmult_1_r in L by lra. exact L. }
  replace (b * (o * (2 * (1 / limit j)))) with ((2 * b * o * q) / (limit j * q)) by (field; lra).
  replace (delta / q) with ((limit j * delta) / (limit j * q)) by (field; lra). apply div_le; auto. nra.
Qed.
End Numbers.

Section Main.
Variable Bn Om : nat.
Hypothesis HBn : forall n b, ereach n b -> (length (ch (mem b)) <= Bn)%nat.
Hypothesis HOm : forall n b c x, ereach n b -> nth_error (ch (mem b)) c = Some x -> (length (distr (cstate x) (cact x)) <= Om)%nat.
Variable delta : R.
Hypothesis Hd : 0 < delta.
Variable G : @algo S A.
Hypothesis Hsel : forall n x kids cx, exists j, (j <= 1)%nat /\ reads j (select G n x kids cx).
Hypothesis Hsam : forall n x cx, exists cx1, forall g, sample G n x cx g =
  bind (sample_from_distribution R_ops (distr (cstate n) (cact n)) true g) (fun '(o, g1) => Ok (o, cx1, g1)).
Variable n : nat.
Variable ints : nat -> Z.
Hypothesis Ints : forall i, (0 <= ints i)%Z.
Variable N : nat.
Hypothesis Npos : (0 < N)%nat.
Hypothesis Dmul : forall s a, is_sink C s = false -> In a (acts C s) -> multiples N (distr s a).
Variable sched : nat -> list R -> alabel.
Variable T : nat.
Notation X := (X seqb aeqb C G n ints N sched).
Notation Wt c k sgn j := (W distr c (side k sgn) (eta Om j / 4)).
Definition strays (m : nat) (u : list nat) : Prop := exists j, In j (seq 0 m) /\ exists c, In c (seq 0 (Datatypes.S Bn)) /\ exists k, In k (seq 0 (Datatypes.S Om)) /\ exists sgn, In sgn [true; false] /\
  exists k' s, (k' <= m)%nat /\ X k' u = Some s /\ (nr (rg s) <= T)%nat /\ limit Bn Om delta j <= Wt c k sgn j (base s).

Lemma stray_share : forall m, cov N T delta (strays m).
Proof using seqb_ok aeqb_ok Dsucc Dpos Hd Hsel Hsam Ints Npos Dmul.
  intros m. eapply cov_mono; [apply (halves delta Hd m)|intros w _ h; exact h|]. rewrite <- fold_to. apply cov_any. intros j _.
  eapply cov_mono; [apply (few_enough Bn Om delta Hd j)|intros w _ h; exact h|].
  rewrite <- (seq_length (Datatypes.S Bn) 0) at 1. rewrite <- rsum_of_const, <- fold_sum. apply cov_any. intros c _.
  rewrite <- (seq_length (Datatypes.S Om) 0) at 1. rewrite <- rsum_of_const, <- fold_sum. apply cov_any. intros k _.
  change 2 with (INR (length [true; false])). rewrite <- rsum_of_const, <- fold_sum. apply cov_any. intros sgn _.
  pose proof (eta_pos Om j) as He. pose proof (limit_pos Bn Om delta j) as Hl.
  pose proof (ville_run seqb aeqb C G distr Hsel Hsam n ints Ints N Npos sched (Wt c k sgn j) (W_pos distr c (side k sgn) (eta Om j / 4))) as V.
  rewrite W_init in V. apply V; [|lra].
  intros g s lb f Gi Gr R Hf. apply (W_sup seqb aeqb seqb_ok aeqb_ok C distr Dsucc Dpos N Npos Dmul c (side k sgn) (side_range k sgn) (eta Om j / 4) ltac:(lra) G Hsam n g); auto.
Qed.

Lemma law : cov N T delta (fun u => exists k s, X k u = Some s /\ (nr (rg s) <= T)%nat /\ ~ fair_to distr (enough Bn Om delta) (base s)).
Proof using seqb_ok aeqb_ok Dsucc Dpos Hd Hsel Hsam Ints Npos Dmul HBn HOm.
  eapply cov_mono; [apply Rle_refl| |apply (cov_lim N T delta strays)].
  - intros u (Lu & Hu) (k & s & E & Hn & Nf). destruct (classic (exists m, strays m u)) as [H|No]; auto. exfalso. apply Nf. clear Nf.
    pose proof (X_ok seqb aeqb C G n ints N sched k u s E) as (R0 & _). pose proof (areach_ereach _ _ _ _ _ _ _ R0) as Re.
    intros c x later tr Hx Et d g Hdl Hg Hk. destruct (past G Hsel Hsam n ints Ints N Npos sched c k u s Hu E later tr Et) as (k' & s' & E' & Hn' & Es & Ex).
    pose proof (X_ok seqb aeqb C G n ints N sched k' u s' E') as (R1 & _). pose proof (areach_ereach _ _ _ _ _ _ _ R1) as Re'.
    destruct (nth_error (ch (mem (base s'))) c) as [x'|] eqn:Ex'.
    2: { rewrite <- Es, (sampled_none seqb aeqb seqb_ok aeqb_ok C n _ c Re' Ex'). rewrite rsum_of_nil. cbn [length INR]. rewrite Rmult_0_l, Rminus_0_r, Rabs_R0. lra. }
    destruct (xt_c _ _ _ _ Ex c x' Ex') as (x1 & Hx1 & Cs & Ca & _). rewrite Hx in Hx1. injection Hx1 as <-.
    destruct (chance_legal seqb aeqb seqb_ok aeqb_ok C n (base s) c x Re Hx) as (Ns & Ia & _). destruct (Dpos _ _ Ns Ia) as (Dp & Dt).
    set (os := sampled c tr) in *. set (D := distr (cstate x) (cact x)) in *. set (j := grade d).
    assert (Hen : 8 * ln (limit Bn Om delta j) / eta Om j ^ 2 <= INR (length os)).
    { apply Rle_trans with (IZR (enough Bn Om delta d)); [left; apply archimed|]. rewrite INR_IZR_INZ. now apply IZR_le. }
    assert (Fr : forall k0 sgn, (k0 < Datatypes.S Om)%nat -> rsum_of (side k0 sgn (cstate x) (cact x)) os - INR (length os) * expected (side k0 sgn (cstate x) (cact x)) D <= eta Om j * INR (length os)).
    { intros k0 sgn Hk0. apply (within Bn Om delta j); auto; [apply pos_INR|]. apply Rnot_le_lt. intros Bad. apply No. exists (Nat.max (Datatypes.S j) k'). exists j. split; [apply in_seq; lia|].
      exists c. split. { apply in_seq. pose proof (HBn n _ Re). assert (c < length (ch (mem (base s))))%nat by (apply nth_error_Some; congruence). lia. }
      exists k0. split; [apply in_seq; lia|]. exists sgn. split; [destruct sgn; cbn; auto|]. exists k', s'. split; [lia|]. split; auto. split; [lia|].
      unfold W. rewrite Ex', Es, drift_eq, <- Cs, <- Ca. exact Bad. }
    assert (Fq : forall k0, (k0 < Datatypes.S Om)%nat -> Rabs (rsum_of (hits seqb D k0) os - INR (length os) * expected (hits seqb D k0) D) <= eta Om j * INR (length os)).
    { intros k0 Hk0. pose proof (Fr k0 true Hk0) as F1. pose proof (Fr k0 false Hk0) as F2. unfold side in F1, F2. cbn in F1, F2. fold D in F1, F2.
      change (expected (fun o => hits seqb D k0 o) D) with (expected (hits seqb D k0) D) in F1. change (rsum_of (fun o => hits seqb D k0 o) os) with (rsum_of (hits seqb D k0) os) in F1.
      assert (E1 : rsum_of (fun o => 1 - hits seqb D k0 o) os = INR (length os) - rsum_of (hits seqb D k0) os).
      { rewrite (rsum_of_ext _ _ (fun o => (-1) * hits seqb D k0 o + 1)) by (intros; ring). rewrite rsum_of_plus, rsum_of_scale, rsum_of_const. ring. }
      assert (E2 : expected (fun o => 1 - hits seqb D k0 o) D = 1 - expected (hits seqb D k0) D).
      { pose proof (expected_lin S (hits seqb D k0) 1 (-1) D Dt) as El. transitivity (expected (fun o => 1 + -1 * hits seqb D k0 o) D); [|rewrite El; ring].
        unfold expected. apply rsum_of_ext. intros p _. ring. }
      rewrite E1, E2 in F2. apply Rabs_le. lra. }
    pose proof (freq seqb seqb_ok D os (Datatypes.S Om) (eta Om j * INR (length os)) g) as Q. rewrite <- Rmult_assoc in Q.
    eapply Rle_trans; [apply Q; auto|].
    + pose proof (HOm n _ c x Re Hx). fold D in H. lia.
    + intros o Io. exact (sampled_possible n (base s) c x tr later Re Hx Et o Io).
    + apply Rmult_le_compat_r; [apply pos_INR|]. apply grade_ok. exact Hdl.
  - intros m m' u Hm (j & Ij & c & Ic & k & Ik & sgn & Isg & k' & s & Hk & E). exists j. split; [apply in_seq in Ij; apply in_seq; lia|].
    exists c. split; auto. exists k. split; auto. exists sgn. split; auto. exists k', s. split; [lia|auto].
  - exact stray_share.
Qed.
End Main.

(** For every share there is a speed at which sampling gets fair for all but this share of the draws; it depends on the
    environment only. *)
Theorem sampling_fair : forall delta, 0 < delta -> exists K, forall G n ints N sched T,
  (forall n x kids cx, exists j, (j <= 1)%nat /\ reads j (select G n x kids cx)) ->
  (forall n x cx, exists cx1, forall g, sample G n x cx g = bind (sample_from_distribution R_ops (distr (cstate n) (cact n)) true g) (fun '(o, g1) => Ok (o, cx1, g1))) ->
  (forall i, (0 <= ints i)%Z) -> (0 < N)%nat ->
  (forall s a, is_sink C s = false -> In a (acts C s) -> multiples N (distr s a)) ->
  all_but delta N T (fun u => forall k s, follow seqb aeqb C G sched k (ainit C G n (dice ints N u)) = Some s -> (nr (rg s) <= T)%nat -> fair_to distr K (base s)).
Proof using seqb_ok aeqb_ok Dsucc Dpos.
  intros delta Hd. destruct (few_chance seqb aeqb seqb_ok aeqb_ok C) as (Bn & HBn). destruct (few_outcomes seqb aeqb seqb_ok aeqb_ok C) as (Om & HOm).
  exists (enough Bn Om delta). intros G n ints N sched T Hsel Hsam Ints Npos Dmul. apply cov_all_but; [|intros u; apply classic].
  eapply cov_mono; [apply Rle_refl| |apply (law Bn Om HBn); eauto].
  - intros u _ H. apply NNPP. intros No. apply H. intros k s E Hn. apply NNPP. intros Nf. apply No. destruct (X_base seqb aeqb C G n ints N sched k u s E) as (k' & s' & E' & Eb & En). exists k', s'. rewrite Eb, En. split; [exact E'|auto].
  - intros n0 b c x R Hx. pose proof (HOm n0 b c x R Hx) as L. rewrite Dsucc, map_length in L. exact L.
Qed.
End Law.
