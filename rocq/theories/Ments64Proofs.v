(** Searches of MENTS in doubles: every value stays in range. *)
From Coq Require Import List ZArith Bool Reals Lia Lra Permutation.
From Verif Require Import Base BaseProofs NumOps HelperModel EngineModel EngineSpec EngineProofs EngineInv MapModel MapProofs AlgoModel AlgoProofs AlgoNodes AlgoQuiet
  MentsModel SoftSpec SoftProofs MentsSpec UctModel DoubleSpec DoubleProofs RoundExamples LseModel LseSpec LseReal LseProofs AvgDouble LseTheorems Ments64Model Ments64Spec.
Import ListNotations.
Open Scope R_scope.

(** Multiplying by 1 or -1 is exact. *)
Lemma sign_mul : forall (b : bool) x, double x -> Rabs (dval x) <= powerRZ 2 900 ->
  let s := (if b then -1 else 1)%Z in
  double (nmul F_ops x (nofZ F_ops s)) /\ dval (nmul F_ops x (nofZ F_ops s)) = (if b then - dval x else dval x).
Proof.
  intros b x D Hx s. destruct (small_int s) as (Ds & Vs); [unfold s; destruct b; lia|].
  assert (E : dval x * dval (nofZ F_ops s) = if b then - dval x else dval x) by (rewrite Vs; unfold s; destruct b; lra).
  assert (N : near (dval x * dval (nofZ F_ops s)) = if b then - dval x else dval x).
  { rewrite E. destruct b; [rewrite near_opp|]; now rewrite near_dval. }
  destruct (mul_rounds x (nofZ F_ops s) D Ds) as (D' & V').
  - apply fits. rewrite E. assert (powerRZ 2 900 <= powerRZ 2 950) by (apply pow_mono; lia). destruct b; rewrite ?Rabs_Ropp; lra.
  - split; [exact D'|]. rewrite <- N. exact V'.
Qed.

Section Range.
Context {S A : Type}.
Variable seqb : S -> S -> bool.
Variable aeqb : A -> A -> bool.
Hypothesis seqb_ok : decides seqb.
Hypothesis aeqb_ok : decides aeqb.
Variable C : @econf S A.
Notation dnode := (@dnode S A).
Notation cnode := (@cnode S A).
Variables fexp flog : F -> F.
Variable K : @fconf S A.
Variables v B0 Rw tlo thi W : R.
Variables na ns : Z.
Hypothesis Lm : libm fexp flog v.
Hypothesis Rg : in_range C K v B0 Rw tlo thi W na ns.
Notation G := (ments64 aeqb C fexp flog K).
Notation dc := (err_c W ns).
Notation dd := (err_d v W thi na).
Notation L := (max_depth C).
Notation step := (Rw + thi * ln (IZR na) + (dc + dd)).
Definition bnd (k : Z) : R := B0 + IZR k * step.

Lemma tlo_pos : 0 < tlo.
Proof using Rg. pose proof (ir_tlo _ _ _ _ _ _ _ _ _ _ Rg). assert (0 < powerRZ 2 (-900)) by (apply powerRZ_lt; lra). lra. Qed.
Lemma t_le : tlo <= thi.
Proof using Rg. destruct (ir_temp _ _ _ _ _ _ _ _ _ _ Rg (new_dnode C (root_state C) 0 0)). lra. Qed.
Lemma B0_pos : 0 <= B0.
Proof using Rg. destruct (ir_default _ _ _ _ _ _ _ _ _ _ Rg). pose proof (Rabs_pos (dval (f_default K))). lra. Qed.
Lemma ln_na : 0 <= ln (IZR na).
Proof using Rg. apply ln_nonneg. apply IZR_le. apply (ir_na _ _ _ _ _ _ _ _ _ _ Rg). Qed.
Lemma u_pos : 0 < u64 /\ 0 < eta64.
Proof. split; apply powerRZ_lt; lra. Qed.
Lemma W_pos : 0 <= W.
Proof using Rg. destruct (ir_W _ _ _ _ _ _ _ _ _ _ Rg) as (_ & H & _). lra. Qed.
Lemma errs_pos : 0 <= dc /\ 0 <= dd.
Proof using Rg Lm.
  pose proof W_pos as Wp. destruct u_pos as (U & E). pose proof tlo_pos. pose proof t_le. pose proof ln_na. pose proof (libm_v _ _ _ Lm) as Hv.
  assert (0 <= IZR ns) by (apply IZR_le, (ir_ns _ _ _ _ _ _ _ _ _ _ Rg)). assert (1 <= IZR na) by (apply IZR_le, (ir_na _ _ _ _ _ _ _ _ _ _ Rg)).
  assert (0 <= u64 * W) by (apply Rmult_le_pos; lra). unfold err_c, err_d. split.
  - apply Rmult_le_pos; lra.
  - assert (0 <= v * (5 + 2 * ln (IZR na))) by (apply Rmult_le_pos; lra).
    assert (0 <= 6 * IZR na * u64) by (apply Rmult_le_pos; lra).
    assert (0 <= thi * (v * (5 + 2 * ln (IZR na)) + 6 * IZR na * u64)) by (apply Rmult_le_pos; lra). lra.
Qed.
Lemma step_pos : 0 <= step /\ 0 <= thi * ln (IZR na).
Proof using Rg Lm.
  destruct errs_pos. pose proof tlo_pos. pose proof t_le. pose proof ln_na. destruct (ir_W _ _ _ _ _ _ _ _ _ _ Rg) as (Rp & _).
  assert (0 <= thi * ln (IZR na)) by (apply Rmult_le_pos; lra). lra.
Qed.
Lemma bnd_le : forall k, (0 <= k <= L)%Z -> B0 <= bnd k <= W.
Proof using Rg Lm.
  intros k H. destruct step_pos as (P & _). pose proof (ir_room _ _ _ _ _ _ _ _ _ _ Rg) as Rm. unfold bnd.
  assert (0 <= IZR k) by (apply IZR_le; lia). assert (IZR k <= IZR L) by (apply IZR_le; lia).
  assert (0 <= IZR k * step) by (apply Rmult_le_pos; lra). assert (IZR k * step <= IZR L * step) by (apply Rmult_le_compat_r; lra). lra.
Qed.
Lemma bnd_S : forall k, bnd k = bnd (k - 1) + step.
Proof using Type. intros k. unfold bnd. rewrite minus_IZR. lra. Qed.

(** A decision node whose Q values are in range. *)
Lemma soft_range : forall n b qs Q, qs <> [] -> (Z.of_nat (length qs) <= na)%Z -> 0 <= Q <= W ->
  (forall q, In q qs -> double q /\ Rabs (dval q) <= Q) ->
  let r := o_soft F_ops fexp flog f_lowest (nofZ F_ops (if b : bool then -1 else 1)%Z) (f_temp K n) qs in
  let e := soft_max (dval (f_temp K n)) (map dval qs) in
  double r /\ Rabs (dval r - (if b then - e else e)) <= dd /\ Rabs (dval r) <= Q + thi * ln (IZR na) + dd.
Proof using Rg Lm.
  intros n b qs Q Ne Ln Hq Dq r e. destruct (ir_temp _ _ _ _ _ _ _ _ _ _ Rg n) as (Dt & T1 & T2). destruct (ir_W _ _ _ _ _ _ _ _ _ _ Rg) as (Rp & (W0 & W1) & W2).
  pose proof (ir_tlo _ _ _ _ _ _ _ _ _ _ Rg) as T0. pose proof (ir_thi _ _ _ _ _ _ _ _ _ _ Rg) as T3. pose proof tlo_pos as Tp. destruct (ir_na _ _ _ _ _ _ _ _ _ _ Rg) as (N1 & N2).
  set (t := dval (f_temp K n)) in *. set (opp := nofZ F_ops (if b then -1 else 1)%Z) in *.
  assert (Vo : dval opp = if b then -1 else 1). { unfold opp. destruct (small_int (if b then -1 else 1)%Z) as (_ & ->); destruct b; lia || lra. }
  assert (Ho : opp = nofZ F_ops 1 \/ opp = nofZ F_ops (-1)) by (unfold opp; destruct b; auto).
  assert (DW : forall q, In q qs -> double q /\ Rabs (dval q) <= W) by (intros q I; destruct (Dq q I); split; auto; lra).
  assert (X50 : W / t <= powerRZ 2 50).
  { apply Rmult_le_reg_r with t; [lra|]. unfold Rdiv. rewrite Rmult_assoc, Rinv_l, Rmult_1_r by lra. eapply Rle_trans; [exact W2|]. apply Rmult_le_compat_l; [|lra]. left. apply powerRZ_lt. lra. }
  assert (X900 : W / t <= powerRZ 2 900) by (eapply Rle_trans; [exact X50|apply pow_mono; lia]).
  assert (Lz : (Z.of_nat (length qs) <= 2 ^ 31)%Z) by (clear - Ln N2; lia).
  assert (Tr : powerRZ 2 (-900) <= dval (f_temp K n) <= powerRZ 2 900) by (fold t; lra).
  destruct (C87_finite fexp flog v Lm opp (f_temp K n) qs W Dt Tr Ho Ne Lz DW W1 X900) as (_ & _ & _ & D).
  pose proof (C87_close fexp flog v Lm opp (f_temp K n) qs W Dt Tr Ho Ne Lz DW W1 X900 X50) as E. cbv zeta in E. fold r in D, E. fold t e in E. fold u64 in E.
  assert (Hn : 1 <= IZR (Z.of_nat (length qs)) <= IZR na).
  { split; apply IZR_le; [|lia]. destruct qs; [congruence|cbn [length]; lia]. }
  set (m := IZR (Z.of_nat (length qs))) in *. pose proof (libm_v _ _ _ Lm) as Hv. destruct u_pos as (U & _).
  assert (Ll : 0 <= ln m <= ln (IZR na)) by (split; [apply ln_nonneg; lra|apply ln_le; lra]).
  assert (Le : Rabs (dval r - (if b then - e else e)) <= dd).
  { replace (if b then - e else e) with (dval opp * e) by (rewrite Vo; destruct b; lra). eapply Rle_trans; [exact E|]. unfold err_d.
    apply Rplus_le_compat_l. apply Rmult_le_compat; try lra.
    - apply Rplus_le_le_0_compat; apply Rmult_le_pos; lra.
    - apply Rplus_le_compat; [apply Rmult_le_compat_l; lra|apply Rmult_le_compat_r; lra]. }
  split; [exact D|]. split; [exact Le|].
  assert (Me : - Q <= e <= Q + thi * ln (IZR na)).
  { assert (Ne' : map dval qs <> []) by (destruct qs; [congruence|discriminate]). split.
    - destruct qs as [|q qs']; [congruence|]. apply Rle_trans with (dval q).
      + destruct (Dq q (or_introl eq_refl)) as (_ & B). apply abs_inv in B. lra.
      + apply soft_max_ge; [fold t; lra|left; reflexivity].
    - eapply Rle_trans; [apply (soft_max_le t (map dval qs) Q); [lra|exact Ne'|]|].
      + intros q I. apply in_map_iff in I. destruct I as (q' & <- & I). destruct (Dq q' I) as (_ & B). apply abs_inv in B. lra.
      + apply Rplus_le_compat_l. rewrite map_length. rewrite INR_IZR_INZ. fold m. apply Rmult_le_compat; lra. }
  destruct step_pos as (_ & Tl). apply abs_inv in Le. apply Rabs_le. destruct b; lra.
Qed.

(** A chance node whose children's values are in range. *)
Lemma chance_range : forall n reward l Q, (Z.of_nat (length l) <= ns)%Z -> 0 <= Q <= W -> Rw <= W ->
  double reward -> Rabs (dval reward) <= Rw ->
  (forall c x, In (c, x) l -> (0 <= c < 2 ^ 31)%Z /\ double x /\ Rabs (dval x) <= Q) ->
  let r := o_chance F_ops reward (f_order K n l) in
  double r /\ Rabs (dval reward + avg_loop (map (fun p => (fst p, dval (snd p))) l) - dval r) <= dc /\ Rabs (dval r) <= Q + Rw + dc.
Proof using Rg Lm.
  intros n reward l Q Ln Hq HR Dr Hr Hl r. destruct (ir_W _ _ _ _ _ _ _ _ _ _ Rg) as (Rp & (W0 & W1) & W2). destruct (ir_ns _ _ _ _ _ _ _ _ _ _ Rg) as (N1 & N2).
  pose proof (ir_order _ _ _ _ _ _ _ _ _ _ Rg n l) as Pm. set (l' := f_order K n l) in *.
  assert (Len : length l' = length l) by (symmetry; now apply Permutation_length).
  assert (Hl' : forall c x, In (c, x) l' -> (0 <= c < 2 ^ 31)%Z /\ double x /\ Rabs (dval x) <= Q).
  { intros c x I. apply Hl. eapply Permutation_in; [symmetry; exact Pm|exact I]. }
  assert (Cl : counts (map (fun p => (fst p, dval (snd p))) l')).
  { unfold counts. apply Forall_map, Forall_forall. intros [c x] I. destruct (Hl' c x I). cbn. lia. }
  assert (Cl0 : counts (map (fun p => (fst p, dval (snd p))) l)).
  { unfold counts. apply Forall_map, Forall_forall. intros [c x] I. destruct (Hl c x I). cbn. lia. }
  assert (Sum : (fold_right (fun p : Z * F => Z.add (fst p)) 0 l' <= Z.of_nat (length l') * 2 ^ 31)%Z).
  { clear - Hl'. induction l' as [|[c x] l' IH]; [cbn; lia|]. destruct (Hl' c x (or_introl eq_refl)) as (H & _).
    assert (forall c x, In (c, x) l' -> (0 <= c < 2 ^ 31)%Z /\ double x /\ Rabs (dval x) <= Q) by (intros; apply Hl'; now right).
    specialize (IH H0). cbn [fold_right fst length] in *. lia. }
  set (a := avg_loop (map (fun p => (fst p, dval (snd p))) l)).
  assert (Ea : a = avg_loop (map (fun p => (fst p, dval (snd p))) l')).
  { unfold a. apply avg_loop_perm; [exact Cl0|]. now apply Permutation_map. }
  destruct (C87_average W l' reward a) as (D & E).
  - lra.
  - lia.
  - lia.
  - apply Forall_forall. intros [c x] I. destruct (Hl' c x I) as (P1 & P2 & P3). cbn. repeat split; try lia; try apply P2. lra.
  - exact Dr.
  - lra.
  - rewrite Ea. now apply avg_loop_mean.
  - fold r in D, E. fold u64 eta64 in E. split; [exact D|].
    assert (Le : Rabs (dval r - (a + dval reward)) <= dc).
    { eapply Rle_trans; [exact E|]. unfold err_c. apply Rmult_le_compat_r.
      - destruct u_pos. apply Rplus_le_le_0_compat; [apply Rmult_le_pos; lra|lra].
      - apply Rplus_le_compat_r, Rmult_le_compat_l; [lra|]. apply IZR_le. lia. }
    assert (Aa : Rabs a <= Q).
    { apply avg_loop_abs; [exact Cl0|lra|]. intros c x I. apply in_map_iff in I. destruct I as ([c' x'] & [= <- <-] & I). now apply Hl in I. }
    split; [|apply abs_inv in Le, Aa, Hr; apply Rabs_le; lra].
    rewrite <- Rabs_Ropp. replace (- (dval reward + a - dval r)) with (dval r - (a + dval reward)) by lra. exact Le.
Qed.

(** ** Invariant *)
Definition PD (n : dnode) (x : fdmem) : Prop :=
  (0 <= fd_nb x)%Z /\ (0 <= ddepth n <= L)%Z /\ double (fd_soft x) /\ Rabs (dval (fd_soft x)) <= bnd (L - ddepth n).
Definition PC (n : cnode) (y : fcmem) : Prop :=
  (0 <= cdepth n < L)%Z /\ double (fc_soft y) /\ Rabs (dval (fc_soft y)) <= bnd (L - cdepth n - 1) + Rw + dc.
Definition PX (_ : list A) (_ : unit) : Prop := True.
Definition QC (_ : cnode) (_ : fcmem) : Prop := True.

Lemma Rw_W : (0 < L)%Z -> Rw <= W.
Proof using Rg Lm.
  intros H. pose proof (bnd_le 1 ltac:(lia)) as Q. unfold bnd in Q. destruct errs_pos. destruct step_pos. pose proof B0_pos. lra.
Qed.
Lemma q_range : forall n kids, (0 <= ddepth n < L)%Z -> dkids_ok C G PC n kids -> forall q, In q (map (q64 aeqb K n kids) (acts C (dstate n))) ->
  double q /\ Rabs (dval q) <= bnd (L - ddepth n - 1) + Rw + dc.
Proof using Rg Lm aeqb_ok.
  intros n kids Hd (ND & Hk) q Hq. apply in_map_iff in Hq. destruct Hq as (a & <- & Ia).
  destruct errs_pos as (E1 & E2). destruct step_pos as (S1 & S2). destruct (ir_W _ _ _ _ _ _ _ _ _ _ Rg) as (Rp & (W0 & W1) & W2).
  pose proof (bnd_le (L - ddepth n - 1) ltac:(lia)) as Q1. pose proof (bnd_le (L - ddepth n) ltac:(lia)) as Q2. rewrite (bnd_S (L - ddepth n)) in Q2.
  assert (X : forall x, double x -> Rabs (dval x) <= bnd (L - ddepth n - 1) + Rw + dc ->
    double (nmul F_ops x (f_opp K n)) /\ Rabs (dval (nmul F_ops x (f_opp K n))) <= bnd (L - ddepth n - 1) + Rw + dc).
  { intros x Dx Bx. destruct (sign_mul (f_two K && Z.odd (dtime n)) x Dx) as (D & V); [lra|]. split; [exact D|]. unfold f_opp. rewrite V.
    destruct (f_two K && Z.odd (dtime n)); rewrite ?Rabs_Ropp; exact Bx. }
  unfold q64. change (XC G) with fcmem in *. destruct (lookup aeqb a kids) as [[c y]|] eqn:E.
  - apply lookup_in in E; [|exact aeqb_ok]. destruct (Hk a c y E) as ((_ & Dd & _) & Pc & Py1 & Py2). rewrite Dd in Py2. now apply X.
  - destruct (ir_default _ _ _ _ _ _ _ _ _ _ Rg) as (Dx & Bx). apply X; auto. lra.
Qed.
Lemma kids_len : forall n (kids : list (S * (dnode * fdmem))), ckids_ok C G PD n kids -> (Z.of_nat (length kids) <= ns)%Z.
Proof using Rg.
  intros n kids (ND & Hk). assert (X : (length (map fst kids) <= length (succs C (cstate n) (cact n)))%nat).
  { apply NoDup_incl_length; [exact ND|]. intros o I. apply in_map_iff in I. destruct I as ([o' [d y]] & <- & I). cbn. now destruct (Hk o' d y I) as ((_ & _ & _ & Io) & _). }
  rewrite map_length in X. pose proof (ir_succs _ _ _ _ _ _ _ _ _ _ Rg (cstate n) (cact n)). lia.
Qed.

Lemma back_d_range : forall n x kids x1, inner C n -> dkids_ok C G PC n kids -> back_d64 aeqb C fexp flog K n x kids = Ok x1 ->
  fd_nb x1 = (fd_nb x + 1)%Z /\ double (fd_soft x1) /\ Rabs (dval (fd_soft x1)) <= bnd (L - ddepth n) /\
  let e := soft_max (dval (f_temp K n)) (map dval (map (q64 aeqb K n kids) (acts C (dstate n)))) in
  Rabs (dval (fd_soft x1) - (if f_two K && Z.odd (dtime n) then - e else e)) <= dd.
Proof using Rg Lm aeqb_ok.
  intros n x kids x1 (Is & Hd & _) Ok1 E. unfold back_d64 in E. injection E as <-. cbn [fd_nb fd_soft].
  destruct (ir_acts _ _ _ _ _ _ _ _ _ _ Rg (dstate n) Is) as (Ne & Ln). destruct errs_pos as (E1 & E2). destruct step_pos as (S1 & S2).
  destruct (ir_W _ _ _ _ _ _ _ _ _ _ Rg) as (Rp & _). pose proof B0_pos.
  pose proof (bnd_le (L - ddepth n - 1) ltac:(lia)) as Q1. pose proof (bnd_le (L - ddepth n) ltac:(lia)) as Q2. rewrite (bnd_S (L - ddepth n)) in Q2 |- *.
  destruct (soft_range n (f_two K && Z.odd (dtime n)) (map (q64 aeqb K n kids) (acts C (dstate n))) (bnd (L - ddepth n - 1) + Rw + dc)) as (D & Er & Ab).
  - destruct (acts C (dstate n)); [congruence|discriminate].
  - rewrite map_length. exact Ln.
  - lra.
  - now apply q_range.
  - split; [reflexivity|]. split; [exact D|]. split; [|exact Er]. eapply Rle_trans; [exact Ab|]. lra.
Qed.
Lemma back_c_range : forall n x kids x1, innerc C n -> ckids_ok C G PD n kids -> back_c64 K n x kids = Ok x1 ->
  double (fc_soft x1) /\ Rabs (dval (fc_soft x1)) <= bnd (L - cdepth n - 1) + Rw + dc /\
  Rabs (dval (f_reward K (cstate n) (cact n)) + avg_loop (map (fun k => (fd_nb (snd (snd k)), dval (fd_soft (snd (snd k))))) kids) - dval (fc_soft x1)) <= dc.
Proof using Rg Lm.
  intros n x kids x1 (Is & Hd & _) Hk E. unfold back_c64 in E. change (XD G) with fdmem in *. destruct (existsb _ _) eqn:Ex; [discriminate|]. injection E as <-. cbn [fc_soft].
  destruct (ir_reward _ _ _ _ _ _ _ _ _ _ Rg (cstate n) (cact n)) as (Dr & Br).
  pose proof (bnd_le (L - cdepth n - 1) ltac:(lia)) as Q1. pose proof B0_pos.
  destruct (chance_range n (f_reward K (cstate n) (cact n)) (map (fun k => (fd_nb (snd (snd k)), fd_soft (snd (snd k)))) kids) (bnd (L - cdepth n - 1))) as (D & Er & Ab); auto.
  - rewrite map_length. now apply kids_len with n.
  - lra.
  - apply Rw_W. lia.
  - intros c y I. apply in_map_iff in I. destruct I as ([o [d z]] & [= <- <-] & I). destruct Hk as (_ & Hk). destruct (Hk o d z I) as ((_ & Dd & _) & P1 & P2 & P3 & P4).
    rewrite Dd in P4. replace (L - (cdepth n + 1))%Z with (L - cdepth n - 1)%Z in P4 by lia. cbn [snd]. repeat split; try apply P3; auto.
    apply Z.nle_gt. intros H1. assert (existsb (fun k : S * (dnode * fdmem) => (2 ^ 31 <=? fd_nb (snd (snd k)))%Z) kids = true); [|congruence].
    apply existsb_exists. exists (o, (d, z)). split; [exact I|]. now apply Z.leb_le.
  - split; [exact D|]. split; [exact Ab|]. rewrite map_map in Er. exact Er.
Qed.

Lemma range_rules : node_rules C G PD PC PX QC.
Proof using Rg Lm aeqb_ok.
  constructor; unfold PX, QC; auto.
  - cbn. pose proof (ir_depth _ _ _ _ _ _ _ _ _ _ Rg). destruct (ir_heur _ _ _ _ _ _ _ _ _ _ Rg (root_state C)) as (D & B). pose proof (bnd_le (L - 0) ltac:(lia)). repeat split; cbn; try lia; try apply D. lra.
  - intros c o (_ & Hd & _) _. cbn. destruct (ir_heur _ _ _ _ _ _ _ _ _ _ Rg o) as (D & B). pose proof (bnd_le (L - (cdepth c + 1)) ltac:(lia)). repeat split; cbn; try lia; try apply D. lra.
  - intros n a (_ & Hd & _) _. cbn. destruct (ir_default _ _ _ _ _ _ _ _ _ _ Rg) as (D & B). pose proof (bnd_le (L - ddepth n - 1) ltac:(lia)). destruct errs_pos. destruct (ir_W _ _ _ _ _ _ _ _ _ _ Rg) as (Rp & _).
    repeat split; cbn; try lia; try apply D. lra.
  - intros n x (P1 & P2 & P3). unfold visit_d. cbn. unfold visit64. destruct (is_leaf C n); [repeat split; cbn; try lia; apply P3|]. split; [exact P1|]. split; [exact P2|exact P3].
  - intros n x kids cx b x1 l a l' In0 (P1 & P2 & P3) Hk _ _ _ _ E. cbn in E. destruct (back_d_range n x kids x1 In0 Hk E) as (Nb & D & B & _).
    repeat split; try lia; try apply D. exact B.
  - intros n x kids cx b x1 In0 (P1 & P2) Hk _ E. cbn in E. destruct (back_c_range n x kids x1 In0 Hk E) as (D & B & _). split; auto. repeat split; try lia; try apply D. exact B.
Qed.
Theorem range_reach : forall n g s, areach seqb aeqb C G n g s ->
  (forall d node x, nth_error (dh (mem (base s))) d = Some node -> nth_error (xds s) d = Some x -> PD node x) /\
  (forall c node y, nth_error (ch (mem (base s))) c = Some node -> nth_error (xcs s) c = Some y -> PC node y).
Proof using All.
  intros n g s R. destruct (nodes_reach seqb aeqb seqb_ok aeqb_ok C G PD PC PX QC range_rules n g s R) as [H1 H2 _]. split; auto.
Qed.
End Range.
