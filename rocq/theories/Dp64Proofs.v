(** Dynamic programming values in doubles: every value stays in range. *)
From Coq Require Import List ZArith Bool Reals Lia Lra Permutation.
From Coq Require Import Floats.SpecFloat.
From Flocq Require Import Core.Raux.
From Verif Require Import Base BaseProofs NumOps HelperModel EngineModel EngineSpec EngineProofs EngineInv MapModel MapProofs AlgoModel AlgoProofs AlgoNodes AlgoQuiet
  MentsModel SoftSpec SoftProofs MentsSpec UctModel DoubleSpec DoubleProofs RoundExamples LseModel LseSpec LseReal LseProofs AvgDouble LseTheorems Ments64Model Ments64Spec Ments64Proofs
  Dp64Model Dp64Spec.
Import ListNotations.
Open Scope R_scope.

(** ** The best child *)
Definition sg (b : bool) (x : R) : R := if b then - x else x.
Definition oppf (b : bool) : F := nofZ F_ops (if b then -1 else 1)%Z.
Lemma mul_sign : forall b x, double x -> Rabs (dval x) <= powerRZ 2 900 ->
  double (nmul F_ops (oppf b) x) /\ dval (nmul F_ops (oppf b) x) = sg b (dval x).
Proof.
  intros b x D Hx. unfold oppf, sg. set (s := (if b then -1 else 1)%Z). destruct (small_int s) as (Ds & Vs); [unfold s; destruct b; lia|].
  assert (E : dval (nofZ F_ops s) * dval x = if b then - dval x else dval x) by (rewrite Vs; unfold s; destruct b; lra).
  assert (N : near (dval (nofZ F_ops s) * dval x) = if b then - dval x else dval x).
  { rewrite E. destruct b; [rewrite near_opp|]; now rewrite near_dval. }
  destruct (mul_rounds (nofZ F_ops s) x Ds D) as (D' & V').
  - apply fits. rewrite E. assert (powerRZ 2 900 <= powerRZ 2 950) by (apply pow_mono; lia). destruct b; rewrite ?Rabs_Ropp; lra.
  - split; [exact D'|]. rewrite <- N. exact V'.
Qed.
Definition start (b : bool) : F := nmul F_ops (oppf b) (S754_infinity true).
Lemma start_low : forall b x, double x -> nltb F_ops (nmul F_ops (oppf b) (start b)) x = true.
Proof.
  intros b x D. replace (nmul F_ops (oppf b) (start b)) with (S754_infinity true : F) by (destruct b; vm_compute; reflexivity).
  destruct x as [s|s| |s m e]; cbn; auto; destruct D as (_ & []).
Qed.
Lemma start_infinite : forall b, ~ double (start b).
Proof. intros b (_ & H). destruct b; vm_compute in H; exact H. Qed.
Notation bstep b := (fun v c => if (fst c =? 0)%Z then v else if nltb F_ops (nmul F_ops (oppf b) v) (nmul F_ops (oppf b) (snd c)) then snd c else v).
Lemma best_fold : forall b (l : list (Z * F)) v, (v = start b \/ double v /\ Rabs (dval v) <= powerRZ 2 900) ->
  (forall c x, In (c, x) l -> double x /\ Rabs (dval x) <= powerRZ 2 900) ->
  let r := fold_left (bstep b) l v in
  (r = v \/ exists c, In (c, r) l /\ c <> 0%Z) /\ (double v -> double r /\ sg b (dval v) <= sg b (dval r)) /\
  (forall c x, In (c, x) l -> c <> 0%Z -> double r /\ sg b (dval x) <= sg b (dval r)).
Proof.
  intros b l. induction l as [|[c x] l IH]; intros v Hv Hl; cbv zeta in *; cbn [fold_left].
  - split; [now left|]. split; [intros D; split; [exact D|lra]|intros c x []].
  - assert (Hl' : forall c x, In (c, x) l -> double x /\ Rabs (dval x) <= powerRZ 2 900) by (intros; eapply Hl; right; eauto).
    destruct (Hl c x (or_introl eq_refl)) as (Dx & Bx). cbn [fst snd]. destruct (Z.eqb_spec c 0) as [E|E].
    + destruct (IH v Hv Hl') as (I1 & I2 & I3). split; [destruct I1 as [I1|(c' & J & N)]; [now left|right; exists c'; split; [now right|exact N]]|].
      split; [exact I2|]. intros c' x' [[= <- <-]|J] N; [contradiction|eauto].
    + assert (L : exists t : bool, nltb F_ops (nmul F_ops (oppf b) v) (nmul F_ops (oppf b) x) = t /\
        (t = false -> double v /\ sg b (dval x) <= sg b (dval v)) /\ (t = true -> double v -> sg b (dval v) <= sg b (dval x))).
      { eexists. split; [reflexivity|]. destruct (mul_sign b x Dx Bx) as (Dm & Vm). destruct Hv as [->|(Dv & Bv)].
        - rewrite start_low by exact Dm. split; [discriminate|]. intros _ D. now apply start_infinite in D.
        - destruct (mul_sign b v Dv Bv) as (Dm' & Vm'). cbn [nltb F_ops]. rewrite (lt_double _ _ Dm' Dm).
          change (dval (nmul F_ops (oppf b) v)) with (dval (nmul F_ops (oppf b) v)). rewrite Vm, Vm'.
          destruct (Rlt_bool_spec (sg b (dval v)) (sg b (dval x))) as [H|H]; split; try discriminate; intros; try split; auto; lra. }
      destruct L as (t & -> & L1 & L2). destruct t.
      * destruct (IH x (or_intror (conj Dx Bx)) Hl') as (I1 & I2 & I3). destruct (I2 Dx) as (Dr & Lr).
        split; [right; destruct I1 as [->|(c' & J & N)]; [exists c; split; [now left|exact E]|exists c'; split; [now right|exact N]]|].
        split; [intros Dv; specialize (L2 eq_refl Dv); split; [exact Dr|lra]|].
        intros c' x' [[= <- <-]|J] N; [split; assumption|eauto].
      * destruct (L1 eq_refl) as (Dv & Lv). destruct (IH v Hv Hl') as (I1 & I2 & I3). destruct (I2 Dv) as (Dr & Lr).
        split; [destruct I1 as [I1|(c' & J & N)]; [now left|right; exists c'; split; [now right|exact N]]|]. split; [exact I2|].
        intros c' x' [[= <- <-]|J] N; [split; [exact Dr|lra]|eauto].
Qed.
Lemma best_is : forall b (l l' : list (Z * F)), Permutation l l' -> (exists c x, In (c, x) l /\ c <> 0%Z) ->
  (forall c x, In (c, x) l -> double x /\ Rabs (dval x) <= powerRZ 2 900) ->
  let r := o_best F_ops (oppf b) (S754_infinity true) l' in
  double r /\ (exists c, In (c, r) l /\ c <> 0%Z) /\ forall c x, In (c, x) l -> c <> 0%Z -> sg b (dval x) <= sg b (dval r).
Proof.
  intros b l l' Pm (c & x & Ic & Nc) Hl r.
  assert (Hl' : forall c x, In (c, x) l' -> double x /\ Rabs (dval x) <= powerRZ 2 900).
  { intros c' x' J. apply (Hl c' x'). eapply Permutation_in; [symmetry; exact Pm|exact J]. }
  destruct (best_fold b l' (start b) (or_introl eq_refl) Hl') as (I1 & _ & I3). fold (start b) in *. change (fold_left _ l' (start b)) with r in *.
  assert (Ic' : In (c, x) l') by (eapply Permutation_in; eauto). destruct (I3 c x Ic' Nc) as (Dr & _).
  split; [exact Dr|]. split.
  - destruct I1 as [I1|(c' & J & N)]; [rewrite I1 in Dr; now apply start_infinite in Dr|]. exists c'. split; [|exact N]. eapply Permutation_in; [symmetry; exact Pm|exact J].
  - intros c' x' J N. apply (I3 c' x'); [eapply Permutation_in; eauto|exact N].
Qed.
Lemma best_none : forall b l l', Permutation l l' -> (forall c (x : F), In (c, x) l -> c = 0%Z) -> o_best F_ops (oppf b) (S754_infinity true) l' = start b.
Proof.
  intros b l l' Pm H. assert (H' : forall c (x : F), In (c, x) l' -> c = 0%Z) by (intros c x J; apply (H c x); eapply Permutation_in; [symmetry; exact Pm|exact J]).
  unfold o_best. fold (start b). clear - H'. induction l' as [|[c x] l' IH]; [reflexivity|]. cbn [fold_left fst]. rewrite (H' c x (or_introl eq_refl)). cbn. apply IH. intros. eapply H'. right. eauto.
Qed.

(** ** The mean of the outcomes *)
Lemma chance_mean : forall W Rw ns, 0 <= Rw <= W -> W <= powerRZ 2 900 -> (0 <= ns <= 2 ^ 20)%Z -> forall (l l' : list (Z * F)) reward Q,
  Permutation l l' -> (Z.of_nat (length l) <= ns)%Z -> 0 <= Q <= W -> double reward -> Rabs (dval reward) <= Rw ->
  (forall c x, In (c, x) l -> (0 <= c < 2 ^ 31)%Z /\ double x /\ Rabs (dval x) <= Q) ->
  let r := o_chance F_ops reward l' in
  double r /\ Rabs (dval reward + avg_loop (map (fun p => (fst p, dval (snd p))) l) - dval r) <= err_c W ns /\ Rabs (dval r) <= Q + Rw + err_c W ns.
Proof.
  intros W Rw ns (W0 & WR) W1 (N1 & N2) l l' reward Q Pm Ln Hq Dr Hr Hl r.
  assert (Len : length l' = length l) by (symmetry; now apply Permutation_length).
  assert (Hl' : forall c x, In (c, x) l' -> (0 <= c < 2 ^ 31)%Z /\ double x /\ Rabs (dval x) <= Q).
  { intros c x I. apply Hl. eapply Permutation_in; [symmetry; exact Pm|exact I]. }
  assert (Cl : counts (map (fun p => (fst p, dval (snd p))) l')).
  { unfold counts. apply Forall_map, Forall_forall. intros [c x] I. destruct (Hl' c x I). cbn. lia. }
  assert (Cl0 : counts (map (fun p => (fst p, dval (snd p))) l)).
  { unfold counts. apply Forall_map, Forall_forall. intros [c x] I. destruct (Hl c x I). cbn. lia. }
  assert (Sum : (fold_right (fun p : Z * F => Z.add (fst p)) 0 l' <= Z.of_nat (length l') * 2 ^ 31)%Z).
  { clear - Hl'. induction l' as [|[c x] l' IH]; [cbn; lia|]. destruct (Hl' c x (or_introl eq_refl)) as (H & _).
    assert (forall c x, In (c, x) l' -> (0 <= c < 2 ^ 31)%Z /\ double x /\ Rabs (dval x) <= Q) by (intros; apply Hl'; now right).
    specialize (IH H0). cbn [fold_right fst length] in *. lia. }
  set (a := avg_loop (map (fun p => (fst p, dval (snd p))) l)).
  assert (Ea : a = avg_loop (map (fun p => (fst p, dval (snd p))) l')).
  { unfold a. apply avg_loop_perm; [exact Cl0|]. now apply Permutation_map. }
  destruct (C87_average W l' reward a) as (D & E).
  - lra.
  - lia.
  - lia.
  - apply Forall_forall. intros [c x] I. destruct (Hl' c x I) as (P1 & P2 & P3). cbn. repeat split; try lia; try apply P2. lra.
  - exact Dr.
  - lra.
  - rewrite Ea. now apply avg_loop_mean.
  - fold r in D, E. fold u64 eta64 in E. split; [exact D|].
    assert (Le : Rabs (dval r - (a + dval reward)) <= err_c W ns).
    { eapply Rle_trans; [exact E|]. unfold err_c. apply Rmult_le_compat_r.
      - destruct u_pos. apply Rplus_le_le_0_compat; [apply Rmult_le_pos; lra|lra].
      - apply Rplus_le_compat_r, Rmult_le_compat_l; [lra|]. apply IZR_le. lia. }
    assert (Aa : Rabs a <= Q).
    { apply avg_loop_abs; [exact Cl0|lra|]. intros c x I. apply in_map_iff in I. destruct I as ([c' x'] & [= <- <-] & I). now apply Hl in I. }
    split; [|apply abs_inv in Le, Aa, Hr; apply Rabs_le; lra].
    rewrite <- Rabs_Ropp. replace (- (dval reward + a - dval r)) with (dval r - (a + dval reward)) by lra. exact Le.
Qed.

Section Range.
Context {S A : Type}.
Variable seqb : S -> S -> bool.
Variable aeqb : A -> A -> bool.
Hypothesis seqb_ok : decides seqb.
Hypothesis aeqb_ok : decides aeqb.
Variable C : @econf S A.
Notation dnode := (@dnode S A).
Notation cnode := (@cnode S A).
Variable K : @dpconf S A.
Variables B0 Rw W : R.
Variable ns : Z.
Hypothesis Rg : dp_range C K B0 Rw W ns.
Notation G := (dp64 C K).
Notation dc := (err_c W ns).
Notation L := (max_depth C).
Definition bndp (k : Z) : R := B0 + IZR k * (Rw + dc).

Lemma dc_pos : 0 <= dc.
Proof using Rg.
  destruct (dr_W _ _ _ _ _ _ Rg) as (Rp & W0 & _). destruct u_pos. assert (0 <= IZR ns) by (apply IZR_le, (dr_ns _ _ _ _ _ _ Rg)).
  unfold err_c. apply Rmult_le_pos; [lra|]. apply Rplus_le_le_0_compat; [apply Rmult_le_pos; lra|lra].
Qed.
Lemma B0p_pos : 0 <= B0.
Proof using Rg. destruct (dr_heur _ _ _ _ _ _ Rg (root_state C)). pose proof (Rabs_pos (dval (p_heur K (root_state C)))). lra. Qed.
Lemma bndp_le : forall k, (0 <= k <= L)%Z -> B0 <= bndp k <= W.
Proof using Rg.
  intros k H. pose proof dc_pos as P. destruct (dr_W _ _ _ _ _ _ Rg) as (Rp & _). pose proof (dr_room _ _ _ _ _ _ Rg) as Rm. unfold bndp.
  assert (0 <= IZR k) by (apply IZR_le; lia). assert (IZR k <= IZR L) by (apply IZR_le; lia).
  assert (0 <= IZR k * (Rw + dc)) by (apply Rmult_le_pos; lra). assert (IZR k * (Rw + dc) <= IZR L * (Rw + dc)) by (apply Rmult_le_compat_r; lra). lra.
Qed.
Lemma bndp_S : forall k, bndp k = bndp (k - 1) + (Rw + dc).
Proof using Type. intros k. unfold bndp. rewrite minus_IZR. lra. Qed.
Lemma Rwp_W : (0 < L)%Z -> 0 <= Rw <= W.
Proof using Rg.
  intros H. pose proof (bndp_le 1 ltac:(lia)) as Q. unfold bndp in Q. pose proof dc_pos. pose proof B0p_pos. destruct (dr_W _ _ _ _ _ _ Rg). lra.
Qed.

Definition PDp (n : dnode) (x : pmem) : Prop :=
  (1 <= p_nb x)%Z /\ (0 <= ddepth n <= L)%Z /\ double (p_val x) /\ Rabs (dval (p_val x)) <= bndp (L - ddepth n).
Definition PCp (n : cnode) (y : pmem) : Prop :=
  (0 <= p_nb y)%Z /\ (0 <= cdepth n < L)%Z /\ double (p_val y) /\ Rabs (dval (p_val y)) <= bndp (L - cdepth n).
Definition PXp (_ : list A) (_ : unit) : Prop := True.
Definition QCp (_ : cnode) (y : pmem) : Prop := (1 <= p_nb y)%Z.

Notation opp n := (p_two K && Z.odd (dtime n)).
Lemma back_dp_range : forall n x kids x1, inner C n -> dkids_ok C G PCp n kids -> (exists a c y, In (a, (c, y)) kids /\ QCp c y) -> back_dp K n x kids = Ok x1 ->
  p_nb x1 = (p_nb x + 1)%Z /\ double (p_val x1) /\ Rabs (dval (p_val x1)) <= bndp (L - ddepth n) /\
  (exists a c y, In (a, (c, y)) kids /\ (1 <= p_nb y)%Z /\ p_val y = p_val x1) /\
  forall a c y, In (a, (c, y)) kids -> (1 <= p_nb y)%Z -> sg (opp n) (dval (p_val y)) <= sg (opp n) (dval (p_val x1)).
Proof using Rg.
  intros n x kids x1 (Is & Hd & _) (ND & Hk) (a & c & y & I & Q) E. unfold back_dp in E. injection E as <-. cbn [p_nb p_val].
  pose proof (bndp_le (L - ddepth n) ltac:(lia)) as B. destruct (dr_W _ _ _ _ _ _ Rg) as (_ & _ & W1).
  set (l := map (fun k : A * (cnode * pmem) => (p_nb (snd (snd k)), p_val (snd (snd k)))) kids).
  assert (Kid : forall a c y, In (a, (c, y)) kids -> (0 <= p_nb y)%Z /\ double (p_val y) /\ Rabs (dval (p_val y)) <= bndp (L - ddepth n)).
  { intros a' c' y' I'. destruct (Hk a' c' y' I') as ((_ & Dd & _) & P1 & P2 & P3 & P4). rewrite Dd in P4. auto. }
  destruct (best_is (opp n) l (p_orderd K n l)) as (D & (k & Ik & Nk) & Mx).
  - apply (dr_orderd _ _ _ _ _ _ Rg).
  - exists (p_nb y), (p_val y). split; [unfold l; apply in_map_iff; now exists (a, (c, y))|unfold QCp in Q; lia].
  - intros k z Iz. unfold l in Iz. apply in_map_iff in Iz. destruct Iz as ([a' [c' y']] & [= <- <-] & Iz). destruct (Kid _ _ _ Iz) as (_ & P2 & P3). split; [exact P2|lra].
  - unfold l in Ik. apply in_map_iff in Ik. destruct Ik as ([a' [c' y']] & Ek & Ik). pose proof (f_equal fst Ek) as E1. pose proof (f_equal snd Ek) as E2. cbn [fst snd] in E1, E2.
    destruct (Kid _ _ _ Ik) as (P1 & P2 & P3).
    change (p_opp K n) with (oppf (opp n)). fold l in E2.
    split; [reflexivity|]. split; [exact D|]. split; [rewrite <- E2; exact P3|]. split.
    + exists a', c', y'. split; [exact Ik|]. split; [lia|exact E2].
    + intros a2 c2 y2 I2 Q2. apply (Mx (p_nb y2) (p_val y2)); [|lia]. unfold l. apply in_map_iff. now exists (a2, (c2, y2)).
Qed.
Lemma kids_lenp : forall n (kids : list (S * (dnode * pmem))), ckids_ok C G PDp n kids -> (Z.of_nat (length kids) <= ns)%Z.
Proof using Rg.
  intros n kids (ND & Hk). assert (X : (length (map fst kids) <= length (succs C (cstate n) (cact n)))%nat).
  { apply NoDup_incl_length; [exact ND|]. intros o I. apply in_map_iff in I. destruct I as ([o' [d y]] & <- & I). cbn. now destruct (Hk o' d y I) as ((_ & _ & _ & Io) & _). }
  rewrite map_length in X. pose proof (dr_succs _ _ _ _ _ _ Rg (cstate n) (cact n)). lia.
Qed.
Lemma back_cp_range : forall n x kids x1, innerc C n -> ckids_ok C G PDp n kids -> back_cp K n x kids = Ok x1 ->
  p_nb x1 = (p_nb x + 1)%Z /\ double (p_val x1) /\ Rabs (dval (p_val x1)) <= bndp (L - cdepth n) /\
  Rabs (dval (p_reward K (cstate n) (cact n)) + avg_loop (map (fun k => (p_nb (snd (snd k)), dval (p_val (snd (snd k))))) kids) - dval (p_val x1)) <= dc.
Proof using Rg.
  intros n x kids x1 (Is & Hd & _) Hk E. unfold back_cp in E. change (XD G) with pmem in *. destruct (existsb _ _) eqn:Ex; [discriminate|]. injection E as <-. cbn [p_nb p_val].
  destruct (dr_reward _ _ _ _ _ _ Rg (cstate n) (cact n)) as (Dr & Br). destruct (dr_W _ _ _ _ _ _ Rg) as (_ & _ & W1).
  pose proof (bndp_le (L - cdepth n - 1) ltac:(lia)) as Q1. pose proof B0p_pos.
  destruct (chance_mean W Rw ns (Rwp_W ltac:(lia)) W1 (dr_ns _ _ _ _ _ _ Rg) (map (fun k => (p_nb (snd (snd k)), p_val (snd (snd k)))) kids)
    (p_orderc K n (map (fun k => (p_nb (snd (snd k)), p_val (snd (snd k)))) kids)) (p_reward K (cstate n) (cact n)) (bndp (L - cdepth n - 1))) as (D & Er & Ab); auto.
  - apply (dr_orderc _ _ _ _ _ _ Rg).
  - rewrite map_length. now apply kids_lenp with n.
  - lra.
  - intros c y I. apply in_map_iff in I. destruct I as ([o [d z]] & [= <- <-] & I). destruct Hk as (_ & Hk). destruct (Hk o d z I) as ((_ & Dd & _) & P1 & P2 & P3 & P4).
    rewrite Dd in P4. replace (L - (cdepth n + 1))%Z with (L - cdepth n - 1)%Z in P4 by lia. cbn [snd]. repeat split; try apply P3; auto; try lia.
    apply Z.nle_gt. intros H1. assert (existsb (fun k : S * (dnode * pmem) => (2 ^ 31 <=? p_nb (snd (snd k)))%Z) kids = true); [|congruence].
    apply existsb_exists. exists (o, (d, z)). split; [exact I|]. now apply Z.leb_le.
  - split; [reflexivity|]. split; [exact D|]. split; [eapply Rle_trans; [exact Ab|rewrite (bndp_S (L - cdepth n)); lra]|]. rewrite map_map in Er. exact Er.
Qed.

Lemma dp64_rules : node_rules C G PDp PCp PXp QCp.
Proof using Rg.
  destruct (small_int 0 ltac:(lia)) as (D0 & V0).
  constructor; unfold PXp; auto.
  - cbn. pose proof (dr_depth _ _ _ _ _ _ Rg). destruct (dr_heur _ _ _ _ _ _ Rg (root_state C)) as (D & B). pose proof (bndp_le (L - 0) ltac:(lia)). repeat split; cbn; try lia; try apply D. lra.
  - intros c o (_ & Hd & _) _. cbn. destruct (dr_heur _ _ _ _ _ _ Rg o) as (D & B). pose proof (bndp_le (L - (cdepth c + 1)) ltac:(lia)). repeat split; cbn; try lia; try apply D. lra.
  - intros n a (_ & Hd & _) _. pose proof (bndp_le (L - ddepth n) ltac:(lia)). pose proof B0p_pos. unfold PCp. cbn [new_xc dp64 new_cp p_nb p_val new_cnode cdepth].
    split; [lia|]. split; [exact Hd|]. split; [exact D0|]. rewrite V0, Rabs_R0. lra.
  - intros n x (P1 & P2 & P3). unfold visit_d. cbn. unfold visit_p. destruct (is_leaf C n); [repeat split; cbn; try lia; apply P3|]. split; [exact P1|]. split; [exact P2|exact P3].
  - intros n x kids cx b x1 l a l' In0 (P1 & P2 & P3) Hk _ _ (c & y & I & Q) _ E. cbn in E. destruct (back_dp_range n x kids x1 In0 Hk) as (Nb & D & B & _); auto; [now exists a, c, y|].
    repeat split; try lia; try apply D. exact B.
  - intros n x kids cx b x1 In0 (P1 & P2) Hk _ E. cbn in E. destruct (back_cp_range n x kids x1 In0 Hk E) as (Nb & D & B & _). unfold QCp. split; [|lia]. repeat split; try lia; try apply D. exact B.
Qed.
Theorem dp64_reach : forall n g s, areach seqb aeqb C G n g s ->
  (forall d node x, nth_error (dh (mem (base s))) d = Some node -> nth_error (xds s) d = Some x -> PDp node x) /\
  (forall c node y, nth_error (ch (mem (base s))) c = Some node -> nth_error (xcs s) c = Some y -> PCp node y).
Proof using All.
  intros n g s R. destruct (nodes_reach seqb aeqb seqb_ok aeqb_ok C G PDp PCp PXp QCp dp64_rules n g s R) as [H1 H2 _]. split; auto.
Qed.
End Range.
