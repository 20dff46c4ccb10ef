(** Dynamic programming values in doubles are close to the exact values of the tree. *)
From Coq Require Import List ZArith Bool Reals Lia Lra Permutation.
From Verif Require Import Base BaseProofs NumOps RLemmas HelperModel EngineModel EngineSpec EngineProofs EngineInv EngineCount EngineTheorems MapModel MapProofs AlgoModel AlgoProofs AlgoNodes AlgoHist AlgoQuiet
  MentsModel SoftSpec SoftProofs MentsSpec WeightProofs QuietSpec QuietResults TentsSpec TreeSpec TreeProofs TreeResults MixedProofs MixedResults UctModel UctSpec
  DoubleSpec DoubleProofs LseModel LseSpec LseReal Ments64Model Ments64Spec Ments64Proofs Ments64Close Dp64Model Dp64Spec Dp64Proofs.
Import ListNotations.
Open Scope R_scope.

(** ** The largest of a list *)
Definition most {T} (f : T -> R) (k : T) (l : list T) : R := fold_right (fun k m => Rmax (f k) m) (f k) l.
Lemma most_ge : forall T (f : T -> R) k l j, In j (k :: l) -> f j <= most f k l.
Proof.
  intros T f k l j. induction l as [|i l IH]; cbn [most fold_right].
  - intros [->|[]]. apply Rle_refl.
  - intros [->|[->|I]]; [eapply Rle_trans; [apply IH; now left|apply Rmax_r]|apply Rmax_l|eapply Rle_trans; [apply IH; now right|apply Rmax_r]].
Qed.
Lemma most_in : forall T (f : T -> R) k l, exists j, In j (k :: l) /\ most f k l = f j.
Proof.
  intros T f k l. induction l as [|i l (j & I & E)]; cbn [most fold_right]; [exists k; split; [now left|reflexivity]|].
  destruct (Rle_dec (f i) (most f k l)) as [H|H].
  - exists j. split; [destruct I as [->|I]; [now left|right; now right]|]. fold (most f k l). rewrite Rmax_right by exact H. exact E.
  - exists i. split; [right; now left|]. fold (most f k l). rewrite Rmax_left by lra. reflexivity.
Qed.
Lemma most_near : forall T (f g : T -> R) k l r e, (exists j, In j (k :: l) /\ r = f j) -> (forall j, In j (k :: l) -> f j <= r) ->
  (forall j, In j (k :: l) -> Rabs (f j - g j) <= e) -> Rabs (r - most g k l) <= e.
Proof.
  intros T f g k l r e (j & I & ->) Mx H. destruct (most_in T g k l) as (i & Ii & Ei). pose proof (most_ge T g k l j I) as G1. rewrite Ei in *.
  pose proof (H j I) as H1. pose proof (H i Ii) as H2. pose proof (Mx i Ii) as H3. apply abs_inv in H1, H2. apply Rabs_le. lra.
Qed.

(** ** Exact values of a tree *)
Section Exact.
Context {S A : Type}.
Variable seqb : S -> S -> bool.
Variable aeqb : A -> A -> bool.
Hypothesis seqb_ok : decides seqb.
Hypothesis aeqb_ok : decides aeqb.
Variable C : @econf S A.
Variable M : @mconf S A.
Variable m : @store S A.
Hypothesis W : well_formed seqb aeqb C m.
Hypothesis Depth : forall d n, nth_error (dh m) d = Some n -> (0 <= ddepth n <= max_depth C)%Z.
Hypothesis Pos : forall c x o d n, nth_error (ch m) c = Some x -> In (o, d) (ckids x) -> nth_error (dh m) d = Some n -> (0 <= dp_samples C n)%Z.

Definition pure_c (V : nat -> R) (c : nat) : R :=
  match nth_error (ch m) c with Some x => mreward M (cstate x) (cact x) + mean (map (fun k => (wt C m k, V (snd k))) (ckids x)) | None => 0 end.
Definition pure_d (V : nat -> R) (n : @dnode S A) : R :=
  match dkids n with
  | [] => dheur n
  | k :: ks => seen M n (most (fun k => seen M n (pure_c V (snd k))) k ks)
  end.
Fixpoint pure (fuel : nat) (d : nat) : R :=
  match fuel, nth_error (dh m) d with Datatypes.S f, Some n => pure_d (pure f) n | _, _ => 0 end.

Lemma pure_c_ext : forall V V' d n a c, nth_error (dh m) d = Some n -> In (a, c) (dkids n) ->
  (forall e k, nth_error (dh m) e = Some k -> ddepth k = (ddepth n + 1)%Z -> V e = V' e) -> pure_c V c = pure_c V' c.
Proof using W seqb_ok aeqb_ok.
  intros V V' d n a c Hd Ic H. assert (Ec : lookup aeqb a (dkids n) = Some c) by (apply (in_lookup _ aeqb_ok); [exact (wf_dkeys _ _ _ _ W d n Hd)|exact Ic]).
  destruct (wf_d _ _ _ _ W d n a c Hd Ec) as (x & Hx & _ & Cd & _). unfold pure_c. rewrite Hx. f_equal. f_equal. apply map_ext_in. intros [o e] I. f_equal. cbn.
  assert (Lo : lookup seqb o (ckids x) = Some e) by (apply (in_lookup _ seqb_ok); [exact (wf_ckeys _ _ _ _ W c x Hx)|exact I]).
  destruct (wf_c _ _ _ _ W c x o e Hx Lo) as (y & Hy & _ & Dy & _). apply (H e y Hy). lia.
Qed.
Lemma most_ext : forall T (f g : T -> R) k l, (forall j, In j (k :: l) -> f j = g j) -> most f k l = most g k l.
Proof using Type.
  intros T f g k l H. induction l as [|i l IH]; cbn [most fold_right]; [apply H; now left|]. fold (most f k l) (most g k l).
  rewrite (H i) by (right; now left). rewrite IH; [reflexivity|]. intros j [->|I]; apply H; [now left|right; now right].
Qed.
Lemma pure_d_ext : forall V V' d n, nth_error (dh m) d = Some n ->
  (forall e k, nth_error (dh m) e = Some k -> ddepth k = (ddepth n + 1)%Z -> V e = V' e) -> pure_d V n = pure_d V' n.
Proof using W seqb_ok aeqb_ok.
  intros V V' d n Hd H. unfold pure_d. destruct (dkids n) as [|k ks] eqn:Ek; [reflexivity|]. f_equal. apply most_ext. intros [a c] I. f_equal. cbn [snd].
  apply (pure_c_ext V V' d n a c Hd); [now rewrite Ek|exact H].
Qed.
Lemma pure_fuel : forall f f' d n, nth_error (dh m) d = Some n ->
  (max_depth C - ddepth n < Z.of_nat f)%Z -> (max_depth C - ddepth n < Z.of_nat f')%Z -> pure f d = pure f' d.
Proof using W Depth seqb_ok aeqb_ok.
  induction f as [|f IH]; intros f' d n Hd L L'; [destruct (Depth d n Hd); lia|].
  destruct f' as [|f']; [destruct (Depth d n Hd); lia|]. cbn [pure]. rewrite Hd. apply pure_d_ext with (d := d); auto. intros e k He De. apply IH with (n := k); auto; lia.
Qed.
Notation full := (Datatypes.S (Z.to_nat (max_depth C))).
Lemma pure_tree : exists p, optimal aeqb C M m p /\ forall d n, nth_error (dh m) d = Some n -> worth aeqb C M m p d = pure full d.
Proof using All.
  set (VD := pure full). set (VC := pure_c VD).
  assert (St : forall d n, nth_error (dh m) d = Some n -> VD d = pure_d VD n).
  { intros d n Hd. unfold VD at 1. cbn [pure]. rewrite Hd. apply pure_d_ext with (d := d); auto. intros e k He De. pose proof (Depth d n Hd). pose proof (Depth e k He).
    apply pure_fuel with (n := k); auto; lia. }
  assert (HD : forall d n, nth_error (dh m) d = Some n ->
    dkids n = [] /\ VD d = dheur n \/
    (exists a c, In (a, c) (dkids n) /\ VC c = VD d) /\
    forall a c, In (a, c) (dkids n) -> if opponent M n then VD d <= VC c else VC c <= VD d).
  { intros d n Hd. rewrite (St d n Hd). unfold pure_d. destruct (dkids n) as [|k ks]; [left; split; reflexivity|right]. fold VC. split.
    - destruct (most_in _ (fun k => seen M n (VC (snd k))) k ks) as ([a c] & I & E). exists a, c. split; [exact I|]. rewrite E. cbn [snd]. now rewrite seen_seen.
    - intros a c I. pose proof (most_ge _ (fun k => seen M n (VC (snd k))) k ks (a, c) I) as H. cbn [snd] in H. unfold seen in *. destruct (opponent M n); lra. }
  assert (HC : forall c x, nth_error (ch m) c = Some x -> VC c = mreward M (cstate x) (cact x) + mean (map (fun k => (wt C m k, VD (snd k))) (ckids x))).
  { intros c x Hc. unfold VC, pure_c. now rewrite Hc. }
  exists (best m VD VC). split.
  - exact (greedy_optimal seqb aeqb seqb_ok aeqb_ok C M _ W Depth Pos _ _ HD HC _ (best_pick seqb aeqb aeqb_ok C M _ W _ _ HD)).
  - intros d n Hd. exact (greedy_worth seqb aeqb seqb_ok aeqb_ok C M _ W Depth Pos _ _ HD HC _ (best_pick seqb aeqb aeqb_ok C M _ W _ _ HD) d n Hd).
Qed.
End Exact.

(** ** Searches *)
Section Search.
Context {S A : Type}.
Variable seqb : S -> S -> bool.
Variable aeqb : A -> A -> bool.
Hypothesis seqb_ok : decides seqb.
Hypothesis aeqb_ok : decides aeqb.
Variable C : @econf S A.
Notation dnode := (@dnode S A).
Notation cnode := (@cnode S A).
Variable K : @dpconf S A.
Variable M : @mconf S A.
Variables B0 Rw W : R.
Variable ns : Z.
Hypothesis Rg : dp_range C K B0 Rw W ns.
Hypothesis Sn : dp_numbers C K M.
Hypothesis NoTT : use_tt C = false.
Notation G := (dp64 C K).
Notation dc := (err_c W ns).
Notation L := (max_depth C).
Notation PD := (PDp C B0 Rw W ns).
Notation PC := (PCp C B0 Rw W ns).

Definition freshp (n : dnode) (x : pmem) : Prop := dval (p_val x) = dheur n.
Lemma counterp : counter G (fun x : pmem => p_nb x) 1 1.
Proof using Type.
  constructor; cbn.
  - reflexivity.
  - intros [|] x; cbn; lia.
  - intros n x kids cx b x1 E. unfold back_dp in E. injection E as <-. reflexivity.
Qed.
Lemma opp_samep : forall n : dnode, p_two K && Z.odd (dtime n) = opponent M n.
Proof using Sn. intros n. unfold opponent. now rewrite (dn_two _ _ _ Sn). Qed.
Lemma sg_seen : forall (n : dnode) x, sg (p_two K && Z.odd (dtime n)) x = seen M n x.
Proof using Sn. intros n x. unfold sg, seen. now rewrite opp_samep. Qed.

Section State.
Variables (n0 : nat) (g : rng R) (s : ast G).
Hypothesis R0 : areach seqb aeqb C G n0 g s.
Hypothesis Q0 : quiet (base s).
Notation m := (mem (base s)).

Lemma quietp :
  (forall d node x, nth_error (dh m) d = Some node -> nth_error (xds s) d = Some x ->
     dview s node = [] /\ freshp node x \/ from_backup_d C G PD PC node x (dview s node)) /\
  (forall c node x, nth_error (ch m) c = Some node -> nth_error (xcs s) c = Some x -> from_backup_c C G PD PC node x (cview s node)).
Proof using All.
  apply (quiet_backups seqb aeqb seqb_ok aeqb_ok C G NoTT _ _ _ _ (dp64_rules C K B0 Rw W ns Rg)) with (n := n0) (g := g); auto.
  - intros s0 depth time. unfold freshp. cbn [dp64 new_xd new_dp p_val]. now rewrite (dn_heur _ _ _ Sn).
  - intros n x leaf H. unfold freshp in *. cbn. unfold visit_p. destruct leaf; exact H.
Qed.
Lemma backedp : forall c node y, nth_error (ch m) c = Some node -> nth_error (xcs s) c = Some y -> (1 <= p_nb y)%Z.
Proof using All.
  intros c node y Hc Hy. destruct quietp as [_ QC]. destruct (QC c node y Hc Hy) as (y0 & cx & b & Inc & (P0 & _) & K0 & _ & B). cbn [dp64 back_c] in B.
  destruct (back_cp_range C K B0 Rw W ns Rg node y0 (cview s node) y Inc K0 B) as (Nb & _). lia.
Qed.

(** The value of a chance node is near the exact mean of the values [V] if those of its children are. *)
Lemma chancep : forall (V : nat -> R) c cn y e0, nth_error (ch m) c = Some cn -> nth_error (xcs s) c = Some y -> 0 <= e0 ->
  (forall e en z, nth_error (dh m) e = Some en -> nth_error (xds s) e = Some z -> ddepth en = (cdepth cn + 1)%Z -> Rabs (dval (p_val z) - V e) <= e0) ->
  Rabs (dval (p_val y) - pure_c C M m V c) <= e0 + dc.
Proof using All.
  intros V c cn y e0 Hc Hy Ed IH.
  destruct quietp as [QD QC]. pose proof (areach_good seqb aeqb seqb_ok aeqb_ok C G _ _ _ R0) as I.
  pose proof (areach_ereach seqb aeqb C G _ _ _ R0) as E.
  destruct (C12_well_formed seqb aeqb seqb_ok aeqb_ok C n0 (base s) E) as [Wf Dep].
  destruct (dp64_reach seqb aeqb seqb_ok aeqb_ok C K B0 Rw W ns Rg n0 g s R0) as [RD RC].
  destruct (QC c cn y Hc Hy) as (y0 & cx' & b' & Inc & P0c & K0c & _ & Bc). cbn [dp64 back_c] in Bc.
  destruct (back_cp_range C K B0 Rw W ns Rg cn y0 (cview s cn) y Inc K0c Bc) as (_ & _ & _ & Ec').
  unfold pure_c. rewrite Hc, (dn_reward _ _ _ Sn).
  set (VX := fun e => match nth_error (xds s) e with Some z => dval (p_val z) | None => 0 end).
  assert (Nb : forall o e en z, In (o, e) (ckids cn) -> nth_error (dh m) e = Some en -> nth_error (xds s) e = Some z -> p_nb z = dp_samples C en).
  { intros o e en z Io He Hz. assert (Ch : cchild seqb m c o e) by (exists cn; split; auto; apply (in_lookup _ seqb_ok); [exact (wf_ckeys _ _ _ _ Wf c cn Hc)|exact Io]).
    rewrite (nb_samples seqb aeqb seqb_ok aeqb_ok C NoTT G _ 1 counterp n0 g s c o e en z R0 Q0 Ch He Hz). unfold dp_samples. lia. }
  assert (Em : map (fun k : S * (dnode * pmem) => (p_nb (snd (snd k)), dval (p_val (snd (snd k))))) (cview s cn) = map (fun k => (wt C m k, VX (snd k))) (ckids cn)).
  { symmetry. pose proof (cview_ok seqb aeqb seqb_ok C G s c cn I Hc) as Fv. refine (forall2_map_eq _ _ _ _ _ _ _ _ Fv _).
    intros [o e] [o' [en z]] Io (F1 & F2 & F3). cbn in F1, F2, F3. unfold wt, VX. cbn. rewrite F2, F3. f_equal. symmetry. exact (Nb o e en z Io F2 F3). }
  assert (Kid : forall k, In k (ckids cn) -> (0 <= wt C m k)%Z /\ Rabs (VX (snd k) - V (snd k)) <= e0).
  { intros [o e] Io. assert (Lo : lookup seqb o (ckids cn) = Some e) by (apply (in_lookup _ seqb_ok); [exact (wf_ckeys _ _ _ _ Wf c cn Hc)|exact Io]).
    destruct (wf_c _ _ _ _ Wf c cn o e Hc Lo) as (en & He & _ & De & _).
    destruct (dh_some seqb aeqb C G s e I) as (en' & z & He' & Hz); [apply nth_error_Some; congruence|].
    unfold wt, VX. cbn [snd]. rewrite He, Hz. split.
    - rewrite <- (Nb o e en z Io He Hz). destruct (RD e en z He Hz) as (Nn & _). lia.
    - apply (IH e en z); auto. }
  assert (Av : avg_loop (map (fun k => (wt C m k, VX (snd k))) (ckids cn)) = mean (map (fun k => (wt C m k, VX (snd k))) (ckids cn))).
  { apply mean_is, avg_loop_mean. unfold counts. apply Forall_map, Forall_forall. intros k Ik. apply (Kid k Ik). }
  pose proof (mean_lip _ (wt C m) (fun k => VX (snd k)) (fun k => V (snd k)) (ckids cn) _ Ed Kid) as Ml.
  change (XD G) with pmem in *. rewrite Em, Av in Ec'. apply abs_inv in Ec', Ml. apply Rabs_le. lra.
Qed.

Lemma closep : forall f d node x, nth_error (dh m) d = Some node -> nth_error (xds s) d = Some x -> (L - ddepth node < Z.of_nat f)%Z ->
  Rabs (dval (p_val x) - pure C M m f d) <= IZR (L - ddepth node) * dc.
Proof using All.
  destruct quietp as [QD QC]. pose proof (areach_good seqb aeqb seqb_ok aeqb_ok C G _ _ _ R0) as I.
  pose proof (areach_ereach seqb aeqb C G _ _ _ R0) as E.
  destruct (C12_well_formed seqb aeqb seqb_ok aeqb_ok C n0 (base s) E) as [Wf Dep]. specialize (Dep (dr_depth _ _ _ _ _ _ Rg)).
  pose proof (dc_pos C K B0 Rw W ns Rg) as E1.
  destruct (dp64_reach seqb aeqb seqb_ok aeqb_ok C K B0 Rw W ns Rg n0 g s R0) as [RD RC].
  induction f as [|f IH]; intros d node x Hd Hx Lf; [destruct (Dep d node Hd); lia|].
  pose proof (Dep d node Hd) as Dd. cbn [pure]. rewrite Hd.
  pose proof (dview_ok seqb aeqb aeqb_ok C G s d node I Hd) as Fv.
  destruct (QD d node x Hd Hx) as [[Ev Fr]|(u & x0 & cx & b & Hu & In0 & P0 & K0 & _ & B)].
  - rewrite Ev in Fv. assert (Ek : dkids node = []) by (now inversion Fv). unfold pure_d. rewrite Ek, Fr, Rminus_diag_eq, Rabs_R0 by reflexivity. apply Rmult_le_pos; [apply IZR_le; lia|lra].
  - (* backed up *)
    cbn [dp64 back_d] in B.
    assert (Bk : forall a c y, In (a, (c, y)) (dview s node) -> (1 <= p_nb y)%Z).
    { intros a c y Iy. destruct (forall2_in_r _ _ _ _ _ _ Fv Iy) as ([a' k] & Ik & _ & Hk1 & Hk2). cbn in Hk1, Hk2. exact (backedp k c y Hk1 Hk2). }
    destruct (dkids node) as [|k0 ks] eqn:Ek.
    + exfalso. assert (Ev : dview s node = []) by (now inversion Fv). unfold back_dp in B. rewrite Ev in B. cbn [map] in B. injection B as B. destruct (RD d node x Hd Hx) as (_ & _ & Dx & _). rewrite <- B in Dx. cbn [p_val] in Dx.
      change (p_opp K (with_visits node u)) with (oppf (p_two K && Z.odd (dtime node))) in Dx. rewrite (best_none _ [] _ (dr_orderd _ _ _ _ _ _ Rg _ [])) in Dx by (intros c z []). now apply start_infinite in Dx.
    + assert (Some1 : exists a c y, In (a, (c, y)) (dview s node) /\ QCp c y).
      { inversion Fv as [|k1 v1 l1 l2 F1 F2 Ek1 Ev1]. subst. destruct v1 as [a [c y]]. exists a, c, y. split; [now left|]. apply (Bk a c y). rewrite <- Ev1. now left. }
      destruct (back_dp_range C K B0 Rw W ns Rg (with_visits node u) x0 (dview s node) x In0 K0 Some1 B) as (_ & _ & _ & (a1 & c1 & y1 & I1 & _ & V1) & Mx).
      cbn [with_visits dtime] in Mx.
      set (f0 := fun k : A * nat => match nth_error (xcs s) (snd k) with Some y => seen M node (dval (p_val y)) | None => 0 end).
      unfold pure_d. rewrite Ek. set (g0 := fun k : A * nat => seen M node (pure_c C M m (pure C M m f) (snd k))).
      assert (Nr : Rabs (seen M node (dval (p_val x)) - most g0 k0 ks) <= IZR (L - ddepth node) * dc).
      { apply (most_near _ f0 g0).
        - destruct (forall2_in_r _ _ _ _ _ _ Fv I1) as ([a' k] & Ik & _ & Hk1 & Hk2). cbn in Hk1, Hk2. exists (a', k). split; [exact Ik|]. unfold f0. cbn [snd]. change (XC G) with pmem in *. rewrite Hk2. now rewrite V1.
        - intros [a k] Ik. destruct (forall2_in_l _ _ _ _ _ _ Fv Ik) as ([a' [c y]] & Iy & _ & F2 & F3). cbn in F2, F3. unfold f0. cbn [snd]. change (XC G) with pmem in *. rewrite F3.
          rewrite <- !sg_seen. apply (Mx a' c y Iy). exact (Bk a' c y Iy).
        - intros [a k] Ik. destruct (forall2_in_l _ _ _ _ _ _ Fv Ik) as ([a' [c y]] & Iy & _ & F2 & F3). cbn in F2, F3. unfold f0, g0. cbn [snd]. change (XC G) with pmem in *. rewrite F3.
          assert (Ec : lookup aeqb a (dkids node) = Some k) by (apply (in_lookup _ aeqb_ok); [exact (wf_dkeys _ _ _ _ Wf d node Hd)|now rewrite Ek]).
          destruct (wf_d _ _ _ _ Wf d node a k Hd Ec) as (cn' & Hc' & _ & Cd & _). rewrite F2 in Hc'. injection Hc' as <-.
          assert (In1 : (ddepth node < L)%Z) by apply In0.
          assert (Cl : Rabs (dval (p_val y) - pure_c C M m (pure C M m f) k) <= IZR (L - ddepth node - 1) * dc + dc).
          { apply (chancep _ k c y _ F2 F3).
            - apply Rmult_le_pos; [apply IZR_le; lia|lra].
            - intros e en z He Hz De. replace (L - ddepth node - 1)%Z with (L - ddepth en)%Z by lia. apply IH; auto. lia. }
          replace (IZR (L - ddepth node) * dc) with (IZR (L - ddepth node - 1) * dc + dc) by (rewrite minus_IZR; lra).
          unfold seen. destruct (opponent M node); [|exact Cl]. rewrite <- Rabs_Ropp. match goal with |- Rabs ?t <= _ => replace t with (dval (p_val y) - pure_c C M m (pure C M m f) k) by lra end. exact Cl. }
      unfold seen in Nr |- *. destruct (opponent M node); [|exact Nr]. rewrite <- Rabs_Ropp. match goal with |- Rabs ?t <= _ => replace t with (- dval (p_val x) - most g0 k0 ks) by lra end. exact Nr.
Qed.
(** Some optimal plan's exact worth is near the computed value, everywhere in the tree. *)
Theorem close_treep : exists p, optimal aeqb C M m p /\
  (forall d node x, nth_error (dh m) d = Some node -> nth_error (xds s) d = Some x ->
    Rabs (dval (p_val x) - worth aeqb C M m p d) <= IZR (L - ddepth node) * dc) /\
  (forall c node y, nth_error (ch m) c = Some node -> nth_error (xcs s) c = Some y ->
    Rabs (dval (p_val y) - pure_worth aeqb C M m p node) <= IZR (L - cdepth node) * dc).
Proof using All.
  pose proof (areach_good seqb aeqb seqb_ok aeqb_ok C G _ _ _ R0) as I.
  pose proof (areach_ereach seqb aeqb C G _ _ _ R0) as E.
  destruct (C12_well_formed seqb aeqb seqb_ok aeqb_ok C n0 (base s) E) as [Wf Dep]. specialize (Dep (dr_depth _ _ _ _ _ _ Rg)).
  destruct (dp64_reach seqb aeqb seqb_ok aeqb_ok C K B0 Rw W ns Rg n0 g s R0) as [RD RC].
  destruct (pure_tree seqb aeqb seqb_ok aeqb_ok C M m Wf Dep) as (p & Op & Wp).
  - intros c cn o e en Hc Io He. destruct (dh_some seqb aeqb C G s e I) as (en' & z & He' & Hz); [apply nth_error_Some; congruence|].
    assert (Ch : cchild seqb m c o e) by (exists cn; split; auto; apply (in_lookup _ seqb_ok); [exact (wf_ckeys _ _ _ _ Wf c cn Hc)|exact Io]).
    pose proof (nb_samples seqb aeqb seqb_ok aeqb_ok C NoTT G _ 1 counterp n0 g s c o e en z R0 Q0 Ch He Hz) as Nz.
    destruct (RD e en z He Hz) as (Nn & _). unfold dp_samples. cbn in Nz. lia.
  - assert (Cd : forall d node x, nth_error (dh m) d = Some node -> nth_error (xds s) d = Some x ->
      Rabs (dval (p_val x) - worth aeqb C M m p d) <= IZR (L - ddepth node) * dc).
    { intros d node x Hd Hx. rewrite (Wp d node Hd). apply closep; auto. apply (enough C m Dep d node Hd). }
    exists p. split; [exact Op|]. split; [exact Cd|]. intros c node y Hc Hy. destruct (RC c node y Hc Hy) as (_ & Pc1 & _).
    pose proof (dc_pos C K B0 Rw W ns Rg) as E1.
    pose proof (chancep (worth aeqb C M m p) c node y (IZR (L - cdepth node - 1) * dc) Hc Hy) as Q.
    unfold pure_c in Q. rewrite Hc in Q. change (mreward M (cstate node) (cact node) + _) with (pure_worth aeqb C M m p node) in Q.
    eapply Rle_trans; [apply Q|].
    + apply Rmult_le_pos; [apply IZR_le; lia|lra].
    + intros e en z He Hz De. replace (L - cdepth node - 1)%Z with (L - ddepth en)%Z by lia. now apply Cd.
    + rewrite minus_IZR. lra.
Qed.
End State.
End Search.
