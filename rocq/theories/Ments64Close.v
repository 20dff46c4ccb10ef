(** Values of MENTS in doubles are close to the exact values of the tree. *)
From Coq Require Import List ZArith Bool Reals Lia Lra Permutation.
From Verif Require Import Base BaseProofs NumOps RLemmas HelperModel EngineModel EngineSpec EngineProofs EngineInv EngineCount EngineTheorems MapModel MapProofs AlgoModel AlgoProofs AlgoNodes AlgoHist AlgoQuiet
  MentsModel SoftSpec SoftProofs MentsSpec WeightProofs QuietSpec TentsSpec TreeSpec TreeProofs TreeResults MixedProofs MixedResults UctModel UctSpec
  DoubleSpec DoubleProofs LseModel LseSpec LseReal Ments64Model Ments64Spec Ments64Proofs.
Import ListNotations.
Open Scope R_scope.

(** ** Small changes of the children change a value little *)
Lemma soft_max_shift_le : forall A t (f g : A -> R) l e, 0 < t -> l <> [] -> (forall a, In a l -> f a <= g a + e) ->
  soft_max t (map f l) <= soft_max t (map g l) + e.
Proof.
  intros A t f g l e Ht Ne H. unfold soft_max. rewrite !rsum_of_map.
  assert (P : forall h : A -> R, 0 < rsum_of (fun a => exp (h a / t)) l).
  { intros h. destruct l as [|a l]; [congruence|]. rewrite rsum_of_cons. pose proof (exp_pos (h a / t)).
    assert (0 <= rsum_of (fun a => exp (h a / t)) l) by (apply rsum_of_nonneg; intros; left; apply exp_pos). lra. }
  assert (Q : rsum_of (fun a => exp (f a / t)) l <= exp (e / t) * rsum_of (fun a => exp (g a / t)) l).
  { rewrite <- rsum_of_scale. apply rsum_of_le. intros a I. rewrite <- exp_plus. apply exp_le. unfold Rdiv. rewrite <- Rmult_plus_distr_r.
    apply Rmult_le_compat_r; [left; now apply Rinv_0_lt_compat|]. specialize (H a I). lra. }
  apply ln_le in Q; [|apply P]. rewrite ln_mult, ln_exp in Q; [|apply exp_pos|apply P].
  apply Rmult_le_compat_l with (r := t) in Q; [|lra]. rewrite Rmult_plus_distr_l in Q. replace (t * (e / t)) with e in Q by (field; lra). lra.
Qed.
Lemma soft_max_lip : forall A t (f g : A -> R) l e, 0 < t -> l <> [] -> (forall a, In a l -> Rabs (f a - g a) <= e) ->
  Rabs (soft_max t (map f l) - soft_max t (map g l)) <= e.
Proof.
  intros A t f g l e Ht Ne H.
  assert (soft_max t (map f l) <= soft_max t (map g l) + e) by (apply soft_max_shift_le; auto; intros a I; specialize (H a I); apply abs_inv in H; lra).
  assert (soft_max t (map g l) <= soft_max t (map f l) + e) by (apply soft_max_shift_le; auto; intros a I; specialize (H a I); apply abs_inv in H; lra).
  apply Rabs_le. lra.
Qed.
Lemma mean_shift_le : forall T (w : T -> Z) (f g : T -> R) l e, 0 <= e -> (forall x, In x l -> (0 <= w x)%Z /\ f x <= g x + e) ->
  mean (map (fun x => (w x, f x)) l) <= mean (map (fun x => (w x, g x)) l) + e.
Proof.
  intros T w f g l e He H. eapply Rle_trans; [apply mean_le with (g := fun x => g x + e); exact H|].
  unfold mean. rewrite !rsum_of_map. cbn [fst snd]. destruct (Req_EM_T _ 0) as [E|E]; [lra|].
  rewrite (rsum_of_ext _ _ (fun x => IZR (w x) * g x + e * IZR (w x))) by (intros; ring).
  rewrite rsum_of_plus, rsum_of_scale. right. field. exact E.
Qed.
Lemma mean_lip : forall T (w : T -> Z) (f g : T -> R) l e, 0 <= e -> (forall x, In x l -> (0 <= w x)%Z /\ Rabs (f x - g x) <= e) ->
  Rabs (mean (map (fun x => (w x, f x)) l) - mean (map (fun x => (w x, g x)) l)) <= e.
Proof.
  intros T w f g l e He H.
  assert (mean (map (fun x => (w x, f x)) l) <= mean (map (fun x => (w x, g x)) l) + e) by (apply mean_shift_le; auto; intros a I; destruct (H a I) as [H1 H2]; apply abs_inv in H2; split; [auto|lra]).
  assert (mean (map (fun x => (w x, g x)) l) <= mean (map (fun x => (w x, f x)) l) + e) by (apply mean_shift_le; auto; intros a I; destruct (H a I) as [H1 H2]; apply abs_inv in H2; split; [auto|lra]).
  apply Rabs_le. lra.
Qed.

(** ** Exact values of a tree *)
Section Exact.
Context {S A : Type}.
Variable seqb : S -> S -> bool.
Variable aeqb : A -> A -> bool.
Hypothesis seqb_ok : decides seqb.
Hypothesis aeqb_ok : decides aeqb.
Variable C : @econf S A.
Variable M : @mconf S A.
Variable m : @store S A.
Hypothesis W : well_formed seqb aeqb C m.
Hypothesis Depth : forall d n, nth_error (dh m) d = Some n -> (0 <= ddepth n <= max_depth C)%Z.
Hypothesis Pos : forall c x o d n, nth_error (ch m) c = Some x -> In (o, d) (ckids x) -> nth_error (dh m) d = Some n -> (0 <= samples C n)%Z.
Hypothesis Tp : 0 < mtemp M.
Hypothesis Np : mprior M = None.
Hypothesis Ne : forall d n, nth_error (dh m) d = Some n -> dkids n <> [] -> acts C (dstate n) <> [].
Notation swt := (swt C m).

Definition exact_c (V : nat -> R) (c : nat) : R :=
  match nth_error (ch m) c with Some x => mreward M (cstate x) (cact x) + mean (map (fun k => (swt k, V (snd k))) (ckids x)) | None => 0 end.
Definition exact_q (V : nat -> R) (n : @dnode S A) (a : A) : R :=
  match lookup aeqb a (dkids n) with Some c => exact_c V c | None => mdefault_q M end.
Definition exact_d (V : nat -> R) (n : @dnode S A) : R :=
  match dkids n with
  | [] => dheur n
  | _ => seen M n (soft_max (mtemp M) (map (fun a => seen M n (exact_q V n a)) (acts C (dstate n))))
  end.
Fixpoint exact (fuel : nat) (d : nat) : R :=
  match fuel, nth_error (dh m) d with Datatypes.S f, Some n => exact_d (exact f) n | _, _ => 0 end.

Lemma exact_q_ext : forall V V' d n, nth_error (dh m) d = Some n ->
  (forall e k, nth_error (dh m) e = Some k -> ddepth k = (ddepth n + 1)%Z -> V e = V' e) -> forall a, exact_q V n a = exact_q V' n a.
Proof using W seqb_ok.
  intros V V' d n Hd H a. unfold exact_q. destruct (lookup aeqb a (dkids n)) as [c|] eqn:Ec; [|reflexivity].
  destruct (wf_d _ _ _ _ W d n a c Hd Ec) as (x & Hx & _ & Cd & _). unfold exact_c. rewrite Hx. f_equal. f_equal. apply map_ext_in. intros [o e] I. f_equal. cbn.
  assert (Lo : lookup seqb o (ckids x) = Some e) by (apply (in_lookup _ seqb_ok); [exact (wf_ckeys _ _ _ _ W c x Hx)|exact I]).
  destruct (wf_c _ _ _ _ W c x o e Hx Lo) as (y & Hy & _ & Dy & _). apply (H e y Hy). lia.
Qed.
Lemma exact_fuel : forall f f' d n, nth_error (dh m) d = Some n ->
  (max_depth C - ddepth n < Z.of_nat f)%Z -> (max_depth C - ddepth n < Z.of_nat f')%Z -> exact f d = exact f' d.
Proof using W Depth seqb_ok.
  induction f as [|f IH]; intros f' d n Hd L L'; [destruct (Depth d n Hd); lia|].
  destruct f' as [|f']; [destruct (Depth d n Hd); lia|]. cbn [exact]. rewrite Hd. unfold exact_d. destruct (dkids n) eqn:Ek; [reflexivity|].
  do 2 f_equal. apply map_ext_in. intros a _. f_equal. apply exact_q_ext with (d := d); auto. intros e k He De. apply IH with (n := k); auto; lia.
Qed.

Notation bonus := (entropy_bonus (mtemp M)).
Definition full : nat := Datatypes.S (Z.to_nat (max_depth C)).
Lemma seen_sum : forall (n : @dnode S A) (l : list A) p q, rsum_of (fun a => p a * seen M n (q a)) l = seen M n (rsum_of (fun a => p a * q a) l).
Proof using Type.
  intros n l p q. unfold seen. destruct (opponent M n); [|reflexivity].
  rewrite (rsum_of_ext _ _ (fun a => (-1) * (p a * q a))) by (intros; ring). rewrite rsum_of_scale. lra.
Qed.
Lemma exact_tree : exists p, mixed_optimal aeqb C M m bonus off0 p /\ forall d n, nth_error (dh m) d = Some n -> mixed_worth aeqb C M m bonus off0 p d = exact full d.
Proof using All.
  apply (mixed_tree seqb aeqb seqb_ok aeqb_ok C M m W Depth Pos bonus off0) with (VC := exact_c (exact full)).
  - intros l p q H. unfold entropy_bonus. do 2 f_equal. apply map_ext_in. exact H.
  - intros c x Hx. unfold exact_c. now rewrite Hx.
  - intros d n Hd. destruct (dkids n) as [|k0 ks] eqn:Ek; [left; split; [reflexivity|]; unfold full; cbn [exact]; rewrite Hd; unfold exact_d; now rewrite Ek|right].
    split; [discriminate|].
    assert (NE : acts C (dstate n) <> []) by (apply (Ne d n Hd); congruence).
    set (q := fun a => seen M n (exact_q (exact full) n a)).
    assert (E : exact full d = seen M n (soft_max (mtemp M) (map q (acts C (dstate n))))).
    { unfold full. cbn [exact]. rewrite Hd. unfold exact_d. rewrite Ek. do 2 f_equal. apply map_ext_in. intros a _. unfold q. f_equal. apply exact_q_ext with (d := d); auto.
      intros e k He De. apply exact_fuel with (n := k); auto; [|apply (enough C m Depth e k He)]. pose proof (Depth d n Hd). pose proof (Depth e k He). lia. }
    assert (O : forall p, obj aeqb C M bonus off0 (exact_c (exact full)) n p = seen M n (rsum_of (fun a => p a * q a) (acts C (dstate n)) + bonus (acts C (dstate n)) p)).
    { intros p. unfold obj. rewrite seen_plus. f_equal. unfold q. rewrite (seen_sum n _ p (exact_q (exact full) n)), seen_seen. apply rsum_of_ext. intros a _. f_equal.
      unfold qval, exact_q, unexplored. rewrite Np. reflexivity. }
    rewrite E. split.
    + exists (boltzmann (mtemp M) q (acts C (dstate n))). destruct (gibbs_eq (mtemp M) Tp _ NE q) as [G1 G2]. split; [exact G1|]. now rewrite O, G2.
    + intros p Sp. pose proof (gibbs_le (mtemp M) Tp _ NE q p Sp) as Mx. rewrite O. unfold seen in *. destruct (opponent M n); lra.
Qed.
End Exact.

(** ** Searches *)
Section Search.
Context {S A : Type}.
Variable seqb : S -> S -> bool.
Variable aeqb : A -> A -> bool.
Hypothesis seqb_ok : decides seqb.
Hypothesis aeqb_ok : decides aeqb.
Variable C : @econf S A.
Notation dnode := (@dnode S A).
Notation cnode := (@cnode S A).
Variables fexp flog : F -> F.
Variable K : @fconf S A.
Variable M : @mconf S A.
Variables v B0 Rw tlo thi W : R.
Variables na ns : Z.
Hypothesis Lm : libm fexp flog v.
Hypothesis Rg : in_range C K v B0 Rw tlo thi W na ns.
Hypothesis Sn : same_numbers C K M.
Hypothesis NoTT : use_tt C = false.
Notation G := (ments64 aeqb C fexp flog K).
Notation dc := (err_c W ns).
Notation dd := (err_d v W thi na).
Notation L := (max_depth C).

Definition fresh64 (n : dnode) (x : fdmem) : Prop := dval (fd_soft x) = dheur n.
Lemma counter64 : counter G (fun x : fdmem => fd_nb x) 0 1.
Proof using Type.
  constructor; cbn.
  - reflexivity.
  - intros [|] x; cbn; lia.
  - intros n x kids cx b x1 E. unfold back_d64 in E. injection E as <-. reflexivity.
Qed.
Lemma opp_same : forall n : dnode, f_two K && Z.odd (dtime n) = opponent M n.
Proof using Sn. intros n. unfold opponent. now rewrite (sn_two _ _ _ Sn). Qed.

Section State.
Variables (n0 : nat) (g : rng R) (s : ast G).
Hypothesis R0 : areach seqb aeqb C G n0 g s.
Hypothesis Q0 : quiet (base s).
Notation m := (mem (base s)).

Lemma quiet64 :
  (forall d node x, nth_error (dh m) d = Some node -> nth_error (xds s) d = Some x ->
     dview s node = [] /\ fresh64 node x \/ from_backup_d C G (PD C v B0 Rw thi W na ns) (PC C v B0 Rw thi W na ns) node x (dview s node)) /\
  (forall c node x, nth_error (ch m) c = Some node -> nth_error (xcs s) c = Some x -> from_backup_c C G (PD C v B0 Rw thi W na ns) (PC C v B0 Rw thi W na ns) node x (cview s node)).
Proof using All.
  apply (quiet_backups seqb aeqb seqb_ok aeqb_ok C G NoTT _ _ _ _ (range_rules aeqb aeqb_ok C fexp flog K v B0 Rw tlo thi W na ns Lm Rg)) with (n := n0) (g := g); auto.
  - intros s0 depth time. unfold fresh64. cbn [ments64 new_xd new_d64 fd_soft]. now rewrite (sn_heur _ _ _ Sn).
  - intros n x leaf H. unfold fresh64 in *. cbn. unfold visit64. destruct leaf; exact H.
Qed.

Lemma kid_lookup : forall d node a, nth_error (dh m) d = Some node ->
  match lookup aeqb a (dkids node) with
  | Some c => exists cn y, lookup aeqb a (dview s node) = Some (cn, y) /\ nth_error (ch m) c = Some cn /\ nth_error (xcs s) c = Some y
  | None => lookup aeqb a (dview s node) = None
  end.
Proof using R0 seqb_ok aeqb_ok.
  intros d node a Hd. pose proof (areach_good seqb aeqb seqb_ok aeqb_ok C G _ _ _ R0) as I.
  pose proof (dview_ok seqb aeqb aeqb_ok C G s d node I Hd) as Fv. revert Fv. generalize (dview s node). generalize (dkids node).
  induction 1 as [|[k c] [k' [cn y]] l l' (E1 & E2 & E3) Fv IH]; cbn; [reflexivity|]. cbn in E1, E2, E3. subst k'.
  destruct (aeqb k a); [|exact IH]. exists cn, y. auto.
Qed.

(** A node without children was never backed up. *)
Lemma unbacked64 : forall d node x, nth_error (dh m) d = Some node -> nth_error (xds s) d = Some x -> dkids node = [] -> dval (fd_soft x) = dheur node.
Proof using R0 Q0 Sn seqb_ok aeqb_ok.
  intros d node x Hd Hx Ek.
  assert (H : hist_rules C G (fun n l x => l = [] -> fresh64 n x) (fun _ _ _ => True)).
  { constructor; auto.
    - intros o k t _. unfold fresh64. cbn [ments64 new_xd new_d64 fd_soft]. now rewrite (sn_heur _ _ _ Sn).
    - intros n l y H E. specialize (H E). unfold fresh64 in *. cbn. unfold visit64. destruct (is_leaf C n); exact H.
    - intros n l y kids cx b x1 _ _ _ E. discriminate. }
  destruct (hist_reach seqb aeqb seqb_ok aeqb_ok C G _ _ H n0 g s R0) as [H1 _]. apply (H1 d x node Hx Hd).
  pose proof (childless seqb aeqb seqb_ok aeqb_ok C n0 (base s) d node (areach_ereach seqb aeqb C G _ _ _ R0) Q0 Hd Ek) as K0.
  rewrite <- returns_count_d in K0. destruct (returns_d d (etrace (base s))); [reflexivity|cbn in K0; lia].
Qed.
Lemma small64 : forall (n : dnode) x, double x -> Rabs (dval x) <= W -> dval (nmul F_ops x (f_opp K n)) = seen M n (dval x).
Proof using Rg Sn.
  intros n x D B. destruct (ir_W _ _ _ _ _ _ _ _ _ _ Rg) as (_ & (_ & W1) & _).
  destruct (sign_mul (f_two K && Z.odd (dtime n)) x D) as (_ & V); [lra|]. unfold f_opp. rewrite V. unfold seen. now rewrite opp_same.
Qed.

(** The value of a chance node is near the exact mean of the values [V] if those of its children are. *)
Lemma chance64 : forall (V : nat -> R) c cn y e0, nth_error (ch m) c = Some cn -> nth_error (xcs s) c = Some y -> 0 <= e0 ->
  (forall e en z, nth_error (dh m) e = Some en -> nth_error (xds s) e = Some z -> ddepth en = (cdepth cn + 1)%Z -> Rabs (dval (fd_soft z) - V e) <= e0) ->
  Rabs (dval (fc_soft y) - exact_c C M m V c) <= e0 + dc.
Proof using All.
  intros V c cn y e0 Hc Hy Ed IH.
  destruct quiet64 as [QD QC]. pose proof (areach_good seqb aeqb seqb_ok aeqb_ok C G _ _ _ R0) as I.
  pose proof (areach_ereach seqb aeqb C G _ _ _ R0) as E.
  destruct (C12_well_formed seqb aeqb seqb_ok aeqb_ok C n0 (base s) E) as [Wf Dep].
  destruct (range_reach seqb aeqb seqb_ok aeqb_ok C fexp flog K v B0 Rw tlo thi W na ns Lm Rg n0 g s R0) as [RD RC].
          destruct (QC c cn y Hc Hy) as (y0 & cx' & b' & Inc & P0c & K0c & _ & Bc). cbn [ments64 back_c] in Bc.
  destruct (back_c_range aeqb C fexp flog K v B0 Rw tlo thi W na ns Lm Rg cn y0 (cview s cn) y Inc K0c Bc) as (_ & _ & Ec').
  unfold exact_c. rewrite Hc, (sn_reward _ _ _ Sn).
  set (VX := fun e => match nth_error (xds s) e with Some z => dval (fd_soft z) | None => 0 end).
  assert (Em : map (fun k : S * (dnode * fdmem) => (fd_nb (snd (snd k)), dval (fd_soft (snd (snd k))))) (cview s cn) = map (fun k => (swt C m k, VX (snd k))) (ckids cn)).
  { symmetry. pose proof (cview_ok seqb aeqb seqb_ok C G s c cn I Hc) as Fv. refine (forall2_map_eq _ _ _ _ _ _ _ _ Fv _).
  intros [o e] [o' [en z]] Io (F1 & F2 & F3). cbn in F1, F2, F3. unfold swt, VX. cbn. rewrite F2, F3. f_equal. symmetry.
  assert (Ch : cchild seqb m c o e) by (exists cn; split; auto; apply (in_lookup _ seqb_ok); [exact (wf_ckeys _ _ _ _ Wf c cn Hc)|exact Io]).
  exact (nb_samples seqb aeqb seqb_ok aeqb_ok C NoTT G _ 0 counter64 n0 g s c o e en z R0 Q0 Ch F2 F3). }
  assert (Kid : forall k, In k (ckids cn) -> (0 <= swt C m k)%Z /\ Rabs (VX (snd k) - V (snd k)) <= e0).
  { intros [o e] Io. assert (Lo : lookup seqb o (ckids cn) = Some e) by (apply (in_lookup _ seqb_ok); [exact (wf_ckeys _ _ _ _ Wf c cn Hc)|exact Io]).
  destruct (wf_c _ _ _ _ Wf c cn o e Hc Lo) as (en & He & _ & De & _).
  destruct (dh_some seqb aeqb C G s e I) as (en' & z & He' & Hz); [apply nth_error_Some; congruence|].
  unfold swt, VX. cbn [snd]. rewrite He, Hz. split.
  - assert (Ch : cchild seqb m c o e) by (exists cn; split; auto).
    pose proof (nb_samples seqb aeqb seqb_ok aeqb_ok C NoTT G _ 0 counter64 n0 g s c o e en z R0 Q0 Ch He Hz) as Nz.
    destruct (RD e en z He Hz) as (Nn & _). cbn in Nz. lia.
  - apply (IH e en z); auto. }
  assert (Av : avg_loop (map (fun k => (swt C m k, VX (snd k))) (ckids cn)) = mean (map (fun k => (swt C m k, VX (snd k))) (ckids cn))).
  { apply mean_is, avg_loop_mean. unfold counts. apply Forall_map, Forall_forall. intros k Ik. apply (Kid k Ik). }
  pose proof (mean_lip _ (swt C m) (fun k => VX (snd k)) (fun k => V (snd k)) (ckids cn) _ Ed Kid) as Ml.
  change (XD G) with fdmem in *. rewrite Em, Av in Ec'. apply abs_inv in Ec', Ml. apply Rabs_le. lra.
Qed.

Lemma close64 : forall f d node x, nth_error (dh m) d = Some node -> nth_error (xds s) d = Some x -> (L - ddepth node < Z.of_nat f)%Z ->
  Rabs (dval (fd_soft x) - exact aeqb C M m f d) <= IZR (L - ddepth node) * (dc + dd).
Proof using All.
  destruct quiet64 as [QD QC]. pose proof (areach_good seqb aeqb seqb_ok aeqb_ok C G _ _ _ R0) as I.
  pose proof (areach_ereach seqb aeqb C G _ _ _ R0) as E.
  destruct (C12_well_formed seqb aeqb seqb_ok aeqb_ok C n0 (base s) E) as [Wf Dep]. specialize (Dep (ir_depth _ _ _ _ _ _ _ _ _ _ Rg)).
  destruct (errs_pos C fexp flog K v B0 Rw tlo thi W na ns Lm Rg) as (E1 & E2).
  destruct (range_reach seqb aeqb seqb_ok aeqb_ok C fexp flog K v B0 Rw tlo thi W na ns Lm Rg n0 g s R0) as [RD RC].
  pose proof (tlo_pos C K v B0 Rw tlo thi W na ns Rg) as Tp.
  induction f as [|f IH]; intros d node x Hd Hx Lf; [destruct (Dep d node Hd); lia|].
  pose proof (Dep d node Hd) as Dd. cbn [exact]. rewrite Hd.
  destruct (dkids node) as [|k0 ks] eqn:Ek0; [|assert (Ek : dkids node <> []) by congruence; clear k0 ks Ek0; destruct (QD d node x Hd Hx) as [[Ev _]|(u & x0 & cx & b & Hu & In0 & P0 & K0 & _ & B)]].
  - unfold exact_d. rewrite Ek0, (unbacked64 d node x Hd Hx Ek0). rewrite Rminus_diag_eq, Rabs_R0 by reflexivity. apply Rmult_le_pos; [apply IZR_le; lia|lra].
  - exfalso. apply Ek. pose proof (dview_ok seqb aeqb aeqb_ok C G s d node I Hd) as Fv. rewrite Ev in Fv. now inversion Fv.
  - (* backed up *)
    cbn [ments64 back_d] in B.
    destruct (back_d_range aeqb aeqb_ok C fexp flog K v B0 Rw tlo thi W na ns Lm Rg (with_visits node u) x0 (dview s node) x In0 K0 B) as (_ & _ & _ & Er).
    cbv zeta in Er. rewrite (sn_temp _ _ _ Sn) in Er. cbn [with_visits dstate dtime] in Er. rewrite opp_same in Er.
    assert (Ne : acts C (dstate node) <> []) by (apply (ir_acts _ _ _ _ _ _ _ _ _ _ Rg); apply In0).
    assert (Ex : exact_d aeqb C M m (exact aeqb C M m f) node = seen M node (soft_max (mtemp M) (map (fun a => seen M node (exact_q aeqb C M m (exact aeqb C M m f) node a)) (acts C (dstate node))))).
    { unfold exact_d. destruct (dkids node); [congruence|reflexivity]. }
    rewrite Ex. rewrite map_map in Er.
    assert (Tm : 0 < mtemp M).
    { rewrite <- (sn_temp _ _ _ Sn node). destruct (ir_temp _ _ _ _ _ _ _ _ _ _ Rg node) as (_ & T1 & _). lra. }
    assert (Lip : Rabs (soft_max (mtemp M) (map (fun a => dval (q64 aeqb K (with_visits node u) (dview s node) a)) (acts C (dstate node))) -
                        soft_max (mtemp M) (map (fun a => seen M node (exact_q aeqb C M m (exact aeqb C M m f) node a)) (acts C (dstate node)))) <=
                  IZR (L - ddepth node - 1) * (dc + dd) + dc).
    { apply soft_max_lip; auto. intros a Ia.
      assert (Ed : 0 <= IZR (L - ddepth node - 1) * (dc + dd)). { apply Rmult_le_pos; [apply IZR_le; destruct In0 as (_ & In1 & _); lia|lra]. }
      assert (Dn : (0 <= ddepth node < L)%Z) by apply In0.
      pose proof (bnd_le C fexp flog K v B0 Rw tlo thi W na ns Lm Rg (L - ddepth node) ltac:(lia)) as Q1. rewrite bnd_S in Q1.
      destruct (step_pos C fexp flog K v B0 Rw tlo thi W na ns Lm Rg) as (S1 & S2).
      unfold q64, exact_q. change (f_opp K (with_visits node u)) with (f_opp K node).
      pose proof (kid_lookup d node a Hd) as Kl. change (XC G) with fcmem in *. destruct (lookup aeqb a (dkids node)) as [c|] eqn:Ec.
      - destruct Kl as (cn & y & Ly & Hc & Hy). rewrite Ly. destruct (RC c cn y Hc Hy) as (Pc1 & Pc2 & Pc3).
        destruct (wf_d _ _ _ _ Wf d node a c Hd Ec) as (cn' & Hc' & _ & Cd & _). rewrite Hc in Hc'. injection Hc' as <-. rewrite Cd in Pc3.
        rewrite small64; [|exact Pc2|lra].
        assert (Cl : Rabs (dval (fc_soft y) - exact_c C M m (exact aeqb C M m f) c) <= IZR (L - ddepth node - 1) * (dc + dd) + dc).
        { apply (chance64 _ c cn y _ Hc Hy Ed). intros e en z He Hz De. replace (L - ddepth node - 1)%Z with (L - ddepth en)%Z by lia. apply IH; auto. lia. }
        unfold seen. destruct (opponent M node); [|exact Cl]. rewrite <- Rabs_Ropp. replace (- (- dval (fc_soft y) - - exact_c C M m (exact aeqb C M m f) c)) with (dval (fc_soft y) - exact_c C M m (exact aeqb C M m f) c) by lra. exact Cl.
      - rewrite Kl. destruct (ir_default _ _ _ _ _ _ _ _ _ _ Rg) as (Df & Bf). rewrite small64, (sn_default _ _ _ Sn); [|exact Df|].
        + rewrite Rminus_diag_eq, Rabs_R0 by reflexivity. lra.
        + pose proof (bnd_le C fexp flog K v B0 Rw tlo thi W na ns Lm Rg (L - ddepth node) ltac:(lia)). lra. }
    replace (IZR (L - ddepth node) * (dc + dd)) with (IZR (L - ddepth node - 1) * (dc + dd) + dc + dd) by (rewrite minus_IZR; lra).
    unfold seen at 1. destruct (opponent M node); apply abs_inv in Er, Lip; apply Rabs_le; lra.
Qed.
(** Some optimal plan's exact worth is near the computed value, everywhere in the tree. *)
Theorem close_tree64 : exists p, mixed_optimal aeqb C M m (entropy_bonus (mtemp M)) off0 p /\
  (forall d node x, nth_error (dh m) d = Some node -> nth_error (xds s) d = Some x ->
    Rabs (dval (fd_soft x) - mixed_worth aeqb C M m (entropy_bonus (mtemp M)) off0 p d) <= IZR (L - ddepth node) * (dc + dd)) /\
  (forall c node y, nth_error (ch m) c = Some node -> nth_error (xcs s) c = Some y ->
    Rabs (dval (fc_soft y) - action_worth aeqb C M m (entropy_bonus (mtemp M)) off0 p node) <= IZR (L - cdepth node) * (dc + dd)).
Proof using All.
  pose proof (areach_good seqb aeqb seqb_ok aeqb_ok C G _ _ _ R0) as I.
  pose proof (areach_ereach seqb aeqb C G _ _ _ R0) as E.
  destruct (C12_well_formed seqb aeqb seqb_ok aeqb_ok C n0 (base s) E) as [Wf Dep]. specialize (Dep (ir_depth _ _ _ _ _ _ _ _ _ _ Rg)).
  destruct (range_reach seqb aeqb seqb_ok aeqb_ok C fexp flog K v B0 Rw tlo thi W na ns Lm Rg n0 g s R0) as [RD RC].
  destruct (exact_tree seqb aeqb seqb_ok aeqb_ok C M m Wf Dep) as (p & Op & Wp).
  - intros c cn o e en Hc Io He. destruct (dh_some seqb aeqb C G s e I) as (en' & z & He' & Hz); [apply nth_error_Some; congruence|].
    assert (Ch : cchild seqb m c o e) by (exists cn; split; auto; apply (in_lookup _ seqb_ok); [exact (wf_ckeys _ _ _ _ Wf c cn Hc)|exact Io]).
    pose proof (nb_samples seqb aeqb seqb_ok aeqb_ok C NoTT G _ 0 counter64 n0 g s c o e en z R0 Q0 Ch He Hz) as Nz.
    destruct (RD e en z He Hz) as (Nn & _). cbn in Nz. lia.
  - rewrite <- (sn_temp _ _ _ Sn (new_dnode C (root_state C) 0 0)). destruct (ir_temp _ _ _ _ _ _ _ _ _ _ Rg (new_dnode C (root_state C) 0 0)) as (_ & T1 & _).
    pose proof (tlo_pos C K v B0 Rw tlo thi W na ns Rg). lra.
  - exact (sn_prior _ _ _ Sn).
  - intros d node Hd Ne. destruct (dkids node) as [|[a c] ks] eqn:Ek; [congruence|].
    destruct (wf_d _ _ _ _ Wf d node a c Hd) as (_ & _ & _ & _ & _ & _ & Ia & _).
    + rewrite Ek. cbn. now rewrite (keqb_refl _ aeqb_ok).
    + intros E0. rewrite E0 in Ia. exact Ia.
  - assert (Cd : forall d node x, nth_error (dh m) d = Some node -> nth_error (xds s) d = Some x ->
      Rabs (dval (fd_soft x) - mixed_worth aeqb C M m (entropy_bonus (mtemp M)) off0 p d) <= IZR (L - ddepth node) * (dc + dd)).
    { intros d node x Hd Hx. rewrite (Wp d node Hd). apply close64; auto. apply (enough C m Dep d node Hd). }
    exists p. split; [exact Op|]. split; [exact Cd|]. intros c node y Hc Hy. destruct (RC c node y Hc Hy) as (Pc1 & _).
    destruct (errs_pos C fexp flog K v B0 Rw tlo thi W na ns Lm Rg) as (E1 & E2).
    pose proof (chance64 (mixed_worth aeqb C M m (entropy_bonus (mtemp M)) off0 p) c node y (IZR (L - cdepth node - 1) * (dc + dd)) Hc Hy) as Q.
    unfold exact_c in Q. rewrite Hc in Q. change (mreward M (cstate node) (cact node) + _) with (action_worth aeqb C M m (entropy_bonus (mtemp M)) off0 p node) in Q.
    eapply Rle_trans; [apply Q|].
    + apply Rmult_le_pos; [apply IZR_le; lia|lra].
    + intros e en z He Hz De. replace (L - cdepth node - 1)%Z with (L - ddepth en)%Z by lia. now apply Cd.
    + rewrite minus_IZR. lra.
Qed.
End State.
End Search.
