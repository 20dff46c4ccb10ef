(** Property theorems about the backups and constants shared by MENTS and its relatives: C38, C39, C41, C42, C43,
    C64. Theorems about whole searches are in MentsTheorems.v, DentsTheorems.v and TentsTheorems.v. *)
From Coq Require Import List ZArith Bool Reals Lia Lra Permutation.
From Verif Require Import Base BaseProofs NumOps RLemmas HelperModel HelperSpec EngineModel EngineSpec MapModel
  EngineProofs AlgoModel UctModel MentsModel SoftSpec SoftProofs MentsSpec MentsProofs MentsPolicy SoftResults.
Import ListNotations.
Open Scope R_scope.

Section Theorems.
Context {S A : Type}.
Variable aeqb : A -> A -> bool.
Hypothesis aeqb_ok : decides aeqb.
Variable C : @econf S A.
Variable M : @mconf S A.
Notation dnode := (@dnode S A).
Notation cnode := (@cnode S A).

(** ** C38 *)
(** A soft backup of a chance node sets its value to the reward plus the mean of the children's values weighted by
    their numbers of backups. *)
Theorem C38_soft_value : forall (n : cnode) x (kids : list (S * (dnode * mmem))),
  (forall o d y, In (o, (d, y)) kids -> (0 <= m_nb y)%Z) ->
  exists v, weighted_mean (map (fun k => (m_nb (snd (snd k)), m_soft (snd (snd k)))) kids) v /\
    ments_backup_c M n x kids = mkCm (c_nb x + 1) (mreward M (cstate n) (cact n) + v).
Proof. exact (C38_ments' M). Qed.
(** The same for the dynamic-programming value ... *)
Theorem C38_dp_value : forall (n : cnode) x (kids : list (S * vmem)),
  (forall o y, In (o, y) kids -> (0 <= v_nb y)%Z) ->
  exists v, weighted_mean (map (fun k => (v_nb (snd k), v_val (snd k))) kids) v /\
    dp_backup_c M n x kids = mkVm (v_nb x + 1) (mreward M (cstate n) (cact n) + v).
Proof. exact (C38_dp' M). Qed.
(** ... and for the subtree entropy, without a reward. *)
Theorem C38_entropy : forall x (kids : list (S * emem)) (h : emem -> R),
  (forall o y, In (o, y) kids -> (0 <= e_nb y)%Z /\ e_sub y = Some (h y)) ->
  exists v, weighted_mean (map (fun k => (e_nb (snd k), h (snd k))) kids) v /\
    ent_backup_c x kids = mkEc (ec_nb x + 1) (Some v).
Proof. exact C38_ent'. Qed.
(** The order of the children does not matter. *)
Theorem C38_order_irrelevant : forall (n : cnode) x (kids kids' : list (S * (dnode * mmem))),
  (forall o d y, In (o, (d, y)) kids -> (0 <= m_nb y)%Z) -> Permutation kids kids' ->
  ments_backup_c M n x kids = ments_backup_c M n x kids'.
Proof. exact (C38_order' M). Qed.
Theorem C38_dp_order_irrelevant : forall (n : cnode) x (kids kids' : list (S * vmem)),
  (forall o y, In (o, y) kids -> (0 <= v_nb y)%Z) -> Permutation kids kids' ->
  dp_backup_c M n x kids = dp_backup_c M n x kids'.
Proof. exact (C38_dp_order' M). Qed.

(** ** C39 *)
(** A dynamic-programming backup of a decision node sets its value to the largest (opponent: smallest) value of a
    child that has been backed up ... *)
Theorem C39_best_child : forall (n : dnode) x (kids : list (A * vmem)),
  (forall a y, In (a, y) kids -> (0 <= v_nb y)%Z) -> (exists a y, In (a, y) kids /\ (0 < v_nb y)%Z) ->
  exists v, dp_backup_d M n x kids = Ok (mkVm (v_nb x + 1) v) /\
    let l := map (fun k => (v_nb (snd k), v_val (snd k))) kids in
    if opponent M n then is_min l v else is_max l v.
Proof. exact (C39_backup' M). Qed.
(** ... in whatever order the children are visited. *)
Theorem C39_order_irrelevant : forall (n : dnode) x (kids kids' : list (A * vmem)),
  (forall a y, In (a, y) kids -> (0 <= v_nb y)%Z) -> (exists a y, In (a, y) kids /\ (0 < v_nb y)%Z) ->
  Permutation kids kids' -> dp_backup_d M n x kids = dp_backup_d M n x kids'.
Proof. exact (C39_order' M). Qed.

(** ** C41 *)
(** What the constructor stores with shift_pseudo_q_values: not the mean, only the last entry of the prior counts. *)
Theorem C41_offset_uses_last_entry : forall (n : dnode) p, mprior M = Some p -> mshift M = true ->
  forall l a w, morder M R (p (dstate n)) = l ++ [(a, w)] -> m_off (ments_new_d C M n) = moffset M - clamped_log w.
Proof. exact (C41_offset' C M). Qed.
(** The property therefore holds only for priors whose entries have equal logarithms. *)
Theorem C41_mean_partial : forall (n : dnode) p w, mprior M = Some p -> mshift M = true ->
  (forall V (m : list (A * V)), Permutation m (morder M V m)) ->
  p (dstate n) <> [] -> (forall a v, In (a, v) (p (dstate n)) -> clamped_log v = w) ->
  m_off (ments_new_d C M n) =
    moffset M - rsum_of (fun k => clamped_log (snd k)) (p (dstate n)) / INR (length (p (dstate n))).
Proof.
  intros n p w E1 E2 Ho NE H.
  assert (Em : rsum_of (fun k : A * R => clamped_log (snd k)) (p (dstate n)) / INR (length (p (dstate n))) = w).
  { rewrite (rsum_of_ext _ _ (fun _ => w)) by (intros [a v] Q; cbn; eauto). rewrite rsum_of_const. field.
    apply not_0_INR. destruct (p (dstate n)); [congruence|discriminate]. }
  rewrite Em. pose proof (Ho R (p (dstate n))) as P.
  destruct (morder M R (p (dstate n))) as [|[a v] l _] eqn:E using rev_ind.
  - apply Permutation_sym, Permutation_nil in P. congruence.
  - rewrite (C41_offset_uses_last_entry n p E1 E2 l a v E). f_equal. apply (H a).
    eapply Permutation_in; [symmetry; exact P|]. apply in_or_app. right. now left.
Qed.

(** ** C42 *)
(** For the three decay functions: bounds, value at zero visits, monotonicity. *)
Theorem C42_decay : forall f, f = decay_inv_sqrt \/ f = decay_inv_log \/ f = decay_sigmoid ->
  forall init mn scale v w, 0 <= init -> 0 <= scale -> (0 <= v <= w)%Z ->
  mn <= decayed_temp f init mn v scale <= Rmax init mn /\
  decayed_temp f init mn 0 scale = Rmax init mn /\
  decayed_temp f init mn w scale <= decayed_temp f init mn v scale.
Proof.
  intros f Hf init mn scale v w Hi Hs Hv.
  assert (D : decay_function f).
  { destruct Hf as [->|[->| ->]]; [apply inv_sqrt_decay|apply inv_log_decay|apply sigmoid_decay]. }
  split; [apply decayed_bounds; auto; lia|]. split; [now apply decayed_zero|now apply decayed_antitone].
Qed.
(** Closed forms. *)
Theorem C42_closed_forms : forall init mn scale v,
  decayed_temp decay_inv_sqrt init mn v scale = Rmax mn (init / sqrt (1 + scale * IZR v)) /\
  decayed_temp decay_inv_log init mn v scale = Rmax mn (init / ln (exp 1 + scale * IZR v)) /\
  decayed_temp decay_sigmoid init mn v scale = Rmax mn (init * ((1 + exp (-5)) / (1 + exp (scale * IZR v - 5)))).
Proof.
  intros init mn scale v.
  assert (H : forall f, decayed_temp f init mn v scale = Rmax mn (init * f (scale * IZR v))).
  { intros f. unfold decayed_temp. destruct (Rltb _ _) eqn:E.
    - apply Rltb_true in E. rewrite Rmax_left; lra.
    - apply Rltb_false in E. rewrite Rmax_right; lra. }
  rewrite !H. repeat split; try (f_equal; unfold decay_inv_sqrt, decay_inv_log, Rdiv; ring).
Qed.
(** The temperature of a node is the decayed one for its number of visits; a positive scale for the root replaces
    the general one there. *)
Theorem C42_node_temperature : forall (n : dnode),
  ments_temp M n =
    match mdecay M with
    | None => mtemp M
    | Some f => Rmax (mmin_temp M) (mtemp M *
        f ((if Z.eq_dec (ddepth n) 0 then if Rlt_dec 0 (mroot_scale M) then mroot_scale M else mscale M else mscale M)
           * IZR (dvisits n)))
    end /\
  value_temp M n =
    match vdecay M with
    | None => vinit M
    | Some f => Rmax (vmin M) (vinit M *
        f ((if Z.eq_dec (ddepth n) 0 then if Rlt_dec 0 (vroot_scale M) then vroot_scale M else vscale M else vscale M)
           * IZR (dvisits n)))
    end.
Proof.
  intros n.
  assert (H : forall f i mn v sc, decayed_temp f i mn v sc = Rmax mn (i * f (sc * IZR v))).
  { intros f i mn v sc. unfold decayed_temp. destruct (Rltb _ _) eqn:E.
    - apply Rltb_true in E. rewrite Rmax_left; lra.
    - apply Rltb_false in E. rewrite Rmax_right; lra. }
  assert (K : forall a b, (if is_root n && Rltb 0 a then a else b) =
     (if Z.eq_dec (ddepth n) 0 then if Rlt_dec 0 a then a else b else b)).
  { intros a b. unfold is_root. destruct (Z.eqb_spec (ddepth n) 0), (Z.eq_dec (ddepth n) 0); try contradiction; cbn; auto.
    unfold Rltb. destruct (Rlt_dec 0 a); auto. }
  unfold ments_temp, value_temp. split.
  - destruct (mdecay M); auto. rewrite H, K. reflexivity.
  - destruct (vdecay M); auto. rewrite H, K. reflexivity.
Qed.

(** ** C43 *)
(** An entropy backup of a decision node with policy [pol] (probabilities [p]) and children of entropy [h]. *)
Theorem C43_entropy_backup : forall (n : dnode) x pol (kids : list (A * ecmem)) (p h : A -> R),
  (forall V (m : list (A * V)), Permutation m (morder M V m)) -> NoDup (map fst pol) ->
  (forall a w, In (a, w) pol -> p a = w) -> (forall a, ~ In a (map fst pol) -> p a = 0) ->
  (forall a y, In (a, y) kids -> ec_sub y = Some (h a)) ->
  ent_backup_d aeqb C M n x (Some pol) kids =
    mkEm (e_nb x + 1) (Some (shannon (map snd pol)))
         (Some (seen M n (shannon (map snd pol)) + rsum_of (fun a => p a * h a) (map fst kids))).
Proof. exact (C43_backup' aeqb aeqb_ok C M). Qed.
End Theorems.

(** Entropy of a distribution on n actions. *)
Theorem C43_entropy_bounds : forall T (pol : list (T * R)), distribution pol ->
  0 <= shannon (map snd pol) <= ln (INR (length pol)).
Proof.
  intros T pol (ND & P & E). rewrite total_rsum in E. unfold rsum_of in E.
  assert (P' : forall p, In p (map snd pol) -> 0 <= p).
  { intros p Q. apply in_map_iff in Q. destruct Q as ([k w] & <- & Q). eapply P; eauto. }
  assert (NE : map snd pol <> []) by (intros Z; rewrite Z in E; cbn in E; lra). split.
  - apply shannon_nonneg. intros p Q. split; auto. rewrite <- E. clear - P' Q.
    induction (map snd pol) as [|q l IH]; [destruct Q|]. cbn. destruct Q as [->|Q].
    + assert (0 <= rsum l); [|lra]. clear - P'. induction l as [|r l IH]; cbn; [lra|].
      assert (0 <= rsum l) by (apply IH; intros p' [<-|Q]; apply P'; [now left|right; now right]).
      assert (0 <= r) by (apply P'; right; now left). lra.
    + assert (0 <= q) by (apply P'; now left). assert (p <= rsum l); [|lra]. apply IH; auto. intros r Qr. apply P'. now right.
  - rewrite <- (map_length snd pol). now apply shannon_max.
Qed.
(** The code drops actions with tiny probabilities from the policy. The bound that remains is off by the
    probability dropped. *)
Theorem C43_entropy_bounds_dropped : forall T (pol : list (T * R)), pol <> [] -> nonneg_weights pol -> total pol <= 1 ->
  0 <= shannon (map snd pol) <= ln (INR (length pol)) + (1 - total pol).
Proof.
  intros T pol NE P E. rewrite total_rsum in *. unfold rsum_of in *.
  assert (P' : forall p, In p (map snd pol) -> 0 <= p).
  { intros p Q. apply in_map_iff in Q. destruct Q as ([k w] & <- & Q). eapply P; eauto. }
  split.
  - apply shannon_nonneg. intros p Q. split; auto. apply Rle_trans with (rsum (map snd pol)); auto. clear - P' Q.
    induction (map snd pol) as [|q l IH]; [destruct Q|]. cbn. destruct Q as [->|Q].
    + assert (0 <= rsum l); [|lra]. clear - P'. induction l as [|r l IH]; cbn; [lra|].
      assert (0 <= rsum l) by (apply IH; intros p' [<-|Q]; apply P'; [now left|right; now right]).
      assert (0 <= r) by (apply P'; right; now left). lra.
    + assert (0 <= q) by (apply P'; now left). assert (p <= rsum l); [|lra]. apply IH; auto. intros r Qr. apply P'. now right.
  - rewrite <- (map_length snd pol). apply shannon_sub_max; auto. destruct pol; [congruence|discriminate].
Qed.

(** Means lie between bounds of the values that count. *)
Theorem C38_between : forall l v lo hi, (forall n x, In (n, x) l -> (0 <= n)%Z) -> weighted_mean l v ->
  (exists n x, In (n, x) l /\ (0 < n)%Z) -> (forall n x, In (n, x) l -> (0 < n)%Z -> lo <= x <= hi) -> lo <= v <= hi.
Proof.
  intros l v lo hi H. apply weighted_mean_between. apply Forall_forall. intros [n x] Q. cbn. eauto.
Qed.

(** ** A one-state configuration for the examples *)
Definition soft_ex_conf : @econf nat bool :=
  mkConf (fun s => Nat.eqb s 2) (fun _ => [true; false]) (fun s _ => [s; S s])
         (fun _ a o => if a then 1 else 0) (Some (fun s => 5)) 3 true false 0 0%nat 0.
Definition soft_ex (pr : option (nat -> list (bool * R))) : @mconf nat bool :=
  mkM 1 (-1) (1/2) (-1) 1 None (1/10) 1 (-1) 0 true 0 0 false pr true (fun _ a => if a then 1 else 0)
      (fun s _ => [(s, 1/2); (S s, 1/2)]) (fun V m => rev m) None 1 (1/10) 1 (-1) true.
Definition uneven : nat -> list (bool * R) := fun _ => [(true, 1/4); (false, 3/4)].

(** ** C41 refuted *)
Theorem C41_mean_refuted : ~ forall (S A : Type) (C : @econf S A) (M : @mconf S A) (n : @dnode S A) p,
  mprior M = Some p -> mshift M = true -> (forall V (m : list (A * V)), Permutation m (morder M V m)) ->
  p (dstate n) <> [] ->
  m_off (ments_new_d C M n) =
    moffset M - rsum_of (fun k => clamped_log (snd k)) (p (dstate n)) / INR (length (p (dstate n))).
Proof.
  intros H. specialize (H nat bool soft_ex_conf (soft_ex (Some uneven)) (new_dnode soft_ex_conf 0%nat 0 0) uneven eq_refl eq_refl
    (fun V m => Permutation_rev m) ltac:(discriminate)).
  rewrite (C41_offset_uses_last_entry soft_ex_conf (soft_ex (Some uneven)) (new_dnode soft_ex_conf 0%nat 0 0) uneven eq_refl eq_refl
    [(false, 3/4)] true (1/4) eq_refl) in H.
  cbn [dstate new_dnode soft_ex moffset] in H. unfold rsum_of, uneven in H. cbn [map rsum snd length INR] in H.
  assert (P : 1 / IZR (10 ^ 32) < 1 / 4).
  { apply Rmult_lt_reg_r with (IZR (10 ^ 32)); [apply IZR_lt; reflexivity|].
    unfold Rdiv at 1. rewrite Rmult_assoc, Rinv_l by (apply not_0_IZR; discriminate).
    assert (4 < IZR (10 ^ 32)) by (apply IZR_lt; reflexivity). lra. }
  assert (P1 : 1 < IZR (10 ^ 32)) by (apply IZR_lt; reflexivity).
  unfold clamped_log in H.
  destruct (Rle_dec (IZR (10 ^ 32)) (1 / 4)); [lra|]. destruct (Rle_dec (IZR (10 ^ 32)) (3 / 4)); [lra|].
  destruct (Rlt_dec (1 / IZR (10 ^ 32)) (1 / 4)); [|lra]. destruct (Rlt_dec (1 / IZR (10 ^ 32)) (3 / 4)); [|lra].
  assert (L : ln (1 / 4) < ln (3 / 4)) by (apply ln_increasing; lra). lra.
Qed.

(** ** C64 *)
(** Unexpanded actions with larger prior weights should not have smaller pseudo values. *)
Theorem C64_prior_order_refuted : ~ forall (S A : Type) (aeqb : A -> A -> bool) (M : @mconf S A) (n : @dnode S A) x p a b wa wb va vb,
  decides aeqb -> mprior M = Some p -> NoDup (map fst (p (dstate n))) -> nonneg_weights (p (dstate n)) -> total (p (dstate n)) = 1 ->
  In (a, wa) (p (dstate n)) -> In (b, wb) (p (dstate n)) -> wa < wb ->
  ments_q aeqb M n x [] a = Ok va -> ments_q aeqb M n x [] b = Ok vb -> va <= vb.
Proof.
  intros H. pose proof ln_1em20 as L20.
  assert (P : 0 < IZR (10 ^ 20)) by (apply IZR_lt; reflexivity).
  assert (P32 : IZR (10 ^ 20) < IZR (10 ^ 32)) by (apply IZR_lt; reflexivity).
  set (e := 1 / IZR (10 ^ 20)) in *.
  assert (E0 : 0 < e) by (apply Rdiv_lt_0_compat; lra).
  assert (E1 : 1 / IZR (10 ^ 32) < e).
  { unfold e, Rdiv. rewrite !Rmult_1_l. apply Rinv_lt_contravar; auto. apply Rmult_lt_0_compat; lra. }
  assert (E2 : 0 < 1 / IZR (10 ^ 32)) by (apply Rdiv_lt_0_compat; lra).
  assert (E3 : e <= 1).
  { unfold e, Rdiv. rewrite Rmult_1_l. rewrite <- Rinv_1. apply Rinv_le_contravar; [lra|]. apply IZR_le. vm_compute. discriminate. }
  assert (E4 : 1 < IZR (10 ^ 32)) by (apply IZR_lt; reflexivity).
  set (pr := fun _ : nat => [(0%nat, 0); (1%nat, e); (2%nat, 1 - e)]).
  set (M := mkM 1 (-1) (1/2) (-1) 1 None (1/10) 1 (-1) 0 false 0 0 false (Some pr) true (fun _ _ => 0)
      (fun s _ => [(s, 1)]) (fun V m => m) None 1 (1/10) 1 (-1) true : @mconf nat nat).
  set (n := mkD (A := nat) 0%nat 0 0 0 0 []).
  specialize (H nat nat Nat.eqb M n (mkMm 0 0 0) pr 0%nat 1%nat 0 e (clamped_log 0 + 0) (clamped_log e + 0)).
  assert (V : clamped_log 0 + 0 <= clamped_log e + 0).
  { apply H.
    - intros x y. apply Nat.eqb_eq.
    - reflexivity.
    - cbn. repeat constructor; cbn; lia.
    - intros k w [[= <- <-]|[[= <- <-]|[[= <- <-]|[]]]]; lra.
    - cbn. lra.
    - now left.
    - right. now left.
    - exact E0.
    - cbn. now rewrite log_weight_eq.
    - cbn. now rewrite log_weight_eq. }
  unfold clamped_log in V. destruct (Rle_dec (IZR (10 ^ 32)) 0); [lra|]. destruct (Rlt_dec (1 / IZR (10 ^ 32)) 0); [lra|].
  destruct (Rle_dec (IZR (10 ^ 32)) e); [lra|]. destruct (Rlt_dec (1 / IZR (10 ^ 32)) e); [|lra]. lra.
Qed.
(** It holds for weights strictly between the two limits. *)
Theorem C64_prior_order_partial : forall (S A : Type) (aeqb : A -> A -> bool) (M : @mconf S A) (n : @dnode S A) x
    (kids : list (A * (@cnode S A * cmem))) p a b wa wb va vb,
  decides aeqb -> mprior M = Some p -> NoDup (map fst (p (dstate n))) ->
  In (a, wa) (p (dstate n)) -> In (b, wb) (p (dstate n)) -> ~ In a (map fst kids) -> ~ In b (map fst kids) ->
  1 / IZR (10 ^ 32) < wa -> wb < IZR (10 ^ 32) -> wa < wb ->
  ments_q aeqb M n x kids a = Ok va -> ments_q aeqb M n x kids b = Ok vb -> va < vb.
Proof.
  intros S A aeqb M n x kids p a b wa wb va vb Dec Ep ND Ia Ib Ka Kb La Lb L Ea Eb.
  apply (ments_q_spec aeqb Dec) in Ea. apply (ments_q_spec aeqb Dec) in Eb.
  assert (U : forall c w w', In (c, w) (p (dstate n)) -> In (c, w') (p (dstate n)) -> w = w').
  { intros c w w' Q Q'. apply (MapProofs.in_lookup aeqb Dec _ _ _ _ ND) in Q. apply (MapProofs.in_lookup aeqb Dec _ _ _ _ ND) in Q'. congruence. }
  assert (Kin : forall c d y, In (c, (d, y)) kids -> In c (map fst kids)).
  { intros c d y Q. change c with (fst (c, (d, y))). now apply in_map. }
  inversion Ea as [c y I|p' w Na Ep' I|Na Ep']; subst; [elim Ka; eauto| |congruence].
  inversion Eb as [c y I'|p'' w' Nb Ep'' I'|Nb Ep'']; subst; [elim Kb; eauto| |congruence].
  assert (p' = p) by congruence. assert (p'' = p) by congruence. subst.
  rewrite (U _ _ _ I Ia), (U _ _ _ I' Ib).
  assert (E2 : 0 < 1 / IZR (10 ^ 32)) by (apply Rdiv_lt_0_compat; [lra|apply IZR_lt; reflexivity]).
  unfold clamped_log. destruct (Rle_dec (IZR (10 ^ 32)) wa); [lra|]. destruct (Rle_dec (IZR (10 ^ 32)) wb); [lra|].
  destruct (Rlt_dec (1 / IZR (10 ^ 32)) wa); [|lra]. destruct (Rlt_dec (1 / IZR (10 ^ 32)) wb); [|lra].
  assert (ln wa < ln wb) by (apply ln_increasing; lra). lra.
Qed.

Print Assumptions C38_soft_value.
Print Assumptions C38_dp_value.
Print Assumptions C38_entropy.
Print Assumptions C38_order_irrelevant.
Print Assumptions C38_dp_order_irrelevant.
Print Assumptions C38_between.
Print Assumptions C39_best_child.
Print Assumptions C39_order_irrelevant.
Print Assumptions C41_offset_uses_last_entry.
Print Assumptions C41_mean_partial.
Print Assumptions C41_mean_refuted.
Print Assumptions C42_decay.
Print Assumptions C42_closed_forms.
Print Assumptions C42_node_temperature.
Print Assumptions C43_entropy_backup.
Print Assumptions C43_entropy_bounds.
Print Assumptions C43_entropy_bounds_dropped.
Print Assumptions C64_prior_order_refuted.
Print Assumptions C64_prior_order_partial.

(** ** Examples that meet the hypotheses *)
(** C38: two children with 1 and 3 backups of values 2 and 6 and one without backups; the mean is 5. *)
Example C38_witness : let d := new_dnode soft_ex_conf 0%nat 1 1 in
  let kids := [(0%nat, (d, mkMm 1 2 0)); (1%nat, (d, mkMm 3 6 0)); (2%nat, (d, mkMm 0 100 0))] in
  (forall o e y, In (o, (e, y)) kids -> (0 <= m_nb y)%Z) /\
  c_soft (ments_backup_c (soft_ex None) (new_cnode 0%nat true 0 0) (mkCm 0 0) kids) = 1 + 5.
Proof.
  cbv zeta. split.
  - intros o e y [[= <- <- <-]|[[= <- <- <-]|[[= <- <- <-]|[]]]]; cbn; lia.
  - unfold ments_backup_c, avg_loop. cbn. field.
Qed.
(** C39: the opponent takes the smaller of the two values that were backed up. *)
Example C39_witness : let n := new_dnode soft_ex_conf 0%nat 1 1 in
  let kids := [(true, mkVm 2 7); (false, mkVm 1 4)] in
  (forall a y, In (a, y) kids -> (0 <= v_nb y)%Z) /\ (exists a y, In (a, y) kids /\ (0 < v_nb y)%Z) /\
  dp_backup_d (soft_ex None) n (mkVm 3 0) kids = Ok (mkVm 4 4).
Proof.
  cbv zeta. split; [intros a y [[= <- <-]|[[= <- <-]|[]]]; cbn; lia|].
  split; [exists true, (mkVm 2 7); split; [now left|cbn; lia]|].
  unfold dp_backup_d, dp_loop, dp_step, opp_coeff. cbn.
  assert (E : Rltb (-1 * 7) (-1 * 4) = true) by (apply Rltb_true; lra). now rewrite E.
Qed.
(** C41: a uniform prior. *)
Example C41_witness : let p := fun _ : nat => [(true, 1/2); (false, 1/2)] in
  mprior (soft_ex (Some p)) = Some p /\ mshift (soft_ex (Some p)) = true /\ p 0%nat <> [] /\
  forall a v, In (a, v) (p 0%nat) -> clamped_log v = clamped_log (1/2).
Proof.
  cbv zeta. split; [reflexivity|]. split; [reflexivity|]. split; [discriminate|].
  intros a v [[= <- <-]|[[= <- <-]|[]]]; reflexivity.
Qed.
(** C43: the uniform policy at an opponent's node with one child. *)
Example C43_witness : let n := new_dnode soft_ex_conf 0%nat 1 1 in let pol := [(true, 1/2); (false, 1/2)] in
  distribution pol /\
  ent_backup_d Bool.eqb soft_ex_conf (soft_ex None) n (mkEm 0 (Some 0) (Some 0)) (Some pol) [(true, mkEc 1 (Some 3))] =
    mkEm 1 (Some (shannon [1/2; 1/2])) (Some (- shannon [1/2; 1/2] + (1/2 * 3 + 0))).
Proof.
  cbv zeta. split.
  - split; [cbn; repeat constructor; cbn; intuition discriminate|]. split; [|cbn; lra].
    intros k w [[= <- <-]|[[= <- <-]|[]]]; lra.
  - rewrite (C43_entropy_backup Bool.eqb (fun x y => Bool.eqb_true_iff x y) soft_ex_conf (soft_ex None) _ _ _ _ (fun _ => 1/2) (fun _ => 3)).
    + reflexivity.
    + intros V m. apply Permutation_rev.
    + cbn; repeat constructor; cbn; intuition discriminate.
    + intros a w [[= <- <-]|[[= <- <-]|[]]]; lra.
    + intros [|] H; elim H; cbn; auto.
    + intros a y [[= <- <-]|[]]. reflexivity.
Qed.
(** C64: weights 1/4 and 3/4. *)
Example C64_witness : 1 / IZR (10 ^ 32) < 1/4 /\ 3/4 < IZR (10 ^ 32).
Proof.
  assert (E4 : 4 < IZR (10 ^ 32)) by (apply IZR_lt; reflexivity). split; [|lra].
  unfold Rdiv. rewrite !Rmult_1_l. apply Rinv_lt_contravar; lra.
Qed.
