(** UCT, PUCT and recommendations commute with the scaling (for ScaleTheorems.v). *)
From Coq Require Import List ZArith Bool Reals Lia Lra Permutation.
From Verif Require Import Base BaseProofs NumOps HelperModel HelperProofs EngineModel EngineSpec EngineBound EngineProofs MapModel MapProofs AlgoModel UctModel UctSpec UctProofs UctInv UctSelect UctRun MentsModel MirrorSpec MirrorProofs MirrorAlgos ScaleSpec ScaleProofs ScaleAlgos.
Import ListNotations.
Open Scope R_scope.

Section Scale.
Variable al : R.
Hypothesis al_pos : 0 < al.
Section Uct.
Context {S A : Type}.
Variable aeqb : A -> A -> bool.
Variable C : @econf S A.
Variable U : @uconf S A.
Hypothesis Fixed : ubias U <> -1.
Hypothesis Fixed' : al * ubias U <> -1.
Hypothesis Keyed : keyed (uorder U).
Hypothesis Perm : forall V (m : list (A * V)), Permutation m (uorder U V m).
Notation C' := (scl_conf al C).
Notation U' := (scl_uconf al U).
Notation kids_t := (list (A * (@cnode S A * ux))).
Definition fits (v : R) : Prop := dbl_lowest <= v /\ dbl_lowest <= al * v.
Definition fit (n : @dnode S A) (kids : kids_t) : Prop :=
  forall a v, In a (acts C (dstate n)) -> uct_value aeqb U n (ubias U) kids a = Ok v -> fits v.

Lemma ukid_scl : forall (kids : kids_t) a, lookup aeqb a (scl_dkids (scl_u al) kids) = option_map (fun p => (fst p, scl_u al (snd p))) (lookup aeqb a kids).
Proof using Type. intros. apply kid_scl. Qed.
Lemma ubias_scl : forall l (kids : kids_t), uct_bias aeqb U' l (scl_dkids (scl_u al) kids) = al * ubias U.
Proof using Fixed'. intros l kids. unfold uct_bias. cbn [ubias scl_uconf]. destruct (Req_EM_T (al * ubias U) (-1)); [contradiction|auto]. Qed.
Lemma ubias_fixed : forall l (kids : kids_t), uct_bias aeqb U l kids = ubias U.
Proof using Fixed. intros l kids. unfold uct_bias. destruct (Req_EM_T (ubias U) (-1)); [contradiction|auto]. Qed.
Lemma uvalue_scl : forall n b (kids : kids_t) a, uct_value aeqb U' (scl_d al n) (al * b) (scl_dkids (scl_u al) kids) a = omap (Rmult al) (uct_value aeqb U n b kids a).
Proof using Type.
  intros n b kids a. unfold uct_value. rewrite ukid_scl. cbn [uterm uprior scl_uconf dvisits dstate scl_d]. change (uct_opp U' (scl_d al n)) with (uct_opp U n).
  rewrite omap_bind.
  assert (E : match option_map (fun p : @cnode S A * ux => (fst p, scl_u al (snd p))) (lookup aeqb a kids) with Some (c, _) => cvisits c | None => 0%Z end =
    match lookup aeqb a kids with Some (c, _) => cvisits c | None => 0%Z end) by (destruct (lookup aeqb a kids) as [[c x]|]; reflexivity).
  rewrite E. set (t := uterm U (dvisits n) (match lookup aeqb a kids with Some (c, _) => cvisits c | None => 0%Z end)).
  destruct (uprior U) as [p|].
  - destruct (mat aeqb (p (dstate n)) a) as [w| |]; cbn; auto. f_equal. destruct (lookup aeqb a kids) as [[c x]|]; cbn; ring.
  - cbn. f_equal. destruct (lookup aeqb a kids) as [[c x]|]; cbn; ring.
Qed.
Lemma mput_scl : forall m (a : A) v, mput aeqb (sclv al m) a (al * v) = sclv al (mput aeqb m a v).
Proof using Type. induction m as [|[k w] m IH]; intros a v; cbn; auto. destruct (aeqb k a); cbn; auto. fold (sclv al m). now rewrite IH. Qed.
Lemma ufill_scl : forall n b (kids : kids_t) l m, uct_fill aeqb U' (scl_d al n) (al * b) (scl_dkids (scl_u al) kids) l (sclv al m) = omap (sclv al) (uct_fill aeqb U n b kids l m).
Proof using Type.
  induction l as [|a l IH]; intros m; cbn [uct_fill]; auto. rewrite uvalue_scl, bind_omap, omap_bind. apply bind_same. intros v. now rewrite mput_scl, IH.
Qed.
Lemma mput_all : forall (Q : R -> Prop) m (a : A) v, Forall (fun p => Q (snd p)) m -> Q v -> Forall (fun p => Q (snd p)) (mput aeqb m a v).
Proof using Type. intros Q m a v H Hv. induction H as [|[k w] m Hw H IH]; cbn; auto. destruct (aeqb k a); auto. Qed.
Lemma ufill_all : forall (Q : R -> Prop) n b (kids : kids_t) l m m', (forall a v, In a l -> uct_value aeqb U n b kids a = Ok v -> Q v) -> Forall (fun p => Q (snd p)) m ->
  uct_fill aeqb U n b kids l m = Ok m' -> Forall (fun p => Q (snd p)) m'.
Proof using Type.
  induction l as [|a l IH]; intros m m' HQ H E; cbn [uct_fill] in E; [injection E as <-; auto|].
  destruct (uct_value aeqb U n b kids a) as [v| |] eqn:Ev; try discriminate. cbn [bind] in E. apply (IH (mput aeqb m a v)); auto.
  - intros a0 v0 I. apply HQ. now right.
  - apply mput_all; auto. apply (HQ a); auto. now left.
Qed.
Lemma uargmax_scl : forall n (kids : kids_t) g, fit n kids -> uct_argmax aeqb C' U' (scl_d al n) (scl_dkids (scl_u al) kids) g = uct_argmax aeqb C U n kids g.
Proof using al_pos Fixed Fixed' Keyed Perm.
  intros n kids g F. unfold uct_argmax. cbn [acts scl_conf dstate scl_d]. rewrite ubias_scl, ubias_fixed.
  change (@nil (A * R)) with (sclv al (@nil (A * R))) at 1. rewrite ufill_scl, bind_omap.
  destruct (uct_fill aeqb U n (ubias U) kids (acts C (dstate n)) []) as [m| |] eqn:E; cbn [bind]; auto.
  cbn [uorder scl_uconf]. unfold sclv. rewrite (Keyed R R (Rmult al) m). fold (sclv al (uorder U R m)). apply max_scl; auto.
  pose proof (ufill_all fits _ _ _ _ _ _ F (Forall_nil _) E) as H. apply (Permutation_Forall (Perm R m)) in H. exact H.
Qed.
Lemma untried_scl : forall (kids : kids_t) l, untried aeqb (scl_dkids (scl_u al) kids) l = untried aeqb kids l.
Proof using Type. intros. unfold untried. apply filter_ext. intros a. unfold has_key. rewrite ukid_scl. destruct (lookup aeqb a kids); reflexivity. Qed.
Lemma uselect_scl : forall n (kids : kids_t) g, fit n kids -> uct_select aeqb C' U' (scl_d al n) (scl_dkids (scl_u al) kids) g = uct_select aeqb C U n kids g.
Proof using al_pos Fixed Fixed' Keyed Perm.
  intros n kids g F. unfold uct_select, uct_select_ucb. cbn [dstate scl_d acts scl_conf ueps uprior scl_uconf]. rewrite untried_scl.
  change (uct_random C' (scl_d al n)) with (uct_random C n).
  pose proof (fun g => uargmax_scl n kids g F) as K.
  destruct (Rltb 0 (ueps U)); [destruct (get_rand_uniform g) as [u g1]; destruct (Rltb u (ueps U)); auto|];
    destruct (uprior U); auto; destruct (untried aeqb kids (acts C (dstate n))); auto.
Qed.
Lemma uback_scl : forall x r, uct_backup (scl_u al x) (al * r) = scl_u al (uct_backup x r).
Proof using Type. intros [k v] r. unfold uct_backup, scl_u. cbn. f_equal. unfold Rdiv. ring. Qed.
Lemma uct_scaled : scaled al (uct aeqb C U) (uct aeqb C' U') fit (scl_u al) (scl_u al) (fun cx => cx).
Proof using al_pos Fixed Fixed' Keyed Perm.
  constructor.
  - reflexivity.
  - intros n. cbn. unfold uct_new_d, scl_u. cbn. destruct (heuristic C); cbn; [reflexivity|]. now rewrite Rmult_0_r.
  - intros n. cbn. unfold uct_new_c, scl_u. cbn. now rewrite Rmult_0_r.
  - reflexivity.
  - intros n x kids cx g F. cbn [select uct]. rewrite uselect_scl, omap_bind by auto. apply bind_same. now intros [a g1].
  - intros n x cx g. cbn [sample uct]. unfold uct_sample. cbn [udistr scl_uconf]. rewrite omap_bind. apply bind_same. now intros [o g1].
  - intros n x kids cx b. exact (f_equal Ok (uback_scl x (b_tafter b))).
  - intros n x kids cx b. exact (f_equal Ok (uback_scl x (b_tafter b))).
  - intros kids cx. reflexivity.
  - intros kids cx. reflexivity.
  - reflexivity.
  - reflexivity.
  - reflexivity.
Qed.

(** *** Reachable values are in range *)
Section Range.
Variable seqb : S -> S -> bool.
Hypothesis seqb_ok : decides seqb.
Hypothesis aeqb_ok : decides aeqb.
Hypothesis Uok : uct_ok C U.
Variable B : R.
Hypothesis Sane : sane C U B.
Hypothesis Room : (IZR (max_depth C) + 1) * (al * B) <= - dbl_lowest.
Lemma fits_small : forall v, - limit C B <= v -> fits v.
Proof using al_pos Sane Room.
  intros v H. destruct Sane as (_ & _ & _ & _ & B0 & Hd & Hl & _). unfold limit in H. split; [lra|].
  apply Rle_trans with (al * - ((IZR (max_depth C) + 1) * B)); [lra|]. apply Rmult_le_compat_l; lra.
Qed.
Lemma fit_reach : forall n g s d m, areach seqb aeqb C (uct aeqb C U) n g s -> nth_error (dh (mem (base s))) d = Some m -> fit (visit_d m) (dview s m).
Proof using All.
  intros n g s d m R Hm a v Ia E. rewrite (uct_value_eq aeqb aeqb_ok C U) in E; auto; [|exact (covers C U B Sane (visit_d m))]. injection E as <-.
  pose proof (kid_small seqb aeqb seqb_ok aeqb_ok C U Uok B Sane _ _ _ _ _ R Hm a) as K.
  apply fits_small. destruct Sane as (_ & _ & _ & _ & _ & _ & Hl & Hp & Hb & Ht).
  assert (N : 0 <= prior_of aeqb U (visit_d m) a * ubias U * uterm U (dvisits (visit_d m)) (kid_visits aeqb (dview s m) a)).
  { apply Rmult_le_pos; auto. apply Rmult_le_pos.
    - unfold prior_of. destruct (uprior U) as [p|] eqn:Ep; [|lra]. destruct (lookup aeqb a (p (dstate (visit_d m)))) as [w|] eqn:El; [|lra].
      apply lookup_in in El; auto. destruct (Hp p eq_refl (dstate (visit_d m))) as [_ Hq]. exact (Hq _ El).
    - destruct Hb; [contradiction|auto]. }
  assert (Q : - limit C B <= coeff U (visit_d m) * kid_avg aeqb (dview s m) a).
  { unfold coeff. revert K. unfold Rabs. destruct (Rcase_abs _); destruct (utwo U && _); lra. }
  pose proof (Rplus_le_compat _ _ _ _ Q N) as Z. rewrite Rplus_0_r in Z. exact Z.
Qed.
End Range.

(** *** Recommendations *)
Lemma mbuild_scl : forall (f f' : A -> option R) l m, (forall a, f' a = option_map (Rmult al) (f a)) -> mbuild aeqb f' l (sclv al m) = sclv al (mbuild aeqb f l m).
Proof using Type.
  intros f f' l m H. unfold mbuild. revert m. induction l as [|a l IH]; intros m; cbn [fold_left]; auto. rewrite H. destruct (f a) as [v|]; cbn [option_map]; [rewrite mput_scl|]; apply IH.
Qed.
Lemma mbuild_scl0 : forall (f f' : A -> option R) l, (forall a, f' a = option_map (Rmult al) (f a)) -> mbuild aeqb f' l [] = sclv al (mbuild aeqb f l []).
Proof using Type. intros f f' l H. exact (mbuild_scl f f' l [] H). Qed.
Lemma mbuild_all : forall (Q : R -> Prop) (f : A -> option R) l m, (forall a v, f a = Some v -> Q v) -> Forall (fun p => Q (snd p)) m -> Forall (fun p => Q (snd p)) (mbuild aeqb f l m).
Proof using Type.
  intros Q f l m H. unfold mbuild. revert m. induction l as [|a l IH]; intros m Hm; cbn [fold_left]; auto. apply IH. destruct (f a) as [v|] eqn:E; auto. apply mput_all; eauto.
Qed.
Lemma uorder_scl : forall m (g : rng R), Forall (fun p => fits (snd p)) m -> get_max_key Rltb dbl_lowest (uorder U R (sclv al m)) g = get_max_key Rltb dbl_lowest (uorder U R m) g.
Proof using al_pos Keyed Perm.
  intros m g H. unfold sclv. rewrite (Keyed R R (Rmult al) m). fold (sclv al (uorder U R m)). apply max_scl; auto. apply (Permutation_Forall (Perm R m)) in H. exact H.
Qed.
Lemma urec_scl : forall n (kids : kids_t) g, (forall a c x, lookup aeqb a kids = Some (c, x) -> fits (uct_opp U n * uavg x)) ->
  uct_recommend aeqb C' U' (scl_d al n) (scl_dkids (scl_u al) kids) g = uct_recommend aeqb C U n kids g.
Proof using al_pos Keyed Perm.
  intros n kids g F. unfold uct_recommend, uct_most_visited, uct_best_empirical. cbn [dstate scl_d acts scl_conf umost_visited scl_uconf uorder].
  change (uct_random C' (scl_d al n)) with (uct_random C n). destruct (umost_visited U).
  - rewrite (mbuild_same aeqb Z _ (fun a => match lookup aeqb a kids with Some (c, _) => Some (cvisits c) | None => None end)); auto.
    intros a. rewrite ukid_scl. destruct (lookup aeqb a kids) as [[c x]|]; reflexivity.
  - rewrite (mbuild_scl0 (fun a => match lookup aeqb a kids with Some (_, x) => Some (uct_opp U n * uavg x) | None => None end)).
    2:{ intros a. rewrite ukid_scl. destruct (lookup aeqb a kids) as [[c x]|]; cbn [option_map fst snd]; auto. f_equal. change (uct_opp U' (scl_d al n)) with (uct_opp U n). cbn. ring. }
    pose proof (mbuild_all fits (fun a => match lookup aeqb a kids with Some (_, x) => Some (uct_opp U n * uavg x) | None => None end) (acts C (dstate n)) []) as H.
    destruct (mbuild aeqb _ (acts C (dstate n)) []) as [|p m]; [reflexivity|]. refine (uorder_scl (p :: m) g _).
    apply H; auto. intros a v E. destruct (lookup aeqb a kids) as [[c x]|] eqn:L; [|discriminate]. injection E as <-. eauto.
Qed.
End Uct.

(** *** MENTS and its relatives *)
Section Ments.
Context {S A : Type}.
Variable aeqb : A -> A -> bool.
Variable C : @econf S A.
Variable M : @mconf S A.
Hypothesis NoPrior : mprior M = None.
Hypothesis Keyed : keyed (morder M).
Hypothesis Perm : forall V (m : list (A * V)), Permutation m (morder M V m).
Notation C' := (scl_conf al C).
Notation M' := (scl_mconf al M).
Notation dnode := (@dnode S A).
Notation cnode := (@cnode S A).
Lemma order_scl : forall m (g : rng R), Forall (fun p => fits (snd p)) m -> get_max_key Rltb dbl_lowest (morder M R (sclv al m)) g = get_max_key Rltb dbl_lowest (morder M R m) g.
Proof using al_pos Keyed Perm.
  intros m g H. unfold sclv. rewrite (Keyed R R (Rmult al) m). fold (sclv al (morder M R m)). apply max_scl; auto. apply (Permutation_Forall (Perm R m)) in H. exact H.
Qed.
Lemma look_scl : forall a qs, lookup aeqb a (sclv al qs) = option_map (Rmult al) (lookup aeqb a qs).
Proof using Type. intros a qs. induction qs as [|[k v] qs IH]; cbn; auto. destruct (aeqb k a); auto. Qed.
Lemma look_all : forall (Q : R -> Prop) a qs v, Forall (fun p : A * R => Q (snd p)) qs -> lookup aeqb a qs = Some v -> Q v.
Proof using Type. intros Q a qs v H. induction H as [|[k w] qs Hw H IH]; cbn; [discriminate|]. destruct (aeqb k a); auto. now intros [= <-]. Qed.
Lemma all_q_all : forall (Q : R -> Prop) (q : A -> outcome R) l qs, (forall a v, In a l -> q a = Ok v -> Q v) -> all_q q l = Ok qs -> Forall (fun p => Q (snd p)) qs.
Proof using Type.
  intros Q q. induction l as [|a l IH]; intros qs H E; cbn in E; [injection E as <-; auto|]. destruct (q a) as [v| |] eqn:Ev; try discriminate. cbn in E.
  destruct (all_q q l) as [vs| |] eqn:El; try discriminate. injection E as <-. constructor; [eapply H; eauto; now left|]. apply IH; auto. intros b w I. apply H. now right.
Qed.
Lemma rec_scl : forall (n : dnode) x (kids : list (A * (cnode * cmem))) g, (forall a v, In a (acts C (dstate n)) -> ments_q aeqb M n x kids a = Ok v -> fits v) ->
  ments_recommend aeqb C' M' (scl_d al n) (scl_m al x) (scl_dkids (scl_cm al) kids) g = ments_recommend aeqb C M n x kids g.
Proof using al_pos NoPrior Keyed Perm.
  intros n x kids g F. unfold ments_recommend. change (mmost_visited M') with (mmost_visited M). rewrite visits_scl. destruct (mmost_visited M); auto.
  unfold recommend_soft. cbn [dstate scl_d acts scl_conf mthreshold scl_mconf morder].
  rewrite (all_q_scl al (ments_q aeqb M n x kids)) by (intros; now apply q_scl). rewrite bind_omap.
  destruct (all_q (ments_q aeqb M n x kids) (acts C (dstate n))) as [qs| |] eqn:E; cbn [bind]; auto. apply (all_q_all fits) in E; auto.
  assert (K : forall a, match lookup aeqb a (scl_dkids (scl_cm al) kids) with Some (c, _) => (mthreshold M <=? cvisits c)%Z | None => false end =
    match lookup aeqb a kids with Some (c, _) => (mthreshold M <=? cvisits c)%Z | None => false end).
  { intros a. rewrite kid_scl. destruct (lookup aeqb a kids) as [[c y]|]; reflexivity. }
  cbv zeta.
  rewrite (mbuild_scl0 aeqb (fun a => if match lookup aeqb a kids with Some (c, _) => (mthreshold M <=? cvisits c)%Z | None => false end then lookup aeqb a qs else None)
    (fun a => if match lookup aeqb a (scl_dkids (scl_cm al) kids) with Some (c, _) => (mthreshold M <=? cvisits c)%Z | None => false end then lookup aeqb a (sclv al qs) else None)).
  2:{ intros a. rewrite K, look_scl. destruct (match lookup aeqb a kids with Some (c, _) => (mthreshold M <=? cvisits c)%Z | None => false end); reflexivity. }
  rewrite (mbuild_scl0 aeqb (fun a => if match lookup aeqb a kids with Some (c, _) => (mthreshold M <=? cvisits c)%Z | None => false end then None else lookup aeqb a qs)
    (fun a => if match lookup aeqb a (scl_dkids (scl_cm al) kids) with Some (c, _) => (mthreshold M <=? cvisits c)%Z | None => false end then None else lookup aeqb a (sclv al qs))).
  2:{ intros a. rewrite K, look_scl. destruct (match lookup aeqb a kids with Some (c, _) => (mthreshold M <=? cvisits c)%Z | None => false end); reflexivity. }
  pose proof (mbuild_all aeqb fits (fun a => if match lookup aeqb a kids with Some (c, _) => (mthreshold M <=? cvisits c)%Z | None => false end then lookup aeqb a qs else None) (acts C (dstate n)) []) as H1.
  pose proof (mbuild_all aeqb fits (fun a => if match lookup aeqb a kids with Some (c, _) => (mthreshold M <=? cvisits c)%Z | None => false end then None else lookup aeqb a qs) (acts C (dstate n)) []) as H2.
  destruct (mbuild aeqb (fun a => if match lookup aeqb a kids with Some (c, _) => (mthreshold M <=? cvisits c)%Z | None => false end then lookup aeqb a qs else None) (acts C (dstate n)) []) as [|p m].
  - cbn [sclv map]. apply order_scl. apply H2; auto. intros a v. destruct (match lookup aeqb a kids with Some (c, _) => (mthreshold M <=? cvisits c)%Z | None => false end); [discriminate|]. now apply look_all.
  - refine (order_scl (p :: m) g _). apply H1; auto. intros a v. destruct (match lookup aeqb a kids with Some (c, _) => (mthreshold M <=? cvisits c)%Z | None => false end); [|discriminate]. now apply look_all.
Qed.
Lemma value_scl : forall (n : dnode) (kids : list (A * vmem)) g, Forall (fun p => fits (opp_coeff M n * v_val (snd p))) kids ->
  recommend_best C' M' (scl_d al n) (map (fun p => (fst p, scl_v al (snd p))) kids) g = recommend_best C M n kids g.
Proof using al_pos Keyed Perm.
  intros n kids g F. unfold recommend_best. change (random_valid C' (scl_d al n)) with (random_valid C n).
  assert (K : recommend_value M' (scl_d al n) (map (fun p => (fst p, scl_v al (snd p))) kids) g = recommend_value M n kids g).
  { unfold recommend_value. cbn [mthreshold scl_mconf morder]. cbv zeta. change (opp_coeff M' (scl_d al n)) with (opp_coeff M n).
    assert (T : forall f : Z -> bool, map (fun p : A * vmem => (fst p, opp_coeff M n * v_val (snd p)))
        (filter (fun p => f (v_nb (snd p))) (map (fun p => (fst p, scl_v al (snd p))) kids)) =
      sclv al (map (fun p => (fst p, opp_coeff M n * v_val (snd p))) (filter (fun p => f (v_nb (snd p))) kids)) /\
      Forall (fun p => fits (snd p)) (map (fun p => (fst p, opp_coeff M n * v_val (snd p))) (filter (fun p => f (v_nb (snd p))) kids))).
    { intros f. induction F as [|[a y] kids Hy F IH]; cbn [map filter]; auto. cbn [fst snd v_nb scl_v]. destruct (f (v_nb y)); auto. destruct IH as [I1 I2].
      cbn [map fst snd v_val scl_v sclv]. split; [|constructor; auto]. rewrite I1. unfold sclv. f_equal. f_equal. ring. }
    destruct (T (fun k => (mthreshold M <=? k)%Z)) as [F1 G1]. destruct (T (fun k => negb (mthreshold M <=? k)%Z)) as [F2 G2]. cbv beta in F1, F2, G1, G2. rewrite F1, F2.
    destruct (map _ (filter (fun p => (mthreshold M <=? v_nb (snd p))%Z) kids)) as [|p m].
    - cbn [sclv map]. now apply order_scl.
    - now refine (order_scl (p :: m) g _). }
  rewrite K. destruct kids; reflexivity.
Qed.
Lemma dbrec_scl : forall (n : dnode) (kids : list (A * (cnode * (cmem * vmem)))) g, Forall (fun k => fits (opp_coeff M n * v_val (snd (snd (snd k))))) kids ->
  dbments_recommend aeqb C' M' (scl_d al n) (scl_dkids (scl_cv al) kids) g = dbments_recommend aeqb C M n kids g.
Proof using al_pos Keyed Perm.
  intros n kids g F. unfold dbments_recommend. change (mmost_visited M') with (mmost_visited M). rewrite visits_scl. rewrite (members_d _ _ _ (scl_cv al) snd snd (scl_v al)) by auto. rewrite value_scl; auto.
  unfold members. apply Forall_map. exact F.
Qed.
Lemma drec_scl : forall (n : dnode) (kids : list (A * (cnode * dcmem))) g, Forall (fun k => fits (opp_coeff M n * dents_est M (snd (snd k)))) kids ->
  dents_recommend aeqb C' M' (scl_d al n) (scl_dkids (scl_dc al) kids) g = dents_recommend aeqb C M n kids g.
Proof using al_pos Keyed Perm.
  intros n kids g F. unfold dents_recommend. change (mmost_visited M') with (mmost_visited M). change (muse_dp M') with (muse_dp M). rewrite visits_scl.
  rewrite (members_d _ _ _ (scl_dc al) (if muse_dp M then dc_dp else dc_emp) (if muse_dp M then dc_dp else dc_emp) (scl_v al)) by (intros; destruct (muse_dp M); reflexivity). rewrite value_scl; auto.
  unfold members. apply Forall_map. cbn [snd]. eapply Forall_impl; [|exact F]. intros k. unfold dents_est. destruct (muse_dp M); auto.
Qed.
End Ments.
End Scale.
