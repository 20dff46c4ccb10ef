(** All algorithms commute with the negation (for MirrorTheorems.v). *)
From Coq Require Import List ZArith Bool Reals Lia Lra.
From Verif Require Import Base NumOps HelperModel EngineModel MapModel AlgoModel UctModel MentsModel MirrorSpec MirrorProofs.
Import ListNotations.
Open Scope R_scope.

Section Kids.
Context {S A : Type}.
Variable aeqb : A -> A -> bool.
Lemma lookup_neg : forall X Y (f : X -> Y) (kids : list (A * (@cnode S A * X))) a,
  lookup aeqb a (neg_dkids f kids) = option_map (fun p => (neg_c (fst p), f (snd p))) (lookup aeqb a kids).
Proof. intros X Y f kids a. induction kids as [|[k [c x]] kids IH]; cbn; auto. destruct (aeqb k a); auto. Qed.
Lemma mbuild_same : forall V (f h : A -> option V) l m, (forall a, f a = h a) -> mbuild aeqb f l m = mbuild aeqb h l m.
Proof. intros V f h l m H. unfold mbuild. revert m. induction l as [|a l IH]; intros m; cbn; auto. rewrite H. apply IH. Qed.
Lemma odd_next : forall t, Z.odd (t + 1) = negb (Z.odd t).
Proof. intros t. rewrite Z.odd_add. cbn. destruct (Z.odd t); reflexivity. Qed.
End Kids.
Lemma omap_bind : forall T U V (f : U -> V) (o : outcome T) (k : T -> outcome U), omap f (bind o k) = bind o (fun x => omap f (k x)).
Proof. intros. destruct o; reflexivity. Qed.
Lemma bind_omap : forall T U V (f : T -> U) (o : outcome T) (k : U -> outcome V), bind (omap f o) k = bind o (fun x => k (f x)).
Proof. intros. destruct o; reflexivity. Qed.
Lemma bind_same : forall T U (o : outcome T) (k k' : T -> outcome U), (forall x, k x = k' x) -> bind o k = bind o k'.
Proof. intros T U [x| |] k k' H; cbn; auto. Qed.
Lemma omap_id : forall T (o : outcome T) f, (forall x, f x = x) -> omap f o = o.
Proof. intros T [x| |] f H; cbn; auto. now rewrite H. Qed.
Lemma avg_neg : forall l, avg_loop (map (fun p => (fst p, - snd p)) l) = - avg_loop l.
Proof.
  intros l. unfold avg_loop.
  assert (K : forall l a s, fold_left avg_step (map (fun p => (fst p, - snd p)) l) (- a, s) = (- fst (fold_left avg_step l (a, s)), snd (fold_left avg_step l (a, s)))).
  { clear. induction l as [|[k v] l IH]; intros a s; cbn [map fold_left fst snd]; auto.
    unfold avg_step at 2 4 6. cbn [fst snd]. destruct (k =? 0)%Z; [apply IH|]. rewrite <- IH. do 3 f_equal. unfold Rdiv. ring. }
  replace (0, 0) with (- 0, 0) at 1 by (now rewrite Ropp_0). now rewrite K.
Qed.
Lemma dp_neg : forall opp l, dp_loop (- opp) (map (fun p => (fst p, - snd p)) l) = option_map Ropp (dp_loop opp l).
Proof.
  intros opp l. unfold dp_loop. change None with (option_map Ropp None) at 1. generalize (@None R). induction l as [|[k v] l IH]; intros b; cbn [map fold_left]; auto.
  rewrite <- IH. f_equal. unfold dp_step. cbn [fst snd]. destruct (k =? 0)%Z; auto. destruct b as [b|]; cbn; auto.
  rewrite !Rmult_opp_opp. destruct (Rltb (opp * b) (opp * v)); reflexivity.
Qed.

(** ** UCT *)
Section Uct.
Context {S A : Type}.
Variable aeqb : A -> A -> bool.
Variable C : @econf S A.
Variable U : @uconf S A.
Hypothesis Two : utwo U = true.
Notation C' := (neg_conf C).
Lemma uopp_neg : forall n : @dnode S A, uct_opp U (neg_d n) = - uct_opp U n.
Proof using Two. intros n. unfold uct_opp. rewrite Two. cbn [dtime neg_d andb]. rewrite odd_next. destruct (Z.odd (dtime n)); cbn; lra. Qed.
Lemma ubias_neg : forall l (kids : list (A * (@cnode S A * ux))), uct_bias aeqb U l (neg_dkids neg_u kids) = uct_bias aeqb U l kids.
Proof using Type.
  intros l kids. unfold uct_bias. destruct (Req_EM_T (ubias U) (-1)); auto. generalize (1 / 1000). induction l as [|a l IH]; intros b; cbn [fold_left]; auto.
  rewrite lookup_neg. destruct (lookup aeqb a kids) as [[c x]|]; cbn [option_map fst snd]; [|apply IH]. cbn [uavg neg_u]. rewrite Rabs_Ropp. apply IH.
Qed.
Lemma uvalue_neg : forall n b (kids : list (A * (@cnode S A * ux))) a, uct_value aeqb U (neg_d n) b (neg_dkids neg_u kids) a = uct_value aeqb U n b kids a.
Proof using Two.
  intros n b kids a. unfold uct_value. rewrite lookup_neg. cbn [dvisits dstate neg_d]. destruct (lookup aeqb a kids) as [[c x]|]; cbn [option_map fst snd]; [|reflexivity].
  cbn [cvisits neg_c uavg neg_u]. apply bind_same. intros v. rewrite uopp_neg, Rmult_opp_opp. reflexivity.
Qed.
Lemma ufill_neg : forall n b (kids : list (A * (@cnode S A * ux))) l m, uct_fill aeqb U (neg_d n) b (neg_dkids neg_u kids) l m = uct_fill aeqb U n b kids l m.
Proof using Two. induction l as [|a l IH]; intros m; cbn [uct_fill]; auto. rewrite uvalue_neg. apply bind_same. intros v. apply IH. Qed.
Lemma uargmax_neg : forall n (kids : list (A * (@cnode S A * ux))) g, uct_argmax aeqb C' U (neg_d n) (neg_dkids neg_u kids) g = uct_argmax aeqb C U n kids g.
Proof using Two. intros. unfold uct_argmax. rewrite ubias_neg, ufill_neg. reflexivity. Qed.
Lemma untried_neg : forall (kids : list (A * (@cnode S A * ux))) l, untried aeqb (neg_dkids neg_u kids) l = untried aeqb kids l.
Proof using Type. intros. unfold untried. apply filter_ext. intros a. unfold has_key. rewrite lookup_neg. destruct (lookup aeqb a kids); reflexivity. Qed.
Lemma uselect_neg : forall n (kids : list (A * (@cnode S A * ux))) g, uct_select aeqb C' U (neg_d n) (neg_dkids neg_u kids) g = uct_select aeqb C U n kids g.
Proof using Two.
  intros. unfold uct_select, uct_select_ucb. cbn [dstate neg_d acts neg_conf]. rewrite untried_neg.
  change (uct_random C' (neg_d n)) with (uct_random C n).
  assert (K : forall g, uct_argmax aeqb C' U (neg_d n) (neg_dkids neg_u kids) g = uct_argmax aeqb C U n kids g) by (intros; apply uargmax_neg).
  destruct (Rltb 0 (ueps U)); [destruct (get_rand_uniform g) as [u g1]; destruct (Rltb u (ueps U)); auto|];
    destruct (uprior U); auto; destruct (untried aeqb kids (acts C (dstate n))); auto.
Qed.
Lemma urec_neg : forall n (kids : list (A * (@cnode S A * ux))) g, uct_recommend aeqb C' U (neg_d n) (neg_dkids neg_u kids) g = uct_recommend aeqb C U n kids g.
Proof using Two.
  intros. unfold uct_recommend, uct_most_visited, uct_best_empirical. cbn [dstate neg_d acts neg_conf].
  change (uct_random C' (neg_d n)) with (uct_random C n). destruct (umost_visited U).
  - rewrite (mbuild_same aeqb Z _ (fun a => match lookup aeqb a kids with Some (c, _) => Some (cvisits c) | None => None end)); auto.
    intros a. rewrite lookup_neg. destruct (lookup aeqb a kids) as [[c x]|]; reflexivity.
  - rewrite (mbuild_same aeqb R _ (fun a => match lookup aeqb a kids with Some (_, x) => Some (uct_opp U n * uavg x) | None => None end)); auto.
    intros a. rewrite lookup_neg. destruct (lookup aeqb a kids) as [[c x]|]; cbn [option_map fst snd]; auto. cbn [uavg neg_u]. now rewrite uopp_neg, Rmult_opp_opp.
Qed.
Lemma uback_neg : forall x r, uct_backup (neg_u x) (- r) = neg_u (uct_backup x r).
Proof using Type. intros [k v] r. unfold uct_backup, neg_u. cbn. f_equal. unfold Rdiv. ring. Qed.
Lemma uct_mirrored : mirrored (uct aeqb C U) (uct aeqb C' U) neg_u neg_u (fun cx => cx).
Proof using Two.
  constructor.
  - reflexivity.
  - intros n. cbn. unfold uct_new_d, neg_u. cbn. destruct (heuristic C); cbn; [reflexivity|]. now rewrite Ropp_0.
  - intros n. cbn. unfold uct_new_c, neg_u. cbn. now rewrite Ropp_0.
  - reflexivity.
  - intros n x kids cx g. cbn [select uct]. rewrite uselect_neg, omap_bind. apply bind_same. now intros [a g1].
  - intros n x cx g. cbn [sample uct]. unfold uct_sample. cbn [cstate cact neg_c]. rewrite omap_bind. apply bind_same. now intros [o g1].
  - intros n x kids cx b. exact (f_equal Ok (uback_neg x (b_tafter b))).
  - intros n x kids cx b. exact (f_equal Ok (uback_neg x (b_tafter b))).
  - intros kids cx. reflexivity.
  - intros kids cx. reflexivity.
  - reflexivity.
  - reflexivity.
  - reflexivity.
Qed.
End Uct.

(** ** MENTS and its relatives *)
Section Ments.
Context {S A : Type}.
Variable aeqb : A -> A -> bool.
Variable C : @econf S A.
Variable M : @mconf S A.
Hypothesis Two : mtwo M = true.
Notation C' := (neg_conf C).
Notation M' := (neg_mconf M).
Notation dnode := (@dnode S A).
Notation cnode := (@cnode S A).
Lemma opp_neg : forall n : dnode, opp_coeff M' (neg_d n) = - opp_coeff M n.
Proof using Two. intros n. unfold opp_coeff. cbn [mtwo neg_mconf]. rewrite Two. cbn [dtime neg_d andb]. rewrite odd_next. destruct (Z.odd (dtime n)); cbn; lra. Qed.
Lemma temp_neg : forall n : dnode, ments_temp M' (neg_d n) = ments_temp M n.
Proof using Type. reflexivity. Qed.
Lemma new_m_neg : forall n : dnode, ments_new_d C' M' (neg_d n) = neg_m (ments_new_d C M n).
Proof using Type. intros n. unfold ments_new_d, neg_m. cbn. destruct (heuristic C); cbn; rewrite ?Ropp_0; reflexivity. Qed.
Lemma unexp_neg : forall (n : dnode) off a, unexpanded_q aeqb M' (neg_d n) off a = unexpanded_q aeqb M n off a.
Proof using Two. intros n off a. unfold unexpanded_q. cbn [mprior neg_mconf mdefault_q dstate neg_d]. destruct (mprior M); auto. now rewrite opp_neg, Rmult_opp_opp. Qed.
Lemma q_neg : forall (n : dnode) x (kids : list (A * (cnode * cmem))) a, ments_q aeqb M' (neg_d n) (neg_m x) (neg_dkids neg_cm kids) a = ments_q aeqb M n x kids a.
Proof using Two.
  intros n x kids a. unfold ments_q. rewrite lookup_neg. destruct (lookup aeqb a kids) as [[c y]|]; cbn [option_map fst snd].
  - cbn [c_soft neg_cm]. now rewrite opp_neg, Rmult_opp_opp.
  - apply unexp_neg.
Qed.
Lemma all_q_same : forall (q q' : A -> outcome R) l, (forall a, q a = q' a) -> all_q q l = all_q q' l.
Proof using Type. intros q q' l H. induction l as [|a l IH]; cbn; auto. rewrite H, IH. reflexivity. Qed.
Lemma mix_entry_neg : forall (n : dnode) lambda sum num a w, mix_entry aeqb M' (neg_d n) lambda sum num a w = mix_entry aeqb M n lambda sum num a w.
Proof using Type. reflexivity. Qed.
Lemma mix_loop_neg : forall (n : dnode) lambda sum num l m, mix_loop aeqb M' (neg_d n) lambda sum num l m = mix_loop aeqb M n lambda sum num l m.
Proof using Type.
  intros n lambda sum num. induction l as [|a l IH]; intros m; cbn [mix_loop]; auto. apply bind_same. intros w. rewrite mix_entry_neg. apply bind_same. intros p. now rewrite IH.
Qed.
Lemma mix_neg : forall (n : dnode) w sum, mix aeqb C' M' (neg_d n) w sum = mix aeqb C M n w sum.
Proof using Type. intros. unfold mix. change (ments_lambda M' (neg_d n)) with (ments_lambda M n). destruct (ments_lambda M n); auto. cbv zeta. now rewrite mix_loop_neg. Qed.
Lemma distr_neg : forall (n : dnode) q q', (forall a, q' a = q a) -> action_distr aeqb C' M' (neg_d n) q' = action_distr aeqb C M n q.
Proof using Type.
  intros n q q' H. unfold action_distr. cbn [acts neg_conf dstate neg_d]. rewrite (all_q_same q' q _ H). apply bind_same. intros qs.
  change (ments_temp M' (neg_d n)) with (ments_temp M n). destruct (ments_weights aeqb (ments_temp M n) qs) as [[w sum] norm]. apply mix_neg.
Qed.
Lemma select_neg : forall (n : dnode) x (kids : list (A * (cnode * cmem))) g, ments_select aeqb C' M' (neg_d n) (neg_m x) (neg_dkids neg_cm kids) g = ments_select aeqb C M n x kids g.
Proof using Two. intros. unfold ments_select. rewrite (distr_neg n (ments_q aeqb M n x kids)); [reflexivity|]. intros a. apply q_neg. Qed.
Lemma visits_neg : forall X Y (f : X -> Y) (n : dnode) (kids : list (A * (cnode * X))) g, recommend_visits aeqb C' M' (neg_d n) (neg_dkids f kids) g = recommend_visits aeqb C M n kids g.
Proof using Type.
  intros. unfold recommend_visits. cbn [dstate neg_d acts neg_conf]. change (random_valid C' (neg_d n)) with (random_valid C n).
  rewrite (mbuild_same aeqb Z _ (fun a => match lookup aeqb a kids with Some (c, _) => Some (cvisits c) | None => None end)); auto.
  intros a. rewrite lookup_neg. destruct (lookup aeqb a kids) as [[c x]|]; reflexivity.
Qed.
Lemma rec_neg : forall (n : dnode) x (kids : list (A * (cnode * cmem))) g, ments_recommend aeqb C' M' (neg_d n) (neg_m x) (neg_dkids neg_cm kids) g = ments_recommend aeqb C M n x kids g.
Proof using Two.
  intros. unfold ments_recommend. change (mmost_visited M') with (mmost_visited M). rewrite visits_neg. destruct (mmost_visited M); auto.
  unfold recommend_soft. cbn [dstate neg_d acts neg_conf mthreshold neg_mconf morder].
  rewrite (all_q_same _ (ments_q aeqb M n x kids)) by (intros; apply q_neg). apply bind_same. intros qs.
  assert (E : forall a, match lookup aeqb a (neg_dkids neg_cm kids) with Some (c, _) => (mthreshold M <=? cvisits c)%Z | None => false end =
    match lookup aeqb a kids with Some (c, _) => (mthreshold M <=? cvisits c)%Z | None => false end).
  { intros a. rewrite lookup_neg. destruct (lookup aeqb a kids) as [[c y]|]; reflexivity. }
  cbv zeta.
  rewrite (mbuild_same aeqb R (fun a => if match lookup aeqb a (neg_dkids neg_cm kids) with Some (c, _) => (mthreshold M <=? cvisits c)%Z | None => false end then lookup aeqb a qs else None)
    (fun a => if match lookup aeqb a kids with Some (c, _) => (mthreshold M <=? cvisits c)%Z | None => false end then lookup aeqb a qs else None)) by (intros a; now rewrite E).
  rewrite (mbuild_same aeqb R (fun a => if match lookup aeqb a (neg_dkids neg_cm kids) with Some (c, _) => (mthreshold M <=? cvisits c)%Z | None => false end then None else lookup aeqb a qs)
    (fun a => if match lookup aeqb a kids with Some (c, _) => (mthreshold M <=? cvisits c)%Z | None => false end then None else lookup aeqb a qs)) by (intros a; now rewrite E).
  reflexivity.
Qed.
Lemma back_neg : forall (n : dnode) x (kids : list (A * (cnode * cmem))), ments_backup_d aeqb C' M' (neg_d n) (neg_m x) (neg_dkids neg_cm kids) = omap neg_m (ments_backup_d aeqb C M n x kids).
Proof using Two.
  intros. unfold ments_backup_d. cbn [dstate neg_d acts neg_conf]. rewrite (all_q_same _ (ments_q aeqb M n x kids)) by (intros; apply q_neg). rewrite omap_bind. apply bind_same. intros qs.
  rewrite temp_neg. destruct (ments_weights aeqb (ments_temp M n) qs) as [[w sum] norm]. cbn [omap]. unfold neg_m. cbn [m_nb m_soft m_off]. do 2 f_equal.
  unfold soft_value. rewrite temp_neg, opp_neg. ring.
Qed.
Lemma backc_neg : forall (n : cnode) x (kids : list (S * (dnode * mmem))), ments_backup_c M' (neg_c n) (neg_cm x) (neg_ckids neg_m kids) = neg_cm (ments_backup_c M n x kids).
Proof using Type.
  intros. unfold ments_backup_c, neg_cm. cbn [c_nb c_soft mreward neg_mconf cstate cact neg_c]. f_equal. unfold neg_ckids. rewrite map_map. cbn [fst snd m_nb m_soft neg_m].
  rewrite Ropp_plus_distr, <- avg_neg, map_map. reflexivity.
Qed.
Lemma newc_neg : forall n : cnode, ments_new_c M' (neg_c n) = neg_cm (ments_new_c M n).
Proof using Type. reflexivity. Qed.
Lemma visit_neg : forall leaf x, ments_visit leaf (neg_m x) = neg_m (ments_visit leaf x).
Proof using Type. intros [|] x; reflexivity. Qed.
Lemma ments_mirrored : mirrored (ments aeqb C M) (ments aeqb C' M') neg_m neg_cm (fun cx => cx).
Proof using Two.
  constructor.
  - reflexivity.
  - apply new_m_neg.
  - apply newc_neg.
  - apply visit_neg.
  - intros n x kids cx g. cbn [select ments]. rewrite select_neg, omap_bind. apply bind_same. now intros [a g1].
  - intros n x cx g. cbn [sample ments]. unfold ments_sample. cbn [cstate cact neg_c mdistr neg_mconf]. rewrite omap_bind. apply bind_same. now intros [o g1].
  - intros n x kids cx b. cbn [back_d ments]. apply back_neg.
  - intros n x kids cx b. exact (f_equal Ok (backc_neg n x kids)).
  - intros kids cx. reflexivity.
  - intros kids cx. reflexivity.
  - reflexivity.
  - reflexivity.
  - reflexivity.
Qed.

(** *** Dynamic programming values *)
Lemma dpd_neg : forall (n : dnode) x (kids : list (A * vmem)),
  dp_backup_d M' (neg_d n) (neg_v x) (map (fun p => (fst p, neg_v (snd p))) kids) = omap neg_v (dp_backup_d M n x kids).
Proof using Two.
  intros. unfold dp_backup_d. rewrite opp_neg, map_map. cbn [fst snd v_nb v_val neg_v].
  pose proof (dp_neg (opp_coeff M n) (map (fun p => (v_nb (snd p), v_val (snd p))) kids)) as E. rewrite map_map in E. cbn [fst snd] in E. rewrite E.
  destruct (dp_loop (opp_coeff M n) (map (fun p => (v_nb (snd p), v_val (snd p))) kids)); reflexivity.
Qed.
Lemma dpc_neg : forall (n : cnode) x (kids : list (S * vmem)),
  dp_backup_c M' (neg_c n) (neg_v x) (map (fun p => (fst p, neg_v (snd p))) kids) = neg_v (dp_backup_c M n x kids).
Proof using Type.
  intros. unfold dp_backup_c, neg_v at 3. cbn [v_nb v_val neg_v mreward neg_mconf cstate cact neg_c]. f_equal. rewrite map_map. cbn [fst snd v_nb v_val neg_v].
  rewrite Ropp_plus_distr, <- avg_neg, map_map. reflexivity.
Qed.
Lemma value_neg : forall (n : dnode) (kids : list (A * vmem)) g,
  recommend_best C' M' (neg_d n) (map (fun p => (fst p, neg_v (snd p))) kids) g = recommend_best C M n kids g.
Proof using Two.
  intros. unfold recommend_best. change (random_valid C' (neg_d n)) with (random_valid C n).
  assert (K : recommend_value M' (neg_d n) (map (fun p => (fst p, neg_v (snd p))) kids) g = recommend_value M n kids g).
  { unfold recommend_value. cbn [mthreshold neg_mconf morder]. cbv zeta.
    assert (F : forall f : Z -> bool, map (fun p : A * vmem => (fst p, opp_coeff M' (neg_d n) * v_val (snd p)))
        (filter (fun p => f (v_nb (snd p))) (map (fun p => (fst p, neg_v (snd p))) kids)) =
      map (fun p => (fst p, opp_coeff M n * v_val (snd p))) (filter (fun p => f (v_nb (snd p))) kids)).
    { intros f. induction kids as [|[a y] kids IH]; cbn [map filter]; auto. cbn [fst snd v_nb neg_v]. destruct (f (v_nb y)); auto.
      cbn [map fst snd v_val neg_v]. rewrite IH, opp_neg, Rmult_opp_opp. reflexivity. }
    pose proof (F (fun k => (mthreshold M <=? k)%Z)) as F1. pose proof (F (fun k => negb (mthreshold M <=? k)%Z)) as F2. cbv beta in F1, F2. rewrite F1, F2. reflexivity. }
  rewrite K. destruct kids; reflexivity.
Qed.
Lemma members_d : forall X X' Y (f : X -> X') (pr : X -> Y) (pr' : X' -> Y) (h : Y -> Y) (kids : list (A * (cnode * X))), (forall x, pr' (f x) = h (pr x)) ->
  members pr' (neg_dkids f kids) = map (fun p => (fst p, h (snd p))) (members pr kids).
Proof using Type. intros. unfold members, neg_dkids. rewrite !map_map. apply map_ext. intros [a [c x]]. cbn. now rewrite H. Qed.
Lemma members_c : forall X X' Y (f : X -> X') (pr : X -> Y) (pr' : X' -> Y) (h : Y -> Y) (kids : list (S * (dnode * X))), (forall x, pr' (f x) = h (pr x)) ->
  members pr' (neg_ckids f kids) = map (fun p => (fst p, h (snd p))) (members pr kids).
Proof using Type. intros. unfold members, neg_ckids. rewrite !map_map. apply map_ext. intros [a [c x]]. cbn. now rewrite H. Qed.
Lemma ontoc_neg : forall (kids : list (A * (cnode * (cmem * vmem)))), ontoc fst (neg_dkids neg_cv kids) = neg_dkids neg_cm (ontoc fst kids).
Proof using Type. intros. unfold ontoc, neg_dkids. rewrite !map_map. apply map_ext. intros [a [c [x v]]]. reflexivity. Qed.
Lemma onto_neg : forall (kids : list (S * (dnode * (mmem * vmem)))), onto fst (neg_ckids neg_mv kids) = neg_ckids neg_m (onto fst kids).
Proof using Type. intros. unfold onto, neg_ckids. rewrite !map_map. apply map_ext. intros [a [c [x v]]]. reflexivity. Qed.
Lemma note_neg : forall X Y X' Y' (fD : X -> X') (fC : Y -> Y') k kids (cx : looks X Y S A),
  note k (neg_dkids fC kids) (neg_looks fD fC cx) = option_map (neg_looks fD fC) (note k kids cx).
Proof using Type.
  intros. unfold note, neg_looks. cbn [fst snd]. rewrite map_length. destruct (length (fst cx) <? k)%nat; cbn [option_map fst snd]; auto. now rewrite map_app.
Qed.
Lemma note2_neg : forall X Y X' Y' (fD : X -> X') (fC : Y -> Y') k kids (cx : looks X Y S A),
  note2 k (neg_ckids fD kids) (neg_looks fD fC cx) = option_map (neg_looks fD fC) (note2 k kids cx).
Proof using Type.
  intros. unfold note2, neg_looks. cbn [fst snd]. rewrite map_length. destruct (length (snd cx) <? k)%nat; cbn [option_map fst snd]; auto. now rewrite map_app.
Qed.
Lemma hd_map : forall X Y (f : X -> Y) l d, hd (f d) (map f l) = f (hd d l).
Proof using Type. now intros X Y f [|x l] d. Qed.
Lemma dbments_mirrored : mirrored (dbments aeqb C M) (dbments aeqb C' M') neg_mv neg_cv (neg_looks neg_mv neg_cv).
Proof using Two.
  constructor.
  - reflexivity.
  - intros n. cbn [new_xd dbments]. rewrite new_m_neg. reflexivity.
  - intros n. cbn. unfold neg_cv. cbn. unfold neg_v, dp_new_c. cbn. rewrite Ropp_0. reflexivity.
  - intros [|] x; reflexivity.
  - intros n x kids cx g. cbn [select dbments]. rewrite ontoc_neg. cbn [fst neg_mv]. rewrite select_neg, omap_bind. apply bind_same. now intros [a g1].
  - intros n x cx g. cbn [sample dbments]. unfold ments_sample. cbn [cstate cact neg_c mdistr neg_mconf]. rewrite omap_bind. apply bind_same. now intros [o g1].
  - intros n x kids cx b. cbn [back_d dbments neg_looks fst snd]. rewrite hd_map. unfold dbments_backup_d. rewrite ontoc_neg. cbn [fst snd neg_mv]. rewrite back_neg, bind_omap, omap_bind. apply bind_same. intros m.
    rewrite (members_d _ _ _ neg_cv snd snd neg_v) by auto. rewrite dpd_neg, bind_omap, omap_bind. apply bind_same. reflexivity.
  - intros n x kids cx b. cbn [back_c dbments omap neg_looks fst snd]. rewrite hd_map. f_equal. unfold dbments_backup_c. rewrite onto_neg. cbn [fst snd neg_cv]. rewrite backc_neg.
    rewrite (members_c _ _ _ neg_mv snd snd neg_v) by auto. rewrite dpc_neg. reflexivity.
  - intros kids cx. apply note_neg.
  - intros kids cx. apply note2_neg.
  - reflexivity.
  - reflexivity.
  - reflexivity.
Qed.
Lemma dbrec_neg : forall (n : dnode) (kids : list (A * (cnode * (cmem * vmem)))) g, dbments_recommend aeqb C' M' (neg_d n) (neg_dkids neg_cv kids) g = dbments_recommend aeqb C M n kids g.
Proof using Two.
  intros. unfold dbments_recommend. change (mmost_visited M') with (mmost_visited M). rewrite visits_neg. rewrite (members_d _ _ _ neg_cv snd snd neg_v) by auto. now rewrite value_neg.
Qed.

(** *** Entropies *)
Lemma entd_neg : forall (n : dnode) x pol (kids : list (A * ecmem)),
  ent_backup_d aeqb C' M' (neg_d n) (neg_e x) pol (map (fun p => (fst p, neg_ec (snd p))) kids) = neg_e (ent_backup_d aeqb C M n x pol kids).
Proof using Two.
  intros n x pol kids. unfold ent_backup_d. cbn [dstate neg_d acts neg_conf morder neg_mconf]. destruct pol as [pol|].
  - unfold neg_e. cbn [e_nb e_local e_sub neg_e]. f_equal. rewrite opp_neg.
    replace (- opp_coeff M n * entropy_loop (map snd (morder M R pol))) with (- (opp_coeff M n * entropy_loop (map snd (morder M R pol)))) by ring.
    change (Some (- (opp_coeff M n * entropy_loop (map snd (morder M R pol))))) with (option_map Ropp (Some (opp_coeff M n * entropy_loop (map snd (morder M R pol))))).
    generalize (Some (opp_coeff M n * entropy_loop (map snd (morder M R pol)))). induction kids as [|[a y] kids IH]; intros o; cbn [map fold_left]; auto.
    rewrite <- IH. f_equal. cbn [fst snd ec_sub neg_ec]. destruct o as [s|], (ec_sub y) as [h|]; cbn; auto. f_equal. ring.
  - unfold neg_e. cbn [e_nb e_local e_sub neg_e]. f_equal. destruct (acts C (dstate n)); cbn; rewrite ?Ropp_0; reflexivity.
Qed.
Lemma entc_neg : forall x (kids : list (S * emem)),
  ent_backup_c (neg_ec x) (map (fun p => (fst p, neg_e (snd p))) kids) = neg_ec (ent_backup_c x kids).
Proof using Type.
  intros x kids. unfold ent_backup_c. unfold neg_ec. cbn [ec_nb ec_sub neg_ec]. f_equal.
  replace (existsb (fun p => match e_sub (snd p) with None => true | _ => false end) (filter (fun p => negb (e_nb (snd p) =? 0)%Z) (map (fun p => (fst p, neg_e (snd p))) kids)))
    with (existsb (fun p => match e_sub (snd p) with None => true | _ => false end) (filter (fun p => negb (e_nb (snd p) =? 0)%Z) kids)).
  - destruct (existsb _ _); cbn [option_map]; auto. f_equal. rewrite <- avg_neg, !map_map. f_equal. apply map_ext. intros [o y]. cbn [fst snd e_nb e_sub neg_e].
    destruct (e_sub y); cbn; rewrite ?Ropp_0; reflexivity.
  - induction kids as [|[o y] kids IH]; cbn [map filter]; auto. cbn [fst snd e_nb neg_e]. destruct (negb (e_nb y =? 0)%Z); auto. cbn [existsb fst snd e_sub neg_e]. rewrite IH.
    destruct (e_sub y); reflexivity.
Qed.
Lemma emp_neg : forall x r, emp_backup (neg_v x) (- r) = neg_v (emp_backup x r).
Proof using Type. intros [k v] r. unfold emp_backup, neg_v. cbn. f_equal. unfold Rdiv. ring. Qed.
Lemma est_neg : forall x, dents_est M' (neg_dc x) = - dents_est M x.
Proof using Type. intros x. unfold dents_est. cbn. destruct (muse_dp M); reflexivity. Qed.
Lemma nq_neg : forall (n : dnode) off (kids : list (A * (cnode * dcmem))) a, dents_q aeqb M' (neg_d n) off (neg_dkids neg_dc kids) a = dents_q aeqb M n off kids a.
Proof using Two.
  intros n off kids a. unfold dents_q. rewrite lookup_neg. destruct (lookup aeqb a kids) as [[c y]|]; cbn [option_map fst snd].
  - cbn [dc_ent neg_dc ec_sub neg_ec]. destruct (ec_sub (dc_ent y)) as [h|]; cbn [option_map]; auto. rewrite est_neg, opp_neg. change (value_temp M' (neg_d n)) with (value_temp M n).
    do 2 f_equal. ring.
  - now rewrite unexp_neg.
Qed.
Lemma ndistr_neg : forall (n : dnode) off (kids : list (A * (cnode * dcmem))), dents_distr aeqb C' M' (neg_d n) off (neg_dkids neg_dc kids) = dents_distr aeqb C M n off kids.
Proof using Two.
  intros. unfold dents_distr. cbn [dstate neg_d acts neg_conf].
  assert (E : forall l, all_nq (dents_q aeqb M' (neg_d n) off (neg_dkids neg_dc kids)) l = all_nq (dents_q aeqb M n off kids) l).
  { induction l as [|a l IH]; cbn; auto. now rewrite nq_neg, IH. }
  rewrite E. apply bind_same. intros qs. destruct (nan_free qs); auto. rewrite temp_neg. destruct (ments_weights aeqb (ments_temp M n) l) as [[w sum] norm]. apply mix_neg.
Qed.
Lemma vback_neg : forall (n : dnode) x (kids : list (A * (cnode * dcmem))) r,
  value_backup_d M' (neg_d n) (neg_dm x) (neg_dkids neg_dc kids) (- r) = omap (fun p => (neg_v (fst p), neg_v (snd p))) (value_backup_d M n x kids r).
Proof using Two.
  intros. unfold value_backup_d. change (muse_dp M') with (muse_dp M). cbn [d_dp d_emp neg_dm]. destruct (muse_dp M).
  - rewrite (members_d _ _ _ neg_dc dc_dp dc_dp neg_v) by auto. rewrite dpd_neg, bind_omap, omap_bind. apply bind_same. reflexivity.
  - cbn [omap]. rewrite emp_neg. reflexivity.
Qed.
Lemma vbackc_neg : forall (n : cnode) x (kids : list (S * (dnode * dmem))) r,
  value_backup_c M' (neg_c n) (neg_dc x) (neg_ckids neg_dm kids) (- r) = (neg_v (fst (value_backup_c M n x kids r)), neg_v (snd (value_backup_c M n x kids r))).
Proof using Type.
  intros. unfold value_backup_c. change (muse_dp M') with (muse_dp M). cbn [dc_dp dc_emp neg_dc]. destruct (muse_dp M).
  - rewrite (members_c _ _ _ neg_dm d_dp d_dp neg_v) by auto. rewrite dpc_neg. reflexivity.
  - rewrite emp_neg. reflexivity.
Qed.
Lemma new_dm_neg : forall n : dnode, dents_new_d aeqb C' M' (neg_d n) = neg_dm (dents_new_d aeqb C M n).
Proof using Two.
  intros n. unfold dents_new_d. rewrite new_m_neg. cbv zeta. unfold neg_dm. cbn [d_nb d_soft d_off d_dp d_ent d_emp m_nb m_soft m_off neg_m option_map].
  rewrite (distr_neg n (unexpanded_q aeqb M n (m_off (ments_new_d C M n)))) by (intros; apply unexp_neg).
  set (pol := match action_distr aeqb C M n (unexpanded_q aeqb M n (m_off (ments_new_d C M n))) with Ok d => d | _ => None end).
  f_equal. replace (mkEm 0 (Some 0) (Some 0)) with (neg_e (mkEm 0 (Some 0) (Some 0))) at 1 by (unfold neg_e; cbn; now rewrite Ropp_0).
  exact (entd_neg n (mkEm 0 (Some 0) (Some 0)) pol []).
Qed.
Lemma new_dc_neg : forall n : cnode, dents_new_c M' (neg_c n) = neg_dc (dents_new_c M n).
Proof using Type. intros n. unfold dents_new_c, neg_dc, dp_new_c, neg_v, neg_ec. cbn. rewrite Ropp_0. reflexivity. Qed.
Lemma dback_neg : forall (n : dnode) x (k1 k2 k3 : list (A * (cnode * dcmem))) r,
  dents_backup_d aeqb C' M' (neg_d n) (neg_dm x) (neg_dkids neg_dc k1) (neg_dkids neg_dc k2) (neg_dkids neg_dc k3) (- r) =
  omap neg_dm (dents_backup_d aeqb C M n x k1 k2 k3 r).
Proof using Two.
  intros. unfold dents_backup_d. change (d_off (neg_dm x)) with (d_off x). rewrite ndistr_neg, omap_bind. apply bind_same. intros pol.
  rewrite (members_d _ _ _ neg_dc dc_ent dc_ent neg_ec) by auto. change (d_ent (neg_dm x)) with (neg_e (d_ent x)). rewrite entd_neg. cbv zeta.
  rewrite vback_neg, bind_omap, omap_bind. apply bind_same. intros [dp emp]. cbn [fst snd omap]. unfold neg_dm. cbn [d_nb d_soft d_off d_dp d_ent d_emp neg_dm].
  change (muse_dp M') with (muse_dp M). change (value_temp M' (neg_d n)) with (value_temp M n). do 2 f_equal. cbn [e_sub neg_e].
  destruct (e_sub (ent_backup_d aeqb C M n (d_ent x) pol (members dc_ent k2))) as [h|]; cbn; auto. f_equal. destruct (muse_dp M); cbn; ring.
Qed.
Lemma dbackc_neg : forall (n : cnode) x (k1 k2 : list (S * (dnode * dmem))) r,
  dents_backup_c M' (neg_c n) (neg_dc x) (neg_ckids neg_dm k1) (neg_ckids neg_dm k2) (- r) = neg_dc (dents_backup_c M n x k1 k2 r).
Proof using Type.
  intros. unfold dents_backup_c. rewrite (members_c _ _ _ neg_dm d_ent d_ent neg_e) by auto. change (dc_ent (neg_dc x)) with (neg_ec (dc_ent x)). rewrite entc_neg, vbackc_neg. cbv zeta.
  destruct (value_backup_c M n x k2 r) as [dp emp]. cbn [fst snd]. unfold neg_dc. cbn [dc_nb dc_soft dc_dp dc_ent dc_emp neg_dc].
  change (muse_dp M') with (muse_dp M). change (value_temp_c M' (neg_c n)) with (value_temp_c M n). f_equal. cbn [ec_sub neg_ec].
  destruct (ec_sub (ent_backup_c (dc_ent x) (members d_ent k1))) as [h|]; cbn; auto. f_equal. destruct (muse_dp M); cbn; ring.
Qed.
Lemma dsel_neg : forall (n : dnode) x (kids : list (A * (cnode * dcmem))) g, dents_select aeqb C' M' (neg_d n) (neg_dm x) (neg_dkids neg_dc kids) g = dents_select aeqb C M n x kids g.
Proof using Two. intros. unfold dents_select. change (d_off (neg_dm x)) with (d_off x). rewrite ndistr_neg. reflexivity. Qed.
Lemma drec_neg : forall (n : dnode) (kids : list (A * (cnode * dcmem))) g, dents_recommend aeqb C' M' (neg_d n) (neg_dkids neg_dc kids) g = dents_recommend aeqb C M n kids g.
Proof using Two.
  intros. unfold dents_recommend. change (mmost_visited M') with (mmost_visited M). change (muse_dp M') with (muse_dp M). rewrite visits_neg.
  rewrite (members_d _ _ _ neg_dc (if muse_dp M then dc_dp else dc_emp) (if muse_dp M then dc_dp else dc_emp) neg_v) by (intros; destruct (muse_dp M); reflexivity). now rewrite value_neg.
Qed.
Lemma dvisit_neg : forall leaf x, dents_visit leaf (neg_dm x) = neg_dm (dents_visit leaf x).
Proof using Type. intros [|] x; reflexivity. Qed.
Lemma dents_mirrored : mirrored (dents aeqb C M) (dents aeqb C' M') neg_dm neg_dc (neg_looks neg_dm neg_dc).
Proof using Two.
  constructor.
  - reflexivity.
  - apply new_dm_neg.
  - apply new_dc_neg.
  - apply dvisit_neg.
  - intros n x kids cx g. cbn [select dents]. rewrite dsel_neg, omap_bind. apply bind_same. now intros [a g1].
  - intros n x cx g. cbn [sample dents]. unfold ments_sample. cbn [cstate cact neg_c mdistr neg_mconf]. rewrite omap_bind. apply bind_same. now intros [o g1].
  - intros n x kids cx b. cbn [back_d dents neg_looks fst snd]. rewrite !map_nth. apply dback_neg.
  - intros n x kids cx b. cbn [back_c dents neg_looks fst snd]. rewrite hd_map. exact (f_equal Ok (dbackc_neg n x (hd kids (snd cx)) kids (b_tafter b))).
  - intros kids cx. apply note_neg.
  - intros kids cx. apply note2_neg.
  - reflexivity.
  - reflexivity.
  - reflexivity.
Qed.
Lemma esel_neg : forall (n : dnode) x (kids : list (A * (cnode * dcmem))) g, est_select aeqb C' M' (neg_d n) (neg_dm x) (neg_dkids neg_dc kids) g = est_select aeqb C M n x kids g.
Proof using Two.
  intros. unfold est_select. change (d_off (neg_dm x)) with (d_off x). rewrite (distr_neg n (est_q aeqb M n (d_off x) kids)); [reflexivity|]. intros a. unfold est_q. rewrite lookup_neg.
  destruct (lookup aeqb a kids) as [[c y]|]; cbn [option_map fst snd]; [|apply unexp_neg]. now rewrite est_neg, opp_neg, Rmult_opp_opp.
Qed.
Lemma est_mirrored : mirrored (est aeqb C M) (est aeqb C' M') neg_dm neg_dc (fun cx => cx).
Proof using Two.
  constructor.
  - reflexivity.
  - apply new_dm_neg.
  - apply new_dc_neg.
  - apply dvisit_neg.
  - intros n x kids cx g. cbn [select est]. rewrite esel_neg, omap_bind. apply bind_same. now intros [a g1].
  - intros n x cx g. cbn [sample est]. unfold ments_sample. cbn [cstate cact neg_c mdistr neg_mconf]. rewrite omap_bind. apply bind_same. now intros [o g1].
  - intros n x kids cx b. cbn [back_d est]. unfold est_backup_d. change (b_tafter (neg_args b)) with (- b_tafter b). rewrite vback_neg, bind_omap, omap_bind. apply bind_same. now intros [dp emp].
  - intros n x kids cx b. cbn [back_c est omap]. f_equal. unfold est_backup_c. change (b_tafter (neg_args b)) with (- b_tafter b). rewrite vbackc_neg. destruct (value_backup_c M n x kids (b_tafter b)) as [dp emp]. reflexivity.
  - intros kids cx. reflexivity.
  - intros kids cx. reflexivity.
  - reflexivity.
  - reflexivity.
  - reflexivity.
Qed.

(** *** RENTS *)
Lemma rweights_neg : forall (n : dnode) qs par, rents_weights aeqb C' M' (neg_d n) qs par = rents_weights aeqb C M n qs par.
Proof using Type. reflexivity. Qed.
Lemma rdistr_neg : forall (n : dnode) x (kids : list (A * (cnode * cmem))) cx, rents_distr aeqb C' M' (neg_d n) (neg_m x) (neg_dkids neg_cm kids) cx = rents_distr aeqb C M n x kids cx.
Proof using Two.
  intros. unfold rents_distr. cbn [dstate neg_d acts neg_conf]. rewrite (all_q_same _ (ments_q aeqb M n x kids)) by (intros; apply q_neg). apply bind_same. intros qs.
  change (parent_distr (neg_d n) cx) with (parent_distr n cx). apply bind_same. intros par. rewrite rweights_neg. destruct (rents_weights aeqb C M n qs par) as [[w sum] norm]. apply mix_neg.
Qed.
Lemma rback_neg : forall (n : dnode) x (kids : list (A * (cnode * cmem))) cx, rents_backup_d aeqb C' M' (neg_d n) (neg_m x) (neg_dkids neg_cm kids) cx = omap neg_m (rents_backup_d aeqb C M n x kids cx).
Proof using Two.
  intros n x kids cx. unfold rents_backup_d. cbn [dstate neg_d acts neg_conf]. rewrite (all_q_same _ (ments_q aeqb M n x kids)) by (intros; apply q_neg).
    rewrite omap_bind. apply bind_same. intros qs. change (parent_distr (neg_d n) cx) with (parent_distr n cx). rewrite omap_bind. apply bind_same. intros par. rewrite rweights_neg.
    destruct (rents_weights aeqb C M n qs par) as [[w sum] norm]. cbn [omap]. unfold neg_m. cbn [m_nb m_soft m_off]. do 2 f_equal. unfold soft_value. rewrite temp_neg, opp_neg. ring.
Qed.
Lemma rents_mirrored : mirrored (rents aeqb C M) (rents aeqb C' M') neg_m neg_cm (fun cx => cx).
Proof using Two.
  constructor.
  - reflexivity.
  - apply new_m_neg.
  - apply newc_neg.
  - apply visit_neg.
  - intros n x kids cx g. cbn [select rents]. unfold rents_select. rewrite rdistr_neg, omap_bind. apply bind_same. intros d. cbv zeta. rewrite omap_bind. apply bind_same. now intros [a g1].
  - intros n x cx g. cbn [sample rents]. unfold ments_sample. cbn [cstate cact neg_c mdistr neg_mconf]. rewrite omap_bind. apply bind_same. now intros [o g1].
  - intros n x kids cx b. exact (rback_neg n x kids cx).
  - intros n x kids cx b. exact (f_equal Ok (backc_neg n x kids)).
  - intros kids cx. reflexivity.
  - intros kids cx. reflexivity.
  - reflexivity.
  - reflexivity.
  - reflexivity.
Qed.

(** *** TENTS *)
Lemma qt_neg : forall (n : dnode) x (kids : list (A * (cnode * cmem))) a, q_over_temp aeqb M' (neg_d n) (neg_m x) (neg_dkids neg_cm kids) a = q_over_temp aeqb M n x kids a.
Proof using Two. intros. unfold q_over_temp. now rewrite q_neg. Qed.
Lemma tweights_neg : forall (n : dnode) x (kids : list (A * (cnode * cmem))), tents_weights aeqb C' M' (neg_d n) (neg_t x) (neg_dkids neg_cm kids) = tents_weights aeqb C M n x kids.
Proof using Two.
  intros. unfold tents_weights. cbn [t_m neg_t dstate neg_d acts neg_conf]. change (sparse_set (neg_t x)) with (sparse_set x).
  rewrite !(all_q_same (q_over_temp aeqb M' (neg_d n) (neg_m (t_m x)) (neg_dkids neg_cm kids)) (q_over_temp aeqb M n (t_m x) kids)) by (intros; apply qt_neg). reflexivity.
Qed.
Lemma upd_neg : forall (x : @tmem A) a v, update_maps aeqb (neg_t x) a v = omap neg_t (update_maps aeqb x a v).
Proof using Type. intros. unfold update_maps. cbn [t_a2q t_q2a neg_t t_m]. rewrite omap_bind. reflexivity. Qed.
Lemma tback_neg : forall (n : dnode) x (kids : list (A * (cnode * cmem))) cx, tents_backup_d aeqb M' (neg_d n) (neg_t x) (neg_dkids neg_cm kids) cx = omap neg_t (tents_backup_d aeqb M n x kids cx).
Proof using Two.
  intros. unfold tents_backup_d. change (ddepth (neg_d n)) with (ddepth n). rewrite omap_bind. apply bind_same. intros a. cbn [t_m neg_t]. rewrite qt_neg, omap_bind. apply bind_same. intros v.
  rewrite upd_neg, bind_omap, omap_bind. apply bind_same. intros x1. change (spmax aeqb (neg_t x1)) with (spmax aeqb x1). rewrite omap_bind. apply bind_same. intros sp. cbn [omap].
  unfold neg_t, neg_m. cbn [t_m t_a2q t_q2a m_nb m_soft m_off]. do 3 f_equal. rewrite temp_neg, opp_neg. ring.
Qed.
Lemma new_t_neg : forall n : dnode, tents_new_d aeqb C' M' (neg_d n) = neg_t (tents_new_d aeqb C M n).
Proof using Two.
  intros n. unfold tents_new_d. rewrite new_m_neg. cbv zeta. cbn [dstate neg_d acts neg_conf]. set (m := ments_new_d C M n).
  change (mkTm (neg_m m) [] []) with (neg_t (mkTm m (@nil (A * R)) [])). generalize (mkTm m (@nil (A * R)) []). induction (acts C (dstate n)) as [|a l IH]; intros x; cbn [fold_left]; auto.
  pose proof (qt_neg n m [] a) as E. change (neg_dkids neg_cm []) with (@nil (A * (cnode * cmem))) in E. rewrite E. clear E. destruct (q_over_temp aeqb M n m [] a) as [v| |]; try apply IH.
  change (mkTm (neg_m m) (mput aeqb (t_a2q (neg_t x)) a v) (mm_insert v a (t_q2a (neg_t x)))) with (neg_t (mkTm m (mput aeqb (t_a2q x) a v) (mm_insert v a (t_q2a x)))). apply IH.
Qed.
Lemma tents_mirrored : mirrored (tents aeqb C M) (tents aeqb C' M') neg_t neg_cm (fun cx => cx).
Proof using Two.
  constructor.
  - reflexivity.
  - apply new_t_neg.
  - apply newc_neg.
  - intros leaf x. cbn [vis_d tents]. cbn [t_m t_a2q t_q2a neg_t]. rewrite visit_neg. reflexivity.
  - intros n x kids cx g. cbn [select tents]. unfold tents_select. rewrite tweights_neg, omap_bind. apply bind_same. intros [w sum]. rewrite mix_neg, omap_bind. apply bind_same. intros d.
    rewrite omap_bind. apply bind_same. now intros [a g1].
  - intros n x cx g. cbn [sample tents]. unfold ments_sample. cbn [cstate cact neg_c mdistr neg_mconf]. rewrite omap_bind. apply bind_same. now intros [o g1].
  - intros n x kids cx b. cbn [back_d tents]. apply tback_neg.
  - intros n x kids cx b. cbn [back_c tents omap]. f_equal.
    rewrite <- backc_neg. f_equal. unfold onto, neg_ckids. rewrite !map_map. reflexivity.
  - intros kids cx. reflexivity.
  - intros kids cx. reflexivity.
  - reflexivity.
  - reflexivity.
  - reflexivity.
Qed.
End Ments.
