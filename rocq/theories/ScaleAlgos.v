(** All algorithms commute with the scaling (for ScaleTheorems.v). *)
From Coq Require Import List ZArith Bool Reals Lia Lra.
From Verif Require Import Base NumOps HelperModel EngineModel MapModel AlgoModel UctModel MentsModel MirrorSpec MirrorProofs MirrorAlgos ScaleSpec ScaleProofs.
Import ListNotations.
Open Scope R_scope.

(** Association lists with scaled values. *)
Definition sclv {A} (al : R) (l : list (A * R)) : list (A * R) := map (fun p => (fst p, al * snd p)) l.

Section Scale.
Variable al : R.
Hypothesis al_pos : 0 < al.
Lemma ltb_scl : forall x y, Rltb (al * x) (al * y) = Rltb x y.
Proof using al_pos.
  intros x y. unfold Rltb. destruct (Rlt_dec (al * x) (al * y)) as [H|H], (Rlt_dec x y) as [K|K]; auto.
  - apply Rmult_lt_reg_l in H; auto. contradiction.
  - destruct H. now apply Rmult_lt_compat_l.
Qed.
Lemma div_scl : forall q t, (al * q) / (al * t) = q / t.
Proof using al_pos.
  intros q t. destruct (Req_dec t 0) as [->|H]; [rewrite Rmult_0_r; unfold Rdiv; rewrite Rinv_0; ring|]. field. split; auto. lra.
Qed.
Lemma keys_scl : forall T (l : list (T * R)) b ks, best_keys_loop Rltb (sclv al l) (al * b) ks = best_keys_loop Rltb l b ks.
Proof using al_pos.
  intros T. induction l as [|[k v] l IH]; intros b ks; cbn [sclv map best_keys_loop fst snd]; auto. rewrite !ltb_scl. fold (sclv al l). now rewrite !IH.
Qed.
Lemma max_scl : forall T low (l : list (T * R)) (g : rng R), Forall (fun p => low <= snd p /\ low <= al * snd p) l ->
  get_max_key Rltb low (sclv al l) g = get_max_key Rltb low l g.
Proof using al_pos.
  intros T low l g H. unfold get_max_key. replace (best_keys_loop Rltb (sclv al l) low []) with (best_keys_loop Rltb l low []); auto.
  destruct H as [|[k v] l [H1 H2] H]; auto. cbn [snd] in H1, H2.
  assert (L : forall x m, low <= x -> best_keys_loop Rltb ((k, x) :: m) low [] = best_keys_loop Rltb m x [k]).
  { intros x m Hx. cbn [best_keys_loop]. assert (E1 : Rltb x low = false) by (unfold Rltb; destruct (Rlt_dec x low); auto; lra).
    rewrite E1. destruct (Rltb low x) eqn:E2; auto. unfold Rltb in E2. destruct (Rlt_dec low x); [discriminate|]. replace low with x by lra. reflexivity. }
  change (sclv al ((k, v) :: l)) with ((k, al * v) :: sclv al l). rewrite !L by auto. symmetry. apply keys_scl.
Qed.
Lemma avg_scl0 : forall l, avg_loop (map (fun p => (fst p, al * snd p)) l) = al * avg_loop l.
Proof.
  intros l. unfold avg_loop.
  assert (K : forall l a s, fold_left avg_step (map (fun p => (fst p, al * snd p)) l) (al * a, s) = (al * fst (fold_left avg_step l (a, s)), snd (fold_left avg_step l (a, s)))).
  { clear. induction l as [|[k v] l IH]; intros a s; cbn [map fold_left fst snd]; auto.
    unfold avg_step at 2 4 6. cbn [fst snd]. destruct (k =? 0)%Z; [apply IH|]. rewrite <- IH. f_equal. f_equal. unfold Rdiv. ring. }
  replace (0, 0) with (al * 0, 0) at 1 by (now rewrite Rmult_0_r). now rewrite K.
Qed.
Lemma dp_scl : forall opp l, dp_loop opp (map (fun p => (fst p, al * snd p)) l) = option_map (Rmult al) (dp_loop opp l).
Proof.
  intros opp l. unfold dp_loop. change None with (option_map (Rmult al) None) at 1. generalize (@None R). induction l as [|[k v] l IH]; intros b; cbn [map fold_left]; auto.
  rewrite <- IH. f_equal. unfold dp_step. cbn [fst snd]. destruct (k =? 0)%Z; auto. destruct b as [b|]; cbn; auto.
  replace (opp * (al * b)) with (al * (opp * b)) by ring. replace (opp * (al * v)) with (al * (opp * v)) by ring. rewrite ltb_scl. destruct (Rltb (opp * b) (opp * v)); reflexivity.
Qed.

(** ** MENTS and its relatives *)
Section Ments.
Context {S A : Type}.
Variable aeqb : A -> A -> bool.
Variable C : @econf S A.
Variable M : @mconf S A.
Hypothesis NoPrior : mprior M = None.
Notation C' := ((scl_conf al) C).
Notation M' := ((scl_mconf al) M).
Notation dnode := (@dnode S A).
Notation cnode := (@cnode S A).
Lemma kid_scl : forall X Y (f : X -> Y) (kids : list (A * (cnode * X))) a,
  lookup aeqb a (scl_dkids f kids) = option_map (fun p => (fst p, f (snd p))) (lookup aeqb a kids).
Proof using Type. intros X Y f kids a. induction kids as [|[k [c x]] kids IH]; cbn; auto. destruct (aeqb k a); auto. Qed.
Lemma opp_scl : forall n : dnode, opp_coeff M' ((scl_d al) n) = opp_coeff M n.
Proof using Type. reflexivity. Qed.
Lemma decay_scl : forall f i m k s, decayed_temp f (al * i) (al * m) k s = al * decayed_temp f i m k s.
Proof using al_pos. intros. unfold decayed_temp. cbv zeta. rewrite Rmult_assoc, ltb_scl. destruct (Rltb _ _); auto. Qed.
Lemma temp_scl : forall n : dnode, ments_temp M' ((scl_d al) n) = al * ments_temp M n.
Proof using al_pos. intros n. unfold ments_temp. cbn [mdecay scl_mconf mtemp mmin_temp mroot_scale mscale dvisits scl_d]. change (is_root ((scl_d al) n)) with (is_root n). destruct (mdecay M); auto. apply decay_scl. Qed.
Lemma vtemp_scl : forall n : dnode, value_temp M' ((scl_d al) n) = al * value_temp M n.
Proof using al_pos. intros n. unfold value_temp. cbn [vdecay scl_mconf vinit vmin vroot_scale vscale dvisits scl_d]. change (is_root ((scl_d al) n)) with (is_root n). destruct (vdecay M); auto. apply decay_scl. Qed.
Lemma vtempc_scl : forall n : cnode, value_temp_c M' n = al * value_temp_c M n.
Proof using al_pos. intros n. unfold value_temp_c. cbn [vdecay scl_mconf vinit vmin vscale]. destruct (vdecay M); auto. apply decay_scl. Qed.
Lemma new_m_scl : forall n : dnode, ments_new_d C' M' ((scl_d al) n) = (scl_m al) (ments_new_d C M n).
Proof using Type. intros n. unfold ments_new_d, scl_m. cbn. destruct (heuristic C); cbn; rewrite ?Rmult_0_r; reflexivity. Qed.
Lemma unexp_scl : forall (n : dnode) off a, unexpanded_q aeqb M' ((scl_d al) n) off a = omap (Rmult al) (unexpanded_q aeqb M n off a).
Proof using NoPrior. intros n off a. unfold unexpanded_q. cbn [mprior scl_mconf mdefault_q dstate scl_d]. rewrite NoPrior. cbn [omap]. rewrite opp_scl. f_equal. ring. Qed.
Lemma q_scl : forall (n : dnode) x (kids : list (A * (cnode * cmem))) a, ments_q aeqb M' ((scl_d al) n) ((scl_m al) x) (scl_dkids (scl_cm al) kids) a = omap (Rmult al) (ments_q aeqb M n x kids a).
Proof using NoPrior.
  intros n x kids a. unfold ments_q. rewrite kid_scl. destruct (lookup aeqb a kids) as [[c y]|]; cbn [option_map fst snd omap].
  - cbn [c_soft scl_cm]. rewrite opp_scl. f_equal. ring.
  - apply unexp_scl.
Qed.
Lemma all_q_scl : forall (q q' : A -> outcome R) l, (forall a, q' a = omap (Rmult al) (q a)) -> all_q q' l = omap (sclv al) (all_q q l).
Proof using Type. intros q q' l H. induction l as [|a l IH]; cbn [all_q]; auto. rewrite H, IH, omap_bind, bind_omap. apply bind_same. intros v. rewrite omap_bind, bind_omap. reflexivity. Qed.
Lemma norm_scl : forall temp (qs : list (A * R)), norm_term (al * temp) (sclv al qs) = norm_term temp qs.
Proof using al_pos.
  intros temp qs. unfold norm_term. generalize dbl_lowest. induction qs as [|[a q] qs IH]; intros b; cbn [sclv map fold_left]; auto. cbn [fst snd]. rewrite div_scl. apply IH.
Qed.
Lemma loop_scl : forall (f f' : A -> R -> R) qs, (forall a q, f' a (al * q) = f a q) -> weight_loop aeqb f' (sclv al qs) = weight_loop aeqb f qs.
Proof using Type.
  intros f f' qs H. unfold weight_loop. generalize (@nil (A * R), 0). induction qs as [|[a q] qs IH]; intros [m s]; cbn [sclv map fold_left]; auto. cbn [fst snd]. rewrite H. apply IH.
Qed.
Lemma weights_scl : forall temp qs, ments_weights aeqb (al * temp) (sclv al qs) = ments_weights aeqb temp qs.
Proof using al_pos. intros. unfold ments_weights. cbv zeta. rewrite norm_scl. f_equal. apply loop_scl. intros a q. now rewrite div_scl. Qed.
Lemma mix_loop_scl : forall (n : dnode) lambda sum num l m, mix_loop aeqb M' ((scl_d al) n) lambda sum num l m = mix_loop aeqb M n lambda sum num l m.
Proof using Type.
  intros n lambda sum num. induction l as [|a l IH]; intros m; cbn [mix_loop]; auto. apply bind_same. intros w. change (mix_entry aeqb M' ((scl_d al) n) lambda sum num a w) with (mix_entry aeqb M n lambda sum num a w).
  apply bind_same. intros p. now rewrite IH.
Qed.
Lemma mix_scl : forall (n : dnode) w sum, mix aeqb C' M' ((scl_d al) n) w sum = mix aeqb C M n w sum.
Proof using Type. intros. unfold mix. change (ments_lambda M' ((scl_d al) n)) with (ments_lambda M n). destruct (ments_lambda M n); auto. cbv zeta. now rewrite mix_loop_scl. Qed.
Lemma distr_scl : forall (n : dnode) q q', (forall a, q' a = omap (Rmult al) (q a)) -> action_distr aeqb C' M' ((scl_d al) n) q' = action_distr aeqb C M n q.
Proof using al_pos.
  intros n q q' H. unfold action_distr. cbn [acts scl_conf dstate scl_d]. rewrite (all_q_scl q q' _ H), bind_omap. apply bind_same. intros qs.
  rewrite temp_scl, weights_scl. destruct (ments_weights aeqb (ments_temp M n) qs) as [[w sum] norm]. apply mix_scl.
Qed.
Lemma select_scl : forall (n : dnode) x (kids : list (A * (cnode * cmem))) g, ments_select aeqb C' M' ((scl_d al) n) ((scl_m al) x) (scl_dkids (scl_cm al) kids) g = ments_select aeqb C M n x kids g.
Proof using al_pos NoPrior. intros. unfold ments_select. rewrite (distr_scl n (ments_q aeqb M n x kids)); [reflexivity|]. intros a. apply q_scl. Qed.
Lemma visits_scl : forall X Y (f : X -> Y) (n : dnode) (kids : list (A * (cnode * X))) g, recommend_visits aeqb C' M' ((scl_d al) n) (scl_dkids f kids) g = recommend_visits aeqb C M n kids g.
Proof using Type.
  intros. unfold recommend_visits. cbn [dstate scl_d acts scl_conf]. change (random_valid C' ((scl_d al) n)) with (random_valid C n).
  rewrite (mbuild_same aeqb Z _ (fun a => match lookup aeqb a kids with Some (c, _) => Some (cvisits c) | None => None end)); auto.
  intros a. rewrite kid_scl. destruct (lookup aeqb a kids) as [[c x]|]; reflexivity.
Qed.
Lemma back_scl : forall (n : dnode) x (kids : list (A * (cnode * cmem))), ments_backup_d aeqb C' M' ((scl_d al) n) ((scl_m al) x) (scl_dkids (scl_cm al) kids) = omap (scl_m al) (ments_backup_d aeqb C M n x kids).
Proof using al_pos NoPrior.
  intros. unfold ments_backup_d. cbn [dstate scl_d acts scl_conf]. rewrite (all_q_scl (ments_q aeqb M n x kids)) by (intros; apply q_scl). rewrite omap_bind, bind_omap. apply bind_same. intros qs.
  rewrite temp_scl, weights_scl. destruct (ments_weights aeqb (ments_temp M n) qs) as [[w sum] norm]. cbn [omap]. unfold scl_m. cbn [m_nb m_soft m_off]. do 2 f_equal.
  unfold soft_value. rewrite temp_scl, opp_scl. ring.
Qed.
Lemma backc_scl : forall (n : cnode) x (kids : list (S * (dnode * mmem))), ments_backup_c M' n ((scl_cm al) x) ((scl_ckids al) (scl_m al) kids) = (scl_cm al) (ments_backup_c M n x kids).
Proof using Type.
  intros. unfold ments_backup_c, scl_cm. cbn [c_nb c_soft mreward scl_mconf cstate cact]. f_equal. unfold scl_ckids. rewrite map_map. cbn [fst snd m_nb m_soft scl_m].
  rewrite Rmult_plus_distr_l, <- avg_scl0, map_map. reflexivity.
Qed.
Lemma newc_scl : forall n : cnode, ments_new_c M' n = (scl_cm al) (ments_new_c M n).
Proof using Type. reflexivity. Qed.
Lemma visit_scl : forall leaf x, ments_visit leaf ((scl_m al) x) = (scl_m al) (ments_visit leaf x).
Proof using Type. intros [|] x; reflexivity. Qed.
Lemma ments_scaled : scaled al (ments aeqb C M) (ments aeqb C' M') (fun _ _ => True) (scl_m al) (scl_cm al) (fun cx => cx).
Proof using al_pos NoPrior.
  constructor.
  - reflexivity.
  - apply new_m_scl.
  - apply newc_scl.
  - apply visit_scl.
  - intros n x kids cx g _. cbn [select ments]. rewrite select_scl, omap_bind. apply bind_same. now intros [a g1].
  - intros n x cx g. cbn [sample ments]. unfold ments_sample. cbn [cstate cact mdistr scl_mconf]. rewrite omap_bind. apply bind_same. now intros [o g1].
  - intros n x kids cx b. cbn [back_d ments]. apply back_scl.
  - intros n x kids cx b. exact (f_equal Ok (backc_scl n x kids)).
  - intros kids cx. reflexivity.
  - intros kids cx. reflexivity.
  - reflexivity.
  - reflexivity.
  - reflexivity.
Qed.

(** *** Dynamic programming values *)
Lemma dpd_scl : forall (n : dnode) x (kids : list (A * vmem)),
  dp_backup_d M' ((scl_d al) n) ((scl_v al) x) (map (fun p => (fst p, (scl_v al) (snd p))) kids) = omap (scl_v al) (dp_backup_d M n x kids).
Proof using al_pos NoPrior.
  intros. unfold dp_backup_d. rewrite opp_scl, map_map. cbn [fst snd v_nb v_val scl_v].
  pose proof (dp_scl (opp_coeff M n) (map (fun p => (v_nb (snd p), v_val (snd p))) kids)) as E. rewrite map_map in E. cbn [fst snd] in E. rewrite E.
  destruct (dp_loop (opp_coeff M n) (map (fun p => (v_nb (snd p), v_val (snd p))) kids)); reflexivity.
Qed.
Lemma dpc_scl : forall (n : cnode) x (kids : list (S * vmem)),
  dp_backup_c M' n ((scl_v al) x) (map (fun p => (fst p, (scl_v al) (snd p))) kids) = (scl_v al) (dp_backup_c M n x kids).
Proof using Type.
  intros. unfold dp_backup_c, scl_v at 3. cbn [v_nb v_val scl_v mreward scl_mconf cstate cact]. f_equal. rewrite map_map. cbn [fst snd v_nb v_val scl_v].
  rewrite Rmult_plus_distr_l, <- avg_scl0, map_map. reflexivity.
Qed.
Lemma members_d : forall X X' Y (f : X -> X') (pr : X -> Y) (pr' : X' -> Y) (h : Y -> Y) (kids : list (A * (cnode * X))), (forall x, pr' (f x) = h (pr x)) ->
  members pr' (scl_dkids f kids) = map (fun p => (fst p, h (snd p))) (members pr kids).
Proof using Type. intros. unfold members, scl_dkids. rewrite !map_map. apply map_ext. intros [a [c x]]. cbn. now rewrite H. Qed.
Lemma members_c : forall X X' Y (f : X -> X') (pr : X -> Y) (pr' : X' -> Y) (h : Y -> Y) (kids : list (S * (dnode * X))), (forall x, pr' (f x) = h (pr x)) ->
  members pr' ((scl_ckids al) f kids) = map (fun p => (fst p, h (snd p))) (members pr kids).
Proof using Type. intros. unfold members, scl_ckids. rewrite !map_map. apply map_ext. intros [a [c x]]. cbn. now rewrite H. Qed.
Lemma ontoc_scl : forall (kids : list (A * (cnode * (cmem * vmem)))), ontoc fst (scl_dkids (scl_cv al) kids) = scl_dkids (scl_cm al) (ontoc fst kids).
Proof using Type. intros. unfold ontoc, scl_dkids. rewrite !map_map. apply map_ext. intros [a [c [x v]]]. reflexivity. Qed.
Lemma onto_scl : forall (kids : list (S * (dnode * (mmem * vmem)))), onto fst ((scl_ckids al) (scl_mv al) kids) = (scl_ckids al) (scl_m al) (onto fst kids).
Proof using Type. intros. unfold onto, scl_ckids. rewrite !map_map. apply map_ext. intros [a [c [x v]]]. reflexivity. Qed.
Lemma note_scl : forall X Y X' Y' (fD : X -> X') (fC : Y -> Y') k kids (cx : looks X Y S A),
  note k (scl_dkids fC kids) ((scl_looks al) fD fC cx) = option_map ((scl_looks al) fD fC) (note k kids cx).
Proof using Type.
  intros. unfold note, scl_looks. cbn [fst snd]. rewrite map_length. destruct (length (fst cx) <? k)%nat; cbn [option_map fst snd]; auto. now rewrite map_app.
Qed.
Lemma note2_scl : forall X Y X' Y' (fD : X -> X') (fC : Y -> Y') k kids (cx : looks X Y S A),
  note2 k ((scl_ckids al) fD kids) ((scl_looks al) fD fC cx) = option_map ((scl_looks al) fD fC) (note2 k kids cx).
Proof using Type.
  intros. unfold note2, scl_looks. cbn [fst snd]. rewrite map_length. destruct (length (snd cx) <? k)%nat; cbn [option_map fst snd]; auto. now rewrite map_app.
Qed.
Lemma hd_map : forall X Y (f : X -> Y) l d, hd (f d) (map f l) = f (hd d l).
Proof using Type. now intros X Y f [|x l] d. Qed.
Lemma dbments_scaled : scaled al (dbments aeqb C M) (dbments aeqb C' M') (fun _ _ => True) (scl_mv al) (scl_cv al) ((scl_looks al) (scl_mv al) (scl_cv al)).
Proof using al_pos NoPrior.
  constructor.
  - reflexivity.
  - intros n. cbn [new_xd dbments]. rewrite new_m_scl. reflexivity.
  - intros n. cbn. unfold scl_cv. cbn. unfold scl_v, dp_new_c. cbn. rewrite Rmult_0_r. reflexivity.
  - intros [|] x; reflexivity.
  - intros n x kids cx g _. cbn [select dbments]. rewrite ontoc_scl. cbn [fst scl_mv]. rewrite select_scl, omap_bind. apply bind_same. now intros [a g1].
  - intros n x cx g. cbn [sample dbments]. unfold ments_sample. cbn [cstate cact mdistr scl_mconf]. rewrite omap_bind. apply bind_same. now intros [o g1].
  - intros n x kids cx b. cbn [back_d dbments scl_looks fst snd]. rewrite hd_map. unfold dbments_backup_d. rewrite ontoc_scl. cbn [fst snd scl_mv]. rewrite back_scl, bind_omap, omap_bind. apply bind_same. intros m.
    rewrite (members_d _ _ _ (scl_cv al) snd snd (scl_v al)) by auto. rewrite dpd_scl, bind_omap, omap_bind. apply bind_same. reflexivity.
  - intros n x kids cx b. cbn [back_c dbments omap scl_looks fst snd]. rewrite hd_map. f_equal. unfold dbments_backup_c. rewrite onto_scl. cbn [fst snd scl_cv]. rewrite backc_scl.
    rewrite (members_c _ _ _ (scl_mv al) snd snd (scl_v al)) by auto. rewrite dpc_scl. reflexivity.
  - intros kids cx. apply note_scl.
  - intros kids cx. apply note2_scl.
  - reflexivity.
  - reflexivity.
  - reflexivity.
Qed.
Lemma emp_scl : forall x r, emp_backup ((scl_v al) x) (al * r) = (scl_v al) (emp_backup x r).
Proof using Type. intros [k v] r. unfold emp_backup, scl_v. cbn. f_equal. unfold Rdiv. ring. Qed.
Lemma est_scl : forall x, dents_est M' ((scl_dc al) x) = al * dents_est M x.
Proof using Type. intros x. unfold dents_est. cbn. destruct (muse_dp M); reflexivity. Qed.
Lemma nq_scl : forall (n : dnode) off (kids : list (A * (cnode * dcmem))) a, dents_q aeqb M' ((scl_d al) n) off (scl_dkids (scl_dc al) kids) a = omap (option_map (Rmult al)) (dents_q aeqb M n off kids a).
Proof using al_pos NoPrior.
  intros n off kids a. unfold dents_q. rewrite kid_scl. destruct (lookup aeqb a kids) as [[c y]|]; cbn [option_map fst snd].
  - cbn [dc_ent scl_dc omap]. destruct (ec_sub (dc_ent y)) as [h|]; cbn [option_map]; auto. rewrite est_scl, opp_scl, vtemp_scl. do 2 f_equal. ring.
  - now rewrite unexp_scl, bind_omap, omap_bind.
Qed.
Definition sclo (l : list (A * option R)) : list (A * option R) := map (fun p => (fst p, option_map (Rmult al) (snd p))) l.
Lemma free_scl : forall l, nan_free (sclo l) = option_map (sclv al) (nan_free l).
Proof using Type. induction l as [|[a [v|]] l IH]; cbn; auto. fold (sclo l). rewrite IH. destruct (nan_free l); reflexivity. Qed.
Lemma ndistr_scl : forall (n : dnode) off (kids : list (A * (cnode * dcmem))), dents_distr aeqb C' M' ((scl_d al) n) off (scl_dkids (scl_dc al) kids) = dents_distr aeqb C M n off kids.
Proof using al_pos NoPrior.
  intros. unfold dents_distr. cbn [dstate scl_d acts scl_conf].
  assert (E : forall l, all_nq (dents_q aeqb M' ((scl_d al) n) off (scl_dkids (scl_dc al) kids)) l = omap sclo (all_nq (dents_q aeqb M n off kids) l)).
  { induction l as [|a l IH]; cbn [all_nq]; auto. rewrite nq_scl, IH, bind_omap, omap_bind. apply bind_same. intros v. now rewrite bind_omap, omap_bind. }
  rewrite E, bind_omap. apply bind_same. intros qs. rewrite free_scl. destruct (nan_free qs) as [l|]; cbn [option_map]; auto.
  rewrite temp_scl, weights_scl. destruct (ments_weights aeqb (ments_temp M n) l) as [[w sum] norm]. apply mix_scl.
Qed.
Lemma vback_scl : forall (n : dnode) x (kids : list (A * (cnode * dcmem))) r,
  value_backup_d M' ((scl_d al) n) ((scl_dm al) x) (scl_dkids (scl_dc al) kids) (al * r) = omap (fun p => ((scl_v al) (fst p), (scl_v al) (snd p))) (value_backup_d M n x kids r).
Proof using al_pos NoPrior.
  intros. unfold value_backup_d. change (muse_dp M') with (muse_dp M). cbn [d_dp d_emp scl_dm]. destruct (muse_dp M).
  - rewrite (members_d _ _ _ (scl_dc al) dc_dp dc_dp (scl_v al)) by auto. rewrite dpd_scl, bind_omap, omap_bind. apply bind_same. reflexivity.
  - cbn [omap]. rewrite emp_scl. reflexivity.
Qed.
Lemma vbackc_scl : forall (n : cnode) x (kids : list (S * (dnode * dmem))) r,
  value_backup_c M' n ((scl_dc al) x) ((scl_ckids al) (scl_dm al) kids) (al * r) = ((scl_v al) (fst (value_backup_c M n x kids r)), (scl_v al) (snd (value_backup_c M n x kids r))).
Proof using Type.
  intros. unfold value_backup_c. change (muse_dp M') with (muse_dp M). cbn [dc_dp dc_emp scl_dc]. destruct (muse_dp M).
  - rewrite (members_c _ _ _ (scl_dm al) d_dp d_dp (scl_v al)) by auto. rewrite dpc_scl. reflexivity.
  - rewrite emp_scl. reflexivity.
Qed.
Lemma new_dm_scl : forall n : dnode, dents_new_d aeqb C' M' ((scl_d al) n) = (scl_dm al) (dents_new_d aeqb C M n).
Proof using al_pos NoPrior.
  intros n. unfold dents_new_d. rewrite new_m_scl. cbv zeta. unfold scl_dm. cbn [d_nb d_soft d_off d_dp d_ent d_emp m_nb m_soft m_off scl_m option_map].
  rewrite (distr_scl n (unexpanded_q aeqb M n (m_off (ments_new_d C M n)))) by (intros; apply unexp_scl).
  set (pol := match action_distr aeqb C M n (unexpanded_q aeqb M n (m_off (ments_new_d C M n))) with Ok d => d | _ => None end).
  reflexivity.
Qed.
Lemma new_dc_scl : forall n : cnode, dents_new_c M' n = (scl_dc al) (dents_new_c M n).
Proof using Type. intros n. unfold dents_new_c, scl_dc, dp_new_c, scl_v. cbn. rewrite Rmult_0_r. reflexivity. Qed.
Lemma dback_scl : forall (n : dnode) x (k1 k2 k3 : list (A * (cnode * dcmem))) r,
  dents_backup_d aeqb C' M' ((scl_d al) n) ((scl_dm al) x) (scl_dkids (scl_dc al) k1) (scl_dkids (scl_dc al) k2) (scl_dkids (scl_dc al) k3) (al * r) =
  omap (scl_dm al) (dents_backup_d aeqb C M n x k1 k2 k3 r).
Proof using al_pos NoPrior.
  intros. unfold dents_backup_d. change (d_off ((scl_dm al) x)) with (d_off x). rewrite ndistr_scl, omap_bind. apply bind_same. intros pol.
  replace (members dc_ent (scl_dkids (scl_dc al) k2)) with (members dc_ent k2) by (unfold members, scl_dkids; rewrite map_map; reflexivity).
  change (ent_backup_d aeqb C' M' ((scl_d al) n) (d_ent ((scl_dm al) x)) pol (members dc_ent k2)) with (ent_backup_d aeqb C M n (d_ent x) pol (members dc_ent k2)). cbv zeta.
  rewrite vback_scl, bind_omap, omap_bind. apply bind_same. intros [dp emp]. cbn [fst snd omap]. unfold scl_dm. cbn [d_nb d_soft d_off d_dp d_ent d_emp scl_dm].
  change (muse_dp M') with (muse_dp M). rewrite vtemp_scl. do 2 f_equal.
  destruct (e_sub (ent_backup_d aeqb C M n (d_ent x) pol (members dc_ent k2))) as [h|]; cbn; auto. f_equal. destruct (muse_dp M); cbn; ring.
Qed.
Lemma dbackc_scl : forall (n : cnode) x (k1 k2 : list (S * (dnode * dmem))) r,
  dents_backup_c M' n ((scl_dc al) x) ((scl_ckids al) (scl_dm al) k1) ((scl_ckids al) (scl_dm al) k2) (al * r) = (scl_dc al) (dents_backup_c M n x k1 k2 r).
Proof using al_pos.
  intros. unfold dents_backup_c. replace (members d_ent (scl_ckids al (scl_dm al) k1)) with (members d_ent k1) by (unfold members, scl_ckids; rewrite map_map; reflexivity).
  change (dc_ent ((scl_dc al) x)) with (dc_ent x). rewrite vbackc_scl. cbv zeta.
  destruct (value_backup_c M n x k2 r) as [dp emp]. cbn [fst snd]. unfold scl_dc. cbn [dc_nb dc_soft dc_dp dc_ent dc_emp scl_dc].
  change (muse_dp M') with (muse_dp M). rewrite vtempc_scl. f_equal.
  destruct (ec_sub (ent_backup_c (dc_ent x) (members d_ent k1))) as [h|]; cbn; auto. f_equal. destruct (muse_dp M); cbn; ring.
Qed.
Lemma dsel_scl : forall (n : dnode) x (kids : list (A * (cnode * dcmem))) g, dents_select aeqb C' M' ((scl_d al) n) ((scl_dm al) x) (scl_dkids (scl_dc al) kids) g = dents_select aeqb C M n x kids g.
Proof using al_pos NoPrior. intros. unfold dents_select. change (d_off ((scl_dm al) x)) with (d_off x). rewrite ndistr_scl. reflexivity. Qed.
Lemma dvisit_scl : forall leaf x, dents_visit leaf ((scl_dm al) x) = (scl_dm al) (dents_visit leaf x).
Proof using Type. intros [|] x; reflexivity. Qed.
Lemma dents_scaled : scaled al (dents aeqb C M) (dents aeqb C' M') (fun _ _ => True) (scl_dm al) (scl_dc al) ((scl_looks al) (scl_dm al) (scl_dc al)).
Proof using al_pos NoPrior.
  constructor.
  - reflexivity.
  - apply new_dm_scl.
  - apply new_dc_scl.
  - apply dvisit_scl.
  - intros n x kids cx g _. cbn [select dents]. rewrite dsel_scl, omap_bind. apply bind_same. now intros [a g1].
  - intros n x cx g. cbn [sample dents]. unfold ments_sample. cbn [cstate cact mdistr scl_mconf]. rewrite omap_bind. apply bind_same. now intros [o g1].
  - intros n x kids cx b. cbn [back_d dents scl_looks fst snd]. rewrite !map_nth. apply dback_scl.
  - intros n x kids cx b. cbn [back_c dents scl_looks fst snd]. rewrite hd_map. exact (f_equal Ok (dbackc_scl n x (hd kids (snd cx)) kids (b_tafter b))).
  - intros kids cx. apply note_scl.
  - intros kids cx. apply note2_scl.
  - reflexivity.
  - reflexivity.
  - reflexivity.
Qed.
Lemma esel_scl : forall (n : dnode) x (kids : list (A * (cnode * dcmem))) g, est_select aeqb C' M' ((scl_d al) n) ((scl_dm al) x) (scl_dkids (scl_dc al) kids) g = est_select aeqb C M n x kids g.
Proof using al_pos NoPrior.
  intros. unfold est_select. change (d_off ((scl_dm al) x)) with (d_off x). rewrite (distr_scl n (est_q aeqb M n (d_off x) kids)); [reflexivity|]. intros a. unfold est_q. rewrite kid_scl.
  destruct (lookup aeqb a kids) as [[c y]|]; cbn [option_map fst snd]; [|apply unexp_scl]. rewrite est_scl, opp_scl. cbn [omap]. f_equal. ring.
Qed.
Lemma est_scaled : scaled al (est aeqb C M) (est aeqb C' M') (fun _ _ => True) (scl_dm al) (scl_dc al) (fun cx => cx).
Proof using al_pos NoPrior.
  constructor.
  - reflexivity.
  - apply new_dm_scl.
  - apply new_dc_scl.
  - apply dvisit_scl.
  - intros n x kids cx g _. cbn [select est]. rewrite esel_scl, omap_bind. apply bind_same. now intros [a g1].
  - intros n x cx g. cbn [sample est]. unfold ments_sample. cbn [cstate cact mdistr scl_mconf]. rewrite omap_bind. apply bind_same. now intros [o g1].
  - intros n x kids cx b. cbn [back_d est]. unfold est_backup_d. change (b_tafter ((scl_args al) b)) with (al * b_tafter b). rewrite vback_scl, bind_omap, omap_bind. apply bind_same. now intros [dp emp].
  - intros n x kids cx b. cbn [back_c est omap]. f_equal. unfold est_backup_c. change (b_tafter ((scl_args al) b)) with (al * b_tafter b). rewrite vbackc_scl. destruct (value_backup_c M n x kids (b_tafter b)) as [dp emp]. reflexivity.
  - intros kids cx. reflexivity.
  - intros kids cx. reflexivity.
  - reflexivity.
  - reflexivity.
  - reflexivity.
Qed.

(** *** RENTS *)
Lemma rweights_scl : forall (n : dnode) qs par, rents_weights aeqb C' M' ((scl_d al) n) (sclv al qs) par = rents_weights aeqb C M n qs par.
Proof using al_pos.
  intros. unfold rents_weights. cbv zeta. rewrite temp_scl, norm_scl. f_equal. cbn [acts scl_conf dstate scl_d]. f_equal. apply loop_scl. intros a q. now rewrite div_scl.
Qed.
Lemma rdistr_scl : forall (n : dnode) x (kids : list (A * (cnode * cmem))) cx, rents_distr aeqb C' M' ((scl_d al) n) ((scl_m al) x) (scl_dkids (scl_cm al) kids) cx = rents_distr aeqb C M n x kids cx.
Proof using al_pos NoPrior.
  intros. unfold rents_distr. cbn [dstate scl_d acts scl_conf]. rewrite (all_q_scl (ments_q aeqb M n x kids)) by (intros; apply q_scl). rewrite bind_omap. apply bind_same. intros qs.
  change (parent_distr ((scl_d al) n) cx) with (parent_distr n cx). apply bind_same. intros par. rewrite rweights_scl. destruct (rents_weights aeqb C M n qs par) as [[w sum] norm]. apply mix_scl.
Qed.
Lemma rback_scl : forall (n : dnode) x (kids : list (A * (cnode * cmem))) cx, rents_backup_d aeqb C' M' ((scl_d al) n) ((scl_m al) x) (scl_dkids (scl_cm al) kids) cx = omap (scl_m al) (rents_backup_d aeqb C M n x kids cx).
Proof using al_pos NoPrior.
  intros n x kids cx. unfold rents_backup_d. cbn [dstate scl_d acts scl_conf]. rewrite (all_q_scl (ments_q aeqb M n x kids)) by (intros; apply q_scl).
    rewrite omap_bind, bind_omap. apply bind_same. intros qs. change (parent_distr ((scl_d al) n) cx) with (parent_distr n cx). rewrite omap_bind. apply bind_same. intros par. rewrite rweights_scl.
    destruct (rents_weights aeqb C M n qs par) as [[w sum] norm]. cbn [omap]. unfold scl_m. cbn [m_nb m_soft m_off]. do 2 f_equal. unfold soft_value. rewrite temp_scl, opp_scl. ring.
Qed.
Lemma rents_scaled : scaled al (rents aeqb C M) (rents aeqb C' M') (fun _ _ => True) (scl_m al) (scl_cm al) (fun cx => cx).
Proof using al_pos NoPrior.
  constructor.
  - reflexivity.
  - apply new_m_scl.
  - apply newc_scl.
  - apply visit_scl.
  - intros n x kids cx g _. cbn [select rents]. unfold rents_select. rewrite rdistr_scl, omap_bind. apply bind_same. intros d. cbv zeta. rewrite omap_bind. apply bind_same. now intros [a g1].
  - intros n x cx g. cbn [sample rents]. unfold ments_sample. cbn [cstate cact mdistr scl_mconf]. rewrite omap_bind. apply bind_same. now intros [o g1].
  - intros n x kids cx b. exact (rback_scl n x kids cx).
  - intros n x kids cx b. exact (f_equal Ok (backc_scl n x kids)).
  - intros kids cx. reflexivity.
  - intros kids cx. reflexivity.
  - reflexivity.
  - reflexivity.
  - reflexivity.
Qed.

(** *** TENTS *)
Lemma qt_scl : forall (n : dnode) x (kids : list (A * (cnode * cmem))) a, q_over_temp aeqb M' ((scl_d al) n) ((scl_m al) x) (scl_dkids (scl_cm al) kids) a = q_over_temp aeqb M n x kids a.
Proof using al_pos NoPrior. intros. unfold q_over_temp. rewrite q_scl, temp_scl, bind_omap. apply bind_same. intros v. now rewrite div_scl. Qed.
Lemma tweights_scl : forall (n : dnode) x (kids : list (A * (cnode * cmem))), tents_weights aeqb C' M' ((scl_d al) n) ((scl_t al) x) (scl_dkids (scl_cm al) kids) = tents_weights aeqb C M n x kids.
Proof using al_pos NoPrior.
  intros. unfold tents_weights. cbn [t_m scl_t dstate scl_d acts scl_conf]. change (sparse_set ((scl_t al) x)) with (sparse_set x).
  rewrite !(all_q_same (q_over_temp aeqb M' ((scl_d al) n) ((scl_m al) (t_m x)) (scl_dkids (scl_cm al) kids)) (q_over_temp aeqb M n (t_m x) kids)) by (intros; apply qt_scl). reflexivity.
Qed.
Lemma upd_scl : forall (x : @tmem A) a v, update_maps aeqb ((scl_t al) x) a v = omap (scl_t al) (update_maps aeqb x a v).
Proof using Type. intros. unfold update_maps. cbn [t_a2q t_q2a scl_t t_m]. rewrite omap_bind. reflexivity. Qed.
Lemma tback_scl : forall (n : dnode) x (kids : list (A * (cnode * cmem))) cx, tents_backup_d aeqb M' ((scl_d al) n) ((scl_t al) x) (scl_dkids (scl_cm al) kids) cx = omap (scl_t al) (tents_backup_d aeqb M n x kids cx).
Proof using al_pos NoPrior.
  intros. unfold tents_backup_d. change (ddepth ((scl_d al) n)) with (ddepth n). rewrite omap_bind. apply bind_same. intros a. cbn [t_m scl_t]. rewrite qt_scl, omap_bind. apply bind_same. intros v.
  rewrite upd_scl, bind_omap, omap_bind. apply bind_same. intros x1. change (spmax aeqb ((scl_t al) x1)) with (spmax aeqb x1). rewrite omap_bind. apply bind_same. intros sp. cbn [omap].
  unfold scl_t, scl_m. cbn [t_m t_a2q t_q2a m_nb m_soft m_off]. do 3 f_equal. rewrite temp_scl, opp_scl. ring.
Qed.
Lemma new_t_scl : forall n : dnode, tents_new_d aeqb C' M' ((scl_d al) n) = (scl_t al) (tents_new_d aeqb C M n).
Proof using al_pos NoPrior.
  intros n. unfold tents_new_d. rewrite new_m_scl. cbv zeta. cbn [dstate scl_d acts scl_conf]. set (m := ments_new_d C M n).
  change (mkTm ((scl_m al) m) [] []) with ((scl_t al) (mkTm m (@nil (A * R)) [])). generalize (mkTm m (@nil (A * R)) []). induction (acts C (dstate n)) as [|a l IH]; intros x; cbn [fold_left]; auto.
  pose proof (qt_scl n m [] a) as E. change (scl_dkids (scl_cm al) []) with (@nil (A * (cnode * cmem))) in E. rewrite E. clear E. destruct (q_over_temp aeqb M n m [] a) as [v| |]; try apply IH.
  change (mkTm ((scl_m al) m) (mput aeqb (t_a2q ((scl_t al) x)) a v) (mm_insert v a (t_q2a ((scl_t al) x)))) with ((scl_t al) (mkTm m (mput aeqb (t_a2q x) a v) (mm_insert v a (t_q2a x)))). apply IH.
Qed.
Lemma tents_scaled : scaled al (tents aeqb C M) (tents aeqb C' M') (fun _ _ => True) (scl_t al) (scl_cm al) (fun cx => cx).
Proof using al_pos NoPrior.
  constructor.
  - reflexivity.
  - apply new_t_scl.
  - apply newc_scl.
  - intros leaf x. cbn [vis_d tents]. cbn [t_m t_a2q t_q2a scl_t]. rewrite visit_scl. reflexivity.
  - intros n x kids cx g _. cbn [select tents]. unfold tents_select. rewrite tweights_scl, omap_bind. apply bind_same. intros [w sum]. rewrite mix_scl, omap_bind. apply bind_same. intros d.
    rewrite omap_bind. apply bind_same. now intros [a g1].
  - intros n x cx g. cbn [sample tents]. unfold ments_sample. cbn [cstate cact mdistr scl_mconf]. rewrite omap_bind. apply bind_same. now intros [o g1].
  - intros n x kids cx b. cbn [back_d tents]. apply tback_scl.
  - intros n x kids cx b. cbn [back_c tents omap]. f_equal.
    rewrite <- backc_scl. f_equal. unfold onto, scl_ckids. rewrite !map_map. reflexivity.
  - intros kids cx. reflexivity.
  - intros kids cx. reflexivity.
  - reflexivity.
  - reflexivity.
  - reflexivity.
Qed.
End Ments.

End Scale.
