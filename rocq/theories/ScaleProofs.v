(** The trials of the scaled problem are the scaled trials (for ScaleTheorems.v). *)
From Coq Require Import List ZArith Bool Reals Lia Lra.
From Verif Require Import Base NumOps HelperModel EngineModel AlgoModel AlgoFinish UctModel MentsModel MirrorSpec MirrorProofs ScaleSpec.
Import ListNotations.
Open Scope R_scope.

Section Scale.
Variable al : R.
Lemma sum_scl : forall l, sumR (map (Rmult al) l) = al * sumR l.
Proof.
  unfold sumR. assert (K : forall l a, fold_left Rplus (map (Rmult al) l) (al * a) = al * fold_left Rplus l a).
  { induction l as [|x l IH]; intros a; cbn; auto. rewrite <- Rmult_plus_distr_l. apply IH. }
  intros l. rewrite <- K. now rewrite Rmult_0_r.
Qed.

Section Engine.
Context {S A : Type}.
Variable seqb : S -> S -> bool.
Variable aeqb : A -> A -> bool.
Variable C : @econf S A.
Notation C' := ((scl_conf al) C).

Lemma new_scl : forall s k t, new_dnode C' s k t = (scl_d al) (new_dnode C s k t).
Proof. intros s k t. unfold new_dnode, scl_d. cbn. destruct (heuristic C); cbn; [destruct (is_sink C s)|]; rewrite ?Rmult_0_r; reflexivity. Qed.
Lemma create_d_scl : forall (m : @store S A) d n a, create_child_d aeqb ((scl_store al) m) d ((scl_d al) n) a = (scl_store al) (create_child_d aeqb m d n a).
Proof.
  intros m d n a. unfold create_child_d. cbn [dkids scl_d]. destruct (lookup aeqb a (dkids n)).
  - unfold scl_store. cbn. now rewrite map_upd'.
  - unfold scl_store. cbn. now rewrite map_upd'.
Qed.
Lemma create_c_scl : forall (m : @store S A) c n o, create_child_c seqb C' ((scl_store al) m) c n o =
  ((scl_store al) (fst (create_child_c seqb C m c n o)), snd (create_child_c seqb C m c n o)).
Proof.
  intros m c n o. unfold create_child_c. cbn [ckids use_tt scl_conf]. destruct (lookup seqb o (ckids n)).
  - reflexivity.
  - rewrite new_scl. destruct (use_tt C).
    + cbn [tt scl_store]. destruct (lookup (id_eqb seqb) (ctime n, o) (tt m)); cbn; unfold scl_store; cbn.
      * reflexivity.
      * now rewrite map_app, map_length.
    + cbn. unfold scl_store. cbn. now rewrite map_app, map_length.
Qed.
Lemma out_scl : forall (s : @EngineModel.est S A) t m x evs, out ((scl_est al) s) t ((scl_store al) m) ((scl_thread al) x) (map (scl_event al) evs) = option_map (@scl_est S A al) (out s t m x evs).
Proof.
  intros s t m x evs. unfold out, scl_est. cbn. rewrite map_upd', map_app, <- map_rev, !map_map. reflexivity.
Qed.
Lemma cont_scl : forall n flag, should_continue C' ((scl_d al) n) flag = should_continue C n flag.
Proof. reflexivity. Qed.

Lemma estep_scl : forall l (s : @EngineModel.est S A), estep seqb aeqb C' l ((scl_est al) s) = option_map (@scl_est S A al) (estep seqb aeqb C l s).
Proof.
  intros [t|t a|t o|t] s; unfold estep; cbn [ths scl_est]; rewrite nth_map; destruct (nth_error (ths s) t) as [th|]; cbn [option_map]; auto.
  - destruct th; cbn [scl_thread option_map]; auto. apply (out_scl s t (mem s) (TSel 0 false [] []) [EStart]).
  - destruct th; cbn [scl_thread option_map]; auto. cbn [mem scl_est dh scl_store]. rewrite nth_map.
    destruct (nth_error (dh (mem s)) cur) as [n|]; cbn [option_map]; [|apply (out_scl s t (mem s) TBad [])].
    rewrite cont_scl. cbn [dstate scl_d acts scl_conf dkids]. destruct (should_continue C n flag && existsb (aeqb a) (acts C (dstate n))); auto.
    change (visit_d ((scl_d al) n)) with ((scl_d al) (visit_d n)). change (mkStore _ _ _) with ((scl_store al) (mem s)).
    rewrite create_d_scl. set (m1 := create_child_d aeqb (mem s) cur (visit_d n) a). cbn [dh scl_store]. rewrite nth_map.
    destruct (nth_error (dh m1) cur) as [n1|]; cbn [option_map]; [|apply (out_scl s t m1 TBad [])].
    cbn [dkids scl_d]. destruct (lookup aeqb a (dkids n1)) as [c|]; [|apply (out_scl s t m1 TBad [])].
    destruct (lookup aeqb a (dkids n)).
    + apply (out_scl s t m1 (TChance cur a c flag nodes rewards) [EVisitD cur a c]).
    + apply (out_scl s t m1 (TChance cur a c flag nodes rewards) [EVisitD cur a c; ENewC c]).
  - destruct th; cbn [scl_thread option_map]; auto. cbn [mem scl_est dh ch scl_store]. rewrite !nth_map.
    destruct (nth_error (ch (mem s)) c) as [n|]; [|apply (out_scl s t (mem s) TBad [])].
    destruct (nth_error (dh (mem s)) cur) as [dn|]; cbn [option_map]; [|apply (out_scl s t (mem s) TBad [])].
    cbn [cstate cact succs scl_conf ckids]. destruct (existsb (seqb o) (succs C (cstate n) (cact n))); auto.
    change (mkStore _ _ _) with ((scl_store al) (mem s)). rewrite create_c_scl.
    destruct (create_child_c seqb C (mem s) c (visit_c n) o) as [m1 isnew]. cbn [fst snd ch scl_store].
    destruct (nth_error (ch m1) c) as [n1|]; [|apply (out_scl s t m1 TBad [])].
    destruct (lookup seqb o (ckids n1)) as [d|]; [|apply (out_scl s t m1 TBad [])].
    cbn [dstate scl_d rwd scl_conf]. destruct isnew.
    + apply (out_scl s t m1 (TSel d _ ((cur, c) :: nodes) (rwd C (dstate dn) a o :: rewards)) [EVisitC c o d _; ENewD d]).
    + apply (out_scl s t m1 (TSel d _ ((cur, c) :: nodes) (rwd C (dstate dn) a o :: rewards)) [EVisitC c o d _]).
  - destruct th; cbn [scl_thread option_map]; auto.
    + cbn [mem scl_est dh ch scl_store]. rewrite nth_map.
      destruct (nth_error (dh (mem s)) cur) as [n|]; cbn [option_map]; [|apply (out_scl s t (mem s) TBad [])].
      rewrite cont_scl. destruct (should_continue C n flag); auto. cbn [dheur scl_d tt scl_store].
      rewrite <- (out_scl s t _ _ [EFinal cur (dheur n)]). unfold scl_store at 1. cbn [scl_thread map scl_event]. unfold scl_store. cbn [dh ch tt]. rewrite map_upd'.
      change ((scl_d al) (visit_d n)) with (visit_d ((scl_d al) n)).
      replace (sumR (rev (al * dheur n :: map (Rmult al) rewards))) with (al * sumR (rev (dheur n :: rewards))).
      * reflexivity.
      * rewrite <- sum_scl, map_rev. reflexivity.
    + destruct nodes as [|[d c] nodes]; [apply (out_scl s t (mem s) TIdle [EDone])|].
      destruct before as [|r before]; cbn [map]; [apply (out_scl s t (mem s) TBad [])|].
      rewrite <- (out_scl s t (mem s) _ [EBackC c _ _ _ _]). cbn [scl_thread map scl_event]. rewrite !Rmult_plus_distr_l, !map_rev. reflexivity.
    + rewrite <- (out_scl s t (mem s) _ [EBackD d _ _ _ _]). cbn [scl_thread map scl_event]. rewrite !map_rev. reflexivity.
Qed.

(** Algorithms whose virtual functions commute with the scaling. *)
Record scaled (G G' : @algo S A) (P : @dnode S A -> list (A * (@cnode S A * XC G)) -> Prop) (fD : XD G -> XD G') (fC : XC G -> XC G') (fX : CX G -> CX G') : Prop := mkScaled {
  sc_cx : fX (cx0 G) = cx0 G';
  sc_newd : forall n, new_xd G' ((scl_d al) n) = fD (new_xd G n);
  sc_newc : forall n, new_xc G' n = fC (new_xc G n);
  sc_vis : forall leaf x, vis_d G' leaf (fD x) = fD (vis_d G leaf x);
  sc_select : forall n x kids cx g, P n kids -> select G' ((scl_d al) n) (fD x) (scl_dkids fC kids) (fX cx) g =
    omap (fun r => (fst (fst r), fX (snd (fst r)), snd r)) (select G n x kids cx g);
  sc_sample : forall n x cx g, sample G' n (fC x) (fX cx) g =
    omap (fun r => (fst (fst r), fX (snd (fst r)), snd r)) (sample G n x cx g);
  sc_backd : forall n x kids cx b, back_d G' ((scl_d al) n) (fD x) (scl_dkids fC kids) (fX cx) ((scl_args al) b) = omap fD (back_d G n x kids cx b);
  sc_backc : forall n x kids cx b, back_c G' n (fC x) ((scl_ckids al) fD kids) (fX cx) ((scl_args al) b) = omap fC (back_c G n x kids cx b);
  sc_peekd : forall kids cx, peek_d G' (scl_dkids fC kids) (fX cx) = option_map fX (peek_d G kids cx);
  sc_peekc : forall kids cx, peek_c G' ((scl_ckids al) fD kids) (fX cx) = option_map fX (peek_c G kids cx);
  sc_seend : forall cx, seen_d G' (fX cx) = map (scl_dkids fC) (seen_d G cx);
  sc_seenc : forall cx, seen_c G' (fX cx) = map ((scl_ckids al) fD) (seen_c G cx);
  sc_fin : forall cx, fin G' (fX cx) = fX (fin G cx)
}.
Section Search.
Variables G G' : @algo S A.
Variable P : @dnode S A -> list (A * (@cnode S A * XC G)) -> Prop.
Variable fD : XD G -> XD G'.
Variable fC : XC G -> XC G'.
Variable fX : CX G -> CX G'.
Hypothesis Sc : scaled G G' P fD fC fX.
Notation scl := ((scl_ast al) fD fC fX).

Lemma dview_scl : forall s n, dview (scl s) ((scl_d al) n) = scl_dkids fC (dview s n).
Proof.
  intros s n. unfold dview, scl_dkids. cbn [dkids scl_d]. rewrite !flat_map_concat_map, concat_map, map_map. f_equal. apply map_ext. intros [a c].
  cbn [snd fst base scl_ast mem scl_est ch scl_store xcs]. rewrite !nth_map. destruct (nth_error (ch (mem (base s))) c), (nth_error (xcs s) c); reflexivity.
Qed.
Lemma cview_scl : forall s n, cview (scl s) n = (scl_ckids al) fD (cview s n).
Proof.
  intros s n. unfold cview, scl_ckids. rewrite !flat_map_concat_map, concat_map, map_map. f_equal. apply map_ext. intros [a c].
  cbn [snd fst base scl_ast mem scl_est dh scl_store xds]. rewrite !nth_map. destruct (nth_error (dh (mem (base s))) c), (nth_error (xds s) c); reflexivity.
Qed.
Lemma grow_d_scl : forall xs m, grow_d G' (map fD xs) ((scl_store al) m) = map fD (grow_d G xs m).
Proof.
  intros xs m. unfold grow_d. cbn [dh scl_store]. rewrite map_app, map_length, skip_map, !map_map. f_equal. apply map_ext. intros n. apply (sc_newd _ _ _ _ _ _ Sc).
Qed.
Lemma grow_c_scl : forall xs m, grow_c G' (map fC xs) ((scl_store al) m) = map fC (grow_c G xs m).
Proof.
  intros xs m. unfold grow_c. cbn [ch scl_store]. rewrite map_app, map_length, !map_map. f_equal. apply map_ext. intros n. apply (sc_newc _ _ _ _ _ _ Sc).
Qed.
Lemma aset_scl : forall s b ds cs t cx g, aset G' (scl s) ((scl_est al) b) (map fD ds) (map fC cs) t (fX cx) g = scl (aset G s b ds cs t cx g).
Proof.
  intros. unfold aset, scl_ast. cbn [mem scl_est cxs afail base xds xcs rg]. rewrite grow_d_scl, grow_c_scl, map_upd'. reflexivity.
Qed.
Lemma done_scl : forall T T' (f : T -> T') s o k k', (forall x, k' (f x) = option_map scl (k x)) ->
  done G' (scl s) (omap f o) k' = option_map scl (done G s o k).
Proof. intros T T' f s [x| |] k k' H; cbn; auto. Qed.

Lemma wants_scl : forall x : @tstate A, wants ((scl_thread al) x) = wants x.
Proof. now intros []. Qed.
Lemma held_scl : forall x cx, held G' ((scl_thread al) x) (fX cx) = held G x cx.
Proof.
  intros x cx. assert (E : inside G' (fX cx) = inside G cx).
  { unfold inside. rewrite (sc_seend _ _ _ _ _ _ Sc), (sc_seenc _ _ _ _ _ _ Sc). destruct (seen_d G cx), (seen_c G cx); reflexivity. }
  destruct x; cbn [scl_thread held]; auto; rewrite E; reflexivity.
Qed.
Lemma blocked_scl : forall s t x, blocked G' (scl s) t ((scl_thread al) x) = blocked G s t x.
Proof.
  intros s t x. unfold blocked. cbn [base scl_ast ths scl_est cxs]. rewrite map_length. induction (seq 0 (length (ths (base s)))) as [|u l IH]; auto.
  cbn [existsb]. rewrite IH, !nth_map, wants_scl. f_equal. destruct (nth_error (ths (base s)) u); auto. destruct (nth_error (cxs s) u); auto.
  cbn [option_map]. now rewrite held_scl.
Qed.
Lemma astep_scl : forall l s, (forall d n, nth_error (dh (mem (base s))) d = Some n -> P (visit_d n) (dview s n)) -> astep seqb aeqb C' G' l (scl s) = option_map scl (astep seqb aeqb C G l s).
Proof.
  intros l s Ps. unfold astep. cbn [afail scl_ast]. destruct (afail s); auto. destruct l as [t|t].
  - cbn [base scl_ast]. rewrite estep_scl. destruct (estep seqb aeqb C (LStart t) (base s)) as [b|]; cbn [option_map]; auto.
    cbn [xds xcs rg scl_ast]. rewrite <- (sc_cx _ _ _ _ _ _ Sc). now rewrite <- aset_scl.
  - cbn [base scl_ast ths scl_est cxs]. rewrite !nth_map. destruct (nth_error (ths (base s)) t) as [th|]; cbn [option_map]; auto.
    destruct (nth_error (cxs s) t) as [cx|]; cbn [option_map]; auto.
    change (existsb _ _) with (blocked G' (scl s) t ((scl_thread al) th)). rewrite blocked_scl. destruct (blocked G s t th); auto.
    destruct th; cbn [scl_thread]; auto.
    + change (dh (mem ((scl_est al) (base s)))) with (map (scl_d al) (dh (mem (base s)))). cbn [xds scl_ast]. rewrite !nth_map.
      destruct (nth_error (dh (mem (base s))) cur) as [n|] eqn:En; cbn [option_map]; auto. destruct (nth_error (xds s) cur) as [x|]; cbn [option_map]; auto.
      rewrite cont_scl. change (is_leaf C' ((scl_d al) n)) with (is_leaf C n). rewrite (sc_vis _ _ _ _ _ _ Sc). destruct (should_continue C n flag).
      * change (visit_d ((scl_d al) n)) with ((scl_d al) (visit_d n)). rewrite dview_scl. cbn [rg scl_ast]. rewrite (sc_select _ _ _ _ _ _ Sc) by eauto. apply done_scl. intros [[a cx1] g1]. cbn [fst snd].
        rewrite estep_scl. destruct (estep seqb aeqb C (LSelect t a) (base s)) as [b|]; cbn [option_map]; auto.
        rewrite <- aset_scl, map_upd'. reflexivity.
      * rewrite estep_scl. destruct (estep seqb aeqb C (LRun t) (base s)) as [b|]; cbn [option_map]; auto.
        rewrite (sc_fin _ _ _ _ _ _ Sc), <- aset_scl, map_upd'. reflexivity.
    + change (ch (mem ((scl_est al) (base s)))) with ((ch (mem (base s)))). cbn [xcs scl_ast]. rewrite !nth_map.
      destruct (nth_error (ch (mem (base s))) c) as [n|]; cbn [option_map]; auto. destruct (nth_error (xcs s) c) as [x|]; cbn [option_map]; auto.
      cbn [rg scl_ast]. rewrite (sc_sample _ _ _ _ _ _ Sc). apply done_scl. intros [[o cx1] g1]. cbn [fst snd].
      rewrite estep_scl. destruct (estep seqb aeqb C (LSample t o) (base s)) as [b|]; cbn [option_map]; auto.
      now rewrite <- aset_scl.
    + rewrite estep_scl. destruct (estep seqb aeqb C (LRun t) (base s)) as [b|]; cbn [option_map]; auto.
      destruct nodes as [|[d c] nodes]; [cbn [option_map]; now rewrite <- aset_scl|]. destruct before as [|r before]; cbn [map]; [cbn [option_map]; now rewrite <- aset_scl|].
      change (ch (mem ((scl_est al) (base s)))) with ((ch (mem (base s)))). cbn [xcs scl_ast]. rewrite !nth_map. destruct (nth_error (ch (mem (base s))) c) as [n|]; cbn [option_map]; auto.
      destruct (nth_error (xcs s) c) as [x|]; cbn [option_map]; auto. rewrite cview_scl.
      rewrite (sc_peekc _ _ _ _ _ _ Sc). destruct (peek_c G (cview s n) cx) as [cx1|]; cbn [option_map]; [now rewrite <- aset_scl|].
      replace (mkArgs (rev (map (Rmult al) before)) (rev (al * r :: map (Rmult al) after)) (al * tafter + al * r) (al * total))
        with ((scl_args al) (mkArgs (rev before) (rev (r :: after)) (tafter + r) total)).
      * rewrite (sc_backc _ _ _ _ _ _ Sc). apply done_scl. intros x1. cbn [option_map]. rewrite (sc_fin _ _ _ _ _ _ Sc), <- aset_scl, map_upd'. reflexivity.
      * unfold scl_args. cbn [b_before b_after b_tafter b_total]. rewrite !map_rev, Rmult_plus_distr_l. reflexivity.
    + rewrite estep_scl. destruct (estep seqb aeqb C (LRun t) (base s)) as [b|]; cbn [option_map]; auto.
      change (dh (mem ((scl_est al) (base s)))) with (map (scl_d al) (dh (mem (base s)))). cbn [xds scl_ast]. rewrite !nth_map. destruct (nth_error (dh (mem (base s))) d) as [n|]; cbn [option_map]; auto.
      destruct (nth_error (xds s) d) as [x|]; cbn [option_map]; auto. rewrite dview_scl.
      rewrite (sc_peekd _ _ _ _ _ _ Sc). destruct (peek_d G (dview s n) cx) as [cx1|]; cbn [option_map]; [now rewrite <- aset_scl|].
      replace (mkArgs (rev (map (Rmult al) before)) (rev (map (Rmult al) after)) (al * tafter) (al * total)) with ((scl_args al) (mkArgs (rev before) (rev after) tafter total)).
      * rewrite (sc_backd _ _ _ _ _ _ Sc). apply done_scl. intros x1. cbn [option_map]. rewrite (sc_fin _ _ _ _ _ _ Sc), <- aset_scl, map_upd'. reflexivity.
      * unfold scl_args. cbn [b_before b_after b_tafter b_total]. rewrite !map_rev. reflexivity.
Qed.
Lemma ainit_scl : forall n g, ainit C' G' n g = scl (ainit C G n g).
Proof.
  intros n g. unfold ainit, scl_ast. cbn [base xds xcs cxs rg afail einit mem dh map]. unfold einit, scl_est, scl_store. cbn [mem dh ch tt ths etrace map].
  change (root_state C') with (root_state C). change (root_time C') with (root_time C). rewrite new_scl, (sc_newd _ _ _ _ _ _ Sc).
  rewrite !map_rep, (sc_cx _ _ _ _ _ _ Sc). reflexivity.
Qed.
Lemma arun_scl : forall n g, (forall s d m, areach seqb aeqb C G n g s -> nth_error (dh (mem (base s))) d = Some m -> P (visit_d m) (dview s m)) ->
  forall ls, arun seqb aeqb C' G' ls (ainit C' G' n g) = option_map scl (arun seqb aeqb C G ls (ainit C G n g)).
Proof.
  intros n g Ps ls. rewrite ainit_scl. assert (R : areach seqb aeqb C G n g (ainit C G n g)) by (exists []; reflexivity).
  revert R. generalize (ainit C G n g). induction ls as [|l ls IH]; intros s R; cbn; auto.
  rewrite astep_scl by eauto. destruct (astep seqb aeqb C G l s) eqn:E; cbn; auto. apply IH. eapply areach_snoc; eauto.
Qed.
End Search.
End Engine.
Lemma scaled_scales : forall (S A : Type) (G G' : @algo S A) fD fC fX, scaled G G' (fun _ _ => True) fD fC fX -> scales al fD fC fX.
Proof. intros S A G G' fD fC fX H. split; [intros; now apply (sc_select _ _ _ _ _ _ H)|]. split; [exact (sc_sample _ _ _ _ _ _ H)|]. split; [exact (sc_backd _ _ _ _ _ _ H)|]. split; [exact (sc_backc _ _ _ _ _ _ H)|].
  split; [exact (sc_peekd _ _ _ _ _ _ H)|exact (sc_peekc _ _ _ _ _ _ H)]. Qed.
End Scale.
