(** The trials of the negated problem are the negated trials (for MirrorTheorems.v). *)
From Coq Require Import List ZArith Bool Reals Lia Lra.
From Verif Require Import Base NumOps HelperModel EngineModel AlgoModel UctModel MentsModel MirrorSpec.
Import ListNotations.
Open Scope R_scope.

Lemma map_upd' : forall X Y (f : X -> Y) l i x, map f (upd l i x) = upd (map f l) i (f x).
Proof. induction l as [|y l IH]; intros [|i] x; cbn; auto. now rewrite IH. Qed.
Lemma nth_map : forall X Y (f : X -> Y) l i, nth_error (map f l) i = option_map f (nth_error l i).
Proof. induction l as [|y l IH]; intros [|i]; cbn; auto. Qed.
Lemma skip_map : forall X Y (f : X -> Y) l i, skipn i (map f l) = map f (skipn i l).
Proof. induction l as [|y l IH]; intros [|i]; cbn; auto. Qed.
Lemma map_rep : forall X Y (f : X -> Y) x n, map f (repeat x n) = repeat (f x) n.
Proof. induction n; cbn; congruence. Qed.
Lemma sum_opp : forall l, sumR (map Ropp l) = - sumR l.
Proof.
  unfold sumR. assert (K : forall l a, fold_left Rplus (map Ropp l) (- a) = - fold_left Rplus l a).
  { induction l as [|x l IH]; intros a; cbn; auto. rewrite <- Ropp_plus_distr. apply IH. }
  intros l. rewrite <- K. now rewrite Ropp_0.
Qed.

Section Engine.
Context {S A : Type}.
Variable seqb : S -> S -> bool.
Variable aeqb : A -> A -> bool.
Variable C : @econf S A.
Notation C' := (neg_conf C).

Lemma new_neg : forall s k t, new_dnode C' s k (t + 1) = neg_d (new_dnode C s k t).
Proof. intros s k t. unfold new_dnode, neg_d. cbn. destruct (heuristic C); cbn; [destruct (is_sink C s)|]; rewrite ?Ropp_0; reflexivity. Qed.
Lemma newc_neg : forall s a k t, @new_cnode S A s a k (t + 1) = neg_c (new_cnode s a k t).
Proof. reflexivity. Qed.
Lemma store_eta : forall (m : @store S A), mkStore (dh m) (ch m) (tt m) = m.
Proof. now intros []. Qed.
Lemma create_d_neg : forall (m : @store S A) d n a, create_child_d aeqb (neg_store m) d (neg_d n) a = neg_store (create_child_d aeqb m d n a).
Proof.
  intros m d n a. unfold create_child_d. cbn [dkids neg_d]. destruct (lookup aeqb a (dkids n)).
  - unfold neg_store. cbn. now rewrite map_upd'.
  - unfold neg_store. cbn. now rewrite map_upd', map_app, map_length.
Qed.
Lemma lookup_id : forall t o (l : list ((Z * S) * nat)),
  lookup (id_eqb seqb) ((t + 1)%Z, o) (map (fun e => (((fst (fst e) + 1)%Z, snd (fst e)), snd e)) l) = lookup (id_eqb seqb) (t, o) l.
Proof.
  induction l as [|[[t' o'] d] l IH]; cbn; auto. unfold id_eqb at 1 3. cbn.
  replace (t' + 1 =? t + 1)%Z with (t' =? t)%Z; [now rewrite IH|]. destruct (Z.eqb_spec t' t), (Z.eqb_spec (t' + 1) (t + 1)); auto; lia.
Qed.
Lemma create_c_neg : forall (m : @store S A) c n o, create_child_c seqb C' (neg_store m) c (neg_c n) o =
  (neg_store (fst (create_child_c seqb C m c n o)), snd (create_child_c seqb C m c n o)).
Proof.
  intros m c n o. unfold create_child_c. cbn [ckids neg_c use_tt neg_conf]. destruct (lookup seqb o (ckids n)).
  - cbn. unfold neg_store. cbn. now rewrite map_upd'.
  - cbn [cdepth ctime neg_c]. replace (ctime n + 1 + 1)%Z with (ctime n + 1 + 1)%Z by auto. rewrite new_neg. destruct (use_tt C).
    + cbn [tt neg_store]. rewrite lookup_id. destruct (lookup (id_eqb seqb) (ctime n, o) (tt m)); cbn; unfold neg_store; cbn.
      * now rewrite map_upd'.
      * now rewrite map_upd', !map_app, map_length.
    + cbn. unfold neg_store. cbn. now rewrite map_upd', map_app, map_length.
Qed.
Lemma out_neg : forall (s : @EngineModel.est S A) t m x evs, out (neg_est s) t (neg_store m) (neg_thread x) (map neg_event evs) = option_map (@neg_est S A) (out s t m x evs).
Proof.
  intros s t m x evs. unfold out, neg_est. cbn. rewrite map_upd', map_app, <- map_rev, !map_map. reflexivity.
Qed.
Lemma cont_neg : forall n flag, should_continue C' (neg_d n) flag = should_continue C n flag.
Proof. reflexivity. Qed.

Lemma estep_neg : forall l (s : @EngineModel.est S A), estep seqb aeqb C' l (neg_est s) = option_map (@neg_est S A) (estep seqb aeqb C l s).
Proof.
  intros [t|t a|t o|t] s; unfold estep; cbn [ths neg_est]; rewrite nth_map; destruct (nth_error (ths s) t) as [th|]; cbn [option_map]; auto.
  - destruct th; cbn [neg_thread option_map]; auto. apply (out_neg s t (mem s) (TSel 0 false [] []) [EStart]).
  - destruct th; cbn [neg_thread option_map]; auto. cbn [mem neg_est dh neg_store]. rewrite nth_map.
    destruct (nth_error (dh (mem s)) cur) as [n|]; cbn [option_map]; [|apply (out_neg s t (mem s) TBad [])].
    rewrite cont_neg. cbn [dstate neg_d acts neg_conf dkids]. destruct (should_continue C n flag && existsb (aeqb a) (acts C (dstate n))); auto.
    change (visit_d (neg_d n)) with (neg_d (visit_d n)). change (mkStore _ _ _) with (neg_store (mem s)).
    rewrite create_d_neg. set (m1 := create_child_d aeqb (mem s) cur (visit_d n) a). cbn [dh neg_store]. rewrite nth_map.
    destruct (nth_error (dh m1) cur) as [n1|]; cbn [option_map]; [|apply (out_neg s t m1 TBad [])].
    cbn [dkids neg_d]. destruct (lookup aeqb a (dkids n1)) as [c|]; [|apply (out_neg s t m1 TBad [])].
    destruct (lookup aeqb a (dkids n)).
    + apply (out_neg s t m1 (TChance cur a c flag nodes rewards) [EVisitD cur a c]).
    + apply (out_neg s t m1 (TChance cur a c flag nodes rewards) [EVisitD cur a c; ENewC c]).
  - destruct th; cbn [neg_thread option_map]; auto. cbn [mem neg_est dh ch neg_store]. rewrite !nth_map.
    destruct (nth_error (ch (mem s)) c) as [n|]; cbn [option_map]; [|apply (out_neg s t (mem s) TBad [])].
    destruct (nth_error (dh (mem s)) cur) as [dn|]; cbn [option_map]; [|apply (out_neg s t (mem s) TBad [])].
    cbn [cstate cact neg_c succs neg_conf ckids]. destruct (existsb (seqb o) (succs C (cstate n) (cact n))); auto.
    change (visit_c (neg_c n)) with (neg_c (visit_c n)). change (mkStore _ _ _) with (neg_store (mem s)). rewrite create_c_neg.
    destruct (create_child_c seqb C (mem s) c (visit_c n) o) as [m1 isnew]. cbn [fst snd ch neg_store]. rewrite nth_map.
    destruct (nth_error (ch m1) c) as [n1|]; cbn [option_map]; [|apply (out_neg s t m1 TBad [])].
    cbn [ckids neg_c]. destruct (lookup seqb o (ckids n1)) as [d|]; [|apply (out_neg s t m1 TBad [])].
    cbn [dstate neg_d rwd neg_conf]. destruct isnew.
    + apply (out_neg s t m1 (TSel d _ ((cur, c) :: nodes) (rwd C (dstate dn) a o :: rewards)) [EVisitC c o d _; ENewD d]).
    + apply (out_neg s t m1 (TSel d _ ((cur, c) :: nodes) (rwd C (dstate dn) a o :: rewards)) [EVisitC c o d _]).
  - destruct th; cbn [neg_thread option_map]; auto.
    + cbn [mem neg_est dh ch neg_store]. rewrite nth_map.
      destruct (nth_error (dh (mem s)) cur) as [n|]; cbn [option_map]; [|apply (out_neg s t (mem s) TBad [])].
      rewrite cont_neg. destruct (should_continue C n flag); auto. cbn [dheur neg_d tt neg_store].
      rewrite <- (out_neg s t _ _ [EFinal cur (dheur n)]). unfold neg_store at 1. cbn [neg_thread map neg_event]. unfold neg_store. cbn [dh ch tt]. rewrite map_upd'.
      change (neg_d (visit_d n)) with (visit_d (neg_d n)).
      replace (sumR (rev (- dheur n :: map Ropp rewards))) with (- sumR (rev (dheur n :: rewards))).
      * reflexivity.
      * rewrite <- sum_opp, map_rev. reflexivity.
    + destruct nodes as [|[d c] nodes]; [apply (out_neg s t (mem s) TIdle [EDone])|].
      destruct before as [|r before]; cbn [map]; [apply (out_neg s t (mem s) TBad [])|].
      rewrite <- (out_neg s t (mem s) _ [EBackC c _ _ _ _]). cbn [neg_thread map neg_event]. rewrite !Ropp_plus_distr, !map_rev. reflexivity.
    + rewrite <- (out_neg s t (mem s) _ [EBackD d _ _ _ _]). cbn [neg_thread map neg_event]. rewrite !map_rev. reflexivity.
Qed.

(** Algorithms whose virtual functions commute with the negation. *)
Record mirrored (G G' : @algo S A) (fD : XD G -> XD G') (fC : XC G -> XC G') (fX : CX G -> CX G') : Prop := mkMirrored {
  mi_cx : fX (cx0 G) = cx0 G';
  mi_newd : forall n, new_xd G' (neg_d n) = fD (new_xd G n);
  mi_newc : forall n, new_xc G' (neg_c n) = fC (new_xc G n);
  mi_vis : forall leaf x, vis_d G' leaf (fD x) = fD (vis_d G leaf x);
  mi_select : forall n x kids cx g, select G' (neg_d n) (fD x) (neg_dkids fC kids) (fX cx) g =
    omap (fun r => (fst (fst r), fX (snd (fst r)), snd r)) (select G n x kids cx g);
  mi_sample : forall n x cx g, sample G' (neg_c n) (fC x) (fX cx) g =
    omap (fun r => (fst (fst r), fX (snd (fst r)), snd r)) (sample G n x cx g);
  mi_backd : forall n x kids cx b, back_d G' (neg_d n) (fD x) (neg_dkids fC kids) (fX cx) (neg_args b) = omap fD (back_d G n x kids cx b);
  mi_backc : forall n x kids cx b, back_c G' (neg_c n) (fC x) (neg_ckids fD kids) (fX cx) (neg_args b) = omap fC (back_c G n x kids cx b);
  mi_peekd : forall kids cx, peek_d G' (neg_dkids fC kids) (fX cx) = option_map fX (peek_d G kids cx);
  mi_peekc : forall kids cx, peek_c G' (neg_ckids fD kids) (fX cx) = option_map fX (peek_c G kids cx);
  mi_seend : forall cx, seen_d G' (fX cx) = map (neg_dkids fC) (seen_d G cx);
  mi_seenc : forall cx, seen_c G' (fX cx) = map (neg_ckids fD) (seen_c G cx);
  mi_fin : forall cx, fin G' (fX cx) = fX (fin G cx)
}.
Section Search.
Variables G G' : @algo S A.
Variable fD : XD G -> XD G'.
Variable fC : XC G -> XC G'.
Variable fX : CX G -> CX G'.
Hypothesis Mi : mirrored G G' fD fC fX.
Notation neg := (neg_ast fD fC fX).

Lemma dview_neg : forall s n, dview (neg s) (neg_d n) = neg_dkids fC (dview s n).
Proof.
  intros s n. unfold dview, neg_dkids. cbn [dkids neg_d]. rewrite !flat_map_concat_map, concat_map, map_map. f_equal. apply map_ext. intros [a c].
  cbn [snd fst base neg_ast mem neg_est ch neg_store xcs]. rewrite !nth_map. destruct (nth_error (ch (mem (base s))) c), (nth_error (xcs s) c); reflexivity.
Qed.
Lemma cview_neg : forall s n, cview (neg s) (neg_c n) = neg_ckids fD (cview s n).
Proof.
  intros s n. unfold cview, neg_ckids. cbn [ckids neg_c]. rewrite !flat_map_concat_map, concat_map, map_map. f_equal. apply map_ext. intros [a c].
  cbn [snd fst base neg_ast mem neg_est dh neg_store xds]. rewrite !nth_map. destruct (nth_error (dh (mem (base s))) c), (nth_error (xds s) c); reflexivity.
Qed.
Lemma grow_d_neg : forall xs m, grow_d G' (map fD xs) (neg_store m) = map fD (grow_d G xs m).
Proof.
  intros xs m. unfold grow_d. cbn [dh neg_store]. rewrite map_app, map_length, skip_map, !map_map. f_equal. apply map_ext. intros n. apply (mi_newd _ _ _ _ _ Mi).
Qed.
Lemma grow_c_neg : forall xs m, grow_c G' (map fC xs) (neg_store m) = map fC (grow_c G xs m).
Proof.
  intros xs m. unfold grow_c. cbn [ch neg_store]. rewrite map_app, map_length, skip_map, !map_map. f_equal. apply map_ext. intros n. apply (mi_newc _ _ _ _ _ Mi).
Qed.
Lemma aset_neg : forall s b ds cs t cx g, aset G' (neg s) (neg_est b) (map fD ds) (map fC cs) t (fX cx) g = neg (aset G s b ds cs t cx g).
Proof.
  intros. unfold aset, neg_ast. cbn [mem neg_est cxs afail base xds xcs rg]. rewrite grow_d_neg, grow_c_neg, map_upd'. reflexivity.
Qed.
Lemma done_neg : forall T T' (f : T -> T') s o k k', (forall x, k' (f x) = option_map neg (k x)) ->
  done G' (neg s) (omap f o) k' = option_map neg (done G s o k).
Proof. intros T T' f s [x| |] k k' H; cbn; auto. Qed.

Lemma wants_neg : forall x : @tstate A, wants (neg_thread x) = wants x.
Proof. now intros []. Qed.
Lemma held_neg : forall x cx, held G' (neg_thread x) (fX cx) = held G x cx.
Proof.
  intros x cx. assert (E : inside G' (fX cx) = inside G cx).
  { unfold inside. rewrite (mi_seend _ _ _ _ _ Mi), (mi_seenc _ _ _ _ _ Mi). destruct (seen_d G cx), (seen_c G cx); reflexivity. }
  destruct x; cbn [neg_thread held]; auto; rewrite E; reflexivity.
Qed.
Lemma blocked_neg : forall s t x, blocked G' (neg s) t (neg_thread x) = blocked G s t x.
Proof.
  intros s t x. unfold blocked. cbn [base neg_ast ths neg_est cxs]. rewrite map_length. induction (seq 0 (length (ths (base s)))) as [|u l IH]; auto.
  cbn [existsb]. rewrite IH, !nth_map, wants_neg. f_equal. destruct (nth_error (ths (base s)) u); auto. destruct (nth_error (cxs s) u); auto.
  cbn [option_map]. now rewrite held_neg.
Qed.
Lemma astep_neg : forall l s, astep seqb aeqb C' G' l (neg s) = option_map neg (astep seqb aeqb C G l s).
Proof.
  intros l s. unfold astep. cbn [afail neg_ast]. destruct (afail s); auto. destruct l as [t|t].
  - cbn [base neg_ast]. rewrite estep_neg. destruct (estep seqb aeqb C (LStart t) (base s)) as [b|]; cbn [option_map]; auto.
    cbn [xds xcs rg neg_ast]. rewrite <- (mi_cx _ _ _ _ _ Mi). now rewrite <- aset_neg.
  - cbn [base neg_ast ths neg_est cxs]. rewrite !nth_map. destruct (nth_error (ths (base s)) t) as [th|]; cbn [option_map]; auto.
    destruct (nth_error (cxs s) t) as [cx|]; cbn [option_map]; auto.
    change (existsb _ _) with (blocked G' (neg s) t (neg_thread th)). rewrite blocked_neg. destruct (blocked G s t th); auto.
    destruct th; cbn [neg_thread]; auto.
    + change (dh (mem (neg_est (base s)))) with (map neg_d (dh (mem (base s)))). cbn [xds neg_ast]. rewrite !nth_map.
      destruct (nth_error (dh (mem (base s))) cur) as [n|]; cbn [option_map]; auto. destruct (nth_error (xds s) cur) as [x|]; cbn [option_map]; auto.
      rewrite cont_neg. change (is_leaf C' (neg_d n)) with (is_leaf C n). rewrite (mi_vis _ _ _ _ _ Mi). destruct (should_continue C n flag).
      * change (visit_d (neg_d n)) with (neg_d (visit_d n)). rewrite dview_neg. cbn [rg neg_ast]. rewrite (mi_select _ _ _ _ _ Mi). apply done_neg. intros [[a cx1] g1]. cbn [fst snd].
        rewrite estep_neg. destruct (estep seqb aeqb C (LSelect t a) (base s)) as [b|]; cbn [option_map]; auto.
        rewrite <- aset_neg, map_upd'. reflexivity.
      * rewrite estep_neg. destruct (estep seqb aeqb C (LRun t) (base s)) as [b|]; cbn [option_map]; auto.
        rewrite (mi_fin _ _ _ _ _ Mi), <- aset_neg, map_upd'. reflexivity.
    + change (ch (mem (neg_est (base s)))) with (map neg_c (ch (mem (base s)))). cbn [xcs neg_ast]. rewrite !nth_map.
      destruct (nth_error (ch (mem (base s))) c) as [n|]; cbn [option_map]; auto. destruct (nth_error (xcs s) c) as [x|]; cbn [option_map]; auto.
      change (visit_c (neg_c n)) with (neg_c (visit_c n)). cbn [rg neg_ast]. rewrite (mi_sample _ _ _ _ _ Mi). apply done_neg. intros [[o cx1] g1]. cbn [fst snd].
      rewrite estep_neg. destruct (estep seqb aeqb C (LSample t o) (base s)) as [b|]; cbn [option_map]; auto.
      now rewrite <- aset_neg.
    + rewrite estep_neg. destruct (estep seqb aeqb C (LRun t) (base s)) as [b|]; cbn [option_map]; auto.
      destruct nodes as [|[d c] nodes]; [cbn [option_map]; now rewrite <- aset_neg|]. destruct before as [|r before]; cbn [map]; [cbn [option_map]; now rewrite <- aset_neg|].
      change (ch (mem (neg_est (base s)))) with (map neg_c (ch (mem (base s)))). cbn [xcs neg_ast]. rewrite !nth_map. destruct (nth_error (ch (mem (base s))) c) as [n|]; cbn [option_map]; auto.
      destruct (nth_error (xcs s) c) as [x|]; cbn [option_map]; auto. rewrite cview_neg.
      rewrite (mi_peekc _ _ _ _ _ Mi). destruct (peek_c G (cview s n) cx) as [cx1|]; cbn [option_map]; [now rewrite <- aset_neg|].
      replace (mkArgs (rev (map Ropp before)) (rev (- r :: map Ropp after)) (- tafter + - r) (- total))
        with (neg_args (mkArgs (rev before) (rev (r :: after)) (tafter + r) total)).
      * rewrite (mi_backc _ _ _ _ _ Mi). apply done_neg. intros x1. cbn [option_map]. rewrite (mi_fin _ _ _ _ _ Mi), <- aset_neg, map_upd'. reflexivity.
      * unfold neg_args. cbn [b_before b_after b_tafter b_total]. rewrite !map_rev, Ropp_plus_distr. reflexivity.
    + rewrite estep_neg. destruct (estep seqb aeqb C (LRun t) (base s)) as [b|]; cbn [option_map]; auto.
      change (dh (mem (neg_est (base s)))) with (map neg_d (dh (mem (base s)))). cbn [xds neg_ast]. rewrite !nth_map. destruct (nth_error (dh (mem (base s))) d) as [n|]; cbn [option_map]; auto.
      destruct (nth_error (xds s) d) as [x|]; cbn [option_map]; auto. rewrite dview_neg.
      rewrite (mi_peekd _ _ _ _ _ Mi). destruct (peek_d G (dview s n) cx) as [cx1|]; cbn [option_map]; [now rewrite <- aset_neg|].
      replace (mkArgs (rev (map Ropp before)) (rev (map Ropp after)) (- tafter) (- total)) with (neg_args (mkArgs (rev before) (rev after) tafter total)).
      * rewrite (mi_backd _ _ _ _ _ Mi). apply done_neg. intros x1. cbn [option_map]. rewrite (mi_fin _ _ _ _ _ Mi), <- aset_neg, map_upd'. reflexivity.
      * unfold neg_args. cbn [b_before b_after b_tafter b_total]. rewrite !map_rev. reflexivity.
Qed.
Lemma ainit_neg : forall n g, ainit C' G' n g = neg (ainit C G n g).
Proof.
  intros n g. unfold ainit, neg_ast. cbn [base xds xcs cxs rg afail einit mem dh map]. unfold einit, neg_est, neg_store. cbn [mem dh ch tt ths etrace map].
  change (root_state C') with (root_state C). change (root_time C') with (root_time C + 1)%Z. rewrite new_neg, (mi_newd _ _ _ _ _ Mi).
  rewrite !map_rep, (mi_cx _ _ _ _ _ Mi). reflexivity.
Qed.
Lemma arun_neg : forall n g ls, arun seqb aeqb C' G' ls (ainit C' G' n g) = option_map neg (arun seqb aeqb C G ls (ainit C G n g)).
Proof.
  intros n g ls. rewrite ainit_neg. generalize (ainit C G n g). induction ls as [|l ls IH]; intros s; cbn; auto.
  rewrite astep_neg. destruct (astep seqb aeqb C G l s); cbn; auto.
Qed.
End Search.
End Engine.
Lemma mirrored_mirrors : forall (S A : Type) (G G' : @algo S A) fD fC fX, mirrored G G' fD fC fX -> mirrors fD fC fX.
Proof. intros S A G G' fD fC fX H. split; [exact (mi_select _ _ _ _ _ H)|]. split; [exact (mi_sample _ _ _ _ _ H)|]. split; [exact (mi_backd _ _ _ _ _ H)|]. split; [exact (mi_backc _ _ _ _ _ H)|].
  split; [exact (mi_peekd _ _ _ _ _ H)|exact (mi_peekc _ _ _ _ _ H)]. Qed.
