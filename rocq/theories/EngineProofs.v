(** Proofs about trials on a search tree. *)
From Coq Require Import List ZArith Bool Reals Lia Lra.
From Verif Require Import Base BaseProofs NumOps EngineModel EngineSpec.
Import ListNotations.

Section Proofs.
Context {S A : Type}.
Variable seqb : S -> S -> bool.
Variable aeqb : A -> A -> bool.
Hypothesis seqb_ok : decides seqb.
Hypothesis aeqb_ok : decides aeqb.
Variable C : @econf S A.
Notation store := (@store S A).
Notation est := (@est S A).
Notation event := (@event S A).
Notation dnode := (@dnode S A).
Notation cnode := (@cnode S A).
Notation tstate := (@tstate A).

(** ** Lookup *)
Lemma lookup_app : forall K V (eqb : K -> K -> bool) k (m m' : list (K * V)),
  lookup eqb k (m ++ m') = match lookup eqb k m with Some v => Some v | None => lookup eqb k m' end.
Proof. induction m as [|[k' v] m IH]; intros m'; cbn; auto. destruct (eqb k' k); auto. Qed.

Lemma lookup_in : forall K V (eqb : K -> K -> bool) k (m : list (K * V)) v, decides eqb ->
  lookup eqb k m = Some v -> In (k, v) m.
Proof.
  induction m as [|[k' v'] m IH]; intros v D H; cbn in *; [discriminate|].
  destruct (eqb k' k) eqn:E; [|right; auto]. apply D in E. injection H as ->. left. congruence.
Qed.

Lemma lookup_none : forall K V (eqb : K -> K -> bool) k (m : list (K * V)), decides eqb ->
  lookup eqb k m = None -> ~ In k (map fst m).
Proof.
  induction m as [|[k' v'] m IH]; intros D H; cbn in *; auto.
  destruct (eqb k' k) eqn:E; [discriminate|]. intros [->|Q]; [|now apply IH].
  assert (eqb k k = true) by now apply D. congruence.
Qed.

Lemma eqb_refl' : forall K (eqb : K -> K -> bool), decides eqb -> forall x, eqb x x = true.
Proof. intros K eqb D x. now apply D. Qed.

Lemma lookup_snoc_eq : forall K V (eqb : K -> K -> bool) k (m : list (K * V)) v, decides eqb ->
  lookup eqb k m = None -> lookup eqb k (m ++ [(k, v)]) = Some v.
Proof. intros K V eqb k m v D H. rewrite lookup_app, H. cbn. now rewrite eqb_refl'. Qed.

Lemma existsb_in : forall K (eqb : K -> K -> bool) x l, decides eqb -> existsb (eqb x) l = true -> In x l.
Proof. intros K eqb x l D H. apply existsb_exists in H. destruct H as (y & Q & E). apply D in E. now subst. Qed.

Lemma NoDup_snoc : forall K (l : list K) x, NoDup l -> ~ In x l -> NoDup (l ++ [x]).
Proof.
  intros K l x ND H. apply NoDup_Add with (a := x) (l := l).
  - pose proof (Add_app x l []) as Q. now rewrite app_nil_r in Q.
  - auto.
Qed.

Lemma id_eqb_ok : decides (id_eqb seqb).
Proof.
  intros [t s] [t' s']. unfold id_eqb. cbn. rewrite andb_true_iff, Z.eqb_eq. rewrite (seqb_ok s s').
  split; [intros [-> ->]; auto|intros [= -> ->]; auto].
Qed.

Lemma nth_app_l : forall K (l m : list K) i x, nth_error l i = Some x -> nth_error (l ++ m) i = Some x.
Proof. intros K l m i x H. rewrite nth_error_app1; auto. apply nth_error_Some. congruence. Qed.

Lemma nth_snoc : forall K (l : list K) y i x, nth_error (l ++ [y]) i = Some x ->
  nth_error l i = Some x \/ (i = length l /\ x = y).
Proof.
  intros K l y i x H. destruct (Nat.lt_ge_cases i (length l)) as [L|L].
  - left. now rewrite nth_error_app1 in H.
  - right. rewrite nth_error_app2 in H by auto. destruct (i - length l)%nat as [|k] eqn:E; cbn in H.
    + injection H as <-. split; auto. lia.
    + destruct k; discriminate.
Qed.

Lemma nth_last : forall K (l : list K) y, nth_error (l ++ [y]) (length l) = Some y.
Proof. intros K l y. rewrite nth_error_app2, Nat.sub_diag by auto. reflexivity. Qed.

(** ** Steps without failures *)
Inductive gstep (s : est) : est -> Prop :=
| g_start : forall t, nth_error (ths s) t = Some TIdle ->
    gstep s (mkEst (mem s) (upd (ths s) t (TSel 0 false [] [])) ((t, EStart) :: etrace s))
| g_select_old : forall t cur flag nodes rewards n a c,
    nth_error (ths s) t = Some (TSel cur flag nodes rewards) ->
    nth_error (dh (mem s)) cur = Some n -> should_continue C n flag = true ->
    In a (acts C (dstate n)) -> lookup aeqb a (dkids n) = Some c ->
    gstep s (mkEst (mkStore (upd (dh (mem s)) cur (visit_d n)) (ch (mem s)) (tt (mem s)))
                   (upd (ths s) t (TChance cur a c flag nodes rewards))
                   ((t, EVisitD cur a c) :: etrace s))
| g_select_new : forall t cur flag nodes rewards n a,
    nth_error (ths s) t = Some (TSel cur flag nodes rewards) ->
    nth_error (dh (mem s)) cur = Some n -> should_continue C n flag = true ->
    In a (acts C (dstate n)) -> lookup aeqb a (dkids n) = None ->
    let c := length (ch (mem s)) in
    gstep s (mkEst (mkStore (upd (dh (mem s)) cur (add_dkid (visit_d n) a c))
                            (ch (mem s) ++ [new_cnode (dstate n) a (ddepth n) (dtime n)]) (tt (mem s)))
                   (upd (ths s) t (TChance cur a c flag nodes rewards))
                   ((t, ENewC c) :: (t, EVisitD cur a c) :: etrace s))
| g_sample_old : forall t cur a c flag nodes rewards n dn o d,
    nth_error (ths s) t = Some (TChance cur a c flag nodes rewards) ->
    nth_error (ch (mem s)) c = Some n -> nth_error (dh (mem s)) cur = Some dn ->
    In o (succs C (cstate n) (cact n)) -> lookup seqb o (ckids n) = Some d ->
    gstep s (mkEst (mkStore (dh (mem s)) (upd (ch (mem s)) c (visit_c n)) (tt (mem s)))
                   (upd (ths s) t (TSel d flag ((cur, c) :: nodes) (rwd C (dstate dn) a o :: rewards)))
                   ((t, EVisitC c o d false) :: etrace s))
| g_sample_share : forall t cur a c flag nodes rewards n dn o d,
    nth_error (ths s) t = Some (TChance cur a c flag nodes rewards) ->
    nth_error (ch (mem s)) c = Some n -> nth_error (dh (mem s)) cur = Some dn ->
    In o (succs C (cstate n) (cact n)) -> lookup seqb o (ckids n) = None ->
    use_tt C = true -> lookup (id_eqb seqb) (ctime n, o) (tt (mem s)) = Some d ->
    gstep s (mkEst (mkStore (dh (mem s)) (upd (ch (mem s)) c (add_ckid (visit_c n) o d)) (tt (mem s)))
                   (upd (ths s) t (TSel d true ((cur, c) :: nodes) (rwd C (dstate dn) a o :: rewards)))
                   ((t, EVisitC c o d true) :: etrace s))
| g_sample_new : forall t cur a c flag nodes rewards n dn o,
    nth_error (ths s) t = Some (TChance cur a c flag nodes rewards) ->
    nth_error (ch (mem s)) c = Some n -> nth_error (dh (mem s)) cur = Some dn ->
    In o (succs C (cstate n) (cact n)) -> lookup seqb o (ckids n) = None ->
    (use_tt C = true -> lookup (id_eqb seqb) (ctime n, o) (tt (mem s)) = None) ->
    let d := length (dh (mem s)) in
    gstep s (mkEst (mkStore (dh (mem s) ++ [new_dnode C o (cdepth n + 1) (ctime n + 1)])
                            (upd (ch (mem s)) c (add_ckid (visit_c n) o d))
                            (if use_tt C then tt (mem s) ++ [((ctime n, o), d)] else tt (mem s)))
                   (upd (ths s) t (TSel d true ((cur, c) :: nodes) (rwd C (dstate dn) a o :: rewards)))
                   ((t, ENewD d) :: (t, EVisitC c o d true) :: etrace s))
| g_final : forall t cur flag nodes rewards n,
    nth_error (ths s) t = Some (TSel cur flag nodes rewards) ->
    nth_error (dh (mem s)) cur = Some n -> should_continue C n flag = false ->
    gstep s (mkEst (mkStore (upd (dh (mem s)) cur (visit_d n)) (ch (mem s)) (tt (mem s)))
                   (upd (ths s) t (TBack nodes rewards [dheur n] (dheur n) (sumR (rev (dheur n :: rewards)))))
                   ((t, EFinal cur (dheur n)) :: etrace s))
| g_backc : forall t d c nodes r before after tafter total,
    nth_error (ths s) t = Some (TBack ((d, c) :: nodes) (r :: before) after tafter total) ->
    gstep s (mkEst (mem s)
                   (upd (ths s) t (TBackD d nodes before (r :: after) (tafter + r) total))
                   ((t, EBackC c (rev before) (rev (r :: after)) (tafter + r) total) :: etrace s))
| g_backd : forall t d nodes before after tafter total,
    nth_error (ths s) t = Some (TBackD d nodes before after tafter total) ->
    gstep s (mkEst (mem s) (upd (ths s) t (TBack nodes before after tafter total))
                   ((t, EBackD d (rev before) (rev after) tafter total) :: etrace s))
| g_done : forall t before after tafter total,
    nth_error (ths s) t = Some (TBack [] before after tafter total) ->
    gstep s (mkEst (mem s) (upd (ths s) t TIdle) ((t, EDone) :: etrace s)).

(** References held by threads are valid. *)
Definition safe_thread (m : store) (x : tstate) : Prop :=
  match x with
  | TIdle => True
  | TSel cur _ nodes rewards => (cur < length (dh m))%nat /\ length nodes = length rewards
  | TChance cur _ c _ nodes rewards =>
      (cur < length (dh m))%nat /\ (c < length (ch m))%nat /\ length nodes = length rewards
  | TBack nodes before _ _ _ => length nodes = length before
  | TBackD _ nodes before _ _ _ => length nodes = length before
  | TBad => False
  end.
Definition safe (s : est) : Prop := forall t x, nth_error (ths s) t = Some x -> safe_thread (mem s) x.

Lemma estep_gstep : forall l s s', safe s -> estep seqb aeqb C l s = Some s' -> gstep s s'.
Proof.
  intros l s s' Sf H. destruct l as [t|t a|t o|t]; cbn [estep] in H.
  - destruct (nth_error (ths s) t) as [[]|] eqn:Ht; try discriminate. injection H as <-. now apply g_start.
  - destruct (nth_error (ths s) t) as [x|] eqn:Ht; try discriminate. specialize (Sf t x Ht).
    destruct x as [|cur flag nodes rewards| | | |]; try discriminate. destruct Sf as [B _].
    destruct (nth_error (dh (mem s)) cur) as [n|] eqn:Hn; [|apply nth_error_None in Hn; lia].
    destruct (should_continue C n flag) eqn:Hc; cbn [andb] in H; [|discriminate].
    destruct (existsb (aeqb a) (acts C (dstate n))) eqn:Ha; [|discriminate]. apply existsb_in in Ha; auto.
    unfold create_child_d in H. cbn [visit_d dkids dstate ddepth dtime] in H.
    destruct (lookup aeqb a (dkids n)) as [c|] eqn:Hl.
    + cbn [dh ch tt] in H. rewrite (nth_upd_eq _ _ _ _ _ Hn) in H. cbn [visit_d dkids] in H. rewrite Hl in H.
      injection H as <-. eapply g_select_old; eauto.
    + cbn [dh ch tt] in H. rewrite (nth_upd_eq _ _ _ _ _ Hn) in H. cbn [add_dkid visit_d dkids] in H.
      rewrite lookup_snoc_eq in H by auto. injection H as <-. eapply g_select_new; eauto.
  - destruct (nth_error (ths s) t) as [x|] eqn:Ht; try discriminate. specialize (Sf t x Ht).
    destruct x as [|?|cur a c flag nodes rewards| | |]; try discriminate. destruct Sf as (B1 & B2 & _).
    destruct (nth_error (ch (mem s)) c) as [n|] eqn:Hn; [|apply nth_error_None in Hn; lia].
    destruct (nth_error (dh (mem s)) cur) as [dn|] eqn:Hd; [|apply nth_error_None in Hd; lia].
    destruct (existsb (seqb o) (succs C (cstate n) (cact n))) eqn:Ho; [|discriminate]. apply existsb_in in Ho; auto.
    unfold create_child_c in H. cbn [visit_c ckids cstate cdepth ctime] in H.
    destruct (lookup seqb o (ckids n)) as [d|] eqn:Hl.
    + cbn [ch] in H. rewrite (nth_upd_eq _ _ _ _ _ Hn) in H. cbn [visit_c ckids] in H. rewrite Hl in H.
      rewrite Nat.ltb_irrefl in H. injection H as <-. eapply g_sample_old; eauto.
    + assert (Lt : forall d : nat, Nat.ltb (length (ckids n)) (length (ckids n ++ [(o, d)])) = true).
      { intros d. rewrite app_length. cbn. apply Nat.ltb_lt. lia. }
      destruct (use_tt C) eqn:Hu.
      * destruct (lookup (id_eqb seqb) (ctime n, o) (tt (mem s))) as [d|] eqn:Htt.
        -- cbn [ch] in H. rewrite (nth_upd_eq _ _ _ _ _ Hn) in H. cbn [add_ckid visit_c ckids] in H.
           rewrite lookup_snoc_eq, Lt in H by auto. injection H as <-. eapply g_sample_share; eauto.
        -- cbn [ch] in H. rewrite (nth_upd_eq _ _ _ _ _ Hn) in H. cbn [add_ckid visit_c ckids] in H.
           rewrite lookup_snoc_eq, Lt in H by auto. injection H as <-.
           pose proof (g_sample_new s t cur a c flag nodes rewards n dn o Ht Hn Hd Ho Hl (fun _ => Htt)) as G.
           rewrite Hu in G. exact G.
      * cbn [ch] in H. rewrite (nth_upd_eq _ _ _ _ _ Hn) in H. cbn [add_ckid visit_c ckids] in H.
        rewrite lookup_snoc_eq, Lt in H by auto. injection H as <-.
        pose proof (g_sample_new s t cur a c flag nodes rewards n dn o Ht Hn Hd Ho Hl) as G.
        rewrite Hu in G. apply G. discriminate.
  - destruct (nth_error (ths s) t) as [x|] eqn:Ht; try discriminate. specialize (Sf t x Ht).
    destruct x as [|cur flag nodes rewards|?|nodes before after tafter total|d nodes before after tafter total|];
      try discriminate.
    + destruct Sf as [B _]. destruct (nth_error (dh (mem s)) cur) as [n|] eqn:Hn; [|apply nth_error_None in Hn; lia].
      destruct (should_continue C n flag) eqn:Hc; [discriminate|]. injection H as <-. eapply g_final; eauto.
    + cbn in Sf. destruct nodes as [|[d c] nodes].
      * injection H as <-. eapply g_done; eauto.
      * destruct before as [|r before]; [discriminate|]. injection H as <-. eapply g_backc; eauto.
    + injection H as <-. eapply g_backd; eauto.
Qed.

(** ** The tree stays well formed *)
Record tinv (m : store) : Prop := mkTi {
  ti_wf : well_formed seqb aeqb C m;
  ti_time : forall d n, nth_error (dh m) d = Some n -> (dtime n = root_time C + ddepth n /\ 0 <= ddepth n)%Z;
  ti_depth : (0 <= max_depth C)%Z ->
             forall d n, nth_error (dh m) d = Some n -> (ddepth n <= max_depth C)%Z;
  ti_cstop : forall c x, nth_error (ch m) c = Some x ->
             is_sink C (cstate x) = false /\ (cdepth x < max_depth C)%Z /\
             (ctime x = root_time C + cdepth x /\ 0 <= cdepth x)%Z /\ In (cact x) (acts C (cstate x));
  ti_tt : if use_tt C
          then NoDup (map fst (tt m)) /\
               (forall i o d, lookup (id_eqb seqb) (i, o) (tt m) = Some d ->
                  d <> 0%nat /\ exists n, nth_error (dh m) d = Some n /\ dstate n = o /\ dtime n = (i + 1)%Z) /\
               (forall c x o d, nth_error (ch m) c = Some x -> lookup seqb o (ckids x) = Some d ->
                  lookup (id_eqb seqb) (ctime x, o) (tt m) = Some d)
          else tt m = [] /\
               (forall c o c' o' d, cchild seqb m c o d -> cchild seqb m c' o' d -> c = c' /\ o = o');
  ti_noroot : forall c o d, cchild seqb m c o d -> d <> 0%nat;
  ti_cparent : forall d a d' a' c, dchild aeqb m d a c -> dchild aeqb m d' a' c -> d = d' /\ a = a'
}.

Lemma reach_mono : forall m m',
  (forall d a c, dchild aeqb m d a c -> dchild aeqb m' d a c) ->
  (forall c o d, cchild seqb m c o d -> cchild seqb m' c o d) ->
  (forall d, reachD seqb aeqb m d -> reachD seqb aeqb m' d) /\
  (forall c, reachC seqb aeqb m c -> reachC seqb aeqb m' c).
Proof.
  intros m m' H1 H2.
  assert (X : forall d, reachD seqb aeqb m d -> reachD seqb aeqb m' d).
  { fix IH 2. intros d Q. destruct Q as [|c o d Q E]; [apply rd_root|].
    eapply rd_step; [|apply H2; exact E]. destruct Q as [d0 a c Q E0].
    eapply rc_step; [apply IH; exact Q|apply H1; exact E0]. }
  split; auto. intros c Q. destruct Q as [d a c Q E]. eapply rc_step; eauto.
Qed.

(** Effect of a step on the tree. *)
Inductive mstep (m : store) : store -> Prop :=
| m_same : mstep m m
| m_visitd : forall d n, nth_error (dh m) d = Some n ->
    mstep m (mkStore (upd (dh m) d (visit_d n)) (ch m) (tt m))
| m_newc : forall d n a, nth_error (dh m) d = Some n -> ~ must_stop C n -> In a (acts C (dstate n)) ->
    lookup aeqb a (dkids n) = None ->
    mstep m (mkStore (upd (dh m) d (add_dkid (visit_d n) a (length (ch m))))
                     (ch m ++ [new_cnode (dstate n) a (ddepth n) (dtime n)]) (tt m))
| m_visitc : forall c n, nth_error (ch m) c = Some n ->
    mstep m (mkStore (dh m) (upd (ch m) c (visit_c n)) (tt m))
| m_share : forall c n o d, nth_error (ch m) c = Some n -> In o (succs C (cstate n) (cact n)) ->
    lookup seqb o (ckids n) = None -> use_tt C = true ->
    lookup (id_eqb seqb) (ctime n, o) (tt m) = Some d ->
    mstep m (mkStore (dh m) (upd (ch m) c (add_ckid (visit_c n) o d)) (tt m))
| m_newd : forall c n o, nth_error (ch m) c = Some n -> In o (succs C (cstate n) (cact n)) ->
    lookup seqb o (ckids n) = None ->
    (use_tt C = true -> lookup (id_eqb seqb) (ctime n, o) (tt m) = None) ->
    mstep m (mkStore (dh m ++ [new_dnode C o (cdepth n + 1) (ctime n + 1)])
                     (upd (ch m) c (add_ckid (visit_c n) o (length (dh m))))
                     (if use_tt C then tt m ++ [((ctime n, o), length (dh m))] else tt m)).

Lemma continue_not_stop : forall n flag, should_continue C n flag = true ->
  ~ must_stop C n /\ (mcts_mode C = true -> flag = false).
Proof.
  intros n flag H. unfold should_continue, is_leaf in H.
  destruct (is_sink C (dstate n)) eqn:E; cbn [orb] in H; [discriminate|].
  destruct (Z.leb_spec (max_depth C) (ddepth n)); [discriminate|].
  split.
  - intros [Q|Q]; [congruence|lia].
  - intros Hm. rewrite Hm in H. destruct flag; auto; discriminate.
Qed.

Lemma stop_reason : forall n flag, should_continue C n flag = false ->
  must_stop C n \/ (mcts_mode C = true /\ flag = true).
Proof.
  intros n flag H. unfold should_continue, is_leaf in H. unfold must_stop.
  destruct (is_sink C (dstate n)) eqn:E; cbn [orb] in H; [auto|].
  destruct (Z.leb_spec (max_depth C) (ddepth n)); [auto|].
  destruct (mcts_mode C), flag; cbn in H; auto; discriminate.
Qed.

Lemma gstep_mstep : forall s s', gstep s s' -> mstep (mem s) (mem s').
Proof.
  intros s s' G. destruct G; cbn [mem]; try apply m_same.
  - now apply m_visitd.
  - apply m_newc; auto. now apply (continue_not_stop n flag).
  - now apply m_visitc.
  - apply m_share; auto.
  - apply m_newd; auto.
  - now apply m_visitd.
Qed.

(** Steps only add children. *)
Ltac updcase H i := 
  match type of H with nth_error (upd ?l ?j ?y) _ = _ => 
    match goal with N : nth_error l j = Some _ |- _ =>
      rewrite (nth_upd _ _ _ _ _ _ N) in H; destruct (Nat.eqb_spec j i); [subst; injection H as <-|] end end.

Lemma mstep_dchild : forall m m', mstep m m' -> forall d a c, dchild aeqb m' d a c ->
  dchild aeqb m d a c \/
  (exists n, nth_error (dh m) d = Some n /\ lookup aeqb a (dkids n) = None /\ c = length (ch m) /\
     ~ must_stop C n /\ In a (acts C (dstate n)) /\
     nth_error (ch m') c = Some (new_cnode (dstate n) a (ddepth n) (dtime n))).
Proof.
  intros m m' M d a c (n' & Hn & Hl). destruct M as [|d0 n N|d0 n a0 N NS Ia L0|c0 n N|c0 n o d0 N Io L0 U T0|c0 n o N Io L0 T0];
    cbn [dh ch] in *.
  - left. exists n'. auto.
  - rewrite (nth_upd _ _ _ _ _ _ N) in Hn. destruct (Nat.eqb_spec d0 d) as [->|].
    + injection Hn as <-. left. exists n. auto.
    + left. exists n'. auto.
  - rewrite (nth_upd _ _ _ _ _ _ N) in Hn. destruct (Nat.eqb_spec d0 d) as [->|].
    + injection Hn as <-. cbn [add_dkid visit_d dkids] in Hl. rewrite lookup_app in Hl.
      destruct (lookup aeqb a (dkids n)) as [c'|] eqn:E.
      * injection Hl as ->. left. exists n. auto.
      * right. cbn in Hl. destruct (aeqb a0 a) eqn:Ea; [|discriminate]. apply aeqb_ok in Ea. subst a0.
        injection Hl as <-. exists n. repeat split; auto. apply nth_last.
    + left. exists n'. auto.
  - left. exists n'. auto.
  - left. exists n'. auto.
  - left. apply nth_snoc in Hn. destruct Hn as [Hn|[_ ->]]; [exists n'; auto|]. discriminate.
Qed.

Lemma mstep_cchild : forall m m', mstep m m' -> forall c o d, cchild seqb m' c o d ->
  cchild seqb m c o d \/
  (exists n, nth_error (ch m) c = Some n /\ lookup seqb o (ckids n) = None /\
     In o (succs C (cstate n) (cact n)) /\
     ((use_tt C = true /\ lookup (id_eqb seqb) (ctime n, o) (tt m) = Some d /\ tt m' = tt m /\ dh m' = dh m) \/
      (d = length (dh m) /\ nth_error (dh m') d = Some (new_dnode C o (cdepth n + 1) (ctime n + 1)) /\
       (use_tt C = true -> lookup (id_eqb seqb) (ctime n, o) (tt m) = None /\
          tt m' = tt m ++ [((ctime n, o), d)])))).
Proof.
  intros m m' M c o d (n' & Hn & Hl). destruct M as [|d0 n N|d0 n a0 N NS Ia L0|c0 n N|c0 n o0 d0 N Io L0 U T0|c0 n o0 N Io L0 T0];
    cbn [dh ch tt] in *.
  - left. exists n'. auto.
  - left. exists n'. auto.
  - left. apply nth_snoc in Hn. destruct Hn as [Hn|[_ ->]]; [exists n'; auto|]. discriminate.
  - rewrite (nth_upd _ _ _ _ _ _ N) in Hn. destruct (Nat.eqb_spec c0 c) as [->|].
    + injection Hn as <-. left. exists n. auto.
    + left. exists n'. auto.
  - rewrite (nth_upd _ _ _ _ _ _ N) in Hn. destruct (Nat.eqb_spec c0 c) as [->|].
    + injection Hn as <-. cbn [add_ckid visit_c ckids] in Hl. rewrite lookup_app in Hl.
      destruct (lookup seqb o (ckids n)) as [c'|] eqn:E.
      * injection Hl as ->. left. exists n. auto.
      * right. cbn in Hl. destruct (seqb o0 o) eqn:Ea; [|discriminate]. apply seqb_ok in Ea. subst o0.
        injection Hl as <-. exists n. repeat split; auto.
    + left. exists n'. auto.
  - rewrite (nth_upd _ _ _ _ _ _ N) in Hn. destruct (Nat.eqb_spec c0 c) as [->|].
    + injection Hn as <-. cbn [add_ckid visit_c ckids] in Hl. rewrite lookup_app in Hl.
      destruct (lookup seqb o (ckids n)) as [c'|] eqn:E.
      * injection Hl as ->. left. exists n. auto.
      * right. cbn in Hl. destruct (seqb o0 o) eqn:Ea; [|discriminate]. apply seqb_ok in Ea. subst o0.
        injection Hl as <-. exists n. split; auto. split; auto. split; auto. right. split; auto. split; [apply nth_last|].
        intros Hu. rewrite Hu. auto.
    + left. exists n'. auto.
Qed.

(** Data of the nodes after a step. *)
Lemma mstep_dnode : forall m m', mstep m m' -> forall d n', nth_error (dh m') d = Some n' ->
  (exists n, nth_error (dh m) d = Some n /\ dstate n' = dstate n /\ ddepth n' = ddepth n /\ dtime n' = dtime n /\
     dheur n' = dheur n /\ (dvisits n <= dvisits n')%Z) \/
  (d = length (dh m) /\ exists c x o, nth_error (ch m) c = Some x /\ n' = new_dnode C o (cdepth x + 1) (ctime x + 1) /\
     cchild seqb m' c o d).
Proof.
  intros m m' M d n' H. destruct M as [|d0 n N|d0 n a0 N NS Ia L0|c0 n N|c0 n o0 d0 N Io L0 U T0|c0 n o0 N Io L0 T0];
    cbn [dh ch tt] in *; try (left; exists n'; repeat split; auto; lia).
  - rewrite (nth_upd _ _ _ _ _ _ N) in H. destruct (Nat.eqb_spec d0 d) as [->|].
    + injection H as <-. left. exists n. cbn. repeat split; auto; lia.
    + left. exists n'. repeat split; auto; lia.
  - rewrite (nth_upd _ _ _ _ _ _ N) in H. destruct (Nat.eqb_spec d0 d) as [->|].
    + injection H as <-. left. exists n. cbn. repeat split; auto; lia.
    + left. exists n'. repeat split; auto; lia.
  - apply nth_snoc in H. destruct H as [H|[-> ->]].
    + left. exists n'. repeat split; auto; lia.
    + right. split; auto. exists c0, n, o0. repeat split; auto.
      exists (add_ckid (visit_c n) o0 (length (dh m))). cbn [ch]. split.
      * eapply nth_upd_eq; eauto.
      * cbn. now apply lookup_snoc_eq.
Qed.

Lemma mstep_cnode : forall m m', mstep m m' -> forall c x', nth_error (ch m') c = Some x' ->
  (exists x, nth_error (ch m) c = Some x /\ cstate x' = cstate x /\ cact x' = cact x /\ cdepth x' = cdepth x /\
     ctime x' = ctime x /\ (cvisits x <= cvisits x')%Z) \/
  (c = length (ch m) /\ exists d n a, nth_error (dh m) d = Some n /\ x' = new_cnode (dstate n) a (ddepth n) (dtime n) /\
     ~ must_stop C n /\ In a (acts C (dstate n)) /\ dchild aeqb m' d a c).
Proof.
  intros m m' M c x' H. destruct M as [|d0 n N|d0 n a0 N NS Ia L0|c0 n N|c0 n o0 d0 N Io L0 U T0|c0 n o0 N Io L0 T0];
    cbn [dh ch tt] in *; try (left; exists x'; repeat split; auto; lia).
  - apply nth_snoc in H. destruct H as [H|[-> ->]].
    + left. exists x'. repeat split; auto; lia.
    + right. split; auto. exists d0, n, a0. repeat split; auto.
      exists (add_dkid (visit_d n) a0 (length (ch m))). cbn [dh]. split.
      * eapply nth_upd_eq; eauto.
      * cbn. now apply lookup_snoc_eq.
  - rewrite (nth_upd _ _ _ _ _ _ N) in H. destruct (Nat.eqb_spec c0 c) as [->|].
    + injection H as <-. left. exists n. cbn. repeat split; auto; lia.
    + left. exists x'. repeat split; auto; lia.
  - rewrite (nth_upd _ _ _ _ _ _ N) in H. destruct (Nat.eqb_spec c0 c) as [->|].
    + injection H as <-. left. exists n. cbn. repeat split; auto; lia.
    + left. exists x'. repeat split; auto; lia.
  - rewrite (nth_upd _ _ _ _ _ _ N) in H. destruct (Nat.eqb_spec c0 c) as [->|].
    + injection H as <-. left. exists n. cbn. repeat split; auto; lia.
    + left. exists x'. repeat split; auto; lia.
Qed.

Lemma mstep_ext : forall m m', mstep m m' -> extends_tree seqb aeqb m m'.
Proof.
  intros m m' M.
  assert (refl : extends_tree seqb aeqb m m).
  { constructor; auto; intros; eexists; repeat split; eauto; lia. }
  destruct M as [|d0 n N|d0 n a0 N NS Ia L0|c0 n N|c0 n o0 d0 N Io L0 U T0|c0 n o0 N Io L0 T0]; auto.
  - constructor; cbn [dh ch].
    + intros d x H. rewrite (nth_upd _ _ _ _ _ _ N). destruct (Nat.eqb_spec d0 d) as [->|].
      * rewrite N in H. injection H as <-. eexists. split; [reflexivity|]. cbn. repeat split; auto; lia.
      * exists x. repeat split; auto; lia.
    + apply refl.
    + intros d a c (x & H & L). unfold dchild. cbn [dh]. rewrite (nth_upd _ _ _ _ _ _ N).
      destruct (Nat.eqb_spec d0 d) as [->|]; [|eauto]. rewrite N in H. injection H as <-. eexists. split; [reflexivity|]. auto.
    + auto.
  - constructor; cbn [dh ch].
    + intros d x H. rewrite (nth_upd _ _ _ _ _ _ N). destruct (Nat.eqb_spec d0 d) as [->|].
      * rewrite N in H. injection H as <-. eexists. split; [reflexivity|]. cbn. repeat split; auto; lia.
      * exists x. repeat split; auto; lia.
    + intros c x H. exists x. repeat split; auto; [now apply nth_app_l|lia].
    + intros d a c (x & H & L). unfold dchild. cbn [dh]. rewrite (nth_upd _ _ _ _ _ _ N).
      destruct (Nat.eqb_spec d0 d) as [->|]; [|eauto]. rewrite N in H. injection H as <-. eexists. split; [reflexivity|].
      cbn. rewrite lookup_app, L. auto.
    + intros c o d (x & H & L). exists x. cbn [ch]. split; auto. now apply nth_app_l.
  - constructor; cbn [dh ch].
    + apply refl.
    + intros c x H. rewrite (nth_upd _ _ _ _ _ _ N). destruct (Nat.eqb_spec c0 c) as [->|].
      * rewrite N in H. injection H as <-. eexists. split; [reflexivity|]. cbn. repeat split; auto; lia.
      * exists x. repeat split; auto; lia.
    + auto.
    + intros c o d (x & H & L). unfold cchild. cbn [ch]. rewrite (nth_upd _ _ _ _ _ _ N).
      destruct (Nat.eqb_spec c0 c) as [->|]; [|eauto]. rewrite N in H. injection H as <-. eexists. split; [reflexivity|]. auto.
  - constructor; cbn [dh ch].
    + apply refl.
    + intros c x H. rewrite (nth_upd _ _ _ _ _ _ N). destruct (Nat.eqb_spec c0 c) as [->|].
      * rewrite N in H. injection H as <-. eexists. split; [reflexivity|]. cbn. repeat split; auto; lia.
      * exists x. repeat split; auto; lia.
    + auto.
    + intros c o d (x & H & L). unfold cchild. cbn [ch]. rewrite (nth_upd _ _ _ _ _ _ N).
      destruct (Nat.eqb_spec c0 c) as [->|]; [|eauto]. rewrite N in H. injection H as <-. eexists. split; [reflexivity|].
      cbn. rewrite lookup_app, L. auto.
  - constructor; cbn [dh ch].
    + intros d x H. exists x. repeat split; auto; [now apply nth_app_l|lia].
    + intros c x H. rewrite (nth_upd _ _ _ _ _ _ N). destruct (Nat.eqb_spec c0 c) as [->|].
      * rewrite N in H. injection H as <-. eexists. split; [reflexivity|]. cbn. repeat split; auto; lia.
      * exists x. repeat split; auto; lia.
    + intros d a c (x & H & L). exists x. cbn [dh]. split; auto. now apply nth_app_l.
    + intros c o d (x & H & L). unfold cchild. cbn [ch]. rewrite (nth_upd _ _ _ _ _ _ N).
      destruct (Nat.eqb_spec c0 c) as [->|]; [|eauto]. rewrite N in H. injection H as <-. eexists. split; [reflexivity|].
      cbn. rewrite lookup_app, L. auto.
Qed.

Lemma ext_refl : forall m, extends_tree seqb aeqb m m.
Proof. intros m. apply mstep_ext. apply m_same. Qed.
Lemma ext_trans : forall a b c, extends_tree seqb aeqb a b -> extends_tree seqb aeqb b c -> extends_tree seqb aeqb a c.
Proof.
  intros x y z [H1 H2 H3 H4] [K1 K2 K3 K4]. constructor; auto.
  - intros d n Q. destruct (H1 d n Q) as (n1 & Q1 & ? & ? & ? & ? & ?).
    destruct (K1 d n1 Q1) as (n2 & Q2 & ? & ? & ? & ? & ?). exists n2. repeat split; auto; try congruence. lia.
  - intros d n Q. destruct (H2 d n Q) as (n1 & Q1 & ? & ? & ? & ? & ?).
    destruct (K2 d n1 Q1) as (n2 & Q2 & ? & ? & ? & ? & ?). exists n2. repeat split; auto; try congruence. lia.
Qed.

Lemma mstep_keys : forall m m', mstep m m' ->
  (forall d n, nth_error (dh m) d = Some n -> NoDup (map fst (dkids n))) ->
  (forall c x, nth_error (ch m) c = Some x -> NoDup (map fst (ckids x))) ->
  (forall d n, nth_error (dh m') d = Some n -> NoDup (map fst (dkids n))) /\
  (forall c x, nth_error (ch m') c = Some x -> NoDup (map fst (ckids x))).
Proof.
  intros m m' M K1 K2. destruct M as [|d0 n N|d0 n a0 N NS Ia L0|c0 n N|c0 n o0 d0 N Io L0 U T0|c0 n o0 N Io L0 T0];
    cbn [dh ch]; split; auto; intros i y H.
  - rewrite (nth_upd _ _ _ _ _ _ N) in H. destruct (Nat.eqb_spec d0 i); [injection H as <-; cbn; eauto|eauto].
  - rewrite (nth_upd _ _ _ _ _ _ N) in H. destruct (Nat.eqb_spec d0 i); [injection H as <-; cbn|eauto].
    rewrite map_app. cbn. apply NoDup_snoc; eauto. eapply lookup_none; eauto.
  - apply nth_snoc in H. destruct H as [H|[_ ->]]; eauto. constructor.
  - rewrite (nth_upd _ _ _ _ _ _ N) in H. destruct (Nat.eqb_spec c0 i); [injection H as <-; cbn; eauto|eauto].
  - rewrite (nth_upd _ _ _ _ _ _ N) in H. destruct (Nat.eqb_spec c0 i); [injection H as <-; cbn|eauto].
    rewrite map_app. cbn. apply NoDup_snoc; eauto. eapply lookup_none; eauto.
  - apply nth_snoc in H. destruct H as [H|[_ ->]]; eauto. constructor.
  - rewrite (nth_upd _ _ _ _ _ _ N) in H. destruct (Nat.eqb_spec c0 i); [injection H as <-; cbn|eauto].
    rewrite map_app. cbn. apply NoDup_snoc; eauto. eapply lookup_none; eauto.
Qed.

Lemma mstep_tt : forall m m', mstep m m' ->
  tt m' = tt m \/
  exists c n o, use_tt C = true /\ nth_error (ch m) c = Some n /\
    lookup (id_eqb seqb) (ctime n, o) (tt m) = None /\
    tt m' = tt m ++ [((ctime n, o), length (dh m))] /\
    nth_error (dh m') (length (dh m)) = Some (new_dnode C o (cdepth n + 1) (ctime n + 1)).
Proof.
  intros m m' M. destruct M as [|d0 n N|d0 n a0 N NS Ia L0|c0 n N|c0 n o0 d0 N Io L0 U T0|c0 n o0 N Io L0 T0];
    cbn [tt]; auto. destruct (use_tt C) eqn:U; auto. right. exists c0, n, o0. repeat split; auto. cbn [dh]. apply nth_last.
Qed.

Lemma tinv_step : forall m m', mstep m m' -> tinv m -> tinv m'.
Proof.
  intros m m' M I. pose proof (mstep_ext m m' M) as X.
  destruct I as [[Wr Wd Wc Wdk Wck WrD WrC Wh] Tt Td Tc Ttt Tn Tp].
  pose proof (mstep_keys m m' M Wdk Wck) as [Wdk' Wck'].
  destruct (reach_mono m m' (xt_dchild _ _ _ _ X) (xt_cchild _ _ _ _ X)) as [RD RC].
  pose proof (mstep_dnode m m' M) as DN. pose proof (mstep_cnode m m' M) as CN.
  pose proof (mstep_dchild m m' M) as DC. pose proof (mstep_cchild m m' M) as CC.
  assert (Len : (0 < length (dh m))%nat).
  { destruct Wr as (n & Q & _). apply (proj1 (nth_error_Some (dh m) 0)). congruence. }
  assert (ReachC' : forall c x, nth_error (ch m') c = Some x -> reachC seqb aeqb m' c).
  { intros c x Q. destruct (CN c x Q) as [(x0 & Q0 & _)|(-> & d & n & a & Q0 & _ & _ & _ & E)].
    - apply RC. eauto.
    - eapply rc_step; [|exact E]. apply RD. eauto. }
  assert (ReachD' : forall d n, nth_error (dh m') d = Some n -> reachD seqb aeqb m' d).
  { intros d n Q. destruct (DN d n Q) as [(n0 & Q0 & _)|(-> & c & x & o & Q0 & _ & E)].
    - apply RD. eauto.
    - eapply rd_step; [|exact E]. apply RC. eauto. }
  constructor.
  - constructor; auto.
    + destruct Wr as (n & Q & E1 & E2 & E3). destruct (xt_d _ _ _ _ X _ _ Q) as (n' & Q' & ? & ? & ? & ? & ?).
      exists n'. repeat split; auto; congruence.
    + intros d n' a c Hn Hl.
      destruct (DC d a c) as [(n & Hn0 & Hl0)|(n & Hn0 & Hl0 & -> & NS & Ia & E)]; [exists n'; auto| |].
      * destruct (Wd d n a c Hn0 Hl0) as (x & Hx & ? & ? & ? & ? & ? & NS).
        destruct (xt_d _ _ _ _ X _ _ Hn0) as (n2 & Hn2 & D1 & D2 & D3 & _). rewrite Hn in Hn2. injection Hn2 as <-.
        destruct (xt_c _ _ _ _ X _ _ Hx) as (x' & Hx' & ? & ? & ? & ? & _).
        exists x'. repeat split; auto; try congruence. unfold must_stop in *. rewrite D1, D2. auto.
      * destruct (xt_d _ _ _ _ X _ _ Hn0) as (n2 & Hn2 & D1 & D2 & D3 & _). rewrite Hn in Hn2. injection Hn2 as <-.
        eexists. split; [exact E|]. cbn. repeat split; auto; try congruence. unfold must_stop in *. rewrite D1, D2. auto.
    + intros c x' o d Hx Hl.
      destruct (CC c o d) as [(x & Hx0 & Hl0)|(x & Hx0 & Hl0 & Io & Case)]; [exists x'; auto| |].
      * destruct (Wc c x o d Hx0 Hl0) as (n & Hn & ? & ? & ? & ?).
        destruct (xt_c _ _ _ _ X _ _ Hx0) as (x2 & Hx2 & D1 & D2 & D3 & D4 & _). rewrite Hx in Hx2. injection Hx2 as <-.
        destruct (xt_d _ _ _ _ X _ _ Hn) as (n' & Hn' & ? & ? & ? & _).
        exists n'. repeat split; auto; congruence.
      * destruct (xt_c _ _ _ _ X _ _ Hx0) as (x2 & Hx2 & D1 & D2 & D3 & D4 & _). rewrite Hx in Hx2. injection Hx2 as <-.
        destruct Case as [(U & Hlk & Tt' & Dh')|(-> & Hn & _)].
        -- rewrite U in Ttt. destruct Ttt as (_ & T2 & _). destruct (T2 _ _ _ Hlk) as (_ & n & Hn & ? & Et).
           exists n. rewrite Dh'. destruct (Tt d n Hn) as [E1 _]. destruct (Tc c x Hx0) as (_ & _ & [E2 _] & _).
           repeat split; auto; try congruence; try lia.
        -- eexists. split; [exact Hn|]. cbn. repeat split; auto; congruence.
    + intros d n' Q. destruct (DN d n' Q) as [(n & Q0 & E1 & E2 & E3 & E4 & E5)|(_ & c & x & o & _ & -> & _)].
      * rewrite E4, E1. eauto.
      * reflexivity.
  - intros d n' Q. destruct (DN d n' Q) as [(n & Q0 & E1 & E2 & E3 & E4 & E5)|(_ & c & x & o & Hx & -> & _)].
    + rewrite E2, E3. eauto.
    + cbn. destruct (Tc c x Hx) as (_ & _ & [E1 E2] & _). lia.
  - intros Hmd d n' Q. destruct (DN d n' Q) as [(n & Q0 & E1 & E2 & E3 & E4 & E5)|(_ & c & x & o & Hx & -> & _)].
    + rewrite E2. eauto.
    + cbn. destruct (Tc c x Hx) as (_ & E & _). lia.
  - intros c x' Q. destruct (CN c x' Q) as [(x & Q0 & E1 & E2 & E3 & E4 & _)|(_ & d & n & a & Hn & -> & NS & Ia & _)].
    + rewrite E1, E2, E3, E4. eauto.
    + cbn. destruct (Tt d n Hn) as [E1 E2]. unfold must_stop in NS.
      destruct (is_sink C (dstate n)); [tauto|]. repeat split; auto. lia.
  - pose proof (mstep_tt m m' M) as TT. destruct (use_tt C) eqn:U.
    + destruct Ttt as (T1 & T2 & T3). split; [|split].
      * destruct TT as [->|(c & n & o & _ & Hc & Hlk & -> & _)]; auto. rewrite map_app. cbn. apply NoDup_snoc; auto.
        eapply lookup_none; eauto. apply id_eqb_ok.
      * intros i o d Hl. destruct TT as [E|(c & n & o0 & _ & Hc & Hlk & E & Hnew)]; rewrite E in Hl.
        -- destruct (T2 _ _ _ Hl) as (D0 & n & Hn & E1 & E2). split; auto.
           destruct (xt_d _ _ _ _ X _ _ Hn) as (n' & Hn' & ? & ? & ? & _). exists n'. repeat split; auto; congruence.
        -- rewrite lookup_app in Hl. destruct (lookup (id_eqb seqb) (i, o) (tt m)) as [d1|] eqn:E1.
           ++ injection Hl as ->. destruct (T2 _ _ _ E1) as (D0 & n1 & Hn & E2 & E3). split; auto.
              destruct (xt_d _ _ _ _ X _ _ Hn) as (n' & Hn' & ? & ? & ? & _). exists n'. repeat split; auto; congruence.
           ++ cbn [lookup] in Hl. destruct (id_eqb seqb (ctime n, o0) (i, o)) eqn:E2; [|discriminate].
              apply id_eqb_ok in E2. injection E2 as <- <-. injection Hl as <-. split; [lia|].
              eexists. split; [exact Hnew|]. cbn. auto.
      * intros c x' o d Hx Hl. 
        destruct (CC c o d) as [(x & Hx0 & Hl0)|(x & Hx0 & Hl0 & Io & Case)]; [exists x'; auto| |];
          destruct (xt_c _ _ _ _ X _ _ Hx0) as (x2 & Hx2 & D1 & D2 & D3 & D4 & _); rewrite Hx in Hx2; injection Hx2 as <-;
          rewrite D4.
        -- specialize (T3 c x o d Hx0 Hl0). destruct TT as [->|(c1 & n & o0 & _ & Hc & Hlk & -> & _)]; auto.
           rewrite lookup_app, T3. reflexivity.
        -- destruct Case as [(_ & Hlk & -> & _)|(-> & Hn & T4)]; auto.
           destruct (T4 eq_refl) as [T5 ->]. apply lookup_snoc_eq; auto. apply id_eqb_ok.
    + destruct Ttt as [T1 T2]. split.
      * destruct TT as [->|(c & n & o & Uf & _)]; auto. discriminate.
      * intros c o c' o' d H1 H2.
        assert (Fresh : forall c o, ~ cchild seqb m c o (length (dh m))).
        { intros c1 o1 (x & Hx & Hl). destruct (Wc _ _ _ _ Hx Hl) as (n & Hn & _).
          apply (f_equal (fun z => z)) in Hn. assert (length (dh m) < length (dh m))%nat by (apply nth_error_Some; congruence). lia. }
        destruct (CC c o d H1) as [O1|(x1 & Hx1 & Hl1 & _ & [(Uf & _)|(Ed & Hn1 & _)])]; [|discriminate|].
        -- destruct (CC c' o' d H2) as [O2|(x2 & Hx2 & Hl2 & _ & [(Uf & _)|(Ed & _)])]; [eauto|discriminate|].
           subst d. exfalso. eapply Fresh; eauto.
        -- destruct (CC c' o' d H2) as [O2|(x2 & Hx2 & Hl2 & _ & [(Uf & _)|(Ed2 & Hn2 & _)])]; [|discriminate|].
           ++ subst d. exfalso. eapply Fresh; eauto.
           ++ (* both edges are the one added by this step *)
              clear - M U H1 H2 Hx1 Hl1 Hx2 Hl2 seqb_ok.
              destruct M as [|d0 n N|d0 n a0 N NS Ia L0|c0 n N|c0 n o0 d0 N Io L0 U' T0|c0 n o0 N Io L0 T0];
                try (congruence).
              all: try (destruct H1 as (y1 & Y1 & Z1); cbn [ch] in Y1;
                        try (rewrite (nth_upd _ _ _ _ _ _ N) in Y1; destruct (Nat.eqb_spec c0 c);
                             [subst; injection Y1 as <-; rewrite N in Hx1; injection Hx1 as <-; cbn in Z1; congruence|]);
                        try (apply nth_app_l with (m := [new_cnode (dstate n) a0 (ddepth n) (dtime n)]) in Hx1);
                        rewrite Hx1 in Y1; injection Y1 as <-; congruence).
              assert (F : forall c o x d, nth_error (ch m) c = Some x -> lookup seqb o (ckids x) = None ->
                 cchild seqb (mkStore (dh m ++ [new_dnode C o0 (cdepth n + 1) (ctime n + 1)])
                   (upd (ch m) c0 (add_ckid (visit_c n) o0 (length (dh m))))
                   (if use_tt C then tt m ++ [(ctime n, o0, length (dh m))] else tt m)) c o d -> c = c0 /\ o = o0).
              { intros c1 o1 x1' d1 Q1 Q2 (y & Y & Z). cbn [ch] in Y. rewrite (nth_upd _ _ _ _ _ _ N) in Y.
                destruct (Nat.eqb_spec c0 c1) as [<-|ne].
                - injection Y as <-. rewrite N in Q1. injection Q1 as <-. cbn in Z. rewrite lookup_app, Q2 in Z.
                  cbn in Z. destruct (seqb o0 o1) eqn:E; [|discriminate]. apply seqb_ok in E. auto.
                - rewrite Q1 in Y. injection Y as <-. congruence. }
              destruct (F _ _ _ _ Hx1 Hl1 H1) as [-> ->]. destruct (F _ _ _ _ Hx2 Hl2 H2) as [-> ->]. auto.
  - intros c o d Q. destruct (CC c o d Q) as [Q0|(x & Hx & Hl & _ & [(U & Hlk & _)|(-> & _)])]; eauto.
    + rewrite U in Ttt. destruct Ttt as (_ & T2 & _). now destruct (T2 _ _ _ Hlk).
    + lia.
  - intros d a d' a' c H1 H2.
    assert (Fresh : forall d a, ~ dchild aeqb m d a (length (ch m))).
    { intros d1 a1 (n & Hn & Hl). destruct (Wd _ _ _ _ Hn Hl) as (x & Hx & _).
      assert (length (ch m) < length (ch m))%nat by (apply nth_error_Some; congruence). lia. }
    destruct (DC d a c H1) as [O1|(n1 & Hn1 & Hl1 & E1 & _)].
    + destruct (DC d' a' c H2) as [O2|(n2 & Hn2 & Hl2 & E2 & _)]; [eauto|]. subst c. exfalso. eapply Fresh; eauto.
    + destruct (DC d' a' c H2) as [O2|(n2 & Hn2 & Hl2 & E2 & _)]; [subst c; exfalso; eapply Fresh; eauto|].
      clear - M H1 H2 Hn1 Hl1 Hn2 Hl2 aeqb_ok.
      destruct M as [|d0 n N|d0 n a0 N NS Ia L0|c0 n N|c0 n o0 d0 N Io L0 U' T0|c0 n o0 N Io L0 T0].
      * destruct H1 as (y & Y & Z). congruence.
      * destruct H1 as (y & Y & Z). cbn [dh] in Y. rewrite (nth_upd _ _ _ _ _ _ N) in Y.
        destruct (Nat.eqb_spec d0 d) as [->|]; [|congruence]. injection Y as <-. cbn in Z. congruence.
      * assert (F : forall d a x c, nth_error (dh m) d = Some x -> lookup aeqb a (dkids x) = None ->
            dchild aeqb (mkStore (upd (dh m) d0 (add_dkid (visit_d n) a0 (length (ch m))))
              (ch m ++ [new_cnode (dstate n) a0 (ddepth n) (dtime n)]) (tt m)) d a c -> d = d0 /\ a = a0).
        { intros d1 a1 x1 c1 Q1 Q2 (y & Y & Z). cbn [dh] in Y. rewrite (nth_upd _ _ _ _ _ _ N) in Y.
          destruct (Nat.eqb_spec d0 d1) as [<-|ne].
          - injection Y as <-. rewrite N in Q1. injection Q1 as <-. cbn in Z. rewrite lookup_app, Q2 in Z.
            cbn in Z. destruct (aeqb a0 a1) eqn:E; [|discriminate]. apply aeqb_ok in E. auto.
          - rewrite Q1 in Y. injection Y as <-. congruence. }
        destruct (F _ _ _ _ Hn1 Hl1 H1) as [-> ->]. destruct (F _ _ _ _ Hn2 Hl2 H2) as [-> ->]. auto.
      * destruct H1 as (y & Y & Z). cbn [dh] in Y. congruence.
      * destruct H1 as (y & Y & Z). cbn [dh] in Y. congruence.
      * destruct H1 as (y & Y & Z). cbn [dh] in Y. rewrite (nth_app_l _ _ _ _ _ Hn1) in Y. congruence.
Qed.
End Proofs.
