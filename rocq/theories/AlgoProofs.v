(** Proofs about algorithms plugged into trials. *)
From Coq Require Import List ZArith Bool Reals Lia Lra.
From Verif Require Import Base BaseProofs NumOps HelperModel EngineModel EngineSpec EngineProofs EngineInv AlgoModel.
Import ListNotations.

Section Proofs.
Context {S A : Type}.
Variable seqb : S -> S -> bool.
Variable aeqb : A -> A -> bool.
Hypothesis seqb_ok : decides seqb.
Hypothesis aeqb_ok : decides aeqb.
Variable C : @econf S A.
Variable G : @algo S A.
Notation ast := (ast G).
Notation good := (good seqb aeqb C).

(** Nodes waiting for their backup exist. *)
Definition pair_ok (m : @store S A) (p : nat * nat) : Prop :=
  (fst p < length (dh m))%nat /\ (snd p < length (ch m))%nat.
Definition path_ok (m : @store S A) (x : @tstate A) : Prop :=
  match x with
  | TIdle | TBad => True
  | TSel _ _ nodes _ | TChance _ _ _ _ nodes _ | TBack nodes _ _ _ _ => Forall (pair_ok m) nodes
  | TBackD d nodes _ _ _ _ => (d < length (dh m))%nat /\ Forall (pair_ok m) nodes
  end.
Definition paths (s : @est S A) : Prop := forall t x, nth_error (ths s) t = Some x -> path_ok (mem s) x.

Lemma path_mono : forall m m' x, (length (dh m) <= length (dh m'))%nat -> (length (ch m) <= length (ch m'))%nat ->
  path_ok m x -> path_ok m' x.
Proof.
  intros m m' x L1 L2 H.
  assert (F : forall l, Forall (pair_ok m) l -> Forall (pair_ok m') l).
  { intros l. apply Forall_impl. intros p [P1 P2]. split; lia. }
  destruct x; cbn in *; auto. destruct H. split; [lia|auto].
Qed.

Lemma paths_step : forall s s', good s -> paths s -> gstep seqb aeqb C s s' -> paths s'.
Proof.
  intros s s' [I Sf] P Gs. pose proof (gstep_mstep _ _ _ _ _ Gs) as M.
  destruct (mstep_len seqb aeqb C _ _ M) as [L1 L2].
  assert (Old : forall t x, nth_error (ths s) t = Some x -> path_ok (mem s') x).
  { intros t0 x0 Q. eapply path_mono; eauto. }
  intros t' x' Hx'. destruct Gs; cbn [mem ths] in *;
    match goal with H : nth_error (ths s) ?t = Some _ |- _ =>
      rewrite (nth_upd _ _ _ _ _ _ H) in Hx'; pose proof (Old _ _ H) as Ht; pose proof (Sf _ _ H) as Hs;
      destruct (Nat.eqb_spec t t') as [->|]; [injection Hx' as <-|eapply Old; eauto] end;
    cbn [path_ok safe_thread mem dh ch] in *; auto.
  - constructor; auto. unfold pair_ok. cbn. rewrite ?upd_length. destruct Hs as (? & ? & ?). auto.
  - constructor; auto. unfold pair_ok. cbn. rewrite ?upd_length. destruct Hs as (? & ? & ?). auto.
  - constructor; auto. unfold pair_ok. cbn. rewrite ?upd_length, app_length. destruct Hs as (? & ? & ?). split; lia.
  - inversion Ht as [|? ? H1 H2]. split; auto. apply H1.
  - tauto.
Qed.

Record agood (s : ast) : Prop := mkAg {
  ag_good : good (base s);
  ag_paths : paths (base s);
  ag_d : length (xds s) = length (dh (mem (base s)));
  ag_c : length (xcs s) = length (ch (mem (base s)));
  ag_t : length (cxs s) = length (ths (base s))
}.

(** No other worker holds the lock that worker [t], being at [x], needs. *)
Definition alone (s : ast) (t : nat) (x : @tstate A) : Prop := forall u y cy k, u <> t ->
  nth_error (ths (base s)) u = Some y -> nth_error (cxs s) u = Some cy -> held G y cy = Some k -> wants x <> Some k.
Lemma not_blocked : forall s t x, blocked G s t x = false <-> alone s t x.
Proof.
  intros s t x. unfold blocked, alone. split.
  - intros H u y cy k Nu Hy Hc Hh Hw. apply not_true_iff_false in H. apply H. apply existsb_exists. exists u. split.
    + apply in_seq. split; [lia|]. apply nth_error_Some. congruence.
    + rewrite Hy, Hc, Hh, Hw, Bool.eqb_reflx, Nat.eqb_refl. destruct (Nat.eqb_spec u t); [contradiction|reflexivity].
  - intros H. destruct (existsb _ _) eqn:E; auto. apply existsb_exists in E. destruct E as (u & _ & E).
    destruct (nth_error (ths (base s)) u) as [y|] eqn:Hy; [|discriminate]. destruct (nth_error (cxs s) u) as [cy|] eqn:Hc; [|discriminate].
    destruct (held G y cy) as [[b1 i1]|] eqn:Hh; [|discriminate]. destruct (wants x) as [[b i]|] eqn:Hw; [|discriminate].
    apply andb_prop in E. destruct E as [E E3]. apply andb_prop in E. destruct E as [E1 E2]. cbn in *.
    apply eqb_prop in E1. apply Nat.eqb_eq in E2. subst. exfalso.
    assert (Nu : u <> t) by (intros ->; now rewrite Nat.eqb_refl in E3). exact (H u y cy (b, i) Nu Hy Hc Hh eq_refl).
Qed.

(** Why a run can fail. *)
Inductive reason (s : ast) : Prop :=
| r_select : forall t cur flag nodes rewards n x cx,
    nth_error (ths (base s)) t = Some (TSel cur flag nodes rewards) ->
    nth_error (dh (mem (base s))) cur = Some n -> nth_error (xds s) cur = Some x ->
    nth_error (cxs s) t = Some cx -> should_continue C n flag = true ->
    (forall a cx1 g1, select G (visit_d n) (vis_d G (is_leaf C n) x) (dview s n) cx (rg s) = Ok (a, cx1, g1) ->
       ~ In a (acts C (dstate n))) -> reason s
| r_sample : forall t cur a c flag nodes rewards n x cx,
    nth_error (ths (base s)) t = Some (TChance cur a c flag nodes rewards) ->
    nth_error (ch (mem (base s))) c = Some n -> nth_error (xcs s) c = Some x ->
    nth_error (cxs s) t = Some cx ->
    (forall o cx1 g1, sample G (visit_c n) x cx (rg s) = Ok (o, cx1, g1) ->
       ~ In o (succs C (cstate n) (cact n))) -> reason s
| r_backc : forall t d c nodes r before after tafter total n x cx,
    nth_error (ths (base s)) t = Some (TBack ((d, c) :: nodes) (r :: before) after tafter total) ->
    nth_error (ch (mem (base s))) c = Some n -> nth_error (xcs s) c = Some x ->
    nth_error (cxs s) t = Some cx ->
    (forall x1, back_c G n x (cview s n) cx (mkArgs (rev before) (rev (r :: after)) (tafter + r) total) <> Ok x1) ->
    peek_c G (cview s n) cx = None -> reason s
| r_backd : forall t d nodes before after tafter total n x cx,
    nth_error (ths (base s)) t = Some (TBackD d nodes before after tafter total) ->
    nth_error (dh (mem (base s))) d = Some n -> nth_error (xds s) d = Some x ->
    nth_error (cxs s) t = Some cx ->
    (forall x1, back_d G n x (dview s n) cx (mkArgs (rev before) (rev after) tafter total) <> Ok x1) ->
    peek_d G (dview s n) cx = None -> reason s.

(** Steps with explicit results. *)
Inductive atr (s : ast) : ast -> Prop :=
| x_start : forall t, nth_error (ths (base s)) t = Some TIdle ->
    atr s (mkA (mkEst (mem (base s)) (upd (ths (base s)) t (TSel 0 false [] [])) ((t, EStart) :: etrace (base s)))
               (xds s) (xcs s) (upd (cxs s) t (cx0 G)) (rg s) None)
| x_select_old : forall t cur flag nodes rewards n a c x cx cx1 g1,
    nth_error (ths (base s)) t = Some (TSel cur flag nodes rewards) ->
    nth_error (dh (mem (base s))) cur = Some n -> nth_error (xds s) cur = Some x ->
    nth_error (cxs s) t = Some cx -> should_continue C n flag = true ->
    select G (visit_d n) (vis_d G (is_leaf C n) x) (dview s n) cx (rg s) = Ok (a, cx1, g1) ->
    In a (acts C (dstate n)) -> lookup aeqb a (dkids n) = Some c ->
    alone s t (TSel cur flag nodes rewards) ->
    atr s (mkA (mkEst (mkStore (upd (dh (mem (base s))) cur (visit_d n)) (ch (mem (base s))) (tt (mem (base s))))
                   (upd (ths (base s)) t (TChance cur a c flag nodes rewards))
                   ((t, EVisitD cur a c) :: etrace (base s)))
               (upd (xds s) cur (vis_d G (is_leaf C n) x)) (xcs s) (upd (cxs s) t cx1) g1 None)
| x_select_new : forall t cur flag nodes rewards n a x cx cx1 g1,
    nth_error (ths (base s)) t = Some (TSel cur flag nodes rewards) ->
    nth_error (dh (mem (base s))) cur = Some n -> nth_error (xds s) cur = Some x ->
    nth_error (cxs s) t = Some cx -> should_continue C n flag = true ->
    select G (visit_d n) (vis_d G (is_leaf C n) x) (dview s n) cx (rg s) = Ok (a, cx1, g1) ->
    In a (acts C (dstate n)) -> lookup aeqb a (dkids n) = None ->
    alone s t (TSel cur flag nodes rewards) ->
    let c := length (ch (mem (base s))) in
    atr s (mkA (mkEst (mkStore (upd (dh (mem (base s))) cur (add_dkid (visit_d n) a c))
                            (ch (mem (base s)) ++ [new_cnode (dstate n) a (ddepth n) (dtime n)]) (tt (mem (base s))))
                   (upd (ths (base s)) t (TChance cur a c flag nodes rewards))
                   ((t, ENewC c) :: (t, EVisitD cur a c) :: etrace (base s)))
               (upd (xds s) cur (vis_d G (is_leaf C n) x))
               (xcs s ++ [new_xc G (new_cnode (dstate n) a (ddepth n) (dtime n))]) (upd (cxs s) t cx1) g1 None)
| x_sample_old : forall t cur a c flag nodes rewards n dn o d x cx cx1 g1,
    nth_error (ths (base s)) t = Some (TChance cur a c flag nodes rewards) ->
    nth_error (ch (mem (base s))) c = Some n -> nth_error (dh (mem (base s))) cur = Some dn ->
    nth_error (xcs s) c = Some x -> nth_error (cxs s) t = Some cx ->
    sample G (visit_c n) x cx (rg s) = Ok (o, cx1, g1) ->
    In o (succs C (cstate n) (cact n)) -> lookup seqb o (ckids n) = Some d ->
    alone s t (TChance cur a c flag nodes rewards) ->
    atr s (mkA (mkEst (mkStore (dh (mem (base s))) (upd (ch (mem (base s))) c (visit_c n)) (tt (mem (base s))))
                   (upd (ths (base s)) t (TSel d flag ((cur, c) :: nodes) (rwd C (dstate dn) a o :: rewards)))
                   ((t, EVisitC c o d false) :: etrace (base s)))
               (xds s) (xcs s) (upd (cxs s) t cx1) g1 None)
| x_sample_share : forall t cur a c flag nodes rewards n dn o d x cx cx1 g1,
    nth_error (ths (base s)) t = Some (TChance cur a c flag nodes rewards) ->
    nth_error (ch (mem (base s))) c = Some n -> nth_error (dh (mem (base s))) cur = Some dn ->
    nth_error (xcs s) c = Some x -> nth_error (cxs s) t = Some cx ->
    sample G (visit_c n) x cx (rg s) = Ok (o, cx1, g1) ->
    In o (succs C (cstate n) (cact n)) -> lookup seqb o (ckids n) = None ->
    use_tt C = true -> lookup (id_eqb seqb) (ctime n, o) (tt (mem (base s))) = Some d ->
    alone s t (TChance cur a c flag nodes rewards) ->
    atr s (mkA (mkEst (mkStore (dh (mem (base s))) (upd (ch (mem (base s))) c (add_ckid (visit_c n) o d)) (tt (mem (base s))))
                   (upd (ths (base s)) t (TSel d true ((cur, c) :: nodes) (rwd C (dstate dn) a o :: rewards)))
                   ((t, EVisitC c o d true) :: etrace (base s)))
               (xds s) (xcs s) (upd (cxs s) t cx1) g1 None)
| x_sample_new : forall t cur a c flag nodes rewards n dn o x cx cx1 g1,
    nth_error (ths (base s)) t = Some (TChance cur a c flag nodes rewards) ->
    nth_error (ch (mem (base s))) c = Some n -> nth_error (dh (mem (base s))) cur = Some dn ->
    nth_error (xcs s) c = Some x -> nth_error (cxs s) t = Some cx ->
    sample G (visit_c n) x cx (rg s) = Ok (o, cx1, g1) ->
    In o (succs C (cstate n) (cact n)) -> lookup seqb o (ckids n) = None ->
    (use_tt C = true -> lookup (id_eqb seqb) (ctime n, o) (tt (mem (base s))) = None) ->
    alone s t (TChance cur a c flag nodes rewards) ->
    let d := length (dh (mem (base s))) in
    atr s (mkA (mkEst (mkStore (dh (mem (base s)) ++ [new_dnode C o (cdepth n + 1) (ctime n + 1)])
                            (upd (ch (mem (base s))) c (add_ckid (visit_c n) o d))
                            (if use_tt C then tt (mem (base s)) ++ [((ctime n, o), d)] else tt (mem (base s))))
                   (upd (ths (base s)) t (TSel d true ((cur, c) :: nodes) (rwd C (dstate dn) a o :: rewards)))
                   ((t, ENewD d) :: (t, EVisitC c o d true) :: etrace (base s)))
               (xds s ++ [new_xd G (new_dnode C o (cdepth n + 1) (ctime n + 1))]) (xcs s) (upd (cxs s) t cx1) g1 None)
| x_final : forall t cur flag nodes rewards n x cx,
    nth_error (ths (base s)) t = Some (TSel cur flag nodes rewards) ->
    nth_error (dh (mem (base s))) cur = Some n -> nth_error (xds s) cur = Some x ->
    nth_error (cxs s) t = Some cx -> should_continue C n flag = false ->
    alone s t (TSel cur flag nodes rewards) ->
    atr s (mkA (mkEst (mkStore (upd (dh (mem (base s))) cur (visit_d n)) (ch (mem (base s))) (tt (mem (base s))))
                   (upd (ths (base s)) t (TBack nodes rewards [dheur n] (dheur n) (sumR (rev (dheur n :: rewards)))))
                   ((t, EFinal cur (dheur n)) :: etrace (base s)))
               (upd (xds s) cur (vis_d G (is_leaf C n) x)) (xcs s) (upd (cxs s) t (fin G cx)) (rg s) None)
| x_backc : forall t d c nodes r before after tafter total n x cx x1,
    nth_error (ths (base s)) t = Some (TBack ((d, c) :: nodes) (r :: before) after tafter total) ->
    nth_error (ch (mem (base s))) c = Some n -> nth_error (xcs s) c = Some x ->
    nth_error (cxs s) t = Some cx ->
    back_c G n x (cview s n) cx (mkArgs (rev before) (rev (r :: after)) (tafter + r) total) = Ok x1 ->
    peek_c G (cview s n) cx = None ->
    alone s t (TBack ((d, c) :: nodes) (r :: before) after tafter total) ->
    atr s (mkA (mkEst (mem (base s))
                   (upd (ths (base s)) t (TBackD d nodes before (r :: after) (tafter + r) total))
                   ((t, EBackC c (rev before) (rev (r :: after)) (tafter + r) total) :: etrace (base s)))
               (xds s) (upd (xcs s) c x1) (upd (cxs s) t (fin G cx)) (rg s) None)
| x_backd : forall t d nodes before after tafter total n x cx x1,
    nth_error (ths (base s)) t = Some (TBackD d nodes before after tafter total) ->
    nth_error (dh (mem (base s))) d = Some n -> nth_error (xds s) d = Some x ->
    nth_error (cxs s) t = Some cx ->
    back_d G n x (dview s n) cx (mkArgs (rev before) (rev after) tafter total) = Ok x1 ->
    peek_d G (dview s n) cx = None ->
    alone s t (TBackD d nodes before after tafter total) ->
    atr s (mkA (mkEst (mem (base s)) (upd (ths (base s)) t (TBack nodes before after tafter total))
                   ((t, EBackD d (rev before) (rev after) tafter total) :: etrace (base s)))
               (upd (xds s) d x1) (xcs s) (upd (cxs s) t (fin G cx)) (rg s) None)
| x_peekc : forall t d c nodes r before after tafter total n x cx cx1,
    nth_error (ths (base s)) t = Some (TBack ((d, c) :: nodes) (r :: before) after tafter total) ->
    nth_error (ch (mem (base s))) c = Some n -> nth_error (xcs s) c = Some x ->
    nth_error (cxs s) t = Some cx ->
    peek_c G (cview s n) cx = Some cx1 ->
    alone s t (TBack ((d, c) :: nodes) (r :: before) after tafter total) ->
    atr s (mkA (base s) (xds s) (xcs s) (upd (cxs s) t cx1) (rg s) None)
| x_peekd : forall t d nodes before after tafter total n x cx cx1,
    nth_error (ths (base s)) t = Some (TBackD d nodes before after tafter total) ->
    nth_error (dh (mem (base s))) d = Some n -> nth_error (xds s) d = Some x ->
    nth_error (cxs s) t = Some cx ->
    peek_d G (dview s n) cx = Some cx1 ->
    alone s t (TBackD d nodes before after tafter total) ->
    atr s (mkA (base s) (xds s) (xcs s) (upd (cxs s) t cx1) (rg s) None)
| x_done : forall t before after tafter total cx,
    nth_error (ths (base s)) t = Some (TBack [] before after tafter total) ->
    nth_error (cxs s) t = Some cx ->
    atr s (mkA (mkEst (mem (base s)) (upd (ths (base s)) t TIdle) ((t, EDone) :: etrace (base s)))
               (xds s) (xcs s) (upd (cxs s) t cx) (rg s) None)
| x_fail : forall f, reason s -> atr s (adie G s f).

Lemma grow_same : forall T U (f : U -> T) (xs : list T) (l : list U), length xs = length l ->
  xs ++ map f (skipn (length xs) l) = xs.
Proof. intros T U f xs l H. rewrite H, skipn_all. apply app_nil_r. Qed.
Lemma grow_one : forall T U (f : U -> T) (xs : list T) (l : list U) y, length xs = length l ->
  xs ++ map f (skipn (length xs) (l ++ [y])) = xs ++ [f y].
Proof. intros T U f xs l y H. rewrite H, skipn_app, skipn_all, Nat.sub_diag. reflexivity. Qed.

(** Every live step of an algorithm is a step of the engine. *)
Lemma atr_gstep : forall s s', atr s s' -> base s' = base s \/ gstep seqb aeqb C (base s) (base s').
Proof.
  intros s s' T. destruct T; cbn [base adie]; try (left; reflexivity); right.
  - now apply g_start.
  - eapply g_select_old; eauto.
  - eapply g_select_new; eauto.
  - eapply g_sample_old; eauto.
  - eapply g_sample_share; eauto.
  - eapply g_sample_new; eauto.
  - eapply g_final; eauto.
  - eapply g_backc; eauto.
  - eapply g_backd; eauto.
  - eapply g_done; eauto.
Qed.

Lemma agood_atr : forall s s', agood s -> atr s s' -> agood s'.
Proof.
  intros s s' [Gd Ps Ld Lc Lt] T.
  assert (G' : good (base s')).
  { destruct (atr_gstep _ _ T) as [->|Q]; auto. exact (good_step seqb aeqb seqb_ok aeqb_ok C _ _ Gd Q). }
  assert (P' : paths (base s')).
  { destruct (atr_gstep _ _ T) as [->|Q]; auto. exact (paths_step _ _ Gd Ps Q). }
  constructor; auto; clear G' P'; destruct T; cbn [base xds xcs cxs mem dh ch ths adie];
    rewrite ?upd_length, ?app_length, ?upd_length; cbn; auto; lia.
Qed.

Lemma dh_some : forall s d, agood s -> (d < length (dh (mem (base s))))%nat ->
  exists n x, nth_error (dh (mem (base s))) d = Some n /\ nth_error (xds s) d = Some x.
Proof.
  intros s d I L. destruct (nth_error (dh (mem (base s))) d) as [n|] eqn:E; [|apply nth_error_None in E; lia].
  destruct (nth_error (xds s) d) as [x|] eqn:E'; [eauto|]. apply nth_error_None in E'.
  rewrite (ag_d _ I) in E'. lia.
Qed.
Lemma ch_some : forall s d, agood s -> (d < length (ch (mem (base s))))%nat ->
  exists n x, nth_error (ch (mem (base s))) d = Some n /\ nth_error (xcs s) d = Some x.
Proof.
  intros s d I L. destruct (nth_error (ch (mem (base s))) d) as [n|] eqn:E; [|apply nth_error_None in E; lia].
  destruct (nth_error (xcs s) d) as [x|] eqn:E'; [eauto|]. apply nth_error_None in E'.
  rewrite (ag_c _ I) in E'. lia.
Qed.

Lemma agood_init : forall n g, agood (ainit C G n g).
Proof.
  intros n g. constructor; cbn.
  - apply good_init; auto.
  - intros t x H. cbn in H. apply nth_error_In, repeat_spec in H. now subst.
  - reflexivity.
  - reflexivity.
  - now rewrite !repeat_length.
Qed.

(** The transitions of [astep]. *)
Lemma astep_atr : forall l s s', agood s -> astep seqb aeqb C G l s = Some s' -> atr s s'.
Proof.
  intros l s s' I H. pose proof I as [Gd Ps Ld Lc Lt]. unfold astep in H.
  destruct (afail s) eqn:Ef; [discriminate|].
  assert (Gs : forall l b, estep seqb aeqb C l (base s) = Some b -> gstep seqb aeqb C (base s) b).
  { intros l0 b Q. eapply estep_gstep; eauto. apply Gd. }
  destruct l as [t|t].
  - destruct (estep seqb aeqb C (LStart t) (base s)) as [b|] eqn:E; [|discriminate]. injection H as <-.
    cbn in E. destruct (nth_error (ths (base s)) t) as [th|] eqn:Et; [|discriminate].
    destruct th; try discriminate. unfold out in E. injection E as <-. unfold aset, grow_d, grow_c. cbn [mem].
    rewrite !grow_same, Ef by auto. now apply x_start.
  - destruct (nth_error (ths (base s)) t) as [th|] eqn:Et; [|discriminate].
    destruct (nth_error (cxs s) t) as [cx|] eqn:Ecx; [|discriminate].
    pose proof (proj2 Gd _ _ Et) as Sf. pose proof (Ps _ _ Et) as Pk.
    destruct (blocked G s t th) eqn:Ebl; [discriminate|]. apply not_blocked in Ebl.
    destruct th as [|cur flag nodes rewards|cur a c flag nodes rewards|nodes before after tafter total|
                    d nodes before after tafter total|]; try discriminate; cbn [safe_thread path_ok] in Sf, Pk.
    + destruct Sf as [L _]. destruct (dh_some s cur I L) as (n & x & Hn & Hx). rewrite Hn, Hx in H.
      destruct (should_continue C n flag) eqn:Ec.
      * destruct (select G (visit_d n) (vis_d G (is_leaf C n) x) (dview s n) cx (rg s)) as [[[a cx1] g1]| |] eqn:Es; cbn [done] in H;
          [|injection H as <-; apply x_fail; eapply r_select; eauto; rewrite Es; intros; discriminate..].
        destruct (estep seqb aeqb C (LSelect t a) (base s)) as [b|] eqn:E.
        -- injection H as <-. cbn [estep] in E. rewrite Et, Hn, Ec in E. cbn [andb] in E.
           destruct (existsb (aeqb a) (acts C (dstate n))) eqn:Ea; [|discriminate].
           apply existsb_in in Ea; auto.
           destruct (lookup aeqb a (dkids n)) as [c|] eqn:El.
           ++ unfold create_child_d in E. cbn [dkids visit_d] in E. rewrite El in E. cbn [dh] in E.
              rewrite (nth_upd_eq _ _ _ _ _ Hn) in E. cbn [dkids visit_d] in E. rewrite El in E.
              unfold out in E. injection E as <-. unfold aset, grow_d, grow_c. cbn [mem dh ch].
              rewrite !grow_same, Ef by (rewrite ?upd_length; auto).
              eapply x_select_old; eauto.
           ++ unfold create_child_d in E. cbn [dkids visit_d] in E. rewrite El in E. cbn [dh] in E.
              rewrite (nth_upd_eq _ _ _ _ _ Hn) in E. cbn [dkids visit_d add_dkid] in E.
              rewrite lookup_snoc_eq in E by auto.
              unfold out in E. injection E as <-. unfold aset, grow_d, grow_c. cbn [mem dh ch].
              rewrite grow_same by (rewrite ?upd_length; auto). rewrite grow_one by auto. rewrite Ef.
              eapply x_select_new; eauto.
        -- injection H as <-. apply x_fail. eapply r_select; eauto. rewrite Es. intros a' cx' g' [= <- <- <-] Ia.
           cbn [estep] in E. rewrite Et, Hn, Ec in E. cbn [andb] in E.
           assert (Ea : existsb (aeqb a) (acts C (dstate n)) = true).
           { apply existsb_exists. exists a. split; auto. now apply aeqb_ok. }
           rewrite Ea in E. destruct (nth_error _ cur); [|discriminate]. destruct (lookup aeqb a _); discriminate.
      * destruct (estep seqb aeqb C (LRun t) (base s)) as [b|] eqn:E; [|discriminate]. injection H as <-.
        cbn [estep] in E. rewrite Et, Hn, Ec in E. unfold out in E. injection E as <-.
        unfold aset, grow_d, grow_c. cbn [mem dh ch]. rewrite !grow_same, Ef by (rewrite ?upd_length; auto).
        eapply x_final; eauto.
    + destruct Sf as (L & L' & _). destruct (ch_some s c I L') as (n & x & Hn & Hx). rewrite Hn, Hx in H.
      destruct (dh_some s cur I L) as (dn & dx & Hdn & Hdx).
      destruct (sample G (visit_c n) x cx (rg s)) as [[[o cx1] g1]| |] eqn:Es; cbn [done] in H;
          [|injection H as <-; apply x_fail; eapply r_sample; eauto; rewrite Es; intros; discriminate..].
      destruct (estep seqb aeqb C (LSample t o) (base s)) as [b|] eqn:E.
      * injection H as <-. cbn [estep] in E. rewrite Et, Hn, Hdn in E.
        destruct (existsb (seqb o) (succs C (cstate n) (cact n))) eqn:Eo; [|discriminate].
        apply existsb_in in Eo; auto. unfold create_child_c in E. cbn [ckids visit_c] in E.
        destruct (lookup seqb o (ckids n)) as [d|] eqn:El.
        -- cbn [ch] in E. rewrite (nth_upd_eq _ _ _ _ _ Hn) in E. cbn [ckids visit_c] in E. rewrite El in E.
           rewrite Nat.ltb_irrefl in E. unfold out in E. injection E as <-. unfold aset, grow_d, grow_c. cbn [mem dh ch].
           rewrite !grow_same, Ef by (rewrite ?upd_length; auto). eapply x_sample_old; eauto.
        -- assert (Lt1 : (length (ckids n) <? length (ckids n ++ [(o, 0%nat)]))%nat = true).
           { apply Nat.ltb_lt. rewrite app_length. cbn. lia. }
           assert (Lt2 : forall d, (length (ckids n) <? length (ckids n ++ [(o, d)]))%nat = true).
           { intros d. apply Nat.ltb_lt. rewrite app_length. cbn. lia. }
           destruct (use_tt C) eqn:Eu.
           ++ cbn [ctime visit_c] in E.
              destruct (lookup (id_eqb seqb) (ctime n, o) (tt (mem (base s)))) as [d|] eqn:Etb.
              ** cbn [ch] in E. rewrite (nth_upd_eq _ _ _ _ _ Hn) in E. cbn [ckids visit_c add_ckid] in E.
                 rewrite lookup_snoc_eq in E by auto. rewrite Lt2 in E.
                 unfold out in E. injection E as <-. unfold aset, grow_d, grow_c. cbn [mem dh ch].
                 rewrite !grow_same, Ef by (rewrite ?upd_length; auto). eapply x_sample_share; eauto.
              ** cbn [ch] in E. rewrite (nth_upd_eq _ _ _ _ _ Hn) in E. cbn [ckids visit_c add_ckid] in E.
                 rewrite lookup_snoc_eq in E by auto. rewrite Lt2 in E.
                 unfold out in E. injection E as <-. unfold aset, grow_d, grow_c. cbn [mem dh ch].
                 rewrite grow_one by auto. rewrite grow_same, Ef by (rewrite ?upd_length; auto).
                 pose proof (x_sample_new s t cur a c flag nodes rewards n dn o x cx cx1 g1) as X.
                 rewrite Eu in X. eapply X; eauto.
           ++ cbn [ch] in E. rewrite (nth_upd_eq _ _ _ _ _ Hn) in E. cbn [ckids visit_c add_ckid] in E.
              rewrite lookup_snoc_eq in E by auto. rewrite Lt2 in E.
              unfold out in E. injection E as <-. unfold aset, grow_d, grow_c. cbn [mem dh ch].
              rewrite grow_one by auto. rewrite grow_same, Ef by (rewrite ?upd_length; auto).
              pose proof (x_sample_new s t cur a c flag nodes rewards n dn o x cx cx1 g1) as X.
              rewrite Eu in X. eapply X; eauto. discriminate.
      * injection H as <-. apply x_fail. eapply r_sample; eauto. rewrite Es. intros o' cx' g' [= <- <- <-] Ia.
        cbn [estep] in E. rewrite Et, Hn, Hdn in E.
        assert (Ea : existsb (seqb o) (succs C (cstate n) (cact n)) = true).
        { apply existsb_exists. exists o. split; auto. now apply seqb_ok. }
        rewrite Ea in E. destruct (create_child_c seqb C (mem (base s)) c (visit_c n) o).
        destruct (nth_error _ c); [|discriminate]. destruct (lookup seqb o _); discriminate.
    + destruct (estep seqb aeqb C (LRun t) (base s)) as [b|] eqn:E; [|discriminate].
      cbn [estep] in E. rewrite Et in E. destruct nodes as [|[d c] nodes].
      * injection H as <-. unfold out in E. injection E as <-.
        unfold aset, grow_d, grow_c. cbn [mem dh ch]. rewrite !grow_same, Ef by (rewrite ?upd_length; auto).
        eapply x_done; eauto.
      * destruct before as [|r before]; [cbn in Sf; lia|]. unfold out in E. injection E as <-.
        pose proof (Forall_inv Pk) as [P1 P2]. cbn in P1, P2.
        destruct (ch_some s c I P2) as (n & x & Hn & Hx). rewrite Hn, Hx in H.
        destruct (peek_c G (cview s n) cx) as [cx1|] eqn:Ep.
        { injection H as <-. unfold aset, grow_d, grow_c. rewrite !grow_same, Ef by auto. eapply x_peekc; eauto. }
        destruct (back_c G n x (cview s n) cx (mkArgs (rev before) (rev (r :: after)) (tafter + r) total)) as [x1| |] eqn:Eb;
          cbn [done] in H; injection H as <-;
          [|apply x_fail; eapply r_backc; eauto; rewrite Eb; discriminate..].
        unfold aset, grow_d, grow_c. cbn [mem dh ch]. rewrite !grow_same, Ef by (rewrite ?upd_length; auto).
        eapply x_backc; eauto.
    + destruct (estep seqb aeqb C (LRun t) (base s)) as [b|] eqn:E; [|discriminate].
      cbn [estep] in E. rewrite Et in E. unfold out in E. injection E as <-. destruct Pk as [P1 P2].
      destruct (dh_some s d I P1) as (n & x & Hn & Hx). rewrite Hn, Hx in H.
      destruct (peek_d G (dview s n) cx) as [cx1|] eqn:Ep.
      { injection H as <-. unfold aset, grow_d, grow_c. rewrite !grow_same, Ef by auto. eapply x_peekd; eauto. }
      destruct (back_d G n x (dview s n) cx (mkArgs (rev before) (rev after) tafter total)) as [x1| |] eqn:Eb;
          cbn [done] in H; injection H as <-;
          [|apply x_fail; eapply r_backd; eauto; rewrite Eb; discriminate..].
      unfold aset, grow_d, grow_c. cbn [mem dh ch]. rewrite !grow_same, Ef by (rewrite ?upd_length; auto).
      eapply x_backd; eauto.
Qed.

Lemma arun_inv : forall (P : ast -> Prop) (s0 : ast), agood s0 -> P s0 ->
  (forall s s', agood s -> P s -> atr s s' -> P s') ->
  forall ls s, arun seqb aeqb C G ls s0 = Some s -> P s /\ agood s.
Proof.
  intros P s0 G0 P0 St ls. revert s0 G0 P0. induction ls as [|l ls IH]; intros s0 G0 P0 s H; cbn in H.
  - injection H as <-. auto.
  - destruct (astep seqb aeqb C G l s0) as [s1|] eqn:E; [|discriminate].
    assert (T : atr s0 s1) by (eapply astep_atr; eauto).
    eapply IH; [eapply agood_atr; eauto|eapply St; eauto|exact H].
Qed.
Lemma areach_inv : forall (P : ast -> Prop) n g, P (ainit C G n g) ->
  (forall s s', agood s -> P s -> atr s s' -> P s') -> forall s, areach seqb aeqb C G n g s -> P s.
Proof. intros P n g P0 St s [ls H]. eapply (arun_inv P (ainit C G n g)); eauto. apply agood_init. Qed.
Lemma areach_good : forall n g s, areach seqb aeqb C G n g s -> agood s.
Proof. intros n g s. apply areach_inv; [apply agood_init|]. intros. eapply agood_atr; eauto. Qed.

(** Refinement: an algorithm only does what the engine can do. *)
Lemma astep_estep : forall l s s', astep seqb aeqb C G l s = Some s' ->
  base s' = base s \/ exists l', estep seqb aeqb C l' (base s) = Some (base s').
Proof.
  intros l s s' H. unfold astep in H. destruct (afail s); [discriminate|]. destruct l as [t|t].
  - destruct (estep seqb aeqb C (LStart t) (base s)) eqn:E; [|discriminate]. injection H as <-. right. eauto.
  - destruct (nth_error (ths (base s)) t) as [th|]; [|discriminate].
    destruct (nth_error (cxs s) t) as [cx|]; [|discriminate]. destruct (blocked G s t th); [discriminate|]. destruct th; try discriminate.
    + destruct (nth_error (dh _) cur) as [n|]; [|injection H as <-; auto].
      destruct (nth_error (xds s) cur) as [x|]; [|injection H as <-; auto].
      destruct (should_continue C n flag).
      * destruct (select _ _ _ _ _ _) as [[[a cx1] g1]| |]; cbn [done] in H; [|injection H as <-; auto..].
        destruct (estep seqb aeqb C (LSelect t a) (base s)) eqn:E; injection H as <-; auto. right. eauto.
      * destruct (estep seqb aeqb C (LRun t) (base s)) eqn:E; [|discriminate]. injection H as <-. right. eauto.
    + destruct (nth_error (ch _) c) as [n|]; [|injection H as <-; auto].
      destruct (nth_error (xcs s) c) as [x|]; [|injection H as <-; auto].
      destruct (sample _ _ _ _ _) as [[[o cx1] g1]| |]; cbn [done] in H; [|injection H as <-; auto..].
      destruct (estep seqb aeqb C (LSample t o) (base s)) eqn:E; injection H as <-; auto. right. eauto.
    + destruct (estep seqb aeqb C (LRun t) (base s)) eqn:E; [|discriminate].
      destruct nodes as [|[d c] nodes]; [injection H as <-; right; eauto|].
      destruct before; [injection H as <-; right; eauto|].
      destruct (nth_error (ch _) c) as [n|]; [|injection H as <-; auto].
      destruct (nth_error (xcs s) c) as [x|]; [|injection H as <-; auto].
      destruct (peek_c _ _ _); [injection H as <-; auto|].
      destruct (back_c _ _ _ _ _ _); cbn [done] in H; injection H as <-; auto. right. eauto.
    + destruct (estep seqb aeqb C (LRun t) (base s)) eqn:E; [|discriminate].
      destruct (nth_error (dh _) d) as [n|]; [|injection H as <-; auto].
      destruct (nth_error (xds s) d) as [x|]; [|injection H as <-; auto].
      destruct (peek_d _ _ _); [injection H as <-; auto|].
      destruct (back_d _ _ _ _ _ _); cbn [done] in H; injection H as <-; auto. right. eauto.
Qed.

Lemma erun_snoc : forall ls l s s1 s2, erun seqb aeqb C ls s = Some s1 -> estep seqb aeqb C l s1 = Some s2 ->
  erun seqb aeqb C (ls ++ [l]) s = Some s2.
Proof.
  induction ls as [|k ls IH]; intros l s s1 s2 H E; cbn in *.
  - injection H as <-. now rewrite E.
  - destruct (estep seqb aeqb C k s); [|discriminate]. eapply IH; eauto.
Qed.

Lemma arun_ereach : forall ls n s0 s, ereach seqb aeqb C n (base s0) -> arun seqb aeqb C G ls s0 = Some s ->
  ereach seqb aeqb C n (base s).
Proof.
  induction ls as [|l ls IH]; intros n s0 s R H; cbn in H.
  - injection H as <-. auto.
  - destruct (astep seqb aeqb C G l s0) as [s1|] eqn:E; [|discriminate]. apply (IH n s1 s); auto.
    destruct (astep_estep _ _ _ E) as [->|[l' El]]; auto. destruct R as [ks Hk]. exists (ks ++ [l']).
    eapply erun_snoc; eauto.
Qed.
Lemma areach_ereach : forall n g s, areach seqb aeqb C G n g s -> ereach seqb aeqb C n (base s).
Proof. intros n g s [ls H]. eapply arun_ereach; [|exact H]. exists []. reflexivity. Qed.

(** Induction over reachable states. *)
Lemma areach_ind' : forall n g (P : ast -> Prop), P (ainit C G n g) ->
  (forall s s', areach seqb aeqb C G n g s -> agood s -> afail s = None -> P s -> atr s s' -> P s') ->
  forall s, areach seqb aeqb C G n g s -> P s.
Proof.
  intros n g P P0 H s [ls R]. revert s R. induction ls as [|l ls IH] using rev_ind; intros s R.
  - injection R as <-. exact P0.
  - assert (Q : exists s1, arun seqb aeqb C G ls (ainit C G n g) = Some s1 /\ astep seqb aeqb C G l s1 = Some s).
    { clear IH H P0. revert R. generalize (ainit C G n g). induction ls as [|k ls IH]; intros s0 R; cbn in *.
      - destruct (astep seqb aeqb C G l s0) eqn:E; [|discriminate]. injection R as <-. eauto.
      - destruct (astep seqb aeqb C G k s0); [|discriminate]. auto. }
    destruct Q as (s1 & R1 & E). assert (A1 : areach seqb aeqb C G n g s1) by (exists ls; auto).
    pose proof (areach_good _ _ _ A1) as I1. pose proof (IH _ R1) as F1.
    apply (H s1 s); auto; [|now apply (astep_atr l)].
    unfold astep in E. destruct (afail s1); [discriminate|reflexivity].
Qed.

(** A run fails only for a [reason]; if no reachable state has one, no run fails. *)
Lemma never_fails : forall n g, (forall s, areach seqb aeqb C G n g s -> afail s = None -> ~ reason s) ->
  forall s, areach seqb aeqb C G n g s -> afail s = None.
Proof.
  intros n g H. apply areach_ind'; [reflexivity|].
  intros s s' R I F _ T. specialize (H s R F). destruct T; try reflexivity. contradiction.
Qed.

(** Without failure a trial in progress whose worker waits for no lock can take its next step. *)
Lemma algo_progress : forall s t x, agood s -> afail s = None -> nth_error (ths (base s)) t = Some x -> x <> TIdle ->
  alone s t x -> exists s', astep seqb aeqb C G (ARun t) s = Some s'.
Proof.
  intros s t x I F Et Ni Al. apply not_blocked in Al. pose proof I as [Gd Ps Ld Lc Lt]. unfold astep. rewrite F, Et.
  destruct (nth_error (cxs s) t) as [cx|] eqn:Ecx.
  2:{ apply nth_error_None in Ecx. assert (t < length (ths (base s)))%nat by (apply nth_error_Some; congruence). lia. }
  rewrite Al. pose proof (proj2 Gd _ _ Et) as Sf. destruct x; try contradiction.
  - cbn in Sf. destruct Sf as [L _]. destruct (dh_some s cur I L) as (n & y & Hn & Hy). rewrite Hn, Hy.
    destruct (should_continue C n flag) eqn:Ec.
    + destruct (select _ _ _ _ _ _) as [[[a cx1] g1]| |]; cbn [done]; eauto.
      destruct (estep _ _ _ _ _); eauto.
    + cbn [estep]. rewrite Et, Hn, Ec. unfold out. eauto.
  - cbn in Sf. destruct Sf as (L & L' & _). destruct (ch_some s c I L') as (n & y & Hn & Hy). rewrite Hn, Hy.
    destruct (sample _ _ _ _ _) as [[[o cx1] g1]| |]; cbn [done]; eauto. destruct (estep _ _ _ _ _); eauto.
  - cbn [estep]. rewrite Et. destruct nodes as [|[d c] nodes]; unfold out; eauto. destruct before as [|r before]; [cbn in Sf; lia|].
    destruct (nth_error (ch _) c); eauto. destruct (nth_error (xcs s) c); eauto.
    destruct (peek_c _ _ _); eauto. destruct (back_c _ _ _ _ _ _); cbn [done]; eauto.
  - cbn [estep]. rewrite Et. unfold out. destruct (nth_error (dh _) d); eauto. destruct (nth_error (xds s) d); eauto.
    destruct (peek_d _ _ _); eauto. destruct (back_d _ _ _ _ _ _); cbn [done]; eauto.
Qed.

(** Mutual exclusion: two workers never hold the lock of the same node. *)
Definition excl (s : ast) : Prop := forall t u x y cx cy k, t <> u ->
  nth_error (ths (base s)) t = Some x -> nth_error (ths (base s)) u = Some y ->
  nth_error (cxs s) t = Some cx -> nth_error (cxs s) u = Some cy -> held G x cx = Some k -> held G y cy <> Some k.
Lemma upd_self : forall T (l : list T) i x, nth_error l i = Some x -> upd l i x = l.
Proof. induction l as [|y l IH]; intros [|i] x H; cbn in *; try discriminate; [congruence|]. f_equal. auto. Qed.
Lemma fin_out : forall cx, inside G (fin G cx) = false.
Proof. intros cx. unfold inside. destruct (fin_sees G cx) as [-> ->]. reflexivity. Qed.
Lemma held_wants : forall x cx k, held G x cx = Some k -> wants x = Some k.
Proof. intros x cx k H. destruct x; cbn [held] in H; try discriminate; destruct (inside G cx); auto; discriminate. Qed.
Lemma held_none : forall x cx, inside G cx = false -> held G x cx = None.
Proof. intros x cx H. destruct x; cbn [held]; try reflexivity; now rewrite H. Qed.
Lemma excl_step : forall s s', excl s -> atr s s' -> excl s'.
Proof.
  intros s s' E T.
  assert (K : forall (b : @est S A) t x0 cx0 x1 cx1, ths b = upd (ths (base s)) t x1 -> nth_error (ths (base s)) t = Some x0 -> nth_error (cxs s) t = Some cx0 ->
    (held G x1 cx1 = None \/ (wants x1 = wants x0 /\ alone s t x0)) ->
    forall t' u x y cx cy k, t' <> u -> nth_error (ths b) t' = Some x -> nth_error (ths b) u = Some y ->
    nth_error (upd (cxs s) t cx1) t' = Some cx -> nth_error (upd (cxs s) t cx1) u = Some cy -> held G x cx = Some k -> held G y cy <> Some k).
  { intros b t x0 cx0 x1 cx1 Eb Ht Hc Hh t' u x y cx cy k Ntu Hx Hy Hcx Hcy Hk Hk'. rewrite Eb in Hx, Hy.
    rewrite (nth_upd _ _ _ _ _ _ Ht) in Hx. rewrite (nth_upd _ _ _ _ _ _ Ht) in Hy.
    rewrite (nth_upd _ _ _ _ _ _ Hc) in Hcx. rewrite (nth_upd _ _ _ _ _ _ Hc) in Hcy.
    destruct (Nat.eqb_spec t t') as [->|N1]; destruct (Nat.eqb_spec t' u) as [->|N2]; try contradiction.
    - injection Hx as <-. injection Hcx as <-. destruct Hh as [Hh|[Hw Al]]; [congruence|].
      apply held_wants in Hk. rewrite Hw in Hk. exact (Al u y cy k (not_eq_sym Ntu) Hy Hcy Hk' Hk).
    - destruct (Nat.eqb_spec t u) as [->|N3].
      + injection Hy as <-. injection Hcy as <-. destruct Hh as [Hh|[Hw Al]]; [congruence|].
        apply held_wants in Hk'. rewrite Hw in Hk'. exact (Al t' x cx k Ntu Hx Hcx Hk Hk').
      + exact (E t' u x y cx cy k Ntu Hx Hy Hcx Hcy Hk Hk'). }
  destruct T; intros t' u' x' y' cx' cy' k' Ntu Hx Hy Hcx Hcy Hk; cbn [base cxs adie] in *;
    try (match goal with H : nth_error (ths (base s)) ?t = Some ?x0, Hc : nth_error (cxs s) ?t = Some ?c0 |- _ =>
      refine (K _ t x0 c0 _ _ _ H Hc (or_introl _) t' u' x' y' cx' cy' k' Ntu Hx Hy Hcx Hcy Hk);
        [cbn [ths]; reflexivity|first [reflexivity|apply held_none, fin_out]] end; fail).
  { destruct (nth_error (cxs s) t) as [cz|] eqn:Ez.
      - exact (K (mkEst (mem (base s)) (upd (ths (base s)) t (TSel 0 false [] [])) []) t TIdle cz (TSel 0 false [] []) (cx0 G) eq_refl H Ez (or_introl eq_refl) t' u' x' y' cx' cy' k' Ntu Hx Hy Hcx Hcy Hk).
      - assert (Qn : upd (cxs s) t (cx0 G) = cxs s).
        { clear - Ez. revert t Ez. induction (cxs s) as [|c0 l IH]; intros [|t] Ez; cbn in *; auto; try discriminate. f_equal. auto. }
        rewrite Qn in *. cbn [ths] in Hx, Hy. rewrite (nth_upd _ _ _ _ _ _ H) in Hx. rewrite (nth_upd _ _ _ _ _ _ H) in Hy.
        destruct (Nat.eqb_spec t t') as [->|]; [congruence|]. destruct (Nat.eqb_spec t u') as [->|]; [congruence|].
        exact (E t' u' x' y' cx' cy' k' Ntu Hx Hy Hcx Hcy Hk). }
  - refine (K (base s) t _ cx _ cx1 _ H H2 (or_intror (conj eq_refl H4)) t' u' x' y' cx' cy' k' Ntu Hx Hy Hcx Hcy Hk). symmetry. now apply upd_self.
  - refine (K (base s) t _ cx _ cx1 _ H H2 (or_intror (conj eq_refl H4)) t' u' x' y' cx' cy' k' Ntu Hx Hy Hcx Hcy Hk). symmetry. now apply upd_self.
  - exact (E t' u' x' y' cx' cy' k' Ntu Hx Hy Hcx Hcy Hk).
Qed.
Lemma excl_reach : forall n g s, areach seqb aeqb C G n g s -> excl s.
Proof.
  intros n g. apply areach_inv; [|intros s s' _; apply excl_step]. intros t u x y cx cy k _ Hx _ _ _ Hk.
  cbn in Hx. apply nth_error_In, repeat_spec in Hx. subst x. discriminate.
Qed.
(** Locks are taken only by looking. *)
Lemma hold_step : forall s s', atr s s' -> base s' <> base s -> forall u y cy k, nth_error (ths (base s')) u = Some y ->
  nth_error (cxs s') u = Some cy -> held G y cy = Some k -> nth_error (ths (base s)) u = Some y /\ nth_error (cxs s) u = Some cy.
Proof.
  intros s s' T Nb u y cy k Hy Hcy Hh.
  assert (K : forall (b : @est S A) t x0 x1 cx1, nth_error (ths (base s)) t = Some x0 -> ths b = upd (ths (base s)) t x1 ->
    held G x1 cx1 = None -> nth_error (ths b) u = Some y -> nth_error (upd (cxs s) t cx1) u = Some cy ->
    nth_error (ths (base s)) u = Some y /\ nth_error (cxs s) u = Some cy).
  { intros b t x0 x1 cx1 H E F Q1 Q2. destruct (Nat.eq_dec u t) as [->|ne].
    - exfalso. rewrite E, (nth_upd _ _ _ _ _ _ H), Nat.eqb_refl in Q1. injection Q1 as ->.
      destruct (nth_error (cxs s) t) as [cx0|] eqn:E0.
      + rewrite (nth_upd _ _ _ _ _ _ E0), Nat.eqb_refl in Q2. injection Q2 as ->. congruence.
      + apply nth_error_None in E0. assert (L : (t < length (upd (cxs s) t cx1))%nat) by (apply nth_error_Some; congruence).
        rewrite upd_length in L. lia.
    - rewrite E, nth_upd_ne in Q1 by auto. rewrite nth_upd_ne in Q2 by auto. auto. }
  destruct T; cbn [base cxs adie] in *; try (now elim Nb); eapply K; try exact Hy; try exact Hcy; try exact H; try reflexivity;
    try (apply held_none, fin_out).
Qed.
(** If one worker waits for a lock, the worker that holds it does not wait. *)
Lemma holder_alone : forall s t x cx k, excl s -> nth_error (ths (base s)) t = Some x -> nth_error (cxs s) t = Some cx ->
  held G x cx = Some k -> alone s t x.
Proof.
  intros s t x cx k E Hx Hc Hk u y cy k' Nu Hy Hcy Hk' Hw. rewrite (held_wants _ _ _ Hk) in Hw. injection Hw as <-.
  exact (E t u x y cx cy k (not_eq_sym Nu) Hx Hy Hc Hcy Hk Hk').
Qed.

(** Child views show all children. *)
Lemma dview_entries : forall s d n, agood s -> nth_error (dh (mem (base s))) d = Some n ->
  forall l, (forall p, In p l -> In p (dkids n)) ->
  exists v, flat_map (fun p => match nth_error (ch (mem (base s))) (snd p), nth_error (xcs s) (snd p) with
                     | Some x, Some y => [(fst p, (x, y))] | _, _ => [] end) l = v /\
    Forall2 (fun p q => fst p = fst q /\ nth_error (ch (mem (base s))) (snd p) = Some (fst (snd q)) /\
                        nth_error (xcs s) (snd p) = Some (snd (snd q))) l v.
Proof.
  intros s d n I Hn. pose proof (ag_good _ I) as [Ti _]. pose proof (ti_wf _ _ _ _ Ti) as W.
  induction l as [|[a c] l IH]; intros Sub.
  - exists []. split; auto.
  - destruct IH as (v & Ev & F); [intros; apply Sub; now right|].
    assert (Il : lookup aeqb a (dkids n) = Some c).
    { pose proof (wf_dkeys _ _ _ _ W _ _ Hn) as ND. specialize (Sub (a, c) (or_introl eq_refl)).
      clear - ND Sub aeqb_ok. induction (dkids n) as [|[a' c'] m IHm]; [destruct Sub|]. cbn in *. inversion ND as [|? ? N1 N2]; subst.
      destruct Sub as [[= -> ->]|Q].
      - now rewrite eqb_refl'.
      - destruct (aeqb a' a) eqn:E; auto. apply aeqb_ok in E. subst. exfalso. apply N1. apply (in_map fst) in Q. exact Q. }
    destruct (wf_d _ _ _ _ W _ _ _ _ Hn Il) as (x & Hx & _).
    destruct (ch_some s c I) as (x' & y & Hx' & Hy); [apply nth_error_Some; congruence|].
    cbn [flat_map snd fst]. rewrite Hx', Hy, Ev. exists ((a, (x', y)) :: v). split; auto.
Qed.
Lemma dview_ok : forall s d n, agood s -> nth_error (dh (mem (base s))) d = Some n ->
  Forall2 (fun p q => fst p = fst q /\ nth_error (ch (mem (base s))) (snd p) = Some (fst (snd q)) /\
                      nth_error (xcs s) (snd p) = Some (snd (snd q))) (dkids n) (dview s n).
Proof. intros s d n I Hn. destruct (dview_entries s d n I Hn (dkids n)) as (v & <- & F); auto. Qed.

Lemma cview_entries : forall s d n, agood s -> nth_error (ch (mem (base s))) d = Some n ->
  forall l, (forall p, In p l -> In p (ckids n)) ->
  exists v, flat_map (fun p => match nth_error (dh (mem (base s))) (snd p), nth_error (xds s) (snd p) with
                     | Some x, Some y => [(fst p, (x, y))] | _, _ => [] end) l = v /\
    Forall2 (fun p q => fst p = fst q /\ nth_error (dh (mem (base s))) (snd p) = Some (fst (snd q)) /\
                        nth_error (xds s) (snd p) = Some (snd (snd q))) l v.
Proof.
  intros s d n I Hn. pose proof (ag_good _ I) as [Ti _]. pose proof (ti_wf _ _ _ _ Ti) as W.
  induction l as [|[a c] l IH]; intros Sub.
  - exists []. split; auto.
  - destruct IH as (v & Ev & F); [intros; apply Sub; now right|].
    assert (Il : lookup seqb a (ckids n) = Some c).
    { pose proof (wf_ckeys _ _ _ _ W _ _ Hn) as ND. specialize (Sub (a, c) (or_introl eq_refl)).
      clear - ND Sub seqb_ok. induction (ckids n) as [|[a' c'] m IHm]; [destruct Sub|]. cbn in *. inversion ND as [|? ? N1 N2]; subst.
      destruct Sub as [[= -> ->]|Q].
      - now rewrite eqb_refl'.
      - destruct (seqb a' a) eqn:E; auto. apply seqb_ok in E. subst. exfalso. apply N1. apply (in_map fst) in Q. exact Q. }
    destruct (wf_c _ _ _ _ W _ _ _ _ Hn Il) as (x & Hx & _).
    destruct (dh_some s c I) as (x' & y & Hx' & Hy); [apply nth_error_Some; congruence|].
    cbn [flat_map snd fst]. rewrite Hx', Hy, Ev. exists ((a, (x', y)) :: v). split; auto.
Qed.
Lemma cview_ok : forall s d n, agood s -> nth_error (ch (mem (base s))) d = Some n ->
  Forall2 (fun p q => fst p = fst q /\ nth_error (dh (mem (base s))) (snd p) = Some (fst (snd q)) /\
                      nth_error (xds s) (snd p) = Some (snd (snd q))) (ckids n) (cview s n).
Proof. intros s d n I Hn. destruct (cview_entries s d n I Hn (ckids n)) as (v & <- & F); auto. Qed.

Lemma forall2_keys : forall (K U V : Type) (R : K * U -> K * V -> Prop) l l',
  (forall p q, R p q -> fst p = fst q) -> Forall2 R l l' -> map fst l' = map fst l.
Proof. intros K U V R l l' H F. induction F; cbn; auto. f_equal; auto. symmetry. auto. Qed.
Lemma dview_keys : forall s d n, agood s -> nth_error (dh (mem (base s))) d = Some n ->
  map fst (dview s n) = map fst (dkids n).
Proof. intros s d n I H. eapply forall2_keys; [|eapply dview_ok; eauto]. cbv beta. tauto. Qed.
Lemma cview_keys : forall s d n, agood s -> nth_error (ch (mem (base s))) d = Some n ->
  map fst (cview s n) = map fst (ckids n).
Proof. intros s d n I H. eapply forall2_keys; [|eapply cview_ok; eauto]. cbv beta. tauto. Qed.
End Proofs.
