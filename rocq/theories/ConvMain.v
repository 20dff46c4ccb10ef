(** UCT and PUCT searches converge: induction on the decisions left, and what it means for values and recommendations. *)
From Coq Require Import List ZArith Bool Reals Lia Lra Permutation.
From Verif Require Import Base BaseProofs NumOps RLemmas HelperModel HelperSpec HelperProofs EngineModel EngineSpec
  EngineProofs EngineInv EngineCount EngineBound EngineEnds EngineLedger MapModel MapProofs PickSpec PickProofs AlgoModel AlgoProofs
  AlgoHist UctModel UctSpec UctProofs UctInv UctSelect UctRun UctResults ExploreSpec ExploreProofs SoftSpec WorldSpec WorldProofs
  LseReal WorldResults ConvSpec ConvCount ConvProofs.
Import ListNotations.
Open Scope R_scope.

Lemma min_gap : forall T (f : T -> R) l, exists gap, 0 < gap /\ forall x, In x l -> 0 < f x -> gap <= f x.
Proof.
  intros T f l. induction l as [|x l IH]; [exists 1; split; [lra|intros x []]|]. destruct IH as (gap & Pg & H).
  destruct (Rlt_le_dec 0 (f x)) as [L|L].
  - exists (Rmin gap (f x)). pose proof (Rmin_l gap (f x)). pose proof (Rmin_r gap (f x)). split; [now apply Rmin_glb_lt|]. intros y [<-|I] P; auto. specialize (H y I P). lra.
  - exists gap. split; auto. intros y [<-|I] P; [lra|auto].
Qed.

Section Main.
Context {S A : Type}.
Variable seqb : S -> S -> bool.
Variable aeqb : A -> A -> bool.
Hypothesis seqb_ok : decides seqb.
Hypothesis aeqb_ok : decides aeqb.
Variable C : @econf S A.
Variable U : @uconf S A.
Hypothesis Uok : uct_ok C U.
Variable B : R.
Hypothesis Sane : sane C U B.
Hypothesis Heps : ueps U <= 0.
Hypothesis Hex : explores U.
Hypothesis Hsub : sublinear (uterm U).
Hypothesis NoTT : use_tt C = false.
Variable V : nat -> S -> Z -> R.
Hypothesis Sv : usolves C U V.
Variable n : nat.
Variable K : R -> Z.
Notation alg := (uct aeqb C U).
Notation areach := (areach seqb aeqb C alg).
Notation ast := (ast alg).
Notation Lim := (limit C B).
Notation times := (times aeqb).
Notation N := (Z.of_nat n).
Notation ok := (ok seqb aeqb C U n K).
Notation timeof := (timeof C).
Notation near_state := (near_state seqb aeqb C U V n K).
Notation near_action := (near_action seqb aeqb C U V n K).

Lemma inner_node : forall g s d nd h, ok g s -> nth_error (dh (mem (base s))) d = Some nd -> is_sink C (dstate nd) = false ->
  ddepth nd = (max_depth C - Z.of_nat (Datatypes.S h))%Z -> is_leaf C nd = false /\ (0 <= count (ends_at d) (etrace (base s)) <= 1)%Z.
Proof using seqb_ok aeqb_ok NoTT.
  intros g s d nd h Ok Hd Ns Hdep.
  assert (Nl : is_leaf C nd = false).
  { unfold is_leaf. rewrite Ns, Hdep. cbn [orb]. destruct (Z.leb_spec (max_depth C) (max_depth C - Z.of_nat (Datatypes.S h))); auto. lia. }
  split; auto. destruct (ends_reach seqb aeqb seqb_ok aeqb_ok C _ _ (ok_ereach seqb aeqb C U n K g s Ok)) as (_ & En1 & En2).
  assert (Z0 : (0 <= count (ends_at d) (etrace (base s)))%Z) by apply countb_nonneg.
  assert (Z1 : (0 <= sumZ (atnew d) (ths (base s)))%Z) by (apply sumZ_nonneg; intros y; destruct y as [|? [] ? ?| | | |]; cbn; try lia; destruct (Nat.eqb _ _); cbn; lia).
  destruct (mcts_mode C) eqn:Mm; [specialize (En2 eq_refl NoTT d nd Hd Nl); destruct (Nat.eqb d 0)|specialize (En1 eq_refl d nd Hd Nl)]; lia.
Qed.

(** ** One step up: decision nodes *)
Lemma near_up_state : forall h st, is_sink C st = false -> (forall a, In a (acts C st) -> near_action h st a) -> near_state (Datatypes.S h) st.
Proof using All.
  intros h st Ns Near eps He. pose proof (lim_pos C U B Sane) as LP. set (T := timeof (Datatypes.S h)). set (v := V (Datatypes.S h) st T).
  set (len := INR (length (acts C st))). assert (Hlen : 0 <= len) by apply pos_INR. assert (HN : 0 <= IZR N) by (apply IZR_le; lia).
  set (e1 := eps / (2 * (len + 1))). assert (He1 : 0 < e1) by (apply Rmult_lt_0_compat; [lra|apply Rinv_0_lt_compat; lra]).
  destruct (common_bound A (fun a k => forall g s d nd c, ok g s ->
     nth_error (dh (mem (base s))) d = Some nd -> dstate nd = st -> ddepth nd = (max_depth C - Z.of_nat (Datatypes.S h))%Z ->
     lookup aeqb a (dkids nd) = Some c ->
     Rabs (devC (base s) v c) <= eps / 2 * IZR (count (backs_c c) (etrace (base s))) + e1 * IZR (count (visits_d d) (etrace (base s))) + k) (acts C st)) as (k1 & K1 & H1).
  { intros x k k' Hk H g s d nd c O1 O2 O3 O4 O5. specialize (H g s d nd c O1 O2 O3 O4 O5). lra. }
  { intros a Ia. destruct (us_step _ _ _ Sv h st T Ns) as (_ & Up). specialize (Up a Ia). fold v in Up.
    destruct (Req_dec (umover U T (uworth C U V h st T a)) (umover U T v)) as [Eq|Ne].
    - apply umover_inj in Eq. destruct (Near a Ia (eps / 2)) as (k & K0 & H); [lra|]. exists k. split; auto. intros g s d nd c O1 O2 O3 O4 O5.
      specialize (H g s d nd c O1 O2 O3 O4 O5). fold T in H. rewrite Eq in H.
      assert (0 <= e1 * IZR (count (visits_d d) (etrace (base s)))) by (apply Rmult_le_pos; [lra|]; apply IZR_le; apply countb_nonneg). lra.
    - set (eta := e1 / (2 * Lim + 1)). assert (Heta : 0 < eta) by (apply Rmult_lt_0_compat; [lra|apply Rinv_0_lt_compat; lra]).
      destruct (rarely seqb aeqb seqb_ok aeqb_ok C U Uok B Sane Heps Hex Hsub NoTT V Sv n K h st a Ns Ia Near) with (eta := eta) as (L & L0 & H); auto.
      { fold T v. lra. }
      exists (2 * Lim * L). split; [apply Rmult_le_pos; lra|]. intros g s d nd c O1 O2 O3 O4 O5. specialize (H g s d nd O1 O2 O3 O4).
      pose proof (ok_ereach seqb aeqb C U n K g s O1) as E. destruct (dtime_of seqb aeqb seqb_ok aeqb_ok C U n K _ _ _ _ _ O1 O2 O4) as [_ Hmd].
      assert (Hv : Rabs v <= Lim) by (apply (V_lim C U B Sane V Sv); auto).
      pose proof (devC_size seqb aeqb seqb_ok aeqb_ok C NoTT B (rwd_le C U B Sane) (heur_le C U B Sane) (dep_ok C U B Sane) (B_ge0 C U B Sane) n _ E v c Hv) as Sz.
      pose proof O1 as (_ & _ & R & _). pose proof (areach_good seqb aeqb seqb_ok aeqb_ok C alg _ _ _ R) as I.
      assert (Dc : dchild aeqb (mem (base s)) d a c) by (exists nd; auto).
      rewrite (times_child seqb aeqb aeqb_ok C _ (ag_good _ _ _ _ _ I) (evs_reach seqb aeqb seqb_ok aeqb_ok C _ _ E) d a c Dc) in H.
      pose proof (behind_c seqb aeqb seqb_ok aeqb_ok C NoTT n _ E d a c Dc) as Bc. pose proof (behind_s seqb aeqb seqb_ok aeqb_ok C n _ E c) as Bs.
      assert (Hb : IZR (count (backs_c c) (etrace (base s))) <= IZR (count (selects_c c) (etrace (base s)))) by (apply IZR_le; lia).
      assert (Hb0 : 0 <= IZR (count (backs_c c) (etrace (base s)))) by (apply IZR_le; apply countb_nonneg).
      set (m := IZR (count (visits_d d) (etrace (base s)))) in *. assert (Hm : 0 <= m) by (apply IZR_le; apply countb_nonneg).
      assert (M1 : 2 * Lim * IZR (count (backs_c c) (etrace (base s))) <= 2 * Lim * (eta * m + L)) by (apply Rmult_le_compat_l; lra).
      assert (M2 : 2 * Lim * (eta * m) <= e1 * m).
      { replace (2 * Lim * (eta * m)) with (2 * Lim * eta * m) by ring. apply Rmult_le_compat_r; auto.
        apply Rle_trans with ((2 * Lim + 1) * eta); [apply Rmult_le_compat_r; lra|]. unfold eta. right. field. lra. }
      assert (0 <= eps / 2 * IZR (count (backs_c c) (etrace (base s)))) by (apply Rmult_le_pos; lra). lra. }
  assert (P1 : 0 <= len * k1) by (apply Rmult_le_pos; lra). assert (P2 : 0 <= eps * IZR N) by (apply Rmult_le_pos; lra).
  assert (P3 : 0 <= (IZR N + 1) * (2 * Lim)) by (apply Rmult_le_pos; lra).
  exists ((IZR N + 1) * (2 * Lim) + len * k1 + eps * IZR N). split; [lra|]. intros g s d nd Ok Hd Est Hdep. fold T v.
  pose proof (ok_ereach seqb aeqb C U n K g s Ok) as E. pose proof (ok_tinv seqb aeqb seqb_ok aeqb_ok C U n K g s Ok) as Ti.
  destruct (dtime_of seqb aeqb seqb_ok aeqb_ok C U n K _ _ _ _ _ Ok Hd Hdep) as [_ Hmd]. assert (Hv : Rabs v <= Lim) by (apply (V_lim C U B Sane V Sv); auto).
  pose proof (devD_split seqb aeqb seqb_ok aeqb_ok C NoTT B (rwd_le C U B Sane) (heur_le C U B Sane) (dep_ok C U B Sane) (B_ge0 C U B Sane) n _ E v d nd Hv Hd) as Sp.
  destruct (inner_node g s d nd h Ok Hd ltac:(congruence) Hdep) as [_ En].
  assert (En' : IZR (N + count (ends_at d) (etrace (base s))) * (2 * Lim) <= (IZR N + 1) * (2 * Lim)).
  { apply Rmult_le_compat_r; [lra|]. rewrite plus_IZR. destruct En as [_ En]. apply IZR_le in En. lra. }
  set (m := count (visits_d d) (etrace (base s))) in *. assert (Hm : 0 <= IZR m) by (apply IZR_le; apply countb_nonneg).
  assert (Kids : forall a c, In (a, c) (dkids nd) -> In a (acts C st) /\ lookup aeqb a (dkids nd) = Some c).
  { intros a c I. assert (La : lookup aeqb a (dkids nd) = Some c) by (apply lookup_of_in; auto; exact (wf_dkeys _ _ _ _ (ti_wf _ _ _ _ Ti) _ _ Hd)).
    destruct (wf_d _ _ _ _ (ti_wf _ _ _ _ Ti) _ _ _ _ Hd La) as (x & _ & _ & _ & _ & _ & Ia & _). rewrite Est in Ia. auto. }
  assert (Klen : INR (length (dkids nd)) <= len).
  { unfold len. apply le_INR. rewrite <- (map_length fst). apply NoDup_incl_length; [exact (wf_dkeys _ _ _ _ (ti_wf _ _ _ _ Ti) _ _ Hd)|].
    intros a I. apply in_map_iff in I. destruct I as ([a' c] & <- & I). apply (Kids _ _ I). }
  assert (D1 : Rabs (rsum_of (fun p => devC (base s) v (snd p)) (dkids nd)) <= eps / 2 * IZR m + len * (e1 * IZR m + k1)).
  { eapply Rle_trans; [apply (rsum_of_abs_le _ _ (fun p => eps / 2 * IZR (count (backs_c (snd p)) (etrace (base s))) + (e1 * IZR m + k1)))|].
    - intros [a c] I. cbn [fst snd]. destruct (Kids a c I) as (Ia & La). pose proof (H1 a Ia g s d nd c Ok Hd Est Hdep La) as Q. fold m in Q. lra.
    - rewrite rsum_of_add, rsum_of_scal, rsum_of_const, rsum_of_sumZ. apply Rplus_le_compat.
      + apply Rmult_le_compat_l; [lra|]. apply IZR_le. unfold m. rewrite (visits_split seqb aeqb aeqb_ok C _ (ereach_good seqb aeqb seqb_ok aeqb_ok C _ _ E) (evs_reach seqb aeqb seqb_ok aeqb_ok C _ _ E) d nd Hd).
        apply sumZ_le_in. intros [a c] I. destruct (Kids a c I) as (_ & La). assert (Dc : dchild aeqb (mem (base s)) d a c) by (exists nd; auto).
        pose proof (behind_c seqb aeqb seqb_ok aeqb_ok C NoTT n _ E d a c Dc). pose proof (behind_s seqb aeqb seqb_ok aeqb_ok C n _ E c). cbn [snd]. lia.
      + apply Rmult_le_compat_r; [|auto]. assert (0 <= e1 * IZR m) by (apply Rmult_le_pos; lra). lra. }
  assert (M1 : len * (e1 * IZR m) <= eps / 2 * IZR m).
  { replace (len * (e1 * IZR m)) with (len * e1 * IZR m) by ring. apply Rmult_le_compat_r; auto.
    apply Rle_trans with ((len + 1) * e1); [apply Rmult_le_compat_r; lra|]. unfold e1. right. field. lra. }
  assert (M2 : eps * IZR m <= eps * (IZR (cntD (base s) d) + IZR N)).
  { apply Rmult_le_compat_l; [lra|]. rewrite <- plus_IZR. apply IZR_le. pose proof (behind_d seqb aeqb seqb_ok aeqb_ok C NoTT n _ E d) as Bd. fold m in Bd. unfold cntD. lia. }
  apply abs_inv in Sp, D1. apply Rabs_le. lra.
Qed.

(** ** All nodes *)
Lemma leaf_value : forall g s d nd h, ok g s -> nth_error (dh (mem (base s))) d = Some nd -> is_sink C (dstate nd) = true \/ h = 0%nat ->
  ddepth nd = (max_depth C - Z.of_nat h)%Z -> dheur nd = V h (dstate nd) (timeof h) /\ count (backs_d d) (etrace (base s)) = 0%Z.
Proof using Sv seqb_ok aeqb_ok NoTT.
  intros g s d nd h Ok Hd Hl Hdep. pose proof (ok_ereach seqb aeqb C U n K g s Ok) as E. pose proof (ok_tinv seqb aeqb seqb_ok aeqb_ok C U n K g s Ok) as Ti. split.
  - rewrite (wf_heur _ _ _ _ (ti_wf _ _ _ _ Ti) _ _ Hd). destruct (is_sink C (dstate nd)) eqn:Es.
    + rewrite (us_sink _ _ _ Sv) by auto. now destruct (heuristic C).
    + destruct Hl as [Q| ->]; [discriminate|]. rewrite (us_end _ _ _ Sv) by auto. reflexivity.
  - destruct (ends_reach seqb aeqb seqb_ok aeqb_ok C _ _ E) as (Lf & _). assert (L : is_leaf C nd = true).
    { unfold is_leaf. destruct Hl as [->| ->]; [apply orb_true_r || reflexivity|]. rewrite Hdep. cbn [Z.of_nat]. rewrite Z.sub_0_r, Z.leb_refl. now rewrite ?orb_true_r. }
    specialize (Lf d nd Hd L). pose proof (behind_d seqb aeqb seqb_ok aeqb_ok C NoTT n _ E d).
    assert (0 <= count (backs_d d) (etrace (base s)))%Z by apply countb_nonneg. lia.
Qed.
Lemma near_all : forall h st, near_state h st.
Proof using All.
  assert (Leaf : forall h st, is_sink C st = true \/ h = 0%nat -> near_state h st).
  { intros h st Hl eps He. exists 0. split; [lra|]. intros g s d nd Ok Hd Est Hdep. subst st. destruct (leaf_value g s d nd h Ok Hd Hl Hdep) as [Eh Eb].
    assert (E0 : devD (base s) (V h (dstate nd) (timeof h)) d = 0).
    { unfold devD, wsum. apply rsum_of_zero. intros [t e] I. cbn [snd]. destruct e as [| | |d' hv| |d' b2 b3 r tot| | |]; cbn [into]; auto.
      - destruct (Nat.eqb_spec d' d) as [->|]; auto. destruct (finals_ok seqb aeqb seqb_ok aeqb_ok C n _ (ok_ereach seqb aeqb C U n K g s Ok) _ _ _ I) as (n' & Hn' & E').
        rewrite Hd in Hn'. injection Hn' as <-. rewrite <- E', Eh. ring.
      - destruct (Nat.eqb_spec d' d) as [->|]; auto. exfalso. revert Eb I. unfold count. clear. induction (etrace (base s)) as [|[t' e'] l IH]; [easy|]. cbn [countb snd].
        pose proof (countb_nonneg _ (fun p : nat * @event S A => backs_d d (snd p)) l). intros Eb [Q|I]; [injection Q as -> ->; cbn in Eb; rewrite Nat.eqb_refl in Eb; lia|]. apply IH; auto. destruct (backs_d d e'); lia. }
    rewrite E0, Rabs_R0. pose proof (cntD_pos (base s) d) as P. apply IZR_le in P. assert (0 <= eps * IZR (cntD (base s) d)) by (apply Rmult_le_pos; lra). lra. }
  induction h as [|h IH]; intros st; [apply Leaf; auto|]. destruct (is_sink C st) eqn:Es; [apply Leaf; auto|].
  apply near_up_state; auto. intros a Ia. apply (near_up_action seqb aeqb seqb_ok aeqb_ok C U Uok B Sane Heps Hex Hsub NoTT V Sv n K h st a Es Ia IH).
Qed.
Lemma near_actions : forall h st a, is_sink C st = false -> In a (acts C st) -> near_action h st a.
Proof using All.
  intros h st a Es Ia. apply (near_up_action seqb aeqb seqb_ok aeqb_ok C U Uok B Sane Heps Hex Hsub NoTT V Sv n K h st a Es Ia (near_all h)).
Qed.

(** ** Values *)
Lemma devD_returns : forall g s v d, ok g s -> Rabs v <= Lim ->
  Rabs (devD (base s) v d - (rsum (returns_d d (etrace (base s))) - v * IZR (count (backs_d d) (etrace (base s))))) <= IZR (count (ends_at d) (etrace (base s))) * (2 * Lim).
Proof using All.
  intros g s v d Ok Hv. pose proof (ok_ereach seqb aeqb C U n K g s Ok) as E.
  pose proof (final_small seqb aeqb seqb_ok aeqb_ok C NoTT B (rwd_le C U B Sane) (heur_le C U B Sane) (dep_ok C U B Sane) (B_ge0 C U B Sane) n _ E) as Sm.
  unfold devD, returns_d. revert Sm. induction (etrace (base s)) as [|[t e] l IH]; intros Sm.
  - unfold wsum, rsum_of, count. cbn. replace (0 - (0 - v * 0)) with 0 by ring. rewrite Rabs_R0. lra.
  - rewrite wsum_cons, !count_cons, !plus_IZR. cbn [flat_map snd]. rewrite rsum_app. specialize (IH (fun t d hv Q => Sm t d hv (or_intror Q))).
    pose proof (fun d hv Q => Sm t d hv (or_introl Q)) as Sm'. pose proof (lim_pos C U B Sane).
    destruct e; cbn [into backs_d ends_at b2z rsum]; try (apply abs_inv in IH; apply Rabs_le; lra).
    + destruct (Nat.eqb _ _); cbn [b2z]; [|apply abs_inv in IH; apply Rabs_le; lra]. specialize (Sm' _ _ eq_refl). apply abs_inv in IH, Sm', Hv. apply Rabs_le. lra.
    + destruct (Nat.eqb _ _); cbn [b2z rsum]; apply abs_inv in IH; apply Rabs_le; lra.
Qed.

Lemma depth_left : forall g s d nd h, ok g s -> nth_error (dh (mem (base s))) d = Some nd -> left_at C nd = h -> ddepth nd = (max_depth C - Z.of_nat h)%Z.
Proof using seqb_ok aeqb_ok Sane.
  intros g s d nd h Ok Hd <-. pose proof (ti_depth _ _ _ _ (ok_tinv seqb aeqb seqb_ok aeqb_ok C U n K g s Ok) (dep_ok C U B Sane) _ _ Hd). unfold left_at. lia.
Qed.

Lemma values_converge : forall h st eps, 0 < eps -> exists N0, forall g s, ok g s -> forall d nd x,
  nth_error (dh (mem (base s))) d = Some nd -> nth_error (xds s) d = Some x -> dstate nd = st -> left_at C nd = h -> (N0 <= dvisits nd)%Z ->
  Rabs (uavg x - V h st (dtime nd)) <= eps.
Proof using All.
  intros h st eps He. pose proof (lim_pos C U B Sane) as LP. destruct (near_all h st (eps / 2)) as (k & K0 & H); [lra|].
  set (w := pseudo C U). assert (Hw : (0 <= w)%Z) by (unfold w, pseudo; destruct Uok as (_ & _ & Up & _); destruct (heuristic C); lia). pose proof (IZR_le _ _ Hw) as Hw'.
  set (c := IZR w * (2 * Lim) + eps / 2 + k + 2 * Lim). assert (Pc : 0 <= IZR w * (2 * Lim)) by (apply Rmult_le_pos; lra).
  destruct (up_nat (c / (eps / 2))) as (M & M0 & HM). { apply Rmult_le_pos; [unfold c; lra|]. left. apply Rinv_0_lt_compat. lra. }
  assert (HM' : c <= eps / 2 * IZR M).
  { apply (Rmult_le_compat_l (eps / 2)) in HM; [|lra]. replace (eps / 2 * (c / (eps / 2))) with c in HM by (field; lra). exact HM. }
  exists (M + 2 + N + w)%Z. intros g s Ok d nd x Hd Hx Est Hl HN0. pose proof (depth_left g s d nd h Ok Hd Hl) as Hdep.
  destruct (dtime_of seqb aeqb seqb_ok aeqb_ok C U n K _ _ _ _ _ Ok Hd Hdep) as [Et Hmd]. rewrite Et.
  pose proof Ok as (_ & _ & R & _). destruct (C18_value_is_mean' seqb aeqb seqb_ok aeqb_ok C U Uok _ _ _ R) as [Mn _].
  destruct (Mn d nd x Hd Hx) as (E1 & E2 & E3). rewrite returns_count_d in E1. fold w in E1, E2, E3.
  assert (Dec : (is_sink C st = true \/ h = 0%nat) \/ (is_sink C st = false /\ exists h', h = Datatypes.S h')).
  { destruct (is_sink C st); auto. destruct h as [|h']; eauto. }
  destruct Dec as [Leaf|(Ns & h' & Eh)].
  - rewrite <- Est in Leaf. destruct (leaf_value g s d nd h Ok Hd Leaf Hdep) as [Ev Eb]. rewrite Est in Ev. rewrite Eb in E1.
    assert (Nil : returns_d d (etrace (base s)) = []).
    { pose proof (returns_count_d d (etrace (base s))) as Q. rewrite Eb in Q. destruct (returns_d d (etrace (base s))); auto. cbn in Q. lia. }
    rewrite Nil in E3. cbn [rsum] in E3. rewrite <- Ev. replace (uavg x) with (dheur nd); [rewrite Rminus_diag_eq, Rabs_R0 by auto; lra|].
    destruct (Z.eq_dec (unb x) 0) as [Z|Z]; [symmetry; auto|]. rewrite E3 by auto. rewrite E1, Z.add_0_r. field. intros Q. apply eq_IZR in Q. lia.
  - clear Hl. subst h. destruct (inner_node g s d nd h' Ok Hd ltac:(congruence) Hdep) as [_ En].
    pose proof (ok_ereach seqb aeqb C U n K g s Ok) as E. destruct (cinv_reach seqb aeqb seqb_ok aeqb_ok C _ _ E) as [Kc _].
    pose proof (ci_dv _ _ Kc _ _ Hd) as Dv. destruct Uok as (_ & Iv & _ & _). rewrite Iv in Dv. fold w in Dv.
    pose proof (behind_d seqb aeqb seqb_ok aeqb_ok C NoTT n _ E d) as Bd. set (b := count (backs_d d) (etrace (base s))) in *.
    assert (Hb : (M + 1 <= b)%Z) by lia. set (v := V (Datatypes.S h') st (timeof (Datatypes.S h'))) in *.
    assert (Hv : Rabs v <= Lim) by (apply (V_lim C U B Sane V Sv); auto).
    pose proof (devD_returns g s v d Ok Hv) as Dr. fold b in Dr. specialize (H g s d nd Ok Hd Est Hdep). fold v in H.
    assert (En' : IZR (count (ends_at d) (etrace (base s))) * (2 * Lim) <= 2 * Lim).
    { destruct En as [_ En]. apply IZR_le in En. apply (Rmult_le_compat_r (2 * Lim)) in En; lra. }
    assert (Hc : IZR (cntD (base s) d) <= IZR b + 1) by (unfold cntD; rewrite <- (plus_IZR b 1); apply IZR_le; fold b; lia).
    assert (Hc' : eps / 2 * IZR (cntD (base s) d) <= eps / 2 * (IZR b + 1)) by (apply Rmult_le_compat_l; lra).
    rewrite E3 by lia. rewrite E1. fold b.
    assert (Hh : Rabs (dheur nd) <= Lim).
    { destruct (bounded_reach seqb aeqb seqb_ok aeqb_ok C B (rwd_le C U B Sane) (heur_le C U B Sane) (dep_ok C U B Sane) (B_ge0 C U B Sane) _ _ E) as (_ & Hb' & _). specialize (Hb' _ _ Hd).
      unfold limit. assert (0 <= IZR (max_depth C) * B) by (apply Rmult_le_pos; [apply IZR_le; apply (dep_ok C U B Sane)|apply (B_ge0 C U B Sane)]). lra. }
    assert (Hwh : - (IZR w * (2 * Lim)) <= IZR w * (dheur nd - v) <= IZR w * (2 * Lim)).
    { apply abs_inv in Hh, Hv. split; [|apply Rmult_le_compat_l; lra]. replace (- (IZR w * (2 * Lim))) with (IZR w * (- (2 * Lim))) by ring. apply Rmult_le_compat_l; lra. }
    apply IZR_le in Hb. rewrite plus_IZR in Hb. assert (HMb : eps / 2 * IZR M <= eps / 2 * IZR b) by (apply Rmult_le_compat_l; lra). pose proof (IZR_le _ _ M0) as M0'.
    rewrite plus_IZR. assert (Pos : 0 < IZR w + IZR b) by lra.
    replace ((IZR w * dheur nd + rsum (returns_d d (etrace (base s)))) / (IZR w + IZR b) - v)
      with ((IZR w * (dheur nd - v) + (rsum (returns_d d (etrace (base s))) - v * IZR b)) * / (IZR w + IZR b)) by (field; lra).
    rewrite Rabs_mult, (Rabs_pos_eq (/ _)) by (left; now apply Rinv_0_lt_compat). apply Rmult_le_reg_r with (IZR w + IZR b); auto.
    rewrite Rmult_assoc, Rinv_l, Rmult_1_r by lra. apply abs_inv in H, Dr. unfold c in HM'.
    assert (0 <= eps * IZR w) by (apply Rmult_le_pos; lra). apply Rabs_le. lra.
Qed.

Lemma actions_converge : forall h st a eps, is_sink C st = false -> In a (acts C st) -> 0 < eps -> exists N0, forall g s, ok g s -> forall d nd,
  nth_error (dh (mem (base s))) d = Some nd -> dstate nd = st -> left_at C nd = Datatypes.S h ->
  (N0 <= kid_visits aeqb (dview s nd) a)%Z ->
  Rabs (kid_avg aeqb (dview s nd) a - uworth C U V h st (dtime nd) a) <= eps.
Proof using All.
  intros h st a eps Ns Ia He. destruct (near_actions h st a Ns Ia (eps / 2)) as (k & K0 & H); [lra|].
  destruct (up_nat (k / (eps / 2))) as (M & M0 & HM). { apply Rmult_le_pos; auto. left. apply Rinv_0_lt_compat. lra. }
  assert (HM' : k <= eps / 2 * IZR M).
  { apply (Rmult_le_compat_l (eps / 2)) in HM; [|lra]. replace (eps / 2 * (k / (eps / 2))) with k in HM by (field; lra). exact HM. }
  exists (M + 1 + N)%Z. intros g s Ok d nd Hd Est Hl HN0. pose proof (depth_left g s d nd _ Ok Hd Hl) as Hdep.
  destruct (dtime_of seqb aeqb seqb_ok aeqb_ok C U n K _ _ _ _ _ Ok Hd Hdep) as [Et Hmd]. rewrite Et.
  pose proof Ok as (_ & _ & R & _). pose proof (ok_ereach seqb aeqb C U n K g s Ok) as E.
  destruct (kid_visits_times seqb aeqb seqb_ok aeqb_ok C U _ _ _ _ _ R Hd a) as [Kt Kx].
  destruct (lookup aeqb a (dkids nd)) as [c|] eqn:Lc.
  2: { rewrite (times_none seqb aeqb aeqb_ok (base s) (evs_reach seqb aeqb seqb_ok aeqb_ok C _ _ E) d nd a Hd Lc) in Kt. lia. }
  destruct (Kx c eq_refl) as (x & Hx & Ex). destruct (cinv_reach seqb aeqb seqb_ok aeqb_ok C _ _ E) as [Kc _]. rewrite Ex, (ci_cv _ _ Kc _ _ Hx) in HN0.
  assert (Dc : dchild aeqb (mem (base s)) d a c) by (exists nd; auto). pose proof (behind_c seqb aeqb seqb_ok aeqb_ok C NoTT n _ E d a c Dc) as Bc.
  pose proof (kid_dev seqb aeqb seqb_ok aeqb_ok C U Uok n K g s d nd a c (uworth C U V h st (timeof (Datatypes.S h)) a) Ok Hd Lc ltac:(lia)) as Kd.
  specialize (H g s d nd c Ok Hd Est Hdep Lc). rewrite <- Kd in H.
  assert (Hb : (M + 1 <= count (backs_c c) (etrace (base s)))%Z) by lia. apply IZR_le in Hb. rewrite plus_IZR in Hb. apply IZR_le in M0.
  set (y := IZR (count (backs_c c) (etrace (base s)))) in *. apply Rmult_le_reg_r with y; [lra|].
  assert (eps / 2 * IZR M <= eps / 2 * y) by (apply Rmult_le_compat_l; lra). lra.
Qed.

(** ** Recommendations *)
Lemma common_boundZ : forall T (P : T -> Z -> Prop) l, (forall x k k', (k <= k')%Z -> P x k -> P x k') ->
  (forall x, In x l -> exists k, P x k) -> exists k, forall x, In x l -> P x k.
Proof using Type.
  intros T P l M. induction l as [|x l IH]; intros H; [exists 0%Z; intros x []|].
  destruct IH as (k & Kk); [intros; apply H; now right|]. destruct (H x (or_introl eq_refl)) as (k' & K').
  exists (Z.max k k'). intros y [<-|I]; [eapply M; [|exact K']; lia|eapply M; [|exact (Kk y I)]; lia].
Qed.

Lemma best_of_gap : forall h st T a gap, is_sink C st = false -> In a (acts C st) ->
  (0 < umover U T (V (Datatypes.S h) st T) - umover U T (uworth C U V h st T a) ->
     gap <= umover U T (V (Datatypes.S h) st T) - umover U T (uworth C U V h st T a)) ->
  umover U T (V (Datatypes.S h) st T) - umover U T (uworth C U V h st T a) < gap -> best_action C U V (Datatypes.S h) st T a.
Proof using Sv.
  intros h st T a gap Ns Ia H L. split; auto. cbn [Nat.sub]. rewrite Nat.sub_0_r.
  destruct (us_step _ _ _ Sv h st T Ns) as (_ & Up). specialize (Up a Ia). apply (umover_inj U T). lra.
Qed.

Lemma recommendation_best : forall h st, NoDup (acts C st) -> is_sink C st = false -> exists N0, forall g s, ok g s -> forall d nd,
  nth_error (dh (mem (base s))) d = Some nd -> dstate nd = st -> left_at C nd = Datatypes.S h -> (N0 <= dvisits nd)%Z ->
  always (uct_recommend aeqb C U nd (dview s nd)) (best_action C U V (Datatypes.S h) st (dtime nd)).
Proof using All.
  intros h st Nd Ns. set (T := timeof (Datatypes.S h)).
  set (sub := fun a => umover U T (V (Datatypes.S h) st T) - umover U T (uworth C U V h st T a)).
  destruct (min_gap A sub (acts C st)) as (gap & Pg & Gap).
  destruct (common_boundZ A (fun a N0 => forall g s, ok g s -> forall d nd, nth_error (dh (mem (base s))) d = Some nd -> dstate nd = st -> left_at C nd = Datatypes.S h ->
     (N0 <= kid_visits aeqb (dview s nd) a)%Z -> Rabs (kid_avg aeqb (dview s nd) a - uworth C U V h st (dtime nd) a) <= gap / 4) (acts C st)) as (N1 & H1).
  { intros a k k' Hk H g s Ok d nd O1 O2 O3 O4. apply (H g s Ok d nd O1 O2 O3). lia. }
  { intros a Ia. apply actions_converge; auto. lra. }
  set (len := IZR (Z.of_nat (length (acts C st)))). assert (Hlen : 0 <= len) by (apply IZR_le; lia).
  set (eta := / (2 * (len + 1))). assert (Heta : 0 < eta) by (apply Rinv_0_lt_compat; lra).
  destruct (common_bound A (fun a L => 0 < sub a -> forall g s d nd, ok g s -> nth_error (dh (mem (base s))) d = Some nd -> dstate nd = st ->
     ddepth nd = (max_depth C - Z.of_nat (Datatypes.S h))%Z -> IZR (times d a (etrace (base s))) <= eta * IZR (count (visits_d d) (etrace (base s))) + L) (acts C st)) as (L & L0 & HL).
  { intros a k k' Hk H Sb g s d nd O1 O2 O3 O4. specialize (H Sb g s d nd O1 O2 O3 O4). lra. }
  { intros a Ia. destruct (Rlt_le_dec 0 (sub a)) as [Sb|Sb]; [|exists 0; split; [lra|intros; lra]].
    destruct (rarely seqb aeqb seqb_ok aeqb_ok C U Uok B Sane Heps Hex Hsub NoTT V Sv n K h st a Ns Ia (fun b Ib => near_actions h st b Ns Ib)) with (eta := eta) as (L & L0 & H); auto.
    { fold T. unfold sub in Sb. lra. }
    exists L. split; auto. }
  destruct (no_starvation seqb aeqb seqb_ok aeqb_ok C U Uok B Sane Heps Hex st n (Z.max 1 N1)) as (N2 & H2).
  assert (HN : 0 <= IZR N) by (apply IZR_le; lia).
  destruct (up_nat (2 * len * (L + IZR N))) as (M & M0 & HM). { apply Rmult_le_pos; lra. }
  exists (Z.abs N2 + M + 2 + pseudo C U)%Z. intros g s Ok d nd Hd Est Hl HN0. pose proof (depth_left g s d nd _ Ok Hd Hl) as Hdep.
  destruct (dtime_of seqb aeqb seqb_ok aeqb_ok C U n K _ _ _ _ _ Ok Hd Hdep) as [Et Hmd]. rewrite Et. fold T.
  pose proof Ok as (Gi & Gr & R & _). pose proof (ok_ereach seqb aeqb C U n K g s Ok) as E. destruct (cinv_reach seqb aeqb seqb_ok aeqb_ok C _ _ E) as [Kc _].
  destruct (inner_node g s d nd h Ok Hd ltac:(congruence) Hdep) as [_ En].
  pose proof (ci_dv _ _ Kc _ _ Hd) as Dv. pose proof Uok as (_ & Iv & _ & _). rewrite Iv in Dv. set (m := count (visits_d d) (etrace (base s))) in *.
  destruct (H2 g s Gi Gr R d nd Hd Est) as (nd' & Hd' & Tried). { rewrite selected_len. fold m. lia. }
  rewrite Hd in Hd'. injection Hd' as <-. rewrite Est in Tried.
  assert (Kids : forall a, In a (acts C st) -> In a (map fst (dkids nd)) /\ (N1 <= kid_visits aeqb (dview s nd) a)%Z).
  { intros a Ia. destruct (Tried a Ia) as (c & x & Lc & Hx & Hk). split; [apply lookup_in in Lc; auto; now apply (in_map fst) in Lc|].
    destruct (kid_visits_times seqb aeqb seqb_ok aeqb_ok C U _ _ _ _ _ R Hd a) as [_ Kx]. destruct (Kx c Lc) as (x' & Hx' & ->). rewrite Hx in Hx'. injection Hx' as <-. lia. }
  assert (Ns' : is_sink C (dstate nd) = false) by congruence.
  assert (Nd' : NoDup (acts C (dstate nd))) by congruence.
  pose proof (C21_uct_recommendation' seqb aeqb seqb_ok aeqb_ok C U B Uok Sane _ _ _ _ _ R Hd Ns' Nd') as P.
  assert (Ne : dkids nd <> []).
  { destruct Sane as (Sa & _). destruct (acts C st) as [|a0 l] eqn:Ea; [destruct (Sa st Ns Ea)|]. destruct (Kids a0 (or_introl eq_refl)) as [I _]. intros Q. rewrite Q in I. destruct I. }
  assert (Dt : dtime nd = T) by (exact Et).
  intros g0 G0. destruct (picks_always _ _ _ _ P g0 G0) as (a & g' & Er & Eg1 & Eg2 & Ia & Best). exists a, g'. do 3 (split; auto).
  rewrite Est in Ia. destruct (Best Ne) as [Ka Top]. clear Best P.
  apply (best_of_gap h st T a gap Ns Ia); [apply Gap; auto|]. fold (sub a). destruct (Rlt_le_dec (sub a) gap) as [Q|Q]; auto. exfalso.
  assert (Sa : 0 < sub a) by lra. destruct (umost_visited U).
  - specialize (HL a Ia Sa g s d nd Ok Hd Est Hdep). fold m in HL.
    pose proof (selected_valid seqb aeqb seqb_ok aeqb_ok C U _ _ _ _ _ R Hd) as Inc. rewrite Est in Inc.
    pose proof (count_cover A aeqb _ _ aeqb_ok Inc) as Cov. rewrite selected_len in Cov. fold m in Cov.
    assert (Up : forall b, In b (acts C st) -> (times d b (etrace (base s)) <= times d a (etrace (base s)) + N)%Z).
    { intros b Ib. destruct (Kids b Ib) as [Kb _]. specialize (Top b Kb). destruct (kid_visits_times seqb aeqb seqb_ok aeqb_ok C U _ _ _ _ _ R Hd a) as [Ta _].
      destruct (kid_visits_times seqb aeqb seqb_ok aeqb_ok C U _ _ _ _ _ R Hd b) as [Tb _]. lia. }
    assert (Cov' : (m <= Z.of_nat (length (acts C st)) * (times d a (etrace (base s)) + N))%Z).
    { eapply Z.le_trans; [exact Cov|]. revert Up. clear. unfold ExploreSpec.times. generalize (times d a (etrace (base s)) + N)%Z as z. unfold ExploreSpec.times. intros z. induction (acts C st) as [|b l IH]; intros Up; [cbn; lia|].
      cbn [sumZ length]. specialize (IH (fun x Q => Up x (or_intror Q))). specialize (Up b (or_introl eq_refl)). lia. }
    apply IZR_le in Cov'. rewrite mult_IZR, plus_IZR in Cov'. fold len in Cov'.
    assert (Hm : (M + 1 <= m)%Z) by lia. apply IZR_le in Hm. rewrite plus_IZR in Hm.
    assert (len * (IZR (times d a (etrace (base s))) + IZR N) <= len * (eta * IZR m + L + IZR N)) by (apply Rmult_le_compat_l; lra).
    assert (len * (eta * IZR m) <= / 2 * IZR m).
    { assert (0 <= IZR m) by (apply IZR_le in M0; lra). rewrite <- Rmult_assoc. apply Rmult_le_compat_r; auto. apply Rle_trans with ((len + 1) * eta); [apply Rmult_le_compat_r; lra|]. unfold eta. right. field. lra. }
    lra.
  - destruct (us_step _ _ _ Sv h st T Ns) as ((b & Ib & Eb) & _). destruct (Kids b Ib) as [Kb Vb]. destruct (Kids a Ia) as [_ Va].
    specialize (Top b Kb). rewrite !coeff_umover, Dt in Top.
    pose proof (H1 a Ia g s Ok d nd Hd Est Hl Va) as Ca. pose proof (H1 b Ib g s Ok d nd Hd Est Hl Vb) as Cb. rewrite Dt in Ca, Cb.
    unfold sub in Q. rewrite Eb in Q. revert Q Top. unfold umover. apply abs_inv in Ca, Cb. destruct (utwo U && Z.odd T)%bool; lra.
Qed.

(** ** Searches rarely try what is not best *)
Lemma rarely_tried : forall h st a eta, is_sink C st = false -> In a (acts C st) -> ~ best_action C U V (Datatypes.S h) st (timeof (Datatypes.S h)) a ->
  0 < eta -> exists N0, forall g s, ok g s -> forall d nd,
  nth_error (dh (mem (base s))) d = Some nd -> dstate nd = st -> left_at C nd = Datatypes.S h ->
  (N0 <= Z.of_nat (length (selected d (etrace (base s)))))%Z ->
  IZR (times d a (etrace (base s))) <= eta * INR (length (selected d (etrace (base s)))).
Proof using All.
  intros h st a eta Ns Ia Nb He. set (T := timeof (Datatypes.S h)).
  assert (Sub : umover U T (uworth C U V h st T a) < umover U T (V (Datatypes.S h) st T)).
  { destruct (us_step _ _ _ Sv h st T Ns) as (_ & Up). specialize (Up a Ia). destruct (Req_dec (umover U T (uworth C U V h st T a)) (umover U T (V (Datatypes.S h) st T))) as [Eq|Ne]; [|lra].
    exfalso. apply Nb. apply umover_inj in Eq. split; auto. cbn [Nat.sub]. rewrite Nat.sub_0_r. exact Eq. }
  destruct (rarely seqb aeqb seqb_ok aeqb_ok C U Uok B Sane Heps Hex Hsub NoTT V Sv n K h st a Ns Ia (fun b Ib => near_actions h st b Ns Ib) Sub (eta / 2)) as (L & L0 & H); [lra|].
  destruct (up_nat (L / (eta / 2))) as (M & M0 & HM). { apply Rmult_le_pos; auto. left. apply Rinv_0_lt_compat. lra. }
  assert (HM' : L <= eta / 2 * IZR M).
  { apply (Rmult_le_compat_l (eta / 2)) in HM; [|lra]. replace (eta / 2 * (L / (eta / 2))) with L in HM by (field; lra). exact HM. }
  exists M. intros g s Ok d nd Hd Est Hl HN0. pose proof (depth_left g s d nd _ Ok Hd Hl) as Hdep. specialize (H g s d nd Ok Hd Est Hdep).
  rewrite INR_IZR_INZ, selected_len in *. apply IZR_le in HN0.
  assert (eta / 2 * IZR M <= eta / 2 * IZR (count (visits_d d) (etrace (base s)))) by (apply Rmult_le_compat_l; lra). lra.
Qed.

(** ** The root *)
Lemma root_visits : forall g s, ok g s -> exists r, nth_error (dh (mem (base s))) 0 = Some r /\ dstate r = root_state C /\ ddepth r = 0%Z /\ dtime r = root_time C /\
  (count is_done (etrace (base s)) <= dvisits r)%Z.
Proof using seqb_ok aeqb_ok Uok.
  intros g s Ok. pose proof (ok_ereach seqb aeqb C U n K g s Ok) as E.
  destruct (wf_root _ _ _ _ (ti_wf _ _ _ _ (ok_tinv seqb aeqb seqb_ok aeqb_ok C U n K g s Ok))) as (r & H0 & E1 & E2 & E3). exists r. split; auto. split; auto. split; auto. split; auto.
  destruct (cinv_reach seqb aeqb seqb_ok aeqb_ok C _ _ E) as [Kc _]. pose proof (ci_dv _ _ Kc _ _ H0) as Dv. pose proof Uok as (_ & Iv & Up & _). rewrite Iv in Dv.
  assert (0 <= pseudo C U)%Z by (unfold pseudo; destruct (heuristic C); lia).
  pose proof (ci_en _ _ Kc 0%nat) as En. cbn [Nat.eqb b2z] in En. pose proof (ci_done _ _ Kc) as Dn.
  assert (Z1 : (0 <= count (enters_d 0) (etrace (base s)))%Z) by apply countb_nonneg.
  assert (Z2 : (sumZ (atD 0) (ths (base s)) <= sumZ busy (ths (base s)))%Z).
  { clear. induction (ths (base s)) as [|x l IH]; cbn [sumZ]; [lia|].
    assert (atD 0 x <= busy x)%Z by (destruct x as [|[|c]| | | |]; cbn; lia). lia. }
  lia.
Qed.
Lemma root_converges : forall eps, 0 < eps -> exists N0, forall g s, ok g s -> (N0 <= count is_done (etrace (base s)))%Z ->
  exists x, nth_error (xds s) 0 = Some x /\ Rabs (uavg x - V (Z.to_nat (max_depth C)) (root_state C) (root_time C)) <= eps.
Proof using All.
  intros eps He. destruct (values_converge (Z.to_nat (max_depth C)) (root_state C) eps He) as (N0 & H). exists N0. intros g s Ok HN.
  destruct (root_visits g s Ok) as (r & H0 & E1 & E2 & E3 & Hv). pose proof Ok as (_ & _ & R & _).
  pose proof (areach_good seqb aeqb seqb_ok aeqb_ok C alg _ _ _ R) as I.
  destruct (nth_error (xds s) 0) as [x|] eqn:Hx.
  2: { exfalso. apply nth_error_None in Hx. rewrite (ag_d _ _ _ _ _ I) in Hx. assert (0 < length (dh (mem (base s))))%nat by (apply nth_error_Some; congruence). lia. }
  exists x. split; auto. rewrite <- E3. apply (H g s Ok 0%nat r x H0 Hx E1); [|lia]. unfold left_at. rewrite E2, Z.sub_0_r. reflexivity.
Qed.
Lemma root_recommends : is_sink C (root_state C) = false -> (0 < max_depth C)%Z -> NoDup (acts C (root_state C)) ->
  exists N0, forall g s, ok g s -> (N0 <= count is_done (etrace (base s)))%Z ->
  exists r, nth_error (dh (mem (base s))) 0 = Some r /\
    always (uct_recommend aeqb C U r (dview s r)) (best_action C U V (Z.to_nat (max_depth C)) (root_state C) (root_time C)).
Proof using All.
  intros Ns Hm Nd. destruct (recommendation_best (Z.to_nat (max_depth C) - 1) (root_state C) Nd Ns) as (N0 & H). exists N0. intros g s Ok HN.
  destruct (root_visits g s Ok) as (r & H0 & E1 & E2 & E3 & Hv). exists r. split; auto.
  replace (Datatypes.S (Z.to_nat (max_depth C) - 1)) with (Z.to_nat (max_depth C)) in H by lia. rewrite <- E3.
  apply (H g s Ok 0%nat r H0 E1); [|lia]. unfold left_at. rewrite E2, Z.sub_0_r. reflexivity.
Qed.
End Main.

(** ** Where outcomes are certain *)
Section Sure.
Context {S A : Type}.
Variable seqb : S -> S -> bool.
Variable aeqb : A -> A -> bool.
Hypothesis seqb_ok : decides seqb.
Hypothesis aeqb_ok : decides aeqb.
Variable C : @econf S A.
Variable U : @uconf S A.
Hypothesis Uok : uct_ok C U.
Variable B : R.
Hypothesis Sane : sane C U B.
Lemma sure_fair : sure_outcomes C U -> forall K n s, ereach seqb aeqb C n s -> fair U K s.
Proof using All.
  intros Det K n s E c x later tr Hc Et delta g Hd _ _. pose proof (evs_reach seqb aeqb seqb_ok aeqb_ok C _ _ E) as Ev.
  pose proof (ti_wf _ _ _ _ (proj1 (ereach_good seqb aeqb seqb_ok aeqb_ok C _ _ E))) as W.
  destruct (wf_reachC _ _ _ _ W c x Hc) as [d0 a c Rd Ch]. destruct Ch as (nd & Hn & Ld).
  destruct (wf_d _ _ _ _ W d0 nd a c Hn Ld) as (x' & Hx' & E1 & _ & _ & E2 & Ia & Ns). rewrite Hc in Hx'. injection Hx' as <-.
  assert (Nk : is_sink C (dstate nd) = false) by (destruct (is_sink C (dstate nd)) eqn:Es; auto; destruct Ns; now left).
  rewrite E1, E2. destruct (Det (dstate nd) a Nk Ia) as (o & p & Ed). rewrite Ed.
  destruct Sane as (_ & Sd & _). destruct (Sd (dstate nd) a Nk Ia) as [_ T]. rewrite Ed in T. cbn in T.
  assert (All : forall o', In o' (sampled c tr) -> o' = o).
  { intros o' I. unfold sampled in I. apply in_flat_map in I. destruct I as ([t e] & Ie & I). cbn [snd] in I. destruct e as [| |c' o2 d2 b| | | | | |]; try destruct I.
    destruct (Nat.eqb_spec c' c) as [->|]; [|destruct I]. destruct I as [<-|[]].
    assert (Q : evok seqb aeqb (mem s) (EVisitC c o2 d2 b)) by (eapply Ev; rewrite Et; apply in_or_app; right; eauto). destruct Q as (x2 & Hx2 & Lx2). rewrite Hc in Hx2. injection Hx2 as <-.
    destruct (wf_c _ _ _ _ W c x o2 d2 Hc Lx2) as (_ & _ & _ & _ & _ & Is). destruct Uok as (_ & _ & _ & Us). rewrite Us, E1, E2, Ed in Is. destruct Is as [<-|[]]. reflexivity. }
  assert (Es : rsum_of g (sampled c tr) = INR (length (sampled c tr)) * g o).
  { revert All. induction (sampled c tr) as [|y l IH]; intros All; [cbn; ring|]. rewrite rsum_of_cons, IH by (intros; apply All; now right). rewrite (All y (or_introl eq_refl)).
    cbn [length]. rewrite S_INR. ring. }
  rewrite Es. unfold expected. rewrite rsum_of_cons. change (rsum_of _ []) with 0. cbn [fst snd]. replace p with 1 by lra.
  replace (INR (length (sampled c tr)) * g o - INR (length (sampled c tr)) * (1 * g o + 0)) with 0 by ring. rewrite Rabs_R0.
  apply Rmult_le_pos; [lra|apply pos_INR].
Qed.

(** ** The environment has values *)
Fixpoint uvalues (h : nat) (s : S) (t : Z) : R :=
  if is_sink C s then 0
  else match h with
  | O => initial C s
  | Datatypes.S h' => umover U t (top (acts C s) (fun a => umover U t (expected (fun o => rwd C s a o + uvalues h' o (t + 1)%Z) (udistr U s a))))
  end.
Lemma uvalues_solve : usolves C U uvalues.
Proof using Sane.
  constructor.
  - intros h s t E. destruct h; cbn; now rewrite E.
  - intros s t E. cbn. now rewrite E.
  - intros h s t E. cbn [uvalues]. rewrite E. assert (Mm : forall v, umover U t (umover U t v) = v) by (intros v; unfold umover; destruct (utwo U && Z.odd t); ring). rewrite Mm.
    apply top_greatest. destruct Sane as (Sa & _). auto.
Qed.
Lemma usolves_unique : forall V W, usolves C U V -> usolves C U W -> forall h s t, V h s t = W h s t.
Proof using Type.
  intros V W [A1 A2 A3] [B1 B2 B3]. induction h as [|h IH]; intros s t; (destruct (is_sink C s) eqn:E; [now rewrite A1, B1|]).
  - now rewrite A2, B2.
  - destruct (A3 h s t E) as [(a & Ia & Ea) Ua]. destruct (B3 h s t E) as [(b & Ib & Eb) Ub]. apply (umover_inj U t).
    assert (Eq : forall x, uworth C U V h s t x = uworth C U W h s t x) by (intros x; unfold uworth, expected; apply rsum_of_ext; intros y _; now rewrite IH).
    specialize (Ua b Ib). specialize (Ub a Ia). rewrite Eq in Ea, Ua. lra.
Qed.
End Sure.
