(** A quantity that does not grow on average rarely gets large, at any time (Ville's inequality) *)
From Coq Require Import List ZArith Bool Reals Lia Lra.
From Verif Require Import Base BaseProofs NumOps HelperModel HelperSpec EngineModel EngineSpec AlgoModel AlgoProofs OddsSpec OddsCover OddsStep.
Import ListNotations.
Open Scope R_scope.

Lemma div_le : forall a b c, 0 < c -> a <= b -> a / c <= b / c.
Proof. intros a b c Hc H. unfold Rdiv. apply Rmult_le_compat_r; auto. left. now apply Rinv_0_lt_compat. Qed.

Section Ville.
Context {S A : Type}.
Variable seqb : S -> S -> bool.
Variable aeqb : A -> A -> bool.
Variable C : @econf S A.
Variable G : @algo S A.
Variable distr : S -> A -> list (S * R).
Hypothesis Hsel : forall n x kids cx, exists j, (j <= 1)%nat /\ reads j (select G n x kids cx).
Hypothesis Hsam : forall n x cx, exists cx1, forall g, sample G n x cx g =
  bind (sample_from_distribution R_ops (distr (cstate n) (cact n)) true g) (fun '(o, g1) => Ok (o, cx1, g1)).
Notation ast := (ast G).
Notation astep := (astep seqb aeqb C G).
Notation areach := (areach seqb aeqb C G).
Variable n : nat.
Variable ints : nat -> Z.
Hypothesis Ints : forall i, (0 <= ints i)%Z.
Variable N : nat.
Hypothesis Npos : (0 < N)%nat.
Variable sched : nat -> list R -> alabel.

(** The state after [k] steps, unless the search failed. *)
Definition live (o : option ast) : option ast := match o with Some s => match afail s with None => Some s | Some _ => None end | None => None end.
Definition X (k : nat) (u : list nat) : option ast := live (follow seqb aeqb C G sched k (ainit C G n (dice ints N u))).
Lemma live_some : forall o s, live o = Some s -> o = Some s /\ afail s = None.
Proof using. intros [s1|] s; cbn; [|discriminate]. destruct (afail s1) eqn:E; [discriminate|]. intros [= <-]. auto. Qed.
Lemma some_live : forall o s, o = Some s -> afail s = None -> live o = Some s.
Proof using. intros o s -> E. cbn. now rewrite E. Qed.
Lemma failed_stops : forall l s, afail s <> None -> astep l s = None.
Proof using. intros l s H. unfold AlgoModel.astep. destruct (afail s); congruence. Qed.
Notation small u := (forall i, In i u -> (i < N)%nat).

Lemma share : forall j, (j < N)%nat -> 0 <= INR j / INR N < 1.
Proof using Npos.
  intros j H. assert (0 < INR N) by (apply lt_0_INR; lia). split.
  - apply Rmult_le_pos; [apply pos_INR|]. left. now apply Rinv_0_lt_compat.
  - apply (Rmult_lt_reg_r (INR N)); auto. unfold Rdiv. rewrite Rmult_assoc, Rinv_l by lra. rewrite Rmult_1_r, Rmult_1_l. now apply lt_INR.
Qed.
Lemma dice_good : forall u, small u -> good_ints (dice ints N u) /\ good_reals (dice ints N u).
Proof using Npos Ints.
  intros u Hu. split; intros i; cbn; auto. apply share. destruct (nth_in_or_default i u 0%nat) as [H| ->]; auto.
Qed.
Lemma follow_areach : forall k g s, follow seqb aeqb C G sched k (ainit C G n g) = Some s -> areach n g s.
Proof using.
  induction k as [|k IH]; intros g s; cbn.
  - intros [= <-]. exists []. reflexivity.
  - destruct (follow _ _ _ _ _ _ _) as [s1|] eqn:E; [|discriminate]. intros H. destruct (IH g s1 E) as (ls & R). eexists (ls ++ [_]).
    clear - R H. revert R. generalize (ainit C G n g). induction ls as [|l ls IHl]; intros s0; cbn.
    + intros [= ->]. rewrite H. reflexivity.
    + destruct (AlgoModel.astep _ _ _ _ l s0) as [s2|]; [|discriminate]. apply IHl.
Qed.
Lemma X_ok : forall k u s, X k u = Some s -> areach n (dice ints N u) s /\ afail s = None.
Proof using. intros k u s E. apply live_some in E. destruct E as (E & F). split; auto. eapply follow_areach; exact E. Qed.
Lemma X_next : forall k u, X (Datatypes.S k) u = match X k u with Some s => live (astep (sched k (map (gr (rg s)) (seq 0 (nr (rg s))))) s) | None => None end.
Proof using.
  intros k u. unfold X at 1. cbn [follow]. unfold X. destruct (follow _ _ _ _ _ k _) as [s|]; [|reflexivity]. cbn [live]. destruct (afail s) eqn:F; [|reflexivity].
  rewrite failed_stops by congruence. reflexivity.
Qed.
Lemma step_live : forall l s, exists j, (j <= 1)%nat /\ forall f s1, live (astep l (regrs G f s)) = Some s1 ->
  gr (rg s1) = f /\ gi (rg s1) = gi (rg s) /\ nr (rg s1) = (nr (rg s) + j)%nat /\
  forall f', (forall i, (i < nr (rg s) + j)%nat -> f' i = f i) -> live (astep l (regrs G f' s)) = Some (regrs G f' s1).
Proof using Hsel Hsam.
  intros l s. destruct (step_local seqb aeqb C G distr Hsel Hsam l s) as (j & Hj & H). exists j. split; auto. intros f s1 E. apply live_some in E. destruct E as (E & F).
  destruct (H f s1 E F) as (H1 & H2 & H3 & H4). repeat (split; auto). intros f' Hf. apply some_live; auto.
Qed.
(** A failing step changes nothing. *)
Lemma fails_still : forall l s s1, astep l s = Some s1 -> afail s1 <> None -> base s1 = base s /\ rg s1 = rg s.
Proof using.
  intros l s s1 E F. unfold AlgoModel.astep, done, AlgoModel.blocked in E. destruct (afail s) eqn:Fs; [discriminate|].
  assert (Fin : forall s2, Some s2 = Some s1 -> (afail s2 = None \/ (base s2 = base s /\ rg s2 = rg s)) -> base s1 = base s /\ rg s1 = rg s) by (intros s2 [= ->] [H|H]; [congruence|auto]).
  repeat match type of E with
          | None = _ => discriminate E
          | Some _ = _ => apply (Fin _ E); cbn; auto
          | (match ?o with _ => _ end) = _ => destruct o
          | (let '(_, _) := ?o in _) = _ => destruct o
          end.
Qed.
Lemma X_base : forall k u s, follow seqb aeqb C G sched k (ainit C G n (dice ints N u)) = Some s -> exists k' s', X k' u = Some s' /\ base s' = base s /\ nr (rg s') = nr (rg s).
Proof using.
  intros k u s E. destruct (afail s) eqn:F. 2: { exists k, s. split; auto. apply some_live; auto. }
  destruct k as [|k]; [injection E as <-; discriminate F|]. cbn [follow] in E. destruct (follow _ _ _ _ _ k _) as [s0|] eqn:E0; [|discriminate].
  destruct (afail s0) eqn:F0. { rewrite failed_stops in E by congruence. discriminate. }
  exists k, s0. split; [apply some_live; auto|]. destruct (fails_still _ _ _ E ltac:(congruence)) as (-> & ->). auto.
Qed.
Lemma X_none : forall k j u, X k u = None -> X (k + j) u = None.
Proof using. intros k j u H. induction j as [|j IH]; [now rewrite Nat.add_0_r|]. rewrite Nat.add_succ_r, X_next, IH. reflexivity. Qed.
Lemma X_gr : forall k u s, small u -> X k u = Some s -> gr (rg s) = gr (dice ints N u) /\ gi (rg s) = ints.
Proof using Hsel Hsam Npos Ints.
  induction k as [|k IH]; intros u s Hu E.
  - injection E as <-. auto.
  - rewrite X_next in E. destruct (X k u) as [s1|] eqn:E1; [|discriminate]. destruct (IH u s1 Hu E1) as (I1 & I2).
    destruct (step_live (sched k (map (gr (rg s1)) (seq 0 (nr (rg s1))))) s1) as (j & _ & H).
    rewrite <- (regrs_self G s1) in E at 3. destruct (H _ _ E) as (H1 & H2 & _). rewrite H1, H2. auto.
Qed.
Lemma X_mono : forall k u s s1, small u -> X k u = Some s -> X (Datatypes.S k) u = Some s1 -> (nr (rg s) <= nr (rg s1))%nat.
Proof using Hsel Hsam Npos Ints.
  intros k u s s1 Hu E E1. rewrite X_next, E in E1.
  destruct (step_live (sched k (map (gr (rg s)) (seq 0 (nr (rg s))))) s) as (j & _ & H).
  rewrite <- (regrs_self G s) in E1 at 3. destruct (H _ _ E1) as (_ & _ & H3 & _). lia.
Qed.
Lemma X_mono' : forall j k u s s1, small u -> X k u = Some s -> X (k + j) u = Some s1 -> (nr (rg s) <= nr (rg s1))%nat.
Proof using Hsel Hsam Npos Ints.
  induction j as [|j IH]; intros k u s s1 Hu E E1.
  - rewrite Nat.add_0_r, E in E1. injection E1 as ->. lia.
  - rewrite Nat.add_succ_r in E1. destruct (X (k + j) u) as [s2|] eqn:E2; [|rewrite X_next, E2 in E1; discriminate].
    pose proof (IH k u s s2 Hu E E2). pose proof (X_mono _ _ _ _ Hu E2 E1). lia.
Qed.

(** The same draws so far, the same state so far. *)
Lemma X_local : forall k u u' s, small u -> small u' -> X k u = Some s -> (forall i, (i < nr (rg s))%nat -> nth i u 0%nat = nth i u' 0%nat) ->
  X k u' = Some (regrs G (gr (dice ints N u')) s).
Proof using Hsel Hsam Npos Ints.
  induction k as [|k IH]; intros u u' s Hu Hu' E Eq.
  - injection E as <-. reflexivity.
  - pose proof E as E0. rewrite X_next in E. destruct (X k u) as [s1|] eqn:E1; [|discriminate].
    pose proof (X_mono _ _ _ _ Hu E1 E0) as Mo. destruct (X_gr _ _ _ Hu E1) as (G1 & _).
    rewrite X_next, (IH u u' s1 Hu Hu' E1) by (intros i Hi; apply Eq; lia). cbn [rg regrs regr gr nr].
    assert (Es : map (gr (dice ints N u')) (seq 0 (nr (rg s1))) = map (gr (rg s1)) (seq 0 (nr (rg s1)))).
    { apply map_ext_in. intros i Hi. apply in_seq in Hi. rewrite G1. cbn. rewrite (Eq i) by lia. reflexivity. }
    rewrite Es. destruct (step_live (sched k (map (gr (rg s1)) (seq 0 (nr (rg s1))))) s1) as (j & _ & H).
    rewrite <- (regrs_self G s1) in E at 3. destruct (H _ _ E) as (_ & _ & H3 & H4).
    apply H4. intros i Hi. rewrite G1. cbn. rewrite (Eq i) by lia. reflexivity.
Qed.

Variable W : @est S A -> R.
Hypothesis Wpos : forall b, 0 <= W b.
Definition after (o : option ast) : R := match o with Some s => W (base s) | None => 0 end.
(** On average over the next draw the quantity does not grow. *)
Hypothesis Sup : forall g s l (f : nat -> nat -> R), good_ints g -> good_reals g -> areach n g s ->
  (forall j, (j < N)%nat -> f j (nr (rg s)) = INR j / INR N) ->
  sum_to N (fun j => after (astep l (regrs G (f j) s))) <= INR N * W (base s).

Lemma Sup' : forall g s l (f : nat -> nat -> R), good_ints g -> good_reals g -> areach n g s ->
  (forall j, (j < N)%nat -> f j (nr (rg s)) = INR j / INR N) ->
  sum_to N (fun j => after (live (astep l (regrs G (f j) s)))) <= INR N * W (base s).
Proof using Wpos Sup.
  intros g s l f Gi Gr R Hf. eapply Rle_trans; [|apply (Sup g s l f); auto]. apply sum_to_le. intros j Hj. unfold after, live.
  destruct (astep l (regrs G (f j) s)) as [s1|]; [|lra]. destruct (afail s1); [apply Wpos|lra].
Qed.
Variable T : nat.
Variable a : R.
Hypothesis Hpos : 0 < a.

Lemma ville : forall m k v s, small v -> length v = nr (rg s) -> X k v = Some s -> (length v <= T)%nat ->
  cov N (T - length v) (W (base s) / a) (fun w => exists k' s', (k <= k' <= k + m)%nat /\ X k' (v ++ w) = Some s' /\ (nr (rg s') <= T)%nat /\ a <= W (base s')).
Proof using Hsel Hsam Ints Npos Wpos Sup Hpos.
  assert (NZ : INR N <> 0) by (apply not_0_INR; lia).
  assert (Div : forall b, 0 <= W b / a) by (intros b; apply Rmult_le_pos; [apply Wpos|left; now apply Rinv_0_lt_compat]).
  induction m as [|m IH]; intros k v s Hv Lv E LT.
  - destruct (Rle_lt_dec a (W (base s))) as [Big|Low].
    + apply cov_all. apply (Rmult_le_reg_r a); auto. unfold Rdiv. rewrite Rmult_assoc, Rinv_l, Rmult_1_r by lra. lra.
    + apply cov_none; auto. intros w (Lw & Bw) (k' & s' & Hk & E' & _ & B). replace k' with k in E' by lia.
      assert (Hu : small (v ++ w)) by (intros i Hi; apply in_app_or in Hi; destruct Hi; auto).
      rewrite (X_local k v (v ++ w) s Hv Hu E) in E'; [|intros i Hi; rewrite app_nth1 by lia; reflexivity].
      injection E' as <-. cbn in B. lra.
  - destruct (Rle_lt_dec a (W (base s))) as [Big|Low].
    { apply cov_all. apply (Rmult_le_reg_r a); auto. unfold Rdiv. rewrite Rmult_assoc, Rinv_l, Rmult_1_r by lra. lra. }
    set (l := sched k (map (gr (rg s)) (seq 0 (nr (rg s))))).
    destruct (step_live l s) as (j & Hj & St).
    destruct (X_gr _ _ _ Hv E) as (G1 & _).
    assert (Here : forall w, small w -> X k (v ++ w) = Some (regrs G (gr (dice ints N (v ++ w))) s)).
    { intros w Hw. apply (X_local k v); auto; [intros i Hi; apply in_app_or in Hi; destruct Hi; auto|]. intros i Hi. rewrite app_nth1 by lia. reflexivity. }
    assert (Next : forall w, small w -> X (Datatypes.S k) (v ++ w) = live (astep l (regrs G (gr (dice ints N (v ++ w))) s))).
    { intros w Hw. rewrite X_next, (Here w Hw). cbn [rg regrs regr gr nr]. f_equal. f_equal. unfold l. f_equal. apply map_ext_in. intros i Hi. apply in_seq in Hi. rewrite G1. cbn. rewrite app_nth1 by lia. reflexivity. }
    assert (App : forall w, small w -> small (v ++ w)) by (intros w Hw i Hi; apply in_app_or in Hi; destruct Hi; auto).
    assert (Not : forall w k' s', small w -> (k <= k')%nat -> X k' (v ++ w) = Some s' -> a <= W (base s') -> (Datatypes.S k <= k')%nat).
    { intros w k' s' Hw Hk E' B. destruct (Nat.eq_dec k k') as [<-|]; [|lia]. rewrite (Here w Hw) in E'. injection E' as <-. cbn in B. lra. }
    pose proof (X_ok _ _ _ E) as (Ra & _). destruct (dice_good v Hv) as (Gi & Gr).
    destruct j as [|j].
    + (* no draw *)
      destruct (live (astep l s)) as [s1|] eqn:E1.
      * rewrite <- (regrs_self G s) in E1. 
        assert (Ex : X (Datatypes.S k) v = Some s1) by (rewrite X_next, E; fold l; rewrite <- E1, regrs_self; reflexivity).
        destruct (St _ _ E1) as (_ & _ & H3 & H4).
        assert (Le : W (base s1) <= W (base s)).
        { pose proof (Sup' _ s l (fun j i => if Nat.eqb i (nr (rg s)) then INR j / INR N else gr (rg s) i) Gi Gr Ra ltac:(intros j _; cbn; now rewrite Nat.eqb_refl)) as Su.
          rewrite (sum_to_ext N _ (fun _ => W (base s1))) in Su.
          2: { intros i Hi. unfold after. rewrite H4; [reflexivity|]. intros i' Hi'. replace (Nat.eqb i' (nr (rg s))) with false; auto. symmetry. apply Nat.eqb_neq. lia. }
          rewrite sum_to_const in Su. apply (Rmult_le_reg_l (INR N)); auto. apply lt_0_INR; lia. }
        eapply cov_mono; [|intros w Ww; exact (fun h => h)|].
        { apply div_le; [exact Hpos|exact Le]. }
        eapply cov_mono; [apply Rle_refl| |apply (IH (Datatypes.S k) v s1 Hv ltac:(lia) Ex LT)].
        intros w (Lw & Bw) (k' & s' & Hk & E' & HT & B). exists k', s'. split; auto. pose proof (Not w k' s' Bw ltac:(lia) E' B). lia.
      * apply cov_none; auto. intros w (Lw & Bw) (k' & s' & Hk & E' & _ & B). pose proof (Not w k' s' Bw ltac:(lia) E' B) as Hk'.
        assert (Nn : X (Datatypes.S k) (v ++ w) = None).
        { rewrite (Next w Bw). destruct (live (astep l (regrs G (gr (dice ints N (v ++ w))) s))) as [s2|] eqn:E2; auto.
          destruct (St _ _ E2) as (_ & _ & _ & H4). specialize (H4 (gr (rg s))). rewrite regrs_self, E1 in H4. exfalso.
          assert (Hd : None = Some (regrs G (gr (rg s)) s2)); [|discriminate]. apply H4. intros i Hi. rewrite G1. cbn. rewrite app_nth1 by lia. reflexivity. }
        apply (X_none _ (k' - Datatypes.S k)) in Nn. replace (Datatypes.S k + (k' - Datatypes.S k))%nat with k' in Nn by lia. congruence.
    + (* one draw *)
      assert (j = 0)%nat by lia. subst j. destruct (Nat.eq_dec (length v) T) as [LvT|NT].
      * apply cov_none; auto. intros w (Lw & Bw) (k' & s' & Hk & E' & HT & B). pose proof (Not w k' s' Bw ltac:(lia) E' B) as Hk'.
        destruct (X (Datatypes.S k) (v ++ w)) as [s2|] eqn:E2.
        2: { apply (X_none _ (k' - Datatypes.S k)) in E2. replace (Datatypes.S k + (k' - Datatypes.S k))%nat with k' in E2 by lia. congruence. }
        pose proof E2 as E2'. rewrite (Next w Bw) in E2. destruct (St _ _ E2) as (_ & _ & H3 & _).
        pose proof (X_mono' (k' - Datatypes.S k) _ _ _ s' (App w Bw) E2') as Mo. replace (Datatypes.S k + (k' - Datatypes.S k))%nat with k' in Mo by lia. specialize (Mo E'). lia.
      * replace (T - length v)%nat with (Datatypes.S (T - length v - 1)) by lia.
        set (fj := fun j => gr (dice ints N (v ++ [j]))).
        set (aj := fun j => after (live (astep l (regrs G (fj j) s))) / a).
        apply cov_mono with (a := sum_to N aj / INR N) (P := fun w => exists k' s', (k <= k' <= k + Datatypes.S m)%nat /\ X k' (v ++ w) = Some s' /\ (nr (rg s') <= T)%nat /\ a <= W (base s')); auto.
        { pose proof (Sup' _ s l fj Gi Gr Ra) as Su.
          assert (Hd : forall j, (j < N)%nat -> fj j (nr (rg s)) = INR j / INR N) by (intros j _; unfold fj; cbn; rewrite app_nth2, Lv, Nat.sub_diag by lia; reflexivity).
          specialize (Su Hd). unfold aj, Rdiv. rewrite (sum_to_ext N _ (fun j => / a * after (live (astep l (regrs G (fj j) s))))) by (intros; ring).
          rewrite sum_to_scal. apply (Rmult_le_reg_r (INR N)); [apply lt_0_INR; lia|]. rewrite Rmult_assoc, Rinv_l, Rmult_1_r by auto.
          assert (0 < / a) by now apply Rinv_0_lt_compat. nra. }
        apply cov_first; auto. intros j Hj'. assert (Sj : small [j]) by (intros i [<-|[]]; auto).
        destruct (live (astep l (regrs G (fj j) s))) as [s1|] eqn:E1.
        -- assert (Ex : X (Datatypes.S k) (v ++ [j]) = Some s1) by (rewrite (Next [j] Sj); exact E1).
           destruct (St _ _ E1) as (_ & _ & H3 & _).
           pose proof (IH (Datatypes.S k) (v ++ [j]) s1 (App [j] Sj) ltac:(rewrite app_length; cbn; lia) Ex ltac:(rewrite app_length; cbn; lia)) as Cv.
           rewrite app_length in Cv. cbn [length] in Cv. replace (T - (length v + 1))%nat with (T - length v - 1)%nat in Cv by lia.
           eapply cov_mono; [| |exact Cv].
           ++ unfold aj. rewrite E1. cbn. lra.
           ++ intros w (Lw & Bw) (k' & s' & Hk & E' & HT & B). exists k', s'. rewrite <- app_assoc. cbn [app]. split; [|auto].
              assert (Hjw : small (j :: w)) by (intros i [<-|Hi]; auto). pose proof (Not (j :: w) k' s' Hjw ltac:(lia) E' B). lia.
        -- apply cov_none. { unfold aj. rewrite E1. cbn. unfold Rdiv. rewrite Rmult_0_l. lra. }
           intros w (Lw & Bw) (k' & s' & Hk & E' & HT & B). assert (Hjw : small (j :: w)) by (intros i [<-|Hi]; auto).
           pose proof (Not (j :: w) k' s' Hjw ltac:(lia) E' B) as Hk'.
           assert (Nn : X (Datatypes.S k) (v ++ j :: w) = None).
           { rewrite (Next (j :: w) Hjw). destruct (live (astep l (regrs G (gr (dice ints N (v ++ j :: w))) s))) as [s2|] eqn:E2; auto.
             destruct (St _ _ E2) as (_ & _ & _ & H4). specialize (H4 (fj j)). exfalso. rewrite E1 in H4.
             assert (Hd : None = Some (regrs G (fj j) s2)); [|discriminate]. apply H4. intros i Hi. unfold fj. cbn [dice gr].
             do 2 f_equal. destruct (Nat.eq_dec i (length v)) as [->|]; [rewrite !app_nth2, !Nat.sub_diag by lia; reflexivity|rewrite !app_nth1 by lia; reflexivity]. }
           apply (X_none _ (k' - Datatypes.S k)) in Nn. replace (Datatypes.S k + (k' - Datatypes.S k))%nat with k' in Nn by lia. congruence.
Qed.

(** Within [m] steps and [T] draws the quantity reaches [a] for at most a share [W / a] of the draws. *)
Lemma ville_run : forall m, cov N T (W (einit C n) / a) (fun u => exists k s, (k <= m)%nat /\ X k u = Some s /\ (nr (rg s) <= T)%nat /\ a <= W (base s)).
Proof using Hsel Hsam Ints Npos Wpos Sup Hpos.
  intros m. pose proof (ville m 0%nat [] (ainit C G n (dice ints N [])) ltac:(intros i []) eq_refl eq_refl ltac:(cbn; lia)) as H.
  cbn [length] in H. rewrite Nat.sub_0_r in H. eapply cov_mono; [| |exact H]; [apply Rle_refl|].
  intros w _ (k & s & Hk & E & HT & B). exists k, s. split; [lia|auto].
Qed.
End Ville.
