(** Schedulers that let a worker run trial after trial *)
From Coq Require Import List ZArith Bool Reals Lia Lra.
From Verif Require Import Base BaseProofs NumOps HelperModel HelperSpec EngineModel EngineSpec EngineProofs EngineInv EngineCount EngineResults AlgoModel AlgoProofs AlgoFinish AlgoTheorems QuietSpec
  OddsSpec OddsStep OddsVille.
Import ListNotations.
Open Scope R_scope.

Section Runs.
Context {S A : Type}.
Variable seqb : S -> S -> bool.
Variable aeqb : A -> A -> bool.
Hypothesis seqb_ok : decides seqb.
Hypothesis aeqb_ok : decides aeqb.
Variable C : @econf S A.
Hypothesis Md : (0 <= max_depth C)%Z.
Variable G : @algo S A.
Variable distr : S -> A -> list (S * R).
Hypothesis Hsel : forall n x kids cx, exists j, (j <= 1)%nat /\ reads j (select G n x kids cx).
Hypothesis Hsam : forall n x cx, exists cx1, forall g, sample G n x cx g =
  bind (sample_from_distribution R_ops (distr (cstate n) (cact n)) true g) (fun '(o, g1) => Ok (o, cx1, g1)).
Variable n : nat.
(** Draws with which the search does not fail. *)
Variable Fit : R -> Prop.
Hypothesis NoFail : forall g s, good_ints g -> good_reals g -> (forall i, Fit (gr g i)) -> areach seqb aeqb C G n g s -> afail s = None.
Variable r : nat.
Hypothesis Looks : looks_at_most G r.
Notation astep := (astep seqb aeqb C G).
Notation areach := (areach seqb aeqb C G).

(** The first worker runs; it starts a trial whenever it is idle. *)
Definition next_label (b : @est S A) : alabel := match nth_error (ths b) 0 with Some TIdle => AStart 0 | _ => ARun 0 end.
Fixpoint iter (k : nat) (s : ast G) : option (ast G) :=
  match k with O => Some s | Datatypes.S k' => match iter k' s with Some s1 => astep (next_label (base s1)) s1 | None => None end end.
Lemma iter_add : forall j k s, iter (j + k) s = match iter k s with Some s1 => iter j s1 | None => None end.
Proof using. induction j as [|j IH]; intros k s; cbn; [destruct (iter k s); reflexivity|]. rewrite IH. destruct (iter k s); reflexivity. Qed.
Lemma snoc : forall g s l s1, areach n g s -> astep l s = Some s1 -> areach n g s1.
Proof using.
  intros g s l s1 (ls & R) E. exists (ls ++ [l]). revert R. generalize (ainit C G n g). induction ls as [|k ls IH]; intros s0; cbn; [intros [= ->]; rewrite E; reflexivity|].
  destruct (AlgoModel.astep _ _ _ _ k s0); [auto|discriminate].
Qed.
Lemma iter_reach : forall k g s s1, areach n g s -> iter k s = Some s1 -> areach n g s1.
Proof using.
  induction k as [|k IH]; intros g s s1 R E; cbn in E; [injection E as <-; auto|]. destruct (iter k s) as [s2|] eqn:E2; [|discriminate]. eapply snoc; [eapply IH; eauto|exact E].
Qed.
Lemma iter_local : forall k g s f, good_ints g -> good_reals g -> (forall i, Fit (gr g i)) -> iter k (ainit C G n g) = Some s -> (forall i, (i < nr (rg s))%nat -> f i = gr g i) ->
  gr (rg s) = gr g /\ iter k (ainit C G n (regr f g)) = Some (regrs G f s).
Proof using Hsel Hsam NoFail.
  induction k as [|k IH]; intros g s f Gi Gr Ft E Hf.
  - injection E as <-. split; reflexivity.
  - pose proof (iter_reach _ g _ _ ltac:(exists []; reflexivity) E) as R. pose proof (NoFail g s Gi Gr Ft R) as Fs. cbn [iter] in E |- *. destruct (iter k (ainit C G n g)) as [s1|] eqn:E1; [|discriminate].
    destruct (step_local seqb aeqb C G distr Hsel Hsam (next_label (base s1)) s1) as (j & _ & H). rewrite <- (regrs_self G s1) in E at 2. destruct (H _ _ E Fs) as (H1 & _ & H3 & H4).
    destruct (IH g s1 f Gi Gr Ft E1 ltac:(intros i Hi; apply Hf; lia)) as (G1 & ->). split; [congruence|]. cbn [base regrs].
    specialize (H4 f). apply H4. intros i Hi. rewrite Hf by lia. congruence.
Qed.

(** Such a strategy is a scheduler: what happened so far follows from the numbers drawn so far. *)
Definition run_on (ints : nat -> Z) (k : nat) (drawn : list R) : alabel :=
  match iter k (ainit C G n (mkRng ints (fun i => nth i drawn 0) 0 0)) with Some s => next_label (base s) | None => AStart 0 end.
Lemma follow_iter : forall ints g k, (forall i, gi g i = ints i) -> good_ints g -> good_reals g -> (forall i, Fit (gr g i)) -> ni g = 0%nat -> nr g = 0%nat -> gi g = ints ->
  follow seqb aeqb C G (run_on ints) k (ainit C G n g) = iter k (ainit C G n g).
Proof using Hsel Hsam NoFail.
  intros ints g k _ Gi Gr Ft N0 R0 Ei. induction k as [|k IH]; cbn [follow iter]; auto. rewrite IH. destruct (iter k (ainit C G n g)) as [s|] eqn:E; auto. f_equal.
  unfold run_on. set (f := fun i => nth i (map (gr (rg s)) (seq 0 (nr (rg s)))) 0).
  destruct (iter_local k g s (gr g) Gi Gr Ft E ltac:(auto)) as (G1 & _).
  destruct (iter_local k g s f Gi Gr Ft E) as (_ & E2).
  { intros i Hi. unfold f. rewrite (nth_indep _ 0 (gr (rg s) 0%nat)) by (rewrite map_length, seq_length; lia). rewrite map_nth, seq_nth by lia. now rewrite G1. }
  replace (mkRng ints f 0 0) with (regr f g) by (unfold regr; rewrite Ei, N0, R0; reflexivity). rewrite E2. reflexivity.
Qed.

Hypothesis Hn : (0 < n)%nat.
Lemma iter_trial : forall g, good_ints g -> good_reals g -> (forall i, Fit (gr g i)) -> forall m, exists k s, iter k (ainit C G n g) = Some s /\ quiet (base s) /\ count is_start (etrace (base s)) = Z.of_nat m.
Proof using seqb_ok aeqb_ok Md Hn NoFail Looks.
  intros g Gi Gr Ft. destruct Looks as (rank & R1 & R2 & R3). assert (NF : forall s, areach n g s -> afail s = None) by (intros; eapply NoFail; eauto).
  induction m as [|m (k & s & E & Qs & Cs)].
  - exists 0%nat, (ainit C G n g). split; [reflexivity|]. split; auto. intros t x H. cbn in H. apply nth_error_In, repeat_spec in H. auto.
  - assert (R : areach n g s) by (eapply iter_reach; [exists []; reflexivity|exact E]). pose proof (areach_ereach seqb aeqb C G _ _ _ R) as Er.
    destruct (thread_ex seqb aeqb seqb_ok aeqb_ok C n (base s) 0 Er Hn) as [x Hx]. pose proof (Qs _ _ Hx) as ->.
    assert (E1 : exists s1, astep (AStart 0) s = Some s1 /\ ths (base s1) = upd (ths (base s)) 0 (TSel 0 false [] []) /\ etrace (base s1) = (0%nat, EStart) :: etrace (base s)).
    { unfold AlgoModel.astep. rewrite (NF _ R). unfold estep. rewrite Hx. cbn [out]. eexists. repeat split; reflexivity. }
    destruct E1 as (s1 & E1 & Et & Ee). pose proof (snoc _ _ _ _ R E1) as Rs1.
    destruct (finishes seqb aeqb seqb_ok aeqb_ok C G rank r R1 R2 R3 n g Md NF s1 0 Hn Rs1) as (j & s' & _ & Ej & I1 & I2 & I3).
    { intros u y cy Nu Hy _. rewrite Et, nth_upd_ne in Hy by auto. now rewrite (Qs _ _ Hy). }
    exists (j + Datatypes.S k)%nat, s'. rewrite iter_add. cbn [iter]. rewrite E. unfold next_label. rewrite Hx, E1. split; [|split].
    + assert (Go : forall j s1 s', arun seqb aeqb C G (repeat (ARun 0) j) s1 = Some s' -> iter j s1 = Some s').
      { clear. induction j as [|j IH]; intros s1 s' H; [exact H|]. cbn [repeat arun] in H. destruct (astep (ARun 0) s1) as [s2|] eqn:E; [|discriminate].
        replace (Datatypes.S j) with (j + 1)%nat by lia. rewrite iter_add. cbn [iter]. replace (next_label (base s1)) with (ARun 0).
        - rewrite E. auto.
        - unfold next_label. unfold AlgoModel.astep in E. destruct (afail s1); [discriminate|]. destruct (nth_error (ths (base s1)) 0) as [[]|]; auto.
          destruct (nth_error (cxs s1) 0); [|discriminate]. destruct (blocked _ _ _ _); discriminate. }
      auto.
    + intros t x Q. destruct (Nat.eq_dec t 0) as [->|N]; [congruence|]. rewrite (proj1 (I2 t N)) in Q. rewrite Et in Q.
      rewrite (nth_upd _ _ _ _ _ _ Hx) in Q. destruct (Nat.eqb_spec 0 t); [congruence|]. eapply Qs; eauto.
    + rewrite I3, Ee, count_cons, Cs. cbn [is_start b2z]. lia.
Qed.

Lemma runs_exist : forall ints, (forall i, (0 <= ints i)%Z) -> exists sched, forall N u m, (0 < N)%nat -> (forall i, In i u -> (i < N)%nat) -> (forall j, (j < N)%nat -> Fit (INR j / INR N)) ->
  exists k s, follow seqb aeqb C G sched k (ainit C G n (dice ints N u)) = Some s /\ quiet (base s) /\
    count is_start (etrace (base s)) = Z.of_nat m /\ count is_done (etrace (base s)) = Z.of_nat m.
Proof using seqb_ok aeqb_ok Md Hsel Hsam Hn NoFail Looks.
  intros ints Ints. exists (run_on ints). intros N u m Npos Hu Hf.
  assert (Ft : forall i, Fit (gr (dice ints N u) i)).
  { intros i. cbn. apply Hf. destruct (Nat.lt_ge_cases i (length u)) as [L|L]; [apply Hu, nth_In; auto|rewrite nth_overflow by lia; lia]. }
  destruct (dice_good ints Ints N Npos u Hu) as (Gi & Gr).
  destruct (iter_trial (dice ints N u) Gi Gr Ft m) as (k & s & E & Qs & Cs). exists k, s. rewrite follow_iter by auto. split; auto. split; auto. split; auto.
  assert (R : areach n (dice ints N u) s) by (eapply iter_reach; [exists []; reflexivity|exact E]).
  destruct (C10_idle' seqb aeqb seqb_ok aeqb_ok C n (base s) (areach_ereach seqb aeqb C G _ _ _ R) Qs) as [Ed _]. congruence.
Qed.
End Runs.
