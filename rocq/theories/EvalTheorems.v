(** Property theorems about evaluations: C47, C48, C49, C50, C67. *)
From Coq Require Import List ZArith Bool Reals Lia Lra Permutation.
From Coq Require Import Floats.SpecFloat.
From Verif Require Import Base BaseProofs NumOps HelperModel HelperSpec HelperProofs PickSpec EngineModel EngineSpec EngineTheorems
  AlgoModel AlgoProofs MapModel UctModel UctSpec UctTheorems EvalModel EvalSpec EvalProofs.
Import ListNotations.
Open Scope R_scope.

Section Theorems.
Context {S A O DN CN : Type}.
Variable T : @tree A O DN CN.
Variable E : @env S A O.
Variable max_length : Z.
Variable p : @policy DN.                 (* the policy given to the evaluator *)
Variables n k : Z.                       (* run_rollouts(n, k) *)
Variable old : list R.                   (* returns stored before *)
Variable g0 : rng R.
Notation runs := (erun T E max_length p n k (einit old g0)).

Section Runs.
Hypothesis k_pos : (1 <= k)%Z.
(** Sampling functions use the generator only by drawing from it. *)
Hypothesis rec_adv : forall d, advances (recommend T d).
Hypothesis next_adv : forall s a, advances (next E s a).
Hypothesis obs_adv : forall a s, advances (observe E a s).

(** ** C47 *)
(** When run_rollouts(n,k) returns, after any interleaving of its threads, exactly n returns have been appended. Each is
    the sum of rewards of a rollout of the policy, which ended in a sink state (or max_trial_length is not positive and
    it has no steps). *)
Theorem C47_all_rollouts : forall ls s, runs ls = Some s -> main s = MDone ->
  length (returns s) = (length old + Z.to_nat n)%nat /\
  exists hs, returns s = old ++ map (total_reward E) hs /\ length hs = Z.to_nat n /\
    forall h, In h hs -> exists s', rollout T E g0 (proot p) h s' /\ ((max_length <= 0)%Z /\ h = [] \/ sink E s' = true).
Proof.
  intros ls s H M. apply (returned T E max_length p n k old g0 k_pos s); auto.
  apply inv_reached; auto. exists ls. exact H.
Qed.
(** Every index below n is done once, so no rollout is repeated or left out. *)
Theorem C47_each_once : forall ls s, runs ls = Some s -> main s = MDone ->
  Permutation (map fst (done s)) (map Z.of_nat (seq 0 (Z.to_nat n))).
Proof.
  intros ls s H M. apply (all_done T E max_length p n k old g0 k_pos s); auto. apply inv_reached; auto. exists ls. exact H.
Qed.
(** Until then some thread can continue, unless a thread failed. *)
Theorem C47_no_deadlock : forall ls s, runs ls = Some s -> main s <> MDone ->
  (exists t f, nth_error (ws s) t = Some (WFail f)) \/ exists l, estep T E max_length p n k s l <> None.
Proof.
  intros ls s H M. apply (moves T E max_length p n k old g0 k_pos s); auto. apply inv_reached; auto. exists ls. exact H.
Qed.
(** If rollouts are bounded then so is the number of steps of all threads together. *)
Theorem C47_terminates : forall L, ((0 < max_length)%Z -> forall h s, rollout T E g0 (proot p) h s -> (length h <= L)%nat) ->
  exists B, forall ls s, runs ls = Some s -> (length ls <= B)%nat.
Proof. intros L H. exact (terminates T E max_length p n k old g0 k_pos rec_adv next_adv obs_adv L H). Qed.

(** ** C67 *)
(** No thread fails if the recommendations, the random actions and the environment's functions do not fail on the way,
    recommendations do not read the context (or the environment keeps it alive) and n+k-1 is an int. *)
Definition safe {X} (f : rng R -> outcome (X * rng R)) : Prop :=
  forall g, gi g = gi g0 -> gr g = gr g0 -> exists x g', f g = Ok (x, g').
Definition can_choose (h : list (S * A * O * S)) (s : S) (a : A) : Prop :=
  match walk T (proot p) (map (fun '(_, a, o, _) => (a, o)) h) with
  | Some d => possible g0 (recommend T d) a
  | None => In a (valid E s)
  end.
Definition safe_policy : Prop := forall h s, rollout T E g0 (proot p) h s -> sink E s = false ->
  match walk T (proot p) (map (fun '(_, a, o, _) => (a, o)) h) with
  | Some d => (uses_context T d = true -> keeps_context E = true) /\ safe (recommend T d)
  | None => valid E s <> []
  end.
Definition safe_env : Prop := forall h s a, rollout T E g0 (proot p) h s -> sink E s = false -> can_choose h s a ->
  safe (next E s a) /\ forall s', possible g0 (next E s a) s' -> safe (observe E a s').
Lemma policy_ok : good_ints g0 -> safe_policy -> forall h x, rollout T E g0 (proot p) h x -> sink E x = false ->
  match walk T (proot p) (map (fun '(_, a, o, _) => (a, o)) h) with
  | Some d => (uses_context T d = true -> keeps_context E = true) /\ safe (recommend T d)
  | None => safe (get_random_action E x)
  end.
Proof using.
  intros Hg SP h x Rx Sx. specialize (SP h x Rx Sx). destruct (walk T (proot p) _) as [d|]; [exact SP|].
  intros g G1 G2. assert (Gi : good_ints g) by (intros i; rewrite G1; apply Hg).
  rewrite random_action_choice by auto. unfold random_choice.
  assert (L : (0 < Z.of_nat (length (valid E x)))%Z) by (destruct (valid E x); [congruence|cbn; lia]).
  pose proof (Z.mod_pos_bound (gi g (ni g)) _ L).
  destruct (nth_error (valid E x) (Z.to_nat (gi g (ni g) mod Z.of_nat (length (valid E x))))) eqn:N; [eauto|].
  apply nth_error_None in N. lia.
Qed.
Theorem C67_never_fails : good_ints g0 -> (n + k - 1 <= int_max)%Z -> safe_policy -> safe_env ->
  forall ls s t f, runs ls = Some s -> nth_error (ws s) t <> Some (WFail f).
Proof.
  intros Hg Fit SP SE ls s t f H Q.
  apply (no_failure T E max_length p n k old g0 k_pos rec_adv next_adv obs_adv Fit) with (s := s).
  - exact (policy_ok Hg SP).
  - intros h x a Rx Sx Cx. apply (SE h x a Rx Sx Cx).
  - intros h x a s' Rx Sx Cx Px. now apply (SE h x a Rx Sx Cx).
  - exists ls. exact H.
  - exists t, f. exact Q.
Qed.
(** With bounded rollouts it can be run to its end ... *)
Theorem C67_completes : good_ints g0 -> (n + k - 1 <= int_max)%Z -> safe_policy -> safe_env ->
  forall L, ((0 < max_length)%Z -> forall h s, rollout T E g0 (proot p) h s -> (length h <= L)%nat) ->
  exists ls s, runs ls = Some s /\ main s = MDone.
Proof.
  intros Hg Fit SP SE L Sh.
  apply (finishes T E max_length p n k old g0 k_pos rec_adv next_adv obs_adv Fit) with (L := L); auto.
  - exact (policy_ok Hg SP).
  - intros h x a Rx Sx Cx. apply (SE h x a Rx Sx Cx).
  - intros h x a s' Rx Sx Cx Px. now apply (SE h x a Rx Sx Cx).
Qed.
(** ... and every schedule that goes on as long as possible ends with run_rollouts returning. *)
Theorem C67_returns : good_ints g0 -> (n + k - 1 <= int_max)%Z -> safe_policy -> safe_env ->
  forall ls s, runs ls = Some s -> (forall l, estep T E max_length p n k s l = None) -> main s = MDone.
Proof.
  intros Hg Fit SP SE ls s H St. assert (D : main s = MDone \/ main s <> MDone) by (destruct (main s); [right; discriminate|right; discriminate|now left]).
  destruct D as [D|D]; auto. destruct (C47_no_deadlock ls s H D) as [(t & f & Q)|(l & Q)].
  - now elim (C67_never_fails Hg Fit SP SE ls s t f H).
  - now elim Q.
Qed.
(** With more rollouts than that the counter of a thread overflows and run_rollouts does not return. *)
Theorem C67_overflow : (1 <= n)%Z -> (int_max < n + k - 1)%Z -> forall ls s, runs ls = Some s -> main s <> MDone.
Proof.
  intros Hn Hk ls s H. apply (overflow T E max_length p n k old g0 k_pos rec_adv next_adv obs_adv); auto. exists ls. exact H.
Qed.

(** ** C48 *)
(** Rollouts end only in sink states: in an environment without them run_rollouts never returns, whatever
    max_trial_length > 0 is. *)
Theorem C48_endless_refuted : (1 <= n)%Z -> (0 < max_length)%Z -> (forall s, sink E s = false) ->
  forall ls s, runs ls = Some s -> main s <> MDone.
Proof.
  intros Hn Hm Ns ls s H M. destruct (C47_all_rollouts ls s H M) as (_ & hs & _ & L & Q).
  destruct hs as [|h hs]; [cbn in L; lia|]. destruct (Q h (or_introl eq_refl)) as (s' & _ & [[B _]|B]); [lia|]. rewrite Ns in B. discriminate.
Qed.
(** If max_trial_length is not positive no action is taken. *)
Theorem C48_no_actions_partial : (max_length <= 0)%Z -> forall ls s t r a, runs ls = Some s -> nth_error (ws s) t <> Some (WNext r a).
Proof.
  intros Hm ls s t r a H Q.
  assert (I : inv T E max_length p n k old g0 s) by (apply inv_reached; auto; exists ls; exact H).
  destruct (i_w _ _ _ _ _ _ _ _ s I t _ Q) as [[_ [W _]] _]. lia.
Qed.
End Runs.

(** ** C50 *)
(** After a reset and any steps the policy is at the node of the tree reached by these steps, or at none. *)
Theorem C50_follows : forall (q : @policy DN) steps,
  pcur (fold_left (fun q '(a, o) => update_step T q a o) steps (reset q)) = walk T (proot q) steps.
Proof.
  intros q steps. assert (K : forall l r done, proot r = proot q -> pcur r = walk T (proot q) done ->
    pcur (fold_left (fun q '(a, o) => update_step T q a o) l r) = walk T (proot q) (done ++ l)).
  { induction l as [|[a o] l IH]; intros r dn R1 R2; cbn [fold_left].
    - now rewrite app_nil_r.
    - destruct (update_walk T r a o dn) as [U1 U2]; [congruence|]. rewrite (IH _ (dn ++ [(a, o)])); [|congruence|congruence].
      now rewrite <- app_assoc. }
  exact (K steps (reset q) [] eq_refl eq_refl).
Qed.
(** Once outside the tree it stays outside until the next reset. *)
Theorem C50_stays_outside : forall root l l', walk T root l = None -> walk T root (l ++ l') = None.
Proof.
  intros root l l'. revert root. induction l as [|[a o] l IH]; intros root H; cbn [walk app] in *.
  - subst. apply walk_none.
  - destruct root as [d|]; auto. destruct (kid_c T d a) as [c|]; auto.
Qed.
(** A copy is a policy that has just been reset. *)
Theorem C50_copy : forall q : @policy DN, copy_policy q = reset q /\ pcur (copy_policy q) = proot q.
Proof. intros q. split; reflexivity. Qed.
(** Actions: the recommendation of the current node, or a uniformly random valid action. *)
Theorem C50_actions : forall (q : @policy DN) s g, good_ints g -> valid E s <> [] ->
  get_action T E q true s g = match pcur q with Some d => recommend T d g | None => random_choice E s g end.
Proof.
  intros q s g Hg NE. unfold get_action. destruct (pcur q) as [d|]; [now rewrite andb_false_r|]. now apply random_action_choice.
Qed.
(** But the evaluator's context is destroyed before it is used: a recommendation that reads it is undefined. *)
Theorem C68_context_refuted : forall (q : @policy DN) d s g, pcur q = Some d -> uses_context T d = true -> keeps_context E = false ->
  get_action T E q (keeps_context E) s g = UB.
Proof. intros q d s g H1 H2 H3. unfold get_action. now rewrite H1, H2, H3. Qed.
End Theorems.

(** ** Evaluating a search *)
Section Search.
Context {S A : Type}.
Variable seqb : S -> S -> bool.
Variable aeqb : A -> A -> bool.
Hypothesis seqb_ok : decides seqb.
Hypothesis aeqb_ok : decides aeqb.
Variable C : @econf S A.
Variable nx : S -> A -> rng R -> outcome (S * rng R).
(** While the policy is in the tree its node has the state of the rollout. *)
Theorem C50_node_has_state : forall m rec g0 h s d, well_formed seqb aeqb C m ->
  rollout (tree_of seqb aeqb m rec) (env_of C nx) g0 (Some 0%nat) h s ->
  walk (tree_of seqb aeqb m rec) (Some 0%nat) (map (fun '(_, a, o, _) => (a, o)) h) = Some d ->
  exists node, nth_error (dh m) d = Some node /\ dstate node = s.
Proof using.
  intros m rec g0 h s d Wf Ro. revert d. induction Ro as [|h s a o s' Ro IH Sk Ch Nx Ob]; intros d W.
  - cbn in W. injection W as <-. destruct (wf_root _ _ _ _ Wf) as (nd & N1 & N2 & _). eauto.
  - rewrite map_app in W. cbn [map] in W. rewrite walk_snoc in W.
    destruct (walk _ _ (map _ h)) as [d0|] eqn:W0; [|discriminate]. destruct (IH d0 eq_refl) as (nd & N1 & N2).
    cbn [kid_c kid_d tree_of] in W. rewrite N1 in W. destruct (lookup aeqb a (dkids nd)) as [c|] eqn:L1; [|discriminate].
    destruct (wf_d _ _ _ _ Wf d0 nd a c N1 L1) as (x & X1 & _). rewrite X1 in W.
    destruct (wf_c _ _ _ _ Wf c x o d X1 W) as (nd' & Y1 & Y2 & _). exists nd'. split; auto.
    destruct Ob as (g & g' & _ & _ & Q). cbn in Q. injection Q as <- _. exact Y2.
Qed.

Variable U : @uconf S A.
Lemma rand_advances : forall l (g : rng R) (a : A) g', bind (get_rand_int 0 (Z.of_nat (length l)) g) (fun '(i, g1) =>
  bind (vec_at_checked l i) (fun a => Ok (a, g1))) = Ok (a, g') -> gi g' = gi g /\ gr g' = gr g.
Proof using.
  intros l g a g' H. unfold get_rand_int in H. destruct (_ =? 0)%Z; [discriminate|]. cbn [bind] in H.
  destruct (vec_at_checked _ _); try discriminate. injection H as <- <-. auto.
Qed.
Lemma max_advances : forall V ltb low m g (a : A) g', @get_max_key A V ltb low R m g = Ok (a, g') -> gi g' = gi g /\ gr g' = gr g.
Proof using.
  intros V ltb low m g a g' H. unfold get_max_key in H.
  assert (K : forall l, bind (get_rand_int 0 (Z.of_nat (length l)) g) (fun '(i, g1) => bind (vec_at l i) (fun a => Ok (a, g1))) = Ok (a, g') ->
    gi g' = gi g /\ gr g' = gr g).
  { intros l Q. unfold get_rand_int in Q. destruct (_ =? 0)%Z; [discriminate|]. cbn [bind] in Q.
    destruct (vec_at _ _); try discriminate. injection Q as <- <-. auto. }
  destruct (best_keys_loop _ _ _ _) as [|x [|y l]]; [exact (K _ H)|injection H as <- <-; auto|exact (K _ H)].
Qed.
Lemma recommend_advances : forall node kids, advances (uct_recommend aeqb C U node kids).
Proof using.
  intros node kids g a g' H. unfold uct_recommend in H.
  destruct (umost_visited U); unfold uct_most_visited, uct_best_empirical, uct_random in H;
    destruct (mbuild _ _ _ _); eauto using rand_advances, max_advances.
Qed.
(** A UCT search of a sane environment, stopped at any time, can be evaluated: no thread fails. *)
Theorem C67_uct_evaluation : forall B nt g s, uct_ok C U -> sane C U B -> areach seqb aeqb C (uct aeqb C U) nt g s ->
  (forall x, is_sink C x = false -> NoDup (acts C x)) ->
  forall g0 max_length n k old, good_ints g0 -> (1 <= k)%Z -> (n + k - 1 <= int_max)%Z ->
  (forall x a, advances (nx x a)) ->
  (forall x a, is_sink C x = false -> In a (acts C x) -> forall g, exists x' g', nx x a g = Ok (x', g')) ->
  let T := tree_of seqb aeqb (mem (base s)) (fun _ node => uct_recommend aeqb C U node (dview s node)) in
  forall ls e t f, erun T (env_of C nx) max_length (new_policy (Some 0%nat)) n k (einit old g0) ls = Some e ->
    nth_error (ws e) t <> Some (WFail f).
Proof.
  intros B nt g s Uok Sane Rs ND g0 ml n k old Hg Hk Fit Adv Nok T ls e t f H.
  assert (RA : forall d, advances (recommend T d)).
  { intros d g1 x g2 Q. unfold T in Q. cbn [recommend tree_of] in Q. destruct (nth_error _ d); [|discriminate].
    exact (recommend_advances _ _ g1 x g2 Q). }
  assert (Wf : well_formed seqb aeqb C (mem (base s))).
  { eapply C12_well_formed; eauto. eapply areach_ereach; eauto. }
  assert (Pk : forall h x d, rollout T (env_of C nx) g0 (Some 0%nat) h x -> is_sink C x = false ->
    walk T (Some 0%nat) (map (fun '(_, a, o, _) => (a, o)) h) = Some d ->
    (forall g1, good_ints g1 -> exists a g2, recommend T d g1 = Ok (a, g2)) /\
    forall a, possible g0 (recommend T d) a -> In a (acts C x)).
  { intros h x d Ro Sk W. destruct (C50_node_has_state _ _ _ _ _ _ Wf Ro W) as (node & N1 & N2). subst x.
    destruct (C21_uct_recommendation seqb aeqb seqb_ok aeqb_ok C U B Uok Sane nt g s d node Rs N1 Sk (ND _ Sk)) as (ks & K1 & K2 & K3 & K4).
    unfold T. cbn [recommend tree_of]. rewrite N1. split.
    - intros g1 G1. destruct (K4 g1 G1) as (a & g2 & Q & _). eauto.
    - intros a (g1 & g2 & G1 & _ & Q). destruct (K4 g1) as (a' & g' & Q' & _ & _ & I); [intros i; rewrite G1; apply Hg|].
      rewrite Q' in Q. injection Q as -> _. apply nth_error_In in I. now apply K3 in I. }
  eapply (C67_never_fails T (env_of C nx) ml (new_policy (Some 0%nat)) n k old g0 Hk RA Adv); auto.
  - intros a x g1 y g2 Q. cbn in Q. injection Q as <- <-. auto.
  - intros h x Ro Sk. destruct (walk T _ _) as [d|] eqn:W; cbn [new_policy proot] in W.
    + split; [discriminate|]. intros g1 G1 G2. apply (proj1 (Pk h x d Ro Sk W)). intros i. rewrite G1. apply Hg.
    + cbn. cbn [env_of sink] in Sk. exact (proj1 Sane x Sk).
  - intros h x a Ro Sk Cc. assert (Ia : In a (acts C x)).
    { unfold can_choose in Cc. cbn [new_policy proot] in Cc. destruct (walk T _ _) as [d|] eqn:W; [|exact Cc]. now apply (Pk h x d Ro Sk W). }
    split; [intros g1 _ _; apply (Nok x a Sk Ia)|]. intros s' _ g1 _ _. cbn. eauto.
  - exact H.
Qed.
End Search.

(** ** C49 *)
Open Scope R_scope.
(** The mean is the arithmetic mean of the stored returns, in any order, and 0 if there are none. *)
Theorem C49_mean : forall l, l <> [] -> mean_return R_ops l = mean l.
Proof. exact mean_is. Qed.
Theorem C49_order : forall l l', Permutation l l' -> mean_return R_ops l = mean_return R_ops l'.
Proof.
  intros l l' P. destruct l as [|x l].
  - apply Permutation_nil in P. now subst.
  - rewrite !mean_is; [|intros ->; apply Permutation_sym, Permutation_nil in P; discriminate|discriminate].
    unfold mean. now rewrite (sum_perm _ _ P), (Permutation_length P).
Qed.
Theorem C49_no_returns : mean_return R_ops [] = 0.
Proof. reflexivity. Qed.
(** get_stddev_return returns the sample variance, for at least two returns. *)
Theorem C49_stddev_is_variance : forall l, (2 <= length l)%nat -> stddev_return R_ops l = variance l.
Proof. intros l H. apply stddev_is. intros ->. cbn in H. lia. Qed.
(** So it is the standard deviation only if that is 0 or 1. *)
Theorem C49_stddev_refuted : forall l, (2 <= length l)%nat -> variance l <> 0 -> variance l <> 1 -> stddev_return R_ops l <> stddev l.
Proof.
  intros l H N0 N1 Q. rewrite C49_stddev_is_variance in Q by auto. unfold stddev in Q.
  destruct (Rle_or_lt 0 (variance l)) as [P|P].
  - assert (Z : variance l * variance l = variance l) by (rewrite Q at 1 2; now apply sqrt_sqrt).
    assert (Y : variance l * (variance l - 1) = 0) by lra. apply Rmult_integral in Y. destruct Y; lra.
  - rewrite sqrt_neg_0 in Q by lra. lra.
Qed.
Example C49_variance_witness : variance [1; 5] = 8 /\ mean [1; 5] = 3.
Proof. unfold variance, mean, sum. cbn. split; field. Qed.
(** With one return it is NaN, in binary64. *)
Theorem C49_one_return_refuted : stddev_return F_ops [Fof 5] = S754_nan.
Proof. vm_compute. reflexivity. Qed.

(** ** Witnesses *)
Notation tt := Datatypes.tt.
(** States count down to the sink 0; the first action is recommended by the tree, the others are random. *)
Section Witness.
Definition ewT : @tree unit nat unit unit := mkTree (fun _ _ => Some tt) (fun _ _ => None) (fun _ g => Ok (tt, g)) (fun _ => false).
Definition ewE : @env nat unit nat := mkEnv 2%nat (fun s => Nat.eqb s 0) (fun _ => [tt]) (fun s _ g => Ok (pred s, g))
  (fun _ s g => Ok (s, g)) (fun s _ _ => INR s) false.
Definition ewg : rng R := mkRng (fun _ => 7%Z) (fun _ => 0) 0 0.
Definition ewp : @policy unit := new_policy (Some tt).
Lemma ew_rollout : forall h s, rollout ewT ewE ewg (proot ewp) h s ->
  (length h + s = 2)%nat /\ total_reward ewE h = match s with 0%nat => 3 | 1%nat => 2 | _ => 0 end.
Proof.
  assert (Ap : forall h x, total_reward ewE (h ++ [x]) = total_reward ewE h + total_reward ewE [x]) by (intros; apply total_reward_app).
  intros h s H. induction H as [|h s a o s' Ro [IH1 IH2] Sk Ch Nx Ob]; [cbn; split; auto|].
  destruct Nx as (g & g' & _ & _ & Q). cbn in Q. injection Q as <- _. rewrite app_length, Ap, IH2. cbn [length].
  destruct s as [|[|[|s]]]; cbn in Sk; [discriminate| | |]; cbn [pred total_reward reward ewE INR]; (split; [lia|]); try lra; lia.
Qed.
(** Five rollouts on three threads: the run exists, and it stores 5 returns of 2+1. *)
Example C47_witness : exists ls s, erun ewT ewE 10 ewp 5 3 (einit [4] ewg) ls = Some s /\ main s = MDone /\
  returns s = [4; 3; 3; 3; 3; 3].
Proof.
  assert (G : good_ints ewg) by (intros i; cbn; lia).
  assert (R1 : forall d, advances (recommend ewT d)) by (intros d g x g' Q; cbn in Q; injection Q as <- <-; auto).
  assert (R2 : forall s a, advances (next ewE s a)) by (intros s a g x g' Q; cbn in Q; injection Q as <- <-; auto).
  assert (R3 : forall a s, advances (observe ewE a s)) by (intros s a g x g' Q; cbn in Q; injection Q as <- <-; auto).
  destruct (C67_completes ewT ewE 10 ewp 5 3 [4] ewg) with (L := 2%nat) as (ls & s & H & M); auto; try lia.
  - unfold int_max. lia.
  - intros h s Ro Sk. destruct (walk _ _ _).
    + split; [discriminate|]. intros g _ _. cbn. eauto.
    + cbn. discriminate.
  - intros h s a Ro Sk _. split; [intros g _ _; cbn; eauto|]. intros s' _ g _ _. cbn. eauto.
  - intros _ h s Ro. apply ew_rollout in Ro. lia.
  - exists ls, s. split; [exact H|]. split; [exact M|].
    destruct (C47_all_rollouts ewT ewE 10 ewp 5 3 [4] ewg ltac:(lia) R1 R2 R3 ls s H M) as (_ & hs & -> & L & Q).
    cbn [app]. f_equal. change (Z.to_nat 5) with 5%nat in L.
    assert (K : forall l, (forall h, In h l -> total_reward ewE h = 3) -> map (total_reward ewE) l = repeat 3 (length l)).
    { induction l as [|h l IH]; intros P; cbn; [auto|]. rewrite IH, (P h); auto; [now left|intros h' I; apply P; now right]. }
    rewrite K, L; [reflexivity|]. intros h I. destruct (Q h I) as (s' & Ro & [[B _]|B]); [lia|].
    destruct (ew_rollout _ _ Ro) as [_ ->]. cbn in B. destruct s'; [auto|discriminate].
Qed.

(** C48: without a sink, with max_trial_length = 1, rollouts grow beyond every bound. *)
Definition ezE : @env unit unit unit := mkEnv tt (fun _ => false) (fun _ => [tt]) (fun s _ g => Ok (s, g))
  (fun _ s g => Ok (s, g)) (fun _ _ _ => 1) false.
Definition ezT : @tree unit unit unit unit := mkTree (fun _ _ => None) (fun _ _ => None) (fun _ g => Ok (tt, g)) (fun _ => false).
Theorem C48_refuted : forall N, exists ls s r, erun ezT ezE 1 (new_policy None) 1 1 (einit [] ewg) ls = Some s /\
  nth_error (ws s) 0 = Some (WHead r) /\ length (hist r) = N.
Proof.
  set (ru := erun ezT ezE 1 (new_policy None) 1 1).
  assert (Ap : forall l1 l2 s, ru s (l1 ++ l2) = match ru s l1 with Some s' => ru s' l2 | None => None end).
  { unfold ru. induction l1 as [|l l1 IH]; intros l2 s; cbn [erun app]; [auto|]. destruct (estep _ _ _ _ _ _ s l); auto. }
  assert (K : forall N, exists ls x h m, length h = N /\ ru (einit [] ewg) ls =
    Some (mkE (MSpawn 1) [WHead (mkRoll 0 (mkPol None None) 0 tt x h)] [] (mkRng (fun _ => 7%Z) (fun _ => 0) m 0) [])).
  { induction N as [|N (ls & x & h & m & L & H)].
    - exists [LMain; LWork 0], 0, [], 0%nat. split; auto.
    - exists (ls ++ [LWork 0; LWork 0; LWork 0]). rewrite Ap, H.
      eexists _, ((tt, tt, tt, tt) :: h), _. split; [cbn; now rewrite L|]. unfold ru.
      reflexivity. }
  intros N. destruct (K N) as (ls & x & h & m & L & H). eexists ls, _, _. split; [exact H|]. split; [reflexivity|exact L].
Qed.
End Witness.
Print Assumptions C47_all_rollouts.
Print Assumptions C47_each_once.
Print Assumptions C47_no_deadlock.
Print Assumptions C47_terminates.
Print Assumptions C67_never_fails.
Print Assumptions C67_completes.
Print Assumptions C67_returns.
Print Assumptions C67_overflow.
Print Assumptions C67_uct_evaluation.
Print Assumptions C48_endless_refuted.
Print Assumptions C48_no_actions_partial.
Print Assumptions C48_refuted.
Print Assumptions C50_follows.
Print Assumptions C50_stays_outside.
Print Assumptions C50_copy.
Print Assumptions C50_actions.
Print Assumptions C68_context_refuted.
Print Assumptions C50_node_has_state.
Print Assumptions C49_mean.
Print Assumptions C49_order.
Print Assumptions C49_no_returns.
Print Assumptions C49_stddev_is_variance.
Print Assumptions C49_stddev_refuted.
Print Assumptions C49_one_return_refuted.
