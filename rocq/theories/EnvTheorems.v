(** Property theorems about environments: C58, C69, C70. *)
From Coq Require Import List ZArith Bool Reals Lra Permutation.
From Verif Require Import Base BaseProofs NumOps HelperModel HelperSpec EngineModel MapModel MapProofs EnvModel RLemmas.
Import ListNotations.
Open Scope R_scope.

Section Theorems.
Context {S : Type}.
Variable seqb : S -> S -> bool.
Hypothesis seqb_ok : decides seqb.

(** ** C58 *)
(** Fully observable: the next state has probability one, and sampling returns it without drawing. *)
Theorem C58_fully_observable : forall s,
  default_observation_distribution seqb true s = Ok [(s, 1)] /\
  forall d g, default_sample_observation true d s g = Ok (s, g).
Proof. intros s. split; reflexivity. Qed.
(** Sampling agrees with the distribution. *)
Theorem C58_sample_agrees : forall s d g, default_observation_distribution seqb true s = Ok d -> good_reals g ->
  exists g', sample_from_distribution R_ops d true g = Ok (s, g') /\
    default_sample_observation true (default_observation_distribution seqb true) s g = Ok (s, g).
Proof.
  intros s d g H Hg. injection H as <-. unfold sample_from_distribution, get_rand_uniform. cbn [mput sample_loop R_ops nadd ndiv none_ nzero nltb nleb neps].
  eexists. split; [|reflexivity].
  replace (0 + 1 / 1) with 1 by lra.
  assert (E : Rltb (1 + neps R_ops) 1 = false) by (apply Rltb_false; unfold neps, R_ops; lra). cbn [R_ops neps] in E. rewrite E. cbn [orb].
  rewrite andb_false_r. assert (F : Rltb (gr g (nr g)) 1 = true) by (apply Rltb_true; destruct (Hg (nr g)); lra). rewrite F. reflexivity.
Qed.
(** Partially observable: the default distribution throws, so sampling throws unless the environment has its own
    distribution, from which it samples. *)
Theorem C58_partially_observable : forall s,
  default_observation_distribution seqb false s = Throw /\
  (forall g, default_sample_observation false (default_observation_distribution seqb false) s g = Throw) /\
  forall d m g, d s = Ok m -> default_sample_observation false d s g = sample_from_distribution R_ops m true g.
Proof.
  intros s. split; [reflexivity|]. split; [reflexivity|]. intros d m g H. unfold default_sample_observation. now rewrite H.
Qed.

(** ** C69 *)
(** Probability of state [s] in a distribution over pointers: the sum over the pointers to it. *)
Fixpoint prob (at_ : nat -> S) (s : S) (d : list (nat * R)) : R :=
  match d with
  | [] => 0
  | (p, w) :: r => (if seqb (at_ p) s then w else 0) + prob at_ s r
  end.
Definition prob_itfc (s : S) (m : list (S * R)) : R := match lookup seqb s m with Some w => w | None => 0 end.

Lemma fold_lookup : forall (at_ : nat -> S) (d : list (nat * R)) m s, lookup seqb s (fold_left (fun m kv => mput seqb m (at_ (fst kv)) (snd kv)) d m) =
  match lookup seqb s (rev (map (fun kv => (at_ (fst kv), snd kv)) d)) with Some w => Some w | None => lookup seqb s m end.
Proof using seqb_ok.
  assert (App : forall V (l l' : list (S * V)) s, lookup seqb s (l ++ l') = match lookup seqb s l with Some w => Some w | None => lookup seqb s l' end).
  { induction l as [|[a v] l IH]; intros l' s; cbn; auto. destruct (seqb a s); auto. }
  induction d as [|[p w] d IH]; intros m s; cbn [fold_left map rev]; [now destruct (lookup seqb s m)|].
  rewrite IH, App. cbn [fst snd]. destruct (lookup seqb s (rev _)); auto. rewrite (lookup_mput seqb seqb_ok). cbn. destruct (seqb (at_ p) s); auto.
Qed.
(** If different pointers of the distribution point to different states then the conversion keeps all probabilities. *)
Theorem C69_kept_partial : forall (at_ : nat -> S) (d : list (nat * R)), NoDup (map (fun kv => at_ (fst kv)) d) ->
  forall s, prob_itfc s (template_transition_itfc seqb at_ d) = prob at_ s d.
Proof.
  intros at_ d ND s. unfold prob_itfc, template_transition_itfc. rewrite fold_lookup. cbn [lookup].
  set (l := rev _).
  assert (Nl : NoDup (map fst l)) by (unfold l; rewrite map_rev, map_map; apply NoDup_rev; exact ND).
  assert (K : (lookup seqb s l = None /\ prob at_ s d = 0) \/ exists w, lookup seqb s l = Some w /\ prob at_ s d = w).
  { assert (Z0 : ~ In s (map (fun kv => at_ (fst kv)) d) -> prob at_ s d = 0).
    { clear -seqb_ok. induction d as [|[p w] d IH]; intros N; cbn in *; auto. rewrite IH by tauto.
      rewrite (keqb_ne seqb seqb_ok) by (intros E; apply N; now left). lra. }
    destruct (lookup seqb s l) as [w|] eqn:L.
    - right. exists w. split; auto. apply (lookup_iff seqb seqb_ok) in L; auto. unfold l in L. apply in_rev in L. apply in_map_iff in L.
      destruct L as ([p w'] & E & I). cbn in E. injection E as <- <-. apply in_split in I. destruct I as (d1 & d2 & ->).
      rewrite map_app in ND. cbn in ND. apply NoDup_remove_2 in ND. rewrite in_app_iff in ND.
      clear -seqb_ok ND. 
      assert (Pa : forall x l1 l2, prob at_ x (l1 ++ l2) = prob at_ x l1 + prob at_ x l2).
      { intros x l1 l2. induction l1 as [|[p1 w1] l1 IH]; cbn; [lra|]. rewrite IH. lra. }
      assert (Z0 : forall d, ~ In (at_ p) (map (fun kv => at_ (fst kv)) d) -> prob at_ (at_ p) d = 0).
      { induction d as [|[p' w''] d IH]; intros N; cbn in *; auto. rewrite IH by tauto.
        rewrite (keqb_ne seqb seqb_ok) by (intros E; apply N; now left). lra. }
      rewrite Pa. cbn [prob]. rewrite (keqb_refl seqb seqb_ok), (Z0 d1), (Z0 d2) by tauto. lra.
    - left. split; auto. apply Z0. apply (lookup_none_iff seqb seqb_ok) in L. intros I. apply L. unfold l. rewrite map_rev, map_map.
      apply in_rev. rewrite rev_involutive. exact I. }
  destruct K as [[-> ->]|(w & -> & ->)]; reflexivity.
Qed.
End Theorems.

(** Otherwise probability is lost: two pointers to the same state, each with probability 1/2. Sampling from the result
    throws half of the time. *)
Theorem C69_refuted : exists (at_ : nat -> nat) d, NoDup (map fst d) /\ total d = 1 /\
  prob Nat.eqb at_ 7%nat d = 1 /\ prob_itfc Nat.eqb 7%nat (template_transition_itfc Nat.eqb at_ d) = 1/2 /\
  forall g, 1/2 <= gr g (nr g) -> sample_from_distribution R_ops (template_transition_itfc Nat.eqb at_ d) true g = Throw.
Proof.
  exists (fun _ => 7%nat), [(0%nat, 1/2); (1%nat, 1/2)].
  split; [repeat constructor; cbn; intuition discriminate|]. split; [cbn; lra|]. split; [cbn; lra|]. split; [reflexivity|].
  intros g Hg. unfold sample_from_distribution, get_rand_uniform.
  cbn [template_transition_itfc fold_left fst snd mput Nat.eqb sample_loop R_ops nadd ndiv none_ nzero nltb nleb neps].
  destruct (_ || _); [reflexivity|].
  assert (F : Rltb (gr g (nr g)) (0 + 1 / 2 / 1) = false) by (apply Rltb_false; lra). rewrite F. reflexivity.
Qed.
Example C69_witness : prob_itfc Nat.eqb 8%nat (template_transition_itfc Nat.eqb (fun p => p + 7)%nat [(0%nat, 1/4); (1%nat, 3/4)]) = 3/4.
Proof. reflexivity. Qed.

(** ** C70 *)
(** The template's observation distribution of a fully observable environment is undefined behaviour. *)
Theorem C70_refuted : forall S (seqb : S -> S -> bool) s,
  template_observation_distribution seqb true s = UB /\ template_observation_itfc seqb true s = UB.
Proof. intros. split; reflexivity. Qed.

Print Assumptions C58_fully_observable.
Print Assumptions C58_sample_agrees.
Print Assumptions C58_partially_observable.
Print Assumptions C69_kept_partial.
Print Assumptions C69_refuted.
Print Assumptions C70_refuted.
