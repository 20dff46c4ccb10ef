(** Regularised values that agree with those of the children are the values of optimal mixed plans. *)
From Coq Require Import List ZArith Bool Reals Lia Lra.
From Verif Require Import Base BaseProofs NumOps RLemmas EngineModel EngineSpec EngineProofs MapModel MapProofs MentsModel SoftSpec SoftProofs MentsSpec
  TentsSpec TreeSpec TreeProofs.
Import ListNotations.
Open Scope R_scope.

Lemma finite_choice : forall (T : Type) (t0 : T) (P : nat -> T -> Prop) n, (forall d, (d < n)%nat -> exists t, P d t) ->
  exists f : nat -> T, forall d, (d < n)%nat -> P d (f d).
Proof.
  intros T t0 P n. induction n as [|n IH]; intros H; [exists (fun _ => t0); lia|].
  destruct IH as (f & Hf); [intros d L; apply H; lia|]. destruct (H n) as (t & Ht); [lia|].
  exists (fun d => if Nat.eqb d n then t else f d). intros d L. destruct (Nat.eqb d n) eqn:E.
  - apply Nat.eqb_eq in E. now subst.
  - apply Nat.eqb_neq in E. apply Hf. lia.
Qed.

Section Mixed.
Context {S A : Type}.
Variable seqb : S -> S -> bool.
Variable aeqb : A -> A -> bool.
Hypothesis seqb_ok : decides seqb.
Hypothesis aeqb_ok : decides aeqb.
Variable C : @econf S A.
Variable M : @mconf S A.
Variable m : @store S A.
Hypothesis W : well_formed seqb aeqb C m.
Hypothesis Depth : forall d n, nth_error (dh m) d = Some n -> (0 <= ddepth n <= max_depth C)%Z.
Hypothesis Pos : forall c x o d n, nth_error (ch m) c = Some x -> In (o, d) (ckids x) -> nth_error (dh m) d = Some n -> (0 <= samples C n)%Z.
Variable bonus : list A -> (A -> R) -> R.
Variable offset : @dnode S A -> R.
Hypothesis Ext : forall l p q, (forall a, In a l -> p a = q a) -> bonus l p = bonus l q.
Variable VD VC : nat -> R.
Definition swt (k : S * nat) : Z := match nth_error (dh m) (snd k) with Some y => samples C y | None => 0%Z end.
Hypothesis HC : forall c x, nth_error (ch m) c = Some x ->
  VC c = mreward M (cstate x) (cact x) + mean (map (fun k => (swt k, VD (snd k))) (ckids x)).
Definition qval (n : @dnode S A) (a : A) : R := match lookup aeqb a (dkids n) with Some c => VC c | None => unexplored aeqb M offset n a end.
Definition obj (n : @dnode S A) (p : A -> R) : R :=
  rsum_of (fun a => p a * qval n a) (acts C (dstate n)) + seen M n (bonus (acts C (dstate n)) p).
Hypothesis HD : forall d n, nth_error (dh m) d = Some n ->
  dkids n = [] /\ VD d = dheur n \/
  dkids n <> [] /\ (exists p, on_simplex (acts C (dstate n)) p /\ obj n p = VD d) /\
  forall p, on_simplex (acts C (dstate n)) p -> if opponent M n then VD d <= obj n p else obj n p <= VD d.

Lemma obj_ext : forall n p q, (forall a, In a (acts C (dstate n)) -> p a = q a) -> obj n p = obj n q.
Proof using Ext. intros n p q H. unfold obj. rewrite (Ext _ p q H). f_equal. apply rsum_of_ext. intros a I. now rewrite H. Qed.

Definition is_best (b : mixed_plan) : Prop := forall d n, nth_error (dh m) d = Some n -> dkids n <> [] ->
  on_simplex (acts C (dstate n)) (b d) /\ obj n (b d) = VD d.
Lemma best_exists : exists b : mixed_plan, is_best b.
Proof using HD.
  destruct (finite_choice (A -> R) (fun _ => 0) (fun d p => forall n, nth_error (dh m) d = Some n -> dkids n <> [] ->
    on_simplex (acts C (dstate n)) p /\ obj n p = VD d) (length (dh m))) as (b & Hb).
  - intros d L. destruct (nth_error (dh m) d) as [n|] eqn:E; [|now exists (fun _ => 0)].
    destruct (HD d n E) as [[E0 _]|(_ & (p & H1 & H2) & _)].
    + exists (fun _ => 0). intros n' [= <-] NE. contradiction.
    + exists p. intros n' [= <-] _. auto.
  - exists b. intros d n Hd NE. apply (Hb d) with (n := n); auto. apply nth_error_Some. congruence.
Qed.

Section Best.
Variable b : @mixed_plan A.
Hypothesis B : is_best b.
Lemma best_mixes : mixes C m b.
Proof using B. intros d n Hd NE. exact (proj1 (B d n Hd NE)). Qed.
Lemma mixed_compare : forall (up : bool) (p : mixed_plan), mixes C m p ->
  (forall d n a, nth_error (dh m) d = Some n -> dkids n <> [] -> opponent M n = up -> In a (acts C (dstate n)) -> p d a = b d a) ->
  forall f d n, nth_error (dh m) d = Some n -> (max_depth C - ddepth n < Z.of_nat f)%Z ->
  if up then mixed_payoff aeqb C M m bonus offset p f d <= VD d else VD d <= mixed_payoff aeqb C M m bonus offset p f d.
Proof using All.
  intros up p Pl Ag. induction f as [|f IH]; intros d n Hd L.
  { destruct (Depth d n Hd). lia. }
  cbn [mixed_payoff]. rewrite Hd. destruct (dkids n) as [|k0 kids] eqn:Ek.
  { destruct (HD d n Hd) as [[_ ->]|(NE & _)]; [destruct up; lra|]. contradiction. }
  assert (NE : dkids n <> []) by (rewrite Ek; discriminate). rewrite <- Ek. clear k0 kids Ek.
  pose proof (Pl d n Hd NE) as [Pp P1].
  set (Q := fun a => match lookup aeqb a (dkids n) with
        | Some c =>
          match nth_error (ch m) c with
          | Some x => mreward M (cstate x) (cact x) +
              mean (map (fun k => (match nth_error (dh m) (snd k) with Some y => samples C y | None => 0%Z end, mixed_payoff aeqb C M m bonus offset p f (snd k))) (ckids x))
          | None => 0
          end
        | None => unexplored aeqb M offset n a
        end).
  (* the actions *)
  assert (K : forall a, if up then Q a <= qval n a else qval n a <= Q a).
  { intros a. unfold Q, qval. destruct (lookup aeqb a (dkids n)) as [c|] eqn:Ec; [|destruct up; lra].
    destruct (wf_d _ _ _ _ W d n a c Hd Ec) as (x & Hx & Cs & Cd & Ct & Ca & _). rewrite Hx, (HC c x Hx).
    assert (Kid : forall k, In k (ckids x) -> (0 <= swt k)%Z /\ if up then mixed_payoff aeqb C M m bonus offset p f (snd k) <= VD (snd k) else VD (snd k) <= mixed_payoff aeqb C M m bonus offset p f (snd k)).
    { intros [o e] I. assert (Lo : lookup seqb o (ckids x) = Some e).
      { apply (in_lookup _ seqb_ok); [exact (wf_ckeys _ _ _ _ W c x Hx)|exact I]. }
      destruct (wf_c _ _ _ _ W c x o e Hx Lo) as (y & Hy & _ & Dy & _). split.
      - unfold swt. cbn. rewrite Hy. eapply Pos; eauto.
      - apply IH with (n := y); [exact Hy|lia]. }
    change (fun k : S * nat => (match nth_error (dh m) (snd k) with Some y => samples C y | None => 0%Z end, mixed_payoff aeqb C M m bonus offset p f (snd k)))
      with (fun k : S * nat => (swt k, mixed_payoff aeqb C M m bonus offset p f (snd k))).
    destruct up; apply Rplus_le_compat_l; apply mean_le; intros k I; apply Kid; exact I. }
  assert (T : if up then rsum_of (fun a => p d a * Q a) (acts C (dstate n)) + seen M n (bonus (acts C (dstate n)) (p d)) <= obj n (p d)
              else obj n (p d) <= rsum_of (fun a => p d a * Q a) (acts C (dstate n)) + seen M n (bonus (acts C (dstate n)) (p d))).
  { unfold obj. destruct up; apply Rplus_le_compat_r; apply rsum_of_le; intros a I; (apply Rmult_le_compat_l; [now apply Pp|apply (K a)]). }
  change (rsum_of (fun a => p d a * match lookup aeqb a (dkids n) with
        | Some c =>
          match nth_error (ch m) c with
          | Some x => mreward M (cstate x) (cact x) +
              mean (map (fun k => (match nth_error (dh m) (snd k) with Some y => samples C y | None => 0%Z end, mixed_payoff aeqb C M m bonus offset p f (snd k))) (ckids x))
          | None => 0
          end
        | None => unexplored aeqb M offset n a
        end) (acts C (dstate n))) with (rsum_of (fun a => p d a * Q a) (acts C (dstate n))).
  (* the decision node *)
  destruct (bool_dec (opponent M n) up) as [E|E].
  - destruct (B d n Hd NE) as [_ B2]. rewrite <- B2, <- (obj_ext n (p d) (b d)); [exact T|]. intros a I. exact (Ag d n a Hd NE E I).
  - destruct (HD d n Hd) as [[E0 _]|(_ & _ & H)]; [contradiction|]. specialize (H (p d) (conj Pp P1)).
    destruct up, (opponent M n); try congruence; lra.
Qed.
Lemma mixed_best_worth : forall d n, nth_error (dh m) d = Some n -> mixed_worth aeqb C M m bonus offset b d = VD d.
Proof using All.
  intros d n Hd. apply Rle_antisym.
  - exact (mixed_compare true b best_mixes (fun _ _ _ _ _ _ _ => eq_refl) _ d n Hd (enough C m Depth d n Hd)).
  - exact (mixed_compare false b best_mixes (fun _ _ _ _ _ _ _ => eq_refl) _ d n Hd (enough C m Depth d n Hd)).
Qed.
Lemma mixed_best_optimal : mixed_optimal aeqb C M m bonus offset b.
Proof using All.
  split; [exact best_mixes|]. intros q Pq d n Hd. rewrite (mixed_best_worth d n Hd). split; intros Ag.
  - apply (mixed_compare true q Pq) with (n := n); try exact (enough C m Depth d n Hd); auto. intros e k a He _ O I. symmetry. now apply (Ag e k a He).
  - apply (mixed_compare false q Pq) with (n := n); try exact (enough C m Depth d n Hd); auto. intros e k a He _ O I. symmetry. apply (Ag e k a He); auto. now rewrite O.
Qed.
End Best.
Theorem mixed_tree : exists p, mixed_optimal aeqb C M m bonus offset p /\ forall d n, nth_error (dh m) d = Some n -> mixed_worth aeqb C M m bonus offset p d = VD d.
Proof using All. destruct best_exists as (b & B). exists b. split; [now apply mixed_best_optimal|]. intros d n Hd. now apply mixed_best_worth with (n := n). Qed.
End Mixed.

(** Optimal mixed plans are worth the same. *)
Section Unique.
Context {S A : Type}.
Variable aeqb : A -> A -> bool.
Variable C : @econf S A.
Variable M : @mconf S A.
Variable m : @store S A.
Variable bonus : list A -> (A -> R) -> R.
Variable offset : @dnode S A -> R.
Lemma mixed_value_unique : forall d n v w, nth_error (dh m) d = Some n -> mixed_value aeqb C M m bonus offset d v -> mixed_value aeqb C M m bonus offset d w -> v = w.
Proof.
  intros d n v w Hd (p & [Pp Op] & <-) (q & [Pq Oq] & <-).
  set (r1 := (fun d => match nth_error (dh m) d with Some k => if opponent M k then p d else q d | None => p d end) : @mixed_plan A).
  set (r2 := (fun d => match nth_error (dh m) d with Some k => if opponent M k then q d else p d | None => p d end) : @mixed_plan A).
  assert (P1 : mixes C m r1).
  { intros e k He NE. unfold r1. rewrite He. destruct (opponent M k); [now apply Pp|now apply Pq]. }
  assert (P2 : mixes C m r2).
  { intros e k He NE. unfold r2. rewrite He. destruct (opponent M k); [now apply Pq|now apply Pp]. }
  assert (A1 : mixed_worth aeqb C M m bonus offset r1 d <= mixed_worth aeqb C M m bonus offset p d).
  { apply (Op r1 P1 d n Hd). intros e k a He O _. unfold r1. now rewrite He, O. }
  assert (A2 : mixed_worth aeqb C M m bonus offset q d <= mixed_worth aeqb C M m bonus offset r1 d).
  { apply (Oq r1 P1 d n Hd). intros e k a He O _. unfold r1. rewrite He. apply negb_true_iff in O. now rewrite O. }
  assert (A3 : mixed_worth aeqb C M m bonus offset r2 d <= mixed_worth aeqb C M m bonus offset q d).
  { apply (Oq r2 P2 d n Hd). intros e k a He O _. unfold r2. now rewrite He, O. }
  assert (A4 : mixed_worth aeqb C M m bonus offset p d <= mixed_worth aeqb C M m bonus offset r2 d).
  { apply (Op r2 P2 d n Hd). intros e k a He O _. unfold r2. rewrite He. apply negb_true_iff in O. now rewrite O. }
  lra.
Qed.
End Unique.
