(** Values that agree with those of the children are the values of optimal plans. *)
From Coq Require Import List ZArith Bool Reals Lia Lra.
From Verif Require Import Base BaseProofs NumOps RLemmas EngineModel EngineSpec EngineProofs EngineInv EngineCount EngineResults MapModel MapProofs AlgoModel AlgoProofs MentsModel SoftSpec SoftProofs MentsSpec
  WeightProofs TreeSpec.
Import ListNotations.
Open Scope R_scope.

Lemma mean_is : forall l v, weighted_mean l v -> v = mean l.
Proof.
  intros l v [H1 H2]. unfold mean. destruct (Req_EM_T _ 0) as [E|E]; [auto|]. apply Rmult_eq_reg_r with (2 := E). rewrite H2 by exact E.
  unfold Rdiv. rewrite Rmult_assoc, Rinv_l by exact E. ring.
Qed.
Lemma mean_le : forall T (w : T -> Z) (f g : T -> R) l, (forall x, In x l -> (0 <= w x)%Z /\ f x <= g x) ->
  mean (map (fun x => (w x, f x)) l) <= mean (map (fun x => (w x, g x)) l).
Proof.
  intros T w f g l H. unfold mean. rewrite !rsum_of_map. cbn [fst snd].
  destruct (Req_EM_T _ 0) as [E|E]; [lra|].
  apply Rmult_le_compat_r.
  - left. apply Rinv_0_lt_compat. assert (0 <= rsum_of (fun x => IZR (w x)) l); [|lra].
    apply rsum_of_nonneg. intros x I. apply IZR_le. now apply H.
  - apply rsum_of_le. intros x I. destruct (H x I) as [H1 H2]. apply Rmult_le_compat_l; [now apply IZR_le|exact H2].
Qed.

Section Tree.
Context {S A : Type}.
Variable seqb : S -> S -> bool.
Variable aeqb : A -> A -> bool.
Hypothesis seqb_ok : decides seqb.
Hypothesis aeqb_ok : decides aeqb.
Variable C : @econf S A.
Variable M : @mconf S A.
Variable m : @store S A.
Hypothesis W : well_formed seqb aeqb C m.
Hypothesis Depth : forall d n, nth_error (dh m) d = Some n -> (0 <= ddepth n <= max_depth C)%Z.
(** Samples are not negative. *)
Hypothesis Pos : forall c x o d n, nth_error (ch m) c = Some x -> In (o, d) (ckids x) -> nth_error (dh m) d = Some n -> (0 <= dp_samples C n)%Z.
(** Values. *)
Variable VD VC : nat -> R.
Hypothesis HD : forall d n, nth_error (dh m) d = Some n ->
  dkids n = [] /\ VD d = dheur n \/
  (exists a c, In (a, c) (dkids n) /\ VC c = VD d) /\
  forall a c, In (a, c) (dkids n) -> if opponent M n then VD d <= VC c else VC c <= VD d.
Definition wt (k : S * nat) : Z := match nth_error (dh m) (snd k) with Some y => dp_samples C y | None => 0%Z end.
Hypothesis HC : forall c x, nth_error (ch m) c = Some x ->
  VC c = mreward M (cstate x) (cact x) + mean (map (fun k => (wt k, VD (snd k))) (ckids x)).

(** The plan that takes a child with the node's value. *)
Definition best : plan := fun d =>
  match nth_error (dh m) d with
  | Some n => option_map fst (find (fun k => if Req_EM_T (VC (snd k)) (VD d) then true else false) (dkids n))
  | None => None
  end.
Lemma best_pick : forall d n, nth_error (dh m) d = Some n -> dkids n <> [] ->
  exists a c, best d = Some a /\ lookup aeqb a (dkids n) = Some c /\ VC c = VD d.
Proof using aeqb_ok W HD.
  intros d n Hd NE. unfold best. rewrite Hd. destruct (HD d n Hd) as [[E _]|[(a & c & I & E) _]]; [contradiction|].
  destruct (find _ (dkids n)) as [[b e]|] eqn:F.
  - exists b, e. apply find_some in F. destruct F as [F1 F2]. cbn in F2. destruct (Req_EM_T (VC e) (VD d)) as [E2|]; [|discriminate].
    split; [reflexivity|]. split; [|exact E2]. apply (in_lookup _ aeqb_ok); [eapply (wf_dkeys _ _ _ _ W); eauto|exact F1].
  - apply (find_none _ _ F) in I. cbn in I. destruct (Req_EM_T (VC c) (VD d)); [discriminate|contradiction].
Qed.

(** A plan is greedy if it always takes such a child. *)
Definition greedy (b : @plan A) : Prop := forall d n, nth_error (dh m) d = Some n -> dkids n <> [] ->
  exists a c, b d = Some a /\ lookup aeqb a (dkids n) = Some c /\ VC c = VD d.
Section Greedy.
Variable b : @plan A.
Hypothesis B : greedy b.
Lemma greedy_plays : plays aeqb m b.
Proof using B. intros d n Hd NE. destruct (B d n Hd NE) as (a & c & H1 & H2 & _). exists a, c. auto. Qed.

(** Comparison with any plan. *)
Lemma compare : forall (up : bool) (p : plan), plays aeqb m p ->
  (forall d n, nth_error (dh m) d = Some n -> dkids n <> [] -> opponent M n = up -> p d = b d) ->
  forall f d n, nth_error (dh m) d = Some n -> (max_depth C - ddepth n < Z.of_nat f)%Z ->
  if up then payoff aeqb C M m p f d <= VD d else VD d <= payoff aeqb C M m p f d.
Proof using All.
  intros up p Pl Ag. induction f as [|f IH]; intros d n Hd L.
  { destruct (Depth d n Hd). lia. }
  cbn [payoff]. rewrite Hd. destruct (dkids n) as [|k0 kids] eqn:Ek.
  { destruct (HD d n Hd) as [[_ ->]|[(a & c & I & _) _]]; [destruct up; lra|]. rewrite Ek in I. destruct I. }
  assert (NE : dkids n <> []) by (rewrite Ek; discriminate).
  destruct (Pl d n Hd NE) as (a & c & Ea & Ec). rewrite Ea, <- Ek, Ec.
  destruct (wf_d _ _ _ _ W d n a c Hd Ec) as (x & Hx & Cs & Cd & Ct & Ca & _). rewrite Hx.
  (* the chance node *)
  assert (K : if up then mreward M (cstate x) (cact x) + mean (map (fun k => (wt k, payoff aeqb C M m p f (snd k))) (ckids x)) <= VC c
              else VC c <= mreward M (cstate x) (cact x) + mean (map (fun k => (wt k, payoff aeqb C M m p f (snd k))) (ckids x))).
  { rewrite (HC c x Hx).
    assert (Kid : forall k, In k (ckids x) -> (0 <= wt k)%Z /\ if up then payoff aeqb C M m p f (snd k) <= VD (snd k) else VD (snd k) <= payoff aeqb C M m p f (snd k)).
    { intros [o e] I. assert (Lo : lookup seqb o (ckids x) = Some e).
      { apply (in_lookup _ seqb_ok); [exact (wf_ckeys _ _ _ _ W c x Hx)|exact I]. }
      destruct (wf_c _ _ _ _ W c x o e Hx Lo) as (y & Hy & _ & Dy & _). split.
      - unfold wt. cbn. rewrite Hy. eapply Pos; eauto.
      - apply IH with (n := y); [exact Hy|lia]. }
    destruct up; apply Rplus_le_compat_l; apply mean_le; intros k I; apply Kid; exact I. }
  change (fun k : S * nat => (match nth_error (dh m) (snd k) with Some y => dp_samples C y | None => 0%Z end, payoff aeqb C M m p f (snd k)))
    with (fun k : S * nat => (wt k, payoff aeqb C M m p f (snd k))).
  set (z := mreward M (cstate x) (cact x) + mean (map (fun k => (wt k, payoff aeqb C M m p f (snd k))) (ckids x))) in *.
  (* the decision node *)
  destruct (bool_dec (opponent M n) up) as [E|E].
  - destruct (B d n Hd NE) as (a' & c' & B1 & B2 & B3). rewrite <- (Ag d n Hd NE E), Ea in B1. injection B1 as <-.
    rewrite Ec in B2. injection B2 as <-. rewrite <- B3. exact K.
  - destruct (HD d n Hd) as [[E0 _]|[_ H]]; [contradiction|]. specialize (H a c (proj1 (lookup_iff _ aeqb_ok _ _ _ _ (wf_dkeys _ _ _ _ W d n Hd)) Ec)).
    destruct up, (opponent M n); try congruence; lra.
Qed.

Lemma enough : forall d n, nth_error (dh m) d = Some n -> (max_depth C - ddepth n < Z.of_nat (Datatypes.S (Z.to_nat (max_depth C))))%Z.
Proof using Depth. intros d n H. pose proof (Depth d n H). lia. Qed.
Lemma greedy_worth : forall d n, nth_error (dh m) d = Some n -> worth aeqb C M m b d = VD d.
Proof using All.
  intros d n Hd. apply Rle_antisym.
  - exact (compare true b greedy_plays (fun _ _ _ _ _ => eq_refl) _ d n Hd (enough d n Hd)).
  - exact (compare false b greedy_plays (fun _ _ _ _ _ => eq_refl) _ d n Hd (enough d n Hd)).
Qed.
Theorem greedy_optimal : optimal aeqb C M m b.
Proof using All.
  split; [exact greedy_plays|]. intros q Pq d n Hd. rewrite (greedy_worth d n Hd). split; intros Ag.
  - apply (compare true q Pq) with (n := n); try exact (enough d n Hd); auto. intros e k He _ O. symmetry. now apply (Ag e k He).
  - apply (compare false q Pq) with (n := n); try exact (enough d n Hd); auto. intros e k He _ O. symmetry. apply (Ag e k He). now rewrite O.
Qed.
End Greedy.

(** Enough is enough. *)
Lemma payoff_fuel : forall p, plays aeqb m p -> forall f f' d n, nth_error (dh m) d = Some n ->
  (max_depth C - ddepth n < Z.of_nat f)%Z -> (max_depth C - ddepth n < Z.of_nat f')%Z -> payoff aeqb C M m p f d = payoff aeqb C M m p f' d.
Proof using seqb_ok aeqb_ok W Depth.
  intros p Pl. induction f as [|f IH]; intros f' d n Hd L L'; [destruct (Depth d n Hd); lia|].
  destruct f' as [|f']; [destruct (Depth d n Hd); lia|]. cbn [payoff]. rewrite Hd. destruct (dkids n) as [|k0 kids] eqn:Ek; [reflexivity|].
  assert (NE : dkids n <> []) by (rewrite Ek; discriminate). destruct (Pl d n Hd NE) as (a & c & Ea & Ec). rewrite Ea, <- Ek, Ec.
  destruct (wf_d _ _ _ _ W d n a c Hd Ec) as (x & Hx & Cs & Cd & _). rewrite Hx. f_equal. f_equal. apply map_ext_in. intros [o e] I. f_equal.
  assert (Lo : lookup seqb o (ckids x) = Some e) by (apply (in_lookup _ seqb_ok); [exact (wf_ckeys _ _ _ _ W c x Hx)|exact I]).
  destruct (wf_c _ _ _ _ W c x o e Hx Lo) as (y & Hy & _ & Dy & _). cbn. apply IH with (n := y); auto; lia.
Qed.
(** What a plan is worth at a node with children. *)
Lemma worth_step : forall p, plays aeqb m p -> forall d n a c x, nth_error (dh m) d = Some n -> p d = Some a -> lookup aeqb a (dkids n) = Some c ->
  nth_error (ch m) c = Some x -> worth aeqb C M m p d = mreward M (cstate x) (cact x) + mean (map (fun k => (wt k, worth aeqb C M m p (snd k))) (ckids x)).
Proof using seqb_ok aeqb_ok W Depth.
  intros p Pl d n a c x Hd Ea Ec Hx. unfold worth at 1. cbn [payoff]. rewrite Hd, Ea. destruct (dkids n) as [|k0 kids] eqn:Ek; [discriminate|].
  rewrite Ec, Hx. f_equal. f_equal. apply map_ext_in. intros [o e] I. f_equal. rewrite <- Ek in Ec.
  destruct (wf_d _ _ _ _ W d n a c Hd Ec) as (x' & Hx' & Cs & Cd & _). assert (x' = x) by congruence. subst x'.
  assert (Lo : lookup seqb o (ckids x) = Some e) by (apply (in_lookup _ seqb_ok); [exact (wf_ckeys _ _ _ _ W c x Hx)|exact I]).
  destruct (wf_c _ _ _ _ W c x o e Hx Lo) as (y & Hy & _ & Dy & _). cbn [snd].
  pose proof (Depth _ _ Hd). pose proof (Depth _ _ Hy). apply payoff_fuel with (n := y); auto; lia.
Qed.
End Tree.

(** Two optimal plans are worth the same: each is compared with the mixture that plays one for each side. *)
Section Unique.
Context {S A : Type}.
Variable aeqb : A -> A -> bool.
Variable C : @econf S A.
Variable M : @mconf S A.
Variable m : @store S A.
Lemma value_unique : forall d n v w, nth_error (dh m) d = Some n -> tree_value aeqb C M m d v -> tree_value aeqb C M m d w -> v = w.
Proof.
  intros d n v w Hd (p & [Pp Op] & <-) (q & [Pq Oq] & <-).
  set (r1 := (fun d => match nth_error (dh m) d with Some k => if opponent M k then p d else q d | None => None end) : @plan A).
  set (r2 := (fun d => match nth_error (dh m) d with Some k => if opponent M k then q d else p d | None => None end) : @plan A).
  assert (P1 : plays aeqb m r1).
  { intros e k He NE. unfold r1. rewrite He. destruct (opponent M k); [now apply Pp|now apply Pq]. }
  assert (P2 : plays aeqb m r2).
  { intros e k He NE. unfold r2. rewrite He. destruct (opponent M k); [now apply Pq|now apply Pp]. }
  (* r1 : opponent as p, player as q *)
  assert (A1 : worth aeqb C M m r1 d <= worth aeqb C M m p d).
  { apply (Op r1 P1 d n Hd). intros e k He O. unfold r1. now rewrite He, O. }
  assert (A2 : worth aeqb C M m q d <= worth aeqb C M m r1 d).
  { apply (Oq r1 P1 d n Hd). intros e k He O. unfold r1. rewrite He. apply negb_true_iff in O. now rewrite O. }
  assert (A3 : worth aeqb C M m r2 d <= worth aeqb C M m q d).
  { apply (Oq r2 P2 d n Hd). intros e k He O. unfold r2. now rewrite He, O. }
  assert (A4 : worth aeqb C M m p d <= worth aeqb C M m r2 d).
  { apply (Op r2 P2 d n Hd). intros e k He O. unfold r2. rewrite He. apply negb_true_iff in O. now rewrite O. }
  lra.
Qed.
End Unique.

(** The first actions of optimal plans are the children of the node's value. *)
Section First.
Context {S A : Type}.
Variable seqb : S -> S -> bool.
Variable aeqb : A -> A -> bool.
Hypothesis seqb_ok : decides seqb.
Hypothesis aeqb_ok : decides aeqb.
Variable C : @econf S A.
Variable M : @mconf S A.
Variable m : @store S A.
Hypothesis W : well_formed seqb aeqb C m.
Hypothesis Depth : forall d n, nth_error (dh m) d = Some n -> (0 <= ddepth n <= max_depth C)%Z.
Hypothesis Pos : forall c x o d n, nth_error (ch m) c = Some x -> In (o, d) (ckids x) -> nth_error (dh m) d = Some n -> (0 <= dp_samples C n)%Z.
Variable VD VC : nat -> R.
Hypothesis HD : forall d n, nth_error (dh m) d = Some n ->
  dkids n = [] /\ VD d = dheur n \/
  (exists a c, In (a, c) (dkids n) /\ VC c = VD d) /\
  forall a c, In (a, c) (dkids n) -> if opponent M n then VD d <= VC c else VC c <= VD d.
Hypothesis HC : forall c x, nth_error (ch m) c = Some x ->
  VC c = mreward M (cstate x) (cact x) + mean (map (fun k => (wt C m k, VD (snd k))) (ckids x)).
Lemma optimal_first : forall d n a, nth_error (dh m) d = Some n -> dkids n <> [] ->
  (exists p, optimal aeqb C M m p /\ p d = Some a) <-> exists c, lookup aeqb a (dkids n) = Some c /\ VC c = VD d.
Proof using All.
  intros d n a Hd NE.
  pose proof (best_pick seqb aeqb aeqb_ok C M m W VD VC HD) as Bp.
  pose proof (greedy_optimal seqb aeqb seqb_ok aeqb_ok C M m W Depth Pos VD VC HD HC _ Bp) as Bo.
  pose proof (greedy_worth seqb aeqb seqb_ok aeqb_ok C M m W Depth Pos VD VC HD HC _ Bp) as Bw.
  split.
  - intros (p & Op & Ep). pose proof (proj1 Op) as Pp. destruct (Pp d n Hd NE) as (a' & c & Ea & Ec). assert (a' = a) by congruence. subst a'.
    exists c. split; [exact Ec|]. destruct (wf_d _ _ _ _ W d n a c Hd Ec) as (x & Hx & _).
    assert (V : forall e k, nth_error (dh m) e = Some k -> worth aeqb C M m p e = VD e).
    { intros e k He. rewrite <- (Bw e k He). apply (value_unique aeqb C M m e k); [exact He|now exists p|]. now exists (best m VD VC). }
    rewrite (HC c x Hx), <- (V d n Hd), (worth_step seqb aeqb seqb_ok aeqb_ok C M m W Depth p Pp d n a c x Hd Ea Ec Hx).
    f_equal. f_equal. apply map_ext_in. intros [o e] I. f_equal. cbn [snd]. symmetry.
    assert (Lo : lookup seqb o (ckids x) = Some e) by (apply (in_lookup _ seqb_ok); [exact (wf_ckeys _ _ _ _ W c x Hx)|exact I]).
    destruct (wf_c _ _ _ _ W c x o e Hx Lo) as (y & Hy & _). exact (V e y Hy).
  - intros (c & Ec & Ev). exists (fun e => if Nat.eqb e d then Some a else best m VD VC e). split; [|now rewrite Nat.eqb_refl].
    apply (greedy_optimal seqb aeqb seqb_ok aeqb_ok C M m W Depth Pos VD VC HD HC). intros e k He NEk. destruct (Nat.eqb e d) eqn:E; [|exact (Bp e k He NEk)].
    apply Nat.eqb_eq in E. subst e. assert (k = n) by congruence. subst k. exists a, c. auto.
Qed.
End First.

(** ** Searches *)
Section Search.
Context {S A : Type}.
Variable seqb : S -> S -> bool.
Variable aeqb : A -> A -> bool.
Hypothesis seqb_ok : decides seqb.
Hypothesis aeqb_ok : decides aeqb.
Variable C : @econf S A.
Hypothesis NoTT : use_tt C = false.
Variable G : @algo S A.

Lemma reached_goes : forall n s c o d node, ereach seqb aeqb C n s -> quiet s -> cchild seqb (mem s) c o d ->
  nth_error (dh (mem s)) d = Some node -> reached C node = count (goes c d) (etrace s).
Proof using seqb_ok aeqb_ok NoTT.
  intros n s c o d node R Q Ch Hd. pose proof (ereach_good seqb aeqb seqb_ok aeqb_ok C n s R) as Gd.
  destruct (cinv_reach seqb aeqb seqb_ok aeqb_ok C _ _ R) as [K _].
  pose proof (ci_en _ _ K d) as Z. pose proof (ci_dv _ _ K d node Hd) as V.
  rewrite (enters_goes seqb aeqb C _ Gd (evs_reach seqb aeqb seqb_ok aeqb_ok C _ _ R) NoTT _ _ _ Ch) in Z.
  rewrite (quiet_sum s (atD d) eq_refl Q) in Z.
  assert (D0 : d <> 0%nat) by (intros ->; exact (ti_noroot _ _ _ _ (proj1 Gd) _ _ _ Ch eq_refl)).
  apply Nat.eqb_neq in D0. rewrite D0 in Z. change (b2z false) with 0%Z in Z. unfold reached. lia.
Qed.
Lemma nb_samples : forall nb k0, counter G nb k0 1 -> forall n g s c o d node x, areach seqb aeqb C G n g s -> quiet (base s) ->
  cchild seqb (mem (base s)) c o d -> nth_error (dh (mem (base s))) d = Some node -> nth_error (xds s) d = Some x ->
  nb x = (k0 + samples C node)%Z.
Proof using seqb_ok aeqb_ok NoTT.
  intros nb k0 Cn n g s c o d node x R Q Ch Hd Hx.
  rewrite (weight_quiet seqb aeqb seqb_ok aeqb_ok C G nb k0 1 Cn n g s c o d node x NoTT R Q Ch Hd Hx).
  unfold samples. rewrite (reached_goes n (base s) c o d node (areach_ereach seqb aeqb C G _ _ _ R) Q Ch Hd).
  change (is_sink C (dstate node) || (max_depth C <=? ddepth node)%Z) with (is_leaf C node).
  destruct (is_leaf C node), (mcts_mode C); cbn; lia.
Qed.
End Search.
