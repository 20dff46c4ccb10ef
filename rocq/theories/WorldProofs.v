(** A tree whose values agree with those of the children, explored and sampled faithfully, has about the values of the
    environment. *)
From Coq Require Import List ZArith Bool Reals Lia Lra.
From Verif Require Import Base BaseProofs NumOps RLemmas HelperSpec EngineModel EngineSpec MapModel MapProofs MentsModel SoftSpec SoftProofs MentsSpec TentsSpec TreeSpec TreeProofs LseReal Ments64Close WorldSpec.
Import ListNotations.
Open Scope R_scope.

(** ** Rules *)
Definition rule_lip {A} (rule : list A -> (A -> R) -> R -> Prop) : Prop := forall l q q' v v' e, l <> [] -> rule l q v -> rule l q' v' ->
  (forall a, In a l -> Rabs (q a - q' a) <= e) -> Rabs (v - v') <= e.
(** Each decision adds at most [x]. *)
Definition rule_adds {A} (rule : list A -> (A -> R) -> R -> Prop) (ok : list A -> Prop) (x : R) : Prop := forall l q v b, l <> [] -> ok l -> rule l q v ->
  (forall a, In a l -> Rabs (q a) <= b) -> Rabs v <= b + x.

Lemma greatest_lip : forall A, rule_lip (@greatest A).
Proof.
  intros A l q q' v v' e Ne [(a & Ia & ->) Ha] [(b & Ib & ->) Hb] H. pose proof (H a Ia) as H1. pose proof (H b Ib) as H2.
  specialize (Ha b Ib). specialize (Hb a Ia). apply abs_inv in H1, H2. apply Rabs_le. lra.
Qed.
Lemma greatest_adds : forall A ok, rule_adds (@greatest A) ok 0.
Proof. intros A ok l q v b Ne _ [(a & Ia & ->) _] H. rewrite Rplus_0_r. auto. Qed.

Lemma mixed_shift : forall A (l : list A) p q q' e, on_simplex l p -> (forall a, In a l -> q a <= q' a + e) ->
  rsum_of (fun a => p a * q a) l <= rsum_of (fun a => p a * q' a) l + e.
Proof.
  intros A l p q q' e [P0 P1] H. apply Rle_trans with (rsum_of (fun a => p a * q' a + e * p a) l).
  - apply rsum_of_le. intros a I. specialize (P0 a I). specialize (H a I). apply Rmult_le_compat_l with (r := p a) in H; lra.
  - rewrite rsum_of_plus, rsum_of_scale, P1. lra.
Qed.
Lemma mixed_lip : forall A bonus, rule_lip (@greatest_mixed A bonus).
Proof.
  intros A bonus l q q' v v' e Ne [(p & Sp & ->) Mp] [(p' & Sp' & ->) Mp'] H.
  pose proof (Mp p' Sp') as K1. pose proof (Mp' p Sp) as K2.
  pose proof (mixed_shift A l p q q' e Sp ltac:(intros a I; specialize (H a I); apply abs_inv in H; lra)).
  pose proof (mixed_shift A l p' q' q e Sp' ltac:(intros a I; specialize (H a I); apply abs_inv in H; lra)). apply Rabs_le. lra.
Qed.
Lemma mixed_const : forall A (l : list A) p c, on_simplex l p -> rsum_of (fun a => p a * c) l = c.
Proof. intros A l p c [_ P1]. rewrite (rsum_of_ext _ _ (fun a => c * p a)) by (intros; ring). rewrite rsum_of_scale, P1. ring. Qed.
Lemma mixed_adds : forall A bonus (ok : list A -> Prop) x, 0 <= x -> (forall l p, ok l -> on_simplex l p -> 0 <= bonus l p <= x) -> rule_adds (@greatest_mixed A bonus) ok x.
Proof.
  intros A bonus ok x X0 B l q v b Ne Ok [(p & Sp & ->) Mp] H. specialize (B l p Ok Sp).
  pose proof (mixed_shift A l p q (fun _ => 0) b Sp ltac:(intros a I; specialize (H a I); apply abs_inv in H; lra)) as K1.
  pose proof (mixed_shift A l p (fun _ => 0) q b Sp ltac:(intros a I; specialize (H a I); apply abs_inv in H; lra)) as K2.
  cbv beta in K1, K2. pose proof (mixed_const A l p 0 Sp) as Z0. rewrite Z0 in K1, K2. apply Rabs_le. lra.
Qed.
Lemma soft_mixed : forall A t (l : list A) q, 0 < t -> l <> [] -> greatest_mixed (entropy_bonus t) l q (soft_max t (map q l)).
Proof.
  intros A t l q T Ne. destruct (MixedResults.gibbs_eq t T l Ne q) as [G1 G2]. split.
  - exists (boltzmann t q l). split; [exact G1|]. now rewrite G2.
  - intros p Sp. now apply MixedResults.gibbs_le.
Qed.

(** ** Means *)
Lemma total_sum : forall T (l : list (T * R)), rsum_of (fun p => snd p) l = total l.
Proof. induction l as [|[o w] l IH]; [reflexivity|]. rewrite rsum_of_cons, IH. reflexivity. Qed.
Lemma expected_lip : forall S (l : list (S * R)) g g' e, positive_weights l -> total l = 1 -> (forall o, Rabs (g o - g' o) <= e) -> Rabs (expected g l - expected g' l) <= e.
Proof.
  intros S l g g' e Pw T H. unfold expected.
  assert (K : forall f f', (forall o, f o <= f' o + e) -> rsum_of (fun p => snd p * f (fst p)) l <= rsum_of (fun p => snd p * f' (fst p)) l + e).
  { intros f f' Hf. apply Rle_trans with (rsum_of (fun p => snd p * f' (fst p) + e * snd p) l).
    - apply rsum_of_le. intros [o w] I. specialize (Pw o w I). cbn. specialize (Hf o). apply Rmult_le_compat_l with (r := w) in Hf; lra.
    - rewrite rsum_of_plus, rsum_of_scale, total_sum, T. lra. }
  pose proof (K g g' ltac:(intros o; specialize (H o); apply abs_inv in H; lra)).
  pose proof (K g' g ltac:(intros o; specialize (H o); apply abs_inv in H; lra)). apply Rabs_le. lra.
Qed.
Lemma expected_0 : forall S (l : list (S * R)), expected (fun _ => 0) l = 0.
Proof. intros S l. unfold expected. induction l as [|p l IH]; [reflexivity|]. rewrite rsum_of_cons, IH. ring. Qed.
Lemma expected_bound : forall S (l : list (S * R)) g b, positive_weights l -> total l = 1 -> (forall o, Rabs (g o) <= b) -> Rabs (expected g l) <= b.
Proof.
  intros S l g b Pw T H. replace (expected g l) with (expected g l - expected (fun _ => 0) l) by (rewrite expected_0; ring).
  apply expected_lip; auto. intros o. rewrite Rminus_0_r. auto.
Qed.

Section World.
Context {S A : Type}.
Variable seqb : S -> S -> bool.
Variable aeqb : A -> A -> bool.
Hypothesis seqb_ok : decides seqb.
Hypothesis aeqb_ok : decides aeqb.
Variable C : @econf S A.
Variable M : @mconf S A.
Hypothesis Env : env_ok C M.
Variable rule : list A -> (A -> R) -> R -> Prop.
Hypothesis Lip : rule_lip rule.
Variable x0 : R.
Hypothesis Adds : rule_adds rule (fun l => exists s, l = acts C s) x0.
Variable V : nat -> S -> Z -> R.
Hypothesis Sv : solves C M rule V.
Variables Hb Rw : R.
Hypothesis Bd : world_bounds C M Hb Rw.
Hypothesis X0 : 0 <= x0.

Lemma mover_abs : forall t v w, Rabs (to_mover M t v - to_mover M t w) = Rabs (v - w).
Proof using Type. intros t v w. unfold to_mover. destruct (mtwo M && Z.odd t); [|reflexivity]. rewrite <- Rabs_Ropp. f_equal. ring. Qed.
Lemma mover_abs1 : forall t v, Rabs (to_mover M t v) = Rabs v.
Proof using Type. intros t v. unfold to_mover. destruct (mtwo M && Z.odd t); [apply Rabs_Ropp|reflexivity]. Qed.

Lemma world_bound : forall h s t, Rabs (V h s t) <= Hb + INR h * (Rw + x0).
Proof using Adds Bd Env Sv X0.
  destruct Bd as (B1 & B2 & B3 & B4). induction h as [|h IH]; intros s t.
  - cbn [INR]. rewrite Rmult_0_l, Rplus_0_r. destruct (is_sink C s) eqn:E; [rewrite (so_sink _ _ _ _ Sv) by exact E; now rewrite Rabs_R0|].
    rewrite (so_end _ _ _ _ Sv) by exact E. apply B3.
  - destruct (is_sink C s) eqn:E.
    + rewrite (so_sink _ _ _ _ Sv) by exact E. rewrite Rabs_R0. pose proof (pos_INR (Datatypes.S h)). assert (0 <= INR (Datatypes.S h) * (Rw + x0)) by (apply Rmult_le_pos; lra). lra.
    + pose proof (so_step _ _ _ _ Sv h s t E) as K. rewrite <- (mover_abs1 t).
      replace (Hb + INR (Datatypes.S h) * (Rw + x0)) with ((Hb + INR h * (Rw + x0) + Rw) + x0) by (rewrite S_INR; ring).
      refine (Adds _ _ _ _ (eo_acts _ _ Env s E) _ K _); [now exists s|].
      intros a Ia. rewrite mover_abs1. destruct (eo_distr _ _ Env s a E Ia) as [Pw T].
      pose proof (expected_bound _ (mdistr M s a) (fun o => V h o (t + 1)%Z) _ Pw T (fun o => IH o (t + 1)%Z)) as K1.
      specialize (B4 s a). apply abs_inv in K1, B4. apply Rabs_le. lra.
Qed.

Variable m : @store S A.
Hypothesis W : well_formed seqb aeqb C m.
Hypothesis Dep : forall d n, nth_error (dh m) d = Some n -> (0 <= ddepth n <= max_depth C)%Z.
Variable w : @dnode S A -> Z.
Hypothesis Pos : forall c x o d n, nth_error (ch m) c = Some x -> In (o, d) (ckids x) -> nth_error (dh m) d = Some n -> (0 <= w n)%Z.
Variables VD VC : nat -> R.
Hypothesis HD : forall d n, nth_error (dh m) d = Some n ->
  dkids n = [] /\ VD d = dheur n \/
  dkids n <> [] /\ exists q, (forall a c, In a (acts C (dstate n)) -> lookup aeqb a (dkids n) = Some c -> q a = seen M n (VC c)) /\ rule (acts C (dstate n)) q (seen M n (VD d)).
Notation wt k := (match nth_error (dh m) (snd k) with Some y => w y | None => 0%Z end).
Hypothesis HC : forall c x, nth_error (ch m) c = Some x ->
  VC c = mreward M (cstate x) (cact x) + mean (map (fun k => (wt k, VD (snd k))) (ckids x)).
Variable eps : R.
Hypothesis Eps : 0 <= eps.
Hypothesis Full : explored aeqb C m.
Hypothesis Fair : faithful M w eps m.
Notation err := (sampling_error eps Hb (Rw + x0)).

Lemma err_S : forall h, err (Datatypes.S h) = err h + eps * (Hb + INR h * (Rw + x0)).
Proof using Type. intros h. unfold sampling_error. rewrite S_INR. field. Qed.
Lemma err_pos : forall h, 0 <= err h.
Proof using Bd Eps X0.
  destruct Bd as (B1 & B2 & _). induction h as [|h IH]; [unfold sampling_error; cbn; lra|]. rewrite err_S.
  assert (0 <= INR h * (Rw + x0)) by (apply Rmult_le_pos; [apply pos_INR|lra]). assert (0 <= eps * (Hb + INR h * (Rw + x0))) by (apply Rmult_le_pos; lra). lra.
Qed.
Lemma seen_mover : forall n v, seen M n v = to_mover M (dtime n) v.
Proof using Type. reflexivity. Qed.

Definition near_d (h : nat) : Prop := forall d n, nth_error (dh m) d = Some n -> left_at C n = h -> Rabs (VD d - V h (dstate n) (dtime n)) <= err h.
Lemma chance_near : forall h, near_d h -> forall c x, nth_error (ch m) c = Some x -> (max_depth C - cdepth x = Z.of_nat (Datatypes.S h))%Z ->
  Rabs (VC c - (mreward M (cstate x) (cact x) + expected (fun o => V h o (ctime x + 1)%Z) (mdistr M (cstate x) (cact x)))) <= err (Datatypes.S h).
Proof using All.
  intros h IH c x Hc Hx. rewrite (HC c x Hc), err_S.
  assert (K1 : Rabs (mean (map (fun k => (wt k, VD (snd k))) (ckids x)) - mean (map (fun k => (wt k, V h (fst k) (ctime x + 1)%Z)) (ckids x))) <= err h).
  { apply (mean_lip _ (fun k : S * nat => wt k) (fun k => VD (snd k)) (fun k => V h (fst k) (ctime x + 1)%Z)); [apply err_pos|]. intros [o d] Io. cbn [fst snd].
    destruct (wf_c _ _ _ _ W c x o d Hc) as (n & Hn & E1 & E2 & E3 & _).
    { apply (in_lookup _ seqb_ok); auto. exact (wf_ckeys _ _ _ _ W c x Hc). }
    rewrite Hn. split; [exact (Pos c x o d n Hc Io Hn)|]. rewrite <- E1, <- E3. apply IH; auto. unfold left_at. lia. }
  pose proof (Fair c x Hc (fun o => V h o (ctime x + 1)%Z) _ (fun o => world_bound h o (ctime x + 1)%Z)) as K2.
  apply abs_inv in K1, K2. apply Rabs_le. lra.
Qed.
Theorem tree_near : forall h, near_d h.
Proof using All.
  induction h as [|h IH]; intros d n Hd Hl.
  - destruct (HD d n Hd) as [[Ek Ev]|[Ek _]].
    + rewrite Ev, (wf_heur _ _ _ _ W d n Hd). replace (V 0%nat (dstate n) (dtime n)) with (match heuristic C with Some f => if is_sink C (dstate n) then 0 else f (dstate n) | None => 0 end).
      * rewrite Rminus_diag_eq, Rabs_R0 by reflexivity. apply err_pos.
      * destruct (is_sink C (dstate n)) eqn:E; [rewrite (so_sink _ _ _ _ Sv) by exact E; now destruct (heuristic C)|]. rewrite (so_end _ _ _ _ Sv) by exact E. reflexivity.
    + exfalso. destruct (dkids n) as [|[a c] l] eqn:E; [contradiction|].
      destruct (wf_d _ _ _ _ W d n a c Hd) as (_ & _ & _ & _ & _ & _ & _ & N); [rewrite E; cbn; now rewrite (keqb_refl _ aeqb_ok)|].
      apply N. right. unfold left_at in Hl. lia.
  - destruct (HD d n Hd) as [[Ek Ev]|[Ek (q & Hq & Hr)]].
    + (* only sinks have no children *)
      destruct (is_sink C (dstate n)) eqn:E.
      * rewrite Ev, (wf_heur _ _ _ _ W d n Hd), E, (so_sink _ _ _ _ Sv) by exact E. replace (match heuristic C with Some _ => 0 | None => 0 end) with 0 by now destruct (heuristic C).
        rewrite Rminus_0_r, Rabs_R0. apply err_pos.
      * exfalso. pose proof (eo_acts _ _ Env _ E) as NE. destruct (acts C (dstate n)) as [|a l] eqn:Ea; [contradiction|].
        apply (Full d n a Hd E); [unfold left_at in Hl; lia|rewrite Ea; now left|]. rewrite Ek. reflexivity.
    + destruct (is_sink C (dstate n)) eqn:E.
      { exfalso. destruct (dkids n) as [|[a c] l] eqn:E1; [contradiction|].
        destruct (wf_d _ _ _ _ W d n a c Hd) as (_ & _ & _ & _ & _ & _ & _ & N); [rewrite E1; cbn; now rewrite (keqb_refl _ aeqb_ok)|]. apply N. now left. }
      rewrite <- (mover_abs (dtime n)).
      refine (Lip _ _ _ _ _ _ (eo_acts _ _ Env _ E) Hr (so_step _ _ _ _ Sv h (dstate n) (dtime n) E) _). intros a Ia.
      destruct (lookup aeqb a (dkids n)) as [c|] eqn:Ec.
      2:{ exfalso. apply (Full d n a Hd E); auto. unfold left_at in Hl. lia. }
      rewrite (Hq a c Ia Ec), seen_mover, mover_abs.
      destruct (wf_d _ _ _ _ W d n a c Hd Ec) as (x & Hx & E1 & E2 & E3 & E4 & _). rewrite <- E1, <- E3, <- E4.
      apply chance_near; auto. unfold left_at in Hl. lia.
Qed.
Theorem tree_values :
  (forall d n, nth_error (dh m) d = Some n -> Rabs (VD d - V (left_at C n) (dstate n) (dtime n)) <= err (left_at C n)) /\
  (forall d n a c, nth_error (dh m) d = Some n -> lookup aeqb a (dkids n) = Some c ->
     Rabs (VC c - (mreward M (dstate n) a + expected (fun o => V (left_at C n - 1) o (dtime n + 1)%Z) (mdistr M (dstate n) a))) <= err (left_at C n)).
Proof using All.
  split; [intros d n Hd; now apply tree_near|]. intros d n a c Hd Lc.
  destruct (wf_d _ _ _ _ W d n a c Hd Lc) as (cn & Hc & E1 & E2 & E3 & E4 & _ & Ns).
  assert (Lt : (ddepth n < max_depth C)%Z) by (apply Z.nle_gt; intros L; apply Ns; now right).
  assert (El : left_at C n = Datatypes.S (left_at C n - 1)) by (unfold left_at; lia).
  pose proof (chance_near (left_at C n - 1)%nat (tree_near _) c cn Hc) as T2. rewrite E1, E3, E4, <- El in T2. apply T2. unfold left_at. lia.
Qed.
End World.
