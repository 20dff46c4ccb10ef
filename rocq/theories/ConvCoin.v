(** A search in a random environment that meets the hypotheses of C91: one action, two equally likely outcomes, and a stream of
    random numbers that alternates between the halves of the unit interval. *)
From Coq Require Import List ZArith Bool Reals Lia Lra Permutation.
From Verif Require Import Base BaseProofs NumOps HelperModel HelperSpec EngineModel EngineSpec EngineProofs EngineInv EngineCount EngineTheorems AlgoModel
  AlgoProofs AlgoTheorems UctModel UctSpec UctProofs UctTheorems ExploreSpec ExploreTheorems SoftSpec WorldSpec LseReal EngineLedger ConvSpec ConvMain ConvTheorems.
Import ListNotations.
Open Scope R_scope.

Definition coin_conf : @econf nat bool :=
  mkConf (fun _ => false) (fun _ => [true]) (fun _ _ => [1%nat; 2%nat]) (fun _ _ o => if Nat.eqb o 1 then 1 else 0) None 1 true false 0 0%nat 0.
Definition coin_uct : @uconf nat bool :=
  mkU (-1) 0 false 0 None false uct_term (fun _ _ => [(1%nat, 1/2); (2%nat, 1/2)]) (fun V m => m).
Definition g_coin : rng R := mkRng (fun _ => 0%Z) (fun i => if Nat.even i then 1/4 else 3/4) 0 0.
Notation coin := (uct Bool.eqb coin_conf coin_uct).
Notation coin_reach := (areach Nat.eqb Bool.eqb coin_conf coin).

Definition toss (i : nat) : nat := if Nat.even i then 1%nat else 2%nat.
(** The first [k] outcomes, newest first. *)
Fixpoint tosses (k : nat) : list nat := match k with O => [] | Datatypes.S k' => toss k' :: tosses k' end.
Definition outcomes (tr : list (nat * @event nat bool)) : list nat :=
  flat_map (fun p => match snd p with EVisitC _ o _ _ => [o] | _ => [] end) tr.

Lemma toss_sample : forall n g o g1, gr g = gr g_coin -> uct_sample coin_uct n g = Ok (o, g1) -> o = toss (nr g) /\ gr g1 = gr g_coin /\ nr g1 = Datatypes.S (nr g).
Proof.
  intros n g o g1 Eg. unfold uct_sample, sample_from_distribution, get_rand_uniform. cbn [udistr coin_uct]. rewrite Eg.
  unfold sample_loop, toss. cbn [bind nadd ndiv nltb nleb nzero none_ neps R_ops orb andb]. unfold Rltb, Rleb. cbn [g_coin gr].
  destruct (Nat.even (nr g)); repeat (match goal with |- context [Rlt_dec ?x ?y] => destruct (Rlt_dec x y) | |- context [Rle_dec ?x ?y] => destruct (Rle_dec x y) end; cbn [orb andb bind]);
    intros E; try discriminate; injection E as <- <-; auto; exfalso; lra.
Qed.
Lemma outcomes_cons : forall p tr, outcomes (p :: tr) = (match snd p with EVisitC _ o _ _ => [o] | _ => [] end) ++ outcomes tr.
Proof. reflexivity. Qed.
Lemma get_max_keeps : forall V (ltb : V -> V -> bool) lo (m : list (bool * V)) (g g1 : rng R) a, get_max_key ltb lo m g = Ok (a, g1) -> gr g1 = gr g /\ nr g1 = nr g.
Proof.
  intros V ltb lo m g g1 a. unfold get_max_key, get_rand_int. destruct (best_keys_loop ltb m lo []) as [|k [|k' l]]; cbn [length].
  - discriminate.
  - intros [= _ <-]. auto.
  - set (n := Z.of_nat _). destruct (_ =? 0)%Z; [discriminate|]. cbn [bind]. destruct (vec_at _ _); cbn; try discriminate. intros [= _ <-]. auto.
Qed.
Lemma select_keeps : forall n kids g a g1, uct_select Bool.eqb coin_conf coin_uct n kids g = Ok (a, g1) -> gr g1 = gr g /\ nr g1 = nr g.
Proof.
  intros n kids g a g1. unfold uct_select, Rltb. cbn [ueps coin_uct]. destruct (Rlt_dec 0 0) as [q|_]; [lra|].
  unfold uct_select_ucb. cbn [uprior coin_uct]. destruct (untried _ _ _) as [|b l].
  - unfold uct_argmax. destruct (uct_fill _ _ _ _ _ _); cbn [bind]; try discriminate. apply get_max_keeps.
  - unfold get_rand_int. destruct (_ =? 0)%Z; [discriminate|]. cbn [bind]. destruct (vec_at _ _); cbn; try discriminate. intros [= _ <-]. auto.
Qed.
Lemma draws : forall n s, coin_reach n g_coin s -> gr (rg s) = gr g_coin /\ outcomes (etrace (base s)) = tosses (nr (rg s)).
Proof.
  intros n. apply (areach_ind' Nat.eqb Bool.eqb nat_decides bool_decides coin_conf coin n g_coin (fun s => gr (rg s) = gr g_coin /\ outcomes (etrace (base s)) = tosses (nr (rg s)))); [split; reflexivity|].
  intros s s' _ _ _ [Eg Eo] St.
  destruct St; cbn [rg base etrace]; rewrite ?outcomes_cons; cbn [snd app]; auto;
    try (match goal with H : select _ _ _ _ _ _ = Ok _ |- _ => cbn in H; destruct (uct_select _ _ _ _ _ _) as [[a' g']| |] eqn:Es; cbn in H; try discriminate; injection H as <- <- <-;
           apply select_keeps in Es; destruct Es as [-> ->]; auto end);
    try (match goal with H : sample _ ?m ?y ?z ?g = Ok ?r |- _ => change (bind (uct_sample coin_uct m g) (fun '(o, g1) => Ok (o, z, g1)) = Ok r) in H; destruct (uct_sample _ _ _) as [[o' g']| |] eqn:Es; cbn [bind] in H; try discriminate; injection H as <- <- <-;
           apply toss_sample in Es; auto; destruct Es as (-> & -> & ->); split; auto; cbn [tosses]; now rewrite <- Eo end).
Qed.

(** Only one chance node exists. *)
Lemma one_chance : forall n s, ereach Nat.eqb Bool.eqb coin_conf n s -> forall c x, nth_error (ch (mem s)) c = Some x -> dchild Bool.eqb (mem s) 0 true c.
Proof.
  intros n s E c x Hc. pose proof (ti_wf _ _ _ _ (proj1 (ereach_good Nat.eqb Bool.eqb nat_decides bool_decides coin_conf _ _ E))) as W.
  pose proof (proj1 (ereach_good Nat.eqb Bool.eqb nat_decides bool_decides coin_conf _ _ E)) as Ti.
  destruct (wf_reachC _ _ _ _ W c x Hc) as [d a c Rd Ch]. pose proof Ch as (nd & Hd & Ld).
  destruct (wf_d _ _ _ _ W d nd a c Hd Ld) as (x' & _ & _ & _ & _ & _ & Ia & Ns). cbn in Ia. destruct Ia as [<-|[]].
  destruct Rd as [|c1 o d Rc Ch1]; auto. exfalso. apply Ns. right.
  destruct Ch1 as (x1 & Hx1 & Lx1). destruct (wf_c _ _ _ _ W c1 x1 o d Hx1 Lx1) as (nd' & Hd' & _ & Dp & _). rewrite Hd in Hd'. injection Hd' as <-.
  destruct Rc as [d1 a1 c1 _ (nd1 & Hd1 & Ld1)]. destruct (wf_d _ _ _ _ W d1 nd1 a1 c1 Hd1 Ld1) as (x2 & Hx2 & _ & Cd & _). rewrite Hx1 in Hx2. injection Hx2 as <-.
  destruct (ti_time _ _ _ _ Ti _ _ Hd1) as [_ P]. cbn. lia.
Qed.
Lemma tosses_suffix : forall k l later, later ++ l = tosses k -> l = tosses (length l).
Proof.
  induction k as [|k IH]; intros l later H; cbn [tosses] in H.
  - apply app_eq_nil in H. destruct H as [_ ->]. reflexivity.
  - destruct later as [|y later]; cbn in H.
    + subst l. cbn [length tosses]. assert (Q : length (tosses k) = k) by (clear; induction k; cbn; auto). now rewrite Q.
    + injection H as _ H. eauto.
Qed.
Lemma tosses_sum : forall g k, rsum_of g (tosses k) = INR k / 2 * (g 1%nat + g 2%nat) + (if Nat.even k then 0 else (g 1%nat - g 2%nat) / 2).
Proof.
  intros g k. induction k as [|k IH]; [cbn; lra|]. cbn [tosses]. rewrite rsum_of_cons, IH, S_INR, Nat.even_succ, <- Nat.negb_even. unfold toss. destruct (Nat.even k); cbn [negb]; lra.
Qed.
Lemma coin_fair : forall n s, coin_reach n g_coin s -> fair coin_uct (fun delta => up (/ delta)) (base s).
Proof.
  intros n s R c x later tr Hc Et delta g Hd Hg HK. pose proof (C08_algorithms_run_the_engine _ _ _ _ _ _ _ R) as E.
  pose proof (one_chance n _ E c x Hc) as Dc. destruct (draws n s R) as [_ Eo]. rewrite Et in Eo. unfold outcomes in Eo. rewrite flat_map_app in Eo. fold (outcomes later) (outcomes tr) in Eo.
  assert (Es : sampled c tr = outcomes tr).
  { pose proof (evs_reach Nat.eqb Bool.eqb nat_decides bool_decides coin_conf _ _ E) as Ev. assert (Ev' : forall t e, In (t, e) tr -> evok Nat.eqb Bool.eqb (mem (base s)) e) by (intros t e I; eapply Ev; rewrite Et; apply in_or_app; right; eauto).
    clear - Ev' Dc E. induction tr as [|[t e] l IH]; auto. specialize (IH (fun t e Q => Ev' t e (or_intror Q))). rewrite outcomes_cons, <- IH. unfold sampled. cbn [flat_map]. f_equal. cbn [snd].
    specialize (Ev' t e (or_introl eq_refl)). destruct e as [| |c' o d b| | | | | |]; auto. destruct Ev' as (x' & Hx' & _). pose proof (one_chance n _ E c' x' Hx') as Dc'.
    destruct Dc as (r & Hr & L1). destruct Dc' as (r' & Hr' & L2). rewrite Hr in Hr'. injection Hr' as <-. rewrite L1 in L2. injection L2 as <-. now rewrite Nat.eqb_refl. }
  rewrite Es in *. pose proof (tosses_suffix _ _ _ Eo) as Et'. set (k := length (outcomes tr)) in *. rewrite Et', tosses_sum. unfold expected. cbn [udistr coin_uct]. rewrite !rsum_of_cons. change (rsum_of _ []) with 0. cbn [fst snd].
  replace (length (tosses k)) with k by (clear; induction k; cbn; auto).
  destruct (archimed (/ delta)) as [Ha _]. apply IZR_le in HK. rewrite <- INR_IZR_INZ in HK.
  assert (Hk : 1 <= delta * INR k). { apply Rle_trans with (delta * / delta); [right; field; lra|]. apply Rmult_le_compat_l; lra. }
  pose proof (Hg 1%nat) as H1. pose proof (Hg 2%nat) as H2. apply abs_inv in H1, H2. apply Rabs_le. destruct (Nat.even k); lra.
Qed.

Lemma coin_ok : uct_ok coin_conf coin_uct.
Proof. split; [|split; [|split]]; try reflexivity. Qed.
Lemma coin_sane : sane coin_conf coin_uct 1.
Proof.
  split; [discriminate|]. split.
  { intros s a _ _. cbn. split; [|lra]. intros p [<-|[<-|[]]]; cbn; lra. }
  split; [intros s a o; cbn; destruct (Nat.eqb o 1); apply Rabs_le; lra|].
  split; [intros h s [=]|]. split; [lra|]. split; [cbn; lia|]. split.
  { cbn [max_depth coin_conf]. unfold dbl_lowest. rewrite Ropp_involutive. rewrite <- plus_IZR, <- mult_IZR. apply IZR_le. vm_compute. discriminate. }
  split; [intros p [=]|]. split; [left; reflexivity|]. apply uct_term_nonneg.
Qed.
Lemma coin_explores : explores coin_uct.
Proof. split; [now left|]. split; [discriminate|exact C77_uct_term]. Qed.

(** However small [eps] is, some search on three threads values the root at 1/2 up to [eps]. *)
Example C91_random_witness : forall eps, 0 < eps -> exists s x, coin_reach 3 g_coin s /\ quiet (base s) /\
  fair coin_uct (fun delta => up (/ delta)) (base s) /\ nth_error (xds s) 0 = Some x /\ Rabs (uavg x - 1/2) <= eps.
Proof.
  intros eps He. assert (Gi : good_ints g_coin) by (intros i; cbn; lia). assert (Gr : good_reals g_coin) by (intros i; cbn; destruct (Nat.even i); lra).
  pose proof (uvalues_solve coin_conf coin_uct 1 coin_sane) as Sv.
  destruct (C91_root_converges Nat.eqb Bool.eqb nat_decides bool_decides coin_conf coin_uct coin_ok 1 coin_sane eq_refl (Rle_refl 0) coin_explores C91_uct_term _ Sv 3 (fun delta => up (/ delta)) eps He) as (N0 & H).
  destruct (C63_uct_completes Nat.eqb Bool.eqb nat_decides bool_decides coin_conf coin_uct coin_ok 1 coin_sane 3 g_coin Gi Gr ltac:(lia) (Z.to_nat N0)) as (s & R & Q & Kd).
  pose proof (coin_fair 3 s R) as F. destruct (H g_coin s Gi Gr R F ltac:(rewrite Kd; lia)) as (x & Hx & Hv). exists s, x. do 4 (split; auto).
  replace (uvalues coin_conf coin_uct (Z.to_nat (max_depth coin_conf)) (root_state coin_conf) (root_time coin_conf)) with (1/2) in Hv; auto.
  change (Z.to_nat (max_depth coin_conf)) with 1%nat. cbn. unfold umover, expected, rsum_of, initial. cbn. lra.
Qed.
