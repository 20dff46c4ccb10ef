(** Fair samples and generous choices explore the whole tree *)
From Coq Require Import List ZArith Bool Reals Lia Lra Psatz.
From Verif Require Import Base BaseProofs NumOps HelperModel HelperSpec HelperProofs EngineModel EngineSpec EngineProofs EngineInv EngineCount EngineResults EngineLedger AlgoModel AlgoProofs
  UctModel UctSpec ExploreSpec ExploreProofs SoftSpec SoftProofs MentsModel TreeSpec TreeProofs WorldSpec ConvSpec ConvCount OddsSpec OddsFair OddsNodes OddsTry.
Import ListNotations.
Open Scope R_scope.

Lemma least_positive : forall l : list R, (forall x, In x l -> 0 < x) -> exists p, 0 < p <= 1 /\ forall x, In x l -> p <= x.
Proof.
  induction l as [|x l IH]; intros H; [exists 1; split; [lra|intros x []]|]. destruct IH as (p & Hp & Q); [intros; apply H; now right|].
  pose proof (H x (or_introl eq_refl)). exists (Rmin p x). pose proof (Rmin_l p x). pose proof (Rmin_r p x). split; [split; [apply Rmin_glb_lt; lra|lra]|].
  intros y [<-|I]; auto. specialize (Q y I). lra.
Qed.
Lemma Rabs_le_inv : forall x y, Rabs x <= y -> - y <= x <= y.
Proof. intros x y H. unfold Rabs in H. destruct (Rcase_abs x); lra. Qed.
Lemma nat_above : forall x : R, exists k : nat, x <= INR k.
Proof.
  intros x. destruct (Rle_lt_dec x 0) as [L|L]; [exists 0%nat; cbn; lra|]. exists (Z.to_nat (up x)). destruct (archimed x) as (U & _).
  rewrite INR_IZR_INZ, Z2Nat.id; [lra|]. apply le_IZR. lra.
Qed.

Section Grow.
Context {S A : Type}.
Variable seqb : S -> S -> bool.
Variable aeqb : A -> A -> bool.
Hypothesis seqb_ok : decides seqb.
Hypothesis aeqb_ok : decides aeqb.
Variable C : @econf S A.
Hypothesis NoTT : use_tt C = false.
Hypothesis Depth : (0 <= max_depth C)%Z.
Variable distr : S -> A -> list (S * R).
Hypothesis Dsucc : forall s a, succs C s a = map fst (distr s a).
Hypothesis Dpos : forall s a, is_sink C s = false -> In a (acts C s) -> (forall p, In p (distr s a) -> 0 < snd p) /\ total (distr s a) = 1.
Notation est := (@EngineModel.est S A).
Notation ereach := (ereach seqb aeqb C).
Notation times := (times aeqb).
Notation tried := (tried aeqb C).

(** Outcomes have a least probability. *)
Lemma least_chance : exists p, 0 < p <= 1 /\ forall n b c x o w, ereach n b -> nth_error (ch (mem b)) c = Some x -> In (o, w) (distr (cstate x) (cact x)) -> p <= w.
Proof using seqb_ok aeqb_ok Dpos.
  set (chances := fun s => if is_sink C s then [] else flat_map (fun a => map snd (distr s a)) (acts C s)).
  assert (X : forall H, exists p, 0 < p <= 1 /\ forall n b c x o w, ereach n b -> nth_error (ch (mem b)) c = Some x -> (cdepth x < Z.of_nat H)%Z -> In (o, w) (distr (cstate x) (cact x)) -> p <= w).
  { induction H as [|H (p & Hp & IH)].
    - exists 1. split; [lra|]. intros n b c x o w R Hx Hd. destruct (ereach_good seqb aeqb seqb_ok aeqb_ok C _ _ R) as [I _]. destruct (ti_cstop _ _ _ _ I c x Hx) as (_ & _ & (_ & K) & _). lia.
    - destruct (least_positive (flat_map chances (level C H))) as (p' & Hp' & Q).
      { intros w I. apply in_flat_map in I. destruct I as (s & _ & I). unfold chances in I. destruct (is_sink C s) eqn:Es; [destruct I|]. apply in_flat_map in I. destruct I as (a & Ia & I).
        apply in_map_iff in I. destruct I as (x & <- & Ix). now apply (Dpos s a). }
      exists (Rmin p p'). pose proof (Rmin_l p p'). pose proof (Rmin_r p p'). split; [split; [apply Rmin_glb_lt; lra|lra]|].
      intros n b c x o w R Hx Hd Iw. destruct (Z.eq_dec (cdepth x) (Z.of_nat H)) as [E|].
      + specialize (Q w). assert (p' <= w); [|lra]. apply Q. apply in_flat_map. exists (cstate x). split; [eapply in_level_c; eauto|].
        destruct (chance_legal seqb aeqb seqb_ok aeqb_ok C n b c x R Hx) as (Ns & Ia & _). unfold chances. rewrite Ns. apply in_flat_map. exists (cact x). split; auto. apply in_map_iff. exists (o, w). auto.
      + pose proof (IH n b c x o w R Hx ltac:(lia) Iw). lra. }
  destruct (X (Z.to_nat (max_depth C))) as (p & Hp & Q). exists p. split; auto. intros n b c x o w R Hx Iw. eapply Q; eauto.
  destruct (ereach_good seqb aeqb seqb_ok aeqb_ok C _ _ R) as [I _]. destruct (ti_cstop _ _ _ _ I c x Hx) as (_ & K1 & (_ & K2) & _). lia.
Qed.

Lemma samples_quiet : forall n b d nd a c x, ereach n b -> quiet b -> nth_error (dh (mem b)) d = Some nd -> lookup aeqb a (dkids nd) = Some c -> nth_error (ch (mem b)) c = Some x ->
  Z.of_nat (length (sampled c (etrace b))) = times d a (etrace b).
Proof using seqb_ok aeqb_ok.
  intros n b d nd a c x R Q Hd Lk Hx. pose proof (ereach_good seqb aeqb seqb_ok aeqb_ok C _ _ R) as Gd. pose proof (evs_reach seqb aeqb seqb_ok aeqb_ok C _ _ R) as Ev.
  rewrite (times_child seqb aeqb aeqb_ok C b Gd Ev d a c) by (exists nd; auto). rewrite (sampled_len b).
  destruct (cinv_reach seqb aeqb seqb_ok aeqb_ok C _ _ R) as [K _]. rewrite (ci_sc _ _ K c).
  rewrite quiet_sum; auto. lia.
Qed.
Lemma root_depth : forall n b d nd, ereach n b -> nth_error (dh (mem b)) d = Some nd -> ddepth nd = 0%Z -> d = 0%nat.
Proof using seqb_ok aeqb_ok.
  intros n b d nd R Hn Hd. destruct (ereach_good seqb aeqb seqb_ok aeqb_ok C _ _ R) as [I _]; pose proof (ti_wf _ _ _ _ I) as Wf.
  pose proof (wf_reachD _ _ _ _ Wf d nd Hn) as Rd; inversion Rd as [E|c o d1 Rc (x & Hx & Lx) E]; [auto|]. subst d1. exfalso.
  destruct (wf_c _ _ _ _ Wf c x o d Hx Lx) as (n1 & H1 & _ & D1 & _). rewrite Hn in H1. injection H1 as <-. destruct (ti_cstop _ _ _ _ I c x Hx) as (_ & _ & (_ & K) & _). lia.
Qed.
Lemma expected_hit : forall (D : list (S * R)) o w, (forall p, In p D -> 0 < snd p) -> In (o, w) D -> w <= expected (fun o' => if seqb o o' then 1 else 0) D.
Proof using seqb_ok.
  intros D o w Hp I. unfold expected. induction D as [|p D IH]; [destruct I|]. rewrite rsum_of_cons.
  assert (Rest : 0 <= rsum_of (fun p => snd p * (if seqb o (fst p) then 1 else 0)) D).
  { clear IH I. induction D as [|p' D IHD]; [unfold rsum_of; cbn; lra|]. rewrite rsum_of_cons. pose proof (Hp p' (or_intror (or_introl eq_refl))).
    assert (0 <= rsum_of (fun p => snd p * (if seqb o (fst p) then 1 else 0)) D) by (apply IHD; intros y [<-|Iy]; apply Hp; cbn; auto). destruct (seqb o (fst p')); lra. }
  pose proof (Hp p (or_introl eq_refl)) as Pp. destruct I as [->|I].
  - cbn [fst snd]. rewrite (proj2 (seqb_ok o o) eq_refl). lra.
  - specialize (IH (fun y Iy => Hp y (or_intror Iy)) I). destruct (seqb o (fst p)); lra.
Qed.

Section Need.
Variable K : R -> Z.
Variables kap B0 eps pm : R.
Hypothesis Hk : 0 < kap.
Hypothesis He : 0 < eps.
Hypothesis Hpm : 0 < pm <= 1.
Hypothesis Least : forall n b c x o w, ereach n b -> nth_error (ch (mem b)) c = Some x -> In (o, w) (distr (cstate x) (cact x)) -> pm <= w.
Variable Om : nat.
Hypothesis HOm : forall n b c x, ereach n b -> nth_error (ch (mem b)) c = Some x -> (length (succs C (cstate x) (cact x)) <= Om)%nat.

(** How many samples a chance node needs. *)
Variable mb : nat.
Hypothesis Mb1 : (1 <= mb)%nat.
Hypothesis Mb2 : (K (pm / 2) <= Z.of_nat mb)%Z.
Hypothesis Mb3 : (K (eps / 4) <= Z.of_nat mb)%Z.
Hypothesis Mb4 : 8 * INR Om / eps <= INR mb.
Hypothesis Mb5 : 2 * INR Om <= INR mb.
(** How many selections a node needs, by the number of decisions left. *)
Variable need : nat -> nat.
Hypothesis Nd : forall j, (need j <= need (Datatypes.S j))%nat /\ exists m, (mb <= m)%nat /\ INR (need j) + 1 <= pm / 2 * INR m /\ INR m + B0 <= kap * INR (need (Datatypes.S j)).
Notation D := (Z.to_nat (max_depth C)).
Variable Vm : nat.
Hypothesis HV : (need D <= Vm)%nat.
Lemma need_mono : forall i j, (i <= j)%nat -> (need i <= need j)%nat.
Proof using All. intros i j H. induction H as [|j H IH]; auto. destruct (Nd j) as (M & _). lia. Qed.

Variable n : nat.
Variable b : est.
Hypothesis R0 : ereach n b.
Hypothesis Q0 : quiet b.
Hypothesis F0 : fair_to distr K b.
Hypothesis T0 : tried kap B0 Vm b.
Hypothesis Many : (Z.of_nat (need D) + 1 <= count is_done (etrace b))%Z.

(** If a node has what it needs then so do its children. *)
Lemma enough_tries : forall d nd a j, nth_error (dh (mem b)) d = Some nd -> In a (acts C (dstate nd)) -> (Datatypes.S j <= D)%nat -> (need (Datatypes.S j) <= length (selected d (etrace b)))%nat ->
  exists m, (mb <= m)%nat /\ INR (need j) + 1 <= pm / 2 * INR m /\ (Z.of_nat m <= times d a (etrace b))%Z.
Proof using All.
  intros d nd a j Hd Ia Hj Hn. destruct (Nd j) as (_ & m & M1 & M2 & M3). exists m. split; auto. split; auto. specialize (T0 d nd a Hd Ia).
  pose proof (need_mono _ _ Hj) as Mo. apply le_IZR. rewrite <- INR_IZR_INZ.
  assert (kap * INR (need (Datatypes.S j)) <= kap * INR (Nat.min (length (selected d (etrace b))) Vm)) by (apply Rmult_le_compat_l; [lra|]; apply le_INR; lia). lra.
Qed.
Lemma all_needs : forall h d nd, nth_error (dh (mem b)) d = Some nd -> is_sink C (dstate nd) = false -> ddepth nd = Z.of_nat h -> (h <= D)%nat -> (h < D)%nat ->
  (need (D - h) <= length (selected d (etrace b)))%nat.
Proof using All.
  destruct (ereach_good seqb aeqb seqb_ok aeqb_ok C _ _ R0) as [I _]. pose proof (ti_wf _ _ _ _ I) as Wf.
  induction h as [|h IH]; intros d nd Hd Ns Hh Hle Hlt.
  - pose proof (root_depth n b d nd R0 Hd ltac:(lia)) as ->. rewrite Nat.sub_0_r.
    assert (Nl : is_leaf C nd = false) by (unfold is_leaf; rewrite Ns; cbn; apply Z.leb_gt; lia). pose proof (inner_visits seqb aeqb seqb_ok aeqb_ok C NoTT n b 0%nat nd R0 Hd Nl) as Vs.
    destruct (C10_idle' seqb aeqb seqb_ok aeqb_ok C n b R0 Q0) as (_ & (root & Hr & Er) & _). rewrite Hd in Hr. injection Hr as <-. lia.
  - pose proof (wf_reachD _ _ _ _ Wf d nd Hd) as Rd; inversion Rd as [E|c o d1 Rc (x & Hx & Lx) E].
    { subst d. destruct (wf_root _ _ _ _ Wf) as (n0 & H0 & _ & E0 & _). rewrite Hd in H0. injection H0 as <-. lia. }
    subst d1. destruct (wf_c _ _ _ _ Wf c x o d Hx Lx) as (n1 & H1 & _ & D1 & _ & Io). rewrite Hd in H1. injection H1 as <-.
    destruct (chance_legal seqb aeqb seqb_ok aeqb_ok C n b c x R0 Hx) as (Nsx & Iax & d0 & nd0 & Hd0 & (nd0' & Hd0' & Lk0) & Es0 & Ed0 & Lt0). rewrite Hd0 in Hd0'. injection Hd0' as <-.
    assert (IHh : (need (D - h) <= length (selected d0 (etrace b)))%nat) by (apply (IH d0 nd0 Hd0); [congruence|lia|lia|lia]).
    replace (D - h)%nat with (Datatypes.S (D - Datatypes.S h)) in IHh by lia. rewrite Es0 in Iax.
    destruct (enough_tries d0 nd0 (cact x) (D - Datatypes.S h) Hd0 Iax ltac:(lia) IHh) as (m & M1 & M2 & M3).
    rewrite <- (samples_quiet n b d0 nd0 (cact x) c x R0 Q0 Hd0 Lk0 Hx) in M3. set (len := length (sampled c (etrace b))) in *.
    rewrite Dsucc in Io. apply in_map_iff in Io. destruct Io as ((o' & w) & Eo & Iw). cbn in Eo. subst o'.
    pose proof (Least n b c x o w R0 Hx Iw) as Lw. rewrite <- Es0 in Iax. destruct (Dpos _ _ Nsx Iax) as (Dp & _). pose proof (expected_hit _ o w Dp Iw) as Eh.
    set (g := fun o' => if seqb o o' then 1 else 0) in *.
    pose proof (F0 c x [] (etrace b) Hx eq_refl (pm / 2) g ltac:(lra)) as Fr. fold len in Fr.
    assert (Fg : Rabs (rsum_of g (sampled c (etrace b)) - INR len * expected g (distr (cstate x) (cact x))) <= pm / 2 * INR len).
    { apply Fr; [|lia]. intros y. unfold g. destruct (seqb o y); rewrite ?Rabs_R1, ?Rabs_R0; lra. }
    apply Rabs_le_inv in Fg. rewrite (sampled_split seqb aeqb seqb_ok aeqb_ok C n b R0 c x g Hx) in Fg.
    assert (One : rsum_of (fun p => g (fst p) * IZR (count (goes c (snd p)) (etrace b))) (ckids x) = IZR (count (goes c d) (etrace b))).
    { pose proof (lookup_in _ _ _ _ _ _ seqb_ok Lx) as Ik. pose proof (wf_ckeys _ _ _ _ Wf c x Hx) as Ndk. clear - Ik Ndk seqb_ok. revert Ik Ndk. induction (ckids x) as [|[o1 d1] r IH]; intros Ik Ndk; [destruct Ik|].
      rewrite rsum_of_cons. cbn [fst snd map] in *. inversion Ndk as [|? ? Ni Nr]; subst. destruct Ik as [[= -> ->]|Ik].
      - unfold g at 1. rewrite (proj2 (seqb_ok o o) eq_refl). rewrite rsum_of_zero; [lra|]. intros p Ip. unfold g. destruct (seqb o (fst p)) eqn:E; [|lra]. apply seqb_ok in E. destruct Ni. rewrite E. now apply in_map.
      - rewrite (IH Ik Nr). unfold g. destruct (seqb o o1) eqn:E; [|lra]. apply seqb_ok in E. subst o1. destruct Ni. apply in_map_iff. exists (o, d). auto. }
    rewrite One in Fg. rewrite <- (reached_goes seqb aeqb seqb_ok aeqb_ok C NoTT n b c o d nd R0 Q0 ltac:(exists x; auto) Hd) in Fg.
    assert (Nl : is_leaf C nd = false) by (unfold is_leaf; rewrite Ns; cbn; apply Z.leb_gt; lia). pose proof (inner_visits seqb aeqb seqb_ok aeqb_ok C NoTT n b d nd R0 Hd Nl) as Vs.
    unfold reached in Fg. destruct Fg as (Fg & _).
    assert (Ml : INR m <= INR len) by (apply le_INR; lia).
    assert (Big : INR (need (D - Datatypes.S h)) + 1 <= IZR (dvisits nd - init_visits C)).
    { pose proof (pos_INR len). pose proof (pos_INR m). assert (INR len * pm <= INR len * expected g (distr (cstate x) (cact x))) by (apply Rmult_le_compat_l; lra).
      assert (pm / 2 * INR m <= pm / 2 * INR len) by (apply Rmult_le_compat_l; lra). lra. }
    rewrite INR_IZR_INZ, <- plus_IZR in Big. apply le_IZR in Big. lia.
Qed.
Lemma chance_needs : forall c x, nth_error (ch (mem b)) c = Some x -> (mb <= length (sampled c (etrace b)))%nat.
Proof using All.
  intros c x Hx. destruct (chance_legal seqb aeqb seqb_ok aeqb_ok C n b c x R0 Hx) as (Nsx & Iax & d0 & nd0 & Hd0 & (nd0' & Hd0' & Lk0) & Es0 & Ed0 & Lt0). rewrite Hd0 in Hd0'. injection Hd0' as <-.
  pose proof (node_depth seqb aeqb seqb_ok aeqb_ok C n b d0 nd0 R0 Hd0) as Nd0. set (h := Z.to_nat (ddepth nd0)).
  assert (L : (need (D - h) <= length (selected d0 (etrace b)))%nat) by (apply (all_needs h d0 nd0 Hd0); [congruence|lia|lia|lia]).
  replace (D - h)%nat with (Datatypes.S (D - Datatypes.S h)) in L by lia. rewrite Es0 in Iax.
  destruct (enough_tries d0 nd0 (cact x) (D - Datatypes.S h) Hd0 Iax ltac:(lia) L) as (m & M1 & _ & M3). rewrite <- (samples_quiet n b d0 nd0 (cact x) c x R0 Q0 Hd0 Lk0 Hx) in M3. lia.
Qed.
Lemma all_explored : explored aeqb C (mem b).
Proof using All.
  intros d nd a Hd Ns Hdp Ia Lk. pose proof (node_depth seqb aeqb seqb_ok aeqb_ok C n b d nd R0 Hd) as Nd0. set (h := Z.to_nat (ddepth nd)).
  assert (L : (need (D - h) <= length (selected d (etrace b)))%nat) by (apply (all_needs h d nd Hd); auto; lia).
  replace (D - h)%nat with (Datatypes.S (D - Datatypes.S h)) in L by lia. destruct (enough_tries d nd a (D - Datatypes.S h) Hd Ia ltac:(lia) L) as (m & M1 & _ & M3).
  rewrite (times_none seqb aeqb aeqb_ok b (evs_reach seqb aeqb seqb_ok aeqb_ok C _ _ R0) d nd a Hd Lk) in M3. lia.
Qed.
Lemma all_faithful : forall (M : @mconf S A) (w : @dnode S A -> Z), (forall s a, mdistr M s a = distr s a) -> (forall y, (Z.abs (w y - reached C y) <= 1)%Z) -> faithful M w eps (mem b).
Proof using All.
  intros M w Md Hw c x Hx g bd Hg. rewrite Md. destruct (chance_legal seqb aeqb seqb_ok aeqb_ok C n b c x R0 Hx) as (Nsx & Iax & _). destruct (Dpos _ _ Nsx Iax) as (Dp & Dt).
  set (Ds := distr (cstate x) (cact x)) in *. assert (Bp : 0 <= bd) by (pose proof (Hg (cstate x)); pose proof (Rabs_pos (g (cstate x))); lra).
  assert (Eb : Rabs (expected g Ds) <= bd).
  { unfold expected. eapply Rle_trans; [apply (rsum_of_abs_le _ _ (fun p => bd * snd p))|].
    - intros p Ip. pose proof (Dp p Ip). rewrite Rabs_mult, (Rabs_pos_eq (snd p)) by lra. pose proof (Hg (fst p)). nra.
    - rewrite rsum_of_scal. replace (rsum_of _ Ds) with (total Ds); [rewrite Dt; lra|]. clear. induction Ds as [|p l IH]; [reflexivity|]. rewrite rsum_of_cons, <- IH. destruct p. reflexivity. }
  pose proof (chance_needs c x Hx) as Cn. set (len := length (sampled c (etrace b))) in *. apply le_INR in Cn.
  assert (Kl : (length (ckids x) <= Om)%nat) by (pose proof (ckids_few seqb aeqb seqb_ok aeqb_ok C n b c x R0 Hx); pose proof (HOm n b c x R0 Hx); lia). apply le_INR in Kl.
  destruct (ereach_good seqb aeqb seqb_ok aeqb_ok C _ _ R0) as [I _]. pose proof (ti_wf _ _ _ _ I) as Wf.
  set (wt := fun k : S * nat => match nth_error (dh (mem b)) (snd k) with Some y => w y | None => 0%Z end).
  assert (Close : forall k, In k (ckids x) -> Rabs (IZR (wt k) - IZR (count (goes c (snd k)) (etrace b))) <= 1).
  { intros [o d] Ik. pose proof (lookup_of_in _ _ _ _ _ _ seqb_ok (wf_ckeys _ _ _ _ Wf c x Hx) Ik) as Lx. destruct (wf_c _ _ _ _ Wf c x o d Hx Lx) as (nd & Hd & _).
    unfold wt. cbn [snd]. rewrite Hd, <- (reached_goes seqb aeqb seqb_ok aeqb_ok C NoTT n b c o d nd R0 Q0 ltac:(exists x; auto) Hd), <- minus_IZR, <- abs_IZR. apply IZR_le, Hw. }
  assert (Fg : Rabs (rsum_of g (sampled c (etrace b)) - INR len * expected g Ds) <= eps / 4 * INR len * bd).
  { destruct (Req_dec bd 0) as [Z|Nz].
    - assert (Gz : forall o, g o = 0) by (intros o; pose proof (Hg o); rewrite Z in H; pose proof (Rabs_pos (g o)); destruct (Req_dec (g o) 0); auto; apply Rabs_pos_lt in H1; lra).
      rewrite rsum_of_zero by auto. assert (Ez : expected g Ds = 0) by (unfold expected; apply rsum_of_zero; intros; rewrite Gz; ring). rewrite Ez, Z, Rmult_0_r, Rminus_0_r, Rabs_R0. lra.
    - pose proof (F0 c x [] (etrace b) Hx eq_refl (eps / 4) (fun o => g o / bd) ltac:(lra)) as Fr. fold len Ds in Fr.
      assert (E1 : rsum_of (fun o => g o / bd) (sampled c (etrace b)) = / bd * rsum_of g (sampled c (etrace b))) by (rewrite <- rsum_of_scal; apply rsum_of_ext; intros; unfold Rdiv; ring).
      assert (E2 : expected (fun o => g o / bd) Ds = / bd * expected g Ds) by (unfold expected; rewrite <- rsum_of_scal; apply rsum_of_ext; intros; unfold Rdiv; ring).
      rewrite E1, E2 in Fr. assert (Ip : 0 < / bd) by (apply Rinv_0_lt_compat; lra).
      replace (/ bd * rsum_of g (sampled c (etrace b)) - INR len * (/ bd * expected g Ds)) with (/ bd * (rsum_of g (sampled c (etrace b)) - INR len * expected g Ds)) in Fr by ring.
      rewrite Rabs_mult, (Rabs_pos_eq (/ bd)) in Fr by lra.
      assert (Fr' : / bd * Rabs (rsum_of g (sampled c (etrace b)) - INR len * expected g Ds) <= eps / 4 * INR len).
      { apply Fr; [|apply INR_le in Cn; lia]. intros o. unfold Rdiv. rewrite Rabs_mult, (Rabs_pos_eq (/ bd)) by lra. apply (Rmult_le_reg_r bd); [lra|]. rewrite Rmult_assoc, Rinv_l, Rmult_1_r by lra. rewrite Rmult_1_l. apply Hg. }
      apply (Rmult_le_compat_r bd) in Fr'; [|lra]. replace (/ bd * Rabs (rsum_of g (sampled c (etrace b)) - INR len * expected g Ds) * bd) with (Rabs (rsum_of g (sampled c (etrace b)) - INR len * expected g Ds)) in Fr' by (field; lra). lra. }
  rewrite (sampled_split seqb aeqb seqb_ok aeqb_ok C n b R0 c x g Hx) in Fg.
  assert (Sg : Rabs (rsum_of (fun k => IZR (wt k) * g (fst k)) (ckids x) - rsum_of (fun p => g (fst p) * IZR (count (goes c (snd p)) (etrace b))) (ckids x)) <= INR Om * bd).
  { replace (_ - _) with (rsum_of (fun k => g (fst k) * (IZR (wt k) - IZR (count (goes c (snd k)) (etrace b)))) (ckids x)).
    - eapply Rle_trans; [apply (rsum_of_abs _ _ _ bd Bp)|apply Rmult_le_compat_r; auto]. intros k Ik. rewrite Rabs_mult. pose proof (Hg (fst k)). pose proof (Close k Ik). pose proof (Rabs_pos (g (fst k))). pose proof (Rabs_pos (IZR (wt k) - IZR (count (goes c (snd k)) (etrace b)))). nra.
    - rewrite (rsum_of_ext _ _ (fun k => IZR (wt k) * g (fst k) + (-1) * (g (fst k) * IZR (count (goes c (snd k)) (etrace b))))) by (intros; ring). rewrite rsum_of_plus, rsum_of_scal. ring. }
  assert (Sw : Rabs (rsum_of (fun k => IZR (wt k)) (ckids x) - INR len) <= INR Om).
  { assert (El : INR len = rsum_of (fun k => IZR (count (goes c (snd k)) (etrace b))) (ckids x)).
    { pose proof (sampled_split seqb aeqb seqb_ok aeqb_ok C n b R0 c x (fun _ => 1) Hx) as Sp. rewrite rsum_of_const in Sp. fold len in Sp. rewrite Rmult_1_r in Sp. rewrite Sp. apply rsum_of_ext. intros; ring. }
    rewrite El. replace (_ - _) with (rsum_of (fun k => IZR (wt k) - IZR (count (goes c (snd k)) (etrace b))) (ckids x)).
    - eapply Rle_trans; [apply (rsum_of_abs _ _ _ 1 ltac:(lra) Close)|]. lra.
    - rewrite (rsum_of_ext _ _ (fun k => IZR (wt k) + (-1) * (IZR (count (goes c (snd k)) (etrace b))))) by (intros; ring). rewrite rsum_of_plus, rsum_of_scal. ring. }
  assert (Lp : 1 <= INR len) by (apply Rle_trans with (INR mb); auto; change 1 with (INR 1); now apply le_INR).
  unfold mean. set (l := map _ (ckids x)).
  assert (L1 : rsum_of (fun p => IZR (fst p)) l = rsum_of (fun k => IZR (wt k)) (ckids x)) by (unfold l; rewrite rsum_of_map; reflexivity).
  assert (L2 : rsum_of (fun p => IZR (fst p) * snd p) l = rsum_of (fun k => IZR (wt k) * g (fst k)) (ckids x)) by (unfold l; rewrite rsum_of_map; reflexivity).
  rewrite L1, L2. set (w0 := rsum_of (fun k => IZR (wt k)) (ckids x)) in *. set (g0 := rsum_of (fun k => IZR (wt k) * g (fst k)) (ckids x)) in *. set (s0 := rsum_of (fun p => g (fst p) * IZR (count (goes c (snd p)) (etrace b))) (ckids x)) in *.
  apply Rabs_le_inv in Sw. assert (Hw0 : INR len / 2 <= w0) by lra. destruct (Req_EM_T w0 0) as [Z|_]; [lra|].
  replace (g0 / w0 - expected g Ds) with ((g0 - w0 * expected g Ds) / w0) by (field; lra). unfold Rdiv. rewrite Rabs_mult, (Rabs_pos_eq (/ w0)) by (left; apply Rinv_0_lt_compat; lra).
  apply (Rmult_le_reg_r w0); [lra|]. rewrite Rmult_assoc, Rinv_l, Rmult_1_r by lra.
  apply Rle_trans with (INR Om * bd + eps / 4 * INR len * bd + INR Om * bd).
  - replace (g0 - w0 * expected g Ds) with ((g0 - s0) + (s0 - INR len * expected g Ds) + (INR len - w0) * expected g Ds) by ring.
    eapply Rle_trans; [apply Rabs_triang|]. eapply Rle_trans; [apply Rplus_le_compat_r, Rabs_triang|].
    assert (Rabs ((INR len - w0) * expected g Ds) <= INR Om * bd); [|lra]. rewrite Rabs_mult. apply Rmult_le_compat; try apply Rabs_pos; auto. apply Rabs_le. lra.
  - assert (O8 : 8 * INR Om <= eps * INR len). { assert (8 * INR Om / eps <= INR len) by lra. apply (Rmult_le_compat_r eps) in H; [|lra]. unfold Rdiv in H. rewrite Rmult_assoc, Rinv_l, Rmult_1_r in H by lra. lra. }
    assert (2 * INR Om + eps / 4 * INR len <= eps * w0) by nra. nra.
Qed.
End Need.

(** The number of trials after which a fair and generous search has explored everything and sampled it well. *)
Theorem grow : forall K kap B0 eps, 0 < kap -> 0 < eps -> exists N0 : nat, forall n b Vm, ereach n b -> quiet b -> fair_to distr K b -> (N0 <= Vm)%nat -> tried kap B0 Vm b ->
  (Z.of_nat N0 <= count is_done (etrace b))%Z ->
  explored aeqb C (mem b) /\ forall (M : @mconf S A) w, (forall s a, mdistr M s a = distr s a) -> (forall y, (Z.abs (w y - reached C y) <= 1)%Z) -> faithful M w eps (mem b).
Proof using seqb_ok aeqb_ok NoTT Depth Dsucc Dpos.
  intros K kap B0 eps Hk He. destruct least_chance as (pm & Hpm & Least). destruct (few_outcomes seqb aeqb seqb_ok aeqb_ok C) as (Om & HOm).
  destruct (nat_above (8 * INR Om / eps)) as (m1 & M1).
  set (mb := (1 + Z.to_nat (K (pm / 2)%R) + Z.to_nat (K (eps / 4)%R) + m1 + 2 * Om)%nat).
  assert (Mb4 : 8 * INR Om / eps <= INR mb) by (eapply Rle_trans; [exact M1|]; apply le_INR; unfold mb; lia).
  assert (Mb5 : 2 * INR Om <= INR mb) by (replace (2 * INR Om) with (INR (2 * Om)) by (rewrite mult_INR; reflexivity); apply le_INR; unfold mb; lia).
  assert (Nx : forall j : nat -> nat, exists need : nat -> nat, forall j, (need j <= need (Datatypes.S j))%nat /\ exists m, (mb <= m)%nat /\ INR (need j) + 1 <= pm / 2 * INR m /\ INR m + B0 <= kap * INR (need (Datatypes.S j))).
  { intros _.
    set (above := fun x : R => Z.to_nat (up x)).
    assert (Ab : forall x, x <= INR (above x)).
    { intros x. unfold above. destruct (archimed x) as (U & _). destruct (Rle_lt_dec x 0) as [L|L]; [pose proof (pos_INR (Z.to_nat (up x))); lra|]. rewrite INR_IZR_INZ, Z2Nat.id; [lra|]. apply le_IZR. lra. }
    set (mm := fun r : nat => (mb + above (2 * (INR r + 1) / pm)%R)%nat).
    exists (fix need j := match j with O => 0%nat | Datatypes.S j' => (need j' + above ((INR (mm (need j')) + B0) / kap)%R)%nat end). intros j. cbv beta.
    set (need := fix need j := match j with O => 0%nat | Datatypes.S j' => (need j' + above ((INR (mm (need j')) + B0) / kap)%R)%nat end).
    change (need (Datatypes.S j)) with (need j + above ((INR (mm (need j)) + B0) / kap)%R)%nat. split; [lia|]. exists (mm (need j)). split; [unfold mm; lia|]. split.
    - assert (P : 2 * (INR (need j) + 1) / pm <= INR (mm (need j))) by (eapply Rle_trans; [apply Ab|]; apply le_INR; unfold mm; lia).
      apply (Rmult_le_compat_r (pm / 2)) in P; [|lra]. replace (2 * (INR (need j) + 1) / pm * (pm / 2)) with (INR (need j) + 1) in P by (field; lra). lra.
    - pose proof (Ab ((INR (mm (need j)) + B0) / kap)) as P. apply (Rmult_le_compat_r kap) in P; [|lra]. unfold Rdiv at 1 in P. rewrite Rmult_assoc, Rinv_l, Rmult_1_r in P by lra.
      rewrite plus_INR. pose proof (pos_INR (need j)). nra. }
  destruct (Nx (fun j => j)) as (need & Nd). clear Nx. exists (Datatypes.S (need (Z.to_nat (max_depth C)))). intros n b Vm R Q F HV T Hm. split.
  - apply (all_explored K kap B0 eps pm Hk He Hpm Least Om HOm mb ltac:(unfold mb; lia) ltac:(unfold mb; lia) ltac:(unfold mb; lia) Mb4 Mb5 need Nd Vm ltac:(lia) n b); auto. lia.
  - intros M w Md Hw. apply (all_faithful K kap B0 eps pm Hk He Hpm Least Om HOm mb ltac:(unfold mb; lia) ltac:(unfold mb; lia) ltac:(unfold mb; lia) Mb4 Mb5 need Nd Vm ltac:(lia) n b); auto. lia.
Qed.
End Grow.
