(** A thread in a trial can always finish it alone, unless it waits for another one. *)
From Coq Require Import List ZArith Bool Reals Lia.
From Verif Require Import Base BaseProofs NumOps HelperModel EngineModel EngineSpec EngineProofs EngineInv EngineCount
  EngineResults AlgoModel AlgoProofs QuietSpec.
Import ListNotations.

Section Finish.
Context {S A : Type}.
Variable seqb : S -> S -> bool.
Variable aeqb : A -> A -> bool.
Hypothesis seqb_ok : decides seqb.
Hypothesis aeqb_ok : decides aeqb.
Variable C : @econf S A.
Variable G : @algo S A.

Definition of_thread (l : @elabel S A) (t : nat) : Prop :=
  match l with LStart _ => False | LSelect t' _ | LSample t' _ | LRun t' => t' = t end.

Lemma estep_thread : forall l t s s', of_thread l t -> estep seqb aeqb C l s = Some s' ->
  exists x, ths s' = upd (ths s) t x /\
    (x = TBad \/ length (walk t (etrace s')) = Datatypes.S (length (walk t (etrace s)))).
Proof.
  assert (One : forall t (e : @event S A) tr, e <> EStart -> walk_event e = true ->
            length (walk t ((t, e) :: tr)) = Datatypes.S (length (walk t tr))).
  { intros t e tr N W. rewrite walk_more by auto. rewrite app_length. cbn. lia. }
  intros l t s s' L H. destruct l as [t'|t' a|t' o|t']; cbn in L; [destruct L|subst t'..]; unfold estep in H;
    (destruct (nth_error (ths s) t) as [x|]; [|discriminate]).
  - destruct x; try discriminate. destruct (nth_error (dh (mem s)) cur) as [n|].
    2:{ injection H as <-. exists TBad. auto. }
    destruct (should_continue C n flag && existsb (aeqb a) (acts C (dstate n))); [|discriminate].
    cbv zeta in H. destruct (nth_error (dh (create_child_d aeqb (mem s) cur (visit_d n) a)) cur) as [n1|].
    2:{ injection H as <-. exists TBad. auto. }
    destruct (lookup aeqb a (dkids n1)) as [c|].
    2:{ injection H as <-. exists TBad. auto. }
    injection H as <-. eexists. split; [reflexivity|]. right. cbn [etrace].
    destruct (lookup aeqb a (dkids n)); cbn [map rev app]; [|rewrite walk_skip by auto]; apply One; auto; discriminate.
  - destruct x; try discriminate. destruct (nth_error (ch (mem s)) c) as [n|].
    2:{ injection H as <-. exists TBad. auto. }
    destruct (nth_error (dh (mem s)) cur) as [dn|].
    2:{ injection H as <-. exists TBad. auto. }
    destruct (existsb (seqb o) (succs C (cstate n) (cact n))); [|discriminate]. cbv zeta in H.
    destruct (create_child_c seqb C (mem s) c (visit_c n) o) as [m1 isnew].
    destruct (nth_error (ch m1) c) as [n1|].
    2:{ injection H as <-. exists TBad. auto. }
    destruct (lookup seqb o (ckids n1)) as [d|].
    2:{ injection H as <-. exists TBad. auto. }
    injection H as <-. eexists. split; [reflexivity|]. right. cbn [etrace].
    destruct isnew; cbn [map rev app]; [rewrite walk_skip by auto|]; apply One; auto; discriminate.
  - destruct x; try discriminate.
    + destruct (nth_error (dh (mem s)) cur) as [n|].
      2:{ injection H as <-. exists TBad. auto. }
      destruct (should_continue C n flag); [discriminate|]. injection H as <-. eexists. split; [reflexivity|]. right.
      cbn [etrace map rev app]. apply One; auto; discriminate.
    + destruct nodes as [|[d c] nodes].
      * injection H as <-. eexists. split; [reflexivity|]. right. cbn [etrace map rev app]. apply One; auto; discriminate.
      * destruct before as [|r before]; injection H as <-; [exists TBad; auto|]. eexists. split; [reflexivity|]. right.
        cbn [etrace map rev app]. apply One; auto; discriminate.
    + injection H as <-. eexists. split; [reflexivity|]. right. cbn [etrace map rev app]. apply One; auto; discriminate.
Qed.

Lemma estep_starts : forall l t s s', of_thread l t -> estep seqb aeqb C l s = Some s' ->
  count is_start (etrace s') = count is_start (etrace s).
Proof.
  intros l t s s' L H. destruct l as [t'|t' a|t' o|t']; cbn in L; [destruct L|subst t'..]; unfold estep in H;
    (destruct (nth_error (ths s) t) as [x|]; [|discriminate]).
  - destruct x; try discriminate. destruct (nth_error (dh (mem s)) cur) as [n|]; [|now injection H as <-].
    destruct (should_continue C n flag && existsb (aeqb a) (acts C (dstate n))); [|discriminate].
    cbv zeta in H. destruct (nth_error (dh (create_child_d aeqb (mem s) cur (visit_d n) a)) cur) as [n1|]; [|now injection H as <-].
    destruct (lookup aeqb a (dkids n1)) as [c|]; [|now injection H as <-].
    injection H as <-. cbn [etrace]. destruct (lookup aeqb a (dkids n)); reflexivity.
  - destruct x; try discriminate. destruct (nth_error (ch (mem s)) c) as [n|]; [|now injection H as <-].
    destruct (nth_error (dh (mem s)) cur) as [dn|]; [|now injection H as <-].
    destruct (existsb (seqb o) (succs C (cstate n) (cact n))); [|discriminate]. cbv zeta in H.
    destruct (create_child_c seqb C (mem s) c (visit_c n) o) as [m1 isnew].
    destruct (nth_error (ch m1) c) as [n1|]; [|now injection H as <-].
    destruct (lookup seqb o (ckids n1)) as [d|]; [|now injection H as <-].
    injection H as <-. cbn [etrace]. destruct isnew; reflexivity.
  - destruct x; try discriminate.
    + destruct (nth_error (dh (mem s)) cur) as [n|]; [|now injection H as <-].
      destruct (should_continue C n flag); [discriminate|]. now injection H as <-.
    + destruct nodes as [|[d c] nodes]; [now injection H as <-|].
      destruct before as [|r before]; now injection H as <-.
    + now injection H as <-.
Qed.

(** A step of worker [t]: a step of the engine, or a look at the children. *)
Definition looked (s s' : ast G) (t : nat) : Prop := base s' = base s /\ exists cx cx1, nth_error (cxs s) t = Some cx /\ cxs s' = upd (cxs s) t cx1 /\
  ((exists kids, peek_d G kids cx = Some cx1) \/ (exists kids, peek_c G kids cx = Some cx1)).
Lemma arun_step : forall t s s', astep seqb aeqb C G (ARun t) s = Some s' -> afail s' = None ->
  (exists cx1, cxs s' = upd (cxs s) t cx1) /\
  ((exists l, of_thread l t /\ estep seqb aeqb C l (base s) = Some (base s')) \/ looked s s' t).
Proof.
  intros t s s' H F. unfold astep in H. destruct (afail s); [discriminate|].
  destruct (nth_error (ths (base s)) t) as [th|]; [|discriminate].
  destruct (nth_error (cxs s) t) as [cx|] eqn:Ecx; [|discriminate].
  set (P := (exists cx1, cxs s' = upd (cxs s) t cx1) /\
    ((exists l, of_thread l t /\ estep seqb aeqb C l (base s) = Some (base s')) \/ looked s s' t)).
  assert (D : forall f, Some (adie G s f) = Some s' -> P).
  { intros f [= <-]. discriminate. }
  assert (St : forall l b ds cs cx1 g1, of_thread l t -> estep seqb aeqb C l (base s) = Some b -> Some (aset G s b ds cs t cx1 g1) = Some s' -> P).
  { intros l b ds cs cx1 g1 L E [= <-]. split; [exists cx1; reflexivity|]. left. exists l. auto. }
  destruct (blocked G s t th); [discriminate|].
  destruct th; try discriminate.
  - destruct (nth_error (dh _) cur) as [n|]; [|eauto]. destruct (nth_error (xds s) cur) as [x|]; [|eauto].
    destruct (should_continue C n flag).
    + destruct (select _ _ _ _ _ _) as [[[a cx1] g1]| |]; cbn [done] in H; [|eauto..].
      destruct (estep seqb aeqb C (LSelect t a) (base s)) eqn:E; [|eauto]. exact (St (LSelect t a) _ _ _ _ _ eq_refl E H).
    + destruct (estep seqb aeqb C (LRun t) (base s)) eqn:E; [|discriminate]. exact (St (LRun t) _ _ _ _ _ eq_refl E H).
  - destruct (nth_error (ch _) c) as [n|]; [|eauto]. destruct (nth_error (xcs s) c) as [x|]; [|eauto].
    destruct (sample _ _ _ _ _) as [[[o cx1] g1]| |]; cbn [done] in H; [|eauto..].
    destruct (estep seqb aeqb C (LSample t o) (base s)) eqn:E; [|eauto]. exact (St (LSample t o) _ _ _ _ _ eq_refl E H).
  - destruct (estep seqb aeqb C (LRun t) (base s)) eqn:E; [|discriminate].
    destruct nodes as [|[d c] nodes]; [exact (St (LRun t) _ _ _ _ _ eq_refl E H)|]. destruct before; [exact (St (LRun t) _ _ _ _ _ eq_refl E H)|].
    destruct (nth_error (ch _) c) as [n|]; [|eauto]. destruct (nth_error (xcs s) c) as [x|]; [|eauto].
    destruct (peek_c G (cview s n) cx) as [cx1|] eqn:Ep.
    { injection H as <-. split; [eexists; reflexivity|]. right. split; [reflexivity|]. exists cx, cx1. split; auto. split; [reflexivity|]. right. eauto. }
    destruct (back_c _ _ _ _ _ _); cbn [done] in H; [|eauto..]. exact (St (LRun t) _ _ _ _ _ eq_refl E H).
  - destruct (estep seqb aeqb C (LRun t) (base s)) eqn:E; [|discriminate].
    destruct (nth_error (dh _) d) as [n|]; [|eauto]. destruct (nth_error (xds s) d) as [x|]; [|eauto].
    destruct (peek_d G (dview s n) cx) as [cx1|] eqn:Ep.
    { injection H as <-. split; [eexists; reflexivity|]. right. split; [reflexivity|]. exists cx, cx1. split; auto. split; [reflexivity|]. left. eauto. }
    destruct (back_d _ _ _ _ _ _); cbn [done] in H; [|eauto..]. exact (St (LRun t) _ _ _ _ _ eq_refl E H).
Qed.

Lemma areach_snoc : forall n g s l s', areach seqb aeqb C G n g s -> astep seqb aeqb C G l s = Some s' ->
  areach seqb aeqb C G n g s'.
Proof.
  intros n g s l s' [ls H] E. exists (ls ++ [l]). revert H. generalize (ainit C G n g).
  induction ls as [|k ls IH]; intros s0 H; cbn [arun app] in *.
  - injection H as ->. now rewrite E.
  - destruct (astep seqb aeqb C G k s0); [auto|discriminate].
Qed.

Lemma areach_app : forall n g s ls s', areach seqb aeqb C G n g s -> arun seqb aeqb C G ls s = Some s' ->
  areach seqb aeqb C G n g s'.
Proof.
  intros n g s ls. revert s. induction ls as [|l ls IH]; intros s s' R H; cbn [arun] in H.
  - injection H as <-. auto.
  - destruct (astep seqb aeqb C G l s) as [s1|] eqn:E; [|discriminate]. apply (IH s1); auto. eapply areach_snoc; eauto.
Qed.

(** Every step of the engine changes the stepping worker's position. *)
Lemma estep_moves : forall l t s s' x x', of_thread l t -> estep seqb aeqb C l s = Some s' -> nth_error (ths s) t = Some x ->
  nth_error (ths s') t = Some x' -> x' <> x.
Proof.
  intros l t s s' x x' L H Hx Hx' ->.
  assert (D : forall b y, Some b = Some s' -> ths b = upd (ths s) t y -> y <> x -> False).
  { intros b y [= ->] E N. rewrite E, (nth_upd _ _ _ _ _ _ Hx), Nat.eqb_refl in Hx'. congruence. }
  destruct l as [t'|t' a|t' o|t']; cbn in L; [destruct L|subst t'..]; unfold estep in H; rewrite Hx in H.
  all: destruct x; try discriminate;
    repeat match type of H with (match ?e with _ => _ end) = _ => destruct e; try discriminate end;
    unfold out in H; (eapply D; [exact H|reflexivity|discriminate]).
Qed.

(** Looks: each backup looks at the children at most [r] times before its last look. *)
Variable rank : CX G -> nat.
Variable r : nat.
Hypothesis rank_le : forall cx, (rank cx <= r)%nat.
Hypothesis rank_d : forall kids cx cx1, peek_d G kids cx = Some cx1 -> (rank cx1 < rank cx)%nat.
Hypothesis rank_c : forall kids cx cx1, peek_c G kids cx = Some cx1 -> (rank cx1 < rank cx)%nat.
(** The other workers hold no node's lock. *)
Definition others_free (s : ast G) (t : nat) : Prop := forall u y cy, u <> t -> nth_error (ths (base s)) u = Some y ->
  nth_error (cxs s) u = Some cy -> held G y cy = None.

Lemma arun_app : forall ks ls s s1, arun seqb aeqb C G ks s = Some s1 -> arun seqb aeqb C G (ks ++ ls) s = arun seqb aeqb C G ls s1.
Proof.
  induction ks as [|k ks IH]; intros ls s s1 H; cbn [arun app] in *; [now injection H as ->|].
  destruct (astep seqb aeqb C G k s); [auto|discriminate].
Qed.

(** With enough looks worker [t] gets to its next step of the engine. *)
Lemma one_step : forall n g (Q : ast G -> Prop), (forall l s s', Q s -> astep seqb aeqb C G l s = Some s' -> Q s') ->
  (forall s, areach seqb aeqb C G n g s -> Q s -> afail s = None) ->
  forall k s t x cx, areach seqb aeqb C G n g s -> Q s -> nth_error (ths (base s)) t = Some x -> x <> TIdle -> nth_error (cxs s) t = Some cx ->
  (rank cx <= k)%nat -> alone G s t x ->
  exists j s', (j <= 1 + k)%nat /\ arun seqb aeqb C G (repeat (ARun t) j) s = Some s' /\
    (forall u, u <> t -> nth_error (ths (base s')) u = nth_error (ths (base s)) u /\ nth_error (cxs s') u = nth_error (cxs s) u) /\
    (exists l, of_thread l t /\ estep seqb aeqb C l (base s) = Some (base s')) /\
    (forall y cy, nth_error (ths (base s')) t = Some y -> nth_error (cxs s') t = Some cy -> held G y cy = None).
Proof.
  intros n g Q Qs NF. induction k as [k IH] using lt_wf_ind. intros s t x cx R Hq Hx Nx Hcx Rk Al.
  pose proof (areach_good seqb aeqb seqb_ok aeqb_ok C G _ _ _ R) as I.
  destruct (algo_progress seqb aeqb C G s t x I (NF _ R Hq) Hx Nx Al) as [s1 E].
  pose proof (areach_snoc _ _ _ _ _ R E) as R1. pose proof (Qs _ _ _ Hq E) as Hq1.
  destruct (arun_step t s s1 E (NF _ R1 Hq1)) as ((cx1 & Ec) & [(l & L & El)|(Eb & cx' & cx2 & Hcx' & Ec' & Pk)]).
  - exists 1%nat, s1. split; [lia|]. split; [cbn [repeat arun]; now rewrite E|].
    destruct (estep_thread l t _ _ L El) as (x1 & Eu & W). split; [|split; [eauto|]].
    + intros u Nu. rewrite Eu, Ec, !nth_upd_ne by auto. auto.
    + intros y cy Hy Hcy. destruct (held G y cy) as [kk|] eqn:Hh; auto. exfalso.
      assert (Nb : base s1 <> base s).
      { intros Eb. rewrite Eb in Eu. destruct W as [->|W].
        - destruct (ereach_good _ _ seqb_ok aeqb_ok C n (base s) (areach_ereach seqb aeqb C G _ _ _ R)) as [_ Sf].
          apply (Sf t TBad). rewrite Eu. eapply nth_upd_eq; eauto.
        - rewrite Eb in W. lia. }
      destruct (hold_step seqb aeqb C G s s1 (astep_atr seqb aeqb seqb_ok aeqb_ok C G _ _ _ I E) Nb t y cy kk Hy Hcy Hh) as [Hy' _].
      rewrite Hx in Hy'. injection Hy' as ->. exact (estep_moves l t _ _ _ _ L El Hx Hy eq_refl).
  - rewrite Hcx in Hcx'. injection Hcx' as <-.
    assert (Lr : (rank cx2 < rank cx)%nat) by (destruct Pk as [(kids & Pk)|(kids & Pk)]; [eapply rank_d|eapply rank_c]; eauto).
    destruct (IH (rank cx2) ltac:(lia) s1 t x cx2 R1 Hq1) as (j & s' & Lj & Ej & O & L & F'); auto.
    + now rewrite Eb.
    + rewrite Ec'. eapply nth_upd_eq; eauto.
    + intros u y cy kk Nu Hy Hcy. rewrite Eb in Hy. rewrite Ec', nth_upd_ne in Hcy by auto. eapply Al; eauto.
    + exists (Datatypes.S j), s'. split; [lia|]. split; [cbn [repeat arun]; now rewrite E|]. rewrite <- Eb. split; [|auto].
      intros u Nu. destruct (O u Nu) as [-> ->]. split; auto. rewrite Ec', nth_upd_ne; auto.
Qed.

Lemma arun_keeps : forall (Q : ast G -> Prop), (forall l s s', Q s -> astep seqb aeqb C G l s = Some s' -> Q s') ->
  forall ls s s', Q s -> arun seqb aeqb C G ls s = Some s' -> Q s'.
Proof.
  intros Q Qs. induction ls as [|l ls IH]; intros s s' H E; cbn [arun] in E; [now injection E as <-|].
  destruct (astep seqb aeqb C G l s) as [s1|] eqn:E1; [eauto|discriminate].
Qed.
Lemma finishes_in : forall n g (Q : ast G -> Prop), (forall l s s', Q s -> astep seqb aeqb C G l s = Some s' -> Q s') ->
  (0 <= max_depth C)%Z -> (forall s, areach seqb aeqb C G n g s -> Q s -> afail s = None) ->
  forall s t, (t < n)%nat -> areach seqb aeqb C G n g s -> Q s -> others_free s t ->
  exists k s', (Z.of_nat k <= (4 * max_depth C + 3) * (1 + Z.of_nat r))%Z /\ arun seqb aeqb C G (repeat (ARun t) k) s = Some s' /\
    nth_error (ths (base s')) t = Some TIdle /\
    (forall t', t' <> t -> nth_error (ths (base s')) t' = nth_error (ths (base s)) t' /\ nth_error (cxs s') t' = nth_error (cxs s) t') /\
    count is_start (etrace (base s')) = count is_start (etrace (base s)).
Proof.
  intros n g Q Qs Hm NF s t Ht R Hq Fr.
  assert (Ind : forall k s, areach seqb aeqb C G n g s -> Q s -> others_free s t ->
            (4 * max_depth C + 3 - Z.of_nat (length (walk t (etrace (base s)))) <= Z.of_nat k)%Z ->
            exists j s', (j <= k * (1 + r))%nat /\ arun seqb aeqb C G (repeat (ARun t) j) s = Some s' /\
              nth_error (ths (base s')) t = Some TIdle /\
              (forall t', t' <> t -> nth_error (ths (base s')) t' = nth_error (ths (base s)) t' /\ nth_error (cxs s') t' = nth_error (cxs s) t') /\
              count is_start (etrace (base s')) = count is_start (etrace (base s))).
  { clear s R Hq Fr. induction k as [|k IH]; intros s R Hq Fr B.
    all: pose proof (areach_ereach seqb aeqb C G _ _ _ R) as Er;
      destruct (thread_ex seqb aeqb seqb_ok aeqb_ok C n (base s) t Er Ht) as [x Hx];
      assert (Dx : x = TIdle \/ x <> TIdle) by (destruct x; auto; right; discriminate);
      destruct Dx as [->|Nx]; [exists 0%nat, s; cbn; repeat split; auto with arith|];
      pose proof (areach_good seqb aeqb seqb_ok aeqb_ok C G _ _ _ R) as I;
      assert (Hcx : exists cx, nth_error (cxs s) t = Some cx);
      [destruct (nth_error (cxs s) t) as [cx|] eqn:Ecx; [eauto|]; apply nth_error_None in Ecx; rewrite (ag_t _ _ _ _ _ I) in Ecx;
       assert (t < length (ths (base s)))%nat by (apply nth_error_Some; congruence); lia|];
      destruct Hcx as (cx & Hcx);
      assert (Al : alone G s t x) by (intros u y cy kk Nu Hy Hcy Hk; rewrite (Fr u y cy Nu Hy Hcy) in Hk; discriminate);
      destruct (one_step n g Q Qs NF r s t x cx R Hq Hx Nx Hcx (rank_le cx) Al) as (i & s1 & Li & E & O & (l & L & El) & _);
      assert (F1 : others_free s1 t) by (intros u y cy Nu Hy Hcy; destruct (O u Nu) as [O1 O2]; rewrite O1 in Hy; rewrite O2 in Hcy; eapply Fr; eauto);
      pose proof (areach_app _ _ _ _ _ R E) as R1; pose proof (arun_keeps Q Qs _ _ _ Hq E) as Hq1;
      destruct (estep_thread l t _ _ L El) as (x1 & Eu & W);
      pose proof (areach_ereach seqb aeqb C G _ _ _ R1) as Er1;
      assert (Nb : x1 <> TBad);
      [intros ->; destruct (ereach_good _ _ seqb_ok aeqb_ok C n (base s1) Er1) as [_ Sf];
       apply (Sf t TBad); rewrite Eu; eapply nth_upd_eq; eauto|];
      (destruct W as [W|W]; [contradiction|]);
      pose proof (walk_bound seqb aeqb seqb_ok aeqb_ok C n (base s1) t Er1 Hm Ht) as WB.
    - lia.
    - destruct (IH s1 R1 Hq1 F1) as (j & s' & Lj & Ej & I1 & I2 & I3); [lia|].
      exists (i + j)%nat, s'. split; [cbn [Nat.mul]; lia|]. rewrite repeat_app, (arun_app _ _ _ _ E). split; auto. split; auto. split.
      + intros t' N. destruct (I2 t' N) as [-> ->]. exact (O t' N).
      + rewrite I3. eapply estep_starts; eauto. }
  destruct (Ind (Z.to_nat (4 * max_depth C + 3)) s R Hq Fr) as (j & s' & Lj & E & I1 & I2); [lia|].
  exists j, s'. split; [|auto]. nia.
Qed.

Lemma finishes : forall n g, (0 <= max_depth C)%Z -> (forall s, areach seqb aeqb C G n g s -> afail s = None) ->
  forall s t, (t < n)%nat -> areach seqb aeqb C G n g s -> others_free s t ->
  exists k s', (Z.of_nat k <= (4 * max_depth C + 3) * (1 + Z.of_nat r))%Z /\ arun seqb aeqb C G (repeat (ARun t) k) s = Some s' /\
    nth_error (ths (base s')) t = Some TIdle /\
    (forall t', t' <> t -> nth_error (ths (base s')) t' = nth_error (ths (base s)) t' /\ nth_error (cxs s') t' = nth_error (cxs s) t') /\
    count is_start (etrace (base s')) = count is_start (etrace (base s)).
Proof.
  intros n g Hm NF s t Ht R Fr. apply (finishes_in n g (fun _ => True)); auto.
Qed.

Lemma completes : forall n g, (0 <= max_depth C)%Z -> (0 < n)%nat ->
  (forall s, areach seqb aeqb C G n g s -> afail s = None) ->
  forall k, exists s, areach seqb aeqb C G n g s /\ quiet (base s) /\ count is_done (etrace (base s)) = Z.of_nat k.
Proof.
  intros n g Hm Hn NF.
  assert (Q : forall k, exists s, areach seqb aeqb C G n g s /\ quiet (base s) /\ count is_start (etrace (base s)) = Z.of_nat k).
  { induction k as [|k (s & R & Qs & Cs)].
    - exists (ainit C G n g). split; [exists []; reflexivity|]. split; auto.
      intros t x H. cbn in H. apply nth_error_In, repeat_spec in H. auto.
    - pose proof (areach_ereach seqb aeqb C G _ _ _ R) as Er.
      destruct (thread_ex seqb aeqb seqb_ok aeqb_ok C n (base s) 0 Er Hn) as [x Hx].
      pose proof (Qs _ _ Hx) as ->.
      assert (E : exists s1, astep seqb aeqb C G (AStart 0) s = Some s1 /\
                ths (base s1) = upd (ths (base s)) 0 (TSel 0 false [] []) /\
                etrace (base s1) = (0%nat, EStart) :: etrace (base s)).
      { unfold astep. rewrite (NF _ R). unfold estep. rewrite Hx. cbn [out]. eexists. repeat split; reflexivity. }
      destruct E as (s1 & E & Et & Ee). pose proof (areach_snoc _ _ _ _ _ R E) as R1.
      assert (Fr : others_free s1 0).
      { intros u y cy Nu Hy _. rewrite Et, nth_upd_ne in Hy by auto. now rewrite (Qs _ _ Hy). }
      destruct (finishes n g Hm NF s1 0 Hn R1 Fr) as (j & s' & _ & Ej & I1 & I2 & I3).
      exists s'. split; [eapply areach_app; eauto|]. split.
      + intros t x Q. destruct (Nat.eq_dec t 0) as [->|N]; [congruence|]. rewrite (proj1 (I2 t N)) in Q. rewrite Et in Q.
        rewrite (nth_upd _ _ _ _ _ _ Hx) in Q. destruct (Nat.eqb_spec 0 t); [congruence|]. eapply Qs; eauto.
      + rewrite I3, Ee, count_cons, Cs. cbn [is_start b2z]. lia. }
  intros k. destruct (Q k) as (s & R & Qs & Cs). exists s. split; auto. split; auto.
  destruct (C10_idle' seqb aeqb seqb_ok aeqb_ok C n (base s) (areach_ereach seqb aeqb C G _ _ _ R) Qs) as [E _]. congruence.
Qed.

(** Whatever has been going on, the trials in progress can be completed. *)
Definition busy (x : @tstate A) : bool := match x with TIdle => false | _ => true end.
Definition holds (s : ast G) (t : nat) : bool := match nth_error (ths (base s)) t, nth_error (cxs s) t with
  | Some x, Some cx => match held G x cx with Some _ => true | None => false end | _, _ => false end.
Lemma drains : forall n g, (0 <= max_depth C)%Z -> (forall s, areach seqb aeqb C G n g s -> afail s = None) ->
  forall s, areach seqb aeqb C G n g s -> exists ts s', arun seqb aeqb C G (map ARun ts) s = Some s' /\ quiet (base s').
Proof.
  intros n g Hm NF.
  assert (Mp : forall t j, repeat (ARun t) j = map ARun (repeat t j)) by (induction j; cbn; congruence).
  (* first nobody holds a lock *)
  assert (Rel : forall k s, areach seqb aeqb C G n g s -> (length (filter (holds s) (seq 0 n)) <= k)%nat ->
    exists ts s', arun seqb aeqb C G (map ARun ts) s = Some s' /\ forall t, holds s' t = false).
  { induction k as [|k IH]; intros s R Lk.
    all: pose proof (areach_good seqb aeqb seqb_ok aeqb_ok C G _ _ _ R) as I;
      pose proof (areach_ereach seqb aeqb C G _ _ _ R) as Er;
      assert (Bd : forall t, holds s t = true -> (t < n)%nat);
      [intros t Ht; unfold holds in Ht; destruct (nth_error (ths (base s)) t) eqn:Et; [|discriminate];
       destruct (Nat.lt_ge_cases t n) as [|Ge]; auto; exfalso;
       assert (Lt : (t < length (ths (base s)))%nat) by (apply nth_error_Some; congruence); rewrite (ths_length seqb aeqb seqb_ok aeqb_ok C n (base s) Er) in Lt; lia|].
    - exists [], s. split; [reflexivity|]. intros t. destruct (holds s t) eqn:E; auto. exfalso.
      assert (J : In t (filter (holds s) (seq 0 n))) by (apply filter_In; split; auto; apply in_seq; pose proof (Bd _ E); lia).
      destruct (filter (holds s) (seq 0 n)); [destruct J|cbn in Lk; lia].
    - destruct (filter (holds s) (seq 0 n)) as [|t l] eqn:Ef.
      { exists [], s. split; [reflexivity|]. intros t. destruct (holds s t) eqn:E; auto. exfalso.
        assert (J : In t (filter (holds s) (seq 0 n))) by (apply filter_In; split; auto; apply in_seq; pose proof (Bd _ E); lia).
        now rewrite Ef in J. }
      assert (Ht : holds s t = true) by (apply (filter_In (holds s) t (seq 0 n)); rewrite Ef; now left).
      assert (Ht' := Ht). unfold holds in Ht'. destruct (nth_error (ths (base s)) t) as [x|] eqn:Hx; [|discriminate].
      destruct (nth_error (cxs s) t) as [cx|] eqn:Hcx; [|discriminate]. destruct (held G x cx) as [kk|] eqn:Hh; [|discriminate].
      assert (Nx : x <> TIdle) by (intros ->; discriminate).
      destruct (one_step n g (fun _ => True) (fun _ _ _ _ _ => Logic.I) (fun s R _ => NF s R) r s t x cx R Logic.I Hx Nx Hcx (rank_le cx)
                  (holder_alone G s t x cx kk (excl_reach seqb aeqb seqb_ok aeqb_ok C G _ _ _ R) Hx Hcx Hh)) as (j & s1 & _ & E & O & _ & F1).
      assert (Hd : holds s1 t = false).
      { unfold holds. destruct (nth_error (ths (base s1)) t); auto. destruct (nth_error (cxs s1) t); auto. now rewrite F1. }
      destruct (IH s1 (areach_app _ _ _ _ _ R E)) as (ts & s' & E' & F).
      { assert (Sm : forall u, holds s1 u = true -> holds s u = true /\ u <> t).
        { intros u Hu. destruct (Nat.eq_dec u t) as [->|Nu]; [congruence|]. split; auto. unfold holds in *. destruct (O u Nu) as [O1 O2]. now rewrite <- O1, <- O2. }
        assert (NDf : NoDup (filter (holds s1) (seq 0 n))) by apply NoDup_filter, seq_NoDup.
        pose proof (NoDup_incl_length NDf (l' := l)) as Le. cbn [length] in Lk. enough (incl (filter (holds s1) (seq 0 n)) l) by (specialize (Le H); lia).
        intros u J. apply filter_In in J. destruct J as [J Hu]. destruct (Sm u Hu) as [Hu' Nu].
        assert (J' : In u (filter (holds s) (seq 0 n))) by (apply filter_In; auto). rewrite Ef in J'. destruct J' as [->|J']; [contradiction|auto]. }
      exists (repeat t j ++ ts), s'. split; auto. rewrite map_app, <- Mp, (arun_app _ _ _ _ E). exact E'. }
  (* then one after the other *)
  assert (Fin : forall k s, areach seqb aeqb C G n g s -> (k <= n)%nat -> (forall t, holds s t = false) ->
    exists ts s', arun seqb aeqb C G (map ARun ts) s = Some s' /\ (forall t, holds s' t = false) /\
      forall t, (t < k)%nat -> nth_error (ths (base s')) t = Some TIdle).
  { induction k as [|k IH]; intros s R Lk Fr; [exists [], s; split; [reflexivity|]; split; auto; lia|].
    destruct (IH s R ltac:(lia) Fr) as (ts & s1 & E1 & F1 & Id1). pose proof (areach_app _ _ _ _ _ R E1) as R1.
    destruct (finishes n g Hm NF s1 k ltac:(lia) R1) as (j & s2 & _ & E2 & I1 & I2 & _).
    { intros u y cy _ Hy Hcy. specialize (F1 u). unfold holds in F1. rewrite Hy, Hcy in F1. destruct (held G y cy); [discriminate|auto]. }
    exists (ts ++ repeat k j), s2. split; [|split].
    - rewrite map_app, <- Mp, (arun_app _ _ _ _ E1). exact E2.
    - intros u. destruct (Nat.eq_dec u k) as [->|Nu].
      + unfold holds. rewrite I1. destruct (nth_error (cxs s2) k); reflexivity.
      + specialize (F1 u). unfold holds in *. destruct (I2 u Nu) as [-> ->]. exact F1.
    - intros u Lu. destruct (Nat.eq_dec u k) as [->|Nu]; [auto|]. rewrite (proj1 (I2 u Nu)). apply Id1. lia. }
  intros s R. destruct (Rel (length (filter (holds s) (seq 0 n))) s R (le_n _)) as (ts & s1 & E1 & F1).
  pose proof (areach_app _ _ _ _ _ R E1) as R1. destruct (Fin n s1 R1 (le_n _) F1) as (ts' & s2 & E2 & _ & Id).
  exists (ts ++ ts'), s2. split; [rewrite map_app, (arun_app _ _ _ _ E1); exact E2|].
  intros t x Hx. assert (Lt : (t < n)%nat).
  { pose proof (areach_ereach seqb aeqb C G _ _ _ (areach_app _ _ _ _ _ R1 E2)) as Er2.
    rewrite <- (ths_length seqb aeqb seqb_ok aeqb_ok C n (base s2) Er2). apply nth_error_Some. congruence. }
  rewrite (Id t Lt) in Hx. congruence.
Qed.
End Finish.

Lemma one_look_at_most : forall S A (G : @algo S A), one_look G -> looks_at_most G 0.
Proof.
  intros S A G O. exists (fun _ => 0%nat). split; [auto|]. split; intros kids cx cx1 P; exfalso.
  - apply peek_d_sees in P. destruct (O cx) as [E _], (O cx1) as [E1 _]. rewrite E, E1 in P. discriminate.
  - apply peek_c_sees in P. destruct (O cx) as [_ E], (O cx1) as [_ E1]. rewrite E, E1 in P. discriminate.
Qed.
Lemma one_look_free : forall S A (G : @algo S A), one_look G -> forall x cx, held G x cx = None.
Proof. intros S A G O x cx. apply held_none. unfold inside. destruct (O cx) as [-> ->]. reflexivity. Qed.

Lemma one_look_trials_finish : forall (S A : Type) seqb aeqb (seqb_ok : decides seqb) (aeqb_ok : decides aeqb) (C : @econf S A) (G : @algo S A) n g,
  one_look G -> (0 <= max_depth C)%Z -> (forall s, areach seqb aeqb C G n g s -> afail s = None) ->
  forall s t, (t < n)%nat -> areach seqb aeqb C G n g s ->
  exists k s', (Z.of_nat k <= 4 * max_depth C + 3)%Z /\ arun seqb aeqb C G (repeat (ARun t) k) s = Some s' /\
    nth_error (ths (base s')) t = Some TIdle /\
    (forall t', t' <> t -> nth_error (ths (base s')) t' = nth_error (ths (base s)) t') /\
    count is_start (etrace (base s')) = count is_start (etrace (base s)).
Proof.
  intros S A seqb aeqb seqb_ok aeqb_ok C G n g O Hm NF s t Ht R. destruct (one_look_at_most _ _ _ O) as (rank & R1 & R2 & R3).
  destruct (finishes seqb aeqb seqb_ok aeqb_ok C G rank 0 R1 R2 R3 n g Hm NF s t Ht R) as (k & s' & K1 & K2 & K3 & K4 & K5).
  { intros u y cy _ _ _. now apply one_look_free. }
  exists k, s'. split; [lia|]. split; auto. split; auto. split; auto. intros t' N. now apply K4.
Qed.
(** Algorithms that note what they have seen in their contexts. *)
Lemma note_left : forall (V W : Type) k1 k2 (v : V) (l l1 : list V * list W), note k1 v l = Some l1 ->
  (k1 - length (fst l1) + (k2 - length (snd l1)) < k1 - length (fst l) + (k2 - length (snd l)))%nat.
Proof.
  intros V W k1 k2 v l l1 H. unfold note in H. destruct (length (fst l) <? k1)%nat eqn:E; [|discriminate]. injection H as <-. cbn.
  apply Nat.ltb_lt in E. rewrite app_length. cbn. lia.
Qed.
Lemma note2_left : forall (V W : Type) k1 k2 (v : V) (l l1 : list W * list V), note2 k2 v l = Some l1 ->
  (k1 - length (fst l1) + (k2 - length (snd l1)) < k1 - length (fst l) + (k2 - length (snd l)))%nat.
Proof.
  intros V W k1 k2 v l l1 H. unfold note2 in H. destruct (length (snd l) <? k2)%nat eqn:E; [|discriminate]. injection H as <-. cbn.
  apply Nat.ltb_lt in E. rewrite app_length. cbn. lia.
Qed.
