(** Searches of DENTS. *)
From Coq Require Import List ZArith Bool Reals Lia Lra Permutation.
From Verif Require Import Base BaseProofs NumOps RLemmas HelperModel HelperSpec HelperProofs EngineModel EngineSpec EngineProofs
  EngineInv MapModel MapProofs AlgoModel AlgoProofs AlgoTheorems AlgoNodes AlgoSafe UctModel MentsModel SoftSpec SoftProofs
  MentsSpec MentsProofs MentsPolicy MentsRun SoftResults DentsSpec DpRun FamilyRun DbRun.
Import ListNotations.
Open Scope R_scope.

Lemma rsum_of_incl : forall T (f : T -> R) l k, NoDup l -> incl l k -> (forall x, In x k -> 0 <= f x) -> rsum_of f l <= rsum_of f k.
Proof.
  intros T f l. induction l as [|a l IH]; intros k ND I P.
  - rewrite rsum_of_nil. now apply rsum_of_nonneg.
  - inversion ND as [|? ? Na Nl]; subst. destruct (in_split a k) as (k1 & k2 & ->); [apply I; now left|].
    rewrite (rsum_of_perm _ _ _ _ (Permutation_sym (Permutation_middle k1 k2 a))), !rsum_of_cons. apply Rplus_le_compat_l. apply IH; auto.
    + intros x Q. assert (Z : In x (k1 ++ a :: k2)) by (apply I; now right). rewrite in_app_iff in *. cbn in Z.
      destruct Z as [Z|[<-|Z]]; auto. contradiction.
    + intros x Q. apply P. rewrite in_app_iff in *. cbn. tauto.
Qed.

Lemma abs_in : forall x b, Rabs x <= b -> - b <= x <= b.
Proof. intros x b H. revert H. unfold Rabs. destruct (Rcase_abs x); lra. Qed.

Section Dents.
Context {S A : Type}.
Variable seqb : S -> S -> bool.
Variable aeqb : A -> A -> bool.
Hypothesis seqb_ok : decides seqb.
Hypothesis aeqb_ok : decides aeqb.
Variable C : @econf S A.
Variable M : @mconf S A.
Notation dnode := (@dnode S A).
Notation cnode := (@cnode S A).
Hypothesis Mok : ments_ok C M.
Hypothesis Env : env_ok C M.
Hypothesis Pr : prior_ok C M.
Hypothesis Ex : explore_ok M.
Variable N : R.
Hypothesis Few : few_actions C N.
Notation cap := (entropy_cap N).

Lemma cap_pos : 0 <= cap.
Proof using Few.
  destruct Few as [N1 _]. unfold entropy_cap.
  assert (0 <= ln N) by (rewrite <- ln_1; destruct N1 as [N1|<-]; [left; apply ln_increasing; lra|lra]).
  assert (0 <= N / IZR (10 ^ 16)) by (apply Rmult_le_pos; [lra|left; apply Rinv_0_lt_compat, IZR_lt; reflexivity]). lra.
Qed.

(** ** Policies and their entropy *)
Lemma policy_facts : forall n b m, (0 <= dvisits n)%Z -> acts C (dstate n) <> [] -> policy_of aeqb C M n b m ->
  NoDup (map fst m) /\ (forall a p, In (a, p) m -> In a (acts C (dstate n)) /\ 0 <= p <= 1) /\ total m <= 1 /\
  0 <= shannon (map snd m) <= cap.
Proof using aeqb_ok Env Pr Ex Few.
  intros n b m Hv NE (P1 & P2 & P3). destruct (mixture_distr aeqb aeqb_ok C M Pr Ex Env n b Hv NE P1 P2) as [S1 S2].
  assert (Nn : forall a, In a (acts C (dstate n)) -> 0 <= mixture aeqb C M n b a) by (intros a Ia; specialize (S2 a Ia); lra).
  destruct (kept_bounds aeqb aeqb_ok _ _ m (eo_nodup _ _ Env _) Nn S1 P3) as [K1 K2]. destruct P3 as [ND I].
  assert (W : forall a p, In (a, p) m -> In a (acts C (dstate n)) /\ 0 <= p <= 1).
  { intros a p Q. pose proof Q as Q'. apply I in Q. destruct Q as (Ia & -> & L). split; auto. split; [auto|].
    rewrite <- S1. now apply (rsum_of_mem _ (mixture aeqb C M n b)). }
  split; auto. split; auto. split; auto.
  assert (Tot : rsum (map snd m) = total m) by (rewrite total_rsum; reflexivity).
  assert (W' : forall p, In p (map snd m) -> 0 <= p <= 1).
  { intros p Q. apply in_map_iff in Q. destruct Q as ([a q] & <- & Q). now apply (W a q). }
  split; [now apply shannon_nonneg|]. destruct m as [|p0 m0] eqn:Em; [cbn; unfold shannon; rewrite rsum_of_nil; pose proof cap_pos; lra|].
  rewrite <- Em in *. eapply Rle_trans; [apply shannon_sub_max|].
  - rewrite Em. discriminate.
  - intros p Q. now apply W'.
  - lra.
  - rewrite map_length. destruct Few as [N1 Nf]. specialize (Nf (dstate n)).
    assert (Le : (length m <= length (acts C (dstate n)))%nat).
    { rewrite <- (map_length fst). apply NoDup_incl_length; auto. intros a Q. apply in_map_iff in Q. destruct Q as ([a' q] & <- & Q). now apply (W a' q). }
    assert (L1 : 1 <= INR (length m)) by (change 1 with (INR 1); apply le_INR; rewrite Em; cbn; lia).
    apply le_INR in Le. unfold entropy_cap.
    assert (ln (INR (length m)) <= ln N).
    { destruct (Req_dec (INR (length m)) N) as [->|]; [lra|]. left. apply ln_increasing; lra. }
    assert (E16 : 0 < ments_eps) by apply ments_eps_pos. unfold ments_eps in *. rewrite Tot.
    assert (INR (length (acts C (dstate n))) * (1 / IZR (10 ^ 16)) <= N * (1 / IZR (10 ^ 16))) by (apply Rmult_le_compat_r; lra).
    unfold Rdiv in *. lra.
Qed.

(** Probability of an action, zero if it is missing. *)
Definition prob (m : list (A * R)) (a : A) : R := match lookup aeqb a m with Some w => w | None => 0 end.
Lemma prob_in : forall m a w, NoDup (map fst m) -> In (a, w) m -> prob m a = w.
Proof using aeqb_ok. intros m a w ND Q. unfold prob. apply (in_lookup aeqb aeqb_ok) in Q; auto. now rewrite Q. Qed.
Lemma prob_out : forall m a, ~ In a (map fst m) -> prob m a = 0.
Proof using aeqb_ok.
  intros m a Q. unfold prob. destruct (lookup aeqb a m) as [w|] eqn:L; auto. apply EngineProofs.lookup_in in L; [|auto].
  elim Q. apply in_map_iff. now exists (a, w).
Qed.
Lemma prob_sum : forall n b m l, (0 <= dvisits n)%Z -> acts C (dstate n) <> [] -> policy_of aeqb C M n b m ->
  NoDup l -> incl l (acts C (dstate n)) -> (forall a, 0 <= prob m a) /\ rsum_of (prob m) l <= 1.
Proof using aeqb_ok Env Pr Ex.
  intros n b m l Hv NE (P1 & P2 & P3) ND I. destruct (mixture_distr aeqb aeqb_ok C M Pr Ex Env n b Hv NE P1 P2) as [S1 S2].
  destruct P3 as [Nm Im].
  assert (Z : forall a, prob m a = 0 \/ In a (acts C (dstate n)) /\ prob m a = mixture aeqb C M n b a).
  { intros a. unfold prob. destruct (lookup aeqb a m) as [w|] eqn:L; auto. apply EngineProofs.lookup_in in L; [|auto].
    apply Im in L. destruct L as (L1 & L2 & _). auto. }
  assert (P : forall a, 0 <= prob m a).
  { intros a. destruct (Z a) as [->|[Ia ->]]; [lra|]. specialize (S2 a Ia). lra. }
  split; auto. eapply Rle_trans; [apply (rsum_of_incl _ _ _ (acts C (dstate n))); auto|]. rewrite <- S1.
  apply rsum_of_le. intros a Ia. specialize (S2 a Ia). destruct (Z a) as [->|[_ ->]]; lra.
Qed.

(** ** Q values without NaN *)
Definition clean (q : A -> outcome (option R)) (a : A) : outcome R :=
  match q a with Ok (Some v) => Ok v | Ok None => UB | Throw => Throw | UB => UB end.
Lemma all_clean : forall (q : A -> outcome (option R)) l, (forall a, In a l -> exists v, q a = Ok (Some v)) ->
  exists vs, all_nq q l = Ok (map (fun p => (fst p, Some (snd p))) vs) /\ all_q (clean q) l = Ok vs.
Proof using Type.
  intros q l. induction l as [|a l IH]; intros H; [exists []; auto|].
  destruct (H a) as (v & E); [now left|]. destruct IH as (vs & E1 & E2); [intros b Q; apply H; now right|].
  exists ((a, v) :: vs). cbn [all_nq all_q]. unfold clean at 1. rewrite E. cbn [bind]. rewrite E1, E2. split; reflexivity.
Qed.
Lemma nan_free_some : forall (vs : list (A * R)), nan_free (map (fun p => (fst p, Some (snd p))) vs) = Some vs.
Proof using Type. induction vs as [|[a v] vs IH]; cbn; auto. now rewrite IH. Qed.
Lemma dents_distr_eq : forall n off (kids : list (A * (cnode * dcmem))),
  (forall a, In a (acts C (dstate n)) -> exists v, dents_q aeqb M n off kids a = Ok (Some v)) ->
  dents_distr aeqb C M n off kids = action_distr aeqb C M n (clean (dents_q aeqb M n off kids)).
Proof using Type.
  intros n off kids H. unfold dents_distr, action_distr. destruct (all_clean _ _ H) as (vs & -> & ->). cbn [bind].
  now rewrite nan_free_some.
Qed.
Lemma dents_q_total : forall n off (kids : list (A * (cnode * dcmem))) a, (forall a c y, In (a, (c, y)) kids -> exists h, ec_sub (dc_ent y) = Some h) ->
  In a (acts C (dstate n)) -> exists v, dents_q aeqb M n off kids a = Ok (Some v).
Proof using aeqb_ok Pr.
  intros n off kids a H Ia. unfold dents_q. destruct (lookup aeqb a kids) as [[c y]|] eqn:L.
  - apply EngineProofs.lookup_in in L; [|auto]. destruct (H _ _ _ L) as (h & ->). eauto.
  - destruct (unexpanded_total aeqb aeqb_ok C M n off a (pr_total C M Pr n) Ia) as (v & ->). cbn. eauto.
Qed.
Lemma clean_total : forall n off (kids : list (A * (cnode * dcmem))), (forall a c y, In (a, (c, y)) kids -> exists h, ec_sub (dc_ent y) = Some h) ->
  forall a, In a (acts C (dstate n)) -> exists v, clean (dents_q aeqb M n off kids) a = Ok v.
Proof using aeqb_ok Pr.
  intros n off kids H a Ia. unfold clean. destruct (dents_q_total n off kids a H Ia) as (v & ->). eauto.
Qed.

(** ** Entropies *)
Definition ed_ok (n : dnode) (e : emem) : Prop :=
  ((0 <= dvisits n)%Z /\ rate_known M n) /\ (0 <= ddepth n <= max_depth C)%Z /\ (1 <= e_nb e)%Z /\
  (exists h, e_local e = Some h /\ 0 <= h <= cap) /\
  exists h, e_sub e = Some h /\ Rabs h <= entropy_left C N (ddepth n) /\ (mtwo M = false -> 0 <= h).
Definition ec_ok (n : cnode) (e : ecmem) : Prop :=
  (0 <= cdepth n < max_depth C)%Z /\ (0 <= ec_nb e)%Z /\
  exists h, ec_sub e = Some h /\ Rabs h <= entropy_left C N (cdepth n + 1) /\ (mtwo M = false -> 0 <= h).

Lemma left_step : forall k, entropy_left C N k = cap + entropy_left C N (k + 1).
Proof using Type.
  intros k. unfold entropy_left. replace (max_depth C - k + 1)%Z with (max_depth C - (k + 1) + 1 + 1)%Z by lia. rewrite (plus_IZR _ 1). ring.
Qed.
Lemma left_cap : forall k, (k <= max_depth C)%Z -> cap <= entropy_left C N k.
Proof using Few.
  intros k H. unfold entropy_left. pose proof cap_pos. assert (1 <= IZR (max_depth C - k + 1)) by (apply IZR_le; lia). nra.
Qed.
Lemma seen_abs : forall n h, Rabs (seen M n h) = Rabs h.
Proof using Type. intros n h. unfold seen. destruct (opponent M n); auto. apply Rabs_Ropp. Qed.
Lemma seen_player : forall n h, mtwo M = false -> seen M n h = h.
Proof using Type. intros n h E. unfold seen, opponent. now rewrite E. Qed.

(** Backing up with a policy. *)
Lemma ent_step : forall n x m (kids : list (A * ecmem)) E, NoDup (map fst m) -> 0 <= shannon (map snd m) <= cap ->
  (forall a, 0 <= prob m a) -> rsum_of (prob m) (map fst kids) <= 1 -> NoDup (map fst kids) -> 0 <= E ->
  (forall a y, In (a, y) kids -> exists h, ec_sub y = Some h /\ Rabs h <= E /\ (mtwo M = false -> 0 <= h)) ->
  exists e, ent_backup_d aeqb C M n x (Some m) kids = e /\ e_nb e = (e_nb x + 1)%Z /\ e_local e = Some (shannon (map snd m)) /\
    exists h, e_sub e = Some h /\ Rabs h <= cap + E /\ (mtwo M = false -> 0 <= h).
Proof using aeqb_ok Mok.
  intros n x m kids E Nm Sh Pp Ps Nk E0 Hk.
  set (h := fun a => match lookup aeqb a kids with Some y => match ec_sub y with Some v => v | None => 0 end | None => 0 end).
  assert (Hh : forall a y, In (a, y) kids -> ec_sub y = Some (h a)).
  { intros a y Q. destruct (Hk a y Q) as (v & E1 & _). unfold h. pose proof Q as Q'. apply (in_lookup aeqb aeqb_ok) in Q; auto. rewrite Q, E1. auto. }
  rewrite (C43_backup' aeqb aeqb_ok C M n x m kids (prob m) h); auto.
  2:{ apply Mok. } 2:{ intros a w Q. now apply prob_in. } 2:{ intros a Q. now apply prob_out. }
  eexists. split; [reflexivity|]. cbn [e_nb e_local e_sub]. split; auto. split; auto. eexists. split; [reflexivity|].
  assert (Hv : forall a, In a (map fst kids) -> Rabs (h a) <= E /\ (mtwo M = false -> 0 <= h a)).
  { intros a Q. apply in_map_iff in Q. destruct Q as ([a' y] & <- & Q). cbn [fst]. destruct (Hk _ _ Q) as (v & E1 & E2). pose proof (Hh _ _ Q) as E3.
    rewrite E1 in E3. injection E3 as ->. auto. }
  split.
  - eapply Rle_trans; [apply Rabs_triang|]. rewrite seen_abs, (Rabs_right (shannon _)) by lra. apply Rplus_le_compat; [lra|].
    assert (U : rsum_of (fun a => prob m a * h a) (map fst kids) <= rsum_of (fun a => E * prob m a) (map fst kids)).
    { apply rsum_of_le. intros a Q. destruct (Hv a Q) as [B _]. apply abs_in in B. specialize (Pp a). nra. }
    assert (L : rsum_of (fun a => (- E) * prob m a) (map fst kids) <= rsum_of (fun a => prob m a * h a) (map fst kids)).
    { apply rsum_of_le. intros a Q. destruct (Hv a Q) as [B _]. apply abs_in in B. specialize (Pp a). nra. }
    rewrite rsum_of_scale in U, L. apply Rabs_le. assert (0 <= rsum_of (prob m) (map fst kids)) by (apply rsum_of_nonneg; auto). nra.
  - intros T. rewrite seen_player by auto. apply Rplus_le_le_0_compat; [lra|]. apply rsum_of_nonneg. intros a Q.
    apply Rmult_le_pos; auto. now apply Hv.
Qed.

Hypothesis Fr : fresh_known C M.
Lemma fresh_rate : forall s k t, rate_known M (new_dnode C s k t).
Proof using Fr Env.
  intros s k t. unfold rate_known. cbn [new_dnode dvisits]. pose proof (eo_visits _ _ Env) as V.
  destruct (Z.eq_dec (init_visits C) 0) as [E|]; [right|left; lia]. split; auto. destruct Fr as [?|F]; [lia|].
  unfold node_eps. destruct (Z.eq_dec _ _); auto. destruct (Rlt_dec 0 (mroot_eps M)); auto.
Qed.
Lemma ed_new : forall s k t, (0 <= k <= max_depth C)%Z -> ed_ok (new_dnode C s k t) (d_ent (dents_new_d aeqb C M (new_dnode C s k t))).
Proof using aeqb_ok Mok Env Pr Ex Few Fr.
  intros s k t Hk. set (n := new_dnode C s k t). unfold dents_new_d. cbv zeta. cbn [d_ent].
  assert (Hv : (0 <= dvisits n)%Z) by apply Env.
  assert (X : exists m, action_distr aeqb C M n (unexpanded_q aeqb M n (m_off (ments_new_d C M n))) = Ok (Some m) /\
    NoDup (map fst m) /\ 0 <= shannon (map snd m) <= cap /\ forall a, 0 <= prob m a).
  { destruct (acts C (dstate n)) as [|a0 l0] eqn:Ea.
    - exists []. split; [|split; [constructor|]]; [|split; [cbn; unfold shannon; rewrite rsum_of_nil; pose proof cap_pos; lra|intros; cbn; lra]].
      unfold action_distr. rewrite Ea. cbn [all_q bind]. unfold ments_weights, mix. cbn [weight_loop fold_left].
      rewrite (lambda_eq M n (fresh_rate s k t)), Ea. reflexivity.
    - assert (NE : acts C (dstate n) <> []) by (rewrite Ea; discriminate).
      destruct (distr_policy aeqb aeqb_ok C M Pr Env n (unexpanded_q aeqb M n (m_off (ments_new_d C M n)))) as (q & m & _ & E & P); auto.
      { apply fresh_rate. }
      { intros a Ia. apply (unexpanded_total aeqb aeqb_ok C); auto. now apply pr_total. }
      exists m. split; auto. destruct (policy_facts n _ m Hv NE P) as (F1 & _ & _ & F4). split; auto. split; auto.
      intros a. now apply (prob_sum n _ m [] Hv NE P (NoDup_nil _)). }
  destruct X as (m & -> & Nm & Sh & Pp).
  destruct (ent_step n (mkEm 0 (Some 0) (Some 0)) m [] 0 Nm Sh Pp) as (e & -> & E1 & E2 & h & E3 & E4 & E5);
    [cbn; unfold rsum_of; cbn; lra|constructor|lra|intros a y []|].
  unfold ed_ok. split; [split; [auto|apply fresh_rate]|]. split; auto. split; [rewrite E1; cbn; lia|]. split; [eauto|].
  exists h. split; auto. split; auto. pose proof (left_cap k (proj2 Hk)). change (ddepth n) with k. lra.
Qed.
(** The policy is computed from one look at the children, the entropy from another. *)
Lemma ed_backup : forall n x off (k1 kids : list (A * (cnode * dcmem))), inner C n -> ed_ok n x ->
  (forall a c y, In (a, (c, y)) k1 -> dkid C n a c /\ ec_ok c (dc_ent y)) ->
  NoDup (map fst kids) -> (forall a c y, In (a, (c, y)) kids -> dkid C n a c /\ ec_ok c (dc_ent y)) ->
  exists m, dents_distr aeqb C M n off k1 = Ok (Some m) /\ ed_ok n (ent_backup_d aeqb C M n x (Some m) (members dc_ent kids)).
Proof using aeqb_ok Mok Env Pr Ex Few.
  intros n x off k1 kids In1 ((H1 & Hv) & H2 & H3 & H4 & H5) Hk1 ND Hk. assert (NE : acts C (dstate n) <> []) by apply Env, In1.
  assert (Cl : forall a c y, In (a, (c, y)) k1 -> exists h, ec_sub (dc_ent y) = Some h).
  { intros a c y Q. destruct (Hk1 _ _ _ Q) as (_ & _ & _ & h & E & _). eauto. }
  rewrite dents_distr_eq by (intros a; now apply dents_q_total).
  destruct (distr_policy aeqb aeqb_ok C M Pr Env n (clean (dents_q aeqb M n off k1))) as (q & m & _ & E & P); auto.
  { now apply clean_total. }
  exists m. split; auto. destruct (policy_facts n _ m H1 NE P) as (F1 & F2 & F3 & F4).
  assert (Ek : map fst (members dc_ent kids) = map fst kids) by (unfold members; rewrite map_map; reflexivity).
  destruct (prob_sum n _ m (map fst kids) H1 NE P ND) as [G1 G2].
  { intros a Q. apply in_map_iff in Q. destruct Q as ([a' [c y]] & <- & Q). cbn. apply (Hk _ _ _ Q). }
  pose proof In1 as (_ & Hd & _).
  destruct (ent_step n x m (members dc_ent kids) (entropy_left C N (ddepth n + 1)) F1 F4 G1) as (e & -> & E1 & E2 & h & E3 & E4 & E5).
  - rewrite Ek. exact G2.
  - rewrite Ek. exact ND.
  - pose proof (left_cap (ddepth n + 1) ltac:(lia)). pose proof cap_pos. lra.
  - intros a y Q. unfold members in Q. apply in_map_iff in Q. destruct Q as ([a' [c' y']] & [= <- <-] & Q).
    destruct (Hk _ _ _ Q) as ((_ & Dc & _) & _ & _ & Z). rewrite Dc in Z. exact Z.
  - split; auto. split; auto. split; [lia|]. split; [eauto|]. exists h. split; auto. split; auto. rewrite left_step. exact E4.
Qed.
Lemma ec_backup : forall n x (kids : list (S * emem)), innerc C n -> ec_ok n x ->
  (forall o y, In (o, y) kids -> (1 <= e_nb y)%Z /\ exists h, e_sub y = Some h /\ Rabs h <= entropy_left C N (cdepth n + 1) /\ (mtwo M = false -> 0 <= h)) ->
  ec_ok n (ent_backup_c x kids).
Proof using Few.
  intros n x kids In1 (H1 & H2 & H3) Hk.
  set (h := fun y => match e_sub y with Some v => v | None => 0 end).
  destruct (C38_ent' x kids h) as (v & W & ->).
  { intros o y Q. destruct (Hk o y Q) as (L & v & E & _). split; [lia|]. unfold h. now rewrite E. }
  split; auto. split; [cbn; lia|]. exists v. split; [reflexivity|].
  assert (Hh : forall o y, In (o, y) kids -> Rabs (h y) <= entropy_left C N (cdepth n + 1) /\ (mtwo M = false -> 0 <= h y)).
  { intros o y Q. destruct (Hk o y Q) as (L & w & E & B). unfold h. now rewrite E. }
  assert (Cn : counts (map (fun k => (e_nb (snd k), h (snd k))) kids)).
  { apply kids_counts. intros o y Q. destruct (Hk o y Q). lia. }
  destruct kids as [|[o y] kids].
  - destruct W as [W _]. rewrite W by reflexivity. rewrite Rabs_R0. split; [|intros; lra].
    pose proof (left_cap (cdepth n + 1) ltac:(lia)). pose proof cap_pos. lra.
  - assert (X : exists k z, In (k, z) (map (fun k => (e_nb (snd k), h (snd k))) ((o, y) :: kids)) /\ (0 < k)%Z).
    { exists (e_nb y), (h y). split; [now left|]. destruct (Hk o y (or_introl eq_refl)). lia. }
    split.
    + apply Rabs_le. eapply weighted_mean_between; [exact Cn|exact W|exact X|].
      intros k z Q _. apply in_map_iff in Q. destruct Q as ([o' y'] & [= <- <-] & Q). destruct (Hh _ _ Q) as [B _]. now apply abs_in in B.
    + intros T. cut (0 <= v <= entropy_left C N (cdepth n + 1)); [lra|]. eapply weighted_mean_between; [exact Cn|exact W|exact X|].
      intros k z Q _. apply in_map_iff in Q. destruct Q as ([o' y'] & [= <- <-] & Q). destruct (Hh _ _ Q) as [B B2]. apply abs_in in B.
      split; [auto|lra].
Qed.

(** ** The search *)
Notation de := (dents aeqb C M).
Definition ent_d (n : dnode) (x : XD de) : Prop := ed_ok n (d_ent x).
Definition ent_c (n : cnode) (x : XC de) : Prop := ec_ok n (dc_ent x).
Ltac bk :=
  repeat match goal with
  | H : bind ?o _ = Ok _ |- _ => destruct o eqn:?; cbn [bind] in H; try discriminate
  | H : (let '(_, _) := ?p in _) = Ok _ |- _ => destruct p eqn:?
  | H : Ok _ = Ok _ |- _ => injection H; clear H; intros; subst
  end.
Lemma dents_members : forall (kids : list (S * (dnode * dmem))) o y, In (o, y) (members d_ent kids) -> exists d x, In (o, (d, x)) kids /\ y = d_ent x.
Proof using Type.
  intros kids o y Q. unfold members in Q. apply in_map_iff in Q. destruct Q as ([o' [d x]] & [= <- <-] & Q). eauto.
Qed.
Lemma look_ok : forall V (P : V -> Prop) l d i, (forall v, In v l -> P v) -> P d -> P (nth i l d).
Proof using Type. intros V P l d i H D. destruct (nth_in_or_default i l d) as [J| ->]; auto. Qed.
Lemma hd_ok : forall V (P : V -> Prop) l d, (forall v, In v l -> P v) -> P d -> P (hd d l).
Proof using Type. intros V P [|v l] d H D; cbn; auto. apply H. now left. Qed.
Lemma ent_rules : node_rules C de ent_d ent_c (any_cx de) (fun _ _ => True).
Proof using aeqb_ok Mok Env Pr Ex Few Fr.
  constructor; unfold ent_d, ent_c; try (intros; exact I).
  - apply ed_new. split; [lia|apply Env].
  - intros c o (_ & H & _) _. apply ed_new. lia.
  - intros n a (_ & Hd & _) _. cbn [new_xc dents dents_new_c dc_ent]. split; [exact Hd|]. split; [cbn; lia|].
    exists 0. split; [reflexivity|]. split; [|intros; lra]. rewrite Rabs_R0. cbn [new_cnode cdepth].
    pose proof (left_cap (ddepth n + 1) ltac:(lia)). pose proof cap_pos. lra.
  - intros n x ((H1 & H1') & H). cbn [vis_d dents dents_visit d_ent]. split; [|exact H]. cbn [visit_d dvisits]. split; [lia|].
    left. cbn [visit_d dvisits]. lia.
  - intros n x a c H. exact H.
  - intros n x H. exact H.
  - intros n x o d H. exact H.
  - intros n x kids cx b x1 l a l' In1 P K _ _ _ Se E. cbn [back_d dents] in E. unfold dents_backup_d in E.
    assert (L : forall i, dkids_ok C de ent_c n (nth i (fst cx) kids)) by (intros i; apply look_ok; auto; intros v J; exact (proj1 (Se v J))).
    destruct (ed_backup n (d_ent x) (d_off x) (nth 0 (fst cx) kids) (nth 1 (fst cx) kids) In1 P (proj2 (L 0%nat)) (proj1 (L 1%nat)) (proj2 (L 1%nat))) as (m & Em & R). rewrite Em in E. cbn [bind] in E. bk. cbn [d_ent]. exact R.
  - intros n x kids cx b x1 In1 P K0 Se E. cbn [back_c dents] in E.
    assert (K : ckids_ok C de ent_d n (hd kids (snd cx))) by (apply hd_ok; auto). destruct K as [ND K]. split; [|exact I]. injection E as <-. unfold dents_backup_c.
    destruct (value_backup_c M n x kids (b_tafter b)) as [dp emp]. cbn [dc_ent]. apply ec_backup; auto.
    intros o y Q. apply dents_members in Q. destruct Q as (d & x' & Q & ->). destruct (K _ _ _ Q) as ((_ & Hd & _) & (P1 & P2 & P3 & P4 & P5)).
    rewrite Hd in P5. auto.
Qed.
Definition de_d (n : dnode) (x : XD de) : Prop := ent_d n x /\ (muse_dp M = true -> cnt_d de d_dp n x).
Definition de_c (n : cnode) (x : XC de) : Prop := ent_c n x /\ (muse_dp M = true -> cnt_c de dc_dp n x).
Definition de_x (l : list A) (cx : CX de) : Prop := any_cx de l cx /\ (muse_dp M = true -> any_cx de l cx).
Definition de_q (n : cnode) (x : XC de) : Prop := True /\ (muse_dp M = true -> cnt_q de dc_dp n x).
Lemma de_rules : node_rules C de de_d de_c de_x de_q.
Proof using aeqb_ok Mok Env Pr Ex Few Fr.
  apply (rules_and C de _ _ _ _ _ _ _ _ ent_rules
    (rules_when C de (muse_dp M) _ _ _ _ (fun U => cnt_rules C M de d_dp dc_dp (dents_part aeqb C M U)))).
Qed.
Lemma de_safe : safe_rules C de de_d de_c de_x de_q (fam_bad aeqb C M de).
Proof using aeqb_ok Mok Env Pr Ex Few.
  constructor.
  - intros n x kids cx g l In1 [P _] [ND K] _ _ Gi Gr. cbn [select dents vis_d].
    assert (Cl : forall a c y, In (a, (c, y)) kids -> exists h, ec_sub (dc_ent y) = Some h).
    { intros a c y Q. destruct (K _ _ _ Q) as (_ & (_ & _ & h & E & _) & _). eauto. }
    unfold dents_select. rewrite dents_distr_eq by (intros a; now apply dents_q_total).
    destruct (policy_step aeqb aeqb_ok C M Mok Env Pr Ex (visit_d n) (clean (dents_q aeqb M (visit_d n) (d_off (dents_visit (is_leaf C n) x)) kids)) g)
      as [(a & g1 & E & Ia & O)|[L T]]; auto.
    + destruct P as ((P & _) & _). cbn [visit_d dvisits]. lia.
    + now apply clean_total.
    + left. rewrite E. cbn [bind]. exists a, cx, g1. split; auto. split; auto. destruct O as (O1 & O2 & _). split; auto.
    + right. rewrite T. split; [eexists; exact L|]. intros r. discriminate.
  - intros n x cx g l In1 _ _ Gi Gr. cbn [sample dents].
    destruct (sample_ok C M Mok Env (visit_c n) g In1 Gr) as (o & g1 & E & Io & St). rewrite E. cbn [bind]. eauto 10.
  - intros n x kids cx b l a l' In1 [P _] K0 _ _ (c & y & Q & _ & L) Se. cbn [back_d dents]. unfold dents_backup_d.
    assert (Lk : forall i, dkids_ok C de de_c n (nth i (fst cx) kids)) by (intros i; apply look_ok; auto; intros v J; exact (proj1 (Se v J))).
    assert (Hl : forall i a0 c0 y0, In (a0, (c0, y0)) (nth i (fst cx) kids) -> dkid C n a0 c0 /\ ec_ok c0 (dc_ent (y0 : dcmem))).
    { intros i a0 c0 y0 Q0. destruct (proj2 (Lk i) _ _ _ Q0) as (K1 & K2 & _). auto. }
    destruct (ed_backup n (d_ent x) (d_off x) (nth 0 (fst cx) kids) (nth 1 (fst cx) kids) In1 P (Hl 0%nat) (proj1 (Lk 1%nat)) (Hl 1%nat)) as (m & Em & _).
    destruct K0 as [ND K].
    rewrite Em. cbn [bind].
    destruct (value_backs C M de d_dp dc_dp n x x kids kids (b_tafter b) (dents_part aeqb C M) (fun _ => conj eq_refl eq_refl)) as ([dp emp] & E).
    + split; [exact ND|]. intros a0 c0 y0 Q0. destruct (K _ _ _ Q0) as (K1 & _ & K2). auto.
    + exists a, c, y. auto.
    + rewrite E. cbn [bind]. eauto.
  - intros n x kids cx b In1 P K _. cbn [back_c dents]. eauto.
Qed.
End Dents.
