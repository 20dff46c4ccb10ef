(** Values of whole trees when no trial is under way. *)
From Coq Require Import List ZArith Bool Reals Lia Lra Permutation.
From Verif Require Import Base BaseProofs NumOps RLemmas HelperModel HelperSpec EngineModel EngineSpec EngineProofs MapModel MapProofs
  AlgoModel AlgoProofs AlgoNodes QuietSpec AlgoQuiet UctModel MentsModel SoftSpec SoftProofs MentsSpec MentsProofs MentsPolicy MentsRun SoftResults
  SoftTheorems RecSpec MentsTheorems DentsSpec DpRun FamilyRun DbRun DentsRun DentsResults.
Import ListNotations.
Open Scope R_scope.

Section Quiet.
Context {S A : Type}.
Variable seqb : S -> S -> bool.
Variable aeqb : A -> A -> bool.
Hypothesis seqb_ok : decides seqb.
Hypothesis aeqb_ok : decides aeqb.
Variable C : @econf S A.
Variable M : @mconf S A.
Hypothesis NoTT : use_tt C = false.
Hypothesis Env : env_ok C M.
Notation dnode := (@dnode S A).
Notation cnode := (@cnode S A).

Lemma dview_nil : forall G n g s d node, areach seqb aeqb C G n g s -> nth_error (dh (mem (base s))) d = Some node ->
  dview (G:=G) s node = [] -> dkids node = [].
Proof using seqb_ok aeqb_ok.
  intros G n g s d node R Hd E. pose proof (areach_good seqb aeqb seqb_ok aeqb_ok C G n g s R) as Gd.
  pose proof (dview_keys seqb aeqb aeqb_ok C G s d node Gd Hd) as K. rewrite E in K. destruct (dkids node); [reflexivity|discriminate].
Qed.

Lemma nth_same : forall V (l : list V) d, (forall v, In v l -> v = d) -> forall i, nth i l d = d.
Proof using Type. intros V l d H i. destruct (nth_in_or_default i l d); auto. Qed.
Lemma hd_same : forall V (l : list V) d, (forall v, In v l -> v = d) -> hd d l = d.
Proof using Type. intros V [|v l] d H; auto. apply H. now left. Qed.

(** ** Soft values *)
Section Soft.
Variable G : @algo S A.
Variable mD : XD G -> mmem.
Variable mC : XC G -> cmem.
(** The algorithm keeps MENTS values, computed from the first look at the children. *)
Record soft_part : Prop := mkSoft {
  SP_new : forall n, mD (new_xd G n) = ments_new_d C M n;
  SP_vis : forall leaf x, mD (vis_d G leaf x) = ments_visit leaf (mD x);
  SP_idle : forall x, vis_d G false x = x;
  SP_back : forall n x kids cx b x1, back_d G n x kids cx b = Ok x1 ->
    ments_backup_d aeqb C M n (mD x) (ontoc mC (hd kids (seen_d G cx))) = Ok (mD x1);
  SP_backc : forall n x kids cx b x1, back_c G n x kids cx b = Ok x1 ->
    mC x1 = ments_backup_c M n (mC x) (onto mD (hd kids (seen_c G cx)))
}.
Hypothesis Sp : soft_part.
Definition sp_d (n : dnode) (x : XD G) : Prop := (0 <= dvisits n)%Z /\ (0 <= m_nb (mD x))%Z.
Definition sp_c (n : cnode) (x : XC G) : Prop := True.

Lemma backup_keeps : forall n x (kids : list (A * (cnode * cmem))) x1, ments_backup_d aeqb C M n x kids = Ok x1 ->
  m_nb x1 = (m_nb x + 1)%Z /\ m_off x1 = m_off x.
Proof using Type.
  intros n x kids x1 E. unfold ments_backup_d in E. destruct (all_q _ _) as [qs| |]; cbn [bind] in E; try discriminate.
  destruct (ments_weights aeqb (ments_temp M n) qs) as [[w sum] norm]. injection E as <-. auto.
Qed.
Lemma sp_rules : node_rules C G sp_d sp_c (any_cx G) (fun _ _ => True).
Proof using Env Sp.
  constructor; unfold sp_d, sp_c; try (intros; exact I); try (intros; split; exact I).
  - rewrite (SP_new Sp). cbn. split; [apply Env|lia].
  - intros c o _ _. rewrite (SP_new Sp). cbn. split; [apply Env|lia].
  - intros n x [H1 H2]. rewrite (SP_vis Sp). cbn [visit_d dvisits]. split; [lia|]. unfold ments_visit. destruct (is_leaf C n); cbn; lia.
  - intros n x a c H. exact H.
  - intros n x kids cx b x1 l a l' In1 [P1 P2] _ _ _ _ _ E. apply (SP_back Sp) in E. apply backup_keeps in E. destruct E as [-> _]. split; auto. lia.
Qed.

Lemma soft_quiet : temps_ok M -> forall n g s, areach seqb aeqb C G n g s -> quiet (base s) ->
  (forall d node x, nth_error (dh (mem (base s))) d = Some node -> nth_error (xds s) d = Some x ->
     dkids node = [] /\ m_soft (mD x) = dheur node \/
     exists (v : Z) (q : A -> R), (0 <= v <= dvisits node)%Z /\
       (forall a, In a (acts C (dstate node)) -> q_of M (fun y => c_soft (mC y)) node (m_off (mD x)) (dview s node) a (q a)) /\
       m_soft (mD x) = seen M node (soft_max (ments_temp M (with_visits node v)) (map q (acts C (dstate node))))) /\
  (forall c node x, nth_error (ch (mem (base s))) c = Some node -> nth_error (xcs s) c = Some x ->
     exists v, weighted_mean (map (fun k => (m_nb (mD (snd (snd k))), m_soft (mD (snd (snd k))))) (cview s node)) v /\
       c_soft (mC x) = mreward M (cstate node) (cact node) + v).
Proof using All.
  intros Tok n g s R Q.
  destruct (quiet_backups seqb aeqb seqb_ok aeqb_ok C G NoTT _ _ _ _ sp_rules (SP_idle Sp) (fun n x => m_soft (mD x) = dheur n)) with (n := n) (g := g) (s := s) as [K1 K2]; auto.
  { intros s0 k t. rewrite (SP_new Sp). cbn. destruct (heuristic C); reflexivity. }
  { intros n0 x leaf H. rewrite (SP_vis Sp). unfold ments_visit. destruct leaf; exact H. }
  split.
  - intros d node x Hd Hx. destruct (K1 d node x Hd Hx) as [[E F]|(v & x0 & cx & b & Hv & In1 & [P1 P2] & K & V & B)].
    { left. split; [eapply dview_nil; eauto|exact F]. }
    right. apply (SP_back Sp) in B. rewrite (hd_same _ _ _ V) in B. cbn in P1. pose proof (backup_keeps _ _ _ _ B) as [_ Eo].
    destruct (temp_bounds M Tok (with_visits node v) P1) as (Tm & Tp & _). assert (Tp0 : 0 < ments_temp M (with_visits node v)) by lra.
    destruct (C35_soft_value aeqb aeqb_ok C M (with_visits node v) (mD x0) (ontoc mC (dview s node)) (mD x)) as (q & Hq & E & _); auto.
    + apply (eo_nodup _ _ Env).
    + apply (eo_acts _ _ Env). exact (proj1 In1).
    + exists v, q. split; [lia|]. split; [|exact E]. intros a Ia. specialize (Hq a Ia). rewrite <- Eo in Hq.
      assert (Keys : map fst (ontoc mC (dview s node)) = map fst (dview s node)) by (unfold ontoc; rewrite map_map; reflexivity).
      inversion Hq as [c y I1 E1|p w N1 E1 I1 E2|N1 E1 E2].
      * unfold ontoc in I1. apply in_map_iff in I1. destruct I1 as ([a' [c' y']] & [= -> -> <-] & I1).
        exact (q_child M (fun y => c_soft (mC y)) node _ _ a c y' I1).
      * rewrite Keys in N1. eapply q_prior; eauto.
      * rewrite Keys in N1. exact (q_default M (fun y => c_soft (mC y)) node _ _ a N1 E1).
  - intros c node x Hc Hx. destruct (K2 c node x Hc Hx) as (x0 & cx & b & In1 & P & [ND K] & V & B). apply (SP_backc Sp) in B. rewrite (hd_same _ _ _ V) in B.
    destruct (C38_soft_value M node (mC x0) (onto mD (cview s node))) as (v & W & E).
    + intros o d y I1. unfold onto in I1. apply in_map_iff in I1. destruct I1 as ([o' [d' y']] & [= -> -> <-] & I1).
      destruct (K _ _ _ I1) as [_ [_ P2]]. exact P2.
    + exists v. split.
      * unfold onto in W. rewrite map_map in W. exact W.
      * rewrite B, E. reflexivity.
Qed.
End Soft.

(** ** Dynamic programming values *)
Section Dp.
Variable G : @algo S A.
Variable vD : XD G -> vmem.
Variable vC : XC G -> vmem.
Hypothesis Dp : dp_part M G vD vC.
Hypothesis Idle : forall x, vis_d G false x = x.

Lemma dp_quiet : forall n g s, areach seqb aeqb C G n g s -> quiet (base s) ->
  (forall d node x, nth_error (dh (mem (base s))) d = Some node -> nth_error (xds s) d = Some x ->
     dkids node = [] /\ v_val (vD x) = dheur node \/
     let l := map (fun k => (v_nb (vC (snd (snd k))), v_val (vC (snd (snd k))))) (dview s node) in
     if opponent M node then is_min l (v_val (vD x)) else is_max l (v_val (vD x))) /\
  (forall c node x, nth_error (ch (mem (base s))) c = Some node -> nth_error (xcs s) c = Some x ->
     (1 <= v_nb (vC x))%Z /\
     exists v, weighted_mean (map (fun k => (v_nb (vD (snd (snd k))), v_val (vD (snd (snd k))))) (cview s node)) v /\
       v_val (vC x) = mreward M (cstate node) (cact node) + v).
Proof using All.
  intros n g s R Q.
  destruct (quiet_backups seqb aeqb seqb_ok aeqb_ok C G NoTT _ _ _ _ (cnt_rules C M G vD vC Dp) Idle (fun n x => v_val (vD x) = dheur n)) with (n := n) (g := g) (s := s) as [K1 K2]; auto.
  { intros s0 k t. now rewrite (D_new _ _ _ _ Dp). }
  { intros n0 x leaf H. rewrite (D_vis _ _ _ _ Dp). unfold dp_visit. destruct leaf; exact H. }
  assert (Kc : forall c node x, nth_error (ch (mem (base s))) c = Some node -> nth_error (xcs s) c = Some x ->
     (1 <= v_nb (vC x))%Z /\
     exists v, weighted_mean (map (fun k => (v_nb (vD (snd (snd k))), v_val (vD (snd (snd k))))) (cview s node)) v /\
       v_val (vC x) = mreward M (cstate node) (cact node) + v).
  { intros c node x Hc Hx. destruct (K2 c node x Hc Hx) as (x0 & cx & b & In1 & P & [ND K] & _ & B). apply (D_backc _ _ _ _ Dp) in B.
    destruct (C38_dp_value M node (vC x0) (members vD (cview s node))) as (v & W & E).
    + intros o y I1. unfold members in I1. apply in_map_iff in I1. destruct I1 as ([o' [d' y']] & [= -> <-] & I1).
      destruct (K _ _ _ I1) as [_ P2]. unfold cnt_d in P2. cbn. lia.
    + rewrite B, E. cbn. unfold cnt_c in P. split; [lia|]. exists v. split; auto.
      unfold members in W. rewrite map_map in W. exact W. }
  split; [|exact Kc].
  intros d node x Hd Hx. destruct (K1 d node x Hd Hx) as [[E F]|(v & x0 & cx & b & Hv & In1 & P & [ND K] & _ & B)].
  { left. split; [eapply dview_nil; eauto|exact F]. }
  destruct (dview s node) as [|[a [c y]] r] eqn:Ev.
  { apply (D_back _ _ _ _ Dp) in B. discriminate B. }
  right. rewrite <- Ev in *. apply (D_back _ _ _ _ Dp) in B.
  assert (I1 : In (a, (c, y)) (dview s node)) by (rewrite Ev; now left).
  assert (Pos : (1 <= v_nb (vC y))%Z).
  { unfold dview in I1. apply in_flat_map in I1. destruct I1 as ([a' ci] & _ & I1). cbn in I1.
    destruct (nth_error (ch (mem (base s))) ci) eqn:Ec; [|destruct I1]. destruct (nth_error (xcs s) ci) eqn:Ex; [|destruct I1].
    destruct I1 as [[= -> -> ->]|[]]. now apply (Kc ci c y). }
  destruct (C39_best_child M (with_visits node v) (vD x0) (members vC (dview s node))) as (w & E & H).
  - intros a' y' I2. unfold members in I2. apply in_map_iff in I2. destruct I2 as ([a'' [c' y'']] & [= -> <-] & I2).
    destruct (K _ _ _ I2) as [_ P2]. exact P2.
  - exists a, (vC y). split; [|lia]. unfold members. apply in_map_iff. now exists (a, (c, y)).
  - rewrite E in B. injection B as B. rewrite <- B. cbn [v_val].
    unfold members in H. rewrite map_map in H. exact H.
Qed.
End Dp.

(** ** Entropies of DENTS *)
Section Ent.
Hypothesis Mok : ments_ok C M.
Hypothesis Pr : prior_ok C M.
Hypothesis Ex : explore_ok M.
Variable N : R.
Hypothesis Few : few_actions C N.
Hypothesis Fr : fresh_known C M.
Notation de := (dents aeqb C M).

Lemma ln3_up : forall v, (0 <= v)%Z -> ln 3 <= ln (IZR v + 3).
Proof using Type.
  intros v H. apply IZR_le in H. destruct (Rle_lt_or_eq_dec 3 (IZR v + 3)) as [L|E]; [lra| |rewrite <- E; lra].
  left. apply ln_increasing; lra.
Qed.
Lemma ent_quiet : forall n g s, areach seqb aeqb C de n g s -> quiet (base s) ->
  (forall d node x, nth_error (dh (mem (base s))) d = Some node -> nth_error (xds s) d = Some x ->
     dkids node = [] \/
     exists (v : Z) (q p : A -> R) pol, (0 <= v <= dvisits node)%Z /\
       let at_v := with_visits node v in
       (forall a, In a (acts C (dstate node)) ->
          q_of M (fun y => estimate M y + value_temp M at_v * entropy_below y) node (d_off x) (dview s node) a (q a)) /\
       search_policy aeqb C M at_v q pol /\
       (forall a w, In (a, w) pol -> p a = w) /\ (forall a, ~ In a (map fst pol) -> p a = 0) /\
       e_local (d_ent x) = Some (shannon (map snd pol)) /\
       e_sub (d_ent x) = Some (seen M node (shannon (map snd pol)) +
         rsum_of (fun k => p (fst k) * entropy_below (snd (snd k))) (dview s node))) /\
  (forall c node x, nth_error (ch (mem (base s))) c = Some node -> nth_error (xcs s) c = Some x ->
     exists v, weighted_mean (map (fun k => (e_nb (d_ent (snd (snd k))), match e_sub (d_ent (snd (snd k))) with Some h => h | None => 0 end)) (cview s node)) v /\
       ec_sub (dc_ent x) = Some v).
Proof using All.
  intros n g s R Q.
  destruct (quiet_backups seqb aeqb seqb_ok aeqb_ok C de NoTT _ _ _ _ (ent_rules aeqb aeqb_ok C M Mok Env Pr Ex N Few Fr)) with (Fresh := fun (_ : dnode) (_ : XD de) => True) (n := n) (g := g) (s := s) as [K1 K2]; auto.
  { intros []. reflexivity. }
  split.
  - intros d node x Hd Hx. destruct (K1 d node x Hd Hx) as [[E _]|(v & x0 & cx & b & Hv & In1 & P & [ND K] & V & B)].
    { left. eapply dview_nil; eauto. }
    right. destruct P as ((P1 & P2) & _). cbn [with_visits dvisits] in P1.
    assert (Sane : policy_sane C M (with_visits node v)).
    { destruct Pr as [PP PW]. split; [exact P2|]. split; [exact PP|]. split; [exact Ex|]. split; [exact P1|]. split.
      - intros L. destruct PW as [PW|[PW _]]; [lra|exact PW].
      - cbn [with_visits dvisits dstate]. split.
        + pose proof (ln3_up v P1). destruct PW as [PW|[_ PW]]; [|lra]. assert (0 < ln 3); [|lra].
          rewrite <- ln_1. apply ln_increasing; lra.
        + split; [apply (eo_nodup _ _ Env)|]. apply (eo_acts _ _ Env), In1. }
    assert (Cl : forall a c y, In (a, (c, y)) (dview s node) -> ec_sub (dc_ent y) <> None).
    { intros a c y I1. destruct (K _ _ _ I1) as (_ & _ & _ & h & E & _). congruence. }
    destruct (dents_policy aeqb aeqb_ok C M (with_visits node v) x0 (dview s node) Sane Cl) as (q & pol & Hq & Hp & E).
    pose proof Hp as (pi & (NDp & Hpi) & _).
    cbn [back_d dents] in B. cbn [seen_d dents] in V. rewrite !(nth_same _ _ _ V) in B. unfold dents_backup_d in B. rewrite E in B. cbn [bind] in B.
    destruct (value_backup_d M (with_visits node v) x0 (dview s node) (b_tafter b)) as [[dp emp]| |]; cbn [bind] in B; try discriminate.
    injection B as B. set (p := fun a => match lookup aeqb a pol with Some w => w | None => 0 end).
    assert (Hp1 : forall a w, In (a, w) pol -> p a = w).
    { intros a w I1. unfold p. now rewrite (MapProofs.in_lookup aeqb aeqb_ok _ pol a w). }
    assert (Hp2 : forall a, ~ In a (map fst pol) -> p a = 0).
    { intros a I1. unfold p. destruct (lookup aeqb a pol) as [w|] eqn:L; auto. apply EngineProofs.lookup_in in L; auto.
      exfalso. apply I1. apply in_map_iff. now exists (a, w). }
    set (h := fun a => match lookup aeqb a (members dc_ent (dview s node)) with Some y => match ec_sub y with Some w => w | None => 0 end | None => 0 end).
    assert (NDm : NoDup (map fst (members dc_ent (dview s node)))) by (unfold members; rewrite map_map; exact ND).
    assert (Hh : forall a c y, In (a, (c, y)) (dview s node) -> h a = entropy_below y).
    { intros a c y I1. unfold h. rewrite (MapProofs.in_lookup aeqb aeqb_ok _ _ a (dc_ent y)); auto.
      unfold members. apply in_map_iff. now exists (a, (c, y)). }
    pose proof (C43_entropy_backup aeqb aeqb_ok C M (with_visits node v) (d_ent x0) pol (members dc_ent (dview s node)) p h
      (proj1 Mok) NDp Hp1 Hp2) as EB.
    assert (Ed : d_off x = d_off x0) by (rewrite <- B; reflexivity).
    assert (Ee : d_ent x = ent_backup_d aeqb C M (with_visits node v) (d_ent x0) (Some pol) (members dc_ent (dview s node))) by (rewrite <- B; reflexivity).
    exists v, q, p, pol. split; [lia|]. cbv zeta. split.
    { intros a Ia. rewrite Ed. specialize (Hq a Ia). inversion Hq as [c y I1 E1|p' w N1 E1 I1 E2|N1 E1 E2].
      - exact (q_child M (fun y => estimate M y + value_temp M (with_visits node v) * entropy_below y) node _ _ a c y I1).
      - eapply q_prior; eauto.
      - exact (q_default M (fun y => estimate M y + value_temp M (with_visits node v) * entropy_below y) node _ _ a N1 E1). }
    split; [exact Hp|]. split; [exact Hp1|]. split; [exact Hp2|].
    rewrite Ee, EB.
    + cbn [e_local e_sub]. split; auto. f_equal. f_equal. unfold rsum_of. f_equal. unfold members. rewrite !map_map. apply map_ext_in.
      intros [a [c y]] I1. cbn. f_equal. eapply Hh; eauto.
    + intros a y I1. unfold members in I1. apply in_map_iff in I1. destruct I1 as ([a' [c' y']] & [= -> <-] & I1). cbn.
      rewrite (Hh _ _ _ I1). unfold entropy_below. destruct (ec_sub (dc_ent y')) eqn:E'; auto. exfalso. exact (Cl _ _ _ I1 E').
  - intros c node x Hc Hx. destruct (K2 c node x Hc Hx) as (x0 & cx & b & In1 & P & [ND K] & V & B). cbn [back_c dents] in B.
    match type of B with context [@hd ?T ?d ?l] => replace (@hd T d l) with d in B by (symmetry; exact (hd_same _ _ _ V)) end.
    injection B as B. unfold dents_backup_c in B. destruct (value_backup_c M node x0 (cview s node) (b_tafter b)) as [dp emp].
    assert (Ee : dc_ent x = ent_backup_c (dc_ent x0) (members d_ent (cview s node))) by (rewrite <- B; reflexivity).
    destruct (C38_entropy (dc_ent x0) (members d_ent (cview s node)) (fun y => match e_sub y with Some h => h | None => 0 end)) as (v & W & E).
    + intros o y I1. unfold members in I1. apply in_map_iff in I1. destruct I1 as ([o' [d' y']] & [= -> <-] & I1).
      destruct (K _ _ _ I1) as [_ (_ & _ & L & _ & h & E & _)]. cbn. rewrite E. split; [lia|auto].
    + exists v. rewrite Ee, E. split; [|reflexivity]. unfold members in W. rewrite map_map in W. exact W.
Qed.
End Ent.
End Quiet.

(** ** The algorithms *)
Section Parts.
Context {S A : Type}.
Variable aeqb : A -> A -> bool.
Variable C : @econf S A.
Variable M : @mconf S A.
Lemma ments_soft : soft_part aeqb C M (ments aeqb C M) (fun x => x) (fun x => x).
Proof.
  constructor; try reflexivity.
  - intros n x kids cx b x1 E. cbn in E. unfold ontoc. replace (map _ kids) with kids; auto. symmetry. erewrite map_ext; [apply map_id|].
    intros [a [c y]]. reflexivity.
  - intros n x kids cx b x1 E. cbn in E. injection E as <-. unfold onto. replace (map _ kids) with kids; auto. symmetry. erewrite map_ext; [apply map_id|].
    intros [a [c y]]. reflexivity.
Qed.
Lemma dbments_soft : soft_part aeqb C M (dbments aeqb C M) fst fst.
Proof.
  constructor; try reflexivity.
  - intros [x y]. reflexivity.
  - intros n x kids cx b x1 E. cbn in E. unfold dbments_backup_d in E. destruct (ments_backup_d _ _ _ _ _ _) as [m| |]; cbn [bind] in E; try discriminate.
    destruct (dp_backup_d _ _ _ _) as [w| |]; cbn [bind] in E; try discriminate. now injection E as <-.
  - intros n x kids cx b x1 E. cbn in E. now injection E as <-.
Qed.
End Parts.
