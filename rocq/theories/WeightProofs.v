(** The counts kept by decision nodes, as numbers of backups and of trials ending at the node. *)
From Coq Require Import List ZArith Bool Reals Lia Lra.
From Verif Require Import Base BaseProofs NumOps HelperModel EngineModel EngineSpec EngineProofs EngineInv EngineCount EngineEnds
  MapModel MapProofs AlgoModel AlgoProofs AlgoNodes AlgoHist UctSpec MentsModel.
Import ListNotations.
Open Scope nat_scope.

Section Weight.
Context {S A : Type}.
Variable seqb : S -> S -> bool.
Variable aeqb : A -> A -> bool.
Hypothesis seqb_ok : decides seqb.
Hypothesis aeqb_ok : decides aeqb.
Variable C : @econf S A.
Variable G : @algo S A.
Notation dnode := (@dnode S A).
Notation cnode := (@cnode S A).
Notation areach := (areach seqb aeqb C G).
Open Scope Z_scope.

(** A counter of the node, its value in a new node and what a visit of a leaf adds. *)
Variable nb : XD G -> Z.
Variables k0 lf : Z.
Record counter : Prop := mkCounter {
  N_new : forall n, nb (new_xd G n) = k0;
  N_vis : forall leaf x, nb (vis_d G leaf x) = nb x + (if leaf then lf else 0);
  N_back : forall n x kids cx b x1, back_d G n x kids cx b = Ok x1 -> nb x1 = nb x + 1
}.
Hypothesis Cn : counter.

Definition tallied (n : dnode) (l : list R) (x : XD G) : Prop :=
  nb x = k0 + Z.of_nat (length l) + (if is_leaf C n then lf * (dvisits n - init_visits C) else 0).
Lemma tallied_rules : hist_rules C G tallied (fun _ _ _ => True).
Proof using All.
  constructor; unfold tallied; auto.
  - intros. rewrite (N_new Cn). cbn [length new_dnode dvisits]. destruct (is_leaf _ _); lia.
  - intros n l x E. rewrite (N_vis Cn), E, leaf_visit. cbn [visit_d dvisits]. destruct (is_leaf C n); lia.
  - intros n l x kids cx b x1 _ E B. rewrite (N_back Cn _ _ _ _ _ _ B), E. cbn [length]. lia.
Qed.

Lemma weight_always : forall n g s d node x, areach n g s ->
  nth_error (dh (mem (base s))) d = Some node -> nth_error (xds s) d = Some x ->
  nb x = k0 + count (backs_d d) (etrace (base s)) + (if is_leaf C node then lf * count (ends_at d) (etrace (base s)) else 0).
Proof using All.
  intros n g s d node x R Hd Hx. pose proof (areach_ereach seqb aeqb C G _ _ _ R) as E.
  destruct (hist_reach seqb aeqb seqb_ok aeqb_ok C G _ _ tallied_rules _ _ _ R) as [H _]. specialize (H _ _ _ Hx Hd).
  unfold tallied in H. rewrite H, returns_count_d.
  destruct (cinv_reach seqb aeqb seqb_ok aeqb_ok C _ _ E) as [K _]. rewrite (ci_dv _ _ K _ _ Hd).
  destruct (ends_reach seqb aeqb seqb_ok aeqb_ok C _ _ E) as (E1 & _).
  destruct (is_leaf C node) eqn:L; [|lia]. rewrite (E1 _ _ Hd L). lia.
Qed.

(** When no trial is running: how often the outcome has been sampled. *)
Lemma weight_quiet : forall n g s c o d node x, use_tt C = false -> areach n g s -> quiet (base s) -> cchild seqb (mem (base s)) c o d ->
  nth_error (dh (mem (base s))) d = Some node -> nth_error (xds s) d = Some x ->
  nb x = k0 + (if is_leaf C node then lf * count (goes c d) (etrace (base s))
               else count (goes c d) (etrace (base s)) - (if mcts_mode C then 1 else 0)).
Proof using All.
  intros n g s c o d node x T R Q Ch Hd Hx. rewrite (weight_always _ _ _ _ _ _ R Hd Hx).
  pose proof (areach_ereach seqb aeqb C G _ _ _ R) as E.
  pose proof (areach_good seqb aeqb seqb_ok aeqb_ok C G _ _ _ R) as [Gd _ _ _ _].
  destruct (cinv_reach seqb aeqb seqb_ok aeqb_ok C _ _ E) as [K _].
  destruct (ends_reach seqb aeqb seqb_ok aeqb_ok C _ _ E) as (E1 & E2 & E3).
  pose proof (ci_vd _ _ K d) as V. pose proof (ci_en _ _ K d) as Z.
  rewrite (enters_goes seqb aeqb C _ Gd (evs_reach seqb aeqb seqb_ok aeqb_ok C _ _ E) T _ _ _ Ch) in Z.
  rewrite (quiet_sum (base s) (pendD d) eq_refl Q) in V. rewrite (quiet_sum (base s) (atD d) eq_refl Q) in Z.
  assert (D0 : d <> 0%nat).
  { intros ->. destruct Gd as [I _]. exact (ti_noroot _ _ _ _ I _ _ _ Ch eq_refl). }
  apply Nat.eqb_neq in D0. rewrite D0 in Z. change (b2z false) with 0 in Z.
  destruct (is_leaf C node) eqn:L.
  - rewrite (E1 _ _ Hd L) in *. lia.
  - destruct (mcts_mode C) eqn:Mc.
    + pose proof (E3 eq_refl T _ _ Hd L) as W. rewrite atnew_quiet, D0 in W by auto. lia.
    + rewrite (E2 eq_refl _ _ Hd L) in *. lia.
Qed.
End Weight.

Section Counters.
Context {S A : Type}.
Variable aeqb : A -> A -> bool.
Variable C : @econf S A.
Variable M : @mconf S A.
Open Scope Z_scope.

Ltac bk :=
  repeat match goal with
  | H : bind ?o _ = Ok _ |- _ => destruct o eqn:?; cbn [bind] in H; try discriminate
  | H : (let '(_, _) := ?p in _) = Ok _ |- _ => destruct p eqn:?
  end.

Lemma ments_counter : counter (ments aeqb C M) m_nb 0 1.
Proof.
  constructor; cbn; auto.
  - intros [] x; cbn; lia.
  - intros n x kids cx b x1 H. unfold ments_backup_d in H. bk. injection H as <-. reflexivity.
Qed.
Lemma rents_counter : counter (rents aeqb C M) m_nb 0 1.
Proof.
  constructor; cbn; auto.
  - intros [] x; cbn; lia.
  - intros n x kids cx b x1 H. unfold rents_backup_d in H. bk. injection H as <-. reflexivity.
Qed.
Lemma dbments_counter : counter (dbments aeqb C M) (fun x => m_nb (fst x)) 0 1.
Proof.
  constructor; cbn; auto.
  - intros [] x; cbn; lia.
  - intros n x kids cx b x1 H. unfold dbments_backup_d, ments_backup_d in H. bk. injection H as <-. cbn. 
    match goal with H : Ok _ = Ok _ |- _ => injection H as <- end. reflexivity.
Qed.
Lemma dbments_dp_counter : counter (dbments aeqb C M) (fun x => v_nb (snd x)) 1 1.
Proof.
  constructor; cbn; auto.
  - intros [] x; cbn; lia.
  - intros n x kids cx b x1 H. unfold dbments_backup_d, dp_backup_d in H. bk. injection H as <-. cbn.
    destruct (dp_loop _ _); [|discriminate]. match goal with H : Ok _ = Ok _ |- _ => injection H as <- end. reflexivity.
Qed.
Lemma dents_dp_counter : muse_dp M = true -> counter (dents aeqb C M) (fun x => v_nb (d_dp x)) 1 1.
Proof.
  intros U. constructor; cbn; auto.
  - intros [] x; cbn; lia.
  - intros n x kids cx b x1 H. unfold dents_backup_d, value_backup_d, dp_backup_d in H. rewrite U in H. bk. injection H as <-. cbn.
    destruct (dp_loop _ _); [|discriminate]. cbn in *. 
    repeat match goal with H : Ok _ = Ok _ |- _ => injection H; clear H; intros; subst end. reflexivity.
Qed.
Lemma est_dp_counter : muse_dp M = true -> counter (est aeqb C M) (fun x => v_nb (d_dp x)) 1 1.
Proof.
  intros U. constructor; cbn; auto.
  - intros [] x; cbn; lia.
  - intros n x kids cx b x1 H. unfold est_backup_d, value_backup_d, dp_backup_d in H. rewrite U in H. bk. injection H as <-. cbn.
    destruct (dp_loop _ _); [|discriminate]. cbn in *.
    repeat match goal with H : Ok _ = Ok _ |- _ => injection H; clear H; intros; subst end. reflexivity.
Qed.
Lemma dents_ent_counter : counter (dents aeqb C M) (fun x => e_nb (d_ent x)) 1 0.
Proof.
  assert (E : forall n x pol kids, e_nb (ent_backup_d aeqb C M n x pol kids) = e_nb x + 1) by (intros n x [|] kids; reflexivity).
  constructor.
  - intros n. cbn. now rewrite E.
  - intros [] x; cbn; lia.
  - cbn. intros n x kids cx b x1 H. unfold dents_backup_d in H. bk. injection H as <-. cbn. apply E.
Qed.
Lemma tents_counter : counter (tents aeqb C M) (fun x => m_nb (t_m x)) 0 1.
Proof.
  constructor.
  - intros n. cbn [tents new_xd]. unfold tents_new_d. generalize (acts C (dstate n)). intros l.
    match goal with |- m_nb (t_m (fold_left ?f l ?x0)) = _ =>
      cut (forall x, t_m x = ments_new_d C M n -> t_m (fold_left f l x) = ments_new_d C M n) end.
    { intros H. now rewrite H. }
    induction l as [|a l IH]; intros x E; cbn [fold_left]; auto. apply IH. destruct (q_over_temp _ _ _ _ _ _); auto.
  - intros [] x; cbn; lia.
  - cbn. intros n x kids cx b x1 H. unfold tents_backup_d in H. bk. injection H as <-. reflexivity.
Qed.
End Counters.

(** After a complete trial some outcome has been sampled below the root. *)
Section First.
Context {S A : Type}.
Variable seqb : S -> S -> bool.
Variable aeqb : A -> A -> bool.
Hypothesis seqb_ok : decides seqb.
Hypothesis aeqb_ok : decides aeqb.
Variable C : @econf S A.
Open Scope Z_scope.
Lemma count_pos : forall f (tr : list (nat * @event S A)), 0 < count f tr -> exists t e, In (t, e) tr /\ f e = true.
Proof.
  intros f tr. induction tr as [|[t e] tr IH]; [cbn; lia|]. rewrite count_cons. destruct (f e) eqn:F; intros H.
  - exists t, e. split; [now left|auto].
  - destruct IH as (t' & e' & Q & F'); [cbn in H; lia|]. exists t', e'. split; [now right|auto].
Qed.
Lemma count_in : forall f (tr : list (nat * @event S A)) t e, In (t, e) tr -> f e = true -> 0 < count f tr.
Proof.
  intros f tr t e. assert (P : forall tr : list (nat * @event S A), 0 <= count f tr).
  { induction tr0 as [|[t0 e0] tr0 IH]; [easy|]. rewrite count_cons. destruct (f e0); cbn; lia. }
  induction tr as [|[t' e'] tr IH]; intros Q F; [easy|]. rewrite count_cons. pose proof (P tr). destruct Q as [[= -> ->]|Q].
  - rewrite F. cbn. lia.
  - specialize (IH Q F). destruct (f e'); cbn; lia.
Qed.
Lemma first_path : forall n s root, ereach seqb aeqb C n s -> quiet s -> 0 < count is_done (etrace s) -> mcts_mode C = false \/ use_tt C = false ->
  nth_error (dh (mem s)) 0 = Some root -> is_leaf C root = false ->
  exists a c o d, dchild aeqb (mem s) 0 a c /\ cchild seqb (mem s) c o d /\ 0 < count (goes c d) (etrace s).
Proof using All.
  intros n s root E Q P Mt Hr L.
  pose proof (ereach_good seqb aeqb seqb_ok aeqb_ok C _ _ E) as Gd. pose proof (evs_reach seqb aeqb seqb_ok aeqb_ok C _ _ E) as Ev.
  destruct (cinv_reach seqb aeqb seqb_ok aeqb_ok C _ _ E) as [K _].
  destruct (ends_reach seqb aeqb seqb_ok aeqb_ok C _ _ E) as (E1 & E2 & E3).
  assert (Z : count (ends_at 0) (etrace s) = 0).
  { destruct (mcts_mode C) eqn:Mc; [|now apply (E2 eq_refl 0%nat root)].
    destruct Mt as [?|T]; [discriminate|]. pose proof (E3 eq_refl T _ _ Hr L) as W. rewrite atnew_quiet in W by auto. cbn in W. lia. }
  pose proof (ci_en _ _ K 0%nat) as Y. rewrite (never_enters_root seqb aeqb C _ Gd Ev), Z, (quiet_sum s (atD 0) eq_refl Q) in Y.
  pose proof (ci_done _ _ K) as D. rewrite (quiet_sum s busy eq_refl Q) in D. cbn in Y.
  destruct (count_pos (visits_d 0) (etrace s) ltac:(lia)) as (t & e & I & F). destruct e as [|d a c| | | | | | |]; try discriminate.
  cbn in F. apply Nat.eqb_eq in F. subst d. pose proof (Ev _ _ I) as Dc. cbn in Dc.
  pose proof (count_in (selects_c c) _ _ _ I (Nat.eqb_refl c)) as Sc. pose proof (ci_sc _ _ K c) as Y2.
  rewrite (quiet_sum s (atC c) eq_refl Q) in Y2.
  destruct (count_pos (visits_c c) (etrace s) ltac:(lia)) as (t' & e & I' & F). destruct e as [| |c' o d gg| | | | | |]; try discriminate.
  cbn in F. apply Nat.eqb_eq in F. subst c'. pose proof (Ev _ _ I') as Cc. cbn in Cc.
  exists a, c, o, d. split; auto. split; auto. eapply (count_in (goes c d)); eauto. cbn. now rewrite !Nat.eqb_refl.
Qed.
End First.
