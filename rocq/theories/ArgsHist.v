(** Members of nodes in searches as functions of the history of visits and of the arguments of backups. *)
From Coq Require Import List ZArith Bool Reals Lia Lra.
From Verif Require Import Base BaseProofs NumOps HelperModel EngineModel EngineSpec EngineProofs EngineInv EngineCount MapModel MapProofs
  AlgoModel AlgoProofs AlgoNodes UctSpec.
Import ListNotations.
Open Scope nat_scope.

(** The arguments with which a decision node / chance node was backed up, newest first. *)
Definition args_d {S A} (d : nat) (tr : list (nat * @event S A)) : list bargs :=
  flat_map (fun p => match snd p with
                     | EBackD d' b a r t => if Nat.eqb d' d then [mkArgs b a r t] else []
                     | _ => [] end) tr.
Definition args_c {S A} (c : nat) (tr : list (nat * @event S A)) : list bargs :=
  flat_map (fun p => match snd p with
                     | EBackC c' b a r t => if Nat.eqb c' c then [mkArgs b a r t] else []
                     | _ => [] end) tr.

Section Hist.
Context {S A : Type}.
Variable seqb : S -> S -> bool.
Variable aeqb : A -> A -> bool.
Hypothesis seqb_ok : decides seqb.
Hypothesis aeqb_ok : decides aeqb.
Variable C : @econf S A.
Variable G : @algo S A.
Notation dnode := (@dnode S A).
Notation cnode := (@cnode S A).

(** Relations between a node, the arguments of its backups (newest first) and its members. *)
Variable HD : dnode -> list bargs -> XD G -> Prop.
Variable HC : cnode -> list bargs -> XC G -> Prop.

Record arg_rules : Prop := mkArgRules {
  G_newd : forall o k t, HD (new_dnode C o k t) [] (new_xd G (new_dnode C o k t));
  G_newc : forall o a k t, HC (new_cnode o a k t) [] (new_xc G (new_cnode o a k t));
  G_visd : forall n l x, HD n l x -> HD (visit_d n) l (vis_d G (is_leaf C n) x);
  G_addd : forall n l x a c, HD n l x -> HD (add_dkid n a c) l x;
  G_visc : forall n l x, HC n l x -> HC (visit_c n) l x;
  G_addc : forall n l x o d, HC n l x -> HC (add_ckid n o d) l x;
  G_backd : forall n l x kids cx b x1, inner C n -> HD n l x -> back_d G n x kids cx b = Ok x1 -> HD n (b :: l) x1;
  G_backc : forall n l x kids cx b x1, HC n l x -> back_c G n x kids cx b = Ok x1 -> HC n (b :: l) x1
}.
Hypothesis Rules : arg_rules.

Definition ahist (s : ast G) : Prop :=
  (forall d x n, nth_error (xds s) d = Some x -> nth_error (dh (mem (base s))) d = Some n ->
     HD n (args_d d (etrace (base s))) x) /\
  (forall d, length (dh (mem (base s))) <= d -> args_d d (etrace (base s)) = []) /\
  (forall c x n, nth_error (xcs s) c = Some x -> nth_error (ch (mem (base s))) c = Some n ->
     HC n (args_c c (etrace (base s))) x) /\
  (forall c, length (ch (mem (base s))) <= c -> args_c c (etrace (base s)) = []).

Lemma args_true : node_rules C G (fun _ _ => True) (fun _ _ => True) (fun _ _ => True) (fun _ _ => True).
Proof using Type. constructor; auto. Qed.

Lemma ahist_step : forall n g s s', areach seqb aeqb C G n g s -> ahist s -> atr seqb aeqb C G s s' -> ahist s'.
Proof using All.
  intros n0 g0 s s' Re M T. pose proof (areach_good seqb aeqb seqb_ok aeqb_ok C G _ _ _ Re) as I.
  pose proof (nodes_reach seqb aeqb seqb_ok aeqb_ok C G _ _ _ _ args_true _ _ _ Re) as No.
  pose proof I as [Gd Ps Ld Lc Lt]. destruct M as (M1 & M2 & M3 & M4).
  assert (L : forall i y, nth_error (dh (mem (base s))) i = Some y -> i < length (dh (mem (base s))))
    by (intros i y Hi; apply nth_error_Some; congruence).
  assert (L' : forall i y, nth_error (xds s) i = Some y -> i < length (xds s))
    by (intros i y Hi; apply nth_error_Some; congruence).
  assert (K : forall i y, nth_error (ch (mem (base s))) i = Some y -> i < length (ch (mem (base s))))
    by (intros i y Hi; apply nth_error_Some; congruence).
  assert (K' : forall i y, nth_error (xcs s) i = Some y -> i < length (xcs s))
    by (intros i y Hi; apply nth_error_Some; congruence).
  assert (V : forall cur n x n1, nth_error (dh (mem (base s))) cur = Some n -> nth_error (xds s) cur = Some x ->
    (forall l, HD (visit_d n) l (vis_d G (is_leaf C n) x) -> HD n1 l (vis_d G (is_leaf C n) x)) ->
    forall d x0 n0, nth_error (upd (xds s) cur (vis_d G (is_leaf C n) x)) d = Some x0 ->
      nth_error (upd (dh (mem (base s))) cur n1) d = Some n0 ->
      HD n0 (args_d d (etrace (base s))) x0).
  { intros cur n x n1 Hn Hx Hh d x0 n2 Q1 Q2.
    rewrite (nth_upd _ _ _ _ _ _ Hx) in Q1. rewrite (nth_upd _ _ _ _ _ _ Hn) in Q2.
    destruct (Nat.eqb_spec cur d) as [->|]; [|eapply M1; eauto]. injection Q1 as <-. injection Q2 as <-.
    apply Hh. apply Rules. eapply M1; eauto. }
  assert (W : forall c n n1, nth_error (ch (mem (base s))) c = Some n ->
    (forall l x, HC n l x -> HC n1 l x) ->
    forall d x0 n0, nth_error (xcs s) d = Some x0 ->
      nth_error (upd (ch (mem (base s))) c n1) d = Some n0 ->
      HC n0 (args_c d (etrace (base s))) x0).
  { intros c n n1 Hn Hh d x0 n2 Q1 Q2. rewrite (nth_upd _ _ _ _ _ _ Hn) in Q2.
    destruct (Nat.eqb_spec c d) as [->|]; [|eapply M3; eauto]. injection Q2 as <-. apply Hh. eapply M3; eauto. }
  destruct T; unfold ahist; cbn [base xds xcs mem dh ch etrace adie args_d args_c flat_map snd app];
    fold (args_d (S:=S) (A:=A)); fold (args_c (S:=S) (A:=A)).
  - exact (conj M1 (conj M2 (conj M3 M4))).
  - rewrite upd_length. split; [|split; [|split]]; auto. exact (V cur n x (visit_d n) H0 H1 (fun l q => q)).
  - rewrite upd_length, app_length. cbn [length]. split; [|split; [|split]]; auto.
    + exact (V cur n x (add_dkid (visit_d n) a c) H0 H1 (fun l q => G_addd Rules _ _ _ _ _ q)).
    + intros c0 x0 m0 Q Q2. apply nth_snoc in Q. apply nth_snoc in Q2.
      destruct Q as [Q|[-> ->]], Q2 as [Q2|[E ->]].
      * eapply M3; eauto.
      * apply K' in Q. lia.
      * apply K in Q2. lia.
      * match goal with |- HC ?a _ ?b => change (HC a (args_c (length (xcs s)) (etrace (base s))) b) end.
        rewrite M4 by lia. apply Rules.
    + intros c0 Q. apply M4. lia.
  - rewrite upd_length. split; [|split; [|split]]; auto. eapply W; eauto. intros l y Q. now apply Rules.
  - rewrite upd_length. split; [|split; [|split]]; auto. eapply W; eauto. intros l y Q. now apply Rules, Rules.
  - rewrite upd_length, app_length. cbn [length]. split; [|split; [|split]]; auto.
    + intros d0 x0 m0 Q1 Q2. apply nth_snoc in Q1. apply nth_snoc in Q2.
      destruct Q1 as [Q1|[-> ->]], Q2 as [Q2|[E ->]].
      * eapply M1; eauto.
      * apply L' in Q1. lia.
      * apply L in Q2. lia.
      * match goal with |- HD ?a _ ?b => change (HD a (args_d (length (xds s)) (etrace (base s))) b) end.
        rewrite M2 by lia. apply Rules.
    + intros d0 Q. apply M2. lia.
    + eapply W; eauto. intros l y Q. now apply Rules, Rules.
  - rewrite upd_length. split; [|split; [|split]]; auto. exact (V cur n x (visit_d n) H0 H1 (fun l q => q)).
  - split; [|split; [|split]]; auto.
    + intros c0 x0 m0 Q Q2. rewrite (nth_upd _ _ _ _ _ _ H1) in Q.
      destruct (Nat.eqb_spec c c0) as [->|]; [|eapply M3; eauto]. injection Q as <-.
      rewrite H0 in Q2. injection Q2 as <-. cbn [app].
      refine (G_backc Rules _ _ _ _ _ _ _ _ H3). eapply M3; eauto.
    + intros c0 Q. apply K in H0. destruct (Nat.eqb_spec c c0); [lia|]. exact (M4 c0 Q).
  - split; [|split; [|split]]; auto.
    + intros d0 x0 m0 Q Q2. rewrite (nth_upd _ _ _ _ _ _ H1) in Q.
      destruct (Nat.eqb_spec d d0) as [->|]; [|eapply M1; eauto]. injection Q as <-.
      rewrite H0 in Q2. injection Q2 as <-. cbn [app].
      refine (G_backd Rules _ _ _ _ _ _ _ _ _ H3); [|eapply M1; eauto].
      pose proof (no_t _ _ _ _ _ _ _ _ No _ _ _ H H2) as (? & a & ? & _ & _ & _ & c & ? & ? & Hc & _).
      eapply edge_inner; eauto.
    + intros d0 Q. apply L in H0. destruct (Nat.eqb_spec d d0); [lia|]. exact (M2 d0 Q).
  - exact (conj M1 (conj M2 (conj M3 M4))).
  - exact (conj M1 (conj M2 (conj M3 M4))).
  - exact (conj M1 (conj M2 (conj M3 M4))).
  - exact (conj M1 (conj M2 (conj M3 M4))).
Qed.
Lemma ahist_reach : forall n g s, areach seqb aeqb C G n g s -> ahist s.
Proof using All.
  intros n g. apply (areach_ind' seqb aeqb seqb_ok aeqb_ok).
  - split; [|split; [|split]]; cbn.
    + intros [|[|d]] x m [= <-] [= <-]. apply Rules.
    + reflexivity.
    + intros [|c] x m; discriminate.
    + reflexivity.
  - intros s s' R _ _ M T. eapply ahist_step; eauto.
Qed.
End Hist.

