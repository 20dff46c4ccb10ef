(** Members of nodes in searches as functions of the history of visits and backups. *)
From Coq Require Import List ZArith Bool Reals Lia Lra.
From Verif Require Import Base BaseProofs NumOps HelperModel EngineModel EngineSpec EngineProofs EngineInv EngineCount MapModel MapProofs
  AlgoModel AlgoProofs AlgoNodes UctSpec ArgsHist.
Import ListNotations.
Open Scope nat_scope.

Section Hist.
Context {S A : Type}.
Variable seqb : S -> S -> bool.
Variable aeqb : A -> A -> bool.
Hypothesis seqb_ok : decides seqb.
Hypothesis aeqb_ok : decides aeqb.
Variable C : @econf S A.
Variable G : @algo S A.
Notation dnode := (@dnode S A).
Notation cnode := (@cnode S A).

(** Relations between a node, the returns of its backups (newest first) and its members. *)
Variable HD : dnode -> list R -> XD G -> Prop.
Variable HC : cnode -> list R -> XC G -> Prop.

Record hist_rules : Prop := mkHist {
  H_newd : forall o k t, HD (new_dnode C o k t) [] (new_xd G (new_dnode C o k t));
  H_newc : forall o a k t, HC (new_cnode o a k t) [] (new_xc G (new_cnode o a k t));
  H_visd : forall n l x, HD n l x -> HD (visit_d n) l (vis_d G (is_leaf C n) x);
  H_addd : forall n l x a c, HD n l x -> HD (add_dkid n a c) l x;
  H_visc : forall n l x, HC n l x -> HC (visit_c n) l x;
  H_addc : forall n l x o d, HC n l x -> HC (add_ckid n o d) l x;
  H_backd : forall n l x kids cx b x1, inner C n -> HD n l x -> back_d G n x kids cx b = Ok x1 -> HD n (b_tafter b :: l) x1;
  H_backc : forall n l x kids cx b x1, HC n l x -> back_c G n x kids cx b = Ok x1 -> HC n (b_tafter b :: l) x1
}.
Hypothesis Rules : hist_rules.

Definition hist (s : ast G) : Prop :=
  (forall d x n, nth_error (xds s) d = Some x -> nth_error (dh (mem (base s))) d = Some n ->
     HD n (returns_d d (etrace (base s))) x) /\
  (forall d, length (dh (mem (base s))) <= d -> returns_d d (etrace (base s)) = []) /\
  (forall c x n, nth_error (xcs s) c = Some x -> nth_error (ch (mem (base s))) c = Some n ->
     HC n (returns_c c (etrace (base s))) x) /\
  (forall c, length (ch (mem (base s))) <= c -> returns_c c (etrace (base s)) = []).

Lemma args_returns_d : forall d (tr : list (nat * @event S A)), map b_tafter (args_d d tr) = returns_d d tr.
Proof using Type.
  intros d tr. induction tr as [|[t e] tr IH]; [reflexivity|]. cbn [args_d returns_d flat_map snd].
  rewrite map_app. fold (args_d d tr) (returns_d d tr). rewrite IH. destruct e; auto. destruct (Nat.eqb d0 d); auto.
Qed.
Lemma args_returns_c : forall c (tr : list (nat * @event S A)), map b_tafter (args_c c tr) = returns_c c tr.
Proof using Type.
  intros d tr. induction tr as [|[t e] tr IH]; [reflexivity|]. cbn [args_c returns_c flat_map snd].
  rewrite map_app. fold (args_c d tr) (returns_c d tr). rewrite IH. destruct e; auto. destruct (Nat.eqb c d); auto.
Qed.

Lemma hist_reach : forall n g s, areach seqb aeqb C G n g s -> hist s.
Proof using All.
  intros n g s R.
  assert (Q : arg_rules C G (fun n l x => HD n (map b_tafter l) x) (fun n l x => HC n (map b_tafter l) x)).
  { destruct Rules. constructor; cbn [map]; eauto. }
  destruct (ahist_reach seqb aeqb seqb_ok aeqb_ok C G _ _ Q n g s R) as (H1 & H2 & H3 & H4).
  split; [|split; [|split]]; intros; try rewrite <- args_returns_d; try rewrite <- args_returns_c; auto.
  - now rewrite H2.
  - now rewrite H4.
Qed.
End Hist.

(** Numbers of backups. *)
Section Returns.
Context {S A : Type}.
Open Scope Z_scope.
Lemma returns_count_d : forall d (tr : list (nat * @event S A)), Z.of_nat (length (returns_d d tr)) = count (backs_d d) tr.
Proof.
  intros d tr. induction tr as [|[t e] tr IH]; [reflexivity|]. rewrite count_cons, <- IH. cbn [returns_d flat_map snd].
  rewrite app_length. fold (returns_d d tr). destruct e; cbn [backs_d length b2z]; auto. destruct (Nat.eqb d0 d); cbn; lia.
Qed.
Lemma returns_count_c : forall c (tr : list (nat * @event S A)), Z.of_nat (length (returns_c c tr)) = count (backs_c c) tr.
Proof.
  intros d tr. induction tr as [|[t e] tr IH]; [reflexivity|]. rewrite count_cons, <- IH. cbn [returns_c flat_map snd].
  rewrite app_length. fold (returns_c d tr). destruct e; cbn [backs_c length b2z]; auto. destruct (Nat.eqb c d); cbn; lia.
Qed.
End Returns.
