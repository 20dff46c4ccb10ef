(** Property theorems about contexts: C54. *)
From Coq Require Import List String Bool.
From Verif Require Import Base BaseProofs EngineModel MapModel MapProofs ContextModel.
Import ListNotations.
Open Scope string_scope.

(** Specification: what a history of calls (latest first) stored under a key: the value of the latest put for that key
    unless an erase of the key came later. *)
Fixpoint stored {P} (k : string) (h : list (cop P)) : option P :=
  match h with
  | [] => None
  | Put k' v :: r => if string_dec k' k then Some v else stored k r
  | Erase k' :: r => if string_dec k' k then None else stored k r
  | _ :: r => stored k r
  end.
Fixpoint stored_const {P} (k : string) (h : list (cop P)) : option P :=
  match h with
  | [] => None
  | PutConst k' v :: r => if string_dec k' k then Some v else stored_const k r
  | EraseConst k' :: r => if string_dec k' k then None else stored_const k r
  | _ :: r => stored_const k r
  end.
Definition found {P} (x : option P) : outcome P := match x with Some v => Ok v | None => Throw end.

Lemma s_ok : decides String.eqb.
Proof. intros x y. apply String.eqb_eq. Qed.
Lemma lookup_del : forall V (m : list (string * V)) k k',
  lookup String.eqb k' (mdel String.eqb m k) = if string_dec k k' then None else lookup String.eqb k' m.
Proof.
  induction m as [|[a v] m IH]; intros k k'; cbn.
  - now destruct (string_dec k k').
  - destruct (String.eqb_spec a k) as [->|N]; cbn [negb lookup]; fold (mdel String.eqb m k).
    + rewrite IH. destruct (string_dec k k') as [|N']; auto. destruct (String.eqb_spec k k'); congruence.
    + rewrite IH. destruct (String.eqb_spec a k') as [->|]; auto. destruct (string_dec k k'); congruence.
Qed.
Lemma lookup_put : forall V (m : list (string * V)) k v k',
  lookup String.eqb k' (mput String.eqb m k v) = if string_dec k k' then Some v else lookup String.eqb k' m.
Proof.
  intros V m k v k'. rewrite (lookup_mput String.eqb s_ok). destruct (string_dec k k') as [->|N].
  - now rewrite String.eqb_refl.
  - destruct (String.eqb_spec k k'); congruence.
Qed.

(** ** C54 *)
(** After any calls reading a key gives what was stored last, or throws if nothing is stored; the const and non-const
    stores do not influence each other. *)
Theorem C54_history : forall P (h : list (cop P)) k,
  let c := fold_left cdo h new_ctx in
  get_value_raw c k = found (stored k (rev h)) /\ get_value_raw_const c k = found (stored_const k (rev h)).
Proof.
  intros P h. induction h as [|o h IH] using rev_ind; intros k; [split; reflexivity|].
  rewrite fold_left_app, rev_app_distr. cbn [fold_left rev app]. specialize (IH k). cbn in IH. destruct IH as [I1 I2].
  unfold get_value_raw, get_value_raw_const, mat in *.
  destruct o as [k' v|k' v|k'|k']; cbn [cdo put_value_raw put_value_raw_const erase erase_const context context_const stored stored_const];
    rewrite ?lookup_put, ?lookup_del; try destruct (string_dec k' k); auto.
Qed.
(** The single laws. *)
Theorem C54_get_put : forall P (c : ctx P) k v k', k <> k' ->
  get_value_raw (put_value_raw c k v) k = Ok v /\
  get_value_raw (put_value_raw c k v) k' = get_value_raw c k' /\
  get_value_raw (erase c k) k = Throw /\
  get_value_raw (erase c k) k' = get_value_raw c k'.
Proof.
  intros P c k v k' N. unfold get_value_raw, mat, put_value_raw, erase. cbn [context]. rewrite !lookup_put, !lookup_del.
  destruct (string_dec k k); [|contradiction]. destruct (string_dec k k'); [contradiction|]. auto.
Qed.
Theorem C54_get_put_const : forall P (c : ctx P) k v k', k <> k' ->
  get_value_raw_const (put_value_raw_const c k v) k = Ok v /\
  get_value_raw_const (put_value_raw_const c k v) k' = get_value_raw_const c k' /\
  get_value_raw_const (erase_const c k) k = Throw /\
  get_value_raw_const (erase_const c k) k' = get_value_raw_const c k'.
Proof.
  intros P c k v k' N. unfold get_value_raw_const, mat, put_value_raw_const, erase_const. cbn [context_const]. rewrite !lookup_put, !lookup_del.
  destruct (string_dec k k); [|contradiction]. destruct (string_dec k k'); [contradiction|]. auto.
Qed.
Theorem C54_independent : forall P (c : ctx P) k v k',
  get_value_raw (put_value_raw_const c k v) k' = get_value_raw c k' /\
  get_value_raw (erase_const c k) k' = get_value_raw c k' /\
  get_value_raw_const (put_value_raw c k v) k' = get_value_raw_const c k' /\
  get_value_raw_const (erase c k) k' = get_value_raw_const c k'.
Proof. repeat split. Qed.
Example C54_witness : let c := fold_left cdo [Put "a" 1; Put "b" 2; PutConst "a" 3; Put "a" 4; Erase "b"] new_ctx in
  get_value_raw c "a" = Ok 4 /\ get_value_raw c "b" = Throw /\ get_value_raw_const c "a" = Ok 3.
Proof. repeat split. Qed.

Print Assumptions C54_history.
Print Assumptions C54_get_put.
Print Assumptions C54_get_put_const.
Print Assumptions C54_independent.
