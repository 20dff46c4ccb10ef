(** Correctly rounded exponential and logarithm functions, as an instance of what is assumed about the C library. *)
From Coq Require Import List ZArith Bool Reals Lia Lra.
From Coq Require Import Floats.SpecFloat.
From Flocq Require Import Core BinarySingleNaN.
From Verif Require Import Base NumOps DoubleSpec DoubleProofs LseModel LseSpec LseReal LseProofs.
Import ListNotations.
Open Scope R_scope.

Local Existing Instances DoubleProofs.Hp DoubleProofs.Hm.
Local Instance Vx : Valid_exp (FLT_exp (-1074) 53). Proof. apply FLT_exp_valid. reflexivity. Qed.

(** The double nearest to a real number. *)
Definition encode (r : R) : F :=
  let x := near r in
  SpecFloat.binary_normalize Fprec Femax (Ztrunc (scaled_mantissa radix2 (FLT_exp (-1074) 53) x)) (cexp radix2 (FLT_exp (-1074) 53) x) false.

Lemma encode_ok : forall r, Rabs r <= large -> double (encode r) /\ dval (encode r) = near r.
Proof.
  intros r H. unfold encode. rewrite norm_eq. set (x := near r). set (m := Ztrunc _). set (e := cexp _ _ _).
  assert (E : F2R (Float radix2 m e) = x).
  { symmetry. unfold x, m, e. assert (G : generic_format radix2 (FLT_exp (-1074) 53) (near r)) by (apply generic_format_round; auto with typeclass_instances).
    exact G. }
  pose proof (binary_normalize_correct Fprec Femax _ _ mode_NE m e false) as P. cbv zeta in P. rewrite near_fexp, E in P.
  assert (Ex : near x = x) by apply near_orderly. rewrite Ex in P.
  rewrite Rlt_bool_true in P by (rewrite <- huge_bpow; now apply near_fits). destruct P as (P1 & P2 & _).
  destruct (B_double _ P2) as (Q1 & Q2). split; auto. now rewrite Q2, P1.
Qed.

Definition exp64 (x : F) : F := encode (exp (dval x)).
Definition log64 (x : F) : F := encode (ln (dval x)).

Lemma libm64 : libm exp64 log64 u64.
Proof.
  destruct u_eta as (U & _). pose proof eta_small as E. pose proof (round_err _ _ _ near_rounding) as Er. constructor; [lra| |].
  - intros x D Ng. assert (B : 0 < exp (dval x) <= 1) by (split; [apply exp_pos|rewrite <- exp_0; now apply exp_le]).
    destruct (encode_ok (exp (dval x))) as (D1 & V1). { rewrite Rabs_pos_eq by lra. pose proof large_pos. lra. }
    split; [exact D1|]. unfold exp64. rewrite V1. split; [rewrite <- near_z; apply near_orderly; lra|].
    eapply Rle_trans; [apply Er|]. rewrite Rabs_pos_eq by lra. lra.
  - intros x D B.
    assert (L : Rabs (ln (dval x)) <= powerRZ 2 40).
    { pose proof (ln_lin (dval x) ltac:(lra)) as Up. assert (Lo : - 3 <= ln (dval x)).
      { pose proof (ln_lin (/ dval x) ltac:(apply Rinv_0_lt_compat; lra)) as K. rewrite ln_Rinv in K by lra.
        assert (/ dval x <= 4); [|lra]. rewrite <- (Rinv_inv 4). apply Rinv_le_contravar; lra. }
      assert (3 <= powerRZ 2 40).
      { apply Rle_trans with (powerRZ 2 2); [change (powerRZ 2 2) with (2 ^ 2); cbn [pow]; lra|apply pow_mono; lia]. }
      apply Rabs_le. lra. }
    destruct (encode_ok (ln (dval x))) as (D1 & V1). { eapply Rle_trans; [exact L|]. apply pow_mono. lia. }
    split; [exact D1|]. unfold log64. rewrite V1. eapply Rle_trans; [apply Er|].
    assert (eta64 <= u64). { destruct u_eta as (_ & (E1 & E2) & E3). apply Rle_trans with (1 := E2). rewrite <- (Rmult_1_r u64) at 2. apply Rmult_le_compat_l; lra. }
    lra.
Qed.
