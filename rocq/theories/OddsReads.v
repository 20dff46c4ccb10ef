(** How many random numbers selections read *)
From Coq Require Import List ZArith Bool Reals Lia Lra.
From Verif Require Import Base BaseProofs NumOps HelperModel EngineModel AlgoModel UctModel UctSpec OddsSpec OddsCover OddsStep.
Import ListNotations.
Open Scope R_scope.

Lemma reads_get_rand_int : forall a b, reads 0 (@get_rand_int R a b).
Proof.
  intros a b g x g1 E. unfold get_rand_int in E. destruct (_ =? 0)%Z eqn:Ed; [discriminate|]. injection E as <- <-. cbn. split; [auto|]. split; [auto|]. split; [lia|].
  intros f _. unfold get_rand_int. rewrite Ed. reflexivity.
Qed.
Lemma reads_fail : forall T j (o : outcome (T * rng R)), (forall x, o <> Ok x) -> reads j (fun _ => o).
Proof. intros T j o H g x g1 E. exfalso. eapply H; eauto. Qed.
Lemma reads_ret : forall T (x : T), reads 0 (fun g => Ok (x, g)).
Proof. intros T x g y g1 [= <- <-]. repeat split; auto. Qed.
Lemma reads_bind : forall T V j k (F : rng R -> outcome (T * rng R)) (H : T -> rng R -> outcome (V * rng R)),
  reads j F -> (forall x, reads k (H x)) -> reads (j + k) (fun g => bind (F g) (fun '(x, g1) => H x g1)).
Proof.
  intros T V j k F H HF HH g x g1 E. destruct (F g) as [[y g2]| |] eqn:E1; cbn [bind] in E; try discriminate.
  destruct (HF _ _ _ E1) as (A1 & A2 & A3 & A4). destruct (HH y _ _ _ E) as (B1 & B2 & B3 & B4).
  split; [congruence|]. split; [congruence|]. split; [lia|]. intros f Hf. rewrite A4 by (intros i Hi; apply Hf; lia). cbn [bind]. apply B4. intros i Hi. rewrite A1. apply Hf. lia.
Qed.
Lemma reads_val : forall T V (o : outcome T) (h : T -> V), reads 0 (fun g : rng R => bind o (fun x => Ok (h x, g))).
Proof. intros T V [x| |] h; cbn [bind]; [apply reads_ret|apply reads_fail; discriminate|apply reads_fail; discriminate]. Qed.
Lemma reads_pick : forall T (l : list T) (o : Z -> outcome T) b, reads 0 (fun g : rng R => bind (get_rand_int 0 b g) (fun '(i, g1) => bind (o i) (fun a => Ok (a, g1)))).
Proof. intros T l o b. apply (reads_bind _ _ 0 0); [apply reads_get_rand_int|]. intros x. exact (reads_val _ _ (o x) (fun a => a)). Qed.
Lemma reads_max : forall T V (ltb : V -> V -> bool) lo (m : list (T * V)), reads 0 (@get_max_key T V ltb lo R m).
Proof.
  intros T V ltb lo m. unfold get_max_key. destruct (best_keys_loop ltb m lo []) as [|k [|k' l]]; [|apply reads_ret|]; apply (reads_pick _ []).
Qed.
Lemma reads_uniform : reads 1 (fun g : rng R => Ok (get_rand_uniform g)).
Proof.
  intros g x g1 [= <- <-]. cbn. split; [auto|]. split; [auto|]. split; [lia|]. intros f Hf. unfold get_rand_uniform. cbn. rewrite Hf by lia. reflexivity.
Qed.
Lemma reads_ext : forall T j (F F' : rng R -> outcome (T * rng R)), (forall g, F g = F' g) -> reads j F -> reads j F'.
Proof. intros T j F F' E H g x g1 Q. rewrite <- E in Q. destruct (H _ _ _ Q) as (A & B & D & K). repeat (split; auto). intros f Hf. rewrite <- E. auto. Qed.

Section Uct.
Context {S A : Type}.
Variable aeqb : A -> A -> bool.
Variable C : @econf S A.
Variable U : @uconf S A.
Lemma reads_ucb : forall n kids, reads 0 (uct_select_ucb aeqb C U n kids).
Proof.
  intros n kids. unfold uct_select_ucb. assert (Q : reads 0 (uct_argmax aeqb C U n kids)).
  { unfold uct_argmax. destruct (uct_fill _ _ _ _ _ _ _); cbn [bind]; [apply reads_max|apply reads_fail; discriminate|apply reads_fail; discriminate]. }
  destruct (uprior U); auto. destruct (untried _ _ _); auto. apply (reads_pick _ []).
Qed.
Lemma reads_uct : forall n x kids cx, exists j, (j <= 1)%nat /\ reads j (select (uct aeqb C U) n x kids cx).
Proof.
  intros n x kids cx. cbn [select uct]. assert (Q : forall j, reads j (uct_select aeqb C U n kids) -> reads (j + 0) (fun g => bind (uct_select aeqb C U n kids g) (fun '(a, g1) => Ok (a, cx, g1)))).
  { intros j H. apply (reads_bind _ _ j 0); auto. intros a. apply reads_ret. }
  unfold uct_select in *. destruct (Rltb 0 (ueps U)).
  - exists (1 + 0)%nat. split; [lia|]. apply Q. apply (reads_ext _ _ (fun g => bind (Ok (get_rand_uniform g)) (fun '(u, g1) => (if Rltb u (ueps U) then uct_random C n else uct_select_ucb aeqb C U n kids) g1))).
    + intros g. cbn. destruct (Rltb _ _); reflexivity.
    + apply (reads_bind _ _ 1 0); [apply reads_uniform|]. intros u. destruct (Rltb u (ueps U)); [apply (reads_pick _ [])|apply reads_ucb].
  - exists (0 + 0)%nat. split; [lia|]. apply Q, reads_ucb.
Qed.
End Uct.

Lemma nodup_flat : forall X Y (f : X -> list Y) l, NoDup l -> (forall x, In x l -> NoDup (f x)) -> (forall x x' y, In y (f x) -> In y (f x') -> x = x') -> NoDup (flat_map f l).
Proof.
  intros X Y f l Nd. induction Nd as [|x l Nx Nd IH]; intros H1 H2; cbn; [constructor|].
  assert (Q : forall y, In y (f x) -> ~ In y (flat_map f l)). { intros y Iy I. apply in_flat_map in I. destruct I as (x' & Ix & Iy'). rewrite (H2 _ _ _ Iy Iy') in Nx. auto. }
  assert (N1 : NoDup (f x)) by (apply H1; cbn; auto). assert (N2 : NoDup (flat_map f l)) by (apply IH; [intros; apply H1; cbn; auto|auto]).
  revert Q N1. induction (f x) as [|y r IHr]; intros Q N1; cbn; auto. inversion N1; subst. constructor.
  - intros I. apply in_app_or in I. destruct I; [auto|]. eapply Q; cbn; eauto.
  - apply IHr; auto. intros z Iz. apply Q. cbn; auto.
Qed.
Lemma all_words_nodup : forall N i, NoDup (all_words N i).
Proof.
  intros N. induction i as [|i IH]; cbn; [constructor; [auto|constructor]|]. apply nodup_flat; [apply seq_NoDup| |].
  - intros j _. apply FinFun.Injective_map_NoDup; auto. intros a b [= ->]. auto.
  - intros j j' w I I'. apply in_map_iff in I, I'. destruct I as (v & <- & _), I' as (v' & E & _). now injection E.
Qed.
Lemma all_words_word : forall N i w, In w (all_words N i) -> word N i w.
Proof.
  intros N. induction i as [|i IH]; cbn; intros w I.
  - destruct I as [<-|[]]. split; [auto|intros _ []].
  - apply in_flat_map in I. destruct I as (j & Ij & I). apply in_map_iff in I. destruct I as (v & <- & Iv). destruct (IH _ Iv) as (L & B). apply in_seq in Ij.
    split; cbn; [lia|]. intros k [<-|Ik]; [lia|auto].
Qed.
Lemma some_word : forall delta N T P, delta < 1 -> (0 < N)%nat -> all_but delta N T P -> exists u, word N T u /\ P u.
Proof.
  intros delta N T P Hd HN (bad & Hb & H). assert (Q : exists u, In u (all_words N T) /\ ~ In u bad).
  { destruct (Exists_dec (fun u => ~ In u bad) (all_words N T)) as [E|E].
    - intros u. destruct (in_dec (list_eq_dec Nat.eq_dec) u bad); [right; auto|left; auto].
    - apply Exists_exists in E. auto.
    - exfalso. assert (I : incl (all_words N T) bad).
      { intros u Iu. destruct (in_dec (list_eq_dec Nat.eq_dec) u bad); auto. exfalso. apply E, Exists_exists. eauto. }
      pose proof (NoDup_incl_length (all_words_nodup N T) I) as L. rewrite all_words_len in L. apply le_INR in L. rewrite pow_INR in L.
      assert (0 < INR N ^ T) by (apply pow_lt, lt_0_INR; lia). nra. }
  destruct Q as (u & Iu & Nu). exists u. split; [apply all_words_word; auto|]. apply H; auto. apply all_words_word; auto.
Qed.
