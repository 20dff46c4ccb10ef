(** Proofs about the distributions. *)
From Coq Require Import List ZArith Lia Bool Reals Lra Permutation.
From Verif Require Import Base BaseProofs NumOps HelperModel HelperSpec RLemmas HelperProofs DistModel DistSpec.
Import ListNotations.

(** ** Termination and bounds, for any arithmetic *)
Section Generic.
Context {T N : Type}.
Variable O : numops N.
Notation entry := (@entry T N).

Lemma partition_bounds : forall (t : list entry) i0 L S L' S',
  partition_from O t i0 L S = (L', S') ->
  (length L' + length S' <= length L + length S + length t)%nat /\
  (forall i, In i (L' ++ S') -> In i (L ++ S) \/ (i0 <= i < i0 + length t)%nat).
Proof.
  induction t as [|e t IH]; intros i0 L S L' S' H; cbn [partition_from] in H.
  - injection H as <- <-. cbn [length]. split; [lia|auto].
  - destruct (nltb O (none_ O) (thr e)); [|destruct (nltb O (thr e) (none_ O))];
      apply IH in H; destruct H as [H1 H2]; cbn [length] in *; (split; [lia|]); intros i Q;
      apply H2 in Q; rewrite in_app_iff in *; cbn [In] in Q;
      repeat match type of Q with _ \/ _ => destruct Q as [Q|Q] end; subst; auto; right; lia.
Qed.

Lemma pair_loop_ok : forall fuel (t : list entry) L S,
  (forall i, In i (L ++ S) -> (i < length t)%nat) ->
  (length L + length S <= Datatypes.S fuel)%nat ->
  exists t' L' S', pair_loop O fuel t L S = Ok (t', L', S') /\ length t' = length t /\
    (forall i, In i (L' ++ S') -> (i < length t)%nat) /\ (L' = [] \/ S' = []).
Proof.
  induction fuel as [|fuel IH]; intros t L S B Hf.
  - destruct L as [|l L]; [exists t, [], S; destruct S; cbn; auto|].
    destruct S as [|s S]; [exists t, (l :: L), []; cbn; auto|]. cbn in Hf. lia.
  - destruct L as [|l L]; [exists t, [], S; destruct S; cbn; auto|].
    destruct S as [|s S]; [exists t, (l :: L), []; cbn; auto|].
    cbn [pair_loop].
    assert (Bs : (s < length t)%nat) by (apply B; rewrite in_app_iff; cbn; auto).
    assert (Bl : (l < length t)%nat) by (apply B; cbn; auto).
    destruct (nth_error t s) as [es|] eqn:Es; [|apply nth_error_None in Es; lia].
    destruct (nth_error t l) as [el|] eqn:El; [|apply nth_error_None in El; lia].
    set (t1 := upd t s (mkEntry (thr es) (first es) (first el))).
    assert (L1 : length t1 = length t) by apply upd_length.
    destruct (nth_error t1 l) as [el1|] eqn:El1; [|apply nth_error_None in El1; lia].
    set (v := nsub O (thr el1) (nsub O (none_ O) (thr es))).
    set (t2 := upd t1 l (mkEntry v (first el1) (second el1))).
    assert (L2 : length t2 = length t) by (unfold t2; now rewrite upd_length).
    cbn [length] in Hf.
    destruct (nltb O (none_ O) v); [|destruct (nltb O v (none_ O))].
    + destruct (IH t2 (l :: L) S) as (t' & L' & S' & E & Len & B' & D).
      * intros i Q. rewrite L2. apply B. rewrite in_app_iff in *. cbn [In] in *. tauto.
      * cbn [length]. lia.
      * exists t', L', S'. rewrite E. repeat split; auto; [congruence|]. now rewrite <- L2.
    + destruct (IH t2 L (l :: S)) as (t' & L' & S' & E & Len & B' & D).
      * intros i Q. rewrite L2. apply B. rewrite in_app_iff in *. cbn [In] in *. tauto.
      * cbn [length]. lia.
      * exists t', L', S'. rewrite E. repeat split; auto; [congruence|]. now rewrite <- L2.
    + destruct (IH t2 L S) as (t' & L' & S' & E & Len & B' & D).
      * intros i Q. rewrite L2. apply B. rewrite in_app_iff in *. cbn [In] in *. tauto.
      * lia.
      * exists t', L', S'. rewrite E. repeat split; auto; [congruence|]. now rewrite <- L2.
Qed.

Lemma set_ones_ok : forall is (t : list entry), (forall i, In i is -> (i < length t)%nat) ->
  exists t', set_ones O t is = Ok t' /\ length t' = length t.
Proof.
  induction is as [|i is IH]; intros t B; cbn [set_ones]; eauto.
  destruct (nth_error t i) as [e|] eqn:E.
  - destruct (IH (upd t i (mkEntry (none_ O) (first e) (second e)))) as (t' & E' & L').
    + intros j Q. rewrite upd_length. apply B. now right.
    + exists t'. rewrite upd_length in L'. auto.
  - apply nth_error_None in E. specialize (B i (or_introl eq_refl)). lia.
Qed.

Lemma build_ok : forall t : list entry, exists t', build O t = Ok t' /\ length t' = length t.
Proof.
  intros t. unfold build. destruct (partition_from O t 0 [] []) as [L S] eqn:P.
  apply partition_bounds in P. destruct P as [P1 P2]. cbn [length app In] in P1, P2.
  destruct (pair_loop_ok (length t) t L S) as (t1 & L1 & S1 & E & Len & B & D).
  - intros i Q. destruct (P2 i Q) as [[]|]. lia.
  - lia.
  - rewrite E. cbn [bind].
    destruct (set_ones_ok (rev L1) t1) as (t2 & E2 & Len2).
    { intros i Q. rewrite Len. apply B. apply in_or_app. left. now apply in_rev. }
    rewrite E2. cbn [bind].
    destruct (set_ones_ok (rev S1) t2) as (t3 & E3 & Len3).
    { intros i Q. rewrite Len2, Len. apply B. apply in_or_app. right. now apply in_rev. }
    exists t3. split; auto. congruence.
Qed.

Definition fresh_entries (m : list (T * N)) : list entry :=
  map (fun '(k, w) => mkEntry (ndiv O (nmul O w (nofZ O (Z.of_nat (length m)))) (sum_weights O m)) k k) m.

Lemma reset_from_spec : forall (m : list (T * N)) n s (pre old : list entry),
  (length m <= length old)%nat ->
  reset_from O m n s (length pre) (pre ++ old) =
  Ok (pre ++ map (fun '(k, w) => mkEntry (ndiv O (nmul O w (nofZ O n)) s) k k) m ++ skipn (length m) old).
Proof.
  induction m as [|[k w] m IH]; intros n s pre old H; cbn [reset_from map length skipn app]; auto.
  destruct old as [|o old]; cbn [length] in H; [lia|].
  rewrite app_length. cbn [length]. destruct (Nat.ltb_spec (length pre) (length pre + S (length old))); [|lia].
  set (e := mkEntry _ k k).
  assert (U : upd (pre ++ o :: old) (length pre) e = (pre ++ [e]) ++ old).
  { clear. induction pre as [|p pre IH]; cbn; auto. now rewrite IH. }
  rewrite U. replace (S (length pre)) with (length (pre ++ [e])) by (rewrite app_length; cbn; lia).
  rewrite IH by lia. now rewrite <- app_assoc.
Qed.

Lemma reset_from_short : forall (m : list (T * N)) n s i (t : list entry),
  (i + length m > length t)%nat -> m <> [] -> reset_from O m n s i t = UB.
Proof.
  induction m as [|[k w] m IH]; intros n s i t H NE; [congruence|]. cbn [reset_from].
  destruct (Nat.ltb_spec i (length t)); auto. destruct m as [|p m].
  - cbn in H. lia.
  - apply IH; [rewrite upd_length; cbn [length] in *; lia|discriminate].
Qed.

Lemma construct_fresh : forall m, construct O m [] = build O (fresh_entries m).
Proof. intros m. reflexivity. Qed.

Lemma reconstruct_same_size : forall (m : list (T * N)) (t : list entry), length t = length m ->
  reconstruct O m t = construct O m [].
Proof.
  intros m t H. unfold reconstruct. pose proof (reset_from_spec m (Z.of_nat (length m)) (sum_weights O m) [] t) as R.
  cbn [length app] in R. rewrite R by lia. cbn [bind].
  rewrite (skipn_all2 t) by lia. rewrite app_nil_r. reflexivity.
Qed.

Lemma reconstruct_shrunk : forall (m : list (T * N)) (t : list entry), (length m <= length t)%nat ->
  reconstruct O m t = build O (fresh_entries m ++ skipn (length m) t).
Proof.
  intros m t H. unfold reconstruct. pose proof (reset_from_spec m (Z.of_nat (length m)) (sum_weights O m) [] t) as R.
  cbn [length app] in R. rewrite R by lia. reflexivity.
Qed.

Lemma reconstruct_grown : forall (m : list (T * N)) (t : list entry), (length t < length m)%nat ->
  reconstruct O m t = UB.
Proof.
  intros m t H. unfold reconstruct. rewrite reset_from_short; [reflexivity|lia|].
  intros ->. cbn in H. lia.
Qed.

Lemma construct_ok : forall m : list (T * N), exists t, construct O m [] = Ok t /\ length t = length m.
Proof.
  intros m. rewrite construct_fresh. destruct (build_ok (fresh_entries m)) as (t & E & L).
  exists t. split; auto. rewrite L. unfold fresh_entries. now rewrite map_length.
Qed.
End Generic.

(** ** Finite sums *)
Open Scope R_scope.
Lemma sum_ext : forall n f g, (forall i, (i < n)%nat -> f i = g i) -> sum_upto n f = sum_upto n g.
Proof. induction n as [|n IH]; intros f g H; cbn; auto. rewrite (IH f g), (H n); auto. Qed.

Lemma sum_upd : forall n f g a, (a < n)%nat -> (forall i, i <> a -> f i = g i) ->
  sum_upto n f = sum_upto n g + (f a - g a).
Proof.
  induction n as [|n IH]; intros f g a H E; [lia|]. cbn. destruct (Nat.eq_dec a n) as [->|D].
  - rewrite (sum_ext n f g); [lra|]. intros i Q. apply E. lia.
  - rewrite (IH f g a), (E n) by (auto; lia). lra.
Qed.

Lemma sum_upd2 : forall n f g a b, (a < n)%nat -> (b < n)%nat -> a <> b ->
  (forall i, i <> a -> i <> b -> f i = g i) ->
  sum_upto n f = sum_upto n g + (f a - g a) + (f b - g b).
Proof.
  intros n f g a b Ha Hb D E.
  rewrite (sum_upd n f (fun i => if Nat.eqb i a then f a else g i) b); auto.
  - rewrite (sum_upd n (fun i => if Nat.eqb i a then f a else g i) g a); auto.
    + rewrite Nat.eqb_refl. destruct (Nat.eqb_spec b a); [congruence|]. lra.
    + intros i Q. destruct (Nat.eqb_spec i a); congruence.
  - intros i Q. destruct (Nat.eqb_spec i a); subst; auto.
Qed.

Lemma sum_nonneg_zero : forall n f, (forall i, (i < n)%nat -> 0 <= f i) -> sum_upto n f = 0 ->
  forall i, (i < n)%nat -> f i = 0.
Proof.
  assert (P : forall n f, (forall i, (i < n)%nat -> 0 <= f i) -> 0 <= sum_upto n f).
  { induction n as [|n IH]; intros f H; cbn; [lra|]. assert (0 <= f n) by (apply H; lia).
    assert (0 <= sum_upto n f) by (apply IH; intros; apply H; lia). lra. }
  induction n as [|n IH]; intros f H E i Q; [lia|]. cbn in E.
  assert (0 <= f n) by (apply H; lia).
  assert (0 <= sum_upto n f) by (apply P; intros; apply H; lia).
  destruct (Nat.eq_dec i n) as [->|D]; [lra|]. apply IH; [intros; apply H; lia|lra|lia].
Qed.

Lemma sum_opp : forall n f, sum_upto n (fun i => - f i) = - sum_upto n f.
Proof. induction n as [|n IH]; intros f; cbn; [lra|rewrite IH; lra]. Qed.

Lemma sum_shift : forall n f, sum_upto (S n) f = f 0%nat + sum_upto n (fun i => f (S i)).
Proof. induction n as [|n IH]; intros f; [cbn; lra|]. cbn [sum_upto] in *. rewrite IH. lra. Qed.

Lemma sum_list : forall A (F : A -> R) (l : list A),
  sum_upto (length l) (fun i => match nth_error l i with Some x => F x | None => 0 end) =
  fold_right (fun x acc => F x + acc) 0 l.
Proof.
  induction l as [|x l IH]; [reflexivity|]. cbn [length fold_right].
  rewrite sum_shift. cbn [nth_error]. now rewrite IH.
Qed.

Lemma sum_plus : forall n f g, sum_upto n (fun i => f i + g i) = sum_upto n f + sum_upto n g.
Proof. induction n as [|n IH]; intros f g; cbn; [lra|rewrite IH; lra]. Qed.

(** ** Exactness of the alias table *)
Section Exact.
Context {T : Type}.
Variable teqb : T -> T -> bool.
Hypothesis teqb_ok : decides teqb.
Notation entry := (@entry T R).

Definition ind (b : bool) (x : R) : R := if b then x else 0.

(** Mass of key [k] contributed by the entry at position [i]; [p] marks entries whose alias is not
    decided yet. *)
Definition con (t : list entry) (p : nat -> bool) (k : T) (i : nat) : R :=
  match nth_error t i with
  | Some e => ind (teqb (first e) k) (thr e) + ind (negb (p i) && teqb (second e) k) (1 - thr e)
  | None => 0
  end.
Definition exc (t : list entry) (p : nat -> bool) (i : nat) : R :=
  match nth_error t i with Some e => ind (p i) (thr e - 1) | None => 0 end.

Record tinv (t : list entry) (L S : list nat) (p : nat -> bool) (c : T -> R) : Prop := mkTinv {
  ti_nd : NoDup (L ++ S);
  ti_p : forall i, p i = true <-> In i (L ++ S);
  ti_L : forall i, In i L -> exists e, nth_error t i = Some e /\ 1 < thr e /\ second e = first e;
  ti_S : forall i, In i S -> exists e, nth_error t i = Some e /\ 0 <= thr e < 1 /\ second e = first e;
  ti_d : forall i e, p i = false -> nth_error t i = Some e ->
         0 <= thr e <= 1 /\ (thr e = 1 -> second e = first e);
  ti_bal : sum_upto (length t) (exc t p) = 0;
  ti_mass : forall k, sum_upto (length t) (con t p k) = c k
}.

Lemma tinv_step : forall t l L s S p c es el,
  tinv t (l :: L) (s :: S) p c -> nth_error t s = Some es -> nth_error t l = Some el ->
  let v := thr el - (1 - thr es) in
  let t2 := upd (upd t s (mkEntry (thr es) (first es) (first el))) l (mkEntry v (first el) (second el)) in
  (1 < v -> tinv t2 (l :: L) S (fun i => p i && negb (Nat.eqb i s)) c) /\
  (v < 1 -> tinv t2 L (l :: S) (fun i => p i && negb (Nat.eqb i s)) c) /\
  (v = 1 -> tinv t2 L S (fun i => p i && negb (Nat.eqb i s) && negb (Nat.eqb i l)) c).
Proof.
  intros t l L s S p c es el I Es El v t2.
  destruct I as [ND P HL HS HD BAL MASS].
  destruct (HL l (or_introl eq_refl)) as (el' & El' & Tl & Al). rewrite El in El'. injection El' as <-.
  destruct (HS s (or_introl eq_refl)) as (es' & Es' & Ts & As). rewrite Es in Es'. injection Es' as <-.
  assert (Dls : l <> s).
  { intros ->. cbn in ND. inversion ND as [|? ? X _]. apply X. apply in_or_app. right. now left. }
  assert (Bs : (s < length t)%nat) by (apply nth_error_Some; congruence).
  assert (Bl : (l < length t)%nat) by (apply nth_error_Some; congruence).
  assert (Pl : p l = true) by (apply P; now left).
  assert (Ps : p s = true) by (apply P; cbn; rewrite in_app_iff; cbn; auto).
  set (e2s := mkEntry (thr es) (first es) (first el)) in *.
  set (e2l := mkEntry v (first el) (second el)) in *.
  assert (Len : length t2 = length t) by (unfold t2; now rewrite !upd_length).
  assert (N1 : forall i, nth_error t2 i =
     if Nat.eqb i l then Some e2l else if Nat.eqb i s then Some e2s else nth_error t i).
  { intros i. unfold t2.
    assert (X : nth_error (upd t s e2s) l = Some el) by (rewrite nth_upd_ne by congruence; auto).
    rewrite (nth_upd _ _ _ _ _ _ X). rewrite (Nat.eqb_sym l i). destruct (Nat.eqb i l); auto.
    rewrite (nth_upd _ _ _ _ _ _ Es). rewrite (Nat.eqb_sym s i). now destruct (Nat.eqb i s). }
  assert (Hv : 0 < v) by (unfold v; lra).
  (* distinctness facts *)
  assert (ND' : NoDup (l :: L ++ S) /\ ~ In s (l :: L ++ S)).
  { change ((l :: L) ++ s :: S) with (l :: (L ++ s :: S)) in ND.
    inversion ND as [|? ? X Y]; subst. apply NoDup_remove in Y. destruct Y as [Y1 Y2].
    rewrite in_app_iff in X. cbn in X. split.
    - constructor; auto. rewrite in_app_iff. tauto.
    - cbn. tauto. }
  destruct ND' as [NDl Nin]. inversion NDl as [|? ? NinL NDLS]; subst.
  cbn [In] in Nin.
  assert (HL2 : forall i, In i L -> exists e, nth_error t2 i = Some e /\ 1 < thr e /\ second e = first e).
  { intros i Q. rewrite N1. destruct (Nat.eqb_spec i l).
    - subst. exfalso. apply NinL. apply in_or_app. auto.
    - destruct (Nat.eqb_spec i s).
      + subst. exfalso. apply Nin. right. apply in_or_app. auto.
      + apply HL. now right. }
  assert (HS2 : forall i, In i S -> exists e, nth_error t2 i = Some e /\ 0 <= thr e < 1 /\ second e = first e).
  { intros i Q. rewrite N1. destruct (Nat.eqb_spec i l).
    - subst. exfalso. apply NinL. apply in_or_app. auto.
    - destruct (Nat.eqb_spec i s).
      + subst. exfalso. apply Nin. right. apply in_or_app. auto.
      + apply HS. now right. }
  (* sums for a pending set that keeps l or drops it when v = 1 *)
  assert (SUM : forall q, q s = false -> (q l = true \/ v = 1) ->
    (forall i, i <> s -> i <> l -> q i = p i) ->
    sum_upto (length t2) (exc t2 q) = 0 /\ forall k, sum_upto (length t2) (con t2 q k) = c k).
  { intros q Qs Ql Qi. rewrite Len. split.
    - rewrite (sum_upd2 _ _ (exc t p) l s); auto.
      + rewrite BAL. unfold exc. rewrite !N1, Nat.eqb_refl, El, Es.
        destruct (Nat.eqb_spec s l); [congruence|]. rewrite Nat.eqb_refl, Pl, Ps, Qs. cbn [ind thr].
        unfold e2l, ind; cbn [thr]. unfold v in *. destruct Ql as [->|E]; [lra|]. destruct (q l); lra.
      + intros i H1 H2. unfold exc. rewrite N1. destruct (Nat.eqb_spec i l); [congruence|].
        destruct (Nat.eqb_spec i s); [congruence|]. now rewrite Qi.
    - intros k. rewrite (sum_upd2 _ _ (con t p k) l s); auto.
      + rewrite MASS. unfold con. rewrite !N1, Nat.eqb_refl, El, Es.
        destruct (Nat.eqb_spec s l); [congruence|]. rewrite Nat.eqb_refl, Pl, Ps, Qs.
        unfold e2l, e2s, ind; cbn [thr first second negb andb]. rewrite Al. unfold v in *.
        destruct Ql as [->|E]; cbn [negb andb]; destruct (teqb (first el) k), (teqb (first es) k);
          try lra; destruct (q l); cbn [negb andb]; lra.
      + intros i H1 H2. unfold con. rewrite N1. destruct (Nat.eqb_spec i l); [congruence|].
        destruct (Nat.eqb_spec i s); [congruence|]. now rewrite Qi. }
  assert (DONE : forall q, (forall i, i <> s -> i <> l -> q i = p i) -> (q l = true \/ v = 1) ->
    forall i e, q i = false -> nth_error t2 i = Some e -> 0 <= thr e <= 1 /\ (thr e = 1 -> second e = first e)).
  { intros q Qi Ql i e Hq. rewrite N1. destruct (Nat.eqb_spec i l).
    - subst i. destruct Ql as [Ql|Ql]; [congruence|]. intros [= <-]. unfold e2l; cbn [thr first second].
      split; [lra|auto].
    - destruct (Nat.eqb_spec i s).
      + intros [= <-]. unfold e2s; cbn [thr first second]. split; lra.
      + apply HD. rewrite <- Qi; auto. }
  assert (Pmem : forall i, p i = true <-> i = l \/ i = s \/ In i (L ++ S)).
  { intros i. rewrite P. change ((l :: L) ++ s :: S) with (l :: (L ++ s :: S)). cbn [In].
    rewrite !in_app_iff. cbn [In]. intuition congruence. }
  assert (Xl : exists e, nth_error t2 l = Some e /\ e = e2l).
  { exists e2l. rewrite N1, Nat.eqb_refl. auto. }
  destruct Xl as (xe & Xl & ->).
  split; [|split]; intros Hc.
  - destruct (SUM (fun i => p i && negb (Nat.eqb i s))) as [A B].
    + rewrite Nat.eqb_refl, andb_comm. reflexivity.
    + left. rewrite Pl. destruct (Nat.eqb_spec l s); [congruence|reflexivity].
    + intros i H1 H2. destruct (Nat.eqb_spec i s); [congruence|]. apply andb_true_r.
    + constructor; auto.
      * intros i. rewrite andb_true_iff, negb_true_iff, Nat.eqb_neq, Pmem. cbn [app In].
        split; [intuition congruence|]. intros Q. split; [intuition|]. intros ->. apply Nin. intuition.
      * intros i [<-|Q]; [|now apply HL2]. exists e2l. unfold e2l; cbn. auto.
      * intros i e Q. apply (DONE (fun i => p i && negb (Nat.eqb i s))); auto.
        -- intros j H1 H2. destruct (Nat.eqb_spec j s); [congruence|]. apply andb_true_r.
        -- left. rewrite Pl. destruct (Nat.eqb_spec l s); [congruence|reflexivity].
  - destruct (SUM (fun i => p i && negb (Nat.eqb i s))) as [A B].
    + rewrite Nat.eqb_refl, andb_comm. reflexivity.
    + left. rewrite Pl. destruct (Nat.eqb_spec l s); [congruence|reflexivity].
    + intros i H1 H2. destruct (Nat.eqb_spec i s); [congruence|]. apply andb_true_r.
    + constructor; auto.
      * apply NoDup_Add with (a := l) (l := L ++ S); [apply Add_app|]. split; auto.
      * intros i. rewrite andb_true_iff, negb_true_iff, Nat.eqb_neq, Pmem. rewrite !in_app_iff. cbn [In].
        rewrite in_app_iff in Nin.
        split; [intuition congruence|]. intros Q. split; [intuition|]. intros ->. apply Nin. intuition.
      * intros i [<-|Q]; [|now apply HS2]. exists e2l. unfold e2l; cbn. repeat split; auto; lra.
      * intros i e Q. apply (DONE (fun i => p i && negb (Nat.eqb i s))); auto.
        -- intros j H1 H2. destruct (Nat.eqb_spec j s); [congruence|]. apply andb_true_r.
        -- left. rewrite Pl. destruct (Nat.eqb_spec l s); [congruence|reflexivity].
  - destruct (SUM (fun i => p i && negb (Nat.eqb i s) && negb (Nat.eqb i l))) as [A B].
    + rewrite Nat.eqb_refl, andb_false_r. reflexivity.
    + right. auto.
    + intros i H1 H2. destruct (Nat.eqb_spec i s); [congruence|]. destruct (Nat.eqb_spec i l); [congruence|].
      cbn. now rewrite !andb_true_r.
    + constructor; auto.
      * intros i. rewrite !andb_true_iff, !negb_true_iff, !Nat.eqb_neq, Pmem.
        split; [intuition congruence|]. intros Q. repeat split; auto; intros ->; [apply Nin; auto|auto].
      * intros i e Q. apply (DONE (fun i => p i && negb (Nat.eqb i s) && negb (Nat.eqb i l))); auto.
        intros j H1 H2. destruct (Nat.eqb_spec j s); [congruence|]. destruct (Nat.eqb_spec j l); [congruence|].
        cbn. now rewrite !andb_true_r.
Qed.

Lemma pair_loop_inv : forall fuel t L S p c t' L' S',
  tinv t L S p c -> pair_loop R_ops fuel t L S = Ok (t', L', S') ->
  exists p', tinv t' L' S' p' c /\ (L' = [] \/ S' = []).
Proof.
  induction fuel as [|fuel IH]; intros t L S p c t' L' S' I H.
  - destruct L as [|l L]; [destruct S; injection H as <- <- <-; eauto|].
    destruct S as [|s S]; [injection H as <- <- <-; eauto|]. discriminate.
  - destruct L as [|l L]; [destruct S; injection H as <- <- <-; eauto|].
    destruct S as [|s S]; [injection H as <- <- <-; eauto|].
    cbn [pair_loop] in H.
    destruct (nth_error t s) as [es|] eqn:Es; [|discriminate].
    destruct (nth_error t l) as [el|] eqn:El; [|discriminate].
    pose proof (tinv_step _ _ _ _ _ _ _ _ _ I Es El) as St. cbv zeta in St.
    assert (Dsl : s <> l).
    { intros ->. pose proof (ti_nd _ _ _ _ _ I) as ND. cbn in ND. inversion ND as [|? ? X _].
      apply X. apply in_or_app. right. now left. }
    rewrite nth_upd_ne, El in H by auto.
    change (nsub R_ops (thr el) (nsub R_ops (none_ R_ops) (thr es))) with (thr el - (1 - thr es)) in H.
    change (none_ R_ops) with 1 in H. change (nltb R_ops) with Rltb in H.
    set (v := thr el - (1 - thr es)) in *. destruct St as (S1 & S2 & S3).
    destruct (Rltb 1 v) eqn:E1; [apply Rltb_true in E1; exact (IH _ _ _ _ _ _ _ _ (S1 E1) H)|].
    destruct (Rltb v 1) eqn:E2; [apply Rltb_true in E2; exact (IH _ _ _ _ _ _ _ _ (S2 E2) H)|].
    apply Rltb_false in E1, E2. refine (IH _ _ _ _ _ _ _ _ (S3 _) H). lra.
Qed.

Lemma tinv_end : forall t L S p c, tinv t L S p c -> L = [] \/ S = [] -> L = [] /\ S = [].
Proof.
  intros t L S p c I D. destruct I as [ND P HL HS HD BAL MASS].
  assert (Z : forall i e, In i (L ++ S) -> nth_error t i = Some e -> thr e = 1).
  { intros i e Q E. assert (B : (i < length t)%nat) by (apply nth_error_Some; congruence).
    assert (X : exc t p i = 0).
    { destruct D as [->| ->].
      - pose proof (sum_nonneg_zero (length t) (fun j => - exc t p j)) as Y. rewrite sum_opp, BAL in Y.
        assert (- exc t p i = 0); [|lra]. apply Y; auto; [|lra].
        intros j _. unfold exc. destruct (nth_error t j) as [e'|] eqn:E'; [|lra].
        destruct (p j) eqn:Pj; cbn [ind]; [|lra]. apply P in Pj. cbn in Pj.
        destruct (HS j Pj) as (e2 & E2 & ? & ?). rewrite E' in E2. injection E2 as <-. lra.
      - apply (sum_nonneg_zero (length t) (exc t p)); auto.
        intros j _. unfold exc. destruct (nth_error t j) as [e'|] eqn:E'; [|lra].
        destruct (p j) eqn:Pj; cbn [ind]; [|lra]. apply P in Pj. rewrite app_nil_r in Pj.
        destruct (HL j Pj) as (e2 & E2 & ? & ?). rewrite E' in E2. injection E2 as <-. lra. }
    unfold exc in X. rewrite E in X. apply P in Q. rewrite Q in X. cbn in X. lra. }
  split.
  - destruct L as [|l L]; auto. destruct (HL l (or_introl eq_refl)) as (e & E & ? & _).
    assert (thr e = 1) by (apply (Z l); auto; now left). lra.
  - destruct S as [|s S]; auto. destruct (HS s (or_introl eq_refl)) as (e & E & ? & _).
    assert (thr e = 1) by (apply (Z s); auto; apply in_or_app; right; now left). lra.
Qed.

(** A finished table. *)
Definition finished (t : list entry) (c : T -> R) : Prop :=
  (forall i e, nth_error t i = Some e -> 0 <= thr e <= 1 /\ (thr e = 1 -> second e = first e)) /\
  forall k, sum_upto (length t) (con t (fun _ => false) k) = c k.

Lemma partition_spec : forall (t : list entry) i0 L S L' S',
  partition_from R_ops t i0 L S = (L', S') ->
  NoDup (L ++ S) -> (forall i, In i (L ++ S) -> (i < i0)%nat) ->
  NoDup (L' ++ S') /\
  (forall i, In i L' <-> In i L \/ exists j e, i = (i0 + j)%nat /\ nth_error t j = Some e /\ 1 < thr e) /\
  (forall i, In i S' <-> In i S \/ exists j e, i = (i0 + j)%nat /\ nth_error t j = Some e /\ thr e < 1).
Proof.
  induction t as [|e t IH]; intros i0 L S L' S' H ND B; cbn [partition_from] in H.
  - injection H as <- <-. split; auto. split; intros i; split; auto; intros [Q|(j & e & _ & Q & _)]; auto;
      destruct j; discriminate.
  - change (none_ R_ops) with 1 in H. change (nltb R_ops) with Rltb in H.
    assert (Sh : forall (P : entry -> Prop) i,
       (exists j e0, i = (i0 + j)%nat /\ nth_error (e :: t) j = Some e0 /\ P e0) <->
       (i = i0 /\ P e) \/ (exists j e0, i = (Datatypes.S i0 + j)%nat /\ nth_error t j = Some e0 /\ P e0)).
    { intros P i. split.
      - intros (j & e0 & -> & Q & R). destruct j as [|j]; cbn in Q.
        + injection Q as ->. left. split; auto.
        + right. exists j, e0. repeat split; auto. lia.
      - intros [[-> Q]|(j & e0 & -> & Q & R)].
        + exists 0%nat, e. repeat split; auto.
        + exists (Datatypes.S j), e0. repeat split; auto. lia. }
    assert (Fr : ~ In i0 (L ++ S)) by (intros Q; apply B in Q; lia).
    destruct (Rltb 1 (thr e)) eqn:E1; [|destruct (Rltb (thr e) 1) eqn:E2].
    + apply Rltb_true in E1. apply IH in H.
      * destruct H as (A & A1 & A2). split; auto. split; intros i; [rewrite A1|rewrite A2]; rewrite Sh; cbn [In];
          intuition (try congruence; try lra).
      * cbn. constructor; auto.
      * cbn. intros i [<-|Q]; [lia|]. apply B in Q. lia.
    + apply Rltb_false in E1. apply Rltb_true in E2. apply IH in H.
      * destruct H as (A & A1 & A2). split; auto. split; intros i; [rewrite A1|rewrite A2]; rewrite Sh; cbn [In];
          intuition (try congruence; try lra).
      * apply NoDup_Add with (a := i0) (l := L ++ S); [apply Add_app|]. split; auto.
      * intros i Q. rewrite in_app_iff in Q. cbn in Q.
        destruct Q as [Q|[<-|Q]]; [|lia|]; assert (i < i0)%nat by (apply B; apply in_or_app; auto); lia.
    + apply Rltb_false in E1, E2. apply IH in H; auto.
      * destruct H as (A & A1 & A2). split; auto. split; intros i; [rewrite A1|rewrite A2]; rewrite Sh;
          intuition (try congruence; try lra).
      * intros i Q. apply B in Q. lia.
Qed.

Lemma build_exact : forall t c,
  (forall i e, nth_error t i = Some e -> 0 <= thr e /\ second e = first e) ->
  sum_upto (length t) (fun i => match nth_error t i with Some e => thr e - 1 | None => 0 end) = 0 ->
  (forall k, sum_upto (length t)
     (fun i => match nth_error t i with Some e => ind (teqb (first e) k) (thr e) | None => 0 end) = c k) ->
  exists t', build R_ops t = Ok t' /\ length t' = length t /\ finished t' c.
Proof.
  intros t c Hnn Hbal Hmass. destruct (build_ok R_ops t) as (t' & E & Len). exists t'. split; auto. split; auto.
  unfold build in E. destruct (partition_from R_ops t 0 [] []) as [L S] eqn:P.
  apply partition_spec in P; [|constructor|intros i []].
  destruct P as (ND & HL & HS). cbn [In] in HL, HS.
  assert (HL' : forall i, In i L <-> exists e, nth_error t i = Some e /\ 1 < thr e).
  { intros i. rewrite HL. split.
    - intros [[]|(j & e & -> & Q & X)]. cbn. eauto.
    - intros (e & Q & X). right. exists i, e. auto. }
  assert (HS' : forall i, In i S <-> exists e, nth_error t i = Some e /\ thr e < 1).
  { intros i. rewrite HS. split.
    - intros [[]|(j & e & -> & Q & X)]. cbn. eauto.
    - intros (e & Q & X). right. exists i, e. auto. }
  clear HL HS.
  set (p := fun i => match nth_error t i with Some e => Rltb 1 (thr e) || Rltb (thr e) 1 | None => false end).
  assert (Pf : forall i e, nth_error t i = Some e -> p i = false -> thr e = 1).
  { intros i e Q. unfold p. rewrite Q, orb_false_iff, !Rltb_false. lra. }
  assert (I : tinv t L S p c).
  { constructor; auto.
    - intros i. unfold p. rewrite in_app_iff, HL', HS'. destruct (nth_error t i) as [e|] eqn:Q.
      + rewrite orb_true_iff, !Rltb_true. split.
        * intros [X|X]; [left|right]; eauto.
        * intros [(e' & [= <-] & X)|(e' & [= <-] & X)]; auto.
      + split; [discriminate|]. intros [(e' & X & _)|(e' & X & _)]; discriminate.
    - intros i Q. apply HL' in Q. destruct Q as (e & Q & X). exists e. destruct (Hnn i e Q). auto.
    - intros i Q. apply HS' in Q. destruct Q as (e & Q & X). exists e. destruct (Hnn i e Q). auto.
    - intros i e Pi Q. rewrite (Pf i e Q Pi). destruct (Hnn i e Q). split; [lra|auto].
    - rewrite <- Hbal. apply sum_ext. intros i _. unfold exc.
      destruct (nth_error t i) as [e|] eqn:Q; auto. destruct (p i) eqn:Pi; cbn [ind]; auto.
      rewrite (Pf i e Q Pi). lra.
    - intros k. rewrite <- Hmass. apply sum_ext. intros i _. unfold con.
      destruct (nth_error t i) as [e|] eqn:Q; auto. destruct (p i) eqn:Pi; cbn [negb andb].
      + cbn [ind]. lra.
      + rewrite (Pf i e Q Pi). unfold ind. destruct (teqb (second e) k); lra. }
  destruct (pair_loop R_ops (length t) t L S) as [[[t1 L1] S1]| |] eqn:PL; try discriminate.
  destruct (pair_loop_inv _ _ _ _ _ _ _ _ _ I PL) as (p' & I' & D).
  destruct (tinv_end _ _ _ _ _ I' D) as [-> ->].
  cbn in E. injection E as <-. destruct I' as [_ P' _ _ HD _ MASS].
  assert (Pz : forall i, p' i = false).
  { intros i. destruct (p' i) eqn:Q; auto. apply P' in Q. destruct Q. }
  split.
  - intros i e Q. eapply HD; eauto.
  - intros k. rewrite <- MASS. apply sum_ext. intros i _. unfold con. now rewrite Pz.
Qed.

Lemma fresh_fold : forall (m : list (T * R)) (F : T -> R -> R) (n s : R),
  fold_right (fun e acc => F (first e) (thr e) + acc) 0
    (map (fun '(k, w) => mkEntry (w * n / s) k k) m) =
  fold_right (fun p acc => F (fst p) (snd p * n / s) + acc) 0 m.
Proof. induction m as [|[k w] m IH]; intros F n s; cbn; auto. now rewrite IH. Qed.

Lemma weighs_sum : forall (m : list (T * R)) k (f : R -> R), NoDup (map fst m) -> f 0 = 0 ->
  forall w, weighs m k w -> fold_right (fun p acc => ind (teqb (fst p) k) (f (snd p)) + acc) 0 m = f w.
Proof.
  intros m k f. induction m as [|[k0 w0] m IH]; intros ND F0 w W.
  - destruct W as [[]|[_ ->]]. now rewrite F0.
  - cbn [map fst] in ND. inversion ND as [|? ? X Y]; subst. cbn [fold_right fst snd].
    destruct (teqb k0 k) eqn:E; cbn [ind].
    + apply teqb_ok in E. subst k0.
      assert (w0 = w) as ->.
      { destruct W as [[[= ->]|Q]|[Q _]]; auto; exfalso.
        - apply X. now apply (in_map fst) in Q.
        - apply Q. now left. }
      rewrite (IH Y F0 0); [rewrite F0; lra|]. right; auto.
    + rewrite (IH Y F0 w); [lra|]. destruct W as [[[= -> ->]|Q]|[Q ->]].
      * assert (teqb k k = true) by now apply teqb_ok. congruence.
      * now left.
      * right. split; auto. intros Z. apply Q. now right.
Qed.

Lemma fold_total : forall (m : list (T * R)) (c d : R),
  fold_right (fun p acc => snd p * c - d + acc) 0 m = total m * c - INR (length m) * d.
Proof.
  induction m as [|[k w] m IH]; intros c d; cbn [fold_right total snd]; [cbn; lra|].
  rewrite IH. change (length ((k, w) :: m)) with (S (length m)). rewrite S_INR. lra.
Qed.

Lemma construct_exact : forall m : list (T * R), proper m ->
  exists t, construct R_ops m [] = Ok t /\ length t = length m /\
    (forall i e, nth_error t i = Some e -> 0 <= thr e <= 1 /\ (thr e = 1 -> second e = first e)) /\
    forall k w, weighs m k w ->
      sum_upto (length m) (con t (fun _ => false) k) = w * INR (length m) / total m.
Proof.
  intros m (ND & NN & Pos). set (n := INR (length m)). set (s := total m) in *.
  assert (FE : fresh_entries R_ops m = map (fun '(k, w) => mkEntry (w * n / s) k k) m).
  { unfold fresh_entries. rewrite sum_weights_total. unfold n, s. rewrite INR_IZR_INZ. reflexivity. }
  rewrite construct_fresh, FE. set (t0 := map _ m).
  assert (L0 : length t0 = length m) by apply map_length.
  assert (Hn : 0 <= n) by apply pos_INR.
  destruct (build_exact t0 (fun k => fold_right (fun p acc => ind (teqb (fst p) k) (snd p * n / s) + acc) 0 m))
    as (t & E & Len & F1 & F2).
  - intros i e Q. unfold t0 in Q. rewrite nth_error_map' in Q.
    destruct (nth_error m i) as [[k w]|] eqn:Q'; [|discriminate]. injection Q as <-. cbn. split; auto.
    assert (0 <= w) by (apply (NN k); eapply nth_error_In; eauto).
    apply Rmult_le_pos; [now apply Rmult_le_pos|]. left. now apply Rinv_0_lt_compat.
  - rewrite (sum_list _ (fun e => thr e - 1)).
    unfold t0. rewrite (fresh_fold m (fun _ x => x - 1) n s).
    assert (G : forall l : list (T * R), fold_right (fun p acc => snd p * n / s - 1 + acc) 0 l =
                fold_right (fun p acc => snd p * (n / s) - 1 + acc) 0 l).
    { induction l as [|p l IH]; cbn; auto. rewrite IH. lra. }
    rewrite G, fold_total. fold s n. field. lra.
  - intros k. rewrite (sum_list _ (fun e => ind (teqb (first e) k) (thr e))).
    unfold t0. now rewrite (fresh_fold m (fun x y => ind (teqb x k) y) n s).
  - exists t. split; auto. split; [congruence|]. split; auto.
    intros k w W. rewrite <- L0, <- Len, F2.
    apply (weighs_sum m k (fun x => x * n / s)); auto. lra.
Qed.

(** From a finished table to exact sampling. *)
Lemma finished_sampler : forall (m : list (T * R)) (t : list entry) ua f nu,
  ua = true -> (0 < length m)%nat -> length t = length m -> 0 < total m ->
  (forall i e, nth_error t i = Some e -> 0 <= thr e <= 1 /\ (thr e = 1 -> second e = first e)) ->
  (forall k w, weighs m k w -> sum_upto (length m) (con t (fun _ => false) k) = w * INR (length m) / total m) ->
  forall m', length m' = length m ->
  exact_sampler (cat_sample R_ops (mkCat m' ua f nu t)) m.
Proof.
  intros m t ua f nu -> Hn Len Pos Fin Mass m' Lm'.
  assert (Hn' : 0 < INR (length m)) by (apply lt_0_INR; auto).
  set (n := Z.of_nat (length m)). assert (Hz : (0 < n)%Z) by (unfold n; lia).
  assert (Draw : forall g : rng R, good_ints g ->
    exists i e, i = Z.to_nat (gi g (ni g) mod n) /\ (i < length m)%nat /\ nth_error t i = Some e /\
      cat_sample R_ops (mkCat m' true f nu t) g =
      (let g1 := mkRng (gi g) (gr g) (S (ni g)) (nr g) in
       if Rltb (thr e) 1 then
         if Rltb (gr g (nr g)) (thr e) then Ok (first e, snd (get_rand_uniform g1))
         else Ok (second e, snd (get_rand_uniform g1))
       else Ok (second e, g1))).
  { intros g Hg. specialize (Hg (ni g)).
    pose proof (Z.mod_pos_bound (gi g (ni g)) n Hz) as B.
    set (z := (gi g (ni g) mod n)%Z) in *.
    assert (Bi : (Z.to_nat z < length m)%nat) by (unfold n in B; lia).
    destruct (nth_error t (Z.to_nat z)) as [e|] eqn:E; [|apply nth_error_None in E; lia].
    exists (Z.to_nat z), e. repeat split; auto. unfold cat_sample. cbn [use_alias negb distr table].
    rewrite Lm'. fold n. unfold get_rand_int. rewrite Z.sub_0_r. destruct (Z.eqb_spec n 0); [lia|].
    cbn [bind]. rewrite Z.add_0_l, Z.rem_mod_nonneg by lia. fold z. unfold vec_at.
    destruct (Z.ltb_spec z 0); [lia|]. rewrite E. reflexivity. }
  split.
  { intros g Hg. destruct (Draw g Hg) as (i & e & _ & _ & _ & ->). cbv zeta.
    destruct (Rltb (thr e) 1); [destruct (Rltb (gr g (nr g)) (thr e))|]; eauto. }
  exists (fun i k => match nth_error t i with
            | Some e => if teqb (first e) k then 0 else if teqb (second e) k then thr e else 0
            | None => 0 end).
  exists (fun i k => match nth_error t i with
            | Some e => if teqb (second e) k then 1 else if teqb (first e) k then thr e else 0
            | None => 0 end).
  split; [|split].
  - intros i k. destruct (nth_error t i) as [e|] eqn:E; [|lra].
    destruct (Fin i e E) as [B _]. destruct (teqb (first e) k), (teqb (second e) k); lra.
  - intros g k Hg Hr i. specialize (Hr (nr g)).
    destruct (Draw g Hg) as (i' & e & Ei & Bi & E & ->). assert (Hi : i = i') by (symmetry; exact Ei). rewrite Hi.
    rewrite E. cbv zeta. destruct (Fin i' e E) as [B1 B2].
    assert (De : forall x y, teqb x y = false <-> x <> y).
    { intros x y. split; intros H.
      - intros ->. assert (teqb y y = true) by now apply teqb_ok. congruence.
      - destruct (teqb x y) eqn:Q; auto. apply teqb_ok in Q. congruence. }
    set (u := gr g (nr g)) in *.
    assert (K : forall x (g1 : rng R), (exists g', Ok (x, g1) = Ok (k, g')) <-> x = k).
    { intros x g1. split; [intros (g' & [= -> _]); auto|intros ->; eauto]. }
    destruct (Rltb (thr e) 1) eqn:E1.
    + apply Rltb_true in E1. destruct (Rltb u (thr e)) eqn:E2.
      * apply Rltb_true in E2. rewrite K.
        destruct (teqb (first e) k) eqn:F1; [apply teqb_ok in F1|apply De in F1];
        (destruct (teqb (second e) k) eqn:F2; [apply teqb_ok in F2|apply De in F2]);
        (split; [intros; try congruence; try lra; split; lra|intros; try congruence; try lra]).
      * apply Rltb_false in E2. rewrite K.
        destruct (teqb (first e) k) eqn:F1; [apply teqb_ok in F1|apply De in F1];
        (destruct (teqb (second e) k) eqn:F2; [apply teqb_ok in F2|apply De in F2]);
        (split; [intros; try congruence; try lra; split; lra|intros; try congruence; try lra]).
    + apply Rltb_false in E1. rewrite K. assert (T1 : thr e = 1) by lra. specialize (B2 T1). rewrite B2.
      destruct (teqb (first e) k) eqn:F1; [apply teqb_ok in F1|apply De in F1];
        (split; [intros; try congruence; try lra; split; lra|intros; try congruence; try lra]).
  - intros k w W. rewrite (sum_ext _ _ (con t (fun _ => false) k)).
    + rewrite (Mass k w W). field. lra.
    + intros i _. unfold con, ind. destruct (nth_error t i) as [e|]; [|lra]. cbn [negb andb].
      destruct (teqb (first e) k), (teqb (second e) k); lra.
Qed.

Lemma proper_length : forall m : list (T * R), proper m -> (0 < length m)%nat.
Proof. intros [|p m] (_ & _ & H); cbn in *; [lra|lia]. Qed.

(** The sampler invariant of an alias-method object: [m] is the map the table was last built from. *)
Definition built_from (c : cat) (m : list (T * R)) : Prop :=
  use_alias c = true /\ length (table c) = length m /\ length (distr c) = length m /\
  (proper m -> exact_sampler (cat_sample R_ops c) m).

Lemma construct_sampler : forall (m : list (T * R)) t f nu m', construct R_ops m [] = Ok t ->
  length m' = length m -> built_from (mkCat m' true f nu t) m.
Proof.
  intros m t f nu m' E L.
  destruct (construct_ok R_ops m) as (t' & E' & L'). rewrite E in E'. injection E' as <-.
  split; [reflexivity|]. split; [exact L'|]. split; [exact L|].
  intros Pm. destruct (construct_exact m Pm) as (t' & E' & Len & Fin & Mass).
  rewrite E in E'. injection E' as <-.
  apply finished_sampler; auto; [now apply proper_length|]. apply Pm.
Qed.

Lemma built_from_ext : forall c c' m, built_from c m ->
  use_alias c' = true -> table c' = table c -> length (distr c') = length (distr c) ->
  built_from c' m.
Proof.
  intros c c' m (U & L1 & L2 & X) U' T' D'.
  assert (E : forall g, cat_sample R_ops c' g = cat_sample R_ops c g).
  { intros g. unfold cat_sample. now rewrite U, U', T', D'. }
  split; [auto|]. split; [congruence|]. split; [congruence|]. intros Pm.
  destruct (X Pm) as (X1 & lo & hi & A & B & C). split.
  - intros g Hg. rewrite E. auto.
  - exists lo, hi. split; auto. split; auto. intros g k Hg Hr. rewrite E. now apply B.
Qed.

Lemma assign_length : forall (m : list (T * R)) k w, length (assign_key teqb m k w) = length m.
Proof. induction m as [|[k0 w0] m IH]; intros k w; cbn; auto. destruct (teqb k0 k); cbn; auto. Qed.

Lemma cat_new_built : forall m f, exists c, cat_new R_ops m true f = Ok c /\
  built_from c m /\ distr c = m /\ freq c = f /\ num_updates c = 0%Z.
Proof.
  intros m f. unfold cat_new. destruct (construct_ok R_ops m) as (t & E & L). rewrite E. cbn [bind].
  eexists. split; [reflexivity|]. split; auto. now apply construct_sampler.
Qed.

Lemma cat_update_built : forall reorder k w c m, built_from c m -> mem_key teqb (distr c) k = true ->
  exists c', cat_update teqb R_ops reorder k w c = Ok c' /\ freq c' = freq c /\
    distr c' = assign_key teqb (distr c) k w /\
    if (num_updates c + 1 =? freq c)%Z
    then num_updates c' = 0%Z /\ built_from c' (distr c')
    else num_updates c' = (num_updates c + 1)%Z /\ built_from c' m.
Proof.
  intros reorder k w c m B M. pose proof B as (U & L1 & L2 & _).
  unfold cat_update, insert_or_assign. rewrite M, U. cbn [andb].
  set (m1 := assign_key teqb (distr c) k w).
  assert (Lm : length m1 = length (distr c)) by apply assign_length.
  destruct (num_updates c + 1 =? freq c)%Z.
  - rewrite reconstruct_same_size by congruence.
    destruct (construct_ok R_ops m1) as (t & E & L). rewrite E. cbn [bind].
    eexists. split; [reflexivity|]. repeat (split; [reflexivity|]). now apply construct_sampler.
  - eexists. split; [reflexivity|]. repeat (split; [reflexivity|]). eapply built_from_ext; eauto.
Qed.

Lemma cat_replace_built : forall (c : cat) m0 m, built_from c m0 -> length m = length m0 ->
  exists c', cat_replace R_ops m c = Ok c' /\ built_from c' m /\ distr c' = m /\ freq c' = freq c /\
    num_updates c' = 0%Z.
Proof.
  intros c m0 m (U & L1 & L2 & _) L. unfold cat_replace. rewrite U, Nat.eqb_refl.
  rewrite reconstruct_same_size by congruence.
  destruct (construct_ok R_ops m) as (t & E & Lt). rewrite E. cbn [bind].
  eexists. split; [reflexivity|]. split; auto. now apply construct_sampler.
Qed.
End Exact.

Section Hist.
Context {T : Type}.
Variable teqb : T -> T -> bool.
Hypothesis teqb_ok : decides teqb.

Lemma reweight_keys : forall (m : list (T * R)) k w, map fst (reweight teqb m k w) = map fst m.
Proof.
  intros m k w. unfold reweight. rewrite map_map. apply map_ext. intros [k0 w0]. cbn.
  destruct (teqb k0 k); reflexivity.
Qed.
Lemma reweight_length : forall (m : list (T * R)) k w, length (reweight teqb m k w) = length m.
Proof. intros. apply map_length. Qed.

Lemma reweight_absent : forall (m : list (T * R)) k w, ~ In k (map fst m) -> reweight teqb m k w = m.
Proof.
  induction m as [|[k0 w0] m IH]; intros k w H; cbn in *; auto.
  destruct (teqb k0 k) eqn:E; [apply teqb_ok in E; tauto|]. f_equal. apply IH. tauto.
Qed.

Lemma assign_reweight : forall (m : list (T * R)) k w, NoDup (map fst m) ->
  assign_key teqb m k w = reweight teqb m k w.
Proof.
  induction m as [|[k0 w0] m IH]; intros k w ND; cbn [assign_key reweight map fst] in *; auto.
  inversion ND as [|? ? X Y]; subst. destruct (teqb k0 k) eqn:E.
  - apply teqb_ok in E. subst. f_equal. symmetry. now apply reweight_absent.
  - f_equal. now apply IH.
Qed.

Lemma mem_key_in : forall (m : list (T * R)) k, In k (map fst m) <-> mem_key teqb m k = true.
Proof.
  intros m k. unfold mem_key. rewrite existsb_exists, in_map_iff. split.
  - intros (p & <- & Q). exists p. split; auto. now apply teqb_ok.
  - intros (p & Q & E). apply teqb_ok in E. eauto.
Qed.

Lemma lives_inv : forall f c cur snap n, lives teqb f c cur snap n ->
  NoDup (map fst cur) /\ distr c = cur /\ freq c = f /\ num_updates c = n /\ built_from c snap /\
  length snap = length cur.
Proof.
  intros f c cur snap n H. induction H as [m c ND E|c cur snap n reorder k w c' _ IH K E|c cur snap n m c' _ IH L ND E].
  - destruct (cat_new_built teqb teqb_ok m f) as (c0 & E0 & B & D & F & U).
    rewrite E in E0. injection E0 as <-. auto 10.
  - destruct IH as (ND & D & F & U & B & Len).
    assert (M : mem_key teqb (distr c) k = true) by (rewrite D; now apply mem_key_in).
    destruct (cat_update_built teqb teqb_ok reorder k w c snap B M) as (c0 & E0 & F0 & D0 & X).
    rewrite E in E0. injection E0 as <-. rewrite D, assign_reweight in D0 by auto.
    rewrite reweight_keys, reweight_length. rewrite U, F in X.
    destruct (n + 1 =? f)%Z; destruct X as [X1 X2]; rewrite ?reweight_length.
    + rewrite D0 in X2. split; [auto|]. split; [auto|]. split; [congruence|]. split; [auto|]. split; auto.
    + split; [auto|]. split; [auto|]. split; [congruence|]. split; [auto|]. split; auto.
  - destruct IH as (_ & D & F & U & B & Len).
    destruct (cat_replace_built teqb teqb_ok c snap m B) as (c0 & E0 & B0 & D0 & F0 & U0); [congruence|].
    rewrite E in E0. injection E0 as <-. repeat (split; [auto; congruence|]). split; auto.
Qed.

Lemma lives_exact : forall f c cur snap n, lives teqb f c cur snap n -> proper snap ->
  exact_sampler (cat_sample R_ops c) snap.
Proof. intros f c cur snap n H P. apply lives_inv in H. destruct H as (_ & _ & _ & _ & B & _). now apply B. Qed.

Lemma lives_total : forall f c cur snap n, lives teqb f c cur snap n ->
  (forall reorder k w, In k (map fst cur) -> exists c', cat_update teqb R_ops reorder k w c = Ok c') /\
  (forall m, length m = length cur -> exists c', cat_replace R_ops m c = Ok c').
Proof.
  intros f c cur snap n H. apply lives_inv in H. destruct H as (ND & D & F & U & B & Len). split.
  - intros reorder k w K.
    destruct (cat_update_built teqb teqb_ok reorder k w c snap B) as (c0 & E0 & _); eauto.
    rewrite D. now apply mem_key_in.
  - intros m L. destruct (cat_replace_built teqb teqb_ok c snap m B) as (c0 & E0 & _); eauto. congruence.
Qed.

Lemma update_all_app : forall reorder us vs (c : cat),
  update_all teqb reorder (us ++ vs) c = bind (update_all teqb reorder us c) (update_all teqb reorder vs).
Proof.
  induction us as [|[k w] us IH]; intros vs c; cbn [app update_all]; [reflexivity|].
  destruct (cat_update teqb R_ops reorder k w c); cbn [bind]; auto.
Qed.

Lemma reweight_all_keys : forall us (m : list (T * R)), map fst (reweight_all teqb m us) = map fst m.
Proof.
  unfold reweight_all. induction us as [|[k w] us IH]; intros m; cbn; auto. rewrite IH. apply reweight_keys.
Qed.

Lemma updates_delay : forall (m : list (T * R)) f reorder us c0,
  NoDup (map fst m) -> (1 <= f)%nat -> cat_new R_ops m true (Z.of_nat f) = Ok c0 ->
  (forall k w, In (k, w) us -> In k (map fst m)) ->
  exists c, update_all teqb reorder us c0 = Ok c /\
    lives teqb (Z.of_nat f) c (reweight_all teqb m us)
      (reweight_all teqb m (firstn (f * (length us / f)) us)) (Z.of_nat (length us mod f)).
Proof.
  intros m f reorder us c0 ND Hf E0. induction us as [|[k w] us IH] using rev_ind; intros K.
  - exists c0. split; auto. cbn [length]. rewrite Nat.div_0_l, Nat.mod_0_l by lia. rewrite Nat.mul_0_r.
    cbn. now apply lives_new.
  - destruct IH as (c & E & Lv).
    { intros k' w' Q. apply (K k' w'). apply in_or_app. auto. }
    rewrite update_all_app, E. cbn [bind update_all].
    assert (Kin : In k (map fst (reweight_all teqb m us))).
    { rewrite reweight_all_keys. apply (K k w). apply in_or_app. right. now left. }
    destruct (proj1 (lives_total _ _ _ _ _ Lv) reorder k w Kin) as (c' & E').
    rewrite E'. cbn [bind]. exists c'. split; auto.
    pose proof (lives_set _ _ _ _ _ _ _ _ _ _ Lv Kin E') as L'.
    rewrite app_length. cbn [length]. rewrite Nat.add_1_r.
    set (j := length us) in *.
    assert (RW : reweight_all teqb m (us ++ [(k, w)]) = reweight teqb (reweight_all teqb m us) k w).
    { unfold reweight_all. rewrite fold_left_app. reflexivity. }
    rewrite RW.
    pose proof (Nat.div_mod j f ltac:(lia)) as DM. pose proof (Nat.mod_upper_bound j f ltac:(lia)) as MB.
    assert (C : (S j mod f = if Nat.eqb (j mod f + 1) f then 0 else j mod f + 1)%nat /\
                (S j / f = if Nat.eqb (j mod f + 1) f then S (j / f) else j / f)%nat).
    { destruct (Nat.eqb_spec (j mod f + 1) f).
      - assert (Q : S j = (f * S (j / f) + 0)%nat) by nia.
        split; symmetry; [eapply Nat.mod_unique|eapply Nat.div_unique]; try exact Q; lia.
      - assert (Q : S j = (f * (j / f) + (j mod f + 1))%nat) by lia.
        split; symmetry; [eapply Nat.mod_unique|eapply Nat.div_unique]; try exact Q; lia. }
    destruct C as [C1 C2]. rewrite C1, C2.
    destruct (Nat.eqb_spec (j mod f + 1) f) as [e|ne].
    + destruct (Z.eqb_spec (Z.of_nat (j mod f) + 1) (Z.of_nat f)); [|lia].
      rewrite firstn_all2 by (rewrite app_length; cbn [length]; fold j; nia). rewrite RW. exact L'.
    + destruct (Z.eqb_spec (Z.of_nat (j mod f) + 1) (Z.of_nat f)); [lia|].
      rewrite firstn_app. replace (f * (j / f) - length us)%nat with 0%nat by (fold j; lia).
      rewrite firstn_O, app_nil_r. replace (Z.of_nat (j mod f + 1)) with (Z.of_nat (j mod f) + 1)%Z by lia.
      exact L'.
Qed.

Lemma exact_positive : forall sample (m : list (T * R)) g k g', exact_sampler sample m -> proper m ->
  good_ints g -> good_reals g -> sample g = Ok (k, g') -> exists w, In (k, w) m /\ 0 < w.
Proof.
  intros sample m g k g' (_ & lo & hi & A & B & C) P Hg Hr E.
  assert (Q : exists w, In (k, w) m /\ 0 < w \/ weighs m k 0).
  { destruct (in_dec (fun x y => match bool_dec (teqb x y) true with
        | left e => left (proj1 (teqb_ok x y) e) | right e => right (fun z => e (proj2 (teqb_ok x y) z)) end) k (map fst m)) as [I|I].
    - apply in_map_iff in I. destruct I as ([k0 w] & <- & I). exists w. cbn.
      assert (0 <= w) by (apply (proj1 (proj2 P) k0); auto).
      destruct (Req_dec w 0) as [->|]; [right; now left|left; split; auto; lra].
    - exists 0. right. right. auto. }
  destruct Q as (w & [Q|Q]); [eauto|]. exfalso.
  specialize (C k 0 Q). assert (Hn : (0 < length m)%nat) by now apply proper_length.
  assert (Hn' : 0 < INR (length m)) by now apply lt_0_INR.
  assert (S0 : sum_upto (length m) (fun i => hi i k - lo i k) = 0).
  { apply (Rmult_eq_reg_r (/ INR (length m))); [|apply Rinv_neq_0_compat; lra].
    change (sum_upto (length m) (fun i => hi i k - lo i k) / INR (length m) = 0 * / INR (length m)).
    rewrite C. lra. }
  set (i := Z.to_nat (gi g (ni g) mod Z.of_nat (length m))) in *.
  assert (Hi : (i < length m)%nat).
  { pose proof (Z.mod_pos_bound (gi g (ni g)) (Z.of_nat (length m)) ltac:(lia)). unfold i. lia. }
  assert (Z := sum_nonneg_zero (length m) (fun i => hi i k - lo i k)
     ltac:(intros j _; destruct (A j k); lra) S0 i Hi). cbv beta in Z.
  assert (X : lo i k <= gr g (nr g) < hi i k) by (apply B; eauto). lra.
Qed.
End Hist.

Lemma sample_loop_in : forall T N (O : numops N) (m : list (T * N)) s u r k,
  sample_loop O m s u r = Ok k -> In k (map fst m).
Proof.
  induction m as [|[k0 w] m IH]; intros s u r k H; cbn [sample_loop] in H; [discriminate|]. cbn [map fst In].
  match type of H with (if ?b then _ else _) = _ => destruct b; [discriminate|] end.
  match type of H with (if ?b then _ else _) = _ => destruct b; [injection H as <-; auto|] end.
  right. eauto.
Qed.

Lemma sample_in_map : forall T N (O : numops N) (m : list (T * N)) b g k g',
  sample_from_distribution O m b g = Ok (k, g') -> In k (map fst m).
Proof.
  intros T N O m b g k g' H. unfold sample_from_distribution in H. cbv zeta in H.
  destruct (get_rand_uniform g) as [u g1].
  match type of H with bind ?e _ = _ => destruct e eqn:E; try discriminate end.
  injection H as <- _. eapply sample_loop_in; eauto.
Qed.


Lemma uniform_exact : forall T N (keys : list T) (g : rng N), keys <> [] -> good_ints g ->
  exists k g', uniform_sample keys g = Ok (k, g') /\ one_int g g' /\
    nth_error keys (Z.to_nat (gi g (ni g) mod Z.of_nat (length keys))) = Some k.
Proof.
  intros T N keys g NE Hg. assert (Hn : (0 < Z.of_nat (length keys))%Z) by (destruct keys; [congruence|cbn; lia]).
  destruct (rand_int_range N 0 (Z.of_nat (length keys)) g Hn Hg) as (r & g' & E & B & Er & O1).
  unfold uniform_sample. rewrite E. cbn [bind]. unfold vec_at_checked.
  rewrite Z.add_0_l, Z.sub_0_r in Er. destruct (Z.ltb_spec r 0); [lia|].
  destruct (nth_error keys (Z.to_nat r)) as [k|] eqn:Q; [|apply nth_error_None in Q; lia].
  exists k, g'. rewrite <- Er. auto.
Qed.

Lemma mixed_exact : forall T (m : list ((rng R -> outcome (T * rng R)) * R)) (g : rng R),
  nonneg_weights m -> total m = 1 -> (exists m0 k0 w0, m = m0 ++ [(k0, w0)] /\ 0 < w0) -> good_reals g ->
  exists d g1, one_real g g1 /\ mixed_sample R_ops m g = d g1 /\ forall d', d' = d <-> owns m 1 (gr g (nr g)) d'.
Proof.
  intros T m g NN Tm L Hg. destruct (sample_normalised _ m g NN Tm L Hg) as (d & g1 & E & O1 & W).
  exists d, g1. unfold mixed_sample. rewrite E. auto.
Qed.

Lemma new_key_sample : forall T (teqb : T -> T -> bool), decides teqb -> forall f (c : cat) cur snap n reorder k w,
  lives teqb f c cur snap n -> ~ In k (map fst cur) -> (forall l, length (reorder l) = length l) ->
  if (n + 1 =? f)%Z then cat_update teqb R_ops reorder k w c = UB
  else exists c', cat_update teqb R_ops reorder k w c = Ok c' /\
       forall g, gi g (ni g) = Z.of_nat (length cur) -> cat_sample R_ops c' g = UB.
Proof.
  intros T teqb D f c cur snap n reorder k w Lv K Hr.
  destruct (lives_inv teqb D f c cur snap n Lv) as (ND & Dc & F & U & B & Len).
  destruct B as (Ua & Lt & Ld & _).
  assert (M : mem_key teqb (distr c) k = false).
  { destruct (mem_key teqb (distr c) k) eqn:E; auto. apply (mem_key_in teqb D) in E. congruence. }
  unfold cat_update, insert_or_assign. rewrite M, Ua, F, U. cbn [andb].
  set (m1 := reorder _). assert (Lm : length m1 = S (length cur)) by (unfold m1; rewrite Hr, Dc; reflexivity).
  destruct (n + 1 =? f)%Z.
  - rewrite reconstruct_grown; [reflexivity|]. rewrite Lm, Lt. lia.
  - eexists. split; [reflexivity|]. intros g Hg. unfold cat_sample. cbn [use_alias negb distr table].
    unfold get_rand_int. rewrite Z.sub_0_r. destruct (Z.eqb_spec (Z.of_nat (length m1)) 0); [lia|].
    cbn [bind]. rewrite Z.add_0_l, Hg, Z.rem_small by lia. unfold vec_at.
    destruct (Z.ltb_spec (Z.of_nat (length cur)) 0); [lia|]. rewrite Nat2Z.id.
    replace (nth_error (table c) (length cur)) with (@None (@entry T R)); [reflexivity|].
    symmetry. apply nth_error_None. lia.
Qed.

(** ** Without the alias method *)
Section Plain.
Context {T : Type}.
Variable teqb : T -> T -> bool.
Hypothesis teqb_ok : decides teqb.

Lemma plain_inv : forall c cur, plain teqb c cur -> use_alias c = false /\ Permutation (distr c) cur /\ NoDup (map fst (distr c)).
Proof.
  intros c cur P. induction P as [m f c ND E|c cur re k w c' P (U & Pm & ND) Pr I E|c cur re k w c' P (U & Pm & ND) Pr I E|c cur m c' P (U & Pm & ND) NDm E].
  - injection E as <-. cbn. auto.
  - unfold cat_update, insert_or_assign in E. rewrite U in E. cbn [andb] in E.
    assert (M : mem_key teqb (distr c) k = true).
    { apply (mem_key_in teqb teqb_ok). eapply Permutation_in; [|exact I]. apply Permutation_map. now symmetry. }
    rewrite M in E. injection E as <-. cbn [use_alias distr]. split; auto. rewrite assign_reweight by auto. split.
    + apply Permutation_map. exact Pm.
    + now rewrite reweight_keys.
  - unfold cat_update, insert_or_assign in E. rewrite U in E. cbn [andb] in E.
    assert (M : mem_key teqb (distr c) k = false).
    { destruct (mem_key teqb (distr c) k) eqn:M; auto. apply (mem_key_in teqb teqb_ok) in M. elim I.
      eapply Permutation_in; [|exact M]. now apply Permutation_map. }
    rewrite M in E. injection E as <-. cbn [use_alias distr]. split; auto. split.
    + rewrite Pr. now constructor.
    + eapply Permutation_NoDup; [apply Permutation_map; symmetry; apply Pr|]. cbn. constructor; auto.
      intros Q. elim I. eapply Permutation_in; [|exact Q]. now apply Permutation_map.
  - unfold cat_replace in E. rewrite U in E. injection E as <-. cbn. auto.
Qed.

Lemma plain_total : forall (m m' : list (T * R)), Permutation m m' -> total m = total m'.
Proof. intros m m' P. induction P as [|[k w]|[k w] [k' w']|]; cbn [total] in *; lra. Qed.

Lemma plain_samples : forall c cur, plain teqb c cur ->
  (forall reorder k w, exists c', cat_update teqb R_ops reorder k w c = Ok c') /\
  (forall m, exists c', cat_replace R_ops m c = Ok c') /\
  (positive_weights cur -> 1 <= total cur -> exists order, Permutation order cur /\ forall g, good_reals g ->
     exists k g', cat_sample R_ops c g = Ok (k, g') /\ one_real g g' /\ forall k', k' = k <-> owns order (total cur) (gr g (nr g)) k').
Proof.
  intros c cur P. destruct (plain_inv c cur P) as (U & Pm & ND). split; [|split].
  - intros re k w. unfold cat_update. rewrite U. cbn [andb]. eauto.
  - intros m. unfold cat_replace. rewrite U. eauto.
  - intros PW Tt. exists (distr c). split; auto. intros g Hg. unfold cat_sample. rewrite U. cbn [negb].
    rewrite <- (plain_total _ _ Pm). apply sample_unnormalised; auto.
    + intros k w I. apply (PW k). now apply (Permutation_in _ Pm).
    + now rewrite (plain_total _ _ Pm).
Qed.
End Plain.
