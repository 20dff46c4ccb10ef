(* The accesses of every thread lie between the lock operations that guard them. *)
From Coq Require Import List Arith Bool Permutation Lia.
From Verif Require Import LockModel LockSpec LockProofs AccessModel AccessSpec.
Import ListNotations.

(** The lock operations of a program. *)
Definition strip (l : list ainstr) : list instr := flat_map (fun i => match i with Do i => [i] | _ => [] end) l.

Definition guard (d : data) : lockid :=
  match d with DNode n => LNode n | DTable => LTable 0 | DRng => LRng | DLog => LLog end.

(** The next operation on mutex l is to release it. *)
Fixpoint frees (l : lockid) (c : list instr) : bool :=
  match c with
  | [] => false
  | ILock m :: c' => if lock_eqb m l then false else frees l c'
  | IUnlock m :: c' => if lock_eqb m l then true else frees l c'
  | _ :: c' => frees l c'
  end.

(** Every access is followed by the release of its mutex. *)
Fixpoint tidy (p : bool) (c : list ainstr) : Prop :=
  match c with
  | [] => True
  | i :: c' =>
      (forall w d, In (w, d) (accesses i) -> p = true \/ d <> DTable -> frees (guard d) (strip c') = true) /\
      (forall n, i <> Peek n) /\ tidy p c'
  end.

Lemma lock_eqb_refl l : lock_eqb l l = true.
Proof. destruct (lock_eqb_spec l l); congruence. Qed.

Lemma strip_app a b : strip (a ++ b) = strip a ++ strip b.
Proof. unfold strip. apply flat_map_app. Qed.
Lemma strip_do l : strip (map Do l) = l.
Proof. unfold strip. induction l as [|i l IH]; cbn; [reflexivity|]. now f_equal. Qed.

Lemma strip_compile n m : strip (mcompile n m) = match m with With a => compile n a | _ => [] end.
Proof. destruct m as [w|[]|]; reflexivity. Qed.
Lemma strip_body n body : strip (flat_map (mcompile n) body) = flat_map (compile n) (acts body).
Proof.
  induction body as [|m body IH]; [reflexivity|]. cbn [flat_map]. rewrite strip_app, strip_compile, IH.
  destruct m as [w|a|]; reflexivity.
Qed.
Lemma strip_section n body : strip (asection n body) = section_code n (acts body).
Proof. unfold asection, section_code. cbn [strip flat_map]. rewrite <- strip_body. cbn. f_equal. apply strip_app. Qed.
Lemma strip_reads l : strip (map (fun p : nat * nat => read_node (snd p)) l) = [].
Proof. induction l; cbn; auto. Qed.
Lemma strip_all x : strip (aall x) = all_code x.
Proof.
  unfold aall, all_code. rewrite !strip_app, strip_reads. cbn.
  f_equal.
  - rewrite <- (map_map (fun p : nat * nat => ILock (LNode (snd p))) Do). apply strip_do.
  - rewrite <- (map_map (fun p : nat * nat => IUnlock (LNode (snd p))) Do). apply strip_do.
Qed.

(** ** frees *)
Lemma frees_body n body l : frees (LNode n) (flat_map (compile n) body ++ IUnlock (LNode n) :: l) = true.
Proof.
  induction body as [|a body IH]; cbn; [now rewrite Nat.eqb_refl|].
  rewrite <- app_assoc. destruct a; cbn; exact IH.
Qed.
Lemma frees_ul c l r : In c l -> frees (LNode c) (map ul l ++ r) = true.
Proof.
  induction l as [|d l IH]; intros H; [destruct H|]. cbn.
  destruct (Nat.eqb_spec d c); [reflexivity|]. destruct H as [E|H]; [congruence|auto].
Qed.

(** What a thread will release before locking it again, it holds. *)
Lemma frees_tail l n body : frees l (tail n body) = true -> l = LNode n.
Proof.
  unfold tail. induction body as [|a body IH]; cbn [flat_map app].
  - cbn [frees]. destruct (lock_eqb_spec (LNode n) l); [congruence|discriminate].
  - rewrite <- app_assoc. destruct a; cbn; auto.
    destruct l; cbn; auto; discriminate.
Qed.
Lemma frees_unlocks l cs r : frees l (map ul cs ++ r) = true -> In l (map LNode cs) \/ frees l r = true.
Proof.
  induction cs as [|c cs IH]; cbn [map app frees ul]; auto.
  destruct (lock_eqb_spec (LNode c) l) as [<-|N]; [left; now left|].
  intros H. destruct (IH H); [left; now right|auto].
Qed.
Lemma frees_locks l cs r : frees l (map lk cs ++ r) = true -> ~ In l (map LNode cs) /\ frees l r = true.
Proof.
  induction cs as [|c cs IH]; cbn [map app frees lk]; auto.
  destruct (lock_eqb_spec (LNode c) l) as [<-|N]; [discriminate|].
  intros H. destruct (IH H) as [H1 H2]. split; auto. intros [E|I]; auto.
Qed.
Lemma frees_held l p : frees l (code p) = true -> In l (held p).
Proof.
  destruct p; cbn [code held]; try discriminate.
  - cbn [frees]. destruct (lock_eqb_spec (LNode n) l) as [<-|N]; [discriminate|]. intros H. apply frees_tail in H. congruence.
  - intros H. apply frees_tail in H. left; auto.
  - cbn [frees]. destruct (lock_eqb_spec LRng l) as [<-|N]; [right; now left|]. intros H. apply frees_tail in H. left; auto.
  - intros H. apply frees_locks in H as [N H]. apply frees_unlocks in H as [H|H].
    + rewrite map_app, in_app_iff in H. right. tauto.
    + apply frees_tail in H. left; auto.
  - intros H. apply frees_unlocks in H as [H|H]; [right; auto|]. apply frees_tail in H. left; auto.
  - cbn [frees]. destruct (lock_eqb_spec (LTable i) l) as [<-|N]; [discriminate|]. intros H. apply frees_tail in H. left; auto.
  - cbn [frees]. destruct (lock_eqb_spec (LTable i) l) as [<-|N]; [right; now left|]. intros H. apply frees_tail in H. left; auto.
  - cbn [frees]. destruct (lock_eqb_spec (LTable i) l) as [<-|N]; [right; now left|]. intros H. apply frees_tail in H. left; auto.
  - destruct l as [[|m]|i| |]; cbn; intuition discriminate.
  - destruct l as [[|m]|i| |]; cbn; intuition discriminate.
  - destruct l as [[|m]|i| |]; cbn; intuition discriminate.
  - destruct l as [[|m]|i| |]; cbn; intuition discriminate.
  - destruct l as [[|m]|i| |]; cbn; intuition discriminate.
Qed.

(** ** Programs are tidy *)
Section Tidy.
Variable p : bool.

Lemma tidy_do_locks l c : (forall i, In i l -> exists m, i = ILock m \/ i = IUnlock m) -> tidy p c -> tidy p (map Do l ++ c).
Proof.
  intros H T. induction l as [|i l IH]; [exact T|]. cbn [map app tidy].
  split; [|split; [discriminate|apply IH; intros j J; apply H; now right]].
  intros w d I. destruct (H i (or_introl eq_refl)) as (m & [-> | ->]); destruct I.
Qed.

Lemma tidy_section n body : ~ In PeekKids body -> tidy p (asection n body).
Proof.
  intros N. unfold asection. cbn [tidy]. split; [intros w d []|]. split; [discriminate|].
  induction body as [|m body IH].
  - cbn. repeat split; try discriminate; intros w d [].
  - assert (N' : ~ In PeekKids body) by (intros H; apply N; now right).
    assert (F : frees (LNode n) (strip (flat_map (mcompile n) body ++ [Do (IUnlock (LNode n))])) = true).
    { rewrite strip_app, strip_body. apply frees_body. }
    cbn [flat_map]. rewrite <- app_assoc. specialize (IH N').
    destruct m as [w0|[]|]; cbn [mcompile map compile app tidy].
    + split; [intros w d [[= <- <-]|[]] _; exact F|]. split; [discriminate|exact IH].
    + split; [intros w d [[= <- <-]|[]] _; exact F|]. split; [discriminate|exact IH].
    + split; [intros w d [[= <- <-]|[]] _; exact F|]. split; [discriminate|exact IH].
    + split; [intros w d []|]. split; [discriminate|]. split; [intros w d [[= <- <-]|[]] _; reflexivity|].
      split; [discriminate|]. split; [intros w d []|]. split; [discriminate|exact IH].
    + split; [intros w d [[= <- <-]|[]] _; exact F|]. split; [discriminate|exact IH].
    + exfalso. apply N. now left.
Qed.

Lemma tidy_log (q : bool) : tidy p (if q then alog_quiet else alog).
Proof.
  destruct q; cbn; repeat split; try discriminate; intros w d H; repeat (destruct H as [H|H]); try (destruct H; fail);
    injection H as <- <-; reflexivity.
Qed.

Lemma tidy_reads l c : (forall k, In k l -> frees (LNode (snd k)) (strip c) = true) -> tidy p c ->
  tidy p (map (fun q : nat * nat => read_node (snd q)) l ++ c).
Proof.
  intros H T. induction l as [|k l IH]; [exact T|]. cbn [map app tidy read_node].
  split; [|split; [discriminate|apply IH; intros j J; apply H; now right]].
  intros w d [[= <- <-]|[]] _. rewrite strip_app, strip_reads. apply H. now left.
Qed.

Lemma tidy_all x c : tidy p c -> tidy p (aall x ++ c).
Proof.
  intros T. unfold aall. rewrite <- !app_assoc.
  rewrite <- (map_map (fun q : nat * nat => ILock (LNode (snd q))) Do).
  apply tidy_do_locks; [intros i I; apply in_map_iff in I as (q & <- & _); eauto|].
  rewrite <- (map_map (fun q : nat * nat => IUnlock (LNode (snd q))) Do).
  apply tidy_reads; [|apply tidy_do_locks; [intros i I; apply in_map_iff in I as (q & <- & _); eauto|exact T]].
  intros k K. rewrite strip_app, strip_do. change (fun q : nat * nat => IUnlock (LNode (snd q))) with (fun q : nat * nat => ul (snd q)). rewrite <- (map_map snd ul). apply frees_ul, in_map, K.
Qed.

Lemma tidy_one c r : tidy p r -> tidy p (aone c ++ r).
Proof.
  intros T. cbn. split; [intros w d []|]. split; [discriminate|].
  split; [intros w d [[= <- <-]|[]] _; cbn; now rewrite Nat.eqb_refl|]. split; [discriminate|].
  split; [intros w d []|]. split; [discriminate|exact T].
Qed.
End Tidy.

Section Proofs.
Variable A : aconf.
Hypothesis perm : areorders A.
Hypothesis locks : locks_children A.
Variable p : bool.
Hypothesis one : p = true -> a_tt A = false \/ a_mutexes A <= 1.

Let C := lock_conf A.

(** The state of LockModel.v a state of the model with accesses corresponds to. *)
Definition erase (s : astate) : lstate := mkLs (anodes s) (atable s) (aowner s) (fun t => strip (atodo s t)).

(** Two states of LockModel.v that differ at most in how their functions are written. *)
Definition alike (s s' : lstate) : Prop :=
  lnodes s = lnodes s' /\ table s = table s' /\ owner s = owner s' /\ forall t, todo s t = todo s' t.

Lemma alike_inv s s' : alike s s' -> inv C s -> inv C s'.
Proof.
  destruct s as [n1 t1 o1 d1], s' as [n2 t2 o2 d2]. intros (E1 & E2 & E3 & E4). cbn in *. subst.
  intros [T (ph & H1 & H2 & H3)]. split; [destruct T; constructor; assumption|].
  exists ph. split; [intros t; cbn in *; rewrite <- E4; auto|]. split; [intros t; exact (H2 t)|exact H3].
Qed.

Lemma set_code_strip f t v u : strip (set_code f t v u) = set_todo (fun t => strip (f t)) t (strip v) u.
Proof. unfold set_code, set_todo. now destruct (u =? t). Qed.

Lemma set_same s t v : strip (atodo s t) = strip v -> forall u, strip (set_code (atodo s) t v u) = strip (atodo s u).
Proof. intros E u. unfold set_code. destruct (Nat.eqb_spec u t); congruence. Qed.

(** Each step is a step of LockModel.v, or only an access. *)
Lemma step_sim s lb s' : astep A s lb = Some s' ->
  alike (erase s) (erase s') \/ exists s1, lstep C (erase s) lb = Some s1 /\ alike s1 (erase s').
Proof.
  destruct lb as [t n b|t q|t k r]; cbn [astep lstep].
  - cbn [erase todo lnodes]. destruct (atodo s t) as [|i c] eqn:Et; [|discriminate].
    destruct (nth_error (anodes s) n) as [x|] eqn:En; [|discriminate].
    destruct (nth_error (a_bodies A (is_chance x)) b) as [body|] eqn:Eb; [|discriminate]. intros [= <-]. right.
    cbn [strip flat_map]. subst C. cbn [lock_conf l_bodies]. rewrite (map_nth_error acts b _ Eb).
    eexists; split; [reflexivity|]. repeat split. intros u. cbn. rewrite set_code_strip, strip_section. reflexivity.
  - cbn [erase todo lnodes]. destruct (atodo s t) as [|i c] eqn:Et; [|discriminate].
    cbn [strip flat_map]. subst C. cbn [lock_conf l_log].
    destruct (a_log A); [|discriminate]. intros [= <-]. right. eexists; split; [reflexivity|]. repeat split.
    intros u. cbn. rewrite set_code_strip. destruct q; reflexivity.
  - cbn [erase todo lnodes]. destruct (atodo s t) as [|i c] eqn:Et; [discriminate|].
    destruct i as [i|w d|n].
    + cbn [strip flat_map app]. fold (strip c). destruct i as [l|l|n|n|n|n k0].
      * cbn [erase owner]. destruct (aowner s l); [discriminate|]. intros [= <-]. right. eexists; split; [reflexivity|].
        repeat split. intros u. cbn. now rewrite set_code_strip.
      * intros [= <-]. right. eexists; split; [reflexivity|]. repeat split. intros u. cbn. now rewrite set_code_strip.
      * destruct (nth_error (anodes s) n) as [x|]; [|discriminate]. intros [= <-]. right. eexists; split; [reflexivity|].
        repeat split. intros u. cbn. now rewrite set_code_strip, strip_app, strip_all.
      * destruct (nth_error (anodes s) n) as [x|]; [|discriminate]. cbn [option_map]. intros [= <-]. right.
        eexists; split; [reflexivity|].
        destruct (find_kid k (kids x)); repeat split; intros u; cbn; now rewrite set_code_strip.
      * destruct (nth_error (anodes s) n) as [x|]; [|discriminate]. cbn [option_map]. intros [= <-]. right.
        eexists; split; [reflexivity|]. unfold grow. fold C. destruct (find_kid k (kids x)).
        { repeat split; intros u; cbn. rewrite set_code_strip. unfold set_todo. now rewrite Nat.eqb_refl. }
        destruct (l_tt C && is_chance x).
        { repeat split; intros u; cbn. rewrite set_code_strip. unfold set_todo. now rewrite Nat.eqb_refl. }
        repeat split; intros u; cbn. rewrite set_code_strip. unfold set_todo. now rewrite Nat.eqb_refl.
      * destruct (nth_error (anodes s) n) as [x|]; [|discriminate]. cbn [option_map]. intros [= <-]. right.
        eexists; split; [reflexivity|]. unfold touch. fold C. cbn [base table].
        destruct (find_id (lev x, k0) (atable s)) eqn:Ef; cbn [erase table]; rewrite Ef;
          repeat split; intros u; cbn; rewrite set_code_strip; unfold set_todo; now rewrite Nat.eqb_refl.
    + intros [= <-]. left. repeat split. intros u. cbn. symmetry. apply set_same. rewrite Et. reflexivity.
    + destruct (nth_error (anodes s) n) as [x|]; [|discriminate]. cbn [option_map]. intros [= <-]. left. repeat split.
      intros u. cbn. symmetry. apply set_same. rewrite Et, strip_app, strip_reads. reflexivity.
Qed.

Definition good (s : astate) : Prop := inv C (erase s) /\ forall t, tidy p (atodo s t).

Lemma set_code_all f t v : (forall u, tidy p (f u)) -> tidy p v -> forall u, tidy p (set_code f t v u).
Proof. intros F V u. unfold set_code. destruct (u =? t); auto. Qed.

Lemma grow_tidy s t n k r x c :
  tidy p (Do (IGrow n) :: c) -> tidy p (map Do (todo (grow C (base s) t n k r x []) t) ++ c).
Proof.
  cbn [tidy]. intros (H & _ & T). unfold grow. destruct (find_kid k (kids x)).
  { cbn. unfold set_todo. now rewrite Nat.eqb_refl. }
  destruct (l_tt C && is_chance x) eqn:Ett.
  2: { cbn. unfold set_todo. now rewrite Nat.eqb_refl. }
  cbn [with_todo todo]. unfold set_todo. rewrite Nat.eqb_refl. cbn [map app tidy].
  split; [intros w d []|]. split; [discriminate|]. split.
  - intros w d [[= <- <-]|[[= <- <-]|[]]] P.
    + cbn. apply (H true (DNode n)); [now left|]. right. discriminate.
    + destruct P as [P|P]; [|congruence]. cbn [guard strip flat_map app frees].
      destruct (one P) as [E|E]; [subst C; cbn in Ett; rewrite E in Ett; discriminate|].
      unfold mutex_index. replace (1 <? l_mutexes C) with false by (symmetry; apply Nat.ltb_ge; exact E). reflexivity.
  - split; [discriminate|]. split; [intros w d []|]. split; [discriminate|exact T].
Qed.

Lemma touch_tidy s t n k r x c : tidy p c -> tidy p (map Do (todo (touch C (base s) t n k r x []) t) ++ c).
Proof.
  intros T. unfold touch. destruct (find_id _ _); cbn [todo]; unfold set_todo; rewrite Nat.eqb_refl; exact T.
Qed.

Lemma good_step s lb s' : good s -> astep A s lb = Some s' -> good s'.
Proof.
  intros [I T] St. split.
  - destruct (step_sim s lb s' St) as [E|(s1 & L & E)]; [exact (alike_inv _ _ E I)|].
    apply (alike_inv _ _ E). exact (inv_step C perm _ _ _ I L).
  - destruct lb as [t n b|t q|t k r]; cbn [astep] in St.
    + destruct (atodo s t) as [|i c] eqn:Et; [|discriminate].
      destruct (nth_error (anodes s) n) as [x|] eqn:En; [|discriminate].
      destruct (nth_error (a_bodies A (is_chance x)) b) as [body|] eqn:Eb; [|discriminate]. injection St as <-.
      apply set_code_all; auto. apply tidy_section. exact (locks _ _ (nth_error_In _ _ Eb)).
    + destruct (atodo s t) as [|i c] eqn:Et; [|discriminate]. destruct (a_log A); [|discriminate]. injection St as <-.
      apply set_code_all; auto. apply tidy_log.
    + pose proof (T t) as Tt. destruct (atodo s t) as [|i c] eqn:Et; [discriminate|].
      destruct i as [i|w d|n].
      2: { injection St as <-. apply set_code_all; auto. apply Tt. }
      2: { destruct Tt as (_ & N & _). exfalso. exact (N n eq_refl). }
      pose proof Tt as (_ & _ & Tc).
      destruct i as [l|l|n|n|n|n k0].
      * destruct (aowner s l); [discriminate|]. injection St as <-. apply set_code_all; auto.
      * injection St as <-. apply set_code_all; auto.
      * destruct (nth_error (anodes s) n) as [x|]; [|discriminate]. injection St as <-. apply set_code_all; auto.
        now apply tidy_all.
      * destruct (nth_error (anodes s) n) as [x|]; [|discriminate]. cbn [option_map] in St.
        destruct (find_kid k (kids x)); injection St as <-; apply set_code_all; auto. now apply tidy_one.
      * destruct (nth_error (anodes s) n) as [x|]; [|discriminate]. injection St as <-. apply set_code_all; auto.
        now apply grow_tidy.
      * destruct (nth_error (anodes s) n) as [x|]; [|discriminate]. injection St as <-. apply set_code_all; auto.
        now apply touch_tidy.
Qed.

Lemma good_run ls : forall s s', good s -> arun A s ls = Some s' -> good s'.
Proof.
  induction ls as [|l ls IH]; cbn; intros s s' G R; [congruence|].
  destruct (astep A s l) as [s1|] eqn:St; [|discriminate]. exact (IH _ _ (good_step _ _ _ G St) R).
Qed.

Lemma good_init : good ainit.
Proof. split; [exact (inv_init C)|]. intros t. exact I. Qed.

(** A thread accesses data only while it holds the mutex of that data. *)
Lemma guarded s t w d : good s -> about_to s t w d -> p = true \/ d <> DTable -> aowner s (guard d) = Some t.
Proof.
  intros [[_ (ph & H1 & _ & H3)] T] (i & c & E & Ia) P. specialize (T t). rewrite E in T. destruct T as (F & _ & _).
  specialize (F w d Ia P). change (owner (erase s) (guard d) = Some t). apply H3, frees_held.
  rewrite <- H1. cbn. rewrite E. destruct i as [i|w0 d0|n]; cbn [strip flat_map app]; try exact F.
  cbn in Ia. destruct i; try exact F; destruct Ia.
Qed.

Lemma exclusive s d t u w w' : areach A s -> p = true \/ d <> DTable ->
  about_to s t w d -> about_to s u w' d -> t = u.
Proof.
  intros (ls & R) P Ht Hu. pose proof (good_run ls _ _ good_init R) as G.
  pose proof (guarded s t w d G Ht P). pose proof (guarded s u w' d G Hu P). congruence.
Qed.
End Proofs.
