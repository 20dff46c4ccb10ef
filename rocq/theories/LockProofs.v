(* Proofs about the locking model: what every thread holds is determined by where it is, and waiting goes up. *)
From Coq Require Import List Arith Bool Permutation Lia.
From Verif Require Import LockModel LockSpec.
Import ListNotations.

Lemma lock_eqb_spec a b : reflect (a = b) (lock_eqb a b).
Proof.
  destruct a, b; cbn; try (constructor; congruence);
    (destruct (Nat.eqb_spec n n0) || destruct (Nat.eqb_spec i i0)); constructor; congruence.
Qed.

Lemma set_node_length l i v : length (set_node l i v) = length l.
Proof. revert i; induction l as [|x l IH]; intros [|i]; cbn; auto. Qed.
Lemma set_node_eq l i v x : nth_error l i = Some x -> nth_error (set_node l i v) i = Some v.
Proof. revert i; induction l as [|y l IH]; intros [|i]; cbn; intros E; try discriminate; eauto. Qed.
Lemma set_node_ne l i j v : i <> j -> nth_error (set_node l i v) j = nth_error l j.
Proof. revert i j; induction l as [|y l IH]; intros [|i] [|j] N; cbn; auto; congruence. Qed.

(** Where a thread is. *)
Inductive phase : Type :=
| PIdle
| PStart (n : nat) (body : list act)
| PMain (n : nat) (body : list act)
| PRng (n : nat) (body : list act)
| PKids (n : nat) (pre post : list nat) (body : list act)
| PUn (n : nat) (suf : list nat) (body : list act)
| PTab0 (n k i : nat) (body : list act)
| PTab1 (n k i : nat) (body : list act)
| PTab2 (n k i : nat) (body : list act)
| PLog0 | PLog1 | PLog2 | PLog3 | PQuiet0.

Definition tail (n : nat) (body : list act) : list instr := flat_map (compile n) body ++ [IUnlock (LNode n)].
Definition lk (c : nat) : instr := ILock (LNode c).
Definition ul (c : nat) : instr := IUnlock (LNode c).

Definition code (p : phase) : list instr :=
  match p with
  | PIdle => []
  | PStart n body => ILock (LNode n) :: tail n body
  | PMain n body => tail n body
  | PRng n body => IUnlock LRng :: tail n body
  | PKids n pre post body => map lk post ++ map ul (pre ++ post) ++ tail n body
  | PUn n suf body => map ul suf ++ tail n body
  | PTab0 n k i body => ILock (LTable i) :: ITouch n k :: IUnlock (LTable i) :: tail n body
  | PTab1 n k i body => ITouch n k :: IUnlock (LTable i) :: tail n body
  | PTab2 n k i body => IUnlock (LTable i) :: tail n body
  | PLog0 => log_code
  | PLog1 => [ILock (LNode 0); IUnlock (LNode 0); IUnlock LLog]
  | PLog2 => [IUnlock (LNode 0); IUnlock LLog]
  | PLog3 => [IUnlock LLog]
  | PQuiet0 => log_quiet_code
  end.

Definition held (p : phase) : list lockid :=
  match p with
  | PIdle | PStart _ _ | PLog0 | PQuiet0 => []
  | PMain n _ | PTab0 n _ _ _ => [LNode n]
  | PRng n _ => [LNode n; LRng]
  | PKids n pre _ _ => LNode n :: map LNode pre
  | PUn n suf _ => LNode n :: map LNode suf
  | PTab1 n _ i _ | PTab2 n _ i _ => [LNode n; LTable i]
  | PLog1 | PLog3 => [LLog]
  | PLog2 => [LLog; LNode 0]
  end.

Section Proofs.
Variable C : lconf.
Hypothesis perm : reorders C.

(** Children of such a node have no other parent. *)
Definition private (x : lnode) : Prop := l_tt C = false \/ is_chance x = false.

(** Some method of this kind of node locks all children. *)
Definition allowed (x : lnode) : Prop := exists b, In b (l_bodies C (is_chance x)) /\ In AAll b.

Definition body_ok (x : lnode) (body : list act) : Prop := In AAll body -> allowed x.

Definition kids_ok (x : lnode) (cs : list nat) : Prop :=
  (forall c, In c cs -> In c (map snd (kids x))) /\ NoDup cs /\ (allowed x \/ length cs <= 1).

Definition at_node (s : lstate) (n : nat) (P : lnode -> Prop) : Prop :=
  exists x, nth_error (lnodes s) n = Some x /\ P x.

Definition phase_ok (s : lstate) (p : phase) : Prop :=
  match p with
  | PIdle | PLog0 | PLog1 | PLog2 | PLog3 | PQuiet0 => True
  | PStart n body | PMain n body | PRng n body => at_node s n (fun x => body_ok x body)
  | PKids n pre post body => at_node s n (fun x => body_ok x body /\ kids_ok x (pre ++ post))
  | PUn n suf body => at_node s n (fun x => body_ok x body /\ kids_ok x suf)
  | PTab0 n k i body | PTab1 n k i body =>
      at_node s n (fun x => body_ok x body /\ is_chance x = true /\ l_tt C = true /\ i = mutex_index C (lev x, k) /\ find_kid k (kids x) = None)
  | PTab2 n k i body => at_node s n (fun x => body_ok x body)
  end.

Record tree_ok (s : lstate) : Prop := {
  tk_lev : forall n x c, nth_error (lnodes s) n = Some x -> In c (map snd (kids x)) ->
           exists y, nth_error (lnodes s) c = Some y /\ lev y = S (lev x);
  tk_one : forall n x n' x' c, nth_error (lnodes s) n = Some x -> nth_error (lnodes s) n' = Some x' -> private x ->
           In c (map snd (kids x)) -> In c (map snd (kids x')) -> n = n';
  tk_nodup : forall n x, nth_error (lnodes s) n = Some x -> NoDup (map snd (kids x));
  tk_shared : forall n x k c, nth_error (lnodes s) n = Some x -> ~ private x -> In (k, c) (kids x) ->
              find_id (lev x, k) (table s) = Some c;
  tk_inj : forall l k l' k' c, find_id (l, k) (table s) = Some c -> find_id (l', k') (table s) = Some c -> l = l' /\ k = k';
  tk_tab : forall l k c, find_id (l, k) (table s) = Some c ->
           exists y, nth_error (lnodes s) c = Some y /\ lev y = S l;
  tk_root : exists z, nth_error (lnodes s) 0 = Some z /\ lev z = 0
}.

Definition inv (s : lstate) : Prop :=
  tree_ok s /\ exists ph : nat -> phase,
    (forall t, todo s t = code (ph t)) /\
    (forall t, phase_ok s (ph t)) /\
    (forall l t, owner s l = Some t <-> In l (held (ph t))).

(** Nodes stay where they are, with at least their children. *)
Definition grows (s s' : lstate) : Prop :=
  forall n x, nth_error (lnodes s) n = Some x ->
    exists x', nth_error (lnodes s') n = Some x' /\ lev x' = lev x /\ incl (map snd (kids x)) (map snd (kids x')).

Lemma grows_refl s s' : lnodes s' = lnodes s -> grows s s'.
Proof. intros E n x H. rewrite E. exists x; repeat split; auto. apply incl_refl. Qed.

(** Only the node a thread has locked can change. *)
Definition only (s s' : lstate) (t : nat) : Prop :=
  forall n x, nth_error (lnodes s) n = Some x -> nth_error (lnodes s') n = Some x \/ owner s (LNode n) = Some t.

Lemma only_refl s s' t : lnodes s' = lnodes s -> only s s' t.
Proof. intros E n x H. rewrite E. auto. Qed.

Lemma allowed_lev x x' : lev x' = lev x -> allowed x -> allowed x'.
Proof. unfold allowed, is_chance. intros ->. auto. Qed.

Lemma private_lev x x' : lev x' = lev x -> private x -> private x'.
Proof. unfold private, is_chance. intros ->. auto. Qed.

Lemma phase_ok_grows s s' t u p : grows s s' -> only s s' t -> t <> u ->
  (forall l, In l (held p) -> owner s l = Some u) -> phase_ok s p -> phase_ok s' p.
Proof.
  intros G O N Own.
  assert (A : forall n (P Q : lnode -> Prop), (forall x x', lev x' = lev x -> incl (map snd (kids x)) (map snd (kids x')) ->
               (owner s (LNode n) = Some u -> x' = x) -> P x -> Q x')
            -> at_node s n P -> at_node s' n Q).
  { intros n P Q H (x & Hx & Px). destruct (G _ _ Hx) as (x' & Hx' & E & I). exists x'; split; auto. eapply H; eauto.
    intros Ow. destruct (O _ _ Hx); congruence. }
  assert (B : forall x x' body, lev x' = lev x -> body_ok x body -> body_ok x' body).
  { intros x x' body E H I. eapply allowed_lev; eauto. }
  assert (K : forall x x' cs, lev x' = lev x -> incl (map snd (kids x)) (map snd (kids x')) -> kids_ok x cs -> kids_ok x' cs).
  { intros x x' cs E I (H1 & H2 & H3). split; [|split]; auto. destruct H3; auto. left; eapply allowed_lev; eauto. }
  destruct p; cbn; auto; apply A; intros x x' E I Ow; try solve [eapply B; eauto].
  - intros (H1 & H2); split; eauto.
  - intros (H1 & H2); split; eauto.
  - rewrite Ow; auto. apply Own; left; auto.
  - rewrite Ow; auto. apply Own; left; auto.
Qed.

Lemma tree_same s s' : lnodes s' = lnodes s -> table s' = table s -> tree_ok s -> tree_ok s'.
Proof. intros E1 E2 [A B D F H H' H'']. constructor; rewrite ?E1, ?E2; auto. Qed.

(** Changing what one thread does and holds. *)
Lemma move (s s' : lstate) (ph : nat -> phase) (t : nat) (p : phase) :
  tree_ok s' -> grows s s' -> only s s' t ->
  (forall u, todo s u = code (ph u)) -> (forall u, phase_ok s (ph u)) ->
  (forall l u, owner s l = Some u <-> In l (held (ph u))) ->
  (forall u, u <> t -> todo s' u = todo s u) -> todo s' t = code p -> phase_ok s' p ->
  (forall l u, owner s' l = Some u <-> In l (held (if u =? t then p else ph u))) ->
  inv s'.
Proof.
  intros T G O H1 H2 Ho H3 H4 H5 H6. split; auto. exists (fun u => if u =? t then p else ph u).
  split; [|split]; auto.
  - intros u. destruct (Nat.eqb_spec u t); [subst; auto|]. rewrite H3; auto.
  - intros u. destruct (Nat.eqb_spec u t); [subst; auto|]. apply (phase_ok_grows s s' t u (ph u)); auto.
    intros l I. apply Ho; auto.
Qed.

Lemma keep_own (s : lstate) (ph : nat -> phase) t p :
  (forall l u, owner s l = Some u <-> In l (held (ph u))) -> held p = held (ph t) ->
  forall l u, owner s l = Some u <-> In l (held (if u =? t then p else ph u)).
Proof. intros H E l u. destruct (Nat.eqb_spec u t); [subst; rewrite E|]; apply H. Qed.

Lemma lock_own (s : lstate) (ph : nat -> phase) t p l0 :
  (forall l u, owner s l = Some u <-> In l (held (ph u))) -> owner s l0 = None ->
  (forall l, In l (held p) <-> l = l0 \/ In l (held (ph t))) ->
  forall l u, set_owner (owner s) l0 (Some t) l = Some u <-> In l (held (if u =? t then p else ph u)).
Proof.
  intros H N E l u. unfold set_owner. destruct (lock_eqb_spec l l0) as [->|D].
  - destruct (Nat.eqb_spec u t) as [->|D'].
    + rewrite E. tauto.
    + rewrite <- H, N. split; congruence.
  - destruct (Nat.eqb_spec u t) as [->|D'].
    + rewrite E, H. tauto.
    + apply H.
Qed.

Lemma unlock_own (s : lstate) (ph : nat -> phase) t p l0 :
  (forall l u, owner s l = Some u <-> In l (held (ph u))) -> In l0 (held (ph t)) ->
  (forall l, In l (held p) <-> l <> l0 /\ In l (held (ph t))) ->
  forall l u, set_owner (owner s) l0 None l = Some u <-> In l (held (if u =? t then p else ph u)).
Proof.
  intros H N E l u. unfold set_owner. destruct (lock_eqb_spec l l0) as [->|D].
  - destruct (Nat.eqb_spec u t) as [->|D'].
    + rewrite E. split; [discriminate|tauto].
    + split; [discriminate|]. intros I. apply H in I. apply H in N. congruence.
  - destruct (Nat.eqb_spec u t) as [->|D'].
    + rewrite E, H. tauto.
    + apply H.
Qed.

Lemma in_map_node c l : In (LNode c) (map LNode l) <-> In c l.
Proof. rewrite in_map_iff. split; [intros (x & [= ->] & I); auto|intros I; eauto]. Qed.

Lemma no_self s n x : tree_ok s -> nth_error (lnodes s) n = Some x -> ~ In n (map snd (kids x)).
Proof. intros T E I. destruct (tk_lev _ T _ _ _ E I) as (y & E' & L). rewrite E in E'. injection E' as <-. lia. Qed.

Lemma find_kid_in k l c : find_kid k l = Some c -> In c (map snd l).
Proof.
  induction l as [|[k' c'] l IH]; cbn; [discriminate|]. destruct (k' =? k); intros E; auto. injection E as ->; auto.
Qed.

Lemma find_kid_none k l c : find_kid k l = None -> ~ In (k, c) l.
Proof.
  induction l as [|[k' c'] l IH]; cbn; [auto|]. destruct (Nat.eqb_spec k' k); [discriminate|]. intros E [[= -> ->]|I]; auto.
  apply IH; auto.
Qed.

Lemma body_grows s s' n body : grows s s' -> at_node s n (fun x => body_ok x body) -> at_node s' n (fun x => body_ok x body).
Proof.
  intros G (x & Hx & Px). destruct (G _ _ Hx) as (x' & Hx' & E & I). exists x'; split; auto.
  intros J. eapply allowed_lev; eauto.
Qed.

Lemma add_nth (r n : nat) (x : lnode) (k c : nat) (m : lstate) : nth_error (lnodes m) n = Some x -> forall j,
  nth_error (add_kid C r (lnodes m) n x k c) j =
  if j =? n then Some (mkLn (lev x) (l_reorder C r ((k, c) :: kids x))) else nth_error (lnodes m) j.
Proof.
  intros E j. unfold add_kid. destruct (Nat.eqb_spec j n) as [->|D].
  - eapply set_node_eq; eauto.
  - apply set_node_ne; auto.
Qed.

Lemma in_reorder r k c l d : In d (map snd (l_reorder C r ((k, c) :: l))) <-> d = c \/ In d (map snd l).
Proof.
  assert (P := Permutation_map snd (perm r ((k, c) :: l))). cbn in P. split; intros I.
  - apply (Permutation_in _ P) in I. destruct I; auto.
  - apply (Permutation_in _ (Permutation_sym P)). destruct I; [left|right]; auto.
Qed.

Lemma nodup_reorder r k c l : ~ In c (map snd l) -> NoDup (map snd l) -> NoDup (map snd (l_reorder C r ((k, c) :: l))).
Proof.
  intros I N. eapply Permutation_NoDup. { apply Permutation_sym, Permutation_map, perm. } cbn. constructor; auto.
Qed.

Lemma nth_snoc {T} (l : list T) v j : nth_error (l ++ [v]) j = if j =? length l then Some v else nth_error l j.
Proof.
  destruct (Nat.eqb_spec j (length l)) as [->|D].
  - rewrite nth_error_app2, Nat.sub_diag; auto.
  - destruct (Nat.lt_ge_cases j (length l)).
    + apply nth_error_app1; auto.
    + rewrite (proj2 (nth_error_None l j)); auto. apply nth_error_None. rewrite app_length; cbn. lia.
Qed.

Lemma nth_lt {T} (l : list T) j v : nth_error l j = Some v -> j < length l.
Proof. intros E. apply nth_error_Some. congruence. Qed.

(** A new child. *)
Lemma new_child s t n x k r tb o td :
  tree_ok s -> nth_error (lnodes s) n = Some x ->
  (private x /\ tb = table s) \/
  (tb = ((lev x, k), length (lnodes s)) :: table s /\ find_id (lev x, k) (table s) = None) ->
  let s' := mkLs (add_kid C r (lnodes s) n x k (length (lnodes s)) ++ [mkLn (S (lev x)) []]) tb o td in
  tree_ok s' /\ grows s s' /\ (owner s (LNode n) = Some t -> only s s' t).
Proof.
  intros T E Tb0 s'.
  assert (Tb : forall l k' c, find_id (l, k') tb = Some c ->
     (c = length (lnodes s) /\ l = lev x /\ k' = k) \/ find_id (l, k') (table s) = Some c).
  { destruct Tb0 as [[_ ->]|[-> _]]; auto. intros l k' c. cbn. destruct ((lev x =? l) && (k =? k')) eqn:Ee; auto.
    apply andb_prop in Ee as [E1 E2]. apply Nat.eqb_eq in E1, E2. intros [= <-]. left; auto. }
  assert (Tk : forall l k' c, find_id (l, k') (table s) = Some c -> find_id (l, k') tb = Some c).
  { destruct Tb0 as [[_ ->]|[-> Nn]]; auto. intros l k' c. cbn. destruct ((lev x =? l) && (k =? k')) eqn:Ee; auto.
    apply andb_prop in Ee as [E1 E2]. apply Nat.eqb_eq in E1, E2. subst. congruence. }
  assert (Tn : ~ private x -> find_id (lev x, k) tb = Some (length (lnodes s))).
  { destruct Tb0 as [[Pv ->]|[-> Nn]]; [contradiction|]. intros _. cbn. now rewrite !Nat.eqb_refl. }
  set (L := length (lnodes s)).
  assert (Ln : n < L) by (eapply nth_lt; eauto).
  assert (N : forall j, nth_error (lnodes s') j =
     if j =? L then Some (mkLn (S (lev x)) []) else
     if j =? n then Some (mkLn (lev x) (l_reorder C r ((k, L) :: kids x))) else nth_error (lnodes s) j).
  { intros j. cbn. rewrite nth_snoc. unfold add_kid at 1. rewrite set_node_length. fold L.
    destruct (j =? L); auto. apply (add_nth r n x k L s); auto. }
  assert (F : forall m y c, nth_error (lnodes s) m = Some y -> In c (map snd (kids y)) -> c < L).
  { intros m y c Em I. destruct (tk_lev _ T _ _ _ Em I) as (z & Ez & _). eapply nth_lt; eauto. }
  assert (O : forall m y, nth_error (lnodes s) m = Some y -> m <> L).
  { intros m y Em. apply nth_lt in Em. unfold L; lia. }
  assert (G : grows s s').
  { intros m y Em. rewrite N. rewrite (proj2 (Nat.eqb_neq m L)) by eauto.
    destruct (Nat.eqb_spec m n) as [->|D].
    - rewrite E in Em; injection Em as <-. eexists; split; [reflexivity|]; split; auto. intros d I. cbn [kids].
      apply in_reorder; auto.
    - exists y; split; auto. split; auto. apply incl_refl. }
  assert (O' : owner s (LNode n) = Some t -> only s s' t).
  { intros Ow m y Em. destruct (Nat.eq_dec m n) as [->|D]; auto. left. rewrite N.
    rewrite (proj2 (Nat.eqb_neq m L)) by eauto. rewrite (proj2 (Nat.eqb_neq m n) D). auto. }
  split; [|split]; auto. constructor.
  - intros m y c. rewrite N. destruct (Nat.eqb_spec m L); [intros [= <-] []|].
    destruct (Nat.eqb_spec m n) as [->|D].
    + intros [= <-] I. cbn [kids] in I. apply in_reorder in I. destruct I as [->|I].
      * exists (mkLn (S (lev x)) []). rewrite N, Nat.eqb_refl. auto.
      * destruct (tk_lev _ T _ _ _ E I) as (z & Ez & Lz). destruct (G _ _ Ez) as (z' & Ez' & Lz' & _).
        exists z'. rewrite Ez'. cbn. split; auto; lia.
    + intros Em I. destruct (tk_lev _ T _ _ _ Em I) as (z & Ez & Lz). destruct (G _ _ Ez) as (z' & Ez' & Lz' & _).
      exists z'. rewrite Ez'. split; auto; lia.
  - assert (X : forall m y c, nth_error (lnodes s') m = Some y -> In c (map snd (kids y)) ->
               (c = L /\ m = n) \/ exists y0, nth_error (lnodes s) m = Some y0 /\ lev y0 = lev y /\ In c (map snd (kids y0))).
    { intros m y c. rewrite N. destruct (Nat.eqb_spec m L); [intros [= <-] []|].
      destruct (Nat.eqb_spec m n) as [->|D].
      - intros [= <-] I. cbn [kids] in I. apply in_reorder in I. destruct I as [->|I]; auto. right; exists x; auto.
      - intros Em I. right; exists y; auto. }
    intros m y m' y' c Em Em' Pv I I'.
    destruct (X _ _ _ Em I) as [[-> ->]|(y0 & E0 & L0 & I0)].
    + destruct (X _ _ _ Em' I') as [[_ ->]|(y0' & E0' & L0' & I0')]; auto.
      apply (F m' y0') in I0'; auto. unfold L in I0'. lia.
    + destruct (X _ _ _ Em' I') as [[-> ->]|(y0' & E0' & L0' & I0')].
      * apply (F m y0) in I0; auto. unfold L in I0. lia.
      * eapply (tk_one _ T m y0 m' y0'); eauto. eapply private_lev; eauto.
  - intros m y. rewrite N. destruct (Nat.eqb_spec m L); [intros [= <-]; constructor|].
    destruct (Nat.eqb_spec m n) as [->|D].
    + intros [= <-]. cbn [kids]. apply nodup_reorder.
      * intros I. apply (F n x) in I; auto. lia.
      * eapply (tk_nodup _ T n); eauto.
    + apply (tk_nodup _ T m).
  - intros m y k' c. rewrite N. destruct (Nat.eqb_spec m L); [intros [= <-] _ []|].
    destruct (Nat.eqb_spec m n) as [->|D].
    + intros [= <-] NPv I. cbn [kids lev table] in *. apply (Permutation_in _ (perm _ _)) in I. destruct I as [[= <- <-]|I].
      * apply Tn. exact NPv.
      * apply Tk. eapply (tk_shared _ T n x); eauto.
    + intros Em NPv I. apply Tk. eapply (tk_shared _ T m y); eauto.
  - intros l k1 l' k1' c E1 E2. cbn [table] in *. apply Tb in E1, E2.
    assert (Z : forall l k', find_id (l, k') (table s) <> Some (length (lnodes s))).
    { intros l0 k0 Ez. destruct (tk_tab _ T _ _ _ Ez) as (y & Ey & _). apply nth_lt in Ey. lia. }
    destruct E1 as [(-> & -> & ->)|E1], E2 as [(E2 & -> & ->)|E2]; auto; subst; try (exfalso; eapply Z; eauto; fail).
    eapply (tk_inj _ T); eauto.
  - intros l k' c Ef. cbn [table] in Ef. apply Tb in Ef. destruct Ef as [(-> & -> & ->)|Ef].
    + exists (mkLn (S (lev x)) []). rewrite N. fold L. rewrite Nat.eqb_refl. auto.
    + destruct (tk_tab _ T _ _ _ Ef) as (z & Ez & Lz). destruct (G _ _ Ez) as (z' & Ez' & Lz' & _).
      exists z'. split; auto; lia.
  - destruct (tk_root _ T) as (z & Ez & Lz). destruct (G _ _ Ez) as (z' & Ez' & Lz' & _). exists z'. split; auto; lia.
Qed.

(** A child found in the table. *)
Lemma old_child s t n x k r o td c :
  tree_ok s -> nth_error (lnodes s) n = Some x -> is_chance x = true -> l_tt C = true ->
  find_kid k (kids x) = None -> find_id (lev x, k) (table s) = Some c ->
  let s' := mkLs (add_kid C r (lnodes s) n x k c) (table s) o td in
  tree_ok s' /\ grows s s' /\ (owner s (LNode n) = Some t -> only s s' t).
Proof.
  intros T E Ch Tt Fk Ef s'.
  destruct (tk_tab _ T _ _ _ Ef) as (y0 & Ey0 & Ly0).
  assert (N : forall j, nth_error (lnodes s') j =
     if j =? n then Some (mkLn (lev x) (l_reorder C r ((k, c) :: kids x))) else nth_error (lnodes s) j)
    by (intros j; apply (add_nth r n x k c s); auto).
  assert (G : grows s s').
  { intros m y Em. rewrite N. destruct (Nat.eqb_spec m n) as [->|D].
    - rewrite E in Em; injection Em as <-. eexists; split; [reflexivity|]; split; auto. intros d I. cbn [kids].
      apply in_reorder; auto.
    - exists y; split; auto. split; auto. apply incl_refl. }
  assert (NP : forall y, lev y = lev x -> ~ private y).
  { intros y Ly [P|P]; [congruence|]. unfold is_chance in *. congruence. }
  assert (O' : owner s (LNode n) = Some t -> only s s' t).
  { intros Ow m y Em. destruct (Nat.eq_dec m n) as [->|D]; auto. left. rewrite N.
    rewrite (proj2 (Nat.eqb_neq m n) D). auto. }
  split; [|split]; auto. constructor.
  - intros m y d. rewrite N. destruct (Nat.eqb_spec m n) as [->|D].
    + intros [= <-] I. cbn [kids] in I. apply in_reorder in I. destruct I as [->|I].
      * destruct (G _ _ Ey0) as (z' & Ez' & Lz' & _). exists z'. rewrite Ez'. cbn. split; auto; lia.
      * destruct (tk_lev _ T _ _ _ E I) as (z & Ez & Lz). destruct (G _ _ Ez) as (z' & Ez' & Lz' & _).
        exists z'. rewrite Ez'. cbn. split; auto; lia.
    + intros Em I. destruct (tk_lev _ T _ _ _ Em I) as (z & Ez & Lz). destruct (G _ _ Ez) as (z' & Ez' & Lz' & _).
      exists z'. rewrite Ez'. split; auto; lia.
  - intros m y m' y' d. rewrite !N.
    destruct (Nat.eqb_spec m n) as [->|D]. { intros [= <-] _ Pv. exfalso. eapply NP; [|eauto]. auto. }
    destruct (Nat.eqb_spec m' n) as [->|D'].
    + intros Em [= <-] Pv I I'. cbn [kids] in I'. apply in_reorder in I'. destruct I' as [->|I'].
      * destruct (tk_lev _ T _ _ _ Em I) as (z & Ez & Lz). rewrite Ey0 in Ez. injection Ez as <-.
        exfalso. eapply (NP y); auto. lia.
      * eapply (tk_one _ T m y n x); eauto.
    + intros. eapply (tk_one _ T m y m' y'); eauto.
  - intros m y. rewrite N. destruct (Nat.eqb_spec m n) as [->|D].
    + intros [= <-]. cbn [kids]. apply nodup_reorder; [|eapply (tk_nodup _ T n); eauto].
      intros I. apply in_map_iff in I as ([k' c'] & Ec & I). cbn in Ec. subst c'.
      assert (Es : find_id (lev x, k') (table s) = Some c) by (eapply (tk_shared _ T n x); eauto).
      destruct (tk_inj _ T _ _ _ _ _ Ef Es) as [_ <-]. eapply find_kid_none; eauto.
    + apply (tk_nodup _ T m).
  - intros m y k' d. rewrite N. destruct (Nat.eqb_spec m n) as [->|D].
    + intros [= <-] NPv I. cbn [kids lev table] in *. apply (Permutation_in _ (perm _ _)) in I. destruct I as [[= <- <-]|I]; auto.
      eapply (tk_shared _ T n x); eauto.
    + intros Em NPv I. eapply (tk_shared _ T m y); eauto.
  - apply (tk_inj _ T).
  - intros l k' d Ed. cbn [table] in Ed. destruct (tk_tab _ T _ _ _ Ed) as (z & Ez & Lz).
    destruct (G _ _ Ez) as (z' & Ez' & Lz' & _). exists z'. split; auto; lia.
  - destruct (tk_root _ T) as (z & Ez & Lz). destruct (G _ _ Ez) as (z' & Ez' & Lz' & _). exists z'. split; auto; lia.
Qed.

(** * The invariant holds in every reachable state *)
Lemma inv_init : inv linit.
Proof.
  split.
  - constructor; cbn.
    + intros [|[|n]] x c; cbn; try discriminate. intros [= <-] [].
    + intros [|[|n]] x n' x' c; cbn; try discriminate. intros [= <-] _ _ [].
    + intros [|[|n]] x; cbn; try discriminate. intros [= <-]. constructor.
    + intros [|[|n]] x k c; cbn; try discriminate. intros [= <-] _ [].
    + discriminate.
    + discriminate.
    + exists (mkLn 0 []); auto.
  - exists (fun _ => PIdle). split; [|split]; cbn; auto. intros l t; split; [discriminate|intros []].
Qed.

Lemma set_todo_eq f t v : set_todo f t v t = v.
Proof. unfold set_todo. now rewrite Nat.eqb_refl. Qed.
Lemma set_todo_ne f t v u : u <> t -> set_todo f t v u = f u.
Proof. intros D. unfold set_todo. now rewrite (proj2 (Nat.eqb_neq u t) D). Qed.

Ltac frame t p := match goal with ph : nat -> phase |- inv ?s' => match goal with H : forall u, todo ?s u = code (ph u) |- _ =>
   apply (move s s' ph t p);
   [try assumption; try (apply (tree_same s); auto; fail) | try assumption; try (apply grows_refl; auto; fail)
   | try assumption; try (apply only_refl; auto; fail) | assumption | assumption | assumption
   | solve [cbn; intros; apply set_todo_ne; assumption]
   | cbn; rewrite ?set_todo_eq; try reflexivity | | ] end end.

Lemma tail_cons n a body : tail n (a :: body) = compile n a ++ tail n body.
Proof. unfold tail. cbn [flat_map]. now rewrite <- app_assoc. Qed.

Lemma body_tl s n a body : at_node s n (fun x => body_ok x (a :: body)) -> at_node s n (fun x => body_ok x body).
Proof. intros (x & E & H). exists x; split; auto. intros I. apply H. right; auto. Qed.

Lemma main_case s s' ph t n body k r :
  tree_ok s -> (forall t, todo s t = code (ph t)) -> (forall t, phase_ok s (ph t)) ->
  (forall l t, owner s l = Some t <-> In l (held (ph t))) ->
  todo s t = tail n body -> at_node s n (fun x => body_ok x body) -> held (ph t) = [LNode n] ->
  lstep C s (LGo t k r) = Some s' -> inv s'.
Proof.
  intros T Ht Hp Ho Et Op Hh St. cbn in St.
      destruct body as [|a body].
      * rewrite Et in St. cbn in St. injection St as <-.
        frame t PIdle. { exact I. }
        apply unlock_own; auto; rewrite ?Hh; cbn; auto. intros l; intuition.
      * rewrite tail_cons in Et. pose proof (body_tl _ _ _ _ Op) as Ob. destruct a; cbn in Et; rewrite Et in St.
        -- (* all children *)
           destruct Op as (x & Ex & Bx). rewrite Ex in St. cbn in St. injection St as <-.
           set (cs := map snd (kids x)).
           assert (Pv : allowed x) by (apply Bx; left; auto).
           frame t (PKids n [] cs body).
           ++ unfold all_code, cs. rewrite !map_map, <- app_assoc. reflexivity.
           ++ exists x; split; auto. split. { destruct Ob as (x' & Ex' & Bx'). rewrite Ex in Ex'; injection Ex' as <-; auto. }
              split; [|split]; auto. eapply (tk_nodup _ T); eauto.
           ++ apply keep_own; auto.
        -- (* one child *)
           destruct Op as (x & Ex & Bx). rewrite Ex in St. cbn in St. injection St as <-.
           destruct (find_kid k (kids x)) as [c|] eqn:Ef.
           ++ frame t (PKids n [] [c] body).
              ** exists x; split; auto. split. { destruct Ob as (x' & Ex' & Bx'). rewrite Ex in Ex'; injection Ex' as <-; auto. }
                 split; [|split]; auto.
                 --- intros d [<-|[]]. eapply find_kid_in; eauto.
                 --- constructor; [intros []|constructor].
              ** apply keep_own; auto.
           ++ frame t (PMain n body). { exact Ob. } apply keep_own; auto.
        -- (* random number *)
           destruct (owner s LRng) eqn:El; [discriminate|]. injection St as <-.
           frame t (PRng n body). { exact Ob. } apply lock_own; auto. rewrite ?Hh. cbn. intros l. intuition.
        -- (* a child *)
           destruct Op as (x & Ex & Bx). rewrite Ex in St. cbn in St. injection St as <-. unfold grow.
           destruct (find_kid k (kids x)) as [c|] eqn:Ef.
           { frame t (PMain n body). { exact Ob. } apply keep_own; auto. }
           destruct (l_tt C && is_chance x) eqn:Ec.
           ++ apply andb_prop in Ec as [Ec1 Ec2].
              frame t (PTab0 n k (mutex_index C (lev x, k)) body).
              ** destruct Ob as (x' & Ex' & Bx'). rewrite Ex in Ex'; injection Ex' as <-. exists x; auto 10.
              ** apply keep_own; auto.
           ++ destruct (new_child s t n x k r (table s) (owner s) (set_todo (todo s) t (tail n body)) T Ex) as (T' & G & O').
              { left; split; auto. apply andb_false_iff in Ec. exact Ec. }
              assert (On : only s (mkLs (add_kid C r (lnodes s) n x k (length (lnodes s)) ++ [mkLn (S (lev x)) []]) (table s)
                        (owner s) (set_todo (todo s) t (tail n body))) t).
              { apply O'. apply Ho. rewrite Hh; left; auto. }
              frame t (PMain n body). { eapply (body_grows s); eauto. }
              apply keep_own; auto.
Qed.

Lemma inv_step s lb s' : inv s -> lstep C s lb = Some s' -> inv s'.
Proof.
  intros [T (ph & Ht & Hp & Ho)] St. destruct lb as [t n b | t q | t k r]; cbn in St.
  - (* begin a section *)
    destruct (todo s t) eqn:Et; [|discriminate].
    destruct (nth_error (lnodes s) n) as [x|] eqn:En; [|discriminate].
    destruct (nth_error (l_bodies C (is_chance x)) b) as [body|] eqn:Eb; [|discriminate]. injection St as <-.
    frame t (PStart n body).
    + exists x; split; auto. intros I. exists body. split; auto. eapply nth_error_In; eauto.
    + apply keep_own; auto. rewrite Ht in Et. destruct (ph t); cbn in Et; try discriminate; auto.
      * unfold tail in Et. destruct body0 as [|[] ?]; discriminate.
      * destruct post; [destruct pre|]; try discriminate. destruct body0 as [|[] ?]; discriminate.
      * destruct suf; try discriminate. destruct body0 as [|[] ?]; discriminate.
  - (* log *)
    destruct (todo s t) eqn:Et; [|discriminate]. destruct (l_log C); [|discriminate].
    assert (Hh : held (ph t) = []).
    { rewrite Ht in Et. destruct (ph t); cbn in Et; try discriminate; auto.
      * unfold tail in Et. destruct body as [|[] ?]; discriminate.
      * destruct post; [destruct pre|]; try discriminate. destruct body as [|[] ?]; discriminate.
      * destruct suf; try discriminate. destruct body as [|[] ?]; discriminate. }
    injection St as <-. destruct q.
    + frame t PQuiet0. { exact I. } apply keep_own; auto.
    + frame t PLog0. { exact I. } apply keep_own; auto.
  - (* an operation *)
    pose proof (Ht t) as Et. pose proof (Hp t) as Op.
    destruct (ph t) as [|n body|n body|n body|n pre post body|n suf body|n k0 i body|n k0 i body|n k0 i body| | | | |] eqn:Ep;
      cbn [code phase_ok] in Et, Op.
    + rewrite Et in St. discriminate.
    + (* PStart *)
      rewrite Et in St. destruct (owner s (LNode n)) eqn:El; [discriminate|]. injection St as <-.
      frame t (PMain n body). { exact Op. } apply lock_own; auto. rewrite Ep. cbn. intros l. intuition.
    + (* PMain *)
      eapply (main_case s s' ph t n body k r); eauto. { rewrite Ep; auto. }
    + (* PRng *)
      rewrite Et in St. cbn in St. injection St as <-.
      frame t (PMain n body). { exact Op. }
      apply unlock_own; auto; rewrite Ep; cbn; auto. intros l; intuition; subst; discriminate.
    + (* PKids *)
      destruct post as [|c post].
      * cbn [map app] in Et. rewrite app_nil_r in Et, Op. destruct pre as [|c pre].
        -- eapply (main_case s s' ph t n body k r); eauto. 2: { rewrite Ep; auto. }
           destruct Op as (x & Ex & Bx & _); exists x; auto.
        -- cbn in Et. rewrite Et in St. unfold ul at 1 in St. cbn in St. injection St as <-.
           destruct Op as (x & Ex & Bx & K1 & K2 & K3). inversion K2; subst.
           frame t (PUn n pre body).
           ++ exists x; split; auto. split; auto. split; [|split]; auto.
              { intros d I. apply K1; right; auto. } destruct K3; auto. right; cbn in *; lia.
           ++ apply unlock_own; auto; rewrite Ep; cbn; auto. intros l. split.
              ** intros [<-|I]; split; auto.
                 --- intros [= ->]. eapply (no_self s c x); eauto. apply K1; left; auto.
                 --- intros ->. apply in_map_node in I. contradiction.
              ** intros [D [<-|[<-|I]]]; auto. congruence.
      * cbn [map app] in Et. rewrite Et in St. unfold lk at 1 in St.
        destruct (owner s (LNode c)) eqn:El; [discriminate|]. injection St as <-.
        frame t (PKids n (pre ++ [c]) post body).
        -- rewrite <- app_assoc. reflexivity.
        -- cbn [phase_ok]. destruct Op as (x & Ex & Bx & K). exists x; split; auto. rewrite <- app_assoc. auto.
        -- apply lock_own; auto. rewrite Ep. cbn. intros l. rewrite map_app, in_app_iff. cbn. intuition.
    + (* PUn *)
      destruct suf as [|c suf].
      * eapply (main_case s s' ph t n body k r); eauto. 2: { rewrite Ep; auto. }
        destruct Op as (x & Ex & Bx & _); exists x; auto.
      * cbn in Et. rewrite Et in St. unfold ul at 1 in St. cbn in St. injection St as <-.
        destruct Op as (x & Ex & Bx & K1 & K2 & K3). inversion K2; subst.
        frame t (PUn n suf body).
        -- exists x; split; auto. split; auto. split; [|split]; auto.
           { intros d I. apply K1; right; auto. } destruct K3; auto. right; cbn in *; lia.
        -- apply unlock_own; auto; rewrite Ep; cbn; auto. intros l. split.
           ++ intros [<-|I]; split; auto.
              ** intros [= ->]. eapply (no_self s c x); eauto. apply K1; left; auto.
              ** intros ->. apply in_map_node in I. contradiction.
           ++ intros [D [<-|[<-|I]]]; auto. congruence.
    + (* PTab0 *)
      rewrite Et in St. destruct (owner s (LTable i)) eqn:El; [discriminate|]. injection St as <-.
      frame t (PTab1 n k0 i body). { exact Op. } apply lock_own; auto. rewrite Ep. cbn. intros l. intuition.
    + (* PTab1 *)
      rewrite Et in St. destruct Op as (x & Ex & Bx & Ch & Tt & Hi & Fk). rewrite Ex in St. cbn [option_map] in St. injection St as <-.
      assert (Ow : owner s (LNode n) = Some t) by (apply Ho; rewrite Ep; left; auto).
      unfold touch. destruct (find_id (lev x, k0) (table s)) as [c|] eqn:Ef.
      * destruct (old_child s t n x k0 r (owner s) (set_todo (todo s) t (IUnlock (LTable i) :: tail n body)) c T Ex Ch Tt Fk Ef)
          as (T' & G & O').
        specialize (O' Ow). frame t (PTab2 n k0 i body).
        -- eapply (body_grows s); eauto. exists x; auto.
        -- apply keep_own; auto. rewrite Ep; auto.
      * destruct (new_child s t n x k0 r (((lev x, k0), length (lnodes s)) :: table s) (owner s)
                    (set_todo (todo s) t (IUnlock (LTable i) :: tail n body)) T Ex) as (T' & G & O').
        { right; auto. }
        specialize (O' Ow). frame t (PTab2 n k0 i body).
        -- eapply (body_grows s); eauto. exists x; auto.
        -- apply keep_own; auto. rewrite Ep; auto.
    + (* PTab2 *)
      rewrite Et in St. cbn in St. injection St as <-.
      frame t (PMain n body). { exact Op. }
      apply unlock_own; auto; rewrite Ep; cbn; auto. intros l; intuition; subst; discriminate.
    + rewrite Et in St. unfold log_code in St. destruct (owner s LLog) eqn:El; [discriminate|]. injection St as <-.
      frame t PLog1. { exact I. } apply lock_own; auto. rewrite Ep. cbn. intros l. intuition.
    + rewrite Et in St. destruct (owner s (LNode 0)) eqn:El; [discriminate|]. injection St as <-.
      frame t PLog2. { exact I. } apply lock_own; auto. rewrite Ep. cbn. intros l. intuition.
    + rewrite Et in St. cbn in St. injection St as <-.
      frame t PLog3. { exact I. }
      apply unlock_own; auto; rewrite Ep; cbn; auto. intros l; intuition; subst; discriminate.
    + rewrite Et in St. cbn in St. injection St as <-.
      frame t PIdle. { exact I. }
      apply unlock_own; auto; rewrite Ep; cbn; auto. intros l; intuition.
    + rewrite Et in St. unfold log_quiet_code in St. destruct (owner s LLog) eqn:El; [discriminate|]. injection St as <-.
      frame t PLog3. { exact I. } apply lock_own; auto. rewrite Ep. cbn. intros l. intuition.
Qed.

Lemma inv_run ls : forall s s', inv s -> lrun C s ls = Some s' -> inv s'.
Proof.
  induction ls as [|l ls IH]; intros s s' I E; cbn in E; [injection E as <-; auto|].
  destruct (lstep C s l) as [s1|] eqn:St; [|discriminate]. eapply IH; [|eauto]. eapply inv_step; eauto.
Qed.

Lemma inv_reach s : lreach C s -> inv s.
Proof. intros (ls & E). eapply inv_run; [apply inv_init|eauto]. Qed.

(** * Waiting goes up *)
Definition rank (s : lstate) (M : nat) (l : lockid) : nat :=
  match l with
  | LLog => 0
  | LNode n => match nth_error (lnodes s) n with Some x => S (lev x) | None => 0 end
  | LTable _ | LRng => S (S M)
  end.

Definition bounded (s : lstate) (M : nat) : Prop := forall n x, nth_error (lnodes s) n = Some x -> lev x <= M.

Lemma bound_exists s : exists M, bounded s M.
Proof.
  unfold bounded. induction (lnodes s) as [|y l (M & IH)].
  - exists 0. intros [|n] x; discriminate.
  - exists (lev y + M). intros [|n] x; cbn. { intros [= ->]; lia. } intros E. apply IH in E. lia.
Qed.

Lemma rank_top s M l : bounded s M -> rank s M l <= S (S M).
Proof.
  intros B. destruct l; cbn; try lia. destruct (nth_error (lnodes s) n) eqn:E; [|lia]. apply B in E. lia.
Qed.

(** What a thread that wants a lock, and holds some, can be doing. *)
Lemma wants p l rest : code p = ILock l :: rest -> held p <> [] ->
  (exists n body, p = PMain n (ARng :: body) /\ l = LRng) \/
  (exists n pre c post body, p = PKids n pre (c :: post) body /\ l = LNode c) \/
  (exists n k i body, p = PTab0 n k i body /\ l = LTable i) \/
  (p = PLog1 /\ l = LNode 0) \/
  (exists n body, (p = PKids n [] [] (ARng :: body) \/ p = PUn n [] (ARng :: body)) /\ l = LRng).
Proof.
  assert (T : forall n body, tail n body = ILock l :: rest -> exists body', body = ARng :: body' /\ l = LRng).
  { intros n [|[] body] E; cbn in E; try discriminate. injection E as <- _. eauto. }
  destruct p; cbn; intros E H; try discriminate; try (exfalso; apply H; reflexivity); auto.
  - apply T in E as (b & -> & ->). left; eauto.
  - destruct post as [|c post].
    + destruct pre as [|c pre]; cbn in E; [|discriminate]. apply T in E as (b & -> & ->). do 4 right. eauto.
    + cbn in E. injection E as <- _. right; left. do 5 eexists; eauto.
  - destruct suf as [|c suf]; cbn in E; [|discriminate]. apply T in E as (b & -> & ->). do 4 right. eauto.
  - injection E as <- _. do 2 right. left. eauto 6.
  - injection E as <- _. do 3 right. left; auto.
Qed.

Hypothesis safe : l_tt C = false \/ chance_keeps_off C.

Lemma allowed_private x : allowed x -> private x.
Proof.
  intros (b & Ib & Ia). destruct safe as [S|S]; [left; auto|]. right.
  destruct (is_chance x) eqn:Ex; auto. exfalso. apply (S _ Ib Ia).
Qed.

Lemma climbs s M ph t u l l' rest rest' :
  tree_ok s -> bounded s M ->
  (forall t, todo s t = code (ph t)) -> (forall t, phase_ok s (ph t)) ->
  (forall l t, owner s l = Some t <-> In l (held (ph t))) ->
  todo s t = ILock l :: rest -> owner s l = Some u -> held (ph t) <> [] ->
  todo s u = ILock l' :: rest' -> rank s M l < rank s M l'.
Proof.
  intros T B Ht Hp Ho Wt Ou Hh Wu.
  assert (Hl := proj1 (Ho _ _) Ou). rewrite Ht in Wt, Wu. pose proof (Hp t) as Ot. pose proof (Hp u) as Oku.
  assert (Nr : forall n, rank s M (LNode n) <= S M).
  { intros n. cbn. destruct (nth_error (lnodes s) n) eqn:E; [|lia]. apply B in E. lia. }
  assert (Hu : held (ph u) <> []) by (intros Z; rewrite Z in Hl; destruct Hl).
  destruct (wants _ _ _ Wu Hu) as [(n & body & E & ->)|[(n & pre & c & post & body & E & ->)|[(n & k & i & body & E & ->)|[(E & ->)|(n & body & E & ->)]]]].
  - rewrite E in Hl. cbn in Hl. destruct Hl as [<-|[]]. specialize (Nr n). cbn [rank] in *. lia.
  - rewrite E in Hl, Oku. cbn in Hl, Oku. destruct Oku as (x & Ex & _ & K1 & K2 & K3).
    assert (Ic : In c (map snd (kids x))) by (apply K1, in_or_app; right; left; auto).
    destruct (tk_lev _ T _ _ _ Ex Ic) as (y & Ey & Ly).
    destruct Hl as [<-|Hl].
    + cbn. rewrite Ex, Ey. lia.
    + exfalso. apply in_map_iff in Hl as (d & <- & Id).
      assert (Idx : In d (map snd (kids x))) by (apply K1, in_or_app; left; auto).
      assert (Pv : private x).
      { apply allowed_private. destruct K3 as [K3|K3]; auto. rewrite app_length in K3. cbn in K3. destruct pre; [destruct Id|cbn in K3; lia]. }
      destruct (wants _ _ _ Wt Hh) as [(n' & body' & E' & Z)|[(n' & pre' & c' & post' & body' & E' & Z)|[(n' & k & i & body' & E' & Z)|[(E' & Z)|(n' & body' & E' & Z)]]]]; try discriminate.
      * injection Z as <-. rewrite E' in Ot. cbn in Ot. destruct Ot as (x' & Ex' & _ & K1' & K2' & _).
        assert (Idx' : In d (map snd (kids x'))) by (apply K1', in_or_app; right; left; auto).
        assert (n = n') by (eapply (tk_one _ T n x n' x'); eauto). subst n'.
        assert (owner s (LNode n) = Some t) by (apply Ho; rewrite E'; left; auto).
        assert (owner s (LNode n) = Some u) by (apply Ho; rewrite E; left; auto).
        assert (t = u) by congruence. subst u. rewrite E in E'. injection E' as <- <- <- <-.
        apply NoDup_remove_2 in K2. apply K2, in_or_app; auto.
      * injection Z as ->. destruct (tk_lev _ T _ _ _ Ex Idx) as (z & Ez & Lz).
        destruct (tk_root _ T) as (z0 & Ez0 & Lz0). rewrite Ez in Ez0. injection Ez0 as <-. lia.
  - rewrite E in Hl. cbn in Hl. destruct Hl as [<-|[]]. specialize (Nr n). cbn [rank] in *. lia.
  - rewrite E in Hl. cbn in Hl. destruct Hl as [<-|[]]. destruct (tk_root _ T) as (z0 & Ez0 & Lz0). cbn [rank]. rewrite Ez0. lia.
  - destruct E as [E|E]; rewrite E in Hl; cbn in Hl; destruct Hl as [<-|[]]; specialize (Nr n); cbn [rank] in *; lia.
Qed.

Lemma ready s t : inv s -> todo s t <> [] -> (forall u, ~ waits s t u) -> can_go C s t.
Proof.
  intros [T (ph & Ht & Hp & Ho)] N W. split; auto. intros k r. cbn.
  assert (X : forall n rest body, tail n body = rest -> at_node s n (fun _ => True) -> todo s t = rest ->
     exists s', match rest with
      | [] => None
      | ILock l :: rest =>
          match owner s l with
          | None => Some (mkLs (lnodes s) (table s) (set_owner (owner s) l (Some t)) (set_todo (todo s) t rest))
          | Some _ => None
          end
      | IUnlock l :: rest =>
          Some (mkLs (lnodes s) (table s) (set_owner (owner s) l None) (set_todo (todo s) t rest))
      | IAll n :: rest => option_map (fun x => with_todo s t (all_code x ++ rest)) (nth_error (lnodes s) n)
      | IOne n :: rest =>
          option_map (fun x => match find_kid k (kids x) with
                               | Some c => with_todo s t (ILock (LNode c) :: IUnlock (LNode c) :: rest)
                               | None => with_todo s t rest
                               end) (nth_error (lnodes s) n)
      | IGrow n :: rest => option_map (fun x => grow C s t n k r x rest) (nth_error (lnodes s) n)
      | ITouch n k' :: rest => option_map (fun x => touch C s t n k' r x rest) (nth_error (lnodes s) n)
      end = Some s').
  { intros n rest body <- (x & Ex & _) Et. destruct body as [|[] body]; cbn; rewrite ?Ex; cbn; eauto.
    destruct (owner s LRng) as [u|] eqn:Eo; eauto. exfalso. apply (W u). exists LRng. rewrite Et. cbn. eauto. }
  assert (Y : forall l rest, todo s t = ILock l :: rest -> owner s l = None).
  { intros l rest E. destruct (owner s l) as [u|] eqn:Eo; auto. exfalso. apply (W u). exists l, rest; auto. }
  pose proof (Ht t) as Et. pose proof (Hp t) as Op.
  destruct (ph t) as [|n body|n body|n body|n pre post body|n suf body|n k0 i body|n k0 i body|n k0 i body| | | | |] eqn:Ep;
      cbn [code phase_ok] in Et, Op; try (destruct Op as (x & Ex & Op)).
  - congruence.
  - rewrite Et. erewrite Y by eauto. eauto.
  - rewrite Et. eapply X; eauto. exists x; auto.
  - rewrite Et. eauto.
  - destruct post as [|c post]; [destruct pre as [|c pre]|].
    + rewrite Et. eapply (X n _ body); eauto. exists x; auto.
    + rewrite Et. cbn. eauto.
    + cbn in Et. unfold lk at 1 in Et. rewrite Et. erewrite Y by eauto. eauto.
  - destruct suf as [|c suf].
    + rewrite Et. eapply (X n _ body); eauto. exists x; auto.
    + rewrite Et. cbn. eauto.
  - rewrite Et. erewrite Y by eauto. eauto.
  - rewrite Et, Ex. cbn. eauto.
  - rewrite Et. eauto.
  - rewrite Et. unfold log_code in *. erewrite Y by eauto. eauto.
  - rewrite Et. erewrite Y by eauto. eauto.
  - rewrite Et. eauto.
  - rewrite Et. eauto.
  - rewrite Et. unfold log_quiet_code in *. erewrite Y by eauto. eauto.
Qed.

Lemma waits_dec s t : (exists u, waits s t u) \/ (forall u, ~ waits s t u).
Proof.
  unfold waits. destruct (todo s t) as [|[l| | | | |] rest]; try (right; intros u (l' & r' & E & _); discriminate).
  destruct (owner s l) as [u|] eqn:E.
  - left. exists u, l, rest; auto.
  - right. intros u (l' & r' & [= <- <-] & E'). congruence.
Qed.

Lemma progress s t : inv s -> todo s t <> [] -> exists u, waits_star s t u /\ can_go C s u.
Proof.
  intros I. pose proof I as [T (ph & Ht & Hp & Ho)]. destruct (bound_exists s) as (M & B).
  assert (X : forall d t l rest, held (ph t) <> [] -> todo s t = ILock l :: rest -> S (S M) - rank s M l < d ->
                exists u, waits_star s t u /\ can_go C s u).
  { induction d as [|d IH]; intros v l rest Hh E D; [lia|].
    destruct (waits_dec s v) as [(u & W)|W].
    - pose proof W as (l0 & rest0 & E0 & O0). rewrite E in E0. injection E0 as <- <-.
      assert (Hu : held (ph u) <> []) by (apply Ho in O0; intros Z; rewrite Z in O0; destruct O0).
      destruct (waits_dec s u) as [(w & W')|W'].
      + pose proof W' as (l1 & rest1 & E1 & O1).
        assert (rank s M l < rank s M l1) by (eapply climbs; eauto).
        assert (rank s M l1 <= S (S M)) by (apply rank_top; auto).
        destruct (IH u l1 rest1 Hu E1) as (z & Z1 & Z2); [lia|]. exists z; split; auto. eapply ws_more; eauto.
      + exists u; split. { eapply ws_more; eauto. constructor. } apply ready; auto.
        intros Z. rewrite Ht in Z. apply Hu.
        destruct (ph u); cbn in Z; try discriminate; auto.
        * destruct body as [|[] ?]; discriminate.
        * destruct post; [destruct pre|]; try discriminate. destruct body as [|[] ?]; discriminate.
        * destruct suf; try discriminate. destruct body as [|[] ?]; discriminate.
    - exists v; split; [constructor|]. apply ready; auto. congruence. }
  intros N. destruct (waits_dec s t) as [(u & W)|W].
  - pose proof W as (l & rest & E & O).
    assert (Hu : held (ph u) <> []) by (apply Ho in O; intros Z; rewrite Z in O; destruct O).
    destruct (waits_dec s u) as [(w & W')|W'].
    + pose proof W' as (l1 & rest1 & E1 & O1).
      destruct (X (S (S (S M))) u l1 rest1 Hu E1) as (z & Z1 & Z2); [lia|]. exists z; split; auto. eapply ws_more; eauto.
    + exists u; split. { eapply ws_more; eauto. constructor. } apply ready; auto.
      intros Z. rewrite Ht in Z. apply Hu.
      destruct (ph u); cbn in Z; try discriminate; auto.
      * destruct body as [|[] ?]; discriminate.
      * destruct post; [destruct pre|]; try discriminate. destruct body as [|[] ?]; discriminate.
      * destruct suf; try discriminate. destruct body as [|[] ?]; discriminate.
  - exists t; split; [constructor|]. apply ready; auto.
Qed.

Lemma waits_fun s t u v : waits s t u -> waits s t v -> u = v.
Proof. intros (l & r & E & O) (l' & r' & E' & O'). congruence. Qed.

Lemma no_deadlock s : inv s -> ~ deadlock s.
Proof.
  intros I (D & N & H). destruct D as [|t D]; [auto|].
  assert (It : In t (t :: D)) by (left; auto).
  assert (X : forall a b, waits_star s a b -> In a (t :: D) -> In b (t :: D)).
  { intros a b W. induction W; auto. intros Ia. destruct (H _ Ia) as (w & Iw & Ww).
    apply IHW. rewrite (waits_fun _ _ _ _ H0 Ww); auto. }
  destruct (H _ It) as (u & _ & (l & rest & E & O)).
  destruct (progress s t I) as (v & Wv & (_ & Cv)); [congruence|].
  destruct (H _ (X _ _ Wv It)) as (w & _ & (l' & rest' & E' & O')).
  destruct (Cv 0 0) as (s' & St). cbn in St. rewrite E', O' in St. discriminate.
Qed.
End Proofs.
