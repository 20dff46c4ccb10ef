(* Interleaved sections have the effect of whole sections: the section takes effect when it looks at other nodes. *)
From Coq Require Import List Arith Bool Lia.
From Verif Require Import SerialModel SerialSpec.
Import ListNotations.

Lemma addr_eqb_spec a b : reflect (a = b) (addr_eqb a b).
Proof.
  destruct a as [a1 a2], b as [b1 b2]. unfold addr_eqb. cbn.
  destruct (Nat.eqb_spec a1 b1), (Nat.eqb_spec a2 b2); cbn; constructor; congruence.
Qed.
Lemma upd_eq {X} (h : addr -> X) a x : upd h a x a = x.
Proof. unfold upd. destruct (addr_eqb_spec a a); congruence. Qed.
Lemma upd_ne {X} (h : addr -> X) a x b : b <> a -> upd h a x b = h b.
Proof. unfold upd. destruct (addr_eqb_spec b a); congruence. Qed.
Lemma updt_eq {X} (h : nat -> X) t x : updt h t x t = x.
Proof. unfold updt. now rewrite Nat.eqb_refl. Qed.
Lemma updt_ne {X} (h : nat -> X) t x u : u <> t -> updt h t x u = h u.
Proof. unfold updt. destruct (Nat.eqb_spec u t); congruence. Qed.

Section Proofs.
Context {V L T : Type}.
Variable next : L -> option (addr * list (micro V L T)).
Hypothesis once : forall l n p, next l = Some (n, p) -> looks_once p.

Notation micro := (micro V L T).
Notation cst := (cst V L T).
Notation sst := (sst V L T).

(** ** Parts that are local, as functions *)
Fixpoint owns (p : list micro) (v : V) (l : L) : V * L :=
  match p with
  | Own f :: r => let '(v1, l1) := f v l in owns r v1 l1
  | _ => (v, l)
  end.
Definition is_own (m : micro) : Prop := match m with Own _ => True | _ => False end.

(** Contents, local variables, counter, and new nodes after the given parts. *)
Fixpoint finish (t : nat) (p : list micro) (v : V) (l : L) (k : nat) : V * L * nat * list (addr * V) :=
  match p with
  | Own f :: r => let '(v1, l1) := f v l in finish t r v1 l1 k
  | New f :: r => let '(v1, l1, nw) := f v l (t, k) in
      let '(v2, l2, k2, ns) := finish t r v1 l1 (S k) in (v2, l2, k2, ((t, k), nw) :: ns)
  | _ => (v, l, k, [])
  end.

Lemma owns_snoc p f v l : Forall is_own p -> owns (p ++ [Own f]) v l = (let '(v1, l1) := owns p v l in f v1 l1).
Proof.
  intros F. revert v l. induction F as [|m p Hm F IH]; intros v l; cbn.
  - now destruct (f v l).
  - destruct m; try contradiction. destruct (f0 v l) as [v1 l1]. apply IH.
Qed.

Lemma execs_app t (n : addr) (p q : list micro) c : execs t n (p ++ q) c = match execs t n p c with Some c1 => execs t n q c1 | None => None end.
Proof. revert c. induction p as [|m p IH]; intros c; cbn; auto. destruct (exec t n m c); auto. Qed.

Lemma execs_owns t (n : addr) (p : list micro) : Forall is_own p -> forall (h : addr -> option V) tb l k v, h n = Some v ->
  exists h', execs t n p (h, tb, l, k) = Some (h', tb, snd (owns p v l), k) /\
             h' n = Some (fst (owns p v l)) /\ (forall x : addr, x <> n -> h' x = h x).
Proof.
  induction 1 as [|m p Hm F IH]; intros h tb l k v E; cbn [execs owns].
  - exists h. cbn. auto.
  - destruct m; try contradiction. cbn [exec]. rewrite E. destruct (f v l) as [v1 l1].
    destruct (IH (upd h n (Some v1)) tb l1 k v1 (upd_eq _ _ _)) as (h' & E1 & E2 & E3). exists h'. split; auto. split; auto.
    intros x N. rewrite E3; auto. now apply upd_ne.
Qed.

Lemma finish_fresh t p : forall v l k v1 l1 k1 ns, finish t p v l k = (v1, l1, k1, ns) ->
  k <= k1 /\ (forall x w, In (x, w) ns -> exists j, x = (t, j) /\ k <= j < k1) /\ NoDup (map fst ns).
Proof.
  induction p as [|m p IH]; intros v l k v1 l1 k1 ns; cbn [finish].
  - intros [= <- <- <- <-]. repeat split; auto; try constructor. intros x w [].
  - destruct m; try (intros [= <- <- <- <-]; repeat split; auto; try constructor; intros x w []).
    + destruct (f v l) as [v2 l2]. apply IH.
    + destruct (f v l (t, k)) as [[v2 l2] nw]. destruct (finish t p v2 l2 (S k)) as [[[v3 l3] k3] ns3] eqn:E.
      intros [= <- <- <- <-]. destruct (IH _ _ _ _ _ _ _ E) as (H1 & H2 & H3). split; [lia|]. split.
      * intros x w [[= <- <-]|I]; [exists k; split; auto; lia|]. destruct (H2 x w I) as (j & -> & J). exists j. split; auto. lia.
      * cbn. constructor; auto. intros I. apply in_map_iff in I as ((x & w) & E' & I). cbn in E'. subst.
        destruct (H2 _ _ I) as (j & [= <-] & J). lia.
Qed.

(** Finding a new node among the pending ones. *)
Lemma execs_finish t (n : addr) (p : list micro) : Forall local p -> forall (h : addr -> option V) tb l k v, h n = Some v -> (forall j, k <= j -> n <> (t, j)) ->
  exists h', execs t n p (h, tb, l, k) = Some (h', tb, snd (fst (fst (finish t p v l k))), snd (fst (finish t p v l k))) /\
             h' n = Some (fst (fst (fst (finish t p v l k)))) /\
             (forall x w, In (x, w) (snd (finish t p v l k)) -> h' x = Some w) /\
             (forall x : addr, x <> n -> (forall w, ~ In (x, w) (snd (finish t p v l k))) -> h' x = h x).
Proof.
  induction 1 as [|m p Hm F IH]; intros h tb l k v E Nn; cbn [execs finish].
  - exists h. cbn. repeat split; auto. intros x w [].
  - destruct m; try contradiction; cbn [exec]; rewrite E.
    + destruct (f v l) as [v1 l1].
      destruct (IH (upd h n (Some v1)) tb l1 k v1 (upd_eq _ _ _) Nn) as (h' & E1 & E2 & E3 & E4). exists h'.
      repeat split; auto. intros x N N'. rewrite E4; auto. now apply upd_ne.
    + destruct (f v l (t, k)) as [[v1 l1] nw]. cbn [alloc].
      assert (Nk : n <> (t, k)) by (apply Nn; lia).
      destruct (IH (upd (upd h n (Some v1)) (t, k) (Some nw)) tb l1 (S k) v1) as (h' & E1 & E2 & E3 & E4).
      { rewrite upd_ne; auto. apply upd_eq. }
      { intros j J. apply Nn. lia. }
      exists h'. rewrite E1. destruct (finish t p v1 l1 (S k)) as [[[v2 l2] k2] ns] eqn:Ef. cbn in *.
      repeat split; auto.
      * intros x w [[= <- <-]|I]; auto. rewrite E4; [apply upd_eq|congruence|].
        intros w I. destruct (finish_fresh _ _ _ _ _ _ _ _ _ Ef) as (_ & H2 & _). destruct (H2 _ _ I) as (j & [= <-] & J). lia.
      * intros x N N'. rewrite E4; auto.
        -- rewrite !upd_ne; auto. intros ->. exact (N' nw (or_introl eq_refl)).
        -- intros w I. exact (N' w (or_intror I)).
Qed.

(** ** Where a thread is *)

(** A section that has not taken effect: at node n, the parts p1 (all on its own members) are done, p2 is left. *)
Definition waiting (s : cst) (a : sst) (t : nat) (n : addr) (p2 : list micro) : Prop :=
  exists p1 v0 v, next (sloc a t) = Some (n, p1 ++ p2) /\ Forall is_own p1 /\ looks_once p2 /\
    cur (thrs s t) = n /\ owner s n = Some t /\ sheap a n = Some v0 /\ heap s n = Some v /\
    owns p1 v0 (sloc a t) = (v, loc (thrs s t)) /\ cnt (thrs s t) = scnt a t.

(** A section that has taken effect; p2 is left and will create the nodes ns. *)
Definition acting (s : cst) (a : sst) (t : nat) (n : addr) (p2 : list micro) (ns : list (addr * V)) : Prop :=
  exists v vf, Forall local p2 /\ cur (thrs s t) = n /\ owner s n = Some t /\ heap s n = Some v /\ sheap a n = Some vf /\
    finish t p2 v (loc (thrs s t)) (cnt (thrs s t)) = (vf, sloc a t, scnt a t, ns) /\
    (forall x w, In (x, w) ns -> sheap a x = Some w).

Definition rest (n : addr) (p : list micro) : list (op V L T) := flat_map ops p ++ [OUnlock n].

Inductive pos (s : cst) (a : sst) (t : nat) : option addr -> list (addr * V) -> Prop :=
| p_idle : code (thrs s t) = [] -> sloc a t = loc (thrs s t) -> scnt a t = cnt (thrs s t) -> pos s a t None []
| p_start n p : next (sloc a t) = Some (n, p) -> code (thrs s t) = OLock n :: rest n p -> cur (thrs s t) = n ->
    heap s n <> None -> sloc a t = loc (thrs s t) -> scnt a t = cnt (thrs s t) -> pos s a t None []
| p_before n p2 : waiting s a t n p2 -> code (thrs s t) = rest n p2 -> pos s a t (Some n) []
| p_lock n sel f p2 pre post : waiting s a t n (Look sel f :: p2) -> Forall local p2 ->
    (exists v, heap s n = Some v /\ sel v (loc (thrs s t)) = pre ++ post) ->
    code (thrs s t) = map OLock post ++ map ORead (pre ++ post) ++ OUse f :: map OUnlock (pre ++ post) ++ rest n p2 ->
    NoDup (n :: pre) -> (forall c, In c pre -> owner s c = Some t) -> buf (thrs s t) = [] -> pos s a t (Some n) []
| p_read n sel f p2 pre post : waiting s a t n (Look sel f :: p2) -> Forall local p2 ->
    (exists v, heap s n = Some v /\ sel v (loc (thrs s t)) = pre ++ post) ->
    code (thrs s t) = map ORead post ++ OUse f :: map OUnlock (pre ++ post) ++ rest n p2 ->
    NoDup (n :: pre ++ post) -> (forall c, In c (pre ++ post) -> owner s c = Some t) ->
    fetch (heap s) pre = Some (buf (thrs s t)) -> pos s a t (Some n) []
| p_unlock n p2 suf ns : acting s a t n p2 ns -> code (thrs s t) = map OUnlock suf ++ rest n p2 -> NoDup (n :: suf) ->
    (forall c, In c suf -> owner s c = Some t) -> pos s a t (Some n) ns
| p_table n f p2 : waiting s a t n (Table f :: p2) -> Forall local p2 ->
    code (thrs s t) = OTable f :: OUnlockT :: rest n p2 -> towner s = Some t -> pos s a t (Some n) []
| p_tabled n p2 ns : acting s a t n p2 ns -> code (thrs s t) = OUnlockT :: rest n p2 -> towner s = Some t -> pos s a t (Some n) ns
| p_after n p2 ns : acting s a t n p2 ns -> code (thrs s t) = rest n p2 -> pos s a t (Some n) ns.

Record sim (s : cst) (a : sst) : Prop := mkSim {
  s_tab : tab s = stab a;
  s_pos : exists (mid : nat -> option addr) (pend : nat -> list (addr * V)),
    (forall t, pos s a t (mid t) (pend t)) /\
    (forall x, (forall t, mid t <> Some x) -> (forall t w, ~ In (x, w) (pend t)) -> sheap a x = heap s x);
  s_fresh : forall t k, cnt (thrs s t) <= k -> heap s (t, k) = None;
  s_fresh' : forall t k, scnt a t <= k -> sheap a (t, k) = None
}.

Lemma fetch_same (h h' : addr -> option V) cs : (forall c, In c cs -> h' c = h c) -> fetch h' cs = fetch h cs.
Proof.
  induction cs as [|c cs IH]; intros H; cbn; auto. rewrite (H c (or_introl eq_refl)), IH; auto. intros d D. apply H. now right.
Qed.
Lemma fetch_snoc (h : addr -> option V) cs vs c v : fetch h cs = Some vs -> h c = Some v -> fetch h (cs ++ [c]) = Some (vs ++ [v]).
Proof.
  revert vs. induction cs as [|d cs IH]; cbn; intros vs E Ec; [injection E as <-; now rewrite Ec|].
  destruct (h d) as [w|]; [|discriminate]. destruct (fetch h cs) as [ws|]; [|discriminate]. injection E as <-.
  now rewrite (IH ws eq_refl Ec).
Qed.
Lemma fetch_some (h : addr -> option V) cs : forall vs, fetch h cs = Some vs -> forall c, In c cs -> h c <> None.
Proof.
  induction cs as [|d cs IH]; cbn; intros vs E c I; [destruct I|].
  destruct (h d) as [w|] eqn:Ed; [|discriminate]. destruct (fetch h cs) as [ws|]; [|discriminate].
  destruct I as [<-|I]; [congruence|exact (IH ws eq_refl c I)].
Qed.

(** What another thread needs to stay where it is. *)
Record calm (s s' : cst) (a a' : sst) (u : nat) : Prop := {
  k_thr : thrs s' u = thrs s u;
  k_loc : sloc a' u = sloc a u;
  k_cnt : scnt a' u = scnt a u;
  k_own : forall x, owner s x = Some u -> owner s' x = Some u;
  k_tow : towner s = Some u -> towner s' = Some u;
  k_heap : forall x, owner s x = Some u -> heap s x <> None -> heap s' x = heap s x;
  k_keep : forall x, heap s x <> None -> heap s' x <> None;
  k_sheap : forall x, owner s x = Some u -> heap s x <> None -> sheap a' x = sheap a x;
  k_new : forall k, sheap a' (u, k) = sheap a (u, k) \/ heap s (u, k) <> None
}.

Lemma waiting_calm s s' a a' u n p2 : calm s s' a a' u -> waiting s a u n p2 -> waiting s' a' u n p2.
Proof.
  intros K (p1 & v0 & v & H1 & H2 & H3 & H4 & H5 & H6 & H7 & H8 & H9). exists p1, v0, v.
  rewrite (k_thr _ _ _ _ _ K), (k_loc _ _ _ _ _ K), (k_cnt _ _ _ _ _ K).
  assert (Hn : heap s n <> None) by congruence.
  rewrite (k_own _ _ _ _ _ K n H5), (k_heap _ _ _ _ _ K n H5 Hn), (k_sheap _ _ _ _ _ K n H5 Hn).
  repeat split; auto.
Qed.

Lemma acting_calm s s' a a' u n p2 ns : (forall t k, cnt (thrs s t) <= k -> heap s (t, k) = None) ->
  calm s s' a a' u -> acting s a u n p2 ns -> acting s' a' u n p2 ns.
Proof.
  intros Fr K (v & vf & H1 & H2 & H3 & H4 & H5 & H6 & H7). exists v, vf.
  rewrite (k_thr _ _ _ _ _ K), (k_loc _ _ _ _ _ K), (k_cnt _ _ _ _ _ K).
  assert (Hn : heap s n <> None) by congruence.
  rewrite (k_own _ _ _ _ _ K n H3), (k_heap _ _ _ _ _ K n H3 Hn), (k_sheap _ _ _ _ _ K n H3 Hn).
  repeat split; auto. intros x w I.
  destruct (finish_fresh _ _ _ _ _ _ _ _ _ H6) as (_ & F & _). destruct (F _ _ I) as (j & -> & J).
  destruct (k_new _ _ _ _ _ K j) as [->|N]; auto. exfalso. apply N, Fr. lia.
Qed.

Lemma pos_calm s s' a a' u m ns : (forall t k, cnt (thrs s t) <= k -> heap s (t, k) = None) ->
  calm s s' a a' u -> pos s a u m ns -> pos s' a' u m ns.
Proof.
  intros Fr K P. pose proof (k_thr _ _ _ _ _ K) as Et. pose proof (k_loc _ _ _ _ _ K) as El. pose proof (k_cnt _ _ _ _ _ K) as Ec.
  destruct P.
  - apply p_idle; congruence.
  - apply (p_start _ _ _ n p); try congruence. now apply (k_keep _ _ _ _ _ K).
  - apply p_before with (p2 := p2); [eapply waiting_calm; eauto|congruence].
  - assert (Hn : heap s' n = heap s n).
    { destruct H as (p1 & v0 & v & _ & _ & _ & _ & Ho & _ & Hh & _). apply (k_heap _ _ _ _ _ K); congruence. }
    eapply p_lock with (pre := pre) (post := post); rewrite ?Et, ?Hn; eauto using waiting_calm.
    intros c I. apply (k_own _ _ _ _ _ K); auto.
  - assert (Hn : heap s' n = heap s n).
    { destruct H as (p1 & v0 & v & _ & _ & _ & _ & Ho & _ & Hh & _). apply (k_heap _ _ _ _ _ K); congruence. }
    eapply p_read with (pre := pre) (post := post); rewrite ?Et, ?Hn; eauto using waiting_calm.
    + intros c I. apply (k_own _ _ _ _ _ K); auto.
    + rewrite <- H5. apply fetch_same. intros c I. apply (k_heap _ _ _ _ _ K); [apply H4, in_or_app; auto|].
      exact (fetch_some _ _ _ H5 c I).
  - apply p_unlock with (p2 := p2) (suf := suf); rewrite ?Et; eauto using acting_calm.
    intros c I. apply (k_own _ _ _ _ _ K); auto.
  - apply p_table with (f := f) (p2 := p2); rewrite ?Et; eauto using waiting_calm. apply (k_tow _ _ _ _ _ K); auto.
  - apply p_tabled with (p2 := p2); rewrite ?Et; eauto using acting_calm. apply (k_tow _ _ _ _ _ K); auto.
  - apply p_after with (p2 := p2); rewrite ?Et; eauto using acting_calm.
Qed.

(** ** A step of one thread *)

Lemma owner_mid s a t m ns n : pos s a t m ns -> m = Some n -> owner s n = Some t /\ heap s n <> None.
Proof.
  intros P E.
  assert (W : forall q, waiting s a t n q -> owner s n = Some t /\ heap s n <> None).
  { intros q (p1 & v0 & v & _ & _ & _ & _ & Ho & _ & Hh & _). split; auto. congruence. }
  assert (A : forall q ms, acting s a t n q ms -> owner s n = Some t /\ heap s n <> None).
  { intros q ms (v & vf & _ & _ & Ho & Hh & _). split; auto. congruence. }
  destruct P; try discriminate; injection E as <-; eauto.
Qed.

Lemma pend_fresh s a t m ns x w : pos s a t m ns -> In (x, w) ns -> exists j, x = (t, j) /\ cnt (thrs s t) <= j < scnt a t.
Proof.
  assert (A : forall n q ms, acting s a t n q ms -> In (x, w) ms -> exists j, x = (t, j) /\ cnt (thrs s t) <= j < scnt a t).
  { intros n q ms (v & vf & _ & _ & _ & _ & _ & F & _) I. destruct (finish_fresh _ _ _ _ _ _ _ _ _ F) as (_ & H & _). eauto. }
  intros P. destruct P; cbn [In]; try contradiction; eauto.
Qed.

(** Putting the threads together again after thread t has moved. *)
Lemma advance s a s' a' mid pend t m ns :
  (forall u, pos s a u (mid u) (pend u)) ->
  (forall x, (forall u, mid u <> Some x) -> (forall u w, ~ In (x, w) (pend u)) -> sheap a x = heap s x) ->
  (forall u k, cnt (thrs s u) <= k -> heap s (u, k) = None) ->
  tab s' = stab a' ->
  (forall u, u <> t -> calm s s' a a' u) ->
  pos s' a' t m ns ->
  (forall x, m <> Some x -> (forall w, ~ In (x, w) ns) -> sheap a' x = heap s' x \/
     (sheap a' x = sheap a x /\ heap s' x = heap s x /\ mid t <> Some x /\ forall w, ~ In (x, w) (pend t))) ->
  (forall u k, cnt (thrs s' u) <= k -> heap s' (u, k) = None) ->
  (forall u k, scnt a' u <= k -> sheap a' (u, k) = None) ->
  sim s' a'.
Proof.
  intros P F Fr Tb K Pt Fx F1 F2. constructor; auto.
  exists (updt mid t m), (updt pend t ns). split.
  - intros u. destruct (Nat.eq_dec u t) as [->|N]; [now rewrite !updt_eq|]. rewrite !updt_ne by auto.
    apply (pos_calm s s' a a'); auto.
  - intros x Hm Hn. pose proof (Hm t) as Ht. pose proof (Hn t) as Nt. rewrite !updt_eq in *.
    destruct (Fx x Ht Nt) as [E|(E1 & E2 & E3 & E4)]; auto. rewrite E1, E2. apply F.
    + intros u. destruct (Nat.eq_dec u t) as [->|N]; auto. specialize (Hm u). now rewrite updt_ne in Hm.
    + intros u w. destruct (Nat.eq_dec u t) as [->|N]; auto. specialize (Hn u w). now rewrite updt_ne in Hn.
Qed.

(** The section of thread t takes effect. *)
Lemma commit s a t n g p2 v2 l2 nw tb2 :
  (forall u k, cnt (thrs s u) <= k -> heap s (u, k) = None) ->
  waiting s a t n (g :: p2) -> Forall local p2 ->
  (forall h1, h1 n = heap s n -> (forall x : addr, x <> n -> h1 x = sheap a x) ->
     exists h2, exec t n g (h1, stab a, loc (thrs s t), cnt (thrs s t)) = Some (h2, tb2, l2, bump (cnt (thrs s t)) nw) /\
                forall x, h2 x = alloc (upd h1 n (Some v2)) (t, cnt (thrs s t)) nw x) ->
  exists a' vf lf kf ns, sstep next t a = Some a' /\
    finish t p2 v2 l2 (bump (cnt (thrs s t)) nw) = (vf, lf, kf, ns) /\
    sloc a' = updt (sloc a) t lf /\ scnt a' = updt (scnt a) t kf /\ stab a' = tb2 /\ sheap a' n = Some vf /\
    (forall x w, In (x, w) ns -> sheap a' x = Some w) /\
    (forall x : addr, x <> n -> (forall w, ~ In (x, w) ns) -> sheap a' x = alloc (sheap a) (t, cnt (thrs s t)) nw x).
Proof.
  intros Fr (p1 & v0 & v & H1 & H2 & H3 & H4 & H5 & H6 & H7 & H8 & H9) Lc Ex.
  set (k := cnt (thrs s t)) in *.
  assert (Nn : forall j, k <= j -> n <> (t, j)).
  { intros j J E. rewrite E, (Fr t j J) in H7. discriminate. }
  destruct (execs_owns t n p1 H2 (sheap a) (stab a) (sloc a t) (scnt a t) v0 H6) as (h1 & E1 & E2 & E3).
  rewrite H8 in E1, E2. cbn in E1, E2.
  destruct (Ex h1) as (h2 & E4 & E5); [congruence|exact E3|].
  assert (E6 : h2 n = Some v2).
  { rewrite E5. unfold alloc. destruct nw; [rewrite upd_ne by (apply Nn; lia)|]; apply upd_eq. }
  destruct (execs_finish t n p2 Lc h2 tb2 l2 (bump k nw) v2 E6) as (h3 & E7 & E8 & E9 & E10).
  { intros j J. apply Nn. destruct nw; cbn in J; lia. }
  destruct (finish t p2 v2 l2 (bump k nw)) as [[[vf lf] kf] ns] eqn:Ef. cbn [fst snd] in *.
  exists (mkSst h3 tb2 (updt (sloc a) t lf) (updt (scnt a) t kf)), vf, lf, kf, ns.
  split.
  { unfold sstep. rewrite H1, execs_app, E1. cbn [execs]. rewrite <- H9. rewrite E4, E7. reflexivity. }
  split; [reflexivity|]. repeat split; auto. cbn. intros x N Ni. rewrite (E10 x N Ni), E5.
  unfold alloc. destruct nw as [w|].
  - unfold upd at 1 3. destruct (addr_eqb_spec x (t, k)); auto. rewrite upd_ne by auto. auto.
  - rewrite upd_ne by auto. auto.
Qed.

(** The state after thread t has executed an operation that changes at most its node, the table and a new node. *)
Lemma take_effect s a mid pend t n g p2 v2 l2 nw tb2 s' :
  (forall u, pos s a u (mid u) (pend u)) ->
  (forall x, (forall u, mid u <> Some x) -> (forall u w, ~ In (x, w) (pend u)) -> sheap a x = heap s x) ->
  (forall u k, cnt (thrs s u) <= k -> heap s (u, k) = None) ->
  (forall u k, scnt a u <= k -> sheap a (u, k) = None) ->
  mid t = Some n -> pend t = [] ->
  waiting s a t n (g :: p2) -> Forall local p2 ->
  (forall h1, h1 n = heap s n -> (forall x : addr, x <> n -> h1 x = sheap a x) ->
     exists h2, exec t n g (h1, stab a, loc (thrs s t), cnt (thrs s t)) = Some (h2, tb2, l2, bump (cnt (thrs s t)) nw) /\
                forall x, h2 x = alloc (upd h1 n (Some v2)) (t, cnt (thrs s t)) nw x) ->
  (forall x, heap s' x = alloc (upd (heap s) n (Some v2)) (t, cnt (thrs s t)) nw x) ->
  tab s' = tb2 -> owner s' = owner s -> towner s' = towner s ->
  (forall u, u <> t -> thrs s' u = thrs s u) ->
  loc (thrs s' t) = l2 -> cnt (thrs s' t) = bump (cnt (thrs s t)) nw -> cur (thrs s' t) = n ->
  (forall a' ns, acting s' a' t n p2 ns -> pos s' a' t (Some n) ns) ->
  exists a', sstep next t a = Some a' /\ sim s' a'.
Proof.
  intros P F Fr Fr' Mt Pt W Lc Ex Hh Ht Ho Hw Hu Hl Hc Hcur Pos.
  destruct (commit s a t n g p2 v2 l2 nw tb2 Fr W Lc Ex) as (a' & vf & lf & kf & ns & S1 & S2 & S3 & S4 & S5 & S6 & S7 & S8).
  exists a'. split; [exact S1|].
  destruct W as (p1 & v0 & v & H1 & H2 & H3 & H4 & H5 & H6 & H7 & H8 & H9).
  set (k := cnt (thrs s t)) in *.
  assert (Nn : forall j, k <= j -> n <> (t, j)).
  { intros j J E. rewrite E, (Fr t j J) in H7. discriminate. }
  destruct (finish_fresh _ _ _ _ _ _ _ _ _ S2) as (Fk & Fn & _).
  assert (Kk : k <= bump k nw) by (destruct nw; cbn; lia).
  assert (Hn' : heap s' n = Some v2).
  { rewrite Hh. unfold alloc. destruct nw; [rewrite upd_ne by (apply Nn; lia)|]; apply upd_eq. }
  assert (Hx : forall x, x <> n -> x <> (t, k) -> heap s' x = heap s x).
  { intros x N1 N2. rewrite Hh. unfold alloc. destruct nw; rewrite ?upd_ne by auto; rewrite ?upd_ne by auto; auto. }
  assert (Sx : forall x, x <> n -> (forall j, x <> (t, j)) -> sheap a' x = sheap a x).
  { intros x N1 N2. rewrite S8; auto.
    - unfold alloc. destruct nw; auto. now apply upd_ne.
    - intros w I. destruct (Fn _ _ I) as (j & -> & _). exact (N2 j eq_refl). }
  assert (Foreign : forall u x, u <> t -> owner s x = Some u -> heap s x <> None -> x <> n /\ forall j, k <= j -> x <> (t, j)).
  { intros u x N O X. split; [congruence|]. intros j J ->. apply X, Fr, J. }
  apply (advance s a s' a' mid pend t (Some n) ns P F Fr).
  - congruence.
  - intros u N. constructor.
    + auto.
    + rewrite S3. now apply updt_ne.
    + rewrite S4. now apply updt_ne.
    + intros x. now rewrite Ho.
    + now rewrite Hw.
    + intros x O X. destruct (Foreign u x N O X) as [N1 N2]. apply Hx; auto.
    + intros x X. destruct (addr_eqb_spec x n) as [->|N1]; [congruence|].
      rewrite Hx; auto. intros ->. apply X. apply Fr. lia.
    + intros x O X. destruct (Foreign u x N O X) as [N1 N2]. rewrite S8; auto.
      * unfold alloc. destruct nw; auto. apply upd_ne. apply N2. lia.
      * intros w I. destruct (Fn _ _ I) as (j & -> & J). apply (N2 j); auto. lia.
    + intros j. destruct (addr_eqb_spec (u, j) n) as [En|N1]; [right; congruence|]. left. apply Sx; auto. congruence.
  - apply Pos. exists v2, vf. rewrite Ho, Hl, Hc. repeat split; auto. rewrite S2, S3, S4, !updt_eq. reflexivity.
  - intros x N1 N2. assert (N1' : x <> n) by congruence.
    destruct (addr_eqb_spec x (t, k)) as [->|N3].
    + rewrite S8 by auto. rewrite Hh. unfold alloc. destruct nw.
      * left. now rewrite !upd_eq.
      * right. rewrite upd_ne by auto. repeat split; auto. rewrite Mt. congruence. rewrite Pt. intros w [].
    + right. rewrite Hx by auto. rewrite S8 by auto. repeat split; auto.
      * unfold alloc. destruct nw; auto. now apply upd_ne.
      * now rewrite Mt.
      * rewrite Pt. intros w [].
  - intros u j J. destruct (Nat.eq_dec u t) as [->|N].
    + rewrite Hc in J. assert (N1 : (t, j) <> n) by (apply not_eq_sym, Nn; lia). rewrite Hh. unfold alloc.
      destruct nw; cbn in J; [rewrite upd_ne by (intros [= ->]; lia)|]; rewrite upd_ne by auto; apply Fr; lia.
    + rewrite (Hu u N) in J. rewrite Hx; [auto| |congruence]. intros <-. rewrite (Fr _ _ J) in H7. discriminate.
  - intros u j J. rewrite S4 in J. destruct (Nat.eq_dec u t) as [->|N].
    + rewrite updt_eq in J. rewrite S8.
      * unfold alloc. destruct nw; cbn in Fk; [rewrite upd_ne by (intros [= ->]; lia)|]; apply Fr'; lia.
      * apply not_eq_sym, Nn. lia.
      * intros w I. destruct (Fn _ _ I) as (i & [= ->] & Ji). lia.
    + rewrite updt_ne in J by auto. rewrite Sx; [auto| |congruence]. intros <-. rewrite (Fr' _ _ J) in H6. discriminate.
Qed.

(** A step before or after the section takes effect. *)
Lemma quiet_step s a mid pend t s' m ns :
  (forall u, pos s a u (mid u) (pend u)) ->
  (forall x, (forall u, mid u <> Some x) -> (forall u w, ~ In (x, w) (pend u)) -> sheap a x = heap s x) ->
  (forall u k, cnt (thrs s u) <= k -> heap s (u, k) = None) ->
  (forall u k, scnt a u <= k -> sheap a (u, k) = None) ->
  tab s = stab a -> tab s' = tab s ->
  (forall x, heap s' x = heap s x \/ mid t = Some x \/ exists w, In (x, w) (pend t)) ->
  (forall x, heap s x <> None -> heap s' x <> None) ->
  (forall u, u <> t -> thrs s' u = thrs s u) ->
  (forall u x, u <> t -> owner s x = Some u -> owner s' x = Some u) ->
  (forall u, u <> t -> towner s = Some u -> towner s' = Some u) ->
  (forall k, cnt (thrs s' t) <= k -> heap s' (t, k) = None) ->
  pos s' a t m ns ->
  (forall x, m <> Some x -> (forall w, ~ In (x, w) ns) ->
     sheap a x = heap s' x \/ (mid t <> Some x /\ forall w, ~ In (x, w) (pend t))) ->
  sim s' a.
Proof.
  intros P F Fr Fr' Tb Tb' Hh Hk Hu Ho Hw Hc Pt Fx.
  assert (Own : forall u x, u <> t -> owner s x = Some u -> heap s x <> None -> mid t <> Some x /\ forall w, ~ In (x, w) (pend t)).
  { intros u x N O X. split.
    - intros E. destruct (owner_mid _ _ _ _ _ _ (P t) E). congruence.
    - intros w I. destruct (pend_fresh _ _ _ _ _ _ _ (P t) I) as (j & -> & J). apply X, Fr. lia. }
  apply (advance s a s' a mid pend t m ns P F Fr); auto.
  - congruence.
  - intros u N. constructor; auto.
    intros x O X. destruct (Hh x) as [E|[E|[w E]]]; auto; exfalso; [exact (proj1 (Own u x N O X) E)|].
    exact (proj2 (Own u x N O X) w E).
  - intros x N1 N2. destruct (Fx x N1 N2) as [E|[E1 E2]]; auto. right. repeat split; auto.
    destruct (Hh x) as [E|[E|[w E]]]; auto; exfalso; [exact (E1 E)|exact (E2 w E)].
  - intros u k J. destruct (Nat.eq_dec u t) as [->|N]; auto. rewrite (Hu u N) in J. destruct (Hh (u, k)) as [E|[E|[w E]]].
    + rewrite E. auto.
    + exfalso. destruct (owner_mid _ _ _ _ _ _ (P t) E) as [_ X]. apply X, Fr, J.
    + exfalso. destruct (pend_fresh _ _ _ _ _ _ _ (P t) E) as (j & [= <- <-] & _). exact (N eq_refl).
Qed.

Lemma NoDup_app_snoc (l : list addr) c : NoDup l -> ~ In c l -> NoDup (l ++ [c]).
Proof.
  induction 1 as [|d l N D IH]; cbn; intros H; [repeat constructor; auto|].
  constructor; [rewrite in_app_iff; intros [I|[I|[]]]; auto|apply IH; auto].
Qed.

Lemma upd_other (o : addr -> option nat) t v a u x : u <> t -> (o a = None \/ o a = Some t) -> o x = Some u -> upd o a v x = Some u.
Proof. intros N H E. unfold upd. destruct (addr_eqb_spec x a) as [->|]; auto. destruct H; congruence. Qed.

Ltac other := intros; match goal with N : _ <> _ |- _ => rewrite updt_ne by exact N end; auto.

Lemma sim_step s a lb s' : sim s a -> cstep next s lb = Some s' -> sim s' a \/ exists t a', sstep next t a = Some a' /\ sim s' a'.
Proof.
  intros [Tb (mid & pend & P & F) Fr Fr'] St. destruct lb as [t|t]; cbn [cstep] in St.
  - (* a section begins *)
    destruct (code (thrs s t)) eqn:Ec; [|discriminate]. destruct (next (loc (thrs s t))) as [[n p]|] eqn:En; [|discriminate].
    destruct (heap s n) as [v|] eqn:Eh; [|discriminate]. injection St as <-. left.
    assert (Q : mid t = None /\ pend t = [] /\ sloc a t = loc (thrs s t) /\ scnt a t = cnt (thrs s t)).
    { destruct (P t) as [|n0 p0 ? E| n0 p2 ? E | n0 sel f p2 pre post ? ? ? E | n0 sel f p2 pre post ? ? ? E | n0 p2 suf ns ? E | n0 f p2 ? ? E| n0 p2 ns ? E|n0 p2 ns ? E]; auto; exfalso; rewrite Ec in E; symmetry in E; revert E; unfold rest.
      - destruct (flat_map ops p2); discriminate.
      - destruct post; [destruct (pre ++ [])|]; discriminate.
      - destruct post; discriminate.
      - destruct suf; [destruct (flat_map ops p2)|]; discriminate.
      - discriminate.
      - discriminate.
      - destruct (flat_map ops p2); discriminate. }
    destruct Q as (Q1 & Q2 & Q3 & Q4).
    eapply (quiet_step s a mid pend t _ None []); eauto; cbn [heap tab owner towner thrs]; auto.
    + other.
    + rewrite updt_eq. cbn. auto.
    + apply (p_start _ _ _ n p); cbn [heap tab owner towner thrs]; rewrite ?updt_eq; cbn; auto; congruence.
    + intros x _ _. right. rewrite Q1, Q2. split; [discriminate|]. auto.
  - destruct (code (thrs s t)) as [|o r] eqn:Ec; [discriminate|].
    assert (Pt := P t). remember (mid t) as m eqn:Em. remember (pend t) as ns0 eqn:En. symmetry in Em, En.
    assert (Rd : forall n sel f p2 pre post, m = Some n -> ns0 = [] -> waiting s a t n (Look sel f :: p2) -> Forall local p2 ->
      (exists v, heap s n = Some v /\ sel v (loc (thrs s t)) = pre ++ post) ->
      o :: r = map ORead post ++ OUse f :: map OUnlock (pre ++ post) ++ rest n p2 ->
      NoDup (n :: pre ++ post) -> (forall c, In c (pre ++ post) -> owner s c = Some t) ->
      fetch (heap s) pre = Some (buf (thrs s t)) -> sim s' a \/ exists t a', sstep next t a = Some a' /\ sim s' a').
    { intros n sel f p2 pre post -> -> W Lc (v & Ev & Es) E Nd Ow Eb.
      pose proof W as (p1 & v0 & v' & H1 & H2 & H3 & H4 & H5 & H6 & H7 & H8 & H9).
      destruct post as [|c post]; cbn [map app] in E.
      - (* takes effect *)
        rewrite app_nil_r in *. injection E as -> ->. injection St as <-. right. exists t.
        eapply (take_effect s a mid pend t n (Look sel f) p2 v (f (buf (thrs s t)) (loc (thrs s t))) None (stab a)); eauto; cbn [heap tab owner towner thrs]; auto.
        + intros h1 Eh1 Hh1. exists h1. cbn. rewrite Eh1, Ev, Es.
          rewrite (fetch_same (heap s) h1 pre), Eb.
          * split; auto. intros x. unfold upd. destruct (addr_eqb_spec x n) as [->|]; congruence.
          * intros c I. assert (Nc : c <> n) by (intros ->; inversion Nd; auto). rewrite Hh1 by auto. apply F; intros u.
            -- intros X. destruct (owner_mid _ _ _ _ _ _ (P u) X) as [X1 X2]. rewrite (Ow c I) in X1. injection X1 as <-. congruence.
            -- intros w X. destruct (pend_fresh _ _ _ _ _ _ _ (P u) X) as (j & -> & J). apply (fetch_some _ _ _ Eb _ I), Fr. lia.
        + intros x. unfold alloc, upd. destruct (addr_eqb_spec x n) as [->|]; congruence.
        + other.
        + now rewrite updt_eq.
        + now rewrite updt_eq.
        + now rewrite updt_eq.
        + intros a' ns A. apply (p_unlock _ _ _ n p2 pre ns A); auto. cbn. now rewrite updt_eq.
      - injection E as -> ->. destruct (heap s c) as [w|] eqn:Ew; [|discriminate]. injection St as <-. left.
        eapply (quiet_step s a mid pend t _ (Some n) []); eauto; cbn [heap tab owner towner thrs]; auto.
        + other.
        + rewrite updt_eq. cbn. auto.
        + assert (Ea : pre ++ c :: post = (pre ++ [c]) ++ post) by (rewrite <- app_assoc; reflexivity).
          apply (p_read _ _ _ n sel f p2 (pre ++ [c]) post); cbn [heap tab owner towner thrs]; rewrite ?updt_eq; cbn; auto; rewrite <- ?Ea; auto.
          * exists p1, v0, v'. cbn [heap tab owner towner thrs]. rewrite ?updt_eq. cbn. repeat split; auto.
          * eauto.
          * apply fetch_snoc; auto.
        + intros x N1 _. right. rewrite Em, En. split; auto. }
    assert (Af : forall n p2, m = Some n -> acting s a t n p2 ns0 -> o :: r = rest n p2 ->
      sim s' a \/ exists t a', sstep next t a = Some a' /\ sim s' a').
    { intros n p2 -> (v & vf & H1 & H2 & H3 & H4 & H5 & H6 & H7) E. left. destruct H1 as [|g p2 Hg Lc]; unfold rest in E; cbn [flat_map app] in E.
      - (* the end *)
        injection E as -> ->. injection St as <-. injection H6 as <- H6a H6b <-.
        eapply (quiet_step s a mid pend t _ None []); eauto; cbn [heap tab owner towner thrs]; auto.
        + other.
        + intros u x Nu. apply (upd_other _ t); auto.
        + rewrite updt_eq. cbn. auto.
        + apply p_idle; cbn [heap tab owner towner thrs]; rewrite ?updt_eq; cbn; auto.
        + intros x _ _. rewrite Em, En. destruct (addr_eqb_spec x n) as [->|Nx]; [left; congruence|]. right. split; [congruence|]. auto.
      - destruct g as [f|sel f|f|f]; try contradiction; cbn [ops app] in E; injection E as -> ->; rewrite H2, H4 in St; cbn [finish] in H6.
        + destruct (f v (loc (thrs s t))) as [v1 l1] eqn:Ef. injection St as <-.
          eapply (quiet_step s a mid pend t _ (Some n) ns0); eauto; cbn [heap tab owner towner thrs]; auto.
          * intros x. destruct (addr_eqb_spec x n) as [->|Nx]; auto. rewrite upd_ne by auto. auto.
          * intros x Hx. unfold upd. destruct (addr_eqb_spec x n); [discriminate|auto].
          * other.
          * rewrite updt_eq. cbn. intros k K. rewrite upd_ne; [auto|]. intros <-. rewrite (Fr _ _ K) in H4. discriminate.
          * apply (p_after _ _ _ n p2); cbn [heap tab owner towner thrs]; rewrite ?updt_eq; cbn; auto.
            exists v1, vf. cbn [heap tab owner towner thrs]. rewrite ?updt_eq, ?upd_eq. cbn. repeat split; auto.
          * intros x N1 N2. right. rewrite Em, En. split; auto.
        + destruct (f v (loc (thrs s t)) (t, cnt (thrs s t))) as [[v1 l1] nw] eqn:Ef. injection St as <-. cbn [alloc].
          destruct (finish t p2 v1 l1 (S (cnt (thrs s t)))) as [[[v2 l2] k2] ns] eqn:Efi. injection H6 as -> E6 E7 E8.
          set (k := cnt (thrs s t)) in *.
          assert (Nk : n <> (t, k)) by (intros ->; rewrite (Fr t k) in H4 by auto; discriminate).
          eapply (quiet_step s a mid pend t _ (Some n) ns); eauto; cbn [heap tab owner towner thrs]; auto.
          * intros x. destruct (addr_eqb_spec x (t, k)) as [->|Nx]; [right; right; exists nw; rewrite En, <- E8; now left|].
            rewrite upd_ne by auto. destruct (addr_eqb_spec x n) as [->|Nx']; auto. rewrite upd_ne by auto. auto.
          * intros x Hx. unfold upd. destruct (addr_eqb_spec x (t, k)); [discriminate|]. destruct (addr_eqb_spec x n); [discriminate|auto].
          * other.
          * rewrite updt_eq. cbn. intros j J. rewrite !upd_ne; [apply Fr; fold k; lia| |intros [= ->]; lia].
            intros <-. rewrite (Fr t j) in H4 by (fold k; lia). discriminate.
          * apply (p_after _ _ _ n p2); cbn [heap tab owner towner thrs]; rewrite ?updt_eq; cbn; auto.
            exists v1, vf. cbn [heap tab owner towner thrs]. rewrite ?updt_eq. rewrite upd_ne, upd_eq by auto. cbn. rewrite Efi, E6, E7. repeat split; auto.
            intros x w I. apply H7. rewrite <- E8. now right.
          * intros x N1 N2. rewrite Em, En, <- E8. destruct (addr_eqb_spec x (t, k)) as [->|Nx].
            -- left. rewrite upd_eq. apply H7. rewrite <- E8. now left.
            -- right. split; auto. intros w [[= <- <-]|I]; [exact (Nx eq_refl)|exact (N2 w I)]. }
    destruct Pt as [E|n p E1 E E2 E3 E4 E5| n p2 W E | n sel f p2 pre post W Lc (v & Ev & Es) E Nd Ow Eb | n sel f p2 pre post W Lc Sl E Nd Ow Eb
                      | n p2 suf ns A E Nd Ow | n f p2 W Lc E Et| n p2 ns A E Et|n p2 ns A E]; rewrite Ec in E.
    + discriminate.
    + (* locking the node *)
      injection E as -> ->. cbn [app] in St. destruct (owner s n) eqn:Eo; [discriminate|]. injection St as <-. left.
      assert (Sh : sheap a n = heap s n).
      { apply F; intros u.
        - intros X. destruct (owner_mid _ _ _ _ _ _ (P u) X). congruence.
        - intros w X. destruct (pend_fresh _ _ _ _ _ _ _ (P u) X) as (j & -> & J). apply E3, Fr. lia. }
      destruct (heap s n) as [v|] eqn:Eh; [|congruence].
      eapply (quiet_step s a mid pend t _ (Some n) []); eauto; cbn [heap tab owner towner thrs]; auto.
      * other.
      * intros u x Nu. apply (upd_other _ t); auto.
      * rewrite updt_eq. cbn. auto.
      * apply (p_before _ _ _ n p); cbn [heap tab owner towner thrs]; rewrite ?updt_eq; cbn; auto.
        exists [], v, v. cbn [heap tab owner towner thrs]. rewrite ?updt_eq, ?upd_eq. cbn. rewrite <- E4. repeat split; eauto.
      * intros x _ _. right. rewrite Em, En. split; [discriminate|]. auto.
    + (* before it takes effect *)
      pose proof W as (p1 & v0 & v & H1 & H2 & H3 & H4 & H5 & H6 & H7 & H8 & H9).
      inversion H3 as [f p Ho Ep|g p Hl Ep]; subst p2; unfold rest in E; cbn [flat_map app] in E.
      * (* a part on its own members *)
        cbn [ops app] in E. injection E as -> ->. rewrite H4, H7 in St. destruct (f v (loc (thrs s t))) as [v1 l1] eqn:Ef.
        injection St as <-. left.
        eapply (quiet_step s a mid pend t _ (Some n) []); eauto; cbn [heap tab owner towner thrs]; auto.
        -- intros x. destruct (addr_eqb_spec x n) as [->|Nx]; auto. rewrite upd_ne by auto. auto.
        -- intros x Hx. unfold upd. destruct (addr_eqb_spec x n); [discriminate|auto].
        -- other.
        -- rewrite updt_eq. cbn. intros k K. rewrite upd_ne; [auto|]. intros <-. rewrite (Fr _ _ K) in H7. discriminate.
        -- apply (p_before _ _ _ n p); cbn [heap tab owner towner thrs]; rewrite ?updt_eq; cbn; auto.
           exists (p1 ++ [Own f]), v0, v1. cbn [heap tab owner towner thrs]. rewrite ?updt_eq, ?upd_eq. cbn. rewrite <- app_assoc. repeat split; auto.
           ++ apply Forall_app. split; auto. repeat constructor.
           ++ rewrite owns_snoc by auto. rewrite H8. exact Ef.
        -- intros x N1 _. right. rewrite Em, En. split; auto.
      * destruct g as [f|sel f|f|f]; cbn [ops app] in E.
        -- (* takes effect *)
           injection E as -> ->. rewrite H4, H7 in St. destruct (f v (loc (thrs s t))) as [v1 l1] eqn:Ef. injection St as <-. right.
           exists t. eapply (take_effect s a mid pend t n (Own f) p v1 l1 None (stab a)); eauto; cbn [heap tab owner towner thrs]; auto.
           ++ intros h1 Eh1 Hh1. exists (upd h1 n (Some v1)). cbn. rewrite Eh1, H7, Ef. auto.
           ++ other.
           ++ now rewrite updt_eq.
           ++ now rewrite updt_eq.
           ++ now rewrite updt_eq.
           ++ intros a' ns A. apply (p_after _ _ _ n p ns A). cbn. now rewrite updt_eq.
        -- (* starts looking *)
           injection E as -> ->. rewrite H4, H7 in St. injection St as <-. left.
           eapply (quiet_step s a mid pend t _ (Some n) []); eauto; cbn [heap tab owner towner thrs]; auto.
           ++ other.
           ++ rewrite updt_eq. cbn. auto.
           ++ apply (p_lock _ _ _ n sel f p [] (sel v (loc (thrs s t)))); cbn [heap tab owner towner thrs]; rewrite ?updt_eq; cbn; auto.
              ** exists p1, v0, v. cbn [heap tab owner towner thrs]. rewrite ?updt_eq. cbn. repeat split; auto.
              ** eauto.
              ** unfold look, rest. rewrite <- !app_assoc. reflexivity.
              ** repeat constructor. auto.
              ** intros c [].
           ++ intros x N1 _. right. rewrite Em, En. split; auto.
        -- (* locks the table *)
           injection E as -> ->. destruct (towner s) eqn:Et; [discriminate|]. injection St as <-. left.
           eapply (quiet_step s a mid pend t _ (Some n) []); eauto; cbn [heap tab owner towner thrs]; auto.
           ++ other.
           ++ intros u _. congruence.
           ++ rewrite updt_eq. cbn. auto.
           ++ apply (p_table _ _ _ n f p); cbn [heap tab owner towner thrs]; rewrite ?updt_eq; cbn; auto.
              exists p1, v0, v. cbn [heap tab owner towner thrs]. rewrite ?updt_eq. cbn. repeat split; auto.
           ++ intros x N1 _. right. rewrite Em, En. split; auto.
        -- (* takes effect *)
           injection E as -> ->. rewrite H4, H7 in St. destruct (f v (loc (thrs s t)) (t, cnt (thrs s t))) as [[v1 l1] nw] eqn:Ef. injection St as <-. right.
           exists t. eapply (take_effect s a mid pend t n (New f) p v1 l1 (Some nw) (stab a)); eauto; cbn [heap tab owner towner thrs]; auto.
           ++ intros h1 Eh1 Hh1. eexists. cbn. rewrite Eh1, H7, Ef. split; [reflexivity|]. auto.
           ++ other.
           ++ now rewrite updt_eq.
           ++ now rewrite updt_eq.
           ++ now rewrite updt_eq.
           ++ intros a' ns A. apply (p_after _ _ _ n p ns A). cbn. now rewrite updt_eq.
    + (* locking the children *)
      destruct post as [|c post]; cbn [map app] in E.
      * rewrite app_nil_r in *. apply (Rd n sel f p2 [] pre); auto; cbn [app]; eauto. now rewrite Eb.
      * injection E as -> ->. destruct (owner s c) eqn:Eo; [discriminate|]. injection St as <-. left.
        pose proof W as (p1 & v0 & v' & H1 & H2 & H3 & H4 & H5 & H6 & H7 & H8 & H9).
        assert (Nc : c <> n) by congruence.
        assert (Np : ~ In c pre) by (intros I; rewrite (Ow c I) in Eo; discriminate).
        assert (Ea : pre ++ c :: post = (pre ++ [c]) ++ post) by (rewrite <- app_assoc; reflexivity).
        eapply (quiet_step s a mid pend t _ (Some n) []); eauto; cbn [heap tab owner towner thrs]; auto.
        -- other.
        -- intros u x Nu. apply (upd_other _ t); auto.
        -- rewrite updt_eq. cbn. auto.
        -- apply (p_lock _ _ _ n sel f p2 (pre ++ [c]) post); cbn [heap tab owner towner thrs]; rewrite ?updt_eq; cbn; auto; rewrite <- ?Ea; auto.
           ++ exists p1, v0, v'. cbn [heap tab owner towner thrs]. rewrite ?updt_eq, upd_ne by auto. cbn. repeat split; auto.
           ++ eauto.
           ++ inversion Nd as [|? ? N1 N2]. constructor.
              ** rewrite in_app_iff. intros [I|[I|[]]]; congruence.
              ** apply NoDup_app_snoc; auto.
           ++ intros d I. apply in_app_iff in I as [I|[->|[]]]; [|apply upd_eq]. rewrite upd_ne; auto. congruence.
        -- intros x N1 _. right. rewrite Em, En. split; auto.
    + (* reading them *) apply (Rd n sel f p2 pre post); auto.
    + (* unlocking them *)
      destruct suf as [|c suf]; cbn [map app] in E; [exact (Af n p2 eq_refl A E)|].
      injection E as -> ->. injection St as <-. left.
      destruct A as (v & vf & H1 & H2 & H3 & H4 & H5 & H6 & H7).
      inversion Nd as [|? ? N1 N2]; subst. inversion N2 as [|? ? N3 N4]; subst.
      eapply (quiet_step s a mid pend t _ (Some (cur (thrs s t))) (pend t)); eauto; cbn [heap tab owner towner thrs]; auto.
      * other.
      * intros u x Nu. apply (upd_other _ t); auto. right. apply Ow. now left.
      * rewrite updt_eq. cbn. auto.
      * apply (p_unlock _ _ _ _ p2 suf); cbn [heap tab owner towner thrs]; rewrite ?updt_eq; cbn; auto.
        -- exists v, vf. cbn [heap tab owner towner thrs]. rewrite ?updt_eq, upd_ne. cbn. repeat split; auto.
           intros Ex. apply N1. left. auto.
        -- constructor; auto. intros I. apply N1. now right.
        -- intros d I. rewrite upd_ne; [apply Ow; now right|]. congruence.
      * intros x M1 M2. right. rewrite Em. split; auto.
    + (* the table *)
      injection E as -> ->. pose proof W as (p1 & v0 & v & H1 & H2 & H3 & H4 & H5 & H6 & H7 & H8 & H9).
      rewrite H4, H7 in St. destruct (f (tab s) v (loc (thrs s t)) (t, cnt (thrs s t))) as [[[tb v1] l1] nw] eqn:Ef. injection St as <-. right.
      exists t. eapply (take_effect s a mid pend t n (Table f) p2 v1 l1 nw tb); eauto; cbn [heap tab owner towner thrs]; auto.
      * intros h1 Eh1 Hh1. eexists. cbn. rewrite Eh1, H7, <- Tb, Ef. split; [reflexivity|]. auto.
      * other.
      * now rewrite updt_eq.
      * now rewrite updt_eq.
      * now rewrite updt_eq.
      * intros a' ns A. apply (p_tabled _ _ _ n p2 ns A); cbn; auto. now rewrite updt_eq.
    + injection E as -> ->. injection St as <-. left. destruct A as (v & vf & H1 & H2 & H3 & H4 & H5 & H6 & H7).
      eapply (quiet_step s a mid pend t _ (Some n) ns); eauto; cbn [heap tab owner towner thrs]; auto.
      * other.
      * intros u Nu Et'. congruence.
      * rewrite updt_eq. cbn. auto.
      * apply (p_after _ _ _ n p2); cbn [heap tab owner towner thrs]; rewrite ?updt_eq; cbn; auto.
        exists v, vf. cbn [heap tab owner towner thrs]. rewrite ?updt_eq. cbn. repeat split; auto.
      * intros x N1 N2. right. rewrite Em, En. split; auto.
    + exact (Af n p2 eq_refl A E).
Qed.

Lemma srun_app a ts us : srun next a (ts ++ us) = match srun next a ts with Some a1 => srun next a1 us | None => None end.
Proof. revert a. induction ts as [|t ts IH]; intros a; cbn; auto. destruct (sstep next t a); auto. Qed.

Lemma sim_run ls : forall s a s', sim s a -> crun next s ls = Some s' -> exists ts a', srun next a ts = Some a' /\ sim s' a'.
Proof.
  induction ls as [|l ls IH]; cbn; intros s a s' Sm R.
  - injection R as <-. exists [], a. auto.
  - destruct (cstep next s l) as [s1|] eqn:St; [|discriminate].
    destruct (sim_step s a l s1 Sm St) as [S1|(t & a1 & E & S1)].
    + exact (IH s1 a s' S1 R).
    + destruct (IH s1 a1 s' S1 R) as (ts & a' & E' & S'). exists (t :: ts), a'. cbn. rewrite E. auto.
Qed.

Lemma sim_init h tb ls ks : unused h ks -> sim (cinit h tb ls ks) (mkSst h tb ls ks).
Proof.
  intros U. constructor; cbn; auto. exists (fun _ => None), (fun _ => []). split; auto.
  intros t. apply p_idle; reflexivity.
Qed.

Lemma sim_between s a : sim s a -> between s -> same s a.
Proof.
  intros [Tb (mid & pend & P & F) _ _] B.
  assert (Q : forall t, mid t = None /\ pend t = [] /\ sloc a t = loc (thrs s t) /\ scnt a t = cnt (thrs s t)).
  { intros t. specialize (B t). destruct (P t) as [|n0 p0 ? E| n0 p2 ? E | n0 sel f p2 pre post ? ? ? E | n0 sel f p2 pre post ? ? ? E | n0 p2 suf ns ? E | n0 f p2 ? ? E| n0 p2 ns ? E|n0 p2 ns ? E]; auto; exfalso; rewrite B in E; symmetry in E; revert E; unfold rest.
    - destruct (flat_map ops p2); discriminate.
    - destruct post; [destruct (pre ++ [])|]; discriminate.
    - destruct post; discriminate.
    - destruct suf; [destruct (flat_map ops p2)|]; discriminate.
    - discriminate.
    - discriminate.
    - destruct (flat_map ops p2); discriminate. }
  split; [|split; [auto|split; intros t; symmetry; apply Q]].
  intros x. symmetry. apply F; intros t.
  - destruct (Q t) as (-> & _). discriminate.
  - destruct (Q t) as (_ & -> & _). auto.
Qed.
End Proofs.
