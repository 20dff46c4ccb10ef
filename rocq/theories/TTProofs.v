(* Proofs about the table over the lifetimes of trees. *)
From Coq Require Import List Arith Bool Lia.
From Verif Require Import TTModel TTSpec.
Import ListNotations.

Record good (s : tstate) : Prop := {
  g_roots : forall n, In n (troots s) -> exists x, nth_error (theap s) n = Some x /\ tlev x = 0;
  g_kids : forall n x c, nth_error (theap s) n = Some x -> In c (map snd (tkids x)) ->
           exists y, nth_error (theap s) c = Some y /\ tlev y = S (tlev x);
  g_lev : forall n x, nth_error (theap s) n = Some x -> tlev x <= n;
  g_tab : forall l k c, entry (l, k) (ttab s) = Some c -> exists y, nth_error (theap s) c = Some y /\ tlev y = S l
}.

Lemma spread_owned h roots k : forall ns, (forall n, In n ns -> owned h roots n) ->
  forall n, In n (spread k h ns) -> owned h roots n.
Proof.
  induction k as [|k IH]; intros ns H n; cbn; auto. rewrite in_app_iff. intros [I|I]; auto.
  apply (IH (flat_map (kids_of h) ns)); auto. intros m J. apply in_flat_map in J as (p & Ip & J).
  unfold kids_of in J. destruct (nth_error h p) as [x|] eqn:E; [|destruct J]. eapply ow_kid; eauto.
Qed.

Lemma spread_more h : forall k ns n, In n ns -> In n (spread k h ns).
Proof. destruct k; cbn; auto. intros. apply in_or_app; auto. Qed.

Lemma spread_step h : forall k ns n x c, In n (spread k h ns) -> nth_error h n = Some x -> In c (map snd (tkids x)) ->
  In c (spread (S k) h ns).
Proof.
  induction k as [|k IH]; intros ns n x c I E J.
  - cbn in I. apply in_or_app. right. cbn. apply in_flat_map. exists n; split; auto. unfold kids_of. rewrite E; auto.
  - cbn in I. apply in_app_or in I as [I|I].
    + apply in_or_app. right. apply (spread_more h (S k)). apply in_flat_map. exists n; split; auto. unfold kids_of. rewrite E; auto.
    + apply in_or_app. right. apply (IH (flat_map (kids_of h) ns) n x c); auto.
Qed.

Lemma spread_mono h : forall k k' ns n, k <= k' -> In n (spread k h ns) -> In n (spread k' h ns).
Proof.
  induction k as [|k IH]; intros [|k'] ns n L I; try lia; auto.
  - apply spread_more; auto.
  - cbn in *. apply in_app_or in I as [I|I]; apply in_or_app; auto. right. apply IH; auto. lia.
Qed.

Lemma exists_owned s n : good s -> exists_still s n = true <-> owned (theap s) (troots s) n.
Proof.
  intros G. unfold exists_still. rewrite existsb_exists. split.
  - intros (m & I & E). apply Nat.eqb_eq in E. subst m. eapply spread_owned; [|eauto]. intros; apply ow_root; auto.
  - intros O. exists n; split; [|apply Nat.eqb_refl].
    assert (X : exists x, nth_error (theap s) n = Some x /\ In n (spread (tlev x) (theap s) (troots s))).
    { induction O as [n I|n x c O IH E J].
      - destruct (g_roots _ G _ I) as (x & E & L). exists x; split; auto. rewrite L. cbn; auto.
      - destruct IH as (x' & E' & IH). rewrite E in E'. injection E' as <-.
        destruct (g_kids _ G _ _ _ E J) as (y & Ey & Ly). exists y; split; auto. rewrite Ly. eapply spread_step; eauto. }
    destruct X as (x & E & I). eapply spread_mono; [|eauto].
    pose proof (g_lev _ G _ _ E). assert (n < length (theap s)) by (apply nth_error_Some; congruence). lia.
Qed.

Lemma put_length l i v : length (put_node l i v) = length l.
Proof. revert i; induction l as [|x l IH]; intros [|i]; cbn; auto. Qed.
Lemma put_eq l i v x : nth_error l i = Some x -> nth_error (put_node l i v) i = Some v.
Proof. revert i; induction l as [|y l IH]; intros [|i]; cbn; intros E; try discriminate; eauto. Qed.
Lemma put_ne l i j v : i <> j -> nth_error (put_node l i v) j = nth_error l j.
Proof. revert i j; induction l as [|y l IH]; intros [|i] [|j] N; cbn; auto; congruence. Qed.

Lemma link_nth h n x k c : nth_error h n = Some x -> forall j,
  nth_error (link h n x k c) j = if j =? n then Some (mkTn (tlev x) ((k, c) :: tkids x)) else nth_error h j.
Proof.
  intros E j. unfold link. destruct (Nat.eqb_spec j n) as [->|D]; [eapply put_eq; eauto|apply put_ne; auto].
Qed.

Lemma nth_snoc {T} (l : list T) v j : nth_error (l ++ [v]) j = if j =? length l then Some v else nth_error l j.
Proof.
  destruct (Nat.eqb_spec j (length l)) as [->|D].
  - rewrite nth_error_app2, Nat.sub_diag; auto.
  - destruct (Nat.lt_ge_cases j (length l)).
    + apply nth_error_app1; auto.
    + rewrite (proj2 (nth_error_None l j)); auto. apply nth_error_None. rewrite app_length; cbn. lia.
Qed.
Lemma nth_lt {T} (l : list T) j v : nth_error l j = Some v -> j < length l.
Proof. intros E. apply nth_error_Some. congruence. Qed.

Section Steps.
Variable tt : bool.

(** What an operation does to the heap: nodes stay, with their levels and at least their children; a node that gets a
    further child gets a new node or one that still exists. *)
Record heap_step (s s' : tstate) : Prop := {
  h_keep : forall n x, nth_error (theap s) n = Some x ->
    exists x', nth_error (theap s') n = Some x' /\ tlev x' = tlev x /\ incl (tkids x) (tkids x');
  h_kids : forall n x' c, nth_error (theap s') n = Some x' -> In c (map snd (tkids x')) ->
    (exists x, nth_error (theap s) n = Some x /\ In c (map snd (tkids x))) \/
    length (theap s) <= c \/ owned (theap s) (troots s) c;
  h_new : forall n, In n (troots s') -> In n (troots s) \/ length (theap s) <= n;
  h_tab : forall l k c, entry (l, k) (ttab s) = Some c -> entry (l, k) (ttab s') = Some c
}.

Lemma heap_same h r r' tb : (forall n, In n r' -> In n r) -> heap_step (mkTs h r tb) (mkTs h r' tb).
Proof.
  intros I. constructor; cbn; auto.
  - intros n x E; exists x; repeat split; auto. apply incl_refl.
  - intros n x c E J. left; eauto.
Qed.

Lemma fresh_ok s n x k tab c s' :
  good s -> nth_error (theap s) n = Some x ->
  (tab = ttab s \/ (tab = ((tlev x, k), length (theap s)) :: ttab s /\ entry (tlev x, k) (ttab s) = None)) ->
  fresh s n x k tab = Made c s' ->
  good s' /\ heap_step s s' /\ (exists x', nth_error (theap s') n = Some x' /\ In (k, c) (tkids x') /\ tlev x' = tlev x) /\ troots s' = troots s.
Proof.
  intros G E Tb F. unfold fresh in F. injection F as <- <-. set (L := length (theap s)).
  set (s' := mkTs (link (theap s) n x k L ++ [mkTn (S (tlev x)) []]) (troots s) tab).
  assert (Ln : n < L) by (eapply nth_lt; eauto).
  assert (N : forall j, nth_error (theap s') j =
     if j =? L then Some (mkTn (S (tlev x)) []) else
     if j =? n then Some (mkTn (tlev x) ((k, L) :: tkids x)) else nth_error (theap s) j).
  { intros j. cbn. rewrite nth_snoc. unfold link at 1. rewrite put_length. fold L.
    destruct (j =? L); auto. apply (link_nth (theap s) n x k L E). }
  assert (O : forall m y, nth_error (theap s) m = Some y -> m <> L).
  { intros m y Em. apply nth_lt in Em. unfold L; lia. }
  assert (K : forall m y, nth_error (theap s) m = Some y ->
    exists y', nth_error (theap s') m = Some y' /\ tlev y' = tlev y /\ incl (tkids y) (tkids y')).
  { intros m y Em. rewrite N. rewrite (proj2 (Nat.eqb_neq m L)) by eauto. destruct (Nat.eqb_spec m n) as [->|D].
    - rewrite E in Em; injection Em as <-. eexists; split; [reflexivity|]; split; auto. intros d I. right; auto.
    - exists y; split; auto. split; auto. apply incl_refl. }
  split; [|split; [|split]]; auto.
  - constructor.
    + intros m I. destruct (g_roots _ G _ I) as (y & Ey & Ly). destruct (K _ _ Ey) as (y' & Ey' & Ly' & _).
      exists y'; split; auto. lia.
    + intros m y d. rewrite N. destruct (Nat.eqb_spec m L); [intros [= <-] []|].
      destruct (Nat.eqb_spec m n) as [->|D].
      * intros [= <-] [<-|I].
        -- exists (mkTn (S (tlev x)) []). cbn [snd]. rewrite N, Nat.eqb_refl. auto.
        -- destruct (g_kids _ G _ _ _ E I) as (z & Ez & Lz). destruct (K _ _ Ez) as (z' & Ez' & Lz' & _).
           exists z'; split; auto. cbn. lia.
      * intros Em I. destruct (g_kids _ G _ _ _ Em I) as (z & Ez & Lz). destruct (K _ _ Ez) as (z' & Ez' & Lz' & _).
        exists z'; split; auto. lia.
    + intros m y. rewrite N. pose proof (g_lev _ G _ _ E). destruct (Nat.eqb_spec m L); [intros [= <-]; cbn; lia|].
      destruct (Nat.eqb_spec m n) as [->|D]; [intros [= <-]; cbn; lia|]. apply (g_lev _ G).
    + intros l k' d Ed. cbn [ttab] in Ed.
      assert (Z : (l = tlev x /\ d = L) \/ entry (l, k') (ttab s) = Some d).
      { destruct Tb as [->|[-> _]]; auto. cbn in Ed. destruct ((tlev x =? l) && (k =? k')) eqn:Ee; auto.
        apply andb_prop in Ee as [Ee _]. apply Nat.eqb_eq in Ee. injection Ed as <-. auto. }
      destruct Z as [[-> ->]|Z].
      * exists (mkTn (S (tlev x)) []). rewrite N, Nat.eqb_refl. auto.
      * destruct (g_tab _ G _ _ _ Z) as (z & Ez & Lz). destruct (K _ _ Ez) as (z' & Ez' & Lz' & _). exists z'; split; auto; lia.
  - constructor; auto.
    + intros m y d. rewrite N. destruct (Nat.eqb_spec m L); [intros [= <-] []|].
      destruct (Nat.eqb_spec m n) as [->|D].
      * intros [= <-] [<-|I]; [right; left; cbn; auto|]. left; eauto.
      * intros Em I. left; eauto.
    + intros l k' d Ed. cbn [ttab]. destruct Tb as [->|[-> Nn]]; auto. cbn.
      destruct ((tlev x =? l) && (k =? k')) eqn:Ee; auto. apply andb_prop in Ee as [E1 E2].
      apply Nat.eqb_eq in E1, E2. subst. congruence.
  - eexists. rewrite N. rewrite (proj2 (Nat.eqb_neq n L)) by lia. rewrite Nat.eqb_refl. split; [reflexivity|]. cbn; auto.
Qed.

Lemma kid_in k l c : kid k l = Some c -> In (k, c) l.
Proof.
  induction l as [|[k' c'] l IH]; cbn; [discriminate|]. destruct (Nat.eqb_spec k' k); intros E; auto.
  left. congruence.
Qed.

Lemma create_ok s n x k c s' :
  good s -> nth_error (theap s) n = Some x -> create_child tt s n x k = Made c s' ->
  good s' /\ heap_step s s' /\ (exists x', nth_error (theap s') n = Some x' /\ In (k, c) (tkids x') /\ tlev x' = tlev x) /\ troots s' = troots s.
Proof.
  intros G E. unfold create_child. destruct (kid k (tkids x)) as [d|] eqn:Ek.
  { intros [= <- <-]. split; [|split; [|split]]; auto. 2: { exists x; split; auto. split; auto. apply kid_in; auto. }
    destruct s; apply heap_same; auto. }
  destruct (tt && chance_node x).
  2: { apply fresh_ok; auto. }
  destruct (entry (tlev x, k) (ttab s)) as [d|] eqn:Ee.
  2: { apply fresh_ok; auto. }
  destruct (exists_still s d) eqn:Es; [|discriminate]. intros [= <- <-]. apply (exists_owned s d G) in Es.
  destruct (g_tab _ G _ _ _ Ee) as (y0 & Ey0 & Ly0).
  set (s' := mkTs (link (theap s) n x k d) (troots s) (ttab s)).
  assert (N : forall j, nth_error (theap s') j = if j =? n then Some (mkTn (tlev x) ((k, d) :: tkids x)) else nth_error (theap s) j)
    by (intros j; apply (link_nth (theap s) n x k d E)).
  assert (K : forall m y, nth_error (theap s) m = Some y ->
    exists y', nth_error (theap s') m = Some y' /\ tlev y' = tlev y /\ incl (tkids y) (tkids y')).
  { intros m y Em. rewrite N. destruct (Nat.eqb_spec m n) as [->|D].
    - rewrite E in Em; injection Em as <-. eexists; split; [reflexivity|]; split; auto. intros e I. right; auto.
    - exists y; split; auto. split; auto. apply incl_refl. }
  split; [|split; [|split]]; auto.
  - constructor.
    + intros m I. destruct (g_roots _ G _ I) as (y & Ey & Ly). destruct (K _ _ Ey) as (y' & Ey' & Ly' & _).
      exists y'; split; auto. lia.
    + intros m y e. rewrite N. destruct (Nat.eqb_spec m n) as [->|D].
      * intros [= <-] [<-|I].
        -- destruct (K _ _ Ey0) as (z' & Ez' & Lz' & _). exists z'; split; auto. cbn. lia.
        -- destruct (g_kids _ G _ _ _ E I) as (z & Ez & Lz). destruct (K _ _ Ez) as (z' & Ez' & Lz' & _).
           exists z'; split; auto. cbn. lia.
      * intros Em I. destruct (g_kids _ G _ _ _ Em I) as (z & Ez & Lz). destruct (K _ _ Ez) as (z' & Ez' & Lz' & _).
        exists z'; split; auto. lia.
    + intros m y. rewrite N. destruct (Nat.eqb_spec m n) as [->|D].
      * intros [= <-]. apply (g_lev _ G _ _ E).
      * apply (g_lev _ G).
    + intros l k' e Ed. destruct (g_tab _ G _ _ _ Ed) as (z & Ez & Lz). destruct (K _ _ Ez) as (z' & Ez' & Lz' & _).
      exists z'; split; auto; lia.
  - constructor; auto.
    + intros m y e. rewrite N. destruct (Nat.eqb_spec m n) as [->|D].
      * intros [= <-] [<-|I]; [right; right; auto|]. left; eauto.
      * intros Em I. left; eauto.
  - eexists. rewrite N, Nat.eqb_refl. split; [reflexivity|]. cbn; auto.
Qed.

Lemma do_ok s o s' : good s -> tdo tt s o = Some s' -> good s' /\ heap_step s s'.
Proof.
  intros G. destruct o as [|n k|n]; cbn.
  - intros [= <-].
    assert (N : forall j, nth_error (theap s ++ [mkTn 0 []]) j = if j =? length (theap s) then Some (mkTn 0 []) else nth_error (theap s) j)
      by (intros; apply nth_snoc).
    assert (K : forall m y, nth_error (theap s) m = Some y -> nth_error (theap s ++ [mkTn 0 []]) m = Some y).
    { intros m y Em. rewrite N. pose proof (nth_lt _ _ _ Em). rewrite (proj2 (Nat.eqb_neq m (length (theap s)))); auto; lia. }
    split.
    + constructor; cbn.
      * intros m [<-|I]. { exists (mkTn 0 []). rewrite N, Nat.eqb_refl; auto. }
        destruct (g_roots _ G _ I) as (y & Ey & Ly). exists y; auto.
      * intros m y c. rewrite N. destruct (Nat.eqb_spec m (length (theap s))); [intros [= <-] []|].
        intros Em I. destruct (g_kids _ G _ _ _ Em I) as (z & Ez & Lz). exists z; auto.
      * intros m y. rewrite N. destruct (Nat.eqb_spec m (length (theap s))); [intros [= <-]; cbn; lia|]. apply (g_lev _ G).
      * intros l k c Ec. destruct (g_tab _ G _ _ _ Ec) as (z & Ez & Lz). exists z; auto.
    + constructor; cbn; auto.
      * intros m y Em. exists y. split; auto. split; auto. apply incl_refl.
      * intros m y c. rewrite N. destruct (Nat.eqb_spec m (length (theap s))); [intros [= <-] []|]. intros Em I. left; eauto.
      * intros m [<-|I]; auto.
  - destruct (nth_error (theap s) n) as [x|] eqn:E; [|discriminate].
    destruct (exists_still s n); [|discriminate]. destruct (create_child tt s n x k) as [c s1|] eqn:Ec; [|discriminate].
    intros [= <-]. destruct (create_ok _ _ _ _ _ _ G E Ec) as (G' & H & _); auto.
  - intros [= <-].
    assert (I : forall m, In m (filter (fun m => negb (m =? n)) (troots s)) -> In m (troots s)) by (intros m I; apply filter_In in I; tauto).
    split.
    + destruct G; constructor; cbn; auto.
    + destruct s; cbn in *. apply heap_same; auto.
Qed.

Lemma good_new : good tnew.
Proof. constructor; cbn; try contradiction; try discriminate; intros [|n]; discriminate. Qed.

Lemma hist_ok l : forall s s', good s -> thist tt s l = Some s' -> good s'.
Proof.
  induction l as [|o l IH]; intros s s' G E; cbn in E; [injection E as <-; auto|].
  destruct (tdo tt s o) as [s1|] eqn:E1; [|discriminate]. eapply IH; [|eauto]. apply (do_ok _ _ _ G E1).
Qed.

(** A node that has gone stays gone. *)
Lemma gone_step s s' n : good s -> heap_step s s' -> n < length (theap s) ->
  owned (theap s') (troots s') n -> owned (theap s) (troots s) n.
Proof.
  intros G H L O. revert L. induction O as [n I|n x c O IH E J]; intros L.
  - destruct (h_new _ _ H _ I); [apply ow_root; auto|lia].
  - destruct (h_kids _ _ H _ _ _ E J) as [(x0 & E0 & J0)|[Z|Z]]; auto; [|lia].
    eapply ow_kid; [apply IH| |]; eauto. eapply nth_lt; eauto.
Qed.

Lemma heap_step_length s s' : heap_step s s' -> length (theap s) <= length (theap s').
Proof.
  intros H. destruct (length (theap s)) as [|m] eqn:E; [lia|].
  destruct (nth_error (theap s) m) as [x|] eqn:Ex; [|apply nth_error_None in Ex; lia].
  destruct (h_keep _ _ H _ _ Ex) as (x' & Ex' & _). apply nth_lt in Ex'. lia.
Qed.

Lemma gone_forever l : forall s s' c lv k, good s -> thist tt s l = Some s' ->
  entry (lv, k) (ttab s) = Some c -> ~ owned (theap s) (troots s) c ->
  entry (lv, k) (ttab s') = Some c /\ ~ owned (theap s') (troots s') c.
Proof.
  induction l as [|o l IH]; intros s s' c lv k G E Ec No; cbn in E; [injection E as <-; auto|].
  destruct (tdo tt s o) as [s1|] eqn:E1; [|discriminate]. destruct (do_ok _ _ _ G E1) as [G1 H1].
  eapply (IH s1); eauto.
  - apply (h_tab _ _ H1); auto.
  - intros O. apply No. eapply gone_step; eauto. destruct (g_tab _ G _ _ _ Ec) as (y & Ey & _). eapply nth_lt; eauto.
Qed.

(** While no tree is given up, every node exists. *)
Definition all_exist (s : tstate) : Prop := forall n x, nth_error (theap s) n = Some x -> owned (theap s) (troots s) n.

Lemma owned_keep s s' n : heap_step s s' -> incl (troots s) (troots s') ->
  owned (theap s) (troots s) n -> owned (theap s') (troots s') n.
Proof.
  intros H I O. induction O as [n J|n x c O IH E J]; [apply ow_root; auto|].
  destruct (h_keep _ _ H _ _ E) as (x' & E' & _ & K). eapply ow_kid; eauto.
  apply in_map_iff in J as (p & <- & J). apply in_map, K; auto.
Qed.

Lemma all_exist_step s o s' : good s -> tdo tt s o = Some s' -> (forall n, o <> TDrop n) -> all_exist s -> all_exist s'.
Proof.
  intros G E Nd A. destruct (do_ok _ _ _ G E) as [G' H].
  assert (I : incl (troots s) (troots s')).
  { destruct o as [|n k|n]; cbn in E.
    - injection E as <-. cbn. intros m J; right; auto.
    - destruct (nth_error (theap s) n) as [x|] eqn:Ex; [|discriminate].
      destruct (exists_still s n); [|discriminate]. destruct (create_child tt s n x k) as [c s1|] eqn:Ec; [|discriminate].
      injection E as <-. destruct (create_ok _ _ _ _ _ _ G Ex Ec) as (_ & _ & _ & R). rewrite R. apply incl_refl.
    - exfalso. eapply Nd; eauto. }
  intros m y Em. destruct (nth_error (theap s) m) as [y0|] eqn:E0.
  { eapply owned_keep; eauto. }
  (* a new node *)
  destruct o as [|n k|n]; cbn in E.
  - injection E as <-. cbn in *. rewrite nth_snoc in Em. destruct (Nat.eqb_spec m (length (theap s))); [|congruence].
    apply ow_root. left; auto.
  - destruct (nth_error (theap s) n) as [x|] eqn:Ex; [|discriminate].
    destruct (exists_still s n); [|discriminate]. destruct (create_child tt s n x k) as [c s1|] eqn:Ec; [|discriminate].
    injection E as <-. destruct (create_ok _ _ _ _ _ _ G Ex Ec) as (_ & _ & (x' & Ex' & J & _) & R).
    assert (On : owned (theap s1) (troots s1) n) by (eapply owned_keep; eauto).
    assert (Z : m = c \/ nth_error (theap s) m = Some y \/ m = n).
    { unfold create_child in Ec. destruct (kid k (tkids x)) as [d|]; [injection Ec as <- <-; auto|].
      assert (F : forall tab, fresh s n x k tab = Made c s1 -> m = c \/ nth_error (theap s) m = Some y \/ m = n).
      { intros tab Ef. unfold fresh in Ef. injection Ef as <- <-. cbn in Em. rewrite nth_snoc in Em.
        unfold link at 1 in Em. rewrite put_length in Em. destruct (Nat.eqb_spec m (length (theap s))); auto.
        rewrite (link_nth _ _ _ _ _ Ex) in Em. destruct (Nat.eqb_spec m n); auto. }
      destruct (tt && chance_node x); eauto. destruct (entry (tlev x, k) (ttab s)) as [d|]; eauto.
      destruct (exists_still s d); [|discriminate]. injection Ec as <- <-. cbn in Em.
      rewrite (link_nth _ _ _ _ _ Ex) in Em. destruct (Nat.eqb_spec m n); auto. }
    destruct Z as [->|[Z| ->]]; auto; [|congruence].
    eapply ow_kid; eauto. apply (in_map snd) in J. exact J.
  - exfalso. eapply Nd; eauto.
Qed.

Lemma all_exist_hist l : forall s s', good s -> thist tt s l = Some s' -> keeps_trees l -> all_exist s -> all_exist s'.
Proof.
  induction l as [|o l IH]; intros s s' G E K A; cbn in E; [injection E as <-; auto|].
  destruct (tdo tt s o) as [s1|] eqn:E1; [|discriminate]. destruct (do_ok _ _ _ G E1) as [G1 _].
  apply (IH s1 s'); auto.
  - intros n J. apply (K n). right; auto.
  - apply (all_exist_step s o s1); auto. intros n Z. apply (K n). left; auto.
Qed.
End Steps.

(** With the table, the children of chance nodes are those of the table. *)
Definition in_step (s : tstate) : Prop :=
  forall n x k c, nth_error (theap s) n = Some x -> chance_node x = true -> In (k, c) (tkids x) ->
  entry (tlev x, k) (ttab s) = Some c.

Lemma in_step_do s o s' : good s -> tdo true s o = Some s' -> in_step s -> in_step s'.
Proof.
  intros G E A. destruct o as [|n k|n]; cbn in E.
  - injection E as <-. intros m y k' c. cbn. rewrite nth_snoc. destruct (Nat.eqb_spec m (length (theap s))); [intros [= <-] _ []|]. apply A.
  - destruct (nth_error (theap s) n) as [x|] eqn:Ex; [|discriminate].
    destruct (exists_still s n); [|discriminate]. destruct (create_child true s n x k) as [c s1|] eqn:Ec; [|discriminate].
    injection E as <-. unfold create_child in Ec. destruct (kid k (tkids x)) as [d|]; [injection Ec as <- <-; auto|].
    cbn [andb] in Ec.
    assert (F : forall tab, fresh s n x k tab = Made c s1 ->
       (forall l k' d, entry (l, k') (ttab s) = Some d -> entry (l, k') tab = Some d) ->
       (chance_node x = true -> entry (tlev x, k) tab = Some (length (theap s))) -> in_step s1).
    { intros tab Ef Tk Tn. unfold fresh in Ef. injection Ef as <- <-. intros m y k' d. cbn. rewrite nth_snoc.
      unfold link at 1. rewrite put_length. destruct (Nat.eqb_spec m (length (theap s))); [intros [= <-] _ []|].
      rewrite (link_nth _ _ _ _ _ Ex). destruct (Nat.eqb_spec m n) as [->|D].
      - intros [= <-] Ch [[= <- <-]|J]; cbn; auto. apply Tk. eapply A; eauto.
      - intros Em Ch J. apply Tk. eapply A; eauto. }
    destruct (chance_node x) eqn:Ch.
    2: { eapply F; eauto. discriminate. }
    destruct (entry (tlev x, k) (ttab s)) as [d|] eqn:Ee.
    + destruct (exists_still s d); [|discriminate]. injection Ec as <- <-. intros m y k' e. cbn.
      rewrite (link_nth _ _ _ _ _ Ex). destruct (Nat.eqb_spec m n) as [->|D].
      * intros [= <-] _ [[= <- <-]|J]; cbn; auto. eapply A; eauto.
      * intros Em Ch' J. eapply A; eauto.
    + eapply F; eauto.
      * intros l k' d Ed. cbn. destruct ((tlev x =? l) && (k =? k')) eqn:Eq; auto. apply andb_prop in Eq as [E1 E2].
        apply Nat.eqb_eq in E1, E2. subst. congruence.
      * intros _. cbn. now rewrite !Nat.eqb_refl.
  - injection E as <-. exact A.
Qed.

Lemma in_step_hist l : forall s s', good s -> thist true s l = Some s' -> in_step s -> in_step s'.
Proof.
  induction l as [|o l IH]; intros s s' G E A; cbn in E; [injection E as <-; auto|].
  destruct (tdo true s o) as [s1|] eqn:E1; [|discriminate]. destruct (do_ok true _ _ _ G E1) as [G1 _].
  apply (IH s1 s'); auto. apply (in_step_do s o s1); auto.
Qed.
