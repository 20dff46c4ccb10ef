(* Reference counts are exact. *)
From Coq Require Import List Arith Bool Lia.
From Verif Require Import RcModel RcSpec.
Import ListNotations.

Notation cnt := (count_occ Nat.eq_dec).
Definition strong (o : obj) : list nat := match uses o with 0 => [] | _ => links (what o) end.
Definition counted (h : list obj) (w : list nat) : Prop :=
  forall x o, nth_error h x = Some o -> uses o = cnt w x + cnt (flat_map strong h) x.
Notation shape := (map what).

(** ** [put] *)
Lemma put_length h : forall i v, length (put h i v) = length h.
Proof. induction h as [|a h IH]; intros [|i] v; cbn; auto. Qed.
Lemma put_same h : forall i v o, nth_error h i = Some o -> nth_error (put h i v) i = Some v.
Proof. induction h as [|a h IH]; intros [|i] v o; cbn; try discriminate; auto. apply IH. Qed.
Lemma put_other h : forall i j v, i <> j -> nth_error (put h i v) j = nth_error h j.
Proof. induction h as [|a h IH]; intros [|i] [|j] v; cbn; auto; try lia. Qed.
Lemma put_shape h : forall i v o, nth_error h i = Some o -> what v = what o -> shape (put h i v) = shape h.
Proof. induction h as [|a h IH]; intros [|i] v o; cbn; intros E W; try discriminate; [injection E as <-|]; f_equal; eauto. Qed.
Lemma put_strong h : forall i v o z, nth_error h i = Some o ->
  cnt (flat_map strong (put h i v)) z + cnt (strong o) z = cnt (flat_map strong h) z + cnt (strong v) z.
Proof.
  induction h as [|a h IH]; intros [|i] v o z E; try discriminate; cbn [put flat_map]; rewrite !count_occ_app.
  - injection E as ->. lia.
  - specialize (IH i v o z E). lia.
Qed.
Lemma nth_shape h i o : nth_error h i = Some o -> nth_error (shape h) i = Some (what o).
Proof. intros E. rewrite nth_error_map, E. reflexivity. Qed.
Lemma nth_shape_inv h i k : nth_error (shape h) i = Some k -> exists o, nth_error h i = Some o /\ what o = k.
Proof. rewrite nth_error_map. destruct (nth_error h i) as [o|]; cbn; [|discriminate]. intros E. injection E as <-. eauto. Qed.

(** ** Well-formed shapes *)
Record wfk (K : list okind) : Prop := mkWf {
  wf_mgr : forall n lev m kids, nth_error K n = Some (Node lev m kids) -> exists t, nth_error K m = Some (Mgr t);
  wf_kid : forall n lev m kids k c, nth_error K n = Some (Node lev m kids) -> In (k, c) kids ->
           exists m' kids', nth_error K c = Some (Node (S lev) m' kids');
  wf_tab : forall m t lev k c, nth_error K m = Some (Mgr t) -> entry (lev, k) t = Some c ->
           exists m' kids', nth_error K c = Some (Node (S lev) m' kids') }.

(** Nested calls needed to destroy an object. *)
Definition room (L : nat) (k : okind) : nat := match k with Mgr _ => 1 | Node lev _ _ => L - lev + 2 end.
Definition flatk (L : nat) (K : list okind) : Prop := forall x lev m kids, nth_error K x = Some (Node lev m kids) -> lev <= L.

Lemma links_room K L x k y : wfk K -> flatk L K -> nth_error K x = Some k -> In y (links k) ->
  exists k', nth_error K y = Some k' /\ room L k' < room L k.
Proof.
  intros Wf F E I. destruct k as [t|lev m kids]; [destruct I|]. cbn [links] in I. apply in_app_or in I. destruct I as [I|I].
  - apply in_map_iff in I. destruct I as ((k & c) & Ec & I). cbn in Ec. subst c.
    destruct (wf_kid K Wf _ _ _ _ _ _ E I) as (m' & kids' & E'). exists (Node (S lev) m' kids'). split; auto.
    cbn. specialize (F _ _ _ _ E'). lia.
  - destruct I as [<-|[]]. destruct (wf_mgr K Wf _ _ _ _ E) as (t & E'). exists (Mgr t). split; auto. cbn. lia.
Qed.

Section Rel.
Variable K : list okind.
Variable L : nat.
Hypothesis Wf : wfk K.
Hypothesis Fl : flatk L K.

Lemma release_ok : forall d h w x k, shape h = K -> counted h (x :: w) -> nth_error K x = Some k -> room L k <= d ->
  exists h', release d h x = Some h' /\ shape h' = K /\ counted h' w.
Proof using Wf Fl.
  induction d as [|d IH]; intros h w x k Sh Co Ek Le; [destruct k; cbn in Le; lia|].
  assert (Wf' : wfk (shape h)) by (rewrite Sh; exact Wf). assert (Fl' : flatk L (shape h)) by (rewrite Sh; exact Fl).
  rewrite <- Sh in Ek. destruct (nth_shape_inv _ _ _ Ek) as (o & Eo & <-). pose proof (Co x o Eo) as U. cbn [count_occ] in U.
  destruct (Nat.eq_dec x x) as [_|]; [|congruence]. cbn [release]. rewrite Eo.
  destruct (uses o) as [|[|u]] eqn:Eu; [lia| |].
  - assert (Fold : forall l h0 w0, shape h0 = K -> counted h0 (l ++ w0) ->
      (forall y, In y l -> exists k', nth_error K y = Some k' /\ room L k' <= d) ->
      exists h', fold_left (fun r y => match r with Some h' => release d h' y | None => None end) l (Some h0) = Some h' /\
        shape h' = K /\ counted h' w0).
    { induction l as [|y l IHl]; intros h0 w0 S0 C0 Al; [exists h0; auto|].
      cbn [fold_left]. destruct (Al y (or_introl eq_refl)) as (k' & Ek' & Lk').
      destruct (IH h0 (l ++ w0) y k' S0 C0 Ek' Lk') as (h1 & R1 & S1 & C1). rewrite R1.
      apply IHl; auto. intros z I. apply Al. right; auto. }
    apply Fold.
    + rewrite (put_shape _ _ _ _ Eo); auto.
    + intros z oz Ez. pose proof (put_strong h x (mkO (what o) 0) o z Eo) as P. cbn [strong uses count_occ] in P. unfold strong in P at 2. rewrite Eu in P.
      rewrite count_occ_app. destruct (Nat.eq_dec x z) as [<-|Nz].
      * rewrite (put_same _ _ _ _ Eo) in Ez. injection Ez as <-. cbn [uses].
        assert (cnt (links (what o)) x = 0).
        { apply count_occ_not_In. intros I. destruct (links_room (shape h) L x (what o) x Wf' Fl' Ek I) as (k' & Ek' & Lt).
          rewrite Ek in Ek'. injection Ek' as <-. lia. }
        lia.
      * rewrite put_other in Ez by auto. specialize (Co z oz Ez). cbn [count_occ] in Co. destruct (Nat.eq_dec x z); [congruence|]. lia.
    + intros y I. rewrite <- Sh. destruct (links_room (shape h) L x (what o) y Wf' Fl' Ek I) as (k' & Ek' & Lt).
      exists k'. split; auto. lia.
  - exists (put h x (mkO (what o) (S u))). split; [reflexivity|]. split; [rewrite (put_shape _ _ _ _ Eo); auto|].
    intros z oz Ez. pose proof (put_strong h x (mkO (what o) (S u)) o z Eo) as P. unfold strong in P at 2 4. rewrite Eu in P. cbn [uses what] in P.
    destruct (Nat.eq_dec x z) as [<-|Nz].
    + rewrite (put_same _ _ _ _ Eo) in Ez. injection Ez as <-. cbn [uses]. lia.
    + rewrite put_other in Ez by auto. specialize (Co z oz Ez). cbn [count_occ] in Co. destruct (Nat.eq_dec x z); [congruence|]. lia.
Qed.
End Rel.

(** ** Histories *)
Record good (s : rstate) : Prop := mkGood {
  g_count : counted (heap s) (hands s);
  g_hands : forall x, In x (hands s) -> x < length (heap s);
  g_wf : wfk (shape (heap s)) }.

Lemma cnt_drop x l z : In x l -> cnt l z = cnt (x :: drop_one x l) z.
Proof.
  induction l as [|y l IH]; [intros []|]. intros I. cbn [drop_one]. destruct (Nat.eqb_spec y x) as [->|N]; auto.
  destruct I as [->|I]; [congruence|]. specialize (IH I). cbn [count_occ] in *. destruct (Nat.eq_dec y z), (Nat.eq_dec x z); lia.
Qed.
Lemma in_drop x l z : In z (drop_one x l) -> In z l.
Proof. induction l as [|y l IH]; cbn; auto. destruct (Nat.eqb_spec y x); cbn; tauto. Qed.
Lemma holds_in s x : holds s x = true -> In x (hands s).
Proof. unfold holds. intros H. apply existsb_exists in H. destruct H as (y & I & E). apply Nat.eqb_eq in E. subst. auto. Qed.

(** extending shapes *)
Lemma flat_in h y o x : nth_error h y = Some o -> uses o <> 0 -> In x (links (what o)) -> In x (flat_map strong h).
Proof. intros E U I. apply in_flat_map. exists o. split; [eapply nth_error_In; eauto|]. unfold strong. destruct (uses o); [congruence|auto]. Qed.

Lemma links_range K x k y : wfk K -> nth_error K x = Some k -> In y (links k) -> exists k', nth_error K y = Some k'.
Proof.
  intros Wf E I. destruct k as [t|lev m kids]; [destruct I|]. cbn [links] in I. apply in_app_or in I. destruct I as [I|I].
  - apply in_map_iff in I. destruct I as ((k & c) & Ec & I). cbn in Ec. subst c.
    destruct (wf_kid K Wf _ _ _ _ _ _ E I) as (m' & kids' & E'). eauto.
  - destruct I as [<-|[]]. destruct (wf_mgr K Wf _ _ _ _ E) as (t & E'). eauto.
Qed.
Lemma flat_range h x : wfk (shape h) -> length h <= x -> cnt (flat_map strong h) x = 0.
Proof.
  intros Wf Le. apply count_occ_not_In. intros I. apply in_flat_map in I. destruct I as (o & Io & I).
  destruct (In_nth_error _ _ Io) as (y & Ey). assert (I' : In x (links (what o))) by (unfold strong in I; destruct (uses o); [destruct I|auto]).
  destruct (links_range _ _ _ _ Wf (nth_shape _ _ _ Ey) I') as (k' & E'). assert (x < length (shape h)) by (apply nth_error_Some; congruence).
  rewrite map_length in H. lia.
Qed.

Lemma more_ok h x o w : nth_error h x = Some o -> uses o <> 0 -> counted h w ->
  counted (use_more h x) (x :: w) /\ shape (use_more h x) = shape h.
Proof.
  intros E U Co. unfold use_more. rewrite E. split; [|apply (put_shape _ _ _ _ E); auto].
  intros z oz Ez. pose proof (put_strong h x (mkO (what o) (S (uses o))) o z E) as P.
  assert (Q : strong (mkO (what o) (S (uses o))) = strong o) by (unfold strong; cbn; destruct (uses o); [congruence|auto]). rewrite Q in P.
  cbn [count_occ]. destruct (Nat.eq_dec x z) as [<-|N].
  - rewrite (put_same _ _ _ _ E) in Ez. injection Ez as <-. cbn [uses]. specialize (Co x o E). lia.
  - rewrite put_other in Ez by auto. specialize (Co z oz Ez). lia.
Qed.
Lemma append_ok h k w : wfk (shape h) -> (forall x, In x w -> x < length h) -> ~ In (length h) (links k) -> counted h (links k ++ w) ->
  counted (h ++ [mkO k 1]) (length h :: w).
Proof.
  intros Wf Rg Nk Co z oz Ez. rewrite flat_map_app, count_occ_app. cbn [flat_map]. rewrite app_nil_r. unfold strong at 2. cbn [uses what].
  cbn [count_occ]. destruct (Nat.eq_dec (length h) z) as [<-|N].
  - rewrite nth_error_app2, Nat.sub_diag in Ez by lia. injection Ez as <-. cbn [uses].
    rewrite (flat_range h) by (auto; lia). rewrite (proj1 (count_occ_not_In Nat.eq_dec (links k) (length h)) Nk).
    assert (cnt w (length h) = 0) by (apply count_occ_not_In; intros I; specialize (Rg _ I); lia). lia.
  - assert (z < length h).
    { assert (z < length (h ++ [mkO k 1])) by (apply nth_error_Some; congruence). rewrite app_length in H. cbn in H. lia. }
    rewrite nth_error_app1 in Ez by auto. specialize (Co z oz Ez). rewrite count_occ_app in Co. lia.
Qed.
Lemma link_ok h n o lev m kids k c w : nth_error h n = Some o -> what o = Node lev m kids -> uses o <> 0 -> counted h (c :: w) ->
  counted (put h n (mkO (Node lev m ((k, c) :: kids)) (uses o))) w.
Proof.
  intros E Wo U Co z oz Ez. pose proof (put_strong h n (mkO (Node lev m ((k, c) :: kids)) (uses o)) o z E) as P.
  assert (Q : strong (mkO (Node lev m ((k, c) :: kids)) (uses o)) = c :: strong o).
  { unfold strong. cbn [uses what]. rewrite Wo. destruct (uses o); [congruence|reflexivity]. }
  rewrite Q in P. cbn [count_occ] in P.
  destruct (Nat.eq_dec n z) as [<-|N].
  - rewrite (put_same _ _ _ _ E) in Ez. injection Ez as <-. cbn [uses]. specialize (Co n o E). cbn [count_occ] in Co. destruct (Nat.eq_dec c n); lia.
  - rewrite put_other in Ez by auto. specialize (Co z oz Ez). cbn [count_occ] in Co. destruct (Nat.eq_dec c z); lia.
Qed.
Lemma table_ok h m om t t' w : nth_error h m = Some om -> what om = Mgr t -> counted h w ->
  counted (put h m (mkO (Mgr t') (uses om))) w.
Proof.
  intros E Wo Co z oz Ez. pose proof (put_strong h m (mkO (Mgr t') (uses om)) om z E) as P.
  assert (Q : strong (mkO (Mgr t') (uses om)) = strong om) by (unfold strong; cbn [uses what]; rewrite Wo; destruct (uses om); reflexivity).
  rewrite Q in P. destruct (Nat.eq_dec m z) as [<-|N].
  - rewrite (put_same _ _ _ _ E) in Ez. injection Ez as <-. cbn [uses]. specialize (Co m om E). lia.
  - rewrite put_other in Ez by auto. specialize (Co z oz Ez). lia.
Qed.

(** ** Shapes *)
Lemma nth_app_some {T} (l r : list T) n x : nth_error l n = Some x -> nth_error (l ++ r) n = Some x.
Proof. intros E. rewrite nth_error_app1; auto. apply nth_error_Some. congruence. Qed.
Lemma nth_app_inv {T} (l : list T) v n x : nth_error (l ++ [v]) n = Some x -> nth_error l n = Some x \/ (n = length l /\ x = v).
Proof.
  intros E. destruct (Nat.lt_ge_cases n (length l)) as [Lt|Ge]; [rewrite nth_error_app1 in E by auto; auto|].
  rewrite nth_error_app2 in E by auto. destruct (n - length l) as [|j] eqn:Ej; [|destruct j; discriminate]. injection E as <-. right. split; auto. lia.
Qed.
Lemma wf_append K k : wfk K -> match k with Mgr t => t = [] | Node _ m kids => kids = [] /\ exists t, nth_error K m = Some (Mgr t) end -> wfk (K ++ [k]).
Proof.
  intros Wf Ok. split.
  - intros n lev m kids E. destruct (nth_app_inv _ _ _ _ E) as [E'|(-> & <-)].
    + destruct (wf_mgr K Wf _ _ _ _ E') as (t & Et). exists t. apply nth_app_some; auto.
    + destruct Ok as (_ & t & Et). exists t. apply nth_app_some; auto.
  - intros n lev m kids q c E I. destruct (nth_app_inv _ _ _ _ E) as [E'|(-> & <-)].
    + destruct (wf_kid K Wf _ _ _ _ _ _ E' I) as (m' & kids' & Et). exists m', kids'. apply nth_app_some; auto.
    + destruct Ok as (-> & _). destruct I.
  - intros m t lev q c E I. destruct (nth_app_inv _ _ _ _ E) as [E'|(-> & <-)].
    + destruct (wf_tab K Wf _ _ _ _ _ E' I) as (m' & kids' & Et). exists m', kids'. apply nth_app_some; auto.
    + subst t. discriminate.
Qed.
(** A node gets a child, or a manager a table entry. *)
Lemma wf_link h n o lev m kids k c v : wfk (shape h) -> nth_error h n = Some o -> what o = Node lev m kids ->
  (exists m' kids', nth_error (shape h) c = Some (Node (S lev) m' kids')) -> what v = Node lev m ((k, c) :: kids) -> wfk (shape (put h n v)).
Proof.
  intros Wf E Wo (m' & kids' & Ec) Wv. pose proof (nth_shape _ _ _ E) as En. rewrite Wo in En.
  assert (Old : forall x kx, nth_error (shape h) x = Some kx -> x <> n -> nth_error (shape (put h n v)) x = Some kx).
  { intros x kx Ex N. rewrite nth_error_map in *. rewrite put_other; auto. }
  assert (New : nth_error (shape (put h n v)) n = Some (Node lev m ((k, c) :: kids))).
  { rewrite nth_error_map, (put_same _ _ _ _ E). cbn. congruence. }
  assert (Inv : forall x kx, nth_error (shape (put h n v)) x = Some kx -> (x <> n /\ nth_error (shape h) x = Some kx) \/ (x = n /\ kx = Node lev m ((k, c) :: kids))).
  { intros x kx Ex. destruct (Nat.eq_dec x n) as [->|N]; [rewrite New in Ex; injection Ex as <-; auto|]. left. split; auto. rewrite nth_error_map in *. rewrite put_other in Ex; auto. }
  assert (Nd : forall x l mm kk, nth_error (shape h) x = Some (Node l mm kk) -> exists m'' kk', nth_error (shape (put h n v)) x = Some (Node l m'' kk')).
  { intros x l mm kk Ex. destruct (Nat.eq_dec x n) as [->|N]; [|eauto]. rewrite En in Ex. injection Ex as <- <- <-. eauto. }
  assert (Mg : forall x t, nth_error (shape h) x = Some (Mgr t) -> nth_error (shape (put h n v)) x = Some (Mgr t)).
  { intros x t Ex. apply Old; auto. intros ->. congruence. }
  split.
  - intros x l mm kk Ex. destruct (Inv _ _ Ex) as [(N & Ex')|(-> & Eq)].
    + destruct (wf_mgr _ Wf _ _ _ _ Ex') as (t & Et). eauto.
    + injection Eq as -> -> ->. destruct (wf_mgr _ Wf _ _ _ _ En) as (t & Et). eauto.
  - intros x l mm kk q d Ex I. destruct (Inv _ _ Ex) as [(N & Ex')|(-> & Eq)].
    + destruct (wf_kid _ Wf _ _ _ _ _ _ Ex' I) as (m2 & k2 & E2). eauto.
    + injection Eq as -> -> ->. destruct I as [I|I]; [injection I as <- <-; eauto|].
      destruct (wf_kid _ Wf _ _ _ _ _ _ En I) as (m2 & k2 & E2). eauto.
  - intros x t l q d Ex I. destruct (Inv _ _ Ex) as [(N & Ex')|(-> & Eq)]; [|discriminate].
    destruct (wf_tab _ Wf _ _ _ _ _ Ex' I) as (m2 & k2 & E2). eauto.
Qed.
Lemma wf_table h m om t lev k c v : wfk (shape h) -> nth_error h m = Some om -> what om = Mgr t ->
  (exists m' kids', nth_error (shape h) c = Some (Node (S lev) m' kids')) -> what v = Mgr (((lev, k), c) :: t) -> wfk (shape (put h m v)).
Proof.
  intros Wf E Wo (m' & kids' & Ec) Wv. pose proof (nth_shape _ _ _ E) as En. rewrite Wo in En.
  assert (New : nth_error (shape (put h m v)) m = Some (Mgr (((lev, k), c) :: t))).
  { rewrite nth_error_map, (put_same _ _ _ _ E). cbn. congruence. }
  assert (Inv : forall x kx, nth_error (shape (put h m v)) x = Some kx -> (x <> m /\ nth_error (shape h) x = Some kx) \/ (x = m /\ kx = Mgr (((lev, k), c) :: t))).
  { intros x kx Ex. destruct (Nat.eq_dec x m) as [->|N]; [rewrite New in Ex; injection Ex as <-; auto|]. left. split; auto. rewrite nth_error_map in *. rewrite put_other in Ex; auto. }
  assert (Nd : forall x l mm kk, nth_error (shape h) x = Some (Node l mm kk) -> nth_error (shape (put h m v)) x = Some (Node l mm kk)).
  { intros x l mm kk Ex. assert (x <> m) by (intros ->; congruence). rewrite nth_error_map in *. rewrite put_other; auto. }
  assert (Mg : forall x t', nth_error (shape h) x = Some (Mgr t') -> exists t'', nth_error (shape (put h m v)) x = Some (Mgr t'')).
  { intros x t' Ex. destruct (Nat.eq_dec x m) as [->|N]; [eauto|]. exists t'. rewrite nth_error_map in *. rewrite put_other; auto. }
  split.
  - intros x l mm kk Ex. destruct (Inv _ _ Ex) as [(N & Ex')|(-> & Eq)]; [|discriminate]. destruct (wf_mgr _ Wf _ _ _ _ Ex') as (t' & Et). eauto.
  - intros x l mm kk q d Ex I. destruct (Inv _ _ Ex) as [(N & Ex')|(-> & Eq)]; [|discriminate]. destruct (wf_kid _ Wf _ _ _ _ _ _ Ex' I) as (m2 & k2 & E2). eauto.
  - intros x t' l q d Ex I. destruct (Inv _ _ Ex) as [(N & Ex')|(-> & Eq)].
    + destruct (wf_tab _ Wf _ _ _ _ _ Ex' I) as (m2 & k2 & E2). eauto.
    + injection Eq as ->. cbn [entry fst snd] in I. destruct (Nat.eqb_spec lev l) as [->|]; cbn [andb] in I.
      * destruct (Nat.eqb_spec k q) as [->|]; [injection I as <-; eauto|]. destruct (wf_tab _ Wf _ _ _ _ _ En I) as (m2 & k2 & E2). eauto.
      * destruct (wf_tab _ Wf _ _ _ _ _ En I) as (m2 & k2 & E2). eauto.
Qed.

(** ** Every operation keeps the counts *)
Lemma cnt_pos l x : In x l -> cnt l x <> 0.
Proof. intros I. apply (count_occ_In Nat.eq_dec) in I. lia. Qed.
Lemma hand_alive s x : good s -> In x (hands s) -> exists o, nth_error (heap s) x = Some o /\ uses o <> 0.
Proof.
  intros G I. pose proof (g_hands s G x I) as Lt. destruct (nth_error (heap s) x) as [o|] eqn:E; [|apply nth_error_None in E; lia].
  exists o. split; auto. rewrite (g_count s G x o E). pose proof (cnt_pos _ _ I). lia.
Qed.
Lemma link_alive s n o x : good s -> nth_error (heap s) n = Some o -> uses o <> 0 -> In x (links (what o)) ->
  exists ox, nth_error (heap s) x = Some ox /\ uses ox <> 0.
Proof.
  intros G E U I. destruct (links_range _ _ _ _ (g_wf s G) (nth_shape _ _ _ E) I) as (k' & E'). destruct (nth_shape_inv _ _ _ E') as (ox & Ex & _).
  exists ox. split; auto. rewrite (g_count s G x ox Ex). pose proof (cnt_pos _ _ (flat_in _ _ _ _ E U I)). lia.
Qed.
Lemma more_length h x : length (use_more h x) = length h.
Proof. unfold use_more. destruct (nth_error h x); auto using put_length. Qed.
Lemma more_other h x y : x <> y -> nth_error (use_more h x) y = nth_error h y.
Proof. intros N. unfold use_more. destruct (nth_error h x); auto. apply put_other; auto. Qed.

Lemma rchild_ok tt s n k : good s -> In n (hands s) ->
  rchild tt s n k = Refused \/ exists s', rchild tt s n k = Done s' /\ good s' /\ hands s' = hands s.
Proof.
  intros G I. destruct (hand_alive s n G I) as (o & Eo & Uo). unfold rchild. rewrite Eo.
  destruct (what o) as [t|lev m kids] eqn:Wo; [auto|].
  assert (Im : In m (links (what o))) by (rewrite Wo; cbn [links]; apply in_or_app; right; left; auto).
  destruct (link_alive s n o m G Eo Uo Im) as (om & Em & Um).
  pose proof (nth_shape _ _ _ Eo) as Sn. rewrite Wo in Sn. destruct (wf_mgr _ (g_wf s G) _ _ _ _ Sn) as (t & Et).
  assert (Wm : what om = Mgr t) by (rewrite (nth_shape _ _ _ Em) in Et; congruence).
  assert (Nnm : n <> m) by (intros ->; congruence).
  destruct (kid k kids); [right; exists s; auto|].
  assert (Fresh : forall q, match q with None => True | Some t' => t' = ((lev, k), length (heap s)) :: t end ->
    good (fresh s n o lev m kids k q) /\ hands (fresh s n o lev m kids k q) = hands s).
  { intros q Hq. split; [|reflexivity].
    destruct (more_ok _ _ _ _ Em Um (g_count s G)) as [C1 S1].
    assert (W1 : wfk (shape (use_more (heap s) m))) by (rewrite S1; apply (g_wf s G)).
    assert (C2 : counted (use_more (heap s) m ++ [mkO (Node (S lev) m []) 1]) (length (heap s) :: hands s)).
    { rewrite <- (more_length (heap s) m). apply append_ok; auto.
      - intros x Ix. rewrite more_length. apply (g_hands s G); auto.
      - cbn. intros [E|[]]. rewrite more_length in E. assert (m < length (heap s)) by (apply nth_error_Some; congruence). lia. }
    assert (W2 : wfk (shape (use_more (heap s) m ++ [mkO (Node (S lev) m []) 1]))).
    { rewrite map_app. apply wf_append; auto. cbn. split; auto. exists t. rewrite S1. auto. }
    set (h1 := use_more (heap s) m ++ [mkO (Node (S lev) m []) 1]) in *.
    assert (En1 : nth_error h1 n = Some o) by (unfold h1; apply nth_app_some; rewrite more_other; auto).
    assert (Ec1 : nth_error (shape h1) (length (heap s)) = Some (Node (S lev) m [])).
    { unfold h1. rewrite map_app. cbn [map]. rewrite <- (more_length (heap s) m), <- (map_length what). rewrite nth_error_app2, Nat.sub_diag by lia. reflexivity. }
    pose proof (link_ok h1 n o lev m kids k (length (heap s)) (hands s) En1 Wo Uo C2) as C3.
    pose proof (wf_link h1 n o lev m kids k (length (heap s)) (mkO (Node lev m ((k, length (heap s)) :: kids)) (uses o)) W2 En1 Wo (ex_intro _ m (ex_intro _ [] Ec1)) eq_refl) as W3.
    set (h2 := put h1 n (mkO (Node lev m ((k, length (heap s)) :: kids)) (uses o))) in *.
    assert (Em2 : exists om2, nth_error h2 m = Some om2 /\ what om2 = Mgr t).
    { destruct (nth_shape_inv h1 m (Mgr t)) as (om1 & E1 & Q1).
      { unfold h1. rewrite map_app. apply nth_app_some. rewrite S1. auto. }
      exists om1. split; auto. unfold h2. rewrite put_other; auto. }
    destruct Em2 as (om2 & Em2 & Wm2).
    assert (Len : length h2 = S (length (heap s))) by (unfold h2, h1; rewrite put_length, app_length, more_length; cbn; lia).
    unfold fresh. fold h1. fold h2. rewrite Em2.
    destruct q as [t'|]; split; cbn [heap hands].
    - eapply table_ok; eauto.
    - intros x Ix. rewrite put_length, Len. pose proof (g_hands s G x Ix). lia.
    - eapply (wf_table h2 m om2 t lev k (length (heap s))); eauto; [|cbn; congruence].
      assert (N : n <> length (heap s)) by (assert (n < length (heap s)) by (apply (g_hands s G); auto); lia).
      exists m, []. unfold h2. rewrite nth_error_map, put_other by auto. rewrite nth_error_map in Ec1. exact Ec1.
    - auto.
    - intros x Ix. rewrite Len. pose proof (g_hands s G x Ix). lia.
    - auto. }
  destruct (tt && Nat.odd lev).
  - rewrite Em. destruct om as [wm um]. cbn in Wm. subst wm. destruct (entry (lev, k) t) as [c|] eqn:Ec.
    + destruct (wf_tab _ (g_wf s G) _ _ _ _ _ Et Ec) as (m' & kids' & Sc). destruct (nth_shape_inv _ _ _ Sc) as (oc & Eoc & Woc). rewrite Eoc.
      destruct oc as [wc [|uc]]; [auto|]. right. eexists. split; [reflexivity|]. split; [|reflexivity].
      assert (Ucz : uses (mkO wc (S uc)) <> 0) by (cbn; lia).
      destruct (more_ok _ _ _ _ Eoc Ucz (g_count s G)) as [C1 S1]. cbn in Woc. subst wc.
      assert (Nnc : n <> c).
      { intros <-. rewrite Sn in Sc. injection Sc as E1 _ _. lia. }
      assert (En1 : nth_error (use_more (heap s) c) n = Some o) by (rewrite more_other; auto).
      split; cbn [heap hands].
      * eapply link_ok; eauto.
      * intros x Ix. rewrite put_length, more_length. apply (g_hands s G); auto.
      * eapply (wf_link _ n o lev m kids k c); eauto; [rewrite S1; apply (g_wf s G)|rewrite S1; eauto].
    + right. eexists. split; [reflexivity|]. apply Fresh. reflexivity.
  - right. eexists. split; [reflexivity|]. apply Fresh. exact Logic.I.
Qed.

Lemma no_deeper_flat L s : no_deeper L s <-> flatk L (shape (heap s)).
Proof.
  split.
  - intros H x lev m kids E. destruct (nth_shape_inv _ _ _ E) as ([w u] & Eo & Wo). cbn in Wo. subst w. eapply H; eauto.
  - intros H x lev m kids u E. eapply H. rewrite (nth_shape _ _ _ E). reflexivity.
Qed.
Lemma room_le L k : room L k <= L + 2.
Proof. destruct k; cbn; lia. Qed.

Lemma rdo_ok stack tt L s o : good s -> (forall x, o = RDrop x -> no_deeper L s /\ L + 2 <= stack) ->
  rdo stack tt s o = Refused \/ exists s', rdo stack tt s o = Done s' /\ good s'.
Proof.
  intros G Hs. destruct o as [|m|x|n k|x]; cbn [rdo].
  - right. eexists. split; [reflexivity|]. split; cbn [heap hands].
    + apply append_ok; auto. { apply (g_wf s G). } { apply (g_hands s G). } apply (g_count s G).
    + intros x [<-|I]; rewrite app_length; cbn; [lia|]. pose proof (g_hands s G x I). lia.
    + rewrite map_app. apply wf_append; [apply (g_wf s G)|reflexivity].
  - destruct (holds s m) eqn:Hm; [|auto]. apply holds_in in Hm. destruct (hand_alive s m G Hm) as (o & Eo & Uo). rewrite Eo.
    destruct o as [[t|lev m' kids] u]; [|auto]. right. eexists. split; [reflexivity|].
    destruct (more_ok _ _ _ _ Eo Uo (g_count s G)) as [C1 S1]. split; cbn [heap hands].
    + rewrite <- (more_length (heap s) m). apply append_ok; auto.
      * rewrite S1. apply (g_wf s G).
      * intros x I. rewrite more_length. apply (g_hands s G); auto.
      * cbn. intros [E|[]]. rewrite more_length in E. pose proof (g_hands s G m Hm). lia.
    + intros x [<-|I]; rewrite app_length, more_length; cbn; [lia|]. pose proof (g_hands s G x I). lia.
    + rewrite map_app, S1. apply wf_append; [apply (g_wf s G)|]. cbn. split; auto. exists t. rewrite (nth_shape _ _ _ Eo). reflexivity.
  - destruct (nth_error (heap s) x) as [[w [|u]]|] eqn:Eo; [auto| |auto]. right. eexists. split; [reflexivity|].
    assert (Uo : uses (mkO w (S u)) <> 0) by (cbn; lia). destruct (more_ok _ _ _ _ Eo Uo (g_count s G)) as [C1 S1]. split; cbn [heap hands]; auto.
    + intros y [<-|I]; rewrite more_length; [apply nth_error_Some; congruence|apply (g_hands s G); auto].
    + rewrite S1. apply (g_wf s G).
  - destruct (holds s n) eqn:Hn; [|auto]. apply holds_in in Hn. destruct (rchild_ok tt s n k G Hn) as [R|(s' & R & G' & _)]; rewrite R; eauto.
  - destruct (holds s x) eqn:Hx; [|auto]. apply holds_in in Hx. destruct (Hs x eq_refl) as [Nd Le]. apply no_deeper_flat in Nd.
    destruct (hand_alive s x G Hx) as (o & Eo & Uo).
    destruct (release_ok (shape (heap s)) L (g_wf s G) Nd stack (heap s) (drop_one x (hands s)) x (what o) eq_refl) as (h' & R & S' & C').
    + intros z oz Ez. rewrite <- cnt_drop by auto. apply (g_count s G); auto.
    + apply nth_shape; auto.
    + pose proof (room_le L (what o)). lia.
    + rewrite R. right. eexists. split; [reflexivity|]. split; cbn [heap hands]; auto.
      * intros z I. apply in_drop in I. assert (E : length h' = length (heap s)) by (rewrite <- (map_length what h'), S', map_length; auto). rewrite E. apply (g_hands s G); auto.
      * rewrite S'. apply (g_wf s G).
Qed.

(** ** The size of the stack only matters for crashes *)
Lemma release_more : forall d d' h x h', d <= d' -> release d h x = Some h' -> release d' h x = Some h'.
Proof.
  induction d as [|d IH]; intros d' h x h' Le R; [discriminate|]. destruct d' as [|d']; [lia|]. cbn [release] in *.
  destruct (nth_error h x) as [o|]; [|discriminate]. destruct (uses o) as [|[|u]]; [discriminate| |auto].
  assert (F : forall l r r', (forall h0, r = Some h0 -> r' = Some h0) ->
    forall h1, fold_left (fun r y => match r with Some h' => release d h' y | None => None end) l r = Some h1 ->
    fold_left (fun r y => match r with Some h' => release d' h' y | None => None end) l r' = Some h1).
  { induction l as [|y l IHl]; intros r r' Hr h1 E; [apply Hr; auto|]. cbn [fold_left] in *. eapply IHl; [|exact E].
    intros h2 E2. destruct r as [h3|]; [|discriminate]. rewrite (Hr h3 eq_refl). eapply IH; eauto. lia. }
  eapply F; [|exact R]. auto.
Qed.
Lemma level_bound s : exists L, no_deeper L s.
Proof.
  destruct s as [h w]. induction h as [|[[t|lev m kids] u] h IH].
  - exists 0. intros [|x] lev m kids u E; discriminate.
  - destruct IH as (L & H). exists L. intros [|x] lev m kids v E; [discriminate|]. eapply (H x); eauto.
  - destruct IH as (L & H). exists (Nat.max lev L). intros [|x] lev' m' kids' v E; [injection E as <- <- <- <-; lia|].
    assert (lev' <= L) by (eapply (H x); eauto). lia.
Qed.
Lemma rdo_good stack tt s o s' : good s -> rdo stack tt s o = Done s' -> good s'.
Proof.
  intros G D. destruct (level_bound s) as (L & Nd).
  assert (D' : rdo (Nat.max stack (L + 2)) tt s o = Done s').
  { destruct o as [|m|x|n k|x]; auto. cbn [rdo] in *. destruct (holds s x); [|discriminate].
    destruct (release stack (heap s) x) as [h|] eqn:R; [|discriminate]. rewrite (release_more stack _ _ _ _ (Nat.le_max_l _ _) R). auto. }
  destruct (rdo_ok (Nat.max stack (L + 2)) tt L s o G) as [R|(s2 & R & G2)].
  - intros x _. split; auto. lia.
  - rewrite R in D'. discriminate.
  - rewrite R in D'. injection D' as <-. auto.
Qed.
Lemma good_new : good rnew.
Proof.
  split.
  - intros [|x] o E; discriminate.
  - intros x [].
  - split; intros [|n]; discriminate.
Qed.
Lemma hist_good stack tt : forall l s s', good s -> rhist stack tt s l = Some s' -> good s'.
Proof.
  induction l as [|o l IH]; intros s s' G H; cbn in H; [injection H as <-; auto|].
  destruct (rdo stack tt s o) as [s1| |] eqn:D; [|eauto|discriminate]. eapply IH; [|exact H]. eapply rdo_good; eauto.
Qed.

(** ** Wanted and existing *)
Lemma wanted_exists s x : good s -> wanted s x -> exists_now s x.
Proof.
  intros G H. induction H as [x I|n lev m kids u k c Hn IH E I|n lev m kids u Hn IH E].
  - exact (hand_alive s x G I).
  - destruct IH as (o & Eo & Uo). apply (link_alive s n o c G Eo Uo). rewrite E in Eo. injection Eo as <-. cbn.
    apply in_or_app. left. apply in_map_iff. exists (k, c). auto.
  - destruct IH as (o & Eo & Uo). apply (link_alive s n o m G Eo Uo). rewrite E in Eo. injection Eo as <-. cbn. apply in_or_app. right. left. auto.
Qed.
Lemma exists_wanted s x : good s -> exists_now s x -> wanted s x.
Proof.
  intros G. destruct (level_bound s) as (L & Nd). apply no_deeper_flat in Nd.
  assert (H : forall j x o, nth_error (heap s) x = Some o -> uses o <> 0 -> L + 2 - room L (what o) <= j -> wanted s x).
  { induction j as [j IH] using lt_wf_ind. intros y o E U Le. pose proof (g_count s G y o E) as Q.
    destruct (in_dec Nat.eq_dec y (hands s)) as [I|N]; [apply wanted_hand; auto|].
    rewrite (proj1 (count_occ_not_In _ _ _) N) in Q.
    assert (I : In y (flat_map strong (heap s))) by (apply (count_occ_In Nat.eq_dec); lia).
    apply in_flat_map in I. destruct I as (p & Ip & I). destruct (In_nth_error _ _ Ip) as (n & En).
    unfold strong in I. destruct (uses p) as [|up] eqn:Up; [destruct I|].
    destruct (links_room _ L n (what p) y (g_wf s G) Nd (nth_shape _ _ _ En) I) as (k' & Ek' & Lt).
    rewrite (nth_shape _ _ _ E) in Ek'. injection Ek' as <-. pose proof (room_le L (what p)).
    assert (Wn : wanted s n) by (eapply (IH (L + 2 - room L (what p))); eauto; lia).
    destruct p as [[t|lev m kids] u]; [destruct I|]. cbn [links what] in I. apply in_app_or in I. destruct I as [I|[<-|[]]].
    - apply in_map_iff in I. destruct I as ((k & c) & <- & I). eapply wanted_kid; eauto.
    - eapply wanted_mgr; eauto. }
  intros (o & E & U). eapply H; eauto.
Qed.

(** levels in histories *)
Lemma shape_levels stack tt s o s' L : good s -> rdo stack tt s o = Done s' -> no_deeper L s -> no_deeper (S L) s'.
Proof.
  intros G D Nd. apply no_deeper_flat in Nd. apply no_deeper_flat. intros x lev m kids E.
  assert (Kp : forall h h', shape h = shape h' -> forall x lev m kids, nth_error (shape h) x = Some (Node lev m kids) -> nth_error (shape h') x = Some (Node lev m kids)).
  { intros h h' ->. auto. }
  assert (More : forall h y, shape (use_more h y) = shape h).
  { intros h y. unfold use_more. destruct (nth_error h y) as [o'|] eqn:Eo; auto. apply (put_shape _ _ _ _ Eo). auto. }
  assert (Rl : forall d h y h', release d h y = Some h' -> shape h' = shape h).
  { induction d as [|d IH]; intros h y h' R; [discriminate|]. cbn [release] in R. destruct (nth_error h y) as [o'|] eqn:Eo; [|discriminate].
    destruct (uses o') as [|[|u]]; [discriminate| |injection R as <-; apply (put_shape _ _ _ _ Eo); auto].
    assert (F : forall l r, fold_left (fun r y => match r with Some h' => release d h' y | None => None end) l r = Some h' ->
      exists h0, r = Some h0 /\ shape h' = shape h0).
    { induction l as [|z l IHl]; intros r F; [exists h'; auto|]. cbn [fold_left] in F. destruct (IHl _ F) as (h0 & E0 & S0).
      destruct r as [h1|]; [|discriminate]. exists h1. split; auto. rewrite S0. eapply IH; eauto. }
    destruct (F _ _ R) as (h0 & E0 & S0). injection E0 as <-. rewrite S0. apply (put_shape _ _ _ _ Eo). auto. }
  destruct o as [|m0|y|n k|y]; cbn [rdo] in D.
  - injection D as <-. cbn [heap] in E. rewrite map_app in E. destruct (nth_app_inv _ _ _ _ E) as [E'|(_ & Q)]; [|discriminate]. specialize (Nd _ _ _ _ E'). lia.
  - destruct (holds s m0); [|discriminate]. destruct (nth_error (heap s) m0) as [[[t|] u]|]; try discriminate. injection D as <-. cbn [heap] in E.
    rewrite map_app, More in E. destruct (nth_app_inv _ _ _ _ E) as [E'|(_ & Q)]; [specialize (Nd _ _ _ _ E'); lia|]. injection Q as -> _ _. lia.
  - destruct (nth_error (heap s) y) as [[w [|u]]|]; try discriminate. injection D as <-. cbn [heap] in E. rewrite More in E. specialize (Nd _ _ _ _ E). lia.
  - destruct (holds s n); [|discriminate]. unfold rchild in D. destruct (nth_error (heap s) n) as [o|] eqn:Eo; [|discriminate].
    destruct (what o) as [t|lv mm kk] eqn:Wo; [discriminate|]. pose proof (nth_shape _ _ _ Eo) as Sn. rewrite Wo in Sn. pose proof (Nd _ _ _ _ Sn) as Ln.
    destruct (kid k kk); [injection D as <-; specialize (Nd _ _ _ _ E); lia|].
    assert (Put : forall h j v, flatk (S L) (shape h) -> (forall l' m' k', what v = Node l' m' k' -> l' <= S L) -> flatk (S L) (shape (put h j v))).
    { intros h j v F V x' l' m' k' E'. destruct (Nat.eq_dec j x') as [<-|N].
      - rewrite nth_error_map in E'. destruct (nth_error h j) as [oo|] eqn:Ej.
        + rewrite (put_same _ _ _ _ Ej) in E'. cbn in E'. injection E' as E'. eauto.
        + assert (Z : nth_error (put h j v) j = None) by (apply nth_error_None; rewrite put_length; apply nth_error_None; auto). rewrite Z in E'. discriminate.
      - rewrite nth_error_map, put_other in E' by auto. apply (F x' l' m' k'). rewrite nth_error_map. auto. }
    assert (F0 : flatk (S L) (shape (heap s))) by (intros x' l' m' k' E'; specialize (Nd _ _ _ _ E'); lia).
    assert (Fresh : forall q, flatk (S L) (shape (heap (fresh s n o lv mm kk k q)))).
    { intros q. unfold fresh. cbn [heap].
      assert (F2 : flatk (S L) (shape (put (use_more (heap s) mm ++ [mkO (Node (S lv) mm []) 1]) n (mkO (Node lv mm ((k, length (heap s)) :: kk)) (uses o))))).
      { apply Put.
        - intros x' l' m' k' E'. rewrite map_app, More in E'. destruct (nth_app_inv _ _ _ _ E') as [E2|(_ & Q)]; [apply (F0 _ _ _ _ E2)|]. injection Q as -> _ _. lia.
        - intros l' m' k' Q. injection Q as <- _ _. lia. }
      destruct q as [t'|]; auto. destruct (nth_error (put _ _ _) mm) as [om|]; auto. apply Put; auto. intros l' m' k' Q. discriminate. }
    destruct (tt && Nat.odd lv).
    + destruct (nth_error (heap s) mm) as [[[t|] um]|]; try discriminate. destruct (entry (lv, k) t) as [c|].
      * destruct (nth_error (heap s) c) as [[wc [|uc]]|]; try discriminate. injection D as <-. cbn [heap] in E.
        refine (Put _ _ _ _ _ _ _ _ _ E). { rewrite More. auto. } intros l' m' k' Q. injection Q as <- _ _. lia.
      * injection D as <-. apply (Fresh _ _ _ _ _ E).
    + injection D as <-. apply (Fresh _ _ _ _ _ E).
  - destruct (holds s y); [|discriminate]. destruct (release stack (heap s) y) as [h|] eqn:R; [|discriminate]. injection D as <-. cbn [heap] in E.
    rewrite (Rl _ _ _ _ R) in E. specialize (Nd _ _ _ _ E). lia.
Qed.
Lemma hist_runs stack tt : forall l s L, good s -> no_deeper L s -> L + length l + 2 <= stack -> exists s', rhist stack tt s l = Some s'.
Proof.
  induction l as [|o l IH]; intros s L G Nd Le; cbn [rhist length] in *; [eauto|].
  destruct (rdo_ok stack tt L s o G) as [R|(s1 & R & G1)].
  - intros x _. split; auto. lia.
  - rewrite R. apply (IH s L G Nd). lia.
  - rewrite R. apply (IH s1 (S L) G1 (shape_levels stack tt s o s1 L G R Nd)). lia.
Qed.
