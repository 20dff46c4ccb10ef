(** Proofs about pretty printing. *)
From Coq Require Import List ZArith Bool Lia.
From Verif Require Import Base BaseProofs EngineModel NodeModel NodeSpec.
Import ListNotations.
Open Scope nat_scope.

Section Proofs.
Context {S A : Type}.
Variable C : @econf S A.
Variable m : @store S A.

(** All paths with at most [k] steps. *)
Fixpoint paths (k d : nat) : list (list (A * S) * nat) :=
  match nth_error (dh m) d with
  | None => []
  | Some n => ([], d) ::
      match k with
      | 0 => []
      | Datatypes.S k' => flat_map (fun '(a, c) =>
          match nth_error (ch m) c with
          | None => []
          | Some x => flat_map (fun '(o, e) => map (fun '(l, f) => ((a, o) :: l, f)) (paths k' e)) (ckids x)
          end) (dkids n)
      end
  end.
(** All edges to chance nodes with fewer than [k] steps before. *)
Fixpoint edges (k d : nat) : list (list (A * S) * A * nat) :=
  match nth_error (dh m) d, k with
  | Some n, Datatypes.S k' => flat_map (fun '(a, c) =>
      match nth_error (ch m) c with
      | None => []
      | Some x => ([], a, c) :: flat_map (fun '(o, e) => map (fun '(l, b, f) => ((a, o) :: l, b, f)) (edges k' e)) (ckids x)
      end) (dkids n)
  | _, _ => []
  end.

Lemma paths_in : forall k d l f, In (l, f) (paths k d) <-> path m d l f /\ length l <= k.
Proof.
  induction k as [|k IH]; intros d l f; cbn [paths]; destruct (nth_error (dh m) d) as [n|] eqn:N.
  - split.
    + intros [E|[]]. injection E as <- <-. split; [econstructor; eauto|auto].
    + intros [P L]. destruct l; [|cbn in L; lia]. inversion P; subst. now left.
  - split; [intros []|]. intros [P _]. inversion P; congruence.
  - cbn [In]. rewrite in_flat_map. split.
    + intros [E|([a c] & I & J)].
      * injection E as <- <-. split; [econstructor; eauto|cbn; lia].
      * destruct (nth_error (ch m) c) as [x|] eqn:X; [|destruct J]. apply in_flat_map in J. destruct J as ([o e] & I' & J').
        apply in_map_iff in J'. destruct J' as ([l' f'] & E & I2). injection E as <- <-. apply IH in I2. destruct I2 as [P L].
        split; [econstructor; eauto|cbn; lia].
    + intros [P L]. inversion P as [d0 n0 N0|d0 n0 a c x o e l' f0 N0 I0 X0 I1 P1]; subst; [now left|right].
      rewrite N in N0. injection N0 as <-. exists (a, c). split; auto. rewrite X0. apply in_flat_map. exists (o, e). split; auto.
      apply in_map_iff. exists (l', f). split; auto. apply IH. cbn in L. split; [auto|lia].
  - split; [intros []|]. intros [P _]. inversion P; congruence.
Qed.
Lemma edges_in : forall k d l a c, In (l, a, c) (edges k d) <->
  exists e n x, path m d l e /\ length l < k /\ nth_error (dh m) e = Some n /\ In (a, c) (dkids n) /\ nth_error (ch m) c = Some x.
Proof.
  induction k as [|k IH]; intros d l a c; cbn [edges].
  - assert (E : In (l, a, c) [] <-> exists e n x, path m d l e /\ length l < 0 /\ nth_error (dh m) e = Some n /\ In (a, c) (dkids n) /\ nth_error (ch m) c = Some x).
    { split; [intros []|]. intros (e & n & x & _ & L & _). lia. }
    destruct (nth_error (dh m) d); exact E.
  - destruct (nth_error (dh m) d) as [n|] eqn:N.
    + rewrite in_flat_map. split.
      * intros ([b c'] & I & J). destruct (nth_error (ch m) c') as [x|] eqn:X; [|destruct J]. destruct J as [E|J].
        -- injection E as <- <- <-. exists d, n, x. split; [econstructor; eauto|]. cbn. repeat split; auto. lia.
        -- apply in_flat_map in J. destruct J as ([o e] & I' & J'). apply in_map_iff in J'. destruct J' as ([[l' a'] f'] & E & I2).
           injection E as <- <- <-. apply IH in I2. destruct I2 as (e' & n' & x' & P & L & R). exists e', n', x'.
           split; [econstructor; eauto|]. split; [cbn; lia|exact R].
      * intros (e & n' & x & P & L & N' & I & X). inversion P as [d0 n0 N0|d0 n0 b c' y o e' l' f0 N0 I0 X0 I1 P1]; subst.
        -- rewrite N in N'. injection N' as <-. exists (a, c). split; auto. rewrite X. now left.
        -- rewrite N in N0. injection N0 as <-. exists (b, c'). split; auto. rewrite X0. right. apply in_flat_map. exists (o, e').
           split; auto. apply in_map_iff. exists (l', a, c). split; auto. apply IH. exists e, n', x. cbn in L. repeat split; auto. lia.
    + split; [intros []|]. intros (e & n & x & P & _). inversion P; congruence.
Qed.

Hypothesis dkeys : forall d n, nth_error (dh m) d = Some n -> NoDup (map fst (dkids n)).
Hypothesis ckeys : forall c x, nth_error (ch m) c = Some x -> NoDup (map fst (ckids x)).

Lemma nodup_flat : forall T U V (key : V -> T) (tag : U -> T) (f : U -> list V) l,
  NoDup (map tag l) -> (forall u v, In u l -> In v (f u) -> key v = tag u) -> (forall u, In u l -> NoDup (f u)) -> NoDup (flat_map f l).
Proof using.
  intros T U V key tag f. induction l as [|u l IH]; intros ND K F; cbn; [constructor|]. inversion ND as [|? ? N1 N2]; subst.
  assert (App : forall (l1 l2 : list V), NoDup l1 -> NoDup l2 -> (forall v, In v l1 -> ~ In v l2) -> NoDup (l1 ++ l2)).
  { induction l1 as [|y l1 IHl]; intros l2 P1 P2 P3; cbn; auto. inversion P1; subst. constructor.
    - rewrite in_app_iff. intros [Q|Q]; [contradiction|]. apply (P3 y); [now left|auto].
    - apply IHl; auto. intros v I. apply P3. now right. }
  apply App.
  - apply F. now left.
  - apply IH; auto; intros; [apply K|apply F]; auto; now right.
  - intros v I J. apply in_flat_map in J. destruct J as (u' & J1 & J2). apply N1. rewrite <- (K u v), (K u' v); auto; [|now right|now left].
    now apply in_map.
Qed.
Definition hd_act (l : list (A * S)) : option A := match l with [] => None | (a, _) :: _ => Some a end.
Definition hd_obs (l : list (A * S)) : option S := match l with [] => None | (_, o) :: _ => Some o end.
Lemma nodup_some : forall T U (g : U -> T) l, NoDup (map g l) -> NoDup (map (fun u => Some (g u)) l).
Proof using.
  intros T U g l H. rewrite <- (map_map g Some). induction (map g l) as [|x r IH]; cbn; constructor; inversion H; subst.
  - rewrite in_map_iff. intros (y & E & I). injection E as ->. contradiction.
  - auto.
Qed.
Lemma map_flat_map : forall U V W (g : V -> W) (f : U -> list V) l, map g (flat_map f l) = flat_map (fun u => map g (f u)) l.
Proof using. induction l as [|u l IH]; cbn; [auto|]. now rewrite map_app, IH. Qed.
Lemma flat_map_ext_in : forall U V (f g : U -> list V) l, (forall u, In u l -> f u = g u) -> flat_map f l = flat_map g l.
Proof using. induction l as [|u l IH]; intros H; cbn; [auto|]. rewrite IH, (H u); auto; [now left|intros; apply H; now right]. Qed.

Lemma paths_nodup : forall k d, NoDup (map fst (paths k d)).
Proof.
  induction k as [|k IH]; intros d; cbn [paths]; destruct (nth_error (dh m) d) as [n|] eqn:N; cbn [map fst]; try constructor; auto; try constructor.
  - intros I. apply in_map_iff in I. destruct I as ([l f] & E & I). cbn in E. subst l. apply in_flat_map in I. destruct I as ([a c] & _ & J).
    destruct (nth_error (ch m) c); [|destruct J]. apply in_flat_map in J. destruct J as ([o e] & _ & J). apply in_map_iff in J.
    destruct J as ([l' f'] & E & _). discriminate.
  - rewrite map_flat_map. apply (nodup_flat _ _ _ hd_act (fun u => Some (fst u))).
    + apply nodup_some. eauto.
    + intros [a c] l _ I. cbn. destruct (nth_error (ch m) c); [|destruct I]. apply in_map_iff in I. destruct I as ([l' f] & <- & I).
      apply in_flat_map in I. destruct I as ([o e] & _ & J). apply in_map_iff in J. destruct J as ([l2 f2] & E & _). injection E as <- <-. reflexivity.
    + intros [a c] _. destruct (nth_error (ch m) c) as [x|] eqn:X; [|constructor]. rewrite map_flat_map.
      apply (nodup_flat _ _ _ hd_obs (fun u => Some (fst u))).
      * apply nodup_some. eauto.
      * intros [o e] l _ I. apply in_map_iff in I. destruct I as ([l' f] & <- & I). apply in_map_iff in I. destruct I as ([l2 f2] & E & _).
        injection E as <- <-. reflexivity.
      * intros [o e] _. rewrite map_map. specialize (IH e). clear -IH. induction (paths k e) as [|[l f] r IHr]; cbn in *; constructor; inversion IH; subst; auto.
        rewrite in_map_iff. intros ([l' f'] & E & I). injection E as ->. apply H1. apply in_map_iff. now exists (l, f').
Qed.
Lemma edges_nodup : forall k d, NoDup (map fst (edges k d)).
Proof.
  induction k as [|k IH]; intros d; cbn [edges]; destruct (nth_error (dh m) d) as [n|] eqn:N; try constructor.
  rewrite map_flat_map.
  apply (nodup_flat _ _ _ (fun q : list (A * S) * A => match fst q with [] => snd q | (a, _) :: _ => a end) fst); [eauto| |].
  - intros [a c] q _ I. cbn. destruct (nth_error (ch m) c); [|destruct I]. cbn [map fst In] in I. destruct I as [<-|I]; [reflexivity|].
    apply in_map_iff in I. destruct I as ([[l b] f] & <- & I). apply in_flat_map in I. destruct I as ([o e] & _ & J).
    apply in_map_iff in J. destruct J as ([[l2 b2] f2] & E & _). injection E as <- <- <-. reflexivity.
  - intros [a c] _. destruct (nth_error (ch m) c) as [x|] eqn:X; [|constructor]. cbn [map fst]. constructor.
    + intros I. apply in_map_iff in I. destruct I as ([[l b] f] & E & I). cbn in E. injection E as -> ->. apply in_flat_map in I.
      destruct I as ([o e] & _ & J). apply in_map_iff in J. destruct J as ([[l2 b2] f2] & E & _). discriminate.
    + rewrite map_flat_map. apply (nodup_flat _ _ _ (fun q : list (A * S) * A => hd_obs (fst q)) (fun u => Some (fst u))).
      * apply nodup_some. eauto.
      * intros [o e] q _ I. apply in_map_iff in I. destruct I as ([[l b] f] & <- & I). apply in_map_iff in I. destruct I as ([[l2 b2] f2] & E & _).
        injection E as <- <- <-. reflexivity.
      * intros [o e] _. rewrite map_map. specialize (IH e). clear -IH.
        induction (edges k e) as [|[[l b] f] r IHr]; cbn in *; constructor; inversion IH; subst; auto.
        rewrite in_map_iff. intros ([[l' b'] f'] & E & I). injection E as -> ->. apply H1. apply in_map_iff. now exists (l, b, f').
Qed.

(** ** What is printed *)
Notation pd := (print_d C m).
Lemma printed_d_app : forall l1 l2 : list (@piece S A), printed_d (l1 ++ l2) = printed_d l1 ++ printed_d l2.
Proof using. intros. apply flat_map_app. Qed.
Lemma printed_c_app : forall l1 l2 : list (@piece S A), printed_c (l1 ++ l2) = printed_c l1 ++ printed_c l2.
Proof using. intros. apply flat_map_app. Qed.
Lemma printed_tabs : forall n, printed_d (repeat (@Tab S A) n) = [] /\ printed_c (repeat (@Tab S A) n) = [].
Proof using. induction n as [|n [I1 I2]]; split; auto. Qed.
Lemma printed_d_flat : forall U (f : U -> list (@piece S A)) l, printed_d (flat_map f l) = flat_map (fun u => printed_d (f u)) l.
Proof using. induction l as [|u l IH]; cbn [flat_map]; [auto|]. now rewrite printed_d_app, IH. Qed.
Lemma printed_c_flat : forall U (f : U -> list (@piece S A)) l, printed_c (flat_map f l) = flat_map (fun u => printed_c (f u)) l.
Proof using. induction l as [|u l IH]; cbn [flat_map]; [auto|]. now rewrite printed_c_app, IH. Qed.

Lemma pd_cons : forall p (l : list (@piece S A)), printed_d (p :: l) = match p with DHead d v => [(d, v)] | _ => [] end ++ printed_d l.
Proof using. reflexivity. Qed.
Lemma pc_cons : forall p (l : list (@piece S A)), printed_c (p :: l) = match p with CHead d v => [(d, v)] | _ => [] end ++ printed_c l.
Proof using. reflexivity. Qed.
Lemma printed_d_is : forall k t d, printed_d (pd k t d) = map (fun '(_, f) => (f, visits_d m f)) (paths k d).
Proof using.
  induction k as [|k IH]; intros t d; cbn [print_d paths]; destruct (nth_error (dh m) d) as [n|] eqn:N; auto;
    cbn [map]; unfold visits_d at 1; rewrite N.
  - destruct (is_leaf C n); reflexivity.
  - rewrite pd_cons. cbn [app]. f_equal.
    rewrite printed_d_app, printed_d_flat, pd_cons. cbn [app].
    rewrite printed_d_app, (proj1 (printed_tabs _)), pd_cons. cbn [app]. change (printed_d (@nil (@piece S A))) with (@nil (nat * Z)). rewrite app_nil_r, map_flat_map.
    apply flat_map_ext_in. intros [a c] _. rewrite pd_cons, printed_d_app, (proj1 (printed_tabs _)), pd_cons. cbn [app].
    destruct (nth_error (ch m) c) as [x|]; auto. rewrite pd_cons, printed_d_app, printed_d_flat, pd_cons. cbn [app].
    rewrite printed_d_app, (proj1 (printed_tabs _)), pd_cons. cbn [app]. change (printed_d (@nil (@piece S A))) with (@nil (nat * Z)). rewrite app_nil_r, map_flat_map.
    apply flat_map_ext_in. intros [o e] _. rewrite pd_cons, printed_d_app, (proj1 (printed_tabs _)), pd_cons. cbn [app].
    rewrite IH, map_map. apply map_ext. now intros [l f].
Qed.
Lemma printed_c_is : forall k t d, printed_c (pd k t d) = map (fun '(_, _, c) => (c, visits_c m c)) (edges k d).
Proof using.
  induction k as [|k IH]; intros t d; cbn [print_d edges]; destruct (nth_error (dh m) d) as [n|] eqn:N; auto.
  - destruct (is_leaf C n); reflexivity.
  - rewrite pc_cons. cbn [app].
    rewrite printed_c_app, printed_c_flat, pc_cons. cbn [app].
    rewrite printed_c_app, (proj2 (printed_tabs _)), pc_cons. cbn [app]. change (printed_c (@nil (@piece S A))) with (@nil (nat * Z)). rewrite app_nil_r, map_flat_map.
    apply flat_map_ext_in. intros [a c] _. rewrite pc_cons, printed_c_app, (proj2 (printed_tabs _)), pc_cons. cbn [app].
    destruct (nth_error (ch m) c) as [x|] eqn:X; auto. rewrite pc_cons, printed_c_app, printed_c_flat, pc_cons. cbn [app map].
    unfold visits_c at 1. rewrite X. f_equal.
    rewrite printed_c_app, (proj2 (printed_tabs _)), pc_cons. cbn [app]. change (printed_c (@nil (@piece S A))) with (@nil (nat * Z)). rewrite app_nil_r, map_flat_map.
    apply flat_map_ext_in. intros [o e] _. rewrite pc_cons, printed_c_app, (proj2 (printed_tabs _)), pc_cons. cbn [app].
    rewrite IH, map_map. apply map_ext. now intros [[l b] f].
Qed.

(** The dots. *)
Definition cut (k : nat) (q : list (A * S) * nat) : bool :=
  (length (fst q) =? k) && match nth_error (dh m) (snd q) with Some n => negb (is_leaf C n) | None => false end.
Lemma dots_app : forall l1 l2 : list (@piece S A), dots (l1 ++ l2) = dots l1 + dots l2.
Proof using. intros. unfold dots. now rewrite filter_app, app_length. Qed.
Lemma dots_tabs : forall n, dots (repeat (@Tab S A) n) = 0.
Proof using. induction n; auto. Qed.
Definition cuts (k : nat) (l : list (list (A * S) * nat)) : nat := length (filter (cut k) l).
Lemma cuts_flat : forall U (f : U -> list (@piece S A)) g k l, (forall u, In u l -> dots (f u) = cuts k (g u)) ->
  dots (flat_map f l) = cuts k (flat_map g l).
Proof using.
  induction l as [|u l IH]; intros H; cbn [flat_map]; [auto|]. unfold cuts. rewrite dots_app, filter_app, app_length. rewrite (H u) by now left.
  unfold cuts. f_equal. apply IH. intros v I. apply H. now right.
Qed.
Lemma dots_cons : forall p (l : list (@piece S A)), dots (p :: l) = match p with Dots => 1 | _ => 0 end + dots l.
Proof using. intros p l. destruct p; reflexivity. Qed.
Lemma dots_is : forall k t d, dots (pd k t d) = cuts k (paths k d).
Proof using.
  induction k as [|k IH]; intros t d; cbn [print_d paths]; destruct (nth_error (dh m) d) as [n|] eqn:N; auto.
  - unfold cuts, cut. cbn. rewrite N. destruct (is_leaf C n); reflexivity.
  - change (cuts (Datatypes.S k) (([], d) :: ?l)) with (cuts (Datatypes.S k) l).
    rewrite dots_cons, dots_app, dots_cons, dots_app, dots_tabs, dots_cons. change (dots (@nil (@piece S A))) with 0. cbn [plus]. rewrite !Nat.add_0_r.
    apply cuts_flat. intros [a c] _. rewrite dots_cons, dots_app, dots_tabs, dots_cons. cbn [plus].
    destruct (nth_error (ch m) c) as [x|]; auto.
    rewrite dots_cons, dots_app, dots_cons, dots_app, dots_tabs, dots_cons. change (dots (@nil (@piece S A))) with 0. cbn [plus]. rewrite !Nat.add_0_r.
    apply cuts_flat. intros [o e] _. rewrite dots_cons, dots_app, dots_tabs, dots_cons. cbn [plus]. rewrite IH. unfold cuts.
    induction (paths k e) as [|[l f] r IHr]; cbn [map filter length]; auto.
    change (cut (Datatypes.S k) ((a, o) :: l, f)) with (cut k (l, f)). destruct (cut k (l, f)); cbn [length]; lia.
Qed.

(** The layout. *)
Lemma tabs_repeat : forall n (p : @piece S A) r, p <> Tab -> tabs_then (repeat Tab n ++ p :: r) = (n, Some p).
Proof using.
  induction n as [|n IH]; intros p r H; cbn.
  - destruct p; auto. congruence.
  - now rewrite IH.
Qed.
Lemma laid_tabs : forall n o (r : list (@piece S A)), laid_out o (repeat Tab n ++ r) <-> laid_out o r.
Proof using. induction n as [|n IH]; intros o r; cbn; [tauto|apply IH]. Qed.
Lemma laid_close : forall n (r : list (@piece S A)), laid_out (Datatypes.S n) ((Newline :: repeat Tab n ++ [Close]) ++ r) <-> laid_out n r.
Proof using.
  intros n r. cbn [app laid_out]. rewrite <- app_assoc. cbn [app]. rewrite tabs_repeat by discriminate. rewrite laid_tabs. cbn. intuition.
Qed.
Lemma laid_flat : forall U (f : U -> list (@piece S A)) o l r, (forall u r, In u l -> laid_out o (f u ++ r) <-> laid_out o r) ->
  (laid_out o (flat_map f l ++ r) <-> laid_out o r).
Proof using.
  induction l as [|u l IH]; intros r H; cbn; [tauto|]. rewrite <- app_assoc, H by now left. apply IH. intros v r' I. apply H. now right.
Qed.
Hypothesis no_dangling_c : forall d n a c, nth_error (dh m) d = Some n -> In (a, c) (dkids n) -> nth_error (ch m) c <> None.
Lemma laid : forall k t d r, laid_out t (pd k t d ++ r) <-> laid_out t r.
Proof using no_dangling_c.
  induction k as [|k IH]; intros t d r; cbn [print_d]; destruct (nth_error (dh m) d) as [n|] eqn:N; try reflexivity.
  - cbn [app laid_out]. destruct (is_leaf C n); reflexivity.
  - cbn [app]. change (laid_out t (DHead d (dvisits n) :: ?l)) with (laid_out (Datatypes.S t) l). rewrite <- app_assoc, laid_flat.
    + apply laid_close.
    + intros [a c] r' I. cbn [app]. rewrite <- app_assoc. cbn [laid_out app].
      rewrite tabs_repeat by discriminate. rewrite laid_tabs. cbn [laid_out]. rewrite Nat.add_1_r.
      destruct (nth_error (ch m) c) as [x|] eqn:X; [|now elim (no_dangling_c d n a c N I)].
      cbn [app laid_out]. rewrite <- app_assoc, laid_flat.
      * rewrite laid_close. tauto.
      * intros [o e] r2 J. cbn [app]. rewrite <- app_assoc. cbn [laid_out app]. rewrite tabs_repeat by discriminate. rewrite laid_tabs.
        cbn [laid_out]. replace (t + 2) with (Datatypes.S (Datatypes.S t)) by lia. rewrite IH. tauto.
Qed.
End Proofs.
