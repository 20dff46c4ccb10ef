From Coq Require Import List ZArith Bool String Ascii Lia Decimal DecimalString DecimalZ Permutation.
From Verif Require Import Base TypesModel PrintModel PrintSpec.
Import ListNotations.
Local Open Scope string_scope.

(** * Integers *)
Lemma digits_acc : forall u acc, read_digits (NilEmpty.string_of_uint u) (Zpos acc) = Some (Zpos (Pos.of_uint_acc u acc)).
Proof. induction u; intros acc; cbn [NilEmpty.string_of_uint read_digits Pos.of_uint_acc]; [reflexivity|..]; rewrite <- IHu;
    match goal with |- context [digit ?c] => let d := eval vm_compute in (digit c) in change (digit c) with d end; cbv iota beta; f_equal; lia. Qed.
Lemma digits_ok : forall u, read_digits (NilEmpty.string_of_uint u) 0 = Some (Z.of_uint u).
Proof.
  induction u; cbn [NilEmpty.string_of_uint read_digits]; [reflexivity|exact IHu|..]; unfold Z.of_uint; cbn [Pos.of_uint Z.of_N];
    rewrite <- digits_acc; reflexivity.
Qed.
Lemma digits0 : forall u, read_digits (NilZero.string_of_uint u) 0 = Some (Z.of_uint u).
Proof. intros u. unfold NilZero.string_of_uint. destruct u; [reflexivity|..]; apply digits_ok. Qed.
(** The first character of a printed natural is a digit. *)
Lemma uint_head : forall u, exists c r, NilZero.string_of_uint u = String c r /\ c <> "-"%char.
Proof. intros u. destruct u; cbn; do 2 eexists; (split; [reflexivity|discriminate]). Qed.
Lemma read_head : forall c r, c <> "-"%char -> read_int (String c r) = read_digits (String c r) 0.
Proof.
  intros c r H. unfold read_int. destruct c as [[] [] [] [] [] [] [] []]; try reflexivity. destruct H. reflexivity.
Qed.
Lemma read_neg : forall c r, read_int (String "-" (String c r)) = option_map Z.opp (read_digits (String c r) 0).
Proof. reflexivity. Qed.
Lemma read_print : forall z, read_int (print_int z) = Some z.
Proof.
  intros z. rewrite <- (DecimalZ.of_to z) at 2. unfold print_int, NilZero.string_of_int. destruct (Z.to_int z) as [u|u].
  - destruct (uint_head u) as (c & r & E & N). rewrite E, read_head, <- E, digits0 by exact N. reflexivity.
  - destruct (uint_head u) as (c & r & E & N). rewrite E, read_neg, <- E, digits0. reflexivity.
Qed.
Lemma print_int_inj : forall a b, print_int a = print_int b -> a = b.
Proof. intros a b E. pose proof (read_print a) as H. rewrite E, read_print in H. congruence. Qed.

(** * Characters that do not occur *)
Fixpoint lacks (c : ascii) (s : string) : Prop := match s with "" => True | String d r => d <> c /\ lacks c r end.
Lemma lacks_app : forall c s t, lacks c (s ++ t) <-> lacks c s /\ lacks c t.
Proof. induction s; cbn; intros t; [tauto|]. rewrite IHs. tauto. Qed.
Lemma digits_lack : forall c u, (digit c = None) -> lacks c (NilEmpty.string_of_uint u).
Proof. induction u; cbn; intros H; [exact I|..]; (split; [intros <-; discriminate H|auto]). Qed.
Lemma print_int_lacks : forall c z, digit c = None -> c <> "-"%char -> lacks c (print_int z).
Proof.
  intros c z H N. unfold print_int, NilZero.string_of_int.
  assert (K : forall u, lacks c (NilZero.string_of_uint u)).
  { intros u. unfold NilZero.string_of_uint. destruct u; try (apply digits_lack; exact H). cbn. split; [intros <-; discriminate H|exact I]. }
  destruct (Z.to_int z); [apply K|]. split; [congruence|apply K].
Qed.
Lemma split_at : forall c a b x y, lacks c a -> lacks c b -> a ++ String c x = b ++ String c y -> a = b /\ x = y.
Proof.
  induction a as [|d a IH]; intros [|e b] x y La Lb E; cbn in *.
  - injection E as ->. auto.
  - injection E as -> _. destruct Lb. congruence.
  - injection E as -> _. destruct La. congruence.
  - injection E as -> E. destruct (IH b x y) as [-> ->]; tauto.
Qed.
Lemma no_split : forall c a b x, lacks c a -> a = b ++ String c x -> False.
Proof. intros c a b x L ->. apply lacks_app in L. destruct L as [_ [L _]]. congruence. Qed.
Lemma str_assoc : forall a b c : string, (a ++ b) ++ c = a ++ b ++ c.
Proof. induction a; intros; cbn; [reflexivity|]. f_equal. auto. Qed.
Lemma str_nil : forall a : string, a = a ++ "".
Proof. induction a as [|c a IH]; cbn; [reflexivity|]. f_equal. exact IH. Qed.
Lemma app_inj_tail : forall c a b, a ++ String c "" = b ++ String c "" -> a = b.
Proof.
  induction a as [|d a IH]; intros [|e b] E; cbn in *; [reflexivity|..].
  - injection E as _ E. destruct b; discriminate E.
  - injection E as _ E. destruct a; discriminate E.
  - injection E as -> E. f_equal. auto.
Qed.

(** * States, actions, ids *)
Lemma comma_int : forall z, lacks "," (print_int z).
Proof. intros z. apply print_int_lacks; [reflexivity|discriminate]. Qed.
Lemma print_state_inj : forall x y s, obs_print x = Ok s -> obs_print y = Ok s -> x = y.
Proof.
  assert (CL : forall z, lacks "," (print_int z ++ ")")) by (intros z; apply lacks_app; split; [apply comma_int|cbn; split; [discriminate|exact I]]).
  intros x y s Hx Hy.
  destruct x as [| |a|a b|a b c]; try discriminate; destruct y as [| |d|d e|d e f]; try discriminate;
    cbn [obs_print] in *; injection Hx as <-; injection Hy as E.
  - apply app_inj_tail, print_int_inj in E. congruence.
  - symmetry in E. destruct (no_split "," _ _ _ (CL a) E).
  - symmetry in E. destruct (no_split "," _ _ _ (CL a) E).
  - destruct (no_split "," _ _ _ (CL d) E).
  - apply split_at in E; try apply comma_int. destruct E as [E1 E2]. apply app_inj_tail in E2. apply print_int_inj in E1, E2. congruence.
  - apply split_at in E; try apply comma_int. destruct E as [_ E]. symmetry in E. destruct (no_split "," _ _ _ (CL b) E).
  - destruct (no_split "," _ _ _ (CL d) E).
  - apply split_at in E; try apply comma_int. destruct E as [_ E]. destruct (no_split "," _ _ _ (CL e) E).
  - apply split_at in E; try apply comma_int. destruct E as [E1 E]. apply split_at in E; try apply comma_int. destruct E as [E2 E3].
    apply app_inj_tail in E3. apply print_int_inj in E1, E2, E3. congruence.
Qed.
Lemma print_id_inj : forall x y s, id_print x = Ok s -> id_print y = Ok s -> x = y.
Proof.
  intros [n x] [m y] s. unfold id_print. cbn [fst snd]. destruct (obs_print x) as [sx| |] eqn:Ex; cbn [bind]; try discriminate.
  destruct (obs_print y) as [sy| |] eqn:Ey; cbn [bind]; try discriminate. intros [= <-] H. injection H as E.
  apply split_at in E; try apply comma_int. destruct E as [E1 E2]. apply app_inj_tail in E2. apply print_int_inj in E1. subst.
  f_equal. eapply print_state_inj; eassumption.
Qed.

(** * Vectors and maps *)
Lemma map_as_vector : forall (K V : Type) (sk : K -> outcome string) (sv : V -> outcome string) dl m ss first,
  map_loop sk sv dl m ss first =
  vector_loop (fun e : K * V => bind (sk (fst e)) (fun s => bind (sv (snd e)) (fun t => Ok (s ++ dl ++ t)))) m ss first.
Proof.
  intros K V sk sv dl. induction m as [|[k v] r IH]; intros ss first; cbn [map_loop vector_loop fst snd]; [reflexivity|].
  destruct (sk k); cbn [bind]; try reflexivity. destruct (sv v); cbn [bind]; try reflexivity. apply IH.
Qed.
Definition rest (ss : list string) : string := match ss with [] => "" | _ => "," ++ String.concat "," ss end.
Lemma concat_cons : forall s ss, String.concat "," (s :: ss) = s ++ rest ss.
Proof. intros s [|t ss]; cbn; [|reflexivity]. apply str_nil. Qed.
Lemma loop_rest : forall (T : Type) (show : T -> outcome string) l ss acc, shown show l ss ->
  vector_loop show l acc false = Ok (acc ++ rest ss).
Proof.
  intros T show l ss acc H. revert acc. induction H as [|x s l ss Hx _ IH]; intros acc; cbn [vector_loop rest negb].
  - f_equal. apply str_nil.
  - rewrite Hx. cbn [bind]. rewrite IH, concat_cons, !str_assoc. reflexivity.
Qed.
Lemma loop_all : forall (T : Type) (show : T -> outcome string) l ss acc, shown show l ss ->
  vector_loop show l acc true = Ok (acc ++ String.concat "," ss).
Proof.
  intros T show l ss acc H. destruct H as [|x s l ss Hx H]; cbn [vector_loop negb].
  - f_equal. apply str_nil.
  - rewrite Hx. cbn [bind]. rewrite (loop_rest _ _ _ _ _ H), concat_cons, str_assoc. reflexivity.
Qed.
Lemma loop_inv : forall (T : Type) (show : T -> outcome string) l acc first s, vector_loop show l acc first = Ok s ->
  exists ss, shown show l ss.
Proof.
  intros T show. induction l as [|x r IH]; intros acc first s H; cbn [vector_loop] in H; [exists []; constructor|].
  destruct (show x) as [t| |] eqn:E; cbn [bind] in H; try discriminate. apply IH in H. destruct H as (ss & H).
  exists (t :: ss). constructor; assumption.
Qed.
Lemma vector_printed : forall (T : Type) (show : T -> outcome string) l s,
  vector_print show l = Ok s <-> exists ss, shown show l ss /\ s = listing "[" "]" ss.
Proof.
  intros T show l s. unfold vector_print. split.
  - intros H. destruct (vector_loop show l "[" true) as [t| |] eqn:E; cbn [bind] in H; try discriminate.
    destruct (loop_inv _ _ _ _ _ _ E) as (ss & HS). exists ss. split; [exact HS|]. rewrite (loop_all _ _ _ _ _ HS) in E. injection E as <-.
    injection H as <-. reflexivity.
  - intros (ss & HS & ->). rewrite (loop_all _ _ _ _ _ HS). cbn [bind]. reflexivity.
Qed.
Definition entry {K V} (sk : K -> outcome string) (sv : V -> outcome string) (dl : string) (e : K * V) : outcome string :=
  bind (sk (fst e)) (fun s => bind (sv (snd e)) (fun t => Ok (s ++ dl ++ t))).
Lemma map_printed : forall (K V : Type) (sk : K -> outcome string) (sv : V -> outcome string) dl m s,
  map_print sk sv dl m = Ok s <-> exists ks vs, shown sk (map fst m) ks /\ shown sv (map snd m) vs /\
    s = listing "{" "}" (map (fun '(k, v) => k ++ dl ++ v) (combine ks vs)).
Proof.
  intros K V sk sv dl m s. unfold map_print. rewrite map_as_vector.
  assert (EX : forall ks vs, shown sk (map fst m) ks -> shown sv (map snd m) vs ->
    shown (entry sk sv dl) m (map (fun '(k, v) => k ++ dl ++ v) (combine ks vs))).
  { clear s. induction m as [|[k v] r IH]; intros ks vs H1 H2; inversion H1 as [|? ? ? ? K1 K2]; inversion H2 as [|? ? ? ? V1 V2]; subst; cbn; constructor.
    - unfold entry. cbn [fst snd] in *. rewrite K1. cbn [bind]. rewrite V1. reflexivity.
    - apply IH; assumption. }
  assert (IN : forall es, shown (entry sk sv dl) m es -> exists ks vs, shown sk (map fst m) ks /\ shown sv (map snd m) vs).
  { clear EX s. induction m as [|[k v] r IH]; intros es H; inversion H as [|? ? ? ? H1 H2]; subst; [exists [], []; split; constructor|].
    destruct (IH _ H2) as (ks & vs & A & B). unfold entry in H1. cbn [fst snd] in H1.
    destruct (sk k) as [a| |] eqn:Ek; cbn [bind] in H1; try discriminate. destruct (sv v) as [b| |] eqn:Ev; cbn [bind] in H1; try discriminate.
    exists (a :: ks), (b :: vs). split; constructor; assumption. }
  split.
  - intros H. destruct (vector_loop _ m "{" true) as [t| |] eqn:E; cbn [bind] in H; try discriminate.
    destruct (loop_inv _ _ _ _ _ _ E) as (es & HS). destruct (IN es HS) as (ks & vs & A & B). exists ks, vs. split; [exact A|]. split; [exact B|].
    rewrite (loop_all _ _ _ _ _ (EX ks vs A B)) in E. injection E as <-. injection H as <-. reflexivity.
  - intros (ks & vs & A & B & ->). pose proof (loop_all _ _ _ _ "{" (EX ks vs A B)) as E. unfold entry in E. rewrite E. cbn [bind].
    reflexivity.
Qed.

(** * Lists of elements without commas can be told apart *)
Lemma concat_inj : forall l1 l2, Forall (lacks ",") l1 -> Forall (lacks ",") l2 -> l1 <> [] -> l2 <> [] ->
  String.concat "," l1 = String.concat "," l2 -> l1 = l2.
Proof.
  induction l1 as [|a l1 IH]; intros [|b l2] F1 F2 N1 N2 E; try congruence.
  inversion F1 as [|? ? La F1']; inversion F2 as [|? ? Lb F2']; subst. rewrite !concat_cons in E.
  destruct l1 as [|a' l1], l2 as [|b' l2]; cbn [rest] in E.
  - f_equal. revert E. clear. revert b. induction a as [|c a IHa]; intros [|d b]; cbn; intros E; try congruence. injection E as -> E. f_equal. auto.
  - exfalso. refine (no_split "," a b _ La _). revert E. cbn. intros <-. apply str_nil.
  - exfalso. refine (no_split "," b a _ Lb _). revert E. cbn. intros ->. apply str_nil.
  - cbn [append] in E. apply split_at in E; try assumption. destruct E as [-> E]. f_equal. apply IH; auto; discriminate.
Qed.
Lemma int_vector_inj : forall l1 l2 s, vector_print action_print (map IntAction l1) = Ok s -> vector_print action_print (map IntAction l2) = Ok s ->
  l1 = l2.
Proof.
  intros l1 l2 s H1 H2.
  assert (SH : forall l, shown action_print (map IntAction l) (map print_int l)) by (induction l; constructor; [reflexivity|assumption]).
  assert (P : forall l, vector_print action_print (map IntAction l) = Ok (listing "[" "]" (map print_int l))).
  { intros l. apply vector_printed. exists (map print_int l). split; [apply SH|reflexivity]. }
  rewrite P in H1, H2. rewrite <- H1 in H2. injection H2 as E. apply app_inj_tail in E.
  assert (NE : forall z l, String.concat "," (map print_int (z :: l)) <> "").
  { intros z l H. cbn [map] in H. rewrite concat_cons in H. pose proof (read_print z) as Rd. destruct (print_int z); [discriminate Rd|discriminate H]. }
  assert (LC : forall l, Forall (lacks ",") (map print_int l)) by (induction l; constructor; [apply comma_int|assumption]).
  destruct l1 as [|z l1], l2 as [|w l2]; [reflexivity| | |].
  - destruct (NE w l2 E).
  - symmetry in E. destruct (NE z l1 E).
  - apply concat_inj in E; try apply LC; try discriminate. revert E. generalize (z :: l1) (w :: l2). clear.
    induction l as [|a l IH]; intros [|b l'] E; try discriminate; [reflexivity|]. injection E as E1 E2. apply print_int_inj in E1. f_equal; auto.
Qed.

(** * Tables *)
Lemma locked : forall (K P : Type) (tbl : list (K * option P)),
  (exists l, table_lock tbl = Ok l /\ tbl = map (fun '(k, p) => (k, Some p)) l) \/ (table_lock tbl = Throw /\ exists k, In (k, None) tbl).
Proof.
  induction tbl as [|[k [p|]] r IH]; cbn [table_lock].
  - left. exists []. auto.
  - destruct IH as [(l & -> & E)|(-> & k' & I)]; cbn [bind].
    + left. exists ((k, p) :: l). rewrite E. auto.
    + right. split; [reflexivity|]. exists k'. right. exact I.
  - right. split; [reflexivity|]. exists k. left. reflexivity.
Qed.
