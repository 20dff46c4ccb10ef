(** Proofs about evaluations. *)
From Coq Require Import List ZArith Bool Reals Lia Lra Permutation.
From Verif Require Import Base BaseProofs NumOps HelperModel HelperSpec HelperProofs EvalModel EvalSpec.
Import ListNotations.
Open Scope R_scope.

Section Proofs.
Context {S A O DN CN : Type}.
Variable T : @tree A O DN CN.
Variable E : @env S A O.
Variable max_length : Z.
Variable p0 : @policy DN.
Variables n k : Z.
Variable old : list R.
Variable g0 : rng R.
Hypothesis k_pos : (1 <= k)%Z.

Notation estate := (@estate S A O DN).
Notation worker := (@worker S A O DN).
Notation roll := (@roll S A O DN).
Notation est := (estep T E max_length p0 n k).
Notation step := (S * A * O * S)%type.
Definition ao (x : step) : A * O := let '(_, a, o, _) := x in (a, o).

Hypothesis rec_adv : forall d, advances (recommend T d).
Hypothesis next_adv : forall s a, advances (next E s a).
Hypothesis obs_adv : forall a s, advances (observe E a s).

Lemma walk_none : forall l, walk T None l = None.
Proof using. intros [|[a o] l]; reflexivity. Qed.
Lemma walk_snoc : forall l d a o, walk T d (l ++ [(a, o)]) =
  match walk T d l with
  | None => None
  | Some x => match kid_c T x a with None => None | Some c => kid_d T c o end
  end.
Proof using.
  induction l as [|[a0 o0] l IH]; intros d a o.
  - cbn. destruct d as [x|]; [|reflexivity]. now destruct (kid_c T x a).
  - cbn [walk app]. destruct d as [x|]; [|reflexivity]. destruct (kid_c T x a0) as [c|]; [apply IH|reflexivity].
Qed.
Lemma update_walk : forall p a o l, pcur p = walk T (proot p) l ->
  proot (update_step T p a o) = proot p /\ pcur (update_step T p a o) = walk T (proot p) (l ++ [(a, o)]).
Proof using.
  intros p a o l H. rewrite walk_snoc, <- H. unfold update_step. destruct (pcur p) as [d|] eqn:C; [|rewrite C; auto].
  destruct (kid_c T d a) as [c|]; [|auto]. destruct (kid_d T c o); auto.
Qed.
Lemma total_reward_app : forall l l', total_reward E (l ++ l') = total_reward E l + total_reward E l'.
Proof using. induction l as [|[[[s a] o] s'] l IH]; intros l'; cbn; [lra|]. rewrite IH. lra. Qed.

Lemma random_action_spec : forall s g a g', get_random_action E s g = Ok (a, g') -> In a (valid E s) /\ gi g' = gi g /\ gr g' = gr g.
Proof using.
  intros s g a g' H. unfold get_random_action, get_rand_int in H. destruct (_ =? 0)%Z; [discriminate|]. cbn [bind] in H.
  unfold vec_at_checked in H. destruct (_ <? 0)%Z; [discriminate|].
  destruct (nth_error (valid E s) _) eqn:N; [|discriminate]. cbn [bind] in H. injection H as <- <-. cbn. split; auto.
  eapply nth_error_In; eauto.
Qed.
Lemma random_action_choice : forall s g, valid E s <> [] -> good_ints g -> get_random_action E s g = random_choice E s g.
Proof using.
  intros s g NE Hg. unfold get_random_action, random_choice, get_rand_int. rewrite Z.sub_0_r.
  assert (L : (0 < Z.of_nat (length (valid E s)))%Z) by (destruct (valid E s); [congruence|cbn; lia]).
  destruct (Z.eqb_spec (Z.of_nat (length (valid E s))) 0); [lia|]. cbn [bind]. rewrite Z.add_0_l, Z.rem_mod_nonneg by (auto; lia).
  unfold vec_at_checked. pose proof (Z.mod_pos_bound (gi g (ni g)) _ L).
  destruct (Z.ltb_spec (gi g (ni g) mod Z.of_nat (length (valid E s))) 0); [lia|].
  destruct (nth_error (valid E s) (Z.to_nat (gi g (ni g) mod Z.of_nat (length (valid E s))))) eqn:N; [reflexivity|].
  apply nth_error_None in N. lia.
Qed.

(** ** Invariant *)
Definition root := proot p0.
Definition end_ok (h : list step) (s : S) : Prop := rollout T E g0 root h s /\ ((max_length <= 0)%Z /\ h = [] \/ sink E s = true).
Definition roll_ok (t : nat) (r : roll) : Prop :=
  (0 <= index r < n)%Z /\ (index r mod k = Z.of_nat t)%Z /\ proot (pol r) = root /\
  pcur (pol r) = walk T root (map ao (rev (hist r))) /\ rollout T E g0 root (rev (hist r)) (cur r) /\
  ret r = total_reward E (rev (hist r)) /\ taken r = 0%Z /\ ((max_length <= 0)%Z -> hist r = []).
Definition chosen (r : roll) (a : A) : Prop :=
  match walk T root (map ao (rev (hist r))) with
  | Some d => possible g0 (recommend T d) a
  | None => In a (valid E (cur r))
  end.
Definition worker_ok (t : nat) (w : worker) : Prop :=
  match w with
  | WLoop i p => (0 <= i)%Z /\ (i mod k = Z.of_nat t)%Z /\ proot p = root
  | WHead r => roll_ok t r
  | WNext r a => roll_ok t r /\ (0 < max_length)%Z /\ sink E (cur r) = false /\ chosen r a
  | WObs r a s' => roll_ok t r /\ (0 < max_length)%Z /\ sink E (cur r) = false /\ chosen r a /\ possible g0 (next E (cur r) a) s'
  | WPush r => roll_ok t r /\ ((max_length <= 0)%Z \/ sink E (cur r) = true)
  | WDone => True
  | WFail _ => True
  end.
Definition pos (w : worker) : option Z :=
  match w with
  | WLoop i _ => Some i
  | WHead r | WNext r _ | WObs r _ _ | WPush r => Some (index r)
  | WDone => Some n
  | WFail _ => None
  end.
Definition progress (t : nat) (w : worker) (dn : list (Z * list step)) : Prop :=
  match pos w with
  | None => True
  | Some q => forall i, (0 <= i < n)%Z -> (i mod k = Z.of_nat t)%Z -> (In i (map fst dn) <-> (i < q)%Z)
  end.
Record inv (s : estate) : Prop := mkInv {
  i_main : match main s with
    | MSpawn i => length (ws s) = i /\ (Z.of_nat i <= k)%Z
    | MJoin i => length (ws s) = Z.to_nat k /\ (i <= Z.to_nat k)%nat /\ forall j, (j < i)%nat -> nth_error (ws s) j = Some WDone
    | MDone => length (ws s) = Z.to_nat k /\ forall j, (j < Z.to_nat k)%nat -> nth_error (ws s) j = Some WDone
    end;
  i_w : forall t w, nth_error (ws s) t = Some w -> worker_ok t w /\ progress t w (done s);
  i_done : NoDup (map fst (done s)) /\ (forall i h, In (i, h) (done s) -> (0 <= i < n)%Z /\ (Z.to_nat (i mod k) < length (ws s))%nat /\
             exists s', end_ok (rev h) s');
  i_ret : returns s = old ++ map (fun x => total_reward E (rev (snd x))) (done s);
  i_rng : gi (rg s) = gi g0 /\ gr (rg s) = gr g0
}.

Lemma action_ok : forall r t a g live (s : estate), roll_ok t r -> gi (rg s) = gi g0 /\ gr (rg s) = gr g0 ->
  get_action T E (pol r) live (cur r) (rg s) = Ok (a, g) -> chosen r a /\ gi g = gi g0 /\ gr g = gr g0.
Proof using rec_adv.
  intros r t a g live s (_ & _ & _ & Hw & _) [G1 G2] H. unfold get_action in H. rewrite Hw in H. unfold chosen.
  destruct (walk T root (map ao (rev (hist r)))) as [d|].
  - destruct (uses_context T d && negb live); [discriminate|]. destruct (rec_adv d _ _ _ H) as [E1 E2]. split; [|split; congruence].
    exists (rg s), g. auto.
  - destruct (random_action_spec _ _ _ _ H) as (I & E1 & E2). split; auto. split; congruence.
Qed.

(** What a step of a worker does. *)
Definition wgood (t : nat) (s : estate) (w : worker) (rs : list R) (g : rng R) (dn : list (Z * list step)) : Prop :=
  worker_ok t w /\ progress t w dn /\ gi g = gi g0 /\ gr g = gr g0 /\
  ((rs = returns s /\ dn = done s) \/
   exists i h s', dn = done s ++ [(i, h)] /\ rs = returns s ++ [total_reward E (rev h)] /\ (0 <= i < n)%Z /\ (i mod k = Z.of_nat t)%Z /\
     end_ok (rev h) s' /\ ~ In i (map fst (done s))).
Lemma pos_eq : forall t w w' dn, pos w = pos w' -> progress t w dn -> progress t w' dn.
Proof using. intros t w w' dn H Q. unfold progress in *. now rewrite <- H. Qed.
Lemma wstep_good : forall s t w w' rs g dn, inv s -> nth_error (ws s) t = Some w ->
  wstep T E max_length n k w s = Some (w', rs, g, dn) -> wgood t s w' rs g dn.
Proof using rec_adv next_adv obs_adv k_pos.
  intros s t w w' rs g dn I Hw H. destruct (i_w s I t w Hw) as [W P]. pose proof (i_rng s I) as G.
  destruct w as [i p|r|r a|r a s'|r| |f]; cbn [wstep worker_ok] in *; try discriminate.
  - destruct W as (W1 & W2 & W3). destruct (Z.ltb_spec i n).
    + injection H as <- <- <- <-. unfold wgood. split; [|split; [exact P|tauto]].
      split; [cbn; lia|]. split; [exact W2|]. split; [exact W3|]. split; [cbn; rewrite W3; reflexivity|].
      split; [constructor|]. split; [reflexivity|]. split; reflexivity.
    + injection H as <- <- <- <-. unfold wgood. split; [exact Logic.I|]. split; [|tauto].
      unfold progress in *. cbn [pos] in *. intros j J1 J2. rewrite P by auto. lia.
  - destruct W as (W1 & W2 & W3 & W4 & W5 & W6 & W7 & W8) eqn:EW. clear EW. assert (RO : roll_ok t r) by (repeat split; auto; apply W1).
    destruct ((taken r <? max_length)%Z && negb (sink E (cur r))) eqn:C.
    + apply andb_true_iff in C. destruct C as [C1 C2]. apply Z.ltb_lt in C1. apply negb_true_iff in C2. rewrite W7 in C1.
      destruct (get_action T E (pol r) (keeps_context E) (cur r) (rg s)) as [[a g1]| |] eqn:GA.
      * injection H as <- <- <- <-. destruct (action_ok r t a g1 _ s RO G GA) as (Ch & G1 & G2).
        unfold wgood. split; [cbn; auto|]. split; [exact P|]. tauto.
      * injection H as <- <- <- <-. unfold wgood. cbn. unfold progress; cbn. tauto.
      * injection H as <- <- <- <-. unfold wgood. cbn. unfold progress; cbn. tauto.
    + injection H as <- <- <- <-. unfold wgood. split; [|split; [exact P|tauto]]. cbn. split; auto.
      apply andb_false_iff in C. destruct C as [C|C].
      * apply Z.ltb_ge in C. left. lia.
      * apply negb_false_iff in C. now right.
  - destruct W as (RO & W1 & W2 & W3). destruct (next E (cur r) a (rg s)) as [[s' g1]| |] eqn:N.
    + injection H as <- <- <- <-. destruct (next_adv _ _ _ _ _ N) as [N1 N2]. unfold wgood. split; [|split; [exact P|]].
      * cbn. split; auto. split; auto. split; auto. split; auto. exists (rg s), g1. tauto.
      * split; [|split]; try (left; auto); destruct G; congruence.
    + injection H as <- <- <- <-. unfold wgood. cbn. unfold progress; cbn. tauto.
    + injection H as <- <- <- <-. unfold wgood. cbn. unfold progress; cbn. tauto.
  - destruct W as (RO & W1 & W2 & W3 & W4). destruct (observe E a s' (rg s)) as [[o g1]| |] eqn:N.
    + injection H as <- <- <- <-. destruct (obs_adv _ _ _ _ _ N) as [N1 N2]. unfold wgood. split; [|split; [exact P|]].
      * destruct RO as (R1 & R2 & R3 & R4 & R5 & R6 & R7 & R8).
        destruct (update_walk (pol r) a o (map ao (rev (hist r)))) as [U1 U2]; [now rewrite R3|].
        split; [exact R1|]. split; [exact R2|]. cbn [pol hist cur ret taken rev]. split; [congruence|].
        split; [rewrite U2, R3, map_app; reflexivity|]. split; [|split].
        -- apply ro_step; auto. exists (rg s), g1. tauto.
        -- rewrite total_reward_app, R6. cbn. lra.
        -- split; [exact R7|]. intros Q. lia.
      * split; [|split]; try (left; auto); destruct G; congruence.
    + injection H as <- <- <- <-. unfold wgood. cbn. unfold progress; cbn. tauto.
    + injection H as <- <- <- <-. unfold wgood. cbn. unfold progress; cbn. tauto.
  - destruct W as (RO & W1). destruct RO as (R1 & R2 & R3 & R4 & R5 & R6 & R7 & R8). injection H as <- <- <- <-.
    unfold progress in P. cbn [pos] in P.
    assert (Pr : forall i, (0 <= i < n)%Z -> (i mod k = Z.of_nat t)%Z ->
      (In i (map fst (done s ++ [(index r, hist r)])) <-> (i < index r + k)%Z)).
    { intros i B M. rewrite map_app, in_app_iff, (P i B M). cbn.
      pose proof (Z.div_mod i k ltac:(lia)) as D1. pose proof (Z.div_mod (index r) k ltac:(lia)) as D2. rewrite M in D1. rewrite R2 in D2.
      split; [intros [Q|[Q|[]]]; lia|]. intros Q. destruct (Z.eq_dec (index r) i); [auto|]. left.
      assert (i / k < index r / k + 1)%Z by nia. nia. }
    unfold wgood. split; [|split; [|split; [apply G|split; [apply G|]]]].
    + destruct (index r + k <=? int_max)%Z; cbn; [|exact Logic.I]. split; [lia|]. split; [|exact R3].
      rewrite Z.add_mod by lia. rewrite Z.mod_same, Z.add_0_r, Z.mod_mod by lia. exact R2.
    + destruct (index r + k <=? int_max)%Z; unfold progress; cbn [pos]; auto.
    + right. exists (index r), (hist r), (cur r). split; [reflexivity|]. split; [now rewrite R6|]. split; [exact R1|]. split; [exact R2|].
      split; [split; auto; destruct W1 as [Q|Q]; auto; left; split; auto; rewrite R8 by auto; reflexivity|]. rewrite (P (index r)) by auto. lia.
Qed.

Lemma inv_init : inv (einit old g0).
Proof using k_pos.
  constructor; cbn.
  - split; auto. lia.
  - intros [|t] w H; discriminate.
  - split; [constructor|tauto].
  - now rewrite app_nil_r.
  - auto.
Qed.
Lemma inv_step : forall s l s', inv s -> est s l = Some s' -> inv s'.
Proof using rec_adv next_adv obs_adv k_pos.
  intros s l s' I H. destruct l as [|t]; cbn [estep] in H.
  - pose proof (i_main s I) as M. destruct (main s) as [i|i|] eqn:Em; [| |discriminate].
    + destruct M as [M1 M2]. destruct (Z.ltb_spec (Z.of_nat i) k); injection H as <-.
      * constructor; cbn [main ws done returns rg].
        -- rewrite app_length. cbn. split; lia.
        -- intros t w Hw. destruct (Nat.lt_ge_cases t (length (ws s))).
           ++ rewrite nth_error_app1 in Hw by auto. now apply (i_w s I).
           ++ rewrite nth_error_app2 in Hw by auto. destruct (t - length (ws s))%nat as [|m] eqn:D; [|destruct m; discriminate].
              cbn in Hw. injection Hw as <-. assert (t = i) by lia. subst t. split.
              ** cbn. split; [lia|]. split; [apply Z.mod_small; lia|reflexivity].
              ** unfold progress. cbn [pos]. intros j J1 J2. split; [|intros; exfalso].
                 --- intros Q. apply in_map_iff in Q. destruct Q as ((j' & h) & <- & Q). destruct (proj2 (i_done s I) _ _ Q) as (_ & B & _).
                     cbn [fst] in *. rewrite J2, Nat2Z.id in B. lia.
                 --- rewrite Z.mod_small in J2 by lia. lia.
        -- destruct (i_done s I) as [D1 D2]. split; auto. intros j h Q. destruct (D2 j h Q) as (B1 & B2 & B3). rewrite app_length. cbn.
           split; auto. split; auto. lia.
        -- apply (i_ret s I).
        -- apply (i_rng s I).
      * constructor; cbn [main ws done returns rg]; try apply I. split; [lia|]. split; [lia|]. intros j J. lia.
    + destruct M as (M1 & M2 & M3). destruct (Z.ltb_spec (Z.of_nat i) k).
      * destruct (nth_error (ws s) i) as [w|] eqn:N; [|discriminate]. destruct w; try discriminate. injection H as <-.
        constructor; cbn [main ws done returns rg]; try apply I. split; auto. split; [lia|]. intros j J.
        destruct (Nat.eq_dec j i); [subst; auto|apply M3; lia].
      * injection H as <-. constructor; cbn [main ws done returns rg]; try apply I. split; auto. intros j J. apply M3. lia.
  - destruct (nth_error (ws s) t) as [w|] eqn:Hw; [|discriminate].
    destruct (wstep T E max_length n k w s) as [[[[w' rs] g] dn]|] eqn:W; [|discriminate]. injection H as <-.
    pose proof (wstep_good s t w w' rs g dn I Hw W) as (G1 & G2 & G3 & G4 & G5).
    assert (Lt : (t < length (ws s))%nat) by (apply nth_error_Some; congruence).
    assert (ND : forall j, nth_error (ws s) j = Some WDone -> nth_error (upd (ws s) t w') j = Some WDone).
    { intros j Q. destruct (Nat.eq_dec j t) as [->|D]; [|rewrite nth_upd_ne by auto; exact Q].
      rewrite Hw in Q. injection Q as ->. discriminate. }
    assert (Sub : forall i, In i (map fst (done s)) -> In i (map fst dn)).
    { intros i Q. destruct G5 as [[_ ->]|(i' & h & s' & -> & _)]; auto. rewrite map_app. apply in_or_app. auto. }
    constructor; cbn [main ws done returns rg].
    + pose proof (i_main s I) as M. rewrite upd_length. destruct (main s) as [i|i|]; auto.
      * destruct M as (M1 & M2 & M3). auto.
      * destruct M as (M1 & M2). auto.
    + intros j x Hx. destruct (Nat.eq_dec j t) as [->|D].
      * rewrite (nth_upd_eq _ _ _ _ _ Hw) in Hx. injection Hx as <-. auto.
      * rewrite nth_upd_ne in Hx by auto. destruct (i_w s I j x Hx) as [Q1 Q2]. split; auto.
        destruct G5 as [[_ ->]|(i' & h & s' & -> & _ & B & M & _)]; auto.
        unfold progress in *. destruct (pos x) as [q|]; auto. intros i Bi Mi. rewrite <- (Q2 i Bi Mi).
        rewrite map_app, in_app_iff. cbn. split; [intros [Q|[Q|[]]]; auto|auto]. subst i'. rewrite Mi in M. lia.
    + rewrite upd_length. destruct (i_done s I) as [D1 D2]. destruct G5 as [[_ ->]|(i' & h & s' & -> & _ & B & M & Eo & Nin)]; [auto|].
      split.
      * rewrite map_app. cbn. apply (Permutation_NoDup (l := i' :: map fst (done s))).
        -- apply Permutation_cons_append.
        -- constructor; auto.
      * intros i h' Q. apply in_app_or in Q. destruct Q as [Q|[[= <- <-]|[]]]; [eauto|]. split; auto. rewrite M, Nat2Z.id.
        split; auto. eauto.
    + destruct G5 as [[-> ->]|(i' & h & s' & -> & -> & _)]; [apply (i_ret s I)|].
      rewrite (i_ret s I), map_app, app_assoc. reflexivity.
    + auto.
Qed.
Lemma inv_run : forall ls s s', inv s -> erun T E max_length p0 n k s ls = Some s' -> inv s'.
Proof using rec_adv next_adv obs_adv k_pos.
  induction ls as [|l ls IH]; intros s s' I H; cbn in H.
  - now injection H as <-.
  - destruct (est s l) as [s1|] eqn:Es; [|discriminate]. eapply IH; [|exact H]. eapply inv_step; eauto.
Qed.

Definition reached (s : estate) : Prop := exists ls, erun T E max_length p0 n k (einit old g0) ls = Some s.
Lemma inv_reached : forall s, reached s -> inv s.
Proof using rec_adv next_adv obs_adv k_pos. intros s (ls & H). eapply inv_run; [apply inv_init|exact H]. Qed.

(** ** All rollouts, when run_rollouts has returned *)
Definition indices : list Z := map Z.of_nat (seq 0 (Z.to_nat n)).
Lemma indices_in : forall i, In i indices <-> (0 <= i < n)%Z.
Proof using.
  intros i. unfold indices. rewrite in_map_iff. split.
  - intros (j & <- & Q). apply in_seq in Q. lia.
  - intros B. exists (Z.to_nat i). split; [lia|]. apply in_seq. lia.
Qed.
Lemma indices_nodup : NoDup indices.
Proof using.
  unfold indices. apply FinFun.Injective_map_NoDup; [|apply seq_NoDup]. intros a b Q. lia.
Qed.
Lemma all_done : forall s, inv s -> main s = MDone -> Permutation (map fst (done s)) indices.
Proof using k_pos.
  intros s I M. destruct (i_done s I) as [D1 D2]. apply NoDup_Permutation; [exact D1|apply indices_nodup|].
  intros i. rewrite indices_in. split.
  - intros Q. apply in_map_iff in Q. destruct Q as ((j & h) & <- & Q). apply (D2 j h Q).
  - intros B. pose proof (i_main s I) as Q. rewrite M in Q. destruct Q as [Q1 Q2].
    pose proof (Z.mod_pos_bound i k ltac:(lia)) as Mb.
    specialize (Q2 (Z.to_nat (i mod k)) ltac:(lia)). destruct (i_w s I _ _ Q2) as [_ P]. unfold progress in P. cbn [pos] in P.
    apply P; lia.
Qed.
Lemma returned : forall s, inv s -> main s = MDone -> length (returns s) = (length old + Z.to_nat n)%nat /\
  exists hs, returns s = old ++ map (total_reward E) hs /\ length hs = Z.to_nat n /\
    forall h, In h hs -> exists s', end_ok h s'.
Proof using k_pos.
  intros s I M. pose proof (Permutation_length (all_done s I M)) as L. unfold indices in L. rewrite !map_length, seq_length in L.
  pose proof (i_ret s I) as R0. split; [rewrite R0, app_length, map_length; lia|].
  exists (map (fun x => rev (snd x)) (done s)). rewrite map_map, map_length. split; auto. split; auto.
  intros h Q. apply in_map_iff in Q. destruct Q as ((i & h') & <- & Q). cbn [snd]. now apply (proj2 (i_done s I) i h').
Qed.

(** ** Progress *)
Definition over (s : estate) : Prop := forall i, In i (map fst (done s)) -> (int_max < i + k)%Z ->
  exists f, nth_error (ws s) (Z.to_nat (i mod k)) = Some (WFail f).
Lemma over_step : forall s l s', inv s -> over s -> est s l = Some s' -> over s'.
Proof using rec_adv next_adv obs_adv k_pos.
  intros s l s' I Ov H. destruct l as [|t]; cbn [estep] in H.
  - destruct (main s) as [i|i|]; [| |discriminate].
    + destruct (_ <? _)%Z; injection H as <-; [|exact Ov]. intros j Q B. cbn [done ws] in *. destruct (Ov j Q B) as (f & N).
      exists f. rewrite nth_error_app1; auto. apply nth_error_Some. congruence.
    + destruct (_ <? _)%Z; [|injection H as <-; exact Ov]. destruct (nth_error (ws s) i) as [[]|]; try discriminate. injection H as <-. exact Ov.
  - destruct (nth_error (ws s) t) as [w|] eqn:Hw; [|discriminate].
    destruct (wstep T E max_length n k w s) as [[[[w' rs] g] dn]|] eqn:W; [|discriminate]. injection H as <-.
    assert (Keep : forall j f, nth_error (ws s) j = Some (WFail f) -> nth_error (upd (ws s) t w') j = Some (WFail f)).
    { intros j f Q. destruct (Nat.eq_dec t j) as [->|D]; [|now rewrite nth_upd_ne by auto]. rewrite Hw in Q. injection Q as ->. discriminate. }
    intros j Q B. cbn [done ws] in *.
    assert (C : In j (map fst (done s)) \/ exists r, w = WPush r /\ j = index r).
    { destruct (wstep_good s t w w' rs g dn I Hw W) as (_ & _ & _ & _ & [[_ ->]|(i & h & s' & -> & _)]); auto.
      rewrite map_app in Q. apply in_app_or in Q. destruct Q as [Q|[Q|[]]]; auto. cbn in Q. subst j. right.
      destruct w as [i' p|r|r a|r a s''|r| |f']; cbn [wstep] in W; try discriminate.
      - destruct (_ <? _)%Z; injection W as _ _ _ W; symmetry in W; apply app_inv_head with (l2 := []) in W || (exfalso; apply (f_equal (@length _)) in W; rewrite app_length in W; cbn in W; lia).
      - exfalso. destruct (_ && _); [destruct (get_action _ _ _ _ _ _) as [[? ?]| |]|]; injection W as _ _ _ W;
          apply (f_equal (@length _)) in W; rewrite app_length in W; cbn in W; lia.
      - exfalso. destruct (next _ _ _ _) as [[? ?]| |]; injection W as _ _ _ W; apply (f_equal (@length _)) in W; rewrite app_length in W; cbn in W; lia.
      - exfalso. destruct (observe _ _ _ _) as [[? ?]| |]; injection W as _ _ _ W; apply (f_equal (@length _)) in W; rewrite app_length in W; cbn in W; lia.
      - exists r. split; auto. injection W as _ _ _ W. apply app_inv_head in W. injection W as -> _. reflexivity. }
    destruct C as [C|(r & -> & ->)].
    + destruct (Ov j C B) as (f & N). exists f. now apply Keep.
    + cbn [wstep] in W. injection W as W _ _ _. destruct (Z.leb_spec (index r + k) int_max); [lia|].
      destruct (i_w s I t _ Hw) as [RO _]. destruct RO as [RO _]. destruct RO as (_ & Mt & _). rewrite Mt, Nat2Z.id.
      exists FUB. subst w'. eapply nth_upd_eq; eauto.
Qed.
Lemma over_run : forall ls s s', inv s -> over s -> erun T E max_length p0 n k s ls = Some s' -> over s'.
Proof using rec_adv next_adv obs_adv k_pos.
  induction ls as [|l ls IH]; intros s s' I Ov H; cbn in H.
  - now injection H as <-.
  - destruct (est s l) as [s1|] eqn:Es; [|discriminate]. eapply IH; [| |exact H]; [eapply inv_step; eauto|eapply over_step; eauto].
Qed.
Lemma overflow : forall s, reached s -> (1 <= n)%Z -> (int_max < n + k - 1)%Z -> main s <> MDone.
Proof using rec_adv next_adv obs_adv k_pos.
  intros s Rs Hn Hk M. pose proof (inv_reached s Rs) as I. destruct Rs as (ls & Rs).
  assert (Ov : over s) by (eapply over_run; [apply inv_init| |exact Rs]; intros i []).
  destruct (Ov (n - 1)%Z) as (f & F); [|lia|].
  - eapply Permutation_in; [symmetry; apply (all_done s I M)|]. apply indices_in. lia.
  - pose proof (i_main s I) as Q. rewrite M in Q. destruct Q as [_ Q]. pose proof (Z.mod_pos_bound (n - 1) k ltac:(lia)).
    rewrite Q in F by lia. discriminate.
Qed.
Definition failed (s : estate) : Prop := exists t f, nth_error (ws s) t = Some (WFail f).
Lemma worker_moves : forall s t w, nth_error (ws s) t = Some w -> w <> WDone -> (forall f, w <> WFail f) -> est s (LWork t) <> None.
Proof using.
  intros s t w H N1 N2. cbn [estep]. rewrite H.
  destruct w as [i p|r|r a|r a s'|r| |f]; cbn [wstep]; try congruence; try (now destruct (_ <? _)%Z); try discriminate.
  - destruct (_ && _); [|discriminate]. now destruct (get_action _ _ _ _ _ _) as [[? ?]| |].
  - now destruct (next _ _ _ _) as [[? ?]| |].
  - now destruct (observe _ _ _ _) as [[? ?]| |].
Qed.
Lemma moves : forall s, inv s -> main s <> MDone -> failed s \/ exists l, est s l <> None.
Proof using k_pos.
  intros s I N. pose proof (i_main s I) as M. destruct (main s) as [i|i|] eqn:Em; [| |congruence].
  - right. exists LMain. cbn [estep]. rewrite Em. now destruct (_ <? _)%Z.
  - destruct M as (M1 & M2 & M3). destruct (Z.ltb_spec (Z.of_nat i) k) as [B|B].
    + destruct (nth_error (ws s) i) as [w|] eqn:Hw; [|apply nth_error_None in Hw; lia].
      destruct w as [i' p|r|r a|r a s'|r| |f].
      6: { right. exists LMain. cbn [estep]. rewrite Em, Hw. destruct (Z.ltb_spec (Z.of_nat i) k); [discriminate|lia]. }
      6: { left. exists i, f. exact Hw. }
      all: right; exists (LWork i); eapply worker_moves; eauto; discriminate.
    + right. exists LMain. cbn [estep]. rewrite Em. destruct (Z.ltb_spec (Z.of_nat i) k); [lia|discriminate].
Qed.

(** ** Failures *)
Definition never_fails {X} (f : rng R -> outcome (X * rng R)) : Prop := forall g, gi g = gi g0 -> gr g = gr g0 -> exists x g', f g = Ok (x, g').
Hypothesis fits : (n + k - 1 <= int_max)%Z.
Hypothesis rec_ok : forall h s, rollout T E g0 root h s -> sink E s = false ->
  match walk T root (map ao h) with
  | Some d => (uses_context T d = true -> keeps_context E = true) /\ never_fails (recommend T d)
  | None => never_fails (get_random_action E s)
  end.
Hypothesis next_ok : forall h s a, rollout T E g0 root h s -> sink E s = false ->
  match walk T root (map ao h) with Some d => possible g0 (recommend T d) a | None => In a (valid E s) end -> never_fails (next E s a).
Hypothesis obs_ok : forall h s a s', rollout T E g0 root h s -> sink E s = false ->
  match walk T root (map ao h) with Some d => possible g0 (recommend T d) a | None => In a (valid E s) end ->
  possible g0 (next E s a) s' -> never_fails (observe E a s').
Lemma fail_step : forall s t w w' rs g dn f, inv s -> nth_error (ws s) t = Some w ->
  wstep T E max_length n k w s = Some (w', rs, g, dn) -> w' <> WFail f.
Proof using k_pos fits rec_ok next_ok obs_ok.
  intros s t w w' rs g dn f I Hw H C. subst w'. destruct (i_w s I t w Hw) as [W _]. destruct (i_rng s I) as [G1 G2].
  destruct w as [i p|r|r a|r a s'|r| |f']; cbn [wstep worker_ok] in *; try discriminate.
  - destruct (i <? n)%Z; discriminate.
  - destruct (_ && _) eqn:B; [|discriminate]. apply andb_true_iff in B. destruct B as [_ B]. apply negb_true_iff in B.
    destruct W as (R1 & R2 & R3 & R4 & R5 & R6 & R7 & R8). specialize (rec_ok _ _ R5 B). unfold get_action in H. rewrite R4 in H.
    destruct (walk T root (map ao (rev (hist r)))) as [d|].
    + destruct rec_ok as [K1 K2]. destruct (uses_context T d); [rewrite K1 in H by auto|]; cbn [andb negb] in H;
        destruct (K2 (rg s) G1 G2) as (a & g' & Q); rewrite Q in H; discriminate.
    + destruct (rec_ok (rg s) G1 G2) as (a & g' & Q). rewrite Q in H. discriminate.
  - destruct W as (RO & W1 & W2 & W3). destruct RO as (R1 & R2 & R3 & R4 & R5 & R6 & R7 & R8).
    destruct (next_ok _ _ _ R5 W2 W3 (rg s) G1 G2) as (x & g' & Q). rewrite Q in H. discriminate.
  - destruct W as (RO & W1 & W2 & W3 & W4). destruct RO as (R1 & R2 & R3 & R4 & R5 & R6 & R7 & R8).
    destruct (obs_ok _ _ _ _ R5 W2 W3 W4 (rg s) G1 G2) as (x & g' & Q). rewrite Q in H. discriminate.
  - destruct W as (RO & _). destruct RO as (R1 & _). injection H as H _ _ _.
    destruct (Z.leb_spec (index r + k) int_max); [discriminate|]. lia.
Qed.
Lemma no_failure : forall s, reached s -> ~ failed s.
Proof using k_pos fits rec_ok next_ok obs_ok rec_adv next_adv obs_adv.
  assert (K : forall ls s s', inv s -> ~ failed s -> erun T E max_length p0 n k s ls = Some s' -> ~ failed s').
  { induction ls as [|l ls IH]; intros s s' I F H; cbn in H; [now injection H as <-|].
    destruct (est s l) as [s1|] eqn:Es; [|discriminate]. eapply IH; [|  |exact H]; [eapply inv_step; eauto|].
    clear H IH. intros (t & f & Q). apply F. destruct l as [|t']; cbn [estep] in Es.
    - destruct (main s) as [i|i|]; [| |discriminate].
      + destruct (_ <? _)%Z; injection Es as <-; cbn [ws] in Q; [|exists t, f; exact Q].
        destruct (Nat.lt_ge_cases t (length (ws s))).
        * rewrite nth_error_app1 in Q by auto. exists t, f. exact Q.
        * rewrite nth_error_app2 in Q by auto. destruct (t - length (ws s))%nat as [|[|m]]; discriminate.
      + destruct (_ <? _)%Z; [|injection Es as <-; exists t, f; exact Q].
        destruct (nth_error (ws s) i) as [[]|]; try discriminate. injection Es as <-. exists t, f. exact Q.
    - destruct (nth_error (ws s) t') as [w|] eqn:Hw; [|discriminate].
      destruct (wstep T E max_length n k w s) as [[[[w' rs] g] dn]|] eqn:W; [|discriminate]. injection Es as <-. cbn [ws] in Q.
      rewrite (nth_upd _ _ _ _ _ _ Hw) in Q. destruct (Nat.eqb t' t); [|exists t, f; exact Q].
      injection Q as ->. now elim (fail_step s t' w (WFail f) rs g dn f I Hw W). }
  intros s (ls & H). eapply K; [apply inv_init| |exact H]. intros (t & f & Q). destruct t; discriminate.
Qed.

(** ** Termination *)
Variable L : nat.
Hypothesis short : (0 < max_length)%Z -> forall h s, rollout T E g0 root h s -> (length h <= L)%nat.
Definition later (i : Z) : nat := (Z.to_nat (n - i - 1) * (3 * L + 4))%nat.
Definition wm (w : worker) : nat :=
  match w with
  | WLoop i _ => Z.to_nat (n - i) * (3 * L + 4) + 1
  | WHead r => later (index r) + 1 + 3 * (L - length (hist r)) + 2
  | WNext r _ => later (index r) + 1 + 3 * (L - length (hist r)) + 1
  | WObs r _ _ => later (index r) + 1 + 3 * (L - length (hist r))
  | WPush r => later (index r) + 2
  | WDone => 0
  | WFail _ => 0
  end%nat.
Definition unspawned (i : nat) : nat := list_sum (map (fun j => wm (WLoop (Z.of_nat j) p0) + 1)%nat (seq i (Z.to_nat k - i))).
Definition mm (m : main_pc) : nat :=
  match m with
  | MSpawn i => unspawned i + (Z.to_nat k + 3)
  | MJoin i => (Z.to_nat k - i) + 2
  | MDone => 0
  end%nat.
Definition measure (s : estate) : nat := (mm (main s) + list_sum (map wm (ws s)))%nat.
Lemma sum_upd : forall l t w w', nth_error l t = Some w ->
  (list_sum (map wm (upd l t w')) + wm w = list_sum (map wm l) + wm w')%nat.
Proof using.
  assert (C : forall x l, list_sum (map wm (x :: l)) = (wm x + list_sum (map wm l))%nat) by reflexivity.
  induction l as [|x l IH]; intros [|t] w w' H; cbn [upd nth_error] in *; try discriminate; rewrite !C.
  - injection H as ->. lia.
  - specialize (IH t w w' H). lia.
Qed.
Lemma sum_snoc : forall l, forall x : nat, list_sum (l ++ [x]) = (list_sum l + x)%nat.
Proof using. intros l x. rewrite list_sum_app. cbn. lia. Qed.
Lemma wm_step : forall s t w w' rs g dn, inv s -> nth_error (ws s) t = Some w ->
  wstep T E max_length n k w s = Some (w', rs, g, dn) -> (wm w' < wm w)%nat.
Proof using k_pos short obs_adv.
  intros s t w w' rs g dn I Hw H. destruct (i_w s I t w Hw) as [W _]. pose proof (i_rng s I) as G.
  destruct w as [i p|r|r a|r a s'|r| |f']; cbn [wstep worker_ok] in *; try discriminate.
  - destruct (Z.ltb_spec i n); injection H as <- <- <- <-; cbn [wm index hist length]; [|lia].
    unfold later. replace (Z.to_nat (n - i)) with (Z.to_nat (n - i - 1) + 1)%nat by lia. lia.
  - destruct (_ && _); [destruct (get_action _ _ _ _ _ _) as [[a g1]| |]|]; injection H as <- <- <- <-; cbn [wm]; lia.
  - destruct (next _ _ _ _) as [[s' g1]| |]; injection H as <- <- <- <-; cbn [wm]; lia.
  - destruct (observe _ _ _ _) as [[o g1]| |] eqn:Ob; injection H as <- <- <- <-; cbn [wm index hist]; [|lia|lia].
    destruct W as (RO & W1 & W2 & W3 & W4). destruct RO as (R1 & R2 & R3 & R4 & R5 & R6 & R7 & R8).
    pose proof (short W1 _ _ (ro_step T E g0 root (rev (hist r)) (cur r) a o s' R5 W2 W3 W4
      (ex_intro _ (rg s) (ex_intro _ g1 (conj (proj1 G) (conj (proj2 G) Ob)))))) as Sh.
    rewrite app_length, rev_length in Sh. cbn [length] in *. lia.
  - destruct W as (RO & _). destruct RO as (R1 & _). injection H as <- <- <- <-.
    destruct (index r + k <=? int_max)%Z; cbn [wm]; [|lia]. unfold later.
    assert (Z.to_nat (n - (index r + k)) <= Z.to_nat (n - index r - 1))%nat by lia. nia.
Qed.
Lemma measure_step : forall s l s', inv s -> est s l = Some s' -> (measure s' < measure s)%nat.
Proof using k_pos short obs_adv.
  intros s l s' I H. destruct l as [|t]; cbn [estep] in H.
  - pose proof (i_main s I) as M. unfold measure. destruct (main s) as [i|i|] eqn:Em; [| |discriminate].
    + destruct M as [M1 M2]. destruct (Z.ltb_spec (Z.of_nat i) k); injection H as <-; cbn [main ws mm].
      * rewrite map_app. cbn [map]. rewrite sum_snoc. unfold unspawned.
        replace (Z.to_nat k - i)%nat with (Datatypes.S (Z.to_nat k - (i + 1))) by lia. replace (i + 1)%nat with (Datatypes.S i) by lia. cbn [seq map].
        set (l := map (fun j => wm (WLoop (Z.of_nat j) p0) + 1)%nat (seq (Datatypes.S i) (Z.to_nat k - Datatypes.S i))).
        change (list_sum ((wm (WLoop (Z.of_nat i) p0) + 1)%nat :: l)) with (wm (WLoop (Z.of_nat i) p0) + 1 + list_sum l)%nat.
        cbn [wm]. lia.
      * lia.
    + destruct M as (M1 & M2 & M3). destruct (Z.ltb_spec (Z.of_nat i) k).
      * destruct (nth_error (ws s) i) as [[]|]; try discriminate. injection H as <-. cbn [main ws mm]. lia.
      * injection H as <-. cbn [main ws mm]. lia.
  - destruct (nth_error (ws s) t) as [w|] eqn:Hw; [|discriminate].
    destruct (wstep T E max_length n k w s) as [[[[w' rs] g] dn]|] eqn:W; [|discriminate]. injection H as <-.
    pose proof (wm_step s t w w' rs g dn I Hw W) as D. pose proof (sum_upd (ws s) t w w' Hw) as U.
    unfold measure. cbn [main ws]. lia.
Qed.
Lemma run_bounded : forall ls s s', inv s -> erun T E max_length p0 n k s ls = Some s' -> (length ls + measure s' <= measure s)%nat.
Proof using k_pos short rec_adv next_adv obs_adv.
  induction ls as [|l ls IH]; intros s s' I H; cbn in H.
  - injection H as <-. cbn. lia.
  - destruct (est s l) as [s1|] eqn:Es; [|discriminate]. pose proof (measure_step s l s1 I Es).
    specialize (IH s1 s' (inv_step s l s1 I Es) H). cbn [length]. lia.
Qed.
Lemma terminates : exists B, forall ls s, erun T E max_length p0 n k (einit old g0) ls = Some s -> (length ls <= B)%nat.
Proof using k_pos short rec_adv next_adv obs_adv.
  exists (measure (einit old g0)). intros ls s H. pose proof (run_bounded ls _ s inv_init H). lia.
Qed.
(** If moreover nothing fails, run_rollouts can be run to its end. *)
Lemma finishes : exists ls s, erun T E max_length p0 n k (einit old g0) ls = Some s /\ main s = MDone.
Proof using k_pos fits rec_ok next_ok obs_ok rec_adv next_adv obs_adv short.
  assert (K : forall m s, (measure s < m)%nat -> reached s -> exists ls s', erun T E max_length p0 n k s ls = Some s' /\ main s' = MDone).
  { induction m as [|m IH]; intros s B Rs; [lia|].
    assert (DD : main s = MDone \/ main s <> MDone) by (destruct (main s); [right; discriminate|right; discriminate|now left]). destruct DD as [D|D].
    - exists [], s. auto.
    - pose proof (inv_reached s Rs) as I. destruct (moves s I D) as [F|(l & M)]; [now elim (no_failure s Rs)|].
      destruct (est s l) as [s1|] eqn:Es; [|congruence]. pose proof (measure_step s l s1 I Es).
      destruct (IH s1) as (ls & s' & H1 & H2); [lia| |].
      + destruct Rs as (ls0 & H0). exists (ls0 ++ [l]). clear - H0 Es.
        revert H0. generalize (@einit S A O DN old g0). induction ls0 as [|x ls0 IH]; intros e H0; cbn in *.
        * injection H0 as ->. now rewrite Es.
        * destruct (est e x); [now apply IH|discriminate].
      + exists (l :: ls), s'. cbn. rewrite Es. auto. }
  apply (K (Datatypes.S (measure (einit old g0)))); [lia|]. exists []. reflexivity.
Qed.
End Proofs.

(** ** Statistics *)
Lemma mean_fold : forall w l acc, fold_left (fun m v => m + w * v) l acc = acc + w * sum l.
Proof. intros w. induction l as [|x l IH]; intros acc; cbn; [lra|]. rewrite IH. lra. Qed.
Lemma mean_is : forall l, l <> [] -> mean_return R_ops l = mean l.
Proof.
  intros l H. unfold mean_return, mean. cbn [R_ops ndiv none_ nofZ nadd nmul nzero]. rewrite mean_fold, <- INR_IZR_INZ. unfold Rdiv. lra.
Qed.
Lemma var_fold : forall w c l acc, fold_left (fun s v => s + w * ((v - c) * (v - c))) l acc = acc + w * sum (map (fun v => (v - c) ^ 2) l).
Proof. intros w c. induction l as [|x l IH]; intros acc; cbn [fold_left map sum]; [lra|]. rewrite IH. lra. Qed.
Lemma stddev_is : forall l, l <> [] -> stddev_return R_ops l = variance l.
Proof.
  intros l H. unfold stddev_return, variance. cbn [R_ops ndiv none_ nofZ nadd nmul nzero nsub]. rewrite (mean_is l H), var_fold, <- INR_IZR_INZ.
  unfold Rdiv. lra.
Qed.
Lemma sum_perm : forall l l', Permutation l l' -> sum l = sum l'.
Proof. intros l l' P. induction P; cbn; lra. Qed.
