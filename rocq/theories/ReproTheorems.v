(** Property theorems: searches can be reproduced, C100. *)
From Coq Require Import List ZArith Bool Reals Lia Lra.
From Verif Require Import Base BaseProofs NumOps HelperModel EngineModel EngineSpec EngineProofs EngineCount AlgoModel AlgoProofs AlgoFinish UctModel MentsModel MentsSpec
  WorldSpec WorldExamples SureSpec SureExamples ReproSpec ReproProofs.
Import ListNotations.
Open Scope R_scope.

Section Repro.
Context {S A : Type}.
Variable seqb : S -> S -> bool.
Variable aeqb : A -> A -> bool.
Hypothesis seqb_ok : decides seqb.
Hypothesis aeqb_ok : decides aeqb.
Variable C : @econf S A.
Variable G : @algo S A.
Notation arun := (arun seqb aeqb C G).
Notation areach := (areach seqb aeqb C G).
Notation one_at_a_time := (one_at_a_time seqb aeqb C).
Notation started s := (count is_start (etrace (base s))).

(** Whatever the algorithm and the environment, with one worker the search is a function of the random numbers: after the
    same number of trials everything is the same. *)
Theorem C100_one_worker : forall g (s s' : ast G), areach 1 g s -> areach 1 g s' -> quiet (base s) -> quiet (base s') -> started s = started s' -> s = s'.
Proof. exact (one_worker seqb aeqb C G). Qed.
(** Also in the middle of trials: of two moments of searches with the same random numbers, one comes before the other in
    the same search. *)
Theorem C100_one_history : forall g (s s' : ast G), areach 1 g s -> areach 1 g s' ->
  (exists ls, arun ls s = Some s') \/ (exists ls, arun ls s' = Some s).
Proof. intros g s s' [l1 R1] [l2 R2]. exact (one_order seqb aeqb C G l1 l2 (ainit C G 1 g) s s' eq_refl R1 R2). Qed.

Lemma start_active : forall n g, (0 < n)%nat -> active G (ainit C G n g) 0 TIdle (cx0 G) /\ areach 1 g (solo G (ainit C G n g) TIdle (cx0 G)).
Proof.
  intros [|n] g L; [lia|]. split; [|exists []; reflexivity]. split; [reflexivity|]. split; [reflexivity|]. intros u y _ H. cbn in H.
  change (TIdle :: repeat TIdle n) with (repeat (@TIdle A) (Datatypes.S n)) in H. apply nth_error_In, repeat_spec in H. exact H.
Qed.
Lemma turns : forall n g ls s, (0 < n)%nat -> one_at_a_time ls (ainit C G n g) -> arun ls (ainit C G n g) = Some s ->
  exists t th cx, active G s t th cx /\ areach 1 g (solo G s th cx).
Proof using All.
  intros n g ls s L O H. apply (turn seqb aeqb seqb_ok aeqb_ok C G n g ls (ainit C G n g) s (ex_intro _ [] eq_refl) O H).
  exists 0%nat, TIdle, (cx0 G). apply start_active. exact L.
Qed.
Lemma count_anon : forall (f : @event S A -> bool) tr, count f (map anon tr) = count f tr.
Proof. intros f tr. induction tr as [|[t e] tr IH]; [reflexivity|]. cbn [map]. unfold anon at 1. cbn [snd]. rewrite !count_cons, IH. reflexivity. Qed.

(** More workers whose trials do not overlap do exactly what one worker does. *)
Theorem C100_turns : forall n g ls s, (0 < n)%nat -> arun ls (ainit C G n g) = Some s -> one_at_a_time ls (ainit C G n g) ->
  exists s1, areach 1 g s1 /\ same_outcome s s1 /\ story s = story s1 /\ (quiet (base s) <-> quiet (base s1)).
Proof using All.
  intros n g ls s L H O. destruct (turns n g ls s L O H) as (t & th & cx & (H1 & H2 & H3) & R). exists (solo G s th cx). split; [exact R|]. split; [repeat split|]. split.
  - unfold story, solo. cbn [base etrace]. rewrite map_map. reflexivity.
  - split; intros Q.
    + intros [|[|u]] y Hy; cbn in Hy; try discriminate. injection Hy as <-. exact (Q t th H1).
    + intros u y Hy. destruct (Nat.eq_dec u t) as [->|N]; [|exact (H3 u y N Hy)]. rewrite H1 in Hy. injection Hy as <-. exact (Q 0%nat th eq_refl).
Qed.
(** Hence neither the number of workers nor who did which trial matters, as long as trials do not overlap. *)
Theorem C100_reproducible : forall n n' g ls ls' s s', (0 < n)%nat -> (0 < n')%nat ->
  arun ls (ainit C G n g) = Some s -> arun ls' (ainit C G n' g) = Some s' -> one_at_a_time ls (ainit C G n g) -> one_at_a_time ls' (ainit C G n' g) ->
  quiet (base s) -> quiet (base s') -> started s = started s' -> same_outcome s s' /\ story s = story s'.
Proof using All.
  intros n n' g ls ls' s s' L L' H H' O O' Q Q' N.
  assert (St : forall x y : ast G, story x = story y -> started x = started y).
  { intros x y E. rewrite <- (count_anon _ (etrace (base x))), <- (count_anon _ (etrace (base y))). replace (map anon (etrace (base x))) with (map (pair 0%nat) (story x)) by (unfold story; now rewrite map_map).
    rewrite E. unfold story. now rewrite map_map. }
  destruct (C100_turns n g ls s L H O) as (s1 & R1 & (A1 & A2 & A3 & A4 & A5) & B1 & C1). destruct (C100_turns n' g ls' s' L' H' O') as (s2 & R2 & (D1 & D2 & D3 & D4 & D5) & B2 & C2).
  assert (E : s1 = s2). { apply (C100_one_worker g); auto; [now apply C1|now apply C2|]. rewrite <- (St _ _ B1), <- (St _ _ B2). exact N. }
  subst s2. unfold same_outcome. repeat split; congruence.
Qed.
End Repro.
Print Assumptions C100_one_worker.
Print Assumptions C100_one_history.
Print Assumptions C100_turns.
Print Assumptions C100_reproducible.

(** ** Overlapping trials *)
Section Overlap.
Variable G : @algo bool bool.
Hypothesis Sel : forall n x kids cx g, dstate n = false -> (1 <= dvisits n <= 4)%Z -> gr g (nr g) < 1 ->
  select G n x kids cx g = Ok (if Rltb (gr g (nr g)) (1/2) then true else false, cx, adv g).
Hypothesis Smp : forall n x cx g, (gr g (nr g) < 1) -> sample G n x cx g = Ok (true, cx, adv g).
Variables oks okc : XC G -> Prop.
Hypothesis Nc : forall n, oks (new_xc G n).
Hypothesis Ss : forall x, okc x -> oks x.
Hypothesis Bc : forall n x kids cx b, oks x -> exists y, back_c G n x kids cx b = Ok y /\ okc y.
Hypothesis Bd : forall n x k kids cx b, okc (snd (snd k)) -> exists y, back_d G n x (k :: kids) cx b = Ok y.
Hypothesis P1 : forall kids cx, peek_d G kids cx = None.
Hypothesis P2 : forall kids cx, peek_c G kids cx = None.
Hypothesis P3 : forall cx, inside G cx = false.
Hypothesis P4 : forall cx, fin G cx = cx.
Ltac go := repeat (cbn -[select sample back_c back_d new_xd new_xc vis_d cx0 Rplus IZR Rdiv Rltb peek_d peek_c inside fin]; rewrite ?P1, ?P2, ?P3, ?P4, ?low, ?high).
Ltac fit := match goal with
  | |- context [select G ?n ?x ?k ?c ?g] => rewrite (Sel n x k c g) by (cbn; try reflexivity; first [lia|lra])
  | |- context [sample G ?n ?x ?c ?g] => rewrite (Smp n x c g) by (cbn; lra)
  | |- context [back_c G ?n ?x ?k ?c ?b] => let y := fresh "y" in let E := fresh "E" in let O := fresh "O" in destruct (Bc n x k c b ltac:(first [assumption|apply Nc|apply Ss; assumption])) as (y & E & O); rewrite E; clear E
  | |- context [back_d G ?n ?x (?k :: ?l) ?c ?b] => let y := fresh "y" in let E := fresh "E" in destruct (Bd n x k l c b ltac:(cbn; assumption)) as (y & E); rewrite E; clear E
  end; go; change (0 + 1)%Z with 1%Z; change (1 + 1)%Z with 2%Z; go.
(** Worker 1 starts and selects before worker 0, or after it has finished. *)
Definition overlapping : list alabel := [AStart 0; ARun 0; AStart 1; ARun 1; ARun 0; ARun 0; ARun 0; ARun 0; ARun 0; ARun 1; ARun 1; ARun 1; ARun 1; ARun 1].
Definition in_turn : list alabel := [AStart 0; ARun 0; ARun 0; ARun 0; ARun 0; ARun 0; ARun 0; AStart 1; ARun 1; ARun 1; ARun 1; ARun 1; ARun 1; ARun 1].
Definition two_trials (k : nat) (s : ast G) : Prop := quiet (base s) /\ count is_start (etrace (base s)) = 2%Z /\ length (ch (mem (base s))) = k.
Ltac over := split; [intros t th Q; destruct t as [|[|[|t]]]; cbn in Q; congruence|]; split; reflexivity.
Lemma turns_end : exists s, arun Bool.eqb Bool.eqb four_conf G in_turn (ainit four_conf G 2 g_four) = Some s /\ two_trials 2 s.
Proof using All. unfold in_turn. go. repeat fit. eexists. split; [reflexivity|]. over. Qed.
Lemma overlap_end : exists s, arun Bool.eqb Bool.eqb four_conf G overlapping (ainit four_conf G 2 g_four) = Some s /\ two_trials 1 s.
Proof using All. unfold overlapping. go. repeat fit. eexists. split; [reflexivity|]. over. Qed.
Lemma turns_alone : one_at_a_time Bool.eqb Bool.eqb four_conf in_turn (ainit four_conf G 2 g_four).
Proof using All.
  unfold in_turn. go. repeat (match goal with |- _ /\ _ => split end; go; try fit; try exact Logic.I; try (intros t th Q; destruct t as [|[|[|t]]]; cbn in Q; congruence)).
Qed.
End Overlap.

Lemma ments_turns : let G := ments Bool.eqb four_conf two_mc in
  (exists s, arun Bool.eqb Bool.eqb four_conf G in_turn (ainit four_conf G 2 g_four) = Some s /\ two_trials G 2 s) /\
  (exists s, arun Bool.eqb Bool.eqb four_conf G overlapping (ainit four_conf G 2 g_four) = Some s /\ two_trials G 1 s) /\
  one_at_a_time Bool.eqb Bool.eqb four_conf in_turn (ainit four_conf G 2 g_four).
Proof.
  intros G.
  assert (H1 : forall n x kids cx g, dstate n = false -> (1 <= dvisits n <= 4)%Z -> gr g (nr g) < 1 ->
    select G n x kids cx g = Ok (if Rltb (gr g (nr g)) (1/2) then true else false, cx, adv g)).
  { intros n x kids cx g Sn Vn G1. cbn [select ments G]. unfold ments_select. rewrite four_distr by (auto; intros a; apply two_q). cbn [bind]. now rewrite two_draw. }
  assert (H2 : forall n x cx g, gr g (nr g) < 1 -> sample G n x cx g = Ok (true, cx, adv g)).
  { intros n x cx g G1. cbn [sample ments G]. now rewrite one_outcome. }
  assert (H3 : forall n x kids cx b, True -> exists y, back_c G n x kids cx b = Ok y /\ True).
  { intros. eexists. split; [reflexivity|exact Logic.I]. }
  assert (H4 : forall n x k kids cx b, True -> exists y, back_d G n x (k :: kids) cx b = Ok y).
  { intros n x k kids cx b. intros _. cbn [back_d ments G]. unfold ments_backup_d. cbn [four_conf acts all_q].
    destruct (two_q n x (k :: kids) true) as (v1 & ->). destruct (two_q n x (k :: kids) false) as (v2 & ->). cbn [bind].
    destruct (ments_weights _ _ _) as [[w sum] nt]. eexists. reflexivity. }
  split; [|split].
  - apply turns_end with (oks := fun _ => True) (okc := fun _ => True); auto.
  - apply overlap_end with (oks := fun _ => True) (okc := fun _ => True); auto.
  - apply turns_alone with (oks := fun _ => True) (okc := fun _ => True); auto.
Qed.
(** With overlapping trials the schedule matters: for the same random numbers two workers can end with different trees
    after two trials each started once. *)
Theorem C100_overlap_refuted : exists (C : @econf bool bool) (M : @mconf bool bool) g (s s' : ast (ments Bool.eqb C M)),
  areach Bool.eqb Bool.eqb C (ments Bool.eqb C M) 2 g s /\ areach Bool.eqb Bool.eqb C (ments Bool.eqb C M) 2 g s' /\ quiet (base s) /\ quiet (base s') /\
  count is_start (etrace (base s)) = count is_start (etrace (base s')) /\ ~ same_outcome s s'.
Proof.
  exists four_conf, two_mc, g_four. destruct ments_turns as ((s & R & Q & N & L) & (s' & R' & Q' & N' & L') & _). exists s, s'.
  split; [exists in_turn; exact R|]. split; [exists overlapping; exact R'|]. split; [exact Q|]. split; [exact Q'|]. split; [congruence|]. intros (E & _). rewrite E in L. congruence.
Qed.
Print Assumptions C100_overlap_refuted.

(** ** Examples that meet the hypotheses *)
(** Two trials of MENTS by two workers that take turns, and two of one worker. *)
Example C100_witness : let G := ments Bool.eqb four_conf two_mc in
  (exists s, arun Bool.eqb Bool.eqb four_conf G in_turn (ainit four_conf G 2 g_four) = Some s /\ one_at_a_time Bool.eqb Bool.eqb four_conf in_turn (ainit four_conf G 2 g_four) /\
    quiet (base s) /\ count is_start (etrace (base s)) = 2%Z) /\
  exists s, areach Bool.eqb Bool.eqb four_conf G 1 g_four s /\ quiet (base s) /\ explored Bool.eqb four_conf (mem (base s)).
Proof.
  intros G. split.
  - destruct ments_turns as ((s & R & Q & N & _) & _ & O). exists s. auto.
  - destruct four_ments as (s & _ & R & Q & X & _). exists s. auto.
Qed.
