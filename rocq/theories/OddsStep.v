(** A step of a search depends on the draws that it uses, at most one, and on no later ones. *)
From Coq Require Import List ZArith Bool Reals Lia Lra.
From Verif Require Import Base BaseProofs NumOps HelperModel HelperSpec EngineModel EngineSpec AlgoModel AlgoProofs OddsSpec.
Import ListNotations.
Open Scope R_scope.

Definition regr (f : nat -> R) (g : rng R) : rng R := mkRng (gi g) f (ni g) (nr g).
(** [F] uses exactly the next [j] uniform numbers. *)
Definition reads {T} (j : nat) (F : rng R -> outcome (T * rng R)) : Prop := forall g x g1, F g = Ok (x, g1) ->
  gr g1 = gr g /\ gi g1 = gi g /\ nr g1 = (nr g + j)%nat /\
  forall f, (forall i, (i < nr g + j)%nat -> f i = gr g i) -> F (regr f g) = Ok (x, regr f g1).

Section Step.
Context {S A : Type}.
Variable seqb : S -> S -> bool.
Variable aeqb : A -> A -> bool.
Variable C : @econf S A.
Variable G : @algo S A.
Variable distr : S -> A -> list (S * R).
Hypothesis Hsel : forall n x kids cx, exists j, (j <= 1)%nat /\ reads j (select G n x kids cx).
Hypothesis Hsam : forall n x cx, exists cx1, forall g, sample G n x cx g =
  bind (sample_from_distribution R_ops (distr (cstate n) (cact n)) true g) (fun '(o, g1) => Ok (o, cx1, g1)).
Notation ast := (ast G).
Notation astep := (astep seqb aeqb C G).

Definition regrs (f : nat -> R) (s : ast) : ast := mkA (base s) (xds s) (xcs s) (cxs s) (regr f (rg s)) (afail s).
Lemma regr_twice : forall f f' g, regr f (regr f' g) = regr f g.
Proof. reflexivity. Qed.
Lemma regrs_twice : forall f f' s, regrs f (regrs f' s) = regrs f s.
Proof. reflexivity. Qed.
Lemma regr_self : forall g, regr (gr g) g = g.
Proof. intros []; reflexivity. Qed.
Lemma regrs_self : forall s, regrs (gr (rg s)) s = s.
Proof. intros [b xd xc cx [gi0 gr0 ni0 nr0] f]; reflexivity. Qed.

Lemma sample_reads : forall n x cx, reads 1 (sample G n x cx).
Proof using Hsam.
  intros n x cx g y g1 E. destruct (Hsam n x cx) as (cx1 & H). rewrite H in E. unfold sample_from_distribution, get_rand_uniform in E. cbn [bind] in E.
  destruct (sample_loop _ _ _ _ _) as [o| |] eqn:Es; cbn [bind] in E; try discriminate. injection E as <- <-. cbn. do 3 (split; [auto; lia|]).
  intros f Hf. rewrite H. unfold sample_from_distribution, get_rand_uniform. cbn [bind regr gr nr gi ni]. rewrite (Hf (nr g)) by lia. cbn [R_ops nzero none_] in Es |- *. rewrite Es. reflexivity.
Qed.

(** How many uniform numbers a step uses is known before they are drawn. *)
Lemma step_local : forall l s, exists j, (j <= 1)%nat /\ forall f s1, astep l (regrs f s) = Some s1 -> afail s1 = None ->
  gr (rg s1) = f /\ gi (rg s1) = gi (rg s) /\ nr (rg s1) = (nr (rg s) + j)%nat /\
  forall f', (forall i, (i < nr (rg s) + j)%nat -> f' i = f i) -> astep l (regrs f' s) = Some (regrs f' s1).
Proof using Hsel Hsam.
  intros l s.
  assert (Zero : (forall f, match astep l (regrs f s) with Some s1 => s1 = regrs f s1 /\ gi (rg s1) = gi (rg s) /\ nr (rg s1) = nr (rg s) | None => True end) ->
    (forall f f', astep l (regrs f' s) = option_map (regrs f') (astep l (regrs f s))) ->
    exists j, (j <= 1)%nat /\ forall f s1, astep l (regrs f s) = Some s1 -> afail s1 = None ->
      gr (rg s1) = f /\ gi (rg s1) = gi (rg s) /\ nr (rg s1) = (nr (rg s) + j)%nat /\
      forall f', (forall i, (i < nr (rg s) + j)%nat -> f' i = f i) -> astep l (regrs f' s) = Some (regrs f' s1)).
  { intros H1 H2. exists 0%nat. split; [lia|]. intros f s1 E _. specialize (H1 f). rewrite E in H1. destruct H1 as (E1 & E2 & E3). split; [rewrite E1; reflexivity|].
    split; auto. split; [lia|]. intros f' _. rewrite (H2 f f'), E. reflexivity. }
  unfold AlgoModel.astep. cbn [regrs afail base cxs xds xcs].
  destruct (afail s) as [fl|] eqn:Ef. { exists 0%nat. split; [lia|]. intros f s1 [=]. }
  unfold AlgoModel.astep in Zero. cbn [regrs afail base cxs xds xcs] in Zero. rewrite Ef in Zero.
  destruct l as [t|t].
  { apply Zero; intros; destruct (estep seqb aeqb C (LStart t) (base s)) as [b|]; auto; cbn; auto. }
  destruct (nth_error (ths (base s)) t) as [th|]. 2: { exists 0%nat. split; [lia|]. intros f s1 [=]. }
  destruct (nth_error (cxs s) t) as [cx|]. 2: { exists 0%nat. split; [lia|]. intros f s1 [=]. }
  assert (Bl : forall f, blocked G (regrs f s) t th = blocked G s t th) by reflexivity.
  assert (Dv : forall f n, dview (regrs f s) n = dview s n) by reflexivity.
  assert (Cv : forall f n, cview (regrs f s) n = cview s n) by reflexivity.
  destruct (blocked G s t th) eqn:Eb.
  { exists 0%nat. split; [lia|]. intros f s1. rewrite Bl. intros [=]. }
  destruct th as [|cur flag nodes rewards|cur a c flag nodes rewards|nodes before after tafter total|d nodes before after tafter total|];
    try (exists 0%nat; split; [lia|]; intros f s1; rewrite Bl; intros [=]; fail).
  - destruct (nth_error (dh (mem (base s))) cur) as [n|] eqn:En.
    2: { exists 0%nat. split; [lia|]. intros f s1. rewrite Bl. intros [= <-] F. discriminate F. }
    destruct (nth_error (xds s) cur) as [x|] eqn:Ex.
    2: { exists 0%nat. split; [lia|]. intros f s1. rewrite Bl. intros [= <-] F. discriminate F. }
    destruct (should_continue C n flag) eqn:Ec.
    + destruct (Hsel (visit_d n) (vis_d G (is_leaf C n) x) (dview s n) cx) as (j & Hj & Rd). exists j. split; [exact Hj|].
      intros f s1. rewrite Bl, Dv. cbn [rg regrs]. destruct (select G _ _ _ cx (regr f (rg s))) as [[[a cx1] g1]| |] eqn:Es; cbn [done].
      2,3: intros [= <-] F; discriminate F.
      destruct (Rd _ _ _ Es) as (R1 & R2 & R3 & R4).
      destruct (estep seqb aeqb C (LSelect t a) (base s)) as [b|] eqn:Ee.
      2: { intros [= <-] F; discriminate F. }
      intros [= <-] _. cbn [aset rg]. split; [rewrite R1; reflexivity|]. split; [rewrite R2; reflexivity|]. split; [rewrite R3; reflexivity|].
      intros f' Hf. rewrite Bl, Dv. specialize (R4 f' Hf). rewrite regr_twice in R4. rewrite R4. cbn [done]. rewrite Ee. reflexivity.
    + apply Zero; intros; rewrite ?Bl; destruct (estep seqb aeqb C (LRun t) (base s)) as [b|]; auto; cbn; auto.
  - destruct (nth_error (ch (mem (base s))) c) as [n|] eqn:En.
    2: { exists 0%nat. split; [lia|]. intros f s1. rewrite Bl. intros [= <-] F. discriminate F. }
    destruct (nth_error (xcs s) c) as [x|] eqn:Ex.
    2: { exists 0%nat. split; [lia|]. intros f s1. rewrite Bl. intros [= <-] F. discriminate F. }
    exists 1%nat. split; [lia|]. intros f s1. rewrite Bl. cbn [rg regrs].
    destruct (sample G (visit_c n) x cx (regr f (rg s))) as [[[o cx1] g1]| |] eqn:Es; cbn [done].
    2,3: intros [= <-] F; discriminate F.
    destruct (sample_reads (visit_c n) x cx _ _ _ Es) as (R1 & R2 & R3 & R4).
    destruct (estep seqb aeqb C (LSample t o) (base s)) as [b|] eqn:Ee.
    2: { intros [= <-] F; discriminate F. }
    intros [= <-] _. cbn [aset rg]. split; [rewrite R1; reflexivity|]. split; [rewrite R2; reflexivity|]. split; [rewrite R3; reflexivity|].
    intros f' Hf. rewrite Bl. specialize (R4 f' Hf). rewrite regr_twice in R4. rewrite R4. cbn [done]. rewrite Ee. reflexivity.
  - apply Zero; intros; rewrite ?Bl; (destruct (estep seqb aeqb C (LRun t) (base s)) as [b|]; [|auto]);
      destruct nodes as [|[d c] nodes1]; try (cbn; auto; fail); (destruct before as [|r before1]; [cbn; auto|]);
      (destruct (nth_error (ch (mem (base s))) c) as [n|]; [|cbn; auto]); (destruct (nth_error (xcs s) c) as [x|]; [|cbn; auto]);
      rewrite ?Cv; (destruct (peek_c G (cview s n) cx) as [cx1|]; [cbn; auto|]); destruct (back_c G n x (cview s n) cx _) as [x1| |]; cbn; auto.
  - apply Zero; intros; rewrite ?Bl; (destruct (estep seqb aeqb C (LRun t) (base s)) as [b|]; [|auto]);
      (destruct (nth_error (dh (mem (base s))) d) as [n|]; [|cbn; auto]); (destruct (nth_error (xds s) d) as [x|]; [|cbn; auto]);
      rewrite ?Dv; (destruct (peek_d G (dview s n) cx) as [cx1|]; [cbn; auto|]); destruct (back_d G n x (dview s n) cx _) as [x1| |]; cbn; auto.
Qed.
End Step.
