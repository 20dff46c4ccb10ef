(** A search whose decision nodes are shared through the transposition table: its trials, one by one. *)
From Coq Require Import List ZArith Bool Reals Lia Lra.
From Verif Require Import Base BaseProofs NumOps HelperModel EngineModel EngineSpec AlgoModel.
Import ListNotations.
Open Scope R_scope.

(** From state 0 both actions lead to the states 1 and 2, where trials end. *)
Definition tab_conf : @econf nat bool :=
  mkConf (fun _ => false) (fun _ => [true; false]) (fun _ _ => [1%nat; 2%nat]) (fun _ a _ => if a then 0 else 1)
    (Some (fun s => match s with 1%nat => 4 | _ => 0 end)) 1 false true 0 0%nat 0.

Section Trials.
Notation C := tab_conf.
Variable G : @algo nat bool.
Hypothesis P1 : forall kids cx, peek_d G kids cx = None.
Hypothesis P2 : forall kids cx, peek_c G kids cx = None.
Hypothesis P3 : forall cx, inside G cx = false.
Hypothesis P4 : forall cx, fin G cx = cx.
Hypothesis P5 : forall cx, cx = cx0 G.

Notation tt0 := [((0, 2%nat), 1%nat); ((0, 1%nat), 2%nat)]%Z.
Definition rootn (v : Z) (k : list (bool * nat)) : @dnode nat bool := mkD 0%nat 0 0 v 0 k.
Definition leafn (s : nat) (v : Z) : @dnode nat bool := mkD s 1 1 v (match s with 1%nat => 4 | _ => 0 end) [].
Definition chn (a : bool) (v : Z) (k : list (nat * nat)) : @cnode nat bool := mkC 0%nat a 0 0 v k.

Definition st (dl : list (@dnode nat bool)) (cl : list (@cnode nat bool)) tb tr (xl : list (XD G)) (yl : list (XC G)) g : ast G :=
  mkA (mkEst (mkStore dl cl tb) [TIdle] tr) xl yl [cx0 G] g None.

Notation runs := (arun Nat.eqb Bool.eqb C G [AStart 0; ARun 0; ARun 0; ARun 0; ARun 0; ARun 0; ARun 0]).
Definition one (c d c' d' : nat) : Z := if Nat.eqb c c' && Nat.eqb d d' then 1 else 0.
(** What a trial through edge [c]-[d] adds to the trace. *)
Definition adds (c d : nat) (tr tr' : list (nat * @event nat bool)) : Prop :=
  count is_done tr' = (1 + count is_done tr)%Z /\ forall c' d', count (goes c' d') tr' = (one c d c' d' + count (goes c' d') tr)%Z.

Ltac go := repeat (change (0 + 1)%Z with 1%Z; unfold new_dnode, visit_d, new_cnode, visit_c, add_dkid, add_ckid, out; cbn -[select sample back_c back_d new_xd new_xc vis_d cx0 Rplus IZR Rdiv peek_d peek_c inside fin count goes is_done st]; rewrite ?P1, ?P2, ?P3, ?P4).



Ltac trials H1 H2 H3 H4 := eexists; split; [go; rewrite H1; go; rewrite H2; go; rewrite H3; go; rewrite H4; go; reflexivity|].
Ltac counted := unfold adds, count, one, is_done, goes; cbn [countb snd]; split; [lia|intros c' d'; destruct (Nat.eqb _ _ && Nat.eqb _ _); lia].
(** The trials that build the tree: action false leads to state 2, true to 1, false to 1 and true to 2. *)
Lemma trial1 : forall g g1 g2 y x,
  let xr := vis_d G false (new_xd G (rootn 0 [])) in
  let xo := vis_d G true (new_xd G (leafn 2 0)) in
  select G (rootn 1 []) xr [] (cx0 G) g = Ok (false, cx0 G, g1) ->
  sample G (chn false 1 []) (new_xc G (chn false 0 [])) (cx0 G) g1 = Ok (2%nat, cx0 G, g2) ->
  (forall b, back_c G (chn false 1 [(2, 1)%nat]) (new_xc G (chn false 0 [])) [(2%nat, (leafn 2 1, xo))] (cx0 G) b = Ok y) ->
  (forall b, back_d G (rootn 1 [(false, 0%nat)]) xr [(false, (chn false 1 [(2, 1)%nat], y))] (cx0 G) b = Ok x) ->
  exists tr, runs (ainit C G 1 g) = Some (st [rootn 1 [(false, 0%nat)]; leafn 2 1] [chn false 1 [(2, 1)%nat]] [((0%Z, 2%nat), 1%nat)] tr [x; xo] [y] g2) /\
    adds 0 1 [] tr.
Proof.
  intros g g1 g2 y x xr xo H1 H2 H3 H4. subst xr xo; unfold st, rootn, leafn, chn in *. cbn in H1, H2, H3, H4.
  trials H1 H2 H3 H4. counted.
Qed.
Lemma trial2 : forall v vf w2 tr xr x2 yf g g1 g2 y x,
  let xr' := vis_d G false xr in
  let xo := vis_d G true (new_xd G (leafn 1 0)) in
  select G (rootn (v + 1) [(false, 0%nat)]) xr' [(false, (chn false vf [(2, 1)%nat], yf))] (cx0 G) g = Ok (true, cx0 G, g1) ->
  sample G (chn true 1 []) (new_xc G (chn true 0 [])) (cx0 G) g1 = Ok (1%nat, cx0 G, g2) ->
  (forall b, back_c G (chn true 1 [(1, 2)%nat]) (new_xc G (chn true 0 [])) [(1%nat, (leafn 1 1, xo))] (cx0 G) b = Ok y) ->
  (forall b, back_d G (rootn (v + 1) [(false, 0%nat); (true, 1%nat)]) xr' [(false, (chn false vf [(2, 1)%nat], yf)); (true, (chn true 1 [(1, 2)%nat], y))] (cx0 G) b = Ok x) ->
  exists tr', runs (st [rootn v [(false, 0%nat)]; leafn 2 w2] [chn false vf [(2, 1)%nat]] [((0%Z, 2%nat), 1%nat)] tr [xr; x2] [yf] g) =
    Some (st [rootn (v + 1) [(false, 0%nat); (true, 1%nat)]; leafn 2 w2; leafn 1 1] [chn false vf [(2, 1)%nat]; chn true 1 [(1, 2)%nat]] tt0 tr' [x; x2; xo] [yf; y] g2) /\ adds 1 2 tr tr'.
Proof.
  intros v vf w2 tr xr x2 yf g g1 g2 y x xr' xo H1 H2 H3 H4. subst xr' xo; unfold st, rootn, leafn, chn in *. cbn in H1, H2, H3, H4.
  trials H1 H2 H3 H4. counted.
Qed.
Notation kr := [(false, 0%nat); (true, 1%nat)].
Definition us v vf vt w2 w1 (kf kt : list (nat * nat)) tr xr x2 x1 yf yt g : ast G :=
  st [rootn v kr; leafn 2 w2; leafn 1 w1] [chn false vf kf; chn true vt kt] tt0 tr [xr; x2; x1] [yf; yt] g.
Lemma trial3 : forall v vf vt w2 w1 tr xr x2 x1 yf yt g g1 g2 y x,
  let xr' := vis_d G false xr in
  select G (rootn (v + 1) kr) xr' [(false, (chn false vf [(2, 1)%nat], yf)); (true, (chn true vt [(1, 2)%nat], yt))] (cx0 G) g = Ok (false, cx0 G, g1) ->
  sample G (chn false (vf + 1) [(2, 1)%nat]) yf (cx0 G) g1 = Ok (1%nat, cx0 G, g2) ->
  (forall b, back_c G (chn false (vf + 1) [(2, 1)%nat; (1, 2)%nat]) yf [(2%nat, (leafn 2 w2, x2)); (1%nat, (leafn 1 (w1 + 1), (vis_d G true x1)))] (cx0 G) b = Ok y) ->
  (forall b, back_d G (rootn (v + 1) kr) xr' [(false, (chn false (vf + 1) [(2, 1)%nat; (1, 2)%nat], y)); (true, (chn true vt [(1, 2)%nat], yt))] (cx0 G) b = Ok x) ->
  exists tr', runs (us v vf vt w2 w1 [(2, 1)%nat] [(1, 2)%nat] tr xr x2 x1 yf yt g) =
    Some (us (v + 1) (vf + 1) vt w2 (w1 + 1) [(2, 1)%nat; (1, 2)%nat] [(1, 2)%nat] tr' x x2 (vis_d G true x1) y yt g2) /\ adds 0 2 tr tr'.
Proof.
  intros v vf vt w2 w1 tr xr x2 x1 yf yt g g1 g2 y x xr' H1 H2 H3 H4. subst xr'; unfold us, st, rootn, leafn, chn in *. cbn in H1, H2, H3, H4.
  trials H1 H2 H3 H4. counted.
Qed.
Lemma trial4 : forall v vf vt w2 w1 tr xr x2 x1 yf yt g g1 g2 y x,
  let xr' := vis_d G false xr in
  select G (rootn (v + 1) kr) xr' [(false, (chn false vf [(2, 1)%nat; (1, 2)%nat], yf)); (true, (chn true vt [(1, 2)%nat], yt))] (cx0 G) g = Ok (true, cx0 G, g1) ->
  sample G (chn true (vt + 1) [(1, 2)%nat]) yt (cx0 G) g1 = Ok (2%nat, cx0 G, g2) ->
  (forall b, back_c G (chn true (vt + 1) [(1, 2)%nat; (2, 1)%nat]) yt [(1%nat, (leafn 1 w1, x1)); (2%nat, (leafn 2 (w2 + 1), (vis_d G true x2)))] (cx0 G) b = Ok y) ->
  (forall b, back_d G (rootn (v + 1) kr) xr' [(false, (chn false vf [(2, 1)%nat; (1, 2)%nat], yf)); (true, (chn true (vt + 1) [(1, 2)%nat; (2, 1)%nat], y))] (cx0 G) b = Ok x) ->
  exists tr', runs (us v vf vt w2 w1 [(2, 1)%nat; (1, 2)%nat] [(1, 2)%nat] tr xr x2 x1 yf yt g) =
    Some (us (v + 1) vf (vt + 1) (w2 + 1) w1 [(2, 1)%nat; (1, 2)%nat] [(1, 2)%nat; (2, 1)%nat] tr' x (vis_d G true x2) x1 yf y g2) /\ adds 1 1 tr tr'.
Proof.
  intros v vf vt w2 w1 tr xr x2 x1 yf yt g g1 g2 y x xr' H1 H2 H3 H4. subst xr'; unfold us, st, rootn, leafn, chn in *. cbn in H1, H2, H3, H4.
  trials H1 H2 H3 H4. counted.
Qed.
(** Later trials. *)
Lemma later_f2 : forall v vf vt w2 w1 tr xr x2 x1 yf yt g g1 g2 y x,
  let xr' := vis_d G false xr in
  select G (rootn (v + 1) kr) xr' [(false, (chn false vf [(2, 1)%nat; (1, 2)%nat], yf)); (true, (chn true vt [(1, 2)%nat; (2, 1)%nat], yt))] (cx0 G) g = Ok (false, cx0 G, g1) ->
  sample G (chn false (vf + 1) [(2, 1)%nat; (1, 2)%nat]) yf (cx0 G) g1 = Ok (2%nat, cx0 G, g2) ->
  (forall b, back_c G (chn false (vf + 1) [(2, 1)%nat; (1, 2)%nat]) yf [(2%nat, (leafn 2 (w2 + 1), (vis_d G true x2))); (1%nat, (leafn 1 w1, x1))] (cx0 G) b = Ok y) ->
  (forall b, back_d G (rootn (v + 1) kr) xr' [(false, (chn false (vf + 1) [(2, 1)%nat; (1, 2)%nat], y)); (true, (chn true vt [(1, 2)%nat; (2, 1)%nat], yt))] (cx0 G) b = Ok x) ->
  exists tr', runs (us v vf vt w2 w1 [(2, 1)%nat; (1, 2)%nat] [(1, 2)%nat; (2, 1)%nat] tr xr x2 x1 yf yt g) =
    Some (us (v + 1) (vf + 1) vt (w2 + 1) w1 [(2, 1)%nat; (1, 2)%nat] [(1, 2)%nat; (2, 1)%nat] tr' x (vis_d G true x2) x1 y yt g2) /\ adds 0 1 tr tr'.
Proof.
  intros v vf vt w2 w1 tr xr x2 x1 yf yt g g1 g2 y x xr' H1 H2 H3 H4. subst xr'; unfold us, st, rootn, leafn, chn in *. cbn in H1, H2, H3, H4.
  trials H1 H2 H3 H4. counted.
Qed.
Lemma later_f1 : forall v vf vt w2 w1 tr xr x2 x1 yf yt g g1 g2 y x,
  let xr' := vis_d G false xr in
  select G (rootn (v + 1) kr) xr' [(false, (chn false vf [(2, 1)%nat; (1, 2)%nat], yf)); (true, (chn true vt [(1, 2)%nat; (2, 1)%nat], yt))] (cx0 G) g = Ok (false, cx0 G, g1) ->
  sample G (chn false (vf + 1) [(2, 1)%nat; (1, 2)%nat]) yf (cx0 G) g1 = Ok (1%nat, cx0 G, g2) ->
  (forall b, back_c G (chn false (vf + 1) [(2, 1)%nat; (1, 2)%nat]) yf [(2%nat, (leafn 2 w2, x2)); (1%nat, (leafn 1 (w1 + 1), (vis_d G true x1)))] (cx0 G) b = Ok y) ->
  (forall b, back_d G (rootn (v + 1) kr) xr' [(false, (chn false (vf + 1) [(2, 1)%nat; (1, 2)%nat], y)); (true, (chn true vt [(1, 2)%nat; (2, 1)%nat], yt))] (cx0 G) b = Ok x) ->
  exists tr', runs (us v vf vt w2 w1 [(2, 1)%nat; (1, 2)%nat] [(1, 2)%nat; (2, 1)%nat] tr xr x2 x1 yf yt g) =
    Some (us (v + 1) (vf + 1) vt w2 (w1 + 1) [(2, 1)%nat; (1, 2)%nat] [(1, 2)%nat; (2, 1)%nat] tr' x x2 (vis_d G true x1) y yt g2) /\ adds 0 2 tr tr'.
Proof.
  intros v vf vt w2 w1 tr xr x2 x1 yf yt g g1 g2 y x xr' H1 H2 H3 H4. subst xr'; unfold us, st, rootn, leafn, chn in *. cbn in H1, H2, H3, H4.
  trials H1 H2 H3 H4. counted.
Qed.
Lemma later_t2 : forall v vf vt w2 w1 tr xr x2 x1 yf yt g g1 g2 y x,
  let xr' := vis_d G false xr in
  select G (rootn (v + 1) kr) xr' [(false, (chn false vf [(2, 1)%nat; (1, 2)%nat], yf)); (true, (chn true vt [(1, 2)%nat; (2, 1)%nat], yt))] (cx0 G) g = Ok (true, cx0 G, g1) ->
  sample G (chn true (vt + 1) [(1, 2)%nat; (2, 1)%nat]) yt (cx0 G) g1 = Ok (2%nat, cx0 G, g2) ->
  (forall b, back_c G (chn true (vt + 1) [(1, 2)%nat; (2, 1)%nat]) yt [(1%nat, (leafn 1 w1, x1)); (2%nat, (leafn 2 (w2 + 1), (vis_d G true x2)))] (cx0 G) b = Ok y) ->
  (forall b, back_d G (rootn (v + 1) kr) xr' [(false, (chn false vf [(2, 1)%nat; (1, 2)%nat], yf)); (true, (chn true (vt + 1) [(1, 2)%nat; (2, 1)%nat], y))] (cx0 G) b = Ok x) ->
  exists tr', runs (us v vf vt w2 w1 [(2, 1)%nat; (1, 2)%nat] [(1, 2)%nat; (2, 1)%nat] tr xr x2 x1 yf yt g) =
    Some (us (v + 1) vf (vt + 1) (w2 + 1) w1 [(2, 1)%nat; (1, 2)%nat] [(1, 2)%nat; (2, 1)%nat] tr' x (vis_d G true x2) x1 yf y g2) /\ adds 1 1 tr tr'.
Proof.
  intros v vf vt w2 w1 tr xr x2 x1 yf yt g g1 g2 y x xr' H1 H2 H3 H4. subst xr'; unfold us, st, rootn, leafn, chn in *. cbn in H1, H2, H3, H4.
  trials H1 H2 H3 H4. counted.
Qed.
Lemma later_t1 : forall v vf vt w2 w1 tr xr x2 x1 yf yt g g1 g2 y x,
  let xr' := vis_d G false xr in
  select G (rootn (v + 1) kr) xr' [(false, (chn false vf [(2, 1)%nat; (1, 2)%nat], yf)); (true, (chn true vt [(1, 2)%nat; (2, 1)%nat], yt))] (cx0 G) g = Ok (true, cx0 G, g1) ->
  sample G (chn true (vt + 1) [(1, 2)%nat; (2, 1)%nat]) yt (cx0 G) g1 = Ok (1%nat, cx0 G, g2) ->
  (forall b, back_c G (chn true (vt + 1) [(1, 2)%nat; (2, 1)%nat]) yt [(1%nat, (leafn 1 (w1 + 1), (vis_d G true x1))); (2%nat, (leafn 2 w2, x2))] (cx0 G) b = Ok y) ->
  (forall b, back_d G (rootn (v + 1) kr) xr' [(false, (chn false vf [(2, 1)%nat; (1, 2)%nat], yf)); (true, (chn true (vt + 1) [(1, 2)%nat; (2, 1)%nat], y))] (cx0 G) b = Ok x) ->
  exists tr', runs (us v vf vt w2 w1 [(2, 1)%nat; (1, 2)%nat] [(1, 2)%nat; (2, 1)%nat] tr xr x2 x1 yf yt g) =
    Some (us (v + 1) vf (vt + 1) w2 (w1 + 1) [(2, 1)%nat; (1, 2)%nat] [(1, 2)%nat; (2, 1)%nat] tr' x x2 (vis_d G true x1) yf y g2) /\ adds 1 2 tr tr'.
Proof.
  intros v vf vt w2 w1 tr xr x2 x1 yf yt g g1 g2 y x xr' H1 H2 H3 H4. subst xr'; unfold us, st, rootn, leafn, chn in *. cbn in H1, H2, H3, H4.
  trials H1 H2 H3 H4. counted.
Qed.
End Trials.
