(** What EST makes of the trials of TableProofs. *)
From Coq Require Import List ZArith Bool Reals Lia Lra.
From Verif Require Import Base BaseProofs NumOps MapModel HelperModel HelperSpec EngineModel EngineSpec AlgoModel AlgoFinish UctModel MentsModel SoftSpec MentsSpec TentsSpec TreeSpec LseReal TableProofs.
Import ListNotations.
Open Scope R_scope.

(** Action true leads to state 1 in three of four cases, action false in one of four. *)
Definition tab_set : @mconf nat bool :=
  @mkM nat bool 5 (-1) 0 (-1) 1 None 1 1 1 0 false 0 1 false None false (fun _ (a : bool) => if a then 0 else 1)
    (fun _ (a : bool) => if a then [(1%nat, 3 / 4); (2%nat, 1 / 4)] else [(1%nat, 1 / 4); (2%nat, 3 / 4)]) (fun (V : Type) (m : list (bool * V)) => m) None 1 1 1 1 true.
Notation C := tab_conf.
Notation M := tab_set.
Notation adv g := (mkRng (gi g) (gr g) (ni g) (Datatypes.S (nr g))).
Notation G := (MentsModel.est Bool.eqb C M).
Notation vnb y := (v_nb (dc_dp y)).
Notation vq y := (v_val (dc_dp y)).

(** The draws of a round: action and outcome of every trial. *)
Definition tab_draw (i : nat) : R :=
  nth (i mod 16) [4/5; 4/5;  0; 0;  4/5; 0;  0; 4/5;  0; 0;  4/5; 4/5;  0; 0;  4/5; 4/5] 0.
Definition tab_g : rng R := mkRng (fun _ => 0%Z) tab_draw 0 0.
Definition drawn (i : nat) (g : rng R) : Prop := gr g = tab_draw /\ gi g = gi tab_g /\ nr g = i.

Lemma Rltb_t : forall a b, a < b -> Rltb a b = true.
Proof. intros a b H. unfold Rltb. destruct (Rlt_dec a b); auto; lra. Qed.
Lemma Rltb_f : forall a b, b <= a -> Rltb a b = false.
Proof. intros a b H. unfold Rltb. destruct (Rlt_dec a b); auto; lra. Qed.
Lemma Rleb_t : forall a b, a <= b -> Rleb a b = true.
Proof. intros a b H. unfold Rleb. destruct (Rle_dec a b); auto; lra. Qed.
Lemma Rleb_f : forall a b, b < a -> Rleb a b = false.
Proof. intros a b H. unfold Rleb. destruct (Rle_dec a b); auto; lra. Qed.
Lemma neps_pos : 0 < neps R_ops.
Proof. apply Rinv_0_lt_compat, IZR_lt. vm_compute. reflexivity. Qed.

(** Drawing from two entries. *)
Lemma draw_two : forall (T : Type) (k1 k2 : T) p1 p2 g, 1/4 <= p1 <= 3/4 -> p1 + p2 = 1 ->
  gr g (nr g) = 0 \/ gr g (nr g) = 4/5 ->
  sample_from_distribution R_ops [(k1, p1); (k2, p2)] true g = Ok (if Req_EM_T (gr g (nr g)) 0 then k1 else k2, adv g).
Proof.
  intros T k1 k2 p1 p2 g B E D. unfold sample_from_distribution, get_rand_uniform. cbn [sample_loop none_ nzero R_ops nadd ndiv nltb nleb snd].
  pose proof neps_pos. replace (0 + p1 / 1) with p1 by lra. replace (p1 + p2 / 1) with 1 by lra.
  rewrite (Rltb_f (1 + neps R_ops) p1), (Rleb_f 1 p1), (Rltb_f (1 + neps R_ops) 1) by lra. cbn [andb orb]. rewrite andb_false_r.
  destruct D as [-> | ->].
  - rewrite Rltb_t by lra. destruct (Req_EM_T 0 0); [reflexivity|lra].
  - rewrite (Rltb_f (4/5) p1), Rltb_t by lra. destruct (Req_EM_T (4/5) 0); [lra|reflexivity].
Qed.

(** Both actions have a probability of at least a quarter as long as their values are between 0 and 5. *)
Lemma select_two : forall n x kids g qt qf, (1 <= dvisits n)%Z ->
  est_q Bool.eqb tab_set n (d_off x) kids true = Ok qt -> est_q Bool.eqb tab_set n (d_off x) kids false = Ok qf -> 0 <= qt <= 5 -> 0 <= qf <= 5 ->
  gr g (nr g) = 0 \/ gr g (nr g) = 4/5 ->
  est_select Bool.eqb C M n x kids g = Ok (if Req_EM_T (gr g (nr g)) 0 then true else false, adv g).
Proof.
  intros n x kids g qt qf V Et Ef Bt Bf D. unfold est_select, action_distr. cbn [acts tab_conf all_q]. rewrite Et, Ef. cbn [bind].
  unfold ments_weights, ments_temp. cbn [mdecay tab_set mtemp norm_term weight_loop fold_left fst snd]. 
  assert (L : dbl_lowest < 0) by (unfold dbl_lowest; apply Ropp_lt_gt_0_contravar, IZR_lt; vm_compute; reflexivity).
  rewrite (Rltb_t dbl_lowest (qt / 5)) by lra. set (m := if Rltb (qt / 5) (qf / 5) then qf / 5 else qt / 5).
  cbn [mput lookup Bool.eqb]. unfold mix, ments_lambda. cbn [tab_set meps mroot_eps mmax_explore]. rewrite (Rltb_f 0 (-1)) by lra. rewrite andb_false_r.
  replace (dvisits n =? 0)%Z with false by (symmetry; apply Z.eqb_neq; lia).
  replace (0 / ln (IZR (dvisits n + 1))) with 0 by (unfold Rdiv; ring). rewrite (Rltb_f 1 0) by lra.
  cbn -[Rplus Rmult Rdiv Rminus IZR ments_eps sample_from_distribution Rltb exp INR].
  pose proof (exp_pos (qt / 5 - m)) as P1. pose proof (exp_pos (qf / 5 - m)) as P2.
  assert (R1 : forall a b, a - b <= 1 -> exp (a - m) <= 3 * exp (b - m)).
  { intros a b H. replace (a - m) with ((a - b) + (b - m)) by ring. rewrite exp_plus. apply Rmult_le_compat_r; [left; apply exp_pos|].
    apply Rle_trans with (2 := exp_le_3). destruct H as [H | ->]; [left; now apply exp_increasing|right; reflexivity]. }
  pose proof (R1 (qt / 5) (qf / 5) ltac:(lra)) as B1. pose proof (R1 (qf / 5) (qt / 5) ltac:(lra)) as B2.
  set (a := exp (qt / 5 - m)) in *. set (b := exp (qf / 5 - m)) in *.
  assert (Eps : 0 < ments_eps < 1/4).
  { unfold ments_eps. change (10 ^ 16)%Z with 10000000000000000%Z. lra. }
  assert (Sm : forall w, w * ((1 - 0) / (0 + a + b)) + 0 * (1 / INR 2) = w / (a + b)) by (intros w; unfold Rdiv; rewrite Rplus_0_l; ring).
  assert (Lo : forall u v, 0 < u -> 0 < v -> v <= 3 * u -> 1 / 4 <= u / (u + v)).
  { intros u v Hu Hv H. apply Rmult_le_reg_r with (u + v); [lra|]. unfold Rdiv at 2. rewrite Rmult_assoc, Rinv_l by lra. lra. }
  pose proof (Lo a b P1 P2 B2) as L1. pose proof (Lo b a P2 P1 B1) as L2. rewrite (Rplus_comm b a) in L2.
  assert (Sum : a / (a + b) + b / (a + b) = 1) by (field; lra).
  unfold mix_entry. cbn [tab_set mprior_w]. rewrite (Rltb_f 0 (-1)) by lra. cbn [bind]. rewrite !Sm.
  rewrite !Rltb_f by lra. cbn [bind fold_left sample_actions morder tab_set]. apply draw_two; [lra|exact Sum|exact D].
Qed.
Lemma avg_one : forall a u, (0 < a)%Z -> avg_loop [(a, u)] = u.
Proof.
  intros a u H. unfold avg_loop, avg_step. cbn [fold_left fst snd]. replace (a =? 0)%Z with false by (symmetry; apply Z.eqb_neq; lia). cbn [fst].
  apply (IZR_lt 0) in H. field. lra.
Qed.
Lemma avg_two : forall a u b w, (0 < a)%Z -> (0 < b)%Z -> avg_loop [(a, u); (b, w)] = (IZR a * u + IZR b * w) / IZR (a + b).
Proof.
  intros a u b w Ha Hb. unfold avg_loop, avg_step. cbn [fold_left fst snd].
  replace (a =? 0)%Z with false by (symmetry; apply Z.eqb_neq; lia). replace (b =? 0)%Z with false by (symmetry; apply Z.eqb_neq; lia). cbn [fst snd].
  rewrite plus_IZR. apply (IZR_lt 0) in Ha, Hb. field. lra.
Qed.
(** Backups of the root succeed once it has a child that was backed up. *)
Lemma root_back : forall n x a0 c0 y0 kids, (0 < vnb y0)%Z -> exists x', forall ret, est_backup_d M n x ((a0, (c0, y0)) :: kids) ret = Ok x'.
Proof.
  intros n x a0 c0 y0 kids H. unfold est_backup_d, value_backup_d. cbn [tab_set muse_dp]. unfold dp_backup_d. cbn [members map fst snd].
  unfold dp_loop. cbn [fold_left]. unfold dp_step at 2. cbn [fst snd]. replace (vnb y0 =? 0)%Z with false by (symmetry; apply Z.eqb_neq; lia).
  match goal with |- context [fold_left ?f ?l (Some ?v)] => assert (E : forall l0 v0, exists v1, fold_left f l0 (Some v0) = Some v1) end.
  { induction l0 as [|p l0 IH]; intros v0; [eexists; reflexivity|]. cbn [fold_left]. unfold dp_step at 2.
    destruct (fst p =? 0)%Z; [apply IH|]. destruct (Rltb _ _); apply IH. }
  match goal with |- context [fold_left ?f ?l (Some ?v)] => destruct (E l v) as (v1 & ->) end.
  eexists. intros _. cbn [bind]. reflexivity.
Qed.

Notation runs := (arun Nat.eqb Bool.eqb C G [AStart 0; ARun 0; ARun 0; ARun 0; ARun 0; ARun 0; ARun 0]).
Notation K2 := [(2, 1)%nat]. Notation K1 := [(1, 2)%nat]. Notation K21 := [(2, 1)%nat; (1, 2)%nat]. Notation K12 := [(1, 2)%nat; (2, 1)%nat].
(** After draw [i] the edges were walked as often as [n01], [n02], [n11] and [n12] say, the end states were counted [b2] and [b1] times
    and the actions have the values [qf] and [qt]. *)
Definition sit (i : nat) (kf kt : list (nat * nat)) (n01 n02 n11 n12 b2 b1 : Z) (qf qt : R) (s : ast G) : Prop :=
  exists v vf vt w2 w1 tr xr x2 x1 yf yt g, s = us G v vf vt w2 w1 kf kt tr xr x2 x1 yf yt g /\ (0 <= v)%Z /\
    d_dp x2 = mkVm b2 0 /\ d_dp x1 = mkVm b1 4 /\ (0 < vnb yf)%Z /\ (0 < vnb yt)%Z /\ vq yf = qf /\ vq yt = qt /\ drawn i g /\
    count is_done tr = (n01 + n02 + n11 + n12)%Z /\ count (goes 0 1) tr = n01 /\ count (goes 0 2) tr = n02 /\ count (goes 1 1) tr = n11 /\ count (goes 1 2) tr = n12.
Notation chosen i := (if Req_EM_T (tab_draw i) 0 then true else false).
Lemma drawn_adv : forall i g, drawn i g -> drawn (Datatypes.S i) (adv g).
Proof. intros i g (E1 & E2 & E3). unfold drawn. cbn. rewrite E3. auto. Qed.
Lemma draws : forall i, tab_draw i = 0 \/ tab_draw i = 4/5.
Proof.
  intros i. unfold tab_draw. pose proof (Nat.mod_upper_bound i 16 ltac:(lia)) as H. generalize dependent (i mod 16)%nat. intros j H.
  do 16 (destruct j as [|j]; [cbn; auto|]). lia.
Qed.
Lemma selects : forall n x kids i g qt qf, (1 <= dvisits n)%Z -> drawn i g ->
  est_q Bool.eqb tab_set n (d_off x) kids true = Ok qt -> est_q Bool.eqb tab_set n (d_off x) kids false = Ok qf -> 0 <= qt <= 5 -> 0 <= qf <= 5 ->
  select G n x kids Datatypes.tt g = Ok (chosen i, Datatypes.tt, adv g).
Proof.
  intros n x kids i g qt qf V (E1 & _ & E3) Et Ef Bt Bf. cbn [select MentsModel.est].
  rewrite (select_two n x kids g qt qf V Et Ef Bt Bf); rewrite E1, E3; [reflexivity|apply draws].
Qed.
Lemma samples_two : forall (n : @cnode nat bool) y i g, drawn i g -> sample G n y Datatypes.tt g = Ok (if chosen i then 1%nat else 2%nat, Datatypes.tt, adv g).
Proof.
  intros n y i g (E1 & _ & E3). cbn [sample MentsModel.est]. unfold ments_sample. cbn [mdistr tab_set].
  assert (D : gr g (nr g) = 0 \/ gr g (nr g) = 4/5) by (rewrite E1, E3; apply draws).
  destruct (cact n); rewrite draw_two by (auto; lra); cbn [bind]; rewrite E1, E3; destruct (Req_EM_T (tab_draw i) 0); reflexivity.
Qed.
Lemma back_value : forall n y kids b y', back_c G n y kids Datatypes.tt b = Ok y' -> 
  vnb y' = (vnb y + 1)%Z /\ vq y' = avg_loop (map (fun p => (v_nb (d_dp (snd (snd p))), v_val (d_dp (snd (snd p))))) kids) + mreward M (cstate n) (cact n).
Proof.
  intros n y kids b y' H. cbn [back_c MentsModel.est] in H. injection H as <-. unfold est_backup_c, value_backup_c. cbn [tab_set muse_dp dc_dp dp_backup_c v_nb v_val].
  split; [reflexivity|]. unfold members. rewrite map_map. reflexivity.
Qed.

(** One more trial. *)
Lemma P1_est : forall kids cx, peek_d G kids cx = None. Proof. reflexivity. Qed.
Lemma P2_est : forall kids cx, peek_c G kids cx = None. Proof. reflexivity. Qed.
Lemma P3_est : forall cx, inside G cx = false. Proof. reflexivity. Qed.
Lemma P4_est : forall cx, fin G cx = cx. Proof. reflexivity. Qed.
Lemma visited_dp : forall leaf x, d_dp (dents_visit leaf x) = mkVm (if leaf then v_nb (d_dp x) + 1 else v_nb (d_dp x))%Z (v_val (d_dp x)).
Proof. intros [] x; cbn; [reflexivity|destruct (d_dp x); reflexivity]. Qed.
Lemma step_f2 : forall i n01 n02 n11 n12 b2 b1 qf qt s, sit i K21 K12 n01 n02 n11 n12 b2 b1 qf qt s -> chosen i = false -> chosen (Datatypes.S i) = false ->
  (0 < b2)%Z -> (0 < b1)%Z -> 0 <= qf <= 5 -> 0 <= qt <= 5 ->
  exists s', runs s = Some s' /\ sit (Datatypes.S (Datatypes.S i)) K21 K12 (1 + n01) n02 n11 n12 (b2 + 1) b1 (4 * IZR b1 / IZR (b2 + b1 + 1) + 1) qt s'.
Proof.
  intros i n01 n02 n11 n12 b2 b1 qf qt s (v & vf & vt & w2 & w1 & tr & xr & x2 & x1 & yf & yt & g & -> & Hv & E2 & E1 & Nf & Nt & <- & <- & D & C0 & C1 & C2 & C3 & C4) Ca Co B2 B1 Bf Bt.
  set (yn := est_backup_c M (chn false (vf + 1) K21) yf [(2%nat, (leafn 2 (w2 + 1), vis_d G true x2)); (1%nat, (leafn 1 w1, x1))] 0).
  assert (Y : forall b, back_c G (chn false (vf + 1) K21) yf [(2%nat, (leafn 2 (w2 + 1), vis_d G true x2)); (1%nat, (leafn 1 w1, x1))] Datatypes.tt b = Ok yn) by reflexivity.
  destruct (back_value _ _ _ (mkArgs [] [] 0 0) _ (Y _)) as (Yn & Yq).
  destruct (root_back (rootn (v + 1) [(false, 0%nat); (true, 1%nat)]) (vis_d G false xr) false (chn false (vf + 1) K21) yn [(true, (chn true vt K12, yt))] ltac:(lia)) as (xn & X).
  destruct (later_f2 G P1_est P2_est P3_est P4_est v vf vt w2 w1 tr xr x2 x1 yf yt g (adv g) (adv (adv g)) yn xn) as (tr' & Rn & Ad & Ae).
  - erewrite (selects _ _ _ i _ (vq yt) (vq yf)); [rewrite Ca; reflexivity|cbn; lia|exact D|cbn; f_equal; unfold dents_est, opp_coeff; cbn; ring|cbn; f_equal; unfold dents_est, opp_coeff; cbn; ring|auto|auto].
  - rewrite (samples_two _ _ (Datatypes.S i) _ (drawn_adv _ _ D)), Co. reflexivity.
  - exact Y.
  - intros b. apply X.
  - eexists. split; [exact Rn|]. unfold sit. do 12 eexists. split; [reflexivity|].
    cbn [vis_d MentsModel.est] in *. rewrite !visited_dp, ?E1, ?E2. cbn [v_nb v_val].
    split; [lia|]. do 2 (split; [reflexivity|]). split; [lia|]. split; [lia|].
    rewrite Ad, !Ae, C0, C1, C2, C3, C4. cbn [one Nat.eqb andb].
    match goal with |- ?P /\ ?Q /\ _ => assert (EQ : P /\ Q) end.
    { split; auto; rewrite Yq; cbn [map snd cstate cact chn mreward tab_set]; rewrite !visited_dp, ?E1, ?E2; cbn [v_nb v_val]; rewrite avg_two by lia;
      rewrite ?plus_IZR; apply (IZR_lt 0) in B1, B2; field; lra. }
    destruct EQ as [EQ1 EQ2]. split; [exact EQ1|]. split; [exact EQ2|]. split; [apply drawn_adv, drawn_adv, D|].
    repeat split; unfold one; cbn; lia.
Qed.
Lemma step_t1 : forall i n01 n02 n11 n12 b2 b1 qf qt s, sit i K21 K12 n01 n02 n11 n12 b2 b1 qf qt s -> chosen i = true -> chosen (Datatypes.S i) = true ->
  (0 < b2)%Z -> (0 < b1)%Z -> 0 <= qf <= 5 -> 0 <= qt <= 5 ->
  exists s', runs s = Some s' /\ sit (Datatypes.S (Datatypes.S i)) K21 K12 n01 n02 n11 (1 + n12) b2 (b1 + 1) qf (4 * IZR (b1 + 1) / IZR (b2 + b1 + 1)) s'.
Proof.
  intros i n01 n02 n11 n12 b2 b1 qf qt s (v & vf & vt & w2 & w1 & tr & xr & x2 & x1 & yf & yt & g & -> & Hv & E2 & E1 & Nf & Nt & <- & <- & D & C0 & C1 & C2 & C3 & C4) Ca Co B2 B1 Bf Bt.
  set (yn := est_backup_c M (chn true (vt + 1) K12) yt [(1%nat, (leafn 1 (w1 + 1), vis_d G true x1)); (2%nat, (leafn 2 w2, x2))] 0).
  assert (Y : forall b, back_c G (chn true (vt + 1) K12) yt [(1%nat, (leafn 1 (w1 + 1), vis_d G true x1)); (2%nat, (leafn 2 w2, x2))] Datatypes.tt b = Ok yn) by reflexivity.
  destruct (back_value _ _ _ (mkArgs [] [] 0 0) _ (Y _)) as (Yn & Yq).
  destruct (root_back (rootn (v + 1) [(false, 0%nat); (true, 1%nat)]) (vis_d G false xr) false (chn false vf K21) yf [(true, (chn true (vt + 1) K12, yn))] ltac:(lia)) as (xn & X).
  destruct (later_t1 G P1_est P2_est P3_est P4_est v vf vt w2 w1 tr xr x2 x1 yf yt g (adv g) (adv (adv g)) yn xn) as (tr' & Rn & Ad & Ae).
  - erewrite (selects _ _ _ i _ (vq yt) (vq yf)); [rewrite Ca; reflexivity|cbn; lia|exact D|cbn; f_equal; unfold dents_est, opp_coeff; cbn; ring|cbn; f_equal; unfold dents_est, opp_coeff; cbn; ring|auto|auto].
  - rewrite (samples_two _ _ (Datatypes.S i) _ (drawn_adv _ _ D)), Co. reflexivity.
  - exact Y.
  - intros b. apply X.
  - eexists. split; [exact Rn|]. unfold sit. do 12 eexists. split; [reflexivity|].
    cbn [vis_d MentsModel.est] in *. rewrite !visited_dp, ?E1, ?E2. cbn [v_nb v_val].
    split; [lia|]. do 2 (split; [reflexivity|]). split; [lia|]. split; [lia|].
    rewrite Ad, !Ae, C0, C1, C2, C3, C4. cbn [one Nat.eqb andb].
    match goal with |- ?P /\ ?Q /\ _ => assert (EQ : P /\ Q) end.
    { split; auto; rewrite Yq; cbn [map snd cstate cact chn mreward tab_set]; rewrite !visited_dp, ?E1, ?E2; cbn [v_nb v_val]; rewrite avg_two by lia;
      rewrite ?plus_IZR; apply (IZR_lt 0) in B1, B2; field; lra. }
    destruct EQ as [EQ1 EQ2]. split; [exact EQ1|]. split; [exact EQ2|]. split; [apply drawn_adv, drawn_adv, D|].
    repeat split; unfold one; cbn; lia.
Qed.
Lemma step_f1 : forall i n01 n02 n11 n12 b2 b1 qf qt s, sit i K21 K12 n01 n02 n11 n12 b2 b1 qf qt s -> chosen i = false -> chosen (Datatypes.S i) = true ->
  (0 < b2)%Z -> (0 < b1)%Z -> 0 <= qf <= 5 -> 0 <= qt <= 5 ->
  exists s', runs s = Some s' /\ sit (Datatypes.S (Datatypes.S i)) K21 K12 n01 (1 + n02) n11 n12 b2 (b1 + 1) (4 * IZR (b1 + 1) / IZR (b2 + b1 + 1) + 1) qt s'.
Proof.
  intros i n01 n02 n11 n12 b2 b1 qf qt s (v & vf & vt & w2 & w1 & tr & xr & x2 & x1 & yf & yt & g & -> & Hv & E2 & E1 & Nf & Nt & <- & <- & D & C0 & C1 & C2 & C3 & C4) Ca Co B2 B1 Bf Bt.
  set (yn := est_backup_c M (chn false (vf + 1) K21) yf [(2%nat, (leafn 2 w2, x2)); (1%nat, (leafn 1 (w1 + 1), vis_d G true x1))] 0).
  assert (Y : forall b, back_c G (chn false (vf + 1) K21) yf [(2%nat, (leafn 2 w2, x2)); (1%nat, (leafn 1 (w1 + 1), vis_d G true x1))] Datatypes.tt b = Ok yn) by reflexivity.
  destruct (back_value _ _ _ (mkArgs [] [] 0 0) _ (Y _)) as (Yn & Yq).
  destruct (root_back (rootn (v + 1) [(false, 0%nat); (true, 1%nat)]) (vis_d G false xr) false (chn false (vf + 1) K21) yn [(true, (chn true vt K12, yt))] ltac:(lia)) as (xn & X).
  destruct (later_f1 G P1_est P2_est P3_est P4_est v vf vt w2 w1 tr xr x2 x1 yf yt g (adv g) (adv (adv g)) yn xn) as (tr' & Rn & Ad & Ae).
  - erewrite (selects _ _ _ i _ (vq yt) (vq yf)); [rewrite Ca; reflexivity|cbn; lia|exact D|cbn; f_equal; unfold dents_est, opp_coeff; cbn; ring|cbn; f_equal; unfold dents_est, opp_coeff; cbn; ring|auto|auto].
  - rewrite (samples_two _ _ (Datatypes.S i) _ (drawn_adv _ _ D)), Co. reflexivity.
  - exact Y.
  - intros b. apply X.
  - eexists. split; [exact Rn|]. unfold sit. do 12 eexists. split; [reflexivity|].
    cbn [vis_d MentsModel.est] in *. rewrite !visited_dp, ?E1, ?E2. cbn [v_nb v_val].
    split; [lia|]. do 2 (split; [reflexivity|]). split; [lia|]. split; [lia|].
    rewrite Ad, !Ae, C0, C1, C2, C3, C4. cbn [one Nat.eqb andb].
    match goal with |- ?P /\ ?Q /\ _ => assert (EQ : P /\ Q) end.
    { split; auto; rewrite Yq; cbn [map snd cstate cact chn mreward tab_set]; rewrite !visited_dp, ?E1, ?E2; cbn [v_nb v_val]; rewrite avg_two by lia;
      rewrite ?plus_IZR; apply (IZR_lt 0) in B1, B2; field; lra. }
    destruct EQ as [EQ1 EQ2]. split; [exact EQ1|]. split; [exact EQ2|]. split; [apply drawn_adv, drawn_adv, D|].
    repeat split; unfold one; cbn; lia.
Qed.
Lemma step_t2 : forall i n01 n02 n11 n12 b2 b1 qf qt s, sit i K21 K12 n01 n02 n11 n12 b2 b1 qf qt s -> chosen i = true -> chosen (Datatypes.S i) = false ->
  (0 < b2)%Z -> (0 < b1)%Z -> 0 <= qf <= 5 -> 0 <= qt <= 5 ->
  exists s', runs s = Some s' /\ sit (Datatypes.S (Datatypes.S i)) K21 K12 n01 n02 (1 + n11) n12 (b2 + 1) b1 qf (4 * IZR b1 / IZR (b2 + b1 + 1)) s'.
Proof.
  intros i n01 n02 n11 n12 b2 b1 qf qt s (v & vf & vt & w2 & w1 & tr & xr & x2 & x1 & yf & yt & g & -> & Hv & E2 & E1 & Nf & Nt & <- & <- & D & C0 & C1 & C2 & C3 & C4) Ca Co B2 B1 Bf Bt.
  set (yn := est_backup_c M (chn true (vt + 1) K12) yt [(1%nat, (leafn 1 w1, x1)); (2%nat, (leafn 2 (w2 + 1), vis_d G true x2))] 0).
  assert (Y : forall b, back_c G (chn true (vt + 1) K12) yt [(1%nat, (leafn 1 w1, x1)); (2%nat, (leafn 2 (w2 + 1), vis_d G true x2))] Datatypes.tt b = Ok yn) by reflexivity.
  destruct (back_value _ _ _ (mkArgs [] [] 0 0) _ (Y _)) as (Yn & Yq).
  destruct (root_back (rootn (v + 1) [(false, 0%nat); (true, 1%nat)]) (vis_d G false xr) false (chn false vf K21) yf [(true, (chn true (vt + 1) K12, yn))] ltac:(lia)) as (xn & X).
  destruct (later_t2 G P1_est P2_est P3_est P4_est v vf vt w2 w1 tr xr x2 x1 yf yt g (adv g) (adv (adv g)) yn xn) as (tr' & Rn & Ad & Ae).
  - erewrite (selects _ _ _ i _ (vq yt) (vq yf)); [rewrite Ca; reflexivity|cbn; lia|exact D|cbn; f_equal; unfold dents_est, opp_coeff; cbn; ring|cbn; f_equal; unfold dents_est, opp_coeff; cbn; ring|auto|auto].
  - rewrite (samples_two _ _ (Datatypes.S i) _ (drawn_adv _ _ D)), Co. reflexivity.
  - exact Y.
  - intros b. apply X.
  - eexists. split; [exact Rn|]. unfold sit. do 12 eexists. split; [reflexivity|].
    cbn [vis_d MentsModel.est] in *. rewrite !visited_dp, ?E1, ?E2. cbn [v_nb v_val].
    split; [lia|]. do 2 (split; [reflexivity|]). split; [lia|]. split; [lia|].
    rewrite Ad, !Ae, C0, C1, C2, C3, C4. cbn [one Nat.eqb andb].
    match goal with |- ?P /\ ?Q /\ _ => assert (EQ : P /\ Q) end.
    { split; auto; rewrite Yq; cbn [map snd cstate cact chn mreward tab_set]; rewrite !visited_dp, ?E1, ?E2; cbn [v_nb v_val]; rewrite avg_two by lia;
      rewrite ?plus_IZR; apply (IZR_lt 0) in B1, B2; field; lra. }
    destruct EQ as [EQ1 EQ2]. split; [exact EQ1|]. split; [exact EQ2|]. split; [apply drawn_adv, drawn_adv, D|].
    repeat split; unfold one; cbn; lia.
Qed.
Lemma step3 : forall i n01 n02 n11 n12 b2 b1 qf qt s, sit i K2 K1 n01 n02 n11 n12 b2 b1 qf qt s -> chosen i = false -> chosen (Datatypes.S i) = true ->
  (0 < b2)%Z -> (0 < b1)%Z -> 0 <= qf <= 5 -> 0 <= qt <= 5 ->
  exists s', runs s = Some s' /\ sit (Datatypes.S (Datatypes.S i)) K21 K1 n01 (1 + n02) n11 n12 b2 (b1 + 1) (4 * IZR (b1 + 1) / IZR (b2 + b1 + 1) + 1) qt s'.
Proof.
  intros i n01 n02 n11 n12 b2 b1 qf qt s (v & vf & vt & w2 & w1 & tr & xr & x2 & x1 & yf & yt & g & -> & Hv & E2 & E1 & Nf & Nt & <- & <- & D & C0 & C1 & C2 & C3 & C4) Ca Co B2 B1 Bf Bt.
  set (yn := est_backup_c M (chn false (vf + 1) K21) yf [(2%nat, (leafn 2 w2, x2)); (1%nat, (leafn 1 (w1 + 1), vis_d G true x1))] 0).
  assert (Y : forall b, back_c G (chn false (vf + 1) K21) yf [(2%nat, (leafn 2 w2, x2)); (1%nat, (leafn 1 (w1 + 1), vis_d G true x1))] Datatypes.tt b = Ok yn) by reflexivity.
  destruct (back_value _ _ _ (mkArgs [] [] 0 0) _ (Y _)) as (Yn & Yq).
  destruct (root_back (rootn (v + 1) [(false, 0%nat); (true, 1%nat)]) (vis_d G false xr) false (chn false (vf + 1) K21) yn [(true, (chn true vt K1, yt))] ltac:(lia)) as (xn & X).
  destruct (trial3 G P1_est P2_est P3_est P4_est v vf vt w2 w1 tr xr x2 x1 yf yt g (adv g) (adv (adv g)) yn xn) as (tr' & Rn & Ad & Ae).
  - erewrite (selects _ _ _ i _ (vq yt) (vq yf)); [rewrite Ca; reflexivity|cbn; lia|exact D|cbn; f_equal; unfold dents_est, opp_coeff; cbn; ring|cbn; f_equal; unfold dents_est, opp_coeff; cbn; ring|auto|auto].
  - rewrite (samples_two _ _ (Datatypes.S i) _ (drawn_adv _ _ D)), Co. reflexivity.
  - exact Y.
  - intros b. apply X.
  - eexists. split; [exact Rn|]. unfold sit. do 12 eexists. split; [reflexivity|].
    cbn [vis_d MentsModel.est] in *. rewrite !visited_dp, ?E1, ?E2. cbn [v_nb v_val].
    split; [lia|]. do 2 (split; [reflexivity|]). split; [lia|]. split; [lia|].
    rewrite Ad, !Ae, C0, C1, C2, C3, C4. cbn [one Nat.eqb andb].
    match goal with |- ?P /\ ?Q /\ _ => assert (EQ : P /\ Q) end.
    { split; auto; rewrite Yq; cbn [map snd cstate cact chn mreward tab_set]; rewrite !visited_dp, ?E1, ?E2; cbn [v_nb v_val]; rewrite avg_two by lia;
      rewrite ?plus_IZR; apply (IZR_lt 0) in B1, B2; field; lra. }
    destruct EQ as [EQ1 EQ2]. split; [exact EQ1|]. split; [exact EQ2|]. split; [apply drawn_adv, drawn_adv, D|].
    repeat split; unfold one; cbn; lia.
Qed.
Lemma step4 : forall i n01 n02 n11 n12 b2 b1 qf qt s, sit i K21 K1 n01 n02 n11 n12 b2 b1 qf qt s -> chosen i = true -> chosen (Datatypes.S i) = false ->
  (0 < b2)%Z -> (0 < b1)%Z -> 0 <= qf <= 5 -> 0 <= qt <= 5 ->
  exists s', runs s = Some s' /\ sit (Datatypes.S (Datatypes.S i)) K21 K12 n01 n02 (1 + n11) n12 (b2 + 1) b1 qf (4 * IZR b1 / IZR (b2 + b1 + 1)) s'.
Proof.
  intros i n01 n02 n11 n12 b2 b1 qf qt s (v & vf & vt & w2 & w1 & tr & xr & x2 & x1 & yf & yt & g & -> & Hv & E2 & E1 & Nf & Nt & <- & <- & D & C0 & C1 & C2 & C3 & C4) Ca Co B2 B1 Bf Bt.
  set (yn := est_backup_c M (chn true (vt + 1) K12) yt [(1%nat, (leafn 1 w1, x1)); (2%nat, (leafn 2 (w2 + 1), vis_d G true x2))] 0).
  assert (Y : forall b, back_c G (chn true (vt + 1) K12) yt [(1%nat, (leafn 1 w1, x1)); (2%nat, (leafn 2 (w2 + 1), vis_d G true x2))] Datatypes.tt b = Ok yn) by reflexivity.
  destruct (back_value _ _ _ (mkArgs [] [] 0 0) _ (Y _)) as (Yn & Yq).
  destruct (root_back (rootn (v + 1) [(false, 0%nat); (true, 1%nat)]) (vis_d G false xr) false (chn false vf K21) yf [(true, (chn true (vt + 1) K12, yn))] ltac:(lia)) as (xn & X).
  destruct (trial4 G P1_est P2_est P3_est P4_est v vf vt w2 w1 tr xr x2 x1 yf yt g (adv g) (adv (adv g)) yn xn) as (tr' & Rn & Ad & Ae).
  - erewrite (selects _ _ _ i _ (vq yt) (vq yf)); [rewrite Ca; reflexivity|cbn; lia|exact D|cbn; f_equal; unfold dents_est, opp_coeff; cbn; ring|cbn; f_equal; unfold dents_est, opp_coeff; cbn; ring|auto|auto].
  - rewrite (samples_two _ _ (Datatypes.S i) _ (drawn_adv _ _ D)), Co. reflexivity.
  - exact Y.
  - intros b. apply X.
  - eexists. split; [exact Rn|]. unfold sit. do 12 eexists. split; [reflexivity|].
    cbn [vis_d MentsModel.est] in *. rewrite !visited_dp, ?E1, ?E2. cbn [v_nb v_val].
    split; [lia|]. do 2 (split; [reflexivity|]). split; [lia|]. split; [lia|].
    rewrite Ad, !Ae, C0, C1, C2, C3, C4. cbn [one Nat.eqb andb].
    match goal with |- ?P /\ ?Q /\ _ => assert (EQ : P /\ Q) end.
    { split; auto; rewrite Yq; cbn [map snd cstate cact chn mreward tab_set]; rewrite !visited_dp, ?E1, ?E2; cbn [v_nb v_val]; rewrite avg_two by lia;
      rewrite ?plus_IZR; apply (IZR_lt 0) in B1, B2; field; lra. }
    destruct EQ as [EQ1 EQ2]. split; [exact EQ1|]. split; [exact EQ2|]. split; [apply drawn_adv, drawn_adv, D|].
    repeat split; unfold one; cbn; lia.
Qed.
(** The first two trials. *)
Lemma begins : exists s, arun Nat.eqb Bool.eqb C G ([AStart 0; ARun 0; ARun 0; ARun 0; ARun 0; ARun 0; ARun 0] ++ [AStart 0; ARun 0; ARun 0; ARun 0; ARun 0; ARun 0; ARun 0]) (ainit C G 1 tab_g) = Some s /\
  sit 4 K2 K1 1 0 0 1 2 2 1 4 s.
Proof.
  assert (D : drawn 0 tab_g) by (repeat split).
  assert (Ch : chosen 0 = false /\ chosen 1 = false /\ chosen 2 = true /\ chosen 3 = true).
  { unfold tab_draw. cbn. destruct (Req_EM_T (4/5) 0); [lra|]. destruct (Req_EM_T 0 0); [auto|lra]. }
  destruct Ch as (Ch0 & Ch1 & Ch2 & Ch3).
  set (xo := vis_d G true (new_xd G (leafn 2 0))). set (xr := vis_d G false (new_xd G (rootn 0 []))).
  set (y1 := est_backup_c M (chn false 1 K2) (new_xc G (chn false 0 [])) [(2%nat, (leafn 2 1, xo))] 0).
  assert (Y1 : forall b, back_c G (chn false 1 K2) (new_xc G (chn false 0 [])) [(2%nat, (leafn 2 1, xo))] Datatypes.tt b = Ok y1) by reflexivity.
  destruct (back_value _ _ _ (mkArgs [] [] 0 0) _ (Y1 _)) as (Yn1 & Yq1).
  assert (Q1 : vq y1 = 1). { rewrite Yq1. cbn [map snd]. unfold xo. cbn [vis_d MentsModel.est]. rewrite visited_dp. cbn [v_nb v_val new_xd MentsModel.est dents_new_d d_dp dp_new_d dheur leafn]. rewrite avg_one by lia. cbn. ring. }
  destruct (root_back (rootn 1 [(false, 0%nat)]) xr false (chn false 1 K2) y1 [] ltac:(rewrite Yn1; cbn; lia)) as (r1 & X1).
  assert (UQ : forall n x kids a, lookup Bool.eqb a kids = None -> est_q Bool.eqb M n (d_off x) kids a = Ok 0).
  { intros n x kids a L. unfold est_q. rewrite L. cbn. unfold opp_coeff. cbn. f_equal. ring. }
  assert (KQ : forall n x kids a c0 y0 q, lookup Bool.eqb a kids = Some (c0, y0) -> vq y0 = q -> est_q Bool.eqb M n (d_off x) kids a = Ok q).
  { intros n x kids a c0 y0 q L <-. unfold est_q. rewrite L. unfold dents_est, opp_coeff. cbn [tab_set muse_dp mtwo andb]. f_equal. ring. }
  destruct (trial1 G P1_est P2_est P3_est P4_est tab_g (adv tab_g) (adv (adv tab_g)) y1 r1) as (t1 & R1 & A1 & B1).
  { erewrite (selects _ _ _ 0 _ 0 0); [rewrite Ch0; reflexivity|cbn; lia|exact D|apply UQ; reflexivity|apply UQ; reflexivity|lra|lra]. }
  { rewrite (samples_two _ _ 1 _ (drawn_adv _ _ D)), Ch1. reflexivity. }
  { exact Y1. } { intros b. apply X1. }
  set (xp := vis_d G true (new_xd G (leafn 1 0))). set (xr' := vis_d G false r1).
  set (y2 := est_backup_c M (chn true 1 K1) (new_xc G (chn true 0 [])) [(1%nat, (leafn 1 1, xp))] 0).
  assert (Y2 : forall b, back_c G (chn true 1 K1) (new_xc G (chn true 0 [])) [(1%nat, (leafn 1 1, xp))] Datatypes.tt b = Ok y2) by reflexivity.
  destruct (back_value _ _ _ (mkArgs [] [] 0 0) _ (Y2 _)) as (Yn2 & Yq2).
  assert (Q2 : vq y2 = 4). { rewrite Yq2. cbn [map snd]. unfold xp. cbn [vis_d MentsModel.est]. rewrite visited_dp. cbn [v_nb v_val new_xd MentsModel.est dents_new_d d_dp dp_new_d dheur leafn]. rewrite avg_one by lia. cbn. ring. }
  destruct (root_back (rootn (1 + 1) [(false, 0%nat); (true, 1%nat)]) xr' false (chn false 1 K2) y1 [(true, (chn true 1 K1, y2))] ltac:(rewrite Yn1; cbn; lia)) as (r2 & X2).
  pose proof (drawn_adv _ _ (drawn_adv _ _ D)) as D2.
  destruct (trial2 G P1_est P2_est P3_est P4_est 1 1 1 t1 r1 xo y1 (adv (adv tab_g)) (adv (adv (adv tab_g))) (adv (adv (adv (adv tab_g)))) y2 r2) as (t2 & R2 & A2 & B2).
  { erewrite (selects _ _ _ 2 _ 0 1); [rewrite Ch2; reflexivity|cbn; lia|exact D2|apply UQ; reflexivity|apply (KQ _ _ _ _ (chn false 1 K2) y1); [reflexivity|exact Q1]|lra|lra]. }
  { rewrite (samples_two _ _ 3 _ (drawn_adv _ _ D2)), Ch3. reflexivity. }
  { exact Y2. } { intros b. apply X2. }
  eexists. split; [rewrite (arun_app Nat.eqb Bool.eqb C G _ _ _ _ R1); exact R2|].
  unfold sit. do 12 eexists. split; [reflexivity|]. split; [lia|]. unfold xo, xp. cbn [vis_d MentsModel.est]. rewrite !visited_dp. split; [reflexivity|]. split; [reflexivity|].
  split; [rewrite Yn1; cbn; lia|]. split; [rewrite Yn2; cbn; lia|]. split; [exact Q1|]. split; [exact Q2|]. split; [apply drawn_adv, drawn_adv, D2|].
  rewrite A2, !B2, A1, !B1. repeat split.
Qed.

(** A round of eight trials. *)
Definition share (k : nat) : R := 4 * IZR (4 * Z.of_nat k + 1) / IZR (8 * Z.of_nat k + 1).
Definition after_round (k : nat) (s : ast G) : Prop :=
  let z := Z.of_nat k in sit (16 * k) K21 K12 (3 * z) z z (3 * z) (4 * z + 1) (4 * z + 1) 3 (share k) s.
Lemma chosen_at : forall k j, (j < 16)%nat -> tab_draw (16 * k + j) = tab_draw j.
Proof.
  intros k j H. unfold tab_draw. f_equal. rewrite (Nat.add_comm (16 * k)), (Nat.mul_comm 16), Nat.mod_add by lia. reflexivity.
Qed.
Lemma sit_eq : forall i i' kf kt n1 n2 n3 n4 b2 b1 qf qt m1 m2 m3 m4 e2 e1 rf rt s, sit i kf kt n1 n2 n3 n4 b2 b1 qf qt s ->
  i = i' -> n1 = m1 -> n2 = m2 -> n3 = m3 -> n4 = m4 -> b2 = e2 -> b1 = e1 -> qf = rf -> qt = rt -> sit i' kf kt m1 m2 m3 m4 e2 e1 rf rt s.
Proof. intros. subst. assumption. Qed.
Lemma share_range : forall x y, (0 < x)%Z -> (0 < y)%Z -> 0 <= 4 * IZR x / IZR (y + x) <= 4.
Proof.
  intros x y Hx Hy. apply (IZR_lt 0) in Hx, Hy. rewrite plus_IZR. split.
  - apply Rmult_le_pos; [lra|]. left. apply Rinv_0_lt_compat. lra.
  - apply Rmult_le_reg_r with (IZR y + IZR x); [lra|]. unfold Rdiv. rewrite Rmult_assoc, Rinv_l by lra. lra.
Qed.
Lemma share_more : forall x y, (0 < x)%Z -> (0 < y)%Z -> 0 <= 4 * IZR (x + 1) / IZR (y + x + 1) <= 4.
Proof. intros x y Hx Hy. replace (y + x + 1)%Z with (y + (x + 1))%Z by ring. apply share_range; lia. Qed.
Lemma share_less : forall x y, (0 < x)%Z -> (0 < y)%Z -> 0 <= 4 * IZR x / IZR (y + x + 1) <= 4.
Proof. intros x y Hx Hy. replace (y + x + 1)%Z with (y + 1 + x)%Z by ring. apply share_range; lia. Qed.
Ltac ranged := repeat match goal with |- context [4 * IZR (?x + 1) / IZR (?y + ?x + 1)] => pose proof (share_more x y ltac:(lia) ltac:(lia)); generalize dependent (4 * IZR (x + 1) / IZR (y + x + 1)); intros
   | |- context [4 * IZR ?x / IZR (?y + ?x + 1)] => pose proof (share_less x y ltac:(lia) ltac:(lia)); generalize dependent (4 * IZR x / IZR (y + x + 1)); intros end; lra.
Notation trial_of := [AStart 0; ARun 0; ARun 0; ARun 0; ARun 0; ARun 0; ARun 0].
Lemma choices : forall k, chosen (16 * k) = false /\ chosen (16 * k + 1) = false /\ chosen (16 * k + 2) = true /\ chosen (16 * k + 3) = true /\
  chosen (16 * k + 4) = false /\ chosen (16 * k + 5) = true /\ chosen (16 * k + 6) = true /\ chosen (16 * k + 7) = false /\
  chosen (16 * k + 8) = true /\ chosen (16 * k + 9) = true /\ chosen (16 * k + 10) = false /\ chosen (16 * k + 11) = false /\
  chosen (16 * k + 12) = true /\ chosen (16 * k + 13) = true /\ chosen (16 * k + 14) = false /\ chosen (16 * k + 15) = false.
Proof.
  intros k. pose proof (chosen_at k 0 ltac:(lia)) as E. rewrite Nat.add_0_r in E. rewrite E.
  rewrite !chosen_at by lia. unfold tab_draw. cbn. destruct (Req_EM_T (4/5) 0); [lra|]. destruct (Req_EM_T 0 0); [|lra]. repeat split.
Qed.
Ltac next L H s R := let X := fresh "X" in let s' := fresh s in
  edestruct L as (s' & R & X); [eapply H|..].
(** The last four trials of a round. *)
Lemma closes : forall k z s qf, z = Z.of_nat k -> sit (16 * k + 8) K21 K12 (3 * z + 1) (z + 1) (z + 1) (3 * z + 1) (4 * z + 3) (4 * z + 3) qf 2 s -> 0 <= qf <= 5 ->
  exists s', arun Nat.eqb Bool.eqb C G (trial_of ++ trial_of ++ trial_of ++ trial_of) s = Some s' /\ after_round (Datatypes.S k) s'.
Proof.
  intros k z s qf Ez S0 Bq. destruct (choices k) as (_ & _ & _ & _ & _ & _ & _ & _ & C8 & C9 & C10 & C11 & C12 & C13 & C14 & C15).
  assert (Zp : (0 <= z)%Z) by lia.
  replace (16 * k + 9)%nat with (Datatypes.S (16 * k + 8)) in C9 by lia. replace (16 * k + 10)%nat with (Datatypes.S (Datatypes.S (16 * k + 8))) in C10 by lia.
  replace (16 * k + 11)%nat with (Datatypes.S (Datatypes.S (Datatypes.S (16 * k + 8)))) in C11 by lia.
  replace (16 * k + 12)%nat with (Datatypes.S (Datatypes.S (Datatypes.S (Datatypes.S (16 * k + 8))))) in C12 by lia.
  replace (16 * k + 13)%nat with (Datatypes.S (Datatypes.S (Datatypes.S (Datatypes.S (Datatypes.S (16 * k + 8)))))) in C13 by lia.
  replace (16 * k + 14)%nat with (Datatypes.S (Datatypes.S (Datatypes.S (Datatypes.S (Datatypes.S (Datatypes.S (16 * k + 8))))))) in C14 by lia.
  replace (16 * k + 15)%nat with (Datatypes.S (Datatypes.S (Datatypes.S (Datatypes.S (Datatypes.S (Datatypes.S (Datatypes.S (16 * k + 8)))))))) in C15 by lia.
  destruct (step_t1 _ _ _ _ _ _ _ _ _ _ S0 C8 C9 ltac:(lia) ltac:(lia) ltac:(lra) ltac:(lra)) as (s1 & R1 & S1).
  destruct (step_f2 _ _ _ _ _ _ _ _ _ _ S1 C10 C11 ltac:(lia) ltac:(lia) ltac:(lra) ltac:(ranged)) as (s2 & R2 & S2).
  destruct (step_t1 _ _ _ _ _ _ _ _ _ _ S2 C12 C13 ltac:(lia) ltac:(lia) ltac:(ranged) ltac:(ranged)) as (s3 & R3 & S3).
  destruct (step_f2 _ _ _ _ _ _ _ _ _ _ S3 C14 C15 ltac:(lia) ltac:(lia) ltac:(ranged) ltac:(ranged)) as (s4 & R4 & S4).
  exists s4. split.
  - rewrite (arun_app _ _ C G _ _ _ _ R1), (arun_app _ _ C G _ _ _ _ R2), (arun_app _ _ C G _ _ _ _ R3). exact R4.
  - unfold after_round. cbv zeta. eapply sit_eq; [exact S4|lia|lia|lia|lia|lia|lia|lia| |].
    + replace (4 * z + 3 + 1 + (4 * z + 3 + 1 + 1) + 1)%Z with (2 * (4 * z + 5))%Z by ring. replace (4 * z + 3 + 1 + 1)%Z with (4 * z + 5)%Z by ring.
      assert (P : 0 < IZR (4 * z + 5)) by (apply IZR_lt; lia). rewrite mult_IZR. field. lra.
    + unfold share. f_equal; [f_equal; f_equal; lia|f_equal; f_equal; lia].
Qed.
Lemma round_one : exists s, areach Nat.eqb Bool.eqb C G 1 tab_g s /\ after_round 1 s.
Proof.
  destruct begins as (s0 & R0 & S0). destruct (choices 0) as (_ & _ & _ & _ & C4 & C5 & C6 & C7 & _). cbn [Nat.mul Nat.add] in *.
  destruct (step3 _ _ _ _ _ _ _ _ _ _ S0 C4 C5 ltac:(lia) ltac:(lia) ltac:(lra) ltac:(lra)) as (s1 & R1 & S1).
  destruct (step4 _ _ _ _ _ _ _ _ _ _ S1 C6 C7 ltac:(lia) ltac:(lia) ltac:(ranged) ltac:(lra)) as (s2 & R2 & S2).
  destruct (closes 0 0 s2 (4 * IZR 3 / IZR 5 + 1) eq_refl) as (s3 & R3 & S3); [|lra|].
  { eapply sit_eq; [exact S2|..]; try reflexivity. change (4 * IZR 3 / IZR 6 = 2). lra. }
  exists s3. split; [|exact S3]. exists ((trial_of ++ trial_of) ++ trial_of ++ trial_of ++ trial_of ++ trial_of ++ trial_of ++ trial_of). rewrite (arun_app _ _ C G _ _ _ _ R0), (arun_app _ _ C G _ _ _ _ R1), (arun_app _ _ C G _ _ _ _ R2). exact R3.
Qed.
Lemma round_more : forall k s, after_round k s -> (1 <= k)%nat -> exists ls s', arun Nat.eqb Bool.eqb C G ls s = Some s' /\ after_round (Datatypes.S k) s'.
Proof.
  intros k s S0 K1. destruct (choices k) as (C0 & C1 & C2 & C3 & C4 & C5 & C6 & C7 & _). unfold after_round in S0. cbv zeta in S0. remember (Z.of_nat k) as z eqn:Ez.
  assert (Sr : 0 <= share k <= 4).
  { unfold share. rewrite <- Ez. replace (8 * z + 1)%Z with (4 * z + (4 * z + 1))%Z by ring. apply share_range; lia. }
  replace (16 * k + 1)%nat with (Datatypes.S (16 * k)) in C1 by lia. replace (16 * k + 2)%nat with (Datatypes.S (Datatypes.S (16 * k))) in C2 by lia.
  replace (16 * k + 3)%nat with (Datatypes.S (Datatypes.S (Datatypes.S (16 * k)))) in C3 by lia.
  replace (16 * k + 4)%nat with (Datatypes.S (Datatypes.S (Datatypes.S (Datatypes.S (16 * k))))) in C4 by lia.
  replace (16 * k + 5)%nat with (Datatypes.S (Datatypes.S (Datatypes.S (Datatypes.S (Datatypes.S (16 * k)))))) in C5 by lia.
  replace (16 * k + 6)%nat with (Datatypes.S (Datatypes.S (Datatypes.S (Datatypes.S (Datatypes.S (Datatypes.S (16 * k))))))) in C6 by lia.
  replace (16 * k + 7)%nat with (Datatypes.S (Datatypes.S (Datatypes.S (Datatypes.S (Datatypes.S (Datatypes.S (Datatypes.S (16 * k)))))))) in C7 by lia.
  destruct (step_f2 _ _ _ _ _ _ _ _ _ _ S0 C0 C1 ltac:(lia) ltac:(lia) ltac:(lra) ltac:(lra)) as (s1 & R1 & S1).
  destruct (step_t1 _ _ _ _ _ _ _ _ _ _ S1 C2 C3 ltac:(lia) ltac:(lia) ltac:(ranged) ltac:(lra)) as (s2 & R2 & S2).
  destruct (step_f1 _ _ _ _ _ _ _ _ _ _ S2 C4 C5 ltac:(lia) ltac:(lia) ltac:(ranged) ltac:(ranged)) as (s3 & R3 & S3).
  destruct (step_t2 _ _ _ _ _ _ _ _ _ _ S3 C6 C7 ltac:(lia) ltac:(lia) ltac:(ranged) ltac:(ranged)) as (s4 & R4 & S4).
  edestruct (closes k z s4) as (s5 & R5 & S5); [exact Ez| | |].
  { eapply sit_eq; [exact S4|lia|lia|lia|lia|lia|lia|lia|reflexivity|].
    replace (4 * z + 1 + 1 + (4 * z + 1 + 1 + 1) + 1)%Z with (2 * (4 * z + 3))%Z by ring. replace (4 * z + 1 + 1 + 1)%Z with (4 * z + 3)%Z by ring.
    assert (P : 0 < IZR (4 * z + 3)) by (apply IZR_lt; lia). rewrite mult_IZR. field. lra. }
  { ranged. }
  exists (trial_of ++ trial_of ++ trial_of ++ trial_of ++ trial_of ++ trial_of ++ trial_of ++ trial_of), s5. split; [|exact S5].
  rewrite (arun_app _ _ C G _ _ _ _ R1), (arun_app _ _ C G _ _ _ _ R2), (arun_app _ _ C G _ _ _ _ R3), (arun_app _ _ C G _ _ _ _ R4). exact R5.
Qed.
Lemma rounds : forall k, (1 <= k)%nat -> exists s, areach Nat.eqb Bool.eqb C G 1 tab_g s /\ after_round k s.
Proof.
  induction k as [|k IH]; intros H; [lia|]. destruct k as [|k]; [exact round_one|].
  destruct (IH ltac:(lia)) as (s & (ls & R) & S1). destruct (round_more _ s S1 ltac:(lia)) as (ls' & s' & R' & S2).
  exists s'. split; [|exact S2]. exists (ls ++ ls'). rewrite (arun_app _ _ C G _ _ _ _ R). exact R'.
Qed.
