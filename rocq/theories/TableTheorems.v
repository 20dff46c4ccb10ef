(** Property theorems: what the transposition table does to the values of a search, C97. *)
From Coq Require Import List ZArith Bool Reals Lia Lra.
From Verif Require Import Base BaseProofs NumOps MapModel HelperModel HelperSpec EngineModel EngineSpec AlgoModel UctModel MentsModel SoftSpec MentsSpec TentsSpec TreeSpec PickSpec EngineResults AlgoTheorems EngineTheorems UctTheorems
  LseReal WorldSpec WorldExamples WorldTheorems TableSpec TableFair TableProofs TableResults.
Import ListNotations.
Open Scope R_scope.

(** Without the table EST with dynamic programming values recommends nearly best actions. *)
Theorem C97_without_table : recommends_well false.
Proof. exact without_table. Qed.
Print Assumptions C97_without_table.

(** ** With the table *)
Lemma tab_env : env_ok tab_conf tab_set /\ ments_ok tab_conf tab_set.
Proof.
  split.
  - split; cbn; [discriminate| |intros s a _ _|lia|lia].
    + intros _. repeat constructor; cbn; intuition discriminate.
    + destruct a; (split; [intros k w [[= <- <-]|[[= <- <-]|[]]]; lra|cbn; lra]).
  - split; [intros; apply Permutation.Permutation_refl|]. intros s []; reflexivity.
Qed.
Lemma tab_bounds : world_bounds tab_conf tab_set 4 1.
Proof.
  split; [lra|]. split; [lra|]. split.
  - intros [|[|s]]; cbn; rewrite Rabs_pos_eq; lra.
  - intros s []; cbn; rewrite Rabs_pos_eq; lra.
Qed.
Lemma tab_worth : forall V v k, solves tab_conf tab_set greatest V ->
  WorldSpec.action_worth tab_conf tab_set V (rootn v k) false = 2 /\ WorldSpec.action_worth tab_conf tab_set V (rootn v k) true = 3 /\ V 1%nat 0%nat 0%Z = 3.
Proof.
  intros V v k Sv. pose proof (so_end _ _ _ _ Sv) as E. pose proof (so_step _ _ _ _ Sv 0 0%nat 0%Z eq_refl) as [(a & _ & Ea) Mx].
  assert (E1 : V 0%nat 1%nat (0 + 1)%Z = 4) by (apply E; reflexivity). assert (E2 : V 0%nat 2%nat (0 + 1)%Z = 0) by (apply E; reflexivity).
  unfold WorldSpec.action_worth, to_mover, expected, rsum_of in *. cbn in Ea, Mx |- *. change (0 + 1)%Z with 1%Z in *. change (left_at tab_conf (rootn v k) - 1)%nat with 0%nat.
  pose proof (Mx true ltac:(auto)) as M1. pose proof (Mx false ltac:(auto)) as M2. cbn in M1, M2. rewrite E1, E2 in *.
  destruct a; cbn in Ea; rewrite E1, E2 in Ea; repeat split; lra.
Qed.
Lemma tab_recommends : forall k s v vf vt w2 w1 tr xr x2 x1 yf yt g, (1 <= k)%nat ->
  s = us (MentsModel.est Bool.eqb tab_conf tab_set) v vf vt w2 w1 [(2, 1)%nat; (1, 2)%nat] [(1, 2)%nat; (2, 1)%nat] tr xr x2 x1 yf yt g ->
  (0 < v_nb (dc_dp yf))%Z -> (0 < v_nb (dc_dp yt))%Z -> v_val (dc_dp yf) = 3 -> v_val (dc_dp yt) = share k ->
  always (dents_recommend Bool.eqb tab_conf tab_set (rootn v [(false, 0%nat); (true, 1%nat)]) (dview s (rootn v [(false, 0%nat); (true, 1%nat)]))) (eq false).
Proof.
  intros k s v vf vt w2 w1 tr xr x2 x1 yf yt g K -> Nf Nt Qf Qt g1 _. exists false, g1. 
  assert (Sk : 0 <= share k < 3).
  { unfold share. remember (Z.of_nat k) as z. assert (1 <= z)%Z by lia. apply (IZR_le 1) in H. rewrite !plus_IZR, !mult_IZR. split.
    - apply Rmult_le_pos; [lra|left; apply Rinv_0_lt_compat; lra].
    - apply Rmult_lt_reg_r with (8 * IZR z + 1); [lra|]. unfold Rdiv. rewrite Rmult_assoc, Rinv_l by lra. lra. }
  assert (L : dbl_lowest < 0) by (unfold dbl_lowest; apply Ropp_lt_gt_0_contravar, IZR_lt; vm_compute; reflexivity).
  cbn [dview us st base mem ch rootn dkids flat_map snd nth_error xcs fst app]. unfold dents_recommend. cbn [tab_set mmost_visited muse_dp members map fst snd recommend_best].
  unfold recommend_value. cbn [filter mthreshold tab_set snd].
  replace (1 <=? v_nb (dc_dp yf))%Z with true by (symmetry; apply Z.leb_le; lia). replace (1 <=? v_nb (dc_dp yt))%Z with true by (symmetry; apply Z.leb_le; lia).
  cbn [negb map fst snd morder tab_set]. unfold opp_coeff. cbn [tab_set mtwo andb]. rewrite !Rmult_1_l, Qf, Qt.
  unfold get_max_key. cbn [best_keys_loop]. rewrite (Rltb_f 3 dbl_lowest), (Rltb_t dbl_lowest 3), (Rltb_t (share k) 3) by lra. repeat split.
Qed.
Lemma fair_mean : forall (a b : Z) (u w : R), (0 < a + b)%Z -> mean [(a, u); (b, w)] = (IZR a * u + IZR b * w) / IZR (a + b).
Proof.
  intros a b u w H. unfold mean. cbn [rsum_of map fold_right fst snd]. unfold rsum_of. cbn. apply (IZR_lt 0) in H. rewrite plus_IZR in *.
  destruct (Req_EM_T _ 0) as [E|_]; [lra|]. f_equal; ring.
Qed.

(** There is an environment in which a search with the table, however long, recommends an action worth 2 although another one is worth 3: after 8k trials
    each chance node was visited 4k times and its outcomes came exactly as often as they are likely. *)
Theorem C97_table : forall k, (1 <= k)%nat -> exists s node,
  areach Nat.eqb Bool.eqb tab_conf (MentsModel.est Bool.eqb tab_conf tab_set) 1 tab_g s /\ quiet (base s) /\ count is_done (etrace (base s)) = (8 * Z.of_nat k)%Z /\
  explored Bool.eqb tab_conf (mem (base s)) /\ well_sampled tab_set 0 (4 * Z.of_nat k) (base s) /\
  nth_error (dh (mem (base s))) 0 = Some node /\ dkids node <> [] /\ 
  always (dents_recommend Bool.eqb tab_conf tab_set node (dview s node)) (eq false) /\
  forall V, solves tab_conf tab_set greatest V ->
    WorldSpec.action_worth tab_conf tab_set V node false = 2 /\ WorldSpec.action_worth tab_conf tab_set V node true = 3 /\ V 1%nat (dstate node) (dtime node) = 3 /\ left_at tab_conf node = 1%nat.
Proof.
  intros k K. destruct (rounds k K) as (s & R & Af). exists s.
  destruct Af as (v & vf & vt & w2 & w1 & tr & xr & x2 & x1 & yf & yt & g & Es & Hv & E2 & E1 & Nf & Nt & Qf & Qt & D & C0 & C1 & C2 & C3 & C4).
  exists (rootn v [(false, 0%nat); (true, 1%nat)]). pose proof (tab_recommends k s v vf vt w2 w1 tr xr x2 x1 yf yt g K Es Nf Nt Qf Qt) as Rec.
  split; [exact R|]. split; [|split; [|split; [|split; [|split; [|split; [|split; [exact Rec|]]]]]]].
  - rewrite Es. intros [|[|t]] th; cbn; congruence.
  - rewrite Es. cbn [us st base etrace]. lia.
  - rewrite Es. intros [|[|[|d]]] n a H; cbn in H; [injection H as <-|injection H as <-|injection H as <-|destruct d; discriminate]; cbn; intros _ Hd; try lia. destruct a; cbn; discriminate.
  - pose proof (C10_idle' Nat.eqb Bool.eqb Nat.eqb_eq Bool.eqb_true_iff tab_conf 1 (base s) (C08_algorithms_run_the_engine _ _ _ _ _ _ _ R)) as Id. destruct Id as (_ & _ & _ & Cv & _).
    { rewrite Es. intros [|[|t]] th; cbn; congruence. }
    intros c x Hx. destruct (Cv c x Hx) as (_ & Ev). rewrite Es in Hx, Ev |- *. cbn [us st base mem ch etrace] in Hx, Ev |- *.
    set (z := Z.of_nat k) in *. assert (Zp : (1 <= z)%Z) by lia. assert (Rp : 1 <= IZR z) by (apply (IZR_le 1); exact Zp).
    destruct c as [|[|c]]; [injection Hx as <-|injection Hx as <-|destruct c; discriminate]; cbn [chn ckids sumZ snd cvisits] in Ev; rewrite ?C1, ?C2, ?C3, ?C4 in Ev; cbn [cvisits chn ckids map snd fst cstate cact mdistr tab_set];
      rewrite ?C1, ?C2, ?C3, ?C4; (split; [lia|]); intros f b Hf; rewrite fair_mean by lia; unfold expected, rsum_of; cbn [map fold_right fst snd];
      match goal with |- Rabs ?e <= _ => replace e with 0; [rewrite Rabs_R0; lra|] end; rewrite ?plus_IZR, ?mult_IZR; cbn [rsum]; field; lra.
  - rewrite Es. reflexivity.
  - discriminate.
  - intros V Sv. destruct (tab_worth V v [(false, 0%nat); (true, 1%nat)] Sv) as (T1 & T2 & T3). auto.
Qed.
Print Assumptions C97_table.

(** So the claim is false with the table. *)
Theorem C97_table_refuted : ~ recommends_well true.
Proof.
  intros H. destruct (C97_table 100 ltac:(lia)) as (s & node & R & Q & _ & X & W & Hd & NE & Rec & Wv).
  destruct tab_env as (Env & Mok). destruct (WorldTheorems.C89_values_exist tab_conf tab_set Env) as (V & Sv).
  destruct (Wv V Sv) as (W1 & W2 & W3 & L).
  assert (Big : 4 + IZR (max_depth tab_conf) * 1 <= - dbl_lowest).
  { unfold dbl_lowest. rewrite Ropp_involutive. cbn [max_depth tab_conf]. replace (4 + 1 * 1) with 5 by ring. apply IZR_le. vm_compute. discriminate. }
  pose proof (H nat bool Nat.eqb Bool.eqb tab_conf tab_set Nat.eqb_eq Bool.eqb_true_iff eq_refl Env Mok eq_refl eq_refl (Z.le_refl 1) 4 1 V tab_bounds Big Sv 2%nat (fun _ _ => le_n 2)
    1%nat tab_g s 0 400%Z 0%nat node R Q X (Rle_refl 0) ltac:(lia) W Hd NE) as K.
  destruct (K tab_g) as (a & g' & E1 & _ & _ & _ & B); [intros i; cbn; lia|].
  destruct (Rec tab_g) as (a' & g'' & E1' & _ & _ & <-); [intros i; cbn; lia|].
  rewrite E1 in E1'. injection E1' as -> _. rewrite L, W1, W3 in B. unfold sampling_error in B.
  cbn [INR] in B. apply abs_inv in B. lra.
Qed.
Print Assumptions C97_table_refuted.

(** A search without table that meets the conditions: two trials that take both actions ([two_conf]). *)
Example C97_witness : exists s node, areach Bool.eqb Bool.eqb two_conf (MentsModel.est Bool.eqb two_conf two_mc) 1 g_two s /\ quiet (base s) /\
  explored Bool.eqb two_conf (mem (base s)) /\ well_sampled two_mc 0 1 (base s) /\ nth_error (dh (mem (base s))) 0 = Some node /\ dkids node <> [] /\
  use_tt two_conf = false /\ env_ok two_conf two_mc /\ ments_ok two_conf two_mc /\ muse_dp two_mc = true /\ mmost_visited two_mc = false /\ (mthreshold two_mc <= 1)%Z /\
  world_bounds two_conf two_mc 0 5 /\ 0 + IZR (max_depth two_conf) * 5 <= - dbl_lowest.
Proof.
  destruct two_est as (s & R & Q & _ & X). exists s. pose proof (C08_algorithms_run_the_engine _ _ _ _ _ _ _ R) as R0.
  pose proof (proj1 (C12_well_formed Bool.eqb Bool.eqb bool_decides bool_decides _ _ _ R0)) as W.
  destruct (wf_root _ _ _ _ W) as (root & Hr & Hs & Hd & Ht). exists root.
  split; [exact R|]. split; [exact Q|]. split; [exact X|]. split; [|split; [exact Hr|split]].
  - assert (Goes : forall c x o d node, nth_error (ch (mem (base s))) c = Some x -> In (o, d) (ckids x) -> nth_error (dh (mem (base s))) d = Some node ->
      (0 < reached two_conf node)%Z /\ reached two_conf node = count (goes c d) (etrace (base s))).
    { intros c x o d node Hx I Hn. assert (Cc : cchild Bool.eqb (mem (base s)) c o d).
      { exists x. split; auto. apply (MapProofs.in_lookup _ bool_decides); auto. exact (wf_ckeys _ _ _ _ W c x Hx). }
      pose proof (EngineMade.edge_walked Bool.eqb Bool.eqb bool_decides bool_decides two_conf 1 (base s) c o d R0 Cc) as L.
      rewrite (TreeProofs.reached_goes Bool.eqb Bool.eqb bool_decides bool_decides two_conf eq_refl 1 (base s) c o d node R0 Q Cc Hn). split; [lia|reflexivity]. }
    pose proof (WorldResults.certain Bool.eqb Bool.eqb bool_decides bool_decides two_conf two_mc eq_refl two_env _ two_ok two_det (reached two_conf) 1 g_two s R Q
      (fun c x o d node Hx I Hn => proj1 (Goes c x o d node Hx I Hn))) as F.
    intros c x Hx. split; [apply (EngineMade.chance_visited Bool.eqb Bool.eqb bool_decides bool_decides two_conf 1 (base s) c x R0 Q Hx)|].
    intros f b Hf. specialize (F c x Hx f b Hf). rewrite (map_ext_in _ (fun p => (match nth_error (dh (mem (base s))) (snd p) with Some y => reached two_conf y | None => 0%Z end, f (fst p)))); [exact F|].
    intros [o d] I. cbn [fst snd]. destruct (wf_c _ _ _ _ W c x o d Hx) as (node & Hn & _).
    { apply (MapProofs.in_lookup _ bool_decides); auto. exact (wf_ckeys _ _ _ _ W c x Hx). }
    rewrite Hn. now rewrite (proj2 (Goes c x o d node Hx I Hn)).
  - intros E. apply (X 0%nat root true Hr); [reflexivity|rewrite Hd; cbn; lia|now left|]. now rewrite E.
  - repeat (split; [first [reflexivity|exact two_env|exact two_ok|exact two_bounds|cbn; lia]|]).
    unfold dbl_lowest. rewrite Ropp_involutive. cbn [max_depth two_conf]. replace (0 + 1 * 5) with 5 by ring. apply IZR_le. vm_compute. discriminate.
Qed.
