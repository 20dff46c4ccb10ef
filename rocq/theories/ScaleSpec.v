(** Specification vocabulary for C101: the same problem with rewards in another unit. *)
From Coq Require Import List ZArith Bool Reals.
From Verif Require Import Base NumOps HelperModel EngineModel AlgoModel UctModel MentsModel MirrorSpec.
Import ListNotations.
Open Scope R_scope.

Section Scaled.
Context {S A : Type}.
(** The new size of the old unit of reward. *)
Variable al : R.
(** The same environment with scaled rewards and heuristic. *)
Definition scl_conf (C : @econf S A) : @econf S A :=
  mkConf (is_sink C) (acts C) (succs C) (fun s a o => al * rwd C s a o) (option_map (fun h s => al * h s) (heuristic C))
    (max_depth C) (mcts_mode C) (use_tt C) (init_visits C) (root_state C) (root_time C).
(** Settings in the new unit: the bias of UCT and PUCT, and the temperatures, rewards and default value of MENTS and its
    relatives. *)
Definition scl_uconf (U : @uconf S A) : @uconf S A := 
  mkU (al * ubias U) (upseudo U) (umost_visited U) (ueps U) (uprior U) (utwo U) (uterm U) (udistr U) (uorder U).
Definition scl_mconf (M : @mconf S A) : @mconf S A :=
  mkM (al * mtemp M) (mprior_w M) (meps M) (mroot_eps M) (mmax_explore M) (mdecay M) (al * mmin_temp M) (mscale M) (mroot_scale M)
    (al * mdefault_q M) (mshift M) (moffset M) (mthreshold M) (mmost_visited M) (mprior M) (mtwo M) (fun s a => al * mreward M s a)
    (mdistr M) (morder M) (vdecay M) (al * vinit M) (al * vmin M) (vscale M) (vroot_scale M) (muse_dp M).

(** The tree: the same nodes, heuristic values scaled. *)
Definition scl_d (n : @dnode S A) : @dnode S A := mkD (dstate n) (ddepth n) (dtime n) (dvisits n) (al * dheur n) (dkids n).
Definition scl_store (m : @store S A) : @store S A :=
  mkStore (map scl_d (dh m)) (ch m) (tt m).
(** Trials: the same nodes, rewards scaled. *)
Definition scl_thread (th : @tstate A) : @tstate A :=
  match th with
  | TSel cur flag nodes rewards => TSel cur flag nodes (map (Rmult al) rewards)
  | TChance cur a c flag nodes rewards => TChance cur a c flag nodes (map (Rmult al) rewards)
  | TBack nodes before after tafter total => TBack nodes (map (Rmult al) before) (map (Rmult al) after) (al * tafter) (al * total)
  | TBackD d nodes before after tafter total => TBackD d nodes (map (Rmult al) before) (map (Rmult al) after) (al * tafter) (al * total)
  | _ => th
  end.
Definition scl_event (e : @event S A) : @event S A :=
  match e with
  | EFinal d hv => EFinal d (al * hv)
  | EBackC c before after tafter total => EBackC c (map (Rmult al) before) (map (Rmult al) after) (al * tafter) (al * total)
  | EBackD d before after tafter total => EBackD d (map (Rmult al) before) (map (Rmult al) after) (al * tafter) (al * total)
  | _ => e
  end.
Definition scl_est (s : @EngineModel.est S A) : @EngineModel.est S A :=
  mkEst (scl_store (mem s)) (map scl_thread (ths s)) (map (fun e => (fst e, scl_event (snd e))) (etrace s)).
Definition scl_args (b : bargs) : bargs :=
  mkArgs (map (Rmult al) (b_before b)) (map (Rmult al) (b_after b)) (al * b_tafter b) (al * b_total b).

(** Children with their members mapped. *)
Definition scl_dkids {X Y} (f : X -> Y) (kids : list (A * (@cnode S A * X))) : list (A * (@cnode S A * Y)) :=
  map (fun k => (fst k, (fst (snd k), f (snd (snd k))))) kids.
Definition scl_ckids {X Y} (f : X -> Y) (kids : list (S * (@dnode S A * X))) : list (S * (@dnode S A * Y)) :=
  map (fun k => (fst k, (scl_d (fst (snd k)), f (snd (snd k))))) kids.
(** What a backup has seen of the children in earlier looks. *)
Definition scl_looks {X Y X' Y'} (fD : X -> X') (fC : Y -> Y') (l : looks X Y S A) : looks X' Y' S A :=
  (map (scl_dkids fC) (fst l), map (scl_ckids fD) (snd l)).
(** A search: the same tree, members mapped by [fD] and [fC], the same contexts and random numbers. *)
Definition scl_ast {G G' : @algo S A} (fD : XD G -> XD G') (fC : XC G -> XC G') (fX : CX G -> CX G') (s : ast G) : ast G' :=
  mkA (scl_est (base s)) (map fD (xds s)) (map fC (xcs s)) (map fX (cxs s)) (rg s) (afail s).

(** Members: values scaled; counts, offsets and entropies kept. *)
Definition scl_u (x : ux) : ux := mkUx (unb x) (al * uavg x).
Definition scl_m (x : mmem) : mmem := mkMm (m_nb x) (al * m_soft x) (m_off x).
Definition scl_cm (x : cmem) : cmem := mkCm (c_nb x) (al * c_soft x).
Definition scl_v (x : vmem) : vmem := mkVm (v_nb x) (al * v_val x).
Definition scl_mv (x : mmem * vmem) : mmem * vmem := (scl_m (fst x), scl_v (snd x)).
Definition scl_cv (x : cmem * vmem) : cmem * vmem := (scl_cm (fst x), scl_v (snd x)).
Definition scl_dm (x : dmem) : dmem :=
  mkDm (d_nb x) (option_map (Rmult al) (d_soft x)) (d_off x) (scl_v (d_dp x)) (d_ent x) (scl_v (d_emp x)).
Definition scl_dc (x : dcmem) : dcmem :=
  mkDc (dc_nb x) (option_map (Rmult al) (dc_soft x)) (scl_v (dc_dp x)) (dc_ent x) (scl_v (dc_emp x)).
Definition scl_t (x : @tmem A) : @tmem A := mkTm (scl_m (t_m x)) (t_a2q x) (t_q2a x).
End Scaled.

(** An algorithm [G'] with the new unit does at the scaled node what [G] does at the node: it selects the same action
    with the same random numbers, samples the same outcome, backs up the scaled members, and looks at the children equally
    often. *)
Section Scales.
Context {S A : Type}.
Variable al : R.
Definition scales {G G' : @algo S A} (fD : XD G -> XD G') (fC : XC G -> XC G') (fX : CX G -> CX G') : Prop :=
  (forall n x kids cx g, select G' (scl_d al n) (fD x) (scl_dkids fC kids) (fX cx) g =
    omap (fun r => (fst (fst r), fX (snd (fst r)), snd r)) (select G n x kids cx g)) /\
  (forall n x cx g, sample G' n (fC x) (fX cx) g =
    omap (fun r => (fst (fst r), fX (snd (fst r)), snd r)) (sample G n x cx g)) /\
  (forall n x kids cx b, back_d G' (scl_d al n) (fD x) (scl_dkids fC kids) (fX cx) (scl_args al b) = omap fD (back_d G n x kids cx b)) /\
  (forall n x kids cx b, back_c G' n (fC x) (scl_ckids al fD kids) (fX cx) (scl_args al b) = omap fC (back_c G n x kids cx b)) /\
  (forall kids cx, peek_d G' (scl_dkids fC kids) (fX cx) = option_map fX (peek_d G kids cx)) /\
  (forall kids cx, peek_c G' (scl_ckids al fD kids) (fX cx) = option_map fX (peek_c G kids cx)).
End Scales.

(** The order in which a map is iterated depends on its keys, not on the values. *)
Definition keyed {A : Type} (ord : forall V, list (A * V) -> list (A * V)) : Prop :=
  forall V W (f : V -> W) m, ord W (map (fun p => (fst p, f (snd p))) m) = map (fun p => (fst p, f (snd p))) (ord V m).
