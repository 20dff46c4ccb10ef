(** Specification vocabulary for C59: the negated problem, in which the other player moves first. *)
From Coq Require Import List ZArith Bool Reals.
From Verif Require Import Base NumOps HelperModel EngineModel AlgoModel UctModel MentsModel.
Import ListNotations.
Open Scope R_scope.

Section Negated.
Context {S A : Type}.
(** The same environment with negated rewards and heuristic, started one timestep later (so that the roles of the
    players are exchanged). *)
Definition neg_conf (C : @econf S A) : @econf S A :=
  mkConf (is_sink C) (acts C) (succs C) (fun s a o => - rwd C s a o) (option_map (fun h s => - h s) (heuristic C))
    (max_depth C) (mcts_mode C) (use_tt C) (init_visits C) (root_state C) (root_time C + 1).
(** Settings of UCT and PUCT need no change; those of MENTS and its relatives contain rewards and a default value. *)
Definition neg_mconf (M : @mconf S A) : @mconf S A :=
  mkM (mtemp M) (mprior_w M) (meps M) (mroot_eps M) (mmax_explore M) (mdecay M) (mmin_temp M) (mscale M) (mroot_scale M)
    (- mdefault_q M) (mshift M) (moffset M) (mthreshold M) (mmost_visited M) (mprior M) (mtwo M) (fun s a => - mreward M s a)
    (mdistr M) (morder M) (vdecay M) (vinit M) (vmin M) (vscale M) (vroot_scale M) (muse_dp M).

(** The tree of the negated problem: the same nodes one timestep later, heuristic values negated. *)
Definition neg_d (n : @dnode S A) : @dnode S A := mkD (dstate n) (ddepth n) (dtime n + 1) (dvisits n) (- dheur n) (dkids n).
Definition neg_c (n : @cnode S A) : @cnode S A := mkC (cstate n) (cact n) (cdepth n) (ctime n + 1) (cvisits n) (ckids n).
Definition neg_store (m : @store S A) : @store S A :=
  mkStore (map neg_d (dh m)) (map neg_c (ch m)) (map (fun e => (((fst (fst e) + 1)%Z, snd (fst e)), snd e)) (tt m)).
(** Trials: the same nodes, rewards negated. *)
Definition neg_thread (th : @tstate A) : @tstate A :=
  match th with
  | TSel cur flag nodes rewards => TSel cur flag nodes (map Ropp rewards)
  | TChance cur a c flag nodes rewards => TChance cur a c flag nodes (map Ropp rewards)
  | TBack nodes before after tafter total => TBack nodes (map Ropp before) (map Ropp after) (- tafter) (- total)
  | TBackD d nodes before after tafter total => TBackD d nodes (map Ropp before) (map Ropp after) (- tafter) (- total)
  | _ => th
  end.
Definition neg_event (e : @event S A) : @event S A :=
  match e with
  | EFinal d hv => EFinal d (- hv)
  | EBackC c before after tafter total => EBackC c (map Ropp before) (map Ropp after) (- tafter) (- total)
  | EBackD d before after tafter total => EBackD d (map Ropp before) (map Ropp after) (- tafter) (- total)
  | _ => e
  end.
Definition neg_est (s : @EngineModel.est S A) : @EngineModel.est S A :=
  mkEst (neg_store (mem s)) (map neg_thread (ths s)) (map (fun e => (fst e, neg_event (snd e))) (etrace s)).
Definition neg_args (b : bargs) : bargs :=
  mkArgs (map Ropp (b_before b)) (map Ropp (b_after b)) (- b_tafter b) (- b_total b).

(** Children with their members mapped. *)
Definition neg_dkids {X Y} (f : X -> Y) (kids : list (A * (@cnode S A * X))) : list (A * (@cnode S A * Y)) :=
  map (fun k => (fst k, (neg_c (fst (snd k)), f (snd (snd k))))) kids.
Definition neg_ckids {X Y} (f : X -> Y) (kids : list (S * (@dnode S A * X))) : list (S * (@dnode S A * Y)) :=
  map (fun k => (fst k, (neg_d (fst (snd k)), f (snd (snd k))))) kids.
(** What a backup has seen of the children in earlier looks. *)
Definition neg_looks {X Y X' Y'} (fD : X -> X') (fC : Y -> Y') (l : looks X Y S A) : looks X' Y' S A :=
  (map (neg_dkids fC) (fst l), map (neg_ckids fD) (snd l)).
(** A search: the same tree, members mapped by [fD] and [fC], the same contexts and random numbers. *)
Definition neg_ast {G G' : @algo S A} (fD : XD G -> XD G') (fC : XC G -> XC G') (fX : CX G -> CX G') (s : ast G) : ast G' :=
  mkA (neg_est (base s)) (map fD (xds s)) (map fC (xcs s)) (map fX (cxs s)) (rg s) (afail s).

(** Members: values negated, counts, offsets and local entropies kept. *)
Definition neg_u (x : ux) : ux := mkUx (unb x) (- uavg x).
Definition neg_m (x : mmem) : mmem := mkMm (m_nb x) (- m_soft x) (m_off x).
Definition neg_cm (x : cmem) : cmem := mkCm (c_nb x) (- c_soft x).
Definition neg_v (x : vmem) : vmem := mkVm (v_nb x) (- v_val x).
Definition neg_mv (x : mmem * vmem) : mmem * vmem := (neg_m (fst x), neg_v (snd x)).
Definition neg_cv (x : cmem * vmem) : cmem * vmem := (neg_cm (fst x), neg_v (snd x)).
Definition neg_e (x : emem) : emem := mkEm (e_nb x) (e_local x) (option_map Ropp (e_sub x)).
Definition neg_ec (x : ecmem) : ecmem := mkEc (ec_nb x) (option_map Ropp (ec_sub x)).
Definition neg_dm (x : dmem) : dmem :=
  mkDm (d_nb x) (option_map Ropp (d_soft x)) (d_off x) (neg_v (d_dp x)) (neg_e (d_ent x)) (neg_v (d_emp x)).
Definition neg_dc (x : dcmem) : dcmem :=
  mkDc (dc_nb x) (option_map Ropp (dc_soft x)) (neg_v (dc_dp x)) (neg_ec (dc_ent x)) (neg_v (dc_emp x)).
Definition neg_t (x : @tmem A) : @tmem A := mkTm (neg_m (t_m x)) (t_a2q x) (t_q2a x).
End Negated.

(** Results mapped. *)
Definition omap {T U} (f : T -> U) (o : outcome T) : outcome U :=
  match o with Ok x => Ok (f x) | Throw => Throw | UB => UB end.

(** An algorithm [G'] on the negated problem does at the negated node what [G] does at the node: it selects the same action
    with the same random numbers, samples the same outcome, backs up the negated members, and
    looks at the children equally often. *)
Section Mirrors.
Context {S A : Type}.
Definition mirrors {G G' : @algo S A} (fD : XD G -> XD G') (fC : XC G -> XC G') (fX : CX G -> CX G') : Prop :=
  (forall n x kids cx g, select G' (neg_d n) (fD x) (neg_dkids fC kids) (fX cx) g =
    omap (fun r => (fst (fst r), fX (snd (fst r)), snd r)) (select G n x kids cx g)) /\
  (forall n x cx g, sample G' (neg_c n) (fC x) (fX cx) g =
    omap (fun r => (fst (fst r), fX (snd (fst r)), snd r)) (sample G n x cx g)) /\
  (forall n x kids cx b, back_d G' (neg_d n) (fD x) (neg_dkids fC kids) (fX cx) (neg_args b) = omap fD (back_d G n x kids cx b)) /\
  (forall n x kids cx b, back_c G' (neg_c n) (fC x) (neg_ckids fD kids) (fX cx) (neg_args b) = omap fC (back_c G n x kids cx b)) /\
  (forall kids cx, peek_d G' (neg_dkids fC kids) (fX cx) = option_map fX (peek_d G kids cx)) /\
  (forall kids cx, peek_c G' (neg_ckids fD kids) (fX cx) = option_map fX (peek_c G kids cx)).
End Mirrors.
