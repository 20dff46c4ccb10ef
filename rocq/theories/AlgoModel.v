(** A search algorithm plugged into the trials of EngineModel.v: the virtual functions of ThtsDNode
    and ThtsCNode (include/thts_decision_node.h, include/thts_chance_node.h) are a record [algo], and
    [astep] runs src/thts.cpp:124-220 with them. Instances: UctModel.v, MentsModel.v, ...

    Simplifications.
    - As in EngineModel.v a critical section of a node is one step. Inside it the algorithms read the
      children under the children's locks (lock_all_children), so the step sees one snapshot of them (C83). The
      backups of DB-MENTS and DENTS lock and read the children two or three times: each time is a step ([peek_d],
      [peek_c] for the looks before the last), other workers can change the children in between, and
      no other worker takes a step at the node itself, whose lock is held ([blocked]). The node's members
      are written with the last look; a worker that looks at its children does not wait for a child that
      is held in this way, so that it can see the members from before that backup.
    - All threads draw from one random generator (RandManager behind rng_lock). The draws of one step
      are consecutive in the stream; since theorems quantify over all streams this covers interleaved
      draws.
    - An exception or undefined behaviour in a worker ends the run ([afail]); in the program an
      exception that leaves a worker thread calls std::terminate. *)
From Coq Require Import List ZArith Bool Reals.
From Verif Require Import Base NumOps HelperModel EngineModel.
Import ListNotations.

Section Algo.
Context {S A : Type}.
Variable seqb : S -> S -> bool.
Variable aeqb : A -> A -> bool.
Variable C : @econf S A.

(** Arguments of backup_itfc other than the context, include/thts_decision_node.h. *)
Record bargs : Type := mkArgs { b_before : list R; b_after : list R; b_tafter : R; b_total : R }.

(** What an algorithm adds to the base classes: member variables of its decision nodes ([XD]) and chance
    nodes ([XC]), the context of a trial ([CX], ThtsEnvContext) and the virtual functions. The
    functions get the node as it is in the base class, its members, its child map in iteration order
    with each child's members, the context and, where needed, the random generator. *)
Record algo : Type := mkLooking {
  XD : Type; XC : Type; CX : Type;
  cx0 : CX;                                                     (* sample_context_itfc *)
  new_xd : @dnode S A -> XD;                                    (* constructor *)
  new_xc : @cnode S A -> XC;
  vis_d : bool -> XD -> XD;                                     (* visit_itfc; the flag is is_leaf() *)
  select : @dnode S A -> XD -> list (A * (@cnode S A * XC)) -> CX -> rng R -> outcome (A * CX * rng R);
  sample : @cnode S A -> XC -> CX -> rng R -> outcome (S * CX * rng R);
  back_d : @dnode S A -> XD -> list (A * (@cnode S A * XC)) -> CX -> bargs -> outcome XD;
  back_c : @cnode S A -> XC -> list (S * (@dnode S A * XD)) -> CX -> bargs -> outcome XC;
  (* Looks at the children that backup_itfc takes before its last one. The context holds them ([seen_d], [seen_c],
     oldest first) in place of the local variables computed from them. [None]: the next look is the last. *)
  peek_d : list (A * (@cnode S A * XC)) -> CX -> option CX;
  peek_c : list (S * (@dnode S A * XD)) -> CX -> option CX;
  seen_d : CX -> list (list (A * (@cnode S A * XC)));
  seen_c : CX -> list (list (S * (@dnode S A * XD)));
  fin : CX -> CX;                                               (* the backup of the node is over *)
  peek_d_sees : forall kids cx cx1, peek_d kids cx = Some cx1 -> seen_d cx1 = seen_d cx ++ [kids];
  peek_c_sees : forall kids cx cx1, peek_c kids cx = Some cx1 -> seen_c cx1 = seen_c cx ++ [kids];
  fin_sees : forall cx, seen_d (fin cx) = [] /\ seen_c (fin cx) = []
}.

Variable G : algo.

Inductive failure : Type := FThrow | FUB | FBad.    (* FBad: an action or outcome outside the environment's *)

Record ast : Type := mkA {
  base : @est S A;
  xds : list (XD G);           (* members of decision node i *)
  xcs : list (XC G);
  cxs : list (CX G);           (* context of thread t's current trial *)
  rg : rng R;
  afail : option failure
}.

Definition ainit (nthreads : nat) (g : rng R) : ast :=
  mkA (einit C nthreads) (map (new_xd G) (dh (mem (einit C nthreads)))) [] (repeat (cx0 G) nthreads) g None.

(** Child maps with the children's contents. *)
Definition dview (s : ast) (n : @dnode S A) : list (A * (@cnode S A * XC G)) :=
  flat_map (fun p => match nth_error (ch (mem (base s))) (snd p), nth_error (xcs s) (snd p) with
                     | Some x, Some y => [(fst p, (x, y))] | _, _ => [] end) (dkids n).
Definition cview (s : ast) (n : @cnode S A) : list (S * (@dnode S A * XD G)) :=
  flat_map (fun p => match nth_error (dh (mem (base s))) (snd p), nth_error (xds s) (snd p) with
                     | Some x, Some y => [(fst p, (x, y))] | _, _ => [] end) (ckids n).

(** Members of nodes that a step constructed. *)
Definition grow_d (xs : list (XD G)) (m : @store S A) : list (XD G) :=
  xs ++ map (new_xd G) (skipn (length xs) (dh m)).
Definition grow_c (xs : list (XC G)) (m : @store S A) : list (XC G) :=
  xs ++ map (new_xc G) (skipn (length xs) (ch m)).

Definition aset (s : ast) (b : @est S A) (ds : list (XD G)) (cs : list (XC G)) (t : nat) (cx : CX G) (g : rng R) : ast :=
  mkA b (grow_d ds (mem b)) (grow_c cs (mem b)) (upd (cxs s) t cx) g (afail s).
Definition adie (s : ast) (f : failure) : ast := mkA (base s) (xds s) (xcs s) (cxs s) (rg s) (Some f).

Definition done {T} (s : ast) (o : outcome T) (k : T -> option ast) : option ast :=
  match o with Ok x => k x | Throw => Some (adie s FThrow) | UB => Some (adie s FUB) end.

Inductive alabel : Type := AStart (t : nat) | ARun (t : nat).

(** The node whose lock a worker needs for its next step (true: a chance node), and the node whose lock it holds.
    src/thts.cpp:134,141,162,212,216. *)
Definition wants (th : @tstate A) : option (bool * nat) :=
  match th with
  | TSel cur _ _ _ => Some (false, cur)
  | TChance _ _ c _ _ _ => Some (true, c)
  | TBack ((_, c) :: _) _ _ _ _ => Some (true, c)
  | TBackD d _ _ _ _ _ => Some (false, d)
  | _ => None
  end.
Definition inside (cx : CX G) : bool := match seen_d G cx, seen_c G cx with [], [] => false | _, _ => true end.
Definition held (th : @tstate A) (cx : CX G) : option (bool * nat) :=
  match th with
  | TBack _ _ _ _ _ | TBackD _ _ _ _ _ _ => if inside cx then wants th else None
  | _ => None
  end.
Definition blocked (s : ast) (t : nat) (th : @tstate A) : bool :=
  existsb (fun u => match nth_error (ths (base s)) u, nth_error (cxs s) u with
                    | Some th1, Some cx1 =>
                        match held th1 cx1, wants th with
                        | Some k1, Some k => Bool.eqb (fst k1) (fst k) && Nat.eqb (snd k1) (snd k) && negb (Nat.eqb u t)
                        | _, _ => false
                        end
                    | _, _ => false
                    end) (seq 0 (length (ths (base s)))).

(** One critical section of thread [t], or one look of a backup. [None]: the label is not possible. *)
Definition astep (l : alabel) (s : ast) : option ast :=
  match afail s with
  | Some _ => None
  | None =>
    match l with
    | AStart t =>                                                   (* src/thts.cpp:249-253 *)
        match estep seqb aeqb C (LStart t) (base s) with
        | Some b => Some (aset s b (xds s) (xcs s) t (cx0 G) (rg s))
        | None => None
        end
    | ARun t =>
        match nth_error (ths (base s)) t, nth_error (cxs s) t with
        | Some th, Some cx =>
          if blocked s t th then None else
          match th with
          | TSel cur flag _ _ =>
              match nth_error (dh (mem (base s))) cur, nth_error (xds s) cur with
              | Some n, Some x =>
                  let x1 := vis_d G (is_leaf C n) x in
                  if should_continue C n flag then                  (* 134-138 *)
                    done s (select G (visit_d n) x1 (dview s n) cx (rg s)) (fun '(a, cx1, g1) =>
                      match estep seqb aeqb C (LSelect t a) (base s) with
                      | Some b => Some (aset s b (upd (xds s) cur x1) (xcs s) t cx1 g1)
                      | None => Some (adie s FBad)
                      end)
                  else                                              (* 162-165 *)
                    match estep seqb aeqb C (LRun t) (base s) with
                    | Some b => Some (aset s b (upd (xds s) cur x1) (xcs s) t (fin G cx) (rg s))
                    | None => None
                    end
              | _, _ => Some (adie s FUB)
              end
          | TChance _ _ c _ _ _ =>                                  (* 141-150 *)
              match nth_error (ch (mem (base s))) c, nth_error (xcs s) c with
              | Some n, Some x =>
                  done s (sample G (visit_c n) x cx (rg s)) (fun '(o, cx1, g1) =>
                    match estep seqb aeqb C (LSample t o) (base s) with
                    | Some b => Some (aset s b (xds s) (xcs s) t cx1 g1)
                    | None => Some (adie s FBad)
                    end)
              | _, _ => Some (adie s FUB)
              end
          | TBack nodes before after tafter total =>                (* 202-214 *)
              match estep seqb aeqb C (LRun t) (base s) with
              | Some b =>
                  match nodes, before with
                  | (_, c) :: _, r :: before1 =>
                      match nth_error (ch (mem (base s))) c, nth_error (xcs s) c with
                      | Some n, Some x =>
                          match peek_c G (cview s n) cx with
                          | Some cx1 => Some (aset s (base s) (xds s) (xcs s) t cx1 (rg s))
                          | None =>
                              done s (back_c G n x (cview s n) cx
                                        (mkArgs (rev before1) (rev (r :: after)) (tafter + r)%R total)) (fun x1 =>
                                Some (aset s b (xds s) (upd (xcs s) c x1) t (fin G cx) (rg s)))
                          end
                      | _, _ => Some (adie s FUB)
                      end
                  | _, _ => Some (aset s b (xds s) (xcs s) t cx (rg s))
                  end
              | None => None
              end
          | TBackD d _ before after tafter total =>                 (* 216-218 *)
              match estep seqb aeqb C (LRun t) (base s) with
              | Some b =>
                  match nth_error (dh (mem (base s))) d, nth_error (xds s) d with
                  | Some n, Some x =>
                      match peek_d G (dview s n) cx with
                      | Some cx1 => Some (aset s (base s) (xds s) (xcs s) t cx1 (rg s))
                      | None =>
                          done s (back_d G n x (dview s n) cx
                                    (mkArgs (rev before) (rev after) tafter total)) (fun x1 =>
                            Some (aset s b (upd (xds s) d x1) (xcs s) t (fin G cx) (rg s)))
                      end
                  | _, _ => Some (adie s FUB)
                  end
              | None => None
              end
          | TIdle | TBad => None
          end
        | _, _ => None
        end
    end
  end.

Fixpoint arun (ls : list alabel) (s : ast) : option ast :=
  match ls with
  | [] => Some s
  | l :: r => match astep l s with Some s1 => arun r s1 | None => None end
  end.

(** States a pool of [n] workers running the algorithm can be in, for generator [g]. *)
Definition areach (n : nat) (g : rng R) (s : ast) : Prop := exists ls, arun ls (ainit n g) = Some s.
End Algo.
Arguments mkLooking {S A}. Arguments XD {S A}. Arguments XC {S A}. Arguments CX {S A}. Arguments cx0 {S A}.
Arguments new_xd {S A}. Arguments new_xc {S A}. Arguments vis_d {S A}. Arguments select {S A}.
Arguments sample {S A}. Arguments back_d {S A}. Arguments back_c {S A}. Arguments peek_d {S A}. Arguments peek_c {S A}.
Arguments seen_d {S A}. Arguments seen_c {S A}. Arguments fin {S A}. Arguments peek_d_sees {S A}. Arguments peek_c_sees {S A}.
Arguments fin_sees {S A}. Arguments inside {S A}. Arguments held {S A}.
Arguments base {S A G}. Arguments xds {S A G}. Arguments xcs {S A G}. Arguments cxs {S A G}.
Arguments rg {S A G}. Arguments afail {S A G}. Arguments mkA {S A G}.
Arguments dview {S A G}. Arguments cview {S A G}.

(** Algorithms whose backups look at the children once. *)
Lemma never_sees : forall (K V T : Type) (f : T -> list (list (K * V))) (kids : list (K * V)) (cx cx1 : T),
  None = Some cx1 -> f cx1 = f cx ++ [kids].
Proof. discriminate. Qed.
Notation mkAlgo XD XC CX cx0 newd newc vis sel sam bd bc :=
  (mkLooking XD XC CX cx0 newd newc vis sel sam bd bc (fun _ _ => None) (fun _ _ => None) (fun _ => []) (fun _ => []) (fun cx => cx)
     (fun kids cx cx1 => never_sees _ _ _ (fun _ => []) kids cx cx1) (fun kids cx cx1 => never_sees _ _ _ (fun _ => []) kids cx cx1)
     (fun _ => conj eq_refl eq_refl)) (only parsing).

(** Algorithms whose backups look at the children [k] times before the last look, and that need no other context. *)
Definition note {V W : Type} (k : nat) (v : V) (l : list V * W) : option (list V * W) :=
  if (length (fst l) <? k)%nat then Some (fst l ++ [v], snd l) else None.
Definition note2 {V W : Type} (k : nat) (v : V) (l : W * list V) : option (W * list V) :=
  if (length (snd l) <? k)%nat then Some (fst l, snd l ++ [v]) else None.
Lemma note_sees : forall (V W : Type) k (v : V) (l l1 : list V * W), note k v l = Some l1 -> fst l1 = fst l ++ [v].
Proof. intros V W k v l l1 H. unfold note in H. destruct (length (fst l) <? k)%nat; [injection H as <-; reflexivity|discriminate]. Qed.
Lemma note2_sees : forall (V W : Type) k (v : V) (l l1 : W * list V), note2 k v l = Some l1 -> snd l1 = snd l ++ [v].
Proof. intros V W k v l l1 H. unfold note2 in H. destruct (length (snd l) <? k)%nat; [injection H as <-; reflexivity|discriminate]. Qed.
Notation looks XD XC S A := (list (list (A * (@cnode S A * XC))) * list (list (S * (@dnode S A * XD))))%type (only parsing).
