(** Specification vocabulary: searches whose outcomes came as often as they are likely, counted step by step. *)
From Coq Require Import List ZArith Bool Reals.
From Verif Require Import Base NumOps HelperModel HelperSpec EngineModel EngineSpec AlgoModel UctModel MentsModel SoftSpec MentsSpec TentsSpec TreeSpec PickSpec WorldSpec.
Import ListNotations.
Open Scope R_scope.

(** Every chance node was visited at least [k] times, and the outcomes that followed at this chance node came as often as
    they are likely, up to [eps] (see [faithful]; here steps from the chance node to a child are counted, not what the
    child counted). *)
Definition well_sampled {S A} (M : @mconf S A) (eps : R) (k : Z) (s : @EngineModel.est S A) : Prop :=
  forall c x, nth_error (ch (mem s)) c = Some x -> (k <= cvisits x)%Z /\
    forall g b, (forall o, Rabs (g o) <= b) ->
      Rabs (mean (map (fun p => (count (goes c (snd p)) (etrace s), g (fst p))) (ckids x)) - expected g (mdistr M (cstate x) (cact x))) <= eps * b.

(** The claim that EST with dynamic programming values recommends nearly best actions once everything was explored and
    sampled well: their worth in the environment differs from the best by at most the sampling error, to which the
    first value of a node adds as one sample per outcome. *)
Definition recommends_well (table : bool) : Prop :=
  forall (S A : Type) (seqb : S -> S -> bool) (aeqb : A -> A -> bool) (C : @econf S A) (M : @mconf S A),
  decides seqb -> decides aeqb -> use_tt C = table -> env_ok C M -> ments_ok C M -> muse_dp M = true -> mmost_visited M = false -> (mthreshold M <= 1)%Z ->
  forall Hb Rw V, world_bounds C M Hb Rw -> Hb + IZR (max_depth C) * Rw <= - dbl_lowest -> solves C M greatest V ->
  forall m, (forall s a, (length (succs C s a) <= m)%nat) ->
  forall n g s eps k d node, areach seqb aeqb C (MentsModel.est aeqb C M) n g s -> quiet (base s) -> explored aeqb C (mem (base s)) ->
  0 <= eps -> (1 <= k)%Z -> well_sampled M eps k (base s) -> nth_error (dh (mem (base s))) d = Some node -> dkids node <> [] ->
  always (dents_recommend aeqb C M node (dview s node)) (fun a => In a (acts C (dstate node)) /\
    Rabs (WorldSpec.action_worth C M V node a - V (left_at C node) (dstate node) (dtime node)) <= 2 * sampling_error (eps + 2 * INR m / IZR k) Hb Rw (left_at C node)).
