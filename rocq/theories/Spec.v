(** * Vocabulary of the final statements.

    Everything a reader needs, besides [Engine.v] (the program), [RefSem.v] (from-scratch meaning)
    and [Discipline.v] (the naming discipline), to read the theorems of [Consistency.v], [Demands.v], [Static.v], [EngineProps.v], [Limits.v]
    and the other files named in DESIGN.md. *)
From Verif Require Export Main.

(** What the memo table holds, forgetting caches, edges and dirty bits: the value of each cell, the
    function and arguments of each thunk ([contents], [Rel.v]). *)
Definition holds (s : dcg) : store := contents (table s).

(** Nothing is being evaluated, and we are in the root namespace. *)
Definition idle (s : dcg) : Prop := stack s = [] ∧ cpath s = [].

Section Spec.
Context `{Prog}.

(** The program returns normally, whatever (large enough) the recursion budget. *)
Definition returns (c : comp) (s : dcg) (v : val) (s' : dcg) : Prop :=
  ∃ K, ∀ k, (K ≤ k)%nat → exec k c s = (OVal v, s').
(** Likewise for one demand. *)
Definition demand (t : ty) (l : loc) (s : dcg) (v : val) (s' : dcg) : Prop :=
  ∃ K, ∀ k, (K ≤ k)%nat → force k t l None s = (OVal v, s').

(** The meaning of a whole program without any caching: it returns [v] and leaves the store [σ]. *)
Definition from_scratch (md : bool) (c : comp) (v : val) (σ : store) : Prop :=
  ∃ n lg, ref_exec n md c (RState ∅ []) = ROk v (RState σ lg).
(** Evaluating one demand from scratch in store [σ] returns [v], leaves store [σ'] and runs the
    bodies of the thunks [lg]. *)
Definition demand_from_scratch (md : bool) (t : ty) (l : loc) (σ : store) (v : val) (σ' : store) (lg : list loc) : Prop :=
  ∃ n, ref_force n [] md t l None (RState σ []) = ROk v (RState σ' lg).

(** The program obeys the naming discipline (with the purity optimisation [opt], in base mode [md]). *)
Definition disciplined (opt md : bool) (c : comp) : Prop :=
  ∃ n v p, d_exec opt md n c (d_init ∅) = Some (v, p).
(** Demanding [l] in store [σ] obeys it. *)
Definition disciplined_demand (opt md : bool) (t : ty) (l : loc) (σ : store) : Prop :=
  ∃ n v p, d_force opt md n [] md t l (d_init σ) = Some (v, p).

(** The engine state after some disciplined program, run from a new engine. *)
Definition reached (opt md : bool) (s : dcg) : Prop :=
  ∃ c k v, disciplined opt md c ∧ exec k c (dcg_new_flags md opt) = (OVal v, s).
End Spec.
