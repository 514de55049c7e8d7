(** * C19-C23, C26-C29, C44: claims the code does not satisfy.

    Each theorem exhibits a client program on which the incremental engine (default flags) and from-scratch
    evaluation disagree.  The programs are ordinary uses of the public API. *)
From Verif Require Export Demo.
Local Open Scope string_scope.

Definition seq (c1 c2 : comp) : comp := cbind c1 (λ _, c2).
Definition cell0 (x : string) (z : Z) (k : loc → comp) : comp := Cell T0 (nm x) (VInt z) k.
Definition thunk0 (x : string) (pp : progpt) (arg : val) (k : loc → comp) : comp :=
  Thunk T0 (NCNominal (nm x)) pp arg VUnit k.
Definition demand0 (l : loc) (k : val → comp) : comp := Force T0 (ALoc l) None k.

Local Ltac stale := (eapply (stale_intro demo 30 30); [vm_compute; reflexivity..|done]).

(** C19: two projections of one cell by one thunk. *)
Definition prog_two_projections : comp :=
  Cell T1 (nm "c") (VPair (VInt 1) (VInt 2)) (λ c,
  thunk0 "t" "proj2" (VLoc c) (λ t,
  demand0 t (λ _,
  SetC T1 (ALoc c) (VPair (VInt 1) (VInt 3)) (
  demand0 t Ret)))).
Theorem C19_two_projections_refuted :
  stale demo prog_two_projections (VPair (VInt 1) (VInt 3)) (VPair (VInt 1) (VInt 2)).
Proof. stale. Qed.
(** ... and a projection followed by the whole value. *)
Definition prog_projection_then_force : comp :=
  Cell T1 (nm "c") (VPair (VInt 1) (VInt 2)) (λ c,
  thunk0 "t" "projall" (VLoc c) (λ t,
  demand0 t (λ _,
  SetC T1 (ALoc c) (VPair (VInt 1) (VInt 3)) (
  demand0 t Ret)))).
Theorem C19_projection_then_force_refuted : stale demo prog_projection_then_force (VInt 3) (VInt 2).
Proof. stale. Qed.

(** C20: a structurally named thunk that reads a mutable cell, demanded by another thunk. *)
Definition prog_structural_reads : comp :=
  cell0 "c" 1 (λ c,
  thunk0 "t" "structural_get" (VLoc c) (λ t,
  demand0 t (λ _,
  SetC T0 (ALoc c) (VInt 2) (
  demand0 t Ret)))).
Theorem C20_structural_thunks_refuted : stale demo prog_structural_reads (VInt 2) (VInt 1).
Proof. stale. Qed.

(** C21: a cell allocated under the name of a thunk. *)
Definition prog_cell_over_thunk : comp :=
  thunk0 "n" "const" (VInt 1) (λ _,
  cell0 "n" 5 (λ l,
  demand0 l Ret)).
Theorem C21_cell_over_thunk_refuted : stale demo prog_cell_over_thunk (VInt 5) (VInt 1).
Proof. stale. Qed.
(** A thunk allocated under the name of a cell loses the cell's observers. *)
Definition prog_thunk_over_cell : comp :=
  cell0 "n" 1 (λ n,
  thunk0 "t" "get" (VLoc n) (λ t,
  demand0 t (λ _,
  thunk0 "n" "const" (VInt 1) (λ _,
  demand0 t (λ _,
  thunk0 "n" "const" (VInt 2) (λ _,
  demand0 t Ret)))))).
Theorem C21_thunk_over_cell_refuted : stale demo prog_thunk_over_cell (VInt 2) (VInt 1).
Proof. stale. Qed.

(** C22: observations through [force_abs] are never dirtied. *)
Definition prog_force_abs : comp :=
  cell0 "c" 1 (λ c,
  thunk0 "t" "abs" (VLoc c) (λ t,
  demand0 t (λ _,
  SetC T0 (ALoc c) (VInt 2) (
  demand0 t Ret)))).
Theorem C22_force_abs_refuted : stale demo prog_force_abs (VInt 2) (VInt 1).
Proof. stale. Qed.

(** C23: a value computed with a [force_cycle] default is cached. *)
Definition prog_cycle_leak : comp :=
  thunk0 "a" "cycA" VUnit (λ a,
  thunk0 "b" "cycB" VUnit (λ b,
  demand0 a (λ _,
  demand0 b Ret))).
Theorem C23_cycle_values_leak_refuted : stale demo prog_cycle_leak (VInt 21) (VInt 11).
Proof. stale. Qed.

(** C26: the mode of the first caller decides. *)
Definition prog_mode (first : bool) : comp :=
  thunk0 "t" "newcell" (VInt 7) (λ t,
  if first then demand0 t (λ _, Structural (demand0 t Ret) Ret)
  else Structural (demand0 t Ret) Ret).
Theorem C26_structural_mode_leaks_refuted :
  stale demo (prog_mode true) (VLoc (Loc [] (IdStruct (demo_hash (VInt 7))))) (VLoc (at_ "m")) ∧
  ∃ v v' s s', @returns demo (prog_mode true) dcg_new v s ∧ @returns demo (prog_mode false) dcg_new v' s' ∧ v ≠ v'.
Proof.
  split; [stale|]. eexists _, _, _, _. split; [apply (returns_intro 30); vm_compute; reflexivity|].
  split; [apply (returns_intro 30); vm_compute; reflexivity|done].
Qed.

(** C27: a thunk reads a name that a callee re-binds within the same demand. *)
Definition prog_read_then_overwrite : comp :=
  cell0 "n" 0 (λ _,
  thunk0 "u" "write5" VUnit (λ u,
  thunk0 "t" "readthen" (VLoc u) (λ t,
  demand0 t (λ _,
  demand0 t Ret)))).
Theorem C27_read_then_overwrite_refuted : stale demo prog_read_then_overwrite (VInt 5) (VInt 0).
Proof. stale. Qed.

(** C28: a thunk that allocates its own location makes a later edit panic. *)
Definition prog_self_alloc : comp :=
  thunk0 "a" "self" (VInt 1) (λ a,
  demand0 a (λ _,
  thunk0 "a" "self" (VInt 2) (λ a,
  demand0 a Ret))).
Theorem C28_self_allocation_refuted : crashes demo prog_self_alloc (VInt 0) PAssert.
Proof. eapply (crashes_intro demo 30 30); vm_compute; reflexivity. Qed.

(** C29: after a caught panic the engine believes a thunk is still executing. *)
Definition prog_before_panic : comp := cell0 "c" 1 (λ c, thunk0 "t" "boom" VUnit (λ t, Ret (VLoc c))).
Definition prog_panics : comp := demand0 (at_ "t") Ret.
Definition prog_after_panic : comp := SetC T0 (ALoc (at_ "c")) (VInt 2) (Ret VUnit).
Theorem C29_panic_poisons_engine_refuted :
  ∃ s1 s2, @returns demo prog_before_panic dcg_new (VLoc (at_ "c")) s1 ∧
    (∃ s1', @returns demo prog_after_panic s1 VUnit s1') ∧
    (∀ k, (30 ≤ k)%nat → @exec demo k prog_panics s1 = (OPanic PUser, s2)) ∧
    (∀ k, @exec demo k prog_after_panic s2 = (OPanic PSetInThunk, s2)).
Proof.
  eexists _, (@exec demo 30 prog_panics (@exec demo 30 prog_before_panic dcg_new).2).2.
  split; [apply (returns_intro 30); vm_compute; reflexivity|]. split; [|split].
  - eexists. apply (returns_intro 30). vm_compute. reflexivity.
  - intros k Hk. assert (E : (@exec demo 30 prog_panics (@exec demo 30 prog_before_panic dcg_new).2).1 = OPanic PUser) by (vm_compute; reflexivity).
    eapply exec_fuel_mono; [|done|exact Hk]. rewrite <- E. by destruct (@exec demo 30 prog_panics _).
  - intros k. vm_compute. reflexivity.
Qed.

(** C44: after an edit that makes thunk "a" depend on itself, a fresh evaluation panics with a cycle, but the
    incremental engine returns a value. *)
Definition prog_late_cycle : comp :=
  cell0 "c" 0 (λ c,
  thunk0 "b" "switch" VUnit (λ b,
  thunk0 "a" "get" (VLoc b) (λ a,
  demand0 a (λ _,
  SetC T0 (ALoc c) (VInt 1) (
  demand0 a Ret))))).
Theorem C44_missed_cycle_refuted :
  @ref_exec demo 30 false prog_late_cycle (RState ∅ []) = RPanic PCycle ∧
  ∃ s, @returns demo prog_late_cycle dcg_new (VInt 1) s.
Proof. split; [vm_compute; reflexivity|]. eexists. apply (returns_intro 30). vm_compute. reflexivity. Qed.

(** S7: the spurious arguments (and any captured environment) of the first allocation win. *)
Definition prog_spurious : comp :=
  Thunk T0 (NCNominal (nm "t")) "spur" VUnit (VInt 1) (λ t,
  demand0 t (λ _,
  Thunk T0 (NCNominal (nm "t")) "spur" VUnit (VInt 2) (λ t,
  demand0 t Ret))).
Theorem S7_spurious_change_ignored : stale demo prog_spurious (VInt 2) (VInt 1).
Proof. stale. Qed.
(** S8: with colliding hashes, structurally named thunks are merged. *)
Definition prog_collision : comp :=
  Thunk T0 NCStructural "const" (VInt 1) VUnit (λ _,
  Thunk T0 NCStructural "const" (VInt 2) VUnit (λ b,
  demand0 b Ret)).
Theorem S8_hash_collision_merges : stale demo_collide prog_collision (VInt 2) (VInt 1).
Proof. eapply (stale_intro demo_collide 30 30); [vm_compute; reflexivity..|done]. Qed.
