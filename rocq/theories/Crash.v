(** * C57, C58: programs whose user code panics.

    C57: on a program that is disciplined until its user code panics, the engine panics exactly when the
    from-scratch evaluation does (so it never hides a panic behind a cached value, and never invents one).
    C58: after such a panic was caught, the engine's answers are not to be trusted. *)
From Verif Require Export Lockstep Limits.

(** The from-scratch evaluation of the program ends in a panic of user code. *)
Definition from_scratch_panics `{Prog} (md : bool) (c : comp) : Prop := ∃ n, ref_exec n md c (RState ∅ []) = RPanic PUser.
Definition demand_from_scratch_panics `{Prog} (md : bool) (t : ty) (l : loc) (σ : store) : Prop :=
  ∃ n, ref_force n [] md t l None (RState σ []) = RPanic PUser.
(** So does the run under the engine, whatever (large enough) the recursion budget; [s'] is what a caller that
    catches the panic finds. *)
Definition panics `{Prog} (c : comp) (s : dcg) (s' : dcg) : Prop := ∃ K, ∀ k, (K ≤ k)%nat → exec k c s = (OPanic PUser, s').
Definition demand_panics `{Prog} (t : ty) (l : loc) (s : dcg) (s' : dcg) : Prop :=
  ∃ K, ∀ k, (K ≤ k)%nat → force k t l None s = (OPanic PUser, s').

Section Crash.
Context (P : Prog).
Context (opt md : bool).

Lemma raise_panics n c : p_exec opt md n c (d_init ∅) = Some PRaise →
  ∃ s, panics c (dcg_new_flags md opt) s.
Proof.
  intros Hp. destruct (fok_exec P opt md n c (d_init ∅) _ Hp) as (L & HL).
  destruct (apart_ex L) as (e & e2 & Ha). destruct (HL e e2 Ha) as (p' & Hd).
  destruct (@sim_from (P' P e e2) opt md n _ _ _ Hd) as (K & s' & Hk & _).
  assert (Hx := lk_exec P e e2 K c (proj1 Ha) _ _ (srel_new e e2 md opt)).
  rewrite (Hk K) in Hx by done. destruct (@exec P K c (dcg_new_flags md opt)) as [[v|r|] s] eqn:Es.
  - destruct Hx as [[<- Hb] _]. exfalso. apply Hb. by left.
  - destruct r; try done. exists s, K. intros k Hle. eapply exec_fuel_mono; [exact Es|done|exact Hle].
  - done.
Qed.

(** C57. *)
Theorem C57_same_outcome c : tame opt md c →
  (∃ v σ s, from_scratch md c v σ ∧ returns c (dcg_new_flags md opt) v s ∧ holds s = σ ∧ idle s) ∨
  (from_scratch_panics md c ∧ ∃ s, panics c (dcg_new_flags md opt) s).
Proof.
  intros (n & [v p|] & Hp).
  - left. apply C01_from_scratch_consistency. exists n, v, p. by apply p_exec_val.
  - right. split; [|by eapply raise_panics]. exists n. exact (p_exec_raise opt md n c (d_init ∅) [] Hp).
Qed.

(** Whatever the budget, a run that finishes finishes as the from-scratch evaluation does. *)
Theorem C57_panics_exactly_when c k o s : tame opt md c → exec k c (dcg_new_flags md opt) = (o, s) → o ≠ OFuel →
  match o with
  | OVal v => from_scratch md c v (holds s)
  | OPanic r => r = PUser ∧ from_scratch_panics md c
  | OFuel => False
  end.
Proof.
  intros Ht Hx Ho. destruct (C57_same_outcome c Ht) as [(v & σ & s1 & Hfs & (K & Hk) & Hh & _)|(Hfs & s1 & K & Hk)].
  - assert (exec (K + k)%nat c (dcg_new_flags md opt) = (o, s)) as E by (eapply exec_fuel_mono; [exact Hx|done|lia]).
    rewrite Hk in E by lia. injection E as <- <-. by rewrite Hh.
  - assert (exec (K + k)%nat c (dcg_new_flags md opt) = (o, s)) as E by (eapply exec_fuel_mono; [exact Hx|done|lia]).
    rewrite Hk in E by lia. injection E as <- <-. done.
Qed.

(** The same for one demand after any disciplined history. *)
Theorem C57_demand s t l : reached opt md s → tame_demand opt md t l (holds s) →
  (∃ v σ' lg s', demand_from_scratch md t l (holds s) v σ' lg ∧ demand t l s v s' ∧ holds s' = σ' ∧ reached opt md s') ∨
  (demand_from_scratch_panics md t l (holds s) ∧ ∃ s', demand_panics t l s s').
Proof.
  intros Hs (n & [v p|] & Hp).
  - left. destruct (demand_after_history opt md s t l Hs) as (v1 & σ' & lg & s' & rs & H1 & H2 & H3 & _ & _ & _ & H4).
    { exists n, v, p. by apply pd_force. }
    by exists v1, σ', lg, s'.
  - right. split.
    { exists n. exact (pr_force opt md n [] md t l None (d_init (holds s)) [] Hp). }
    destruct (reached_Ed opt md s Hs) as (_ & _ & _ & n0 & c0 & v0 & Hd0 & k0 & Hx0).
    destruct (raise_panics (n0 + n) (cbind c0 (λ _, Force t (ALoc l) None Ret))) as (s' & K & Hk).
    { unfold p_exec. rewrite p_run_cbind. unfold pbind. apply p_exec_val in Hd0.
      eapply (p_exec_mono opt md n0 (n0 + n)%nat) in Hd0; [|lia]. unfold p_exec in Hd0. rewrite Hd0.
      cbn [p_run p_art]. unfold pbind. eapply (p_force_mono opt md n (n0 + n)%nat) in Hp; [|lia]. by rewrite Hp. }
    exists s', (K + k0)%nat. intros k Hle. specialize (Hk k ltac:(lia)). unfold exec in Hk. rewrite run_cbind in Hk.
    rewrite (bind_val _ _ _ v0 s) in Hk.
    2:{ eapply exec_fuel_mono; [exact Hx0|done|lia]. }
    cbn [run force_art] in Hk. unfold bind in Hk. destruct (force k t l None s) as [[v|r|] s2]; try done.
Qed.

(** A demand never answers from the cache when its from-scratch evaluation panics. *)
Theorem C57_no_stale_answer s t l k o s' : reached opt md s → tame_demand opt md t l (holds s) →
  demand_from_scratch_panics md t l (holds s) → force k t l None s = (o, s') → o = OFuel ∨ o = OPanic PUser.
Proof.
  intros Hs Ht (n & Hn) Hx. destruct (C57_demand s t l Hs Ht) as [(v & σ' & lg & s1 & (n' & Hn') & _)|(_ & s1 & K & Hk)].
  - exfalso.
    assert (F1 := ref_force_mono n (n + n') [] md t l None ltac:(lia) _ _ Hn ltac:(done)).
    assert (F2 := ref_force_mono n' (n + n') [] md t l None ltac:(lia) _ _ Hn' ltac:(done)). rewrite F1 in F2. done.
  - destruct o as [v|r|]; [| |by left]; right.
    + assert (force (K + k)%nat t l None s = (OVal v, s')) as E by (eapply force_fuel_mono; [exact Hx|done|lia]).
      rewrite Hk in E by lia. done.
    + assert (force (K + k)%nat t l None s = (OPanic r, s')) as E by (eapply force_fuel_mono; [exact Hx|done|lia]).
      rewrite Hk in E by lia. injection E as <- _. done.
Qed.
End Crash.

(** ** Examples *)
Local Open Scope string_scope.
Local Open Scope list_scope.
(** "x" is the constant 1 while the cell "c" holds 0, and otherwise demands "a", whose body panics;
    "z" demands "x". *)
Definition crash_setup : comp :=
  Cell T0 (nm "c") (VInt 0) (λ _,
  Thunk T0 (NCNominal (nm "a")) "boom" VUnit VUnit (λ _,
  Thunk T0 (NCNominal (nm "x")) "switch" VUnit VUnit (λ x,
  Thunk T0 (NCNominal (nm "z")) "get" (VLoc x) VUnit (λ z,
  Force T0 (ALoc z) None (λ _,
  SetC T0 (ALoc (at_ "c")) (VInt 1) (Ret VUnit)))))).
Definition crash_demand (x : string) : comp := Force T0 (ALoc (at_ x)) None Ret.
Definition crash_edit (z : Z) : comp := Cell T0 (nm "c") (VInt z) (λ _, Ret VUnit).
Local Instance crash_prog : Prog := demo.

Lemma reached_intro opt md k n c v : (exec k c (dcg_new_flags md opt)).1 = OVal v →
  match d_exec opt md n c (d_init ∅) with Some _ => true | None => false end = true →
  reached opt md (exec k c (dcg_new_flags md opt)).2.
Proof.
  intros E Hd. exists c, k, v. split; [by eapply disciplined_intro|]. rewrite <- E. by destruct (exec k c (dcg_new_flags md opt)).
Qed.
Lemma tame_demand_intro opt md n t l σ :
  match p_force opt md n [] md t l (d_init σ) with Some _ => true | None => false end = true → tame_demand opt md t l σ.
Proof. destruct (p_force opt md n [] md t l (d_init σ)) as [o|] eqn:E; [|done]. intros _. by exists n, o. Qed.

Definition crash_state : dcg := (exec 30 crash_setup dcg_new).2.
(** The hypotheses of [C57_demand] and [C57_no_stale_answer]: a reached state in which "z" has a cached
    value and its demand is tame and panics from scratch. *)
Lemma C57_demand_example :
  reached true false crash_state ∧ tame_demand true false T0 (at_ "z") (holds crash_state) ∧
  demand_from_scratch_panics false T0 (at_ "z") (holds crash_state) ∧
  ∃ n, table crash_state !! at_ "z" = Some (NComp n) ∧ c_res n = Some (VInt 1).
Proof.
  split_and!.
  - eapply (reached_intro true false 30 30); vm_compute; reflexivity.
  - apply (tame_demand_intro _ _ 30). vm_compute. reflexivity.
  - exists 30%nat. vm_compute. reflexivity.
  - eexists. split; vm_compute; reflexivity.
Qed.

(** ** C58: after a caught panic *)
Section After.
Context `{Prog}.
(** Whatever the program and however it was used: if user code panics during a demand and the client catches the
    panic, then some thunk (one that was being evaluated) can never be demanded again, whatever the client does in
    between -- repairing the inputs included: every demand of it panics, without changing anything. *)
Theorem C58_panicked_thunk_is_lost n t l cyc s s1 :
  stack s = [] → force n t l cyc s = (OPanic PUser, s1) →
  ∃ x c, table s1 !! x = Some (NComp c) ∧ ∀ s2, later s1 s2 → ∀ k t',
    force k t' x None s2 = (OPanic (if decide (t' = c_ty c) then PCycle else PType), s2).
Proof.
  intros Hst E. destruct (user_panic_locs _ _ _ _ _ _ Hst E) as [Hne Hth].
  destruct (locs s1) as [|x xs] eqn:El; [done|]. destruct (Hth x) as [c Hc]; [by left|].
  exists x, c. split; [done|]. intros s2 Hlat k t'. destruct (later_locs _ _ Hlat) as [(ys & Hys) _].
  assert (∃ c2, table s2 !! x = Some (NComp c2) ∧ c_ty c2 = c_ty c) as (c2 & Hc2 & Hty).
  { clear -Hlat Hc. revert c Hc. induction Hlat as [|s s1 s2 n c' o _ IH Ex _]; intros c Hc; [by exists c|].
    destruct (IH c Hc) as (c1 & Hc1 & Ht1). destruct (ap_ty _ _ (exec_anyp _ _ _ _ _ Ex) _ _ Hc1) as (nd & Hn & Ht & Hk).
    destruct nd as [| |c2]; [by specialize (Hk eq_refl)..|]. exists c2. split; [done|]. simpl in Ht. congruence. }
  destruct (decide (t' = c_ty c)) as [->|Hne'].
  - apply (C17_cycle_panics k _ x c2); [|done|done]. change (x ∈ locs s2). rewrite Hys, El. set_solver.
  - unfold force, force_loc. rewrite (bind_val get _ s2 s2 s2) by done. cbv zeta. unfold bind at 1.
    unfold res_node, lookup_abs, bind, get. rewrite Hc2. simpl. unfold assert. rewrite bool_decide_eq_false_2 by congruence. done.
Qed.
End After.

Lemma dfs_intro n md t l σ v :
  match ref_force n [] md t l None (RState σ []) with ROk w _ => w = v | _ => False end →
  ∃ σ' lg, demand_from_scratch md t l σ v σ' lg.
Proof.
  destruct (ref_force n [] md t l None (RState σ [])) as [w [σ' lg]|r|] eqn:E; try done. intros ->. exists σ', lg, n. exact E.
Qed.
Definition after_panic : dcg := (force 30 T0 (at_ "z") None crash_state).2.
(** The claim that after a caught panic the engine goes on answering demands like a from-scratch evaluation is false
    (1): the first demand of "z" panics, rightly; the second one returns the old cached value although nothing changed
    and the from-scratch evaluation still panics. *)
Theorem C58_stale_after_panic_refuted :
  demand_panics T0 (at_ "z") crash_state after_panic ∧
  demand_from_scratch_panics false T0 (at_ "z") (holds after_panic) ∧
  ∃ s, demand T0 (at_ "z") after_panic (VInt 1) s.
Proof.
  split_and!.
  - exists 30%nat. intros k Hk. assert ((force 30 T0 (at_ "z") None crash_state).1 = OPanic PUser) as E by (vm_compute; reflexivity).
    eapply force_fuel_mono; [|discriminate|exact Hk]. unfold after_panic. rewrite <- E. apply surjective_pairing.
  - exists 30%nat. vm_compute. reflexivity.
  - exists (force 30 T0 (at_ "z") None after_panic).2, 30%nat. intros k Hk.
    assert ((force 30 T0 (at_ "z") None after_panic).1 = OVal (VInt 1)) as E by (vm_compute; reflexivity).
    eapply force_fuel_mono; [|discriminate|exact Hk]. rewrite <- E. apply surjective_pairing.
Qed.
(** (2): the input is repaired (the cell "c" allocated again with its first value), so that the from-scratch
    evaluation of "x" returns 1; the demand of "x" panics. *)
Definition repaired : dcg := (exec 30 (crash_edit 0) after_panic).2.
Theorem C58_no_recovery_refuted :
  returns (crash_edit 0) after_panic VUnit repaired ∧
  (∃ σ lg, demand_from_scratch false T0 (at_ "x") (holds repaired) (VInt 1) σ lg) ∧
  ∀ k, force k T0 (at_ "x") None repaired = (OPanic PCycle, repaired).
Proof.
  split_and!.
  - assert ((exec 30 (crash_edit 0) after_panic).1 = OVal VUnit) as E by (vm_compute; reflexivity).
    exact (returns_intro 30 (crash_edit 0) after_panic VUnit E).
  - apply (dfs_intro 30). vm_compute. reflexivity.
  - intros k. eapply (C17_cycle_panics k T0 (at_ "x")).
    + vm_compute. right. left.
    + vm_compute. reflexivity.
    + vm_compute. reflexivity.
Qed.
(** The hypothesis of [C57_same_outcome], with its second outcome: the whole program is tame, and panics. *)
Lemma C57_program_example : tame true false (cbind crash_setup (λ _, crash_demand "z")) ∧
  from_scratch_panics false (cbind crash_setup (λ _, crash_demand "z")) ∧
  (exec 30 (cbind crash_setup (λ _, crash_demand "z")) dcg_new).1 = OPanic PUser.
Proof.
  split_and!.
  - exists 30%nat, PRaise. vm_compute. reflexivity.
  - exists 30%nat. vm_compute. reflexivity.
  - vm_compute. reflexivity.
Qed.
