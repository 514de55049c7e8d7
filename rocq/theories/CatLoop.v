(** * C59: [mergesort_list_of_tree2] makes an endless list.

    [mergesort_list_of_tree2] (collections.rs:990-1010) uses a name of the tree both in its [leaf] closure (as a name
    in the list for the leaf) and in its [name] closure (as the name of a merge).  When the leaf takes part in that
    merge, the merge allocates the thunk [fork(name).0] while it is itself the body of the thunk [fork(name).0]. *)
From Verif Require Export CatRefuted.
Local Open Scope string_scope.
Local Open Scope list_scope.

(** collections.rs:860-880, [vec_of_list] with a limit [Some (S m)], as in [c_vec]. *)
Fixpoint c_vec_limit (m : nat) (l : val) : comp :=
  l_elim (S m) l (Ret v_nil)
    (λ x tl, match m with O => Ret (v_cons x v_nil) | S m => cbind (c_vec_limit m tl) (λ tl, Ret (v_cons x tl)) end)
    (λ n tl, match m with O => Ret (v_lname n v_nil) | S m => cbind (c_vec_limit m tl) (λ tl, Ret (v_lname n tl)) end).

(** [tree_of_list(dir, [1; 3; name 1; 5])], then [mergesort_list_of_tree2(tree, None)], each in its own namespace. *)
Definition loop_input : list (name_else val) := [te 1; te 3; tn 1; te 5].
Definition sorted2 (d : dir2) : comp :=
  prepend_toks loop_input v_nil (λ l,
  cbind (in_ns 0 "tree" (c_tree_of_list 30 d l)) (λ t, in_ns 0 "sort" (c_mergesort2 ex_le 30 t None))).
(** The thunk in question. *)
Definition loop_thunk : loc := Loc [name_of_string "merge"; stage_ns 0 "sort"] (IdNom (name_fork (nu 1)).1).
(** What it returns: 3, followed by itself. *)
Definition loop_val : val := v_lname (name_fork (nu 1)).2 (v_cons (VInt 3) (v_lart loop_thunk)).
Definition loop_head : val := v_lname (name_fork (nu 1)).2 (v_cons (VInt 1) (v_lart loop_thunk)).

(** The answer that is read, [m] tokens of it: a name, 1, and then for ever the same name and 3. *)
Fixpoint loop_tail (m : nat) : list (name_else val) :=
  match m with O => [] | 1%nat => [NName (name_fork (nu 1)).2] | S (S m) => NName (name_fork (nu 1)).2 :: te 3 :: loop_tail m end.
Definition loop_toks (m : nat) : list (name_else val) :=
  match m with O => [] | 1%nat => [NName (name_fork (nu 1)).2] | S (S m) => NName (name_fork (nu 1)).2 :: te 1 :: loop_tail m end.

Section Loop.
Local Instance PL : Prog := ex_cat 30.
Definition looping (s : dcg) : Prop := stack s = [] ∧
  ∃ c, table s !! loop_thunk = Some (NComp c) ∧ c_ty c = TyList ∧ c_res c = Some loop_val ∧ ∀ e, e ∈ c_succs c → s_dirty e = false.
Definition has_loop (nd : option node) : bool :=
  match nd with
  | Some (NComp c) => bool_decide (c_ty c = TyList) && bool_decide (c_res c = Some loop_val) && forallb (λ e, negb (s_dirty e)) (c_succs c)
  | _ => false
  end.
Lemma has_loop_spec s : stack s = [] → has_loop (table s !! loop_thunk) = true → looping s.
Proof.
  intros Hs Hh. split; [done|]. destruct (table s !! loop_thunk) as [[| |c]|]; [done|done| |done]. exists c.
  apply andb_true_iff in Hh as [Hh He]. apply andb_true_iff in Hh as [Ht Hr]. apply bool_decide_eq_true in Ht, Hr. split_and!; try done.
  intros e Hin. rewrite forallb_forall in He. apply elem_of_list_In in Hin. specialize (He _ Hin). by destruct (s_dirty e).
Qed.
Lemma loop_force k s : looping s → ∃ s', force (S k) TyList loop_thunk None s = (OVal loop_val, s') ∧ looping s'.
Proof.
  intros (Hs & c & Hc & Ht & Hr & He). destruct (C05_clean_cache_hit s TyList loop_thunk c loop_val k None Hs Hc Ht Hr He) as (s' & E & H1 & H2 & _).
  exists s'. split; [done|]. split; [congruence|]. exists c. by rewrite H1.
Qed.
Lemma first_force : ∃ s0 s1, exec 60 (sorted2 DRight) dcg_new = (OVal loop_head, s0) ∧ force 60 TyList loop_thunk None s0 = (OVal loop_val, s1) ∧ looping s1.
Proof.
  exists (exec 60 (sorted2 DRight) dcg_new).2, (force 60 TyList loop_thunk None (exec 60 (sorted2 DRight) dcg_new).2).2.
  assert ((exec 60 (sorted2 DRight) dcg_new).1 = OVal loop_head) as <- by (vm_compute; reflexivity).
  assert ((force 60 TyList loop_thunk None (exec 60 (sorted2 DRight) dcg_new).2).1 = OVal loop_val) as <- by (vm_compute; reflexivity).
  split; [apply surjective_pairing|]. split; [apply surjective_pairing|]. apply has_loop_spec; vm_compute; reflexivity.
Qed.
Lemma run_bind_panic frc c g s r : (run frc c s).1 = OPanic r → (run frc (cbind c g) s).1 = OPanic r.
Proof. intros E. rewrite run_cbind. by apply bind_panic1. Qed.
Lemma vec_loops k F s : looping s →
  (run (force (S k)) (c_vec F (v_lart loop_thunk)) s).1 = OPanic PUser ∧
  (run (force (S k)) (c_vec F (v_cons (VInt 3) (v_lart loop_thunk))) s).1 = OPanic PUser.
Proof.
  revert s. induction F as [|F IH]; intros s Hs; [done|]. cbn [c_vec]. split.
  - destruct F as [|F']; [done|]. change (l_elim (S F') (v_lart loop_thunk)) with (λ a b c, Force TyList (ALoc loop_thunk) None (λ v, l_elim F' v a b c)).
    cbv beta. cbn [run force_art]. destruct (loop_force k s Hs) as (s' & E & Hs'). rewrite (bind_val _ _ _ _ _ E).
    assert (∀ a b c, l_elim F' loop_val a b c = c (name_fork (nu 1)).2 (v_cons (VInt 3) (v_lart loop_thunk))) as -> by (intros; by destruct F').
    apply run_bind_panic. by apply IH.
  - assert (∀ a b c, l_elim F (v_cons (VInt 3) (v_lart loop_thunk)) a b c = b (VInt 3) (v_lart loop_thunk)) as -> by (intros; by destruct F).
    apply run_bind_panic. by apply IH.
Qed.
(** As [vec_loops], from the unevaluated thunk: one step less is left, as [s0] only becomes [looping] by forcing it. *)
Lemma vec_first k F s s' : force (S k) TyList loop_thunk None s = (OVal loop_val, s') → looping s' →
  (run (force (S k)) (c_vec F loop_head) s).1 = OPanic PUser.
Proof.
  intros E Hs. destruct F as [|F]; [done|]. cbn [c_vec].
  assert (∀ a b c, l_elim F loop_head a b c = c (name_fork (nu 1)).2 (v_cons (VInt 1) (v_lart loop_thunk))) as -> by (intros; by destruct F).
  apply run_bind_panic. destruct F as [|F]; [done|]. cbn [c_vec].
  assert (∀ a b c, l_elim F (v_cons (VInt 1) (v_lart loop_thunk)) a b c = b (VInt 1) (v_lart loop_thunk)) as -> by (intros; by destruct F).
  apply run_bind_panic. destruct F as [|F]; [done|]. cbn [c_vec]. destruct F as [|F]; [done|].
  change (l_elim (S F) (v_lart loop_thunk)) with (λ a b c, Force TyList (ALoc loop_thunk) None (λ v, l_elim F v a b c)).
  cbv beta. cbn [run force_art]. rewrite (bind_val _ _ _ _ _ E).
  assert (∀ a b c, l_elim F loop_val a b c = c (name_fork (nu 1)).2 (v_cons (VInt 3) (v_lart loop_thunk))) as -> by (intros; by destruct F).
  apply run_bind_panic. by apply (vec_loops k (S F)).
Qed.

(** Reading the whole list never ends: no number [F] of steps is enough, whatever the engine's budget. *)
Lemma never_read F k v : (exec k (cbind (sorted2 DRight) (c_vec F)) dcg_new).1 ≠ OVal v.
Proof.
  intros E. destruct first_force as (s0 & s1 & E0 & E1 & Hs).
  assert ((exec (k + 60) (cbind (sorted2 DRight) (c_vec F)) dcg_new).1 = OVal v) as E2.
  { destruct (exec k (cbind (sorted2 DRight) (c_vec F)) dcg_new) as [o s] eqn:Ex. simpl in E. subst o.
    rewrite (exec_fuel_mono _ (k + 60) _ _ _ _ Ex); [done|done|lia]. }
  unfold exec in E2. rewrite run_cbind in E2.
  assert (run (force (k + 60)) (sorted2 DRight) dcg_new = (OVal loop_head, s0)) as E0' by (eapply (exec_fuel_mono 60); [exact E0|done|lia]).
  rewrite (bind_val _ _ _ _ _ E0') in E2.
  assert (force (S (k + 59)) TyList loop_thunk None s0 = (OVal loop_val, s1)) as E1' by (eapply (force_fuel_mono 60); [exact E1|done|lia]).
  replace (k + 60)%nat with (S (k + 59)) in E2 by lia. rewrite (vec_first _ F _ _ E1' Hs) in E2. done.
Qed.

Lemma run_bind_val frc c g s v s' : run frc c s = (OVal v, s') → run frc (cbind c g) s = run frc (g v) s'.
Proof. intros E. by rewrite run_cbind, (bind_val _ _ _ _ _ E). Qed.
Lemma limit_name m n tl : c_vec_limit m (v_lname n tl) =
  match m with O => Ret (v_lname n v_nil) | S m => cbind (c_vec_limit m tl) (λ tl, Ret (v_lname n tl)) end.
Proof. by destruct m. Qed.
Lemma limit_cons m x tl : c_vec_limit m (v_cons x tl) =
  match m with O => Ret (v_cons x v_nil) | S m => cbind (c_vec_limit m tl) (λ tl, Ret (v_cons x tl)) end.
Proof. by destruct m. Qed.
Lemma limit_art m l : c_vec_limit m (v_lart l) = Force TyList (ALoc l) None (λ v, l_elim m v (Ret v_nil)
    (λ x tl, match m with O => Ret (v_cons x v_nil) | S m => cbind (c_vec_limit m tl) (λ tl, Ret (v_cons x tl)) end)
    (λ n tl, match m with O => Ret (v_lname n v_nil) | S m => cbind (c_vec_limit m tl) (λ tl, Ret (v_lname n tl)) end)).
Proof. by destruct m. Qed.
Lemma elim_name F n tl a b c : l_elim F (v_lname n tl) a b c = c n tl.
Proof. by destruct F. Qed.
Lemma limit_loops k m : ∀ s, looping s →
  (∃ s', run (force (S k)) (c_vec_limit m (v_lart loop_thunk)) s = (OVal (v_toks (loop_tail (S m))), s')) ∧
  (∃ s', run (force (S k)) (c_vec_limit m (v_cons (VInt 3) (v_lart loop_thunk))) s = (OVal (v_toks (te 3 :: loop_tail m)), s')).
Proof.
  induction m as [|m IH]; intros s Hs; split.
  - rewrite limit_art. cbn [run force_art]. destruct (loop_force k s Hs) as (s' & E & Hs'). rewrite (bind_val _ _ _ _ _ E). by exists s'.
  - by exists s.
  - rewrite limit_art. cbn [run force_art]. destruct (loop_force k s Hs) as (s' & E & Hs'). rewrite (bind_val _ _ _ _ _ E).
    unfold loop_val. rewrite elim_name. destruct (proj2 (IH s' Hs')) as (s'' & E'). erewrite run_bind_val by exact E'. by exists s''.
  - rewrite limit_cons. destruct (proj1 (IH s Hs)) as (s'' & E'). erewrite run_bind_val by exact E'. by exists s''.
Qed.
Lemma limit_first k m s s' : force (S k) TyList loop_thunk None s = (OVal loop_val, s') → looping s' →
  ∃ s'', run (force (S k)) (c_vec_limit m loop_head) s = (OVal (v_toks (loop_toks (S m))), s'').
Proof.
  intros E Hs. unfold loop_head. rewrite limit_name. destruct m as [|m]; [by exists s|].
  assert (∃ s'', run (force (S k)) (c_vec_limit m (v_cons (VInt 1) (v_lart loop_thunk))) s = (OVal (v_toks (te 1 :: loop_tail m)), s'')) as (s'' & E').
  { rewrite limit_cons. destruct m as [|m]; [by exists s|].
    assert (∃ s'', run (force (S k)) (c_vec_limit m (v_lart loop_thunk)) s = (OVal (v_toks (loop_tail (S m))), s'')) as (s'' & E').
    { rewrite limit_art. cbn [run force_art]. rewrite (bind_val _ _ _ _ _ E). unfold loop_val. rewrite elim_name. destruct m as [|m]; [by exists s'|].
      destruct (proj2 (limit_loops k m s' Hs)) as (s'' & E'). erewrite run_bind_val by exact E'. by exists s''. }
    erewrite run_bind_val by exact E'. by exists s''. }
  erewrite run_bind_val by exact E'. by exists s''.
Qed.
(** Reading with a limit gives the wrong elements, as many as wanted. *)
Lemma read_limited m : ∃ s, returns (cbind (sorted2 DRight) (c_vec_limit m)) dcg_new (v_toks (loop_toks (S m))) s.
Proof.
  destruct first_force as (s0 & s1 & E0 & E1 & Hs). destruct (limit_first 59 m s0 s1 E1 Hs) as (s2 & E2).
  exists s2. exists 60%nat. intros k Hk. eapply (exec_fuel_mono 60); [|done|exact Hk]. unfold exec. erewrite run_bind_val by exact E0. exact E2.
Qed.
End Loop.
(** The meaning of the same calls on the data structures alone: the list is sorted. *)
Definition pure_sorted (d : dir2) : list val :=
  match tree_of_list 30 d (list_of_vec loop_input) with Built t => elems (mergesort_list_of_tree2 ex_le t None) | _ => [] end.
(** C59.  [mergesort_list_of_tree2] does not compute what it computes on the data structures without the engine (which is
    the sorted list, C37): for the tree built from [1; 3; name; 5] towards the right it gives the list 1, 3, 3, 3, …
    without end: [vec_of_list] on it does not terminate, and with a limit it returns these elements. *)
Theorem C59_mergesort2_refuted :
  pure_sorted DRight = [VInt 1; VInt 3; VInt 5] ∧
  (∀ F k v, (@exec (ex_cat 30) k (cbind (sorted2 DRight) (c_vec F)) dcg_new).1 ≠ OVal v) ∧
  (∀ m, ∃ s, @returns (ex_cat 30) (cbind (sorted2 DRight) (c_vec_limit m)) dcg_new (v_toks (loop_toks (S m))) s).
Proof. split_and!; [vm_compute; reflexivity|exact never_read|exact read_limited]. Qed.
(** For the tree built towards the left all is well. *)
Lemma ex_sort2_left : ∃ s, @returns (ex_cat 30) (cbind (sorted2 DLeft) (c_vec 30)) dcg_new (v_toks [te 1; te 3; tn 1; te 5]) s.
Proof. eexists. eapply (returns_intro 60). vm_compute. reflexivity. Qed.
