(** * Examples for C67: a session that meets the hypotheses, and the bounds are reached. *)
From Verif Require Import CatExamples IncTree.
Local Open Scope string_scope.
Local Open Scope list_scope.

(** A perfect tree with four leaves and a bigger one with binary nodes; the monoid is addition. *)
Definition le_ (z : Z) : tre := TL (VInt z).
Definition it_in (z : Z) : tre := TM (nu 2) 4 (le_ z) (le_ 2).
Definition it_t (z : Z) : tre := TM (nu 1) 7 (it_in z) (TM (nu 3) 5 (le_ 3) (le_ 4)).
(** The place of the first leaf. *)
Definition it_p : place := PMl (nu 1) 7 (PMl (nu 2) 4 PHere (le_ 2)) (TM (nu 3) 5 (le_ 3) (le_ 4)).
(** The first leaf exchanged with 1 + 2 = 3 + 0: the value of the subtree stays the same. *)
Definition it_cut : tre := TM (nu 1) 7 (TM (nu 2) 4 (TB 2 (le_ 1) (TB 1 (le_ 1) (le_ (-1)))) (le_ 2)) (TM (nu 3) 5 (le_ 3) (le_ 4)).
(** A new named node under the first leaf's place. *)
Definition it_new : tre := TM (nu 1) 7 (TM (nu 2) 4 (TM (nu 9) 1 (le_ 1) (le_ 5)) (le_ 2)) (TM (nu 3) 5 (le_ 3) (le_ 4)).
Definition it_ns : name := name_of_string "sum".
Definition it_session : list tre := [it_t 1; it_t 10; it_t 1; it_cut; it_cut; it_new].
Notation it_reruns w := (reruns (VInt 0) ex_add w).
Notation it_note w := (note (VInt 0) ex_add w).

Lemma ex_it_hyps : Forall (ok_tree 10) it_session ∧ (∀ z, plug it_p (le_ z) = it_t z) ∧ perfect 2 (it_t 1) ∧ leaves (it_t 1) = 4%nat.
Proof.
  split; [|split; [done|split; [by vm_compute|done]]].
  repeat (apply Forall_cons_2; [split; [vm_compute; lia|apply (bool_decide_unpack _); vm_compute; reflexivity]|]). apply Forall_nil_2.
Qed.

(** All six thunks; the two above the changed leaf; the same two back; only the innermost one, as the sum there stays the
    same; none; and with a new name its two thunks and the two above. *)
Lemma ex_it_counts : let L0 : name → option _ := λ _, None in let L1 := it_note WMonoid L0 (cells (it_t 1)) in
  let L2 := it_note WMonoid L1 (cells (it_t 10)) in let L3 := it_note WMonoid L2 (cells (it_t 1)) in
  let L4 := it_note WMonoid L3 (cells it_cut) in
  length (it_reruns WMonoid L0 (cells (it_t 1))) = 6%nat ∧
  it_reruns WMonoid L1 (cells (it_t 10)) = [k1 (nu 1); k1 (nu 2)] ∧ it_reruns WMonoid L2 (cells (it_t 1)) = [k1 (nu 1); k1 (nu 2)] ∧
  it_reruns WMonoid L3 (cells it_cut) = [k1 (nu 2)] ∧ it_reruns WMonoid L4 (cells it_cut) = [] ∧
  it_reruns WMonoid L4 (cells it_new) = [k1 (nu 1); k1 (nu 2); k1 (nu 9); k2 (nu 9)].
Proof. cbv zeta. split; [vm_compute; reflexivity|]. repeat (split; [vm_compute; reflexivity|]). vm_compute; reflexivity. Qed.

(** The same session on the engine itself: 6 + 2 + 2 + 1 + 0 + 4 runs. *)
Definition it_out (w : folding) := exec (H := ex_cat 10) 60 (rounds (VInt 0) ex_add 10 w it_ns it_session []) (dcg_new_flags false true).
Lemma ex_it_engine : fst (it_out WMonoid) = OVal (foldr VPair VUnit (map VInt [10; 19; 10; 10; 10; 15]%Z)) ∧ length (runs (snd (it_out WMonoid))) = 15%nat.
Proof. split; vm_compute; reflexivity. Qed.
(** [eager_tree_of_tree] copies the tree: no value on the way stays the same. *)
Lemma ex_it_engine_eager : (∃ v, fst (it_out WEager) = OVal v) ∧ length (runs (snd (it_out WEager))) = 16%nat.
Proof. split; [eexists; vm_compute; reflexivity|vm_compute; reflexivity]. Qed.
Lemma ex_it_theorem w : ∃ s', returns (H := ex_cat 10) (rounds (VInt 0) ex_add 10 w it_ns it_session []) (dcg_new_flags false true)
    (foldr VPair VUnit (value (VInt 0) ex_add w <$> it_session)) s' ∧
  runs s' ≡ₚ img it_ns <$> all_reruns (VInt 0) ex_add w (λ _, None) it_session.
Proof.
  destruct ex_it_hyps as [Hh _].
  destruct (C67_sessions ex_body ex_pred (VInt 0) ex_add ex_le 10 (λ _, 0%N) (λ _ _, 0%N) w it_ns true it_session ltac:(lia) Hh) as (s' & Ha & Hb).
  exists s'. split; [exact Ha|exact Hb].
Qed.
