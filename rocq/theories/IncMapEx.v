(** * Examples for C64: a session of five rounds that meets the hypotheses, and the bounds are reached. *)
From Verif Require Import CatExamples IncMap.
Local Open Scope string_scope.
Local Open Scope list_scope.

(** Six chunks; a chunk inserted in the middle; an element of a chunk changed; the same list again; back to the first list. *)
Definition mk (l : list (N * list Z)) : list (name * list val) := map (λ c : N * list Z, (nu c.1, map VInt c.2)) l.
Definition im_a : list (name * list val) := mk [(1%N, [5; 6]%Z); (2%N, [7]%Z); (3%N, []); (4%N, [1; 2; 3]%Z); (5%N, [9]%Z); (6%N, [8]%Z)].
Definition im_b : list (name * list val) := mk [(1%N, [5; 6]%Z); (2%N, [7]%Z); (3%N, []); (40%N, [0]%Z); (4%N, [1; 2; 3]%Z); (5%N, [9]%Z); (6%N, [8]%Z)].
Definition im_c : list (name * list val) := mk [(1%N, [5; 6]%Z); (2%N, [7]%Z); (3%N, []); (40%N, [0]%Z); (4%N, [1; 4; 3]%Z); (5%N, [9]%Z); (6%N, [8]%Z)].
Definition im_ns : name := name_of_string "map".
Definition im_session : list (list val * list (name * list val)) := [([VInt 1], im_a); ([VInt 1], im_b); ([], im_c); ([], im_c); ([VInt 2; VInt 3], im_a)].
Notation im_reruns := (reruns ex_body ex_pred WMap).
Notation im_note := (note ex_body ex_pred WMap).
Notation if_reruns := (reruns ex_body ex_pred WFilter).
Notation if_note := (note ex_body ex_pred WFilter).

Lemma ex_im_hyps : Forall (ok_round 10) im_session.
Proof.
  repeat (apply Forall_cons_2; [split; [simpl; lia|split; [repeat constructor; simpl; lia|apply (bool_decide_unpack _); vm_compute; reflexivity]]|]). apply Forall_nil_2.
Qed.

(** How many thunks run in each round: all six; three for the insertion; two for the change; none; and three to go back
    (chunk 4, whose elements had changed since, and the two before the removed chunk, 2 and 3). *)
Example ex_im_counts : let L0 : name → option _ := λ _, None in
  length (im_reruns L0 im_a) = 6%nat ∧
  im_reruns (im_note L0 im_a) im_b = [nu 2; nu 3; nu 40] ∧
  im_reruns (im_note (im_note L0 im_a) im_b) im_c = [nu 40; nu 4] ∧
  im_reruns (im_note (im_note (im_note L0 im_a) im_b) im_c) im_c = [] ∧
  im_reruns (im_note (im_note (im_note (im_note L0 im_a) im_b) im_c) im_c) im_a = [nu 2; nu 3; nu 4].
Proof. cbv zeta. split; [vm_compute; reflexivity|]. split; [vm_compute; reflexivity|]. split; [vm_compute; reflexivity|]. split; vm_compute; reflexivity. Qed.

(** With [list_filter_eager] (even numbers): the insertion of 0 is seen, the change of 2 to 4 in chunk 4 too, but a change
    of odd numbers only runs the changed chunk. *)
Definition im_d : list (name * list val) := mk [(1%N, [5; 6]%Z); (2%N, [7]%Z); (3%N, []); (40%N, [0]%Z); (4%N, [11; 4; 13; 15]%Z); (5%N, [9]%Z); (6%N, [8]%Z)].
Example ex_if_counts : let L0 : name → option _ := λ _, None in
  if_reruns (if_note L0 im_a) im_b = [nu 2; nu 3; nu 40] ∧
  if_reruns (if_note (if_note L0 im_a) im_b) im_c = [nu 40; nu 4] ∧
  if_reruns (if_note (if_note (if_note L0 im_a) im_b) im_c) im_d = [nu 4].
Proof. cbv zeta. split; [vm_compute; reflexivity|]. split; vm_compute; reflexivity. Qed.

(** The same session on the engine itself. *)
Definition im_out := exec (H := ex_cat 10) 60 (rounds ex_body ex_pred 10 WMap im_ns im_session []) (dcg_new_flags false true).
Definition if_out := exec (H := ex_cat 10) 60 (rounds ex_body ex_pred 10 WFilter im_ns [([], im_a); ([], im_b); ([], im_c); ([], im_d)] []) (dcg_new_flags false true).
Example ex_im_engine : (∃ v, fst im_out = OVal v) ∧ length (runs (snd im_out)) = 14%nat.
Proof. split; [eexists; vm_compute; reflexivity|vm_compute; reflexivity]. Qed.
Example ex_if_engine : (∃ v, fst if_out = OVal v) ∧ length (runs (snd if_out)) = 12%nat.
Proof. split; [eexists; vm_compute; reflexivity|vm_compute; reflexivity]. Qed.
Lemma ex_im_theorem w : ∃ s', returns (H := ex_cat 10) (rounds ex_body ex_pred 10 w im_ns im_session []) (dcg_new_flags false true)
    (foldr VPair VUnit (result ex_body ex_pred w im_ns <$> im_session)) s' ∧
  runs s' ≡ₚ img im_ns <$> all_reruns ex_body ex_pred w (λ _, None) im_session.
Proof.
  destruct (C64_sessions ex_body ex_pred (VInt 0) ex_add ex_le 10 (λ _, 0%N) (λ _ _, 0%N) w im_ns true im_session ex_im_hyps) as (s' & Ha & Hb & _).
  exists s'. split; [exact Ha|exact Hb].
Qed.

(** C65 on the state of the early cut-off example (Cutoff.v): one of two thunks runs; from inside a namespace the same demand
    gives the same value and the same state. *)
Lemma ex_any_namespace p : cpath (ex_c2 10) = cpath (ex_c1 10) ∧
  force (H := demo) 40 T0 (at_ "t") None (set_cpath p (ex_c1 10)) = (OVal (VInt 1), set_cpath p (ex_c2 10)).
Proof. destruct ex_c1_demand as [_ Hf]. destruct (force_ignores_namespace (H := demo) _ _ _ _ _ _ _ Hf) as [H1 H2]. split; [exact H1|apply H2]. Qed.
