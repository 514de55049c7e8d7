(** * Examples for C68: a session of six rounds that meets the hypotheses, and the bounds are reached. *)
From Verif Require Import CatExamples IncRev.
Local Open Scope string_scope.
Local Open Scope list_scope.

(** Six chunks; other elements in front; a chunk changed; a chunk inserted in the middle; the same again; back to the list
    before the insertion. *)
Definition rmk (l : list (N * list Z)) : list (name * list val) := map (λ c : N * list Z, (nu c.1, map VInt c.2)) l.
Definition ir_a : list (name * list val) := rmk [(1%N, [5; 6]%Z); (2%N, [7]%Z); (3%N, []); (4%N, [1; 2; 3]%Z); (5%N, [9]%Z); (6%N, [8]%Z)].
Definition ir_b : list (name * list val) := rmk [(1%N, [5; 6]%Z); (2%N, [7]%Z); (3%N, []); (4%N, [1; 4; 3]%Z); (5%N, [9]%Z); (6%N, [8]%Z)].
Definition ir_c : list (name * list val) := rmk [(1%N, [5; 6]%Z); (2%N, [7]%Z); (3%N, []); (40%N, [0]%Z); (4%N, [1; 4; 3]%Z); (5%N, [9]%Z); (6%N, [8]%Z)].
Definition ir_d : list (name * list val) := rmk [(1%N, [5; 6]%Z); (2%N, [7]%Z); (3%N, []); (41%N, [0]%Z); (42%N, [1]%Z); (4%N, [1; 4; 3]%Z); (5%N, [9]%Z); (6%N, [8]%Z)].
Definition ir_ns : name := name_of_string "reverse".
Definition ir_session : list (list val * list (name * list val)) :=
  [([VInt 1], ir_a); ([VInt 2; VInt 3], ir_a); ([VInt 2], ir_b); ([VInt 2], ir_c); ([], ir_c); ([], ir_d); ([], ir_c)].

Lemma nu_good m : good (nu m).
Proof. split; [constructor|]. intros k E. vm_compute in E. discriminate E. Qed.
Lemma ex_ir_hyps : Forall (ok_round 10) ir_session.
Proof.
  repeat (apply Forall_cons_2; [split; [simpl; lia|split; [repeat constructor; simpl; lia|split; [repeat (apply Forall_cons_2; [apply nu_good|]); apply Forall_nil_2|apply (bool_decide_unpack _); vm_compute; reflexivity]]]|]). apply Forall_nil_2.
Qed.

(** Which thunks run in each round: all six; none, although every accumulator has changed; only the changed chunk; the
    inserted chunk and the two before it; none; the two inserted chunks and the two before them; and to go back the two
    before, and chunk 40, whose accumulator cell for chunk 4 was overwritten in between: the bound of C68_undo_cost. *)
Example ex_ir_counts : let L0 : name → option view := λ _, None in
  let L1 := note L0 ir_a in let L2 := note L1 ir_a in let L3 := note L2 ir_b in let L4 := note L3 ir_c in let L5 := note L4 ir_c in let L6 := note L5 ir_d in
  length (reruns L0 ir_a) = 6%nat ∧ reruns L1 ir_a = [] ∧ reruns L2 ir_b = [nu 4] ∧ reruns L3 ir_c = [nu 2; nu 3; nu 40] ∧
  reruns L4 ir_c = [] ∧ reruns L5 ir_d = [nu 2; nu 3; nu 41; nu 42] ∧ reruns L6 ir_c = [nu 2; nu 3; nu 40].
Proof. cbv zeta. do 6 (split; [vm_compute; reflexivity|]). vm_compute; reflexivity. Qed.

(** The same session on the engine itself. *)
Definition ir_out := exec (H := ex_cat 10) 60 (rounds 10 ir_ns ir_session []) (dcg_new_flags false true).
Example ex_ir_engine : (∃ v, fst ir_out = OVal v) ∧ length (runs (snd ir_out)) = 17%nat.
Proof. split; [eexists; vm_compute; reflexivity|vm_compute; reflexivity]. Qed.
Lemma ex_ir_theorem : ∃ s', returns (H := ex_cat 10) (rounds 10 ir_ns ir_session []) (dcg_new_flags false true)
    (foldr VPair VUnit (result ir_ns <$> ir_session)) s' ∧
  runs s' ≡ₚ img ir_ns <$> all_reruns (λ _, None) ir_session ∧
  reads (H := ex_cat 10) s' (result ir_ns ([], ir_c)) (map VInt [8; 9; 3; 4; 1; 0; 7; 6; 5]%Z).
Proof.
  destruct (C68_sessions ex_body ex_pred (VInt 0) ex_add ex_le 10 (λ _, 0%N) (λ _ _, 0%N) ir_ns true ir_session ex_ir_hyps) as (s' & Ha & Hb & Hc).
  exists s'. split; [exact Ha|]. split; [exact Hb|]. exact (Hc ([], ir_c) eq_refl).
Qed.
