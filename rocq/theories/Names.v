(** * C30, C45: names. *)
From Verif Require Export Base.

(** The hash function [my_hash] (engine.rs:39-45), at the types used for names.  A [Name] hashes as its own hash
    (engine.rs:305-309), so the hash of a pair or of a fork depends only on the hashes of its arguments.
    Nothing is assumed about these functions. *)
Class Hashes := {
  h_pair : N → N → N;     (* my_hash(&(n1.hash,n2.hash))  *)
  h_usize : N → N;        (* my_hash(&u) *)
  h_isize : Z → N;        (* my_hash(&i) *)
  h_str : string → N;     (* my_hash(&s) *)
  h_fork1 : N → N;        (* my_hash(&(&n, 11111111)) *)
  h_fork2 : N → N;        (* my_hash(&(&n, 22222222)) *)
}.
Section Names.
Context `{Hashes}.

(** engine.rs:2245-2249 [name_unit]; 32 [UNIT_NAME] *)
Definition name_unit : name := Name 0 SUnit.
(** engine.rs:2251-2256 [name_pair] *)
Definition name_pair (n1 n2 : name) : name := Name (h_pair (nm_hash n1) (nm_hash n2)) (SPair (nm_sym n1) (nm_sym n2)).
(** engine.rs:2263-2267 [name_of_hash64] *)
Definition name_of_hash64 (h : N) : name := Name h SHash64.
(** engine.rs:2270-2274 [name_of_usize] *)
Definition name_of_usize (u : N) : name := Name (h_usize u) (SUsize u).
(** engine.rs:2277-2281 [name_of_isize] *)
Definition name_of_isize (i : Z) : name := Name (h_isize i) (SIsize i).
(** engine.rs:2284-2288 [name_of_string] and 2291-2295 [name_of_str] (the hash of a [&str] and of the equal [String]
    coincide) *)
Definition name_of_string (s : string) : name := Name (h_str s) (SString s).
(** engine.rs:2298-2305 [name_fork] *)
Definition name_fork (n : name) : name * name :=
  (Name (h_fork1 (nm_hash n)) (SForkL (nm_sym n)), Name (h_fork2 (nm_hash n)) (SForkR (nm_sym n))).
(** engine.rs:2308-2314 [name_fork3] *)
Definition name_fork3 (n : name) : name * name * name :=
  let '(n1, n) := name_fork n in let '(n2, n3) := name_fork n in (n1, n2, n3).
(** engine.rs:2317-2324 [name_fork4] *)
Definition name_fork4 (n : name) : name * name * name * name :=
  let '(n1, n) := name_fork n in let '(n2, n) := name_fork n in let '(n3, n4) := name_fork n in (n1, n2, n3, n4).

(** The names a client can make (the fields of [Name] are private); [name_of_hash64], which clients are told not to
    call, is left out. *)
Inductive api_name : name → Prop :=
  | api_unit : api_name name_unit
  | api_usize u : api_name (name_of_usize u)
  | api_isize i : api_name (name_of_isize i)
  | api_string s : api_name (name_of_string s)
  | api_pair a b : api_name a → api_name b → api_name (name_pair a b)
  | api_fork_l n : api_name n → api_name (name_fork n).1
  | api_fork_r n : api_name n → api_name (name_fork n).2.

(** Equality of names compares hash and symbol (derived [PartialEq]); for these names the symbol decides. *)
Theorem C30_symbol_determines_name a b : api_name a → api_name b → nm_sym a = nm_sym b → a = b.
Proof.
  intros Ha. revert b. induction Ha as [|u|i|s|x y Hx IHx Hy IHy|n Hn IHn|n Hn IHn]; intros b Hb E;
    destruct Hb as [|u'|i'|s'|x' y' Hx' Hy'|n' Hn'|n' Hn']; simpl in E; try discriminate; simplify_eq; try done.
  - by rewrite (IHx x'), (IHy y').
  - by rewrite (IHn n').
  - by rewrite (IHn n').
Qed.
(** The constructors are injective, whatever the hash function: no collision of hashes can merge two names. *)
Theorem C30_injective :
  Inj (=) (=) name_of_usize ∧ Inj (=) (=) name_of_isize ∧ Inj (=) (=) name_of_string ∧
  (∀ a b a' b', api_name a → api_name b → api_name a' → api_name b' → name_pair a b = name_pair a' b' → a = a' ∧ b = b') ∧
  (∀ n n', api_name n → api_name n' → (name_fork n).1 = (name_fork n').1 → n = n') ∧
  (∀ n n', api_name n → api_name n' → (name_fork n).2 = (name_fork n').2 → n = n').
Proof.
  split_and!.
  - intros ?? E. by injection E.
  - intros ?? E. by injection E.
  - intros ?? E. by injection E.
  - intros a b a' b' Ha Hb Ha' Hb' E. injection E as _ E1 E2. split; by apply C30_symbol_determines_name.
  - intros n n' Hn Hn' E. injection E as _ E. by apply C30_symbol_determines_name.
  - intros n n' Hn Hn' E. injection E as _ E. by apply C30_symbol_determines_name.
Qed.
(** Different constructors never give the same name. *)
Definition name_class (n : name) : nat :=
  match nm_sym n with SUnit => 0 | SHash64 => 1 | SString _ => 2 | SUsize _ => 3 | SIsize _ => 4 | SPair _ _ => 5 | SForkL _ => 6 | SForkR _ => 7 end.
Theorem C30_disjoint u i s a b n n' :
  NoDup [name_unit; name_of_usize u; name_of_isize i; name_of_string s; name_pair a b; (name_fork n).1; (name_fork n').2].
Proof.
  apply (NoDup_fmap_1 name_class). simpl. repeat (constructor; [set_solver|]). constructor.
Qed.

(** The size of a symbol; forking and pairing make it grow. *)
Fixpoint sym_size (s : namesym) : nat :=
  match s with SPair a b => S (sym_size a + sym_size b) | SForkL a | SForkR a => S (sym_size a) | _ => O end.
Lemma sym_size_ne a b : sym_size (nm_sym a) ≠ sym_size (nm_sym b) → a ≠ b.
Proof. congruence. Qed.

Local Ltac all_distinct :=
  repeat (apply NoDup_cons; split); [..|apply NoDup_nil; exact I]; rewrite ?elem_of_cons, ?elem_of_nil; intros E;
  repeat match goal with E : _ ∨ _ |- _ => destruct E as [E|E] end; try done;
  first [by apply (f_equal nm_sym) in E | by apply (f_equal (sym_size ∘ nm_sym)) in E; simpl in E; lia].

(** The outputs of a fork are new, and distinct from each other and from the input. *)
Theorem C30_fork n : NoDup [n; (name_fork n).1; (name_fork n).2].
Proof.
  all_distinct.
Qed.
Theorem C30_fork3 n a b c : name_fork3 n = (a, b, c) → NoDup [n; a; b; c].
Proof.
  unfold name_fork3. simpl. intros [= <- <- <-].
  all_distinct.
Qed.
Theorem C30_fork4 n a b c d : name_fork4 n = (a, b, c, d) → NoDup [n; a; b; c; d].
Proof.
  unfold name_fork4. simpl. intros [= <- <- <- <-].
  all_distinct.
Qed.
Theorem C30_pair_new a b : name_pair a b ≠ a ∧ name_pair a b ≠ b.
Proof. split; apply sym_size_ne; simpl; lia. Qed.

(** Arbitrarily many names from one: following a path of forks; different paths give different names. *)
Fixpoint fork_path (n : name) (p : list bool) : name :=
  match p with [] => n | b :: p => let m := fork_path n p in if b then (name_fork m).1 else (name_fork m).2 end.
Lemma fork_path_size n p : sym_size (nm_sym (fork_path n p)) = (length p + sym_size (nm_sym n))%nat.
Proof. induction p as [|[] p IH]; simpl; lia. Qed.
Theorem C30_fork_paths n p q : fork_path n p = fork_path n q → p = q.
Proof.
  intros E. apply (f_equal nm_sym) in E. revert q E. induction p as [|x p IH]; intros [|y q] E; [done| | |].
  - apply (f_equal sym_size) in E. rewrite fork_path_size in E. simpl in E. destruct y; simpl in E; rewrite fork_path_size in E; lia.
  - apply (f_equal sym_size) in E. simpl in E. destruct x; simpl in E; rewrite !fork_path_size in E; simpl in E; lia.
  - destruct x, y; simpl in E; try done; injection E as E; f_equal; by apply IH.
Qed.

(** The outputs of a fork can be forked on independently: whatever two functions make from two different outputs by
    forking, or one function on different paths, are different names, and none of them is the input. *)
Definition independent (n : name) (ns : list name) : Prop :=
  ∀ i j a b p q, ns !! i = Some a → ns !! j = Some b →
    fork_path a p ≠ n ∧ (fork_path a p = fork_path b q → i = j ∧ p = q).
Lemma fork_path_app n p s : fork_path (fork_path n s) p = fork_path n (p ++ s).
Proof. induction p as [|b p IH]; simpl; [done|]. by rewrite IH. Qed.
Lemma independent_paths n (ss : list (list bool)) :
  (∀ i j s s' p q, ss !! i = Some s → ss !! j = Some s' → s ≠ [] ∧ (p ++ s = q ++ s' → i = j)) → independent n (fork_path n <$> ss).
Proof.
  intros Hs i j a b p q Hi Hj. rewrite list_lookup_fmap in Hi, Hj. destruct (ss !! i) as [s|] eqn:Ei; [|done]. destruct (ss !! j) as [s'|] eqn:Ej; [|done].
  simpl in Hi, Hj. injection Hi as <-. injection Hj as <-. rewrite !fork_path_app. destruct (Hs i j s s' p q Ei Ej) as [Hne Hij]. split.
  - intros E. apply (C30_fork_paths n _ []) in E. destruct (app_eq_nil _ _ E). done.
  - intros E%C30_fork_paths. assert (i = j) as -> by auto. split; [done|]. assert (s = s') as -> by congruence. by apply app_inv_tail in E.
Qed.
Local Ltac suffix_free :=
  intros i j s s' p q Hi Hj; (split; [by repeat (destruct i as [|i]; [injection Hi as <-; done|])|]);
  intros E; apply (f_equal reverse) in E; rewrite !reverse_app in E;
  repeat (destruct i as [|i]; [injection Hi as <-; repeat (destruct j as [|j]; [injection Hj as <-; done|]); done|]); done.
Theorem C30_fork_independent n : independent n [(name_fork n).1; (name_fork n).2].
Proof. apply (independent_paths n [[true]; [false]]). suffix_free. Qed.
Theorem C30_fork3_independent n a b c : name_fork3 n = (a, b, c) → independent n [a; b; c].
Proof. intros [= <- <- <-]. apply (independent_paths n [[true]; [true; false]; [false; false]]). suffix_free. Qed.
Theorem C30_fork4_independent n a b c d : name_fork4 n = (a, b, c, d) → independent n [a; b; c; d].
Proof. intros [= <- <- <- <-]. apply (independent_paths n [[true]; [true; false]; [true; false; false]; [false; false; false]]). suffix_free. Qed.

(** ** C45. The counter of [bump_name_counter] (src/macros.rs:25, 50-52).
    [usize] arithmetic: in release builds [c + 1] wraps at 2^64. *)
Definition usize_max : N := (2 ^ 64)%N.
Definition bump_name_counter (ctr : N) : N * N := (ctr, ((ctr + 1) mod usize_max)%N).
Fixpoint bumps (k : nat) (ctr : N) : list N :=
  match k with O => [] | S k => let '(c, ctr') := bump_name_counter ctr in c :: bumps k ctr' end.

Lemma bumps_nth k ctr i c : (ctr < usize_max)%N → bumps k ctr !! i = Some c → c = ((ctr + N.of_nat i) mod usize_max)%N.
Proof.
  assert (usize_max ≠ 0%N) as Hz by done.
  revert ctr i. induction k as [|k IH]; intros ctr i Hc Hl; [done|]. simpl in Hl. destruct i as [|i]; simpl in Hl.
  - injection Hl as <-. rewrite N.add_0_r. by rewrite N.mod_small.
  - apply IH in Hl as ->; [|by apply N.mod_lt]. rewrite N.add_mod_idemp_l by done. f_equal. lia.
Qed.
(** Each number is returned at most once (until the counter has gone through all 2^64 values), so the names made from
    the counter are pairwise distinct. *)
Theorem C45_fresh_names k ctr : (ctr < usize_max)%N → (N.of_nat k ≤ usize_max)%N →
  NoDup (bumps k ctr) ∧ NoDup (name_of_usize <$> bumps k ctr).
Proof.
  intros Hc Hk. assert (NoDup (bumps k ctr)) as Hd.
  { apply NoDup_alt. intros i j c Hi Hj.
    assert (∀ k ctr, length (bumps k ctr) = k) as Hlen by (clear; induction k as [|k IH]; intros; simpl; [done|by rewrite IH]).
    assert (Li := lookup_lt_Some _ _ _ Hi). assert (Lj := lookup_lt_Some _ _ _ Hj). rewrite Hlen in Li, Lj.
    apply bumps_nth in Hi as ->; [|done]. apply bumps_nth in Hj; [|done].
    assert (∀ x, (x < usize_max)%N → (ctr + x) mod usize_max = if decide (ctr + x < usize_max)%N then ctr + x else ctr + x - usize_max)%N as Hm.
    { intros x Hx. destruct (decide _) as [?|?]; [by apply N.mod_small|].
      replace (ctr + x)%N with ((ctr + x - usize_max) + 1 * usize_max)%N at 1 by lia. rewrite N.mod_add by done. apply N.mod_small. lia. }
    rewrite !Hm in Hj by lia. destruct (decide _), (decide _); lia. }
  split; [done|]. apply NoDup_fmap_2; [|done]. apply C30_injective.
Qed.
(** They are not distinct from names the client makes with [name_of_usize], though: [cell!(v)] and
    [cell(name_of_usize(0), v)] may use the same name. *)
Theorem C45_not_reserved_refuted : ∃ u, name_of_usize u ∈ name_of_usize <$> bumps 1 0.
Proof. exists 0%N. simpl. set_solver. Qed.
End Names.

(** Non-vacuity: with a constant hash (all hashes collide), an API name of some depth. *)
Definition bad_hash : Hashes := {| h_pair := λ _ _, 0%N; h_usize := λ _, 0%N; h_isize := λ _, 0%N; h_str := λ _, 0%N; h_fork1 := λ _, 0%N; h_fork2 := λ _, 0%N |}.
Lemma ex_api_name : @api_name bad_hash (@name_fork bad_hash (@name_pair bad_hash (@name_of_usize bad_hash 3) (@name_of_string bad_hash "x"))).1.
Proof. repeat constructor. Qed.
