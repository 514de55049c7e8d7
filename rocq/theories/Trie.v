(** * Probabilistic tries (/repo/src/catalog/trie.rs): C42.

    As in [Lists.v] an articulation is represented by the trie that forcing it returns, and [memo!] is a call.  [None]
    is a panic. *)
From Verif Require Export Lists BitString.
Local Open Scope Z_scope.

(** trie.rs:17-24 [enum Trie]; a [Meta] (28-31) is its [min_depth]. *)
Inductive trie (X : Type) :=
  | RNil (bs : BS) | RLeaf (bs : BS) (x : X) | RBin (bs : BS) (l r : trie X) | RRoot (min_depth : Z) (t : trie X)
  | RName (n : name) (t : trie X) | RArt (t : trie X).
Arguments RNil {X} bs. Arguments RLeaf {X} bs x. Arguments RBin {X} bs l r. Arguments RRoot {X} min_depth t.
Arguments RName {X} n t. Arguments RArt {X} t.

(** ** Specification *)
(** The elements of a trie, from left to right. *)
Fixpoint relems {X} (t : trie X) : list X :=
  match t with
  | RNil _ => [] | RLeaf _ x => [x] | RBin _ l r => relems l ++ relems r | RRoot _ t | RName _ t | RArt t => relems t
  end.
(** [placed hash d v t]: [t] is well placed below the path of [d] branchings whose directions are the bits of [v] (bit 0
    first, 1 = right): every element's hash starts with the path that leads to it, and every node records its path. *)
Fixpoint placed {X} (hash : X → Z) (d v : Z) (t : trie X) : Prop :=
  match t with
  | RNil bs => bs = mkBS d v
  | RLeaf bs x => bs = mkBS d v ∧ hash x mod 2 ^ d = v
  | RBin bs l r => bs = mkBS d v ∧ placed hash (d + 1) v l ∧ placed hash (d + 1) (v + 2 ^ d) r
  | RRoot _ t | RName _ t | RArt t => placed hash d v t
  end.

Section Trie.
Context `{Hashes} {X : Type} `{EqDecision X} (hash : X → Z).   (* [hasher.finish() as i64] *)

(** trie.rs:305-317 [find] (via [elim_ref], 419-447); [%] truncates and [>>] on i64 is arithmetic. *)
Fixpoint find (t : trie X) (elt : X) (i : Z) : option X :=
  match t with
  | RNil _ => None
  | RLeaf _ x => if decide (elt = x) then Some x else None
  | RBin _ l r => if Z.rem i 2 =? 0 then find l elt (Z.shiftr i 1) else find r elt (Z.shiftr i 1)
  | RRoot _ t | RName _ t | RArt t => find t elt i
  end.
(** trie.rs:319-326 [is_empty]. *)
Fixpoint trie_is_empty (t : trie X) : bool :=
  match t with RNil _ => true | RLeaf _ _ | RBin _ _ _ => false | RRoot _ t | RName _ t | RArt t => trie_is_empty t end.
(** trie.rs:328-349 [split_atomic]: [suffix(bs, k)] is [bs.value & k == bs.value]. *)
Definition suffix (bs : BS) (k : Z) : bool := Z.land (bs_value bs) k =? bs_value bs.
Definition split_atomic (t : trie X) : option (trie X) :=
  match t with
  | RNil _ | RBin _ _ _ => Some t
  | RLeaf bs e =>
      bs0 ← prepend 0 bs; bs1 ← prepend 1 bs;
      Some (if suffix bs1 (hash e) then RBin bs (RNil bs0) (RLeaf bs1 e) else RBin bs (RLeaf bs0 e) (RNil bs1))
  | RRoot _ _ | RName _ _ | RArt _ => None
  end.
(** trie.rs:238-258 [TrieIntro::empty] *)
Definition trie_empty (min_depth : Z) : trie X :=
  let '(nm1, nm2) := name_fork (name_of_string "empty") in
  RName nm1 (RArt (RRoot (Z.min min_depth MAX_LEN) (RName nm2 (RArt (RNil (mkBS 0 0)))))).
(** trie.rs:264-269 [extend]: [panic!("todo")]. *)
Definition extend (nm : name) (t : trie X) (elt : X) : option (trie X) := None.
(** trie.rs:260-262 [singleton]; 466-474 [SetIntro::empty] and [add]; 478-485 [mem]; *)
Definition singleton (min_depth : Z) (nm : name) (elt : X) : option (trie X) := extend nm (trie_empty min_depth) elt.
Definition trie_set_empty : trie X := trie_empty 1.
Definition set_add_trie (t : trie X) (elt : X) : option (trie X) := extend name_unit t elt.
Definition mem (t : trie X) (elt : X) : bool := match find t elt (hash elt) with Some _ => true | None => false end.
(** trie.rs:487-499 [SetElim::fold], and 503-514 [trie_fold], which differ only in the [memo!] at names. *)
Fixpoint trie_fold {Res} (f : X → Res → Res) (t : trie X) (res : Res) : Res :=
  match t with
  | RNil _ => res
  | RLeaf _ x => f x res
  | RBin _ l r => trie_fold f r (trie_fold f l res)
  | RRoot _ t | RName _ t | RArt t => trie_fold f t res
  end.
(** trie.rs:516-525 [trie_of_list]; the body of [list_fold] may panic. *)
Definition trie_of_list (l : lst X) : option (trie X) :=
  list_fold l (Some (trie_empty 1)) (λ x acc, t ← acc; extend name_unit t x).

(** ** Proofs *)
(** [find] only returns what it is asked for and what is there, in any trie, for any index. *)
Theorem C42_find_sound (t : trie X) x i y : find t x i = Some y → y = x ∧ x ∈ relems t.
Proof.
  revert i. induction t as [bs|bs z|bs l IHl r IHr|m t IH|n t IH|t IH]; intros i; simpl; [done| | |apply IH..].
  - destruct (decide (x = z)); [|done]. intros [= <-]. subst. split; [done|]. by apply elem_of_list_singleton.
  - destruct (Z.rem i 2 =? 0); intros E; [apply IHl in E as [-> ?]|apply IHr in E as [-> ?]]; (split; [done|]); apply elem_of_app; auto.
Qed.
Lemma rem2_odd i : (Z.rem i 2 =? 0) = negb (Z.testbit i 0).
Proof.
  assert (Hm := Z.testbit_spec' i 0 ltac:(lia)). rewrite Z.pow_0_r, Z.div_1_r in Hm.
  destruct (Z.eqb_spec (Z.rem i 2) 0) as [E|E].
  - apply Z.rem_divide in E; [|done]. apply Z.mod_divide in E; [|done]. rewrite E in Hm. by destruct (Z.testbit i 0).
  - destruct (Z.testbit i 0); [done|]. exfalso. apply E, Z.rem_divide; [done|]. by apply Z.mod_divide.
Qed.
Lemma mod_pow_succ z d : 0 <= d → z mod 2 ^ (d + 1) = z mod 2 ^ d + (if Z.testbit z d then 2 ^ d else 0).
Proof.
  intros Hd. rewrite Z.pow_add_r, Z.pow_1_r by lia. assert (0 < 2 ^ d) by lia.
  rewrite Z.rem_mul_r by lia. rewrite <- Z.testbit_spec' by done. destruct (Z.testbit z d); simpl Z.b2z; lia.
Qed.
Lemma placed_mod (t : trie X) d v x : placed hash d v t → 0 <= d → 0 <= v < 2 ^ d → x ∈ relems t → hash x mod 2 ^ d = v.
Proof.
  revert d v. induction t as [bs|bs z|bs l IHl r IHr|m t IH|n t IH|t IH]; intros d v; simpl; [intros _|intros [_ E]|intros (_ & Pl & Pr)|apply IH..]; intros Hd Hv Hx.
  - by apply elem_of_nil in Hx.
  - by apply elem_of_list_singleton in Hx as ->.
  - assert (2 ^ (d + 1) = 2 * 2 ^ d) as E2 by (rewrite Z.pow_add_r by lia; lia).
    assert (Hb := Z.mod_pos_bound (hash x) (2 ^ d) ltac:(lia)).
    apply elem_of_app in Hx as [Hx|Hx].
    + specialize (IHl _ _ Pl ltac:(lia) ltac:(lia) Hx). rewrite mod_pow_succ in IHl by done. destruct (Z.testbit (hash x) d); lia.
    + specialize (IHr _ _ Pr ltac:(lia) ltac:(lia) Hx). rewrite mod_pow_succ in IHr by done. destruct (Z.testbit (hash x) d); lia.
Qed.
Lemma find_complete (t : trie X) d v x : placed hash d v t → 0 <= d → 0 <= v < 2 ^ d → x ∈ relems t →
  find t x (Z.shiftr (hash x) d) = Some x.
Proof.
  revert d v. induction t as [bs|bs z|bs l IHl r IHr|m t IH|n t IH|t IH]; intros d v; simpl; [intros _|intros [_ E]|intros (_ & Pl & Pr)|apply IH..]; intros Hd Hv Hx.
  - by apply elem_of_nil in Hx.
  - apply elem_of_list_singleton in Hx as ->. by rewrite decide_True.
  - assert (2 ^ (d + 1) = 2 * 2 ^ d) as E2 by (rewrite Z.pow_add_r by lia; lia).
    assert (Hb := Z.mod_pos_bound (hash x) (2 ^ d) ltac:(lia)).
    rewrite rem2_odd, Z.shiftr_spec, Z.add_0_l, Z.shiftr_shiftr by lia.
    apply elem_of_app in Hx as [Hx|Hx].
    + assert (M := placed_mod _ _ _ _ Pl ltac:(lia) ltac:(lia) Hx). rewrite mod_pow_succ in M by done.
      destruct (Z.testbit (hash x) d); [lia|]. simpl. apply IHl with v; [done|lia|lia|done].
    + assert (M := placed_mod _ _ _ _ Pr ltac:(lia) ltac:(lia) Hx). rewrite mod_pow_succ in M by done.
      destruct (Z.testbit (hash x) d); [|lia]. simpl. apply IHr with (v + 2 ^ d); [done|lia|lia|done].
Qed.
(** In a well-placed trie, [mem] decides membership. *)
Theorem C42_mem (t : trie X) x : placed hash 0 0 t → mem t x = true ↔ x ∈ relems t.
Proof.
  intros P. unfold mem. split.
  - destruct (find t x (hash x)) as [y|] eqn:E; [|done]. intros _. by apply C42_find_sound in E as [_ ?].
  - intros Hx. assert (E := find_complete t 0 0 x P ltac:(lia) ltac:(lia) Hx). rewrite Z.shiftr_0_r in E. by rewrite E.
Qed.
(** Placement is needed: a misplaced element is not found. *)
Theorem C42_mem_placement_needed x : Z.testbit (hash x) 0 = true →
  let t := RBin (mkBS 0 0) (RLeaf (mkBS 1 0) x) (RNil (mkBS 1 1)) in mem t x = false ∧ x ∈ relems t.
Proof.
  intros Hx t. split; [|by apply elem_of_list_singleton]. unfold mem, t. cbn [find]. rewrite rem2_odd, Hx. done.
Qed.

(** [split_atomic] of a leaf keeps the element, and the trie stays well placed; so it does not change [mem]. *)
Theorem C42_split_atomic bs e d v : 0 <= d <= 62 → placed hash d v (RLeaf bs e) →
  ∃ l r, split_atomic (RLeaf bs e) = Some (RBin bs l r) ∧ relems (RBin bs l r) = [e] ∧ placed hash d v (RBin bs l r).
Proof.
  intros Hd [-> Hv]. unfold split_atomic. assert (Hb := Z.mod_pos_bound (hash e) (2 ^ d) ltac:(lia)).
  assert (wf_bs (mkBS d v)) as Hw by (split; simpl; lia).
  destruct (C36_prepend_value 0 (mkBS d v) (or_introl eq_refl) ltac:(simpl; lia) Hw) as [-> _].
  destruct (C36_prepend_value 1 (mkBS d v) (or_intror eq_refl) ltac:(simpl; lia) Hw) as [-> _].
  cbn [mbind option_bind bs_length bs_value]. rewrite Z.mul_0_l, Z.mul_1_l, Z.add_0_r.
  assert (suffix (mkBS (d + 1) (v + 2 ^ d)) (hash e) = Z.testbit (hash e) d) as ->.
  { unfold suffix. simpl bs_value. destruct (Z.testbit (hash e) d) eqn:Et.
    - assert (v + 2 ^ d = hash e mod 2 ^ (d + 1)) as -> by (rewrite mod_pow_succ, Et by lia; lia).
      rewrite <- Z.land_ones by lia. rewrite <- Z.land_assoc, (Z.land_comm (Z.ones _)), Z.land_assoc, Z.land_diag. apply Z.eqb_refl.
    - apply Z.eqb_neq. intros E. assert (Z.testbit (v + 2 ^ d) d = true) as Hw1.
      { apply Z.testbit_true; [lia|]. replace (v + 2 ^ d) with (v + 1 * 2 ^ d) by lia. rewrite Z.div_add, (Z.div_small v) by lia. done. }
      assert (Z.testbit (Z.land (v + 2 ^ d) (hash e)) d = true) as Hw2 by (by rewrite E). rewrite Z.land_spec, Et, andb_false_r in Hw2. done. }
  assert (Hs := mod_pow_succ (hash e) d ltac:(lia)).
  destruct (Z.testbit (hash e) d) eqn:Et; eexists _, _; (split; [reflexivity|]); (split; [reflexivity|]); simpl; split_and!; try done; lia.
Qed.
Corollary C42_split_atomic_mem bs e t x : placed hash 0 0 (RLeaf bs e) → split_atomic (RLeaf bs e) = Some t →
  mem t x = mem (RLeaf bs e) x.
Proof.
  intros P E. destruct (C42_split_atomic bs e 0 0 ltac:(lia) P) as (l & r & E' & Hr & P'). rewrite E in E'. injection E' as ->.
  apply eq_bool_prop_intro. rewrite !Is_true_true, !C42_mem by done. by rewrite Hr.
Qed.
(** It leaves empty and split tries alone, and panics on the wrappers. *)
Theorem C42_split_atomic_other (t : trie X) :
  split_atomic t = match t with RNil _ | RBin _ _ _ => Some t | RRoot _ _ | RName _ _ | RArt _ => None | RLeaf _ _ => split_atomic t end.
Proof. by destruct t. Qed.

(** [fold] visits the elements from left to right. *)
Theorem C42_fold {Res} (f : X → Res → Res) (t : trie X) res : trie_fold f t res = foldl (λ r x, f x r) res (relems t).
Proof.
  revert res. induction t as [bs|bs z|bs l IHl r IHr|m t IH|n t IH|t IH]; intros res; simpl; [done|done| |apply IH..].
  by rewrite IHl, IHr, foldl_app.
Qed.
(** [is_empty] never errs on a trie it calls empty; *)
Theorem C42_is_empty_sound (t : trie X) : trie_is_empty t = true → relems t = [].
Proof. induction t; simpl; done. Qed.
(** ... but calls a branching without elements non-empty. *)
Theorem C42_is_empty_refuted : let t := RBin (mkBS 0 0) (RNil (mkBS 1 0)) (RNil (mkBS 1 1)) in
  placed hash 0 0 t ∧ relems t = [] ∧ trie_is_empty t = false.
Proof. by split_and!. Qed.
(** The empty trie. *)
Theorem C42_empty m : placed hash 0 0 (trie_empty m) ∧ relems (trie_empty m) = [] ∧ trie_is_empty (trie_empty m) = true ∧
  (∀ x, mem (trie_empty m) x = false) ∧ ∃ n k t, trie_empty m = RName n (RArt (RRoot k t)) ∧ k <= m ∧ k <= MAX_LEN.
Proof.
  split_and!; try done. unfold trie_empty. destruct (name_fork _). eexists _, _, _. split; [reflexivity|]. lia.
Qed.
(** No element can be added: [extend], [singleton] and [add] always panic, and [trie_of_list] panics on every list that
    has an element. *)
Theorem C42_extend_panics nm t x m : extend nm t x = None ∧ singleton m nm x = None ∧ set_add_trie t x = None.
Proof. done. Qed.
Theorem C42_of_list_panics (l : lst X) : trie_of_list l = match elems l with [] => Some trie_set_empty | _ :: _ => None end.
Proof. unfold trie_of_list. rewrite C37_fold. destruct (elems l); [done|]. simpl. by destruct (foldr _ _ _). Qed.
End Trie.

(** A well-placed trie with three elements (hash = the number itself). *)
Definition ex_trie `{Hashes} : trie Z :=
  RRoot 1 (RName name_unit (RArt (RBin (mkBS 0 0) (RLeaf (mkBS 1 0) 4)
    (RBin (mkBS 1 1) (RLeaf (mkBS 2 1) 5) (RLeaf (mkBS 2 3) (-1)))))).
Lemma ex_trie_ok `{Hashes} : placed id 0 0 ex_trie ∧ mem id ex_trie (-1) = true ∧ mem id ex_trie 3 = false ∧ trie_fold Z.add ex_trie 0 = 8.
Proof. split_and!; try done; by vm_compute. Qed.
Lemma ex_split `{Hashes} : split_atomic id (RLeaf (mkBS 1 1) 7) = Some (RBin (mkBS 1 1) (RNil (mkBS 2 1)) (RLeaf (mkBS 2 3) 7)).
Proof. done. Qed.
