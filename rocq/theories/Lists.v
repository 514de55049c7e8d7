(** * Incremental lists (src/catalog/collections.rs 34-312, 848-1218): C37, C39, C40, C48.

    An articulation inside a list is represented by the list that forcing it returns (its from-scratch meaning; that
    the engine returns it is C01, C34).  So [LArt l] stands for [List::Art(a)] whichever way [a] was made: a cell, a
    thunk, or a memoized call; allocation is the identity on values and [memo!], [eager!] are just calls.  The variant
    [List::Tree], which no function of the crate builds and on which every eliminator panics (collections.rs:1130,
    1154, 1190), is left out. *)
From Verif Require Export Names.
From stdpp Require Export sorting.

(** collections.rs:1083-1090, [enum List]. *)
Inductive lst (X : Type) := LNil | LCons (x : X) (l : lst X) | LName (n : name) (l : lst X) | LArt (l : lst X).
Arguments LNil {X}. Arguments LCons {X} x l. Arguments LName {X} n l. Arguments LArt {X} l.
(** collections.rs:1100-1104, [enum NameElse]. *)
Inductive name_else (X : Type) := NName (n : name) | NElse (x : X).
Arguments NName {X} n. Arguments NElse {X} x.

(** ** Specification: what a list contains, reading from the front. *)
Fixpoint toks {X} (l : lst X) : list (name_else X) :=
  match l with LNil => [] | LCons x l => NElse x :: toks l | LName n l => NName n :: toks l | LArt l => toks l end.
Definition elems_of {X} (ts : list (name_else X)) : list X := omap (λ t, match t with NElse x => Some x | NName _ => None end) ts.
Definition names_of {X} (ts : list (name_else X)) : list name := omap (λ t, match t with NName n => Some n | NElse _ => None end) ts.
Definition elems {X} (l : lst X) : list X := elems_of (toks l).
Definition names {X} (l : lst X) : list name := names_of (toks l).
Definition tok_map {X Y} (f : X → Y) (t : name_else X) : name_else Y := match t with NName n => NName n | NElse x => NElse (f x) end.
(** Does a predicate hold of the element (names are kept)? *)
Definition tok_keep {X} (p : X → bool) (t : name_else X) : Prop := match t with NName _ => True | NElse x => p x = true end.
Global Instance tok_keep_dec {X} (p : X → bool) t : Decision (tok_keep p t).
Proof. destruct t; simpl; apply _. Defined.

Lemma elems_of_app {X} (a b : list (name_else X)) : elems_of (a ++ b) = elems_of a ++ elems_of b.
Proof. induction a as [|[n|x] a IH]; simpl; [done|done|]. by f_equal. Qed.
Lemma names_of_app {X} (a b : list (name_else X)) : names_of (a ++ b) = names_of a ++ names_of b.
Proof. induction a as [|[n|x] a IH]; simpl; [done| |done]. by f_equal. Qed.
Lemma elems_of_else {X} (xs : list X) : elems_of (NElse <$> xs) = xs.
Proof. induction xs as [|x xs IH]; simpl; [done|]. by f_equal. Qed.
Lemma elems_of_names {X} (ns : list name) : elems_of (X:=X) (NName <$> ns) = [].
Proof. by induction ns. Qed.
Lemma names_of_else {X} (xs : list X) : names_of (NElse <$> xs) = [].
Proof. by induction xs. Qed.
Lemma names_of_names {X} (ns : list name) : names_of (X:=X) (NName <$> ns) = ns.
Proof. induction ns as [|x xs IH]; simpl; [done|]. by f_equal. Qed.

Section Model.
Context `{Hashes} {X Y : Type}.

(** collections.rs:102-107, [is_empty]; 110-115, [is_name]. *)
Fixpoint is_empty (l : lst X) : bool :=
  match l with LNil => true | LCons _ _ => false | LName _ l => is_empty l | LArt l => is_empty l end.
Fixpoint is_name (l : lst X) : bool :=
  match l with LNil => false | LCons _ _ => true | LName _ _ => false | LArt l => is_name l end.

(** collections.rs:62-74, [list_gen].  [range a b] is Rust's [a..b].  [checks]: are arithmetic overflow checks on
    (debug builds)?  [None] is the panic of [len-1] for [len = 0]; without checks it wraps around. *)
Definition range (a b : N) : list N := (λ i, (a + N.of_nat i)%N) <$> seq 0 (N.to_nat (b - a)).
Definition list_gen (checks : bool) (len : N) (gen_elm : N → X) : option (lst X) :=
  let go from := Some (fold_left (λ out i, LCons (gen_elm i) (LName (name_of_usize i) (LArt out))) (range from 0) LNil) in
  if decide (len = 0%N) then (if checks then None else go (2 ^ 64 - 1)%N) else go (len - 1)%N.

(** collections.rs:122-138. *)
Definition list_name_art_op (n : option name) (l : lst X) : lst X :=
  match n with None => l | Some n => LName n (LArt l) end.
Definition list_name_op (n : option name) (l : lst X) : lst X :=
  match n with None => l | Some n => LName n l end.

(** collections.rs:142-163, [list_map_lazy]: note that the name of the input becomes the name of a thunk, and is not
    put into the output list. *)
Fixpoint list_map_lazy (l : lst X) (body : X → Y) : lst Y :=
  match l with
  | LNil => LNil
  | LCons x tl => LCons (body x) (list_map_lazy tl body)
  | LName _ tl => LArt (list_map_lazy tl body)
  | LArt l => list_map_lazy l body
  end.
(** collections.rs:166-184, [list_filter_lazy]. *)
Fixpoint list_filter_lazy (l : lst X) (body : X → bool) : lst X :=
  match l with
  | LNil => LNil
  | LCons x tl => if body x then LCons x (list_filter_lazy tl body) else list_filter_lazy tl body
  | LName _ tl => LArt (list_filter_lazy tl body)
  | LArt l => list_filter_lazy l body
  end.
(** collections.rs:187-209, [list_filter_eager]. *)
Fixpoint list_filter_eager (l : lst X) (body : X → bool) : lst X :=
  match l with
  | LNil => LNil
  | LCons x tl => if body x then LCons x (list_filter_eager tl body) else list_filter_eager tl body
  | LName n tl => LName n (LArt (list_filter_eager tl body))
  | LArt l => list_filter_eager l body
  end.
(** collections.rs:212-233, [list_map_eager]. *)
Fixpoint list_map_eager (l : lst X) (body : X → Y) : lst Y :=
  match l with
  | LNil => LNil
  | LCons x tl => LCons (body x) (list_map_eager tl body)
  | LName n tl => LName n (LArt (list_map_eager tl body))
  | LArt l => list_map_eager l body
  end.
(** collections.rs:236-257, [list_map_eager2]. *)
Fixpoint list_map_eager2 (l : lst X) (body : X → Y) : lst Y :=
  match l with
  | LNil => LNil
  | LCons x tl => LCons (body x) (list_map_eager2 tl body)
  | LName n tl => let '(nm1, nm2, nm3) := name_fork3 n in LName nm1 (LArt (list_map_eager2 tl body))
  | LArt l => list_map_eager2 l body
  end.
(** collections.rs:260-274, [list_reverse]. *)
Fixpoint list_reverse (l rev : lst X) : lst X :=
  match l with
  | LNil => rev
  | LCons x tl => list_reverse tl (LCons x rev)
  | LName n tl => LName n (LArt (list_reverse tl (LArt rev)))
  | LArt l => list_reverse l rev
  end.
(** collections.rs:276-288, [list_fold]. *)
Fixpoint list_fold {Res} (l : lst X) (res : Res) (body : X → Res → Res) : Res :=
  match l with
  | LNil => res
  | LCons x tl => body x (list_fold tl res body)
  | LName _ tl => list_fold tl res body
  | LArt l => list_fold l res body
  end.
(** collections.rs:294-299, [list_pop]; [None]: "cannot pop an empty stack". *)
Fixpoint list_pop (l : lst X) : option (X * lst X) :=
  match l with LNil => None | LCons h t => Some (h, t) | LName _ t => list_pop t | LArt l => list_pop l end.
(** collections.rs:301-303, [list_push]; 305-310, [list_append]. *)
Definition list_push (stack : lst X) (elm : X) : lst X := LCons elm stack.
Definition list_append (l1 l2 : lst X) : lst X := list_fold l1 l2 LCons.

(** collections.rs:860-880, [vec_of_list].  [out] is the vector so far; in the empty case the limit test and [return]
    both return [out]. *)
Fixpoint vec_go (l : lst X) (limit : option nat) (out : list (name_else X)) : list (name_else X) :=
  match l with
  | LNil => out
  | LCons x rest =>
      let out := out ++ [NElse x] in
      if decide (limit = Some (length out)) then out else vec_go rest limit out
  | LName n rest =>
      let out := out ++ [NName n] in
      if decide (limit = Some (length out)) then out else vec_go rest limit out
  | LArt l => vec_go l limit out
  end.
Definition vec_of_list (l : lst X) (limit : option nat) : list (name_else X) := vec_go l limit [].
(** collections.rs:882-894, [list_of_vec]. *)
Definition list_of_vec (v : list (name_else X)) : lst X :=
  foldr (λ x l, match x with NName nm => LName nm (LArt l) | NElse el => LCons el l end) LNil v.

(** collections.rs:898-963, [list_merge]; [le] is the order of [X: Ord]. *)
Section Merge.
Context (le : X → X → bool).
Fixpoint list_merge (n1 : option name) (l1 : lst X) (n2 : option name) (l2 : lst X) {struct l1} : lst X :=
  match l1 with
  | LNil => list_name_op n2 l2
  | LArt l1 => list_merge n1 l1 n2 l2
  | LName m1 t1 => list_merge (Some m1) t1 n2 l2
  | LCons h1 t1 =>
      (fix inner (n2 : option name) (l2 : lst X) {struct l2} : lst X :=
        match l2 with
        | LNil => list_name_op n1 (LCons h1 t1)
        | LArt l2 => inner n2 l2
        | LName m2 t2 => inner (Some m2) t2
        | LCons h2 t2 =>
            if le h1 h2 then
              match n1 with
              | None => LCons h1 (list_merge None t1 n2 (LCons h2 t2))
              | Some n1 => let '(n1a, n1b) := name_fork n1 in
                           LName n1b (LCons h1 (LArt (list_merge None t1 n2 (LCons h2 t2))))
              end
            else
              match n2 with
              | None => LCons h2 (inner None t2)
              | Some n2 => let '(n2a, n2b) := name_fork n2 in
                           LName n2b (LCons h2 (LArt (inner None t2)))
              end
        end) n2 l2
  end.
End Merge.
End Model.

(** ** C37: the list functions. *)
Section Lists.
Context `{Hashes} {X Y : Type}.
Implicit Types l : lst X.

Lemma elems_cons x l : elems (LCons x l) = x :: elems l. Proof. done. Qed.
Lemma elems_name n l : elems (LName n l) = elems l. Proof. done. Qed.
Lemma elems_art l : elems (LArt l) = elems l. Proof. done. Qed.

(** [list_map_*]: the elements are mapped in order; the eager versions keep the names ([list_map_eager2] replaces each
    by the first of its three forks), the lazy one drops them. *)
Theorem C37_map_lazy l (f : X → Y) : toks (list_map_lazy l f) = NElse <$> (f <$> elems l).
Proof. induction l as [|x l IH|n l IH|l IH]; simpl; [done|by rewrite IH|done|done]. Qed.
Theorem C37_map_eager l (f : X → Y) : toks (list_map_eager l f) = tok_map f <$> toks l.
Proof. induction l as [|x l IH|n l IH|l IH]; simpl; [done|by rewrite IH|by rewrite IH|done]. Qed.
Theorem C37_map_eager2 l (f : X → Y) :
  toks (list_map_eager2 l f) = (λ t, match t with NName n => NName (name_fork n).1 | NElse x => NElse (f x) end) <$> toks l.
Proof. induction l as [|x l IH|n l IH|l IH]; simpl; [done|by rewrite IH|by rewrite IH|done]. Qed.

(** [list_filter_*]: exactly the elements satisfying the predicate, in order. *)
Theorem C37_filter_lazy l (p : X → bool) : toks (list_filter_lazy l p) = NElse <$> filter (λ x, p x = true) (elems l).
Proof.
  induction l as [|x l IH|n l IH|l IH]; simpl; [done| |done|done]. rewrite elems_cons, filter_cons.
  destruct (p x) eqn:E; [rewrite decide_True by done; simpl; by rewrite IH|by rewrite decide_False].
Qed.
Theorem C37_filter_eager l (p : X → bool) : toks (list_filter_eager l p) = filter (tok_keep p) (toks l).
Proof.
  induction l as [|x l IH|n l IH|l IH]; simpl; [done| | |done]; rewrite filter_cons.
  - destruct (p x) eqn:E; [rewrite decide_True by done; simpl; by rewrite IH|rewrite decide_False; [done|simpl; congruence]].
  - rewrite decide_True by done. by rewrite IH.
Qed.

(** [list_reverse]: the elements are reversed; the names stay in order and move to the front. *)
Theorem C37_reverse l r : toks (list_reverse l r) = (NName <$> names l) ++ (NElse <$> reverse (elems l)) ++ toks r.
Proof.
  revert r. induction l as [|x l IH|n l IH|l IH]; intros r; simpl; [done| | |by rewrite IH].
  - rewrite IH. unfold elems. simpl. rewrite reverse_cons, fmap_app, <- (assoc_L (++)). done.
  - by rewrite IH.
Qed.
Corollary C37_reverse_elems l : elems (list_reverse l LNil) = reverse (elems l).
Proof. unfold elems at 1. rewrite C37_reverse. simpl. rewrite app_nil_r, elems_of_app, elems_of_names, elems_of_else. done. Qed.

(** [list_fold] folds from the right; [list_append] concatenates (and forgets the names of the first list). *)
Theorem C37_fold {Res} l (res : Res) f : list_fold l res f = foldr f res (elems l).
Proof. induction l as [|x l IH|n l IH|l IH]; simpl; [done|by rewrite IH|done|done]. Qed.
Theorem C37_append l1 l2 : toks (list_append l1 l2) = (NElse <$> elems l1) ++ toks l2.
Proof. unfold list_append. rewrite C37_fold. induction (elems l1) as [|x xs IH]; simpl; [done|]. by rewrite IH. Qed.

(** A list as a stack. *)
Theorem C37_is_empty l : is_empty l = true ↔ elems l = [].
Proof. induction l as [|x l IH|n l IH|l IH]; simpl; [done|done|done|done]. Qed.
Theorem C37_pop l : match list_pop l with
  | None => elems l = []
  | Some (x, l') => elems l = x :: elems l' end.
Proof. induction l as [|x l IH|n l IH|l IH]; simpl; done. Qed.
Theorem C37_push_pop l x : list_pop (list_push l x) = Some (x, l).
Proof. done. Qed.

(** [vec_of_list] and [list_of_vec] *)
Theorem C37_vec_roundtrip (v : list (name_else X)) : vec_of_list (list_of_vec v) None = v.
Proof.
  assert (∀ l out, vec_go l None out = out ++ toks l) as Hgo.
  { induction l as [|x l IH|n l IH|l IH]; intros out; simpl; [by rewrite app_nil_r| | |done];
      rewrite IH; by rewrite <- (assoc_L (++)). }
  unfold vec_of_list. rewrite Hgo. simpl. induction v as [|[n|x] v IH]; simpl; [done|by f_equal|by f_equal].
Qed.
Theorem C37_vec_all l : vec_of_list l None = toks l.
Proof.
  assert (∀ l out, vec_go l None out = out ++ toks l) as Hgo; [|apply Hgo].
  clear. induction l as [|x l IH|n l IH|l IH]; intros out; simpl; [by rewrite app_nil_r| | |done];
    rewrite IH; by rewrite <- (assoc_L (++)).
Qed.
(** A limit of [k > 0] takes the first [k] elements {e and names}; a limit of 0 is no limit at all. *)
Theorem C37_vec_limit l k : vec_of_list l (Some k) = if decide (k = O) then toks l else take k (toks l).
Proof.
  assert (∀ l out, (k ≤ length out)%nat → length out ≠ k ∨ k = O → vec_go l (Some k) out = out ++ toks l) as H0.
  { clear. induction l as [|x l IH|n l IH|l IH]; intros out Hle Hne; simpl; [by rewrite app_nil_r| | |by apply IH];
      (rewrite decide_False by (rewrite app_length; simpl; intros [= ?]; lia)); rewrite IH by (rewrite app_length; simpl; lia);
      by rewrite <- (assoc_L (++)). }
  assert (∀ l out, (length out < k)%nat → vec_go l (Some k) out = take k (out ++ toks l)) as H1.
  { clear. induction l as [|x l IH|n l IH|l IH]; intros out Hlt; simpl; [rewrite app_nil_r; symmetry; apply take_ge; lia| | |by apply IH].
    all: case_decide as E;
      [injection E as E; rewrite (cons_middle _ out (toks l)), (assoc_L (++)); symmetry; by apply take_app_alt
      |rewrite IH; [by rewrite <- (assoc_L (++))|]; rewrite app_length in *; simpl in *; assert (k ≠ (length out + 1)%nat) by congruence; lia]. }
  unfold vec_of_list. case_decide as E; [rewrite H0; [done|simpl; lia|by right]|rewrite H1; [done|simpl; lia]].
Qed.

(** ** C39: [list_gen] never produces an element. *)
Theorem C39_list_gen_empty checks len (gen : N → X) :
  list_gen checks len gen = if decide (len = 0%N ∧ checks = true) then None else Some LNil.
Proof.
  assert (∀ a, range a 0 = []) as Hr by (intros a; unfold range; by rewrite N.sub_0_l).
  unfold list_gen. rewrite !Hr. simpl. destruct checks; repeat case_decide; naive_solver.
Qed.

(** ** C40: [is_name] tests for an element, not for a name. *)
Theorem C40_is_name_inverted l : is_name l = match toks l with NElse _ :: _ => true | _ => false end.
Proof. induction l as [|x l IH|n l IH|l IH]; simpl; done. Qed.
Corollary C40_is_name_refuted n l : is_name (LName n l) = false ∧ ∀ x, is_name (LCons x l) = true.
Proof. done. Qed.

(** ** Merging. *)
Section Merge.
Context (le : X → X → bool).
Definition leR (x y : X) : Prop := le x y = true.
Global Instance leR_dec x y : Decision (leR x y).
Proof. unfold leR. apply _. Defined.
Theorem C37_merge_elems n1 l1 n2 l2 : elems (list_merge le n1 l1 n2 l2) = sorting.list_merge leR (elems l1) (elems l2).
Proof.
  revert n1 n2 l2. induction l1 as [|h1 t1 IH1|m1 t1 IH1|l1 IH1]; intros n1 n2 l2.
  - simpl. change (elems LNil) with (@nil X). rewrite list_merge_nil_l. by destruct n2.
  - revert n2. induction l2 as [|h2 t2 IH2|m2 t2 IH2|l2 IH2]; intros n2.
    + simpl. by destruct n1.
    + cbn [list_merge]. rewrite !elems_cons, list_merge_cons. destruct (le h1 h2) eqn:E.
      * rewrite decide_True by done. destruct n1 as [n1|]; simpl; rewrite ?elems_name, elems_cons, ?elems_art, IH1; by rewrite elems_cons.
      * rewrite decide_False by congruence. destruct n2 as [n2|]; simpl; rewrite ?elems_name, elems_cons, ?elems_art; f_equal; apply (IH2 None).
    + apply (IH2 (Some m2)).
    + apply (IH2 n2).
  - apply (IH1 (Some m1)).
  - apply (IH1 n1).
Qed.
(** Merging with a list without elements returns the other list, names included, with its pending name in front. *)
Definition name_tok (n : option name) : list (name_else X) := match n with None => [] | Some n => [NName n] end.
Theorem C37_merge_rest n1 n2 : (∀ l1 l2, elems l1 = [] → toks (list_merge le n1 l1 n2 l2) = name_tok n2 ++ toks l2) ∧
  (∀ h t l2, elems l2 = [] → toks (list_merge le n1 (LCons h t) n2 l2) = name_tok n1 ++ toks (LCons h t)).
Proof.
  assert (∀ n (l : lst X), toks (list_name_op n l) = name_tok n ++ toks l) as Ht by (by intros [n|] l).
  split.
  - intros l1 l2. revert n1. induction l1 as [|h1 t1 IH1|m1 t1 IH1|l1 IH1]; intros n1 He; [apply Ht|done|by apply IH1|by apply IH1].
  - intros h t l2. revert n2. induction l2 as [|h2 t2 IH2|m2 t2 IH2|l2 IH2]; intros n2 He; [apply (Ht n1)|done|by apply (IH2 (Some m2))|by apply (IH2 n2)].
Qed.
(** Merging two lists rearranges their elements; if both are sorted so is the result. *)
Theorem C37_merge_permutation n1 l1 n2 l2 : elems (list_merge le n1 l1 n2 l2) ≡ₚ elems l1 ++ elems l2.
Proof. rewrite C37_merge_elems. apply merge_Permutation. Qed.
(** The order need only be total on the elements concerned ([D]). *)
Lemma Sorted_merge_in (D : X → Prop) (l1 l2 : list X) :
  (∀ x y, D x → D y → le x y = true ∨ le y x = true) → Forall D l1 → Forall D l2 →
  Sorted leR l1 → Sorted leR l2 → Sorted leR (sorting.list_merge leR l1 l2).
Proof.
  intros Hto H1 H2 Hl1. revert l2 H2. induction Hl1 as [|x1 l1 Hl1 IH1 Hh1]; intros l2 H2 Hl2; [by rewrite list_merge_nil_l|].
  inversion_clear H1 as [|?? Hx1 H1']. induction Hl2 as [|x2 l2 Hl2 IH2 Hh2]; [rewrite list_merge_nil_r; by constructor|].
  inversion_clear H2 as [|?? Hx2 H2']. rewrite list_merge_cons. case_decide as E; constructor.
  - apply IH1; [done|by constructor|by constructor].
  - apply HdRel_list_merge; [done|by constructor].
  - by apply IH2.
  - assert (leR x2 x1) by (destruct (Hto x1 x2 Hx1 Hx2); [done|done]). apply HdRel_list_merge; [by constructor|done].
Qed.
Theorem C37_merge_sorted n1 l1 n2 l2 (D : X → Prop) :
  (∀ x y, D x → D y → le x y = true ∨ le y x = true) → Forall D (elems l1) → Forall D (elems l2) →
  Sorted leR (elems l1) → Sorted leR (elems l2) → Sorted leR (elems (list_merge le n1 l1 n2 l2)).
Proof. intros Ht F1 F2 H1 H2. rewrite C37_merge_elems. by apply (Sorted_merge_in D). Qed.
End Merge.
End Lists.

(** Merging is stable: among equivalent elements, those of the first list come first, in their order. *)
Section Stable.
Context `{Hashes} {X : Type} (le : X → X → bool).
Definition equiv_to (x y : X) : Prop := le x y = true ∧ le y x = true.
Global Instance equiv_to_dec x y : Decision (equiv_to x y).
Proof. unfold equiv_to. apply _. Defined.
Lemma Sorted_head_le (D : X → Prop) h (t : list X) y :
  (∀ x y z, D x → D y → D z → le x y = true → le y z = true → le x z = true) → Forall D (h :: t) → Sorted (leR le) (h :: t) →
  y ∈ t → le h y = true.
Proof.
  intros Htr. revert h. induction t as [|a t IH]; intros h HD Hs Hy; [by apply elem_of_nil in Hy|].
  inversion_clear HD as [|?? Hh HD']. inversion_clear Hs as [|?? Hs' Hr]. inversion_clear Hr as [|?? Hha].
  apply elem_of_cons in Hy as [->|Hy]; [done|]. inversion HD' as [|?? Ha HD'']; subst. assert (D y) by (rewrite Forall_forall in HD''; by apply HD'').
  apply (Htr h a y); [done|done|done|done|]. by apply IH.
Qed.
Theorem C37_merge_stable n1 (l1 : lst X) n2 l2 x (D : X → Prop) :
  (∀ x y, D x → D y → le x y = true ∨ le y x = true) →
  (∀ x y z, D x → D y → D z → le x y = true → le y z = true → le x z = true) →
  D x → Forall D (elems l1) → Forall D (elems l2) → Sorted (leR le) (elems l1) → Sorted (leR le) (elems l2) →
  filter (equiv_to x) (elems (list_merge le n1 l1 n2 l2)) = filter (equiv_to x) (elems l1) ++ filter (equiv_to x) (elems l2).
Proof.
  intros Hto Htr Hx F1 F2 H1 H2. rewrite C37_merge_elems.
  generalize dependent (elems l2). generalize dependent (elems l1). clear l1 l2.
  induction l as [|h1 t1 IH1]; intros F1 H1 l2 F2 H2; [by rewrite list_merge_nil_l|].
  induction l2 as [|h2 t2 IH2]; [rewrite list_merge_nil_r; simpl; by rewrite app_nil_r|].
  rewrite list_merge_cons. assert (H1' := H1). assert (F1' := F1). inversion_clear H1 as [|?? Hs1 Hf1]. inversion_clear F1 as [|?? D1 Ft1].
  assert (H2' := H2). assert (F2' := F2). inversion_clear H2 as [|?? Hs2 Hf2]. inversion_clear F2 as [|?? D2 Ft2]. case_decide as E.
  - rewrite (filter_cons _ h1 (sorting.list_merge _ _ _)), IH1 by done. rewrite (filter_cons _ h1 t1). by case_decide.
  - rewrite (filter_cons _ h2 (sorting.list_merge _ _ _)), IH2 by done. rewrite (filter_cons _ h2 t2). case_decide as E2; [|done].
    assert (filter (equiv_to x) (h1 :: t1) = []) as ->; [|done].
    destruct (filter (equiv_to x) (h1 :: t1)) as [|y ys] eqn:Hy; [done|exfalso].
    assert (y ∈ filter (equiv_to x) (h1 :: t1)) as Hin by (rewrite Hy; by left). apply elem_of_list_filter in Hin as [[Hxy Hyx] Hin].
    assert (D y) as Dy by (rewrite Forall_forall in F1'; by apply F1').
    apply E. unfold leR. apply (Htr _ y); [done|done|done| |apply (Htr _ x); [done|done|done|done|by destruct E2]].
    apply elem_of_cons in Hin as [->|Hin]; [by destruct (Hto h1 h1)|]. by apply (Sorted_head_le D h1 t1).
Qed.
End Stable.

(** ** C48: lists of pairs as finite maps and sets (collections.rs:428-505, 1167-1207). *)
Section Maps.
Context {D C : Type} `{EqDecision D}.
Notation amap := (lst (D * C)).
(** collections.rs:1173-1174, [MapIntro::empty] and [update]. *)
Definition map_empty : amap := LNil.
Definition map_update (m : amap) (d : D) (c : C) : amap := LCons (d, c) m.
(** collections.rs:1183-1194, [find]. *)
Fixpoint map_find (m : amap) (d : D) : option C :=
  match m with
  | LNil => None
  | LCons (d2, c) tl => if decide (d = d2) then Some c else map_find tl d
  | LName _ l => map_find l d
  | LArt l => map_find l d
  end.
(** collections.rs:1198-1202, [fold]. *)
Definition map_fold {Res} (m : amap) (res : Res) (body : D → C → Res → Res) : Res :=
  list_fold m res (λ '(d, c) r, body d c r).

(** The abstract map: the first binding of a key counts. *)
Fixpoint bindings (l : list (D * C)) (d : D) : option C :=
  match l with [] => None | (d2, c) :: l => if decide (d2 = d) then Some c else bindings l d end.
Theorem C48_find_is_first_binding (m : amap) d : map_find m d = bindings (elems m) d.
Proof. induction m as [|[d2 c] m IH|n m IH|m IH]; [done| |done|done]. rewrite elems_cons. simpl. repeat case_decide; congruence. Qed.
Theorem C48_find_update (m : amap) d c d' : map_find (map_update m d c) d' = if decide (d' = d) then Some c else map_find m d'.
Proof. done. Qed.
Theorem C48_find_empty d : map_find map_empty d = None.
Proof. done. Qed.
(** [fold] visits every binding, also those that a later update has overridden. *)
Theorem C48_fold {Res} (m : amap) (res : Res) body : map_fold m res body = foldr (λ p r, body p.1 p.2 r) res (elems m).
Proof. unfold map_fold. rewrite C37_fold. induction (elems m) as [|[d c] l IH]; simpl; [done|]. by rewrite IH. Qed.
End Maps.
Section Sets.
Context {E : Type} `{EqDecision E}.
Notation aset := (lst (E * unit)).
(** collections.rs:464, [add]; 494-499, [is_mem]; 467-479, [inter].  ([remove], [union] and [diff] are [unimplemented!()]
    for lists: 1195, 1203, 480.) *)
Definition set_add (s : aset) (x : E) : aset := map_update s x tt.
Definition set_mem (s : aset) (x : E) : bool := match map_find s x with Some _ => true | None => false end.
Definition set_inter (s other : aset) : aset :=
  (map_fold s (map_empty, other) (λ x _ '(out, other),
     (match map_find other x with Some _ => set_add out x | None => out end, other))).1.
Theorem C48_mem_add s x y : set_mem (set_add s x) y = bool_decide (y = x) || set_mem s y.
Proof. unfold set_mem, set_add. rewrite C48_find_update. case_decide; [by rewrite bool_decide_true|by rewrite bool_decide_false]. Qed.
Theorem C48_mem_empty x : set_mem map_empty x = false.
Proof. done. Qed.
Theorem C48_mem_inter s o x : set_mem (set_inter s o) x = set_mem s x && set_mem o x.
Proof.
  unfold set_inter. rewrite C48_fold. unfold set_mem at 2. rewrite C48_find_is_first_binding.
  set (g := foldr _ _). assert (∀ l, (g l).2 = o) as Hg.
  { intros l. induction l as [|[y []] l IH]; [done|]. simpl. destruct (g l) as [out o']. simpl in *. by subst. }
  induction (elems s) as [|[y []] l IH]; [done|]. simpl. specialize (Hg l). destruct (g l) as [out o'] eqn:Eg. simpl in *. subst o'.
  case_decide as Hy.
  - subst y. unfold set_mem at 2. destruct (map_find o x) as [|] eqn:Ex.
    + rewrite C48_mem_add. by rewrite bool_decide_true.
    + rewrite IH. unfold set_mem. rewrite Ex. by rewrite !andb_false_r.
  - destruct (map_find o y) as [|] eqn:Ey; [|done]. rewrite C48_mem_add. rewrite bool_decide_false by congruence. done.
Qed.
End Sets.
