(** * Level trees (src/catalog/collections.rs 13-22, 343-425, 507-850, 966-1036, 1091-1098, 1355-1467): C38, and C37 for
    the sorting functions.

    As in [Lists.v] an articulation is represented by the tree that forcing it returns, and [memo!], [eager!] and [ns]
    are just calls.  Levels are [usize]: sums are at most [32 + 64 + 1], so there is no overflow. *)
From Verif Require Export Lists.

(** collections.rs:13-22. *)
Inductive dir2 := DLeft | DRight.
Definition invert (d : dir2) : dir2 := match d with DLeft => DRight | DRight => DLeft end.
(** collections.rs:1091-1098, [enum Tree]. *)
Inductive tree (X : Type) :=
  | TNil | TLeaf (x : X) | TBin (lev : N) (l r : tree X) | TName (n : name) (lev : N) (l r : tree X) | TArt (t : tree X).
Arguments TNil {X}. Arguments TLeaf {X} x. Arguments TBin {X} lev l r. Arguments TName {X} n lev l r. Arguments TArt {X} t.

(** The 64-bit hashes of elements and of names ([my_hash_n(&x,1)], collections.rs:24-32); nothing is assumed about
    them.  *)
Class Hash64 (X : Type) := { hash_elt : X → N; hash_name : name → N }.
(** [u64::trailing_zeros] *)
Fixpoint ctz_pos (p : positive) : N := match p with xO p => N.succ (ctz_pos p) | _ => 0%N end.
Definition trailing_zeros (h : N) : N := match (h mod 2 ^ 64)%N with N0 => 64%N | Npos p => ctz_pos p end.
(** collections.rs:1355-1366, [impl Level for usize]. *)
Definition lev_new (h : N) : N := trailing_zeros h.
Definition lev_bits : N := 32%N.
Definition lev_zero : N := 0%N.
Definition lev_max_val : N := (2 ^ 64 - 1)%N.

(** ** Specification: what a tree contains, from left to right, and its level order. *)
Fixpoint tseq {X} (t : tree X) : list (name_else X) :=
  match t with
  | TNil => [] | TLeaf x => [NElse x] | TBin _ l r => tseq l ++ tseq r
  | TName n _ l r => tseq l ++ NName n :: tseq r | TArt t => tseq t
  end.
Definition telems {X} (t : tree X) : list X := elems_of (tseq t).
Definition tnames {X} (t : tree X) : list name := names_of (tseq t).
(** Read in direction [d]. *)
Definition in_dir {A} (d : dir2) (l : list A) : list A := match d with DLeft => l | DRight => reverse l end.
(** Levels do not increase from the root to the leaves. *)
Fixpoint level_order {X} (bound : N) (t : tree X) : Prop :=
  match t with
  | TNil | TLeaf _ => True
  | TBin lev l r | TName _ lev l r => (lev ≤ bound)%N ∧ level_order lev l ∧ level_order lev r
  | TArt t => level_order bound t
  end.

(** [h], seen as a 64-bit number, ends with exactly [k] zero bits. *)
Definition ends_in_zeros (h k : N) : Prop :=
  if decide ((h mod 2 ^ 64)%N = 0%N) then k = 64%N else ∃ q, (h mod 2 ^ 64 = 2 ^ k * (2 * q + 1))%N.
(** The level of the root, seen through articulations. *)
Fixpoint root_lev {X} (t : tree X) : option N :=
  match t with TNil | TLeaf _ => None | TBin lev _ _ | TName _ lev _ _ => Some lev | TArt t => root_lev t end.
(** The shape of a tree read in direction [d]: the level of a node is given by the hash of its name, or of the element
    with which its second part begins (names are 32 levels above elements); the first part is strictly below the node,
    the second part is not above it. *)
Fixpoint canonical `{Hash64 X} (d : dir2) (t : tree X) : Prop :=
  match t with
  | TNil | TLeaf _ => True
  | TBin lev l r =>
      let a := match d with DLeft => l | DRight => r end in let b := match d with DLeft => r | DRight => l end in
      (∃ x ts k, in_dir d (tseq b) = NElse x :: ts ∧ ends_in_zeros (hash_elt x) k ∧ lev = (k + 1)%N) ∧
      (∀ k, root_lev a = Some k → k < lev)%N ∧ (∀ k, root_lev b = Some k → k ≤ lev)%N ∧ canonical d l ∧ canonical d r
  | TName n lev l r =>
      let a := match d with DLeft => l | DRight => r end in let b := match d with DLeft => r | DRight => l end in
      (∃ k, ends_in_zeros (hash_name n) k ∧ lev = (32 + k + 1)%N) ∧
      (∀ k, root_lev a = Some k → k < lev)%N ∧ (∀ k, root_lev b = Some k → k ≤ lev)%N ∧ canonical d l ∧ canonical d r
  | TArt t => canonical d t
  end.

Section Model.
Context `{Hashes} {X : Type} `{Hash64 X}.

Definition lev_of_elt (x : X) : N := (lev_new (hash_elt x) + 1)%N.                     (* Lev::inc(&Lev::new(&hd)) *)
Definition lev_of_name (n : name) : N := (lev_bits + lev_new (hash_name n) + 1)%N.     (* Lev::inc(&Lev::add(&Lev::bits(), &Lev::new(&nm))) *)

(** collections.rs:407-415 [is_empty], 417-425 [is_nil], 1457-1465 [lev_of_tree]. *)
Fixpoint tree_is_empty (t : tree X) : bool :=
  match t with
  | TNil => true | TLeaf _ => false | TBin _ l r | TName _ _ l r => tree_is_empty l && tree_is_empty r
  | TArt t => tree_is_empty t
  end.
Fixpoint is_nil (t : tree X) : bool :=
  match t with TNil => true | TLeaf _ | TBin _ _ _ | TName _ _ _ _ => false | TArt t => is_nil t end.
Fixpoint lev_of_tree (t : tree X) : N :=
  match t with
  | TNil => 0%N | TLeaf x => lev_new (hash_elt x) | TBin lev _ _ | TName _ lev _ _ => lev | TArt t => lev_of_tree t
  end.

(** collections.rs:507-524, [bin_arts_niltest]. *)
Definition bin_arts_niltest (n : option name) (lev : N) (l r : tree X) : tree X :=
  if is_nil l then r else if is_nil r then l else
  match n with None => TBin lev l r | Some n => TName n lev (TArt l) (TArt r) end.

(** collections.rs:526-566, [tree_fold_seq]. *)
Section FoldSeq.
Context {Res : Type} (leaf : X → Res → Res) (bin : N → Res → Res) (nam : name → N → Res → Res).
Fixpoint tree_fold_seq (t : tree X) (dir : dir2) (res : Res) : Res :=
  match t with
  | TNil => res
  | TLeaf x => leaf x res
  | TBin x l r =>
      match dir with
      | DLeft => tree_fold_seq r dir (bin x (tree_fold_seq l dir res))
      | DRight => tree_fold_seq l dir (bin x (tree_fold_seq r dir res))
      end
  | TName n x l r =>
      match dir with
      | DLeft => tree_fold_seq r dir (nam n x (tree_fold_seq l dir res))
      | DRight => tree_fold_seq l dir (nam n x (tree_fold_seq r dir res))
      end
  | TArt t => tree_fold_seq t dir res
  end.
End FoldSeq.
(** collections.rs:569-614, [tree_fold_up]. *)
Section FoldUp.
Context {Res : Type} (nil : Res) (leaf : X → Res) (bin : N → Res → Res → Res) (nam : name → N → Res → Res → Res).
Fixpoint tree_fold_up (t : tree X) : Res :=
  match t with
  | TNil => nil
  | TLeaf x => leaf x
  | TBin x l r => bin x (tree_fold_up l) (tree_fold_up r)
  | TName n x l r => nam n x (tree_fold_up l) (tree_fold_up r)
  | TArt t => tree_fold_up t
  end.
End FoldUp.
(** collections.rs:617-655, [tree_fold_up_nm_dn]. *)
Section FoldUpNm.
Context {Res : Type} (nil : option name → Res) (leaf : option name → X → Res)
  (bin : option name → N → Res → Res → Res) (nam : option name → name → N → Res → Res → Res).
Fixpoint tree_fold_up_nm_dn (t : tree X) (nm : option name) : Res :=
  match t with
  | TNil => nil nm
  | TLeaf x => leaf nm x
  | TBin x l r => bin nm x (tree_fold_up_nm_dn l nm) (tree_fold_up_nm_dn r None)
  | TName n x l r => nam nm n x (tree_fold_up_nm_dn l nm) (tree_fold_up_nm_dn r (Some n))
  | TArt t => tree_fold_up_nm_dn t nm
  end.
End FoldUpNm.

(** collections.rs:669-729, [tree_of_list_rec].  Fuel: the recursion follows the (finite) list, but not its structure;
    [None] means that the fuel is too small. *)
Fixpoint tree_of_list_rec (fuel : nat) (dir : dir2) (list : lst X) (tree : tree X) (tree_lev parent_lev : N)
    : option (Trees.tree X * lst X) :=
  match fuel with
  | O => None
  | S fuel =>
      match list with
      | LArt list => tree_of_list_rec fuel dir list tree tree_lev parent_lev
      | LNil => Some (tree, LNil)
      | LCons hd rest =>
          let lev_hd := lev_of_elt hd in
          if (tree_lev <=? lev_hd)%N && (lev_hd <=? parent_lev)%N then
            match tree_of_list_rec fuel dir rest (TLeaf hd) lev_zero lev_hd with
            | None => None
            | Some (tree2, rest2) =>
                let tree3 := match dir with DLeft => TBin lev_hd tree tree2 | DRight => TBin lev_hd tree2 tree end in
                tree_of_list_rec fuel dir rest2 tree3 lev_hd parent_lev
            end
          else Some (tree, LCons hd rest)
      | LName nm rest =>
          let lev_nm := lev_of_name nm in
          if (tree_lev <=? lev_nm)%N && (lev_nm <=? parent_lev)%N then
            match tree_of_list_rec fuel dir rest TNil lev_zero lev_nm with
            | None => None
            | Some (tree2, rest2) =>
                let tree3 := match dir with DLeft => TName nm lev_nm tree tree2 | DRight => TName nm lev_nm tree2 tree end in
                tree_of_list_rec fuel dir rest2 (TArt tree3) lev_nm parent_lev
            end
          else Some (tree, LName nm rest)
      end
  end.
(** collections.rs:657-667, [tree_of_list]. *)
Inductive built := Built (t : tree X) | AssertFailed | NoFuel.
Definition tree_of_list (fuel : nat) (dir : dir2) (list : lst X) : built :=
  match tree_of_list_rec fuel dir list TNil lev_zero lev_max_val with
  | None => NoFuel
  | Some (tree, list) => if is_empty list then Built tree else AssertFailed
  end.

(** collections.rs:732-749, [list_of_tree]. *)
Definition list_of_tree (t : tree X) (dir : dir2) : lst X :=
  tree_fold_seq LCons (λ _ xs, xs) (λ n _ xs, LName n (LArt xs)) t (invert dir) LNil.
(** collections.rs:752-770, [filter_list_of_tree]. *)
Definition filter_list_of_tree (t : tree X) (pred : X → bool) : lst X :=
  tree_fold_seq (λ x xs, if pred x then LCons x xs else xs) (λ _ xs, xs)
    (λ n _ xs, if is_name xs then xs else LName n (LArt xs)) t DRight LNil.
(** collections.rs:773-793, [filter_tree_of_tree]. *)
Definition filter_tree_of_tree (t : tree X) (pred : X → bool) : tree X :=
  tree_fold_up TNil (λ x, if pred x then TLeaf x else TNil) (λ lev l r, bin_arts_niltest None lev l r)
    (λ n lev l r, bin_arts_niltest (Some n) lev l r) t.
(** collections.rs:796-813, [monoid_of_tree]. *)
Definition monoid_of_tree (t : tree X) (id_elm : X) (bin_op : X → X → X) : X :=
  tree_fold_up id_elm (λ x, x) (λ _ l r, bin_op l r) (λ _ _ l r, bin_op l r) t.
(** collections.rs:816-832, [eager_tree_of_tree]. *)
Definition eager_tree_of_tree (t : tree X) : tree X := tree_fold_up TNil TLeaf TBin TName t.
(** collections.rs:835-850, [prune_tree_of_tree]. *)
Definition prune_tree_of_tree (t : tree X) : tree X :=
  tree_fold_up TNil TLeaf (λ lev l r, bin_arts_niltest None lev l r) (λ n lev l r, bin_arts_niltest (Some n) lev l r) t.

(** collections.rs:966-987, 990-1010, 1013-1029 and 1030-1036: the three sorting functions. *)
Definition mergesort_list_of_tree (le : X → X → bool) (t : tree X) : lst X :=
  tree_fold_up LNil (λ x, LCons x LNil) (λ _ l r, list_merge le None l None r)
    (λ n _ l r, let '(n1, n2) := name_fork n in list_merge le (Some n1) l (Some n2) r) t.
Definition mergesort_list_of_tree2 (le : X → X → bool) (t : tree X) (nm : option name) : lst X :=
  tree_fold_up_nm_dn (λ _, LNil) (λ m x, list_name_op m (LCons x LNil)) (λ _ _ l r, list_merge le None l None r)
    (λ _ n _ l r, list_merge le None l (Some n) r) t nm.
Definition mergesort_list_of_tree3 (le : X → X → bool) (t : tree X) (nm : option name) : lst X :=
  tree_fold_up_nm_dn (λ _, LNil) (λ m x, list_name_op m (LCons x LNil)) (λ _ _ l r, list_merge le None l None r)
    (λ _ _ _ l r, list_merge le None l None r) t nm.
End Model.

(** ** Building a tree *)
Section Trees.
Context `{Hashes} {X : Type} `{Hash64 X}.

Fixpoint lsize (l : lst X) : nat := match l with LNil => 0 | LCons _ l | LName _ l | LArt l => S (lsize l) end.
(** The level of the head of a list. *)
Definition head_lev (l : lst X) : option N :=
  match toks l with [] => None | NElse x :: _ => Some (lev_of_elt x) | NName n :: _ => Some (lev_of_name n) end.

Lemma ctz_pos_le p : (2 ^ ctz_pos p ≤ Npos p)%N.
Proof.
  induction p as [p _|p IH|]; cbn [ctz_pos]; [rewrite N.pow_0_r; lia| |done].
  rewrite N.pow_succ_r'. lia.
Qed.
Lemma lev_new_le h : (lev_new h ≤ 64)%N.
Proof.
  unfold lev_new, trailing_zeros. assert (Hb := N.mod_upper_bound h (2 ^ 64) ltac:(done)).
  destruct (h mod 2 ^ 64)%N as [|p]; [done|]. assert (Hp := ctz_pos_le p).
  apply N.lt_le_incl, (N.pow_lt_mono_r_iff 2); [done|]. lia.
Qed.
Lemma head_lev_max (l : lst X) h : head_lev l = Some h → (h ≤ lev_max_val)%N.
Proof.
  unfold head_lev, lev_of_elt, lev_of_name, lev_bits, lev_max_val. destruct (toks l) as [|[n|x] ts]; [done|..]; intros [= <-].
  - assert (Hl := lev_new_le (hash_name n)). simpl in *. lia.
  - assert (Hl := lev_new_le (hash_elt x)). simpl in *. lia.
Qed.
Lemma level_order_mono a b (t : tree X) : (a ≤ b)%N → level_order a t → level_order b t.
Proof. induction t as [| | | |t IH]; simpl; naive_solver lia. Qed.
Lemma in_dir_app {A} d (a b : list A) : in_dir d (a ++ b) = match d with DLeft => a ++ b | DRight => in_dir d b ++ in_dir d a end.
Proof. destruct d; [done|]. simpl. apply reverse_app. Qed.

Lemma tree_of_list_rec_ok fuel dir l t tl pl : (lsize l < fuel)%nat → (tl ≤ pl)%N → level_order tl t →
  (∀ h, head_lev l = Some h → tl ≤ h)%N →
  ∃ t' l' done, tree_of_list_rec fuel dir l t tl pl = Some (t', l') ∧ (lsize l' ≤ lsize l)%nat ∧
    (∀ h, head_lev l' = Some h → pl < h)%N ∧ toks l = done ++ toks l' ∧
    in_dir dir (tseq t') = in_dir dir (tseq t) ++ done ∧ level_order pl t'.
Proof.
  revert l t tl pl. induction fuel as [|fuel IH]; intros l t tl pl Hsz Hle Hlo Hh; [lia|].
  destruct l as [|x rest|n rest|l]; simpl in Hsz.
  - exists t, LNil, []. simpl. rewrite app_nil_r. split_and!; try done. by eapply level_order_mono.
  - cbn [tree_of_list_rec]. assert (tl ≤ lev_of_elt x)%N as H1 by (by apply Hh). apply N.leb_le in H1 as E1. rewrite E1. simpl (true && _).
    destruct (N.leb_spec (lev_of_elt x) pl) as [H2|H2].
    + destruct (IH rest (TLeaf x) lev_zero (lev_of_elt x)) as (t2 & rest2 & d2 & -> & Hs2 & Hh2 & Ht2 & Hq2 & Hl2); [lia|unfold lev_zero; lia|done|unfold lev_zero; lia|].
      set (t3 := match dir with DLeft => TBin (lev_of_elt x) t t2 | DRight => TBin (lev_of_elt x) t2 t end).
      destruct (IH rest2 t3 (lev_of_elt x) pl) as (t' & l' & d' & -> & Hs & Hh' & Ht & Hq & Hl).
      * lia.
      * done.
      * subst t3. destruct dir; simpl; (split_and!; [lia|..]); try done; by eapply level_order_mono.
      * intros h Hh'. specialize (Hh2 h Hh'). lia.
      * exists t', l', (NElse x :: d2 ++ d'). split_and!; [done|simpl; lia|done| |  |done].
        -- simpl. rewrite Ht2, Ht. by rewrite (assoc_L (++)).
        -- rewrite Hq. subst t3. destruct dir; simpl in *; rewrite ?reverse_app, Hq2; simpl; by rewrite <- ?(assoc_L (++)).
    + exists t, (LCons x rest), []. rewrite app_nil_r. split_and!; try done; [intros h [= <-]; done|by eapply level_order_mono].
  - cbn [tree_of_list_rec]. assert (tl ≤ lev_of_name n)%N as H1 by (by apply Hh). apply N.leb_le in H1 as E1. rewrite E1. simpl (true && _).
    destruct (N.leb_spec (lev_of_name n) pl) as [H2|H2].
    + destruct (IH rest TNil lev_zero (lev_of_name n)) as (t2 & rest2 & d2 & -> & Hs2 & Hh2 & Ht2 & Hq2 & Hl2); [lia|unfold lev_zero; lia|done|unfold lev_zero; lia|].
      set (t3 := match dir with DLeft => TName n (lev_of_name n) t t2 | DRight => TName n (lev_of_name n) t2 t end).
      destruct (IH rest2 (TArt t3) (lev_of_name n) pl) as (t' & l' & d' & -> & Hs & Hh' & Ht & Hq & Hl).
      * lia.
      * done.
      * subst t3. destruct dir; simpl; (split_and!; [lia|..]); try done; by eapply level_order_mono.
      * intros h Hh'. specialize (Hh2 h Hh'). lia.
      * exists t', l', (NName n :: d2 ++ d'). split_and!; [done|simpl; lia|done| |  |done].
        -- simpl. rewrite Ht2, Ht. by rewrite (assoc_L (++)).
        -- rewrite Hq. subst t3. destruct dir; simpl in *; rewrite ?reverse_app, ?reverse_cons, Hq2; simpl; by rewrite <- ?(assoc_L (++)).
    + exists t, (LName n rest), []. rewrite app_nil_r. split_and!; try done; [intros h [= <-]; done|by eapply level_order_mono].
  - destruct (IH l t tl pl) as (t' & l' & d & E & Hs & Hrest); [lia|done|done|exact Hh|].
    exists t', l', d. split; [exact E|]. split; [simpl; lia|exact Hrest].
Qed.

(** C38. [tree_of_list] terminates and its assertion holds; read in the direction given, the tree contains exactly the
    elements and names of the list, in their order; and its levels are ordered. *)
Theorem C38_tree_of_list dir (l : lst X) fuel : (lsize l < fuel)%nat →
  ∃ t, tree_of_list fuel dir l = Built t ∧ in_dir dir (tseq t) = toks l ∧ level_order lev_max_val t.
Proof.
  intros Hf. unfold tree_of_list.
  destruct (tree_of_list_rec_ok fuel dir l TNil lev_zero lev_max_val) as (t & l' & d & -> & _ & Hh & Ht & Hq & Hl);
    [done|done|done|unfold lev_zero; lia|].
  assert (toks l' = []) as E.
  { destruct (toks l') as [|x ts] eqn:E; [done|]. exfalso. assert (is_Some (head_lev l')) as [h Hx] by (unfold head_lev; rewrite E; destruct x; by eexists).
    specialize (Hh _ Hx). assert (h ≤ lev_max_val)%N by (by eapply head_lev_max). lia. }
  assert (is_empty l' = true) as -> by (apply C37_is_empty; unfold elems; by rewrite E).
  exists t. split; [done|]. rewrite Hq, Ht, E, app_nil_r. split; [by destruct dir|done].
Qed.

(** The levels are those of the hashes, and the shape is the one they determine. *)
Lemma lev_new_zeros h : ends_in_zeros h (lev_new h).
Proof.
  unfold ends_in_zeros, lev_new, trailing_zeros. destruct (h mod 2 ^ 64)%N as [|p]; [done|]. rewrite decide_False by done.
  clear. induction p as [p _|p [q IH]|].
  - exists (Npos p). cbn [ctz_pos]. rewrite N.pow_0_r. lia.
  - exists q. cbn [ctz_pos]. rewrite N.pow_succ_r', <- N.mul_assoc, <- IH. lia.
  - exists 0%N. done.
Qed.
Lemma tree_of_list_rec_canonical fuel dir l t tl pl t' l' : tree_of_list_rec fuel dir l t tl pl = Some (t', l') →
  canonical dir t → (∀ k, root_lev t = Some k → k ≤ pl)%N → (∀ k h, root_lev t = Some k → head_lev l = Some h → k < h)%N →
  (∀ h, head_lev l = Some h → tl ≤ h)%N → canonical dir t' ∧ (∀ k, root_lev t' = Some k → k ≤ pl)%N ∧
  (∀ h, head_lev l' = Some h → pl < h)%N ∧ ∃ done, in_dir dir (tseq t') = in_dir dir (tseq t) ++ done.
Proof.
  revert l t tl pl t' l'. induction fuel as [|fuel IH]; intros l t tl pl t' l' E Hc Hp Hs Hh; [done|].
  assert (∀ tt, canonical dir tt → (∀ k, root_lev tt = Some k → k ≤ pl)%N → ∃ done, in_dir dir (tseq tt) = in_dir dir (tseq tt) ++ done) as Hnil.
  { intros. exists []. by rewrite app_nil_r. }
  destruct l as [|x rest|n rest|l]; cbn [tree_of_list_rec] in E.
  - injection E as <- <-. split_and!; try done. by apply Hnil.
  - assert (tl ≤ lev_of_elt x)%N as H1 by (by apply Hh). apply N.leb_le in H1 as E1. rewrite E1 in E. cbn [andb] in E.
    destruct (N.leb_spec (lev_of_elt x) pl) as [H2|H2]; cycle 1.
    { injection E as <- <-. split_and!; try done; [by intros h [= <-]|by apply Hnil]. }
    destruct (tree_of_list_rec fuel dir rest (TLeaf x) lev_zero (lev_of_elt x)) as [[t2 rest2]|] eqn:E2; [|done].
    apply IH in E2 as (Hc2 & Hp2 & Hh2 & d2 & Hd2); [|done|done|done|intros; unfold lev_zero; lia].
    apply IH in E as (Hc' & Hp' & Hh' & d' & Hd').
    + split_and!; [done|done|done|]. destruct dir; simpl in *.
      * exists (tseq t2 ++ d'). by rewrite Hd', <- (assoc_L (++)).
      * exists (reverse (tseq t2) ++ d'). by rewrite Hd', reverse_app, <- (assoc_L (++)).
    + assert (∃ x0 ts k, in_dir dir (tseq t2) = NElse x0 :: ts ∧ ends_in_zeros (hash_elt x0) k ∧ lev_of_elt x = (k + 1)%N) as Hx.
      { exists x, d2, (lev_new (hash_elt x)). split_and!; [by destruct dir|apply lev_new_zeros|done]. }
      destruct dir; cbn [canonical]; (split_and!; [exact Hx|intros k Hk; by apply (Hs k)|done|done|done]).
    + destruct dir; simpl; intros k [= <-]; done.
    + intros k h Hk Hl. assert (k = lev_of_elt x) as -> by (destruct dir; simpl in Hk; congruence). by apply Hh2.
    + intros h Hl. specialize (Hh2 h Hl). lia.
  - assert (tl ≤ lev_of_name n)%N as H1 by (by apply Hh). apply N.leb_le in H1 as E1. rewrite E1 in E. cbn [andb] in E.
    destruct (N.leb_spec (lev_of_name n) pl) as [H2|H2]; cycle 1.
    { injection E as <- <-. split_and!; try done; [by intros h [= <-]|by apply Hnil]. }
    destruct (tree_of_list_rec fuel dir rest TNil lev_zero (lev_of_name n)) as [[t2 rest2]|] eqn:E2; [|done].
    apply IH in E2 as (Hc2 & Hp2 & Hh2 & d2 & Hd2); [|done|done|done|intros; unfold lev_zero; lia].
    apply IH in E as (Hc' & Hp' & Hh' & d' & Hd').
    + split_and!; [done|done|done|]. destruct dir; simpl in *.
      * exists (NName n :: tseq t2 ++ d'). by rewrite Hd', <- (assoc_L (++)).
      * exists (NName n :: reverse (tseq t2) ++ d'). rewrite Hd', reverse_app, reverse_cons. simpl. by rewrite <- !(assoc_L (++)).
    + assert (∃ k, ends_in_zeros (hash_name n) k ∧ lev_of_name n = (32 + k + 1)%N) as Hx.
      { exists (lev_new (hash_name n)). split; [apply lev_new_zeros|done]. }
      destruct dir; cbn [canonical]; (split_and!; [exact Hx|intros k Hk; by apply (Hs k)|done|done|done]).
    + destruct dir; simpl; intros k [= <-]; done.
    + intros k h Hk Hl. assert (k = lev_of_name n) as -> by (destruct dir; simpl in Hk; congruence). by apply Hh2.
    + intros h Hl. specialize (Hh2 h Hl). lia.
  - by apply (IH l t tl pl).
Qed.
Theorem C38_canonical dir (l : lst X) fuel t : tree_of_list fuel dir l = Built t → canonical dir t.
Proof.
  unfold tree_of_list. destruct (tree_of_list_rec fuel dir l TNil lev_zero lev_max_val) as [[t' l']|] eqn:E; [|done].
  destruct (is_empty l'); [|done]. intros [= <-]. apply tree_of_list_rec_canonical in E as (Hc & _); [done|done|done|done|intros; unfold lev_zero; lia].
Qed.
(** The tree depends only on the elements and names of the list and their order: not on where the list has
    articulations, and so not on the edits by which it came about. *)
Lemma tree_of_list_rec_toks n f f' dir l l' t tl pl t1 l1 t2 l2 : (f + f' ≤ n)%nat → toks l = toks l' →
  tree_of_list_rec f dir l t tl pl = Some (t1, l1) → tree_of_list_rec f' dir l' t tl pl = Some (t2, l2) → t1 = t2 ∧ toks l1 = toks l2.
Proof.
  revert f f' l l' t tl pl t1 l1 t2 l2. induction n as [|n IH]; intros f f' l l' t tl pl t1 l1 t2 l2 Hn Ht E1 E2.
  { by destruct f; [|lia]. }
  destruct f as [|f]; [done|]. destruct f' as [|f']; [done|].
  destruct l as [|x r|m r|a]; [..|cbn [tree_of_list_rec] in E1; eapply (IH f (S f') a l'); [lia|exact Ht|exact E1|exact E2]];
    (destruct l' as [|x' r'|m' r'|a']; [..|cbn [tree_of_list_rec] in E2; eapply (IH (S f) f' _ a'); [lia|exact Ht|exact E1|exact E2]]);
    simpl in Ht; try discriminate Ht; cbn [tree_of_list_rec] in E1, E2.
  - by simplify_eq.
  - injection Ht as <- Ht. destruct (_ && _); [|injection E1 as <- <-; injection E2 as <- <-; simpl; by rewrite Ht].
    destruct (tree_of_list_rec f dir r _ _ _) as [[u1 v1]|] eqn:F1; [|done]. destruct (tree_of_list_rec f' dir r' _ _ _) as [[u2 v2]|] eqn:F2; [|done].
    destruct (IH f f' _ _ _ _ _ _ _ _ _ ltac:(lia) Ht F1 F2) as [-> Hv]. eapply (IH f f' v1 v2); [lia|exact Hv|exact E1|exact E2].
  - injection Ht as <- Ht. destruct (_ && _); [|injection E1 as <- <-; injection E2 as <- <-; simpl; by rewrite Ht].
    destruct (tree_of_list_rec f dir r _ _ _) as [[u1 v1]|] eqn:F1; [|done]. destruct (tree_of_list_rec f' dir r' _ _ _) as [[u2 v2]|] eqn:F2; [|done].
    destruct (IH f f' _ _ _ _ _ _ _ _ _ ltac:(lia) Ht F1 F2) as [-> Hv]. eapply (IH f f' v1 v2); [lia|exact Hv|exact E1|exact E2].
Qed.
Theorem C38_history_independent dir (l l' : lst X) fuel fuel' : (lsize l < fuel)%nat → (lsize l' < fuel')%nat →
  toks l = toks l' → tree_of_list fuel dir l = tree_of_list fuel' dir l'.
Proof.
  intros Hf Hf' Ht. destruct (C38_tree_of_list dir l fuel Hf) as (t & E & _). destruct (C38_tree_of_list dir l' fuel' Hf') as (t' & E' & _).
  rewrite E, E'. revert E E'. unfold tree_of_list.
  destruct (tree_of_list_rec fuel dir l _ _ _) as [[t1 l1]|] eqn:F1; [|done]. destruct (tree_of_list_rec fuel' dir l' _ _ _) as [[t2 l2]|] eqn:F2; [|done].
  destruct (tree_of_list_rec_toks _ _ _ _ _ _ _ _ _ _ _ _ _ (le_n _) Ht F1 F2) as [-> _]. destruct (is_empty l1), (is_empty l2); naive_solver.
Qed.

(** ** Folding *)
(** [list_of_tree] lists the tree in the given direction, with its names. *)
Theorem C38_list_of_tree (t : tree X) dir : toks (list_of_tree t dir) = in_dir dir (tseq t).
Proof.
  assert (∀ (t : tree X) d (xs : lst X), toks (tree_fold_seq LCons (λ _ xs, xs) (λ n _ xs, LName n (LArt xs)) t (invert d) xs) = in_dir d (tseq t) ++ toks xs) as Hg.
  { clear. intros t d. induction t as [|x|lev l IHl r IHr|n lev l IHl r IHr|t IHt]; intros xs; destruct d; simpl in *; try done;
      rewrite ?IHl, ?IHr; simpl; rewrite ?IHl, ?IHr, ?reverse_app, ?reverse_cons; by rewrite <- ?(assoc_L (++)). }
  unfold list_of_tree. rewrite Hg. apply app_nil_r.
Qed.
(** Converting a list to a tree and back gives the list back. *)
Theorem C38_roundtrip dir (l : lst X) fuel t : (lsize l < fuel)%nat → tree_of_list fuel dir l = Built t → toks (list_of_tree t dir) = toks l.
Proof. intros Hf E. destruct (C38_tree_of_list dir l fuel Hf) as (t' & E' & Hq & _). rewrite E in E'. injection E' as <-. by rewrite C38_list_of_tree. Qed.

(** [monoid_of_tree] aggregates the leaves in order, however the tree is balanced. *)
Theorem C38_monoid (t : tree X) id_elm op (D : X → Prop) :
  D id_elm → (∀ a b, D a → D b → D (op a b)) → Forall D (telems t) →
  (∀ a b c, D a → D b → D c → op a (op b c) = op (op a b) c) → (∀ a, D a → op id_elm a = a) → (∀ a, D a → op a id_elm = a) →
  monoid_of_tree t id_elm op = foldr op id_elm (telems t).
Proof.
  intros Hid Hcl Ht Ha Hl Hr.
  assert (∀ xs, Forall D xs → D (foldr op id_elm xs)) as Hfd by (intros xs; induction 1; simpl; auto).
  assert (∀ xs ys, Forall D xs → Forall D ys → foldr op id_elm (xs ++ ys) = op (foldr op id_elm xs) (foldr op id_elm ys)) as Hf.
  { intros xs ys Hx Hy. induction Hx as [|x xs Hx Hxs IH]; simpl; [by rewrite Hl by auto|]. by rewrite IH, Ha by auto. }
  revert Ht. unfold monoid_of_tree, telems. induction t as [|x|lev l IHl r IHr|n lev l IHl r IHr|t IHt]; simpl; intros Ht; [done| | | |by apply IHt].
  - inversion_clear Ht. by rewrite Hr.
  - rewrite elems_of_app in Ht |- *. apply Forall_app in Ht as [Ht1 Ht2]. by rewrite IHl, IHr, Hf.
  - rewrite elems_of_app in Ht |- *. apply Forall_app in Ht as [Ht1 Ht2]. simpl in Ht2 |- *. by rewrite IHl, IHr, Hf.
Qed.
Corollary C38_monoid_shape (t t' : tree X) id_elm op (D : X → Prop) :
  D id_elm → (∀ a b, D a → D b → D (op a b)) → Forall D (telems t) →
  (∀ a b c, D a → D b → D c → op a (op b c) = op (op a b) c) → (∀ a, D a → op id_elm a = a) → (∀ a, D a → op a id_elm = a) →
  telems t = telems t' → monoid_of_tree t id_elm op = monoid_of_tree t' id_elm op.
Proof. intros Hi Hc Ht Ha Hl Hr E. rewrite (C38_monoid t _ _ D), (C38_monoid t' _ _ D) by (try rewrite <- E; done). by rewrite E. Qed.

(** [eager_tree_of_tree]: the same tree without articulations. *)
Fixpoint art_free (t : tree X) : Prop :=
  match t with TNil | TLeaf _ => True | TBin _ l r | TName _ _ l r => art_free l ∧ art_free r | TArt _ => False end.
Theorem C38_eager (t : tree X) : art_free (eager_tree_of_tree t) ∧ tseq (eager_tree_of_tree t) = tseq t ∧
  (∀ b, level_order b (eager_tree_of_tree t) ↔ level_order b t) ∧ (art_free t → eager_tree_of_tree t = t).
Proof.
  unfold eager_tree_of_tree. induction t as [|x|lev l IHl r IHr|n lev l IHl r IHr|t IHt]; simpl; [done|done| | |naive_solver].
  - destruct IHl as (?&El&?&?), IHr as (?&Er&?&?). rewrite El, Er. split_and!; try done; [naive_solver|]. intros [??]. f_equal; naive_solver.
  - destruct IHl as (?&El&?&?), IHr as (?&Er&?&?). rewrite El, Er. split_and!; try done; [naive_solver|]. intros [??]. f_equal; naive_solver.
Qed.

Theorem C38_eager_canonical (t : tree X) d : canonical d (eager_tree_of_tree t) ↔ canonical d t.
Proof.
  unfold eager_tree_of_tree. assert (∀ t : tree X, tseq (eager_tree_of_tree t) = tseq t) as Hs by (intros; apply C38_eager).
  assert (∀ t : tree X, root_lev (eager_tree_of_tree t) = root_lev t) as Hr by (clear; induction t; simpl; done).
  unfold eager_tree_of_tree in *. induction t as [|x|lev l IHl r IHr|n lev l IHl r IHr|t IHt]; [done|done| | |exact IHt];
    cbn [tree_fold_up canonical]; cbv zeta; destruct d; rewrite ?Hs, ?Hr, IHl, IHr; done.
Qed.

(** Trees without empty subtrees. *)
Fixpoint no_nil (t : tree X) : Prop :=
  match t with TNil => False | TLeaf _ => True | TBin _ l r | TName _ _ l r => no_nil l ∧ no_nil r | TArt t => no_nil t end.
Definition pruned (t : tree X) : Prop := is_nil t = true ∨ no_nil t.
Lemma is_nil_seq (t : tree X) : is_nil t = true → tseq t = [].
Proof. induction t; simpl; done. Qed.
Lemma no_nil_is_nil (t : tree X) : no_nil t → is_nil t = false.
Proof. induction t; simpl; naive_solver. Qed.
Lemma niltest_spec n lev (l r : tree X) : pruned l → pruned r →
  pruned (bin_arts_niltest n lev l r) ∧ telems (bin_arts_niltest n lev l r) = telems l ++ telems r ∧
  sublist (tnames (bin_arts_niltest n lev l r)) (tnames l ++ option_list n ++ tnames r).
Proof.
  intros Hl Hr. unfold bin_arts_niltest. destruct (is_nil l) eqn:El; [|destruct (is_nil r) eqn:Er].
  - apply is_nil_seq in El. split; [done|]. unfold telems, tnames. rewrite El. simpl. split; [done|]. by apply sublist_inserts_l.
  - apply is_nil_seq in Er. split; [done|]. unfold telems, tnames. rewrite Er. simpl. rewrite !app_nil_r. split; [done|]. by apply sublist_inserts_r.
  - assert (no_nil l ∧ no_nil r) as [Nl Nr] by (destruct Hl, Hr; naive_solver congruence). destruct n as [n|]; unfold telems, tnames; simpl.
    + split; [by right|]. rewrite elems_of_app, names_of_app. done.
    + split; [by right|]. rewrite elems_of_app, names_of_app. done.
Qed.
(** [prune_tree_of_tree]: the same elements in the same order, no empty subtree left, no name added; (names of nodes
    with an empty side disappear). *)
Theorem C38_prune (t : tree X) : pruned (prune_tree_of_tree t) ∧ telems (prune_tree_of_tree t) = telems t ∧
  sublist (tnames (prune_tree_of_tree t)) (tnames t).
Proof.
  unfold prune_tree_of_tree. induction t as [|x|lev l IHl r IHr|n lev l IHl r IHr|t IHt]; simpl; [split; [by left|done]|split; [by right|done]| | |done].
  - destruct IHl as (Pl & El & Sl), IHr as (Pr & Er & Sr). destruct (niltest_spec None lev _ _ Pl Pr) as (P & E & S). split; [done|].
    rewrite E, El, Er. unfold telems, tnames in *. simpl. rewrite elems_of_app, names_of_app. split; [done|]. etrans; [exact S|]. simpl. by apply sublist_app.
  - destruct IHl as (Pl & El & Sl), IHr as (Pr & Er & Sr). destruct (niltest_spec (Some n) lev _ _ Pl Pr) as (P & E & S). split; [done|].
    rewrite E, El, Er. unfold telems, tnames in *. simpl. rewrite elems_of_app, names_of_app. split; [done|]. etrans; [exact S|]. simpl. apply sublist_app; [done|]. by constructor.
Qed.
(** [filter_tree_of_tree]: exactly the elements satisfying the predicate, in order. *)
Theorem C38_filter_tree (t : tree X) p : pruned (filter_tree_of_tree t p) ∧
  telems (filter_tree_of_tree t p) = filter (λ x, p x = true) (telems t) ∧ sublist (tnames (filter_tree_of_tree t p)) (tnames t).
Proof.
  unfold filter_tree_of_tree. induction t as [|x|lev l IHl r IHr|n lev l IHl r IHr|t IHt]; simpl; [split; [by left|done]| | | |done].
  - unfold telems. simpl. destruct (p x) eqn:E; rewrite filter_cons, filter_nil; [rewrite decide_True by done; split; [by right|done]|rewrite decide_False by congruence; split; [by left|done]].
  - destruct IHl as (Pl & El & Sl), IHr as (Pr & Er & Sr). destruct (niltest_spec None lev _ _ Pl Pr) as (P & E & S). split; [done|].
    rewrite E, El, Er. unfold telems, tnames in *. simpl. rewrite elems_of_app, names_of_app, filter_app. split; [done|]. etrans; [exact S|]. simpl. by apply sublist_app.
  - destruct IHl as (Pl & El & Sl), IHr as (Pr & Er & Sr). destruct (niltest_spec (Some n) lev _ _ Pl Pr) as (P & E & S). split; [done|].
    rewrite E, El, Er. unfold telems, tnames in *. simpl. rewrite elems_of_app, names_of_app, filter_app. split; [done|]. etrans; [exact S|]. simpl. apply sublist_app; [done|]. by constructor.
Qed.
(** The documentation says that it retains all names, "even if they merely name empty sub-trees": it does not. *)
Theorem C38_filter_tree_names_refuted n lev (x y : X) : 
  let t := TName n lev (TLeaf x) (TLeaf y) in
  ∃ p, telems (filter_tree_of_tree t p) = [] ∧ tnames t = [n] ∧ tnames (filter_tree_of_tree t p) = [].
Proof. exists (λ _, false). done. Qed.

Lemma telems_bin lev (l r : tree X) : telems (TBin lev l r) = telems l ++ telems r.
Proof. apply elems_of_app. Qed.
Lemma telems_name n lev (l r : tree X) : telems (TName n lev l r) = telems l ++ telems r.
Proof. unfold telems. simpl. by rewrite elems_of_app. Qed.
(** [is_empty] and [is_nil]: a tree is empty if it has no elements, and nil if it has neither elements nor inner nodes. *)
Theorem C38_is_empty (t : tree X) : (tree_is_empty t = true ↔ telems t = []) ∧
  (is_nil t = true ↔ tseq t = [] ∧ root_lev t = None).
Proof.
  split.
  - induction t as [|x|lev l IHl r IHr|n lev l IHl r IHr|t IHt]; [done|done| | |done]; rewrite ?telems_bin, ?telems_name; cbn [tree_is_empty]; rewrite andb_true_iff, IHl, IHr, app_nil; done.
  - induction t as [|x|lev l IHl r IHr|n lev l IHl r IHr|t IHt]; simpl; naive_solver.
Qed.
(** [lev_of_tree]: the level of the root; the level of a leaf is that of its element.  It bounds all levels of a tree
    built by [tree_of_list] (which are [level_order]ed). *)
Theorem C38_lev_of_tree (t : tree X) : (∀ k, root_lev t = Some k → lev_of_tree t = k ∧ ∀ b, level_order b t → (k ≤ b)%N ∧ level_order k t) ∧
  (∀ x, tseq t = [NElse x] → root_lev t = None → ends_in_zeros (hash_elt x) (lev_of_tree t)).
Proof.
  split.
  - induction t as [|x|lev l IHl r IHr|n lev l IHl r IHr|t IHt]; simpl; [done|done| | |done]; intros k [= ->]; (split; [done|]); intros b (? & ? & ?); split_and!; done.
  - induction t as [|y|lev l IHl r IHr|n lev l IHl r IHr|t IHt]; simpl; intros x Hx Hr; [done| |done|done|by apply IHt]. injection Hx as ->. apply lev_new_zeros.
Qed.

(** [filter_list_of_tree]: the right elements in the right order; but since [is_name] is inverted (C40) every name that
    precedes a kept element is dropped: names only survive behind the last element. *)
Theorem C38_filter_list (t : tree X) p :
  ∃ ns, toks (filter_list_of_tree t p) = (NElse <$> filter (λ x, p x = true) (telems t)) ++ (NName <$> ns) ∧ sublist ns (tnames t).
Proof.
  unfold filter_list_of_tree. set (g := tree_fold_seq _ _ _).
  assert (∀ t xs, ∀ es0 ns0, toks xs = (NElse <$> es0) ++ (NName <$> ns0) →
    ∃ ns, toks (g t DRight xs) = (NElse <$> (filter (λ x, p x = true) (telems t) ++ es0)) ++ (NName <$> ns ++ ns0) ∧ sublist ns (tnames t)) as Hg.
  { clear t. intros t. unfold telems, tnames. induction t as [|x|lev l IHl r IHr|n lev l IHl r IHr|t IHt]; intros xs es0 ns0 Hx; simpl.
    - exists []. by rewrite Hx.
    - exists []. split; [|done]. rewrite filter_cons, filter_nil. change (g (TLeaf x) DRight xs) with (if p x then LCons x xs else xs).
      destruct (p x) eqn:E; [rewrite decide_True by done; simpl; by rewrite Hx|by rewrite decide_False by congruence].
    - destruct (IHr _ _ _ Hx) as (n1 & E1 & S1). destruct (IHl _ _ _ E1) as (n2 & E2 & S2). exists (n2 ++ n1).
      change (g (TBin lev l r) DRight xs) with (g l DRight (g r DRight xs)). rewrite E2, elems_of_app, names_of_app, filter_app, <- !(assoc_L (++)). split; [done|]. by apply sublist_app.
    - destruct (IHr _ _ _ Hx) as (n1 & E1 & S1).
      change (g (TName n lev l r) DRight xs) with (g l DRight (if is_name (g r DRight xs) then g r DRight xs else LName n (LArt (g r DRight xs)))).
      rewrite elems_of_app, names_of_app, filter_app. simpl. rewrite C40_is_name_inverted, E1.
      destruct (filter (λ x, p x = true) (elems_of (tseq r)) ++ es0) as [|y ys] eqn:Ey.
      + simpl in E1. destruct (IHl (LName n (LArt (g r DRight xs))) [] (n :: n1 ++ ns0)) as (n2 & E2 & S2). { simpl. by rewrite E1. }
        assert (match (NElse <$> ([] : list X)) ++ (NName <$> n1 ++ ns0) with NElse _ :: _ => true | _ => false end = false) as -> by (simpl; by destruct (n1 ++ ns0)).
        exists (n2 ++ n :: n1). rewrite E2, <- !(assoc_L (++)). rewrite Ey. simpl. split; [done|]. apply sublist_app; [done|]. by constructor.
      + simpl. destruct (IHl _ (y :: ys) _ E1) as (n2 & E2 & S2). exists (n2 ++ n1). rewrite E2, <- !(assoc_L (++)), Ey. split; [done|].
        apply sublist_app; [done|]. by constructor.
    - by apply IHt. }
  destruct (Hg t LNil [] []) as (ns & E & S); [done|]. exists ns. rewrite !app_nil_r in E. done.
Qed.
End Trees.

(** ** Sorting *)
Section Sort.
Context `{Hashes} {X : Type} (le : X → X → bool).
(** All three: a sorted (if the order is total), stable (if it is also transitive) permutation of the leaves. *)
Definition sorts (out : lst X) (t : tree X) : Prop :=
  elems out ≡ₚ telems t ∧
  ((∀ x y, x ∈ telems t → y ∈ telems t → le x y = true ∨ le y x = true) → Sorted (leR le) (elems out) ∧
   ((∀ x y z, x ∈ telems t → y ∈ telems t → z ∈ telems t → le x y = true → le y z = true → le x z = true) →
     ∀ x, x ∈ telems t → filter (equiv_to le x) (elems out) = filter (equiv_to le x) (telems t))).
Lemma sorts_merge n1 n2 a b ta tb t : sorts a ta → sorts b tb → telems t = telems ta ++ telems tb → sorts (list_merge le n1 a n2 b) t.
Proof.
  intros [Pa Sa] [Pb Sb] E. split; [rewrite C37_merge_permutation, E; by apply Permutation_app|].
  assert (∀ x, x ∈ telems ta → x ∈ telems t) as Ia by (intros; rewrite E; apply elem_of_app; by left).
  assert (∀ x, x ∈ telems tb → x ∈ telems t) as Ib by (intros; rewrite E; apply elem_of_app; by right).
  assert (Forall (.∈ telems t) (elems a)) as Fa' by (rewrite Pa; by apply Forall_forall).
  assert (Forall (.∈ telems t) (elems b)) as Fb' by (rewrite Pb; by apply Forall_forall).
  intros Ht. destruct Sa as [Sa' Fa]; [by auto|]. destruct Sb as [Sb' Fb]; [by auto|].
  split; [by apply (C37_merge_sorted le n1 a n2 b (.∈ telems t))|]. intros Htr x Hx. rewrite (C37_merge_stable le n1 a n2 b x (.∈ telems t)) by done. rewrite E, filter_app.
  assert (∀ c tc, elems c ≡ₚ telems tc → (∀ x, x ∈ telems tc → x ∈ telems t) →
    (∀ x, x ∈ telems tc → filter (equiv_to le x) (elems c) = filter (equiv_to le x) (telems tc)) →
    Sorted (leR le) (elems c) → filter (equiv_to le x) (elems c) = filter (equiv_to le x) (telems tc)) as Hc.
  { intros c tc Pc Ic Fc _. destruct (filter (equiv_to le x) (telems tc)) as [|y ys] eqn:Ey.
    - assert (filter (equiv_to le x) (elems c) ≡ₚ []) as Hp by (rewrite Pc, Ey; done). symmetry in Hp. by apply Permutation_nil in Hp.
    - assert (y ∈ filter (equiv_to le x) (telems tc)) as Hy by (rewrite Ey; by left). apply elem_of_list_filter in Hy as [[Hxy Hyx] Hy].
      rewrite <- Ey. assert (∀ zs : list X, (∀ z, z ∈ zs → z ∈ telems t) → filter (equiv_to le x) zs = filter (equiv_to le y) zs) as Hz.
      { intros zs Hzs. induction zs as [|z zs IHz]; [done|]. rewrite !filter_cons, IHz by (intros; apply Hzs; by right). assert (z ∈ telems t) by (apply Hzs; by left).
        destruct (decide (equiv_to le x z)) as [[Z1 Z2]|Z], (decide (equiv_to le y z)) as [[Z3 Z4]|Z']; [done| | |done]; exfalso.
        - apply Z'. split; [apply (Htr y x z)|apply (Htr z x y)]; auto.
        - apply Z. split; [apply (Htr x y z)|apply (Htr z y x)]; auto. }
      rewrite !Hz; [by apply Fc|by auto|]. intros z. rewrite Pc. apply Ic. }
  assert (∀ x y z, x ∈ telems ta → y ∈ telems ta → z ∈ telems ta → le x y = true → le y z = true → le x z = true) as Tra by (intros x' y' z' ???; apply Htr; auto).
  assert (∀ x y z, x ∈ telems tb → y ∈ telems tb → z ∈ telems tb → le x y = true → le y z = true → le x z = true) as Trb by (intros x' y' z' ???; apply Htr; auto).
  by rewrite (Hc a ta Pa Ia (Fa Tra) Sa'), (Hc b tb Pb Ib (Fb Trb) Sb').
Qed.
Lemma sorts_nil (t : tree X) : telems t = [] → sorts LNil t.
Proof. intros E. unfold sorts. rewrite E. split; [done|]. intros _. split; [constructor|done]. Qed.
Lemma sorts_leaf nm x t : telems t = [x] → sorts (list_name_op nm (LCons x LNil)) t.
Proof.
  intros E. assert (elems (list_name_op nm (LCons x LNil)) = [x]) as E' by (by destruct nm). unfold sorts. rewrite E, E'.
  split; [done|]. intros _. split; [by repeat constructor|done].
Qed.
Theorem C37_mergesort (t : tree X) : sorts (mergesort_list_of_tree le t) t.
Proof.
  unfold mergesort_list_of_tree. induction t as [|x|lev l IHl r IHr|n lev l IHl r IHr|t IHt]; simpl; [by apply sorts_nil|by apply (sorts_leaf None)| | |exact IHt].
  - eapply sorts_merge; [exact IHl|exact IHr|apply telems_bin].
  - eapply sorts_merge; [exact IHl|exact IHr|apply telems_name].
Qed.
Theorem C37_mergesort2 (t : tree X) nm : sorts (mergesort_list_of_tree2 le t nm) t.
Proof.
  unfold mergesort_list_of_tree2. revert nm. induction t as [|x|lev l IHl r IHr|n lev l IHl r IHr|t IHt]; intros nm; simpl; [by apply sorts_nil|by apply sorts_leaf| | |apply IHt].
  - eapply sorts_merge; [apply IHl|apply IHr|apply telems_bin].
  - eapply sorts_merge; [apply IHl|apply IHr|apply telems_name].
Qed.
Theorem C37_mergesort3 (t : tree X) nm : sorts (mergesort_list_of_tree3 le t nm) t.
Proof.
  unfold mergesort_list_of_tree3. revert nm. induction t as [|x|lev l IHl r IHr|n lev l IHl r IHr|t IHt]; intros nm; simpl; [by apply sorts_nil|by apply sorts_leaf| | |apply IHt].
  - eapply sorts_merge; [apply IHl|apply IHr|apply telems_bin].
  - eapply sorts_merge; [apply IHl|apply IHr|apply telems_name].
Qed.
End Sort.

(** ** Concrete cases *)
Local Instance ex_hash64 : Hash64 N := {| hash_elt x := x; hash_name n := 3%N |}.
Section Ex.
Context `{Hashes}.
Definition ex_list : lst N := LCons 4%N (LCons 2%N (LName (name_of_usize 7) (LArt (LCons 8%N (LCons 1%N LNil))))).
Lemma ex_tree_of_list : tree_of_list 20 DRight ex_list = tree_of_list 7 DRight ex_list ∧
  (lsize ex_list < 7)%nat ∧ ∃ t, tree_of_list 7 DRight ex_list = Built t ∧ toks (list_of_tree t DRight) = toks ex_list ∧
    telems t = [1; 8; 2; 4]%N ∧ elems (mergesort_list_of_tree N.leb t) = [1; 2; 4; 8]%N ∧ monoid_of_tree t 0%N N.add = 15%N ∧
    telems (filter_tree_of_tree t (N.leb 3)) = [8; 4]%N.
Proof. split_and!; [reflexivity|vm_compute; repeat constructor|]. eexists. split_and!; reflexivity. Qed.
End Ex.
