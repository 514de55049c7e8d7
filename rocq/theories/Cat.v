(** * The catalog's list and tree functions as client programs of the engine
    (src/catalog/collections.rs 34-310, 507-1036, 1108-1170, 1366-1465; macros.rs 348-426, 699-800).

    [Lists.v] and [Trees.v] model these functions at the value level.  Here they are modelled with all their engine
    calls: an articulation is a location, eliminating it is a [force], [cell], [thunk!], [memo!], [eager!] and [ns] are
    the API calls they expand to.  [CatSpec.v] connects the two levels.

    - [List] and [Tree] values are encoded in [val]; [X], the element type, is [val] itself.
    - Rust functions recur on lists of unknown length; a [comp] is a well-founded tree.  So every function takes a
      recursion bound (the depth of the Rust stack inside one thunk body) and fails when it is exceeded.
    - Closures passed as spurious arguments are represented by an identifier [VStr id]; the functions behind it are
      the parameters [body], [pred], [id_elm], [bin_op], [le] of the section.
    - The program points are shortened: [stringify!(list_map_lazy::<X, Le, Y, Li, F>)] is "list_map_lazy". *)
From Verif Require Export Trees Engine.
Local Open Scope string_scope.

(** [TypeId]s of the types that occur. *)
Definition TyList : ty := 10%N.        (* List<X> *)
Definition TyTree : ty := 11%N.        (* Tree<X> *)
Definition TyElt : ty := 12%N.         (* X *)
Definition TyTL : ty := 13%N.          (* (Tree<X>, List<X>) *)

(** ** Encodings *)
(** collections.rs:1083-1090, [enum List]. *)
Definition v_nil : val := VInl VUnit.
Definition v_cons (x tl : val) : val := VInr (VInl (VPair x tl)).
Definition v_lname (n : name) (tl : val) : val := VInr (VInr (VInl (VPair (VName n) tl))).
Definition v_lart (l : loc) : val := VInr (VInr (VInr (VLoc l))).
(** collections.rs:1091-1098, [enum Tree]. *)
Definition v_tnil : val := VInl VUnit.
Definition v_leaf (x : val) : val := VInr (VInl x).
Definition v_bin (lev : N) (l r : val) : val := VInr (VInr (VInl (VPair (VInt (Z.of_N lev)) (VPair l r)))).
Definition v_tname (n : name) (lev : N) (l r : val) : val :=
  VInr (VInr (VInr (VInl (VPair (VName n) (VPair (VInt (Z.of_N lev)) (VPair l r)))))).
Definition v_tart (l : loc) : val := VInr (VInr (VInr (VInr (VLoc l)))).
Definition v_dir (d : dir2) : val := VBool (match d with DLeft => true | DRight => false end).
Definition v_opt (n : option name) : val := match n with None => VInl VUnit | Some n => VInr (VName n) end.
Definition dir_of (v : val) : dir2 := match v with VBool true => DLeft | _ => DRight end.
Definition opt_of (v : val) : option name := match v with VInr (VName n) => Some n | _ => None end.
Definition int_of (v : val) : N := match v with VInt z => Z.to_N z | _ => 0%N end.

(** ** Macros *)
(** macros.rs:348-426 [thunk!( nm =>> f, args ;; spurious )] *)
Definition thunk_m (t : ty) (n : name) (pp : progpt) (arg spur : val) (k : loc → comp) : comp :=
  Thunk t (NCNominal n) pp arg spur k.
(** macros.rs:709-716 [memo!( nm =>> f, args ;; spurious )] *)
Definition memo_m (t : ty) (n : name) (pp : progpt) (arg spur : val) (k : val → comp) : comp :=
  Thunk t (NCNominal n) pp arg spur (λ l, Force t (ALoc l) None k).
(** macros.rs:721-800 [eager!( nm =>> f, args ;; spurious )]: the thunk and its value *)
Definition eager_m (t : ty) (n : name) (pp : progpt) (arg spur : val) (k : loc → val → comp) : comp :=
  Thunk t (NCNominal n) pp arg spur (λ l, Force t (ALoc l) None (λ v, k l v)).

Section Catalog.
Context `{Hashes} `{Hash64 val}.
Context (body : val → val) (pred : val → bool) (id_elm : val) (bin_op : val → val → val) (le : val → val → bool).

(** ** Eliminators *)
(** collections.rs:1140-1164, [List::elim_arg] (and 1116-1138 [elim]). *)
Fixpoint l_elim (F : nat) (v : val) (nilc : comp) (consc : val → val → comp) (namec : name → val → comp) : comp :=
  match v with
  | VInl VUnit => nilc
  | VInr (VInl (VPair x tl)) => consc x tl
  | VInr (VInr (VInl (VPair (VName n) tl))) => namec n tl
  | VInr (VInr (VInr (VLoc l))) =>
      match F with O => Fail | S F => Force TyList (ALoc l) None (λ v, l_elim F v nilc consc namec) end
  | _ => Fail
  end.
(** collections.rs:1383-1400, [Tree::elim_arg] (and 1419-1455 [elim], [elim_ref]). *)
Fixpoint t_elim (F : nat) (v : val) (nilc : comp) (leafc : val → comp) (binc : N → val → val → comp)
    (namec : name → N → val → val → comp) : comp :=
  match v with
  | VInl VUnit => nilc
  | VInr (VInl x) => leafc x
  | VInr (VInr (VInl (VPair (VInt lev) (VPair l r)))) => binc (Z.to_N lev) l r
  | VInr (VInr (VInr (VInl (VPair (VName n) (VPair (VInt lev) (VPair l r)))))) => namec n (Z.to_N lev) l r
  | VInr (VInr (VInr (VInr (VLoc l)))) =>
      match F with O => Fail | S F => Force TyTree (ALoc l) None (λ v, t_elim F v nilc leafc binc namec) end
  | _ => Fail
  end.

(** ** Lists *)
(** collections.rs:142-163, [list_map_lazy]. *)
Fixpoint c_map_lazy (F : nat) (l : val) : comp :=
  match F with
  | O => Fail
  | S F => l_elim F l (Ret v_nil)
      (λ x tl, cbind (c_map_lazy F tl) (λ tl, Ret (v_cons (body x) tl)))
      (λ n tl, thunk_m TyList n "list_map_lazy" tl (VStr "body") (λ t, Ret (v_lart t)))
  end.
(** collections.rs:166-184, [list_filter_lazy]. *)
Fixpoint c_filter_lazy (F : nat) (l : val) : comp :=
  match F with
  | O => Fail
  | S F => l_elim F l (Ret v_nil)
      (λ x tl, if pred x then cbind (c_filter_lazy F tl) (λ tl, Ret (v_cons x tl)) else c_filter_lazy F tl)
      (λ n tl, thunk_m TyList n "list_filter_lazy" tl (VStr "pred") (λ t, Ret (v_lart t)))
  end.
(** collections.rs:187-209, [list_filter_eager]. *)
Fixpoint c_filter_eager (F : nat) (l : val) : comp :=
  match F with
  | O => Fail
  | S F => l_elim F l (Ret v_nil)
      (λ x tl, if pred x then cbind (c_filter_eager F tl) (λ tl, Ret (v_cons x tl)) else c_filter_eager F tl)
      (λ n tl, eager_m TyList n "list_filter_eager" tl (VStr "pred") (λ t _, Ret (v_lname n (v_lart t))))
  end.
(** collections.rs:212-233, [list_map_eager]. *)
Fixpoint c_map_eager (F : nat) (l : val) : comp :=
  match F with
  | O => Fail
  | S F => l_elim F l (Ret v_nil)
      (λ x tl, cbind (c_map_eager F tl) (λ tl, Ret (v_cons (body x) tl)))
      (λ n tl, eager_m TyList n "list_map_eager" tl (VStr "body") (λ t _, Ret (v_lname n (v_lart t))))
  end.
(** collections.rs:236-257, [list_map_eager2]. *)
Fixpoint c_map_eager2 (F : nat) (l : val) : comp :=
  match F with
  | O => Fail
  | S F => l_elim F l (Ret v_nil)
      (λ x tl, cbind (c_map_eager2 F tl) (λ tl, Ret (v_cons (body x) tl)))
      (λ n tl, let '(nm1, nm2, nm3) := name_fork3 n in
               memo_m TyList nm2 "list_map_eager2" tl (VStr "body") (λ t,
               Cell TyList nm3 t (λ c, Ret (v_lname nm1 (v_lart c)))))
  end.
(** collections.rs:260-274, [list_reverse]. *)
Fixpoint c_reverse (F : nat) (l rev : val) : comp :=
  match F with
  | O => Fail
  | S F => l_elim F l (Ret rev)
      (λ x tl, c_reverse F tl (v_cons x rev))
      (λ n tl, Cell TyList (name_pair (name_of_string "rev") n) rev (λ c,
               eager_m TyList n "list_reverse" (VPair tl (v_lart c)) VUnit (λ t _, Ret (v_lname n (v_lart t)))))
  end.
(** collections.rs:276-288, [list_fold], with [body] = [cons] onto [res] (that is [list_append], 305-310) or [bin_op]. *)
Fixpoint c_fold (F : nat) (l res : val) (f : val → val → val) : comp :=
  match F with
  | O => Fail
  | S F => l_elim F l (Ret res)
      (λ x tl, cbind (c_fold F tl res f) (λ res, Ret (f x res)))
      (λ _ tl, c_fold F tl res f)
  end.
Definition c_append (F : nat) (l1 l2 : val) : comp := c_fold F l1 l2 v_cons.
(** collections.rs:102-107 [is_empty]; 110-115 [is_name]; 417-425 [is_nil]. *)
Fixpoint c_is_empty (F : nat) (l : val) : comp :=
  match F with
  | O => Fail
  | S F => l_elim F l (Ret (VBool true)) (λ _ _, Ret (VBool false)) (λ _ tl, c_is_empty F tl)
  end.
Definition c_is_name (F : nat) (l : val) : comp :=
  l_elim F l (Ret (VBool false)) (λ _ _, Ret (VBool true)) (λ _ _, Ret (VBool false)).
Definition c_is_nil (F : nat) (t : val) : comp :=
  t_elim F t (Ret (VBool true)) (λ _, Ret (VBool false)) (λ _ _ _, Ret (VBool false)) (λ _ _ _ _, Ret (VBool false)).
(** collections.rs:860-880, [vec_of_list] without limit: the tokens, as an encoded list without arts. *)
Fixpoint c_vec (F : nat) (l : val) : comp :=
  match F with
  | O => Fail
  | S F => l_elim F l (Ret v_nil)
      (λ x tl, cbind (c_vec F tl) (λ tl, Ret (v_cons x tl)))
      (λ n tl, cbind (c_vec F tl) (λ tl, Ret (v_lname n tl)))
  end.
(** collections.rs:882-894, [list_of_vec] and 53-58 [name_art]. *)
Fixpoint c_of_vec (v : list (name_else val)) (k : val → comp) : comp :=
  match v with
  | [] => k v_nil
  | NElse x :: v => c_of_vec v (λ l, k (v_cons x l))
  | NName n :: v => c_of_vec v (λ l, Cell TyList n l (λ c, k (v_lname n (v_lart c))))
  end.

(** ** Trees *)
(** The closures given to [tree_fold_up] (569-614). *)
Record fold_ops := FoldOps {
  o_ty : ty;
  o_nil : comp;
  o_leaf : val → comp;
  o_bin : N → val → val → comp;
  o_name : name → N → val → val → comp;
}.
(** collections.rs:569-614, [tree_fold_up]. *)
Fixpoint c_fold_up (F : nat) (id : string) (o : fold_ops) (t : val) : comp :=
  match F with
  | O => Fail
  | S F => t_elim F t (o_nil o) (o_leaf o)
      (λ x l r, cbind (c_fold_up F id o l) (λ resl, cbind (c_fold_up F id o r) (λ resr, o_bin o x resl resr)))
      (λ n x l r, let '(n1, n2) := name_fork n in
         memo_m (o_ty o) n1 "tree_fold_up" l (VStr id) (λ resl,
         memo_m (o_ty o) n2 "tree_fold_up" r (VStr id) (λ resr, o_name o n x resl resr)))
  end.
(** collections.rs:617-655, [tree_fold_up_nm_dn]. *)
Record fold_nm_ops := FoldNmOps {
  on_ty : ty;
  on_nil : option name → comp;
  on_leaf : option name → val → comp;
  on_bin : option name → N → val → val → comp;
  on_name : option name → name → N → val → val → comp;
}.
Fixpoint c_fold_nm (F : nat) (id : string) (o : fold_nm_ops) (t : val) (nm : option name) : comp :=
  match F with
  | O => Fail
  | S F => t_elim F t (on_nil o nm) (on_leaf o nm)
      (λ x l r, cbind (c_fold_nm F id o l nm) (λ resl, cbind (c_fold_nm F id o r None) (λ resr, on_bin o nm x resl resr)))
      (λ n x l r, let '(n1, n2) := name_fork n in
         memo_m (on_ty o) n1 "tree_fold_up_nm_dn" (VPair l (v_opt nm)) (VStr id) (λ resl,
         memo_m (on_ty o) n2 "tree_fold_up_nm_dn" (VPair r (v_opt (Some n))) (VStr id) (λ resr, on_name o nm n x resl resr)))
  end.
(** collections.rs:526-566, [tree_fold_seq]. *)
Record seq_ops := SeqOps {
  os_ty : ty;
  os_leaf : val → val → comp;
  os_bin : N → val → comp;
  os_name : name → N → val → comp;
}.
Fixpoint c_fold_seq (F : nat) (id : string) (o : seq_ops) (t : val) (dir : dir2) (res : val) : comp :=
  match F with
  | O => Fail
  | S F => t_elim F t (Ret res) (λ x, os_leaf o x res)
      (λ x l r, let '(l, r) := match dir with DLeft => (l, r) | DRight => (r, l) end in
         cbind (c_fold_seq F id o l dir res) (λ res, cbind (os_bin o x res) (λ res, c_fold_seq F id o r dir res)))
      (λ n x l r, let '(l, r) := match dir with DLeft => (l, r) | DRight => (r, l) end in
         let '(n1, n2) := name_fork n in
         memo_m (os_ty o) n1 "tree_fold_seq" (VPair l (VPair (v_dir dir) res)) (VStr id) (λ res,
         cbind (os_name o n x res) (λ res,
         memo_m (os_ty o) n2 "tree_fold_seq" (VPair r (VPair (v_dir dir) res)) (VStr id) (λ res, Ret res))))
  end.

(** collections.rs:669-729, [tree_of_list_rec]; 657-667 [tree_of_list]. *)
Definition tol_arg (dir : dir2) (list tree : val) (tree_lev parent_lev : N) : val :=
  VPair (v_dir dir) (VPair list (VPair tree (VPair (VInt (Z.of_N tree_lev)) (VInt (Z.of_N parent_lev))))).
Definition p_fst (v : val) : val := match v with VPair a _ => a | _ => VUnit end.
Definition p_snd (v : val) : val := match v with VPair _ b => b | _ => VUnit end.
(** [Option<Cod>] as a value *)
Definition v_option (o : option val) : val := match o with Some v => VPair (VBool true) v | None => VBool false end.
(** collections.rs:1183-1194, [MapElim::find] of a list of pairs *)
Fixpoint c_find (F : nat) (l d : val) : comp :=
  match F with
  | O => Fail
  | S F => l_elim F l (Ret (v_option None))
      (λ x tl, if decide (d = p_fst x) then Ret (v_option (Some (p_snd x))) else c_find F tl d)
      (λ _ tl, c_find F tl d)
  end.
Fixpoint c_tol (F : nat) (dir : dir2) (list tree : val) (tree_lev parent_lev : N) : comp :=
  match F with
  | O => Fail
  | S F => l_elim F list (Ret (VPair tree v_nil))
      (λ hd rest,
         let lev_hd := lev_of_elt hd in
         if (tree_lev <=? lev_hd)%N && (lev_hd <=? parent_lev)%N then
           cbind (c_tol F dir rest (v_leaf hd) lev_zero lev_hd) (λ tr,
           let tree3 := match dir with DLeft => v_bin lev_hd tree (p_fst tr) | DRight => v_bin lev_hd (p_fst tr) tree end in
           c_tol F dir (p_snd tr) tree3 lev_hd parent_lev)
         else Ret (VPair tree (v_cons hd rest)))
      (λ nm rest,
         let lev_nm := lev_of_name nm in
         if (tree_lev <=? lev_nm)%N && (lev_nm <=? parent_lev)%N then
           let '(nm1, nm2) := name_fork nm in
           eager_m TyTL nm1 "tree_of_list_rec" (tol_arg dir rest v_tnil lev_zero lev_nm) VUnit (λ _ tr,
           let tree3 := match dir with DLeft => v_tname nm lev_nm tree (p_fst tr) | DRight => v_tname nm lev_nm (p_fst tr) tree end in
           Cell TyTree nm tree3 (λ art,
           eager_m TyTL nm2 "tree_of_list_rec" (tol_arg dir (p_snd tr) (v_tart art) lev_nm parent_lev) VUnit (λ _ tr, Ret tr)))
         else Ret (VPair tree (v_lname nm rest)))
  end.
Definition c_tree_of_list (F : nat) (dir : dir2) (list : val) : comp :=
  cbind (c_tol F dir list v_tnil lev_zero lev_max_val) (λ tr,
  cbind (c_is_empty F (p_snd tr)) (λ e, if decide (e = VBool true) then Ret (p_fst tr) else Fail)).

(** collections.rs:507-524, [bin_arts_niltest]. *)
Definition c_niltest (F : nat) (n : option name) (lev : N) (l r : val) : comp :=
  cbind (c_is_nil F l) (λ b, if decide (b = VBool true) then Ret r else
  cbind (c_is_nil F r) (λ b, if decide (b = VBool true) then Ret l else
  match n with
  | None => Ret (v_bin lev l r)
  | Some n => let '(nl, nr) := name_fork n in
      Cell TyTree nl l (λ cl, Cell TyTree nr r (λ cr, Ret (v_tname n lev (v_tart cl) (v_tart cr))))
  end)).

(** collections.rs:898-963, [list_merge]. *)
Definition merge_arg (n1 : option name) (l1 : val) (n2 : option name) (l2 : val) : val :=
  VPair (v_opt n1) (VPair l1 (VPair (v_opt n2) l2)).
Definition v_name_op (n : option name) (l : val) : val := match n with None => l | Some n => v_lname n l end.
Fixpoint c_merge (F : nat) (n1 : option name) (l1 : val) (n2 : option name) (l2 : val) : comp :=
  match F with
  | O => Fail
  | S F => l_elim F l1 (Ret (v_name_op n2 l2))
      (λ h1 t1, l_elim F l2 (Ret (v_name_op n1 (v_cons h1 t1)))
         (λ h2 t2,
            if le h1 h2 then
              let l2 := v_cons h2 t2 in
              match n1 with
              | None => cbind (c_merge F None t1 n2 l2) (λ rest, Ret (v_cons h1 rest))
              | Some n1 => let '(n1a, n1b) := name_fork n1 in
                  thunk_m TyList n1a "list_merge" (merge_arg None t1 n2 l2) VUnit (λ t,
                  Ret (v_lname n1b (v_cons h1 (v_lart t))))
              end
            else
              let l1 := v_cons h1 t1 in
              match n2 with
              | None => cbind (c_merge F n1 l1 None t2) (λ rest, Ret (v_cons h2 rest))
              | Some n2 => let '(n2a, n2b) := name_fork n2 in
                  thunk_m TyList n2a "list_merge" (merge_arg n1 l1 None t2) VUnit (λ t,
                  Ret (v_lname n2b (v_cons h2 (v_lart t))))
              end)
         (λ m2 t2, c_merge F n1 (v_cons h1 t1) (Some m2) t2))
      (λ m1 t1, c_merge F (Some m1) t1 n2 l2)
  end.
(** collections.rs:1030-1036, [list_merge_wrapper]. *)
Definition c_merge_wrapper (F : nat) (n1 : option name) (l1 : val) (n2 : option name) (l2 : val) : comp :=
  Ns (name_of_string "merge") (c_merge F n1 l1 n2 l2) Ret.

(** The closures of 732-850 and 966-1028. *)
Definition ops_monoid : fold_ops :=                                  (* 796-813 [monoid_of_tree] *)
  FoldOps TyElt (Ret id_elm) Ret (λ _ l r, Ret (bin_op l r)) (λ _ _ l r, Ret (bin_op l r)).
Definition ops_eager : fold_ops :=                                   (* 816-832 [eager_tree_of_tree] *)
  FoldOps TyTree (Ret v_tnil) (λ x, Ret (v_leaf x)) (λ lev l r, Ret (v_bin lev l r)) (λ n lev l r, Ret (v_tname n lev l r)).
Definition ops_prune (F : nat) : fold_ops :=                         (* 835-850 [prune_tree_of_tree] *)
  FoldOps TyTree (Ret v_tnil) (λ x, Ret (v_leaf x)) (λ lev l r, c_niltest F None lev l r) (λ n lev l r, c_niltest F (Some n) lev l r).
Definition ops_filter (F : nat) : fold_ops :=                        (* 773-793 [filter_tree_of_tree] *)
  FoldOps TyTree (Ret v_tnil) (λ x, Ret (if pred x then v_leaf x else v_tnil))
    (λ lev l r, Ns name_unit (c_niltest F None lev l r) Ret) (λ n lev l r, Ns name_unit (c_niltest F (Some n) lev l r) Ret).
Definition ops_mergesort (F : nat) : fold_ops :=                     (* 966-987 [mergesort_list_of_tree] *)
  FoldOps TyList (Ret v_nil) (λ x, Ret (v_cons x v_nil)) (λ _ l r, c_merge F None l None r)
    (λ n _ l r, let '(n1, n2) := name_fork n in c_merge F (Some n1) l (Some n2) r).
Definition ops_of (F : nat) (id : string) : fold_ops :=
  match id with
  | "monoid" => ops_monoid | "eager" => ops_eager | "prune" => ops_prune F | "filter" => ops_filter F
  | _ => ops_mergesort F
  end.
Definition ops_mergesort2 (F : nat) : fold_nm_ops :=                 (* 990-1010 [mergesort_list_of_tree2] *)
  FoldNmOps TyList (λ _, Ret v_nil) (λ m x, Ret (v_name_op m (v_cons x v_nil)))
    (λ _ _ l r, c_merge_wrapper F None l None r) (λ _ n _ l r, c_merge_wrapper F None l (Some n) r).
Definition ops_mergesort3 (F : nat) : fold_nm_ops :=                 (* 1013-1028 [mergesort_list_of_tree3] *)
  FoldNmOps TyList (λ _, Ret v_nil) (λ m x, Ret (v_name_op m (v_cons x v_nil)))
    (λ _ _ l r, c_merge_wrapper F None l None r) (λ _ _ _ l r, c_merge_wrapper F None l None r).
Definition nm_ops_of (F : nat) (id : string) : fold_nm_ops :=
  match id with "mergesort2" => ops_mergesort2 F | _ => ops_mergesort3 F end.
Definition ops_list_of_tree : seq_ops :=                             (* 732-749 [list_of_tree] *)
  SeqOps TyList (λ x xs, Ret (v_cons x xs)) (λ _ xs, Ret xs) (λ n _ xs, Cell TyList n xs (λ c, Ret (v_lname n (v_lart c)))).
Definition ops_filter_list (F : nat) : seq_ops :=                    (* 752-770 [filter_list_of_tree] *)
  SeqOps TyList (λ x xs, Ret (if pred x then v_cons x xs else xs)) (λ _ xs, Ret xs)
    (λ n _ xs, cbind (c_is_name F xs) (λ b, if decide (b = VBool true) then Ret xs else
       Cell TyList n xs (λ c, Ret (v_lname n (v_lart c))))).
Definition seq_ops_of (F : nat) (id : string) : seq_ops :=
  match id with "list_of_tree" => ops_list_of_tree | _ => ops_filter_list F end.

Definition c_monoid_of_tree (F : nat) (t : val) : comp := c_fold_up F "monoid" ops_monoid t.
Definition c_eager_tree (F : nat) (t : val) : comp := c_fold_up F "eager" ops_eager t.
Definition c_prune (F : nat) (t : val) : comp := c_fold_up F "prune" (ops_prune F) t.
Definition c_filter_tree (F : nat) (t : val) : comp := c_fold_up F "filter" (ops_filter F) t.
Definition c_mergesort (F : nat) (t : val) : comp := c_fold_up F "mergesort" (ops_mergesort F) t.
Definition c_mergesort2 (F : nat) (t : val) (nm : option name) : comp := c_fold_nm F "mergesort2" (ops_mergesort2 F) t nm.
Definition c_mergesort3 (F : nat) (t : val) (nm : option name) : comp := c_fold_nm F "mergesort3" (ops_mergesort3 F) t nm.
Definition c_list_of_tree (F : nat) (t : val) (dir : dir2) : comp :=
  c_fold_seq F "list_of_tree" ops_list_of_tree t (invert dir) v_nil.
Definition c_filter_list (F : nat) (t : val) : comp := c_fold_seq F "filter_list" (ops_filter_list F) t DRight v_nil.

(** ** The program: the code behind each program point. *)
Definition str_of (v : val) : string := match v with VStr s => s | _ => "" end.
Definition cat_code (F : nat) (pp : progpt) (arg spur : val) : comp :=
  match pp with
  | "list_map_lazy" => c_map_lazy F arg
  | "list_filter_lazy" => c_filter_lazy F arg
  | "list_filter_eager" => c_filter_eager F arg
  | "list_map_eager" => c_map_eager F arg
  | "list_map_eager2" => c_map_eager2 F arg
  | "list_reverse" => c_reverse F (p_fst arg) (p_snd arg)
  | "list_merge" => c_merge F (opt_of (p_fst arg)) (p_fst (p_snd arg)) (opt_of (p_fst (p_snd (p_snd arg)))) (p_snd (p_snd (p_snd arg)))
  | "tree_fold_up" => c_fold_up F (str_of spur) (ops_of F (str_of spur)) arg
  | "tree_fold_up_nm_dn" => c_fold_nm F (str_of spur) (nm_ops_of F (str_of spur)) (p_fst arg) (opt_of (p_snd arg))
  | "tree_fold_seq" => c_fold_seq F (str_of spur) (seq_ops_of F (str_of spur)) (p_fst arg) (dir_of (p_fst (p_snd arg))) (p_snd (p_snd arg))
  | "tree_of_list_rec" =>
      c_tol F (dir_of (p_fst arg)) (p_fst (p_snd arg)) (p_fst (p_snd (p_snd arg)))
        (int_of (p_fst (p_snd (p_snd (p_snd arg))))) (int_of (p_snd (p_snd (p_snd (p_snd arg)))))
  | _ => Fail
  end.
(** Nothing in the catalog is named structurally, so the hash functions do not matter; they are parameters. *)
Definition cat (F : nat) (hv : val → N) (ha : progpt → val → N) : Prog :=
  {| code := cat_code F; hash_val := hv; hash_app := ha |}.
End Catalog.
