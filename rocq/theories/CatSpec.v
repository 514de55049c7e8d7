(** * Specification: editing sessions over the catalog (C49, C50).

    The program: an editor that creates and overwrites list cells in the root namespace, in any order and with any
    contents, and between the edits runs queries.  A query takes the current list, pipes it through any number of the
    catalog's list-to-list functions, each called inside its own namespace ([ns]), and consumes the result.
    [c_session] is that program, calling the functions of [Cat.v].

    The specification: [valid_session] (which sessions are considered) and [answers] (what the queries must return) speak about
    lists of elements and names only; there is no store, engine, cache or namespace in them.  The lists are read off the
    cells as they are at the time of the query ([denotes]). *)
From Verif Require Export CatFilt.
Local Open Scope string_scope.
Local Open Scope list_scope.

(** The list-to-list stages: [list_map_eager], [list_map_lazy], [list_filter_eager], [list_filter_lazy], [list_reverse];
    [tree_of_list] followed by [list_of_tree]; [tree_of_list] followed by [filter_list_of_tree]; [tree_of_list], then
    [filter_tree_of_tree], then [list_of_tree]; [list_append] with another list of the editor behind, or in front. *)
Inductive lstage := StMap | StMapLazy | StFilter | StFilterLazy | StReverse | StTree (d d' : dir2) | StTreeFilter (d : dir2)
  | StFilterTree (d d' : dir2) | StAppend (w : val) | StPrepend (w : val).
(** The last stage: [vec_of_list], [list_fold], [is_empty], [map_find] (of a list of pairs); [list_map_eager2], and [tree_of_list] followed by
    [monoid_of_tree], by one of the three merge sorts or by [eager_tree_of_tree]; lists are read by [vec_of_list].
    ([mergesort_list_of_tree2] only after [tree_of_list] from left to right; for the other direction see C59.) *)
Inductive final := FinVec | FinFold | FinEmpty | FinMap2 | FinMonoid (d : dir2) | FinSort (d : dir2) | FinEager (d : dir2)
  | FinSort2 (nm : option name) | FinSort3 (d : dir2) (nm : option name) | FinFind (key : val).

(** Steps of the editor: [cell(name, list)], [set(cell, list)], and a query of a list. *)
Inductive sstep := SCell (n : name) (v : val) | SSet (n : name) (v : val) | SQuery (ss : list lstage) (f : final) (v : val).

Section Program.
Context `{Hashes} `{Hash64 val}.
Context (body : val → val) (pred : val → bool) (id_elm : val) (bin_op : val → val → val) (le : val → val → bool).

(** Stage number [k] calls its functions in the namespaces [pair(k, function)]. *)
Definition stage_ns (k : nat) (st : string) : name := name_pair (name_of_usize (N.of_nat k)) (name_of_string st).
Definition in_ns (k : nat) (st : string) (c : comp) : comp := Ns (stage_ns k st) c Ret.
Definition c_stage (F : nat) (k : nat) (s : lstage) (v : val) : comp :=
  match s with
  | StMap => in_ns k "map" (c_map_eager body F v)
  | StMapLazy => in_ns k "mapl" (c_map_lazy body F v)
  | StFilter => in_ns k "filter" (c_filter_eager pred F v)
  | StFilterLazy => in_ns k "filterl" (c_filter_lazy pred F v)
  | StReverse => in_ns k "rev" (c_reverse F v v_nil)
  | StTree d d' => cbind (in_ns k "tree" (c_tree_of_list F d v)) (λ t, in_ns k "list" (c_list_of_tree F t d'))
  | StTreeFilter d => cbind (in_ns k "tree" (c_tree_of_list F d v)) (λ t, in_ns k "flist" (c_filter_list pred F t))
  | StFilterTree d d' => cbind (in_ns k "tree" (c_tree_of_list F d v)) (λ t,
      cbind (in_ns k "ftree" (c_filter_tree pred F t)) (λ t, in_ns k "list" (c_list_of_tree F t d')))
  | StAppend w => c_append F v w
  | StPrepend w => c_append F w v
  end.
Definition c_final (F : nat) (k : nat) (f : final) (v : val) : comp :=
  match f with
  | FinVec => c_vec F v
  | FinFold => c_fold F v id_elm bin_op
  | FinEmpty => c_is_empty F v
  | FinMap2 => cbind (in_ns k "map2" (c_map_eager2 body F v)) (c_vec F)
  | FinMonoid d => cbind (in_ns k "tree" (c_tree_of_list F d v)) (λ t, in_ns k "monoid" (c_monoid_of_tree id_elm bin_op F t))
  | FinSort d => cbind (in_ns k "tree" (c_tree_of_list F d v)) (λ t, cbind (in_ns k "sort" (c_mergesort le F t)) (c_vec F))
  | FinEager d => cbind (in_ns k "tree" (c_tree_of_list F d v)) (λ t, in_ns k "eager" (c_eager_tree F t))
  | FinSort2 nm => cbind (in_ns k "tree" (c_tree_of_list F DLeft v)) (λ t, cbind (in_ns k "sort2" (c_mergesort2 le F t nm)) (c_vec F))
  | FinSort3 d nm => cbind (in_ns k "tree" (c_tree_of_list F d v)) (λ t, cbind (in_ns k "sort3" (c_mergesort3 le F t nm)) (c_vec F))
  | FinFind key => c_find F v key
  end.
Fixpoint c_query (F : nat) (k : nat) (ss : list lstage) (f : final) (v : val) : comp :=
  match ss with [] => c_final F k f v | s :: ss => cbind (c_stage F k s v) (c_query F (S k) ss f) end.
(** The whole session; it returns the answers of its queries. *)
Definition root_cell (n : name) : loc := Loc [] (IdNom n).
Fixpoint c_session (F : nat) (ss : list sstep) : comp :=
  match ss with
  | [] => Ret VUnit
  | SCell n v :: ss => Cell TyList n v (λ _, c_session F ss)
  | SSet n v :: ss => SetC TyList (ALoc (root_cell n)) v (c_session F ss)
  | SQuery st f v :: ss => cbind (c_query F 0 st f v) (λ a, cbind (c_session F ss) (λ rest, Ret (VPair a rest)))
  end.

(** ** Specification *)
(** The value [v] represents the finite list [L] when the root cells are as in [cells]. *)
Inductive denotes (cells : gmap name val) : val → lst val → Prop :=
  | den_nil : denotes cells v_nil LNil
  | den_cons x tl L : denotes cells tl L → denotes cells (v_cons x tl) (LCons x L)
  | den_name n tl L : denotes cells tl L → denotes cells (v_lname n tl) (LName n L)
  | den_art n v L : cells !! n = Some v → denotes cells v L → denotes cells (v_lart (root_cell n)) (LArt L).
(** What each stage does to the sequence of elements and names. *)
Definition sem (cells : gmap name val) (s : lstage) (ts ts' : list (name_else val)) : Prop :=
  match s with
  | StMap => ts' = tok_map body <$> ts
  | StMapLazy => ts' = NElse <$> (body <$> elems_of ts)
  | StFilter => ts' = filter (tok_keep pred) ts
  | StFilterLazy => ts' = NElse <$> filter (λ x, pred x = true) (elems_of ts)
  | StReverse => ts' = (NName <$> names_of ts) ++ (NElse <$> reverse (elems_of ts))
  | StTree d d' => ts' = in_dir d' (in_dir d ts)
  | StTreeFilter d => ∃ ns, ts' = (NElse <$> filter (λ x, pred x = true) (elems_of (in_dir d ts))) ++ (NName <$> ns) ∧ sublist ns (names_of (in_dir d ts))
  | StFilterTree d d' => ∃ us, ts' = in_dir d' us ∧ sublist us (in_dir d ts) ∧ elems_of us = filter (λ x, pred x = true) (elems_of (in_dir d ts))
  | StAppend w => ∃ L, denotes cells w L ∧ ts' = (NElse <$> elems_of ts) ++ toks L
  | StPrepend w => ∃ L, denotes cells w L ∧ ts' = (NElse <$> elems L) ++ ts
  end.
(** [ys] is [xs] sorted, if [le] is total on the elements; stably, if it is also transitive on them. *)
Definition sorting (xs ys : list val) : Prop :=
  ys ≡ₚ xs ∧
  ((∀ x y, x ∈ xs → y ∈ xs → le x y = true ∨ le y x = true) → Sorted (leR le) ys ∧
   ((∀ x y z, x ∈ xs → y ∈ xs → z ∈ xs → le x y = true → le y z = true → le x z = true) →
     ∀ x, x ∈ xs → filter (equiv_to le x) ys = filter (equiv_to le x) xs)).
(** [id_elm] and [bin_op] are a monoid on [D]. *)
Definition monoid_on (D : val → Prop) : Prop :=
  D id_elm ∧ (∀ a b, D a → D b → D (bin_op a b)) ∧ (∀ a b c, D a → D b → D c → bin_op a (bin_op b c) = bin_op (bin_op a b) c) ∧
  (∀ a, D a → bin_op id_elm a = a) ∧ (∀ a, D a → bin_op a id_elm = a).
(** The encoding of a tree without articulations. *)
Fixpoint v_tree (t : tree val) : val :=
  match t with
  | TNil => v_tnil | TLeaf x => v_leaf x | TBin lev l r => v_bin lev (v_tree l) (v_tree r)
  | TName n lev l r => v_tname n lev (v_tree l) (v_tree r) | TArt _ => VUnit
  end.
Definition fork_tok (t : name_else val) : name_else val := match t with NName n => NName (name_fork3 n).1.1 | NElse x => NElse (body x) end.
Definition fin (f : final) (ts : list (name_else val)) (r : val) : Prop :=
  match f with
  | FinVec => r = v_toks ts
  | FinFold => r = foldr bin_op id_elm (elems_of ts)
  | FinEmpty => r = VBool (bool_decide (elems_of ts = []))
  | FinMap2 => r = v_toks (fork_tok <$> ts)
  | FinMonoid d => (∃ D, monoid_on D ∧ Forall D (elems_of ts)) → r = foldr bin_op id_elm (elems_of (in_dir d ts))
  | FinSort d | FinSort3 d _ => ∃ ts', r = v_toks ts' ∧ sorting (elems_of (in_dir d ts)) (elems_of ts')
  | FinSort2 _ => ∃ ts', r = v_toks ts' ∧ sorting (elems_of ts) (elems_of ts')
  | FinFind key => r = v_option (bindings ((λ x, (p_fst x, p_snd x)) <$> elems_of ts) key)
  | FinEager d => ∃ t, r = v_tree t ∧ art_free t ∧ in_dir d (tseq t) = ts ∧ level_order lev_max_val t ∧ canonical d t
  end.
(** Through all stages. *)
Fixpoint piped (cells : gmap name val) (ss : list lstage) (ts ts' : list (name_else val)) : Prop :=
  match ss with [] => ts' = ts | s :: ss => ∃ ts1, sem cells s ts ts1 ∧ piped cells ss ts1 ts' end.
Definition answer (cells : gmap name val) (ss : list lstage) (f : final) (ts : list (name_else val)) (r : val) : Prop :=
  ∃ ts', piped cells ss ts ts' ∧ fin f ts' r.

(** Names that are distinct API names and not forks or ["rev"]-pairs: [good_names] of [CatNames.v]. *)
(** The sessions considered: [set] is applied to cells that exist; at each query, the value asked about represents a
    finite list with good names, and so do the lists appended to it; the extra name given to [mergesort_list_of_tree3] is
    not one of the list that is sorted. *)
Definition stage_ok (cells : gmap name val) (s : lstage) : Prop :=
  match s with StAppend w => ∃ L, denotes cells w L ∧ good_names (names L) | StPrepend w => ∃ L, denotes cells w L | _ => True end.
Definition final_ok (f : final) (ts : list (name_else val)) : Prop :=
  match f with FinSort3 _ nm => good_names (option_list nm ++ names_of ts) | _ => True end.
Definition valid_query (cells : gmap name val) (ss : list lstage) (f : final) (v : val) : Prop :=
  (∃ L, denotes cells v L ∧ good_names (names L) ∧ ∀ ts, piped cells ss (toks L) ts → final_ok f ts) ∧ Forall (stage_ok cells) ss.
Fixpoint valid_session (cells : gmap name val) (ss : list sstep) : Prop :=
  match ss with
  | [] => True
  | SCell n v :: ss => valid_session (<[n := v]> cells) ss
  | SSet n v :: ss => is_Some (cells !! n) ∧ valid_session (<[n := v]> cells) ss
  | SQuery st f v :: ss => valid_query cells st f v ∧ valid_session cells ss
  end.
(** [r] consists of right answers: those for the lists at the time of each query. *)
Fixpoint answers (cells : gmap name val) (ss : list sstep) (r : val) : Prop :=
  match ss with
  | [] => r = VUnit
  | SCell n v :: ss | SSet n v :: ss => answers (<[n := v]> cells) ss r
  | SQuery st f v :: ss => ∃ L a r', denotes cells v L ∧ answer cells st f (toks L) a ∧ answers cells ss r' ∧ r = VPair a r'
  end.

(** A value represents at most one list. *)
Lemma denotes_functional cells v L L' : denotes cells v L → denotes cells v L' → L = L'.
Proof.
  intros HL. revert L'. induction HL as [|x tl L HL IH|n tl L HL IH|n v L Hn HL IH]; intros L' HL'; inversion HL'; subst; [done|f_equal; auto..|].
  f_equal. apply IH. congruence.
Qed.
End Program.
