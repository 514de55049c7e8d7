(** * C50, C51: how the catalog goes wrong incrementally. *)
From Verif Require Export EngineProps Demo CatExamples.
Local Open Scope string_scope.
Local Open Scope list_scope.

(** ** C51: [prune_tree_of_tree]
    [bin_arts_niltest] allocates its cells under the forks of the node's name (collections.rs:519-520), which are also
    the names of the thunks that [tree_fold_up] memoises its recursive calls in (:600-606), in the same namespace. *)
(** Prepend tokens to a list, each name with its cell ([list_name_art_op], collections.rs:53-58). *)
Fixpoint prepend_toks (ts : list (name_else val)) (l : val) (k : val → comp) : comp :=
  match ts with
  | [] => k l
  | NElse x :: ts => prepend_toks ts l (λ l, k (v_cons x l))
  | NName n :: ts => prepend_toks ts l (λ l, Cell TyList n l (λ c, k (v_lname n (v_lart c))))
  end.
Definition te (z : Z) : name_else val := NElse (VInt z).
Definition tn (n : N) : name_else val := NName (nu n).
Definition prune_query (F : nat) (l : val) : comp :=
  cbind (in_ns 0 "tree" (c_tree_of_list F DLeft l)) (λ t,
  cbind (in_ns 0 "prune" (c_prune F t)) (λ t, cbind (in_ns 0 "list" (c_list_of_tree F t DLeft)) (c_vec F))).
Definition prog_prune (F : nat) : comp :=
  prepend_toks [te 4; tn 4; tn 9; te 6] v_nil (λ l,
  cbind (prune_query F l) (λ _,
  prepend_toks [te 11] l (prune_query F))).
Theorem C51_prune_refuted : stale (ex_cat 30) (prog_prune 30)
  (v_cons (VInt 11) (v_cons (VInt 4) (v_lname (nu 9) (v_cons (VInt 6) v_nil)))) (v_cons (VInt 4) (v_lname (nu 9) (v_cons (VInt 6) v_nil))).
Proof. eapply (stale_intro _ 60 60); [vm_compute; reflexivity..|done]. Qed.

Definition sort_query (F : nat) (l : val) : comp :=
  cbind (in_ns 0 "tree" (c_tree_of_list F DLeft l)) (λ t,
  cbind (in_ns 0 "sort" (c_mergesort ex_le F t)) (λ l,
  cbind (in_ns 1 "tree" (c_tree_of_list F DLeft l)) (λ t, in_ns 1 "sum" (c_monoid_of_tree (VInt 0) ex_add F t)))).
Definition prog_resort (F : nat) : comp :=
  prepend_toks [tn 2; te 1; te 10] v_nil (λ l,
  cbind (sort_query F l) (λ _,
  prepend_toks [te 3; te 9] l (sort_query F))).
Theorem C52_resort_refuted :
  (∃ s, @returns (ex_cat 30) (prepend_toks [tn 2; te 1; te 10] v_nil (sort_query 30)) dcg_new (VInt 11) s) ∧
  (∃ s, @returns (ex_cat 30) (prepend_toks [te 3; te 9; tn 2; te 1; te 10] v_nil (sort_query 30)) dcg_new (VInt 23) s) ∧
  (∃ K s, ∀ k, (K ≤ k)%nat → @exec (ex_cat 30) k (prog_resort 30) dcg_new = (OPanic PType, s)).
Proof.
  split_and!.
  - eexists. eapply (returns_intro 60). vm_compute. reflexivity.
  - eexists. eapply (returns_intro 60). vm_compute. reflexivity.
  - exists 60%nat, (@exec (ex_cat 30) 60 (prog_resort 30) dcg_new).2. intros k Hk. eapply exec_fuel_mono; [|done|exact Hk].
    assert ((@exec (ex_cat 30) 60 (prog_resort 30) dcg_new).1 = OPanic PType) as <- by (vm_compute; reflexivity).
    by destruct (@exec (ex_cat 30) 60 (prog_resort 30) dcg_new).
Qed.

Section Misuse.
Context `{Hashes} `{Hash64 val}.
Context (body : val → val) (pred : val → bool) (id_elm : val) (bin_op : val → val → val) (le : val → val → bool).
Context (F : nat) (hv : val → N) (ha : progpt → val → N).
Local Instance PF : Prog := cat body pred id_elm bin_op le F hv ha.

Definition cells_only (tb : gmap loc node) : Prop := ∀ l nd, tb !! l = Some nd → ∃ v, nd = NMut TyList [] v.
Lemma dirty_alloc_none tb stk p m o rn tr l v : tb !! l = Some (NMut TyList [] v) →
  dirty_alloc l (Dcg tb stk p m o rn tr) = (OVal tt, Dcg tb stk p m o rn tr).
Proof.
  intros Hl. unfold dirty_alloc, dirty_observers, dirty_fuel, dirty_obs, bind, lookup_abs. cbn [bind get ret table].
  unfold bind, get, ret. cbn [table]. rewrite Hl. simpl. unfold bind, ret. cbn [table]. by rewrite Hl.
Qed.
Notation st tb stk o rn tr := (Dcg tb stk [] false o rn tr).
Lemma res_node_at tb stk o rn tr l nd : tb !! l = Some nd → node_ty nd = TyList →
  res_node TyList l (st tb stk o rn tr) = (OVal nd, st tb stk o rn tr).
Proof. intros Hl Ht. unfold res_node, bind, lookup_abs, get, bind. cbn [table]. rewrite Hl. unfold ret. by rewrite Ht, bool_decide_true. Qed.
Lemma set_val_only n v w tb o rn tr : cells_only tb → tb !! root_cell n = Some (NMut TyList [] w) → ∃ tb',
  set_val TyList (root_cell n) v (st tb [] o rn tr) = (OVal tt, st tb' [] o rn tr) ∧ cells_only tb' ∧ tb' !! root_cell n = Some (NMut TyList [] v) ∧ ∀ l, l ≠ root_cell n → tb' !! l = tb !! l.
Proof.
  intros Ht E. unfold set_val. rewrite (bind_val _ _ _ _ _ (res_node_at _ _ _ _ _ _ _ E eq_refl)). case_decide as Ev.
  - exists tb. subst. done.
  - exists (<[root_cell n := NMut TyList [] v]> tb). (erewrite bind_val; [|reflexivity]). unfold set_table. cbn [table stack cpath structf purity runs trc]. rewrite (dirty_alloc_none _ _ _ _ _ _ _ _ v) by apply lookup_insert.
    split; [done|]. split; [|split; [apply lookup_insert|intros l Hl; by apply lookup_insert_ne]]. intros l nd [[<- <-]|[_ Hl]]%lookup_insert_Some; [by eexists|by apply (Ht l)].
Qed.
Lemma cell_only n v tb o rn tr : cells_only tb → ∃ tb' tr',
  cell_op TyList n v (st tb [] o rn tr) = (OVal (root_cell n), st tb' [] o rn tr') ∧
  cells_only tb' ∧ tb' !! root_cell n = Some (NMut TyList [] v) ∧ ∀ l, l ≠ root_cell n → tb' !! l = tb !! l.
Proof.
  intros Ht. unfold cell_op. (erewrite bind_val; [|reflexivity]). cbn [structf purity cpath table andb].
  change (Loc [] (IdNom n)) with (root_cell n). destruct (tb !! root_cell n) as [nd|] eqn:E.
  - destruct (Ht _ _ E) as [w ->].
    erewrite bind_val; [|rewrite (bind_val _ _ _ _ _ (res_node_at _ _ _ _ _ _ _ E eq_refl)); reflexivity]. cbv beta iota.
    erewrite bind_val; [|erewrite bind_val; [reflexivity|unfold check_cell_change; rewrite (bind_val _ _ _ _ _ (res_node_at _ _ _ _ _ _ _ E eq_refl)); reflexivity]].
    (erewrite bind_val; [|reflexivity]).
    match goal with |- context[bind _ _ (add_ev ?e _)] => destruct (set_val_only n v w tb o rn (e :: tr) Ht E) as (tb' & Hs & Ht' & Hl) end.
    change (add_ev _ (st tb [] o rn tr)) with (st tb [] o rn (EvBegin (TAlloc (LocExists (if bool_decide (w ≠ v) then ContentDiff else ContentSame)) KRefCell) None (root_cell n) :: tr)).
    rewrite (bind_val _ _ _ _ _ Hs). exists tb'. eexists. split; [|done]. reflexivity.
  - exists (<[root_cell n := NMut TyList [] v]> tb). eexists. split; [reflexivity|]. split; [|split; [apply lookup_insert|intros l Hl; by apply lookup_insert_ne]].
    intros l nd [[<- <-]|[_ Hl]]%lookup_insert_Some; [by eexists|by apply (Ht l)].
Qed.

(** A thunk put over a cell whose first action is to read that cell. *)
Lemma thunk_op_over n v pp arg spur tb o rn tr : tb !! root_cell n = Some (NMut TyList [] v) → ∃ tr',
  thunk_op TyList (NCNominal n) pp arg spur (st tb [] o rn tr) =
    (OVal (root_cell n), st (<[root_cell n := NComp (CompNode TyList [] [] pp arg spur None)]> tb) [] o rn tr').
Proof.
  intros E. eexists. unfold thunk_op. erewrite bind_val; [|reflexivity]. cbn [structf cpath table].
  change (Loc [] (IdNom n)) with (root_cell n). rewrite E.
  erewrite bind_val; [|erewrite bind_val; [|cbn [node_ty]; rewrite bool_decide_true by done; reflexivity]; reflexivity].
  cbv beta iota. erewrite bind_val; [|reflexivity].
  erewrite bind_val; [|unfold add_ev; cbn [table stack cpath structf purity runs trc]; apply (dirty_alloc_none _ _ _ _ _ _ _ _ _ E)].
  reflexivity.
Qed.
Lemma bind_panic1 {A B} (m : M A) (f : A → M B) s r : (m s).1 = OPanic r → (bind m f s).1 = OPanic r.
Proof. unfold bind. destruct (m s) as [[a|r'|] s']; simpl; [done|by intros [= ->]|done]. Qed.
Lemma force_over K n pp arg spur g tb o rn tr : tb !! root_cell n = Some (NComp (CompNode TyList [] [] pp arg spur None)) →
  code pp arg spur = Force TyList (ALoc (root_cell n)) None g →
  (force (S K) TyList (root_cell n) None (st tb [] o rn tr)).1 = OPanic PCycle.
Proof.
  set (c := CompNode TyList [] [] pp arg spur None). intros E1 Hc. set (tb1 := tb) in E1 |- *.
  unfold force, force_loc. erewrite bind_val; [|reflexivity].
  rewrite (bind_val _ _ _ _ _ (res_node_at tb1 _ _ _ _ _ _ E1 eq_refl)). cbn [is_cycle stack existsb c_res c].
  erewrite bind_val; [|reflexivity]. erewrite bind_val; [|reflexivity]. apply bind_panic1.
  cbn [produce]. unfold produce_body.
  set (tb2 := <[root_cell n := NComp (with_succs [] c)]> tb1).
  assert (tb2 !! root_cell n = Some (NComp (with_succs [] c))) as E2 by apply lookup_insert.
  assert (∀ tr, ∃ s2, produce_begin TyList (root_cell n) (st tb1 [] o rn tr) = (OVal (with_succs [] c, []), s2) ∧
    table s2 = tb2 ∧ stack s2 = [Frame (root_cell n) []] ∧ structf s2 = false ∧ cpath s2 = []) as Hpb.
  { intros tr0. unfold produce_begin. rewrite (bind_val _ _ _ _ _ (res_node_at tb1 _ _ _ _ _ _ E1 eq_refl)). cbv beta iota.
    do 5 (erewrite bind_val; [|reflexivity]). unfold set_table, set_stack, set_cpath; cbn [table stack cpath structf purity runs trc l_path root_cell].
    rewrite (bind_val _ _ _ _ _ (res_node_at tb2 _ _ _ _ _ _ E2 eq_refl)). eexists. split; [reflexivity|done]. }
  unfold add_ev. cbn [table stack cpath structf purity runs trc]. destruct (Hpb (EvBegin (TForce CompCacheMiss) None (root_cell n) :: tr)) as ([tb3 stk3 p3 m3 o3 rn3 tr3] & Hpb' & Htb & Hstk & Hm & Hp).
  cbn [table stack cpath structf] in Htb, Hstk, Hm, Hp. subst tb3 stk3 p3 m3. rewrite (bind_val _ _ _ _ _ Hpb').
  cbv beta iota. erewrite bind_val; [|reflexivity]. apply bind_panic1. cbn [c_pp c_arg c_spur with_succs c]. rewrite Hc. cbn [run force_art].
  apply bind_panic1. unfold force_loc. erewrite bind_val; [|reflexivity]. unfold add_run. cbn [table stack cpath structf purity runs trc].
  erewrite bind_val; [|apply (res_node_at tb2 _ _ _ _ _ _ E2 eq_refl)]. cbn [is_cycle stack existsb f_loc]. rewrite bool_decide_true by done. reflexivity.
Qed.

Lemma thunk_over_cell K n v pp arg spur g k tb o rn tr : tb !! root_cell n = Some (NMut TyList [] v) →
  code pp arg spur = Force TyList (ALoc (root_cell n)) None g →
  (exec (S K) (eager_m TyList n pp arg spur k) (st tb [] o rn tr)).1 = OPanic PCycle.
Proof.
  intros E Hc. unfold exec, eager_m. cbn [run]. destruct (thunk_op_over n v pp arg spur tb o rn tr E) as [tr' Ht].
  rewrite (bind_val _ _ _ _ _ Ht). cbn [force_art]. apply bind_panic1. eapply force_over; [apply lookup_insert|exact Hc].
Qed.

(** What [list_of_vec] leaves: the elements before the first name are in place; the name is followed by its cell. *)
Fixpoint laid_out (v : list (name_else val)) (l : val) (tb : gmap loc node) : Prop :=
  match v with
  | [] => True
  | NElse x :: v => ∃ l', l = v_cons x l' ∧ laid_out v l' tb
  | NName n :: _ => l = v_lname n (v_lart (root_cell n)) ∧ ∃ w, tb !! root_cell n = Some (NMut TyList [] w)
  end.
Lemma of_vec_run frc v k tb o rn tr : cells_only tb → ∃ l tb' tr',
  run frc (c_of_vec v k) (st tb [] o rn tr) = run frc (k l) (st tb' [] o rn tr') ∧ cells_only tb' ∧ laid_out v l tb'.
Proof.
  revert k. induction v as [|[n|x] v IH]; intros k Ht; cbn [c_of_vec].
  - exists v_nil, tb, tr. done.
  - destruct (IH (λ l, Cell TyList n l (λ c, k (v_lname n (v_lart c)))) Ht) as (l & tb1 & tr1 & -> & Ht1 & _). cbn [run].
    destruct (cell_only n l tb1 o rn tr1 Ht1) as (tb2 & tr2 & Hc & Ht2 & Hl & _). rewrite (bind_val _ _ _ _ _ Hc).
    exists (v_lname n (v_lart (root_cell n))), tb2, tr2. split_and!; [done|done|]. split; [done|]. by eexists.
  - destruct (IH (λ l, k (v_cons x l)) Ht) as (l & tb1 & tr1 & -> & Ht1 & Hl). exists (v_cons x l), tb1, tr1. split_and!; [done|done|]. by exists l.
Qed.

(** C50.  [list_map_eager], [list_filter_eager] and [list_reverse] panic (cycle) on every list made by [list_of_vec] in
    the same namespace that contains a name at all. *)
Definition named (v : list (name_else val)) (es : list val) (n : name) : Prop := ∃ rest, v = (NElse <$> es) ++ NName n :: rest.
Lemma on_list_of_vec K v es n (g : val → comp) (k : val → comp) : named v es n →
  (∀ tb o rn tr l, cells_only tb → laid_out v l tb → (exec (S K) (g l) (st tb [] o rn tr)).1 = OPanic PCycle) →
  (exec (S K) (c_of_vec v (λ l, cbind (g l) k)) dcg_new).1 = OPanic PCycle.
Proof.
  intros Hv Hg. unfold exec. destruct (of_vec_run (force (S K)) v (λ l, cbind (g l) k) ∅ true [] []) as (l & tb & tr & E & Ht & Hl); [intros ??; by rewrite lookup_empty|].
  change dcg_new with (st ∅ [] true [] []). rewrite E, run_cbind. apply bind_panic1. by apply Hg.
Qed.
Lemma map_cycle K G v es n l tb o rn tr : named v es n → laid_out v l tb → (2 ≤ F)%nat → (length es < G)%nat →
  (exec (S K) (c_map_eager body G l) (st tb [] o rn tr)).1 = OPanic PCycle.
Proof.
  intros [rest ->] Hl HF. revert G l Hl. induction es as [|x es IH]; intros [|G] l Hl HG; [simpl in HG; lia| |simpl in HG; lia|].
  - destruct Hl as [-> [w Hw]]. destruct F as [|[|F0]] eqn:EF; [lia|lia|]. cbn [c_map_eager].
    assert (∀ a b c, l_elim G (v_lname n (v_lart (root_cell n))) a b c = c n (v_lart (root_cell n))) as -> by (by destruct G).
    eapply thunk_over_cell; [exact Hw|]. cbn [code]. unfold PF. cbn [code cat cat_code]. rewrite EF. reflexivity.
  - destruct Hl as (l' & -> & Hl). cbn [c_map_eager].
    assert (∀ a b c, l_elim G (v_cons x l') a b c = b x l') as -> by (by destruct G). unfold exec. rewrite run_cbind. apply bind_panic1. apply IH; [done|simpl in HG; lia].
Qed.
Lemma filter_cycle K G v es n l tb o rn tr : named v es n → laid_out v l tb → (2 ≤ F)%nat → (length es < G)%nat →
  (exec (S K) (c_filter_eager pred G l) (st tb [] o rn tr)).1 = OPanic PCycle.
Proof.
  intros [rest ->] Hl HF. revert G l Hl. induction es as [|x es IH]; intros [|G] l Hl HG; [simpl in HG; lia| |simpl in HG; lia|].
  - destruct Hl as [-> [w Hw]]. destruct F as [|[|F0]] eqn:EF; [lia|lia|]. cbn [c_filter_eager].
    assert (∀ a b c, l_elim G (v_lname n (v_lart (root_cell n))) a b c = c n (v_lart (root_cell n))) as -> by (by destruct G).
    eapply thunk_over_cell; [exact Hw|]. cbn [code]. unfold PF. cbn [code cat cat_code]. rewrite EF. reflexivity.
  - destruct Hl as (l' & -> & Hl). cbn [c_filter_eager].
    assert (∀ a b c, l_elim G (v_cons x l') a b c = b x l') as -> by (by destruct G). destruct (pred x); [|apply IH; [done|simpl in HG; lia]].
    unfold exec. rewrite run_cbind. apply bind_panic1. apply IH; [done|simpl in HG; lia].
Qed.
Lemma reverse_cycle K G v es n l rv tb o rn tr : named v es n → cells_only tb → laid_out v l tb → (2 ≤ F)%nat → (length es < G)%nat →
  (exec (S K) (c_reverse G l rv) (st tb [] o rn tr)).1 = OPanic PCycle.
Proof.
  intros [rest ->] Ht Hl HF. revert G l rv Hl. induction es as [|x es IH]; intros [|G] l rv Hl HG; [simpl in HG; lia| |simpl in HG; lia|].
  - destruct Hl as [-> [w Hw]]. destruct F as [|[|F0]] eqn:EF; [lia|lia|]. cbn [c_reverse].
    assert (∀ a b c, l_elim G (v_lname n (v_lart (root_cell n))) a b c = c n (v_lart (root_cell n))) as -> by (by destruct G).
    unfold exec. cbn [run]. destruct (cell_only (name_pair (name_of_string "rev") n) rv tb o rn tr Ht) as (tb' & tr' & Hc & Ht' & _ & Hfr). rewrite (bind_val _ _ _ _ _ Hc).
    eapply thunk_over_cell; [rewrite Hfr; [exact Hw|]|].
    + unfold root_cell. intros E. assert (n = name_pair (name_of_string "rev") n) as E' by congruence. apply (f_equal (λ n, sym_size (nm_sym n))) in E'. simpl in E'. lia.
    + cbn [code]. unfold PF. cbn [code cat cat_code]. rewrite EF. reflexivity.
  - destruct Hl as (l' & -> & Hl). cbn [c_reverse].
    assert (∀ a b c, l_elim G (v_cons x l') a b c = b x l') as -> by (by destruct G). apply IH; [done|simpl in HG; lia].
Qed.
(** The lazy functions put a thunk over the cell; the panic comes when the result is read. *)
Lemma map_lazy_run K G v es n l tb o rn tr : named v es n → laid_out v l tb → (length es < G)%nat → ∃ es' tb' tr',
  exec (S K) (c_map_lazy body G l) (st tb [] o rn tr) = (OVal (foldr v_cons (v_lart (root_cell n)) es'), st tb' [] o rn tr') ∧ (length es' ≤ length es)%nat ∧
  tb' !! root_cell n = Some (NComp (CompNode TyList [] [] "list_map_lazy" (v_lart (root_cell n)) (VStr "body") None)).
Proof.
  intros [rest ->]. revert G l. induction es as [|x es IH]; intros [|G] l Hl HG; [simpl in HG; lia| |simpl in HG; lia|].
  - destruct Hl as [-> [w Hw]]. cbn [c_map_lazy].
    assert (∀ a b c, l_elim G (v_lname n (v_lart (root_cell n))) a b c = c n (v_lart (root_cell n))) as -> by (by destruct G).
    unfold exec, thunk_m. cbn [run]. destruct (thunk_op_over n w "list_map_lazy" (v_lart (root_cell n)) (VStr "body") tb o rn tr Hw) as [tr' Ht].
    rewrite (bind_val _ _ _ _ _ Ht). exists [], (<[root_cell n := NComp (CompNode TyList [] [] "list_map_lazy" (v_lart (root_cell n)) (VStr "body") None)]> tb), tr'. split; [done|]. split; [done|apply lookup_insert].
  - destruct Hl as (l' & -> & Hl). cbn [c_map_lazy].
    assert (∀ a b c, l_elim G (v_cons x l') a b c = b x l') as -> by (by destruct G). destruct (IH G l' Hl) as (es' & tb' & tr' & E & Hle & Ht); [simpl in HG; lia|].
    unfold exec in *. rewrite run_cbind, (bind_val _ _ _ _ _ E). exists (body x :: es'), tb', tr'. split; [done|]. split; [simpl; lia|done].
Qed.
Lemma filter_lazy_run K G v es n l tb o rn tr : named v es n → laid_out v l tb → (length es < G)%nat → ∃ es' tb' tr',
  exec (S K) (c_filter_lazy pred G l) (st tb [] o rn tr) = (OVal (foldr v_cons (v_lart (root_cell n)) es'), st tb' [] o rn tr') ∧ (length es' ≤ length es)%nat ∧
  tb' !! root_cell n = Some (NComp (CompNode TyList [] [] "list_filter_lazy" (v_lart (root_cell n)) (VStr "pred") None)).
Proof.
  intros [rest ->]. revert G l. induction es as [|x es IH]; intros [|G] l Hl HG; [simpl in HG; lia| |simpl in HG; lia|].
  - destruct Hl as [-> [w Hw]]. cbn [c_filter_lazy].
    assert (∀ a b c, l_elim G (v_lname n (v_lart (root_cell n))) a b c = c n (v_lart (root_cell n))) as -> by (by destruct G).
    unfold exec, thunk_m. cbn [run]. destruct (thunk_op_over n w "list_filter_lazy" (v_lart (root_cell n)) (VStr "pred") tb o rn tr Hw) as [tr' Ht].
    rewrite (bind_val _ _ _ _ _ Ht). exists [], (<[root_cell n := NComp (CompNode TyList [] [] "list_filter_lazy" (v_lart (root_cell n)) (VStr "pred") None)]> tb), tr'. split; [done|]. split; [done|apply lookup_insert].
  - destruct Hl as (l' & -> & Hl). cbn [c_filter_lazy].
    assert (∀ a b c, l_elim G (v_cons x l') a b c = b x l') as -> by (by destruct G). destruct (IH G l' Hl) as (es' & tb' & tr' & E & Hle & Ht); [simpl in HG; lia|].
    unfold exec in *. destruct (pred x).
    + rewrite run_cbind, (bind_val _ _ _ _ _ E). exists (x :: es'), tb', tr'. split; [done|]. split; [simpl; lia|done].
    + exists es', tb', tr'. split; [done|]. split; [simpl; lia|done].
Qed.
Lemma vec_over K G n pp arg spur g es tb o rn tr : tb !! root_cell n = Some (NComp (CompNode TyList [] [] pp arg spur None)) →
  code pp arg spur = Force TyList (ALoc (root_cell n)) None g → (length es + 2 ≤ G)%nat →
  (exec (S K) (c_vec G (foldr v_cons (v_lart (root_cell n)) es)) (st tb [] o rn tr)).1 = OPanic PCycle.
Proof.
  intros E Hc. revert G. induction es as [|x es IH]; intros G HG; (destruct G as [|G]; [simpl in HG; lia|]); cbn [c_vec foldr].
  - destruct G as [|G]; [simpl in HG; lia|]. unfold v_lart. cbn [l_elim]. unfold exec. cbn [run force_art]. apply bind_panic1. by eapply force_over.
  - assert (∀ tl a b c, l_elim G (v_cons x tl) a b c = b x tl) as -> by (by destruct G). unfold exec. rewrite run_cbind. apply bind_panic1. apply IH. simpl in HG. lia.
Qed.
Context (K : nat) (v : list (name_else val)) (es : list val) (n : name) (k : val → comp).
Theorem C50_map_same_namespace : named v es n → (length es + 2 ≤ F)%nat → 
  (exec (S K) (c_of_vec v (λ l, cbind (c_map_eager body F l) k)) dcg_new).1 = OPanic PCycle.
Proof. intros Hv HF. eapply on_list_of_vec; [exact Hv|]. intros. eapply map_cycle; [exact Hv|done|lia|lia]. Qed.
Theorem C50_filter_same_namespace : named v es n → (length es + 2 ≤ F)%nat →
  (exec (S K) (c_of_vec v (λ l, cbind (c_filter_eager pred F l) k)) dcg_new).1 = OPanic PCycle.
Proof. intros Hv HF. eapply on_list_of_vec; [exact Hv|]. intros. eapply filter_cycle; [exact Hv|done|lia|lia]. Qed.
Theorem C50_reverse_same_namespace : named v es n → (length es + 2 ≤ F)%nat →
  (exec (S K) (c_of_vec v (λ l, cbind (c_reverse F l v_nil) k)) dcg_new).1 = OPanic PCycle.
Proof. intros Hv HF. eapply on_list_of_vec; [exact Hv|]. intros. eapply reverse_cycle; [exact Hv|done|done|lia|lia]. Qed.
(** [list_map_lazy] and [list_filter_lazy]: as soon as the result is read. *)
Theorem C50_map_lazy_same_namespace : named v es n → (length es + 2 ≤ F)%nat →
  (exec (S K) (c_of_vec v (λ l, cbind (cbind (c_map_lazy body F l) (c_vec F)) k)) dcg_new).1 = OPanic PCycle.
Proof.
  intros Hv HF. eapply on_list_of_vec; [exact Hv|]. intros tb o rn tr l _ Hl.
  destruct (map_lazy_run K F v es n l tb o rn tr Hv Hl) as (es' & tb' & tr' & E & Hle & Ht); [lia|].
  unfold exec in *. rewrite run_cbind, (bind_val _ _ _ _ _ E).
  assert (∃ g, code "list_map_lazy" (v_lart (root_cell n)) (VStr "body") = Force TyList (ALoc (root_cell n)) None g) as [g Hg].
  { cbn [code]. unfold PF. cbn [code cat cat_code]. destruct F as [|[|F0]]; [lia|lia|]. eexists. reflexivity. }
  eapply vec_over; [exact Ht|exact Hg|lia].
Qed.
Theorem C50_filter_lazy_same_namespace : named v es n → (length es + 2 ≤ F)%nat →
  (exec (S K) (c_of_vec v (λ l, cbind (cbind (c_filter_lazy pred F l) (c_vec F)) k)) dcg_new).1 = OPanic PCycle.
Proof.
  intros Hv HF. eapply on_list_of_vec; [exact Hv|]. intros tb o rn tr l _ Hl.
  destruct (filter_lazy_run K F v es n l tb o rn tr Hv Hl) as (es' & tb' & tr' & E & Hle & Ht); [lia|].
  unfold exec in *. rewrite run_cbind, (bind_val _ _ _ _ _ E).
  assert (∃ g, code "list_filter_lazy" (v_lart (root_cell n)) (VStr "pred") = Force TyList (ALoc (root_cell n)) None g) as [g Hg].
  { cbn [code]. unfold PF. cbn [code cat cat_code]. destruct F as [|[|F0]]; [lia|lia|]. eexists. reflexivity. }
  eapply vec_over; [exact Ht|exact Hg|lia].
Qed.
End Misuse.
(** A list with a name; and without any name there is no problem. *)
Lemma ex_named : named [te 5; te 6; tn 1; te 2] [VInt 5; VInt 6] (nu 1).
Proof. by exists [te 2]. Qed.
Lemma ex_no_name : (@exec (ex_cat 30) 1 (c_of_vec [te 5; te 6] (λ l, cbind (c_map_eager ex_body 30 l) (c_vec 30))) dcg_new).1 =
  OVal (v_cons (VInt 105) (v_cons (VInt 106) v_nil)).
Proof. vm_compute. reflexivity. Qed.
(** Other functions, on examples: the lazy versions panic when the result is used; building a tree panics at once, with
    a type error; so does folding a tree in the namespace it was built in. *)
Lemma C50_others : let l1 := [te 5; tn 1; te 2] in let go c := (@exec (ex_cat 30) 60 c dcg_new).1 in
  go (c_of_vec l1 (λ l, cbind (c_map_lazy ex_body 30 l) (c_vec 30))) = OPanic PCycle ∧
  go (c_of_vec l1 (λ l, cbind (c_filter_lazy ex_pred 30 l) (c_vec 30))) = OPanic PCycle ∧
  go (c_of_vec l1 (λ l, c_tree_of_list 30 DLeft l)) = OPanic PType ∧
  go (c_of_vec l1 (λ l, in_ns 0 "tree" (cbind (c_tree_of_list 30 DLeft l) (c_monoid_of_tree (VInt 0) ex_add 30)))) = OPanic PType.
Proof. vm_compute. split_and!; reflexivity. Qed.
