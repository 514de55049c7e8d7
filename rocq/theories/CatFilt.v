(** * The catalog's [filter_tree_of_tree], in a layout; [list_append]. *)
From Verif Require Export CatNmKinds.
Local Open Scope string_scope.
Local Open Scope list_scope.

Section CatFilt.
Context `{Hashes} `{Hash64 val}.
Context (body : val → val) (pred : val → bool) (id_elm : val) (bin_op : val → val → val) (le : val → val → bool).
Context (F0 : nat) (hv : val → N) (ha : progpt → val → N).
Local Instance P5 : Prog := cat body pred id_elm bin_op le F0 hv ha.
Context (I : store).
Notation nloc pth n := (Loc pth (IdNom n)).

Lemma wp_is_nil own pth F E t : tlinked I E t → (theight t ≤ F)%nat → wp I own pth E (c_is_nil F (tenc t)) (λ v _, v = VBool (is_nil (terase t))).
Proof.
  intros Hl HF. assert (Hst := theight_strip t). assert (is_nil (terase (tstrip t)) = is_nil (terase t)) as <- by (clear; by induction t).
  apply wp_t_elim; [done|lia|]. intros E1 HE1. destruct (tstrip t); [by apply wp_ret..|done].
Qed.

(** [bin_arts_niltest] *)
Section Nt.
Context (pth : path).
Definition ant (n : option name) (lev : N) (l r : atree) : atree :=
  if is_nil (terase l) then r else if is_nil (terase r) then l else
  match n with
  | None => BBin lev l r
  | Some n => BName n lev (BArt (nloc pth (name_fork n).1) l) (BArt (nloc pth (name_fork n).2) r)
  end.
Definition ant_ents (n : option name) (l r : atree) : list (loc * content) :=
  if is_nil (terase l) then [] else if is_nil (terase r) then [] else
  match n with
  | None => []
  | Some n => [(nloc pth (name_fork n).1, CCell TyTree (tenc l)); (nloc pth (name_fork n).2, CCell TyTree (tenc r))]
  end.
Lemma ant_erase n lev l r : terase (ant n lev l r) = bin_arts_niltest n lev (terase l) (terase r).
Proof. unfold ant, bin_arts_niltest. destruct (is_nil (terase l)), (is_nil (terase r)), n; done. Qed.
Lemma wp_ant own F E n lev l r : tlinked I E l → tlinked I E r → laid I (ant_ents n l r) → fresh own (ant_ents n l r) → (theight l ≤ F)%nat → (theight r ≤ F)%nat →
  wp I own pth E (c_niltest F n lev (tenc l) (tenc r)) (λ v E', v = tenc (ant n lev l r) ∧ tlinked I E' (ant n lev l r)).
Proof.
  intros Hl Hr Hla Hfr HFl HFr. unfold c_niltest, ant, ant_ents in *.
  apply wp_bind. eapply wp_conseq; [apply wp_is_nil; done|]. intros v E1 HE1 ->. cbv beta. destruct (is_nil (terase l)).
  { rewrite decide_True by done. apply wp_ret. split; [done|by eapply tlinked_mono]. }
  rewrite decide_False by done. apply wp_bind. eapply wp_conseq; [apply wp_is_nil; [by eapply tlinked_mono|done]|]. intros v E2 HE2 ->. cbv beta.
  assert (tlinked I E2 l) as Hl2 by (eapply tlinked_mono; [exact Hl|sub]). assert (tlinked I E2 r) as Hr2 by (eapply tlinked_mono; [exact Hr|sub]).
  destruct (is_nil (terase r)).
  { rewrite decide_True by done. by apply wp_ret. }
  rewrite decide_False by done. destruct n as [n|]; [|by apply wp_ret].
  rewrite !laid_cons in Hla. rewrite !fresh_cons in Hfr. destruct Hla as (L1 & L2 & _), Hfr as (F1 & F2 & _). cbn [name_fork].
  apply wp_cell; [done|exact L1|]. intros E3 HE3 Hin3. apply wp_cell; [done|exact L2|]. intros E4 HE4 Hin4. apply wp_ret. split; [done|].
  cbn [tlinked]. split_and!.
  - split; [by apply HE4|]. left. exact L1.
  - eapply tlinked_mono; [exact Hl2|sub].
  - split; [done|]. left. exact L2.
  - eapply tlinked_mono; [exact Hr2|sub].
Qed.
End Nt.

(** ** [filter_tree_of_tree] *)
Section Filter.
Context (pth : path).
Definition upth : path := name_unit :: pth.
Fixpoint aft (t : atree) : atree :=
  match t with
  | BNil => BNil
  | BLeaf x => if pred x then BLeaf x else BNil
  | BBin lev l r => ant upth None lev (aft l) (aft r)
  | BName n lev l r => ant upth (Some n) lev (aft l) (aft r)
  | BArt _ t => aft t
  end.
Definition ft_ents (t : atree) : list (loc * content) :=
  match t with BName n _ l r => ant_ents upth (Some n) (aft l) (aft r) | _ => [] end.
Definition ft_size (t : atree) : nat :=
  match t with BBin _ l r | BName _ _ l r => (theight (aft l) + theight (aft r))%nat | _ => 0 end.
Lemma aft_erase t : terase (aft t) = filter_tree_of_tree (terase t) pred.
Proof.
  unfold filter_tree_of_tree. induction t as [|x|lev l IHl r IHr|n lev l IHl r IHr|a t IH]; cbn [aft terase tree_fold_up]; [done|by destruct (pred x)| | |done].
  - by rewrite ant_erase, IHl, IHr.
  - by rewrite ant_erase, IHl, IHr.
Qed.
Definition ft_fents : atree → list (loc * content) := fents pred id_elm bin_op le F0 "filter" pth ft_ents.
Lemma wp_filter_tree own E t :
  tall (λ t, ft_size t < F0)%nat t → tlinked I E t → laid I (ft_fents t) → NoDup (ft_fents t).*1 → fresh own (ft_fents t) → (theight t < F0)%nat →
  wp I own pth E (c_filter_tree pred F0 (tenc t)) (λ v E', v = tenc (aft t) ∧ tlinked I E' (aft t)).
Proof.
  intros. refine (wp_fold_up body pred id_elm bin_op le F0 hv ha I "filter" pth (λ E t v, v = tenc (aft t) ∧ tlinked I E (aft t)) ft_ents (λ t, (ft_size t < F0)%nat) F0 own E t _ _ _ _ _ _ _ _ _ _ _ _ _); try done.
  - intros E1 E2 t' v [-> Hl] HE. split; [done|by eapply tlinked_mono].
  - intros E' t' v. by induction t'.
  - intros. by apply wp_ret.
  - intros own' E' x. apply wp_ret. cbn [aft]. by destruct (pred x).
  - intros own' E' lev l r vl vr t' Hq [-> Hl] [-> Hr] Hla Hnd Hfr. simpl in Hq. cbn [ops_of o_bin ops_filter]. apply wp_ns. eapply wp_conseq.
    { apply (wp_ant upth own' F0 E' None lev (aft l) (aft r)); [done|done| | |lia|lia]; unfold ant_ents; by destruct (is_nil (terase (aft l))), (is_nil (terase (aft r))). }
    intros v E2 _ Hv. by apply wp_ret.
  - intros own' E' n lev l r vl vr t' Hq [-> Hl] [-> Hr] Hla Hnd Hfr. simpl in Hq. cbn [ops_of o_name ops_filter]. apply wp_ns. eapply wp_conseq.
    { apply (wp_ant upth own' F0 E' (Some n) lev (aft l) (aft r)); [done|done|exact Hla|exact Hfr|lia|lia]. }
    intros v E2 _ Hv. by apply wp_ret.
Qed.
Lemma ft_kinds t : ∃ ns, sublist ns (tnames (terase t)) ∧ kinds (ft_fents t) ≡ₚ
  ((λ n, (nloc pth n, KThunk TyTree "tree_fold_up" (VStr "filter"))) <$> (tnames (terase t) ≫= name2)) ++
  ((λ n, (nloc upth n, KCell TyTree)) <$> (ns ≫= name2)).
Proof.
  unfold ft_fents. induction t as [|x|lev l IHl r IHr|n lev l IHl r IHr|a t IH]; [by exists []|by exists []| | |done].
  - destruct IHl as (n1 & S1 & K1), IHr as (n2 & S2 & K2). exists (n1 ++ n2). cbn [terase]. rewrite tnames_bin. split; [by apply sublist_app|].
    cbn [fents ft_ents]. simpl ([] ++ _). rewrite kinds_app, K1, K2, !bind_app, !fmap_app. solve_Permutation.
  - destruct IHl as (n1 & S1 & K1), IHr as (n2 & S2 & K2). cbn [terase]. rewrite tnames_name.
    assert (∃ b : bool, kinds (ant_ents upth (Some n) (aft l) (aft r)) = (λ n, (nloc upth n, KCell TyTree)) <$> (if b then name2 n else [])) as (b & Kb).
    { unfold ant_ents. destruct (is_nil (terase (aft l))); [by exists false|]. destruct (is_nil (terase (aft r))); [by exists false|by exists true]. }
    exists (n1 ++ (if b then [n] else []) ++ n2). split.
    { apply sublist_app; [done|]. destruct b; simpl; [by apply sublist_skip|by apply sublist_cons]. }
    cbn [fents ft_ents]. rewrite !kinds_cons, !kinds_app, Kb, K1, K2, !bind_app, !bind_cons, !fmap_app. simpl kind_of.
    assert (((if b then [n] else []) ≫= name2) = if b then name2 n else []) as -> by (destruct b; simpl; by rewrite ?app_nil_r).
    change (?x :: ?y :: ?z) with ([x; y] ++ z). set (N2 := [_; _]). change (fmap _ (name2 n)) with N2. set (M := fmap _ (if b then _ else _)). solve_Permutation.
Qed.
Lemma upth_ne : upth ≠ pth.
Proof. intros E. apply (f_equal length) in E. simpl in E. lia. Qed.
Lemma ft_ok t : good_names (tnames (terase t)) →
  NoDup (ft_fents t).*1 ∧
  (∀ l k, (l, k) ∈ kinds (ft_fents t) → (∃ n, l = nloc pth n ∧ k = KThunk TyTree "tree_fold_up" (VStr "filter")) ∨ (∃ n, l = nloc upth n ∧ k = KCell TyTree)).
Proof.
  intros Hg. destruct (ft_kinds t) as (ns & Hs & HK). assert (good_names ns) as Hgs by (eapply good_names_sub; [exact Hg|by apply sublist_submseteq]). split.
  - eapply NoDup_kinds; [exact HK|]. rewrite fmap_app, <- !list_fmap_compose. apply NoDup_app. split_and!.
    + by apply NoDup_name2.
    + intros x (m & -> & Hm)%elem_of_list_fmap (a & E & Ha)%elem_of_list_fmap. apply (f_equal l_path) in E. symmetry in E. by apply upth_ne in E.
    + by apply NoDup_name2.
  - intros l k Hx. rewrite HK in Hx. apply elem_of_app in Hx as [Hx|Hx]; apply elem_of_list_fmap in Hx as (m & E & Hm); injection E as -> ->; eauto.
Qed.
End Filter.

(** ** [list_append] *)
Definition aappend (l1 l2 : alst) : alst := foldr ACons l2 (elems (erase l1)).
Lemma aappend_erase l1 l2 : erase (aappend l1 l2) = list_append (erase l1) (erase l2).
Proof. unfold aappend, list_append. rewrite C37_fold. by induction (elems (erase l1)) as [|x xs IH]; simpl; [|rewrite IH]. Qed.
Lemma aappend_linked E l1 l2 : linked I E l2 → linked I E (aappend l1 l2).
Proof. unfold aappend. by induction (elems (erase l1)). Qed.
Lemma wp_append own pth F E l1 l2 : linked I E l1 → linked I E l2 → (asize l1 < F)%nat →
  wp I own pth E (c_append F (enc l1) (enc l2)) (λ v E', v = enc (aappend l1 l2) ∧ linked I E' (aappend l1 l2)).
Proof.
  intros Hl1 Hl2 HF. unfold c_append. eapply wp_conseq; [by apply wp_fold|]. intros v E' HE' ->. split.
  - unfold aappend. by induction (elems (erase l1)) as [|x xs IH]; simpl; [|rewrite IH].
  - apply aappend_linked. by eapply linked_mono.
Qed.
End CatFilt.
(** The sequence of the filtered tree is a part of that of the tree. *)
Lemma niltest_sublist {X} n lev (l r : tree X) : sublist (tseq (bin_arts_niltest n lev l r)) (tseq l ++ (NName <$> option_list n) ++ tseq r).
Proof.
  unfold bin_arts_niltest. destruct (is_nil l); [apply sublist_inserts_l; by apply sublist_inserts_l|]. destruct (is_nil r); [by apply sublist_inserts_r|].
  destruct n; done.
Qed.
Lemma filter_tree_sublist {X} (t : tree X) p : sublist (tseq (filter_tree_of_tree t p)) (tseq t).
Proof.
  unfold filter_tree_of_tree. induction t as [|x|lev l IHl r IHr|n lev l IHl r IHr|t IHt]; simpl; [done|destruct (p x); [done|apply sublist_nil_l]| | |done].
  - etrans; [apply niltest_sublist|]. simpl. by apply sublist_app.
  - etrans; [apply niltest_sublist|]. simpl. apply sublist_app; [done|]. by apply sublist_skip.
Qed.
