(** * What the catalog's functions allocate where: by kind of content. *)
From Verif Require Export CatNames.
Local Open Scope string_scope.
Local Open Scope list_scope.

(** The kind of content of the location named [s] in the namespace of a stage. *)
Definition sk (st : string) (s : namesym) : kind :=
  match st with
  | "map" => KThunk TyList "list_map_eager" (VStr "body")
  | "mapl" => KThunk TyList "list_map_lazy" (VStr "body")
  | "filter" => KThunk TyList "list_filter_eager" (VStr "pred")
  | "filterl" => KThunk TyList "list_filter_lazy" (VStr "pred")
  | "map2" => match s with SForkR _ => KCell TyList | _ => KThunk TyList "list_map_eager2" (VStr "body") end
  | "rev" => if sym_rev s then KCell TyList else KThunk TyList "list_reverse" VUnit
  | "tree" => if sym_forked s then KThunk TyTL "tree_of_list_rec" VUnit else KCell TyTree
  | "list" => if sym_forked s then KThunk TyList "tree_fold_seq" (VStr "list_of_tree") else KCell TyList
  | "flist" => if sym_forked s then KThunk TyList "tree_fold_seq" (VStr "filter_list") else KCell TyList
  | "monoid" => KThunk TyElt "tree_fold_up" (VStr "monoid")
  | "eager" => KThunk TyTree "tree_fold_up" (VStr "eager")
  | "ftree" => KThunk TyTree "tree_fold_up" (VStr "filter")
  | "sort2" => KThunk TyList "tree_fold_up_nm_dn" (VStr "mergesort2")
  | "sort3" => KThunk TyList "tree_fold_up_nm_dn" (VStr "mergesort3")
  | _ => match s with SForkL (SForkL _) | SForkL (SForkR _) => KThunk TyList "list_merge" VUnit | _ => KThunk TyList "tree_fold_up" (VStr "mergesort") end
  end.
(** The same in a namespace [sub] inside it: [filter_tree_of_tree] and the sorts open one more. *)
Definition skp (sub : path) (st : string) (s : namesym) : kind :=
  match sub with
  | [] => sk st s
  | _ => match st with "ftree" => KCell TyTree | _ => KThunk TyList "list_merge" VUnit end
  end.

Section CatKinds.
Context `{Hashes} `{Hash64 val}.
Notation nloc pth n := (Loc pth (IdNom n)).
Definition conf (st : string) (pth : path) (e : list (loc * content)) : Prop :=
  ∀ l k, (l, k) ∈ kinds e → ∃ n, l = nloc pth n ∧ k = sk st (nm_sym n).
Lemma conf_kinds st pth e ks : kinds e ≡ₚ ks → (∀ l k, (l, k) ∈ ks → ∃ n, l = nloc pth n ∧ k = sk st (nm_sym n)) → conf st pth e.
Proof. intros He Hk l k. rewrite He. apply Hk. Qed.
Lemma kinds_app a b : kinds (a ++ b) = kinds a ++ kinds b.
Proof. apply fmap_app. Qed.
Lemma kinds_cons l ct e : kinds ((l, ct) :: e) = (l, kind_of ct) :: kinds e.
Proof. done. Qed.
Lemma NoDup_kinds e ks : kinds e ≡ₚ ks → NoDup ks.*1 → NoDup e.*1.
Proof. intros He Hk. rewrite kinds_locs. by rewrite He. Qed.

Section One.
Context (pth : path).
Lemma conf_names st ns e K : kinds e = (λ n, (nloc pth n, K)) <$> ns → (∀ n, n ∈ ns → K = sk st (nm_sym n)) → conf st pth e.
Proof. intros He HK. apply (conf_kinds st pth e _ (reflexivity _)). rewrite He. intros l k (n & E & Hn)%elem_of_list_fmap. injection E as -> ->. eauto. Qed.

(** [tree_of_list] *)
Lemma atol_kinds fuel dir l t tl pl t' l' e : atol fuel pth dir l t tl pl = Some (t', l', e) →
  ∃ D, names (erase l) = D ++ names (erase l') ∧
    kinds e ≡ₚ D ≫= λ n, [(nloc pth n, KCell TyTree); (nloc pth (name_fork n).1, KThunk TyTL "tree_of_list_rec" VUnit); (nloc pth (name_fork n).2, KThunk TyTL "tree_of_list_rec" VUnit)].
Proof.
  revert l t tl pl t' l' e. induction fuel as [|fuel IH]; intros l t tl pl t' l' e Hx; [done|].
  destruct l as [|y l|n l|a l]; cbn [atol] in Hx.
  - simplify_eq. by exists [].
  - destruct (_ && _); [|simplify_eq; by exists []].
    destruct (atol fuel pth dir l (BLeaf y) lev_zero (lev_of_elt y)) as [[[t2 rest2] e1]|] eqn:E1; [|done].
    destruct (atol fuel pth dir rest2 _ (lev_of_elt y) pl) as [[[t3 l3] e2]|] eqn:E2; [|done]. simplify_eq.
    apply IH in E1 as (D1 & N1 & L1). apply IH in E2 as (D2 & N2 & L2). exists (D1 ++ D2).
    rewrite bind_app, kinds_app, L1, L2, <- (assoc_L (++)), <- N2. split; [exact N1|done].
  - destruct (_ && _); [|simplify_eq; by exists []].
    destruct (atol fuel pth dir l BNil lev_zero (lev_of_name n)) as [[[t2 rest2] e1]|] eqn:E1; [|done].
    destruct (atol fuel pth dir rest2 _ (lev_of_name n) pl) as [[[t3 l3] e2]|] eqn:E2; [|done]. simplify_eq.
    apply IH in E1 as (D1 & N1 & L1). apply IH in E2 as (D2 & N2 & L2). exists (n :: D1 ++ D2).
    split.
    + change (names (erase (AName n l))) with (n :: names (erase l)). rewrite N1, N2. simpl. by rewrite (assoc_L (++)).
    + rewrite bind_cons, bind_app. rewrite !kinds_cons, kinds_app, L1, L2. cbn [app kind_of tol_thunk]. apply perm_swap.
  - apply IH in Hx as (D & N & L). by exists D.
Qed.
(** [tree_fold_seq] *)
Lemma aseq_kinds id keep drop dir t res : kinds (aseq id pth keep drop dir t res).2 ⊆+ (tnames (terase t) ≫= λ n,
    [(nloc pth n, KCell TyList); (nloc pth (name_fork n).1, KThunk TyList "tree_fold_seq" (VStr id)); (nloc pth (name_fork n).2, KThunk TyList "tree_fold_seq" (VStr id))]).
Proof.
 set (f := λ n, _ : list (loc * kind)).
  revert res. induction t as [|x|lev l IHl r IHr|n lev l IHl r IHr|a t IH]; intros res; cbn [aseq terase]; [done|done| | |apply IH].
  - assert (tnames (TBin lev (terase l) (terase r)) = tnames (terase l) ++ tnames (terase r)) as -> by apply names_of_app. rewrite bind_app.
    destruct dir.
    + specialize (IHl res). destruct (aseq id pth keep drop DLeft l res) as [r1 e1]. specialize (IHr r1). destruct (aseq id pth keep drop DLeft r r1) as [r2 e2].
      cbn [snd] in *. rewrite kinds_app. by apply submseteq_app.
    + specialize (IHr res). destruct (aseq id pth keep drop DRight r res) as [r1 e1]. specialize (IHl r1). destruct (aseq id pth keep drop DRight l r1) as [r2 e2].
      cbn [snd] in *. rewrite kinds_app, (Permutation_app_comm (kinds e1)). by apply submseteq_app.
  - assert (tnames (TName n lev (terase l) (terase r)) = tnames (terase l) ++ n :: tnames (terase r)) as -> by (unfold tnames; simpl; by rewrite names_of_app).
    rewrite bind_app, bind_cons. set (A := tnames (terase l) ≫= f) in *. set (B := tnames (terase r) ≫= f) in *.
    assert (∀ r1 c1 c2 L, kind_of c1 = KThunk TyList "tree_fold_seq" (VStr id) → kind_of c2 = KThunk TyList "tree_fold_seq" (VStr id) →
      L ⊆+ A ++ B → kinds [(nloc pth (name_fork n).1, c1); (nloc pth (name_fork n).2, c2)] ++ kinds (seq_cell pth drop n r1) ++ L ⊆+ A ++ f n ++ B) as Hgo.
    { intros r1 c1 c2 L Hc1 Hc2 HL. rewrite (assoc_L (++)), (assoc_L (++) A), (Permutation_app_comm A), <- (assoc_L (++) (f n)). apply submseteq_app; [|done].
      unfold seq_cell, f. rewrite !kinds_cons, Hc1, Hc2. set (a := (nloc pth (name_fork n).1, _)). set (b := (nloc pth (name_fork n).2, _)). set (c := (nloc pth n, KCell TyList)).
      destruct (drop r1); cbn.
      - by apply submseteq_cons.
      - fold c. apply Permutation_submseteq. change ([a; b; c]) with ([a; b] ++ [c]). change ([c; a; b]) with ([c] ++ [a; b]). apply Permutation_app_comm. }
    destruct dir.
    + specialize (IHl res). destruct (aseq id pth keep drop DLeft l res) as [r1 e1]. specialize (IHr (seq_name pth drop n r1)). destruct (aseq id pth keep drop DLeft r (seq_name pth drop n r1)) as [r2 e2].
      cbn [snd] in *. change (?x :: ?y :: ?z) with ([x; y] ++ z). rewrite !kinds_app. apply (Hgo r1); [done|done|]. by apply submseteq_app.
    + specialize (IHr res). destruct (aseq id pth keep drop DRight r res) as [r1 e1]. specialize (IHl (seq_name pth drop n r1)). destruct (aseq id pth keep drop DRight l (seq_name pth drop n r1)) as [r2 e2].
      cbn [snd] in *. change (?x :: ?y :: ?z) with ([x; y] ++ z). rewrite !kinds_app. apply (Hgo r1); [done|done|]. rewrite (Permutation_app_comm (kinds e1)). by apply submseteq_app.
Qed.

Lemma tnames_bin lev (l r : tree val) : tnames (TBin lev l r) = tnames l ++ tnames r.
Proof. apply names_of_app. Qed.
Lemma tnames_name n lev (l r : tree val) : tnames (TName n lev l r) = tnames l ++ n :: tnames r.
Proof. unfold tnames. simpl. by rewrite names_of_app. Qed.
Definition roots (t : tree val) : list namesym := tnames t ≫= λ n, [SForkL (nm_sym n); nm_sym n].
Lemma sroot_unforked s : sym_forked s = false → sroot s = s.
Proof. by destruct s. Qed.
Lemma elem_of_roots x t : x ∈ roots t ↔ ∃ n, n ∈ tnames t ∧ (x = SForkL (nm_sym n) ∨ x = nm_sym n).
Proof.
  unfold roots. rewrite elem_of_list_bind. split.
  - intros (n & Hx & Hn). exists n. split; [done|]. rewrite !elem_of_cons, elem_of_nil in Hx. tauto.
  - intros (n & Hn & Hx). exists n. split; [|done]. rewrite !elem_of_cons. tauto.
Qed.
Lemma roots_disj t t' : NoDup (nm_sym <$> (tnames t ++ tnames t')) → (∀ n, n ∈ tnames t ++ tnames t' → sym_forked (nm_sym n) = false) →
  ∀ x, x ∈ roots t → x ∉ roots t'.
Proof.
  intros Hn Hf x (n & Hnt & Hx)%elem_of_roots (m & Hmt & Hy)%elem_of_roots. rewrite fmap_app, NoDup_app in Hn. destruct Hn as (_ & Hd & _).
  assert (nm_sym n ≠ nm_sym m). { intros E. apply (Hd (nm_sym n)); [by apply elem_of_list_fmap_1|]. rewrite E. by apply elem_of_list_fmap_1. }
  assert (sym_forked (nm_sym n) = false) by (apply Hf, elem_of_app; by left). assert (sym_forked (nm_sym m) = false) by (apply Hf, elem_of_app; by right).
  destruct Hx as [-> | ->], Hy as [Hy|Hy]; [congruence| | |congruence].
  - rewrite <- Hy in *. done.
  - rewrite Hy in *. done.
Qed.
Lemma fmap_sub {A B} (f : A → B) l l' : l ⊆+ l' → f <$> l ⊆+ f <$> l'.
Proof. intros (k & ->)%submseteq_Permutation. rewrite fmap_app. by apply submseteq_inserts_r. Qed.
Section Up.
Context (pred : val → bool) (id_elm : val) (bin_op : val → val → val) (le : val → val → bool).
(** [tree_fold_up], without allocation by the operations *)
Lemma fents_kinds F0 id t : kinds (fents pred id_elm bin_op le F0 id pth no_ents t) ≡ₚ
  (λ n, (nloc pth n, KThunk (o_ty (ops_of pred id_elm bin_op le F0 id)) "tree_fold_up" (VStr id))) <$> (tnames (terase t) ≫= name2).
Proof.
  induction t as [|x|lev l IHl r IHr|n lev l IHl r IHr|a t IH]; [done|done| | |done].
  - cbn [fents terase]. change (no_ents (BBin lev l r)) with (@nil (loc * content)). simpl ([] ++ _). rewrite kinds_app, IHl, IHr, tnames_bin, bind_app, fmap_app. done.
  - cbn [fents terase]. change (no_ents (BName n lev l r)) with (@nil (loc * content)). simpl ([] ++ _). rewrite !kinds_cons, kinds_app, IHl, IHr, tnames_name, bind_app, bind_cons, !fmap_app.
    rewrite (Permutation_app_comm (fmap _ (name2 n))), (assoc_L (++)), (Permutation_app_comm _ (fmap _ (name2 n))). done.
Qed.

(** ** Sorting *)
Lemma amerge_kind n1 l1 n2 l2 x : x ∈ (amerge le pth n1 l1 n2 l2).2 → kind_of x.2 = KThunk TyList "list_merge" VUnit.
Proof.
  revert n1 l1 n2 l2. apply (merge_ind le (λ n1 l1 n2 l2, x ∈ (amerge le pth n1 l1 n2 l2).2 → kind_of x.2 = KThunk TyList "list_merge" VUnit)).
  - intros n1 n2 l2 Hx. by apply elem_of_nil in Hx.
  - done.
  - done.
  - intros n1 h1 t1 n2 Hx. by apply elem_of_nil in Hx.
  - done.
  - done.
  - intros n1 h1 t1 n2 h2 t2 E IH. rewrite amerge_cc, E. destruct n1 as [n1|]; [|exact IH]. cbn [acons snd]. intros [->|Hx]%elem_of_cons; [done|by apply IH].
  - intros n1 h1 t1 n2 h2 t2 E IH. rewrite amerge_cc, E. destruct n2 as [n2|]; [|exact IH]. cbn [acons snd]. intros [->|Hx]%elem_of_cons; [done|by apply IH].
Qed.
Lemma kinds_const e K : (∀ x, x ∈ e → kind_of x.2 = K) → kinds e = (λ l, (l, K)) <$> e.*1.
Proof.
  intros He. unfold kinds. rewrite <- list_fmap_compose. apply list_fmap_ext. intros i x Hx. simpl. rewrite He; [done|]. by eapply elem_of_list_lookup_2.
Qed.
Lemma amerge_kinds n1 l1 n2 l2 : ∃ U V, U ++ V ⊆+ option_list n1 ++ anames l1 ++ option_list n2 ++ anames l2 ∧
  kinds (amerge le pth n1 l1 n2 l2).2 = (λ n, (nloc pth (name_fork n).1, KThunk TyList "list_merge" VUnit)) <$> U ∧
  anames (amerge le pth n1 l1 n2 l2).1 ⊆+ ((λ n, (name_fork n).2) <$> U) ++ V.
Proof.
  destruct (amerge_locs le pth n1 l1 n2 l2) as (U & V & HUV & Hl & Hn). exists U, V. split_and!; [done| |done].
  rewrite (kinds_const _ _ (amerge_kind n1 l1 n2 l2)), Hl. by rewrite <- list_fmap_compose.
Qed.
Lemma good_merge (Q : namesym → Prop) n1 l1 n2 l2 A Ro : (∀ s, Q s → Q (SForkR s)) → good Q (nm_sym <$> A) (nm_sym <$> (option_list n1 ++ anames l1 ++ option_list n2 ++ anames l2)) Ro →
  ∃ U, kinds (amerge le pth n1 l1 n2 l2).2 = (λ n, (nloc pth (name_fork n).1, KThunk TyList "list_merge" VUnit)) <$> U ∧
    good Q (nm_sym <$> (U ++ A)) (nm_sym <$> anames (amerge le pth n1 l1 n2 l2).1) Ro.
Proof.
  intros HQ Hg. destruct (amerge_kinds n1 l1 n2 l2) as (U & V & HUV & Hk & Hn). exists U. split; [done|]. rewrite fmap_app.
  eapply (good_step _ _ _ _ _ (nm_sym <$> V)); [exact HQ|exact Hg|rewrite <- fmap_app; by apply fmap_sub|].
  apply (fmap_sub nm_sym) in Hn. rewrite fmap_app, <- list_fmap_compose in Hn. rewrite <- list_fmap_compose. exact Hn.
Qed.
Definition is_forked (s : namesym) : Prop := sym_forked s = true.
Lemma msort_kinds F0 t : NoDup (nm_sym <$> tnames (terase t)) → (∀ n, n ∈ tnames (terase t) → sym_forked (nm_sym n) = false) →
  ∃ A, kinds (msort_fents pred id_elm bin_op le F0 pth t) ≡ₚ
      ((λ n, (nloc pth n, KThunk TyList "tree_fold_up" (VStr "mergesort"))) <$> (tnames (terase t) ≫= name2)) ++
      ((λ n, (nloc pth (name_fork n).1, KThunk TyList "list_merge" VUnit)) <$> A) ∧
    good is_forked (nm_sym <$> A) (nm_sym <$> anames (amsort le pth t)) (roots (terase t)).
Proof.
  unfold msort_fents. induction t as [|x|lev l IHl r IHr|n lev l IHl r IHr|a t IH]; intros Hn Hf.
  - exists []. split; [done|apply good_nil].
  - exists []. split; [done|apply good_nil].
  - cbn [terase] in *. rewrite tnames_bin in *. destruct IHl as (A1 & K1 & G1); [rewrite fmap_app, NoDup_app in Hn; tauto|intros; apply Hf, elem_of_app; by left|].
    destruct IHr as (A2 & K2 & G2); [rewrite fmap_app, NoDup_app in Hn; tauto|intros; apply Hf, elem_of_app; by right|].
    assert (Hg := good_app _ _ _ _ _ _ _ G1 G2 (roots_disj _ _ Hn Hf)). rewrite <- !fmap_app in Hg.
    destruct (good_merge is_forked None (amsort le pth l) None (amsort le pth r) (A1 ++ A2) _ (λ _ _, eq_refl) Hg) as (U & KU & GU).
    exists (U ++ A1 ++ A2). split.
    + cbn [fents msort_ents]. rewrite !kinds_app, KU, K1, K2, bind_app, !fmap_app. solve_Permutation.
    + cbn [amsort]. eapply good_perm; [exact GU|done|done|]. unfold roots. by rewrite tnames_bin, bind_app.
  - cbn [terase] in *. rewrite tnames_name in *. 
    assert (tnames (terase l) ++ n :: tnames (terase r) ≡ₚ n :: tnames (terase l) ++ tnames (terase r)) as Hp by (symmetry; apply Permutation_middle).
    assert (NoDup (nm_sym n :: (nm_sym <$> (tnames (terase l) ++ tnames (terase r))))) as [Hn1 Hn2]%NoDup_cons by (by rewrite Hp in Hn).
    assert (∀ m, m ∈ tnames (terase l) ++ tnames (terase r) → sym_forked (nm_sym m) = false) as Hf2 by (intros m Hm; apply Hf; rewrite Hp; by right).
    assert (sym_forked (nm_sym n) = false) as Hfn by (apply Hf; rewrite Hp; left).
    destruct IHl as (A1 & K1 & G1); [rewrite fmap_app, NoDup_app in Hn2; tauto|intros; apply Hf2, elem_of_app; by left|].
    destruct IHr as (A2 & K2 & G2); [rewrite fmap_app, NoDup_app in Hn2; tauto|intros; apply Hf2, elem_of_app; by right|].
    assert (Hg := good_app _ _ _ _ _ _ _ G1 G2 (roots_disj _ _ Hn2 Hf2)). 
    assert (good is_forked [] [SForkL (nm_sym n); SForkR (nm_sym n)] [SForkL (nm_sym n); nm_sym n]) as Gn.
    { assert (G := good_app is_forked [] _ _ [] _ _ (good_one is_forked (SForkL (nm_sym n)) eq_refl) (good_one is_forked (SForkR (nm_sym n)) eq_refl)). simpl in G.
      rewrite (sroot_unforked _ Hfn) in G. apply G. intros x Hx Hy. apply elem_of_list_singleton in Hx, Hy. rewrite Hx in Hy. by rewrite <- Hy in Hfn. }
    assert (Hg2 := good_app _ _ _ _ _ _ _ Gn Hg). 
    assert (∀ x, x ∈ [SForkL (nm_sym n); nm_sym n] → x ∉ roots (terase l) ++ roots (terase r)) as Hdj.
    { assert (∀ m, m ∈ tnames (terase l) ++ tnames (terase r) → nm_sym n ≠ nm_sym m) as Hne.
      { intros m Hm E. apply Hn1. rewrite E. by apply elem_of_list_fmap_1. }
      intros x Hx Hy. rewrite !elem_of_cons, elem_of_nil in Hx.
      assert (∃ m, m ∈ tnames (terase l) ++ tnames (terase r) ∧ (x = SForkL (nm_sym m) ∨ x = nm_sym m)) as (m & Hm & Hxm).
      { apply elem_of_app in Hy as [Hy|Hy]; apply elem_of_roots in Hy as (m & ? & ?); exists m; rewrite elem_of_app; auto. }
      specialize (Hne m Hm). specialize (Hf2 m Hm). destruct Hx as [-> |[-> |[]]], Hxm as [E|E]; [congruence| | |congruence].
      - rewrite <- E in Hf2. done.
      - rewrite E in Hfn. done. }
    specialize (Hg2 Hdj).
    destruct (good_merge is_forked (Some (name_fork n).1) (amsort le pth l) (Some (name_fork n).2) (amsort le pth r) (A1 ++ A2) ([SForkL (nm_sym n); nm_sym n] ++ roots (terase l) ++ roots (terase r))) as (U & KU & GU).
    { done. }
    { eapply good_perm; [exact Hg2|by rewrite fmap_app| |done]. cbn [option_list]. rewrite !fmap_app.
      change (nm_sym <$> [(name_fork n).1]) with [SForkL (nm_sym n)]. change (nm_sym <$> [(name_fork n).2]) with [SForkR (nm_sym n)].
      change ([SForkL (nm_sym n); SForkR (nm_sym n)]) with ([SForkL (nm_sym n)] ++ [SForkR (nm_sym n)]). solve_Permutation. }
    exists (U ++ A1 ++ A2). split.
    + cbn [fents msort_ents]. rewrite !kinds_cons, !kinds_app, KU, K1, K2, bind_app, bind_cons, !fmap_app. 
      change (?x :: ?y :: ?z) with ([x; y] ++ z). set (N2 := [_; _]). change (fmap _ (name2 n)) with N2. solve_Permutation.
    + cbn [amsort]. eapply good_perm; [exact GU|done|done|]. unfold roots. rewrite tnames_name, bind_app, bind_cons. solve_Permutation.
  - apply IH; done.
Qed.
Lemma msort_ok F0 t : good_names (tnames (terase t)) →
  NoDup (msort_fents pred id_elm bin_op le F0 pth t).*1 ∧ conf "sort" pth (msort_fents pred id_elm bin_op le F0 pth t).
Proof.
  intros Hg. assert (Hsy := good_syms _ Hg). assert (∀ n, n ∈ tnames (terase t) → sym_forked (nm_sym n) = false) as Hf by (intros n Hn; by destruct (good_sym_case _ _ Hg Hn)).
  destruct (msort_kinds F0 t Hsy Hf) as (A & HK & [HA _ _ _ HfA]). split.
  - eapply NoDup_kinds; [exact HK|]. rewrite fmap_app. apply NoDup_app. split_and!.
    + rewrite <- list_fmap_compose. by apply NoDup_name2.
    + intros x Hx Hy. rewrite <- !list_fmap_compose in Hx, Hy. apply elem_of_list_fmap in Hx as (m & -> & Hm). apply elem_of_list_fmap in Hy as (a & E & Ha).
      simpl in E. assert (nm_sym m = SForkL (nm_sym a)) as Em by (by injection E as ->).
      apply elem_of_list_bind in Hm as (n & Hm & Hn). specialize (Hf n Hn). assert (sym_forked (nm_sym a) = true) as Hfa by (apply HfA; apply elem_of_app; left; by apply elem_of_list_fmap_1).
      unfold name2 in Hm. rewrite !elem_of_cons, elem_of_nil in Hm. destruct Hm as [-> |[-> |[]]]; simpl in Em; simplify_eq. congruence.
    + rewrite <- list_fmap_compose. change (NoDup (((λ n, nloc pth n) ∘ (λ n, (name_fork n).1)) <$> A)).
      rewrite list_fmap_compose. apply NoDup_nloc. rewrite <- list_fmap_compose.
      change (NoDup ((SForkL ∘ nm_sym) <$> A)). rewrite list_fmap_compose. apply NoDup_fmap_2; [by intros ?? [=]|done].
  - eapply conf_kinds; [exact HK|]. intros l k [Hx|Hx]%elem_of_app; apply elem_of_list_fmap in Hx as (m & E & Hm); injection E as -> ->.
    + exists m. split; [done|]. apply elem_of_list_bind in Hm as (n & Hm & Hn). specialize (Hf n Hn). unfold name2 in Hm. rewrite !elem_of_cons, elem_of_nil in Hm.
      destruct Hm as [-> |[-> |[]]]; simpl; [|done]. by destruct (nm_sym n).
    + eexists. split; [done|]. assert (sym_forked (nm_sym m) = true) as Hfa by (apply HfA; apply elem_of_app; left; by apply elem_of_list_fmap_1).
      simpl. by destruct (nm_sym m).
Qed.
End Up.
End One.
End CatKinds.
