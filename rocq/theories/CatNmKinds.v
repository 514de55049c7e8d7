(** * What [mergesort_list_of_tree2] and [mergesort_list_of_tree3] allocate. *)
From Verif Require Export CatNm CatKinds.
Local Open Scope string_scope.
Local Open Scope list_scope.

Section CatNmKinds.
Context `{Hashes} `{Hash64 val}.
Context (le : val → val → bool).
Notation nloc pth n := (Loc pth (IdNom n)).
Definition rootsof (ns : list name) : list namesym := (sroot ∘ nm_sym) <$> ns.
Definition noQ : namesym → Prop := λ _, True.
Lemma good_names1 (ns : list name) : (length ns ≤ 1)%nat → good noQ [] (nm_sym <$> ns) (rootsof ns).
Proof. destruct ns as [|n [|m ns]]; simpl; intros Hl; [apply good_nil|by apply good_one|lia]. Qed.
Lemma roots_app_disj ns ns' : NoDup (rootsof (ns ++ ns')) → ∀ x, x ∈ rootsof ns → x ∉ rootsof ns'.
Proof. unfold rootsof. rewrite fmap_app, NoDup_app. tauto. Qed.
Lemma roots_app ns ns' : rootsof (ns ++ ns') = rootsof ns ++ rootsof ns'.
Proof. apply fmap_app. Qed.

Lemma msn_kinds b pth nm t : NoDup (rootsof (lnames b nm t)) →
  ∃ A, kinds (msn_nents le b pth nm t) ≡ₚ
      ((λ n, (nloc pth n, KThunk TyList "tree_fold_up_nm_dn" (VStr (nid b)))) <$> (tnames (terase t) ≫= name2)) ++
      ((λ n, (nloc (mpth pth) (name_fork n).1, KThunk TyList "list_merge" VUnit)) <$> A) ∧
    good noQ (nm_sym <$> A) (nm_sym <$> anames (amsn le b pth nm t)) (rootsof (lnames b nm t)).
Proof.
  unfold msn_nents. revert nm. induction t as [|x|lev l IHl r IHr|n lev l IHl r IHr|a t IH]; intros nm Hn.
  - exists []. split; [done|apply good_nil].
  - exists []. split; [done|]. cbn [amsn lnames]. assert (anames (aname_op nm (ACons x ANil)) = option_list nm) as -> by (by destruct nm). apply good_names1. by destruct nm; simpl; lia.
  - cbn [terase lnames] in *. rewrite tnames_bin. assert (Hd := roots_app_disj _ _ Hn). rewrite roots_app in Hn |- *. apply NoDup_app in Hn as (Hn1 & _ & Hn2).
    destruct (IHl _ Hn1) as (A1 & K1 & G1). destruct (IHr _ Hn2) as (A2 & K2 & G2).
    assert (Hg := good_app _ _ _ _ _ _ _ G1 G2 Hd). rewrite <- !fmap_app in Hg.
    destruct (good_merge (mpth pth) le noQ None (amsn le b pth nm l) None (amsn le b pth None r) (A1 ++ A2) _ (λ _ _, Logic.I) Hg) as (U & KU & GU).
    exists (U ++ A1 ++ A2). split; [|exact GU].
    cbn [nents msn_ents]. rewrite !kinds_app, KU, K1, K2, bind_app, !fmap_app. solve_Permutation.
  - cbn [terase lnames] in *. rewrite tnames_name. 
    assert (lnames b nm l ++ (if b then [n] else []) ++ lnames b (Some n) r = lnames b nm l ++ option_list (mnm b n) ++ lnames b (Some n) r) as El by (unfold mnm; by destruct b).
    rewrite El in Hn |- *.
    assert (Hd := roots_app_disj _ _ Hn). rewrite roots_app in Hn. apply NoDup_app in Hn as (Hn1 & _ & Hn').
    assert (Hd' := roots_app_disj _ _ Hn'). rewrite roots_app in Hn'. apply NoDup_app in Hn' as (_ & _ & Hn2).
    destruct (IHl _ Hn1) as (A1 & K1 & G1). destruct (IHr _ Hn2) as (A2 & K2 & G2).
    assert (good noQ [] (nm_sym <$> option_list (mnm b n)) (rootsof (option_list (mnm b n)))) as Gn by (apply good_names1; unfold mnm; destruct b; simpl; lia).
    assert (Hg := good_app _ _ _ _ _ _ _ G1 (good_app _ _ _ _ _ _ _ Gn G2 Hd') ltac:(rewrite <- roots_app; exact Hd)).
    simpl (_ ++ (nm_sym <$> A2)) in Hg. rewrite <- !fmap_app, <- !roots_app in Hg.
    destruct (good_merge (mpth pth) le noQ None (amsn le b pth nm l) (mnm b n) (amsn le b pth (Some n) r) (A1 ++ A2) _ (λ _ _, Logic.I) Hg) as (U & KU & GU).
    exists (U ++ A1 ++ A2). split; [|exact GU].
    cbn [nents msn_ents]. rewrite !kinds_cons, !kinds_app, KU, K1, K2, bind_app, bind_cons, !fmap_app.
    change (?x :: ?y :: ?z) with ([x; y] ++ z). set (N2 := [_; _]). change (fmap _ (name2 n)) with N2. solve_Permutation.
  - apply IH; done.
Qed.
Lemma mpth_ne pth : mpth pth ≠ pth.
Proof. intros E. apply (f_equal length) in E. simpl in E. lia. Qed.
Lemma msn_ok b pth nm t : good_names (tnames (terase t)) → good_names (lnames b nm t) →
  NoDup (msn_nents le b pth nm t).*1 ∧
  (∀ l k, (l, k) ∈ kinds (msn_nents le b pth nm t) → (∃ n, l = nloc pth n ∧ k = KThunk TyList "tree_fold_up_nm_dn" (VStr (nid b))) ∨
                                               (∃ n, l = nloc (mpth pth) n ∧ k = KThunk TyList "list_merge" VUnit)).
Proof.
  intros Hg Hl. assert (NoDup (rootsof (lnames b nm t))) as Hr.
  { unfold rootsof. assert (rootsof (lnames b nm t) = nm_sym <$> lnames b nm t) as E; [|unfold rootsof in E; rewrite E; by apply good_syms].
    unfold rootsof. apply list_fmap_ext. intros i n Hn. simpl. apply sroot_unforked. apply elem_of_list_lookup_2 in Hn. by destruct (good_sym_case _ _ Hl Hn). }
  destruct (msn_kinds b pth nm t Hr) as (A & HK & [HA _ _ _ _]). split.
  - eapply NoDup_kinds; [exact HK|]. rewrite fmap_app. apply NoDup_app. split_and!.
    + rewrite <- list_fmap_compose. by apply NoDup_name2.
    + intros x Hx Hy. rewrite <- !list_fmap_compose in Hx, Hy. apply elem_of_list_fmap in Hx as (m & -> & Hm). apply elem_of_list_fmap in Hy as (a & E & Ha).
      apply (f_equal l_path) in E. symmetry in E. by apply mpth_ne in E.
    + rewrite <- list_fmap_compose. change (NoDup (((λ n, nloc (mpth pth) n) ∘ (λ n, (name_fork n).1)) <$> A)).
      rewrite list_fmap_compose. apply NoDup_nloc. rewrite <- list_fmap_compose.
      change (NoDup ((SForkL ∘ nm_sym) <$> A)). rewrite list_fmap_compose. apply NoDup_fmap_2; [by intros ?? [=]|done].
  - intros l k Hx. rewrite HK in Hx. apply elem_of_app in Hx as [Hx|Hx]; apply elem_of_list_fmap in Hx as (m & E & Hm); injection E as -> ->; eauto.
Qed.
End CatNmKinds.
