(** * C49, C50: editing sessions over the catalog return the right answers. *)
From Verif Require Export CatSpec.
Local Open Scope string_scope.
Local Open Scope list_scope.

Section Sessions.
Context `{Hashes} `{Hash64 val}.
Context (body : val → val) (pred : val → bool) (id_elm : val) (bin_op : val → val → val) (le : val → val → bool).
Context (hv : val → N) (ha : progpt → val → N).
Notation PF F := (cat body pred id_elm bin_op le F hv ha).
Notation nloc pth n := (Loc pth (IdNom n)).

(** Entries of one stage: in its namespaces, and of the right kind. *)
Definition sconf (k : nat) (e : list (loc * content)) : Prop :=
  ∀ l kd, (l, kd) ∈ kinds e → ∃ k' st sub n, (k ≤ k')%nat ∧ l = nloc (sub ++ [stage_ns k' st]) n ∧ kd = skp sub st (nm_sym n).
Definition sconf1 (k : nat) (sts : list string) (e : list (loc * content)) : Prop :=
  ∀ l kd, (l, kd) ∈ kinds e → ∃ st sub n, st ∈ sts ∧ l = nloc (sub ++ [stage_ns k st]) n ∧ kd = skp sub st (nm_sym n).
Lemma conf_sconf1 k st e : conf st [stage_ns k st] e → sconf1 k [st] e.
Proof. intros He l kd Hx. destruct (He l kd Hx) as (n & -> & ->). exists st, [], n. split_and!; [by left|done|done]. Qed.
Lemma sconf1_app k sts sts' e e' : sconf1 k sts e → sconf1 k sts' e' → sconf1 k (sts ++ sts') (e ++ e').
Proof.
  intros He He' l kd. rewrite kinds_app, elem_of_app. intros [Hx|Hx]; [destruct (He _ _ Hx) as (st & sub & n & Hs & -> & ->)|destruct (He' _ _ Hx) as (st & sub & n & Hs & -> & ->)];
    exists st, sub, n; rewrite elem_of_app; auto.
Qed.
Lemma sconf1_nil k : sconf1 k [] [].
Proof. by intros ?? ?%elem_of_nil. Qed.
Lemma stage_ns_inj k k' st st' : stage_ns k st = stage_ns k' st' → k = k' ∧ st = st'.
Proof. intros E. injection E as _ E1 E2. split; [lia|done]. Qed.
Lemma sconf1_loc k sts e l : sconf1 k sts e → l ∈ e.*1 → ∃ st, st ∈ sts ∧ last (l_path l) = Some (stage_ns k st).
Proof.
  intros He. rewrite kinds_locs. intros ((l' & kd) & -> & Hx)%elem_of_list_fmap. destruct (He _ _ Hx) as (st & sub & n & Hs & -> & _).
  exists st. split; [done|]. cbn [fst l_path]. by rewrite last_snoc.
Qed.
Lemma NoDup_two k sts sts' e e' : sconf1 k sts e → sconf1 k sts' e' → (∀ st, st ∈ sts → st ∉ sts') → NoDup e.*1 → NoDup e'.*1 → NoDup (e ++ e').*1.
Proof.
  intros He He' Hne Hn Hn'. rewrite fmap_app. apply NoDup_app. split_and!; [done| |done]. intros x Hx Hx'.
  destruct (sconf1_loc _ _ _ _ He Hx) as (st & Hs & E). destruct (sconf1_loc _ _ _ _ He' Hx') as (st' & Hs' & E'). rewrite E in E'. injection E' as E'. 
  assert (stage_ns k st = stage_ns k st') as [_ ->]%stage_ns_inj by (unfold stage_ns; congruence). by apply (Hne st').
Qed.
Lemma fresh_none e : fresh None e.
Proof. by intros l [=]. Qed.
Lemma in_dir_inv {A} d (l : list A) : in_dir d (in_dir d l) = l.
Proof. destruct d; [done|]. apply reverse_involutive. Qed.
Lemma names_of_reverse {X} (ts : list (name_else X)) : names_of (reverse ts) ≡ₚ names_of ts.
Proof. induction ts as [|t ts IH]; [done|]. rewrite reverse_cons, names_of_app, IH. destruct t; simpl; [by rewrite <- Permutation_cons_append|by rewrite app_nil_r]. Qed.
Lemma names_in_dir {X} d (ts : list (name_else X)) : names_of (in_dir d ts) ≡ₚ names_of ts.
Proof. destruct d; [done|apply names_of_reverse]. Qed.
Lemma good_names_perm ns ns' : ns ≡ₚ ns' → good_names ns → good_names ns'.
Proof. intros Hp Hg. eapply good_names_sub; [exact Hg|]. by rewrite Hp. Qed.

(** [tree_of_list] in its namespace. *)
Lemma tree_total k d l : good_names (names (erase l)) → ∃ t e B,
  in_dir d (tseq (terase t)) = toks (erase l) ∧ level_order lev_max_val (terase t) ∧ canonical d (terase t) ∧ good_names (tnames (terase t)) ∧ (d = DLeft → nmfree t ∧ lnil t) ∧
  NoDup e.*1 ∧ conf "tree" [stage_ns k "tree"] e ∧
  ∀ F I E, (B ≤ F)%nat → @linked (PF F) I E l → laid I e →
    @wp (PF F) I None [] E (in_ns k "tree" (c_tree_of_list F d (enc l))) (λ v E', v = tenc t ∧ @tlinked (PF F) I E' t).
Proof.
  intros Hg. destruct (atol_total [stage_ns k "tree"] d l (S (asize l)) ltac:(lia)) as (t & l' & e & Ha & Hem & Hb).
  destruct (C38_tree_of_list d (erase l) (S (asize l))) as (t' & Hb' & Hs & Hl); [rewrite asize_erase; lia|]. assert (Hcan := C38_canonical _ _ _ _ Hb'). rewrite Hb in Hb'. injection Hb' as <-.
  destruct (atol_kinds [stage_ns k "tree"] _ _ _ _ _ _ _ _ _ Ha) as (D & HD & HK).
  assert (good_names D) as HgD by (eapply good_names_sub; [exact Hg|]; rewrite HD; by apply submseteq_inserts_r).
  assert (NoDup e.*1) as Hnd.
  { destruct (atol_locs _ _ _ _ _ _ _ _ _ _ Ha) as (D' & HD' & HL). rewrite HD in HD'. apply app_inv_tail in HD' as <-. rewrite HL. by apply NoDup_name3. }
  exists t, e, (S (asize l)). split_and!; [done|done|exact Hcan| | |done| |].
  - eapply good_names_perm; [|exact Hg]. unfold names, tnames. rewrite <- Hs. by rewrite names_in_dir.
  - intros ->. destruct (atol_left _ _ _ _ _ _ _ _ _ Ha) as [Hf Hln]; [done|]. split; [done|by apply Hln].
  - eapply conf_kinds; [exact HK|]. intros x kd (n & Hx & Hn)%elem_of_list_bind. destruct (good_sym_case _ _ HgD Hn) as [Hf _].
    rewrite !elem_of_cons, elem_of_nil in Hx. destruct Hx as [[= -> ->]|[[= -> ->]|[[= -> ->]|[]]]]; eexists; (split; [done|]); simpl; by rewrite ?Hf.
  - intros F I E HF Hlk Hla. apply wp_ns. eapply wp_conseq; [eapply (wp_tree_of_list body pred id_elm bin_op le F hv ha I); [exact Ha|done|done|done|done|apply fresh_none|lia|lia]|].
    intros v E' _ [-> Ht]. by apply wp_ret.
Qed.

Lemma conf_self st pth (e : list (loc * content)) ns K : kinds e = (λ n, (nloc pth n, K)) <$> ns → (∀ s, sk st s = K) → conf st pth e.
Proof. intros He HK. eapply conf_names; [exact He|]. intros n _. by rewrite HK. Qed.
Lemma NoDup_same pth (e : list (loc * content)) ns K : kinds e = (λ n, (nloc pth n, K)) <$> ns → good_names ns → NoDup e.*1.
Proof. intros He Hg. rewrite kinds_locs, He, <- list_fmap_compose. by apply NoDup_self. Qed.
Lemma names_tok_map (ts : list (name_else val)) : names_of (tok_map body <$> ts) = names_of ts.
Proof. induction ts as [|[] ts IH]; simpl; [done|by f_equal|done]. Qed.
Lemma names_tok_keep (ts : list (name_else val)) : names_of (filter (tok_keep pred) ts) = names_of ts.
Proof.
  induction ts as [|[n|x] ts IH]; [done| |].
  - rewrite filter_cons_True by done. simpl. by f_equal.
  - rewrite filter_cons. destruct (decide _); [exact IH|exact IH].
Qed.
Lemma good_nil_names : good_names [].
Proof. split_and!; constructor. Qed.

Lemma seq_total k st id keep drop dir t : sk st = (λ s, if sym_forked s then KThunk TyList "tree_fold_seq" (VStr id) else KCell TyList) →
  good_names (tnames (terase t)) → NoDup (aseq id [stage_ns k st] keep drop dir t ANil).2.*1 ∧ conf st [stage_ns k st] (aseq id [stage_ns k st] keep drop dir t ANil).2.
Proof.
  intros Hst Hg. assert (Hk := aseq_kinds [stage_ns k st] id keep drop dir t ANil). split.
  - assert (Hs := aseq_locs id [stage_ns k st] keep drop dir t ANil). apply submseteq_Permutation in Hs as [r Hr].
    assert (Hn := NoDup_name3 [stage_ns k st] _ Hg). rewrite Hr, NoDup_app in Hn. apply Hn.
  - intros l kd Hx. eapply elem_of_submseteq in Hx; [|exact Hk]. apply elem_of_list_bind in Hx as (n & Hx & Hn). destruct (good_sym_case _ _ Hg Hn) as [Hf _].
    rewrite !elem_of_cons, elem_of_nil in Hx. destruct Hx as [[= -> ->]|[[= -> ->]|[[= -> ->]|[]]]]; eexists; (split; [done|]); rewrite Hst; simpl; by rewrite ?Hf.
Qed.

(** The editor's cells are in the layout and have been set. *)
Definition roots_in (cells : gmap name val) (I : store) (E : gset loc) : Prop :=
  ∀ n w, cells !! n = Some w → I !! root_cell n = Some (CCell TyList w) ∧ root_cell n ∈ E.
Lemma roots_mono cells I E E' : roots_in cells I E → E ⊆ E' → roots_in cells I E'.
Proof. intros Hr HE n w Hn. destruct (Hr n w Hn). split; [done|by apply HE]. Qed.
Lemma denotes_alst cells v L : denotes cells v L → ∃ l, enc l = v ∧ erase l = L ∧
  ∀ F I E, roots_in cells I E → @linked (PF F) I E l.
Proof.
  induction 1 as [|x tl L HL (l & <- & <- & IH)|n tl L HL (l & <- & <- & IH)|n v L Hn HL (l & <- & <- & IH)].
  - by exists ANil.
  - by exists (ACons x l).
  - by exists (AName n l).
  - exists (AArt (root_cell n) l). split_and!; [done|done|]. intros F I E HI. destruct (HI _ _ Hn) as [Hi Hin]. split; [done|]. left. split; [done|]. by apply IH.
Qed.

Local Ltac sts := intros st Hst; rewrite ?elem_of_app, ?elem_of_cons, ?elem_of_nil in *; naive_solver.
Fixpoint ft_bound (pth : path) (t : atree) : nat :=
  match t with
  | BBin _ l r | BName _ _ l r => S (theight (aft pred pth l) + theight (aft pred pth r)) `max` (ft_bound pth l `max` ft_bound pth r)
  | BArt _ t => ft_bound pth t
  | _ => 0
  end.
Lemma ft_tall pth F t : (ft_bound pth t ≤ F)%nat → tall (λ t, ft_size pred pth t < F)%nat t.
Proof. induction t as [|x|lev l IHl r IHr|n lev l IHl r IHr|a t IH]; cbn [ft_bound tall ft_size]; intros Hle; [done|done| | |auto]; (split_and!; [lia|apply IHl; lia|apply IHr; lia]). Qed.
Lemma ft_fents_F pth F F' t : ft_fents pred id_elm bin_op le F pth t = ft_fents pred id_elm bin_op le F' pth t.
Proof.
  unfold ft_fents. induction t as [|x|lev l IHl r IHr|n lev l IHl r IHr|a t IH]; cbn [fents]; [done|done| | |done].
  - by rewrite IHl, IHr.
  - unfold up_thunk. by rewrite IHl, IHr.
Qed.
Lemma stage_total cells s k l : stage_ok cells s → good_names (names (erase l)) → ∃ r e B sts,
  sem body pred cells s (toks (erase l)) (toks (erase r)) ∧ good_names (names (erase r)) ∧ NoDup e.*1 ∧ sconf1 k sts e ∧
  ∀ F I E, (B ≤ F)%nat → roots_in cells I E → @linked (PF F) I E l → laid I e →
    @wp (PF F) I None [] E (c_stage body pred F k s (enc l)) (λ v E', v = enc r ∧ @linked (PF F) I E' r).
Proof.
  intros Hok Hg. destruct s as [| | | | |d d'|d|d d'|w|w].
  - set (pth := [stage_ns k "map"]). assert (Hk := amap_kinds body pth l). exists (amap body pth l).1, (amap body pth l).2, (S (asize l)), ["map"].
    assert (NoDup (amap body pth l).2.*1) as Hnd by (by eapply NoDup_same).
    rewrite amap_erase. split_and!; [apply C37_map_eager|unfold names; by rewrite C37_map_eager, names_tok_map|done|by eapply conf_sconf1, conf_self|].
    intros F I E HF Hro Hlk Hla. apply wp_ns. eapply wp_conseq; [apply (wp_map body pred id_elm bin_op le F hv ha I); [done|done|done|apply fresh_none|lia|lia]|].
    intros v E' _ [-> Ht]. by apply wp_ret.
  - set (pth := [stage_ns k "mapl"]). assert (Hk := amapl_kinds body pth l). exists (amapl body pth l).1, (amapl body pth l).2, (S (asize l)), ["mapl"].
    assert (NoDup (amapl body pth l).2.*1) as Hnd by (by eapply NoDup_same).
    rewrite amapl_erase. split_and!; [apply C37_map_lazy|unfold names; rewrite C37_map_lazy, names_of_else; apply good_nil_names|done|by eapply conf_sconf1, conf_self|].
    intros F I E HF Hro Hlk Hla. apply wp_ns. eapply wp_conseq; [apply (wp_mapl body pred id_elm bin_op le F hv ha I); [done|done|done|apply fresh_none|lia|lia]|].
    intros v E' _ [-> Ht]. by apply wp_ret.
  - set (pth := [stage_ns k "filter"]). assert (Hk := afilter_kinds pred pth l). exists (afilter pred pth l).1, (afilter pred pth l).2, (S (asize l)), ["filter"].
    assert (NoDup (afilter pred pth l).2.*1) as Hnd by (by eapply NoDup_same).
    rewrite afilter_erase. split_and!; [apply C37_filter_eager|unfold names; by rewrite C37_filter_eager, names_tok_keep|done|by eapply conf_sconf1, conf_self|].
    intros F I E HF Hro Hlk Hla. apply wp_ns. eapply wp_conseq; [apply (wp_filter body pred id_elm bin_op le F hv ha I); [done|done|done|apply fresh_none|lia|lia]|].
    intros v E' _ [-> Ht]. by apply wp_ret.
  - set (pth := [stage_ns k "filterl"]). assert (Hk := afilterl_kinds pred pth l). exists (afilterl pred pth l).1, (afilterl pred pth l).2, (S (asize l)), ["filterl"].
    assert (NoDup (afilterl pred pth l).2.*1) as Hnd by (by eapply NoDup_same).
    rewrite afilterl_erase. split_and!; [apply C37_filter_lazy|unfold names; rewrite C37_filter_lazy, names_of_else; apply good_nil_names|done|by eapply conf_sconf1, conf_self|].
    intros F I E HF Hro Hlk Hla. apply wp_ns. eapply wp_conseq; [apply (wp_filterl body pred id_elm bin_op le F hv ha I); [done|done|done|apply fresh_none|lia|lia]|].
    intros v E' _ [-> Ht]. by apply wp_ret.
  - set (pth := [stage_ns k "rev"]). assert (Hk := arev_kinds pth l ANil). exists (arev pth l ANil).1, (arev pth l ANil).2, (S (asize l)), ["rev"].
    assert (NoDup (arev pth l ANil).2.*1) as Hnd.
    { rewrite kinds_locs, Hk. assert (Hn := NoDup_rv pth _ Hg). revert Hn. clear. intros Hn. assert (∀ ns, ((ns ≫= λ n, [(nloc pth (rev_name n), KCell TyList); (nloc pth n, KThunk TyList "list_reverse" VUnit)]).*1) = (λ n, nloc pth n) <$> (ns ≫= name_rv)) as Hns.
      { induction ns as [|n ns IH]; [done|]. rewrite !bind_cons, !fmap_app, IH. done. }
      by rewrite Hns. }
    rewrite arev_erase. cbn [erase]. split_and!; [simpl; rewrite C37_reverse; simpl; by rewrite app_nil_r| |done| |].
    + unfold names. rewrite C37_reverse. rewrite !names_of_app, names_of_names, names_of_else. simpl. by rewrite app_nil_r.
    + eapply (conf_sconf1 k "rev"). eapply conf_kinds; [by rewrite Hk|]. intros x kd (n & Hx & Hn)%elem_of_list_bind. destruct (good_sym_case _ _ Hg Hn) as [_ Hf].
      rewrite !elem_of_cons, elem_of_nil in Hx. destruct Hx as [[= -> ->]|[[= -> ->]|[]]]; eexists; (split; [done|]); cbn [sk]; by rewrite ?Hf.
    + intros F I E HF Hro Hlk Hla. apply wp_ns. eapply wp_conseq; [apply (wp_rev body pred id_elm bin_op le F hv ha I pth F None E l ANil); [done|done|done|done|apply fresh_none|lia|lia]|].
      intros v E' _ [-> Ht]. by apply wp_ret.
  - destruct (tree_total k d l Hg) as (t & e & B & Hs & _ & _ & Hgt & Hlf & Hnd & Hc & Hwp).
    set (pth := [stage_ns k "list"]). destruct (alist_of pth d' t) as [r e'] eqn:Hr.
    destruct (seq_total k "list" "list_of_tree" (λ _, true) (λ _, false) (invert d') t) as [Hnd' Hc']; [done|done|].
    change (aseq "list_of_tree" [stage_ns k "list"] (λ _, true) (λ _, false) (invert d') t ANil) with (alist_of pth d' t) in Hnd', Hc'. rewrite Hr in Hnd', Hc'. cbn [snd] in Hnd', Hc'.
    assert (erase r = list_of_tree (terase t) d') as He by (rewrite <- (alist_of_erase pth), Hr; done).
    assert (toks (erase r) = in_dir d' (in_dir d (toks (erase l)))) as Ht by (rewrite He, C38_list_of_tree, <- Hs; by rewrite in_dir_inv).
    exists r, (e ++ e'), (B `max` S (theight t) `max` S (asize r))%nat, (["tree"] ++ ["list"]). apply conf_sconf1 in Hc, Hc'. split_and!; [exact Ht| |eapply NoDup_two; [exact Hc|exact Hc'|sts|done|done]|by apply sconf1_app|].
    + eapply good_names_perm; [|exact Hg]. unfold names. by rewrite Ht, !names_in_dir.
    + intros F I E HF Hro Hlk Hla. apply laid_app in Hla as [L1 L2]. apply wp_bind. eapply wp_conseq; [apply Hwp; [lia|done|done]|]. intros v E1 HE1 [-> Hlt]. cbv beta.
      apply wp_ns. eapply wp_conseq; [eapply (wp_list_of_tree body pred id_elm bin_op le F hv ha I pth); [exact Hr|done|done|done|apply fresh_none|lia|lia|lia]|].
      intros v E2 _ [-> Hlr]. by apply wp_ret.
  - destruct (tree_total k d l Hg) as (t & e & B & Hs & _ & _ & Hgt & Hlf & Hnd & Hc & Hwp).
    set (pth := [stage_ns k "flist"]). destruct (afilter_list pred pth t) as [r e'] eqn:Hr.
    destruct (seq_total k "flist" "filter_list" pred (λ l, is_name (erase l)) DRight t) as [Hnd' Hc']; [done|done|].
    change (aseq "filter_list" [stage_ns k "flist"] pred (λ l, is_name (erase l)) DRight t ANil) with (afilter_list pred pth t) in Hnd', Hc'. rewrite Hr in Hnd', Hc'. cbn [snd] in Hnd', Hc'.
    assert (erase r = filter_list_of_tree (terase t) pred) as He by (rewrite <- (afilter_list_erase pred pth), Hr; done).
    destruct (C38_filter_list (terase t) pred) as (ns & Ht & Hns). rewrite <- He in Ht. unfold telems, tnames in Ht, Hns.
    assert (tseq (terase t) = in_dir d (toks (erase l))) as Hq by (rewrite <- Hs; by rewrite in_dir_inv). rewrite Hq in Ht, Hns.
    exists r, (e ++ e'), (B `max` S (theight t) `max` S (asize r))%nat, (["tree"] ++ ["flist"]). apply conf_sconf1 in Hc, Hc'. split_and!; [by exists ns| |eapply NoDup_two; [exact Hc|exact Hc'|sts|done|done]|by apply sconf1_app|].
    + unfold names. rewrite Ht, names_of_app, names_of_else, names_of_names. simpl. eapply good_names_sub; [exact Hg|]. unfold names. rewrite <- (names_in_dir d). by apply sublist_submseteq.
    + intros F I E HF Hro Hlk Hla. apply laid_app in Hla as [L1 L2]. apply wp_bind. eapply wp_conseq; [apply Hwp; [lia|done|done]|]. intros v E1 HE1 [-> Hlt]. cbv beta.
      apply wp_ns. eapply wp_conseq; [eapply (wp_filter_list body pred id_elm bin_op le F hv ha I pth); [exact Hr|done|done|done|apply fresh_none|lia|lia|lia]|].
      intros v E2 _ [-> Hlr]. by apply wp_ret.
  - destruct (tree_total k d l Hg) as (t & e & B & Hs & _ & _ & Hgt & Hlf & Hnd & Hc & Hwp).
    set (pf := [stage_ns k "ftree"]). set (t2 := aft pred pf t). destruct (ft_ok pred id_elm bin_op le 0 pf t Hgt) as [Hnd2 Hc2]. set (e2 := ft_fents pred id_elm bin_op le 0 pf t) in *.
    assert (terase t2 = filter_tree_of_tree (terase t) pred) as Ht2 by apply aft_erase.
    destruct (C38_filter_tree (terase t) pred) as (_ & He2 & Hn2). rewrite <- Ht2 in He2, Hn2.
    assert (good_names (tnames (terase t2))) as Hgt2 by (eapply good_names_sub; [exact Hgt|by apply sublist_submseteq]).
    set (pth := [stage_ns k "list"]). destruct (alist_of pth d' t2) as [r e'] eqn:Hr.
    destruct (seq_total k "list" "list_of_tree" (λ _, true) (λ _, false) (invert d') t2) as [Hnd' Hc']; [done|done|].
    change (aseq "list_of_tree" [stage_ns k "list"] (λ _, true) (λ _, false) (invert d') t2 ANil) with (alist_of pth d' t2) in Hnd', Hc'. rewrite Hr in Hnd', Hc'. cbn [snd] in Hnd', Hc'.
    assert (erase r = list_of_tree (terase t2) d') as He by (rewrite <- (alist_of_erase pth), Hr; done).
    assert (tseq (terase t) = in_dir d (toks (erase l))) as Hq by (rewrite <- Hs; by rewrite in_dir_inv).
    apply conf_sconf1 in Hc, Hc'.
    assert (sconf1 k ["ftree"] e2) as Hs2.
    { intros x kd Hx. destruct (Hc2 _ _ Hx) as [(n & -> & ->)|(n & -> & ->)]; [exists "ftree", [], n|exists "ftree", [name_unit], n]; (split_and!; [by left|done|done]). }
    assert (sconf1 k (["ftree"] ++ ["list"]) (e2 ++ e')) as Hs3 by (by apply sconf1_app).
    exists r, (e ++ e2 ++ e'), (B `max` S (theight t) `max` ft_bound pf t `max` S (theight t2) `max` S (asize r))%nat, (["tree"] ++ ["ftree"] ++ ["list"]). split_and!.
    + exists (tseq (terase t2)). rewrite He, C38_list_of_tree, <- Hq. split_and!; [done|rewrite Ht2; apply filter_tree_sublist|exact He2].
    + eapply good_names_perm; [|exact Hgt2]. unfold names, tnames. by rewrite He, C38_list_of_tree, names_in_dir.
    + eapply NoDup_two; [exact Hc|exact Hs3|sts|done|]. eapply NoDup_two; [exact Hs2|exact Hc'|sts|done|done].
    + by apply sconf1_app.
    + intros F I E HF Hro Hlk Hla. rewrite !laid_app in Hla. destruct Hla as (L1 & L2 & L3). apply wp_bind. eapply wp_conseq; [apply Hwp; [lia|done|done]|]. intros v E1 HE1 [-> Hlt]. cbv beta.
      subst e2. rewrite (ft_fents_F pf 0 F) in L2, Hnd2.
      apply wp_bind, wp_ns. eapply wp_conseq; [apply (wp_filter_tree body pred id_elm bin_op le F hv ha I pf); [apply ft_tall; lia|done|done|done|apply fresh_none|lia]|].
      intros v E2 _ [-> Hlt2]. apply wp_ret. cbv beta.
      apply wp_ns. eapply wp_conseq; [eapply (wp_list_of_tree body pred id_elm bin_op le F hv ha I pth F None E2 d' t2 r e'); [exact Hr|done|done|done|apply fresh_none|lia|lia|lia]|].
      intros v E3 _ [-> Hlr]. by apply wp_ret.
  - destruct Hok as (L & HL & HgL). destruct (denotes_alst _ _ _ HL) as (l2 & <- & <- & Hlk2).
    exists (aappend l l2), [], (S (asize l)), []. rewrite aappend_erase. split_and!; [|unfold names; by rewrite C37_append, names_of_app, names_of_else|constructor|apply sconf1_nil|].
    + exists (erase l2). split; [done|apply C37_append].
    + intros F I E HF Hro Hlk _. apply (wp_append body pred id_elm bin_op le F hv ha I); [done|by apply Hlk2|lia].
  - destruct Hok as (L & HL). destruct (denotes_alst _ _ _ HL) as (l1 & <- & <- & Hlk1).
    exists (aappend l1 l), [], (S (asize l1)), []. rewrite aappend_erase. split_and!; [|unfold names; by rewrite C37_append, names_of_app, names_of_else|constructor|apply sconf1_nil|].
    + exists (erase l1). split; [done|apply C37_append].
    + intros F I E HF Hro Hlk _. apply (wp_append body pred id_elm bin_op le F hv ha I); [by apply Hlk1|done|lia].
Qed.

Lemma fents_NoDup k st id F t : sk st = (λ _, KThunk (o_ty (ops_of pred id_elm bin_op le F id)) "tree_fold_up" (VStr id)) → good_names (tnames (terase t)) →
  let e := fents pred id_elm bin_op le F id [stage_ns k st] no_ents t in NoDup e.*1 ∧ conf st [stage_ns k st] e.
Proof.
  intros Hst Hg e. assert (Hk := fents_kinds [stage_ns k st] pred id_elm bin_op le F id t). fold e in Hk. split.
  - eapply NoDup_kinds; [exact Hk|]. rewrite <- list_fmap_compose. by apply NoDup_name2.
  - eapply conf_kinds; [exact Hk|]. intros l kd (n & E & Hn)%elem_of_list_fmap. injection E as -> ->. exists n. split; [done|]. by rewrite Hst.
Qed.
Lemma fents_F id pth F F' t : o_ty (ops_of pred id_elm bin_op le F id) = o_ty (ops_of pred id_elm bin_op le F' id) →
  fents pred id_elm bin_op le F id pth no_ents t = fents pred id_elm bin_op le F' id pth no_ents t.
Proof.
  intros Ho. induction t as [|x|lev l IHl r IHr|n lev l IHl r IHr|a t IH]; cbn [fents]; [done|done| | |done].
  - by rewrite IHl, IHr.
  - unfold up_thunk. by rewrite IHl, IHr, Ho.
Qed.
Lemma msort_fents_F pth F F' t : msort_fents pred id_elm bin_op le F pth t = msort_fents pred id_elm bin_op le F' pth t.
Proof.
  unfold msort_fents. induction t as [|x|lev l IHl r IHr|n lev l IHl r IHr|a t IH]; cbn [fents]; [done|done| | |done].
  - by rewrite IHl, IHr.
  - unfold up_thunk. by rewrite IHl, IHr.
Qed.
Fixpoint msort_bound (pth : path) (t : atree) : nat :=
  match t with
  | BBin _ l r | BName _ _ l r => S (asize (amsort le pth l) + asize (amsort le pth r)) `max` (msort_bound pth l `max` msort_bound pth r)
  | BArt _ t => msort_bound pth t
  | _ => 0
  end.
Lemma msort_tall pth F t : (msort_bound pth t ≤ F)%nat → tall (λ t, msort_size le pth t < F)%nat t.
Proof. induction t as [|x|lev l IHl r IHr|n lev l IHl r IHr|a t IH]; cbn [msort_bound tall msort_size]; intros Hle; [done|done| | |auto]; (split_and!; [lia|apply IHl; lia|apply IHr; lia]). Qed.
Lemma tenc_aeager t : tenc (aeager t) = v_tree (terase (aeager t)).
Proof. induction t as [|x|lev l IHl r IHr|n lev l IHl r IHr|a t IH]; cbn [aeager tenc terase v_tree]; by rewrite ?IHl, ?IHr. Qed.
Lemma is_empty_elems (l : lst val) : is_empty l = bool_decide (elems l = []).
Proof. destruct (is_empty l) eqn:E; symmetry; [apply bool_decide_eq_true_2; by apply C37_is_empty|]. apply bool_decide_eq_false_2. intros E'. apply C37_is_empty in E'. congruence. Qed.

Lemma Forall_in_dir (D : val → Prop) d ts : Forall D (elems_of ts) → Forall D (elems_of (in_dir d ts)).
Proof.
  intros HD. destruct d; [done|]. simpl. apply Forall_forall. intros x Hx. rewrite Forall_forall in HD. apply HD.
  unfold elems_of in *. apply elem_of_list_omap in Hx as (t & Ht & E). apply elem_of_list_omap. exists t. split; [|done]. by apply elem_of_reverse.
Qed.
Fixpoint msn_bound (b : bool) (pth : path) (nm : option name) (t : atree) : nat :=
  match t with
  | BBin _ l r => S (asize (amsn le b pth nm l) + asize (amsn le b pth None r)) `max` (msn_bound b pth nm l `max` msn_bound b pth None r)
  | BName n _ l r => S (asize (amsn le b pth nm l) + asize (amsn le b pth (Some n) r)) `max` (msn_bound b pth nm l `max` msn_bound b pth (Some n) r)
  | BArt _ t => msn_bound b pth nm t
  | _ => 0
  end.
Lemma msn_nall b pth F nm t : (msn_bound b pth nm t ≤ F)%nat → nall (λ nm t, msn_size le b pth nm t < F)%nat nm t.
Proof. revert nm. induction t as [|x|lev l IHl r IHr|n lev l IHl r IHr|a t IH]; intros nm; cbn [msn_bound nall msn_size]; intros Hle; [done|done| | |auto]; (split_and!; [lia|apply IHl; lia|apply IHr; lia]). Qed.
(** The two sorts that pass names down the tree. *)
Lemma sortn_total (b : bool) st k d nm l : st = (if b then "sort2" else "sort3") → good_names (names (erase l)) →
  (b = true ∧ d = DLeft) ∨ (b = false ∧ good_names (option_list nm ++ names (erase l))) → ∃ r e B,
  sorting le (elems_of (in_dir d (toks (erase l)))) (elems_of (toks (erase r))) ∧ NoDup e.*1 ∧ sconf1 k ["tree"; st] e ∧
  ∀ F I E g Φ, (B ≤ F)%nat → @linked (PF F) I E l → laid I e → (∀ E', @linked (PF F) I E' r → @wp (PF F) I None [] E' (g (enc r)) Φ) →
    @wp (PF F) I None [] E (cbind (in_ns k "tree" (c_tree_of_list F d (enc l))) (λ t, cbind (in_ns k st (c_sortn le b F t nm)) g)) Φ.
Proof.
  intros Hst Hg Hor. destruct (tree_total k d l Hg) as (t & e & B & Hs & _ & _ & Hgt & Hlf & Hnd & Hc & Hwp).
  assert (tseq (terase t) = in_dir d (toks (erase l))) as Hq by (rewrite <- Hs; by rewrite in_dir_inv).
  assert (good_names (lnames b nm t)) as Hgl.
  { destruct Hor as [[-> ->]|[-> Hgn]].
    - destruct Hlf as [Hf Hln]; [done|]. by rewrite lnames2 by auto.
    - eapply good_names_sub; [exact Hgn|]. etrans; [apply lnames3|]. apply submseteq_app; [done|]. unfold tnames, names. rewrite Hq, names_in_dir. done. }
  set (pth := [stage_ns k st]). destruct (msn_ok le b pth nm t Hgt Hgl) as [Hnd' Hc']. set (r := amsn le b pth nm t).
  assert (sconf1 k [st] (msn_nents le b pth nm t)) as Hs2.
  { intros x kd Hx. destruct (Hc' _ _ Hx) as [(n & -> & ->)|(n & -> & ->)]; [exists st, [], n|exists st, [name_of_string "merge"], n]; (split_and!; [by left|done|]); rewrite Hst; by destruct b. }
  apply conf_sconf1 in Hc.
  exists r, (e ++ msn_nents le b pth nm t), (B `max` S (theight t) `max` msn_bound b pth nm t)%nat. split_and!.
  - subst r. rewrite amsn_erase. assert (sorts le (if b then mergesort_list_of_tree2 le (terase t) nm else mergesort_list_of_tree3 le (terase t) nm) (terase t)) as Hso by (destruct b; [apply C37_mergesort2|apply C37_mergesort3]).
    unfold sorts, telems, elems in Hso. rewrite Hq in Hso. exact Hso.
  - eapply NoDup_two; [exact Hc|exact Hs2| |done|done]. intros st' ->%elem_of_list_singleton. rewrite Hst. destruct b; by intros [=]%elem_of_list_singleton.
  - exact (sconf1_app _ ["tree"] [st] _ _ Hc Hs2).
  - intros F I E g Φ HF Hlk Hla Hk. apply laid_app in Hla as [L1 L2]. apply wp_bind. eapply wp_conseq; [apply Hwp; [lia|done|done]|]. intros v E1 HE1 [-> Hlt]. cbv beta.
    apply wp_bind, wp_ns. eapply wp_conseq; [apply (wp_sortn body pred id_elm bin_op le F hv ha I b pth); [apply msn_nall; lia|done|done|done|apply fresh_none|lia]|].
    intros v E2 _ [-> Hlr]. apply wp_ret. by apply Hk.
Qed.
Lemma final_total f k l : good_names (names (erase l)) → final_ok f (toks (erase l)) → ∃ a e B sts,
  fin body id_elm bin_op le f (toks (erase l)) a ∧ NoDup e.*1 ∧ sconf1 k sts e ∧
  ∀ F I E, (B ≤ F)%nat → @linked (PF F) I E l → laid I e →
    @wp (PF F) I None [] E (c_final body id_elm bin_op le F k f (enc l)) (λ v _, v = a).
Proof.
  intros Hg Hok. destruct f as [| | | |d|d|d|nm|d nm|key].
  - exists (v_toks (toks (erase l))), [], (S (asize l)), []. split_and!; [done|constructor|apply sconf1_nil|]. intros F I E HF Hlk Hla.
    apply (wp_vec body pred id_elm bin_op le F hv ha I); [done|lia].
  - exists (foldr bin_op id_elm (elems (erase l))), [], (S (asize l)), []. split_and!; [done|constructor|apply sconf1_nil|]. intros F I E HF Hlk Hla.
    apply (wp_fold body pred id_elm bin_op le F hv ha I); [done|lia].
  - exists (VBool (is_empty (erase l))), [], (S (asize l)), []. split_and!; [simpl; by rewrite is_empty_elems|constructor|apply sconf1_nil|]. intros F I E HF Hlk Hla.
    apply (wp_is_empty body pred id_elm bin_op le F hv ha I); [done|lia].
  - set (pth := [stage_ns k "map2"]). assert (Hk := amap2_kinds body pth l). set (r := (amap2 body pth l).1).
    exists (v_toks (toks (erase r))), (amap2 body pth l).2, (S (asize l) `max` S (asize r))%nat, ["map2"].
    assert (NoDup (amap2 body pth l).2.*1) as Hnd.
    { rewrite kinds_locs, Hk. assert (Hn := NoDup_m2 pth _ Hg). revert Hn. clear. intros Hn.
      assert (∀ ns, ((ns ≫= λ n, let '(nm1, nm2, nm3) := name_fork3 n in [(nloc pth nm2, KThunk TyList "list_map_eager2" (VStr "body")); (nloc pth nm3, KCell TyList)]).*1) = (λ n, nloc pth n) <$> (ns ≫= name_m2)) as Hns.
      { induction ns as [|n ns IH]; [done|]. rewrite !bind_cons, !fmap_app, IH. done. }
      by rewrite Hns. }
    split_and!; [|done| |].
    + simpl. f_equal. subst r. rewrite amap2_erase. rewrite C37_map_eager2. apply list_fmap_ext. intros i [n|x] _; done.
    + eapply (conf_sconf1 k "map2"). eapply conf_kinds; [by rewrite Hk|]. intros x kd (n & Hx & Hn)%elem_of_list_bind.
      unfold name_fork3 in Hx. simpl in Hx. rewrite !elem_of_cons, elem_of_nil in Hx. destruct Hx as [[= -> ->]|[[= -> ->]|[]]]; eexists; done.
    + intros F I E HF Hlk Hla. apply wp_bind, wp_ns. eapply wp_conseq; [apply (wp_map2 body pred id_elm bin_op le F hv ha I); [done|done|done|apply fresh_none|lia|lia]|].
      intros v E' _ [-> Ht]. apply wp_ret. apply (wp_vec body pred id_elm bin_op le F hv ha I); [done|]. fold r. lia.
  - destruct (tree_total k d l Hg) as (t & e & B & Hs & _ & _ & Hgt & Hlf & Hnd & Hc & Hwp).
    assert (tseq (terase t) = in_dir d (toks (erase l))) as Hq by (rewrite <- Hs; by rewrite in_dir_inv).
    destruct (fents_NoDup k "monoid" "monoid" 0 t) as [Hnd' Hc']; [done|done|]. set (e' := fents pred id_elm bin_op le 0 "monoid" [stage_ns k "monoid"] no_ents t) in *.
    exists (monoid_of_tree (terase t) id_elm bin_op), (e ++ e'), (B `max` S (theight t))%nat, (["tree"] ++ ["monoid"]). apply conf_sconf1 in Hc, Hc'. split_and!; [|eapply NoDup_two; [exact Hc|exact Hc'|sts|done|done]|by apply sconf1_app|].
    + intros (D & (Hid & Hcl & Ha & Hl & Hr) & HD). rewrite (C38_monoid (terase t) id_elm bin_op D) by (try done; unfold telems; rewrite Hq; by apply Forall_in_dir). unfold telems. by rewrite Hq.
    + intros F I E HF Hlk Hla. apply laid_app in Hla as [L1 L2]. apply wp_bind. eapply wp_conseq; [apply Hwp; [lia|done|done]|]. intros v E1 HE1 [-> Hlt]. cbv beta.
      subst e'. rewrite (fents_F "monoid" _ 0 F) in L2, Hnd' by done.
      apply wp_ns. eapply wp_conseq; [apply (wp_monoid body pred id_elm bin_op le F hv ha I [stage_ns k "monoid"]); [done|done|done|apply fresh_none|lia|lia]|].
      intros v E2 _ ->. by apply wp_ret.
  - destruct (tree_total k d l Hg) as (t & e & B & Hs & _ & _ & Hgt & Hlf & Hnd & Hc & Hwp).
    assert (tseq (terase t) = in_dir d (toks (erase l))) as Hq by (rewrite <- Hs; by rewrite in_dir_inv).
    set (pth := [stage_ns k "sort"]). destruct (msort_ok pth pred id_elm bin_op le 0 t Hgt) as [Hnd' Hc']. set (e' := msort_fents pred id_elm bin_op le 0 pth t) in *.
    set (r := amsort le pth t).
    exists (v_toks (toks (erase r))), (e ++ e'), (B `max` S (theight t) `max` msort_bound pth t `max` S (asize r))%nat, (["tree"] ++ ["sort"]). apply conf_sconf1 in Hc, Hc'. split_and!; [|eapply NoDup_two; [exact Hc|exact Hc'|sts|done|done]|by apply sconf1_app|].
    + exists (toks (erase r)). split; [done|]. subst r. rewrite amsort_erase. assert (Hso := C37_mergesort le (terase t)). unfold sorts, telems, elems in Hso. rewrite Hq in Hso. exact Hso.
    + intros F I E HF Hlk Hla. apply laid_app in Hla as [L1 L2]. apply wp_bind. eapply wp_conseq; [apply Hwp; [lia|done|done]|]. intros v E1 HE1 [-> Hlt]. cbv beta.
      subst e'. rewrite (msort_fents_F pth 0 F) in L2, Hnd'.
      apply wp_bind, wp_ns. eapply wp_conseq; [apply (wp_mergesort body pred id_elm bin_op le F hv ha I pth); [apply msort_tall; lia|done|done|done|apply fresh_none|lia]|].
      intros v E2 _ [-> Hlr]. apply wp_ret. apply (wp_vec body pred id_elm bin_op le F hv ha I); [done|]. fold r. lia.
  - destruct (tree_total k d l Hg) as (t & e & B & Hs & Hlo & Hcan & Hgt & Hlf & Hnd & Hc & Hwp).
    destruct (fents_NoDup k "eager" "eager" 0 t) as [Hnd' Hc']; [done|done|]. set (e' := fents pred id_elm bin_op le 0 "eager" [stage_ns k "eager"] no_ents t) in *.
    exists (tenc (aeager t)), (e ++ e'), (B `max` S (theight t))%nat, (["tree"] ++ ["eager"]). apply conf_sconf1 in Hc, Hc'. split_and!; [|eapply NoDup_two; [exact Hc|exact Hc'|sts|done|done]|by apply sconf1_app|].
    + exists (terase (aeager t)). rewrite tenc_aeager, aeager_erase. destruct (C38_eager (terase t)) as (Haf & Hsq & Hlv & _). split_and!; [done|done|by rewrite Hsq|by apply Hlv|by apply C38_eager_canonical].
    + intros F I E HF Hlk Hla. apply laid_app in Hla as [L1 L2]. apply wp_bind. eapply wp_conseq; [apply Hwp; [lia|done|done]|]. intros v E1 HE1 [-> Hlt]. cbv beta.
      subst e'. rewrite (fents_F "eager" _ 0 F) in L2, Hnd' by done.
      apply wp_ns. eapply wp_conseq; [apply (wp_eager_tree body pred id_elm bin_op le F hv ha I [stage_ns k "eager"]); [done|done|done|apply fresh_none|lia|lia]|].
      intros v E2 _ ->. by apply wp_ret.
  - destruct (sortn_total true "sort2" k DLeft nm l eq_refl Hg) as (r & e & B & Hso & Hnd & Hsc & Hwp); [by left|].
    exists (v_toks (toks (erase r))), e, (B `max` S (asize r))%nat, ["tree"; "sort2"]. split_and!; [|done|done|].
    + exists (toks (erase r)). done.
    + intros F I E HF Hlk Hla. apply Hwp; [lia|done|done|]. intros E1 Hlr. apply (wp_vec body pred id_elm bin_op le F hv ha I); [done|]. lia.
  - destruct (sortn_total false "sort3" k d nm l eq_refl Hg) as (r & e & B & Hso & Hnd & Hsc & Hwp); [by right|].
    exists (v_toks (toks (erase r))), e, (B `max` S (asize r))%nat, ["tree"; "sort3"]. split_and!; [|done|done|].
    + exists (toks (erase r)). done.
    + intros F I E HF Hlk Hla. apply Hwp; [lia|done|done|]. intros E1 Hlr. apply (wp_vec body pred id_elm bin_op le F hv ha I); [done|]. lia.
  - exists (v_option (bindings ((λ x, (p_fst x, p_snd x)) <$> elems (erase l)) key)), [], (S (asize l)), []. split_and!; [done|constructor|apply sconf1_nil|]. intros F I E HF Hlk Hla.
    apply (wp_find body pred id_elm bin_op le F hv ha I); [done|lia].
Qed.

Lemma sconf1_sconf k k' sts e : sconf1 k sts e → (k' ≤ k)%nat → sconf k' e.
Proof. intros He Hk l kd Hx. destruct (He _ _ Hx) as (st & sub & n & _ & -> & ->). by exists k, st, sub, n. Qed.
Lemma query_total cells ss f k l : Forall (stage_ok cells) ss → good_names (names (erase l)) → (∀ ts, piped body pred cells ss (toks (erase l)) ts → final_ok f ts) → ∃ a e B,
  answer body pred id_elm bin_op le cells ss f (toks (erase l)) a ∧ NoDup e.*1 ∧ sconf k e ∧
  ∀ F I E, (B ≤ F)%nat → roots_in cells I E → @linked (PF F) I E l → laid I e →
    @wp (PF F) I None [] E (c_query body pred id_elm bin_op le F k ss f (enc l)) (λ v _, v = a).
Proof.
  revert k l. induction ss as [|s ss IH]; intros k l Hok Hg Hf.
  - destruct (final_total f k l Hg) as (a & e & B & sts & Ha & Hn & Hc & Hwp); [by apply Hf|]. exists a, e, B. split_and!; [|done|by eapply sconf1_sconf|].
    + by exists (toks (erase l)).
    + intros F I E HF _. by apply Hwp.
  - inversion_clear Hok as [|?? Hs Hok']. destruct (stage_total cells s k l Hs Hg) as (r & e1 & B1 & sts & Hs1 & Hg1 & Hn1 & Hc1 & Hwp1).
    destruct (IH (S k) r Hok' Hg1) as (a & e2 & B2 & (ts & Hts & Ha) & Hn2 & Hc2 & Hwp2).
    { intros ts Hts. apply Hf. by exists (toks (erase r)). }
    exists a, (e1 ++ e2), (B1 `max` B2)%nat. split_and!.
    + exists ts. split; [|done]. by exists (toks (erase r)).
    + rewrite fmap_app. apply NoDup_app. split_and!; [done| |done]. intros x Hx Hx'. destruct (sconf1_loc _ _ _ _ Hc1 Hx) as (st & _ & El).
      rewrite kinds_locs in Hx'. apply elem_of_list_fmap in Hx' as ((x2 & kd2) & -> & Hx').
      destruct (Hc2 _ _ Hx') as (k' & st' & sub & n' & Hk' & -> & _). cbn [fst l_path] in El. rewrite last_snoc in El. injection El as El.
      assert (stage_ns k' st' = stage_ns k st) as [-> _]%stage_ns_inj by (unfold stage_ns; congruence). lia.
    + intros x kd. rewrite kinds_app, elem_of_app. intros [Hx|Hx].
      * eapply (sconf1_sconf k k); [exact Hc1|lia|done].
      * destruct (Hc2 _ _ Hx) as (k' & st & sub & n & Hk' & -> & ->). exists k', st, sub, n. split; [lia|done].
    + intros F I E HF Hro Hlk Hla. apply laid_app in Hla as [L1 L2]. apply wp_bind. eapply wp_conseq; [apply Hwp1; [lia|done|done|done]|].
      intros v E1 HE1 [-> Hlr]. cbv beta. apply Hwp2; [lia|by eapply roots_mono|done|done].
Qed.

(** ** The store between the steps *)
Definition kind_at (l : loc) : kind :=
  match last (l_path l), l_id l with
  | Some p, IdNom n => match nm_sym p with SPair _ (SString st) => skp (removelast (l_path l)) st (nm_sym n) | _ => KCell TyList end
  | _, _ => KCell TyList
  end.
Lemma kind_at_stage sub k st n : kind_at (nloc (sub ++ [stage_ns k st]) n) = skp sub st (nm_sym n).
Proof. unfold kind_at. cbn [l_path l_id]. rewrite last_snoc, removelast_last. done. Qed.
Definition store_ok (cells : gmap name val) (σ : store) : Prop :=
  (∀ n, σ !! root_cell n = CCell TyList <$> cells !! n) ∧
  (∀ l ct, σ !! l = Some ct → kind_of ct = kind_at l ∧ is_struct l = false).

Context (opt : bool).
Lemma query_step cells ss f v L : Forall (stage_ok cells) ss → denotes cells v L → good_names (names L) → (∀ ts, piped body pred cells ss (toks L) ts → final_ok f ts) → ∃ a B,
  answer body pred id_elm bin_op le cells ss f (toks L) a ∧
  ∀ F σ dn full, (B ≤ F)%nat → store_ok cells σ → ∃ m σ' dn' full',
    @d_run (PF F) opt (@d_force (PF F) opt false m []) [] [] false (c_query body pred id_elm bin_op le F 0 ss f v) (DState σ ∅ dn full ∅) =
      Some (a, DState σ' ∅ dn' full' ∅) ∧ store_ok cells σ'.
Proof.
  intros Hss HL Hg Hf. destruct (denotes_alst _ _ _ HL) as (l & <- & <- & Hlk).
  destruct (query_total cells ss f 0 l Hss Hg Hf) as (a & e & B & Ha & Hn & Hc & Hwp). exists a, B. split; [done|].
  intros F σ dn full HF [Hroot Hok]. set (I := list_to_map e ∪ σ : store). set (E := filter (λ l, l_path l = []) (dom σ) : gset loc).
  assert (∀ x ct, (x, ct) ∈ e → l_path x ≠ [] ∧ kind_of ct = kind_at x ∧ is_struct x = false) as He.
  { intros x ct Hx. destruct (Hc x (kind_of ct)) as (k' & st & sub & n & _ & -> & ->); [apply elem_of_list_fmap; by exists (x, ct)|].
    split_and!; [by destruct sub|symmetry; apply kind_at_stage|done]. }
  assert (∀ x ct, (x, ct) ∈ e → I !! x = Some ct) as Hla.
  { intros x ct Hx. subst I. apply lookup_union_Some_l. by apply elem_of_list_to_map_1. }
  assert (∀ x, I !! x = σ !! x ∨ ∃ ct, (x, ct) ∈ e ∧ I !! x = Some ct) as HI.
  { intros x. subst I. destruct ((list_to_map e : store) !! x) as [ct|] eqn:Ex.
    - right. apply elem_of_list_to_map_2 in Ex. exists ct. split; [done|]. by apply Hla.
    - left. by rewrite lookup_union_r. }
  assert (∀ x, l_path x = [] → I !! x = σ !! x) as HIr.
  { intros x Hx. destruct (HI x) as [?|(ct & Hin & _)]; [done|]. by destruct (He _ _ Hin). }
  assert (∀ x ct, I !! x = Some ct → kind_of ct = kind_at x ∧ is_struct x = false) as HIk.
  { intros x ct Hx. destruct (HI x) as [Ex|(ct' & Hin & Ex)]; rewrite Hx in Ex; [by apply Hok|]. injection Ex as <-. by apply He. }
  assert (roots_in cells I E) as Hro.
  { intros n w Hnw. specialize (Hroot n). rewrite Hnw in Hroot. split; [by rewrite HIr|]. subst E. apply elem_of_filter. split; [done|]. apply elem_of_dom. by eexists. }
  destruct (Hwp F I E HF Hro) as (v & n & E' & Hev & ->); [by apply Hlk|exact Hla|].
  destruct (@ev_edit (PF F) opt I E _ _ _ _ n σ dn full Hev) as (σ' & dn' & full' & Hr & Hm & _).
  - intros x [ct Hx]. by apply (HIk x ct).
  - done.
  - intros x c1 c2 H1 H2. apply kind_of_same. destruct (Hok _ _ H1) as [-> _]. by destruct (HIk _ _ H2) as [-> _].
  - intros x Hx. subst E. apply elem_of_filter in Hx as [Hx _]. by rewrite HIr.
  - exists n, σ', dn', full'. split; [exact Hr|]. split.
    + intros m. rewrite <- Hroot. destruct (Hm (root_cell m)) as [->|[-> _]]; [done|]. by apply HIr.
    + intros x ct Hx. destruct (Hm x) as [Ex|[Ex _]]; rewrite Ex in Hx; [by apply Hok|by apply HIk].
Qed.

Lemma store_ok_insert cells σ n v : store_ok cells σ → store_ok (<[n := v]> cells) (<[root_cell n := CCell TyList v]> σ).
Proof.
  intros [Hr Hk]. split.
  - intros m. destruct (decide (m = n)) as [->|Hne]; [by rewrite !lookup_insert|]. rewrite !lookup_insert_ne; [apply Hr|done|]. by intros [=].
  - intros l ct. destruct (decide (l = root_cell n)) as [->|Hne]; [rewrite lookup_insert; by intros [= <-]|]. rewrite lookup_insert_ne by done. apply Hk.
Qed.
Lemma run_mono F m m' c p a p' : (m ≤ m')%nat →
  @d_run (PF F) opt (@d_force (PF F) opt false m []) [] [] false c p = Some (a, p') →
  @d_run (PF F) opt (@d_force (PF F) opt false m' []) [] [] false c p = Some (a, p').
Proof. intros Hle. apply (@d_run_dle (PF F) opt). intros. by apply d_force_mono. Qed.

Lemma session_ok cells ss : valid_session body pred cells ss → ∃ r B, answers body pred id_elm bin_op le cells ss r ∧
  ∀ F σ dn full, (B ≤ F)%nat → store_ok cells σ → ∃ m σ' dn' full',
    @d_run (PF F) opt (@d_force (PF F) opt false m []) [] [] false (c_session body pred id_elm bin_op le F ss) (DState σ ∅ dn full ∅) =
      Some (r, DState σ' ∅ dn' full' ∅).
Proof.
  revert cells. induction ss as [|[n v|n v|st f v] ss IH]; intros cells Hv.
  - exists VUnit, 0%nat. split; [done|]. intros F σ dn full _ _. exists 0%nat, σ, dn, full. done.
  - destruct (IH _ Hv) as (r & B & Ha & Hr). exists r, B. split; [done|]. intros F σ dn full HF Hok.
    destruct (Hr F (<[root_cell n := CCell TyList v]> σ) dn full HF) as (m & σ' & dn' & full' & Hrun); [by apply store_ok_insert|].
    exists m, σ', dn', full'. cbn [c_session Discipline.d_run]. unfold dbind, d_cell, d_alloc. cbn [d_store d_seen s6_ok].
    assert (rebind_ok (root_cell n) (σ !! root_cell n) (CCell TyList v) ∅ = true) as Hrb.
    { destruct Hok as [Hroot _]. rewrite Hroot. destruct (cells !! n) as [w|]; [|done]. cbn [fmap option_fmap option_map rebind_ok is_struct l_id root_cell negb andb]. rewrite (bool_decide_true (_ ∉ _)) by apply not_elem_of_empty. rewrite (bool_decide_true (TyList = TyList)) by done. apply orb_true_r. }
    unfold root_cell in Hrb. rewrite Hrb. simpl (_ && _). exact Hrun.
  - destruct Hv as [[w Hw] Hv]. destruct (IH _ Hv) as (r & B & Ha & Hr). exists r, B. split; [done|]. intros F σ dn full HF Hok.
    destruct (Hr F (<[root_cell n := CCell TyList v]> σ) dn full HF) as (m & σ' & dn' & full' & Hrun); [by apply store_ok_insert|].
    exists m, σ', dn', full'. cbn [c_session Discipline.d_run]. unfold dbind, d_set. cbn [d_store].
    destruct Hok as [Hroot _]. rewrite Hroot, Hw. simpl (CCell TyList <$> Some w). cbv iota. rewrite decide_True by done. exact Hrun.
  - destruct Hv as [[(L & HL & Hg & Hf) Hss] Hv]. destruct (query_step cells st f v L Hss HL Hg Hf) as (a & B1 & Ha & Hq). destruct (IH _ Hv) as (r & B2 & Har & Hr).
    exists (VPair a r), (B1 `max` B2)%nat. split; [by exists L, a, r|]. intros F σ dn full HF Hok.
    destruct (Hq F σ dn full) as (m1 & σ1 & dn1 & full1 & Hrun1 & Hok1); [lia|done|].
    destruct (Hr F σ1 dn1 full1) as (m2 & σ2 & dn2 & full2 & Hrun2); [lia|done|].
    exists (m1 + m2)%nat, σ2, dn2, full2. cbn [c_session]. rewrite d_run_cbind. unfold dbind.
    rewrite (run_mono F m1 (m1 + m2) _ _ _ _ ltac:(lia) Hrun1). rewrite d_run_cbind. unfold dbind.
    rewrite (run_mono F m2 (m1 + m2) _ _ _ _ ltac:(lia) Hrun2). done.
Qed.

(** C49.  After any sequence of edits, every query returns the right answer for the lists as they are then; the engine
    never panics, whatever was cached before, and the from-scratch run returns the same.  ([F] bounds the recursion of
    the catalog's functions inside one thunk; [cat F] is the program with that bound.) *)
Theorem C49_sessions ss : valid_session body pred ∅ ss → ∃ r F0, answers body pred id_elm bin_op le ∅ ss r ∧
  ∀ F, (F0 ≤ F)%nat → 
    (∃ s, @returns (PF F) (c_session body pred id_elm bin_op le F ss) (dcg_new_flags false opt) r s ∧ idle s) ∧
    (∃ σ, @from_scratch (PF F) false (c_session body pred id_elm bin_op le F ss) r σ) ∧
    @disciplined (PF F) opt false (c_session body pred id_elm bin_op le F ss).
Proof.
  intros Hv. destruct (session_ok ∅ ss Hv) as (r & F0 & Ha & Hr). exists r, F0. split; [done|]. intros F HF.
  destruct (Hr F ∅ ∅ ∅ HF) as (m & σ' & dn' & full' & Hrun).
  { split; [intros n; by rewrite !lookup_empty|]. intros l ct. by rewrite lookup_empty. }
  destruct (@sim_from (PF F) opt false _ _ _ _ Hrun) as (K & s & Hk & Hp & HE & Hc & Hst).
  destruct (@d_exec_ref (PF F) opt false _ _ _ _ _ [] Hrun) as (lg & Href).
  split_and!.
  - exists s. split; [by exists K|]. split; [apply HE|done].
  - eexists _, m, _. exact Href.
  - by eexists m, r, _.
Qed.
End Sessions.
