(** * Where the catalog's functions allocate, and what. *)
From Verif Require Export CatList.
Local Open Scope string_scope.
Local Open Scope list_scope.

(** ** Symbols *)
Definition sym_forked (s : namesym) : bool := match s with SForkL _ | SForkR _ => true | _ => false end.
Definition sym_rev (s : namesym) : bool := match s with SPair (SString "rev") _ => true | _ => false end.
(** The names of a list may be anything but forks and ["rev"]-pairs, which the catalog makes itself. *)
Definition plain (n : name) : bool := negb (sym_forked (nm_sym n)) && negb (sym_rev (nm_sym n)).

Lemma bind_NoDup {A B} (f : A → list B) (l : list A) :
  NoDup l → (∀ x, x ∈ l → NoDup (f x)) → (∀ x y z, x ∈ l → y ∈ l → z ∈ f x → z ∈ f y → x = y) → NoDup (l ≫= f).
Proof.
  intros Hl. induction Hl as [|x l Hx Hl IH]; intros Hf Hd; [constructor|]. rewrite bind_cons. apply NoDup_app. split_and!.
  - apply Hf. left.
  - intros z Hz (y & Hy & Hyl)%elem_of_list_bind. destruct Hx. assert (x = y) as -> by (eapply Hd; [left|by right|done|done]). done.
  - apply IH; intros; [apply Hf; by right|eapply Hd; [by right|by right|done|done]].
Qed.

Section CatNames.
Context `{Hashes} `{Hash64 val}.
Notation nloc pth n := (Loc pth (IdNom n)).

Definition good_names (ns : list name) : Prop := NoDup ns ∧ Forall api_name ns ∧ Forall (λ n, plain n = true) ns.
Lemma good_names_sub ns ns' : good_names ns → ns' ⊆+ ns → good_names ns'.
Proof.
  intros (Hn & Ha & Hp) Hs. apply submseteq_Permutation in Hs as [k Hk]. rewrite Hk in Hn, Ha, Hp.
  rewrite NoDup_app in Hn. rewrite Forall_app in Ha, Hp. split_and!; tauto.
Qed.
Lemma good_syms ns : good_names ns → NoDup (nm_sym <$> ns).
Proof.
  intros (Hn & Ha & _). rewrite Forall_forall in Ha. clear -Hn Ha. induction Hn as [|n ns Hx Hn IH]; simpl; constructor.
  - intros (m & E & Hm)%elem_of_list_fmap. destruct Hx. assert (n = m) as ->; [|done]. apply C30_symbol_determines_name; [apply Ha; left|apply Ha; by right|done].
  - apply IH. intros. apply Ha. by right.
Qed.
Lemma NoDup_nloc pth (ns : list name) : NoDup (nm_sym <$> ns) → NoDup ((λ n, nloc pth n) <$> ns).
Proof. intros Hn. apply NoDup_fmap_2; [intros ?? [=]; done|]. by apply NoDup_fmap_1 in Hn. Qed.
Lemma fork_l_sym n : nm_sym (name_fork n).1 = SForkL (nm_sym n). Proof. done. Qed.
Lemma fork_r_sym n : nm_sym (name_fork n).2 = SForkR (nm_sym n). Proof. done. Qed.

Lemma good_sym_case ns n : good_names ns → n ∈ ns → sym_forked (nm_sym n) = false ∧ sym_rev (nm_sym n) = false.
Proof. intros (_ & _ & Hp) Hn. rewrite Forall_forall in Hp. apply Hp in Hn. unfold plain in Hn. by destruct (sym_forked (nm_sym n)), (sym_rev (nm_sym n)). Qed.

(** A function that makes finitely many names out of each name of a list. *)
Lemma NoDup_from pth ns (f : name → list name) (fs : namesym → list namesym) :
  good_names ns → (∀ n, nm_sym <$> f n = fs (nm_sym n)) → (∀ s, NoDup (fs s)) →
  (∀ s s' z, sym_forked s = false → sym_rev s = false → sym_forked s' = false → sym_rev s' = false → z ∈ fs s → z ∈ fs s' → s = s') →
  NoDup ((λ n, nloc pth n) <$> (ns ≫= f)).
Proof.
  intros Hg Hf Hnd Hdj. apply NoDup_nloc.
  assert (nm_sym <$> (ns ≫= f) = (nm_sym <$> ns) ≫= fs) as ->.
  { clear -Hf. induction ns as [|n ns IH]; [done|]. rewrite bind_cons, fmap_app, fmap_cons, bind_cons. by rewrite IH, Hf. }
  apply bind_NoDup; [by apply good_syms|done|].
  intros x y z (n & -> & Hn)%elem_of_list_fmap (m & -> & Hm)%elem_of_list_fmap. destruct (good_sym_case _ _ Hg Hn), (good_sym_case _ _ Hg Hm). by apply Hdj.
Qed.
Local Ltac ors E := rewrite ?elem_of_cons, ?elem_of_nil in E; repeat match type of E with _ ∨ _ => destruct E as [E|E] end; try done.
Local Ltac fin_nodup := intros s; repeat (apply NoDup_cons; split; [intros E; ors E; first [by simplify_eq|by apply (f_equal sym_size) in E; simpl in E; lia]|]); apply NoDup_nil_2.
Local Ltac fin_disj := intros s s' z F1 F2 F3 F4 Hz Hz'; ors Hz; ors Hz'; by simplify_eq.
Lemma NoDup_self pth ns : good_names ns → NoDup ((λ n, nloc pth n) <$> ns).
Proof. intros Hg. by apply NoDup_nloc, good_syms. Qed.
Lemma NoDup_name3 pth ns : good_names ns → NoDup ((λ n, nloc pth n) <$> (ns ≫= name3)).
Proof. intros Hg. apply (NoDup_from pth ns name3 (λ s, [s; SForkL s; SForkR s])); [done|done|fin_nodup|fin_disj]. Qed.
Definition name2 (n : name) : list name := [(name_fork n).1; (name_fork n).2].
Lemma NoDup_name2 pth ns : good_names ns → NoDup ((λ n, nloc pth n) <$> (ns ≫= name2)).
Proof. intros Hg. apply (NoDup_from pth ns name2 (λ s, [SForkL s; SForkR s])); [done|done|fin_nodup|fin_disj]. Qed.
Definition name_m2 (n : name) : list name := let '(nm1, nm2, nm3) := name_fork3 n in [nm2; nm3].
Lemma NoDup_m2 pth ns : good_names ns → NoDup ((λ n, nloc pth n) <$> (ns ≫= name_m2)).
Proof. intros Hg. apply (NoDup_from pth ns name_m2 (λ s, [SForkL (SForkR s); SForkR (SForkR s)])); [done|done|fin_nodup|fin_disj]. Qed.
Definition name_rv (n : name) : list name := [rev_name n; n].
Lemma NoDup_rv pth ns : good_names ns → NoDup ((λ n, nloc pth n) <$> (ns ≫= name_rv)).
Proof. intros Hg. apply (NoDup_from pth ns name_rv (λ s, [SPair (SString "rev") s; s])); [done|done|fin_nodup|fin_disj]. Qed.

(** ** Sorting: the names that [list_merge] makes never collide. *)
Fixpoint sroot (s : namesym) : namesym := match s with SForkR s => sroot s | _ => s end.
Fixpoint srank (s : namesym) : nat := match s with SForkR s => S (srank s) | _ => 0 end.
(** [A] are the names used for thunks so far, [R] those in the lists that are left to merge, [Ro] what they come from; all
    satisfy [Q]. *)
Record good (Q : namesym → Prop) (A R Ro : list namesym) : Prop := {
  g_used : NoDup A;
  g_live : NoDup (sroot <$> R);
  g_rank : ∀ x y, x ∈ A → y ∈ R → sroot x = sroot y → (srank x < srank y)%nat;
  g_root : ∀ x, x ∈ A ++ R → sroot x ∈ Ro;
  g_fork : ∀ x, x ∈ A ++ R → Q x;
}.
Lemma good_step (Q : namesym → Prop) A R Ro U V R' : (∀ s, Q s → Q (SForkR s)) → good Q A R Ro → U ++ V ⊆+ R → R' ⊆+ (SForkR <$> U) ++ V → good Q (U ++ A) R' Ro.
Proof.
  intros HQ [Hu Hl Hr Ho Hf] HUV HR'.
  assert (NoDup (sroot <$> (U ++ V))) as Hl'.
  { apply submseteq_Permutation in HUV as [k Hk]. rewrite Hk, fmap_app in Hl. apply NoDup_app in Hl; tauto. }
  assert (∀ x, x ∈ U ∨ x ∈ V → x ∈ R) as Hin by (intros x Hx; eapply elem_of_submseteq; [|exact HUV]; by apply elem_of_app).
  assert (∀ y, y ∈ R' → (∃ u, y = SForkR u ∧ u ∈ U) ∨ y ∈ V) as Hin'.
  { intros y Hy. eapply elem_of_submseteq in Hy; [|exact HR']. apply elem_of_app in Hy as [Hy|Hy]; [|by right]. apply elem_of_list_fmap in Hy as (u & -> & Hu'). left. eauto. }
  assert (∀ x y, x ∈ U ++ V → y ∈ U ++ V → sroot x = sroot y → x = y) as Hinj.
  { clear -Hl'. induction (U ++ V) as [|a l IH]; intros x y Hx Hy E; [by apply elem_of_nil in Hx|]. rewrite fmap_cons, NoDup_cons in Hl'. destruct Hl' as [Ha Hl'].
    apply elem_of_cons in Hx as [->|Hx], Hy as [->|Hy]; [done| | |by apply IH].
    - destruct Ha. rewrite E. by apply elem_of_list_fmap_1.
    - destruct Ha. rewrite <- E. by apply elem_of_list_fmap_1. }
  assert (∀ x, x ∈ U → x ∈ U ++ V) as HinU by (intros; apply elem_of_app; by left).
  assert (∀ x, x ∈ V → x ∈ U ++ V) as HinV by (intros; apply elem_of_app; by right).
  rewrite fmap_app, NoDup_app in Hl'. destruct Hl' as (HlU & HlD & HlV).
  split.
  - apply NoDup_app. split_and!; [by apply NoDup_fmap_1 in HlU| |done]. intros x Hx HA. assert (srank x < srank x)%nat by (apply Hr; auto). lia.
  - assert (NoDup (sroot <$> ((SForkR <$> U) ++ V))) as Hb.
    { rewrite fmap_app. replace (sroot <$> (SForkR <$> U)) with (sroot <$> U) by (rewrite <- list_fmap_compose; done). apply NoDup_app. done. }
    apply submseteq_Permutation in HR' as [k Hk]. rewrite Hk, fmap_app in Hb. apply NoDup_app in Hb; tauto.
  - intros x y Hx Hy E. apply elem_of_app in Hx. apply Hin' in Hy as [(u & -> & Hu')|Hy]; simpl in *.
    + destruct Hx as [Hx|Hx]; [rewrite (Hinj x u) by auto; lia|]. assert (srank x < srank u)%nat by (apply Hr; auto). lia.
    + destruct Hx as [Hx|Hx]; [|apply Hr; auto]. exfalso. apply (HlD (sroot x)); [by apply elem_of_list_fmap_1|]. rewrite E. by apply elem_of_list_fmap_1.
  - intros x Hx. rewrite !elem_of_app in Hx. setoid_rewrite elem_of_app in Ho. destruct Hx as [[Hx|Hx]|Hx]; [auto|auto|].
    apply Hin' in Hx as [(u & -> & Hu')|Hx]; simpl; auto.
  - intros x Hx. rewrite !elem_of_app in Hx. setoid_rewrite elem_of_app in Hf. destruct Hx as [[Hx|Hx]|Hx]; [auto|auto|].
    apply Hin' in Hx as [(u & -> & Hu')|Hx]; [apply HQ|]; auto.
Qed.
Lemma good_app Q A R Ro A' R' Ro' : good Q A R Ro → good Q A' R' Ro' → (∀ x, x ∈ Ro → x ∉ Ro') → good Q (A ++ A') (R ++ R') (Ro ++ Ro').
Proof.
  intros [Hu Hl Hr Ho Hf] [Hu' Hl' Hr' Ho' Hf'] Hd. setoid_rewrite elem_of_app in Ho. setoid_rewrite elem_of_app in Ho'. setoid_rewrite elem_of_app in Hf. setoid_rewrite elem_of_app in Hf'.
  assert (∀ x, x ∈ A ∨ x ∈ R → x ∈ A' ∨ x ∈ R' → False) as Hdis by (intros x H1 H2; by apply (Hd (sroot x)); auto).
  assert (∀ x y, x ∈ A ∨ x ∈ R → y ∈ A' ∨ y ∈ R' → sroot x = sroot y → False) as Hdis' by (intros x y H1 H2 E; apply (Hd (sroot x)); [auto|]; rewrite E; auto).
  split.
  - apply NoDup_app. split_and!; [done| |done]. intros x H1 H2. eauto.
  - rewrite fmap_app. apply NoDup_app. split_and!; [done| |done]. intros s (x & -> & Hx)%elem_of_list_fmap (y & E & Hy)%elem_of_list_fmap. eauto.
  - intros x y Hx Hy E. apply elem_of_app in Hx as [Hx|Hx], Hy as [Hy|Hy]; [auto|exfalso; eauto|exfalso; eapply (Hdis' y x); auto|auto].
  - intros x Hx. rewrite !elem_of_app in Hx. apply elem_of_app. naive_solver.
  - intros x Hx. rewrite !elem_of_app in Hx. naive_solver.
Qed.
Lemma good_one (Q : namesym → Prop) s : Q s → good Q [] [s] [sroot s].
Proof.
  intros Hs. split; [constructor|apply NoDup_singleton|by intros ?? ?%elem_of_nil| |]; intros x Hx; simpl in Hx; apply elem_of_list_singleton in Hx as ->; [left|done].
Qed.
Lemma good_nil Q : good Q [] [] [].
Proof. split; [constructor|constructor|by intros ?? ?%elem_of_nil| |]; by intros ? ?%elem_of_nil. Qed.
Lemma good_perm Q A R Ro A' R' Ro' : good Q A R Ro → A ≡ₚ A' → R ≡ₚ R' → Ro ≡ₚ Ro' → good Q A' R' Ro'.
Proof.
  intros [Hu Hl Hr Ho Hf] EA ER ERo. split.
  - by rewrite <- EA.
  - by rewrite <- ER.
  - intros x y. rewrite <- EA, <- ER. auto.
  - intros x. rewrite <- EA, <- ER, <- ERo. auto.
  - intros x. rewrite <- EA, <- ER. auto.
Qed.
End CatNames.
