(** * The catalog's [tree_fold_up_nm_dn], [mergesort_list_of_tree2] and [mergesort_list_of_tree3], in a layout. *)
From Verif Require Export CatMerge.
Local Open Scope string_scope.
Local Open Scope list_scope.

Section CatNm.
Context `{Hashes} `{Hash64 val}.
Context (body : val → val) (pred : val → bool) (id_elm : val) (bin_op : val → val → val) (le : val → val → bool).
Context (F0 : nat) (hv : val → N) (ha : progpt → val → N).
Local Instance P4 : Prog := cat body pred id_elm bin_op le F0 hv ha.
Context (I : store).
Notation nloc pth n := (Loc pth (IdNom n)).

(** ** [tree_fold_up_nm_dn] *)
Section Nm.
Context (id : string) (pth : path) (P : gset loc → option name → atree → val → Prop) (xents : option name → atree → list (loc * content)) (Q : option name → atree → Prop).
Definition nm_thunk (nm : option name) (t : atree) : content :=
  CThunk TyList "tree_fold_up_nm_dn" (VPair (tenc t) (v_opt nm)) (VStr id).
Fixpoint nents (nm : option name) (t : atree) : list (loc * content) :=
  match t with
  | BNil | BLeaf _ => []
  | BBin _ l r => xents nm t ++ nents nm l ++ nents None r
  | BName n _ l r => (nloc pth (name_fork n).1, nm_thunk nm l) :: (nloc pth (name_fork n).2, nm_thunk (Some n) r) :: xents nm t ++ nents nm l ++ nents (Some n) r
  | BArt _ t => nents nm t
  end.
Lemma nents_strip nm t : nents nm (tstrip t) = nents nm t.
Proof. by induction t. Qed.
Fixpoint nall (nm : option name) (t : atree) : Prop :=
  match t with
  | BNil | BLeaf _ => True
  | BBin _ l r => Q nm t ∧ nall nm l ∧ nall None r
  | BName n _ l r => Q nm t ∧ nall nm l ∧ nall (Some n) r
  | BArt _ t => nall nm t
  end.
Lemma nall_strip nm t : nall nm (tstrip t) = nall nm t.
Proof. by induction t. Qed.
Lemma opt_of_v_opt nm : opt_of (v_opt nm) = nm.
Proof. by destruct nm. Qed.
Lemma nm_code t nm : code "tree_fold_up_nm_dn" (VPair t (v_opt nm)) (VStr id) = c_fold_nm F0 id (nm_ops_of le F0 id) t nm.
Proof.
  change (code "tree_fold_up_nm_dn" (VPair t (v_opt nm)) (VStr id)) with (c_fold_nm F0 id (nm_ops_of le F0 id) t (opt_of (v_opt nm))). by rewrite opt_of_v_opt.
Qed.
Lemma wp_fold_nm F own E nm t :
  on_ty (nm_ops_of le F0 id) = TyList →
  (∀ E E' nm t v, P E nm t v → E ⊆ E' → P E' nm t v) → (∀ E nm t v, P E nm (tstrip t) v → P E nm t v) →
  (∀ own E nm, wp I own pth E (on_nil (nm_ops_of le F0 id) nm) (λ v E', P E' nm BNil v)) →
  (∀ own E nm x, wp I own pth E (on_leaf (nm_ops_of le F0 id) nm x) (λ v E', P E' nm (BLeaf x) v)) →
  (∀ own E nm lev l r vl vr, Q nm (BBin lev l r) → P E nm l vl → P E None r vr → laid I (xents nm (BBin lev l r)) → NoDup (xents nm (BBin lev l r)).*1 → fresh own (xents nm (BBin lev l r)) →
     wp I own pth E (on_bin (nm_ops_of le F0 id) nm lev vl vr) (λ v E', P E' nm (BBin lev l r) v)) →
  (∀ own E nm n lev l r vl vr, Q nm (BName n lev l r) → P E nm l vl → P E (Some n) r vr → laid I (xents nm (BName n lev l r)) → NoDup (xents nm (BName n lev l r)).*1 → fresh own (xents nm (BName n lev l r)) →
     wp I own pth E (on_name (nm_ops_of le F0 id) nm n lev vl vr) (λ v E', P E' nm (BName n lev l r) v)) →
  nall nm t → tlinked I E t → laid I (nents nm t) → NoDup (nents nm t).*1 → fresh own (nents nm t) → (theight t < F)%nat → (theight t < F0)%nat →
  wp I own pth E (c_fold_nm F id (nm_ops_of le F0 id) (tenc t) nm) (λ v E', P E' nm t v).
Proof.
  intros Hty Pmono Pstrip Hnil Hleaf Hbin Hname. remember (theight t) as h eqn:Hh. revert F own E nm t Hh.
  induction (lt_wf h) as [h _ IH]. intros F own E nm t Hh Hq Hlk Hla Hnd Hfr HF HF0.
  destruct F as [|F]; [lia|]. cbn [c_fold_nm]. assert (Hst := theight_strip t).
  apply wp_t_elim; [done|lia|]. intros E1 HE1. rewrite <- (nents_strip nm t) in Hla, Hnd, Hfr. rewrite <- nall_strip in Hq.
  assert (tlinked I E1 (tstrip t)) as Hlk1 by (eapply tlinked_mono; [by apply tlinked_strip|done]).
  assert (∀ c, wp I own pth E1 c (λ v E', P E' nm (tstrip t) v) → wp I own pth E1 c (λ v E', P E' nm t v)) as Hs.
  { intros c Hc. eapply wp_conseq; [exact Hc|]. intros v E' _. apply Pstrip. }
  destruct (tstrip t) as [|x|lev l r|n lev l r|a t'] eqn:Et; [apply Hs, Hnil|apply Hs, Hleaf| | |done]; apply Hs; clear Hs; simpl in Hst, Hlk1.
  - cbn [nents] in *. rewrite !laid_app in Hla. rewrite !fresh_app in Hfr. rewrite !fmap_app, !NoDup_app in Hnd.
    destruct Hla as (Lx & Ll & Lr), Hfr as (Fx & Fl & Fr), Hlk1 as [Kl Kr].
    apply wp_bind. eapply wp_conseq; [eapply (IH (theight l)); [lia|done|apply Hq|done|done|tauto|done|lia|lia]|]. intros vl E2 HE2 Pl.
    apply wp_bind. eapply wp_conseq; [eapply (IH (theight r)); [lia|done|apply Hq|by eapply tlinked_mono|done|tauto|done|lia|lia]|]. intros vr E3 HE3 Pr.
    apply Hbin; [apply Hq|eapply Pmono; [exact Pl|sub]|done|done|tauto|done].
  - cbn [nents] in *. rewrite !laid_cons, !laid_app in Hla. rewrite !fresh_cons, !fresh_app in Hfr. rewrite !fmap_cons, !NoDup_cons, !fmap_app, !NoDup_app in Hnd.
    destruct Hla as (L1 & L2 & Lx & Ll & Lr), Hfr as (F1 & F2 & Fx & Fl & Fr), Hlk1 as [Kl Kr]. simpl in Hnd.
    rewrite !elem_of_cons, !elem_of_app in Hnd. destruct Hnd as (N1 & N2 & Nx & _ & Nl & _ & Nr).
    cbn [name_fork]. rewrite Hty. apply wp_memo; [done|exact L1|]. intros E2 HE2 _. rewrite nm_code.
    eapply wp_conseq; [eapply (IH (theight l)); [lia|done|apply Hq|eapply tlinked_mono; [exact Kl|done]|done|done|apply fresh_some; tauto|lia|lia]|].
    intros vl E3 HE3 Pl. cbv beta.
    apply wp_memo; [done|exact L2|]. intros E4 HE4 _. rewrite nm_code.
    eapply wp_conseq; [eapply (IH (theight r)); [lia|done|apply Hq|eapply tlinked_mono; [exact Kr|sub]|done|done|apply fresh_some; tauto|lia|lia]|].
    intros vr E5 HE5 Pr. cbv beta. apply Hname; [apply Hq|eapply Pmono; [exact Pl|sub]|done|done|tauto|done].
Qed.
End Nm.

(** ** The two sorts: [b] tells whether the name of a node is used for the merge at that node. *)
Section Sort.
Context (b : bool) (pth : path).
Definition mpth : path := name_of_string "merge" :: pth.
Definition nid : string := if b then "mergesort2" else "mergesort3".
Definition mnm (n : name) : option name := if b then Some n else None.
Fixpoint amsn (nm : option name) (t : atree) : alst :=
  match t with
  | BNil => ANil
  | BLeaf x => aname_op nm (ACons x ANil)
  | BBin _ l r => (amerge le mpth None (amsn nm l) None (amsn None r)).1
  | BName n _ l r => (amerge le mpth None (amsn nm l) (mnm n) (amsn (Some n) r)).1
  | BArt _ t => amsn nm t
  end.
Definition msn_ents (nm : option name) (t : atree) : list (loc * content) :=
  match t with
  | BBin _ l r => (amerge le mpth None (amsn nm l) None (amsn None r)).2
  | BName n _ l r => (amerge le mpth None (amsn nm l) (mnm n) (amsn (Some n) r)).2
  | _ => []
  end.
Definition msn_size (nm : option name) (t : atree) : nat :=
  match t with
  | BBin _ l r => (asize (amsn nm l) + asize (amsn None r))%nat
  | BName n _ l r => (asize (amsn nm l) + asize (amsn (Some n) r))%nat
  | _ => 0
  end.
Lemma amsn_erase nm t : erase (amsn nm t) = (if b then mergesort_list_of_tree2 le (terase t) nm else mergesort_list_of_tree3 le (terase t) nm).
Proof.
  unfold mergesort_list_of_tree2, mergesort_list_of_tree3. revert nm.
  induction t as [|x|lev l IHl r IHr|n lev l IHl r IHr|a t IH]; intros nm; cbn [amsn terase tree_fold_up_nm_dn].
  - by destruct b.
  - rewrite erase_aname_op. by destruct b.
  - rewrite amerge_erase, IHl, IHr. by destruct b.
  - rewrite amerge_erase, IHl, IHr. unfold mnm. by destruct b.
  - rewrite IH. by destruct b.
Qed.
Definition msn_nents : option name → atree → list (loc * content) := nents nid pth msn_ents.
Definition c_sortn (F : nat) (t : val) (nm : option name) : comp := if b then c_mergesort2 le F t nm else c_mergesort3 le F t nm.
Lemma wp_sortn own E nm t :
  nall (λ nm t, msn_size nm t < F0)%nat nm t → tlinked I E t → laid I (msn_nents nm t) → NoDup (msn_nents nm t).*1 → fresh own (msn_nents nm t) → (theight t < F0)%nat →
  wp I own pth E (c_sortn F0 (tenc t) nm) (λ v E', v = enc (amsn nm t) ∧ linked I E' (amsn nm t)).
Proof.
  intros. assert (c_sortn F0 (tenc t) nm = c_fold_nm F0 nid (nm_ops_of le F0 nid) (tenc t) nm) as -> by (unfold c_sortn, nid; by destruct b).
  assert (nm_ops_of le F0 nid = if b then ops_mergesort2 le F0 else ops_mergesort3 le F0) as Ho by (unfold nid; by destruct b).
  refine (wp_fold_nm nid pth (λ E nm t v, v = enc (amsn nm t) ∧ linked I E (amsn nm t)) msn_ents (λ nm t, (msn_size nm t < F0)%nat) F0 own E nm t _ _ _ _ _ _ _ _ _ _ _ _ _ _); try done.
  - rewrite Ho. by destruct b.
  - intros E1 E2 nm' t' v [-> Hl] HE. split; [done|by eapply linked_mono].
  - intros E' nm' t' v. by induction t'.
  - intros. rewrite Ho. destruct b; by apply wp_ret.
  - intros own' E' nm' x. rewrite Ho. assert (enc (amsn nm' (BLeaf x)) = v_name_op nm' (v_cons x v_nil) ∧ linked I E' (amsn nm' (BLeaf x))) as [He Hl].
    { cbn [amsn]. rewrite enc_aname_op. split; [done|]. by apply linked_aname_op. }
    destruct b; apply wp_ret; by rewrite He.
  - intros own' E' nm' lev l r vl vr Hq [-> Hl] [-> Hr] Hla Hnd Hfr. simpl in Hq. rewrite Ho.
    assert (wp I own' pth E' (c_merge_wrapper le F0 None (enc (amsn nm' l)) None (enc (amsn None r))) (λ v E', v = enc (amsn nm' (BBin lev l r)) ∧ linked I E' (amsn nm' (BBin lev l r)))) as Hw.
    { unfold c_merge_wrapper. apply wp_ns. eapply wp_conseq; [apply wp_merge; [done|done|done|done|done|lia|lia]|]. intros v E2 _ Hv. by apply wp_ret. }
    destruct b; exact Hw.
  - intros own' E' nm' n lev l r vl vr Hq [-> Hl] [-> Hr] Hla Hnd Hfr. simpl in Hq. rewrite Ho.
    assert (wp I own' pth E' (c_merge_wrapper le F0 None (enc (amsn nm' l)) (mnm n) (enc (amsn (Some n) r))) (λ v E', v = enc (amsn nm' (BName n lev l r)) ∧ linked I E' (amsn nm' (BName n lev l r)))) as Hw.
    { unfold c_merge_wrapper. apply wp_ns. eapply wp_conseq; [apply wp_merge; [done|done|done|done|done|lia|lia]|]. intros v E2 _ Hv. by apply wp_ret. }
    unfold mnm in Hw at 1. destruct b; exact Hw.
Qed.
End Sort.

(** The names that reach the sorted list. *)
Fixpoint lnames (b : bool) (nm : option name) (t : atree) : list name :=
  match t with
  | BNil => []
  | BLeaf _ => option_list nm
  | BBin _ l r => lnames b nm l ++ lnames b None r
  | BName n _ l r => lnames b nm l ++ (if b then [n] else []) ++ lnames b (Some n) r
  | BArt _ t => lnames b nm t
  end.
(** The leftmost leaf is empty; the right children of names are such trees. *)
Fixpoint lnil (t : atree) : Prop :=
  match t with BNil => True | BLeaf _ => False | BBin _ l _ | BName _ _ l _ => lnil l | BArt _ t => lnil t end.
Fixpoint nmfree (t : atree) : Prop :=
  match t with BNil | BLeaf _ => True | BBin _ l r => nmfree l ∧ nmfree r | BName _ _ l r => nmfree l ∧ nmfree r ∧ lnil r | BArt _ t => nmfree t end.
Lemma lnames3 nm t : lnames false nm t ⊆+ option_list nm ++ tnames (terase t).
Proof.
  revert nm. induction t as [|x|lev l IHl r IHr|n lev l IHl r IHr|a t IH]; intros nm; cbn [lnames terase].
  - apply submseteq_nil_l.
  - by apply submseteq_inserts_r.
  - unfold tnames in *. simpl. rewrite names_of_app, (assoc_L (++)). apply submseteq_app; [apply IHl|apply (IHr None)].
  - unfold tnames in *. simpl. rewrite names_of_app, (assoc_L (++)). apply submseteq_app; [apply IHl|apply (IHr (Some n))].
  - apply IH.
Qed.
Lemma lnames2 nm t : nmfree t → nm = None ∨ lnil t → lnames true nm t = tnames (terase t).
Proof.
  revert nm. induction t as [|x|lev l IHl r IHr|n lev l IHl r IHr|a t IH]; intros nm Hf Hn; cbn [lnames terase].
  - done.
  - destruct Hn as [->|[]]. done.
  - destruct Hf as [Hl Hr]. unfold tnames in *. simpl. rewrite names_of_app. rewrite IHl, IHr; auto.
  - destruct Hf as (Hl & Hr & Hn'). unfold tnames in *. simpl. rewrite names_of_app. rewrite IHl, IHr; auto.
  - by apply IH.
Qed.
End CatNm.
(** The trees of [tree_of_list] from left to right. *)
Lemma atol_left `{Hashes} `{Hash64 val} fuel pth l t tl pl t' l' e : atol fuel pth DLeft l t tl pl = Some (t', l', e) → nmfree t → nmfree t' ∧ (lnil t → lnil t').
Proof.
  revert l t tl pl t' l' e. induction fuel as [|fuel IH]; intros l t tl pl t' l' e Hx Ht; [done|].
  destruct l as [|y l|n l|a l]; cbn [atol] in Hx.
  - by simplify_eq.
  - destruct (_ && _); [|by simplify_eq].
    destruct (atol fuel pth DLeft l (BLeaf y) lev_zero (lev_of_elt y)) as [[[t2 rest2] e1]|] eqn:E1; [|done].
    destruct (atol fuel pth DLeft rest2 _ (lev_of_elt y) pl) as [[[t3 l3] e2]|] eqn:E2; [|done]. simplify_eq.
    apply IH in E1 as [E1 _]; [|done]. by apply IH in E2.
  - destruct (_ && _); [|by simplify_eq].
    destruct (atol fuel pth DLeft l BNil lev_zero (lev_of_name n)) as [[[t2 rest2] e1]|] eqn:E1; [|done].
    destruct (atol fuel pth DLeft rest2 _ (lev_of_name n) pl) as [[[t3 l3] e2]|] eqn:E2; [|done]. simplify_eq.
    apply IH in E1 as [E1 E1']; [|done]. apply IH in E2; [done|]. cbn [nmfree]. split_and!; [done|done|by apply E1'].
  - by eapply IH.
Qed.
