(** * The catalog's folds over trees, in a layout. *)
From Verif Require Export CatEv.
Local Open Scope string_scope.
Local Open Scope list_scope.

Section CatFold.
Context `{Hashes} `{Hash64 val}.
Context (body : val → val) (pred : val → bool) (id_elm : val) (bin_op : val → val → val) (le : val → val → bool).
Context (F0 : nat) (hv : val → N) (ha : progpt → val → N).
Local Instance P0 : Prog := cat body pred id_elm bin_op le F0 hv ha.
Context (I : store).
Notation ops := (ops_of pred id_elm bin_op le F0).
Notation nloc pth n := (Loc pth (IdNom n)).

(** ** [tree_fold_up] *)
Section Up.
Context (id : string) (pth : path) (P : gset loc → atree → val → Prop) (xents : atree → list (loc * content)) (Q : atree → Prop).
Let o := ops id.
Definition up_thunk (t : atree) : content := CThunk (o_ty (ops id)) "tree_fold_up" (tenc t) (VStr id).
Fixpoint fents (t : atree) : list (loc * content) :=
  match t with
  | BNil | BLeaf _ => []
  | BBin _ l r => xents t ++ fents l ++ fents r
  | BName n _ l r => (nloc pth (name_fork n).1, up_thunk l) :: (nloc pth (name_fork n).2, up_thunk r) :: xents t ++ fents l ++ fents r
  | BArt _ t => fents t
  end.
Lemma fents_strip t : fents (tstrip t) = fents t.
Proof. by induction t. Qed.

(** A condition on all nodes. *)
Fixpoint tall (t : atree) : Prop :=
  match t with
  | BNil | BLeaf _ => True
  | BBin _ l r | BName _ _ l r => Q t ∧ tall l ∧ tall r
  | BArt _ t => tall t
  end.
Lemma tall_strip t : tall (tstrip t) = tall t.
Proof. by induction t. Qed.
Lemma wp_fold_up F own E t :
  (∀ E E' t v, P E t v → E ⊆ E' → P E' t v) → (∀ E t v, P E (tstrip t) v → P E t v) →
  (∀ own E, wp I own pth E (o_nil o) (λ v E', P E' BNil v)) →
  (∀ own E x, wp I own pth E (o_leaf o x) (λ v E', P E' (BLeaf x) v)) →
  (∀ own E lev l r vl vr, let t := BBin lev l r in Q t → P E l vl → P E r vr → laid I (xents t) → NoDup (xents t).*1 → fresh own (xents t) →
     wp I own pth E (o_bin o lev vl vr) (λ v E', P E' t v)) →
  (∀ own E n lev l r vl vr, let t := BName n lev l r in Q t → P E l vl → P E r vr → laid I (xents t) → NoDup (xents t).*1 → fresh own (xents t) →
     wp I own pth E (o_name o n lev vl vr) (λ v E', P E' t v)) →
  tall t → tlinked I E t → laid I (fents t) → NoDup (fents t).*1 → fresh own (fents t) → (theight t < F)%nat → (theight t < F0)%nat →
  wp I own pth E (c_fold_up F id o (tenc t)) (λ v E', P E' t v).
Proof.
  intros Pmono Pstrip Hnil Hleaf Hbin Hname. remember (theight t) as h eqn:Hh. revert F own E t Hh.
  induction (lt_wf h) as [h _ IH]. intros F own E t Hh Hq Hlk Hla Hnd Hfr HF HF0.
  destruct F as [|F]; [lia|]. cbn [c_fold_up]. assert (Hst := theight_strip t).
  apply wp_t_elim; [done|lia|]. intros E1 HE1. rewrite <- (fents_strip t) in Hla, Hnd, Hfr. rewrite <- tall_strip in Hq.
  assert (tlinked I E1 (tstrip t)) as Hlk1 by (eapply tlinked_mono; [by apply tlinked_strip|done]).
  assert (∀ c, wp I own pth E1 c (λ v E', P E' (tstrip t) v) → wp I own pth E1 c (λ v E', P E' t v)) as Hs.
  { intros c Hc. eapply wp_conseq; [exact Hc|]. intros v E' _. apply Pstrip. }
  destruct (tstrip t) as [|x|lev l r|n lev l r|a t'] eqn:Et; [apply Hs, Hnil|apply Hs, Hleaf| | |done]; apply Hs; clear Hs; simpl in Hst, Hlk1.
  - cbn [fents] in *. rewrite !laid_app in Hla. rewrite !fresh_app in Hfr. rewrite !fmap_app, !NoDup_app in Hnd.
    destruct Hla as (Lx & Ll & Lr), Hfr as (Fx & Fl & Fr), Hlk1 as [Kl Kr].
    apply wp_bind. eapply wp_conseq; [eapply (IH (theight l)); [lia|done|apply Hq|done|done|tauto|done|lia|lia]|]. intros vl E2 HE2 Pl.
    apply wp_bind. eapply wp_conseq; [eapply (IH (theight r)); [lia|done|apply Hq|by eapply tlinked_mono|done|tauto|done|lia|lia]|]. intros vr E3 HE3 Pr.
    apply Hbin; [apply Hq|eapply Pmono; [exact Pl|sub]|done|done|tauto|done].
  - cbn [fents] in *. rewrite !laid_cons, !laid_app in Hla. rewrite !fresh_cons, !fresh_app in Hfr. rewrite !fmap_cons, !NoDup_cons, !fmap_app, !NoDup_app in Hnd.
    destruct Hla as (L1 & L2 & Lx & Ll & Lr), Hfr as (F1 & F2 & Fx & Fl & Fr), Hlk1 as [Kl Kr]. simpl in Hnd.
    rewrite !elem_of_cons, !elem_of_app in Hnd. destruct Hnd as (N1 & N2 & Nx & _ & Nl & _ & Nr).
    cbn [name_fork]. apply wp_memo; [done|exact L1|]. intros E2 HE2 _.
    change (code "tree_fold_up" (tenc l) (VStr id)) with (c_fold_up F0 id (ops id) (tenc l)).
    eapply wp_conseq; [eapply (IH (theight l)); [lia|done|apply Hq|eapply tlinked_mono; [exact Kl|done]|done|done|apply fresh_some; tauto|lia|lia]|].
    intros vl E3 HE3 Pl. cbv beta.
    apply wp_memo; [done|exact L2|]. intros E4 HE4 _.
    change (code "tree_fold_up" (tenc r) (VStr id)) with (c_fold_up F0 id (ops id) (tenc r)).
    eapply wp_conseq; [eapply (IH (theight r)); [lia|done|apply Hq|eapply tlinked_mono; [exact Kr|sub]|done|done|apply fresh_some; tauto|lia|lia]|].
    intros vr E5 HE5 Pr. cbv beta. apply Hname; [apply Hq|eapply Pmono; [exact Pl|sub]|done|done|tauto|done].
Qed.
End Up.

(** [monoid_of_tree] and [eager_tree_of_tree]: no further allocation. *)
Definition no_ents (t : atree) : list (loc * content) := [].
Lemma wp_monoid pth F own E t : tlinked I E t → laid I (fents "monoid" pth no_ents t) → NoDup (fents "monoid" pth no_ents t).*1 →
  fresh own (fents "monoid" pth no_ents t) → (theight t < F)%nat → (theight t < F0)%nat →
  wp I own pth E (c_monoid_of_tree id_elm bin_op F (tenc t)) (λ v _, v = monoid_of_tree (terase t) id_elm bin_op).
Proof.
  intros. refine (wp_fold_up "monoid" pth (λ _ t v, v = monoid_of_tree (terase t) id_elm bin_op) no_ents (λ _, True) F own E t _ _ _ _ _ _ _ _ _ _ _ _ _); try done.
  - intros E' t' v. by induction t'.
  - intros. by apply wp_ret.
  - intros. by apply wp_ret.
  - intros. subst. by apply wp_ret.
  - intros. subst. by apply wp_ret.
  - clear. induction t; simpl; tauto.
Qed.
(** The tree without its articulations. *)
Fixpoint aeager (t : atree) : atree :=
  match t with BNil => BNil | BLeaf x => BLeaf x | BBin lev l r => BBin lev (aeager l) (aeager r)
  | BName n lev l r => BName n lev (aeager l) (aeager r) | BArt _ t => aeager t end.
Lemma aeager_erase t : terase (aeager t) = eager_tree_of_tree (terase t).
Proof. unfold eager_tree_of_tree. induction t; simpl; by rewrite ?IHt, ?IHt1, ?IHt2. Qed.
Lemma wp_eager_tree pth F own E t : tlinked I E t → laid I (fents "eager" pth no_ents t) → NoDup (fents "eager" pth no_ents t).*1 →
  fresh own (fents "eager" pth no_ents t) → (theight t < F)%nat → (theight t < F0)%nat →
  wp I own pth E (c_eager_tree F (tenc t)) (λ v _, v = tenc (aeager t)).
Proof.
  intros. refine (wp_fold_up "eager" pth (λ _ t v, v = tenc (aeager t)) no_ents (λ _, True) F own E t _ _ _ _ _ _ _ _ _ _ _ _ _); try done.
  - intros E' t' v. by induction t'.
  - intros. by apply wp_ret.
  - intros. by apply wp_ret.
  - intros. subst. by apply wp_ret.
  - intros. subst. by apply wp_ret.
  - clear. induction t; simpl; tauto.
Qed.
End CatFold.
