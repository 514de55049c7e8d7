(** * The catalog's [tree_fold_seq] ([list_of_tree], [filter_list_of_tree]) and [vec_of_list], in a layout. *)
From Verif Require Export CatTol.
Local Open Scope string_scope.
Local Open Scope list_scope.

(** The tokens of a list, encoded as a list without articulations. *)
Fixpoint v_toks (ts : list (name_else val)) : val :=
  match ts with [] => v_nil | NElse x :: ts => v_cons x (v_toks ts) | NName n :: ts => v_lname n (v_toks ts) end.

Section CatSeq.
Context `{Hashes} `{Hash64 val}.
Context (body : val → val) (pred : val → bool) (id_elm : val) (bin_op : val → val → val) (le : val → val → bool).
Context (F0 : nat) (hv : val → N) (ha : progpt → val → N).
Local Instance P2 : Prog := cat body pred id_elm bin_op le F0 hv ha.
Context (I : store).
Notation nloc pth n := (Loc pth (IdNom n)).

(** [vec_of_list] *)
Lemma wp_vec own pth F E l : linked I E l → (asize l < F)%nat → wp I own pth E (c_vec F (enc l)) (λ v _, v = v_toks (toks (erase l))).
Proof.
  remember (asize l) as h eqn:Hh. revert F E l Hh. induction (lt_wf h) as [h _ IH]. intros F E l Hh Hl HF. destruct F as [|F]; [lia|]. cbn [c_vec].
  assert (Hst := asize_strip l). rewrite <- toks_strip. apply wp_l_elim; [done|lia|]. intros E1 HE1 Hl1.
  destruct (strip l) as [|x rest|n rest|a rest]; [by apply wp_ret| | |done]; simpl in *.
  - apply wp_bind. eapply wp_conseq; [eapply (IH (asize rest)); [lia|done|done|lia]|]. intros v E2 HE2 ->. by apply wp_ret.
  - apply wp_bind. eapply wp_conseq; [eapply (IH (asize rest)); [lia|done|done|lia]|]. intros v E2 HE2 ->. by apply wp_ret.
Qed.

Section Seq.
Context (id : string) (pth : path) (keep : val → bool) (drop : alst → bool).
Let o := seq_ops_of pred F0 id.
Definition seq_thunk (dir : dir2) (t : atree) (res : alst) : content :=
  CThunk TyList "tree_fold_seq" (VPair (tenc t) (VPair (v_dir dir) (enc res))) (VStr id).
Definition seq_name (n : name) (res : alst) : alst := if drop res then res else AName n (AArt (nloc pth n) res).
Definition seq_cell (n : name) (res : alst) : list (loc * content) := if drop res then [] else [(nloc pth n, CCell TyList (enc res))].
Fixpoint aseq (dir : dir2) (t : atree) (res : alst) : alst * list (loc * content) :=
  match t with
  | BNil => (res, [])
  | BLeaf x => (if keep x then ACons x res else res, [])
  | BBin _ l r =>
      match dir with
      | DLeft => let '(r1, e1) := aseq dir l res in let '(r2, e2) := aseq dir r r1 in (r2, e1 ++ e2)
      | DRight => let '(r1, e1) := aseq dir r res in let '(r2, e2) := aseq dir l r1 in (r2, e1 ++ e2)
      end
  | BName n _ l r =>
      match dir with
      | DLeft => let '(r1, e1) := aseq dir l res in let '(r2, e2) := aseq dir r (seq_name n r1) in
          (r2, (nloc pth (name_fork n).1, seq_thunk dir l res) :: (nloc pth (name_fork n).2, seq_thunk dir r (seq_name n r1)) :: seq_cell n r1 ++ e1 ++ e2)
      | DRight => let '(r1, e1) := aseq dir r res in let '(r2, e2) := aseq dir l (seq_name n r1) in
          (r2, (nloc pth (name_fork n).1, seq_thunk dir r res) :: (nloc pth (name_fork n).2, seq_thunk dir l (seq_name n r1)) :: seq_cell n r1 ++ e1 ++ e2)
      end
  | BArt _ t => aseq dir t res
  end.
Lemma aseq_strip dir t res : aseq dir (tstrip t) res = aseq dir t res.
Proof. by induction t. Qed.
Lemma aseq_erase dir t res (dropl : lst val → bool) : (∀ l, drop l = dropl (erase l)) →
  erase (aseq dir t res).1 = tree_fold_seq (λ x xs, if keep x then LCons x xs else xs) (λ _ xs, xs)
    (λ n _ xs, if dropl xs then xs else LName n (LArt xs)) (terase t) dir (erase res).
Proof.
  intros Hd. assert (∀ n r, erase (seq_name n r) = if dropl (erase r) then erase r else LName n (LArt (erase r))) as Hn.
  { intros n r. unfold seq_name. rewrite Hd. by destruct (dropl (erase r)). }
  revert res. induction t as [|x|lev l IHl r IHr|n lev l IHl r IHr|a t IH]; intros res; cbn [aseq terase tree_fold_seq].
  - done.
  - simpl. by destruct (keep x).
  - destruct dir.
    + rewrite <- IHl. destruct (aseq DLeft l res) as [r1 e1]. simpl. rewrite <- IHr. by destruct (aseq DLeft r r1).
    + rewrite <- IHr. destruct (aseq DRight r res) as [r1 e1]. simpl. rewrite <- IHl. by destruct (aseq DRight l r1).
  - destruct dir.
    + rewrite <- IHl. destruct (aseq DLeft l res) as [r1 e1]. simpl. rewrite <- Hn, <- IHr. by destruct (aseq DLeft r (seq_name n r1)).
    + rewrite <- IHr. destruct (aseq DRight r res) as [r1 e1]. simpl. rewrite <- Hn, <- IHl. by destruct (aseq DRight l (seq_name n r1)).
  - apply IH.
Qed.
(** Allocation at the names of the tree and their forks. *)
Lemma aseq_locs dir t res : (aseq dir t res).2.*1 ⊆+ (λ n, nloc pth n) <$> (tnames (terase t) ≫= name3).
Proof.
  revert res. induction t as [|x|lev l IHl r IHr|n lev l IHl r IHr|a t IH]; intros res; cbn [aseq terase]; [done|done| | |apply IH].
  - assert (tnames (TBin lev (terase l) (terase r)) = tnames (terase l) ++ tnames (terase r)) as -> by apply names_of_app. rewrite bind_app, fmap_app.
    destruct dir.
    + specialize (IHl res). destruct (aseq DLeft l res) as [r1 e1]. specialize (IHr r1). destruct (aseq DLeft r r1) as [r2 e2].
      simpl in *. rewrite fmap_app. by apply submseteq_app.
    + specialize (IHr res). destruct (aseq DRight r res) as [r1 e1]. specialize (IHl r1). destruct (aseq DRight l r1) as [r2 e2].
      simpl in *. rewrite fmap_app, (Permutation_app_comm (e1.*1)). by apply submseteq_app.
  - assert (tnames (TName n lev (terase l) (terase r)) = tnames (terase l) ++ n :: tnames (terase r)) as -> by (unfold tnames; simpl; by rewrite names_of_app).
    rewrite bind_app, bind_cons, !fmap_app. set (A := (λ n, nloc pth n) <$> (tnames (terase l) ≫= name3)) in *. set (B := (λ n, nloc pth n) <$> (tnames (terase r) ≫= name3)) in *.
    assert (∀ r1 L, L ⊆+ A ++ B → nloc pth (name_fork n).1 :: nloc pth (name_fork n).2 :: (seq_cell n r1).*1 ++ L ⊆+ A ++ ((λ n, nloc pth n) <$> name3 n) ++ B) as Hgo.
    { intros r1 L HL. rewrite (assoc_L (++)), (Permutation_app_comm A), <- (assoc_L (++)). cbn [name3 fmap list_fmap].
      change (?a :: ?b :: ?x ++ L) with (([a; b] ++ x) ++ L). unfold seq_cell.
      set (a := nloc pth (name_fork n).1). set (b := nloc pth (name_fork n).2). set (c := nloc pth n).
      change ([c; a; b] ++ A ++ B) with (([c] ++ [a; b]) ++ (A ++ B)). apply submseteq_app; [|done]. destruct (drop r1); simpl.
      - by apply submseteq_cons.
      - apply Permutation_submseteq. change ([a; b; c]) with ([a; b] ++ [c]). change ([c; a; b]) with ([c] ++ [a; b]). apply Permutation_app_comm. }
    destruct dir.
    + specialize (IHl res). destruct (aseq DLeft l res) as [r1 e1]. specialize (IHr (seq_name n r1)). destruct (aseq DLeft r (seq_name n r1)) as [r2 e2].
      simpl in *. rewrite !fmap_app. apply (Hgo r1). by apply submseteq_app.
    + specialize (IHr res). destruct (aseq DRight r res) as [r1 e1]. specialize (IHl (seq_name n r1)). destruct (aseq DRight l (seq_name n r1)) as [r2 e2].
      simpl in *. rewrite !fmap_app. apply (Hgo r1). rewrite (Permutation_app_comm (e1.*1)). by apply submseteq_app.
Qed.

Lemma aseq_bin dir lev l r res : aseq dir (BBin lev l r) res =
  let lr := match dir with DLeft => (l, r) | DRight => (r, l) end in
  let '(r1, e1) := aseq dir lr.1 res in let '(r2, e2) := aseq dir lr.2 r1 in (r2, e1 ++ e2).
Proof. by destruct dir. Qed.
Lemma aseq_nm dir n lev l r res : aseq dir (BName n lev l r) res =
  let lr := match dir with DLeft => (l, r) | DRight => (r, l) end in
  let '(r1, e1) := aseq dir lr.1 res in let '(r2, e2) := aseq dir lr.2 (seq_name n r1) in
  (r2, (nloc pth (name_fork n).1, seq_thunk dir lr.1 res) :: (nloc pth (name_fork n).2, seq_thunk dir lr.2 (seq_name n r1)) :: seq_cell n r1 ++ e1 ++ e2).
Proof. by destruct dir. Qed.
Lemma seq_name_asize n res : (asize res ≤ asize (seq_name n res))%nat.
Proof. unfold seq_name. destruct (drop res); simpl; lia. Qed.
Lemma aseq_asize dir t res : (asize res ≤ asize (aseq dir t res).1)%nat.
Proof.
  revert res. induction t as [|x|lev l IHl r IHr|n lev l IHl r IHr|a t IH]; intros res; [done| | | |apply IH].
  - simpl. destruct (keep x); simpl; lia.
  - destruct dir; simpl.
    + specialize (IHl res). destruct (aseq DLeft l res) as [r1 e1]. specialize (IHr r1). destruct (aseq DLeft r r1) as [r2 e2]. simpl in *. lia.
    + specialize (IHr res). destruct (aseq DRight r res) as [r1 e1]. specialize (IHl r1). destruct (aseq DRight l r1) as [r2 e2]. simpl in *. lia.
  - destruct dir; simpl.
    + specialize (IHl res). destruct (aseq DLeft l res) as [r1 e1]. specialize (IHr (seq_name n r1)). destruct (aseq DLeft r (seq_name n r1)) as [r2 e2]. assert (Hs := seq_name_asize n r1). simpl in *. lia.
    + specialize (IHr res). destruct (aseq DRight r res) as [r1 e1]. specialize (IHl (seq_name n r1)). destruct (aseq DRight l (seq_name n r1)) as [r2 e2]. assert (Hs := seq_name_asize n r1). simpl in *. lia.
Qed.

Lemma seq_code dir t res : code "tree_fold_seq" (VPair (tenc t) (VPair (v_dir dir) (enc res))) (VStr id) = c_fold_seq F0 id o (tenc t) dir (enc res).
Proof.
  change (code "tree_fold_seq" (VPair (tenc t) (VPair (v_dir dir) (enc res))) (VStr id)) with
    (c_fold_seq F0 id o (tenc t) (dir_of (v_dir dir)) (enc res)). by rewrite dir_of_v.
Qed.
Lemma wp_fold_seq F own E dir t res r e :
  os_ty o = TyList →
  (∀ x v, os_leaf o x v = Ret (if keep x then v_cons x v else v)) → (∀ lev v, os_bin o lev v = Ret v) →
  (∀ own E n lev res, linked I E res → laid I (seq_cell n res) → fresh own (seq_cell n res) → (asize res < F0)%nat →
     wp I own pth E (os_name o n lev (enc res)) (λ v E', v = enc (seq_name n res) ∧ linked I E' (seq_name n res))) →
  aseq dir t res = (r, e) → tlinked I E t → linked I E res → laid I e → NoDup e.*1 → fresh own e →
  (theight t < F)%nat → (theight t < F0)%nat → (asize r < F0)%nat →
  wp I own pth E (c_fold_seq F id o (tenc t) dir (enc res)) (λ v E', v = enc r ∧ linked I E' r).
Proof.
  intros Hty Hleaf Hbin Hname. remember (theight t) as h eqn:Hh. revert F own E t res r e Hh.
  induction (lt_wf h) as [h _ IH]. intros F own E t res r e Hh Ha Hlt Hlr Hla Hnd Hfr HF HF0 Hr0.
  destruct F as [|F]; [lia|]. cbn [c_fold_seq]. assert (Hst := theight_strip t).
  apply wp_t_elim; [done|lia|]. intros E1 HE1. rewrite <- aseq_strip in Ha.
  assert (tlinked I E1 (tstrip t)) as Hlt1 by (eapply tlinked_mono; [by apply tlinked_strip|done]).
  assert (linked I E1 res) as Hlr1 by (by eapply linked_mono).
  destruct (tstrip t) as [|x|lev l0 r0|n lev l0 r0|a t'] eqn:Et; [| | | |done].
  - simpl in Ha. simplify_eq. by apply wp_ret.
  - simpl in Ha. simplify_eq. rewrite Hleaf. apply wp_ret. by destruct (keep x).
  - rewrite aseq_bin in Ha. set (lr := match dir with DLeft => (l0, r0) | DRight => (r0, l0) end) in *. cbv zeta in Ha.
    assert (tlinked I E1 lr.1 ∧ tlinked I E1 lr.2 ∧ (theight lr.1 < h)%nat ∧ (theight lr.2 < h)%nat) as (Hl1 & Hl2 & Hh1 & Hh2).
    { simpl in *. subst lr. destruct dir; simpl; (split_and!; [tauto|tauto|lia|lia]). }
    replace (match dir with DLeft => (tenc l0, tenc r0) | DRight => (tenc r0, tenc l0) end) with (tenc lr.1, tenc lr.2) by (subst lr; by destruct dir).
    destruct (aseq dir lr.1 res) as [r1 e1] eqn:E1'. destruct (aseq dir lr.2 r1) as [r2 e2] eqn:E2'. injection Ha as <- <-.
    rewrite laid_app in Hla. rewrite fresh_app in Hfr. rewrite fmap_app, NoDup_app in Hnd.
    assert (Hs2 := aseq_asize dir lr.2 r1). rewrite E2' in Hs2. simpl in Hs2.
    apply wp_bind. eapply wp_conseq.
    { eapply (IH (theight lr.1) Hh1 F own E1); [done|exact E1'|done|done|tauto|tauto|tauto|lia|lia|lia]. }
    intros v E2 HE2 (-> & Hk1). cbv beta. apply wp_bind. rewrite Hbin. apply wp_ret.
    eapply (IH (theight lr.2) Hh2 F own E2); [done|exact E2'|by eapply tlinked_mono|done|tauto|tauto|tauto|lia|lia|lia].
  - rewrite aseq_nm in Ha. set (lr := match dir with DLeft => (l0, r0) | DRight => (r0, l0) end) in *. cbv zeta in Ha.
    assert (tlinked I E1 lr.1 ∧ tlinked I E1 lr.2 ∧ (theight lr.1 < h)%nat ∧ (theight lr.2 < h)%nat) as (Hl1 & Hl2 & Hh1 & Hh2).
    { simpl in *. subst lr. destruct dir; simpl; (split_and!; [tauto|tauto|lia|lia]). }
    replace (match dir with DLeft => (tenc l0, tenc r0) | DRight => (tenc r0, tenc l0) end) with (tenc lr.1, tenc lr.2) by (subst lr; by destruct dir).
    destruct (aseq dir lr.1 res) as [r1 e1] eqn:E1'. destruct (aseq dir lr.2 (seq_name n r1)) as [r2 e2] eqn:E2'. injection Ha as <- <-.
    rewrite !laid_cons, !laid_app in Hla. rewrite !fresh_cons, !fresh_app in Hfr. rewrite !fmap_cons, !NoDup_cons, !fmap_app, !NoDup_app in Hnd. simpl in Hnd.
    rewrite !elem_of_cons, !elem_of_app in Hnd. destruct Hla as (L1 & L2 & Lc & Le1 & Le2), Hfr as (Fr1 & Fr2 & Frc & Fre1 & Fre2), Hnd as (N1 & N2 & Nc & _ & Ne1 & _ & Ne2).
    assert (Hs2 := aseq_asize dir lr.2 (seq_name n r1)). rewrite E2' in Hs2. simpl in Hs2.
    assert (Hs1 := seq_name_asize n r1).
    cbn [name_fork]. rewrite Hty. apply wp_memo; [done|exact L1|]. intros E2 HE2 _. rewrite seq_code.
    eapply wp_conseq.
    { eapply (IH (theight lr.1) Hh1 F0 _ E2); [done|exact E1'|by eapply tlinked_mono|by eapply linked_mono|done|done|apply fresh_some; tauto|lia|lia|lia]. }
    intros v E3 HE3 (-> & Hk1). cbv beta. apply wp_bind. eapply wp_conseq; [apply Hname; [done|done|done|lia]|].
    intros v E4 HE4 (-> & Hk2). cbv beta. apply wp_memo; [done|exact L2|]. intros E5 HE5 _. rewrite seq_code.
    eapply wp_conseq.
    { eapply (IH (theight lr.2) Hh2 F0 _ E5); [done|exact E2'|eapply tlinked_mono; [exact Hl2|sub]|by eapply linked_mono|done|done|apply fresh_some; tauto|lia|lia|lia]. }
    intros v E6 HE6 (-> & Hk3). by apply wp_ret.
Qed.
End Seq.

(** [list_of_tree] *)
Definition alist_of (pth : path) (dir : dir2) (t : atree) : alst * list (loc * content) :=
  aseq "list_of_tree" pth (λ _, true) (λ _, false) (invert dir) t ANil.
Lemma wp_list_of_tree pth F own E dir t r e : alist_of pth dir t = (r, e) → tlinked I E t → laid I e → NoDup e.*1 → fresh own e →
  (theight t < F)%nat → (theight t < F0)%nat → (asize r < F0)%nat →
  wp I own pth E (c_list_of_tree F (tenc t) dir) (λ v E', v = enc r ∧ linked I E' r).
Proof.
  intros Ha Hl Hla Hnd Hfr HF HF0 Hr. refine (wp_fold_seq "list_of_tree" pth (λ _, true) (λ _, false) F own E (invert dir) t ANil r e _ _ _ _ Ha _ _ _ _ _ _ _ _); try done.
  intros own' E' n lev res Hres Hc Hf Hsz. unfold seq_cell in *. apply laid_cons in Hc as [Hc _]. apply fresh_cons in Hf as [Hf _].
  apply wp_cell; [done|done|]. intros E2 HE2 Hin. apply wp_ret. split; [done|]. simpl. split; [done|]. left. split; [done|by eapply linked_mono].
Qed.
Lemma alist_of_erase pth dir t : erase (alist_of pth dir t).1 = list_of_tree (terase t) dir.
Proof. unfold alist_of. by rewrite (aseq_erase _ _ _ _ _ _ _ (λ _, false)). Qed.
(** [filter_list_of_tree] *)
Definition afilter_list (pth : path) (t : atree) : alst * list (loc * content) :=
  aseq "filter_list" pth pred (λ l, is_name (erase l)) DRight t ANil.
Lemma wp_is_name own pth F E l : linked I E l → (asize l ≤ F)%nat → wp I own pth E (c_is_name F (enc l)) (λ v _, v = VBool (is_name (erase l))).
Proof.
  intros Hl HF. assert (Hst := asize_strip l). assert (is_name (erase (strip l)) = is_name (erase l)) as <- by (clear; by induction l).
  apply wp_l_elim; [done|lia|]. intros E1 HE1 _. destruct (strip l) as [|x rest|n rest|a rest]; [by apply wp_ret..|done].
Qed.
Lemma wp_filter_list pth F own E t r e : afilter_list pth t = (r, e) → tlinked I E t → laid I e → NoDup e.*1 → fresh own e →
  F = F0 → (theight t < F)%nat → (asize r < F0)%nat →
  wp I own pth E (c_filter_list pred F (tenc t)) (λ v E', v = enc r ∧ linked I E' r).
Proof.
  intros Ha Hl Hla Hnd Hfr -> HF0 Hr. refine (wp_fold_seq "filter_list" pth pred (λ l, is_name (erase l)) F0 own E DRight t ANil r e _ _ _ _ Ha _ _ _ _ _ _ _ _); try done.
  intros own' E' n lev res Hres Hc Hf Hsz. unfold seq_cell, seq_name in *.
  apply wp_bind. eapply wp_conseq; [apply wp_is_name; [done|lia]|]. intros v E2 HE2 ->. cbv beta. destruct (is_name (erase res)).
  - rewrite decide_True by done. apply wp_ret. split; [done|by eapply linked_mono].
  - rewrite decide_False by done. apply laid_cons in Hc as [Hc _]. apply fresh_cons in Hf as [Hf _].
    apply wp_cell; [done|done|]. intros E3 HE3 Hin. apply wp_ret. split; [done|]. simpl. split; [done|]. left. split; [done|eapply linked_mono; [exact Hres|sub]].
Qed.
Lemma afilter_list_erase pth t : erase (afilter_list pth t).1 = filter_list_of_tree (terase t) pred.
Proof. unfold afilter_list, filter_list_of_tree. by rewrite (aseq_erase _ _ _ _ _ _ _ is_name). Qed.
End CatSeq.
