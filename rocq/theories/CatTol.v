(** * The catalog's [tree_of_list], in a layout. *)
From Verif Require Export CatFold.
Local Open Scope string_scope.
Local Open Scope list_scope.

Section CatTol.
Context `{Hashes} `{Hash64 val}.
Context (body : val → val) (pred : val → bool) (id_elm : val) (bin_op : val → val → val) (le : val → val → bool).
Context (F0 : nat) (hv : val → N) (ha : progpt → val → N).
Local Instance P1 : Prog := cat body pred id_elm bin_op le F0 hv ha.
Context (I : store).
Notation nloc pth n := (Loc pth (IdNom n)).

Definition tol_thunk (dir : dir2) (l : alst) (t : val) (tl pl : N) : content :=
  CThunk TyTL "tree_of_list_rec" (tol_arg dir (enc l) t tl pl) VUnit.
(** [tree_of_list_rec] with locations: the tree, the rest of the list, and what is allocated. *)
Fixpoint atol (fuel : nat) (pth : path) (dir : dir2) (l : alst) (t : atree) (tl pl : N) : option (atree * alst * list (loc * content)) :=
  match fuel with
  | O => None
  | S fuel =>
      match l with
      | AArt _ l => atol fuel pth dir l t tl pl
      | ANil => Some (t, ANil, [])
      | ACons x rest =>
          let lev := lev_of_elt x in
          if (tl <=? lev)%N && (lev <=? pl)%N then
            match atol fuel pth dir rest (BLeaf x) lev_zero lev with
            | None => None
            | Some (t2, rest2, e1) =>
                match atol fuel pth dir rest2 (match dir with DLeft => BBin lev t t2 | DRight => BBin lev t2 t end) lev pl with
                | None => None
                | Some (t', l', e2) => Some (t', l', e1 ++ e2)
                end
            end
          else Some (t, ACons x rest, [])
      | AName n rest =>
          let lev := lev_of_name n in
          if (tl <=? lev)%N && (lev <=? pl)%N then
            match atol fuel pth dir rest BNil lev_zero lev with
            | None => None
            | Some (t2, rest2, e1) =>
                let t3 := match dir with DLeft => BName n lev t t2 | DRight => BName n lev t2 t end in
                match atol fuel pth dir rest2 (BArt (nloc pth n) t3) lev pl with
                | None => None
                | Some (t', l', e2) =>
                    Some (t', l', (nloc pth (name_fork n).1, tol_thunk dir rest v_tnil lev_zero lev)
                                  :: (nloc pth n, CCell TyTree (tenc t3))
                                  :: (nloc pth (name_fork n).2, tol_thunk dir rest2 (v_tart (nloc pth n)) lev pl) :: e1 ++ e2)
                end
            end
          else Some (t, AName n rest, [])
      end
  end.

Lemma atol_erase fuel pth dir l t tl pl :
  tree_of_list_rec fuel dir (erase l) (terase t) tl pl =
  (λ x, (terase x.1.1, erase x.1.2)) <$> atol fuel pth dir l t tl pl.
Proof.
  revert l t tl pl. induction fuel as [|fuel IH]; intros l t tl pl; [done|].
  destruct l as [|x l|n l|a l]; cbn [atol erase tree_of_list_rec].
  - done.
  - destruct (_ && _); [|done]. change (TLeaf x) with (terase (BLeaf x)). rewrite IH. destruct (atol fuel pth dir l (BLeaf x) lev_zero (lev_of_elt x)) as [[[t2 rest2] e1]|]; [|done]. simpl.
    rewrite <- (IH rest2 (match dir with DLeft => BBin (lev_of_elt x) t t2 | DRight => BBin (lev_of_elt x) t2 t end)) || idtac.
    set (u := match dir with DLeft => BBin (lev_of_elt x) t t2 | DRight => BBin (lev_of_elt x) t2 t end).
    replace (match dir with DLeft => TBin (lev_of_elt x) (terase t) (terase t2) | DRight => TBin (lev_of_elt x) (terase t2) (terase t) end) with (terase u) by (subst u; by destruct dir).
    rewrite IH. by destruct (atol fuel pth dir rest2 u (lev_of_elt x) pl) as [[[t' l'] e2]|].
  - destruct (_ && _); [|done]. change TNil with (terase BNil). rewrite IH. destruct (atol fuel pth dir l BNil lev_zero (lev_of_name n)) as [[[t2 rest2] e1]|]; [|done]. simpl.
    set (u := match dir with DLeft => BName n (lev_of_name n) t t2 | DRight => BName n (lev_of_name n) t2 t end).
    replace (TArt match dir with DLeft => TName n (lev_of_name n) (terase t) (terase t2) | DRight => TName n (lev_of_name n) (terase t2) (terase t) end) with (terase (BArt (nloc pth n) u)) by (subst u; by destruct dir).
    rewrite IH. by destruct (atol fuel pth dir rest2 (BArt (nloc pth n) u) (lev_of_name n) pl) as [[[t' l'] e2]|].
  - apply IH.
Qed.
Lemma atol_mono fuel fuel' pth dir l t tl pl x : atol fuel pth dir l t tl pl = Some x → (fuel ≤ fuel')%nat → atol fuel' pth dir l t tl pl = Some x.
Proof.
  revert fuel' l t tl pl x. induction fuel as [|fuel IH]; intros fuel' l t tl pl x Hx Hle; [done|]. destruct fuel' as [|fuel']; [lia|].
  assert (fuel ≤ fuel')%nat as Hle' by lia.
  destruct l as [|y l|n l|a l]; cbn [atol] in *; [done| | |by eapply IH].
  - destruct (_ && _); [|done]. destruct (atol fuel pth dir l (BLeaf y) lev_zero (lev_of_elt y)) as [[[t2 rest2] e1]|] eqn:E1; [|done].
    rewrite (IH _ _ _ _ _ _ E1 Hle'). destruct (atol fuel pth dir rest2 _ (lev_of_elt y) pl) as [[[t' l'] e2]|] eqn:E2; [|done]. by rewrite (IH _ _ _ _ _ _ E2 Hle').
  - destruct (_ && _); [|done]. destruct (atol fuel pth dir l BNil lev_zero (lev_of_name n)) as [[[t2 rest2] e1]|] eqn:E1; [|done].
    rewrite (IH _ _ _ _ _ _ E1 Hle'). destruct (atol fuel pth dir rest2 _ (lev_of_name n) pl) as [[[t' l'] e2]|] eqn:E2; [|done]. by rewrite (IH _ _ _ _ _ _ E2 Hle').
Qed.
Lemma atol_strip fuel pth dir l t tl pl x : atol fuel pth dir l t tl pl = Some x → atol fuel pth dir (strip l) t tl pl = Some x.
Proof.
  revert fuel. induction l as [| | |a l IH]; intros fuel Hx; try done. destruct fuel as [|fuel]; [done|]. cbn [atol] in Hx. cbn [strip].
  eapply atol_mono; [by apply IH|lia].
Qed.
Lemma atol_asize fuel pth dir l t tl pl t' l' e : atol fuel pth dir l t tl pl = Some (t', l', e) → (asize l' ≤ asize l)%nat.
Proof.
  revert l t tl pl t' l' e. induction fuel as [|fuel IH]; intros l t tl pl t' l' e Hx; [done|].
  destruct l as [|y l|n l|a l]; cbn [atol] in Hx; [by simplify_eq| | |apply IH in Hx; simpl; lia].
  - destruct (_ && _); [|by simplify_eq]. destruct (atol fuel pth dir l (BLeaf y) lev_zero (lev_of_elt y)) as [[[t2 rest2] e1]|] eqn:E1; [|done].
    destruct (atol fuel pth dir rest2 _ (lev_of_elt y) pl) as [[[t3 l3] e2]|] eqn:E2; [|done]. simplify_eq. apply IH in E1, E2. simpl; lia.
  - destruct (_ && _); [|by simplify_eq]. destruct (atol fuel pth dir l BNil lev_zero (lev_of_name n)) as [[[t2 rest2] e1]|] eqn:E1; [|done].
    destruct (atol fuel pth dir rest2 _ (lev_of_name n) pl) as [[[t3 l3] e2]|] eqn:E2; [|done]. simplify_eq. apply IH in E1, E2. simpl; lia.
Qed.

(** Where things are allocated: at the names consumed and their forks. *)
Definition name3 (n : name) : list name := [n; (name_fork n).1; (name_fork n).2].
Lemma atol_locs fuel pth dir l t tl pl t' l' e : atol fuel pth dir l t tl pl = Some (t', l', e) →
  ∃ D, names (erase l) = D ++ names (erase l') ∧ e.*1 ≡ₚ (λ n, nloc pth n) <$> (D ≫= name3).
Proof.
  revert l t tl pl t' l' e. induction fuel as [|fuel IH]; intros l t tl pl t' l' e Hx; [done|].
  destruct l as [|y l|n l|a l]; cbn [atol] in Hx.
  - simplify_eq. by exists [].
  - destruct (_ && _); [|simplify_eq; by exists []].
    destruct (atol fuel pth dir l (BLeaf y) lev_zero (lev_of_elt y)) as [[[t2 rest2] e1]|] eqn:E1; [|done].
    destruct (atol fuel pth dir rest2 _ (lev_of_elt y) pl) as [[[t3 l3] e2]|] eqn:E2; [|done]. simplify_eq.
    apply IH in E1 as (D1 & N1 & L1). apply IH in E2 as (D2 & N2 & L2). exists (D1 ++ D2).
    rewrite bind_app, !fmap_app, L1, L2, <- (assoc_L (++)), <- N2. split; [exact N1|done].
  - destruct (_ && _); [|simplify_eq; by exists []].
    destruct (atol fuel pth dir l BNil lev_zero (lev_of_name n)) as [[[t2 rest2] e1]|] eqn:E1; [|done].
    destruct (atol fuel pth dir rest2 _ (lev_of_name n) pl) as [[[t3 l3] e2]|] eqn:E2; [|done]. simplify_eq.
    apply IH in E1 as (D1 & N1 & L1). apply IH in E2 as (D2 & N2 & L2). exists (n :: D1 ++ D2).
    split.
    + change (names (erase (AName n l))) with (n :: names (erase l)). rewrite N1, N2. simpl. by rewrite (assoc_L (++)).
    + rewrite bind_cons, bind_app. cbn [name3 app fmap list_fmap fst]. rewrite !fmap_app, L1, L2. apply perm_swap.
  - apply IH in Hx as (D & N & L). by exists D.
Qed.

Lemma dir_of_v d : dir_of (v_dir d) = d.
Proof. by destruct d. Qed.
Lemma tol_code dir l t tl pl : code "tree_of_list_rec" (tol_arg dir l t tl pl) VUnit = c_tol F0 dir l t tl pl.
Proof.
  change (code "tree_of_list_rec" (tol_arg dir l t tl pl) VUnit) with
    (c_tol F0 (dir_of (v_dir dir)) l t (Z.to_N (Z.of_N tl)) (Z.to_N (Z.of_N pl))). by rewrite dir_of_v, !N2Z.id.
Qed.

Lemma wp_tol fuel F own pth E dir l t tl pl t' l' e :
  atol fuel pth dir l t tl pl = Some (t', l', e) → linked I E l → tlinked I E t → laid I e → NoDup e.*1 → fresh own e →
  (asize l < F)%nat → (asize l < F0)%nat →
  wp I own pth E (c_tol F dir (enc l) (tenc t) tl pl) (λ v E', v = VPair (tenc t') (enc l') ∧ linked I E' l' ∧ tlinked I E' t').
Proof.
  remember (asize l) as h eqn:Hh. revert fuel F own E l t tl pl t' l' e Hh.
  induction (lt_wf h) as [h _ IH]. intros fuel F own E l t tl pl t' l' e Hh Ha Hll Hlt Hla Hnd Hfr HF HF0.
  destruct F as [|F]; [lia|]. cbn [c_tol]. assert (Hst := asize_strip l).
  apply wp_l_elim; [done|lia|]. intros E1 HE1 Hll1. apply atol_strip in Ha.
  assert (tlinked I E1 t) as Hlt1 by (by eapply tlinked_mono).
  destruct (strip l) as [|x rest|n rest|a rest] eqn:El; [| | |done]; destruct fuel as [|fuel]; try done; cbn [atol] in Ha.
  - simplify_eq. by apply wp_ret.
  - destruct (_ && _); [|simplify_eq; by apply wp_ret].
    destruct (atol fuel pth dir rest (BLeaf x) lev_zero (lev_of_elt x)) as [[[t2 rest2] e1]|] eqn:E1'; [|done].
    set (t3 := match dir with DLeft => BBin (lev_of_elt x) t t2 | DRight => BBin (lev_of_elt x) t2 t end) in *.
    destruct (atol fuel pth dir rest2 t3 (lev_of_elt x) pl) as [[[t4 l4] e2]|] eqn:E2'; [|done]. injection Ha as <- <- <-.
    rewrite laid_app in Hla. rewrite fresh_app in Hfr. rewrite fmap_app, NoDup_app in Hnd. assert (Hsz := atol_asize _ _ _ _ _ _ _ _ _ _ E1'). simpl in Hst.
    apply wp_bind. eapply wp_conseq.
    { eapply (IH (asize rest) ltac:(lia) fuel F own E1 rest (BLeaf x)); [done|exact E1'|done|done|tauto|tauto|tauto|lia|lia]. }
    intros v E2 HE2 (-> & Hl2 & Ht2). cbv beta. cbn [p_fst p_snd].
    replace (match dir with DLeft => v_bin (lev_of_elt x) (tenc t) (tenc t2) | DRight => v_bin (lev_of_elt x) (tenc t2) (tenc t) end) with (tenc t3) by (subst t3; by destruct dir).
    eapply (IH (asize rest2) ltac:(lia) fuel F own E2 rest2 t3); [done|exact E2'|done| |tauto|tauto|tauto|lia|lia].
    subst t3. assert (tlinked I E2 t) by (by eapply tlinked_mono). by destruct dir.
  - destruct (_ && _); [|simplify_eq; by apply wp_ret].
    destruct (atol fuel pth dir rest BNil lev_zero (lev_of_name n)) as [[[t2 rest2] e1]|] eqn:E1'; [|done].
    set (t3 := match dir with DLeft => BName n (lev_of_name n) t t2 | DRight => BName n (lev_of_name n) t2 t end) in *.
    destruct (atol fuel pth dir rest2 (BArt (nloc pth n) t3) (lev_of_name n) pl) as [[[t4 l4] e2]|] eqn:E2'; [|done]. injection Ha as <- <- <-.
    rewrite !laid_cons, laid_app in Hla. rewrite !fresh_cons, fresh_app in Hfr. rewrite !fmap_cons, !NoDup_cons, fmap_app, NoDup_app in Hnd. simpl in Hnd.
    rewrite !elem_of_cons, !elem_of_app in Hnd. assert (Hsz := atol_asize _ _ _ _ _ _ _ _ _ _ E1'). simpl in Hst.
    destruct Hla as (L1 & Lc & L2 & Le1 & Le2), Hfr as (Fr1 & Frc & Fr2 & Fre1 & Fre2), Hnd as (N1 & Nc & N2 & Ne1 & _ & Ne2).
    cbn [name_fork]. apply wp_eager; [done|exact L1|]. intros E2 HE2 _. rewrite tol_code.
    eapply wp_conseq.
    { eapply (IH (asize rest) ltac:(lia) fuel F0 _ E2 rest BNil); [done|exact E1'|by eapply linked_mono|done|done|done|apply fresh_some; tauto|lia|lia]. }
    intros v E3 HE3 (-> & Hl3 & Ht3). cbv beta. cbn [p_fst p_snd].
    replace (match dir with DLeft => v_tname n (lev_of_name n) (tenc t) (tenc t2) | DRight => v_tname n (lev_of_name n) (tenc t2) (tenc t) end) with (tenc t3) by (subst t3; by destruct dir).
    assert (tlinked I E3 t3) as Ht3'. { assert (tlinked I E3 t) by (eapply tlinked_mono; [exact Hlt|sub]). subst t3. by destruct dir. }
    apply wp_cell; [done|done|]. intros E4 HE4 Hin.
    apply wp_eager; [done|exact L2|]. intros E5 HE5 _. rewrite tol_code.
    eapply wp_conseq.
    { eapply (IH (asize rest2) ltac:(lia) fuel F0 _ E5 rest2 (BArt (nloc pth n) t3)); [done|exact E2'|eapply linked_mono; [exact Hl3|sub]| |done|done|apply fresh_some; tauto|lia|lia].
      split; [|eapply tlinked_mono; [exact Ht3'|sub]]. split; [set_solver|by left]. }
    intros v E6 HE6 (-> & Hl6 & Ht6). by apply wp_ret.
Qed.

(** [is_empty] *)
Lemma wp_is_empty own pth F E l : linked I E l → (asize l < F)%nat → wp I own pth E (c_is_empty F (enc l)) (λ v _, v = VBool (is_empty (erase l))).
Proof.
  remember (asize l) as h eqn:Hh. revert F E l Hh. induction (lt_wf h) as [h _ IH]. intros F E l Hh Hl HF. destruct F as [|F]; [lia|]. cbn [c_is_empty].
  assert (Hst := asize_strip l). assert (is_empty (erase (strip l)) = is_empty (erase l)) as <- by (clear; by induction l).
  apply wp_l_elim; [done|lia|]. intros E1 HE1 Hl1.
  destruct (strip l) as [|x rest|n rest|a rest]; [by apply wp_ret|by apply wp_ret| |done]. simpl in *. eapply (IH (asize rest)); [lia|done|done|lia].
Qed.

(** [find] *)
Lemma wp_find own pth F E l d : linked I E l → (asize l < F)%nat →
  wp I own pth E (c_find F (enc l) d) (λ v _, v = v_option (bindings ((λ x, (p_fst x, p_snd x)) <$> elems (erase l)) d)).
Proof.
  remember (asize l) as h eqn:Hh. revert F E l Hh. induction (lt_wf h) as [h _ IH]. intros F E l Hh Hl HF. destruct F as [|F]; [lia|]. cbn [c_find].
  assert (Hst := asize_strip l). assert (elems (erase (strip l)) = elems (erase l)) as <- by (clear; by induction l).
  apply wp_l_elim; [done|lia|]. intros E1 HE1 Hl1.
  destruct (strip l) as [|x rest|n rest|a rest]; [by apply wp_ret| | |done].
  - cbn [erase]. rewrite elems_cons, fmap_cons. cbn [bindings]. destruct (decide (d = p_fst x)) as [->|Hne].
    + rewrite decide_True by done. by apply wp_ret.
    + rewrite decide_False by congruence. simpl in *. eapply (IH (asize rest)); [lia|done|done|lia].
  - simpl in *. eapply (IH (asize rest)); [lia|done|done|lia].
Qed.

(** [tree_of_list] *)
Lemma wp_tree_of_list fuel F own pth E dir l t l' e :
  atol fuel pth dir l BNil lev_zero lev_max_val = Some (t, l', e) → is_empty (erase l') = true → linked I E l → laid I e → NoDup e.*1 → fresh own e →
  (asize l < F)%nat → (asize l < F0)%nat →
  wp I own pth E (c_tree_of_list F dir (enc l)) (λ v E', v = tenc t ∧ tlinked I E' t).
Proof.
  intros Ha Hem Hl Hla Hnd Hfr HF HF0. apply wp_bind. eapply wp_conseq; [by eapply (wp_tol fuel F own pth E dir l BNil)|].
  intros v E1 HE1 (-> & Hl1 & Ht1). cbv beta. cbn [p_fst p_snd]. apply wp_bind. assert (Hsz := atol_asize _ _ _ _ _ _ _ _ _ _ Ha).
  eapply wp_conseq; [apply wp_is_empty; [done|lia]|]. intros v E2 HE2 ->. cbv beta. rewrite Hem, decide_True by done. apply wp_ret. split; [done|by eapply tlinked_mono].
Qed.

(** The tree exists. *)
Lemma asize_erase l : asize l = lsize (erase l).
Proof. induction l; simpl; lia. Qed.
Lemma atol_total pth dir l fuel : (asize l < fuel)%nat →
  ∃ t l' e, atol fuel pth dir l BNil lev_zero lev_max_val = Some (t, l', e) ∧ is_empty (erase l') = true ∧
    tree_of_list fuel dir (erase l) = Built (terase t).
Proof.
  intros Hf. rewrite asize_erase in Hf. destruct (C38_tree_of_list dir (erase l) fuel Hf) as (t & E & _). revert E. unfold tree_of_list.
  change TNil with (terase BNil). rewrite (atol_erase fuel pth). destruct (atol fuel pth dir l BNil lev_zero lev_max_val) as [[[t' l'] e]|]; simpl; [|done].
  destruct (is_empty (erase l')) eqn:Hem; [|done]. intros _. by exists t', l', e.
Qed.
End CatTol.
