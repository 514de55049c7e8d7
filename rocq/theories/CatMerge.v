(** * The catalog's [list_merge] and [mergesort_list_of_tree], in a layout. *)
From Verif Require Export CatSeq.
Local Open Scope string_scope.
Local Open Scope list_scope.

Section CatMerge.
Context `{Hashes} `{Hash64 val}.
Context (body : val → val) (pred : val → bool) (id_elm : val) (bin_op : val → val → val) (le : val → val → bool).
Context (F0 : nat) (hv : val → N) (ha : progpt → val → N).
Local Instance P3 : Prog := cat body pred id_elm bin_op le F0 hv ha.
Context (I : store).
Notation nloc pth n := (Loc pth (IdNom n)).

Definition aname_op (n : option name) (l : alst) : alst := match n with None => l | Some n => AName n l end.
Definition merge_thunk (n1 : option name) (l1 : alst) (n2 : option name) (l2 : alst) : content :=
  CThunk TyList "list_merge" (merge_arg n1 (enc l1) n2 (enc l2)) VUnit.
Section Def.
Context (pth : path).
(** [h] in front of the lazy or eager rest [r], which is merged from [l1] and [l2]. *)
Definition acons (n : option name) (h : val) (re : alst * list (loc * content)) (th : content) : alst * list (loc * content) :=
  match n with
  | None => (ACons h re.1, re.2)
  | Some n => (AName (name_fork n).2 (ACons h (AArt (nloc pth (name_fork n).1) re.1)), (nloc pth (name_fork n).1, th) :: re.2)
  end.
Fixpoint amerge (n1 : option name) (l1 : alst) (n2 : option name) (l2 : alst) {struct l1} : alst * list (loc * content) :=
  match l1 with
  | ANil => (aname_op n2 l2, [])
  | AArt _ l1 => amerge n1 l1 n2 l2
  | AName m1 t1 => amerge (Some m1) t1 n2 l2
  | ACons h1 t1 =>
      (fix inner (n2 : option name) (l2 : alst) {struct l2} : alst * list (loc * content) :=
        match l2 with
        | ANil => (aname_op n1 (ACons h1 t1), [])
        | AArt _ l2 => inner n2 l2
        | AName m2 t2 => inner (Some m2) t2
        | ACons h2 t2 =>
            if le h1 h2 then acons n1 h1 (amerge None t1 n2 (ACons h2 t2)) (merge_thunk None t1 n2 (ACons h2 t2))
            else acons n2 h2 (inner None t2) (merge_thunk n1 (ACons h1 t1) None t2)
        end) n2 l2
  end.
Lemma amerge_cc n1 h1 t1 n2 h2 t2 : amerge n1 (ACons h1 t1) n2 (ACons h2 t2) =
  if le h1 h2 then acons n1 h1 (amerge None t1 n2 (ACons h2 t2)) (merge_thunk None t1 n2 (ACons h2 t2))
  else acons n2 h2 (amerge n1 (ACons h1 t1) None t2) (merge_thunk n1 (ACons h1 t1) None t2).
Proof. done. Qed.
Lemma amerge_strip1 n1 l1 n2 l2 : amerge n1 (strip l1) n2 l2 = amerge n1 l1 n2 l2.
Proof. by induction l1. Qed.
Lemma amerge_strip2 n1 h1 t1 n2 l2 : amerge n1 (ACons h1 t1) n2 (strip l2) = amerge n1 (ACons h1 t1) n2 l2.
Proof. by induction l2. Qed.
Lemma erase_aname_op n l : erase (aname_op n l) = list_name_op n (erase l).
Proof. by destruct n. Qed.

(** Induction over a merge. *)
Lemma merge_ind (R : option name → alst → option name → alst → Prop) :
  (∀ n1 n2 l2, R n1 ANil n2 l2) →
  (∀ n1 a l1 n2 l2, R n1 l1 n2 l2 → R n1 (AArt a l1) n2 l2) →
  (∀ n1 m1 t1 n2 l2, R (Some m1) t1 n2 l2 → R n1 (AName m1 t1) n2 l2) →
  (∀ n1 h1 t1 n2, R n1 (ACons h1 t1) n2 ANil) →
  (∀ n1 h1 t1 n2 a l2, R n1 (ACons h1 t1) n2 l2 → R n1 (ACons h1 t1) n2 (AArt a l2)) →
  (∀ n1 h1 t1 n2 m2 t2, R n1 (ACons h1 t1) (Some m2) t2 → R n1 (ACons h1 t1) n2 (AName m2 t2)) →
  (∀ n1 h1 t1 n2 h2 t2, le h1 h2 = true → R None t1 n2 (ACons h2 t2) → R n1 (ACons h1 t1) n2 (ACons h2 t2)) →
  (∀ n1 h1 t1 n2 h2 t2, le h1 h2 = false → R n1 (ACons h1 t1) None t2 → R n1 (ACons h1 t1) n2 (ACons h2 t2)) →
  ∀ n1 l1 n2 l2, R n1 l1 n2 l2.
Proof.
  intros H1 H2 H3 H4 H5 H6 H7 H8 n1 l1. revert n1. induction l1 as [|h1 t1 IH1|m1 t1 IH1|a l1 IH1]; intros n1 n2 l2; [by apply H1| |by apply H3|by apply H2].
  revert n2. induction l2 as [|h2 t2 IH2|m2 t2 IH2|a l2 IH2]; intros n2; [by apply H4| |by apply H6|by apply H5].
  destruct (le h1 h2) eqn:E; [by apply H7|by apply H8].
Qed.

Lemma amerge_erase n1 l1 n2 l2 : erase (amerge n1 l1 n2 l2).1 = list_merge le n1 (erase l1) n2 (erase l2).
Proof.
  assert (∀ n1 h1 t1 n2 h2 t2, list_merge le n1 (LCons h1 t1) n2 (LCons h2 t2) =
    if le h1 h2 then match n1 with None => LCons h1 (list_merge le None t1 n2 (LCons h2 t2)) | Some n1 => LName (name_fork n1).2 (LCons h1 (LArt (list_merge le None t1 n2 (LCons h2 t2)))) end
    else match n2 with None => LCons h2 (list_merge le n1 (LCons h1 t1) None t2) | Some n2 => LName (name_fork n2).2 (LCons h2 (LArt (list_merge le n1 (LCons h1 t1) None t2))) end) as Hcc by done.
  revert n1 l1 n2 l2. apply merge_ind.
  - intros. apply erase_aname_op.
  - done.
  - done.
  - intros. apply erase_aname_op.
  - done.
  - done.
  - intros n1 h1 t1 n2 h2 t2 E IH. cbn [erase] in *. rewrite amerge_cc, Hcc, E. rewrite <- IH. by destruct n1.
  - intros n1 h1 t1 n2 h2 t2 E IH. cbn [erase] in *. rewrite amerge_cc, Hcc, E. rewrite <- IH. by destruct n2.
Qed.
Lemma asize_aname_op n l : (asize l ≤ asize (aname_op n l))%nat.
Proof. destruct n; simpl; lia. Qed.

Lemma merge_code n1 l1 n2 l2 : code "list_merge" (merge_arg n1 l1 n2 l2) VUnit = c_merge le F0 n1 l1 n2 l2.
Proof.
  change (code "list_merge" (merge_arg n1 l1 n2 l2) VUnit) with (c_merge le F0 (opt_of (v_opt n1)) l1 (opt_of (v_opt n2)) l2). by destruct n1, n2.
Qed.
Lemma enc_aname_op n l : enc (aname_op n l) = v_name_op n (enc l).
Proof. by destruct n. Qed.
Lemma linked_aname_op E n l : linked I E l → linked I E (aname_op n l).
Proof. by destruct n. Qed.

Lemma wp_merge F own E n1 l1 n2 l2 :
  linked I E l1 → linked I E l2 → laid I (amerge n1 l1 n2 l2).2 → NoDup (amerge n1 l1 n2 l2).2.*1 → fresh own (amerge n1 l1 n2 l2).2 →
  (asize l1 + asize l2 < F)%nat → (asize l1 + asize l2 < F0)%nat →
  wp I own pth E (c_merge le F n1 (enc l1) n2 (enc l2)) (λ v E', v = enc (amerge n1 l1 n2 l2).1 ∧ linked I E' (amerge n1 l1 n2 l2).1).
Proof.
  remember (asize l1 + asize l2)%nat as h eqn:Hh. revert F own E n1 l1 n2 l2 Hh.
  induction (lt_wf h) as [h _ IH]. intros F own E n1 l1 n2 l2 Hh Hl1 Hl2 Hla Hnd Hfr HF HF0.
  destruct F as [|F]; [lia|]. cbn [c_merge]. assert (Hst1 := asize_strip l1). assert (Hst2 := asize_strip l2).
  apply wp_l_elim; [done|lia|]. intros E1 HE1 Hk1. rewrite <- amerge_strip1 in Hla, Hnd, Hfr |- *.
  destruct (strip l1) as [|h1 t1|m1 t1|a1 t1]; [| | |done]; simpl in Hst1.
  - cbn [amerge fst]. apply wp_ret. split; [by rewrite enc_aname_op|]. apply linked_aname_op. by eapply linked_mono.
  - apply wp_l_elim; [by eapply linked_mono|lia|]. intros E2 HE2 Hk2. rewrite <- amerge_strip2 in Hla, Hnd, Hfr |- *.
    assert (linked I E2 t1) as Hk1' by (by eapply linked_mono).
    destruct (strip l2) as [|h2 t2|m2 t2|a2 t2]; [| | |done]; simpl in Hst2.
    + cbn [amerge fst]. apply wp_ret. split; [by rewrite enc_aname_op|]. apply linked_aname_op. done.
    + rewrite amerge_cc in Hla, Hnd, Hfr |- *. destruct (le h1 h2).
      * destruct n1 as [n1|]; cbn [acons fst snd] in *.
        -- rewrite laid_cons in Hla. rewrite fresh_cons in Hfr. rewrite fmap_cons, NoDup_cons in Hnd. destruct Hla as [L1 Le], Hfr as [Fr1 Fre], Hnd as [N1 Ne].
           cbn [name_fork]. apply wp_thunk; [done|exact L1|]. intros E3 HE3 Hin. apply wp_ret. split; [done|].
           cbn [linked]. split; [done|]. right. do 3 eexists.
           destruct (IH (asize t1 + asize (ACons h2 t2))%nat ltac:(simpl; lia) F0 (Some (nloc pth (name_fork n1).1)) E3 None t1 n2 (ACons h2 t2)) as (v & n & E4 & Hev & -> & Hk4);
             [done|by eapply linked_mono|by apply (linked_mono I E2 E3 (ACons h2 t2))|done|done|by apply fresh_some|simpl; lia|simpl; lia|].
           exists n, E4. split_and!; [exact L1| |done]. rewrite merge_code. exact Hev.
        -- apply wp_bind. eapply wp_conseq.
           { apply (IH (asize t1 + asize (ACons h2 t2))%nat ltac:(simpl; lia) F own E2 None t1 n2 (ACons h2 t2)); [done|done|done|done|done|done|simpl; lia|simpl; lia]. }
           intros v E3 HE3 [-> Hk3]. by apply wp_ret.
      * destruct n2 as [n2|]; cbn [acons fst snd] in *.
        -- rewrite laid_cons in Hla. rewrite fresh_cons in Hfr. rewrite fmap_cons, NoDup_cons in Hnd. destruct Hla as [L1 Le], Hfr as [Fr1 Fre], Hnd as [N1 Ne].
           cbn [name_fork]. apply wp_thunk; [done|exact L1|]. intros E3 HE3 Hin. apply wp_ret. split; [done|].
           cbn [linked]. split; [done|]. right. do 3 eexists.
           destruct (IH (asize (ACons h1 t1) + asize t2)%nat ltac:(simpl; lia) F0 (Some (nloc pth (name_fork n2).1)) E3 n1 (ACons h1 t1) None t2) as (v & n & E4 & Hev & -> & Hk4);
             [done|by apply (linked_mono I E2 E3 (ACons h1 t1))|by eapply linked_mono|done|done|by apply fresh_some|simpl; lia|simpl; lia|].
           exists n, E4. split_and!; [exact L1| |done]. rewrite merge_code. exact Hev.
        -- apply wp_bind. eapply wp_conseq.
           { apply (IH (asize (ACons h1 t1) + asize t2)%nat ltac:(simpl; lia) F own E2 n1 (ACons h1 t1) None t2); [done|done|done|done|done|done|simpl; lia|simpl; lia]. }
           intros v E3 HE3 [-> Hk3]. by apply wp_ret.
    + apply (IH (asize (ACons h1 t1) + asize t2)%nat ltac:(simpl; lia) F own E2 n1 (ACons h1 t1) (Some m2) t2); [done|done|done|done|done|done|simpl; lia|simpl; lia].
  - apply (IH (asize t1 + asize l2)%nat ltac:(lia) F own E1 (Some m1) t1 n2 l2); [done|done|by eapply linked_mono|done|done|done|lia|lia].
Qed.

(** What a merge allocates, and the names of the result: [U] are the names used, [V] those passed on. *)
Definition anames (l : alst) : list name := names (erase l).
Lemma amerge_locs n1 l1 n2 l2 : ∃ U V, U ++ V ⊆+ option_list n1 ++ anames l1 ++ option_list n2 ++ anames l2 ∧
  (amerge n1 l1 n2 l2).2.*1 = (λ n, nloc pth (name_fork n).1) <$> U ∧
  anames (amerge n1 l1 n2 l2).1 ⊆+ ((λ n, (name_fork n).2) <$> U) ++ V.
Proof.
  revert n1 l1 n2 l2. apply merge_ind.
  - intros n1 n2 l2. exists [], (option_list n2 ++ anames l2). split_and!; [simpl; by apply submseteq_inserts_l|done|]. by destruct n2.
  - done.
  - intros n1 m1 t1 n2 l2 (U & V & H1 & H2 & H3). exists U, V. split_and!; [|done|done]. etrans; [exact H1|]. by apply submseteq_inserts_l.
  - intros n1 h1 t1 n2. exists [], (option_list n1 ++ anames (ACons h1 t1)). split_and!; [|done|by destruct n1]. simpl.
    rewrite (assoc_L (++)). by apply submseteq_inserts_r.
  - done.
  - intros n1 h1 t1 n2 m2 t2 (U & V & H1 & H2 & H3). exists U, V. split_and!; [|done|done]. etrans; [exact H1|].
    apply submseteq_app; [done|]. apply submseteq_app; [done|]. change (anames (AName m2 t2)) with (m2 :: anames t2). by apply submseteq_inserts_l.
  - intros n1 h1 t1 n2 h2 t2 E (U & V & H1 & H2 & H3). rewrite amerge_cc, E. change (anames (ACons h2 t2)) with (anames t2) in *. change (anames (ACons h1 t1)) with (anames t1). simpl in H1.
    destruct n1 as [n1|]; cbn [acons fst snd option_list].
    + exists (n1 :: U), V. split_and!; [simpl; by apply submseteq_skip|by rewrite !fmap_cons, H2|].
      set (r := (amerge None t1 n2 (ACons h2 t2)).1) in *. change (anames (AName (name_fork n1).2 (ACons h1 (AArt (nloc pth (name_fork n1).1) r)))) with ((name_fork n1).2 :: anames r).
      simpl. by apply submseteq_skip.
    + by exists U, V.
  - intros n1 h1 t1 n2 h2 t2 E (U & V & H1 & H2 & H3). rewrite amerge_cc, E. change (anames (ACons h2 t2)) with (anames t2) in *. change (anames (ACons h1 t1)) with (anames t1) in *. simpl in H1.
    destruct n2 as [n2|]; cbn [acons fst snd option_list].
    + exists (n2 :: U), V. split_and!; [|by rewrite !fmap_cons, H2|].
      { rewrite (assoc_L (++) (option_list n1)) in H1 |- *. simpl. rewrite <- (Permutation_middle (option_list n1 ++ anames t1)). by apply submseteq_skip. }
      set (r := (amerge n1 (ACons h1 t1) None t2).1) in *. change (anames (AName (name_fork n2).2 (ACons h2 (AArt (nloc pth (name_fork n2).1) r)))) with ((name_fork n2).2 :: anames r).
      simpl. by apply submseteq_skip.
    + by exists U, V.
Qed.

(** ** [mergesort_list_of_tree] *)
Fixpoint amsort (t : atree) : alst :=
  match t with
  | BNil => ANil
  | BLeaf x => ACons x ANil
  | BBin _ l r => (amerge None (amsort l) None (amsort r)).1
  | BName n _ l r => (amerge (Some (name_fork n).1) (amsort l) (Some (name_fork n).2) (amsort r)).1
  | BArt _ t => amsort t
  end.
Definition msort_ents (t : atree) : list (loc * content) :=
  match t with
  | BBin _ l r => (amerge None (amsort l) None (amsort r)).2
  | BName n _ l r => (amerge (Some (name_fork n).1) (amsort l) (Some (name_fork n).2) (amsort r)).2
  | _ => []
  end.
Definition msort_size (t : atree) : nat :=
  match t with BBin _ l r | BName _ _ l r => (asize (amsort l) + asize (amsort r))%nat | _ => 0 end.
Lemma amsort_erase t : erase (amsort t) = mergesort_list_of_tree le (terase t).
Proof.
  unfold mergesort_list_of_tree. induction t as [|x|lev l IHl r IHr|n lev l IHl r IHr|a t IH]; cbn [amsort terase tree_fold_up name_fork]; [done|done| | |done].
  - by rewrite amerge_erase, IHl, IHr.
  - by rewrite amerge_erase, IHl, IHr.
Qed.
Definition msort_fents : atree → list (loc * content) := fents pred id_elm bin_op le F0 "mergesort" pth msort_ents.
Lemma wp_mergesort own E t :
  tall (λ t, msort_size t < F0)%nat t → tlinked I E t → laid I (msort_fents t) → NoDup (msort_fents t).*1 → fresh own (msort_fents t) → (theight t < F0)%nat →
  wp I own pth E (c_mergesort le F0 (tenc t)) (λ v E', v = enc (amsort t) ∧ linked I E' (amsort t)).
Proof.
  intros. refine (wp_fold_up body pred id_elm bin_op le F0 hv ha I "mergesort" pth (λ E t v, v = enc (amsort t) ∧ linked I E (amsort t)) msort_ents (λ t, (msort_size t < F0)%nat) F0 own E t _ _ _ _ _ _ _ _ _ _ _ _ _); try done.
  - intros E1 E2 t' v [-> Hl] HE. split; [done|by eapply linked_mono].
  - intros E' t' v. by induction t'.
  - intros. by apply wp_ret.
  - intros. by apply wp_ret.
  - intros own' E' lev l r vl vr t' Hq [-> Hl] [-> Hr] Hla Hnd Hfr. simpl in Hq. apply wp_merge; [done|done|done|done|done|lia|lia].
  - intros own' E' n lev l r vl vr t' Hq [-> Hl] [-> Hr] Hla Hnd Hfr. simpl in Hq. apply wp_merge; [done|done|done|done|done|lia|lia].
Qed.
End Def.
End CatMerge.
