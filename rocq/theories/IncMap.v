(** * The incremental cost of [list_map_eager] (collections.rs:212-233) and [list_filter_eager] (187-209), for every function,
    every list and every history.

    The input is a list in the layout of the library: elements, and at each name a reference cell holding the rest.  The
    editor builds such lists again and again, under whatever names, and maps a function over each.  Here it is computed
    exactly which of the map's thunks run each time: thunk [n] runs unless it was last computed (however long ago) for the
    same elements up to the next name, the same next name, and the same resulting elements and following name after that. *)
From Verif Require Export NsFree Cat Switch Dirtying.
Local Open Scope string_scope.
Local Open Scope list_scope.

(** ** Generalities *)
Section Generic.
Context `{Prog}.
Context (opt : bool).
Lemma tr_thunk_nominal tb pth acc t n pp arg spur k E v :
  tr opt tb pth false acc (Thunk t (NCNominal n) pp arg spur k) E v →
  ∃ E', E = (Loc pth (IdNom n), Allocate, DAllocThunk arg) :: E' ∧
    tr opt tb pth false (acc ++ [(Loc pth (IdNom n), Allocate, DAllocThunk arg)]) (k (Loc pth (IdNom n))) E' v.
Proof. intros Ht. inversion Ht; subst; [eauto|naive_solver..]. Qed.
Lemma d_alloc_same stk l ct p : (∀ x, head stk = Some x → is_struct x = false) → d_store p !! l = None ∨ d_store p !! l = Some ct →
  is_struct l = false → head stk ≠ Some l → d_alloc opt stk l ct p = Some (l, d_write stk l ct p).
Proof.
  intros H1 H2 H3 H4. unfold d_alloc. rewrite (s6_nominal _ _ _ H1), H3. rewrite bool_decide_eq_false_2 by done.
  unfold rebind_ok. destruct H2 as [->| ->]; [done|]. by rewrite bool_decide_true.
Qed.
Lemma d_cell_step n stk md0 md t l v p : d_store p !! l = Some (CCell t v) → d_force opt md0 n stk md t l p = d_get opt stk l v p.
Proof. intros E. destruct n; cbn [d_force]; rewrite E; by rewrite decide_True. Qed.
Lemma ref_thunk_nominal pth t n pp arg spur st :
  r_store st !! Loc pth (IdNom n) = None ∨ r_store st !! Loc pth (IdNom n) = Some (CThunk t pp arg spur) →
  ref_thunk pth false t (NCNominal n) pp arg spur st =
    ROk (Loc pth (IdNom n)) (RState (<[Loc pth (IdNom n) := CThunk t pp arg spur]> (r_store st)) (r_log st)).
Proof. unfold ref_thunk. cbv zeta iota. intros [->| ->]; [done|]. cbn [content_ty]. by rewrite !decide_True. Qed.

(** Allocating a new name from the editor. *)
Lemma cell_fresh t n v s : stack s = [] → structf s = false → table s !! Loc (cpath s) (IdNom n) = None →
  ∃ s', cell_op t n v s = (OVal (Loc (cpath s) (IdNom n)), s') ∧ table s' = <[Loc (cpath s) (IdNom n) := NMut t [] v]> (table s).
Proof.
  intros Hst Hsf Hl. unfold cell_op. rewrite (bind_val get _ s s s) by done. rewrite Hsf. cbv zeta. rewrite Hl.
  rewrite (bind_val _ _ s (false, false, None, true) s) by done. cbv beta iota.
  rewrite (bind_val _ _ s LocFresh s) by done. eexists. split; [reflexivity|]. cbn [stack set_table add_ev]. by rewrite Hst.
Qed.
Lemma thunk_fresh t n pp arg spur s : stack s = [] → structf s = false → table s !! Loc (cpath s) (IdNom n) = None →
  ∃ s', thunk_op t (NCNominal n) pp arg spur s = (OVal (Loc (cpath s) (IdNom n)), s') ∧ cpath s' = cpath s ∧
    table s' = <[Loc (cpath s) (IdNom n) := NComp (CompNode t [] [] pp arg spur None)]> (table s).
Proof.
  intros Hst Hsf Hl. unfold thunk_op. rewrite (bind_val get _ s s s) by done. rewrite Hsf. cbv zeta iota. rewrite Hl.
  rewrite (bind_val _ _ s (false, true, true) s) by done. cbv beta iota. rewrite (bind_val _ _ s tt _) by reflexivity.
  rewrite (bind_val _ _ _ tt _) by reflexivity. rewrite (bind_val _ _ _ tt _) by reflexivity.
  rewrite (bind_val _ _ _ tt _ (push_edge_eq _ _ _)). unfold push_st. cbn [stack add_ev]. rewrite Hst.
  eexists. split; [reflexivity|]. done.
Qed.
End Generic.

(** Which of the two functions. *)
Inductive chunkwise := WMap | WFilter.

Section IncMap.
Context `{Hashes} `{Hash64 val}.
Context (body : val → val) (pred : val → bool) (id_elm : val) (bin_op : val → val → val) (le : val → val → bool).
Context (F : nat) (hv : val → N) (ha : progpt → val → N).
Context (which : chunkwise).
(** The namespace the function runs in. *)
Context (mns : name) (opt : bool).
Set Default Proof Using "All".
Definition pp : progpt := match which with WMap => "list_map_eager" | WFilter => "list_filter_eager" end.
Definition sp : val := match which with WMap => VStr "body" | WFilter => VStr "pred" end.
Definition fn : nat → val → comp := match which with WMap => c_map_eager body | WFilter => c_filter_eager pred end.
(** ... and what it does with the elements between two names. *)
Definition tx (xs : list val) : list val := match which with WMap => body <$> xs | WFilter => List.filter pred xs end.
Local Instance mp : Prog := cat body pred id_elm bin_op le F hv ha.

Lemma code_pp v : code pp v sp = fn F v.
Proof. unfold pp, sp, fn. by destruct which. Qed.

(** ** The input and the output, as they lie in the store *)
(** A list cut at its names: [(n, xs)] is name [n] and the elements up to the next name. *)
Notation chunk := (name * list val)%type.
Definition src (n : name) : loc := Loc [] (IdNom n).
Definition img (n : name) : loc := Loc [mns] (IdNom n).
Definition lnk (f : name → loc) (o : option name) : val := match o with None => v_nil | Some n => v_lname n (v_lart (f n)) end.
Definition lst (f : name → loc) (xs : list val) (o : option name) : val := foldr v_cons (lnk f o) xs.
Definition nxt (cs : list chunk) : option name := fst <$> head cs.
Definition names (cs : list chunk) : list name := cs.*1.
Definition ct (m : name) : content := CThunk TyList pp (v_lart (src m)) sp.
Fixpoint stored (cs : list chunk) (σ : store) : Prop :=
  match cs with [] => True | (n, xs) :: r => σ !! src n = Some (CCell TyList (lst src xs (nxt r))) ∧ stored r σ end.
Definition free (σ : store) : Prop := ∀ n, σ !! img n = None ∨ σ !! img n = Some (ct n).
Fixpoint mapped (cs : list chunk) (σ : store) : store :=
  match cs with [] => σ | (n, _) :: r => mapped r (<[img n := ct n]> σ) end.
(** The chunks fit the recursion bound of the model. *)
Definition fits (cs : list chunk) : Prop := Forall (λ c, length c.2 + 2 ≤ F)%nat cs.

Lemma src_img n m : src n ≠ img m. Proof. done. Qed.
Lemma img_inj n m : img n = img m → n = m. Proof. by intros [= ->]. Qed.
Lemma lnk_inj f o o' : lnk f o = lnk f o' → o = o'. Proof. destruct o, o'; try done. by intros [= -> _]. Qed.
Lemma lst_inj f xs o xs' o' : lst f xs o = lst f xs' o' → xs = xs' ∧ o = o'.
Proof.
  revert xs'. induction xs as [|x xs IH]; intros [|x' xs'] E; [by apply lnk_inj in E as ->|by destruct o|by destruct o'|].
  injection E as -> E. by apply IH in E as [-> ->].
Qed.
Lemma stored_mono cs σ σ' : stored cs σ → (∀ n, σ' !! src n = σ !! src n) → stored cs σ'.
Proof. intros Hs He. induction cs as [|[n xs] cs IH]; [done|]. destruct Hs as [H1 H2]. split; [by rewrite He|by apply IH]. Qed.
Lemma mapped_src cs σ n : mapped cs σ !! src n = σ !! src n.
Proof. revert σ. induction cs as [|[m xs] cs IH]; intros σ; [done|]. cbn [mapped]. rewrite IH. by rewrite lookup_insert_ne by (intros E; by apply (src_img n m)). Qed.
Lemma free_insert n σ : free σ → free (<[img n := ct n]> σ).
Proof.
  intros Hf m. destruct (decide (img m = img n)) as [E|E]; [|rewrite lookup_insert_ne by done; apply Hf].
  apply img_inj in E as ->. rewrite lookup_insert. by right.
Qed.
Lemma mapped_free cs σ : free σ → free (mapped cs σ).
Proof. revert σ. induction cs as [|[m xs] cs IH]; intros σ Hf; [done|]. by apply IH, free_insert. Qed.
Lemma mapped_img cs σ m : mapped cs σ !! img m = if decide (m ∈ names cs) then Some (ct m) else σ !! img m.
Proof.
  revert σ. induction cs as [|[n xs] cs IH]; intros σ; [done|]. cbn [mapped]. rewrite IH. change (names ((n, xs) :: cs)) with (n :: names cs).
  destruct (decide (m ∈ names cs)); [rewrite decide_True by set_solver; done|]. destruct (decide (m = n)) as [->|].
  - rewrite lookup_insert, decide_True by set_solver. done.
  - rewrite lookup_insert_ne by (intros E; by apply img_inj in E). rewrite decide_False by set_solver. done.
Qed.
Lemma mapped_other cs σ l : (∀ m, l ≠ img m) → mapped cs σ !! l = σ !! l.
Proof. intros Hl. revert σ. induction cs as [|[n xs] cs IH]; intros σ; [done|]. cbn [mapped]. rewrite IH. by rewrite lookup_insert_ne by (intros E; by apply (Hl n)). Qed.
(** ** What the function does on one chunk *)
Fixpoint gs (xs : list val) : list (val → comp) :=
  match xs with
  | [] => []
  | x :: xs => gs xs ++ match which with WMap => [λ tl, Ret (v_cons (body x) tl)] | WFilter => if pred x then [λ tl, Ret (v_cons x tl)] else [] end
  end.
Definition tailc (o : option name) : comp :=
  match o with
  | None => Ret v_nil
  | Some m => eager_m TyList m pp (v_lart (src m)) sp (λ t _, Ret (v_lname m (v_lart t)))
  end.
(** One step of the function, by its eliminator. *)
Definition elim (G F' : nat) (v : val) : comp :=
  l_elim G v (Ret v_nil)
    (λ x tl, match which with
       | WMap => cbind (fn F' tl) (λ tl, Ret (v_cons (body x) tl))
       | WFilter => if pred x then cbind (fn F' tl) (λ tl, Ret (v_cons x tl)) else fn F' tl
       end)
    (λ n tl, eager_m TyList n pp tl sp (λ t _, Ret (v_lname n (v_lart t)))).
Lemma fn_S G v : fn (S G) v = elim G G v.
Proof. unfold elim, fn, pp, sp. by destruct which. Qed.
Lemma elim_cons G F' x v : elim G F' (v_cons x v) = foldl cbind (fn F' v) (gs [x]).
Proof. unfold elim. destruct G; cbn [l_elim v_cons gs app]; destruct which; try done; by destruct (pred x). Qed.
Lemma gs_cons x xs : gs (x :: xs) = gs xs ++ gs [x].
Proof. done. Qed.
Lemma map_chunk G xs o : (length xs + 1 ≤ G)%nat → fn G (lst src xs o) = foldl cbind (tailc o) (gs xs).
Proof.
  revert G. induction xs as [|x xs IH]; intros [|G] HG; simpl in HG; try lia; rewrite fn_S; [by destruct o, G|].
  change (lst src (x :: xs) o) with (v_cons x (lst src xs o)). rewrite elim_cons, IH by lia. by rewrite (gs_cons x xs), foldl_app.
Qed.
Lemma map_art G l : fn (S (S G)) (v_lart l) = Force TyList (ALoc l) None (λ v, elim G (S G) v).
Proof. by rewrite fn_S. Qed.
Lemma elim_chunk G xs o : (length xs ≤ G)%nat → elim G (S G) (lst src xs o) = foldl cbind (tailc o) (gs xs).
Proof.
  intros HG. destruct xs as [|x xs]; [destruct G; by destruct o|]. simpl in HG.
  change (lst src (x :: xs) o) with (v_cons x (lst src xs o)). rewrite elim_cons, map_chunk by lia. by rewrite (gs_cons x xs), foldl_app.
Qed.
Lemma fold_ret v xs : foldl cbind (Ret v) (gs xs) = Ret (foldr v_cons v (tx xs)).
Proof.
  induction xs as [|x xs IH]; [unfold tx; by destruct which|]. rewrite (gs_cons x xs), foldl_app, IH. unfold tx. cbn [gs app List.filter]. destruct which; [done|]. by destruct (pred x).
Qed.
Lemma fold_thunk t nc pp a sp k (fs : list (val → comp)) :
  foldl cbind (Thunk t nc pp a sp k) fs = Thunk t nc pp a sp (λ l, foldl cbind (k l) fs).
Proof. revert k. induction fs as [|f fs IH]; intros k; [done|]. cbn [foldl]. apply IH. Qed.
Lemma fold_force t a c k (fs : list (val → comp)) : foldl cbind (Force t a c k) fs = Force t a c (λ v, foldl cbind (k v) fs).
Proof. revert k. induction fs as [|f fs IH]; intros k; [done|]. cbn [foldl]. apply IH. Qed.

(** ** The demand obeys the discipline *)
Lemma map_disciplined cs n xs stk p :
  fits ((n, xs) :: cs) → NoDup (n :: names cs) → stored ((n, xs) :: cs) (d_store p) → free (d_store p) → d_store p !! img n = Some (ct n) →
  (∀ x, head stk = Some x → is_struct x = false) → (∀ m, m ∈ n :: names cs → img m ∉ stk) →
  ∃ p', d_force opt false (S (length cs)) stk false TyList (img n) p = Some (lst img (tx xs) (nxt cs), p') ∧ d_store p' = mapped cs (d_store p).
Proof.
  revert n xs stk p. induction cs as [|[m ys] cs IH]; intros n xs stk p Hfit Hnd [Hc Hst] Hfr Hn Hstk Hni.
  - apply Forall_cons in Hfit as [HF _]. simpl in HF. destruct F as [|[|G]] eqn:EF; [lia..|].
    cbn [d_force]. rewrite Hn. unfold ct at 1. rewrite decide_True by (split_and!; [done|apply Hni; by left|done|by apply s6_nominal]).
    rewrite code_pp. rewrite EF, map_art.
    cbn [Discipline.d_run d_art l_path img]. unfold dbind at 1. rewrite (d_cell_step _ _ _ _ _ _ _ (lst src xs None)) by done.
    unfold d_get at 1. rewrite s6_nominal by (by intros ? [= <-]). rewrite bool_decide_true by set_solver. cbn [andb].
    rewrite elim_chunk by lia. cbn [tailc]. rewrite fold_ret. eexists. split; [reflexivity|]. by destruct stk.
  - apply Forall_cons in Hfit as [HF Hfit]. simpl in HF. destruct F as [|[|G]] eqn:EF; [lia..|]. rewrite <- EF in *.
    cbn [d_force]. rewrite Hn. unfold ct at 1. rewrite decide_True by (split_and!; [done|apply Hni; by left|done|by apply s6_nominal]).
    rewrite code_pp. rewrite EF, map_art.
    cbn [Discipline.d_run d_art l_path img]. unfold dbind at 1. rewrite (d_cell_step _ _ _ _ _ _ _ (lst src xs (Some m))) by done.
    unfold d_get at 1. rewrite s6_nominal by (by intros ? [= <-]). rewrite bool_decide_true by set_solver. cbn [andb].
    rewrite elim_chunk by lia. cbn [tailc]. unfold eager_m. rewrite fold_thunk.
    assert (n ≠ m ∧ n ∉ names cs) as [Hnm Hncs].
    { apply NoDup_cons in Hnd as [Hnd _]. change (names ((m, ys) :: cs)) with (m :: names cs) in Hnd. set_solver. }
    cbn [Discipline.d_run d_thunk]. unfold dbind at 1. fold (img m) (ct m).
    rewrite d_alloc_same; [|by intros ? [= <-]|apply Hfr|done|].
    2:{ intros [= E]. done. }
    set (p1 := d_write _ _ _ _).
    rewrite fold_force. cbn [Discipline.d_run d_art]. unfold dbind at 1.
    destruct (IH m ys (img n :: stk) p1) as (p2 & E2 & Hp2).
    { done. }
    { by apply NoDup_cons in Hnd as [_ Hnd]. }
    { subst p1. cbn [d_store d_write d_observe]. eapply stored_mono; [exact Hst|]. intros k. rewrite lookup_insert_ne by (intros E; by apply (src_img k m)). done. }
    { subst p1. cbn [d_store d_write d_observe]. by apply free_insert. }
    { subst p1. cbn [d_store d_write d_observe]. by rewrite lookup_insert. }
    { by intros ? [= <-]. }
    { intros k Hk Hin. apply elem_of_cons in Hin as [E|Hin]; [apply img_inj in E as ->; set_solver|]. apply (Hni k); [by right|done]. }
    change (length ((m, ys) :: cs)) with (S (length cs)). rewrite E2. rewrite fold_ret. eexists. split; [reflexivity|].
    destruct stk; cbn [d_store d_leave d_init]; by rewrite Hp2.
Qed.

Lemma map_ref cs n xs stk st :
  fits ((n, xs) :: cs) → NoDup (n :: names cs) → stored ((n, xs) :: cs) (r_store st) → free (r_store st) → r_store st !! img n = Some (ct n) →
  (∀ m, m ∈ n :: names cs → img m ∉ stk) →
  ref_force (S (length cs)) stk false TyList (img n) None st =
    ROk (lst img (tx xs) (nxt cs)) (RState (mapped cs (r_store st)) (reverse (img <$> n :: names cs) ++ r_log st)).
Proof.
  revert n xs stk st. induction cs as [|[m ys] cs IH]; intros n xs stk st Hfit Hnd [Hc Hst] Hfr Hn Hni.
  - apply Forall_cons in Hfit as [HF _]. simpl in HF. destruct F as [|[|G]] eqn:EF; [lia..|].
    erewrite ref_thunk_step; [|exact Hn|apply Hni; by left].
    rewrite code_pp. rewrite EF, map_art.
    cbn [ref_run ref_art]. unfold rbind at 1. erewrite ref_cell_step; [|exact Hc]. cbv beta iota. rewrite elim_chunk by lia.
    cbn [tailc nxt head fmap option_fmap option_map]. rewrite fold_ret. done.
  - apply Forall_cons in Hfit as [HF Hfit]. simpl in HF. destruct F as [|[|G]] eqn:EF; [lia..|]. rewrite <- EF in *.
    erewrite ref_thunk_step; [|exact Hn|apply Hni; by left].
    rewrite code_pp. rewrite EF, map_art.
    cbn [ref_run ref_art]. unfold rbind at 1. erewrite ref_cell_step; [|exact Hc]. cbv beta iota. rewrite elim_chunk by lia.
    change (tailc (nxt ((m, ys) :: cs))) with (tailc (Some m)). cbn [tailc]. unfold eager_m. rewrite fold_thunk. cbn [ref_run]. unfold rbind at 1.
    rewrite ref_thunk_nominal by apply Hfr. cbv beta iota. cbn [r_store r_log l_path img]. fold (img m) (ct m).
    rewrite fold_force. cbn [ref_run ref_art]. unfold rbind at 1.
    change (length ((m, ys) :: cs)) with (S (length cs)).
    rewrite (IH m ys); cbn [r_store r_log].
    { rewrite fold_ret. cbn [ref_run]. f_equal. f_equal. change (names ((m, ys) :: cs)) with (m :: names cs).
      rewrite !fmap_cons, !reverse_cons, <- !(assoc_L (++)). done. }
    { done. }
    { by apply NoDup_cons in Hnd as [_ Hnd]. }
    { eapply stored_mono; [exact Hst|]. intros k. rewrite lookup_insert_ne by (intros E; by apply (src_img k m)). done. }
    { by apply free_insert. }
    { by rewrite lookup_insert. }
    { apply NoDup_cons in Hnd as [Hnd _]. intros k Hk Hin. apply elem_of_cons in Hin as [E|Hin]; [apply img_inj in E as ->; done|]. apply (Hni k); [by right|done]. }
Qed.

(** ** What a thunk has recorded *)
(** What a thunk depends on: its elements; the next name, and the mapped elements and the name after that. *)
Definition view : Type := list val * option (name * (list val * option name)).
Definition view_of (xs : list val) (cs : list chunk) : view :=
  (xs, match cs with [] => None | (m, ys) :: r => Some (m, (tx ys, nxt r)) end).
Definition E_of (n : name) (vw : view) : list eshape :=
  (src n, Observe, DForce TyList (lst src vw.1 (fst <$> vw.2))) ::
  match vw.2 with
  | None => []
  | Some (m, (zs, on)) => [(img m, Allocate, DAllocThunk (v_lart (src m))); (img m, Observe, DForce TyList (lst img zs on))]
  end.
Definition val_of (vw : view) : val := lst img (tx vw.1) (fst <$> vw.2).
Lemma view_next xs cs : fst <$> (view_of xs cs).2 = nxt cs.
Proof. by destruct cs as [|[m ys] r]. Qed.

Lemma chunk_recorded cs n xs v s : reached opt false s → fits ((n, xs) :: cs) → stored ((n, xs) :: cs) (holds s) →
  (∀ m, m ∈ n :: names cs → holds s !! img m = Some (ct m)) → up_to_date s TyList (img n) v →
  ∀ cs1 k ys r, (n, xs) :: cs = cs1 ++ (k, ys) :: r →
    recorded s (img k) (E_of k (view_of ys r)) (val_of (view_of ys r)) ∧ up_to_date s TyList (img k) (val_of (view_of ys r)).
Proof.
  intros Hs. revert n xs v. induction cs as [|[m ys] cs IH]; intros n xs v Hfit [Hc Hst] Hct Hu cs1 k zs r Heq.
  - assert (cs1 = [] ∧ k = n ∧ zs = xs ∧ r = []) as (-> & -> & -> & ->).
    { destruct cs1 as [|? [|]]; simpl in Heq; try discriminate Heq. by injection Heq as <- <- <-. }
    apply Forall_cons in Hfit as [HF _]. simpl in HF.
    assert (Hi := reached_inv _ _ _ Hs). assert (Hn := Hct n ltac:(by left)).
    destruct (comp_at _ _ _ _ _ _ Hn) as (c & Hcn & _ & Pp & Pa & Ps). assert (Hu' := Hu). unfold up_to_date in Hu'. rewrite Hcn in Hu'. destruct Hu' as (_ & Rc & Cc).
    assert (T := i_tr _ _ _ _ Hi _ _ _ Hcn ltac:(set_solver) Rc). rewrite Pp, Pa, Ps in T.
    rewrite code_pp in T.
    destruct F as [|[|G]] eqn:EF; [lia..|]. rewrite map_art in T.
    apply tr_force_nominal in T as (w1 & E1 & S1 & T); [|done|by eapply not_pure|set_solver].
    assert (w1 = lst src xs None) as ->.
    { destruct (up_saw opt false s (img n) TyList v (src n) TyList (λ u, u) w1 Hs Hu) as (v1 & G1 & <-).
      - assert (recorded s (img n) (shape <$> c_succs c) v) as Hrec by (by exists c). eapply rec_saw_r; [exact Hrec|rewrite S1; by left].
      - by rewrite (gives_fun _ _ _ _ _ G1 (cell_is _ _ _ _ _ _ Hs Hc)). }
    rewrite elim_chunk in T by lia. cbn [tailc] in T. rewrite fold_ret in T. apply Switch.tr_ret in T as [-> ->].
    split; [|done]. exists c. done.
  - assert (Hfit' := Hfit). apply Forall_cons in Hfit as [HF Hfit]. simpl in HF.
    assert (Hi := reached_inv _ _ _ Hs). assert (Hn := Hct n ltac:(by left)).
    destruct (comp_at _ _ _ _ _ _ Hn) as (c & Hcn & _ & Pp & Pa & Ps). assert (Hu' := Hu). unfold up_to_date in Hu'. rewrite Hcn in Hu'. destruct Hu' as (_ & Rc & Cc).
    assert (T := i_tr _ _ _ _ Hi _ _ _ Hcn ltac:(set_solver) Rc). rewrite Pp, Pa, Ps in T.
    rewrite code_pp in T.
    destruct F as [|[|G]] eqn:EF; [lia..|]. rewrite <- EF in *. rewrite EF, map_art in T.
    apply tr_force_nominal in T as (w1 & E1 & S1 & T); [|done|by eapply not_pure|set_solver].
    assert (w1 = lst src xs (Some m)) as ->.
    { destruct (up_saw opt false s (img n) TyList v (src n) TyList (λ u, u) w1 Hs Hu) as (v1 & G1 & <-).
      - assert (recorded s (img n) (shape <$> c_succs c) v) as Hrec by (by exists c). eapply rec_saw_r; [exact Hrec|rewrite S1; by left].
      - by rewrite (gives_fun _ _ _ _ _ G1 (cell_is _ _ _ _ _ _ Hs Hc)). }
    rewrite elim_chunk in T by lia. cbn [tailc] in T. unfold eager_m in T. rewrite fold_thunk in T.
    apply tr_thunk_nominal in T as (E2 & -> & T). rewrite fold_force in T. cbn [l_path img] in T. fold (img m) in T, S1.
    apply tr_force_nominal in T as (w2 & E3 & -> & T); [|done|by eapply not_pure|].
    2:{ intros d. cbn [app]. rewrite !elem_of_cons, elem_of_nil. intros [E|[E|[]]]; [by injection E|by injection E]. }
    rewrite fold_ret in T. apply Switch.tr_ret in T as [-> Hv].
    assert (up_to_date s TyList (img m) w2) as Hum.
    { assert (∃ e, e ∈ c_succs c ∧ shape e = (img m, Observe, DForce TyList w2)) as (e & He & Hse).
      { assert ((img m, Observe, DForce TyList w2) ∈ shape <$> c_succs c) as (e & ? & ?)%elem_of_list_fmap by (rewrite S1; right; right; by left). by exists e. }
      assert (Hvv := i_valid _ _ _ _ Hi _ _ _ Hcn He (Cc _ He)). rewrite Hse in Hvv. unfold valid in Hvv. cbn [sh_dep sh_loc snd fst] in Hvv.
      destruct (comp_at _ _ _ _ _ _ (Hct m ltac:(right; by left))) as (cm & Hcm & Ht & _). rewrite Hcm in Hvv. unfold up_to_date. rewrite Hcm. destruct Hvv as (? & ? & _). done. }
    specialize (IH m ys w2 Hfit Hst ltac:(intros; apply Hct; by right) Hum).
    destruct cs1 as [|c1 cs1].
    + injection Heq as <- <- <-. destruct (IH [] m ys cs eq_refl) as [_ Hum2].
      assert (w2 = val_of (view_of ys cs)) as ->.
      { destruct (reached_idle _ _ _ Hs) as [Hstk _]. eapply gives_fun; by apply up_to_date_gives. }
      split; [|by rewrite Hv in Hu]. exists c. split; [done|]. split; [|by rewrite Rc, Hv]. rewrite S1. unfold E_of, view_of, val_of. cbn [fst snd fmap option_fmap option_map].
      do 3 f_equal. by destruct cs as [|[m2 ys2] r2].
    + injection Heq as <- Heq. by eapply IH.
Qed.

(** ** The state between two maps *)
(** [last n]: what thunk [n] was last computed from; [None] if it was never computed. *)
Record known (last : name → option view) (s : dcg) : Prop := {
  k_reached : reached opt false s;
  k_cells : ∀ n, holds s !! src n = None ∨ ∃ v, holds s !! src n = Some (CCell TyList v);
  k_free : free (holds s);
  k_rec : ∀ n, match last n with
    | None => ¬ evaluated s (img n)
    | Some vw => recorded s (img n) (E_of n vw) (val_of vw) ∧ ∀ m, ¬ disturbed s (img n) (img m)
    end;
}.
(** The thunks that run when the list [cs] is mapped ... *)
Fixpoint reruns (last : name → option view) (cs : list chunk) : list name :=
  match cs with
  | [] => []
  | (n, xs) :: r => (if decide (last n = Some (view_of xs r)) then [] else [n]) ++ reruns last r
  end.
(** ... and what is known afterwards. *)
Fixpoint note (last : name → option view) (cs : list chunk) : name → option view :=
  match cs with
  | [] => last
  | (n, xs) :: r => λ m, if decide (m = n) then Some (view_of xs r) else note last r m
  end.
Lemma reruns_in last cs m : NoDup (names cs) → m ∈ reruns last cs ↔ ∃ cs1 xs r, cs = cs1 ++ (m, xs) :: r ∧ last m ≠ Some (view_of xs r).
Proof.
  induction cs as [|[n xs] cs IH]; intros Hnd.
  { split; [by intros ?%elem_of_nil|]. intros ([|] & ? & ? & ? & _); discriminate. }
  apply NoDup_cons in Hnd as [Hn Hnd]. cbn [reruns]. rewrite elem_of_app, (IH Hnd). split.
  - intros [Hin|(cs1 & ys & r & -> & Hne)]; [|by exists ((n, xs) :: cs1), ys, r].
    destruct (decide _) as [|Hne]; [by apply elem_of_nil in Hin|]. apply elem_of_list_singleton in Hin as ->. by exists [], xs, cs.
  - intros ([|c cs1] & ys & r & Heq & Hne); [injection Heq as -> -> ->; left; by rewrite decide_False; [left|]|].
    right. injection Heq as _ ->. by exists cs1, ys, r.
Qed.
Lemma reruns_names last cs m : m ∈ reruns last cs → m ∈ names cs.
Proof.
  induction cs as [|[n xs] cs IH]; [done|]. cbn [reruns]. change (names ((n, xs) :: cs)) with (n :: names cs).
  rewrite elem_of_app, elem_of_cons. intros [Hin|Hin]; [|by right; apply IH]. left. destruct (decide _); [by apply elem_of_nil in Hin|by apply elem_of_list_singleton in Hin].
Qed.
Lemma reruns_nodup last cs : NoDup (names cs) → NoDup (reruns last cs).
Proof.
  induction cs as [|[n xs] cs IH]; [constructor|]. intros [Hn Hnd]%NoDup_cons. cbn [reruns]. destruct (decide _); [by apply IH|].
  apply NoDup_cons. split; [|by apply IH]. by intros Hin%reruns_names.
Qed.
Lemma note_in last cs cs1 m xs r : NoDup (names cs) → cs = cs1 ++ (m, xs) :: r → note last cs m = Some (view_of xs r).
Proof.
  revert cs1. induction cs as [|[n ys] cs IH]; intros cs1 Hnd Heq; [by destruct cs1|]. apply NoDup_cons in Hnd as [Hn Hnd]. cbn [note].
  destruct cs1 as [|c cs1]; [injection Heq as -> -> ->; by rewrite decide_True|]. injection Heq as _ ->. rewrite decide_False; [by eapply IH|].
  intros ->. apply Hn. apply elem_of_list_fmap. exists (n, xs). split; [done|]. apply elem_of_app. right. by left.
Qed.
Lemma note_out last cs m : m ∉ names cs → note last cs m = last m.
Proof.
  induction cs as [|[n ys] cs IH]; [done|]. change (names ((n, ys) :: cs)) with (n :: names cs). intros Hm. cbn [note].
  rewrite decide_False by set_solver. apply IH. set_solver.
Qed.
Lemma names_split cs m : m ∈ names cs → ∃ cs1 xs r, cs = cs1 ++ (m, xs) :: r.
Proof. intros ([m' xs] & -> & Hin)%elem_of_list_fmap. apply elem_of_list_split in Hin as (cs1 & r & ->). by exists cs1, xs, r. Qed.
Lemma stored_at cs σ cs1 m xs r : stored cs σ → cs = cs1 ++ (m, xs) :: r → σ !! src m = Some (CCell TyList (lst src xs (nxt r))).
Proof. revert cs. induction cs1 as [|[n ys] cs1 IH]; intros cs Hs ->; [apply Hs|]. destruct Hs as [_ Hs]. by eapply IH. Qed.

(** The demand of the first thunk. *)
Lemma map_demand last n xs cs s :
  known last s → fits ((n, xs) :: cs) → NoDup (names ((n, xs) :: cs)) → stored ((n, xs) :: cs) (holds s) → holds s !! img n = Some (ct n) →
  ∃ s' rs, demand TyList (img n) s (lst img (tx xs) (nxt cs)) s' ∧ runs s' = rs ++ runs s ∧
    rs ≡ₚ img <$> reruns last ((n, xs) :: cs) ∧ known (note last ((n, xs) :: cs)) s' ∧ stored ((n, xs) :: cs) (holds s') ∧
    ∀ cs1 k ys r, (n, xs) :: cs = cs1 ++ (k, ys) :: r → gives s' TyList (img k) (lst img (tx ys) (nxt r)).
Proof.
  intros [Hs Hcl Hfr Hrec] Hfit Hnd Hst Hn. set (cs0 := (n, xs) :: cs) in *.
  assert (Hns : ∀ m, m ∈ n :: names cs → img m ∉ @nil loc) by (intros m _; set_solver).
  assert (Hdd : disciplined_demand opt false TyList (img n) (holds s)).
  { destruct (map_disciplined cs n xs [] (d_init (holds s)) Hfit Hnd Hst Hfr Hn) as (p' & E & _); [done|done|]. by eexists _, _, _. }
  assert (Hfs : demand_from_scratch false TyList (img n) (holds s) (lst img (tx xs) (nxt cs)) (mapped cs (holds s)) (reverse (img <$> n :: names cs))).
  { exists (S (length cs)). rewrite (map_ref cs n xs [] (RState (holds s) []) Hfit Hnd Hst Hfr Hn Hns). cbn [r_store r_log]. by rewrite app_nil_r. }
  destruct (demand_after_history opt false s TyList (img n) Hs Hdd) as (v & σ' & lg0 & s' & rs0 & Hfs0 & Hdem & Hh & _).
  destruct (demand_from_scratch_functional _ _ _ _ _ _ _ _ _ _ Hfs0 Hfs) as (-> & -> & ->). clear Hfs0 rs0.
  assert (Hdem' := Hdem). destruct Hdem' as (K & HK). assert (HfK := HK K ltac:(lia)).
  set (v := lst img (tx xs) (nxt cs)) in *.
  destruct (demand_up_to_date opt false s TyList (img n) K v s' Hs Hdd HfK) as [Hu Hs'].
  destruct (demand_exact opt false s TyList (img n) v s' K Hs Hdd HfK) as (lg1 & rs1 & _ & Hrs1 & _ & _ & _ & Hun & _).
  destruct (C62_runs_exactly opt false s TyList (img n) v s' K Hs Hdd HfK) as (lg & rs & Hlg & Hrs & Hndr & Hx).
  destruct (demand_justified opt false s TyList (img n) v s' K Hs Hdd HfK) as (rs2 & Hrs2 & _ & Hrm).
  rewrite Hrs in Hrs1, Hrs2. apply app_inv_tail in Hrs1 as <-. apply app_inv_tail in Hrs2 as <-.
  rewrite Hh in Hlg. destruct (demand_from_scratch_functional _ _ _ _ _ _ _ _ _ _ Hlg Hfs) as (_ & _ & ->). clear Hlg.
  assert (Hlgin : ∀ x, x ∈ reverse (img <$> n :: names cs) ↔ ∃ m, m ∈ names cs0 ∧ x = img m).
  { intros x. rewrite elem_of_reverse, elem_of_list_fmap. change (names cs0) with (n :: names cs). naive_solver. }
  assert (Hst' : stored cs0 (holds s')). { rewrite Hh. eapply stored_mono; [exact Hst|]. intros k. apply mapped_src. }
  assert (Hct' : ∀ m, m ∈ names cs0 → holds s' !! img m = Some (ct m)).
  { intros m Hm. rewrite Hh, mapped_img. destruct (decide (m ∈ names cs)); [done|]. change (names cs0) with (n :: names cs) in Hm.
    apply elem_of_cons in Hm as [->|]; done. }
  assert (Hall := chunk_recorded cs n xs v s' Hs' Hfit Hst' Hct' Hu). fold cs0 in Hall.
  destruct (reached_idle _ _ _ Hs') as [Hstk' _].
  assert (Hg : ∀ cs1 k ys r, cs0 = cs1 ++ (k, ys) :: r → gives s' TyList (img k) (lst img (tx ys) (nxt r))).
  { intros cs1 k ys r Heq. destruct (Hall _ _ _ _ Heq) as [_ Huk]. apply up_to_date_gives in Huk; [|done]. unfold val_of in Huk. by rewrite view_next in Huk. }
  assert (Hgc : ∀ cs1 k ys r, cs0 = cs1 ++ (k, ys) :: r → gives s' TyList (src k) (lst src ys (nxt r))).
  { intros cs1 k ys r Heq. eapply cell_is; [exact Hs'|]. by eapply stored_at. }
  assert (Hsame : ∀ m c0, table s !! img m = Some (NComp c0) → holds s' !! img m = holds s !! img m).
  { intros m c0 Hc0. rewrite Hh, mapped_img. destruct (decide (m ∈ names cs)); [|done]. destruct (Hfr m) as [E|E]; [|done].
    unfold holds in E. rewrite contents_lookup, Hc0 in E. done. }
  assert (Hmust : ∀ cs1 k ys r, cs0 = cs1 ++ (k, ys) :: r → must_run s s' (img k) ↔ last k ≠ Some (view_of ys r)).
  { intros cs1 k ys r Heq. specialize (Hrec k). destruct (last k) as [vw|]; [|split; [done|by intros _; left]].
    destruct Hrec as [Hr Hdis]. assert (Hr' := Hr). destruct Hr' as (c0 & Hc0 & HE0 & Hw0). split.
    - intros Hm Heqv. injection Heqv as ->. destruct Hm as [Hm|[Hm|[(y & ty & f & w & v' & Hsaw & Hgv & Hne)|(y & Hmd & Hm)]]].
      + apply Hm. by eapply rec_evaluated.
      + apply Hm. by eapply Hsame.
      + destruct (rec_saw _ _ _ _ _ _ _ _ Hr Hsaw) as [[Hi ->]|Hi]; unfold E_of, view_of in Hi; cbn [fst snd] in Hi.
        * apply elem_of_cons in Hi as [Hi|Hi].
          { injection Hi as -> -> ->. apply Hne. eapply gives_fun; [exact Hgv|]. fold (view_of ys r).
            assert ((fst <$> match r with [] => None | (m, ys0) :: r0 => Some (m, (tx ys0, nxt r0)) end) = nxt r) as -> by (by destruct r as [|[]]).
            by eapply Hgc. }
          destruct r as [|[m zs] r]; [by apply elem_of_nil in Hi|]. apply elem_of_cons in Hi as [Hi|Hi]; [done|].
          apply elem_of_list_singleton in Hi. injection Hi as -> -> ->. apply Hne. eapply gives_fun; [exact Hgv|].
          apply (Hg (cs1 ++ [(k, ys)]) m zs r). by rewrite <- (assoc_L (++)).
        * exfalso. apply elem_of_cons in Hi as [Hi|Hi]; [done|]. destruct r as [|[m zs] r]; [by apply elem_of_nil in Hi|].
          apply elem_of_cons in Hi as [Hi|Hi]; [done|]. by apply elem_of_list_singleton in Hi.
      + destruct (rec_made _ _ _ _ _ Hr Hmd) as (d & Hi). unfold E_of, view_of in Hi; cbn [fst snd] in Hi.
        apply elem_of_cons in Hi as [Hi|Hi]; [done|]. destruct r as [|[m zs] r]; [by apply elem_of_nil in Hi|].
        apply elem_of_cons in Hi as [Hi|Hi]; [|by apply elem_of_list_singleton in Hi]. injection Hi as -> ->.
        destruct Hm as [Hm|Hm]; [by eapply Hdis|]. apply Hm. rewrite Hh, mapped_img. destruct (decide (m ∈ names cs)); [|done].
        destruct (Hfr m) as [E|E]; [|done]. exfalso.
        assert (Hi := reached_inv _ _ _ Hs). destruct Hmd as (c & e1 & Hc & He & Ha & Hl).
        destruct (i_edge _ _ _ _ Hi _ _ _ Hc He) as [Hw _]. unfold wfe in Hw.
        change (sh_loc (shape e1)) with (s_loc e1) in Hw. change (sh_eff (shape e1)) with (s_eff e1) in Hw. change (sh_dep (shape e1)) with (s_dep e1) in Hw.
        rewrite Hl in Hw. unfold holds in E. rewrite contents_lookup in E. destruct (table s !! img m) eqn:Em; [done|]. rewrite Ha in Hw.
        destruct (s_dep e1); naive_solver.
    - intros Hne. right. right. left. destruct vw as [xs0 o0].
      destruct (decide ((xs0, fst <$> o0) = (ys, nxt r))) as [Heq1|Hne1].
      + injection Heq1 as -> Hnx. destruct r as [|[m zs] r].
        { destruct Hne. destruct o0; [done|]. done. }
        destruct o0 as [[m0 [zs0 on0]]|]; [|done]. injection Hnx as ->.
        exists (img m), TyList, (λ u, u), (lst img zs0 on0), (lst img (tx zs) (nxt r)).
        split; [eapply rec_saw_r; [exact Hr|right; right; by left]|]. split.
        { apply (Hg (cs1 ++ [(k, ys)]) m zs r). by rewrite <- (assoc_L (++)). }
        intros Heq2. apply lst_inj in Heq2 as [<- <-]. done.
      + exists (src k), TyList, (λ u, u), (lst src xs0 (fst <$> o0)), (lst src ys (nxt r)).
        split; [eapply rec_saw_r; [exact Hr|by left]|]. split; [by eapply Hgc|]. intros Heq2. apply lst_inj in Heq2 as [<- E2]. apply Hne1. by rewrite E2. }
  exists s', rs. split; [done|]. split; [done|]. split.
  { apply NoDup_Permutation; [done|apply NoDup_fmap_2; [intros a b; apply img_inj|by apply reruns_nodup]|].
    intros x. rewrite Hx, Hlgin, elem_of_list_fmap. split.
    - intros [(m & Hm & ->) Hmr]. exists m. split; [done|]. apply reruns_in; [done|]. destruct (names_split _ _ Hm) as (cs1 & ys & r & Heq).
      exists cs1, ys, r. split; [done|]. by eapply Hmust.
    - intros (m & -> & Hm). split; [exists m; split; [by eapply reruns_names|done]|]. apply reruns_in in Hm as (cs1 & ys & r & Heq & Hne); [|done].
      by eapply Hmust. }
  split; [|split; [done|exact Hg]].
  split; [done| | |].
  - intros m. rewrite Hh, mapped_src. apply Hcl.
  - rewrite Hh. by apply mapped_free.
  - intros m. destruct (decide (m ∈ names cs0)) as [Hm|Hm].
    + destruct (names_split _ _ Hm) as (cs1 & ys & r & Heq). rewrite (note_in last cs0 cs1 m ys r Hnd Heq).
      destruct (Hall _ _ _ _ Heq) as [Hr Huk]. split; [done|]. intros k (c & Hc & Hb). unfold up_to_date in Huk. rewrite Hc in Huk.
      destruct Huk as (_ & _ & Hac). destruct (bit_Some _ _ _ _ Hb) as (e & He & E1 & E2). specialize (Hac _ He). rewrite E1, E2 in Hac. congruence.
    + rewrite note_out by done. assert (img m ∉ rs) as Hnr.
      { intros Hin. apply Hx in Hin as [Hin _]. apply Hlgin in Hin as (m' & Hm' & E). apply img_inj in E as ->. done. }
      specialize (Hrec m). destruct (last m) as [vw|].
      * destruct Hrec as [(c0 & Hc0 & HE & Hw0) Hdis].
        destruct (Hrm (img m) c0 _ Hc0 Hw0) as [Hne|(c & w' & Hc & Hw & Hk)]; [destruct Hne; by eapply Hsame|].
        destruct (Hk Hnr) as [-> Hsh]. split; [exists c; split; [done|]; by rewrite Hsh|].
        intros k (c1 & Hc1 & Hb). rewrite Hc in Hc1. injection Hc1 as <-.
        destruct (Hun _ Hnr c Hc) as (c2 & Hc2 & _ & _ & _ & _ & Hbits); [congruence|]. rewrite Hc0 in Hc2. injection Hc2 as <-.
        destruct (Hbits _ Hb) as [Hb0|Hne]; [apply (Hdis k); by exists c0|].
        apply Hne. change (holds s' !! img k = holds s !! img k). 
        assert (Hi := reached_inv _ _ _ Hs). destruct (bit_Some _ _ _ _ Hb) as (e' & He' & E1 & E2).
        assert (shape e' ∈ shape <$> c_succs c0) as (e1 & Hse & He)%elem_of_list_fmap by (rewrite <- Hsh; by apply elem_of_list_fmap_1).
        injection Hse as F1 F2 F3. destruct (i_edge _ _ _ _ Hi _ _ _ Hc0 He) as [Hwf _]. unfold wfe in Hwf.
        change (sh_loc (shape e1)) with (s_loc e1) in Hwf. change (sh_eff (shape e1)) with (s_eff e1) in Hwf. change (sh_dep (shape e1)) with (s_dep e1) in Hwf.
        rewrite <- F1, E2 in Hwf. rewrite Hh, mapped_img. destruct (decide (k ∈ names cs)); [|done].
        destruct (Hfr k) as [E|E]; [|done]. exfalso. unfold holds in E. rewrite contents_lookup in E. destruct (table s !! img k) eqn:Em; [done|].
        rewrite <- F2, E1 in Hwf. destruct (s_dep e1); naive_solver.
      * intros (w & c1 & Hc1 & Hw1). destruct (Hun _ Hnr c1 Hc1) as (c0 & Hc0 & Hr0 & _); [congruence|]. apply Hrec.
        destruct (c_res c0) as [w0|] eqn:Hw0; [|done]. by exists w0, c0.
Qed.

(** ** The editor *)
Lemma known_raise last s s1 : known last s → reached opt false s1 → (∀ n, holds s1 !! src n = None ∨ ∃ v, holds s1 !! src n = Some (CCell TyList v)) →
  free (holds s1) → (∀ n, onode_raised (table s !! img n) (table s1 !! img n)) →
  (∀ n m, nbit s1 (img n) Allocate (img m) = Some true → nbit s (img n) Allocate (img m) = Some true) → known last s1.
Proof.
  intros [Hs Hcl Hfr Hrec] Hs1 Hcl1 Hfr1 Hr Hb. split; [done|done|done|]. intros n. specialize (Hrec n). destruct (last n) as [vw|].
  - destruct Hrec as [Hr0 Hd]. split; [by eapply rec_raised|]. intros m (c & Hc & Hbt). destruct Hr0 as (c0 & Hc0 & _). apply (Hd m). exists c0. split; [done|].
    specialize (Hb n m). unfold nbit in Hb. rewrite Hc, Hc0 in Hb. by apply Hb.
  - by eapply uneval_raised.
Qed.
Lemma put_cell last s n v : known last s → ∃ s1,
  cell_op TyList n v s = (OVal (src n), s1) ∧ runs s1 = runs s ∧ known last s1 ∧ holds s1 = <[src n := CCell TyList v]> (holds s).
Proof.
  intros Hk. assert (Hk' := Hk). destruct Hk' as [Hs Hcl Hfr Hrec]. destruct (reached_idle _ _ _ Hs) as [Hst Hcp].
  destruct (reached_Ed _ _ _ Hs) as (_ & _ & Hsf & _).
  destruct (reached_step opt false s 1 (Cell TyList n v (λ l, Ret (VLoc l))) (VLoc (src n)) (d_write [] (src n) (CCell TyList v) (d_init (holds s))) Hs) as (s1 & (K & HK) & Hs1 & Hh1).
  { unfold d_exec. cbn [d_run]. unfold dbind, d_cell, d_alloc. fold (src n). cbn [s6_ok d_store d_init d_seen]. destruct (Hcl n) as [->|[w ->]]; [done|].
    assert (rebind_ok (src n) (Some (CCell TyList w)) (CCell TyList v) ∅ = true) as ->; [|done].
    unfold rebind_ok. apply orb_true_iff. right. rewrite !bool_decide_true; [done|done|set_solver]. }
  specialize (HK K ltac:(lia)). unfold exec in HK. cbn [run] in HK. unfold bind in HK.
  destruct (cell_op TyList n v s) as [[l|r|] s2] eqn:E; [|done|done]. injection HK as -> ->. exists s1. split; [done|].
  split; [by eapply C07_edits_do_not_evaluate|]. cbn [d_store d_write d_init] in Hh1. split; [|done].
  assert (cell_loc s n v = src n) as Hloc by (unfold cell_loc; by rewrite Hsf, Hcp).
  assert (Hnc : ∀ c, table s !! src n ≠ Some (NComp c)).
  { intros c Hc. destruct (Hcl n) as [E1|[w E1]]; unfold holds in E1; rewrite contents_lookup, Hc in E1; done. }
  eapply known_raise; [exact Hk|done| | | |].
  - intros m. rewrite Hh1. destruct (decide (src m = src n)) as [E1|E1]; [rewrite E1, lookup_insert; eauto|rewrite lookup_insert_ne by done; apply Hcl].
  - intros m. rewrite Hh1. rewrite lookup_insert_ne by (apply src_img). apply Hfr.
  - intros m. destruct (post_elim _ _ _ _ _ (cell_op_any TyList n v s) E) as [_ _ _ Hx _ _]. rewrite Hloc in Hx. apply Hx; [done|]. intros E1. by apply (src_img n m).
  - intros a b Hb. destruct (Hcl n) as [Hn|[w Hn]].
    + assert (table s !! src n = None) as Hnone. { unfold holds in Hn. rewrite contents_lookup in Hn. by destruct (table s !! src n). }
      destruct (cell_fresh TyList n v s Hst Hsf) as (s2 & E2 & Ht2); [by rewrite Hcp|]. rewrite E in E2. injection E2 as _ <-.
      unfold nbit in *. rewrite Ht2, Hcp in Hb. fold (src n) in Hb. rewrite lookup_insert_ne in Hb by (intros E1; by apply (src_img n a)). done.
    + destruct (decide (w = v)) as [->|Hne].
      * assert (∃ ps, table s !! src n = Some (NMut TyList ps v)) as (ps & Hps).
        { unfold holds in Hn. rewrite contents_lookup in Hn. destruct (table s !! src n) as [[t0 ps0 v0|t0 v0|c0]|] eqn:E1; simpl in Hn; try done.
          - injection Hn as -> ->. eauto.
          - exfalso. by eapply (not_pure opt false s (src n)). }
        destruct (C06_cell_same s TyList n ps v Hst Hsf) as (s2 & E2 & Ht2 & _); [by rewrite Hcp|]. rewrite E in E2. injection E2 as _ <-.
        unfold nbit in *. by rewrite Ht2 in Hb.
      * destruct (C60_cell_dirties_exactly opt false s TyList n v w (src n) s1 Hs Hsf Hn Hne E) as (_ & Hex & _).
        apply Hex in Hb as [Hb|[[E1 _]|(E1 & _)]]; [done| |done]. by destruct (src_img n b).
Qed.
Lemma put_thunk last s n : known last s → ∃ s1,
  thunk_op TyList (NCNominal n) pp (v_lart (src n)) sp (set_cpath [mns] s) = (OVal (img n), set_cpath [mns] s1) ∧
  runs s1 = runs s ∧ known last s1 ∧ holds s1 = <[img n := ct n]> (holds s).
Proof.
  intros Hk. assert (Hk' := Hk). destruct Hk' as [Hs Hcl Hfr Hrec]. destruct (reached_idle _ _ _ Hs) as [Hst Hcp].
  destruct (reached_Ed _ _ _ Hs) as (_ & _ & Hsf & _). set (op := thunk_op _ _ _ _ _).
  destruct (reached_step opt false s 1 (Ns mns (Thunk TyList (NCNominal n) pp (v_lart (src n)) sp (λ l, Ret (VLoc l))) Ret) (VLoc (img n))
    (d_write [] (img n) (ct n) (d_init (holds s))) Hs) as (s1 & (K & HK) & Hs1 & Hh1).
  { unfold d_exec. cbn [d_run]. unfold dbind, d_thunk. fold (img n) (ct n). rewrite d_alloc_same; [done|done| |done|done]. apply Hfr. }
  specialize (HK K ltac:(lia)). unfold exec in HK. cbn [run] in HK. unfold bind, Engine.get, modify, ret in HK. rewrite Hcp in HK. fold op in HK.
  destruct (op (set_cpath [mns] s)) as [[l|r|] s2] eqn:E; [|done|done]. injection HK as -> <-.
  assert (cpath s2 = [mns] ∧ ((table s !! img n = None ∧ table s2 = <[img n := NComp (CompNode TyList [] [] pp (v_lart (src n)) sp None)]> (table s)) ∨
    (table s !! img n ≠ None ∧ table s2 = table s))) as [Hcp2 Htab].
  { destruct (table s !! img n) as [nd|] eqn:Hnd.
    - destruct (Hfr n) as [E1|E1]; [unfold holds in E1; rewrite contents_lookup, Hnd in E1; done|].
      destruct (comp_at _ _ _ _ _ _ E1) as (c & Hc & Ht & Hp & Ha & _). 
      destruct (C06_thunk_same (set_cpath [mns] s) TyList n pp (v_lart (src n)) sp c Hst Hsf Hc Ht Hp Ha) as (s3 & E3 & Ht3 & _ & Hc3 & _).
      fold op in E3. rewrite E in E3. injection E3 as <-. split; [done|]. right. split; [done|]. exact Ht3.
    - destruct (thunk_fresh TyList n pp (v_lart (src n)) sp (set_cpath [mns] s) Hst Hsf Hnd) as (s3 & E3 & Hc3 & Ht3).
      fold op in E3. rewrite E in E3. injection E3 as <-. split; [done|]. left. split; [done|]. exact Ht3. }
  exists (set_cpath [] s2). split.
  { f_equal. destruct s2; simpl in *. by rewrite Hcp2. }
  split; [by apply (C07_thunk_does_not_evaluate (set_cpath [mns] s) s2 TyList (NCNominal n) pp (v_lart (src n)) sp _ E)|]. cbn [d_store d_write d_init] in Hh1. split; [|done].
  destruct Htab as [[Hnone Ht2]|[_ Ht2]].
  - split; [done| | |].
    + intros m. rewrite Hh1, lookup_insert_ne by (intros E1; by apply (src_img m n)). apply Hcl.
    + rewrite Hh1. by apply free_insert.
    + intros m. specialize (Hrec m). destruct (decide (m = n)) as [->|Hne].
      * destruct (last n) as [vw|]; [destruct Hrec as [(c & Hc & _) _]; congruence|]. intros (w & c & Hc & Hw).
        change (table (set_cpath [] s2)) with (table s2) in Hc. rewrite Ht2, lookup_insert in Hc. by injection Hc as <-.
      * assert (table (set_cpath [] s2) !! img m = table s !! img m) as Hlk.
        { change (table (set_cpath [] s2)) with (table s2). rewrite Ht2, lookup_insert_ne; [done|]. intros E1. by apply img_inj in E1. }
        destruct (last m) as [vw|]; unfold recorded, disturbed, evaluated, cached in *; by rewrite Hlk.
  - eapply known_raise; [exact Hk|done| | | |].
    + intros m. rewrite Hh1, lookup_insert_ne by (intros E1; by apply (src_img m n)). apply Hcl.
    + rewrite Hh1. by apply free_insert.
    + intros m. change (table (set_cpath [] s2)) with (table s2). rewrite Ht2. apply onode_raised_refl.
    + intros a b. unfold nbit. change (table (set_cpath [] s2)) with (table s2). by rewrite Ht2.
Qed.

(** The editor builds the list, from its end ([list_of_vec] does it like this: one [cell] for each name) ... *)
Fixpoint build (cs : list chunk) (k : val → comp) : comp :=
  match cs with
  | [] => k v_nil
  | (n, xs) :: r => build r (λ tl, Cell TyList n (foldr v_cons tl xs) (λ l, k (v_lname n (v_lart l))))
  end.
(** ... and applies the function to it.  A round: the elements before the first name, and the rest. *)
Notation round := (list val * list chunk)%type.
Definition step (r : round) (k : val → comp) : comp := build r.2 (λ l, Ns mns (fn F (foldr v_cons l r.1)) k).
Definition ok_round (r : round) : Prop := (length r.1 + 1 ≤ F)%nat ∧ fits r.2 ∧ NoDup (names r.2).
Definition result (r : round) : val := lst img (tx r.1) (nxt r.2).

Lemma build_run last s cs : known last s → NoDup (names cs) → ∃ s1,
  (∀ f k, run f (build cs k) s = run f (k (lnk src (nxt cs))) s1) ∧ runs s1 = runs s ∧ known last s1 ∧ stored cs (holds s1).
Proof.
  intros Hk. induction cs as [|[n xs] cs IH]; intros Hnd; [by exists s|]. apply NoDup_cons in Hnd as [Hn Hnd].
  destruct (IH Hnd) as (s1 & Hrun & Hr1 & Hk1 & Hst1). destruct (put_cell last s1 n (lst src xs (nxt cs)) Hk1) as (s2 & E & Hr2 & Hk2 & Hh2).
  exists s2. split; [|split; [congruence|split; [done|]]].
  - intros f k. cbn [build]. rewrite Hrun. cbn [run]. fold (lst src xs (nxt cs)). rewrite (bind_val _ _ s1 (src n) s2) by exact E. done.
  - split; [by rewrite Hh2, lookup_insert|]. revert Hh2. generalize (lst src xs (nxt cs)). intros w Hh2. clear -Hn Hst1 Hh2.
    induction cs as [|[m ys] cs IHc]; [done|]. destruct Hst1 as [H1 H2].
    change (names ((m, ys) :: cs)) with (m :: names cs) in Hn. split; [|apply IHc; [set_solver|done]].
    rewrite Hh2, lookup_insert_ne; [done|]. intros E1. apply Hn. assert (n = m) as -> by (by injection E1). by left.
Qed.

(** What the output looks like: at each name the mapped elements up to the next name, and the next name. *)
Definition shows (s : dcg) (cs : list chunk) : Prop := ∀ cs1 n xs r, cs = cs1 ++ (n, xs) :: r →
  gives s TyList (img n) (lst img (tx xs) (nxt r)).

(** C64.  One round of the editor, after any rounds: the output is the mapped list, and the thunks run, each once, are
    exactly [reruns]. *)
Theorem C64_map_round last s r : known last s → ok_round r → ∃ s' rs,
  (∃ K, ∀ f k, (K ≤ f)%nat → exec f (step r k) s = exec f (k (result r)) s') ∧
  runs s' = rs ++ runs s ∧ rs ≡ₚ img <$> reruns last r.2 ∧ known (note last r.2) s' ∧ shows s' r.2.
Proof.
  destruct r as [hd cs]. intros Hk (HF0 & Hfit & Hnd). cbn [fst snd] in *. destruct (build_run last s cs Hk Hnd) as (s1 & Hrun & Hr1 & Hk1 & Hst1).
  destruct (reached_idle _ _ _ (k_reached _ _ Hk1)) as [Hst Hcp].
  assert (Hns : ∀ f o k s2 v s3, run (force f) (foldl cbind (tailc o) (gs hd)) (set_cpath [mns] s2) = (OVal v, set_cpath [mns] s3) → cpath s2 = [] → cpath s3 = [] →
    exec f (Ns mns (fn F (lst src hd o)) k) s2 = exec f (k v) s3).
  { intros f o k s2 v s3 E Hc2 Hc3. rewrite map_chunk by lia. unfold exec. cbn [run]. unfold bind, get, modify. rewrite Hc2, E.
    change (set_cpath [] (set_cpath [mns] s3)) with (set_cpath [] s3). assert (set_cpath [] s3 = s3) as ->; [|done].
    destruct s3; simpl in *. by rewrite Hc3. }
  destruct cs as [|[n xs] cs].
  - exists s1, []. split; [|split; [done|split; [done|split; [done|]]]].
    + exists 0%nat. intros f k _. unfold exec, step. cbn [fst snd]. rewrite Hrun. apply (Hns f None k s1 (result (hd, [])) s1); [|done|done].
      cbn [tailc]. by rewrite fold_ret.
    + intros [|] ? ? ? ?; discriminate.
  - destruct (put_thunk last s1 n Hk1) as (s2 & E2 & Hr2 & Hk2 & Hh2).
    destruct (map_demand last n xs cs s2 Hk2 Hfit Hnd) as (s3 & rs & (K & HK) & Hr3 & Hrs & Hk3 & _ & Hsh).
    { rewrite Hh2. eapply stored_mono; [exact Hst1|]. intros k. rewrite lookup_insert_ne; [done|]. intros E. by apply (src_img k n). }
    { by rewrite Hh2, lookup_insert. }
    destruct (reached_idle _ _ _ (k_reached _ _ Hk2)) as [_ Hcp2]. destruct (reached_idle _ _ _ (k_reached _ _ Hk3)) as [_ Hcp3].
    exists s3, rs. split; [|split; [congruence|done]].
    exists K. intros f k Hf. unfold exec, step. cbn [fst snd]. rewrite Hrun. change (nxt ((n, xs) :: cs)) with (Some n).
    apply (Hns f (Some n) k s1 (result (hd, (n, xs) :: cs)) s3); [|done|done].
    cbn [tailc]. unfold eager_m. rewrite fold_thunk. cbn [run]. rewrite (bind_val _ _ _ (img n) (set_cpath [mns] s2)) by exact E2. cbv beta.
    rewrite fold_force. cbn [run force_art].
    specialize (HK f Hf). apply force_ignores_namespace in HK as [_ HK].
    rewrite (bind_val _ _ _ _ _ (HK [mns])). rewrite fold_ret. done.
Qed.

(** ** Whole sessions *)
Fixpoint rounds (rds : list round) (acc : list val) : comp :=
  match rds with [] => Ret (foldr VPair VUnit acc) | r :: rds => step r (λ v, rounds rds (acc ++ [v])) end.
Fixpoint all_reruns (last : name → option view) (rds : list round) : list name :=
  match rds with [] => [] | r :: rds => reruns last r.2 ++ all_reruns (note last r.2) rds end.
Definition notes (rds : list round) : name → option view := foldl (λ last r, note last r.2) (λ _, None) rds.
Lemma known_new : known (λ _, None) (dcg_new_flags false opt).
Proof.
  assert (reached opt false (dcg_new_flags false opt)) as Hr.
  { exists (Ret VUnit), 0%nat, VUnit. split; [|done]. by exists 0%nat, VUnit, (d_init ∅). }
  assert (holds (dcg_new_flags false opt) = ∅) as Hh. { apply map_eq. intros l. unfold holds. rewrite contents_lookup. cbn. by rewrite !lookup_empty. }
  split; [done| | |].
  - intros n. left. by rewrite Hh, lookup_empty.
  - intros n. left. by rewrite Hh, lookup_empty.
  - intros n (w & c & Hc & _). cbn in Hc. by rewrite lookup_empty in Hc.
Qed.
Lemma rounds_from rds last s acc : known last s → Forall ok_round rds → ∃ s' rs,
  returns (rounds rds acc) s (foldr VPair VUnit (acc ++ (result <$> rds))) s' ∧ runs s' = rs ++ runs s ∧
  rs ≡ₚ img <$> all_reruns last rds ∧ known (foldl (λ last r, note last r.2) last rds) s' ∧ (rds = [] → s' = s) ∧
  ∀ r, list.last rds = Some r → shows s' r.2.
Proof.
  revert last s acc. induction rds as [|r rds IH]; intros last s acc Hk Hok.
  - exists s, []. split; [exists 0%nat; intros k _; cbn; by rewrite app_nil_r|]. done.
  - apply Forall_cons in Hok as [Hf1 Hok].
    destruct (C64_map_round last s r Hk Hf1) as (s1 & rs1 & (K1 & HK1) & Hr1 & Hp1 & Hk1 & Hsh1).
    destruct (IH (note last r.2) s1 (acc ++ [result r]) Hk1 Hok) as (s2 & rs2 & (K2 & HK2) & Hr2 & Hp2 & Hk2 & Hsame & Hsh2).
    exists s2, (rs2 ++ rs1). split; [|split; [rewrite Hr2, Hr1; by rewrite (assoc_L (++))|split; [|split; [done|split; [done|]]]]].
    + exists (K1 + K2)%nat. intros k Hk0. cbn [rounds]. rewrite HK1 by lia. rewrite HK2 by lia. by rewrite <- (assoc_L (++)).
    + cbn [all_reruns]. rewrite fmap_app, Hp1, Hp2. apply Permutation_app_comm.
    + intros r0 Hl. destruct rds as [|r1 rds]; [|by apply Hsh2]. injection Hl as <-. by rewrite (Hsame eq_refl).
Qed.

(** C64.  A whole session in a new engine: every round returns the reference to the mapped list, which the engine then
    holds; and over the whole session exactly the thunks [all_reruns] ran, each as often as it occurs there. *)
Theorem C64_sessions rds : Forall ok_round rds → ∃ s',
  returns (rounds rds []) (dcg_new_flags false opt) (foldr VPair VUnit (result <$> rds)) s' ∧
  runs s' ≡ₚ img <$> all_reruns (λ _, None) rds ∧ ∀ r, list.last rds = Some r → shows s' r.2.
Proof.
  intros Hok. destruct (rounds_from rds _ _ [] known_new Hok) as (s' & rs & Hret & Hr & Hp & _ & _ & Hsh).
  exists s'. split; [done|]. split; [|done]. rewrite Hr. cbn [runs dcg_new_flags]. by rewrite app_nil_r.
Qed.
(** One more round after a session. *)
Lemma C64_one_more rds r : Forall ok_round (rds ++ [r]) → ∃ s1 s2 rs v1 v2,
  returns (rounds rds []) (dcg_new_flags false opt) v1 s1 ∧ returns (rounds (rds ++ [r]) []) (dcg_new_flags false opt) v2 s2 ∧
  runs s2 = rs ++ runs s1 ∧ rs ≡ₚ img <$> reruns (notes rds) r.2 ∧ shows s2 r.2.
Proof.
  intros [Hok Hr0]%Forall_app. apply Forall_cons in Hr0 as [Hr0 _].
  destruct (rounds_from rds _ _ [] known_new Hok) as (s1 & rs1 & Hret & Hr & Hp & Hk & _ & _).
  destruct (C64_map_round _ s1 r Hk Hr0) as (s2 & rs2 & (K2 & HK2) & Hr2 & Hp2 & Hk2 & Hsh2).
  assert (Hgen : ∀ acc last s, known last s → returns (rounds rds acc) s (foldr VPair VUnit (acc ++ (result <$> rds))) s1 →
    returns (rounds (rds ++ [r]) acc) s (foldr VPair VUnit (acc ++ (result <$> rds ++ [r]))) s2).
  { clear Hret Hr Hp Hk Hp2 Hk2. revert Hok. induction rds as [|c rds IH]; intros Hok acc last s Hkn (K & HK).
    - exists (K + K2)%nat. intros k Hkk. cbn [rounds app]. specialize (HK k ltac:(lia)). cbn [rounds] in HK. injection HK as _ ->.
      rewrite HK2 by lia. done.
    - apply Forall_cons in Hok as [Hf Hok].
      destruct (C64_map_round last s c Hkn Hf) as (s3 & rs3 & (K3 & HK3) & _ & _ & Hk3 & _). cbn [rounds app].
      assert (returns (rounds (rds ++ [r]) (acc ++ [result c])) s3 (foldr VPair VUnit ((acc ++ [result c]) ++ (result <$> rds ++ [r]))) s2) as (K4 & HK4).
      { eapply IH; [done..|]. exists (K + K3)%nat. intros k Hkk. specialize (HK k ltac:(lia)). cbn [rounds] in HK. rewrite HK3 in HK by lia.
        rewrite <- (assoc_L (++)). exact HK. }
      exists (K3 + K4)%nat. intros k Hkk. rewrite HK3 by lia. rewrite HK4 by lia. by rewrite <- (assoc_L (++)). }
  eexists s1, s2, rs2, _, _. split; [exact Hret|]. split; [eapply Hgen; [exact known_new|exact Hret]|]. done.
Qed.

(** ** The cost of an edit *)
Definition agrees (last : name → option view) (cs u : list chunk) : Prop :=
  ∀ cs1 k ys r, cs = cs1 ++ (k, ys) :: r → last k = Some (view_of ys (r ++ u)).
Lemma agrees_tail last c cs u : agrees last (c :: cs) u → agrees last cs u.
Proof. intros Ha cs1 k ys r ->. by apply (Ha (c :: cs1) k ys r). Qed.
Lemma agrees_none last cs : agrees last cs [] → reruns last cs = [].
Proof.
  induction cs as [|[n xs] cs IH]; [done|]. intros Ha. cbn [reruns]. rewrite decide_True.
  - by apply IH, (agrees_tail _ (n, xs)).
  - rewrite (Ha [] n xs cs eq_refl). by rewrite app_nil_r.
Qed.
Lemma note_agrees last a b : NoDup (names (a ++ b)) → agrees (note last (a ++ b)) a b ∧ agrees (note last (a ++ b)) b [].
Proof.
  intros Hnd. split.
  - intros cs1 k ys r ->. eapply note_in; [done|]. by rewrite <- (assoc_L (++)).
  - intros cs1 k ys r ->. rewrite app_nil_r. eapply note_in; [done|]. by rewrite (assoc_L (++)).
Qed.
Lemma reruns_at_most last mid cs : (length (reruns last (mid ++ cs)) ≤ length mid + length (reruns last cs))%nat.
Proof.
  induction mid as [|[n xs] mid IH]; [simpl; lia|]. cbn [app reruns]. rewrite app_length. destruct (decide _); simpl in *; lia.
Qed.
(** Before the edit at most two thunks run, and at most one if the edit does not change the name after it. *)
Lemma reruns_before last pre u t : agrees last pre u →
  (length (reruns last (pre ++ t)) ≤ (if decide (nxt t = nxt u) then 1 else 2) `min` length pre + length (reruns last t))%nat.
Proof.
  induction pre as [|[n xs] pre IH]; intros Ha; [simpl; lia|]. specialize (IH (agrees_tail _ _ _ _ Ha)). cbn [app reruns length].
  rewrite app_length. assert (Hv := Ha [] n xs pre eq_refl).
  destruct (decide (last n = Some (view_of xs (pre ++ t)))) as [E|E]; [change (length []) with 0%nat; destruct (decide (nxt t = nxt u)); lia|].
  change (length [n]) with 1%nat. rewrite Hv in E. destruct pre as [|[m1 ys1] [|[m2 ys2] pre]]; simpl length in *.
  - destruct (decide (nxt t = nxt u)); lia.
  - destruct (decide (nxt t = nxt u)) as [E2|]; [|lia]. destruct E. unfold view_of. cbn [app]. by rewrite E2.
  - destruct E. done.
Qed.

(** C64.  Whatever the history [last] and however long the list: when [mid] is replaced by [mid'], at most [length mid' + 2]
    thunks run, and at most [length mid' + 1] if the name that follows the unchanged front stays the same. *)
Theorem C64_edit_cost last pre mid mid' post : NoDup (names (pre ++ mid ++ post)) →
  (length (reruns (note last (pre ++ mid ++ post)) (pre ++ mid' ++ post)) ≤ length mid' + 2)%nat ∧
  (nxt (mid' ++ post) = nxt (mid ++ post) → length (reruns (note last (pre ++ mid ++ post)) (pre ++ mid' ++ post)) ≤ length mid' + 1)%nat.
Proof.
  intros Hnd. destruct (note_agrees last pre (mid ++ post) Hnd) as [Ha _].
  assert (Hp : agrees (note last (pre ++ mid ++ post)) post []). { rewrite (assoc_L (++)) in *. by apply note_agrees. }
  assert (H1 := reruns_before _ _ _ (mid' ++ post) Ha). assert (H2 := reruns_at_most (note last (pre ++ mid ++ post)) mid' post).
  rewrite (agrees_none _ _ Hp) in H2. change (length []) with 0%nat in H2. destruct (decide _) as [E|E]; split; intros; try done; lia.
Qed.
(** Mapping the same list again runs nothing. *)
Theorem C64_same_again last cs : NoDup (names cs) → reruns (note last cs) cs = [].
Proof. intros Hnd. apply agrees_none. exact (proj2 (note_agrees last [] cs Hnd)). Qed.
(** Undoing a replacement by chunks with other names runs at most two thunks, however long the removed part was. *)
Theorem C64_undo_cost last pre mid mid' post : NoDup (names (pre ++ mid ++ post)) → NoDup (names (pre ++ mid' ++ post)) →
  (∀ k, k ∈ names mid → k ∉ names mid') →
  (length (reruns (note (note last (pre ++ mid ++ post)) (pre ++ mid' ++ post)) (pre ++ mid ++ post)) ≤ 2)%nat.
Proof.
  intros Hnd Hnd' Hdis. set (L1 := note last (pre ++ mid ++ post)). set (L2 := note L1 (pre ++ mid' ++ post)).
  destruct (note_agrees L1 pre (mid' ++ post) Hnd') as [Ha _]. fold L2 in Ha.
  assert (Hp : agrees L2 (mid ++ post) []).
  { intros cs1 k ys r Heq. rewrite app_nil_r. destruct (decide (k ∈ names (pre ++ mid' ++ post))) as [Hin|Hout].
    - assert (Hpost : agrees L2 post []). { subst L2. rewrite (assoc_L (++)) in *. by apply note_agrees. }
      assert (k ∈ names mid ∨ ∃ cs2, post = cs2 ++ (k, ys) :: r) as [Hk|(cs2 & Hk)].
      { apply app_eq_inv in Heq as [(l & Hk & Hl)|(l & _ & Hl)]; [|by right; exists l]. destruct l as [|c l].
        - right. exists []. symmetry. exact Hl.
        - injection Hl as <- _. left. rewrite Hk. apply elem_of_list_fmap. exists (k, ys). split; [done|]. apply elem_of_app. right. by left. }
      + exfalso. assert (Hmid := Hdis k Hk). unfold names in *. rewrite !fmap_app in *. rewrite !elem_of_app in Hin.
        apply NoDup_app in Hnd as (_ & Hn1 & (_ & Hn2 & _)%NoDup_app). destruct Hin as [Hin|[Hin|Hin]]; [|done|].
        * apply (Hn1 k Hin). apply elem_of_app. by left.
        * by apply (Hn2 k Hk).
      + rewrite (Hpost cs2 k ys r Hk). by rewrite app_nil_r.
    - subst L2. rewrite note_out by done. subst L1. apply (note_in last _ (pre ++ cs1)); [done|]. rewrite Heq. by rewrite (assoc_L (++)). }
  assert (H1 := reruns_before _ _ _ (mid ++ post) Ha). rewrite (agrees_none _ _ Hp) in H1. change (length []) with 0%nat in H1.
  destruct (decide _); lia.
Qed.

(** C64.  The cost of an edit in the engine itself: after any session in a new engine that ended with the list
    [hd ++ pre ++ mid ++ post], replacing [mid] by [mid'] (and the elements [hd] before the first name by any others) and
    applying the function again runs at most [length mid' + 2] thunks. *)
Theorem C64_incremental rds hd hd' pre mid mid' post :
  Forall ok_round (rds ++ [(hd, pre ++ mid ++ post); (hd', pre ++ mid' ++ post)]) → ∃ s1 s2 rs v1 v2,
  returns (rounds (rds ++ [(hd, pre ++ mid ++ post)]) []) (dcg_new_flags false opt) v1 s1 ∧
  returns (rounds (rds ++ [(hd, pre ++ mid ++ post); (hd', pre ++ mid' ++ post)]) []) (dcg_new_flags false opt) v2 s2 ∧
  shows s2 (pre ++ mid' ++ post) ∧ runs s2 = rs ++ runs s1 ∧ (length rs ≤ length mid' + 2)%nat.
Proof.
  intros Hall. assert (Hl : rds ++ [(hd, pre ++ mid ++ post); (hd', pre ++ mid' ++ post)] = (rds ++ [(hd, pre ++ mid ++ post)]) ++ [(hd', pre ++ mid' ++ post)]) by (by rewrite <- (assoc_L (++))).
  rewrite Hl in *.
  destruct (C64_one_more _ _ Hall) as (s1 & s2 & rs & v1 & v2 & H1 & H2 & H3 & H4 & H5). exists s1, s2, rs, v1, v2.
  split; [done|]. split; [done|]. split; [done|]. split; [done|]. rewrite H4, fmap_length. unfold notes. rewrite foldl_app. cbn [foldl snd].
  apply Forall_app in Hall as [(_ & Hnd)%Forall_app _]. apply Forall_cons in Hnd as [(_ & _ & Hnd) _]. by apply C64_edit_cost.
Qed.
End IncMap.
