(** * The incremental cost of [tree_fold_up] (collections.rs:569-614), as [monoid_of_tree] (796-813) and
    [eager_tree_of_tree] (816-832) use it, for every monoid, every tree and every history.

    The input is a tree in the layout the library makes (507-524, [bin_arts_niltest]): leaves, binary nodes, and named
    nodes whose two subtrees lie in reference cells under the two forks of the name.  The editor builds such trees again
    and again and folds each.  Here it is computed exactly which of the fold's thunks run each time; so changing one leaf
    runs at most the thunks above it, and fewer if a value on the way does not change. *)
From Verif Require Export IncMap.
Local Open Scope string_scope.
Local Open Scope list_scope.

(** ** Generalities *)
Section Generic.
Context `{Prog}.
Context (opt : bool).
Lemma tr_cbind tb pth md acc c g E v : tr opt tb pth md acc (cbind c g) E v →
  ∃ E1 w E2, E = E1 ++ E2 ∧ tr opt tb pth md acc c E1 w ∧ tr opt tb pth md (acc ++ E1) (g w) E2 v.
Proof.
  intros Ht. remember (cbind c g) as c0 eqn:Hc. revert c Hc.
  induction Ht; intros c1 Hc; destruct c1 as [v9| | | | | | | | | ]; cbn [cbind] in Hc; try discriminate Hc.
  all: try (eexists [], v9, _; split; [reflexivity|]; split; [apply Rel.tr_ret|]; rewrite app_nil_r, <- Hc; econstructor; eauto; fail).
  all: injection Hc; intros; subst; clear Hc.
  all: try (destruct (IHHt _ eq_refl) as (E1 & w1 & E2 & -> & T1 & T2);
    first [ (exists E1, w1, E2; split; [done|]; split; [by econstructor; eauto|done]) 
          | (eexists (_ :: E1), w1, E2; split; [reflexivity|]; split; [econstructor; eauto|by rewrite <- (assoc_L (++)) in T2]) ]; fail).
  1,2: destruct (IHHt (Force t0 (ALoc x) None (λ w, k0 (f0 w))) eq_refl) as (E1 & w1 & E2 & -> & T1 & T2);
    exists E1, w1, E2; (split; [done|]); (split; [by econstructor; eauto|done]).
  1,2: destruct (IHHt2 _ eq_refl) as (E3 & w1 & E4 & -> & T1 & T2); exists (E1 ++ E3), w1, E4; (split; [by rewrite (assoc_L (++))|]);
    (split; [by econstructor|by rewrite <- (assoc_L (++)) in T2]).
Qed.
Lemma ref_run_cbind frc stk pth md c g st :
  ref_run frc stk pth md (cbind c g) st = rbind (ref_run frc stk pth md c) (λ v, ref_run frc stk pth md (g v)) st.
Proof.
  assert (Hb : ∀ A B (m : rM A) (f f' : A → rM B) s, (∀ a s, f a s = f' a s) → rbind m f s = rbind m f' s).
  { intros A B m f f' s0 Hf. unfold rbind. destruct (m s0); auto. }
  assert (Ha : ∀ A B C (m : rM A) (f : A → rM B) (h : B → rM C) s, rbind (rbind m f) h s = rbind m (λ a, rbind (f a) h) s).
  { intros A B C m f h s0. unfold rbind. destruct (m s0); auto. }
  revert pth md st. induction c; intros pth md st; cbn [cbind ref_run]; try done; rewrite ?Ha; apply Hb; intros; eauto.
Qed.
End Generic.

(** Which of the two functions. *)
Inductive folding := WMonoid | WEager.
(** A tree. *)
Inductive tre := TN | TL (x : val) | TB (lev : N) (l r : tre) | TM (n : name) (lev : N) (l r : tre).
(** What one thunk of the fold depends on: the tree down to the next names, and the results for the subtrees there. *)
Inductive view := WN | WL (x : val) | WB (lev : N) (l r : view) | WM (n : name) (lev : N) (a b : val).
Global Instance view_eq_dec : EqDecision view.
Proof. solve_decision. Defined.
Fixpoint height (t : tre) : nat := match t with TN | TL _ => 0 | TB _ l r | TM _ _ l r => S (height l `max` height r) end.

Section IncTree.
Context `{Hashes} `{Hash64 val}.
Context (body : val → val) (pred : val → bool) (id_elm : val) (bin_op : val → val → val) (le : val → val → bool).
Context (F : nat) (hv : val → N) (ha : progpt → val → N).
Context (which : folding).
(** The namespace the function runs in. *)
Context (mns : name) (opt : bool).
Set Default Proof Using "All".
Definition fid : string := match which with WMonoid => "monoid" | WEager => "eager" end.
Definition T : ty := match which with WMonoid => TyElt | WEager => TyTree end.
Definition ops : fold_ops := match which with WMonoid => ops_monoid id_elm bin_op | WEager => ops_eager end.
Definition fn (G : nat) (v : val) : comp := c_fold_up G fid ops v.
(** What the fold computes. *)
Definition fnil : val := match which with WMonoid => id_elm | WEager => v_tnil end.
Definition fleaf (x : val) : val := match which with WMonoid => x | WEager => v_leaf x end.
Definition fbin (lev : N) (a b : val) : val := match which with WMonoid => bin_op a b | WEager => v_bin lev a b end.
Definition fnam (n : name) (lev : N) (a b : val) : val := match which with WMonoid => bin_op a b | WEager => v_tname n lev a b end.
Fixpoint value (t : tre) : val :=
  match t with TN => fnil | TL x => fleaf x | TB lev l r => fbin lev (value l) (value r) | TM n lev l r => fnam n lev (value l) (value r) end.
Local Instance tp : Prog := cat body pred id_elm bin_op le F hv ha.
Lemma code_fold v : code "tree_fold_up" v (VStr fid) = fn F v.
Proof. unfold fn, ops, fid. by destruct which. Qed.

(** ** The input and the thunks, as they lie in the store *)
Definition k1 (n : name) : name := (name_fork n).1.
Definition k2 (n : name) : name := (name_fork n).2.
Definition src (n : name) : loc := Loc [] (IdNom n).
Definition img (n : name) : loc := Loc [mns] (IdNom n).
Fixpoint enc (t : tre) : val :=
  match t with
  | TN => v_tnil | TL x => v_leaf x | TB lev l r => v_bin lev (enc l) (enc r)
  | TM n lev l r => v_tname n lev (v_tart (src (k1 n))) (v_tart (src (k2 n)))
  end.
(** The cells of a tree, with the subtrees in them. *)
Fixpoint cells (t : tre) : list (name * tre) :=
  match t with
  | TN | TL _ => []
  | TB _ l r => cells l ++ cells r
  | TM n _ l r => (k1 n, l) :: cells l ++ (k2 n, r) :: cells r
  end.
Definition names (t : tre) : list name := (cells t).*1.
Definition ct (m : name) : content := CThunk T "tree_fold_up" (v_tart (src m)) (VStr fid).
Definition stored (cs : list (name * tre)) (σ : store) : Prop := ∀ m u, (m, u) ∈ cs → σ !! src m = Some (CCell TyTree (enc u)).
Definition free (σ : store) : Prop := ∀ n, σ !! img n = None ∨ σ !! img n = Some (ct n).
Definition mapped (ns : list name) (σ : store) : store := foldl (λ σ m, <[img m := ct m]> σ) σ ns.

Lemma src_img n m : src n ≠ img m. Proof. done. Qed.
Lemma img_inj n m : img n = img m → n = m. Proof. by intros [= ->]. Qed.
Lemma stored_mono cs σ σ' : stored cs σ → (∀ n, σ' !! src n = σ !! src n) → stored cs σ'.
Proof. intros Hs He m u Hm. rewrite He. by apply Hs. Qed.
Lemma mapped_src ns σ n : mapped ns σ !! src n = σ !! src n.
Proof. revert σ. induction ns as [|m ns IH]; intros σ; [done|]. cbn [mapped foldl]. fold (mapped ns (<[img m := ct m]> σ)). rewrite IH. by rewrite lookup_insert_ne by (intros E; by apply (src_img n m)). Qed.
Lemma free_insert n σ : free σ → free (<[img n := ct n]> σ).
Proof.
  intros Hf m. destruct (decide (img m = img n)) as [E|E]; [|rewrite lookup_insert_ne by done; apply Hf].
  apply img_inj in E as ->. rewrite lookup_insert. by right.
Qed.
Lemma mapped_free ns σ : free σ → free (mapped ns σ).
Proof. revert σ. induction ns as [|m ns IH]; intros σ Hf; [done|]. by apply IH, free_insert. Qed.
Lemma mapped_img ns σ m : mapped ns σ !! img m = if decide (m ∈ ns) then Some (ct m) else σ !! img m.
Proof.
  revert σ. induction ns as [|n ns IH]; intros σ; [done|]. cbn [mapped foldl]. fold (mapped ns (<[img n := ct n]> σ)). rewrite IH.
  destruct (decide (m ∈ ns)); [rewrite decide_True by set_solver; done|]. destruct (decide (m = n)) as [->|].
  - rewrite lookup_insert, decide_True by set_solver. done.
  - rewrite lookup_insert_ne by (intros E; by apply img_inj in E). rewrite decide_False by set_solver. done.
Qed.
Lemma mapped_other ns σ l : (∀ m, l ≠ img m) → mapped ns σ !! l = σ !! l.
Proof. intros Hl. revert σ. induction ns as [|n ns IH]; intros σ; [done|]. cbn [mapped foldl]. fold (mapped ns (<[img n := ct n]> σ)). rewrite IH. by rewrite lookup_insert_ne by (intros E; by apply (Hl n)). Qed.
Lemma mapped_app a b σ : mapped (a ++ b) σ = mapped b (mapped a σ).
Proof. apply foldl_app. Qed.
Lemma names_TB lev l r : names (TB lev l r) = names l ++ names r.
Proof. apply fmap_app. Qed.
Lemma names_TM n lev l r : names (TM n lev l r) = k1 n :: names l ++ k2 n :: names r.
Proof. unfold names. cbn [cells fmap list_fmap fst]. by rewrite fmap_app. Qed.

(** ** What the function does on one cell *)
Definition elim (G F' : nat) (v : val) : comp :=
  t_elim G v (o_nil ops) (o_leaf ops)
    (λ x l r, cbind (fn F' l) (λ resl, cbind (fn F' r) (λ resr, o_bin ops x resl resr)))
    (λ n x l r, memo_m (o_ty ops) (k1 n) "tree_fold_up" l (VStr fid) (λ resl,
         memo_m (o_ty ops) (k2 n) "tree_fold_up" r (VStr fid) (λ resr, o_name ops n x resl resr))).
Lemma fn_S G v : fn (S G) v = elim G G v. Proof. done. Qed.
Lemma elim_enc G F' t : elim G F' (enc t) = fn (S F') (enc t).
Proof. rewrite fn_S. by destruct t, G, F'. Qed.
Lemma fn_art G l : fn (S (S G)) (v_tart l) = Force TyTree (ALoc l) None (λ v, elim G (S G) v).
Proof. done. Qed.
Lemma fn_TN G : fn (S G) (enc TN) = Ret fnil.
Proof. rewrite fn_S. unfold elim, fnil, ops. destruct G; by destruct which. Qed.
Lemma fn_TL G x : fn (S G) (enc (TL x)) = Ret (fleaf x).
Proof. rewrite fn_S. unfold elim, fleaf, ops. destruct G; by destruct which. Qed.
Lemma fn_TB G lev l r : fn (S G) (enc (TB lev l r)) = cbind (fn G (enc l)) (λ a, cbind (fn G (enc r)) (λ b, Ret (fbin lev a b))).
Proof.
  rewrite fn_S. unfold elim, fbin.
  destruct G; unfold fn, ops; destruct which; cbn [t_elim enc v_bin o_bin ops_monoid ops_eager]; rewrite ?N2Z.id; done.
Qed.
Lemma fn_TM G n lev l r : fn (S G) (enc (TM n lev l r)) =
  memo_m T (k1 n) "tree_fold_up" (v_tart (src (k1 n))) (VStr fid) (λ a,
  memo_m T (k2 n) "tree_fold_up" (v_tart (src (k2 n))) (VStr fid) (λ b, Ret (fnam n lev a b))).
Proof.
  rewrite fn_S. unfold elim, fnam, T. destruct G; unfold fn, ops; destruct which; cbn [t_elim enc v_tname o_name o_ty ops_monoid ops_eager]; rewrite ?N2Z.id; done.
Qed.

(** ** The demand obeys the discipline *)
Lemma stored_app a b σ : stored (a ++ b) σ ↔ stored a σ ∧ stored b σ.
Proof. unfold stored. setoid_rewrite elem_of_app. naive_solver. Qed.
Lemma stored_cons m u cs σ : stored ((m, u) :: cs) σ ↔ σ !! src m = Some (CCell TyTree (enc u)) ∧ stored cs σ.
Proof. unfold stored. setoid_rewrite elem_of_cons. naive_solver. Qed.
Definition body_ok (t : tre) : Prop := ∀ G N x stk p, (height t < G)%nat → (height t < F)%nat → (height t ≤ N)%nat → (2 ≤ F)%nat →
  NoDup (names t) → stored (cells t) (d_store p) → free (d_store p) → is_struct x = false → (∀ m, m ∈ names t → img m ∉ x :: stk) →
  ∃ p', d_run opt (d_force opt false N (x :: stk)) (x :: stk) [mns] false (fn G (enc t)) p = Some (value t, p') ∧
    d_store p' = mapped (names t) (d_store p).
Lemma thunk_ok t m N stk p : body_ok t → (height t < F)%nat → (height t ≤ N)%nat → (2 ≤ F)%nat →
  NoDup (m :: names t) → stored ((m, t) :: cells t) (d_store p) → free (d_store p) → d_store p !! img m = Some (ct m) →
  (∀ x, head stk = Some x → is_struct x = false) → (∀ k, k ∈ m :: names t → img k ∉ stk) →
  ∃ p', d_force opt false (S N) stk false T (img m) p = Some (value t, p') ∧ d_store p' = mapped (names t) (d_store p).
Proof.
  intros Hb HF HN HF2 [Hm Hnd]%NoDup_cons [Hc Hst]%stored_cons Hfr Hct Hstk Hni.
  destruct F as [|[|G]] eqn:EF; [lia..|].
  cbn [d_force]. rewrite Hct. unfold ct at 1. rewrite decide_True by (split_and!; [done|apply Hni; by left|done|by apply s6_nominal]).
  rewrite code_fold. rewrite EF, fn_art. cbn [Discipline.d_run d_art l_path img]. unfold dbind at 1.
  rewrite (d_cell_step _ _ _ _ _ _ _ (enc t)) by done.
  unfold d_get at 1. rewrite s6_nominal by (by intros ? [= <-]). rewrite bool_decide_true by set_solver. cbn [andb].
  rewrite elim_enc. edestruct (Hb (S (S G)) N (img m) stk) as (p' & E & Hp'); [lia|lia|lia|lia|done| | |done| |rewrite E; eexists; split; [reflexivity|]].
  - exact Hst.
  - exact Hfr.
  - intros k Hk Hin. apply elem_of_cons in Hin as [E|Hin]; [apply img_inj in E as ->; done|]. apply (Hni k); [by right|done].
  - destruct stk; cbn [d_store d_leave d_init]; by rewrite Hp'.
Qed.
Lemma fold_disciplined t : body_ok t.
Proof.
  induction t as [|x|lev l IHl r IHr|n lev l IHl r IHr]; intros G N y stk p HG HF HN HF2 Hnd Hst Hfr Hy Hni; destruct G as [|G]; try (simpl in HG; lia).
  - rewrite fn_TN. eexists. split; [reflexivity|done].
  - rewrite fn_TL. eexists. split; [reflexivity|done].
  - rewrite fn_TB. cbn [height] in *. rewrite names_TB in *. cbn [cells] in Hst. apply stored_app in Hst as [Hsl Hsr].
    apply NoDup_app in Hnd as (Hndl & Hdis & Hndr).
    rewrite d_run_cbind. unfold dbind at 1.
    destruct (IHl G N y stk p) as (p1 & -> & Hp1); [lia|lia|lia|lia|done..| |].
    { intros m Hm. apply Hni. apply elem_of_app. by left. }
    rewrite d_run_cbind. unfold dbind at 1.
    destruct (IHr G N y stk p1) as (p2 & -> & Hp2); [lia|lia|lia|lia|done|rewrite Hp1..|done| |].
    { eapply stored_mono; [exact Hsr|]. intros k. apply mapped_src. }
    { by apply mapped_free. }
    { intros m Hm. apply Hni. apply elem_of_app. by right. }
    eexists. split; [reflexivity|]. by rewrite Hp2, Hp1, mapped_app.
  - rewrite fn_TM. cbn [height] in *. destruct N as [|N]; [lia|]. rewrite names_TM in *. cbn [cells] in Hst.
    change ((k1 n, l) :: cells l ++ (k2 n, r) :: cells r) with (((k1 n, l) :: cells l) ++ (k2 n, r) :: cells r) in Hst.
    apply stored_app in Hst as [Hsl Hsr].
    change (k1 n :: names l ++ k2 n :: names r) with ((k1 n :: names l) ++ k2 n :: names r) in *.
    apply NoDup_app in Hnd as (Hndl & Hdis & Hndr).
    unfold memo_m. cbn [Discipline.d_run d_thunk]. unfold dbind at 1. fold (img (k1 n)) (ct (k1 n)).
    rewrite d_alloc_same; [|by intros ? [= <-]|apply Hfr|done|].
    2:{ intros [= E]. apply (Hni (k1 n)); [by left|]. rewrite E. by left. }
    set (p1 := d_write _ _ _ _). cbn [Discipline.d_run d_art]. unfold dbind at 1.
    destruct (thunk_ok l (k1 n) N (y :: stk) p1) as (p2 & -> & Hp2); [done|lia|lia|lia|done|..].
    { subst p1. cbn [d_store d_write d_observe]. eapply stored_mono; [exact Hsl|]. intros k. rewrite lookup_insert_ne by (intros E; by apply (src_img k (k1 n))). done. }
    { subst p1. cbn [d_store d_write d_observe]. by apply free_insert. }
    { subst p1. cbn [d_store d_write d_observe]. by rewrite lookup_insert. }
    { by intros ? [= <-]. }
    { intros m Hm. apply Hni. apply elem_of_app. by left. }
    assert (d_store p2 = mapped (k1 n :: names l) (d_store p)) as Hp2' by (rewrite Hp2; done).
    unfold dbind at 1. fold (img (k2 n)) (ct (k2 n)).
    rewrite d_alloc_same; [|by intros ? [= <-]| |done|].
    2:{ rewrite Hp2'. by apply mapped_free. }
    2:{ intros [= E]. apply (Hni (k2 n)); [apply elem_of_app; right; by left|]. rewrite E. by left. }
    set (p3 := d_write _ _ _ _). cbn [Discipline.d_run d_art]. unfold dbind at 1.
    destruct (thunk_ok r (k2 n) N (y :: stk) p3) as (p4 & -> & Hp4); [done|lia|lia|lia|done|..].
    { subst p3. cbn [d_store d_write d_observe]. eapply stored_mono; [exact Hsr|]. intros k. rewrite lookup_insert_ne by (intros E; by apply (src_img k (k2 n))).
      rewrite Hp2'. apply mapped_src. }
    { subst p3. cbn [d_store d_write d_observe]. apply free_insert. rewrite Hp2'. by apply mapped_free. }
    { subst p3. cbn [d_store d_write d_observe]. by rewrite lookup_insert. }
    { by intros ? [= <-]. }
    { intros m Hm. apply Hni. apply elem_of_app. by right. }
    eexists. split; [reflexivity|]. rewrite Hp4. subst p3. cbn [d_store d_write d_observe]. rewrite Hp2', mapped_app. done.
Qed.

Definition body_ref (t : tre) : Prop := ∀ G N x stk st, (height t < G)%nat → (height t < F)%nat → (height t ≤ N)%nat → (2 ≤ F)%nat →
  NoDup (names t) → stored (cells t) (r_store st) → free (r_store st) → (∀ m, m ∈ names t → img m ∉ x :: stk) →
  ref_run (ref_force N (x :: stk)) (x :: stk) [mns] false (fn G (enc t)) st =
    ROk (value t) (RState (mapped (names t) (r_store st)) (reverse (img <$> names t) ++ r_log st)).
Lemma thunk_ref t m N stk st : body_ref t → (height t < F)%nat → (height t ≤ N)%nat → (2 ≤ F)%nat →
  NoDup (m :: names t) → stored ((m, t) :: cells t) (r_store st) → free (r_store st) → r_store st !! img m = Some (ct m) →
  (∀ k, k ∈ m :: names t → img k ∉ stk) →
  ref_force (S N) stk false T (img m) None st =
    ROk (value t) (RState (mapped (names t) (r_store st)) (reverse (img <$> m :: names t) ++ r_log st)).
Proof.
  intros Hb HF HN HF2 [Hm Hnd]%NoDup_cons [Hc Hst]%stored_cons Hfr Hct Hni. destruct F as [|[|G]] eqn:EF; [lia..|].
  erewrite ref_thunk_step; [|exact Hct|apply Hni; by left]. rewrite code_fold, EF, fn_art. cbn [ref_run ref_art]. unfold rbind at 1.
  erewrite ref_cell_step; [|exact Hc]. cbv beta iota. rewrite elim_enc.
  change (l_path (img m)) with [mns]. rewrite (Hb (S (S G)) N (img m) stk); [|lia|lia|lia|lia|done| | | ]; cbn [r_store r_log].
  - rewrite fmap_cons, reverse_cons, <- (assoc_L (++)). done.
  - done.
  - done.
  - intros k Hk Hin. apply elem_of_cons in Hin as [E|Hin]; [apply img_inj in E as ->; done|]. apply (Hni k); [by right|done].
Qed.
Lemma fold_ref t : body_ref t.
Proof.
  induction t as [|x|lev l IHl r IHr|n lev l IHl r IHr]; intros G N y stk st HG HF HN HF2 Hnd Hst Hfr Hni; destruct G as [|G]; try (simpl in HG; lia).
  - rewrite fn_TN. by destruct st.
  - rewrite fn_TL. by destruct st.
  - rewrite fn_TB. cbn [height] in *. rewrite names_TB in *. cbn [cells] in Hst. apply stored_app in Hst as [Hsl Hsr].
    apply NoDup_app in Hnd as (Hndl & Hdis & Hndr).
    rewrite ref_run_cbind. unfold rbind at 1. rewrite (IHl G N y stk st); [|lia|lia|lia|lia|done..| ].
    2:{ intros m Hm. apply Hni. apply elem_of_app. by left. }
    rewrite ref_run_cbind. unfold rbind at 1.
    rewrite (IHr G N y stk); [|lia|lia|lia|lia|done|cbn [r_store]..| ].
    2:{ eapply stored_mono; [exact Hsr|]. intros k. apply mapped_src. }
    2:{ by apply mapped_free. }
    2:{ intros m Hm. apply Hni. apply elem_of_app. by right. }
    cbn [ref_run r_store r_log]. f_equal. f_equal; [by rewrite mapped_app|]. by rewrite fmap_app, reverse_app, <- (assoc_L (++)).
  - rewrite fn_TM. cbn [height] in *. destruct N as [|N]; [lia|]. rewrite names_TM in *. cbn [cells] in Hst.
    change ((k1 n, l) :: cells l ++ (k2 n, r) :: cells r) with (((k1 n, l) :: cells l) ++ (k2 n, r) :: cells r) in Hst.
    apply stored_app in Hst as [Hsl Hsr].
    change (k1 n :: names l ++ k2 n :: names r) with ((k1 n :: names l) ++ k2 n :: names r) in *.
    apply NoDup_app in Hnd as (Hndl & Hdis & Hndr).
    unfold memo_m. cbn [ref_run]. unfold rbind at 1. rewrite ref_thunk_nominal by apply Hfr. cbv beta iota. fold (img (k1 n)) (ct (k1 n)).
    cbn [ref_run ref_art]. unfold rbind at 1. rewrite (thunk_ref l (k1 n) N (y :: stk)); cbn [r_store r_log]; [|done|lia|lia|lia|done|..].
    2:{ eapply stored_mono; [exact Hsl|]. intros k. rewrite lookup_insert_ne by (intros E; by apply (src_img k (k1 n))). done. }
    2:{ by apply free_insert. }
    2:{ by rewrite lookup_insert. }
    2:{ intros m Hm. apply Hni. apply elem_of_app. by left. }
    change (mapped (names l) (<[img (k1 n) := ct (k1 n)]> (r_store st))) with (mapped (k1 n :: names l) (r_store st)).
    unfold rbind at 1. rewrite ref_thunk_nominal; cbn [r_store r_log]; [|by apply (mapped_free _ _ Hfr (k2 n))]. cbv beta iota. fold (img (k2 n)) (ct (k2 n)).
    cbn [ref_run ref_art]. unfold rbind at 1. rewrite (thunk_ref r (k2 n) N (y :: stk)); cbn [r_store r_log]; [|done|lia|lia|lia|done|..].
    2:{ eapply stored_mono; [exact Hsr|]. intros k. rewrite lookup_insert_ne by (intros E; by apply (src_img k (k2 n))). apply mapped_src. }
    2:{ by apply free_insert, mapped_free. }
    2:{ by rewrite lookup_insert. }
    2:{ intros m Hm. apply Hni. apply elem_of_app. by right. }
    cbn [ref_run]. f_equal. f_equal; [by rewrite mapped_app|]. by rewrite fmap_app, reverse_app, <- (assoc_L (++)).
Qed.

(** ** What a thunk has recorded *)
Fixpoint view_of (t : tre) : view :=
  match t with TN => WN | TL x => WL x | TB lev l r => WB lev (view_of l) (view_of r) | TM n lev l r => WM n lev (value l) (value r) end.
Fixpoint val_of (vw : view) : val :=
  match vw with WN => fnil | WL x => fleaf x | WB lev l r => fbin lev (val_of l) (val_of r) | WM n lev a b => fnam n lev a b end.
Fixpoint venc (vw : view) : val :=
  match vw with
  | WN => v_tnil | WL x => v_leaf x | WB lev l r => v_bin lev (venc l) (venc r)
  | WM n lev _ _ => v_tname n lev (v_tart (src (k1 n))) (v_tart (src (k2 n)))
  end.
Fixpoint ev (vw : view) : list eshape :=
  match vw with
  | WN | WL _ => []
  | WB _ l r => ev l ++ ev r
  | WM n _ a b => [(img (k1 n), Allocate, DAllocThunk (v_tart (src (k1 n)))); (img (k1 n), Observe, DForce T a);
                   (img (k2 n), Allocate, DAllocThunk (v_tart (src (k2 n)))); (img (k2 n), Observe, DForce T b)]
  end.
Definition E_of (m : name) (vw : view) : list eshape := (src m, Observe, DForce TyTree (venc vw)) :: ev vw.
Fixpoint like (vw : view) (t : tre) : Prop :=
  match vw, t with
  | WN, TN => True | WL x, TL y => x = y
  | WB lev l r, TB lev' l' r' => lev = lev' ∧ like l l' ∧ like r r'
  | WM n lev _ _, TM n' lev' _ _ => n = n' ∧ lev = lev'
  | _, _ => False
  end.
Lemma val_view t : val_of (view_of t) = value t.
Proof. induction t; simpl; congruence. Qed.
Lemma like_view t : like (view_of t) t.
Proof. induction t; simpl; done. Qed.
Lemma like_enc vw t : like vw t → venc vw = enc t.
Proof. revert t. induction vw; intros [] Hl; simpl in *; try done; [congruence| |by destruct Hl as [-> ->]]. destruct Hl as (-> & ? & ?). by erewrite IHvw1, IHvw2. Qed.
Lemma ev_names vw t x e d : like vw t → (x, e, d) ∈ ev vw → ∃ m, m ∈ names t ∧ x = img m.
Proof.
  revert t. induction vw as [|y|lev l IHl r IHr|n lev a b]; intros [|z|lev' l' r'|n' lev' l' r'] Hl Hi; simpl in Hl; try done.
  - by apply elem_of_nil in Hi.
  - by apply elem_of_nil in Hi.
  - destruct Hl as (-> & Hl & Hr). cbn [ev] in Hi. rewrite names_TB. apply elem_of_app in Hi as [Hi|Hi].
    + destruct (IHl _ Hl Hi) as (m & Hm & ->). exists m. split; [apply elem_of_app; by left|done].
    + destruct (IHr _ Hr Hi) as (m & Hm & ->). exists m. split; [apply elem_of_app; by right|done].
  - destruct Hl as [-> ->]. cbn [ev] in Hi. rewrite names_TM. rewrite !elem_of_cons, elem_of_nil in Hi.
    destruct Hi as [E|[E|[E|[E|[]]]]]; injection E as -> _ _.
    + exists (k1 n'). split; [by left|done].
    + exists (k1 n'). split; [by left|done].
    + exists (k2 n'). split; [|done]. right. apply elem_of_app. right. by left.
    + exists (k2 n'). split; [|done]. right. apply elem_of_app. right. by left.
Qed.

Lemma tr_fold tb t : (∀ n t w, tb !! img n ≠ Some (NPure t w)) → ∀ G acc E v, (height t < G)%nat → NoDup (names t) →
  (∀ m d, m ∈ names t → (img m, Observe, d) ∉ acc) → tr opt tb [mns] false acc (fn G (enc t)) E v →
  ∃ vw, like vw t ∧ E = ev vw ∧ v = val_of vw.
Proof.
  intros Hnp. induction t as [|x|lev l IHl r IHr|n lev l IHl r IHr]; intros G acc E v HG Hnd Hacc Ht; destruct G as [|G]; try (simpl in HG; lia).
  - rewrite fn_TN in Ht. apply Switch.tr_ret in Ht as [-> ->]. by exists WN.
  - rewrite fn_TL in Ht. apply Switch.tr_ret in Ht as [-> ->]. by exists (WL x).
  - rewrite fn_TB in Ht. cbn [height] in HG. rewrite names_TB in *. apply NoDup_app in Hnd as (Hndl & Hdis & Hndr).
    apply tr_cbind in Ht as (E1 & a & E2 & -> & T1 & T2). apply tr_cbind in T2 as (E3 & b & E4 & -> & T2 & T3).
    apply Switch.tr_ret in T3 as [-> ->]. apply IHl in T1 as (vl & Ll & -> & ->); [|lia|done|].
    2:{ intros m d Hm. apply Hacc. apply elem_of_app. by left. }
    apply IHr in T2 as (vr & Lr & -> & ->); [|lia|done|].
    2:{ intros m d Hm Hin. apply elem_of_app in Hin as [Hin|Hin]; [eapply Hacc; [|exact Hin]; apply elem_of_app; by right|].
        destruct (ev_names _ _ _ _ _ Ll Hin) as (m' & Hm' & Ee). apply img_inj in Ee as <-. by apply (Hdis m). }
    exists (WB lev vl vr). split; [done|]. split; [|done]. by rewrite app_nil_r.
  - rewrite fn_TM in Ht. rewrite names_TM in *. assert (k1 n ≠ k2 n) as Hne.
    { apply NoDup_cons in Hnd as [Hn _]. intros Ee. apply Hn. rewrite Ee. apply elem_of_app. right. by left. }
    unfold memo_m in Ht. apply tr_thunk_nominal in Ht as (E1 & -> & Ht). fold (img (k1 n)) in Ht |- *.
    apply tr_force_nominal in Ht as (a & E2 & -> & Ht); [|done|by intros; apply Hnp|].
    2:{ intros d Hin. apply elem_of_app in Hin as [Hin|Hin]; [eapply Hacc; [|exact Hin]; by left|by apply elem_of_list_singleton in Hin]. }
    apply tr_thunk_nominal in Ht as (E3 & -> & Ht). fold (img (k2 n)) in Ht |- *.
    apply tr_force_nominal in Ht as (b & E4 & -> & Ht); [|done|by intros; apply Hnp|].
    2:{ intros d Hin. rewrite !elem_of_app, !elem_of_list_singleton in Hin. destruct Hin as [[[Hin|Hin]|Hin]|Hin]; [|done| |done].
        - eapply Hacc; [|exact Hin]. right. apply elem_of_app. right. by left.
        - apply (f_equal (λ e : eshape, e.1.1)) in Hin. cbn [fst] in Hin. apply img_inj in Hin. done. }
    apply Switch.tr_ret in Ht as [-> ->]. by exists (WM n lev a b).
Qed.

Definition settled (s : dcg) (m : name) (t : tre) : Prop :=
  recorded s (img m) (E_of m (view_of t)) (value t) ∧ up_to_date s T (img m) (value t).
Definition local_ok (s : dcg) (t : tre) : Prop := ∀ vw, (height t < F)%nat → NoDup (names t) → stored (cells t) (holds s) →
  (∀ m, m ∈ names t → holds s !! img m = Some (ct m)) → like vw t →
  (∀ m a, m ∈ names t → (img m, Observe, DForce T a) ∈ ev vw → up_to_date s T (img m) a) →
  vw = view_of t ∧ ∀ m u, (m, u) ∈ cells t → settled s m u.
Lemma thunk_settled s m t v : reached opt false s → local_ok s t → (2 ≤ F)%nat → (height t < F)%nat → NoDup (m :: names t) → stored ((m, t) :: cells t) (holds s) →
  (∀ k, k ∈ m :: names t → holds s !! img k = Some (ct k)) → up_to_date s T (img m) v →
  v = value t ∧ ∀ k u, (k, u) ∈ (m, t) :: cells t → settled s k u.
Proof.
  intros Hs Hloc HF2 HF [Hm Hnd]%NoDup_cons [Hc Hst]%stored_cons Hct Hu.
  assert (Hi := reached_inv _ _ _ Hs). assert (Hn := Hct m ltac:(by left)).
  destruct (comp_at _ _ _ _ _ _ Hn) as (c & Hcn & _ & Pp & Pa & Ps). assert (Hu' := Hu). unfold up_to_date in Hu'. rewrite Hcn in Hu'. destruct Hu' as (_ & Rc & Cc).
  assert (Hnode := i_tr _ _ _ _ Hi _ _ _ Hcn ltac:(set_solver) Rc). rewrite Pp, Pa, Ps, code_fold in Hnode.
  destruct F as [|[|G]] eqn:EF; [lia..|]. rewrite <- EF in *. rewrite EF, fn_art in Hnode.
  apply tr_force_nominal in Hnode as (w1 & E1 & S1 & Hnode); [|done|by eapply not_pure|set_solver].
  assert (w1 = enc t) as ->.
  { destruct (up_saw opt false s (img m) T v (src m) TyTree (λ u, u) w1 Hs Hu) as (v1 & G1 & <-).
    - assert (recorded s (img m) (shape <$> c_succs c) v) as Hrec by (by exists c). eapply rec_saw_r; [exact Hrec|rewrite S1; by left].
    - by rewrite (gives_fun _ _ _ _ _ G1 (cell_is _ _ _ _ _ _ Hs Hc)). }
  rewrite elim_enc in Hnode. change (l_path (img m)) with [mns] in Hnode.
  apply tr_fold in Hnode as (vw & Hlike & -> & Hv); [|by intros; eapply not_pure|lia|done|].
  2:{ intros k d _ Hin. cbn [app] in Hin. by apply elem_of_list_singleton in Hin. }
  destruct (Hloc vw HF Hnd Hst) as [-> Hkids].
  { intros k Hk. apply Hct. by right. }
  { done. }
  { intros k a Hk Hin.
    assert (∃ e, e ∈ c_succs c ∧ shape e = (img k, Observe, DForce T a)) as (e & He & Hse).
    { assert ((img k, Observe, DForce T a) ∈ shape <$> c_succs c) as (e & ? & ?)%elem_of_list_fmap by (rewrite S1; by right). by exists e. }
    assert (Hvv := i_valid _ _ _ _ Hi _ _ _ Hcn He (Cc _ He)). rewrite Hse in Hvv. unfold valid in Hvv. cbn [sh_dep sh_loc snd fst] in Hvv.
    destruct (comp_at _ _ _ _ _ _ (Hct k ltac:(by right))) as (cm & Hcm & Htt & _). rewrite Hcm in Hvv. unfold up_to_date. rewrite Hcm. destruct Hvv as (? & ? & _). done. }
  rewrite val_view in Hv. split; [done|]. intros k u [E|Hin]%elem_of_cons; [|by apply Hkids]. injection E as -> ->. split; [|by rewrite Hv in Hu].
  exists c. split; [done|]. split; [|by rewrite Rc, Hv]. rewrite S1. unfold E_of. by rewrite (like_enc _ _ (like_view t)).
Qed.
Lemma all_settled s t : reached opt false s → (2 ≤ F)%nat → local_ok s t.
Proof.
  intros Hs HF2. induction t as [|x|lev l IHl r IHr|n lev l IHl r IHr]; intros vw HF Hnd Hst Hct Hlike Hup.
  - destruct vw; try done. split; [done|]. intros ? ? Hi. by apply elem_of_nil in Hi.
  - destruct vw; try done. simpl in Hlike. subst. split; [done|]. intros ? ? Hi. by apply elem_of_nil in Hi.
  - destruct vw as [| |lev' vl vr|]; try done. destruct Hlike as (-> & Ll & Lr). cbn [height] in HF. rewrite names_TB in *. cbn [cells ev] in *.
    apply NoDup_app in Hnd as (Hndl & Hdis & Hndr). apply stored_app in Hst as [Hsl Hsr].
    destruct (IHl vl) as [-> Hkl]; [lia|done|done| |done| |].
    { intros m Hm. apply Hct. apply elem_of_app. by left. }
    { intros m a Hm Hin. apply Hup; apply elem_of_app; by left. }
    destruct (IHr vr) as [-> Hkr]; [lia|done|done| |done| |].
    { intros m Hm. apply Hct. apply elem_of_app. by right. }
    { intros m a Hm Hin. apply Hup; apply elem_of_app; by right. }
    split; [done|]. intros m u [Hi|Hi]%elem_of_app; [by apply Hkl|by apply Hkr].
  - destruct vw as [| | |n' lev' a b]; try done. destruct Hlike as [-> ->]. cbn [height] in HF. rewrite names_TM in *. cbn [cells ev] in *.
    change ((k1 n, l) :: cells l ++ (k2 n, r) :: cells r) with (((k1 n, l) :: cells l) ++ (k2 n, r) :: cells r) in *.
    change (k1 n :: names l ++ k2 n :: names r) with ((k1 n :: names l) ++ k2 n :: names r) in *.
    apply NoDup_app in Hnd as (Hndl & Hdis & Hndr). apply stored_app in Hst as [Hsl Hsr].
    destruct (thunk_settled s (k1 n) l a Hs IHl HF2 ltac:(lia) Hndl Hsl) as [-> Hkl].
    { intros m Hm. apply Hct. apply elem_of_app. by left. }
    { apply Hup; [apply elem_of_app; left; by left|right; by left]. }
    destruct (thunk_settled s (k2 n) r b Hs IHr HF2 ltac:(lia) Hndr Hsr) as [-> Hkr].
    { intros m Hm. apply Hct. apply elem_of_app. by right. }
    { apply Hup; [apply elem_of_app; right; by left|right; right; right; by left]. }
    split; [done|]. intros m u [Hi|Hi]%elem_of_app; [by apply Hkl|by apply Hkr].
Qed.

(** ** The state between two folds *)
(** [last n]: what thunk [n] was last computed from; [None] if it was never computed. *)
Record known (last : name → option view) (s : dcg) : Prop := {
  k_reached : reached opt false s;
  k_cells : ∀ n, holds s !! src n = None ∨ ∃ v, holds s !! src n = Some (CCell TyTree v);
  k_free : free (holds s);
  k_rec : ∀ n, match last n with
    | None => ¬ evaluated s (img n)
    | Some vw => recorded s (img n) (E_of n vw) (val_of vw) ∧ ∀ m, ¬ disturbed s (img n) (img m)
    end;
}.
(** The thunks that run when a tree with the cells [cs] is folded ... *)
Fixpoint reruns (last : name → option view) (cs : list (name * tre)) : list name :=
  match cs with
  | [] => []
  | (m, u) :: cs => (if decide (last m = Some (view_of u)) then [] else [m]) ++ reruns last cs
  end.
(** ... and what is known afterwards. *)
Fixpoint note (last : name → option view) (cs : list (name * tre)) : name → option view :=
  match cs with
  | [] => last
  | (m, u) :: cs => λ k, if decide (k = m) then Some (view_of u) else note last cs k
  end.
Lemma reruns_in last cs m : m ∈ reruns last cs ↔ ∃ u, (m, u) ∈ cs ∧ last m ≠ Some (view_of u).
Proof.
  induction cs as [|[n u] cs IH]; [split; [by intros ?%elem_of_nil|intros (? & ?%elem_of_nil & _); done]|]. cbn [reruns]. rewrite elem_of_app, IH. split.
  - intros [Hin|(u' & Hin & Hne)]; [|exists u'; split; [by right|done]].
    destruct (decide _) as [|Hne]; [by apply elem_of_nil in Hin|]. apply elem_of_list_singleton in Hin as ->. exists u. split; [by left|done].
  - intros (u' & [E|Hin]%elem_of_cons & Hne); [|right; by exists u']. injection E as -> ->. left. rewrite decide_False by done. by left.
Qed.
Lemma reruns_names last cs m : m ∈ reruns last cs → m ∈ cs.*1.
Proof. intros (u & Hin & _)%reruns_in. apply elem_of_list_fmap. by exists (m, u). Qed.
Lemma reruns_nodup last cs : NoDup cs.*1 → NoDup (reruns last cs).
Proof.
  induction cs as [|[n u] cs IH]; [constructor|]. cbn [fmap list_fmap fst]. intros [Hn Hnd]%NoDup_cons. cbn [reruns]. destruct (decide _); [by apply IH|].
  apply NoDup_cons. split; [|by apply IH]. by intros Hin%reruns_names.
Qed.
Lemma note_in last cs m u : NoDup cs.*1 → (m, u) ∈ cs → note last cs m = Some (view_of u).
Proof.
  induction cs as [|[n u'] cs IH]; intros Hnd Hin; [by apply elem_of_nil in Hin|]. cbn [fmap list_fmap fst] in Hnd. apply NoDup_cons in Hnd as [Hn Hnd]. cbn [note].
  apply elem_of_cons in Hin as [E|Hin]; [injection E as -> ->; by rewrite decide_True|]. rewrite decide_False; [by apply IH|].
  intros ->. apply Hn. apply elem_of_list_fmap. by exists (n, u).
Qed.
Lemma note_out last cs m : m ∉ cs.*1 → note last cs m = last m.
Proof.
  induction cs as [|[n u] cs IH]; [done|]. cbn [fmap list_fmap fst]. intros Hm. cbn [note]. rewrite decide_False by set_solver. apply IH. set_solver.
Qed.
Lemma names_split (cs : list (name * tre)) m : m ∈ cs.*1 → ∃ u, (m, u) ∈ cs.
Proof. intros ([m' u] & -> & Hin)%elem_of_list_fmap. by exists u. Qed.
Lemma cells_trans t m u k u' : (m, u) ∈ cells t → (k, u') ∈ cells u → (k, u') ∈ cells t.
Proof.
  induction t as [|x|lev l IHl r IHr|n lev l IHl r IHr]; cbn [cells]; intros Hm Hk; [by apply elem_of_nil in Hm..| |].
  - apply elem_of_app in Hm as [Hm|Hm]; apply elem_of_app; auto.
  - apply elem_of_cons in Hm as [E|Hm]; [injection E as -> ->; right; apply elem_of_app; by left|]. right.
    apply elem_of_app in Hm as [Hm|Hm]; [apply elem_of_app; auto|]. apply elem_of_cons in Hm as [E|Hm]; [injection E as -> ->|];
      apply elem_of_app; right; right; auto.
Qed.
Lemma ev_in t y e d : (y, e, d) ∈ ev (view_of t) → ∃ k u, (k, u) ∈ cells t ∧ y = img k ∧
  ((e = Allocate ∧ d = DAllocThunk (v_tart (src k))) ∨ (e = Observe ∧ d = DForce T (value u))).
Proof.
  induction t as [|x|lev l IHl r IHr|n lev l IHl r IHr]; cbn [view_of ev cells]; intros Hi; [by apply elem_of_nil in Hi..| |].
  - apply elem_of_app in Hi as [Hi|Hi]; [apply IHl in Hi as (k & u & Hin & Hx)|apply IHr in Hi as (k & u & Hin & Hx)]; exists k, u; split; try done; apply elem_of_app; auto.
  - rewrite !elem_of_cons, elem_of_nil in Hi.
    destruct Hi as [E|[E|[E|[E|[]]]]]; injection E as -> -> ->; [exists (k1 n), l|exists (k1 n), l|exists (k2 n), r|exists (k2 n), r];
      (split; [|split; [done|]]); try (by left); try (by right); right; apply elem_of_app; right; by left.
Qed.
Lemma enc_like vw t : venc vw = enc t → like vw t.
Proof.
  revert t. induction vw as [|x|lev l IHl r IHr|n lev a b]; intros [|x'|lev' l' r'|n' lev' l' r'] E; try done; cbn [venc enc like] in *.
  - by injection E.
  - injection E as E1 E2 E3. split; [by apply N2Z.inj|]. auto.
  - injection E as E1 E2 _ _. split; [|by apply N2Z.inj]. done.
Qed.
Lemma like_differs vw t : like vw t → vw ≠ view_of t → ∃ k u a, (k, u) ∈ cells t ∧ (img k, Observe, DForce T a) ∈ ev vw ∧ a ≠ value u.
Proof.
  revert t. induction vw as [|x|lev l IHl r IHr|n lev a b]; intros [|x'|lev' l' r'|n' lev' l' r'] Hl Hne; cbn [view_of like cells ev] in *; try done; try congruence.
  - destruct Hl as (-> & Hl & Hr). destruct (decide (l = view_of l')) as [->|Hnl].
    + destruct (IHr r' Hr) as (k & u & a & H1 & H2 & H3); [congruence|]. exists k, u, a. split; [|split; [|done]]; apply elem_of_app; by right.
    + destruct (IHl l' Hl Hnl) as (k & u & a & H1 & H2 & H3). exists k, u, a. split; [|split; [|done]]; apply elem_of_app; by left.
  - destruct Hl as [-> ->]. destruct (decide (a = value l')) as [->|Ha].
    + exists (k2 n'), r', b. split; [right; apply elem_of_app; right; by left|]. split; [right; right; right; by left|]. congruence.
    + exists (k1 n'), l', a. split; [by left|]. split; [right; by left|done].
Qed.

(** The demand of one thunk. *)
Lemma fold_demand last n t s :
  known last s → (2 ≤ F)%nat → (height t < F)%nat → NoDup (n :: names t) → stored ((n, t) :: cells t) (holds s) → holds s !! img n = Some (ct n) →
  ∃ s' rs, demand T (img n) s (value t) s' ∧ runs s' = rs ++ runs s ∧
    rs ≡ₚ img <$> reruns last ((n, t) :: cells t) ∧ known (note last ((n, t) :: cells t)) s' ∧ (∀ m, holds s' !! src m = holds s !! src m) ∧
    (∀ l, (∀ m, m ∈ names t → l ≠ img m) → holds s' !! l = holds s !! l) ∧
    ∀ m u, (m, u) ∈ (n, t) :: cells t → gives s' T (img m) (value u).
Proof.
  intros [Hs Hcl Hfr Hrec] HF2 HF Hnd Hst Hn. set (cs0 := (n, t) :: cells t) in *.
  assert (Hnm : cs0.*1 = n :: names t) by done. set (v := value t).
  assert (Hns : ∀ m, m ∈ n :: names t → img m ∉ @nil loc) by (intros m _; set_solver).
  assert (Hdd : disciplined_demand opt false T (img n) (holds s)).
  { destruct (thunk_ok t n (height t) [] (d_init (holds s)) (fold_disciplined t) HF ltac:(lia) HF2 Hnd Hst Hfr Hn) as (p' & E & _); [done|done|]. by eexists _, _, _. }
  assert (Hfs : demand_from_scratch false T (img n) (holds s) v (mapped (names t) (holds s)) (reverse (img <$> n :: names t))).
  { exists (S (height t)). rewrite (thunk_ref t n (height t) [] (RState (holds s) []) (fold_ref t) HF ltac:(lia) HF2 Hnd Hst Hfr Hn Hns). cbn [r_store r_log]. by rewrite app_nil_r. }
  destruct (demand_after_history opt false s T (img n) Hs Hdd) as (v0 & σ' & lg0 & s' & rs0 & Hfs0 & Hdem & Hh & _).
  destruct (demand_from_scratch_functional _ _ _ _ _ _ _ _ _ _ Hfs0 Hfs) as (-> & -> & ->). clear Hfs0 rs0.
  assert (Hdem' := Hdem). destruct Hdem' as (K & HK). assert (HfK := HK K ltac:(lia)).
  destruct (demand_up_to_date opt false s T (img n) K v s' Hs Hdd HfK) as [Hu Hs'].
  destruct (demand_exact opt false s T (img n) v s' K Hs Hdd HfK) as (lg1 & rs1 & _ & Hrs1 & _ & _ & _ & Hun & _).
  destruct (C62_runs_exactly opt false s T (img n) v s' K Hs Hdd HfK) as (lg & rs & Hlg & Hrs & Hndr & Hx).
  destruct (demand_justified opt false s T (img n) v s' K Hs Hdd HfK) as (rs2 & Hrs2 & _ & Hrm).
  rewrite Hrs in Hrs1, Hrs2. apply app_inv_tail in Hrs1 as <-. apply app_inv_tail in Hrs2 as <-.
  rewrite Hh in Hlg. destruct (demand_from_scratch_functional _ _ _ _ _ _ _ _ _ _ Hlg Hfs) as (_ & _ & ->). clear Hlg.
  assert (Hlgin : ∀ x, x ∈ reverse (img <$> n :: names t) ↔ ∃ m, m ∈ cs0.*1 ∧ x = img m).
  { intros x. rewrite elem_of_reverse, elem_of_list_fmap, Hnm. naive_solver. }
  assert (Hsrc : ∀ m, holds s' !! src m = holds s !! src m) by (intros m; rewrite Hh; apply mapped_src).
  assert (Hst' : stored cs0 (holds s')). { eapply stored_mono; [exact Hst|]. exact Hsrc. }
  assert (Hct' : ∀ m, m ∈ n :: names t → holds s' !! img m = Some (ct m)).
  { intros m Hm. rewrite Hh, mapped_img. destruct (decide (m ∈ names t)); [done|]. apply elem_of_cons in Hm as [->|]; done. }
  destruct (thunk_settled s' n t v Hs' (all_settled s' t Hs' HF2) HF2 HF Hnd Hst' Hct' Hu) as [_ Hall]. fold cs0 in Hall.
  destruct (reached_idle _ _ _ Hs') as [Hstk' _].
  assert (Hg : ∀ m u, (m, u) ∈ cs0 → gives s' T (img m) (value u)).
  { intros m u Hin. destruct (Hall _ _ Hin) as [_ Huk]. by apply up_to_date_gives in Huk. }
  assert (Hgc : ∀ m u, (m, u) ∈ cs0 → gives s' TyTree (src m) (enc u)).
  { intros m u Hin. eapply cell_is; [exact Hs'|]. by apply Hst'. }
  assert (Hsub : ∀ m u k u', (m, u) ∈ cs0 → (k, u') ∈ cells u → (k, u') ∈ cs0).
  { intros m u k u' [E|Hin]%elem_of_cons Hk; [injection E as -> ->; by right|]. right. by eapply cells_trans. }
  assert (Hsame : ∀ m c0, table s !! img m = Some (NComp c0) → holds s' !! img m = holds s !! img m).
  { intros m c0 Hc0. rewrite Hh, mapped_img. destruct (decide (m ∈ names t)); [|done]. destruct (Hfr m) as [E|E]; [|done].
    unfold holds in E. rewrite contents_lookup, Hc0 in E. done. }
  assert (Hmust : ∀ m u, (m, u) ∈ cs0 → must_run s s' (img m) ↔ last m ≠ Some (view_of u)).
  { intros m u Hin. specialize (Hrec m). destruct (last m) as [vw|]; [|split; [done|by intros _; left]].
    destruct Hrec as [Hr Hdis]. assert (Hr' := Hr). destruct Hr' as (c0 & Hc0 & HE0 & Hw0). split.
    - intros Hm Heqv. injection Heqv as ->. destruct Hm as [Hm|[Hm|[(y & ty & f & w & v' & Hsaw & Hgv & Hne)|(y & Hmd & Hm)]]].
      + apply Hm. by eapply rec_evaluated.
      + apply Hm. by eapply Hsame.
      + destruct (rec_saw _ _ _ _ _ _ _ _ Hr Hsaw) as [[Hi ->]|Hi]; unfold E_of in Hi.
        * apply elem_of_cons in Hi as [Hi|Hi].
          { injection Hi as -> -> ->. apply Hne. eapply gives_fun; [exact Hgv|]. rewrite (like_enc _ _ (like_view u)). by apply Hgc. }
          apply ev_in in Hi as (k & u' & Hk & -> & [[? _]|[_ Ed]]); [done|]. injection Ed as -> ->. apply Hne. eapply gives_fun; [exact Hgv|].
          eapply Hg, Hsub; done.
        * exfalso. apply elem_of_cons in Hi as [Hi|Hi]; [done|]. apply ev_in in Hi as (k & u' & Hk & -> & [[? _]|[_ Ed]]); done.
      + destruct (rec_made _ _ _ _ _ Hr Hmd) as (d & Hi). unfold E_of in Hi.
        apply elem_of_cons in Hi as [Hi|Hi]; [done|]. apply ev_in in Hi as (k & u' & Hk & -> & _).
        destruct Hm as [Hm|Hm]; [by eapply Hdis|]. apply Hm. rewrite Hh, mapped_img. destruct (decide (k ∈ names t)); [|done].
        destruct (Hfr k) as [E|E]; [|done]. exfalso.
        assert (Hi := reached_inv _ _ _ Hs). destruct Hmd as (c & e1 & Hc & He & Ha & Hl).
        destruct (i_edge _ _ _ _ Hi _ _ _ Hc He) as [Hw _]. unfold wfe in Hw.
        change (sh_loc (shape e1)) with (s_loc e1) in Hw. change (sh_eff (shape e1)) with (s_eff e1) in Hw. change (sh_dep (shape e1)) with (s_dep e1) in Hw.
        rewrite Hl in Hw. unfold holds in E. rewrite contents_lookup in E. destruct (table s !! img k) eqn:Em; [done|]. rewrite Ha in Hw.
        destruct (s_dep e1); naive_solver.
    - intros Hne. right. right. left. destruct (decide (venc vw = enc u)) as [Heq1|Hne1].
      + apply enc_like in Heq1. destruct (like_differs _ _ Heq1) as (k & u' & a & H1 & H2 & H3); [congruence|].
        exists (img k), T, (λ u, u), a, (value u'). split; [eapply rec_saw_r; [exact Hr|by right]|]. split; [by eapply Hg, Hsub|congruence].
      + exists (src m), TyTree, (λ u, u), (venc vw), (enc u). split; [eapply rec_saw_r; [exact Hr|by left]|]. split; [by apply Hgc|congruence]. }
  exists s', rs. split; [done|]. split; [done|]. split.
  { apply NoDup_Permutation; [done|apply NoDup_fmap_2; [intros a b; apply img_inj|by apply reruns_nodup]|].
    intros x. rewrite Hx, Hlgin, elem_of_list_fmap. split.
    - intros [(m & Hm & ->) Hmr]. exists m. split; [done|]. apply reruns_in. destruct (names_split _ _ Hm) as (u & Hin).
      exists u. split; [done|]. by eapply Hmust.
    - intros (m & -> & Hm). split; [exists m; split; [by eapply reruns_names|done]|]. apply reruns_in in Hm as (u & Hin & Hne).
      by eapply Hmust. }
  split; [|split; [done|split; [|exact Hg]]].
  2:{ intros l Hl. rewrite Hh. clear -Hl. revert Hl. generalize (names t) (holds s). intros ns. induction ns as [|m ns IH]; intros σ Hl; [done|].
      cbn [mapped foldl]. fold (mapped ns (<[img m := ct m]> σ)). rewrite IH by (intros k Hk; apply Hl; by right).
      rewrite lookup_insert_ne; [done|]. intros E. apply (Hl m); [by left|done]. }
  split; [done| | |].
  - intros m. rewrite Hsrc. apply Hcl.
  - rewrite Hh. by apply mapped_free.
  - intros m. destruct (decide (m ∈ cs0.*1)) as [Hm|Hm].
    + destruct (names_split _ _ Hm) as (u & Hin). rewrite (note_in last cs0 m u); [|by rewrite Hnm|done].
      destruct (Hall _ _ Hin) as [Hr Huk]. rewrite val_view. split; [done|]. intros k (c & Hc & Hb). unfold up_to_date in Huk. rewrite Hc in Huk.
      destruct Huk as (_ & _ & Hac). destruct (bit_Some _ _ _ _ Hb) as (e & He & E1 & E2). specialize (Hac _ He). rewrite E1, E2 in Hac. congruence.
    + rewrite note_out by done. assert (img m ∉ rs) as Hnr.
      { intros Hin. apply Hx in Hin as [Hin _]. apply Hlgin in Hin as (m' & Hm' & E). apply img_inj in E as ->. done. }
      specialize (Hrec m). destruct (last m) as [vw|].
      * destruct Hrec as [(c0 & Hc0 & HE & Hw0) Hdis].
        destruct (Hrm (img m) c0 _ Hc0 Hw0) as [Hne|(c & w' & Hc & Hw & Hk)]; [destruct Hne; by eapply Hsame|].
        destruct (Hk Hnr) as [-> Hsh]. split; [exists c; split; [done|]; by rewrite Hsh|].
        intros k (c1 & Hc1 & Hb). rewrite Hc in Hc1. injection Hc1 as <-.
        destruct (Hun _ Hnr c Hc) as (c2 & Hc2 & _ & _ & _ & _ & Hbits); [congruence|]. rewrite Hc0 in Hc2. injection Hc2 as <-.
        destruct (Hbits _ Hb) as [Hb0|Hne]; [apply (Hdis k); by exists c0|].
        apply Hne. change (holds s' !! img k = holds s !! img k). 
        assert (Hi := reached_inv _ _ _ Hs). destruct (bit_Some _ _ _ _ Hb) as (e' & He' & E1 & E2).
        assert (shape e' ∈ shape <$> c_succs c0) as (e1 & Hse & He)%elem_of_list_fmap by (rewrite <- Hsh; by apply elem_of_list_fmap_1).
        injection Hse as F1 F2 F3. destruct (i_edge _ _ _ _ Hi _ _ _ Hc0 He) as [Hwf _]. unfold wfe in Hwf.
        change (sh_loc (shape e1)) with (s_loc e1) in Hwf. change (sh_eff (shape e1)) with (s_eff e1) in Hwf. change (sh_dep (shape e1)) with (s_dep e1) in Hwf.
        rewrite <- F1, E2 in Hwf. rewrite Hh, mapped_img. destruct (decide (k ∈ names t)); [|done].
        destruct (Hfr k) as [E|E]; [|done]. exfalso. unfold holds in E. rewrite contents_lookup in E. destruct (table s !! img k) eqn:Em; [done|].
        rewrite <- F2, E1 in Hwf. destruct (s_dep e1); naive_solver.
      * intros (w & c1 & Hc1 & Hw1). destruct (Hun _ Hnr c1 Hc1) as (c0 & Hc0 & Hr0 & _); [congruence|]. apply Hrec.
        destruct (c_res c0) as [w0|] eqn:Hw0; [|done]. by exists w0, c0.
Qed.

(** ** The editor *)
Lemma known_raise last s s1 : known last s → reached opt false s1 → (∀ n, holds s1 !! src n = None ∨ ∃ v, holds s1 !! src n = Some (CCell TyTree v)) →
  free (holds s1) → (∀ n, onode_raised (table s !! img n) (table s1 !! img n)) →
  (∀ n m, nbit s1 (img n) Allocate (img m) = Some true → nbit s (img n) Allocate (img m) = Some true) → known last s1.
Proof.
  intros [Hs Hcl Hfr Hrec] Hs1 Hcl1 Hfr1 Hr Hb. split; [done|done|done|]. intros n. specialize (Hrec n). destruct (last n) as [vw|].
  - destruct Hrec as [Hr0 Hd]. split; [by eapply rec_raised|]. intros m (c & Hc & Hbt). destruct Hr0 as (c0 & Hc0 & _). apply (Hd m). exists c0. split; [done|].
    specialize (Hb n m). unfold nbit in Hb. rewrite Hc, Hc0 in Hb. by apply Hb.
  - by eapply uneval_raised.
Qed.
Lemma put_cell last s n v : known last s → ∃ s1,
  cell_op TyTree n v s = (OVal (src n), s1) ∧ runs s1 = runs s ∧ known last s1 ∧ holds s1 = <[src n := CCell TyTree v]> (holds s).
Proof.
  intros Hk. assert (Hk' := Hk). destruct Hk' as [Hs Hcl Hfr Hrec]. destruct (reached_idle _ _ _ Hs) as [Hst Hcp].
  destruct (reached_Ed _ _ _ Hs) as (_ & _ & Hsf & _).
  destruct (reached_step opt false s 1 (Cell TyTree n v (λ l, Ret (VLoc l))) (VLoc (src n)) (d_write [] (src n) (CCell TyTree v) (d_init (holds s))) Hs) as (s1 & (K & HK) & Hs1 & Hh1).
  { unfold d_exec. cbn [d_run]. unfold dbind, d_cell, d_alloc. fold (src n). cbn [s6_ok d_store d_init d_seen]. destruct (Hcl n) as [->|[w ->]]; [done|].
    assert (rebind_ok (src n) (Some (CCell TyTree w)) (CCell TyTree v) ∅ = true) as ->; [|done].
    unfold rebind_ok. apply orb_true_iff. right. rewrite !bool_decide_true; [done|done|set_solver]. }
  specialize (HK K ltac:(lia)). unfold exec in HK. cbn [run] in HK. unfold bind in HK.
  destruct (cell_op TyTree n v s) as [[l|r|] s2] eqn:E; [|done|done]. injection HK as -> ->. exists s1. split; [done|].
  split; [by eapply C07_edits_do_not_evaluate|]. cbn [d_store d_write d_init] in Hh1. split; [|done].
  assert (cell_loc s n v = src n) as Hloc by (unfold cell_loc; by rewrite Hsf, Hcp).
  assert (Hnc : ∀ c, table s !! src n ≠ Some (NComp c)).
  { intros c Hc. destruct (Hcl n) as [E1|[w E1]]; unfold holds in E1; rewrite contents_lookup, Hc in E1; done. }
  eapply known_raise; [exact Hk|done| | | |].
  - intros m. rewrite Hh1. destruct (decide (src m = src n)) as [E1|E1]; [rewrite E1, lookup_insert; eauto|rewrite lookup_insert_ne by done; apply Hcl].
  - intros m. rewrite Hh1. rewrite lookup_insert_ne by (apply src_img). apply Hfr.
  - intros m. destruct (post_elim _ _ _ _ _ (cell_op_any TyTree n v s) E) as [_ _ _ Hx _ _]. rewrite Hloc in Hx. apply Hx; [done|]. intros E1. by apply (src_img n m).
  - intros a b Hb. destruct (Hcl n) as [Hn|[w Hn]].
    + assert (table s !! src n = None) as Hnone. { unfold holds in Hn. rewrite contents_lookup in Hn. by destruct (table s !! src n). }
      destruct (cell_fresh TyTree n v s Hst Hsf) as (s2 & E2 & Ht2); [by rewrite Hcp|]. rewrite E in E2. injection E2 as _ <-.
      unfold nbit in *. rewrite Ht2, Hcp in Hb. fold (src n) in Hb. rewrite lookup_insert_ne in Hb by (intros E1; by apply (src_img n a)). done.
    + destruct (decide (w = v)) as [->|Hne].
      * assert (∃ ps, table s !! src n = Some (NMut TyTree ps v)) as (ps & Hps).
        { unfold holds in Hn. rewrite contents_lookup in Hn. destruct (table s !! src n) as [[t0 ps0 v0|t0 v0|c0]|] eqn:E1; simpl in Hn; try done.
          - injection Hn as -> ->. eauto.
          - exfalso. by eapply (not_pure opt false s (src n)). }
        destruct (C06_cell_same s TyTree n ps v Hst Hsf) as (s2 & E2 & Ht2 & _); [by rewrite Hcp|]. rewrite E in E2. injection E2 as _ <-.
        unfold nbit in *. by rewrite Ht2 in Hb.
      * destruct (C60_cell_dirties_exactly opt false s TyTree n v w (src n) s1 Hs Hsf Hn Hne E) as (_ & Hex & _).
        apply Hex in Hb as [Hb|[[E1 _]|(E1 & _)]]; [done| |done]. by destruct (src_img n b).
Qed.
Lemma put_thunk last s n : known last s → ∃ s1,
  thunk_op T (NCNominal n) "tree_fold_up" (v_tart (src n)) (VStr fid) (set_cpath [mns] s) = (OVal (img n), set_cpath [mns] s1) ∧
  runs s1 = runs s ∧ known last s1 ∧ holds s1 = <[img n := ct n]> (holds s).
Proof.
  intros Hk. assert (Hk' := Hk). destruct Hk' as [Hs Hcl Hfr Hrec]. destruct (reached_idle _ _ _ Hs) as [Hst Hcp].
  destruct (reached_Ed _ _ _ Hs) as (_ & _ & Hsf & _). set (op := thunk_op _ _ _ _ _).
  destruct (reached_step opt false s 1 (Ns mns (Thunk T (NCNominal n) "tree_fold_up" (v_tart (src n)) (VStr fid) (λ l, Ret (VLoc l))) Ret) (VLoc (img n))
    (d_write [] (img n) (ct n) (d_init (holds s))) Hs) as (s1 & (K & HK) & Hs1 & Hh1).
  { unfold d_exec. cbn [d_run]. unfold dbind, d_thunk. fold (img n) (ct n). rewrite d_alloc_same; [done|done| |done|done]. apply Hfr. }
  specialize (HK K ltac:(lia)). unfold exec in HK. cbn [run] in HK. unfold bind, Engine.get, modify, ret in HK. rewrite Hcp in HK. fold op in HK.
  destruct (op (set_cpath [mns] s)) as [[l|r|] s2] eqn:E; [|done|done]. injection HK as -> <-.
  assert (cpath s2 = [mns] ∧ ((table s !! img n = None ∧ table s2 = <[img n := NComp (CompNode T [] [] "tree_fold_up" (v_tart (src n)) (VStr fid) None)]> (table s)) ∨
    (table s !! img n ≠ None ∧ table s2 = table s))) as [Hcp2 Htab].
  { destruct (table s !! img n) as [nd|] eqn:Hnd.
    - destruct (Hfr n) as [E1|E1]; [unfold holds in E1; rewrite contents_lookup, Hnd in E1; done|].
      destruct (comp_at _ _ _ _ _ _ E1) as (c & Hc & Ht & Hp & Ha & _). 
      destruct (C06_thunk_same (set_cpath [mns] s) T n "tree_fold_up" (v_tart (src n)) (VStr fid) c Hst Hsf Hc Ht Hp Ha) as (s3 & E3 & Ht3 & _ & Hc3 & _).
      fold op in E3. rewrite E in E3. injection E3 as <-. split; [done|]. right. split; [done|]. exact Ht3.
    - destruct (thunk_fresh T n "tree_fold_up" (v_tart (src n)) (VStr fid) (set_cpath [mns] s) Hst Hsf Hnd) as (s3 & E3 & Hc3 & Ht3).
      fold op in E3. rewrite E in E3. injection E3 as <-. split; [done|]. left. split; [done|]. exact Ht3. }
  exists (set_cpath [] s2). split.
  { f_equal. destruct s2; simpl in *. by rewrite Hcp2. }
  split; [by apply (C07_thunk_does_not_evaluate (set_cpath [mns] s) s2 T (NCNominal n) "tree_fold_up" (v_tart (src n)) (VStr fid) _ E)|]. cbn [d_store d_write d_init] in Hh1. split; [|done].
  destruct Htab as [[Hnone Ht2]|[_ Ht2]].
  - split; [done| | |].
    + intros m. rewrite Hh1, lookup_insert_ne by (intros E1; by apply (src_img m n)). apply Hcl.
    + rewrite Hh1. by apply free_insert.
    + intros m. specialize (Hrec m). destruct (decide (m = n)) as [->|Hne].
      * destruct (last n) as [vw|]; [destruct Hrec as [(c & Hc & _) _]; congruence|]. intros (w & c & Hc & Hw).
        change (table (set_cpath [] s2)) with (table s2) in Hc. rewrite Ht2, lookup_insert in Hc. by injection Hc as <-.
      * assert (table (set_cpath [] s2) !! img m = table s !! img m) as Hlk.
        { change (table (set_cpath [] s2)) with (table s2). rewrite Ht2, lookup_insert_ne; [done|]. intros E1. by apply img_inj in E1. }
        destruct (last m) as [vw|]; unfold recorded, disturbed, evaluated, cached in *; by rewrite Hlk.
  - eapply known_raise; [exact Hk|done| | | |].
    + intros m. rewrite Hh1, lookup_insert_ne by (intros E1; by apply (src_img m n)). apply Hcl.
    + rewrite Hh1. by apply free_insert.
    + intros m. change (table (set_cpath [] s2)) with (table s2). rewrite Ht2. apply onode_raised_refl.
    + intros a b. unfold nbit. change (table (set_cpath [] s2)) with (table s2). by rewrite Ht2.
Qed.


(** The editor builds the tree: two cells at each name, as [bin_arts_niltest] makes them (collections.rs:513-523) ... *)
Fixpoint build (t : tre) (k : val → comp) : comp :=
  match t with
  | TN => k v_tnil
  | TL x => k (v_leaf x)
  | TB lev l r => build l (λ vl, build r (λ vr, k (v_bin lev vl vr)))
  | TM n lev l r =>
      build l (λ vl, Cell TyTree (k1 n) vl (λ al,
      build r (λ vr, Cell TyTree (k2 n) vr (λ ar, k (v_tname n lev (v_tart al) (v_tart ar))))))
  end.
(** ... and folds it. *)
Definition step (t : tre) (k : val → comp) : comp := build t (λ v, Ns mns (fn F v) k).
Definition ok_tree (t : tre) : Prop := (height t < F)%nat ∧ NoDup (names t).

Lemma stored_put cs σ m w : m ∉ cs.*1 → stored cs σ → stored cs (<[src m := w]> σ).
Proof.
  intros Hm Hst k u Hin. rewrite lookup_insert_ne; [by apply Hst|]. intros E. apply Hm. assert (m = k) as -> by (by injection E).
  apply elem_of_list_fmap. by exists (k, u).
Qed.
Lemma build_run t last s : known last s → NoDup (names t) → ∃ s1,
  (∀ f k, run f (build t k) s = run f (k (enc t)) s1) ∧ runs s1 = runs s ∧ known last s1 ∧ stored (cells t) (holds s1) ∧
  ∀ cs, (∀ m, m ∈ names t → m ∉ cs.*1) → stored cs (holds s) → stored cs (holds s1).
Proof.
  revert s. induction t as [|x|lev l IHl r IHr|n lev l IHl r IHr]; intros s Hk Hnd.
  - exists s. split; [done|]. split; [done|]. split; [done|]. split; [by intros ? ? ?%elem_of_nil|auto].
  - exists s. split; [done|]. split; [done|]. split; [done|]. split; [by intros ? ? ?%elem_of_nil|auto].
  - rewrite names_TB in *. apply NoDup_app in Hnd as (Hndl & Hdis & Hndr).
    destruct (IHl s Hk Hndl) as (s1 & Hrun1 & Hr1 & Hk1 & Hs1 & Hp1). destruct (IHr s1 Hk1 Hndr) as (s2 & Hrun2 & Hr2 & Hk2 & Hs2 & Hp2).
    exists s2. split; [intros f k; cbn [build enc]; by rewrite Hrun1, Hrun2|]. split; [congruence|]. split; [done|]. split.
    + cbn [cells]. apply stored_app. split; [|done]. apply Hp2; [|done]. intros m Hm Hin. by apply (Hdis m).
    + intros cs Hcs Hst. apply Hp2, Hp1; [|by intros m Hm; apply Hcs, elem_of_app; left|done]. intros m Hm. apply Hcs, elem_of_app. by right.
  - rewrite names_TM in *. change (k1 n :: names l ++ k2 n :: names r) with ((k1 n :: names l) ++ k2 n :: names r) in *.
    apply NoDup_app in Hnd as ([Hn1 Hndl]%NoDup_cons & Hdis & [Hn2 Hndr]%NoDup_cons).
    destruct (IHl s Hk Hndl) as (s1 & Hrun1 & Hr1 & Hk1 & Hs1 & Hp1). destruct (put_cell last s1 (k1 n) (enc l) Hk1) as (s2 & E2 & Hr2 & Hk2 & Hh2).
    destruct (IHr s2 Hk2 Hndr) as (s3 & Hrun3 & Hr3 & Hk3 & Hs3 & Hp3). destruct (put_cell last s3 (k2 n) (enc r) Hk3) as (s4 & E4 & Hr4 & Hk4 & Hh4).
    exists s4. split; [|split; [congruence|split; [done|split]]].
    + intros f k. cbn [build enc]. rewrite Hrun1. cbn [run]. rewrite (bind_val _ _ s1 (src (k1 n)) s2) by exact E2. rewrite Hrun3. cbn [run].
      rewrite (bind_val _ _ s3 (src (k2 n)) s4) by exact E4. done.
    + cbn [cells]. change ((k1 n, l) :: cells l ++ (k2 n, r) :: cells r) with (((k1 n, l) :: cells l) ++ (k2 n, r) :: cells r).
      rewrite Hh4. apply stored_app. split.
      * apply stored_put; [intros Hin; apply (Hdis (k2 n)); [done|by left]|]. apply Hp3; [intros m Hm Hin; apply (Hdis m); [done|by right]|].
        rewrite Hh2. apply stored_cons. split; [by rewrite lookup_insert|]. by apply stored_put.
      * apply stored_cons. split; [by rewrite lookup_insert|]. by apply stored_put.
    + intros cs Hcs Hst. rewrite Hh4. apply stored_put; [apply Hcs, elem_of_app; right; by left|]. apply Hp3; [intros m Hm; apply Hcs, elem_of_app; right; by right|].
      rewrite Hh2. apply stored_put; [apply Hcs, elem_of_app; left; by left|]. apply Hp1; [|done]. intros m Hm. apply Hcs, elem_of_app. left. by right.
Qed.

Lemma reruns_app last a b : reruns last (a ++ b) = reruns last a ++ reruns last b.
Proof. induction a as [|[m u] a IH]; [done|]. cbn [app reruns]. by rewrite IH, (assoc_L (++)). Qed.
Lemma reruns_ext last last' cs : (∀ m, m ∈ cs.*1 → last m = last' m) → reruns last cs = reruns last' cs.
Proof.
  induction cs as [|[m u] cs IH]; intros Hx; [done|]. cbn [reruns]. rewrite IH by (intros k Hk; apply Hx; by right). by rewrite (Hx m) by (by left).
Qed.
Lemma note_app last a b m : NoDup (a ++ b).*1 → note (note last a) b m = note last (a ++ b) m.
Proof.
  intros Hnd. rewrite fmap_app in Hnd. apply NoDup_app in Hnd as (Ha & Hdis & Hb). destruct (decide (m ∈ b.*1)) as [Hm|Hm].
  - destruct (names_split _ _ Hm) as [u Hu]. rewrite (note_in _ b m u) by done. symmetry. apply note_in.
    + rewrite fmap_app. apply NoDup_app. done.
    + apply elem_of_app. by right.
  - rewrite note_out by done. clear Ha Hdis. induction a as [|[k u] a IH]; [symmetry; by apply note_out|]. cbn [note app]. by rewrite IH.
Qed.
Lemma known_ext last last' s : (∀ m, last m = last' m) → known last s → known last' s.
Proof. intros Hx [H1 H2 H3 H4]. split; [done..|]. intros n. specialize (H4 n). by rewrite <- Hx. Qed.

(** Folding a tree whose cells are there, in the editor. *)
Definition fold_from (G : nat) (t : tre) (last : name → option view) (s s' : dcg) : Prop :=
  (∃ K, ∀ f, (K ≤ f)%nat → run (force f) (fn G (enc t)) (set_cpath [mns] s) = (OVal (value t), set_cpath [mns] s')) ∧
  (∃ rs, runs s' = rs ++ runs s ∧ rs ≡ₚ img <$> reruns last (cells t)) ∧ known (note last (cells t)) s' ∧ ∀ m, holds s' !! src m = holds s !! src m.
Lemma memo_from n t last s : (2 ≤ F)%nat → (height t < F)%nat → known last s → NoDup (n :: names t) → stored ((n, t) :: cells t) (holds s) → ∃ s',
  (∃ K, ∀ f k, (K ≤ f)%nat → run (force f) (memo_m T n "tree_fold_up" (v_tart (src n)) (VStr fid) k) (set_cpath [mns] s) =
     run (force f) (k (value t)) (set_cpath [mns] s')) ∧
  (∃ rs, runs s' = rs ++ runs s ∧ rs ≡ₚ img <$> reruns last ((n, t) :: cells t)) ∧ known (note last ((n, t) :: cells t)) s' ∧
  ∀ m, holds s' !! src m = holds s !! src m.
Proof.
  intros HF2 HF Hk Hnd Hst. destruct (put_thunk last s n Hk) as (s2 & E2 & Hr2 & Hk2 & Hh2).
  destruct (fold_demand last n t s2 Hk2 HF2 HF Hnd) as (s3 & rs & (K & HK) & Hr3 & Hrs & Hk3 & Hsrc & _).
  { rewrite Hh2. eapply stored_mono; [exact Hst|]. intros k. rewrite lookup_insert_ne; [done|]. intros E. by apply (src_img k n). }
  { by rewrite Hh2, lookup_insert. }
  exists s3. split; [|split; [|split; [done|]]].
  - exists K. intros f k Hf. unfold memo_m. cbn [run]. rewrite (bind_val _ _ _ (img n) (set_cpath [mns] s2)) by exact E2. cbv beta. cbn [run force_art].
    specialize (HK f Hf). apply force_ignores_namespace in HK as [_ HK]. by rewrite (bind_val _ _ _ _ _ (HK [mns])).
  - exists rs. split; [congruence|done].
  - intros m. rewrite Hsrc, Hh2, lookup_insert_ne; [done|]. intros E. by apply (src_img m n).
Qed.
Lemma fold_editor t : ∀ G last s, (2 ≤ F)%nat → (height t < G)%nat → (height t < F)%nat → known last s → NoDup (names t) → stored (cells t) (holds s) →
  ∃ s', fold_from G t last s s'.
Proof.
  induction t as [|x|lev l IHl r IHr|n lev l IHl r IHr]; intros G last s HF2 HG HF Hk Hnd Hst; (destruct G as [|G]; [simpl in HG; lia|]).
  - exists s. split; [exists 0%nat; intros; by rewrite fn_TN|]. split; [by exists []|]. done.
  - exists s. split; [exists 0%nat; intros; by rewrite fn_TL|]. split; [by exists []|]. done.
  - cbn [height] in *. unfold fold_from. rewrite names_TB in *. cbn [cells] in *. apply stored_app in Hst as [Hsl Hsr]. assert (Hnd' := Hnd).
    apply NoDup_app in Hnd as (Hndl & Hdis & Hndr).
    destruct (IHl G last s) as (s1 & (K1 & HK1) & (rs1 & Hr1 & Hp1) & Hk1 & Hsrc1); [lia|lia|lia|done..|].
    destruct (IHr G (note last (cells l)) s1) as (s2 & (K2 & HK2) & (rs2 & Hr2 & Hp2) & Hk2 & Hsrc2); [lia|lia|lia|done..| |].
    { by eapply stored_mono. }
    exists s2. split; [|split; [|split]].
    + exists (K1 + K2)%nat. intros f Hf. rewrite fn_TB, run_cbind. rewrite (bind_val _ _ _ _ _ (HK1 f ltac:(lia))). rewrite run_cbind.
      rewrite (bind_val _ _ _ _ _ (HK2 f ltac:(lia))). done.
    + exists (rs2 ++ rs1). split; [rewrite Hr2, Hr1; by rewrite (assoc_L (++))|]. rewrite reruns_app, fmap_app, Hp1, Hp2.
      rewrite (reruns_ext (note last (cells l)) last); [apply Permutation_app_comm|]. intros m Hm. apply note_out. intros Hin. by apply (Hdis m).
    + eapply known_ext; [|exact Hk2]. intros m. apply note_app. by rewrite fmap_app.
    + intros m. by rewrite Hsrc2.
  - cbn [height] in *. unfold fold_from. rewrite names_TM in *. cbn [cells] in *.
    change ((k1 n, l) :: cells l ++ (k2 n, r) :: cells r) with (((k1 n, l) :: cells l) ++ (k2 n, r) :: cells r) in *.
    change (k1 n :: names l ++ k2 n :: names r) with ((k1 n :: names l) ++ k2 n :: names r) in *. apply stored_app in Hst as [Hsl Hsr]. assert (Hnd' := Hnd).
    apply NoDup_app in Hnd as (Hndl & Hdis & Hndr).
    destruct (memo_from (k1 n) l last s) as (s1 & (K1 & HK1) & (rs1 & Hr1 & Hp1) & Hk1 & Hsrc1); [lia|lia|done..|].
    destruct (memo_from (k2 n) r (note last ((k1 n, l) :: cells l)) s1) as (s2 & (K2 & HK2) & (rs2 & Hr2 & Hp2) & Hk2 & Hsrc2); [lia|lia|done..| |].
    { by eapply stored_mono. }
    exists s2. split; [|split; [|split]].
    + exists (K1 + K2)%nat. intros f Hf. rewrite fn_TM. rewrite HK1 by lia. by rewrite HK2 by lia.
    + exists (rs2 ++ rs1). split; [rewrite Hr2, Hr1; by rewrite (assoc_L (++))|]. rewrite reruns_app, fmap_app, Hp1, Hp2.
      rewrite (reruns_ext (note last ((k1 n, l) :: cells l)) last); [apply Permutation_app_comm|]. intros m Hm. apply note_out. intros Hin. by apply (Hdis m).
    + eapply known_ext; [|exact Hk2]. intros m. apply note_app. rewrite fmap_app. exact Hnd'.
    + intros m. by rewrite Hsrc2.
Qed.

(** C67.  One round of the editor, after any rounds: the fold returns the value of the tree, and the thunks run, each
    once, are exactly [reruns]. *)
Theorem C67_fold_round last s t : (2 ≤ F)%nat → known last s → ok_tree t → ∃ s' rs,
  (∃ K, ∀ f k, (K ≤ f)%nat → exec f (step t k) s = exec f (k (value t)) s') ∧
  runs s' = rs ++ runs s ∧ rs ≡ₚ img <$> reruns last (cells t) ∧ known (note last (cells t)) s'.
Proof.
  intros HF2 Hk [HF Hnd]. destruct (build_run t last s Hk Hnd) as (s1 & Hrun & Hr1 & Hk1 & Hst1 & _).
  destruct (fold_editor t F last s1 HF2 HF HF Hk1 Hnd Hst1) as (s2 & (K & HK) & (rs & Hr2 & Hp) & Hk2 & _).
  destruct (reached_idle _ _ _ (k_reached _ _ Hk1)) as [_ Hcp1]. destruct (reached_idle _ _ _ (k_reached _ _ Hk2)) as [_ Hcp2].
  exists s2, rs. split; [|split; [congruence|done]]. exists K. intros f k Hf. unfold exec, step. rewrite Hrun. cbn [run]. unfold bind, Engine.get, modify. rewrite Hcp1.
  rewrite (HK f Hf). change (set_cpath [] (set_cpath [mns] s2)) with (set_cpath [] s2). assert (set_cpath [] s2 = s2) as ->; [|done].
  destruct s2; simpl in *. by rewrite Hcp2.
Qed.

(** ** Whole sessions *)
Fixpoint rounds (ts : list tre) (acc : list val) : comp :=
  match ts with [] => Ret (foldr VPair VUnit acc) | t :: ts => step t (λ v, rounds ts (acc ++ [v])) end.
Fixpoint all_reruns (last : name → option view) (ts : list tre) : list name :=
  match ts with [] => [] | t :: ts => reruns last (cells t) ++ all_reruns (note last (cells t)) ts end.
Definition notes_from (last : name → option view) (ts : list tre) : name → option view := foldl (λ last t, note last (cells t)) last ts.
Definition notes : list tre → name → option view := notes_from (λ _, None).
Lemma known_new : known (λ _, None) (dcg_new_flags false opt).
Proof.
  assert (reached opt false (dcg_new_flags false opt)) as Hr.
  { exists (Ret VUnit), 0%nat, VUnit. split; [|done]. by exists 0%nat, VUnit, (d_init ∅). }
  assert (holds (dcg_new_flags false opt) = ∅) as Hh. { apply map_eq. intros l. unfold holds. rewrite contents_lookup. cbn. by rewrite !lookup_empty. }
  split; [done| | |].
  - intros n. left. by rewrite Hh, lookup_empty.
  - intros n. left. by rewrite Hh, lookup_empty.
  - intros n (w & c & Hc & _). cbn in Hc. by rewrite lookup_empty in Hc.
Qed.
Lemma rounds_from ts last s : (2 ≤ F)%nat → known last s → Forall ok_tree ts → ∃ s' rs,
  (∀ acc ts', ∃ K, ∀ f, (K ≤ f)%nat → exec f (rounds (ts ++ ts') acc) s = exec f (rounds ts' (acc ++ (value <$> ts))) s') ∧
  runs s' = rs ++ runs s ∧ rs ≡ₚ img <$> all_reruns last ts ∧ known (notes_from last ts) s'.
Proof.
  intros HF2. revert last s. induction ts as [|t ts IH]; intros last s Hk Hok.
  - exists s, []. split; [intros acc ts'; exists 0%nat; intros f _; cbn [app fmap list_fmap]; by rewrite app_nil_r|]. done.
  - apply Forall_cons in Hok as [Hf1 Hok].
    destruct (C67_fold_round last s t HF2 Hk Hf1) as (s1 & rs1 & (K1 & HK1) & Hr1 & Hp1 & Hk1).
    destruct (IH (note last (cells t)) s1 Hk1 Hok) as (s2 & rs2 & Hrun & Hr2 & Hp2 & Hk2).
    exists s2, (rs2 ++ rs1). split; [|split; [rewrite Hr2, Hr1; by rewrite (assoc_L (++))|split; [|done]]].
    + intros acc ts'. destruct (Hrun (acc ++ [value t]) ts') as (K2 & HK2). exists (K1 + K2)%nat. intros f Hf. cbn [rounds app]. rewrite HK1 by lia. rewrite HK2 by lia.
      by rewrite <- (assoc_L (++)).
    + cbn [all_reruns]. rewrite fmap_app, Hp1, Hp2. apply Permutation_app_comm.
Qed.

(** C67.  A whole session in a new engine: every round returns the value of its tree, and over the whole session exactly
    the thunks [all_reruns] ran, each as often as it occurs there. *)
Theorem C67_sessions ts : (2 ≤ F)%nat → Forall ok_tree ts → ∃ s',
  returns (rounds ts []) (dcg_new_flags false opt) (foldr VPair VUnit (value <$> ts)) s' ∧ runs s' ≡ₚ img <$> all_reruns (λ _, None) ts.
Proof.
  intros HF2 Hok. destruct (rounds_from ts _ _ HF2 known_new Hok) as (s' & rs & Hrun & Hr & Hp & _). destruct (Hrun [] []) as (K & HK).
  exists s'. split; [|rewrite Hr; cbn [runs dcg_new_flags]; by rewrite app_nil_r].
  exists K. intros f Hf. specialize (HK f Hf). rewrite app_nil_r in HK. exact HK.
Qed.
(** One more round after a session. *)
Theorem C67_one_more ts t : (2 ≤ F)%nat → Forall ok_tree ts → ok_tree t → ∃ s1 s2 rs,
  returns (rounds ts []) (dcg_new_flags false opt) (foldr VPair VUnit (value <$> ts)) s1 ∧
  returns (rounds (ts ++ [t]) []) (dcg_new_flags false opt) (foldr VPair VUnit (value <$> ts ++ [t])) s2 ∧
  runs s2 = rs ++ runs s1 ∧ rs ≡ₚ img <$> reruns (notes ts) (cells t).
Proof.
  intros HF2 Hok Ht. destruct (rounds_from ts _ _ HF2 known_new Hok) as (s1 & rs1 & Hrun & Hr & Hp & Hk).
  destruct (C67_fold_round _ s1 t HF2 Hk Ht) as (s2 & rs & (K2 & HK2) & Hr2 & Hp2 & _). exists s1, s2, rs. split; [|split; [|done]].
  - destruct (Hrun [] []) as (K & HK). exists K. intros f Hf. specialize (HK f Hf). rewrite app_nil_r in HK. exact HK.
  - destruct (Hrun [] [t]) as (K & HK). exists (K + K2)%nat. intros f Hf. rewrite HK by lia. cbn [rounds]. rewrite HK2 by lia.
    cbn [rounds app exec run]. by rewrite fmap_app.
Qed.

(** ** The cost of an edit *)
(** A place in a tree. *)
Inductive place := PHere | PBl (lev : N) (p : place) (r : tre) | PBr (lev : N) (l : tre) (p : place)
  | PMl (n : name) (lev : N) (p : place) (r : tre) | PMr (n : name) (lev : N) (l : tre) (p : place).
Fixpoint plug (p : place) (t : tre) : tre :=
  match p with
  | PHere => t
  | PBl lev p r => TB lev (plug p t) r | PBr lev l p => TB lev l (plug p t)
  | PMl n lev p r => TM n lev (plug p t) r | PMr n lev l p => TM n lev l (plug p t)
  end.
(** The cells above a place, the outermost first. *)
Fixpoint above (p : place) : list name :=
  match p with
  | PHere => []
  | PBl _ p _ | PBr _ _ p => above p
  | PMl n _ p _ => k1 n :: above p | PMr n _ _ p => k2 n :: above p
  end.
Definition agrees (last : name → option view) (cs : list (name * tre)) : Prop := ∀ m u, (m, u) ∈ cs → last m = Some (view_of u).
Lemma agrees_none last cs : agrees last cs → reruns last cs = [].
Proof.
  intros Ha. induction cs as [|[m u] cs IH]; [done|]. cbn [reruns]. rewrite decide_True by (apply Ha; by left). apply IH. intros k w Hk. apply Ha. by right.
Qed.
Lemma note_agrees last cs : NoDup cs.*1 → agrees (note last cs) cs.
Proof. intros Hnd m u Hin. by apply note_in. Qed.
Lemma agrees_app last a b : agrees last (a ++ b) → agrees last a ∧ agrees last b.
Proof. intros Ha. split; intros m u Hin; apply Ha, elem_of_app; auto. Qed.
(** Folding the same tree again runs nothing. *)
Theorem C67_same_again last t : NoDup (names t) → reruns (note last (cells t)) (cells t) = [].
Proof. intros Hnd. by apply agrees_none, note_agrees. Qed.

(** Outside the replaced subtree only the thunks above it run ... *)
Lemma reruns_path last p u u' : agrees last (cells (plug p u)) →
  ∃ a, a `sublist_of` above p ∧ reruns last (cells (plug p u')) ≡ₚ a ++ reruns last (cells u') ∧
    (value u' = value u → (length a ≤ 1)%nat ∧ ∀ m, m ∈ a → list.last (above p) = Some m).
Proof.
  assert (Hval : ∀ p, value u' = value u → value (plug p u') = value (plug p u)). { intros q Hv. induction q; simpl; congruence. }
  assert (Hview : ∀ p, value u' = value u → above p ≠ [] → view_of (plug p u') = view_of (plug p u)).
  { intros q Hv. induction q; simpl; intros Hne; [done|rewrite IHq; done|rewrite IHq; done|by rewrite Hval|by rewrite Hval]. }
  induction p as [|lev p IH r|lev l p IH|n lev p IH r|n lev l p IH]; cbn [plug cells above]; intros Ha.
  - exists []. split; [done|]. split; [done|]. intros _. split; [simpl; lia|by intros ? ?%elem_of_nil].
  - apply agrees_app in Ha as [Ha Hr]. destruct (IH Ha) as (a & Hs & Hp & Hc). exists a. split; [done|]. split; [|done]. by rewrite reruns_app, (agrees_none _ _ Hr), app_nil_r.
  - apply agrees_app in Ha as [Hl Ha]. destruct (IH Ha) as (a & Hs & Hp & Hc). exists a. split; [done|]. split; [|done]. by rewrite reruns_app, (agrees_none _ _ Hl).
  - change ((k1 n, plug p u) :: cells (plug p u) ++ (k2 n, r) :: cells r) with (((k1 n, plug p u) :: cells (plug p u)) ++ (k2 n, r) :: cells r) in Ha.
    apply agrees_app in Ha as [Ha Hr]. assert (Hm := Ha (k1 n) _ ltac:(by left)).
    destruct IH as (a & Hs & Hp & Hc). { intros m w Hin. apply Ha. by right. }
    change ((k1 n, plug p u') :: cells (plug p u') ++ (k2 n, r) :: cells r) with (((k1 n, plug p u') :: cells (plug p u')) ++ (k2 n, r) :: cells r).
    rewrite reruns_app, (agrees_none _ _ Hr), app_nil_r. cbn [reruns].
    exists ((if decide (last (k1 n) = Some (view_of (plug p u'))) then [] else [k1 n]) ++ a). split; [|split].
    + destruct (decide _); cbn [app]; [by apply sublist_cons|by apply sublist_skip].
    + rewrite Hp. by rewrite (assoc_L (++)).
    + intros Hv. destruct (Hc Hv) as [Hl1 Hin]. destruct (above p) as [|m0 ab] eqn:Eab.
      * apply sublist_nil_r in Hs as ->. destruct (decide _); simpl; (split; [lia|]); [by intros ? ?%elem_of_nil|]. by intros ? ->%elem_of_list_singleton.
      * rewrite decide_True; [by split|]. rewrite Hm. f_equal. symmetry. apply Hview; [done|]. by rewrite Eab.
  - change ((k1 n, l) :: cells l ++ (k2 n, plug p u) :: cells (plug p u)) with (((k1 n, l) :: cells l) ++ (k2 n, plug p u) :: cells (plug p u)) in Ha.
    apply agrees_app in Ha as [Hl Ha]. assert (Hm := Ha (k2 n) _ ltac:(by left)).
    destruct IH as (a & Hs & Hp & Hc). { intros m w Hin. apply Ha. by right. }
    change ((k1 n, l) :: cells l ++ (k2 n, plug p u') :: cells (plug p u')) with (((k1 n, l) :: cells l) ++ (k2 n, plug p u') :: cells (plug p u')).
    rewrite reruns_app, (agrees_none _ _ Hl). cbn [reruns app].
    exists ((if decide (last (k2 n) = Some (view_of (plug p u'))) then [] else [k2 n]) ++ a). split; [|split].
    + destruct (decide _); cbn [app]; [by apply sublist_cons|by apply sublist_skip].
    + rewrite Hp. by rewrite (assoc_L (++)).
    + intros Hv. destruct (Hc Hv) as [Hl1 Hin]. destruct (above p) as [|m0 ab] eqn:Eab.
      * apply sublist_nil_r in Hs as ->. destruct (decide _); simpl; (split; [lia|]); [by intros ? ?%elem_of_nil|]. by intros ? ->%elem_of_list_singleton.
      * rewrite decide_True; [by split|]. rewrite Hm. f_equal. symmetry. apply Hview; [done|]. by rewrite Eab.
Qed.
(** C67.  Whatever the history [last] and however large the tree: when the subtree [u] at place [p] is replaced by [u'],
    the thunks that run are among those above [p] and those of [u'] itself; if the value there stays the same, at most
    the innermost one above [p] and those of [u']. *)
Theorem C67_edit_cost last p u u' : NoDup (names (plug p u)) →
  (length (reruns (note last (cells (plug p u))) (cells (plug p u'))) ≤ length (above p) + length (names u'))%nat ∧
  (∀ m, m ∈ reruns (note last (cells (plug p u))) (cells (plug p u')) → m ∈ above p ∨ m ∈ names u') ∧
  (value u' = value u → length (reruns (note last (cells (plug p u))) (cells (plug p u'))) ≤ 1 + length (names u'))%nat.
Proof.
  intros Hnd. destruct (reruns_path _ p u u' (note_agrees last _ Hnd)) as (a & Hs & Hp & Hc).
  assert (Hlen : ∀ L cs, (length (reruns L cs) ≤ length cs.*1)%nat).
  { intros L cs. induction cs as [|[m w] cs IH]; [done|]. cbn [reruns fmap list_fmap length]. rewrite app_length. destruct (decide _); simpl in *; lia. }
  split; [|split].
  - rewrite Hp, app_length. apply sublist_length in Hs. specialize (Hlen (note last (cells (plug p u))) (cells u')). unfold names. lia.
  - intros m Hm. rewrite Hp in Hm. apply elem_of_app in Hm as [Hm|Hm]; [left; apply sublist_submseteq in Hs; by eapply elem_of_submseteq|right; by eapply reruns_names].
  - intros Hv. destruct (Hc Hv) as [Hl _]. rewrite Hp, app_length. specialize (Hlen (note last (cells (plug p u))) (cells u')). unfold names. lia.
Qed.
(** C67.  The cost of an edit in the engine itself: after any session in a new engine that ended with the tree
    [plug p u], replacing [u] by [u'] and folding again runs at most the thunks above [p] and those of [u']; if the value
    of the subtree stays the same, at most one more than those of [u']. *)
Theorem C67_incremental ts p u u' : (2 ≤ F)%nat → Forall ok_tree ts → ok_tree (plug p u) → ok_tree (plug p u') → ∃ s1 s2 rs,
  returns (rounds (ts ++ [plug p u]) []) (dcg_new_flags false opt) (foldr VPair VUnit (value <$> ts ++ [plug p u])) s1 ∧
  returns (rounds ((ts ++ [plug p u]) ++ [plug p u']) []) (dcg_new_flags false opt) (foldr VPair VUnit (value <$> (ts ++ [plug p u]) ++ [plug p u'])) s2 ∧
  runs s2 = rs ++ runs s1 ∧ (length rs ≤ length (above p) + length (names u'))%nat ∧
  (∀ x, x ∈ rs → ∃ m, x = img m ∧ (m ∈ above p ∨ m ∈ names u')) ∧
  (value u' = value u → length rs ≤ 1 + length (names u'))%nat.
Proof.
  intros HF2 Hts Hu Hu'. destruct (C67_one_more (ts ++ [plug p u]) (plug p u') HF2) as (s1 & s2 & rs & H1 & H2 & H3 & H4); [apply Forall_app; split; [done|]; apply Forall_cons; split; [done|by apply Forall_nil]|done|].
  exists s1, s2, rs. split; [done|]. split; [done|]. split; [done|]. unfold notes, notes_from in H4. rewrite foldl_app in H4. cbn [foldl] in H4.
  destruct (C67_edit_cost (foldl (λ last t, note last (cells t)) (λ _, None) ts) p u u') as (Ha & Hb & Hc); [apply Hu|].
  rewrite H4, fmap_length. split; [done|]. split; [|done]. intros x Hx. rewrite H4 in Hx. apply elem_of_list_fmap in Hx as (m & -> & Hm). exists m. split; [done|]. by apply Hb.
Qed.

(** A perfect tree with names at all nodes: [2 ^ h] leaves. *)
Fixpoint leaves (t : tre) : nat := match t with TN => 0 | TL _ => 1 | TB _ l r | TM _ _ l r => leaves l + leaves r end.
Fixpoint perfect (h : nat) (t : tre) : Prop :=
  match h, t with
  | O, TL _ => True
  | S h, TM _ _ l r => perfect h l ∧ perfect h r
  | _, _ => False
  end.
Lemma perfect_leaves h t : perfect h t → leaves t = (2 ^ h)%nat ∧ height t = h.
Proof.
  revert t. induction h as [|h IH]; intros [] Hp; simpl in Hp; try done. destruct Hp as [Hl Hr]. destruct (IH _ Hl) as [E1 E2]. destruct (IH _ Hr) as [E3 E4].
  cbn [leaves height]. rewrite E1, E2, E3, E4. simpl. lia.
Qed.
Lemma above_height p t : (length (above p) ≤ height (plug p t))%nat.
Proof. induction p; cbn [above plug height length]; lia. Qed.
(** C67.  Changing one leaf of a perfect tree with [N] leaves runs at most [log2 N] thunks. *)
Theorem C67_log_cost ts p x x' h : (2 ≤ F)%nat → Forall ok_tree ts → ok_tree (plug p (TL x)) → perfect h (plug p (TL x)) → ∃ s1 s2 rs,
  returns (rounds (ts ++ [plug p (TL x)]) []) (dcg_new_flags false opt) (foldr VPair VUnit (value <$> ts ++ [plug p (TL x)])) s1 ∧
  returns (rounds ((ts ++ [plug p (TL x)]) ++ [plug p (TL x')]) []) (dcg_new_flags false opt)
    (foldr VPair VUnit (value <$> (ts ++ [plug p (TL x)]) ++ [plug p (TL x')])) s2 ∧
  runs s2 = rs ++ runs s1 ∧ (length rs ≤ Nat.log2 (leaves (plug p (TL x))))%nat.
Proof.
  intros HF2 Hts Hu Hp. assert (ok_tree (plug p (TL x'))) as Hu'.
  { destruct Hu as [Hh Hnd]. assert (∀ q, height (plug q (TL x')) = height (plug q (TL x)) ∧ names (plug q (TL x')) = names (plug q (TL x))) as Hq.
    { clear Hh Hnd Hp Hts HF2. intros q. induction q as [|lev q [E1 E2] r|lev l q [E1 E2]|n lev q [E1 E2] r|n lev l q [E1 E2]]; cbn [plug height]; rewrite ?names_TB, ?names_TM; rewrite ?E1, ?E2; done. }
    destruct (Hq p) as [E1 E2]. split; [by rewrite E1|by rewrite E2]. }
  destruct (C67_incremental ts p (TL x) (TL x') HF2 Hts Hu Hu') as (s1 & s2 & rs & H1 & H2 & H3 & H4 & _). exists s1, s2, rs. split; [done|]. split; [done|]. split; [done|].
  destruct (perfect_leaves _ _ Hp) as [-> Hh]. rewrite Nat.log2_pow2 by lia. assert (Ha := above_height p (TL x)). cbn [names cells fmap list_fmap length] in H4. unfold names in H4. simpl in H4. lia.
Qed.
End IncTree.
