(** * Nominal independence: the incremental cost of [list_reverse] (collections.rs:260-274; lib.rs:1286-1360), for every list
    and every history.

    The documentation's own example of what names are for: [rev] reverses a list with an accumulator; because the accumulator
    is put into a cell with a name of its own at each name of the input, a change in the front of the list does not reach the
    calls that reverse the rest.  Here it is computed exactly which thunks of [list_reverse] run in each round of any session
    of rounds: thunk [n] runs unless it was last computed for the same elements up to the next name, the same next name and
    the same answer of the next thunk (which is: the name after it, or, for the last thunk, its elements), and its
    accumulator cell for the next thunk has not been overwritten since.  What is in front of [n] does not matter at all. *)
From Verif Require Export IncMap.
Local Open Scope string_scope.
Local Open Scope list_scope.

(** ** Generalities *)
Section Generic.
Context `{Prog}.
Context (opt : bool).
Lemma tr_cell_nominal tb pth acc t n w k E v :
  (∀ t w, tb !! Loc pth (IdNom n) ≠ Some (NPure t w)) →
  tr opt tb pth false acc (Cell t n w k) E v →
  ∃ E', E = (Loc pth (IdNom n), Allocate, DAllocCell w) :: E' ∧
    tr opt tb pth false (acc ++ [(Loc pth (IdNom n), Allocate, DAllocCell w)]) (k (Loc pth (IdNom n))) E' v.
Proof. intros Hp Ht. inversion Ht; subst; [eauto|]. exfalso. by eapply Hp. Qed.
Lemma ref_cell_nominal pth t n w st :
  r_store st !! Loc pth (IdNom n) = None ∨ (∃ w0, r_store st !! Loc pth (IdNom n) = Some (CCell t w0)) →
  ref_cell pth false t n w st = ROk (Loc pth (IdNom n)) (RState (<[Loc pth (IdNom n) := CCell t w]> (r_store st)) (r_log st)).
Proof. unfold ref_cell. cbv zeta iota. intros [->|[w0 ->]]; [done|]. cbn [content_ty]. by rewrite decide_True. Qed.
Lemma d_cell_over stk l t w p : (∀ x, head stk = Some x → is_struct x = false) → is_struct l = false → head stk ≠ Some l →
  d_store p !! l = None ∨ (∃ w0, d_store p !! l = Some (CCell t w0)) → l ∉ d_seen p →
  d_alloc opt stk l (CCell t w) p = Some (l, d_write stk l (CCell t w) p).
Proof.
  intros H1 H3 H4 H2 H5. unfold d_alloc. rewrite (s6_nominal _ _ _ H1), H3. rewrite bool_decide_eq_false_2 by done.
  unfold rebind_ok. destruct H2 as [->|[w0 ->]]; [done|]. rewrite H3. rewrite (bool_decide_eq_true_2 (l ∉ d_seen p)) by done.
  rewrite (bool_decide_eq_true_2 (t = t)) by done. by rewrite orb_true_r.
Qed.

(** Overwriting a cell from inside a namespace: which allocation edges become dirty. *)
Lemma cell_over s p t n v v0 ps l s' :
  reached opt false s → table s !! Loc p (IdNom n) = Some (NMut t ps v0) → v0 ≠ v →
  cell_op t n v (set_cpath p s) = (OVal l, s') →
  l = Loc p (IdNom n) ∧ cpath s' = p ∧ ∀ x y, nbit s' x Allocate y = Some true → nbit s x Allocate y = Some true ∨ y = Loc p (IdNom n).
Proof.
  intros Hs Hl Hne E. destruct (reached_idle _ _ _ Hs) as [Hst _]. destruct (reached_Ed _ _ _ Hs) as (_ & _ & Hsf & _).
  unfold cell_op in E. rewrite (bind_val Engine.get _ (set_cpath p s) (set_cpath p s) (set_cpath p s)) in E by done.
  cbn [structf set_cpath cpath table] in E. rewrite Hsf in E. simpl (false && _) in E. cbv zeta iota in E.
  set (l0 := Loc p (IdNom n)) in *. rewrite Hl in E.
  rewrite (bind_val _ _ (set_cpath p s) (false, true, None, false) (set_cpath p s)) in E.
  2:{ by rewrite (bind_val _ _ (set_cpath p s) (NMut t ps v0) (set_cpath p s)) by (by apply res_node_eq). }
  cbv iota beta in E. rewrite (bind_val _ _ (set_cpath p s) (LocExists ContentDiff) (set_cpath p s)) in E.
  2:{ rewrite (bind_val _ _ (set_cpath p s) true (set_cpath p s)); [done|]. unfold check_cell_change.
      rewrite (bind_val _ _ (set_cpath p s) (NMut t ps v0) (set_cpath p s)) by (by apply res_node_eq). unfold ret. by rewrite bool_decide_true. }
  set (ev := EvBegin _ _ _) in E. rewrite (bind_val (emit ev) _ (set_cpath p s) tt (add_ev ev (set_cpath p s))) in E by done.
  unfold set_val in E.
  unfold bind at 1 in E. rewrite (bind_val _ _ (add_ev ev (set_cpath p s)) (NMut t ps v0) (add_ev ev (set_cpath p s))) in E by (by apply res_node_eq).
  cbv iota beta in E. rewrite decide_False in E by done. set (s1 := set_table (<[l0 := NMut t ps v]> (table s)) (add_ev ev (set_cpath p s))).
  rewrite (bind_val _ _ (add_ev ev (set_cpath p s)) tt s1) in E by done.
  destruct (dirty_alloc l0 s1) as [[[]|r|] s2] eqn:Ed; [|done|done].
  assert (touch (to_dirty s1 l0) s1 s2) as Ht by (exact (alloc_touch opt false s s1 l0 (NMut t ps v0) (NMut t ps v) s2 Hs Hl (reb_mut _ _ _ _) eq_refl Ed)).
  destruct Ht as (Hle & es & (_ & _ & Hes) & HP).
  assert (stack s2 = []) as Hst2 by (by rewrite (bl_stack _ _ Hle)).
  assert (l = l0 ∧ s' = add_ev EvEnd s2) as [-> ->].
  { unfold bind, ret, emit, modify, push_edge in E. simpl in E. rewrite Hst2 in E. by injection E as <- <-. }
  split; [done|]. split; [cbn [cpath add_ev]; by rewrite (bl_cpath _ _ Hle)|]. intros x y Hb. change (nbit (add_ev EvEnd s2) x Allocate y) with (nbit s2 x Allocate y) in Hb.
  assert (Hnb : nbit s1 x Allocate y = nbit s x Allocate y).
  { apply (nbit_rebound opt false s s1 l0 (NMut t ps v0) (NMut t ps v)); try done; [constructor|]. simpl. congruence. }
  destruct (decide (nbit s x Allocate y = Some true)) as [|Hn]; [by left|right].
  destruct (HP x Allocate y) as [[-> _]|(? & _)]; [|done..]. apply Hes. split; [by rewrite Hnb|done].
Qed.
(** Reading a list out of the engine: [reads s v xs], the list value [v] has the elements [xs], where references stand for
    what the engine answers when they are demanded. *)
Inductive reads (s : dcg) : val → list val → Prop :=
  | reads_nil : reads s v_nil []
  | reads_cons x v xs : reads s v xs → reads s (v_cons x v) (x :: xs)
  | reads_name n v xs : reads s v xs → reads s (v_lname n v) xs
  | reads_art l v xs : gives s TyList l v → reads s v xs → reads s (v_lart l) xs.
(** What is read is determined by the value. *)
Lemma reads_fun s v xs ys : reads s v xs → reads s v ys → xs = ys.
Proof.
  intros H1. revert ys. induction H1 as [|x v xs Hv IH|n v xs Hv IH|l v xs Hg Hv IH]; intros ys H2; inversion H2; subst; try done.
  - f_equal. by apply IH.
  - by apply IH.
  - apply IH. match goal with Hg' : gives s TyList l ?v' |- _ => by rewrite (gives_fun _ _ _ _ _ Hg Hg') end.
Qed.
End Generic.

(** ** The input and the output, as they lie in the store *)
Section IncRev.
Context `{Hashes} `{Hash64 val}.
Context (body : val → val) (pred : val → bool) (id_elm : val) (bin_op : val → val → val) (le : val → val → bool).
Context (F : nat) (hv : val → N) (ha : progpt → val → N).
(** The namespace [list_reverse] runs in. *)
Context (mns : name) (opt : bool).
Set Default Proof Using "All".
Definition rpp : progpt := "list_reverse".
Local Instance rprog : Prog := cat body pred id_elm bin_op le F hv ha.

(** A list cut at its names: [(n, xs)] is name [n] and the elements up to the next name.  The names are made with the API
    and are not of the form ["rev"·k], which [list_reverse] uses for its own cells. *)
Notation chunk := (name * list val)%type.
Definition rn (n : name) : name := name_pair (name_of_string "rev") n.
Definition good (n : name) : Prop := api_name n ∧ ∀ k, n ≠ rn k.
Definition src (n : name) : loc := Loc [] (IdNom n).
Definition img (n : name) : loc := Loc [mns] (IdNom n).
(** The accumulator cell of name [n]. *)
Definition racc (n : name) : loc := Loc [mns] (IdNom (rn n)).
Definition lnk (f : name → loc) (o : option name) : val := match o with None => v_nil | Some n => v_lname n (v_lart (f n)) end.
Definition lst (f : name → loc) (xs : list val) (o : option name) : val := foldr v_cons (lnk f o) xs.
Definition nxt (cs : list chunk) : option name := fst <$> head cs.
Definition names (cs : list chunk) : list name := cs.*1.
Definition rarg (m : name) : val := VPair (v_lart (src m)) (v_lart (racc m)).
Definition ct (m : name) : content := CThunk TyList rpp (rarg m) VUnit.
(** Elements reversed onto an accumulator. *)
Definition accum (a : val) (xs : list val) : val := foldl (λ a x, v_cons x a) a xs.
Definition accv (n : name) (xs : list val) : val := accum (v_lart (racc n)) xs.
Fixpoint stored (cs : list chunk) (σ : store) : Prop :=
  match cs with [] => True | (n, xs) :: r => σ !! src n = Some (CCell TyList (lst src xs (nxt r))) ∧ stored r σ end.
Definition free (σ : store) : Prop := ∀ n, good n →
  (σ !! img n = None ∨ σ !! img n = Some (ct n)) ∧ (σ !! racc n = None ∨ ∃ v, σ !! racc n = Some (CCell TyList v)).
Fixpoint reved (n : name) (xs : list val) (cs : list chunk) (σ : store) : store :=
  match cs with [] => σ | (m, ys) :: r => reved m ys r (<[img m := ct m]> (<[racc m := CCell TyList (accv n xs)]> σ)) end.
(** The chunks fit the recursion bound of the model. *)
Definition fits (cs : list chunk) : Prop := Forall (λ c, length c.2 + 2 ≤ F)%nat cs.
Definition goods (cs : list chunk) : Prop := Forall good (names cs).

Lemma src_img n m : src n ≠ img m. Proof. done. Qed.
Lemma src_racc n m : src n ≠ racc m. Proof. done. Qed.
Lemma img_inj n m : img n = img m → n = m. Proof. by intros [= ->]. Qed.
Lemma racc_inj n m : good n → good m → racc n = racc m → n = m.
Proof.
  intros [Hn _] [Hm _] E. assert (E1 : rn n = rn m) by (apply (f_equal l_id) in E; exact (f_equal (λ i, match i with IdNom a => a | _ => n end) E)).
  destruct C30_injective as (_ & _ & _ & Hp & _). destruct (Hp _ _ _ _ (api_string "rev") Hn (api_string "rev") Hm E1) as [_ ?]. done.
Qed.
Lemma img_racc n m : good n → img n ≠ racc m.
Proof. intros [_ Hn] E. apply (Hn m). apply (f_equal l_id) in E. exact (f_equal (λ i, match i with IdNom a => a | _ => n end) E). Qed.
Lemma lnk_inj f o o' : lnk f o = lnk f o' → o = o'. Proof. destruct o, o'; try done. by intros [= -> _]. Qed.
Lemma lst_inj f xs o xs' o' : lst f xs o = lst f xs' o' → xs = xs' ∧ o = o'.
Proof.
  revert xs'. induction xs as [|x xs IH]; intros [|x' xs'] E; [by apply lnk_inj in E as ->|by destruct o|by destruct o'|].
  injection E as -> E. by apply IH in E as [-> ->].
Qed.
Lemma accum_foldr a xs : accum a xs = foldr v_cons a (reverse xs).
Proof. unfold accum. revert a. induction xs as [|x xs IH]; intros a; [done|]. cbn [foldl]. by rewrite IH, reverse_cons, foldr_app. Qed.
Lemma conses_inj a b xs ys : (∀ x t, a ≠ v_cons x t) → (∀ x t, b ≠ v_cons x t) → foldr v_cons a xs = foldr v_cons b ys → xs = ys ∧ a = b.
Proof.
  intros Ha Hb. revert ys. induction xs as [|x xs IH]; intros [|y ys] E; simpl in E; [done|by apply Ha in E|by symmetry in E; apply Hb in E|].
  injection E as -> E. by destruct (IH _ E) as [-> ->].
Qed.
Lemma accv_inj n n' xs xs' : good n → good n' → accv n xs = accv n' xs' → n = n' ∧ xs = xs'.
Proof.
  intros Hn Hn' E. unfold accv in E. rewrite !accum_foldr in E. apply conses_inj in E as [E1 E2]; [|done|done].
  split; [|by apply (inj reverse)]. apply racc_inj; [done|done|].
  exact (f_equal (λ v, match v with VInr (VInr (VInr (VLoc l))) => l | _ => racc n end) E2).
Qed.
Lemma accv_nil n xs ys : accum v_nil ys ≠ accv n xs.
Proof. unfold accv. rewrite !accum_foldr. intros E. by apply conses_inj in E as [_ E]. Qed.
Lemma stored_mono cs σ σ' : stored cs σ → (∀ n, σ' !! src n = σ !! src n) → stored cs σ'.
Proof. intros Hs He. induction cs as [|[n xs] cs IH]; [done|]. destruct Hs as [H1 H2]. split; [by rewrite He|by apply IH]. Qed.
Lemma reved_src n xs cs σ k : reved n xs cs σ !! src k = σ !! src k.
Proof.
  revert n xs σ. induction cs as [|[m ys] cs IH]; intros n xs σ; [done|]. cbn [reved]. rewrite IH.
  rewrite lookup_insert_ne by (intros E; by apply (src_img k m)). by rewrite lookup_insert_ne by (intros E; by apply (src_racc k m)).
Qed.
Lemma free_put n v σ : good n → free σ → free (<[img n := ct n]> (<[racc n := CCell TyList v]> σ)).
Proof.
  intros Hg Hf m Hm. destruct (Hf m Hm) as [H1 H2]. split.
  - destruct (decide (img m = img n)) as [E|E]; [apply img_inj in E as ->; rewrite lookup_insert; by right|].
    rewrite lookup_insert_ne by done. rewrite lookup_insert_ne; [done|]. intros E1. by apply (img_racc m n).
  - rewrite lookup_insert_ne by (by apply img_racc). destruct (decide (racc m = racc n)) as [E|E]; [rewrite E, lookup_insert; eauto|].
    rewrite lookup_insert_ne by done. done.
Qed.
Lemma free_put_cell n v σ : good n → free σ → free (<[racc n := CCell TyList v]> σ).
Proof.
  intros Hg Hf m Hm. destruct (Hf m Hm) as [H1 H2]. split.
  - rewrite lookup_insert_ne; [done|]. intros E1. by apply (img_racc m n).
  - destruct (decide (racc m = racc n)) as [E|E]; [rewrite E, lookup_insert; eauto|]. by rewrite lookup_insert_ne.
Qed.
Lemma free_put_thunk n σ : good n → free σ → free (<[img n := ct n]> σ).
Proof.
  intros Hg Hf m Hm. destruct (Hf m Hm) as [H1 H2]. split.
  - destruct (decide (img m = img n)) as [E|E]; [apply img_inj in E as ->; rewrite lookup_insert; by right|]. by rewrite lookup_insert_ne.
  - by rewrite lookup_insert_ne by (by apply img_racc).
Qed.
Lemma goods_cons n xs cs : goods ((n, xs) :: cs) ↔ good n ∧ goods cs.
Proof. unfold goods. change (names ((n, xs) :: cs)) with (n :: names cs). by rewrite Forall_cons. Qed.
Lemma goods_in cs n : goods cs → n ∈ names cs → good n.
Proof. unfold goods. rewrite Forall_forall. auto. Qed.
Lemma reved_free n xs cs σ : goods cs → free σ → free (reved n xs cs σ).
Proof. revert n xs σ. induction cs as [|[m ys] cs IH]; intros n xs σ Hg Hf; [done|]. apply goods_cons in Hg as [Hm Hg]. by apply IH, free_put. Qed.
Lemma reved_img n xs cs σ k : good k → goods cs → reved n xs cs σ !! img k = if decide (k ∈ names cs) then Some (ct k) else σ !! img k.
Proof.
  intros Hk. revert n xs σ. induction cs as [|[m ys] cs IH]; intros n xs σ Hg; [done|]. apply goods_cons in Hg as [Hm Hg]. cbn [reved]. rewrite IH by done.
  change (names ((m, ys) :: cs)) with (m :: names cs).
  destruct (decide (k ∈ names cs)); [rewrite decide_True by set_solver; done|]. destruct (decide (k = m)) as [->|].
  - rewrite lookup_insert, decide_True by set_solver. done.
  - rewrite lookup_insert_ne by (intros E; by apply img_inj in E). rewrite lookup_insert_ne by (intros E; by apply (img_racc k m)).
    rewrite decide_False by set_solver. done.
Qed.
Lemma reved_racc_out n xs cs σ k : good k → goods cs → k ∉ names cs → reved n xs cs σ !! racc k = σ !! racc k.
Proof.
  intros Hk. revert n xs σ. induction cs as [|[m ys] cs IH]; intros n xs σ Hg Hn; [done|]. apply goods_cons in Hg as [Hm Hg].
  change (names ((m, ys) :: cs)) with (m :: names cs) in Hn. cbn [reved]. rewrite IH by (done || set_solver).
  rewrite lookup_insert_ne by (by apply img_racc). rewrite lookup_insert_ne; [done|]. intros E. apply racc_inj in E as ->; [set_solver|done..].
Qed.
Lemma reved_racc_in cs1 n xs cs σ k ys m zs r : goods cs → NoDup (names cs) → (n, xs) :: cs = cs1 ++ (k, ys) :: (m, zs) :: r →
  reved n xs cs σ !! racc m = Some (CCell TyList (accv k ys)).
Proof.
  revert n xs cs σ. induction cs1 as [|[n1 xs1] cs1 IH]; intros n xs cs σ Hg Hnd Heq.
  - injection Heq as -> -> ->. apply goods_cons in Hg as [Hm Hg]. apply NoDup_cons in Hnd as [Hnin _]. cbn [reved].
    rewrite reved_racc_out by done. rewrite lookup_insert_ne by (by apply img_racc). by rewrite lookup_insert.
  - injection Heq as -> -> ->. destruct cs1 as [|[n2 xs2] cs1]; cbn [app reved] in *.
    + apply goods_cons in Hg as [_ Hg]. apply NoDup_cons in Hnd as [_ Hnd]. by apply (IH k ys ((m, zs) :: r)).
    + apply goods_cons in Hg as [_ Hg]. apply NoDup_cons in Hnd as [_ Hnd]. by apply (IH n2 xs2 (cs1 ++ (k, ys) :: (m, zs) :: r)).
Qed.

(** ** What the function does on one chunk *)
Definition tailc (o : option name) (a : val) : comp :=
  match o with
  | None => Ret a
  | Some m => Cell TyList (rn m) a (λ c, eager_m TyList m rpp (VPair (v_lart (src m)) (v_lart c)) VUnit (λ t _, Ret (v_lname m (v_lart t))))
  end.
(** One step of the function, by its eliminator. *)
Definition elim (G F' : nat) (a v : val) : comp :=
  l_elim G v (Ret a) (λ x tl, c_reverse F' tl (v_cons x a))
    (λ n tl, Cell TyList (rn n) a (λ c, eager_m TyList n rpp (VPair tl (v_lart c)) VUnit (λ t _, Ret (v_lname n (v_lart t))))).
Lemma rev_S G v a : c_reverse (S G) v a = elim G G a v.
Proof. done. Qed.
Lemma elim_cons G F' x v a : elim G F' a (v_cons x v) = c_reverse F' v (v_cons x a).
Proof. unfold elim. by destruct G. Qed.
Lemma rev_chunk G xs o a : (length xs + 1 ≤ G)%nat → c_reverse G (lst src xs o) a = tailc o (accum a xs).
Proof.
  revert G a. induction xs as [|x xs IH]; intros [|G] a HG; simpl in HG; try lia; rewrite rev_S; [by destruct o, G|].
  change (lst src (x :: xs) o) with (v_cons x (lst src xs o)). rewrite elim_cons, IH by lia. done.
Qed.
Lemma rev_art G l a : c_reverse (S (S G)) (v_lart l) a = Force TyList (ALoc l) None (λ v, elim G (S G) a v).
Proof. done. Qed.
Lemma elim_chunk G xs o a : (length xs ≤ G)%nat → elim G (S G) a (lst src xs o) = tailc o (accum a xs).
Proof.
  intros HG. destruct xs as [|x xs]; [destruct G; by destruct o|]. simpl in HG.
  change (lst src (x :: xs) o) with (v_cons x (lst src xs o)). rewrite elim_cons, rev_chunk by lia. done.
Qed.
Lemma code_rpp m : code rpp (rarg m) VUnit = c_reverse F (v_lart (src m)) (v_lart (racc m)).
Proof. done. Qed.

(** The answer of thunk [n], with elements [xs] and the rest [cs] behind it. *)
Definition out (n : name) (xs : list val) (cs : list chunk) : val :=
  match cs with [] => accv n xs | (m, _) :: _ => v_lname m (v_lart (img m)) end.

(** ** The demand obeys the discipline *)
Lemma rev_disciplined cs n xs stk p :
  fits ((n, xs) :: cs) → goods ((n, xs) :: cs) → NoDup (n :: names cs) → stored ((n, xs) :: cs) (d_store p) → free (d_store p) →
  d_store p !! img n = Some (ct n) → (∀ m, m ∈ names cs → racc m ∉ d_seen p) →
  (∀ x, head stk = Some x → is_struct x = false) → (∀ m, m ∈ n :: names cs → img m ∉ stk) →
  ∃ p', d_force opt false (S (length cs)) stk false TyList (img n) p = Some (out n xs cs, p') ∧ d_store p' = reved n xs cs (d_store p).
Proof.
  revert n xs stk p. induction cs as [|[m ys] cs IH]; intros n xs stk p Hfit Hgd Hnd [Hc Hst] Hfr Hn Hseen Hstk Hni.
  - apply Forall_cons in Hfit as [HF _]. simpl in HF. destruct F as [|[|G]] eqn:EF; [lia..|].
    cbn [d_force]. rewrite Hn. unfold ct at 1. rewrite decide_True by (split_and!; [done|apply Hni; by left|done|by apply s6_nominal]).
    rewrite code_rpp. rewrite EF, rev_art.
    cbn [Discipline.d_run d_art l_path img]. unfold dbind at 1. rewrite (d_cell_step _ _ _ _ _ _ _ (lst src xs None)) by done.
    unfold d_get at 1. rewrite s6_nominal by (by intros ? [= <-]). rewrite bool_decide_true by set_solver. cbn [andb].
    rewrite elim_chunk by lia. cbn [tailc]. eexists. split; [reflexivity|]. by destruct stk.
  - apply Forall_cons in Hfit as [HF Hfit]. simpl in HF. destruct F as [|[|G]] eqn:EF; [lia..|]. rewrite <- EF in *.
    apply goods_cons in Hgd as [Hgn Hgd]. assert (Hgm := proj1 (proj1 (goods_cons _ _ _) Hgd)).
    cbn [d_force]. rewrite Hn. unfold ct at 1. rewrite decide_True by (split_and!; [done|apply Hni; by left|done|by apply s6_nominal]).
    rewrite code_rpp. rewrite EF, rev_art.
    cbn [Discipline.d_run d_art l_path img]. unfold dbind at 1. rewrite (d_cell_step _ _ _ _ _ _ _ (lst src xs (Some m))) by done.
    unfold d_get at 1. rewrite s6_nominal by (by intros ? [= <-]). rewrite bool_decide_true by set_solver. cbn [andb].
    rewrite elim_chunk by lia. cbn [tailc].
    assert (n ≠ m ∧ n ∉ names cs ∧ m ∉ names cs) as (Hnm & Hncs & Hmcs).
    { apply NoDup_cons in Hnd as [Hnd1 Hnd2]. apply NoDup_cons in Hnd2 as [Hnd2 _]. change (names ((m, ys) :: cs)) with (m :: names cs) in Hnd1. set_solver. }
    change (names ((m, ys) :: cs)) with (m :: names cs) in *.
    cbn [Discipline.d_run]. unfold dbind at 1. unfold d_cell. fold (racc m) (accv n xs).
    rewrite d_cell_over; [|by intros ? [= <-]|done|intros E; apply (inj Some) in E; by apply (img_racc n m)|by apply Hfr|].
    2:{ cbn [d_seen d_observe]. intros Hin. apply elem_of_union in Hin as [Hin|Hin]; [apply elem_of_singleton in Hin; by apply (src_racc n m)|].
        apply elem_of_union in Hin as [Hin|Hin]; [apply elem_of_singleton in Hin; by apply (img_racc n m)|]. apply (Hseen m); [by left|done]. }
    set (p0 := d_write _ _ _ _). unfold eager_m.
    cbn [Discipline.d_run d_thunk]. unfold dbind at 1. fold (img m) (rarg m) rpp. fold (ct m).
    rewrite d_alloc_same; [|by intros ? [= <-]| |done|].
    3:{ intros [= E]. done. }
    2:{ subst p0. cbn [d_store d_write d_observe]. rewrite lookup_insert_ne by (intros E; by apply (img_racc m m)). exact (proj1 (Hfr m Hgm)). }
    set (p1 := d_write _ _ _ _).
    cbn [Discipline.d_run d_art]. unfold dbind at 1.
    destruct (IH m ys (img n :: stk) p1) as (p2 & E2 & Hp2).
    { done. }
    { done. }
    { by apply NoDup_cons in Hnd as [_ Hnd]. }
    { subst p1 p0. cbn [d_store d_write d_observe]. eapply stored_mono; [exact Hst|]. intros k. rewrite lookup_insert_ne by (intros E; by apply (src_img k m)).
      by rewrite lookup_insert_ne by (intros E; by apply (src_racc k m)). }
    { subst p1 p0. cbn [d_store d_write d_observe]. by apply free_put. }
    { subst p1. cbn [d_store d_write d_observe]. by rewrite lookup_insert. }
    { intros k Hk Hin. subst p1 p0. cbn [d_seen d_write d_observe] in Hin. assert (good k) as Hgk by (apply (goods_in _ _ Hgd); by right).
      rewrite !elem_of_union, !elem_of_singleton in Hin. destruct Hin as [E|[E|[E|[E|Hin]]]].
      - symmetry in E. by apply (img_racc m k).
      - apply racc_inj in E as ->; done.
      - symmetry in E. by apply (src_racc n k).
      - symmetry in E. by apply (img_racc n k).
      - apply (Hseen k); [by right|done]. }
    { by intros ? [= <-]. }
    { intros k Hk Hin. apply elem_of_cons in Hin as [E|Hin]; [apply img_inj in E as ->; set_solver|]. apply (Hni k); [by right|done]. }
    change (length ((m, ys) :: cs)) with (S (length cs)). rewrite E2. eexists. split; [reflexivity|].
    destruct stk; cbn [d_store d_leave d_init]; by rewrite Hp2.
Qed.

Lemma rev_ref cs n xs stk st :
  fits ((n, xs) :: cs) → goods ((n, xs) :: cs) → NoDup (n :: names cs) → stored ((n, xs) :: cs) (r_store st) → free (r_store st) →
  r_store st !! img n = Some (ct n) → (∀ m, m ∈ n :: names cs → img m ∉ stk) →
  ref_force (S (length cs)) stk false TyList (img n) None st =
    ROk (out n xs cs) (RState (reved n xs cs (r_store st)) (reverse (img <$> n :: names cs) ++ r_log st)).
Proof.
  revert n xs stk st. induction cs as [|[m ys] cs IH]; intros n xs stk st Hfit Hgd Hnd [Hc Hst] Hfr Hn Hni.
  - apply Forall_cons in Hfit as [HF _]. simpl in HF. destruct F as [|[|G]] eqn:EF; [lia..|].
    erewrite ref_thunk_step; [|exact Hn|apply Hni; by left].
    rewrite code_rpp. rewrite EF, rev_art.
    cbn [ref_run ref_art]. unfold rbind at 1. erewrite ref_cell_step; [|exact Hc]. cbv beta iota. rewrite elim_chunk by lia.
    cbn [tailc nxt head fmap option_fmap option_map]. done.
  - apply Forall_cons in Hfit as [HF Hfit]. simpl in HF. destruct F as [|[|G]] eqn:EF; [lia..|]. rewrite <- EF in *.
    apply goods_cons in Hgd as [Hgn Hgd]. assert (Hgm := proj1 (proj1 (goods_cons _ _ _) Hgd)).
    erewrite ref_thunk_step; [|exact Hn|apply Hni; by left].
    rewrite code_rpp. rewrite EF, rev_art.
    cbn [ref_run ref_art]. unfold rbind at 1. erewrite ref_cell_step; [|exact Hc]. cbv beta iota. rewrite elim_chunk by lia.
    change (tailc (nxt ((m, ys) :: cs))) with (tailc (Some m)). cbn [tailc]. cbn [ref_run]. unfold rbind at 1. cbn [l_path img].
    rewrite ref_cell_nominal by (by apply Hfr). cbv beta iota. cbn [r_store r_log]. fold (racc m) (accv n xs). unfold eager_m. cbn [ref_run]. unfold rbind at 1.
    rewrite ref_thunk_nominal.
    2:{ cbn [r_store]. fold (img m) (rarg m) rpp. fold (ct m). rewrite lookup_insert_ne by (intros E; by apply (img_racc m m)). exact (proj1 (Hfr m Hgm)). }
    cbv beta iota. cbn [r_store r_log]. fold (img m) (rarg m) rpp. fold (ct m).
    cbn [ref_run ref_art]. unfold rbind at 1.
    change (length ((m, ys) :: cs)) with (S (length cs)).
    rewrite (IH m ys); cbn [r_store r_log].
    { cbn [ref_run]. f_equal. f_equal. change (names ((m, ys) :: cs)) with (m :: names cs).
      rewrite !fmap_cons, !reverse_cons, <- !(assoc_L (++)). done. }
    { done. }
    { done. }
    { by apply NoDup_cons in Hnd as [_ Hnd]. }
    { eapply stored_mono; [exact Hst|]. intros k. rewrite lookup_insert_ne by (intros E; by apply (src_img k m)).
      by rewrite lookup_insert_ne by (intros E; by apply (src_racc k m)). }
    { by apply free_put. }
    { by rewrite lookup_insert. }
    { apply NoDup_cons in Hnd as [Hnd _]. intros k Hk Hin. apply elem_of_cons in Hin as [E|Hin]; [apply img_inj in E as ->; done|]. apply (Hni k); [by right|done]. }
Qed.

(** ** What a thunk has recorded *)
(** What a thunk depends on: its elements; and, if there is a next name, that name and what the next thunk answers: the
    name after it, or its elements if it is the last. *)
Definition view : Type := list val * option (name * (list val + name)).
Definition tail_of (ys : list val) (r : list chunk) : list val + name := match r with [] => inl ys | (m2, _) :: _ => inr m2 end.
Definition view_of (xs : list val) (cs : list chunk) : view :=
  (xs, match cs with [] => None | (m, ys) :: r => Some (m, tail_of ys r) end).
Definition answer (m : name) (tv : list val + name) : val := match tv with inl ys => accv m ys | inr m2 => v_lname m2 (v_lart (img m2)) end.
Definition E_of (n : name) (vw : view) : list eshape :=
  (src n, Observe, DForce TyList (lst src vw.1 (fst <$> vw.2))) ::
  match vw.2 with
  | None => []
  | Some (m, tv) => [(racc m, Allocate, DAllocCell (accv n vw.1)); (img m, Allocate, DAllocThunk (rarg m)); (img m, Observe, DForce TyList (answer m tv))]
  end.
Definition val_of (n : name) (vw : view) : val := match vw.2 with None => accv n vw.1 | Some (m, _) => v_lname m (v_lart (img m)) end.
Lemma view_next xs cs : fst <$> (view_of xs cs).2 = nxt cs.
Proof. by destruct cs as [|[m ys] r]. Qed.
Lemma val_out n xs cs : val_of n (view_of xs cs) = out n xs cs.
Proof. by destruct cs as [|[m ys] r]. Qed.
Lemma answer_out m ys r : answer m (tail_of ys r) = out m ys r.
Proof. by destruct r as [|[m2 ys2] r]. Qed.
Lemma answer_inj m tv tv' : good m → answer m tv = answer m tv' → tv = tv'.
Proof.
  intros Hm. destruct tv as [ys|k], tv' as [ys'|k']; cbn [answer]; intros E.
  - by apply accv_inj in E as [_ ->].
  - exfalso. unfold accv in E. rewrite accum_foldr in E. by destruct (reverse ys).
  - exfalso. unfold accv in E. rewrite accum_foldr in E. by destruct (reverse ys').
  - by injection E as -> _.
Qed.

Lemma chunk_recorded cs n xs v s : reached opt false s → fits ((n, xs) :: cs) → goods ((n, xs) :: cs) → stored ((n, xs) :: cs) (holds s) →
  (∀ m, m ∈ n :: names cs → holds s !! img m = Some (ct m)) → up_to_date s TyList (img n) v →
  ∀ cs1 k ys r, (n, xs) :: cs = cs1 ++ (k, ys) :: r →
    recorded s (img k) (E_of k (view_of ys r)) (out k ys r) ∧ up_to_date s TyList (img k) (out k ys r).
Proof.
  intros Hs. revert n xs v. induction cs as [|[m ys] cs IH]; intros n xs v Hfit Hgd [Hc Hst] Hct Hu cs1 k zs r Heq.
  - assert (cs1 = [] ∧ k = n ∧ zs = xs ∧ r = []) as (-> & -> & -> & ->).
    { destruct cs1 as [|? [|]]; simpl in Heq; try discriminate Heq. by injection Heq as <- <- <-. }
    apply Forall_cons in Hfit as [HF _]. simpl in HF.
    assert (Hi := reached_inv _ _ _ Hs). assert (Hn := Hct n ltac:(by left)).
    destruct (comp_at _ _ _ _ _ _ Hn) as (c & Hcn & _ & Pp & Pa & Ps). assert (Hu' := Hu). unfold up_to_date in Hu'. rewrite Hcn in Hu'. destruct Hu' as (_ & Rc & Cc).
    assert (T := i_tr _ _ _ _ Hi _ _ _ Hcn ltac:(set_solver) Rc). rewrite Pp, Pa, Ps in T.
    rewrite code_rpp in T.
    destruct F as [|[|G]] eqn:EF; [lia..|]. rewrite rev_art in T.
    apply tr_force_nominal in T as (w1 & E1 & S1 & T); [|done|by eapply not_pure|set_solver].
    assert (w1 = lst src xs None) as ->.
    { destruct (up_saw opt false s (img n) TyList v (src n) TyList (λ u, u) w1 Hs Hu) as (v1 & G1 & <-).
      - assert (recorded s (img n) (shape <$> c_succs c) v) as Hrec by (by exists c). eapply rec_saw_r; [exact Hrec|rewrite S1; by left].
      - by rewrite (gives_fun _ _ _ _ _ G1 (cell_is _ _ _ _ _ _ Hs Hc)). }
    rewrite elim_chunk in T by lia. cbn [tailc] in T. apply Switch.tr_ret in T as [-> ->].
    split; [|done]. exists c. done.
  - assert (Hfit' := Hfit). apply Forall_cons in Hfit as [HF Hfit]. simpl in HF.
    apply goods_cons in Hgd as [Hgn Hgd]. assert (Hgm := proj1 (proj1 (goods_cons _ _ _) Hgd)).
    assert (Hi := reached_inv _ _ _ Hs). assert (Hn := Hct n ltac:(by left)).
    destruct (comp_at _ _ _ _ _ _ Hn) as (c & Hcn & _ & Pp & Pa & Ps). assert (Hu' := Hu). unfold up_to_date in Hu'. rewrite Hcn in Hu'. destruct Hu' as (_ & Rc & Cc).
    assert (T := i_tr _ _ _ _ Hi _ _ _ Hcn ltac:(set_solver) Rc). rewrite Pp, Pa, Ps in T.
    rewrite code_rpp in T.
    destruct F as [|[|G]] eqn:EF; [lia..|]. rewrite <- EF in *. rewrite EF, rev_art in T.
    apply tr_force_nominal in T as (w1 & E1 & S1 & T); [|done|by eapply not_pure|set_solver].
    assert (w1 = lst src xs (Some m)) as ->.
    { destruct (up_saw opt false s (img n) TyList v (src n) TyList (λ u, u) w1 Hs Hu) as (v1 & G1 & <-).
      - assert (recorded s (img n) (shape <$> c_succs c) v) as Hrec by (by exists c). eapply rec_saw_r; [exact Hrec|rewrite S1; by left].
      - by rewrite (gives_fun _ _ _ _ _ G1 (cell_is _ _ _ _ _ _ Hs Hc)). }
    rewrite elim_chunk in T by lia. cbn [tailc] in T. cbn [l_path img] in T.
    apply tr_cell_nominal in T as (E0 & -> & T); [|by eapply not_pure]. fold (racc m) (accv n xs) in T, S1. unfold eager_m in T.
    apply tr_thunk_nominal in T as (E2 & -> & T). fold (img m) (rarg m) in T, S1.
    apply tr_force_nominal in T as (w2 & E3 & -> & T); [|done|by eapply not_pure|].
    2:{ intros d. cbn [app]. rewrite !elem_of_cons, elem_of_nil. intros [E|[E|[E|[]]]]; [by apply (f_equal (fst ∘ fst)) in E; cbn in E; symmetry in E; by apply (src_img n m)|by apply (f_equal (snd ∘ fst)) in E..]. }
    apply Switch.tr_ret in T as [-> Hv].
    assert (up_to_date s TyList (img m) w2) as Hum.
    { assert (∃ e, e ∈ c_succs c ∧ shape e = (img m, Observe, DForce TyList w2)) as (e & He & Hse).
      { assert ((img m, Observe, DForce TyList w2) ∈ shape <$> c_succs c) as (e & ? & ?)%elem_of_list_fmap by (rewrite S1; do 3 right; by left). by exists e. }
      assert (Hvv := i_valid _ _ _ _ Hi _ _ _ Hcn He (Cc _ He)). rewrite Hse in Hvv. unfold valid in Hvv. cbn [sh_dep sh_loc snd fst] in Hvv.
      destruct (comp_at _ _ _ _ _ _ (Hct m ltac:(right; by left))) as (cm & Hcm & Ht & _). rewrite Hcm in Hvv. unfold up_to_date. rewrite Hcm. destruct Hvv as (? & ? & _). done. }
    specialize (IH m ys w2 Hfit Hgd Hst ltac:(intros; apply Hct; by right) Hum).
    destruct cs1 as [|c1 cs1].
    + injection Heq as <- <- <-. destruct (IH [] m ys cs eq_refl) as [_ Hum2].
      assert (w2 = out m ys cs) as ->.
      { destruct (reached_idle _ _ _ Hs) as [Hstk _]. eapply gives_fun; by apply up_to_date_gives. }
      split; [|by rewrite Hv in Hu]. exists c. split; [done|]. split; [|by rewrite Rc, Hv]. rewrite S1. unfold E_of, view_of. cbn [fst snd fmap option_fmap option_map].
      by rewrite answer_out.
    + injection Heq as <- Heq. by eapply IH.
Qed.

(** ** The state between two rounds *)
(** [last n]: what thunk [n] was last computed from; [None] if it was never computed, or if its accumulator cell for the next
    name has been overwritten since. *)
Record known (last : name → option view) (s : dcg) : Prop := {
  k_reached : reached opt false s;
  k_cells : ∀ n, holds s !! src n = None ∨ ∃ v, holds s !! src n = Some (CCell TyList v);
  k_free : free (holds s);
  k_rec : ∀ n, good n → match last n with
    | None => ¬ evaluated s (img n) ∨ ∃ y, disturbed s (img n) y
    | Some vw => recorded s (img n) (E_of n vw) (val_of n vw) ∧ (∀ y, ¬ disturbed s (img n) y) ∧ ∀ m tv, vw.2 = Some (m, tv) → good m
    end;
}.
(** The thunks that run when the list [cs] is reversed ... *)
Fixpoint reruns (last : name → option view) (cs : list chunk) : list name :=
  match cs with
  | [] => []
  | (n, xs) :: r => (if decide (last n = Some (view_of xs r)) then [] else [n]) ++ reruns last r
  end.
(** ... and what is known afterwards: the thunks of [cs] were computed for [cs], and others whose next name is in [cs] have
    had their accumulator cell overwritten. *)
Fixpoint assoc (cs : list chunk) (k : name) : option view :=
  match cs with [] => None | (n, xs) :: r => if decide (k = n) then Some (view_of xs r) else assoc r k end.
Definition spoil (last : name → option view) (js : list name) (k : name) : option view :=
  match last k with
  | Some (xs, Some (j, tv)) => if decide (j ∈ js) then None else last k
  | o => o
  end.
Definition note_with (last : name → option view) (cs : list chunk) (js : list name) (k : name) : option view :=
  match assoc cs k with Some vw => Some vw | None => spoil last js k end.
Definition note (last : name → option view) (cs : list chunk) : name → option view := note_with last cs (names cs).

Lemma known_ext last last' s : (∀ k, last k = last' k) → known last s → known last' s.
Proof. intros He [H1 H2 H3 H4]. split; [done..|]. intros n Hn. rewrite <- He. by apply H4. Qed.
Lemma reruns_in last cs m : NoDup (names cs) → m ∈ reruns last cs ↔ ∃ cs1 xs r, cs = cs1 ++ (m, xs) :: r ∧ last m ≠ Some (view_of xs r).
Proof.
  induction cs as [|[n xs] cs IH]; intros Hnd.
  { split; [by intros ?%elem_of_nil|]. intros ([|] & ? & ? & ? & _); discriminate. }
  apply NoDup_cons in Hnd as [Hn Hnd]. cbn [reruns]. rewrite elem_of_app, (IH Hnd). split.
  - intros [Hin|(cs1 & ys & r & -> & Hne)]; [|by exists ((n, xs) :: cs1), ys, r].
    destruct (decide _) as [|Hne]; [by apply elem_of_nil in Hin|]. apply elem_of_list_singleton in Hin as ->. by exists [], xs, cs.
  - intros ([|c cs1] & ys & r & Heq & Hne); [injection Heq as -> -> ->; left; by rewrite decide_False; [left|]|].
    right. injection Heq as _ ->. by exists cs1, ys, r.
Qed.
Lemma reruns_names last cs m : m ∈ reruns last cs → m ∈ names cs.
Proof.
  induction cs as [|[n xs] cs IH]; [done|]. cbn [reruns]. change (names ((n, xs) :: cs)) with (n :: names cs).
  rewrite elem_of_app, elem_of_cons. intros [Hin|Hin]; [|by right; apply IH]. left. destruct (decide _); [by apply elem_of_nil in Hin|by apply elem_of_list_singleton in Hin].
Qed.
Lemma reruns_nodup last cs : NoDup (names cs) → NoDup (reruns last cs).
Proof.
  induction cs as [|[n xs] cs IH]; [constructor|]. intros [Hn Hnd]%NoDup_cons. cbn [reruns]. destruct (decide _); [by apply IH|].
  apply NoDup_cons. split; [|by apply IH]. by intros Hin%reruns_names.
Qed.
Lemma assoc_in cs cs1 m xs r : NoDup (names cs) → cs = cs1 ++ (m, xs) :: r → assoc cs m = Some (view_of xs r).
Proof.
  revert cs1. induction cs as [|[n ys] cs IH]; intros cs1 Hnd Heq; [by destruct cs1|]. apply NoDup_cons in Hnd as [Hn Hnd]. cbn [assoc].
  destruct cs1 as [|c cs1]; [injection Heq as -> -> ->; by rewrite decide_True|]. injection Heq as _ ->. rewrite decide_False; [by eapply IH|].
  intros ->. apply Hn. apply elem_of_list_fmap. exists (n, xs). split; [done|]. apply elem_of_app. right. by left.
Qed.
Lemma assoc_out cs m : m ∉ names cs → assoc cs m = None.
Proof.
  induction cs as [|[n ys] cs IH]; [done|]. change (names ((n, ys) :: cs)) with (n :: names cs). intros Hm. cbn [assoc].
  rewrite decide_False by set_solver. apply IH. set_solver.
Qed.
Lemma note_in last cs js cs1 m xs r : NoDup (names cs) → cs = cs1 ++ (m, xs) :: r → note_with last cs js m = Some (view_of xs r).
Proof. intros Hnd Heq. unfold note_with. by rewrite (assoc_in cs cs1 m xs r). Qed.
Lemma note_out last cs js m : m ∉ names cs → note_with last cs js m = spoil last js m.
Proof. intros Hm. unfold note_with. by rewrite assoc_out. Qed.
Lemma names_split cs m : m ∈ names cs → ∃ cs1 xs r, cs = cs1 ++ (m, xs) :: r.
Proof. intros ([m' xs] & -> & Hin)%elem_of_list_fmap. apply elem_of_list_split in Hin as (cs1 & r & ->). by exists cs1, xs, r. Qed.
Lemma stored_at cs σ cs1 m xs r : stored cs σ → cs = cs1 ++ (m, xs) :: r → σ !! src m = Some (CCell TyList (lst src xs (nxt r))).
Proof. revert cs. induction cs1 as [|[n ys] cs1 IH]; intros cs Hs ->; [apply Hs|]. destruct Hs as [_ Hs]. by eapply IH. Qed.
(** An accumulator cell holds what its thunk wrote, unless the thunk's edge to it is dirty. *)
Lemma wrote n vw w s m tv : reached opt false s → free (holds s) → good m → recorded s (img n) (E_of n vw) w → vw.2 = Some (m, tv) →
  disturbed s (img n) (racc m) ∨ holds s !! racc m = Some (CCell TyList (accv n vw.1)).
Proof.
  intros Hs Hfr Hm (c & Hc & HE & Hw) Hv. assert (Hi := reached_inv _ _ _ Hs).
  assert ((racc m, Allocate, DAllocCell (accv n vw.1)) ∈ shape <$> c_succs c) as (e & Hse & He)%elem_of_list_fmap.
  { rewrite HE. unfold E_of. rewrite Hv. right. by left. }
  destruct (bit_elem e _ He) as (b & Hb). assert (Hve := i_valid _ _ _ _ Hi _ _ _ Hc He).
  destruct (i_edge _ _ _ _ Hi _ _ _ Hc He) as [Hwf _].
  rewrite <- Hse in Hve, Hwf. injection Hse as E1 E2 E3. rewrite <- E1, <- E2 in Hb, Hve. destruct b; [left; by exists c|right]. specialize (Hve Hb).
  unfold valid in Hve. unfold wfe in Hwf. cbn [sh_loc sh_dep sh_eff fst snd] in Hve, Hwf. destruct Hwf as (_ & t & ps & v0 & Htb). rewrite Htb in Hve.
  destruct (proj2 (Hfr m Hm)) as [E|[v1 E]]; unfold holds in *; rewrite contents_lookup, Htb in *; [done|]. simpl in *. injection E as -> ->. by rewrite Hve.
Qed.
(** What a thunk has allocated, a recorded thunk's cells and thunks are there. *)
Lemma made_there n vw w s y : reached opt false s → recorded s (img n) (E_of n vw) w → made s (img n) y → holds s !! y ≠ None.
Proof.
  intros Hs Hr Hmd E. assert (Hi := reached_inv _ _ _ Hs). destruct Hmd as (c & e1 & Hc & He & Ha & Hl).
  destruct (i_edge _ _ _ _ Hi _ _ _ Hc He) as [Hw _]. unfold wfe in Hw.
  change (sh_loc (shape e1)) with (s_loc e1) in Hw. change (sh_eff (shape e1)) with (s_eff e1) in Hw. change (sh_dep (shape e1)) with (s_dep e1) in Hw.
  rewrite Hl in Hw. unfold holds in E. rewrite contents_lookup in E. destruct (table s !! y) eqn:Em; [done|]. rewrite Ha in Hw.
  destruct (s_dep e1); naive_solver.
Qed.
Lemma disturbed_made s x y : disturbed s x y → made s x y.
Proof. intros (c & Hc & Hb). destruct (bit_Some _ _ _ _ Hb) as (e & He & E1 & E2). by exists c, e. Qed.
Lemma made_which n vw w s y : recorded s (img n) (E_of n vw) w → made s (img n) y → ∃ m tv, vw.2 = Some (m, tv) ∧ (y = racc m ∨ y = img m).
Proof.
  intros Hr Hmd. destruct (rec_made _ _ _ _ _ Hr Hmd) as (d & Hi). unfold E_of in Hi.
  apply elem_of_cons in Hi as [Hi|Hi]; [done|]. destruct vw.2 as [[m tv]|]; [|by apply elem_of_nil in Hi]. exists m, tv. split; [done|].
  rewrite !elem_of_cons, elem_of_nil in Hi. destruct Hi as [Hi|[Hi|[Hi|[]]]]; [left|right|done]; exact (f_equal (fst ∘ fst) Hi).
Qed.

(** The demand of the first thunk. *)
Lemma rev_demand last n xs cs s :
  known last s → fits ((n, xs) :: cs) → goods ((n, xs) :: cs) → NoDup (names ((n, xs) :: cs)) → stored ((n, xs) :: cs) (holds s) → holds s !! img n = Some (ct n) →
  ∃ s' rs, demand TyList (img n) s (out n xs cs) s' ∧ runs s' = rs ++ runs s ∧
    rs ≡ₚ img <$> reruns last ((n, xs) :: cs) ∧ known (note_with last ((n, xs) :: cs) (names cs)) s' ∧ holds s' = reved n xs cs (holds s) ∧
    ∀ cs1 k ys r, (n, xs) :: cs = cs1 ++ (k, ys) :: r → gives s' TyList (img k) (out k ys r).
Proof.
  intros [Hs Hcl Hfr Hrec] Hfit Hgd Hnd Hst Hn. set (cs0 := (n, xs) :: cs) in *.
  assert (Hgd1 := proj1 (goods_cons n xs cs) Hgd). destruct Hgd1 as [Hgn Hgd1].
  assert (Hnd1 : NoDup (names cs)) by (by apply NoDup_cons in Hnd as [_ ?]).
  assert (Hns : ∀ m, m ∈ n :: names cs → img m ∉ @nil loc) by (intros m _; set_solver).
  assert (Hdd : disciplined_demand opt false TyList (img n) (holds s)).
  { destruct (rev_disciplined cs n xs [] (d_init (holds s)) Hfit Hgd Hnd Hst Hfr Hn) as (p' & E & _); [|done|done|]; [set_solver|]. by eexists _, _, _. }
  assert (Hfs : demand_from_scratch false TyList (img n) (holds s) (out n xs cs) (reved n xs cs (holds s)) (reverse (img <$> n :: names cs))).
  { exists (S (length cs)). rewrite (rev_ref cs n xs [] (RState (holds s) []) Hfit Hgd Hnd Hst Hfr Hn Hns). cbn [r_store r_log]. by rewrite app_nil_r. }
  destruct (demand_after_history opt false s TyList (img n) Hs Hdd) as (v & σ' & lg0 & s' & rs0 & Hfs0 & Hdem & Hh & _).
  destruct (demand_from_scratch_functional _ _ _ _ _ _ _ _ _ _ Hfs0 Hfs) as (-> & -> & ->). clear Hfs0 rs0.
  assert (Hdem' := Hdem). destruct Hdem' as (K & HK). assert (HfK := HK K ltac:(lia)).
  set (v := out n xs cs) in *.
  destruct (demand_up_to_date opt false s TyList (img n) K v s' Hs Hdd HfK) as [Hu Hs'].
  destruct (demand_exact opt false s TyList (img n) v s' K Hs Hdd HfK) as (lg1 & rs1 & _ & Hrs1 & _ & _ & _ & Hun & _).
  destruct (C62_runs_exactly opt false s TyList (img n) v s' K Hs Hdd HfK) as (lg & rs & Hlg & Hrs & Hndr & Hx).
  destruct (demand_justified opt false s TyList (img n) v s' K Hs Hdd HfK) as (rs2 & Hrs2 & _ & Hrm).
  rewrite Hrs in Hrs1, Hrs2. apply app_inv_tail in Hrs1 as <-. apply app_inv_tail in Hrs2 as <-.
  rewrite Hh in Hlg. destruct (demand_from_scratch_functional _ _ _ _ _ _ _ _ _ _ Hlg Hfs) as (_ & _ & ->). clear Hlg.
  assert (Hlgin : ∀ x, x ∈ reverse (img <$> n :: names cs) ↔ ∃ m, m ∈ names cs0 ∧ x = img m).
  { intros x. rewrite elem_of_reverse, elem_of_list_fmap. change (names cs0) with (n :: names cs). naive_solver. }
  assert (Hfr' : free (holds s')) by (rewrite Hh; by apply reved_free).
  assert (Hst' : stored cs0 (holds s')). { rewrite Hh. eapply stored_mono; [exact Hst|]. intros k. apply reved_src. }
  assert (Hct' : ∀ m, m ∈ names cs0 → holds s' !! img m = Some (ct m)).
  { intros m Hm. rewrite Hh, reved_img by (done || by apply (goods_in cs0)). destruct (decide (m ∈ names cs)); [done|]. change (names cs0) with (n :: names cs) in Hm.
    apply elem_of_cons in Hm as [->|]; done. }
  assert (Hall := chunk_recorded cs n xs v s' Hs' Hfit Hgd Hst' Hct' Hu). fold cs0 in Hall.
  destruct (reached_idle _ _ _ Hs') as [Hstk' _].
  assert (Hg : ∀ cs1 k ys r, cs0 = cs1 ++ (k, ys) :: r → gives s' TyList (img k) (out k ys r)).
  { intros cs1 k ys r Heq. destruct (Hall _ _ _ _ Heq) as [_ Huk]. by apply up_to_date_gives in Huk. }
  assert (Hgc : ∀ cs1 k ys r, cs0 = cs1 ++ (k, ys) :: r → gives s' TyList (src k) (lst src ys (nxt r))).
  { intros cs1 k ys r Heq. eapply cell_is; [exact Hs'|]. by eapply stored_at. }
  assert (Hsame : ∀ m, good m → holds s !! img m ≠ None → holds s' !! img m = holds s !! img m).
  { intros m Hm Hne. rewrite Hh, reved_img by done. destruct (decide (m ∈ names cs)); [|done]. by destruct (proj1 (Hfr m Hm)) as [E|E]. }
  assert (Hthere : ∀ m c0, table s !! img m = Some (NComp c0) → holds s !! img m ≠ None).
  { intros m c0 Hc0 E. unfold holds in E. rewrite contents_lookup, Hc0 in E. done. }
  assert (Hin0 : ∀ cs1 (k : name) (ys : list val) (r : list chunk), cs0 = cs1 ++ (k, ys) :: r → k ∈ names cs0).
  { intros cs1 k ys r ->. apply elem_of_list_fmap. exists (k, ys). split; [done|]. apply elem_of_app. right. by left. }
  assert (Hmust : ∀ cs1 k ys r, cs0 = cs1 ++ (k, ys) :: r → must_run s s' (img k) ↔ last k ≠ Some (view_of ys r)).
  { intros cs1 k ys r Heq. assert (Hgk : good k) by (apply (goods_in cs0); [done|by eapply Hin0]).
    specialize (Hrec k Hgk). destruct (last k) as [vw|].
    2:{ split; [done|]. intros _. destruct Hrec as [?|[y Hy]]; [by left|]. right. right. right. exists y. split; [by apply disturbed_made|by left]. }
    destruct Hrec as (Hr & Hdis & Hgm). assert (Hr' := Hr). destruct Hr' as (c0 & Hc0 & HE0 & Hw0). split.
    - intros Hm Heqv. injection Heqv as ->. destruct Hm as [Hm|[Hm|[(y & ty & f & w & v' & Hsaw & Hgv & Hne)|(y & Hmd & Hm)]]].
      + apply Hm. by eapply rec_evaluated.
      + apply Hm. apply Hsame; [done|]. by eapply Hthere.
      + destruct (rec_saw _ _ _ _ _ _ _ _ Hr Hsaw) as [[Hi ->]|Hi]; unfold E_of in Hi; rewrite view_next in Hi; unfold view_of in Hi; cbn [fst snd] in Hi.
        * apply elem_of_cons in Hi as [Hi|Hi].
          { injection Hi as -> -> ->. apply Hne. eapply gives_fun; [exact Hgv|]. by eapply Hgc. }
          destruct r as [|[m zs] r]; [by apply elem_of_nil in Hi|]. apply elem_of_cons in Hi as [Hi|Hi]; [done|]. apply elem_of_cons in Hi as [Hi|Hi]; [done|].
          apply elem_of_list_singleton in Hi. rewrite answer_out in Hi. injection Hi as -> -> ->. apply Hne. eapply gives_fun; [exact Hgv|].
          apply (Hg (cs1 ++ [(k, ys)]) m zs r). by rewrite <- (assoc_L (++)).
        * exfalso. apply elem_of_cons in Hi as [Hi|Hi]; [done|]. destruct r as [|[m zs] r]; [by apply elem_of_nil in Hi|].
          apply elem_of_cons in Hi as [Hi|Hi]; [done|]. apply elem_of_cons in Hi as [Hi|Hi]; [done|]. by apply elem_of_list_singleton in Hi.
      + destruct Hm as [Hm|Hm]; [by eapply Hdis|]. apply Hm. destruct (made_which _ _ _ _ _ Hr Hmd) as (m & tv & Hv & Hy).
        assert (Hgm' := Hgm _ _ Hv). assert (Hth := made_there _ _ _ _ _ Hs Hr Hmd). destruct Hy as [-> | ->]; [|by apply Hsame].
        destruct (wrote k _ _ s m tv Hs Hfr Hgm' Hr Hv) as [Hd|Hwr]; [by destruct (Hdis (racc m))|]. rewrite Hwr, Hh.
        destruct r as [|[m' zs] r]; [done|]. injection Hv as -> _.
        apply (reved_racc_in cs1 n xs cs (holds s) k ys m zs r); [done|done|exact Heq].
    - intros Hne. right. right. left. destruct vw as [xs0 o0].
      destruct (decide ((xs0, fst <$> o0) = (ys, nxt r))) as [Heq1|Hne1].
      + injection Heq1 as -> Hnx. destruct r as [|[m zs] r].
        { destruct Hne. by destruct o0. }
        destruct o0 as [[m0 tv0]|]; [|done]. injection Hnx as ->.
        exists (img m), TyList, (λ u, u), (answer m tv0), (out m zs r).
        split; [eapply rec_saw_r; [exact Hr|do 3 right; by left]|]. split.
        { apply (Hg (cs1 ++ [(k, ys)]) m zs r). by rewrite <- (assoc_L (++)). }
        rewrite <- answer_out. intros Heq2. apply answer_inj in Heq2 as <-; [done|]. by eapply Hgm.
      + exists (src k), TyList, (λ u, u), (lst src xs0 (fst <$> o0)), (lst src ys (nxt r)).
        split; [eapply rec_saw_r; [exact Hr|by left]|]. split; [by eapply Hgc|]. intros Heq2. apply lst_inj in Heq2 as [<- E2]. apply Hne1. by rewrite E2. }
  exists s', rs. split; [done|]. split; [done|]. split.
  { apply NoDup_Permutation; [done|apply NoDup_fmap_2; [intros a b; apply img_inj|by apply reruns_nodup]|].
    intros x. rewrite Hx, Hlgin, elem_of_list_fmap. split.
    - intros [(m & Hm & ->) Hmr]. exists m. split; [done|]. apply reruns_in; [done|]. destruct (names_split _ _ Hm) as (cs1 & ys & r & Heq).
      exists cs1, ys, r. split; [done|]. by eapply Hmust.
    - intros (m & -> & Hm). split; [exists m; split; [by eapply reruns_names|done]|]. apply reruns_in in Hm as (cs1 & ys & r & Heq & Hne); [|done].
      by eapply Hmust. }
  split; [|split; [done|exact Hg]].
  split; [done| |done|].
  - intros m. rewrite Hh, reved_src. apply Hcl.
  - intros m Hgm. destruct (decide (m ∈ names cs0)) as [Hm|Hm].
    + destruct (names_split _ _ Hm) as (cs1 & ys & r & Heq). rewrite (note_in last cs0 _ cs1 m ys r Hnd Heq).
      destruct (Hall _ _ _ _ Heq) as [Hr Huk]. rewrite val_out. split; [done|]. split.
      * intros k (c & Hc & Hb). unfold up_to_date in Huk. rewrite Hc in Huk.
        destruct Huk as (_ & _ & Hac). destruct (bit_Some _ _ _ _ Hb) as (e & He & E1 & E2). specialize (Hac _ He). rewrite E1, E2 in Hac. congruence.
      * intros j tv Hv. destruct r as [|[m2 zs] r]; [done|]. injection Hv as -> _. apply (goods_in cs0); [done|].
        apply (Hin0 (cs1 ++ [(m, ys)]) j zs r). by rewrite <- (assoc_L (++)).
    + rewrite note_out by done. assert (img m ∉ rs) as Hnr.
      { intros Hin. apply Hx in Hin as [Hin _]. apply Hlgin in Hin as (m' & Hm' & E). apply img_inj in E as ->. done. }
      specialize (Hrec m Hgm). unfold spoil. destruct (last m) as [vw|].
      * destruct Hrec as (Hr & Hdis & Hgj). assert (Hr0 := Hr). destruct Hr0 as (c0 & Hc0 & HE & Hw0).
        destruct (Hrm (img m) c0 _ Hc0 Hw0) as [Hne|(c & w' & Hc & Hw & Hk)]; [destruct Hne; apply Hsame; [done|]; by eapply Hthere|].
        destruct (Hk Hnr) as [-> Hsh]. assert (Hr' : recorded s' (img m) (E_of m vw) (val_of m vw)) by (exists c; split; [done|]; by rewrite Hsh).
        destruct (Hun _ Hnr c Hc) as (c2 & Hc2 & _ & _ & _ & _ & Hbits); [congruence|]. rewrite Hc0 in Hc2. injection Hc2 as <-.
        assert (Hkeep : (∀ j tv, vw.2 = Some (j, tv) → j ∉ names cs) →
          recorded s' (img m) (E_of m vw) (val_of m vw) ∧ (∀ y, ¬ disturbed s' (img m) y) ∧ ∀ j tv, vw.2 = Some (j, tv) → good j).
        { intros Hout. split; [done|]. split; [|done]. intros y Hd. assert (Hd' := Hd). destruct Hd' as (c1 & Hc1 & Hb). rewrite Hc in Hc1. injection Hc1 as <-.
          destruct (Hbits _ Hb) as [Hb0|Hne]; [apply (Hdis y); by exists c0|].
          apply Hne. change (holds s' !! y = holds s !! y). destruct (made_which _ _ _ _ _ Hr' (disturbed_made _ _ _ Hd)) as (j & tv & Hv & Hy).
          assert (Hgj' := Hgj _ _ Hv). destruct Hy as [-> | ->]; [rewrite Hh; apply reved_racc_out; [done|done|by eapply Hout]|].
          apply Hsame; [done|]. apply (made_there m vw (val_of m vw) s (img j) Hs Hr).
          assert ((img j, Allocate, DAllocThunk (rarg j)) ∈ shape <$> c_succs c0) as (e & Hse & He)%elem_of_list_fmap.
          { rewrite HE. unfold E_of. rewrite Hv. do 2 right. by left. }
          injection Hse as E1 E2 E3. by exists c0, e. }
        destruct vw as [zs [[j tv]|]]; [|apply Hkeep; done]. destruct (decide (j ∈ names cs)) as [Hj|Hj].
        2:{ apply Hkeep. by intros j' tv' [= <- _]. }
        right. exists (racc j). assert (Hgj' := Hgj j tv eq_refl).
        destruct (wrote m (zs, Some (j, tv)) _ s' j tv Hs' Hfr' Hgj' Hr' eq_refl) as [?|Hwr]; [done|exfalso].
        destruct (names_split cs j Hj) as (cs1 & ys & r & Heq). rewrite Hh in Hwr.
        assert (∃ cs2 k zs', (n, xs) :: cs = cs2 ++ (k, zs') :: (j, ys) :: r) as (cs2 & k & zs' & Heq2).
        { rewrite Heq. destruct cs1 as [|c1 cs1] using rev_ind; [by exists [], n, xs|]. destruct c1 as [k zs']. exists ((n, xs) :: cs1), k, zs'. cbn [app]. by rewrite <- (assoc_L (++)). }
        rewrite (reved_racc_in cs2 n xs cs (holds s) k zs' j ys r Hgd1 Hnd1 Heq2) in Hwr. injection Hwr as Hwr. fold cs0 in Heq2.
        apply accv_inj in Hwr as [-> _]; [apply Hm; by eapply Hin0| |done]. apply (goods_in cs0); [done|by eapply Hin0].
      * destruct Hrec as [Hrec|[y Hy]].
        -- left. intros (w & c1 & Hc1 & Hw1). destruct (Hun _ Hnr c1 Hc1) as (c0 & Hc0 & Hr0 & _); [congruence|]. apply Hrec.
           destruct (c_res c0) as [w0|] eqn:Hw0; [|done]. by exists w0, c0.
        -- destruct (table s' !! img m) as [[| |c1]|] eqn:Hc1; [left; intros (w & c & E & _); congruence..| |left; intros (w & c & E & _); congruence].
           destruct (c_res c1) as [w1|] eqn:Hw1; [right|left; intros (w & c & E & E2); congruence].
           destruct (Hun _ Hnr c1 Hc1) as (c0 & Hc0 & Hr0 & _ & _ & Hb1 & _); [congruence|]. exists y, c1. split; [done|]. apply Hb1.
           destruct Hy as (c2 & Hc2 & Hb2). rewrite Hc0 in Hc2. by injection Hc2 as <-.
Qed.

(** ** The editor *)
Lemma bit_raised eff y es es' : Forall2 raised es es' → bit eff y es = Some true → bit eff y es' = Some true.
Proof.
  unfold bit. intros HF. induction HF as [|e e' es es' (E1 & E2 & E3 & E4) HF IH]; [done|].
  cbn [find_succ]. rewrite E1, E2. destruct (decide _); [|done]. cbn [fmap option_fmap option_map]. intros [= E]. by rewrite E4.
Qed.
Lemma dist_raised s s1 x y : disturbed s x y → onode_raised (table s !! x) (table s1 !! x) → disturbed s1 x y.
Proof.
  intros (c & Hc & Hb) Hr. rewrite Hc in Hr. destruct (table s1 !! x) as [nd|] eqn:Hx; [|done]. destruct Hr as (es & -> & Hes).
  exists (with_succs es c). split; [done|]. cbn [c_succs with_succs]. by eapply bit_raised.
Qed.
Lemma known_raise last js s s1 : known last s → reached opt false s1 → (∀ n, holds s1 !! src n = None ∨ ∃ v, holds s1 !! src n = Some (CCell TyList v)) →
  free (holds s1) → (∀ n, good n → onode_raised (table s !! img n) (table s1 !! img n)) →
  (∀ n m y, good n → good m → y = racc m ∨ y = img m → nbit s1 (img n) Allocate y = Some true → nbit s (img n) Allocate y = Some true ∨ ∃ j, j ∈ js ∧ y = racc j) →
  (∀ j n xs, j ∈ js → good n → good j ∧ holds s1 !! racc j ≠ Some (CCell TyList (accv n xs))) → known (spoil last js) s1.
Proof.
  intros [Hs Hcl Hfr Hrec] Hs1 Hcl1 Hfr1 Hr Hb Hj. split; [done|done|done|]. intros n Hn. specialize (Hrec n Hn). specialize (Hr n Hn). unfold spoil.
  destruct (last n) as [vw|] eqn:Hl.
  - destruct Hrec as (Hr0 & Hd & Hgd). assert (Hr1 : recorded s1 (img n) (E_of n vw) (val_of n vw)) by (by eapply rec_raised).
    assert (Hkeep : (∀ j tv, vw.2 = Some (j, tv) → j ∉ js) →
      recorded s1 (img n) (E_of n vw) (val_of n vw) ∧ (∀ y, ¬ disturbed s1 (img n) y) ∧ ∀ j tv, vw.2 = Some (j, tv) → good j).
    { intros Hout. split; [done|]. split; [|done]. intros y Hdy. assert (Hdy' := Hdy). destruct Hdy' as (c & Hc & Hbt). destruct Hr0 as (c0 & Hc0 & HE0).
      destruct (made_which _ _ _ _ _ Hr1 (disturbed_made _ _ _ Hdy)) as (m & tv & Hv & Hy). assert (Hgm := Hgd _ _ Hv).
      specialize (Hb n m y Hn Hgm Hy). unfold nbit in Hb. rewrite Hc, Hc0 in Hb. destruct (Hb Hbt) as [Hb0|(j & Hjin & ->)]; [apply (Hd y); by exists c0|].
      destruct (Hj j n [] Hjin Hn) as [Hgj _]. destruct Hy as [Hy|Hy]; [|symmetry in Hy; by apply (img_racc m j)].
      apply racc_inj in Hy as ->; [|done..]. by apply (Hout m tv). }
    destruct vw as [xs [[j tv]|]]; [|by apply Hkeep]. destruct (decide (j ∈ js)) as [Hjin|Hjout].
    + right. exists (racc j). destruct (wrote n _ _ s1 j tv Hs1 Hfr1 (Hgd _ _ eq_refl) Hr1 eq_refl) as [?|Hw]; [done|].
      by destruct (Hj j n xs Hjin Hn) as [_ []].
    + apply Hkeep. by intros j' tv' [= <- _].
  - destruct Hrec as [Hrec|[y Hy]]; [left; by eapply uneval_raised|right; exists y; by eapply dist_raised].
Qed.
Lemma spoil_nil last k : spoil last [] k = last k.
Proof. unfold spoil. destruct (last k) as [[xs [[j tv]|]]|] eqn:E; try done. Qed.
Lemma known_raise0 last s s1 : known last s → reached opt false s1 → (∀ n, holds s1 !! src n = None ∨ ∃ v, holds s1 !! src n = Some (CCell TyList v)) →
  free (holds s1) → (∀ n, good n → onode_raised (table s !! img n) (table s1 !! img n)) →
  (∀ n m y, good n → good m → y = racc m ∨ y = img m → nbit s1 (img n) Allocate y = Some true → nbit s (img n) Allocate y = Some true) → known last s1.
Proof.
  intros Hk Hs1 Hcl Hfr Hr Hb. apply (known_ext (spoil last [])); [apply spoil_nil|]. eapply known_raise; [exact Hk|done..| |].
  - intros n m y Hn Hm Hy Hbt. left. by apply (Hb n m).
  - by intros j n xs ?%elem_of_nil.
Qed.
Lemma put_cell last s n v : known last s → ∃ s1,
  cell_op TyList n v s = (OVal (src n), s1) ∧ runs s1 = runs s ∧ known last s1 ∧ holds s1 = <[src n := CCell TyList v]> (holds s).
Proof.
  intros Hk. assert (Hk' := Hk). destruct Hk' as [Hs Hcl Hfr Hrec]. destruct (reached_idle _ _ _ Hs) as [Hst Hcp].
  destruct (reached_Ed _ _ _ Hs) as (_ & _ & Hsf & _).
  destruct (reached_step opt false s 1 (Cell TyList n v (λ l, Ret (VLoc l))) (VLoc (src n)) (d_write [] (src n) (CCell TyList v) (d_init (holds s))) Hs) as (s1 & (K & HK) & Hs1 & Hh1).
  { unfold d_exec. cbn [d_run]. unfold dbind, d_cell, d_alloc. fold (src n). cbn [s6_ok d_store d_init d_seen]. destruct (Hcl n) as [->|[w ->]]; [done|].
    assert (rebind_ok (src n) (Some (CCell TyList w)) (CCell TyList v) ∅ = true) as ->; [|done].
    unfold rebind_ok. apply orb_true_iff. right. rewrite !bool_decide_true; [done|done|set_solver]. }
  specialize (HK K ltac:(lia)). unfold exec in HK. cbn [run] in HK. unfold bind in HK.
  destruct (cell_op TyList n v s) as [[l|r|] s2] eqn:E; [|done|done]. injection HK as -> ->. exists s1. split; [done|].
  split; [by eapply C07_edits_do_not_evaluate|]. cbn [d_store d_write d_init] in Hh1. split; [|done].
  assert (cell_loc s n v = src n) as Hloc by (unfold cell_loc; by rewrite Hsf, Hcp).
  assert (Hnc : ∀ c, table s !! src n ≠ Some (NComp c)).
  { intros c Hc. destruct (Hcl n) as [E1|[w E1]]; unfold holds in E1; rewrite contents_lookup, Hc in E1; done. }
  eapply known_raise0; [exact Hk|done| | | |].
  - intros m. rewrite Hh1. destruct (decide (src m = src n)) as [E1|E1]; [rewrite E1, lookup_insert; eauto|rewrite lookup_insert_ne by done; apply Hcl].
  - intros m Hm. rewrite Hh1. rewrite lookup_insert_ne by (apply src_img). rewrite lookup_insert_ne by (apply src_racc). by apply Hfr.
  - intros m _. destruct (post_elim _ _ _ _ _ (cell_op_any TyList n v s) E) as [_ _ _ Hx _ _]. rewrite Hloc in Hx. apply Hx; [done|]. intros E1. by apply (src_img n m).
  - intros a m b Ha Hm Hbm Hb. destruct (Hcl n) as [Hn|[w Hn]].
    + assert (table s !! src n = None) as Hnone. { unfold holds in Hn. rewrite contents_lookup in Hn. by destruct (table s !! src n). }
      destruct (cell_fresh TyList n v s Hst Hsf) as (s2 & E2 & Ht2); [by rewrite Hcp|]. rewrite E in E2. injection E2 as _ <-.
      unfold nbit in *. rewrite Ht2, Hcp in Hb. fold (src n) in Hb. rewrite lookup_insert_ne in Hb by (intros E1; by apply (src_img n a)). done.
    + destruct (decide (w = v)) as [->|Hne].
      * assert (∃ ps, table s !! src n = Some (NMut TyList ps v)) as (ps & Hps).
        { unfold holds in Hn. rewrite contents_lookup in Hn. destruct (table s !! src n) as [[t0 ps0 v0|t0 v0|c0]|] eqn:E1; simpl in Hn; try done.
          - injection Hn as -> ->. eauto.
          - exfalso. by eapply (not_pure opt false s (src n)). }
        destruct (C06_cell_same s TyList n ps v Hst Hsf) as (s2 & E2 & Ht2 & _); [by rewrite Hcp|]. rewrite E in E2. injection E2 as _ <-.
        unfold nbit in *. by rewrite Ht2 in Hb.
      * destruct (C60_cell_dirties_exactly opt false s TyList n v w (src n) s1 Hs Hsf Hn Hne E) as (_ & Hex & _).
        apply Hex in Hb as [Hb|[[-> _]|(E1 & _)]]; [done| |done].
        destruct Hbm as [E1|E1]; [by destruct (src_racc n m)|by destruct (src_img n m)].
Qed.
(** The editor calls [list_reverse]: the accumulator for the first name ... *)
Lemma put_racc last s n hd : known last s → good n → ∃ s1,
  cell_op TyList (rn n) (accum v_nil hd) (set_cpath [mns] s) = (OVal (racc n), set_cpath [mns] s1) ∧
  runs s1 = runs s ∧ known (spoil last [n]) s1 ∧ holds s1 = <[racc n := CCell TyList (accum v_nil hd)]> (holds s).
Proof.
  intros Hk Hgn. assert (Hk' := Hk). destruct Hk' as [Hs Hcl Hfr Hrec]. destruct (reached_idle _ _ _ Hs) as [Hst Hcp]. set (v := accum v_nil hd).
  destruct (reached_Ed _ _ _ Hs) as (_ & _ & Hsf & _). set (op := cell_op _ _ _).
  destruct (reached_step opt false s 1 (Ns mns (Cell TyList (rn n) v (λ l, Ret (VLoc l))) Ret) (VLoc (racc n))
    (d_write [] (racc n) (CCell TyList v) (d_init (holds s))) Hs) as (s1 & (K & HK) & Hs1 & Hh1).
  { unfold d_exec. cbn [d_run]. unfold dbind, d_cell. fold (racc n). rewrite d_cell_over; [done|done|done|done|exact (proj2 (Hfr n Hgn))|]. cbn [d_seen d_init]. set_solver. }
  specialize (HK K ltac:(lia)). unfold exec in HK. cbn [run] in HK. unfold bind, Engine.get, modify, ret in HK. rewrite Hcp in HK. fold op in HK.
  destruct (op (set_cpath [mns] s)) as [[l|r|] s2] eqn:E; [|done|done]. injection HK as -> <-.
  assert (Hnc : ∀ c, table s !! racc n ≠ Some (NComp c)).
  { intros c Hc. destruct (proj2 (Hfr n Hgn)) as [E1|[w E1]]; unfold holds in E1; rewrite contents_lookup, Hc in E1; done. }
  assert (cpath s2 = [mns] ∧ ∀ a b, good a → nbit s2 (img a) Allocate b = Some true → nbit s (img a) Allocate b = Some true ∨ b = racc n) as [Hcp2 Hbits].
  { split; [by destruct (post_elim _ _ _ _ _ (cell_op_any TyList (rn n) v (set_cpath [mns] s)) E) as [_ [_ -> _ _ _] _ _ _ _]|].
    destruct (proj2 (Hfr n Hgn)) as [Hn|[w Hn]].
    - assert (table s !! racc n = None) as Hnone. { unfold holds in Hn. rewrite contents_lookup in Hn. by destruct (table s !! racc n). }
      destruct (cell_fresh TyList (rn n) v (set_cpath [mns] s) Hst Hsf Hnone) as (s3 & E3 & Ht3). fold op in E3. rewrite E in E3. injection E3 as <-.
      intros a b Ha Hb. left. unfold nbit in *. rewrite Ht3 in Hb. cbn [cpath set_cpath] in Hb. fold (racc n) in Hb. rewrite lookup_insert_ne in Hb by (intros E1; symmetry in E1; by apply (img_racc a n)). done.
    - assert (∃ ps, table s !! racc n = Some (NMut TyList ps w)) as (ps & Hps).
      { unfold holds in Hn. rewrite contents_lookup in Hn. destruct (table s !! racc n) as [[t0 ps0 v0|t0 v0|c0]|] eqn:E1; simpl in Hn; try done.
        - injection Hn as -> ->. eauto.
        - exfalso. by eapply (not_pure opt false s (racc n)). }
      destruct (decide (w = v)) as [->|Hne].
      + destruct (C06_cell_same (set_cpath [mns] s) TyList (rn n) ps v Hst Hsf Hps) as (s3 & E3 & Ht3 & Hx3). fold op in E3. rewrite E in E3. injection E3 as <-.
        intros a b Ha Hb. left. unfold nbit in *. by rewrite Ht3 in Hb.
      + destruct (cell_over opt s [mns] TyList (rn n) v w ps (racc n) s2 Hs Hps Hne E) as (_ & Hc & Hb). intros a b _. apply Hb. }
  exists (set_cpath [] s2). split.
  { f_equal. destruct s2; simpl in *. by rewrite Hcp2. }
  split; [by apply (C07_edits_do_not_evaluate (set_cpath [mns] s) s2 TyList (rn n) v _ E)|]. cbn [d_store d_write d_init] in Hh1. split; [|done].
  eapply known_raise; [exact Hk|done| | | | |].
  - intros m. rewrite Hh1, lookup_insert_ne by (intros E1; by apply (src_racc m n)). apply Hcl.
  - rewrite Hh1. by apply free_put_cell.
  - intros m Hm. change (table (set_cpath [] s2)) with (table s2).
    destruct (post_elim _ _ _ _ _ (cell_op_any TyList (rn n) v (set_cpath [mns] s)) E) as [_ _ _ Hx _ _].
    assert (cell_loc (set_cpath [mns] s) (rn n) v = racc n) as Hloc by (unfold cell_loc; cbn [structf set_cpath]; by rewrite Hsf).
    rewrite Hloc in Hx. apply Hx; [done|]. by apply img_racc.
  - intros a m y Ha Hm Hy Hb. destruct (Hbits a y Ha Hb) as [?| ->]; [by left|right]. exists n. split; [by left|done].
  - intros j m xs Hj Hm. apply elem_of_list_singleton in Hj as ->. split; [done|]. rewrite Hh1, lookup_insert. intros E1. injection E1 as E1. by apply (accv_nil m xs hd).
Qed.
(** ... and the thunk of the first name. *)
Lemma put_thunk last s n : known last s → good n → ∃ s1,
  thunk_op TyList (NCNominal n) rpp (rarg n) VUnit (set_cpath [mns] s) = (OVal (img n), set_cpath [mns] s1) ∧
  runs s1 = runs s ∧ known last s1 ∧ holds s1 = <[img n := ct n]> (holds s).
Proof.
  intros Hk Hgn. assert (Hk' := Hk). destruct Hk' as [Hs Hcl Hfr Hrec]. destruct (reached_idle _ _ _ Hs) as [Hst Hcp].
  destruct (reached_Ed _ _ _ Hs) as (_ & _ & Hsf & _). set (op := thunk_op _ _ _ _ _).
  destruct (reached_step opt false s 1 (Ns mns (Thunk TyList (NCNominal n) rpp (rarg n) VUnit (λ l, Ret (VLoc l))) Ret) (VLoc (img n))
    (d_write [] (img n) (ct n) (d_init (holds s))) Hs) as (s1 & (K & HK) & Hs1 & Hh1).
  { unfold d_exec. cbn [d_run]. unfold dbind, d_thunk. fold (img n) (ct n). rewrite d_alloc_same; [done|done| |done|done]. exact (proj1 (Hfr n Hgn)). }
  specialize (HK K ltac:(lia)). unfold exec in HK. cbn [run] in HK. unfold bind, Engine.get, modify, ret in HK. rewrite Hcp in HK. fold op in HK.
  destruct (op (set_cpath [mns] s)) as [[l|r|] s2] eqn:E; [|done|done]. injection HK as -> <-.
  assert (cpath s2 = [mns] ∧ ((table s !! img n = None ∧ table s2 = <[img n := NComp (CompNode TyList [] [] rpp (rarg n) VUnit None)]> (table s)) ∨
    (table s !! img n ≠ None ∧ table s2 = table s))) as [Hcp2 Htab].
  { destruct (table s !! img n) as [nd|] eqn:Hnd.
    - destruct (proj1 (Hfr n Hgn)) as [E1|E1]; [unfold holds in E1; rewrite contents_lookup, Hnd in E1; done|].
      destruct (comp_at _ _ _ _ _ _ E1) as (c & Hc & Ht & Hp & Ha & _). 
      destruct (C06_thunk_same (set_cpath [mns] s) TyList n rpp (rarg n) VUnit c Hst Hsf Hc Ht Hp Ha) as (s3 & E3 & Ht3 & _ & Hc3 & _).
      fold op in E3. rewrite E in E3. injection E3 as <-. split; [done|]. right. split; [done|]. exact Ht3.
    - destruct (thunk_fresh TyList n rpp (rarg n) VUnit (set_cpath [mns] s) Hst Hsf Hnd) as (s3 & E3 & Hc3 & Ht3).
      fold op in E3. rewrite E in E3. injection E3 as <-. split; [done|]. left. split; [done|]. exact Ht3. }
  exists (set_cpath [] s2). split.
  { f_equal. destruct s2; simpl in *. by rewrite Hcp2. }
  split; [by apply (C07_thunk_does_not_evaluate (set_cpath [mns] s) s2 TyList (NCNominal n) rpp (rarg n) VUnit _ E)|]. cbn [d_store d_write d_init] in Hh1. split; [|done].
  destruct Htab as [[Hnone Ht2]|[_ Ht2]].
  - split; [done| | |].
    + intros m. rewrite Hh1, lookup_insert_ne by (intros E1; by apply (src_img m n)). apply Hcl.
    + rewrite Hh1. by apply free_put_thunk.
    + intros m Hm. specialize (Hrec m Hm). destruct (decide (m = n)) as [->|Hne].
      * destruct (last n) as [vw|]; [destruct Hrec as [(c & Hc & _) _]; congruence|]. left. intros (w & c & Hc & Hw).
        change (table (set_cpath [] s2)) with (table s2) in Hc. rewrite Ht2, lookup_insert in Hc. by injection Hc as <-.
      * assert (table (set_cpath [] s2) !! img m = table s !! img m) as Hlk.
        { change (table (set_cpath [] s2)) with (table s2). rewrite Ht2, lookup_insert_ne; [done|]. intros E1. by apply img_inj in E1. }
        destruct (last m) as [vw|]; unfold recorded, disturbed, evaluated, cached in *; by rewrite Hlk.
  - eapply known_raise0; [exact Hk|done| | | |].
    + intros m. rewrite Hh1, lookup_insert_ne by (intros E1; by apply (src_img m n)). apply Hcl.
    + rewrite Hh1. by apply free_put_thunk.
    + intros m _. change (table (set_cpath [] s2)) with (table s2). rewrite Ht2. apply onode_raised_refl.
    + intros a m b _ _ _. unfold nbit. change (table (set_cpath [] s2)) with (table s2). by rewrite Ht2.
Qed.

(** The editor builds the list, from its end ([list_of_vec] does it like this: one [cell] for each name) ... *)
Fixpoint build (cs : list chunk) (k : val → comp) : comp :=
  match cs with
  | [] => k v_nil
  | (n, xs) :: r => build r (λ tl, Cell TyList n (foldr v_cons tl xs) (λ l, k (v_lname n (v_lart l))))
  end.
(** ... and reverses it.  A round: the elements before the first name, and the rest. *)
Notation round := (list val * list chunk)%type.
Definition step (r : round) (k : val → comp) : comp := build r.2 (λ l, Ns mns (c_reverse F (foldr v_cons l r.1) v_nil) k).
Definition ok_round (r : round) : Prop := (length r.1 + 1 ≤ F)%nat ∧ fits r.2 ∧ goods r.2 ∧ NoDup (names r.2).
Definition result (r : round) : val := match r.2 with [] => accum v_nil r.1 | (n, _) :: _ => v_lname n (v_lart (img n)) end.
(** The elements of a round's list. *)
Definition elems (r : round) : list val := r.1 ++ concat (r.2.*2).

Lemma build_run last s cs : known last s → NoDup (names cs) → ∃ s1,
  (∀ f k, run f (build cs k) s = run f (k (lnk src (nxt cs))) s1) ∧ runs s1 = runs s ∧ known last s1 ∧ stored cs (holds s1).
Proof.
  intros Hk. induction cs as [|[n xs] cs IH]; intros Hnd; [by exists s|]. apply NoDup_cons in Hnd as [Hn Hnd].
  destruct (IH Hnd) as (s1 & Hrun & Hr1 & Hk1 & Hst1). destruct (put_cell last s1 n (lst src xs (nxt cs)) Hk1) as (s2 & E & Hr2 & Hk2 & Hh2).
  exists s2. split; [|split; [congruence|split; [done|]]].
  - intros f k. cbn [build]. rewrite Hrun. cbn [run]. fold (lst src xs (nxt cs)). rewrite (bind_val _ _ s1 (src n) s2) by exact E. done.
  - split; [by rewrite Hh2, lookup_insert|]. revert Hh2. generalize (lst src xs (nxt cs)). intros w Hh2. clear IH Hrun E.
    induction cs as [|[m ys] cs IHc]; [done|]. destruct Hst1 as [H1 H2]. apply NoDup_cons in Hnd as [_ Hnd].
    change (names ((m, ys) :: cs)) with (m :: names cs) in Hn. split; [|apply IHc; [set_solver|done|done]].
    rewrite Hh2, lookup_insert_ne; [done|]. intros E1. apply Hn. assert (n = m) as -> by (by injection E1). by left.
Qed.

Lemma reads_conses s v ws xs : reads s v ws → reads s (foldr v_cons v xs) (xs ++ ws).
Proof. intros Hv. induction xs as [|x xs IH]; [done|]. by apply reads_cons. Qed.
Lemma reads_accum s v ws xs : reads s v ws → reads s (accum v xs) (reverse xs ++ ws).
Proof. intros Hv. rewrite accum_foldr. by apply reads_conses. Qed.
Lemma reads_out s : reached opt false s → ∀ cs n xs ws, goods ((n, xs) :: cs) →
  (∀ cs1 k ys r, (n, xs) :: cs = cs1 ++ (k, ys) :: r → gives s TyList (img k) (out k ys r)) →
  (∀ cs1 k ys m zs r, (n, xs) :: cs = cs1 ++ (k, ys) :: (m, zs) :: r → holds s !! racc m = Some (CCell TyList (accv k ys))) →
  reads s (v_lart (racc n)) ws → reads s (v_lart (img n)) (reverse (xs ++ concat (cs.*2)) ++ ws).
Proof.
  intros Hs cs. induction cs as [|[m ys] cs IH]; intros n xs ws Hgd Hg Hh Hw.
  - cbn [fmap list_fmap concat]. rewrite app_nil_r. eapply reads_art; [exact (Hg [] n xs [] eq_refl)|]. cbn [out]. by apply reads_accum.
  - apply goods_cons in Hgd as [_ Hgd]. eapply reads_art; [exact (Hg [] n xs _ eq_refl)|]. cbn [out]. apply reads_name.
    cbn [fmap list_fmap concat snd]. rewrite reverse_app, <- (assoc_L (++)). apply IH; [done| | |].
    + intros cs1 k zs r Heq. apply (Hg ((n, xs) :: cs1)). by rewrite Heq.
    + intros cs1 k zs m' ys' r Heq. apply (Hh ((n, xs) :: cs1) k zs m' ys' r). by rewrite Heq.
    + eapply reads_art; [|by apply reads_accum]. eapply cell_is; [exact Hs|]. exact (Hh [] n xs m ys cs eq_refl).
Qed.
Lemma spoil_spoil last n js k : spoil (spoil last [n]) js k = spoil last (n :: js) k.
Proof.
  unfold spoil. destruct (last k) as [[xs [[j tv]|]]|] eqn:E; try done. destruct (decide (j ∈ [n])) as [Hj|Hj].
  - rewrite decide_True; [done|]. apply elem_of_list_singleton in Hj as ->. by left.
  - destruct (decide (j ∈ js)) as [H1|H1]; [rewrite decide_True; [done|by right]|]. rewrite decide_False; [done|].
    intros [->|]%elem_of_cons; [|done]. apply Hj. by left.
Qed.
Lemma reruns_spoil last n cs : n ∉ names (drop 1 cs) → reruns (spoil last [n]) cs = reruns last cs.
Proof.
  induction cs as [|[k xs] cs IH]; [done|]. cbn [reruns]. change (drop 1 ((k, xs) :: cs)) with cs. intros Hn. rewrite IH.
  2:{ intros Hin. apply Hn. destruct cs as [|[m ys] cs]; [done|]. change (drop 1 ((m, ys) :: cs)) with cs in Hin. by right. }
  f_equal. destruct (decide (last k = Some (view_of xs cs))) as [E|E].
  - rewrite decide_True; [done|]. unfold spoil. rewrite E. unfold view_of. destruct cs as [|[m ys] cs]; [done|]. rewrite decide_False; [done|].
    intros Hin. apply elem_of_list_singleton in Hin as ->. apply Hn. by left.
  - rewrite decide_False; [done|]. unfold spoil. destruct (last k) as [[zs [[j tv]|]]|]; [|done..]. by destruct (decide _).
Qed.

(** C68.  One round of the editor, after any rounds: what is returned reads as the list reversed, and the thunks run, each
    once, are exactly [reruns]. *)
Theorem C68_reverse_round last s r : known last s → ok_round r → ∃ s' rs,
  (∃ K, ∀ f k, (K ≤ f)%nat → exec f (step r k) s = exec f (k (result r)) s') ∧
  runs s' = rs ++ runs s ∧ rs ≡ₚ img <$> reruns last r.2 ∧ known (note last r.2) s' ∧ reads s' (result r) (reverse (elems r)).
Proof.
  destruct r as [hd cs]. intros Hk (HF0 & Hfit & Hgd & Hnd). cbn [fst snd] in *. destruct (build_run last s cs Hk Hnd) as (s1 & Hrun & Hr1 & Hk1 & Hst1).
  destruct (reached_idle _ _ _ (k_reached _ _ Hk1)) as [Hst Hcp].
  assert (Hns : ∀ f o k s2 v s3, run (force f) (tailc o (accum v_nil hd)) (set_cpath [mns] s2) = (OVal v, set_cpath [mns] s3) → cpath s2 = [] → cpath s3 = [] →
    exec f (Ns mns (c_reverse F (lst src hd o) v_nil) k) s2 = exec f (k v) s3).
  { intros f o k s2 v s3 E Hc2 Hc3. rewrite rev_chunk by lia. unfold exec. cbn [run]. unfold bind, Engine.get, modify. rewrite Hc2, E.
    change (set_cpath [] (set_cpath [mns] s3)) with (set_cpath [] s3). assert (set_cpath [] s3 = s3) as ->; [|done].
    destruct s3; simpl in *. by rewrite Hc3. }
  destruct cs as [|[n xs] cs].
  - exists s1, []. split; [|split; [done|split; [done|split]]].
    + exists 0%nat. intros f k _. unfold exec, step. cbn [fst snd]. rewrite Hrun. apply (Hns f None k s1 (result (hd, [])) s1); [|done|done].
      done.
    + apply (known_ext last); [|done]. intros k. unfold note, note_with. cbn [assoc]. symmetry. apply spoil_nil.
    + unfold result, elems. cbn [fst snd fmap list_fmap concat]. rewrite app_nil_r. rewrite <- (app_nil_r (reverse hd)). apply reads_accum. constructor.
  - assert (Hgd' := Hgd). apply goods_cons in Hgd' as [Hgn Hgd1]. assert (Hnd' := Hnd). apply NoDup_cons in Hnd' as [Hnin Hnd1].
    destruct (put_racc last s1 n hd Hk1 Hgn) as (sc & Ec & Hrc & Hkc & Hhc).
    destruct (put_thunk _ sc n Hkc Hgn) as (s2 & E2 & Hr2 & Hk2 & Hh2).
    destruct (rev_demand _ n xs cs s2 Hk2 Hfit Hgd Hnd) as (s3 & rs & (K & HK) & Hr3 & Hrs & Hk3 & Hh3 & Hsh).
    { rewrite Hh2, Hhc. eapply stored_mono; [exact Hst1|]. intros k. rewrite lookup_insert_ne by (intros E; by apply (src_img k n)).
      rewrite lookup_insert_ne; [done|]. intros E; by apply (src_racc k n). }
    { by rewrite Hh2, lookup_insert. }
    destruct (reached_idle _ _ _ (k_reached _ _ Hk2)) as [_ Hcp2]. destruct (reached_idle _ _ _ (k_reached _ _ Hk3)) as [_ Hcp3].
    exists s3, rs. split; [|split; [congruence|split; [|split]]].
    + exists K. intros f k Hf. unfold exec, step. cbn [fst snd]. rewrite Hrun. change (nxt ((n, xs) :: cs)) with (Some n).
      apply (Hns f (Some n) k s1 (result (hd, (n, xs) :: cs)) s3); [|done|done].
      cbn [tailc]. unfold eager_m. cbn [run]. rewrite (bind_val _ _ _ (racc n) (set_cpath [mns] sc)) by exact Ec. cbv beta.
      cbn [run]. rewrite (bind_val _ _ _ (img n) (set_cpath [mns] s2)) by exact E2. cbv beta. cbn [run force_art].
      specialize (HK f Hf). apply force_ignores_namespace in HK as [_ HK].
      rewrite (bind_val _ _ _ _ _ (HK [mns])). done.
    + by rewrite reruns_spoil in Hrs.
    + eapply known_ext; [|exact Hk3]. intros k. unfold note, note_with. destruct (assoc _ k); [done|]. apply spoil_spoil.
    + unfold result, elems. cbn [fst snd fmap list_fmap concat]. rewrite reverse_app. apply reads_name.
      apply reads_out; [by apply k_reached in Hk3|done|done| |].
      * intros cs1 k ys m zs r Heq. rewrite Hh3. by apply (reved_racc_in cs1 n xs cs _ k ys m zs r).
      * eapply reads_art; [eapply cell_is; [by apply k_reached in Hk3|]; rewrite Hh3, reved_racc_out by done; rewrite Hh2, lookup_insert_ne by (by apply img_racc);
          by rewrite Hhc, lookup_insert|].
        rewrite <- (app_nil_r (reverse hd)). apply reads_accum. constructor.
Qed.

(** ** Whole sessions *)
Fixpoint rounds (rds : list round) (acc : list val) : comp :=
  match rds with [] => Ret (foldr VPair VUnit acc) | r :: rds => step r (λ v, rounds rds (acc ++ [v])) end.
Fixpoint all_reruns (last : name → option view) (rds : list round) : list name :=
  match rds with [] => [] | r :: rds => reruns last r.2 ++ all_reruns (note last r.2) rds end.
Definition notes (rds : list round) : name → option view := foldl (λ last r, note last r.2) (λ _, None) rds.
Lemma known_new : known (λ _, None) (dcg_new_flags false opt).
Proof.
  assert (reached opt false (dcg_new_flags false opt)) as Hr.
  { exists (Ret VUnit), 0%nat, VUnit. split; [|done]. by exists 0%nat, VUnit, (d_init ∅). }
  assert (holds (dcg_new_flags false opt) = ∅) as Hh. { apply map_eq. intros l. unfold holds. rewrite contents_lookup. cbn. by rewrite !lookup_empty. }
  split; [done| | |].
  - intros n. left. by rewrite Hh, lookup_empty.
  - intros n Hn. split; left; by rewrite Hh, lookup_empty.
  - intros n Hn. left. intros (w & c & Hc & _). cbn in Hc. by rewrite lookup_empty in Hc.
Qed.
Lemma rounds_from rds last s acc : known last s → Forall ok_round rds → ∃ s' rs,
  returns (rounds rds acc) s (foldr VPair VUnit (acc ++ (result <$> rds))) s' ∧ runs s' = rs ++ runs s ∧
  rs ≡ₚ img <$> all_reruns last rds ∧ known (foldl (λ last r, note last r.2) last rds) s' ∧ (rds = [] → s' = s) ∧
  ∀ r, list.last rds = Some r → reads s' (result r) (reverse (elems r)).
Proof.
  revert last s acc. induction rds as [|r rds IH]; intros last s acc Hk Hok.
  - exists s, []. split; [exists 0%nat; intros k _; cbn; by rewrite app_nil_r|]. done.
  - apply Forall_cons in Hok as [Hf1 Hok].
    destruct (C68_reverse_round last s r Hk Hf1) as (s1 & rs1 & (K1 & HK1) & Hr1 & Hp1 & Hk1 & Hsh1).
    destruct (IH (note last r.2) s1 (acc ++ [result r]) Hk1 Hok) as (s2 & rs2 & (K2 & HK2) & Hr2 & Hp2 & Hk2 & Hsame & Hsh2).
    exists s2, (rs2 ++ rs1). split; [|split; [rewrite Hr2, Hr1; by rewrite (assoc_L (++))|split; [|split; [done|split; [done|]]]]].
    + exists (K1 + K2)%nat. intros k Hk0. cbn [rounds]. rewrite HK1 by lia. rewrite HK2 by lia. by rewrite <- (assoc_L (++)).
    + cbn [all_reruns]. rewrite fmap_app, Hp1, Hp2. apply Permutation_app_comm.
    + intros r0 Hl. destruct rds as [|r1 rds]; [|by apply Hsh2]. injection Hl as <-. by rewrite (Hsame eq_refl).
Qed.

(** C68.  A whole session in a new engine: every round returns the reference to the reversed list, the engine then holds the
    reversed list; and over the whole session exactly the thunks [all_reruns] ran, each as often as it occurs there. *)
Theorem C68_sessions rds : Forall ok_round rds → ∃ s',
  returns (rounds rds []) (dcg_new_flags false opt) (foldr VPair VUnit (result <$> rds)) s' ∧
  runs s' ≡ₚ img <$> all_reruns (λ _, None) rds ∧ ∀ r, list.last rds = Some r → reads s' (result r) (reverse (elems r)).
Proof.
  intros Hok. destruct (rounds_from rds _ _ [] known_new Hok) as (s' & rs & Hret & Hr & Hp & _ & _ & Hsh).
  exists s'. split; [done|]. split; [|done]. rewrite Hr. cbn [runs dcg_new_flags]. by rewrite app_nil_r.
Qed.
(** One more round after a session. *)
Lemma C68_one_more rds r : Forall ok_round (rds ++ [r]) → ∃ s1 s2 rs v1 v2,
  returns (rounds rds []) (dcg_new_flags false opt) v1 s1 ∧ returns (rounds (rds ++ [r]) []) (dcg_new_flags false opt) v2 s2 ∧
  runs s2 = rs ++ runs s1 ∧ rs ≡ₚ img <$> reruns (notes rds) r.2 ∧ reads s2 (result r) (reverse (elems r)).
Proof.
  intros [Hok Hr0]%Forall_app. apply Forall_cons in Hr0 as [Hr0 _].
  destruct (rounds_from rds _ _ [] known_new Hok) as (s1 & rs1 & Hret & Hr & Hp & Hk & _ & _).
  destruct (C68_reverse_round _ s1 r Hk Hr0) as (s2 & rs2 & (K2 & HK2) & Hr2 & Hp2 & Hk2 & Hsh2).
  assert (Hgen : ∀ acc last s, known last s → returns (rounds rds acc) s (foldr VPair VUnit (acc ++ (result <$> rds))) s1 →
    returns (rounds (rds ++ [r]) acc) s (foldr VPair VUnit (acc ++ (result <$> rds ++ [r]))) s2).
  { clear Hret Hr Hp Hk Hp2 Hk2. revert Hok. induction rds as [|c rds IH]; intros Hok acc last s Hkn (K & HK).
    - exists (K + K2)%nat. intros k Hkk. cbn [rounds app]. specialize (HK k ltac:(lia)). cbn [rounds] in HK. injection HK as _ ->.
      rewrite HK2 by lia. done.
    - apply Forall_cons in Hok as [Hf Hok].
      destruct (C68_reverse_round last s c Hkn Hf) as (s3 & rs3 & (K3 & HK3) & _ & _ & Hk3 & _). cbn [rounds app].
      assert (returns (rounds (rds ++ [r]) (acc ++ [result c])) s3 (foldr VPair VUnit ((acc ++ [result c]) ++ (result <$> rds ++ [r]))) s2) as (K4 & HK4).
      { eapply IH; [done..|]. exists (K + K3)%nat. intros k Hkk. specialize (HK k ltac:(lia)). cbn [rounds] in HK. rewrite HK3 in HK by lia.
        rewrite <- (assoc_L (++)). exact HK. }
      exists (K3 + K4)%nat. intros k Hkk. rewrite HK3 by lia. rewrite HK4 by lia. by rewrite <- (assoc_L (++)). }
  eexists s1, s2, rs2, _, _. split; [exact Hret|]. split; [eapply Hgen; [exact known_new|exact Hret]|]. done.
Qed.

(** ** The cost of an edit *)
Definition agrees (last : name → option view) (cs u : list chunk) : Prop :=
  ∀ cs1 k ys r, cs = cs1 ++ (k, ys) :: r → last k = Some (view_of ys (r ++ u)).
Lemma agrees_tail last c cs u : agrees last (c :: cs) u → agrees last cs u.
Proof. intros Ha cs1 k ys r ->. by apply (Ha (c :: cs1) k ys r). Qed.
Lemma agrees_same last cs u : agrees last cs u → reruns last (cs ++ u) = reruns last u.
Proof.
  induction cs as [|[n xs] cs IH]; [done|]. intros Ha. cbn [app reruns]. rewrite decide_True.
  - by apply IH, (agrees_tail _ (n, xs)).
  - apply (Ha [] n xs cs eq_refl).
Qed.
Lemma agrees_none last cs : agrees last cs [] → reruns last cs = [].
Proof. intros Ha. rewrite <- (app_nil_r cs). by rewrite agrees_same. Qed.
Lemma note_agrees last a b : NoDup (names (a ++ b)) → agrees (note last (a ++ b)) a b ∧ agrees (note last (a ++ b)) b [].
Proof.
  intros Hnd. split.
  - intros cs1 k ys r ->. eapply note_in; [done|]. by rewrite <- (assoc_L (++)).
  - intros cs1 k ys r ->. rewrite app_nil_r. eapply note_in; [done|]. by rewrite (assoc_L (++)).
Qed.
Lemma reruns_at_most last mid cs : (length (reruns last (mid ++ cs)) ≤ length mid + length (reruns last cs))%nat.
Proof.
  induction mid as [|[n xs] mid IH]; [simpl; lia|]. cbn [app reruns]. rewrite app_length. destruct (decide _); simpl in *; lia.
Qed.
(** Before the edit at most two thunks run, and at most one if the edit does not change the name after it. *)
Lemma reruns_before last pre u t : agrees last pre u →
  (length (reruns last (pre ++ t)) ≤ (if decide (nxt t = nxt u) then 1 else 2) `min` length pre + length (reruns last t))%nat.
Proof.
  induction pre as [|[n xs] pre IH]; intros Ha; [simpl; lia|]. specialize (IH (agrees_tail _ _ _ _ Ha)). cbn [app reruns length].
  rewrite app_length. assert (Hv := Ha [] n xs pre eq_refl).
  destruct (decide (last n = Some (view_of xs (pre ++ t)))) as [E|E]; [change (length []) with 0%nat; destruct (decide (nxt t = nxt u)); lia|].
  change (length [n]) with 1%nat. rewrite Hv in E. destruct pre as [|[m1 ys1] [|[m2 ys2] pre]]; simpl length in *.
  - destruct (decide (nxt t = nxt u)); lia.
  - destruct (decide (nxt t = nxt u)) as [E2|]; [|lia]. destruct E. unfold view_of. cbn [app].
    destruct t as [|[? ?] ?], u as [|[? ?] ?]; try discriminate E2; [done|]. cbn in E2. by injection E2 as ->.
  - destruct E. done.
Qed.

(** C68.  Whatever the history [last] and however long the list: when [mid] is replaced by [mid'], at most [length mid' + 2]
    thunks run; at most [length mid' + 1] if the name that follows the unchanged front stays the same; and no more than
    [length mid'] at the front of the list.  What comes after the edit does not run again, although all of it is appended
    to a changed accumulator. *)
Theorem C68_edit_cost last pre mid mid' post : NoDup (names (pre ++ mid ++ post)) →
  (length (reruns (note last (pre ++ mid ++ post)) (pre ++ mid' ++ post)) ≤
    length mid' + (if decide (nxt (mid' ++ post) = nxt (mid ++ post)) then 1 else 2) `min` length pre)%nat.
Proof.
  intros Hnd. destruct (note_agrees last pre (mid ++ post) Hnd) as [Ha _].
  assert (Hp : agrees (note last (pre ++ mid ++ post)) post []). { rewrite (assoc_L (++)) in *. by apply note_agrees. }
  assert (H1 := reruns_before _ _ _ (mid' ++ post) Ha). assert (H2 := reruns_at_most (note last (pre ++ mid ++ post)) mid' post).
  rewrite (agrees_none _ _ Hp) in H2. change (length []) with 0%nat in H2. lia.
Qed.
(** C68.  Only the thunk of a changed chunk runs: not the ones before it (unless it is the last), and not the ones after it. *)
Theorem C68_change_one last pre n xs xs' c post : NoDup (names (pre ++ (n, xs) :: c :: post)) → xs ≠ xs' →
  reruns (note last (pre ++ (n, xs) :: c :: post)) (pre ++ (n, xs') :: c :: post) = [n].
Proof.
  intros Hnd Hne. set (L := note _ _). assert (Hp : agrees L (c :: post) []).
  { subst L. rewrite cons_middle, (assoc_L (++)) in *. by apply note_agrees. }
  assert (HLn : L n = Some (view_of xs (c :: post))) by (by eapply note_in).
  assert (Ha : agrees L pre ((n, xs') :: c :: post)).
  { intros cs1 k ys r ->. destruct (note_agrees last (cs1 ++ (k, ys) :: r) ((n, xs) :: c :: post) Hnd) as [Ha _]. fold L in Ha.
    rewrite (Ha cs1 k ys r eq_refl). destruct c as [m zs]. by destruct r as [|[? ?] [|[? ?] ?]]. }
  rewrite agrees_same by done. cbn [reruns]. rewrite decide_False.
  - change (reruns L (c :: post)) with (reruns L (c :: post)). destruct c as [m zs]. change (?a ++ _) with (a ++ reruns L ((m, zs) :: post)).
    by rewrite (agrees_none _ _ Hp).
  - rewrite HLn. destruct c as [m zs]. intros [= E]. done.
Qed.
(** Reversing the same list again runs nothing, and nothing if only the elements in front of the first name have changed. *)
Theorem C68_same_again last cs : NoDup (names cs) → reruns (note last cs) cs = [].
Proof. intros Hnd. apply agrees_none. exact (proj2 (note_agrees last [] cs Hnd)). Qed.
(** Undoing a replacement by chunks with other names runs at most three thunks, however long the removed part was. *)
Theorem C68_undo_cost last pre mid mid' post : NoDup (names (pre ++ mid ++ post)) → NoDup (names (pre ++ mid' ++ post)) →
  (∀ k, k ∈ names mid → k ∉ names mid') →
  (length (reruns (note (note last (pre ++ mid ++ post)) (pre ++ mid' ++ post)) (pre ++ mid ++ post)) ≤ 3)%nat.
Proof.
  intros Hnd Hnd' Hdis. set (L1 := note last (pre ++ mid ++ post)). set (L2 := note L1 (pre ++ mid' ++ post)).
  destruct (note_agrees L1 pre (mid' ++ post) Hnd') as [Ha _]. fold L2 in Ha.
  assert (Hpost : agrees L2 post []). { subst L2. rewrite (assoc_L (++)) in *. by apply note_agrees. }
  assert (H1 := reruns_before _ _ _ (mid ++ post) Ha).
  assert (length (reruns L2 (mid ++ post)) ≤ 1)%nat; [|destruct (decide _); lia].
  destruct mid as [|c mid _] using rev_ind; [rewrite (agrees_none _ _ Hpost : reruns L2 ([] ++ post) = []); simpl; lia|].
  rewrite <- (assoc_L (++)). cbn [app]. rewrite agrees_same.
  { destruct c as [n xs]. assert (H2 := reruns_at_most L2 [(n, xs)] post). rewrite (agrees_none _ _ Hpost) in H2. simpl in H2. exact H2. }
  intros cs1 k ys r Heq.
  assert (Hmid : ∀ j, j ∈ names (mid ++ [c]) → j ∉ names (pre ++ mid' ++ post)).
  { intros j Hj Hin. assert (Hj' := Hdis j Hj). unfold names in *. rewrite !fmap_app in *. rewrite !elem_of_app in Hin.
    apply NoDup_app in Hnd as (_ & Hn1 & (_ & Hn2 & _)%NoDup_app). rewrite <- fmap_app in *. destruct Hin as [Hin|[Hin|Hin]]; [|done|].
    - apply (Hn1 j Hin). apply elem_of_app. by left.
    - by apply (Hn2 j Hj). }
  subst L2. unfold note at 1. rewrite note_out. 2:{ apply Hmid. rewrite Heq. apply elem_of_list_fmap. exists (k, ys). split; [done|]. rewrite <- (assoc_L (++)). apply elem_of_app. right. by left. }
  unfold spoil. assert (L1 k = Some (view_of ys (r ++ c :: post))) as ->.
  { subst L1. apply (note_in last _ _ (pre ++ cs1)); [done|]. rewrite Heq. by rewrite <- !(assoc_L (++)). }
  unfold view_of at 1. destruct (r ++ c :: post) as [|[m zs] r'] eqn:Er; [done|]. rewrite decide_False; [done|].
  apply Hmid. rewrite Heq, <- (assoc_L (++)). apply elem_of_list_fmap. exists (m, zs). split; [done|]. apply elem_of_app. right.
  destruct r as [|c0 r]; [injection Er as -> _; right; by left|]. injection Er as -> _. right. by left.
Qed.

(** C68.  The cost of an edit in the engine itself: after any session in a new engine that ended with the list
    [hd ++ pre ++ mid ++ post], replacing [mid] by [mid'] (and the elements [hd] before the first name by any others) and
    reversing again runs at most [length mid' + 2] thunks, and the result reads as the new list reversed. *)
Theorem C68_incremental rds hd hd' pre mid mid' post :
  Forall ok_round (rds ++ [(hd, pre ++ mid ++ post); (hd', pre ++ mid' ++ post)]) → ∃ s1 s2 rs v1 v2,
  returns (rounds (rds ++ [(hd, pre ++ mid ++ post)]) []) (dcg_new_flags false opt) v1 s1 ∧
  returns (rounds (rds ++ [(hd, pre ++ mid ++ post); (hd', pre ++ mid' ++ post)]) []) (dcg_new_flags false opt) v2 s2 ∧
  reads s2 (result (hd', pre ++ mid' ++ post)) (reverse (elems (hd', pre ++ mid' ++ post))) ∧
  runs s2 = rs ++ runs s1 ∧ (length rs ≤ length mid' + 2 `min` length pre)%nat.
Proof.
  intros Hall. assert (Hl : rds ++ [(hd, pre ++ mid ++ post); (hd', pre ++ mid' ++ post)] = (rds ++ [(hd, pre ++ mid ++ post)]) ++ [(hd', pre ++ mid' ++ post)]) by (by rewrite <- (assoc_L (++))).
  rewrite Hl in *.
  destruct (C68_one_more _ _ Hall) as (s1 & s2 & rs & v1 & v2 & H1 & H2 & H3 & H4 & H5). exists s1, s2, rs, v1, v2.
  split; [done|]. split; [done|]. split; [done|]. split; [done|]. rewrite H4, fmap_length. unfold notes. rewrite foldl_app. cbn [foldl snd].
  apply Forall_app in Hall as [(_ & Hnd)%Forall_app _]. apply Forall_cons in Hnd as [(_ & _ & _ & Hnd) _].
  assert (Hc := C68_edit_cost (foldl (λ last r, note last r.2) (λ _, None) rds) pre mid mid' post Hnd). destruct (decide _); lia.
Qed.
(** C68.  Changing the elements in front of the first name changes every accumulator, and runs nothing. *)
Theorem C68_front_is_free rds hd hd' cs : Forall ok_round (rds ++ [(hd, cs); (hd', cs)]) → ∃ s1 s2 v1 v2,
  returns (rounds (rds ++ [(hd, cs)]) []) (dcg_new_flags false opt) v1 s1 ∧
  returns (rounds (rds ++ [(hd, cs); (hd', cs)]) []) (dcg_new_flags false opt) v2 s2 ∧
  reads s2 (result (hd', cs)) (reverse (hd' ++ concat (cs.*2))) ∧ runs s2 = runs s1.
Proof.
  intros Hall. assert (Hl : rds ++ [(hd, cs); (hd', cs)] = (rds ++ [(hd, cs)]) ++ [(hd', cs)]) by (by rewrite <- (assoc_L (++))).
  rewrite Hl in *.
  destruct (C68_one_more _ _ Hall) as (s1 & s2 & rs & v1 & v2 & H1 & H2 & H3 & H4 & H5). exists s1, s2, v1, v2.
  split; [done|]. split; [done|]. split; [done|]. unfold notes in H4. rewrite foldl_app in H4. cbn [foldl snd] in H4.
  apply Forall_app in Hall as [(_ & Hnd)%Forall_app _]. apply Forall_cons in Hnd as [(_ & _ & _ & Hnd) _]. cbn [snd] in Hnd.
  rewrite C68_same_again in H4 by done. apply Permutation_nil_r in H4 as ->. done.
Qed.

End IncRev.
