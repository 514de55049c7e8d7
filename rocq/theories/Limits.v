(** * Limits of the engine, as universal statements: C22, C24, C29. *)
From Verif Require Export NodeInv Examples.

Section Limits.
Context `{Prog}.

(** ** C24. [NameChoice::Eager] and [NameChoice::Naive] panic under the DCG engine, in every state; nothing changes. *)
Theorem C24_eager_naive_panic s t nc pp arg spur : nc = NCEager ∨ nc = NCNaive →
  ∃ r, thunk_op t nc pp arg spur s = (OPanic r, s).
Proof. intros [-> | ->]; eexists; reflexivity. Qed.
Theorem C24_other_choices s t nc pp arg spur : nc = NCStructural ∨ (∃ n, nc = NCNominal n) →
  table s !! thunk_loc s nc pp arg = None → ∃ s', thunk_op t nc pp arg spur s = (OVal (thunk_loc s nc pp arg), s') ∧
    table s' !! thunk_loc s nc pp arg = Some (NComp (CompNode t [] [] pp arg spur None)).
Proof.
  intros Hnc Hl. unfold thunk_op. rewrite (bind_val get _ s s s) by done. unfold thunk_loc in *. cbv zeta.
  destruct Hnc as [-> |[n ->]]; [|destruct (structf s) eqn:Em]; rewrite Hl.
  1,2: rewrite (bind_val _ _ s tt _ (push_edge_eq _ _ s)); eexists; (split; [reflexivity|]); simpl; by rewrite lookup_insert.
  unfold bind at 1. simpl. unfold bind at 1. simpl. unfold bind at 1. simpl. unfold bind at 1. simpl. rewrite (bind_val _ _ _ tt _ (push_edge_eq _ _ _)). eexists. split; [reflexivity|]. simpl. by rewrite lookup_insert.
Qed.

(** ** C22. If a cell is observed only through [force_abs], setting it dirties nothing at all. *)
Theorem C22_never_dirtied s t l v ps v0 :
  stack s = [] → table s !! l = Some (NMut t ps v0) → v0 ≠ v →
  (∀ pr, pr ∈ ps → p_eff pr = Observe ∧ p_dep pr = Some DForceAbs) →
  set_op t (ALoc l) v s = (OVal tt, set_table (<[l := NMut t ps v]> (table s)) s).
Proof.
  intros Hst Hl Hne Hpr. unfold set_op. rewrite (bind_val get _ s s s) by done. rewrite Hst. unfold set_val.
  rewrite (bind_val _ _ s (NMut t ps v0) s) by (by apply res_node_eq). rewrite decide_False by done.
  set (s1 := set_table _ s). rewrite (bind_val _ _ s tt s1) by done.
  assert (table s1 !! l = Some (NMut t ps v)) as Hl1 by (simpl; by rewrite lookup_insert).
  unfold dirty_alloc. rewrite (bind_val _ _ s1 tt s1).
  - rewrite (bind_val _ _ s1 (NMut t ps v) s1) by (by apply lookup_abs_eq).
    assert (preds_alloc (NMut t ps v) = Some []) as ->.
    { simpl. f_equal. clear -Hpr. induction ps as [|p ps IH]; [done|]. simpl.
      destruct (Hpr p ltac:(by left)) as [Hp _]. rewrite decide_False by (by rewrite Hp). apply IH. intros pr Hin. apply Hpr. by right. }
    done.
  - unfold dirty_observers. destruct (dirty_fuel s1) as [|fuel] eqn:Hf; [done|]. cbn [dirty_obs].
    rewrite (bind_val _ _ s1 (NMut t ps v) s1) by (by apply lookup_abs_eq). cbn [preds_obs of_opt].
    rewrite (bind_val (ret _) _ s1 _ s1 eq_refl).
    assert (∀ pds : list (loc * option dep), (∀ pd, pd ∈ pds → pd.2 = Some DForceAbs) →
      mfor pds (dirty_step (dirty_obs fuel) l) s1 = (OVal tt, s1)) as Hm.
    { induction pds as [|pd pds IH]; intros Hpds; [done|]. cbn [mfor].
      rewrite (bind_val _ _ s1 tt s1).
      { apply IH. intros pd' Hin. apply Hpds. by right. }
      unfold dirty_step. by rewrite (Hpds pd ltac:(by left)). }
    apply Hm. intros pd Hpd. apply elem_of_list_omap in Hpd as (pr & Hin & Hd). destruct (decide _) as [He|]; [|done]. injection Hd as <-.
    by destruct (Hpr _ Hin) as [_ ?].
Qed.

(** ** C29. A panic of user code inside a thunk leaves the thunk on the stack of executing thunks.

    [depth lo m]: a normal return of [m] leaves the stack frames it found, a panic leaves those and possibly more,
    of thunks; if [lo = 1] a panic of user code leaves more, if [lo > 1] there is none. *)
Definition locs (s : dcg) : list loc := f_loc <$> stack s.
Definition thunk_at (s : dcg) (x : loc) : Prop := ∃ c, table s !! x = Some (NComp c).
Lemma locs_length s : length (locs s) = length (stack s). Proof. apply fmap_length. Qed.
Definition deeper (lo : nat) (r : reason) (a b : nat) : Prop :=
  match lo with O => True | S O => r = PUser → (a < b)%nat | _ => r ≠ PUser end.
Definition depth {A} (lo : nat) (m : M A) : Prop := ∀ s,
  match m s with
  | (OVal _, s') => locs s' = locs s
  | (OPanic r, s') => (∃ xs, locs s' = xs ++ locs s ∧ ∀ x, x ∈ xs → thunk_at s' x) ∧ deeper lo r (length (stack s)) (length (stack s'))
  | (OFuel, s') => True
  end.
Lemma deeper_no lo r a b : r ≠ PUser → deeper lo r a b.
Proof. destruct lo as [|[|]]; simpl; naive_solver. Qed.
Lemma depth_bind {A B} lo (m : M A) (f : A → M B) : depth lo m → (∀ a, depth lo (f a)) → depth lo (bind m f).
Proof.
  intros Hm Hf s. specialize (Hm s). unfold bind. destruct (m s) as [[a|r|] s1]; [|done..]. specialize (Hf a s1).
  destruct (f a s1) as [[b|r|] s2]; [congruence| |done].
  assert (length (stack s1) = length (stack s)) as Hl by (rewrite <- !locs_length; by rewrite Hm). by rewrite <- Hm, <- Hl.
Qed.
Lemma grown_refl s : ∃ xs, locs s = xs ++ locs s ∧ ∀ x, x ∈ xs → thunk_at s x.
Proof. exists []. split; [done|]. by intros x ?%elem_of_nil. Qed.
Lemma depth_ret {A} lo (a : A) : depth lo (ret a). Proof. by intros s. Qed.
Lemma depth_panic {A} lo r : r ≠ PUser → depth (A:=A) lo (panic r). Proof. intros Hr s. simpl. split; [apply grown_refl|]. by apply deeper_no. Qed.
Lemma depth_fail {A} : depth (A:=A) O (panic PUser). Proof. intros s. simpl. split; [apply grown_refl|done]. Qed.
Lemma depth_nofuel {A} lo : depth (A:=A) lo nofuel. Proof. by intros s. Qed.
Lemma depth_get lo : depth lo get. Proof. by intros s. Qed.
Lemma depth_modify lo f : (∀ s, locs (f s) = locs s) → depth lo (modify f). Proof. intros E s. apply E. Qed.
Lemma depth_emit lo e : depth lo (emit e). Proof. by apply depth_modify. Qed.
Lemma depth_assert lo b r : r ≠ PUser → depth lo (assert b r). Proof. intros Hr s. destruct b; [done|]. split; [apply grown_refl|]. by apply deeper_no. Qed.
Lemma depth_of_opt {A} lo r (o : option A) : r ≠ PUser → depth lo (of_opt r o). Proof. intros Hr s. destruct o; [done|]. split; [apply grown_refl|]. by apply deeper_no. Qed.
Lemma depth_put lo l nd : depth lo (put_node l nd). Proof. by intros s. Qed.
Lemma depth_mfor {A} lo (xs : list A) f : (∀ x, depth lo (f x)) → depth lo (mfor xs f).
Proof. intros Hf. induction xs as [|x xs IH]; simpl; [apply depth_ret|]. apply depth_bind; [apply Hf|]. intros _. exact IH. Qed.
Lemma depth_if {A} lo (b : bool) (m m' : M A) : depth lo m → depth lo m' → depth lo (if b then m else m').
Proof. by destruct b. Qed.
Lemma depth_weaken {A} (m : M A) lo : depth lo m → depth 0 m.
Proof. intros Hm s. specialize (Hm s). destruct (m s) as [[]]; [done| |done]. destruct Hm. by split. Qed.
Lemma depth_lookup lo l : depth lo (lookup_abs l).
Proof. apply depth_bind; [apply depth_get|]. intros s. destruct (table s !! l); [apply depth_ret|by apply depth_panic]. Qed.
Lemma depth_res lo t l : depth lo (res_node t l).
Proof. apply depth_bind; [apply depth_lookup|]. intros nd. apply depth_bind; [by apply depth_assert|]. intros _. apply depth_ret. Qed.
Ltac d0 := first [apply depth_get|apply depth_emit|by apply depth_assert|by apply depth_of_opt|apply depth_lookup|apply depth_res|by apply depth_panic
  |apply depth_nofuel|apply depth_ret|by apply depth_modify|apply depth_put].
Ltac db := apply depth_bind; [try d0|intros ?].
Ltac dd := repeat first [d0|db|match goal with |- depth _ (match ?x with _ => _ end) => destruct x end].
Lemma depth_get_dirty lo src eff tgt : depth lo (get_dirty src eff tgt). Proof. unfold get_dirty. dd. Qed.
Lemma depth_set_dirty lo b src eff tgt : depth lo (set_dirty b src eff tgt). Proof. unfold set_dirty. dd. Qed.
Lemma depth_cfm lo t f w l : depth lo (check_force_map_dep t f w l). Proof. unfold check_force_map_dep. dd. Qed.
Lemma depth_dep_dirty lo d l : depth lo (dep_dirty d l). Proof. unfold dep_dirty. destruct d; first [apply depth_cfm|dd]. Qed.
Lemma depth_dirty_obs lo n l : depth lo (dirty_obs n l).
Proof.
  revert l. induction n as [|n IH]; intros l; simpl; [d0|]. db. db. apply depth_mfor. intros [p d]. unfold dirty_step. simpl. apply depth_bind.
  { destruct d as [d|]; [|d0]. destruct (is_absmap d); [d0|]. apply depth_bind; [apply depth_dep_dirty|intros; d0]. }
  intros b. apply depth_bind.
  { destruct b; [d0|]. apply depth_bind; [apply depth_get_dirty|]. intros [|]; [d0|]. db. db. apply depth_bind; [apply depth_set_dirty|]. intros; d0. }
  intros [|]; [d0|]. apply depth_bind; [apply IH|]. intros; d0.
Qed.
Lemma depth_observers lo l : depth lo (dirty_observers l). Proof. intros s. apply (depth_dirty_obs lo (dirty_fuel s) l s). Qed.
Lemma depth_dirty_alloc lo l : depth lo (dirty_alloc l).
Proof.
  unfold dirty_alloc. apply depth_bind; [apply depth_observers|]. intros _. db. db. apply depth_mfor. intros p. unfold dirty_alloc_step.
  apply depth_bind; [apply depth_get_dirty|]. intros [|]; [d0|]. apply depth_bind; [apply depth_set_dirty|]. intros _. db. db.
  apply depth_bind; [apply depth_observers|]. intros; d0.
Qed.
Lemma depth_revoke lo l es : depth lo (revoke_succs l es). Proof. apply depth_mfor. intros e. dd. Qed.
Lemma depth_push lo e pd : depth lo (push_edge e pd). Proof. apply depth_modify. intros s. unfold locs. destruct (stack s) eqn:E; simpl; by rewrite ?E. Qed.
Lemma depth_set_val lo t l v : depth lo (set_val t l v).
Proof. unfold set_val. db. destruct a; try d0. destruct (decide _); [d0|]. db. apply depth_dirty_alloc. Qed.
Lemma depth_cell lo t n v : depth lo (cell_op t n v).
Proof.
  unfold cell_op. db. cbv zeta. apply depth_bind; [dd|]. intros [[[x1 x2] es] fr]. apply depth_bind; [unfold check_cell_change; dd|]. intros ac. db.
  apply depth_bind; [apply depth_if; [apply depth_set_val|d0]|]. intros _. apply depth_bind; [apply depth_if; [apply depth_dirty_alloc|d0]|]. intros _.
  apply depth_bind; [destruct es; [apply depth_revoke|d0]|]. intros _. db. apply depth_bind; [apply depth_if; d0|]. intros _.
  apply depth_bind; [apply depth_if; [d0|apply depth_push]|]. intros _. d0.
Qed.
Lemma depth_set lo t a v : depth lo (set_op t a v).
Proof. unfold set_op. destruct a; [d0|]. db. destruct (stack _); [apply depth_set_val|d0]. Qed.
Lemma depth_thunk lo t nc pp arg spur : depth lo (thunk_op t nc pp arg spur).
Proof.
  unfold thunk_op. db. cbv zeta. destruct (match nc with NCNominal _ => _ | _ => nc end); [d0|d0| |].
  - destruct (table _ !! _); [d0|]. apply depth_bind; [apply depth_push|]. intros _. dd.
  - apply depth_bind; [dd|]. intros [[x1 x2] x3]. db. apply depth_bind; [apply depth_if; [apply depth_dirty_alloc|d0]|]. intros _. db.
    apply depth_bind; [apply depth_push|]. intros _. apply depth_bind; [apply depth_if; d0|]. intros _. d0.
Qed.
Lemma depth_finish lo l dup pure t r : depth lo (force_finish l dup pure t r).
Proof. unfold force_finish. apply depth_bind; [apply depth_if; [d0|apply depth_push]|]. intros _. d0. Qed.
Lemma depth_force_loc prod cln t l cyc : (∀ t l, depth 1 (prod t l)) → (∀ t w l, depth 1 (cln t w l)) → depth 1 (force_loc prod cln t l cyc).
Proof.
  intros HP HC. unfold force_loc. db. cbv zeta. db. destruct a0 as [| |c].
  1,2: db; apply depth_finish.
  destruct (is_cycle _ _); [destruct cyc; [|d0]; db; db; apply depth_finish|]. destruct (c_res c).
  - db. apply depth_bind; [apply HC|]. intros _. db. db. match goal with x : node |- _ => destruct x as [| |c'] end; [d0..|].
    destruct (c_res c'); [apply depth_finish|d0].
  - db. apply depth_bind; [apply depth_assert; done|]. intros _. apply depth_bind; [apply HP|]. intros r. db. apply depth_finish.
Qed.
Lemma depth_run frc c : (∀ t l cyc, depth 1 (frc t l cyc)) → depth 0 (run frc c).
Proof.
  intros HF. induction c as [v0| |t a cyc k IH|t a f0 k IH|t a f0 k IH|t nm v0 k IH|t nc pp arg spur k IH|t a v0 k IH|nm b IHb k IH|b IHb k IH]; simpl.
  - d0.
  - apply depth_fail.
  - apply depth_bind; [|intros; apply IH]. destruct a; [d0|apply (depth_weaken _ 1), HF].
  - apply depth_bind; [|intros; apply IH]. destruct a as [|l]; simpl; [d0|]. db.
    match goal with x : node |- _ => destruct x end; [|apply depth_bind; [apply (depth_weaken _ 1), HF|intros; d0]..]. db. db. apply depth_bind; [apply depth_push|]. intros _. d0.
  - apply depth_bind; [|intros; apply IH]. destruct a as [|l]; simpl; [d0|]. db.
    match goal with x : node |- _ => destruct x end; [|apply depth_bind; [apply (depth_weaken _ 1), HF|intros; d0]..]. db. db. apply depth_bind; [apply depth_push|]. intros _. d0.
  - apply depth_bind; [apply depth_cell|]. intros. apply IH.
  - apply depth_bind; [apply depth_thunk|]. intros. apply IH.
  - apply depth_bind; [apply depth_set|]. intros. apply IH.
  - db. db. apply depth_bind; [apply IHb|]. intros. db. apply IH.
  - db. db. apply depth_bind; [apply IHb|]. intros. db. apply IH.
Qed.
Lemma depth_insert lo l es : depth lo (insert_preds l es). Proof. apply depth_mfor. intros [e pd]. dd. Qed.
Lemma thunk_at_ty s s' x : ty_le (table s) (table s') → thunk_at s x → thunk_at s' x.
Proof. intros Ht [c Hc]. destruct (Ht _ _ Hc) as (nd & Hn & _ & Hk). destruct nd as [| |c']; [by specialize (Hk eq_refl)..|]. by exists c'. Qed.
Lemma depth_produce_body frc t l : (∀ t l cyc, depth 1 (frc t l cyc)) → (∀ t l cyc s, pre (frc t l cyc) s) → depth 1 (produce_body frc t l).
Proof.
  intros HF HFp s. unfold produce_body.
  assert (Hb : match produce_begin t l s with
    | (OVal _, s') => locs s' = l :: locs s ∧ thunk_at s' l
    | (OPanic r, s') => (∃ xs, locs s' = xs ++ locs s ∧ ∀ x, x ∈ xs → thunk_at s' x) ∧ r ≠ PUser | _ => True end).
  { unfold produce_begin, bind at 1. assert (Hr := depth_res 2 t l s). destruct (res_node t l s) as [[nd|r|] s1] eqn:E1; [|done..].
    apply res_node_inv in E1 as (-> & Hnd & Hty). clear Hr.
    destruct nd as [| |c]; [split; [apply grown_refl|done]..|]. unfold bind at 1. simpl. unfold bind at 1.
    set (s1 := set_table (<[l:=NComp (with_succs [] c)]> (table s)) s).
    assert (Hv := depth_revoke 2 l (c_succs c) s1).
    assert (Hp := pre_revoke l (c_succs c) s1). unfold post in Hp.
    destruct (revoke_succs l (c_succs c) s1) as [[[]|r|] s2]; [|by destruct Hv|done]. unfold bind at 1. simpl. unfold bind at 1. simpl. unfold bind at 1. simpl. unfold bind at 1.
    set (s3 := set_cpath _ _).
    assert (locs s3 = l :: locs s) as H3 by (unfold locs; simpl; f_equal; exact Hv).
    assert (thunk_at s3 l) as Ht3.
    { apply (thunk_at_ty s1 s2); [apply Hp|]. eexists. unfold s1. simpl. apply lookup_insert. }
    destruct (res_node t l s3) as [[nd|r|] s4] eqn:E4.
    - apply res_node_inv in E4 as (-> & Hnd4 & _). destruct Ht3 as [c3 Hc3]. rewrite Hnd4 in Hc3. injection Hc3 as ->.
      simpl. split; [done|]. by exists c3.
    - assert (Hr2 := depth_res 2 t l s3). rewrite E4 in Hr2. simpl in Hr2. destruct Hr2 as [(xs & Hx & Hxs) Hr2]. split; [|done].
      exists (xs ++ [l]). split; [by rewrite Hx, H3, <- (assoc_L (++))|].
      assert (s4 = s3) as ->.
      { unfold res_node, lookup_abs, bind, get in E4. destruct (table s3 !! l); simpl in E4; [|by injection E4].
        unfold assert in E4. destruct (bool_decide _); by injection E4. }
      intros x [Hin|Hin%elem_of_list_singleton]%elem_of_app; [auto|by subst].
    - done. }
  unfold bind at 1. destruct (produce_begin t l s) as [[[c prev]|r|] s1]; [|destruct Hb; split; [done|by apply deeper_no]|done].
  destruct Hb as [Hb Hbt]. unfold bind at 1. simpl. unfold bind at 1.
  assert (Hr := depth_run frc (code (c_pp c) (c_arg c) (c_spur c)) HF (add_run l s1)).
  assert (Hrp := pre_run frc (code (c_pp c) (c_arg c) (c_spur c)) (add_run l s1) HFp). unfold post in Hrp.
  assert (Hlen : length (stack s1) = S (length (stack s))) by (rewrite <- !locs_length; by rewrite Hb).
  destruct (run frc _ (add_run l s1)) as [[r|r|] s2]; [| |done].
  2:{ destruct Hr as [(xs & Hx & Hxs) _]. change (locs (add_run l s1)) with (locs s1) in Hx. split.
      - exists (xs ++ [l]). split; [by rewrite Hx, Hb, <- (assoc_L (++))|].
        intros x [Hin|Hin%elem_of_list_singleton]%elem_of_app; [auto|subst x].
        eapply (thunk_at_ty (add_run l s1)); [apply Hrp|done].
      - intros _. rewrite <- (locs_length s2), Hx, app_length, locs_length. lia. }
  change (locs (add_run l s1)) with (locs s1) in Hr. rewrite Hb in Hr.
  assert (He : match produce_end t l prev r s2 with
    | (OVal _, s') => locs s' = locs s
    | (OPanic r, s') => (∃ xs, locs s' = xs ++ locs s ∧ ∀ x, x ∈ xs → thunk_at s' x) ∧ r ≠ PUser | _ => True end).
  { unfold produce_end, bind at 1. simpl. unfold bind at 1. simpl. unfold locs in Hr. destruct (stack s2) as [|f fs] eqn:Est; [done|].
    unfold bind at 1. simpl. set (s3 := set_stack fs _). injection Hr as Hfl Hfs.
    assert (Hm : depth 2 (assert (bool_decide (f_loc f = l)) PAssert ;!
        insert_preds l (f_succs f) ;!
        let! nd := res_node t l in
        match nd with NComp c => put_node l (NComp (with_res (Some r) (with_succs (f_succs f).*1 c))) | _ => panic PInternal end)).
    { db. apply depth_bind; [apply depth_insert|]. intros _. db. match goal with x : node |- _ => destruct x end; d0. }
    specialize (Hm s3). cbv beta in Hm. assert (locs s3 = locs s) as Hl3 by exact Hfs. rewrite Hl3 in Hm.
    destruct (bind _ _ s3) as [[[]|r'|] s4]; done. }
  unfold bind. destruct (produce_end t l prev r s2) as [[[]|r'|] s3]; simpl in *; [done| |done].
  destruct He as [He Hr']. split; [done|]. by apply (deeper_no 1).
Qed.
Lemma depth_clean_comp prod cln t w l cache es :
  (∀ t l, depth 1 (prod t l)) → (∀ t w l, depth 1 (cln t w l)) → depth 1 (clean_comp prod cln t w l cache es).
Proof.
  intros HP HC. induction es as [|e es IH]; simpl; [d0|]. apply depth_bind; [apply depth_get_dirty|]. intros [|]; [|exact IH]. db.
  apply depth_bind. { unfold dep_clean. destruct (s_dep e); first [apply HC|apply depth_cfm|d0]. }
  intros [|].
  - db. apply depth_bind; [apply HP|]. intros r. dd.
  - apply depth_bind; [apply depth_set_dirty|]. intros _. db. db. exact IH.
Qed.
Lemma depth_clean_body prod cln t w l :
  (∀ t l, depth 1 (prod t l)) → (∀ t w l, depth 1 (cln t w l)) → depth 1 (clean_body prod cln t w l).
Proof.
  intros HP HC. unfold clean_body. db. destruct a as [| |c]; [d0..|]. destruct (c_res c); [by apply depth_clean_comp|].
  db. apply depth_bind; [apply HP|]. intros r. dd.
Qed.
Lemma depth_knot n : (∀ t l, depth 1 (produce n t l)) ∧ (∀ t w l, depth 1 (clean n t w l)).
Proof.
  induction n as [|n [IHp IHc]]; split; intros; simpl; [d0..| |].
  - apply depth_produce_body; [intros; by apply depth_force_loc|]. intros. apply pre_force_loc; apply pre_produce_clean.
  - by apply depth_clean_body.
Qed.
Lemma depth_force n t l cyc : depth 1 (force n t l cyc).
Proof. destruct (depth_knot n). by apply depth_force_loc. Qed.

(** [later s s']: the client went on using the engine, from state [s] to state [s'], running any programs at all
    (they may end with values or with panics that the client caught). *)
Inductive later : dcg → dcg → Prop :=
  | L_refl s : later s s
  | L_step s s1 s2 n c o : later s s1 → exec n c s1 = (o, s2) → o ≠ OFuel → later s s2.
Lemma later_locs s s' : later s s' → (∃ xs, locs s' = xs ++ locs s) ∧ ∀ x, thunk_at s x → thunk_at s' x.
Proof.
  induction 1 as [|s s1 s2 n c o _ [(xs & IH) IHt] E Ho]; [split; [by exists []|done]|].
  assert (Hd := depth_run (force n) c (depth_force n) s1). change (run (force n) c) with (exec n c) in Hd. rewrite E in Hd. split.
  - destruct o; [|destruct Hd as [(ys & Hd & _) _]|done]; rewrite Hd, IH; [by exists xs|]. exists (ys ++ xs). by rewrite (assoc_L (++)).
  - intros x Hx. eapply thunk_at_ty; [|by apply IHt]. exact (ap_ty _ _ (exec_anyp _ _ _ _ _ E)).
Qed.
Lemma user_panic_locs n t l cyc s s1 : stack s = [] → force n t l cyc s = (OPanic PUser, s1) →
  locs s1 ≠ [] ∧ ∀ x, x ∈ locs s1 → thunk_at s1 x.
Proof.
  intros Hst E. assert (Hd := depth_force n t l cyc s). rewrite E, Hst in Hd. destruct Hd as [(xs & Hx & Hxs) Hd]. simpl in Hd. specialize (Hd eq_refl).
  assert (locs s = []) as E0 by (unfold locs; by rewrite Hst). rewrite E0, app_nil_r in Hx. rewrite Hx. split; [|done].
  intros ->. rewrite <- locs_length, Hx in Hd. simpl in Hd. lia.
Qed.

(** C29, the panic.  A demand outside every thunk during which user code panicked: from then on, whatever the client
    does with the engine, no cell can be set any more, whatever cell and value, and the attempt changes nothing. *)
Theorem C29_no_set_after_user_panic n t l cyc s s1 s2 :
  stack s = [] → force n t l cyc s = (OPanic PUser, s1) → later s1 s2 →
  ∀ t' l' v, set_op t' (ALoc l') v s2 = (OPanic PSetInThunk, s2).
Proof.
  intros Hst E [(xs & Hl) _]%later_locs t' l' v. destruct (user_panic_locs _ _ _ _ _ _ Hst E) as [Hne _].
  unfold set_op, bind, get. destruct (stack s2) eqn:Es; [|done]. unfold locs at 1 in Hl. rewrite Es in Hl. simpl in Hl.
  symmetry in Hl. by apply app_nil in Hl as [_ ?].
Qed.
End Limits.

(** Witnesses: a user panic outside every thunk (C29); a cell observed only through [force_abs] (C22). *)
Lemma ex_user_panic : ∃ s s1, stack s = [] ∧ @force demo 30 T0 (at_ "t") None s = (OPanic PUser, s1).
Proof.
  exists (@exec demo 30 prog_before_panic dcg_new).2, (@force demo 30 T0 (at_ "t") None (@exec demo 30 prog_before_panic dcg_new).2).2.
  split; [vm_compute; reflexivity|].
  assert ((@force demo 30 T0 (at_ "t") None (@exec demo 30 prog_before_panic dcg_new).2).1 = OPanic PUser) as E by (vm_compute; reflexivity).
  rewrite <- E. apply surjective_pairing.
Qed.
Lemma ex_abs_only : let s := (@exec demo 30 (cell0 "c" 1 (λ c, thunk0 "t" "abs" (VLoc c) (λ t, demand0 t Ret))) dcg_new).2 in
  stack s = [] ∧ ∃ ps, table s !! at_ "c" = Some (NMut T0 ps (VInt 1)) ∧ ps ≠ [] ∧
    ∀ pr, pr ∈ ps → p_eff pr = Observe ∧ p_dep pr = Some DForceAbs.
Proof.
  split; [vm_compute; reflexivity|].
  exists [Pred (at_ "t") Observe (Some DForceAbs)]. split; [vm_compute; reflexivity|]. split; [done|]. by intros pr ->%elem_of_list_singleton.
Qed.
