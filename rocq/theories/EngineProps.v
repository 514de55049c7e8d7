(** * C07, C08, C12-C18: properties of the single operations, in arbitrary engine states. *)
From Verif Require Export Demands.

Section EngineProps.
Context `{Prog}.

(** ** C07. Editing never evaluates. *)
Theorem C07_edits_do_not_evaluate s s' t n v o :
  cell_op t n v s = (o, s') → runs s' = runs s.
Proof. intros E. destruct (post_elim _ _ _ _ _ (cell_op_any t n v s) E) as [_ [] _ _ _ _]. done. Qed.
Theorem C07_set_does_not_evaluate s s' t a v o :
  set_op t a v s = (o, s') → runs s' = runs s.
Proof. intros E. destruct (post_elim _ _ _ _ _ (set_op_any t a v s) E) as (_ & [] & _). done. Qed.
Theorem C07_thunk_does_not_evaluate s s' t nc pp arg spur o :
  thunk_op t nc pp arg spur s = (o, s') → runs s' = runs s.
Proof. intros E. destruct (post_elim _ _ _ _ _ (thunk_op_any t nc pp arg spur s) E) as [_ [] _ _ _ _]. done. Qed.

(** A program without [force], [force_map] and [force_abs]. *)
Fixpoint no_demand (c : comp) : Prop :=
  match c with
  | Ret _ | Fail => True
  | Force _ _ _ _ | ForceMap _ _ _ _ | ForceAbs _ _ _ _ => False
  | Cell _ _ _ k | Thunk _ _ _ _ _ k => ∀ l, no_demand (k l)
  | SetC _ _ _ k => no_demand k
  | Ns _ b k | Structural b k => no_demand b ∧ ∀ v, no_demand (k v)
  end.
Theorem C07_edit_programs_do_not_evaluate k c s o s' :
  no_demand c → exec k c s = (o, s') → o ≠ OFuel ∧ runs s' = runs s.
Proof.
  intros Hc E.
  assert (Hp : post (run (force k) c) s (λ o s', o ≠ OFuel ∧ runs s' = runs s)); [|exact (post_elim _ _ _ _ _ Hp E)].
  clear E o s'. revert s. induction c as [v0| |t a cyc k0 IH|t a f0 k0 IH|t a f0 k0 IH|t nm v0 k0 IH|t nc pp arg spur k0 IH|t a v0 k0 IH|nm b IHb k0 IH|b IHb k0 IH];
    intros s; cbn [run no_demand] in *; try done.
  - apply post_bind, post_intro. intros o s' E. unfold kont.
    assert (E' := C07_edits_do_not_evaluate _ _ _ _ _ _ E). destruct (post_elim _ _ _ _ _ (cell_op_any t nm v0 s) E) as [? _ _ _ _ _].
    destruct o; try done. rewrite <- E'. apply IH, Hc.
  - apply post_bind, post_intro. intros o s' E. unfold kont.
    assert (E' := C07_thunk_does_not_evaluate _ _ _ _ _ _ _ _ E). destruct (post_elim _ _ _ _ _ (thunk_op_any t nc pp arg spur s) E) as [? _ _ _ _ _].
    destruct o; try done. rewrite <- E'. apply IH, Hc.
  - apply post_bind, post_intro. intros o s' E. unfold kont.
    assert (E' := C07_set_does_not_evaluate _ _ _ _ _ _ E). destruct (post_elim _ _ _ _ _ (set_op_any t a v0 s) E) as (? & _).
    destruct o; try done. rewrite <- E'. by apply IH.
  - destruct Hc as [Hb Hk]. apply post_bind, post_get, post_bind, post_modify. unfold kont. apply post_bind.
    eapply post_mono; [by apply IHb|]. intros o s1 [Ho Hr]. unfold kont. destruct o; try done.
    apply post_bind, post_modify. unfold kont. eapply post_mono; [by apply IH|]. intros o s2 [? ?]. split; [done|]. simpl in *. congruence.
  - destruct Hc as [Hb Hk]. apply post_bind, post_get, post_bind, post_modify. unfold kont. apply post_bind.
    eapply post_mono; [by apply IHb|]. intros o s1 [Ho Hr]. unfold kont. destruct o; try done.
    apply post_bind, post_modify. unfold kont. eapply post_mono; [by apply IH|]. intros o s2 [? ?]. split; [done|]. simpl in *. congruence.
Qed.

(** ** C08. Dirtying terminates in every state and, apart from the edited location, only raises dirty bits:
    [node_raised] allows nothing but dirty flags going from clean to dirty. *)
Theorem C08_set_only_dirties s s' t l v o :
  set_op t (ALoc l) v s = (o, s') →
  o ≠ OFuel ∧ same_rest s s' ∧ ∀ x, x ≠ l → onode_raised (table s !! x) (table s' !! x).
Proof.
  intros E. destruct (post_elim _ _ _ _ _ (set_op_any t (ALoc l) v s) E) as (? & ? & Hx & _). split; [done|].
  split; [done|]. intros x Hne. apply Hx. congruence.
Qed.
Theorem C08_thunk_only_dirties s s' t nc pp arg spur o :
  thunk_op t nc pp arg spur s = (o, s') →
  o ≠ OFuel ∧ rest_push (thunk_loc s nc pp arg) s s' ∧
  ∀ x, x ≠ thunk_loc s nc pp arg → onode_raised (table s !! x) (table s' !! x).
Proof. intros E. by destruct (post_elim _ _ _ _ _ (thunk_op_any t nc pp arg spur s) E) as [? ? ? _ _ _]. Qed.
Theorem C08_cell_only_dirties s s' t n v o :
  cell_op t n v s = (o, s') →
  o ≠ OFuel ∧ rest_push (cell_loc s n v) s s' ∧
  ((∀ c, table s !! cell_loc s n v ≠ Some (NComp c)) →
   ∀ x, x ≠ cell_loc s n v → onode_raised (table s !! x) (table s' !! x)).
Proof. intros E. by destruct (post_elim _ _ _ _ _ (cell_op_any t n v s) E) as [? ? _ ? _ _]. Qed.
(** A cell over a thunk's name additionally removes reverse entries of that thunk. *)
Theorem C08_cell_over_thunk s s' t n v o :
  cell_op t n v s = (o, s') →
  ∀ x, x ≠ cell_loc s n v → onode_dropped (cell_loc s n v) (table s !! x) (table s' !! x).
Proof. intros E. by destruct (post_elim _ _ _ _ _ (cell_op_any t n v s) E) as [_ _ ? _ _ _]. Qed.

(** ** C12. Identity of nominal allocations. *)
(** [c] inside nested namespaces, outermost first. *)
Fixpoint in_ns (ns : list name) (c : comp) : comp :=
  match ns with [] => c | n :: ns => Ns n (in_ns ns c) Ret end.
Definition new_cell (t : ty) (n : name) (v : val) : comp := Cell t n v (λ l, Ret (VLoc l)).
Definition new_thunk (t : ty) (n : name) (pp : progpt) (arg spur : val) : comp :=
  Thunk t (NCNominal n) pp arg spur (λ l, Ret (VLoc l)).
(** A nominal allocation. *)
Definition nominal_alloc (c : comp) (n : name) : Prop :=
  (∃ t v, c = new_cell t n v) ∨ (∃ t pp arg spur, c = new_thunk t n pp arg spur).

Lemma alloc_loc k c n s v s' : nominal_alloc c n → structf s = false → exec k c s = (OVal v, s') →
  v = VLoc (Loc (cpath s) (IdNom n)) ∧ cpath s' = cpath s ∧ structf s' = structf s.
Proof.
  intros Hc Hst E. assert (Hx := exec_ctx k c s v s' E). destruct Hx as [Hcp Hsf _ _]. split; [|done].
  destruct Hc as [(t & w & ->)|(t & pp & arg & spur & ->)]; unfold exec, new_cell, new_thunk in E; cbn [run] in E; unfold bind in E.
  - destruct (cell_op t n w s) as [[l|r|] s1] eqn:E1; try done. injection E as <- <-.
    destruct (post_elim _ _ _ _ _ (cell_op_any t n w s) E1) as [_ _ _ _ _ Hv]. destruct (Hv _ eq_refl) as [-> _].
    unfold cell_loc. by rewrite Hst.
  - destruct (thunk_op t (NCNominal n) pp arg spur s) as [[l|r|] s1] eqn:E1; try done. injection E as <- <-.
    destruct (post_elim _ _ _ _ _ (thunk_op_any _ _ _ _ _ s) E1) as [_ _ _ _ _ Hv]. destruct (Hv _ eq_refl) as [-> _].
    unfold thunk_loc. by rewrite Hst.
Qed.
Lemma in_ns_loc k ns c n s v s' : nominal_alloc c n → structf s = false → exec k (in_ns ns c) s = (OVal v, s') →
  v = VLoc (Loc (rev ns ++ cpath s) (IdNom n)).
Proof.
  intros Hc. revert s s'. induction ns as [|m ns IH]; intros s s' Hst E; cbn [in_ns] in E.
  - by destruct (alloc_loc _ _ _ _ _ _ Hc Hst E) as [-> _].
  - unfold exec in E. cbn [run] in E. rewrite (bind_val get _ s s s) in E by done.
    rewrite (bind_val (modify _) _ s tt (set_cpath (m :: cpath s) s)) in E by done. unfold bind at 1 in E.
    destruct (run (force k) (in_ns ns c) (set_cpath (m :: cpath s) s)) as [[w|r|] s1] eqn:E1; try done.
    injection E as -> <-. rewrite (IH (set_cpath (m :: cpath s) s) s1 Hst E1). simpl. by rewrite <- (assoc_L (++)).
Qed.
(** Two nominal allocations, made by any two programs, possibly in different engine states, at any namespace
    nesting: same art iff same namespace and same name. *)
Theorem C12_art_identity k1 k2 ns1 ns2 c1 c2 n1 n2 s1 s2 v1 v2 s1' s2' :
  nominal_alloc c1 n1 → nominal_alloc c2 n2 →
  structf s1 = false → structf s2 = false → cpath s1 = cpath s2 →
  exec k1 (in_ns ns1 c1) s1 = (OVal v1, s1') → exec k2 (in_ns ns2 c2) s2 = (OVal v2, s2') →
  v1 = v2 ↔ ns1 = ns2 ∧ n1 = n2.
Proof.
  intros H1 H2 Hs1 Hs2 Hcp E1 E2. rewrite (in_ns_loc _ _ _ _ _ _ _ H1 Hs1 E1), (in_ns_loc _ _ _ _ _ _ _ H2 Hs2 E2), Hcp. split.
  - intros [= Hp ->]. split; [|done]. apply app_inv_tail in Hp. rewrite <- (rev_involutive ns1), Hp. by rewrite rev_involutive.
  - by intros [-> ->].
Qed.

(** ** C13. Context is restored. *)
Theorem C13_context_restored k c s v s' :
  exec k c s = (OVal v, s') →
  cpath s' = cpath s ∧ structf s' = structf s ∧ (f_loc <$> stack s') = (f_loc <$> stack s) ∧
  (stack s = [] → stack s' = []).
Proof.
  intros E. destruct (exec_ctx k c s v s' E) as [Hc Hs Hst _]. split_and!; [done|done| |].
  - destruct (stack s) as [|f fs]; simpl in Hst; [by rewrite Hst|]. destruct Hst as [E' ->]. done.
  - intros Hn. by rewrite Hn in Hst.
Qed.
(** Also for each single demand made anywhere. *)
Theorem C13_force_context k t l cyc s v s' :
  force k t l cyc s = (OVal v, s') →
  cpath s' = cpath s ∧ structf s' = structf s ∧ (f_loc <$> stack s') = (f_loc <$> stack s) ∧
  ∀ f fs, stack s = f :: fs → ∃ E, stack s' = Frame (f_loc f) (f_succs f ++ E) :: fs.
Proof.
  intros E. assert (exec k (Force t (ALoc l) cyc Ret) s = (OVal v, s')) as E'.
  { unfold exec. cbn [run force_art]. by rewrite (bind_val _ _ _ _ _ E). }
  destruct (exec_ctx k _ s v s' E') as [Hc Hs Hst _]. split_and!; [done|done| |].
  - destruct (stack s) as [|f fs]; simpl in Hst; [by rewrite Hst|]. destruct Hst as [E0 ->]. done.
  - intros f fs Hfs. by rewrite Hfs in Hst.
Qed.

(** ** C14. [set] while a thunk is executing. *)
Theorem C14_set_in_thunk_panics s t a v :
  stack s ≠ [] → ∃ r, set_op t a v s = (OPanic r, s) ∧ (r = PSetInThunk ∨ ∃ w, a = ARc w ∧ r = PNotCell).
Proof.
  intros Hst. unfold set_op. destruct a as [w|l]; [by eexists; split; [reflexivity|eauto]|].
  rewrite (bind_val get _ s s s) by done. destruct (stack s) as [|f fs]; [done|]. eexists. split; [reflexivity|by left].
Qed.

(** ** C15. Types. *)
Theorem C15_types_never_change k c s o s' l nd :
  exec k c s = (o, s') → table s !! l = Some nd → ∃ nd', table s' !! l = Some nd' ∧ node_ty nd' = node_ty nd.
Proof. intros E Hl. destruct (exec_anyp k c s o s' E) as [Hty _ _]. destruct (Hty _ _ Hl) as (nd' & ? & ? & _); eauto. Qed.
(** Access at a different type panics and changes nothing. *)
Lemma res_node_bad t l s nd : table s !! l = Some nd → node_ty nd ≠ t → res_node t l s = (OPanic PType, s).
Proof.
  intros Hl Ht. unfold res_node, bind. rewrite (lookup_abs_eq _ _ _ Hl). by rewrite bool_decide_false.
Qed.
Lemma bind_panic {A B} (m : M A) (f : A → M B) s r s' : m s = (OPanic r, s') → bind m f s = (OPanic r, s').
Proof. intros E. unfold bind. by rewrite E. Qed.
Theorem C15_force_checked k t l cyc s nd :
  table s !! l = Some nd → node_ty nd ≠ t → force k t l cyc s = (OPanic PType, s).
Proof.
  intros Hl Ht. unfold force, force_loc. rewrite (bind_val get _ s s s) by done. by apply bind_panic, (res_node_bad _ _ _ nd).
Qed.
Theorem C15_force_map_checked k t l f s nd :
  table s !! l = Some nd → node_ty nd ≠ t → force_map_art (force k) t (ALoc l) f s = (OPanic PType, s).
Proof. intros Hl Ht. by apply bind_panic, (res_node_bad _ _ _ nd). Qed.
Theorem C15_force_abs_checked k t l f s nd :
  table s !! l = Some nd → node_ty nd ≠ t → force_abs_art (force k) t (ALoc l) f s = (OPanic PType, s).
Proof. intros Hl Ht. by apply bind_panic, (res_node_bad _ _ _ nd). Qed.
Theorem C15_set_checked t l v s nd :
  stack s = [] → table s !! l = Some nd → node_ty nd ≠ t → set_op t (ALoc l) v s = (OPanic PType, s).
Proof.
  intros Hst Hl Ht. unfold set_op. rewrite (bind_val get _ s s s) by done. rewrite Hst. by apply bind_panic, (res_node_bad _ _ _ nd).
Qed.
Theorem C15_cell_checked t n v s nd :
  table s !! cell_loc s n v = Some nd → node_ty nd ≠ t → cell_op t n v s = (OPanic PType, s).
Proof.
  intros Hl Ht. unfold cell_op. rewrite (bind_val get _ s s s) by done. cbv zeta. unfold cell_loc in Hl. rewrite Hl.
  apply bind_panic, bind_panic. by apply (res_node_bad _ _ _ nd).
Qed.
Theorem C15_thunk_checked t n pp arg spur s nd :
  structf s = false → table s !! Loc (cpath s) (IdNom n) = Some nd → node_ty nd ≠ t →
  thunk_op t (NCNominal n) pp arg spur s = (OPanic PType, s).
Proof.
  intros Hs Hl Ht. unfold thunk_op. rewrite (bind_val get _ s s s) by done. rewrite Hs. cbv zeta. rewrite Hl.
  apply bind_panic, bind_panic. by rewrite bool_decide_false.
Qed.
(** An access that returns was at the right type. *)
Theorem C15_force_at_type k t l cyc s v s' :
  force k t l cyc s = (OVal v, s') → ∃ nd, table s !! l = Some nd ∧ node_ty nd = t.
Proof.
  intros E. destruct (table s !! l) as [nd|] eqn:Hl.
  - exists nd. split; [done|]. destruct (decide (node_ty nd = t)); [done|]. by rewrite (C15_force_checked _ _ _ _ _ _ Hl) in E.
  - unfold force, force_loc in E. rewrite (bind_val get _ s s s) in E by done. cbv zeta in E.
    rewrite (bind_panic _ _ s PDangling s) in E; [done|]. apply bind_panic. unfold lookup_abs, bind, get. by rewrite Hl.
Qed.

(** ** C16. A name re-used for a different function. *)
Theorem C16_different_function_panics t n pp arg spur s c :
  structf s = false → table s !! Loc (cpath s) (IdNom n) = Some (NComp c) → c_ty c = t → c_pp c ≠ pp →
  thunk_op t (NCNominal n) pp arg spur s = (OPanic PFun, s).
Proof.
  intros Hs Hl Ht Hpp. unfold thunk_op. rewrite (bind_val get _ s s s) by done. rewrite Hs. cbv zeta. rewrite Hl.
  apply bind_panic. rewrite (bind_val _ _ s tt s). 2:{ simpl. by rewrite bool_decide_true. } by rewrite decide_False.
Qed.

(** ** C17. Cycles. *)
Lemma is_cycle_true s l : l ∈ (f_loc <$> stack s) → is_cycle s l = true.
Proof.
  intros (f & -> & Hf)%elem_of_list_fmap. unfold is_cycle. apply existsb_exists. exists f.
  split; [by apply elem_of_list_In|by apply bool_decide_eq_true_2].
Qed.
Theorem C17_cycle_panics k t l c s :
  l ∈ (f_loc <$> stack s) → table s !! l = Some (NComp c) → c_ty c = t →
  force k t l None s = (OPanic PCycle, s).
Proof.
  intros Hin Hl Ht. unfold force, force_loc. rewrite (bind_val get _ s s s) by done. cbv zeta.
  rewrite (bind_val _ _ s (NComp c) s) by (by apply res_node_eq). by rewrite (is_cycle_true _ _ Hin).
Qed.
Theorem C17_force_cycle_default k t l c s o :
  l ∈ (f_loc <$> stack s) → table s !! l = Some (NComp c) → c_ty c = t →
  ∃ s', force k t l (Some o) s = (OVal o, s') ∧ table s' = table s ∧ runs s' = runs s.
Proof.
  intros Hin Hl Ht. unfold force, force_loc. rewrite (bind_val get _ s s s) by done. cbv zeta.
  rewrite (bind_val _ _ s (NComp c) s) by (by apply res_node_eq). rewrite (is_cycle_true _ _ Hin).
  unfold force_finish. destruct (is_dup s l || _); (eexists; split; [reflexivity|]).
  - done.
  - unfold push_edge, modify. simpl. by destruct (stack s).
Qed.
(** No other thunk, and no cell, is treated as a cycle. *)
Theorem C17_no_false_cycle k t l c s :
  l ∉ (f_loc <$> stack s) → table s !! l = Some (NComp c) → c_ty c = t → c_res c = None →
  is_dup s l = false →
  force k t l None s = bind (emit (EvBegin (TForce CompCacheMiss) (cur_loc s) l) ;! produce k t l)
                            (λ r, emit EvEnd ;! force_finish l false (is_struct l && bool_decide (length (c_succs c) = O) && purity s) t r) s.
Proof.
  intros Hin Hl Ht Hres Hdup. unfold force, force_loc. rewrite (bind_val get _ s s s) by done. cbv zeta.
  rewrite (bind_val _ _ s (NComp c) s) by (by apply res_node_eq).
  assert (is_cycle s l = false) as ->.
  { apply not_true_is_false. unfold is_cycle. rewrite existsb_exists. intros (f & Hf & Hfl%bool_decide_eq_true_1).
    apply Hin. rewrite <- Hfl. apply elem_of_list_fmap_1. by apply elem_of_list_In. }
  rewrite Hres, Hdup. unfold bind. simpl. done.
Qed.
Theorem C17_cells_are_no_cycles k t l ps v s cyc :
  table s !! l = Some (NMut t ps v) → ∃ s', force k t l cyc s = (OVal v, s').
Proof.
  intros Hl. unfold force, force_loc. rewrite (bind_val get _ s s s) by done. cbv zeta.
  rewrite (bind_val _ _ s _ s) by (by apply res_node_eq). unfold force_finish.
  destruct (is_dup s l || _); eexists; reflexivity.
Qed.

(** ** C18. [force_map] prunes. *)
Section Prune.
Context (l : loc).
Definition keeps (s s' : dcg) : Prop :=
  (∃ t ps v, table s !! l = Some (NMut t ps v)) →
  table s' !! l = table s !! l ∧ ∀ x, nbit s' x Observe l = nbit s x Observe l.
Lemma keeps_refl s : keeps s s. Proof. by intros _. Qed.
Lemma keeps_trans s1 s2 s3 : keeps s1 s2 → keeps s2 s3 → keeps s1 s3.
Proof.
  intros K1 K2 Hl. destruct (K1 Hl) as [E1 N1]. destruct K2 as [E2 N2]; [by rewrite E1|]. split; [congruence|]. intros x. by rewrite N2.
Qed.
Lemma keeps_ev e s : keeps s (add_ev e s). Proof. by intros _. Qed.
Lemma keeps_upd q eff y c s : (eff, y) ≠ (Observe, l) → table s !! q = Some (NComp c) → keeps s (upd_bit true q eff y c s).
Proof.
  intros Hne Hq (t & ps & v & Hl). assert (q ≠ l) by congruence. split.
  - unfold upd_bit. simpl. by rewrite lookup_insert_ne.
  - intros x. unfold nbit, upd_bit. simpl. destruct (decide (x = q)) as [->|Hx].
    + rewrite lookup_insert, Hq. apply bit_mark_other. naive_solver.
    + by rewrite lookup_insert_ne.
Qed.
Lemma dirty_step_keeps rec q pd s :
  q ≠ l → (∀ x s, x ≠ l → post (rec x) s (λ _ s', keeps s s')) →
  (∃ t ps v, table s !! l = Some (NMut t ps v)) →
  post (dirty_step rec q pd) s (λ _ s', keeps s s').
Proof.
  intros Hq Hrec Hl. unfold dirty_step. apply post_bind. eapply (post_mono _ _ (λ o s', s' = s)).
  { destruct (pd.2) as [d|]; [|by apply post_ret]. destruct (is_absmap d); [by apply post_ret|].
    apply post_bind, post_dep_dirty; [|done]. intros b. by apply post_ret. }
  intros o s' ->. unfold kont. destruct o as [stop|r|]; try apply keeps_refl.
  apply post_bind. eapply (post_mono _ _ (λ o s', keeps s s' ∧ (o = OVal false → pd.1 ≠ l))).
  { destruct stop; [apply post_ret; split; [apply keeps_refl|done]|].
    apply post_bind, post_get_dirty; [|intros; split; [apply keeps_refl|done]]. intros c e Hc He. simpl.
    destruct (s_dirty e); [apply post_ret; split; [apply keeps_refl|done]|].
    apply post_bind, post_assert; [|intros; split; [apply keeps_refl|done]]. intros _.
    apply post_bind, post_emit, post_bind, post_set_dirty; [|intros; split; [apply keeps_ev|done]].
    intros c' e' Hc' He'. apply post_ret. split.
    - eapply keeps_trans; [apply keeps_ev|]. apply keeps_upd; [naive_solver|done].
    - intros _ Heq. destruct Hl as (t & ps & v & Hl). rewrite Heq in Hc. congruence. }
  intros o s1 [K1 Hne]. unfold kont. destruct o as [[]|r|]; [by apply post_ret| |done|done].
  apply post_bind. eapply post_mono; [by apply Hrec, Hne|]. intros o s2 K2. unfold kont.
  destruct o; [|by eapply keeps_trans..]. apply post_emit. eapply keeps_trans; [by eapply keeps_trans|apply keeps_ev].
Qed.
Lemma post_mfor_keeps {A} (xs : list A) (f : A → M unit) s :
  (∃ t ps v, table s !! l = Some (NMut t ps v)) →
  (∀ x s1, x ∈ xs → (∃ t ps v, table s1 !! l = Some (NMut t ps v)) → post (f x) s1 (λ _ s', keeps s1 s')) →
  post (mfor xs f) s (λ _ s', keeps s s').
Proof.
  revert s. induction xs as [|x xs IH]; intros s Hl Hf; cbn [mfor]; [apply post_ret, keeps_refl|].
  apply post_bind. eapply post_mono; [apply Hf; [by left|done]|]. intros o s1 K1. unfold kont.
  destruct o as [[]| |]; [|done|done]. eapply post_mono; [apply IH|].
  - destruct (K1 Hl) as [-> _]. done.
  - intros y s2 Hy. apply Hf. by right.
  - intros o s2 K2. by eapply keeps_trans.
Qed.
Lemma dirty_obs_keeps fuel : ∀ q s, q ≠ l → post (dirty_obs fuel q) s (λ _ s', keeps s s').
Proof.
  induction fuel as [|fuel IH]; intros q s Hq; [apply keeps_refl|]. cbn [dirty_obs].
  apply post_bind, post_lookup_abs; [|intros; apply keeps_refl]. intros nd Hnd. unfold kont.
  apply post_bind, post_of_opt; [|intros; apply keeps_refl]. intros ps Hps. unfold kont.
  apply post_intro. intros o s' E Hl. revert E Hl. intros E Hl.
  assert (Hk : post (mfor ps (dirty_step (dirty_obs fuel) q)) s (λ _ s', keeps s s')).
  { apply post_mfor_keeps; [done|]. intros pd s1 _ Hl1. by apply dirty_step_keeps. }
  exact (post_elim _ _ _ _ _ Hk E Hl).
Qed.
Lemma dirty_observers_keeps q s : q ≠ l → post (dirty_observers q) s (λ _ s', keeps s s').
Proof. intros Hq. exact (dirty_obs_keeps (dirty_fuel s) q s Hq). Qed.
End Prune.

(** The observers of cell [l] through which [x] watches it all use projections that the new value leaves unchanged. *)
Definition projections_unchanged (t : ty) (x : loc) (ps : list pred) (v : val) : Prop :=
  ∀ pr, pr ∈ ps → p_loc pr = x → p_eff pr = Observe →
    ∃ f w, p_dep pr = Some (DForceMap t f w) ∧ w = f v.

Lemma dirty_step_prune rec l x pd s t ps v :
  (∀ y s, y ≠ l → post (rec y) s (λ _ s', keeps l s s')) →
  table s !! l = Some (NMut t ps v) →
  (pd.1 = x → ∃ f w, pd.2 = Some (DForceMap t f w) ∧ w = f v) →
  post (dirty_step rec l pd) s (λ _ s', table s' !! l = table s !! l ∧ nbit s' x Observe l = nbit s x Observe l).
Proof.
  intros Hrec Hl Hpr. destruct (decide (pd.1 = x)) as [Hx|Hx].
  - destruct (Hpr Hx) as (f & w & Hd & Hw). unfold dirty_step. rewrite Hd. simpl.
    apply post_intro. intros o s' E. unfold bind at 1, bind at 1, check_force_map_dep in E.
    rewrite (bind_val _ _ s (NMut t ps v) s) in E by (by apply res_node_eq). simpl in E.
    rewrite bool_decide_false in E by (by rewrite <- Hw; intros Hn; apply Hn). simpl in E. by injection E as <- <-.
  - unfold dirty_step. apply post_bind. eapply (post_mono _ _ (λ o s', s' = s)).
    { destruct (pd.2) as [d|]; [|by apply post_ret]. destruct (is_absmap d); [by apply post_ret|].
      apply post_bind, post_dep_dirty; [|done]. intros b. by apply post_ret. }
    intros o s' ->. unfold kont. destruct o as [stop|r|]; try done.
    apply post_bind. eapply (post_mono _ _ (λ o s', (table s' !! l = table s !! l ∧ nbit s' x Observe l = nbit s x Observe l) ∧ (o = OVal false → pd.1 ≠ l))).
    { destruct stop; [by apply post_ret|].
      apply post_bind, post_get_dirty; [|done]. intros c e Hc He. simpl.
      destruct (s_dirty e); [by apply post_ret|].
      apply post_bind, post_assert; [|done]. intros Hne%bool_decide_eq_true_1.
      apply post_bind, post_emit, post_bind, post_set_dirty; [|done].
      intros c' e' Hc' He'. apply post_ret. split; [|done]. split.
      - unfold upd_bit. simpl. by rewrite lookup_insert_ne.
      - unfold nbit, upd_bit. simpl. by rewrite lookup_insert_ne. }
    intros o s1 [[K1 K1'] Hne]. unfold kont. destruct o as [[]|r|]; [by apply post_ret| |done|done].
    apply post_bind. eapply post_mono; [by apply Hrec, Hne|]. intros o s2 K2. unfold kont.
    destruct K2 as [K2 K2']; [rewrite K1; eauto|]. specialize (K2' x).
    destruct o; [apply post_emit| |]; split; simpl; try congruence. unfold nbit in *. simpl in *. congruence.
Qed.

Theorem C18_force_map_prunes s t l v o s' x ps v0 :
  table s !! l = Some (NMut t ps v0) → projections_unchanged t x ps v →
  set_op t (ALoc l) v s = (o, s') →
  nbit s' x Observe l = nbit s x Observe l.
Proof.
  intros Hl Hpr E. unfold set_op in E. rewrite (bind_val get _ s s s) in E by done.
  destruct (stack s); [|by injection E as <- <-]. unfold set_val in E.
  rewrite (bind_val _ _ s (NMut t ps v0) s) in E by (by apply res_node_eq).
  destruct (decide (v0 = v)); [by injection E as <- <-|].
  set (s1 := set_table (<[l:=NMut t ps v]> (table s)) s) in *.
  rewrite (bind_val _ _ s tt s1) in E by done.
  assert (table s1 !! l = Some (NMut t ps v)) as Hl1 by (simpl; by rewrite lookup_insert).
  assert (nbit s1 x Observe l = nbit s x Observe l) as Hn1.
  { unfold nbit. simpl. destruct (decide (x = l)) as [->|]; [by rewrite lookup_insert, Hl|by rewrite lookup_insert_ne]. }
  rewrite <- Hn1. clear Hn1.
  set (Q := λ s s', table s' !! l = table s !! l ∧ nbit s' x Observe l = nbit s x Observe l).
  assert (Hp : post (dirty_alloc l) s1 (λ _ s', Q s1 s')).
  2:{ by destruct (post_elim _ _ _ _ _ Hp E) as [_ ?]. }
  assert (Qrefl : ∀ s, Q s s) by done.
  assert (Qtr : ∀ s1 s2 s3, Q s1 s2 → Q s2 s3 → Q s1 s3) by (intros ??? [? ?] [? ?]; split; congruence).
  assert (Hfor : ∀ A (xs : list A) (f : A → M unit) s, table s !! l = Some (NMut t ps v) →
     (∀ y s1, y ∈ xs → table s1 !! l = Some (NMut t ps v) → post (f y) s1 (λ _ s', Q s1 s')) →
     post (mfor xs f) s (λ _ s', Q s s')).
  { intros A xs f. induction xs as [|y xs IH]; intros s0 Hl0 Hf; cbn [mfor]; [by apply post_ret|].
    apply post_bind. eapply post_mono; [apply Hf; [by left|done]|]. intros o0 s2 Q2. unfold kont.
    destruct o0 as [[]| |]; [|done|done]. eapply post_mono; [apply IH|].
    - destruct Q2 as [-> _]. done.
    - intros z s3 Hz. apply Hf. by right.
    - intros o0 s3 Q3. by eapply Qtr. }
  unfold dirty_alloc. apply post_bind. eapply (post_mono _ _ (λ _ s', Q s1 s')).
  { unfold dirty_observers. unfold post. change (post (dirty_obs (dirty_fuel s1) l) s1 (λ _ s', Q s1 s')).
    destruct (dirty_fuel s1) as [|fuel]; [done|]. cbn [dirty_obs].
    apply post_bind, post_lookup_abs; [|done]. intros nd Hnd. rewrite Hl1 in Hnd. injection Hnd as <-. unfold kont.
    apply post_bind, post_of_opt; [|done]. intros ps' [= <-]. unfold kont.
    apply Hfor; [done|]. intros pd s2 Hpd Hl2. eapply dirty_step_prune; [intros; by apply dirty_obs_keeps|done|].
    intros Hx. apply elem_of_list_omap in Hpd as (pr & Hin & Hd). destruct (decide _) as [He|]; [|done]. injection Hd as <-. simpl in *. by apply Hpr. }
  intros o0 s2 Q2. unfold kont. destruct o0 as [[]| |]; [|done|done].
  assert (table s2 !! l = Some (NMut t ps v)) as Hl2 by (destruct Q2 as [-> _]; done).
  apply post_bind, post_lookup_abs; [|done]. intros nd Hnd. unfold kont.
  apply post_bind, post_of_opt; [|done]. intros ps' Hps'. unfold kont.
  eapply post_mono; [apply Hfor; [done|]|intros o0 s3 Q3; by eapply Qtr].
  intros q s3 _ Hl3. unfold dirty_alloc_step. apply post_bind, post_get_dirty; [|done]. intros c e Hc He. unfold kont.
  destruct (s_dirty e); [by apply post_ret|]. apply post_bind, post_set_dirty; [|done]. intros c' e' Hc' He'. unfold kont.
  assert (q ≠ l) as Hql by congruence.
  assert (Q s3 (upd_bit true q Allocate l c' s3)) as Q4.
  { destruct (keeps_upd l q Allocate l c' s3) as [? ?]; [done|done|eauto|]. split; [done|auto]. }
  apply post_bind, post_assert; [|done]. intros _. unfold kont. apply post_bind, post_emit. unfold kont. apply post_bind.
  eapply post_mono; [exact (dirty_observers_keeps l q _ Hql)|]. intros o0 s5 K5. unfold kont.
  destruct K5 as [K5 K5']; [simpl; rewrite lookup_insert_ne by done; eauto|].
  assert (Q s3 s5) as Q5. { eapply Qtr; [exact Q4|]. split; [exact K5|apply K5']. }
  destruct o0; [|done|done]. apply post_emit. done.
Qed.
(** If every observer watches through unchanged projections and no thunk allocated the cell, nothing but the
    cell changes. *)
Theorem C18_nothing_dirtied s t l v ps v0 :
  stack s = [] → table s !! l = Some (NMut t ps v0) → v0 ≠ v →
  (∀ pr, pr ∈ ps → p_eff pr = Observe ∧ ∃ f w, p_dep pr = Some (DForceMap t f w) ∧ w = f v) →
  set_op t (ALoc l) v s = (OVal tt, set_table (<[l := NMut t ps v]> (table s)) s).
Proof.
  intros Hst Hl Hne Hpr. unfold set_op. rewrite (bind_val get _ s s s) by done. rewrite Hst. unfold set_val.
  rewrite (bind_val _ _ s (NMut t ps v0) s) by (by apply res_node_eq). rewrite decide_False by done.
  set (s1 := set_table _ s). rewrite (bind_val _ _ s tt s1) by done.
  assert (table s1 !! l = Some (NMut t ps v)) as Hl1 by (simpl; by rewrite lookup_insert).
  unfold dirty_alloc. rewrite (bind_val _ _ s1 tt s1).
  - rewrite (bind_val _ _ s1 (NMut t ps v) s1) by (by apply lookup_abs_eq).
    assert (preds_alloc (NMut t ps v) = Some []) as ->.
    { simpl. f_equal. clear -Hpr. induction ps as [|p ps IH]; [done|]. simpl.
      destruct (Hpr p ltac:(by left)) as [Hp _]. rewrite decide_False by (by rewrite Hp). apply IH. intros pr Hin. apply Hpr. by right. }
    done.
  - unfold dirty_observers. destruct (dirty_fuel s1) as [|fuel] eqn:Hf; [done|]. cbn [dirty_obs].
    rewrite (bind_val _ _ s1 (NMut t ps v) s1) by (by apply lookup_abs_eq). cbn [preds_obs of_opt].
    rewrite (bind_val (ret _) _ s1 _ s1 eq_refl).
    assert (∀ pds : list (loc * option dep), (∀ pd, pd ∈ pds → ∃ f w, pd.2 = Some (DForceMap t f w) ∧ w = f v) →
      mfor pds (dirty_step (dirty_obs fuel) l) s1 = (OVal tt, s1)) as Hm.
    { induction pds as [|pd pds IH]; intros Hpds; [done|]. cbn [mfor].
      rewrite (bind_val _ _ s1 tt s1).
      { apply IH. intros pd' Hin. apply Hpds. by right. }
      destruct (Hpds pd ltac:(by left)) as (f & w & Hd & Hw). unfold dirty_step. rewrite Hd. simpl.
      unfold bind at 1, bind at 1, check_force_map_dep.
      rewrite (bind_val _ _ s1 (NMut t ps v) s1) by (by apply res_node_eq). simpl.
      by rewrite bool_decide_false by (by rewrite <- Hw; intros Hn; apply Hn). }
    apply Hm. intros pd Hpd. apply elem_of_list_omap in Hpd as (pr & Hin & Hd). destruct (decide _) as [He|]; [|done]. injection Hd as <-.
    by destruct (Hpr _ Hin) as [_ ?].
Qed.
End EngineProps.
