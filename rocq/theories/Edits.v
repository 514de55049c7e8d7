(** * The editing operations [cell], [set], [thunk] in arbitrary states, with arbitrary outcomes. *)
From Verif Require Export Uncond.

(** Where [cell] and [thunk] allocate. *)
Definition cell_loc `{Prog} (s : dcg) (n : name) (v : val) : loc :=
  Loc (cpath s) (if structf s then IdStruct (hash_val v) else IdNom n).
Definition thunk_loc `{Prog} (s : dcg) (nc : namechoice) (pp : progpt) (arg : val) : loc :=
  Loc (cpath s) (match nc with NCNominal n => if structf s then IdStruct (hash_app pp arg) else IdNom n
                             | _ => IdStruct (hash_app pp arg) end).

(** The stack after an allocation: the executing thunk, if any, may have recorded one more
    dependency, on [l]. *)
Definition pushed (l : loc) (fs fs' : list frame) : Prop :=
  fs' = fs ∨ ∃ f fs0 d, fs = f :: fs0 ∧
    fs' = Frame (f_loc f) (f_succs f ++ [(Succ false l Allocate d, None)]) :: fs0.
(** Everything except the table, the trace and at most one new edge of the executing thunk. *)
Record rest_push (l : loc) (s s' : dcg) : Prop := {
  rp_stack : pushed l (stack s) (stack s');
  rp_cpath : cpath s' = cpath s;
  rp_structf : structf s' = structf s;
  rp_purity : purity s' = purity s;
  rp_runs : runs s' = runs s;
}.
Lemma pushed_nil l fs' : pushed l [] fs' → fs' = [].
Proof. by intros [?|(f & fs0 & d & ? & _)]. Qed.

(** A node with the predecessor entries of [l] possibly removed and bits possibly raised. *)
Definition node_dropped (l : loc) (nd nd' : node) : Prop :=
  ∃ nd1, (nd1 = nd ∨ preds_remove l nd = Some nd1) ∧ node_raised nd1 nd'.
Definition onode_dropped (l : loc) (o o' : option node) : Prop :=
  match o, o' with Some nd, Some nd' => node_dropped l nd nd' | None, None => True | _, _ => False end.

Lemma node_dropped_raised l nd nd' : node_raised nd nd' → node_dropped l nd nd'.
Proof. intros. exists nd. auto. Qed.
Lemma onode_dropped_raised l o o' : onode_raised o o' → onode_dropped l o o'.
Proof. destruct o, o'; simpl; try done. apply node_dropped_raised. Qed.
Lemma preds_remove_raised l n1 n2 n3 : node_raised n1 n2 → preds_remove l n2 = Some n3 →
  ∃ n1', preds_remove l n1 = Some n1' ∧ node_raised n1' n3.
Proof.
  destruct n1 as [t ps v|t v|c]; simpl.
  - intros ->. intros [= <-]. eexists. split; [done|]. done.
  - by intros ->.
  - intros (es & -> & He) [= <-]. eexists. split; [done|]. exists es. split; [done|]. done.
Qed.
Lemma filter_idem l (ps : list pred) : filter (λ p, p_loc p ≠ l) (filter (λ p, p_loc p ≠ l) ps) = filter (λ p, p_loc p ≠ l) ps.
Proof.
  induction ps as [|p ps IH]; [done|]. rewrite !filter_cons. destruct (decide (p_loc p ≠ l)); [|done].
  rewrite filter_cons. rewrite decide_True by done. by rewrite IH.
Qed.
Lemma preds_remove_idem l n1 n2 n3 : preds_remove l n1 = Some n2 → preds_remove l n2 = Some n3 → n3 = n2.
Proof. destruct n1 as [| |c]; simpl; intros [= <-]; simpl; intros [= <-]; [by rewrite filter_idem|].
  unfold with_preds. simpl. by rewrite filter_idem. Qed.
Lemma node_dropped_trans l n1 n2 n3 : node_dropped l n1 n2 → node_dropped l n2 n3 → node_dropped l n1 n3.
Proof.
  intros (n1' & Hd1 & H1) (n2' & [->|Hd2] & H2).
  - exists n1'. split; [done|by eapply node_raised_trans].
  - destruct (preds_remove_raised _ _ _ _ H1 Hd2) as (m & Hm & Hr). destruct Hd1 as [->|Hd1].
    + exists m. split; [by right|by eapply node_raised_trans].
    + assert (m = n1') as -> by by eapply preds_remove_idem. exists n1'. split; [by right|by eapply node_raised_trans].
Qed.
Lemma onode_dropped_trans l o1 o2 o3 : onode_dropped l o1 o2 → onode_dropped l o2 o3 → onode_dropped l o1 o3.
Proof. destruct o1, o2, o3; simpl; try done. apply node_dropped_trans. Qed.
Lemma onode_dropped_refl l o : onode_dropped l o o.
Proof. apply onode_dropped_raised, onode_raised_refl. Qed.

Section Edits.
Context `{Prog}.

Lemma push_edge_pushed l d s : rest_push l s (push_edge (Succ false l Allocate d) None s).2 ∧
  table (push_edge (Succ false l Allocate d) None s).2 = table s ∧ (push_edge (Succ false l Allocate d) None s).1 = OVal tt.
Proof.
  unfold push_edge, modify. simpl. destruct (stack s) as [|f fs] eqn:E; simpl.
  - split; [|done]. split; try done. by left.
  - split; [|done]. split; try done. right. exists f, fs, d. done.
Qed.
Lemma post_push l d s (Q : out unit → dcg → Prop) :
  (∀ s', rest_push l s s' → table s' = table s → Q (OVal tt) s') → post (push_edge (Succ false l Allocate d) None) s Q.
Proof. intros HQ. unfold post. destruct (push_edge_pushed l d s) as (? & ? & ->). by apply HQ. Qed.
Lemma rest_push_same l s0 s s' : same_rest s0 s → rest_push l s s' → rest_push l s0 s'.
Proof. intros [] []. split; congruence. Qed.
Lemma rest_push_refl l s : rest_push l s s.
Proof. split; [by left|done..]. Qed.
Lemma rest_push_r l s0 s s' : rest_push l s0 s → same_rest s s' → rest_push l s0 s'.
Proof. intros [] []. split; congruence. Qed.

(** [set] *)
Lemma set_val_any t l v s : post (set_val t l v) s (λ o s', o ≠ OFuel ∧ same_rest s s' ∧
  (∀ x, x ≠ l → onode_raised (table s !! x) (table s' !! x)) ∧
  (table s' !! l = table s !! l ∨
   ∃ ps v0, table s !! l = Some (NMut t ps v0) ∧ table s' !! l = Some (NMut t ps v)) ∧
  (o = OVal tt → ∃ ps v0, table s !! l = Some (NMut t ps v0) ∧ table s' !! l = Some (NMut t ps v))).
Proof.
  apply post_bind, post_res_node; unfold kont.
  2:{ intros r. split_and!; try done. - intros. apply onode_raised_refl. - by left. }
  intros nd Hl Ht. destruct nd as [t' ps v0|?|?].
  2,3: (apply post_panic; split_and!; try done; [intros; apply onode_raised_refl|by left]).
  simpl in Ht. subst t'.
  destruct (decide _) as [->|Hv].
  { apply post_ret. split_and!; try done; [intros; apply onode_raised_refl|by left|eauto]. }
  apply post_bind, post_put_node. unfold kont.
  eapply post_mono; [apply dirty_alloc_any|]. intros o s' [Ho [Hr Hs]]. simpl in Hr.
  assert (table s' !! l = Some (NMut t ps v)) as Hl'.
  { specialize (Hr l). rewrite lookup_insert in Hr. destruct (table s' !! l); simpl in Hr; [by subst|done]. }
  split; [done|]. split; [destruct Hs; split; done|]. split.
  { intros x Hx. specialize (Hr x). by rewrite lookup_insert_ne in Hr by done. }
  split; [right|intros _]; eauto.
Qed.

Lemma set_op_any t a v s : post (set_op t a v) s (λ o s', o ≠ OFuel ∧ same_rest s s' ∧
  (∀ x, a ≠ ALoc x → onode_raised (table s !! x) (table s' !! x)) ∧
  (∀ l, a = ALoc l → table s' !! l = table s !! l ∨
   ∃ ps v0, table s !! l = Some (NMut t ps v0) ∧ table s' !! l = Some (NMut t ps v)) ∧
  (o = OVal tt → ∃ l ps v0, a = ALoc l ∧ table s !! l = Some (NMut t ps v0) ∧ table s' !! l = Some (NMut t ps v))).
Proof.
  unfold set_op. destruct a as [w|l].
  { apply post_panic. split_and!; try done. intros; apply onode_raised_refl. }
  apply post_bind, post_get. unfold kont. destruct (stack s).
  2:{ apply post_panic. split_and!; try done. - intros. apply onode_raised_refl. - intros ? [= <-]. by left. }
  eapply post_mono; [apply set_val_any|]. intros o s' (? & ? & Hx & Hl & Ho). split_and!; try done.
  - intros x Hne. apply Hx. congruence.
  - by intros ? [= <-].
  - intros Hoo. destruct (Ho Hoo) as (ps & v0 & ? & ?). eauto 10.
Qed.

Lemma revoke_succs_any l es s : post (revoke_succs l es) s (λ o s', o ≠ OFuel ∧ same_rest s s' ∧
   ∀ x, onode_dropped l (table s !! x) (table s' !! x)).
Proof.
  eapply (post_mfor (λ s s', same_rest s s' ∧ ∀ x, onode_dropped l (table s !! x) (table s' !! x))).
  - intros s0. split; [done|]. intros; apply onode_dropped_refl.
  - intros s1 s2 s3 [? ?] [? ?]. split; [by eapply same_rest_trans|]. intros; by eapply onode_dropped_trans.
  - intros e s1 _ _. apply post_bind, post_emit, post_bind, post_lookup_abs; unfold kont.
    2:{ intros _. split; [done|]. split; [done|]. intros x. apply onode_dropped_refl. }
    intros nd Hnd. apply post_bind, post_of_opt; unfold kont.
    2:{ intros _. split; [done|]. split; [done|]. intros x. apply onode_dropped_refl. }
    intros nd' Hnd'. apply post_put_node. split; [done|]. split; [done|]. intros x. simpl in *.
    destruct (decide (x = s_loc e)) as [->|].
    + rewrite lookup_insert, Hnd. simpl. exists nd'. split; [by right|]. apply node_raised_refl.
    + rewrite lookup_insert_ne by done. apply onode_dropped_refl.
Qed.

Lemma check_cell_change_any t l v s : post (check_cell_change t l v) s (λ o s', o ≠ OFuel ∧ s' = s ∧
   ∀ b, o = OVal b → ∃ nd, table s !! l = Some nd ∧ node_ty nd = t ∧
      (b = false ↔ ∃ ps, nd = NMut t ps v)).
Proof.
  apply post_bind, post_res_node; unfold kont; [|done]. intros nd Hl Ht.
  destruct nd as [t' ps v0|?|?]; apply post_ret; (split; [done|]; split; [done|]); intros b [= <-]; eexists; (split; [exact Hl|]; split; [exact Ht|]).
  - simpl in Ht. subst. split.
    + rewrite bool_decide_eq_false. intros Hb. exists ps. destruct (decide (v0 = v)) as [->|]; [done|]. by destruct Hb.
    + intros [ps' E]. injection E as -> ->. apply bool_decide_eq_false_2. by intros Hne; apply Hne.
  - split; [done|]. by intros [? ?].
  - split; [done|]. by intros [? ?].
Qed.

(** [cell] *)
Record cell_post (t : ty) (n : name) (v : val) (s : dcg) (o : out loc) (s' : dcg) : Prop := {
  cp_fuel : o ≠ OFuel;
  cp_rest : rest_push (cell_loc s n v) s s';
  cp_drop : ∀ x, x ≠ cell_loc s n v → onode_dropped (cell_loc s n v) (table s !! x) (table s' !! x);
  cp_raise : (∀ c, table s !! cell_loc s n v ≠ Some (NComp c)) →
     ∀ x, x ≠ cell_loc s n v → onode_raised (table s !! x) (table s' !! x);
  cp_loc : match table s !! cell_loc s n v with
     | None => table s' !! cell_loc s n v = None ∨
               table s' !! cell_loc s n v = Some (if structf s && purity s then NPure t v else NMut t [] v)
     | Some (NMut t' ps v0) => table s' !! cell_loc s n v = Some (NMut t' ps v0) ∨
               t' = t ∧ table s' !! cell_loc s n v = Some (NMut t ps v)
     | Some (NPure t' v0) => table s' !! cell_loc s n v = Some (NPure t' v0)
     | Some (NComp c) => ∃ nd, table s' !! cell_loc s n v = Some nd ∧ node_dropped (cell_loc s n v) (NComp c) nd
     end;
  cp_val : ∀ l, o = OVal l → l = cell_loc s n v ∧
     match table s !! cell_loc s n v with
     | None => table s' !! cell_loc s n v = Some (if structf s && purity s then NPure t v else NMut t [] v)
     | Some (NMut t' ps v0) => t' = t ∧ table s' !! cell_loc s n v = Some (NMut t ps v)
     | Some nd => node_ty nd = t
     end;
}.
Lemma same_rest_ev e s : same_rest s (add_ev e s).
Proof. done. Qed.

Lemma cell_op_any t n v s : post (cell_op t n v) s (cell_post t n v s).
Proof.
  apply post_bind, post_get. unfold kont. cbv zeta. fold (cell_loc s n v). set (l := cell_loc s n v).
  assert (Hnop : ∀ (r : reason) s', table s' = table s → same_rest s s' → cell_post t n v s (OPanic r) s').
  { intros r s' Ht Hs. split; fold l; rewrite ?Ht; try done.
    - eapply rest_push_r; [apply rest_push_refl|done].
    - intros; apply onode_dropped_refl.
    - intros; apply onode_raised_refl.
    - destruct (table s !! l) as [[]|]; auto. eexists. split; [done|]. apply node_dropped_raised, node_raised_refl. }
  apply post_bind. destruct (table s !! l) as [nd|] eqn:Hl.
  2:{ apply post_ret. unfold kont. apply post_bind, post_ret. unfold kont. apply post_bind, post_emit. unfold kont.
      apply post_bind, post_ret. unfold kont. apply post_bind, post_ret. apply post_bind, post_ret. apply post_bind, post_emit.
      apply post_bind, post_put_node. unfold kont. simpl. apply post_bind.
      set (nd0 := if structf s && purity s then NPure t v else NMut t [] v).
      assert (∀ s', table s' = <[l:=nd0]> (table s) → rest_push l s s' → cell_post t n v s (OVal l) s') as Hend.
      { intros s' Ht Hs. split; fold l; rewrite ?Ht, ?lookup_insert; try done.
        - intros x Hx. rewrite lookup_insert_ne by done. apply onode_dropped_refl.
        - intros _ x Hx. rewrite lookup_insert_ne by done. apply onode_raised_refl.
        - rewrite Hl. by right.
        - intros l' [= <-]. rewrite Hl. split; [done|]. done. }
      destruct (structf s && purity s) eqn:Ep.
      + apply post_ret. unfold kont. apply post_ret. apply Hend; [done|]. split; try done. by left.
      + apply post_push. intros s' Hs' Ht. unfold kont. apply post_ret. apply Hend; [done|]. by eapply rest_push_same; [|exact Hs']. }
  apply post_bind, post_res_node; unfold kont.
  2:{ intros r. by apply Hnop. }
  intros nd' Hnd' Hty. rewrite Hl in Hnd'. injection Hnd' as <-.
  assert (Hrest : ∀ (l : loc) b s', same_rest s s' →
    ∀ Q : out loc → dcg → Prop, (∀ s'', table s'' = table s' → rest_push l s s'' → Q (OVal l) s'') →
    post (bind (if b : bool then ret tt else push_edge (Succ false l Allocate (DAllocCell v)) None) (λ _, ret l)) s' Q).
  { intros l0 b s' Hs' Q HQ. apply post_bind. destruct b.
    - apply post_ret. unfold kont. apply post_ret. apply HQ; [done|]. eapply rest_push_r; [apply rest_push_refl|done].
    - apply post_push. intros s'' Hs'' Ht. unfold kont. apply post_ret. apply HQ; [done|]. by eapply rest_push_same. }
  destruct nd as [t' ps v0|t' v0|c]; apply post_ret; unfold kont; (apply post_bind; eapply post_mono;
    [apply post_bind, (post_mono _ _ _ _ (check_cell_change_any t l v s)) |]).
  1,3,5: (intros o s' (Hf & -> & Hb); unfold kont; instantiate (1 := λ o s', o ≠ OFuel ∧ s' = s);
    destruct o; [by apply post_ret|done|done]).
  all: intros o s' [Ho ->]; unfold kont; (destruct o as [ac|r|]; [|by apply Hnop|done]); simpl in Hty; subst t'||subst t.
  - (* existing cell *)
    apply post_bind, post_emit. unfold kont. apply post_bind. eapply post_mono; [apply set_val_any|].
    intros o s' (Ho' & Hs & Hx & Hlv & Hov). simpl in Hx, Hlv, Hov.
    assert (same_rest s s') as Hs' by by destruct Hs.
    assert (Hfin : ∀ o s'', o ≠ OFuel → table s'' = table s' → rest_push l s s'' →
       (∀ l', o = OVal l' → l' = l ∧ table s' !! l = Some (NMut t ps v)) → cell_post t n v s o s'').
    { intros o'' s'' Hoo Ht'' Hr'' Hval. split; fold l; rewrite ?Ht''; try done.
      - intros x Hne. by apply onode_dropped_raised, Hx.
      - rewrite Hl. destruct Hlv as [->|(ps' & v0' & E1 & E2)]; [by left|]. right. rewrite Hl in E1. injection E1 as <- <-. done.
      - intros l' [-> Hn]%Hval. rewrite Hl. done. }
    unfold kont. destruct o as [[]|r|]; [| |done].
    2:{ apply Hfin; try done. eapply rest_push_r; [apply rest_push_refl|done]. }
    destruct (Hov eq_refl) as (ps' & v0' & E1 & E2). rewrite Hl in E1. injection E1 as <- <-.
    apply post_bind, post_ret, post_bind, post_ret, post_bind, post_emit, post_bind, post_ret. unfold kont.
    apply Hrest; [by destruct Hs'|]. intros s'' Ht'' Hs''. apply Hfin; try done. by intros l' [= <-].
  - (* pure *)
    apply post_bind, post_emit. unfold kont. apply post_bind, post_ret, post_bind, post_ret, post_bind, post_ret, post_bind, post_emit, post_bind, post_ret. unfold kont.
    apply Hrest; [done|]. intros s'' Ht'' Hs''. simpl in Ht''. split; fold l; rewrite ?Ht''; try done.
    + intros; apply onode_dropped_refl.
    + intros; apply onode_raised_refl.
    + by rewrite Hl.
    + intros l' [= <-]. by rewrite Hl.
  - (* a thunk is there *)
    apply post_bind, post_emit. unfold kont. apply post_bind, post_ret. unfold kont.
    apply post_bind. eapply post_mono; [apply dirty_alloc_any|]. intros o s' [Ho' [Hx Hs]]. simpl in Hx.
    assert (same_rest s s') as Hs' by by destruct Hs.
    assert (Hfin : ∀ o s'', o ≠ OFuel → (∀ x, onode_dropped l (table s !! x) (table s'' !! x)) → rest_push l s s'' →
       (∀ l', o = OVal l' → l' = l) → cell_post (c_ty c) n v s o s'').
    { intros o'' s'' Hoo Ht'' Hr'' Hval. split; fold l; rewrite ?Hl; try done.
      - intros Hno. by destruct (Hno c).
      - specialize (Ht'' l). rewrite Hl in Ht''. simpl in Ht''. destruct (table s'' !! l) as [nd|]; [|done]. eauto.
      - intros l' ->%Hval. done. }
    unfold kont. destruct o as [[]|r|]; [| |done].
    2:{ apply Hfin; try done; [intros; by apply onode_dropped_raised|]. eapply rest_push_r; [apply rest_push_refl|done]. }
    apply post_bind. eapply post_mono; [apply revoke_succs_any|]. intros o s2 (Ho2 & Hs2 & Hx2).
    assert (same_rest s s2) as Hs2' by by eapply same_rest_trans.
    assert (∀ x, onode_dropped l (table s !! x) (table s2 !! x)) as Hx3.
    { intros x. eapply onode_dropped_trans; [by apply onode_dropped_raised|done]. }
    unfold kont. destruct o as [[]|r|]; [| |done].
    2:{ apply Hfin; try done. eapply rest_push_r; [apply rest_push_refl|done]. }
    apply post_bind, post_emit, post_bind, post_ret. unfold kont.
    apply Hrest; [by destruct Hs2'|]. intros s'' Ht'' Hs''. apply Hfin; try done.
    + intros x. by rewrite Ht''.
    + by intros l' [= <-].
Qed.

(** Same type, and a thunk stays a thunk. *)
Definition is_compn (nd : node) : bool := match nd with NComp _ => true | _ => false end.
Definition same_kind (nd nd' : node) : Prop := node_ty nd' = node_ty nd ∧ (is_compn nd = true → is_compn nd' = true).
(** [thunk] *)
Record thunk_opost (t : ty) (nc : namechoice) (pp : progpt) (arg spur : val) (s : dcg) (o : out loc) (s' : dcg) : Prop := {
  to_fuel : o ≠ OFuel;
  to_rest : rest_push (thunk_loc s nc pp arg) s s';
  to_raise : ∀ x, x ≠ thunk_loc s nc pp arg → onode_raised (table s !! x) (table s' !! x);
  to_ty : ∀ nd nd', table s !! thunk_loc s nc pp arg = Some nd → table s' !! thunk_loc s nc pp arg = Some nd' → same_kind nd nd';
  to_some : is_Some (table s !! thunk_loc s nc pp arg) → is_Some (table s' !! thunk_loc s nc pp arg);
  to_val : ∀ l, o = OVal l → l = thunk_loc s nc pp arg ∧
     match table s !! thunk_loc s nc pp arg with
     | None => table s' !! thunk_loc s nc pp arg = Some (NComp (CompNode t [] [] pp arg spur None))
     | Some nd =>
        (* structural: shared, whatever is there *)
        (is_struct (thunk_loc s nc pp arg) = true ∧ table s' = table s) ∨
        (is_struct (thunk_loc s nc pp arg) = false ∧ node_ty nd = t ∧
         match nd with
         | NPure _ _ => False
         | NMut _ _ _ => table s' !! thunk_loc s nc pp arg = Some (NComp (CompNode t [] [] pp arg spur None))
         | NComp c => c_pp c = pp ∧
             (c_arg c = arg ∧ table s' = table s ∨
              c_arg c ≠ arg ∧ ∃ es, table s' !! thunk_loc s nc pp arg = Some (NComp (with_succs es (with_res None (with_arg arg c)))) ∧
                                    Forall2 raised (c_succs c) es)
         end)
     end;
}.

Lemma thunk_op_any t nc pp arg spur s : post (thunk_op t nc pp arg spur) s (thunk_opost t nc pp arg spur s).
Proof.
  set (l := thunk_loc s nc pp arg).
  assert (Hnop : ∀ (r : reason) s', table s' = table s → same_rest s s' → thunk_opost t nc pp arg spur s (OPanic r) s').
  { intros r s' Ht Hs. split; fold l; rewrite ?Ht; try done.
    - eapply rest_push_r; [apply rest_push_refl|done].
    - intros; apply onode_raised_refl.
    - (intros nd1 nd2 E1 E2; assert (nd2 = nd1) as -> by congruence; by split). }
  apply post_bind, post_get. unfold kont. cbv zeta.
  assert (Hstruct : l = Loc (cpath s) (IdStruct (hash_app pp arg)) →
    post (match table s !! l with
      | Some _ => ret l
      | None => push_edge (Succ false l Allocate DAllocStruct) None ;!
          put_node l (NComp (CompNode t [] [] pp arg spur None)) ;! ret l end) s (thunk_opost t nc pp arg spur s)).
  { intros Hl0. destruct (table s !! l) as [nd|] eqn:Hl.
    - apply post_ret. split; fold l; try done.
      + apply rest_push_refl.
      + intros; apply onode_raised_refl.
      + (intros nd1 nd2 E1 E2; assert (nd2 = nd1) as -> by congruence; by split).
      + intros l' [= <-]. split; [done|]. rewrite Hl. left. by rewrite Hl0.
    - apply post_bind, post_push. intros s' Hs' Ht. unfold kont. apply post_bind, post_put_node. unfold kont. apply post_ret.
      split; fold l; simpl; rewrite ?lookup_insert, ?Hl, ?Ht; try done.
      + by destruct Hs'.
      + intros x Hx. rewrite lookup_insert_ne by done. apply onode_raised_refl.
      + by intros l' [= <-]. }
  assert (Hnom : ∀ n, l = Loc (cpath s) (IdNom n) → 
    post (let! (do_dirty, do_insert, fresh) :=
        match table s !! l with
        | None => ret (false, true, true)
        | Some nd =>
            assert (bool_decide (node_ty nd = t)) PType ;!
            match nd with
            | NPure _ _ => panic PUnreach
            | NMut _ _ _ => ret (true, true, false)
            | NComp c =>
                if decide (c_pp c = pp) then
                  if decide (c_arg c = arg) then ret (false, false, false)
                  else
                    put_node l (NComp (with_res None (with_arg arg c))) ;!
                    ret (true, false, false)
                else panic PFun
            end
        end in
      emit (EvBegin (TAlloc (if fresh : bool then LocFresh
                             else LocExists (if do_dirty : bool then ContentDiff else ContentSame)) KThunk)
                    (cur_loc s) l) ;!
      (if do_dirty : bool then dirty_alloc l else ret tt) ;!
      emit EvEnd ;!
      push_edge (Succ false l Allocate (DAllocThunk arg)) None ;!
      (if do_insert : bool then put_node l (NComp (CompNode t [] [] pp arg spur None)) else ret tt) ;!
      ret l) s (thunk_opost t nc pp arg spur s)).
  { intros n Hl0. assert (is_struct l = false) as Hst by by rewrite Hl0.
    apply post_bind. destruct (table s !! l) as [nd|] eqn:Hl.
    2:{ apply post_ret. unfold kont. apply post_bind, post_emit, post_bind, post_ret, post_bind, post_emit, post_bind, post_push.
        intros s' Hs' Ht. unfold kont. apply post_bind, post_put_node. unfold kont. apply post_ret.
        split; fold l; simpl; rewrite ?lookup_insert, ?Hl, ?Ht; try done.
        + by destruct Hs'.
        + intros x Hx. simpl. rewrite lookup_insert_ne by done. apply onode_raised_refl.
        + by intros l' [= <-]. }
    apply post_bind, post_assert; unfold kont; [|by intros; apply Hnop].
    intros Hty%bool_decide_eq_true. destruct nd as [t' ps v0|t' v0|c].
    - apply post_ret. unfold kont. apply post_bind, post_emit, post_bind. eapply post_mono; [apply dirty_alloc_any|].
      intros o s' [Ho [Hr Hs]]. simpl in Hr. assert (same_rest s s') as Hs' by by destruct Hs.
      assert (table s' !! l = table s !! l) as Hl'.
      { specialize (Hr l). rewrite Hl in *. destruct (table s' !! l); simpl in Hr; [by subst|done]. }
      unfold kont. destruct o as [[]|r|]; [| |done].
      2:{ split; fold l; try done; [eapply rest_push_r; [apply rest_push_refl|done]|(intros nd1 nd2 E1 E2; assert (nd2 = nd1) as -> by congruence; by split)|congruence]. }
      apply post_bind, post_emit, post_bind, post_push. intros s'' Hs'' Ht''. unfold kont. apply post_bind, post_put_node. unfold kont. apply post_ret.
      split; fold l; simpl; rewrite ?lookup_insert, ?Hl, ?Ht''; try done.
      + destruct Hs', Hs''. simpl in *. split; simpl; congruence.
      + intros x Hx. simpl. rewrite lookup_insert_ne by done. apply Hr.
      + by intros nd nd' [= <-] [= <-].
      + intros l' [= <-]. split; [done|]. right. done.
    - apply post_panic. by apply Hnop.
    - destruct (decide _) as [Hpp|]; [|apply post_panic; by apply Hnop].
      destruct (decide _) as [Harg|Harg].
      + apply post_ret. unfold kont. apply post_bind, post_emit, post_bind, post_ret, post_bind, post_emit, post_bind, post_push.
        intros s'' Hs'' Ht''. unfold kont. apply post_bind, post_ret, post_ret.
        split; fold l; simpl; rewrite ?Ht''; simpl; rewrite ?Hl; try done.
        * by destruct Hs''.
        * intros x Hx. apply onode_raised_refl.
        * (intros nd1 nd2 E1 E2; assert (nd2 = nd1) as -> by congruence; by split).
        * intros l' [= <-]. split; [done|]. right. split; [done|]. split; [done|]. split; [done|]. by left.
      + apply post_bind, post_put_node, post_ret. unfold kont. apply post_bind, post_emit, post_bind. eapply post_mono; [apply dirty_alloc_any|].
        intros o s' [Ho [Hr Hs]]. simpl in Hr. assert (same_rest s s') as Hs' by by destruct Hs.
        assert (∃ es, table s' !! l = Some (NComp (with_succs es (with_res None (with_arg arg c)))) ∧ Forall2 raised (c_succs c) es) as (es & Hl' & Hes).
        { specialize (Hr l). rewrite lookup_insert in *. destruct (table s' !! l); simpl in Hr; [|done].
          destruct Hr as (es & -> & Hes). eauto. }
        assert (∀ x, x ≠ l → onode_raised (table s !! x) (table s' !! x)) as Hx.
        { intros x Hx. specialize (Hr x). by rewrite lookup_insert_ne in Hr by done. }
        unfold kont. destruct o as [[]|r|]; [| |done].
        2:{ split; fold l; rewrite ?Hl, ?Hl'; try done; [eapply rest_push_r; [apply rest_push_refl|done]|].
            by intros nd nd' [= <-] [= <-]. }
        apply post_bind, post_emit, post_bind, post_push. intros s'' Hs'' Ht''. unfold kont. apply post_bind, post_ret, post_ret.
        split; fold l; simpl; rewrite ?Ht''; simpl; rewrite ?Hl, ?Hl'; try done.
        * destruct Hs', Hs''. simpl in *. split; simpl; congruence.
        * by intros nd nd' [= <-] [= <-].
        * intros l' [= <-]. split; [done|]. right. split; [done|]. split; [done|]. split; [done|]. right. eauto. }
  destruct nc as [| | |n]; [by apply Hnop|by apply Hnop|by apply Hstruct|].
  unfold l, thunk_loc in *. destruct (structf s); [by apply Hstruct|by apply (Hnom n)].
Qed.
End Edits.
