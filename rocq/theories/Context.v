(** * What a normal return guarantees in an arbitrary state: context restored, trace balanced;
      and what every outcome guarantees: types of locations, the purity flag, monotone run log. *)
From Verif Require Export Edits TraceTree.

(** [vpost m s Q]: if [m] returns normally, [Q] holds. *)
Definition vpost {A} (m : M A) (s : dcg) (Q : A → dcg → Prop) : Prop := ∀ a s', m s = (OVal a, s') → Q a s'.
Lemma vpost_bind {A B} (m : M A) (f : A → M B) s Q : vpost m s (λ a s1, vpost (f a) s1 Q) → vpost (bind m f) s Q.
Proof. intros Hm b s' Hb. unfold bind in Hb. destruct (m s) as [[a| |] s1] eqn:E; [|done|done]. by eapply Hm. Qed.
Lemma vpost_ret {A} (a : A) s (Q : A → dcg → Prop) : Q a s → vpost (ret a) s Q.
Proof. by intros HQ a' s' [= <- <-]. Qed.
Lemma vpost_panic {A} r s (Q : A → dcg → Prop) : vpost (panic r) s Q.
Proof. by intros a' s' ?. Qed.
Lemma vpost_nofuel {A} s (Q : A → dcg → Prop) : vpost nofuel s Q.
Proof. by intros a' s' ?. Qed.
Lemma vpost_get s (Q : dcg → dcg → Prop) : Q s s → vpost get s Q.
Proof. by intros HQ a' s' [= <- <-]. Qed.
Lemma vpost_modify f s (Q : unit → dcg → Prop) : Q tt (f s) → vpost (modify f) s Q.
Proof. by intros HQ a' s' [= <- <-]. Qed.
Lemma vpost_emit e s (Q : unit → dcg → Prop) : Q tt (add_ev e s) → vpost (emit e) s Q.
Proof. apply vpost_modify. Qed.
Lemma vpost_assert b r s (Q : unit → dcg → Prop) : (b = true → Q tt s) → vpost (assert b r) s Q.
Proof. destruct b; simpl; [intros HQ; by apply vpost_ret, HQ|intros _; apply vpost_panic]. Qed.
Lemma vpost_of_opt {A} r (o : option A) s (Q : A → dcg → Prop) : (∀ a, o = Some a → Q a s) → vpost (of_opt r o) s Q.
Proof. destruct o; simpl; [intros HQ; by apply vpost_ret, HQ|intros _; apply vpost_panic]. Qed.
Lemma vpost_mono {A} (m : M A) s (Q Q' : A → dcg → Prop) : vpost m s Q → (∀ a s', Q a s' → Q' a s') → vpost m s Q'.
Proof. intros Hm HQ a s' E. by apply HQ, Hm. Qed.
Lemma vpost_conj {A} (m : M A) s (Q Q' : A → dcg → Prop) : vpost m s Q → vpost m s Q' → vpost m s (λ a s', Q a s' ∧ Q' a s').
Proof. intros H1 H2 a s' E. auto. Qed.
Lemma post_vpost {A} (m : M A) s (Q : out A → dcg → Prop) : post m s Q → vpost m s (λ a s', Q (OVal a) s').
Proof. intros Hp a s' E. by eapply post_elim. Qed.
Lemma vpost_mfor {A} (P : dcg → dcg → Prop) (xs : list A) f s :
  (∀ s, P s s) → (∀ s1 s2 s3, P s1 s2 → P s2 s3 → P s1 s3) →
  (∀ x s1, x ∈ xs → vpost (f x) s1 (λ _ s', P s1 s')) →
  vpost (mfor xs f) s (λ _ s', P s s').
Proof.
  intros Hr Ht. revert s. induction xs as [|x xs IH]; intros s Hf; simpl; [by apply vpost_ret|].
  apply vpost_bind. eapply vpost_mono; [apply Hf; by left|]. intros ? s1 H1.
  eapply vpost_mono; [apply IH|]; [intros y s2 Hy; apply Hf; by right|]. simpl. intros ? s2 H2. eapply Ht; [exact H1|exact H2].
Qed.

(** The executing thunk's frame may have recorded more edges; nothing else of the stack changed. *)
Definition stk_ext (fs fs' : list frame) : Prop :=
  match fs with
  | [] => fs' = []
  | f :: fs0 => ∃ E, fs' = Frame (f_loc f) (f_succs f ++ E) :: fs0
  end.
Lemma stk_ext_refl fs : stk_ext fs fs.
Proof. destruct fs as [|[l es] fs]; [done|]. exists []. simpl. by rewrite (right_id_L [] (++)). Qed.
Lemma stk_ext_trans f1 f2 f3 : stk_ext f1 f2 → stk_ext f2 f3 → stk_ext f1 f3.
Proof.
  destruct f1 as [|f f1]; simpl; [by intros ->|]. intros [E ->]. simpl. intros [E' ->]. exists (E ++ E').
  by rewrite (assoc_L (++)).
Qed.
Lemma pushed_ext l fs fs' : pushed l fs fs' → stk_ext fs fs'.
Proof. intros [->|(f & fs0 & d & -> & ->)]; [apply stk_ext_refl|]. simpl. eauto. Qed.

Record okp (P : tree → bool) (s s' : dcg) : Prop := {
  okp_cpath : cpath s' = cpath s;
  okp_structf : structf s' = structf s;
  okp_stack : stk_ext (stack s) (stack s');
  okp_trace : tr_ok P s s';
}.
(** Likewise with the stack exactly as it was. *)
Record okq (P : tree → bool) (s s' : dcg) : Prop := {
  okq_okp : okp P s s';
  okq_stack : stack s' = stack s;
}.
Lemma okp_refl P s : okp P s s.
Proof. split; [done..|apply stk_ext_refl|by apply tr_ok_refl]. Qed.
Lemma okp_trans P s1 s2 s3 : okp P s1 s2 → okp P s2 s3 → okp P s1 s3.
Proof. intros [] []. split; [congruence..|by eapply stk_ext_trans|by eapply tr_ok_trans]. Qed.
Lemma okq_refl P s : okq P s s.
Proof. split; [apply okp_refl|done]. Qed.
Lemma okq_trans P s1 s2 s3 : okq P s1 s2 → okq P s2 s3 → okq P s1 s3.
Proof. intros [] []. split; [by eapply okp_trans|congruence]. Qed.
Lemma okq_same P s s' : same_rest s s' → trc s' = trc s → okq P s s'.
Proof. intros [E1 E2 E3 E4 E5] Ht. split; [|done]. split; [done..| |by apply tr_ok_refl]. rewrite E1. apply stk_ext_refl. Qed.
Lemma okp_same P s s' : same_rest s s' → trc s' = trc s → okp P s s'.
Proof. intros. by apply okq_same. Qed.
Lemma okp_mono (P Q : tree → bool) s s' : (∀ t, P t = true → Q t = true) → okp P s s' → okp Q s s'.
Proof. intros HPQ []. split; [done..|]. by eapply tr_ok_mono. Qed.
Lemma okq_mono (P Q : tree → bool) s s' : (∀ t, P t = true → Q t = true) → okq P s s' → okq Q s s'.
Proof. intros HPQ []. split; [|done]. by eapply okp_mono. Qed.
Lemma okq_eff (P : tree → bool) e src tgt s : P (TNode e src tgt []) = true → okq P s (add_ev (EvEff e src tgt) s).
Proof. intros HP. split; [|done]. split; [done..|apply stk_ext_refl|]. by apply (tr_ok_eff P e src tgt). Qed.
Lemma okp_ext (P Q : tree → bool) e src tgt s s2 :
  okp P (add_ev (EvBegin e src tgt) s) s2 → (∀ F, forallb P F = true → Q (TNode e src tgt F) = true) →
  okp Q s (add_ev EvEnd s2).
Proof. intros [E1 E2 E3 E4] HQ. split; [done..|]. by eapply tr_ok_ext; [|exact E4|..]. Qed.
Lemma okq_ext (P Q : tree → bool) e src tgt s s2 :
  okq P (add_ev (EvBegin e src tgt) s) s2 → (∀ F, forallb P F = true → Q (TNode e src tgt F) = true) →
  okq Q s (add_ev EvEnd s2).
Proof. intros [] HQ. split; [|done]. by eapply okp_ext. Qed.

Section Context.
Context `{Prog}.

Lemma vpost_lookup_abs l s (Q : node → dcg → Prop) : (∀ nd, table s !! l = Some nd → Q nd s) → vpost (lookup_abs l) s Q.
Proof. intros HQ. apply vpost_bind, vpost_get. destruct (table s !! l); [by apply vpost_ret, HQ|apply vpost_panic]. Qed.
Lemma vpost_res_node t l s (Q : node → dcg → Prop) :
  (∀ nd, table s !! l = Some nd → node_ty nd = t → Q nd s) → vpost (res_node t l) s Q.
Proof.
  intros HQ. apply vpost_bind, vpost_lookup_abs. intros nd Hl. apply vpost_bind, vpost_assert.
  intros Ht%bool_decide_eq_true. by apply vpost_ret, HQ.
Qed.
Lemma vpost_put_node l nd s (Q : unit → dcg → Prop) : Q tt (set_table (<[l := nd]> (table s)) s) → vpost (put_node l nd) s Q.
Proof. apply vpost_modify. Qed.
Lemma vpost_get_dirty src eff tgt s (Q : bool → dcg → Prop) : (∀ b, Q b s) → vpost (get_dirty src eff tgt) s Q.
Proof.
  intros HQ. apply vpost_bind, vpost_lookup_abs. intros [| |c] _; [apply vpost_panic..|].
  destruct (find_succ _ _ _); [by apply vpost_ret|apply vpost_panic].
Qed.
Lemma vpost_set_dirty P b src eff tgt s : vpost (set_dirty b src eff tgt) s (λ _ s', okq P s s').
Proof.
  apply vpost_bind, vpost_lookup_abs. intros [| |c] _; [apply vpost_panic..|].
  destruct (find_succ _ _ _); [|apply vpost_panic]. apply vpost_put_node. by apply okq_same.
Qed.
Lemma vpost_check_force_map_dep t f w l s (Q : bool → dcg → Prop) : (∀ b, Q b s) → vpost (check_force_map_dep t f w l) s Q.
Proof. intros HQ. apply vpost_bind, vpost_res_node. intros [] _ _; [by apply vpost_ret|apply vpost_panic..]. Qed.
Lemma vpost_dep_dirty d l s (Q : bool → dcg → Prop) : (∀ b, Q b s) → vpost (dep_dirty d l) s Q.
Proof. intros HQ. destruct d; simpl; try (by apply vpost_ret); [by apply vpost_check_force_map_dep|apply vpost_panic]. Qed.
Lemma vpost_push P e pd s : vpost (push_edge e pd) s (λ _ s', okp P s s').
Proof.
  apply vpost_modify. destruct (stack s) as [|f fs] eqn:E; [apply okp_refl|]. split; simpl; try done; [|by apply tr_ok_refl].
  rewrite E. simpl. eauto.
Qed.

Lemma dirty_obs_ctx fuel : ∀ l s, vpost (dirty_obs fuel l) s (λ _ s', okq dtok s s').
Proof.
  induction fuel as [|fuel IH]; intros l s; [apply vpost_nofuel|]. simpl.
  apply vpost_bind, vpost_lookup_abs. intros nd _. apply vpost_bind, vpost_of_opt. intros ps _.
  apply (vpost_mfor (okq dtok)); [apply okq_refl|apply okq_trans|].
  intros [q d] s1 _. unfold dirty_step. simpl.
  apply vpost_bind. apply (vpost_mono _ _ (λ _ s', s' = s1)).
  { destruct d as [d|]; [|by apply vpost_ret]. destruct (is_absmap d); [by apply vpost_ret|].
    apply vpost_bind, vpost_dep_dirty. intros b. by apply vpost_ret. }
  intros stop s' ->. apply vpost_bind.
  apply (vpost_mono _ _ (λ b s', if b : bool then s' = s1 else
      okq dtok (add_ev (EvBegin TDirty (Some q) l) s1) s')).
  { destruct stop; [by apply vpost_ret|]. apply vpost_bind, vpost_get_dirty. intros [|]; [by apply vpost_ret|].
    apply vpost_bind, vpost_assert. intros _. apply vpost_bind, vpost_emit. apply vpost_bind.
    eapply vpost_mono; [apply (vpost_set_dirty dtok)|]. intros ? s2 H2. by apply vpost_ret. }
  intros [|] s2 H2; [subst s2; apply vpost_ret, okq_refl|]. apply vpost_bind. eapply vpost_mono; [apply IH|].
  intros ? s3 H3. apply vpost_emit. eapply okq_ext; [eapply okq_trans; [exact H2|exact H3]|]. done.
Qed.
Lemma dirty_observers_ctx l s : vpost (dirty_observers l) s (λ _ s', okq dtok s s').
Proof. apply (dirty_obs_ctx (dirty_fuel s)). Qed.
Lemma dirty_alloc_ctx l s : vpost (dirty_alloc l) s (λ _ s', okq dtok s s').
Proof.
  apply vpost_bind. eapply vpost_mono; [apply dirty_observers_ctx|]. intros ? s1 H1.
  apply vpost_bind, vpost_lookup_abs. intros nd _. apply vpost_bind, vpost_of_opt. intros ps _.
  eapply (vpost_mono _ _ (λ _ s', okq dtok s1 s')); [|intros ? sx Hx; eapply okq_trans; [exact H1|exact Hx]].
  apply (vpost_mfor (okq dtok)); [apply okq_refl|apply okq_trans|].
  intros q s2 _. unfold dirty_alloc_step. apply vpost_bind, vpost_get_dirty. intros [|]; [apply vpost_ret, okq_refl|].
  apply vpost_bind. eapply vpost_mono; [apply (vpost_set_dirty dtok)|]. intros ? s3 H3. apply vpost_bind, vpost_assert. intros _.
  apply vpost_bind, vpost_emit. apply vpost_bind. eapply vpost_mono; [apply dirty_observers_ctx|]. intros ? s4 H4.
  apply vpost_emit. eapply okq_trans; [exact H3|]. by eapply okq_ext; [exact H4|].
Qed.
Lemma set_val_ctx t l v s : vpost (set_val t l v) s (λ _ s', okq dtok s s').
Proof.
  apply vpost_bind, vpost_res_node. intros [] _ _; [|apply vpost_panic..].
  destruct (decide _); [apply vpost_ret, okq_refl|]. apply vpost_bind, vpost_put_node.
  eapply vpost_mono; [apply dirty_alloc_ctx|]. intros ? s' H'. eapply okq_trans; [|exact H']. by apply okq_same.
Qed.
Lemma revoke_succs_ctx (P : tree → bool) l es s : (∀ src tgt, P (TNode TRemove src tgt []) = true) →
  vpost (revoke_succs l es) s (λ _ s', okq P s s').
Proof.
  intros HP. apply (vpost_mfor (okq P)); [apply okq_refl|apply okq_trans|].
  intros e s1 _. apply vpost_bind, vpost_emit, vpost_bind, vpost_lookup_abs. intros nd _.
  apply vpost_bind, vpost_of_opt. intros nd' _. apply vpost_put_node.
  eapply okq_trans; [by apply (okq_eff P TRemove (Some l) (s_loc e))|]. by apply okq_same.
Qed.
Lemma check_cell_change_ctx t l v s (Q : bool → dcg → Prop) : (∀ b, Q b s) → vpost (check_cell_change t l v) s Q.
Proof. intros HQ. apply vpost_bind, vpost_res_node. intros [] _ _; by apply vpost_ret. Qed.
Lemma aext_dtok F : forallb dtok F = true → aext F = true.
Proof. apply forallb_impl. by intros t ->. Qed.

Lemma cell_op_ctx rl t n v s : vpost (cell_op t n v) s (λ _ s', okp (tok rl) s s').
Proof.
  apply vpost_bind, vpost_get. cbv zeta. set (l := Loc _ _). apply vpost_bind.
  apply (vpost_mono _ _ (λ d s', s' = s ∧ match d with (do_dirty, do_set, succs, fresh) =>
     (fresh = true → do_dirty = false ∧ do_set = false ∧ succs = None) end)).
  { destruct (table s !! l); [|by apply vpost_ret]. apply vpost_bind, vpost_res_node. intros [] _ _; by apply vpost_ret. }
  intros [[[dd ds] sc] fr] s' [-> Hfr]. apply vpost_bind.
  apply (vpost_mono _ _ (λ a s', s' = s ∧ match a with LocFresh => fr = true | _ => fr = false end)).
  { destruct fr; [by apply vpost_ret|]. apply vpost_bind, check_cell_change_ctx. intros b. by apply vpost_ret. }
  intros ac s' [-> Hac]. apply vpost_bind, vpost_emit. set (s0 := add_ev _ s). set (P := λ t, dtok t || remove_leaf t).
  apply vpost_bind, (vpost_mono _ _ (λ _ s', okq P s0 s' ∧ (fr = true → s' = s0))).
  { destruct ds.
    - eapply vpost_mono; [apply set_val_ctx|]. intros ? s' H'. split; [|by intros (_ & ? & _)%Hfr].
      eapply okq_mono; [|exact H']. intros t0 Ht0. unfold P. by rewrite Ht0.
    - apply vpost_ret. split; [apply okq_refl|done]. }
  intros ? s1 [H1 F1]. apply vpost_bind, (vpost_mono _ _ (λ _ s', okq P s0 s' ∧ (fr = true → s' = s0))).
  { destruct dd.
    - eapply vpost_mono; [apply dirty_alloc_ctx|]. intros ? s' H'. split; [|by intros (? & _ & _)%Hfr].
      eapply okq_trans; [exact H1|]. eapply okq_mono; [|exact H']. intros t0 Ht0. unfold P. by rewrite Ht0.
    - apply vpost_ret. done. }
  intros ? s2 [H2 F2]. apply vpost_bind, (vpost_mono _ _ (λ _ s', okq P s0 s' ∧ (fr = true → s' = s0))).
  { destruct sc.
    - eapply vpost_mono; [apply (revoke_succs_ctx P)|]; [done|]. intros ? s' H'. split; [|by intros (_ & _ & ?)%Hfr].
      by eapply okq_trans.
    - by apply vpost_ret. }
  intros ? s3 [H3 F3]. apply vpost_bind, vpost_emit.
  assert (okq (tok rl) s (add_ev EvEnd s3)) as H4.
  { destruct ac as [|ch].
    - rewrite F3 by done. eapply (okq_ext (λ _, false)); [apply okq_refl|]. intros [] ?; done.
    - eapply (okq_ext P); [exact H3|]. intros F HF. exact HF. }
  apply vpost_bind, (vpost_mono _ _ (λ _ s', okq (tok rl) s s')).
  { destruct fr; [|by apply vpost_ret]. apply vpost_put_node. eapply okq_trans; [exact H4|]. by apply okq_same. }
  intros ? s5 H5. apply vpost_bind, (vpost_mono _ _ (λ _ s', okp (tok rl) s s')).
  { destruct (_ && _); [by apply vpost_ret, H5|]. eapply vpost_mono; [apply (vpost_push (tok rl))|].
    intros ? s' H'. eapply okp_trans; [apply H5|done]. }
  intros ? s6 H6. by apply vpost_ret.
Qed.

Lemma thunk_op_ctx rl t nc pp arg spur s : vpost (thunk_op t nc pp arg spur) s (λ _ s', okp (tok rl) s s').
Proof.
  apply vpost_bind, vpost_get. cbv zeta.
  assert (vpost (let l := Loc (cpath s) (IdStruct (hash_app pp arg)) in
      match table s !! l with
      | Some _ => ret l
      | None => push_edge (Succ false l Allocate DAllocStruct) None ;!
          put_node l (NComp (CompNode t [] [] pp arg spur None)) ;! ret l end) s (λ _ s', okp (tok rl) s s')) as Hs.
  { cbv zeta. destruct (table s !! _); [apply vpost_ret, okp_refl|]. apply vpost_bind. eapply vpost_mono; [apply (vpost_push (tok rl))|].
    intros ? s1 H1. apply vpost_bind, vpost_put_node, vpost_ret. eapply okp_trans; [exact H1|]. by apply okp_same. }
  destruct nc as [| | |n]; [apply vpost_panic..|done|]. destruct (structf s); [done|]. clear Hs.
  set (l := Loc _ _). apply vpost_bind.
  apply (vpost_mono _ _ (λ d s', okq (tok rl) s s' ∧ match d with (do_dirty, do_insert, fresh) => (fresh = true → do_dirty = false) end)).
  { destruct (table s !! l) as [nd|]; [|by apply vpost_ret; split; [apply okq_refl|]].
    apply vpost_bind, vpost_assert. intros _. destruct nd as [| |c]; [by apply vpost_ret; split; [apply okq_refl|]|apply vpost_panic|].
    destruct (decide _); [|apply vpost_panic]. destruct (decide _); [by apply vpost_ret; split; [apply okq_refl|]|].
    apply vpost_bind, vpost_put_node, vpost_ret. split; [by apply okq_same|done]. }
  intros [[dd di] fr] s' [Hs' Hfr]. apply vpost_bind, vpost_emit. set (s0 := add_ev _ s').
  apply vpost_bind, (vpost_mono _ _ (λ _ s', okq dtok s0 s' ∧ (fr = true → s' = s0))).
  { destruct dd.
    - eapply vpost_mono; [apply dirty_alloc_ctx|]. intros ? s1 H1. split; [done|]. by intros ?%Hfr.
    - apply vpost_ret. split; [apply okq_refl|done]. }
  intros ? s1 [H1 F1]. apply vpost_bind, vpost_emit.
  assert (okq (tok rl) s (add_ev EvEnd s1)) as H2.
  { eapply okq_trans; [exact Hs'|]. destruct fr.
    - rewrite F1 by done. eapply (okq_ext (λ _, false)); [apply okq_refl|]. intros [] ?; done.
    - eapply (okq_ext dtok); [exact H1|]. intros F HF. simpl. by apply aext_dtok. }
  apply vpost_bind. eapply vpost_mono; [apply (vpost_push (tok rl))|]. intros ? s3 H3. apply vpost_bind.
  apply (vpost_mono _ _ (λ _ s', okp (tok rl) s s')).
  { destruct di; [apply vpost_put_node|apply vpost_ret].
    - eapply okp_trans; [apply H2|]. eapply okp_trans; [exact H3|]. by apply okp_same.
    - eapply okp_trans; [apply H2|]. exact H3. }
  intros ? s4 H4. by apply vpost_ret.
Qed.
Lemma set_op_ctx rl t a v s : vpost (set_op t a v) s (λ _ s', okp (tok rl) s s').
Proof.
  destruct a; [apply vpost_panic|]. apply vpost_bind, vpost_get. destruct (stack s); [|apply vpost_panic].
  eapply vpost_mono; [apply set_val_ctx|]. intros ? s' H'. eapply okp_mono; [apply dtok_tok|apply H'].
Qed.
Lemma force_finish_ctx P l dup pure t r s : vpost (force_finish l dup pure t r) s (λ _ s', okp P s s').
Proof.
  apply vpost_bind. apply (vpost_mono _ _ (λ _ s', okp P s s')); [|intros; by apply vpost_ret].
  destruct (_ || _); [apply vpost_ret, okp_refl|apply vpost_push].
Qed.

(** Open-recursive versions. *)
Definition frc_ctx (frc : ty → loc → option val → M val) : Prop :=
  ∀ rl t l cyc s, vpost (frc t l cyc) s (λ _ s', okp (tok rl) s s').
Definition prod_ctx (prod : ty → loc → M val) : Prop := ∀ t l s, vpost (prod t l) s (λ _ s', okq (tok Archivist) s s').
Definition cln_ctx (cln : ty → val → loc → M bool) : Prop := ∀ t w l s, vpost (cln t w l) s (λ _ s', okq (tok Archivist) s s').

Lemma force_loc_ctx prod cln : prod_ctx prod → cln_ctx cln → frc_ctx (force_loc prod cln).
Proof.
  intros HP HC rl t l cyc s. apply vpost_bind, vpost_get. cbv zeta. apply vpost_bind, vpost_res_node. intros nd _ _.
  assert (∀ v b, vpost (emit (EvEff (TForce RefGet) (cur_loc s) l) ;! force_finish l (is_dup s l) b t v) s (λ _ s', okp (tok rl) s s')) as Hget.
  { intros v b. apply vpost_bind, vpost_emit. eapply vpost_mono; [apply (force_finish_ctx (tok rl))|]. intros ? s' H'.
    eapply okp_trans; [|exact H']. by apply okq_eff. }
  destruct nd as [| |c]; [apply Hget..|]. destruct (is_cycle s l).
  { destruct cyc; [|apply vpost_panic]. apply vpost_bind, vpost_emit, vpost_bind, vpost_emit.
    eapply vpost_mono; [apply (force_finish_ctx (tok rl))|]. intros ? s' H'. eapply okp_trans; [|exact H'].
    eapply (okp_ext (λ _, false)); [apply okp_refl|]. intros [] ?; done. }
  destruct (c_res c) as [r0|].
  - apply vpost_bind, vpost_emit, vpost_bind. eapply vpost_mono; [apply HC|]. intros ? s1 H1.
    apply vpost_bind, vpost_emit. apply vpost_bind, vpost_res_node. intros nd' _ _. destruct nd' as [| |c']; [apply vpost_panic..|].
    destruct (c_res c'); [|apply vpost_panic]. eapply vpost_mono; [apply (force_finish_ctx (tok rl))|]. intros ? s' H'.
    eapply okp_trans; [|exact H']. eapply okp_ext; [apply H1|]. intros F HF. exact HF.
  - apply vpost_bind, vpost_emit, vpost_bind, vpost_assert. intros _. apply vpost_bind. eapply vpost_mono; [apply HP|]. intros ? s1 H1.
    apply vpost_bind, vpost_emit. eapply vpost_mono; [apply (force_finish_ctx (tok rl))|]. intros ? s' H'.
    eapply okp_trans; [|exact H']. eapply okp_ext; [apply H1|]. intros F HF. exact HF.
Qed.

Lemma run_ctx frc rl : frc_ctx frc → ∀ c s, vpost (run frc c) s (λ _ s', okp (tok rl) s s').
Proof.
  intros HF. assert (∀ {A} (m : M A) (f : A → M val) s, vpost m s (λ _ s', okp (tok rl) s s') →
     (∀ a s, vpost (f a) s (λ _ s', okp (tok rl) s s')) → vpost (bind m f) s (λ _ s', okp (tok rl) s s')) as Hseq.
  { intros A m f s Hm Hf. apply vpost_bind. eapply vpost_mono; [exact Hm|]. intros a s1 H1.
    eapply vpost_mono; [apply Hf|]. intros b s2 H2. eapply okp_trans; [exact H1|exact H2]. }
  assert (∀ s, vpost (panic PUser) s (λ (_ : val) s', okp (tok rl) s s')) as Hpan by (intros; apply vpost_panic).
  assert (∀ {A} (a : A) s, vpost (ret a) s (λ _ s', okp (tok rl) s s')) as Hret by (intros; apply vpost_ret, okp_refl).
  assert (∀ s v l e pd, vpost (emit (EvEff (TForce RefGet) (cur_loc s) l);! push_edge e pd;! ret v) s (λ (_ : val) s', okp (tok rl) s s')) as Hget.
  { intros s v l e pd. apply vpost_bind, vpost_emit. apply vpost_bind. eapply vpost_mono; [apply (vpost_push (tok rl))|].
    intros ? s1 H1. apply vpost_ret. eapply okp_trans; [|exact H1]. by apply okq_eff. }
  induction c as [v0| |t a cyc k IH|t a f0 k IH|t a f0 k IH|t nm v0 k IH|t nc pp arg spur k IH|t a v0 k IH|nm b IHb k IH|b IHb k IH]; intros s; simpl.
  - apply Hret.
  - apply Hpan.
  - apply Hseq; [|done]. destruct a; [apply Hret|apply HF].
  - apply Hseq; [|done]. destruct a as [|l]; [apply Hret|]. apply vpost_bind, vpost_res_node. intros nd _ _.
    assert (vpost (let! v := frc t l None in ret (f0 v)) s (λ _ s', okp (tok rl) s s')) as Ho by (apply Hseq; [apply HF|intros; apply Hret]).
    destruct nd; [|done|done]. apply vpost_bind, vpost_get. by apply Hget.
  - apply Hseq; [|done]. destruct a as [|l]; [apply Hret|]. apply vpost_bind, vpost_res_node. intros nd _ _.
    assert (vpost (let! v := frc t l None in ret (f0 v)) s (λ _ s', okp (tok rl) s s')) as Ho by (apply Hseq; [apply HF|intros; apply Hret]).
    destruct nd; [|done|done]. apply vpost_bind, vpost_get. by apply Hget.
  - apply Hseq; [|done]. apply cell_op_ctx.
  - apply Hseq; [|done]. apply thunk_op_ctx.
  - apply Hseq; [|done]. apply set_op_ctx.
  - apply vpost_bind, vpost_get, vpost_bind, vpost_modify, vpost_bind. eapply vpost_mono; [apply IHb|]. intros v s1 H1.
    apply vpost_bind, vpost_modify. eapply vpost_mono; [apply IH|]. intros ? s2 H2. eapply okp_trans; [|exact H2].
    destruct H1. split; simpl in *; done.
  - apply vpost_bind, vpost_get, vpost_bind, vpost_modify, vpost_bind. eapply vpost_mono; [apply IHb|]. intros v s1 H1.
    apply vpost_bind, vpost_modify. eapply vpost_mono; [apply IH|]. intros ? s2 H2. eapply okp_trans; [|exact H2].
    destruct H1. split; simpl in *; done.
Qed.

Lemma insert_preds_ctx P src es s : vpost (insert_preds src es) s (λ _ s', okq P s s').
Proof.
  apply (vpost_mfor (okq P)); [apply okq_refl|apply okq_trans|].
  intros [e pd] s1 _. apply vpost_bind, vpost_assert. intros _. apply vpost_bind, vpost_lookup_abs. intros nd _.
  apply vpost_bind, vpost_of_opt. intros nd' _. apply vpost_put_node. by apply okq_same.
Qed.

Lemma produce_body_ctx frc : frc_ctx frc → prod_ctx (produce_body frc).
Proof.
  intros HF t l s. apply vpost_bind.
  apply (vpost_mono _ _ (λ a s', a.2 = cpath s ∧ structf s' = structf s ∧ stack s' = Frame l [] :: stack s ∧ tr_ok (tok Archivist) s s')).
  { apply vpost_bind, vpost_res_node. intros [| |c] _ _; [apply vpost_panic..|].
    apply vpost_bind, vpost_put_node. apply vpost_bind. eapply vpost_mono; [by apply (revoke_succs_ctx (tok Archivist))|].
    intros ? s1 [[H1 H2 H3 H4] H5]. simpl in *.
    apply vpost_bind, vpost_modify, vpost_bind, vpost_get, vpost_bind, vpost_modify, vpost_bind, vpost_res_node.
    intros [| |c'] _ _; [apply vpost_panic..|]. apply vpost_ret. simpl. rewrite H1, H2, H5. split_and!; try done. }
  intros [c prev] s1 (Hp & Hsf & Hst & Htr). simpl in Hp. subst prev. apply vpost_bind, vpost_modify.
  apply vpost_bind. eapply vpost_mono; [by apply (run_ctx frc Archivist)|]. intros v s2 [H1 H2 H3 H4]. simpl in *.
  rewrite Hst in H3. simpl in H3. destruct H3 as [E H3].
  apply vpost_bind. apply (vpost_mono _ _ (λ _ s', okq (tok Archivist) s s')); [|intros; by apply vpost_ret].
  apply vpost_bind, vpost_modify, vpost_bind, vpost_get. simpl. rewrite H3.
  apply vpost_bind, vpost_modify, vpost_bind, vpost_assert. intros _. simpl. apply vpost_bind.
  eapply vpost_mono; [apply (insert_preds_ctx (tok Archivist))|]. intros ? s3 [[I1 I2 I3 I4] I5]. simpl in *.
  apply vpost_bind, vpost_res_node. intros [| |c'] _ _; [apply vpost_panic..|]. apply vpost_put_node.
  split; simpl; [|done]. split; simpl; [done|congruence|rewrite I5; apply stk_ext_refl|].
  eapply tr_ok_trans; [exact Htr|]. eapply tr_ok_trans; [by eapply tr_ok_cong; [..|exact H4]|]. by eapply tr_ok_cong; [..|exact I4].
Qed.

Lemma clean_comp_ctx prod cln t w l cache es : prod_ctx prod → cln_ctx cln →
  ∀ s, vpost (clean_comp prod cln t w l cache es) s (λ _ s', okq (tok Archivist) s s').
Proof.
  intros HP HC. induction es as [|e es IH]; intros s; simpl; [apply vpost_ret, okq_refl|].
  apply vpost_bind, vpost_get_dirty. intros [|]; [|apply IH].
  apply vpost_bind, vpost_emit, vpost_bind. set (s0 := add_ev _ s).
  apply (vpost_mono _ _ (λ _ s', okq (tok Archivist) s0 s')).
  { unfold dep_clean. destruct (s_dep e); try (apply vpost_ret, okq_refl); [apply HC|].
    apply vpost_check_force_map_dep. intros; apply okq_refl. }
  intros ch s1 H1. destruct ch.
  - apply vpost_bind, vpost_emit, vpost_bind. eapply vpost_mono; [apply HP|]. intros r s2 H2.
    apply vpost_bind, vpost_emit, vpost_bind, vpost_emit, vpost_ret.
    eapply (okq_ext (tok Archivist)).
    + eapply okq_trans; [exact H1|]. eapply (okq_ext (tok Archivist)); [exact H2|]. intros F HF. exact HF.
    + intros F HF. exact HF.
  - apply vpost_bind. eapply vpost_mono; [apply (vpost_set_dirty (tok Archivist))|]. intros ? s2 H2.
    apply vpost_bind, vpost_emit, vpost_bind, vpost_emit. eapply vpost_mono; [apply IH|]. intros ? s3 H3.
    eapply okq_trans; [|exact H3]. eapply (okq_ext (tok Archivist) (tok Archivist) TCleanRec (Some l) (s_loc e)); [|intros F HF; exact HF].
    eapply okq_trans; [exact H1|]. eapply okq_trans; [exact H2|]. by apply okq_eff.
Qed.
Lemma clean_body_ctx prod cln : prod_ctx prod → cln_ctx cln → cln_ctx (clean_body prod cln).
Proof.
  intros HP HC t w l s. apply vpost_bind, vpost_res_node. intros [| |c] _ _; [apply vpost_ret, okq_refl..|].
  destruct (c_res c); [by apply clean_comp_ctx|].
  apply vpost_bind, vpost_emit, vpost_bind. eapply vpost_mono; [apply HP|]. intros r s1 H1.
  apply vpost_bind, vpost_emit, vpost_ret. eapply (okq_ext (tok Archivist)); [exact H1|]. intros F HF; exact HF.
Qed.
Lemma produce_clean_ctx n : prod_ctx (produce n) ∧ cln_ctx (clean n).
Proof.
  induction n as [|n [IHp IHc]]; [split; intros; intros ?; intros; apply vpost_nofuel|]. split; simpl.
  - apply produce_body_ctx. by apply force_loc_ctx.
  - by apply clean_body_ctx.
Qed.
Lemma force_ctx n : frc_ctx (force n).
Proof. apply force_loc_ctx; apply produce_clean_ctx. Qed.

(** A normal return of any client program, in any state. *)
Theorem exec_ctx n c s v s' : exec n c s = (OVal v, s') → okp (tok Editor) s s'.
Proof. intros E. by eapply (run_ctx (force n) Editor (force_ctx n) c s). Qed.
End Context.
