(** * What every outcome (normal, panic) guarantees: locations keep their existence and type, the
      flags stay, the log of executed thunks only grows. *)
From Verif Require Export Context.

Definition ty_le (m m' : gmap loc node) : Prop :=
  ∀ x nd, m !! x = Some nd → ∃ nd', m' !! x = Some nd' ∧ same_kind nd nd'.
Record anyp (s s' : dcg) : Prop := {
  ap_ty : ty_le (table s) (table s');
  ap_purity : purity s' = purity s;
  ap_runs : ∃ rs, runs s' = rs ++ runs s;
}.
Lemma same_kind_refl nd : same_kind nd nd. Proof. by split. Qed.
Lemma same_kind_trans n1 n2 n3 : same_kind n1 n2 → same_kind n2 n3 → same_kind n1 n3.
Proof. intros [E1 H1] [E2 H2]. split; [congruence|auto]. Qed.
Lemma ty_le_refl m : ty_le m m.
Proof. intros x nd Hx. eauto using same_kind_refl. Qed.
Lemma ty_le_trans m1 m2 m3 : ty_le m1 m2 → ty_le m2 m3 → ty_le m1 m3.
Proof. intros H1 H2 x nd Hx. destruct (H1 _ _ Hx) as (nd2 & Hx2 & ?). destruct (H2 _ _ Hx2) as (nd3 & ? & ?). exists nd3. split; [done|by eapply same_kind_trans]. Qed.
Lemma anyp_refl s s' : table s' = table s → purity s' = purity s → runs s' = runs s → anyp s s'.
Proof. intros E1 E2 E3. split; [rewrite E1; apply ty_le_refl|done|by exists []]. Qed.
Lemma anyp_trans s1 s2 s3 : anyp s1 s2 → anyp s2 s3 → anyp s1 s3.
Proof.
  intros [A1 A2 [r1 A3]] [B1 B2 [r2 B3]]. split; [by eapply ty_le_trans|congruence|]. exists (r2 ++ r1).
  by rewrite B3, A3, (assoc_L (++)).
Qed.
Lemma ty_le_insert m l nd : (∀ nd0, m !! l = Some nd0 → same_kind nd0 nd) → ty_le m (<[l := nd]> m).
Proof.
  intros Hl x nd0 Hx. destruct (decide (x = l)) as [->|].
  - rewrite lookup_insert. eauto.
  - rewrite lookup_insert_ne by done. eauto using same_kind_refl.
Qed.
Lemma node_raised_ty nd nd' : node_raised nd nd' → same_kind nd nd'.
Proof. destruct nd; simpl; [by intros ->..|]. by intros (es & -> & _). Qed.
Lemma preds_remove_ty l nd nd' : preds_remove l nd = Some nd' → same_kind nd nd'.
Proof. by destruct nd; simpl; intros [= <-]. Qed.
Lemma preds_insert_ty p nd nd' : preds_insert p nd = Some nd' → same_kind nd nd'.
Proof. by destruct nd; simpl; intros [= <-]. Qed.
Lemma node_dropped_ty l nd nd' : node_dropped l nd nd' → same_kind nd nd'.
Proof. intros (nd1 & [->|Hr%preds_remove_ty] & Hn%node_raised_ty); [done|by eapply same_kind_trans]. Qed.
Lemma dropped_ty_le l m m' : (∀ x, onode_dropped l (m !! x) (m' !! x)) → ty_le m m'.
Proof.
  intros Hx x nd E. specialize (Hx x). rewrite E in Hx. destruct (m' !! x) as [nd'|]; [|done]. exists nd'. split; [done|]. by eapply node_dropped_ty.
Qed.

Notation pre m s := (post m s (λ _ s', anyp s s')).
Lemma pre_bind {A B} (m : M A) (f : A → M B) s :
  pre m s → (∀ a s1, m s = (OVal a, s1) → pre (f a) s1) → pre (bind m f) s.
Proof.
  intros Hm Hf. apply post_bind. unfold post, kont in *. destruct (m s) as [[a| |] s1]; simpl in *; [|done|done].
  specialize (Hf a s1 eq_refl). eapply anyp_trans; [exact Hm|exact Hf].
Qed.
Lemma pre_bind_k {A B} (m : M A) (f : A → M B) s :
  pre m s → (∀ a s1, pre (f a) s1) → pre (bind m f) s.
Proof. intros Hm Hf. apply pre_bind; auto. Qed.
Lemma pre_ret {A} (a : A) s : pre (ret a) s. Proof. by apply anyp_refl. Qed.
Lemma pre_panic {A} r s : pre (@panic A r) s. Proof. by apply anyp_refl. Qed.
Lemma pre_nofuel {A} s : pre (@nofuel A) s. Proof. by apply anyp_refl. Qed.
Lemma pre_get s : pre get s. Proof. by apply anyp_refl. Qed.
Lemma pre_emit e s : pre (emit e) s. Proof. by apply anyp_refl. Qed.
Lemma pre_assert b r s : pre (assert b r) s. Proof. destruct b; by apply anyp_refl. Qed.
Lemma pre_of_opt {A} r (o : option A) s : pre (of_opt r o) s. Proof. destruct o; by apply anyp_refl. Qed.
Lemma pre_modify f s : table (f s) = table s → purity (f s) = purity s → runs (f s) = runs s → pre (modify f) s.
Proof. intros. by apply anyp_refl. Qed.
Lemma pre_mfor {A} (xs : list A) f s : (∀ x s, x ∈ xs → pre (f x) s) → pre (mfor xs f) s.
Proof.
  revert s. induction xs as [|x xs IH]; intros s Hf; simpl; [apply pre_ret|].
  apply pre_bind_k; [apply Hf; by left|]. intros _ s1. apply IH. intros y s2 Hy. apply Hf. by right.
Qed.

Section Types.
Context `{Prog}.
Lemma lookup_abs_inv l s nd s1 : lookup_abs l s = (OVal nd, s1) → s1 = s ∧ table s !! l = Some nd.
Proof. unfold lookup_abs, bind, get. destruct (table s !! l) eqn:E; [|done]. by intros [= -> <-]. Qed.
Lemma res_node_inv t l s nd s1 : res_node t l s = (OVal nd, s1) → s1 = s ∧ table s !! l = Some nd ∧ node_ty nd = t.
Proof.
  unfold res_node. unfold bind. destruct (lookup_abs l s) as [[nd'| |] s'] eqn:E; [|done|done].
  apply lookup_abs_inv in E as [-> E]. unfold assert. case_bool_decide; simpl; [|done]. by intros [= -> <-].
Qed.
Lemma pre_lookup_abs l s : pre (lookup_abs l) s.
Proof. apply post_lookup_abs; intros; by apply anyp_refl. Qed.
Lemma pre_res_node t l s : pre (res_node t l) s.
Proof. apply post_res_node; intros; by apply anyp_refl. Qed.
Lemma pre_put_node l nd s : (∀ nd0, table s !! l = Some nd0 → same_kind nd0 nd) → pre (put_node l nd) s.
Proof. intros Hl. apply post_put_node. split; simpl; [by apply ty_le_insert|done|by exists []]. Qed.
Lemma pre_get_dirty src eff tgt s : pre (get_dirty src eff tgt) s.
Proof. apply post_get_dirty; intros; by apply anyp_refl. Qed.
Lemma pre_set_dirty b src eff tgt s : pre (set_dirty b src eff tgt) s.
Proof.
  apply post_set_dirty; [|intros; by apply anyp_refl]. intros c e Hc _. split; simpl; [|done|by exists []].
  apply ty_le_insert. intros nd0 Hn. rewrite Hc in Hn. by injection Hn as <-.
Qed.
Lemma pre_push e pd s : pre (push_edge e pd) s.
Proof. unfold push_edge. apply post_modify. destruct (stack s); by apply anyp_refl. Qed.
Lemma pre_cell t n v s : pre (cell_op t n v) s.
Proof.
  eapply post_mono; [apply cell_op_any|]. intros o s' [Hf [R1 R2 R3 R4 R5] Hd _ Hl _]. split; [|done|by exists []].
  intros x nd Hx. destruct (decide (x = cell_loc s n v)) as [->|Hne].
  - rewrite Hx in Hl. destruct nd as [t0 ps v0|t0 v0|c].
    + destruct Hl as [Hl|[-> Hl]]; rewrite Hl; eauto using same_kind_refl; eexists; (split; [done|by split]).
    + rewrite Hl. eauto using same_kind_refl.
    + destruct Hl as (nd & Hl & Hn). rewrite Hl. exists nd. split; [done|]. by eapply node_dropped_ty.
  - specialize (Hd x Hne). rewrite Hx in Hd. destruct (table s' !! x) as [nd'|]; [|done]. exists nd'. split; [done|]. by eapply node_dropped_ty.
Qed.
Lemma pre_thunk t nc pp arg spur s : pre (thunk_op t nc pp arg spur) s.
Proof.
  eapply post_mono; [apply thunk_op_any|]. intros o s' [Hf [R1 R2 R3 R4 R5] Hd Ht Hs _]. split; [|done|by exists []].
  intros x nd Hx. destruct (decide (x = thunk_loc s nc pp arg)) as [->|Hne].
  - destruct Hs as [nd' Hs]; [eauto|]. exists nd'. split; [done|]. by eapply Ht.
  - specialize (Hd x Hne). rewrite Hx in Hd. destruct (table s' !! x) as [nd'|]; [|done]. exists nd'. split; [done|]. by eapply node_raised_ty.
Qed.
Lemma pre_set t a v s : pre (set_op t a v) s.
Proof.
  eapply post_mono; [apply set_op_any|]. intros o s' (Hf & [R1 R2 R3 R4 R5] & Hx & Hl & _). split; [|done|by exists []].
  intros x nd E. destruct (decide (a = ALoc x)) as [->|Hne].
  - destruct (Hl x eq_refl) as [Hl'|(ps & v0 & E1 & E2)].
    + rewrite Hl'. eauto using same_kind_refl.
    + rewrite E in E1. injection E1 as ->. rewrite E2. eexists. split; [done|]. by split.
  - specialize (Hx x Hne). rewrite E in Hx. destruct (table s' !! x) as [nd'|]; [|done]. exists nd'. split; [done|]. by eapply node_raised_ty.
Qed.
Lemma pre_revoke l es s : pre (revoke_succs l es) s.
Proof.
  eapply post_mono; [apply revoke_succs_any|]. intros o s' (Hf & [R1 R2 R3 R4 R5] & Hx). split; [by eapply dropped_ty_le|done|by exists []].
Qed.
Lemma pre_force_finish l dup pure t r s : pre (force_finish l dup pure t r) s.
Proof. apply pre_bind_k; [|intros; apply pre_ret]. destruct (_ || _); [apply pre_ret|apply pre_push]. Qed.
Lemma pre_force_loc prod cln t l cyc s :
  (∀ t l s, pre (prod t l) s) → (∀ t w l s, pre (cln t w l) s) → pre (force_loc prod cln t l cyc) s.
Proof.
  intros HP HC. apply pre_bind_k; [apply pre_get|]. intros s0 s1. cbv zeta. apply pre_bind_k; [apply pre_res_node|]. intros nd s2.
  destruct nd as [| |c].
  1,2: (apply pre_bind_k; [apply pre_emit|intros; apply pre_force_finish]).
  destruct (is_cycle s0 l).
  { destruct cyc; [|apply pre_panic]. apply pre_bind_k; [apply pre_emit|]. intros. apply pre_bind_k; [apply pre_emit|]. intros. apply pre_force_finish. }
  destruct (c_res c).
  - apply pre_bind_k; [apply pre_emit|]. intros. apply pre_bind_k; [apply HC|]. intros. apply pre_bind_k; [apply pre_emit|]. intros.
    apply pre_bind_k; [apply pre_res_node|]. intros nd' s9. destruct nd' as [| |c']; [apply pre_panic..|]. destruct (c_res c'); [apply pre_force_finish|apply pre_panic].
  - apply pre_bind_k; [apply pre_emit|]. intros. apply pre_bind_k; [apply pre_assert|]. intros. apply pre_bind_k; [apply HP|]. intros.
    apply pre_bind_k; [apply pre_emit|]. intros. apply pre_force_finish.
Qed.
Lemma pre_run frc c s : (∀ t l cyc s, pre (frc t l cyc) s) → pre (run frc c) s.
Proof.
  intros HF. revert s. induction c as [v0| |t a cyc k IH|t a f0 k IH|t a f0 k IH|t nm v0 k IH|t nc pp arg spur k IH|t a v0 k IH|nm b IHb k IH|b IHb k IH]; intros s; simpl.
  - apply pre_ret.
  - apply pre_panic.
  - apply pre_bind_k; [|done]. destruct a; [apply pre_ret|apply HF].
  - apply pre_bind_k; [|done]. destruct a as [|l]; [apply pre_ret|]. apply pre_bind_k; [apply pre_res_node|]. intros nd s1.
    destruct nd; [|(apply pre_bind_k; [apply HF|intros; apply pre_ret])..].
    apply pre_bind_k; [apply pre_get|]. intros. apply pre_bind_k; [apply pre_emit|]. intros. apply pre_bind_k; [apply pre_push|]. intros; apply pre_ret.
  - apply pre_bind_k; [|done]. destruct a as [|l]; [apply pre_ret|]. apply pre_bind_k; [apply pre_res_node|]. intros nd s1.
    destruct nd; [|(apply pre_bind_k; [apply HF|intros; apply pre_ret])..].
    apply pre_bind_k; [apply pre_get|]. intros. apply pre_bind_k; [apply pre_emit|]. intros. apply pre_bind_k; [apply pre_push|]. intros; apply pre_ret.
  - apply pre_bind_k; [apply pre_cell|done].
  - apply pre_bind_k; [apply pre_thunk|done].
  - apply pre_bind_k; [apply pre_set|done].
  - apply pre_bind_k; [apply pre_get|]. intros. apply pre_bind_k; [by apply pre_modify|]. intros. apply pre_bind_k; [apply IHb|]. intros.
    apply pre_bind_k; [by apply pre_modify|done].
  - apply pre_bind_k; [apply pre_get|]. intros. apply pre_bind_k; [by apply pre_modify|]. intros. apply pre_bind_k; [apply IHb|]. intros.
    apply pre_bind_k; [by apply pre_modify|done].
Qed.
Lemma pre_insert_preds l es s : pre (insert_preds l es) s.
Proof.
  apply pre_mfor. intros [e pd] s1 _. apply pre_bind_k; [apply pre_assert|]. intros _ s2.
  apply pre_bind; [apply pre_lookup_abs|]. intros nd s3 [-> Hnd]%lookup_abs_inv.
  apply pre_bind; [apply pre_of_opt|]. intros nd' s4 Ho. destruct (preds_insert _ nd) as [nd''|] eqn:E; [|done].
  injection Ho as -> <-. apply pre_put_node. intros nd0 Hn. rewrite Hnd in Hn. injection Hn as <-. by eapply preds_insert_ty.
Qed.
Lemma pre_produce_body frc t l s : (∀ t l cyc s, pre (frc t l cyc) s) → pre (produce_body frc t l) s.
Proof.
  intros HF. apply pre_bind_k.
  - apply pre_bind; [apply pre_res_node|]. intros nd s1 (-> & Hnd & Ht)%res_node_inv. destruct nd as [| |c]; [apply pre_panic..|].
    apply pre_bind_k; [apply pre_put_node|].
    { intros nd0 Hn. rewrite Hnd in Hn. by injection Hn as <-. }
    intros. apply pre_bind_k; [apply pre_revoke|]. intros. apply pre_bind_k; [by apply pre_modify|]. intros.
    apply pre_bind_k; [apply pre_get|]. intros. apply pre_bind_k; [by apply pre_modify|]. intros.
    apply pre_bind_k; [apply pre_res_node|]. intros nd' s9. destruct nd' as [| |c']; [apply pre_panic..|]. apply pre_ret.
  - intros [c prev] s1. apply pre_bind_k.
    { apply post_modify. split; [apply ty_le_refl|done|]. by exists [l]. }
    intros. apply pre_bind_k; [by apply pre_run|]. intros. apply pre_bind_k; [|intros; apply pre_ret].
    apply pre_bind_k; [by apply pre_modify|]. intros. apply pre_bind_k; [apply pre_get|]. intros.
    destruct (stack _); [apply pre_panic|]. apply pre_bind_k; [by apply pre_modify|]. intros. apply pre_bind_k; [apply pre_assert|]. intros.
    apply pre_bind_k; [apply pre_insert_preds|]. intros. apply pre_bind; [apply pre_res_node|]. intros nd' s9 (-> & Hnd & Ht)%res_node_inv.
    destruct nd' as [| |c']; [apply pre_panic..|]. apply pre_put_node. intros nd0 Hn. rewrite Hnd in Hn. by injection Hn as <-.
Qed.
Lemma pre_clean_comp prod cln t w l cache es s :
  (∀ t l s, pre (prod t l) s) → (∀ t w l s, pre (cln t w l) s) → pre (clean_comp prod cln t w l cache es) s.
Proof.
  intros HP HC. revert s. induction es as [|e es IH]; intros s; simpl; [apply pre_ret|].
  apply pre_bind_k; [apply pre_get_dirty|]. intros [|] s1; [|apply IH]. apply pre_bind_k; [apply pre_emit|]. intros. apply pre_bind_k.
  { unfold dep_clean. destruct (s_dep e); try apply pre_ret; [apply HC|]. apply post_check_force_map_dep; intros; by apply anyp_refl. }
  intros [|] s3.
  - apply pre_bind_k; [apply pre_emit|]. intros. apply pre_bind_k; [apply HP|]. intros. apply pre_bind_k; [apply pre_emit|]. intros.
    apply pre_bind_k; [apply pre_emit|]. intros. apply pre_ret.
  - apply pre_bind_k; [apply pre_set_dirty|]. intros. apply pre_bind_k; [apply pre_emit|]. intros. apply pre_bind_k; [apply pre_emit|]. intros. apply IH.
Qed.
Lemma pre_produce_clean n : (∀ t l s, pre (produce n t l) s) ∧ (∀ t w l s, pre (clean n t w l) s).
Proof.
  induction n as [|n [IHp IHc]]; [split; intros; apply pre_nofuel|]. split; simpl; intros.
  - apply pre_produce_body. intros. by apply pre_force_loc.
  - apply pre_bind_k; [apply pre_res_node|]. intros nd s1. destruct nd as [| |c]; [apply pre_ret..|].
    destruct (c_res c); [by apply pre_clean_comp|]. apply pre_bind_k; [apply pre_emit|]. intros. apply pre_bind_k; [apply IHp|]. intros.
    apply pre_bind_k; [apply pre_emit|]. intros. apply pre_ret.
Qed.
Lemma pre_force n t l cyc s : pre (force n t l cyc) s.
Proof. apply pre_force_loc; apply pre_produce_clean. Qed.
Theorem exec_anyp n c s o s' : exec n c s = (o, s') → anyp s s'.
Proof. intros E. assert (Hp := pre_run (force n) c s (λ t l cyc s, pre_force n t l cyc s)). exact (post_elim (exec n c) s _ o s' Hp E). Qed.
End Types.
