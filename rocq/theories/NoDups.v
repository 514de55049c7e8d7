(** * C72: duplicate edges (the "duplicate edge invariant" documented at src/reflect.rs:172-180). *)
From Verif Require Export Context Demo.
Local Open Scope list_scope.

(** ** Specification *)
(** [force] (or [force_cycle], [get]) recorded this edge; the other observations are made by [force_map], [force_abs]. *)
Definition by_force (d : dep) : Prop := match d with DForce _ _ => True | _ => False end.
(** No edge recorded by [force] comes after another observation of the same location. *)
Definition no_dup_force (es : list succ) : Prop :=
  ∀ es1 e es2, es = es1 ++ e :: es2 → s_eff e = Observe → by_force (s_dep e) →
    ∀ e', e' ∈ es1 → s_eff e' = Observe → s_loc e' ≠ s_loc e.
(** Every observation was made by [force]. *)
Definition all_by_force (es : list succ) : Prop := ∀ e, e ∈ es → s_eff e = Observe → by_force (s_dep e).
(** Where a list of edges observes. *)
Definition observed (es : list succ) : list loc := s_loc <$> filter (λ e, s_eff e = Observe) es.
(** Of all thunks of the graph, and of those that are being evaluated. *)
Definition all_edges (P : list succ → Prop) (s : dcg) : Prop :=
  (∀ l c, table s !! l = Some (NComp c) → P (c_succs c)) ∧ (∀ f, f ∈ stack s → P (f_succs f).*1).
(** A program that does not use [force_map] and [force_abs]. *)
Fixpoint no_maps (c : comp) : Prop :=
  match c with
  | Ret _ | Fail => True
  | Force _ _ _ k => ∀ v, no_maps (k v)
  | ForceMap _ _ _ _ | ForceAbs _ _ _ _ => False
  | Cell _ _ _ k => ∀ l, no_maps (k l)
  | Thunk _ _ _ _ _ k => ∀ l, no_maps (k l)
  | SetC _ _ _ k => no_maps k
  | Ns _ b k => no_maps b ∧ ∀ v, no_maps (k v)
  | Structural b k => no_maps b ∧ ∀ v, no_maps (k v)
  end.

(** ** Lists of edges *)
Definition sig (e : succ) : loc * effect * dep := (s_loc e, s_eff e, s_dep e).
Lemma sig_eq e e' : sig e = sig e' → s_loc e = s_loc e' ∧ s_eff e = s_eff e' ∧ s_dep e = s_dep e'.
Proof. by intros [= -> -> ->]. Qed.
Lemma mark_sig b eff tgt es : sig <$> mark_succ b eff tgt es = sig <$> es.
Proof. induction es as [|e es IH]; [done|]. cbn [mark_succ]. destruct (decide _); [done|]. by rewrite !fmap_cons, IH. Qed.
Lemma no_dup_sig es es' : sig <$> es' = sig <$> es → no_dup_force es → no_dup_force es'.
Proof.
  intros E HN es1 e es2 -> Ho Hf e' He' Ho'. rewrite fmap_app, fmap_cons in E. symmetry in E.
  apply fmap_app_inv in E as (f1 & f2 & E1 & E2 & ->). symmetry in E2. apply fmap_cons_inv in E2 as (f & f3 & E2 & E3 & ->).
  assert (Hin : sig e' ∈ sig <$> f1). { rewrite <- E1. by apply elem_of_list_fmap_1. }
  apply elem_of_list_fmap in Hin as (f' & (-> & Hb & _)%sig_eq & Hin). apply sig_eq in E2 as (-> & Hc & Hd).
  eapply HN; [done|congruence|by rewrite <- Hd|exact Hin|congruence].
Qed.
Lemma all_sig es es' : sig <$> es' = sig <$> es → all_by_force es → all_by_force es'.
Proof.
  intros E HN e He Ho. assert (Hin : sig e ∈ sig <$> es). { rewrite <- E. by apply elem_of_list_fmap_1. }
  apply elem_of_list_fmap in Hin as (f & (_ & Hb & ->)%sig_eq & Hin). apply HN; [done|congruence].
Qed.
Lemma no_dup_snoc es e : no_dup_force es → (s_eff e = Observe → by_force (s_dep e) → ∀ e', e' ∈ es → s_eff e' = Observe → s_loc e' ≠ s_loc e) →
  no_dup_force (es ++ [e]).
Proof.
  intros HN He es1 e1 es2 E Ho Hf e' He' Ho'. induction es2 as [|e2 es2 _] using rev_ind.
  - apply app_inj_tail in E as [-> ->]. by apply He.
  - rewrite app_comm_cons, (assoc_L (++)) in E. apply app_inj_tail in E as [-> _]. by eapply HN.
Qed.
Lemma all_snoc es e : all_by_force es → (s_eff e = Observe → by_force (s_dep e)) → all_by_force (es ++ [e]).
Proof. intros HN He e' [Hin|Hin%elem_of_list_singleton]%elem_of_app Ho; [by apply HN|]. subst e'. by apply He. Qed.
Lemma no_dup_observed es : no_dup_force es → all_by_force es → NoDup (observed es).
Proof.
  induction es as [|e es IH] using rev_ind; intros HN HA; [by apply NoDup_nil_2|].
  assert (NoDup (observed es)) as HI.
  { apply IH; [|intros e' He'; apply HA, elem_of_app; by left]. intros es1 e1 es2 -> Ho Hf. eapply (HN es1 e1 (es2 ++ [e])); [|done|done].
    by rewrite <- (assoc_L (++)). }
  unfold observed in *. rewrite filter_app, fmap_app. destruct (decide (s_eff e = Observe)) as [Ho|Ho].
  - rewrite filter_cons_True by done. cbn. apply NoDup_app. split; [done|]. split; [|apply NoDup_singleton].
    intros l (e' & -> & [Ho' He']%elem_of_list_filter)%elem_of_list_fmap Hl%elem_of_list_singleton.
    eapply (HN es e []); try done. apply HA; [|done]. apply elem_of_app. right. by left.
  - rewrite filter_cons_False by done. cbn. by rewrite (right_id_L [] (++)).
Qed.

(** ** The engine keeps them *)
Section Keeps.
Context `{Prog}.
(** [m = true]: [force_map] and [force_abs] are not used. *)
Context (m : bool).
Definition okes (es : list succ) : Prop := no_dup_force es ∧ (m = true → all_by_force es).
Definition Inv (s : dcg) : Prop := all_edges okes s.
Definition okc (c : comp) : Prop := m = true → no_maps c.
Lemma okes_nil : okes [].
Proof. split; [|intros _]; [intros es1 e es2 ?; by destruct es1|intros e ?%elem_of_nil; done]. Qed.
Lemma okes_sig es es' : sig <$> es' = sig <$> es → okes es → okes es'.
Proof. intros E [H1 H2]. split; [by eapply no_dup_sig|]. intros Hm. eapply all_sig; [exact E|auto]. Qed.

Definition pa {A} (c : M A) (s : dcg) : Prop := Inv s → Inv (c s).2.
Lemma pa_bind {A B} (c : M A) (f : A → M B) s : pa c s → (∀ a s1, c s = (OVal a, s1) → pa (f a) s1) → pa (bind c f) s.
Proof. unfold pa, bind. intros Hc Hf Hs. destruct (c s) as [[a|r|] s1] eqn:E; simpl in *; [|auto..]. apply Hf; auto. Qed.
Lemma pa_bind_get {B} (f : dcg → M B) s : pa (f s) s → pa (bind get f) s.
Proof. intros Hf. apply pa_bind; [by intros ?|]. by intros ? ? [= <- <-]. Qed.
Lemma pa_ret {A} (a : A) s : pa (ret a) s. Proof. by intros ?. Qed.
Lemma pa_panic {A} r s : pa (A := A) (panic r) s. Proof. by intros ?. Qed.
Lemma pa_nofuel {A} s : pa (A := A) nofuel s. Proof. by intros ?. Qed.
Lemma pa_emit e s : pa (emit e) s. Proof. by intros [? ?]. Qed.
Lemma pa_assert b r s : pa (assert b r) s. Proof. by destruct b; intros ?. Qed.
Lemma pa_of_opt {A} r (o : option A) s : pa (of_opt r o) s. Proof. by destruct o; intros ?. Qed.
Lemma pa_modify (f : dcg → dcg) s : table (f s) = table s → stack (f s) = stack s → pa (modify f) s.
Proof. intros E1 E2 [H1 H2]. split; simpl; [by rewrite E1|by rewrite E2]. Qed.
Lemma pa_lookup_abs l s : pa (lookup_abs l) s.
Proof. intros ?. unfold lookup_abs, bind, get. by destruct (table s !! l). Qed.
Lemma lookup_abs_val l s nd s1 : lookup_abs l s = (OVal nd, s1) → s1 = s ∧ table s !! l = Some nd.
Proof. unfold lookup_abs, bind, get. destruct (table s !! l) eqn:E; [|done]. by intros [= <- <-]. Qed.
Lemma pa_res_node t l s : pa (res_node t l) s.
Proof. apply pa_bind; [apply pa_lookup_abs|]. intros nd s1 _. apply pa_bind; [apply pa_assert|]. intros; apply pa_ret. Qed.
Lemma res_node_val t l s nd s1 : res_node t l s = (OVal nd, s1) → s1 = s ∧ table s !! l = Some nd.
Proof. apply (vpost_res_node t l s (λ nd s1, s1 = s ∧ table s !! l = Some nd)). done. Qed.
Lemma pa_put l nd s : match nd with NComp c => okes (c_succs c) | _ => True end → pa (put_node l nd) s.
Proof.
  intros Hn [H1 H2]. split; simpl; [|done]. intros l' c [[<- ->]|[_ Hl]]%lookup_insert_Some; [done|by eapply H1].
Qed.
Lemma Inv_comp s l c : Inv s → table s !! l = Some (NComp c) → okes (c_succs c).
Proof. intros [H1 _]. apply H1. Qed.
Lemma pa_mfor {A} (xs : list A) f s : (∀ x s, pa (f x) s) → pa (mfor xs f) s.
Proof. intros Hf. revert s. induction xs as [|x xs IH]; intros s; simpl; [apply pa_ret|]. apply pa_bind; [done|]. intros; apply IH. Qed.
Lemma pa_inv {A} (c : M A) s : (Inv s → pa c s) → pa c s.
Proof. intros Hc Hs. by apply Hc. Qed.

Lemma pa_push e pd s : (∀ f fs, stack s = f :: fs → okes (f_succs f).*1 → okes ((f_succs f).*1 ++ [e])) → pa (push_edge e pd) s.
Proof.
  intros He [H1 H2]. unfold push_edge, modify. simpl. destruct (stack s) as [|f fs] eqn:Es; [by split; [|rewrite Es]|].
  split; simpl; [done|]. intros f' [->|Hf']%elem_of_cons; [|apply H2; by right]. simpl. rewrite fmap_app. cbn. eapply He; [done|]. apply H2. by left.
Qed.
Lemma pa_push_alloc l d pd s : pa (push_edge (Succ false l Allocate d) pd) s.
Proof. apply pa_push. intros f fs _ [H1 H2]. split; [by apply no_dup_snoc|]. intros Hm. apply all_snoc; [auto|done]. Qed.
Lemma pa_push_map l d pd s : m = false → ¬ by_force d → pa (push_edge (Succ false l Observe d) pd) s.
Proof. intros Hm Hd. apply pa_push. intros f fs _ [H1 H2]. split; [by apply no_dup_snoc|]. by rewrite Hm. Qed.
Lemma dup_false s l f fs : stack s = f :: fs → is_dup s l = false → ∀ e, e ∈ (f_succs f).*1 → s_eff e = Observe → s_loc e ≠ l.
Proof.
  unfold is_dup. intros -> Hd e ([e' pd] & -> & He)%elem_of_list_fmap Ho Hl. simpl in *.
  assert (existsb (λ e, bool_decide (s_loc e.1 = l ∧ s_eff e.1 = Observe)) (f_succs f) = true) as Ht; [|congruence].
  apply existsb_exists. exists (e', pd). split; [by apply elem_of_list_In|]. by apply bool_decide_eq_true_2.
Qed.
Lemma pa_finish l b t r s s1 : stack s1 = stack s → pa (force_finish l (is_dup s l) b t r) s1.
Proof.
  intros Es. apply pa_bind; [|intros; apply pa_ret]. destruct (is_dup s l) eqn:Ed; [apply pa_ret|]. destruct b; [apply pa_ret|].
  apply pa_push. rewrite Es. intros f fs Ef [H1 H2]. split; [|intros Hm; apply all_snoc; [auto|done]].
  apply no_dup_snoc; [done|]. intros _ _ e' He' Ho. by eapply dup_false.
Qed.

Local Ltac pa1 := first
  [ apply pa_ret | apply pa_panic | apply pa_nofuel | apply pa_emit | apply pa_assert | apply pa_of_opt | apply pa_lookup_abs | apply pa_res_node
  | apply pa_push_alloc | by apply pa_put | by apply pa_modify ].
Local Ltac pab := apply pa_bind; [try pa1|].

Lemma pa_get_dirty src eff tgt s : pa (get_dirty src eff tgt) s.
Proof. pab. intros nd s1 _. destruct nd; try pa1. destruct (find_succ _ _ _); pa1. Qed.
Lemma pa_set_dirty b src eff tgt s : pa (set_dirty b src eff tgt) s.
Proof.
  apply pa_inv. intros Hi. pab. intros nd s1 [-> Hl]%lookup_abs_val. destruct nd as [| |c]; try pa1. destruct (find_succ _ _ _); [|pa1].
  apply pa_put. simpl. eapply okes_sig; [apply mark_sig|]. by eapply Inv_comp.
Qed.
Lemma pa_check t f w l s : pa (check_force_map_dep t f w l) s.
Proof. pab. intros nd s1 _. destruct nd; pa1. Qed.
Lemma pa_dep_dirty d l s : pa (dep_dirty d l) s.
Proof. destruct d; simpl; try pa1. apply pa_check. Qed.
Lemma pa_dirty_obs fuel l s : pa (dirty_obs fuel l) s.
Proof.
  revert l s. induction fuel as [|fuel IH]; intros l s; simpl; [pa1|]. pab. intros nd s1 _. pab. intros ps s2 _.
  apply pa_mfor. intros pd s3. unfold dirty_step. apply pa_bind.
  { destruct pd.2 as [d|]; [|pa1]. destruct (is_absmap d); [pa1|]. apply pa_bind; [apply pa_dep_dirty|]. intros; pa1. }
  intros st s4 _. apply pa_bind.
  { destruct st; [pa1|]. apply pa_bind; [apply pa_get_dirty|]. intros b s5 _. destruct b; [pa1|]. pab. intros _ s6 _. pab. intros _ s7 _.
    apply pa_bind; [apply pa_set_dirty|]. intros; pa1. }
  intros st' s5 _. destruct st'; [pa1|]. apply pa_bind; [apply IH|]. intros; pa1.
Qed.
Lemma pa_dirty_observers l s : pa (dirty_observers l) s.
Proof. apply pa_dirty_obs. Qed.
Lemma pa_dirty_alloc l s : pa (dirty_alloc l) s.
Proof.
  apply pa_bind; [apply pa_dirty_observers|]. intros _ s1 _. pab. intros nd s2 _. pab. intros ps s3 _. apply pa_mfor. intros p s4.
  unfold dirty_alloc_step. apply pa_bind; [apply pa_get_dirty|]. intros b s5 _. destruct b; [pa1|].
  apply pa_bind; [apply pa_set_dirty|]. intros _ s6 _. pab. intros _ s7 _. pab. intros _ s8 _. apply pa_bind; [apply pa_dirty_observers|]. intros; pa1.
Qed.
Lemma pa_revoke src es s : pa (revoke_succs src es) s.
Proof.
  apply pa_mfor. intros e s1. pab. intros _ s2 _. apply pa_inv. intros Hi. pab. intros nd s3 [-> Hl]%lookup_abs_val.
  apply pa_bind; [pa1|]. intros nd' s4 E. destruct nd as [| |c]; unfold ret, panic in E; simpl in E; unfold ret, panic in E; inversion E; subst; [by apply pa_put|]. apply pa_put. simpl. by eapply Inv_comp.
Qed.
Lemma pa_set_val t l v s : pa (set_val t l v) s.
Proof. pab. intros nd s1 _. destruct nd; try pa1. destruct (decide _); [pa1|]. pab. intros; apply pa_dirty_alloc. Qed.
Lemma pa_cell t n v s : pa (cell_op t n v) s.
Proof.
  apply pa_bind_get. cbv zeta. apply pa_bind.
  { destruct (table s !! _); [|pa1]. pab. intros nd s1 _. destruct nd; pa1. }
  intros [[[dd ds] su] fr] s1 _. apply pa_bind.
  { destruct fr; [pa1|]. apply pa_bind; [|intros; pa1]. pab. intros nd s2 _. destruct nd; pa1. }
  intros ac s2 _. pab. intros _ s3 _. apply pa_bind; [destruct ds; [apply pa_set_val|pa1]|]. intros _ s4 _.
  apply pa_bind; [destruct dd; [apply pa_dirty_alloc|pa1]|]. intros _ s5 _. apply pa_bind; [destruct su; [apply pa_revoke|pa1]|]. intros _ s6 _.
  pab. intros _ s7 _. apply pa_bind; [destruct fr; [|pa1]; apply pa_put; by destruct (_ && _)|]. intros _ s8 _.
  apply pa_bind; [destruct (_ && _); pa1|]. intros; pa1.
Qed.
Lemma pa_thunk t nc pp arg spur s : pa (thunk_op t nc pp arg spur) s.
Proof.
  apply pa_bind_get. cbv zeta.
  assert (∀ l, pa (match table s !! l with Some _ => ret l | None => push_edge (Succ false l Allocate DAllocStruct) None ;!
    put_node l (NComp (CompNode t [] [] pp arg spur None)) ;! ret l end) s) as Hs.
  { intros l. destruct (table s !! l); [pa1|]. pab. intros _ s1 _. apply pa_bind; [apply pa_put, okes_nil|]. intros; pa1. }
  destruct nc as [| | |n]; [pa1|pa1|apply Hs|]. destruct (structf s); [apply Hs|]. apply pa_bind.
  { apply pa_inv. intros Hi. destruct (table s !! _) as [nd|] eqn:El; [|pa1]. pab. intros [] s1 E.
    assert (s1 = s) as ->. { unfold assert in E. destruct (bool_decide _); [by injection E|done]. }
    destruct nd as [| |c]; [pa1..|]. destruct (decide _); [|pa1]. destruct (decide _); [pa1|].
    apply pa_bind; [apply pa_put; simpl; by eapply Inv_comp|]. intros; pa1. }
  intros [[dd di] fr] s1 _. pab. intros _ s2 _. apply pa_bind; [destruct dd; [apply pa_dirty_alloc|pa1]|]. intros _ s3 _. pab. intros _ s4 _.
  pab. intros _ s5 _. apply pa_bind; [destruct di; [apply pa_put, okes_nil|pa1]|]. intros; pa1.
Qed.
Lemma pa_set t a v s : pa (set_op t a v) s.
Proof. destruct a; [pa1|]. apply pa_bind_get. destruct (stack s); [apply pa_set_val|pa1]. Qed.

Lemma pa_force_loc prod cln : prod_ctx prod → cln_ctx cln → (∀ t l s, pa (prod t l) s) → (∀ t w l s, pa (cln t w l) s) →
  ∀ t l cyc s, pa (force_loc prod cln t l cyc) s.
Proof.
  intros XP XC HP HC t l cyc s. apply pa_bind_get. cbv zeta. pab. intros nd s0 [-> _]%res_node_val.
  assert (∀ v b, pa (emit (EvEff (TForce RefGet) (cur_loc s) l) ;! force_finish l (is_dup s l) b t v) s) as Hget.
  { intros v b. pab. intros [] s1 [= <-]. by apply pa_finish. }
  destruct nd as [| |c]; [apply Hget..|]. destruct (is_cycle s l).
  { destruct cyc; [|pa1]. pab. intros [] s1 [= <-]. pab. intros [] s2 [= <-]. by apply pa_finish. }
  destruct (c_res c) as [r0|].
  - pab. intros [] s1 [= <-]. apply pa_bind; [apply HC|]. intros ch s2 E2. apply XC in E2. destruct E2 as [_ E2]. simpl in E2.
    pab. intros [] s3 [= <-]. pab. intros nd' s4 [-> _]%res_node_val. destruct nd' as [| |c']; [pa1..|]. destruct (c_res c'); [|pa1]. by apply pa_finish.
  - pab. intros [] s1 [= <-]. pab. intros [] s2 E. assert (s2 = add_ev (EvBegin (TForce CompCacheMiss) (cur_loc s) l) s) as ->.
    { unfold assert in E. destruct (negb _); [by injection E|done]. }
    apply pa_bind; [apply HP|]. intros r s3 E3. apply XP in E3. destruct E3 as [_ E3]. simpl in E3. pab. intros [] s4 [= <-]. by apply pa_finish.
Qed.

Lemma pa_run frc : (∀ t l cyc s, pa (frc t l cyc) s) → ∀ c, okc c → ∀ s, pa (run frc c) s.
Proof.
  intros HF. induction c as [v0| |t a cyc k IH|t a f0 k IH|t a f0 k IH|t nm v0 k IH|t nc pp arg spur k IH|t a v0 k IH|nm b IHb k IH|b IHb k IH]; intros Hk s; unfold okc in *; simpl in *.
  - pa1.
  - pa1.
  - apply pa_bind; [destruct a; [pa1|apply HF]|]. intros v s1 _. apply IH. auto.
  - assert (m = false) as Hm. { destruct m; [by destruct Hk|done]. }
    apply pa_bind; [|intros v s1 _; apply IH; by rewrite Hm]. destruct a; [pa1|]. simpl. pab. intros nd s1 _.
    destruct nd; [|apply pa_bind; [apply HF|intros; pa1]..]. apply pa_bind_get. pab. intros _ s2 _. apply pa_bind; [apply pa_push_map; [done|by intros []]|]. intros; pa1.
  - assert (m = false) as Hm. { destruct m; [by destruct Hk|done]. }
    apply pa_bind; [|intros v s1 _; apply IH; by rewrite Hm]. destruct a; [pa1|]. simpl. pab. intros nd s1 _.
    destruct nd; [|apply pa_bind; [apply HF|intros; pa1]..]. apply pa_bind_get. pab. intros _ s2 _. apply pa_bind; [apply pa_push_map; [done|by intros []]|]. intros; pa1.
  - apply pa_bind; [apply pa_cell|]. intros l s1 _. apply IH. auto.
  - apply pa_bind; [apply pa_thunk|]. intros l s1 _. apply IH. auto.
  - apply pa_bind; [apply pa_set|]. intros l s1 _. apply IH. auto.
  - apply pa_bind_get. pab. intros _ s1 _. apply pa_bind; [apply IHb; intros; by apply Hk|]. intros v s2 _. pab. intros _ s3 _. apply IH. intros; by apply Hk.
  - apply pa_bind_get. pab. intros _ s1 _. apply pa_bind; [apply IHb; intros; by apply Hk|]. intros v s2 _. pab. intros _ s3 _. apply IH. intros; by apply Hk.
Qed.

Context (Hcode : ∀ pp a sp, okc (code pp a sp)).
Lemma pa_insert_preds src es s : pa (insert_preds src es) s.
Proof.
  apply pa_mfor. intros [e pd] s1. pab. intros _ s2 _. apply pa_inv. intros Hi. pab. intros nd s3 [-> Hl]%lookup_abs_val.
  apply pa_bind; [pa1|]. intros nd' s4 E. destruct nd as [| |c]; unfold ret, panic in E; simpl in E; unfold ret, panic in E; inversion E; subst; [by apply pa_put|]. apply pa_put. simpl. by eapply Inv_comp.
Qed.
Lemma pa_produce_body frc : (∀ t l cyc s, pa (frc t l cyc) s) → ∀ t l s, pa (produce_body frc t l) s.
Proof using Type Hcode.
  intros HF t l s. apply pa_bind.
  { pab. intros nd s1 _. destruct nd as [| |c]; [pa1..|]. apply pa_bind; [apply pa_put, okes_nil|]. intros _ s2 _.
    apply pa_bind; [apply pa_revoke|]. intros _ s3 _. apply pa_bind.
    { intros [H1 H2]. split; simpl; [done|]. intros f [->|Hf]%elem_of_cons; [apply okes_nil|by apply H2]. }
    intros _ s4 _. apply pa_bind_get. pab. intros _ s5 _. pab. intros nd' s6 _. destruct nd'; pa1. }
  intros [c prev] s1 _. pab. intros _ s2 _. apply pa_bind; [by apply pa_run|]. intros r s3 _. apply pa_bind; [|intros; pa1].
  pab. intros _ s4 _. apply pa_bind_get. apply pa_inv. intros Hi. destruct (stack s4) as [|f fs] eqn:Es; [pa1|].
  assert (okes (f_succs f).*1) as Hf. { destruct Hi as [_ Hi]. apply Hi. rewrite Es. by left. }
  apply pa_bind. { intros [H1 H2]. split; simpl; [done|]. intros f' Hf'. apply H2. rewrite Es. by right. }
  intros _ s5 _. pab. intros _ s6 _. apply pa_bind; [apply pa_insert_preds|]. intros _ s7 _. pab. intros nd s8 _. destruct nd; [pa1..|]. by apply pa_put.
Qed.
Lemma pa_clean_comp prod cln t w l cache es : (∀ t l s, pa (prod t l) s) → (∀ t w l s, pa (cln t w l) s) →
  ∀ s, pa (clean_comp prod cln t w l cache es) s.
Proof using Type Hcode.
  intros HP HC. induction es as [|e es IH]; intros s; simpl; [pa1|]. apply pa_bind; [apply pa_get_dirty|]. intros b s1 _. destruct b; [|apply IH].
  pab. intros _ s2 _. apply pa_bind; [unfold dep_clean; destruct (s_dep e); try pa1; [apply HC|apply pa_check]|]. intros ch s3 _. destruct ch.
  - pab. intros _ s4 _. apply pa_bind; [apply HP|]. intros r s5 _. pab. intros _ s6 _. pab. intros; pa1.
  - apply pa_bind; [apply pa_set_dirty|]. intros _ s4 _. pab. intros _ s5 _. pab. intros _ s6 _. apply IH.
Qed.
Lemma pa_produce_clean n : (∀ t l s, pa (produce n t l) s) ∧ (∀ t w l s, pa (clean n t w l) s).
Proof using Type Hcode.
  induction n as [|n [IHp IHc]]; [split; intros; pa1|]. destruct (produce_clean_ctx n) as [XP XC]. split; simpl.
  - apply pa_produce_body. by apply pa_force_loc.
  - intros t w l s. pab. intros nd s1 _. destruct nd as [| |c]; [pa1..|]. destruct (c_res c); [by apply pa_clean_comp|].
    pab. intros _ s2 _. apply pa_bind; [apply IHp|]. intros r s3 _. pab. intros; pa1.
Qed.
Lemma pa_force n t l cyc s : pa (force n t l cyc) s.
Proof using Type Hcode. destruct (produce_clean_ctx n), (pa_produce_clean n). by apply pa_force_loc. Qed.
Lemma pa_exec n c s : okc c → pa (exec n c) s.
Proof using Type Hcode. intros Hc. apply pa_run; [apply pa_force|done]. Qed.
End Keeps.

(** ** C72 *)
Section C72.
Context `{Prog}.
(** Any history: programs satisfying [P] are run one after the other on a fresh engine, whether they return, panic (and
    the panic is caught) or are stopped. *)
Inductive reached (P : comp → Prop) : dcg → Prop :=
  | reached_new : reached P dcg_new
  | reached_run n c s : P c → reached P s → reached P (exec n c s).2.

Lemma reached_inv m s : (∀ pp a sp, okc m (code pp a sp)) → reached (okc m) s → Inv m s.
Proof.
  intros Hcode. induction 1 as [|n c s Hc _ IH].
  - split; [intros l c E; simpl in E; by rewrite lookup_empty in E|intros f ?%elem_of_nil; done].
  - by apply pa_exec.
Qed.
Lemma reached_mono (P Q : comp → Prop) s : (∀ c, P c → Q c) → reached P s → reached Q s.
Proof. intros HPQ. induction 1; constructor; auto. Qed.

(** Whatever was run: no thunk, finished or executing, has an edge recorded by [force] to a location it had observed
    before. *)
Theorem C72_no_duplicate_force s : reached (λ _, True) s → all_edges no_dup_force s.
Proof.
  intros Hs. destruct (reached_inv false s) as [H1 H2]; [done|eapply reached_mono; [|exact Hs]; by intros ?? ?|].
  split; intros; [by eapply H1|by eapply H2].
Qed.
(** Without [force_map] and [force_abs] every thunk has at most one observing edge per location. *)
Theorem C72_observed_once s :
  (∀ pp a sp, no_maps (code pp a sp)) → reached no_maps s → all_edges (λ es, NoDup (observed es)) s.
Proof.
  intros Hc Hs. destruct (reached_inv true s) as [H1 H2]; [by intros ??? _|eapply reached_mono; [|done]; by intros ?? _|].
  split; intros; apply no_dup_observed; first [by eapply H1|by eapply H2|eapply H1; done|eapply H2; done].
Qed.

(** The flag [is_dup] (engine.rs:1965-1972): the executing thunk has observed the location before. *)
Lemma is_dup_observed s l f fs : stack s = f :: fs → is_dup s l = true ↔ l ∈ observed (f_succs f).*1.
Proof.
  intros Es. unfold is_dup. rewrite Es, existsb_exists. unfold observed. rewrite elem_of_list_fmap. split.
  - intros ([e pd] & He%elem_of_list_In & [Hl Ho]%bool_decide_eq_true_1). exists e. split; [done|]. apply elem_of_list_filter.
    split; [done|]. by apply (elem_of_list_fmap_1 fst _ (e, pd)).
  - intros (e & -> & [Ho ([e' pd] & -> & He)%elem_of_list_fmap]%elem_of_list_filter). exists (e', pd).
    split; [by apply elem_of_list_In|]. by apply bool_decide_eq_true_2.
Qed.
(** Locations whose observation is not recorded at all: hash-consed values, and (with the purity optimisation)
    structurally named thunks without edges. *)
Definition unrecorded (s : dcg) (l : loc) : Prop :=
  (∃ t v, table s !! l = Some (NPure t v)) ∨
  (is_struct l = true ∧ purity s = true ∧ ∃ c, table s !! l = Some (NComp c) ∧ c_succs c = []).
Lemma finish_edges l b t r s s1 : stack s1 = stack s → (b = true → unrecorded s l) → ∀ f fs, stack s = f :: fs →
  vpost (force_finish l (is_dup s l) b t r) s1 (λ v s',
    (stack s' = f :: fs ∧ (l ∈ observed (f_succs f).*1 ∨ unrecorded s l)) ∨
    (l ∉ observed (f_succs f).*1 ∧ ¬ b ∧ stack s' = Frame (f_loc f) (f_succs f ++ [(Succ false l Observe (DForce t v), None)]) :: fs)).
Proof.
  intros E1 Hb f fs Es. apply vpost_bind. destruct (is_dup s l) eqn:Ed.
  { apply vpost_ret, vpost_ret. left. split; [congruence|]. left. by eapply is_dup_observed. }
  destruct b; simpl.
  { apply vpost_ret, vpost_ret. left. split; [congruence|]. right. by apply Hb. }
  apply vpost_modify, vpost_ret. rewrite E1, Es. right. split; [|by split; [intros []|]]. rewrite <- (is_dup_observed s l f fs) by done. by rewrite Ed.
Qed.
(** What a [force] that returns [v] adds to the edges of the thunk that is executing: one edge to the location with the
    value [v] if the thunk had not observed the location before, and nothing if it had (or is [unrecorded]). *)
Theorem C72_force_records n t l cyc s v s' f fs :
  force n t l cyc s = (OVal v, s') → stack s = f :: fs →
  (stack s' = stack s ∧ (l ∈ observed (f_succs f).*1 ∨ unrecorded s l)) ∨
  (stack s' = Frame (f_loc f) (f_succs f ++ [(Succ false l Observe (DForce t v), None)]) :: fs ∧ l ∉ observed (f_succs f).*1).
Proof.
  intros E Es. destruct (produce_clean_ctx n) as [XP XC].
  set (Q := λ (v : val) (s' : dcg), (stack s' = stack s ∧ (l ∈ observed (f_succs f).*1 ∨ unrecorded s l)) ∨
    (stack s' = Frame (f_loc f) (f_succs f ++ [(Succ false l Observe (DForce t v), None)]) :: fs ∧ l ∉ observed (f_succs f).*1)).
  enough (vpost (force n t l cyc) s Q) as Hv by (by apply Hv).
  assert (∀ b t r s1, stack s1 = stack s → (b = true → unrecorded s l) → t = t → vpost (force_finish l (is_dup s l) b t r) s1
    (λ v s', (stack s' = stack s ∧ (l ∈ observed (f_succs f).*1 ∨ unrecorded s l)) ∨
    (stack s' = Frame (f_loc f) (f_succs f ++ [(Succ false l Observe (DForce t v), None)]) :: fs ∧ l ∉ observed (f_succs f).*1))) as Hfin.
  { intros b t' r s1 E1 Hb _. eapply vpost_mono; [by eapply finish_edges|]. intros v1 s2 [[E2 H2]|(H2 & _ & E2)]; [left; split; [congruence|done]|by right]. }
  unfold force, force_loc. apply vpost_bind, vpost_get. cbv zeta. apply vpost_bind, vpost_res_node. intros nd Hl _. destruct nd as [t' ps v'|t' v'|c].
  - apply vpost_bind, vpost_emit. by apply Hfin.
  - apply vpost_bind, vpost_emit. apply Hfin; [done| |done]. intros _. left. eauto.
  - assert (is_struct l && bool_decide (length (c_succs c) = O) && purity s = true → unrecorded s l) as Hp.
    { intros [[Hs Hc%bool_decide_eq_true_1]%andb_prop Hp]%andb_prop. right. split_and!; [done..|]. exists c. split; [done|]. by destruct (c_succs c). }
    destruct (is_cycle s l).
    { destruct cyc; [|apply vpost_panic]. apply vpost_bind, vpost_emit, vpost_bind, vpost_emit. by apply Hfin. }
    destruct (c_res c) as [r0|].
    + apply vpost_bind, vpost_emit, vpost_bind. eapply vpost_mono; [apply XC|]. intros ? s1 [_ E1]. simpl in E1.
      apply vpost_bind, vpost_emit. apply vpost_bind, vpost_res_node. intros nd' _ _. destruct nd' as [| |c']; [apply vpost_panic..|].
      destruct (c_res c'); [|apply vpost_panic]. by apply Hfin.
    + apply vpost_bind, vpost_emit, vpost_bind, vpost_assert. intros _. apply vpost_bind. eapply vpost_mono; [apply XP|]. intros ? s1 [_ E1]. simpl in E1.
      apply vpost_bind, vpost_emit. by apply Hfin.
Qed.
End C72.

(** ** Where the documented invariant does not hold
    reflect.rs:172-179: "the engine does not store these duplicate edges", and "the observed value and dirty statuses are
    always the same across duplicated edges". *)
Local Open Scope string_scope.
Definition dups_code (pp : progpt) (arg spur : val) : comp :=
  match pp with
  (* make the cell "out" twice, read it twice *)
  | "twice" => Cell T0 (nm "out") arg (λ l, Cell T0 (nm "out") arg (λ l', Force T0 (ALoc l) None (λ a, Force T0 (ALoc l') None (λ b, Ret (vadd a b)))))
  (* two projections of a cell *)
  | "proj2" => ForceMap T1 (as_art arg) vfst (λ a, ForceMap T1 (as_art arg) vsnd (λ b, Ret (VPair a b)))
  (* read a cell, then panic *)
  | "stop" => Force T0 (as_art arg) None (λ _, Fail)
  | _ => Ret arg
  end.
Definition dups : Prog := {| code := dups_code; hash_val := demo_hash; hash_app := λ pp v, (demo_hash (VStr pp) + 1000003 * demo_hash v)%N |}.
(** The edges of the thunk named [x]: effect, target, dirty. *)
Definition edges_of (x : string) (s : dcg) : list (effect * loc * bool) :=
  match table s !! at_ x with Some (NComp c) => (λ e, (s_eff e, s_loc e, s_dirty e)) <$> c_succs c | _ => [] end.
(** Allocations are stored twice, and when the cell is changed only the first of the two edges becomes dirty; the
    observation is stored once although there were two. *)
Definition prog_twice : comp := Thunk T0 (NCNominal (nm "t")) "twice" (VInt 1) VUnit (λ t, Force T0 (ALoc t) None Ret).
Definition prog_change : comp := SetC T0 (ALoc (at_ "out")) (VInt 2) (Ret VUnit).
Theorem C72_allocations_refuted :
  (@exec dups 9 prog_twice dcg_new).1 = OVal (VInt 2) ∧
  edges_of "t" (@exec dups 9 prog_twice dcg_new).2 = [(Allocate, at_ "out", false); (Allocate, at_ "out", false); (Observe, at_ "out", false)] ∧
  edges_of "t" (@exec dups 9 prog_change (@exec dups 9 prog_twice dcg_new).2).2 =
    [(Allocate, at_ "out", true); (Allocate, at_ "out", false); (Observe, at_ "out", true)].
Proof. vm_compute. done. Qed.
(** [force_map] stores one edge per call. *)
Definition prog_proj2 : comp :=
  Cell T1 (nm "c") (VPair (VInt 1) (VInt 2)) (λ c, Thunk T0 (NCNominal (nm "t")) "proj2" (VLoc c) VUnit (λ t, Force T0 (ALoc t) None Ret)).
Definition prog_change2 : comp := SetC T1 (ALoc (at_ "c")) (VPair (VInt 5) (VInt 6)) (Ret VUnit).
Theorem C72_projections_refuted :
  edges_of "t" (@exec dups 9 prog_proj2 dcg_new).2 = [(Observe, at_ "c", false); (Observe, at_ "c", false)] ∧
  edges_of "t" (@exec dups 9 prog_change2 (@exec dups 9 prog_proj2 dcg_new).2).2 = [(Observe, at_ "c", true); (Observe, at_ "c", false)].
Proof. vm_compute. done. Qed.

(** The hypotheses are met: the state after [prog_twice] and the change is [reached] by programs without [force_map]. *)
Definition dups1 : Prog := {| code := λ pp a sp, if decide (pp = "proj2") then Ret a else dups_code pp a sp;
  hash_val := demo_hash; hash_app := λ pp v, (demo_hash (VStr pp) + 1000003 * demo_hash v)%N |}.
Lemma ex_dups_no_maps pp a sp : no_maps (@code dups1 pp a sp).
Proof.
  unfold dups1, dups_code. cbn [code]. destruct (decide (pp = "proj2")) as [->|Hne]; [done|].
  repeat (let x := fresh in destruct pp as [|x pp]; [done|]; destruct x as [[] [] [] [] [] [] [] []]; try done).
  all: destruct pp; simpl; try done.
Qed.
Lemma ex_dups_reached : @reached dups1 no_maps (@exec dups1 9 prog_change (@exec dups1 9 prog_twice dcg_new).2).2.
Proof. constructor; [done|]. constructor; [|constructor]. intros l v. done. Qed.
(** [C72_force_records]: in the middle of the evaluation of a thunk that has read the cell "a" but not "b", reading "a"
    adds nothing and reading "b" adds an edge. *)
Definition mid : dcg := (@exec dups 9 (Cell T0 (nm "b") (VInt 7) (λ _, Cell T0 (nm "a") (VInt 5) (λ a,
  Thunk T0 (NCNominal (nm "t")) "stop" (VLoc a) VUnit (λ t, Force T0 (ALoc t) None Ret)))) dcg_new).2.
Definition top_edges (s : dcg) : list (loc * effect) := match stack s with f :: _ => (λ e, (s_loc e.1, s_eff e.1)) <$> f_succs f | [] => [] end.
Lemma ex_force_records :
  top_edges mid = [(at_ "a", Observe)] ∧
  (@force dups 9 T0 (at_ "a") None mid).1 = OVal (VInt 5) ∧ top_edges (@force dups 9 T0 (at_ "a") None mid).2 = [(at_ "a", Observe)] ∧
  (@force dups 9 T0 (at_ "b") None mid).1 = OVal (VInt 7) ∧ top_edges (@force dups 9 T0 (at_ "b") None mid).2 = [(at_ "a", Observe); (at_ "b", Observe)].
Proof. vm_compute. done. Qed.
