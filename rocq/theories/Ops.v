(** * The allocation primitives, related to the disciplined specification. *)
From Verif Require Export Steps2.

(** ** Total correctness of a fuelled operation: with any large enough budget it returns [a] in [s']. *)
Definition wp {A} (m : nat → M A) (s : dcg) (Q : A → dcg → Prop) : Prop :=
  ∃ N a s', (∀ k, (N ≤ k)%nat → m k s = (OVal a, s')) ∧ Q a s'.

Lemma wp_val {A} (m : nat → M A) s a s' (Q : A → dcg → Prop) :
  (∀ k, m k s = (OVal a, s')) → Q a s' → wp m s Q.
Proof. intros Hm HQ. exists O, a, s'. auto. Qed.
Lemma wp_bind {A B} (m : nat → M A) (f : nat → A → M B) s Q :
  wp m s (λ a s1, wp (λ k, f k a) s1 Q) → wp (λ k, bind (m k) (f k)) s Q.
Proof.
  intros (N1 & a & s1 & H1 & N2 & b & s2 & H2 & HQ). exists (N1 + N2)%nat, b, s2. split; [|done].
  intros k Hk. rewrite (bind_val _ _ _ _ _ (H1 k ltac:(lia))). apply H2. lia.
Qed.
Lemma wp_det {A B} (m : M A) (f : nat → A → M B) s a s' Q :
  m s = (OVal a, s') → wp (λ k, f k a) s' Q → wp (λ k, bind m (f k)) s Q.
Proof. intros Hm Hw. apply wp_bind. by apply (wp_val _ _ a s'). Qed.
Lemma wp_mono {A} (m : nat → M A) s (Q Q' : A → dcg → Prop) :
  (∀ a s', Q a s' → Q' a s') → wp m s Q → wp m s Q'.
Proof. intros HQ (N & a & s' & ? & ?). exists N, a, s'. auto. Qed.
Lemma wp_ext {A} (m m' : nat → M A) s Q : (∀ k, m k s = m' k s) → wp m s Q → wp m' s Q.
Proof. intros He (N & a & s' & Hm & ?). exists N, a, s'. split; [|done]. intros k Hk. rewrite <- He. auto. Qed.
Lemma wp_S {A} (m : nat → M A) s Q : wp (λ k, m (S k)) s Q → wp m s Q.
Proof.
  intros (N & a & s' & Hm & ?). exists (S N), a, s'. split; [|done].
  intros [|k] Hk; [lia|]. apply Hm. lia.
Qed.

Definition pushed (E : list (succ * option dep)) (fs : list frame) : list frame :=
  match fs with [] => [] | f :: fs => Frame (f_loc f) (f_succs f ++ E) :: fs end.
Lemma pushed_nil fs : pushed [] fs = fs.
Proof. destruct fs as [|[l es] fs]; simpl; [done|]. by rewrite app_nil_r. Qed.
Lemma pushed_app E1 E2 fs : pushed E2 (pushed E1 fs) = pushed (E1 ++ E2) fs.
Proof. destruct fs as [|[l es] fs]; simpl; [done|]. by rewrite (assoc_L (++)). Qed.
Lemma frames_pushed E fs : frames (pushed E fs) = frames fs.
Proof. by destruct fs as [|[l es] fs]. Qed.

(** The shapes recorded so far by the executing thunk. *)
Definition cur_shapes (fs : list frame) : list eshape :=
  match fs with [] => [] | f :: _ => shape <$> (f_succs f).*1 end.
Lemma cur_shapes_pushed E f fs : cur_shapes (pushed E (f :: fs)) = cur_shapes (f :: fs) ++ (shape <$> E.*1).
Proof. simpl. by rewrite !fmap_app. Qed.

(** The executing thunk is the innermost one of the specification. *)
Definition topctx (stk : list loc) (fs : list frame) : Prop :=
  match fs with [] => stk = [] | f :: _ => head stk = Some (f_loc f) end.
Lemma topctx_pushed stk E fs : topctx stk fs → topctx stk (pushed E fs).
Proof. by destruct fs as [|[l es] fs]. Qed.

(** The observation sets of the specification cover the edges of the executing thunk. *)
Definition Frel (p : dstate) (fs : list frame) : Prop :=
  match fs with
  | [] => True
  | f :: _ => ∀ e pd, (e, pd) ∈ f_succs f → s_eff e = Observe →
     match s_dep e with
     | DForce _ _ => s_loc e ∈ d_full p
     | DForceMap _ _ _ => s_loc e ∈ d_map p
     | _ => True
     end
  end.
Lemma Frel_mono p p' fs : d_full p ⊆ d_full p' → d_map p ⊆ d_map p' → Frel p fs → Frel p' fs.
Proof.
  intros H1 H2. destruct fs as [|f fs]; [done|]. intros HF e pd He Heff. specialize (HF e pd He Heff).
  destruct (s_dep e); try done; set_solver.
Qed.
Lemma Frel_pushed p e pd fs :
  Frel p fs → (s_eff e = Observe → match s_dep e with
     | DForce _ _ => s_loc e ∈ d_full p
     | DForceMap _ _ _ => s_loc e ∈ d_map p
     | _ => True end) → Frel p (pushed [(e, pd)] fs).
Proof.
  destruct fs as [|f fs]; [done|]. intros HF He e0 pd0. simpl.
  rewrite elem_of_app, elem_of_list_singleton. intros [?|[= -> ->]]; [by eapply HF|done].
Qed.

Section Ops.
Context `{Prog}.
Context (opt md0 : bool).
Notation Inv := (Inv opt md0).
Notation R := (R opt md0).
Notation facts_le := (facts_le opt).
Notation facts_node := (facts_node opt).
Notation evo := (evo opt).
Notation fedge := (fedge opt).
Notation tr := (tr opt).

Lemma evo_weaken stk p p' tb tb' : d_le p p' → evo stk p' tb tb' → evo stk p tb tb'.
Proof.
  intros Hle [F S]. split; [done|]. intros q c Hq Hc. destruct (S _ _ Hq Hc) as (c' & ? & ? & ? & Hb).
  exists c'. split_and!; try done. intros e He Hp. apply Hb; [done|]. by eapply prot_le.
Qed.

(** What an API operation does, seen from the specification. *)
Record opok (r0 : origin) (stk : list loc) (p p' : dstate) (s s' : dcg) (E : list (succ * option dep)) : Prop := {
  ok_R : R r0 stk p' s';
  ok_evo : evo stk p (table s) (table s');
  ok_stack : stack s' = pushed E (stack s);
  ok_cpath : cpath s' = cpath s;
  ok_structf : structf s' = structf s;
  ok_F : Frel p' (stack s');
}.

(** Pushing an edge. *)
Definition push_st (e : succ) (pd : option dep) (s : dcg) : dcg := set_stack (pushed [(e, pd)] (stack s)) s.
Lemma push_edge_eq e pd s : push_edge e pd s = (OVal tt, push_st e pd s).
Proof.
  unfold push_edge, modify, push_st. f_equal. destruct s as [tb st pth md pu ru tr0]. simpl.
  by destruct st as [|[l es] fs].
Qed.
Lemma R_push_st r0 stk p s e pd :
  R r0 stk p s →
  (∀ f fs, stack s = f :: fs → fedge (table s) (frames (stack s)) p (f_loc f) e pd) →
  (s_eff e = Observe → s_loc e ∉ obs_tgts (cur_shapes (stack s))) →
  R r0 stk p (push_st e pd s).
Proof.
  intros HR Hf Ho. destruct (stack s) as [|f fs] eqn:Es.
  - eapply R_cong; [..|done]; try done. simpl. by rewrite Es.
  - eapply R_push; [done|done| |exact Ho|done| |done|done].
    + rewrite Es. by eapply Hf.
    + simpl. by rewrite Es.
Qed.

Lemma is_dup_spec s l : is_dup s l = true ↔ l ∈ obs_tgts (cur_shapes (stack s)).
Proof.
  unfold is_dup. destruct (stack s) as [|[l0 es] fs]; simpl.
  { split; [done|]. by intros ?%elem_of_nil. }
  unfold obs_tgts. rewrite existsb_exists, elem_of_list_omap. split.
  - intros ([e pd] & He%elem_of_list_In & [Hl Heff]%bool_decide_eq_true_1). exists (shape e).
    split; [by apply elem_of_list_fmap_1, (elem_of_list_fmap_1 fst _ (e, pd))|].
    unfold obs_tgt, sh_eff, sh_loc. simpl in *. rewrite decide_True by done. by f_equal.
  - intros (h & (e & -> & ([e' pd] & -> & He)%elem_of_list_fmap)%elem_of_list_fmap & Hh).
    exists (e', pd). split; [by apply elem_of_list_In|]. unfold obs_tgt, sh_eff, sh_loc in Hh. simpl in *.
    destruct (decide _); [|done]. injection Hh as <-. by apply bool_decide_eq_true_2.
Qed.

(** ** Allocation *)
Lemma d_alloc_inv stk l ct p l' p' :
  d_alloc opt stk l ct p = Some (l', p') →
  l' = l ∧ p' = d_write stk l ct p ∧ s6_ok opt stk l = true ∧ rebind_ok l (d_store p !! l) ct (d_seen p) = true ∧
  (is_struct l = true ∨ head stk ≠ Some l).
Proof.
  unfold d_alloc. destruct (_ && _) eqn:E; [|done]. intros [= <- <-].
  apply andb_true_iff in E as [E Hh]. apply andb_true_iff in E as [E1 E2]. split_and!; try done.
  apply orb_true_iff in Hh as [?|Hh]; [by left|right]. apply negb_true_iff in Hh. by apply bool_decide_eq_false_1 in Hh.
Qed.

Lemma Struc_rebound s s0 l nd nd' :
  Struc s → table s !! l = Some nd → rebound nd nd' → table s0 = <[l := nd']> (table s) → Struc s0.
Proof.
  intros [S1 S2 S3] Hl Hreb Htb.
  assert (∀ x nx, table s0 !! x = Some nx → ∃ nx0, table s !! x = Some nx0 ∧ node_preds nx = node_preds nx0 ∧
     (∀ t ps v, nx = NMut t ps v → ∃ v0, nx0 = NMut t ps v0)) as Hback.
  { intros x nx Hx. rewrite Htb in Hx. apply lookup_insert_Some in Hx as [[<- <-]|[Hne Hx]].
    - exists nd. split_and!; [done|by apply rebound_preds|]. intros t ps v ->. inversion Hreb; subst. eauto.
    - exists nx. split_and!; [done|done|]. intros t ps v ->. eauto. }
  assert (∀ q c, table s !! q = Some (NComp c) → ∃ c', table s0 !! q = Some (NComp c') ∧ c_succs c' = c_succs c) as Hfwd.
  { intros q c Hq. destruct (decide (q = l)) as [->|Hne].
    - rewrite Htb, lookup_insert. rewrite Hl in Hq. injection Hq as ->. inversion Hreb; subst. eexists. by split.
    - exists c. by rewrite Htb, lookup_insert_ne. }
  split.
  - intros x nx pr Hx Hpr. destruct (Hback _ _ Hx) as (nx0 & Hx0 & Hps & _). rewrite Hps in Hpr.
    destruct (S1 _ _ _ Hx0 Hpr) as (c & e & Hc & He & ? & ?). destruct (Hfwd _ _ Hc) as (c' & ? & Hsu).
    exists c', e. rewrite Hsu. auto.
  - intros x nx pr Hx Hpr. destruct (Hback _ _ Hx) as (nx0 & Hx0 & Hps & _). rewrite Hps in Hpr. by eapply S2.
  - intros x t ps v pr Hx Hpr. destruct (Hback _ _ Hx) as (nx0 & Hx0 & Hps & Hm).
    destruct (Hm _ _ _ eq_refl) as (v0 & ->). by eapply S3.
Qed.

(** Writing, then dirtying. *)
Lemma rebind_step r0 stk p s l nd nd' s0 :
  (stk = [] → o_tab r0 = None) → content_of nd' ≠ content_of nd → R r0 stk p s → table s !! l = Some nd → rebound nd nd' → l ∉ d_seen p → is_struct l = false →
  s0 = set_table (<[l := nd']> (table s)) s →
  ∃ s', dirty_alloc l s0 = (OVal tt, s') ∧ ctx_eq s s' ∧
   R r0 stk (d_write stk l (content_of nd') p) s' ∧ evo stk p (table s) (table s') ∧
   (∃ nl, table s' !! l = Some nl ∧ node_le nd' nl).
Proof.
  intros Hor Hcd HR Hl Hreb Hseen Hst ->. set (s0 := set_table _ _).
  assert (node_tracked nd') as Htr by by destruct Hreb.
  assert (Struc s0) as HS. { eapply Struc_rebound; [|done..]. eapply Inv_Struc. apply HR. }
  assert (table s0 !! l = Some nd') as Hl0 by (simpl; by rewrite lookup_insert).
  destruct (dirty_alloc_ok l s0 nd' HS Hl0 Htr) as (s' & Hd & Hpost & Hreach & Hareach).
  exists s'. split; [done|]. assert (Hle := da_le _ _ _ Hpost). split.
  { split; [apply Hle|apply Hle|apply Hle|apply Hle|apply Hle]. }
  destruct (R_rebind _ _ r0 stk p s l nd nd' s0 s' Hor Hcd HR Hl Hreb Hseen Hst) as [HR' Hevo]; try done.
  split; [done|]. split; [done|]. apply (bl_node _ _ Hle _ _ Hl0).
Qed.

Lemma R_seen_add r0 stk p s l :
  R r0 stk p s → is_Some (d_store p !! l) →
  R r0 stk (DState (d_store p) (match stk with [] => d_seen p | _ => {[l]} ∪ d_seen p end) (d_done p) (d_full p) (d_map p)) s.
Proof.
  intros HR Hl. eapply R_mono_p; [done|done| | |done].
  - simpl. destruct stk; set_solver.
  - assert (Hwf := R_wf _ _ _ _ _ _ HR). intros z. simpl. destruct stk; [apply Hwf|].
    rewrite elem_of_union, elem_of_singleton. intros [->|?]; [done|by apply Hwf].
Qed.

(** The allocation edge. *)
Lemma alloc_push r0 stk p s s1 l ct d :
  R r0 stk (d_write stk l ct p) s1 → topctx stk (stack s1) → Frel p (stack s1) →
  evo stk p (table s) (table s1) → stack s1 = stack s → cpath s1 = cpath s → structf s1 = structf s →
  s6_ok opt stk l = true → head stk ≠ Some l →
  wfe (table s1) (l, Allocate, d) → (∀ frs, valid (table s1) frs (l, Allocate, d)) → pdep d = None →
  opok r0 stk p (d_write stk l ct p) s (push_st (Succ false l Allocate d) None s1) [(Succ false l Allocate d, None)].
Proof.
  intros HR2 Htop HF Hevo Hstk Hcp Hsf Hs6 Hne Hw Hv Hpd.
  split.
  - apply R_push_st; [done| |by intros].
    intros f fs Hfs. rewrite Hfs in Htop. simpl in Htop. split; simpl.
    + done.
    + by rewrite Hpd.
    + done.
    + apply Hv.
    + unfold prot, sh_loc. simpl. destruct stk; [done|]. set_solver.
    + intros ->. congruence.
    + intros -> Hsx. destruct stk as [|x stk]; [done|]. injection Htop as ->. simpl in Hs6.
      rewrite Hsx in Hs6. simpl in Hs6. by apply negb_true_iff, negb_false_iff in Hs6.
  - done.
  - simpl. by rewrite Hstk.
  - done.
  - done.
  - simpl. apply Frel_pushed; [|done]. eapply Frel_mono; [| |done]; done.
Qed.

Lemma s6_struct x stk l : s6_ok opt (x :: stk) l = true → opt = true → is_struct x = true → is_struct l = true.
Proof. simpl. intros Hs -> Hx. rewrite Hx in Hs. simpl in Hs. by apply negb_true_iff, negb_false_iff in Hs. Qed.

(** Nothing to write: the location already has this content. *)
Lemma same_write r0 stk p s l ct : R r0 stk p s → d_store p !! l = Some ct → R r0 stk (d_write stk l ct p) s.
Proof. intros HR Hl. unfold d_write. rewrite insert_id by done. apply R_seen_add; [done|]. by exists ct. Qed.

(** engine [cell] *)
Lemma cell_sim r0 stk pth md t n v p p' s l :
  (stk = [] → o_tab r0 = None) → R r0 stk p s → topctx stk (stack s) → Frel p (stack s) → cpath s = pth → structf s = md →
  d_cell opt stk pth md t n v p = Some (l, p') →
  ∃ s' E, cell_op t n v s = (OVal l, s') ∧ opok r0 stk p p' s s' E ∧
    ∀ tb' acc k Ek w, facts_le (table s') tb' →
      tr tb' pth md (acc ++ (shape <$> E.*1)) (k l) Ek w → tr tb' pth md acc (Cell t n v k) ((shape <$> E.*1) ++ Ek) w.
Proof.
  intros Hor HR Htop HF Hcp Hsf (-> & -> & Hs6 & Hreb & Hh)%d_alloc_inv.
  set (l := Loc pth _) in *.
  assert (purity s = opt) as Hpur. { apply (bool_decide_unpack _). apply HR. }
  assert (is_struct l = md) as Hlst. { unfold l, is_struct. simpl. by destruct md. }
  assert (Hctx : ∀ e, opok r0 stk p p s (add_ev e s) []).
  { intros e. split; [|apply evo_refl|simpl; by rewrite pushed_nil|done|done|done].
    eapply R_cong; [..|done]; done. }
  unfold cell_op.
  rewrite (bind_val get _ s s s) by done. cbv beta zeta. rewrite Hcp, Hsf, Hpur. fold l.
  destruct (table s !! l) as [nd|] eqn:El.
  - (* the location exists *)
    assert (d_store p !! l = Some (content_of nd)) as Hst.
    { by rewrite <- (R_store _ _ _ _ _ _ HR), contents_lookup, El. }
    rewrite Hst in Hreb. unfold rebind_ok in Hreb.
    assert (Hk := i_kind _ _ _ _ (R_inv _ _ _ _ _ _ HR) _ _ El).
    destruct nd as [t0 ps v0|t0 v0|c].
    + (* a mutable cell *)
      assert (t0 = t) as ->.
      { simpl in Hreb. apply orb_true_iff in Hreb as [Hb|Hb]; [by apply bool_decide_eq_true_1 in Hb; congruence|].
        apply andb_true_iff in Hb as [_ Hb]. by apply bool_decide_eq_true_1 in Hb. }
      assert (md && opt = false) as Hmo.
      { rewrite Hlst in Hk. destruct md, opt; try done. by destruct Hk. }
      rewrite Hmo.
      assert (head stk ≠ Some l) as Hne.
      { destruct (stack s) as [|f fs] eqn:Es; simpl in Htop; [by rewrite Htop|]. rewrite Htop. intros [= Hfl].
        destruct (i_frame _ _ _ _ (R_inv _ _ _ _ _ _ HR) (f_loc f)) as (c & Hc & _); [|congruence].
        rewrite Es. by left. }
      rewrite (bind_val _ _ s (false, true, None, false) s).
      2:{ by rewrite (bind_val _ _ s (NMut t ps v0) s) by by apply res_node_eq. }
      cbv beta iota.
      rewrite (bind_val _ _ s (LocExists (if bool_decide (v0 ≠ v) then ContentDiff else ContentSame)) s).
      2:{ unfold check_cell_change. rewrite (bind_val _ _ s (bool_decide (v0 ≠ v)) s); [done|].
          by rewrite (bind_val _ _ s (NMut t ps v0) s) by by apply res_node_eq. }
      set (ev := EvBegin _ _ _). rewrite (bind_val (emit _) _ s tt (add_ev ev s)) by done.
      assert (HRe : R r0 stk p (add_ev ev s)) by (eapply R_cong; [..|done]; done).
      assert (∃ s1, set_val t l v (add_ev ev s) = (OVal tt, s1) ∧ ctx_eq s s1 ∧
         R r0 stk (d_write stk l (CCell t v) p) s1 ∧ evo stk p (table s) (table s1) ∧
         table s1 !! l = Some (NMut t ps v)) as (s1 & Hs1 & Hce & HR1 & Hev1 & Hl1).
      { unfold set_val. rewrite (bind_val _ _ (add_ev ev s) (NMut t ps v0) (add_ev ev s)) by by apply res_node_eq.
        destruct (decide (v0 = v)) as [->|Hvne].
        - exists (add_ev ev s). split_and!; try done; [|apply evo_refl]. by apply same_write.
        - set (s0 := set_table (<[l := NMut t ps v]> (table s)) (add_ev ev s)).
          rewrite (bind_val (put_node _ _) _ _ tt s0) by done.
          rewrite bool_decide_eq_false_2 in Hreb by (intros [= ?]; done). simpl in Hreb.
          apply andb_true_iff in Hreb as [Hreb _]. apply andb_true_iff in Hreb as [Hb1 Hb2].
          apply bool_decide_eq_true_1 in Hb2. apply negb_true_iff in Hb1.
          destruct (rebind_step r0 stk p (add_ev ev s) l (NMut t ps v0) (NMut t ps v) s0) as (s' & Hd & Hce & HR' & Hev & nl & Hnl & Hle);
            try done; [simpl; congruence|constructor|].
          exists s'. split_and!; try done; [by destruct Hce|]. simpl in Hle. congruence. }
      rewrite (bind_val _ _ _ tt s1) by done.
      rewrite (bind_val (ret tt) _ s1 tt s1) by done.
      rewrite (bind_val (ret tt) _ s1 tt s1) by done.
      rewrite (bind_val (emit _) _ s1 tt (add_ev EvEnd s1)) by done.
      rewrite (bind_val (ret tt) _ _ tt (add_ev EvEnd s1)) by done.
      rewrite (bind_val _ _ _ _ _ (push_edge_eq _ _ _)).
      eexists _, [(Succ false l Allocate (DAllocCell v), None)]. split; [done|]. split.
      * apply alloc_push; simpl; try done; try apply Hce.
        -- eapply R_cong; [..|done]; done.
        -- by rewrite (ce_stack _ _ Hce).
        -- by rewrite (ce_stack _ _ Hce).
        -- unfold wfe. simpl. eauto 10.
        -- intros frs. unfold valid. simpl. unfold sh_loc. simpl. by rewrite Hl1.
      * intros tb' acc k Ek w Hf. simpl. destruct (facts_mut _ _ _ _ _ _ _ Hf Hl1) as (ps' & v' & Hx').
        by eapply tr_cell.
    + (* an untracked cell *)
      destruct Hk as [Ho Hk]. assert (md && opt = true) as Hmo by (apply andb_true_iff; split; congruence).
      rewrite Hmo. rewrite Hk in Hreb. simpl in Hreb. rewrite orb_false_r in Hreb. apply bool_decide_eq_true_1 in Hreb.
      injection Hreb as -> ->. simpl.
      rewrite (bind_val _ _ s (false, false, None, false) s).
      2:{ by rewrite (bind_val _ _ s (NPure t v) s) by by apply res_node_eq. }
      cbv beta iota.
      rewrite (bind_val _ _ s (LocExists ContentDiff) s).
      2:{ unfold check_cell_change. rewrite (bind_val _ _ s true s); [done|].
          by rewrite (bind_val _ _ s (NPure t v) s) by by apply res_node_eq. }
      set (ev := EvBegin _ _ _). eexists _, []. split; [done|]. split.
      * split; try done; [|apply evo_refl|simpl; by rewrite pushed_nil].
        apply (R_cong _ _ _ _ _ s); try done. 
        assert (HR2 := R_seen_add r0 stk p s l HR ltac:(eauto)). unfold d_write. rewrite insert_id by done. done.
      * intros tb' acc k Ek w Hf. simpl. rewrite app_nil_r. intros Htr. eapply tr_cell_pure; [done| |done].
        by eapply facts_pure.
    + (* a thunk: excluded *)
      simpl in Hreb. by rewrite andb_false_r in Hreb.
  - (* fresh *)
    rewrite (bind_val (ret _) _ s (false, false, None, true) s) by done. cbv beta iota.
    rewrite (bind_val (ret _) _ s LocFresh s) by done.
    set (ev := EvBegin _ _ _). rewrite (bind_val (emit _) _ s tt (add_ev ev s)) by done.
    rewrite (bind_val (ret _) _ _ tt (add_ev ev s)) by done.
    rewrite (bind_val (ret _) _ _ tt (add_ev ev s)) by done.
    rewrite (bind_val (ret _) _ _ tt (add_ev ev s)) by done.
    rewrite (bind_val (emit _) _ _ tt (add_ev EvEnd (add_ev ev s))) by done.
    set (s1 := add_ev EvEnd (add_ev ev s)).
    set (nd := if md && opt then NPure t v else NMut t [] v).
    rewrite (bind_val (put_node _ _) _ s1 tt (set_table (<[l := nd]> (table s)) s1)) by done.
    set (s2 := set_table (<[l := nd]> (table s)) s1).
    destruct (R_fresh opt md0 r0 stk p s l nd s2) as [HR2 Hev2]; try done.
    { unfold nd. destruct (md && opt) eqn:Emo.
      - apply andb_true_iff in Emo as [? ?]. constructor; congruence.
      - constructor. intros [? ?]. apply andb_false_iff in Emo as [?|?]; congruence. }
    assert (content_of nd = CCell t v) as Hcon by (unfold nd; by destruct (md && opt)).
    rewrite Hcon in HR2.
    assert (table s2 !! l = Some nd) as Hl2 by (simpl; by rewrite lookup_insert).
    assert (head stk ≠ Some l) as Hne.
    { destruct (stack s) as [|f fs] eqn:Es; simpl in Htop; [by rewrite Htop|]. rewrite Htop. intros [= Hfl].
      destruct (i_frame _ _ _ _ (R_inv _ _ _ _ _ _ HR) (f_loc f)) as (c & Hc & _); [|congruence].
      rewrite Es. by left. }
    destruct (md && opt) eqn:Emo.
    + eexists _, []. split; [done|]. split.
      * split; try done. simpl. by rewrite pushed_nil.
      * intros tb' acc k Ek w Hf. simpl. rewrite app_nil_r. intros Htr. eapply tr_cell_pure; [done| |done].
        by eapply facts_pure.
    + rewrite (bind_val _ _ _ _ _ (push_edge_eq _ _ _)). unfold nd in Hl2.
      eexists _, [(Succ false l Allocate (DAllocCell v), None)]. split; [done|]. split.
      * apply alloc_push; try done.
        -- split; [done|]. by exists t, [], v.
        -- intros frs. unfold valid, sh_loc, sh_dep, fst, snd. by rewrite Hl2.
      * intros tb' acc k Ek w Hf. simpl.
        destruct (facts_mut _ _ _ _ _ _ _ Hf Hl2) as (ps' & v' & Hx').
        by eapply tr_cell.
Qed.

(** engine [thunk] *)
Lemma not_top_fresh r0 stk p s l :
  R r0 stk p s → topctx stk (stack s) → (∀ c, table s !! l ≠ Some (NComp c)) → head stk ≠ Some l.
Proof.
  intros HR Htop Hl. destruct (stack s) as [|f fs] eqn:Es; simpl in Htop; [by rewrite Htop|]. rewrite Htop. intros [= Hfl].
  destruct (i_frame _ _ _ _ (R_inv _ _ _ _ _ _ HR) (f_loc f)) as (c & Hc & _).
  - rewrite Es. by left.
  - rewrite Hfl in Hc. by apply Hl in Hc.
Qed.

Lemma thunk_str_sim r0 stk pth t pp arg spur p p' s l :
  (stk = [] → o_tab r0 = None) → R r0 stk p s → topctx stk (stack s) → Frel p (stack s) → cpath s = pth →
  l = Loc pth (IdStruct (hash_app pp arg)) →
  d_alloc opt stk l (CThunk t pp arg spur) p = Some (l, p') →
  ∃ s' E, (match table s !! l with
      | Some _ => ret l
      | None =>
          push_edge (Succ false l Allocate DAllocStruct) None ;!
          put_node l (NComp (CompNode t [] [] pp arg spur None)) ;!
          ret l
      end) s = (OVal l, s') ∧ opok r0 stk p p' s s' E ∧
    ∀ tb' acc md nc k Ek w, (nc = NCStructural ∨ (md = true ∧ ∃ n, nc = NCNominal n)) → facts_le (table s') tb' →
      tr tb' pth md (acc ++ (shape <$> E.*1)) (k l) Ek w →
      tr tb' pth md acc (Thunk t nc pp arg spur k) ((shape <$> E.*1) ++ Ek) w.
Proof.
  intros Hor HR Htop HF Hcp Hl (_ & -> & Hs6 & Hreb & Hh)%d_alloc_inv.
  assert (is_struct l = true) as Hlst by by subst l.
  destruct (table s !! l) as [nd|] eqn:El.
  - assert (d_store p !! l = Some (content_of nd)) as Hst.
    { by rewrite <- (R_store _ _ _ _ _ _ HR), contents_lookup, El. }
    rewrite Hst in Hreb. unfold rebind_ok in Hreb. rewrite Hlst in Hreb. simpl in Hreb.
    rewrite orb_false_r in Hreb. apply bool_decide_eq_true_1 in Hreb.
    destruct nd as [| |c]; [done..|]. injection Hreb as <- <- <- <-.
    eexists s, []. split; [done|]. split.
    + split; try done; [|apply evo_refl|by rewrite pushed_nil].
      assert (HR2 := R_seen_add r0 stk p s l HR ltac:(eauto)). unfold d_write. rewrite insert_id by done. done.
    + intros tb' acc md nc k Ek w Hnc Hf. simpl. rewrite app_nil_r. intros Htr.
      destruct (facts_comp _ _ _ _ _ Hf El) as (c' & Hc' & ? & ? & ? & Hs).
      destruct Hs as [Hs _]; [done|]. rewrite <- Hs in *. by eapply tr_thunk_str.
  - rewrite (bind_val _ _ _ _ _ (push_edge_eq _ _ _)).
    set (e := Succ false l Allocate DAllocStruct).
    set (nd := NComp (CompNode t [] [] pp arg spur None)).
    set (s2 := set_table (<[l := nd]> (table s)) s).
    destruct (R_fresh opt md0 r0 stk p s l nd s2) as [HR2 Hev2]; try done; [constructor|].
    assert (table s2 !! l = Some nd) as Hl2 by (simpl; by rewrite lookup_insert).
    exists (push_st e None s2), [(e, None)]. split; [done|]. split.
    + apply (alloc_push r0 stk p s s2 l (CThunk t pp arg spur)); try done.
      * apply (not_top_fresh r0 stk p s l HR Htop). intros ?. congruence.
      * split; [done|]. split; [done|]. eexists. exact Hl2.
    + intros tb' acc md nc k Ek w Hnc Hf. simpl. intros Htr.
      destruct (facts_comp _ _ _ _ _ Hf Hl2) as (c' & Hc' & ? & ? & ? & Hs).
      destruct Hs as [Hs _]; [done|]. by eapply tr_thunk_str_edge.
Qed.

Lemma thunk_sim r0 stk pth md t nc pp arg spur p p' s l :
  (stk = [] → o_tab r0 = None) → R r0 stk p s → topctx stk (stack s) → Frel p (stack s) → cpath s = pth → structf s = md →
  d_thunk opt stk pth md t nc pp arg spur p = Some (l, p') →
  ∃ s' E, thunk_op t nc pp arg spur s = (OVal l, s') ∧ opok r0 stk p p' s s' E ∧
    ∀ tb' acc k Ek w, facts_le (table s') tb' →
      tr tb' pth md (acc ++ (shape <$> E.*1)) (k l) Ek w →
      tr tb' pth md acc (Thunk t nc pp arg spur k) ((shape <$> E.*1) ++ Ek) w.
Proof.
  intros Hor HR Htop HF Hcp Hsf Hd. unfold thunk_op.
  rewrite (bind_val get _ s s s) by done. cbv beta zeta. rewrite Hcp, Hsf.
  destruct nc as [| | |n]; simpl in Hd; [done|done| |].
  { destruct (d_alloc_inv _ _ _ _ _ _ Hd) as (-> & _).
    destruct (thunk_str_sim r0 stk pth t pp arg spur p p' s _ Hor HR Htop HF Hcp eq_refl Hd) as (s' & E & Hm & Hok & Htr).
    exists s', E. split; [done|]. split; [done|]. intros. apply Htr; auto. }
  destruct md.
  { destruct (d_alloc_inv _ _ _ _ _ _ Hd) as (-> & _).
    destruct (thunk_str_sim r0 stk pth t pp arg spur p p' s _ Hor HR Htop HF Hcp eq_refl Hd) as (s' & E & Hm & Hok & Htr).
    exists s', E. split; [done|]. split; [done|]. intros. apply Htr; eauto. }
  apply d_alloc_inv in Hd as (-> & -> & Hs6 & Hreb & Hh).
  set (l := Loc pth (IdNom n)) in *. destruct Hh as [?|Hne]; [done|].
  destruct (table s !! l) as [nd|] eqn:El.
  - assert (d_store p !! l = Some (content_of nd)) as Hst.
    { by rewrite <- (R_store _ _ _ _ _ _ HR), contents_lookup, El. }
    rewrite Hst in Hreb. unfold rebind_ok in Hreb.
    assert (∃ c, nd = NComp c ∧ c_ty c = t ∧ c_pp c = pp ∧ c_spur c = spur ∧ (c_arg c = arg ∨ l ∉ d_seen p)) as (c & -> & Ht & Hpp & Hsp & Harg).
    { apply orb_true_iff in Hreb as [Hb|Hb].
      - apply bool_decide_eq_true_1 in Hb. destruct nd as [| |c]; [done..|]. injection Hb as <- <- <- <-.
        exists c. split_and!; try done. by left.
      - apply andb_true_iff in Hb as [Hb1 Hb]. apply andb_true_iff in Hb1 as [_ Hb1].
        apply bool_decide_eq_true_1 in Hb1. destruct nd as [| |c]; [done..|].
        simpl in Hb. apply bool_decide_eq_true_1 in Hb as (<- & <- & <-).
        exists c. split_and!; try done. by right. }
    clear Hreb.
    assert (∃ s1 dd, (let! _ := assert (bool_decide (node_ty (NComp c) = t)) PType in
         if decide (c_pp c = pp) then
           if decide (c_arg c = arg) then ret (false, false, false)
           else put_node l (NComp (with_res None (with_arg arg c))) ;! ret (true, false, false)
         else panic PFun) s = (OVal (dd, false, false), s1) ∧
       ∀ ev, ∃ s2 c', ((if dd : bool then dirty_alloc l else ret tt) (add_ev ev s1) = (OVal tt, s2)) ∧ ctx_eq s s2 ∧
         R r0 stk (d_write stk l (CThunk t pp arg spur) p) s2 ∧ evo stk p (table s) (table s2) ∧
         table s2 !! l = Some (NComp c') ∧ c_ty c' = t ∧ c_pp c' = pp ∧ c_spur c' = spur ∧ c_arg c' = arg)
      as (s1 & dd & Hm1 & Hm2).
    { simpl. rewrite bool_decide_eq_true_2 by done. rewrite (bind_val (assert _ _) _ s tt s) by done.
      rewrite decide_True by done. destruct (decide (c_arg c = arg)) as [Ha|Ha].
      - exists s, false. split; [done|]. intros ev. exists (add_ev ev s), c. split; [done|].
        split_and!; try done; [|apply evo_refl]. apply same_write; [by apply (R_cong opt md0 r0 stk p s)|].
        rewrite Hst. simpl. by rewrite Ht, Hpp, Hsp, Ha.
      - destruct Harg as [?|Hns]; [done|].
        set (c1 := with_res None (with_arg arg c)).
        exists (set_table (<[l := NComp c1]> (table s)) s), true. split; [done|]. intros ev.
        assert (HRe : R r0 stk p (add_ev ev s)) by (by apply (R_cong opt md0 r0 stk p s)).
        destruct (rebind_step r0 stk p (add_ev ev s) l (NComp c) (NComp c1)
          (add_ev ev (set_table (<[l := NComp c1]> (table s)) s))) as (s2 & Hd & Hce & HR' & Hev & nl & Hnl & Hle); try done.
        { simpl. congruence. }
        { constructor. }
        apply node_le_comp in Hle as (es & -> & Hes).
        simpl in HR'. rewrite Ht, Hpp, Hsp in HR'.
        eexists s2, _. split; [done|]. split; [by destruct Hce|]. split; [done|]. split; [done|]. split; [done|]. destruct Hes as [-> _]. done. }
    rewrite (bind_val _ _ _ _ _ Hm1). cbv beta iota.
    set (ev := EvBegin _ _ _). rewrite (bind_val (emit ev) _ s1 tt (add_ev ev s1)) by done.
    destruct (Hm2 ev) as (s2 & c' & Hd & Hce & HR2 & Hev2 & Hl2 & Ht2 & Hpp2 & Hsp2 & Ha2).
    rewrite (bind_val _ _ _ _ _ Hd).
    rewrite (bind_val (emit _) _ s2 tt (add_ev EvEnd s2)) by done.
    rewrite (bind_val _ _ _ _ _ (push_edge_eq _ _ _)).
    eexists _, [(Succ false l Allocate (DAllocThunk arg), None)]. split; [done|]. split.
    + apply alloc_push; simpl; try done; try apply Hce.
      * eapply R_cong; [..|exact HR2]; done.
      * by rewrite (ce_stack _ _ Hce).
      * by rewrite (ce_stack _ _ Hce).
      * split; [done|]. split; [done|]. eexists. exact Hl2.
      * intros frs. unfold valid, sh_loc, sh_dep, fst, snd. by rewrite Hl2.
    + intros tb' acc k Ek w Hf. simpl. intros Htr.
      destruct (facts_comp _ _ _ _ _ Hf Hl2) as (c2 & Hc2 & ? & ? & ? & _).
      eapply tr_thunk; [done|done|congruence..|done].
  - rewrite (bind_val (ret _) _ s (false, true, true) s) by done. cbv beta iota.
    set (ev := EvBegin _ _ _). rewrite (bind_val (emit ev) _ s tt (add_ev ev s)) by done.
    rewrite (bind_val (ret _) _ _ tt (add_ev ev s)) by done.
    rewrite (bind_val (emit _) _ _ tt (add_ev EvEnd (add_ev ev s))) by done.
    rewrite (bind_val _ _ _ _ _ (push_edge_eq _ _ _)).
    set (e := Succ false l Allocate (DAllocThunk arg)).
    set (nd := NComp (CompNode t [] [] pp arg spur None)).
    set (s2 := set_table (<[l := nd]> (table s)) (add_ev EvEnd (add_ev ev s))).
    destruct (R_fresh opt md0 r0 stk p s l nd s2) as [HR2 Hev2]; try done; [constructor|].
    assert (table s2 !! l = Some nd) as Hl2 by (simpl; by rewrite lookup_insert).
    exists (push_st e None s2), [(e, None)]. split; [done|]. split.
    + apply (alloc_push r0 stk p s s2 l (CThunk t pp arg spur)); try done.
      * split; [done|]. split; [done|]. eexists. exact Hl2.
      * intros frs. unfold valid, sh_loc, sh_dep, fst, snd. by rewrite Hl2.
    + intros tb' acc k Ek w Hf. simpl. intros Htr.
      destruct (facts_comp _ _ _ _ _ Hf Hl2) as (c2 & Hc2 & ? & ? & ? & _).
      eapply tr_thunk; done.
Qed.

(** engine [set], from the editor *)
Lemma set_sim r0 t a v p p' s :
  o_tab r0 = None → R r0 [] p s → d_seen p = ∅ → stack s = [] →
  d_set [] t a v p = Some (tt, p') →
  ∃ s', set_op t a v s = (OVal tt, s') ∧ opok r0 [] p p' s s' [].
Proof.
  intros Hor HR Hseen Hstk Hd. destruct a as [|l]; [done|]. simpl in Hd.
  destruct (d_store p !! l) as [[t0 v0|]|] eqn:Hst; [|done..].
  destruct (decide _) as [[-> Hns]|]; [|done]. injection Hd as <-.
  assert (∃ ps, table s !! l = Some (NMut t ps v0)) as (ps & El).
  { rewrite <- (R_store _ _ _ _ _ _ HR), contents_lookup in Hst.
    destruct (table s !! l) as [nd|] eqn:El; [|done]. simpl in Hst.
    assert (Hk := i_kind _ _ _ _ (R_inv _ _ _ _ _ _ HR) _ _ El).
    destruct nd as [t1 ps1 v1|t1 v1|c1]; [injection Hst as -> ->; eauto|destruct Hk; congruence|done]. }
  unfold set_op. rewrite (bind_val get _ s s s) by done. rewrite Hstk.
  unfold set_val. rewrite (bind_val _ _ s (NMut t ps v0) s) by by apply res_node_eq.
  destruct (decide (v0 = v)) as [->|Hvne].
  - exists s. split; [done|]. split; try done; [|apply evo_refl|by rewrite pushed_nil|by rewrite Hstk].
    unfold d_write. rewrite insert_id by done. by destruct p.
  - set (s0 := set_table (<[l := NMut t ps v]> (table s)) s).
    rewrite (bind_val (put_node _ _) _ _ tt s0) by done.
    destruct (rebind_step r0 [] p s l (NMut t ps v0) (NMut t ps v) s0) as (s' & Hd & Hce & HR' & Hev & nl & Hnl & Hle);
      try done; [simpl; congruence|constructor|rewrite Hseen; set_solver|].
    exists s'. split; [done|]. split; try done; try apply Hce.
    + rewrite pushed_nil. apply Hce.
    + by rewrite (ce_stack _ _ Hce), Hstk.
Qed.

End Ops.
