(** * A thunk whose edges are all clean would, if run again, return its cached value and change nothing. *)
From Verif Require Export Ops.

Section Replay.
Context `{Prog}.
Context (opt md0 : bool).
Notation Inv := (Inv opt md0).
Notation R := (R opt md0).
Notation facts_le := (facts_le opt).
Notation evo := (evo opt).
Notation tr := (tr opt).
Notation d_force := (d_force opt md0).
Notation d_run := (d_run opt).

(** The specification state moved without changing the store. *)
Definition quiet (r0 : origin) (stk : list loc) (p p' : dstate) (s : dcg) : Prop :=
  d_store p' = d_store p ∧ R r0 stk p' s.

Lemma store_node r0 stk p s l ct : R r0 stk p s → d_store p !! l = Some ct →
  ∃ nd, table s !! l = Some nd ∧ content_of nd = ct.
Proof.
  intros HR. rewrite <- (R_store _ _ _ _ _ _ HR), contents_lookup.
  destruct (table s !! l) as [nd|]; [|done]. intros [= <-]. eauto.
Qed.
Lemma node_store r0 stk p s l nd : R r0 stk p s → table s !! l = Some nd → d_store p !! l = Some (content_of nd).
Proof. intros HR Hl. by rewrite <- (R_store _ _ _ _ _ _ HR), contents_lookup, Hl. Qed.

Lemma quiet_alloc r0 x stk p s l ct l' p' :
  R r0 (x :: stk) p s → d_store p !! l = Some ct → d_alloc opt (x :: stk) l ct p = Some (l', p') →
  l' = l ∧ quiet r0 (x :: stk) p p' s ∧ l ∈ d_seen p'.
Proof.
  intros HR Hl (-> & -> & _)%d_alloc_inv. split; [done|]. split; [split|].
  - simpl. by rewrite insert_id.
  - unfold d_write. rewrite insert_id by done. apply (R_seen_add opt md0 r0 (x :: stk) p s l HR). eauto.
  - simpl. set_solver.
Qed.

Lemma quiet_observe r0 x stk p s l b :
  R r0 (x :: stk) p s → is_Some (d_store p !! l) → quiet r0 (x :: stk) p (d_observe (x :: stk) l b p) s.
Proof.
  intros HR Hl. split; [done|]. eapply R_mono_p; [done|done|simpl; set_solver| |done].
  apply d_observe_wf; [done|apply HR].
Qed.

Definition LA (n : nat) : Prop := ∀ r0 stk p s x c w v p1,
  R r0 stk p s → table s !! x = Some (NComp c) → c_res c = Some w → all_clean (c_succs c) →
  x ∉ frames (stack s) →
  d_run (d_force n (x :: stk)) (x :: stk) (l_path x) md0 (code (c_pp c) (c_arg c) (c_spur c)) (d_enter x p) = Some (v, p1) →
  v = w ∧ d_store p1 = d_store p ∧ R r0 (x :: stk) p1 s ∧ ∀ e, e ∈ c_succs c → prot p1 (shape e).

(** Forcing a clean thunk. *)
Lemma quiet_force_comp n r0 x stk p s y c w md t v p' :
  (∀ n', n = S n' → LA n') → R r0 (x :: stk) p s → table s !! y = Some (NComp c) → c_res c = Some w →
  all_clean (c_succs c) → y ∉ frames (stack s) →
  d_force n (x :: stk) md t y p = Some (v, p') →
  v = w ∧ quiet r0 (x :: stk) p p' s ∧ y ∈ d_done p'.
Proof.
  intros HLA HR Hy Hw Hac Hnf [v' Hl|n' pp arg spur v' p1 Hn Hl Hnk Hmd Hs6 Hr]%d_force_inv.
  { rewrite (node_store _ _ _ _ _ _ HR Hy) in Hl. done. }
  rewrite (node_store _ _ _ _ _ _ HR Hy) in Hl. injection Hl as ? <- <- <-. subst md.
  destruct (HLA n' Hn r0 (x :: stk) p s y c w v' p1) as (-> & Hst & HR1 & Hp); try done.
  split; [done|]. split; [split|].
  - by rewrite <- Hst.
  - by eapply R_done_add.
  - simpl. set_solver.
Qed.

(** Forcing along a valid edge. *)
Lemma quiet_force n r0 x stk p s y t w md t' v p' :
  (∀ n', n = S n' → LA n') → R r0 (x :: stk) p s → valid (table s) (frames (stack s)) (y, Observe, DForce t w) →
  d_force n (x :: stk) md t' y p = Some (v, p') →
  v = w ∧ quiet r0 (x :: stk) p p' s ∧ settled p' y.
Proof.
  intros HLA HR Hv Hd. unfold valid, sh_loc, sh_dep, fst, snd in Hv.
  destruct (table s !! y) as [[t0 ps v0|t0 v0|c]|] eqn:Hy; [|done| |done].
  - subst v0. assert (Hst := node_store _ _ _ _ _ _ HR Hy). simpl in Hst.
    apply d_force_inv in Hd as [v' Hl|? ? ? ? ? ? ? Hl]; rewrite Hst in Hl; [|done].
    injection Hl as ? ?. subst v'. split; [done|]. split; [apply quiet_observe; eauto|].
    right. simpl. split; [set_solver|eauto].
  - destruct Hv as (Hw & Hac & Hnf).
    destruct (quiet_force_comp n r0 x stk p s y c w md t' v p') as (-> & ? & ?); try done.
    split; [done|]. split; [done|]. by left.
Qed.

Lemma quiet_force_pure n r0 x stk p s y t w md v p' :
  R r0 (x :: stk) p s → table s !! y = Some (NPure t w) →
  d_force n (x :: stk) md t y p = Some (v, p') → v = w ∧ quiet r0 (x :: stk) p p' s.
Proof.
  intros HR Hy Hd. assert (Hst := node_store _ _ _ _ _ _ HR Hy). simpl in Hst.
  apply d_force_inv in Hd as [v' Hl|? ? ? ? ? ? ? Hl]; rewrite Hst in Hl; [|done].
  injection Hl as ?. subst v'. split; [done|]. apply quiet_observe; eauto.
Qed.

Lemma struct_clean r0 stk p s y c w :
  R r0 stk p s → opt = true → is_struct y = true → table s !! y = Some (NComp c) → c_res c = Some w →
  all_clean (c_succs c) ∧ y ∉ frames (stack s).
Proof.
  intros HR Ho Hs Hy Hw. assert (HI := R_inv _ _ _ _ _ _ HR). split.
  - intros e He. by eapply (i_struct _ _ _ _ HI).
  - intros Hf. destruct (i_frame _ _ _ _ HI _ Hf) as (c' & Hc' & _ & Hn). simplify_eq. by rewrite Hn in Hw.
Qed.

(** Projections of a tracked cell. *)
Lemma force_map_mut frc abs x stk t l f p v p' r0 s t0 ps v0 :
  R r0 (x :: stk) p s → table s !! l = Some (NMut t0 ps v0) →
  d_force_map opt frc abs (x :: stk) t l f p = Some (v, p') →
  abs = false ∧ t0 = t ∧ v = f v0 ∧ s6_ok opt (x :: stk) l = true ∧ l ∉ d_map p ∧ l ∉ d_full p ∧
  p' = d_observe (x :: stk) l true p.
Proof.
  intros HR Hl. assert (Hst := node_store _ _ _ _ _ _ HR Hl). simpl in Hst. unfold d_force_map. rewrite Hst.
  destruct (decide (t0 = t)) as [->|]; [|done].
  assert (tracked opt l = true) as ->.
  { assert (Hk := i_kind _ _ _ _ (R_inv _ _ _ _ _ _ HR) _ _ Hl). simpl in Hk. unfold tracked.
    apply negb_true_iff. apply andb_false_iff. destruct (is_struct l); [|by left]. right.
    destruct (decide (opt = true)) as [|Hne]; [by destruct Hk|by apply not_true_is_false]. }
  destruct (negb abs && _ && _) eqn:E; [|done]. intros [= <- <-].
  apply andb_true_iff in E as [E E3]. apply andb_true_iff in E as [E1 E2].
  apply bool_decide_eq_true_1 in E3 as [? ?]. apply negb_true_iff in E1. done.
Qed.
(** Anything else is forced. *)
Lemma force_map_other frc abs stk t l f p v p' r0 s nd :
  R r0 stk p s → table s !! l = Some nd → (∀ t ps v, nd ≠ NMut t ps v) →
  d_force_map opt frc abs stk t l f p = Some (v, p') →
  ∃ v0, frc t l p = Some (v0, p') ∧ v = f v0.
Proof.
  intros HR Hl Hnd. assert (Hst := node_store _ _ _ _ _ _ HR Hl). unfold d_force_map. rewrite Hst.
  destruct nd as [t0 ps v0|t0 v0|c]; simpl.
  - by destruct (Hnd t0 ps v0).
  - destruct (decide (t0 = t)) as [->|]; [|done].
    assert (tracked opt l = false) as ->.
    { assert (Hk := i_kind _ _ _ _ (R_inv _ _ _ _ _ _ HR) _ _ Hl). simpl in Hk. destruct Hk as [H1 H2].
      unfold tracked. apply negb_false_iff, andb_true_iff. done. }
    destruct (frc t l p) as [[v1 p1]|]; [|done]. intros [= <- <-]. eauto.
  - destruct (frc t l p) as [[v1 p1]|]; [|done]. intros [= <- <-]. eauto.
Qed.
(** Running [force_map] on such a location is running [force]. *)
Lemma run_map_force n abs x stk pth md t y f (k : val → comp) p r r0 s nd :
  R r0 (x :: stk) p s → table s !! y = Some nd → (∀ t ps v, nd ≠ NMut t ps v) →
  d_run (d_force n (x :: stk)) (x :: stk) pth md (if abs : bool then ForceAbs t (ALoc y) f k else ForceMap t (ALoc y) f k) p = Some r →
  d_run (d_force n (x :: stk)) (x :: stk) pth md (Force t (ALoc y) None (λ w, k (f w))) p = Some r.
Proof.
  intros HR Hy Hnd Hr. cbn [Discipline.d_run d_art]. unfold dbind.
  assert (dbind (d_force_map opt (d_force n (x :: stk) md) abs (x :: stk) t y f)
    (λ v, d_run (d_force n (x :: stk)) (x :: stk) pth md (k v)) p = Some r) as Hr'.
  { by destruct abs. }
  clear Hr. unfold dbind in Hr'.
  destruct (d_force_map _ _ _ _ _ _ _ _) as [[v1 p1]|] eqn:E; [|done].
  destruct (force_map_other _ _ _ _ _ _ _ _ _ _ _ _ HR Hy Hnd E) as (v0 & Hf & ->). by rewrite Hf.
Qed.

Ltac dstep Hr E v1 p1 :=
  cbn [Discipline.d_run d_art] in Hr; unfold dbind in Hr; cbv beta in Hr;
  match type of Hr with match ?m with _ => _ end = _ => destruct m as [[v1 p1]|] eqn:E; [|done] end.

Lemma replay_run n r0 x stk s :
  (∀ n', n = S n' → LA n') →
  ∀ pth md acc c E v0, tr (table s) pth md acc c E v0 →
  (∀ h, h ∈ acc ++ E → wfe (table s) h ∧ valid (table s) (frames (stack s)) h) →
  ∀ p v p1, R r0 (x :: stk) p s → (∀ h, h ∈ acc → prot p h) →
    d_run (d_force n (x :: stk)) (x :: stk) pth md c p = Some (v, p1) →
    v = v0 ∧ d_store p1 = d_store p ∧ R r0 (x :: stk) p1 s ∧ d_le p p1 ∧ ∀ h, h ∈ acc ++ E → prot p1 h.
Proof.
  intros HLA pth md acc c E v0 Ht.
  assert (∀ p p1 v md c pth, R r0 (x :: stk) p s → d_run (d_force n (x :: stk)) (x :: stk) pth md c p = Some (v, p1) → d_le p p1) as Hle.
  { intros p p1 v md' c' pth' HR Hd. eapply d_run_pres'; [apply HR|done]. }
  (* one step, then the rest *)
  assert (∀ p p2 (acc' E' : list eshape), d_le p p2 → (∀ h, h ∈ acc' → prot p h) → ∀ h, h ∈ acc' → prot p2 h) as Hpm.
  { intros p p2 acc' E' Hl Hp h Hh. eapply prot_le; [done|auto]. }
  assert (∀ p v p' m c0, R r0 (x :: stk) p s → m = d_force n (x :: stk) → (∀ md t y, m md t y p = Some (v, p') → d_le p p') ∧ (c0 = c0 :> comp)) as _.
  { intros. subst. split; [|done]. intros md' t' y' Hd. eapply d_force_pres; [|done]. by eapply R_wf. }
  assert (HleF : ∀ p v p' md t y, R r0 (x :: stk) p s → d_force n (x :: stk) md t y p = Some (v, p') → d_le p p').
  { intros p v p' md' t' y' HR Hd. eapply d_force_pres; [|done]. by eapply R_wf. }
  induction Ht as [pth md acc v|pth md acc t w cyc k E v Ht IH|pth md acc t w f k E v Ht IH|pth md acc t w f k E v Ht IH
    |pth md acc t y w cyc k E v Hin Ht IH|pth md acc t y w cyc k E v Hy Ht IH|pth md acc t y c w cyc k E v Ho Hs Hy Hty Hw Ht IH
    |pth md acc t y w cyc k E v Ht IH|pth md acc t y f w k E v Ht IH|pth md acc t y f nd k E v Hy Hnd Ht IH|pth md acc t y f nd k E v Hy Hnd Ht IH
    |pth md acc t nm w ps w0 l k E v Hl Hy Ht IH|pth md acc t nm w l k E v Hl Hy Ht IH
    |pth acc t nm pp arg spur c l k E v Hl Hy Hty Hpp Hsp Ht IH
    |pth md acc t nc pp arg spur c l k E v Hnc Hl Hy Hty Hpp Harg Hsp Ht IH
    |pth md acc t nc pp arg spur c l k E v Hnc Hl Hy Hty Hpp Harg Hsp Ht IH
    |pth md acc nm b k E1 v1 E2 v Ht1 IH1 Ht2 IH2|pth md acc b k E1 v1 E2 v Ht1 IH1 Ht2 IH2];
    intros Hval p v' p1 HR Hacc Hr.
  - injection Hr as <- <-. split_and!; try done. intros h. rewrite app_nil_r. auto.
  - by apply IH.
  - by apply IH.
  - by apply IH.
  - (* dup *)
    dstep Hr Ef a p2. destruct (Hval (y, Observe, DForce t w)) as [_ Hv]; [set_solver|].
    destruct (quiet_force n r0 x stk p s y t w md t a p2) as (-> & [Hst HR2] & _); try done.
    assert (Hl := HleF _ _ _ _ _ _ HR Ef).
    destruct (IH Hval p2 v' p1 HR2) as (? & ? & ? & ? & ?); [by eapply Hpm|done|].
    split_and!; try done; [congruence|by eapply d_le_trans].
  - (* pure cell *)
    dstep Hr Ef a p2.
    destruct (quiet_force_pure n r0 x stk p s y t w md a p2) as (-> & [Hst HR2]); try done.
    assert (Hl := HleF _ _ _ _ _ _ HR Ef).
    destruct (IH Hval p2 v' p1 HR2) as (? & ? & ? & ? & ?); [by eapply Hpm|done|].
    split_and!; try done; [congruence|by eapply d_le_trans].
  - (* structural thunk *)
    dstep Hr Ef a p2. destruct (struct_clean _ _ _ _ _ _ _ HR Ho Hs Hy Hw) as [Hac Hnf].
    destruct (quiet_force_comp n r0 x stk p s y c w md t a p2) as (-> & [Hst HR2] & _); try done.
    assert (Hl := HleF _ _ _ _ _ _ HR Ef).
    destruct (IH Hval p2 v' p1 HR2) as (? & ? & ? & ? & ?); [by eapply Hpm|done|].
    split_and!; try done; [congruence|by eapply d_le_trans].
  - (* observation *)
    dstep Hr Ef a p2. destruct (Hval (y, Observe, DForce t w)) as [_ Hv]; [set_solver|].
    destruct (quiet_force n r0 x stk p s y t w md t a p2) as (-> & [Hst HR2] & Hset); try done.
    assert (Hl := HleF _ _ _ _ _ _ HR Ef).
    destruct (IH ltac:(intros h; rewrite <- (assoc_L (++)); apply Hval) p2 v' p1 HR2) as (? & ? & ? & ? & Hp); [|done|].
    { intros h [?| ->%elem_of_list_singleton]%elem_of_app; [by eapply Hpm|done]. }
    split_and!; try done; [congruence|by eapply d_le_trans|]. intros h. rewrite <- (assoc_L (++)) in Hp. apply Hp.
  - (* projection *)
    destruct (Hval (y, Observe, DForceMap t f w)) as [Hw Hv]; [set_solver|].
    destruct Hw as (_ & ps & v1 & Hy). unfold sh_loc in Hy. simpl in Hy.
    unfold valid, sh_loc, sh_dep, fst, snd in Hv. rewrite Hy in Hv.
    dstep Hr Ef a p2.
    destruct (force_map_mut _ _ _ _ _ _ _ _ _ _ _ _ _ _ _ HR Hy Ef) as (_ & _ & -> & _ & _ & _ & ->). rewrite Hv in *.
    assert (is_Some (d_store p !! y)) as Hiy by (rewrite (node_store _ _ _ _ _ _ HR Hy); eauto).
    destruct (quiet_observe r0 x stk p s y true HR Hiy) as [Hst HR2].
    assert (Hl := d_observe_le x stk y true p).
    destruct (IH ltac:(intros h; rewrite <- (assoc_L (++)); apply Hval) _ v' p1 HR2) as (? & ? & ? & ? & Hp); [|done|].
    { intros h [?| ->%elem_of_list_singleton]%elem_of_app; [by eapply Hpm|].
      right. unfold sh_loc. simpl. split; [set_solver|]. rewrite (node_store _ _ _ _ _ _ HR Hy). simpl. eauto. }
    split_and!; try done; [by eapply d_le_trans|]. intros h. rewrite <- (assoc_L (++)) in Hp. apply Hp.
  - apply IH; try done. by apply (run_map_force n false x stk pth md t y f k p (v', p1) r0 s nd).
  - apply IH; try done. by apply (run_map_force n true x stk pth md t y f k p (v', p1) r0 s nd).
  - (* cell *)
    destruct (Hval (l, Allocate, DAllocCell w)) as [_ Hv]; [set_solver|].
    unfold valid, sh_loc, sh_dep, fst, snd in Hv. rewrite Hy in Hv. subst w0.
    dstep Hr Ef a p2. unfold d_cell in Ef. rewrite <- Hl in Ef.
    destruct (quiet_alloc r0 x stk p s l _ a p2 HR (node_store _ _ _ _ _ _ HR Hy) Ef) as (-> & [Hst HR2] & Hsn).
    assert (d_le p p2) as Hl2. { eapply d_alloc_pres; [apply HR|done]. }
    destruct (IH ltac:(intros h; rewrite <- (assoc_L (++)); apply Hval) _ v' p1 HR2) as (? & ? & ? & ? & Hp); [|done|].
    { intros h [?| ->%elem_of_list_singleton]%elem_of_app; [by eapply Hpm|done]. }
    split_and!; try done; [congruence|by eapply d_le_trans|]. intros h. rewrite <- (assoc_L (++)) in Hp. apply Hp.
  - (* untracked cell *)
    dstep Hr Ef a p2. unfold d_cell in Ef. rewrite <- Hl in Ef.
    destruct (quiet_alloc r0 x stk p s l _ a p2 HR (node_store _ _ _ _ _ _ HR Hy) Ef) as (-> & [Hst HR2] & Hsn).
    assert (d_le p p2) as Hl2. { eapply d_alloc_pres; [apply HR|done]. }
    destruct (IH Hval p2 v' p1 HR2) as (? & ? & ? & ? & ?); [by eapply Hpm|done|].
    split_and!; try done; [congruence|by eapply d_le_trans].
  - (* thunk *)
    destruct (Hval (l, Allocate, DAllocThunk arg)) as [_ Hv]; [set_solver|].
    unfold valid, sh_loc, sh_dep, fst, snd in Hv. rewrite Hy in Hv.
    assert (Hst0 := node_store _ _ _ _ _ _ HR Hy). simpl in Hst0. rewrite Hty, Hpp, Hsp, Hv in Hst0.
    dstep Hr Ef a p2. simpl in Ef. rewrite <- Hl in Ef.
    destruct (quiet_alloc r0 x stk p s l _ a p2 HR Hst0 Ef) as (-> & [Hst HR2] & Hsn).
    assert (d_le p p2) as Hl2. { eapply d_alloc_pres; [apply HR|done]. }
    destruct (IH ltac:(intros h; rewrite <- (assoc_L (++)); apply Hval) _ v' p1 HR2) as (? & ? & ? & ? & Hp); [|done|].
    { intros h [?| ->%elem_of_list_singleton]%elem_of_app; [by eapply Hpm|done]. }
    split_and!; try done; [congruence|by eapply d_le_trans|]. intros h. rewrite <- (assoc_L (++)) in Hp. apply Hp.
  - (* structural thunk, no edge *)
    assert (Hst0 := node_store _ _ _ _ _ _ HR Hy). simpl in Hst0. rewrite Hty, Hpp, Hsp, Harg in Hst0.
    dstep Hr Ef a p2.
    assert (d_alloc opt (x :: stk) l (CThunk t pp arg spur) p = Some (a, p2)) as Ef'.
    { rewrite Hl. destruct Hnc as [-> |(-> & nm & ->)]; done. }
    destruct (quiet_alloc r0 x stk p s l _ a p2 HR Hst0 Ef') as (-> & [Hst HR2] & Hsn).
    assert (d_le p p2) as Hl2. { eapply d_alloc_pres; [apply HR|done]. }
    destruct (IH Hval p2 v' p1 HR2) as (? & ? & ? & ? & ?); [by eapply Hpm|done|].
    split_and!; try done; [congruence|by eapply d_le_trans].
  - (* structural thunk, edge *)
    assert (Hst0 := node_store _ _ _ _ _ _ HR Hy). simpl in Hst0. rewrite Hty, Hpp, Hsp, Harg in Hst0.
    dstep Hr Ef a p2.
    assert (d_alloc opt (x :: stk) l (CThunk t pp arg spur) p = Some (a, p2)) as Ef'.
    { rewrite Hl. destruct Hnc as [-> |(-> & nm & ->)]; done. }
    destruct (quiet_alloc r0 x stk p s l _ a p2 HR Hst0 Ef') as (-> & [Hst HR2] & Hsn).
    assert (d_le p p2) as Hl2. { eapply d_alloc_pres; [apply HR|done]. }
    destruct (IH ltac:(intros h; rewrite <- (assoc_L (++)); apply Hval) _ v' p1 HR2) as (? & ? & ? & ? & Hp); [|done|].
    { intros h [?| ->%elem_of_list_singleton]%elem_of_app; [by eapply Hpm|done]. }
    split_and!; try done; [congruence|by eapply d_le_trans|]. intros h. rewrite <- (assoc_L (++)) in Hp. apply Hp.
  - (* ns *)
    dstep Hr Ef a p2.
    destruct (IH1 ltac:(intros h Hh; apply Hval; set_solver) p a p2 HR Hacc Ef) as (-> & Hst & HR2 & Hl2 & Hp2).
    destruct (IH2 ltac:(intros h; rewrite <- (assoc_L (++)); apply Hval) p2 v' p1 HR2 Hp2 Hr) as (? & ? & ? & ? & Hp).
    split_and!; try done; [congruence|by eapply d_le_trans|]. intros h. rewrite <- (assoc_L (++)) in Hp. apply Hp.
  - (* structural *)
    dstep Hr Ef a p2.
    destruct (IH1 ltac:(intros h Hh; apply Hval; set_solver) p a p2 HR Hacc Ef) as (-> & Hst & HR2 & Hl2 & Hp2).
    destruct (IH2 ltac:(intros h; rewrite <- (assoc_L (++)); apply Hval) p2 v' p1 HR2 Hp2 Hr) as (? & ? & ? & ? & Hp).
    split_and!; try done; [congruence|by eapply d_le_trans|]. intros h. rewrite <- (assoc_L (++)) in Hp. apply Hp.
Qed.

Theorem replay n : LA n.
Proof.
  induction n as [n IHn] using lt_wf_ind.
  intros r0 stk p s x c w v p1 HR Hx Hw Hac Hnf Hr.
  assert (HI := R_inv _ _ _ _ _ _ HR).
  assert (HR1 : R r0 (x :: stk) (d_enter x p) s).
  { apply R_enter; [done|]. rewrite (node_store _ _ _ _ _ _ HR Hx). eauto. }
  destruct (replay_run n r0 x stk s ltac:(intros n' ->; apply IHn; lia) (l_path x) md0 []
     (code (c_pp c) (c_arg c) (c_spur c)) (shape <$> c_succs c) w) with (d_enter x p) v p1 as (? & ? & ? & ? & Hp); try done.
  - by eapply (i_tr _ _ _ _ HI).
  - intros h (e & -> & He)%elem_of_list_fmap. split; [by eapply (i_edge _ _ _ _ HI)|].
    eapply (i_valid _ _ _ _ HI); [done..|]. by apply Hac.
  - by intros h ?%elem_of_nil.
  - split_and!; try done. intros e He. apply Hp. by apply elem_of_list_fmap_1.
Qed.

End Replay.
