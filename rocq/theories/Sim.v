(** * Cleaning and production simulate disciplined evaluation. *)
From Verif Require Export Replay Watch.

Lemma with_fr_self p : with_fr p p = p.
Proof. by destruct p. Qed.
Lemma dbind_assoc {A B C} (m : dM A) (f : A → dM B) (g : B → dM C) p :
  dbind (dbind m f) g p = dbind m (λ a, dbind (f a) g) p.
Proof. unfold dbind. by destruct (m p) as [[a p']|]. Qed.

(** The same state at the start of a thunk. *)
Definition fresh_fr (p : dstate) : dstate := DState (d_store p) (d_seen p) (d_done p) ∅ ∅.

Section Sim.
Context `{Prog}.
Context (opt md0 : bool).
Notation Inv := (Inv opt md0).
Notation R := (R opt md0).
Notation facts_le := (facts_le opt).
Notation evo := (evo opt).
Notation fedge := (fedge opt).
Notation tr := (tr opt).
Notation d_force := (d_force opt md0).
Notation d_run := (d_run opt).
Notation opok := (opok opt md0).
(** the engine with any test of its states (Watch.v) *)
Context (ok : dcg → bool).
Notation produce := (wproduce ok).
Notation clean := (wclean ok).

(** Thunk [x] has been brought up to date by the evaluation of the specification from [p] to [p1]. *)
Record thunk_post (r0 : origin) (stk : list loc) (x : loc) (t : ty) (p p1 : dstate) (v : val) (s s' : dcg) : Prop := {
  tp_R : ∀ p', d_store p' = d_store p1 → d_seen p' = d_seen p1 → d_done p' = {[x]} ∪ d_done p1 → R r0 stk p' s';
  tp_evo : evo stk p (table s) (table s');
  tp_stack : stack s' = stack s;
  tp_cpath : cpath s' = cpath s;
  tp_structf : structf s' = structf s;
  tp_node : ∃ c, table s' !! x = Some (NComp c) ∧ c_ty c = t ∧ c_res c = Some v ∧ all_clean (c_succs c);
}.
Lemma thunk_post_ev r0 stk x t p p1 v s s' e :
  thunk_post r0 stk x t p p1 v s s' → thunk_post r0 stk x t p p1 v s (add_ev e s').
Proof. intros []. split; try done. intros. by apply (R_cong opt md0 r0 stk p' s'); auto. Qed.
Lemma thunk_post_ev' r0 stk x t p p1 v s s' e :
  thunk_post r0 stk x t p p1 v (add_ev e s) s' → thunk_post r0 stk x t p p1 v s s'.
Proof. intros []. by split. Qed.

Lemma thunk_post_weaken r0 stk x t p p' p1 v s s' :
  d_le p p' → thunk_post r0 stk x t p' p1 v s s' → thunk_post r0 stk x t p p1 v s s'.
Proof. intros Hle []. split; try done. by eapply evo_weaken. Qed.

Definition SP (n : nat) : Prop := ∀ r0 stk x t c p v p1 s,
  R r0 (x :: stk) p s → d_full p = ∅ → d_map p = ∅ → table s !! x = Some (NComp c) → c_ty c = t →
  x ∉ stk → x ∉ frames (stack s) → (c_res c = None ∨ ¬ all_clean (c_succs c)) → structf s = md0 →
  (∀ tb0, o_tab r0 = Some tb0 → why tb0 p (table s) x) →
  d_run (d_force n (x :: stk)) (x :: stk) (l_path x) md0 (code (c_pp c) (c_arg c) (c_spur c)) p = Some (v, p1) →
  wp (λ k, produce k t x) s (λ r s', r = v ∧ thunk_post r0 stk x t p p1 v s s').

Definition SC (n : nat) : Prop := ∀ r0 stk x t c p v p1 s w,
  R r0 stk p s → table s !! x = Some (NComp c) → c_ty c = t → x ∉ stk → structf s = md0 →
  d_run (d_force n (x :: stk)) (x :: stk) (l_path x) md0 (code (c_pp c) (c_arg c) (c_spur c)) (d_enter x p) = Some (v, p1) →
  wp (λ k, clean k t w x) s (λ ch s', ch = bool_decide (v ≠ w) ∧ thunk_post r0 stk x t p p1 v s s').

Lemma R_fresh_fr r0 stk p s : R r0 stk p s → R r0 stk (fresh_fr p) s.
Proof. intros HR. eapply R_mono_p; [done..| |done]. apply HR. Qed.

(** ** Why a thunk is run again *)
Lemma not_run_yet r0 stk p s x c rs : R r0 stk p s → table s !! x = Some (NComp c) → (c_res c = None ∨ ¬ all_clean (c_succs c)) →
  x ∉ frames (stack s) → runs s = rs ++ o_runs r0 → x ∉ rs.
Proof.
  intros HR Hc Hor Hnf Hrs Hx. destruct (R_runs _ _ _ _ _ _ HR) as (rs' & Hrs' & _ & Hsub).
  rewrite Hrs in Hrs'. apply app_inv_tail in Hrs' as <-. destruct (Hsub _ Hx) as [Hd|]; [|done].
  destruct (R_done _ _ _ _ _ _ HR _ Hd) as (_ & _ & c' & w' & Hc' & Hr & Hac & _). rewrite Hc in Hc'. injection Hc' as <-.
  destruct Hor; congruence.
Qed.
Lemma why_miss r0 stk p s x c : R r0 stk p s → table s !! x = Some (NComp c) → c_res c = None → x ∉ frames (stack s) →
  ∀ tb0, o_tab r0 = Some tb0 → why tb0 p (table s) x.
Proof.
  intros HR Hc Hn Hnf tb0 Ho. destruct (R_just _ _ _ _ _ _ HR _ Ho) as (rs & Hrs & HJ).
  assert (x ∉ rs) as Hx by (eapply not_run_yet; [done|done|by left|done|done]).
  intros c0 Hc0. destruct (J_kept _ _ _ _ _ HJ _ Hx _ Hc0) as [?|(c' & Hc' & Hr & _)]; [right; by left|left].
  rewrite Hc in Hc'. injection Hc' as <-. congruence.
Qed.
(** A recorded edge of [x] that can no longer be relied on. *)
Definition brk (x : loc) (p : dstate) (s : dcg) (h : eshape) : Prop :=
  (prot p h ∧ outdated (table s) h) ∨ (sh_eff h = Allocate ∧ nbit s x Allocate (sh_loc h) = Some true).
Lemma why_brk r0 stk p s x c h : R r0 stk p s → table s !! x = Some (NComp c) → ¬ all_clean (c_succs c) → x ∉ frames (stack s) →
  h ∈ shape <$> c_succs c → brk x p s h → ∀ tb0, o_tab r0 = Some tb0 → why tb0 p (table s) x.
Proof.
  intros HR Hc Hn Hnf Hh Hb tb0 Ho. destruct (R_just _ _ _ _ _ _ HR _ Ho) as (rs & Hrs & HJ).
  assert (x ∉ rs) as Hx by (eapply not_run_yet; [done|done|by right|done|done]).
  intros c0 Hc0. destruct (J_kept _ _ _ _ _ HJ _ Hx _ Hc0) as [?|(c' & Hc' & Hr & Hs & Hbits & _)]; [right; by left|right; right].
  rewrite Hc in Hc'. injection Hc' as <-. rewrite Hs in Hh. apply elem_of_list_fmap in Hh as (e & -> & He). exists e. split; [done|].
  destruct Hb as [?|[Ha Hb]]; [by left|right]. split; [done|]. apply Hbits. unfold nbit in Hb. by rewrite Hc in Hb.
Qed.

(** ** The loop over the edges of a cached thunk *)
Section Loop.
Set Default Proof Using "All".
Context (n : nat) (HSP : SP n) (HSC : ∀ n', n = S n' → SC n').
Context (r0 : origin) (stk : list loc) (x : loc) (t : ty) (pp : progpt) (arg spur : val) (w wc : val).
Context (Hsh : list eshape) (p0 : dstate) (s0 : dcg) (vfin : val) (pfin : dstate).
Context (Hnk : x ∉ stk) (Hx0 : x ∈ d_seen p0) (Hst0 : d_store p0 !! x = Some (CThunk t pp arg spur)).
Context (Hnf : x ∉ frames (stack s0)) (Hmd : structf s0 = md0).

Notation frc := (d_force n (x :: stk)).
Notation drun := (d_run (d_force n (x :: stk)) (x :: stk)).
Notation body := (code pp arg spur).
Notation Q := (λ (ch : bool) (s' : dcg), ch = bool_decide (vfin ≠ w) ∧ thunk_post r0 stk x t p0 pfin vfin s0 s').

Record LS (acc : list eshape) (p : dstate) (s : dcg) : Prop := {
  ls_R : R r0 (x :: stk) p s;
  ls_node : ∃ c, table s !! x = Some (NComp c) ∧ c_res c = Some wc ∧ shape <$> c_succs c = Hsh ∧
     ∀ h, h ∈ acc → bit (sh_eff h) (sh_loc h) (c_succs c) = Some false;
  ls_sub : ∀ h, h ∈ acc → h ∈ Hsh;
  ls_prot : ∀ h, h ∈ acc → prot p h;
  ls_evo : evo stk p0 (table s0) (table s);
  ls_le : d_le p0 p;
  ls_stack : stack s = stack s0;
  ls_cpath : cpath s = cpath s0;
  ls_structf : structf s = structf s0;
}.

(** Thunks stay thunks. *)
Definition kinds (p p' : dstate) : Prop := ∀ z t pp arg spur,
  d_store p !! z = Some (CThunk t pp arg spur) → ∃ t' pp' arg' spur', d_store p' !! z = Some (CThunk t' pp' arg' spur').
Lemma kinds_refl p p' : d_store p' = d_store p → kinds p p'.
Proof. intros E z t' pp' arg' spur' Hz. rewrite E. eauto. Qed.
Lemma kinds_trans p1 p2 p3 : kinds p1 p2 → kinds p2 p3 → kinds p1 p3.
Proof. intros H1 H2 z t' pp' arg' spur' Hz. destruct (H1 _ _ _ _ _ Hz) as (? & ? & ? & ? & ?). eauto. Qed.
Lemma kinds_R r1 r2 k1 k2 p p' s s' : R r1 k1 p s → R r2 k2 p' s' → facts_le (table s) (table s') → kinds p p'.
Proof.
  intros HR HR' Hf z t' pp' arg' spur' Hz. destruct (store_node _ _ _ _ _ _ _ _ HR Hz) as (nd & Hnd & Hcon).
  destruct nd as [| |c]; [done..|]. destruct (facts_comp _ _ _ _ _ Hf Hnd) as (c' & Hc' & _).
  rewrite (node_store _ _ _ _ _ _ _ _ HR' Hc'). simpl. eauto.
Qed.

(** Restarting the thunk later amounts to going on from here. *)
Definition Prest (m : dM val) (p : dstate) : Prop :=
  ∀ p2, d_le p p2 → kinds p p2 → drun (l_path x) md0 body (fresh_fr p2) = m (with_fr p2 p).

Lemma Prest_ext (m m' : dM val) p : (∀ q, m q = m' q) → Prest m p → Prest m' p.
Proof. intros He Hp p2 Hl Hk. rewrite <- He. by apply Hp. Qed.
Lemma Prest_step {A} (m : dM A) (f : A → dM val) p a p' :
  Prest (dbind m f) p → m p = Some (a, p') → d_idem' m → d_wf p → d_le p p' → kinds p p' → Prest (f a) p'.
Proof.
  intros Hp Hm Hid Hwf Hle Hk p2 Hle2 Hk2. rewrite (Hp p2); [|by eapply d_le_trans|by eapply kinds_trans].
  unfold dbind. by rewrite (Hid _ _ _ p2 Hwf Hm Hle2).
Qed.
Lemma Prest_here (m : dM val) p : Prest m p → drun (l_path x) md0 body (fresh_fr p) = m p.
Proof. intros Hp. rewrite (Hp p); [|done|by apply kinds_refl]. by rewrite with_fr_self. Qed.

Lemma LS_content acc p s c : LS acc p s → table s !! x = Some (NComp c) →
  c_ty c = t ∧ c_pp c = pp ∧ c_arg c = arg ∧ c_spur c = spur.
Proof.
  intros HL Hc. assert (Hs := node_store _ _ _ _ _ _ _ _ (ls_R _ _ _ HL) Hc).
  rewrite (dle_frozen _ _ (ls_le _ _ _ HL)), Hst0 in Hs by done. by injection Hs.
Qed.
Lemma LS_ev acc p s e : LS acc p s → LS acc p (add_ev e s).
Proof. intros []. split; try done. by apply (R_cong opt md0 r0 (x :: stk) p s). Qed.

(** Giving up: run the thunk again. *)
Lemma loop_give acc p s c h :
  LS acc p s → table s !! x = Some (NComp c) → ¬ all_clean (c_succs c) → h ∈ Hsh → brk x p s h →
  drun (l_path x) md0 body (fresh_fr p) = Some (vfin, pfin) →
  wp (λ k, produce k t x) s (λ r s', r = vfin ∧ thunk_post r0 stk x t p0 pfin vfin s0 s').
Proof.
  intros HL Hc Hnac Hh Hbrk Hr. destruct (LS_content _ _ _ _ HL Hc) as (Ht & E1 & E2 & E3).
  eapply wp_mono; [|eapply (HSP r0 stk x t c (fresh_fr p) vfin pfin s)]; try done.
  - intros r s' [-> []]. split; [done|]. destruct HL. split; try done.
    + eapply evo_trans; [done|done|]. eapply evo_weaken; [|done]. done.
    + congruence.
    + congruence.
    + congruence.
  - apply R_fresh_fr, HL.
  - by rewrite (ls_stack _ _ _ HL).
  - by right.
  - by rewrite (ls_structf _ _ _ HL).
  - destruct (ls_node _ _ _ HL) as (c' & Hc' & _ & Hsha & _). rewrite Hc in Hc'. injection Hc' as <-.
    apply (why_brk r0 (x :: stk) (fresh_fr p) s x c h); try done; [apply R_fresh_fr, HL|by rewrite (ls_stack _ _ _ HL)|by rewrite Hsha].
  - rewrite E1, E2, E3. exact Hr.
Qed.

(** Edges with the same effect and target. *)
Definition key_valid (s : dcg) (h : eshape) : Prop :=
  ∀ h', h' ∈ Hsh → sh_eff h' = sh_eff h → sh_loc h' = sh_loc h → valid (table s) (frames (stack s)) h' ∧ (sh_eff h = Allocate → is_struct (sh_loc h) = true).

Lemma loop_clean acc p s c h :
  LS acc p s → table s !! x = Some (NComp c) → h ∈ Hsh → key_valid s h → prot p h →
  ∃ s', set_dirty false x (sh_eff h) (sh_loc h) s = (OVal tt, s') ∧ LS (acc ++ [h]) p s'.
Proof.
  intros HL Hc Hh Hkey Hp. destruct (ls_node _ _ _ HL) as (c' & Hc' & Hres & Hsha & Hbits).
  rewrite Hc in Hc'. injection Hc' as <-.
  assert (∃ e, e ∈ c_succs c ∧ shape e = h) as (e & He & Hse).
  { rewrite <- Hsha in Hh. apply elem_of_list_fmap in Hh as (e & -> & ?). eauto. }
  assert (sh_eff h = s_eff e ∧ sh_loc h = s_loc e) as [Ee El] by by rewrite <- Hse.
  destruct (find_succ_elem e (c_succs c) He) as (e' & Hfe). rewrite <- Ee, <- El in Hfe.
  assert (is_Some (bit (sh_eff h) (sh_loc h) (c_succs c))) as Hbs by (unfold bit; rewrite Hfe; eauto).
  exists (upd_bit false x (sh_eff h) (sh_loc h) c s). split; [by eapply set_dirty_eq|].
  destruct (R_set_clean opt md0 r0 (x :: stk) x p s c (sh_eff h) (sh_loc h)) as [HR' Hevo]; try done; [apply HL| | |].
  { intros e1 He1 E1 E2. apply Hkey; [|done..]. rewrite <- Hsha. by apply elem_of_list_fmap_1. }
  { by apply (Hkey h Hh). }
  destruct HL. split; try done.
  - exists (with_succs (mark_succ false (sh_eff h) (sh_loc h) (c_succs c)) c).
    split; [unfold upd_bit; simpl; by rewrite lookup_insert|]. split; [done|]. split; [simpl; by rewrite mark_succ_shapes|].
    simpl. intros h' [Hh'| ->%elem_of_list_singleton]%elem_of_app.
    + apply bit_mark_false_clean. auto.
    + by apply bit_mark_same.
  - intros h' [Hh'| ->%elem_of_list_singleton]%elem_of_app; auto.
  - intros h' [Hh'| ->%elem_of_list_singleton]%elem_of_app; auto.
  - eapply evo_trans; [done|done|]. eapply evo_sub; [|done]. intros q. by right.
Qed.

Lemma loop_edge (X : Prop) acc p p' s e es :
  LS acc p s → shape e ∈ Hsh →
  (nbit s x (s_eff e) (s_loc e) = Some true →
     ∀ ev, wp (λ k, dep_clean (clean k) (s_dep e) (s_loc e)) (add_ev ev s) (λ ch s1,
       if ch : bool then ∃ c q, LS acc q s1 ∧ table s1 !! x = Some (NComp c) ∧ ¬ all_clean (c_succs c) ∧ brk x q s1 (shape e) ∧
                       drun (l_path x) md0 body (fresh_fr q) = Some (vfin, pfin)
       else X ∧ LS acc p' s1 ∧ key_valid s1 (shape e) ∧ prot p' (shape e))) →
  (nbit s x (s_eff e) (s_loc e) = Some false → X ∧ LS acc p' s ∧ prot p' (shape e)) →
  (∀ s', X → LS (acc ++ [shape e]) p' s' → wp (λ k, clean_comp (produce k) (clean k) t w x wc es) s' Q) →
  wp (λ k, clean_comp (produce k) (clean k) t w x wc (e :: es)) s Q.
Proof.
  intros HL He Hdirty Hclean Hcont. cbn [clean_comp].
  destruct (ls_node _ _ _ HL) as (c & Hc & Hres & Hsha & Hbits).
  assert (∃ e0, e0 ∈ c_succs c ∧ shape e0 = shape e) as (e0 & He0 & Hse).
  { rewrite <- Hsha in He. apply elem_of_list_fmap in He as (e0 & -> & ?). eauto. }
  apply shape_eq in Hse as (E1 & E2 & _). destruct (bit_elem _ _ He0) as (b & Hb). rewrite E1, E2 in Hb.
  assert (nbit s x (s_eff e) (s_loc e) = Some b) as Hnb by (unfold nbit; by rewrite Hc).
  eapply wp_det; [by eapply get_dirty_eq|]. destruct b.
  - eapply wp_det; [done|]. apply wp_bind. eapply wp_mono; [|by apply Hdirty].
    intros ch s1 Hs1. simpl in Hs1. destruct ch.
    + destruct Hs1 as (c1 & q & HLq & Hc1 & Hn & Hbk & Hr).
      eapply wp_det; [done|]. apply wp_bind. eapply wp_mono; [|by eapply (loop_give acc q _ c1 (shape e)), Hr; [apply LS_ev|..]].
      intros r s2 [-> Htp]. eapply wp_val; [intros k; done|]. split; [done|]. by do 2 apply thunk_post_ev.
    + destruct Hs1 as (HX & HL1 & Hkey & Hp). destruct (ls_node _ _ _ HL1) as (c1 & Hc1 & _).
      destruct (loop_clean acc p' s1 c1 (shape e) HL1 Hc1 He Hkey Hp) as (s2 & Hset & HL2).
      eapply wp_det; [exact Hset|]. eapply wp_det; [done|]. eapply wp_det; [done|].
      apply Hcont; [done|]. by do 2 apply LS_ev.
  - destruct (Hclean Hnb) as (HX & HL' & Hp). apply Hcont; [done|].
    destruct HL'. split; try done.
    + exists c. split_and!; try done. intros h' [Hh'| ->%elem_of_list_singleton]%elem_of_app; auto.
    + intros h' [Hh'| ->%elem_of_list_singleton]%elem_of_app; auto.
    + intros h' [Hh'| ->%elem_of_list_singleton]%elem_of_app; auto.
Qed.

(** The specification moved quietly. *)
Lemma LS_quiet acc p p' s : LS acc p s → R r0 (x :: stk) p' s → d_le p p' → LS acc p' s.
Proof.
  intros [] HR Hle. split; try done; [|by eapply d_le_trans]. intros h Hh. eapply prot_le; [done|auto].
Qed.

Lemma LS_valid acc p s h : LS acc p s → h ∈ acc → valid (table s) (frames (stack s)) h.
Proof.
  intros HL Hh. destruct (ls_node _ _ _ HL) as (c & Hc & Hres & Hsha & Hbits).
  assert (Hin := ls_sub _ _ _ HL _ Hh). rewrite <- Hsha in Hin. apply elem_of_list_fmap in Hin as (e & -> & He).
  eapply (i_valid _ _ _ _ (R_inv _ _ _ _ _ _ (ls_R _ _ _ HL))); [done..|]. by apply (Hbits _ Hh).
Qed.
Lemma LS_wfe acc p s h : LS acc p s → h ∈ Hsh → wfe (table s) h.
Proof.
  intros HL Hh. destruct (ls_node _ _ _ HL) as (c & Hc & Hres & Hsha & Hbits).
  rewrite <- Hsha in Hh. apply elem_of_list_fmap in Hh as (e & -> & He).
  by eapply (i_edge _ _ _ _ (R_inv _ _ _ _ _ _ (ls_R _ _ _ HL))).
Qed.
Lemma LS_bit_valid acc p s e : LS acc p s → shape e ∈ Hsh → nbit s x (s_eff e) (s_loc e) = Some false →
  valid (table s) (frames (stack s)) (shape e).
Proof.
  intros HL Hh Hb. destruct (ls_node _ _ _ HL) as (c & Hc & Hres & Hsha & Hbits).
  unfold nbit in Hb. rewrite Hc in Hb.
  rewrite <- Hsha in Hh. apply elem_of_list_fmap in Hh as (e0 & Hse & He). rewrite Hse.
  eapply (i_valid _ _ _ _ (R_inv _ _ _ _ _ _ (ls_R _ _ _ HL))); [done..|].
  apply shape_eq in Hse as (<- & <- & _). done.
Qed.
Lemma LS_not_valid acc p s c h : LS acc p s → table s !! x = Some (NComp c) → h ∈ Hsh →
  ¬ valid (table s) (frames (stack s)) h → ¬ all_clean (c_succs c).
Proof.
  intros HL Hc Hh Hnv Hac. destruct (ls_node _ _ _ HL) as (c' & Hc' & Hres & Hsha & Hbits).
  rewrite Hc in Hc'. injection Hc' as <-. apply Hnv.
  rewrite <- Hsha in Hh. apply elem_of_list_fmap in Hh as (e & -> & He).
  eapply (i_valid _ _ _ _ (R_inv _ _ _ _ _ _ (ls_R _ _ _ HL))); [done..|]. by apply Hac.
Qed.
Lemma LS_dirty acc p s c e : LS acc p s → table s !! x = Some (NComp c) → shape e ∈ Hsh →
  nbit s x (s_eff e) (s_loc e) = Some true → ¬ all_clean (c_succs c).
Proof.
  intros HL Hc Hh Hb Hac. destruct (ls_node _ _ _ HL) as (c' & Hc' & Hres & Hsha & Hbits).
  rewrite Hc in Hc'. injection Hc' as <-. unfold nbit in Hb. rewrite Hc in Hb.
  rewrite <- Hsha in Hh. apply elem_of_list_fmap in Hh as (e0 & Hse & He). apply Hac in He.
  apply shape_eq in Hse as (E1 & E2 & _). rewrite <- E1, <- E2, Hb in He. done.
Qed.
Lemma LS_key_obs acc p s h : LS acc p s → h ∈ Hsh → sh_eff h = Observe →
  valid (table s) (frames (stack s)) h → key_valid s h.
Proof.
  intros HL Hh Ho Hv h' Hh' E1 E2. destruct (ls_node _ _ _ HL) as (c & Hc & Hres & Hsha & Hbits).
  assert (Hnd := i_nodup _ _ _ _ (R_inv _ _ _ _ _ _ (ls_R _ _ _ HL)) _ _ Hc). rewrite Hsha in Hnd.
  split; [|congruence]. rewrite (obs_nodup_inj Hsh h' h) ; try done. congruence.
Qed.


(** ** One operation of the specification that records no edge *)
Lemma silent_step {A} (m : dM A) (F : A → dM val) (K : val → dM val) acc p s a0 (G : Prop) :
  LS acc p s → d_idem' m → d_pres m → Prest (dbind (dbind m F) K) p → dbind (dbind m F) K p = Some (vfin, pfin) →
  (∀ a p', m p = Some (a, p') → a = a0 ∧ quiet opt md0 r0 (x :: stk) p p' s) →
  (∀ p', LS acc p' s → Prest (dbind (F a0) K) p' → dbind (F a0) K p' = Some (vfin, pfin) → G) → G.
Proof.
  intros HL Hi Hp HP Hr Hq HG. rewrite dbind_assoc in Hr.
  apply (Prest_ext _ (dbind m (λ a, dbind (F a) K))) in HP; [|intros; apply dbind_assoc].
  assert (Hwf := R_wf _ _ _ _ _ _ (ls_R _ _ _ HL)).
  unfold dbind in Hr at 1. destruct (m p) as [[a p']|] eqn:Em; [|done].
  destruct (Hp _ _ _ Hwf Em) as [_ Hle]. destruct (Hq _ _ eq_refl) as [-> [Hst HR']].
  apply (HG p'); [by eapply LS_quiet| |done]. eapply Prest_step in HP; try done. by apply kinds_refl.
Qed.

(** ** One operation that recorded edge [e] *)
Lemma edge_step {A} (m : dM A) (F : A → dM val) (K : val → dM val) acc p s a0 e es :
  LS acc p s → d_idem' m → d_pres m → Prest (dbind (dbind m F) K) p → dbind (dbind m F) K p = Some (vfin, pfin) →
  shape e ∈ Hsh →
  (∀ a p', m p = Some (a, p') → nbit s x (s_eff e) (s_loc e) = Some false →
     a = a0 ∧ quiet opt md0 r0 (x :: stk) p p' s ∧ prot p' (shape e)) →
  (∀ a p', m p = Some (a, p') → d_le p p' → nbit s x (s_eff e) (s_loc e) = Some true →
     ∀ ev, wp (λ k, dep_clean (clean k) (s_dep e) (s_loc e)) (add_ev ev s) (λ ch s1,
       facts_le (table s) (table s1) ∧
       if ch : bool then ∃ c q, (q = p ∨ q = p') ∧ LS acc q s1 ∧ table s1 !! x = Some (NComp c) ∧ ¬ all_clean (c_succs c) ∧ brk x q s1 (shape e)
       else a = a0 ∧ LS acc p' s1 ∧ key_valid s1 (shape e) ∧ prot p' (shape e))) →
  (∀ p' s', LS (acc ++ [shape e]) p' s' → Prest (dbind (F a0) K) p' → dbind (F a0) K p' = Some (vfin, pfin) →
     wp (λ k, clean_comp (produce k) (clean k) t w x wc es) s' Q) →
  wp (λ k, clean_comp (produce k) (clean k) t w x wc (e :: es)) s Q.
Proof.
  intros HL Hi Hp HP Hr He Hclean Hdirty Hcont. rewrite dbind_assoc in Hr.
  apply (Prest_ext _ (dbind m (λ a, dbind (F a) K))) in HP; [|intros; apply dbind_assoc].
  assert (Hwf := R_wf _ _ _ _ _ _ (ls_R _ _ _ HL)).
  assert (Hr0 := Hr). unfold dbind in Hr at 1. destruct (m p) as [[a p']|] eqn:Em; [|done].
  destruct (Hp _ _ _ Hwf Em) as [_ Hle].
  apply (loop_edge (a = a0 ∧ kinds p p') acc p p' s e es); [done|done| | |].
  - intros Hb ev. eapply wp_mono; [|by apply (Hdirty a p' eq_refl Hle Hb ev)].
    intros ch s1 [Hf Hch]. destruct ch.
    + destruct Hch as (c & q & Hq & HLq & Hc & Hn & Hbk). exists c, q. split_and!; try done.
      destruct Hq as [->| ->].
      * rewrite (Prest_here _ _ HP). done.
      * assert (kinds p p') as Hk by (eapply kinds_R; [apply HL|apply HLq|done]).
        rewrite <- Hr. apply Prest_here. by apply (Prest_step _ _ _ _ _ HP Em).
    + destruct Hch as (-> & HL1 & ? & ?). split_and!; try done. by eapply kinds_R; [apply HL|apply HL1|].
  - intros Hb. destruct (Hclean a p' eq_refl Hb) as (-> & [Hst HR'] & Hpr). split_and!; try done.
    + by apply kinds_refl.
    + by eapply LS_quiet.
  - intros s' [-> Hk] HL'. apply (Hcont p' s'); try done. by apply (Prest_step _ _ _ _ _ HP Em).
Qed.

Lemma LS_mut acc p s y t' ps v : LS acc p s → table s0 !! y = Some (NMut t' ps v) → ∃ ps' v', table s !! y = Some (NMut t' ps' v').
Proof. intros HL. apply facts_mut with opt. apply (ls_evo _ _ _ HL). Qed.

(** The edge records a [force]. *)
Lemma edge_force (F : val → dM val) (K : val → dM val) acc p s md t' y w' es e :
  LS acc p s → Prest (dbind (dbind (frc md t' y) F) K) p → dbind (dbind (frc md t' y) F) K p = Some (vfin, pfin) →
  shape e ∈ Hsh → shape e = (y, Observe, DForce t' w') →
  (∀ p' s', LS (acc ++ [shape e]) p' s' → Prest (dbind (F w') K) p' → dbind (F w') K p' = Some (vfin, pfin) →
     wp (λ k, clean_comp (produce k) (clean k) t w x wc es) s' Q) →
  wp (λ k, clean_comp (produce k) (clean k) t w x wc (e :: es)) s Q.
Proof.
  intros HL HP Hr He Hse Hcont.
  assert (s_loc e = y ∧ s_eff e = Observe ∧ s_dep e = DForce t' w') as (El & Ee & Ed) by by injection Hse.
  assert (HR := ls_R _ _ _ HL).
  eapply edge_step; [done|apply d_force_idem|apply d_force_pres|done|done|done| | |exact Hcont].
  - intros a p' Hm Hb. assert (Hv := LS_bit_valid _ _ _ _ HL He Hb). rewrite Hse in Hv.
    destruct (quiet_force opt md0 n r0 x stk p s y t' w' md t' a p') as (-> & Hq & Hset); try done.
    { intros n' ->. apply replay. }
    split_and!; try done. by rewrite Hse.
  - intros a p' Hm Hle Hb ev. rewrite Ed, El.
    assert (Hw := LS_wfe _ _ _ _ HL He). rewrite Hse in Hw. destruct Hw as [_ Hw]. unfold sh_loc in Hw. simpl in Hw.
    assert (HLe := LS_ev _ _ _ ev HL). destruct (ls_node _ _ _ HLe) as (cx & Hcx & _).
    destruct Hw as [(ps & v0 & Hy)|(c & Hy & Hty)].
    + (* a cell *)
      assert (Hst := node_store _ _ _ _ _ _ _ _ HR Hy). simpl in Hst.
      revert Hle. apply d_force_inv in Hm as [v' Hl|? ? ? ? ? ? ? Hl]; intros Hle; rewrite Hst in Hl; [|done].
      injection Hl as ?. subst v'. apply wp_S. eapply wp_val with (a := bool_decide (v0 ≠ w')).
      { intros k. simpl. unfold clean_body. by rewrite (bind_val _ _ _ (NMut t' ps v0) (add_ev ev s)) by by apply res_node_eq. }
      split; [done|].
      assert (HL2 : LS acc (d_observe (x :: stk) y false p) (add_ev ev s)).
      { eapply LS_quiet; [done| |done]. apply (quiet_observe opt md0 r0 x stk p (add_ev ev s) y false); [apply HLe|eauto]. }
      destruct (bool_decide (v0 ≠ w')) eqn:Eb.
      * exists cx, (d_observe (x :: stk) y false p). split; [by right|]. split; [done|]. split; [done|].
        split; [by eapply (LS_dirty acc _ (add_ev ev s) cx e)|]. apply bool_decide_eq_true_1 in Eb. left. rewrite Hse. split.
        -- right. unfold sh_loc. simpl. split; [set_solver|eauto].
        -- split; [done|]. exists v0. split; [|done]. unfold yields, sh_loc. simpl. by rewrite Hy.
      * apply bool_decide_eq_false_1 in Eb. apply dec_stable in Eb. subst v0. split; [done|].
        split; [done|]. split.
        -- eapply LS_key_obs; [done|done|by rewrite Hse|]. rewrite Hse. unfold valid, sh_loc, sh_dep, fst, snd.
           change (table (add_ev ev s)) with (table s). by rewrite Hy.
        -- rewrite Hse. right. unfold sh_loc. simpl. split; [set_solver|eauto].
    + (* a thunk *)
      assert (Hst := node_store _ _ _ _ _ _ _ _ HR Hy). simpl in Hst.
      revert Hle. apply d_force_inv in Hm as [v' Hl|n' pp' arg' spur' v' p1 Hn Hl Hnk' Hmd' Hs6 Hrun]; intros Hle; rewrite Hst in Hl; [done|].
      injection Hl as ? <- <- <-. subst md.
      eapply wp_mono; [|apply (HSC n' Hn r0 (x :: stk) y t' c p v' p1 (add_ev ev s) w')]; try done;
        [|apply HLe|simpl; by rewrite (ls_structf _ _ _ HL)].
      intros ch s1 [-> Htp]. split; [apply (ev_facts _ _ _ _ _ (tp_evo _ _ _ _ _ _ _ _ _ Htp))|].
      destruct (ls_node _ _ _ HL) as (cx0 & Hcx0 & Hres & Hsha & Hbits).
      destruct (ev_stk _ _ _ _ _ (tp_evo _ _ _ _ _ _ _ _ _ Htp) x cx0) as (cx1 & Hcx1 & Hres1 & Hsha1 & Hbits1); [by left|done|].
      assert (HL1 : LS acc (d_leave (x :: stk) y p p1) s1).
      { destruct HL, Htp. split.
        - by apply tp_R0.
        - exists cx1. split_and!; [done|congruence|congruence|]. intros h Hh.
          assert (h ∈ Hsh) as Hh' by auto. rewrite <- Hsha in Hh'. apply elem_of_list_fmap in Hh' as (e1 & -> & He1).
          apply Hbits1; [done|auto|]. by apply (Hbits _ Hh).
        - done.
        - intros h Hh. eapply prot_le; [done|auto].
        - eapply evo_trans; [exact ls_le0|done|]. eapply evo_sub; [|exact tp_evo0]. intros q. by right.
        - by eapply d_le_trans.
        - by rewrite tp_stack0.
        - by rewrite tp_cpath0.
        - by rewrite tp_structf0. }
      assert (y ∉ frames (stack s1)) as Hyf.
      { intros Hyf. apply Hnk'. rewrite (tp_stack _ _ _ _ _ _ _ _ _ Htp) in Hyf. by apply (R_sub _ _ _ _ _ _ HR). }
      destruct (tp_node _ _ _ _ _ _ _ _ _ Htp) as (cy & Hcy & Hty' & Hresy & Hacy).
      destruct (bool_decide (v' ≠ w')) eqn:Eb.
      * apply bool_decide_eq_true_1 in Eb. exists cx1, (d_leave (x :: stk) y p p1). split; [by right|].
        split; [done|]. split; [done|]. split.
        -- eapply LS_not_valid; [done|done|exact He|]. rewrite Hse.
           unfold valid, sh_loc, sh_dep, fst, snd. rewrite Hcy. intros [? _]. congruence.
        -- left. rewrite Hse. split; [left; unfold sh_loc; simpl; set_solver|]. split; [done|]. exists v'. split; [|done].
           unfold yields, sh_loc. simpl. by rewrite Hcy.
      * apply bool_decide_eq_false_1 in Eb. apply dec_stable in Eb. subst v'. split; [done|]. split; [done|]. split.
        -- eapply LS_key_obs; [done|done|by rewrite Hse|]. rewrite Hse. unfold valid, sh_loc, sh_dep, fst, snd.
           by rewrite Hcy.
        -- rewrite Hse. left. unfold sh_loc. simpl. set_solver.
Qed.

(** The edge records a projection. *)
Lemma edge_map (F : val → dM val) (K : val → dM val) acc p s md t' y f w' es e :
  LS acc p s → let m := d_force_map opt (frc md) false (x :: stk) t' y f in
  Prest (dbind (dbind m F) K) p → dbind (dbind m F) K p = Some (vfin, pfin) →
  shape e ∈ Hsh → shape e = (y, Observe, DForceMap t' f w') →
  (∀ p' s', LS (acc ++ [shape e]) p' s' → Prest (dbind (F w') K) p' → dbind (F w') K p' = Some (vfin, pfin) →
     wp (λ k, clean_comp (produce k) (clean k) t w x wc es) s' Q) →
  wp (λ k, clean_comp (produce k) (clean k) t w x wc (e :: es)) s Q.
Proof.
  intros HL m HP Hr He Hse Hcont.
  assert (s_loc e = y ∧ s_eff e = Observe ∧ s_dep e = DForceMap t' f w') as (El & Ee & Ed) by by injection Hse.
  assert (HR := ls_R _ _ _ HL).
  assert (Hw := LS_wfe _ _ _ _ HL He). rewrite Hse in Hw. destruct Hw as (_ & ps & v0 & Hy).
  unfold sh_loc in Hy. simpl in Hy.
  assert (is_Some (d_store p !! y)) as Hiy by (rewrite (node_store _ _ _ _ _ _ _ _ HR Hy); eauto).
  assert (Hpr : prot (d_observe (x :: stk) y true p) (shape e)).
  { rewrite Hse. right. unfold sh_loc. simpl. split; [set_solver|].
    rewrite (node_store _ _ _ _ _ _ _ _ HR Hy). simpl. eauto. }
  eapply edge_step; [done| | |exact HP|exact Hr|done| | |exact Hcont].
  - apply d_force_map_idem; [intros; apply d_force_idem|apply d_force_touch].
  - apply d_force_map_pres; intros; apply d_force_pres.
  - intros a p' Hm Hb. assert (Hv := LS_bit_valid _ _ _ _ HL He Hb). rewrite Hse in Hv.
    unfold valid, sh_loc, sh_dep, fst, snd in Hv. rewrite Hy in Hv.
    destruct (force_map_mut _ _ _ _ _ _ _ _ _ _ _ _ _ _ _ _ _ HR Hy Hm) as (_ & _ & -> & _ & _ & _ & ->).
    split; [done|]. split; [by apply quiet_observe|done].
  - intros a p' Hm Hle Hb ev. rewrite Ed, El.
    destruct (force_map_mut _ _ _ _ _ _ _ _ _ _ _ _ _ _ _ _ _ HR Hy Hm) as (_ & _ & -> & _ & _ & _ & ->).
    assert (HLe := LS_ev _ _ _ ev HL). destruct (ls_node _ _ _ HLe) as (cx & Hcx & _).
    eapply wp_val with (a := bool_decide (w' ≠ f v0)).
    { intros k. simpl. unfold check_force_map_dep.
      by rewrite (bind_val _ _ _ (NMut t' ps v0) (add_ev ev s)) by by apply res_node_eq. }
    split; [done|].
    assert (HL2 : LS acc (d_observe (x :: stk) y true p) (add_ev ev s)).
    { eapply LS_quiet; [done| |done]. apply (quiet_observe opt md0 r0 x stk p (add_ev ev s) y true); [apply HLe|done]. }
    destruct (bool_decide (w' ≠ f v0)) eqn:Eb.
    + exists cx, (d_observe (x :: stk) y true p). split; [by right|]. split; [done|]. split; [done|].
      split; [by eapply (LS_dirty acc _ (add_ev ev s) cx e)|]. apply bool_decide_eq_true_1 in Eb. left. split; [done|].
      rewrite Hse. split; [done|]. exists v0. split; [|done]. unfold yields, sh_loc. simpl. by rewrite Hy.
    + apply bool_decide_eq_false_1 in Eb. apply dec_stable in Eb. split; [done|].
      split; [done|]. split; [|done].
      eapply LS_key_obs; [done|done|by rewrite Hse|]. rewrite Hse. unfold valid, sh_loc, sh_dep, fst, snd.
      change (table (add_ev ev s)) with (table s). by rewrite Hy.
Qed.

(** The edge records the allocation of a cell or a nominal thunk: a dirty one always means re-execution. *)
Lemma edge_alloc (F : loc → dM val) (K : val → dM val) acc p s l ct d es e :
  LS acc p s → let m := d_alloc opt (x :: stk) l ct in
  Prest (dbind (dbind m F) K) p → dbind (dbind m F) K p = Some (vfin, pfin) →
  shape e ∈ Hsh → shape e = (l, Allocate, d) →
  (∀ cln s, dep_clean cln d l s = (OVal true, s)) ∨ d = DAllocStruct →
  (valid (table s) (frames (stack s)) (l, Allocate, d) → d_store p !! l = Some ct) →
  (∀ p' s', LS (acc ++ [shape e]) p' s' → Prest (dbind (F l) K) p' → dbind (F l) K p' = Some (vfin, pfin) →
     wp (λ k, clean_comp (produce k) (clean k) t w x wc es) s' Q) →
  wp (λ k, clean_comp (produce k) (clean k) t w x wc (e :: es)) s Q.
Proof.
  intros HL m HP Hr He Hse Hd Hct Hcont.
  assert (s_loc e = l ∧ s_eff e = Allocate ∧ s_dep e = d) as (El & Ee & Ed) by by injection Hse.
  assert (HR := ls_R _ _ _ HL).
  eapply edge_step; [done|apply d_alloc_idem|apply d_alloc_pres|exact HP|exact Hr|done| | |exact Hcont].
  - intros a p' Hm Hb. assert (Hv := LS_bit_valid _ _ _ _ HL He Hb). rewrite Hse in Hv.
    destruct (quiet_alloc opt md0 r0 x stk p s l ct a p' HR (Hct Hv) Hm) as (-> & Hq & Hs).
    split_and!; try done. by rewrite Hse.
  - intros a p' Hm Hle Hb ev. rewrite Ed, El.
    assert (HLe := LS_ev _ _ _ ev HL). destruct (ls_node _ _ _ HLe) as (cx & Hcx & _ & Hsha & _).
    destruct Hd as [Hd| ->].
    + eapply wp_val with (a := true); [intros k; apply Hd|]. split; [done|].
      exists cx, p. split; [by left|]. split; [done|]. split; [done|]. split; [by eapply (LS_dirty acc p (add_ev ev s) cx e)|].
      right. rewrite Hse. split; [done|]. unfold sh_loc. simpl. by rewrite <- Ee, <- El.
    + eapply wp_val with (a := false); [intros k; done|]. split; [done|].
      assert (d_store p !! l = Some ct) as Hct' by by apply Hct.
      destruct (quiet_alloc opt md0 r0 x stk p (add_ev ev s) l ct a p' (ls_R _ _ _ HLe) Hct' Hm) as (-> & [_ Hq] & Hs).
      split; [done|]. split; [by eapply LS_quiet|]. split; [|by rewrite Hse].
      intros h' Hh' E1 E2. rewrite Hse in E1, E2.
      assert (Hw := LS_wfe _ _ _ _ HL He). rewrite Hse in Hw. destruct Hw as (_ & Hst & c & Hc).
      split; [|intros _; rewrite Hse; exact Hst].
      assert (Hw' := LS_wfe _ _ _ _ HL Hh').
      unfold wfe in Hw'. unfold valid. unfold sh_eff, sh_loc in *. simpl in *. rewrite E2 in *.
      destruct (sh_dep h'); try done.
      * destruct Hw' as [? _]. congruence.
      * destruct Hw' as [? _]. congruence.
      * destruct Hw' as (_ & ? & _). congruence.
      * destruct Hw' as (_ & t1 & ps1 & v1 & Hw'). congruence.
Qed.

(** Projections of anything but a tracked cell are forces. *)
Lemma map_force_eq abs md t' y f p : tracked opt y = false ∨ (∃ t0 pp0 arg0 spur0, d_store p !! y = Some (CThunk t0 pp0 arg0 spur0)) →
  d_force_map opt (frc md) abs (x :: stk) t' y f p = dbind (frc md t' y) (λ v q, Some (f v, q)) p.
Proof.
  intros Hy. unfold d_force_map, dbind. destruct (d_store p !! y) as [[t0 v0|t0 pp0 arg0 spur0]|] eqn:E.
  - destruct Hy as [->|(? & ? & ? & ? & ?)]; [|done]. case_decide as Ht; [done|].
    destruct n; simpl; rewrite E; by rewrite decide_False.
  - done.
  - destruct n; simpl; by rewrite E.
Qed.
Lemma map_force_run abs pth md t' y f (k : val → comp) (K : val → dM val) acc p s nd m :
  LS acc p s → table s !! y = Some nd → (∀ t ps v, nd ≠ NMut t ps v) →
  m = dbind (drun pth md (if abs : bool then ForceAbs t' (ALoc y) f k else ForceMap t' (ALoc y) f k)) K →
  Prest m p → m p = Some (vfin, pfin) →
  let m' := dbind (drun pth md (Force t' (ALoc y) None (λ w, k (f w)))) K in
  Prest m' p ∧ m' p = Some (vfin, pfin).
Proof.
  intros HL Hy Hnd -> HP Hr m'.
  assert (Heq : ∀ p2, kinds p p2 → dbind (drun pth md (if abs : bool then ForceAbs t' (ALoc y) f k else ForceMap t' (ALoc y) f k)) K p2 = m' p2).
  { intros p2 Hk. unfold m'. cbn [Discipline.d_run d_art].
    transitivity (dbind (dbind (d_force_map opt (frc md) abs (x :: stk) t' y f) (λ v, drun pth md (k v))) K p2); [by destruct abs|].
    assert (tracked opt y = false ∨ (∃ t0 pp0 arg0 spur0, d_store p2 !! y = Some (CThunk t0 pp0 arg0 spur0))) as Hy2.
    { destruct nd as [t0 ps v0|t0 v0|c]; [by destruct (Hnd t0 ps v0)| |].
      - left. destruct (i_kind _ _ _ _ (R_inv _ _ _ _ _ _ (ls_R _ _ _ HL)) _ _ Hy) as [Ho Hs].
        unfold tracked. by rewrite Ho, Hs.
      - right. eapply Hk. apply (node_store _ _ _ _ _ _ _ _ (ls_R _ _ _ HL) Hy). }
    unfold dbind at 1 2. rewrite (map_force_eq _ _ _ _ _ _ Hy2). unfold dbind. by destruct (frc md t' y p2) as [[]|]. }
  split.
  - intros p2 Hle Hk. rewrite (HP p2) by done. apply Heq. intros z t0 pp0 arg0 spur0 Hz. by eapply Hk.
  - rewrite <- Heq; [done|by apply kinds_refl].
Qed.

(** ** The whole loop *)
Lemma clean_loop pth md acc c E v0 : tr (table s0) pth md acc c E v0 →
  ∀ (K : val → dM val) esE es p s, shape <$> esE = E → (∀ h, h ∈ E → h ∈ Hsh) → LS acc p s →
  Prest (dbind (drun pth md c) K) p → dbind (drun pth md c) K p = Some (vfin, pfin) →
  (∀ p' s', LS (acc ++ E) p' s' → Prest (K v0) p' → K v0 p' = Some (vfin, pfin) →
     wp (λ k, clean_comp (produce k) (clean k) t w x wc es) s' Q) →
  wp (λ k, clean_comp (produce k) (clean k) t w x wc (esE ++ es)) s Q.
Proof.
  intros Ht.
  induction Ht as [pth md acc v|pth md acc t' w' cyc k E v Ht IH|pth md acc t' w' f k E v Ht IH|pth md acc t' w' f k E v Ht IH
    |pth md acc t' y w' cyc k E v Hin Ht IH|pth md acc t' y w' cyc k E v Hy Ht IH|pth md acc t' y c w' cyc k E v Ho Hs Hy Hty Hw Ht IH
    |pth md acc t' y w' cyc k E v Ht IH|pth md acc t' y f w' k E v Ht IH|pth md acc t' y f nd k E v Hy Hnd Ht IH|pth md acc t' y f nd k E v Hy Hnd Ht IH
    |pth md acc t' nm w' ps w0 l k E v Hl Hy Ht IH|pth md acc t' nm w' l k E v Hl Hy Ht IH
    |pth acc t' nm pp' arg' spur' c l k E v Hl Hy Hty Hpp Hsp Ht IH
    |pth md acc t' nc pp' arg' spur' c l k E v Hnc Hl Hy Hty Hpp Harg Hsp Ht IH
    |pth md acc t' nc pp' arg' spur' c l k E v Hnc Hl Hy Hty Hpp Harg Hsp Ht IH
    |pth md acc nm b k E1 v1 E2 v Ht1 IH1 Ht2 IH2|pth md acc b k E1 v1 E2 v Ht1 IH1 Ht2 IH2];
    intros K esE es p s HesE Hsub HL HP Hr Hcont;
    assert (HR := ls_R _ _ _ HL); assert (Hfacts := ev_facts _ _ _ _ _ (ls_evo _ _ _ HL)).
  - apply fmap_nil_inv in HesE as ->. simpl. rewrite app_nil_r in Hcont. apply (Hcont p s); done.
  - by apply (IH K esE es p).
  - by apply (IH K esE es p).
  - by apply (IH K esE es p).
  - (* dup *)
    eapply (silent_step (frc md t' y) (λ v, drun pth md (k v)) K acc p s w'); [done|apply d_force_idem|apply d_force_pres|done|done| |].
    { intros a p' Hm. destruct (quiet_force opt md0 n r0 x stk p s y t' w' md t' a p') as (-> & ? & _); try done.
      - intros n' ->. apply replay.
      - by eapply LS_valid. }
    intros p' HL' HP' Hr'. by apply (IH K esE es p').
  - eapply (silent_step (frc md t' y) (λ v, drun pth md (k v)) K acc p s w'); [done|apply d_force_idem|apply d_force_pres|done|done| |].
    { intros a p' Hm. eapply quiet_force_pure; [done| |exact Hm]. by eapply facts_pure. }
    intros p' HL' HP' Hr'. by apply (IH K esE es p').
  - eapply (silent_step (frc md t' y) (λ v, drun pth md (k v)) K acc p s w'); [done|apply d_force_idem|apply d_force_pres|done|done| |].
    { intros a p' Hm. destruct (facts_comp _ _ _ _ _ Hfacts Hy) as (c' & Hc' & _ & _ & _ & Hx).
      destruct Hx as [_ Hx]; [done|]. specialize (Hx Ho _ Hw).
      destruct (struct_clean _ _ _ _ _ _ _ _ _ HR Ho Hs Hc' Hx).
      destruct (quiet_force_comp opt md0 n r0 x stk p s y c' w' md t' a p') as (-> & ? & _); try done.
      intros n' ->. apply replay. }
    intros p' HL' HP' Hr'. by apply (IH K esE es p').
  - (* force *)
    apply fmap_cons_inv in HesE as (e & esE' & Hse & HE & ->). simpl.
    eapply (edge_force (λ v, drun pth md (k v)) K acc p s md t' y w'); [done|done|done| |done|].
    { rewrite <- Hse. apply Hsub. by left. }
    rewrite <- Hse. intros p' s' HL' HP' Hr'. apply (IH K esE' es p'); try done.
    + intros h Hh. apply Hsub. by right.
    + intros p2 s2. rewrite <- (assoc_L (++)). apply Hcont.
  - (* force_map *)
    apply fmap_cons_inv in HesE as (e & esE' & Hse & HE & ->). simpl.
    eapply (edge_map (λ v, drun pth md (k v)) K acc p s md t' y f w'); [done|done|done| |done|].
    { rewrite <- Hse. apply Hsub. by left. }
    rewrite <- Hse. intros p' s' HL' HP' Hr'. apply (IH K esE' es p'); try done.
    + intros h Hh. apply Hsub. by right.
    + intros p2 s2. rewrite <- (assoc_L (++)). apply Hcont.
  - (* force_map of something else *)
    destruct (Hfacts _ _ Hy) as (nd' & Hy' & Hnn).
    assert (∀ t ps v, nd' ≠ NMut t ps v) as Hnd'. { intros ? ? ? ->. destruct nd; simpl in Hnn; naive_solver. }
    destruct (map_force_run false pth md t' y f k K acc p s nd' _ HL Hy' Hnd' eq_refl HP Hr) as [HP' Hr'].
    by apply (IH K esE es p).
  - destruct (Hfacts _ _ Hy) as (nd' & Hy' & Hnn).
    assert (∀ t ps v, nd' ≠ NMut t ps v) as Hnd'. { intros ? ? ? ->. destruct nd; simpl in Hnn; naive_solver. }
    destruct (map_force_run true pth md t' y f k K acc p s nd' _ HL Hy' Hnd' eq_refl HP Hr) as [HP' Hr'].
    by apply (IH K esE es p).
  - (* cell *)
    apply fmap_cons_inv in HesE as (e & esE' & Hse & HE & ->). simpl.
    destruct (LS_mut _ _ _ _ _ _ _ HL Hy) as (ps' & v' & Hy').
    eapply (edge_alloc (λ l, drun pth md (k l)) K acc p s l (CCell t' w') (DAllocCell w')); [done| | | |done|by left| |].
    { cbn [Discipline.d_run] in HP. unfold d_cell in HP. rewrite <- Hl in HP. exact HP. }
    { cbn [Discipline.d_run] in Hr. unfold d_cell in Hr. rewrite <- Hl in Hr. exact Hr. }
    { rewrite <- Hse. apply Hsub. by left. }
    { unfold valid, sh_loc, sh_dep, fst, snd. rewrite Hy'. intros ->. apply (node_store _ _ _ _ _ _ _ _ HR Hy'). }
    rewrite <- Hse. intros p' s' HL' HP' Hr'. apply (IH K esE' es p'); try done.
    + intros h Hh. apply Hsub. by right.
    + intros p2 s2. rewrite <- (assoc_L (++)). apply Hcont.
  - (* untracked cell *)
    assert (Hy' := facts_pure _ _ _ _ _ _ Hfacts Hy).
    eapply (silent_step (d_alloc opt (x :: stk) l (CCell t' w')) (λ v, drun pth md (k v)) K acc p s l); [done|apply d_alloc_idem|apply d_alloc_pres| | | |].
    { cbn [Discipline.d_run] in HP. unfold d_cell in HP. rewrite <- Hl in HP. exact HP. }
    { cbn [Discipline.d_run] in Hr. unfold d_cell in Hr. rewrite <- Hl in Hr. exact Hr. }
    { intros a p' Hm. destruct (quiet_alloc opt md0 r0 x stk p s l _ a p' HR (node_store _ _ _ _ _ _ _ _ HR Hy') Hm) as (-> & ? & _). done. }
    intros p' HL' HP' Hr'. by apply (IH K esE es p').
  - (* nominal thunk *)
    apply fmap_cons_inv in HesE as (e & esE' & Hse & HE & ->). simpl.
    destruct (facts_comp _ _ _ _ _ Hfacts Hy) as (c' & Hc' & Et & Ep & Es & _).
    eapply (edge_alloc (λ l, drun pth false (k l)) K acc p s l (CThunk t' pp' arg' spur') (DAllocThunk arg')); [done| | | |done|by left| |].
    { cbn [Discipline.d_run] in HP. unfold d_thunk in HP. rewrite <- Hl in HP. exact HP. }
    { cbn [Discipline.d_run] in Hr. unfold d_thunk in Hr. rewrite <- Hl in Hr. exact Hr. }
    { rewrite <- Hse. apply Hsub. by left. }
    { unfold valid, sh_loc, sh_dep, fst, snd. rewrite Hc'. intros <-.
      rewrite (node_store _ _ _ _ _ _ _ _ HR Hc'). simpl. congruence. }
    rewrite <- Hse. intros p' s' HL' HP' Hr'. apply (IH K esE' es p'); try done.
    + intros h Hh. apply Hsub. by right.
    + intros p2 s2. rewrite <- (assoc_L (++)). apply Hcont.
  - (* structural thunk, no edge *)
    destruct (facts_comp _ _ _ _ _ Hfacts Hy) as (c' & Hc' & Et & Ep & Es & Ea). destruct Ea as [Ea _]; [by rewrite Hl|].
    assert (∀ q, d_thunk opt (x :: stk) pth md t' nc pp' arg' spur' q = d_alloc opt (x :: stk) l (CThunk t' pp' arg' spur') q) as Hdt.
    { rewrite Hl. destruct Hnc as [->|[-> [nm ->]]]; done. }
    eapply (silent_step (d_alloc opt (x :: stk) l (CThunk t' pp' arg' spur')) (λ v, drun pth md (k v)) K acc p s l); [done|apply d_alloc_idem|apply d_alloc_pres| | | |].
    { eapply Prest_ext, HP. intros q. cbn [Discipline.d_run]. unfold dbind. by rewrite Hdt. }
    { rewrite <- Hr. cbn [Discipline.d_run]. unfold dbind. by rewrite Hdt. }
    { intros a p' Hm. destruct (quiet_alloc opt md0 r0 x stk p s l (CThunk t' pp' arg' spur') a p' HR) as (-> & ? & _); [|done|done].
      rewrite (node_store _ _ _ _ _ _ _ _ HR Hc'). simpl. congruence. }
    intros p' HL' HP' Hr'. by apply (IH K esE es p').
  - (* structural thunk, edge *)
    apply fmap_cons_inv in HesE as (e & esE' & Hse & HE & ->). simpl.
    destruct (facts_comp _ _ _ _ _ Hfacts Hy) as (c' & Hc' & Et & Ep & Es & Ea). destruct Ea as [Ea _]; [by rewrite Hl|].
    assert (∀ q, d_thunk opt (x :: stk) pth md t' nc pp' arg' spur' q = d_alloc opt (x :: stk) l (CThunk t' pp' arg' spur') q) as Hdt.
    { rewrite Hl. destruct Hnc as [->|[-> [nm ->]]]; done. }
    eapply (edge_alloc (λ l, drun pth md (k l)) K acc p s l (CThunk t' pp' arg' spur') DAllocStruct); [done| | | |done|by right| |].
    { eapply Prest_ext, HP. intros q. cbn [Discipline.d_run]. unfold dbind. by rewrite Hdt. }
    { rewrite <- Hr. cbn [Discipline.d_run]. unfold dbind. by rewrite Hdt. }
    { rewrite <- Hse. apply Hsub. by left. }
    { intros _. rewrite (node_store _ _ _ _ _ _ _ _ HR Hc'). simpl. congruence. }
    rewrite <- Hse. intros p' s' HL' HP' Hr'. apply (IH K esE' es p'); try done.
    + intros h Hh. apply Hsub. by right.
    + intros p2 s2. rewrite <- (assoc_L (++)). apply Hcont.
  - (* ns *)
    apply fmap_app_inv in HesE as (esE1 & esE2 & HE1 & HE2 & ->). rewrite <- (assoc_L (++)).
    apply (IH1 (λ v, dbind (drun pth md (k v)) K) esE1 (esE2 ++ es) p s); try done.
    { intros h Hh. apply Hsub. set_solver. }
    { eapply Prest_ext, HP. intros q. cbn [Discipline.d_run]. apply dbind_assoc. }
    { rewrite <- Hr. cbn [Discipline.d_run]. by rewrite dbind_assoc. }
    intros p' s' HL' HP' Hr'. apply (IH2 K esE2 es p' s'); try done.
    { intros h Hh. apply Hsub. set_solver. }
    intros p2 s2. rewrite <- (assoc_L (++)). apply Hcont.
  - (* structural *)
    apply fmap_app_inv in HesE as (esE1 & esE2 & HE1 & HE2 & ->). rewrite <- (assoc_L (++)).
    apply (IH1 (λ v, dbind (drun pth md (k v)) K) esE1 (esE2 ++ es) p s); try done.
    { intros h Hh. apply Hsub. set_solver. }
    { eapply Prest_ext, HP. intros q. cbn [Discipline.d_run]. apply dbind_assoc. }
    { rewrite <- Hr. cbn [Discipline.d_run]. by rewrite dbind_assoc. }
    intros p' s' HL' HP' Hr'. apply (IH2 K esE2 es p' s'); try done.
    { intros h Hh. apply Hsub. set_solver. }
    intros p2 s2. rewrite <- (assoc_L (++)). apply Hcont.
Qed.

End Loop.

Lemma SC_step n : SP n → (∀ n', n = S n' → SC n') → SC n.
Proof.
  intros HSP HSC r0 stk x t c p v p1 s w HR Hc Ht Hnk Hmd Hrun.
  assert (Hst := node_store _ _ _ _ _ _ _ _ HR Hc). simpl in Hst.
  assert (x ∉ frames (stack s)) as Hnf. { intros Hf. by apply Hnk, (R_sub _ _ _ _ _ _ HR). }
  assert (HRe : R r0 (x :: stk) (d_enter x p) s) by (apply R_enter; eauto).
  assert (Hle := d_enter_le x p).
  apply wp_S. cbn [wclean]. unfold clean_body.
  eapply wp_det; [by apply res_node_eq|]. cbv beta iota.
  destruct (c_res c) as [wc|] eqn:Hres.
  - assert (Htr := i_tr _ _ _ _ (R_inv _ _ _ _ _ _ HR) _ _ _ Hc Hnf Hres).
    eapply wp_mono; [|rewrite <- (app_nil_r (c_succs c));
      eapply (clean_loop n HSP HSC r0 stk x t (c_pp c) (c_arg c) (c_spur c) w wc
       (shape <$> c_succs c) (d_enter x p) s v p1) with (K := λ v p, Some (v, p)) (p := d_enter x p); [..|exact Htr|done| | | | |]]; try done.
    + intros ch s' [-> Htp]. split; [done|]. by eapply thunk_post_weaken.
    + simpl. set_solver.
    + simpl. by rewrite Hst, Ht.
    + split; try done; [|by intros h ?%elem_of_nil..|apply evo_refl].
      exists c. split_and!; try done. by intros h ?%elem_of_nil.
    + intros p2 Hle2 Hk. unfold dbind. change (fresh_fr p2) with (with_fr p2 (d_enter x p)).
      destruct (Discipline.d_run _ _ _ _ _ _ (with_fr p2 (d_enter x p))) as [[? ?]|]; done.
    + unfold dbind. by rewrite Hrun.
    + simpl. intros p' s' HL' _ [= -> ->]. 
      eapply wp_val; [intros k; done|]. destruct (ls_node _ _ _ _ _ _ _ _ _ _ HL') as (c' & Hc' & Hres' & Hsh' & Hb').
      split; [apply bool_decide_ext; naive_solver|].
      assert (all_clean (c_succs c')) as Hac.
      { intros e He. apply (Hb' (shape e)). rewrite <- Hsh'. by apply elem_of_list_fmap_1. }
      destruct HL'. split; try done.
      * intros p2 E1 E2 E3. eapply R_done_add; [done..| | |done|done|done].
        -- intros e He. apply ls_prot0. rewrite <- Hsh'. by apply elem_of_list_fmap_1.
        -- by rewrite ls_stack0.
      * exists c'. split_and!; try done. destruct (facts_comp _ _ _ _ _ (ev_facts _ _ _ _ _ ls_evo0) Hc) as (c'' & ? & ? & _). congruence.
  - eapply wp_det; [done|]. apply wp_bind.
    eapply wp_mono; [|eapply (HSP r0 stk x t c (d_enter x p) v p1)]; try done.
    + intros r s' [-> Htp]. simpl in Htp. eapply wp_det; [done|]. eapply wp_val; [done|].
      split; [apply bool_decide_ext; naive_solver|]. apply thunk_post_ev. by eapply thunk_post_weaken, thunk_post_ev'.
    + by eapply R_cong; [..|exact HRe].
    + by left.
    + by eapply (why_miss r0 (x :: stk) (d_enter x p) s x c).
Qed.
End Sim.
