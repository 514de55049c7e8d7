(** * Edges, dirty bits and the dirtying traversal. *)
From Verif Require Export SpecFacts.

(** ** Edges up to their dirty bit *)
Definition eshape : Type := loc * effect * dep.
Definition shape (e : succ) : eshape := (s_loc e, s_eff e, s_dep e).
Definition sh_loc (h : eshape) : loc := h.1.1.
Definition sh_eff (h : eshape) : effect := h.1.2.
Definition sh_dep (h : eshape) : dep := h.2.

(** The dirty bit the engine uses for an effect and a target: the one of the first such edge. *)
Definition bit (eff : effect) (tgt : loc) (es : list succ) : option bool :=
  s_dirty <$> find_succ eff tgt es.
(** The bit as seen from a location of the graph. *)
Definition nbit (s : dcg) (q : loc) (eff : effect) (tgt : loc) : option bool :=
  match table s !! q with Some (NComp c) => bit eff tgt (c_succs c) | _ => None end.

Definition all_clean (es : list succ) : Prop :=
  ∀ e, e ∈ es → bit (s_eff e) (s_loc e) es = Some false.

Lemma find_succ_Some eff tgt es e :
  find_succ eff tgt es = Some e → e ∈ es ∧ s_eff e = eff ∧ s_loc e = tgt.
Proof.
  induction es as [|e' es IH]; simpl; [done|].
  destruct (decide _) as [[? ?]|].
  - intros [= ->]. split; [left|done].
  - intros (? & ? & ?)%IH. split; [by right|done].
Qed.
Lemma find_succ_elem e es : e ∈ es → ∃ e', find_succ (s_eff e) (s_loc e) es = Some e'.
Proof.
  induction es as [|e' es IH]; [by intros ?%elem_of_nil|].
  intros [->|Hin]%elem_of_cons; simpl.
  - rewrite decide_True by done. eauto.
  - destruct (decide _); eauto.
Qed.
Lemma find_succ_shapes eff tgt (es es' : list succ) :
  shape <$> es = shape <$> es' →
  (∃ e, find_succ eff tgt es = Some e) → ∃ e, find_succ eff tgt es' = Some e.
Proof.
  revert es'. induction es as [|e es IH]; intros es' Heq [e0 He0]; [done|].
  destruct es' as [|e' es']; [done|]. simpl in *. injection Heq as H1 H2 H3 H4.
  rewrite <- H1, <- H2. destruct (decide _); eauto.
Qed.
Lemma bit_elem e es : e ∈ es → ∃ b, bit (s_eff e) (s_loc e) es = Some b.
Proof. intros [e' He']%find_succ_elem. exists (s_dirty e'). unfold bit. by rewrite He'. Qed.
Lemma bit_Some eff tgt es b : bit eff tgt es = Some b → ∃ e, e ∈ es ∧ s_eff e = eff ∧ s_loc e = tgt.
Proof.
  unfold bit. destruct (find_succ eff tgt es) as [e|] eqn:E; [|done].
  intros _. exists e. by apply find_succ_Some.
Qed.
Lemma bit_dec eff tgt es : bit eff tgt es = None ∨ bit eff tgt es = Some true ∨ bit eff tgt es = Some false.
Proof. destruct (bit eff tgt es) as [[]|]; auto. Qed.

Lemma mark_succ_shapes b eff tgt es : shape <$> mark_succ b eff tgt es = shape <$> es.
Proof.
  induction es as [|e es IH]; csimpl; [done|]. destruct (decide _); csimpl; [done|]. by rewrite IH.
Qed.
Lemma bit_mark_same b eff tgt es :
  is_Some (bit eff tgt es) → bit eff tgt (mark_succ b eff tgt es) = Some b.
Proof.
  unfold bit. induction es as [|e es IH]; simpl; [by intros [? ?]|].
  destruct (decide _) as [[? ?]|]; simpl.
  - intros _. by rewrite decide_True.
  - intros Hs. rewrite decide_False by done. by apply IH.
Qed.
Lemma bit_mark_other b eff tgt eff' tgt' es :
  (eff', tgt') ≠ (eff, tgt) → bit eff' tgt' (mark_succ b eff tgt es) = bit eff' tgt' es.
Proof.
  intros Hne. unfold bit. induction es as [|e es IH]; simpl; [done|].
  destruct (decide (s_eff e = eff ∧ _)) as [[<- <-]|]; simpl.
  - rewrite !(decide_False (P := s_eff e = eff' ∧ s_loc e = tgt')); naive_solver.
  - destruct (decide _); [done|]. done.
Qed.
Lemma shapes_elem (es es' : list succ) e :
  shape <$> es = shape <$> es' → e ∈ es → ∃ e', e' ∈ es' ∧ shape e' = shape e.
Proof.
  intros Heq He. assert (shape e ∈ shape <$> es') as Hin.
  { rewrite <- Heq. by apply elem_of_list_fmap_1. }
  apply elem_of_list_fmap in Hin as (e' & ? & ?). eauto.
Qed.
Lemma bit_shapes eff tgt (es es' : list succ) :
  shape <$> es = shape <$> es' → is_Some (bit eff tgt es) → is_Some (bit eff tgt es').
Proof.
  intros Heq [b Hb]. unfold bit in *. destruct (find_succ eff tgt es) eqn:E; [|done].
  destruct (find_succ_shapes eff tgt es es' Heq) as [e' He']; [eauto|]. rewrite He'. simpl. eauto.
Qed.

(** ** Predecessors *)
Definition node_preds (nd : node) : list pred :=
  match nd with NMut _ ps _ => ps | NComp c => c_preds c | NPure _ _ => [] end.
Definition node_tracked (nd : node) : Prop := match nd with NPure _ _ => False | _ => True end.

(** The [dep] recorded in the predecessor entry of an edge. *)
Definition pdep (d : dep) : option dep :=
  match d with DForceMap _ _ _ => Some d | DForceAbs => Some d | _ => None end.

(** Is an observing predecessor to be dirtied, according to its projection? *)
Definition pred_hot (nd : node) (pr : pred) : Prop :=
  match nd, p_dep pr with
  | NMut _ _ v, Some (DForceMap _ f w) => w ≠ f v
  | _, _ => True
  end.

(** The part of well-formedness dirtying relies on; insensitive to dirty bits. *)
Record Struc (s : dcg) : Prop := {
  st_pred : ∀ l nd pr, table s !! l = Some nd → pr ∈ node_preds nd →
     ∃ c e, table s !! p_loc pr = Some (NComp c) ∧ e ∈ c_succs c ∧ s_loc e = l ∧ s_eff e = p_eff pr;
  st_noself : ∀ l nd pr, table s !! l = Some nd → pr ∈ node_preds nd → p_loc pr ≠ l;
  st_dep : ∀ l t ps v pr, table s !! l = Some (NMut t ps v) → pr ∈ ps →
     p_dep pr = None ∨ ∃ f w, p_dep pr = Some (DForceMap t f w);
}.

(** ** States that differ only in dirty bits, some of which may have been raised *)
Definition succs_le (es es' : list succ) : Prop :=
  shape <$> es' = shape <$> es ∧ ∀ eff tgt, bit eff tgt es = Some true → bit eff tgt es' = Some true.
Definition node_le (nd nd' : node) : Prop :=
  match nd, nd' with
  | NComp c, NComp c' => c' = with_succs (c_succs c') c ∧ succs_le (c_succs c) (c_succs c')
  | _, _ => nd = nd'
  end.
Record bits_le (s s' : dcg) : Prop := {
  bl_node : ∀ l nd, table s !! l = Some nd → ∃ nd', table s' !! l = Some nd' ∧ node_le nd nd';
  bl_node' : ∀ l nd', table s' !! l = Some nd' → ∃ nd, table s !! l = Some nd ∧ node_le nd nd';
  bl_stack : stack s' = stack s;
  bl_cpath : cpath s' = cpath s;
  bl_structf : structf s' = structf s;
  bl_purity : purity s' = purity s;
  bl_runs : runs s' = runs s;
}.

Lemma succs_le_refl es : succs_le es es.
Proof. done. Qed.
Lemma succs_le_trans es1 es2 es3 : succs_le es1 es2 → succs_le es2 es3 → succs_le es1 es3.
Proof. intros [H1 B1] [H2 B2]. split; [congruence|auto]. Qed.
Lemma node_le_refl nd : node_le nd nd.
Proof. destruct nd; simpl; [done..|]. split; [by destruct c|done]. Qed.
Lemma node_le_trans n1 n2 n3 : node_le n1 n2 → node_le n2 n3 → node_le n1 n3.
Proof.
  destruct n1 as [| |c1], n2 as [| |c2], n3 as [| |c3]; simpl; try congruence.
  intros [E1 L1] [E2 L2]. split; [|by eapply succs_le_trans]. rewrite E2, E1. done.
Qed.
Global Instance bits_le_refl : Reflexive bits_le.
Proof. intros s. split; try done; intros l nd Hl; exists nd; (split; [done|apply node_le_refl]). Qed.
Lemma bits_le_trans s1 s2 s3 : bits_le s1 s2 → bits_le s2 s3 → bits_le s1 s3.
Proof.
  intros [] []. split; try congruence.
  - intros l nd Hl. destruct (bl_node0 _ _ Hl) as (nd2 & Hl2 & ?).
    destruct (bl_node1 _ _ Hl2) as (nd3 & Hl3 & ?). exists nd3. split; [done|]. by eapply node_le_trans.
  - intros l nd Hl. destruct (bl_node'1 _ _ Hl) as (nd2 & Hl2 & ?).
    destruct (bl_node'0 _ _ Hl2) as (nd3 & Hl3 & ?). exists nd3. split; [done|]. by eapply node_le_trans.
Qed.

Lemma bits_le_add_ev e s : bits_le s (add_ev e s).
Proof. split; try done; intros l nd Hl; exists nd; (split; [done|apply node_le_refl]). Qed.

Lemma node_le_preds nd nd' : node_le nd nd' → node_preds nd' = node_preds nd.
Proof.
  destruct nd as [| |c], nd' as [| |c']; simpl; try done; [by intros [= -> -> ->]|]. by intros [-> _].
Qed.
Lemma node_le_tracked nd nd' : node_le nd nd' → node_tracked nd → node_tracked nd'.
Proof. by destruct nd, nd'. Qed.
Lemma node_le_hot nd nd' pr : node_le nd nd' → pred_hot nd pr ↔ pred_hot nd' pr.
Proof.
  destruct nd as [t ps v| |c], nd' as [t' ps' v'| |c']; simpl; unfold pred_hot; try naive_solver.
Qed.
Lemma node_le_mut t ps v nd' : node_le (NMut t ps v) nd' → nd' = NMut t ps v.
Proof. by destruct nd'. Qed.
Lemma node_le_mut' t ps v nd : node_le nd (NMut t ps v) → nd = NMut t ps v.
Proof. by destruct nd. Qed.
Lemma node_le_comp c nd' : node_le (NComp c) nd' →
  ∃ c', nd' = NComp c' ∧ c' = with_succs (c_succs c') c ∧ succs_le (c_succs c) (c_succs c').
Proof. destruct nd'; simpl; [done..|]. intros [? ?]. eauto. Qed.
Lemma node_le_comp' c' nd : node_le nd (NComp c') →
  ∃ c, nd = NComp c ∧ c' = with_succs (c_succs c') c ∧ succs_le (c_succs c) (c_succs c').
Proof. destruct nd; simpl; [done..|]. intros [? ?]. eauto. Qed.

Lemma nbit_le s s' q eff tgt : bits_le s s' → nbit s q eff tgt = Some true → nbit s' q eff tgt = Some true.
Proof.
  intros Hle. unfold nbit. destruct (table s !! q) as [nd|] eqn:E; [|done].
  destruct (bl_node _ _ Hle _ _ E) as (nd' & -> & Hn).
  destruct nd as [| |c]; [done..|]. apply node_le_comp in Hn as (c' & -> & _ & _ & Hb). apply Hb.
Qed.
Lemma nbit_le_Some s s' q eff tgt : bits_le s s' → is_Some (nbit s q eff tgt) → is_Some (nbit s' q eff tgt).
Proof.
  intros Hle. unfold nbit. destruct (table s !! q) as [nd|] eqn:E; [|by intros [? ?]].
  destruct (bl_node _ _ Hle _ _ E) as (nd' & -> & Hn).
  destruct nd as [| |c]; [by intros [? ?]..|].
  apply node_le_comp in Hn as (c' & -> & _ & Hs & _). by apply bit_shapes.
Qed.

Lemma Struc_le s s' : bits_le s s' → Struc s → Struc s'.
Proof.
  intros Hle [Hp Hn Hd]. split.
  - intros l nd' pr Hl Hpr. destruct (bl_node' _ _ Hle _ _ Hl) as (nd & Hl0 & Hnle).
    rewrite (node_le_preds _ _ Hnle) in Hpr.
    destruct (Hp _ _ _ Hl0 Hpr) as (c & e & Hc & He & <- & Heff).
    destruct (bl_node _ _ Hle _ _ Hc) as (ndc & Hc' & Hcle).
    apply node_le_comp in Hcle as (c' & -> & _ & Hs & _).
    destruct (shapes_elem _ _ e (eq_sym Hs) He) as (e' & He' & Hsh).
    injection Hsh as E1 E2 E3. exists c', e'. by rewrite E1, E2.
  - intros l nd' pr Hl Hpr. destruct (bl_node' _ _ Hle _ _ Hl) as (nd & Hl0 & Hnle).
    rewrite (node_le_preds _ _ Hnle) in Hpr. by eapply Hn.
  - intros l t ps v pr Hl Hpr. destruct (bl_node' _ _ Hle _ _ Hl) as (nd & Hl0 & Hnle).
    apply node_le_mut' in Hnle as ->. by eapply Hd.
Qed.

(** ** Counting clean edges *)
Definition total_clean (m : gmap loc node) : nat := map_fold (λ _ nd n, node_clean_count nd + n)%nat O m.

Lemma total_clean_insert m l nd nd' :
  m !! l = Some nd →
  (total_clean (<[l := nd']> m) + node_clean_count nd = total_clean m + node_clean_count nd')%nat.
Proof.
  intros Hl. unfold total_clean.
  rewrite <- (insert_delete_insert m l nd').
  rewrite <- (insert_delete m l nd Hl) at 2.
  rewrite !map_fold_insert_L; try (by apply lookup_delete); try (intros; lia).
Qed.
Lemma clean_count_mark eff tgt es :
  bit eff tgt es = Some false → clean_count es = S (clean_count (mark_succ true eff tgt es)).
Proof.
  unfold bit, clean_count. induction es as [|e es IH]; simpl; [done|].
  destruct (decide _); simpl.
  - intros [= Hb]. rewrite filter_cons_True by done. rewrite filter_cons_False by done. done.
  - intros Hb. rewrite !filter_cons. destruct (decide _); simpl; [f_equal|]; by apply IH.
Qed.

(** ** Dirtying *)
Definition obs_dirty (s : dcg) (q : loc) : Prop := ∀ nd pr,
  table s !! q = Some nd → pr ∈ node_preds nd → p_eff pr = Observe → nbit s (p_loc pr) Observe q = Some true.
Definition newly (s s' : dcg) (q : loc) (eff : effect) (tgt : loc) : Prop :=
  nbit s q eff tgt ≠ Some true ∧ nbit s' q eff tgt = Some true.
(** Sets of locations closed under "observes". *)
Definition obs_closed (s : dcg) (X : loc → Prop) : Prop := ∀ y nd pr,
  table s !! y = Some nd → pr ∈ node_preds nd → p_eff pr = Observe → X (p_loc pr) → X y.

Record dirty_post (s s' : dcg) (l : loc) : Prop := {
  dp_le : bits_le s s';
  dp_count : (total_clean (table s') ≤ total_clean (table s))%nat;
  dp_up : ∀ q eff tgt, newly s s' q eff tgt → obs_dirty s' q;
  dp_safe : ∀ X, obs_closed s X → ¬ X l →
      ∀ q eff tgt, newly s s' q eff tgt → eff = Observe ∧ ¬ X tgt ∧ ¬ X q;
}.

Lemma obs_dirty_le s s' q : bits_le s s' → obs_dirty s q → obs_dirty s' q.
Proof.
  intros Hle Ho nd' pr Hq Hpr Hef. destruct (bl_node' _ _ Hle _ _ Hq) as (nd & Hq0 & Hn).
  rewrite (node_le_preds _ _ Hn) in Hpr. eapply nbit_le; [done|]. by eapply Ho.
Qed.
Lemma obs_closed_le s s' X : bits_le s s' → obs_closed s X → obs_closed s' X.
Proof.
  intros Hle Ho y nd' pr Hy Hpr Hef. destruct (bl_node' _ _ Hle _ _ Hy) as (nd & Hy0 & Hn).
  rewrite (node_le_preds _ _ Hn) in Hpr. by eapply Ho.
Qed.
Lemma newly_split s1 s2 s3 q eff tgt :
  newly s1 s3 q eff tgt → newly s1 s2 q eff tgt ∨ newly s2 s3 q eff tgt.
Proof.
  intros [H1 H2]. unfold newly. destruct (decide (nbit s2 q eff tgt = Some true)); [left|right]; done.
Qed.
Lemma newly_refl s q eff tgt : ¬ newly s s q eff tgt.
Proof. by intros [? ?]. Qed.

Lemma dirty_post_refl s l : dirty_post s s l.
Proof. split; [done|done|by intros ??? ?%newly_refl|by intros ?????? ?%newly_refl]. Qed.
Lemma dirty_post_trans s1 s2 s3 l : dirty_post s1 s2 l → dirty_post s2 s3 l → dirty_post s1 s3 l.
Proof.
  intros [L1 C1 U1 S1] [L2 C2 U2 S2]. split; [by eapply bits_le_trans|lia| |].
  - intros q eff tgt [Hn|Hn]%(newly_split _ s2); [|by eapply U2].
    eapply obs_dirty_le; [done|by eapply U1].
  - intros X HX Hl q eff tgt [Hn|Hn]%(newly_split _ s2); [by eapply S1|].
    eapply S2; [|done|done]. by eapply obs_closed_le.
Qed.

(** Generic facts about loops. *)
Lemma mfor_cons {A} (x : A) xs f s : mfor (x :: xs) f s = bind (f x) (λ _, mfor xs f) s.
Proof. done. Qed.
Lemma bind_val {A B} (m : M A) (f : A → M B) s a s' : m s = (OVal a, s') → bind m f s = f a s'.
Proof. intros Hm. unfold bind. by rewrite Hm. Qed.

(** Setting one bit. *)
Definition upd_bit (b : bool) (q : loc) (eff : effect) (tgt : loc) (c : compnode) (s : dcg) : dcg :=
  set_table (<[q := NComp (with_succs (mark_succ b eff tgt (c_succs c)) c)]> (table s)) s.
Lemma set_dirty_eq b q eff tgt c s e :
  table s !! q = Some (NComp c) → find_succ eff tgt (c_succs c) = Some e →
  set_dirty b q eff tgt s = (OVal tt, upd_bit b q eff tgt c s).
Proof. intros Hq Hf. unfold set_dirty, lookup_abs, bind, get. rewrite Hq. simpl. rewrite Hf. done. Qed.
Lemma get_dirty_eq q eff tgt c s b :
  table s !! q = Some (NComp c) → bit eff tgt (c_succs c) = Some b →
  get_dirty q eff tgt s = (OVal b, s).
Proof.
  intros Hq Hf. unfold get_dirty, lookup_abs, bind, get. rewrite Hq. simpl.
  unfold bit in Hf. destruct (find_succ _ _ _); [|done]. by injection Hf as <-.
Qed.

Lemma upd_bit_le q eff tgt c s :
  table s !! q = Some (NComp c) → is_Some (bit eff tgt (c_succs c)) →
  bits_le s (upd_bit true q eff tgt c s).
Proof.
  intros Hq Hb.
  assert (node_le (NComp c) (NComp (with_succs (mark_succ true eff tgt (c_succs c)) c))) as Hn.
  { simpl. split; [done|]. split; [apply mark_succ_shapes|]. intros eff' tgt' Hb'.
    destruct (decide ((eff', tgt') = (eff, tgt))) as [[= -> ->]|Hne].
    - by apply bit_mark_same.
    - by rewrite bit_mark_other. }
  split; try done; simpl; intros l nd Hl.
  - destruct (decide (l = q)) as [->|].
    + rewrite lookup_insert. simplify_eq. eauto.
    + rewrite lookup_insert_ne by done. exists nd. split; [done|apply node_le_refl].
  - destruct (decide (l = q)) as [->|].
    + rewrite lookup_insert in Hl. simplify_eq. eauto.
    + rewrite lookup_insert_ne in Hl by done. exists nd. split; [done|apply node_le_refl].
Qed.
Lemma nbit_upd_same b q eff tgt c s :
  is_Some (bit eff tgt (c_succs c)) → nbit (upd_bit b q eff tgt c s) q eff tgt = Some b.
Proof. intros Hb. unfold nbit, upd_bit. simpl. rewrite lookup_insert. simpl. by apply bit_mark_same. Qed.
Lemma nbit_upd_other b q eff tgt c s q' eff' tgt' :
  table s !! q = Some (NComp c) → (q', eff', tgt') ≠ (q, eff, tgt) →
  nbit (upd_bit b q eff tgt c s) q' eff' tgt' = nbit s q' eff' tgt'.
Proof.
  intros Hq Hne. unfold nbit, upd_bit. simpl. destruct (decide (q' = q)) as [->|].
  - rewrite lookup_insert, Hq. simpl. apply bit_mark_other. naive_solver.
  - by rewrite lookup_insert_ne.
Qed.
Lemma total_clean_upd q eff tgt c s :
  table s !! q = Some (NComp c) → bit eff tgt (c_succs c) = Some false →
  total_clean (table s) = S (total_clean (table (upd_bit true q eff tgt c s))).
Proof.
  intros Hq Hb. unfold upd_bit. simpl.
  assert (Ht := total_clean_insert _ _ _ (NComp (with_succs (mark_succ true eff tgt (c_succs c)) c)) Hq).
  simpl in Ht. rewrite (clean_count_mark eff tgt) in Ht by done. lia.
Qed.
Lemma newly_upd q eff tgt c s q' eff' tgt' :
  table s !! q = Some (NComp c) → newly s (upd_bit true q eff tgt c s) q' eff' tgt' →
  q' = q ∧ eff' = eff ∧ tgt' = tgt.
Proof.
  intros Hq [H1 H2]. destruct (decide ((q', eff', tgt') = (q, eff, tgt))) as [[= -> -> ->]|Hne]; [done|].
  by rewrite nbit_upd_other in H2.
Qed.

Section Dirty.
Context `{Prog}.

Lemma preds_obs_eq nd : node_tracked nd → ∃ ps, preds_obs nd = Some ps ∧
  ∀ q d, (q, d) ∈ ps ↔ ∃ pr, pr ∈ node_preds nd ∧ p_eff pr = Observe ∧ q = p_loc pr ∧
     d = match nd with NMut _ _ _ => p_dep pr | _ => None end.
Proof.
  destruct nd as [t ps v|?|c]; [|done|]; intros _; eexists; (split; [done|]); intros q d;
    rewrite elem_of_list_omap; split.
  - intros (pr & Hpr & Heq). destruct (decide _); simplify_eq. eauto.
  - intros (pr & Hpr & Heff & -> & ->). exists pr. by rewrite decide_True.
  - intros (pr & Hpr & Heq). destruct (decide _); simplify_eq. eauto.
  - intros (pr & Hpr & Heff & -> & ->). exists pr. by rewrite decide_True.
Qed.
Lemma preds_alloc_eq nd : node_tracked nd → ∃ ps, preds_alloc nd = Some ps ∧
  ∀ q, q ∈ ps ↔ ∃ pr, pr ∈ node_preds nd ∧ p_eff pr = Allocate ∧ q = p_loc pr.
Proof.
  destruct nd as [t ps v|?|c]; [|done|]; intros _; eexists; (split; [done|]); intros q;
    rewrite elem_of_list_omap; split.
  - intros (pr & Hpr & Heq). destruct (decide _); simplify_eq. eauto.
  - intros (pr & Hpr & Heff & ->). exists pr. by rewrite decide_True.
  - intros (pr & Hpr & Heq). destruct (decide _); simplify_eq. eauto.
  - intros (pr & Hpr & Heff & ->). exists pr. by rewrite decide_True.
Qed.

Lemma lookup_abs_eq l s nd : table s !! l = Some nd → lookup_abs l s = (OVal nd, s).
Proof. intros Hl. unfold lookup_abs, bind, get. by rewrite Hl. Qed.
Lemma res_node_eq t l s nd : table s !! l = Some nd → node_ty nd = t → res_node t l s = (OVal nd, s).
Proof.
  intros Hl Ht. unfold res_node. rewrite (bind_val _ _ _ nd s) by by apply lookup_abs_eq.
  unfold assert. rewrite bool_decide_eq_true_2 by done. done.
Qed.

(** What [dirty_obs] guarantees on return, besides [dirty_post]. *)
Definition dirty_reach (s s' : dcg) (l : loc) : Prop := ∀ nd pr,
  table s !! l = Some nd → pr ∈ node_preds nd → p_eff pr = Observe → pred_hot nd pr →
  nbit s' (p_loc pr) Observe l = Some true.

Lemma dirty_post_ev s s' l e : dirty_post s s' l → dirty_post s (add_ev e s') l.
Proof.
  intros Hd. eapply dirty_post_trans; [done|]. split; [apply bits_le_add_ev|done|by intros ??? [? ?]|].
  by intros ?????? [? ?].
Qed.

(** One iteration. *)
Lemma dirty_step_ok (rec : loc → M unit) l s nd pr fuel :
  Struc s → table s !! l = Some nd → node_tracked nd → pr ∈ node_preds nd → p_eff pr = Observe →
  (total_clean (table s) ≤ fuel)%nat →
  (∀ l s nd, Struc s → table s !! l = Some nd → node_tracked nd → (total_clean (table s) < fuel)%nat →
     ∃ s', rec l s = (OVal tt, s') ∧ dirty_post s s' l ∧ dirty_reach s s' l) →
  ∃ s', dirty_step rec l (p_loc pr, match nd with NMut _ _ _ => p_dep pr | _ => None end) s = (OVal tt, s') ∧
        dirty_post s s' l ∧ (pred_hot nd pr → nbit s' (p_loc pr) Observe l = Some true).
Proof.
  intros Hst Hl Htr Hpr Heff Hfuel IH. unfold dirty_step. simpl.
  set (d := match nd with NMut _ _ _ => p_dep pr | _ => None end).
  assert (∃ b, (match d with
    | None => ret false
    | Some d => if is_absmap d then ret true
                else let! ch := dep_dirty d l in ret (negb ch) end) s = (OVal b, s) ∧
      (b = true → ¬ pred_hot nd pr)) as (b & Hb & Hstop).
  { unfold d. destruct nd as [t ps v|t v|c]; [|done|by exists false].
    destruct (st_dep _ Hst _ _ _ _ _ Hl Hpr) as [->|(f & w & Hd)]; [by exists false|].
    unfold pred_hot. rewrite Hd. simpl. exists (negb (bool_decide (w ≠ f v))).
    unfold check_force_map_dep. rewrite !(bind_val _ _ s (bool_decide (w ≠ f v)) s).
    - split; [done|]. intros Hn. apply negb_true_iff, bool_decide_eq_false in Hn. done.
    - rewrite (bind_val _ _ s (NMut t ps v) s); [done|]. by apply res_node_eq. }
  rewrite (bind_val _ _ s b s) by done. destruct b.
  { rewrite (bind_val (ret true) _ s true s) by done. exists s. split; [done|].
    split; [apply dirty_post_refl|]. intros Hh. by destruct Hstop. }
  destruct (st_pred _ Hst _ _ _ Hl Hpr) as (c & e & Hc & He & Hloc & Heffe).
  destruct (bit_elem _ _ He) as [bb Hbit]. rewrite Hloc, Heffe, Heff in Hbit.
  destruct bb.
  { rewrite (bind_val _ _ s true s).
    2:{ by rewrite (bind_val _ _ s true s) by by eapply get_dirty_eq. }
    exists s. split; [done|]. split; [apply dirty_post_refl|]. intros _. unfold nbit. by rewrite Hc. }
  assert (p_loc pr ≠ l) as Hne by by eapply st_noself.
  assert (is_Some (bit Observe l (c_succs c))) as Hsome by (rewrite Hbit; eauto).
  assert (∃ e', find_succ Observe l (c_succs c) = Some e') as [e' He'].
  { unfold bit in Hbit. destruct (find_succ _ _ _); [eauto|done]. }
  set (s0 := add_ev (EvBegin TDirty (Some (p_loc pr)) l) s).
  set (s1 := upd_bit true (p_loc pr) Observe l c s0).
  rewrite (bind_val _ _ s false s1).
  2:{ rewrite (bind_val _ _ s false s) by by eapply get_dirty_eq.
      rewrite bool_decide_eq_true_2 by done.
      rewrite (bind_val (assert _ _) _ s tt s) by done.
      rewrite (bind_val (emit _) _ s tt s0) by done.
      rewrite (bind_val _ _ s0 tt s1); [done|]. by eapply set_dirty_eq. }
  assert (bits_le s s1) as Hle1.
  { eapply bits_le_trans; [apply bits_le_add_ev|]. by apply upd_bit_le. }
  assert (total_clean (table s) = S (total_clean (table s1))) as Hcnt.
  { by apply (total_clean_upd (p_loc pr) Observe l c s0). }
  assert (∀ q eff tgt, newly s s1 q eff tgt → q = p_loc pr ∧ eff = Observe ∧ tgt = l) as Hnew1.
  { intros q eff tgt Hn. by apply (newly_upd _ _ _ c s0). }
  assert (table s1 !! p_loc pr = Some (NComp (with_succs (mark_succ true Observe l (c_succs c)) c))) as Hc1.
  { unfold s1. simpl. by rewrite lookup_insert. }
  destruct (IH (p_loc pr) s1 _ (Struc_le _ _ Hle1 Hst) Hc1 I ltac:(lia)) as (s2 & Hrec & Hpost & Hreach).
  exists (add_ev EvEnd s2). rewrite (bind_val _ _ s1 tt s2) by exact Hrec. split; [done|].
  assert (nbit s1 (p_loc pr) Observe l = Some true) as Hb1 by by apply nbit_upd_same.
  split.
  2:{ intros _. eapply nbit_le; [apply bits_le_add_ev|]. eapply nbit_le; [apply Hpost|done]. }
  apply dirty_post_ev. destruct Hpost as [L2 C2 U2 S2].
  assert (obs_dirty s2 (p_loc pr)) as Hod.
  { intros ndp prp Hp Hprp Hep.
    destruct (bl_node' _ _ L2 _ _ Hp) as (nd1 & Hp1 & Hn1).
    rewrite (node_le_preds _ _ Hn1) in Hprp.
    eapply Hreach; [done|done|done|]. rewrite Hc1 in Hp1. by injection Hp1 as <-. }
  split; [by eapply bits_le_trans|lia| |].
  - intros q eff tgt [Hn|Hn]%(newly_split _ s1); [|by eapply U2].
    apply Hnew1 in Hn as (-> & -> & ->). done.
  - intros X HX HXl. assert (¬ X (p_loc pr)) as HXp.
    { intros HXp. apply HXl. by eapply HX. }
    intros q eff tgt [Hn|Hn]%(newly_split _ s1).
    + apply Hnew1 in Hn as (-> & -> & ->). done.
    + eapply S2; [|done|done]. by eapply obs_closed_le.
Qed.

Lemma dirty_obs_ok fuel : ∀ l s nd,
  Struc s → table s !! l = Some nd → node_tracked nd → (total_clean (table s) < fuel)%nat →
  ∃ s', dirty_obs fuel l s = (OVal tt, s') ∧ dirty_post s s' l ∧ dirty_reach s s' l.
Proof.
  induction fuel as [|fuel IH]; intros l s nd Hst Hl Htr Hfuel; [lia|].
  destruct (preds_obs_eq nd Htr) as (ps & Hps & Hspec).
  simpl. rewrite (bind_val _ _ _ nd s) by by apply lookup_abs_eq.
  rewrite Hps. simpl. rewrite (bind_val (ret ps) _ _ ps s) by done.
  assert (∀ ps', ps' ⊆ ps → ∀ s1, dirty_post s s1 l →
     ∃ s', mfor ps' (dirty_step (dirty_obs fuel) l) s1 = (OVal tt, s') ∧ dirty_post s1 s' l ∧
      ∀ pr, pr ∈ node_preds nd → p_eff pr = Observe → pred_hot nd pr →
         (p_loc pr, match nd with NMut _ _ _ => p_dep pr | _ => None end) ∈ ps' →
         nbit s' (p_loc pr) Observe l = Some true) as Hloop.
  { induction ps' as [|[p d] ps' IHps]; intros Hsub s1 Hs1.
    { exists s1. split; [done|]. split; [apply dirty_post_refl|]. intros pr _ _ _ ?%elem_of_nil. done. }
    destruct (proj1 (Hspec p d) ltac:(set_solver)) as (pr0 & Hpr0 & Heff0 & -> & ->).
    destruct Hs1 as [Hle1 Hcnt1 U1 S1].
    destruct (bl_node _ _ Hle1 _ _ Hl) as (nd1 & Hl1 & Hn1).
    assert (match nd1 with NMut _ _ _ => p_dep pr0 | _ => None end = match nd with NMut _ _ _ => p_dep pr0 | _ => None end) as Hd.
    { by destruct nd, nd1. }
    destruct (dirty_step_ok (dirty_obs fuel) l s1 nd1 pr0 fuel) as (s2 & Hstep & Hpost2 & Hbit2).
    { by eapply Struc_le. } { done. } { by eapply node_le_tracked. }
    { by rewrite (node_le_preds _ _ Hn1). } { done. } { lia. } { exact IH. }
    rewrite Hd in Hstep.
    destruct (IHps ltac:(set_solver) s2) as (s3 & Hrest & Hpost3 & Hbits).
    { eapply dirty_post_trans; [|done]. done. }
    exists s3. rewrite mfor_cons, (bind_val _ _ _ tt s2) by exact Hstep. split; [exact Hrest|].
    split; [by eapply dirty_post_trans|].
    intros pr Hpr Heff Hhot [Heq|Hin]%elem_of_cons; [|by apply Hbits].
    eapply nbit_le; [apply Hpost3|].
    injection Heq as -> Hdd. apply Hbit2.
    apply (node_le_hot _ _ _ Hn1). revert Hhot. unfold pred_hot. destruct nd; [|done|done]. by rewrite Hdd. }
  destruct (Hloop ps ltac:(done) s (dirty_post_refl _ _)) as (s' & Hm & Hpost & Hbits).
  exists s'. split; [done|]. split; [done|].
  intros nd' pr Hl' Hpr Heff Hhot. simplify_eq. apply Hbits; [done..|].
  apply Hspec. eauto.
Qed.

Lemma dirty_observers_ok l s nd :
  Struc s → table s !! l = Some nd → node_tracked nd →
  ∃ s', dirty_observers l s = (OVal tt, s') ∧ dirty_post s s' l ∧ dirty_reach s s' l.
Proof. intros Hst Hl Htr. eapply dirty_obs_ok; [done..|]. unfold dirty_fuel, total_clean. lia. Qed.

(** What [dirty_alloc] guarantees. *)
Record dalloc_post (s s' : dcg) (l : loc) : Prop := {
  da_le : bits_le s s';
  da_up : ∀ q eff tgt, newly s s' q eff tgt → obs_dirty s' q;
  da_safe : ∀ X, obs_closed s X → ¬ X l →
      (∀ nd pr, table s !! l = Some nd → pr ∈ node_preds nd → p_eff pr = Allocate → ¬ X (p_loc pr)) →
      ∀ q eff tgt, newly s s' q eff tgt → ¬ X q ∧ ((eff = Observe ∧ ¬ X tgt) ∨ (eff = Allocate ∧ tgt = l));
}.
Definition dalloc_reach (s s' : dcg) (l : loc) : Prop := ∀ nd pr,
  table s !! l = Some nd → pr ∈ node_preds nd → p_eff pr = Allocate →
  nbit s' (p_loc pr) Allocate l = Some true.

Lemma dalloc_post_refl s l : dalloc_post s s l.
Proof. split; [done|by intros ??? ?%newly_refl|by intros ??????? ?%newly_refl]. Qed.
Lemma dalloc_post_trans s1 s2 s3 l : dalloc_post s1 s2 l → dalloc_post s2 s3 l → dalloc_post s1 s3 l.
Proof.
  intros [L1 U1 S1] [L2 U2 S2]. split; [by eapply bits_le_trans| |].
  - intros q eff tgt [Hn|Hn]%(newly_split _ s2); [|by eapply U2].
    eapply obs_dirty_le; [done|by eapply U1].
  - intros X HX Hl Hall q eff tgt [Hn|Hn]%(newly_split _ s2); [by eapply S1|].
    eapply S2; [|done| |done]; [by eapply obs_closed_le|].
    intros nd pr Hl2 Hpr. destruct (bl_node' _ _ L1 _ _ Hl2) as (nd1 & Hl1 & Hn1).
    rewrite (node_le_preds _ _ Hn1) in Hpr. by eapply Hall.
Qed.
Lemma dalloc_post_ev s s' l e : dalloc_post s s' l → dalloc_post s (add_ev e s') l.
Proof.
  intros Hd. eapply dalloc_post_trans; [done|]. split; [apply bits_le_add_ev|by intros ??? [? ?]|].
  by intros ??????? [? ?].
Qed.
Lemma dirty_dalloc_post s s' l : dirty_post s s' l → dalloc_post s s' l.
Proof.
  intros [L C U S]. split; [done|done|]. intros X HX Hl _ q eff tgt Hn.
  destruct (S X HX Hl _ _ _ Hn) as (? & ? & ?). auto.
Qed.

Lemma dirty_alloc_step_ok l s nd pr :
  Struc s → table s !! l = Some nd → pr ∈ node_preds nd → p_eff pr = Allocate →
  ∃ s', dirty_alloc_step l (p_loc pr) s = (OVal tt, s') ∧
        dalloc_post s s' l ∧ nbit s' (p_loc pr) Allocate l = Some true.
Proof.
  intros Hst Hl Hpr Heff. unfold dirty_alloc_step.
  destruct (st_pred _ Hst _ _ _ Hl Hpr) as (c & e & Hc & He & Hloc & Heffe).
  destruct (bit_elem _ _ He) as [bb Hbit]. rewrite Hloc, Heffe, Heff in Hbit.
  rewrite (bind_val _ _ s bb s) by by eapply get_dirty_eq. destruct bb.
  { exists s. split; [done|]. split; [apply dalloc_post_refl|]. unfold nbit. by rewrite Hc. }
  assert (p_loc pr ≠ l) as Hne by by eapply st_noself.
  assert (is_Some (bit Allocate l (c_succs c))) as Hsome by (rewrite Hbit; eauto).
  assert (∃ e', find_succ Allocate l (c_succs c) = Some e') as [e' He'].
  { unfold bit in Hbit. destruct (find_succ _ _ _); [eauto|done]. }
  set (s0 := upd_bit true (p_loc pr) Allocate l c s).
  rewrite (bind_val _ _ s tt s0) by by eapply set_dirty_eq.
  rewrite bool_decide_eq_true_2 by done.
  rewrite (bind_val (assert _ _) _ s0 tt s0) by done.
  set (s1 := add_ev (EvBegin TDirty (Some (p_loc pr)) l) s0).
  rewrite (bind_val (emit _) _ s0 tt s1) by done.
  assert (bits_le s s1) as Hle1.
  { eapply bits_le_trans; [|apply bits_le_add_ev]. by apply upd_bit_le. }
  assert (∀ q eff tgt, newly s s1 q eff tgt → q = p_loc pr ∧ eff = Allocate ∧ tgt = l) as Hnew1.
  { intros q eff tgt Hn. by apply (newly_upd _ _ _ c s). }
  assert (table s1 !! p_loc pr = Some (NComp (with_succs (mark_succ true Allocate l (c_succs c)) c))) as Hc1.
  { unfold s1. simpl. by rewrite lookup_insert. }
  destruct (dirty_observers_ok (p_loc pr) s1 _ (Struc_le _ _ Hle1 Hst) Hc1 I) as (s2 & Hrec & Hpost & Hreach).
  exists (add_ev EvEnd s2). rewrite (bind_val _ _ s1 tt s2) by exact Hrec. split; [done|].
  assert (nbit s1 (p_loc pr) Allocate l = Some true) as Hb1 by by apply nbit_upd_same.
  split.
  2:{ eapply nbit_le; [apply bits_le_add_ev|]. eapply nbit_le; [apply Hpost|done]. }
  apply dalloc_post_ev. destruct Hpost as [L2 C2 U2 S2].
  assert (obs_dirty s2 (p_loc pr)) as Hod.
  { intros ndp prp Hp Hprp Hep.
    destruct (bl_node' _ _ L2 _ _ Hp) as (nd1 & Hp1 & Hn1).
    rewrite (node_le_preds _ _ Hn1) in Hprp.
    eapply Hreach; [done|done|done|]. rewrite Hc1 in Hp1. by injection Hp1 as <-. }
  split; [by eapply bits_le_trans| |].
  - intros q eff tgt [Hn|Hn]%(newly_split _ s1); [|by eapply U2].
    apply Hnew1 in Hn as (-> & -> & ->). done.
  - intros X HX HXl Hall. assert (¬ X (p_loc pr)) as HXp by by eapply Hall.
    intros q eff tgt [Hn|Hn]%(newly_split _ s1).
    + apply Hnew1 in Hn as (-> & -> & ->). auto.
    + destruct (S2 X) with q eff tgt as (? & ? & ?); [by eapply obs_closed_le|done..|]. auto.
Qed.

Lemma dirty_alloc_ok l s nd :
  Struc s → table s !! l = Some nd → node_tracked nd →
  ∃ s', dirty_alloc l s = (OVal tt, s') ∧ dalloc_post s s' l ∧ dirty_reach s s' l ∧ dalloc_reach s s' l.
Proof.
  intros Hst Hl Htr. unfold dirty_alloc.
  destruct (dirty_observers_ok l s nd Hst Hl Htr) as (s1 & H1 & Hpost1 & Hreach1).
  rewrite (bind_val _ _ s tt s1) by done.
  destruct (bl_node _ _ (dp_le _ _ _ Hpost1) _ _ Hl) as (nd1 & Hl1 & Hn1).
  rewrite (bind_val _ _ s1 nd1 s1) by by apply lookup_abs_eq.
  destruct (preds_alloc_eq nd1) as (ps & Hps & Hspec); [by eapply node_le_tracked|].
  rewrite Hps. rewrite (bind_val (of_opt _ _) _ s1 ps s1) by done.
  assert (∀ ps', ps' ⊆ ps → ∀ s2, dalloc_post s1 s2 l →
     ∃ s', mfor ps' (dirty_alloc_step l) s2 = (OVal tt, s') ∧ dalloc_post s2 s' l ∧
      ∀ q, q ∈ ps' → nbit s' q Allocate l = Some true) as Hloop.
  { induction ps' as [|p ps' IHps]; intros Hsub s2 Hs2.
    { exists s2. split; [done|]. split; [apply dalloc_post_refl|]. by intros q ?%elem_of_nil. }
    destruct (proj1 (Hspec p) ltac:(set_solver)) as (pr0 & Hpr0 & Heff0 & ->).
    destruct (bl_node _ _ (da_le _ _ _ Hs2) _ _ Hl1) as (nd2 & Hl2 & Hn2).
    destruct (dirty_alloc_step_ok l s2 nd2 pr0) as (s3 & Hstep & Hpost3 & Hbit3).
    { eapply Struc_le; [apply Hs2|]. eapply Struc_le; [apply Hpost1|done]. } { done. }
    { by rewrite (node_le_preds _ _ Hn2). } { done. }
    destruct (IHps ltac:(set_solver) s3) as (s4 & Hrest & Hpost4 & Hbits).
    { eapply dalloc_post_trans; [|done]. done. }
    exists s4. rewrite mfor_cons, (bind_val _ _ _ tt s3) by exact Hstep. split; [exact Hrest|].
    split; [by eapply dalloc_post_trans|].
    intros q [->|Hin]%elem_of_cons; [|by apply Hbits].
    eapply nbit_le; [apply Hpost4|]. done. }
  destruct (Hloop ps ltac:(done) s1 (dalloc_post_refl _ _)) as (s' & Hm & Hpost & Hbits).
  exists s'. split; [done|]. split; [|split].
  - eapply dalloc_post_trans; [|done]. by apply dirty_dalloc_post.
  - intros nd0 pr Hl0 Hpr Heff Hhot. eapply nbit_le; [apply Hpost|]. by eapply Hreach1.
  - intros nd0 pr Hl0 Hpr Heff. simplify_eq. apply Hbits, Hspec. exists pr. split_and!; [|done..].
    by rewrite (node_le_preds _ _ Hn1).
Qed.
End Dirty.
