(** * The relation between engine states and disciplined specification states. *)
From Verif Require Export Graph.

Definition frames (fs : list frame) : list loc := f_loc <$> fs.

(** What a node holds, forgetting caches and edges. *)
Definition content_of (nd : node) : content :=
  match nd with
  | NMut t _ v => CCell t v
  | NPure t v => CCell t v
  | NComp c => CThunk (c_ty c) (c_pp c) (c_arg c) (c_spur c)
  end.
Definition contents (tb : gmap loc node) : store := content_of <$> tb.

Definition obs_tgt (h : eshape) : option loc := if decide (sh_eff h = Observe) then Some (sh_loc h) else None.
Definition obs_tgts (es : list eshape) : list loc := omap obs_tgt es.

Section Rel.
Context `{Prog}.
Context (opt md0 : bool).

(** ** What never changes about a node *)
Definition facts_node (x : loc) (nd nd' : node) : Prop :=
  match nd, nd' with
  | NMut t _ _, NMut t' _ _ => t' = t
  | NPure t v, NPure t' v' => t' = t ∧ v' = v
  | NComp c, NComp c' =>
      c_ty c' = c_ty c ∧ c_pp c' = c_pp c ∧ c_spur c' = c_spur c ∧
      (is_struct x = true → c_arg c' = c_arg c ∧ (opt = true → ∀ w, c_res c = Some w → c_res c' = Some w))
  | _, _ => False
  end.
Definition facts_le (tb tb' : gmap loc node) : Prop :=
  ∀ x nd, tb !! x = Some nd → ∃ nd', tb' !! x = Some nd' ∧ facts_node x nd nd'.

(** ** A run of a body explained by recorded edges
    [tr tb pth md acc c E v]: in namespace [pth] and mode [md], with the edges [acc] already recorded,
    [c] records the edges [E] and returns [v]. *)
Inductive tr (tb : gmap loc node) : path → bool → list eshape → comp → list eshape → val → Prop :=
  | tr_ret pth md acc v : tr tb pth md acc (Ret v) [] v
  | tr_rc pth md acc t w cyc k E v :
      tr tb pth md acc (k w) E v → tr tb pth md acc (Force t (ARc w) cyc k) E v
  | tr_map_rc pth md acc t w f k E v :
      tr tb pth md acc (k (f w)) E v → tr tb pth md acc (ForceMap t (ARc w) f k) E v
  | tr_abs_rc pth md acc t w f k E v :
      tr tb pth md acc (k (f w)) E v → tr tb pth md acc (ForceAbs t (ARc w) f k) E v
  | tr_dup pth md acc t x w cyc k E v :
      (x, Observe, DForce t w) ∈ acc →
      tr tb pth md acc (k w) E v → tr tb pth md acc (Force t (ALoc x) cyc k) E v
  | tr_pure pth md acc t x w cyc k E v :
      tb !! x = Some (NPure t w) →
      tr tb pth md acc (k w) E v → tr tb pth md acc (Force t (ALoc x) cyc k) E v
  | tr_sres pth md acc t x c w cyc k E v :
      opt = true → is_struct x = true → tb !! x = Some (NComp c) → c_ty c = t → c_res c = Some w →
      tr tb pth md acc (k w) E v → tr tb pth md acc (Force t (ALoc x) cyc k) E v
  | tr_obs pth md acc t x w cyc k E v :
      tr tb pth md (acc ++ [(x, Observe, DForce t w)]) (k w) E v →
      tr tb pth md acc (Force t (ALoc x) cyc k) ((x, Observe, DForce t w) :: E) v
  | tr_map pth md acc t x f w (k : val → comp) E v :
      tr tb pth md (acc ++ [(x, Observe, DForceMap t f w)]) (k w) E v →
      tr tb pth md acc (ForceMap t (ALoc x) f k) ((x, Observe, DForceMap t f w) :: E) v
  | tr_map_force pth md acc t x f nd (k : val → comp) E v :
      tb !! x = Some nd → (∀ t ps v, nd ≠ NMut t ps v) →
      tr tb pth md acc (Force t (ALoc x) None (λ w, k (f w))) E v →
      tr tb pth md acc (ForceMap t (ALoc x) f k) E v
  | tr_abs_force pth md acc t x f nd (k : val → comp) E v :
      tb !! x = Some nd → (∀ t ps v, nd ≠ NMut t ps v) →
      tr tb pth md acc (Force t (ALoc x) None (λ w, k (f w))) E v →
      tr tb pth md acc (ForceAbs t (ALoc x) f k) E v
  | tr_cell pth (md : bool) acc t n w ps v0 l k E v :
      l = Loc pth (if md then IdStruct (hash_val w) else IdNom n) →
      tb !! l = Some (NMut t ps v0) →
      tr tb pth md (acc ++ [(l, Allocate, DAllocCell w)]) (k l) E v →
      tr tb pth md acc (Cell t n w k) ((l, Allocate, DAllocCell w) :: E) v
  | tr_cell_pure pth (md : bool) acc t n w l k E v :
      l = Loc pth (if md then IdStruct (hash_val w) else IdNom n) →
      tb !! l = Some (NPure t w) →
      tr tb pth md acc (k l) E v →
      tr tb pth md acc (Cell t n w k) E v
  | tr_thunk pth acc t n pp arg spur c l k E v :
      l = Loc pth (IdNom n) →
      tb !! l = Some (NComp c) → c_ty c = t → c_pp c = pp → c_spur c = spur →
      tr tb pth false (acc ++ [(l, Allocate, DAllocThunk arg)]) (k l) E v →
      tr tb pth false acc (Thunk t (NCNominal n) pp arg spur k) ((l, Allocate, DAllocThunk arg) :: E) v
  | tr_thunk_str pth md acc t nc pp arg spur c l k E v :
      (nc = NCStructural ∨ (md = true ∧ ∃ n, nc = NCNominal n)) →
      l = Loc pth (IdStruct (hash_app pp arg)) →
      tb !! l = Some (NComp c) → c_ty c = t → c_pp c = pp → c_arg c = arg → c_spur c = spur →
      tr tb pth md acc (k l) E v →
      tr tb pth md acc (Thunk t nc pp arg spur k) E v
  | tr_thunk_str_edge pth md acc t nc pp arg spur c l k E v :
      (nc = NCStructural ∨ (md = true ∧ ∃ n, nc = NCNominal n)) →
      l = Loc pth (IdStruct (hash_app pp arg)) →
      tb !! l = Some (NComp c) → c_ty c = t → c_pp c = pp → c_arg c = arg → c_spur c = spur →
      tr tb pth md (acc ++ [(l, Allocate, DAllocStruct)]) (k l) E v →
      tr tb pth md acc (Thunk t nc pp arg spur k) ((l, Allocate, DAllocStruct) :: E) v
  | tr_ns pth md acc n b k E1 v1 E2 v :
      tr tb (n :: pth) md acc b E1 v1 → tr tb pth md (acc ++ E1) (k v1) E2 v →
      tr tb pth md acc (Ns n b k) (E1 ++ E2) v
  | tr_structural pth md acc b k E1 v1 E2 v :
      tr tb pth true acc b E1 v1 → tr tb pth md (acc ++ E1) (k v1) E2 v →
      tr tb pth md acc (Structural b k) (E1 ++ E2) v.

Lemma facts_node_refl x nd : facts_node x nd nd.
Proof. destruct nd; simpl; auto. Qed.
Lemma facts_node_trans x n1 n2 n3 : facts_node x n1 n2 → facts_node x n2 n3 → facts_node x n1 n3.
Proof. destruct n1, n2, n3; simpl; intros; try done; destruct_and?; repeat split; try congruence; naive_solver congruence. Qed.
Global Instance facts_le_refl : Reflexive facts_le.
Proof. intros tb x nd Hx. exists nd. split; [done|apply facts_node_refl]. Qed.
Lemma facts_le_trans t1 t2 t3 : facts_le t1 t2 → facts_le t2 t3 → facts_le t1 t3.
Proof.
  intros H1 H2 x nd Hx. destruct (H1 _ _ Hx) as (nd2 & Hx2 & ?). destruct (H2 _ _ Hx2) as (nd3 & ? & ?).
  exists nd3. split; [done|by eapply facts_node_trans].
Qed.

Lemma facts_mut tb tb' x t ps v : facts_le tb tb' → tb !! x = Some (NMut t ps v) → ∃ ps' v', tb' !! x = Some (NMut t ps' v').
Proof. intros Hf Hx. destruct (Hf _ _ Hx) as ([] & Hx' & Hn); simpl in Hn; [|done..]. subst. eauto. Qed.
Lemma facts_pure tb tb' x t v : facts_le tb tb' → tb !! x = Some (NPure t v) → tb' !! x = Some (NPure t v).
Proof. intros Hf Hx. destruct (Hf _ _ Hx) as ([] & Hx' & Hn); simpl in Hn; try done. by destruct Hn as [-> ->]. Qed.
Lemma facts_comp tb tb' x c : facts_le tb tb' → tb !! x = Some (NComp c) →
  ∃ c', tb' !! x = Some (NComp c') ∧ c_ty c' = c_ty c ∧ c_pp c' = c_pp c ∧ c_spur c' = c_spur c ∧
      (is_struct x = true → c_arg c' = c_arg c ∧ (opt = true → ∀ w, c_res c = Some w → c_res c' = Some w)).
Proof. intros Hf Hx. destruct (Hf _ _ Hx) as ([] & Hx' & Hn); simpl in Hn; try done. eauto. Qed.

Lemma tr_mono tb tb' pth md acc c E v : facts_le tb tb' → tr tb pth md acc c E v → tr tb' pth md acc c E v.
Proof.
  intros Hf Ht. induction Ht.
  - constructor.
  - by constructor.
  - by constructor.
  - by constructor.
  - by econstructor.
  - econstructor; [by eapply facts_pure|done].
  - destruct (facts_comp _ _ _ _ Hf ltac:(eassumption)) as (c' & Hc' & ? & ? & ? & Hs).
    destruct Hs as [_ Hs]; [done|]. eapply tr_sres; eauto. congruence.
  - by constructor.
  - by constructor.
  - destruct (Hf _ _ ltac:(eassumption)) as (nd' & Hx' & Hn). eapply tr_map_force; [done| |done].
    intros t0 ps0 v0 ->. destruct nd; simpl in Hn; naive_solver.
  - destruct (Hf _ _ ltac:(eassumption)) as (nd' & Hx' & Hn). eapply tr_abs_force; [done| |done].
    intros t0 ps0 v0 ->. destruct nd; simpl in Hn; naive_solver.
  - destruct (facts_mut _ _ _ _ _ _ Hf ltac:(eassumption)) as (ps' & v' & Hx'). by econstructor.
  - eapply tr_cell_pure; [done|by eapply facts_pure|done].
  - destruct (facts_comp _ _ _ _ Hf ltac:(eassumption)) as (c' & Hc' & ? & ? & ? & Hs).
    eapply tr_thunk; [done|done|congruence..|done].
  - destruct (facts_comp _ _ _ _ Hf ltac:(eassumption)) as (c' & Hc' & ? & ? & ? & Hs).
    destruct Hs as [Hs _]; [by subst|]. eapply tr_thunk_str; [done|done|done|congruence..|done].
  - destruct (facts_comp _ _ _ _ Hf ltac:(eassumption)) as (c' & Hc' & ? & ? & ? & Hs).
    destruct Hs as [Hs _]; [by subst|]. eapply tr_thunk_str_edge; [done|done|done|congruence..|done].
  - by econstructor.
  - by econstructor.
Qed.

(** ** Edges *)
(** Kind and type agreement between an edge and its target. *)
Definition wfe (tb : gmap loc node) (h : eshape) : Prop :=
  match sh_dep h with
  | DForce t _ => sh_eff h = Observe ∧
      ((∃ ps v, tb !! sh_loc h = Some (NMut t ps v)) ∨ (∃ c, tb !! sh_loc h = Some (NComp c) ∧ c_ty c = t))
  | DForceMap t _ _ => sh_eff h = Observe ∧ ∃ ps v, tb !! sh_loc h = Some (NMut t ps v)
  | DForceAbs => False
  | DAllocStruct => sh_eff h = Allocate ∧ is_struct (sh_loc h) = true ∧ ∃ c, tb !! sh_loc h = Some (NComp c)
  | DAllocThunk _ => sh_eff h = Allocate ∧ is_struct (sh_loc h) = false ∧ ∃ c, tb !! sh_loc h = Some (NComp c)
  | DAllocCell _ => sh_eff h = Allocate ∧ ∃ t ps v, tb !! sh_loc h = Some (NMut t ps v)
  end.
(** The edge records what its target yields now. *)
Definition valid (tb : gmap loc node) (frs : list loc) (h : eshape) : Prop :=
  match sh_dep h with
  | DForce t w =>
      match tb !! sh_loc h with
      | Some (NMut _ _ v) => v = w
      | Some (NComp c) => c_res c = Some w ∧ all_clean (c_succs c) ∧ sh_loc h ∉ frs
      | _ => False
      end
  | DForceMap t f w => match tb !! sh_loc h with Some (NMut _ _ v) => f v = w | _ => False end
  | DForceAbs => False
  | DAllocStruct => True
  | DAllocThunk a => match tb !! sh_loc h with Some (NComp c) => c_arg c = a | _ => False end
  | DAllocCell w => match tb !! sh_loc h with Some (NMut _ _ v) => v = w | _ => False end
  end.

(** [x] is recorded as having observed [y]. *)
Definition observes (tb : gmap loc node) (x y : loc) : Prop :=
  ∃ c e, tb !! x = Some (NComp c) ∧ e ∈ c_succs c ∧ s_eff e = Observe ∧ s_loc e = y.
Lemma acyc_sub tb tb' : (∀ x y, observes tb' x y → observes tb x y) → (∀ x, ¬ tc (observes tb) x x) → ∀ x, ¬ tc (observes tb') x x.
Proof.
  intros Hsub Ha x Hx. apply (Ha x). clear Ha. revert Hx. generalize x at 1 3. intros x' Hx.
  induction Hx as [x y Hxy|x y z Hxy _ IH]; [by apply tc_once, Hsub|].
  eapply tc_l; [by apply Hsub|done].
Qed.

Record Inv (tb : gmap loc node) (frs : list loc) : Prop := {
  i_kind : ∀ l nd, tb !! l = Some nd →
     match nd with NPure _ _ => opt = true ∧ is_struct l = true
                 | NMut _ _ _ => ¬ (opt = true ∧ is_struct l = true) | NComp _ => True end;
  i_edge : ∀ l c e, tb !! l = Some (NComp c) → e ∈ c_succs c → wfe tb (shape e) ∧ s_loc e ≠ l;
  i_valid : ∀ l c e, tb !! l = Some (NComp c) → e ∈ c_succs c →
     bit (s_eff e) (s_loc e) (c_succs c) = Some false → valid tb frs (shape e);
  i_pred : ∀ l c e nd, tb !! l = Some (NComp c) → e ∈ c_succs c → tb !! s_loc e = Some nd →
     Pred l (s_eff e) (pdep (s_dep e)) ∈ node_preds nd;
  i_predinv : ∀ x nd pr, tb !! x = Some nd → pr ∈ node_preds nd →
     ∃ c e, tb !! p_loc pr = Some (NComp c) ∧ e ∈ c_succs c ∧ s_loc e = x ∧ s_eff e = p_eff pr ∧
            p_dep pr = pdep (s_dep e);
  i_nodup : ∀ l c, tb !! l = Some (NComp c) → NoDup (obs_tgts (shape <$> c_succs c));
  i_frame : ∀ l, l ∈ frs → ∃ c, tb !! l = Some (NComp c) ∧ c_succs c = [] ∧
     (opt = true → is_struct l = true → c_res c = None);
  i_tr : ∀ l c v, tb !! l = Some (NComp c) → l ∉ frs → c_res c = Some v →
     tr tb (l_path l) md0 [] (code (c_pp c) (c_arg c) (c_spur c)) (shape <$> c_succs c) v;
  i_struct : ∀ l c e, opt = true → is_struct l = true → tb !! l = Some (NComp c) → e ∈ c_succs c →
     is_struct (s_loc e) = true ∧ bit (s_eff e) (s_loc e) (c_succs c) = Some false;
  i_acyc : ∀ x, ¬ tc (observes tb) x x;
  i_sbit : ∀ l c y, tb !! l = Some (NComp c) → is_struct y = true → bit Allocate y (c_succs c) ≠ Some true;
}.

(** ** Protection inside a demand *)
(** Locations whose value is settled for the rest of the demand. *)
Definition settled (p : dstate) (y : loc) : Prop :=
  y ∈ d_done p ∨ (y ∈ d_seen p ∧ ∃ t v, d_store p !! y = Some (CCell t v)).
Definition prot (p : dstate) (h : eshape) : Prop :=
  match sh_eff h with Allocate => sh_loc h ∈ d_seen p | Observe => settled p (sh_loc h) end.

Record fedge (tb : gmap loc node) (frs : list loc) (p : dstate) (l : loc) (e : succ) (pd : option dep) : Prop := {
  fe_clean : s_dirty e = false;
  fe_pd : pd = pdep (s_dep e);
  fe_wfe : wfe tb (shape e);
  fe_valid : valid tb frs (shape e);
  fe_prot : prot p (shape e);
  fe_ne : s_loc e ≠ l;
  fe_struct : opt = true → is_struct l = true → is_struct (s_loc e) = true;
}.

(** ** Why thunks are run again
    The state of affairs when the demand started: the thunks run before, and the graph. *)
Record origin := Origin { o_runs : list loc; o_tab : option (gmap loc node) }.
(** What forcing [y] would return without any work. *)
Definition yields (tb : gmap loc node) (y : loc) : option val :=
  match tb !! y with Some (NMut _ _ v) | Some (NPure _ v) => Some v | Some (NComp c) => c_res c | None => None end.
(** An observation that now has a different outcome. *)
Definition outdated (tb : gmap loc node) (h : eshape) : Prop :=
  sh_eff h = Observe ∧ ∃ v, yields tb (sh_loc h) = Some v ∧
  match sh_dep h with DForce _ w => v ≠ w | DForceMap _ f w => f v ≠ w | _ => False end.
(** The content of [y] was changed during the demand. *)
Definition chg (tb0 : gmap loc node) (p : dstate) (y : loc) : Prop := y ∈ d_seen p ∧ d_store p !! y ≠ contents tb0 !! y.
Definition why (tb0 : gmap loc node) (p : dstate) (tb : gmap loc node) (x : loc) : Prop :=
  ∀ c0, tb0 !! x = Some (NComp c0) → c_res c0 = None ∨ chg tb0 p x ∨
    ∃ e, e ∈ c_succs c0 ∧ ((prot p (shape e) ∧ outdated tb (shape e)) ∨
      (s_eff e = Allocate ∧ (bit Allocate (s_loc e) (c_succs c0) = Some true ∨ chg tb0 p (s_loc e)))).
(** The thunk at [x] is as it was. *)
Definition kept (tb0 : gmap loc node) (p : dstate) (tb : gmap loc node) (x : loc) : Prop :=
  ∀ c0, tb0 !! x = Some (NComp c0) → chg tb0 p x ∨
    ∃ c, tb !! x = Some (NComp c) ∧ c_res c = c_res c0 ∧ shape <$> c_succs c = shape <$> c_succs c0 ∧
      (∀ y, bit Allocate y (c_succs c) = Some true → bit Allocate y (c_succs c0) = Some true ∨ chg tb0 p y) ∧
      (∀ y, is_struct y = false → bit Allocate y (c_succs c0) = Some true → bit Allocate y (c_succs c) = Some true).
Record Just (tb0 : gmap loc node) (rs frs : list loc) (p : dstate) (tb : gmap loc node) : Prop := {
  J_unseen : ∀ y, y ∉ d_seen p → d_store p !! y = contents tb0 !! y;
  J_kept : ∀ x, x ∉ rs → kept tb0 p tb x;
  J_why : ∀ x, x ∈ rs → why tb0 p tb x;
  J_frs : ∀ x, x ∈ frs → x ∈ rs;
  J_old : ∀ x c, x ∉ rs → tb !! x = Some (NComp c) → c_res c ≠ None →
    ∃ c0, tb0 !! x = Some (NComp c0) ∧ c_res c0 ≠ None ∧ d_store p !! x = contents tb0 !! x;
}.

Record R (r0 : origin) (stk : list loc) (p : dstate) (s : dcg) : Prop := {
  R_opt : Is_true (bool_decide (purity s = opt));
  R_inv : Inv (table s) (frames (stack s));
  R_store : contents (table s) = d_store p;
  R_sub : ∀ l, l ∈ frames (stack s) → l ∈ stk;
  R_nodup : NoDup (frames (stack s));
  R_seen : ∀ l, l ∈ stk → l ∈ d_seen p;
  R_wf : d_wf p;
  R_done : ∀ x, x ∈ d_done p → x ∈ d_seen p ∧ x ∉ frames (stack s) ∧ ∃ c w, table s !! x = Some (NComp c) ∧
     c_res c = Some w ∧ all_clean (c_succs c) ∧ ∀ e, e ∈ c_succs c → prot p (shape e);
  R_frame : ∀ f e pd, f ∈ stack s → (e, pd) ∈ f_succs f → fedge (table s) (frames (stack s)) p (f_loc f) e pd;
  R_fnodup : ∀ f, f ∈ stack s → NoDup (obs_tgts (shape <$> (f_succs f).*1));
  R_runs : ∃ rs, runs s = rs ++ o_runs r0 ∧ NoDup rs ∧ ∀ x, x ∈ rs → x ∈ d_done p ∨ x ∈ frames (stack s);
  R_just : ∀ tb0, o_tab r0 = Some tb0 → ∃ rs, runs s = rs ++ o_runs r0 ∧ Just tb0 rs (frames (stack s)) p (table s);
}.

(** ** Evolution of the engine state during a sub-evaluation, seen from the enclosing thunks *)
Record evo (stk : list loc) (p : dstate) (tb tb' : gmap loc node) : Prop := {
  ev_facts : facts_le tb tb';
  ev_stk : ∀ q c, q ∈ stk → tb !! q = Some (NComp c) → ∃ c', tb' !! q = Some (NComp c') ∧
     c_res c' = c_res c ∧ shape <$> c_succs c' = shape <$> c_succs c ∧
     ∀ e, e ∈ c_succs c → prot p (shape e) →
       bit (s_eff e) (s_loc e) (c_succs c) = Some false → bit (s_eff e) (s_loc e) (c_succs c') = Some false;
}.

Lemma prot_le p p' h : d_le p p' → prot p h → prot p' h.
Proof.
  intros [A B C]. unfold prot, settled. destruct (sh_eff h); [|set_solver].
  intros [?|(? & t & v & Hs)]; [left; set_solver|right]. split; [set_solver|]. exists t, v. by rewrite C.
Qed.
Lemma chg_le tb0 p p' y : d_le p p' → chg tb0 p y → chg tb0 p' y.
Proof. intros [A B C] [Hs Hn]. split; [set_solver|]. by rewrite C. Qed.
Lemma outdated_yields tb tb' h : yields tb' (sh_loc h) = yields tb (sh_loc h) → outdated tb h → outdated tb' h.
Proof. unfold outdated. by intros ->. Qed.
Lemma why_step tb0 p p' tb tb' x :
  d_le p p' → (∀ y, settled p y → yields tb' y = yields tb y) → why tb0 p tb x → why tb0 p' tb' x.
Proof.
  intros Hle Hy Hw c0 Hc0. destruct (Hw c0 Hc0) as [?|[?|(e & He & [[Hp Ho]|[Ha [?|?]]])]].
  - by left.
  - right. left. by eapply chg_le.
  - right. right. exists e. split; [done|]. left. split; [by eapply prot_le|]. eapply outdated_yields; [|done].
    apply Hy. destruct Ho as [Ho _]. unfold prot in Hp. by rewrite Ho in Hp.
  - right. right. exists e. split; [done|]. right. split; [done|]. by left.
  - right. right. exists e. split; [done|]. right. split; [done|]. right. by eapply chg_le.
Qed.
Lemma J_step tb0 rs frs frs' p p' tb tb' :
  Just tb0 rs frs p tb → d_le p p' → (∀ y, y ∉ d_seen p' → d_store p' !! y = d_store p !! y) →
  (∀ x c, x ∉ rs → tb !! x = Some (NComp c) → chg tb0 p' x ∨ ∃ c', tb' !! x = Some (NComp c') ∧ c_res c' = c_res c ∧
     shape <$> c_succs c' = shape <$> c_succs c ∧
     (∀ y, bit Allocate y (c_succs c') = Some true → bit Allocate y (c_succs c) = Some true ∨ chg tb0 p' y) ∧
     (∀ y, is_struct y = false → bit Allocate y (c_succs c) = Some true → bit Allocate y (c_succs c') = Some true)) →
  (∀ x c', x ∉ rs → tb' !! x = Some (NComp c') → c_res c' ≠ None →
     ∃ c, tb !! x = Some (NComp c) ∧ c_res c ≠ None ∧ d_store p' !! x = d_store p !! x) →
  (∀ y, settled p y → yields tb' y = yields tb y) → (∀ x, x ∈ frs' → x ∈ frs) →
  Just tb0 rs frs' p' tb'.
Proof.
  intros [J1 J2 J3 J4 J5] Hle Hst Hk Ho Hy Hfr. split.
  - intros y Hny. rewrite Hst by done. apply J1. destruct Hle. set_solver.
  - intros x Hx c0 Hc0. destruct (J2 x Hx c0 Hc0) as [?|(c & Hc & Hr & Hs & Hb)]; [left; by eapply chg_le|].
    destruct (Hk x c Hx Hc) as [?|(c' & Hc' & Hr' & Hs' & Hb' & Hb2')]; [by left|right]. destruct Hb as [Hb Hb2].
    exists c'. split; [done|]. split; [congruence|]. split; [congruence|]. split; [|auto]. intros y Hby. destruct (Hb' y Hby) as [Hb3|?]; [|by right].
    destruct (Hb y Hb3) as [?|?]; [by left|right; by eapply chg_le].
  - intros x Hx. eapply why_step; [done..|auto].
  - auto.
  - intros x c' Hx Hc' Hr. destruct (Ho x c' Hx Hc' Hr) as (c & Hc & Hrc & ->). eauto.
Qed.
Lemma J_step_p tb0 rs frs p p' tb :
  Just tb0 rs frs p tb → d_le p p' → d_store p' = d_store p → Just tb0 rs frs p' tb.
Proof.
  intros HJ Hle Hst. eapply J_step; [done|done|by rewrite Hst| | |done|done].
  - intros x c _ Hc. right. exists c. split_and!; auto.
  - intros x c _ Hc Hr. exists c. rewrite Hst. done.
Qed.
Lemma evo_refl stk p tb : evo stk p tb tb.
Proof. split; [done|]. intros q c Hq Hc. exists c. auto. Qed.
Lemma shape_eq e e' : shape e = shape e' → s_loc e = s_loc e' ∧ s_eff e = s_eff e' ∧ s_dep e = s_dep e'.
Proof. by intros [= ? ? ?]. Qed.
Lemma evo_trans stk p1 p2 tb1 tb2 tb3 :
  d_le p1 p2 → evo stk p1 tb1 tb2 → evo stk p2 tb2 tb3 → evo stk p1 tb1 tb3.
Proof.
  intros Hle [F1 S1] [F2 S2]. split; [by eapply facts_le_trans|].
  intros q c Hq Hc. destruct (S1 _ _ Hq Hc) as (c2 & Hc2 & Hr2 & Hs2 & Hb2).
  destruct (S2 _ _ Hq Hc2) as (c3 & Hc3 & Hr3 & Hs3 & Hb3).
  exists c3. split_and!; [done|congruence|congruence|]. intros e He Hp Hb.
  destruct (shapes_elem _ _ e (eq_sym Hs2) He) as (e2 & He2 & Hsh).
  apply shape_eq in Hsh as Hsh'. destruct Hsh' as (E1 & E2 & E3).
  rewrite <- E1, <- E2. apply Hb3; [done| |].
  - rewrite Hsh. by eapply prot_le.
  - rewrite E1, E2. by apply Hb2.
Qed.
Lemma evo_sub stk stk' p tb tb' : (∀ q, q ∈ stk → q ∈ stk') → evo stk' p tb tb' → evo stk p tb tb'.
Proof. intros Hs [F S]. split; [done|]. intros q c Hq. apply S. auto. Qed.

(** [R] only looks at four components of the engine state. *)
Lemma R_cong r0 stk p s s' :
  table s' = table s → stack s' = stack s → purity s' = purity s → runs s' = runs s → R r0 stk p s → R r0 stk p s'.
Proof.
  intros E1 E2 E3 E4 []. split; rewrite ?E1, ?E2, ?E3, ?E4; done.
Qed.

Lemma Inv_Struc s : Inv (table s) (frames (stack s)) → Struc s.
Proof.
  intros Hi. split.
  - intros l nd pr Hl Hpr. destruct (i_predinv _ _ Hi _ _ _ Hl Hpr) as (c & e & ? & ? & ? & ? & ?). eauto 10.
  - intros l nd pr Hl Hpr. destruct (i_predinv _ _ Hi _ _ _ Hl Hpr) as (c & e & Hc & He & <- & ? & ?).
    intros Heq. destruct (i_edge _ _ Hi _ _ _ Hc He) as [_ Hne]. by rewrite Heq in Hne.
  - intros l t ps v pr Hl Hpr. destruct (i_predinv _ _ Hi _ _ _ Hl Hpr) as (c & e & Hc & He & <- & ? & ->).
    destruct (i_edge _ _ Hi _ _ _ Hc He) as [Hw _]. unfold wfe in Hw. simpl in Hw.
    destruct (s_dep e) as [| t' f w| | | |]; simpl; auto; [|done].
    destruct Hw as (_ & ps' & v' & Hw). unfold sh_loc in Hw. simpl in Hw. rewrite Hl in Hw. simplify_eq. eauto.
Qed.

(** Looking at contents. *)
Lemma contents_lookup tb l : contents tb !! l = content_of <$> tb !! l.
Proof. apply lookup_fmap. Qed.

End Rel.
