(** * C56: early cutoff.  A demand re-runs a thunk only if something the thunk relied on has really changed. *)
From Verif Require Export Examples.
Local Open Scope list_scope.

(** ** Vocabulary *)
(** The last run of [x] looked at [y] (of type [t]) through [f] and saw [w]: a [force] looks through the identity, a
    [force_map] through its projection. *)
Definition saw (s : dcg) (x y : loc) (t : ty) (f : val → val) (w : val) : Prop :=
  ∃ c e, table s !! x = Some (NComp c) ∧ e ∈ c_succs c ∧ s_eff e = Observe ∧ s_loc e = y ∧
    ((s_dep e = DForce t w ∧ f = (λ v, v)) ∨ s_dep e = DForceMap t f w).
(** The last run of [x] allocated [y]; somebody has since allocated it with another content (or set it). *)
Definition made (s : dcg) (x y : loc) : Prop := ∃ c e, table s !! x = Some (NComp c) ∧ e ∈ c_succs c ∧ s_eff e = Allocate ∧ s_loc e = y.
Definition disturbed (s : dcg) (x y : loc) : Prop := ∃ c, table s !! x = Some (NComp c) ∧ bit Allocate y (c_succs c) = Some true.
(** A value is cached for thunk [x]. *)
Definition cached (s : dcg) (x : loc) (w : val) : Prop := ∃ c, table s !! x = Some (NComp c) ∧ c_res c = Some w.
Definition evaluated (s : dcg) (x : loc) : Prop := ∃ w, cached s x w.

Section Cutoff.
Context `{Prog}.
Context (opt md : bool).
(** Forcing [y] now gives [v], at no cost and without changing anything. *)
Definition gives (s : dcg) (t : ty) (y : loc) (v : val) : Prop := ∃ s', demand t y s v s' ∧ same_but_trace s s'.
Lemma gives_fun s t y v v' : gives s t y v → gives s t y v' → v = v'.
Proof. intros (s1 & (K1 & H1) & _) (s2 & (K2 & H2) & _). specialize (H1 (K1 + K2)%nat ltac:(lia)). rewrite H2 in H1 by lia. congruence. Qed.

Lemma up_to_date_gives s t y v : stack s = [] → up_to_date s t y v → gives s t y v.
Proof.
  intros Hstk Hu. destruct (force_up_to_date 0 t y None s v Hu) as (s' & E & ? & ? & ? & ? & ? & Hst').
  { rewrite Hstk. simpl. by intros ?%elem_of_nil. }
  exists s'. split; [|split_and!; try done; rewrite Hst'; done].
  exists 1%nat. intros k Hk. eapply force_fuel_mono; [exact E|done|lia].
Qed.

Lemma demand_justified s t l v s' k :
  reached opt md s → disciplined_demand opt md t l (holds s) → force k t l None s = (OVal v, s') →
  ∃ rs, runs s' = rs ++ runs s ∧ (∀ x, x ∈ rs → justified (table s) (table s') x) ∧ ∀ x, remembered (table s) (table s') rs x.
Proof.
  intros Hs (n & v2 & p & Hd) Hf. destruct (reached_Ed _ _ _ Hs) as (HE & Hc & Hst & _).
  destruct (force_editor opt md n md t l None _ v2 p s HE Hst Hd) as (K2 & a & s2 & Hk2 & -> & _ & _ & _ & _ & Hr & _).
  assert (force (K2 + k)%nat t l None s = (OVal v, s')) as E by (eapply force_fuel_mono; [exact Hf|done|lia]).
  rewrite Hk2 in E by lia. injection E as -> ->. destruct Hr as (rs & Hrs & _ & Hj & Hrm & _). exists rs. done.
Qed.

(** C56.  Every thunk run by a disciplined demand, after any disciplined history, either had no cached value, or has a
    changed function argument, or had observed something that now gives something else, or had allocated something that
    has been allocated differently since. *)
Theorem C56_reason_to_rerun s t l v s' k :
  reached opt md s → disciplined_demand opt md t l (holds s) → force k t l None s = (OVal v, s') →
  ∃ rs, runs s' = rs ++ runs s ∧ ∀ x, x ∈ rs →
    ¬ evaluated s x ∨ holds s' !! x ≠ holds s !! x ∨
    (∃ y ty f w v', saw s x y ty f w ∧ gives s' ty y v' ∧ f v' ≠ w) ∨
    (∃ y, made s x y ∧ (disturbed s x y ∨ holds s' !! y ≠ holds s !! y)).
Proof.
  intros Hs Hd Hf. destruct (demand_justified _ _ _ _ _ _ Hs Hd Hf) as (rs & Hrs & Hj & _). exists rs. split; [done|].
  destruct (demand_up_to_date _ _ _ _ _ _ _ _ Hs Hd Hf) as [_ Hs'].
  destruct (reached_idle _ _ _ Hs') as [Hstk _]. assert (Hi := reached_inv _ _ _ Hs).
  assert (ty_le (table s) (table s')) as Hty.
  { assert (Hp := pre_force k t l None s). unfold post in Hp. rewrite Hf in Hp. apply Hp. }
  intros x Hx. specialize (Hj x Hx).
  destruct (table s !! x) as [[t0 ps0 v0|t0 v0|c0]|] eqn:Ex; [left; intros (w & c & E & _); congruence..| |left; intros (w & c & E & _); congruence].
  destruct (Hj c0 Ex) as [Hn|[Hc|(e & He & [[Ho Hcl]|[Ha Hb]])]].
  - left. intros (w & c & E & E'). congruence.
  - right. left. done.
  - right. right. left. destruct Ho as [Heff (v' & Hy & Hdep)]. destruct (i_edge _ _ _ _ Hi _ _ _ Ex He) as [Hw _].
    unfold clean_at in Hcl. unfold wfe in Hw. unfold yields in Hy.
    change (sh_loc (shape e)) with (s_loc e) in *. change (sh_eff (shape e)) with (s_eff e) in *. change (sh_dep (shape e)) with (s_dep e) in *.
    assert (∃ ty f w, ((s_dep e = DForce ty w ∧ f = (λ v, v)) ∨ s_dep e = DForceMap ty f w) ∧ f v' ≠ w ∧
      ∃ nd, table s !! s_loc e = Some nd ∧ node_ty nd = ty) as (ty & f & w & Hsaw & Hne & nd & Hnd & Hndt).
    { destruct (s_dep e) as [ty w|ty f w| | | |]; try done.
      - exists ty, (λ v, v), w. split; [auto|]. split; [done|].
        destruct Hw as [_ [(ps & v1 & E)|(c & E & <-)]]; eexists; (split; [exact E|done]).
      - exists ty, f, w. split; [auto|]. split; [done|]. destruct Hw as [_ (ps & v1 & E)]. eexists; (split; [exact E|done]). }
    exists (s_loc e), ty, f, w, v'. split; [exists c0, e; split_and!; done|]. split; [|done].
    destruct (Hty _ _ Hnd) as (nd' & Hnd' & Htt & _).
    apply up_to_date_gives; [done|]. unfold up_to_date. rewrite Hnd' in *. destruct nd'; simpl in *; split_and!; congruence || done.
  - right. right. right. exists (s_loc e). split; [by exists c0, e|]. destruct Hb as [Hb|Hb]; [left; by exists c0|by right].
Qed.

(** Read the other way: a thunk with a cached value and an unchanged argument, whose observations would all come out as
    they did before and whose allocations nobody changed, is not run again, however much it depends on has been re-run. *)
Corollary C56_early_cutoff s t l v s' k x :
  reached opt md s → disciplined_demand opt md t l (holds s) → force k t l None s = (OVal v, s') →
  evaluated s x → holds s' !! x = holds s !! x →
  (∀ y ty f w v', saw s x y ty f w → gives s' ty y v' → f v' = w) →
  (∀ y, made s x y → ¬ disturbed s x y ∧ holds s' !! y = holds s !! y) →
  ∃ rs, runs s' = rs ++ runs s ∧ x ∉ rs.
Proof.
  intros Hs Hd Hf He Hh Hsaw Hmade. destruct (C56_reason_to_rerun _ _ _ _ _ _ Hs Hd Hf) as (rs & Hrs & Hr).
  exists rs. split; [done|]. intros Hx. destruct (Hr _ Hx) as [?|[?|[(y & ty & f & w & v' & H1 & H2 & H3)|(y & H1 & [H2|H2])]]]; [done..| | |].
  - by eapply H3, Hsaw.
  - by destruct (Hmade _ H1).
  - by destruct (Hmade _ H1).
Qed.

(** Cached values are not forgotten.  A demand keeps the cached value, and the record of what it was computed from, of
    every thunk it does not run; the thunks it runs have a value afterwards.  (The exception is a thunk that the demanded
    computation itself allocates again with another argument.) *)
Theorem C56_demand_remembers s t l v s' k :
  reached opt md s → disciplined_demand opt md t l (holds s) → force k t l None s = (OVal v, s') →
  ∃ rs, runs s' = rs ++ runs s ∧ ∀ x w, cached s x w → holds s' !! x = holds s !! x →
    (x ∈ rs → evaluated s' x) ∧
    (x ∉ rs → cached s' x w ∧ ∀ y t0 f w0, saw s x y t0 f w0 ↔ saw s' x y t0 f w0).
Proof.
  intros Hs Hd Hf. destruct (demand_justified _ _ _ _ _ _ Hs Hd Hf) as (rs & Hrs & _ & Hrm). exists rs. split; [done|].
  intros x w (c0 & Hc0 & Hw) Hh. destruct (Hrm x c0 w Hc0 Hw) as [?|(c & w' & Hc & Hw' & Hk)]; [done|].
  split; [intros _; by exists w', c|]. intros Hx. destruct (Hk Hx) as [-> Hsh]. split; [by exists c|].
  assert (Hone : ∀ c1 c2 : compnode, shape <$> c_succs c1 = shape <$> c_succs c2 → ∀ e, e ∈ c_succs c1 → ∃ e', e' ∈ c_succs c2 ∧ shape e' = shape e).
  { intros c1 c2 E e He. assert (shape e ∈ shape <$> c_succs c2) as (e' & ? & ?)%elem_of_list_fmap by (rewrite <- E; by apply elem_of_list_fmap_1).
    by exists e'. }
  intros y t0 f w0. split; intros (c1 & e & Hc1 & He & Heff & Hy & Hdep).
  - assert (c1 = c0) as -> by congruence. destruct (Hone c0 c (eq_sym Hsh) e He) as (e' & He' & Es).
    exists c, e'. injection Es as E1 E2 E3. rewrite E1, E2, E3. done.
  - assert (c1 = c) as -> by congruence. destruct (Hone c c0 Hsh e He) as (e' & He' & Es).
    exists c0, e'. injection Es as E1 E2 E3. rewrite E1, E2, E3. done.
Qed.
(** Edits, in any state and whatever their outcome, keep every cached value; only allocating a thunk's own name again with
    another argument drops its value. *)
Theorem C56_edits_remember s s' x w :
  cached s x w →
  (∀ t a v o, set_op t a v s = (o, s') → cached s' x w) ∧
  (∀ t n v o, cell_op t n v s = (o, s') → cached s' x w) ∧
  (∀ t nc pp arg spur l, thunk_op t nc pp arg spur s = (OVal l, s') → cached s' x w ∨ x = l ∧ holds s' !! x ≠ holds s !! x).
Proof.
  intros (c & Hc & Hw).
  assert (Hr : onode_raised (table s !! x) (table s' !! x) → cached s' x w).
  { rewrite Hc. simpl. destruct (table s' !! x) as [nd'|] eqn:E; [|done]. intros (es & -> & _). by exists (with_succs es c). }
  assert (Hd : ∀ l, onode_dropped l (table s !! x) (table s' !! x) → cached s' x w).
  { intros l. rewrite Hc. simpl. destruct (table s' !! x) as [nd'|] eqn:E; [|done]. intros (nd1 & [->|Hp] & Hn).
    - destruct Hn as (es & -> & _). by exists (with_succs es c).
    - simpl in Hp. injection Hp as <-. destruct Hn as (es & -> & _). eexists. split; [exact E|]. done. }
  split_and!.
  - intros t a v o E. destruct (post_elim _ _ _ _ _ (set_op_any t a v s) E) as (_ & _ & Hx & Hl & _).
    destruct (decide (a = ALoc x)) as [->|Hne]; [|by apply Hr, Hx].
    destruct (Hl x eq_refl) as [E'|(ps & v0 & E' & _)]; [|congruence]. exists c. rewrite E'. done.
  - intros t n v o E. destruct (post_elim _ _ _ _ _ (cell_op_any t n v s) E) as [_ _ Hx _ Hl _].
    destruct (decide (x = cell_loc s n v)) as [->|Hne]; [|by eapply Hd, Hx].
    rewrite Hc in Hl. destruct Hl as (nd & Hnd & Hdr). apply (Hd (cell_loc s n v)). rewrite Hc, Hnd. exact Hdr.
  - intros t nc pp arg spur l E. destruct (post_elim _ _ _ _ _ (thunk_op_any t nc pp arg spur s) E) as [_ _ Hx _ _ Hl].
    destruct (Hl _ eq_refl) as [-> Hl']. destruct (decide (x = thunk_loc s nc pp arg)) as [->|Hne]; [|left; by apply Hr, Hx].
    rewrite Hc in Hl'. destruct Hl' as [[_ E']|(_ & _ & Hpp & [[_ E']|(Hne & es & E' & _)])].
    + left. exists c. rewrite E'. done.
    + left. exists c. rewrite E'. done.
    + right. split; [done|]. unfold holds. rewrite !contents_lookup, E', Hc. simpl. intros [= Ha]. done.
Qed.
End Cutoff.

(** ** A concrete case: [s] is the sign of cell [a], [t] reads [s]; after [a] goes from 1 to 10, demanding [t] runs [s] but
    not [t]; after [a] goes to -3, both. *)
Local Open Scope string_scope. Local Open Scope list_scope.
Local Existing Instance demo.
Definition ex_cut_setup (z : Z) : comp :=
  cell0 "a" 1 (λ a, thunk0 "s" "sign" (VLoc a) (λ s, thunk0 "t" "get" (VLoc s) (λ t,
  demand0 t (λ _, SetC T0 (ALoc a) (VInt z) (Ret VUnit))))).
Definition ex_c1 (z : Z) : dcg := (exec 40 (ex_cut_setup z) dcg_new).2.
Definition ex_c2 (z : Z) : dcg := (force 40 T0 (at_ "t") None (ex_c1 z)).2.
Lemma ex_c1_reached : reached true false (ex_c1 10).
Proof.
  exists (ex_cut_setup 10), 40%nat, VUnit. split; [apply (disciplined_intro 30); vm_compute; reflexivity|]. unfold ex_c1.
  replace (OVal VUnit) with ((exec 40 (ex_cut_setup 10) dcg_new).1); [apply surjective_pairing|]. vm_compute. reflexivity.
Qed.
Lemma ex_c1_demand : disciplined_demand true false T0 (at_ "t") (holds (ex_c1 10)) ∧ force 40 T0 (at_ "t") None (ex_c1 10) = (OVal (VInt 1), ex_c2 10).
Proof.
  split.
  - assert (match d_force true false 30 [] false T0 (at_ "t") (d_init (holds (ex_c1 10))) with Some _ => true | None => false end = true) as E by (vm_compute; reflexivity).
    destruct (d_force true false 30 [] false T0 (at_ "t") (d_init (holds (ex_c1 10)))) as [[v p]|] eqn:E'; [|done]. by exists 30%nat, v, p.
  - unfold ex_c2. replace (OVal (VInt 1)) with ((force 40 T0 (at_ "t") None (ex_c1 10)).1); [apply surjective_pairing|]. vm_compute. reflexivity.
Qed.
(** Through the theorem: [t] is not run. *)
Lemma ex_cutoff : ∃ rs, runs (ex_c2 10) = rs ++ runs (ex_c1 10) ∧ at_ "t" ∉ rs.
Proof.
  destruct ex_c1_demand as [Hd Hf]. apply (C56_early_cutoff true false (ex_c1 10) T0 (at_ "t") (VInt 1) (ex_c2 10) 40).
  - apply ex_c1_reached.
  - exact Hd.
  - exact Hf.
  - eexists _, _. split; [vm_compute; reflexivity|reflexivity].
  - vm_compute. reflexivity.
  - intros y ty f w v' (c & e & Hc & He & Ho & Hy & Hdep) Hg.
    assert (∃ c', table (ex_c1 10) !! at_ "t" = Some (NComp c') ∧ c_succs c' = [Succ true (at_ "s") Observe (DForce T0 (VInt 1))]) as (c' & Hc' & Hes)
      by (eexists; split; [vm_compute; reflexivity|reflexivity]).
    rewrite Hc in Hc'. injection Hc' as <-. rewrite Hes in He. apply elem_of_list_singleton in He as ->. simpl in *. subst y.
    destruct Hdep as [[E ->]|E]; [|discriminate E]. injection E as <- <-.
    apply (gives_fun (ex_c2 10) T0 (at_ "s")); [exact Hg|].
    apply up_to_date_gives; [vm_compute; reflexivity|]. vm_compute. split; [reflexivity|]. split; [reflexivity|].
    intros e He. apply elem_of_list_singleton in He as ->. reflexivity.
  - intros y (c & e & Hc & He & Ho & Hy).
    assert (∃ c', table (ex_c1 10) !! at_ "t" = Some (NComp c') ∧ c_succs c' = [Succ true (at_ "s") Observe (DForce T0 (VInt 1))]) as (c' & Hc' & Hes)
      by (eexists; split; [vm_compute; reflexivity|reflexivity]).
    rewrite Hc in Hc'. injection Hc' as <-. rewrite Hes in He. apply elem_of_list_singleton in He as ->. discriminate Ho.
Qed.
(** By computation: what is run in the two cases. *)
Lemma ex_cutoff_runs : take (length (runs (ex_c2 10)) - length (runs (ex_c1 10))) (runs (ex_c2 10)) = [at_ "s"] ∧
  take (length (runs (ex_c2 (-3))) - length (runs (ex_c1 (-3)))) (runs (ex_c2 (-3))) = [at_ "t"; at_ "s"].
Proof. vm_compute. done. Qed.
(** Both have cached values that the edit kept, and [t]'s is still there after the demand. *)
Lemma ex_remembered : cached (ex_c1 10) (at_ "s") (VInt 1) ∧ cached (ex_c1 10) (at_ "t") (VInt 1) ∧ cached (ex_c2 10) (at_ "t") (VInt 1) ∧
  holds (ex_c2 10) !! at_ "t" = holds (ex_c1 10) !! at_ "t".
Proof.
  split; [|split; [|split]].
  - eexists. split; [vm_compute; reflexivity|reflexivity].
  - eexists. split; [vm_compute; reflexivity|reflexivity].
  - eexists. split; [vm_compute; reflexivity|reflexivity].
  - vm_compute. reflexivity.
Qed.
