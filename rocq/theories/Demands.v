(** * C05, C06, C09, C10, C11, C46: repeated demands, no-op edits, meaning of the dirty bits, locality. *)
From Verif Require Export Consistency Edits Context Types.

(** The state is the same except for the effect trace. *)
Definition same_but_trace (s s' : dcg) : Prop :=
  table s' = table s ∧ stack s' = stack s ∧ cpath s' = cpath s ∧ structf s' = structf s ∧
  purity s' = purity s ∧ runs s' = runs s.

(** [x] has recorded a dependency on [y] (as an observation or an allocation). *)
Definition depends (s : dcg) (x y : loc) : Prop :=
  ∃ c e, table s !! x = Some (NComp c) ∧ e ∈ c_succs c ∧ s_loc e = y.

(** The location holds a computed, fully clean result (or is a cell holding [v]). *)
Definition up_to_date (s : dcg) (t : ty) (l : loc) (v : val) : Prop :=
  match table s !! l with
  | Some (NComp c) => c_ty c = t ∧ c_res c = Some v ∧ all_clean (c_succs c)
  | Some (NMut t' _ w) | Some (NPure t' w) => t' = t ∧ w = v
  | None => False
  end.

Section Demands.
Context `{Prog}.

Lemma clean_comp_clean prod cln t w l cache es s :
  (∀ e, e ∈ es → nbit s l (s_eff e) (s_loc e) = Some false) →
  clean_comp prod cln t w l cache es s = (OVal (bool_decide (w ≠ cache)), s).
Proof.
  induction es as [|e es IH]; intros Hes; [done|]. cbn [clean_comp].
  assert (Hb := Hes e ltac:(by left)). unfold nbit in Hb. destruct (table s !! l) as [[| |c]|] eqn:Hl; try done.
  rewrite (bind_val _ _ s false s) by (by eapply get_dirty_eq). apply IH. intros e' He'. apply Hes. by right.
Qed.

(** An up-to-date location is returned without any work, in any state of any engine
    in which it is not itself being evaluated. *)
Theorem force_up_to_date k t l cyc s v :
  up_to_date s t l v → l ∉ (f_loc <$> stack s) →
  ∃ s', force (S k) t l cyc s = (OVal v, s') ∧ table s' = table s ∧ runs s' = runs s ∧
    cpath s' = cpath s ∧ structf s' = structf s ∧ purity s' = purity s ∧ (stack s = [] → stack s' = []).
Proof.
  intros Hu Hns. unfold up_to_date in Hu. destruct (table s !! l) as [nd|] eqn:Hl; [|done].
  assert (node_ty nd = t) as Ht by (by destruct nd; destruct Hu).
  assert (Hfin : ∀ dup pure s0, ∃ s', force_finish l dup pure t v s0 = (OVal v, s') ∧ table s' = table s0 ∧ runs s' = runs s0 ∧
     cpath s' = cpath s0 ∧ structf s' = structf s0 ∧ purity s' = purity s0 ∧ (stack s0 = [] → stack s' = [])).
  { intros dup pure s0. unfold force_finish. destruct (dup || pure); [by exists s0|].
    eexists. rewrite (bind_val _ _ _ tt (push_edge (Succ false l Observe (DForce t v)) None s0).2) by done. split; [done|].
    unfold push_edge, modify. simpl. destruct (stack s0) eqn:E; simpl; rewrite ?E; done. }
  unfold force, force_loc. rewrite (bind_val get _ s s s) by done. cbv zeta.
  rewrite (bind_val _ _ s nd s) by (by apply res_node_eq).
  destruct nd as [t0 ps w|t0 w|c].
  - destruct Hu as [_ ->]. rewrite (bind_val (emit _) _ s tt (add_ev (EvEff (TForce RefGet) (cur_loc s) l) s)) by done.
    destruct (Hfin (is_dup s l) false (add_ev (EvEff (TForce RefGet) (cur_loc s) l) s)) as (s' & -> & Hx). by exists s'.
  - destruct Hu as [_ ->]. rewrite (bind_val (emit _) _ s tt (add_ev (EvEff (TForce RefGet) (cur_loc s) l) s)) by done.
    destruct (Hfin (is_dup s l) true (add_ev (EvEff (TForce RefGet) (cur_loc s) l) s)) as (s' & -> & Hx). by exists s'.
  - destruct Hu as (_ & Hres & Hac).
    assert (is_cycle s l = false) as ->.
    { apply not_true_is_false. unfold is_cycle. rewrite existsb_exists. intros (f & Hf & Hfl%bool_decide_eq_true_1).
      apply Hns. rewrite <- Hfl. apply elem_of_list_fmap_1. by apply elem_of_list_In. }
    rewrite Hres. set (ev := EvBegin (TForce CompCacheHit) (cur_loc s) l).
    rewrite (bind_val (emit _) _ s tt (add_ev ev s)) by done. cbn [clean].
    unfold clean_body at 1.
    rewrite (bind_val _ _ (add_ev ev s) (bool_decide (v ≠ v)) (add_ev ev s)).
    2:{ rewrite (bind_val _ _ (add_ev ev s) (NComp c) (add_ev ev s)) by (by apply res_node_eq). rewrite Hres.
        apply clean_comp_clean. intros e He. unfold nbit. simpl. rewrite Hl. by apply Hac. }
    rewrite (bind_val (emit _) _ (add_ev ev s) tt (add_ev EvEnd (add_ev ev s))) by done.
    rewrite (bind_val _ _ _ (NComp c) (add_ev EvEnd (add_ev ev s))) by (by apply res_node_eq). rewrite Hres.
    edestruct (Hfin (is_dup s l)) as (s' & -> & Hx). by exists s'.
Qed.

Context (opt md : bool).
Lemma reached_inv s : reached opt md s → Inv opt md (table s) [].
Proof.
  intros (HE & _)%reached_Ed. destruct HE as [HR Hs]. assert (Hi := R_inv _ _ _ _ _ _ HR). by rewrite Hs in Hi.
Qed.
Lemma reached_idle s : reached opt md s → idle s.
Proof. intros (HE & Hc & _)%reached_Ed. split; [apply HE|done]. Qed.
Lemma reached_struc s : reached opt md s → Struc s.
Proof. intros (HE & _)%reached_Ed. apply (Inv_Struc opt md), (R_inv _ _ _ _ _ _ (ed_R _ _ _ _ HE)). Qed.

Theorem demand_up_to_date s t l k v s' :
  reached opt md s → disciplined_demand opt md t l (holds s) → force k t l None s = (OVal v, s') →
  up_to_date s' t l v ∧ reached opt md s'.
Proof.
  intros Hs Hd Hf. destruct (demand_after_history opt md s t l Hs Hd) as (v1 & σ' & lg & s1 & rs & Hfs & (K & Hk) & <- & Hrs & Hnd & _ & Hre).
  assert (force (K + k)%nat t l None s = (OVal v, s')) as E by (eapply force_fuel_mono; [exact Hf|done|lia]).
  rewrite Hk in E by lia. injection E as -> ->. split; [|done].
  destruct Hd as (n & v2 & p & Hd). destruct (reached_Ed _ _ _ Hs) as (HE & Hc & Hst & _).
  destruct (force_editor opt md n md t l None _ v2 p s HE Hst Hd) as (K2 & a & s2 & Hk2 & -> & _ & _ & _ & _ & _ & Hu).
  specialize (Hk (K + K2)%nat ltac:(lia)). rewrite Hk2 in Hk by lia. injection Hk as -> ->. exact Hu.
Qed.

(** C05.  Forcing again, with any budget [≥ 1], gives the same value, runs nothing and changes nothing. *)
Theorem C05_repeat_demand s t l k v s' k' cyc :
  reached opt md s → disciplined_demand opt md t l (holds s) → force k t l None s = (OVal v, s') →
  ∃ s'', force (S k') t l cyc s' = (OVal v, s'') ∧ same_but_trace s' s''.
Proof.
  intros Hs Hd Hf. destruct (demand_up_to_date _ _ _ _ _ _ Hs Hd Hf) as [Hu Hre].
  destruct (reached_idle _ Hre) as [Hst _].
  destruct (force_up_to_date k' t l cyc s' v Hu) as (s'' & E & ? & ? & ? & ? & ? & Hst').
  { rewrite Hst. simpl. by intros ?%elem_of_nil. }
  exists s''. split; [done|]. split_and!; try done. rewrite Hst'; done.
Qed.
(** In any state whatsoever: a cached and completely clean thunk is returned without work. *)
Theorem C05_clean_cache_hit s t l c v k cyc :
  stack s = [] → table s !! l = Some (NComp c) → c_ty c = t → c_res c = Some v →
  (∀ e, e ∈ c_succs c → s_dirty e = false) →
  ∃ s', force (S k) t l cyc s = (OVal v, s') ∧ same_but_trace s s'.
Proof.
  intros Hst Hl Ht Hres Hcl. destruct (force_up_to_date k t l cyc s v) as (s' & E & ? & ? & ? & ? & ? & Hst').
  - unfold up_to_date. rewrite Hl. split_and!; try done. intros e He. unfold bit.
    destruct (find_succ_elem _ _ He) as (e' & He'). rewrite He'. simpl. f_equal. apply Hcl. by apply find_succ_Some in He' as [? _].
  - rewrite Hst. simpl. by intros ?%elem_of_nil.
  - exists s'. split; [done|]. split_and!; try done. rewrite Hst'; done.
Qed.

(** C06.  No-op edits, in every state with nothing executing. *)
Theorem C06_set_same s t l ps v :
  stack s = [] → table s !! l = Some (NMut t ps v) → set_op t (ALoc l) v s = (OVal tt, s).
Proof.
  intros Hst Hl. unfold set_op. rewrite (bind_val get _ s s s) by done. rewrite Hst. unfold set_val.
  rewrite (bind_val _ _ s (NMut t ps v) s) by (by apply res_node_eq). by rewrite decide_True.
Qed.
Theorem C06_cell_same s t n ps v :
  stack s = [] → structf s = false → table s !! Loc (cpath s) (IdNom n) = Some (NMut t ps v) →
  ∃ s', cell_op t n v s = (OVal (Loc (cpath s) (IdNom n)), s') ∧ same_but_trace s s'.
Proof.
  intros Hst Hsf Hl. unfold cell_op. rewrite (bind_val get _ s s s) by done. rewrite Hsf. simpl (false && _). cbv zeta. simpl in Hl.
  set (l := Loc (cpath s) (IdNom n)) in *. rewrite Hl.
  rewrite (bind_val _ _ s (false, true, None, false) s).
  2:{ by rewrite (bind_val _ _ s (NMut t ps v) s) by (by apply res_node_eq). }
  rewrite (bind_val _ _ s (LocExists ContentSame) s).
  2:{ rewrite (bind_val _ _ s false s); [done|]. unfold check_cell_change.
      rewrite (bind_val _ _ s (NMut t ps v) s) by (by apply res_node_eq). unfold ret. do 2 f_equal.
      apply bool_decide_eq_false_2. by intros Hn; apply Hn. }
  set (ev := EvBegin _ _ _). rewrite (bind_val (emit ev) _ s tt (add_ev ev s)) by done.
  rewrite (bind_val _ _ (add_ev ev s) tt (add_ev ev s)).
  2:{ unfold set_val. rewrite (bind_val _ _ (add_ev ev s) (NMut t ps v) (add_ev ev s)) by (by apply res_node_eq). by rewrite decide_True. }
  eexists. split; [reflexivity|]. unfold push_edge, modify. simpl. rewrite Hst. simpl. split_and!; done.
Qed.
Theorem C06_thunk_same s t n pp arg spur c :
  stack s = [] → structf s = false → table s !! Loc (cpath s) (IdNom n) = Some (NComp c) →
  c_ty c = t → c_pp c = pp → c_arg c = arg →
  ∃ s', thunk_op t (NCNominal n) pp arg spur s = (OVal (Loc (cpath s) (IdNom n)), s') ∧ same_but_trace s s'.
Proof.
  intros Hst Hsf Hl Ht Hpp Harg. unfold thunk_op. rewrite (bind_val get _ s s s) by done. rewrite Hsf. cbv zeta.
  set (l := Loc (cpath s) (IdNom n)) in *. rewrite Hl.
  rewrite (bind_val _ _ s (false, false, false) s).
  2:{ rewrite (bind_val _ _ s tt s). 2:{ simpl. by rewrite bool_decide_true. } by rewrite !decide_True. }
  eexists. split; [reflexivity|]. unfold push_edge, modify. simpl. rewrite Hst. simpl. split_and!; done.
Qed.
(** The structural forms: an existing structurally named thunk is shared, whatever the state. *)
Theorem C06_thunk_same_structural s t pp arg spur nd :
  table s !! Loc (cpath s) (IdStruct (hash_app pp arg)) = Some nd →
  thunk_op t NCStructural pp arg spur s = (OVal (Loc (cpath s) (IdStruct (hash_app pp arg))), s).
Proof. intros Hl. unfold thunk_op. rewrite (bind_val get _ s s s) by done. cbv zeta iota. by rewrite Hl. Qed.

(** C09, first half.  An edge marked clean records what re-observing (or re-allocating) its target would
    yield now: forcing the target returns the recorded value without running anything. *)
Theorem C09_clean_edges_up_to_date s x c e :
  reached opt md s → table s !! x = Some (NComp c) → e ∈ c_succs c →
  bit (s_eff e) (s_loc e) (c_succs c) = Some false →
  match s_dep e with
  | DForce t w => ∀ k, ∃ s', force (S k) t (s_loc e) None s = (OVal w, s') ∧ same_but_trace s s'
  | DForceMap t f w => ∃ ps v, table s !! s_loc e = Some (NMut t ps v) ∧ f v = w
  | DForceAbs => False
  | DAllocStruct => ∃ c', table s !! s_loc e = Some (NComp c')
  | DAllocThunk a => ∃ c', table s !! s_loc e = Some (NComp c') ∧ c_arg c' = a
  | DAllocCell w => ∃ t ps, table s !! s_loc e = Some (NMut t ps w)
  end.
Proof.
  intros Hs Hx He Hb. assert (Hi := reached_inv _ Hs). destruct (reached_idle _ Hs) as [Hst _].
  assert (Hv := i_valid _ _ _ _ Hi _ _ _ Hx He Hb). destruct (i_edge _ _ _ _ Hi _ _ _ Hx He) as [Hw _].
  unfold valid, wfe, sh_loc, sh_dep, sh_eff, shape in *. simpl in *. destruct (s_dep e) as [t w|t f w| | |a|w].
  - intros k. destruct (force_up_to_date k t (s_loc e) None s w) as (s' & E & ? & ? & ? & ? & ? & Hst').
    + unfold up_to_date. destruct Hw as [_ [(ps & v & Hn)|(c' & Hn & Ht)]]; rewrite Hn in *; [done|].
      destruct Hv as (? & ? & _). done.
    + rewrite Hst. simpl. by intros ?%elem_of_nil.
    + exists s'. split; [done|]. split_and!; try done. rewrite Hst'; done.
  - destruct Hw as (_ & ps & v & Hn). rewrite Hn in *. eauto.
  - done.
  - destruct Hw as (_ & _ & ?). done.
  - destruct Hw as (_ & _ & c' & Hn). rewrite Hn in *. eauto.
  - destruct Hw as (_ & t & ps & v & Hn). rewrite Hn in *. subst. eauto.
Qed.
(** Second half.  If thunk [y] is out of date (no result, or a dirty dependency) then every recorded
    observer of it has its edge to [y] dirty. *)
Theorem C09_dirty_propagated s y c x cx e :
  reached opt md s → table s !! y = Some (NComp c) →
  (c_res c = None ∨ ∃ e', e' ∈ c_succs c ∧ bit (s_eff e') (s_loc e') (c_succs c) = Some true) →
  table s !! x = Some (NComp cx) → e ∈ c_succs cx → s_loc e = y → s_eff e = Observe →
  bit Observe y (c_succs cx) = Some true.
Proof.
  intros Hs Hy Hout Hx He <- Heff. assert (Hi := reached_inv _ Hs).
  destruct (bit_dec Observe (s_loc e) (c_succs cx)) as [Hb|[?|Hb]]; [|done|].
  - destruct (bit_elem e _ He) as (b & Hb'). rewrite Heff in Hb'. congruence.
  - exfalso. rewrite <- Heff in Hb. assert (Hv := i_valid _ _ _ _ Hi _ _ _ Hx He Hb).
    destruct (i_edge _ _ _ _ Hi _ _ _ Hx He) as [Hw _].
    unfold valid, wfe, sh_loc, sh_dep, sh_eff, shape in *. simpl in *. rewrite Hy in *. destruct (s_dep e); try done.
    + destruct Hv as (Hr & Hac & _). destruct Hout as [?|(e' & He' & Hb')]; [congruence|]. rewrite (Hac _ He') in Hb'. done.
    + destruct Hw as [? _]. congruence.
    + destruct Hw as [? _]. congruence.
Qed.

(** C10.  Every recorded dependency has a matching reverse entry at its (existing) target, and every
    reverse entry comes from a recorded dependency. *)
Theorem C10_edges_symmetric s :
  reached opt md s →
  (∀ x c e, table s !! x = Some (NComp c) → e ∈ c_succs c →
     ∃ nd pr, table s !! s_loc e = Some nd ∧ pr ∈ node_preds nd ∧ p_loc pr = x ∧ p_eff pr = s_eff e) ∧
  (∀ y nd pr, table s !! y = Some nd → pr ∈ node_preds nd →
     ∃ c e, table s !! p_loc pr = Some (NComp c) ∧ e ∈ c_succs c ∧ s_loc e = y ∧ s_eff e = p_eff pr).
Proof.
  intros Hs. assert (Hi := reached_inv _ Hs). split.
  - intros x c e Hx He. destruct (i_edge _ _ _ _ Hi _ _ _ Hx He) as [Hw _].
    assert (∃ nd, table s !! s_loc e = Some nd) as (nd & Hnd).
    { unfold wfe, sh_loc, sh_dep, sh_eff, shape in Hw. simpl in Hw. destruct (s_dep e); naive_solver. }
    exists nd, (Pred x (s_eff e) (pdep (s_dep e))). split; [done|]. split; [|done]. by eapply i_pred.
  - intros y nd pr Hy Hpr. destruct (i_predinv _ _ _ _ Hi _ _ _ Hy Hpr) as (c & e & ? & ? & ? & ? & _). eauto 10.
Qed.
(** No thunk depends on itself, and a thunk observes each location at most once. *)
Theorem C10_no_self_edges s x : reached opt md s → ¬ depends s x x.
Proof. intros Hs (c & e & Hx & He & Hl). assert (Hi := reached_inv _ Hs). by destruct (i_edge _ _ _ _ Hi _ _ _ Hx He) as [_ Hne]. Qed.

(** C11.  Cells hold what was last written, everything else is kept. *)
Theorem C11_set_get s t l v s' k cyc :
  set_op t (ALoc l) v s = (OVal tt, s') →
  (∃ s'', force k t l cyc s' = (OVal v, s'') ∧ table s'' = table s') ∧
  (∀ x, x ≠ l → holds s' !! x = holds s !! x) ∧ holds s' !! l = Some (CCell t v).
Proof.
  intros Hset. destruct (post_elim _ _ _ _ _ (set_op_any t (ALoc l) v s) Hset) as (_ & Hr & Hx & _ & Hv).
  destruct (Hv eq_refl) as (l' & ps & v0 & [= <-] & Hl & Hl'). split_and!.
  - unfold force, force_loc. rewrite (bind_val get _ s' s' s') by done. cbv zeta.
    rewrite (bind_val _ _ s' (NMut t ps v) s') by (by apply res_node_eq).
    rewrite (bind_val (emit _) _ _ tt (add_ev (EvEff (TForce RefGet) (cur_loc s') l) s')) by done.
    unfold force_finish. destruct (is_dup s' l || false); [by eexists|].
    eexists. rewrite (bind_val _ _ _ tt (push_edge (Succ false l Observe (DForce t v)) None (add_ev (EvEff (TForce RefGet) (cur_loc s') l) s')).2) by done.
    split; [done|]. unfold push_edge, modify. simpl. by destruct (stack s').
  - intros x Hne. unfold holds. rewrite !contents_lookup. specialize (Hx x ltac:(congruence)).
    destruct (table s !! x) as [[| |c]|], (table s' !! x) as [nd|]; simpl in Hx; try done; try (by subst).
    destruct Hx as (es & -> & _). done.
  - unfold holds. by rewrite contents_lookup, Hl'.
Qed.
Theorem C11_cell_get s t n v l s' k cyc :
  structf s = false →
  (∀ c, table s !! Loc (cpath s) (IdNom n) ≠ Some (NComp c)) →
  (∀ t w, table s !! Loc (cpath s) (IdNom n) ≠ Some (NPure t w)) →
  cell_op t n v s = (OVal l, s') →
  l = Loc (cpath s) (IdNom n) ∧
  (∃ s'', force k t l cyc s' = (OVal v, s'') ∧ table s'' = table s') ∧
  (∀ x, x ≠ l → holds s' !! x = holds s !! x) ∧ holds s' !! l = Some (CCell t v).
Proof.
  intros Hsf Hnc Hnp Hc. destruct (post_elim _ _ _ _ _ (cell_op_any t n v s) Hc) as [_ _ _ Hx _ Hv].
  assert (cell_loc s n v = Loc (cpath s) (IdNom n)) as Hcl by (unfold cell_loc; by rewrite Hsf). rewrite Hcl, Hsf in *. simpl (false && _) in Hv.
  destruct (Hv _ eq_refl) as [-> Hl]. split; [done|].
  assert (∃ ps, table s' !! Loc (cpath s) (IdNom n) = Some (NMut t ps v)) as (ps & Hl').
  { destruct (table s !! _) as [[]|] eqn:E; [|by destruct (Hnp _ _ eq_refl)|by destruct (Hnc _ eq_refl)|]; [|eauto]. destruct Hl as [_ ?]. eauto. }
  split_and!.
  - unfold force, force_loc. rewrite (bind_val get _ s' s' s') by done. cbv zeta. set (l := Loc _ _) in *.
    rewrite (bind_val _ _ s' (NMut t ps v) s') by (by apply res_node_eq).
    rewrite (bind_val (emit _) _ _ tt (add_ev (EvEff (TForce RefGet) (cur_loc s') l) s')) by done.
    unfold force_finish. destruct (is_dup s' l || false); [by eexists|].
    eexists. rewrite (bind_val _ _ _ tt (push_edge (Succ false l Observe (DForce t v)) None (add_ev (EvEff (TForce RefGet) (cur_loc s') l) s')).2) by done.
    split; [done|]. unfold push_edge, modify. simpl. by destruct (stack s').
  - intros x Hne. unfold holds. rewrite !contents_lookup. specialize (Hx Hnc x Hne).
    destruct (table s !! x) as [[| |c]|], (table s' !! x) as [nd|]; simpl in Hx; try done; try (by subst).
    destruct Hx as (es & -> & _). done.
  - unfold holds. by rewrite contents_lookup, Hl'.
Qed.

(** C46.  Locality: an edit of a location outside everything an up-to-date thunk (transitively) depends
    on leaves it up to date; demanding it again runs nothing. *)
Theorem C46_unrelated_set s t l v t0 l0 w s' :
  reached opt md s → up_to_date s t l v → ¬ rtc (depends s) l l0 →
  set_op t0 (ALoc l0) w s = (OVal tt, s') →
  ∀ k cyc, ∃ s'', force (S k) t l cyc s' = (OVal v, s'') ∧ same_but_trace s' s''.
Proof.
  intros Hs Hu Hcone Hset k cyc. destruct (reached_idle _ Hs) as [Hst _]. assert (Hi := reached_inv _ Hs).
  assert (l ≠ l0) as Hne by (intros ->; by apply Hcone).
  assert (up_to_date s' t l v ∧ stack s' = []) as [Hu' Hst'].
  { unfold set_op in Hset. rewrite (bind_val get _ s s s) in Hset by done. rewrite Hst in Hset. unfold set_val in Hset.
    destruct (table s !! l0) as [nd|] eqn:Hl0.
    2:{ unfold res_node, lookup_abs, bind, get, panic in Hset. rewrite Hl0 in Hset. done. }
    destruct (decide (node_ty nd = t0)) as [Ht|Ht].
    2:{ unfold res_node in Hset. unfold bind in Hset. rewrite (lookup_abs_eq _ _ _ Hl0) in Hset. rewrite bool_decide_false in Hset by done. done. }
    rewrite (bind_val _ _ s nd s) in Hset by (by apply res_node_eq). destruct nd as [t1 ps v0| |]; try done.
    destruct (decide (v0 = w)) as [->|Hvw]; [by injection Hset as <-|].
    rewrite (bind_val _ _ s tt (set_table (<[l0:=NMut t1 ps w]> (table s)) s)) in Hset by done.
    set (s1 := set_table _ s) in *.
    assert (Struc s1) as Hst1.
    { eapply Struc_rebound; [by apply reached_struc|exact Hl0| |done]. constructor. }
    destruct (dirty_alloc_ok l0 s1 (NMut t1 ps w) Hst1) as (s2 & E & Hpost & _ & _); [by simpl; rewrite lookup_insert|done|].
    rewrite Hset in E. injection E as <-.
    assert (Hsafe := da_safe _ _ _ Hpost (λ x, rtc (depends s) l x)).
    assert (∀ y nd pr, table s1 !! y = Some nd → pr ∈ node_preds nd → rtc (depends s) l (p_loc pr) → rtc (depends s) l y) as Hclo.
    { intros y nd pr Hy Hpr Hr. assert (∃ nd0, table s !! y = Some nd0 ∧ pr ∈ node_preds nd0) as (nd0 & Hy0 & Hpr0).
      { simpl in Hy. destruct (decide (y = l0)) as [->|Hyn].
        - rewrite lookup_insert in Hy. injection Hy as <-. eauto.
        - rewrite lookup_insert_ne in Hy by done. eauto. }
      destruct (i_predinv _ _ _ _ Hi _ _ _ Hy0 Hpr0) as (c & e & Hc & He & <- & _).
      eapply rtc_r; [exact Hr|]. exists c, e. done. }
    specialize (Hsafe (λ y nd pr Hy Hpr _, Hclo y nd pr Hy Hpr) Hcone).
    split; [|rewrite (bl_stack _ _ (da_le _ _ _ Hpost)); done].
    unfold up_to_date in *. destruct (table s !! l) as [nd|] eqn:Hl; [|done].
    assert (table s1 !! l = Some nd) as Hl1 by (simpl; by rewrite lookup_insert_ne).
    destruct (bl_node _ _ (da_le _ _ _ Hpost) _ _ Hl1) as (nd' & Hl' & Hle). rewrite Hl'.
    destruct nd as [| |c]; destruct nd' as [| |c']; simpl in Hle; try done; try (by injection Hle as <- <- <-); try (by injection Hle as <- <-).
    destruct Hle as (Hc' & Hsh & Hup). destruct Hu as (Hty & Hres & Hac).
    split; [by rewrite Hc'|]. split; [by rewrite Hc'|]. intros e' He'.
    destruct (shapes_elem _ _ e' Hsh He') as (e & He & Hse). apply shape_eq in Hse as (E1 & E2 & _).
    destruct (bit_dec (s_eff e') (s_loc e') (c_succs c')) as [Hb|[Hb|Hb]]; [| |done].
    - destruct (bit_elem e' _ He') as (b & Hb'). congruence.
    - exfalso. destruct (Hsafe) with (q := l) (eff := s_eff e') (tgt := s_loc e') as [Hn _].
      + intros nd pr Hnd Hpr _ Hr. apply Hcone. by eapply Hclo.
      + split; unfold nbit; rewrite ?Hl1, ?Hl'; [|done]. rewrite <- E1, <- E2. rewrite (Hac _ He). done.
      + by apply Hn. }
  destruct (force_up_to_date k t l cyc s' v Hu') as (s'' & E & ? & ? & ? & ? & ? & Hst'').
  { rewrite Hst'. simpl. by intros ?%elem_of_nil. }
  exists s''. split; [done|]. split_and!; try done. rewrite Hst''; done.
Qed.
End Demands.
