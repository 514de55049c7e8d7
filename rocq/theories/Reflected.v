(** * C54: the snapshot of the graph taken by [dcg_reflect_now] (src/engine.rs:131-138, reflect.rs:69-275). *)
From Coq Require Import Ascii.
From Verif Require Export Parse WfCheck.
Local Open Scope list_scope.

(** ** The reflected graph: reflect.rs:131-137 [Loc] ([Path] root first), 143-156 [Effect], 161-184 [Succ], 197-202 [Pred],
    207-213 [CompNode], 217-220 [RefNode], 224-226 [PureNode], 231-235 [Node], 256-259 [Frame], 263-273 [DCG]. *)
Inductive reffect := RForce | RAlloc.
Definition rloc := (list name * name)%type.
(** The field [value] of a reflected [Succ] is always [ValTODO] and [is_dup] always [false] (engine.rs:533-543): left out. *)
Record rsucc := RSucc { rs_dirty : bool; rs_loc : rloc; rs_eff : reffect }.
Record rpred := RPred { rp_loc : rloc; rp_eff : reffect }.
Inductive rnode :=
  | RComp (ps : list rpred) (es : list rsucc) (pp : progpt) (v : option rval)
  | RRef (ps : list rpred) (v : rval)
  | RPure (v : rval).
Record rdcg := RDcg { r_table : gmap rloc rnode; r_stack : list (rloc * list rsucc); r_path : list name }.
(** reflect.rs:238-253 [succs_of_node], [preds_of_node]. *)
Definition succs_of_node (nd : rnode) : list rsucc := match nd with RComp _ es _ _ => es | _ => [] end.
Definition preds_of_node (nd : rnode) : list rpred := match nd with RComp ps _ _ _ | RRef ps _ => ps | RPure _ => [] end.

(** ** Reflection *)
Section Reflected.
Context `{Hashes}.
(** engine.rs:460-471 [Path::reflect]: the root comes first. *)
Definition reflect_path (p : path) : list name := reverse p.
(** engine.rs:327-337 [Loc::reflect]. *)
Definition reflect_loc (l : loc) : rloc := (reflect_path (l_path l), reflect_id (l_id l)).
(** engine.rs:562-571 [Effect::reflect]. *)
Definition reflect_eff (e : effect) : reffect := match e with Observe => RForce | Allocate => RAlloc end.
(** engine.rs:533-555 [Succ::reflect], [Vec<Succ>::reflect]; 673-682 [Vec<Pred>::reflect]. *)
Definition reflect_succ (e : succ) : rsucc := RSucc (s_dirty e) (reflect_loc (s_loc e)) (reflect_eff (s_eff e)).
Definition reflect_pred (p : pred) : rpred := RPred (reflect_loc (p_loc p)) (reflect_eff (p_eff p)).
(** The [Debug] instance of a type: what [{:?}] prints for a value of that type.  [parse_val] (parse_val.rs:455-458). *)
Context (debug : ty → val → list ascii).
Definition reflect_val (t : ty) (v : val) : res rval := parse_string (debug t v).
(** engine.rs:611-640 [Node::reflect]. *)
Definition reflect_node (nd : node) : res rnode :=
  match nd with
  | NComp c =>
      match c_res c with
      | None => Ok (RComp (reflect_pred <$> c_preds c) (reflect_succ <$> c_succs c) (c_pp c) None)
      | Some v => do w <- reflect_val (c_ty c) v; Ok (RComp (reflect_pred <$> c_preds c) (reflect_succ <$> c_succs c) (c_pp c) (Some w))
      end
  | NPure t v => do w <- reflect_val t v; Ok (RPure w)
  | NMut t ps v => do w <- reflect_val t v; Ok (RRef (reflect_pred <$> ps) w)
  end.
(** engine.rs:403-409: the loop over the table, in the (arbitrary) order of the [HashMap]. *)
Fixpoint reflect_table (ents : list (loc * node)) (acc : gmap rloc rnode) : res (gmap rloc rnode) :=
  match ents with
  | [] => Ok acc
  | (l, nd) :: ents => do rn <- reflect_node nd; reflect_table ents (<[reflect_loc l := rn]> acc)
  end.
(** engine.rs:501-508 [Frame::reflect]. *)
Definition reflect_frame (f : frame) : rloc * list rsucc := (reflect_loc (f_loc f), reflect_succ <$> (f_succs f).*1).
(** engine.rs:399-417 [DCG::reflect], called by 131-138 [dcg_reflect_now].  The stack of a [dcg] has its top first, the
    [Vec] its top last. *)
Definition dcg_reflect_now (ents : list (loc * node)) (s : dcg) : res rdcg :=
  do m <- reflect_table ents ∅; Ok (RDcg m (reverse (reflect_frame <$> stack s)) (reflect_path (cpath s))).

(** ** Specification *)
(** Names that clients make never look like the name of a hash ([name_of_hash64], which clients are told not to call). *)
Definition client_loc (l : loc) : Prop := ∀ n, l_id l = IdNom n → nm_sym n ≠ SHash64.
Lemma api_not_hash n : api_name n → nm_sym n ≠ SHash64.
Proof. by destruct 1. Qed.
Lemma reflect_loc_inj l l' : client_loc l → client_loc l' → reflect_loc l = reflect_loc l' → l = l'.
Proof.
  destruct l as [p i], l' as [p' i']. unfold client_loc, reflect_loc, reflect_path. simpl. intros H1 H2 [= E1%(inj reverse) E2]. subst p'.
  destruct i as [h|n], i' as [h'|n']; simpl in E2; try congruence.
  - by injection E2 as ->.
  - exfalso. apply (H2 n'); [done|]. by rewrite <- E2.
  - exfalso. apply (H1 n); [done|]. by rewrite E2.
Qed.

Lemma reflect_table_ok ents acc :
  (∀ l nd, (l, nd) ∈ ents → ∃ rn, reflect_node nd = Ok rn) → NoDup ents.*1 →
  (∀ l l', l ∈ ents.*1 → l' ∈ ents.*1 → reflect_loc l = reflect_loc l' → l = l') →
  ∃ m, reflect_table ents acc = Ok m ∧
    (∀ rl rn, m !! rl = Some rn ↔ (∃ l nd, (l, nd) ∈ ents ∧ reflect_loc l = rl ∧ reflect_node nd = Ok rn) ∨
      (rl ∉ reflect_loc <$> ents.*1) ∧ acc !! rl = Some rn).
Proof.
  revert acc. induction ents as [|[l nd] ents IH]; intros acc Hok Hnd Hinj; simpl.
  { exists acc. split; [done|]. intros rl rn. split; [intros E; right; by split; [apply not_elem_of_nil|]|].
    intros [(l & nd & ?%elem_of_nil & _)|[_ ?]]; [done|done]. }
  destruct (Hok l nd) as (rn0 & E0); [by left|]. rewrite E0. simpl. simpl in Hnd. apply NoDup_cons in Hnd as [Hl Hnd].
  destruct (IH (<[reflect_loc l:=rn0]> acc)) as (m & Em & Hm).
  { intros l' nd' Hin. apply (Hok l' nd'). by right. } { done. } { intros l1 l2 H1 H2. apply Hinj; by right. }
  exists m. split; [done|]. intros rl rn. rewrite Hm. split.
  - intros [(l' & nd' & Hin & ? & ?)|[Hni Ha]]; [left; exists l', nd'; split; [by right|done]|].
    apply lookup_insert_Some in Ha as [[<- <-]|[Hne Ha]]; [left; exists l, nd; split; [by left|done]|].
    right. split; [|done]. apply not_elem_of_cons. split; [congruence|done].
  - intros [(l' & nd' & [[= -> ->]|Hin]%elem_of_cons & <- & E)|[Hni Ha]].
    + right. assert (rn = rn0) as -> by congruence. rewrite lookup_insert. split; [|done].
      intros (l' & El & Hl')%elem_of_list_fmap. apply Hl. assert (l = l') as ->; [|done]. apply Hinj; [by left|by right|done].
    + left. eauto.
    + apply not_elem_of_cons in Hni as [Hne Hni]. right. split; [done|]. rewrite lookup_insert_ne by congruence. done.
Qed.

(** C54.  Whatever the order of iteration: if the values of all nodes can be parsed, the snapshot exists, it has exactly
    one node per node of the graph, at the reflected location, with the node's reflected content, and no other; likewise
    for the stack of executing thunks (outermost first) and the current namespace. *)
Theorem C54_snapshot_faithful s ents :
  ents ≡ₚ map_to_list (table s) → (∀ l, is_Some (table s !! l) → client_loc l) →
  (∀ l nd, table s !! l = Some nd → ∃ rn, reflect_node nd = Ok rn) →
  ∃ g, dcg_reflect_now ents s = Ok g ∧
    (∀ l nd, table s !! l = Some nd → ∃ rn, r_table g !! reflect_loc l = Some rn ∧ reflect_node nd = Ok rn) ∧
    (∀ rl rn, r_table g !! rl = Some rn → ∃ l nd, table s !! l = Some nd ∧ reflect_loc l = rl ∧ reflect_node nd = Ok rn) ∧
    (∀ l l', is_Some (table s !! l) → is_Some (table s !! l') → reflect_loc l = reflect_loc l' → l = l') ∧
    r_stack g = reverse (reflect_frame <$> stack s) ∧ r_path g = reverse (cpath s).
Proof.
  intros Hp Hc Hv.
  assert (∀ l nd, (l, nd) ∈ ents ↔ table s !! l = Some nd) as Hin by (intros l nd; by rewrite Hp, elem_of_map_to_list).
  assert (NoDup ents.*1) as Hnd by (rewrite Hp; apply NoDup_fst_map_to_list).
  assert (∀ l, l ∈ ents.*1 → client_loc l) as Hcl.
  { intros l ([l' nd] & -> & Hl)%elem_of_list_fmap. apply Hc. simpl. apply Hin in Hl. eauto. }
  destruct (reflect_table_ok ents ∅) as (m & Em & Hm).
  { intros l nd Hl. apply (Hv l). by apply Hin. } { done. } { intros l l' H1 H2. apply reflect_loc_inj; by apply Hcl. }
  exists (RDcg m (reverse (reflect_frame <$> stack s)) (reflect_path (cpath s))). unfold dcg_reflect_now. rewrite Em. split; [done|]. simpl.
  assert (∀ l nd, table s !! l = Some nd → ∃ rn, m !! reflect_loc l = Some rn ∧ reflect_node nd = Ok rn) as H1.
  { intros l nd Hl. destruct (Hv l nd Hl) as (rn & E). exists rn. split; [|done]. apply Hm. left. exists l, nd. by rewrite Hin. }
  assert (∀ rl rn, m !! rl = Some rn → ∃ l nd, table s !! l = Some nd ∧ reflect_loc l = rl ∧ reflect_node nd = Ok rn) as H2.
  { intros rl rn Hr. apply Hm in Hr as [(l & nd & Hl & ? & ?)|[_ Hr]]; [|by rewrite lookup_empty in Hr]. exists l, nd. by rewrite <- Hin. }
  split_and!; try done.
  intros l l' Hl Hl'. apply reflect_loc_inj; by apply Hc.
Qed.
(** The snapshot's values: a value whose debug output is that of data [d] (see [Parse.v]) is shown as [d]. *)
Theorem C54_cell_value t ps v d :
  debug t v = print d → Parse.ok d → reflect_node (NMut t ps v) = Ok (RRef (reflect_pred <$> ps) (Parse.reflect d)).
Proof. intros E Hd. simpl. unfold reflect_val. by rewrite E, C41_parse_print. Qed.
Theorem C54_thunk_value c d :
  (∀ v, c_res c = Some v → debug (c_ty c) v = print d ∧ Parse.ok d) →
  reflect_node (NComp c) = Ok (RComp (reflect_pred <$> c_preds c) (reflect_succ <$> c_succs c) (c_pp c)
    (match c_res c with Some _ => Some (Parse.reflect d) | None => None end)).
Proof. intros E. simpl. destruct (c_res c) as [v|]; [|done]. destruct (E v eq_refl) as [E' Hd]. unfold reflect_val. by rewrite E', C41_parse_print. Qed.
(** ... and taking a snapshot panics as soon as a single node holds a value whose debug output does not parse, for
    instance a structurally named articulation, or a name made from an [isize]. *)
Lemma reflect_node_ends nd : reflect_node nd ≠ OutOfFuel.
Proof.
  destruct nd as [t ps v|t v|c]; simpl; unfold reflect_val; [..|destruct (c_res c); [|done]];
    match goal with |- context [parse_string ?x] => assert (Hx := C41_terminates x); by destruct (parse_string x) end.
Qed.
Theorem C54_panics s ents l nd :
  ents ≡ₚ map_to_list (table s) → table s !! l = Some nd → reflect_node nd = Panic → dcg_reflect_now ents s = Panic.
Proof.
  intros Hp Hl Hn. unfold dcg_reflect_now.
  assert ((l, nd) ∈ ents) as Hin by (rewrite Hp; by apply elem_of_map_to_list). clear Hp Hl.
  assert (∀ acc, reflect_table ents acc = Panic) as Ht; [|by rewrite Ht].
  induction ents as [|[l' nd'] ents IH]; [by apply elem_of_nil in Hin|]. intros acc. simpl.
  apply elem_of_cons in Hin as [[= <- <-]|Hin]; [by rewrite Hn|]. destruct (reflect_node nd') eqn:E; [by apply IH|done|by destruct (reflect_node_ends nd')].
Qed.
(** What a node of the snapshot displays, said field by field: same number and order of edges, each with its target, its
    kind and whether it is marked dirty; the value is shown exactly if there is one. *)
Definition shows_loc (l : loc) (rl : rloc) : Prop :=
  reverse rl.1 = l_path l ∧ match l_id l with IdNom n => rl.2 = n | IdStruct h => rl.2 = name_of_hash64 h end.
Definition shows_eff (e : effect) (re : reffect) : Prop := match e with Observe => re = RForce | Allocate => re = RAlloc end.
Definition shows_edge (e : succ) (re : rsucc) : Prop :=
  rs_dirty re = s_dirty e ∧ shows_loc (s_loc e) (rs_loc re) ∧ shows_eff (s_eff e) (rs_eff re).
Definition shows_pred (p : pred) (rp : rpred) : Prop := shows_loc (p_loc p) (rp_loc rp) ∧ shows_eff (p_eff p) (rp_eff rp).
Definition shows (nd : node) (rn : rnode) : Prop :=
  match nd, rn with
  | NComp c, RComp ps es pp v =>
      Forall2 shows_pred (c_preds c) ps ∧ Forall2 shows_edge (c_succs c) es ∧ pp = c_pp c ∧
      match c_res c, v with Some w, Some rv => parse_string (debug (c_ty c) w) = Ok rv | None, None => True | _, _ => False end
  | NMut t ps w, RRef rps rv => Forall2 shows_pred ps rps ∧ parse_string (debug t w) = Ok rv
  | NPure t w, RPure rv => parse_string (debug t w) = Ok rv
  | _, _ => False
  end.
Lemma shows_loc_reflect l : shows_loc l (reflect_loc l).
Proof. destruct l as [p i]. unfold shows_loc, reflect_loc, reflect_path. simpl. rewrite reverse_involutive. by destruct i. Qed.
Lemma shows_preds ps : Forall2 shows_pred ps (reflect_pred <$> ps).
Proof. induction ps as [|p ps IH]; [constructor|]. constructor; [|done]. split; [apply shows_loc_reflect|by destruct p as [? []]]. Qed.
Lemma shows_edges es : Forall2 shows_edge es (reflect_succ <$> es).
Proof. induction es as [|e es IH]; [constructor|]. constructor; [|done]. split; [done|]. split; [apply shows_loc_reflect|simpl; unfold shows_eff, reflect_eff; by destruct (s_eff e)]. Qed.
Lemma shows_reflect nd rn : reflect_node nd = Ok rn → shows nd rn.
Proof.
  destruct nd as [t ps v|t v|c]; simpl; unfold reflect_val.
  - destruct (parse_string _) as [w| |]; simpl; [|done..]. intros [= <-]. split; [apply shows_preds|done].
  - destruct (parse_string _) as [w| |]; simpl; [|done..]. by intros [= <-].
  - destruct (c_res c) as [v|]; [destruct (parse_string _) as [w| |]; simpl; [|done..]|]; intros [= <-];
      (split; [apply shows_preds|]; split; [apply shows_edges|]; done).
Qed.
(** C54.  A successful snapshot, read back: every node is shown at its own location, every frame in order, outermost first. *)
Theorem C54_snapshot_shows s ents g :
  ents ≡ₚ map_to_list (table s) → (∀ l, is_Some (table s !! l) → client_loc l) → dcg_reflect_now ents s = Ok g →
  (∀ l nd, table s !! l = Some nd → ∃ rl rn, shows_loc l rl ∧ r_table g !! rl = Some rn ∧ shows nd rn) ∧
  (∀ rl rn, r_table g !! rl = Some rn → ∃ l nd, table s !! l = Some nd ∧ shows_loc l rl ∧ shows nd rn) ∧
  Forall2 (λ f rf, shows_loc (f_loc f) rf.1 ∧ Forall2 shows_edge (f_succs f).*1 rf.2) (stack s) (reverse (r_stack g)) ∧
  reverse (r_path g) = cpath s.
Proof.
  intros Hp Hc Eg. destruct (C54_snapshot_faithful s ents Hp Hc) as (g' & Eg' & H1 & H2 & _ & Hst & Hpa).
  { intros l nd Hl. destruct (reflect_node nd) as [rn| |] eqn:E; [by exists rn| |by destruct (reflect_node_ends nd)].
    by rewrite (C54_panics s ents l nd Hp Hl E) in Eg. }
  assert (g' = g) as -> by congruence. split; [|split; [|split]].
  - intros l nd Hl. destruct (H1 l nd Hl) as (rn & Hr & En). exists (reflect_loc l), rn.
    split; [apply shows_loc_reflect|]. split; [done|by apply shows_reflect].
  - intros rl rn Hr. destruct (H2 rl rn Hr) as (l & nd & Hl & <- & En). exists l, nd.
    split; [done|]. split; [apply shows_loc_reflect|by apply shows_reflect].
  - rewrite Hst, reverse_involutive. generalize (stack s). intros k. induction k as [|f k IH]; [constructor|]. constructor; [|done].
    split; [apply shows_loc_reflect|apply shows_edges].
  - by rewrite Hpa, reverse_involutive.
Qed.
Corollary C54_panics_on_structural_art s ents l t ps v p h :
  ents ≡ₚ map_to_list (table s) → table s !! l = Some (NMut t ps v) → debug t v = print (DArt p (IdStruct h)) →
  Forall ok_name p → (h < 2 ^ 64)%N → dcg_reflect_now ents s = Panic.
Proof. intros Hp Hl E Hok Hh. eapply C54_panics; [done|done|]. simpl. unfold reflect_val. by rewrite E, C41_structural_art_panics. Qed.
End Reflected.

(** ** The snapshot of a reachable engine is a well-formed graph *)
Section Reached.
Context `{Hashes} `{Prog} (opt md : bool) (debug : ty → val → list ascii).
(** C54, edges.  Every edge of the snapshot leads to a node of the snapshot that lists it among its predecessors, and
    every listed predecessor is a computation with such an edge; no dependencies form a cycle. *)
Theorem C54_snapshot_edges s ents g :
  reached opt md s → ents ≡ₚ map_to_list (table s) → (∀ l, is_Some (table s !! l) → client_loc l) →
  dcg_reflect_now debug ents s = Ok g →
  (∀ rl rn e, r_table g !! rl = Some rn → e ∈ succs_of_node rn →
     ∃ rn', r_table g !! rs_loc e = Some rn' ∧ RPred rl (rs_eff e) ∈ preds_of_node rn') ∧
  (∀ rl rn p, r_table g !! rl = Some rn → p ∈ preds_of_node rn →
     ∃ rn' e, r_table g !! rp_loc p = Some rn' ∧ e ∈ succs_of_node rn' ∧ rs_loc e = rl ∧ rs_eff e = rp_eff p) ∧
  r_stack g = [] ∧
  (∀ rl, ¬ tc (λ x y, ∃ rn e, r_table g !! x = Some rn ∧ e ∈ succs_of_node rn ∧ rs_eff e = RForce ∧ rs_loc e = y) rl rl).
Proof.
  intros Hs Hp Hc Eg.
  destruct (C54_snapshot_faithful debug s ents Hp Hc) as (g' & Eg' & H1 & H2 & Hinj & Hst & _).
  { intros l nd Hl. destruct (reflect_node debug nd) as [rn| |] eqn:E; [by exists rn| |by destruct (reflect_node_ends debug nd)].
    by rewrite (C54_panics debug s ents l nd Hp Hl E) in Eg. }
  assert (g' = g) as -> by congruence. clear Eg Eg'.
  assert (∀ nd rn, reflect_node debug nd = Ok rn → succs_of_node rn = reflect_succ <$> (match nd with NComp c => c_succs c | _ => [] end) ∧
    preds_of_node rn = reflect_pred <$> node_preds nd) as Hshape.
  { intros [t ps v|t v|c] rn; simpl; [..|destruct (c_res c); [|by intros [= <-]]];
      (match goal with |- context [reflect_val debug ?t ?v] => destruct (reflect_val debug t v) as [w| |] end); simpl; [by intros [= <-]|done|done|by intros [= <-]|done|done|by intros [= <-]|done|done]. }
  destruct (C10_edges_symmetric opt md s Hs) as [HA HB]. split_and!.
  - intros rl rn e Hr He. destruct (H2 _ _ Hr) as (l & nd & Hl & <- & En). destruct (Hshape _ _ En) as [Es _]. rewrite Es in He.
    apply elem_of_list_fmap in He as (e0 & -> & He). destruct nd as [| |c]; [by apply elem_of_nil in He..|].
    destruct (HA l c e0 Hl He) as (nd' & pr & Hl' & Hpr & El & Ee). destruct (H1 _ _ Hl') as (rn' & Hr' & En'). exists rn'. split; [done|].
    destruct (Hshape _ _ En') as [_ Ep]. rewrite Ep. apply elem_of_list_fmap. exists pr. split; [|done]. unfold reflect_pred. simpl. by rewrite El, Ee.
  - intros rl rn p Hr Hpr. destruct (H2 _ _ Hr) as (l & nd & Hl & <- & En). destruct (Hshape _ _ En) as [_ Ep]. rewrite Ep in Hpr.
    apply elem_of_list_fmap in Hpr as (p0 & -> & Hpr). destruct (HB l nd p0 Hl Hpr) as (c & e & Hx & He & El & Ee).
    destruct (H1 _ _ Hx) as (rn' & Hr' & En'). destruct (Hshape _ _ En') as [Es _]. exists rn', (reflect_succ e). split; [done|]. split_and!.
    + rewrite Es. apply elem_of_list_fmap. by exists e.
    + simpl. by rewrite El.
    + simpl. by rewrite Ee.
  - destruct (reached_idle _ _ _ Hs) as [Hs0 _]. rewrite Hst, Hs0. done.
  - intros rl Htc.
    assert (∀ x y, tc (λ x y, ∃ rn e, r_table g !! x = Some rn ∧ e ∈ succs_of_node rn ∧ rs_eff e = RForce ∧ rs_loc e = y) x y →
      ∃ lx ly, reflect_loc lx = x ∧ reflect_loc ly = y ∧ is_Some (table s !! lx) ∧ is_Some (table s !! ly) ∧
        tc (λ x y, ∃ c e, table s !! x = Some (NComp c) ∧ e ∈ c_succs c ∧ s_eff e = Observe ∧ s_loc e = y) lx ly) as Hlift.
    { clear rl Htc. assert (∀ x y, (∃ rn e, r_table g !! x = Some rn ∧ e ∈ succs_of_node rn ∧ rs_eff e = RForce ∧ rs_loc e = y) →
        ∃ lx ly, reflect_loc lx = x ∧ reflect_loc ly = y ∧ is_Some (table s !! lx) ∧ is_Some (table s !! ly) ∧
          ∃ c e, table s !! lx = Some (NComp c) ∧ e ∈ c_succs c ∧ s_eff e = Observe ∧ s_loc e = ly) as Hstep.
      { intros x y (rn & e & Hr & He & Ee & <-). destruct (H2 _ _ Hr) as (l & nd & Hl & <- & En). destruct (Hshape _ _ En) as [Es _]. rewrite Es in He.
        apply elem_of_list_fmap in He as (e0 & -> & He). destruct nd as [| |c]; [by apply elem_of_nil in He..|].
        destruct (HA l c e0 Hl He) as (nd' & pr & Hl' & _). exists l, (s_loc e0). split_and!; [done|done|by eauto|by eauto|]. exists c, e0.
        split_and!; try done. simpl in Ee. by destruct (s_eff e0). }
      intros x y. induction 1 as [x y Hxy|x y z Hxy Htc IH].
      - destruct (Hstep _ _ Hxy) as (lx & ly & ? & ? & ? & ? & Hs1). exists lx, ly. split_and!; try done. by apply tc_once.
      - destruct (Hstep _ _ Hxy) as (lx & ly & ? & Ey & ? & Hy & Hs1). destruct IH as (ly' & lz & Ey' & ? & Hy' & ? & Hs2).
        assert (ly' = ly) as ->. { apply Hinj; [done|done|congruence]. }
        exists lx, lz. split_and!; try done. by eapply tc_l. }
    destruct (Hlift _ _ Htc) as (lx & ly & E1 & E2 & Hx & Hy & Hc2). assert (lx = ly) as -> by (apply Hinj; [done|done|congruence]).
    by apply (C10_acyclic opt md s ly Hs).
Qed.
End Reached.

(** If a client does use [name_of_hash64], two nodes can share a reflected location and the snapshot loses one. *)
Theorem C54_hash_names_refuted (h : N) :
  let l := Loc [] (IdStruct h) in let l' := Loc [] (IdNom (name_of_hash64 h)) in l ≠ l' ∧ reflect_loc l = reflect_loc l'.
Proof. done. Qed.

(** Witness: the state after the edits of [Examples.v] is reached, has client locations only, and its snapshot exists. *)
Definition debug_demo (t : ty) (v : val) : list ascii :=
  match v with
  | VInt (Zpos p) => print (DNat (Npos p)) | VInt (Zneg p) => print (DNeg p) | VInt Z0 => print (DNat 0)
  | VBool b => print (DConstr (if b then "true" else "false") []) | VStr s => print (DStr s) | VName n => print (DName n)
  | VLoc l => print (DArt (reverse (l_path l)) (l_id l)) | _ => print (DTuple [])
  end.
Definition hashes_demo : Hashes := Build_Hashes (λ a b, a + 3 * b + 1)%N (λ a, a) (λ _, 1%N) (λ _, 2%N) (λ a, 2 * a)%N (λ a, 2 * a + 1)%N.
Definition client_locb (l : loc) : bool := match l_id l with IdNom n => match nm_sym n with SHash64 => false | _ => true end | _ => true end.
Lemma client_locb_ok l : client_locb l = true → client_loc l.
Proof. unfold client_locb, client_loc. intros E n En. rewrite En in E. by destruct (nm_sym n). Qed.
Lemma ex_snapshot : reached (H:=demo) true false ex_s2 ∧
  forallb (λ p, client_locb p.1) (map_to_list (table ex_s2)) = true ∧
  match @dcg_reflect_now hashes_demo debug_demo (map_to_list (table ex_s2)) ex_s2 with
  | Ok g => size (r_table g) = size (table ex_s2) ∧ (3 <? size (r_table g))%nat = true
  | _ => False end.
Proof. split; [exact ex_s2_reached|]. split; [vm_compute; reflexivity|]. vm_compute. split; reflexivity. Qed.
