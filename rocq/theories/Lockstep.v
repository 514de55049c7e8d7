(** * Panics as values: a proof technique.

    For two values [e], [e2] that do not occur in a run, [grd] turns a program into one that returns
    [e] where the original panics, and passes [e] on; [e2] (or [Fail]) marks the places where the
    original would handle [e] or [e2] as ordinary values.  The engine runs a program and its guarded
    version in lockstep until the original panics. *)
From Verif Require Export Panic Fuel Graph.

Section Lock.
Context (P : Prog).
Context (e e2 : val).

Definition bad (v : val) : Prop := v = e ∨ v = e2.
Global Instance bad_dec v : Decision (bad v).
Proof. unfold bad. apply _. Defined.

(** [f], for arguments other than [e]. *)
Definition gf (f : val → val) : val → val := λ v, if decide (v = e) then e else if decide (bad (f v)) then e2 else f v.
Definition gcont (k : val → comp) : val → comp := λ v, if decide (v = e) then Ret e else if decide (v = e2) then Fail else k v.

Definition bado (o : option val) : bool := match o with Some v => bool_decide (bad v) | None => false end.
Definition bada (a : art) : bool := match a with ARc v => bool_decide (bad v) | ALoc _ => false end.
Fixpoint grd (c : comp) : comp :=
  match c with
  | Ret v => if decide (bad v) then Fail else Ret v
  | Fail => Ret e
  | Force t a cyc k =>
      if bada a || bado cyc then Fail
      else Force t a cyc (gcont (λ v, grd (k v)))
  | ForceMap t a f k =>
      if bada a then Fail
      else ForceMap t a (gf f) (gcont (λ v, grd (k v)))
  | ForceAbs t a f k =>
      if bada a then Fail
      else ForceAbs t a (gf f) (gcont (λ v, grd (k v)))
  | Cell t n v k => if decide (bad v) then Fail else Cell t n v (λ l, grd (k l))
  | Thunk t nc pp arg spur k => Thunk t nc pp arg spur (λ l, grd (k l))
  | SetC t a v k => if decide (bad v) then Fail else SetC t a v (grd k)
  | Ns n b k => Ns n (grd b) (gcont (λ v, grd (k v)))
  | Structural b k => Structural (grd b) (gcont (λ v, grd (k v)))
  end.
Definition P' : Prog := {| code := λ pp arg spur, grd (@code P pp arg spur); hash_val := @hash_val P; hash_app := @hash_app P |}.

(** ** Related states *)
Inductive drel : dep → dep → Prop :=
  | dr_force t w : drel (DForce t w) (DForce t w)
  | dr_map t f w : ¬ bad w → drel (DForceMap t f w) (DForceMap t (gf f) w)
  | dr_abs : drel DForceAbs DForceAbs
  | dr_astr : drel DAllocStruct DAllocStruct
  | dr_athunk a : drel (DAllocThunk a) (DAllocThunk a)
  | dr_acell v : drel (DAllocCell v) (DAllocCell v).
Definition odrel : option dep → option dep → Prop := option_Forall2 drel.
Record erel (x x' : succ) : Prop := {
  er_dirty : s_dirty x' = s_dirty x; er_loc : s_loc x' = s_loc x; er_eff : s_eff x' = s_eff x; er_dep : drel (s_dep x) (s_dep x') }.
Record prel (x x' : pred) : Prop := {
  pr_loc : p_loc x' = p_loc x; pr_eff : p_eff x' = p_eff x; pr_dep : odrel (p_dep x) (p_dep x') }.
Definition orel (o : option val) : Prop := match o with Some v => ¬ bad v | None => True end.
Record crel (c c' : compnode) : Prop := {
  cr_ty : c_ty c' = c_ty c; cr_preds : Forall2 prel (c_preds c) (c_preds c'); cr_succs : Forall2 erel (c_succs c) (c_succs c');
  cr_pp : c_pp c' = c_pp c; cr_arg : c_arg c' = c_arg c; cr_spur : c_spur c' = c_spur c;
  cr_res : c_res c' = c_res c; cr_good : orel (c_res c) }.
Inductive nrel : node → node → Prop :=
  | nr_mut t ps ps' v : Forall2 prel ps ps' → ¬ bad v → nrel (NMut t ps v) (NMut t ps' v)
  | nr_pure t v : ¬ bad v → nrel (NPure t v) (NPure t v)
  | nr_comp c c' : crel c c' → nrel (NComp c) (NComp c').
Definition edrel (x x' : succ * option dep) : Prop := erel x.1 x'.1 ∧ odrel x.2 x'.2.
Record frel (f f' : frame) : Prop := { fr_loc : f_loc f' = f_loc f; fr_succs : Forall2 edrel (f_succs f) (f_succs f') }.
Record srel (s s' : dcg) : Prop := {
  sr_table : ∀ l, option_Forall2 nrel (table s !! l) (table s' !! l);
  sr_stack : Forall2 frel (stack s) (stack s');
  sr_cpath : cpath s' = cpath s; sr_structf : structf s' = structf s; sr_purity : purity s' = purity s;
  sr_runs : runs s' = runs s; sr_trc : trc s' = trc s }.

Lemma nrel_ty nd nd' : nrel nd nd' → node_ty nd' = node_ty nd.
Proof. destruct 1 as [| |c c' Hc]; [done..|]. apply Hc. Qed.

(** ** Lockstep *)
Definition lk {A B} (RA : A → B → Prop) (m : M A) (m' : M B) : Prop := ∀ s s', srel s s' →
  match m s, m' s' with
  | (OPanic PUser, _), _ | _, (OPanic PUser, _) => True
  | (OVal a, t), (OVal a', t') => RA a a' ∧ srel t t'
  | (OPanic r, _), (OPanic r', _) => r = r'
  | (OFuel, _), (OFuel, _) => True
  | _, _ => False
  end.
Definition rval (v v' : val) : Prop := v' = v ∧ ¬ bad v.

Lemma lk_bind {A B A' B'} (RA : A → A' → Prop) (RB : B → B' → Prop) m m' f f' :
  lk RA m m' → (∀ a a', RA a a' → lk RB (f a) (f' a')) → lk RB (bind m f) (bind m' f').
Proof.
  intros Hm Hf s s' Hs. specialize (Hm s s' Hs). unfold bind.
  destruct (m s) as [[a|r|] t], (m' s') as [[a'|r'|] t'].
  - destruct Hm as [Ha Ht]. by apply Hf.
  - destruct r'; try done. by destruct (f a t) as [[?|[]|] ?].
  - done.
  - by destruct r.
  - by destruct r, r'.
  - by destruct r.
  - done.
  - by destruct r'.
  - done.
Qed.
Lemma lk_ret {A B} (RA : A → B → Prop) a b : RA a b → lk RA (ret a) (ret b).
Proof. by intros Ha s s' Hs. Qed.
Lemma lk_panic {A B} (RA : A → B → Prop) r : lk RA (panic r) (panic r).
Proof. intros s s' Hs. by destruct r. Qed.
Lemma lk_nofuel {A B} (RA : A → B → Prop) : lk RA nofuel nofuel.
Proof. by intros s s' Hs. Qed.
Lemma lk_get : lk srel get get.
Proof. by intros s s' Hs. Qed.
Lemma lk_user {A B} (RA : A → B → Prop) m : lk RA m (panic PUser).
Proof. intros s s' Hs. unfold panic. by destruct (m s) as [[|[]|]]. Qed.
Lemma lk_user' {A B} (RA : A → B → Prop) m : lk RA (panic PUser) m.
Proof. by intros s s' Hs. Qed.
Lemma lk_assert b b' r : b = b' → lk eq (assert b r) (assert b' r).
Proof. intros ->. destruct b'; [by apply lk_ret|apply lk_panic]. Qed.
Lemma lk_emit ev : lk eq (emit ev) (emit ev).
Proof. intros s s' []. split; [done|]. split; simpl; try done. by f_equal. Qed.
Lemma lk_modify f f' : (∀ s s', srel s s' → srel (f s) (f' s')) → lk eq (modify f) (modify f').
Proof. intros Hf s s' Hs. split; [done|auto]. Qed.
Lemma lk_put l nd nd' : nrel nd nd' → lk eq (put_node l nd) (put_node l nd').
Proof.
  intros Hn. apply lk_modify. intros s s' []. split; simpl; try done. intros l'.
  destruct (decide (l' = l)) as [->|Hne].
  - rewrite !lookup_insert. by constructor.
  - by rewrite !lookup_insert_ne.
Qed.
Lemma lk_mfor {X X'} (RX : X → X' → Prop) xs xs' (f : X → M unit) (f' : X' → M unit) :
  Forall2 RX xs xs' → (∀ x x', RX x x' → lk eq (f x) (f' x')) → lk eq (mfor xs f) (mfor xs' f').
Proof.
  intros Hx Hf. induction Hx as [|x x' xs xs' Hx _ IH]; simpl; [by apply lk_ret|].
  eapply lk_bind; [by apply Hf|]. auto.
Qed.
Lemma lk_of_opt {A B} (RA : A → B → Prop) r o o' : option_Forall2 RA o o' → lk RA (of_opt r o) (of_opt r o').
Proof. destruct 1; [by apply lk_ret|apply lk_panic]. Qed.
Lemma lk_lookup l : lk nrel (lookup_abs l) (lookup_abs l).
Proof.
  eapply lk_bind; [apply lk_get|]. intros s s' Hs. destruct (sr_table _ _ Hs l); [by apply lk_ret|apply lk_panic].
Qed.
Lemma lk_res t l : lk nrel (res_node t l) (res_node t l).
Proof.
  eapply lk_bind; [apply lk_lookup|]. intros nd nd' Hn.
  eapply lk_bind; [apply lk_assert; by rewrite (nrel_ty _ _ Hn)|]. intros _ _ _. by apply lk_ret.
Qed.
Lemma lk_mono {A B} (RA RB : A → B → Prop) m m' : (∀ a b, RA a b → RB a b) → lk RA m m' → lk RB m m'.
Proof.
  intros Hi Hm s s' Hs. specialize (Hm s s' Hs).
  destruct (m s) as [[a|r|] t], (m' s') as [[a'|r'|] t']; try done. destruct Hm as [Ha Ht]. auto.
Qed.

(** ** The engine's operations *)
Lemma lk_preds_remove src nd nd' : nrel nd nd' → option_Forall2 nrel (preds_remove src nd) (preds_remove src nd').
Proof.
  assert (∀ ps ps', Forall2 prel ps ps' → Forall2 prel (filter (λ p, p_loc p ≠ src) ps) (filter (λ p, p_loc p ≠ src) ps')) as Hf.
  { intros ps ps' Hp. induction Hp as [|x x' ps ps' Hx _ IH]; [constructor|]. rewrite !filter_cons.
    rewrite (pr_loc _ _ Hx). destruct (decide _); [by constructor|done]. }
  destruct 1 as [t ps ps' v Hp Hv|t v Hv|c c' Hc]; simpl; constructor.
  - constructor; auto.
  - constructor. destruct Hc. split; simpl; auto.
Qed.
Lemma lk_preds_insert p p' nd nd' : prel p p' → nrel nd nd' → option_Forall2 nrel (preds_insert p nd) (preds_insert p' nd').
Proof.
  intros Hp. destruct 1 as [t ps ps' v Hps Hv|t v Hv|c c' Hc]; simpl; constructor.
  - constructor; [|done]. apply Forall2_app; [done|by constructor].
  - constructor. destruct Hc. split; simpl; auto. apply Forall2_app; [done|by constructor].
Qed.
Lemma lk_revoke src es es' : Forall2 erel es es' → lk eq (revoke_succs src es) (revoke_succs src es').
Proof.
  intros He. eapply lk_mfor; [exact He|]. intros x x' Hx. rewrite (er_loc _ _ Hx).
  eapply lk_bind; [apply lk_emit|]. intros _ _ _.
  eapply lk_bind; [apply lk_lookup|]. intros nd nd' Hn.
  eapply lk_bind; [by apply lk_of_opt, lk_preds_remove|]. intros nd1 nd1' Hn1. by apply lk_put.
Qed.
Lemma lk_insert_preds src es es' : Forall2 edrel es es' → lk eq (insert_preds src es) (insert_preds src es').
Proof.
  intros He. eapply lk_mfor; [exact He|]. intros [x d] [x' d'] [Hx Hd]. simpl in Hx, Hd. destruct Hx as [E1 E2 E3 Hx]. rewrite E1, E2, E3.
  eapply lk_bind; [by apply lk_assert|]. intros _ _ _.
  eapply lk_bind; [apply lk_lookup|]. intros nd nd' Hn.
  eapply lk_bind; [apply lk_of_opt, lk_preds_insert; [by split|done]|]. intros nd1 nd1' Hn1. by apply lk_put.
Qed.
Lemma lk_find eff tgt es es' : Forall2 erel es es' → option_Forall2 erel (find_succ eff tgt es) (find_succ eff tgt es').
Proof.
  induction 1 as [|x x' es es' Hx _ IH]; simpl; [constructor|]. rewrite (er_loc _ _ Hx), (er_eff _ _ Hx).
  destruct (decide _); [by constructor|done].
Qed.
Lemma lk_mark b eff tgt es es' : Forall2 erel es es' → Forall2 erel (mark_succ b eff tgt es) (mark_succ b eff tgt es').
Proof.
  induction 1 as [|x x' es es' Hx Hes IH]; simpl; [constructor|]. rewrite (er_loc _ _ Hx), (er_eff _ _ Hx).
  destruct (decide _); [|by constructor]. constructor; [|done]. destruct Hx as [E1 E2 E3 Hx]. split; simpl; congruence || done.
Qed.
Lemma lk_get_dirty src eff tgt : lk eq (get_dirty src eff tgt) (get_dirty src eff tgt).
Proof.
  eapply lk_bind; [apply lk_lookup|]. intros nd nd' [t ps ps' v Hps Hv|t v Hv|c c' Hc]; try apply lk_panic.
  destruct (lk_find eff tgt _ _ (cr_succs _ _ Hc)) as [x x' Hx|]; [apply lk_ret; by rewrite (er_dirty _ _ Hx)|apply lk_panic].
Qed.
Lemma lk_set_dirty b src eff tgt : lk eq (set_dirty b src eff tgt) (set_dirty b src eff tgt).
Proof.
  eapply lk_bind; [apply lk_lookup|]. intros nd nd' [t ps ps' v Hps Hv|t v Hv|c c' Hc]; try apply lk_panic.
  destruct (lk_find eff tgt _ _ (cr_succs _ _ Hc)) as [x x' Hx|]; [|apply lk_panic].
  apply lk_put. constructor. destruct Hc. split; simpl; auto. by apply lk_mark.
Qed.
Lemma gf_good f v : ¬ bad v → ¬ bad (f v) → gf f v = f v.
Proof.
  intros Hv Hf. unfold gf. rewrite decide_False; [by rewrite decide_False|]. intros ->. by destruct Hv; left.
Qed.
Lemma gf_bad f v : ¬ bad v → bad (f v) → gf f v = e2.
Proof.
  intros Hv Hf. unfold gf. rewrite decide_False; [by rewrite decide_True|]. intros ->. by destruct Hv; left.
Qed.
Lemma lk_check_map t f w l : ¬ bad w → lk eq (check_force_map_dep t f w l) (check_force_map_dep t (gf f) w l).
Proof.
  intros Hw. eapply lk_bind; [apply lk_res|]. intros nd nd' [t' ps ps' v Hps Hv|t' v Hv|c c' Hc]; try apply lk_panic.
  apply lk_ret. apply bool_decide_ext. destruct (decide (bad (f v))) as [Hb|Hb].
  - rewrite gf_bad by done. split; intros _ ->; [|done]. destruct Hw. by right.
  - by rewrite gf_good.
Qed.
Lemma lk_dep_dirty d d' l : drel d d' → lk eq (dep_dirty d l) (dep_dirty d' l).
Proof. destruct 1; simpl; try (by apply lk_ret); [by apply lk_check_map|apply lk_panic]. Qed.
Lemma lk_total m m' : (∀ l : loc, option_Forall2 nrel (m !! l) (m' !! l)) → total_clean m = total_clean m'.
Proof.
  revert m'. induction m as [|l nd m Hl IH] using map_ind; intros m' Hm.
  - assert (m' = ∅) as ->; [|done]. apply map_empty. intros l. specialize (Hm l). rewrite lookup_empty in Hm. by inversion Hm.
  - assert (Hml := Hm l). rewrite lookup_insert in Hml. inversion Hml as [? nd' Hn E1 E2|]; subst.
    rewrite <- (insert_delete m' l nd') by done. unfold total_clean.
    rewrite !map_fold_insert_L; try (by apply lookup_delete); try (intros; lia); try done.
    assert (node_clean_count nd = node_clean_count nd') as ->.
    { destruct Hn as [| |c c' Hc]; [done..|]. simpl. unfold clean_count. destruct Hc as [_ _ Hc _ _ _ _ _].
      induction Hc as [|x x' es es' Hx _ IHc]; [done|]. rewrite !filter_cons, (er_dirty _ _ Hx). destruct (decide _); simpl; congruence. }
    f_equal. apply IH. intros l'. destruct (decide (l' = l)) as [->|Hne].
    + rewrite Hl, lookup_delete. constructor.
    + rewrite lookup_delete_ne by done. specialize (Hm l'). by rewrite lookup_insert_ne in Hm.
Qed.
Definition lorel (x x' : loc * option dep) : Prop := x'.1 = x.1 ∧ odrel x.2 x'.2.
Lemma lk_preds_obs nd nd' : nrel nd nd' → option_Forall2 (Forall2 lorel) (preds_obs nd) (preds_obs nd').
Proof.
  destruct 1 as [t ps ps' v Hp Hv|t v Hv|c c' Hc]; simpl; constructor.
  - induction Hp as [|x x' ps ps' Hx _ IH]; simpl; [constructor|]. rewrite (pr_eff _ _ Hx), (pr_loc _ _ Hx).
    destruct (decide _); [|done]. constructor; [|done]. split; [done|]. apply Hx.
  - destruct Hc as [_ Hp _ _ _ _ _ _]. induction Hp as [|x x' ps ps' Hx _ IH]; simpl; [constructor|]. rewrite (pr_eff _ _ Hx), (pr_loc _ _ Hx).
    destruct (decide _); [|done]. constructor; [|done]. split; [done|]. constructor.
Qed.
Lemma lk_preds_alloc nd nd' : nrel nd nd' → option_Forall2 (Forall2 eq) (preds_alloc nd) (preds_alloc nd').
Proof.
  destruct 1 as [t ps ps' v Hp Hv|t v Hv|c c' Hc]; simpl; constructor.
  - induction Hp as [|x x' ps ps' Hx _ IH]; simpl; [constructor|]. rewrite (pr_eff _ _ Hx), (pr_loc _ _ Hx).
    destruct (decide _); [|done]. by constructor.
  - destruct Hc as [_ Hp _ _ _ _ _ _]. induction Hp as [|x x' ps ps' Hx _ IH]; simpl; [constructor|]. rewrite (pr_eff _ _ Hx), (pr_loc _ _ Hx).
    destruct (decide _); [|done]. by constructor.
Qed.
Lemma lk_dirty_step rec rec' l x x' : (∀ l, lk eq (rec l) (rec' l)) → lorel x x' → lk eq (dirty_step rec l x) (dirty_step rec' l x').
Proof.
  intros Hrec [E Hd]. destruct x as [q d], x' as [q' d']. simpl in E, Hd. subst q'. unfold dirty_step. simpl.
  eapply (lk_bind eq).
  { destruct Hd as [d d' Hd|]; [|by apply lk_ret].
    assert (is_absmap d' = is_absmap d) as -> by by destruct Hd. destruct (is_absmap d); [by apply lk_ret|].
    eapply lk_bind; [by apply lk_dep_dirty|]. intros ? ? ->. by apply lk_ret. }
  intros ? stop ->. eapply (lk_bind eq).
  { destruct stop; [by apply lk_ret|]. eapply lk_bind; [apply lk_get_dirty|]. intros ? b ->. destruct b; [by apply lk_ret|].
    eapply lk_bind; [by apply lk_assert|]. intros _ _ _. eapply lk_bind; [apply lk_emit|]. intros _ _ _.
    eapply lk_bind; [apply lk_set_dirty|]. intros _ _ _. by apply lk_ret. }
  intros ? b ->. destruct b; [by apply lk_ret|]. eapply lk_bind; [apply Hrec|]. intros _ _ _. apply lk_emit.
Qed.
Lemma lk_dirty_obs n : ∀ l, lk eq (dirty_obs n l) (dirty_obs n l).
Proof.
  induction n as [|n IH]; intros l; cbn [dirty_obs]; [apply lk_nofuel|].
  eapply lk_bind; [apply lk_lookup|]. intros nd nd' Hn.
  eapply lk_bind; [by apply lk_of_opt, lk_preds_obs|]. intros ps ps' Hps.
  eapply lk_mfor; [exact Hps|]. intros x x' Hx. by apply lk_dirty_step.
Qed.
Lemma lk_dirty_observers l : lk eq (dirty_observers l) (dirty_observers l).
Proof.
  intros s s' Hs. unfold dirty_observers.
  assert (dirty_fuel s' = dirty_fuel s) as ->. { unfold dirty_fuel. f_equal. symmetry. apply lk_total, Hs. }
  by apply lk_dirty_obs.
Qed.
Lemma lk_dirty_alloc l : lk eq (dirty_alloc l) (dirty_alloc l).
Proof.
  eapply lk_bind; [apply lk_dirty_observers|]. intros _ _ _.
  eapply lk_bind; [apply lk_lookup|]. intros nd nd' Hn.
  eapply lk_bind; [by apply lk_of_opt, lk_preds_alloc|]. intros ps ps' Hps.
  eapply lk_mfor; [exact Hps|]. intros q ? <-. unfold dirty_alloc_step.
  eapply lk_bind; [apply lk_get_dirty|]. intros ? b ->. destruct b; [by apply lk_ret|].
  eapply lk_bind; [apply lk_set_dirty|]. intros _ _ _. eapply lk_bind; [by apply lk_assert|]. intros _ _ _.
  eapply lk_bind; [apply lk_emit|]. intros _ _ _. eapply lk_bind; [apply lk_dirty_observers|]. intros _ _ _. apply lk_emit.
Qed.
Lemma lk_set_val t l v : ¬ bad v → lk eq (set_val t l v) (set_val t l v).
Proof.
  intros Hv. eapply lk_bind; [apply lk_res|]. intros nd nd' [t' ps ps' w Hps Hw|t' w Hw|c c' Hc]; try apply lk_panic.
  destruct (decide (w = v)); [by apply lk_ret|]. eapply lk_bind; [apply lk_put; by constructor|]. intros _ _ _. apply lk_dirty_alloc.
Qed.
Lemma lk_push x x' d d' : erel x x' → odrel d d' → lk eq (push_edge x d) (push_edge x' d').
Proof.
  intros Hx Hd. apply lk_modify. intros s s' Hs. assert (Hk := sr_stack _ _ Hs).
  destruct (stack s) as [|f fs], (stack s') as [|f' fs']; try by inversion Hk.
  inversion Hk as [|? ? ? ? Hf Hfs]; subst. destruct Hs. split; simpl; try done. constructor; [|done].
  destruct Hf as [E Hf]. split; simpl; [done|]. apply Forall2_app; [done|]. by constructor.
Qed.
Lemma erel_refl b l eff d : drel d d → erel (Succ b l eff d) (Succ b l eff d).
Proof. by split. Qed.
Lemma lk_cur_loc s s' : srel s s' → cur_loc s' = cur_loc s.
Proof. intros Hs. unfold cur_loc. destruct (sr_stack _ _ Hs) as [|f f' fs fs' Hf _]; [done|]. by rewrite (fr_loc _ _ Hf). Qed.
Lemma lk_check_cell t l v : lk eq (check_cell_change t l v) (check_cell_change t l v).
Proof. eapply lk_bind; [apply lk_res|]. by intros nd nd' [t' ps ps' w Hps Hw|t' w Hw|c c' Hc]; apply lk_ret. Qed.

Lemma lk_cell t n v : ¬ bad v → lk eq (@cell_op P t n v) (@cell_op P' t n v).
Proof.
  intros Hv. unfold cell_op. eapply lk_bind; [apply lk_get|]. intros s s' Hs. cbv zeta.
  rewrite (sr_structf _ _ Hs), (sr_cpath _ _ Hs), (sr_purity _ _ Hs), (lk_cur_loc _ _ Hs). simpl.
  set (l := Loc _ _). set (pure := structf s && purity s).
  eapply (lk_bind (λ a a', a.1.1 = a'.1.1 ∧ a.2 = a'.2 ∧ option_Forall2 (Forall2 erel) a.1.2 a'.1.2)).
  { destruct (sr_table _ _ Hs l) as [nd nd' _|]; [|apply lk_ret; split_and!; try done; constructor].
    eapply lk_bind; [apply lk_res|]. intros nd1 nd1' [t' ps ps' w Hps Hw|t' w Hw|c c' Hc]; apply lk_ret; split_and!; try done; try constructor. apply Hc. }
  intros [[[dd ds] sc] fr] [[[dd' ds'] sc'] fr']. simpl. intros ([= <- <-] & <- & Hsc).
  eapply (lk_bind eq).
  { destruct fr; [by apply lk_ret|]. eapply lk_bind; [apply lk_check_cell|]. intros ? ch ->. by apply lk_ret. }
  intros ? ac ->. eapply lk_bind; [apply lk_emit|]. intros _ _ _.
  eapply (lk_bind eq); [destruct ds; [by apply lk_set_val|by apply lk_ret]|]. intros _ _ _.
  eapply (lk_bind eq); [destruct dd; [by apply lk_dirty_alloc|by apply lk_ret]|]. intros _ _ _.
  eapply (lk_bind eq); [destruct Hsc; [by apply lk_revoke|by apply lk_ret]|]. intros _ _ _.
  eapply lk_bind; [apply lk_emit|]. intros _ _ _.
  eapply (lk_bind eq). { destruct fr; [|by apply lk_ret]. apply lk_put. destruct pure; by constructor. } intros _ _ _.
  eapply (lk_bind eq). { destruct pure; [by apply lk_ret|]. apply lk_push; [apply erel_refl|]; constructor. } intros _ _ _.
  by apply lk_ret.
Qed.
Lemma lk_set t a v : ¬ bad v → lk eq (set_op t a v) (set_op t a v).
Proof.
  intros Hv. destruct a as [w|l]; simpl; [apply lk_panic|]. eapply lk_bind; [apply lk_get|]. intros s s' Hs.
  destruct (sr_stack _ _ Hs); [by apply lk_set_val|apply lk_panic].
Qed.
Lemma lk_thunk t nc pp arg spur : lk eq (@thunk_op P t nc pp arg spur) (@thunk_op P' t nc pp arg spur).
Proof.
  unfold thunk_op. eapply lk_bind; [apply lk_get|]. intros s s' Hs.
  rewrite (sr_structf _ _ Hs), (sr_cpath _ _ Hs), (lk_cur_loc _ _ Hs). cbv zeta.
  assert (nrel (NComp (CompNode t [] [] pp arg spur None)) (NComp (CompNode t [] [] pp arg spur None))) as Hnew.
  { constructor. split; simpl; try done; constructor. }
  destruct (match nc with NCNominal n => if structf s then NCStructural else NCNominal n | _ => nc end) as [| | |n].
  - apply lk_panic.
  - apply lk_panic.
  - simpl. set (l := Loc _ _). destruct (sr_table _ _ Hs l) as [nd nd' _|]; [by apply lk_ret|].
    eapply lk_bind; [apply lk_push; [apply erel_refl|]; constructor|]. intros _ _ _.
    eapply lk_bind; [by apply lk_put|]. intros _ _ _. by apply lk_ret.
  - set (l := Loc _ _). eapply (lk_bind eq).
    { destruct (sr_table _ _ Hs l) as [nd nd' Hn|]; [|by apply lk_ret].
      eapply lk_bind; [apply lk_assert; by rewrite (nrel_ty _ _ Hn)|]. intros _ _ _.
      destruct Hn as [t' ps ps' w Hps Hw|t' w Hw|c c' Hc]; [by apply lk_ret|apply lk_panic|].
      rewrite (cr_pp _ _ Hc), (cr_arg _ _ Hc). destruct (decide _); [|apply lk_panic]. destruct (decide _); [by apply lk_ret|].
      eapply lk_bind; [apply lk_put|]. { constructor. destruct Hc. by split. } intros _ _ _. by apply lk_ret. }
    intros ? [[dd di] fr] ->. eapply lk_bind; [apply lk_emit|]. intros _ _ _.
    eapply (lk_bind eq); [destruct dd; [by apply lk_dirty_alloc|by apply lk_ret]|]. intros _ _ _.
    eapply lk_bind; [apply lk_emit|]. intros _ _ _.
    eapply lk_bind; [apply lk_push; [apply erel_refl|]; constructor|]. intros _ _ _.
    eapply (lk_bind eq); [destruct di; [by apply lk_put|by apply lk_ret]|]. intros _ _ _. by apply lk_ret.
Qed.

(** ** Evaluation *)
Definition okcyc (cyc : option val) : Prop := orel cyc.
Lemma lk_is_cycle s s' l : srel s s' → is_cycle s' l = is_cycle s l.
Proof.
  intros Hs. unfold is_cycle. induction (sr_stack _ _ Hs) as [|f f' fs fs' Hf _ IH]; simpl; [done|].
  by rewrite (fr_loc _ _ Hf), IH.
Qed.
Lemma lk_is_dup s s' l : srel s s' → is_dup s' l = is_dup s l.
Proof.
  intros Hs. unfold is_dup. destruct (sr_stack _ _ Hs) as [|f f' fs fs' Hf _]; [done|].
  induction (fr_succs _ _ Hf) as [|[x d] [x' d'] es es' [Hx _] _ IH]; simpl; [done|]. simpl in Hx.
  by rewrite (er_loc _ _ Hx), (er_eff _ _ Hx), IH.
Qed.
Lemma lk_finish l dup pure t r : ¬ bad r → lk rval (force_finish l dup pure t r) (force_finish l dup pure t r).
Proof.
  intros Hr. eapply (lk_bind eq).
  { destruct (dup || pure); [by apply lk_ret|]. apply lk_push; [apply erel_refl|]; constructor. }
  intros _ _ _. by apply lk_ret.
Qed.
Section Force.
Context (prod prod' : ty → loc → M val) (cln cln' : ty → val → loc → M bool).
Definition Hprod : Prop := ∀ t l, lk rval (prod t l) (prod' t l).
Definition Hcln : Prop := ∀ t w l, lk eq (cln t w l) (cln' t w l).
Lemma lk_force_loc t l cyc : Hprod → Hcln → okcyc cyc → lk rval (force_loc prod cln t l cyc) (force_loc prod' cln' t l cyc).
Proof.
  intros Hp Hc Hcyc. unfold force_loc. eapply lk_bind; [apply lk_get|]. intros s s' Hs. cbv zeta.
  rewrite (lk_is_dup _ _ _ Hs), (lk_cur_loc _ _ Hs), (lk_is_cycle _ _ _ Hs), (sr_purity _ _ Hs).
  eapply lk_bind; [apply lk_res|]. intros nd nd' [t' ps ps' w Hps Hw|t' w Hw|c c' Hcr].
  - eapply lk_bind; [apply lk_emit|]. intros _ _ _. by apply lk_finish.
  - eapply lk_bind; [apply lk_emit|]. intros _ _ _. by apply lk_finish.
  - rewrite <- (Forall2_length _ _ _ (cr_succs _ _ Hcr)). rewrite (cr_res _ _ Hcr).
    destruct (is_cycle s l).
    { destruct cyc as [o|]; [|apply lk_panic]. eapply lk_bind; [apply lk_emit|]. intros _ _ _.
      eapply lk_bind; [apply lk_emit|]. intros _ _ _. by apply lk_finish. }
    destruct (c_res c) as [r0|].
    + eapply lk_bind; [apply lk_emit|]. intros _ _ _. eapply lk_bind; [apply Hc|]. intros _ _ _.
      eapply lk_bind; [apply lk_emit|]. intros _ _ _. eapply lk_bind; [apply lk_res|].
      intros nd1 nd1' [t1 ps1 ps1' w1 Hps1 Hw1|t1 w1 Hw1|c1 c1' Hcr1]; try apply lk_panic.
      rewrite (cr_res _ _ Hcr1). assert (Hg := cr_good _ _ Hcr1). destruct (c_res c1); [by apply lk_finish|apply lk_panic].
    + eapply lk_bind; [apply lk_emit|]. intros _ _ _. eapply lk_bind; [by apply lk_assert|]. intros _ _ _.
      eapply lk_bind; [apply Hp|]. intros r r' [-> Hr]. eapply lk_bind; [apply lk_emit|]. intros _ _ _. by apply lk_finish.
Qed.
Lemma lk_clean_comp t w l cache es es' : Hprod → Hcln → Forall2 erel es es' →
  lk eq (clean_comp prod cln t w l cache es) (clean_comp prod' cln' t w l cache es').
Proof.
  intros Hp Hc He. induction He as [|x x' es es' Hx _ IH]; cbn [clean_comp]; [by apply lk_ret|].
  rewrite (er_loc _ _ Hx), (er_eff _ _ Hx). eapply lk_bind; [apply lk_get_dirty|]. intros ? b ->. destruct b; [|exact IH].
  eapply lk_bind; [apply lk_emit|]. intros _ _ _. eapply (lk_bind eq).
  { destruct (er_dep _ _ Hx); simpl; try (by apply lk_ret); [apply Hc|by apply lk_check_map]. }
  intros ? ch ->. destruct ch.
  - eapply lk_bind; [apply lk_emit|]. intros _ _ _. eapply lk_bind; [apply Hp|]. intros r r' [-> Hr].
    eapply lk_bind; [apply lk_emit|]. intros _ _ _. eapply lk_bind; [apply lk_emit|]. intros _ _ _. by apply lk_ret.
  - eapply lk_bind; [apply lk_set_dirty|]. intros _ _ _. eapply lk_bind; [apply lk_emit|]. intros _ _ _.
    eapply lk_bind; [apply lk_emit|]. intros _ _ _. exact IH.
Qed.
Lemma lk_clean_body t w l : Hprod → Hcln → lk eq (clean_body prod cln t w l) (clean_body prod' cln' t w l).
Proof.
  intros Hp Hc. unfold clean_body. eapply lk_bind; [apply lk_res|]. intros nd nd' [t' ps ps' v Hps Hv|t' v Hv|c c' Hcr]; try (by apply lk_ret).
  rewrite (cr_res _ _ Hcr). destruct (c_res c).
  - apply lk_clean_comp; try done. apply Hcr.
  - eapply lk_bind; [apply lk_emit|]. intros _ _ _. eapply lk_bind; [apply Hp|]. intros r r' [-> Hr].
    eapply lk_bind; [apply lk_emit|]. intros _ _ _. by apply lk_ret.
Qed.
End Force.

Section Run.
Context (frc frc' : ty → loc → option val → M val).
Definition Hfrc : Prop := ∀ t l cyc, okcyc cyc → lk rval (frc t l cyc) (frc' t l cyc).
Lemma bada_good a : bada a = false → match a with ARc v => ¬ bad v | ALoc _ => True end.
Proof. destruct a; simpl; [|done]. by intros ?%bool_decide_eq_false_1. Qed.
Lemma bado_good o : bado o = false → okcyc o.
Proof. destruct o; simpl; [|done]. by intros ?%bool_decide_eq_false_1. Qed.
Lemma gcont_good (k : val → comp) v : ¬ bad v → gcont k v = k v.
Proof. intros Hv. unfold gcont. rewrite decide_False; [rewrite decide_False; [done|]|]; intros ->; apply Hv; [by right|by left]. Qed.
Lemma gcont_e2 (k : val → comp) : e ≠ e2 → gcont k e2 = Fail.
Proof. intros Hne. unfold gcont. rewrite decide_False by done. by rewrite decide_True. Qed.
Lemma lk_ext {A B} (RA : A → B → Prop) m1 m2 m1' m2' : (∀ s, m1 s = m2 s) → (∀ s, m1' s = m2' s) → lk RA m2 m2' → lk RA m1 m1'.
Proof. intros H1 H2 Hl s s' Hs. rewrite H1, H2. by apply Hl. Qed.
Lemma lk_dead {A B} (RA : A → B → Prop) m m' : (∀ s, ∃ t, m' s = (OPanic PUser, t)) → lk RA m m'.
Proof. intros Hd s s' Hs. destruct (Hd s') as (t & ->). by destruct (m s) as [[|[]|]]. Qed.
Lemma bind_assoc {A B C} (m : M A) (f : A → M B) (g : B → M C) s : bind (bind m f) g s = bind m (λ a, bind (f a) g) s.
Proof. unfold bind. by destruct (m s) as [[]]. Qed.
Lemma lk_map_cont (abs : bool) t a f (k : val → comp) : e ≠ e2 → Hfrc → bada a = false →
  (∀ v, lk rval (@run P frc (k v)) (@run P' frc' (grd (k v)))) →
  lk rval (let! v := (if abs then force_abs_art else force_map_art) frc t a f in @run P frc (k v))
          (let! v := (if abs then force_abs_art else force_map_art) frc' t a (gf f) in @run P' frc' (gcont (λ v, grd (k v)) v)).
Proof.
  intros Hne Hf Ha IH. apply bada_good in Ha.
  assert (Hk : ∀ v, ¬ bad v → lk rval (@run P frc (k (f v))) (@run P' frc' (gcont (λ v, grd (k v)) (gf f v)))).
  { intros v Hv. destruct (decide (bad (f v))) as [Hb|Hb].
    - rewrite gf_bad, gcont_e2 by done. apply lk_user.
    - rewrite gf_good, gcont_good by done. apply IH. }
  destruct a as [v|l].
  { eapply lk_ext; [| |exact (Hk v Ha)]; intros s; by destruct abs. }
  assert (Ho : lk rval (let! v := (let! v := frc t l None in ret (f v)) in @run P frc (k v))
     (let! v := (let! v := frc' t l None in ret (gf f v)) in @run P' frc' (gcont (λ v, grd (k v)) v))).
  { eapply lk_ext; [intros s; apply bind_assoc|intros s; apply bind_assoc|].
    eapply lk_bind; [by apply Hf|]. intros v v' [-> Hv]. eapply lk_ext; [done|done|by apply Hk]. }
  assert (Hgo : ∀ v t', ¬ bad v → ∀ d d', (¬ bad (f v) → drel d d') →
    lk rval (let! v0 := (let! s := get in emit (EvEff (TForce RefGet) (cur_loc s) l) ;!
          push_edge (Succ false l Observe d) (Some d) ;! ret (f v)) in @run P frc (k v0))
      (let! v0 := (let! s := get in emit (EvEff (TForce RefGet) (cur_loc s) l) ;!
          push_edge (Succ false l Observe d') (Some d') ;! ret (gf f v)) in @run P' frc' (gcont (λ v, grd (k v)) v0)) ∧ t' = t' :> ty).
  { intros v t' Hv d d' Hd. split; [|done]. destruct (decide (bad (f v))) as [Hb|Hb].
    - apply lk_dead. intros s. rewrite gf_bad by done. eexists. cbn. by rewrite gcont_e2.
    - specialize (Hd Hb). eapply (lk_bind (λ w w', w = f v ∧ w' = gf f v)); [|intros ? ? [-> ->]; by apply Hk].
      eapply lk_bind; [apply lk_get|]. intros s s' Hs. rewrite (lk_cur_loc _ _ Hs).
      eapply lk_bind; [apply lk_emit|]. intros _ _ _.
      eapply lk_bind; [apply lk_push; [by apply Build_erel|by constructor]|]. intros _ _ _. by apply lk_ret. }
  destruct abs; (eapply lk_ext; [intros s; apply bind_assoc|intros s; apply bind_assoc|]);
    (eapply lk_bind; [apply lk_res|]); intros nd nd' [t' ps ps' v Hps Hv|t' v Hv|c c' Hcr]; try exact Ho.
  - apply (Hgo v t' Hv). constructor.
  - apply (Hgo v t' Hv). intros Hb. rewrite gf_good by done. by constructor.
Qed.
Lemma lk_run c : e ≠ e2 → Hfrc → lk rval (@run P frc c) (@run P' frc' (grd c)).
Proof.
  intros Hne Hf.
  induction c as [v| |t a cyc k IH|t a f k IH|t a f k IH|t n v k IH|t nc pp arg spur k IH|t a v k IH|n b IHb k IH|b IHb k IH]; cbn [grd].
  - destruct (decide (bad v)); [apply lk_user|by apply lk_ret].
  - apply lk_user'.
  - destruct (bada a) eqn:Ea; [apply lk_user|]. destruct (bado cyc) eqn:Ec; [apply lk_user|]. cbn [orb run].
    eapply (lk_bind rval); [|intros v v' [-> Hv]; by rewrite gcont_good].
    apply bada_good in Ea. apply bado_good in Ec. destruct a; simpl; [by apply lk_ret|by apply Hf].
  - destruct (bada a) eqn:Ea; [apply lk_user|]. by apply (lk_map_cont false).
  - destruct (bada a) eqn:Ea; [apply lk_user|]. by apply (lk_map_cont true).
  - destruct (decide (bad v)); [apply lk_user|]. cbn [run]. eapply lk_bind; [by apply lk_cell|]. intros ? l ->. apply IH.
  - cbn [run]. eapply lk_bind; [by apply lk_thunk|]. intros ? l ->. apply IH.
  - destruct (decide (bad v)); [apply lk_user|]. cbn [run]. eapply lk_bind; [by apply lk_set|]. intros _ _ _. apply IH.
  - cbn [run]. eapply lk_bind; [apply lk_get|]. intros s s' Hs. rewrite (sr_cpath _ _ Hs).
    eapply lk_bind. { apply lk_modify. intros s1 s1' Hs1. destruct Hs1. by split. } intros _ _ _.
    eapply lk_bind; [apply IHb|]. intros v v' [-> Hv].
    eapply lk_bind. { apply lk_modify. intros s1 s1' Hs1. destruct Hs1. by split. } intros _ _ _.
    by rewrite gcont_good.
  - cbn [run]. eapply lk_bind; [apply lk_get|]. intros s s' Hs. rewrite (sr_structf _ _ Hs).
    eapply lk_bind. { apply lk_modify. intros s1 s1' Hs1. destruct Hs1. by split. } intros _ _ _.
    eapply lk_bind; [apply IHb|]. intros v v' [-> Hv].
    eapply lk_bind. { apply lk_modify. intros s1 s1' Hs1. destruct Hs1. by split. } intros _ _ _.
    by rewrite gcont_good.
Qed.
Lemma lk_produce_begin t l : lk (λ a a', crel a.1 a'.1 ∧ a'.2 = a.2) (produce_begin t l) (produce_begin t l).
Proof.
  eapply lk_bind; [apply lk_res|]. intros nd nd' [t' ps ps' v Hps Hv|t' v Hv|c c' Hcr]; try apply lk_panic.
  eapply lk_bind. { apply lk_put. constructor. destruct Hcr. split; simpl; try done. } intros _ _ _.
  eapply lk_bind; [apply lk_revoke, Hcr|]. intros _ _ _.
  eapply lk_bind. { apply lk_modify. intros s s' []. split; try done. simpl. constructor; [|done]. split; [done|constructor]. } intros _ _ _.
  eapply lk_bind; [apply lk_get|]. intros s s' Hs. rewrite (sr_cpath _ _ Hs).
  eapply lk_bind. { apply lk_modify. intros s1 s1' Hs1. destruct Hs1. by split. } intros _ _ _.
  eapply lk_bind; [apply lk_res|]. intros nd1 nd1' [t1 ps1 ps1' w1 Hps1 Hw1|t1 w1 Hw1|c1 c1' Hcr1]; try apply lk_panic.
  by apply lk_ret.
Qed.
Lemma lk_produce_end t l prev r : ¬ bad r → lk eq (produce_end t l prev r) (produce_end t l prev r).
Proof.
  intros Hr. eapply lk_bind. { apply lk_modify. intros s1 s1' Hs1. destruct Hs1. by split. } intros _ _ _.
  eapply lk_bind; [apply lk_get|]. intros s s' Hs. destruct (sr_stack _ _ Hs) as [|f f' fs fs' Hf Hfs]; [apply lk_panic|].
  eapply lk_bind. { apply lk_modify. intros s1 s1' Hs1. destruct Hs1. by split. } intros _ _ _.
  eapply lk_bind; [apply lk_assert; by rewrite (fr_loc _ _ Hf)|]. intros _ _ _.
  eapply lk_bind; [apply lk_insert_preds, Hf|]. intros _ _ _.
  eapply lk_bind; [apply lk_res|]. intros nd1 nd1' [t1 ps1 ps1' w1 Hps1 Hw1|t1 w1 Hw1|c1 c1' Hcr1]; try apply lk_panic.
  apply lk_put. constructor. destruct Hcr1. split; simpl; try done.
  destruct Hf as [_ Hf]. induction Hf as [|x x' es es' [Hx _] _ IH]; simpl; [constructor|]. by constructor.
Qed.
Lemma lk_produce_body t l : e ≠ e2 → Hfrc → lk rval (@produce_body P frc t l) (@produce_body P' frc' t l).
Proof.
  intros Hne Hf. unfold produce_body. eapply lk_bind; [apply lk_produce_begin|]. intros [c prev] [c' prev'] [Hc Hp]. simpl in Hc, Hp. subst prev'.
  rewrite (cr_pp _ _ Hc), (cr_arg _ _ Hc), (cr_spur _ _ Hc).
  eapply lk_bind. { apply lk_modify. intros s1 s1' Hs1. destruct Hs1. split; simpl; try done. by f_equal. } intros _ _ _.
  eapply lk_bind; [by apply lk_run|]. intros r r' [-> Hr].
  eapply lk_bind; [by apply lk_produce_end|]. intros _ _ _. by apply lk_ret.
Qed.
End Run.

Lemma lk_knot n : e ≠ e2 → Hprod (@produce P n) (@produce P' n) ∧ Hcln (@clean P n) (@clean P' n).
Proof.
  intros Hne. induction n as [|n [IHp IHc]]; (split; [intros t l|intros t w l]); cbn [produce clean].
  - apply lk_nofuel.
  - apply lk_nofuel.
  - apply lk_produce_body; [done|]. intros t' l' cyc Hcyc. by apply lk_force_loc.
  - by apply lk_clean_body.
Qed.
Lemma lk_exec n c : e ≠ e2 → lk rval (@exec P n c) (@exec P' n (grd c)).
Proof.
  intros Hne. destruct (lk_knot n Hne) as [Hp Hc]. apply lk_run; [done|]. intros t' l' cyc Hcyc. by apply lk_force_loc.
Qed.
Lemma srel_new md opt : srel (dcg_new_flags md opt) (dcg_new_flags md opt).
Proof. split; try done; [|constructor]. intros l. simpl. rewrite lookup_empty. constructor. Qed.
End Lock.

(** ** The guarded program is disciplined, for almost all [e] and [e2] *)
Section Fresh.
Context (P : Prog).
Context (opt md0 : bool).

Definition apart (L : list val) (e e2 : val) : Prop := e ≠ e2 ∧ e ∉ L ∧ e2 ∉ L.
Lemma apart_app L1 L2 e e2 : apart (L1 ++ L2) e e2 → apart L1 e e2 ∧ apart L2 e e2.
Proof. unfold apart. set_solver. Qed.
Lemma apart_good L e e2 v : apart L e e2 → v ∈ L → ¬ bad e e2 v.
Proof. intros (_ & H1 & H2) Hv [->| ->]; done. Qed.

(** [m'] (guarded) against [m], from state [p]. *)
Definition fok (m : pM val) (m' : val → val → dM val) (p : dstate) : Prop := ∀ o, m p = Some o →
  ∃ L, ∀ e e2, apart L e e2 →
    match o with
    | PVal v p' => m' e e2 p = Some (v, p') ∧ ¬ bad e e2 v
    | PRaise => ∃ p', m' e e2 p = Some (e, p')
    end.
Lemma fok_bind m m' (k : val → pM val) (k' : val → val → comp → dM val) (g : val → val → val → comp) p :
  fok m m' p → (∀ v p1, m p = Some (PVal v p1) → fok (k v) (λ e e2, k' e e2 (g e e2 v)) p1) →
  (∀ e e2 p, k' e e2 (Ret e) p = Some (e, p)) →
  fok (pbind m k) (λ e e2, dbind (m' e e2) (λ v, k' e e2 (gcont e e2 (g e e2) v))) p.
Proof.
  intros Hm Hk Hr o. unfold pbind. destruct (m p) as [[v p1|]|] eqn:E; [| |done].
  - intros Ho. destruct (Hm _ E) as (L1 & HL1). destruct (Hk v p1 eq_refl o Ho) as (L2 & HL2).
    exists (L1 ++ L2). intros e e2 [H1 H2]%apart_app. destruct (HL1 e e2 H1) as [Hm1 Hb]. unfold dbind.
    specialize (HL2 e e2 H2). rewrite Hm1, gcont_good by done. exact HL2.
  - intros [= <-]. destruct (Hm _ E) as (L1 & HL1). exists L1. intros e e2 H1. destruct (HL1 e e2 H1) as (p' & Hp').
    exists p'. unfold dbind. rewrite Hp'. unfold gcont. rewrite decide_True by done. apply Hr.
Qed.
Lemma fok_op {A} (m : dM A) (k : A → pM val) (k' : val → val → A → dM val) p :
  (∀ a p1, m p = Some (a, p1) → fok (k a) (λ e e2, k' e e2 a) p1) →
  fok (pbind (plift m) k) (λ e e2, dbind m (k' e e2)) p.
Proof.
  intros Hk o. unfold pbind, plift, dbind. destruct (m p) as [[a p1]|] eqn:E; [|done]. intros Ho. by apply (Hk a p1).
Qed.
Lemma fok_ret v p : fok (pret v) (λ _ _ p, Some (v, p)) p.
Proof. intros o [= <-]. exists [v]. intros e e2 Ha. split; [done|]. eapply apart_good; [done|by left]. Qed.
Lemma fok_ext m m1 m2 p : (∀ e e2, m1 e e2 p = m2 e e2 p) → fok m m2 p → fok m m1 p.
Proof. intros He Hm o Ho. destruct (Hm o Ho) as (L & HL). exists L. intros e e2 Ha. rewrite He. by apply HL. Qed.
(** Guards that fire only for values of a given list. *)
Lemma fok_apart L m m1 m2 p : (∀ e e2, apart L e e2 → m1 e e2 p = m2 e e2 p) → fok m m2 p → fok m m1 p.
Proof.
  intros He Hm o Ho. destruct (Hm o Ho) as (L2 & HL). exists (L ++ L2). intros e e2 [H1 H2]%apart_app.
  rewrite He by done. by apply HL.
Qed.

Notation Pg := (P' P).
Definition Ffrc (frc : bool → ty → loc → pM val) (frc' : val → val → bool → ty → loc → dM val) : Prop :=
  ∀ md t l p, fok (frc md t l) (λ e e2, frc' e e2 md t l) p.

Lemma fok_gf m m' (f : val → val) p :
  fok m m' p → fok (pbind m (λ v, pret (f v))) (λ e e2, dbind (m' e e2) (λ v p, Some (gf e e2 f v, p))) p.
Proof.
  intros Hm o. unfold pbind, dbind. destruct (m p) as [[v p1|]|] eqn:E; [| |done]; intros [= <-];
    destruct (Hm _ E) as (L1 & HL1).
  - exists ([f v] ++ L1). intros e e2 [H1 H2]%apart_app. destruct (HL1 e e2 H2) as [-> Hb].
    assert (¬ bad e e2 (f v)) by (eapply apart_good; [exact H1|by left]). by rewrite gf_good.
  - exists L1. intros e e2 H1. destruct (HL1 e e2 H1) as (p' & ->). exists p'. unfold gf. by rewrite decide_True.
Qed.
Lemma fok_force_map frc frc' abs stk md t l f p : Ffrc frc frc' →
  fok (p_force_map opt (frc md) abs stk t l f) (λ e e2, d_force_map opt (frc' e e2 md) abs stk t l (gf e e2 f)) p.
Proof.
  intros Hf. assert (Ho := fok_gf _ _ f p (Hf md t l p)). intros o. unfold p_force_map, d_force_map.
  destruct (d_store p !! l) as [[t' v|t' pp arg spur]|]; [| |done].
  - destruct (decide (t' = t)) as [Et|]; [|done]. destruct (tracked opt l); [|apply Ho].
    destruct stk as [|x stk].
    + intros [= <-]. exists [v; f v]. intros e e2 Ha.
      assert (¬ bad e e2 (f v)) by (eapply apart_good; [done|set_solver]).
      rewrite gf_good; [done|eapply apart_good; [done|set_solver]|done].
    + destruct (_ && _) eqn:Eb; [|done]. intros [= <-]. exists [v; f v]. intros e e2 Ha.
      assert (¬ bad e e2 (f v)) by (eapply apart_good; [done|set_solver]).
      rewrite gf_good; [done|eapply apart_good; [done|set_solver]|done].
  - apply Ho.
Qed.

Lemma fok_run frc frc' stk : Ffrc frc frc' → ∀ c pth md p,
  fok (@p_run P opt frc stk pth md c) (λ e e2, @d_run (Pg e e2) opt (frc' e e2) stk pth md (grd e e2 c)) p.
Proof.
  intros Hf c.
  induction c as [v| |t a cyc k IH|t a f k IH|t a f k IH|t n v k IH|t nc pp arg spur k IH|t a v k IH|n b IHb k IH|b IHb k IH];
    intros pth md p; cbn [p_run].
  - eapply (fok_apart [v]); [|apply fok_ret]. intros e e2 Ha. cbn [grd].
    rewrite decide_False; [done|]. eapply apart_good; [done|set_solver].
  - intros o [= <-]. exists []. intros e e2 _. by exists p.
  - eapply (fok_apart ((match a with ARc v => [v] | ALoc _ => [] end) ++ (match cyc with Some o => [o] | None => [] end)) _ _
      (λ e e2, dbind (d_art (frc' e e2 md) t a) (λ v, @d_run (Pg e e2) opt (frc' e e2) stk pth md (gcont e e2 (λ v, grd e e2 (k v)) v)))).
    { intros e e2 [H1 H2]%apart_app. cbn [grd].
      assert (bada e e2 a = false) as ->.
      { destruct a; [|done]. apply bool_decide_eq_false_2. eapply apart_good; [exact H1|set_solver]. }
      assert (bado e e2 cyc = false) as ->.
      { destruct cyc; [|done]. apply bool_decide_eq_false_2. eapply apart_good; [exact H2|set_solver]. }
      done. }
    apply (fok_bind _ _ _ (λ e e2, @d_run (Pg e e2) opt (frc' e e2) stk pth md) (λ e e2 v, grd e e2 (k v))); try done.
    destruct a; simpl; [apply fok_ret|apply Hf].
  - eapply (fok_apart (match a with ARc v => [v] | ALoc _ => [] end) _ _
      (λ e e2, dbind (match a with ARc v => λ p, Some (gf e e2 f v, p) | ALoc l => d_force_map opt (frc' e e2 md) false stk t l (gf e e2 f) end)
         (λ v, @d_run (Pg e e2) opt (frc' e e2) stk pth md (gcont e e2 (λ v, grd e e2 (k v)) v)))).
    { intros e e2 H1. cbn [grd].
      assert (bada e e2 a = false) as ->.
      { destruct a; [|done]. apply bool_decide_eq_false_2. eapply apart_good; [done|set_solver]. }
      done. }
    apply (fok_bind _ _ _ (λ e e2, @d_run (Pg e e2) opt (frc' e e2) stk pth md) (λ e e2 v, grd e e2 (k v))); try done.
    destruct a; simpl; [apply (fok_gf (pret v) (λ _ _ p, Some (v, p))), fok_ret|by apply fok_force_map].
  - eapply (fok_apart (match a with ARc v => [v] | ALoc _ => [] end) _ _
      (λ e e2, dbind (match a with ARc v => λ p, Some (gf e e2 f v, p) | ALoc l => d_force_map opt (frc' e e2 md) true stk t l (gf e e2 f) end)
         (λ v, @d_run (Pg e e2) opt (frc' e e2) stk pth md (gcont e e2 (λ v, grd e e2 (k v)) v)))).
    { intros e e2 H1. cbn [grd].
      assert (bada e e2 a = false) as ->.
      { destruct a; [|done]. apply bool_decide_eq_false_2. eapply apart_good; [done|set_solver]. }
      done. }
    apply (fok_bind _ _ _ (λ e e2, @d_run (Pg e e2) opt (frc' e e2) stk pth md) (λ e e2 v, grd e e2 (k v))); try done.
    destruct a; simpl; [apply (fok_gf (pret v) (λ _ _ p, Some (v, p))), fok_ret|by apply fok_force_map].
  - eapply (fok_apart [v]); [|apply (fok_op _ _ (λ e e2 l, @d_run (Pg e e2) opt (frc' e e2) stk pth md (grd e e2 (k l)))); intros a p1 _; apply IH].
    intros e e2 Ha. cbn [grd]. rewrite decide_False; [done|]. eapply apart_good; [done|set_solver].
  - apply (fok_op _ _ (λ e e2 l, @d_run (Pg e e2) opt (frc' e e2) stk pth md (grd e e2 (k l)))). intros a p1 _. apply IH.
  - eapply (fok_apart [v]); [|apply (fok_op _ _ (λ e e2 _, @d_run (Pg e e2) opt (frc' e e2) stk pth md (grd e e2 k))); intros [] p1 _; apply IH].
    intros e e2 Ha. cbn [grd]. rewrite decide_False; [done|]. eapply apart_good; [done|set_solver].
  - apply (fok_bind _ _ _ (λ e e2, @d_run (Pg e e2) opt (frc' e e2) stk pth md) (λ e e2 v, grd e e2 (k v))); try done.
  - apply (fok_bind _ _ _ (λ e e2, @d_run (Pg e e2) opt (frc' e e2) stk pth md) (λ e e2 v, grd e e2 (k v))); try done.
Qed.

Lemma fok_force n : ∀ stk, Ffrc (@p_force P opt md0 n stk) (λ e e2, @d_force (Pg e e2) opt md0 n stk).
Proof.
  induction n as [|n IH]; intros stk md t l p o; cbn [p_force d_force];
    destruct (d_store p !! l) as [[t' w|t' pp arg spur]|]; try done.
  - destruct (decide _) as [Hd|]; [|done]. unfold plift, d_get. destruct (_ && _); [|done]. intros [= <-].
    exists [w]. intros e e2 Ha. split; [done|]. eapply apart_good; [done|set_solver].
  - by destruct (decide _).
  - destruct (decide _) as [Hd|]; [|done]. unfold plift, d_get. destruct (_ && _); [|done]. intros [= <-].
    exists [w]. intros e e2 Ha. split; [done|]. eapply apart_good; [done|set_solver].
  - destruct (decide _) as [Hd|]; [|done].
    assert (Hr := fok_run _ _ (l :: stk) (IH (l :: stk)) (@code P pp arg spur) (l_path l) md
       (DState (d_store p) ({[l]} ∪ d_seen p) (d_done p) ∅ ∅)).
    destruct (@p_run P _ _ _ _ _ _ _) as [o'|] eqn:Ep; [|done]. destruct (Hr o' Ep) as (L & HL).
    intros Ho. exists L. intros e e2 Ha. specialize (HL e e2 Ha). cbn [code P'].
    destruct o' as [v p1|]; injection Ho as <-.
    + destruct HL as [-> Hb]. done.
    + destruct HL as (p' & ->). eauto.
Qed.

Lemma fok_exec n c p : fok (@p_exec P opt md0 n c) (λ e e2, @d_exec (Pg e e2) opt md0 n (grd e e2 c)) p.
Proof. apply fok_run. apply fok_force. Qed.

Lemma apart_ex L : ∃ e e2, apart L e e2.
Proof.
  assert (∃ z, ∀ z', (z ≤ z')%Z → VInt z' ∉ L) as (z & Hz).
  { induction L as [|v L (z & Hz)]; [exists 0%Z; by intros ? ? ?%elem_of_nil|].
    exists (Z.max z (match v with VInt i => i + 1 | _ => 0 end))%Z. intros z' Hz' [<-|Hin]%elem_of_cons; [lia|].
    apply (Hz z'); [lia|done]. }
  exists (VInt z), (VInt (z + 1)). split; [intros [=]; lia|]. split; apply Hz; lia.
Qed.
End Fresh.
