(** * C60: changing a cell (or re-allocating a name with new content) dirties exactly what it must.

    engine.rs:1281-1351 [dirty_pred_observers], [dirty_alloc].  C09 says that whatever is out of date is
    dirty; here is the converse: nothing else becomes dirty, every edge is dirtied at most once, and the
    recorded [Dirty] effects are exactly those edges. *)
From Verif Require Export Demands EngineProps.

(** The (source, target) pairs of the [Dirty] effects among some events. *)
Definition dirties (evs : list event) : list (loc * loc) :=
  omap (λ ev, match ev with EvBegin TDirty (Some q) y => Some (q, y) | _ => None end) evs.

(** The effects recorded between [s] and [s'] contain one [Dirty] per edge of [es]. *)
Definition edge_ends (h : loc * effect * loc) : loc * loc := (h.1.1, h.2).
Definition new_dirt (s s' : dcg) (es : list (loc * effect * loc)) : Prop :=
  (∃ evs, trc s' = evs ++ trc s ∧ dirties evs = edge_ends <$> es) ∧ NoDup es ∧
  ∀ q eff tgt, (q, eff, tgt) ∈ es ↔ newly s s' q eff tgt.

(** ** Composition *)
Section Touch.
Variable P : loc → effect → loc → Prop.
Definition touch (s s' : dcg) : Prop :=
  bits_le s s' ∧ ∃ es, new_dirt s s' es ∧ ∀ q eff tgt, (q, eff, tgt) ∈ es → P q eff tgt.

Lemma touch_refl s : touch s s.
Proof.
  split; [done|]. exists []. split; [|by intros ??? ?%elem_of_nil]. split_and!.
  - by exists [].
  - constructor.
  - intros q eff tgt. split; [by intros ?%elem_of_nil|by intros ?%newly_refl].
Qed.
Lemma touch_trans s1 s2 s3 : touch s1 s2 → touch s2 s3 → touch s1 s3.
Proof.
  intros (L1 & es1 & ((ev1 & T1 & D1) & N1 & E1) & P1) (L2 & es2 & ((ev2 & T2 & D2) & N2 & E2) & P2).
  split; [by eapply bits_le_trans|]. exists (es2 ++ es1). split; [split_and!|].
  - exists (ev2 ++ ev1). rewrite T2, T1, app_assoc. split; [done|]. unfold dirties in *.
    rewrite omap_app, fmap_app. by f_equal.
  - apply NoDup_app. split_and!; [done| |done]. intros [[q eff] tgt] H2%E2 H1%E1.
    destruct H2 as [Hn _]. apply Hn. apply H1.
  - intros q eff tgt. rewrite elem_of_app, E2, E1. split.
    + intros [[Hn Hy]|[Hn Hy]].
      * split; [|done]. intros Hb. apply Hn. by eapply nbit_le.
      * split; [done|]. by eapply nbit_le.
    + intros [?|?]%(newly_split _ s2); auto.
  - intros q eff tgt [?|?]%elem_of_app; auto.
Qed.
Lemma touch_ev s e : dirties [e] = [] → touch s (add_ev e s).
Proof.
  intros He. split; [apply bits_le_add_ev|]. exists []. split; [|by intros ??? ?%elem_of_nil]. split_and!.
  - by exists [e].
  - constructor.
  - intros q eff tgt. split; [by intros ?%elem_of_nil|by intros [? ?]].
Qed.
Lemma touch_mark q eff tgt c e s :
  table s !! q = Some (NComp c) → find_succ eff tgt (c_succs c) = Some e → s_dirty e = false → P q eff tgt →
  touch s (add_ev (EvBegin TDirty (Some q) tgt) (upd_bit true q eff tgt c s)).
Proof.
  intros Hq He Hd HP. assert (bit eff tgt (c_succs c) = Some false) as Hb by (unfold bit; rewrite He; simpl; by rewrite Hd).
  split; [eapply bits_le_trans; [|apply bits_le_add_ev]; apply upd_bit_le; [done|rewrite Hb; eauto]|].
  exists [(q, eff, tgt)]. split; [|by intros ??? [= -> -> ->]%elem_of_list_singleton]. split_and!.
  - by exists [EvBegin TDirty (Some q) tgt].
  - apply NoDup_singleton.
  - intros q' eff' tgt'. rewrite elem_of_list_singleton. split.
    + intros [= -> -> ->]. split.
      * unfold nbit. rewrite Hq, Hb. done.
      * apply (nbit_upd_same true q eff tgt c s). rewrite Hb. eauto.
    + intros Hn. by apply (newly_upd _ _ _ c s) in Hn as (-> & -> & ->).
Qed.
End Touch.
Lemma touch_mono (P Q : loc → effect → loc → Prop) s s' : (∀ q eff tgt, P q eff tgt → Q q eff tgt) → touch P s s' → touch Q s s'.
Proof. intros HPQ (L & es & Hn & HP). split; [done|]. exists es. auto. Qed.

(** ** The traversal *)
(** As recorded at the targets: [q] observes [y]; [q] is directly hit by a change of [l]; the change reaches [y]. *)
Definition watches (s : dcg) (q y : loc) : Prop := ∃ nd pr,
  table s !! y = Some nd ∧ pr ∈ node_preds nd ∧ p_eff pr = Observe ∧ p_loc pr = q.
Definition struck (s : dcg) (l q : loc) (eff : effect) : Prop := ∃ nd pr,
  table s !! l = Some nd ∧ pr ∈ node_preds nd ∧ p_loc pr = q ∧ p_eff pr = eff ∧ (eff = Observe → pred_hot nd pr) ∧
  nbit s q eff l ≠ Some true.
Definition spread (s : dcg) (l y : loc) : Prop := ∃ z eff, struck s l z eff ∧ rtc (watches s) y z.
Definition to_dirty (s : dcg) (l q : loc) (eff : effect) (tgt : loc) : Prop :=
  (tgt = l ∧ struck s l q eff) ∨ (eff = Observe ∧ watches s q tgt ∧ spread s l tgt).

Section Traverse.
Context `{Prog}.
Variables (s0 : dcg) (l : loc).
Notation tch := (touch (to_dirty s0 l)).

Lemma dirty_step_touch rec y nd pr s :
  Struc s0 → bits_le s0 s → table s0 !! y = Some nd → pr ∈ node_preds nd → p_eff pr = Observe →
  (pred_hot nd pr → nbit s0 (p_loc pr) Observe y ≠ Some true → to_dirty s0 l (p_loc pr) Observe y ∧ spread s0 l (p_loc pr)) →
  (∀ s', bits_le s0 s' → spread s0 l (p_loc pr) → post (rec (p_loc pr)) s' (λ o s'', o = OVal tt → tch s' s'')) →
  post (dirty_step rec y (p_loc pr, match nd with NMut _ _ _ => p_dep pr | _ => None end)) s (λ o s', o = OVal tt → tch s s').
Proof.
  intros Hst Hle Hy Hpr Heff Hhit Hrec. unfold dirty_step. cbn [fst snd].
  apply post_bind. eapply (post_mono _ _ (λ o s', s' = s ∧ (o = OVal false → pred_hot nd pr))).
  { destruct nd as [t ps v|t v|c]; [|by apply post_ret..].
    unfold pred_hot. destruct (st_dep _ Hst _ _ _ _ _ Hy Hpr) as [->|(f & w & Hd)]; [by apply post_ret|].
    rewrite Hd. cbn [is_absmap dep_dirty].
    destruct (bl_node _ _ Hle _ _ Hy) as (nd' & Hy' & Hn). apply node_le_mut in Hn as ->.
    apply post_bind. unfold check_force_map_dep. apply post_intro. intros o s' E.
    rewrite (bind_val _ _ s (NMut t ps v) s) in E by (by apply res_node_eq). injection E as <- <-.
    unfold kont. apply post_ret. split; [done|]. intros [= Hn]. apply negb_false_iff, bool_decide_eq_true in Hn. done. }
  intros o s' [-> Hhot]. unfold kont. destruct o as [stop|r|]; [|done|done].
  apply post_bind. eapply (post_mono _ _ (λ o s', (∀ b, o = OVal b → tch s s') ∧ (o = OVal false → spread s0 l (p_loc pr)))).
  { destruct stop.
    { apply post_ret. split; [intros _ _; apply touch_refl|done]. }
    apply post_bind, post_get_dirty; [|done]. intros c e Hc He. unfold kont.
    destruct (s_dirty e) eqn:Hd.
    { apply post_ret. split; [intros _ _; apply touch_refl|done]. }
    destruct (Hhit (Hhot eq_refl)) as [Hp Hs].
    { intros Hb%(nbit_le _ s); [|done]. unfold nbit, bit in Hb. rewrite Hc, He in Hb. simpl in Hb. congruence. }
    apply post_bind, post_assert; [|done]. intros _. unfold kont. apply post_bind, post_emit. unfold kont.
    apply post_bind, post_set_dirty; [|done]. intros c' e' Hc' He'. unfold kont. apply post_ret.
    cbn [table add_ev] in Hc'. rewrite Hc in Hc'. injection Hc' as <-.
    split; [|done]. intros b [= <-]. by eapply (touch_mark _ (p_loc pr) Observe y c e). }
  clear Hhot Hhit. intros o s1 [Ht Hs]. unfold kont. destruct o as [[]|r|]; [|..|done|done].
  { apply post_ret. intros _. by eapply Ht. }
  specialize (Ht _ eq_refl). specialize (Hs eq_refl). apply post_bind. eapply post_mono.
  { apply Hrec; [|done]. eapply bits_le_trans; [done|]. apply Ht. }
  intros o s2 H2. unfold kont. destruct o as [[]|r|]; [|done|done]. apply post_emit. intros _.
  eapply touch_trans; [exact Ht|]. eapply touch_trans; [by apply H2|]. by apply touch_ev.
Qed.

Lemma post_mfor_val {A} (Pr : dcg → dcg → Prop) (I : dcg → Prop) (xs : list A) f s :
  (∀ s, Pr s s) → (∀ s1 s2 s3, Pr s1 s2 → Pr s2 s3 → Pr s1 s3) → (∀ s1 s2, I s1 → Pr s1 s2 → I s2) →
  I s → (∀ x s1, x ∈ xs → I s1 → post (f x) s1 (λ o s', o = OVal tt → Pr s1 s')) →
  post (mfor xs f) s (λ o s', o = OVal tt → Pr s s').
Proof.
  intros Hr Ht Hi. revert s. induction xs as [|x xs IH]; intros s HI Hf; cbn [mfor]; [by apply post_ret|].
  apply post_bind. eapply post_mono; [apply Hf; [by left|done]|]. intros o s1 H1. unfold kont.
  destruct o as [[]|r|]; [|done|done]. specialize (H1 eq_refl). eapply post_mono.
  { apply IH; [by eapply Hi|]. intros y s2 Hy. apply Hf. by right. }
  intros o s2 H2 Ho. eapply Ht; [done|auto].
Qed.

Lemma preds_obs_in nd ps q d : preds_obs nd = Some ps → (q, d) ∈ ps →
  ∃ pr, pr ∈ node_preds nd ∧ p_eff pr = Observe ∧ q = p_loc pr ∧ d = match nd with NMut _ _ _ => p_dep pr | _ => None end.
Proof.
  intros Hps Hin. destruct (preds_obs_eq nd) as (ps' & Hps' & Hspec); [by destruct nd|].
  rewrite Hps in Hps'. injection Hps' as <-. by apply Hspec.
Qed.
Lemma node_le_dep nd nd' pr : node_le nd nd' →
  match nd' with NMut _ _ _ => p_dep pr | _ => None end = match nd with NMut _ _ _ => p_dep pr | _ => None end.
Proof. by destruct nd, nd'. Qed.

Lemma dirty_obs_touch fuel : ∀ y s,
  Struc s0 → bits_le s0 s → y = l ∨ spread s0 l y →
  post (dirty_obs fuel y) s (λ o s', o = OVal tt → tch s s').
Proof.
  induction fuel as [|fuel IH]; intros y s Hst Hle Hy; [done|]. cbn [dirty_obs].
  apply post_bind, post_lookup_abs; [|done]. intros nd' Hnd'. unfold kont.
  apply post_bind, post_of_opt; [|done]. intros ps Hps. unfold kont.
  destruct (bl_node' _ _ Hle _ _ Hnd') as (nd & Hnd & Hn).
  eapply (post_mfor_val tch (bits_le s0)); [apply touch_refl|apply touch_trans| |done|].
  { intros s1 s2 H1 [H2 _]. by eapply bits_le_trans. }
  intros [q d] s1 Hin Hle1. destruct (preds_obs_in _ _ _ _ Hps Hin) as (pr & Hpr & Heff & -> & ->).
  rewrite (node_le_preds _ _ Hn) in Hpr. rewrite (node_le_dep _ _ _ Hn).
  apply dirty_step_touch; [done..| |].
  - intros Hhot Hcl. assert (watches s0 (p_loc pr) y) as Hw by (exists nd, pr; done).
    destruct Hy as [->|Hy].
    + assert (struck s0 l (p_loc pr) Observe) as Hs by (exists nd, pr; done).
      split; [by left|]. exists (p_loc pr), Observe. split; [done|apply rtc_refl].
    + split; [by right|]. destruct Hy as (z & eff & Hz & Hr). exists z, eff. split; [done|]. by eapply rtc_l.
  - intros s' Hs' Hsp. apply IH; [done..|by right].
Qed.
Lemma dirty_observers_touch y s : Struc s0 → bits_le s0 s → y = l ∨ spread s0 l y →
  post (dirty_observers y) s (λ o s', o = OVal tt → tch s s').
Proof. apply dirty_obs_touch. Qed.

Lemma dirty_alloc_touch s : Struc s0 → bits_le s0 s → post (dirty_alloc l) s (λ o s', o = OVal tt → tch s s').
Proof.
  intros Hst Hle. unfold dirty_alloc. apply post_bind. eapply post_mono; [apply dirty_observers_touch; [done..|by left]|].
  intros o s1 H1. unfold kont. destruct o as [[]|r|]; [|done|done]. specialize (H1 eq_refl).
  assert (bits_le s0 s1) as Hle1 by (eapply bits_le_trans; [done|apply H1]).
  apply post_bind, post_lookup_abs; [|done]. intros nd' Hnd'. unfold kont.
  apply post_bind, post_of_opt; [|done]. intros ps Hps. unfold kont.
  destruct (bl_node' _ _ Hle1 _ _ Hnd') as (nd & Hnd & Hn).
  eapply post_mono.
  { eapply (post_mfor_val tch (bits_le s0)); [apply touch_refl|apply touch_trans| |done|].
    { intros s2 s3 H2 [H3 _]. by eapply bits_le_trans. }
    intros q s2 Hin Hle2.
    assert (nbit s0 q Allocate l ≠ Some true → struck s0 l q Allocate) as Hs.
    { intros Hcl. destruct (preds_alloc_eq nd') as (ps' & Hps' & Hspec); [by destruct nd'|].
      rewrite Hps in Hps'. injection Hps' as <-. apply Hspec in Hin as (pr & Hpr & Heff & ->).
      rewrite (node_le_preds _ _ Hn) in Hpr. exists nd, pr. done. }
    unfold dirty_alloc_step. apply post_bind, post_get_dirty; [|done]. intros c e Hc He. unfold kont.
    destruct (s_dirty e) eqn:Hd; [apply post_ret; intros _; apply touch_refl|].
    specialize (Hs ltac:(intros Hb%(nbit_le _ s2); [|done]; unfold nbit, bit in Hb; rewrite Hc, He in Hb; simpl in Hb; congruence)).
    apply post_bind, post_set_dirty; [|done]. intros c' e' Hc' He'. unfold kont.
    rewrite Hc in Hc'. injection Hc' as <-.
    apply post_bind, post_assert; [|done]. intros _. unfold kont. apply post_bind, post_emit. unfold kont.
    assert (tch s2 (add_ev (EvBegin TDirty (Some q) l) (upd_bit true q Allocate l c s2))) as H2.
    { eapply touch_mark; [exact Hc|exact He|exact Hd|by left]. }
    apply post_bind. eapply post_mono.
    { apply dirty_observers_touch; [done| |right; exists q, Allocate; split; [done|apply rtc_refl]].
      eapply bits_le_trans; [done|apply H2]. }
    intros o s3 H3. unfold kont. destruct o as [[]|r|]; [|done|done]. apply post_emit. intros _.
    eapply touch_trans; [exact H2|]. eapply touch_trans; [by apply H3|]. by apply touch_ev. }
  intros o s2 H2 Ho. eapply touch_trans; [exact H1|auto].
Qed.
End Traverse.

(** ** C60 *)
(** The edge, to a location that gets the content [ct], records something else than the location yields then.
    (A thunk given a new argument has no result at all until it runs again.) *)
Definition view_changes (ct : content) (d : dep) : Prop :=
  match ct, d with
  | CCell _ v, DForce _ w => w ≠ v
  | CCell _ v, DForceMap _ f w => w ≠ f v
  | CCell _ v, DAllocCell w => w ≠ v
  | CThunk _ _ _ _, DForce _ _ => True
  | CThunk _ _ a _, DAllocThunk b => b ≠ a
  | _, _ => False
  end.
(** [x] has an edge with effect [eff] to [l] whose view changes when [l] gets the content [ct]. *)
Definition hits (s : dcg) (l : loc) (ct : content) (x : loc) (eff : effect) : Prop := ∃ c e,
  table s !! x = Some (NComp c) ∧ e ∈ c_succs c ∧ s_loc e = l ∧ s_eff e = eff ∧ view_changes ct (s_dep e).
(** Observing [y] leads, observation by observation, to a thunk whose view of [l] changes. *)
Definition affected (s : dcg) (l : loc) (ct : content) (y : loc) : Prop := ∃ z eff,
  hits s l ct z eff ∧ rtc (observes (table s)) y z.
(** The edges dirty in [s'] are those dirty in [s] and those that [l] getting the content [ct] makes out of date. *)
Definition dirties_exactly (s s' : dcg) (l : loc) (ct : content) : Prop := ∀ x eff y,
  nbit s' x eff y = Some true ↔
    nbit s x eff y = Some true ∨ (y = l ∧ hits s l ct x eff) ∨
    (eff = Observe ∧ observes (table s) x y ∧ affected s l ct y).

Section Exact.
Context `{Prog}.
Context (opt md : bool).

Lemma set_unfold s t l v s' : set_op t (ALoc l) v s = (OVal tt, s') →
  stack s = [] ∧ ∃ ps v0, table s !! l = Some (NMut t ps v0) ∧
   ((v0 = v ∧ s' = s) ∨
    (v0 ≠ v ∧ dirty_alloc l (set_table (<[l := NMut t ps v]> (table s)) s) = (OVal tt, s'))).
Proof.
  unfold set_op. rewrite (bind_val get _ s s s) by done. destruct (stack s); [|done]. unfold set_val. intros E.
  destruct (table s !! l) as [nd|] eqn:Hl.
  2:{ unfold res_node, lookup_abs, bind, get, panic in E. rewrite Hl in E. done. }
  destruct (decide (node_ty nd = t)) as [Ht|Ht].
  2:{ unfold res_node in E. unfold bind in E. rewrite (lookup_abs_eq _ _ _ Hl) in E. rewrite bool_decide_false in E by done. done. }
  rewrite (bind_val _ _ s nd s) in E by (by apply res_node_eq). destruct nd as [t1 ps v0| |]; try done.
  simpl in Ht. subst t1. split; [done|]. exists ps, v0. split; [done|].
  destruct (decide (v0 = v)) as [->|Hne]; [left; by injection E as <-|right]. split; [done|]. exact E.
Qed.

Lemma set_reached s t l v s' : reached opt md s → is_struct l = false → set_op t (ALoc l) v s = (OVal tt, s') → reached opt md s'.
Proof.
  intros Hs Hl Hset. destruct (set_unfold _ _ _ _ _ Hset) as (_ & ps & v0 & Hn & _).
  destruct (reached_step opt md s 1 (SetC t (ALoc l) v (Ret v)) v (d_write [] l (CCell t v) (d_init (holds s))) Hs) as (s2 & (K & Hk) & Hs2 & _).
  - unfold d_exec. cbn [d_run]. unfold dbind, d_set. cbn [d_store d_init]. unfold holds. rewrite contents_lookup, Hn. cbn.
    rewrite decide_True by done. done.
  - specialize (Hk K ltac:(lia)). unfold exec in Hk. cbn [run] in Hk. rewrite (bind_val _ _ s tt s') in Hk by done.
    injection Hk as <-. done.
Qed.

(** ** The core: one location rebound to new content, then [dirty_alloc] *)
Lemma alloc_touch s s1 l nd nd' s' :
  reached opt md s → table s !! l = Some nd → rebound nd nd' → table s1 = <[l := nd']> (table s) →
  dirty_alloc l s1 = (OVal tt, s') → touch (to_dirty s1 l) s1 s'.
Proof.
  intros Hs Hl Hreb Ht E.
  assert (Struc s1) as Hst1 by (eapply Struc_rebound; [by eapply reached_struc|exact Hl|exact Hreb|exact Ht]).
  exact (post_elim _ _ _ _ _ (dirty_alloc_touch s1 l s1 Hst1 (reflexivity _)) E eq_refl).
Qed.
Section Core.
Variables (s s1 : dcg) (l : loc) (nd nd' : node).
Hypothesis Hs : reached opt md s.
Hypothesis Hnl : is_struct l = false.
Hypothesis Hl : table s !! l = Some nd.
Hypothesis Hreb : rebound nd nd'.
Hypothesis Hne : content_of nd' ≠ content_of nd.
Hypothesis Ht1 : table s1 = <[l := nd']> (table s).

Lemma nbit_rebound x eff y : nbit s1 x eff y = nbit s x eff y.
Proof using All.
  unfold nbit. rewrite Ht1. destruct (decide (x = l)) as [->|].
  - rewrite lookup_insert, Hl. by destruct Hreb.
  - by rewrite lookup_insert_ne.
Qed.
Lemma watches_observes x y : watches s1 x y → observes (table s) x y.
Proof using All.
  intros (n0 & pr & Hy & Hpr & Heff & <-). assert (Hi := reached_inv _ _ _ Hs). rewrite Ht1 in Hy.
  assert (∃ nd0, table s !! y = Some nd0 ∧ pr ∈ node_preds nd0) as (nd0 & Hy0 & Hpr0).
  { destruct (decide (y = l)) as [->|].
    - rewrite lookup_insert in Hy. injection Hy as <-. rewrite (rebound_preds _ _ Hreb) in Hpr. eauto.
    - rewrite lookup_insert_ne in Hy by done. eauto. }
  destruct (i_predinv _ _ _ _ Hi _ _ _ Hy0 Hpr0) as (c & e & Hc & He & Hel & Hef & _). exists c, e. split_and!; try done. congruence.
Qed.
Lemma struck_hits x eff : struck s1 l x eff → hits s l (content_of nd') x eff.
Proof using All.
  intros (n0 & pr & Hnd & Hpr & <- & <- & Hhot & Hcl). assert (Hi := reached_inv _ _ _ Hs).
  rewrite Ht1, lookup_insert in Hnd. injection Hnd as <-. rewrite (rebound_preds _ _ Hreb) in Hpr.
  rewrite nbit_rebound in Hcl.
  destruct (i_predinv _ _ _ _ Hi _ _ _ Hl Hpr) as (c & e & Hc & He & Hel & Hef & Hdep).
  exists c, e. split_and!; try done. rewrite <- Hef, <- Hel in Hcl. unfold nbit in Hcl. rewrite Hc in Hcl.
  destruct (bit_elem e _ He) as (b & Hb). destruct b; [by rewrite Hb in Hcl|].
  assert (Hv := i_valid _ _ _ _ Hi _ _ _ Hc He Hb). destruct (i_edge _ _ _ _ Hi _ _ _ Hc He) as [Hw _].
  unfold valid, wfe, sh_loc, sh_dep, sh_eff, shape in *. simpl in *. rewrite Hel, Hl in *.
  unfold pred_hot in Hhot. rewrite Hdep in Hhot.
  destruct Hreb as [t ps v v'|c0 a]; destruct (s_dep e) as [t' w|t' f w| | |b|w]; simpl in *; try done.
  all: try (intros ->; apply Hne; by subst); try naive_solver.
  - apply Hhot. destruct Hw. congruence.
  - destruct Hw as (_ & Hst & _). congruence.
Qed.

Lemma rebind_exact s' : reached opt md s' → touch (to_dirty s1 l) s1 s' → dirties_exactly s s' l (content_of nd').
Proof using All.
  intros Hs' (Hle & es & (_ & _ & Hes) & HP). assert (Hi' := reached_inv _ _ _ Hs').
  assert (Hcomp : ∀ x c, table s !! x = Some (NComp c) → ∃ c', table s' !! x = Some (NComp c') ∧ shape <$> c_succs c' = shape <$> c_succs c).
  { intros x c Hx. assert (∃ c1, table s1 !! x = Some (NComp c1) ∧ c_succs c1 = c_succs c) as (c1 & Hx1 & <-).
    { rewrite Ht1. destruct (decide (x = l)) as [->|]; [|rewrite lookup_insert_ne by done; eauto].
      rewrite lookup_insert. rewrite Hl in Hx. injection Hx as ->. inversion Hreb; subst. eauto. }
    destruct (bl_node _ _ Hle _ _ Hx1) as (n0 & Hx' & Hn). apply node_le_comp in Hn as (c' & -> & _ & ? & _). eauto. }
  destruct (bl_node _ _ Hle l nd') as (nl & Hl' & Hnle); [rewrite Ht1; by rewrite lookup_insert|].
  assert (Hhit : ∀ x eff, hits s l (content_of nd') x eff → nbit s' x eff l = Some true).
  { intros x eff (c & e & Hx & He & Hel & Hef & Hd). destruct (Hcomp _ _ Hx) as (c' & Hx' & Hsh).
    destruct (shapes_elem _ _ e (eq_sym Hsh) He) as (e' & He' & Heq). apply shape_eq in Heq as (E1 & E2 & E3).
    unfold nbit. rewrite Hx'. destruct (bit_dec eff l (c_succs c')) as [Hb|[Hb|Hb]]; [|done|]; exfalso.
    - destruct (bit_elem e' _ He') as (b & Hb'). rewrite E1, E2, Hel, Hef in Hb'. congruence.
    - assert (bit (s_eff e') (s_loc e') (c_succs c') = Some false) as Hb' by (rewrite E1, E2, Hel, Hef; done).
      assert (Hv := i_valid _ _ _ _ Hi' _ _ _ Hx' He' Hb').
      unfold valid, sh_loc, sh_dep, shape in Hv. simpl in Hv. rewrite E1, E3, Hel, Hl' in Hv.
      destruct Hreb as [t ps v v'|c0 a].
      + apply node_le_mut in Hnle as ->. destruct (s_dep e); simpl in Hd; by try apply Hd.
      + apply node_le_comp in Hnle as (cl & -> & Hcl & _).
        assert (c_res cl = None ∧ c_arg cl = a) as [Hr Ha] by (by rewrite Hcl).
        destruct (s_dep e); simpl in Hd; try done; [destruct Hv as [Hv _]; congruence|apply Hd; congruence]. }
  assert (Hprop : ∀ x y, observes (table s) x y → (∃ eff z, nbit s' y eff z = Some true) → nbit s' x Observe y = Some true).
  { intros x y (c & e & Hx & He & Hef & Hel) (eff & z & Hd). destruct (Hcomp _ _ Hx) as (c' & Hx' & Hsh).
    destruct (shapes_elem _ _ e (eq_sym Hsh) He) as (e' & He' & Heq). apply shape_eq in Heq as (E1 & E2 & E3).
    unfold nbit. rewrite Hx'. unfold nbit in Hd. destruct (table s' !! y) as [[| |cy]|] eqn:Hy; try done.
    eapply (C09_dirty_propagated opt md s' y cy x c' e'); try done; [|congruence|congruence].
    right. destruct (bit_Some _ _ _ _ Hd) as (e2 & He2 & <- & <-). eauto. }
  intros x eff y. split.
  - intros Hb. destruct (decide (nbit s x eff y = Some true)) as [|Hn]; [by left|right].
    destruct (HP x eff y) as [[-> Hst]|(-> & Hw & z & eff' & Hz & Hr)].
    + apply Hes. by split; [rewrite nbit_rebound|].
    + left. split; [done|]. by apply struck_hits.
    + right. split; [done|]. split; [by apply watches_observes|]. exists z, eff'. split; [by apply struck_hits|].
      eapply (rtc_subrel (watches s1)); [|done]. intros a b. by apply watches_observes.
  - intros [Hb|[[-> Hh]|(-> & Ho & z & eff' & Hz & Hr)]].
    + eapply nbit_le; [exact Hle|]. by rewrite nbit_rebound.
    + by apply Hhit.
    + apply Hprop; [done|]. clear Ho. induction Hr as [|a b d Hab _ IH]; [by exists eff', l; apply Hhit|].
      exists Observe, b. apply Hprop; [done|]. by apply IH.
Qed.
Lemma rebind_dirt s' : touch (to_dirty s1 l) s1 s' → (∃ evs, trc s1 = evs ++ trc s ∧ dirties evs = []) → ∃ es, new_dirt s s' es.
Proof using All.
  intros (Hle & es & ((evs & Hev & Hd) & Hnd & Hes) & HP) (evs0 & Hev0 & Hd0). exists es. split_and!; [|done|].
  - exists (evs ++ evs0). rewrite Hev, Hev0, app_assoc. split; [done|]. unfold dirties in *. rewrite omap_app, Hd, Hd0. by rewrite app_nil_r.
  - intros q eff tgt. rewrite Hes. unfold newly. by rewrite nbit_rebound.
Qed.
End Core.

Lemma new_dirt_refl s : new_dirt s s [].
Proof. split_and!; [by exists []|constructor|]. intros q eff tgt. split; [by intros ?%elem_of_nil|by intros ?%newly_refl]. Qed.

(** An edge is dirty after [set] exactly if it was dirty before, or it is an edge to the cell recording
    something else than the cell yields now, or it observes something affected; and the [Dirty] effects
    recorded are the newly dirtied edges, one for each. *)
Theorem C60_set_dirties_exactly s t l v v0 s' :
  reached opt md s → is_struct l = false → holds s !! l = Some (CCell t v0) → v0 ≠ v →
  set_op t (ALoc l) v s = (OVal tt, s') →
  dirties_exactly s s' l (CCell t v) ∧ ∃ es, new_dirt s s' es.
Proof.
  intros Hs Hnl Hh Hne Hset. assert (Hs' := set_reached _ _ _ _ _ Hs Hnl Hset).
  destruct (set_unfold _ _ _ _ _ Hset) as (_ & ps & v1 & Hl & Hcase). unfold holds in Hh. rewrite contents_lookup, Hl in Hh.
  injection Hh as ->. destruct Hcase as [[? _]|[_ E]]; [done|].
  set (s1 := set_table (<[l := NMut t ps v]> (table s)) s) in *.
  assert (touch (to_dirty s1 l) s1 s') as Ht by (exact (alloc_touch s s1 l (NMut t ps v0) (NMut t ps v) s' Hs Hl (reb_mut _ _ _ _) eq_refl E)).
  split.
  - eapply (rebind_exact s s1 l (NMut t ps v0) (NMut t ps v)); try done; [constructor|]. simpl. congruence.
  - eapply (rebind_dirt s s1 l (NMut t ps v0) (NMut t ps v)); try done; [constructor|simpl; congruence|by exists []].
Qed.

Lemma touch_ev_r P s1 s2 s3 e : touch P s1 s2 → s3 = add_ev e s2 → dirties [e] = [] → touch P s1 s3.
Proof. intros Ht -> He. eapply touch_trans; [exact Ht|by apply touch_ev]. Qed.

(** Likewise for re-allocating a name with another value ... *)
Theorem C60_cell_dirties_exactly s t n v v0 l s' :
  reached opt md s → structf s = false → holds s !! Loc [] (IdNom n) = Some (CCell t v0) → v0 ≠ v →
  cell_op t n v s = (OVal l, s') →
  l = Loc [] (IdNom n) ∧ dirties_exactly s s' l (CCell t v) ∧ ∃ es, new_dirt s s' es.
Proof.
  intros Hs Hsf Hh Hne E. destruct (reached_idle _ _ _ Hs) as [Hst Hcp]. destruct (reached_Ed _ _ _ Hs) as (_ & _ & Hmd & _).
  assert (reached opt md s') as Hs'.
  { destruct (reached_step opt md s 1 (Cell t n v (λ _, Ret v)) v (d_write [] (Loc [] (IdNom n)) (CCell t v) (d_init (holds s))) Hs) as (s2 & (K & Hk) & Hs2 & _).
    - unfold d_exec. cbn [d_run]. unfold dbind, d_cell. rewrite <- Hmd, Hsf. unfold d_alloc. cbn [d_store d_init d_seen s6_ok is_struct l_id andb].
      rewrite Hh. unfold rebind_ok. rewrite bool_decide_false by congruence. rewrite !bool_decide_true by (done || set_solver). done.
    - specialize (Hk K ltac:(lia)). unfold exec in Hk. cbn [run] in Hk. rewrite (bind_val _ _ s l s') in Hk by done. injection Hk as <-. done. }
  assert (∃ ps, table s !! Loc [] (IdNom n) = Some (NMut t ps v0)) as (ps & Hl).
  { unfold holds in Hh. rewrite contents_lookup in Hh. destruct (table s !! _) as [[t0 ps w|t0 w|c]|] eqn:Hl; simpl in Hh; try done.
    - injection Hh as -> ->. eauto.
    - assert (Hi := reached_inv _ _ _ Hs). by destruct (i_kind _ _ _ _ Hi _ _ Hl). }
  unfold cell_op in E. rewrite (bind_val get _ s s s) in E by done. rewrite Hsf, Hcp in E. simpl (false && _) in E. cbv zeta iota in E.
  set (l0 := Loc [] (IdNom n)) in *. rewrite Hl in E.
  rewrite (bind_val _ _ s (false, true, None, false) s) in E.
  2:{ by rewrite (bind_val _ _ s (NMut t ps v0) s) by (by apply res_node_eq). }
  cbv iota beta in E. rewrite (bind_val _ _ s (LocExists ContentDiff) s) in E.
  2:{ rewrite (bind_val _ _ s true s); [done|]. unfold check_cell_change.
      rewrite (bind_val _ _ s (NMut t ps v0) s) by (by apply res_node_eq). unfold ret. by rewrite bool_decide_true. }
  set (ev := EvBegin _ _ _) in E. rewrite (bind_val (emit ev) _ s tt (add_ev ev s)) in E by done.
  unfold set_val in E.
  unfold bind at 1 in E. rewrite (bind_val _ _ (add_ev ev s) (NMut t ps v0) (add_ev ev s)) in E by (by apply res_node_eq).
  cbv iota beta in E. rewrite decide_False in E by done. set (s1 := set_table (<[l0 := NMut t ps v]> (table s)) (add_ev ev s)).
  rewrite (bind_val _ _ (add_ev ev s) tt s1) in E by done.
  destruct (dirty_alloc l0 s1) as [[[]|r|] s2] eqn:Ed; [|done|done].
  assert (touch (to_dirty s1 l0) s1 s2) as Ht by (exact (alloc_touch s s1 l0 (NMut t ps v0) (NMut t ps v) s2 Hs Hl (reb_mut _ _ _ _) eq_refl Ed)).
  assert (stack s2 = []) as Hst2.
  { destruct Ht as [Hle _]. by rewrite (bl_stack _ _ Hle). }
  assert (l = l0 ∧ s' = add_ev EvEnd s2) as [-> Heq].
  { unfold bind, ret, emit, modify, push_edge in E. simpl in E. rewrite Hst2 in E. by injection E as <- <-. }
  split; [done|]. assert (touch (to_dirty s1 l0) s1 s') as Ht' by (by eapply touch_ev_r). split.
  - eapply (rebind_exact s s1 l0 (NMut t ps v0) (NMut t ps v)); try done; [constructor|]. simpl. congruence.
  - eapply (rebind_dirt s s1 l0 (NMut t ps v0) (NMut t ps v)); try done; [constructor|simpl; congruence|]. by exists [ev].
Qed.

(** ... and a thunk name with another argument. *)
Theorem C60_thunk_dirties_exactly s t n pp arg arg0 spur l s' :
  reached opt md s → structf s = false → holds s !! Loc [] (IdNom n) = Some (CThunk t pp arg0 spur) → arg0 ≠ arg →
  thunk_op t (NCNominal n) pp arg spur s = (OVal l, s') →
  l = Loc [] (IdNom n) ∧ dirties_exactly s s' l (CThunk t pp arg spur) ∧ ∃ es, new_dirt s s' es.
Proof.
  intros Hs Hsf Hh Hne E. destruct (reached_idle _ _ _ Hs) as [Hst Hcp]. destruct (reached_Ed _ _ _ Hs) as (_ & _ & Hmd & _).
  assert (reached opt md s') as Hs'.
  { destruct (reached_step opt md s 1 (Thunk t (NCNominal n) pp arg spur (λ _, Ret arg)) arg (d_write [] (Loc [] (IdNom n)) (CThunk t pp arg spur) (d_init (holds s))) Hs) as (s2 & (K & Hk) & Hs2 & _).
    - unfold d_exec. cbn [d_run]. unfold dbind, d_thunk. rewrite <- Hmd, Hsf. unfold d_alloc. cbn [d_store d_init d_seen s6_ok is_struct l_id andb].
      rewrite Hh. unfold rebind_ok. rewrite bool_decide_false by congruence. rewrite !bool_decide_true by (done || set_solver). done.
    - specialize (Hk K ltac:(lia)). unfold exec in Hk. cbn [run] in Hk. rewrite (bind_val _ _ s l s') in Hk by done. injection Hk as <-. done. }
  assert (∃ c, table s !! Loc [] (IdNom n) = Some (NComp c) ∧ c_ty c = t ∧ c_pp c = pp ∧ c_arg c = arg0 ∧ c_spur c = spur) as (c & Hl & Hty & Hpp & Ha & Hsp).
  { unfold holds in Hh. rewrite contents_lookup in Hh. destruct (table s !! _) as [[t0 ps w|t0 w|c]|] eqn:Hl; simpl in Hh; try done.
    injection Hh as <- <- <- <-. by exists c. }
  unfold thunk_op in E. rewrite (bind_val get _ s s s) in E by done. rewrite Hsf, Hcp in E. cbv zeta iota in E.
  set (l0 := Loc [] (IdNom n)) in *. rewrite Hl in E.
  set (nd' := NComp (with_res None (with_arg arg c))).
  set (s0 := set_table (<[l0 := nd']> (table s)) s).
  rewrite (bind_val _ _ s (true, false, false) s0) in E.
  2:{ cbn [node_ty]. rewrite bool_decide_true by done. rewrite (bind_val (assert _ _) _ s tt s) by done.
      rewrite decide_True by done. rewrite decide_False by congruence. done. }
  cbv iota beta in E. set (ev := EvBegin _ _ _) in E. set (s1 := add_ev ev s0). rewrite (bind_val (emit ev) _ s0 tt s1) in E by done.
  unfold bind at 1 in E. destruct (dirty_alloc l0 s1) as [[[]|r|] s2] eqn:Ed; [|done|done].
  assert (touch (to_dirty s1 l0) s1 s2) as Ht by (exact (alloc_touch s s1 l0 (NComp c) nd' s2 Hs Hl (reb_comp _ _) eq_refl Ed)).
  assert (stack s2 = []) as Hst2.
  { destruct Ht as [Hle _]. by rewrite (bl_stack _ _ Hle). }
  assert (l = l0 ∧ s' = add_ev EvEnd s2) as [-> Heq].
  { unfold bind, ret, emit, modify, push_edge in E. simpl in E. rewrite Hst2 in E. by injection E as <- <-. }
  split; [done|]. assert (touch (to_dirty s1 l0) s1 s') as Ht' by (by eapply touch_ev_r).
  assert (CThunk t pp arg spur = content_of nd') as -> by (simpl; congruence).
  assert (content_of nd' ≠ content_of (NComp c)) as Hcne by (simpl; congruence). split.
  - eapply (rebind_exact s s1 l0 (NComp c) nd'); try done. constructor.
  - eapply (rebind_dirt s s1 l0 (NComp c) nd'); try done; [constructor|]. by exists [ev].
Qed.

(** Firewall: an up-to-date thunk from which no chain of observations leads to a thunk whose view of the
    cell changes stays up to date, and demanding it runs nothing, even if it depends on the cell. *)
Theorem C60_firewall s t0 l v v0 s' t x w :
  reached opt md s → is_struct l = false → holds s !! l = Some (CCell t0 v0) → v0 ≠ v →
  set_op t0 (ALoc l) v s = (OVal tt, s') →
  up_to_date s t x w → x ≠ l → ¬ affected s l (CCell t0 v) x →
  ∀ k cyc, ∃ s'', force (S k) t x cyc s' = (OVal w, s'') ∧ same_but_trace s' s''.
Proof.
  intros Hs Hnl Hh Hne Hset Hu Hxl Haf k cyc. destruct (C60_set_dirties_exactly _ _ _ _ _ _ Hs Hnl Hh Hne Hset) as [Hex _].
  destruct (post_elim _ _ _ _ _ (set_op_any t0 (ALoc l) v s) Hset) as (_ & Hr & Hx & _ & _).
  assert (Hs' := set_reached _ _ _ _ _ Hs Hnl Hset). destruct (reached_idle _ _ _ Hs') as [Hst' _].
  assert (up_to_date s' t x w) as Hu'.
  { unfold up_to_date in *. specialize (Hx x ltac:(congruence)).
    destruct (table s !! x) as [nd|] eqn:Hnd; [|done]. destruct (table s' !! x) as [nd'|] eqn:Hnd'; [|done]. simpl in Hx.
    destruct nd as [| |c]; simpl in Hx; [by subst|by subst|]. destruct Hx as (es & -> & Hes). destruct Hu as (Hty & Hres & Hac).
    split; [done|]. split; [done|]. intros e' He'. cbn [c_succs with_succs] in *.
    assert (∃ e, e ∈ c_succs c ∧ s_loc e' = s_loc e ∧ s_eff e' = s_eff e ∧ s_dep e' = s_dep e) as (e & He & E1 & E2 & E3).
    { apply elem_of_list_lookup in He' as (i & Hi). destruct (Forall2_lookup_r _ _ _ _ _ Hes Hi) as (e & Hie & ? & ? & ? & _).
      exists e. split; [by eapply elem_of_list_lookup_2|done]. }
    destruct (bit_dec (s_eff e') (s_loc e') es) as [Hb|[Hb|Hb]]; [| |done]; exfalso.
    { destruct (bit_elem e' _ He') as (b & Hb'). congruence. }
    assert (nbit s' x (s_eff e') (s_loc e') = Some true) as Hn by (unfold nbit; by rewrite Hnd').
    apply Hex in Hn as [Hn|[[Hy Hn]|(Hy & Ho & z & eff & Hz & Hrt)]].
    - unfold nbit in Hn. rewrite Hnd, E1, E2, (Hac _ He) in Hn. done.
    - apply Haf. exists x, (s_eff e'). split; [done|apply rtc_refl].
    - apply Haf. exists z, eff. split; [done|]. by eapply rtc_l. }
  destruct (force_up_to_date k t x cyc s' w Hu') as (s'' & E & ? & ? & ? & ? & ? & Hst'').
  { rewrite Hst'. simpl. by intros ?%elem_of_nil. }
  exists s''. split; [done|]. split_and!; try done. rewrite Hst''; done.
Qed.
End Exact.
