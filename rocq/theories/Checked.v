(** * C43 during evaluations: the engine with the built-in check switched on (ADAPTON_CHECK_DCG). *)
From Verif Require Export WfCheck Watch.

(** engine.rs:2691-2715 as a test of the state (Watch.v): [order s] is the order in which the memo table of [s] happens to
    be visited.  The bound on the depth of the recursion is the number of nodes: a deeper one would visit a node twice. *)
Definition wf_ok (order : dcg → list (loc * node)) (s : dcg) : bool :=
  match check_dcg (size (table s)) s (order s) with OVal _ => true | _ => false end.
Definition enumerates (order : dcg → list (loc * node)) : Prop := ∀ s, order s ≡ₚ map_to_list (table s).

Global Instance okd_dec es : Decision (okd es).
Proof.
  induction es as [|e es IH]; simpl; [apply _|].
  destruct (decide (Forall (λ e', s_eff e' = s_eff e → s_loc e' = s_loc e → s_dirty e' = false) es)) as [Hf|Hf].
  - destruct IH as [Hk|Hk]; [left|right; by intros [_ ?]]. split; [|done]. by rewrite Forall_forall in Hf.
  - right. intros [Hk _]. apply Hf. by rewrite Forall_forall.
Defined.
Global Instance good_node_dec nd : Decision (good_node nd).
Proof. destruct nd; simpl; apply _. Defined.

Section Checked.
Context `{Prog}.
Context (opt md : bool) (order : dcg → list (loc * node)) (Hord : enumerates order).

(** The program returns [v] in state [s'], having passed every check. *)
Definition checked_returns (c : comp) (s : dcg) (v : val) (s' : dcg) : Prop :=
  ∃ K, ∀ k, (K ≤ k)%nat → wexec (wf_ok order) k c s = (OVal v, s').

Let ok0 (s : dcg) : bool := if decide (map_Forall (λ _ nd, good_node nd) (table s)) then wf_ok order s else true.
Lemma ok0_R r0 stk p s : R opt md r0 stk p s → ok0 s = true.
Proof using Hord.
  intros HR. unfold ok0. destruct (decide _) as [Hg|]; [|done]. unfold wf_ok.
  destruct (check_passes opt md s (size (table s)) (order s)) as (cs & -> & _); [by eapply R_inv|exact Hg|apply Hord|done|done].
Qed.
Notation G := (λ (_ : loc) nd, good_node nd).
Notation JG := (J opt G).
Lemma keeps_kp {A} (m : M A) Q : NodeInv.keeps opt G m Q → kp JG m.
Proof. intros Hk s Hs. apply (Hk s Hs). Qed.
Lemma HG : stable opt G.
Proof. exact (okd_stable opt). Qed.
Ltac kb := eapply (keeps_bind _ _ HG); [|intros ? ?].
Ltac k0 := first [apply (keeps_get _ _ HG)|apply (keeps_assert _ _ HG)|apply (keeps_res_node _ _ HG)|apply (keeps_panic _ _ HG)|by apply (keeps_ret _ _ HG)|by apply (keeps_modify _ _ HG)].
Lemma kp_begin t l : kp JG (produce_begin t l).
Proof using H.
  eapply (keeps_kp _ (λ _, True)). unfold produce_begin. kb; [k0|]. match goal with x : node |- _ => destruct x as [| |c] end; [k0..|].
  kb; [apply (keeps_put_node _ _ HG); simpl; done|]. kb; [apply (keeps_revoke _ _ HG)|]. kb; [k0|]. kb; [k0|]. kb; [k0|]. kb; [k0|].
  match goal with x : node |- _ => destruct x as [| |c'] end; [k0..|]. k0.
Qed.
Lemma kp_end t l prev r : kp JG (produce_end t l prev r).
Proof using H.
  eapply (keeps_kp _ (λ _, True)). unfold produce_end. kb; [k0|]. kb; [k0|]. destruct (stack _) as [|f fs]; [k0|]. kb; [k0|]. kb; [k0|].
  kb; [apply (keeps_insert_preds _ _ HG)|]. kb; [k0|]. match goal with x : node |- _ => destruct x as [| |c'] end; [k0..|].
  apply (keeps_put_node _ _ HG). cbv beta in *. eapply (g_finish _ _ HG l); eassumption.
Qed.
Lemma watch_ok k c s a s' : JG s → wexec ok0 k c s = (OVal a, s') → wexec (wf_ok order) k c s = (OVal a, s').
Proof using H.
  intros Hs E. assert (Hw : wmle JG (wexec ok0 k c) (wexec (wf_ok order) k c)).
  { apply wexec_wmle.
    - intros s1 [_ Hg]. unfold ok0. rewrite decide_True; [done|]. intros l nd. apply Hg.
    - intros e. eapply keeps_kp. apply (keeps_emit _ _ HG).
    - intros p. eapply keeps_kp. by apply (keeps_modify _ _ HG).
    - intros b. eapply keeps_kp. by apply (keeps_modify _ _ HG).
    - intros l. eapply keeps_kp. by apply (keeps_modify _ _ HG).
    - intros e d. eapply keeps_kp. apply (keeps_push _ _ HG).
    - intros. eapply keeps_kp. apply (keeps_cell _ _ HG).
    - intros. eapply keeps_kp. apply (keeps_thunk _ _ HG).
    - intros. eapply keeps_kp. apply (keeps_set _ _ HG).
    - apply kp_begin.
    - apply kp_end.
    - intros. eapply keeps_kp. apply (keeps_set_dirty _ _ HG). }
  by apply (Hw s Hs).
Qed.

(** The engine that checks its graph at the beginning and at the end of every operation -- of the editor and of the
    thunks being evaluated alike -- never finds a fault in a disciplined program, whatever order it visits the table in:
    the program returns what it returns without the checks, which is its from-scratch value. *)
Theorem C43_checked_engine c : disciplined opt md c →
  ∃ v s, checked_returns c (dcg_new_flags md opt) v s ∧ returns c (dcg_new_flags md opt) v s ∧ from_scratch md c v (holds s).
Proof using Hord.
  intros Hd. assert (Hd' := Hd). destruct Hd as (n & v & p & Hd).
  destruct (weditor_sim opt md ok0 ok0_R n c ∅ [] md v p (dcg_new_flags md opt) (Ed_init opt md) eq_refl eq_refl Hd) as (K & a & s & Hk & -> & _).
  assert (Hw : ∀ k, (K ≤ k)%nat → wexec (wf_ok order) k c (dcg_new_flags md opt) = (OVal v, s)).
  { intros k Hle. apply watch_ok; [|by apply Hk]. split; [done|]. intros x nd. simpl. by rewrite lookup_empty. }
  assert (Hr : returns c (dcg_new_flags md opt) v s).
  { exists K. intros k Hle. eapply wexec_wgives. by apply Hw. }
  exists v, s. split; [by exists K|]. split; [done|].
  destruct (C01_from_scratch_consistency opt md c Hd') as (v2 & σ & s2 & Hfs & (K2 & Hk2) & Hh & _).
  destruct Hr as (K1 & Hk1). assert (E := Hk1 (K1 + K2)%nat ltac:(lia)). rewrite Hk2 in E by lia. injection E as -> ->. by rewrite Hh.
Qed.
(** Nor does it find one in any later program, as long as the whole history is disciplined; in particular during the next
    demand. *)
Theorem C43_checked_demand s t l : reached opt md s → disciplined_demand opt md t l (holds s) →
  ∃ v s' K, ∀ k, (K ≤ k)%nat → wforce (wf_ok order) k t l None s = (OVal v, s') ∧ force k t l None s = (OVal v, s').
Proof using Hord.
  intros Hs (n & v & p & Hd). destruct (reached_Ed _ _ _ Hs) as (HE & Hc & Hst & _).
  destruct (wforce_editor opt md ok0 ok0_R n md t l None _ v p s HE Hst Hd) as (K & a & s' & Hk & -> & _).
  assert (Hx : ∀ k, (K ≤ k)%nat → wexec ok0 k (Force t (ALoc l) None Ret) s = (OVal v, s')).
  { intros k Hle. unfold wexec. cbn [wrun]. by rewrite (bind_val _ _ _ _ _ (Hk k Hle)). }
  exists v, s', K. intros k Hle.
  assert (wexec (wf_ok order) k (Force t (ALoc l) None Ret) s = (OVal v, s')) as E.
  { apply watch_ok; [|by apply Hx]. split; [|by apply (reached_good opt md s)]. eapply R_purity, (ed_R _ _ _ _ HE). }
  unfold wexec in E. cbn [wrun] in E. unfold bind in E. destruct (wforce (wf_ok order) k t l None s) as [[w|r|] s1] eqn:Ew; try done.
  injection E as -> ->. split; [done|]. by eapply wforce_wgives.
Qed.
End Checked.

(** ** Where the engine checks: any program, any test *)
Section Where.
Context `{Prog}.
Lemma watched_val {A} ok (m : M A) s a s' : watched ok m s = (OVal a, s') ↔ ok s = true ∧ m s = (OVal a, s') ∧ ok s' = true.
Proof.
  unfold watched, wlook, bind, ret. destruct (ok s); [|split; [done|by intros (? & _)]].
  destruct (m s) as [[b|r|] s1]; [|split; [done|by intros (_ & ? & _)]..]. destruct (ok s1) eqn:E.
  - split; [intros [= <- <-]; done|intros (_ & [= <- <-] & _); done].
  - split; [done|]. intros (_ & [= <- <-] & ?). congruence.
Qed.
(** A program that begins with an operation returns only if the test holds before and after that operation. *)
Theorem C43_checked_before_and_after ok k w s s' :
  (∀ t n v f, wexec ok k (Cell t n v f) s = (OVal w, s') →
    ok s = true ∧ ∃ l s1, cell_op t n v s = (OVal l, s1) ∧ ok s1 = true ∧ wexec ok k (f l) s1 = (OVal w, s')) ∧
  (∀ t a v c, wexec ok k (SetC t a v c) s = (OVal w, s') →
    ok s = true ∧ ∃ s1, set_op t a v s = (OVal tt, s1) ∧ ok s1 = true ∧ wexec ok k c s1 = (OVal w, s')) ∧
  (∀ t nc pp arg spur f, wexec ok k (Thunk t nc pp arg spur f) s = (OVal w, s') →
    ok s = true ∧ ∃ l s1, thunk_op t nc pp arg spur s = (OVal l, s1) ∧ ok s1 = true ∧ wexec ok k (f l) s1 = (OVal w, s')) ∧
  (∀ t l cyc f, wexec ok k (Force t (ALoc l) cyc f) s = (OVal w, s') →
    ok s = true ∧ ∃ v s1, wforce ok k t l cyc s = (OVal v, s1) ∧ force k t l cyc s = (OVal v, s1) ∧ ok s1 = true ∧ wexec ok k (f v) s1 = (OVal w, s')).
Proof.
  unfold wexec, bind. split_and!.
  - intros t n v f. cbn [wrun]. unfold bind at 1. destruct (watched ok (cell_op t n v) s) as [[l|r|] s1] eqn:E; try done.
    apply watched_val in E as (H1 & H2 & H3). eauto 10.
  - intros t a v c. cbn [wrun]. unfold bind at 1. destruct (watched ok (set_op t a v) s) as [[[]|r|] s1] eqn:E; try done.
    apply watched_val in E as (H1 & H2 & H3). eauto 10.
  - intros t nc pp arg spur f. cbn [wrun]. unfold bind at 1. destruct (watched ok (thunk_op t nc pp arg spur) s) as [[l|r|] s1] eqn:E; try done.
    apply watched_val in E as (H1 & H2 & H3). eauto 10.
  - intros t l cyc f. cbn [wrun]. unfold bind at 1. destruct (wforce ok k t l cyc s) as [[v|r|] s1] eqn:E; try done.
    assert (E' := E). unfold wforce, wforce_loc in E'. apply watched_val in E' as (H1 & H2 & H3).
    intros Hw. split; [done|]. exists v, s1. split; [done|]. split; [by eapply wforce_wgives|]. done.
Qed.
(** The same inside thunks: an evaluation runs the body as a program of the checking engine, between the bookkeeping at its
    beginning and at its end. *)
Theorem C43_checked_inside ok k t l s v s' : wproduce ok (S k) t l s = (OVal v, s') →
  ∃ c prev s1 s2, produce_begin t l s = (OVal (c, prev), s1) ∧
    wexec ok k (code (c_pp c) (c_arg c) (c_spur c)) (add_run l s1) = (OVal v, s2) ∧ produce_end t l prev v s2 = (OVal tt, s').
Proof.
  change (wproduce ok (S k) t l) with (wproduce_body ok (wforce ok k) t l). unfold wproduce_body, wexec, bind.
  destruct (produce_begin t l s) as [[[c prev]|r|] s1]; try done. cbv iota beta. intros E.
  change (modify (add_run l) s1) with (OVal tt, add_run l s1) in E. cbv iota beta in E.
  destruct (wrun ok (wforce ok k) _ _) as [[r|r|] s2] eqn:Er; try done.
  destruct (produce_end t l prev r s2) as [[[]|r2|] s3] eqn:Ee; try done. unfold ret in E. injection E as <- <-.
  exists c, prev, s1, s2. split_and!; done.
Qed.
End Where.

(** ** What a check that passes says *)
Section Sound.
(** engine.rs:850 [preds_obs] of a location: the thunks recorded as observing it *)
Definition observer (s : dcg) (l p : loc) : Prop :=
  ∃ nd pr, table s !! l = Some nd ∧ pr ∈ node_preds nd ∧ p_eff pr = Observe ∧ p_loc pr = p.
Definition has_dirty (s : dcg) (l : loc) : Prop := ∃ c e, table s !! l = Some (NComp c) ∧ e ∈ c_succs c ∧ s_dirty e = true.
(** [p] observes [l], directly or through others *)
Notation above s := (rtc (observer s)).
Lemma wfor_at {A} (xs : list A) f cs cs' x : (∀ x cs cs', x ∈ xs → f x cs = OVal cs' → cs ⊆ cs') → wfor xs f cs = OVal cs' → x ∈ xs →
  ∃ cs1 cs2, f x cs1 = OVal cs2 ∧ cs ⊆ cs1 ∧ cs2 ⊆ cs'.
Proof.
  revert cs. induction xs as [|y xs IH]; intros cs Hf E Hx; [by apply elem_of_nil in Hx|]. simpl in E.
  destruct (f y cs) as [cs1|r|] eqn:E1; try done.
  assert (Hf' : ∀ x cs cs', x ∈ xs → f x cs = OVal cs' → cs ⊆ cs') by (intros z c1 c2 Hz; apply Hf; by right).
  apply elem_of_cons in Hx as [->|Hx].
  - exists cs, cs1. split_and!; [done..|]. by apply (wfor_grows xs f).
  - destruct (IH cs1 Hf' E Hx) as (c1 & c2 & ? & ? & ?). exists c1, c2. split_and!; [done| |done].
    transitivity cs1; [|done]. eapply Hf; [by left|done].
Qed.
Lemma preds_obs_elem nd ps p d : preds_obs nd = Some ps → (p, d) ∈ ps → ∃ pr, pr ∈ node_preds nd ∧ p_eff pr = Observe ∧ p_loc pr = p.
Proof.
  destruct nd as [t ps0 v|t v|c]; simpl; try done; intros [= <-] Hp; apply elem_of_list_omap in Hp as (pr & Hpr & Ep);
  destruct (decide (p_eff pr = Observe)) as [Eo|]; try done; injection Ep as <- <-; eauto.
Qed.
Lemma preds_obs_intro nd ps pr : preds_obs nd = Some ps → pr ∈ node_preds nd → p_eff pr = Observe → ∃ d, (p_loc pr, d) ∈ ps.
Proof.
  destruct nd as [t ps0 v|t v|c]; simpl; try done; intros [= <-] Hpr Ho; eexists; apply elem_of_list_omap; exists pr; (split; [done|]); by rewrite decide_True.
Qed.
Lemma wf_dirty_step n s l cs cs' p : wf_dirty n s l cs = OVal cs' → observer s l p →
  (∃ e, get_succ s p Observe l = Some e ∧ s_dirty e = true) ∧ ∃ m cs1 cs2, n = S m ∧ wf_dirty m s p cs1 = OVal cs2 ∧ cs2 ⊆ cs'.
Proof.
  intros E (nd & pr & Hnd & Hpr & Heff & <-). destruct n as [|n]; [done|]. simpl in E.
  destruct (add_constraint cs l StDirty) as [cs1|]; [|done]. rewrite Hnd in E. destruct (preds_obs nd) as [ps|] eqn:Eps; [|done].
  destruct (preds_obs_intro _ _ _ Eps Hpr Heff) as (d & Hp).
  eapply wfor_at in E as (c1 & c2 & E & _ & H2); [| |exact Hp].
  - simpl in E. destruct (get_succ s (p_loc pr) Observe l) as [e|]; [|done]. destruct (s_dirty e) eqn:Ed; [|done].
    split; [by exists e|]. by exists n, c1, c2.
  - intros [p' d'] c1 c2 _ E2. simpl in E2. destruct (get_succ s p' Observe l) as [e|]; [|done]. destruct (s_dirty e); [|done].
    by apply wf_dirty_grows in E2 as [? _].
Qed.
(** If the check accepts a state, whatever the program did before, then no running thunk is out of date, and everything
    recorded as observing an out-of-date thunk, directly or through others, has its edge to it dirty and is not running. *)
Theorem C43_check_sound n s order cs x l : order ≡ₚ map_to_list (table s) → check_dcg n s order = OVal cs →
  has_dirty s x → above s x l →
  ¬ running s l ∧ ∀ p, observer s l p → ∃ e, get_succ s p Observe l = Some e ∧ s_dirty e = true.
Proof.
  intros Hord E (c & e & Hc & He & Hd) Hab. unfold check_dcg in E.
  destruct (wfor (reverse (stack s)) _ ∅) as [cs0|r|] eqn:E0; [|done..].
  assert (∃ m cs1 cs2, wf_dirty m s x cs1 = OVal cs2 ∧ cs2 ⊆ cs ∧ cs0 ⊆ cs) as (m & cs1 & cs2 & Ex & H2 & H0).
  { assert (Hg : ∀ (y : loc) (e : succ) cs cs', (if s_dirty e then wf_dirty n s y cs else OVal cs) = OVal cs' → cs ⊆ cs').
    { intros y e0 c1 c2 E1. destruct (s_dirty e0); [by apply wf_dirty_grows in E1 as [? _]|by injection E1 as <-]. }
    eapply (wfor_at _ _ _ _ (x, NComp c)) in E as (c1 & c2 & E & H1 & H2).
    - simpl in E. eapply (wfor_at _ _ _ _ e) in E as (c3 & c4 & E & H3 & H4); [| |done].
      + simpl in E. rewrite Hd in E. exists n, c3, c4. split_and!; [done|by transitivity c2|].
        apply wf_dirty_grows in E as [E _]. transitivity c1; [done|]. transitivity c3; [done|]. transitivity c4; [done|]. by transitivity c2.
      + intros e0 ? ? _. by apply Hg.
    - intros [y nd] c1 c2 _ E1. destruct nd as [| |cc]; [by injection E1 as <-..|]. eapply wfor_grows; [|exact E1]. intros e0 ? ? _. by apply Hg.
    - rewrite Hord. by apply elem_of_map_to_list. }
  clear E. assert (∃ m cs1 cs2, wf_dirty m s l cs1 = OVal cs2 ∧ cs2 ⊆ cs) as (m' & cs1' & cs2' & El & H2').
  { clear Hc Hd He. revert m cs1 cs2 Ex H2. induction Hab as [y|y z w Hyz Hzw IH]; intros m cs1 cs2 Ex H2; [by exists m, cs1, cs2|].
    destruct (wf_dirty_step _ _ _ _ _ _ Ex Hyz) as (_ & m' & c1 & c2 & _ & E' & Hs). eapply IH; [exact E'|]. by transitivity cs2. }
  split.
  - intros (f & Hf & <-). apply wf_dirty_grows in El as [_ Hl].
    assert (cs0 !! f_loc f = Some StClean) as Hcl.
    { assert (Hgr : ∀ k z c1 c2, wf_clean k s z c1 = OVal c2 → c1 ⊆ c2 ∧ c2 !! z = Some StClean).
      { intros k. induction k as [|k IH]; intros z c1 c2 Ec; simpl in Ec; [done|].
        destruct (add_constraint c1 z StClean) as [c3|] eqn:Ea; [|done]. destruct (add_grows _ _ _ _ Ea) as [G1 G2].
        destruct (table s !! z) as [[| |cc]|]; try done; [by injection Ec as <-..|].
        assert (c3 ⊆ c2) as G3.
        { eapply wfor_grows; [|exact Ec]. intros e0 c4 c5 _ E4. simpl in E4. destruct (get_succ s z Observe (s_loc e0)) as [e1|]; [|done].
          destruct (s_dirty e1); [done|]. by apply IH in E4 as [? _]. }
        split; [by transitivity c3|by eapply lookup_weaken]. }
      eapply (wfor_at _ _ _ _ f) in E0 as (c1 & c2 & Ec & _ & Hc2); [|intros ? ? ? _ Hx; by apply Hgr in Hx as [? _]|by rewrite elem_of_reverse].
      apply Hgr in Ec as [_ Ec]. by eapply lookup_weaken. }
    assert (cs !! f_loc f = Some StClean) by (by eapply lookup_weaken). assert (cs !! f_loc f = Some StDirty) by (by eapply lookup_weaken). congruence.
  - intros p Hp. by apply (wf_dirty_step _ _ _ _ _ _ El Hp).
Qed.
(** ... and everything a running thunk is recorded to depend on, directly or through others, is connected by clean edges. *)
Definition depends (s : dcg) (l y : loc) : Prop := ∃ c e, table s !! l = Some (NComp c) ∧ e ∈ c_succs c ∧ s_loc e = y.
Lemma wf_clean_step n s l cs cs' y : wf_clean n s l cs = OVal cs' → depends s l y →
  (∃ e, get_succ s l Observe y = Some e ∧ s_dirty e = false) ∧ ∃ m cs1 cs2, wf_clean m s y cs1 = OVal cs2.
Proof.
  intros E (c & e & Hc & He & <-). destruct n as [|n]; [done|]. simpl in E.
  destruct (add_constraint cs l StClean) as [cs1|]; [|done]. rewrite Hc in E.
  destruct (wfor_each _ _ _ _ E e He) as (c1 & c2 & E2). simpl in E2.
  destruct (get_succ s l Observe (s_loc e)) as [e'|]; [|done]. destruct (s_dirty e') eqn:Ed; [done|]. eauto 10.
Qed.
Theorem C43_check_sound_running n s order cs x l y : check_dcg n s order = OVal cs →
  running s x → rtc (depends s) x l → depends s l y → ∃ e, get_succ s l Observe y = Some e ∧ s_dirty e = false.
Proof.
  intros E (f & Hf & <-) Hr Hd. unfold check_dcg in E.
  destruct (wfor (reverse (stack s)) _ ∅) as [cs0|r|] eqn:E0; [|done..]. clear E.
  destruct (wfor_each _ _ _ _ E0 f) as (c1 & c2 & E2); [by rewrite elem_of_reverse|]. clear E0. revert c1 c2 E2. generalize n.
  induction Hr as [z|z w l Hzw Hwl IH]; intros m c1 c2 E2; [by apply (wf_clean_step _ _ _ _ _ _ E2)|].
  destruct (wf_clean_step _ _ _ _ _ _ E2 Hzw) as (_ & m' & c3 & c4 & E3). by apply (IH Hd m' c3 c4).
Qed.
(** If the recorded observations lead round in a circle of dirty edges, the check never ends. *)
Lemma wf_dirty_circle s (X : loc → Prop) : (∀ l, X l → ∃ nd p d e, table s !! l = Some nd ∧ preds_obs nd = Some [(p, d)] ∧
    get_succ s p Observe l = Some e ∧ s_dirty e = true ∧ X p) →
  ∀ n l cs, X l → (∀ x st, cs !! x = Some st → st = StDirty) → wf_dirty n s l cs = OFuel.
Proof.
  intros HX n. induction n as [|n IH]; intros l cs Hl Hc; [done|]. destruct (HX l Hl) as (nd & p & d & e & Hnd & Hps & He & Hd & Hp).
  simpl. assert (∃ cs', add_constraint cs l StDirty = Some cs' ∧ ∀ x st, cs' !! x = Some st → st = StDirty) as (cs' & -> & Hc').
  { unfold add_constraint. destruct (cs !! l) as [st|] eqn:E; [rewrite (Hc _ _ E); simpl; eauto|].
    eexists. split; [done|]. intros x st. destruct (decide (x = l)) as [->|]; [rewrite lookup_insert; by intros [= <-]|].
    rewrite lookup_insert_ne by done. apply Hc. }
  rewrite Hnd, Hps. cbn [wfor]. rewrite He, Hd, (IH p cs' Hp Hc'). done.
Qed.
End Sound.

(** ** The check at work *)
Local Open Scope string_scope.
(** the order [map_to_list] of the standard library of finite maps *)
Definition by_list (s : dcg) : list (loc * node) := map_to_list (table s).
Lemma by_list_enumerates : enumerates by_list.
Proof. intros s. reflexivity. Qed.
(** The program of Examples.v passes every check; and a test that is not passed stops the program. *)
Lemma ex_checked : (wexec (H:=demo) (wf_ok by_list) 40 ex_prog dcg_new).1 =
  OVal (VPair (VPair (VInt (-6)) (VPair (VInt 1) (VInt 7))) (VPair (VInt (-60)) (VPair (VInt 1) (VInt 7)))).
Proof. vm_compute. reflexivity. Qed.
Lemma ex_checked_bites : (wexec (H:=demo) (λ s, (size (table s) <=? 6)%nat) 40 ex_prog dcg_new).1 = OPanic PAssert.
Proof. vm_compute. reflexivity. Qed.
Lemma ex_checked_bites_inside : (wexec (H:=demo) (λ s, (length (stack s) <=? 4)%nat) 40 ex_prog dcg_new).1 = OPanic PAssert ∧
  ∃ v, (wexec (H:=demo) (λ s, (length (stack s) <=? 5)%nat) 40 ex_prog dcg_new).1 = OVal v.
Proof. split; [vm_compute; reflexivity|]. eexists. vm_compute. reflexivity. Qed.
(** C43_check_sound at work: after the edits of Examples.v [sum] is out of date, and [o] observes it through a thunk. *)
Lemma ex_check_sound : has_dirty ex_s2 (at_ "sum") ∧ observer ex_s2 (at_ "sum") (Loc [nm "inner"] (IdNom (nm "t"))) ∧
  observer ex_s2 (Loc [nm "inner"] (IdNom (nm "t"))) (at_ "o").
Proof.
  split; [|split].
  - eexists _, _. split; [vm_compute; reflexivity|]. split; [by left|reflexivity].
  - eexists _, _. split; [vm_compute; reflexivity|]. split; [by left|split; reflexivity].
  - eexists _, _. split; [vm_compute; reflexivity|]. split; [by right; left|split; reflexivity].
Qed.

(** ** With [force_cycle], the check need not end: two thunks that demand each other, the first allocated again with
    another argument, leave a circle of dirty observations.  Without the check the program returns; the check of its final
    state recurses without end, in every order, however deep the recursion may go. *)
Definition prog_circle : comp :=
  thunk0 "a" "cycA" VUnit (λ a, thunk0 "b" "cycB" VUnit (λ b, demand0 a (λ v, thunk0 "a" "cycA" (VInt 1) (λ _, Ret v)))).
Definition circle_end : dcg := (exec (H:=demo) 30 prog_circle dcg_new).2.
Theorem C43_circle_refuted : returns (H:=demo) prog_circle dcg_new (VInt 22) circle_end ∧
  ∀ n order, order ≡ₚ map_to_list (table circle_end) → check_dcg n circle_end order = OFuel.
Proof.
  split.
  { apply (returns_intro 30). vm_compute. reflexivity. }
  intros n order Hord. set (X := λ l, l = at_ "a" ∨ l = at_ "b").
  assert (HX : ∀ l, X l → ∃ nd p d e, table circle_end !! l = Some nd ∧ preds_obs nd = Some [(p, d)] ∧
    get_succ circle_end p Observe l = Some e ∧ s_dirty e = true ∧ X p).
  { intros l [->| ->]; eexists _, _, _, _; (split; [vm_compute; reflexivity|]); (split; [vm_compute; reflexivity|]);
    (split; [vm_compute; reflexivity|]); (split; [reflexivity|]); vm_compute; [by right|by left]. }
  unfold check_dcg. replace (stack circle_end) with (@nil frame) by (vm_compute; reflexivity). cbn [reverse wfor rev_append].
  assert (Hall : ∀ x, x ∈ map_to_list (table circle_end) → X x.1 ∧ ∃ c e es, x.2 = NComp c ∧ c_succs c = e :: es ∧ s_dirty e = true).
  { assert (E : map_to_list (table circle_end) = ltac:(let x := eval vm_compute in (map_to_list (table circle_end)) in exact x)) by (vm_compute; reflexivity).
    rewrite E. intros x Hx. apply elem_of_cons in Hx as [->|Hx]; [|apply elem_of_list_singleton in Hx as ->];
    (split; [vm_compute; auto|]); eexists _, _, _; (split; [reflexivity|]); split; reflexivity. }
  destruct order as [|x order].
  { apply Permutation_nil in Hord. assert (length (map_to_list (table circle_end)) = 2%nat) as E by (vm_compute; reflexivity). by rewrite Hord in E. }
  destruct (Hall x) as [Hx (c & e & es & E1 & E2 & E3)]; [rewrite <- Hord; by left|].
  destruct x as [l nd]. simpl in *. subst nd. cbn [wfor]. rewrite E2. cbn [wfor]. rewrite E3.
  rewrite (wf_dirty_circle _ X HX); [done|done|]. intros y st. by rewrite lookup_empty.
Qed.
