(** * Preservation of the relation by production and cleaning steps. *)
From Verif Require Export Steps.

Record ctx_eq (s s' : dcg) : Prop := {
  ce_stack : stack s' = stack s;
  ce_cpath : cpath s' = cpath s;
  ce_structf : structf s' = structf s;
  ce_purity : purity s' = purity s;
  ce_runs : runs s' = runs s;
}.
Global Instance ctx_eq_refl : Reflexive ctx_eq.
Proof. by intros s. Qed.
Lemma ctx_eq_trans s1 s2 s3 : ctx_eq s1 s2 → ctx_eq s2 s3 → ctx_eq s1 s3.
Proof. intros [] []. split; congruence. Qed.

Definition drop_preds (x : loc) (nd : node) : node :=
  match nd with
  | NMut t ps v => NMut t (filter (λ p, p_loc p ≠ x) ps) v
  | NComp c => NComp (with_preds (filter (λ p, p_loc p ≠ x) (c_preds c)) c)
  | NPure t v => NPure t v
  end.
Definition add_preds (ps' : list pred) (nd : node) : node :=
  match nd with
  | NMut t ps v => NMut t (ps ++ ps') v
  | NComp c => NComp (with_preds (c_preds c ++ ps') c)
  | NPure t v => NPure t v
  end.
Lemma drop_preds_idem x nd : drop_preds x (drop_preds x nd) = drop_preds x nd.
Proof.
  assert (∀ ps : list pred, filter (λ p, p_loc p ≠ x) (filter (λ p, p_loc p ≠ x) ps) = filter (λ p, p_loc p ≠ x) ps) as Hf.
  { intros ps. rewrite list_filter_filter. apply list_filter_iff. tauto. }
  destruct nd; simpl; unfold with_preds; simpl; by rewrite ?Hf.
Qed.
Lemma drop_preds_tracked x nd : node_tracked nd → node_tracked (drop_preds x nd).
Proof. by destruct nd. Qed.
Lemma add_preds_nil nd : add_preds [] nd = nd.
Proof. destruct nd; simpl; unfold with_preds; rewrite ?app_nil_r; [done..|]. by destruct c. Qed.
Lemma add_preds_app ps1 ps2 nd : add_preds ps2 (add_preds ps1 nd) = add_preds (ps1 ++ ps2) nd.
Proof. destruct nd; simpl; unfold with_preds; simpl; by rewrite ?(assoc_L (++)). Qed.
Lemma drop_preds_elem x nd pr : pr ∈ node_preds (drop_preds x nd) ↔ pr ∈ node_preds nd ∧ p_loc pr ≠ x.
Proof.
  destruct nd; simpl; rewrite ?elem_of_list_filter; try tauto. split; [by intros ?%elem_of_nil|by intros [?%elem_of_nil _]].
Qed.
Lemma add_preds_elem ps nd pr : node_tracked nd → pr ∈ node_preds (add_preds ps nd) ↔ pr ∈ node_preds nd ∨ pr ∈ ps.
Proof. destruct nd; simpl; [|done|]; intros _; by rewrite elem_of_app. Qed.
Lemma vle_yields tb tb' y nd nd' : tb !! y = Some nd → tb' !! y = Some nd' → vle nd nd' → yields tb' y = yields tb y.
Proof. intros E1 E2 Hv. unfold yields. rewrite E1, E2. by destruct nd, nd'; simpl in Hv; [destruct Hv as [_ ->]|done|done|done|destruct Hv as [_ ->]|done|done|done|destruct Hv as (_ & _ & _ & _ & -> & _)]. Qed.
Lemma drop_preds_vle x nd : vle nd (drop_preds x nd).
Proof. destruct nd; simpl; auto 10. Qed.
Lemma add_preds_vle ps nd : vle nd (add_preds ps nd).
Proof. destruct nd; simpl; auto 10. Qed.

Lemma find_succ_clean eff tgt es :
  (∀ e, e ∈ es → s_dirty e = false) → ∀ b, bit eff tgt es = Some b → b = false.
Proof.
  intros Hc b. unfold bit. destruct (find_succ eff tgt es) as [e|] eqn:E; [|done].
  intros [= <-]. apply find_succ_Some in E as [? _]. auto.
Qed.
Lemma all_clean_fresh es : (∀ e, e ∈ es → s_dirty e = false) → all_clean es.
Proof.
  intros Hc e He. destruct (bit_elem _ _ He) as [b Hb]. rewrite Hb. f_equal. by eapply find_succ_clean.
Qed.

Definition new_preds (x y : loc) (es : list (succ * option dep)) : list pred :=
  omap (λ ep, if decide (s_loc ep.1 = y) then Some (Pred x (s_eff ep.1) ep.2) else None) es.

Section Steps2.
Context `{Prog}.
Context (opt md0 : bool).
Notation Inv := (Inv opt md0).
Notation R := (R opt md0).
Notation facts_le := (facts_le opt).
Notation facts_node := (facts_node opt).
Notation evo := (evo opt).
Notation fedge := (fedge opt).

Lemma revoke_ok x es : ∀ s,
  (∀ e, e ∈ es → ∃ nd, table s !! s_loc e = Some nd ∧ node_tracked nd) →
  ∃ s', revoke_succs x es s = (OVal tt, s') ∧ ctx_eq s s' ∧
    ∀ y, table s' !! y = (if decide (y ∈ s_loc <$> es) then drop_preds x else id) <$> table s !! y.
Proof.
  unfold revoke_succs. induction es as [|e es IH]; intros s Hes.
  { exists s. split; [done|]. split; [done|]. intros y. rewrite decide_False by (simpl; by intros ?%elem_of_nil).
    by rewrite option_fmap_id. }
  destruct (Hes e) as (nd & Hnd & Htr); [by left|].
  set (s1 := set_table (<[s_loc e := drop_preds x nd]> (table s)) (add_ev (EvEff TRemove (Some x) (s_loc e)) s)).
  destruct (IH s1) as (s' & Hm & Hctx & Htb).
  { intros e' He'. destruct (Hes e') as (nd' & Hnd' & Htr'); [by right|]. simpl.
    destruct (decide (s_loc e' = s_loc e)) as [->|].
    - rewrite lookup_insert. eexists. split; [done|by apply drop_preds_tracked].
    - rewrite lookup_insert_ne by done. eauto. }
  exists s'. split; [|split].
  - rewrite mfor_cons. rewrite (bind_val _ _ s tt s1); [exact Hm|].
    rewrite (bind_val (emit _) _ s tt (add_ev (EvEff TRemove (Some x) (s_loc e)) s)) by done.
    rewrite (bind_val _ _ _ nd (add_ev (EvEff TRemove (Some x) (s_loc e)) s)) by by apply lookup_abs_eq.
    destruct nd; [done|by destruct Htr|done].
  - eapply ctx_eq_trans; [|exact Hctx]. by split.
  - intros y. rewrite Htb. rewrite fmap_cons. simpl. destruct (decide (y = s_loc e)) as [->|Hne].
    + rewrite lookup_insert, Hnd. rewrite (decide_True (P := s_loc e ∈ s_loc e :: _)) by by left.
      simpl. destruct (decide _); simpl; [by rewrite drop_preds_idem|done].
    + rewrite lookup_insert_ne by done. destruct (decide (y ∈ s_loc <$> es)) as [Hi|Hi].
      * rewrite decide_True by by right. done.
      * rewrite decide_False; [done|]. by intros [?|?]%elem_of_cons.
Qed.

Lemma insert_preds_ok x es : ∀ s,
  (∀ e pd, (e, pd) ∈ es → s_dirty e = false ∧ ∃ nd, table s !! s_loc e = Some nd ∧ node_tracked nd) →
  ∃ s', insert_preds x es s = (OVal tt, s') ∧ ctx_eq s s' ∧
    ∀ y, table s' !! y = add_preds (new_preds x y es) <$> table s !! y.
Proof.
  unfold insert_preds. induction es as [|[e pd] es IH]; intros s Hes.
  { exists s. split; [done|]. split; [done|]. intros y. simpl.
    destruct (table s !! y); simpl; [by rewrite add_preds_nil|done]. }
  destruct (Hes e pd) as (Hcl & nd & Hnd & Htr); [by left|].
  set (pr := Pred x (s_eff e) pd).
  set (s1 := set_table (<[s_loc e := add_preds [pr] nd]> (table s)) s).
  destruct (IH s1) as (s' & Hm & Hctx & Htb).
  { intros e' pd' He'. destruct (Hes e' pd') as (Hcl' & nd' & Hnd' & Htr'); [by right|]. split; [done|]. simpl.
    destruct (decide (s_loc e' = s_loc e)) as [->|].
    - rewrite lookup_insert. eexists. split; [done|]. by destruct nd.
    - rewrite lookup_insert_ne by done. eauto. }
  exists s'. split; [|split].
  - rewrite mfor_cons. rewrite (bind_val _ _ s tt s1); [exact Hm|].
    rewrite Hcl. rewrite (bind_val (assert _ _) _ s tt s) by done.
    rewrite (bind_val _ _ s nd s) by by apply lookup_abs_eq.
    destruct nd; [done|by destruct Htr|done].
  - eapply ctx_eq_trans; [|exact Hctx]. by split.
  - intros y. rewrite Htb. unfold new_preds. simpl. destruct (decide (s_loc e = y)) as [<-|Hne].
    + rewrite lookup_insert, Hnd. simpl. by rewrite add_preds_app.
    + by rewrite lookup_insert_ne by done.
Qed.

Lemma contents_eq tb tb' :
  (∀ y, match tb !! y with
        | Some nd => ∃ nd', tb' !! y = Some nd' ∧ content_of nd' = content_of nd
        | None => tb' !! y = None end) → contents tb' = contents tb.
Proof.
  intros Hc. apply map_eq. intros y. rewrite !contents_lookup. specialize (Hc y).
  destruct (tb !! y) as [nd|]; [|by rewrite Hc]. destruct Hc as (nd' & -> & Heq). simpl. by rewrite Heq.
Qed.

(** ** Starting to produce a thunk *)
Lemma R_produce_begin r0 stk x p s c t :
  R r0 (x :: stk) p s → table s !! x = Some (NComp c) → c_ty c = t → x ∉ frames (stack s) → x ∉ stk →
  (c_res c = None ∨ ¬ all_clean (c_succs c)) → (∀ tb0, o_tab r0 = Some tb0 → why tb0 p (table s) x) →
  ∃ s', produce_begin t x s = (OVal (with_succs [] c, cpath s), s') ∧
    R r0 (x :: stk) p (add_run x s') ∧ evo stk p (table s) (table s') ∧
    stack s' = Frame x [] :: stack s ∧ cpath s' = l_path x ∧ structf s' = structf s ∧
    table s' !! x = Some (NComp (with_succs [] c)).
Proof.
  intros [Ropt Rinv Rstore Rsub Rnodup Rseen Rwf Rdone Rframe Rfnodup Rruns Rjust] Hc Ht Hnf Hnk Hcase Hwhy.
  assert (¬ ∃ w, c_res c = Some w ∧ all_clean (c_succs c)) as Hnc.
  { intros (w & Hw & Hac). destruct Hcase; [congruence|done]. }
  assert (opt = true → is_struct x = true → c_res c = None) as Hsn.
  { intros Ho Hst. destruct Hcase as [?|Hn]; [done|]. destruct Hn. intros e He.
    by eapply (i_struct _ _ _ _ Rinv). }
  assert (x ∉ d_done p) as Hnd.
  { intros Hd. destruct (Rdone _ Hd) as (_ & _ & c1 & w & Hc1 & Hw & Hac & _). simplify_eq. apply Hnc. eauto. }
  assert (∀ e, e ∈ c_succs c → s_loc e ≠ x ∧ ∃ nd, table s !! s_loc e = Some nd ∧ node_tracked nd) as Htgts.
  { intros e He. destruct (i_edge _ _ _ _ Rinv _ _ _ Hc He) as [Hw Hne]. split; [done|].
    by apply (wfe_exists _ _ Hw). }
  set (s1 := set_table (<[x := NComp (with_succs [] c)]> (table s)) s).
  destruct (revoke_ok x (c_succs c) s1) as (s2 & Hrev & Hctx & Htb2).
  { intros e He. destruct (Htgts _ He) as (Hne & nd & ? & ?). exists nd. simpl. by rewrite lookup_insert_ne. }
  assert (table s2 !! x = Some (NComp (with_succs [] c))) as Hx2.
  { rewrite Htb2. simpl. rewrite lookup_insert. simpl. rewrite decide_False; [done|].
    intros (e & He & He2)%elem_of_list_fmap. destruct (Htgts _ He2). congruence. }
  set (s3 := set_cpath (l_path x) (set_stack (Frame x [] :: stack s2) s2)).
  exists s3. split.
  { unfold produce_begin. rewrite (bind_val _ _ s (NComp c) s) by by apply res_node_eq.
    rewrite (bind_val (put_node _ _) _ s tt s1) by done.
    rewrite (bind_val _ _ s1 tt s2) by done.
    rewrite (bind_val (modify _) _ s2 tt (set_stack (Frame x [] :: stack s2) s2)) by done.
    rewrite (bind_val get _ _ (set_stack (Frame x [] :: stack s2) s2) (set_stack (Frame x [] :: stack s2) s2)) by done.
    rewrite (bind_val (modify _) _ _ tt s3) by done.
    rewrite (bind_val _ _ s3 (NComp (with_succs [] c)) s3) by by apply res_node_eq.
    unfold ret. f_equal. f_equal. f_equal. simpl. by rewrite (ce_cpath _ _ Hctx). }
  (* nodes *)
  assert (∀ y nd, table s !! y = Some nd → y ≠ x → table s2 !! y = Some nd ∨ table s2 !! y = Some (drop_preds x nd)) as Hoth.
  { intros y nd Hy Hne. rewrite Htb2. simpl. rewrite lookup_insert_ne by done. rewrite Hy. simpl.
    destruct (decide _); auto. }
  assert (∀ y nd, table s !! y = Some nd → ∃ nd', table s2 !! y = Some nd' ∧ vle nd nd') as Hvle.
  { intros y nd Hy. destruct (decide (y = x)) as [->|Hne].
    - simplify_eq. eexists. split; [done|]. simpl. split_and!; try done. intros _ e He. by apply elem_of_nil in He.
    - destruct (Hoth _ _ Hy Hne) as [?|?]; eexists; (split; [done|]); [apply vle_refl|apply drop_preds_vle]. }
  assert (∀ y nd', table s2 !! y = Some nd' → y ≠ x → ∃ nd, table s !! y = Some nd ∧ (nd' = nd ∨ nd' = drop_preds x nd)) as Hinv.
  { intros y nd' Hy Hne. rewrite Htb2 in Hy. simpl in Hy. rewrite lookup_insert_ne in Hy by done.
    destruct (table s !! y) as [nd|]; [|done]. simpl in Hy. exists nd. split; [done|]. destruct (decide _); simplify_eq; auto. }
  assert (∀ q c', table s2 !! q = Some (NComp c') → q ≠ x → ∃ cq, table s !! q = Some (NComp cq) ∧ c_succs c' = c_succs cq ∧
     c_res c' = c_res cq ∧ c_pp c' = c_pp cq ∧ c_arg c' = c_arg cq ∧ c_spur c' = c_spur cq) as Hcomp.
  { intros q c' Hq Hne. destruct (Hinv _ _ Hq Hne) as (nd & Hnq & Hor).
    destruct nd as [| |cq]; [by destruct Hor..|]. exists cq. split; [done|]. destruct Hor as [[= ->]|[= ->]]; by split_and!. }
  assert (facts_le (table s) (table s2)) as Hfacts.
  { intros y nd Hy. destruct (Hvle _ _ Hy) as (nd' & ? & ?). exists nd'. split; [done|by apply vle_facts]. }
  assert (∀ h, valid (table s) (frames (stack s)) h → valid (table s2) (x :: frames (stack s)) h) as Hval.
  { intros h Hv. destruct (decide (sh_loc h = x)) as [Hx|Hne].
    - unfold valid in *. rewrite Hx in *. rewrite Hc in Hv. rewrite Hx2.
      destruct (sh_dep h); try done. destruct Hv as (Hw & Hac & _). destruct Hnc. eauto.
    - eapply valid_vle; [by apply Hvle| |done]. intros ? [?|?]%elem_of_cons; done. }
  assert (evo stk p (table s) (table s2)) as Hevo.
  { split; [done|]. intros q cq Hq Hcq. assert (q ≠ x) as Hne by by intros ->.
    destruct (Hoth _ _ Hcq Hne) as [?|?]; eexists; (split; [done|]); auto. }
  split.
  2:{ simpl. rewrite (ce_stack _ _ Hctx), (ce_structf _ _ Hctx). done. }
  assert (stack s2 = stack s) as Hstk by apply Hctx.
  split; simpl; rewrite ?Hstk; simpl.
  - by rewrite (ce_purity _ _ Hctx).
  - fold (frames (stack s)). split.
    + intros y nd' Hy. destruct (decide (y = x)) as [->|Hne]; [by simplify_eq|].
      destruct (Hinv _ _ Hy Hne) as (nd & Hny & Hor). assert (Hk := i_kind _ _ _ _ Rinv _ _ Hny).
      by destruct Hor as [->| ->], nd.
    + intros q c' e Hq He. destruct (decide (q = x)) as [->|Hne].
      { simplify_eq; by apply elem_of_nil in He. }
      destruct (Hcomp _ _ Hq Hne) as (cq & Hcq & Hsu & _). rewrite Hsu in He.
      destruct (i_edge _ _ _ _ Rinv _ _ _ Hcq He). split; [by eapply wfe_facts|done].
    + intros q c' e Hq He Hb. destruct (decide (q = x)) as [->|Hne].
      { simplify_eq; by apply elem_of_nil in He. }
      destruct (Hcomp _ _ Hq Hne) as (cq & Hcq & Hsu & _). rewrite Hsu in He, Hb.
      apply Hval. by eapply (i_valid _ _ _ _ Rinv).
    + intros q c' e ny Hq He Hy. destruct (decide (q = x)) as [->|Hne].
      { simplify_eq; by apply elem_of_nil in He. }
      destruct (Hcomp _ _ Hq Hne) as (cq & Hcq & Hsu & _). rewrite Hsu in He.
      destruct (decide (s_loc e = x)) as [Hx|Hnex].
      * rewrite Hx, Hx2 in Hy. injection Hy as <-. simpl.
        apply (i_pred _ _ _ _ Rinv _ _ _ (NComp c) Hcq He). by rewrite Hx.
      * destruct (Hinv _ _ Hy Hnex) as (ny0 & Hny & Hor).
        assert (Hp := i_pred _ _ _ _ Rinv _ _ _ _ Hcq He Hny).
        destruct Hor as [->| ->]; [done|]. by apply drop_preds_elem.
    + intros y nd' pr Hy Hpr.
      assert (∃ nd, table s !! y = Some nd ∧ pr ∈ node_preds nd ∧ p_loc pr ≠ x) as (nd & Hny & Hpr' & Hnex).
      { destruct (decide (y = x)) as [->|Hne].
        - simplify_eq. exists (NComp c). split; [done|]. split; [done|]. simpl in Hpr.
          destruct (i_predinv _ _ _ _ Rinv _ _ pr Hc Hpr) as (cq & e & Hcq & He & Hl & _).
          intros Heq. rewrite Heq in Hcq. simplify_eq. destruct (Htgts _ He). congruence.
        - destruct (Hinv _ _ Hy Hne) as (nd & Hny & Hor).
          assert (pr ∈ node_preds nd) as Hprn.
          { destruct Hor as [->| ->]; [done|]. by apply drop_preds_elem in Hpr as []. }
          exists nd. split; [done|]. split; [done|]. intros Heq.
          destruct (i_predinv _ _ _ _ Rinv _ _ pr Hny Hprn) as (cq & e & Hcq & He & Hl & _).
          rewrite Heq in Hcq. simplify_eq.
          assert (nd' = drop_preds (p_loc pr) nd) as ->.
          { rewrite Htb2 in Hy. rewrite decide_True in Hy by by apply elem_of_list_fmap_1.
            simpl in Hy. rewrite lookup_insert_ne in Hy by done. rewrite Hny in Hy. by injection Hy as <-. }
          apply drop_preds_elem in Hpr as [_ ?]. done. }
      destruct (i_predinv _ _ _ _ Rinv _ _ pr Hny Hpr') as (cq & e & Hcq & He & Hl).
      destruct (Hoth _ _ Hcq Hnex) as [?|?]; eexists _, e; (split; [done|]); done.
    + intros q c' Hq. destruct (decide (q = x)) as [->|Hne].
      { simplify_eq. apply NoDup_nil_2. }
      destruct (Hcomp _ _ Hq Hne) as (cq & Hcq & -> & _). by eapply (i_nodup _ _ _ _ Rinv).
    + intros q [->|Hq]%elem_of_cons.
      { eexists. split; [done|]. simpl. split; [done|]. done. }
      destruct (i_frame _ _ _ _ Rinv _ Hq) as (cq & Hcq & Hsu & Hr).
      assert (q ≠ x) as Hne by by intros ->.
      destruct (Hoth _ _ Hcq Hne) as [?|?]; eexists; (split; [done|]); done.
    + intros q c' v Hq Hnfr Hres. apply not_elem_of_cons in Hnfr as [Hne Hnfr].
      destruct (Hcomp _ _ Hq Hne) as (cq & Hcq & -> & Hr & -> & -> & ->).
      eapply tr_mono; [done|]. eapply (i_tr _ _ _ _ Rinv); [done..|]. congruence.
    + intros q c' e Ho Hst Hq He. destruct (decide (q = x)) as [->|Hne].
      { simplify_eq; by apply elem_of_nil in He. }
      destruct (Hcomp _ _ Hq Hne) as (cq & Hcq & Hsu & _). rewrite Hsu in *. by eapply (i_struct _ _ _ _ Rinv).
    + eapply acyc_sub; [|apply (i_acyc _ _ _ _ Rinv)]. intros q y (c' & e & Hq & He & Ho & <-). destruct (decide (q = x)) as [->|Hne].
      { simplify_eq; by apply elem_of_nil in He. }
      destruct (Hcomp _ _ Hq Hne) as (cq & Hcq & Hsu & _). exists cq, e. by rewrite <- Hsu.
    + intros q c' y Hq Hys Hb. destruct (decide (q = x)) as [->|Hne]; [rewrite Hx2 in Hq; by injection Hq as <-|].
      destruct (Hcomp _ _ Hq Hne) as (cq & Hcq & Hsu & _). rewrite Hsu in Hb. by apply (i_sbit _ _ _ _ Rinv _ _ _ Hcq Hys).
  - rewrite <- Rstore. apply contents_eq. intros y. destruct (table s !! y) as [nd|] eqn:Ey.
    + destruct (Hvle _ _ Ey) as (nd' & ? & ?). exists nd'. split; [done|by apply vle_content].
    + rewrite Htb2. simpl. rewrite lookup_insert_ne; [by rewrite Ey|]. intros ->. congruence.
  - intros l [->|Hl]%elem_of_cons; [by left|by apply Rsub].
  - by apply NoDup_cons.
  - done.
  - done.
  - intros y Hy. destruct (Rdone _ Hy) as (? & Hyf & cy & wy & Hcy & Hry & Hacy & Hpy).
    assert (y ≠ x) as Hne by by intros ->. split_and!; [done|by apply not_elem_of_cons|].
    destruct (Hoth _ _ Hcy Hne) as [?|?]; eexists _, wy; (split; [done|]); done.
  - intros f e pd [->|Hf]%elem_of_cons; simpl; [by intros ?%elem_of_nil|]. intros He.
    destruct (Rframe _ _ _ Hf He). split; try done; [by eapply wfe_facts|by apply Hval].
  - intros f [->|Hf]%elem_of_cons; simpl; [apply NoDup_nil_2|auto].
  - destruct Rruns as (rs & Hrs & Hndr & Hsub). exists (x :: rs). rewrite (ce_runs _ _ Hctx). simpl.
    rewrite Hrs. split; [done|]. split.
    + apply NoDup_cons. split; [|done]. intros Hx. by destruct (Hsub _ Hx).
    + intros y [->|Hy]%elem_of_cons; [right; by left|]. destruct (Hsub _ Hy); [by left|right; by right].
  - intros tb0 Ho. destruct (Rjust _ Ho) as (rs & Hrs & HJ). exists (x :: rs). rewrite (ce_runs _ _ Hctx). simpl. split; [by rewrite Hrs|].
    assert (∀ y, settled p y → yields (table s2) y = yields (table s) y) as Hyi.
    { intros y Hy. destruct (table s !! y) as [nd|] eqn:Ey.
      - destruct (Hvle _ _ Ey) as (nd' & Hy' & Hv). by eapply vle_yields.
      - unfold yields. rewrite Htb2. simpl. rewrite lookup_insert_ne; [by rewrite Ey|]. intros ->. congruence. }
    split.
    + apply HJ.
    + intros y [Hne Hny]%not_elem_of_cons. intros c0 Hc0. destruct (J_kept _ _ _ _ _ HJ y Hny c0 Hc0) as [?|(cy & Hcy & Hr & Hs & Hb)]; [by left|right].
      destruct (Hoth _ _ Hcy Hne) as [Hy'|Hy']; (eexists; split; [exact Hy'|]); simpl; done.
    + intros y [->|Hy]%elem_of_cons; (eapply why_step; [done|exact Hyi|]); [by apply Hwhy|by apply HJ].
    + intros y [->|Hy]%elem_of_cons; [by left|]. right. by apply HJ.
    + intros y cy [Hne Hny]%not_elem_of_cons Hcy Hr. destruct (Hcomp _ _ Hcy Hne) as (cq & Hcq & _ & Hr' & _).
      apply (J_old _ _ _ _ _ HJ y cq Hny Hcq). congruence.
Qed.

(** ** Finishing the production of a thunk *)
(** Everything reachable from a valid observation is evaluated, hence not executing. *)
Lemma valid_settled tb frs h : Inv tb frs → wfe tb h → valid tb frs h → sh_eff h = Observe → ∀ y, rtc (observes tb) (sh_loc h) y → y ∉ frs.
Proof.
  intros Hi Hw Hv Ho.
  assert (Hq : ∀ z y, rtc (observes tb) z y →
    (∃ t ps v, tb !! z = Some (NMut t ps v)) ∨ (∃ c, tb !! z = Some (NComp c) ∧ all_clean (c_succs c) ∧ z ∉ frs) →
    (∃ t ps v, tb !! y = Some (NMut t ps v)) ∨ (∃ c, tb !! y = Some (NComp c) ∧ all_clean (c_succs c) ∧ y ∉ frs)).
  { intros z y Hr. induction Hr as [z|z z' y (c & e & Hc & He & Heff & Hl) _ IH]; [done|]. intros Hz. apply IH.
    destruct Hz as [(t & ps & v & Hz)|(c1 & Hz & Hac & _)]; [congruence|]. rewrite Hc in Hz. injection Hz as <-.
    assert (Hv' := i_valid _ _ _ _ Hi _ _ _ Hc He (Hac _ He)). destruct (i_edge _ _ _ _ Hi _ _ _ Hc He) as [Hw' _].
    unfold valid, wfe in *. unfold sh_loc, sh_eff, sh_dep in *. simpl in *. rewrite Hl in *.
    destruct (s_dep e); [| |done|destruct Hw'; congruence..].
    - destruct Hw' as [_ [(ps & v & Hx)|(cx & Hx & _)]]; [left; eauto|right]. rewrite Hx in Hv'. exists cx. by destruct_and?.
    - destruct Hw' as (_ & ps & v & Hx). left. eauto. }
  intros y Hy. apply Hq in Hy.
  - destruct Hy as [(t & ps & v & Hy)|(c & _ & _ & ?)]; [|done]. intros Hf. destruct (i_frame _ _ _ _ Hi _ Hf) as (c & Hc & _). congruence.
  - unfold valid, wfe in *. destruct (sh_dep h); [| |done|destruct Hw; congruence..].
    + destruct Hw as [_ [(ps & v & Hx)|(cx & Hx & _)]]; [left; eauto|right]. rewrite Hx in Hv. exists cx. by destruct_and?.
    + destruct Hw as (_ & ps & v & Hx). left. eauto.
Qed.
Lemma acyc_finish tb tb' frs x : Inv tb frs → x ∈ frs →
  (∀ q y, q ≠ x → observes tb' q y → observes tb q y) →
  (∀ y, observes tb' x y → ∃ h, sh_eff h = Observe ∧ sh_loc h = y ∧ wfe tb h ∧ valid tb frs h) →
  ∀ z, ¬ tc (observes tb') z z.
Proof.
  intros Hi Hx Hoth Hnew.
  assert (Hpath : ∀ a b, rtc (observes tb') a b → rtc (observes tb) a b ∨ (rtc (observes tb) a x ∧ rtc (observes tb') x b)).
  { intros a b Hr. induction Hr as [a|a a' b Ha Hr IH]; [by left|]. destruct (decide (a = x)) as [->|Hne].
    - right. split; [done|]. by eapply rtc_l.
    - assert (Ha' := Hoth _ _ Hne Ha). destruct IH as [?|[? ?]]; [left; by eapply rtc_l|right]. split; [by eapply rtc_l|done]. }
  assert (Hno : ∀ y, observes tb' x y → ¬ rtc (observes tb') y x).
  { intros y Hy Hr. destruct (Hnew _ Hy) as (h & Ho & Hl & Hw & Hv). subst y.
    assert (rtc (observes tb) (sh_loc h) x) as Hr' by (destruct (Hpath _ _ Hr) as [?|[? _]]; done).
    by apply (valid_settled tb frs h Hi Hw Hv Ho _ Hr'). }
  intros z Hz.
  assert (Hcyc : ∀ a b, tc (observes tb') a b → tc (observes tb) a b ∨ (rtc (observes tb') a x ∧ ∃ y, observes tb' x y ∧ rtc (observes tb') y b)).
  { intros a b Ht. induction Ht as [a b Hab|a a' b Ha Ht IH].
    - destruct (decide (a = x)) as [->|Hne]; [right; eauto using rtc_refl|left]. by apply tc_once, Hoth.
    - destruct (decide (a = x)) as [->|Hne]; [right; eauto using rtc_refl, tc_rtc|].
      destruct IH as [?|(? & y & ? & ?)]; [left; eapply tc_l; [by apply Hoth|done]|right]. split; [by eapply rtc_l|eauto]. }
  destruct (Hcyc _ _ Hz) as [?|(H1 & y & H2 & H3)]; [by apply (i_acyc _ _ _ _ Hi z)|].
  apply (Hno y H2). by etrans.
Qed.

Lemma R_produce_end r0 stk x p s c t fes fs v prev :
  R r0 (x :: stk) p s → stack s = Frame x fes :: fs → table s !! x = Some (NComp c) → c_ty c = t → x ∉ stk →
  tr opt (table s) (l_path x) md0 [] (code (c_pp c) (c_arg c) (c_spur c)) (shape <$> fes.*1) v →
  ∃ s' c', produce_end t x prev v s = (OVal tt, s') ∧
    (∀ p', d_store p' = d_store p → d_seen p' = d_seen p → d_done p' = {[x]} ∪ d_done p → R r0 stk p' s') ∧
    evo stk p (table s) (table s') ∧
    stack s' = fs ∧ cpath s' = prev ∧ structf s' = structf s ∧
    table s' !! x = Some (NComp c') ∧ c_ty c' = t ∧ c_res c' = Some v ∧ all_clean (c_succs c').
Proof.
  intros [Ropt Rinv Rstore Rsub Rnodup Rseen Rwf Rdone Rframe Rfnodup Rruns Rjust] Hstk Hc Ht Hnk Htr.
  assert (Hfr : frames (stack s) = x :: frames fs) by (by rewrite Hstk).
  rewrite Hfr in *. apply NoDup_cons in Rnodup as [Hnf Rnodup].
  destruct (i_frame _ _ _ _ Rinv x) as (c0 & Hc0 & Hsu0 & Hres0); [by left|].
  rewrite Hc in Hc0. injection Hc0 as ->. subst t.
  assert (Hfe : ∀ e pd, (e, pd) ∈ fes → fedge (table s) (x :: frames fs) p x e pd).
  { intros e pd He. apply (Rframe (Frame x fes)); [rewrite Hstk; by left|done]. }
  set (s1 := set_stack fs (set_cpath prev s)).
  destruct (insert_preds_ok x fes s1) as (s2 & Hins & Hctx & Htb2).
  { intros e pd He. destruct (Hfe _ _ He) as [? _ Hw _ _ _ _]. split; [done|].
    destruct (wfe_exists _ _ Hw) as (nd & ? & ?). eauto. }
  assert (new_preds x x fes = []) as Hnp.
  { unfold new_preds. clear -Hfe. induction fes as [|[e pd] fes IH]; [done|]. simpl.
    rewrite decide_False; [apply IH; intros; apply Hfe; by right|].
    destruct (Hfe e pd) as [_ _ _ _ _ ? _]; [by left|done]. }
  assert (table s2 !! x = Some (NComp c0)) as Hx2.
  { rewrite Htb2. simpl. rewrite Hc, Hnp. by rewrite <- (add_preds_nil (NComp c0)) at 2. }
  set (c' := with_res (Some v) (with_succs fes.*1 c0)).
  set (s3 := set_table (<[x := NComp c']> (table s2)) s2).
  assert (∀ e, e ∈ fes.*1 → ∃ pd, (e, pd) ∈ fes) as Hfes.
  { intros e ([e' pd] & -> & ?)%elem_of_list_fmap. eauto. }
  assert (all_clean (c_succs c')) as Hac.
  { apply all_clean_fresh. simpl. intros e (pd & He)%Hfes. by destruct (Hfe _ _ He). }
  exists s3, c'. split.
  { unfold produce_end.
    rewrite (bind_val (modify _) _ s tt (set_cpath prev s)) by done.
    rewrite (bind_val get _ _ (set_cpath prev s) (set_cpath prev s)) by done. simpl.
    rewrite Hstk.
    rewrite (bind_val (modify _) _ _ tt s1) by done. simpl.
    rewrite bool_decide_eq_true_2 by done.
    rewrite (bind_val (assert _ _) _ s1 tt s1) by done.
    rewrite (bind_val _ _ s1 tt s2) by done.
    rewrite (bind_val _ _ s2 (NComp c0) s2) by by apply res_node_eq. done. }
  assert (∀ y nd, table s !! y = Some nd → y ≠ x → table s3 !! y = Some (add_preds (new_preds x y fes) nd)) as Hoth.
  { intros y nd Hy Hne. simpl. rewrite lookup_insert_ne by done. rewrite Htb2. simpl. by rewrite Hy. }
  assert (table s3 !! x = Some (NComp c')) as Hx3 by (simpl; by rewrite lookup_insert).
  assert (∀ y nd', table s3 !! y = Some nd' → y ≠ x → ∃ nd, table s !! y = Some nd ∧ nd' = add_preds (new_preds x y fes) nd) as Hinv.
  { intros y nd' Hy Hne. simpl in Hy. rewrite lookup_insert_ne, Htb2 in Hy by done. simpl in Hy.
    destruct (table s !! y) as [nd|]; [|done]. simpl in Hy. injection Hy as <-. eauto. }
  assert (∀ q c2, table s3 !! q = Some (NComp c2) → q ≠ x → ∃ cq, table s !! q = Some (NComp cq) ∧ c_succs c2 = c_succs cq ∧
     c_res c2 = c_res cq ∧ c_pp c2 = c_pp cq ∧ c_arg c2 = c_arg cq ∧ c_spur c2 = c_spur cq) as Hcomp.
  { intros q c2 Hq Hne. destruct (Hinv _ _ Hq Hne) as (nd & Hnq & Heq).
    destruct nd as [| |cq]; [done..|]. exists cq. split; [done|]. injection Heq as ->. by split_and!. }
  assert (facts_le (table s) (table s3)) as Hfacts.
  { intros y nd Hy. destruct (decide (y = x)) as [->|Hne].
    - simplify_eq. eexists. split; [done|]. simpl. split_and!; try done. intros Hst. split; [done|].
      intros Ho w Hw. by rewrite Hres0 in Hw.
    - eexists. split; [by apply Hoth|]. apply vle_facts, add_preds_vle. }
  assert (∀ h, valid (table s) (x :: frames fs) h → valid (table s3) (frames fs) h) as Hval.
  { intros h Hv. destruct (decide (sh_loc h = x)) as [Hx|Hne].
    - unfold valid in *. rewrite Hx in *. rewrite Hc in Hv. rewrite Hx3.
      destruct (sh_dep h); try done. destruct Hv as (Hw & _ & Hn). destruct Hn. by left.
    - eapply valid_vle; [| |done].
      + intros nd Hnd. eexists. split; [by apply Hoth|apply add_preds_vle].
      + intros Hn Hi. apply Hn. by right. }
  assert (evo stk p (table s) (table s3)) as Hevo.
  { split; [done|]. intros q cq Hq Hcq. assert (q ≠ x) as Hne by by intros ->.
    eexists. split; [by apply (Hoth _ _ Hcq Hne)|]. auto. }
  assert (stack s3 = fs) as Hstk3 by (simpl; by rewrite (ce_stack _ _ Hctx)).
  split.
  2:{ split; [done|]. split; [done|]. simpl. rewrite (ce_cpath _ _ Hctx), (ce_structf _ _ Hctx).
      split_and!; try done; by rewrite lookup_insert. }
  intros p' Hst' Hse' Hdo'.
  assert (d_le p p') as Hdle. { split; [by rewrite Hse'|rewrite Hdo'; set_solver|]. intros. by rewrite Hst'. }
  split; rewrite ?Hstk3.
  - simpl. by rewrite (ce_purity _ _ Hctx).
  - split.
    + intros y nd' Hy. destruct (decide (y = x)) as [->|Hne]; [by simplify_eq|].
      destruct (Hinv _ _ Hy Hne) as (nd & Hny & ->). assert (Hk := i_kind _ _ _ _ Rinv _ _ Hny).
      by destruct nd.
    + intros q c2 e Hq He. destruct (decide (q = x)) as [->|Hne].
      { rewrite Hx3 in Hq. injection Hq as <-. apply Hfes in He as (pd & He). destruct (Hfe _ _ He).
        split; [by eapply wfe_facts|done]. }
      destruct (Hcomp _ _ Hq Hne) as (cq & Hcq & Hsu & _). rewrite Hsu in He.
      destruct (i_edge _ _ _ _ Rinv _ _ _ Hcq He). split; [by eapply wfe_facts|done].
    + intros q c2 e Hq He Hb. apply Hval. destruct (decide (q = x)) as [->|Hne].
      { rewrite Hx3 in Hq. injection Hq as <-. apply Hfes in He as (pd & He). by destruct (Hfe _ _ He). }
      destruct (Hcomp _ _ Hq Hne) as (cq & Hcq & Hsu & _). rewrite Hsu in He, Hb.
      by eapply (i_valid _ _ _ _ Rinv).
    + intros q c2 e ny Hq He Hy. destruct (decide (q = x)) as [->|Hne].
      { rewrite Hx3 in Hq. injection Hq as <-. apply Hfes in He as (pd & He).
        destruct (Hfe _ _ He) as [_ -> Hw _ _ Hne _].
        destruct (Hinv _ _ Hy Hne) as (nd & Hnd & ->).
        destruct (wfe_exists _ _ Hw) as (nd0 & Hnd0 & Htrk). unfold sh_loc in Hnd0. simpl in Hnd0. simplify_eq.
        apply add_preds_elem; [done|]. right. unfold new_preds. apply elem_of_list_omap.
        exists (e, pdep (s_dep e)). split; [done|]. simpl. by rewrite decide_True. }
      destruct (Hcomp _ _ Hq Hne) as (cq & Hcq & Hsu & _). rewrite Hsu in He.
      destruct (decide (s_loc e = x)) as [Hx|Hnex].
      * rewrite Hx, Hx3 in Hy. injection Hy as <-. simpl.
        apply (i_pred _ _ _ _ Rinv _ _ _ (NComp c0) Hcq He). by rewrite Hx.
      * destruct (Hinv _ _ Hy Hnex) as (nd & Hnd & ->).
        assert (Hp := i_pred _ _ _ _ Rinv _ _ _ _ Hcq He Hnd).
        destruct (i_edge _ _ _ _ Rinv _ _ _ Hcq He) as [Hw _].
        destruct (wfe_exists _ _ Hw) as (nd0 & Hnd0 & Htrk). unfold sh_loc in Hnd0. simpl in Hnd0. simplify_eq.
        apply add_preds_elem; [done|by left].
    + intros y nd' pr Hy Hpr.
      assert ((∃ nd, table s !! y = Some nd ∧ pr ∈ node_preds nd) ∨ (y ≠ x ∧ pr ∈ new_preds x y fes)) as Hor.
      { destruct (decide (y = x)) as [->|Hne].
        - rewrite Hx3 in Hy. injection Hy as <-. left. eauto.
        - destruct (Hinv _ _ Hy Hne) as (nd & Hnd & ->). destruct nd as [| |cy].
          + apply elem_of_app in Hpr as [?|?]; [left; eauto|by right].
          + by apply elem_of_nil in Hpr.
          + apply elem_of_app in Hpr as [?|?]; [left; eauto|by right]. }
      destruct Hor as [(nd & Hnd & Hprn)|[Hne Hprn]].
      * destruct (i_predinv _ _ _ _ Rinv _ _ pr Hnd Hprn) as (cq & e & Hcq & He & Hl).
        assert (p_loc pr ≠ x) as Hnex.
        { intros Heq. rewrite Heq in Hcq. simplify_eq. rewrite Hsu0 in He. by apply elem_of_nil in He. }
        eexists _, e. split; [by apply (Hoth _ _ Hcq Hnex)|]. done.
      * apply elem_of_list_omap in Hprn as ([e pd] & He & Heq). simpl in Heq.
        destruct (decide (s_loc e = y)) as [<-|]; [|done]. injection Heq as <-. simpl.
        exists c', e. split; [done|]. split; [by apply (elem_of_list_fmap_1 fst _ _ He)|].
        split_and!; [done..|]. by destruct (Hfe _ _ He).
    + intros q c2 Hq. destruct (decide (q = x)) as [->|Hne].
      { rewrite Hx3 in Hq. injection Hq as <-. simpl. apply (Rfnodup (Frame x fes)). rewrite Hstk. by left. }
      destruct (Hcomp _ _ Hq Hne) as (cq & Hcq & -> & _). by eapply (i_nodup _ _ _ _ Rinv).
    + intros q Hq. destruct (i_frame _ _ _ _ Rinv q) as (cq & Hcq & Hsu & Hr); [by right|].
      assert (q ≠ x) as Hne by by intros ->.
      eexists. split; [by apply (Hoth _ _ Hcq Hne)|]. done.
    + intros q c2 v2 Hq Hnfr Hres. destruct (decide (q = x)) as [->|Hne].
      { rewrite Hx3 in Hq. injection Hq as <-. simpl in *. injection Hres as <-. by eapply tr_mono. }
      destruct (Hcomp _ _ Hq Hne) as (cq & Hcq & -> & Hr & -> & -> & ->).
      eapply tr_mono; [done|]. eapply (i_tr _ _ _ _ Rinv); [done| |congruence]. by apply not_elem_of_cons.
    + intros q c2 e Ho Hst Hq He. destruct (decide (q = x)) as [->|Hne].
      { rewrite Hx3 in Hq. injection Hq as <-. split; [|by apply Hac].
        apply Hfes in He as (pd & He). destruct (Hfe _ _ He). auto. }
      destruct (Hcomp _ _ Hq Hne) as (cq & Hcq & Hsu & _). rewrite Hsu in *. by eapply (i_struct _ _ _ _ Rinv).
    + apply (acyc_finish (table s) (table s3) (x :: frames fs) x Rinv); [by left| |].
      * intros q y Hne (c2 & e & Hq & He & Ho & <-). destruct (Hcomp _ _ Hq Hne) as (cq & Hcq & Hsu & _).
        exists cq, e. by rewrite <- Hsu.
      * intros y (c2 & e & Hq & He & Ho & <-). rewrite Hx3 in Hq. injection Hq as <-. apply Hfes in He as (pd & He).
        destruct (Hfe _ _ He). exists (shape e). done.
    + intros q c2 y Hq Hys Hb. destruct (decide (q = x)) as [->|Hne].
      { rewrite Hx3 in Hq. injection Hq as <-. destruct (bit_Some _ _ _ _ Hb) as (e & He & Ee & El). specialize (Hac _ He). rewrite Ee, El in Hac. congruence. }
      destruct (Hcomp _ _ Hq Hne) as (cq & Hcq & Hsu & _). rewrite Hsu in Hb. by apply (i_sbit _ _ _ _ Rinv _ _ _ Hcq Hys).
  - rewrite Hst', <- Rstore. apply contents_eq. intros y. destruct (table s !! y) as [nd|] eqn:Ey.
    + destruct (decide (y = x)) as [->|Hne].
      * simplify_eq. eexists. split; [done|done].
      * eexists. split; [by apply Hoth|apply vle_content, add_preds_vle].
    + simpl. rewrite lookup_insert_ne, Htb2; [simpl; by rewrite Ey|]. intros ->. congruence.
  - intros l Hl. assert (Hl' : l ∈ x :: stk) by (apply Rsub; by right).
    apply elem_of_cons in Hl' as [->|]; done.
  - done.
  - intros l Hl. rewrite Hse'. apply Rseen. by right.
  - intros z Hz. rewrite Hse' in Hz. rewrite Hst'. by apply Rwf.
  - rewrite Hdo'. intros y [->%elem_of_singleton|Hy]%elem_of_union.
    + rewrite Hse'. split_and!; [apply Rseen; by left|done|]. exists c', v. split_and!; try done.
      intros e (pd & He)%Hfes. destruct (Hfe _ _ He). by eapply prot_le.
    + destruct (Rdone _ Hy) as (? & Hyf & cy & wy & Hcy & Hry & Hacy & Hpy). rewrite Hse'.
      apply not_elem_of_cons in Hyf as [Hne Hyf]. split_and!; [done|done|].
      eexists _, wy. split; [by apply (Hoth _ _ Hcy Hne)|]. simpl. split_and!; [done..|].
      intros e He. eapply prot_le; [done|auto].
  - intros f e pd Hf He. destruct (Rframe f e pd) as [? ? ? ? ? ? ?]; [rewrite Hstk; by right|done|].
    split; try done; [by eapply wfe_facts|by apply Hval|by eapply prot_le].
  - intros f Hf. apply Rfnodup. rewrite Hstk. by right.
  - destruct Rruns as (rs & Hrs & Hndr & Hsub). exists rs. simpl. rewrite (ce_runs _ _ Hctx). simpl.
    split; [done|]. split; [done|]. intros y Hy. rewrite Hdo'.
    destruct (Hsub _ Hy) as [?|[->|?]%elem_of_cons]; [left; set_solver|left; set_solver|by right].
  - intros tb0 Ho. destruct (Rjust _ Ho) as (rs & Hrs & HJ). exists rs. simpl. rewrite (ce_runs _ _ Hctx). simpl. split; [done|].
    assert (x ∈ rs) as Hxrs by (apply HJ; by left).
    eapply J_step; [done|done|by rewrite Hst'| | | |].
    + intros y cy Hy Hcy. right. assert (y ≠ x) as Hne by by intros ->. eexists. split; [by apply (Hoth _ _ Hcy Hne)|]. simpl. auto.
    + intros y cy Hy Hcy Hr. assert (y ≠ x) as Hne by by intros ->.
      destruct (Hcomp _ _ Hcy Hne) as (cq & Hcq & _ & Hr' & _). exists cq. split; [done|]. split; [congruence|]. by rewrite Hst'.
    + intros y Hy. assert (y ≠ x) as Hne.
      { intros ->. destruct Hy as [Hy|(_ & t0 & v0 & Hy)].
        - destruct (Rdone _ Hy) as (_ & Hyf & _). apply Hyf. by left.
        - rewrite <- Rstore, contents_lookup, Hc in Hy. done. }
      destruct (table s !! y) as [nd|] eqn:Ey.
      * eapply vle_yields; [done|by apply Hoth|apply add_preds_vle].
      * unfold yields. rewrite Ey. simpl. rewrite lookup_insert_ne by done. rewrite Htb2. simpl. by rewrite Ey.
    + intros y Hy. by right.
Qed.

(** ** Marking an edge clean again *)
Lemma bit_mark_false_clean eff tgt eff' tgt' es :
  bit eff' tgt' es = Some false → bit eff' tgt' (mark_succ false eff tgt es) = Some false.
Proof.
  intros Hb. destruct (decide ((eff', tgt') = (eff, tgt))) as [[= -> ->]|Hne].
  - apply bit_mark_same. by rewrite Hb.
  - by rewrite bit_mark_other.
Qed.

Lemma R_set_clean r0 stk x p s c eff tgt :
  R r0 stk p s → table s !! x = Some (NComp c) → is_Some (bit eff tgt (c_succs c)) →
  (∀ e, e ∈ c_succs c → s_eff e = eff → s_loc e = tgt → valid (table s) (frames (stack s)) (shape e)) →
  (eff = Allocate → is_struct tgt = true) →
  R r0 stk p (upd_bit false x eff tgt c s) ∧ evo stk p (table s) (table (upd_bit false x eff tgt c s)).
Proof.
  intros [Ropt Rinv Rstore Rsub Rnodup Rseen Rwf Rdone Rframe Rfnodup Rruns Rjust] Hc Hbs Hvalid Hna.
  set (c' := with_succs (mark_succ false eff tgt (c_succs c)) c).
  set (s' := upd_bit false x eff tgt c s).
  assert (∀ y nd, table s !! y = Some nd → y ≠ x → table s' !! y = Some nd) as Hoth.
  { intros y nd Hy Hne. unfold s', upd_bit. simpl. by rewrite lookup_insert_ne. }
  assert (table s' !! x = Some (NComp c')) as Hx by (unfold s', upd_bit; simpl; by rewrite lookup_insert).
  assert (Hsh : shape <$> c_succs c' = shape <$> c_succs c) by apply mark_succ_shapes.
  assert (all_clean (c_succs c) → all_clean (c_succs c')) as Hacl.
  { intros Ha e He. destruct (shapes_elem _ _ e Hsh He) as (e1 & He1 & Hs1).
    apply shape_eq in Hs1 as (<- & <- & _). by apply bit_mark_false_clean, Ha. }
  assert (∀ y nd, table s !! y = Some nd → ∃ nd', table s' !! y = Some nd' ∧ vle nd nd') as Hvle.
  { intros y nd Hy. destruct (decide (y = x)) as [->|Hne].
    - simplify_eq. exists (NComp c'). split; [done|]. simpl. auto 10.
    - exists nd. split; [by apply Hoth|apply vle_refl]. }
  assert (∀ y nd', table s' !! y = Some nd' → (y = x ∧ nd' = NComp c') ∨ (y ≠ x ∧ table s !! y = Some nd')) as Hinv.
  { intros y nd' Hy. unfold s', upd_bit in Hy. simpl in Hy. apply lookup_insert_Some in Hy as [[? ?]|[? ?]]; auto. }
  assert (facts_le (table s) (table s')) as Hfacts.
  { intros y nd Hy. destruct (Hvle _ _ Hy) as (nd' & ? & ?). exists nd'. split; [done|by apply vle_facts]. }
  assert (∀ h, valid (table s) (frames (stack s)) h → valid (table s') (frames (stack s)) h) as Hval.
  { intros h. apply valid_vle; [apply Hvle|done]. }
  split.
  2:{ split; [done|]. intros q cq Hq Hcq. destruct (decide (q = x)) as [->|Hne].
      - simplify_eq. exists c'. split_and!; try done. intros e He _. apply bit_mark_false_clean.
      - exists cq. split; [by apply Hoth|auto]. }
  split; try done.
  - change (stack s') with (stack s). split.
    + intros y nd' Hy. destruct (Hinv _ _ Hy) as [[-> ->]|[? ?]]; [done|by eapply (i_kind _ _ _ _ Rinv)].
    + intros q c2 e Hq He. destruct (Hinv _ _ Hq) as [[-> [= ->]]|[? Hq']].
      * destruct (shapes_elem _ _ e Hsh He) as (e1 & He1 & Hs1). rewrite <- Hs1.
        destruct (i_edge _ _ _ _ Rinv _ _ _ Hc He1). apply shape_eq in Hs1 as (<- & _).
        split; [by eapply wfe_facts|done].
      * destruct (i_edge _ _ _ _ Rinv _ _ _ Hq' He). split; [by eapply wfe_facts|done].
    + intros q c2 e Hq He Hb. apply Hval. destruct (Hinv _ _ Hq) as [[-> [= ->]]|[? Hq']].
      * destruct (shapes_elem _ _ e Hsh He) as (e1 & He1 & Hs1). rewrite <- Hs1.
        apply shape_eq in Hs1 as (E1 & E2 & _).
        destruct (decide ((s_eff e, s_loc e) = (eff, tgt))) as [[= <- <-]|Hne].
        -- by apply Hvalid.
        -- eapply (i_valid _ _ _ _ Rinv); [done..|]. simpl in Hb. rewrite bit_mark_other in Hb by done. by rewrite E1, E2.
      * by eapply (i_valid _ _ _ _ Rinv).
    + intros q c2 e ny Hq He Hy.
      assert (∃ cq e1, table s !! q = Some (NComp cq) ∧ e1 ∈ c_succs cq ∧ shape e1 = shape e) as (cq & e1 & Hcq & He1 & Hs1).
      { destruct (Hinv _ _ Hq) as [[-> [= ->]]|[? Hq']]; [|eauto].
        destruct (shapes_elem _ _ e Hsh He) as (e1 & He1 & Hs1). eauto. }
      apply shape_eq in Hs1 as (E1 & <- & <-). rewrite <- E1 in Hy.
      destruct (Hinv _ _ Hy) as [[Hl ->]|[? Hy']].
      * simpl. apply (i_pred _ _ _ _ Rinv _ _ _ (NComp c) Hcq He1). by rewrite Hl.
      * by eapply (i_pred _ _ _ _ Rinv).
    + intros y nd' pr Hy Hpr.
      assert (∃ nd, table s !! y = Some nd ∧ pr ∈ node_preds nd) as (nd & Hnd & Hprn).
      { destruct (Hinv _ _ Hy) as [[-> ->]|[? Hq']]; [|eauto]. exists (NComp c). done. }
      destruct (i_predinv _ _ _ _ Rinv _ _ _ Hnd Hprn) as (cq & e & Hcq & He & Hl).
      destruct (decide (p_loc pr = x)) as [Heq|Hne].
      * rewrite Heq in Hcq. simplify_eq. destruct (shapes_elem _ _ e (eq_sym Hsh) He) as (e1 & He1 & Hs1).
        apply shape_eq in Hs1 as (E1 & E2 & E3). exists c', e1. rewrite E1, E2, E3. split; [done|]. done.
      * exists cq, e. split; [by apply Hoth|done].
    + intros q c2 Hq. destruct (Hinv _ _ Hq) as [[-> [= ->]]|[? Hq']]; [rewrite Hsh|]; by eapply (i_nodup _ _ _ _ Rinv).
    + intros q Hq. destruct (i_frame _ _ _ _ Rinv _ Hq) as (cq & Hcq & Hsu & Hr).
      destruct (decide (q = x)) as [->|Hne].
      * simplify_eq. exists c'. split_and!; try done. simpl. by rewrite Hsu.
      * exists cq. split; [by apply Hoth|done].
    + intros q c2 v Hq Hnf Hres. eapply tr_mono; [done|].
      destruct (Hinv _ _ Hq) as [[-> [= ->]]|[? Hq']]; [rewrite Hsh; simpl in *|]; by eapply (i_tr _ _ _ _ Rinv).
    + intros q c2 e Ho Hst Hq He. destruct (Hinv _ _ Hq) as [[-> [= ->]]|[? Hq']]; [|by eapply (i_struct _ _ _ _ Rinv)].
      destruct (shapes_elem _ _ e Hsh He) as (e1 & He1 & Hs1). apply shape_eq in Hs1 as (<- & <- & _).
      destruct (i_struct _ _ _ _ Rinv _ _ _ Ho Hst Hc He1). split; [done|]. by apply bit_mark_false_clean.
    + eapply acyc_sub; [|apply (i_acyc _ _ _ _ Rinv)]. intros q y (c2 & e & Hq & He & Ho & <-).
      destruct (Hinv _ _ Hq) as [[-> [= ->]]|[? Hq']]; [|by exists c2, e].
      destruct (shapes_elem _ _ e Hsh He) as (e1 & He1 & Hs1). apply shape_eq in Hs1 as (E1 & E2 & _).
      exists c, e1. split_and!; congruence.
    + intros q c2 y Hq Hys Hb. destruct (Hinv _ _ Hq) as [[-> [= ->]]|[? Hq']]; [|by apply (i_sbit _ _ _ _ Rinv _ _ _ Hq' Hys)].
      simpl in Hb. destruct (decide ((Allocate, y) = (eff, tgt))) as [[= <- <-]|Hne]; [by rewrite bit_mark_same in Hb|].
      rewrite bit_mark_other in Hb by done. by apply (i_sbit _ _ _ _ Rinv _ _ _ Hc Hys).
  - rewrite <- Rstore. apply contents_eq. intros y. destruct (table s !! y) as [nd|] eqn:Ey.
    + destruct (Hvle _ _ Ey) as (nd' & ? & ?). exists nd'. split; [done|by apply vle_content].
    + destruct (table s' !! y) eqn:Ey'; [|done]. destruct (Hinv _ _ Ey') as [[-> _]|[_ ?]]; congruence.
  - intros y Hy. destruct (Rdone _ Hy) as (? & ? & cy & wy & Hcy & Hry & Hacy & Hpy). split_and!; [done..|].
    destruct (decide (y = x)) as [->|Hne].
    + simplify_eq. exists c', wy. split_and!; try done; [by apply Hacl|].
      intros e He. destruct (shapes_elem _ _ e Hsh He) as (e1 & He1 & <-). auto.
    + exists cy, wy. split; [by apply Hoth|done].
  - intros f e pd Hf He. destruct (Rframe _ _ _ Hf He). split; try done; [by eapply wfe_facts|by apply Hval].
  - intros tb0 Ho. destruct (Rjust _ Ho) as (rs & Hrs & HJ). exists rs. split; [done|]. change (stack s') with (stack s).
    eapply J_step; [done|done|done| | | |done].
    + intros y cy Hy Hcy. right. destruct (decide (y = x)) as [->|Hne].
      * simplify_eq. exists c'. split_and!; try done. intros z Hz. left. simpl in Hz.
        destruct (decide ((Allocate, z) = (eff, tgt))) as [[= <- <-]|Hne]; [by rewrite bit_mark_same in Hz|by rewrite bit_mark_other in Hz].
        intros z Hzs Hz. simpl. destruct (decide ((Allocate, z) = (eff, tgt))) as [[= <- <-]|Hne]; [|by rewrite bit_mark_other].
        rewrite Hna in Hzs; done.
      * exists cy. split; [by apply Hoth|]. auto.
    + intros y cy Hy Hcy Hr. destruct (Hinv _ _ Hcy) as [[-> [= ->]]|[? ?]]; eauto.
    + intros y _. destruct (table s !! y) as [nd|] eqn:Ey.
      * destruct (Hvle _ _ Ey) as (nd' & ? & ?). by eapply vle_yields.
      * unfold yields. rewrite Ey. destruct (table s' !! y) eqn:Ey'; [|done]. destruct (Hinv _ _ Ey') as [[-> _]|[_ ?]]; congruence.
Qed.

End Steps2.
