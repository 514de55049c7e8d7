(** * Preservation of the relation by the elementary steps of the engine. *)
From Verif Require Export Rel.

Section Steps.
Context `{Prog}.
Context (opt md0 : bool).
Notation Inv := (Inv opt md0).
Notation R := (R opt md0).
Notation facts_le := (facts_le opt).
Notation facts_node := (facts_node opt).
Notation evo := (evo opt).
Notation fedge := (fedge opt).

Lemma node_le_facts x nd nd' : node_le nd nd' → facts_node x nd nd'.
Proof.
  destruct nd as [| |c], nd' as [| |c']; simpl; try naive_solver.
  intros [-> _]. simpl. auto.
Qed.
Lemma node_le_content nd nd' : node_le nd nd' → content_of nd' = content_of nd.
Proof. destruct nd as [| |c], nd' as [| |c']; simpl; try naive_solver. intros [-> _]. done. Qed.

Lemma wfe_facts tb tb' h : facts_le tb tb' → wfe tb h → wfe tb' h.
Proof.
  intros Hf. unfold wfe. destruct (sh_dep h).
  - intros [? [(ps & v & Hx)|(c & Hx & Ht)]]; (split; [done|]).
    + left. by eapply facts_mut.
    + right. destruct (facts_comp _ _ _ _ _ Hf Hx) as (c' & ? & ? & _). exists c'. split; [done|congruence].
  - intros (? & ps & v & Hx). split; [done|]. by eapply facts_mut.
  - done.
  - intros (? & ? & c & Hx). split_and!; [done..|]. destruct (facts_comp _ _ _ _ _ Hf Hx) as (c' & ? & _). eauto.
  - intros (? & ? & c & Hx). split_and!; [done..|]. destruct (facts_comp _ _ _ _ _ Hf Hx) as (c' & ? & _). eauto.
  - intros (? & t & ps & w & Hx). split; [done|]. destruct (facts_mut _ _ _ _ _ _ _ Hf Hx) as (? & ? & ?). eauto.
Qed.
Lemma wfe_exists tb h : wfe tb h → ∃ nd, tb !! sh_loc h = Some nd ∧ node_tracked nd.
Proof. unfold wfe. destruct (sh_dep h); naive_solver. Qed.
Lemma obs_tgts_elem h es : h ∈ es → sh_eff h = Observe → sh_loc h ∈ obs_tgts es.
Proof. intros He Ho. apply elem_of_list_omap. exists h. split; [done|]. unfold obs_tgt. by rewrite decide_True. Qed.

(** Two observing edges to the same target are the same edge. *)
Lemma obs_nodup_inj es h h' :
  NoDup (obs_tgts es) → h ∈ es → h' ∈ es → sh_eff h = Observe → sh_eff h' = Observe → sh_loc h = sh_loc h' → h = h'.
Proof.
  intros Hnd Hh Hh' Ho Ho' Hl. induction es as [|g es IH]; [by apply elem_of_nil in Hh|].
  unfold obs_tgts in Hnd. simpl in Hnd.
  apply elem_of_cons in Hh as [->|Hh]; apply elem_of_cons in Hh' as [->|Hh']; [done| | |].
  - unfold obs_tgt at 1 in Hnd. rewrite decide_True in Hnd by done. apply NoDup_cons in Hnd as [Hn _].
    destruct Hn. rewrite Hl. by apply obs_tgts_elem.
  - unfold obs_tgt at 1 in Hnd. rewrite decide_True in Hnd by done. apply NoDup_cons in Hnd as [Hn _].
    destruct Hn. rewrite <- Hl. by apply obs_tgts_elem.
  - apply IH; [|done..]. destruct (obs_tgt g); [by apply NoDup_cons in Hnd as [_ ?]|done].
Qed.

(** ** Re-binding a location to different content, followed by dirtying *)
Inductive rebound : node → node → Prop :=
  | reb_mut t ps v v' : rebound (NMut t ps v) (NMut t ps v')
  | reb_comp c a : rebound (NComp c) (NComp (with_res None (with_arg a c))).

Lemma rebound_preds nd nd' : rebound nd nd' → node_preds nd' = node_preds nd.
Proof. by intros []. Qed.

Definition set_store (σ : store) (p : dstate) : dstate := DState σ (d_seen p) (d_done p) (d_full p) (d_map p).

Lemma R_rebind r0 stk p s l nd nd' s0 s' :
  (stk = [] → o_tab r0 = None) → content_of nd' ≠ content_of nd →
  R r0 stk p s → table s !! l = Some nd → rebound nd nd' → l ∉ d_seen p → is_struct l = false →
  table s0 = <[l := nd']> (table s) → stack s0 = stack s → purity s0 = purity s → runs s0 = runs s →
  dalloc_post s0 s' l → dirty_reach s0 s' l → dalloc_reach s0 s' l →
  R r0 stk (d_write stk l (content_of nd') p) s' ∧ evo stk p (table s) (table s').
Proof.
  intros Hor Hcdiff HR Hl Hreb Hseen Hnst Htb Hstk Hpur Hrun [Hle Hup Hsafe] Hreach Hareach.
  set (p' := d_write stk l (content_of nd') p).
  assert (∀ z, z ∈ d_seen p → z ∈ d_seen p') as Hseen'. { intros z Hz. unfold p', d_write. simpl. destruct stk; [done|set_solver]. }
  destruct HR as [Ropt Rinv Rstore Rsub Rnodup Rseen Rwf Rdone Rframe Rfnodup Rruns Rjust].
  assert (d_le p p') as Hdle.
  { split; [exact Hseen'|done|]. intros z Hz. simpl. rewrite lookup_insert_ne; [done|]. by intros ->. }
  (* the nodes of s' *)
  assert (∀ x nx, x ≠ l → table s !! x = Some nx → ∃ nx', table s' !! x = Some nx' ∧ node_le nx nx') as Hoth.
  { intros x nx Hne Hx. apply (bl_node _ _ Hle). rewrite Htb. by rewrite lookup_insert_ne. }
  assert (∃ nl, table s' !! l = Some nl ∧ node_le nd' nl) as (nl & Hnl & Hnll).
  { apply (bl_node _ _ Hle). rewrite Htb. by rewrite lookup_insert. }
  assert (∀ x nx', table s' !! x = Some nx' → (x = l ∧ nx' = nl) ∨ (x ≠ l ∧ ∃ nx, table s !! x = Some nx ∧ node_le nx nx')) as Hinv.
  { intros x nx' Hx'. destruct (decide (x = l)) as [->|]; [left; split; [done|congruence]|right].
    split; [done|]. destruct (bl_node' _ _ Hle _ _ Hx') as (nx & Hx & ?).
    rewrite Htb, lookup_insert_ne in Hx by done. eauto. }
  assert (∀ q eff tgt, nbit s0 q eff tgt = nbit s q eff tgt) as Hnb.
  { intros q eff tgt. unfold nbit. rewrite Htb. destruct (decide (q = l)) as [->|].
    - rewrite lookup_insert, Hl. by destruct Hreb.
    - by rewrite lookup_insert_ne. }
  assert (∀ y ny, table s0 !! y = Some ny → ∃ ny0, table s !! y = Some ny0 ∧ node_preds ny = node_preds ny0) as Hpr0.
  { intros y ny Hy. rewrite Htb in Hy. destruct (decide (y = l)) as [->|].
    - rewrite lookup_insert in Hy. injection Hy as <-. exists nd. split; [done|by apply rebound_preds].
    - rewrite lookup_insert_ne in Hy by done. eauto. }
  (* computation nodes of s' come from computation nodes of s with the same shapes *)
  assert (∀ q c', table s' !! q = Some (NComp c') → ∃ c, table s !! q = Some (NComp c) ∧
     shape <$> c_succs c' = shape <$> c_succs c ∧
     c_ty c' = c_ty c ∧ c_pp c' = c_pp c ∧ c_spur c' = c_spur c ∧ c_preds c' = c_preds c ∧
     (q ≠ l → c_arg c' = c_arg c ∧ c_res c' = c_res c) ∧ (q = l → c_res c' = None) ∧
     (∀ eff tgt, bit eff tgt (c_succs c') = Some false → bit eff tgt (c_succs c) = Some false) ∧
     (∀ eff tgt, bit eff tgt (c_succs c) = Some false → bit eff tgt (c_succs c') = Some false ∨ newly s0 s' q eff tgt)) as Hcomp.
  { intros q c' Hq. 
    assert (∀ c, table s !! q = Some (NComp c) → shape <$> c_succs c' = shape <$> c_succs c →
      (∀ eff tgt, bit eff tgt (c_succs c) = Some true → bit eff tgt (c_succs c') = Some true) →
      (∀ eff tgt, bit eff tgt (c_succs c') = Some false → bit eff tgt (c_succs c) = Some false) ∧
      (∀ eff tgt, bit eff tgt (c_succs c) = Some false → bit eff tgt (c_succs c') = Some false ∨ newly s0 s' q eff tgt)) as Haux.
    { intros c Hc Hsh Hb. split; intros eff tgt Hb'.
      - assert (is_Some (bit eff tgt (c_succs c))) as [[] Hb2].
        { apply (bit_shapes _ _ (c_succs c')); [done|by rewrite Hb']. }
        + apply Hb in Hb2. congruence.
        + done.
      - assert (is_Some (bit eff tgt (c_succs c'))) as [[] Hb2].
        { apply (bit_shapes _ _ (c_succs c)); [done|by rewrite Hb']. }
        + right. unfold newly. rewrite Hnb. unfold nbit. rewrite Hc, Hq. split; [congruence|done].
        + by left. }
    destruct (Hinv _ _ Hq) as [[-> <-]|(Hne & nx & Hx & Hn)].
    - apply node_le_comp' in Hnll as (c0 & -> & Heq & Hsh & Hb). inversion Hreb as [|c a]; subst.
      exists c. simpl in *. destruct (Haux c Hl Hsh Hb) as [H1 H2].
      split_and!; try done; by rewrite Heq.
    - apply node_le_comp' in Hn as (c & -> & Heq & Hsh & Hb). exists c.
      destruct (Haux c Hx Hsh Hb) as [H1 H2].
      split_and!; try done; by rewrite Heq. }
  assert (facts_le (table s) (table s')) as Hfacts.
  { intros x nx Hx. destruct (decide (x = l)) as [->|Hne].
    - exists nl. split; [done|]. simplify_eq. eapply facts_node_trans; [|by apply node_le_facts].
      destruct Hreb; simpl; [done|]. split_and!; [done..|]. by rewrite Hnst.
    - destruct (Hoth _ _ Hne Hx) as (nx' & ? & ?). exists nx'. split; [done|by apply node_le_facts]. }
  assert (∀ q, q ∈ d_done p → q ≠ l) as Hdl.
  { intros q Hq ->. by destruct (Rdone _ Hq) as [? _]. }
  (* settled locations stay untouched *)
  assert (∀ q eff tgt, newly s0 s' q eff tgt →
     ¬ settled p q ∧ ((eff = Observe ∧ ¬ settled p tgt) ∨ (eff = Allocate ∧ tgt = l))) as Hsettled.
  { apply Hsafe.
    - intros y ny pr Hy Hpr Heff Hset. destruct (Hpr0 _ _ Hy) as (ny0 & Hy0 & Hpp). rewrite Hpp in Hpr.
      destruct (i_predinv _ _ _ _ Rinv _ _ _ Hy0 Hpr) as (c & e & Hc & He & <- & Hee & _).
      destruct Hset as [Hd|(_ & t & v & Hst)].
      + destruct (Rdone _ Hd) as (_ & _ & c1 & w & Hc1 & _ & _ & Hp). simplify_eq.
        specialize (Hp _ He). unfold prot in Hp. simpl in Hp. unfold sh_eff in Hp. simpl in Hp.
        rewrite Hee, Heff in Hp. done.
      + rewrite <- Rstore, contents_lookup, Hc in Hst. done.
    - intros [Hd|[? _]]; [by apply (Hdl l)|done].
    - intros n0 pr Hl0 Hpr Heff Hset. destruct (Hpr0 _ _ Hl0) as (ny0 & Hy0 & Hpp). rewrite Hpp in Hpr.
      destruct (i_predinv _ _ _ _ Rinv _ _ _ Hy0 Hpr) as (c & e & Hc & He & Hel & Hee & _).
      destruct Hset as [Hd|(_ & t & v & Hst)].
      + destruct (Rdone _ Hd) as (_ & _ & c1 & w & Hc1 & _ & _ & Hp). simplify_eq.
        specialize (Hp _ He). unfold prot in Hp. simpl in Hp. unfold sh_eff, sh_loc in Hp. simpl in Hp.
        rewrite Hee, Heff in Hp. done.
      + rewrite <- Rstore, contents_lookup, Hc in Hst. done. }
  assert (∀ q eff tgt, newly s0 s' q eff tgt → ¬ (opt = true ∧ is_struct q = true)) as Hstructs.
  { intros q eff tgt Hn.
    destruct (Hsafe (λ q, opt = true ∧ is_struct q = true)) with q eff tgt as [? _]; [|by rewrite Hnst; intros []| |done|done].
    - intros y ny pr Hy Hpr Heff [Ho Hst]. destruct (Hpr0 _ _ Hy) as (ny0 & Hy0 & Hpp). rewrite Hpp in Hpr.
      destruct (i_predinv _ _ _ _ Rinv _ _ _ Hy0 Hpr) as (c & e & Hc & He & <- & Hee & _).
      split; [done|]. by eapply (i_struct _ _ _ _ Rinv).
    - intros n0 pr Hl0 Hpr Heff [Ho Hst]. destruct (Hpr0 _ _ Hl0) as (ny0 & Hy0 & Hpp). rewrite Hpp in Hpr.
      destruct (i_predinv _ _ _ _ Rinv _ _ _ Hy0 Hpr) as (c & e & Hc & He & Hel & Hee & _).
      destruct (i_struct _ _ _ _ Rinv _ _ _ Ho Hst Hc He) as [Hs _]. congruence. }
  assert (∀ q c c', q ∈ d_done p → table s !! q = Some (NComp c) → table s' !! q = Some (NComp c') →
     all_clean (c_succs c) → all_clean (c_succs c')) as Hdoneclean.
  { intros q c c' Hq Hc Hc' Hac e He. destruct (Hcomp _ _ Hc') as (c1 & Hc1 & Hsh & _ & _ & _ & _ & _ & _ & _ & Hb).
    simplify_eq. destruct (shapes_elem _ _ e Hsh He) as (e1 & He1 & Hs1).
    apply shape_eq in Hs1 as (E1 & E2 & E3). specialize (Hac _ He1). rewrite E1, E2 in Hac.
    destruct (Hb _ _ Hac) as [?|Hn]; [done|]. destruct (Hsettled _ _ _ Hn) as [Hns _]. destruct Hns. by left. }
  assert (stack s' = stack s) as Hstk' by (by rewrite (bl_stack _ _ Hle)).
  split.
  2:{ split; [done|]. intros q c Hq Hc. destruct (decide (q = l)) as [->|Hne].
      { by destruct Hseen; apply Rseen. }
      destruct (Hoth _ _ Hne Hc) as (nq & Hq' & Hn). apply node_le_comp in Hn as (c' & -> & _).
      destruct (Hcomp _ _ Hq') as (c1 & Hc1 & Hsh & _ & _ & _ & _ & Har & _ & _ & Hb). simplify_eq.
      exists c'. split_and!; [done|by apply Har|done|]. intros e He Hp Hbe.
      destruct (Hb _ _ Hbe) as [?|Hn]; [done|].
      destruct (Hsettled _ _ _ Hn) as [_ [[Heff Hns]|[Heff Hns]]];
      unfold prot in Hp; unfold sh_eff, sh_loc in Hp; simpl in Hp; rewrite Heff in Hp; [done|].
      rewrite Hns in Hp. done. }
  split.
  - by rewrite (bl_purity _ _ Hle), Hpur.
  - rewrite Hstk'. split.
    + (* kind *)
      intros x nx' Hx'. destruct (Hinv _ _ Hx') as [[-> ->]|(Hne & nx & Hx & Hn)].
      * destruct nl; rewrite ?Hnst; [by intros []| |done].
        exfalso. destruct Hreb; simpl in Hnll; done.
      * assert (Hk := i_kind _ _ _ _ Rinv _ _ Hx). destruct nx, nx'; simpl in Hn; done.
    + (* edge *)
      intros q c' e Hq He. destruct (Hcomp _ _ Hq) as (c & Hc & Hsh & _).
      destruct (shapes_elem _ _ e Hsh He) as (e1 & He1 & Hs1). rewrite <- Hs1.
      destruct (i_edge _ _ _ _ Rinv _ _ _ Hc He1) as [? ?]. split; [by eapply wfe_facts|].
      by apply shape_eq in Hs1 as (<- & _).
    + (* valid *)
      intros q c' e Hq He Hbit. destruct (Hcomp _ _ Hq) as (c & Hc & Hsh & _ & _ & _ & _ & _ & _ & Hb & _).
      destruct (shapes_elem _ _ e Hsh He) as (e1 & He1 & Hs1).
      apply shape_eq in Hs1 as Hs2. destruct Hs2 as (E1 & E2 & E3).
      assert (bit (s_eff e1) (s_loc e1) (c_succs c) = Some false) as Hbit1.
      { rewrite E1, E2. by apply Hb. }
      assert (Hv := i_valid _ _ _ _ Rinv _ _ _ Hc He1 Hbit1).
      destruct (i_edge _ _ _ _ Rinv _ _ _ Hc He1) as [Hw Hne1].
      destruct (wfe_exists _ _ Hw) as (ny & Hny & Htrk).
      assert (Hpred := i_pred _ _ _ _ Rinv _ _ _ _ Hc He1 Hny).
      assert (nbit s' q (s_eff e1) (s_loc e1) ≠ Some true) as Hnt.
      { unfold nbit. rewrite Hq, E1, E2, Hbit. done. }
      rewrite <- Hs1. unfold sh_loc in Hny. simpl in Hny.
      unfold valid, wfe in *. simpl in *. unfold sh_loc, sh_eff in *. simpl in *.
      destruct (decide (s_loc e1 = l)) as [El|Hnel].
      * (* the edited location *)
        rewrite El in *. rewrite Hl in Hny. injection Hny as <-.
        assert (table s0 !! l = Some nd') as Hl0 by (by rewrite Htb, lookup_insert).
        rewrite <- (rebound_preds _ _ Hreb) in Hpred.
        destruct (s_dep e1) as [t w|t f w| | |a|w] eqn:Ed; simpl in *.
        -- destruct Hw as [Heff _]. rewrite Heff in *. destruct Hnt.
           apply (Hreach _ _ Hl0 Hpred eq_refl). unfold pred_hot. simpl. by destruct nd'.
        -- destruct Hw as (Heff & ps & v & Hw). rewrite Hl in Hw. injection Hw as ->.
           inversion Hreb; subst. simpl in *. rewrite Hl in Hv. apply node_le_mut in Hnll as ->. rewrite Hnl.
           destruct (decide (w = f v')) as [->|Hnw]; [done|]. destruct Hnt. rewrite Heff in *.
           by apply (Hreach _ _ Hl0 Hpred eq_refl).
        -- done.
        -- done.
        -- destruct Hw as (Heff & _). rewrite Heff in *. destruct Hnt. by apply (Hareach _ _ Hl0 Hpred eq_refl).
        -- destruct Hw as (Heff & _). rewrite Heff in *. destruct Hnt. by apply (Hareach _ _ Hl0 Hpred eq_refl).
      * destruct (Hoth _ _ Hnel Hny) as (ny' & Hny' & Hn). rewrite Hny in Hv. rewrite Hny'.
        destruct (s_dep e1) as [t w|t f w| | |a|w] eqn:Ed; simpl in *.
        -- destruct ny as [t1 ps1 v1| |cy]; [by apply node_le_mut in Hn as ->|done|].
           apply node_le_comp in Hn as (cy' & -> & Heq & Hshy & Hby).
           destruct Hv as (Hres & Hac & Hnf). rewrite Heq. simpl. split_and!; [done| |done].
           intros e2 He2. destruct (shapes_elem _ _ e2 Hshy He2) as (e3 & He3 & Hs3).
           apply shape_eq in Hs3 as (F1 & F2 & F3). specialize (Hac _ He3). rewrite F1, F2 in Hac.
           destruct (Hcomp _ _ Hny') as (cy1 & Hcy1 & _ & _ & _ & _ & _ & _ & _ & _ & Hbb). simplify_eq.
           destruct (Hbb _ _ Hac) as [?|Hnew]; [done|]. exfalso. destruct Hw as [Hweff _].
           rewrite Hweff in Hpred, Hnt. destruct Hnt.
           assert (Hpred' : Pred q Observe None ∈ node_preds (NComp cy')) by (simpl; by rewrite Heq).
           apply (Hup _ _ _ Hnew _ _ Hny' Hpred' eq_refl).
        -- destruct ny as [t1 ps1 v1| |cy]; [|done..]. by apply node_le_mut in Hn as ->.
        -- done.
        -- done.
        -- destruct ny as [t1 ps1 v1| |cy]; [done..|]. apply node_le_comp in Hn as (cy' & -> & -> & _). done.
        -- destruct ny as [t1 ps1 v1| |cy]; [|done..]. by apply node_le_mut in Hn as ->.
    + (* pred *)
      intros q c' e ny' Hq He Hy'. destruct (Hcomp _ _ Hq) as (c & Hc & Hsh & _).
      destruct (shapes_elem _ _ e Hsh He) as (e1 & He1 & Hs1).
      apply shape_eq in Hs1 as (E1 & E2 & E3). rewrite <- E1, <- E2, <- E3 in *.
      destruct (Hinv _ _ Hy') as [[El ->]|(Hne & ny & Hy & Hn)].
      * rewrite (node_le_preds _ _ Hnll), (rebound_preds _ _ Hreb). eapply (i_pred _ _ _ _ Rinv); [done..|]. by rewrite El.
      * rewrite (node_le_preds _ _ Hn). by eapply (i_pred _ _ _ _ Rinv).
    + (* predinv *)
      intros x nx' pr Hx' Hpr.
      assert (∃ nx, table s !! x = Some nx ∧ pr ∈ node_preds nx) as (nx & Hx & Hprx).
      { destruct (Hinv _ _ Hx') as [[-> ->]|(Hne & ny & Hy & Hn)].
        - exists nd. split; [done|]. by rewrite <- (rebound_preds _ _ Hreb), <- (node_le_preds _ _ Hnll).
        - exists ny. split; [done|]. by rewrite <- (node_le_preds _ _ Hn). }
      destruct (i_predinv _ _ _ _ Rinv _ _ _ Hx Hprx) as (c & e & Hc & He & <- & Hee & Hd).
      destruct (Hfacts _ _ Hc) as ([| |c'] & Hc' & Hfn); [done..|].
      destruct (Hcomp _ _ Hc') as (c1 & Hc1 & Hsh & _). simplify_eq.
      destruct (shapes_elem _ _ e (eq_sym Hsh) He) as (e1 & He1 & Hs1).
      apply shape_eq in Hs1 as (E1 & E2 & E3). exists c', e1. rewrite E1, E2, E3. done.
    + intros q c' Hq. destruct (Hcomp _ _ Hq) as (c & Hc & -> & _). by eapply (i_nodup _ _ _ _ Rinv).
    + intros q Hq. destruct (i_frame _ _ _ _ Rinv _ Hq) as (c & Hc & Hsu & Hres).
      assert (q ≠ l) as Hne. { intros ->. by apply Hseen, Rseen, Rsub. }
      destruct (Hoth _ _ Hne Hc) as (nq & Hq' & Hn). apply node_le_comp in Hn as (c' & -> & Heq & Hsh & _).
      exists c'. split; [done|]. rewrite Heq. simpl. split; [|done].
      rewrite Hsu in Hsh. by apply fmap_nil_inv in Hsh.
    + intros q c' v Hq Hnf Hres. destruct (Hcomp _ _ Hq) as (c & Hc & Hsh & _ & Epp & Esp & _ & Har & Hln & _).
      destruct (decide (q = l)) as [->|Hne]; [by rewrite Hln in Hres by done|].
      destruct (Har Hne) as [-> Er]. rewrite Epp, Esp, Hsh. eapply tr_mono; [done|].
      eapply (i_tr _ _ _ _ Rinv); [done..|]. congruence.
    + intros q c' e Ho Hst Hq He. destruct (Hcomp _ _ Hq) as (c & Hc & Hsh & _ & _ & _ & _ & _ & _ & _ & Hb).
      destruct (shapes_elem _ _ e Hsh He) as (e1 & He1 & Hs1).
      apply shape_eq in Hs1 as (E1 & E2 & E3). rewrite <- E1, <- E2.
      destruct (i_struct _ _ _ _ Rinv _ _ _ Ho Hst Hc He1) as [? Hb1]. split; [done|].
      destruct (Hb _ _ Hb1) as [?|Hn]; [done|]. by destruct (Hstructs _ _ _ Hn).
    + eapply acyc_sub; [|apply (i_acyc _ _ _ _ Rinv)]. intros q y (c' & e & Hq & He & Ho & <-).
      destruct (Hcomp _ _ Hq) as (c & Hc & Hsh & _). destruct (shapes_elem _ _ e Hsh He) as (e1 & He1 & Hs1).
      apply shape_eq in Hs1 as (E1 & E2 & E3). exists c, e1. split_and!; congruence.
    + intros q c' y Hq Hys Hby. destruct (Hcomp _ _ Hq) as (c & Hc & Hsh & _ & _ & _ & _ & _ & _ & _ & Hb).
      assert (is_Some (bit Allocate y (c_succs c))) as [[] Hb2] by (apply (bit_shapes _ _ (c_succs c')); [done|by rewrite Hby]).
      { by apply (i_sbit _ _ _ _ Rinv _ _ _ Hc Hys). }
      destruct (Hb _ _ Hb2) as [?|Hn]; [congruence|]. destruct (Hsettled _ _ _ Hn) as [_ [[? _]|[_ ->]]]; [done|].
      by rewrite Hnst in Hys.
  - apply map_eq. intros x. rewrite contents_lookup. simpl. destruct (decide (x = l)) as [->|Hne].
    + rewrite Hnl, lookup_insert. simpl. f_equal. by apply node_le_content.
    + rewrite lookup_insert_ne by done. rewrite <- Rstore, contents_lookup.
      destruct (table s !! x) as [nx|] eqn:Ex.
      * destruct (Hoth _ _ Hne Ex) as (nx' & -> & Hn). simpl. f_equal. by apply node_le_content.
      * destruct (table s' !! x) as [nx'|] eqn:Ex'; [|done].
        destruct (Hinv _ _ Ex') as [[? ?]|(_ & nx & ? & ?)]; [done|congruence].
  - by rewrite Hstk'.
  - by rewrite Hstk'.
  - auto.
  - intros z Hz. unfold p', d_write in *. simpl in *. destruct (decide (z = l)) as [->|]; [rewrite lookup_insert; eauto|].
    rewrite lookup_insert_ne by done. apply Rwf. destruct stk; [done|set_solver].
  - intros x Hx. simpl in Hx. destruct (Rdone _ Hx) as (Hxs & Hxk & c & w & Hc & Hres & Hac & Hp).
    split; [by apply Hseen'|]. split; [by rewrite Hstk'|].
    destruct (Hoth _ _ (Hdl _ Hx) Hc) as (nq & Hq' & Hn). apply node_le_comp in Hn as (c' & -> & Heq & Hsh & _).
    exists c', w. split; [done|]. split; [by rewrite Heq|]. split; [by eapply Hdoneclean|].
    intros e He. destruct (shapes_elem _ _ e Hsh He) as (e1 & He1 & <-). eapply prot_le; [done|by apply Hp].
  - rewrite Hstk'. intros f e pd Hf He. destruct (Rframe _ _ _ Hf He) as [Hcl Hpd Hw Hv Hp Hne Hst].
    split; [done|done|by eapply wfe_facts| |by eapply prot_le|done|done].
    unfold valid, prot in *. unfold sh_loc, sh_eff, sh_dep in *. simpl in *.
    assert (s_loc e ∈ d_seen p) as Hse.
    { destruct (s_eff e); [|done]. destruct Hp as [Hd|[? _]]; [by apply Rdone|done]. }
    assert (s_loc e ≠ l) as Hnel by (by intros Heq; rewrite Heq in Hse).
    destruct (wfe_exists _ _ Hw) as (ny & Hny & Htrk). unfold sh_loc in Hny. simpl in Hny.
    destruct (Hoth _ _ Hnel Hny) as (ny' & Hny' & Hn). rewrite Hny in Hv. rewrite Hny'.
    destruct (s_dep e) as [t w|t f' w| | |a|w] eqn:Ed; simpl in *; try done.
    + destruct ny as [t1 ps1 v1| |cy]; [by apply node_le_mut in Hn as ->|done|].
      apply node_le_comp in Hn as (cy' & -> & Heq & Hshy & Hby).
      destruct Hv as (Hres & Hac & Hnf). rewrite Heq. simpl. split_and!; [done| |done].
      eapply Hdoneclean; [|done|done|done].
      unfold wfe, sh_dep, sh_eff in Hw. simpl in Hw. rewrite Ed in Hw. destruct Hw as [Heff _].
      rewrite Heff in Hp. destruct Hp as [?|(_ & t0 & v0 & Hs0)]; [done|].
      rewrite <- Rstore, contents_lookup, Hny in Hs0. done.
    + destruct ny as [t1 ps1 v1| |cy]; [|done..]. by apply node_le_mut in Hn as ->.
    + destruct ny as [t1 ps1 v1| |cy]; [done..|]. apply node_le_comp in Hn as (cy' & -> & -> & _). done.
    + destruct ny as [t1 ps1 v1| |cy]; [|done..]. by apply node_le_mut in Hn as ->.
  - by rewrite Hstk'.
  - rewrite Hstk', (bl_runs _ _ Hle), Hrun. done.
  - intros tb0 Ho. destruct (Rjust _ Ho) as (rs & Hrs & HJ). exists rs. rewrite Hstk', (bl_runs _ _ Hle), Hrun. split; [done|].
    assert (l ∈ d_seen p') as Hlp'. { unfold p', d_write. simpl. destruct stk; [by rewrite Hor in Ho|set_solver]. }
    assert (chg tb0 p' l) as Hchg.
    { split; [done|]. unfold p', d_write. simpl. rewrite lookup_insert. rewrite <- (J_unseen _ _ _ _ _ HJ) by done.
      rewrite <- Rstore, contents_lookup, Hl. simpl. congruence. }
    eapply J_step; [done|done| | | | |done].
    + intros y Hy. unfold p', d_write. simpl. rewrite lookup_insert_ne; [done|]. by intros <-.
    + intros x c Hx Hc. destruct (decide (x = l)) as [->|Hne]; [by left|right].
      destruct (Hoth _ _ Hne Hc) as (nx' & Hx' & Hn). apply node_le_comp in Hn as (c' & -> & _).
      destruct (Hcomp _ _ Hx') as (c1 & Hc1 & Hsh & _ & _ & _ & _ & Hsame & _ & Hb0 & Hb). simplify_eq.
      exists c'. split; [done|]. split; [by apply Hsame|]. split; [done|]. split.
      2:{ intros y _ Hy. assert (is_Some (bit Allocate y (c_succs c'))) as [[] Hb2] by (apply (bit_shapes _ _ (c_succs c)); [done|by rewrite Hy]); [done|].
          apply Hb0 in Hb2. congruence. }
      intros y Hy.
      assert (is_Some (bit Allocate y (c_succs c))) as [[] Hb2] by (apply (bit_shapes _ _ (c_succs c')); [done|by rewrite Hy]); [by left|].
      destruct (Hb _ _ Hb2) as [?|Hn]; [congruence|]. destruct (Hsettled _ _ _ Hn) as [_ [[? _]|[_ ->]]]; [done|by right].
    + intros x c' Hx Hx' Hres. destruct (Hcomp _ _ Hx') as (c1 & Hc1 & _ & _ & _ & _ & _ & Hsame & Hln & _).
      destruct (decide (x = l)) as [->|Hne]; [by destruct Hres; apply Hln|]. destruct (Hsame Hne) as [_ Hr]. exists c1. split; [done|]. split; [congruence|].
      unfold p', d_write. simpl. by rewrite lookup_insert_ne.
    + intros y Hy. assert (y ≠ l) as Hne. { intros ->. destruct Hy as [?%Hdl|[? _]]; done. }
      unfold yields. destruct (table s !! y) as [ny|] eqn:Ey.
      * destruct (Hoth _ _ Hne Ey) as (ny' & -> & Hn). destruct ny as [t1 ps1 v1|t1 v1|cy]; [by apply node_le_mut in Hn as ->|simpl in Hn; by subst|apply node_le_comp in Hn as (cy' & -> & -> & _); done].
      * destruct (table s' !! y) as [ny'|] eqn:Ey'; [|done]. destruct (Hinv _ _ Ey') as [[? ?]|(_ & nx & ? & ?)]; [done|congruence].
Qed.

(** ** Changes of the specification state only *)
Lemma R_mono_p r0 stk p p' s :
  R r0 stk p s → d_store p' = d_store p → d_seen p ⊆ d_seen p' → d_wf p' → d_done p' = d_done p → R r0 stk p' s.
Proof.
  intros [Ropt Rinv Rstore Rsub Rnodup Rseen Rwf Rdone Rframe Rfnodup Rruns Rjust] Hst Hse Hwf Hdo.
  assert (d_le p p') as Hle. { split; [done|by rewrite Hdo|]. intros z Hz. by rewrite Hst. }
  split; try done.
  - congruence.
  - auto.
  - rewrite Hdo. intros x Hx. destruct (Rdone _ Hx) as (? & ? & c & w & ? & ? & ? & Hp).
    split_and!; [auto|done|]. exists c, w. split_and!; try done. intros e He. eapply prot_le; [done|auto].
  - intros f e pd Hf He. destruct (Rframe _ _ _ Hf He). split; try done. by eapply prot_le.
  - by rewrite Hdo.
  - intros tb0 Ho. destruct (Rjust _ Ho) as (rs & Hrs & HJ). exists rs. split; [done|]. by eapply J_step_p.
Qed.

(** A thunk that is clean all the way counts as evaluated. *)
Lemma R_done_add r0 stk x p p' s c w :
  R r0 (x :: stk) p s → table s !! x = Some (NComp c) → c_res c = Some w → all_clean (c_succs c) →
  (∀ e, e ∈ c_succs c → prot p (shape e)) → x ∉ frames (stack s) →
  d_store p' = d_store p → d_seen p' = d_seen p → d_done p' = {[x]} ∪ d_done p →
  R r0 stk p' s.
Proof.
  intros [Ropt Rinv Rstore Rsub Rnodup Rseen Rwf Rdone Rframe Rfnodup Rruns Rjust] Hc Hres Hac Hp Hnf Hst Hse Hdo.
  assert (d_le p p') as Hle.
  { split; [by rewrite Hse|rewrite Hdo; set_solver|]. intros z Hz. by rewrite Hst. }
  split; try done.
  - congruence.
  - intros l Hl. destruct (elem_of_cons stk l x) as [Hi _]. destruct (Hi (Rsub _ Hl)) as [->|]; done.
  - intros l Hl. rewrite Hse. apply Rseen. by right.
  - intros z Hz. rewrite Hse in Hz. rewrite Hst. by apply Rwf.
  - rewrite Hdo. intros y [->%elem_of_singleton|Hy]%elem_of_union.
    + rewrite Hse. split_and!; [apply Rseen; by left|done|]. exists c, w. split_and!; try done.
      intros e He. eapply prot_le; [done|auto].
    + destruct (Rdone _ Hy) as (? & ? & cy & wy & ? & ? & ? & Hpy). rewrite Hse.
      split_and!; [done|done|]. exists cy, wy. split_and!; try done. intros e He. eapply prot_le; [done|auto].
  - intros f e pd Hf He. destruct (Rframe _ _ _ Hf He). split; try done. by eapply prot_le.
  - destruct Rruns as (rs & ? & ? & Hrs). exists rs. split_and!; [done..|]. intros y Hy.
    destruct (Hrs _ Hy); [left|by right]. rewrite Hdo. set_solver.
  - intros tb0 Ho. destruct (Rjust _ Ho) as (rs & Hrs & HJ). exists rs. split; [done|]. by eapply J_step_p.
Qed.

(** Entering a thunk. *)
Lemma R_enter r0 stk x p s :
  R r0 stk p s → is_Some (d_store p !! x) → R r0 (x :: stk) (d_enter x p) s.
Proof.
  intros HR Hx. assert (HR' : R r0 stk (d_enter x p) s).
  { eapply R_mono_p; [done|done|simpl; set_solver| |done]. apply d_enter_wf; [done|by apply HR]. }
  destruct HR' as [Ropt Rinv Rstore Rsub Rnodup Rseen Rwf Rdone Rframe Rfnodup Rruns Rjust]. split; try done.
  - intros l Hl. right. auto.
  - intros l [->|Hl]%elem_of_cons; [simpl; set_solver|auto].
Qed.

(** ** Pushing an edge on the top frame *)
Lemma R_push r0 stk p s f fs e pd s' :
  R r0 stk p s → stack s = f :: fs → fedge (table s) (frames (stack s)) p (f_loc f) e pd →
  (s_eff e = Observe → s_loc e ∉ obs_tgts (shape <$> (f_succs f).*1)) →
  table s' = table s → stack s' = Frame (f_loc f) (f_succs f ++ [(e, pd)]) :: fs →
  purity s' = purity s → runs s' = runs s → R r0 stk p s'.
Proof.
  intros [Ropt Rinv Rstore Rsub Rnodup Rseen Rwf Rdone Rframe Rfnodup Rruns Rjust] Hstk Hfe Hnd Htb Hstk' Hpur Hrun.
  assert (frames (stack s') = frames (stack s)) as Hfr by (by rewrite Hstk', Hstk).
  split; rewrite ?Hfr, ?Htb, ?Hpur, ?Hrun; try done.
  - rewrite Hstk'. intros f0 e0 pd0 [->|Hf]%elem_of_cons; simpl.
    + rewrite elem_of_app, elem_of_list_singleton. intros [He|[= -> ->]]; [|done].
      apply Rframe; [rewrite Hstk; by left|done].
    + intros He. apply Rframe; [rewrite Hstk; by right|done].
  - rewrite Hstk'. intros f0 [->|Hf]%elem_of_cons; simpl; [|apply Rfnodup; rewrite Hstk; by right].
    rewrite !fmap_app. unfold obs_tgts in *. rewrite omap_app. simpl. unfold obs_tgt at 2.
    assert (NoDup (omap obs_tgt (shape <$> (f_succs f).*1))) as Hn by (apply Rfnodup; rewrite Hstk; by left).
    unfold sh_eff, sh_loc. simpl. destruct (decide (s_eff e = Observe)) as [Ho|]; [|by rewrite app_nil_r].
    apply NoDup_app. split_and!; [done| |apply NoDup_singleton].
    intros y Hy ->%elem_of_list_singleton. by apply Hnd.
Qed.

(** ** Nodes that agree on everything validity looks at *)
Definition vle (nd nd' : node) : Prop :=
  match nd, nd' with
  | NMut t _ v, NMut t' _ v' => t' = t ∧ v' = v
  | NPure t v, NPure t' v' => t' = t ∧ v' = v
  | NComp c, NComp c' => c_ty c' = c_ty c ∧ c_pp c' = c_pp c ∧ c_spur c' = c_spur c ∧ c_arg c' = c_arg c ∧
      c_res c' = c_res c ∧ (all_clean (c_succs c) → all_clean (c_succs c'))
  | _, _ => False
  end.
Lemma vle_refl nd : vle nd nd.
Proof. destruct nd; simpl; auto 10. Qed.
Lemma vle_facts x nd nd' : vle nd nd' → facts_node x nd nd'.
Proof. destruct nd, nd'; simpl; try naive_solver. intros (? & ? & ? & ? & -> & ?). auto. Qed.
Lemma vle_content nd nd' : vle nd nd' → content_of nd' = content_of nd.
Proof. destruct nd, nd'; simpl; try done; intros; destruct_and?; congruence. Qed.
Lemma valid_vle tb tb' frs frs' h :
  (∀ nd, tb !! sh_loc h = Some nd → ∃ nd', tb' !! sh_loc h = Some nd' ∧ vle nd nd') →
  (sh_loc h ∉ frs → sh_loc h ∉ frs') → valid tb frs h → valid tb' frs' h.
Proof.
  intros Hv Hf. unfold valid. destruct (tb !! sh_loc h) as [nd|] eqn:E.
  - destruct (Hv nd eq_refl) as (nd' & -> & Hn).
    destruct (sh_dep h), nd, nd'; simpl in Hn; try done; intros; destruct_and?;
      split_and?; first [congruence|auto].
  - by destruct (sh_dep h).
Qed.
Lemma valid_frs_alloc tb frs frs' h : sh_eff h = Allocate → wfe tb h → valid tb frs h → valid tb frs' h.
Proof. unfold wfe, valid. destruct (sh_dep h); intros; destruct_and?; first [congruence|done]. Qed.

(** ** A fresh location *)
Inductive fresh_node (l : loc) : node → Prop :=
  | fresh_mut t v : ¬ (opt = true ∧ is_struct l = true) → fresh_node l (NMut t [] v)
  | fresh_pure t v : opt = true → is_struct l = true → fresh_node l (NPure t v)
  | fresh_comp t pp arg spur : fresh_node l (NComp (CompNode t [] [] pp arg spur None)).

Lemma facts_fresh tb l nd : tb !! l = None → facts_le tb (<[l := nd]> tb).
Proof.
  intros Hl x nx Hx. exists nx. split; [|apply facts_node_refl]. rewrite lookup_insert_ne; [done|]. intros ->; congruence.
Qed.

Lemma R_fresh r0 stk p s l nd s' :
  (stk = [] → o_tab r0 = None) → R r0 stk p s → table s !! l = None → fresh_node l nd →
  table s' = <[l := nd]> (table s) → stack s' = stack s → purity s' = purity s → runs s' = runs s →
  R r0 stk (d_write stk l (content_of nd) p) s' ∧ evo stk p (table s) (table s').
Proof.
  intros Hor HR Hl Hfr Htb Hstk Hpur Hrun. set (p' := d_write stk l (content_of nd) p).
  assert (∀ z, z ∈ d_seen p → z ∈ d_seen p') as Hseen'. { intros z Hz. unfold p', d_write. simpl. destruct stk; [done|set_solver]. }
  destruct HR as [Ropt Rinv Rstore Rsub Rnodup Rseen Rwf Rdone Rframe Rfnodup Rruns Rjust].
  assert (d_store p !! l = None) as Hls by (by rewrite <- Rstore, contents_lookup, Hl).
  assert (l ∉ d_seen p) as Hseen. { intros [ct Hct]%Rwf. congruence. }
  assert (d_le p p') as Hdle.
  { split; [exact Hseen'|done|]. intros z Hz. simpl. rewrite lookup_insert_ne; [done|]. by intros ->. }
  assert (∀ x nx, table s !! x = Some nx → table s' !! x = Some nx) as Hold.
  { intros x nx Hx. rewrite Htb, lookup_insert_ne; [done|]. intros ->; congruence. }
  assert (∀ x nx, table s' !! x = Some nx → (x = l ∧ nx = nd) ∨ table s !! x = Some nx) as Hinv.
  { intros x nx Hx. rewrite Htb in Hx. apply lookup_insert_Some in Hx as [[? ?]|[? ?]]; auto. }
  assert (∀ x c, table s' !! x = Some (NComp c) → (c_succs c = [] ∧ c_preds c = [] ∧ c_res c = None) ∨ table s !! x = Some (NComp c)) as Hcomp.
  { intros x c Hx. destruct (Hinv _ _ Hx) as [[-> Hn]|?]; [left|by right]. subst. by inversion Hfr. }
  assert (node_preds nd = []) as Hnp by by destruct Hfr.
  assert (facts_le (table s) (table s')) as Hfacts by (rewrite Htb; by apply facts_fresh).
  assert (∀ h, wfe (table s) h → valid (table s) (frames (stack s)) h → valid (table s') (frames (stack s)) h) as Hval.
  { intros h Hw. eapply valid_vle; [|done]. intros ny Hy. exists ny. split; [by apply Hold|apply vle_refl]. }
  split.
  2:{ split; [done|]. intros q c Hq Hc. exists c. split; [by apply Hold|auto]. }
  split; rewrite ?Hstk, ?Hpur, ?Hrun; try done.
  - split.
    + intros x nx Hx. destruct (Hinv _ _ Hx) as [[-> ->]|Hx']; [|by eapply (i_kind _ _ _ _ Rinv)].
      by destruct Hfr.
    + intros q c e Hq He. destruct (Hcomp _ _ Hq) as [(E & _)|Hc]; [rewrite E in He; by apply elem_of_nil in He|].
      destruct (i_edge _ _ _ _ Rinv _ _ _ Hc He). split; [by eapply wfe_facts|done].
    + intros q c e Hq He Hb. destruct (Hcomp _ _ Hq) as [(E & _)|Hc]; [rewrite E in He; by apply elem_of_nil in He|].
      destruct (i_edge _ _ _ _ Rinv _ _ _ Hc He). apply Hval; [done|]. by eapply (i_valid _ _ _ _ Rinv).
    + intros q c e ny Hq He Hy. destruct (Hcomp _ _ Hq) as [(E & _)|Hc]; [rewrite E in He; by apply elem_of_nil in He|].
      destruct (i_edge _ _ _ _ Rinv _ _ _ Hc He) as [Hw _]. destruct (wfe_exists _ _ Hw) as (ny0 & Hny & _).
      unfold sh_loc in Hny. simpl in Hny. rewrite (Hold _ _ Hny) in Hy. simplify_eq. by eapply (i_pred _ _ _ _ Rinv).
    + intros x nx pr Hx Hpr. destruct (Hinv _ _ Hx) as [[-> ->]|Hx']; [rewrite Hnp in Hpr; by apply elem_of_nil in Hpr|].
      destruct (i_predinv _ _ _ _ Rinv _ _ _ Hx' Hpr) as (c & e & Hc & ?). exists c, e. split; [by apply Hold|done].
    + intros q c Hq. destruct (Hcomp _ _ Hq) as [(E & _)|Hc]; [rewrite E; apply NoDup_nil_2|].
      by eapply (i_nodup _ _ _ _ Rinv).
    + intros q Hq. destruct (i_frame _ _ _ _ Rinv _ Hq) as (c & Hc & ?). exists c. split; [by apply Hold|done].
    + intros q c v Hq Hnf Hres. destruct (Hcomp _ _ Hq) as [(_ & _ & E)|Hc]; [congruence|].
      eapply tr_mono; [done|]. by eapply (i_tr _ _ _ _ Rinv).
    + intros q c e Ho Hst Hq He. destruct (Hcomp _ _ Hq) as [(E & _)|Hc]; [rewrite E in He; by apply elem_of_nil in He|].
      by eapply (i_struct _ _ _ _ Rinv).
    + eapply acyc_sub; [|apply (i_acyc _ _ _ _ Rinv)]. intros q y (c & e & Hq & He & Ho & <-).
      destruct (Hcomp _ _ Hq) as [(E & _)|Hc]; [rewrite E in He; by apply elem_of_nil in He|]. exists c, e. done.
    + intros q c y Hq Hys Hb. destruct (Hcomp _ _ Hq) as [(E & _)|Hc]; [by rewrite E in Hb|]. by apply (i_sbit _ _ _ _ Rinv _ _ _ Hc Hys).
  - rewrite Htb. unfold contents. rewrite fmap_insert. simpl. by rewrite <- Rstore.
  - auto.
  - intros z Hz. simpl in *. unfold p', d_write in *. simpl in *. destruct (decide (z = l)) as [->|]; [rewrite lookup_insert; eauto|]. rewrite lookup_insert_ne by done. apply Rwf. destruct stk; [done|set_solver].
  - intros x Hx. destruct (Rdone _ Hx) as (? & ? & c & w & Hc & ? & ? & Hp). split_and!; [by apply Hseen'|done|].
    exists c, w. split_and!; try done; [by apply Hold|]. intros e He. eapply prot_le; [done|auto].
  - intros f e pd Hf He. destruct (Rframe _ _ _ Hf He). split; try done; [by eapply wfe_facts|by apply Hval|by eapply prot_le].
  - intros tb0 Ho. destruct (Rjust _ Ho) as (rs & Hrs & HJ). exists rs. split; [done|].
    assert (l ∈ d_seen p') as Hlp'. { unfold p', d_write. simpl. destruct stk; [by rewrite Hor in Ho|set_solver]. }
    eapply J_step; [done|done| | | | |done].
    + intros y Hy. unfold p', d_write. simpl. rewrite lookup_insert_ne; [done|]. by intros <-.
    + intros x c Hx Hc. right. exists c. split_and!; [by apply Hold|done|done|auto|auto].
    + intros x c' Hx Hc' Hres. destruct (Hcomp _ _ Hc') as [(_ & _ & E)|Hc]; [congruence|]. exists c'. split; [done|]. split; [done|].
      unfold p', d_write. simpl. rewrite lookup_insert_ne; [done|]. intros <-. congruence.
    + intros y Hy. unfold yields. rewrite Htb, lookup_insert_ne; [done|]. intros <-. destruct Hy as [Hd|[? _]]; [|done]. by destruct (Rdone _ Hd).
Qed.

End Steps.
