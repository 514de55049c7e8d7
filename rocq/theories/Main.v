(** * Editor programs: the engine agrees with disciplined evaluation. *)
From Verif Require Export Sim2.

Section Main.
Context `{Prog}.
Context (opt md0 : bool).
Notation R := (R opt md0).
Notation d_force := (d_force opt md0).
Notation d_run := (d_run opt).
(** The engine is idle and agrees with store [σ]. *)
Record Ed (σ : store) (s : dcg) : Prop := {
  ed_R : R (Origin (runs s) None) [] (d_init σ) s;
  ed_stack : stack s = [];
}.

Lemma Ed_init : Ed ∅ (dcg_new_flags md0 opt).
Proof.
  split; [|done]. split; simpl.
  - by apply bool_decide_pack.
  - split; simpl; try (intros *; rewrite lookup_empty; done); [by intros l ?%elem_of_nil|].
    intros x Hx. destruct Hx as [? ? (c & e & Hc & _)|? ? ? (c & e & Hc & _)]; by rewrite lookup_empty in Hc.
  - apply map_eq. intros l. by rewrite contents_lookup, !lookup_empty.
  - by intros l ?%elem_of_nil.
  - constructor.
  - by intros l ?%elem_of_nil.
  - intros x Hx. simpl in Hx. set_solver.
  - intros x Hx. simpl in Hx. set_solver.
  - by intros f e pd ?%elem_of_nil.
  - by intros f ?%elem_of_nil.
  - exists []. split; [done|]. split; [constructor|]. by intros x ?%elem_of_nil.
  - done.
Qed.

(** End of a demand. *)
Lemma R_reset r0 stk p s : R r0 stk p s → stack s = [] → Ed (d_store p) s.
Proof.
  intros [Ro Ri Rs]  Hs. split; [|done]. rewrite Hs in Ri. split; rewrite ?Hs; simpl.
  - done.
  - done.
  - done.
  - by intros l ?%elem_of_nil.
  - constructor.
  - by intros l ?%elem_of_nil.
  - intros x Hx. simpl in Hx. set_solver.
  - intros x Hx. simpl in Hx. set_solver.
  - by intros f e pd ?%elem_of_nil.
  - by intros f ?%elem_of_nil.
  - exists []. split; [done|]. split; [constructor|]. by intros x ?%elem_of_nil.
  - done.
Qed.
Lemma Ed_cong σ s s' :
  Ed σ s → table s' = table s → stack s' = stack s → purity s' = purity s → runs s' = runs s → Ed σ s'.
Proof. intros [HR Hs] E1 E2 E3 E4. split; [|congruence]. rewrite E4. by eapply R_cong; [..|exact HR]. Qed.
Lemma Ed_opok σ σ' s s' E p' :
  Ed σ s → opok opt md0 (Origin (runs s) None) [] (d_init σ) p' s s' E → d_store p' = σ' → d_done p' = ∅ → Ed σ' s' ∧ runs s' = runs s.
Proof.
  intros [HR Hs] Hok Hst Hdo. assert (stack s' = []) as Hs'. { rewrite (ok_stack _ _ _ _ _ _ _ _ _ Hok), Hs. done. }
  split; [rewrite <- Hst; eapply R_reset; [apply Hok|done]|].
  destruct (R_runs _ _ _ _ _ _ (ok_R _ _ _ _ _ _ _ _ _ Hok)) as (rs & Hrs & _ & Hin).
  destruct rs as [|x rs]; [done|]. destruct (Hin x ltac:(by left)) as [Hx|Hx].
  - rewrite Hdo in Hx. set_solver.
  - rewrite Hs' in Hx. by apply elem_of_nil in Hx.
Qed.

(** Why a thunk was run again: between the tables [tb0] and [tb] its content changed, or one of the things it had
    observed now yields something else, or one of its allocations was, or is now, overwritten. *)
Definition clean_at (tb : gmap loc node) (y : loc) : Prop :=
  match tb !! y with Some (NComp c) => all_clean (c_succs c) | Some _ => True | None => False end.
Definition justified (tb0 tb : gmap loc node) (x : loc) : Prop :=
  ∀ c0, tb0 !! x = Some (NComp c0) → c_res c0 = None ∨ contents tb !! x ≠ contents tb0 !! x ∨
    ∃ e, e ∈ c_succs c0 ∧ ((outdated tb (shape e) ∧ clean_at tb (s_loc e)) ∨
      (s_eff e = Allocate ∧ (bit Allocate (s_loc e) (c_succs c0) = Some true ∨ contents tb !! s_loc e ≠ contents tb0 !! s_loc e))).
(** Evaluated, with nothing to check. *)
Definition fresh_at (tb : gmap loc node) (x : loc) : Prop := ∃ c w, tb !! x = Some (NComp c) ∧ c_res c = Some w ∧ all_clean (c_succs c).
(** Nothing has happened to a cached result. *)
Definition untouched (tb0 tb : gmap loc node) (x : loc) : Prop := ∀ c, tb !! x = Some (NComp c) → c_res c ≠ None →
  ∃ c0, tb0 !! x = Some (NComp c0) ∧ c_res c0 ≠ None ∧ contents tb !! x = contents tb0 !! x ∧ shape <$> c_succs c = shape <$> c_succs c0 ∧
    (∀ y, bit Allocate y (c_succs c0) = Some true → bit Allocate y (c_succs c) = Some true) ∧
    (∀ y, bit Allocate y (c_succs c) = Some true → bit Allocate y (c_succs c0) = Some true ∨ contents tb !! y ≠ contents tb0 !! y).
Lemma untouched_refl tb x : untouched tb tb x.
Proof. intros c Hc Hr. exists c. auto 8. Qed.
Lemma Just_untouched r0 p s tb0 frs0 rs x : Inv opt md0 tb0 frs0 →
  R r0 [] p s → Just tb0 rs (frames (stack s)) p (table s) → x ∉ rs → untouched tb0 (table s) x.
Proof.
  intros Hi HR HJ Hx c Hc Hr. destruct (J_old _ _ _ _ _ HJ x c Hx Hc Hr) as (c0 & Hc0 & Hr0 & Hst). exists c0.
  destruct (J_kept _ _ _ _ _ HJ x Hx c0 Hc0) as [[_ Hch]|(c1 & Hc1 & _ & Hsh & Hb2 & Hb)]; [done|].
  rewrite Hc in Hc1. injection Hc1 as <-. rewrite (R_store _ _ _ _ _ _ HR). split_and!; try done.
  2:{ intros y Hy. destruct (Hb2 y Hy) as [?|[_ ?]]; auto. }
  intros y Hy. apply Hb; [|done]. destruct (is_struct y) eqn:E; [|done]. by destruct (i_sbit _ _ _ _ Hi _ _ _ Hc0 E).
Qed.
(** What is remembered: a cached result and what it was computed from stay, except for thunks run or changed. *)
Definition remembered (tb0 tb : gmap loc node) (rs : list loc) (x : loc) : Prop :=
  ∀ c0 w, tb0 !! x = Some (NComp c0) → c_res c0 = Some w → contents tb !! x ≠ contents tb0 !! x ∨
    ∃ c w', tb !! x = Some (NComp c) ∧ c_res c = Some w' ∧ (x ∉ rs → w' = w ∧ shape <$> c_succs c = shape <$> c_succs c0).
Lemma Just_remembered r0 p s tb0 rs x :
  R r0 [] p s → stack s = [] → Just tb0 rs (frames (stack s)) p (table s) →
  (∀ x, x ∈ rs → x ∈ d_done p ∨ x ∈ frames (stack s)) → remembered tb0 (table s) rs x.
Proof.
  intros HR Hs HJ Hin c0 w Hc0 Hw. destruct (decide (x ∈ rs)) as [Hx|Hx].
  - destruct (Hin x Hx) as [Hd|Hd]; [|rewrite Hs in Hd; by apply elem_of_nil in Hd].
    destruct (R_done _ _ _ _ _ _ HR _ Hd) as (_ & _ & c & w' & ? & ? & _). right. exists c, w'. done.
  - destruct (J_kept _ _ _ _ _ HJ x Hx c0 Hc0) as [[_ Hch]|(c & Hc & Hr & Hsh & _)].
    + left. by rewrite (R_store _ _ _ _ _ _ HR).
    + right. exists c, w. split_and!; try done. congruence.
Qed.
Lemma why_justified r0 stk p s tb0 x : R r0 stk p s → why tb0 p (table s) x → justified tb0 (table s) x.
Proof.
  intros HR Hw c0 Hc0. unfold chg in Hw. rewrite (R_store _ _ _ _ _ _ HR).
  destruct (Hw c0 Hc0) as [?|[[_ ?]|(e & He & [[Hp Ho]|[? [?|[_ ?]]]])]]; [by left|by right; left|..];
    right; right; exists e; (split; [done|]); [|auto..]. left. split; [done|].
  destruct Ho as [Ho _]. unfold prot in Hp. rewrite Ho in Hp. unfold clean_at. change (sh_loc (shape e)) with (s_loc e) in Hp.
  destruct Hp as [Hd|(_ & t & v & Hc)].
  - destruct (R_done _ _ _ _ _ _ HR _ Hd) as (_ & _ & c & w & -> & _ & ? & _). done.
  - destruct (store_node _ _ _ _ _ _ _ _ HR Hc) as (nd & -> & Hct). by destruct nd.
Qed.
Lemma R_origin σ s : R (Origin (runs s) None) [] (d_init σ) s → stack s = [] → R (Origin (runs s) (Some (table s))) [] (d_init σ) s.
Proof.
  intros [] Hs. split; try done. intros tb0 [= <-]. exists []. split; [done|]. rewrite Hs. split.
  - intros y _. by rewrite <- R_store.
  - intros x _ c0 Hc0. right. exists c0. auto 8.
  - by intros x ?%elem_of_nil.
  - by intros x ?%elem_of_nil.
  - intros x c _ Hc Hr. exists c. by rewrite <- R_store.
Qed.

End Main.

Section Watched.
Context `{Prog}.
Context (opt md0 : bool).
Notation R := (R opt md0).
Notation Ed := (Ed opt md0).
Notation ed_R := (ed_R opt md0).
Notation ed_stack := (ed_stack opt md0).
Notation R_reset := (R_reset opt md0).
Notation Ed_cong := (Ed_cong opt md0).
Notation Ed_opok := (Ed_opok opt md0).
Notation why_justified := (why_justified opt md0).
Notation Just_untouched := (Just_untouched opt md0).
Notation Just_remembered := (Just_remembered opt md0).
Notation R_origin := (R_origin opt md0).
Notation d_force := (d_force opt md0).
Notation d_run := (d_run opt).
(** the engine with a test that the states of the simulation pass (Watch.v) *)
Context (ok : dcg → bool) (Htest : ∀ r0 stk p s, R r0 stk p s → ok s = true).
Notation SP := (SP opt md0 ok).
Notation SC := (SC opt md0 ok).
Notation SF := (SF opt md0 ok).
Notation force := (wforce ok).
Notation run := (wrun ok).

Theorem SPC n : SP n ∧ SC n.
Proof using All.
  induction n as [|n [IHP IHC]].
  - assert (SF 0) as HF by (apply SF_step; [exact Htest|by intros]).
    assert (SP 0) as HP by (apply SP_step; [exact Htest|done]). split; [done|]. apply SC_step; [done|by intros].
  - assert (SF (S n)) as HF by (apply SF_step; [exact Htest|by intros ? [= <-]]).
    assert (SP (S n)) as HP by (apply SP_step; [exact Htest|done]). split; [done|]. apply SC_step; [done|by intros ? [= <-]].
Qed.

(** One demand from the editor. *)
Lemma wforce_editor n md t y cyc σ v p' s :
  Ed σ s → structf s = md → d_force n [] md t y (d_init σ) = Some (v, p') →
  wp (λ k, force k t y cyc) s (λ r s', r = v ∧ p' = d_init (d_store p') ∧ Ed (d_store p') s' ∧
    cpath s' = cpath s ∧ structf s' = structf s ∧
    (∃ rs, runs s' = rs ++ runs s ∧ NoDup rs ∧ (∀ x, x ∈ rs → justified (table s) (table s') x) ∧
       (∀ x, remembered (table s) (table s') rs x) ∧ ∃ lg, ref_force n [] md t y cyc (RState σ []) = ROk v (RState (d_store p') lg) ∧ (∀ x, x ∈ rs → x ∈ lg) ∧
         (∀ x, x ∈ lg → fresh_at (table s') x) ∧ (∀ x, x ∉ rs → untouched (table s) (table s') x) ∧ facts_le opt (table s) (table s')) ∧
    match table s' !! y with
    | Some (NComp c) => c_ty c = t ∧ c_res c = Some v ∧ all_clean (c_succs c)
    | Some (NMut t' _ w) | Some (NPure t' w) => t' = t ∧ w = v
    | None => False
    end).
Proof using All.
  intros HE Hmd Hd. assert (HR := ed_R _ _ HE). assert (Hstk := ed_stack _ _ HE).
  unfold wforce, wforce_loc. apply wp_watched; [by eapply Htest|intros r s' (_ & _ & HE' & _); eapply Htest, (ed_R _ _ HE')|].
  destruct (ref_ok_force opt md0 n [] md t y cyc _ _ _ [] Hd) as (lg & Hlg & _). rewrite app_nil_r in Hlg. simpl in Hlg.
  assert (Hfin : ∀ dup pure v s, stack s = [] → force_finish y dup pure t v s = (OVal v, s)).
  { intros dup pure v0 s0 Hs0. unfold force_finish. destruct (dup || pure); [done|].
    rewrite (bind_val _ _ _ _ _ (push_edge_eq _ _ _)). unfold push_st. rewrite Hs0. simpl. destruct s0; simpl in *. by rewrite Hs0. }
  revert Hlg.
  apply d_force_inv in Hd as [vv Hl Hs6 Hnm|n' pp arg spur vv p1 Hn Hl Hnk Hmd' Hs6 Hrun]; [clear v; rename vv into v|clear v; rename vv into v]; intros Hlg.
  - assert (lg = []) as Hlg0.
    { assert (Hc := ref_force_cell n [] md t y (d_init σ)). simpl in Hc, Hl. rewrite Hl in Hc. specialize (Hc eq_refl []).
      destruct cyc as [w0|]; [|rewrite Hlg in Hc; by injection Hc as ->].
      destruct n; simpl in Hlg; rewrite Hl in Hlg; simpl in Hlg; (rewrite decide_True in Hlg by done); by injection Hlg as ->. }
    destruct (store_node _ _ _ _ _ _ _ _ HR Hl) as (nd & Hnd & Hcon).
    unfold force_loc. eapply wp_det; [done|].
    destruct nd as [t0 ps v0|t0 v0|c]; simpl in Hcon; [| |done]; injection Hcon as -> ->.
    + eapply wp_det; [by apply res_node_eq|]. cbv beta iota zeta. set (ev := EvEff _ _ _). eapply wp_det; [done|].
      eapply wp_val; [intros k; by apply Hfin|]. split_and!; try done.
      * by eapply Ed_cong.
      * exists []. split; [done|]. split; [constructor|]. split; [by intros x ?%elem_of_nil|].
        split; [intros x c0 w0 ? ?; right; by exists c0, w0|]. exists lg. split; [done|]. split; [by intros x ?%elem_of_nil|].
        split; [|split; [intros; apply untouched_refl|apply (ev_facts opt [] (d_init σ)), evo_refl]]. rewrite Hlg0. by intros x ?%elem_of_nil.
      * simpl. by rewrite Hnd.
    + eapply wp_det; [by apply res_node_eq|]. cbv beta iota zeta. set (ev := EvEff _ _ _). eapply wp_det; [done|].
      eapply wp_val; [intros k; by apply Hfin|]. split_and!; try done.
      * by eapply Ed_cong.
      * exists []. split; [done|]. split; [constructor|]. split; [by intros x ?%elem_of_nil|].
        split; [intros x c0 w0 ? ?; right; by exists c0, w0|]. exists lg. split; [done|]. split; [by intros x ?%elem_of_nil|].
        split; [|split; [intros; apply untouched_refl|apply (ev_facts opt [] (d_init σ)), evo_refl]]. rewrite Hlg0. by intros x ?%elem_of_nil.
      * simpl. by rewrite Hnd.
  - destruct (store_node _ _ _ _ _ _ _ _ HR Hl) as (nd & Hnd & Hcon).
    destruct nd as [| |c]; [done..|]. simpl in Hcon. injection Hcon as Ht <- <- <-.
    destruct (SPC n') as [HSP HSC].
    eapply wp_mono; [|eapply (force_thunk_core opt md0 ok n' (Origin (runs s) (Some (table s))) [] y t c cyc (d_init σ) v p1 s HSP HSC)]; try done.
    + intros r s' (s1 & Htp & -> & Hf). split; [done|]. simpl.
      assert (stack s1 = []) as Hs1. { by rewrite (tp_stack _ _ _ _ _ _ _ _ _ _ _ Htp). }
      rewrite Hfin in Hf by done. injection Hf as <-.
      assert (HR1 := tp_R _ _ _ _ _ _ _ _ _ _ _ Htp (DState (d_store p1) (d_seen p1) ({[y]} ∪ d_done p1) ∅ ∅) eq_refl eq_refl eq_refl).
      split; [done|]. split; [by eapply (R_reset _ _ _ _ HR1)|]. split; [apply Htp|]. split; [apply Htp|]. split.
      * destruct (R_runs _ _ _ _ _ _ HR1) as (rs & Hrs & Hnd' & Hin). exists rs. split; [done|]. split; [done|].
        split.
        { destruct (R_just _ _ _ _ _ _ HR1 _ eq_refl) as (rs' & Hrs' & HJ). rewrite Hrs in Hrs'. apply app_inv_tail in Hrs' as <-.
          intros x Hx. eapply why_justified; [exact HR1|by apply HJ]. }
        split.
        { destruct (R_just _ _ _ _ _ _ HR1 _ eq_refl) as (rs' & Hrs' & HJ). rewrite Hrs in Hrs'. apply app_inv_tail in Hrs' as <-.
          intros x. by eapply Just_remembered. }
        exists lg. split; [done|].
        (* the log of the reference run *)
        assert (Hok := ref_ok_run opt (d_force n' [y]) (ref_force n' [y]) [y]
          (λ md t l0 cyc, ref_ok_force opt md0 n' [y] md t l0 cyc) (λ md t l0 p, ref_force_cell n' [y] md t l0 p)
          (code (c_pp c) (c_arg c) (c_spur c)) (l_path y) md _ _ _ [y] Hrun).
        destruct Hok as (lg' & Hr & Hd' & Hld). simpl in Hr, Hd', Hl. subst n. simpl in Hlg. rewrite Hl in Hlg. simpl in Hlg.
        rewrite decide_True in Hlg by done. try (rewrite decide_False in Hlg by done). rewrite Hr in Hlg. injection Hlg as <-.
        split; [|split; [|split]].
        -- intros x Hx. destruct (Hin x Hx) as [Hx'|Hx'].
           2:{ rewrite Hs1 in Hx'. by apply elem_of_nil in Hx'. }
           rewrite elem_of_app, elem_of_list_singleton. simpl in Hx'. apply elem_of_union in Hx' as [Hx'|Hx'].
           ++ right. set_solver.
           ++ left. apply Hd' in Hx'. set_solver.
        -- intros x Hx. assert (x ∈ {[y]} ∪ d_done p1) as Hxd.
           { apply elem_of_app in Hx as [Hx| ->%elem_of_list_singleton]; [|set_solver]. apply elem_of_union_r, Hld; [done|by right]. }
           destruct (R_done _ _ _ _ _ _ HR1 _ Hxd) as (_ & _ & c1 & w1 & ? & ? & ? & _). by exists c1, w1.
        -- destruct (R_just _ _ _ _ _ _ HR1 _ eq_refl) as (rs' & Hrs' & HJ). rewrite Hrs in Hrs'. apply app_inv_tail in Hrs' as <-.
           intros x Hx. eapply (Just_untouched _ _ _ _ _ rs x (R_inv _ _ _ _ _ _ HR)); [exact HR1|exact HJ|done].
        -- apply (ev_facts _ _ _ _ _ (tp_evo _ _ _ _ _ _ _ _ _ _ _ Htp)).
      * destruct (tp_node _ _ _ _ _ _ _ _ _ _ _ Htp) as (c' & -> & ? & ? & ?). done.
    + by apply R_origin.
    + congruence.
    + intros Hdup. unfold is_dup in Hdup. by rewrite Hstk in Hdup.
    + by rewrite Hmd' in Hrun.
Qed.

Definition wES (n : nat) (c : comp) : Prop := ∀ σ pth md v p' s,
  Ed σ s → cpath s = pth → structf s = md →
  d_run (d_force n []) [] pth md c (d_init σ) = Some (v, p') →
  wp (λ k, run (force k) c) s (λ r s', r = v ∧ p' = d_init (d_store p') ∧ Ed (d_store p') s' ∧
    cpath s' = cpath s ∧ structf s' = structf s ∧ ∃ rs, runs s' = rs ++ runs s).

Lemma ed_seq {A} n (m : nat → M A) (F : A → comp) (a : A) σ pth md p1 v p' s :
  wES n (F a) → Ed σ s → cpath s = pth → structf s = md →
  wp m s (λ a' s1, a' = a ∧ p1 = d_init (d_store p1) ∧ Ed (d_store p1) s1 ∧ cpath s1 = cpath s ∧ structf s1 = structf s ∧
     ∃ rs, runs s1 = rs ++ runs s) →
  d_run (d_force n []) [] pth md (F a) p1 = Some (v, p') →
  wp (λ k, bind (m k) (λ a, run (force k) (F a))) s (λ r s', r = v ∧ p' = d_init (d_store p') ∧ Ed (d_store p') s' ∧
    cpath s' = cpath s ∧ structf s' = structf s ∧ ∃ rs, runs s' = rs ++ runs s).
Proof.
  intros HES HE Hcp Hsf Hm Hrun. apply wp_bind. eapply wp_mono; [|exact Hm].
  intros a' s1 (-> & Hp1 & HE1 & Hcp1 & Hsf1 & rs & Hrs).
  rewrite Hp1 in Hrun.
  eapply wp_mono; [|eapply (HES _ pth md v p' s1 HE1)]; try done; [|congruence..].
  intros r s2 (-> & Hp2 & HE2 & Hcp2 & Hsf2 & rs2 & Hrs2). split_and!; try done; try congruence.
  exists (rs2 ++ rs). rewrite Hrs2, Hrs. by rewrite (assoc_L (++)).
Qed.

Lemma wforce_map_editor (n : nat) (abs : bool) md t y f σ a p1 s :
  Ed σ s → structf s = md → d_force_map opt (d_force n [] md) abs [] t y f (d_init σ) = Some (a, p1) →
  wp (λ k, (if abs then force_abs_art else force_map_art) (force k) t (ALoc y) f) s
    (λ a' s1, a' = a ∧ p1 = d_init (d_store p1) ∧ Ed (d_store p1) s1 ∧ cpath s1 = cpath s ∧ structf s1 = structf s ∧
     ∃ rs, runs s1 = rs ++ runs s).
Proof using All.
  intros HE Hmd Ea. assert (HR := ed_R _ _ HE). assert (Hstk := ed_stack _ _ HE).
  assert (is_Some (σ !! y)) as (ct & Hct).
  { unfold d_force_map in Ea. simpl in Ea. destruct (σ !! y); [eauto|done]. }
  destruct (store_node _ _ _ _ _ _ _ _ HR Hct) as (nd & Hnd & Hcon).
  assert ((∃ t ps v, nd = NMut t ps v) ∨ (∀ t ps v, nd ≠ NMut t ps v)) as [(t0 & ps & v0 & ->)|Hnm] by (destruct nd; naive_solver).
  - assert (t0 = t ∧ a = f v0 ∧ p1 = d_init σ) as (-> & -> & ->).
    { unfold d_force_map in Ea. simpl in Ea, Hcon. rewrite Hct in Ea. destruct ct as [t' v'|]; [|done]. injection Hcon as -> ->.
      destruct (decide (t' = t)) as [->|]; [|done].
      assert (tracked opt y = true) as Htr.
      { assert (Hk := i_kind _ _ _ _ (R_inv _ _ _ _ _ _ HR) _ _ Hnd). simpl in Hk. unfold tracked.
        apply negb_true_iff. apply andb_false_iff. destruct (is_struct y); [|by left]. right.
        destruct (decide (opt = true)) as [|Hne]; [by destruct Hk|by apply not_true_is_false]. }
      rewrite Htr in Ea. by injection Ea as <- <-. }
    eapply wp_val.
    { intros k. destruct abs; simpl; (rewrite (bind_val _ _ s (NMut t ps v0) s); [|by apply res_node_eq]);
        rewrite (bind_val get _ s s s) by done; rewrite (bind_val (emit _) _ _ tt (add_ev (EvEff (TForce RefGet) (cur_loc s) y) s)) by done;
        rewrite (bind_val _ _ _ _ _ (push_edge_eq _ _ _)); unfold push_st; simpl; rewrite Hstk; done. }
    split_and!; try done; [|by exists []]. eapply Ed_cong; [exact HE|done..].
  - destruct (force_map_other _ _ _ _ _ _ _ _ _ _ _ _ _ _ HR Hnd Hnm Ea) as (w0 & Hw0 & ->).
    assert (node_ty nd = t) as Ht.
    { apply d_force_inv in Hw0 as [? Hl|? ? ? ? ? ? ? Hl]; simpl in Hl; rewrite Hct in Hl; injection Hl as ->; destruct nd; simpl in *; congruence. }
    eapply (wp_ext (λ k0, let! v := force k0 t y None in ret (f v))).
    { intros k0. destruct abs; simpl; (rewrite (bind_val _ _ s nd s) by (by apply res_node_eq));
        (destruct nd as [t1 ps1 v1| |]; [by destruct (Hnm t1 ps1 v1)|done|done]). }
    apply wp_bind. eapply wp_mono; [|by eapply (wforce_editor n md t y None σ w0 p1 s)].
    intros r s' (-> & Hp1 & HE1 & Hcp1 & Hsf1 & (rs & Hrs & _) & _). eapply wp_val; [done|]. split_and!; try done. eauto.
Qed.

Theorem weditor_sim n c : wES n c.
Proof using All.
  induction c as [v0| |t a cyc k IH|t a f0 k IH|t a f0 k IH|t nm v0 k IH|t nc pp arg spur k IH|t a v0 k IH|nm b IHb k IH|b IHb k IH];
    intros σ pth md v p' s HE Hcp Hsf Hd; assert (HR := ed_R _ _ HE); assert (Hstk := ed_stack _ _ HE).
  - injection Hd as <- <-. eapply wp_val; [done|]. split_and!; try done. by exists [].
  - done.
  - destruct a as [w|y].
    + eapply (wp_ext (λ k0, run (force k0) (k w))); [intros k0; cbn [wrun]; unfold bind, wlook; by rewrite (Htest _ _ _ _ HR)|]. by apply (IH w σ pth md v p').
    + cbn [Discipline.d_run d_art] in Hd. unfold dbind in Hd.
      destruct (d_force n [] md t y (d_init σ)) as [[a p1]|] eqn:Ea; [|done].
      cbn [wrun]. eapply (ed_seq n _ k a σ pth md p1); try done.
      eapply wp_mono; [|by eapply (wforce_editor n md t y cyc σ a p1 s)].
      intros r s' (-> & Hp1 & HE1 & Hcp1 & Hsf1 & (rs & Hrs & _) & _). split_and!; try done. eauto.
  - destruct a as [w|y].
    + eapply (wp_ext (λ k0, run (force k0) (k (f0 w)))); [done|]. by apply (IH (f0 w) σ pth md v p').
    + cbn [Discipline.d_run] in Hd. unfold dbind in Hd.
      destruct (d_force_map opt (d_force n [] md) false [] t y f0 (d_init σ)) as [[a p1]|] eqn:Ea; [|done].
      cbn [wrun]. eapply (ed_seq n _ k a σ pth md p1); try done.
      by apply (wforce_map_editor n false md t y f0 σ a p1 s).
  - destruct a as [w|y].
    + eapply (wp_ext (λ k0, run (force k0) (k (f0 w)))); [done|]. by apply (IH (f0 w) σ pth md v p').
    + cbn [Discipline.d_run] in Hd. unfold dbind in Hd.
      destruct (d_force_map opt (d_force n [] md) true [] t y f0 (d_init σ)) as [[a p1]|] eqn:Ea; [|done].
      cbn [wrun]. eapply (ed_seq n _ k a σ pth md p1); try done.
      by apply (wforce_map_editor n true md t y f0 σ a p1 s).
  - cbn [Discipline.d_run] in Hd. unfold dbind in Hd.
    destruct (d_cell opt [] pth md t nm v0 (d_init σ)) as [[l p1]|] eqn:Ea; [|done].
    destruct (cell_sim opt md0 (Origin (runs s) None) [] pth md t nm v0 (d_init σ) p1 s l) as (s1 & E & Hm & Hok & _); try done.
    { by rewrite Hstk. } { by rewrite Hstk. }
    destruct (d_alloc_inv _ _ _ _ _ _ _ Ea) as (_ & Hp1 & _).
    destruct (Ed_opok σ (d_store p1) s s1 E p1 HE Hok) as [HE1 Hrs]; [done|by rewrite Hp1|].
    cbn [wrun]. eapply (ed_seq n (λ _, watched ok (cell_op t nm v0)) k l σ pth md p1); try done.
    apply wp_watched; [by eapply Htest|intros r2 s2 (_ & _ & HE2 & _); eapply Htest, (ed_R _ _ HE2)|].
    eapply wp_val; [done|]. split_and!; try done; [by rewrite Hp1|apply Hok|apply Hok|]. exists []. by rewrite Hrs.
  - cbn [Discipline.d_run] in Hd. unfold dbind in Hd.
    destruct (d_thunk opt [] pth md t nc pp arg spur (d_init σ)) as [[l p1]|] eqn:Ea; [|done].
    destruct (thunk_sim opt md0 (Origin (runs s) None) [] pth md t nc pp arg spur (d_init σ) p1 s l) as (s1 & E & Hm & Hok & _); try done.
    { by rewrite Hstk. } { by rewrite Hstk. }
    assert (∃ l ct, p1 = d_write [] l ct (d_init σ)) as (l' & ct & Hp1).
    { destruct nc; try done; destruct (d_alloc_inv _ _ _ _ _ _ _ Ea) as (_ & Hp1 & _); eauto. }
    destruct (Ed_opok σ (d_store p1) s s1 E p1 HE Hok) as [HE1 Hrs]; [done|by rewrite Hp1|].
    cbn [wrun]. eapply (ed_seq n (λ _, watched ok (thunk_op t nc pp arg spur)) k l σ pth md p1); try done.
    apply wp_watched; [by eapply Htest|intros r2 s2 (_ & _ & HE2 & _); eapply Htest, (ed_R _ _ HE2)|].
    eapply wp_val; [done|]. split_and!; try done; [by rewrite Hp1|apply Hok|apply Hok|]. exists []. by rewrite Hrs.
  - cbn [Discipline.d_run] in Hd. unfold dbind in Hd.
    destruct (d_set [] t a v0 (d_init σ)) as [[[] p1]|] eqn:Ea; [|done].
    destruct (set_sim opt md0 (Origin (runs s) None) t a v0 (d_init σ) p1 s) as (s1 & Hm & Hok); try done.
    assert (∃ l ct, p1 = d_write [] l ct (d_init σ)) as (l' & ct & Hp1).
    { unfold d_set in Ea. destruct a as [|l0]; [done|]. destruct (_ !! _) as [[]|]; try done. destruct (decide _); [|done].
      injection Ea as <-. eauto. }
    destruct (Ed_opok σ (d_store p1) s s1 [] p1 HE Hok) as [HE1 Hrs]; [done|by rewrite Hp1|].
    cbn [wrun]. eapply (ed_seq n (λ _, watched ok (set_op t a v0)) (λ _, k) tt σ pth md p1); try done.
    apply wp_watched; [by eapply Htest|intros r2 s2 (_ & _ & HE2 & _); eapply Htest, (ed_R _ _ HE2)|].
    eapply wp_val; [done|]. split_and!; try done; [by rewrite Hp1|apply Hok|apply Hok|]. exists []. by rewrite Hrs.
  - cbn [Discipline.d_run] in Hd. unfold dbind in Hd.
    subst pth. destruct (d_run (d_force n []) [] (nm :: (cpath s)) md b (d_init σ)) as [[w p1]|] eqn:Ea; [|done].
    cbn [wrun]. eapply wp_det; [done|]. cbv beta. 
    set (s0 := set_cpath (nm :: (cpath s)) s).
    eapply (wp_ext (λ k0, bind (let! _ := modify (set_cpath (nm :: (cpath s))) in let! v := run (force k0) b in let! _ := modify (set_cpath (cpath s)) in ret v)
      (λ v, run (force k0) (k v)))).
    { intros k0. unfold bind, modify. fold s0. by destruct (run (force k0) b s0) as [[]]. }
    eapply (ed_seq n _ k w σ (cpath s) md p1); try done.
    eapply wp_det; [done|]. fold s0. apply wp_bind.
    eapply wp_mono; [|eapply (IHb σ (nm :: (cpath s)) md w p1 s0)]; try done; [|by eapply Ed_cong; [exact HE|..]].
    intros r s1 (-> & Hp1 & HE1 & Hcp1 & Hsf1 & rs & Hrs). eapply wp_det; [done|]. eapply wp_val; [done|].
    split_and!; try done; [by eapply Ed_cong; [exact HE1|..]|]. eauto.
  - cbn [Discipline.d_run] in Hd. unfold dbind in Hd.
    subst md. destruct (d_run (d_force n []) [] pth true b (d_init σ)) as [[w p1]|] eqn:Ea; [|done].
    cbn [wrun]. eapply wp_det; [done|]. cbv beta. 
    set (s0 := set_structf true s).
    eapply (wp_ext (λ k0, bind (let! _ := modify (set_structf true) in let! v := run (force k0) b in let! _ := modify (set_structf (structf s)) in ret v)
      (λ v, run (force k0) (k v)))).
    { intros k0. unfold bind, modify. fold s0. by destruct (run (force k0) b s0) as [[]]. }
    eapply (ed_seq n _ k w σ pth (structf s) p1); try done.
    eapply wp_det; [done|]. fold s0. apply wp_bind.
    eapply wp_mono; [|eapply (IHb σ pth true w p1 s0)]; try done; [|by eapply Ed_cong; [exact HE|..]].
    intros r s1 (-> & Hp1 & HE1 & Hcp1 & Hsf1 & rs & Hrs). eapply wp_det; [done|]. eapply wp_val; [done|].
    split_and!; try done; [by eapply Ed_cong; [exact HE1|..]|]. eauto.
Qed.

End Watched.

(** ** The engine without tests *)
Section Plain.
Context `{Prog}.
Context (opt md0 : bool).
Notation Ed := (Ed opt md0).
Notation facts_le := (facts_le opt).
Notation d_force := (d_force opt md0).
Notation d_run := (d_run opt).
Lemma wp_wgives {A} (m m' : nat → M A) s Q : (∀ k, wgives (m k) (m' k)) → wp m s Q → wp m' s Q.
Proof. intros Hg (N & a & s' & Hm & HQ). exists N, a, s'. split; [|done]. intros k Hk. by apply Hg, Hm. Qed.
Lemma force_editor n md t y cyc σ v p' s :
  Ed σ s → structf s = md → d_force n [] md t y (d_init σ) = Some (v, p') →
  wp (λ k, force k t y cyc) s (λ r s', r = v ∧ p' = d_init (d_store p') ∧ Ed (d_store p') s' ∧
    cpath s' = cpath s ∧ structf s' = structf s ∧
    (∃ rs, runs s' = rs ++ runs s ∧ NoDup rs ∧ (∀ x, x ∈ rs → justified (table s) (table s') x) ∧
       (∀ x, remembered (table s) (table s') rs x) ∧ ∃ lg, ref_force n [] md t y cyc (RState σ []) = ROk v (RState (d_store p') lg) ∧ (∀ x, x ∈ rs → x ∈ lg) ∧
         (∀ x, x ∈ lg → fresh_at (table s') x) ∧ (∀ x, x ∉ rs → untouched (table s) (table s') x) ∧ facts_le (table s) (table s')) ∧
    match table s' !! y with
    | Some (NComp c) => c_ty c = t ∧ c_res c = Some v ∧ all_clean (c_succs c)
    | Some (NMut t' _ w) | Some (NPure t' w) => t' = t ∧ w = v
    | None => False
    end).
Proof.
  intros HE Hmd Hd. eapply (wp_wgives (λ k, wforce (λ _, true) k t y cyc)); [intros k; apply wforce_wgives|].
  by eapply (wforce_editor opt md0 (λ _, true)).
Qed.
Definition ES (n : nat) (c : comp) : Prop := ∀ σ pth md v p' s,
  Ed σ s → cpath s = pth → structf s = md →
  d_run (d_force n []) [] pth md c (d_init σ) = Some (v, p') →
  wp (λ k, run (force k) c) s (λ r s', r = v ∧ p' = d_init (d_store p') ∧ Ed (d_store p') s' ∧
    cpath s' = cpath s ∧ structf s' = structf s ∧ ∃ rs, runs s' = rs ++ runs s).

Theorem editor_sim n c : ES n c.
Proof.
  intros σ pth md v p' s HE Hcp Hsf Hd.
  eapply (wp_wgives (λ k, wexec (λ _, true) k c)); [intros k; apply wexec_wgives|].
  by eapply (weditor_sim opt md0 (λ _, true)).
Qed.
End Plain.
