(** * Running thunk bodies and editor programs simulates disciplined evaluation. *)
From Verif Require Export Sim.

Section Sim2.
Context `{Prog}.
Context (opt md0 : bool).
Notation Inv := (Inv opt md0).
Notation R := (R opt md0).
Notation facts_le := (facts_le opt).
Notation evo := (evo opt).
Notation fedge := (fedge opt).
Notation tr := (tr opt).
Notation d_force := (d_force opt md0).
Notation d_run := (d_run opt).
Notation opok := (opok opt md0).
Notation thunk_post := (thunk_post opt md0).
(** the engine with a test that the states of the simulation pass *)
Context (ok : dcg → bool) (Htest : ∀ r0 stk p s, R r0 stk p s → ok s = true).
Notation SP := (SP opt md0 ok).
Notation SC := (SC opt md0 ok).
Notation force1 k := (force_loc (wproduce ok k) (wclean ok k)).
Notation force := (wforce ok).
Notation run := (wrun ok).
Lemma wp_watched {A} (m : nat → M A) s (Q : A → dcg → Prop) : ok s = true → (∀ a s', Q a s' → ok s' = true) → wp m s Q → wp (λ k, watched ok (m k)) s Q.
Proof.
  intros H1 H2 Hw. unfold watched. eapply wp_det; [unfold wlook; by rewrite H1|]. apply wp_bind. eapply wp_mono; [|exact Hw].
  intros a s' HQ. eapply wp_det; [unfold wlook; by rewrite (H2 _ _ HQ)|]. by eapply wp_val.
Qed.
Lemma wp_looked {A} (m : nat → M A) s (Q : A → dcg → Prop) : ok s = true → wp m s Q → wp (λ k, bind (wlook ok) (λ _, m k)) s Q.
Proof. intros H1 Hw. eapply wp_det; [unfold wlook; by rewrite H1|]. exact Hw. Qed.

Lemma R_purity r0 stk p s : R r0 stk p s → purity s = opt.
Proof. intros HR. apply (bool_decide_unpack _). apply HR. Qed.

Lemma is_cycle_spec s l : is_cycle s l = false ↔ l ∉ frames (stack s).
Proof.
  unfold is_cycle, frames. rewrite elem_of_list_fmap. split.
  - intros Hf (f & -> & Hin). assert (existsb (λ f0, bool_decide (f_loc f0 = f_loc f)) (stack s) = true); [|congruence].
    apply existsb_exists. exists f. split; [by apply elem_of_list_In|]. by apply bool_decide_eq_true_2.
  - intros Hn. apply not_true_is_false. intros (f & Hin%elem_of_list_In & He%bool_decide_eq_true_1)%existsb_exists.
    destruct Hn. eauto.
Qed.

(** ** Forcing a thunk, up to the recording of the edge *)
Definition pure_flag (l : loc) (c : compnode) (s : dcg) : bool :=
  is_struct l && bool_decide (length (c_succs c) = O) && purity s.

Lemma force_thunk_core n r0 stk y t c cyc p v p1 s :
  SP n → SC n →
  R r0 stk p s → table s !! y = Some (NComp c) → c_ty c = t → y ∉ stk → structf s = md0 →
  (is_dup s y = true → c_res c ≠ None) →
  d_run (d_force n (y :: stk)) (y :: stk) (l_path y) md0 (code (c_pp c) (c_arg c) (c_spur c)) (d_enter y p) = Some (v, p1) →
  wp (λ k, force1 k t y cyc) s (λ r s', ∃ s1, thunk_post r0 stk y t p p1 v s s1 ∧ r = v ∧
    force_finish y (is_dup s y) (pure_flag y c s) t v s1 = (OVal v, s')).
Proof.
  intros HSP HSC HR Hc Ht Hnk Hmd Hdup Hrun.
  assert (Hst := node_store _ _ _ _ _ _ _ _ HR Hc). simpl in Hst.
  assert (y ∉ frames (stack s)) as Hnf. { intros Hf. by apply Hnk, (R_sub _ _ _ _ _ _ HR). }
  unfold force_loc. eapply wp_det; [done|]. eapply wp_det; [by apply res_node_eq|]. cbv beta iota zeta.
  fold (pure_flag y c s). rewrite (proj2 (is_cycle_spec s y) Hnf).
  assert (Hfin : ∀ dup pure s1, ∃ s', force_finish y dup pure t v s1 = (OVal v, s')).
  { intros dup pure s1. unfold force_finish. destruct (dup || pure); [by eexists|].
    rewrite (bind_val _ _ _ _ _ (push_edge_eq _ _ _)). by eexists. }
  destruct (c_res c) as [w0|] eqn:Hres.
  - eapply wp_det; [done|]. apply wp_bind.
    eapply wp_mono; [|eapply (HSC r0 stk y t c p v p1 _ w0)]; try done; [|by eapply R_cong; [..|exact HR]].
    intros ch s1 [_ Htp]. simpl in Htp. eapply wp_det; [done|].
    destruct (tp_node _ _ _ _ _ _ _ _ _ _ _ Htp) as (c' & Hc' & Ht' & Hres' & _).
    eapply wp_det; [apply res_node_eq; [done|by rewrite <- Ht']|]. cbv beta iota. rewrite Hres'.
    destruct (Hfin (is_dup s y) (pure_flag y c s) (add_ev EvEnd s1)) as (s' & Hs').
    eapply wp_val; [done|]. exists (add_ev EvEnd s1). split; [|done].
    apply thunk_post_ev. by eapply thunk_post_ev'.
  - assert (is_dup s y = false) as Hd. { destruct (is_dup s y); [by destruct Hdup|done]. } rewrite Hd.
    eapply wp_det; [done|]. eapply wp_det; [done|]. apply wp_bind.
    eapply wp_mono; [|eapply (HSP r0 stk y t c (d_enter y p) v p1)]; try done.
    + intros r s1 [-> Htp]. simpl in Htp. eapply wp_det; [done|].
      destruct (Hfin false (pure_flag y c s) (add_ev EvEnd s1)) as (s' & Hs').
      eapply wp_val; [done|]. exists (add_ev EvEnd s1). split; [|done].
      apply thunk_post_ev. eapply thunk_post_weaken; [apply d_enter_le|]. by eapply thunk_post_ev'.
    + eapply R_cong; [..|eapply R_enter; [exact HR|]]; done.
    + by left.
    + apply (why_miss opt md0 r0 (y :: stk) (d_enter y p) s y c); try done. eapply R_enter; [exact HR|done].
Qed.

(** ** [force] from inside a thunk *)
Definition SF (n : nat) : Prop := ∀ r0 x stk md t y cyc p v p' s f fs,
  R r0 (x :: stk) p s → stack s = f :: fs → f_loc f = x → Frel p (stack s) → structf s = md →
  d_force n (x :: stk) md t y p = Some (v, p') →
  wp (λ k, force k t y cyc) s (λ r s', r = v ∧ ∃ E, opok r0 (x :: stk) p p' s s' E ∧
    ∀ tb' pth k Ek w, facts_le (table s') tb' →
      tr tb' pth md (cur_shapes (stack s) ++ (shape <$> E.*1)) (k v) Ek w →
      tr tb' pth md (cur_shapes (stack s)) (Force t (ALoc y) cyc k) ((shape <$> E.*1) ++ Ek) w).

(** An already recorded observation. *)
Lemma dup_edge r0 stk p s y : R r0 stk p s → is_dup s y = true →
  ∃ f fs e pd, stack s = f :: fs ∧ (e, pd) ∈ f_succs f ∧ s_loc e = y ∧ s_eff e = Observe ∧
    fedge (table s) (frames (stack s)) p (f_loc f) e pd ∧ shape e ∈ cur_shapes (stack s).
Proof.
  intros HR Hd. unfold is_dup in Hd. destruct (stack s) as [|f fs] eqn:Es; [done|].
  apply existsb_exists in Hd as ([e pd] & Hin%elem_of_list_In & [E1 E2]%bool_decide_eq_true_1). simpl in *.
  exists f, fs, e, pd. split_and!; try done.
  - change (f_loc f :: frames fs) with (frames (f :: fs)). rewrite <- Es.
    eapply (R_frame _ _ _ _ _ _ HR); [|done]. rewrite Es. by left.
  - apply elem_of_list_fmap_1. by apply (elem_of_list_fmap_1 fst _ (e, pd)).
Qed.

Lemma SF_step n : (∀ n', n = S n' → SP n' ∧ SC n') → SF n.
Proof using All.
  intros HS r0 x stk md t y cyc p v p' s f fs HR Hstk Hfx HF Hmd Hd.
  assert (Hpur := R_purity _ _ _ _ HR).
  unfold wforce, wforce_loc. apply wp_watched; [by eapply Htest|intros r s' (_ & E & Ho & _); eapply Htest, Ho|].
  apply d_force_inv in Hd as [vv Hl Hs6 Hnm|n' pp arg spur vv p1 Hn Hl Hnk Hmd' Hs6 Hrun]; [clear v; rename vv into v|clear v; rename vv into v; rewrite Hmd' in Hmd, Hrun; rewrite Hmd'; clear md Hmd'].
  - (* a cell *)
    destruct (store_node _ _ _ _ _ _ _ _ HR Hl) as (nd & Hnd & Hcon).
    assert (y ≠ x) as Hyx.
    { intros ->. destruct (i_frame _ _ _ _ (R_inv _ _ _ _ _ _ HR) x) as (c & Hc & _).
      - rewrite Hstk. rewrite <- Hfx. by left.
      - rewrite Hnd in Hc. injection Hc as ->. done. }
    assert (HRo : R r0 (x :: stk) (d_observe (x :: stk) y false p) s).
    { apply quiet_observe; [done|]. eauto. }
    unfold force_loc. eapply wp_det; [done|].
    destruct nd as [t0 ps v0|t0 v0|c]; simpl in Hcon; [| |done]; injection Hcon as -> ->.
    + eapply wp_det; [by apply res_node_eq|]. cbv beta iota zeta.
      set (ev := EvEff _ _ _). eapply wp_det; [done|]. unfold force_finish. rewrite orb_false_r.
      destruct (is_dup s y) eqn:Edup.
      * eapply wp_val; [done|]. split; [done|]. exists []. split.
        { split; try done; [by eapply R_cong; [..|exact HRo]|apply evo_refl|simpl; by rewrite pushed_nil|].
          simpl. eapply Frel_mono; [| |exact HF]; simpl; set_solver. }
        destruct (dup_edge _ _ _ _ _ HR Edup) as (f' & fs' & e & pd & Es & Hin & El & Ee & Hfe & Hcs).
        rewrite Es in HF. specialize (HF _ _ Hin Ee).
        assert (Hw := fe_wfe _ _ _ _ _ _ _ Hfe). assert (Hv := fe_valid _ _ _ _ _ _ _ Hfe).
        unfold wfe in Hw. unfold valid in Hv. unfold sh_dep, sh_loc, sh_eff in *. simpl in *. rewrite El in *. rewrite Hnd in *.
        destruct (s_dep e) as [t1 w1|t1 f1 w1| | | |] eqn:Ed.
        -- destruct Hw as [_ [(ps' & v' & [= <- _ _])|(c & ? & _)]]; [|done]. subst w1.
           intros tb' pth k Ek w Hf Htr. rewrite app_nil_r in Htr. simpl. eapply tr_dup, Htr.
           assert (shape e = (y, Observe, DForce t v)) as <- by (unfold shape; by rewrite El, Ee, Ed). done.
        -- done.
        -- done.
        -- destruct Hw. congruence.
        -- destruct Hw. congruence.
        -- destruct Hw. congruence.
      * eapply wp_val. { intros k. by rewrite (bind_val _ _ _ _ _ (push_edge_eq _ _ _)). }
        split; [done|]. set (e := Succ false y Observe (DForce t v)). exists [(e, None)]. split.
        { split; try done.
          - apply R_push_st; [by eapply R_cong; [..|exact HRo]| |].
            + intros f0 fs0 Hf0. simpl in Hf0. rewrite Hstk in Hf0. injection Hf0 as <- <-. split; simpl; try done.
              * split; [done|]. left. eauto.
              * unfold valid, sh_loc, sh_dep, fst, snd. simpl. by rewrite Hnd.
              * right. unfold sh_loc. simpl. split; [set_solver|eauto].
              * by rewrite Hfx.
              * intros Ho Hs. rewrite Hfx in Hs. by eapply s6_struct.
            + intros _. simpl. intros Hin%is_dup_spec. congruence.
          - apply evo_refl.
          - refine (Frel_pushed _ e None (stack s) _ _); [|simpl; set_solver]. eapply Frel_mono; [| |exact HF]; simpl; set_solver. }
        intros tb' pth k Ek w Hf Htr. simpl. by apply tr_obs.
    + eapply wp_det; [by apply res_node_eq|]. cbv beta iota zeta.
      set (ev := EvEff _ _ _). eapply wp_det; [done|]. unfold force_finish. rewrite orb_true_r.
      eapply wp_val; [done|]. split; [done|]. exists []. split.
      { split; try done; [by eapply R_cong; [..|exact HRo]|apply evo_refl|simpl; by rewrite pushed_nil|].
        simpl. eapply Frel_mono; [| |exact HF]; simpl; set_solver. }
      intros tb' pth k Ek w Hf Htr. rewrite app_nil_r in Htr. simpl. eapply tr_pure, Htr. by eapply facts_pure.
  - (* a thunk *)
    destruct (store_node _ _ _ _ _ _ _ _ HR Hl) as (nd & Hnd & Hcon).
    destruct nd as [| |c]; [done..|]. simpl in Hcon. injection Hcon as Ht <- <- <-.
    destruct (HS n' Hn) as [HSP HSC].
    eapply wp_mono; [|eapply (force_thunk_core n' r0 (x :: stk) y t c cyc p v p1 s HSP HSC)]; try done.
    + intros r s' (s1 & Htp & -> & Hfin). split; [done|].
      clear p'. set (p' := d_leave (x :: stk) y p p1).
      assert (HR1 : R r0 (x :: stk) p' s1) by by apply (tp_R _ _ _ _ _ _ _ _ _ _ _ Htp).
      assert (Frel p' (stack s1)) as HF1.
      { rewrite (tp_stack _ _ _ _ _ _ _ _ _ _ _ Htp). eapply Frel_mono; [| |exact HF]; simpl; set_solver. }
      destruct (tp_node _ _ _ _ _ _ _ _ _ _ _ Htp) as (c' & Hc' & Ht' & Hres' & Hac').
      assert (y ∉ frames (stack s1)) as Hyf.
      { intros Hyf. apply Hnk. by apply (R_sub _ _ _ _ _ _ HR1). }
      assert (Hcs : cur_shapes (stack s1) = cur_shapes (stack s)) by by rewrite (tp_stack _ _ _ _ _ _ _ _ _ _ _ Htp).
      unfold force_finish in Hfin. destruct (is_dup s y || pure_flag y c s) eqn:Eb.
      * injection Hfin as <-. exists []. split.
        { split; try done; [apply Htp|rewrite pushed_nil; apply Htp|apply Htp|apply Htp]. }
        intros tb' pth k Ek w Hf Htr. rewrite app_nil_r in Htr. simpl.
        destruct (pure_flag y c s) eqn:Ep.
        -- unfold pure_flag in Ep. rewrite Hpur in Ep. apply andb_true_iff in Ep as [Ep Ho]. apply andb_true_iff in Ep as [Es _].
           destruct (facts_comp _ _ _ _ _ Hf Hc') as (c2 & Hc2 & ? & _ & _ & Hx). destruct Hx as [_ Hx]; [done|].
           eapply tr_sres, Htr; try done; [congruence|]. by apply Hx.
        -- rewrite orb_false_r in Eb.
           assert (is_dup s1 y = true) as Edup. { apply is_dup_spec. rewrite Hcs. by apply is_dup_spec. }
           destruct (dup_edge _ _ _ _ _ HR1 Edup) as (f' & fs' & e & pd & Es & Hin & El & Ee & Hfe & Hcs').
           assert (Hw := fe_wfe _ _ _ _ _ _ _ Hfe). assert (Hv := fe_valid _ _ _ _ _ _ _ Hfe).
           unfold wfe in Hw. unfold valid in Hv. unfold sh_dep, sh_loc, sh_eff in *. simpl in *. rewrite El in *. rewrite Hc' in *.
           destruct (s_dep e) as [t1 w1|t1 f1 w1| | | |] eqn:Ed.
           ++ destruct Hw as [_ [(ps' & v' & ?)|(c2 & [= <-] & Ht2)]]; [done|]. destruct Hv as [Hv _].
              assert (w1 = v) as -> by congruence.
              eapply tr_dup, Htr. rewrite <- Hcs.
              assert (shape e = (y, Observe, DForce t v)) as <-; [|done]. unfold shape. rewrite El, Ee, Ed. congruence.
           ++ destruct Hw as (_ & ? & ? & ?). done.
           ++ done.
           ++ destruct Hw. congruence.
           ++ destruct Hw. congruence.
           ++ destruct Hw. congruence.
      * rewrite (bind_val _ _ _ _ _ (push_edge_eq _ _ _)) in Hfin. injection Hfin as <-.
        apply orb_false_iff in Eb as [Edup _].
        set (e := Succ false y Observe (DForce t v)). exists [(e, None)]. split.
        { split; try apply Htp.
          - apply R_push_st; [done| |].
            + intros f0 fs0 Hf0. rewrite (tp_stack _ _ _ _ _ _ _ _ _ _ _ Htp), Hstk in Hf0. injection Hf0 as <- <-. split; simpl; try done.
              * split; [done|]. right. eauto.
              * unfold valid, sh_loc, sh_dep, fst, snd. simpl. by rewrite Hc'.
              * left. unfold sh_loc. simpl. set_solver.
              * rewrite Hfx. intros ->. apply Hnk. by left.
              * intros Ho Hs. rewrite Hfx in Hs. by eapply s6_struct.
            + intros _. rewrite Hcs. simpl. intros Hin%is_dup_spec. congruence.
          - simpl. by rewrite (tp_stack _ _ _ _ _ _ _ _ _ _ _ Htp).
          - refine (Frel_pushed _ e None (stack s1) _ _); [done|]. simpl. set_solver. }
        intros tb' pth k Ek w Hf Htr. simpl. by apply tr_obs.
    + intros Edup. destruct (dup_edge _ _ _ _ _ HR Edup) as (f' & fs' & e & pd & Es & Hin & El & Ee & Hfe & Hcs').
      assert (Hw := fe_wfe _ _ _ _ _ _ _ Hfe). assert (Hv := fe_valid _ _ _ _ _ _ _ Hfe).
      unfold wfe in Hw. unfold valid in Hv. unfold sh_dep, sh_loc, sh_eff in *. simpl in *. rewrite El in *. rewrite Hnd in *.
      destruct (s_dep e) as [t1 w1|t1 f1 w1| | | |] eqn:Ed; try done.
      * destruct Hv as [-> _]. done.
      * destruct Hw. congruence.
      * destruct Hw. congruence.
Qed.


(** ** Running the body of a thunk *)
Lemma opok_trans r0 stk p p1 p2 s s1 s2 E1 E2 :
  d_le p p1 → opok r0 stk p p1 s s1 E1 → opok r0 stk p1 p2 s1 s2 E2 → opok r0 stk p p2 s s2 (E1 ++ E2).
Proof.
  intros Hle [] []. split; try done; try congruence.
  - by eapply evo_trans.
  - by rewrite ok_stack0, ok_stack, pushed_app.
Qed.

Definition SR (n : nat) (c : comp) : Prop := ∀ r0 x stk pth md p v p' s f fs,
  R r0 (x :: stk) p s → stack s = f :: fs → f_loc f = x → Frel p (stack s) → cpath s = pth → structf s = md →
  d_run (d_force n (x :: stk)) (x :: stk) pth md c p = Some (v, p') →
  wp (λ k, run (force k) c) s (λ r s', r = v ∧ ∃ E, opok r0 (x :: stk) p p' s s' E ∧
    tr (table s') pth md (cur_shapes (stack s)) c (shape <$> E.*1) v).

(** An operation followed by the rest. *)
Lemma seq_sim {A} n (m : nat → M A) (F : A → comp) (c : comp) (a : A) r0 x stk pth md p p1 v p' s f fs :
  SR n (F a) →
  R r0 (x :: stk) p s → stack s = f :: fs → f_loc f = x → cpath s = pth → structf s = md →
  d_le p p1 →
  wp m s (λ a' s1, a' = a ∧ ∃ E, opok r0 (x :: stk) p p1 s s1 E ∧
     ∀ tb' Ek w, facts_le (table s1) tb' →
      tr tb' pth md (cur_shapes (stack s) ++ (shape <$> E.*1)) (F a) Ek w →
      tr tb' pth md (cur_shapes (stack s)) c ((shape <$> E.*1) ++ Ek) w) →
  d_run (d_force n (x :: stk)) (x :: stk) pth md (F a) p1 = Some (v, p') →
  wp (λ k, bind (m k) (λ a, run (force k) (F a))) s (λ r s', r = v ∧ ∃ E, opok r0 (x :: stk) p p' s s' E ∧
    tr (table s') pth md (cur_shapes (stack s)) c (shape <$> E.*1) v).
Proof.
  intros HSR HR Hstk Hfx Hcp Hsf Hle Hm Hrun. apply wp_bind. eapply wp_mono; [|exact Hm].
  intros a' s1 (-> & E & Hok & Htr).
  assert (stack s1 = Frame (f_loc f) (f_succs f ++ E) :: fs) as Hstk1.
  { by rewrite (ok_stack _ _ _ _ _ _ _ _ _ Hok), Hstk. }
  eapply wp_mono; [|eapply (HSR r0 x stk pth md p1 v p' s1)]; try done; try apply Hok.
  - intros r s2 (-> & E2 & Hok2 & Htr2). split; [done|]. exists (E ++ E2). split; [by eapply opok_trans|].
    rewrite !fmap_app. apply Htr; [apply Hok2|].
    assert (cur_shapes (stack s1) = cur_shapes (stack s) ++ (shape <$> E.*1)) as <-; [|done].
    rewrite (ok_stack _ _ _ _ _ _ _ _ _ Hok), Hstk. by rewrite cur_shapes_pushed.
  - rewrite <- Hcp. apply Hok.
  - rewrite <- Hsf. apply Hok.
Qed.

(** A block run in a modified context, whose context changes are undone. *)
Lemma opok_cong r0 stk p p' s s' t t' E :
  opok r0 stk p p' s s' E →
  table t = table s → stack t = stack s →
  table t' = table s' → stack t' = stack s' → purity t' = purity s' → runs t' = runs s' →
  cpath t' = cpath t → structf t' = structf t → opok r0 stk p p' t t' E.
Proof.
  intros [] E1 E2 E3 E4 E5 E6 E7 E8. split; try congruence.
  - by eapply R_cong; [..|done].
Qed.

Lemma run_sim n : SF n → ∀ c, SR n c.
Proof using All.
  intros HSF.
  assert (Hpres : ∀ x stk pth md c p v p', d_wf p → d_run (d_force n (x :: stk)) (x :: stk) pth md c p = Some (v, p') → d_le p p').
  { intros. eapply d_run_pres'; [|done]. done. }
  induction c as [v0| |t a cyc k IH|t a f0 k IH|t a f0 k IH|t nm v0 k IH|t nc pp arg spur k IH|t a v0 k IH|nm b IHb k IH|b IHb k IH];
    intros r0 x stk pth md p v p' s f fs HR Hstk Hfx HF Hcp Hsf Hd;
    assert (Hwf := R_wf _ _ _ _ _ _ HR);
    assert (topctx (x :: stk) (stack s)) as Htop by (rewrite Hstk; simpl; by rewrite Hfx).
  - injection Hd as <- <-. eapply wp_val; [done|]. split; [done|]. exists []. split; [|constructor].
    split; try done; [apply evo_refl|by rewrite pushed_nil].
  - done.
  - (* force *)
    cbn [Discipline.d_run d_art] in Hd. destruct a as [w|y]; cbn [Discipline.d_run d_art] in Hd.
    + eapply (wp_ext (λ k0, run (force k0) (k w))); [intros k0; cbn [wrun]; unfold bind, wlook; by rewrite (Htest _ _ _ _ HR)|]. eapply wp_mono; [|by apply (IH w r0 x stk pth md p v p' s f fs)].
      intros r s' (-> & E & Hok & Htr). split; [done|]. exists E. split; [done|]. by constructor.
    + unfold dbind in Hd. destruct (d_force n (x :: stk) md t y p) as [[a p1]|] eqn:Ea; [|done].
      cbn [wrun]. eapply (seq_sim n _ k _ a r0 x stk pth md p p1); try done.
      * by eapply d_force_pres.
      * eapply wp_mono; [|by eapply (HSF r0 x stk md t y cyc p a p1 s f fs)].
        intros r s' (-> & E & Hok & Htr). split; [done|]. exists E. split; [done|]. intros tb' Ek w. apply Htr.
  - (* force_map *)
    destruct a as [w|y].
    + eapply (wp_ext (λ k0, run (force k0) (k (f0 w)))); [done|]. eapply wp_mono; [|by apply (IH (f0 w) r0 x stk pth md p v p' s f fs)].
      intros r s' (-> & E & Hok & Htr). split; [done|]. exists E. split; [done|]. by constructor.
    + cbn [Discipline.d_run] in Hd. unfold dbind in Hd.
      destruct (d_force_map opt (d_force n (x :: stk) md) false (x :: stk) t y f0 p) as [[a p1]|] eqn:Ea; [|done].
      assert (d_le p p1) as Hle1.
      { eapply d_force_map_pres; [|done|exact Ea]. intros; apply d_force_pres. }
      cbn [wrun force_map_art]. eapply (seq_sim n _ k _ a r0 x stk pth md p p1); try done.
      assert (is_Some (d_store p !! y)) as (ct & Hct).
      { unfold d_force_map in Ea. destruct (d_store p !! y); [eauto|done]. }
      destruct (store_node _ _ _ _ _ _ _ _ HR Hct) as (nd & Hnd & Hcon).
      assert ((∃ t ps v, nd = NMut t ps v) ∨ (∀ t ps v, nd ≠ NMut t ps v)) as [(t0 & ps & v0 & ->)|Hnm] by (destruct nd; naive_solver).
      * destruct (force_map_mut _ _ _ _ _ _ _ _ _ _ _ _ _ _ _ _ _ HR Hnd Ea) as (_ & -> & -> & Hs6 & Hm & Hf & ->).
        eapply wp_det; [by apply res_node_eq|]. cbv beta iota. eapply wp_det; [done|].
        set (ev := EvEff _ _ _). eapply wp_det; [done|]. eapply wp_det; [apply push_edge_eq|]. eapply wp_val; [done|].
        split; [done|]. set (e := Succ false y Observe (DForceMap t f0 (f0 v0))).
        exists [(e, Some (DForceMap t f0 (f0 v0)))].
        assert (HRo : R r0 (x :: stk) (d_observe (x :: stk) y true p) s) by (apply quiet_observe; eauto).
        split.
        { split; try done.
          - apply R_push_st; [by eapply R_cong; [..|exact HRo]| |].
            + intros f1 fs0 Hf0. simpl in Hf0. rewrite Hstk in Hf0. injection Hf0 as <- <-. split; simpl; try done.
              * split; [done|]. eauto.
              * unfold valid, sh_loc, sh_dep, fst, snd. simpl. by rewrite Hnd.
              * right. unfold sh_loc. simpl. split; [set_solver|]. rewrite Hct. destruct ct; [eauto|done].
              * rewrite Hfx. intros ->. destruct (i_frame _ _ _ _ (R_inv _ _ _ _ _ _ HR) x) as (c & Hc & _); [|congruence].
                rewrite Hstk. rewrite <- Hfx. by left.
              * intros Ho Hs. rewrite Hfx in Hs. by eapply s6_struct.
            + intros _. simpl. intros Hin%is_dup_spec.
              destruct (dup_edge _ _ _ _ _ HR Hin) as (f' & fs' & e' & pd & Es & Hin' & El & Ee & Hfe & Hcs').
              rewrite Es in HF. specialize (HF _ _ Hin' Ee).
              assert (Hw := fe_wfe _ _ _ _ _ _ _ Hfe). unfold wfe in Hw. unfold sh_dep, sh_loc, sh_eff in *. simpl in *.
              rewrite El in *. destruct (s_dep e'); try done; destruct Hw; congruence.
          - apply evo_refl.
          - refine (Frel_pushed _ e _ (stack s) _ _); [|simpl; set_solver]. eapply Frel_mono; [| |exact HF]; simpl; set_solver. }
        intros tb' Ek w Hfl Htr. simpl. by apply tr_map.
      * destruct (force_map_other _ _ _ _ _ _ _ _ _ _ _ _ _ _ HR Hnd Hnm Ea) as (w0 & Hw0 & ->).
        assert (node_ty nd = t) as Ht.
        { apply d_force_inv in Hw0 as [? Hl|? ? ? ? ? ? ? Hl]; rewrite Hct in Hl; injection Hl as ->; destruct nd; simpl in *; congruence. }
        eapply wp_det; [by apply res_node_eq|]. cbv beta iota.
        assert (wp (λ k0, let! v := force k0 t y None in ret (f0 v)) s (λ a' s1, a' = f0 w0 ∧ ∃ E, opok r0 (x :: stk) p p1 s s1 E ∧
          ∀ tb' Ek w, facts_le (table s1) tb' →
            tr tb' pth md (cur_shapes (stack s) ++ (shape <$> E.*1)) (k (f0 w0)) Ek w →
            tr tb' pth md (cur_shapes (stack s)) (ForceMap t (ALoc y) f0 k) ((shape <$> E.*1) ++ Ek) w)) as Hwp.
        { apply wp_bind. eapply wp_mono; [|by eapply (HSF r0 x stk md t y None p w0 p1 s f fs)].
          intros r s' (-> & E & Hok & Htr). eapply wp_val; [done|]. split; [done|]. exists E. split; [done|].
          intros tb' Ek w Hfl Htr'. destruct (ev_facts _ _ _ _ _ (ok_evo _ _ _ _ _ _ _ _ _ Hok) _ _ Hnd) as (nd1 & Hnd1 & Hn1).
          destruct (Hfl _ _ Hnd1) as (nd2 & Hnd2 & Hn2). eapply tr_map_force; [exact Hnd2| |].
          - intros ? ? ? ->. destruct nd, nd1; simpl in Hn1, Hn2; naive_solver.
          - by apply (Htr tb' pth (λ w, k (f0 w))). }
        destruct nd; [|exact Hwp..]. naive_solver.
  - (* force_abs *)
    destruct a as [w|y].
    + eapply (wp_ext (λ k0, run (force k0) (k (f0 w)))); [done|]. eapply wp_mono; [|by apply (IH (f0 w) r0 x stk pth md p v p' s f fs)].
      intros r s' (-> & E & Hok & Htr). split; [done|]. exists E. split; [done|]. by constructor.
    + cbn [Discipline.d_run] in Hd. unfold dbind in Hd.
      destruct (d_force_map opt (d_force n (x :: stk) md) true (x :: stk) t y f0 p) as [[a p1]|] eqn:Ea; [|done].
      assert (d_le p p1) as Hle1.
      { eapply d_force_map_pres; [|done|exact Ea]. intros; apply d_force_pres. }
      cbn [wrun force_abs_art]. eapply (seq_sim n _ k _ a r0 x stk pth md p p1); try done.
      assert (is_Some (d_store p !! y)) as (ct & Hct).
      { unfold d_force_map in Ea. destruct (d_store p !! y); [eauto|done]. }
      destruct (store_node _ _ _ _ _ _ _ _ HR Hct) as (nd & Hnd & Hcon).
      assert ((∃ t ps v, nd = NMut t ps v) ∨ (∀ t ps v, nd ≠ NMut t ps v)) as [(t0 & ps & v0 & ->)|Hnm] by (destruct nd; naive_solver).
      * by destruct (force_map_mut _ _ _ _ _ _ _ _ _ _ _ _ _ _ _ _ _ HR Hnd Ea) as (? & _).
      * destruct (force_map_other _ _ _ _ _ _ _ _ _ _ _ _ _ _ HR Hnd Hnm Ea) as (w0 & Hw0 & ->).
        assert (node_ty nd = t) as Ht.
        { apply d_force_inv in Hw0 as [? Hl|? ? ? ? ? ? ? Hl]; rewrite Hct in Hl; injection Hl as ->; destruct nd; simpl in *; congruence. }
        eapply wp_det; [by apply res_node_eq|]. cbv beta iota.
        assert (wp (λ k0, let! v := force k0 t y None in ret (f0 v)) s (λ a' s1, a' = f0 w0 ∧ ∃ E, opok r0 (x :: stk) p p1 s s1 E ∧
          ∀ tb' Ek w, facts_le (table s1) tb' →
            tr tb' pth md (cur_shapes (stack s) ++ (shape <$> E.*1)) (k (f0 w0)) Ek w →
            tr tb' pth md (cur_shapes (stack s)) (ForceAbs t (ALoc y) f0 k) ((shape <$> E.*1) ++ Ek) w)) as Hwp.
        { apply wp_bind. eapply wp_mono; [|by eapply (HSF r0 x stk md t y None p w0 p1 s f fs)].
          intros r s' (-> & E & Hok & Htr). eapply wp_val; [done|]. split; [done|]. exists E. split; [done|].
          intros tb' Ek w Hfl Htr'. destruct (ev_facts _ _ _ _ _ (ok_evo _ _ _ _ _ _ _ _ _ Hok) _ _ Hnd) as (nd1 & Hnd1 & Hn1).
          destruct (Hfl _ _ Hnd1) as (nd2 & Hnd2 & Hn2). eapply tr_abs_force; [exact Hnd2| |].
          - intros ? ? ? ->. destruct nd, nd1; simpl in Hn1, Hn2; naive_solver.
          - by apply (Htr tb' pth (λ w, k (f0 w))). }
        destruct nd; [|exact Hwp..]. naive_solver.
  - (* cell *)
    cbn [Discipline.d_run] in Hd. unfold dbind in Hd.
    destruct (d_cell opt (x :: stk) pth md t nm v0 p) as [[l p1]|] eqn:Ea; [|done].
    destruct (cell_sim opt md0 r0 (x :: stk) pth md t nm v0 p p1 s l) as (s1 & E & Hm & Hok & Htr); try done.
    cbn [wrun]. eapply (seq_sim n (λ _, watched ok (cell_op t nm v0)) k _ l r0 x stk pth md p p1); try done.
    + eapply d_alloc_pres; [|exact Ea]. done.
    + apply wp_watched; [by eapply Htest|intros r2 s2 (_ & E2 & Ho & _); eapply Htest, Ho|]. eapply wp_val; [done|]. split; [done|]. exists E. split; [done|]. intros tb' Ek w. apply Htr.
  - (* thunk *)
    cbn [Discipline.d_run] in Hd. unfold dbind in Hd.
    destruct (d_thunk opt (x :: stk) pth md t nc pp arg spur p) as [[l p1]|] eqn:Ea; [|done].
    destruct (thunk_sim opt md0 r0 (x :: stk) pth md t nc pp arg spur p p1 s l) as (s1 & E & Hm & Hok & Htr); try done.
    cbn [wrun]. eapply (seq_sim n (λ _, watched ok (thunk_op t nc pp arg spur)) k _ l r0 x stk pth md p p1); try done.
    + eapply d_thunk_pres; [|exact Ea]. done.
    + apply wp_watched; [by eapply Htest|intros r2 s2 (_ & E2 & Ho & _); eapply Htest, Ho|]. eapply wp_val; [done|]. split; [done|]. exists E. split; [done|]. intros tb' Ek w. apply Htr.
  - (* set *)
    cbn [Discipline.d_run] in Hd. unfold dbind in Hd. by destruct a.
  - (* ns *)
    cbn [Discipline.d_run] in Hd. unfold dbind in Hd.
    destruct (d_run (d_force n (x :: stk)) (x :: stk) (nm :: pth) md b p) as [[w p1]|] eqn:Ea; [|done].
    cbn [wrun]. eapply wp_det; [done|]. cbv beta. rewrite Hcp.
    set (s0 := set_cpath (nm :: pth) s).
    eapply (wp_ext (λ k0, bind (let! _ := modify (set_cpath (nm :: pth)) in let! v := run (force k0) b in let! _ := modify (set_cpath pth) in ret v)
      (λ v, run (force k0) (k v)))).
    { intros k0. unfold bind, modify. fold s0. by destruct (run (force k0) b s0) as [[]]. }
    eapply (seq_sim n _ k _ w r0 x stk pth md p p1); try done; [by eapply Hpres|].
    eapply wp_det; [done|]. fold s0. apply wp_bind.
    eapply wp_mono; [|eapply (IHb r0 x stk (nm :: pth) md p w p1 s0 f fs)]; try done; [|by eapply R_cong; [..|exact HR]].
    intros r s1 (-> & E & Hok & Htr). eapply wp_det; [done|]. eapply wp_val; [done|]. split; [done|]. exists E. split.
    { eapply opok_cong; [exact Hok|try done..]. apply (ok_structf _ _ _ _ _ _ _ _ _ Hok). }
    intros tb' Ek w' Hfl Htr'. eapply tr_ns; [|exact Htr']. eapply tr_mono; [exact Hfl|exact Htr].
  - (* structural *)
    cbn [Discipline.d_run] in Hd. unfold dbind in Hd.
    destruct (d_run (d_force n (x :: stk)) (x :: stk) pth true b p) as [[w p1]|] eqn:Ea; [|done].
    cbn [wrun]. eapply wp_det; [done|]. cbv beta. rewrite Hsf.
    set (s0 := set_structf true s).
    eapply (wp_ext (λ k0, bind (let! _ := modify (set_structf true) in let! v := run (force k0) b in let! _ := modify (set_structf md) in ret v)
      (λ v, run (force k0) (k v)))).
    { intros k0. unfold bind, modify. fold s0. by destruct (run (force k0) b s0) as [[]]. }
    eapply (seq_sim n _ k _ w r0 x stk pth md p p1); try done; [by eapply Hpres|].
    eapply wp_det; [done|]. fold s0. apply wp_bind.
    eapply wp_mono; [|eapply (IHb r0 x stk pth true p w p1 s0 f fs)]; try done; [|by eapply R_cong; [..|exact HR]].
    intros r s1 (-> & E & Hok & Htr). eapply wp_det; [done|]. eapply wp_val; [done|]. split; [done|]. exists E. split.
    { eapply opok_cong; [exact Hok|try done..]. apply (ok_cpath _ _ _ _ _ _ _ _ _ Hok). }
    intros tb' Ek w' Hfl Htr'. eapply tr_structural; [|exact Htr']. eapply tr_mono; [exact Hfl|exact Htr].
Qed.

(** ** Production *)
Lemma SP_step n : SF n → SP n.
Proof using All.
  intros HSF r0 stk x t c p v p1 s HR Hfu Hma Hc Ht Hnk Hnf Hcase Hmd Hwhy Hrun.
  destruct (R_produce_begin opt md0 r0 stk x p s c t) as (s1 & Hb & HR1 & Hev1 & Hstk1 & Hcp1 & Hsf1 & Hc1); try done.
  apply wp_S. cbn [wproduce]. unfold wproduce_body. fold (wforce ok).
  eapply wp_det; [exact Hb|]. cbv beta iota. eapply wp_det; [done|]. apply wp_bind.
  eapply wp_mono; [|eapply (run_sim n HSF _ r0 x stk (l_path x) md0 p v p1 (add_run x s1) (Frame x []) (stack s))]; try done.
  - intros r s2 (-> & E & Hok & Htr).
    destruct (ev_stk _ _ _ _ _ (ok_evo _ _ _ _ _ _ _ _ _ Hok) x (with_succs [] c)) as (c2 & Hc2 & _); [by left|done|].
    assert (Hsto := dle_frozen _ _ (proj2 (d_run_pres' opt md0 n x stk (l_path x) md0 _ _ _ _ (R_wf _ _ _ _ _ _ HR) Hrun)) x
       (R_seen _ _ _ _ _ _ HR x ltac:(by left))).
    rewrite (node_store _ _ _ _ _ _ _ _ HR Hc), (node_store _ _ _ _ _ _ _ _ (ok_R _ _ _ _ _ _ _ _ _ Hok) Hc2) in Hsto.
    simpl in Hsto. injection Hsto as E1 E2 E3 E4.
    assert (stack s2 = Frame x E :: stack s) as Hstk2.
    { rewrite (ok_stack _ _ _ _ _ _ _ _ _ Hok). simpl. by rewrite Hstk1. }
    destruct (R_produce_end opt md0 r0 stk x p1 s2 c2 t E (stack s) v (cpath s)) as
      (s3 & c3 & He & HR3 & Hev3 & Hstk3 & Hcp3 & Hsf3 & Hc3 & Ht3 & Hres3 & Hac3); try done; [apply Hok|congruence| |].
    { rewrite E2, E3, E4. simpl in Htr. rewrite Hstk1 in Htr. exact Htr. }
    eapply wp_det; [exact He|]. eapply wp_val; [done|]. split; [done|]. split; try done.
    + eapply evo_trans; [|exact Hev1|].
      { done. }
      eapply evo_trans; [|eapply evo_sub; [|apply Hok]|exact Hev3]; [|intros q Hq; by right].
      eapply d_run_pres'; [|exact Hrun]. apply HR.
    + rewrite Hsf3, (ok_structf _ _ _ _ _ _ _ _ _ Hok). done.
    + eauto.
  - simpl. rewrite Hstk1. simpl. intros e pd ?%elem_of_nil. done.
  - simpl. congruence.
Qed.

End Sim2.
