(** * C43: the built-in well-formedness check (/repo/src/engine.rs 2621-2715, [mod wf]), switched on by
      ADAPTON_CHECK_DCG (engine.rs 1491). *)
From Verif Require Export NodeInv Examples.

(** ** Only the edge that the engine looks at can be dirty

    The successors of a thunk may contain several edges with the same effect and target; the engine reads and writes
    the first of them.  In every state of the engine, whatever was run, all the others are clean. *)
Fixpoint okd (es : list succ) : Prop :=
  match es with
  | [] => True
  | e :: es => (∀ e', e' ∈ es → s_eff e' = s_eff e → s_loc e' = s_loc e → s_dirty e' = false) ∧ okd es
  end.
Definition good_node (nd : node) : Prop := match nd with NComp c => okd (c_succs c) | _ => True end.

Lemma okd_first es e : okd es → e ∈ es → s_dirty e = true → bit (s_eff e) (s_loc e) es = Some true.
Proof.
  unfold bit. induction es as [|e0 es IH]; intros Hok He Hd; [by apply elem_of_nil in He|]. destruct Hok as [Hk Hok]. simpl.
  destruct (decide _) as [[E1 E2]|Hne].
  - simpl. apply elem_of_cons in He as [->|He]; [by rewrite Hd|]. rewrite (Hk e He) in Hd; done.
  - apply elem_of_cons in He as [->|He]; [by destruct Hne|]. by apply IH.
Qed.
Lemma okd_clean es : (∀ e, e ∈ es → s_dirty e = false) → okd es.
Proof.
  induction es as [|e es IH]; simpl; intros Hc; [done|]. split.
  - intros e' He' _ _. apply Hc. by right.
  - apply IH. intros e' He'. apply Hc. by right.
Qed.
Lemma elem_mark b eff tgt es e' : e' ∈ mark_succ b eff tgt es →
  e' ∈ es ∨ (s_eff e' = eff ∧ s_loc e' = tgt).
Proof.
  induction es as [|e es IH]; simpl; [by left|]. destruct (decide _) as [[E1 E2]|Hne].
  - intros [->|He]%elem_of_cons; [by right|]. left. by right.
  - intros [->|He]%elem_of_cons; [left; by left|]. destruct (IH He) as [?|?]; [left; by right|by right].
Qed.
Lemma okd_mark b eff tgt es : okd es → okd (mark_succ b eff tgt es).
Proof.
  induction es as [|e es IH]; simpl; [done|]. intros [Hk Hok]. destruct (decide _) as [[E1 E2]|Hne]; simpl.
  - split; [|done]. intros e' He' F1 F2. by apply Hk.
  - split; [|by apply IH]. intros e' He' F1 F2. destruct (elem_mark _ _ _ _ _ He') as [He|[G1 G2]]; [by apply Hk|].
    destruct Hne. split; congruence.
Qed.

Lemma okd_stable `{Prog} po : stable po (λ _ nd, good_node nd).
Proof.
  split; intros; simpl in *; try done.
  - destruct nd; simpl in *; simplify_eq; done.
  - destruct nd; simpl in *; simplify_eq; done.
  - by apply okd_mark.
  - by destruct po.
  - by apply okd_clean.
Qed.

(** ** The checker *)
Inductive status := StDirty | StClean.
Global Instance status_eq_dec : EqDecision status.
Proof. solve_decision. Defined.
(** engine.rs:2640 [type Cs]; a missing entry is [Unknown] *)
Notation constraints := (gmap loc status).
(** engine.rs:2642-2657 [add_constraint]; [None]: "Inconsistent status" *)
Definition add_constraint (cs : constraints) (l : loc) (st : status) : option constraints :=
  match cs !! l with
  | None => Some (<[l := st]> cs)
  | Some st' => if decide (st' = st) then Some cs else None
  end.
(** engine.rs:1279-1291 [get_succ] *)
Definition get_succ (s : dcg) (src : loc) (eff : effect) (tgt : loc) : option succ :=
  match table s !! src with Some (NComp c) => find_succ eff tgt (c_succs c) | _ => None end.
(** [for x in xs], threading the constraints *)
Fixpoint wfor {A} (xs : list A) (f : A → constraints → out constraints) (cs : constraints) : out constraints :=
  match xs with
  | [] => OVal cs
  | x :: xs => match f x cs with OVal cs => wfor xs f cs | OPanic r => OPanic r | OFuel => OFuel end
  end.
(** engine.rs:2660-2673 [dirty].  The recursion goes up the graph with no visited set; fuel bounds its depth. *)
Fixpoint wf_dirty (n : nat) (s : dcg) (l : loc) (cs : constraints) : out constraints :=
  match n with
  | O => OFuel
  | S n =>
      match add_constraint cs l StDirty with
      | None => OPanic PAssert
      | Some cs =>
          match table s !! l with
          | None => OPanic PDangling
          | Some nd =>
              match preds_obs nd with
              | None => OPanic PUnreach
              | Some ps => wfor ps (λ '(p, _) cs,
                  match get_succ s p Observe l with
                  | None => OPanic PNoSucc
                  | Some e => if s_dirty e then wf_dirty n s p cs else OPanic PAssert  (* "Expected dirty edge, but found clean edge" *)
                  end) cs
              end
          end
      end
  end.
(** engine.rs:2676-2689 [clean] *)
Fixpoint wf_clean (n : nat) (s : dcg) (l : loc) (cs : constraints) : out constraints :=
  match n with
  | O => OFuel
  | S n =>
      match add_constraint cs l StClean with
      | None => OPanic PAssert
      | Some cs =>
          match table s !! l with
          | None => OPanic PDangling
          | Some (NComp c) => wfor (c_succs c) (λ e cs,
              match get_succ s l Observe (s_loc e) with
              | None => OPanic PNoSucc
              | Some e' => if s_dirty e' then OPanic PAssert else wf_clean n s (s_loc e) cs
              end) cs
          | Some _ => OVal cs
          end
      end
  end.
(** engine.rs:2691-2715 [check_dcg], the part under [check_dcg_is_wf].  The table is a [HashMap], whose iteration order
    is unspecified: [order] is any enumeration of it. *)
Definition check_dcg (n : nat) (s : dcg) (order : list (loc * node)) : out constraints :=
  match wfor (reverse (stack s)) (λ f, wf_clean n s (f_loc f)) ∅ with
  | OVal cs =>
      wfor order (λ '(l, nd), match nd with
        | NComp c => wfor (c_succs c) (λ e cs, if s_dirty e then wf_dirty n s l cs else OVal cs)
        | _ => λ cs, OVal cs
        end) cs
  | o => o
  end.

(** out of date: some edge the engine looks at is dirty *)
Definition outdated (s : dcg) (l : loc) : Prop :=
  ∃ c e, table s !! l = Some (NComp c) ∧ e ∈ c_succs c ∧ bit (s_eff e) (s_loc e) (c_succs c) = Some true.
(** the thunks being evaluated *)
Definition running (s : dcg) (l : loc) : Prop := ∃ f, f ∈ stack s ∧ f_loc f = l.

Section Check.
Context `{Prog}.
Context (opt md : bool).

(** Only running thunks are constrained to be clean. *)
Definition no_clean (s : dcg) (cs : constraints) : Prop := ∀ l st, cs !! l = Some st → running s l ∧ st = StClean ∨ ¬ running s l ∧ st = StDirty.
Definition fine (s : dcg) (o : out constraints) : Prop := match o with OVal cs => no_clean s cs | OPanic _ => False | OFuel => True end.
Lemma wfor_fine {A} s (xs : list A) f cs : (∀ x cs, x ∈ xs → no_clean s cs → fine s (f x cs)) → no_clean s cs → fine s (wfor xs f cs).
Proof.
  revert cs. induction xs as [|x xs IH]; intros cs Hf Hc; simpl; [done|].
  assert (Hx := Hf x cs ltac:(by left) Hc). destruct (f x cs) as [cs'|r|]; try done. apply IH; [|done]. intros y cs2 Hy. apply Hf. by right.
Qed.
Lemma add_dirty_fine s cs l : ¬ running s l → no_clean s cs → ∃ cs', add_constraint cs l StDirty = Some cs' ∧ no_clean s cs'.
Proof.
  intros Hr Hc. unfold add_constraint. destruct (cs !! l) as [st|] eqn:E.
  - destruct (Hc _ _ E) as [[? _]|[_ ->]]; [done|]. rewrite decide_True by done. eauto.
  - eexists. split; [done|]. intros x st. destruct (decide (x = l)) as [->|].
    + rewrite lookup_insert. intros [= <-]. by right.
    + rewrite lookup_insert_ne by done. apply Hc.
Qed.
Lemma add_clean_fine s cs l : running s l → no_clean s cs → ∃ cs', add_constraint cs l StClean = Some cs' ∧ no_clean s cs' ∧ cs ⊆ cs' ∧ cs' !! l = Some StClean.
Proof.
  intros Hr Hc. unfold add_constraint. destruct (cs !! l) as [st|] eqn:E.
  - destruct (Hc _ _ E) as [[_ ->]|[? _]]; [|done]. rewrite decide_True by done. eauto.
  - eexists. split; [done|]. split_and!; [|by apply insert_subseteq|by rewrite lookup_insert].
    intros x st. destruct (decide (x = l)) as [->|].
    + rewrite lookup_insert. intros [= <-]. by left.
    + rewrite lookup_insert_ne by done. apply Hc.
Qed.
Lemma running_frames s l : running s l ↔ l ∈ frames (stack s).
Proof. unfold running, frames. rewrite elem_of_list_fmap. naive_solver. Qed.
Lemma outdated_idle s l : Inv opt md (table s) (frames (stack s)) → outdated s l → ¬ running s l.
Proof.
  intros Hi (c & e & Hc & He & _) Hr%running_frames. destruct (i_frame _ _ _ _ Hi l Hr) as (c' & Hc' & Hn & _).
  rewrite Hc in Hc'. injection Hc' as <-. rewrite Hn in He. by apply elem_of_nil in He.
Qed.
Lemma inv_propagated s y c x cx e : Inv opt md (table s) (frames (stack s)) → table s !! y = Some (NComp c) → outdated s y →
  table s !! x = Some (NComp cx) → e ∈ c_succs cx → s_loc e = y → s_eff e = Observe → bit Observe y (c_succs cx) = Some true.
Proof.
  intros Hi Hy (c' & e' & Hc' & He' & Hb') Hx He <- Heff. rewrite Hy in Hc'. injection Hc' as <-.
  destruct (bit_dec Observe (s_loc e) (c_succs cx)) as [Hb|[?|Hb]]; [|done|].
  - destruct (bit_elem e _ He) as (b & Hb2). rewrite Heff in Hb2. congruence.
  - exfalso. rewrite <- Heff in Hb. assert (Hv := i_valid _ _ _ _ Hi _ _ _ Hx He Hb).
    destruct (i_edge _ _ _ _ Hi _ _ _ Hx He) as [Hw _].
    unfold valid, wfe, sh_loc, sh_dep, sh_eff, shape in *. simpl in *. rewrite Hy in *. destruct (s_dep e); try done.
    + destruct Hv as (Hr & Hac & _). rewrite (Hac _ He') in Hb'. done.
    + destruct Hw as [? _]. congruence.
    + destruct Hw as [? _]. congruence.
Qed.
Lemma wf_dirty_fine s : Inv opt md (table s) (frames (stack s)) → ∀ n l cs, outdated s l → no_clean s cs → fine s (wf_dirty n s l cs).
Proof.
  intros Hs n. induction n as [|n IH]; intros l cs Ho Hc; simpl; [done|].
  destruct (add_dirty_fine s cs l (outdated_idle _ _ Hs Ho) Hc) as (cs' & -> & Hc'). assert (Ho' := Ho). destruct Ho as (c & e & Hl & He & Hb). rewrite Hl. simpl.
  apply wfor_fine; [|done]. intros [p d] cs2 Hp Hc2. apply elem_of_list_omap in Hp as (pr & Hpr & Ep).
  destruct (decide (p_eff pr = Observe)) as [Eo|]; [|done]. injection Ep as <- <-.
  destruct (i_predinv _ _ _ _ Hs l (NComp c) pr Hl Hpr) as (cx & ex & Hx & Hex & Elx & Eex & _).
  assert (bit Observe l (c_succs cx) = Some true) as Hbx.
  { eapply (inv_propagated s l c (p_loc pr) cx ex); try done. congruence. }
  unfold get_succ. rewrite Hx. unfold bit in Hbx. destruct (find_succ Observe l (c_succs cx)) as [e2|] eqn:E2; [|done]. simpl in Hbx. injection Hbx as Hd. rewrite Hd.
  apply IH; [|done]. exists cx, ex. split; [done|]. split; [done|]. rewrite Eex, Elx, Eo. unfold bit. rewrite E2. simpl. by rewrite Hd.
Qed.
(** The check climbs the graph of observations, which has no cycles; so it ends. *)
Lemma wfor_nofuel {A} (xs : list A) f cs : (∀ x cs, x ∈ xs → f x cs ≠ OFuel) → wfor xs f cs ≠ OFuel.
Proof.
  revert cs. induction xs as [|x xs IH]; intros cs Hf; simpl; [done|].
  assert (Hx := Hf x cs ltac:(by left)). destruct (f x cs) as [cs'|r|]; try done. apply IH. intros y cs2 Hy. apply Hf. by right.
Qed.
Lemma size_bound (tb : gmap loc node) (vs : list loc) : NoDup vs → (∀ v, v ∈ vs → is_Some (tb !! v)) → (length vs ≤ size tb)%nat.
Proof.
  intros Hnd Hin. rewrite <- size_dom. rewrite <- (size_list_to_set (C:=gset loc) vs Hnd). apply subseteq_size.
  intros v Hv%elem_of_list_to_set. apply elem_of_dom. auto.
Qed.
Lemma wf_dirty_ends s : Inv opt md (table s) (frames (stack s)) → ∀ n l cs vs,
  NoDup (l :: vs) → (∀ v, v ∈ l :: vs → is_Some (table s !! v)) → (∀ v, v ∈ vs → tc (observes (table s)) l v) →
  (size (table s) ≤ n + length vs)%nat → wf_dirty n s l cs ≠ OFuel.
Proof.
  intros Hs n. induction n as [|n IH]; intros l cs vs Hnd Hin Hup Hsz.
  { assert (Hb := size_bound _ _ Hnd Hin). simpl in *. lia. }
  simpl. destruct (add_constraint cs l StDirty) as [cs'|]; [|done]. destruct (table s !! l) as [nd|] eqn:El; [|done].
  destruct (preds_obs nd) as [ps|] eqn:Eps; [|done]. apply wfor_nofuel. intros [p d] cs2 Hp.
  assert (p ∈ p_loc <$> filter (λ pr, p_eff pr = Observe) (node_preds nd)) as Hp'.
  { destruct nd as [t ps0 v|t v|c]; simpl in Eps; [|done|]; injection Eps as <-;
    apply elem_of_list_omap in Hp as (pr & Hpr & Ep); destruct (decide (p_eff pr = Observe)) as [Eo|]; try done; injection Ep as <- <-;
    apply elem_of_list_fmap; exists pr; (split; [done|]); by apply elem_of_list_filter. }
  apply elem_of_list_fmap in Hp' as (pr & -> & Hpr). apply elem_of_list_filter in Hpr as [Eo Hpr].
  destruct (i_predinv _ _ _ _ Hs l nd pr El Hpr) as (cx & ex & Hx & Hex & Elx & Eex & _).
  assert (observes (table s) (p_loc pr) l) as Hobs by (exists cx, ex; split_and!; congruence).
  assert (∀ v, v ∈ l :: vs → tc (observes (table s)) (p_loc pr) v) as Hup'.
  { intros v [->|Hv]%elem_of_cons; [by apply tc_once|]. eapply tc_l; [done|auto]. }
  destruct (get_succ s (p_loc pr) Observe l) as [e|]; [|done]. destruct (s_dirty e); [|done].
  apply (IH _ _ (l :: vs)); [|intros v [->|Hv]%elem_of_cons; [eauto|auto]|done|simpl; lia].
  apply NoDup_cons. split; [|done]. intros Hv. by apply (i_acyc _ _ _ _ Hs (p_loc pr)), Hup'.
Qed.
(** The thunks being evaluated have no recorded dependencies yet. *)
Lemma wf_clean_fine s n cs l : Inv opt md (table s) (frames (stack s)) → (size (table s) ≤ n)%nat → running s l → no_clean s cs →
  ∃ cs', wf_clean n s l cs = OVal cs' ∧ no_clean s cs' ∧ cs ⊆ cs' ∧ cs' !! l = Some StClean.
Proof.
  intros Hi Hn Hr Hc. destruct (i_frame _ _ _ _ Hi l) as (c & Hl & Hs & _); [by apply running_frames|].
  destruct n as [|n].
  { assert (Hb := size_bound (table s) [l] (NoDup_singleton _)). simpl in Hb. exfalso. assert (1 ≤ size (table s))%nat; [|lia].
    apply Hb. intros v ->%elem_of_list_singleton. eauto. }
  destruct (add_clean_fine s cs l Hr Hc) as (cs' & E & H1 & H2 & H3). exists cs'. simpl. rewrite E, Hl, Hs. done.
Qed.
Lemma wf_stack_fine s n : Inv opt md (table s) (frames (stack s)) → (size (table s) ≤ n)%nat → ∀ fs cs,
  (∀ f, f ∈ fs → f ∈ stack s) → no_clean s cs →
  ∃ cs', wfor fs (λ f, wf_clean n s (f_loc f)) cs = OVal cs' ∧ no_clean s cs' ∧ cs ⊆ cs' ∧ ∀ f, f ∈ fs → cs' !! f_loc f = Some StClean.
Proof.
  intros Hi Hn fs. induction fs as [|f fs IH]; intros cs Hf Hc; simpl.
  { exists cs. split_and!; try done. by intros f ?%elem_of_nil. }
  destruct (wf_clean_fine s n cs (f_loc f) Hi Hn) as (cs1 & E1 & H1 & H2 & H3); [|done|].
  { exists f. split; [|done]. apply Hf. by left. }
  rewrite E1. destruct (IH cs1) as (cs2 & E2 & G1 & G2 & G3); [intros g Hg; apply Hf; by right|done|].
  exists cs2. split_and!; try done; [by etransitivity|]. intros g [->|Hg]%elem_of_cons; [|by apply G3].
  by apply (lookup_weaken _ _ _ _ H3 G2).
Qed.
Lemma wfor_grows {A} (xs : list A) f cs cs' : (∀ x cs cs', x ∈ xs → f x cs = OVal cs' → cs ⊆ cs') → wfor xs f cs = OVal cs' → cs ⊆ cs'.
Proof.
  revert cs. induction xs as [|x xs IH]; intros cs Hf E; simpl in E; [by injection E as <-|].
  destruct (f x cs) as [cs1|r|] eqn:E1; try done. transitivity cs1; [eapply Hf; [by left|done]|].
  apply IH; [|done]. intros y cs2 cs3 Hy. apply Hf. by right.
Qed.
Lemma add_grows cs l st cs' : add_constraint cs l st = Some cs' → cs ⊆ cs' ∧ cs' !! l = Some st.
Proof.
  unfold add_constraint. destruct (cs !! l) as [st'|] eqn:E.
  - destruct (decide (st' = st)) as [->|]; [|done]. by intros [= <-].
  - intros [= <-]. split; [by apply insert_subseteq|by rewrite lookup_insert].
Qed.
Lemma wf_dirty_grows s n : ∀ l cs cs', wf_dirty n s l cs = OVal cs' → cs ⊆ cs' ∧ cs' !! l = Some StDirty.
Proof.
  induction n as [|n IH]; intros l cs cs' E; simpl in E; [done|].
  destruct (add_constraint cs l StDirty) as [cs1|] eqn:Ea; [|done]. destruct (add_grows _ _ _ _ Ea) as [H1 H2].
  destruct (table s !! l) as [nd|]; [|done]. destruct (preds_obs nd) as [ps|]; [|done].
  assert (cs1 ⊆ cs') as H3.
  { eapply wfor_grows; [|exact E]. intros [p d] cs2 cs3 _ E2. simpl in E2. destruct (get_succ s p Observe l) as [e|]; [|done]. destruct (s_dirty e); [|done]. by apply IH in E2 as [? _]. }
  split; [by transitivity cs1|]. by eapply lookup_weaken.
Qed.
Lemma wfor_each {A} (xs : list A) f cs cs' : wfor xs f cs = OVal cs' → ∀ x, x ∈ xs → ∃ cs1 cs2, f x cs1 = OVal cs2.
Proof.
  revert cs. induction xs as [|x xs IH]; intros cs E y Hy; [by apply elem_of_nil in Hy|]. simpl in E.
  destruct (f x cs) as [cs1|r|] eqn:E1; try done. apply elem_of_cons in Hy as [->|Hy]; [by exists cs, cs1|by eapply IH].
Qed.

(** In every state with the invariant, at the editor or in the middle of an evaluation, the check ends and finds no
    fault: running thunks are constrained to be clean, all others it constrains to be dirty. *)
Lemma check_passes s n order : Inv opt md (table s) (frames (stack s)) → (∀ l nd, table s !! l = Some nd → good_node nd) →
  order ≡ₚ map_to_list (table s) → (size (table s) ≤ n)%nat →
  ∃ cs, check_dcg n s order = OVal cs ∧ (∀ l, running s l → cs !! l = Some StClean) ∧
    ∀ l, ¬ running s l → ∀ st, cs !! l = Some st → st = StDirty.
Proof.
  intros Hi HJ Hord Hn. unfold check_dcg.
  destruct (wf_stack_fine s n Hi Hn (reverse (stack s)) ∅) as (cs0 & -> & H0 & _ & H1).
  { intros f. by rewrite elem_of_reverse. } { by intros ? ?; rewrite lookup_empty. }
  set (g := λ '(l, nd), match nd with NComp c => wfor (c_succs c) (λ e cs, if s_dirty e then wf_dirty n s l cs else OVal cs) | _ => λ cs, OVal cs end).
  assert (Hfine : fine s (wfor order g cs0)).
  { apply wfor_fine; [|done].
    intros [l nd] cs Hin Hc. rewrite Hord in Hin. apply elem_of_map_to_list in Hin. destruct nd as [| |c]; [done..|].
    apply wfor_fine; [|done]. intros e cs2 He Hc2. destruct (s_dirty e) eqn:Ed; [|done].
    apply wf_dirty_fine; [done| |done]. exists c, e. split; [done|]. split; [done|]. apply okd_first; [|done|done].
    apply (HJ l (NComp c) Hin). }
  assert (Hend : wfor order g cs0 ≠ OFuel).
  { apply wfor_nofuel. intros [l nd] cs Hin. rewrite Hord in Hin. apply elem_of_map_to_list in Hin. destruct nd as [| |c]; [done..|].
    apply wfor_nofuel. intros e cs2 He. destruct (s_dirty e); [|done].
    apply (wf_dirty_ends s Hi n l cs2 []); [apply NoDup_singleton|intros v ->%elem_of_list_singleton; eauto|by intros v ?%elem_of_nil|simpl; lia]. }
  destruct (wfor order g cs0) as [cs|r|] eqn:E; [|done..]. exists cs. split; [done|]. split.
  - intros l (f & Hf & <-). eapply lookup_weaken; [apply H1; by rewrite elem_of_reverse|].
    eapply wfor_grows; [|exact E]. intros [l nd] cs1 cs2 _ Eg. destruct nd as [| |c]; [by injection Eg as <-..|].
    eapply wfor_grows; [|exact Eg]. intros e cs3 cs4 _ Ee. simpl in Ee. destruct (s_dirty e); [by apply wf_dirty_grows in Ee as [? _]|by injection Ee as <-].
  - intros l Hl st Hst. destruct (Hfine _ _ Hst) as [[? _]|[_ ?]]; done.
Qed.
Lemma reached_good s : reached opt md s → ∀ l nd, table s !! l = Some nd → good_node nd.
Proof.
  intros (p & k & v & _ & Hx). assert (HJ : J opt (λ _ nd, good_node nd) s); [|apply HJ].
  eapply exec_keeps; [apply okd_stable| |exact Hx]. split; [done|]. intros x nd. simpl. by rewrite lookup_empty.
Qed.
(** After any disciplined history, in any iteration order, the check performed at the next operation of the editor ends
    and finds no fault; and every location it constrained is constrained to be dirty. *)
Theorem C43_check_passes s n order : reached opt md s → order ≡ₚ map_to_list (table s) → (size (table s) ≤ n)%nat →
  ∃ cs, check_dcg n s order = OVal cs ∧ ∀ l st, cs !! l = Some st → st = StDirty.
Proof.
  intros Hs Hord Hn. assert (stack s = []) as Hst.
  { destruct (reached_Ed _ _ _ Hs) as (HE & _). apply HE. }
  destruct (check_passes s n order) as (cs & E & _ & Hc); try done.
  { rewrite Hst. exact (reached_inv _ _ _ Hs). } { by apply reached_good. }
  exists cs. split; [done|]. intros l st Hl. eapply Hc; [|exact Hl]. intros (f & Hf & _). rewrite Hst in Hf. by apply elem_of_nil in Hf.
Qed.
(** The recorded observations never form a cycle, up to date or not. *)
Theorem C10_acyclic s l : reached opt md s → ¬ tc (λ x y, ∃ c e, table s !! x = Some (NComp c) ∧ e ∈ c_succs c ∧ s_eff e = Observe ∧ s_loc e = y) l l.
Proof. intros Hs. apply (i_acyc _ _ _ _ (reached_inv _ _ _ Hs)). Qed.
End Check.

(** The check at work on the state after the edits of [Examples.v]: it constrains five thunks to be dirty. *)
Lemma ex_check : reached (H:=demo) true false ex_s2 ∧ (size (table ex_s2) ≤ 20)%nat ∧
  match check_dcg 20 ex_s2 (map_to_list (table ex_s2)) with OVal cs => size cs = 5%nat | _ => False end.
Proof. split; [exact ex_s2_reached|]. split; [apply Nat.leb_le; vm_compute; reflexivity|vm_compute; reflexivity]. Qed.
