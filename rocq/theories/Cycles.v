(** * Exploring cyclic graphs with [force_cycle] (lib.rs:706-865).

    The thunk of node [n] allocates the thunks of the nodes adjacent to [n], forces each of them with the same
    cycle value [o], and combines the answers by [f].  The documentation has two adjacent nodes per node and
    [f] append the lists; here the graph, [f] and [o] are arbitrary. *)
From Verif Require Export Names Demands.
Local Open Scope string_scope.
Local Open Scope list_scope.

(** ** What the program should compute: a depth-first search that remembers finished nodes *)
Section Dfs.
Context (adj : N → list N) (f : N → list val → val) (o : val).
Fixpoint dfs_list (go : gmap N val → N → option (val * gmap N val)) (fin : gmap N val) (ns : list N)
    : option (list val * gmap N val) :=
  match ns with
  | [] => Some ([], fin)
  | n :: ns =>
      match go fin n with
      | Some (v, fin) => match dfs_list go fin ns with Some (vs, fin) => Some (v :: vs, fin) | None => None end
      | None => None
      end
  end.
(** [stk]: the nodes being visited; [done]: the finished ones with their values; [k] bounds the depth. *)
Fixpoint dfs (k : nat) (stk : list N) (fin : gmap N val) (n : N) : option (val * gmap N val) :=
  if decide (n ∈ stk) then Some (o, fin) else
  match fin !! n with
  | Some v => Some (v, fin)
  | None =>
      match k with
      | O => None
      | S k => match dfs_list (dfs k (n :: stk)) fin (adj n) with
               | Some (vs, fin) => Some (f n vs, <[n := f n vs]> fin)
               | None => None
               end
      end
  end.

(** An induction principle for finished searches. *)
Lemma dfs_ind (P : list N → gmap N val → N → val → gmap N val → Prop)
    (Q : list N → gmap N val → list N → list val → gmap N val → Prop) :
  (∀ stk fin n, n ∈ stk → P stk fin n o fin) →
  (∀ stk fin n v, n ∉ stk → fin !! n = Some v → P stk fin n v fin) →
  (∀ stk fin n vs fin', n ∉ stk → fin !! n = None → Q (n :: stk) fin (adj n) vs fin' →
     P stk fin n (f n vs) (<[n := f n vs]> fin')) →
  (∀ stk fin, Q stk fin [] [] fin) →
  (∀ stk fin n ns v vs d1 d2, P stk fin n v d1 → Q stk d1 ns vs d2 → Q stk fin (n :: ns) (v :: vs) d2) →
  ∀ k stk fin n v fin', dfs k stk fin n = Some (v, fin') → P stk fin n v fin'.
Proof.
  intros H1 H2 H3 H4 H5.
  assert (HL : ∀ go stk, (∀ fin n v fin', go fin n = Some (v, fin') → P stk fin n v fin') →
    ∀ ns fin vs fin', dfs_list go fin ns = Some (vs, fin') → Q stk fin ns vs fin').
  { intros go stk Hgo ns. induction ns as [|n ns IH]; intros fin vs fin' E; cbn [dfs_list] in E; [injection E as <- <-; auto|].
    destruct (go fin n) as [[v d1]|] eqn:E1; [|done]. destruct (dfs_list go d1 ns) as [[vs' d2]|] eqn:E2; [|done].
    injection E as <- <-. eauto. }
  induction k as [|k IH]; intros stk fin n v fin' E; cbn [dfs] in E.
  all: destruct (decide (n ∈ stk)); [injection E as <- <-; by auto|]; destruct (fin !! n) as [w|] eqn:Hn; [injection E as <- <-; by auto|].
  1: done.
  destruct (dfs_list (dfs k (n :: stk)) fin (adj n)) as [[vs d]|] eqn:E1; [|done]. injection E as <- <-.
  apply H3; [done..|]. eapply HL; [|exact E1]. apply IH.
Qed.

(** The search only adds nodes, none of them being visited, and the finished nodes have finished or visited neighbours. *)
Definition closed (stk : list N) (fin : gmap N val) : Prop :=
  ∀ m, is_Some (fin !! m) → ∀ x, x ∈ adj m → x ∈ stk ∨ is_Some (fin !! x).
Lemma dfs_facts k stk fin n v fin' : dfs k stk fin n = Some (v, fin') →
  fin ⊆ fin' ∧ (∀ m, is_Some (fin' !! m) → is_Some (fin !! m) ∨ m ∉ stk) ∧ (n ∈ stk ∨ is_Some (fin' !! n)) ∧
  (closed stk fin → closed stk fin').
Proof.
  revert k stk fin n v fin'.
  apply (dfs_ind (λ stk fin n v fin', fin ⊆ fin' ∧ (∀ m, is_Some (fin' !! m) → is_Some (fin !! m) ∨ m ∉ stk) ∧
      (n ∈ stk ∨ is_Some (fin' !! n)) ∧ (closed stk fin → closed stk fin'))
    (λ stk fin ns vs fin', fin ⊆ fin' ∧ (∀ m, is_Some (fin' !! m) → is_Some (fin !! m) ∨ m ∉ stk) ∧
      (∀ n, n ∈ ns → n ∈ stk ∨ is_Some (fin' !! n)) ∧ (closed stk fin → closed stk fin'))).
  - intros stk fin n Hn. split_and!; auto.
  - intros stk fin n v Hn Hv. split_and!; eauto.
  - intros stk fin n vs fin' Hn Hv (H1 & H2 & H3 & H4). split_and!.
    + etrans; [exact H1|]. apply insert_subseteq. destruct (fin' !! n) as [w|] eqn:E; [|done].
      destruct (H2 n ltac:(eauto)) as [[? ?]|Hns]; [congruence|]. destruct Hns. by left.
    + intros m. destruct (decide (m = n)) as [->|Hne]; [by right|]. rewrite lookup_insert_ne by done. intros [?|Hns]%H2; [by left|].
      right. intros ?. apply Hns. by right.
    + right. rewrite lookup_insert. eauto.
    + intros Hc. assert (Hc' : closed (n :: stk) fin').
      { apply H4. intros m Hm x Hx. destruct (Hc m Hm x Hx); [left; by right|by right]. }
      intros m Hm x Hx. destruct (decide (x = n)) as [->|Hxn]; [right; rewrite lookup_insert; eauto|].
      rewrite lookup_insert_ne by done.
      assert (x ∈ n :: stk ∨ is_Some (fin' !! x)) as [[?|?]%elem_of_cons|?]; [|done|by left|by right].
      destruct (decide (m = n)) as [->|Hmn]; [by apply H3|]. rewrite lookup_insert_ne in Hm by done. by eapply Hc'.
  - intros stk fin. split_and!; [done|auto|by intros ? ?%elem_of_nil|done].
  - intros stk fin n ns v vs d1 d2 (A1 & A2 & A3 & A4) (B1 & B2 & B3 & B4). split_and!.
    + by etrans.
    + intros m [Hm|Hm]%B2; [by apply A2|by right].
    + intros x [->|Hx]%elem_of_cons; [|by apply B3]. destruct A3 as [?|[w Hw]]; [by left|]. right. exists w. by eapply lookup_weaken.
    + auto.
Qed.
Lemma dfs_list_mono k stk fin ns vs fin' : dfs_list (dfs k stk) fin ns = Some (vs, fin') → fin ⊆ fin'.
Proof.
  revert fin vs. induction ns as [|n ns IH]; intros fin vs E; cbn [dfs_list] in E; [injection E as _ <-; done|].
  destruct (dfs k stk fin n) as [[v d1]|] eqn:E1; [|done]. destruct (dfs_list (dfs k stk) d1 ns) as [[vs' d2]|] eqn:E2; [|done].
  injection E as _ <-. destruct (dfs_facts _ _ _ _ _ _ E1) as [? _]. etrans; [done|]. by eapply IH.
Qed.

(** On a finite graph the search terminates: its depth is at most the number of nodes. *)
Lemma dfs_total (U : list N) : NoDup U → (∀ m x, m ∈ U → x ∈ adj m → x ∈ U) →
  ∀ k stk fin n, NoDup stk → stk ⊆ U → n ∈ U → (length U ≤ k + length stk)%nat → is_Some (dfs k stk fin n).
Proof.
  intros HU Hcl. induction k as [|k IH]; intros stk fin n Hnd Hsub Hn Hk; cbn [dfs].
  all: destruct (decide (n ∈ stk)) as [|Hns]; [eauto|]; destruct (fin !! n) as [v|]; [eauto|].
  - exfalso. assert (length (n :: stk) ≤ length U)%nat as Hle; [|cbn in Hle; lia].
    apply submseteq_length, NoDup_submseteq; [by constructor|]. intros x [->|?]%elem_of_cons; auto.
  - assert (∀ ns fin, ns ⊆ U → is_Some (dfs_list (dfs k (n :: stk)) fin ns)) as HL.
    { induction ns as [|x ns IHn]; intros d Hns'; cbn [dfs_list]; [eauto|].
      destruct (IH (n :: stk) d x) as [[v d1] ->]; [by constructor|set_solver|set_solver|cbn; lia|].
      destruct (IHn d1) as [[vs d2] ->]; [set_solver|eauto]. }
    destruct (HL (adj n) fin) as [[vs d] ->]; [|eauto]. intros x Hx. by eapply Hcl.
Qed.
End Dfs.

(** ** The program *)
Definition TV : ty := 7%N. (* Vec<usize> *)
Section Explore.
Context `{Hashes} (adj : N → list N) (f : N → list val → val) (o : val).
Definition enc (n : N) : val := VInt (Z.of_N n).
Definition nl (n : N) : loc := Loc [] (IdNom (name_of_usize n)).
Fixpoint allocs (ns : list N) (k : list loc → comp) : comp :=
  match ns with
  | [] => k []
  (* lib.rs:858-860 [explore_thunk] *)
  | n :: ns => Thunk TV (NCNominal (name_of_usize n)) "explore" (enc n) VUnit (λ l, allocs ns (λ ls, k (l :: ls)))
  end.
Fixpoint forces (ls : list loc) (k : list val → comp) : comp :=
  match ls with
  | [] => k []
  | l :: ls => Force TV (ALoc l) (Some o) (λ v, forces ls (λ vs, k (v :: vs)))
  end.
(** lib.rs:847-857 [explore] *)
Definition explore (n : N) : comp := allocs (adj n) (λ ls, forces ls (λ vs, Ret (f n vs))).
Definition explore_code (pp : progpt) (arg spur : val) : comp :=
  match pp, arg with "explore", VInt z => explore (Z.to_N z) | _, _ => Fail end.
Local Instance explore_prog : Prog := {| code := explore_code; hash_val _ := 0%N; hash_app _ _ := 0%N |}.
(** [get!(explore_thunk(n))] *)
Definition explore_main (n : N) : comp :=
  Thunk TV (NCNominal (name_of_usize n)) "explore" (enc n) VUnit (λ l, Force TV (ALoc l) None Ret).

Lemma nl_inj m n : nl m = nl n → m = n.
Proof. by intros [= _ ?]. Qed.

(** ** The engine state during the first exploration *)
Definition node_for (n : N) (r : option val) (c : compnode) : Prop :=
  c_ty c = TV ∧ c_pp c = "explore" ∧ c_arg c = enc n ∧ c_spur c = VUnit ∧ c_res c = r ∧
  match r with None => c_succs c = [] | Some _ => ∀ e, e ∈ c_succs c → s_dirty e = false end.
Record Exp (stk : list N) (fin : gmap N val) (s : dcg) : Prop := {
  e_stack : f_loc <$> stack s = nl <$> stk;
  e_path : cpath s = [];
  e_sf : structf s = false;
  e_tab : ∀ l nd, table s !! l = Some nd → ∃ n c, l = nl n ∧ nd = NComp c ∧ node_for n (fin !! n) c;
  e_done : ∀ n, is_Some (fin !! n) → is_Some (table s !! nl n) ∧ n ∉ stk;
  e_stk : ∀ n, n ∈ stk → is_Some (table s !! nl n);
  e_frames : ∀ fr e, fr ∈ stack s → e ∈ f_succs fr → s_dirty e.1 = false ∧ ∃ m, s_loc e.1 = nl m ∧ is_Some (table s !! nl m) ∧
     (s_eff e.1 = Observe → m ∈ stk ∨ is_Some (fin !! m));
}.
Lemma Exp_tab stk fin s n : Exp stk fin s → is_Some (table s !! nl n) → ∃ c, table s !! nl n = Some (NComp c) ∧ node_for n (fin !! n) c.
Proof. intros HE [nd Hn]. destruct (e_tab _ _ _ HE _ _ Hn) as (m & c & ->%nl_inj & -> & Hc). eauto. Qed.
Lemma Exp_ev stk fin s ev : Exp stk fin s → Exp stk fin (add_ev ev s).
Proof. intros []. by split. Qed.
Lemma Exp_push stk fin s n eff d : Exp stk fin s → is_Some (table s !! nl n) → (eff = Observe → n ∈ stk ∨ is_Some (fin !! n)) →
  ∃ s', push_edge (Succ false (nl n) eff d) None s = (OVal tt, s') ∧ Exp stk fin s' ∧ table s' = table s ∧ runs s' = runs s.
Proof.
  intros [H1 H2 H3 H4 H5 H6 H7] Hn Ho. eexists. split; [reflexivity|]. destruct (stack s) as [|fr fs] eqn:Es; [split; [split; by rewrite ?Es|done]|].
  split; [|done]. split; cbn; try done.
  intros fr' e [->|Hin]%elem_of_cons He.
  - cbn in He. apply elem_of_app in He as [He|He%elem_of_list_singleton]; [by apply (H7 fr); [left|]|]. subst e. cbn. split; [done|]. by exists n.
  - by apply (H7 fr'); [right|].
Qed.

Definition grows (s s' : dcg) : Prop := ∀ m, is_Some (table s !! nl m) → is_Some (table s' !! nl m).

Lemma thunk_exp stk fin s n : Exp stk fin s → ∃ s',
  thunk_op TV (NCNominal (name_of_usize n)) "explore" (enc n) VUnit s = (OVal (nl n), s') ∧ Exp stk fin s' ∧
  is_Some (table s' !! nl n) ∧ runs s' = runs s ∧ grows s s'.
Proof.
  intros HE. unfold thunk_op. rewrite (bind_val Engine.get _ s s s) by done. rewrite (e_sf _ _ _ HE), (e_path _ _ _ HE). cbv zeta iota.
  change (Loc [] (IdNom (name_of_usize n))) with (nl n). destruct (table s !! nl n) as [nd|] eqn:Hl.
  - destruct (e_tab _ _ _ HE _ _ Hl) as (m & c & <-%nl_inj & -> & Hc). destruct Hc as (C1 & C2 & C3 & _).
    rewrite (bind_val _ _ s (false, false, false) s).
    2:{ rewrite (bind_val _ _ s tt s). 2:{ cbn [node_ty]. by rewrite bool_decide_true. } by rewrite !decide_True. }
    cbv beta iota. set (ev := EvBegin _ _ _). rewrite (bind_val (emit ev) _ s tt (add_ev ev s)) by done.
    rewrite (bind_val (ret tt) _ (add_ev ev s) tt (add_ev ev s)) by done.
    rewrite (bind_val (emit EvEnd) _ _ tt (add_ev EvEnd (add_ev ev s))) by done.
    destruct (Exp_push stk fin (add_ev EvEnd (add_ev ev s)) n Allocate (DAllocThunk (enc n))) as (s' & E & HE' & Ht & Hr); [by do 2 apply Exp_ev|cbn; eauto|done|].
    rewrite (bind_val _ _ _ tt s') by exact E. rewrite (bind_val (ret tt) _ s' tt s') by done.
    exists s'. split; [done|]. split; [done|]. rewrite Ht. cbn. split; [eauto|]. split; [done|]. intros m. by rewrite Ht.
  - rewrite (bind_val _ _ s (false, true, true) s) by done. cbv beta iota.
    set (ev := EvBegin _ _ _). rewrite (bind_val (emit ev) _ s tt (add_ev ev s)) by done.
    rewrite (bind_val (ret tt) _ (add_ev ev s) tt (add_ev ev s)) by done.
    rewrite (bind_val (emit EvEnd) _ _ tt (add_ev EvEnd (add_ev ev s))) by done.
    set (s1 := add_ev EvEnd (add_ev ev s)). assert (Exp stk fin s1) as HE1 by (by do 2 apply Exp_ev).
    set (e := Succ false (nl n) Allocate (DAllocThunk (enc n))).
    set (nd := NComp (CompNode TV [] [] "explore" (enc n) VUnit None)).
    assert (fin !! n = None) as Hdn.
    { destruct (fin !! n) eqn:E; [|done]. destruct (e_done _ _ _ HE n) as [[? ?] _]; [eauto|congruence]. }
    eexists. split; [reflexivity|]. cbn. unfold push_edge, modify, s1. cbn.
    assert (∀ s0, stack s0 = match stack s with [] => [] | fr :: fs => Frame (f_loc fr) (f_succs fr ++ [(e, None)]) :: fs end →
      table s0 = <[nl n := nd]> (table s) → cpath s0 = cpath s → structf s0 = structf s → runs s0 = runs s →
      Exp stk fin s0 ∧ is_Some (table s0 !! nl n) ∧ runs s0 = runs s ∧ grows s s0) as HG.
    { clear s1 HE1. intros s0 S1 S2 S3 S4 S5. destruct HE as [H1 H2 H3 H4 H5 H6 H7].
      assert (grows s s0) as Hg.
      { intros m Hm. rewrite S2. destruct (decide (nl m = nl n)) as [->|]; [rewrite lookup_insert; eauto|by rewrite lookup_insert_ne]. }
      split; [|rewrite S2, lookup_insert; eauto]. split.
      - rewrite S1, <- H1. by destruct (stack s).
      - by rewrite S3.
      - by rewrite S4.
      - intros l nd0. rewrite S2. destruct (decide (l = nl n)) as [->|]; [rewrite lookup_insert|rewrite lookup_insert_ne by done; apply H4].
        intros [= <-]. exists n. eexists. split; [done|]. split; [done|]. by rewrite Hdn.
      - intros m Hm. destruct (H5 m Hm) as [? ?]. split; [by apply Hg|done].
      - intros m Hm. by apply Hg, H6.
      - intros fr e0 Hfr He0. rewrite S1 in Hfr. destruct (stack s) as [|f0 fs] eqn:Es; [by apply elem_of_nil in Hfr|].
        assert (e0.1 = e ∨ ∃ fr0, fr0 ∈ f0 :: fs ∧ e0 ∈ f_succs fr0) as [->|(fr0 & Hf0 & He1)].
        { apply elem_of_cons in Hfr as [->|Hfr]; [|right; exists fr; split; [by right|done]]. cbn in He0.
          apply elem_of_app in He0 as [?| ->%elem_of_list_singleton]; [right; exists f0; split; [by left|done]|by left]. }
        + split; [done|]. exists n. split; [done|]. split; [rewrite S2, lookup_insert; eauto|done].
        + destruct (H7 _ _ Hf0 He1) as (D & m & E1 & E2 & E3). split; [done|]. exists m. split; [done|]. split; [by apply Hg|done]. }
    match goal with |- Exp _ _ ?x ∧ _ => apply (HG x) end; cbn; destruct (stack s) eqn:Es; try done; cbn; by rewrite ?Es.
Qed.

Lemma allocs_exp frc stk fin s ns k : Exp stk fin s → ∃ s',
  run frc (allocs ns k) s = run frc (k (nl <$> ns)) s' ∧ Exp stk fin s' ∧ runs s' = runs s ∧ grows s s' ∧ ∀ n, n ∈ ns → is_Some (table s' !! nl n).
Proof.
  revert s k. induction ns as [|n ns IH]; intros s k HE.
  { exists s. split; [done|]. split; [done|]. split; [done|]. split; [by intros ?|by intros ? ?%elem_of_nil]. }
  destruct (thunk_exp stk fin s n HE) as (s1 & E1 & HE1 & Hn & Hr & Hg). cbn [allocs run fmap list_fmap].
  rewrite (bind_val _ _ s (nl n) s1) by exact E1. destruct (IH s1 (λ ls, k (nl n :: ls)) HE1) as (s2 & E2 & HE2 & Hr2 & Hg2 & Hns).
  exists s2. split; [exact E2|]. split; [done|]. split; [congruence|]. split; [by intros m ?%Hg%Hg2|].
  intros m [->|Hm]%elem_of_cons; [by apply Hg2|by apply Hns].
Qed.

Lemma cycle_stk stk fin s n : Exp stk fin s → is_cycle s (nl n) = bool_decide (n ∈ stk).
Proof.
  intros HE. assert (Hs := e_stack _ _ _ HE). unfold is_cycle. destruct (bool_decide_reflect (n ∈ stk)) as [Hn|Hn].
  - apply existsb_exists. assert (nl n ∈ f_loc <$> stack s) as (fr & Hf & Hin)%elem_of_list_fmap by (rewrite Hs; by apply elem_of_list_fmap_1).
    exists fr. split; [by apply elem_of_list_In|]. by apply bool_decide_eq_true.
  - apply not_true_is_false. rewrite existsb_exists. intros (fr & Hf & Hfl%bool_decide_eq_true_1). apply Hn.
    assert (f_loc fr ∈ f_loc <$> stack s) as Hin by (apply elem_of_list_fmap_1; by apply elem_of_list_In).
    rewrite Hs, Hfl in Hin. apply elem_of_list_fmap in Hin as (m & <-%nl_inj & ?). done.
Qed.
Lemma dup_seen stk fin s n : Exp stk fin s → is_dup s (nl n) = true → n ∈ stk ∨ is_Some (fin !! n).
Proof.
  intros HE. unfold is_dup. destruct (stack s) as [|fr fs] eqn:Es; [done|]. rewrite existsb_exists.
  intros (e & He & [Hl Ho]%bool_decide_eq_true_1). destruct (e_frames _ _ _ HE fr e) as (_ & m & Hm & _ & Hobs); [rewrite Es; by left|by apply elem_of_list_In|].
  rewrite Hl in Hm. apply nl_inj in Hm as ->. auto.
Qed.
Lemma finish_exp stk fin s n dup v : Exp stk fin s → is_Some (table s !! nl n) → n ∈ stk ∨ is_Some (fin !! n) →
  ∃ s', force_finish (nl n) dup false TV v s = (OVal v, s') ∧ Exp stk fin s' ∧ runs s' = runs s ∧ grows s s'.
Proof.
  intros HE Hn Ho. unfold force_finish. rewrite orb_false_r. destruct dup.
  - rewrite (bind_val _ _ s tt s) by done. exists s. split; [done|]. split; [done|]. split; [done|]. by intros ?.
  - destruct (Exp_push stk fin s n Observe (DForce TV v) HE Hn) as (s' & E & HE' & Ht & Hr); [done|].
    rewrite (bind_val _ _ s tt s') by exact E. exists s'. split; [done|]. split; [done|]. split; [done|]. intros m. by rewrite Ht.
Qed.

(** Entering predecessors changes nothing else. *)
Definition preds_only (s s' : dcg) : Prop :=
  stack s' = stack s ∧ cpath s' = cpath s ∧ structf s' = structf s ∧ runs s' = runs s ∧
  ∀ l, match table s !! l with
       | Some (NComp c) => ∃ ps, table s' !! l = Some (NComp (with_preds ps c))
       | x => table s' !! l = x
       end.
Lemma insert_exp src es s : (∀ e, e ∈ es → s_dirty e.1 = false ∧ ∃ c, table s !! s_loc e.1 = Some (NComp c)) →
  ∃ s', insert_preds src es s = (OVal tt, s') ∧ preds_only s s'.
Proof.
  revert s. induction es as [|[e pd] es IH]; intros s Hes.
  { exists s. split; [done|]. do 4 (split; [done|]). intros l. destruct (table s !! l) as [[| |c]|]; try done. exists (c_preds c). by destruct c. }
  unfold insert_preds. cbn [mfor]. fold (insert_preds src es).
  destruct (Hes (e, pd)) as (Hd & c & Hc); [by left|]. cbn [fst] in Hd, Hc.
  set (nd := NComp (with_preds (c_preds c ++ [Pred src (s_eff e) pd]) c)). set (s1 := set_table (<[s_loc e := nd]> (table s)) s).
  rewrite (bind_val _ _ s tt s1).
  2:{ rewrite Hd. rewrite (bind_val (assert _ _) _ s tt s) by done. rewrite (bind_val _ _ s (NComp c) s) by (by apply lookup_abs_eq). done. }
  destruct (IH s1) as (s' & E & P1 & P2 & P3 & P4 & P5).
  { intros e' He'. destruct (Hes e') as (Hd' & c' & Hc'); [by right|]. split; [done|]. unfold s1. cbn.
    destruct (decide (s_loc e'.1 = s_loc e)) as [->|]; [rewrite lookup_insert; by eexists|rewrite lookup_insert_ne by done; eauto]. }
  exists s'. split; [exact E|]. do 4 (split; [done|]). intros l. specialize (P5 l). unfold s1 in P5. cbn in P5.
  destruct (decide (l = s_loc e)) as [->|]; [|by rewrite lookup_insert_ne in P5].
  rewrite lookup_insert in P5. rewrite Hc. destruct P5 as [ps Hps]. exists ps. rewrite Hps. by destruct c.
Qed.

Section Produce.
Variable k : nat.
Hypothesis IH : ∀ stk fin n v fin' s cyc, dfs adj f o k stk fin n = Some (v, fin') → Exp stk fin s → is_Some (table s !! nl n) →
  cyc = Some o ∨ n ∉ stk → ∃ s' rs, force (S k) TV (nl n) cyc s = (OVal v, s') ∧ Exp stk fin' s' ∧ grows s s' ∧
    runs s' = (nl <$> rs) ++ runs s ∧ NoDup rs ∧ ∀ m, m ∈ rs ↔ fin !! m = None ∧ is_Some (fin' !! m).
Lemma forces_exp stk ns : ∀ fin vs fin' s kont, dfs_list (dfs adj f o k stk) fin ns = Some (vs, fin') → Exp stk fin s →
  (∀ n, n ∈ ns → is_Some (table s !! nl n)) →
  ∃ s' rs, run (force (S k)) (forces (nl <$> ns) kont) s = run (force (S k)) (kont vs) s' ∧ Exp stk fin' s' ∧ grows s s' ∧
    runs s' = (nl <$> rs) ++ runs s ∧ NoDup rs ∧ ∀ m, m ∈ rs ↔ fin !! m = None ∧ is_Some (fin' !! m).
Proof using All.
  induction ns as [|n ns IHn]; intros fin vs fin' s kont E HE Hns; cbn [dfs_list] in E.
  { injection E as <- <-. exists s, []. split; [done|]. split; [done|]. split; [by intros ?|]. split; [done|]. split; [constructor|].
    intros m. split; [by intros ?%elem_of_nil|]. intros [H1 [? ?]]. congruence. }
  destruct (dfs adj f o k stk fin n) as [[v d1]|] eqn:E1; [|done]. destruct (dfs_list (dfs adj f o k stk) d1 ns) as [[vs' d2]|] eqn:E2; [|done].
  injection E as <- <-. destruct (IH _ _ _ _ _ s (Some o) E1 HE) as (s1 & r1 & F1 & HE1 & G1 & R1 & N1 & M1); [apply Hns; by left|by left|].
  destruct (IHn d1 vs' d2 s1 (λ vs, kont (v :: vs)) E2 HE1) as (s2 & r2 & F2 & HE2 & G2 & R2 & N2 & M2); [intros m Hm; apply G1, Hns; by right|].
  exists s2, (r2 ++ r1). cbn [fmap list_fmap forces run force_art]. rewrite (bind_val _ _ s v s1) by exact F1.
  split; [exact F2|]. split; [done|]. split; [by intros m ?%G1%G2|]. split; [rewrite R2, R1, fmap_app; by rewrite app_assoc|].
  destruct (dfs_facts _ _ _ _ _ _ _ _ _ E1) as [S1 _]. assert (S2 := dfs_list_mono _ _ _ _ _ _ _ _ _ E2). split.
  - apply NoDup_app. split; [done|]. split; [|done]. intros m [H1 _]%M2 [_ [w Hw]]%M1. congruence.
  - intros m. rewrite elem_of_app, M1, M2. split.
    + intros [[H1 H2]|[H1 [w Hw]]].
      * split; [|done]. destruct (fin !! m) as [w|] eqn:Ew; [|done]. rewrite (lookup_weaken _ _ _ _ Ew S1) in H1. done.
      * split; [done|]. exists w. by eapply lookup_weaken.
    + intros [H1 H2]. destruct (d1 !! m) as [w|] eqn:Ew; [right; by eauto|by left].
Qed.

Lemma produce_exp stk fin n vs fin' s :
  n ∉ stk → fin !! n = None → dfs_list (dfs adj f o k (n :: stk)) fin (adj n) = Some (vs, fin') → Exp stk fin s → is_Some (table s !! nl n) →
  ∃ s' rs, produce (S (S k)) TV (nl n) s = (OVal (f n vs), s') ∧ Exp stk (<[n := f n vs]> fin') s' ∧ grows s s' ∧
    runs s' = (nl <$> rs) ++ runs s ∧ NoDup rs ∧ ∀ m, m ∈ rs ↔ fin !! m = None ∧ is_Some (<[n := f n vs]> fin' !! m).
Proof using All.
  intros Hn Hfn E HE Hin. destruct (Exp_tab _ _ _ _ HE Hin) as (c & Hc & C1 & C2 & C3 & C4 & C5 & C6). rewrite Hfn in C5, C6.
  change (produce (S (S k)) TV (nl n)) with (produce_body (force (S k)) TV (nl n)). unfold produce_body.
  set (s1 := set_cpath [] (set_stack (Frame (nl n) [] :: stack s) (set_table (<[nl n := NComp c]> (table s)) s))).
  assert (produce_begin TV (nl n) s = (OVal (c, []), s1)) as B1.
  { unfold produce_begin. rewrite (bind_val _ _ s (NComp c) s) by (by apply res_node_eq). rewrite C6.
      assert (with_succs [] c = c) as -> by (destruct c; cbn in *; by subst).
      unfold bind, put_node, modify, revoke_succs, Engine.get, ret. cbn. rewrite (res_node_eq TV (nl n) _ (NComp c)); [|cbn; by rewrite lookup_insert|done].
      by rewrite (e_path _ _ _ HE). }
  assert (Exp (n :: stk) fin (add_run (nl n) s1)) as HE1.
  { assert (Ht : ∀ l, table (add_run (nl n) s1) !! l = table s !! l).
    { intros l. cbn. destruct (decide (l = nl n)) as [->|]; [by rewrite lookup_insert|by rewrite lookup_insert_ne]. }
    destruct HE as [H1 H2 H3 H4 H5 H6 H7]. split.
    - cbn. by rewrite H1.
    - done.
    - done.
    - intros l nd. rewrite Ht. apply H4.
    - intros m Hm. rewrite Ht. destruct (H5 m Hm) as [? ?]. split; [done|]. intros [->|?]%elem_of_cons; [|done]. rewrite Hfn in Hm. by destruct Hm.
    - intros m. rewrite Ht. intros [->|?]%elem_of_cons; auto.
    - intros fr e [->|Hfr]%elem_of_cons He; [by apply elem_of_nil in He|]. destruct (H7 fr e Hfr He) as (D & m & E1 & E2 & E3).
      split; [done|]. exists m. split; [done|]. rewrite Ht. split; [done|]. intros Ho. destruct (E3 Ho); [left; by right|by right]. }
  destruct (allocs_exp (force (S k)) (n :: stk) fin (add_run (nl n) s1) (adj n) (λ ls, forces ls (λ vs, Ret (f n vs))) HE1) as (s2 & E2 & HE2 & R2 & G2 & Hns).
  destruct (forces_exp (n :: stk) (adj n) fin vs fin' s2 (λ vs, Ret (f n vs)) E HE2 Hns) as (s3 & rs & E3 & HE3 & G3 & R3 & N3 & M3).
  assert (run (force (S k)) (code (c_pp c) (c_arg c) (c_spur c)) (add_run (nl n) s1) = (OVal (f n vs), s3)) as B2.
  { rewrite C2, C3, C4. cbn [code explore_prog explore_code enc]. rewrite N2Z.id. unfold explore. rewrite E2. exact E3. }
  assert (fin ⊆ fin' ∧ fin' !! n = None) as [Hsub Hfn'].
  { split; [by eapply dfs_list_mono|]. destruct (fin' !! n) eqn:Ef; [|done]. destruct (e_done _ _ _ HE3 n) as [_ Hx]; [eauto|]. destruct Hx. by left. }
  (* the end of the production *)
  assert (Hstk := e_stack _ _ _ HE3). destruct (stack s3) as [|fr fs] eqn:Es3; [done|]. cbn in Hstk. injection Hstk as Hfr Hfs.
  set (s4 := set_stack fs (set_cpath [] s3)).
  destruct (insert_exp (nl n) (f_succs fr) s4) as (s5 & E5 & P1 & P2 & P3 & P4 & P5).
  { intros e He. destruct (e_frames _ _ _ HE3 fr e) as (D & m & L1 & L2 & _); [rewrite Es3; by left|done|].
    split; [done|]. rewrite L1. destruct (Exp_tab _ _ _ _ HE3 L2) as (cm & Hcm & _). cbn. eauto. }
  destruct (Exp_tab _ _ _ n HE3) as (c3 & Hc3 & D1 & D2 & D3 & D4 & D5 & D6); [apply G3, G2; cbn; rewrite lookup_insert; eauto|].
  assert (H5n := P5 (nl n)). cbn in H5n. rewrite Hc3 in H5n. destruct H5n as [ps H5n].
  set (cn := with_res (Some (f n vs)) (with_succs (f_succs fr).*1 (with_preds ps c3))).
  set (s6 := set_table (<[nl n := NComp cn]> (table s5)) s5).
  assert (produce_end TV (nl n) [] (f n vs) s3 = (OVal tt, s6)) as B3.
  { unfold produce_end. rewrite (bind_val (modify _) _ s3 tt (set_cpath [] s3)) by done.
      rewrite (bind_val Engine.get _ _ (set_cpath [] s3) (set_cpath [] s3)) by done. cbn [stack set_cpath]. rewrite Es3.
      rewrite (bind_val (modify _) _ _ tt s4) by done. rewrite (bind_val (assert _ _) _ s4 tt s4) by (rewrite bool_decide_true by done; done).
      rewrite (bind_val _ _ s4 tt s5) by exact E5.
      rewrite (bind_val _ _ s5 (NComp (with_preds ps c3)) s5) by (apply res_node_eq; [exact H5n|done]). done. }
  assert (Hex : ∀ m, is_Some (table s3 !! nl m) → is_Some (table s6 !! nl m)).
  { intros m Hm. unfold s6. cbn. destruct (decide (nl m = nl n)) as [->|]; [rewrite lookup_insert; eauto|]. rewrite lookup_insert_ne by done.
    destruct (Exp_tab _ _ _ _ HE3 Hm) as (cm & Hcm & _). specialize (P5 (nl m)). cbn in P5. rewrite Hcm in P5. destruct P5 as [? ->]. eauto. }
  exists s6, (rs ++ [n]). split.
  { etransitivity; [eapply bind_val, B1|]. cbv beta iota. rewrite (bind_val _ _ s1 tt (add_run (nl n) s1)) by done.
    rewrite (bind_val _ _ _ (f n vs) s3) by exact B2. by rewrite (bind_val _ _ _ tt s6) by exact B3. }
  split; [|split; [|split; [|split]]].
  - split.
    + unfold s6. cbn. rewrite P1. cbn. by rewrite Hfs.
    + unfold s6. cbn. by rewrite P2.
    + unfold s6. cbn. rewrite P3. cbn. apply (e_sf _ _ _ HE3).
    + intros l nd. unfold s6. cbn. destruct (decide (l = nl n)) as [->|Hne].
      * rewrite lookup_insert. intros [= <-]. exists n, cn. split; [done|]. split; [done|]. rewrite lookup_insert.
        split; [done|]. split; [done|]. split; [done|]. split; [done|]. split; [done|]. cbn.
        intros e (e' & -> & He')%elem_of_list_fmap. destruct (e_frames _ _ _ HE3 fr e') as (D & _); [rewrite Es3; by left|done|done].
      * rewrite lookup_insert_ne by done. intros Hl. specialize (P5 l). cbn in P5. destruct (table s3 !! l) as [nd3|] eqn:Hl3; [|congruence].
        destruct (e_tab _ _ _ HE3 _ _ Hl3) as (m & cm & -> & -> & Hm). destruct P5 as [ps' Hps]. rewrite Hl in Hps. injection Hps as ->.
        exists m. eexists. split; [done|]. split; [done|]. assert (m ≠ n) by congruence. rewrite lookup_insert_ne by done. exact Hm.
    + intros m. destruct (decide (m = n)) as [->|Hne].
      * intros _. split; [|done]. apply Hex. rewrite Hc3. eauto.
      * rewrite lookup_insert_ne by done. intros Hm. destruct (e_done _ _ _ HE3 m Hm) as [? Hx]. split; [by apply Hex|]. intros ?. apply Hx. by right.
    + intros m Hm. apply Hex, (e_stk _ _ _ HE3). by right.
    + unfold s6. cbn. rewrite P1. cbn. intros fr' e Hfr' He. destruct (e_frames _ _ _ HE3 fr' e) as (D & m & L1 & L2 & L3); [rewrite Es3; by right|done|].
      split; [done|]. exists m. split; [done|]. split; [by apply Hex|]. intros Ho. destruct (decide (m = n)) as [->|Hne]; [right; rewrite lookup_insert; eauto|].
      rewrite lookup_insert_ne by done. destruct (L3 Ho) as [[?|?]%elem_of_cons|?]; [done|by left|by right].
  - intros m Hm. apply Hex, G3, G2. cbn. destruct (decide (nl m = nl n)) as [->|]; [rewrite lookup_insert; eauto|by rewrite lookup_insert_ne].
  - unfold s6. cbn. rewrite P4. cbn. rewrite R3, R2, fmap_app. cbn. by rewrite <- app_assoc.
  - apply NoDup_app. split; [done|]. split; [|apply NoDup_singleton]. intros m [_ [w Hw]]%M3 ->%elem_of_list_singleton. congruence.
  - intros m. rewrite elem_of_app, elem_of_list_singleton, M3. destruct (decide (m = n)) as [->|Hne].
    + rewrite lookup_insert. split; [intros _; split; [done|eauto]|auto].
    + rewrite lookup_insert_ne by done. naive_solver.
Qed.
End Produce.

(** The engine computes what the search computes. *)
Lemma force_exp k : ∀ stk fin n v fin' s cyc, dfs adj f o k stk fin n = Some (v, fin') → Exp stk fin s → is_Some (table s !! nl n) →
  cyc = Some o ∨ n ∉ stk → ∃ s' rs, force (S k) TV (nl n) cyc s = (OVal v, s') ∧ Exp stk fin' s' ∧ grows s s' ∧
    runs s' = (nl <$> rs) ++ runs s ∧ NoDup rs ∧ ∀ m, m ∈ rs ↔ fin !! m = None ∧ is_Some (fin' !! m).
Proof.
  induction k as [k IHk] using lt_wf_ind. intros stk fin n v fin' s cyc E HE Hin Hcyc.
  destruct (Exp_tab _ _ _ _ HE Hin) as (c & Hc & C1 & C2 & C3 & C4 & C5 & C6).
  unfold force, force_loc. rewrite (bind_val Engine.get _ s s s) by done. cbv zeta.
  rewrite (bind_val _ _ s (NComp c) s) by (by apply res_node_eq). rewrite (cycle_stk _ _ _ _ HE).
  change (is_struct (nl n)) with false. cbn [andb].
  assert (Hsame : ∀ dup v0 s0, Exp stk fin s0 → runs s0 = runs s → grows s s0 → n ∈ stk ∨ is_Some (fin !! n) →
    ∃ s' rs, force_finish (nl n) dup false TV v0 s0 = (OVal v0, s') ∧ Exp stk fin s' ∧ grows s s' ∧
      runs s' = (nl <$> rs) ++ runs s ∧ NoDup rs ∧ ∀ m, m ∈ rs ↔ fin !! m = None ∧ is_Some (fin !! m)).
  { intros dup v0 s0 HE0 Hr Hg Ho. destruct (finish_exp stk fin s0 n dup v0 HE0 (Hg _ Hin) Ho) as (s' & E' & HE' & Hr' & Hg').
    exists s', []. split; [exact E'|]. split; [done|]. split; [by intros m ?%Hg%Hg'|]. split; [cbn; congruence|]. split; [constructor|].
    intros m. split; [by intros ?%elem_of_nil|]. intros [? [? ?]]. congruence. }
  destruct (bool_decide_reflect (n ∈ stk)) as [Hn|Hn].
  - assert (dfs adj f o k stk fin n = Some (o, fin)) as E' by (destruct k; cbn [dfs]; by rewrite decide_True).
    rewrite E' in E. injection E as <- <-. destruct Hcyc as [->|?]; [|done].
    set (ev := EvBegin _ _ _). rewrite (bind_val (emit ev) _ s tt (add_ev ev s)) by done.
    rewrite (bind_val (emit EvEnd) _ _ tt (add_ev EvEnd (add_ev ev s))) by done.
    apply Hsame; [by do 2 apply Exp_ev|done|by intros ?|by left].
  - destruct (fin !! n) as [v0|] eqn:Hf.
    + assert (dfs adj f o k stk fin n = Some (v0, fin)) as E' by (destruct k; cbn [dfs]; rewrite decide_False by done; by rewrite Hf).
      rewrite E' in E. injection E as <- <-. rewrite C5.
      set (ev := EvBegin _ _ _). rewrite (bind_val (emit ev) _ s tt (add_ev ev s)) by done. cbn [clean]. unfold clean_body at 1.
      rewrite (bind_val _ _ (add_ev ev s) (bool_decide (v0 ≠ v0)) (add_ev ev s)).
      2:{ rewrite (bind_val _ _ (add_ev ev s) (NComp c) (add_ev ev s)) by (by apply res_node_eq). rewrite C5.
          apply clean_comp_clean. intros e He. unfold nbit. cbn. rewrite Hc. destruct (bit_elem e _ He) as (b & Hb). rewrite Hb.
          unfold bit in Hb. destruct (find_succ (s_eff e) (s_loc e) (c_succs c)) as [e'|] eqn:Ee; [|done]. apply find_succ_Some in Ee as [He' _].
          cbn in Hb. injection Hb as <-. by rewrite C6. }
      rewrite (bind_val (emit EvEnd) _ (add_ev ev s) tt (add_ev EvEnd (add_ev ev s))) by done.
      rewrite (bind_val _ _ _ (NComp c) (add_ev EvEnd (add_ev ev s))) by (by apply res_node_eq). rewrite C5.
      apply Hsame; [by do 2 apply Exp_ev|done|by intros ?|right; eauto].
    + destruct k as [|k]; cbn [dfs] in E; rewrite decide_False in E by done; rewrite Hf in E; [done|].
      destruct (dfs_list (dfs adj f o k (n :: stk)) fin (adj n)) as [[vs d]|] eqn:E1; [|done]. injection E as <- <-.
      rewrite C5. set (ev := EvBegin _ _ _). rewrite (bind_val (emit ev) _ s tt (add_ev ev s)) by done.
      assert (is_dup s (nl n) = false) as Hdup.
      { destruct (is_dup s (nl n)) eqn:Ed; [|done]. destruct (dup_seen _ _ _ _ HE Ed) as [?|[? ?]]; [done|congruence]. }
      rewrite Hdup. rewrite (bind_val (assert _ _) _ _ tt (add_ev ev s)) by done.
      destruct (produce_exp k (IHk k ltac:(lia)) stk fin n vs d (add_ev ev s) Hn Hf E1 (Exp_ev _ _ _ _ HE) Hin) as (s1 & rs & F1 & HE1 & G1 & R1 & N1 & M1).
      rewrite (bind_val _ _ _ (f n vs) s1) by exact F1. rewrite (bind_val (emit EvEnd) _ s1 tt (add_ev EvEnd s1)) by done.
      destruct (finish_exp stk (<[n := f n vs]> d) (add_ev EvEnd s1) n false (f n vs)) as (s2 & F2 & HE2 & R2 & G2).
      { by apply Exp_ev. } { cbn. by apply G1. } { right. rewrite lookup_insert. eauto. }
      exists s2, rs. split; [exact F2|]. split; [done|]. split; [intros m Hm; apply G2, G1; exact Hm|]. split; [rewrite R2; exact R1|]. done.
Qed.

(** C61.  On every finite graph, from a new engine, the program returns the result of the depth-first search and runs
    every node it finishes exactly once; without the engine's cycle check it would not terminate. *)
Theorem C61_explores U n opt : NoDup U → (∀ m x, m ∈ U → x ∈ adj m → x ∈ U) → n ∈ U →
  ∃ v fin s' rs, dfs adj f o (length U) [] ∅ n = Some (v, fin) ∧
    (∃ K, ∀ k, (K ≤ k)%nat → exec k (explore_main n) (dcg_new_flags false opt) = (OVal v, s')) ∧
    runs s' = nl <$> rs ∧ NoDup rs ∧ (∀ m, m ∈ rs ↔ rtc (λ a b, b ∈ adj a) n m).
Proof.
  intros HU Hcl Hn. destruct (dfs_total adj f o U HU Hcl (length U) [] ∅ n) as [[v fin] E]; [constructor|set_solver|done|cbn; lia|].
  set (s0 := dcg_new_flags false opt). assert (Exp [] ∅ s0) as HE0.
  { split; try done; try (by intros ? ?%elem_of_nil); try (by intros ? [? ?]). by intros fr e ?%elem_of_nil. }
  destruct (thunk_exp [] ∅ s0 n HE0) as (s1 & E1 & HE1 & Hin & R1 & _).
  destruct (force_exp (length U) [] ∅ n v fin s1 None E HE1 Hin) as (s' & rs & E2 & HE2 & _ & R2 & N2 & M2); [right; by intros ?%elem_of_nil|].
  exists v, fin, s', rs. split; [done|]. split.
  { exists (S (length U)). intros k Hk. unfold exec, explore_main. cbn [run]. rewrite (bind_val _ _ s0 (nl n) s1) by exact E1. cbn [run force_art].
    rewrite (bind_val _ _ s1 v s'); [done|]. eapply force_fuel_mono; [exact E2|done|lia]. }
  split; [rewrite R2, R1; apply app_nil_r|]. split; [done|].
  destruct (dfs_facts _ _ _ _ _ _ _ _ _ E) as (_ & _ & Hroot & Hclo).
  assert (closed adj [] fin) as Hc by (apply Hclo; intros m [? ?]; done).
  intros m. rewrite M2. split.
  - intros [_ Hm]. assert (∀ k stk d x w d', dfs adj f o k stk d x = Some (w, d') → ∀ m, is_Some (d' !! m) → is_Some (d !! m) ∨ rtc (λ a b, b ∈ adj a) x m) as HR.
    { clear. apply (dfs_ind adj f o (λ stk d x w d', ∀ m, is_Some (d' !! m) → is_Some (d !! m) ∨ rtc (λ a b, b ∈ adj a) x m)
        (λ stk d xs w d', ∀ m, is_Some (d' !! m) → is_Some (d !! m) ∨ ∃ x, x ∈ xs ∧ rtc (λ a b, b ∈ adj a) x m)); auto.
      - intros stk d x vs d' _ _ HQ m. destruct (decide (m = x)) as [->|]; [intros _; right; apply rtc_refl|]. rewrite lookup_insert_ne by done.
        intros [?|(y & Hy & Hr)]%HQ; [by left|]. right. by eapply rtc_l.
      - intros stk d x xs w ws d1 d2 HP HQ m [[?|?]%HP|(y & Hy & Hr)]%HQ; [by left|right; exists x; split; [by left|done]|].
        right. exists y. split; [by right|done]. }
    destruct (HR _ _ _ _ _ _ E m Hm) as [[? ?]|?]; done.
  - intros Hr. split; [done|]. assert (is_Some (fin !! n)) as Hs by (destruct Hroot as [?%elem_of_nil|?]; done).
    clear -Hr Hc Hs. induction Hr as [x|x y z Hxy Hr IH]; [done|]. apply IH. destruct (Hc x Hs y Hxy) as [?%elem_of_nil|?]; done.
Qed.

(** A whole session: explore from each of the roots in turn, with one engine. *)
Fixpoint explore_all (ns : list N) (k : list val → comp) : comp :=
  match ns with
  | [] => k []
  | n :: ns => Thunk TV (NCNominal (name_of_usize n)) "explore" (enc n) VUnit
                 (λ l, Force TV (ALoc l) None (λ v, explore_all ns (λ vs, k (v :: vs))))
  end.
Lemma session_exp U ns : NoDup U → (∀ m x, m ∈ U → x ∈ adj m → x ∈ U) → ns ⊆ U →
  ∀ fin s k, Exp [] fin s → ∃ vs fin' s' rs, dfs_list (dfs adj f o (length U) []) fin ns = Some (vs, fin') ∧
    run (force (S (length U))) (explore_all ns k) s = run (force (S (length U))) (k vs) s' ∧ Exp [] fin' s' ∧
    runs s' = (nl <$> rs) ++ runs s ∧ NoDup rs ∧ (∀ m, m ∈ rs ↔ fin !! m = None ∧ is_Some (fin' !! m)).
Proof.
  intros HU Hcl. induction ns as [|n ns IH]; intros Hsub fin s k HE; cbn [dfs_list explore_all run].
  { exists [], fin, s, []. split; [done|]. split; [done|]. split; [done|]. split; [done|]. split; [constructor|].
    intros m. split; [by intros ?%elem_of_nil|]. intros [? [? ?]]. congruence. }
  destruct (thunk_exp [] fin s n HE) as (s1 & E1 & HE1 & Hin & R1 & _).
  destruct (dfs_total adj f o U HU Hcl (length U) [] fin n) as [[v d1] E]; [constructor|set_solver|set_solver|cbn; lia|].
  destruct (force_exp (length U) [] fin n v d1 s1 None E HE1 Hin) as (s2 & r1 & E2 & HE2 & _ & R2 & N2 & M2); [right; by intros ?%elem_of_nil|].
  destruct (IH ltac:(set_solver) d1 s2 (λ vs, k (v :: vs)) HE2) as (vs & d2 & s3 & r2 & D & E3 & HE3 & R3 & N3 & M3).
  rewrite E, D. exists (v :: vs), d2, s3, (r2 ++ r1). split; [done|]. split.
  { rewrite (bind_val _ _ s (nl n) s1) by exact E1. cbn [force_art]. rewrite (bind_val _ _ s1 v s2) by exact E2. exact E3. }
  split; [done|]. split; [rewrite R3, R2, R1, fmap_app; by rewrite app_assoc|].
  destruct (dfs_facts _ _ _ _ _ _ _ _ _ E) as [S1 _]. assert (S2 := dfs_list_mono _ _ _ _ _ _ _ _ _ D). split.
  - apply NoDup_app. split; [done|]. split; [|done]. intros m [H1 _]%M3 [_ [w Hw]]%M2. congruence.
  - intros m. rewrite elem_of_app, M2, M3. split.
    + intros [[H1 H2]|[H1 [w Hw]]].
      * split; [|done]. destruct (fin !! m) as [w|] eqn:Ew; [|done]. rewrite (lookup_weaken _ _ _ _ Ew S1) in H1. done.
      * split; [done|]. exists w. by eapply lookup_weaken.
    + intros [H1 H2]. destruct (d1 !! m) as [w|] eqn:Ew; [right; by eauto|by left].
Qed.
(** C61, sessions: exploring from any list of roots, one after the other, never runs a node twice, and each answer is the
    search's answer given what the earlier explorations finished. *)
Theorem C61_sessions U ns opt : NoDup U → (∀ m x, m ∈ U → x ∈ adj m → x ∈ U) → ns ⊆ U →
  ∀ ret : list val → val, ∃ vs fin s' rs, dfs_list (dfs adj f o (length U) []) ∅ ns = Some (vs, fin) ∧
    (∃ K, ∀ k, (K ≤ k)%nat → exec k (explore_all ns (λ vs, Ret (ret vs))) (dcg_new_flags false opt) = (OVal (ret vs), s')) ∧
    runs s' = nl <$> rs ∧ NoDup rs ∧ (∀ m, m ∈ rs ↔ ∃ n, n ∈ ns ∧ rtc (λ a b, b ∈ adj a) n m).
Proof.
  intros HU Hcl Hsub ret. set (s0 := dcg_new_flags false opt). assert (Exp [] ∅ s0) as HE0.
  { split; try done; try (by intros ? ?%elem_of_nil); try (by intros ? [? ?]). by intros fr e ?%elem_of_nil. }
  destruct (session_exp U ns HU Hcl Hsub ∅ s0 (λ vs, Ret (ret vs)) HE0) as (vs & fin & s' & rs & D & E & _ & R & N & M).
  exists vs, fin, s', rs. split; [done|]. split.
  { exists (S (length U)). intros k Hk. eapply exec_fuel_mono; [exact E|done|lia]. }
  split; [rewrite R; apply app_nil_r|]. split; [done|]. intros m. rewrite M. clear -D.
  assert (∀ k stk d x w d', dfs adj f o k stk d x = Some (w, d') → ∀ m, is_Some (d' !! m) → is_Some (d !! m) ∨ rtc (λ a b, b ∈ adj a) x m) as HR.
  { clear. apply (dfs_ind adj f o (λ stk d x w d', ∀ m, is_Some (d' !! m) → is_Some (d !! m) ∨ rtc (λ a b, b ∈ adj a) x m)
      (λ stk d xs w d', ∀ m, is_Some (d' !! m) → is_Some (d !! m) ∨ ∃ x, x ∈ xs ∧ rtc (λ a b, b ∈ adj a) x m)); auto.
    - intros stk d x vs d' _ _ HQ m. destruct (decide (m = x)) as [->|]; [intros _; right; apply rtc_refl|]. rewrite lookup_insert_ne by done.
      intros [?|(y & Hy & Hr)]%HQ; [by left|]. right. by eapply rtc_l.
    - intros stk d x xs w ws d1 d2 HP HQ m [[?|?]%HP|(y & Hy & Hr)]%HQ; [by left|right; exists x; split; [by left|done]|].
      right. exists y. split; [by right|done]. }
  assert (∀ d vs, dfs_list (dfs adj f o (length U) []) d ns = Some (vs, fin) → closed adj [] d → 
    closed adj [] fin ∧ (∀ n, n ∈ ns → is_Some (fin !! n)) ∧ ∀ m, is_Some (fin !! m) → is_Some (d !! m) ∨ ∃ n, n ∈ ns ∧ rtc (λ a b, b ∈ adj a) n m) as HL.
  { clear D vs. induction ns as [|n ns IH]; intros d vs D Hd; cbn [dfs_list] in D.
    { injection D as <- <-. split; [done|]. split; [by intros ? ?%elem_of_nil|auto]. }
    destruct (dfs adj f o (length U) [] d n) as [[v d1]|] eqn:E1; [|done]. destruct (dfs_list _ d1 ns) as [[vs' d2]|] eqn:E2; [|done].
    injection D as <- ->. destruct (dfs_facts _ _ _ _ _ _ _ _ _ E1) as (S1 & _ & Hroot & Hclo). destruct (IH d1 vs' E2 (Hclo Hd)) as (C & I & O).
    split; [done|]. split.
    - intros x [->|Hx]%elem_of_cons; [|by apply I]. destruct Hroot as [?%elem_of_nil|[w Hw]]; [done|]. exists w. eapply lookup_weaken; [exact Hw|]. by eapply dfs_list_mono.
    - intros x [Hx|(y & Hy & Hr)]%O; [|right; exists y; split; [by right|done]]. destruct (HR _ _ _ _ _ _ E1 x Hx); [by left|right; exists n; split; [by left|done]]. }
  destruct (HL ∅ vs D) as (C & I & O); [by intros m' [? ?]|]. split.
  - intros [_ [[? ?]|?]%O]; done.
  - intros (n & Hn & Hr). split; [done|]. assert (Hs := I n Hn). clear -Hr C Hs.
    induction Hr as [x|x y z Hxy Hr IH]; [done|]. apply IH. destruct (C x Hs y Hxy) as [?%elem_of_nil|?]; done.
Qed.
End Explore.

(** ** The documentation's program: [f] puts the node in front of the answers, the cycle value is the empty vector *)
Fixpoint vec (l : list N) : val := match l with [] => VUnit | n :: l => VPair (enc n) (vec l) end.
Fixpoint unvec (v : val) : list N := match v with VPair (VInt z) v => Z.to_N z :: unvec v | _ => [] end.
Lemma unvec_vec l : unvec (vec l) = l.
Proof. induction l as [|n l IH]; [done|]. cbn. by rewrite N2Z.id, IH. Qed.
Definition append_all (n : N) (vs : list val) : val := vec (n :: concat (unvec <$> vs)).

(** C61, the documentation's claim in general: on every finite graph, the first exploration returns a vector that contains
    exactly the nodes reachable from the start. *)
Theorem C61_vector `{Hashes} adj U n opt : NoDup U → (∀ m x, m ∈ U → x ∈ adj m → x ∈ U) → n ∈ U →
  ∃ l s', (∃ K, ∀ k, (K ≤ k)%nat → @exec (explore_prog adj append_all (vec [])) k (explore_main n) (dcg_new_flags false opt) = (OVal (vec l), s')) ∧
    ∀ m, m ∈ l ↔ rtc (λ a b, b ∈ adj a) n m.
Proof.
  intros HU Hcl Hn. destruct (C61_explores adj append_all (vec []) U n opt HU Hcl Hn) as (v & fin & s' & rs & D & E & R & _ & M).
  assert (∀ k stk d x w d', dfs adj append_all (vec []) k stk d x = Some (w, d') →
    ((∀ m u, d !! m = Some u → ∃ l, u = vec l ∧ ∀ y, y ∈ l → rtc (λ a b, b ∈ adj a) m y) →
     (∀ m u, d' !! m = Some u → ∃ l, u = vec l ∧ ∀ y, y ∈ l → rtc (λ a b, b ∈ adj a) m y) ∧
     ∃ l, w = vec l ∧ ∀ y, y ∈ l → rtc (λ a b, b ∈ adj a) x y) ∧
    ∀ m, d !! m = None → is_Some (d' !! m) → m ∈ unvec w) as HV.
  { clear. apply (dfs_ind adj append_all (vec []) _ (λ stk d xs ws d',
      ((∀ m u, d !! m = Some u → ∃ l, u = vec l ∧ ∀ y, y ∈ l → rtc (λ a b, b ∈ adj a) m y) →
       (∀ m u, d' !! m = Some u → ∃ l, u = vec l ∧ ∀ y, y ∈ l → rtc (λ a b, b ∈ adj a) m y) ∧
       ∀ y, y ∈ concat (unvec <$> ws) → ∃ x, x ∈ xs ∧ rtc (λ a b, b ∈ adj a) x y) ∧
      ∀ m, d !! m = None → is_Some (d' !! m) → m ∈ concat (unvec <$> ws))).
    - intros stk d n Hn. split; [|intros m E [? ?]; congruence]. intros Hd. split; [done|]. exists []. split; [done|]. by intros ? ?%elem_of_nil.
    - intros stk d n v Hn Hv. split; [|intros m E [? ?]; congruence]. intros Hd. split; [done|]. by apply Hd.
    - intros stk d n vs d' Hn Hd [HQ HN]. split.
      + intros Hv. destruct (HQ Hv) as [H1 H2].
        assert (∃ l, append_all n vs = vec l ∧ ∀ y, y ∈ l → rtc (λ a b, b ∈ adj a) n y) as HA.
        { exists (n :: concat (unvec <$> vs)). split; [done|]. intros y [->|(x & Hx & Hr)%H2]%elem_of_cons; [apply rtc_refl|by eapply rtc_l]. }
        split; [|done]. intros m u. destruct (decide (m = n)) as [->|]; [rewrite lookup_insert; by intros [= <-]|rewrite lookup_insert_ne by done; apply H1].
      + intros m Hm. unfold append_all. rewrite unvec_vec. destruct (decide (m = n)) as [->|]; [intros _; by left|]. rewrite lookup_insert_ne by done.
        intros ?. right. by apply HN.
    - intros stk d. split; [|intros m E [? ?]; congruence]. intros Hd. split; [done|]. by intros ? ?%elem_of_nil.
    - intros stk d n ns v vs d1 d2 [HP HPn] [HQ HQn]. split.
      + intros Hd. destruct (HP Hd) as [Hd1 (l & -> & Hl)]. destruct (HQ Hd1) as [Hd2 H2]. split; [done|].
        intros y. cbn [fmap list_fmap concat]. rewrite unvec_vec. rewrite elem_of_app. intros [Hy|(x & Hx & Hr)%H2]; [exists n; split; [by left|by apply Hl]|].
        exists x. split; [by right|done].
      + intros m Hm Hm2. cbn [fmap list_fmap concat]. apply elem_of_app. destruct (d1 !! m) as [u|] eqn:E1; [left; by eapply HPn; eauto|right; by apply HQn]. }
  destruct (HV _ _ _ _ _ _ D) as [HV1 HV2]. destruct HV1 as [_ (l & -> & Hl)]; [intros ? ?; by rewrite lookup_empty|].
  exists l, s'. split; [done|]. intros m. split; [apply Hl|]. intros Hr. rewrite <- (unvec_vec l). apply HV2; [done|].
  clear -D Hr.
  destruct (dfs_facts _ _ _ _ _ _ _ _ _ D) as (_ & _ & Hroot & Hclo). assert (closed adj [] fin) as Hc by (apply Hclo; intros x [? ?]; done).
  assert (is_Some (fin !! n)) as Hs by (destruct Hroot as [?%elem_of_nil|?]; done). clear -Hr Hc Hs.
  induction Hr as [x|x y z Hxy Hr IH]; [done|]. apply IH. destruct (Hc x Hs y Hxy) as [?%elem_of_nil|?]; done.
Qed.

(** ** The documentation's graph (lib.rs:818-828) *)
Definition doc_adj (n : N) : list N :=
  match n with
  | 0 => [1; 0] | 1 => [2; 3] | 2 => [3; 0] | 3 => [3; 1] | 4 => [2; 5] | 5 => [5; 4] | _ => []
  end%N.
Definition doc_nodes : list N := [0; 1; 2; 3; 4; 5]%N.
Lemma doc_closed : NoDup doc_nodes ∧ ∀ m x, m ∈ doc_nodes → x ∈ doc_adj m → x ∈ doc_nodes.
Proof. split; [apply (bool_decide_unpack _); by vm_compute|]. intros m x Hm Hx. apply elem_of_list_In in Hm. cbn in Hm. apply elem_of_list_In.
  decompose [or] Hm; subst; try done; apply elem_of_list_In in Hx; cbn in Hx |- *; tauto. Qed.
(** lib.rs:863: [assert_eq!(get!(explore_thunk(0)), vec![0,1,2,3,3])] *)
Theorem C61_doc_example `{Hashes} opt : ∃ s', (∃ K, ∀ k, (K ≤ k)%nat →
    @exec (explore_prog doc_adj append_all (vec [])) k (explore_main 0%N) (dcg_new_flags false opt) = (OVal (vec [0; 1; 2; 3; 3]%N), s')) ∧
  runs s' ≡ₚ nl <$> [0; 1; 2; 3]%N.
Proof.
  destruct doc_closed as [HU Hcl].
  destruct (C61_explores doc_adj append_all (vec []) doc_nodes 0%N opt HU Hcl) as (v & fin & s' & rs & D & E & R & N & M); [by left|].
  assert (∃ fin, dfs doc_adj append_all (vec []) (length doc_nodes) [] ∅ 0%N = Some (vec [0; 1; 2; 3; 3]%N, fin)) as [fin' D'] by (eexists; vm_compute; reflexivity).
  rewrite D in D'. injection D' as -> ->. exists s'. split; [exact E|]. rewrite R. apply fmap_Permutation, NoDup_Permutation; [done|apply (bool_decide_unpack _); by vm_compute|].
  intros m. rewrite M. split.
  - intros Hr. assert (∀ a b, rtc (λ a b, b ∈ doc_adj a) a b → a ∈ [0; 1; 2; 3]%N → b ∈ [0; 1; 2; 3]%N) as HI.
    { clear. intros a b Hr. induction Hr as [|a b c Hab _ IH]; [done|]. intros Ha. apply IH. clear IH. apply elem_of_list_In in Ha, Hab. apply elem_of_list_In. cbn in Ha.
      decompose [or] Ha; subst; try done; cbn in Hab |- *; tauto. }
    by eapply HI; [exact Hr|left].
  - assert (∀ a b, b ∈ doc_adj a → rtc (λ a b, b ∈ doc_adj a) a b) as H1 by (intros a b Hab; by apply rtc_once).
    assert (rtc (λ a b, b ∈ doc_adj a) 0%N 1%N) as R1 by (apply H1; by left).
    assert (rtc (λ a b, b ∈ doc_adj a) 0%N 2%N) as R2 by (etrans; [exact R1|]; apply H1; by left).
    assert (rtc (λ a b, b ∈ doc_adj a) 0%N 3%N) as R3 by (etrans; [exact R2|]; apply H1; by left).
    intros Hm. apply elem_of_list_In in Hm. cbn in Hm. decompose [or] Hm; subst; done.
Qed.
(** The cycle value is computed into cached answers, and those are kept: after an exploration from node 0, an exploration
    from node 1 answers from the cache with a vector in which node 0 is missing, although 0 is reachable from 1 (and a new
    engine's exploration from 1 has it). *)
Theorem C61_kept_answers_refuted `{Hashes} opt :
  rtc (λ a b, b ∈ doc_adj a) 1%N 0%N ∧
  (∃ s' K, ∀ k, (K ≤ k)%nat → @exec (explore_prog doc_adj append_all (vec [])) k
     (explore_all [0; 1]%N (λ vs, Ret (default VUnit (vs !! 1%nat)))) (dcg_new_flags false opt) = (OVal (vec [1; 2; 3; 3]%N), s')) ∧
  (∃ s' K, ∀ k, (K ≤ k)%nat → @exec (explore_prog doc_adj append_all (vec [])) k
     (explore_all [1]%N (λ vs, Ret (default VUnit (vs !! 0%nat)))) (dcg_new_flags false opt) = (OVal (vec [1; 2; 3; 0; 3]%N), s')).
Proof.
  destruct doc_closed as [HU Hcl]. split; [|split].
  - eapply rtc_l; [|apply rtc_once]; [by left|right; by left].
  - destruct (C61_sessions doc_adj append_all (vec []) doc_nodes [0; 1]%N opt HU Hcl ltac:(set_solver) (λ vs, default VUnit (vs !! 1%nat)))
      as (vs & fin & s' & rs & D & [K E] & _).
    assert (∃ fin, dfs_list (dfs doc_adj append_all (vec []) (length doc_nodes) []) ∅ [0; 1]%N = Some ([vec [0; 1; 2; 3; 3]%N; vec [1; 2; 3; 3]%N], fin))
      as [fin' D'] by (eexists; vm_compute; reflexivity).
    rewrite D in D'. injection D' as -> ->. exists s', K. exact E.
  - destruct (C61_sessions doc_adj append_all (vec []) doc_nodes [1]%N opt HU Hcl ltac:(set_solver) (λ vs, default VUnit (vs !! 0%nat)))
      as (vs & fin & s' & rs & D & [K E] & _).
    assert (∃ fin, dfs_list (dfs doc_adj append_all (vec []) (length doc_nodes) []) ∅ [1]%N = Some ([vec [1; 2; 3; 0; 3]%N], fin))
      as [fin' D'] by (eexists; vm_compute; reflexivity).
    rewrite D in D'. injection D' as -> ->. exists s', K. exact E.
Qed.
