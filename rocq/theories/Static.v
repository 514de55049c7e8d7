(** * A syntactic class of programs that always obey the naming discipline.

    Here the hypothesis [disciplined] of the consistency theorems is discharged from the shape of the
    program text alone: thunk bodies that read (through [force] and [force_map]) but do not allocate, and an
    editor that allocates, re-allocates, sets and demands, under arbitrary namespaces, in any order, with
    cells and thunks kept apart by name.  For these programs the incremental engine returns exactly what the
    from-scratch evaluation returns, whenever that returns at all. *)
From Verif Require Export Consistency.

Section Static.
Context `{Prog}.
Context (opt : bool).

(** A body that only reads; [F] ([M]) are the locations it has read so far by [force] ([force_map]).  Each
    location read through [force_map] is read once. *)
Inductive reads (F M : gset loc) : comp → Prop :=
  | reads_ret v : reads F M (Ret v)
  | reads_fail : reads F M Fail
  | reads_force t l k : l ∉ M → (∀ v, reads ({[l]} ∪ F) M (k v)) → reads F M (Force t (ALoc l) None k)
  | reads_force_rc t w cyc k : (∀ v, reads F M (k v)) → reads F M (Force t (ARc w) cyc k)
  | reads_map t l f k : l ∉ M → l ∉ F → (∀ v, reads F ({[l]} ∪ M) (k v)) → reads F M (ForceMap t (ALoc l) f k)
  | reads_map_rc t w f k : (∀ v, reads F M (k v)) → reads F M (ForceMap t (ARc w) f k)
  | reads_abs_rc t w f k : (∀ v, reads F M (k v)) → reads F M (ForceAbs t (ARc w) f k).
(** A function whose body only reads. *)
Definition reader (pp : progpt) : Prop := ∀ arg spur, reads ∅ ∅ (code pp arg spur).

(** An editor program; [isc n] says that the name [n] is used for cells (otherwise for thunks). *)
Inductive editor (isc : name → bool) : comp → Prop :=
  | ed_ret v : editor isc (Ret v)
  | ed_fail : editor isc Fail
  | ed_force t a cyc k : (∀ v, editor isc (k v)) → editor isc (Force t a cyc k)
  | ed_map t a f k : (∀ v, editor isc (k v)) → editor isc (ForceMap t a f k)
  | ed_abs t a f k : (∀ v, editor isc (k v)) → editor isc (ForceAbs t a f k)
  | ed_cell t n v k : isc n = true → (∀ l, editor isc (k l)) → editor isc (Cell t n v k)
  | ed_thunk t n pp arg k : isc n = false → reader pp → (∀ l, editor isc (k l)) →
      editor isc (Thunk t (NCNominal n) pp arg VUnit k)
  | ed_set t a v k : editor isc k → editor isc (SetC t a v k)
  | ed_ns n b k : editor isc b → (∀ v, editor isc (k v)) → editor isc (Ns n b k).

(** What the store of such a program looks like. *)
Definition good_loc (isc : name → bool) (l : loc) (ct : content) : Prop :=
  match l_id l, ct with
  | IdNom n, CCell _ _ => isc n = true
  | IdNom n, CThunk _ pp _ spur => isc n = false ∧ reader pp ∧ spur = VUnit
  | _, _ => False
  end.
Definition good (isc : name → bool) (σ : store) : Prop := ∀ l ct, σ !! l = Some ct → good_loc isc l ct.

Lemma good_struct isc σ l ct : good isc σ → σ !! l = Some ct → is_struct l = false.
Proof. intros Hg E. specialize (Hg _ _ E). unfold good_loc in Hg. unfold is_struct. by destruct (l_id l). Qed.
Definition nominal (stk : list loc) : Prop := stk ≠ [] ∧ Forall (λ x, is_struct x = false) stk.
Lemma s6_nom stk l : nominal stk → s6_ok opt stk l = true.
Proof. intros [_ Hs]. unfold s6_ok. destruct stk; [done|]. inversion Hs as [|?? E]. rewrite E. by rewrite andb_false_r. Qed.
Lemma tracked_nom l : is_struct l = false → tracked opt l = true.
Proof. intros E. unfold tracked. by rewrite E. Qed.

(** One force by an executing thunk. *)
Definition dforces (n : nat) (isc : name → bool) : Prop := ∀ stk t l v st st' p,
  nominal stk → good isc (d_store p) → l ∉ d_map p → r_store st = d_store p →
  ref_force n stk false t l None st = ROk v st' →
  ∃ p', d_force opt false n stk false t l p = Some (v, p') ∧ d_store p' = d_store p ∧
    r_store st' = d_store p ∧ d_map p' = d_map p ∧ d_full p' = {[l]} ∪ d_full p.

Lemma reads_run n isc (Hn : dforces n isc) stk pth F M c :
  reads F M c → nominal stk → ∀ v st st' p,
  good isc (d_store p) → r_store st = d_store p → d_map p ⊆ M → d_full p ⊆ F ∪ M →
  ref_run (ref_force n stk) stk pth false c st = ROk v st' →
  ∃ p', d_run opt (d_force opt false n stk) stk pth false c p = Some (v, p') ∧ d_store p' = d_store p ∧
    r_store st' = d_store p.
Proof.
  intros Hc Hstk. induction Hc as [F M w|F M|F M t l k Hl _ IH|F M t w cyc k _ IH|F M t l f k Hl Hl2 _ IH|F M t w f k _ IH|F M t w f k _ IH];
    intros v st st' p Hg Hst HM HF Hr; cbn [ref_run ref_art] in Hr; cbn [Discipline.d_run d_art].
  - injection Hr as <- <-. by exists p.
  - done.
  - unfold rbind in Hr. destruct (ref_force n stk false t l None st) as [w st1|r|] eqn:E; try done.
    destruct (Hn stk t l w st st1 p Hstk Hg ltac:(set_solver) Hst E) as (p1 & E1 & Hs1 & Hs2 & Hm & Hf).
    destruct (IH w v st1 st' p1) as (p2 & E2 & Hs3 & Hs4); [by rewrite Hs1|by rewrite Hs1|set_solver|set_solver|exact Hr|].
    exists p2. unfold dbind. rewrite E1. split; [exact E2|]. split; congruence.
  - unfold rbind in Hr. destruct (IH w v st st' p Hg Hst HM HF Hr) as (p2 & E2 & Hs). by exists p2.
  - unfold rbind in Hr. destruct (ref_force n stk false t l None st) as [w st1|r|] eqn:E; try done.
    unfold dbind, d_force_map. destruct (d_store p !! l) as [ct|] eqn:El;
      [|destruct n; simpl in E; rewrite Hst, El in E; done].
    assert (Hns : is_struct l = false) by (by eapply good_struct).
    destruct ct as [t' w'|t' pp arg spur].
    + assert (t' = t ∧ w' = w ∧ st1 = st) as (-> & -> & ->).
      { destruct n; simpl in E; rewrite Hst, El in E; simpl in E; (destruct (decide (t' = t)) as [->|]; [|done]); by injection E as -> ->. }
      rewrite decide_True by done. rewrite tracked_nom by done. destruct stk as [|x stk]; [by destruct Hstk|].
      rewrite s6_nom by done. rewrite bool_decide_eq_true_2 by set_solver. cbn [andb negb].
      destruct (IH (f w) v st st' (d_observe (x :: stk) l true p)) as (p2 & E2 & Hs3 & Hs4);
        [done|done|simpl; set_solver|simpl; set_solver|exact Hr|].
      exists p2. split; [exact E2|]. done.
    + destruct (Hn stk t l w st st1 p Hstk Hg ltac:(set_solver) Hst E) as (p1 & E1 & Hs1 & Hs2 & Hm & Hf). rewrite E1.
      destruct (IH (f w) v st1 st' p1) as (p2 & E2 & Hs3 & Hs4); [by rewrite Hs1|by rewrite Hs1|set_solver|set_solver|exact Hr|].
      exists p2. split; [exact E2|]. split; congruence.
  - unfold rbind in Hr. destruct (IH (f w) v st st' p Hg Hst HM HF Hr) as (p2 & E2 & Hs). by exists p2.
  - unfold rbind in Hr. destruct (IH (f w) v st st' p Hg Hst HM HF Hr) as (p2 & E2 & Hs). by exists p2.
Qed.

Lemma dforces_all n isc : dforces n isc.
Proof.
  induction n as [|n IHn]; intros stk t l v st st' p Hstk Hg Hl Hst Hr; simpl in Hr; rewrite Hst in Hr;
    destruct (d_store p !! l) as [ct|] eqn:El; try done; destruct (decide (content_ty ct = t)) as [Ht|]; try done;
    assert (Hns : is_struct l = false) by (by eapply good_struct); destruct ct as [t' w|t' pp arg spur]; simpl in Ht; subst t'.
  1,3: injection Hr as <- <-; cbn [Discipline.d_force]; rewrite El; rewrite decide_True by done; unfold d_get;
    rewrite s6_nom by done; rewrite bool_decide_eq_true_2 by done; eexists; split; [done|]; destruct stk; [by destruct Hstk|done].
  1: destruct (decide (l ∈ stk)); done.
  destruct (decide (l ∈ stk)) as [|Hl']; [done|]. cbn [Discipline.d_force]. rewrite El.
  rewrite decide_True by (by rewrite s6_nom).
  assert (Hrd : reads ∅ ∅ (code pp arg spur)).
  { specialize (Hg _ _ El). unfold good_loc in Hg. destruct (l_id l); [done|]. apply Hg. }
  edestruct (reads_run n isc IHn (l :: stk) (l_path l) ∅ ∅ _ Hrd ltac:(split; [done|]; constructor; [done|apply Hstk]) v (RState (d_store p) (l :: r_log st)) st' (DState (d_store p) ({[l]} ∪ d_seen p) (d_done p) ∅ ∅))
    as (p2 & E2 & Hs3 & Hs4); [done| |set_solver|set_solver|exact Hr|].
  { done. }
  rewrite E2. eexists. split; [done|]. destruct stk; [by destruct Hstk|]. simpl in *. done.
Qed.

(** One demand by the editor. *)
Lemma editor_force n isc t l cyc v st st' p :
  good isc (r_store st) → p = d_init (r_store st) →
  ref_force n [] false t l cyc st = ROk v st' →
  d_force opt false n [] false t l p = Some (v, d_init (r_store st')) ∧ r_store st' = r_store st.
Proof.
  intros Hg -> Hr. destruct n as [|n]; simpl in Hr; destruct (r_store st !! l) as [ct|] eqn:El; try done;
    destruct (decide (content_ty ct = t)) as [Ht|]; try done;
    assert (Hns : is_struct l = false) by (by eapply good_struct); destruct ct as [t' w|t' pp arg spur]; simpl in Ht; subst t';
    cbn [Discipline.d_force d_store d_init]; rewrite El.
  1,3: injection Hr as <- <-; rewrite decide_True by done; unfold d_get; by rewrite bool_decide_eq_true_2.
  1: done.
  rewrite decide_True by (split; [done|]; split; [set_solver|]; done).
  assert (Hrd : reads ∅ ∅ (code pp arg spur)).
  { specialize (Hg _ _ El). unfold good_loc in Hg. destruct (l_id l); [done|]. apply Hg. }
  edestruct (reads_run n isc (dforces_all n isc) [l] (l_path l) ∅ ∅ _ Hrd ltac:(split; [done|]; by repeat constructor) v (RState (r_store st) (l :: r_log st)) st' (DState (r_store st) ({[l]} ∪ d_seen (d_init (r_store st))) ∅ ∅ ∅))
    as (p2 & E2 & Hs3 & Hs4); [done| |set_solver|set_solver|exact Hr|].
  { done. }
  simpl in E2, Hs3, Hs4 |- *. rewrite E2. simpl. rewrite Hs3, Hs4. done.
Qed.

Lemma editor_run n isc pth c : editor isc c → ∀ v st st',
  good isc (r_store st) →
  ref_run (ref_force n []) [] pth false c st = ROk v st' →
  d_run opt (d_force opt false n []) [] pth false c (d_init (r_store st)) = Some (v, d_init (r_store st')) ∧
  good isc (r_store st').
Proof.
  intros Hc. revert pth. induction Hc as [w| |t a cyc k _ IH|t a f k _ IH|t a f k _ IH|t m w k Hm _ IH|t m pp arg k Hm Hpp _ IH|t a w k _ IH|m b k _ IHb _ IH];
    intros pth v st st' Hg Hr; cbn [ref_run ref_art] in Hr; cbn [Discipline.d_run d_art].
  - by injection Hr as <- <-.
  - done.
  - unfold rbind in Hr. destruct a as [w|l]; simpl in *; [by eapply IH|].
    destruct (ref_force n [] false t l cyc st) as [w st1|r|] eqn:E; try done.
    destruct (editor_force n isc t l cyc w st st1 _ Hg eq_refl E) as [E1 E2]. unfold dbind. rewrite E1.
    eapply IH; [by rewrite E2|exact Hr].
  - unfold rbind in Hr. destruct a as [w|l]; simpl in *; [by eapply IH|].
    destruct (ref_force n [] false t l None st) as [w st1|r|] eqn:E; try done.
    destruct (editor_force n isc t l None w st st1 _ Hg eq_refl E) as [E1 E2]. unfold dbind, d_force_map. rewrite E1.
    cbn [d_init d_store]. destruct (r_store st !! l) as [ct|] eqn:El; [|destruct n; simpl in E; by rewrite El in E].
    assert (Hns : is_struct l = false) by (by eapply good_struct).
    destruct ct as [t' w'|]; [|eapply IH; [by rewrite E2|exact Hr]].
    assert (t' = t ∧ w' = w ∧ st1 = st) as (-> & -> & ->).
    { destruct n; simpl in E; rewrite El in E; simpl in E; (destruct (decide (t' = t)) as [->|]; [|done]); by injection E as -> ->. }
    rewrite decide_True by done. rewrite tracked_nom by done. by eapply IH.
  - unfold rbind in Hr. destruct a as [w|l]; simpl in *; [by eapply IH|].
    destruct (ref_force n [] false t l None st) as [w st1|r|] eqn:E; try done.
    destruct (editor_force n isc t l None w st st1 _ Hg eq_refl E) as [E1 E2]. unfold dbind, d_force_map. rewrite E1.
    cbn [d_init d_store]. destruct (r_store st !! l) as [ct|] eqn:El; [|destruct n; simpl in E; by rewrite El in E].
    assert (Hns : is_struct l = false) by (by eapply good_struct).
    destruct ct as [t' w'|]; [|eapply IH; [by rewrite E2|exact Hr]].
    assert (t' = t ∧ w' = w ∧ st1 = st) as (-> & -> & ->).
    { destruct n; simpl in E; rewrite El in E; simpl in E; (destruct (decide (t' = t)) as [->|]; [|done]); by injection E as -> ->. }
    rewrite decide_True by done. rewrite tracked_nom by done. by eapply IH.
  - set (l := Loc pth (IdNom m)) in *.
    assert (∃ st1, ref_cell pth false t m w st = ROk l st1 ∧ r_store st1 = <[l := CCell t w]> (r_store st) ∧
       rebind_ok l (r_store st !! l) (CCell t w) ∅ = true) as (st1 & E & E1 & E2).
    { unfold rbind in Hr. unfold ref_cell in *. fold l in Hr |- *. destruct (r_store st !! l) as [ct|] eqn:El.
      - destruct (decide (content_ty ct = t)) as [Ht|]; [|done]. eexists. split; [done|]. split; [done|].
        pose proof (Hg _ _ El) as Hgl. unfold good_loc in Hgl. simpl in Hgl. destruct ct as [t' w'|]; [|by destruct Hgl; congruence].
        simpl in Ht. subst t'. unfold rebind_ok. apply orb_true_iff. right. simpl. rewrite !bool_decide_eq_true_2; [done|done|set_solver].
      - eexists. done. }
    unfold rbind in Hr. rewrite E in Hr. unfold dbind, d_cell, d_alloc. fold l. cbn [d_init d_store d_seen s6_ok andb].
    rewrite E2. cbn [andb]. rewrite bool_decide_eq_false_2 by done. rewrite orb_true_r.
    unfold d_write. cbn. rewrite <- E1. eapply IH; [|exact Hr]. rewrite E1. intros l' ct' Hl'.
    destruct (decide (l = l')) as [<-|]; [|rewrite lookup_insert_ne in Hl' by done; by apply Hg].
    rewrite lookup_insert in Hl'. by injection Hl' as <-.
  - set (l := Loc pth (IdNom m)) in *.
    assert (∃ st1, ref_thunk pth false t (NCNominal m) pp arg VUnit st = ROk l st1 ∧ r_store st1 = <[l := CThunk t pp arg VUnit]> (r_store st) ∧
       rebind_ok l (r_store st !! l) (CThunk t pp arg VUnit) ∅ = true) as (st1 & E & E1 & E2).
    { unfold rbind in Hr. unfold ref_thunk in *. fold l in Hr |- *. destruct (r_store st !! l) as [ct|] eqn:El.
      - destruct (decide (content_ty ct = t)) as [Ht|]; [|done].
        pose proof (Hg _ _ El) as Hgl. unfold good_loc in Hgl. simpl in Hgl. destruct ct as [t' w'|t' pp' arg' spur']; [congruence|].
        simpl in Ht. subst t'. destruct (decide (pp' = pp)) as [->|]; [|done].
        eexists. split; [done|]. split; [done|].
        unfold rebind_ok. apply orb_true_iff. right. simpl. destruct Hgl as (_ & _ & ->). rewrite !bool_decide_eq_true_2; [done|done|set_solver].
      - eexists. done. }
    unfold rbind in Hr. rewrite E in Hr. unfold dbind, d_thunk, d_alloc. fold l. cbn [d_init d_store d_seen s6_ok andb].
    rewrite E2. cbn [andb]. rewrite bool_decide_eq_false_2 by done. rewrite orb_true_r.
    unfold d_write. cbn. rewrite <- E1. eapply IH; [|exact Hr]. rewrite E1. intros l' ct' Hl'.
    destruct (decide (l = l')) as [<-|]; [|rewrite lookup_insert_ne in Hl' by done; by apply Hg].
    rewrite lookup_insert in Hl'. by injection Hl' as <-.
  - unfold rbind in Hr. destruct a as [|l]; [done|]. cbn [ref_set] in Hr. unfold dbind, d_set. cbn [d_init d_store].
    destruct (r_store st !! l) as [[t' w'|t' pp arg spur]|] eqn:El; try done.
    + destruct (decide (t' = t)) as [->|]; [|done].
      assert (Hns : is_struct l = false) by (by eapply good_struct). rewrite decide_True by done.
      unfold rput in Hr. change (d_write [] l (CCell t w) (d_init (r_store st))) with (d_init (r_store (RState (<[l:=CCell t w]> (r_store st)) (r_log st)))).
      apply (IH pth v (RState (<[l:=CCell t w]> (r_store st)) (r_log st)) st'); [|exact Hr]. simpl.
      intros l' ct' Hl'. destruct (decide (l = l')) as [<-|]; [|rewrite lookup_insert_ne in Hl' by done; by apply Hg].
      rewrite lookup_insert in Hl'. injection Hl' as <-. specialize (Hg _ _ El). unfold good_loc in *. by destruct (l_id l).
    + by destruct (decide (t' = t)).
  - unfold rbind in Hr. destruct (ref_run _ _ (m :: pth) _ b st) as [w st1|r|] eqn:E; try done.
    destruct (IHb _ _ _ _ Hg E) as [E1 Hg1]. unfold dbind. rewrite E1. by eapply IH.
Qed.

Theorem static_disciplined isc c v σ :
  editor isc c → from_scratch false c v σ → disciplined opt false c.
Proof.
  intros He (n & lg & Hr). destruct (editor_run n isc [] c He v (RState ∅ []) (RState σ lg)) as [E _]; [done|exact Hr|].
  by exists n, v, (d_init σ).
Qed.

(** C01 for these programs, with no other assumption: the engine (with or without the purity optimisation)
    returns exactly what the from-scratch evaluation returns, and leaves the same cells and thunks. *)
Theorem C01_readers isc c v σ :
  editor isc c → from_scratch false c v σ →
  ∃ s, returns c (dcg_new_flags false opt) v s ∧ holds s = σ ∧ idle s.
Proof.
  intros He Hs. destruct (C01_from_scratch_consistency opt false c) as (v' & σ' & s & Hs' & Hr & Hh & Hi); [by eapply static_disciplined|].
  destruct (from_scratch_functional _ _ _ _ _ _ Hs Hs') as [-> ->]. by exists s.
Qed.
End Static.
