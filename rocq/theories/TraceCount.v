(** * C31, C32, C47: effect traces. *)
From Verif Require Export EngineProps.

(** ** The statistics of src/reflect.rs (441-461 [Role], [TraceCount]; 463-478 [trace_count_zero];
    517-528 [trace_count]; 531-542 [trace_count_dirty]; 544-667 [trace_count_rec]). *)
Record counts := Counts {
  total_updates : nat; total_archivist : nat;
  reeval_nochange : nat; reeval_change : nat; clean_rec : nat;
  dirty : nat * nat; alloc_fresh : nat * nat; alloc_nochange : nat * nat; alloc_change : nat * nat;
}.
Definition counts_zero : counts := Counts 0 0 0 0 0 (0, 0) (0, 0) (0, 0) (0, 0).
(** [c.field.0 += 1] for the editor, [c.field.1 += 1] for the archivist. *)
Definition bump (rl : role) (p : nat * nat) : nat * nat :=
  match rl with Editor => (S p.1, p.2) | Archivist => (p.1, S p.2) end.
Definition inc_dirty rl c := Counts (total_updates c) (total_archivist c) (reeval_nochange c) (reeval_change c) (clean_rec c)
  (bump rl (dirty c)) (alloc_fresh c) (alloc_nochange c) (alloc_change c).
Definition inc_fresh rl c := Counts (total_updates c) (total_archivist c) (reeval_nochange c) (reeval_change c) (clean_rec c)
  (dirty c) (bump rl (alloc_fresh c)) (alloc_nochange c) (alloc_change c).
Definition inc_same rl c := Counts (total_updates c) (total_archivist c) (reeval_nochange c) (reeval_change c) (clean_rec c)
  (dirty c) (alloc_fresh c) (bump rl (alloc_nochange c)) (alloc_change c).
Definition inc_diff rl c := Counts (total_updates c) (total_archivist c) (reeval_nochange c) (reeval_change c) (clean_rec c)
  (dirty c) (alloc_fresh c) (alloc_nochange c) (bump rl (alloc_change c)).
Definition inc_arch c := Counts (total_updates c) (S (total_archivist c)) (reeval_nochange c) (reeval_change c) (clean_rec c)
  (dirty c) (alloc_fresh c) (alloc_nochange c) (alloc_change c).
Definition inc_rec c := Counts (total_updates c) (total_archivist c) (reeval_nochange c) (reeval_change c) (S (clean_rec c))
  (dirty c) (alloc_fresh c) (alloc_nochange c) (alloc_change c).
Definition inc_reeval (ch : bool) c := Counts (total_updates c) (total_archivist c)
  (if ch then reeval_nochange c else S (reeval_nochange c)) (if ch then S (reeval_change c) else reeval_change c) (clean_rec c)
  (dirty c) (alloc_fresh c) (alloc_nochange c) (alloc_change c).

(** Traces with [Debug] nodes ([None]), which user code can insert (engine.rs:279-289). *)
Inductive xtree := XNode (e : option teffect) (ext : list xtree).
Fixpoint embed (t : tree) : xtree := match t with TNode e _ _ F => XNode (Some e) (map embed F) end.

(** reflect.rs:531-542; the [println!] of a warning is not modelled. *)
Fixpoint count_dirty (rl : role) (t : xtree) (c : counts) : counts :=
  match t with XNode e F =>
    fold_left (λ c t, count_dirty rl t c) F (match e with Some TDirty => inc_dirty rl c | _ => c end)
  end.
(** reflect.rs:600-618: the loop deciding whether a re-evaluation counts as a change. *)
Definition is_change (t : xtree) : bool :=
  match t with XNode e _ =>
    match e with
    | Some (TAlloc LocFresh _) | Some (TAlloc (LocExists ContentDiff) _) | Some (TForce CompCacheMiss) | Some TDirty => true
    | _ => false
    end
  end.
Definition no_extent (F : list xtree) (c : counts) : option counts := match F with [] => Some c | _ => None end.
Section ofold.
  Context {A C : Type} (f : A → C → option C).
  Fixpoint ofold (xs : list A) (c : C) : option C :=
    match xs with [] => Some c | x :: xs => match f x c with Some c => ofold xs c | None => None end end.
End ofold.
(** reflect.rs:544-667; [None]: an [unreachable!()] or a failing assertion. *)
Fixpoint count_rec (rl : role) (t : xtree) (c : counts) : option counts :=
  match t with XNode e F =>
    match rl with
    | Editor =>
        match e with
        | None | Some TDirty => Some (count_dirty rl t c)
        | Some TRemove | Some TCleanEdge | Some TCleanEval | Some TCleanRec => None
        | Some (TAlloc LocFresh _) => no_extent F (inc_fresh rl c)
        | Some (TAlloc (LocExists ContentSame) _) => Some (fold_left (λ c t, count_dirty rl t c) F (inc_same rl c))
        | Some (TAlloc (LocExists ContentDiff) _) => Some (fold_left (λ c t, count_dirty rl t c) F (inc_diff rl c))
        | Some (TForce RefGet) => no_extent F c
        | Some (TForce CompCacheHit) | Some (TForce CompCacheMiss) => ofold (count_rec Archivist) F (inc_arch c)
        end
    | Archivist =>
        match e with
        | None | Some TDirty => Some (count_dirty rl t c)
        | Some TRemove | Some TCleanEdge => no_extent F c
        | Some TCleanEval => ofold (count_rec Archivist) F (inc_reeval (existsb is_change F) c)
        | Some TCleanRec => ofold (count_rec Archivist) F (inc_rec c)
        | Some (TAlloc LocFresh _) => no_extent F (inc_fresh rl c)
        | Some (TAlloc (LocExists ContentSame) _) => ofold (count_rec Archivist) F (inc_same rl c)
        | Some (TAlloc (LocExists ContentDiff) _) => ofold (count_rec Archivist) F (inc_diff rl c)
        | Some (TForce RefGet) => no_extent F c
        | Some (TForce CompCacheHit) | Some (TForce CompCacheMiss) => ofold (count_rec Archivist) F c
        end
    end
  end.
(** reflect.rs:517-528 *)
Definition trace_count (F : list xtree) (tu : option nat) : option counts :=
  ofold (count_rec Editor) F (Counts (default 1 tu) 0 0 0 0 (0, 0) (0, 0) (0, 0) (0, 0)).

(** ** What the counters should be *)
(** All nodes of a tree, in order. *)
Fixpoint nodes (t : tree) : list tree := match t with TNode _ _ _ F => t :: flat_map nodes F end.
Definition demands_comp (t : tree) : bool :=
  match t_eff t with TForce CompCacheHit | TForce CompCacheMiss => true | _ => false end.
(** The effects of the editor: everything but what happens within its demands; and the latter. *)
Definition editor_nodes (F : list tree) : list tree := flat_map (λ t, if demands_comp t then [t] else nodes t) F.
Definition archivist_nodes (F : list tree) : list tree :=
  flat_map (λ t, if demands_comp t then flat_map nodes (t_ext t) else []) F.
Definition count (p : tree → bool) (ns : list tree) : nat := length (List.filter p ns).
Definition is_dirty_eff (t : tree) : bool := match t_eff t with TDirty => true | _ => false end.
Definition is_fresh_alloc (t : tree) : bool := match t_eff t with TAlloc LocFresh _ => true | _ => false end.
Definition is_same_alloc (t : tree) : bool := match t_eff t with TAlloc (LocExists ContentSame) _ => true | _ => false end.
Definition is_diff_alloc (t : tree) : bool := match t_eff t with TAlloc (LocExists ContentDiff) _ => true | _ => false end.
Definition is_clean_rec (t : tree) : bool := match t_eff t with TCleanRec => true | _ => false end.
Definition is_reeval (t : tree) : bool := match t_eff t with TCleanEval => true | _ => false end.
(** A re-evaluation one of whose immediate effects allocates something new or different, dirties, or runs a thunk
    for the first time. *)
Definition changes (t : tree) : bool :=
  match t_eff t with TAlloc LocFresh _ | TAlloc (LocExists ContentDiff) _ | TForce CompCacheMiss | TDirty => true | _ => false end.
Definition is_changing_reeval (t : tree) : bool := is_reeval t && existsb changes (t_ext t).

Definition expected (F : list tree) (tu : option nat) : counts :=
  let both p := (count p (editor_nodes F), count p (archivist_nodes F)) in
  Counts (default 1 tu) (count demands_comp (editor_nodes F))
    (count (λ t, is_reeval t && negb (is_changing_reeval t)) (archivist_nodes F))
    (count is_changing_reeval (archivist_nodes F)) (count is_clean_rec (archivist_nodes F))
    (both is_dirty_eff) (both is_fresh_alloc) (both is_same_alloc) (both is_diff_alloc).

(** ** Proof *)
Definition cadd (a b : counts) : counts :=
  let p2 (x y : nat * nat) := (x.1 + y.1, x.2 + y.2) in
  Counts (total_updates a + total_updates b) (total_archivist a + total_archivist b)
    (reeval_nochange a + reeval_nochange b) (reeval_change a + reeval_change b) (clean_rec a + clean_rec b)
    (p2 (dirty a) (dirty b)) (p2 (alloc_fresh a) (alloc_fresh b)) (p2 (alloc_nochange a) (alloc_nochange b))
    (p2 (alloc_change a) (alloc_change b)).
Definition b2n (b : bool) : nat := if b then 1 else 0.
(** The contribution of one node. *)
Definition contrib (rl : role) (t : tree) : counts :=
  let at_role b := match rl with Editor => (b2n b, 0) | Archivist => (0, b2n b) end in
  Counts 0 (match rl with Editor => b2n (demands_comp t) | Archivist => 0 end)
    (match rl with Archivist => b2n (is_reeval t && negb (is_changing_reeval t)) | Editor => 0 end)
    (match rl with Archivist => b2n (is_changing_reeval t) | Editor => 0 end)
    (match rl with Archivist => b2n (is_clean_rec t) | Editor => 0 end)
    (at_role (is_dirty_eff t)) (at_role (is_fresh_alloc t)) (at_role (is_same_alloc t)) (at_role (is_diff_alloc t)).
Definition total (rl : role) (ns : list tree) : counts := foldr (λ t c, cadd (contrib rl t) c) counts_zero ns.

Lemma counts_eq a b :
  total_updates a = total_updates b → total_archivist a = total_archivist b → reeval_nochange a = reeval_nochange b →
  reeval_change a = reeval_change b → clean_rec a = clean_rec b → dirty a = dirty b → alloc_fresh a = alloc_fresh b →
  alloc_nochange a = alloc_nochange b → alloc_change a = alloc_change b → a = b.
Proof. destruct a, b. simpl. by intros -> -> -> -> -> -> -> -> ->. Qed.
Local Ltac ceq := apply counts_eq; simpl; repeat first [lia | f_equal].
Lemma cadd_assoc a b c : cadd a (cadd b c) = cadd (cadd a b) c.
Proof. ceq. Qed.
Lemma cadd_comm a b : cadd a b = cadd b a.
Proof. ceq. Qed.
Lemma cadd_zero a : cadd a counts_zero = a.
Proof. destruct a as [? ? ? ? ? [] [] [] []]. ceq. Qed.
Lemma total_app rl a b : total rl (a ++ b) = cadd (total rl a) (total rl b).
Proof. induction a as [|t a IH]; simpl; [by rewrite cadd_comm, cadd_zero|]. by rewrite IH, cadd_assoc. Qed.

Lemma count_dirty_total rl t : dtok t = true → ∀ c, count_dirty rl (embed t) c = cadd c (total rl (nodes t)).
Proof.
  induction t as [e src tgt F IH] using tree_ind'. intros Ht c. simpl in Ht. destruct e; try done. simpl.
  assert (∀ c, fold_left (λ c t, count_dirty rl t c) (map embed F) c = cadd c (total rl (flat_map nodes F))) as ->.
  { clear c. induction IH as [|t F Ht' _ IHF]; intros c; simpl in *; [by rewrite cadd_zero|].
    apply andb_true_iff in Ht as [H1 H2]. rewrite Ht' by done. rewrite IHF by done. by rewrite total_app, cadd_assoc. }
  rewrite cadd_assoc. f_equal. destruct c as [? ? ? ? ? [] [] [] []]. destruct rl; ceq.
Qed.
Lemma count_aext_total rl F : aext F = true → ∀ c,
  fold_left (λ c t, count_dirty rl t c) (map embed F) c = cadd c (total rl (flat_map nodes F)).
Proof.
  induction F as [|t F IH]; intros Ha c; simpl in *; [by rewrite cadd_zero|].
  apply andb_true_iff in Ha as [H1 H2]. rewrite IH by done. rewrite total_app, cadd_assoc. f_equal.
  apply orb_true_iff in H1 as [H1|H1]; [by apply count_dirty_total|].
  destruct t as [[] src tgt []]; try done. simpl. destruct c as [? ? ? ? ? [] [] [] []]. destruct rl; ceq.
Qed.
Lemma existsb_map_embed F : existsb is_change (map embed F) = existsb changes F.
Proof. induction F as [|t F IH]; [done|]. simpl. rewrite IH. f_equal. by destruct t as [e ? ? ?]. Qed.

Lemma count_rec_total t : tok Archivist t = true → ∀ c, count_rec Archivist (embed t) c = Some (cadd c (total Archivist (nodes t))).
Proof.
  induction t as [e src tgt F IH] using tree_ind'. intros Ht c.
  assert (forallb (tok Archivist) F = true → ∀ c, ofold (count_rec Archivist) (map embed F) c = Some (cadd c (total Archivist (flat_map nodes F)))) as HF.
  { clear c Ht. induction IH as [|t F Ht' _ IHF]; intros Hf c; simpl in *; [by rewrite cadd_zero|].
    apply andb_true_iff in Hf as [H1 H2]. rewrite Ht' by done. rewrite IHF by done. by rewrite total_app, cadd_assoc. }
  assert (aext F = true → forallb (tok Archivist) F = true) as Haext.
  { apply forallb_impl. intros t Ht'. apply orb_true_iff in Ht' as [?|?]; [by apply dtok_tok|by apply remove_leaf_tok]. }
  cbn [embed nodes]. cbn [tok] in Ht. destruct e as [| | | | |[|[|]] kd|[| |]]; cbn [count_rec].
  - rewrite HF by done. simpl. rewrite cadd_assoc. do 2 f_equal. destruct c as [? ? ? ? ? [] [] [] []]; ceq.
  - rewrite HF by done. simpl. rewrite cadd_assoc. do 2 f_equal. rewrite existsb_map_embed.
    destruct c as [? ? ? ? ? [] [] [] []]. assert (is_changing_reeval (TNode TCleanEval src tgt F) = existsb changes F) as Hch by done.
    destruct (existsb changes F); apply counts_eq; simpl; rewrite ?Hch; simpl; repeat first [lia | f_equal].
  - destruct F; [|done]. simpl. f_equal. destruct c as [? ? ? ? ? [] [] [] []]. ceq.
  - f_equal. exact (count_dirty_total Archivist (TNode TDirty src tgt F) Ht c).
  - destruct F; [|done]. simpl. f_equal. destruct c as [? ? ? ? ? [] [] [] []]. ceq.
  - destruct F; [|done]. simpl. f_equal. destruct c as [? ? ? ? ? [] [] [] []]. ceq.
  - rewrite HF by auto. simpl. rewrite cadd_assoc. do 2 f_equal. destruct c as [? ? ? ? ? [] [] [] []]; ceq.
  - rewrite HF by auto. simpl. rewrite cadd_assoc. do 2 f_equal. destruct c as [? ? ? ? ? [] [] [] []]; ceq.
  - rewrite HF by done. simpl. rewrite cadd_assoc. do 2 f_equal. destruct c as [? ? ? ? ? [] [] [] []]; ceq.
  - rewrite HF by done. simpl. rewrite cadd_assoc. do 2 f_equal. destruct c as [? ? ? ? ? [] [] [] []]; ceq.
  - destruct F; [|done]. simpl. f_equal. destruct c as [? ? ? ? ? [] [] [] []]. ceq.
Qed.
Lemma count_forest_total F : forallb (tok Archivist) F = true → ∀ c,
  ofold (count_rec Archivist) (map embed F) c = Some (cadd c (total Archivist (flat_map nodes F))).
Proof.
  induction F as [|t F IH]; intros Hf c; simpl in *; [by rewrite cadd_zero|].
  apply andb_true_iff in Hf as [H1 H2]. rewrite count_rec_total by done. rewrite IH by done. by rewrite total_app, cadd_assoc.
Qed.
Lemma count_editor_total t : tok Editor t = true → ∀ c, count_rec Editor (embed t) c =
  Some (cadd c (cadd (total Editor (editor_nodes [t])) (total Archivist (archivist_nodes [t])))).
Proof.
  destruct t as [e src tgt F]. intros Ht c. unfold editor_nodes, archivist_nodes. cbn [flat_map]. rewrite !app_nil_r.
  cbn [tok] in Ht. destruct e as [| | | | |[|[|]] kd|[| |]]; try done; cbn [embed count_rec demands_comp t_eff t_ext].
  - f_equal. rewrite cadd_zero. exact (count_dirty_total Editor (TNode TDirty src tgt F) Ht c).
  - destruct F; [|done]. simpl. f_equal. destruct c as [? ? ? ? ? [] [] [] []]. ceq.
  - rewrite count_aext_total by done. simpl. rewrite cadd_zero, cadd_assoc. do 2 f_equal. destruct c as [? ? ? ? ? [] [] [] []]; ceq.
  - rewrite count_aext_total by done. simpl. rewrite cadd_zero, cadd_assoc. do 2 f_equal. destruct c as [? ? ? ? ? [] [] [] []]; ceq.
  - rewrite count_forest_total by done. simpl. rewrite cadd_assoc. do 2 f_equal. rewrite cadd_zero. destruct c as [? ? ? ? ? [] [] [] []]; ceq.
  - rewrite count_forest_total by done. simpl. rewrite cadd_assoc. do 2 f_equal. rewrite cadd_zero. destruct c as [? ? ? ? ? [] [] [] []]; ceq.
  - destruct F; [|done]. simpl. f_equal. destruct c as [? ? ? ? ? [] [] [] []]. ceq.
Qed.
Lemma total_counts rl ns : total rl ns =
  let at_role p := match rl with Editor => (count p ns, 0) | Archivist => (0, count p ns) end in
  Counts 0 (match rl with Editor => count demands_comp ns | Archivist => 0 end)
    (match rl with Archivist => count (λ t, is_reeval t && negb (is_changing_reeval t)) ns | Editor => 0 end)
    (match rl with Archivist => count is_changing_reeval ns | Editor => 0 end)
    (match rl with Archivist => count is_clean_rec ns | Editor => 0 end)
    (at_role is_dirty_eff) (at_role is_fresh_alloc) (at_role is_same_alloc) (at_role is_diff_alloc).
Proof.
  assert (∀ p t ns, count p (t :: ns) = b2n (p t) + count p ns) as E.
  { intros p t ns'. unfold count. simpl. by destruct (p t). }
  induction ns as [|t ns IH]; [by destruct rl|]. cbn [total foldr]. change (foldr _ counts_zero ns) with (total rl ns).
  rewrite IH. destruct rl; cbv zeta; rewrite !E; unfold cadd, contrib; simpl; done.
Qed.

Theorem count_exact F tu : forallb (tok Editor) F = true → trace_count (map embed F) tu = Some (expected F tu).
Proof.
  intros HF. unfold trace_count.
  assert (∀ c, ofold (count_rec Editor) (map embed F) c =
    Some (cadd c (cadd (total Editor (editor_nodes F)) (total Archivist (archivist_nodes F))))) as ->.
  { induction F as [|t F IH]; intros c; simpl in *; [change (total Editor (editor_nodes [])) with counts_zero; change (total Archivist (archivist_nodes [])) with counts_zero; by rewrite !cadd_zero|].
    apply andb_true_iff in HF as [H1 H2]. rewrite count_editor_total by done. rewrite IH by done. f_equal.
    unfold editor_nodes, archivist_nodes. cbn [flat_map]. rewrite !app_nil_r, !total_app.
    rewrite <- !cadd_assoc. f_equal. f_equal. rewrite !cadd_assoc. f_equal. apply cadd_comm. }
  f_equal. rewrite !total_counts. unfold expected. ceq.
Qed.

Section TraceProps.
Context `{Prog}.

(** The effects recorded while [c] runs, from state [s] to state [s'] (oldest first). *)
Definition recorded (s s' : dcg) (w : list event) : Prop := trc s' = reverse w ++ trc s.

(** C31. [dcg_reflect_begin]; run a client program (in whatever state, at whatever nesting); [dcg_reflect_end]: if the
    program returns normally then recording and the final assertion succeed. *)
Theorem C31_traces_balanced k c s v s' :
  exec k c s = (OVal v, s') → ∃ w F, recorded s s' w ∧ reflect_forest w = Some F.
Proof.
  intros E. destruct (exec_ctx k c s v s' E) as [_ _ _ (w & F & Et & Hw & _)]. exists w, F. split; [done|by apply reflect_tword].
Qed.
(** ... and every prefix of the recording stays within the recorder's assertions. *)
Theorem C31_recorder_never_fails k c s v s' w w1 w2 :
  exec k c s = (OVal v, s') → recorded s s' w → w = w1 ++ w2 → record_all w1 [[]] ≠ None.
Proof.
  intros E Hr -> Hn. destruct (exec_ctx k c s v s' E) as [_ _ _ (w' & F & Et & Hw & _)].
  assert (w1 ++ w2 = w') as <-. { unfold recorded in Hr. rewrite Et in Hr. apply app_inv_tail in Hr. by apply (inj reverse) in Hr. }
  assert (Hall := record_tword _ _ Hw [] []).
  assert (∀ w r, record_all w r = None → ∀ w', record_all (w ++ w') r = None) as Hpre.
  { clear. induction w as [|ev w IH]; intros r; simpl; [done|]. destruct (record ev r); [|done]. intros Hr w'. by apply IH. }
  rewrite Hpre in Hall by done. done.
Qed.

(** C32. On what was recorded during any editor program, [trace_count] returns, and its counters are the numbers of
    the corresponding effects. *)
Theorem C32_trace_count k c s v s' tu :
  exec k c s = (OVal v, s') →
  ∃ w F, recorded s s' w ∧ reflect_forest w = Some F ∧ trace_count (map embed F) tu = Some (expected F tu).
Proof.
  intros E. destruct (exec_ctx k c s v s' E) as [_ _ _ (w & F & Et & Hw & HF)]. exists w, F. split; [done|].
  split; [by apply reflect_tword|by apply count_exact].
Qed.
End TraceProps.

(** C32 with [Debug] extents: effects inside them are not counted. *)
Theorem C32_debug_extents_refuted :
  trace_count [XNode None [XNode (Some (TAlloc LocFresh KRefCell)) []]] None = trace_count [] None ∧
  trace_count [XNode (Some (TAlloc LocFresh KRefCell)) []] None ≠ trace_count [] None.
Proof. split; [reflexivity|]. done. Qed.
