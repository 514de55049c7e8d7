(** * A disciplined run is a run of the reference semantics. *)
From Verif Require Export Discipline.

Section DiscRef.
Context `{Prog}.
Context (opt md0 : bool).

(** The thunks the specification has finished are those the reference run has logged since; conversely, inside a thunk
    (a non-empty [stk]) every thunk the reference run logs has been finished. *)
Definition log_done (stk : list loc) (p p' : dstate) (lg' : list loc) : Prop :=
  d_done p' ⊆ d_done p ∪ list_to_set lg' ∧ (stk ≠ [] → ∀ x, x ∈ d_done p ∨ x ∈ lg' → x ∈ d_done p').
Definition ref_ok {A} (stk : list loc) (m : dM A) (r : rM A) : Prop := ∀ p v p' lg,
  m p = Some (v, p') →
  ∃ lg', r (RState (d_store p) lg) = ROk v (RState (d_store p') (lg' ++ lg)) ∧ log_done stk p p' lg'.
Lemma log_done_nil stk p p' : d_done p' = d_done p → log_done stk p p' [].
Proof. intros E. split; [set_solver|]. intros _ x [?|?%elem_of_nil]; [|done]. by rewrite E. Qed.
Lemma log_done_app stk p p1 p2 lg1 lg2 : log_done stk p p1 lg1 → log_done stk p1 p2 lg2 → log_done stk p p2 (lg2 ++ lg1).
Proof.
  intros [A1 B1] [A2 B2]. split; [rewrite list_to_set_app_L; set_solver|].
  intros Hs x [?|[?|?]%elem_of_app]; apply B2; auto.
Qed.

Lemma ref_ok_ret {A} stk (a : A) : ref_ok stk (λ p, Some (a, p)) (λ st, ROk a st).
Proof. intros p v p' lg [= <- <-]. exists []. split; [done|by apply log_done_nil]. Qed.

Lemma ref_ok_bind {A B} stk (m : dM A) (r : rM A) (f : A → dM B) (g : A → rM B) :
  ref_ok stk m r → (∀ a, ref_ok stk (f a) (g a)) → ref_ok stk (dbind m f) (rbind r g).
Proof.
  intros Hm Hf p v p' lg Hd. unfold dbind in Hd.
  destruct (m p) as [[a p1]|] eqn:E; [|done].
  destruct (Hm _ _ _ lg E) as (lg1 & Hr & Hd1).
  destruct (Hf a _ _ _ (lg1 ++ lg) Hd) as (lg2 & Hr2 & Hd2).
  exists (lg2 ++ lg1). unfold rbind. rewrite Hr, Hr2. rewrite (assoc_L (++)). split; [done|].
  by eapply log_done_app.
Qed.

Lemma ref_ok_alloc stk l ct (r : rM loc) :
  (∀ st, rebind_ok l (r_store st !! l) ct ∅ = true →
     r st = ROk l (RState (<[l:=ct]> (r_store st)) (r_log st))) →
  ref_ok stk (d_alloc opt stk l ct) r.
Proof.
  intros Hr p v p' lg Hd. unfold d_alloc in Hd.
  destruct (_ && _) eqn:E in Hd; [|done]. injection Hd as <- <-.
  exists []. split; [|apply log_done_nil; unfold d_write; by destruct stk]. simpl. apply Hr. simpl.
  apply andb_true_iff in E as [E _]. apply andb_true_iff in E as [_ E].
  unfold rebind_ok in *. destruct (d_store p !! l); [|done].
  destruct (bool_decide (c = ct)); [done|]. simpl in *.
  destruct (is_struct l); [done|]. simpl in *.
  rewrite bool_decide_eq_true_2 by set_solver. simpl.
  destruct (bool_decide _) in E; [done|done].
Qed.

Lemma ref_ok_cell stk pth md t n v :
  ref_ok stk (d_cell opt stk pth md t n v) (ref_cell pth md t n v).
Proof.
  apply ref_ok_alloc. intros st Hrb. unfold ref_cell.
  destruct (r_store st !! _) as [ct|] eqn:E; [|done].
  rewrite decide_True; [done|]. unfold rebind_ok in Hrb.
  destruct (decide (ct = CCell t v)) as [->|]; [done|].
  rewrite bool_decide_eq_false_2 in Hrb by done. simpl in Hrb.
  destruct ct; destruct (is_struct _); simpl in Hrb; rewrite ?andb_false_r in Hrb; try done.
  apply andb_true_iff in Hrb as [_ Hrb]. by apply bool_decide_eq_true_1 in Hrb as ->.
Qed.

Lemma ref_ok_thunk stk pth md t nc pp arg spur :
  ref_ok stk (d_thunk opt stk pth md t nc pp arg spur) (ref_thunk pth md t nc pp arg spur).
Proof.
  assert (∀ l, ref_ok stk (d_alloc opt stk l (CThunk t pp arg spur))
    (λ st, match r_store st !! l with
      | Some ct =>
          if decide (content_ty ct = t) then
            match ct with
            | CThunk _ pp' _ _ => if decide (pp' = pp)
                                  then rbind (rput l (CThunk t pp arg spur)) (λ _ st, ROk l st) st
                                  else RPanic PFun
            | CCell _ _ => rbind (rput l (CThunk t pp arg spur)) (λ _ st, ROk l st) st
            end
          else RPanic PType
      | None => rbind (rput l (CThunk t pp arg spur)) (λ _ st, ROk l st) st
      end)) as Hgen.
  { intros l. apply ref_ok_alloc. intros st Hrb.
    destruct (r_store st !! _) as [ct|] eqn:E; [|done].
    unfold rebind_ok in Hrb.
    destruct (decide (ct = CThunk t pp arg spur)) as [->|]; simpl; [by rewrite !decide_True by done|].
    rewrite bool_decide_eq_false_2 in Hrb by done. simpl in Hrb.
    destruct ct; destruct (is_struct _); simpl in Hrb; rewrite ?andb_false_r in Hrb; try done.
    apply andb_true_iff in Hrb as [_ Hrb]. apply bool_decide_eq_true_1 in Hrb as (-> & -> & ->).
    simpl. by rewrite !decide_True by done. }
  destruct nc; simpl; try (by intros ?????); [apply Hgen|].
  unfold ref_thunk. apply Hgen.
Qed.

Lemma ref_ok_set stk t a v : ref_ok stk (d_set stk t a v) (ref_set stk t a v).
Proof.
  intros p u p' lg Hd. unfold d_set in Hd. destruct a as [|l]; [done|].
  destruct stk; [|done]. simpl. destruct (d_store p !! l) as [[t' v'|]|]; try done.
  destruct (decide _) as [[-> ?]|]; [|done]. injection Hd as <- <-.
  exists []. rewrite decide_True by done. split; [done|by apply log_done_nil].
Qed.

Lemma ref_ok_map (frc : ty → loc → dM val) (frc' : ty → loc → option val → rM val) abs stk t l f :
  (∀ t l, ref_ok stk (frc t l) (frc' t l None)) →
  (∀ t l p, match d_store p !! l with
            | Some (CCell t' v) => t' = t → ∀ lg, frc' t l None (RState (d_store p) lg) = ROk v (RState (d_store p) lg)
            | _ => True end) →
  ∀ p v p' lg, d_force_map opt frc abs stk t l f p = Some (v, p') →
   ∃ lg' w, frc' t l None (RState (d_store p) lg) = ROk w (RState (d_store p') (lg' ++ lg)) ∧ v = f w ∧ log_done stk p p' lg'.
Proof.
  intros Hf Hc p v p' lg Hd. unfold d_force_map in Hd.
  specialize (Hc t l p). destruct (d_store p !! l) as [[t' w|]|] eqn:E; [| |done].
  - destruct (decide _) as [->|]; [|done]. specialize (Hc eq_refl lg).
    destruct (tracked opt l).
    + exists [], w. destruct stk as [|x stk].
      { injection Hd as <- <-. rewrite Hc. split; [done|]. split; [done|by apply log_done_nil]. }
      destruct (_ && _) in Hd; [|done]. injection Hd as <- <-.
      simpl. rewrite Hc. split; [done|]. split; [done|by apply log_done_nil].
    + destruct (frc t l p) as [[w' p1]|] eqn:Ef; [|done]. injection Hd as <- <-.
      destruct (Hf _ _ _ _ _ lg Ef) as (lg' & ? & ?). eauto.
  - destruct (frc t l p) as [[w' p1]|] eqn:Ef; [|done]. injection Hd as <- <-.
    destruct (Hf _ _ _ _ _ lg Ef) as (lg' & ? & ?). eauto.
Qed.

Lemma ref_ok_run (frc : bool → ty → loc → dM val) (frc' : bool → ty → loc → option val → rM val) stk :
  (∀ md t l cyc, ref_ok stk (frc md t l) (frc' md t l cyc)) →
  (∀ md t l p, match d_store p !! l with
            | Some (CCell t' v) => t' = t → ∀ lg, frc' md t l None (RState (d_store p) lg) = ROk v (RState (d_store p) lg)
            | _ => True end) →
  ∀ c pth md, ref_ok stk (d_run opt frc stk pth md c) (ref_run frc' stk pth md c).
Proof.
  intros Hf Hc c. induction c as [v| |t a cyc k IH|t a f k IH|t a f k IH|t n v k IH|t nc pp arg spur k IH|t a v k IH|n b IHb k IH|b IHb k IH]; intros pth md; simpl.
  - apply ref_ok_ret.
  - by intros ?????.
  - apply ref_ok_bind; [|auto]. destruct a; simpl; [apply ref_ok_ret|apply Hf].
  - destruct a as [v|l].
    + intros p w p' lg Hd. by apply (IH (f v) pth md p w p' lg).
    + intros p w p' lg Hd. unfold dbind in Hd.
      destruct (d_force_map _ _ _ _ _ _ _ _) as [[w1 p1]|] eqn:E; [|done].
      destruct (ref_ok_map _ (frc' md) _ _ _ _ _ (λ t l, Hf md t l None) (Hc md) _ _ _ lg E) as (lg1 & w0 & Hr & -> & Hd1).
      destruct (IH _ pth md _ _ _ (lg1 ++ lg) Hd) as (lg2 & Hr2 & Hd2).
      exists (lg2 ++ lg1). unfold rbind. simpl. rewrite Hr, Hr2, (assoc_L (++)). split; [done|].
      by eapply log_done_app.
  - destruct a as [v|l].
    + intros p w p' lg Hd. by apply (IH (f v) pth md p w p' lg).
    + intros p w p' lg Hd. unfold dbind in Hd.
      destruct (d_force_map _ _ _ _ _ _ _ _) as [[w1 p1]|] eqn:E; [|done].
      destruct (ref_ok_map _ (frc' md) _ _ _ _ _ (λ t l, Hf md t l None) (Hc md) _ _ _ lg E) as (lg1 & w0 & Hr & -> & Hd1).
      destruct (IH _ pth md _ _ _ (lg1 ++ lg) Hd) as (lg2 & Hr2 & Hd2).
      exists (lg2 ++ lg1). unfold rbind. simpl. rewrite Hr, Hr2, (assoc_L (++)). split; [done|].
      by eapply log_done_app.
  - apply ref_ok_bind; [apply ref_ok_cell|auto].
  - apply ref_ok_bind; [apply ref_ok_thunk|auto].
  - apply ref_ok_bind; [apply ref_ok_set|auto].
  - apply ref_ok_bind; auto.
  - apply ref_ok_bind; auto.
Qed.

Lemma ref_force_cell n stk md t l (p : dstate) :
  match d_store p !! l with
  | Some (CCell t' v) => t' = t → ∀ lg, ref_force n stk md t l None (RState (d_store p) lg) = ROk v (RState (d_store p) lg)
  | _ => True end.
Proof.
  destruct (d_store p !! l) as [[t' v|]|] eqn:E; try done. intros -> lg.
  destruct n; simpl; rewrite E; simpl; by rewrite decide_True.
Qed.

Lemma ref_ok_force n : ∀ stk md t l cyc,
  ref_ok stk (d_force opt md0 n stk md t l) (ref_force n stk md t l cyc).
Proof.
  induction n as [|n IH]; intros stk md t l cyc p v p' lg Hd; simpl in *.
  - destruct (d_store p !! l) as [[t' w|t' pp arg spur]|]; [| |done].
    + destruct (decide (t' = t)) as [->|]; [|done]. simpl. rewrite ?decide_True by done.
      unfold d_get in Hd. destruct (_ && _) in Hd; [|done]. injection Hd as <- <-.
      exists []. unfold d_observe. destruct stk; simpl; (split; [done|by apply log_done_nil]).
    + by destruct (decide (t' = t ∧ _)).
  - destruct (d_store p !! l) as [[t' w|t' pp arg spur]|]; [| |done].
    + destruct (decide (t' = t)) as [->|]; [|done]. simpl. rewrite ?decide_True by done.
      unfold d_get in Hd. destruct (_ && _) in Hd; [|done]. injection Hd as <- <-.
      exists []. unfold d_observe. destruct stk; simpl; (split; [done|by apply log_done_nil]).
    + destruct (decide (t' = t ∧ _)) as [(-> & Hl & -> & Hs)|]; [|done]. simpl.
      rewrite decide_True by done. rewrite decide_False by done.
      destruct (d_run _ _ _ _ _ _ _) as [[w p1]|] eqn:E; [|done]. injection Hd as <- <-.
      assert (Hok := ref_ok_run (d_force opt md0 n (l :: stk)) (ref_force n (l :: stk)) (l :: stk)
        (λ md t l0 cyc, IH (l :: stk) md t l0 cyc) (λ md t l0 p, ref_force_cell n (l :: stk) md t l0 p)
        (code pp arg spur) (l_path l) md0 _ _ _ (l :: lg) E).
      destruct Hok as (lg' & Hr & Hd). simpl in Hr.
      exists (lg' ++ [l]). rewrite <- (assoc_L (++)). simpl. simpl in Hd. rewrite Hr.
      destruct Hd as [Hd1 Hd2]. destruct stk as [|x0 stk]; simpl; (split; [done|]); (split; simpl); [set_solver|done| |].
      * rewrite list_to_set_app_L. set_solver.
      * intros _ x. specialize (Hd2 ltac:(done) x). rewrite elem_of_app, elem_of_list_singleton, elem_of_union, elem_of_singleton. simpl in Hd2. tauto.
Qed.

(** Disciplined success implies reference success with the same value and store. *)
Theorem d_exec_ref n c p v p' lg :
  d_exec opt md0 n c p = Some (v, p') →
  ∃ lg', ref_exec n md0 c (RState (d_store p) lg) = ROk v (RState (d_store p') (lg' ++ lg)).
Proof.
  intros Hd.
  destruct (ref_ok_run (d_force opt md0 n []) (ref_force n []) [] (λ md t l cyc, ref_ok_force n [] md t l cyc)
    (λ md t l p, ref_force_cell n [] md t l p) c [] md0 _ _ _ lg Hd) as (lg' & Hr & _). eauto.
Qed.

End DiscRef.
