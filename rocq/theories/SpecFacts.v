(** * Facts about disciplined evaluation alone: monotonicity and idempotence inside one demand. *)
From Verif Require Export DiscRef.

(** Evolution of a disciplined state inside one demand. *)
Record d_le (p p' : dstate) : Prop := {
  dle_seen : d_seen p ⊆ d_seen p';
  dle_done : d_done p ⊆ d_done p';
  dle_frozen : ∀ z, z ∈ d_seen p → d_store p' !! z = d_store p !! z;
}.

Global Instance d_le_refl : Reflexive d_le.
Proof. by intros p. Qed.
Lemma d_le_trans p1 p2 p3 : d_le p1 p2 → d_le p2 p3 → d_le p1 p3.
Proof.
  intros [A1 B1 C1] [A2 B2 C2]. split; [set_solver..|].
  intros z Hz. rewrite C2 by set_solver. auto.
Qed.

(** [p] with the observation sets of [q]. *)
Definition with_fr (p q : dstate) : dstate :=
  DState (d_store p) (d_seen p) (d_done p) (d_full q) (d_map q).

Definition d_mono {A} (m : dM A) : Prop := ∀ p v p', m p = Some (v, p') → d_le p p'.
Definition d_idem {A} (m : dM A) : Prop := ∀ p v p1 p2,
  m p = Some (v, p1) → d_le p1 p2 → m (with_fr p2 p) = Some (v, with_fr p2 p1).

Lemma d_mono_ret {A} (a : A) : d_mono (λ p, Some (a, p)).
Proof. by intros p v p' [= <- <-]. Qed.
Lemma d_idem_ret {A} (a : A) : d_idem (λ p, Some (a, p)).
Proof. by intros p v p' p2 [= <- <-]. Qed.
Lemma d_mono_bind {A B} (m : dM A) (f : A → dM B) :
  d_mono m → (∀ a, d_mono (f a)) → d_mono (dbind m f).
Proof.
  intros Hm Hf p v p' Hd. unfold dbind in Hd.
  destruct (m p) as [[a p1]|] eqn:E; [|done]. eapply d_le_trans; [by eapply Hm|by eapply Hf].
Qed.
Lemma d_idem_bind {A B} (m : dM A) (f : A → dM B) :
  d_idem m → (∀ a, d_mono (f a)) → (∀ a, d_idem (f a)) → d_idem (dbind m f).
Proof.
  intros Hm Hf Hg p v p' p2 Hd Hle. unfold dbind in *.
  destruct (m p) as [[a p1]|] eqn:E; [|done].
  rewrite (Hm _ _ _ p2 E); [by apply Hg|]. eapply d_le_trans; [by eapply Hf|done].
Qed.

Section SpecFacts.
Context `{Prog}.
Context (opt md0 : bool).

Lemma rebind_ok_frozen l old ct seen :
  rebind_ok l old ct seen = true → l ∈ seen → old = Some ct ∨ old = None.
Proof.
  unfold rebind_ok. destruct old as [old|]; [|by right]. intros Hr Hl. left.
  destruct (decide (old = ct)) as [->|]; [done|].
  rewrite bool_decide_eq_false_2 in Hr by done. simpl in Hr.
  rewrite (bool_decide_eq_false_2 (l ∉ seen)) in Hr by (intros Hn; by apply Hn).
  by rewrite andb_false_r in Hr.
Qed.

(** A seen location is in the store: part of what [d_run] maintains. *)
Definition d_wf (p : dstate) : Prop := ∀ z, z ∈ d_seen p → is_Some (d_store p !! z).

Definition d_pres {A} (m : dM A) : Prop := ∀ p v p', d_wf p → m p = Some (v, p') → d_wf p' ∧ d_le p p'.

Lemma d_pres_ret {A} (a : A) : d_pres (λ p, Some (a, p)).
Proof. by intros p v p' Hwf [= <- <-]. Qed.
Lemma d_pres_bind {A B} (m : dM A) (f : A → dM B) :
  d_pres m → (∀ a, d_pres (f a)) → d_pres (dbind m f).
Proof.
  intros Hm Hf p v p' Hwf Hd. unfold dbind in Hd.
  destruct (m p) as [[a p1]|] eqn:E; [|done].
  destruct (Hm _ _ _ Hwf E) as [Hwf1 Hle]. destruct (Hf _ _ _ _ Hwf1 Hd) as [Hwf2 Hle2].
  split; [done|]. by eapply d_le_trans.
Qed.

Definition d_idem' {A} (m : dM A) : Prop := ∀ p v p1 p2,
  d_wf p → m p = Some (v, p1) → d_le p1 p2 → m (with_fr p2 p) = Some (v, with_fr p2 p1).
Lemma d_idem_bind' {A B} (m : dM A) (f : A → dM B) :
  d_idem' m → d_pres m → (∀ a, d_pres (f a)) → (∀ a, d_idem' (f a)) → d_idem' (dbind m f).
Proof.
  intros Hm Hp Hf Hg p v p' p2 Hwf Hd Hle. unfold dbind in *.
  destruct (m p) as [[a p1]|] eqn:E; [|done].
  destruct (Hp _ _ _ Hwf E) as [Hwf1 _].
  rewrite (Hm _ _ _ p2 Hwf E); [by apply Hg|]. eapply d_le_trans; [by eapply Hf|done].
Qed.

Lemma d_alloc_pres x stk l ct : d_pres (d_alloc opt (x :: stk) l ct).
Proof.
  intros p v p' Hwf Hd. unfold d_alloc in Hd.
  destruct (_ && _) eqn:E in Hd; [|done]. injection Hd as <- <-.
  apply andb_true_iff in E as [E _]. apply andb_true_iff in E as [_ E].
  unfold d_write. split.
  - intros z Hz. simpl in *. destruct (decide (z = l)) as [->|].
    + rewrite lookup_insert. eauto.
    + rewrite lookup_insert_ne by done. apply Hwf. set_solver.
  - split; simpl; [set_solver..|]. intros z Hz. destruct (decide (z = l)) as [->|].
    + rewrite lookup_insert. destruct (Hwf _ Hz) as [ct0 Hct].
      destruct (rebind_ok_frozen _ _ _ _ E Hz) as [->|Hn]; [done|]. congruence.
    + by rewrite lookup_insert_ne.
Qed.

Lemma d_alloc_idem x stk l ct : d_idem' (d_alloc opt (x :: stk) l ct).
Proof.
  intros p v p1 p2 Hwf Hd Hle. unfold d_alloc in *.
  destruct (_ && _) eqn:E in Hd; [|done]. injection Hd as <- <-.
  apply andb_true_iff in E as [E E3]. apply andb_true_iff in E as [E1 E2].
  rewrite E1, E3. simpl.
  destruct Hle as [A B C]. simpl in *.
  assert (d_store p2 !! l = Some ct) as Hl.
  { rewrite C by set_solver. by rewrite lookup_insert. }
  rewrite Hl. simpl. rewrite bool_decide_eq_true_2 by done. simpl.
  f_equal. f_equal. unfold d_write, with_fr. simpl. f_equal.
  - by apply insert_id.
  - set_solver.
Qed.

Lemma d_cell_pres x stk pth md t n v : d_pres (d_cell opt (x :: stk) pth md t n v).
Proof. apply d_alloc_pres. Qed.
Lemma d_cell_idem x stk pth md t n v : d_idem' (d_cell opt (x :: stk) pth md t n v).
Proof. apply d_alloc_idem. Qed.
Lemma d_thunk_pres x stk pth md t nc pp arg spur : d_pres (d_thunk opt (x :: stk) pth md t nc pp arg spur).
Proof. destruct nc; try (by intros ?????); apply d_alloc_pres. Qed.
Lemma d_thunk_idem x stk pth md t nc pp arg spur : d_idem' (d_thunk opt (x :: stk) pth md t nc pp arg spur).
Proof. destruct nc; try (by intros ??????); apply d_alloc_idem. Qed.
Lemma d_set_none x stk t a v p : d_set (x :: stk) t a v p = None.
Proof. by destruct a. Qed.

Lemma d_observe_le x stk l b p : d_le p (d_observe (x :: stk) l b p).
Proof. split; simpl; [set_solver..|done]. Qed.
Lemma d_observe_wf x stk l b p : is_Some (d_store p !! l) → d_wf p → d_wf (d_observe (x :: stk) l b p).
Proof.
  intros Hl Hwf z. simpl. rewrite elem_of_union, elem_of_singleton. intros [->|Hz]; [done|by apply Hwf].
Qed.

Lemma d_force_map_pres frc abs x stk t l f :
  (∀ t l, d_pres (frc t l)) → d_pres (d_force_map opt frc abs (x :: stk) t l f).
Proof.
  intros Hf p v p' Hwf Hd. unfold d_force_map in Hd.
  destruct (d_store p !! l) as [[t' w|]|] eqn:E; [| |done].
  - destruct (decide _) as [->|]; [|done]. destruct (tracked opt l).
    + destruct (_ && _) in Hd; [|done]. injection Hd as <- <-.
      split; [apply (d_observe_wf x stk l true); eauto|apply (d_observe_le x stk l true)].
    + destruct (frc t l p) as [[w' p1]|] eqn:Ef; [|done]. injection Hd as <- <-. by eapply Hf.
  - destruct (frc t l p) as [[w' p1]|] eqn:Ef; [|done]. injection Hd as <- <-. by eapply Hf.
Qed.

(** Forcing a location makes it seen and does not change what it holds. *)
Definition d_touch (frc : ty → loc → dM val) : Prop := ∀ t l p v p',
  d_wf p → frc t l p = Some (v, p') → l ∈ d_seen p' ∧ d_store p' !! l = d_store p !! l.

Lemma d_force_map_idem frc abs x stk t l f :
  (∀ t l, d_idem' (frc t l)) → d_touch frc →
  d_idem' (d_force_map opt frc abs (x :: stk) t l f).
Proof.
  intros Hi Ht p v p1 p2 Hwf Hd Hle. unfold d_force_map in *. simpl.
  destruct (d_store p !! l) as [[t' w|t' pp arg spur]|] eqn:E; [| |done].
  - destruct (decide (t' = t)) as [->|]; [|done]. destruct (tracked opt l) eqn:Etr.
    + destruct (_ && _) eqn:Eb in Hd; [|done]. injection Hd as <- <-.
      destruct Hle as [A B C]. simpl in *.
      rewrite C by set_solver. rewrite E, decide_True by done. simpl. rewrite Eb.
      unfold with_fr. simpl. do 3 f_equal. set_solver.
    + destruct (frc t l p) as [[w' p']|] eqn:Ef; [|done]. injection Hd as <- <-.
      destruct (Ht _ _ _ _ _ Hwf Ef) as [Hs Hst].
      rewrite (dle_frozen _ _ Hle) by done. rewrite Hst, E, decide_True by done.
      by rewrite (Hi _ _ _ _ _ _ Hwf Ef Hle).
  - destruct (frc t l p) as [[w' p']|] eqn:Ef; [|done]. injection Hd as <- <-.
    destruct (Ht _ _ _ _ _ Hwf Ef) as [Hs Hst].
    rewrite (dle_frozen _ _ Hle) by done. rewrite Hst, E.
    by rewrite (Hi _ _ _ _ _ _ Hwf Ef Hle).
Qed.

Lemma d_run_pres frc x stk :
  (∀ md t l, d_pres (frc md t l)) → ∀ c pth md, d_pres (d_run opt frc (x :: stk) pth md c).
Proof.
  intros Hf c. induction c as [v| |t a cyc k IH|t a f k IH|t a f k IH|t n v k IH|t nc pp arg spur k IH|t a v k IH|n b IHb k IH|b IHb k IH]; intros pth md; simpl.
  - apply d_pres_ret.
  - by intros ?????.
  - apply d_pres_bind; [|auto]. destruct a; simpl; [apply d_pres_ret|apply Hf].
  - apply d_pres_bind; [|auto]. destruct a; [apply d_pres_ret|by apply d_force_map_pres].
  - apply d_pres_bind; [|auto]. destruct a; [apply d_pres_ret|by apply d_force_map_pres].
  - apply d_pres_bind; [apply d_cell_pres|auto].
  - apply d_pres_bind; [apply d_thunk_pres|auto].
  - intros p w p' _. unfold dbind. by rewrite d_set_none.
  - apply d_pres_bind; auto.
  - apply d_pres_bind; auto.
Qed.

Lemma d_run_idem frc x stk :
  (∀ md t l, d_pres (frc md t l)) → (∀ md t l, d_idem' (frc md t l)) → (∀ md, d_touch (frc md)) →
  ∀ c pth md, d_idem' (d_run opt frc (x :: stk) pth md c).
Proof.
  intros Hp Hi Ht c. assert (Hrp := d_run_pres _ x stk Hp).
  induction c as [v| |t a cyc k IH|t a f k IH|t a f k IH|t n v k IH|t nc pp arg spur k IH|t a v k IH|n b IHb k IH|b IHb k IH]; intros pth md; simpl.
  - by intros ????? [= <- <-].
  - by intros ??????.
  - apply d_idem_bind'; [destruct a; simpl; [by intros ????? [= <- <-]|apply Hi]|destruct a; [apply d_pres_ret|apply Hp]|auto|auto].
  - apply d_idem_bind'; [destruct a; [by intros ????? [= <- <-]|by apply d_force_map_idem]|destruct a; [apply d_pres_ret|by apply d_force_map_pres]|auto|auto].
  - apply d_idem_bind'; [destruct a; [by intros ????? [= <- <-]|by apply d_force_map_idem]|destruct a; [apply d_pres_ret|by apply d_force_map_pres]|auto|auto].
  - apply d_idem_bind'; [apply d_cell_idem|apply d_cell_pres|auto|auto].
  - apply d_idem_bind'; [apply d_thunk_idem|apply d_thunk_pres|auto|auto].
  - intros p w p' p2 _. unfold dbind. by rewrite d_set_none.
  - apply d_idem_bind'; auto.
  - apply d_idem_bind'; auto.
Qed.

(** The state in which the body of thunk [l] starts. *)
Definition d_enter (l : loc) (p : dstate) : dstate :=
  DState (d_store p) ({[l]} ∪ d_seen p) (d_done p) ∅ ∅.

Lemma d_enter_le l p : d_le p (d_enter l p).
Proof. split; simpl; [set_solver..|done]. Qed.
Lemma d_enter_wf l p : is_Some (d_store p !! l) → d_wf p → d_wf (d_enter l p).
Proof.
  intros Hl Hwf z. simpl. rewrite elem_of_union, elem_of_singleton. intros [->|Hz]; [done|by apply Hwf].
Qed.

(** Inversion of [d_force]. *)
Inductive d_force_spec (n : nat) (stk : list loc) (md : bool) (t : ty) (l : loc) (p : dstate) : val → dstate → Prop :=
  | DFCell v :
      d_store p !! l = Some (CCell t v) → s6_ok opt stk l = true → l ∉ d_map p →
      d_force_spec n stk md t l p v (d_observe stk l false p)
  | DFThunk n' pp arg spur v p1 :
      n = S n' → d_store p !! l = Some (CThunk t pp arg spur) → l ∉ stk → md = md0 → s6_ok opt stk l = true →
      d_run opt (d_force opt md0 n' (l :: stk)) (l :: stk) (l_path l) md (code pp arg spur) (d_enter l p) = Some (v, p1) →
      d_force_spec n stk md t l p v (d_leave stk l p p1).

Lemma d_force_inv n stk md t l p v p' :
  d_force opt md0 n stk md t l p = Some (v, p') → d_force_spec n stk md t l p v p'.
Proof.
  intros Hd. destruct n as [|n]; simpl in Hd;
  (destruct (d_store p !! l) as [[t' w|t' pp arg spur]|] eqn:E; [| |done]).
  - destruct (decide (t' = t)) as [->|]; [|done]. unfold d_get in Hd.
    destruct (_ && _) eqn:Eb in Hd; [|done]. injection Hd as <- <-.
    apply andb_true_iff in Eb as [? Eb]. apply bool_decide_eq_true_1 in Eb. by constructor.
  - by destruct (decide (t' = t ∧ _)).
  - destruct (decide (t' = t)) as [->|]; [|done]. unfold d_get in Hd.
    destruct (_ && _) eqn:Eb in Hd; [|done]. injection Hd as <- <-.
    apply andb_true_iff in Eb as [? Eb]. apply bool_decide_eq_true_1 in Eb. by constructor.
  - destruct (decide (t' = t ∧ _)) as [(-> & ? & -> & ?)|]; [|done].
    destruct (d_run _ _ _ _ _ _ _) as [[w p1]|] eqn:Er; [|done]. injection Hd as <- <-.
    by econstructor.
Qed.

Lemma d_force_intro_cell n stk md t l p v :
  d_store p !! l = Some (CCell t v) → s6_ok opt stk l = true → l ∉ d_map p →
  d_force opt md0 n stk md t l p = Some (v, d_observe stk l false p).
Proof.
  intros Hl Hs Hm. destruct n; simpl; rewrite Hl, decide_True by done; unfold d_get;
  by rewrite Hs, bool_decide_eq_true_2.
Qed.
Lemma d_force_intro_thunk n stk t l p pp arg spur v p1 :
  d_store p !! l = Some (CThunk t pp arg spur) → l ∉ stk → s6_ok opt stk l = true →
  d_run opt (d_force opt md0 n (l :: stk)) (l :: stk) (l_path l) md0 (code pp arg spur) (d_enter l p) = Some (v, p1) →
  d_force opt md0 (S n) stk md0 t l p = Some (v, d_leave stk l p p1).
Proof.
  intros Hl Hn Hs Hr. simpl. rewrite Hl, decide_True by done. unfold d_enter in Hr. by rewrite Hr.
Qed.

Lemma d_force_all n : ∀ x stk md,
  (∀ t l, d_pres (d_force opt md0 n (x :: stk) md t l)) ∧
  (∀ t l, d_idem' (d_force opt md0 n (x :: stk) md t l)) ∧
  d_touch (d_force opt md0 n (x :: stk) md).
Proof.
  induction n as [|n IH]; intros x stk md.
  - split_and!.
    + intros t l p v p' Hwf [v' Hl Hs Hm|]%d_force_inv; [|done].
      split; [apply d_observe_wf; eauto|apply d_observe_le].
    + intros t l p v p1 p2 Hwf Hd%d_force_inv Hle. inversion Hd as [v' Hl Hs Hm|]; [subst|done].
      destruct Hle as [A B C]. simpl in A, B, C.
      rewrite (d_force_intro_cell 0 _ _ _ _ _ v); simpl; [|by rewrite C by set_solver|done|done].
      unfold with_fr. simpl. do 3 f_equal. set_solver.
    + intros t l p v p' Hwf [v' Hl Hs Hm|]%d_force_inv; [|done]. simpl. split; [set_solver|done].
  - assert (∀ x stk c pth md, d_pres (d_run opt (d_force opt md0 n (x :: stk)) (x :: stk) pth md c)) as Hp.
    { intros. apply d_run_pres. intros. by apply IH. }
    assert (∀ x stk c pth md, d_idem' (d_run opt (d_force opt md0 n (x :: stk)) (x :: stk) pth md c)) as Hi.
    { intros. apply d_run_idem; intros; by apply IH. }
    split_and!.
    + intros t l p v p' Hwf [v' Hl Hs Hm|n' pp arg spur v' p1 [= <-] Hl Hn -> Hs Hr]%d_force_inv.
      { split; [apply d_observe_wf; eauto|apply d_observe_le]. }
      destruct (Hp _ _ _ _ _ _ _ _ (d_enter_wf _ _ ltac:(eauto) Hwf) Hr) as [Hwf1 Hle].
      split; [done|]. apply (d_le_trans _ (d_enter l p)); [apply d_enter_le|].
      destruct Hle as [A B C]. split; simpl in *; [set_solver..|done].
    + intros t l p v p1 p2 Hwf Hd%d_force_inv Hle.
      inversion Hd as [v' Hl Hs Hm|n' pp arg spur v' p1' Hn' Hl Hn Hmd Hs Hr]; subst.
      { destruct Hle as [A B C]. simpl in A, B, C.
        rewrite (d_force_intro_cell (S n) _ _ _ _ _ v); simpl; [|by rewrite C by set_solver|done|done].
        unfold with_fr. simpl. do 3 f_equal. set_solver. }
      injection Hn' as <-.
      destruct (Hp _ _ _ _ _ _ _ _ (d_enter_wf _ _ ltac:(eauto) Hwf) Hr) as [Hwf1 Hle1].
      assert (Hle2 : d_le p1' p2).
      { destruct Hle as [A B C]. split; simpl in *; [set_solver..|done]. }
      assert (l ∈ d_seen p2 ∧ l ∈ d_done p2) as [Hls Hld].
      { destruct Hle as [A B C], Hle1 as [A1 B1 C1]. simpl in *. set_solver. }
      assert (Hle3 := d_le_trans _ _ _ Hle1 Hle2).
      rewrite (d_force_intro_thunk n (x :: stk) t l _ pp arg spur v (with_fr p2 p1')); [|simpl|done|done|].
      * unfold d_leave, with_fr. simpl. do 3 f_equal. set_solver.
      * rewrite (dle_frozen _ _ Hle3) by (simpl; set_solver). done.
      * rewrite <- (Hi _ _ _ _ _ _ _ _ p2 (d_enter_wf _ _ ltac:(eauto) Hwf) Hr Hle2). f_equal.
        unfold d_enter, with_fr. simpl. f_equal. set_solver.
    + intros t l p v p' Hwf [v' Hl Hs Hm|n' pp arg spur v' p1 [= <-] Hl Hn -> Hs Hr]%d_force_inv.
      { simpl. split; [set_solver|done]. }
      destruct (Hp _ _ _ _ _ _ _ _ (d_enter_wf _ _ ltac:(eauto) Hwf) Hr) as [Hwf1 [A B C]].
      simpl in *. split; [set_solver|]. apply C. set_solver.
Qed.

Lemma d_force_pres n x stk md t l : d_pres (d_force opt md0 n (x :: stk) md t l).
Proof. apply d_force_all. Qed.
Lemma d_force_idem n x stk md t l : d_idem' (d_force opt md0 n (x :: stk) md t l).
Proof. apply d_force_all. Qed.
Lemma d_force_touch n x stk md : d_touch (d_force opt md0 n (x :: stk) md).
Proof. apply d_force_all. Qed.
Lemma d_run_pres' n x stk pth md c : d_pres (d_run opt (d_force opt md0 n (x :: stk)) (x :: stk) pth md c).
Proof. apply d_run_pres. intros. apply d_force_pres. Qed.
Lemma d_run_idem' n x stk pth md c : d_idem' (d_run opt (d_force opt md0 n (x :: stk)) (x :: stk) pth md c).
Proof. apply d_run_idem; intros; apply d_force_all. Qed.

End SpecFacts.
