(** * C53: recording effects with [dcg_reflect_begin] and [dcg_reflect_end] (src/engine.rs:137-175, 180-266).

    [TRACES] (engine.rs:60-66) is a thread-local [Option<TraceSt>] beside the engine: [None] when not recording.
    Every engine operation appends its effects to it, also while the engine panics; nothing is rolled back. *)
From Verif Require Export Limits TraceCount.

(** ** The client's view: calls and their answers *)
Inductive tcall := TBegin | TEnd | TRun (n : nat) (c : comp).
Inductive tans :=
  | ABegun                          (* dcg_reflect_begin returned *)
  | AForest (F : list tree)         (* dcg_reflect_end returned this forest *)
  | ANested                         (* 149 panic!("cannot currently nest calls to dcg_reflect_begin().") *)
  | ANoBegin                        (* 158 panic!("dcg_reflect_end() without a corresponding dcg_reflect_begin().") *)
  | AMismatch                       (* 161 assert_eq!(tr.stack.len(), 1) *)
  | AUnreachable                    (* one of the recorder's unreachable!()s or its assertion, 187-239 *)
  | ARan (o : out val).             (* the outcome of a client program *)
Record tstate := TState { t_rec : option recorder; t_dcg : dcg }.

Section Recording.
Context `{Prog}.

(** The effects added between two states of the engine, oldest first. *)
Definition new_events (s s' : dcg) : list event := reverse (take (length (trc s') - length (trc s)) (trc s')).
(** engine.rs:141-152, 156-175; a client program runs on the engine, and its effects go to the recorder if there is one. *)
Definition tstep (x : tcall) (T : tstate) : tans * tstate :=
  match x with
  | TBegin => match t_rec T with
              | None => (ABegun, TState (Some [[]]) (t_dcg T))
              | Some _ => (ANested, T)
              end
  | TEnd => match t_rec T with
            | None => (ANoBegin, T)
            | Some r => if decide (length r = 1%nat) then
                          match r with F :: _ => (AForest F, TState None (t_dcg T)) | [] => (AUnreachable, T) end
                        else (AMismatch, T)
            end
  | TRun n c =>
      let '(o, s') := exec n c (t_dcg T) in
      match o with OFuel => (ARan OFuel, T) | _ =>      (* artefact: see [Engine] *)
      match t_rec T with
      | None => (ARan o, TState None s')
      | Some r => match record_all (new_events (t_dcg T) s') r with
                  | Some r' => (ARan o, TState (Some r') s')
                  | None => (AUnreachable, TState (Some r) s')
                  end
      end end
  end.
(** A history of calls; the client may catch panics and go on. *)
Inductive thist : tstate → list (tcall * tans) → tstate → Prop :=
  | th_nil T : thist T [] T
  | th_snoc T h T1 x a T2 : thist T h T1 → tstep x T1 = (a, T2) → a ≠ ARan OFuel → thist T (h ++ [(x, a)]) T2.

(** ** Depth of event sequences: [EvEnd] needs an open extent *)
Fixpoint dep_of (w : list event) (a : nat) : option nat :=
  match w with
  | [] => Some a
  | EvEff _ _ _ :: w => dep_of w a
  | EvBegin _ _ _ :: w => dep_of w (S a)
  | EvEnd :: w => match a with O => None | S a => dep_of w a end
  end.
Lemma dep_app w1 w2 a b : dep_of w1 a = Some b → dep_of (w1 ++ w2) a = dep_of w2 b.
Proof. revert a. induction w1 as [|[] w1 IH]; intros a; simpl; [by intros [= ->]|apply IH| |apply IH]. destruct a; [done|apply IH]. Qed.
Lemma dep_frame w a b c : dep_of w a = Some b → dep_of w (a + c) = Some (b + c)%nat.
Proof. revert a. induction w as [|[] w IH]; intros a; simpl; [by intros [= ->]|apply (IH (S a))| |apply IH]. destruct a; [done|]. simpl. apply IH. Qed.

(** The recorder accepts every such sequence. *)
Definition open_last (F : list tree) : Prop := ∃ F' e src tgt, F = F' ++ [TNode e src tgt []].
Definition rec_ok (r : recorder) : Prop := match r with [] => False | _ :: r => Forall open_last r end.
Lemma record_dep w r a : rec_ok r → (∃ b, dep_of w a = Some b) → (S a ≤ length r)%nat →
  ∃ r', record_all w r = Some r' ∧ rec_ok r' ∧ ∀ b, dep_of w a = Some b → (length r' + a = length r + b)%nat.
Proof.
  revert r a. induction w as [|ev w IH]; intros r a Hr [b Hb] Hl.
  - exists r. split; [done|]. split; [done|]. intros b' [= ->]. lia.
  - destruct r as [|F r]; [done|]. simpl in Hr. destruct ev as [e src tgt| |e src tgt]; cbn [record_all record push_trace].
    + simpl in Hb. destruct (IH ([] :: (F ++ [TNode e src tgt []]) :: r) (S a)) as (r' & E & Hr' & Hlen); [|by exists b|simpl in *; lia|].
      { simpl. constructor; [|done]. by exists F, e, src, tgt. }
      exists r'. split; [done|]. split; [done|]. intros b' Hb'. simpl in Hb'. specialize (Hlen _ Hb'). simpl in *. lia.
    + simpl in Hb. destruct a as [|a]; [done|]. destruct r as [|F1 r]; [simpl in *; lia|].
      apply Forall_cons in Hr as [(F' & e & src & tgt & ->) Hr]. rewrite split_last_snoc. simpl.
      destruct (IH ((F' ++ [TNode e src tgt F]) :: r) a) as (r' & E & Hr' & Hlen); [done|by exists b|simpl in *; lia|].
      exists r'. split; [done|]. split; [done|]. intros b' Hb'. simpl in Hb'. specialize (Hlen _ Hb'). simpl in *. lia.
    + simpl in Hb. destruct (IH ((F ++ [TNode e src tgt []]) :: r) a) as (r' & E & Hr' & Hlen); [done|by exists b|simpl in *; lia|].
      exists r'. split; [done|]. split; [done|]. intros b' Hb'. simpl in Hb'. specialize (Hlen _ Hb'). simpl in *. lia.
Qed.

(** ** Every engine operation, also one that panics, emits such a sequence.
    [ev a b Q m]: from [a] open extents, a normal return leaves [b] open ones and the stack of executing thunks as it was;
    a panic [r] leaves [k] open extents and [d] more thunks on the stack, with [Q r d k]. *)
Definition ev {A} (a b : nat) (Q : reason → nat → nat → Prop) (m : M A) : Prop := ∀ s,
  match m s with
  | (OVal _, s') => length (stack s') = length (stack s) ∧ ∃ w, recorded s s' w ∧ dep_of w a = Some b
  | (OPanic r, s') => ∃ w k, recorded s s' w ∧ dep_of w a = Some k ∧ Q r (length (stack s') - length (stack s))%nat k
  | (OFuel, _) => True
  end.
Definition wk (Q : reason → nat → nat → Prop) : Prop := ∀ r k, r ≠ PUser → Q r O k.
Definition Qany : reason → nat → nat → Prop := λ _ _ _, True.
Definition Qfor : reason → nat → nat → Prop := λ r d k, (r ≠ PUser ∧ d = O) ∨ (1 ≤ k)%nat.
Lemma wk_any : wk Qany. Proof. done. Qed.
Lemma wk_for : wk Qfor. Proof. intros r k Hr. by left. Qed.
Lemma recorded_refl s s' : trc s' = trc s → recorded s s' []. Proof. by intros E. Qed.
Lemma recorded_trans s1 s2 s3 w1 w2 : recorded s1 s2 w1 → recorded s2 s3 w2 → recorded s1 s3 (w1 ++ w2).
Proof. unfold recorded. intros E1 E2. rewrite E2, E1. by rewrite reverse_app, (assoc_L (++)). Qed.
Lemma ev_bind {A B} a b c Q (m : M A) (f : A → M B) : ev a b Q m → (∀ x, ev b c Q (f x)) → ev a c Q (bind m f).
Proof.
  intros Hm Hf s. specialize (Hm s). unfold bind. destruct (m s) as [[x|r|] s1]; [|done..]. destruct Hm as (Hl & w1 & R1 & D1). specialize (Hf x s1).
  destruct (f x s1) as [[y|r|] s2]; [| |done].
  - destruct Hf as (Hl2 & w2 & R2 & D2). split; [congruence|]. exists (w1 ++ w2). split; [by eapply recorded_trans|]. by rewrite (dep_app _ _ _ _ D1).
  - destruct Hf as (w2 & k & R2 & D2 & HQ). exists (w1 ++ w2), k. split; [by eapply recorded_trans|]. rewrite (dep_app _ _ _ _ D1). split; [done|]. by rewrite <- Hl.
Qed.
Lemma ev_ret {A} a Q (x : A) : ev a a Q (ret x). Proof. intros s. split; [done|]. exists []. by split; [apply recorded_refl|]. Qed.
Lemma ev_nofuel {A} a b Q : ev (A:=A) a b Q nofuel. Proof. by intros s. Qed.
Lemma ev_panic {A} a b Q r : wk Q → r ≠ PUser → ev (A:=A) a b Q (panic r).
Proof. intros HQ Hr s. exists [], a. split; [by apply recorded_refl|]. split; [done|]. simpl. rewrite Nat.sub_diag. by apply HQ. Qed.
Lemma ev_get a Q : ev a a Q get. Proof. intros s. split; [done|]. exists []. by split; [apply recorded_refl|]. Qed.
Lemma ev_modify a Q f : (∀ s, length (stack (f s)) = length (stack s) ∧ trc (f s) = trc s) → ev a a Q (modify f).
Proof. intros E s. destruct (E s). split; [done|]. exists []. by split; [apply recorded_refl|]. Qed.
Lemma ev_begin a Q e src tgt : ev a (S a) Q (emit (EvBegin e src tgt)).
Proof. intros s. split; [done|]. by exists [EvBegin e src tgt]. Qed.
Lemma ev_end a Q : ev (S a) a Q (emit EvEnd).
Proof. intros s. split; [done|]. by exists [EvEnd]. Qed.
Lemma ev_eff a Q e src tgt : ev a a Q (emit (EvEff e src tgt)).
Proof. intros s. split; [done|]. by exists [EvEff e src tgt]. Qed.
Lemma ev_assert a Q b r : wk Q → r ≠ PUser → ev a a Q (assert b r). Proof. intros HQ Hr. destruct b; [apply ev_ret|by apply ev_panic]. Qed.
Lemma ev_of_opt {A} a Q r (o : option A) : wk Q → r ≠ PUser → ev a a Q (of_opt r o). Proof. intros HQ Hr. destruct o; [apply ev_ret|by apply ev_panic]. Qed.
Lemma ev_put a Q l nd : ev a a Q (put_node l nd). Proof. by apply ev_modify. Qed.
Lemma ev_mfor {A} a Q (xs : list A) f : (∀ x, ev a a Q (f x)) → ev a a Q (mfor xs f).
Proof. intros Hf. induction xs as [|x xs IH]; simpl; [apply ev_ret|]. by eapply ev_bind; [apply Hf|]. Qed.
Lemma ev_if {A} a b' Q (b : bool) (m m' : M A) : ev a b' Q m → ev a b' Q m' → ev a b' Q (if b then m else m').
Proof. by destruct b. Qed.
(** One more open extent around. *)
Lemma ev_frame {A} a b (m : M A) : ev a b Qany m → ev (S a) (S b) Qfor m.
Proof.
  intros Hm s. specialize (Hm s). destruct (m s) as [[x|r|] s']; [| |done].
  - destruct Hm as (? & w & ? & D). split; [done|]. exists w. split; [done|]. apply (dep_frame _ _ _ 1) in D. by rewrite !Nat.add_1_r in D.
  - destruct Hm as (w & k & R & D & _). exists w, (S k). split; [done|]. apply (dep_frame _ _ _ 1) in D. rewrite !Nat.add_1_r in D. split; [done|]. right. lia.
Qed.
Lemma ev_frame_any {A} a b (m : M A) : ev a b Qany m → ev (S a) (S b) Qany m.
Proof.
  intros Hm. apply ev_frame in Hm. intros s. specialize (Hm s). destruct (m s) as [[x|r|] s']; [done| |done]. destruct Hm as (w & k & ? & ? & _). by exists w, k.
Qed.
Lemma ev_any {A} a b Q (m : M A) : ev a b Q m → ev a b Qany m.
Proof. intros Hm s. specialize (Hm s). destruct (m s) as [[x|r|] s']; [done| |done]. destruct Hm as (w & k & ? & ? & _). by exists w, k. Qed.
Lemma ev_lookup a Q l : wk Q → ev a a Q (lookup_abs l).
Proof. intros HQ. eapply ev_bind; [apply ev_get|]. intros s. destruct (table s !! l); [apply ev_ret|by apply ev_panic]. Qed.
Lemma ev_res a Q t l : wk Q → ev a a Q (res_node t l).
Proof. intros HQ. eapply ev_bind; [by apply ev_lookup|]. intros nd. eapply ev_bind; [by apply ev_assert|]. intros _. apply ev_ret. Qed.
Ltac e0 := first [apply ev_get|apply ev_begin|apply ev_end|apply ev_eff|apply ev_ret|apply ev_nofuel|apply ev_put|by apply ev_modify
  |by apply ev_assert|by apply ev_of_opt|by apply ev_lookup|by apply ev_res|by apply ev_panic].
Ltac eb := eapply ev_bind; [e0|intros ?].
Ltac ee := first [e0|eapply ev_bind; [ee|intros ?; ee]|match goal with |- ev _ _ _ (match ?x with _ => _ end) => destruct x; ee end].
Lemma ev_get_dirty a Q src eff tgt : wk Q → ev a a Q (get_dirty src eff tgt). Proof. intros. unfold get_dirty. ee. Qed.
Lemma ev_set_dirty a Q b src eff tgt : wk Q → ev a a Q (set_dirty b src eff tgt). Proof. intros. unfold set_dirty. ee. Qed.
Lemma ev_cfm a Q t f w l : wk Q → ev a a Q (check_force_map_dep t f w l). Proof. intros. unfold check_force_map_dep. ee. Qed.
Lemma ev_dep_dirty a Q d l : wk Q → ev a a Q (dep_dirty d l). Proof. intros. unfold dep_dirty. destruct d; first [by apply ev_cfm|ee]. Qed.
(** A result-dependent number of open extents. *)
Definition evf {A} (a : nat) (b : A → nat) (Q : reason → nat → nat → Prop) (m : M A) : Prop := ∀ s,
  match m s with
  | (OVal x, s') => length (stack s') = length (stack s) ∧ ∃ w, recorded s s' w ∧ dep_of w a = Some (b x)
  | (OPanic r, s') => ∃ w k, recorded s s' w ∧ dep_of w a = Some k ∧ Q r (length (stack s') - length (stack s))%nat k
  | (OFuel, _) => True
  end.
Lemma ev_bind_f {A B} a b c Q (m : M A) (f : A → M B) : evf a b Q m → (∀ x, ev (b x) c Q (f x)) → ev a c Q (bind m f).
Proof.
  intros Hm Hf s. specialize (Hm s). unfold bind. destruct (m s) as [[x|r|] s1]; [|done..]. destruct Hm as (Hl & w1 & R1 & D1). specialize (Hf x s1).
  destruct (f x s1) as [[y|r|] s2]; [| |done].
  - destruct Hf as (Hl2 & w2 & R2 & D2). split; [congruence|]. exists (w1 ++ w2). split; [by eapply recorded_trans|]. by rewrite (dep_app _ _ _ _ D1).
  - destruct Hf as (w2 & k & R2 & D2 & HQ). exists (w1 ++ w2), k. split; [by eapply recorded_trans|]. rewrite (dep_app _ _ _ _ D1). split; [done|]. by rewrite <- Hl.
Qed.
Lemma evf_bind {A B} a b c Q (m : M A) (f : A → M B) : ev a b Q m → (∀ x, evf b c Q (f x)) → evf a c Q (bind m f).
Proof.
  intros Hm Hf s. specialize (Hm s). unfold bind. destruct (m s) as [[x|r|] s1]; [|done..]. destruct Hm as (Hl & w1 & R1 & D1). specialize (Hf x s1).
  destruct (f x s1) as [[y|r|] s2]; [| |done].
  - destruct Hf as (Hl2 & w2 & R2 & D2). split; [congruence|]. exists (w1 ++ w2). split; [by eapply recorded_trans|]. by rewrite (dep_app _ _ _ _ D1).
  - destruct Hf as (w2 & k & R2 & D2 & HQ). exists (w1 ++ w2), k. split; [by eapply recorded_trans|]. rewrite (dep_app _ _ _ _ D1). split; [done|]. by rewrite <- Hl.
Qed.
Lemma evf_ret {A} a b Q (x : A) : b x = a → evf a b Q (ret x). Proof. intros <- s. split; [done|]. exists []. by split; [apply recorded_refl|]. Qed.
Lemma ev_dirty_obs a Q n l : wk Q → ev a a Q (dirty_obs n l).
Proof.
  intros HQ. revert a l. induction n as [|n IH]; intros a l; simpl; [e0|]. eb. eb. apply ev_mfor. intros [p d]. unfold dirty_step. simpl. eapply ev_bind.
  { destruct d as [d|]; [|e0]. destruct (is_absmap d); [e0|]. eapply ev_bind; [by apply ev_dep_dirty|intros; e0]. }
  intros stop. apply (ev_bind_f _ (λ b : bool, if b then a else S a)).
  { destruct stop; [by apply evf_ret|]. eapply evf_bind; [by apply ev_get_dirty|]. intros [|]; [by apply evf_ret|].
    eapply evf_bind; [e0|]. intros _. eapply evf_bind; [e0|]. intros _. eapply evf_bind; [by apply ev_set_dirty|]. intros _. by apply evf_ret. }
  intros [|]; [e0|]. eapply ev_bind; [apply IH|]. intros; e0.
Qed.
Lemma ev_observers a Q l : wk Q → ev a a Q (dirty_observers l). Proof. intros HQ s. apply (ev_dirty_obs a Q (dirty_fuel s) l HQ s). Qed.
Lemma ev_dirty_alloc a Q l : wk Q → ev a a Q (dirty_alloc l).
Proof.
  intros HQ. unfold dirty_alloc. eapply ev_bind; [by apply ev_observers|]. intros _. eb. eb. apply ev_mfor. intros p. unfold dirty_alloc_step.
  eapply ev_bind; [by apply ev_get_dirty|]. intros [|]; [e0|]. eapply ev_bind; [by apply ev_set_dirty|]. intros _. eb. eb.
  eapply ev_bind; [by apply ev_observers|]. intros; e0.
Qed.
Lemma ev_revoke a Q l es : wk Q → ev a a Q (revoke_succs l es). Proof. intros HQ. apply ev_mfor. intros e. ee. Qed.
Lemma ev_push a Q e pd : ev a a Q (push_edge e pd). Proof. apply ev_modify. intros s. destruct (stack s) eqn:E; simpl; by rewrite ?E. Qed.
Lemma ev_set_val a Q t l v : wk Q → ev a a Q (set_val t l v).
Proof. intros HQ. unfold set_val. eb. match goal with x : node |- _ => destruct x end; try e0. destruct (decide _); [e0|]. eb. by apply ev_dirty_alloc. Qed.
Lemma ev_cell a Q t n v : wk Q → ev a a Q (cell_op t n v).
Proof.
  intros HQ. unfold cell_op. eb. cbv zeta. eapply ev_bind; [ee|]. intros [[[x1 x2] es] fr]. eapply ev_bind; [unfold check_cell_change; ee|]. intros ac.
  eb.
  eapply ev_bind; [apply ev_if; [by apply ev_set_val|e0]|]. intros _. eapply ev_bind; [apply ev_if; [by apply ev_dirty_alloc|e0]|]. intros _.
  eapply ev_bind; [destruct es; [by apply ev_revoke|e0]|]. intros _. eb. eapply ev_bind; [apply ev_if; e0|]. intros _.
  eapply ev_bind; [apply ev_if; [e0|apply ev_push]|]. intros _. e0.
Qed.
Lemma ev_set a Q t ar v : wk Q → ev a a Q (set_op t ar v).
Proof. intros HQ. unfold set_op. destruct ar; [e0|]. eb. destruct (stack _); [by apply ev_set_val|e0]. Qed.
Lemma ev_thunk a Q t nc pp arg spur : wk Q → ev a a Q (thunk_op t nc pp arg spur).
Proof.
  intros HQ. unfold thunk_op. eb. cbv zeta. destruct (match nc with NCNominal _ => _ | _ => nc end); [e0|e0| |].
  - destruct (table _ !! _); [e0|]. eapply ev_bind; [apply ev_push|]. intros _. ee.
  - eapply ev_bind; [ee|]. intros [[x1 x2] x3]. eb. eapply ev_bind; [apply ev_if; [by apply ev_dirty_alloc|e0]|]. intros _. eb.
    eapply ev_bind; [apply ev_push|]. intros _. eapply ev_bind; [apply ev_if; e0|]. intros _. e0.
Qed.
Lemma ev_finish a Q l dup pure t r : ev a a Q (force_finish l dup pure t r).
Proof. unfold force_finish. eapply ev_bind; [apply ev_if; [e0|apply ev_push]|]. intros _. e0. Qed.
(** A demand: a panic of user code, and every panic that leaves a thunk on the stack, leaves an extent open. *)
Lemma ev_force_loc prod cln t l cyc : (∀ t l, ev 0 0 Qany (prod t l)) → (∀ t w l, ev 0 0 Qany (cln t w l)) → ev 0 0 Qfor (force_loc prod cln t l cyc).
Proof.
  intros HP HC. assert (HQ := wk_for). unfold force_loc. eb. cbv zeta. eb. destruct x0 as [| |c].
  1,2: eb; apply ev_finish.
  destruct (is_cycle _ _); [destruct cyc; [|e0]; eb; eb; apply ev_finish|]. destruct (c_res c).
  - eb. eapply ev_bind; [apply ev_frame, HC|]. intros _. eb. eb. match goal with x : node |- _ => destruct x as [| |c'] end; [e0..|].
    destruct (c_res c'); [apply ev_finish|e0].
  - eb. eb. eapply ev_bind; [apply ev_frame, HP|]. intros r. eb. apply ev_finish.
Qed.
Lemma ev_fail {A} a b : ev (A:=A) a b Qany (panic PUser).
Proof. intros s. exists [], a. split; [by apply recorded_refl|]. by split. Qed.
Lemma ev_run frc c : (∀ t l cyc, ev 0 0 Qfor (frc t l cyc)) → ev 0 0 Qany (run frc c).
Proof.
  intros HF. assert (HQ := wk_any). induction c as [v0| |t a cyc k IH|t a f0 k IH|t a f0 k IH|t nm v0 k IH|t nc pp arg spur k IH|t a v0 k IH|nm b IHb k IH|b IHb k IH]; simpl.
  - e0.
  - apply ev_fail.
  - eapply ev_bind; [|intros; apply IH]. destruct a; [e0|eapply ev_any, HF].
  - eapply ev_bind; [|intros; apply IH]. destruct a as [|l]; simpl; [e0|]. eb.
    match goal with x : node |- _ => destruct x end; [|eapply ev_bind; [eapply ev_any, HF|intros; e0]..]. eb. eb. eapply ev_bind; [apply ev_push|]. intros _. e0.
  - eapply ev_bind; [|intros; apply IH]. destruct a as [|l]; simpl; [e0|]. eb.
    match goal with x : node |- _ => destruct x end; [|eapply ev_bind; [eapply ev_any, HF|intros; e0]..]. eb. eb. eapply ev_bind; [apply ev_push|]. intros _. e0.
  - eapply ev_bind; [by apply ev_cell|]. intros. apply IH.
  - eapply ev_bind; [by apply ev_thunk|]. intros. apply IH.
  - eapply ev_bind; [by apply ev_set|]. intros. apply IH.
  - eb. eb. eapply ev_bind; [apply IHb|]. intros. eb. apply IH.
  - eb. eb. eapply ev_bind; [apply IHb|]. intros. eb. apply IH.
Qed.
Lemma ev_insert a Q l es : wk Q → ev a a Q (insert_preds l es). Proof. intros HQ. apply ev_mfor. intros [e pd]. ee. Qed.
(** Words only: for [loc_produce], which pushes and pops a frame. *)
Definition evw {A} (m : M A) : Prop := ∀ s,
  match m s with
  | (OVal _, s') => ∃ w, recorded s s' w ∧ dep_of w 0 = Some O
  | (OPanic r, s') => ∃ w k, recorded s s' w ∧ dep_of w 0 = Some k
  | (OFuel, _) => True
  end.
Lemma evw_bind {A B} (m : M A) (f : A → M B) : evw m → (∀ x, evw (f x)) → evw (bind m f).
Proof.
  intros Hm Hf s. specialize (Hm s). unfold bind. destruct (m s) as [[x|r|] s1]; [|done..]. destruct Hm as (w1 & R1 & D1). specialize (Hf x s1).
  destruct (f x s1) as [[y|r|] s2]; [| |done].
  - destruct Hf as (w2 & R2 & D2). exists (w1 ++ w2). split; [by eapply recorded_trans|]. by rewrite (dep_app _ _ _ _ D1).
  - destruct Hf as (w2 & k & R2 & D2). exists (w1 ++ w2), k. split; [by eapply recorded_trans|]. by rewrite (dep_app _ _ _ _ D1).
Qed.
Lemma evw_ev {A} (m : M A) : ev 0 0 Qany m → evw m.
Proof. intros Hm s. specialize (Hm s). destruct (m s) as [[x|r|] s']; [|naive_solver|done]. by destruct Hm. Qed.
Lemma evw_modify f : (∀ s, trc (f s) = trc s) → evw (modify f). Proof. intros E s. exists []. by split; [apply recorded_refl|]. Qed.
Lemma ev_depth {A} (m : M A) lo : evw m → depth lo m → ev 0 0 Qany m.
Proof. intros Hw Hd s. specialize (Hw s). specialize (Hd s). destruct (m s) as [[x|r|] s']; [| |done]. { split; [by rewrite <- !locs_length, Hd|done]. } destruct Hw as (w & k & ? & ?). by exists w, k. Qed.
Lemma ev_produce_body frc t l : (∀ t l cyc, depth 1 (frc t l cyc)) → (∀ t l cyc s, pre (frc t l cyc) s) → (∀ t l cyc, ev 0 0 Qfor (frc t l cyc)) → ev 0 0 Qany (produce_body frc t l).
Proof.
  intros HD HP HF. apply (ev_depth _ 1); [|by apply depth_produce_body]. assert (HQ := wk_any). unfold produce_body.
  apply evw_bind.
  { unfold produce_begin. apply evw_bind; [apply evw_ev; e0|]. intros nd. destruct nd; [apply evw_ev; e0..|].
    apply evw_bind; [apply evw_ev; e0|]. intros _. apply evw_bind; [by apply evw_ev, ev_revoke|]. intros _. apply evw_bind; [by apply evw_modify|]. intros _.
    apply evw_ev. eb. eb. eb. match goal with x : node |- _ => destruct x end; e0. }
  intros [c' prev]. apply evw_bind; [by apply evw_modify|]. intros _. apply evw_bind; [by apply evw_ev, ev_run|]. intros r.
  apply evw_bind; [|intros; apply evw_ev; e0]. unfold produce_end. apply evw_bind; [by apply evw_modify|]. intros _.
  apply evw_bind; [apply evw_ev; e0|]. intros s. destruct (stack s); [apply evw_ev; e0|]. apply evw_bind; [by apply evw_modify|]. intros _.
  apply evw_ev. eb. eapply ev_bind; [by apply ev_insert|]. intros _. eb. match goal with x : node |- _ => destruct x end; e0.
Qed.
Lemma ev_clean_comp prod cln t w l cache es :
  (∀ t l, ev 0 0 Qany (prod t l)) → (∀ t w l, ev 0 0 Qany (cln t w l)) → ev 0 0 Qany (clean_comp prod cln t w l cache es).
Proof.
  intros HP HC. assert (HQ := wk_any). induction es as [|e es IH]; simpl; [e0|]. eapply ev_bind; [by apply ev_get_dirty|]. intros [|]; [|exact IH]. eb.
  eapply ev_bind. { unfold dep_clean. destruct (s_dep e); first [apply ev_frame_any, HC|by apply ev_cfm|e0]. }
  intros [|].
  - eb. eapply ev_bind; [apply ev_frame_any, ev_frame_any, HP|]. intros r. ee.
  - eapply ev_bind; [by apply ev_set_dirty|]. intros _. eb. eb. exact IH.
Qed.
Lemma ev_clean_body prod cln t w l :
  (∀ t l, ev 0 0 Qany (prod t l)) → (∀ t w l, ev 0 0 Qany (cln t w l)) → ev 0 0 Qany (clean_body prod cln t w l).
Proof.
  intros HP HC. assert (HQ := wk_any). unfold clean_body. eb. match goal with x : node |- _ => destruct x as [| |c] end; [e0..|]. destruct (c_res c); [by apply ev_clean_comp|].
  eb. eapply ev_bind; [apply ev_frame_any, HP|]. intros r. ee.
Qed.
Lemma ev_knot n : (∀ t l, ev 0 0 Qany (produce n t l)) ∧ (∀ t w l, ev 0 0 Qany (clean n t w l)).
Proof.
  induction n as [|n [IHp IHc]]; split; intros; simpl; [e0..| |].
  - apply ev_produce_body; intros; [apply depth_force_loc; apply depth_knot|apply pre_force_loc; apply pre_produce_clean|by apply ev_force_loc].
  - by apply ev_clean_body.
Qed.
Lemma ev_force n t l cyc : ev 0 0 Qfor (force n t l cyc).
Proof. destruct (ev_knot n). by apply ev_force_loc. Qed.

(** ** Client programs *)
(** A user panic raised outside every thunk closes all extents; one raised inside a thunk leaves some open. *)
Definition Qrun : reason → nat → nat → Prop := λ r d k,
  (r ≠ PUser ∧ d = O) ∨ (r = PUser ∧ d = O ∧ k = O) ∨ ((1 ≤ k)%nat ∧ (r = PUser → (1 ≤ d)%nat)).
Lemma wk_run : wk Qrun. Proof. intros r k Hr. by left. Qed.
Lemma ev_force_run n t l cyc : ev 0 0 Qrun (force n t l cyc).
Proof.
  intros s. assert (He := ev_force n t l cyc s). assert (Hd := depth_force n t l cyc s). destruct (force n t l cyc s) as [[v|r|] s']; [done| |done].
  destruct He as (w & k & R & D & HQ). exists w, k. split; [done|]. split; [done|]. destruct Hd as [Hle Hd]. simpl in Hd.
  destruct HQ as [[Hr E]|Hk]; [by left|]. right. right. split; [done|]. intros Hr. specialize (Hd Hr). lia.
Qed.
Lemma ev_exec n c : ev 0 0 Qrun (exec n c).
Proof.
  assert (HF := ev_force_run n). assert (HQ := wk_run). unfold exec. induction c as [v0| |t a cyc k IH|t a f0 k IH|t a f0 k IH|t nm v0 k IH|t nc pp arg spur k IH|t a v0 k IH|nm b IHb k IH|b IHb k IH]; simpl.
  - e0.
  - intros s. exists [], O. split; [by apply recorded_refl|]. split; [done|]. right. left. simpl. split; [done|]. split; [lia|done].
  - eapply ev_bind; [|intros; apply IH]. destruct a; [e0|apply HF].
  - eapply ev_bind; [|intros; apply IH]. destruct a as [|l]; simpl; [e0|]. eb.
    match goal with x : node |- _ => destruct x end; [|eapply ev_bind; [apply HF|intros; e0]..]. eb. eb. eapply ev_bind; [apply ev_push|]. intros _. e0.
  - eapply ev_bind; [|intros; apply IH]. destruct a as [|l]; simpl; [e0|]. eb.
    match goal with x : node |- _ => destruct x end; [|eapply ev_bind; [apply HF|intros; e0]..]. eb. eb. eapply ev_bind; [apply ev_push|]. intros _. e0.
  - eapply ev_bind; [by apply ev_cell|]. intros. apply IH.
  - eapply ev_bind; [by apply ev_thunk|]. intros. apply IH.
  - eapply ev_bind; [by apply ev_set|]. intros. apply IH.
  - eb. eb. eapply ev_bind; [apply IHb|]. intros. eb. apply IH.
  - eb. eb. eapply ev_bind; [apply IHb|]. intros. eb. apply IH.
Qed.
Lemma new_events_eq s s' w : recorded s s' w → new_events s s' = w.
Proof.
  unfold recorded, new_events. intros ->. rewrite app_length, Nat.add_sub, take_app_alt by done. by rewrite reverse_involutive.
Qed.
Lemma exec_rec n c s o s' r : exec n c s = (o, s') → o ≠ OFuel → rec_ok r →
  ∃ r' k, record_all (new_events s s') r = Some r' ∧ rec_ok r' ∧ (length r' = length r + k)%nat ∧
    match o with OVal _ => k = O ∧ length (stack s') = length (stack s)
    | OPanic p => Qrun p (length (stack s') - length (stack s)) k | OFuel => True end.
Proof.
  intros E Ho Hr. assert (He := ev_exec n c s). rewrite E in He.
  assert (1 ≤ length r)%nat as Hl by (destruct r; [done|simpl; lia]).
  destruct o as [v|p|]; [| |done].
  - destruct He as (Hst & w & R & D). rewrite (new_events_eq _ _ _ R). destruct (record_dep w r 0 Hr ltac:(eauto) Hl) as (r' & E' & Hr' & Hlen).
    specialize (Hlen _ D). exists r', O. split_and!; [done|done|lia|done|done].
  - destruct He as (w & k & R & D & HQ). rewrite (new_events_eq _ _ _ R). destruct (record_dep w r 0 Hr ltac:(eauto) Hl) as (r' & E' & Hr' & Hlen).
    specialize (Hlen _ D). exists r', k. split_and!; [done|done|lia|done].
Qed.

(** The states a client can be in: recording or not, after any history. *)
Definition rec_inv (T : tstate) : Prop := match t_rec T with None => True | Some r => rec_ok r end.
Lemma tstep_inv x T a T' : rec_inv T → tstep x T = (a, T') → a ≠ ARan OFuel →
  rec_inv T' ∧ a ≠ AUnreachable ∧ (∀ r, t_rec T = Some r → length r ≠ 1%nat → ∃ r', t_rec T' = Some r' ∧ (length r ≤ length r')%nat ∧ length r' ≠ 1%nat ∧ (x = TBegin → a = ANested) ∧ (x = TEnd → a = AMismatch)).
Proof.
  unfold rec_inv. intros Hi E Ho. destruct x as [| |n c]; simpl in E.
  - destruct (t_rec T) as [r|] eqn:Er; simplify_eq; simpl; rewrite ?Er; split_and!; try done; try (by constructor).
    intros r' [= ->] Hne. exists r'. by split_and!.
  - destruct (t_rec T) as [r|] eqn:Er; [|simplify_eq; rewrite Er; by split_and!]. destruct (decide _) as [Hd|Hd].
    + destruct r; [done|]. simplify_eq. simpl. split_and!; try done. intros r' [= <-] Hne. done.
    + simplify_eq. rewrite Er. split_and!; try done. intros r' [= ->] Hne. exists r'. by split_and!.
  - destruct (exec n c (t_dcg T)) as [o s'] eqn:Ex.
    assert (o ≠ OFuel) as Hof by (intros ->; by simplify_eq).
    assert ((match t_rec T with
      | None => (ARan o, TState None s')
      | Some r => match record_all (new_events (t_dcg T) s') r with
                  | Some r' => (ARan o, TState (Some r') s')
                  | None => (AUnreachable, TState (Some r) s')
                  end
      end) = (a, T')) as E' by (by destruct o). clear E. rename E' into E.
    destruct (t_rec T) as [r|] eqn:Er; [|simplify_eq; simpl; by split_and!].
    destruct (exec_rec n c _ o s' r Ex Hof Hi) as (r' & k & Err & Hr' & Hlen & HQ). rewrite Err in E. simplify_eq. simpl. split_and!; try done.
    intros r0 [= <-] Hne. exists r'. split_and!; try done; [lia|]. destruct r; [done|]. simpl in *. lia.
Qed.
Lemma tstep_run n c T o T' : tstep (TRun n c) T = (ARan o, T') → o ≠ OFuel → exec n c (t_dcg T) = (o, t_dcg T').
Proof.
  simpl. destruct (exec n c (t_dcg T)) as [o' s']. intros E Ho.
  destruct o'; [..|by simplify_eq]; (destruct (t_rec T); [destruct (record_all _ _)|]; by simplify_eq).
Qed.
Lemma thist_inv T h T' : rec_inv T → thist T h T' → rec_inv T'.
Proof. intros Hi. induction 1 as [|T h T1 x a T2 _ IH E Ho]; [done|]. by apply (tstep_inv x T1 a T2 (IH Hi) E Ho). Qed.
Lemma thist_dead T h T' r : rec_inv T → t_rec T = Some r → length r ≠ 1%nat → thist T h T' →
  (∃ r', t_rec T' = Some r' ∧ length r' ≠ 1%nat) ∧ Forall (λ xa, (xa.1 = TBegin → xa.2 = ANested) ∧ (xa.1 = TEnd → xa.2 = AMismatch)) h.
Proof.
  intros Hi Er Hne. induction 1 as [|T h T1 x a T2 Hh IH E Ho]; [by eauto|]. destruct (IH Hi Er) as [(r1 & E1 & Hne1) HF]; clear IH.
  destruct (tstep_inv x T1 a T2 (thist_inv _ _ _ Hi Hh) E Ho) as (_ & _ & Hs). destruct (Hs r1 E1 Hne1) as (r2 & E2 & _ & Hne2 & Hb & He).
  split; [by eauto|]. apply Forall_app. by split; [|constructor].
Qed.

Lemma start_inv s h T : thist (TState None s) h T → rec_inv T.
Proof. apply (thist_inv (TState None s)). exact I. Qed.

(** *** C53, theorems.  Recording is off when a program starts: [TState None s]. *)

(** Recording never interferes: after any history of calls (also with caught panics, also with unmatched begins and
    ends), the recorder's internal assertions hold, and a client program has the outcome and the effect on the engine
    that it has without recording. *)
Theorem C53_recording_transparent s0 h T n c :
  thist (TState None s0) h T →
  ∀ o s', exec n c (t_dcg T) = (o, s') → o ≠ OFuel → ∃ rec', tstep (TRun n c) T = (ARan o, TState rec' s').
Proof.
  intros Hh o s' Ex Ho. assert (Hi := start_inv _ _ _ Hh).
  destruct (tstep (TRun n c) T) as [a T'] eqn:E. simpl in E. rewrite Ex in E.
  unfold rec_inv in Hi. destruct (t_rec T) as [r|] eqn:Er.
  - destruct (exec_rec n c _ o s' r Ex Ho Hi) as (r' & k & Err & _). rewrite Err in E. exists (Some r'). by destruct o; simplify_eq.
  - exists None. by destruct o; simplify_eq.
Qed.

(** The protocol.  From a state that is not recording: begin, any client programs that return normally, end.  Begin and
    end succeed, and end returns the forest of exactly the effects that were performed in between, in order. *)
Inductive ran : dcg → list (nat * comp) → dcg → Prop :=
  | ran_nil s : ran s [] s
  | ran_snoc s ps s1 n c v s2 : ran s ps s1 → exec n c s1 = (OVal v, s2) → ran s (ps ++ [(n, c)]) s2.
Theorem C53_protocol s ps s' :
  ran s ps s' →
  ∃ h F w, thist (TState None s) ((TBegin, ABegun) :: h ++ [(TEnd, AForest F)]) (TState None s') ∧
    h.*1 = (λ p, TRun p.1 p.2) <$> ps ∧ recorded s s' w ∧ tword w F.
Proof.
  intros Hr. assert (∃ h F w, thist (TState None s) ((TBegin, ABegun) :: h) (TState (Some [F]) s') ∧
    h.*1 = (λ p, TRun p.1 p.2) <$> ps ∧ recorded s s' w ∧ tword w F) as (h & F & w & Hh & E & R & W).
  { induction Hr as [s|s ps s1 n c v s2 Hr IH Ex].
    - exists [], [], []. split_and!; [|done|by apply recorded_refl|constructor]. apply (th_snoc _ [] (TState None s) TBegin); [constructor|done|done].
    - destruct IH as (h & F & w & Hh & E & R & W).
      destruct (exec_ctx n c s1 v s2 Ex) as [_ _ _ (w2 & F2 & R2 & W2 & _)]. exists (h ++ [(TRun n c, ARan (OVal v))]), (F ++ F2), (w ++ w2).
      split_and!.
      + rewrite app_comm_cons. eapply th_snoc; [exact Hh| |done]. simpl. rewrite Ex.
        rewrite (new_events_eq _ _ w2 R2). by rewrite (record_tword _ _ W2).
      + by rewrite !fmap_app, E.
      + by eapply recorded_trans.
      + by apply tword_app. }
  exists h, F, w. split_and!; [|done..]. rewrite app_comm_cons. by eapply th_snoc.
Qed.
(** Calls out of order panic, and change nothing. *)
Theorem C53_nested_begin T r : t_rec T = Some r → tstep TBegin T = (ANested, T).
Proof. simpl. by intros ->. Qed.
Theorem C53_end_without_begin T : t_rec T = None → tstep TEnd T = (ANoBegin, T).
Proof. simpl. by intros ->. Qed.

(** A user panic inside a thunk, while recording: from then on, whatever the client does, every [dcg_reflect_begin] and
    every [dcg_reflect_end] panics. *)
Theorem C53_user_panic_disables_recording s0 h T n t l cyc T1 h' T2 :
  thist (TState None s0) h T → t_rec T ≠ None →
  tstep (TRun n (Force t (ALoc l) cyc Ret)) T = (ARan (OPanic PUser), T1) →
  thist T1 h' T2 →
  (∀ x a, (x, a) ∈ h' → (x = TBegin → a = ANested) ∧ (x = TEnd → a = AMismatch)) ∧
  tstep TBegin T2 = (ANested, T2) ∧ tstep TEnd T2 = (AMismatch, T2).
Proof.
  intros Hh Hrec E Hh'. assert (Hi := start_inv _ _ _ Hh). destruct (t_rec T) as [r|] eqn:Er; [|done].
  assert (Ex := tstep_run _ _ _ _ _ E ltac:(done)). simpl in Ex. unfold exec in Ex. simpl in Ex.
  assert (force n t l cyc (t_dcg T) = (OPanic PUser, t_dcg T1)) as Ef.
  { unfold bind in Ex. destruct (force n t l cyc (t_dcg T)) as [[]]; by simplify_eq. }
  assert (rec_inv T1) as Hi1 by (by eapply (tstep_inv _ T _ T1 Hi E)).
  assert (∃ r1, t_rec T1 = Some r1 ∧ length r1 ≠ 1%nat) as (r1 & Er1 & Hne).
  { unfold rec_inv in Hi. rewrite Er in Hi. assert (exec n (Force t (ALoc l) cyc Ret) (t_dcg T) = (OPanic PUser, t_dcg T1)) as Ex' by exact Ex.
    destruct (exec_rec _ _ _ _ _ r Ex' ltac:(done) Hi) as (r' & k & Err & Hr' & Hlen & HQ).
    simpl in E. rewrite Ex', Er, Err in E. injection E as ET. exists r'. split; [by rewrite <- ET|].
    assert (Hd := depth_force n t l cyc (t_dcg T)). rewrite Ef in Hd. destruct Hd as [_ Hd]. simpl in Hd. specialize (Hd eq_refl). simpl in HQ.
    destruct HQ as [[? _]|[(_ & ? & _)|[? _]]]; [done|lia|]. destruct r; [done|]. simpl in *. lia. }
  destruct (thist_dead T1 h' T2 r1 Hi1 Er1 Hne Hh') as [(r2 & Er2 & Hne2) HF]. split_and!.
  - intros x a Hin. rewrite Forall_forall in HF. exact (HF _ Hin).
  - simpl. by rewrite Er2.
  - simpl. rewrite Er2. by rewrite decide_False.
Qed.
(** A user panic outside every thunk does no harm: recording can be ended as if the panic had not happened. *)
Theorem C53_outer_panic_harmless s0 h T n c T1 F :
  thist (TState None s0) h T → t_rec T = Some [F] →
  tstep (TRun n c) T = (ARan (OPanic PUser), T1) → length (stack (t_dcg T1)) = length (stack (t_dcg T)) →
  ∃ F', tstep TEnd T1 = (AForest F', TState None (t_dcg T1)).
Proof.
  intros Hh Er E Hst. assert (Hi := start_inv _ _ _ Hh).
  assert (Ex := tstep_run _ _ _ _ _ E ltac:(done)). unfold rec_inv in Hi. rewrite Er in Hi.
  destruct (exec_rec _ _ _ _ _ [F] Ex ltac:(done) Hi) as (r' & k & Err & Hr' & Hlen & HQ).
  simpl in E. rewrite Ex, Er, Err in E. injection E as ET. rewrite <- ET in Hst, HQ |- *. simpl in *.
  destruct HQ as [[? _]|[(_ & _ & ->)|[_ HQ]]]; [done| |specialize (HQ eq_refl); lia].
  destruct r' as [|F' [|? ?]]; simpl in *; [lia| |lia]. by eexists.
Qed.
End Recording.

(** Witnesses: a recorded session with an edit and a demand (the premise of [C53_protocol]); a user panic inside a thunk
    while recording, after which begin and end panic. *)
Definition rec_prog : comp := cell0 "c" 1 (λ c, thunk0 "t" "abs" (VLoc c) (λ t, demand0 t Ret)).
Lemma ex_ran : ∃ s', @ran demo dcg_new [(30%nat, rec_prog)] s'.
Proof.
  assert (∃ v, (@exec demo 30 rec_prog dcg_new).1 = OVal v) as [v E] by (eexists; vm_compute; reflexivity).
  exists (@exec demo 30 rec_prog dcg_new).2. apply (ran_snoc dcg_new [] dcg_new 30 rec_prog v); [constructor|].
  rewrite <- E. apply surjective_pairing.
Qed.
Definition recording_panic_calls : list tcall :=
  [TBegin; TRun 30 prog_before_panic; TRun 30 (Force T0 (ALoc (at_ "t")) None Ret); TEnd; TBegin].
Fixpoint answers `{Prog} (xs : list tcall) (T : tstate) : list tans :=
  match xs with [] => [] | x :: xs => (tstep x T).1 :: answers xs (tstep x T).2 end.
Lemma ex_recording_panic :
  (λ a, match a with AForest _ => AForest [] | ARan (OVal _) => ARan (OVal VUnit) | _ => a end) <$>
    @answers demo recording_panic_calls (TState None dcg_new) =
  [ABegun; ARan (OVal VUnit); ARan (OPanic PUser); AMismatch; ANested].
Proof. vm_compute. reflexivity. Qed.
