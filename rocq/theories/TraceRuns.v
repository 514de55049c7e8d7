(** * C47: the effect trace shows exactly the evaluations that happened. *)
From Verif Require Export TraceCount.

(** The effects under which a thunk's function is called: the first force of a thunk ([Force(CompCacheMiss)]) and a
    re-evaluation ([CleanEval]). *)
Definition is_eval_eff (e : teffect) : bool := match e with TForce CompCacheMiss | TCleanEval => true | _ => false end.
Definition is_eval (t : tree) : bool := is_eval_eff (t_eff t).
Definition ev_eval (ev : event) : bool :=
  match ev with EvBegin e _ _ | EvEff e _ _ => is_eval_eff e | EvEnd => false end.
Definition evals (w : list event) : Z := Z.of_nat (length (List.filter ev_eval w)).

Lemma evals_app w1 w2 : evals (w1 ++ w2) = (evals w1 + evals w2)%Z.
Proof. unfold evals. rewrite List.filter_app, app_length. lia. Qed.
Lemma evals_reverse w : evals (reverse w) = evals w.
Proof.
  induction w as [|ev w IH]; [done|]. rewrite reverse_cons, evals_app, IH. unfold evals. simpl. destruct (ev_eval ev); simpl; lia.
Qed.
Lemma evals_tword w F : tword w F → evals w = Z.of_nat (count is_eval (flat_map nodes F)).
Proof.
  assert (∀ ns1 ns2, count is_eval (ns1 ++ ns2) = count is_eval ns1 + count is_eval ns2)%nat as Happ.
  { intros. unfold count. by rewrite List.filter_app, app_length. }
  induction 1 as [|e src tgt w F Hw IH|e src tgt w1 F1 w2 F2 H1 IH1 H2 IH2]; [done| |].
  - change (EvEff e src tgt :: w) with ([EvEff e src tgt] ++ w). rewrite evals_app, IH. cbn [flat_map nodes].
    rewrite Happ. change (count is_eval [TNode e src tgt []]) with (length (if is_eval_eff e then [TNode e src tgt []] else [])).
    change (evals [EvEff e src tgt]) with (Z.of_nat (length (if is_eval_eff e then [EvEff e src tgt] else []))).
    destruct (is_eval_eff e); simpl length; lia.
  - change (EvBegin e src tgt :: w1 ++ EvEnd :: w2) with ([EvBegin e src tgt] ++ w1 ++ [EvEnd] ++ w2).
    rewrite !evals_app, IH1, IH2. cbn [flat_map nodes]. rewrite <- app_comm_cons.
    change (TNode e src tgt F1 :: flat_map nodes F1 ++ flat_map nodes F2) with ([TNode e src tgt F1] ++ flat_map nodes F1 ++ flat_map nodes F2).
    rewrite !Happ. change (count is_eval [TNode e src tgt F1]) with (length (if is_eval_eff e then [TNode e src tgt F1] else [])).
    change (evals [EvBegin e src tgt]) with (Z.of_nat (length (if is_eval_eff e then [EvBegin e src tgt] else []))).
    change (evals [EvEnd]) with 0%Z. destruct (is_eval_eff e); simpl length; lia.
Qed.

Section Runs.
Context `{Prog}.

(** [d] more evaluations than evaluation effects. *)
Definition bal (d : Z) (s s' : dcg) : Prop :=
  (Z.of_nat (length (runs s')) + evals (trc s) = d + Z.of_nat (length (runs s)) + evals (trc s'))%Z.
Definition vb {A} (d : Z) (m : M A) : Prop := ∀ s, vpost m s (λ _ s', bal d s s').

Lemma vb_bind {A B} d1 d2 d (m : M A) (f : A → M B) : d = (d1 + d2)%Z → vb d1 m → (∀ a, vb d2 (f a)) → vb d (bind m f).
Proof.
  intros -> Hm Hf s. apply vpost_bind. eapply vpost_mono; [apply Hm|]. intros a s1 H1. eapply vpost_mono; [apply Hf|].
  unfold bal in *. intros b s2 H2. lia.
Qed.
Lemma vb_bind0 {A B} d (m : M A) (f : A → M B) : vb 0 m → (∀ a, vb d (f a)) → vb d (bind m f).
Proof. by apply vb_bind. Qed.
Lemma vb_ret {A} (a : A) : vb 0 (ret a).
Proof. intros s. apply vpost_ret. unfold bal. lia. Qed.
Lemma vb_panic {A} d r : vb d (panic r : M A).
Proof. intros s. apply vpost_panic. Qed.
Lemma vb_get : vb 0 get.
Proof. intros s. apply vpost_get. unfold bal. lia. Qed.
Lemma vb_modify f : (∀ s, runs (f s) = runs s ∧ trc (f s) = trc s) → vb 0 (modify f).
Proof. intros Hf s. apply vpost_modify. destruct (Hf s) as [E1 E2]. unfold bal. rewrite E1, E2. lia. Qed.
Lemma vb_run l : vb 1 (modify (add_run l)).
Proof. intros s. apply vpost_modify. unfold bal. cbn [add_run runs trc length]. lia. Qed.
Lemma vb_emit0 e : ev_eval e = false → vb 0 (emit e).
Proof. intros He s. apply vpost_emit. unfold bal, evals. simpl. rewrite He. lia. Qed.
Lemma vb_emit1 e : ev_eval e = true → vb (-1) (emit e).
Proof. intros He s. apply vpost_emit. unfold bal, evals. cbn [add_ev runs trc List.filter length]. rewrite He. cbn [length]. lia. Qed.
Lemma vb_assert b r : vb 0 (assert b r).
Proof. destruct b; [apply vb_ret|apply vb_panic]. Qed.
Lemma vb_of_opt {A} r (o : option A) : vb 0 (of_opt r o).
Proof. destruct o; [apply vb_ret|apply vb_panic]. Qed.
Lemma vb_lookup_abs l : vb 0 (lookup_abs l).
Proof. apply vb_bind0; [apply vb_get|]. intros s. destruct (table s !! l); [apply vb_ret|apply vb_panic]. Qed.
Lemma vb_res_node t l : vb 0 (res_node t l).
Proof. apply vb_bind0; [apply vb_lookup_abs|]. intros nd. apply vb_bind0; [apply vb_assert|]. intros _. apply vb_ret. Qed.
Lemma vb_put_node l nd : vb 0 (put_node l nd).
Proof. by apply vb_modify. Qed.
Lemma vb_push e pd : vb 0 (push_edge e pd).
Proof. apply vb_modify. intros s. by destruct (stack s). Qed.
Lemma vb_mfor {A} (xs : list A) f : (∀ x, vb 0 (f x)) → vb 0 (mfor xs f).
Proof. intros Hf. induction xs as [|x xs IH]; simpl; [apply vb_ret|]. by apply vb_bind0. Qed.

Lemma vb_nofuel {A} d : vb d (nofuel : M A).
Proof. intros s. apply vpost_nofuel. Qed.
Lemma vb_diag {A} d (m : dcg → M A) : (∀ s, vb d (m s)) → vb d (λ s, m s s).
Proof. intros Hm s. apply Hm. Qed.
Lemma vb_elim {A} d (m : M A) s a s' : vb d m → m s = (OVal a, s') → bal d s s'.
Proof. intros Hm E. by eapply Hm. Qed.
Local Opaque vb.
Local Ltac vbs := repeat first
  [ progress intros
  | apply vb_ret | apply vb_panic | apply vb_get | apply vb_assert | apply vb_of_opt | apply vb_lookup_abs | apply vb_res_node
  | apply vb_put_node | apply vb_push | (apply vb_emit0; reflexivity) | (apply vb_modify; done) | apply vb_mfor
  | match goal with |- vb _ (bind _ _) => apply vb_bind0 end ].

Lemma vb_check t f w l : vb 0 (check_force_map_dep t f w l).
Proof. unfold check_force_map_dep. vbs. destruct a; vbs. Qed.
Lemma vb_dep_dirty d l : vb 0 (dep_dirty d l).
Proof. destruct d; simpl; vbs. apply vb_check. Qed.
Lemma vb_get_dirty x eff l : vb 0 (get_dirty x eff l).
Proof. unfold get_dirty. vbs. destruct a; vbs. destruct (find_succ _ _ _); vbs. Qed.
Lemma vb_set_dirty b x eff l : vb 0 (set_dirty b x eff l).
Proof. unfold set_dirty. vbs. destruct a; vbs. destruct (find_succ _ _ _); vbs. Qed.
Lemma vb_dirty_obs fuel : ∀ l, vb 0 (dirty_obs fuel l).
Proof.
  induction fuel as [|fuel IH]; intros l; simpl; [apply vb_nofuel|]. vbs. unfold dirty_step. apply vb_bind0.
  { destruct (x.2) as [d|]; vbs. destruct (is_absmap d); vbs. apply vb_dep_dirty. }
  intros stop. apply vb_bind0.
  { destruct stop; vbs; [apply vb_get_dirty|]. destruct a1; vbs. apply vb_set_dirty. }
  intros []; vbs. apply IH.
Qed.
Lemma vb_dirty_observers l : vb 0 (dirty_observers l).
Proof. apply (vb_diag 0 (λ s, dirty_obs (dirty_fuel s) l)). intros s. apply vb_dirty_obs. Qed.
Lemma vb_dirty_alloc l : vb 0 (dirty_alloc l).
Proof.
  unfold dirty_alloc. vbs; [apply vb_dirty_observers|]. unfold dirty_alloc_step. vbs; [apply vb_get_dirty|].
  destruct a2; vbs; [apply vb_set_dirty|apply vb_dirty_observers].
Qed.
Lemma vb_set_val t l v : vb 0 (set_val t l v).
Proof. unfold set_val. vbs. destruct a; vbs. destruct (decide _); vbs. apply vb_dirty_alloc. Qed.
Lemma vb_revoke src es : vb 0 (revoke_succs src es).
Proof. unfold revoke_succs. vbs. Qed.
Lemma vb_cell t n v : vb 0 (cell_op t n v).
Proof.
  unfold cell_op. apply vb_bind0; [apply vb_get|]. intros s. cbv zeta. apply vb_bind0.
  { destruct (table s !! _); vbs. destruct a; vbs. }
  intros [[[do_dirty do_set] succs] fresh]. apply vb_bind0.
  { destruct fresh; vbs. unfold check_cell_change. vbs. destruct a; vbs. }
  intros ac. vbs.
  - destruct do_set; vbs. apply vb_set_val.
  - destruct do_dirty; vbs. apply vb_dirty_alloc.
  - destruct succs; vbs; try apply vb_revoke.
  - destruct fresh; vbs.
  - destruct (_ && _); vbs.
Qed.
Lemma vb_set t a v : vb 0 (set_op t a v).
Proof. destruct a; simpl; vbs. destruct (stack a); vbs. apply vb_set_val. Qed.
Lemma vb_thunk t nc pp arg spur : vb 0 (thunk_op t nc pp arg spur).
Proof.
  unfold thunk_op. apply vb_bind0; [apply vb_get|]. intros s. cbv zeta.
  destruct (match nc with NCNominal n => if structf s then NCStructural else NCNominal n | _ => nc end) as [| | |n]; vbs.
  - destruct (table s !! _); vbs.
  - destruct (table s !! _) as [nd|]; vbs. destruct nd; vbs. destruct (decide _); vbs. destruct (decide _); vbs.
  - destruct a as [[do_dirty do_insert] fresh]. vbs.
    + destruct do_dirty; vbs. apply vb_dirty_alloc.
    + destruct do_insert; vbs.
Qed.

Lemma vb_force_finish l dup pure t r : vb 0 (force_finish l dup pure t r).
Proof. unfold force_finish. vbs. destruct (_ || _); vbs. Qed.
Lemma vb_force_loc prod cln : (∀ t l, vb 1 (prod t l)) → (∀ t w l, vb 0 (cln t w l)) → ∀ t l cyc, vb 0 (force_loc prod cln t l cyc).
Proof.
  intros HP HC t l cyc. unfold force_loc. apply vb_bind0; [apply vb_get|]. intros s. cbv zeta. apply vb_bind0; [apply vb_res_node|].
  intros [| |c].
  - vbs. apply vb_force_finish.
  - vbs. apply vb_force_finish.
  - destruct (is_cycle s l). { destruct cyc; vbs. apply vb_force_finish. }
    destruct (c_res c).
    + vbs; [apply HC|]. destruct a2; vbs. destruct (c_res _); vbs. apply vb_force_finish.
    + apply (vb_bind (-1) 1); [done|by apply vb_emit1|]. intros _. apply vb_bind0; [apply vb_assert|]. intros _.
      apply (vb_bind 1 0); [done|apply HP|]. vbs. apply vb_force_finish.
Qed.
Lemma vb_run_comp frc : (∀ t l cyc, vb 0 (frc t l cyc)) → ∀ c, vb 0 (run frc c).
Proof.
  intros HF. induction c as [v0| |t a cyc k IH|t a f0 k IH|t a f0 k IH|t nm v0 k IH|t nc pp arg spur k IH|t a v0 k IH|nm b IHb k IH|b IHb k IH]; simpl.
  - vbs.
  - vbs.
  - apply vb_bind0; [|done]. destruct a; simpl; vbs. apply HF.
  - apply vb_bind0; [|done]. destruct a; simpl; vbs. destruct a; vbs; apply HF.
  - apply vb_bind0; [|done]. destruct a; simpl; vbs. destruct a; vbs; apply HF.
  - apply vb_bind0; [apply vb_cell|done].
  - apply vb_bind0; [apply vb_thunk|done].
  - apply vb_bind0; [apply vb_set|done].
  - vbs; done.
  - vbs; done.
Qed.
Lemma vb_produce_body frc t l : (∀ t l cyc, vb 0 (frc t l cyc)) → vb 1 (produce_body frc t l).
Proof.
  intros HF. unfold produce_body. apply vb_bind0.
  { unfold produce_begin. vbs. destruct a; vbs; try apply vb_revoke;
    match goal with |- vb _ (match ?nd with _ => _ end) => destruct nd end; vbs. }
  intros [c prev]. apply (vb_bind 1 0); [done|apply vb_run|]. intros _. apply vb_bind0; [by apply vb_run_comp|]. intros r.
  apply vb_bind0; [|vbs]. unfold produce_end. vbs. destruct (stack a0); vbs.
  - unfold insert_preds. vbs. destruct x. vbs.
  - match goal with |- vb _ (match ?nd with _ => _ end) => destruct nd end; vbs.
Qed.
Lemma vb_clean_comp prod cln t w l cache es : (∀ t l, vb 1 (prod t l)) → (∀ t w l, vb 0 (cln t w l)) →
  vb 0 (clean_comp prod cln t w l cache es).
Proof.
  intros HP HC. induction es as [|e es IH]; simpl; [vbs|]. apply vb_bind0; [apply vb_get_dirty|]. intros [|]; [|done].
  apply vb_bind0; [by apply vb_emit0|]. intros _. apply vb_bind0.
  { unfold dep_clean. destruct (s_dep e); vbs; [apply HC|apply vb_check]. }
  intros [|].
  - apply (vb_bind (-1) 1); [done|by apply vb_emit1|]. intros _. apply (vb_bind 1 0); [done|apply HP|]. vbs.
  - apply vb_bind0; [apply vb_set_dirty|]. vbs. done.
Qed.
Lemma vb_produce_clean n : (∀ t l, vb 1 (produce n t l)) ∧ (∀ t w l, vb 0 (clean n t w l)).
Proof.
  induction n as [|n [IHp IHc]]; [split; intros; apply vb_nofuel|]. split; intros; simpl.
  - apply vb_produce_body. by apply vb_force_loc.
  - unfold clean_body. vbs. destruct a; vbs. destruct (c_res c); [by apply vb_clean_comp|].
    apply (vb_bind (-1) 1); [done|by apply vb_emit1|]. intros _. apply (vb_bind 1 0); [done|apply IHp|]. vbs.
Qed.

(** C47. However a program that returns normally interleaves edits and demands, the number of thunk evaluations it
    caused is the number of [Force(CompCacheMiss)] and [CleanEval] nodes of the recorded trace. *)
Theorem C47_trace_shows_evaluations k c s v s' :
  exec k c s = (OVal v, s') →
  ∃ w F, recorded s s' w ∧ reflect_forest w = Some F ∧
    length (runs s') = (length (runs s) + count is_eval (flat_map nodes F))%nat.
Proof.
  intros E. destruct (exec_ctx k c s v s' E) as [_ _ _ (w & F & Et & Hw & _)]. exists w, F.
  split; [done|]. split; [by apply reflect_tword|].
  assert (bal 0 s s') as Hb.
  { eapply (vb_elim 0 (run (force k) c)); [|exact E]. apply vb_run_comp. intros. apply vb_force_loc; apply vb_produce_clean. }
  unfold bal in Hb. rewrite Et, evals_app, evals_reverse, (evals_tword _ _ Hw) in Hb. lia.
Qed.
End Runs.
