(** * Invariants of single nodes, valid in every state of the engine, whatever was run (and even after a panic). *)
From Verif Require Export EngineProps.

(** [G l nd] is preserved by everything the engine does to the node at [l]; [po] is the flag [use_purity_optimization]. *)
Record stable `{Prog} (po : bool) (G : loc → node → Prop) : Prop := {
  g_remove l q nd nd' : G l nd → preds_remove q nd = Some nd' → G l nd';
  g_insert l p nd nd' : G l nd → preds_insert p nd = Some nd' → G l nd';
  g_mark l c b eff tgt : G l (NComp c) → G l (NComp (with_succs (mark_succ b eff tgt (c_succs c)) c));
  g_set l t ps v v' : G l (NMut t ps v) → G l (NMut t ps v');
  g_rebind p n c a : G (Loc p (IdNom n)) (NComp c) → G (Loc p (IdNom n)) (NComp (with_res None (with_arg a c)));
  g_cell p n t v : G (Loc p (IdNom n)) (NMut t [] v);
  g_cell_struct p t v : G (Loc p (IdStruct (hash_val v))) (if po then NPure t v else NMut t [] v);
  g_thunk p n t pp arg spur : G (Loc p (IdNom n)) (NComp (CompNode t [] [] pp arg spur None));
  g_thunk_struct p t pp arg spur : G (Loc p (IdStruct (hash_app pp arg))) (NComp (CompNode t [] [] pp arg spur None));
  g_clear l c : G l (NComp c) → G l (NComp (with_succs [] c));
  g_finish l c es v : (∀ e, e ∈ es → s_dirty e = false) → G l (NComp c) → G l (NComp (with_res (Some v) (with_succs es c)));
}.

Section Keeps.
Context `{Prog}.
Context (po : bool) (G : loc → node → Prop) (HG : stable po G).
Local Set Default Proof Using "All".
Definition J (s : dcg) : Prop := purity s = po ∧ ∀ l nd, table s !! l = Some nd → G l nd.

(** [keeps m Q]: [m] preserves [J] whatever its outcome, and its normal results satisfy [Q]. *)
Definition keeps {A} (m : M A) (Q : A → Prop) : Prop := ∀ s, J s → J (m s).2 ∧ ∀ a s', m s = (OVal a, s') → Q a.
Lemma keeps_bind {A B} (m : M A) (f : A → M B) Q Q' : keeps m Q → (∀ a, Q a → keeps (f a) Q') → keeps (bind m f) Q'.
Proof.
  intros Hm Hf s Hs. destruct (Hm s Hs) as [H1 H2]. unfold bind. destruct (m s) as [[a|r|] s1]; [|by split..].
  apply (Hf a (H2 _ _ eq_refl)). exact H1.
Qed.
Lemma keeps_mono {A} (m : M A) (Q Q' : A → Prop) : keeps m Q → (∀ a, Q a → Q' a) → keeps m Q'.
Proof. intros Hm HQ s Hs. destruct (Hm s Hs) as [H1 H2]. split; [done|]. eauto. Qed.
Lemma keeps_ret {A} (a : A) (Q : A → Prop) : Q a → keeps (ret a) Q.
Proof. intros HQ s Hs. split; [done|]. by intros ? ? [= <- _]. Qed.
Lemma keeps_panic {A} r (Q : A → Prop) : keeps (panic r) Q.
Proof. intros s Hs. split; [done|]. by intros. Qed.
Lemma keeps_nofuel {A} (Q : A → Prop) : keeps nofuel Q.
Proof. intros s Hs. split; [done|]. by intros. Qed.
Lemma keeps_get : keeps get J.
Proof. intros s Hs. split; [done|]. by intros ? ? [= <- _]. Qed.
Lemma keeps_modify f : (∀ s, table (f s) = table s ∧ purity (f s) = purity s) → keeps (modify f) (λ _, True).
Proof. intros E s Hs. split; [|done]. unfold J. simpl. destruct (E s) as [-> ->]. done. Qed.
Lemma keeps_emit e : keeps (emit e) (λ _, True).
Proof. by apply keeps_modify. Qed.
Lemma keeps_assert b r : keeps (assert b r) (λ _, b = true).
Proof. intros s Hs. destruct b; (split; [done|]); by intros. Qed.
Lemma keeps_of_opt {A} r (o : option A) : keeps (of_opt r o) (λ a, o = Some a).
Proof. intros s Hs. destruct o; (split; [done|]); [|done]. by intros ? ? [= <- _]. Qed.
Lemma keeps_put_node l nd : G l nd → keeps (put_node l nd) (λ _, True).
Proof.
  intros Hn s [Hp Hs]. split; [|done]. split; [done|]. simpl. intros x nd'. destruct (decide (x = l)) as [->|].
  - rewrite lookup_insert. by intros [= <-].
  - rewrite lookup_insert_ne by done. apply Hs.
Qed.
Lemma keeps_mfor {A} (xs : list A) f : (∀ x, keeps (f x) (λ _, True)) → keeps (mfor xs f) (λ _, True).
Proof. intros Hf. induction xs as [|x xs IH]; simpl; [by apply keeps_ret|]. eapply keeps_bind; [apply Hf|]. intros _ _. exact IH. Qed.

Lemma keeps_lookup_abs l : keeps (lookup_abs l) (G l).
Proof.
  eapply keeps_bind; [apply keeps_get|]. intros s Hs. destruct (table s !! l) as [nd|] eqn:E; [|apply keeps_panic]. apply keeps_ret. by apply Hs.
Qed.
Lemma keeps_res_node t l : keeps (res_node t l) (G l).
Proof. eapply keeps_bind; [apply keeps_lookup_abs|]. intros nd Hn. eapply keeps_bind; [apply keeps_assert|]. intros _ _. by apply keeps_ret. Qed.
Lemma keeps_get_dirty src eff tgt : keeps (get_dirty src eff tgt) (λ _, True).
Proof.
  eapply keeps_bind; [apply keeps_lookup_abs|]. intros [| |c] Hn; [apply keeps_panic..|]. destruct (find_succ _ _ _); [by apply keeps_ret|apply keeps_panic].
Qed.
Lemma keeps_set_dirty b src eff tgt : keeps (set_dirty b src eff tgt) (λ _, True).
Proof.
  eapply keeps_bind; [apply keeps_lookup_abs|]. intros [| |c] Hn; [apply keeps_panic..|]. destruct (find_succ _ _ _); [|apply keeps_panic].
  apply keeps_put_node. by apply HG.
Qed.
Lemma keeps_check_force_map t f w l : keeps (check_force_map_dep t f w l) (λ _, True).
Proof. eapply keeps_bind; [apply keeps_res_node|]. intros [| |] _; [by apply keeps_ret|apply keeps_panic..]. Qed.
Ltac kb := eapply keeps_bind; [|intros ? ?].
Ltac k0 := first [apply keeps_get|apply keeps_emit|apply keeps_assert|apply keeps_of_opt|apply keeps_lookup_abs|apply keeps_res_node|apply keeps_get_dirty
  |apply keeps_set_dirty|apply keeps_panic|apply keeps_nofuel|by apply keeps_ret|by apply keeps_modify|apply keeps_check_force_map].
Lemma keeps_true {A} (m : M A) Q : keeps m Q → keeps m (λ _, True).
Proof. intros Hm. by eapply keeps_mono. Qed.
Lemma keeps_dirty_obs n l : keeps (dirty_obs n l) (λ _, True).
Proof.
  revert l. induction n as [|n IH]; intros l; simpl; [k0|]. kb; [k0|]. kb; [k0|]. apply keeps_mfor. intros [p d].
  eapply (keeps_bind _ _ (λ _, True)).
  - simpl. destruct d as [d|]; [|k0]. destruct (is_absmap d); [k0|]. eapply (keeps_bind _ _ (λ _, True)); [|intros; k0]. destruct d; simpl; k0.
  - intros b _. eapply (keeps_bind _ _ (λ _, True)).
    + destruct b; [k0|]. kb; [k0|]. match goal with x : bool |- _ => destruct x end; [k0|]. kb; [k0|]. kb; [k0|]. kb; [k0|]. k0.
    + intros b' _. destruct b'; [k0|]. kb; [apply IH|]. k0.
Qed.
Lemma keeps_dirty_observers l : keeps (dirty_observers l) (λ _, True).
Proof. intros s Hs. apply (keeps_dirty_obs (dirty_fuel s) l s Hs). Qed.
Lemma keeps_dirty_alloc l : keeps (dirty_alloc l) (λ _, True).
Proof.
  kb; [apply keeps_dirty_observers|]. kb; [k0|]. kb; [k0|]. apply keeps_mfor. intros p. kb; [k0|]. match goal with x : bool |- _ => destruct x end; [k0|].
  kb; [k0|]. kb; [k0|]. kb; [k0|]. kb; [apply keeps_dirty_observers|]. k0.
Qed.
Lemma keeps_revoke l es : keeps (revoke_succs l es) (λ _, True).
Proof.
  apply keeps_mfor. intros e. kb; [k0|]. kb; [k0|]. kb; [k0|]. apply keeps_put_node.
  cbv beta in *; eapply g_remove; eassumption.
Qed.
Lemma keeps_push e pd : keeps (push_edge e pd) (λ _, True).
Proof. apply keeps_modify. intros s. by destruct (stack s). Qed.
Lemma keeps_set_val t l v : keeps (set_val t l v) (λ _, True).
Proof.
  kb; [k0|]. match goal with x : node |- _ => destruct x end; try k0. destruct (decide _); [k0|]. kb; [apply keeps_put_node; eapply g_set; eassumption|]. apply keeps_dirty_alloc.
Qed.
Lemma keeps_if {A} (b : bool) (m m' : M A) Q : keeps m Q → keeps m' Q → keeps (if b then m else m') Q.
Proof. by destruct b. Qed.
Lemma keeps_cell t n v : keeps (cell_op t n v) (λ _, True).
Proof.
  kb; [k0|]. cbv zeta. match goal with HJ : J _ |- _ => rename HJ into Hs end.
  eapply (keeps_bind _ _ (λ _, True)).
  { destruct (table _ !! _); [|k0]. kb; [k0|]. match goal with x : node |- _ => destruct x end; k0. }
  intros [[[dd ds] es] fr] _. eapply (keeps_bind _ _ (λ _, True)).
  { apply keeps_if; [k0|]. eapply (keeps_bind _ _ (λ _, True)); [|intros; k0]. kb; [k0|]. match goal with x : node |- _ => destruct x end; k0. }
  intros ac _. kb; [k0|]. kb; [apply keeps_if; [apply keeps_set_val|k0]|]. kb; [apply keeps_if; [apply keeps_dirty_alloc|k0]|].
  kb; [destruct es; [apply keeps_revoke|k0]|]. kb; [k0|].
  kb; [apply keeps_if; [apply keeps_put_node|k0]|].
  { destruct Hs as [-> _]. destruct (structf _); simpl; [apply (g_cell_struct _ _ HG)|apply (g_cell _ _ HG)]. }
  kb; [apply keeps_if; [k0|apply keeps_push]|]. k0.
Qed.
Lemma keeps_set t a v : keeps (set_op t a v) (λ _, True).
Proof. destruct a; simpl; [k0|]. kb; [k0|]. destruct (stack _); [apply keeps_set_val|k0]. Qed.
Lemma keeps_thunk t nc pp arg spur : keeps (thunk_op t nc pp arg spur) (λ _, True).
Proof.
  kb; [k0|]. cbv zeta. match goal with x : dcg |- _ => rename x into s end. match goal with HJ : J s |- _ => rename HJ into Hs end.
  destruct (match nc with NCNominal _ => _ | _ => nc end) as [| | |n]; [k0|k0| |].
  { destruct (table s !! _); [k0|]. kb; [apply keeps_push|]. kb; [apply keeps_put_node, (g_thunk_struct _ _ HG)|]. k0. }
  eapply (keeps_bind _ _ (λ _, True)).
  { destruct (table s !! _) as [nd|] eqn:E; [|k0]. kb; [k0|]. destruct nd as [| |c]; [k0|k0|]. destruct (decide _); [|k0]. destruct (decide _); [k0|].
    kb; [apply keeps_put_node, (g_rebind _ _ HG); apply (proj2 Hs _ _ E)|]. k0. }
  intros [[dd di] fr] _. kb; [k0|]. kb; [apply keeps_if; [apply keeps_dirty_alloc|k0]|]. kb; [k0|]. kb; [apply keeps_push|].
  kb; [apply keeps_if; [apply keeps_put_node, (g_thunk _ _ HG)|k0]|]. k0.
Qed.
Lemma keeps_force_finish l dup pure t r : keeps (force_finish l dup pure t r) (λ _, True).
Proof. kb; [apply keeps_if; [k0|apply keeps_push]|]. k0. Qed.
Notation keep m := (keeps m (λ _, True)).
Lemma keeps_force_loc prod cln t l cyc : (∀ t l, keep (prod t l)) → (∀ t w l, keep (cln t w l)) → keep (force_loc prod cln t l cyc).
Proof.
  intros HP HC. kb; [k0|]. cbv zeta. kb; [k0|]. match goal with x : node |- _ => destruct x as [| |c] end.
  1,2: kb; [k0|]; apply keeps_force_finish.
  destruct (is_cycle _ _).
  { destruct cyc; [|k0]. kb; [k0|]. kb; [k0|]. apply keeps_force_finish. }
  destruct (c_res c).
  - kb; [k0|]. kb; [apply HC|]. kb; [k0|]. kb; [k0|]. match goal with x : node |- _ => destruct x as [| |c'] end; [k0..|].
    destruct (c_res c'); [apply keeps_force_finish|k0].
  - kb; [k0|]. kb; [k0|]. kb; [apply HP|]. kb; [k0|]. apply keeps_force_finish.
Qed.
Lemma keeps_run frc c : (∀ t l cyc, keep (frc t l cyc)) → keep (run frc c).
Proof.
  intros HF. induction c as [v0| |t a cyc k IH|t a f0 k IH|t a f0 k IH|t nm v0 k IH|t nc pp arg spur k IH|t a v0 k IH|nm b IHb k IH|b IHb k IH]; simpl.
  - k0.
  - k0.
  - eapply (keeps_bind _ _ (λ _, True)); [|intros; apply IH]. destruct a; [k0|apply HF].
  - eapply (keeps_bind _ _ (λ _, True)); [|intros; apply IH]. destruct a as [|l]; simpl; [k0|]. kb; [k0|].
    match goal with x : node |- _ => destruct x end; [|kb; [apply HF|]; k0..]. kb; [k0|]. kb; [k0|]. kb; [apply keeps_push|]. k0.
  - eapply (keeps_bind _ _ (λ _, True)); [|intros; apply IH]. destruct a as [|l]; simpl; [k0|]. kb; [k0|].
    match goal with x : node |- _ => destruct x end; [|kb; [apply HF|]; k0..]. kb; [k0|]. kb; [k0|]. kb; [apply keeps_push|]. k0.
  - kb; [apply keeps_cell|]. apply IH.
  - kb; [apply keeps_thunk|]. apply IH.
  - kb; [apply keeps_set|]. apply IH.
  - kb; [k0|]. kb; [k0|]. kb; [apply IHb|]. kb; [k0|]. apply IH.
  - kb; [k0|]. kb; [k0|]. kb; [apply IHb|]. kb; [k0|]. apply IH.
Qed.
Lemma keeps_insert_preds l es : keeps (insert_preds l es) (λ _, ∀ e, e ∈ es.*1 → s_dirty e = false).
Proof.
  induction es as [|[e pd] es IH]; simpl.
  { apply keeps_ret. intros e He. by apply elem_of_nil in He. }
  eapply (keeps_bind _ _ (λ _, s_dirty e = false)).
  - kb; [k0|]. cbv beta in *; match goal with E : negb _ = true |- _ => rename E into Ed end.
    eapply (keeps_mono _ (λ _, True)); [|intros _ _; by destruct (s_dirty e)].
    kb; [k0|]. kb; [k0|]. apply keeps_put_node. cbv beta in *; eapply g_insert; eassumption.
  - intros _ He. eapply keeps_mono; [exact IH|]. intros ? Hes e' [->|He']%elem_of_cons; auto.
Qed.
Lemma keeps_produce_body frc t l : (∀ t l cyc, keep (frc t l cyc)) → keep (produce_body frc t l).
Proof.
  intros HF. eapply (keeps_bind _ _ (λ _, True)).
  - kb; [k0|]. match goal with x : node |- _ => destruct x as [| |c] end; [k0..|]. kb; [apply keeps_put_node; eapply g_clear; eassumption|]. kb; [apply keeps_revoke|].
    kb; [k0|]. kb; [k0|]. kb; [k0|]. kb; [k0|]. match goal with x : node |- _ => destruct x as [| |c'] end; [k0..|]. k0.
  - intros [c prev] _. kb; [k0|]. kb; [by apply keeps_run|]. kb; [|k0].
    kb; [k0|]. kb; [k0|]. destruct (stack _) as [|f fs]; [k0|]. kb; [k0|]. kb; [k0|]. kb; [apply keeps_insert_preds|]. kb; [k0|].
    match goal with x : node |- _ => destruct x as [| |c'] end; [k0..|]. apply keeps_put_node. cbv beta in *. eapply g_finish; eassumption.
Qed.
Lemma keeps_clean_comp prod cln t w l cache es : (∀ t l, keep (prod t l)) → (∀ t w l, keep (cln t w l)) → keep (clean_comp prod cln t w l cache es).
Proof.
  intros HP HC. induction es as [|e es IH]; simpl; [k0|]. kb; [k0|]. match goal with x : bool |- _ => destruct x end; [|exact IH].
  kb; [k0|]. eapply (keeps_bind _ _ (λ _, True)); [destruct (s_dep e); simpl; first [apply HC|k0]|]. intros [|] _.
  - kb; [k0|]. kb; [apply HP|]. kb; [k0|]. kb; [k0|]. k0.
  - kb; [k0|]. kb; [k0|]. kb; [k0|]. exact IH.
Qed.
Lemma keeps_produce_clean n : (∀ t l, keep (produce n t l)) ∧ (∀ t w l, keep (clean n t w l)).
Proof.
  induction n as [|n [IHp IHc]]; [split; intros; k0|]. split; simpl; intros.
  - apply keeps_produce_body. intros. by apply keeps_force_loc.
  - kb; [k0|]. match goal with x : node |- _ => destruct x as [| |c] end; [k0..|]. destruct (c_res c); [by apply keeps_clean_comp|].
    kb; [k0|]. kb; [apply IHp|]. kb; [k0|]. k0.
Qed.
Lemma exec_keeps n c s o s' : J s → exec n c s = (o, s') → J s'.
Proof.
  intros Hs E. assert (HK : keep (exec n c)).
  { apply keeps_run. intros. apply keeps_force_loc; apply keeps_produce_clean. }
  destruct (HK s Hs) as [HJ _]. by rewrite E in HJ.
Qed.
End Keeps.

