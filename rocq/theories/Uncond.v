(** * Facts about the engine operations in arbitrary states, with arbitrary outcomes. *)
From Verif Require Export Graph Fuel.

(** [post m s Q]: [Q] holds of the outcome (normal, panic or budget) and final state of [m] from [s]. *)
Definition post {A} (m : M A) (s : dcg) (Q : out A → dcg → Prop) : Prop := Q (m s).1 (m s).2.

Lemma post_intro {A} (m : M A) s (Q : out A → dcg → Prop) : (∀ o s', m s = (o, s') → Q o s') → post m s Q.
Proof. intros HQ. apply HQ. by destruct (m s). Qed.
Lemma post_elim {A} (m : M A) s (Q : out A → dcg → Prop) o s' : post m s Q → m s = (o, s') → Q o s'.
Proof. unfold post. intros HQ E. by rewrite E in HQ. Qed.
Lemma post_mono {A} (m : M A) s (Q Q' : out A → dcg → Prop) : post m s Q → (∀ o s', Q o s' → Q' o s') → post m s Q'.
Proof. unfold post. auto. Qed.
Definition kont {A B} (f : A → M B) (Q : out B → dcg → Prop) (o : out A) (s1 : dcg) : Prop :=
  match o with OVal a => post (f a) s1 Q | OPanic r => Q (OPanic r) s1 | OFuel => Q OFuel s1 end.
Lemma post_bind {A B} (m : M A) (f : A → M B) s Q : post m s (kont f Q) → post (bind m f) s Q.
Proof. unfold post, bind, kont. destruct (m s) as [[a|r|] s1]; done. Qed.
Lemma post_ret {A} (a : A) s (Q : out A → dcg → Prop) : Q (OVal a) s → post (ret a) s Q.
Proof. done. Qed.
Lemma post_panic {A} r s (Q : out A → dcg → Prop) : Q (OPanic r) s → post (panic r) s Q.
Proof. done. Qed.
Lemma post_get s (Q : out dcg → dcg → Prop) : Q (OVal s) s → post get s Q.
Proof. done. Qed.
Lemma post_modify f s (Q : out unit → dcg → Prop) : Q (OVal tt) (f s) → post (modify f) s Q.
Proof. done. Qed.
Lemma post_emit e s (Q : out unit → dcg → Prop) : Q (OVal tt) (add_ev e s) → post (emit e) s Q.
Proof. done. Qed.
Lemma post_assert b r s (Q : out unit → dcg → Prop) :
  (b = true → Q (OVal tt) s) → (b = false → Q (OPanic r) s) → post (assert b r) s Q.
Proof. destruct b; unfold post; simpl; auto. Qed.
Lemma post_of_opt {A} r (o : option A) s (Q : out A → dcg → Prop) :
  (∀ a, o = Some a → Q (OVal a) s) → (o = None → Q (OPanic r) s) → post (of_opt r o) s Q.
Proof. destruct o; unfold post; simpl; auto. Qed.

(** ** Nodes and graphs that differ only in dirty bits, some raised *)
Definition raised (e e' : succ) : Prop :=
  s_loc e' = s_loc e ∧ s_eff e' = s_eff e ∧ s_dep e' = s_dep e ∧ (s_dirty e = true → s_dirty e' = true).
Definition node_raised (nd nd' : node) : Prop :=
  match nd with
  | NComp c => ∃ es, nd' = NComp (with_succs es c) ∧ Forall2 raised (c_succs c) es
  | _ => nd' = nd
  end.
Definition onode_raised (o o' : option node) : Prop :=
  match o, o' with Some nd, Some nd' => node_raised nd nd' | None, None => True | _, _ => False end.
(** Everything but the memo table and the trace. *)
Record same_rest (s s' : dcg) : Prop := {
  sr_stack : stack s' = stack s;
  sr_cpath : cpath s' = cpath s;
  sr_structf : structf s' = structf s;
  sr_purity : purity s' = purity s;
  sr_runs : runs s' = runs s;
}.
Record only_raises (s s' : dcg) : Prop := {
  or_node : ∀ x, onode_raised (table s !! x) (table s' !! x);
  or_rest : same_rest s s';
}.

Lemma raised_refl e : raised e e.
Proof. done. Qed.
Lemma raised_trans e1 e2 e3 : raised e1 e2 → raised e2 e3 → raised e1 e3.
Proof. intros (?&?&?&?) (?&?&?&?). repeat split; try congruence; auto. Qed.
Lemma Forall2_raised_refl es : Forall2 raised es es.
Proof. apply Forall_Forall2_diag. by apply Forall_true. Qed.
Lemma Forall2_raised_trans es1 es2 es3 : Forall2 raised es1 es2 → Forall2 raised es2 es3 → Forall2 raised es1 es3.
Proof.
  intros H1. revert es3. induction H1; intros es3 H2; inversion H2; subst; constructor; [by eapply raised_trans|auto].
Qed.
Lemma node_raised_refl nd : node_raised nd nd.
Proof. destruct nd as [| |c]; simpl; [done..|]. exists (c_succs c). split; [by destruct c|apply Forall2_raised_refl]. Qed.
Lemma node_raised_trans n1 n2 n3 : node_raised n1 n2 → node_raised n2 n3 → node_raised n1 n3.
Proof.
  destruct n1 as [| |c1]; simpl; [by intros -> ..|]. intros (es & -> & H1) (es' & -> & H2). exists es'. split; [done|].
  by eapply Forall2_raised_trans.
Qed.
Lemma onode_raised_refl o : onode_raised o o.
Proof. destruct o; simpl; [apply node_raised_refl|done]. Qed.
Lemma onode_raised_trans o1 o2 o3 : onode_raised o1 o2 → onode_raised o2 o3 → onode_raised o1 o3.
Proof. destruct o1, o2, o3; simpl; try done. apply node_raised_trans. Qed.
Lemma same_rest_refl s : same_rest s s. Proof. done. Qed.
Lemma same_rest_trans s1 s2 s3 : same_rest s1 s2 → same_rest s2 s3 → same_rest s1 s3.
Proof. intros [] []. split; congruence. Qed.
Lemma only_raises_refl s : only_raises s s.
Proof. split; [|done]. intros x. apply onode_raised_refl. Qed.
Lemma only_raises_trans s1 s2 s3 : only_raises s1 s2 → only_raises s2 s3 → only_raises s1 s3.
Proof. intros [] []. split; [|by eapply same_rest_trans]. intros x. by eapply onode_raised_trans. Qed.
Lemma only_raises_ev e s : only_raises s (add_ev e s).
Proof. split; [|done]. intros x. apply onode_raised_refl. Qed.
Lemma Forall2_raised_mark eff tgt es : Forall2 raised es (mark_succ true eff tgt es).
Proof.
  induction es as [|e es IH]; simpl; [done|]. destruct (decide _).
  - constructor; [done|apply Forall2_raised_refl].
  - constructor; [done|done].
Qed.
Lemma only_raises_upd q eff tgt c s : table s !! q = Some (NComp c) → only_raises s (upd_bit true q eff tgt c s).
Proof.
  intros Hq. split; [|done]. intros x. simpl. destruct (decide (x = q)) as [->|].
  - rewrite lookup_insert, Hq. simpl. eexists. split; [done|]. apply Forall2_raised_mark.
  - rewrite lookup_insert_ne by done. apply onode_raised_refl.
Qed.
Lemma clean_count_raised es es' : Forall2 raised es es' → (clean_count es' ≤ clean_count es)%nat.
Proof.
  unfold clean_count. induction 1 as [|e e' es es' (_&_&_&Hd) _ IH]; [done|].
  rewrite !filter_cons. destruct (decide (s_dirty e = false)), (decide (s_dirty e' = false)); simpl; try lia.
  destruct (s_dirty e); [|done]. by rewrite Hd in *.
Qed.
Lemma total_clean_raises (m m' : gmap loc node) :
  (∀ x, onode_raised (m !! x) (m' !! x)) → (total_clean m' ≤ total_clean m)%nat.
Proof.
  revert m'. induction m as [|l nd m Hl IH] using map_ind; intros m' Hx.
  - assert (m' = ∅) as ->; [|done]. apply map_eq. intros x. specialize (Hx x). rewrite lookup_empty in *. by destruct (m' !! x).
  - assert (Hxl := Hx l). rewrite lookup_insert in Hxl. destruct (m' !! l) as [nd'|] eqn:Hl'; [|done].
    unfold total_clean in *. rewrite map_fold_insert_L; [|intros; lia|done].
    rewrite <- (insert_delete m' l nd' Hl'), map_fold_insert_L; [|intros; lia|by rewrite lookup_delete].
    assert (node_clean_count nd' ≤ node_clean_count nd)%nat.
    { destruct nd as [| |c]; simpl in Hxl; [by subst|by subst|]. destruct Hxl as (es & -> & He). by apply clean_count_raised. }
    specialize (IH (delete l m')). assert (∀ x, onode_raised (m !! x) (delete l m' !! x)) as Hd.
    { intros x. destruct (decide (x = l)) as [->|]; [by rewrite lookup_delete, Hl|].
      rewrite lookup_delete_ne by done. specialize (Hx x). by rewrite lookup_insert_ne in Hx. }
    specialize (IH Hd). lia.
Qed.

Section Uncond.
Context `{Prog}.

Lemma post_lookup_abs l s (Q : out node → dcg → Prop) :
  (∀ nd, table s !! l = Some nd → Q (OVal nd) s) → (table s !! l = None → Q (OPanic PDangling) s) →
  post (lookup_abs l) s Q.
Proof. intros H1 H2. unfold post, lookup_abs, bind, get. destruct (table s !! l) eqn:E; simpl; auto. Qed.
Lemma post_res_node t l s (Q : out node → dcg → Prop) :
  (∀ nd, table s !! l = Some nd → node_ty nd = t → Q (OVal nd) s) →
  (∀ r, Q (OPanic r) s) →
  post (res_node t l) s Q.
Proof.
  intros H1 H2. apply post_bind, post_lookup_abs; [|by (intros; apply H2)]. intros nd Hl. apply post_bind, post_assert; [|by (intros; apply H2)].
  intros Ht%bool_decide_eq_true. by apply H1.
Qed.
Lemma post_put_node l nd s (Q : out unit → dcg → Prop) : Q (OVal tt) (set_table (<[l := nd]> (table s)) s) → post (put_node l nd) s Q.
Proof. done. Qed.
Lemma post_get_dirty src eff tgt s (Q : out bool → dcg → Prop) :
  (∀ c e, table s !! src = Some (NComp c) → find_succ eff tgt (c_succs c) = Some e → Q (OVal (s_dirty e)) s) →
  (∀ r, Q (OPanic r) s) → post (get_dirty src eff tgt) s Q.
Proof.
  intros H1 H2. apply post_bind, post_lookup_abs; [|by (intros; apply H2)]. intros nd Hl. unfold kont. destruct nd as [| |c]; [by apply H2..|].
  destruct (find_succ _ _ _) eqn:E; [|by apply H2]. by eapply H1.
Qed.
Lemma post_set_dirty b src eff tgt s (Q : out unit → dcg → Prop) :
  (∀ c e, table s !! src = Some (NComp c) → find_succ eff tgt (c_succs c) = Some e → Q (OVal tt) (upd_bit b src eff tgt c s)) →
  (∀ r, Q (OPanic r) s) → post (set_dirty b src eff tgt) s Q.
Proof.
  intros H1 H2. apply post_bind, post_lookup_abs; [|by (intros; apply H2)]. intros nd Hl. unfold kont. destruct nd as [| |c]; [by apply H2..|].
  destruct (find_succ _ _ _) eqn:E; [|by apply H2]. apply post_put_node. by eapply H1.
Qed.
Lemma post_check_force_map_dep t f w l s (Q : out bool → dcg → Prop) :
  (∀ b, Q (OVal b) s) → (∀ r, Q (OPanic r) s) → post (check_force_map_dep t f w l) s Q.
Proof. intros H1 H2. apply post_bind, post_res_node; [|by (intros; apply H2)]. intros [] _ _; simpl; [by apply post_ret|by apply post_panic..]. Qed.
Lemma post_dep_dirty d l s (Q : out bool → dcg → Prop) : (∀ b, Q (OVal b) s) → (∀ r, Q (OPanic r) s) → post (dep_dirty d l) s Q.
Proof. intros H1 H2. destruct d; simpl; try (by apply post_ret); [by apply post_check_force_map_dep|by apply post_panic]. Qed.

(** A loop whose body preserves a relation. *)
Lemma post_mfor {A} (P : dcg → dcg → Prop) (xs : list A) f s :
  (∀ s, P s s) → (∀ s1 s2 s3, P s1 s2 → P s2 s3 → P s1 s3) →
  (∀ x s1, x ∈ xs → P s s1 → post (f x) s1 (λ o s', o ≠ OFuel ∧ P s1 s')) →
  post (mfor xs f) s (λ o s', o ≠ OFuel ∧ P s s').
Proof.
  intros Hr Ht. assert (∀ s0, P s s0 → (∀ x s1, x ∈ xs → P s s1 → post (f x) s1 (λ o s', o ≠ OFuel ∧ P s1 s')) →
     post (mfor xs f) s0 (λ o s', o ≠ OFuel ∧ P s0 s')) as Hg; [|by auto].
  induction xs as [|x xs IH]; intros s0 Hs0 Hf; simpl; [by apply post_ret|].
  apply post_bind. eapply post_mono; [apply Hf; [by left|done]|]. intros o s1 [Ho Hs1]. unfold kont.
  destruct o as [[]| |]; [|done|done]. eapply post_mono; [apply IH|].
  - by eapply Ht.
  - intros y s2 Hy. apply Hf. by right.
  - intros o s2 [? ?]. split; [done|by eapply Ht].
Qed.

Lemma dirty_obs_any fuel : ∀ l s, (total_clean (table s) < fuel)%nat →
  post (dirty_obs fuel l) s (λ o s', o ≠ OFuel ∧ only_raises s s').
Proof.
  induction fuel as [|fuel IH]; intros l s Hf; [lia|]. simpl.
  apply post_bind, post_lookup_abs; [|by split; [|apply only_raises_refl]]. intros nd Hnd.
  apply post_bind, post_of_opt; [|by split; [|apply only_raises_refl]]. intros ps Hps.
  apply (post_mfor only_raises); [apply only_raises_refl|by eapply only_raises_trans|].
  intros [q d] s1 _ Hs1. assert (total_clean (table s1) < S fuel)%nat as Hf1.
  { eapply Nat.le_lt_trans; [apply total_clean_raises, Hs1|done]. }
  unfold dirty_step. simpl.
  assert (only_raises s1 s1) as Hrefl by apply only_raises_refl.
  apply post_bind. eapply (post_mono _ _ (λ o s', o ≠ OFuel ∧ s' = s1)).
  { destruct d as [d|]; [|by apply post_ret]. destruct (is_absmap d); [by apply post_ret|].
    apply post_bind, post_dep_dirty; [|done]. intros b. by apply post_ret. }
  intros o s' [Ho ->]. unfold kont. destruct o as [stop|r|]; [|done|done].
  apply post_bind. eapply (post_mono _ _ (λ o s', o ≠ OFuel ∧ only_raises s1 s' ∧
     (o = OVal false → (total_clean (table s') < fuel)%nat))).
  { destruct stop; [by apply post_ret|]. apply post_bind, post_get_dirty; [|done]. intros c e Hc He. simpl.
    destruct (s_dirty e) eqn:Hd; [by apply post_ret|]. apply post_bind, post_assert; [|done]. intros _.
    apply post_bind, post_emit. apply post_bind, post_set_dirty; [|by (intros; split; [|split; [apply only_raises_ev|]])].
    simpl. intros c' e' Hc' He'. apply post_ret. rewrite Hc in Hc'. injection Hc' as <-. rewrite He in He'. injection He' as <-.
    split; [done|]. split.
    - eapply only_raises_trans; [apply only_raises_ev|]. by apply only_raises_upd.
    - intros _. assert (Ht := total_clean_upd q Observe l c (add_ev (EvBegin TDirty (Some q) l) s1) Hc).
      simpl in Ht. unfold bit in Ht. rewrite He in Ht. simpl in Ht. rewrite Hd in Ht. specialize (Ht eq_refl).
      simpl. lia. }
  clear stop Ho. intros o s2 (Ho & Hs2 & Hc). unfold kont. destruct o as [[]|r|]; [by apply post_ret|..|done|done].
  apply post_bind. eapply post_mono; [by apply IH, Hc|]. intros o s3 [Ho3 Hs3]. unfold kont. destruct o; [|by split; [|eapply only_raises_trans]|done].
  apply post_emit. split; [done|]. eapply only_raises_trans; [|apply only_raises_ev]. by eapply only_raises_trans.
Qed.

Lemma dirty_observers_any l s : post (dirty_observers l) s (λ o s', o ≠ OFuel ∧ only_raises s s').
Proof. apply dirty_obs_any. unfold dirty_fuel, total_clean. lia. Qed.

Lemma dirty_alloc_any l s : post (dirty_alloc l) s (λ o s', o ≠ OFuel ∧ only_raises s s').
Proof.
  apply post_bind. eapply post_mono; [apply dirty_observers_any|]. intros o s1 [Ho Hs1]. unfold kont.
  destruct o as [[]| |]; [|done|done].
  apply post_bind, post_lookup_abs; [|done]. intros nd Hnd.
  apply post_bind, post_of_opt; [|done]. intros ps Hps. unfold kont.
  eapply post_mono.
  { apply (post_mfor only_raises); [apply only_raises_refl|by eapply only_raises_trans|].
    intros q s2 _ _. unfold dirty_alloc_step. assert (only_raises s2 s2) as Hrefl by apply only_raises_refl.
    apply post_bind, post_get_dirty; [|done]. intros c e Hc He. simpl.
    destruct (s_dirty e) eqn:Hd; [by apply post_ret|].
    apply post_bind, post_set_dirty; [|done]. intros c' e' Hc' He'.
    assert (only_raises s2 (upd_bit true q Allocate l c' s2)) as Hu by by apply only_raises_upd.
    apply post_bind, post_assert; [|done]. intros _.
    apply post_bind, post_emit. apply post_bind. eapply post_mono; [apply dirty_observers_any|].
    intros o s3 [Ho3 Hs3]. set (s2' := add_ev _ _) in Hs3.
    assert (only_raises s2 s2') as Hu' by (eapply only_raises_trans; [done|apply only_raises_ev]).
    unfold kont. destruct o; [|by split; [|eapply only_raises_trans]|done].
    apply post_emit. split; [done|]. eapply only_raises_trans; [|apply only_raises_ev]. by eapply only_raises_trans. }
  intros o s2 [? ?]. split; [done|]. by eapply only_raises_trans.
Qed.
End Uncond.
