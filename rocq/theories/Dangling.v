(** * C69: arts never dangle, nothing is ever forgotten.

    engine.rs:785-790 panics with "dangling pointer" if a location is not in the table.  Rust code cannot make up an
    art: the constructors of [AbsArt::Loc] (engine.rs:1412-1415) and the fields of [Loc] (312-316) are private, so
    every art comes from [cell] (2360), [thunk] (2427) or out of a value that holds one.  [scoped K c] says just that of
    a client program in the model, where locations are ordinary data: [K] is the set of locations it may know. *)
From Verif Require Import Uncond EngineProps.

(** ** Specification *)
(** All locations inside of [v] satisfy [K]. *)
Fixpoint knows (K : loc → Prop) (v : val) : Prop :=
  match v with
  | VPair a b => knows K a ∧ knows K b
  | VInl a | VInr a | VRc a => knows K a
  | VLoc l => K l
  | _ => True
  end.
Definition knows_art (K : loc → Prop) (a : art) : Prop := match a with ARc v => knows K v | ALoc l => K l end.
(** What can be known later: anything that contains what is known now. *)
Definition more (K K' : loc → Prop) : Prop := ∀ l, K l → K' l.
(** A pure function of the client: from known locations to known locations. *)
Definition honest (K : loc → Prop) (f : val → val) : Prop := ∀ K' v, more K K' → knows K' v → knows K' (f v).
Inductive scoped : (loc → Prop) → comp → Prop :=
  | sc_ret K v : knows K v → scoped K (Ret v)
  | sc_fail K : scoped K Fail
  | sc_force K t a cyc k : knows_art K a → (∀ v, cyc = Some v → knows K v) →
      (∀ K' v, more K K' → knows K' v → scoped K' (k v)) → scoped K (Force t a cyc k)
  | sc_map K t a f k : knows_art K a → honest K f → (∀ K' v, more K K' → knows K' v → scoped K' (k v)) → scoped K (ForceMap t a f k)
  | sc_abs K t a f k : knows_art K a → honest K f → (∀ K' v, more K K' → knows K' v → scoped K' (k v)) → scoped K (ForceAbs t a f k)
  | sc_cell K t n v k : knows K v → (∀ (K' : loc → Prop) l, more K K' → K' l → scoped K' (k l)) → scoped K (Cell t n v k)
  | sc_thunk K t nc pp arg spur k : knows K arg → knows K spur →
      (∀ (K' : loc → Prop) l, more K K' → K' l → scoped K' (k l)) → scoped K (Thunk t nc pp arg spur k)
  | sc_set K t a v k : knows_art K a → knows K v → (∀ K', more K K' → scoped K' k) → scoped K (SetC t a v k)
  | sc_ns K n b k : scoped K b → (∀ K' v, more K K' → knows K' v → scoped K' (k v)) → scoped K (Ns n b k)
  | sc_structural K b k : scoped K b → (∀ K' v, more K K' → knows K' v → scoped K' (k v)) → scoped K (Structural b k).
(** The code of all thunks only uses the arts it is given. *)
Definition scoped_code `{Prog} : Prop := ∀ K pp arg spur, knows K arg → knows K spur → scoped K (code pp arg spur).

(** The locations that are in the table. *)
Definition live (s : dcg) : loc → Prop := λ l, is_Some (table s !! l).

(** Histories: any number of client programs, each of which may know any art that was handed out so far, and each of
    which may end in any way: normally, by a panic (that the client catches), or not at all (cut off). *)
Inductive history `{Prog} : dcg → Prop :=
  | h_start sf po : history (dcg_new_flags sf po)
  | h_step s k c o s' : history s → scoped (live s) c → exec k c s = (o, s') → history s'.

Section Dangling.
Context `{Prog}.

Lemma more_refl K : more K K. Proof. by intros l. Qed.
Lemma more_trans K1 K2 K3 : more K1 K2 → more K2 K3 → more K1 K3. Proof. unfold more. auto. Qed.
Lemma knows_mono K K' v : more K K' → knows K v → knows K' v.
Proof. intros HK. induction v; simpl; try tauto. apply HK. Qed.
Lemma knows_art_mono K K' a : more K K' → knows_art K a → knows_art K' a.
Proof. intros HK. destruct a; simpl; [by apply knows_mono|apply HK]. Qed.
Lemma honest_mono K K' f : more K K' → honest K f → honest K' f.
Proof. intros HK Hf K2 v H2. apply Hf. by eapply more_trans. Qed.
Lemma scoped_mono K K' c : more K K' → scoped K c → scoped K' c.
Proof.
  intros HK Hc. revert K' HK. induction Hc; intros K2 HK; constructor;
    eauto using knows_mono, knows_art_mono, honest_mono, more_trans.
Qed.

(** ** The invariant *)
Definition node_in (K : loc → Prop) (nd : node) : Prop :=
  match nd with
  | NMut _ ps v => knows K v ∧ Forall (λ p, K (p_loc p)) ps
  | NPure _ v => knows K v
  | NComp c => knows K (c_arg c) ∧ knows K (c_spur c) ∧ (∀ r, c_res c = Some r → knows K r) ∧
      Forall (λ p, K (p_loc p)) (c_preds c) ∧ Forall (λ e, K (s_loc e)) (c_succs c)
  end.
Definition frame_in (K : loc → Prop) (f : frame) : Prop := Forall (λ e, K (s_loc e.1)) (f_succs f).
Record W (s : dcg) : Prop := {
  w_nodes : ∀ l nd, table s !! l = Some nd → node_in (live s) nd;
  w_stack : Forall (frame_in (live s)) (stack s);
}.
Definition ext (s s' : dcg) : Prop := more (live s) (live s').

Lemma Forall_mono_K {A} (g : A → loc) (K K' : loc → Prop) xs : more K K' → Forall (λ x, K (g x)) xs → Forall (λ x, K' (g x)) xs.
Proof. intros HK Hx. eapply Forall_impl; [exact Hx|]. intros x. apply HK. Qed.
Lemma node_in_mono K K' nd : more K K' → node_in K nd → node_in K' nd.
Proof.
  intros HK. destruct nd as [t ps v|t v|c]; simpl.
  - intros [Hv Hp]. split; [by eapply knows_mono|by eapply Forall_mono_K].
  - by apply knows_mono.
  - intros (H1 & H2 & H3 & H4 & H5). split_and!; [by eapply knows_mono..| |by eapply (Forall_mono_K p_loc)|by eapply (Forall_mono_K s_loc)].
    intros r Hr. eapply knows_mono; [exact HK|by apply H3].
Qed.
Lemma frame_in_mono K K' f : more K K' → frame_in K f → frame_in K' f.
Proof. intros HK. apply (Forall_mono_K (λ e : succ * option dep, s_loc e.1)). exact HK. Qed.
Lemma stack_in_mono K K' fs : more K K' → Forall (frame_in K) fs → Forall (frame_in K') fs.
Proof. intros HK Hf. eapply Forall_impl; [exact Hf|]. intros f. by apply frame_in_mono. Qed.

(** [safe m s Q]: from a good state [s], [m] leads to a good state, forgets nothing, does not find a dangling location,
    and its result satisfies [Q]. *)
Definition safe {A} (m : M A) (s : dcg) (Q : A → dcg → Prop) : Prop :=
  W s → W (m s).2 ∧ ext s (m s).2 ∧ match (m s).1 with OVal a => Q a (m s).2 | OPanic r => r ≠ PDangling | OFuel => True end.
Definition any {A} : A → dcg → Prop := λ _ _, True.

Lemma safe_W {A} (m : M A) s Q : (W s → safe m s Q) → safe m s Q.
Proof. intros Hm Hs. by apply Hm. Qed.
Lemma safe_ret {A} (a : A) s (Q : A → dcg → Prop) : Q a s → safe (ret a) s Q.
Proof. intros HQ Hs. split; [done|]. split; [apply more_refl|done]. Qed.
Lemma safe_panic {A} r s (Q : A → dcg → Prop) : r ≠ PDangling → safe (panic r) s Q.
Proof. intros Hr Hs. split; [done|]. split; [apply more_refl|done]. Qed.
Lemma safe_nofuel {A} s (Q : A → dcg → Prop) : safe nofuel s Q.
Proof. intros Hs. split; [done|]. split; [apply more_refl|done]. Qed.
Lemma safe_bind {A B} (m : M A) (f : A → M B) s (Q : A → dcg → Prop) (Q' : B → dcg → Prop) :
  safe m s Q → (∀ a s', ext s s' → Q a s' → safe (f a) s' Q') → safe (bind m f) s Q'.
Proof.
  intros Hm Hf Hs. destruct (Hm Hs) as (H1 & H2 & H3). unfold bind. destruct (m s) as [[a|r|] s1]; simpl in *; [|by split..].
  destruct (Hf a s1 H2 H3 H1) as (H4 & H5 & H6). split; [done|]. split; [by eapply more_trans|done].
Qed.
Lemma safe_mono {A} (m : M A) s (Q Q' : A → dcg → Prop) : safe m s Q → (∀ a s', ext s s' → Q a s' → Q' a s') → safe m s Q'.
Proof.
  intros Hm HQ Hs. destruct (Hm Hs) as (H1 & H2 & H3). split; [done|]. split; [done|]. destruct (m s) as [[a|r|] s1]; simpl in *; auto.
Qed.
Lemma safe_any {A} (m : M A) s Q : safe m s Q → safe m s any.
Proof. intros Hm. by eapply safe_mono. Qed.
Lemma safe_get s : safe get s (λ a s', a = s ∧ s' = s).
Proof. intros Hs. split; [done|]. split; [apply more_refl|done]. Qed.
Lemma safe_modify f s : table (f s) = table s → (Forall (frame_in (live s)) (stack s) → Forall (frame_in (live s)) (stack (f s))) → safe (modify f) s (λ _ s', s' = f s).
Proof.
  intros E Hst [Hn Hs]. assert (EL : live (f s) = live s) by (unfold live; by rewrite E). simpl. split.
  - split; [|rewrite EL; auto]. rewrite EL, E. exact Hn.
  - split; [|done]. unfold ext. rewrite EL. apply more_refl.
Qed.
Lemma safe_emit e s : safe (emit e) s any.
Proof. eapply safe_any. by apply safe_modify. Qed.
Lemma safe_assert b r s : r ≠ PDangling → safe (assert b r) s (λ _ s', s' = s).
Proof. intros Hr. destruct b; [by apply safe_ret|by apply safe_panic]. Qed.
Lemma safe_of_opt {A} r (o : option A) s : r ≠ PDangling → safe (of_opt r o) s (λ a s', o = Some a ∧ s' = s).
Proof. intros Hr. destruct o; [by apply safe_ret|by apply safe_panic]. Qed.
Lemma safe_lookup l s : live s l → safe (lookup_abs l) s (λ nd s', s' = s ∧ table s !! l = Some nd ∧ node_in (live s) nd).
Proof.
  intros [nd Hl] Hs. unfold lookup_abs, bind, get. rewrite Hl. split; [done|]. split; [apply more_refl|]. simpl.
  split; [done|]. split; [done|]. by eapply w_nodes.
Qed.
Lemma safe_res t l s : live s l → safe (res_node t l) s (λ nd s', s' = s ∧ table s !! l = Some nd ∧ node_in (live s) nd).
Proof.
  intros Hl. eapply safe_bind; [by apply safe_lookup|]. intros nd s' _ (-> & E & Hn). eapply safe_bind; [by apply safe_assert|].
  intros ? s' _ ->. by apply safe_ret.
Qed.
Lemma live_put l nd s : more (live s) (live (set_table (<[l := nd]> (table s)) s)).
Proof. intros x [y Hx]. unfold live. simpl. destruct (decide (x = l)) as [->|]; [by rewrite lookup_insert; eauto|rewrite lookup_insert_ne by done; eauto]. Qed.
Lemma safe_put l nd s : node_in (live s) nd → safe (put_node l nd) s (λ _ s', live s' l).
Proof.
  intros Hn [Hns Hst]. assert (HL := live_put l nd s). simpl. split.
  - split; simpl.
    + intros x nd'. destruct (decide (x = l)) as [->|].
      * rewrite lookup_insert. intros [= <-]. by eapply node_in_mono.
      * rewrite lookup_insert_ne by done. intros Hx. eapply node_in_mono; [exact HL|]. by eapply Hns.
    + by eapply stack_in_mono.
  - split; [exact HL|]. unfold live. simpl. rewrite lookup_insert. eauto.
Qed.
Lemma safe_if {A} (b : bool) (m m' : M A) s Q : safe m s Q → safe m' s Q → safe (if b then m else m') s Q.
Proof. by destruct b. Qed.
Lemma safe_mfor {A} (g : A → loc) (xs : list A) f s :
  (∀ x s', ext s s' → live s' (g x) → safe (f x) s' any) → Forall (λ x, live s (g x)) xs → safe (mfor xs f) s any.
Proof.
  intros Hf Hx. revert s Hf Hx. induction xs as [|x xs IH]; intros s Hf Hx; simpl; [by apply safe_ret|].
  apply Forall_cons in Hx as [Hx Hxs]. eapply safe_bind; [apply Hf; [apply more_refl|done]|]. intros ? s' He _. apply IH.
  - intros x' s'' He'. apply Hf. by eapply more_trans.
  - by eapply Forall_mono_K.
Qed.
Ltac sb := eapply safe_bind; [|intros ? ? ? ?].

Lemma safe_get_dirty src eff tgt s : live s src → safe (get_dirty src eff tgt) s (λ _ s', s' = s).
Proof.
  intros Hl. eapply safe_bind; [by apply safe_lookup|]. intros [| |c] s' _ (-> & _ & _); [by apply safe_panic..|].
  destruct (find_succ _ _ _); [by apply safe_ret|by apply safe_panic].
Qed.
Lemma mark_succ_in K b eff tgt es : Forall (λ e, K (s_loc e)) es → Forall (λ e, K (s_loc e)) (mark_succ b eff tgt es).
Proof. induction 1; simpl; [done|]. destruct (decide _); constructor; auto. Qed.
Lemma safe_set_dirty b src eff tgt s : live s src → safe (set_dirty b src eff tgt) s any.
Proof.
  intros Hl. eapply safe_bind; [by apply safe_lookup|]. intros [| |c] s' _ (-> & _ & Hn); [by apply safe_panic..|].
  destruct (find_succ _ _ _); [|by apply safe_panic]. eapply safe_any, safe_put. destruct Hn as (H1 & H2 & H3 & H4 & H5).
  split_and!; try done. by apply mark_succ_in.
Qed.
Lemma safe_check_map t f w l s : live s l → safe (check_force_map_dep t f w l) s (λ _ s', s' = s).
Proof.
  intros Hl. eapply safe_bind; [by apply safe_res|]. intros [| |] s' _ (-> & _ & _); [by apply safe_ret|by apply safe_panic..].
Qed.
Lemma safe_dep_dirty d l s : live s l → safe (dep_dirty d l) s (λ _ s', s' = s).
Proof. intros Hl. destruct d; simpl; try (by apply safe_ret); [by apply safe_check_map|by apply safe_panic]. Qed.

Lemma preds_obs_in K nd ps : node_in K nd → preds_obs nd = Some ps → Forall (λ p, K p.1) ps.
Proof.
  intros Hn E. destruct nd as [t qs v|t v|c]; simpl in E; [|done|]; injection E as <-; apply Forall_forall;
    intros [p d] (q & Hq & Eq)%elem_of_list_omap; destruct (decide _); [|done| |done]; injection Eq as <- <-; simpl.
  - destruct Hn as [_ Hp]. by apply (proj1 (Forall_forall _ _) Hp).
  - destruct Hn as (_ & _ & _ & Hp & _). by apply (proj1 (Forall_forall _ _) Hp).
Qed.
Lemma preds_alloc_in K nd ps : node_in K nd → preds_alloc nd = Some ps → Forall K ps.
Proof.
  intros Hn E. destruct nd as [t qs v|t v|c]; simpl in E; [|done|]; injection E as <-; apply Forall_forall;
    intros p (q & Hq & Eq)%elem_of_list_omap; destruct (decide _); [|done| |done]; injection Eq as <-; simpl.
  - destruct Hn as [_ Hp]. by apply (proj1 (Forall_forall _ _) Hp).
  - destruct Hn as (_ & _ & _ & Hp & _). by apply (proj1 (Forall_forall _ _) Hp).
Qed.
Lemma safe_dirty_obs n l s : live s l → safe (dirty_obs n l) s any.
Proof.
  revert l s. induction n as [|n IH]; intros l s Hl; simpl; [apply safe_nofuel|].
  eapply safe_bind; [by apply safe_lookup|]. intros nd s' _ (-> & _ & Hn).
  eapply safe_bind; [by apply safe_of_opt|]. intros ps s' _ (Ep & ->). apply (preds_obs_in _ _ _ Hn) in Ep.
  apply (safe_mfor fst); [|done]. intros [p d] s1 He Hp. simpl in Hp.
  assert (Hl1 : live s1 l) by (by apply He). unfold dirty_step.
  eapply (safe_bind _ _ _ (λ _ s', s' = s1)).
  - simpl. destruct d as [d|]; [|by apply safe_ret]. destruct (is_absmap d); [by apply safe_ret|].
    eapply safe_bind; [by apply safe_dep_dirty|]. intros b s' _ ->. by apply safe_ret.
  - intros b s' _ ->. eapply (safe_bind _ _ _ any).
    + destruct b; [by apply safe_ret|]. eapply safe_bind; [by apply safe_get_dirty|]. intros b s' _ ->.
      destruct b; [by apply safe_ret|]. eapply safe_bind; [by apply safe_assert|]. intros ? s' _ ->.
      eapply safe_bind; [apply safe_emit|]. intros ? s2 He2 _. eapply safe_bind; [apply safe_set_dirty; by apply He2|].
      intros ? s3 _ _. by apply safe_ret.
    + intros b' s2 He2 _. destruct b'; [by apply safe_ret|]. eapply safe_bind; [apply IH; by apply He2|]. intros ? s3 _ _. apply safe_emit.
Qed.
Lemma safe_dirty_observers l s : live s l → safe (dirty_observers l) s any.
Proof. intros Hl. apply (safe_dirty_obs (dirty_fuel s) l s Hl). Qed.
Lemma safe_dirty_alloc l s : live s l → safe (dirty_alloc l) s any.
Proof.
  intros Hl. eapply safe_bind; [by apply safe_dirty_observers|]. intros ? s1 He _.
  eapply safe_bind; [apply safe_lookup; by apply He|]. intros nd s' _ (-> & _ & Hn).
  eapply safe_bind; [by apply safe_of_opt|]. intros ps s' _ (Ep & ->). apply (preds_alloc_in _ _ _ Hn) in Ep.
  apply (safe_mfor id); [|done]. intros p s2 He2 Hp. unfold dirty_alloc_step.
  eapply safe_bind; [by apply safe_get_dirty|]. intros b s' _ ->. destruct b; [by apply safe_ret|].
  eapply safe_bind; [by apply safe_set_dirty|]. intros ? s3 He3 _. eapply safe_bind; [by apply safe_assert|]. intros ? s' _ ->.
  eapply safe_bind; [apply safe_emit|]. intros ? s4 He4 _. eapply safe_bind; [apply safe_dirty_observers; by apply He4, He3|].
  intros ? s5 _ _. apply safe_emit.
Qed.
Lemma filter_in {A} (P Q : A → Prop) `{∀ x, Decision (Q x)} xs : Forall P xs → Forall P (filter Q xs).
Proof. intros HF. apply Forall_forall. intros x [_ Hx]%elem_of_list_filter. by apply (proj1 (Forall_forall _ _) HF). Qed.
Lemma remove_in K q nd nd' : node_in K nd → preds_remove q nd = Some nd' → node_in K nd'.
Proof.
  intros Hn E. destruct nd as [t ps v|t v|c]; simpl in E; [|done|]; injection E as <-.
  - destruct Hn as [Hv Hp]. split; [done|]. by apply filter_in.
  - destruct Hn as (H1 & H2 & H3 & H4 & H5). split_and!; try done. simpl. by apply filter_in.
Qed.
Lemma insert_in (K : loc → Prop) p nd nd' : K (p_loc p) → node_in K nd → preds_insert p nd = Some nd' → node_in K nd'.
Proof.
  intros Hp Hn E. destruct nd as [t ps v|t v|c]; simpl in E; [|done|]; injection E as <-.
  - destruct Hn as [Hv Hps]. split; [done|]. apply Forall_app. split; [done|]. by constructor.
  - destruct Hn as (H1 & H2 & H3 & H4 & H5). split_and!; try done. simpl. apply Forall_app. split; [done|]. by constructor.
Qed.
Lemma safe_revoke l es s : Forall (λ e, live s (s_loc e)) es → safe (revoke_succs l es) s any.
Proof.
  intros Hes. apply (safe_mfor s_loc); [|done]. intros e s1 He Hl. eapply safe_bind; [apply safe_emit|]. intros ? s2 He2 _.
  eapply safe_bind; [apply safe_lookup; by apply He2|]. intros nd s' _ (-> & _ & Hn).
  eapply safe_bind; [by apply safe_of_opt|]. intros nd' s' _ (E & ->). eapply safe_any, safe_put. by eapply remove_in.
Qed.
Lemma safe_push e pd s : live s (s_loc e) → safe (push_edge e pd) s (λ _ s', True).
Proof.
  intros Hl. eapply safe_any. apply safe_modify.
  - by destruct (stack s).
  - destruct (stack s) as [|f fs] eqn:E; [by rewrite E|]. simpl. intros [Hf Hfs]%Forall_cons. constructor; [|done].
    unfold frame_in in *. simpl. apply Forall_app. split; [done|]. by constructor.
Qed.
Lemma safe_eq {A} (m m' : M A) s Q : m s = m' s → safe m' s Q → safe m s Q.
Proof. unfold safe. by intros ->. Qed.
Lemma safe_push_put e pd l nd s : s_loc e = l → node_in (live s) nd →
  safe (push_edge e pd ;! (put_node l nd ;! ret l)) s (λ a s', live s' a).
Proof.
  intros <- Hn. apply (safe_eq _ (put_node (s_loc e) nd ;! (push_edge e pd ;! ret (s_loc e)))).
  { unfold bind, push_edge, put_node, modify, ret. simpl. by destruct (stack s). }
  eapply safe_bind; [by apply safe_put|]. intros ? s1 He1 Hl1. eapply safe_bind; [by apply safe_push|]. intros ? s2 He2 _.
  apply safe_ret. by apply He2.
Qed.
Lemma safe_set_val t l v s : live s l → knows (live s) v → safe (set_val t l v) s any.
Proof.
  intros Hl Hv. eapply safe_bind; [by apply safe_res|]. intros [t' ps v0| |] s' _ (-> & _ & Hn); [|by apply safe_panic..].
  destruct (decide _); [by apply safe_ret|]. eapply safe_bind; [apply safe_put; split; [done|apply Hn]|].
  intros ? s1 He Hl1. by apply safe_dirty_alloc.
Qed.
Lemma safe_check_cell t l v s : live s l → safe (check_cell_change t l v) s (λ _ s', s' = s).
Proof. intros Hl. eapply safe_bind; [by apply safe_res|]. intros [| |] s' _ (-> & _ & _); by apply safe_ret. Qed.

Lemma safe_cell t n v s : knows (live s) v → safe (cell_op t n v) s (λ l s', live s' l).
Proof.
  intros Hv. unfold cell_op. eapply safe_bind; [apply safe_get|]. intros ? s' _ (-> & ->). cbv zeta.
  set (l := Loc _ _). set (pu := structf s && purity s).
  eapply (safe_bind _ _ _ (λ a s', s' = s ∧ (a.2 = false ∨ a.1.1.1 = true ∨ a.1.1.2 = true → live s l) ∧
            ∀ es, a.1.2 = Some es → Forall (λ e, live s (s_loc e)) es)).
  { destruct (table s !! l) as [nd|] eqn:E; [|apply safe_ret; simpl; by intuition].
    assert (Hl : live s l) by (unfold live; rewrite E; eauto).
    eapply safe_bind; [by apply safe_res|]. intros [| |c] s' _ (-> & _ & Hn); apply safe_ret; simpl; (split; [done|]); (split; [done|]); try done.
    intros es [= <-]. apply Hn. }
  intros [[[dd ds] es] fr] s' _ (-> & Hfr & Hes). simpl in *.
  eapply (safe_bind _ _ _ (λ _ s', s' = s)).
  { destruct fr; [by apply safe_ret|]. eapply safe_bind; [apply safe_check_cell; by apply Hfr; left|]. intros b s' _ ->. by apply safe_ret. }
  intros ac s' _ ->. eapply safe_bind; [apply safe_emit|]. intros ? s1 He1 _.
  eapply (safe_bind _ _ _ any).
  { destruct ds; [|by apply safe_ret]. apply safe_set_val; [apply He1, Hfr; tauto|by eapply knows_mono]. }
  intros ? s2 He2 _. eapply (safe_bind _ _ _ any).
  { destruct dd; [|by apply safe_ret]. apply safe_dirty_alloc. apply He2, He1, Hfr. tauto. }
  intros ? s3 He3 _. eapply (safe_bind _ _ _ any).
  { destruct es as [es|]; [|by apply safe_ret]. apply safe_revoke. apply (Forall_mono_K s_loc (live s)); [|by apply Hes].
    intros x Hx. by apply He3, He2, He1. }
  intros ? s4 He4 _. eapply safe_bind; [apply safe_emit|]. intros ? s5 He5 _.
  assert (He : ext s s5) by (intros x Hx; by apply He5, He4, He3, He2, He1).
  eapply (safe_bind _ _ _ (λ _ s', live s' l)).
  { destruct fr; [|apply safe_ret; apply He, Hfr; by left]. apply safe_put.
    destruct pu; simpl; [by eapply knows_mono|]. split; [by eapply knows_mono|done]. }
  intros ? s6 He6 Hl6. eapply (safe_bind _ _ _ any).
  { destruct pu; [by apply safe_ret|]. by apply safe_push. }
  intros ? s7 He7 _. apply safe_ret. by apply He7.
Qed.
Lemma safe_set t a v s : knows_art (live s) a → knows (live s) v → safe (set_op t a v) s any.
Proof.
  intros Ha Hv. destruct a as [w|l]; simpl; [by apply safe_panic|]. eapply safe_bind; [apply safe_get|]. intros ? s' _ (-> & ->).
  destruct (stack s); [by apply safe_set_val|by apply safe_panic].
Qed.
Lemma safe_thunk t nc pp arg spur s : knows (live s) arg → knows (live s) spur → safe (thunk_op t nc pp arg spur) s (λ l s', live s' l).
Proof.
  intros Ha Hsp. unfold thunk_op. eapply safe_bind; [apply safe_get|]. intros ? s' _ (-> & ->). cbv zeta.
  destruct (match nc with NCNominal _ => _ | _ => nc end) as [| | |n]; [by apply safe_panic..| |].
  - set (l := Loc _ _). destruct (table s !! l) eqn:E; [apply safe_ret; unfold live; rewrite E; eauto|].
    apply safe_push_put; [done|]. by simpl.
  - set (l := Loc _ _). eapply (safe_bind _ _ _ (λ a s', ext s s' ∧ (a.1.2 = false ∨ a.1.1 = true → live s' l))).
    { destruct (table s !! l) as [nd|] eqn:E; [|apply safe_ret; simpl; split; [apply more_refl|by intuition]].
      assert (Hl : live s l) by (unfold live; rewrite E; eauto). apply safe_W. intros HW.
      eapply safe_bind; [by apply safe_assert|]. intros ? s' _ ->. assert (Hn := w_nodes _ HW _ _ E).
      destruct nd as [| |c]; [apply safe_ret; by split; [apply more_refl|]|by apply safe_panic|].
      destruct (decide _); [|by apply safe_panic]. destruct (decide _); [apply safe_ret; by split; [apply more_refl|]|].
      eapply safe_bind; [apply (safe_put l); simpl; destruct Hn as (H1 & H2 & H3 & H4 & H5); by split_and!|].
      intros ? s1 He1 Hl1. apply safe_ret. by split. }
    intros [[dd di] fr] s1 He1 (_ & Hl). simpl in *. eapply safe_bind; [apply safe_emit|]. intros ? s2 He2 _.
    eapply (safe_bind _ _ _ any).
    { destruct dd; [|by apply safe_ret]. apply safe_dirty_alloc. apply He2, Hl. tauto. }
    intros ? s3 He3 _. eapply safe_bind; [apply safe_emit|]. intros ? s4 He4 _.
    assert (He : ext s s4) by (intros x Hx; by apply He4, He3, He2, He1). destruct di.
    + apply safe_push_put; [done|]. simpl. split_and!; [by eapply knows_mono..|done|done|done].
    + assert (Hl4 : live s4 l) by (apply He4, He3, He2, Hl; tauto). eapply safe_bind; [by apply safe_push|]. intros ? s5 He5 _.
      eapply (safe_bind _ _ _ any); [by apply safe_ret|]. intros ? s6 He6 _. apply safe_ret. by apply He6, He5.
Qed.

Definition res {A} (g : A → val) : A → dcg → Prop := λ a s', knows (live s') (g a).
Lemma safe_force_finish l dup pure t r s : live s l → knows (live s) r → safe (force_finish l dup pure t r) s (res id).
Proof.
  intros Hl Hr. eapply (safe_bind _ _ _ any).
  - destruct (dup || pure); [by apply safe_ret|by apply safe_push].
  - intros ? s1 He _. apply safe_ret. by eapply knows_mono.
Qed.
Definition prod_ok (prod : ty → loc → M val) : Prop := ∀ t l s, live s l → safe (prod t l) s (res id).
Definition cln_ok (cln : ty → val → loc → M bool) : Prop := ∀ t w l s, live s l → safe (cln t w l) s any.
Definition frc_ok (frc : ty → loc → option val → M val) : Prop :=
  ∀ t l cyc s, live s l → (∀ v, cyc = Some v → knows (live s) v) → safe (frc t l cyc) s (res id).
Lemma safe_force_loc prod cln : prod_ok prod → cln_ok cln → frc_ok (force_loc prod cln).
Proof.
  intros HP HC t l cyc s Hl Hcyc. unfold force_loc. eapply safe_bind; [apply safe_get|]. intros ? s' _ (-> & ->). cbv zeta.
  eapply safe_bind; [by apply safe_res|]. intros nd s' _ (-> & _ & Hn).
  assert (Hcell : ∀ v b, knows (live s) v → safe (emit (EvEff (TForce RefGet) (cur_loc s) l) ;! force_finish l (is_dup s l) b t v) s (res id)).
  { intros v b Hv. eapply safe_bind; [apply safe_emit|]. intros ? s1 He _. apply safe_force_finish; [by apply He|by eapply knows_mono]. }
  destruct nd as [t' ps v|t' v|c]; [apply Hcell, Hn|by apply Hcell|]. destruct (is_cycle s l).
  { destruct cyc as [o|]; [|by apply safe_panic]. eapply safe_bind; [apply safe_emit|]. intros ? s1 He1 _. eapply safe_bind; [apply safe_emit|].
    intros ? s2 He2 _. apply safe_force_finish; [by apply He2, He1|]. eapply knows_mono; [exact (more_trans _ _ _ He1 He2)|]. by apply Hcyc. }
  destruct (c_res c) as [r0|].
  - eapply safe_bind; [apply safe_emit|]. intros ? s1 He1 _. eapply safe_bind; [apply HC; by apply He1|]. intros ? s2 He2 _.
    eapply safe_bind; [apply safe_emit|]. intros ? s3 He3 _. assert (Hl3 : live s3 l) by (by apply He3, He2, He1).
    eapply safe_bind; [by apply safe_res|]. intros [| |c'] s' _ (-> & _ & Hn'); [by apply safe_panic..|].
    destruct (c_res c') as [r|] eqn:Er; [|by apply safe_panic]. apply safe_force_finish; [done|]. by apply Hn'.
  - eapply safe_bind; [apply safe_emit|]. intros ? s1 He1 _. eapply safe_bind; [by apply safe_assert|]. intros ? s' _ ->.
    eapply safe_bind; [apply HP; by apply He1|]. intros r s2 He2 Hr. eapply safe_bind; [apply safe_emit|]. intros ? s3 He3 _.
    apply safe_force_finish; [by apply He3, He2, He1|by eapply knows_mono].
Qed.
Lemma safe_force_art frc t a cyc s : frc_ok frc → knows_art (live s) a → (∀ v, cyc = Some v → knows (live s) v) →
  safe (force_art frc t a cyc) s (res id).
Proof. intros HF Ha Hc. destruct a as [v|l]; simpl; [by apply safe_ret|by apply HF]. Qed.
Lemma safe_force_map frc t a f s : frc_ok frc → knows_art (live s) a → honest (live s) f → safe (force_map_art frc t a f) s (res id).
Proof.
  intros HF Ha Hf. destruct a as [v|l]; simpl; [apply safe_ret; by apply Hf; [apply more_refl|]|].
  eapply safe_bind; [by apply safe_res|]. intros nd s' _ (-> & _ & Hn).
  assert (Hother : safe (let! v := frc t l None in ret (f v)) s (res id)).
  { eapply safe_bind; [by apply HF|]. intros v s1 He Hv. apply safe_ret. by apply Hf. }
  destruct nd as [t' ps v| |]; [|exact Hother..]. eapply safe_bind; [apply safe_get|]. intros ? s' _ (-> & ->).
  eapply safe_bind; [apply safe_emit|]. intros ? s1 He1 _. eapply safe_bind; [apply safe_push; by apply He1|]. intros ? s2 He2 _.
  apply safe_ret. apply Hf; [exact (more_trans _ _ _ He1 He2)|]. eapply knows_mono; [exact (more_trans _ _ _ He1 He2)|]. apply Hn.
Qed.
Lemma safe_force_abs frc t a f s : frc_ok frc → knows_art (live s) a → honest (live s) f → safe (force_abs_art frc t a f) s (res id).
Proof.
  intros HF Ha Hf. destruct a as [v|l]; simpl; [apply safe_ret; by apply Hf; [apply more_refl|]|].
  eapply safe_bind; [by apply safe_res|]. intros nd s' _ (-> & _ & Hn).
  assert (Hother : safe (let! v := frc t l None in ret (f v)) s (res id)).
  { eapply safe_bind; [by apply HF|]. intros v s1 He Hv. apply safe_ret. by apply Hf. }
  destruct nd as [t' ps v| |]; [|exact Hother..]. eapply safe_bind; [apply safe_get|]. intros ? s' _ (-> & ->).
  eapply safe_bind; [apply safe_emit|]. intros ? s1 He1 _. eapply safe_bind; [apply safe_push; by apply He1|]. intros ? s2 He2 _.
  apply safe_ret. apply Hf; [exact (more_trans _ _ _ He1 He2)|]. eapply knows_mono; [exact (more_trans _ _ _ He1 He2)|]. apply Hn.
Qed.
Lemma safe_ctx f s : table (f s) = table s → stack (f s) = stack s → safe (modify f) s any.
Proof. intros E1 E2. eapply safe_any, safe_modify; [done|]. by rewrite E2. Qed.
Lemma safe_run frc c s : frc_ok frc → scoped (live s) c → safe (run frc c) s (res id).
Proof.
  intros HF. revert s. induction c as [v0| |t a cyc k IH|t a f0 k IH|t a f0 k IH|t nm v0 k IH|t nc pp arg spur k IH|t a v0 k IH|nm b IHb k IH|b IHb k IH];
    intros s Hc; inversion Hc; subst; simpl.
  - by apply safe_ret.
  - by apply safe_panic.
  - eapply safe_bind; [by apply safe_force_art|]. intros v s1 He Hv. apply IH. auto.
  - eapply safe_bind; [by apply safe_force_map|]. intros v s1 He Hv. apply IH. auto.
  - eapply safe_bind; [by apply safe_force_abs|]. intros v s1 He Hv. apply IH. auto.
  - eapply safe_bind; [by apply safe_cell|]. intros v s1 He Hv. apply IH. auto.
  - eapply safe_bind; [by apply safe_thunk|]. intros v s1 He Hv. apply IH. auto.
  - eapply safe_bind; [by apply safe_set|]. intros v s1 He Hv. apply IH. auto.
  - eapply safe_bind; [apply safe_get|]. intros ? s' _ (-> & ->). eapply safe_bind; [by apply safe_ctx|]. intros ? s1 He1 _.
    eapply safe_bind; [apply IHb; by eapply scoped_mono|]. intros v s2 He2 Hv. eapply safe_bind; [by apply safe_ctx|]. intros ? s3 He3 _.
    apply IH. match goal with HK : ∀ K v, _ |- _ => apply HK end; [intros x Hx; by apply He3, He2, He1|by eapply knows_mono].
  - eapply safe_bind; [apply safe_get|]. intros ? s' _ (-> & ->). eapply safe_bind; [by apply safe_ctx|]. intros ? s1 He1 _.
    eapply safe_bind; [apply IHb; by eapply scoped_mono|]. intros v s2 He2 Hv. eapply safe_bind; [by apply safe_ctx|]. intros ? s3 He3 _.
    apply IH. match goal with HK : ∀ K v, _ |- _ => apply HK end; [intros x Hx; by apply He3, He2, He1|by eapply knows_mono].
Qed.
Lemma safe_insert_preds l es s : live s l → Forall (λ e, live s (s_loc e.1)) es → safe (insert_preds l es) s any.
Proof.
  intros Hl Hes. apply safe_W. intros _. unfold insert_preds.
  revert s Hl Hes. induction es as [|[e pd] es IH]; intros s Hl Hes; simpl; [by apply safe_ret|].
  apply Forall_cons in Hes as [He Hes]. simpl in He. eapply (safe_bind _ _ _ any).
  - eapply safe_bind; [by apply safe_assert|]. intros ? s' _ ->. eapply safe_bind; [by apply safe_lookup|]. intros nd s' _ (-> & _ & Hn).
    eapply safe_bind; [by apply safe_of_opt|]. intros nd' s' _ (E & ->). eapply safe_any, safe_put. by eapply insert_in; [|exact Hn|exact E].
  - intros ? s1 He1 _. apply IH; [by apply He1|]. by eapply (Forall_mono_K (λ e : succ * option dep, s_loc e.1)).
Qed.
Context (HC : scoped_code).
Lemma safe_produce_body frc : frc_ok frc → prod_ok (produce_body frc).
Proof using HC.
  intros HF t l s Hl. unfold produce_body.
  eapply (safe_bind _ _ _ (λ cp s', live s' l ∧ knows (live s') (c_arg cp.1) ∧ knows (live s') (c_spur cp.1))).
  - unfold produce_begin. eapply safe_bind; [by apply safe_res|]. intros [| |c] s' _ (-> & _ & Hn); [by apply safe_panic..|].
    destruct Hn as (H1 & H2 & H3 & H4 & H5). eapply safe_bind; [apply safe_put; simpl; by split_and!|]. intros ? s1 He1 Hl1.
    eapply safe_bind; [apply safe_revoke; by eapply (Forall_mono_K s_loc)|]. intros ? s2 He2 _.
    eapply safe_bind; [apply safe_modify; [done|]; simpl; intros HS; constructor; [by apply Forall_nil|exact HS]|]. intros ? s3 He3 _.
    eapply safe_bind; [apply safe_get|]. intros ? s' _ (-> & ->). eapply safe_bind; [by apply safe_ctx|]. intros ? s4 He4 _.
    assert (Hl4 : live s4 l) by (by apply He4, He3, He2). eapply safe_bind; [by apply safe_res|].
    intros [| |c'] s' _ (-> & _ & Hn'); [by apply safe_panic..|]. apply safe_ret. simpl. split; [done|]. destruct Hn' as (? & ? & _). by split.
  - intros [c prev] s1 He1 (Hl1 & Harg & Hsp). simpl in *. eapply safe_bind; [by apply safe_ctx|]. intros ? s2 He2 _.
    eapply safe_bind; [apply safe_run; [done|]; apply HC; by eapply knows_mono|]. intros r s3 He3 Hr.
    eapply (safe_bind _ _ _ any).
    + unfold produce_end. eapply safe_bind; [by apply safe_ctx|]. intros ? s4 He4 _. eapply safe_bind; [apply safe_get|]. intros ? s' _ (-> & ->).
      apply safe_W. intros HW. assert (Hst := w_stack _ HW). destruct (stack s4) as [|f fs] eqn:Est; [by apply safe_panic|].
      apply Forall_cons in Hst as [Hf Hfs]. assert (Hl4 : live s4 l) by (by apply He4, He3, He2).
      eapply safe_bind; [apply safe_modify; [done|]; intros _; exact Hfs|]. intros ? s5 He5 ->.
      eapply safe_bind; [by apply safe_assert|]. intros ? s' _ ->. eapply safe_bind; [apply safe_insert_preds; [exact Hl4|exact Hf]|]. intros ? s6 He6 _.
      assert (Hl6 : live s6 l) by (by apply He6, He5). eapply safe_bind; [by apply safe_res|].
      intros [| |c'] s' _ (-> & _ & Hn'); [by apply safe_panic..|]. eapply safe_any, safe_put. destruct Hn' as (H1 & H2 & H3 & H4 & H5).
      simpl. split_and!; [done|done| |done|].
      * intros r' [= <-]. eapply knows_mono; [|exact Hr]. intros x Hx. by apply He6, He5, He4.
      * apply Forall_fmap. eapply (Forall_mono_K (λ e : succ * option dep, s_loc e.1)); [|exact Hf]. intros x Hx. by apply He6, He5.
    + intros ? s4 He4 _. apply safe_ret. by eapply knows_mono.
Qed.
Lemma safe_clean_comp prod cln t w l cache es s : prod_ok prod → cln_ok cln → live s l → Forall (λ e, live s (s_loc e)) es →
  safe (clean_comp prod cln t w l cache es) s any.
Proof.
  intros HP HCl. revert s. induction es as [|e es IH]; intros s Hl Hes; simpl; [by apply safe_ret|].
  apply Forall_cons in Hes as [He Hes]. eapply safe_bind; [by apply safe_get_dirty|]. intros b s' _ ->. destruct b; [|by apply IH].
  eapply safe_bind; [apply safe_emit|]. intros ? s1 He1 _. eapply (safe_bind _ _ _ any).
  { destruct (s_dep e); simpl; try (by apply safe_ret); [apply HCl; by apply He1|eapply safe_any, safe_check_map; by apply He1]. }
  intros b s2 He2 _. assert (Hl2 : live s2 l) by (by apply He2, He1). destruct b.
  - eapply safe_bind; [apply safe_emit|]. intros ? s3 He3 _. eapply safe_bind; [apply HP; by apply He3|]. intros r s4 He4 _.
    eapply safe_bind; [apply safe_emit|]. intros ? s5 He5 _. eapply safe_bind; [apply safe_emit|]. intros ? s6 He6 _. by apply safe_ret.
  - eapply safe_bind; [by apply safe_set_dirty|]. intros ? s3 He3 _. eapply safe_bind; [apply safe_emit|]. intros ? s4 He4 _.
    eapply safe_bind; [apply safe_emit|]. intros ? s5 He5 _. apply IH; [by apply He5, He4, He3|].
    eapply (Forall_mono_K s_loc); [|exact Hes]. intros x Hx. by apply He5, He4, He3, He2, He1.
Qed.
Lemma safe_produce_clean n : prod_ok (produce n) ∧ cln_ok (clean n).
Proof using HC.
  induction n as [|n [IHp IHc]]; [split; repeat intro; by apply safe_nofuel|]. split; simpl.
  - apply safe_produce_body. by apply safe_force_loc.
  - intros t w l s Hl. unfold clean_body. eapply safe_bind; [by apply safe_res|].
    intros [| |c] s' _ (-> & _ & Hn); [by apply safe_ret..|]. destruct (c_res c).
    + apply safe_clean_comp; [done..|apply Hn].
    + eapply safe_bind; [apply safe_emit|]. intros ? s1 He1 _. eapply safe_bind; [apply IHp; by apply He1|]. intros r s2 _ _.
      eapply safe_bind; [apply safe_emit|]. intros ? s3 _ _. by apply safe_ret.
Qed.
Lemma safe_exec k c s : scoped (live s) c → safe (exec k c) s (res id).
Proof using HC. apply safe_run. apply safe_force_loc; apply safe_produce_clean. Qed.

Lemma W_start sf po : W (dcg_new_flags sf po).
Proof. split; [|by apply Forall_nil]. intros l nd Hl. simpl in Hl. by rewrite lookup_empty in Hl. Qed.
Lemma W_history s : history s → W s.
Proof using HC. induction 1 as [|s k c o s' _ IH Hsc E]; [apply W_start|]. destruct (safe_exec k c s Hsc IH) as (HW & _ & _). by rewrite E in HW. Qed.

(** ** The theorems *)
(** The panic "dangling pointer" never happens, in any history. *)
Theorem C69_no_dangling s k c o s' : history s → scoped (live s) c → exec k c s = (o, s') → o ≠ OPanic PDangling.
Proof using HC.
  intros Hs Hc E. destruct (safe_exec k c s Hc (W_history s Hs)) as (_ & _ & Ho). rewrite E in Ho. simpl in Ho.
  destruct o; [done| |done]. by intros [= ->].
Qed.
(** Every art inside a result denotes a node. *)
Theorem C69_results_live s k c v s' : history s → scoped (live s) c → exec k c s = (OVal v, s') → knows (live s') v.
Proof using HC. intros Hs Hc E. destruct (safe_exec k c s Hc (W_history s Hs)) as (_ & _ & Ho). by rewrite E in Ho. Qed.
(** Everything inside of the table, too. *)
Theorem C69_closed s l nd : history s → table s !! l = Some nd →
  match nd with
  | NMut _ _ v | NPure _ v => knows (live s) v
  | NComp c => knows (live s) (c_arg c) ∧ knows (live s) (c_spur c) ∧ (∀ r, c_res c = Some r → knows (live s) r)
  end.
Proof using HC. intros Hs Hl. assert (Hn := w_nodes _ (W_history s Hs) _ _ Hl). destruct nd; simpl in Hn; tauto. Qed.
End Dangling.

(** ** Nothing is forgotten (for all programs, scoped or not) *)
Section Forever.
Context `{Prog}.
(** [later s s']: [s'] is reached from [s] by running client programs, however they end. *)
Inductive later : dcg → dcg → Prop :=
  | later_refl s : later s s
  | later_step s k c o s1 s' : exec k c s = (o, s1) → later s1 s' → later s s'.
Theorem C69_nothing_forgotten s s' l : later s s' → live s l → live s' l.
Proof.
  induction 1 as [|s k c o s1 s' E _ IH]; [done|]. intros [nd Hl]. apply IH.
  destruct (C15_types_never_change k c s o s1 l nd E Hl) as (nd' & Hl' & _). by exists nd'.
Qed.
(** The table only grows: the engine has no garbage collection. *)
Theorem C69_table_grows s s' : later s s' → (size (table s) ≤ size (table s'))%nat.
Proof.
  intros Hl. rewrite <- !size_dom. apply subseteq_size. intros l Hx%elem_of_dom. apply elem_of_dom.
  by apply (C69_nothing_forgotten s s').
Qed.
(** Scoped programs only ever see live arts, so a run may be continued by any program that knows what they returned. *)
Inductive later_scoped : dcg → dcg → Prop :=
  | ls_refl s : later_scoped s s
  | ls_step s k c o s1 s' : scoped (live s) c → exec k c s = (o, s1) → later_scoped s1 s' → later_scoped s s'.
Lemma later_of_scoped s s' : later_scoped s s' → later s s'.
Proof. induction 1; econstructor; eauto. Qed.
Lemma later_history s s' : later_scoped s s' → history s → history s'.
Proof. induction 1 as [|s k c o s1 s' Hc E _ IH]; [done|]. intros Hs. apply IH. by econstructor. Qed.

(** An art that [cell] or [thunk] has handed out can be used for ever: forcing it at any later time does not find it (or
    anything the evaluation leads to) dangling. *)
Theorem C69_cell_for_ever (HC : scoped_code) s t n v k l s1 s2 k' t' cyc o s3 :
  history s → knows (live s) v → exec k (Cell t n v (λ l, Ret (VLoc l))) s = (OVal (VLoc l), s1) → later_scoped s1 s2 →
  (∀ w, cyc = Some w → knows (live s2) w) →
  exec k' (Force t' (ALoc l) cyc Ret) s2 = (o, s3) → o ≠ OPanic PDangling.
Proof.
  intros Hs Hv E Hl Hcyc Ef. assert (Hc : scoped (live s) (Cell t n v (λ l, Ret (VLoc l)))).
  { constructor; [done|]. intros. by constructor. }
  assert (Hs1 : history s1) by (by eapply h_step). assert (Hl1 : live s1 l) by exact (C69_results_live HC _ _ _ _ _ Hs Hc E).
  assert (Hl2 := C69_nothing_forgotten _ _ _ (later_of_scoped _ _ Hl) Hl1).
  eapply (C69_no_dangling HC s2 k' _ o s3); [by eapply later_history| |exact Ef]. constructor; [done|done|]. intros. by constructor.
Qed.
Theorem C69_thunk_for_ever (HC : scoped_code) s t nc pp arg spur k l s1 s2 k' t' cyc o s3 :
  history s → knows (live s) arg → knows (live s) spur →
  exec k (Thunk t nc pp arg spur (λ l, Ret (VLoc l))) s = (OVal (VLoc l), s1) → later_scoped s1 s2 →
  (∀ w, cyc = Some w → knows (live s2) w) →
  exec k' (Force t' (ALoc l) cyc Ret) s2 = (o, s3) → o ≠ OPanic PDangling.
Proof.
  intros Hs Ha Hsp E Hl Hcyc Ef. assert (Hc : scoped (live s) (Thunk t nc pp arg spur (λ l, Ret (VLoc l)))).
  { constructor; [done|done|]. intros. by constructor. }
  assert (Hs1 : history s1) by (by eapply h_step). assert (Hl1 : live s1 l) by exact (C69_results_live HC _ _ _ _ _ Hs Hc E).
  assert (Hl2 := C69_nothing_forgotten _ _ _ (later_of_scoped _ _ Hl) Hl1).
  eapply (C69_no_dangling HC s2 k' _ o s3); [by eapply later_history| |exact Ef]. constructor; [done|done|]. intros. by constructor.
Qed.
(** The hypothesis [scoped] cannot be dropped: an art of another engine (engine.rs:2574-2619 lets a program switch)
    dangles in a new one. *)
Theorem C69_other_engine k t l cyc sf po : (exec k (Force t (ALoc l) cyc Ret) (dcg_new_flags sf po)).1 = OPanic PDangling.
Proof. reflexivity. Qed.
End Forever.
