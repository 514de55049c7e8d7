(** * C55: what a recorded trace looks like: who did each effect, and how cleaning proceeds.

    reflect.rs:375-404 documents the effects of the cleaning algorithm; engine.rs emits them. *)
From Verif Require Export TraceRuns Limits Examples.

(** ** The grammar of traces.  A node is (effect, source thunk or editor, target location, extent). *)
(** Dirtying from location [l]: each observer (or allocator) [p] of [l], and recursively the observers of [p]. *)
Inductive dirtyF : loc → list tree → Prop :=
  | dF_nil l : dirtyF l []
  | dF_cons l p G F : dirtyF p G → dirtyF l F → dirtyF l (TNode TDirty (Some p) l G :: F).
(** The old edges of [l] are removed. *)
Inductive removeF (l : loc) : list tree → Prop :=
  | rF_nil : removeF l []
  | rF_cons y F : removeF l F → removeF l (TNode TRemove (Some l) y [] :: F).
(** What the editor ([src = None]) or the body of thunk [x] ([src = Some x]) does. *)
Inductive userF : option loc → list tree → Prop :=
  | uF_nil src : userF src []
  | uF_get src x F : userF src F → userF src (TNode (TForce RefGet) src x [] :: F)
  | uF_hit src x G F : cleanF x G → userF src F → userF src (TNode (TForce CompCacheHit) src x G :: F)
  | uF_miss src x G F : prodF x G → userF src F → userF src (TNode (TForce CompCacheMiss) src x G :: F)
  | uF_alloc src c k x G1 G2 F : dirtyF x G1 → removeF x G2 → (c ≠ LocExists ContentDiff → G1 = [] ∧ G2 = []) → (k = KThunk → G2 = []) →
      userF src F → userF src (TNode (TAlloc c k) src x (G1 ++ G2) :: F)
  | uF_set x p G F : dirtyF p G → userF None F → userF None (TNode TDirty (Some p) x G :: F)      (* only the editor sets *)
(** Cleaning thunk [x]: its dirty edges [x → y] are cleaned one after the other; the target [y] is brought up to date,
    and then either the edge is marked clean, or [x] is re-evaluated, and that is the end of it. *)
with cleanF : loc → list tree → Prop :=
  | cF_nil x : cleanF x []
  | cF_edge x y G F : targetF y G → cleanF x F → cleanF x (TNode TCleanRec (Some x) y (G ++ [TNode TCleanEdge (Some x) y []]) :: F)
  | cF_eval x y G P : targetF y G → prodF x P → cleanF x [TNode TCleanRec (Some x) y (G ++ [TNode TCleanEval (Some x) y P])]
with targetF : loc → list tree → Prop :=
  | tF_clean y G : cleanF y G → targetF y G
  | tF_eval y P : prodF y P → targetF y [TNode TCleanEval None y P]
(** Evaluating thunk [x]: its old edges are removed, then its body runs. *)
with prodF : loc → list tree → Prop :=
  | pF x F1 F2 : removeF x F1 → userF (Some x) F2 → prodF x (F1 ++ F2).

Lemma dirtyF_app l F1 F2 : dirtyF l F1 → dirtyF l F2 → dirtyF l (F1 ++ F2).
Proof. induction 1; simpl; [done|]. intros. constructor; auto. Qed.
Lemma removeF_app l F1 F2 : removeF l F1 → removeF l F2 → removeF l (F1 ++ F2).
Proof. induction 1; simpl; [done|]. intros. constructor; auto. Qed.
Lemma userF_app src F1 F2 : userF src F1 → userF src F2 → userF src (F1 ++ F2).
Proof. induction 1; simpl; intros; try done; econstructor; eauto. Qed.
Lemma dirtyF_user x F : dirtyF x F → userF None F.
Proof. induction 1; [constructor|]. by constructor. Qed.

Section TraceShape.
Context `{Prog}.

(** The thunks being executed. *)
Definition locs (s : dcg) : list loc := f_loc <$> stack s.
Lemma locs_cur s s' : locs s' = locs s → cur_loc s' = cur_loc s.
Proof. unfold locs, cur_loc. destruct (stack s), (stack s'); simpl; congruence. Qed.
(** [gr src P m]: run by [src], if [m] returns then it was balanced, with a forest satisfying [P]. *)
Definition gr {A} (src : option loc) (P : list tree → Prop) (m : M A) : Prop := ∀ s, cur_loc s = src →
  match m s with
  | (OVal _, s') => locs s' = locs s ∧ ∃ w F, recorded s s' w ∧ tword w F ∧ P F
  | _ => True
  end.
Definition nothing : list tree → Prop := λ F, F = [].
Lemma rec_refl s s' : trc s' = trc s → recorded s s' []. Proof. by intros E. Qed.
Lemma rec_trans s1 s2 s3 w1 w2 : recorded s1 s2 w1 → recorded s2 s3 w2 → recorded s1 s3 (w1 ++ w2).
Proof. unfold recorded. intros E1 E2. rewrite E2, E1. by rewrite reverse_app, (assoc_L (++)). Qed.
Lemma gr_bind {A B} src (P Q R : list tree → Prop) (m : M A) (f : A → M B) : gr src P m → (∀ x, gr src Q (f x)) → (∀ F1 F2, P F1 → Q F2 → R (F1 ++ F2)) → gr src R (bind m f).
Proof.
  intros Hm Hf HR s Hs. specialize (Hm s Hs). unfold bind. destruct (m s) as [[x|r|] s1]; [|done..]. destruct Hm as (Hs1 & w1 & F1 & R1 & W1 & HP).
  specialize (Hf x s1 ltac:(by rewrite (locs_cur _ _ Hs1))). destruct (f x s1) as [[y|r|] s2]; [|done..]. destruct Hf as (Hs2 & w2 & F2 & R2 & W2 & HQ). split; [congruence|].
  exists (w1 ++ w2), (F1 ++ F2). split; [by eapply rec_trans|]. split; [by apply tword_app|]. by apply HR.
Qed.
Lemma gr_bind0 {A B} src Q (m : M A) (f : A → M B) : gr src nothing m → (∀ x, gr src Q (f x)) → gr src Q (bind m f).
Proof. intros Hm Hf. eapply gr_bind; [exact Hm|exact Hf|]. by intros F1 F2 ->. Qed.
Lemma gr_mono {A} src (P Q : list tree → Prop) (m : M A) : gr src P m → (∀ F, P F → Q F) → gr src Q m.
Proof. intros Hm HQ s Hs. specialize (Hm s Hs). destruct (m s) as [[x|r|] s1]; [|done..]. destruct Hm as (? & w & F & ? & ? & ?). split; [done|]. exists w, F. auto. Qed.
Lemma gr_ret {A} src (P : list tree → Prop) (x : A) : P [] → gr src P (ret x).
Proof. intros HP s Hs. split; [done|]. exists [], []. split; [by apply rec_refl|]. split; [constructor|done]. Qed.
Lemma gr_panic {A} src P r : gr (A:=A) src P (panic r). Proof. by intros s Hs. Qed.
Lemma gr_nofuel {A} src P : gr (A:=A) src P nofuel. Proof. by intros s Hs. Qed.
Lemma gr_get src : gr src nothing get. Proof. intros s Hs. split; [done|]. exists [], []. split; [by apply rec_refl|]. split; [constructor|done]. Qed.
Lemma gr_modify src f : (∀ s, locs (f s) = locs s ∧ trc (f s) = trc s) → gr src nothing (modify f).
Proof. intros E s Hs. destruct (E s). split; [congruence|]. exists [], []. split; [by apply rec_refl|]. split; [constructor|done]. Qed.
Lemma gr_eff src e src' tgt : gr src (λ F, F = [TNode e src' tgt []]) (emit (EvEff e src' tgt)).
Proof. intros s Hs. split; [done|]. exists [EvEff e src' tgt], [TNode e src' tgt []]. split; [done|]. split; [repeat constructor|done]. Qed.
Lemma gr_assert src b r : gr src nothing (assert b r). Proof. destruct b; [by apply gr_ret|apply gr_panic]. Qed.
Lemma gr_of_opt {A} src r (o : option A) : gr src nothing (of_opt r o). Proof. destruct o; [by apply gr_ret|apply gr_panic]. Qed.
Lemma gr_put src l nd : gr src nothing (put_node l nd). Proof. by apply gr_modify. Qed.
Lemma gr_mfor {A} src (P : list tree → Prop) (xs : list A) f : P [] → (∀ F1 F2, P F1 → P F2 → P (F1 ++ F2)) → (∀ x, gr src P (f x)) → gr src P (mfor xs f).
Proof. intros H0 Happ Hf. induction xs as [|x xs IH]; simpl; [by apply gr_ret|]. eapply gr_bind; [apply Hf|intros; apply IH|done]. Qed.
(** An extent. *)
Lemma gr_ext {A B} src (P Q R : list tree → Prop) e src' tgt (m : M A) (k : A → M B) :
  gr src P m → (∀ x, gr src Q (k x)) → (∀ G F, P G → Q F → R (TNode e src' tgt G :: F)) →
  gr src R (emit (EvBegin e src' tgt) ;! (let! x := m in emit EvEnd ;! k x)).
Proof.
  intros Hm Hk HR s Hs. unfold bind at 1. simpl. set (s0 := add_ev _ s). specialize (Hm s0 Hs). unfold bind at 1.
  destruct (m s0) as [[x|r|] s1]; [|done..]. destruct Hm as (Hs1 & w1 & F1 & R1 & W1 & HP). unfold bind at 1. simpl. set (s2 := add_ev EvEnd s1).
  specialize (Hk x s2 ltac:(unfold s2; rewrite <- Hs; by apply locs_cur in Hs1)). destruct (k x s2) as [[y|r|] s3]; [|done..]. destruct Hk as (Hs3 & w2 & F2 & R2 & W2 & HQ). split; [by rewrite Hs3|].
  exists (EvBegin e src' tgt :: w1 ++ EvEnd :: w2), (TNode e src' tgt F1 :: F2). split_and!; [|by constructor|by apply HR].
  unfold recorded in *. rewrite R2. unfold s2. simpl. rewrite R1. unfold s0. simpl.
  rewrite reverse_cons, reverse_app, reverse_cons. by rewrite <- !(assoc_L (++)).
Qed.
Lemma gr_lookup src l : gr src nothing (lookup_abs l).
Proof. apply gr_bind0; [apply gr_get|]. intros s. destruct (table s !! l); [by apply gr_ret|apply gr_panic]. Qed.
Lemma gr_res src t l : gr src nothing (res_node t l).
Proof. apply gr_bind0; [apply gr_lookup|]. intros nd. apply gr_bind0; [apply gr_assert|]. intros _. by apply gr_ret. Qed.
Ltac g0 := first [apply gr_get|by apply gr_ret|apply gr_nofuel|apply gr_put|by apply gr_modify
  |apply gr_assert|apply gr_of_opt|apply gr_lookup|apply gr_res|apply gr_panic].
Ltac gb := eapply gr_bind0; [g0|intros ?].
Ltac gg := first [g0|eapply gr_bind0; [gg|intros ?; gg]|match goal with |- gr _ _ (match ?x with _ => _ end) => destruct x; gg end].
Lemma gr_get_dirty a src eff tgt : gr a nothing (get_dirty src eff tgt). Proof. unfold get_dirty. gg. Qed.
Lemma gr_set_dirty a b src eff tgt : gr a nothing (set_dirty b src eff tgt). Proof. unfold set_dirty. gg. Qed.
Lemma gr_cfm a t f w l : gr a nothing (check_force_map_dep t f w l). Proof. unfold check_force_map_dep. gg. Qed.
Lemma gr_dep_dirty a d l : gr a nothing (dep_dirty d l). Proof. unfold dep_dirty. destruct d; first [apply gr_cfm|gg]. Qed.
(** Programs that do the same. *)
Lemma gr_eq {A} src P (m m' : M A) : (∀ s, m s = m' s) → gr src P m' → gr src P m.
Proof. intros E Hm s Hs. rewrite E. by apply Hm. Qed.
Lemma bind_assoc {A B C} (m : M A) (f : A → M B) (g : B → M C) s : bind (bind m f) g s = bind m (λ x, bind (f x) g) s.
Proof. unfold bind. by destruct (m s) as [[]]. Qed.
Lemma gr_dirty_obs a n l : gr a (dirtyF l) (dirty_obs n l).
Proof.
  revert l. induction n as [|n IH]; intros l; simpl; [g0|]. gb. gb. apply gr_mfor; [constructor|apply dirtyF_app|]. intros [p d]. unfold dirty_step. simpl.
  eapply gr_bind0.
  { destruct d as [d|]; [|g0]. destruct (is_absmap d); [g0|]. eapply gr_bind0; [apply gr_dep_dirty|intros; g0]. }
  intros stop. destruct stop; [apply (gr_eq _ _ _ (ret tt)); [done|apply gr_ret; constructor]|].
  apply (gr_eq _ _ _ (let! b := get_dirty p Observe l in if b : bool then ret tt else
    assert (bool_decide (p ≠ l)) PAssert ;!
    emit (EvBegin TDirty (Some p) l) ;! (let! x := (set_dirty true p Observe l ;! dirty_obs n p) in emit EvEnd ;! ret x))).
  { intros s. unfold bind. destruct (get_dirty p Observe l s) as [[[]|r|] s1]; [done| |done..].
    destruct (assert _ _ s1) as [[]]; [|done..]. simpl. destruct (set_dirty _ _ _ _ _) as [[]]; [|done..]. simpl. destruct (dirty_obs n p _) as [[[]|r|] s3]; done. }
  eapply gr_bind0; [apply gr_get_dirty|]. intros [|]; [apply gr_ret; constructor|]. gb.
  eapply (gr_ext _ (dirtyF p) nothing); [|intros; g0|].
  - eapply gr_bind0; [apply gr_set_dirty|intros; apply IH].
  - intros G F HG ->. constructor; [done|constructor].
Qed.
Lemma gr_observers a l : gr a (dirtyF l) (dirty_observers l). Proof. intros s. apply (gr_dirty_obs a (dirty_fuel s) l s). Qed.
Lemma gr_dirty_alloc a l : gr a (dirtyF l) (dirty_alloc l).
Proof.
  unfold dirty_alloc. eapply gr_bind; [apply gr_observers| |apply dirtyF_app]. intros _. gb. gb. apply gr_mfor; [constructor|apply dirtyF_app|]. intros p. unfold dirty_alloc_step.
  eapply gr_bind0; [apply gr_get_dirty|]. intros [|]; [apply gr_ret; constructor|]. eapply gr_bind0; [apply gr_set_dirty|]. intros _. gb.
  apply (gr_eq _ _ _ (emit (EvBegin TDirty (Some p) l) ;! (let! x := dirty_observers p in emit EvEnd ;! ret x))).
  { intros s. unfold bind. simpl. destruct (dirty_observers p _) as [[[]|r|] s3]; done. }
  eapply (gr_ext _ (dirtyF p) nothing); [apply gr_observers|intros; g0|].
  intros G F HG ->. constructor; [done|constructor].
Qed.
Lemma gr_revoke a l es : gr a (removeF l) (revoke_succs l es).
Proof.
  apply gr_mfor; [constructor|apply removeF_app|]. intros e. eapply (gr_bind _ _ nothing); [apply gr_eff| |].
  - intros _. gb. gb. g0.
  - intros F1 F2 -> ->. simpl. constructor. constructor.
Qed.
Lemma gr_push a e pd : gr a nothing (push_edge e pd).
Proof. apply gr_modify. intros s. unfold locs. destruct (stack s) eqn:E; simpl; by rewrite ?E. Qed.
Lemma gr_set_val a t l v : gr a (dirtyF l) (set_val t l v).
Proof. unfold set_val. gb. match goal with x : node |- _ => destruct x end; try g0. destruct (decide _); [apply gr_ret; constructor|]. gb. apply gr_dirty_alloc. Qed.
Lemma gr_set a t ar v : gr a (userF a) (set_op t ar v).
Proof.
  unfold set_op. destruct ar; [g0|]. intros s Hs. unfold bind at 1. simpl. destruct (stack s) eqn:Est; [|done].
  assert (a = None) as -> by (unfold cur_loc in Hs; by rewrite Est in Hs).
  apply (gr_mono None (dirtyF l) (userF None) (set_val t l v)); [apply gr_set_val|apply dirtyF_user|done].
Qed.
Lemma gr_finish a l dup pure t r : gr a nothing (force_finish l dup pure t r).
Proof. unfold force_finish. eapply gr_bind0; [destruct (dup || pure); [g0|apply gr_push]|]. intros _. g0. Qed.
Lemma gr_at {A} src P (m m' : M A) s : cur_loc s = src → m s = m' s → gr src P m' →
  match m s with (OVal _, s') => locs s' = locs s ∧ ∃ w F, recorded s s' w ∧ tword w F ∧ P F | _ => True end.
Proof. intros Hs E Hm. rewrite E. by apply Hm. Qed.
Lemma uF_one_alloc src c k x G1 G2 : dirtyF x G1 → removeF x G2 → (c ≠ LocExists ContentDiff → G1 = [] ∧ G2 = []) → (k = KThunk → G2 = []) →
  userF src [TNode (TAlloc c k) src x (G1 ++ G2)].
Proof. intros. constructor; try done. constructor. Qed.
Definition cell_tail (t : ty) (l : loc) (v : val) (fresh is_pure : bool) : M loc :=
  (if fresh : bool then put_node l (if is_pure then NPure t v else NMut t [] v) else ret tt) ;!
  (if is_pure then ret tt else push_edge (Succ false l Allocate (DAllocCell v)) None) ;!
  ret l.
Lemma gr_cell_tail a t l v fresh pure : gr a nothing (cell_tail t l v fresh pure).
Proof. unfold cell_tail. eapply gr_bind0; [destruct fresh; g0|]. intros _. eapply gr_bind0; [destruct pure; [g0|apply gr_push]|]. intros _. g0. Qed.
Lemma gr_cell_ext a ac l t v fresh pure (m : M unit) (P : list tree → Prop) : gr a P m →
  (∀ G, P G → ∃ G1 G2, G = G1 ++ G2 ∧ dirtyF l G1 ∧ removeF l G2 ∧ (ac ≠ LocExists ContentDiff → G1 = [] ∧ G2 = [])) →
  gr a (userF a) (emit (EvBegin (TAlloc ac KRefCell) a l) ;! (let! _ := m in emit EvEnd ;! cell_tail t l v fresh pure)).
Proof.
  intros Hm HP. eapply (gr_ext _ P nothing); [done|intros; apply gr_cell_tail|]. intros G F HG ->. destruct (HP G HG) as (G1 & G2 & -> & H1 & H2 & H3).
  by apply uF_one_alloc.
Qed.
Lemma gr_cell a t n v : gr a (userF a) (cell_op t n v).
Proof.
  intros s Hs. set (l := Loc (cpath s) (if structf s then IdStruct (hash_val v) else IdNom n)). set (pure := structf s && purity s).
  destruct (table s !! l) as [nd|] eqn:Hl.
  - destruct (decide (node_ty nd = t)) as [Ht|Ht].
    2:{ unfold cell_op. rewrite (bind_val get _ s s s) by done. cbv zeta. fold l. rewrite Hl. unfold bind, res_node, bind, lookup_abs, bind, get. rewrite Hl. simpl.
        by rewrite bool_decide_false. }
    assert (∀ s', table s' !! l = Some nd → res_node t l s' = (OVal nd, s')) as Hres by (intros; by apply res_node_eq).
    destruct nd as [t' ps v0|t' v0|c].
    + destruct (decide (v0 = v)) as [->|Hne].
      * eapply (gr_at _ _ _ (emit (EvBegin (TAlloc (LocExists ContentSame) KRefCell) a l) ;! (let! _ := ret tt in emit EvEnd ;! cell_tail t l v false pure))); [done| |].
        { unfold cell_op. rewrite (bind_val get _ s s s) by done. cbv zeta. fold l. fold pure. rewrite Hl.
          rewrite (bind_val _ _ s (false, true, None, false) s). 2:{ by rewrite (bind_val _ _ s _ s (Hres s Hl)). }
          rewrite (bind_val _ _ s (LocExists ContentSame) s).
          2:{ unfold check_cell_change. rewrite (bind_val _ _ s false s); [done|]. rewrite (bind_val _ _ s _ s (Hres s Hl)). unfold ret. do 2 f_equal. apply bool_decide_eq_false. naive_solver. }
          rewrite Hs. set (ev := EvBegin _ _ _). rewrite (bind_val (emit ev) _ s tt (add_ev ev s)) by done. rewrite (bind_val (emit ev) _ s tt (add_ev ev s)) by done.
          rewrite (bind_val _ _ (add_ev ev s) tt (add_ev ev s)).
          2:{ unfold set_val. rewrite (bind_val _ _ _ _ _ (Hres (add_ev ev s) Hl)). by rewrite decide_True. }
          done. }
        apply (gr_cell_ext _ _ _ _ _ _ _ _ nothing); [g0|]. intros G ->. exists [], []. split_and!; [done|constructor|constructor|done].
      * eapply (gr_at _ _ _ (emit (EvBegin (TAlloc (LocExists ContentDiff) KRefCell) a l) ;! (let! _ := set_val t l v in emit EvEnd ;! cell_tail t l v false pure))); [done| |].
        { unfold cell_op. rewrite (bind_val get _ s s s) by done. cbv zeta. fold l. fold pure. rewrite Hl.
          rewrite (bind_val _ _ s (false, true, None, false) s). 2:{ by rewrite (bind_val _ _ s _ s (Hres s Hl)). }
          rewrite (bind_val _ _ s (LocExists ContentDiff) s).
          2:{ unfold check_cell_change. rewrite (bind_val _ _ s true s); [done|]. rewrite (bind_val _ _ s _ s (Hres s Hl)). unfold ret. do 2 f_equal. by apply bool_decide_eq_true. }
          by rewrite Hs. }
        apply (gr_cell_ext _ _ _ _ _ _ _ _ (dirtyF l)); [apply gr_set_val|]. intros G HG. exists G, []. rewrite app_nil_r. split_and!; [done|done|constructor|done].
    + eapply (gr_at _ _ _ (emit (EvBegin (TAlloc (LocExists ContentDiff) KRefCell) a l) ;! (let! _ := ret tt in emit EvEnd ;! cell_tail t l v false pure))); [done| |].
      { unfold cell_op. rewrite (bind_val get _ s s s) by done. cbv zeta. fold l. fold pure. rewrite Hl.
        rewrite (bind_val _ _ s (false, false, None, false) s). 2:{ by rewrite (bind_val _ _ s _ s (Hres s Hl)). }
        rewrite (bind_val _ _ s (LocExists ContentDiff) s).
        2:{ unfold check_cell_change. rewrite (bind_val _ _ s true s); [done|]. by rewrite (bind_val _ _ s _ s (Hres s Hl)). }
        by rewrite Hs. }
      apply (gr_cell_ext _ _ _ _ _ _ _ _ nothing); [g0|]. intros G ->. exists [], []. split_and!; [done|constructor|constructor|done].
    + eapply (gr_at _ _ _ (emit (EvBegin (TAlloc (LocExists ContentDiff) KRefCell) a l) ;! (let! _ := (dirty_alloc l ;! revoke_succs l (c_succs c)) in emit EvEnd ;! cell_tail t l v false pure))); [done| |].
      { unfold cell_op. rewrite (bind_val get _ s s s) by done. cbv zeta. fold l. fold pure. rewrite Hl.
        rewrite (bind_val _ _ s (true, false, Some (c_succs c), false) s). 2:{ by rewrite (bind_val _ _ s _ s (Hres s Hl)). }
        rewrite (bind_val _ _ s (LocExists ContentDiff) s).
        2:{ unfold check_cell_change. rewrite (bind_val _ _ s true s); [done|]. by rewrite (bind_val _ _ s _ s (Hres s Hl)). }
        rewrite Hs. unfold bind. simpl. destruct (dirty_alloc l _) as [[]]; [|done..]. done. }
      apply (gr_cell_ext _ _ _ _ _ _ _ _ (λ G, ∃ G1 G2, G = G1 ++ G2 ∧ dirtyF l G1 ∧ removeF l G2)).
      * eapply gr_bind; [apply gr_dirty_alloc|intros; apply gr_revoke|]. intros F1 F2 H1 H2. by exists F1, F2.
      * intros G (G1 & G2 & -> & H1 & H2). exists G1, G2. by split_and!.
  - eapply (gr_at _ _ _ (emit (EvBegin (TAlloc LocFresh KRefCell) a l) ;! (let! _ := ret tt in emit EvEnd ;! cell_tail t l v true pure))); [done| |].
    { unfold cell_op. rewrite (bind_val get _ s s s) by done. cbv zeta. fold l. fold pure. rewrite Hl. by rewrite Hs. }
    apply (gr_cell_ext _ _ _ _ _ _ _ _ nothing); [g0|]. intros G ->. exists [], []. split_and!; [done|constructor|constructor|done].
Qed.
Lemma gr_bind0p {A B} src Q (Pr : A → Prop) (m : M A) (f : A → M B) : gr src nothing m → (∀ s x s', m s = (OVal x, s') → Pr x) →
  (∀ x, Pr x → gr src Q (f x)) → gr src Q (bind m f).
Proof.
  intros Hm HPr Hf s Hs. specialize (Hm s Hs). specialize (HPr s). unfold bind. destruct (m s) as [[x|r|] s1]; [|done..]. destruct Hm as (Hs1 & w1 & F1 & R1 & W1 & ->).
  specialize (Hf x (HPr _ _ eq_refl) s1 ltac:(by rewrite (locs_cur _ _ Hs1))). destruct (f x s1) as [[y|r|] s2]; [|done..]. destruct Hf as (Hs2 & w2 & F2 & R2 & W2 & HQ). split; [congruence|].
  exists (w1 ++ w2), F2. split; [by eapply rec_trans|]. split; [|done]. by apply (tword_app _ _ _ _ W1 W2).
Qed.
Lemma gr_thunk a t nc pp arg spur : gr a (userF a) (thunk_op t nc pp arg spur).
Proof.
  intros s Hs. unfold thunk_op. rewrite (bind_val get _ s s s) by done. cbv zeta.
  destruct (match nc with NCNominal n => if structf s then NCStructural else NCNominal n | _ => nc end) as [| | |n]; [done..| |].
  - set (l := Loc _ _). destruct (table s !! l).
    + exact (gr_ret a (userF a) l (uF_nil a) s Hs).
    + apply (gr_mono a nothing (userF a) (push_edge (Succ false l Allocate DAllocStruct) None ;! put_node l (NComp (CompNode t [] [] pp arg spur None)) ;! ret l)); [|intros F ->; constructor|done].
      eapply gr_bind0; [apply gr_push|]. intros _. eapply gr_bind0; [g0|]. intros _. g0.
  - set (l := Loc _ _). rewrite Hs.
    match goal with |- context [bind ?m ?f s] => assert (gr a (userF a) (bind m f)) as Hg; [|exact (Hg s Hs)] end.
    apply (gr_bind0p _ _ (λ x : bool * bool * bool, x.2 = true → x.1.1 = false)).
    + destruct (table s !! l) as [nd|]; [|g0]. gb. destruct nd; [g0|g0|]. destruct (decide _); [|g0]. destruct (decide _); [g0|]. gb. g0.
    + intros s1 x s2. destruct (table s !! l) as [nd|]; [|by intros [= <- <-]]. unfold bind, assert. destruct (bool_decide _); [|done].
      destruct nd; [by intros [= <- <-]|done|]. destruct (decide _); [|done]. destruct (decide _); by intros [= <- <-].
    + intros [[dd di] fr]. simpl. intros Hfr.
      eapply (gr_ext _ (λ G, dirtyF l G ∧ (dd = false → G = [])) nothing).
      * destruct dd; [|apply gr_ret; split; [constructor|done]]. eapply gr_mono; [apply gr_dirty_alloc|]. done.
      * intros _. eapply gr_bind0; [apply gr_push|]. intros _. eapply gr_bind0; [destruct di; g0|]. intros _. g0.
      * intros G F [HG Hdd] ->. rewrite <- (app_nil_r G). apply uF_one_alloc; [done|constructor| |done].
        destruct fr; [by rewrite Hdd by auto|]. destruct dd; [done|by rewrite Hdd].
Qed.
Definition hit (cln : ty → val → loc → M bool) : Prop := ∀ src t w l s c, cur_loc s = src → table s !! l = Some (NComp c) → c_res c ≠ None →
  match cln t w l s with (OVal _, s') => locs s' = locs s ∧ ∃ w F, recorded s s' w ∧ tword w F ∧ cleanF l F | _ => True end.
Lemma gr_force_loc prod cln a t l cyc : (∀ src t l, gr src (prodF l) (prod t l)) → hit cln →
  gr a (userF a) (force_loc prod cln t l cyc).
Proof.
  intros HP HC s Hs. unfold force_loc. rewrite (bind_val get _ s s s) by done. cbv zeta. rewrite Hs.
  destruct (table s !! l) as [nd|] eqn:Hl.
  2:{ unfold bind, res_node, bind, lookup_abs, bind, get. by rewrite Hl. }
  destruct (decide (node_ty nd = t)) as [Ht|Ht].
  2:{ unfold bind, res_node, bind, lookup_abs, bind, get. rewrite Hl. simpl. by rewrite bool_decide_false. }
  rewrite (bind_val _ _ s nd s) by (by apply res_node_eq).
  assert (∀ x, ∀ m : M val, gr a nothing m → gr a (userF a) (emit (EvEff (TForce RefGet) a x) ;! m)) as Hget.
  { intros x m Hm. eapply (gr_bind _ _ nothing); [apply gr_eff|intros; exact Hm|]. intros F1 F2 -> ->. simpl. constructor. constructor. }
  destruct nd as [t' ps v|t' v|c].
  1,2: apply Hget; [apply gr_finish|done].
  destruct (is_cycle s l).
  { destruct cyc as [o|]; [|done].
    match goal with |- context [bind ?m ?f s] => assert (gr a (userF a) (bind m f)) as Hg; [|exact (Hg s Hs)] end.
    eapply gr_eq; [|eapply (gr_ext a nothing nothing (userF a) (TForce CompCacheHit) a l (ret tt)); [g0|intros; apply gr_finish|]].
    - intros s1. unfold bind. simpl. reflexivity.
    - intros G F -> ->. constructor; constructor. }
  destruct (c_res c) as [r0|] eqn:Er.
  - unfold bind at 1. simpl. set (s0 := add_ev _ s). assert (Hc := HC a t r0 l s0 c Hs Hl ltac:(by rewrite Er)). unfold bind at 1.
    destruct (cln t r0 l s0) as [[b|r|] s1]; [|done..]. destruct Hc as (Hs1 & w & F & R & W & HF).
    rewrite (bind_val (emit EvEnd) _ s1 tt (add_ev EvEnd s1)) by done. set (s2 := add_ev EvEnd s1).
    match goal with |- context [bind ?m ?f s2] => assert (gr a nothing (bind m f)) as Hg end.
    { gb. match goal with x : node |- _ => destruct x as [| |c'] end; [g0..|]. destruct (c_res c'); [apply gr_finish|g0]. }
    specialize (Hg s2 ltac:(rewrite <- Hs; by apply locs_cur in Hs1)). destruct (bind _ _ s2) as [[x|r|] s3]; [|done..]. destruct Hg as (Hs3 & w2 & F2 & R2 & W2 & ->). split; [by rewrite Hs3|].
    exists (EvBegin (TForce CompCacheHit) a l :: w ++ EvEnd :: w2), [TNode (TForce CompCacheHit) a l F]. split_and!; [|by constructor|constructor; [done|constructor]].
    unfold recorded in *. rewrite R2. unfold s2. simpl. rewrite R. unfold s0. simpl. rewrite reverse_cons, reverse_app, reverse_cons. by rewrite <- !(assoc_L (++)).
  - match goal with |- context [bind ?m ?f s] => assert (gr a (userF a) (bind m f)) as Hg; [|exact (Hg s Hs)] end.
    eapply gr_eq; [|eapply (gr_ext a (prodF l) nothing (userF a) (TForce CompCacheMiss) a l (assert (negb (is_dup s l)) PAssert ;! prod t l)); [|intros x; apply (gr_finish a l (is_dup s l) (is_struct l && bool_decide (length (c_succs c) = O) && purity s) t x)|]].
    + intros s1. unfold bind. simpl. destruct (assert _ _ _) as [[]]; done.
    + gb. apply HP.
    + intros G F HG ->. constructor; [done|constructor].
Qed.
Lemma gr_run frc a c : (∀ a t l cyc, gr a (userF a) (frc t l cyc)) → gr a (userF a) (run frc c).
Proof.
  intros HF. assert (Happ := userF_app a).
  assert (∀ x, ∀ (m : M unit) (v : val), gr a nothing m → gr a (userF a) (emit (EvEff (TForce RefGet) a x) ;! m ;! ret v)) as Hget.
  { intros x m v Hm. eapply (gr_bind _ _ nothing); [apply gr_eff|intros; eapply gr_bind0; [exact Hm|intros; g0]|]. intros F1 F2 -> ->. simpl. constructor. constructor. }
  induction c as [v0| |t ar cyc k IH|t ar f0 k IH|t ar f0 k IH|t nm v0 k IH|t nc pp arg spur k IH|t ar v0 k IH|nm b IHb k IH|b IHb k IH]; simpl.
  - apply gr_ret. constructor.
  - g0.
  - eapply gr_bind; [|intros; apply IH|exact Happ]. destruct ar; [apply gr_ret; constructor|apply HF].
  - eapply gr_bind; [|intros; apply IH|exact Happ]. destruct ar as [|l]; simpl; [apply gr_ret; constructor|]. gb.
    match goal with x : node |- _ => destruct x end; [|eapply (gr_bind _ _ nothing); [apply HF|intros; g0|intros F1 F2 ? ->; by rewrite app_nil_r]..].
    intros s Hs. rewrite (bind_val get _ s s s) by done. rewrite Hs. apply Hget; [apply gr_push|done].
  - eapply gr_bind; [|intros; apply IH|exact Happ]. destruct ar as [|l]; simpl; [apply gr_ret; constructor|]. gb.
    match goal with x : node |- _ => destruct x end; [|eapply (gr_bind _ _ nothing); [apply HF|intros; g0|intros F1 F2 ? ->; by rewrite app_nil_r]..].
    intros s Hs. rewrite (bind_val get _ s s s) by done. rewrite Hs. apply Hget; [apply gr_push|done].
  - eapply gr_bind; [apply gr_cell|intros; apply IH|exact Happ].
  - eapply gr_bind; [apply gr_thunk|intros; apply IH|exact Happ].
  - eapply gr_bind; [apply gr_set|intros; apply IH|exact Happ].
  - gb. gb. eapply gr_bind; [apply IHb|intros; gb; apply IH|exact Happ].
  - gb. gb. eapply gr_bind; [apply IHb|intros; gb; apply IH|exact Happ].
Qed.
Lemma gr_insert a l es : gr a nothing (insert_preds l es).
Proof. apply gr_mfor; [done|by intros F1 F2 -> ->|]. intros [e pd]. gg. Qed.
Lemma gr_produce_body frc a t l : (∀ a t l cyc, gr a (userF a) (frc t l cyc)) → gr a (prodF l) (produce_body frc t l).
Proof.
  intros HF s Hs. unfold produce_body. unfold bind at 1. unfold produce_begin. unfold bind at 1.
  assert (Hr := gr_res a t l s Hs). destruct (res_node t l s) as [[nd|r|] s1]; [|done..]. destruct Hr as (Hs1 & w1 & F1 & R1 & W1 & ->).
  destruct nd as [| |c]; [done..|]. rewrite (bind_val (put_node l _) _ s1 tt (set_table (<[l:=NComp (with_succs [] c)]> (table s1)) s1)) by done. set (s2 := set_table _ s1).
  unfold bind at 1. assert (Hv := gr_revoke a l (c_succs c) s2 ltac:(rewrite <- Hs; by apply locs_cur in Hs1)). destruct (revoke_succs l (c_succs c) s2) as [[[]|r|] s3]; [|done..].
  destruct Hv as (Hs3 & w2 & F2 & R2 & W2 & HF2). rewrite (bind_val (modify _) _ s3 tt (set_stack (Frame l [] :: stack s3) s3)) by done. set (s4 := set_stack _ s3).
  rewrite (bind_val get _ s4 s4 s4) by done. rewrite (bind_val (modify _) _ s4 tt (set_cpath (l_path l) s4)) by done. set (s5 := set_cpath _ s4).
  unfold bind at 1. assert (Hr := gr_res (Some l) t l s5 eq_refl). destruct (res_node t l s5) as [[nd|r|] s6]; [|done..]. destruct Hr as (Hs6 & w3 & F3 & R3 & W3 & ->).
  destruct nd as [| |c']; [done..|]. simpl. rewrite (bind_val (modify _) _ s6 tt (add_run l s6)) by done. set (s7 := add_run l s6). unfold bind at 1.
  assert (Hb := gr_run frc (Some l) (code (c_pp c') (c_arg c') (c_spur c')) HF s7 ltac:(by apply locs_cur in Hs6)).
  destruct (run frc _ s7) as [[v|r|] s8]; [|done..]. destruct Hb as (Hs8 & w4 & F4 & R4 & W4 & HF4).
  assert (locs s8 = l :: locs s) as Hl8. { rewrite Hs8. change (locs s7) with (locs s6). rewrite Hs6. change (locs s5) with (l :: locs s3). rewrite Hs3. change (locs s2) with (locs s1). by rewrite Hs1. }
  unfold produce_end. unfold bind at 1.
  rewrite (bind_val (modify _) _ s8 tt (set_cpath (cpath s4) s8)) by done. set (s9 := set_cpath _ s8). rewrite (bind_val get _ s9 s9 s9) by done.
  change (locs s8) with (locs s9) in Hl8. unfold locs in Hl8. destruct (stack s9) as [|f fs] eqn:Est; [done|]. simpl in Hl8. injection Hl8 as El8 Hl8.
  rewrite (bind_val (modify _) _ s9 tt (set_stack fs s9)) by done. set (s10 := set_stack fs s9).
  match goal with |- context [bind ?m ?f s10] => assert (gr a nothing (bind m f)) as Hg end.
  { gb. eapply gr_bind0; [apply gr_insert|]. intros _. gb. match goal with x : node |- _ => destruct x end; g0. }
  assert (locs s10 = locs s) as Hl10 by exact Hl8.
  specialize (Hg s10 ltac:(rewrite <- Hs; by apply locs_cur)). destruct (bind _ _ s10) as [[[]|r|] s11]; [|done..].
  destruct Hg as (Hs11 & w5 & F5 & R5 & W5 & ->). simpl. split; [congruence|].
  exists (w1 ++ w2 ++ w3 ++ w4 ++ w5), (F2 ++ F4). split_and!.
  - apply (rec_trans _ s1); [done|]. apply (rec_trans _ s3); [done|]. apply (rec_trans _ s6); [done|]. apply (rec_trans _ s8); [done|]. exact R5.
  - apply (tword_app _ [] _ (F2 ++ F4) W1). apply (tword_app _ _ _ _ W2). apply (tword_app _ [] _ F4 W3). rewrite <- (app_nil_r F4). by apply tword_app.
  - by constructor.
Qed.
Lemma gr_clean_comp prod cln a t w l cache es :
  (∀ src t l, gr src (prodF l) (prod t l)) → (∀ src t w l, gr src (targetF l) (cln t w l)) → gr a (cleanF l) (clean_comp prod cln t w l cache es).
Proof.
  intros HP HC. induction es as [|e es IH]; simpl; [apply gr_ret; constructor|]. eapply gr_bind0; [apply gr_get_dirty|]. intros [|]; [|exact IH].
  intros s Hs. rewrite (bind_val (emit _) _ s tt (add_ev (EvBegin TCleanRec (Some l) (s_loc e)) s)) by done. set (s0 := add_ev _ s). unfold bind at 1.
  assert (gr a (targetF (s_loc e)) (dep_clean cln (s_dep e) (s_loc e))) as Hd.
  { assert (∀ F, nothing F → targetF (s_loc e) F) as Hn by (intros F ->; do 2 constructor).
    unfold dep_clean. destruct (s_dep e); [apply HC|eapply gr_mono; [apply gr_cfm|done]|apply gr_ret; do 2 constructor..]. }
  specialize (Hd s0 Hs). destruct (dep_clean cln (s_dep e) (s_loc e) s0) as [[ch|r|] s1]; [|done..]. destruct Hd as (Hs1 & w1 & F1 & R1 & W1 & HF1).
  change (locs s0) with (locs s) in Hs1. destruct ch.
  - rewrite (bind_val (emit _) _ s1 tt (add_ev (EvBegin TCleanEval (Some l) (s_loc e)) s1)) by done. set (s2 := add_ev _ s1). unfold bind at 1.
    assert (Hp := HP (cur_loc s2) t l s2 eq_refl). destruct (prod t l s2) as [[x|r|] s3]; [|done..]. destruct Hp as (Hs3 & w2 & F2 & R2 & W2 & HF2).
    unfold bind. simpl. split; [unfold locs; simpl; etrans; [exact Hs3|exact Hs1]|].
    exists (EvBegin TCleanRec (Some l) (s_loc e) :: (w1 ++ EvBegin TCleanEval (Some l) (s_loc e) :: w2 ++ EvEnd :: []) ++ EvEnd :: []),
      [TNode TCleanRec (Some l) (s_loc e) (F1 ++ [TNode TCleanEval (Some l) (s_loc e) F2])]. split_and!.
    + unfold recorded in *. simpl. rewrite R2. unfold s2. simpl. rewrite R1. unfold s0. simpl.
      rewrite reverse_cons. rewrite !reverse_app. rewrite !reverse_cons. rewrite !reverse_app. simpl. by rewrite <- !(assoc_L (++)).
    + constructor; [|constructor]. apply tword_app; [done|]. constructor; [done|constructor].
    + by constructor.
  - unfold bind at 1. assert (Hd := gr_set_dirty a false l (s_eff e) (s_loc e) s1 ltac:(rewrite <- Hs; by apply locs_cur)).
    destruct (set_dirty false l (s_eff e) (s_loc e) s1) as [[[]|r|] s2]; [|done..]. destruct Hd as (Hs2 & w2 & F2 & R2 & W2 & ->).
    rewrite (bind_val (emit _) _ s2 tt (add_ev (EvEff TCleanEdge (Some l) (s_loc e)) s2)) by done. set (s3 := add_ev _ s2).
    rewrite (bind_val (emit _) _ s3 tt (add_ev EvEnd s3)) by done. set (s4 := add_ev _ s3).
    assert (locs s4 = locs s) as Hs4 by (etrans; [exact Hs2|exact Hs1]).
    specialize (IH s4 ltac:(rewrite <- Hs; by apply locs_cur)). destruct (clean_comp prod cln t w l cache es s4) as [[x|r|] s5]; [|done..].
    destruct IH as (Hs5 & w3 & F3 & R3 & W3 & HF3). split; [congruence|].
    exists (EvBegin TCleanRec (Some l) (s_loc e) :: (w1 ++ w2 ++ [EvEff TCleanEdge (Some l) (s_loc e)]) ++ EvEnd :: w3),
      (TNode TCleanRec (Some l) (s_loc e) (F1 ++ [TNode TCleanEdge (Some l) (s_loc e) []]) :: F3). split_and!.
    + unfold recorded in *. rewrite R3. unfold s4, s3. simpl. rewrite R2, R1. unfold s0. simpl.
      rewrite reverse_cons, reverse_app, reverse_app, reverse_app, reverse_cons, reverse_singleton. rewrite <- !(assoc_L (++)). reflexivity.
    + constructor; [|done]. apply tword_app; [done|]. apply (tword_app w2 [] [_] [_] W2). repeat constructor.
    + by constructor.
Qed.
Lemma gr_knot n : (∀ a t l, gr a (prodF l) (produce n t l)) ∧ (∀ a t w l, gr a (targetF l) (clean n t w l)) ∧ hit (clean n).
Proof.
  induction n as [|n (IHp & IHc & IHh)]; [split_and!; [intros; simpl; g0..|by intros ?????????]|]. split_and!.
  - intros a t l. simpl. apply gr_produce_body. intros. by apply gr_force_loc.
  - intros a t w l. simpl. unfold clean_body. gb. match goal with x : node |- _ => destruct x as [| |c] end; [apply gr_ret; do 2 constructor..|].
    destruct (c_res c); [eapply gr_mono; [by apply gr_clean_comp|intros F HF; by constructor]|].
    eapply (gr_ext _ (prodF l) nothing); [apply IHp|intros; g0|]. intros G F HG ->. by constructor.
  - intros a t w l s c Hs Hl Hr. simpl. unfold clean_body. unfold bind, res_node, bind, lookup_abs, bind, get. rewrite Hl. simpl.
    destruct (bool_decide _); [|done]. simpl. destruct (c_res c); [|done]. exact (gr_clean_comp _ _ a t w l _ _ IHp IHc s Hs).
Qed.

(** ** C55 *)
(** The trace recorded while a client program runs, in any state (if the program returns), is of the form above: every
    effect is attributed to the thunk, or to the editor, that performed it. *)
Theorem C55_trace_grammar k c s v s' :
  exec k c s = (OVal v, s') → ∃ w F, recorded s s' w ∧ reflect_forest w = Some F ∧ userF (cur_loc s) F.
Proof.
  intros E. destruct (gr_knot k) as (HP & HC & HH).
  assert (Hg := gr_run (force k) (cur_loc s) c (λ a t l cyc, gr_force_loc _ _ a t l cyc HP HH) s eq_refl). change (run (force k) c) with (exec k c) in Hg.
  rewrite E in Hg. destruct Hg as (_ & w & F & R & W & HF). exists w, F. split; [done|]. split; [by apply reflect_tword|done].
Qed.
End TraceShape.

(** ** Consequences readable from a single node *)
Scheme userF_mind := Induction for userF Sort Prop
  with cleanF_mind := Induction for cleanF Sort Prop
  with targetF_mind := Induction for targetF Sort Prop
  with prodF_mind := Induction for prodF Sort Prop.
Combined Scheme grammar_mind from userF_mind, cleanF_mind, targetF_mind, prodF_mind.

(** [CleanRec] finishes in one of two exclusive ways (reflect.rs:381-388): its last child is [CleanEdge] on the same edge,
    or [CleanEval] on the same edge; none of the children before it is a [CleanEdge], or a [CleanEval] with a source. *)
Definition decides (t : tree) : Prop :=
  match t with TNode TCleanEdge _ _ _ => True | TNode TCleanEval (Some _) _ _ => True | _ => False end.
Definition clean_rec_ok (t : tree) : Prop :=
  match t with
  | TNode TCleanRec src y ext => ∃ x G t', src = Some x ∧ ext = G ++ [t'] ∧ Forall (λ t, ¬ decides t) G ∧
      (t' = TNode TCleanEdge (Some x) y [] ∨ ∃ P, t' = TNode TCleanEval (Some x) y P)
  | _ => True
  end.
(** What is in the extent of a force: of a hit, only cleaning; of a miss on [x], only the removal of edges of [x] and what [x] does. *)
Definition done_by (x : loc) (t : tree) : Prop :=
  match t with
  | TNode (TForce _) src _ _ | TNode (TAlloc _ _) src _ _ | TNode TRemove src _ _ => src = Some x
  | _ => False
  end.
Definition force_ok (t : tree) : Prop :=
  match t with
  | TNode (TForce RefGet) _ _ ext => ext = []
  | TNode (TForce CompCacheHit) _ x ext => Forall (λ t, match t with TNode TCleanRec src _ _ => src = Some x | _ => False end) ext
  | TNode (TForce CompCacheMiss) _ x ext => Forall (done_by x) ext
  | TNode TCleanEval (Some x) _ ext => Forall (done_by x) ext
  | TNode TCleanEval None y ext => Forall (done_by y) ext
  | _ => True
  end.
(** In the extent of an allocation or of a dirtying there is only dirtying, and the removal of edges. *)
Definition dirty_ok (t : tree) : Prop :=
  match t with
  | TNode TDirty src x ext => ∃ p, src = Some p ∧ Forall (λ t, match t with TNode TDirty _ y _ => y = p | _ => False end) ext
  | TNode (TAlloc c _) _ x ext =>
      Forall (λ t, match t with TNode TDirty _ y _ => y = x | TNode TRemove src _ _ => src = Some x | _ => False end) ext ∧
      (c ≠ LocExists ContentDiff → ext = [])
  | TNode TRemove src _ ext => (∃ x, src = Some x) ∧ ext = []
  | _ => True
  end.
Definition node_ok (t : tree) : Prop := clean_rec_ok t ∧ force_ok t ∧ dirty_ok t.

Lemma dirtyF_tops l F : dirtyF l F → Forall (λ t, match t with TNode TDirty _ y _ => y = l | _ => False end) F.
Proof. induction 1; constructor; done. Qed.
Lemma dirtyF_nodes l F : dirtyF l F → Forall node_ok (flat_map nodes F).
Proof.
  induction 1 as [|l p G F HG IHG HF IHF]; simpl; [constructor|]. constructor; [|by apply Forall_app].
  split_and!; [done|done|]. exists p. split; [done|]. by apply dirtyF_tops.
Qed.
Lemma removeF_tops l F : removeF l F → Forall (λ t, match t with TNode TRemove src _ _ => src = Some l | _ => False end) F.
Proof. induction 1; constructor; done. Qed.
Lemma removeF_nodes l F : removeF l F → Forall node_ok (flat_map nodes F).
Proof. induction 1; simpl; constructor; [|done]. split_and!; [done|done|]. simpl. eauto. Qed.
Lemma flat_nodes_app F1 F2 : flat_map nodes (F1 ++ F2) = flat_map nodes F1 ++ flat_map nodes F2.
Proof. apply flat_map_app. Qed.
Lemma grammar_nodes :
  (∀ src F, userF src F → Forall node_ok (flat_map nodes F) ∧ (∀ x, src = Some x → Forall (done_by x) F)) ∧
  (∀ x F, cleanF x F → Forall node_ok (flat_map nodes F) ∧ Forall (λ t, match t with TNode TCleanRec src _ _ => src = Some x | _ => False end) F) ∧
  (∀ y F, targetF y F → Forall node_ok (flat_map nodes F) ∧ Forall (λ t, ¬ decides t) F) ∧
  (∀ x F, prodF x F → Forall node_ok (flat_map nodes F) ∧ Forall (done_by x) F).
Proof.
  apply grammar_mind; intros; simpl; rewrite ?flat_nodes_app; destruct_and?.
  - split; [constructor|]. intros. constructor.
  - split; [constructor; [done|done]|]. intros y E. constructor; [done|auto].
  - split; [constructor; [split_and!; done|by apply Forall_app]|]. intros y E. constructor; [done|auto].
  - split; [constructor; [split_and!; done|by apply Forall_app]|]. intros y E. constructor; [done|auto].
  - split; [constructor; [split; [done|split; [done|]]|]|intros y E; constructor; [done|auto]].
    + split; [|intros Hc; by destruct (a Hc) as [-> ->]]. apply Forall_app. split.
      * eapply Forall_impl; [by apply dirtyF_tops|]. intros [[] ? ? ?]; done.
      * eapply Forall_impl; [by apply removeF_tops|]. intros [[] ? ? ?]; done.
    + rewrite <- !(assoc_L (++)). repeat (apply Forall_app; split); [by eapply dirtyF_nodes|by eapply removeF_nodes|done].
  - split; [|done]. constructor; [|apply Forall_app; split; [by eapply dirtyF_nodes|done]]. split_and!; [done|done|]. exists p. split; [done|]. by apply dirtyF_tops.
  - split; constructor.
  - split; [|constructor; [done|done]]. constructor; [|apply Forall_app; split; [apply Forall_app; split; [done|]|done]].
    + split_and!; [|done|done]. exists x, G, (TNode TCleanEdge (Some x) y []). eauto.
    + simpl. constructor; [done|constructor].
  - split; [|constructor; [done|constructor]]. constructor; [|rewrite app_nil_r; apply Forall_app; split; [done|]].
    + split_and!; [|done|done]. exists x, G, (TNode TCleanEval (Some x) y P). split_and!; [done..|right; by exists P].
    + simpl. rewrite app_nil_r. constructor; [done|done].
  - split; [done|]. eapply Forall_impl; [done|]. intros [[] ? ? ?]; simpl; first [by intros []|by intros _ []].
  - split; [rewrite app_nil_r; constructor; done|]. constructor; [|constructor]. intros [].
  - split; apply Forall_app; split; [by eapply removeF_nodes|done| |auto].
    eapply Forall_impl; [by apply removeF_tops|]. by intros [[] ? ? ?].
Qed.
(** Whatever a client program does, in any state: each node of the recorded trace, at any depth, is as described. *)
Theorem C55_every_node `{Prog} k c s v s' w F :
  exec k c s = (OVal v, s') → recorded s s' w → reflect_forest w = Some F → Forall node_ok (flat_map nodes F).
Proof.
  intros E Hw HF. destruct (C55_trace_grammar k c s v s' E) as (w' & F' & Hw' & HF' & HG).
  unfold recorded in *. rewrite Hw' in Hw. apply app_inv_tail in Hw. apply (inj reverse) in Hw as ->.
  rewrite HF in HF'. injection HF' as <-. by apply (proj1 grammar_nodes) in HG as [? _].
Qed.
(** A concrete trace: the demand of [fe] after the edits of [Examples.v] (cells [a], [b] and [p] changed) cleans
    recursively, re-evaluates some thunks, and finds some edges clean. *)
Definition ex_demand_trace : list event := reverse (take (length (trc ex_s3) - length (trc ex_s2)) (trc ex_s3)).
Definition has_eff (p : teffect → bool) (t : tree) : bool := match t with TNode e _ _ _ => p e end.
Lemma ex_trace_counts :
  (λ F, let N := flat_map nodes F in
    (length (List.filter (has_eff (λ e, match e with TCleanRec => true | _ => false end)) N),
     length (List.filter (has_eff (λ e, match e with TCleanEdge => true | _ => false end)) N),
     length (List.filter (has_eff (λ e, match e with TCleanEval => true | _ => false end)) N),
     length (List.filter (has_eff (λ e, match e with TRemove => true | _ => false end)) N))) <$> reflect_forest ex_demand_trace = Some (6, 1, 5, 9)%nat.
Proof. vm_compute. reflexivity. Qed.
Lemma ex_demand_recorded : ∃ v s', @exec demo 40 (Force T0 (ALoc (at_ "fe"%string)) None Ret) ex_s2 = (OVal v, s') ∧ trc s' = reverse ex_demand_trace ++ trc ex_s2.
Proof.
  assert (∃ v, (@exec demo 40 (Force T0 (ALoc (at_ "fe"%string)) None Ret) ex_s2).1 = OVal v) as [v E] by (eexists; vm_compute; reflexivity).
  exists v, (@exec demo 40 (Force T0 (ALoc (at_ "fe"%string)) None Ret) ex_s2).2. split; [rewrite <- E; apply surjective_pairing|vm_compute; reflexivity].
Qed.
