(** * Nominal memoization as the documentation describes it (lib.rs:614-741): [get!(thunk!([n] f; args))], called again and
    again with whatever names and arguments, for every function [f] of its arguments. *)
From Verif Require Export TraceRuns Demands.
Local Open Scope string_scope.
Local Open Scope list_scope.

Section NomMemo.
Context (f : val → val) (t : ty).
(** The function, as the code of the program point of the call site. *)
Local Instance nm_prog : Prog := {| code := λ _ a _, Ret (f a); hash_val := λ _, 0%N; hash_app := λ _ _, 0%N |}.

(** macros.rs:300-380: [get!(thunk!([n] f; args))]. *)
Definition call (n : name) (a : val) (k : val → comp) : comp := Thunk t (NCNominal n) "f" a VUnit (λ l, Force t (ALoc l) None k).
Fixpoint calls (cs : list (name * val)) (acc : list val) : comp :=
  match cs with [] => Ret (foldr VPair VUnit acc) | (n, a) :: cs => call n a (λ v, calls cs (acc ++ [v])) end.

(** ** Specification *)
(** What happens in a call, depending on the arguments [last] of the latest call with that name: *)
Inductive kind := First | Same | Changed.
Definition kind_of (last : option val) (a : val) : kind :=
  match last with None => First | Some b => if decide (b = a) then Same else Changed end.
Fixpoint kinds (last : name → option val) (cs : list (name * val)) : list (name * kind) :=
  match cs with [] => [] | (n, a) :: cs => (n, kind_of (last n) a) :: kinds (λ m, if decide (m = n) then Some a else last m) cs end.
Definition kind_eqb (k1 k2 : kind) : bool := match k1, k2 with First, First | Same, Same | Changed, Changed => true | _, _ => false end.
Definition n_of (k : kind) (ks : list (name * kind)) : nat := length (List.filter (λ c, kind_eqb k c.2) ks).
(** The calls that run [f], most recent first. *)
Definition ran (p : path) (ks : list (name * kind)) : list loc :=
  reverse (map (λ c, Loc p (IdNom c.1)) (List.filter (λ c, negb (kind_eqb Same c.2)) ks)).

(** ** The engine *)
Definition ev_of (l : loc) (k : kind) : list event :=
  [EvBegin (TAlloc (match k with First => LocFresh | Same => LocExists ContentSame | Changed => LocExists ContentDiff end) KThunk) None l; EvEnd;
   EvBegin (TForce (match k with Same => CompCacheHit | _ => CompCacheMiss end)) None l; EvEnd].
Definition node_for (last : option val) : option node :=
  match last with None => None | Some a => Some (NComp (CompNode t [] [] "f" a VUnit (Some (f a)))) end.
Local Ltac mon := repeat progress (unfold bind, ret, Engine.get, modify, emit, assert, lookup_abs, res_node, put_node, of_opt, push_edge, force_finish, is_dup, is_cycle, cur_loc in *; cbn [table stack cpath structf purity runs trc set_table set_stack set_cpath add_run add_ev
   node_ty c_ty c_preds c_succs c_pp c_arg c_spur c_res with_res with_arg with_succs with_preds f_loc f_succs existsb negb mfor revoke_succs insert_preds orb andb run code nm_prog preds_alloc preds_obs omap list_omap fmap list_fmap is_struct clean_comp]; rewrite ?bool_decide_eq_true_2 by done).
Lemma call_run n a tb p pu rs tr last : tb !! Loc p (IdNom n) = node_for last →
  let l := Loc p (IdNom n) in
  ∃ tb', (∀ k g, exec (S k) (call n a g) (Dcg tb [] p false pu rs tr) =
      exec (S k) (g (f a)) (Dcg tb' [] p false pu (if kind_eqb Same (kind_of last a) then rs else l :: rs) (reverse (ev_of l (kind_of last a)) ++ tr))) ∧
    tb' !! l = node_for (Some a) ∧ ∀ l', l' ≠ l → tb' !! l' = tb !! l'.
Proof.
  intros Hl. cbv zeta. set (l := Loc p (IdNom n)) in *. unfold exec, call. cbn [run force_art].
  assert (Hp : ∀ tb rs tr, tb !! l = Some (NComp (CompNode t [] [] "f" a VUnit None)) →
    ∃ tb', (∀ k, force (S k) t l None (Dcg tb [] p false pu rs tr) =
      (OVal (f a), Dcg tb' [] p false pu (l :: rs) (EvEnd :: EvBegin (TForce CompCacheMiss) None l :: tr))) ∧
      tb' !! l = node_for (Some a) ∧ ∀ l', l' ≠ l → tb' !! l' = tb !! l').
  { clear. intros tb rs tr Hl. eexists. split.
    - intros k. unfold force, force_loc. mon. rewrite Hl. mon. cbn [produce]. unfold produce_body, produce_begin, produce_end. mon.
      rewrite Hl. repeat (mon; rewrite ?lookup_insert). reflexivity.
    - cbn. rewrite lookup_insert. split; [done|]. intros l' Hne. by rewrite !lookup_insert_ne by done. }
  unfold thunk_op. mon. fold l. rewrite Hl. destruct last as [b|]; cbn [node_for kind_of]; cbn [node_for] in Hl.
  - destruct (decide (b = a)) as [->|Hne]; cbn [kind_eqb].
    + exists tb. split; [|done]. intros k g. mon. rewrite !decide_True by done. mon.
      unfold force, force_loc. mon. rewrite Hl. mon. cbn [clean]. unfold clean_body. mon. rewrite Hl. mon. rewrite Hl. mon. reflexivity.
    + destruct (Hp (<[l := NComp (CompNode t [] [] "f" a VUnit None)]> tb) rs (EvEnd :: EvBegin (TAlloc (LocExists ContentDiff) KThunk) None l :: tr))
        as (tb' & E & H1 & H2); [apply lookup_insert|].
      exists tb'. split.
      * intros k g. mon. rewrite decide_True by done. rewrite decide_False by done. mon. unfold dirty_alloc, dirty_observers, dirty_fuel. mon.
        cbn [dirty_obs]. mon. rewrite lookup_insert. mon. rewrite lookup_insert. mon.
        match goal with |- context [force (S k) t l None ?s] => change s with (Dcg (<[l := NComp (CompNode t [] [] "f" a VUnit None)]> tb) [] p false pu rs (EvEnd :: EvBegin (TAlloc (LocExists ContentDiff) KThunk) None l :: tr)) end.
        rewrite E. reflexivity.
      * split; [done|]. intros l' Hn. rewrite H2 by done. by rewrite lookup_insert_ne.
  - cbn [kind_eqb].
    destruct (Hp (<[l := NComp (CompNode t [] [] "f" a VUnit None)]> tb) rs (EvEnd :: EvBegin (TAlloc LocFresh KThunk) None l :: tr))
        as (tb' & E & H1 & H2); [apply lookup_insert|].
    exists tb'. split.
    * intros k g. mon.
      match goal with |- context [force (S k) t l None ?s] => change s with (Dcg (<[l := NComp (CompNode t [] [] "f" a VUnit None)]> tb) [] p false pu rs (EvEnd :: EvBegin (TAlloc LocFresh KThunk) None l :: tr)) end.
      rewrite E. reflexivity.
    * split; [done|]. intros l' Hn. rewrite H2 by done. by rewrite lookup_insert_ne.
Qed.

(** ** Sessions *)
Definition evs (p : path) (ks : list (name * kind)) : list event := flat_map (λ c, ev_of (Loc p (IdNom c.1)) c.2) ks.
Definition trees (p : path) (ks : list (name * kind)) : list tree :=
  flat_map (λ c, let l := Loc p (IdNom c.1) in
    [TNode (TAlloc (match c.2 with First => LocFresh | Same => LocExists ContentSame | Changed => LocExists ContentDiff end) KThunk) None l [];
     TNode (TForce (match c.2 with Same => CompCacheHit | _ => CompCacheMiss end)) None l []]) ks.
Lemma calls_run cs : ∀ last acc tb p pu rs tr, (∀ n, n ∈ cs.*1 → tb !! Loc p (IdNom n) = node_for (last n)) → ∃ tb',
  (∀ k, exec (S k) (calls cs acc) (Dcg tb [] p false pu rs tr) =
    (OVal (foldr VPair VUnit (acc ++ (f <$> cs.*2))), Dcg tb' [] p false pu (ran p (kinds last cs) ++ rs) (reverse (evs p (kinds last cs)) ++ tr))) ∧
  ∀ l, (∀ n, n ∈ cs.*1 → l ≠ Loc p (IdNom n)) → tb' !! l = tb !! l.
Proof.
  induction cs as [|[n a] cs IH]; intros last acc tb p pu rs tr Htb.
  - exists tb. split; [|done]. intros k. cbn. by rewrite app_nil_r.
  - destruct (call_run n a tb p pu rs tr (last n) (Htb n ltac:(by left))) as (tb1 & E1 & Hn1 & Ho1). cbv zeta in E1.
    set (last' := λ m, if decide (m = n) then Some a else last m).
    destruct (IH last' (acc ++ [f a]) tb1 p pu (if kind_eqb Same (kind_of (last n) a) then rs else Loc p (IdNom n) :: rs)
      (reverse (ev_of (Loc p (IdNom n)) (kind_of (last n) a)) ++ tr)) as (tb2 & E2 & Ho2).
    { intros m Hm. subst last'. cbv beta. destruct (decide (m = n)) as [->|Hne]; [done|]. rewrite Ho1 by (by intros [= ?]). apply Htb. by right. }
    exists tb2. split.
    + intros k. cbn [calls]. rewrite E1, E2. f_equal; [by rewrite <- (assoc_L (++))|].
      f_equal.
      * unfold ran. cbn [kinds List.filter map fst snd]. fold last'. destruct (kind_eqb Same (kind_of (last n) a)); [done|]. cbn [negb map fst].
        rewrite reverse_cons. by rewrite <- (assoc_L (++)).
      * unfold evs. cbn [kinds flat_map fst snd]. fold last'. rewrite reverse_app. by rewrite <- (assoc_L (++)).
    + intros l Hl. rewrite Ho2 by (intros m Hm; apply Hl; by right). apply Ho1. apply Hl. by left.
Qed.
Lemma trees_evs p ks : tword (evs p ks) (trees p ks).
Proof.
  induction ks as [|[n k] ks IH]; [constructor|]. unfold evs, trees. cbn [flat_map fst snd].
  apply (tw_ext _ _ _ [] [] _ _); [constructor|]. apply (tw_ext _ _ _ [] [] _ _); [constructor|]. exact IH.
Qed.
Lemma trees_count p ks : ∀ tu ar rn rc cr d fr sm df,
  ofold (count_rec Editor) (map embed (trees p ks)) (Counts tu ar rn rc cr d fr sm df) =
  Some (Counts tu (ar + length ks) rn rc cr d (fr.1 + n_of First ks, fr.2) (sm.1 + n_of Same ks, sm.2) (df.1 + n_of Changed ks, df.2)).
Proof.
  induction ks as [|[n k] ks IH]; intros tu ar rn rc cr d [f1 f2] [s1 s2] [d1 d2]; unfold n_of.
  - cbn. by rewrite !Nat.add_0_r.
  - assert (trees p ((n, k) :: ks) = [TNode (TAlloc (match k with First => LocFresh | Same => LocExists ContentSame | Changed => LocExists ContentDiff end) KThunk) None (Loc p (IdNom n)) [];
     TNode (TForce (match k with Same => CompCacheHit | _ => CompCacheMiss end)) None (Loc p (IdNom n)) []] ++ trees p ks) as -> by done.
    destruct k; (etransitivity; [first [exact (IH tu (S ar) rn rc cr d (S f1, f2) (s1, s2) (d1, d2)) | exact (IH tu (S ar) rn rc cr d (f1, f2) (S s1, s2) (d1, d2))
      | exact (IH tu (S ar) rn rc cr d (f1, f2) (s1, s2) (S d1, d2))]|]);
      unfold n_of; cbn [fst snd length List.filter kind_eqb]; do 2 f_equal; try lia; f_equal; lia.
Qed.

(** C66.  Any sequence of calls, from any state of the engine in which the editor is idle and none of the names is in use in
    the current namespace: each call returns [f] of its arguments; [f] runs, once, in exactly those calls that are the first
    with their name, or whose arguments differ from the ones in the latest call with that name; the editor allocates exactly
    once in each call: fresh, unchanged, or changed, accordingly; nothing is dirtied, cleaned or re-evaluated. *)
Theorem C66_nominal_memo cs s : stack s = [] → structf s = false → (∀ n, n ∈ cs.*1 → table s !! Loc (cpath s) (IdNom n) = None) →
  let ks := kinds (λ _, None) cs in ∃ s' w F,
  (∀ k, exec (S k) (calls cs []) s = (OVal (foldr VPair VUnit (f <$> cs.*2)), s')) ∧
  runs s' = ran (cpath s) ks ++ runs s ∧
  recorded s s' w ∧ reflect_forest w = Some F ∧
  trace_count (map embed F) None = Some (Counts 1 (length cs) 0 0 0 (0, 0) (n_of First ks, 0) (n_of Same ks, 0) (n_of Changed ks, 0)) ∧
  ∀ l, (∀ n, n ∈ cs.*1 → l ≠ Loc (cpath s) (IdNom n)) → table s' !! l = table s !! l.
Proof.
  intros Hst Hsf Htb. cbv zeta. destruct s as [tb st p sf pu rs tr]. cbn in Hst, Hsf, Htb. subst st sf.
  destruct (calls_run cs (λ _, None) [] tb p pu rs tr Htb) as (tb' & E & Ho).
  eexists _, (evs p (kinds (λ _, None) cs)), (trees p (kinds (λ _, None) cs)).
  split; [exact E|]. split; [done|]. split; [done|]. split; [apply reflect_tword, trees_evs|]. split; [|exact Ho].
  unfold trace_count. rewrite trees_count. cbn. do 2 f_equal. generalize (λ _ : name, @None val). clear. induction cs as [|[n a] cs IH]; intros last; [done|]. cbn. by rewrite IH.
Qed.
End NomMemo.

(** The documentation's example (lib.rs:655-741), with its counts: 2 fresh, 1 unchanged, 1 changed. *)
Definition doc_sum (v : val) : val := match v with VPair (VInt x) (VInt y) => VInt (x + y) | _ => VUnit end.
Definition nm_ (x : string) : name := Name 0 (SString x).
Definition doc_calls : list (name * val) :=
  [(nm_ "a", VPair (VInt 42) (VInt 43)); (nm_ "a", VPair (VInt 42) (VInt 43)); (nm_ "b", VPair (VInt 42) (VInt 43)); (nm_ "b", VPair (VInt 55) (VInt 66))].
Example ex_doc_calls : kinds (λ _, None) doc_calls = [(nm_ "a", First); (nm_ "a", Same); (nm_ "b", First); (nm_ "b", Changed)].
Proof. vm_compute. reflexivity. Qed.
Lemma ex_doc_nominal : ∃ s' w F,
  (∀ k, exec (H := nm_prog doc_sum) (S k) (calls (0%N : ty) doc_calls []) dcg_new = (OVal (VPair (VInt 85) (VPair (VInt 85) (VPair (VInt 85) (VPair (VInt 121) VUnit)))), s')) ∧
  runs s' = [Loc [] (IdNom (nm_ "b")); Loc [] (IdNom (nm_ "b")); Loc [] (IdNom (nm_ "a"))] ∧
  recorded dcg_new s' w ∧ reflect_forest w = Some F ∧
  trace_count (map embed F) None = Some (Counts 1 4 0 0 0 (0, 0) (2, 0) (1, 0) (1, 0)).
Proof.
  destruct (C66_nominal_memo doc_sum (0%N : ty) doc_calls dcg_new eq_refl eq_refl) as (s' & w & F & H1 & H2 & H3 & H4 & H5 & _); [intros; apply lookup_empty|].
  exists s', w, F. split; [exact H1|]. split; [rewrite H2; vm_compute; reflexivity|]. split; [exact H3|]. split; [exact H4|]. rewrite H5. vm_compute. reflexivity.
Qed.
