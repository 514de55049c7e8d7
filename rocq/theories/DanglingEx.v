(** * C69 for the catalog: its list and tree functions never make up an art. *)
From Verif Require Import Uncond EngineProps Dangling Cat CatExamples.
Local Open Scope string_scope.
Local Open Scope list_scope.

Lemma scoped_cbind K c g : scoped K c → (∀ K' v, more K K' → knows K' v → scoped K' (g v)) → scoped K (cbind c g).
Proof.
  intros Hc. revert g. induction Hc; intros g Hg; simpl; try (by constructor; eauto using more_trans).
  apply Hg; [apply more_refl|done].
Qed.
Lemma scoped_l_elim F K v nilc consc namec : knows K v → (∀ K', more K K' → scoped K' nilc) →
  (∀ K' x tl, more K K' → knows K' x → knows K' tl → scoped K' (consc x tl)) →
  (∀ K' n tl, more K K' → knows K' tl → scoped K' (namec n tl)) → scoped K (l_elim F v nilc consc namec).
Proof.
  revert K v. induction F as [|F IH]; intros K v Hv Hn Hc Hm; 
    destruct v as [| | | | | |a|a| |]; try (by constructor); try (by destruct a; try constructor; apply Hn, more_refl);
    (destruct a as [| | | | | |a|a| |]; try (by constructor)); 
    try (by destruct a; try constructor; apply Hc; [apply more_refl|apply Hv|apply Hv]);
    (destruct a as [| | | | | |a|a| |]; try (by constructor));
    try (by (destruct a as [| | | | |b c| | | |]; try (by constructor)); (destruct b; try (by constructor)); apply Hm; [apply more_refl|apply Hv]);
    (destruct a; try (by constructor)).
  simpl. constructor; [done|done|]. intros K' v HK Hv'. apply IH; eauto using more_trans.
Qed.
Lemma scoped_t_elim F K v nilc leafc binc namec : knows K v → (∀ K', more K K' → scoped K' nilc) →
  (∀ K' x, more K K' → knows K' x → scoped K' (leafc x)) →
  (∀ K' n l r, more K K' → knows K' l → knows K' r → scoped K' (binc n l r)) →
  (∀ K' m n l r, more K K' → knows K' l → knows K' r → scoped K' (namec m n l r)) → scoped K (t_elim F v nilc leafc binc namec).
Proof.
  revert K v. induction F as [|F IH]; intros K v Hv Hn Hc Hb Hm.
  all: destruct v as [| | | | | |a|a| |]; try (by constructor); try (by destruct a; try constructor; apply Hn, more_refl).
  all: destruct a as [| | | | | |a|a| |]; try (by constructor); try (by apply Hc; [apply more_refl|apply Hv]).
  all: destruct a as [| | | | | |a|a| |]; try (by constructor).
  1,3: (destruct a as [| | | | |b c| | | |]; try (by constructor)); (destruct b; try (by constructor));
    (destruct c as [| | | | |c d| | | |]; try (by constructor)); apply Hb; [apply more_refl|apply Hv..].
  all: destruct a as [| | | | | |a|a| |]; try (by constructor).
  1,3: (destruct a as [| | | | |b c| | | |]; try (by constructor)); (destruct b; try (by constructor));
    (destruct c as [| | | | |b c| | | |]; try (by constructor)); (destruct b; try (by constructor));
    (destruct c as [| | | | |c d| | | |]; try (by constructor)); apply Hm; [apply more_refl|apply Hv..].
  all: destruct a; try (by constructor).
  simpl. constructor; [done|done|]. intros K' v HK Hv'. apply IH; eauto using more_trans.
Qed.

Lemma knows_fst K v : knows K v → knows K (p_fst v). Proof. destruct v; simpl; tauto. Qed.
Lemma knows_snd K v : knows K v → knows K (p_snd v). Proof. destruct v; simpl; tauto. Qed.

Section Scoped.
Context `{Hashes} `{Hash64 val}.
Context (body : val → val) (pred : val → bool) (id_elm : val) (bin_op : val → val → val) (le : val → val → bool).
Context (Hbody : ∀ K v, knows K v → knows K (body v)) (Hid : ∀ K, knows K id_elm)
  (Hbin : ∀ K a b, knows K a → knows K b → knows K (bin_op a b)).

Lemma sc_thunk_m K t n pp arg spur k : knows K arg → knows K spur → (∀ (K' : loc → Prop) l, more K K' → K' l → scoped K' (k l)) →
  scoped K (thunk_m t n pp arg spur k).
Proof. by constructor. Qed.
Lemma sc_memo_m K t n pp arg spur k : knows K arg → knows K spur → (∀ K' v, more K K' → knows K' v → scoped K' (k v)) →
  scoped K (memo_m t n pp arg spur k).
Proof. constructor; [done..|]. intros K' l HK Hl. constructor; [done|done|]. intros K2 v HK2 Hv. eauto using more_trans. Qed.
Lemma sc_eager_m K t n pp arg spur k : knows K arg → knows K spur →
  (∀ (K' : loc → Prop) l v, more K K' → K' l → knows K' v → scoped K' (k l v)) → scoped K (eager_m t n pp arg spur k).
Proof. constructor; [done..|]. intros K' l HK Hl. constructor; [done|done|]. intros K2 v HK2 Hv. eauto using more_trans. Qed.
Ltac km := first [done | by eapply knows_mono; eauto using more_trans | by simpl; split_and!; eauto using knows_mono, more_trans
  | by eauto 6 using knows_mono, more_trans].

Lemma sc_map_lazy F K l : knows K l → scoped K (c_map_lazy body F l).
Proof using Hbody.
  revert K l. induction F as [|F IH]; intros K l Hl; [constructor|]. apply scoped_l_elim; [done| | |]; intros.
  - by constructor.
  - apply scoped_cbind; [by apply IH|]. intros. constructor. simpl. split; [apply Hbody|]; km.
  - apply sc_thunk_m; [done..|]. intros. by constructor.
Qed.
Lemma sc_filter_lazy F K l : knows K l → scoped K (c_filter_lazy pred F l).
Proof.
  revert K l. induction F as [|F IH]; intros K l Hl; [constructor|]. apply scoped_l_elim; [done| | |]; intros.
  - by constructor.
  - destruct (pred _); [|by apply IH]. apply scoped_cbind; [by apply IH|]. intros. constructor. km.
  - apply sc_thunk_m; [done..|]. intros. by constructor.
Qed.
Lemma sc_filter_eager F K l : knows K l → scoped K (c_filter_eager pred F l).
Proof.
  revert K l. induction F as [|F IH]; intros K l Hl; [constructor|]. apply scoped_l_elim; [done| | |]; intros.
  - by constructor.
  - destruct (pred _); [|by apply IH]. apply scoped_cbind; [by apply IH|]. intros. constructor. km.
  - apply sc_eager_m; [done..|]. intros. by constructor.
Qed.
Lemma sc_map_eager F K l : knows K l → scoped K (c_map_eager body F l).
Proof using Hbody.
  revert K l. induction F as [|F IH]; intros K l Hl; [constructor|]. apply scoped_l_elim; [done| | |]; intros.
  - by constructor.
  - apply scoped_cbind; [by apply IH|]. intros. constructor. simpl. split; [apply Hbody|]; km.
  - apply sc_eager_m; [done..|]. intros. by constructor.
Qed.
Lemma sc_map_eager2 F K l : knows K l → scoped K (c_map_eager2 body F l).
Proof using Hbody.
  revert K l. induction F as [|F IH]; intros K l Hl; [constructor|]. apply scoped_l_elim; [done| | |]; intros.
  - by constructor.
  - apply scoped_cbind; [by apply IH|]. intros. constructor. simpl. split; [apply Hbody|]; km.
  - apply sc_memo_m; [done..|]. intros. constructor; [done|]. intros. by constructor.
Qed.
Lemma sc_reverse F K l rev : knows K l → knows K rev → scoped K (c_reverse F l rev).
Proof.
  revert K l rev. induction F as [|F IH]; intros K l rev Hl Hr; [constructor|]. apply scoped_l_elim; [done| | |]; intros.
  - constructor. km.
  - apply IH; km.
  - constructor; [km|]. intros. apply sc_eager_m; [km|done|]. intros. by constructor.
Qed.
Lemma sc_fold F K l r f : (∀ K a b, knows K a → knows K b → knows K (f a b)) → knows K l → knows K r → scoped K (c_fold F l r f).
Proof.
  intros Hf. revert K l r. induction F as [|F IH]; intros K l r Hl Hr; [constructor|]. apply scoped_l_elim; [done| | |]; intros.
  - constructor. km.
  - apply scoped_cbind; [apply IH; km|]. intros. constructor. apply Hf; km.
  - apply IH; km.
Qed.
Lemma sc_is_empty F K l : knows K l → scoped K (c_is_empty F l).
Proof.
  revert K l. induction F as [|F IH]; intros K l Hl; [constructor|]. apply scoped_l_elim; [done| | |]; intros; [by constructor..|by apply IH].
Qed.
Lemma sc_is_name F K l : knows K l → scoped K (c_is_name F l).
Proof. intros Hl. apply scoped_l_elim; [done| | |]; intros; by constructor. Qed.
Lemma sc_is_nil F K t : knows K t → scoped K (c_is_nil F t).
Proof. intros Hl. apply scoped_t_elim; [done| | | |]; intros; by constructor. Qed.
Lemma sc_vec F K l : knows K l → scoped K (c_vec F l).
Proof.
  revert K l. induction F as [|F IH]; intros K l Hl; [constructor|]. apply scoped_l_elim; [done| | |]; intros.
  - by constructor.
  - apply scoped_cbind; [by apply IH|]. intros. constructor. km.
  - apply scoped_cbind; [by apply IH|]. intros. constructor. km.
Qed.
Definition vec_knows (K : loc → Prop) (v : list (name_else val)) : Prop := Forall (λ e, match e with NElse x => knows K x | NName _ => True end) v.
Lemma vec_knows_mono K K' v : more K K' → vec_knows K v → vec_knows K' v.
Proof. intros HK Hv. eapply Forall_impl; [exact Hv|]. intros [n|x]; simpl; [done|]. by apply knows_mono. Qed.
Lemma sc_of_vec K v k : vec_knows K v → (∀ K' l, more K K' → knows K' l → scoped K' (k l)) → scoped K (c_of_vec v k).
Proof.
  revert K k. induction v as [|[n|x] v IH]; intros K k Hv Hk; simpl.
  - apply Hk; [apply more_refl|done].
  - apply Forall_cons in Hv as [_ Hv]. apply IH; [done|]. intros. constructor; [done|]. intros. apply Hk; [by eapply more_trans|done].
  - apply Forall_cons in Hv as [Hx Hv]. apply IH; [done|]. intros. apply Hk; [done|]. simpl. split; [|done]. km.
Qed.
(** Closures. *)
Definition ops_ok (o : fold_ops) : Prop :=
  (∀ K, scoped K (o_nil o)) ∧ (∀ K x, knows K x → scoped K (o_leaf o x)) ∧
  (∀ K n l r, knows K l → knows K r → scoped K (o_bin o n l r)) ∧ (∀ K m n l r, knows K l → knows K r → scoped K (o_name o m n l r)).
Lemma sc_fold_up F id o K t : ops_ok o → knows K t → scoped K (c_fold_up F id o t).
Proof.
  intros (O1 & O2 & O3 & O4). revert K t. induction F as [|F IH]; intros K t Ht; [constructor|]. apply scoped_t_elim; [done| | | |]; intros.
  - apply O1.
  - by apply O2.
  - apply scoped_cbind; [by apply IH|]. intros. apply scoped_cbind; [apply IH; km|]. intros. apply O3; km.
  - destruct (name_fork _) as [na nb]. apply sc_memo_m; [done..|]. intros. apply sc_memo_m; [km|done|]. intros. apply O4; km.
Qed.
Definition nm_ops_ok (o : fold_nm_ops) : Prop :=
  (∀ K i, scoped K (on_nil o i)) ∧ (∀ K i x, knows K x → scoped K (on_leaf o i x)) ∧
  (∀ K i n l r, knows K l → knows K r → scoped K (on_bin o i n l r)) ∧ (∀ K i m n l r, knows K l → knows K r → scoped K (on_name o i m n l r)).
Lemma knows_opt K i : knows K (v_opt i). Proof. by destruct i. Qed.
Lemma sc_fold_nm F id o K t i : nm_ops_ok o → knows K t → scoped K (c_fold_nm F id o t i).
Proof.
  intros (O1 & O2 & O3 & O4). revert K t i. induction F as [|F IH]; intros K t i Ht; [constructor|]. apply scoped_t_elim; [done| | | |]; intros.
  - apply O1.
  - by apply O2.
  - apply scoped_cbind; [by apply IH|]. intros. apply scoped_cbind; [apply IH; km|]. intros. apply O3; km.
  - destruct (name_fork _) as [na nb]. apply sc_memo_m; [split; [done|apply knows_opt]|done|]. intros.
    apply sc_memo_m; [split; [km|apply knows_opt]|done|]. intros. apply O4; km.
Qed.
Definition seq_ops_ok (o : seq_ops) : Prop :=
  (∀ K x r, knows K x → knows K r → scoped K (os_leaf o x r)) ∧
  (∀ K n r, knows K r → scoped K (os_bin o n r)) ∧ (∀ K m n r, knows K r → scoped K (os_name o m n r)).
Lemma sc_fold_seq F id o K t d r : seq_ops_ok o → knows K t → knows K r → scoped K (c_fold_seq F id o t d r).
Proof.
  intros (O2 & O3 & O4). revert K t r. induction F as [|F IH]; intros K t r Ht Hr; [constructor|]. apply scoped_t_elim; [done| | | |].
  - intros. constructor. km.
  - intros. apply O2; km.
  - intros K' n l rr HK Hl Hrr. assert (HX : ∃ a b, (match d with DLeft => (l, rr) | DRight => (rr, l) end) = (a, b) ∧ knows K' a ∧ knows K' b).
    { destruct d; [by exists l, rr|by exists rr, l]. } destruct HX as (a & b & -> & Ha & Hb).
    apply scoped_cbind; [apply IH; km|]. intros. apply scoped_cbind; [by apply O3|]. intros. apply IH; km.
  - intros K' m n l rr HK Hl Hrr. assert (HX : ∃ a b, (match d with DLeft => (l, rr) | DRight => (rr, l) end) = (a, b) ∧ knows K' a ∧ knows K' b).
    { destruct d; [by exists l, rr|by exists rr, l]. } destruct HX as (a & b & -> & Ha & Hb). destruct (name_fork _) as [na nb].
    apply sc_memo_m; [simpl; split_and!; km|done|]. intros. apply scoped_cbind; [by apply O4|]. intros.
    apply sc_memo_m; [simpl; split_and!; km|done|]. intros. by constructor.
Qed.
Lemma sc_tol F K d l t tl pl : knows K l → knows K t → scoped K (c_tol F d l t tl pl).
Proof.
  revert K l t tl pl. induction F as [|F IH]; intros K l t tl pl Hl Ht; [constructor|]. apply scoped_l_elim; [done| | |].
  - intros. constructor. km.
  - intros K' x rest HK Hx Hrest. cbv zeta. destruct (_ && _); [|constructor; km]. apply scoped_cbind; [apply IH; km|].
    intros K2 tr HK2 Htr. apply IH; [by apply knows_snd|]. assert (knows K2 (p_fst tr)) by (by apply knows_fst). destruct d; simpl; split_and!; km.
  - intros K' x rest HK Hrest. cbv zeta. destruct (_ && _); [|constructor; km]. destruct (name_fork _) as [na nb].
    apply sc_eager_m; [simpl; by destruct d|done|]. intros K2 l2 tr HK2 Hl2 Htr. assert (knows K2 (p_fst tr)) by (by apply knows_fst).
    assert (knows K2 (p_snd tr)) by (by apply knows_snd). constructor; [destruct d; simpl; split_and!; km|].
    intros K3 a HK3 Ha. apply sc_eager_m; [simpl; split_and!; km|done|]. intros. by constructor.
Qed.
Lemma sc_tree_of_list F K d l : knows K l → scoped K (c_tree_of_list F d l).
Proof.
  intros Hl. apply scoped_cbind; [by apply sc_tol|]. intros K1 tr HK1 Htr. apply scoped_cbind; [by apply sc_is_empty, knows_snd|].
  intros. destruct (decide _); [|constructor]. constructor. apply knows_fst. km.
Qed.
Lemma sc_niltest F K n lev l r : knows K l → knows K r → scoped K (c_niltest F n lev l r).
Proof.
  intros Hl Hr. apply scoped_cbind; [by apply sc_is_nil|]. intros. destruct (decide _); [constructor; km|].
  apply scoped_cbind; [apply sc_is_nil; km|]. intros. destruct (decide _); [constructor; km|]. destruct n as [n|]; [|constructor; km].
  destruct (name_fork _) as [na nb]. constructor; [km|]. intros. constructor; [km|]. intros. constructor. simpl. split_and!; eauto.
Qed.
Lemma sc_name_op K i v : knows K v → knows K (v_name_op i v). Proof. by destruct i. Qed.
Lemma sc_merge F K i1 l1 i2 l2 : knows K l1 → knows K l2 → scoped K (c_merge le F i1 l1 i2 l2).
Proof.
  revert K i1 l1 i2 l2. induction F as [|F IH]; intros K i1 l1 i2 l2 H1 H2; [constructor|]. apply scoped_l_elim; [done| | |].
  - intros. constructor. apply sc_name_op. km.
  - intros K1 x1 t1 HK1 Hx1 Ht1. apply scoped_l_elim; [km| | |].
    + intros. constructor. apply sc_name_op. simpl. split; km.
    + intros K2 x2 t2 HK2 Hx2 Ht2. assert (knows K2 x1) by km. assert (knows K2 t1) by km. destruct (le x1 x2).
      * cbv zeta. destruct i1 as [i1|].
        -- destruct (name_fork _). apply sc_thunk_m; [simpl; split_and!; try done; apply knows_opt|done|]. intros. constructor. simpl. split_and!; km.
        -- apply scoped_cbind; [apply IH; km|]. intros. constructor. simpl. split; km.
      * cbv zeta. destruct i2 as [i2|].
        -- destruct (name_fork _). apply sc_thunk_m; [simpl; split_and!; try done; apply knows_opt|done|]. intros. constructor. simpl. split_and!; km.
        -- apply scoped_cbind; [apply IH; km|]. intros. constructor. simpl. split; km.
    + intros. apply IH; [simpl; split; km|done].
  - intros. apply IH; km.
Qed.
Lemma sc_wrapper F K i1 l1 i2 l2 : knows K l1 → knows K l2 → scoped K (c_merge_wrapper le F i1 l1 i2 l2).
Proof. intros. constructor; [by apply sc_merge|]. intros. by constructor. Qed.
Lemma ops_of_ok F id : ops_ok (ops_of pred id_elm bin_op le F id).
Proof using Hid Hbin.
  assert (Hm : ops_ok (ops_mergesort le F)).
  { split_and!; simpl; intros; try (by constructor); by apply sc_merge. }
  assert (Hmo : ops_ok (ops_monoid id_elm bin_op)) by (split_and!; simpl; intros; constructor; auto).
  assert (He : ops_ok ops_eager) by (split_and!; simpl; intros; by constructor).
  assert (Hp : ops_ok (ops_prune F)) by (split_and!; simpl; intros; try (by constructor); by apply sc_niltest).
  assert (Hf : ops_ok (ops_filter pred F)).
  { split_and!; simpl; intros; try (by constructor); try (by constructor; [by apply sc_niltest|]; intros; by constructor).
    constructor. by destruct (pred _). }
  unfold ops_of. repeat (match goal with |- ops_ok (match ?x with _ => _ end) => destruct x end; try done).
Qed.
Lemma nm_ops_of_ok F id : nm_ops_ok (nm_ops_of le F id).
Proof.
  assert (nm_ops_ok (ops_mergesort2 le F)) by (split_and!; simpl; intros; [by constructor|constructor; by apply sc_name_op|by apply sc_wrapper..]).
  assert (nm_ops_ok (ops_mergesort3 le F)) by (split_and!; simpl; intros; [by constructor|constructor; by apply sc_name_op|by apply sc_wrapper..]).
  unfold nm_ops_of. repeat (match goal with |- nm_ops_ok (match ?x with _ => _ end) => destruct x end; try done).
Qed.
Lemma seq_ops_of_ok F id : seq_ops_ok (seq_ops_of pred F id).
Proof.
  assert (seq_ops_ok ops_list_of_tree).
  { split_and!; simpl; intros; [by constructor..|]. constructor; [done|]. intros. by constructor. }
  assert (seq_ops_ok (ops_filter_list pred F)).
  { split_and!; simpl; intros; [constructor; by destruct (pred _)|by constructor|]. apply scoped_cbind; [by apply sc_is_name|].
    intros. destruct (decide _); [constructor; km|]. constructor; [km|]. intros. by constructor. }
  unfold seq_ops_of. repeat (match goal with |- seq_ops_ok (match ?x with _ => _ end) => destruct x end; try done).
Qed.
Theorem C69_catalog_scoped F hv ha : @scoped_code (cat body pred id_elm bin_op le F hv ha).
Proof using Hbody Hid Hbin.
  intros K pp arg spur Ha Hs. simpl. unfold cat_code.
  repeat (match goal with |- scoped _ (match ?x with _ => _ end) => destruct x end; try (by constructor)).
  all: eauto 10 using sc_map_lazy, sc_filter_lazy, sc_filter_eager, sc_map_eager, sc_map_eager2, sc_reverse, sc_merge, sc_fold_up, sc_fold_nm,
    sc_fold_seq, sc_tol, knows_fst, knows_snd, ops_of_ok, nm_ops_of_ok, seq_ops_of_ok.
Qed.
End Scoped.

(** ** A history that meets the hypotheses *)
Local Instance dprog : Prog := ex_cat 30.
Lemma ex_scoped_code : scoped_code.
Proof.
  apply C69_catalog_scoped.
  - intros K v _. unfold ex_body, ex_add. by destruct v.
  - done.
  - intros K a b _ _. unfold ex_add. by destruct a, b.
Qed.
Definition dv : list (name_else val) := [NName (nu 1); NElse (VInt 1); NElse (VInt 2); NName (nu 2); NElse (VInt 3)].
(** Reverse a list (in its own namespace); misuse [list_map_eager] (C50), which panics inside of a thunk; then read the
    reversed list again through the arts handed out before the panic. *)
Definition p1 : comp := c_of_vec dv (λ l, Ns (name_of_string "r") (c_reverse 30 l v_nil) Ret).
Definition p2 : comp := Ns (name_of_string "m") (c_of_vec dv (λ l, c_map_eager ex_body 30 l)) Ret.
Definition run1 := exec 50 p1 dcg_new.
Definition run2 := exec 50 p2 run1.2.
Definition rlist : val := match run1.1 with OVal v => v | _ => VUnit end.
Definition run3 := exec 50 (c_vec 30 rlist) run2.2.
Lemma p1_scoped K : scoped K p1.
Proof.
  apply sc_of_vec; [by repeat constructor|]. intros K1 l _ Hl. constructor; [by apply sc_reverse|]. intros. by constructor.
Qed.
Lemma p2_scoped K : scoped K p2.
Proof.
  constructor; [|intros; by constructor]. apply sc_of_vec; [by repeat constructor|]. intros K1 l _ Hl. apply sc_map_eager; [|done]. intros K2 v _. unfold ex_body, ex_add. by destruct v.
Qed.
(** Steps of a history, for an abstract result. *)
Lemma history_step s k c r : history s → scoped (live s) c → exec k c s = r → history r.2.
Proof. intros Hs Hc E. destruct r as [o s']. by eapply h_step. Qed.
Lemma result_live s k c r v : scoped_code → history s → scoped (live s) c → exec k c s = r → r.1 = OVal v → knows (live r.2) v.
Proof. intros HC Hs Hc E Er. destruct r as [o s']. simpl in Er. subst o. by eapply C69_results_live. Qed.
Lemma known_later s k c r v : exec k c s = r → knows (live s) v → knows (live r.2) v.
Proof.
  intros E. apply knows_mono. intros l. apply C69_nothing_forgotten. destruct r as [o s']. eapply later_step; [exact E|apply later_refl].
Qed.
Lemma run1_eq : exec 50 p1 dcg_new = run1. Proof. unfold run1. reflexivity. Qed.
Lemma run2_eq : exec 50 p2 run1.2 = run2. Proof. unfold run2. reflexivity. Qed.
Lemma run1_val : run1.1 = OVal rlist. Proof. vm_compute. reflexivity. Qed.
Lemma C69_ex : history run1.2 ∧ history run2.2 ∧ knows (live run2.2) rlist ∧ scoped (live run2.2) (c_vec 30 rlist) ∧
  run2.1 = OPanic PCycle ∧ run3.1 = OVal (v_lname (nu 1) (v_lname (nu 2) (v_cons (VInt 3) (v_cons (VInt 2) (v_cons (VInt 1) v_nil))))).
Proof.
  assert (E1 := run1_eq). assert (E2 := run2_eq). assert (V1 := run1_val).
  assert (Hr2 : run2.1 = OPanic PCycle) by (vm_compute; reflexivity).
  assert (Hr3 : run3.1 = OVal (v_lname (nu 1) (v_lname (nu 2) (v_cons (VInt 3) (v_cons (VInt 2) (v_cons (VInt 1) v_nil)))))) by (vm_compute; reflexivity).
  split_and!; [| | | |exact Hr2|exact Hr3]; clear Hr2 Hr3;
    (assert (H1 : history run1.2) by exact (history_step _ _ _ _ (h_start false true) (p1_scoped _) E1)).
  - exact H1.
  - exact (history_step _ _ _ _ H1 (p2_scoped _) E2).
  - exact (known_later _ _ _ _ _ E2 (result_live _ _ _ _ _ ex_scoped_code (h_start false true) (p1_scoped _) E1 V1)).
  - exact (sc_vec _ _ _ (known_later _ _ _ _ _ E2 (result_live _ _ _ _ _ ex_scoped_code (h_start false true) (p1_scoped _) E1 V1))).
Qed.
