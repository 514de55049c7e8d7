(** * The engine with a test of its state at the beginning and end of its operations.

    engine.rs calls [wf::check_dcg] when [cell], [set], [thunk] and [force] begin and when they end: 1537, 1616 ([cell]);
    1621, 1624 ([set]); 1635, 1657, 1693, 1699, 1803, 1807 ([thunk]); 1949, 2079 ([force]).  [force_map] and [force_abs]
    do not call it, except through the [force] they delegate to.  Here the test is any [ok : dcg → bool]; a state that
    fails it makes the program panic.  The test itself changes nothing.  [WfCheck.v] puts the test of the code in its place.
    Simplification: [thunk] tests twice or thrice in a row in the same state (1635 and 1657, 1635 and 1699), and does not
    test again when it returns early because the node exists (1666: the state is the one tested at 1657); here it is
    tested once at the beginning and once at the end. *)
From Verif Require Export Fuel.

Section Watch.
Context `{Prog}.
Section Engine.
Context (ok : dcg → bool).
(** engine.rs:2691 [check_dcg], abstractly *)
Definition wlook : M unit := λ s, if ok s then (OVal tt, s) else (OPanic PAssert, s).
Definition watched {A} (m : M A) : M A := wlook ;! let! a := m in wlook ;! ret a.
(** [Engine.run], with the tests *)
Fixpoint wrun (frc : ty → loc → option val → M val) (c : comp) : M val :=
  match c with
  | Ret v => ret v
  | Fail => panic PUser
  | Force t a cyc k => let! v := match a with ARc v => wlook ;! ret v | ALoc l => frc t l cyc end in wrun frc (k v)
  | ForceMap t a f k => let! v := force_map_art frc t a f in wrun frc (k v)
  | ForceAbs t a f k => let! v := force_abs_art frc t a f in wrun frc (k v)
  | Cell t n v k => let! l := watched (cell_op t n v) in wrun frc (k l)
  | Thunk t nc pp arg spur k => let! l := watched (thunk_op t nc pp arg spur) in wrun frc (k l)
  | SetC t a v k => watched (set_op t a v) ;! wrun frc k
  | Ns n b k =>
      let! s := get in
      modify (set_cpath (n :: cpath s)) ;!
      let! v := wrun frc b in
      modify (set_cpath (cpath s)) ;!
      wrun frc (k v)
  | Structural b k =>
      let! s := get in
      modify (set_structf true) ;!
      let! v := wrun frc b in
      modify (set_structf (structf s)) ;!
      wrun frc (k v)
  end.
(** [Engine.produce_body], with the tests *)
Definition wproduce_body (frc : ty → loc → option val → M val) (t : ty) (l : loc) : M val :=
  let! (c, prev) := produce_begin t l in
  modify (add_run l) ;!
  let! r := wrun frc (code (c_pp c) (c_arg c) (c_spur c)) in
  produce_end t l prev r ;!
  ret r.
Definition wforce_loc (prod : ty → loc → M val) (cln : ty → val → loc → M bool) (t : ty) (l : loc) (cyc : option val) : M val :=
  watched (force_loc prod cln t l cyc).
(** [Engine.produce], [Engine.clean], [Engine.force], [Engine.exec], with the tests.  Cleaning itself tests nothing. *)
Fixpoint wproduce (n : nat) (t : ty) (l : loc) : M val :=
  match n with
  | O => nofuel
  | S n => wproduce_body (wforce_loc (wproduce n) (wclean n)) t l
  end
with wclean (n : nat) (t : ty) (w : val) (l : loc) : M bool :=
  match n with
  | O => nofuel
  | S n => clean_body (wproduce n) (wclean n) t w l
  end.
Definition wforce (n : nat) : ty → loc → option val → M val := wforce_loc (wproduce n) (wclean n).
Definition wexec (n : nat) (c : comp) : M val := wrun (wforce n) c.
End Engine.

(** ** A run that passes one test passes another, if the latter is weaker on the states that occur *)
Section Weaker.
Context (ok ok' : dcg → bool) (J : dcg → Prop) (Hok : ∀ s, J s → ok s = true → ok' s = true).
Definition kp {A} (m : M A) : Prop := ∀ s, J s → J (m s).2.
Context (Kemit : ∀ e, kp (emit e)) (Kpath : ∀ p, kp (modify (set_cpath p))) (Kstr : ∀ b, kp (modify (set_structf b)))
  (Krun : ∀ l, kp (modify (add_run l))) (Kpush : ∀ e d, kp (push_edge e d)) (Kcell : ∀ t n v, kp (cell_op t n v))
  (Kthunk : ∀ t nc pp arg spur, kp (thunk_op t nc pp arg spur)) (Kset : ∀ t a v, kp (set_op t a v))
  (Kbegin : ∀ t l, kp (produce_begin t l)) (Kend : ∀ t l prev r, kp (produce_end t l prev r))
  (Kdirty : ∀ b src eff tgt, kp (set_dirty b src eff tgt)).
Local Set Default Proof Using "All".
Definition wmle {A} (m m' : M A) : Prop := ∀ s, J s → J (m s).2 ∧ ∀ a s', m s = (OVal a, s') → m' s = (OVal a, s').
Lemma wmle_kp {A} (m : M A) : kp m → wmle m m.
Proof. intros Hk s Hs. split; [by apply Hk|done]. Qed.
Lemma wmle_bind {A B} (m m' : M A) (f f' : A → M B) : wmle m m' → (∀ a, wmle (f a) (f' a)) → wmle (bind m f) (bind m' f').
Proof.
  intros Hm Hf s Hs. destruct (Hm s Hs) as [H1 H2]. unfold bind. destruct (m s) as [[a|r|] s1] eqn:E; [|by split..].
  rewrite (H2 a s1 eq_refl). apply (Hf a s1 H1).
Qed.
Lemma wmle_quiet {A} (m : M A) : (∀ s, (m s).2 = s) → wmle m m.
Proof. intros Hq s Hs. split; [by rewrite Hq|done]. Qed.
Lemma wlook_wmle : wmle (wlook ok) (wlook ok').
Proof.
  intros s Hs. unfold wlook. destruct (ok s) eqn:E; (split; [done|]); [|done]. intros a s' [= <- <-]. by rewrite (Hok s Hs E).
Qed.
Lemma res_node_quiet t l s : (res_node t l s).2 = s.
Proof. unfold res_node, lookup_abs, bind, Engine.get. destruct (table s !! l) as [nd|]; simpl; [|done]. unfold assert. by destruct (bool_decide _). Qed.
Lemma get_dirty_quiet src eff tgt s : (get_dirty src eff tgt s).2 = s.
Proof. unfold get_dirty, lookup_abs, bind, Engine.get. destruct (table s !! src) as [[| |c]|]; simpl; try done. by destruct (find_succ _ _ _). Qed.
Lemma check_map_quiet t f w l s : (check_force_map_dep t f w l s).2 = s.
Proof.
  unfold check_force_map_dep. assert (Hq := res_node_quiet t l s). unfold bind. destruct (res_node t l s) as [[[]| |] s1]; simpl in *; done.
Qed.
Ltac wl := repeat first
  [ assumption | apply wlook_wmle | apply wmle_kp; solve [auto] | apply wmle_quiet; solve [done | apply res_node_quiet | apply get_dirty_quiet | apply check_map_quiet | intros ?; unfold assert; by case_match]
  | apply wmle_bind; [|intros ?] | match goal with
    | |- wmle (match ?x with _ => _ end) _ => destruct x
    | |- wmle (let '(_, _) := ?x in _) _ => destruct x end ].
Lemma watched_wmle {A} (m m' : M A) : wmle m m' → wmle (watched ok m) (watched ok' m').
Proof. intros Hm. unfold watched. wl. Qed.
Lemma finish_wmle l dup pure t r : wmle (force_finish l dup pure t r) (force_finish l dup pure t r).
Proof. unfold force_finish. wl. Qed.
Lemma force_loc_wmle prod prod' cln cln' t l cyc :
  (∀ t l, wmle (prod t l) (prod' t l)) → (∀ t w l, wmle (cln t w l) (cln' t w l)) →
  wmle (force_loc prod cln t l cyc) (force_loc prod' cln' t l cyc).
Proof. intros Hp Hc. unfold force_loc. wl; auto using finish_wmle. Qed.
Lemma wrun_wmle frc frc' c : (∀ t l cyc, wmle (frc t l cyc) (frc' t l cyc)) → wmle (wrun ok frc c) (wrun ok' frc' c).
Proof.
  intros Hf. induction c; simpl; unfold force_map_art, force_abs_art; wl; auto; apply watched_wmle; wl.
Qed.
Lemma wproduce_body_wmle frc frc' t l :
  (∀ t l cyc, wmle (frc t l cyc) (frc' t l cyc)) → wmle (wproduce_body ok frc t l) (wproduce_body ok' frc' t l).
Proof. intros Hf. unfold wproduce_body. wl. by apply wrun_wmle. Qed.
Lemma clean_comp_wmle prod prod' cln cln' t w l cache es :
  (∀ t l, wmle (prod t l) (prod' t l)) → (∀ t w l, wmle (cln t w l) (cln' t w l)) →
  wmle (clean_comp prod cln t w l cache es) (clean_comp prod' cln' t w l cache es).
Proof.
  intros Hp Hc. induction es as [|e es IH]; simpl; [wl|].
  wl; auto. unfold dep_clean. wl; auto.
Qed.
Lemma clean_body_wmle prod prod' cln cln' t w l :
  (∀ t l, wmle (prod t l) (prod' t l)) → (∀ t w l, wmle (cln t w l) (cln' t w l)) →
  wmle (clean_body prod cln t w l) (clean_body prod' cln' t w l).
Proof. intros Hp Hc. unfold clean_body. wl; auto. by apply clean_comp_wmle. Qed.
Lemma wproduce_wclean_wmle n :
  (∀ t l, wmle (wproduce ok n t l) (wproduce ok' n t l)) ∧ (∀ t w l, wmle (wclean ok n t w l) (wclean ok' n t w l)).
Proof.
  induction n as [|n [IHp IHc]].
  - split; intros; by apply wmle_quiet.
  - split; intros; simpl.
    + apply wproduce_body_wmle. intros. by apply watched_wmle, force_loc_wmle.
    + by apply clean_body_wmle.
Qed.
Lemma wforce_wmle n t l cyc : wmle (wforce ok n t l cyc) (wforce ok' n t l cyc).
Proof. apply watched_wmle, force_loc_wmle; apply wproduce_wclean_wmle. Qed.
Lemma wexec_wmle n c : wmle (wexec ok n c) (wexec ok' n c).
Proof. apply wrun_wmle. intros. apply wforce_wmle. Qed.
End Weaker.

(** ** Without the tests *)
Section Plain.
Context (ok : dcg → bool).
(** whenever the engine with the tests returns, the engine without them returns the same in the same state *)
Definition wgives {A} (m m' : M A) : Prop := ∀ s a s', m s = (OVal a, s') → m' s = (OVal a, s').
Lemma gives_refl {A} (m : M A) : wgives m m.
Proof. by intros s a s'. Qed.
Lemma gives_bind {A B} (m m' : M A) (f f' : A → M B) : wgives m m' → (∀ a, wgives (f a) (f' a)) → wgives (bind m f) (bind m' f').
Proof.
  intros Hm Hf s b s' E. unfold bind in *. destruct (m s) as [[a|r|] s1] eqn:Em; try done.
  rewrite (Hm _ _ _ Em). by apply Hf.
Qed.
Lemma watched_wgives {A} (m m' : M A) : wgives m m' → wgives (watched ok m) m'.
Proof.
  intros Hm s a s'. unfold watched, wlook, bind. destruct (ok s); [|done]. destruct (m s) as [[a1|r|] s1] eqn:E; try done.
  destruct (ok s1); [|done]. intros [= <- <-]. by apply Hm.
Qed.
Ltac gl := repeat first
  [ apply gives_refl | assumption | apply watched_wgives | apply gives_bind; [|intros ?] | match goal with
    | |- wgives (match ?x with _ => _ end) _ => destruct x
    | |- wgives (let '(_, _) := ?x in _) _ => destruct x end ].
Lemma force_loc_wgives prod prod' cln cln' t l cyc :
  (∀ t l, wgives (prod t l) (prod' t l)) → (∀ t w l, wgives (cln t w l) (cln' t w l)) →
  wgives (force_loc prod cln t l cyc) (force_loc prod' cln' t l cyc).
Proof. intros Hp Hc. unfold force_loc. gl; auto. Qed.
Lemma wrun_wgives frc frc' c : (∀ t l cyc, wgives (frc t l cyc) (frc' t l cyc)) → wgives (wrun ok frc c) (run frc' c).
Proof.
  intros Hf. induction c; simpl; unfold force_art, force_map_art, force_abs_art; gl; auto.
  intros s a s'. unfold wlook, bind. by destruct (ok s).
Qed.
Lemma wproduce_body_wgives frc frc' t l :
  (∀ t l cyc, wgives (frc t l cyc) (frc' t l cyc)) → wgives (wproduce_body ok frc t l) (produce_body frc' t l).
Proof. intros Hf. unfold wproduce_body, produce_body. gl. by apply wrun_wgives. Qed.
Lemma clean_comp_wgives prod prod' cln cln' t w l cache es :
  (∀ t l, wgives (prod t l) (prod' t l)) → (∀ t w l, wgives (cln t w l) (cln' t w l)) →
  wgives (clean_comp prod cln t w l cache es) (clean_comp prod' cln' t w l cache es).
Proof.
  intros Hp Hc. induction es as [|e es IH]; simpl; [gl|].
  gl; auto. unfold dep_clean. gl; auto.
Qed.
Lemma wproduce_wclean_wgives n :
  (∀ t l, wgives (wproduce ok n t l) (produce n t l)) ∧ (∀ t w l, wgives (wclean ok n t w l) (clean n t w l)).
Proof.
  induction n as [|n [IHp IHc]].
  - by split.
  - split; intros; simpl.
    + apply wproduce_body_wgives. intros. by apply watched_wgives, force_loc_wgives.
    + unfold clean_body. gl; auto. by apply clean_comp_wgives.
Qed.
Lemma wforce_wgives n t l cyc : wgives (wforce ok n t l cyc) (force n t l cyc).
Proof. apply watched_wgives, force_loc_wgives; apply wproduce_wclean_wgives. Qed.
Lemma wexec_wgives n c : wgives (wexec ok n c) (exec n c).
Proof. apply wrun_wgives. intros. apply wforce_wgives. Qed.
End Plain.
End Watch.
