(** * C63: the macros (src/macros.rs), and what they take as the identity of a thunk.

    A macro invocation is modelled by the program it expands to.  [stringify!(e)] is the text of [e].  A Rust closure is a
    value [clo]: its code together with the values it has captured; at a program point whose text does not determine the
    code, [code pp arg clo] is the body of that closure. *)
From Verif Require Export Limits Demo Exact Names.
Local Open Scope string_scope.
Local Open Scope list_scope.

(** ** The expansions *)
(** macros.rs:86-96 [get!] *)
Definition get_m (t : ty) (a : art) (k : val → comp) : comp := Force t a None k.
Definition get_cycle_m (t : ty) (a : art) (o : val) (k : val → comp) : comp := Force t a (Some o) k.
(** macros.rs:159-171 [cell!]: the arm [\[nm\]? value] *)
Definition cell_opt_m (t : ty) (on : option name) (v : val) (k : art → comp) : comp :=
  match on with Some n => Cell t n v (λ l, k (ALoc l)) | None => k (put v) end.
(** ... the arms [\[ident\] value] and [value]; [ctr] is what [bump_name_counter] returned *)
Definition cell_m (t : ty) (n : name) (v : val) (k : art → comp) : comp := cell_opt_m t (Some n) v k.
(** macros.rs:352-356: [match $nmop { None => NameChoice::Eager, Some(n) => NameChoice::Nominal(n) }] *)
Definition choice_of (on : option name) : namechoice := match on with None => NCEager | Some n => NCNominal n end.
(** The argument tuple [( $( $arg ),*, () )] *)
Definition args_of (xs : list val) : val := foldr VPair VUnit xs.
(** macros.rs:349-361 [thunk!(\[nmop\]? fun; lab:arg, ...)]; [clo] is what the function expression has captured *)
Definition thunk_fun_m (t : ty) (on : option name) (text : progpt) (clo : val) (xs : list val) (k : loc → comp) : comp :=
  Thunk t (choice_of on) text (args_of xs) clo k.
(** macros.rs:363-381 [... ;; lab2:arg2, ...] *)
Definition thunk_spur_m (t : ty) (on : option name) (text : progpt) (clo : val) (xs ys : list val) (k : loc → comp) : comp :=
  Thunk t (choice_of on) text (args_of xs) (VPair clo (args_of ys)) k.
(** macros.rs:405-414 [thunk!\[\[nmop\]? body\]] *)
Definition thunk_body_m (t : ty) (on : option name) (text : progpt) (clo : val) (k : loc → comp) : comp :=
  Thunk t (choice_of on) text VUnit clo k.
(** macros.rs:416-424 [thunk!\[\[ident\] body\]]: the program point is [stringify!($fun)], but this arm binds no [$fun]: the
    text is the same for every use of the arm. *)
Definition thunk_ident_m (t : ty) (n : name) (clo : val) (k : loc → comp) : comp :=
  Thunk t (NCNominal n) "$fun" VUnit clo k.
(** macros.rs:635-650 [memo!] *)
Definition memo_fun_m (t : ty) (on : option name) (text : progpt) (clo : val) (xs : list val) (k : loc → val → comp) : comp :=
  thunk_fun_m t on text clo xs (λ l, get_m t (ALoc l) (k l)).
Definition memo_spur_m (t : ty) (on : option name) (text : progpt) (clo : val) (xs ys : list val) (k : loc → val → comp) : comp :=
  thunk_spur_m t on text clo xs ys (λ l, get_m t (ALoc l) (k l)).
(** macros.rs:655-728 [eager!]: with a name, and structural *)
Definition eager_m (t : ty) (n : name) (text : progpt) (xs : val) (k : loc → val → comp) : comp :=
  Thunk t (NCNominal n) text xs VUnit (λ l, Force t (ALoc l) None (k l)).
Definition eager_struct_m (t : ty) (text : progpt) (xs : val) (k : loc → val → comp) : comp :=
  Thunk t NCStructural text xs VUnit (λ l, Force t (ALoc l) None (k l)).
(** macros.rs:764-774 [let_cell!], one binding and several *)
Definition let_cell_m (t : ty) (n : name) (v : val) (body : loc → comp) : comp := Cell t n v body.
(** macros.rs:783-791 [let_thunk!]: the name is the variable; the text is that of the right-hand side *)
Definition let_thunk_m (t : ty) (n : name) (text : progpt) (clo : val) (body : loc → comp) : comp := thunk_body_m t (Some n) text clo body.
(** macros.rs:898-908 [let_memo!]: [let thk = thunk!(\[thk\] {rhs}); let x = get!(thk); body] *)
Definition let_memo_m (t : ty) (n : name) (clo : val) (body : val → comp) : comp := thunk_ident_m t n clo (λ l, get_m t (ALoc l) body).
(** ** What the macros do *)
Section Macros.
Context `{Prog}.

(** The thunk of this type that name [n] stands for here. *)
Definition named (s : dcg) (t : ty) (n : name) (c : compnode) : Prop :=
  structf s = false ∧ table s !! Loc (cpath s) (IdNom n) = Some (NComp c) ∧ c_ty c = t.

(** [thunk!\[\[ident\] body\]] and [let_memo!]: if the name has been used before by this form, the new body, and what it
    captures, are ignored altogether: whatever [clo'] is put in place of [clo], the engine does exactly the same. *)
Lemma thunk_match t n pp arg clo s c : named s t n c → c_pp c = pp → c_arg c = arg →
  thunk_op t (NCNominal n) pp arg clo s =
  (emit (EvBegin (TAlloc (LocExists ContentSame) KThunk) (cur_loc s) (Loc (cpath s) (IdNom n))) ;!
   ret tt ;! emit EvEnd ;! push_edge (Succ false (Loc (cpath s) (IdNom n)) Allocate (DAllocThunk arg)) None ;!
   ret tt ;! ret (Loc (cpath s) (IdNom n))) s.
Proof.
  intros (Hm & Hl & Ht) Hp Ha. unfold thunk_op. rewrite !(bind_val Engine.get _ s s s) by done. rewrite Hm. cbv zeta. rewrite Hl.
  etransitivity.
  - eapply (bind_val _ _ s (false, false, false) s). rewrite (bind_val _ _ s tt s); [by rewrite decide_True, decide_True by done|].
    cbn [node_ty]. by rewrite bool_decide_true.
  - done.
Qed.
Lemma thunk_again t n pp arg clo s c : named s t n c → c_pp c = pp → c_arg c = arg →
  thunk_op t (NCNominal n) pp arg clo s = thunk_op t (NCNominal n) pp arg (c_spur c) s.
Proof. intros Hn Hp Ha. by rewrite !(thunk_match _ _ _ _ _ _ c). Qed.

(** C63.  Whatever the new closure, nothing changes; with any continuation, at any depth of evaluation. *)
Theorem C63_ident_body_ignored t n clo clo' s c frc k :
  named s t n c → c_pp c = "$fun" → c_arg c = VUnit →
  run frc (thunk_ident_m t n clo k) s = run frc (thunk_ident_m t n clo' k) s.
Proof.
  intros Hn Hp Ha. unfold thunk_ident_m. cbn [run]. unfold bind.
  by rewrite (thunk_again t n _ _ clo s c Hn Hp Ha), (thunk_again t n _ _ clo' s c Hn Hp Ha).
Qed.
Corollary C63_let_memo_body_ignored t n clo clo' s c f k :
  named s t n c → c_pp c = "$fun" → c_arg c = VUnit →
  exec f (let_memo_m t n clo k) s = exec f (let_memo_m t n clo' k) s.
Proof. intros Hn Hp Ha. by apply (C63_ident_body_ignored t n clo clo' s c). Qed.

(** The same holds of what a function expression captures and of the arguments after [;;], if name, text and arguments
    are those of last time: as the documentation says, they are "stored and never updated". *)
Theorem C63_captured_ignored t n text clo clo' xs s c frc k :
  named s t n c → c_pp c = text → c_arg c = args_of xs →
  run frc (thunk_fun_m t (Some n) text clo xs k) s = run frc (thunk_fun_m t (Some n) text clo' xs k) s.
Proof.
  intros Hn Hp Ha. unfold thunk_fun_m. cbn [run choice_of]. unfold bind.
  by rewrite (thunk_again t n _ _ clo s c Hn Hp Ha), (thunk_again t n _ _ clo' s c Hn Hp Ha).
Qed.
Theorem C63_spurious_ignored t n text clo xs ys ys' s c frc k :
  named s t n c → c_pp c = text → c_arg c = args_of xs →
  run frc (thunk_spur_m t (Some n) text clo xs ys k) s = run frc (thunk_spur_m t (Some n) text clo xs ys' k) s.
Proof.
  intros Hn Hp Ha. unfold thunk_spur_m. cbn [run choice_of]. unfold bind.
  by rewrite (thunk_again t n _ _ (VPair clo (args_of ys)) s c Hn Hp Ha), (thunk_again t n _ _ (VPair clo (args_of ys')) s c Hn Hp Ha).
Qed.

(** The other arms take the text for the identity of the function: with another text they panic, and nothing happens. *)
Theorem C63_text_changed_panics t n text clo xs s c frc :
  named s t n c → c_pp c ≠ text →
  (∀ k, run frc (thunk_fun_m t (Some n) text clo xs k) s = (OPanic PFun, s)) ∧
  (∀ ys k, run frc (thunk_spur_m t (Some n) text clo xs ys k) s = (OPanic PFun, s)) ∧
  (∀ k, run frc (thunk_body_m t (Some n) text clo k) s = (OPanic PFun, s)) ∧
  (∀ k, run frc (let_thunk_m t n text clo k) s = (OPanic PFun, s)) ∧
  (∀ k, run frc (memo_fun_m t (Some n) text clo xs k) s = (OPanic PFun, s)).
Proof.
  intros (Hm & Hl & Ht) Hp.
  assert (∀ arg spur k, run frc (Thunk t (NCNominal n) text arg spur k) s = (OPanic PFun, s)) as Hgen.
  { intros arg spur k. cbn [run]. apply bind_panic. by apply (C16_different_function_panics _ _ _ _ _ _ c). }
  split; [|split; [|split; [|split]]]; intros; apply Hgen.
Qed.

(** [None]: every form of [thunk!] and [memo!] panics, in every state, and nothing happens; [cell!] does not use the
    engine, and the cell it makes gives its value in every state and leaves no trace in the graph. *)
Theorem C63_none t text clo xs ys s frc :
  (∀ k, ∃ r, run frc (thunk_fun_m t None text clo xs k) s = (OPanic r, s)) ∧
  (∀ k, ∃ r, run frc (thunk_spur_m t None text clo xs ys k) s = (OPanic r, s)) ∧
  (∀ k, ∃ r, run frc (thunk_body_m t None text clo k) s = (OPanic r, s)) ∧
  (∀ k, ∃ r, run frc (memo_fun_m t None text clo xs k) s = (OPanic r, s)) ∧
  (∀ k, ∃ r, run frc (memo_spur_m t None text clo xs ys k) s = (OPanic r, s)) ∧
  (∀ v k, run frc (cell_opt_m t None v (λ a, get_m t a k)) s = run frc (k v) s).
Proof.
  assert (∀ arg spur k, ∃ r, run frc (Thunk t NCEager text arg spur k) s = (OPanic r, s)) as Hgen.
  { intros arg spur k. destruct (C24_eager_naive_panic s t NCEager text arg spur) as (r & E); [by left|]. exists r. cbn [run]. by apply bind_panic. }
  split; [|split; [|split; [|split; [|split]]]]; intros; [apply Hgen..|]. done.
Qed.

(** So a use of [let_memo!] whose variable has an up-to-date thunk gives that thunk's value, whatever the body. *)
Theorem C63_second_body_gets_first_value t n clo' s c v f :
  named s t n c → c_pp c = "$fun" → c_arg c = VUnit → stack s = [] → up_to_date s t (Loc (cpath s) (IdNom n)) v →
  ∃ s', exec (S f) (let_memo_m t n clo' Ret) s = (OVal v, s') ∧ runs s' = runs s ∧ table s' = table s.
Proof.
  intros Hn Hp Ha Hst Hu. assert (Hn' := Hn). destruct Hn' as (Hm & Hl & Ht).
  assert (∃ s1, thunk_op t (NCNominal n) "$fun" VUnit clo' s = (OVal (Loc (cpath s) (IdNom n)), s1) ∧ table s1 = table s ∧ runs s1 = runs s ∧ stack s1 = []) as (s1 & E & H1 & H2 & H3).
  { rewrite (thunk_match _ _ _ _ _ _ c Hn Hp Ha). eexists. split; [|split; [|split]].
    - unfold bind, emit, modify, ret. cbn. unfold push_edge, bind. cbn. rewrite Hst. reflexivity.
    - done.
    - done.
    - done. }
  destruct (force_up_to_date f t (Loc (cpath s) (IdNom n)) None s1 v) as (s2 & E2 & F1 & F2 & F3 & F4 & F5 & F6).
  { unfold up_to_date. by rewrite H1. }
  { rewrite H3. cbn. by intros ?%elem_of_nil. }
  exists s2. split; [|split].
  - unfold exec, let_memo_m, thunk_ident_m. cbn [run]. rewrite (bind_val _ _ s _ s1 E). unfold get_m. cbn [run force_art].
    by rewrite (bind_val _ _ s1 v s2 E2).
  - congruence.
  - congruence.
Qed.
End Macros.

(** ** Captured variables and arguments
    The same function of a cell, written with [let_memo!] (the body captures the cell) and with [memo!] (the cell is an
    argument), each used twice, for two cells. *)
Section Captured.
Context (g : val → val).
Definition cap_code (pp : progpt) (arg clo : val) : comp :=
  match pp, arg with
  | "$fun", _ => Force T0 (as_art clo) None (λ x, Ret (g x))
  | "|a| g(get!(a))", VPair a _ => Force T0 (as_art a) None (λ x, Ret (g x))
  | _, _ => Fail
  end.
Definition cap_prog : Prog := {| code := cap_code; hash_val _ := 0%N; hash_app _ _ := 0%N |}.
Local Existing Instance cap_prog.
(** [let_memo!{d = (f) = {g(get!(a))}; d}] and [memo!(\[Some(name_of_str("f"))\]? |a| g(get!(a)); a:a).1] *)
Definition with_let_memo (a : loc) (k : val → comp) : comp := let_memo_m T0 (nm "f") (VLoc a) k.
Definition with_memo (a : loc) (k : val → comp) : comp := memo_fun_m T0 (Some (nm "f")) "|a| g(get!(a))" VUnit [VLoc a] (λ _, k).
Definition for_two_cells (m : loc → (val → comp) → comp) (v1 v2 : val) : comp :=
  let_cell_m T0 (nm "a") v1 (λ a, let_cell_m T0 (nm "b") v2 (λ b, m a (λ x, m b (λ y, Ret (VPair x y))))).

(** The value for the second cell is that of the first with [let_memo!], and the right one with [memo!]; for every
    function and all values. *)
Theorem C63_captured_variable opt v1 v2 : ∃ s,
  returns (for_two_cells with_let_memo v1 v2) (dcg_new_flags false opt) (VPair (g v1) (g v1)) s.
Proof.
  set (r := exec 4 (for_two_cells with_let_memo v1 v2) (dcg_new_flags false opt)).
  exists r.2. exists 4%nat. intros k Hk. eapply exec_fuel_mono; [|done|exact Hk].
  change (r = (OVal (VPair (g v1) (g v1)), r.2)). assert (r.1 = OVal (VPair (g v1) (g v1))) as <-; [|apply surjective_pairing].
  subst r. destruct opt; vm_compute; reflexivity.
Qed.
Theorem C63_argument opt v1 v2 : ∃ s,
  returns (for_two_cells with_memo v1 v2) (dcg_new_flags false opt) (VPair (g v1) (g v2)) s.
Proof.
  set (r := exec 4 (for_two_cells with_memo v1 v2) (dcg_new_flags false opt)).
  exists r.2. exists 4%nat. intros k Hk. eapply exec_fuel_mono; [|done|exact Hk].
  change (r = (OVal (VPair (g v1) (g v2)), r.2)). assert (r.1 = OVal (VPair (g v1) (g v2))) as <-; [|apply surjective_pairing].
  subst r. destruct opt; vm_compute; reflexivity.
Qed.
(** The hypotheses of the theorems above are met after the first [let_memo!]. *)
Lemma ex_second_use v1 : let s := (exec 4 (let_cell_m T0 (nm "a") v1 (λ a, with_let_memo a Ret)) dcg_new).2 in
  ∃ c, named s T0 (nm "f") c ∧ c_pp c = "$fun" ∧ c_arg c = VUnit ∧ c_spur c = VLoc (at_ "a") ∧ stack s = [] ∧ up_to_date s T0 (at_ "f") (g v1).
Proof.
  intros s. assert (∃ c, table s !! at_ "f" = Some (NComp c)) as (c & Hc) by (subst s; vm_compute; eexists; reflexivity).
  assert (stack s = [] ∧ structf s = false ∧ cpath s = []) as (H1 & H2 & H3) by (subst s; vm_compute; split_and!; reflexivity).
  exists c. revert Hc. unfold named, up_to_date. rewrite H3. change (Loc [] (IdNom (nm "f"))) with (at_ "f"). intros Hc. rewrite Hc.
  assert (c_ty c = T0 ∧ c_pp c = "$fun" ∧ c_arg c = VUnit ∧ c_spur c = VLoc (at_ "a") ∧ c_res c = Some (g v1) ∧ forallb (λ e, negb (s_dirty e)) (c_succs c) = true) as (E1 & E2 & E3 & E4 & E5 & E6).
  { clear H1 H2 H3. subst s. revert Hc. vm_compute. intros [= <-]. split_and!; reflexivity. }
  split_and!; try done. intros e He. unfold bit. destruct (find_succ_elem _ _ He) as (e' & He'). rewrite He'. simpl. f_equal.
  apply find_succ_Some in He' as [Hin _]. rewrite forallb_forall in E6. apply elem_of_list_In in Hin. specialize (E6 _ Hin). by destruct (s_dirty e').
Qed.
End Captured.
