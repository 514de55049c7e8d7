(** * A concrete program: the code and hash functions used by examples and counterexamples. *)
From Verif Require Export Consistency.

Definition T0 : ty := 0%N.   (* result type of most thunks and cells, think [i64] *)
Definition T1 : ty := 1%N.   (* type of cells holding pairs *)
Definition nm (x : string) : name := Name 0 (SString x).
(** [name_fork]-like derived names *)
Definition at_ (x : string) : loc := Loc [] (IdNom (nm x)).

Definition vfst (v : val) : val := match v with VPair a _ => a | _ => VUnit end.
Definition vsnd (v : val) : val := match v with VPair _ b => b | _ => VUnit end.
Definition vadd (a b : val) : val := match a, b with VInt x, VInt y => VInt (x + y) | _, _ => VUnit end.
Definition vneg (a : val) : val := match a with VInt x => VInt (- x) | _ => VUnit end.
Definition as_art (v : val) : art := match v with VLoc l => ALoc l | VRc v => ARc v | _ => ARc v end.

(** The functions of the program. *)
Definition demo_code (pp : progpt) (arg spur : val) : comp :=
  match pp with
  | "const" => Ret arg
  | "spur" => Ret spur
  | "get" => Force T0 (as_art arg) None Ret
  (* sum of two arts *)
  | "add" => Force T0 (as_art (vfst arg)) None (λ a, Force T0 (as_art (vsnd arg)) None (λ b, Ret (vadd a b)))
  (* the first component of a cell of pairs *)
  | "fst" => ForceMap T1 (as_art arg) vfst Ret
  (* both components, through two projections *)
  | "proj2" => ForceMap T1 (as_art arg) vfst (λ a, ForceMap T1 (as_art arg) vsnd (λ b, Ret (VPair a b)))
  (* first a projection, then the whole *)
  | "projall" => ForceMap T1 (as_art arg) vfst (λ _, Force T1 (as_art arg) None (λ p, Ret (vsnd p)))
  | "abs" => ForceAbs T0 (as_art arg) (λ v, v) Ret
  (* allocate the cell "out" holding the double of an art, and return the cell *)
  | "emit" => Force T0 (as_art arg) None (λ a, Cell T0 (nm "out") (vadd a a) (λ l, Ret (VLoc l)))
  (* allocate an inner thunk in an inner namespace and force it *)
  | "outer" => Ns (nm "inner") (Thunk T0 (NCNominal (nm "t")) "get" arg VUnit (λ l, Force T0 (ALoc l) None Ret)) (λ v, Ret (vneg v))
  (* sign of an art *)
  | "sign" => Force T0 (as_art arg) None (λ a, Ret (match a with VInt z => VInt (Z.sgn z) | _ => VUnit end))
  (* force two thunks one of which allocates *)
  | "force_emit" => Force T0 (as_art arg) None (λ l, Force T0 (as_art l) None Ret)
  (* read the cell "n", then force a thunk *)
  | "readthen" => Force T0 (ALoc (at_ "n")) None (λ v, Force T0 (as_art arg) None (λ _, Ret v))
  (* allocate the cell "n" *)
  | "write5" => Cell T0 (nm "n") (VInt 5) (λ _, Ret VUnit)
  (* allocate itself again *)
  | "self" => Thunk T0 (NCNominal (nm "a")) "self" arg VUnit (λ _, Ret (VInt 0))
  (* mutual recursion through force_cycle *)
  | "cycA" => Force T0 (ALoc (at_ "b")) (Some (VInt 10)) (λ v, Ret (vadd v v))
  | "cycB" => Force T0 (ALoc (at_ "a")) (Some (VInt 10)) (λ v, Ret (vadd v (VInt 1)))
  | "boom" => Fail
  (* read cell "c": 0 -> 1, otherwise force thunk "a" *)
  | "switch" => Force T0 (ALoc (at_ "c")) None (λ v, if decide (v = VInt 0) then Ret (VInt 1) else Force T0 (ALoc (at_ "a")) None Ret)
  (* allocate a structurally named thunk and force it *)
  | "structural_get" => Thunk T0 NCStructural "get" arg VUnit (λ l, Force T0 (ALoc l) None Ret)
  | "structural_sum" => Thunk T0 NCStructural "const" (vfst arg) VUnit (λ a,
        Thunk T0 NCStructural "const" (vsnd arg) VUnit (λ b,
        Thunk T0 NCStructural "add" (VPair (VLoc a) (VLoc b)) VUnit (λ s, Force T0 (ALoc s) None Ret)))
  | "setin" => SetC T0 (as_art arg) (VInt 1) (Ret VUnit)
  | "newcell" => Cell T0 (nm "m") arg (λ l, Ret (VLoc l))
  | _ => Fail
  end%string.

(** Some injective-enough hash on the values used here (the library uses SipHash). *)
Fixpoint demo_hash (v : val) : N :=
  (match v with
  | VUnit => 0
  | VBool b => if b then 1 else 2
  | VInt z => 3 + 10 * Z.to_N (Z.abs z * 2 + (if z <? 0 then 1 else 0)%Z)
  | VStr s => 4 + 10 * N.of_nat (String.length s)
  | VName _ => 5
  | VPair a b => 6 + 10 * (demo_hash a + demo_hash b) * (demo_hash a + demo_hash b + 1) + 20 * demo_hash b
  | VInl a => 7 + 10 * demo_hash a
  | VInr a => 8 + 10 * demo_hash a
  | VRc a => 9 + 10 * demo_hash a
  | VLoc l => 10 + 10 * (match l_id l with IdStruct h => h | IdNom n => match nm_sym n with SString s => N.of_nat (String.length s) | _ => 0 end end)
  end)%N.
Definition demo : Prog := {|
  code := demo_code;
  hash_val := demo_hash;
  hash_app := λ pp v, (demo_hash (VStr pp) + 1000003 * demo_hash v)%N;
|}.
(** The same program with a hash that always collides. *)
Definition demo_collide : Prog := {| code := demo_code; hash_val := λ _, 0%N; hash_app := λ _ _, 0%N |}.

(** ** Decidable checks, for concrete programs *)
Lemma returns_intro `{Prog} k c s v :
  (exec k c s).1 = OVal v → returns c s v (exec k c s).2.
Proof.
  intros E. exists k. intros k' Hk. eapply exec_fuel_mono; [|done|exact Hk]. rewrite <- E. by destruct (exec k c s).
Qed.
Lemma from_scratch_intro `{Prog} n md c v :
  match ref_exec n md c (RState ∅ []) with ROk w _ => w = v | _ => False end →
  ∃ σ, from_scratch md c v σ.
Proof.
  destruct (ref_exec n md c (RState ∅ [])) as [w [σ lg]|r|] eqn:E; try done. intros ->. exists σ, n, lg. done.
Qed.
Lemma disciplined_intro `{Prog} n opt md c :
  match d_exec opt md n c (d_init ∅) with Some _ => true | None => false end = true → disciplined opt md c.
Proof. destruct (d_exec opt md n c (d_init ∅)) as [[v p]|] eqn:E; [|done]. intros _. by exists n, v, p. Qed.

(** The program returns [v] when nothing is cached, but [v'] under the incremental engine. *)
Definition stale (P : Prog) (c : comp) (v v' : val) : Prop :=
  (∃ σ, @from_scratch P false c v σ) ∧ (∃ s, @returns P c dcg_new v' s) ∧ v ≠ v'.
Lemma stale_intro (P : Prog) k n c v v' :
  match @ref_exec P n false c (RState ∅ []) with ROk w _ => w = v | _ => False end →
  (@exec P k c dcg_new).1 = OVal v' → v ≠ v' → stale P c v v'.
Proof.
  intros H1 H2 H3. split; [by eapply from_scratch_intro|]. split; [|done]. eexists. by eapply returns_intro.
Qed.
(** It returns [v] when nothing is cached, but panics (whatever the budget) under the incremental engine. *)
Definition crashes (P : Prog) (c : comp) (v : val) (r : reason) : Prop :=
  (∃ σ, @from_scratch P false c v σ) ∧
  ∃ K s, ∀ k, (K ≤ k)%nat → @exec P k c dcg_new = (OPanic r, s).
Lemma crashes_intro (P : Prog) k n c v r :
  match @ref_exec P n false c (RState ∅ []) with ROk w _ => w = v | _ => False end →
  (@exec P k c dcg_new).1 = OPanic r → crashes P c v r.
Proof.
  intros H1 H2. split; [by eapply from_scratch_intro|]. exists k, (@exec P k c dcg_new).2. intros k' Hk.
  eapply exec_fuel_mono; [|done|exact Hk]. rewrite <- H2. by destruct (@exec P k c dcg_new).
Qed.
