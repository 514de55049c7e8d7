(** * Concrete instances: the hypotheses of the theorems are met by ordinary programs.

    The program (functions in [Demo.v]): cells [a], [b] and [p]; [sum] adds [a] and [b]; [o] allocates, in an
    inner namespace, a thunk reading [sum], forces it and negates the result; [e] allocates a cell "out" holding
    twice the value of [o] and returns it; [fe] forces [e] and then the cell it returned; [f] reads the first
    component of [p] through [force_map]; [st] builds structurally named thunks and forces them. *)
From Verif Require Export EngineProps Static Refuted.
Local Open Scope string_scope.

Definition ex_setup : comp :=
  cell0 "a" 1 (λ a,
  cell0 "b" 2 (λ b,
  Cell T1 (nm "p") (VPair (VInt 1) (VInt 2)) (λ p,
  thunk0 "sum" "add" (VPair (VLoc a) (VLoc b)) (λ sum,
  thunk0 "o" "outer" (VLoc sum) (λ o,
  thunk0 "e" "emit" (VLoc o) (λ e,
  thunk0 "fe" "force_emit" (VLoc e) (λ fe,
  thunk0 "f" "fst" (VLoc p) (λ f,
  thunk0 "st" "structural_sum" (VPair (VInt 3) (VInt 4)) (λ st,
  demand0 fe (λ v1, demand0 f (λ v2, demand0 st (λ v3, Ret (VPair v1 (VPair v2 v3)))))))))))))).
(** ... then edit and demand again, re-allocating [f] and [b] on the way. *)
Definition ex_edit : comp :=
  SetC T0 (ALoc (at_ "a")) (VInt 10) (
  SetC T1 (ALoc (at_ "p")) (VPair (VInt 1) (VInt 7)) (
  cell0 "b" 20 (λ _,
  thunk0 "f" "fst" (VLoc (at_ "p")) (λ _,
  Ns (nm "elsewhere") (cell0 "b" 7 (λ _, Ret VUnit)) (λ _,
  Ret VUnit))))).
Definition ex_again : comp :=
  demand0 (at_ "fe") (λ v1, demand0 (at_ "f") (λ v2, demand0 (at_ "st") (λ v3, Ret (VPair v1 (VPair v2 v3))))).
Definition ex_prog : comp := cbind ex_setup (λ r1, cbind ex_edit (λ _, cbind ex_again (λ r2, Ret (VPair r1 r2)))).

Local Existing Instance demo.

(** C01, C02 *)
Lemma ex_disciplined opt : disciplined opt false ex_prog.
Proof. apply (disciplined_intro 30). destruct opt; vm_compute; reflexivity. Qed.
Lemma ex_value : ∃ s, returns ex_prog dcg_new
  (VPair (VPair (VInt (-6)) (VPair (VInt 1) (VInt 7))) (VPair (VInt (-60)) (VPair (VInt 1) (VInt 7)))) s.
Proof. eexists. apply (returns_intro 40). vm_compute. reflexivity. Qed.
(** an engine that runs everything structurally *)
Definition ex_all_structural : comp :=
  Cell T0 (nm "x") (VInt 5) (λ x, thunk0 "g" "get" (VLoc x) (λ g, thunk0 "h" "sign" (VLoc g) (λ h, demand0 h Ret))).
Lemma ex_structural_disciplined opt : disciplined opt true ex_all_structural.
Proof. apply (disciplined_intro 30). destruct opt; vm_compute; reflexivity. Qed.

(** C01_readers *)
Definition ex_readers : comp :=
  cell0 "a" 1 (λ a, cell0 "b" 2 (λ b, Cell T1 (nm "p") (VPair (VInt 1) (VInt 2)) (λ p,
  thunk0 "s" "sign" (VLoc a) (λ s, thunk0 "t" "get" (VLoc s) (λ t, thunk0 "f" "fst" (VLoc p) (λ f,
  demand0 t (λ v, demand0 f (λ w, SetC T0 (ALoc a) (VInt (-7)) (
  thunk0 "t" "get" (VLoc f) (λ t, demand0 t (λ v', demand0 s (λ w', Ret (VPair v' w'))))))))))))).
Definition ex_isc (n : name) : bool := bool_decide (n ∈ [nm "a"; nm "b"; nm "p"]).
Lemma reader_get : reader "get".
Proof. intros arg spur. simpl. unfold as_art. destruct arg; repeat (constructor; try set_solver). Qed.
Lemma reader_sign : reader "sign".
Proof. intros arg spur. simpl. unfold as_art. destruct arg; repeat (constructor; try set_solver). Qed.
Lemma reader_fst : reader "fst".
Proof. intros arg spur. simpl. unfold as_art. destruct arg; repeat (constructor; try set_solver). Qed.
Lemma ex_readers_ok : editor ex_isc ex_readers ∧ ∃ σ, from_scratch false ex_readers (VPair (VInt 1) (VInt (-1))) σ.
Proof.
  split; [|apply (from_scratch_intro 30); vm_compute; reflexivity].
  unfold ex_readers, cell0, thunk0, demand0.
  repeat first [progress intros|constructor|vm_compute; reflexivity|apply reader_get|apply reader_sign|apply reader_fst].
Qed.

(** States between editor operations: after the first demands, and after the edits. *)
Definition ex_s1 : dcg := (exec 40 ex_setup dcg_new).2.
Definition ex_s2 : dcg := (exec 40 (cbind ex_setup (λ _, ex_edit)) dcg_new).2.
Definition ex_s3 : dcg := (force 40 T0 (at_ "fe") None ex_s2).2.
Lemma ex_s1_reached : reached true false ex_s1.
Proof.
  exists ex_setup, 40%nat, (VPair (VInt (-6)) (VPair (VInt 1) (VInt 7))).
  split; [apply (disciplined_intro 30); vm_compute; reflexivity|]. unfold ex_s1.
  replace (OVal (VPair (VInt (-6)) (VPair (VInt 1) (VInt 7)))) with ((exec 40 ex_setup dcg_new).1); [apply surjective_pairing|].
  vm_compute. reflexivity.
Qed.
Lemma ex_s2_reached : reached true false ex_s2.
Proof.
  exists (cbind ex_setup (λ _, ex_edit)), 40%nat, VUnit.
  split; [apply (disciplined_intro 30); vm_compute; reflexivity|]. unfold ex_s2.
  replace (OVal VUnit) with ((exec 40 (cbind ex_setup (λ _, ex_edit)) dcg_new).1); [apply surjective_pairing|].
  vm_compute. reflexivity.
Qed.
(** C03, C04, C05: the demand after the edits is disciplined, and re-runs only what it must: [f] was not demanded,
    and the structural thunks are untouched. *)
Lemma ex_demand_disciplined : disciplined_demand true false T0 (at_ "fe") (holds ex_s2).
Proof.
  assert (match d_force true false 30 [] false T0 (at_ "fe") (d_init (holds ex_s2)) with Some _ => true | None => false end = true) as E by (vm_compute; reflexivity).
  destruct (d_force true false 30 [] false T0 (at_ "fe") (d_init (holds ex_s2))) as [[v p]|] eqn:E'; [|done]. by exists 30%nat, v, p.
Qed.
Lemma ex_demand : force 40 T0 (at_ "fe") None ex_s2 = (OVal (VInt (-60)), ex_s3).
Proof.
  unfold ex_s3. replace (OVal (VInt (-60))) with ((force 40 T0 (at_ "fe") None ex_s2).1); [apply surjective_pairing|].
  vm_compute. reflexivity.
Qed.
Lemma ex_demand_runs : take (length (runs ex_s3) - length (runs ex_s2)) (runs ex_s3) =
  [at_ "fe"; at_ "e"; at_ "o"; Loc [nm "inner"] (IdNom (nm "t")); at_ "sum"].
Proof. vm_compute. reflexivity. Qed.
(** Repeating it runs nothing (C05, through the theorem and not by computation). *)
Lemma ex_repeat k : ∃ s, force (S k) T0 (at_ "fe") None ex_s3 = (OVal (VInt (-60)), s) ∧ runs s = runs ex_s3.
Proof.
  destruct (C05_repeat_demand true false ex_s2 T0 (at_ "fe") 40 _ ex_s3 k None ex_s2_reached ex_demand_disciplined ex_demand)
    as (s & E & _ & _ & _ & _ & _ & Hr). exists s. exact (conj E Hr).
Qed.
Lemma ex_cache_hit : stack ex_s1 = [] ∧ ∃ c v, table ex_s1 !! at_ "fe" = Some (NComp c) ∧ c_ty c = T0 ∧ c_res c = Some v ∧
  c_succs c ≠ [] ∧ ∀ e, e ∈ c_succs c → s_dirty e = false.
Proof.
  split; [vm_compute; reflexivity|]. eexists _, _. split; [vm_compute; reflexivity|]. split; [reflexivity|].
  split; [reflexivity|]. split; [done|]. cbn. intros e He. repeat (apply elem_of_cons in He as [->|He]; [reflexivity|]). by apply elem_of_nil in He.
Qed.

(** C06, C11 *)
Lemma ex_cell_a : ∃ ps, table ex_s1 !! at_ "a" = Some (NMut T0 ps (VInt 1)) ∧ ps ≠ [].
Proof. eexists. split; [vm_compute; reflexivity|done]. Qed.
Lemma ex_modes : stack ex_s1 = [] ∧ structf ex_s1 = false ∧ cpath ex_s1 = [].
Proof. vm_compute. done. Qed.
Lemma ex_thunk_sum : ∃ c, table ex_s1 !! Loc (cpath ex_s1) (IdNom (nm "sum")) = Some (NComp c) ∧ c_ty c = T0 ∧ c_pp c = "add" ∧
  c_arg c = VPair (VLoc (at_ "a")) (VLoc (at_ "b")).
Proof. eexists. split; [vm_compute; reflexivity|]. done. Qed.
Lemma ex_thunk_struct : ∃ nd, table ex_s1 !! Loc (cpath ex_s1) (IdStruct (hash_app "const" (VInt 3))) = Some nd.
Proof. eexists. vm_compute. reflexivity. Qed.
Lemma ex_set : ∃ s', set_op T0 (ALoc (at_ "a")) (VInt 5) ex_s1 = (OVal tt, s') ∧ s' ≠ ex_s1.
Proof.
  exists (set_op T0 (ALoc (at_ "a")) (VInt 5) ex_s1).2. split.
  - replace (OVal tt) with ((set_op T0 (ALoc (at_ "a")) (VInt 5) ex_s1).1) by (vm_compute; reflexivity). apply surjective_pairing.
  - intros E. apply (f_equal (λ s, holds s !! at_ "a")) in E. vm_compute in E. done.
Qed.

(** C09: clean edges of every kind, in a state where other edges are dirty. *)
Definition has_edge (s : dcg) (x : loc) (y : loc) (b : bool) (p : dep → bool) : bool :=
  match table s !! x with
  | Some (NComp c) => existsb (λ e, bool_decide (s_loc e = y) && p (s_dep e) &&
      bool_decide (bit (s_eff e) (s_loc e) (c_succs c) = Some b)) (c_succs c)
  | _ => false
  end.
Lemma ex_clean_edges :
  has_edge ex_s1 (at_ "fe") (at_ "e") false (λ d, match d with DForce _ _ => true | _ => false end) = true ∧
  has_edge ex_s1 (at_ "f") (at_ "p") false (λ d, match d with DForceMap _ _ _ => true | _ => false end) = true ∧
  has_edge ex_s1 (at_ "e") (at_ "out") false (λ d, match d with DAllocCell _ => true | _ => false end) = true ∧
  has_edge ex_s1 (at_ "o") (Loc [nm "inner"] (IdNom (nm "t"))) false (λ d, match d with DAllocThunk _ => true | _ => false end) = true.
Proof. vm_compute. done. Qed.
(** After the edits: the change of [p] does not dirty [f] (its projection is unchanged); the change of [a] dirties
    the whole chain up to [fe]; [e]'s allocation of "out" stays clean. *)
Lemma ex_dirty_edges :
  has_edge ex_s2 (at_ "f") (at_ "p") false (λ _, true) = true ∧
  has_edge ex_s2 (at_ "sum") (at_ "a") true (λ _, true) = true ∧
  has_edge ex_s2 (at_ "o") (Loc [nm "inner"] (IdNom (nm "t"))) true (λ d, match d with DForce _ _ => true | _ => false end) = true ∧
  has_edge ex_s2 (at_ "o") (Loc [nm "inner"] (IdNom (nm "t"))) false (λ d, match d with DAllocThunk _ => true | _ => false end) = true ∧
  has_edge ex_s2 (at_ "fe") (at_ "e") true (λ _, true) = true ∧
  has_edge ex_s2 (at_ "e") (at_ "out") false (λ _, true) = true.
Proof. vm_compute. done. Qed.

(** C46: [f] is up to date in [ex_s1] and does not depend on [a]. *)
Lemma ex_unrelated : up_to_date ex_s1 T0 (at_ "f") (VInt 1) ∧ ¬ rtc (depends ex_s1) (at_ "f") (at_ "a").
Proof.
  split.
  - unfold up_to_date. set (o := table ex_s1 !! at_ "f"). vm_compute in o. subst o. split; [done|]. split; [done|].
    intros e He. cbn in He. repeat (apply elem_of_cons in He as [->|He]; [reflexivity|]). by apply elem_of_nil in He.
  - intros Hr. apply rtc_inv in Hr as [Hr|(y & (c & e & Hc & He & <-) & Hr)]; [done|].
    assert (s_loc e = at_ "p") as Ey.
    { vm_compute in Hc. injection Hc as <-. cbn in He. repeat (apply elem_of_cons in He as [->|He]; [reflexivity|]). by apply elem_of_nil in He. }
    rewrite Ey in Hr. apply rtc_inv in Hr as [Hr|(y & (c' & e' & Hc' & _) & _)]; [done|]. vm_compute in Hc'. done.
Qed.

(** C07, C08: [ex_edit] evaluates nothing. *)
Lemma ex_no_demand : no_demand ex_edit.
Proof. repeat split. Qed.
(** C12: the same name in two namespaces. *)
Lemma ex_identity : ∃ s1 s2,
  exec 5 (in_ns [nm "x"; nm "y"] (new_cell T0 (nm "a") (VInt 1))) ex_s1 = (OVal (VLoc (Loc [nm "y"; nm "x"] (IdNom (nm "a")))), s1) ∧
  exec 5 (in_ns [nm "y"] (new_thunk T0 (nm "a") "get" VUnit VUnit)) s1 = (OVal (VLoc (Loc [nm "y"] (IdNom (nm "a")))), s2).
Proof.
  set (q1 := in_ns [nm "x"; nm "y"] (new_cell T0 (nm "a") (VInt 1))).
  set (q2 := in_ns [nm "y"] (new_thunk T0 (nm "a") "get" VUnit VUnit)).
  exists (exec 5 q1 ex_s1).2, (exec 5 q2 (exec 5 q1 ex_s1).2).2. split.
  - assert ((exec 5 q1 ex_s1).1 = OVal (VLoc (Loc [nm "y"; nm "x"] (IdNom (nm "a"))))) as E by (vm_compute; reflexivity).
    rewrite <- E. apply surjective_pairing.
  - assert ((exec 5 q2 (exec 5 q1 ex_s1).2).1 = OVal (VLoc (Loc [nm "y"] (IdNom (nm "a"))))) as E by (vm_compute; reflexivity).
    rewrite <- E. apply surjective_pairing.
Qed.
(** C14, C17: a state in which thunks are executing (here: left behind by a panic of "boom" under "get"). *)
Definition ex_busy_prog : comp := cell0 "c" 1 (λ c, thunk0 "t" "boom" VUnit (λ t, thunk0 "u" "get" (VLoc t) (λ u, demand0 u Ret))).
Definition ex_busy : dcg := (exec 40 ex_busy_prog dcg_new).2.
Lemma ex_busy_stack : (f_loc <$> stack ex_busy) = [at_ "t"; at_ "u"].
Proof. vm_compute. reflexivity. Qed.
Lemma ex_busy_thunk : at_ "u" ∈ (f_loc <$> stack ex_busy) ∧ ∃ c, table ex_busy !! at_ "u" = Some (NComp c) ∧ c_ty c = T0.
Proof. rewrite ex_busy_stack. split; [set_solver|]. eexists. split; [vm_compute; reflexivity|done]. Qed.
(** C15, C16 *)
Lemma ex_types : ∃ nd, table ex_s1 !! at_ "sum" = Some nd ∧ node_ty nd ≠ T1.
Proof. eexists. split; [vm_compute; reflexivity|done]. Qed.
(** C18: the change of [p] made by [ex_edit]. *)
Lemma ex_projection : ∃ ps v0, table ex_s1 !! at_ "p" = Some (NMut T1 ps v0) ∧ v0 ≠ VPair (VInt 1) (VInt 7) ∧
  ps ≠ [] ∧ (∀ pr, pr ∈ ps → p_eff pr = Observe ∧ ∃ f w, p_dep pr = Some (DForceMap T1 f w) ∧ w = f (VPair (VInt 1) (VInt 7))) ∧
  projections_unchanged T1 (at_ "f") ps (VPair (VInt 1) (VInt 7)).
Proof.
  eexists _, _. split; [vm_compute; reflexivity|]. split; [done|]. split; [done|]. split.
  - intros pr Hp. repeat (apply elem_of_cons in Hp as [->|Hp]; [split; [done|]; eexists _, _; split; reflexivity|]). by apply elem_of_nil in Hp.
  - intros pr Hp _ _. repeat (apply elem_of_cons in Hp as [->|Hp]; [eexists _, _; split; reflexivity|]). by apply elem_of_nil in Hp.
Qed.
