(** * Every clause of the naming discipline is needed.

    [Discipline.v] with each clause switchable: [relaxed on] checks only the clauses [c] with
    [on c = true].  With all of them on it is the discipline ([relaxed_all]); with any single clause
    off, there is a program it accepts on which the engine (default flags) does not return what
    evaluation from scratch returns ([every_clause_needed]).  So C01 holds under no weaker subset of
    these clauses. *)
From Verif Require Export Refuted.
Local Open Scope string_scope.

Inductive clause := S1 | S2 | S3 | S5map | S5abs | S6 | S7 | S8 | S9 | S10 | S13.
Global Instance clause_eq_dec : EqDecision clause.
Proof. solve_decision. Defined.

Section Relaxed.
Context `{Prog}.
Context (on : clause → bool) (opt : bool) (md0 : bool).

(** Clause [c] demands [b]. *)
Definition req (c : clause) (b : bool) : bool := negb (on c) || b.

Definition x_rebind_ok (l : loc) (old : option content) (new : content) (seen : gset loc) : bool :=
  match old with
  | None => true
  | Some old =>
      bool_decide (old = new) ||
      (req S8 (negb (is_struct l))
       && req S1 (bool_decide (l ∉ seen))
       && match old, new with
          | CCell t _, CCell t' _ => bool_decide (t = t')
          | CThunk t pp _ sp, CThunk t' pp' _ sp' => bool_decide (t = t' ∧ pp = pp') && req S7 (bool_decide (sp = sp'))
          | _, _ => bool_decide (content_ty old = content_ty new) && req S2 false
          end)
  end.
Definition x_alloc (stk : list loc) (l : loc) (ct : content) : dM loc := λ p,
  if req S6 (s6_ok opt stk l) && x_rebind_ok l (d_store p !! l) ct (d_seen p)
     && req S13 (is_struct l || negb (bool_decide (head stk = Some l)))
  then Some (l, d_write stk l ct p) else None.
Definition x_cell (stk : list loc) (pth : path) (md : bool) (t : ty) (n : name) (v : val) : dM loc :=
  x_alloc stk (Loc pth (if md then IdStruct (hash_val v) else IdNom n)) (CCell t v).
Definition x_thunk (stk : list loc) (pth : path) (md : bool) (t : ty) (nc : namechoice) (pp : progpt)
    (arg spur : val) : dM loc :=
  match nc with
  | NCEager | NCNaive => λ _, None
  | NCStructural => x_alloc stk (Loc pth (IdStruct (hash_app pp arg))) (CThunk t pp arg spur)
  | NCNominal n => x_alloc stk (Loc pth (if md then IdStruct (hash_app pp arg) else IdNom n))
                               (CThunk t pp arg spur)
  end.
Definition x_set (stk : list loc) (t : ty) (a : art) (v : val) : dM unit := λ p,
  match a, stk with
  | ALoc l, [] =>
      match d_store p !! l with
      | Some (CCell t' _) => if bool_decide (t' = t) && req S3 (negb (is_struct l))
                             then Some (tt, d_write stk l (CCell t v) p) else None
      | _ => None
      end
  | _, _ => None
  end.
Definition x_get (stk : list loc) (l : loc) (v : val) : dM val := λ p,
  if req S6 (s6_ok opt stk l) && req S5map (bool_decide (l ∉ d_map p)) then Some (v, d_observe stk l false p) else None.
Definition x_force_map (frc : ty → loc → dM val) (abs : bool) (stk : list loc) (t : ty) (l : loc)
    (f : val → val) : dM val := λ p,
  match d_store p !! l with
  | Some (CCell t' v) =>
      if decide (t' = t) then
        if tracked opt l then
          match stk with
          | [] => Some (f v, p)
          | _ => if req S5abs (negb abs) && req S6 (s6_ok opt stk l) && req S5map (bool_decide (l ∉ d_map p ∧ l ∉ d_full p))
                 then Some (f v, d_observe stk l true p) else None
          end
        else match frc t l p with Some (v, p') => Some (f v, p') | None => None end
      else None
  | Some (CThunk _ _ _ _) =>
      match frc t l p with Some (v, p') => Some (f v, p') | None => None end
  | None => None
  end.
Fixpoint x_run (frc : bool → option val → ty → loc → dM val)
    (stk : list loc) (pth : path) (md : bool) (c : comp) : dM val :=
  match c with
  | Ret v => λ p, Some (v, p)
  | Fail => λ _, None
  | Force t a cyc k => dbind (d_art (frc md cyc) t a) (λ v, x_run frc stk pth md (k v))
  | ForceMap t a f k =>
      dbind (match a with ARc v => λ p, Some (f v, p) | ALoc l => x_force_map (frc md None) false stk t l f end)
            (λ v, x_run frc stk pth md (k v))
  | ForceAbs t a f k =>
      dbind (match a with ARc v => λ p, Some (f v, p) | ALoc l => x_force_map (frc md None) true stk t l f end)
            (λ v, x_run frc stk pth md (k v))
  | Cell t n v k => dbind (x_cell stk pth md t n v) (λ l, x_run frc stk pth md (k l))
  | Thunk t nc pp arg spur k => dbind (x_thunk stk pth md t nc pp arg spur) (λ l, x_run frc stk pth md (k l))
  | SetC t a v k => dbind (x_set stk t a v) (λ _, x_run frc stk pth md k)
  | Ns n b k => dbind (x_run frc stk (n :: pth) md b) (λ v, x_run frc stk pth md (k v))
  | Structural b k => dbind (x_run frc stk pth true b) (λ v, x_run frc stk pth md (k v))
  end.
Fixpoint x_force (n : nat) (stk : list loc) (md : bool) (cyc : option val) (t : ty) (l : loc) : dM val := λ p,
  match d_store p !! l with
  | None => None
  | Some (CCell t' v) => if decide (t' = t) then x_get stk l v p else None
  | Some (CThunk t' pp arg spur) =>
      if bool_decide (t' = t) && req S10 (bool_decide (md = md0)) && req S6 (s6_ok opt stk l) then
        if decide (l ∈ stk) then
          match on S9, cyc with false, Some o => Some (o, d_observe stk l false p) | _, _ => None end
        else
        match n with
        | O => None
        | S n =>
            match x_run (x_force n (l :: stk)) (l :: stk) (l_path l) md (code pp arg spur)
                        (DState (d_store p) ({[l]} ∪ d_seen p) (d_done p) ∅ ∅) with
            | Some (v, p') => Some (v, d_leave stk l p p')
            | None => None
            end
        end
      else None
  end.
Definition relaxed_exec (n : nat) (c : comp) : dM val := x_run (x_force n []) [] [] md0 c.
Definition relaxed (c : comp) : Prop := ∃ n v p, relaxed_exec n c (d_init ∅) = Some (v, p).
End Relaxed.

(** ** All clauses on: the discipline. *)
Section All.
Context `{Prog}.
Context (on : clause → bool) (opt : bool) (md0 : bool).

Lemma req_on c b : on c = true → req on c b = b.
Proof. unfold req. by intros ->. Qed.
Lemma dbind_ext {A B} (m m' : dM A) (f f' : A → dM B) : (∀ p, m p = m' p) → (∀ a p, f a p = f' a p) →
  ∀ p, dbind m f p = dbind m' f' p.
Proof. intros Hm Hf p. unfold dbind. rewrite Hm. destruct (m' p) as [[a p']|]; [apply Hf|done]. Qed.
Lemma x_rebind_all l old new seen : (∀ c, on c = true) → x_rebind_ok on l old new seen = rebind_ok l old new seen.
Proof.
  intros Hon. destruct old as [old|]; [|done]. unfold x_rebind_ok, rebind_ok. rewrite !req_on by done. f_equal. f_equal.
  destruct old, new; rewrite ?req_on by done; rewrite ?andb_false_r; try done.
  repeat case_bool_decide; naive_solver.
Qed.
Lemma x_alloc_all stk l ct p : (∀ c, on c = true) → x_alloc on opt stk l ct p = d_alloc opt stk l ct p.
Proof. intros Hon. unfold x_alloc, d_alloc. rewrite !req_on, x_rebind_all by done. done. Qed.
Lemma x_map_all (frc frc' : ty → loc → dM val) abs stk t l f p : (∀ c, on c = true) → (∀ t l p, frc t l p = frc' t l p) →
  x_force_map on opt frc abs stk t l f p = d_force_map opt frc' abs stk t l f p.
Proof.
  intros Hon Hf. unfold x_force_map, d_force_map. destruct (d_store p !! l) as [[t' v|]|]; [|by rewrite Hf|done].
  destruct (decide (t' = t)); [|done]. destruct (tracked opt l); [|by rewrite Hf]. destruct stk; [done|].
  rewrite !req_on by done. done.
Qed.
Lemma x_run_all (frc : bool → option val → ty → loc → dM val) frc' stk pth md c :
  (∀ c, on c = true) → (∀ md cyc t l p, frc md cyc t l p = frc' md t l p) →
  ∀ p, x_run on opt frc stk pth md c p = d_run opt frc' stk pth md c p.
Proof.
  intros Hon Hf. revert pth md.
  induction c as [v| |t a cyc k IH|t a f k IH|t a f k IH|t n v k IH|t nc pp arg spur k IH|t a v k IH|n b IHb k IH|b IHb k IH];
    intros pth md p; try done.
  - apply dbind_ext; [|intros; apply IH]. intros p'. destruct a; [done|apply Hf].
  - apply dbind_ext; [|intros; apply IH]. intros p'. destruct a; [done|]. apply x_map_all; [done|]. intros; apply Hf.
  - apply dbind_ext; [|intros; apply IH]. intros p'. destruct a; [done|]. apply x_map_all; [done|]. intros; apply Hf.
  - apply dbind_ext; [|intros; apply IH]. intros p'. by apply x_alloc_all.
  - apply dbind_ext; [|intros; apply IH]. intros p'. destruct nc; try done; by apply x_alloc_all.
  - apply dbind_ext; [|intros; apply IH]. intros p'. unfold x_set, d_set. destruct a as [|l]; [done|]. destruct stk; [|done].
    destruct (d_store p' !! l) as [[t' w|]|]; try done. rewrite req_on by done.
    destruct (decide _) as [[-> E]|N]; [by rewrite bool_decide_true, E|].
    case_bool_decide as E; [|done]. destruct (is_struct l) eqn:El; [done|]. by destruct N.
  - apply dbind_ext; [|intros; apply IH]. intros p'. apply IHb.
  - apply dbind_ext; [|intros; apply IH]. intros p'. apply IHb.
Qed.
Lemma x_force_all n : (∀ c, on c = true) → ∀ stk md cyc t l p,
  x_force on opt md0 n stk md cyc t l p = d_force opt md0 n stk md t l p.
Proof.
  intros Hon. induction n as [|n IH]; intros stk md cyc t l p.
  all: cbn [x_force d_force]; destruct (d_store p !! l) as [[t' v|t' pp arg spur]|]; [| |done].
  1, 3: destruct (decide (t' = t)); [|done]; unfold x_get, d_get; by rewrite !req_on by done.
  all: rewrite !req_on, (Hon S9) by done.
  all: destruct (decide (t' = t ∧ l ∉ stk ∧ md = md0 ∧ s6_ok opt stk l = true)) as [(-> & Hl & -> & E)|N];
    [rewrite !bool_decide_true, E by done; cbn [andb]; rewrite decide_False by done|].
  - done.
  - destruct (decide (l ∈ stk)) as [Hl|Hl]; [by destruct (_ && _)|]. by destruct (_ && _).
  - rewrite (x_run_all _ (d_force opt md0 n (l :: stk))); [done|done|]. intros; apply IH.
  - destruct (decide (l ∈ stk)) as [Hl|Hl]; [by destruct (_ && _)|].
    repeat case_bool_decide; try done. cbn [andb]. destruct (s6_ok opt stk l) eqn:E; [|done].
    exfalso. by apply N.
Qed.
Theorem relaxed_all c : (∀ cl, on cl = true) → relaxed on opt md0 c ↔ disciplined opt md0 c.
Proof.
  intros Hon. unfold relaxed, relaxed_exec, disciplined, d_exec.
  split; intros (n & v & p & E); exists n, v, p; rewrite <- E; [symmetry|]; (apply x_run_all; [done|]); intros; by apply x_force_all.
Qed.
End All.

(** ** Each clause off: a program it should have rejected. *)
Definition all_but (c : clause) : clause → bool := λ c', negb (bool_decide (c' = c)).
(** Evaluated from scratch the program returns a value; the engine does not return that value. *)
Definition wrong (P : Prog) (c : comp) : Prop :=
  ∃ v σ, @from_scratch P false c v σ ∧ ¬ ∃ s, @returns P c dcg_new v s.
Lemma stale_wrong P c v v' : stale P c v v' → wrong P c.
Proof.
  intros ((σ & Hσ) & (s & K & HK) & Hv). exists v, σ. split; [done|]. intros (s' & K' & HK').
  specialize (HK (max K K') ltac:(lia)). rewrite HK' in HK by lia. naive_solver.
Qed.
Lemma crashes_wrong P c v r : crashes P c v r → wrong P c.
Proof.
  intros ((σ & Hσ) & (K & s & HK)). exists v, σ. split; [done|]. intros (s' & K' & HK').
  specialize (HK (max K K') ltac:(lia)). rewrite HK' in HK by lia. naive_solver.
Qed.
Lemma relaxed_intro (P : Prog) on n c :
  match @relaxed_exec P on true false n c (d_init ∅) with Some _ => true | None => false end = true → @relaxed P on true false c.
Proof. destruct (relaxed_exec on true false n c (d_init ∅)) as [[v p]|] eqn:E; [|done]. intros _. by exists n, v, p. Qed.

(** S3: an immutable (structural) cell is set. *)
Definition prog_set_structural : comp :=
  Structural (cell0 "c" 1 (λ c, Ret (VLoc c))) (λ l, SetC T0 (as_art l) (VInt 2) (Force T0 (as_art l) None Ret)).
Lemma S3_set_structural_panics : crashes demo prog_set_structural (VInt 2) PUnreach.
Proof. eapply (crashes_intro demo 30 30); vm_compute; reflexivity. Qed.

Definition culprit (c : clause) : Prog * comp :=
  match c with
  | S1 => (demo, prog_read_then_overwrite)
  | S2 => (demo, prog_cell_over_thunk)
  | S3 => (demo, prog_set_structural)
  | S5map => (demo, prog_two_projections)
  | S5abs => (demo, prog_force_abs)
  | S6 => (demo, prog_structural_reads)
  | S7 => (demo, prog_spurious)
  | S8 => (demo_collide, prog_collision)
  | S9 => (demo, prog_cycle_leak)
  | S10 => (demo, prog_mode true)
  | S13 => (demo, prog_self_alloc)
  end.
Theorem every_clause_needed cl : ∃ P c, @relaxed P (all_but cl) true false c ∧ wrong P c.
Proof.
  exists (culprit cl).1, (culprit cl).2. split.
  - destruct cl; apply (relaxed_intro _ _ 30); vm_compute; reflexivity.
  - destruct cl; cbn [culprit fst snd].
    + eapply stale_wrong, C27_read_then_overwrite_refuted.
    + eapply stale_wrong, C21_cell_over_thunk_refuted.
    + eapply crashes_wrong, S3_set_structural_panics.
    + eapply stale_wrong, C19_two_projections_refuted.
    + eapply stale_wrong, C22_force_abs_refuted.
    + eapply stale_wrong, C20_structural_thunks_refuted.
    + eapply stale_wrong, S7_spurious_change_ignored.
    + eapply stale_wrong, S8_hash_collision_merges.
    + eapply stale_wrong, C23_cycle_values_leak_refuted.
    + eapply stale_wrong, C26_structural_mode_leaks_refuted.
    + eapply crashes_wrong, C28_self_allocation_refuted.
Qed.

(** ** On the other side of the fence: close variants of these programs that the discipline accepts. *)
(** One projection per cell (C19). *)
Definition prog_one_projection : comp :=
  Cell T1 (nm "c") (VPair (VInt 1) (VInt 2)) (λ c,
  thunk0 "t" "fst" (VLoc c) (λ t,
  demand0 t (λ _,
  SetC T1 (ALoc c) (VPair (VInt 4) (VInt 3)) (
  demand0 t Ret)))).
Lemma ex_one_projection : @disciplined demo true false prog_one_projection.
Proof. apply (disciplined_intro (H := demo) 30). vm_compute. reflexivity. Qed.
(** A structurally named thunk reads a mutable cell, purity optimisation off (C20). *)
Lemma ex_structural_reads_off : @disciplined demo false false prog_structural_reads ∧ ¬ @disciplined demo true false prog_structural_reads.
Proof.
  split; [apply (disciplined_intro (H := demo) 30); vm_compute; reflexivity|].
  intros D. assert (D' := D). destruct D' as (n & v & p & E).
  destruct (C01_from_scratch_consistency (H := demo) true false prog_structural_reads D) as (w & σ & s & Hf & Hr & _).
  destruct C20_structural_thunks_refuted as ((σ' & Hf') & (s' & Hr') & Hv). apply Hv.
  destruct (from_scratch_functional _ _ _ _ _ _ Hf Hf') as [<- _]. destruct Hr as [K HK], Hr' as [K' HK'].
  specialize (HK (max K K') ltac:(lia)). rewrite HK' in HK by lia. naive_solver.
Qed.
