(** * C35: switching the active engine (/repo/src/engine.rs 2574-2619, [mod manage]; 396-419 the global state). *)
From Verif Require Export Naive.

(** engine.rs:376-381 [enum Engine] *)
Inductive engine := EngDCG (s : dcg) | EngNaive.

(** The thread-local [GLOBALS : RefCell<Globals>]: the engine, and how many shared borrows are outstanding.  [ns],
    [structural], [force], [force_cycle], [force_map] and [force_abs] keep [g.borrow()] alive while they run user code
    (2327-2346, 2478-2573: the [match g.borrow().engine] scrutinee). *)
Record globals := Globals { active : engine; borrows : nat }.

(** engine.rs:2589-2596 [use_engine]: [g.borrow_mut()] panics when borrowed ([None]), otherwise [mem::swap]. *)
Definition use_engine (e : engine) (g : globals) : option (engine * globals) :=
  match borrows g with
  | O => Some (active g, Globals e 0)
  | S _ => None
  end.
(** engine.rs:2599-2601 *)
Definition init_engine := use_engine.
(** engine.rs:2581 (flags from the environment: [structural], [purity]) and 2586 *)
Definition init_dcg (structural purity : bool) : globals → option (engine * globals) := init_engine (EngDCG (dcg_new_flags structural purity)).
Definition init_naive : globals → option (engine * globals) := init_engine EngNaive.
(** engine.rs:2604-2619 *)
Definition engine_is_naive (g : globals) : bool := match active g with EngDCG _ => false | EngNaive => true end.
Definition engine_is_dcg (g : globals) : bool := match active g with EngDCG _ => true | EngNaive => false end.

Theorem C35_exchange e g : borrows g = 0%nat → use_engine e g = Some (active g, Globals e 0).
Proof. unfold use_engine. by intros ->. Qed.
Theorem C35_init_dcg m p g : borrows g = 0%nat → ∃ g', init_dcg m p g = Some (active g, g') ∧
  active g' = EngDCG (dcg_new_flags m p) ∧ engine_is_dcg g' = true ∧ engine_is_naive g' = false.
Proof. intros E. eexists. split; [by apply C35_exchange|done]. Qed.
Theorem C35_init_naive g : borrows g = 0%nat → ∃ g', init_naive g = Some (active g, g') ∧
  active g' = EngNaive ∧ engine_is_naive g' = true ∧ engine_is_dcg g' = false.
Proof. intros E. eexists. split; [by apply C35_exchange|done]. Qed.
(** Inside a thunk (or a namespace block) the engine cannot be switched: the attempt panics. *)
Theorem C35_not_while_running e g : borrows g ≠ 0%nat → use_engine e g = None.
Proof. unfold use_engine. by destruct (borrows g). Qed.

(** ** Engines do not interfere

    A session works on several engines, switching between them with [use_engine] and keeping the ones not in use in
    its own variables.  [perform] is whatever the session does with the active engine between two switches (any
    sequence of API calls): an arbitrary function of that engine. *)
Section Sessions.
Context {job answer : Type} (perform : job → engine → answer * engine).

Inductive action := Switch (i : nat) | Do (j : job).
(** [cur]: the number of the engine in use; [parked]: the others. *)
Record session := Session { cur : nat; glob : globals; parked : nat → engine }.

Definition act (a : action) (x : session) : option (list (nat * answer) * session) :=
  match a with
  | Switch i =>
      if decide (i = cur x) then Some ([], x) else
      '(old, g) ← use_engine (parked x i) (glob x);
      Some ([], Session i g (λ j, if decide (j = cur x) then old else parked x j))
  | Do j =>
      let '(r, e) := perform j (active (glob x)) in
      Some ([(cur x, r)], Session (cur x) (Globals e (borrows (glob x))) (parked x))
  end.
Fixpoint acts (l : list action) (x : session) : option (list (nat * answer) * session) :=
  match l with
  | [] => Some ([], x)
  | a :: l => '(o, x1) ← act a x; '(o', x2) ← acts l x1; Some (o ++ o', x2)
  end.

(** The i-th engine, wherever it is. *)
Definition engine_of (i : nat) (x : session) : engine := if decide (i = cur x) then active (glob x) else parked x i.
(** The jobs done while the i-th engine was in use ... *)
Fixpoint jobs_of (i : nat) (now : nat) (l : list action) : list job :=
  match l with
  | [] => []
  | Switch j :: l => jobs_of i j l
  | Do j :: l => if decide (now = i) then j :: jobs_of i now l else jobs_of i now l
  end.
(** ... and doing them without any switching. *)
Fixpoint alone (l : list job) (e : engine) : list answer * engine :=
  match l with
  | [] => ([], e)
  | j :: l => let '(r, e1) := perform j e in let '(rs, e2) := alone l e1 in (r :: rs, e2)
  end.
Definition answers_of (i : nat) (o : list (nat * answer)) : list answer := (filter (λ p, p.1 = i) o).*2.

Lemma act_borrows a x o x' : act a x = Some (o, x') → borrows (glob x) = 0%nat → borrows (glob x') = 0%nat.
Proof.
  intros E Hb. destruct a as [i|j]; simpl in E.
  - destruct (decide _); [by injection E as <- <-|]. rewrite C35_exchange in E by done. simpl in E. by injection E as <- <-.
  - destruct (perform _ _). by injection E as <- <-.
Qed.
(** No switch ever fails at the top level, every engine ends up exactly as if it had been used alone, and it gives
    exactly the same answers. *)
Theorem C35_engines_isolated l x : borrows (glob x) = 0%nat → ∃ o x', acts l x = Some (o, x') ∧
  ∀ i, alone (jobs_of i (cur x) l) (engine_of i x) = (answers_of i o, engine_of i x').
Proof.
  revert x. induction l as [|a l IH]; intros x Hb; simpl.
  { exists [], x. done. }
  assert (∃ o x1, act a x = Some (o, x1)) as (o & x1 & E).
  { destruct a as [i|j]; simpl; [|destruct (perform _ _); eauto]. destruct (decide _); [eauto|]. rewrite C35_exchange by done. simpl. eauto. }
  rewrite E. simpl. destruct (IH x1 (act_borrows _ _ _ _ E Hb)) as (o' & x2 & E2 & Hi). rewrite E2. simpl.
  exists (o ++ o'), x2. split; [done|]. intros i. specialize (Hi i). unfold answers_of in *. rewrite filter_app, fmap_app.
  destruct a as [j|j]; simpl in E.
  - destruct (decide (j = cur x)) as [->|Hj].
    + injection E as <- <-. exact Hi.
    + rewrite C35_exchange in E by done. simpl in E. injection E as <- <-. simpl in *.
      rewrite <- Hi. f_equal. unfold engine_of. simpl. repeat destruct (decide _); congruence.
  - unfold engine_of in *. destruct (perform j (active (glob x))) as [r e] eqn:Ep. injection E as <- <-. cbn [cur glob parked active] in *.
    destruct (decide (cur x = i)) as [<-|Hne].
    + rewrite decide_True in Hi |- * by done. rewrite filter_cons_True by done. simpl. rewrite Ep.
      rewrite Hi. done.
    + rewrite filter_cons_False by done. rewrite (decide_False (P := i = cur x)) in Hi |- * by done. exact Hi.
Qed.
End Sessions.

(** Instance: two incremental engines and the naive one; the jobs are editor programs. *)
Definition ex_perform (c : comp) (e : engine) : out val * engine :=
  match e with
  | EngDCG s => let '(o, s') := @exec demo 40 c s in (o, EngDCG s')
  | EngNaive => (OPanic PUnimpl, EngNaive)
  end.
Lemma ex_sessions :
  fst <$> acts ex_perform [Do ex_setup; Switch 1; Do (cell0 "a" 7 (λ l, demand0 l Ret)); Switch 2; Switch 0; Do ex_again]
    (Session 0 (Globals (EngDCG dcg_new) 0) (λ i, if decide (i = 2%nat) then EngNaive else EngDCG dcg_new)) =
  Some [(0%nat, OVal (VPair (VInt (-6)) (VPair (VInt 1) (VInt 7)))); (1%nat, OVal (VInt 7)); (0%nat, OVal (VPair (VInt (-6)) (VPair (VInt 1) (VInt 7))))].
Proof. vm_compute. reflexivity. Qed.
