(** * The naive engine, arts as first-class data, and the active engine.

    Under [Engine::Naive] (src/engine.rs 2160-2245, 2327-2573) there is no table: a cell is an immutable [Rc], a
    thunk is a closure that is run at every [force].  C34 compares it with from-scratch evaluation (and, through C01,
    with the DCG engine); C25 is about equality of arts; C35 about switching engines (2574-2619). *)
From Verif Require Export Examples.
Local Open Scope string_scope.

(** ** Values that contain arts *)

(** engine.rs:2109-2118, [struct Art]/[enum EnumArt], inside first-order values.  [Force(Rc<dyn Force>)] is a
    [NaiveThunk] (2168-2175): its closure [fn_box] is identified by the program point, and whatever it captures is
    part of [spur], which equality does not look at. *)
Inductive nval :=
  | NUnit | NBool (b : bool) | NInt (z : Z) | NStr (s : string) | NName (n : name)
  | NPair (a b : nval) | NInl (a : nval) | NInr (a : nval)
  | NArt (a : nart)
with nart :=
  | ERc (v : nval)
  | ELoc (l : loc)
  | EForce (id : namechoice) (pp : progpt) (arg spur : nval).

(** Clients over such values; constructors as in [comp] ([Comp.v]).  Types are static in Rust; the DCG's dynamic type
    tags have no counterpart here. *)
Inductive ncomp :=
  | NRet (v : nval)
  | NFail
  | NForce (a : nart) (cyc : option nval) (k : nval → ncomp)
  | NForceMap (a : nart) (f : nval → nval) (k : nval → ncomp)
  | NForceAbs (a : nart) (f : nval → nval) (k : nval → ncomp)
  | NCell (n : name) (v : nval) (k : nart → ncomp)
  | NThunk (id : namechoice) (pp : progpt) (arg spur : nval) (k : nart → ncomp)
  | NSet (a : nart) (v : nval) (k : ncomp)
  | NNs (n : name) (body : ncomp) (k : nval → ncomp)
  | NStructural (body : ncomp) (k : nval → ncomp).

Class NProg := { ncode : progpt → nval → nval → ncomp }.

Inductive nout (A : Type) := NOk (a : A) | NPanic (r : reason) | NFuel.
Arguments NOk {A} a. Arguments NPanic {A} r. Arguments NFuel {A}.
Definition nbind {A B} (m : nout A) (f : A → nout B) : nout B :=
  match m with NOk a => f a | NPanic r => NPanic r | NFuel => NFuel end.

Section Naive.
Context `{NProg}.

(** engine.rs:2350 [put], 2360-2371 [cell] and 2427-2450 [thunk], the [Engine::Naive] arms. *)
Definition nput (v : nval) : nart := ERc v.
Definition ncell (n : name) (v : nval) : nart := ERc v.
Definition nthunk (id : namechoice) (pp : progpt) (arg spur : nval) : nart := EForce id pp arg spur.
(** engine.rs:2374-2389 [set] *)
Definition nset (a : nart) (v : nval) : nout unit :=
  match a with ERc _ => NPanic PNotCell | EForce _ _ _ _ => NPanic PNotCell | ELoc _ => NPanic PUnimpl end.

(** The client, against the naive engine.  engine.rs:2327-2346 [ns] and [structural]: just run the body.
    2500-2513 [force_cycle]: the cycle value is ignored.  2525-2573 [force_map], [force_abs]: apply the map. *)
Fixpoint nrun (frc : nart → nout nval) (c : ncomp) : nout nval :=
  match c with
  | NRet v => NOk v
  | NFail => NPanic PUser
  | NForce a cyc k => nbind (frc a) (λ v, nrun frc (k v))
  | NForceMap a f k | NForceAbs a f k => nbind (frc a) (λ v, nrun frc (k (f v)))
  | NCell n v k => nrun frc (k (ncell n v))
  | NThunk id pp arg spur k => nrun frc (k (nthunk id pp arg spur))
  | NSet a v k => nbind (nset a v) (λ _, nrun frc k)
  | NNs n b k => nbind (nrun frc b) (λ v, nrun frc (k v))
  | NStructural b k => nbind (nrun frc b) (λ v, nrun frc (k v))
  end.
(** engine.rs:2478-2491 [force]; 2181-2183 [NaiveThunk::force].  Fuel bounds the nesting depth. *)
Fixpoint nforce (n : nat) (a : nart) : nout nval :=
  match a with
  | ERc v => NOk v
  | ELoc _ => NPanic PDangling   (* "cannot force a non-naive location with the naive engine" *)
  | EForce _ pp arg spur => match n with O => NFuel | S n => nrun (nforce n) (ncode pp arg spur) end
  end.
Definition nexec (n : nat) (c : ncomp) : nout nval := nrun (nforce n) c.
Definition nreturns (c : ncomp) (v : nval) : Prop := ∃ K, ∀ k, (K ≤ k)%nat → nexec k c = NOk v.

Definition nle {A} (m m' : nout A) : Prop := m = NFuel ∨ m = m'.
Lemma nrun_nle frc frc' c : (∀ a, nle (frc a) (frc' a)) → nle (nrun frc c) (nrun frc' c).
Proof.
  intros Hf. unfold nle in *.
  assert (Hb : ∀ (m m' : nout nval) (f f' : nval → nout nval), (m = NFuel ∨ m = m') → (∀ v, f v = NFuel ∨ f v = f' v) → nbind m f = NFuel ∨ nbind m f = nbind m' f').
  { intros m m' f f' [-> | ->] Hff; [by left|]. destruct m'; simpl; auto. }
  induction c; simpl; auto. destruct (nset a v); simpl; auto.
Qed.
Lemma nforce_S n a : nle (nforce n a) (nforce (S n) a).
Proof.
  revert a. induction n as [|n IH]; intros a.
  - destruct a; [by right|by right|by left].
  - destruct a as [v|l|id pp arg spur]; [by right|by right|]. simpl. apply (nrun_nle (nforce n) (nforce (S n))). apply IH.
Qed.
Lemma nexec_mono n n' c v : (n ≤ n')%nat → nexec n c = NOk v → nexec n' c = NOk v.
Proof.
  induction 1 as [|n' Hle IH]; [done|]. intros E. specialize (IH E).
  destruct (nrun_nle (nforce n') (nforce (S n')) c (nforce_S n')) as [E'|E']; unfold nexec in *; congruence.
Qed.
End Naive.

(** ** C34: against the from-scratch semantics *)

(** From-scratch evaluation in which no name is ever bound to two different contents: the meaning of a program that
    does not need mutation.  Same as [RefSem.v], except that re-binding to different content is stuck. *)
Section WriteOnce.
Context `{Prog}.
Definition w_bind_ (l : loc) (ct : content) : rM loc := λ st,
  match r_store st !! l with
  | Some ct' => if decide (ct' = ct) then ROk l st else RPanic PAssert
  | None => ROk l (RState (<[l := ct]> (r_store st)) (r_log st))
  end.
Definition w_cell (pth : path) (md : bool) (t : ty) (n : name) (v : val) : rM loc :=
  w_bind_ (Loc pth (if md then IdStruct (hash_val v) else IdNom n)) (CCell t v).
Definition w_thunk (pth : path) (md : bool) (t : ty) (nc : namechoice) (pp : progpt) (arg spur : val) : rM loc :=
  match nc with
  | NCEager => λ _, RPanic PUnreach
  | NCNaive => λ _, RPanic PUnimpl
  | NCStructural => w_bind_ (Loc pth (IdStruct (hash_app pp arg))) (CThunk t pp arg spur)
  | NCNominal n => w_bind_ (Loc pth (if md then IdStruct (hash_app pp arg) else IdNom n)) (CThunk t pp arg spur)
  end.
Fixpoint w_run (frc : bool → ty → loc → option val → rM val) (stk : list loc) (pth : path) (md : bool) (c : comp) : rM val :=
  match c with
  | Ret v => λ st, ROk v st
  | Fail => λ _, RPanic PUser
  | Force t a cyc k => rbind (ref_art (frc md) t a cyc) (λ v, w_run frc stk pth md (k v))
  | ForceMap t a f k | ForceAbs t a f k => rbind (ref_art (frc md) t a None) (λ v, w_run frc stk pth md (k (f v)))
  | Cell t n v k => rbind (w_cell pth md t n v) (λ l, w_run frc stk pth md (k l))
  | Thunk t nc pp arg spur k => rbind (w_thunk pth md t nc pp arg spur) (λ l, w_run frc stk pth md (k l))
  | SetC _ _ _ _ => λ _, RPanic PAssert
  | Ns n b k => rbind (w_run frc stk (n :: pth) md b) (λ v, w_run frc stk pth md (k v))
  | Structural b k => rbind (w_run frc stk pth true b) (λ v, w_run frc stk pth md (k v))
  end.
Fixpoint w_force (n : nat) (stk : list loc) (md : bool) (t : ty) (l : loc) (cyc : option val) : rM val := λ st,
  match r_store st !! l with
  | None => RPanic PDangling
  | Some ct =>
      if decide (content_ty ct = t) then
        match ct with
        | CCell _ v => ROk v st
        | CThunk _ pp arg spur =>
            if decide (l ∈ stk) then RPanic PCycle
            else match n with
                 | O => RFuel
                 | S n => w_run (w_force n (l :: stk)) (l :: stk) (l_path l) md (code pp arg spur)
                                (RState (r_store st) (l :: r_log st))
                 end
        end
      else RPanic PType
  end.
(** The whole program, from the empty store. *)
Definition writes_once (md : bool) (c : comp) (v : val) (σ : store) : Prop :=
  ∃ n lg, w_run (w_force n []) [] [] md c (RState ∅ []) = ROk v (RState σ lg).

(** It is a restriction of from-scratch evaluation. *)
Definition wle {A} (m m' : rM A) : Prop := ∀ st a st', m st = ROk a st' → m' st = ROk a st'.
Lemma wle_bind {A B} (m m' : rM A) (f f' : A → rM B) : wle m m' → (∀ a, wle (f a) (f' a)) → wle (rbind m f) (rbind m' f').
Proof. intros Hm Hf st a st'. unfold rbind. destruct (m st) as [b st1| |] eqn:E; try done. rewrite (Hm _ _ _ E). apply Hf. Qed.
Lemma wle_refl {A} (m : rM A) : wle m m. Proof. by intros ? ? ?. Qed.
Lemma w_run_wle frc frc' stk pth md c : (∀ md t l cyc, wle (frc md t l cyc) (frc' md t l cyc)) →
  wle (w_run frc stk pth md c) (ref_run frc' stk pth md c).
Proof.
  intros Hf. revert pth md. induction c; intros pth md; cbn [w_run ref_run]; try apply wle_refl; try (intros ? ? ?; done); apply wle_bind; intros; auto.
  1-3: destruct a; [apply wle_refl|apply Hf].
  - intros [σ lg] l st'. unfold w_cell, ref_cell, w_bind_, rbind, rput. cbn [r_store r_log]. destruct (_ !! _) as [ct|] eqn:E; [|done].
    destruct (decide _) as [->|]; [|done]. simpl. rewrite decide_True by done. rewrite insert_id by done. done.
  - intros [σ lg] l st'. unfold w_thunk, ref_thunk, w_bind_, rbind, rput.
    destruct nc as [| | |n]; cbn [r_store r_log]; try done; (destruct (_ !! _) as [ct|] eqn:E; [|done]);
      (destruct (decide _) as [->|]; [|done]); simpl; rewrite !decide_True by done; rewrite insert_id by done; done.
Qed.
Lemma w_force_wle n : ∀ stk md t l cyc, wle (w_force n stk md t l cyc) (ref_force n stk md t l cyc).
Proof.
  induction n as [|n IH]; intros stk md t l cyc st a st'; cbn [w_force ref_force]; (destruct (_ !! _) as [ct|]; [|done]);
    (destruct (decide (content_ty ct = t)); [|done]); (destruct ct; [done|]); (destruct (decide (l ∈ stk)); [done|]); [done|].
  apply w_run_wle. intros. apply IH.
Qed.
Lemma writes_once_from_scratch md c v σ : writes_once md c v σ → from_scratch md c v σ.
Proof. intros (n & lg & E). exists n, lg. eapply w_run_wle; [intros; apply w_force_wle|exact E]. Qed.
End WriteOnce.

(** When a value of the naive engine stands for a value of the store semantics: arts hold corresponding contents. *)
Inductive vrel (σ : store) : val → nval → Prop :=
  | vr_unit : vrel σ VUnit NUnit
  | vr_bool b : vrel σ (VBool b) (NBool b)
  | vr_int z : vrel σ (VInt z) (NInt z)
  | vr_str x : vrel σ (VStr x) (NStr x)
  | vr_name n : vrel σ (VName n) (NName n)
  | vr_pair a b a' b' : vrel σ a a' → vrel σ b b' → vrel σ (VPair a b) (NPair a' b')
  | vr_inl a a' : vrel σ a a' → vrel σ (VInl a) (NInl a')
  | vr_inr a a' : vrel σ a a' → vrel σ (VInr a) (NInr a')
  | vr_rc v v' : vrel σ v v' → vrel σ (VRc v) (NArt (ERc v'))
  | vr_loc l a' : lrel σ l a' → vrel σ (VLoc l) (NArt a')
with lrel (σ : store) : loc → nart → Prop :=
  | lr_cell l t v v' : σ !! l = Some (CCell t v) → vrel σ v v' → lrel σ l (ERc v')
  | lr_thunk l t id pp arg spur arg' spur' : σ !! l = Some (CThunk t pp arg spur) →
      vrel σ arg arg' → vrel σ spur spur' → lrel σ l (EForce id pp arg' spur').
Inductive arel (σ : store) : art → nart → Prop :=
  | ar_rc v v' : vrel σ v v' → arel σ (ARc v) (ERc v')
  | ar_loc l a' : lrel σ l a' → arel σ (ALoc l) a'.
Scheme vrel_min := Minimality for vrel Sort Prop with lrel_min := Minimality for lrel Sort Prop.
Combined Scheme vrel_mutind from vrel_min, lrel_min.

(** Two programs are the same client, written against the two representations of arts: they make the same calls
    with corresponding arguments, whatever corresponding answers they get.  (A Rust client is one text; it cannot look
    inside an art.)  [set] is excluded: the naive engine does not implement it. *)
Inductive same_client : store → comp → ncomp → Prop :=
  | sc_ret σ v v' : vrel σ v v' → same_client σ (Ret v) (NRet v')
  | sc_fail σ : same_client σ Fail NFail
  | sc_force σ t a a' cyc cyc' k k' : arel σ a a' → (∀ σ' v v', σ ⊆ σ' → vrel σ' v v' → same_client σ' (k v) (k' v')) →
      same_client σ (Force t a cyc k) (NForce a' cyc' k')
  | sc_force_map σ t a a' f f' k k' : arel σ a a' → (∀ σ' v v', σ ⊆ σ' → vrel σ' v v' → same_client σ' (k (f v)) (k' (f' v'))) →
      same_client σ (ForceMap t a f k) (NForceMap a' f' k')
  | sc_force_abs σ t a a' f f' k k' : arel σ a a' → (∀ σ' v v', σ ⊆ σ' → vrel σ' v v' → same_client σ' (k (f v)) (k' (f' v'))) →
      same_client σ (ForceAbs t a f k) (NForceAbs a' f' k')
  | sc_cell σ t n v v' k k' : vrel σ v v' → (∀ σ' l a', σ ⊆ σ' → lrel σ' l a' → same_client σ' (k l) (k' a')) →
      same_client σ (Cell t n v k) (NCell n v' k')
  | sc_thunk σ t id pp arg spur arg' spur' k k' : vrel σ arg arg' → vrel σ spur spur' →
      (∀ σ' l a', σ ⊆ σ' → lrel σ' l a' → same_client σ' (k l) (k' a')) →
      same_client σ (Thunk t id pp arg spur k) (NThunk id pp arg' spur' k')
  | sc_ns σ n b b' k k' : same_client σ b b' → (∀ σ' v v', σ ⊆ σ' → vrel σ' v v' → same_client σ' (k v) (k' v')) →
      same_client σ (Ns n b k) (NNs n b' k')
  | sc_structural σ b b' k k' : same_client σ b b' → (∀ σ' v v', σ ⊆ σ' → vrel σ' v v' → same_client σ' (k v) (k' v')) →
      same_client σ (Structural b k) (NStructural b' k').
(** The functions named by program points are the same on both sides. *)
Definition same_code (P : Prog) (Q : NProg) : Prop := ∀ σ pp arg spur arg' spur', vrel σ arg arg' → vrel σ spur spur' →
  same_client σ (code pp arg spur) (ncode pp arg' spur').

Lemma rel_mono σ σ' : σ ⊆ σ' → (∀ v v', vrel σ v v' → vrel σ' v v') ∧ (∀ l a, lrel σ l a → lrel σ' l a).
Proof.
  intros Hs. apply vrel_mutind; intros; try (by constructor).
  - eapply lr_cell; [by eapply lookup_weaken|done].
  - eapply lr_thunk; [by eapply lookup_weaken|done|done].
Qed.
Lemma vrel_mono σ σ' v v' : σ ⊆ σ' → vrel σ v v' → vrel σ' v v'.
Proof. intros Hs. by apply (rel_mono σ σ' Hs). Qed.
Lemma lrel_mono σ σ' v v' : σ ⊆ σ' → lrel σ v v' → lrel σ' v v'.
Proof. intros Hs. by apply (rel_mono σ σ' Hs). Qed.
Lemma arel_mono σ σ' a a' : σ ⊆ σ' → arel σ a a' → arel σ' a a'.
Proof. intros Hs [v v' Hv|l a2 Hl]; constructor; eauto using vrel_mono, lrel_mono. Qed.

Section Sim34.
Context {P : Prog} {Q : NProg}.

Lemma w_bind_inv l ct σ lg l' st : w_bind_ l ct (RState σ lg) = ROk l' st →
  l' = l ∧ r_log st = lg ∧ σ ⊆ r_store st ∧ r_store st !! l = Some ct.
Proof.
  unfold w_bind_. cbn [r_store r_log]. destruct (σ !! l) as [ct'|] eqn:E.
  - destruct (decide _) as [->|]; [|done]. intros [= <- <-]. done.
  - intros [= <- <-]. cbn. split_and!; try done; [by apply insert_subseteq|by rewrite lookup_insert].
Qed.

Definition fsim (n : nat) (frc : bool → ty → loc → option val → rM val) : Prop :=
  ∀ md t l cyc σ lg v st a', lrel σ l a' → frc md t l cyc (RState σ lg) = ROk v st →
    σ ⊆ r_store st ∧ ∃ v', nforce n a' = NOk v' ∧ vrel (r_store st) v v'.

Lemma ref_art_sim n frc md t a a' cyc σ lg v st : fsim n frc → arel σ a a' →
  ref_art (frc md) t a cyc (RState σ lg) = ROk v st →
  σ ⊆ r_store st ∧ ∃ v', nforce n a' = NOk v' ∧ vrel (r_store st) v v'.
Proof.
  intros Hf [w w' Hw|l a2 Hl] E; simpl in E.
  - injection E as <- <-. split; [done|]. exists w'. by destruct n.
  - by eapply Hf.
Qed.
Lemma run_sim n frc stk : fsim n frc → ∀ σ c c', same_client σ c c' → ∀ pth md lg v st,
  w_run frc stk pth md c (RState σ lg) = ROk v st →
  σ ⊆ r_store st ∧ ∃ v', nrun (nforce n) c' = NOk v' ∧ vrel (r_store st) v v'.
Proof.
  intros Hf σ c c' Hc. induction Hc as [σ v0 v0' Hv|σ|σ t a a' cyc cyc' k k' Ha Hk IH|σ t a a' f f' k k' Ha Hk IH|σ t a a' f f' k k' Ha Hk IH
    |σ t n0 v0 v0' k k' Hv Hk IH|σ t id pp arg spur arg' spur' k k' Hv1 Hv2 Hk IH|σ n0 b b' k k' Hb IHb Hk IH|σ b b' k k' Hb IHb Hk IH];
    intros pth md lg v st; cbn [w_run nrun]; try done.
  - intros [= <- <-]. split; [done|]. by exists v0'.
  - unfold rbind. destruct (ref_art _ _ _ _ _) as [w [σ1 lg1]| |] eqn:E; try done. intros E2.
    destruct (ref_art_sim _ _ _ _ _ _ _ _ _ _ _ Hf Ha E) as (Hs & w' & -> & Hw). cbn in *.
    destruct (IH σ1 w w' Hs Hw _ _ _ _ _ E2) as (Hs' & v' & Hv' & Hr). split; [by etrans|]. by exists v'.
  - unfold rbind. destruct (ref_art _ _ _ _ _) as [w [σ1 lg1]| |] eqn:E; try done. intros E2.
    destruct (ref_art_sim _ _ _ _ _ _ _ _ _ _ _ Hf Ha E) as (Hs & w' & -> & Hw). cbn in *.
    destruct (IH σ1 w w' Hs Hw _ _ _ _ _ E2) as (Hs' & v' & Hv' & Hr). split; [by etrans|]. by exists v'.
  - unfold rbind. destruct (ref_art _ _ _ _ _) as [w [σ1 lg1]| |] eqn:E; try done. intros E2.
    destruct (ref_art_sim _ _ _ _ _ _ _ _ _ _ _ Hf Ha E) as (Hs & w' & -> & Hw). cbn in *.
    destruct (IH σ1 w w' Hs Hw _ _ _ _ _ E2) as (Hs' & v' & Hv' & Hr). split; [by etrans|]. by exists v'.
  - unfold rbind. destruct (w_cell _ _ _ _ _ _) as [l [σ1 lg1]| |] eqn:E; try done. intros E2.
    apply w_bind_inv in E as (-> & _ & Hs & Hl). cbn in *.
    destruct (IH σ1 _ (ncell n0 v0') Hs ltac:(by eapply lr_cell; [|eapply vrel_mono]) _ _ _ _ _ E2) as (Hs' & v' & Hv' & Hr).
    split; [by etrans|]. by exists v'.
  - unfold rbind. destruct (w_thunk _ _ _ _ _ _ _ _) as [l [σ1 lg1]| |] eqn:E; try done. intros E2.
    assert (σ ⊆ σ1 ∧ σ1 !! l = Some (CThunk t pp arg spur)) as [Hs Hl].
    { unfold w_thunk in E. destruct id; try done; apply w_bind_inv in E as (-> & _ & Hs & Hl); done. }
    destruct (IH σ1 l (nthunk id pp arg' spur') Hs ltac:(eapply lr_thunk; [done|by eapply vrel_mono..]) _ _ _ _ _ E2) as (Hs' & v' & Hv' & Hr).
    split; [by etrans|]. by exists v'.
  - unfold rbind. destruct (w_run _ _ _ _ b _) as [w [σ1 lg1]| |] eqn:E; try done. intros E2.
    destruct (IHb _ _ _ _ _ E) as (Hs & w' & -> & Hw). cbn in *.
    destruct (IH σ1 w w' Hs Hw _ _ _ _ _ E2) as (Hs' & v' & Hv' & Hr). split; [by etrans|]. by exists v'.
  - unfold rbind. destruct (w_run _ _ _ _ b _) as [w [σ1 lg1]| |] eqn:E; try done. intros E2.
    destruct (IHb _ _ _ _ _ E) as (Hs & w' & -> & Hw). cbn in *.
    destruct (IH σ1 w w' Hs Hw _ _ _ _ _ E2) as (Hs' & v' & Hv' & Hr). split; [by etrans|]. by exists v'.
Qed.
Lemma force_sim n : same_code P Q → ∀ stk, fsim n (w_force n stk).
Proof.
  intros HPQ. induction n as [|n IH]; intros stk md t l cyc σ lg v st a' Ha.
  - cbn [w_force r_store]. destruct Ha as [l t' w w' E Hw|l t' id pp arg spur arg' spur' E H1 H2]; rewrite E; destruct (decide _); try done.
    + intros [= <- <-]. split; [done|]. by exists w'.
    + by destruct (decide _).
  - cbn [w_force r_store]. destruct Ha as [l t' w w' E Hw|l t' id pp arg spur arg' spur' E H1 H2]; rewrite E; destruct (decide _); try done.
    + intros [= <- <-]. split; [done|]. by exists w'.
    + destruct (decide (l ∈ stk)); [done|]. intros Er.
      change (nforce (S n) (EForce id pp arg' spur')) with (nrun (nforce n) (ncode pp arg' spur')).
      refine (run_sim n _ _ (IH (l :: stk)) σ _ _ (HPQ σ pp arg spur arg' spur' H1 H2) _ _ _ _ _ Er).
Qed.

(** The naive engine computes what from-scratch evaluation computes, for every client that never re-binds a name. *)
Theorem C34_naive_from_scratch md c c' v σ : same_code P Q → same_client ∅ c c' → writes_once md c v σ →
  ∃ v', nreturns c' v' ∧ vrel σ v v'.
Proof.
  intros HPQ Hc (n & lg & E). destruct (run_sim n _ [] (force_sim n HPQ []) ∅ c c' Hc _ _ _ _ _ E) as (_ & v' & Hv & Hr).
  exists v'. split; [|done]. exists n. intros k Hk. by eapply nexec_mono.
Qed.
(** ... hence what the incremental engine computes. *)
Theorem C34_engines_agree opt md c c' v σ : same_code P Q → disciplined opt md c → same_client ∅ c c' → writes_once md c v σ →
  ∃ s v', returns c (dcg_new_flags md opt) v s ∧ nreturns c' v' ∧ vrel (holds s) v v'.
Proof.
  intros HPQ Hd Hc Hw. destruct (C34_naive_from_scratch md c c' v σ HPQ Hc Hw) as (v' & Hn & Hr).
  destruct (C01_from_scratch_consistency opt md c Hd) as (w & σ' & s & Hfs & Hret & Hh & _).
  destruct (from_scratch_functional _ _ _ _ _ _ (writes_once_from_scratch _ _ _ _ Hw) Hfs) as [<- <-].
  exists s, v'. by rewrite Hh.
Qed.
End Sim34.

(** Results without arts are literally equal. *)
Fixpoint data (v : val) : option nval :=
  match v with
  | VUnit => Some NUnit | VBool b => Some (NBool b) | VInt z => Some (NInt z) | VStr x => Some (NStr x) | VName n => Some (NName n)
  | VPair a b => a' ← data a; b' ← data b; Some (NPair a' b')
  | VInl a => NInl <$> data a | VInr a => NInr <$> data a
  | VRc _ | VLoc _ => None
  end.
Theorem C34_data σ v v' w : vrel σ v v' → data v = Some w → v' = w.
Proof.
  intros Hr. revert w. induction Hr as [|b|z|x|n|a b a' b' H1 IH1 H2 IH2|a a' H1 IH1|a a' H1 IH1|v v' H1 IH1|l a' H1]; intros w; simpl; try (by intros [= <-]); try done.
  - destruct (data a) as [x|]; [|done]. destruct (data b) as [y|]; [|done]. simpl. intros [= <-]. by rewrite (IH1 _ eq_refl), (IH2 _ eq_refl).
  - destruct (data a) as [x|]; [|done]. simpl. intros [= <-]. by rewrite (IH1 _ eq_refl).
  - destruct (data a) as [x|]; [|done]. simpl. intros [= <-]. by rewrite (IH1 _ eq_refl).
Qed.

(** Under the naive engine nothing can be mutated: an art's value is a function of the art alone. *)
Theorem C34_naive_is_immutable {Q : NProg} a v : ∃ r, nset a v = NPanic r.
Proof. destruct a; simpl; eauto. Qed.

(** *** A concrete instance: cells, thunks allocating cells, thunks forcing thunks, namespaces, projections. *)
Definition nfst (v : nval) : nval := match v with NPair a _ => a | _ => NUnit end.
Definition nsnd (v : nval) : nval := match v with NPair _ b => b | _ => NUnit end.
Definition nadd (a b : nval) : nval := match a, b with NInt x, NInt y => NInt (x + y) | _, _ => NUnit end.
Definition nneg (a : nval) : nval := match a with NInt x => NInt (- x) | _ => NUnit end.
Definition as_nart (v : nval) : nart := match v with NArt a => a | _ => ERc v end.
Definition small_code (pp : progpt) (arg spur : val) : comp :=
  match pp with
  | "get" => Force T0 (as_art arg) None Ret
  | "add" => Force T0 (as_art (vfst arg)) None (λ a, Force T0 (as_art (vsnd arg)) None (λ b, Ret (vadd a b)))
  | "fst" => ForceMap T1 (as_art arg) vfst Ret
  | "emit" => Force T0 (as_art arg) None (λ a, Cell T0 (nm "out") (vadd a a) (λ l, Ret (VLoc l)))
  | "outer" => Ns (nm "inner") (Thunk T0 (NCNominal (nm "t")) "get" arg VUnit (λ l, Force T0 (ALoc l) None Ret)) (λ v, Ret (vneg v))
  | "force_emit" => Force T0 (as_art arg) None (λ l, Force T0 (as_art l) None Ret)
  | _ => Fail
  end.
Definition small_ncode (pp : progpt) (arg spur : nval) : ncomp :=
  match pp with
  | "get" => NForce (as_nart arg) None NRet
  | "add" => NForce (as_nart (nfst arg)) None (λ a, NForce (as_nart (nsnd arg)) None (λ b, NRet (nadd a b)))
  | "fst" => NForceMap (as_nart arg) nfst NRet
  | "emit" => NForce (as_nart arg) None (λ a, NCell (nm "out") (nadd a a) (λ l, NRet (NArt l)))
  | "outer" => NNs (nm "inner") (NThunk (NCNominal (nm "t")) "get" arg NUnit (λ l, NForce l None NRet)) (λ v, NRet (nneg v))
  | "force_emit" => NForce (as_nart arg) None (λ l, NForce (as_nart l) None NRet)
  | _ => NFail
  end.
Definition small : Prog := {| code := small_code; hash_val := demo_hash; hash_app := λ pp v, (demo_hash (VStr pp) + 1000003 * demo_hash v)%N |}.
Definition small_n : NProg := {| ncode := small_ncode |}.

Lemma as_art_rel σ v v' : vrel σ v v' → arel σ (as_art v) (as_nart v').
Proof. intros Hr. destruct Hr; simpl; try (by repeat constructor); by constructor. Qed.
Lemma vfst_rel σ v v' : vrel σ v v' → vrel σ (vfst v) (nfst v').
Proof. intros Hr. destruct Hr; simpl; try done; constructor. Qed.
Lemma vsnd_rel σ v v' : vrel σ v v' → vrel σ (vsnd v) (nsnd v').
Proof. intros Hr. destruct Hr; simpl; try done; constructor. Qed.
Lemma vadd_rel σ v v' w w' : vrel σ v v' → vrel σ w w' → vrel σ (vadd v w) (nadd v' w').
Proof. intros Hr Hs. destruct Hr; simpl; try constructor. destruct Hs; constructor. Qed.
Lemma vneg_rel σ v v' : vrel σ v v' → vrel σ (vneg v) (nneg v').
Proof. intros Hr. destruct Hr; simpl; constructor. Qed.

Lemma ex_same_code : same_code small small_n.
Proof.
  intros σ pp arg spur arg' spur' Ha Hs. simpl. unfold small_code, small_ncode.
  destruct (decide (pp = "get")) as [->|]; [constructor; [by apply as_art_rel|]; intros; by constructor|].
  destruct (decide (pp = "add")) as [->|].
  { constructor; [by apply as_art_rel, vfst_rel|]. intros σ1 a a' H1 Ha1. constructor; [apply as_art_rel, vsnd_rel; by eapply vrel_mono|].
    intros σ2 b b' H2 Hb. constructor. apply vadd_rel; [by eapply vrel_mono|done]. }
  destruct (decide (pp = "fst")) as [->|]; [constructor; [by apply as_art_rel|]; intros; constructor; by apply vfst_rel|].
  destruct (decide (pp = "emit")) as [->|].
  { constructor; [by apply as_art_rel|]. intros σ1 a a' H1 Ha1. constructor; [by apply vadd_rel|]. intros. by repeat constructor. }
  destruct (decide (pp = "outer")) as [->|].
  { constructor; [|intros; constructor; by apply vneg_rel]. constructor; [done|constructor|]. intros σ1 l a' H1 Hl.
    constructor; [by constructor|]. intros. by constructor. }
  destruct (decide (pp = "force_emit")) as [->|].
  { constructor; [by apply as_art_rel|]. intros. constructor; [by apply as_art_rel|]. intros. by constructor. }
  assert (∀ (A : Type) (x1 x2 x3 x4 x5 x6 d : A), match pp with "get" => x1 | "add" => x2 | "fst" => x3 | "emit" => x4 | "outer" => x5 | "force_emit" => x6 | _ => d end = d) as Hd.
  { intros. repeat (match goal with |- context [match ?x with _ => _ end] => is_var x; destruct x end; try done). }
  rewrite !Hd. constructor.
Qed.

Definition ex_small : comp :=
  cell0 "a" 1 (λ a, cell0 "b" 2 (λ b, Cell T1 (nm "p") (VPair (VInt 1) (VInt 2)) (λ p,
  thunk0 "sum" "add" (VPair (VLoc a) (VLoc b)) (λ sum,
  thunk0 "o" "outer" (VLoc sum) (λ o,
  thunk0 "e" "emit" (VLoc o) (λ e,
  thunk0 "fe" "force_emit" (VLoc e) (λ fe,
  thunk0 "f" "fst" (VLoc p) (λ f,
  Force T0 (ALoc fe) None (λ v1, Force T0 (ALoc f) None (λ v2, Ret (VPair v1 v2))))))))))).
Definition ex_small_n : ncomp :=
  NCell (nm "a") (NInt 1) (λ a, NCell (nm "b") (NInt 2) (λ b, NCell (nm "p") (NPair (NInt 1) (NInt 2)) (λ p,
  NThunk (NCNominal (nm "sum")) "add" (NPair (NArt a) (NArt b)) NUnit (λ sum,
  NThunk (NCNominal (nm "o")) "outer" (NArt sum) NUnit (λ o,
  NThunk (NCNominal (nm "e")) "emit" (NArt o) NUnit (λ e,
  NThunk (NCNominal (nm "fe")) "force_emit" (NArt e) NUnit (λ fe,
  NThunk (NCNominal (nm "f")) "fst" (NArt p) NUnit (λ f,
  NForce fe None (λ v1, NForce f None (λ v2, NRet (NPair v1 v2))))))))))).
Lemma ex_same_client : same_client ∅ ex_small ex_small_n.
Proof.
  repeat first
    [ progress intros
    | match goal with H : lrel ?σ ?l ?a |- lrel _ ?l ?a => first [exact H|eapply lrel_mono; [|exact H]; by repeat (first [eassumption|etrans; [eassumption|]])] end
    | match goal with H : vrel ?σ ?v ?a |- vrel _ ?v ?a => first [exact H|eapply vrel_mono; [|exact H]; by repeat (first [eassumption|etrans; [eassumption|]])] end
    | constructor ].
Qed.
Lemma ex_writes_once : ∃ σ, @writes_once small false ex_small (VPair (VInt (-6)) (VInt 1)) σ.
Proof.
  assert (match @w_run small (@w_force small 20 []) [] [] false ex_small (RState ∅ []) with ROk w _ => w = VPair (VInt (-6)) (VInt 1) | _ => False end) as E
    by (vm_compute; reflexivity).
  destruct (@w_run small (@w_force small 20 []) [] [] false ex_small (RState ∅ [])) as [w [σ lg]| |] eqn:E'; [|destruct E|destruct E].
  subst w. exists σ, 20%nat, lg. exact E'.
Qed.
Lemma ex_small_disciplined opt : @disciplined small opt false ex_small.
Proof. apply (@disciplined_intro small 30). destruct opt; vm_compute; reflexivity. Qed.

(** ** C25: equality of arts *)

(** engine.rs:2131-2144 [impl PartialEq for EnumArt], 2204-2216 [NaiveThunk::eq]: identity choice, program point and
    argument; [spur] and the captured environment are ignored.  (The [transmute] of the other thunk is modelled for
    thunks of one program point having one argument type, which is what its comment requires.) *)
Fixpoint nval_eq (a b : nval) : bool :=
  match a, b with
  | NUnit, NUnit => true
  | NBool x, NBool y => bool_decide (x = y)
  | NInt x, NInt y => bool_decide (x = y)
  | NStr x, NStr y => bool_decide (x = y)
  | NName x, NName y => bool_decide (x = y)
  | NPair a1 a2, NPair b1 b2 => nval_eq a1 b1 && nval_eq a2 b2
  | NInl x, NInl y => nval_eq x y
  | NInr x, NInr y => nval_eq x y
  | NArt x, NArt y => nart_eq x y
  | _, _ => false
  end
with nart_eq (a b : nart) : bool :=
  match a, b with
  | ERc x, ERc y => nval_eq x y
  | ELoc x, ELoc y => bool_decide (x = y)
  | EForce id pp arg _, EForce id' pp' arg' _ => bool_decide (id = id') && bool_decide (pp = pp') && nval_eq arg arg'
  | _, _ => false
  end.

(** What equality (and hashing, 2120-2129 and 2196-2202) can see: everything but the spurious parts. *)
Fixpoint seen (v : nval) : nval :=
  match v with
  | NPair a b => NPair (seen a) (seen b)
  | NInl a => NInl (seen a)
  | NInr a => NInr (seen a)
  | NArt a => NArt (seen_art a)
  | v => v
  end
with seen_art (a : nart) : nart :=
  match a with
  | ERc v => ERc (seen v)
  | ELoc l => ELoc l
  | EForce id pp arg _ => EForce id pp (seen arg) NUnit
  end.
Scheme nval_ind2 := Induction for nval Sort Prop with nart_ind2 := Induction for nart Sort Prop.
Combined Scheme nval_mutind from nval_ind2, nart_ind2.
Lemma eq_seen : (∀ v w, nval_eq v w = true ↔ seen v = seen w) ∧ (∀ a b, nart_eq a b = true ↔ seen_art a = seen_art b).
Proof.
  apply nval_mutind.
  all: intros.
  all: match goal with |- _ ?x = true ↔ _ => destruct x | |- nval_eq _ ?x = _ ↔ _ => destruct x | |- nart_eq _ ?x = _ ↔ _ => destruct x end.
  all: simpl; rewrite ?bool_decide_eq_true, ?andb_true_iff, ?bool_decide_eq_true.
  all: repeat match goal with IH : ∀ w, nval_eq ?v w = true ↔ _ |- context [nval_eq ?v _] => rewrite IH | IH : ∀ w, nart_eq ?v w = true ↔ _ |- context [nart_eq ?v _] => rewrite IH end.
  all: try (split; [intuition congruence|by intros [=]]); try done; naive_solver.
Qed.
(** It is an equivalence relation; equal arts have equal hashes, for any hash function of the parts that equality sees. *)
Theorem C25_equality_is_what_is_seen a b : nart_eq a b = true ↔ seen_art a = seen_art b.
Proof. apply eq_seen. Qed.

(** Without spurious parts or captured environments, equal arts are interchangeable. *)
Fixpoint no_spurious (v : nval) : Prop :=
  match v with
  | NPair a b => no_spurious a ∧ no_spurious b
  | NInl a => no_spurious a | NInr a => no_spurious a
  | NArt a => no_spurious_art a
  | _ => True
  end
with no_spurious_art (a : nart) : Prop :=
  match a with
  | ERc v => no_spurious v
  | ELoc _ => True
  | EForce _ _ arg spur => no_spurious arg ∧ spur = NUnit
  end.
Lemma seen_id : (∀ v, no_spurious v → seen v = v) ∧ (∀ a, no_spurious_art a → seen_art a = a).
Proof. apply nval_mutind; simpl; intros; try done; f_equal; naive_solver. Qed.
Theorem C25_equal_arts_interchangeable a b : no_spurious_art a → no_spurious_art b → nart_eq a b = true → a = b.
Proof. intros Ha Hb. rewrite C25_equality_is_what_is_seen. destruct seen_id as [_ Hs]. by rewrite !Hs. Qed.

(** engine.rs:2452-2475 [thunk_map]: the thunk and the mapping function are captured, the argument is unit.  Mapping
    functions are identified by a symbol, interpreted by [fn]. *)
Definition thunk_map (a : nart) (f : string) : nart := EForce NCNaive "engine::thunk_map" NUnit (NPair (NArt a) (NStr f)).
Definition with_thunk_map (fn : string → nval → nval) (Q : NProg) : NProg := {|
  ncode pp arg spur :=
    if decide (pp = "engine::thunk_map") then
      match spur with NPair (NArt a) (NStr f) => NForce a None (λ r, NRet (fn f r)) | _ => NFail end
    else @ncode Q pp arg spur |}.

(** thunk_map means what its documentation says ... *)
Theorem C25_thunk_map_value fn Q n a f v : @nforce (with_thunk_map fn Q) n a = NOk v →
  @nforce (with_thunk_map fn Q) (S n) (thunk_map a f) = NOk (fn f v).
Proof. intros E. simpl. by rewrite E. Qed.
(** ... but any two arts it returns are equal, whatever they map and however they map it, ... *)
Theorem C25_thunk_map_arts_all_equal a b f g : nart_eq (thunk_map a f) (thunk_map b g) = true.
Proof. done. Qed.
(** ... so equality of arts does not imply equal values. *)
Theorem C25_equal_arts_differ_refuted : ∃ fn (a b : nart) f, nart_eq (thunk_map a f) (thunk_map b f) = true ∧
  ∀ Q, ∃ v w, v ≠ w ∧ ∀ k, @nforce (with_thunk_map fn Q) (S k) (thunk_map a f) = NOk v ∧ @nforce (with_thunk_map fn Q) (S k) (thunk_map b f) = NOk w.
Proof.
  exists (λ _ v, v), (ERc (NInt 1)), (ERc (NInt 2)), "id". split; [done|]. intros Q. exists (NInt 1), (NInt 2). split; [done|].
  intros [|k]; done.
Qed.
Lemma ex_no_spurious : no_spurious_art (EForce (NCNominal (nm "t")) "get" (NArt (ERc (NInt 1))) NUnit).
Proof. done. Qed.
