(** * A memoised function, for all inputs and all edit histories.

    The textbook use of the library: a recursive function (Fibonacci) whose recursive calls are thunks named by their
    argument, and which reads an input cell in its base cases.  Every session of edits of the input cell and queries at
    arbitrary arguments returns the right numbers, and every single query runs at most one thunk body per argument
    (linear), although the function is exponential when it is not memoised. *)
From Verif Require Import Memo Demo.
Local Open Scope string_scope.
Local Open Scope list_scope.

Definition base : loc := at_ "base".
Definition fibn (k : nat) : name := Name 0 (SUsize (N.of_nat k)).
Definition fibl (k : nat) : loc := Loc [] (IdNom (fibn k)).
(** memo!([name_of_usize(k)] fib, k) *)
Definition call (k : nat) (g : val → comp) : comp :=
  Thunk T0 (NCNominal (fibn k)) "fib" (VInt (Z.of_nat k)) VUnit (λ l, Force T0 (ALoc l) None g).
Definition fib_code (pp : progpt) (arg spur : val) : comp :=
  match pp, arg with
  | "fib", VInt z =>
      match Z.to_nat z with
      | S (S k) => call (S k) (λ a, call k (λ b, Ret (vadd a b)))
      | _ => Force T0 (ALoc base) None Ret
      end
  | _, _ => Fail
  end.
Local Instance fib_prog : Prog := {| code := fib_code; hash_val _ := 0%N; hash_app _ _ := 0%N |}.

(** The session: set the input cell to [b], query the function at [k], for each [(k, b)]. *)
Fixpoint vlist (vs : list val) : val := match vs with [] => VUnit | v :: vs => VPair v (vlist vs) end.
Fixpoint queries (qs : list (nat * Z)) (acc : list val) (fin : list val → comp) : comp :=
  match qs with
  | [] => fin acc
  | (k, b) :: qs => SetC T0 (ALoc base) (VInt b) (call k (λ v, queries qs (acc ++ [v]) fin))
  end.
Definition fib_session (b0 : Z) (qs : list (nat * Z)) : comp :=
  Cell T0 (nm "base") (VInt b0) (λ _, queries qs [] (λ vs, Ret (vlist vs))).
(** The same, stopping just before one more query. *)
Definition fib_prepare (b0 : Z) (qs : list (nat * Z)) (k : nat) (b : Z) : comp :=
  Cell T0 (nm "base") (VInt b0) (λ _, queries qs [] (λ _, SetC T0 (ALoc base) (VInt b)
    (Thunk T0 (NCNominal (fibn k)) "fib" (VInt (Z.of_nat k)) VUnit (λ l, Ret (VLoc l))))).

(** What it should return. *)
Fixpoint fib (k : nat) : Z := match k with S k' => match k' with S k'' => fib k' + fib k'' | O => 1 end | O => 1 end.
Definition answer (q : nat * Z) : val := VInt (q.2 * fib q.1).

(** The name determines the argument. *)
Definition fib_lay (l : loc) : option content :=
  match l with
  | Loc [] (IdNom (Name 0%N (SUsize k))) => Some (CThunk T0 "fib" (VInt (Z.of_N k)) VUnit)
  | _ => None
  end.
Definition fib_isc (l : loc) : bool := bool_decide (l = base).
Lemma fib_lay_at k : fib_lay (fibl k) = Some (CThunk T0 "fib" (VInt (Z.of_nat k)) VUnit).
Proof. simpl. by rewrite nat_N_Z. Qed.
Lemma fibl_inj j k : fibl j = fibl k → j = k.
Proof. unfold fibl, fibn. intros [= E]. lia. Qed.
Lemma fib_unfold k : code "fib" (VInt (Z.of_nat k)) VUnit =
  match k with S (S k) => call (S k) (λ a, call k (λ b, Ret (vadd a b))) | _ => Force T0 (ALoc base) None Ret end.
Proof. cbn [code fib_prog fib_code]. by rewrite Nat2Z.id. Qed.

Lemma fib_lay_ok : lay_ok fib_lay.
Proof.
  intros l ct Hl. destruct l as [[|? ?] [h|[[|?] []]]]; try done. simpl in Hl. injection Hl as <-. split; [done|].
  rewrite <- (N2Nat.id n). set (k := N.to_nat n). rewrite nat_N_Z. change (Loc [] (IdNom (Name 0 (SUsize (N.of_nat k))))) with (fibl k).
  unfold suspendable. rewrite fib_unfold. destruct k as [|[|k]].
  1,2: constructor; [set_solver|]; intros v; by constructor.
  unfold call. constructor; [intros E; apply fibl_inj in E; lia|apply fib_lay_at|].
  constructor; [set_solver|]. intros v.
  constructor; [intros E; apply fibl_inj in E; lia|apply fib_lay_at|].
  constructor; [set_solver|]. intros w. by constructor.
Qed.
Lemma queries_edits qs acc fin : (∀ vs, edits fib_lay fib_isc [] (fin vs)) → edits fib_lay fib_isc [] (queries qs acc fin).
Proof.
  intros Hfin. revert acc. induction qs as [|[k b] qs IH]; intros acc; simpl; [apply Hfin|].
  constructor; [by intros l [= <-]|]. apply e_lay_thunk; [apply fib_lay_at|]. constructor. intros v. apply IH.
Qed.
Lemma session_edits b0 qs : edits fib_lay fib_isc [] (fib_session b0 qs).
Proof. apply e_cell; [done|done|]. apply queries_edits. constructor. Qed.
Lemma prepare_edits b0 qs k b : edits fib_lay fib_isc [] (fib_prepare b0 qs k b).
Proof.
  apply e_cell; [done|done|]. apply queries_edits. intros _. constructor; [by intros l [= <-]|].
  apply e_lay_thunk; [apply fib_lay_at|]. constructor.
Qed.

(** From-scratch evaluation. *)
Definition fits_b (σ : store) (b : Z) : Prop := σ !! base = Some (CCell T0 (VInt b)) ∧
  ∀ j, σ !! fibl j = None ∨ σ !! fibl j = Some (CThunk T0 "fib" (VInt (Z.of_nat j)) VUnit).
Definition above (k : nat) (stk : list loc) : Prop := ∀ x, x ∈ stk → ∃ j, (k < j)%nat ∧ x = fibl j.
Definition logged (k : nat) (lg : list loc) : Prop := ∀ x, x ∈ lg → ∃ j, (j ≤ k)%nat ∧ x = fibl j.

Lemma fits_put σ b k : fits_b σ b → fits_b (<[fibl k := CThunk T0 "fib" (VInt (Z.of_nat k)) VUnit]> σ) b.
Proof.
  intros [H1 H2]. split; [by rewrite lookup_insert_ne|]. intros j. destruct (decide (j = k)) as [->|Hne].
  - right. by rewrite lookup_insert.
  - rewrite lookup_insert_ne; [apply H2|]. intros E. by apply fibl_inj in E.
Qed.
Lemma ref_call k frc stk g st b : fits_b (r_store st) b →
  ref_run frc stk [] false (call k g) st =
  ref_run frc stk [] false (Force T0 (ALoc (fibl k)) None g) (RState (<[fibl k := CThunk T0 "fib" (VInt (Z.of_nat k)) VUnit]> (r_store st)) (r_log st)).
Proof.
  intros [_ Hf]. unfold call. cbn [ref_run]. unfold rbind at 1. unfold ref_thunk. change (Loc [] (IdNom (fibn k))) with (fibl k).
  destruct (Hf k) as [->| ->]; [done|]. cbn [content_ty]. by rewrite !decide_True.
Qed.

Lemma ref_fib_all : ∀ k n stk cyc st b, (k < n)%nat → above k stk → fits_b (r_store st) b →
  r_store st !! fibl k = Some (CThunk T0 "fib" (VInt (Z.of_nat k)) VUnit) →
  ∃ st' lg, ref_force n stk false T0 (fibl k) cyc st = ROk (VInt (b * fib k)) st' ∧ fits_b (r_store st') b ∧
    r_log st' = lg ++ r_log st ∧ logged k lg.
Proof.
  induction k as [k IH] using lt_wf_ind. intros n stk cyc st b Hn Hstk Hf Hl. destruct n as [|n]; [lia|].
  cbn [ref_force]. rewrite Hl. cbn [content_ty]. rewrite decide_True by done.
  assert (fibl k ∉ stk) as Hns. { intros Hin. destruct (Hstk _ Hin) as (j & Hj & E). apply fibl_inj in E. lia. }
  rewrite (decide_False _ _ Hns). rewrite fib_unfold. change (l_path (fibl k)) with (@nil name).
  assert (∀ j, (j < k)%nat → above j (fibl k :: stk)) as Hab.
  { intros j Hj x [->|Hx]%elem_of_cons; [by exists k|]. destruct (Hstk _ Hx) as (i & Hi & ->). exists i. split; [lia|done]. }
  set (st0 := RState (r_store st) (fibl k :: r_log st)).
  assert (fits_b (r_store st0) b) as Hf0 by done.
  destruct k as [|[|k]].
  1,2: cbn [ref_run ref_art]; unfold rbind; destruct n; cbn [ref_force]; rewrite (proj1 Hf0); cbn [content_ty]; rewrite decide_True by done;
    eexists; eexists [fibl _]; (split; [by rewrite Z.mul_1_r|]; split; [done|]; split; [done|]; intros x Hx%elem_of_list_singleton; eexists; split; [|exact Hx]; lia).
  rewrite (ref_call _ _ _ _ _ b Hf0). cbn [ref_run ref_art]. unfold rbind at 1.
  destruct (IH (S k) ltac:(lia) n (fibl (S (S k)) :: stk) None (RState (<[fibl (S k) := CThunk T0 "fib" (VInt (Z.of_nat (S k))) VUnit]> (r_store st0)) (r_log st0)) b) as (st1 & lg1 & E1 & Hf1 & Hlg1 & Hb1);
    [lia|apply Hab; lia|by apply fits_put|by (cbn [r_store]; rewrite lookup_insert)|].
  rewrite E1. rewrite (ref_call _ _ _ _ _ b Hf1). cbn [ref_run ref_art]. unfold rbind.
  destruct (IH k ltac:(lia) n (fibl (S (S k)) :: stk) None (RState (<[fibl k := CThunk T0 "fib" (VInt (Z.of_nat k)) VUnit]> (r_store st1)) (r_log st1)) b) as (st2 & lg2 & E2 & Hf2 & Hlg2 & Hb2);
    [lia|apply Hab; lia|by apply fits_put|by (cbn [r_store]; rewrite lookup_insert)|].
  rewrite E2. exists st2, (lg2 ++ lg1 ++ [fibl (S (S k))]). split_and!.
  - cbn [vadd]. do 2 f_equal. change (fib (S (S k))) with (fib (S k) + fib k)%Z. lia.
  - exact Hf2.
  - rewrite Hlg2. cbn [r_log]. rewrite Hlg1. cbn [r_log st0]. by rewrite <- !app_assoc.
  - intros x. rewrite !elem_of_app, elem_of_list_singleton. intros [Hx|[Hx| ->]].
    + destruct (Hb2 _ Hx) as (j & Hj & ->). exists j. split; [lia|done].
    + destruct (Hb1 _ Hx) as (j & Hj & ->). exists j. split; [lia|done].
    + exists (S (S k)). split; [lia|done].
Qed.

Definition depth (qs : list (nat * Z)) : nat := foldr (λ q m, S (q.1) `max` m) 0%nat qs.
Lemma ref_queries n fin : ∀ qs acc st b, (depth qs ≤ n)%nat → fits_b (r_store st) b →
  ∃ st' b', ref_run (ref_force n []) [] [] false (queries qs acc fin) st =
    ref_run (ref_force n []) [] [] false (fin (acc ++ (answer <$> qs))) st' ∧ fits_b (r_store st') b'.
Proof.
  induction qs as [|[k b'] qs IH]; intros acc st b Hn Hf.
  - exists st, b. simpl. by rewrite app_nil_r.
  - cbn [queries ref_run]. unfold rbind at 1. cbn [ref_set]. rewrite (proj1 Hf). rewrite decide_True by done. unfold rput. cbn in Hn.
    assert (fits_b (<[base := CCell T0 (VInt b')]> (r_store st)) b') as Hf'.
    { split; [by rewrite lookup_insert|]. intros j. rewrite lookup_insert_ne by done. apply Hf. }
    rewrite (ref_call _ _ _ _ (RState (<[base := CCell T0 (VInt b')]> (r_store st)) (r_log st)) b' Hf'). cbn [ref_run ref_art r_store r_log]. unfold rbind.
    destruct (ref_fib_all k n [] None (RState (<[fibl k := CThunk T0 "fib" (VInt (Z.of_nat k)) VUnit]> (<[base := CCell T0 (VInt b')]> (r_store st))) (r_log st)) b') as (st1 & lg1 & E1 & Hf1 & _);
      [lia|by intros ? ?%elem_of_nil|exact (fits_put _ _ k Hf')|by (cbn [r_store]; rewrite lookup_insert)|].
    rewrite E1. destruct (IH (acc ++ [VInt (b' * fib k)]) st1 b' ltac:(unfold depth; lia) Hf1) as (st' & b'' & E2 & Hf2). exists st', b''.
    rewrite E2. by rewrite <- app_assoc.
Qed.
Lemma fits_start b0 : fits_b {[base := CCell T0 (VInt b0)]} b0.
Proof. split; [by rewrite lookup_singleton|]. intros j. left. by rewrite lookup_singleton_ne. Qed.
Lemma session_from_scratch b0 qs : ∃ σ, from_scratch false (fib_session b0 qs) (vlist (answer <$> qs)) σ.
Proof.
  destruct (ref_queries (depth qs) (λ vs, Ret (vlist vs)) qs [] (RState {[base := CCell T0 (VInt b0)]} []) b0) as ([σ lg] & b' & E & _); [done|apply fits_start|].
  exists σ, (depth qs), lg. exact E.
Qed.
Lemma prepare_from_scratch b0 qs k b : ∃ σ, from_scratch false (fib_prepare b0 qs k b) (VLoc (fibl k)) σ ∧
  σ !! base = Some (CCell T0 (VInt b)) ∧ σ !! fibl k = Some (CThunk T0 "fib" (VInt (Z.of_nat k)) VUnit).
Proof.
  destruct (ref_queries (depth qs) (λ _, SetC T0 (ALoc base) (VInt b)
    (Thunk T0 (NCNominal (fibn k)) "fib" (VInt (Z.of_nat k)) VUnit (λ l, Ret (VLoc l)))) qs [] (RState {[base := CCell T0 (VInt b0)]} []) b0) as ([σ lg] & b' & E & Hf); [done|apply fits_start|].
  cbn [ref_run] in E. unfold rbind in E. cbn [ref_set r_store] in E, Hf. rewrite (proj1 Hf) in E. rewrite decide_True in E by done. unfold rput in E. cbn [r_store r_log] in E.
  set (ct := CThunk T0 "fib" (VInt (Z.of_nat k)) VUnit) in *.
  exists (<[fibl k := ct]> (<[base := CCell T0 (VInt b)]> σ)). split_and!.
  - exists (depth qs), lg. unfold ref_exec, fib_prepare. etrans; [exact E|]. unfold ref_thunk. cbn [r_store r_log].
    change (Loc [] (IdNom (fibn k))) with (fibl k). rewrite lookup_insert_ne by done. by destruct (proj2 Hf k) as [-> | ->].
  - rewrite lookup_insert_ne by done. by rewrite lookup_insert.
  - by rewrite lookup_insert.
Qed.

(** Every session returns the right numbers, with or without the purity optimisation. *)
Theorem C01_memoized_fib opt b0 qs :
  ∃ s, returns (fib_session b0 qs) (dcg_new_flags false opt) (vlist (answer <$> qs)) s ∧ idle s.
Proof.
  destruct (session_from_scratch b0 qs) as (σ & Hs).
  destruct (C01_memoized opt fib_lay fib_isc _ _ _ fib_lay_ok (session_edits b0 qs) Hs) as (s & Hr & _ & Hi). by exists s.
Qed.

Lemma logged_length k (rs lg : list loc) : NoDup rs → (∀ x, x ∈ rs → x ∈ lg) → logged k lg → (length rs ≤ S k)%nat.
Proof.
  intros Hnd Hin Hlg. rewrite <- (seq_length (S k) 0), <- (fmap_length fibl). apply submseteq_length.
  apply NoDup_submseteq; [done|]. intros x Hx. destruct (Hlg x (Hin x Hx)) as (j & Hj & ->).
  apply elem_of_list_fmap. exists j. split; [done|]. apply elem_of_seq. lia.
Qed.
Lemma fib_demand opt s k b :
  reached opt false s → mgood fib_lay fib_isc (holds s) →
  holds s !! base = Some (CCell T0 (VInt b)) →
  holds s !! fibl k = Some (CThunk T0 "fib" (VInt (Z.of_nat k)) VUnit) →
  ∃ s' rs, demand T0 (fibl k) s (VInt (b * fib k)) s' ∧ runs s' = rs ++ runs s ∧ (length rs ≤ S k)%nat.
Proof.
  intros Hs Hg Hb Hk.
  destruct (ref_fib_all k (S k) [] None (RState (holds s) []) b) as (st' & lg & E & _ & Hlg & Hl); [lia|by intros ? ?%elem_of_nil| |done|].
  { split; [done|]. intros j. cbn [r_store]. destruct (holds s !! fibl j) as [ct|] eqn:Ej; [right|by left].
    destruct (Hg _ _ Ej) as [_ Hf]. rewrite fib_lay_at in Hf. by subst. }
  assert (disciplined_demand opt false T0 (fibl k) (holds s)) as Hd.
  { destruct (memo_force opt fib_lay (S k) fib_isc _ _ _ _ (RState (holds s) []) _ fib_lay_ok Hg E) as [Hd _]. by eexists _, _, _. }
  destruct (demand_after_history opt false s T0 (fibl k) Hs Hd) as (v & σ' & lg' & s' & rs & Hfs & Hdm & _ & Hrs & Hnd & Hin & _).
  destruct (demand_from_scratch_functional false T0 (fibl k) (holds s) v σ' lg' (VInt (b * fib k)) (r_store st') (r_log st') Hfs) as (-> & _ & ->).
  { exists (S k). rewrite E. by destruct st'. }
  exists s', rs. split_and!; [done|done|]. eapply logged_length; [exact Hnd|exact Hin|].
  rewrite Hlg. cbn [r_log]. by rewrite app_nil_r.
Qed.

(** After every session, one more query at any argument [k], with any value of the input, gives the right number and runs
    at most [k + 1] thunk bodies. *)
Theorem C04_memoized_fib opt b0 qs k b :
  ∃ s s' rs, returns (fib_prepare b0 qs k b) (dcg_new_flags false opt) (VLoc (fibl k)) s ∧
    demand T0 (fibl k) s (VInt (b * fib k)) s' ∧ runs s' = rs ++ runs s ∧ (length rs ≤ S k)%nat.
Proof.
  destruct (prepare_from_scratch b0 qs k b) as (σ & Hs & Hb & Hk).
  pose proof (memo_disciplined opt fib_lay fib_isc _ _ _ fib_lay_ok (prepare_edits b0 qs k b) Hs) as Hd.
  destruct (C01_memoized opt fib_lay fib_isc _ _ _ fib_lay_ok (prepare_edits b0 qs k b) Hs) as (s & (K & HK) & Hh & _).
  assert (mgood fib_lay fib_isc σ) as Hg.
  { destruct Hs as (n & lg & Hr). destruct (memo_run opt fib_lay n fib_isc [] _ fib_lay_ok (prepare_edits b0 qs k b) (VLoc (fibl k)) (RState ∅ []) (RState σ lg)) as [_ Hg]; [done|exact Hr|exact Hg]. }
  destruct (fib_demand opt s k b) as (s' & rs & H1 & H2 & H3).
  - exists (fib_prepare b0 qs k b), K, (VLoc (fibl k)). split; [exact Hd|]. by apply HK.
  - by rewrite Hh.
  - by rewrite Hh.
  - by rewrite Hh.
  - exists s, s', rs. split_and!; [by exists K|done|done|done].
Qed.
