(** * C01-C04, C09, C10: the incremental engine against from-scratch evaluation. *)
From Verif Require Export Spec Fuel.

Section Seq.
Context `{Prog}.

(** Programs compose. *)
Lemma run_cbind frc c g s : run frc (cbind c g) s = bind (run frc c) (λ v, run frc (g v)) s.
Proof.
  assert (Hb : ∀ A B (m : M A) (f f' : A → M B) s, (∀ a s, f a s = f' a s) → bind m f s = bind m f' s).
  { intros A B m f f' s0 Hf. unfold bind. destruct (m s0) as [[a|r|] s1]; auto. }
  assert (Ha : ∀ A B C (m : M A) (f : A → M B) (h : B → M C) s, bind (bind m f) h s = bind m (λ a, bind (f a) h) s).
  { intros A B C m f h s0. unfold bind. destruct (m s0) as [[a|r|] s1]; auto. }
  revert s. induction c; intros s; cbn [cbind run]; try done; rewrite ?Ha;
    try (apply Hb; intros; eauto; fail).
  - apply Hb; intros a s1. rewrite Ha. apply Hb; intros a2 s2. rewrite Ha. apply Hb; intros a3 s3. rewrite Ha. apply Hb; intros a4 s4. auto.
  - apply Hb; intros a s1. rewrite Ha. apply Hb; intros a2 s2. rewrite Ha. apply Hb; intros a3 s3. rewrite Ha. apply Hb; intros a4 s4. auto.
Qed.
Lemma d_run_cbind opt frc stk pth md c g p :
  d_run opt frc stk pth md (cbind c g) p = dbind (d_run opt frc stk pth md c) (λ v, d_run opt frc stk pth md (g v)) p.
Proof.
  assert (Hb : ∀ A B (m : dM A) (f f' : A → dM B) s, (∀ a s, f a s = f' a s) → dbind m f s = dbind m f' s).
  { intros A B m f f' s0 Hf. unfold dbind. destruct (m s0) as [[a s1]|]; auto. }
  assert (Ha : ∀ A B C (m : dM A) (f : A → dM B) (h : B → dM C) s, dbind (dbind m f) h s = dbind m (λ a, dbind (f a) h) s).
  { intros A B C m f h s0. unfold dbind. destruct (m s0) as [[a s1]|]; auto. }
  revert pth md p. induction c; intros pth md p; cbn [cbind d_run]; try done; rewrite ?Ha; apply Hb; intros; eauto.
Qed.
End Seq.

Section Mono.
Context `{Prog}.
Context (opt md0 : bool).
Definition dle {A} (m m' : dM A) : Prop := ∀ p a p', m p = Some (a, p') → m' p = Some (a, p').
Lemma dle_bind {A B} (m m' : dM A) (f f' : A → dM B) : dle m m' → (∀ a, dle (f a) (f' a)) → dle (dbind m f) (dbind m' f').
Proof.
  intros Hm Hf p b p'. unfold dbind. destruct (m p) as [[a p1]|] eqn:E; [|done]. rewrite (Hm _ _ _ E). apply Hf.
Qed.
Lemma dle_refl {A} (m : dM A) : dle m m. Proof. by intros ? ? ?. Qed.
Lemma d_run_dle frc frc' stk pth md c : (∀ md t l, dle (frc md t l) (frc' md t l)) →
  dle (d_run opt frc stk pth md c) (d_run opt frc' stk pth md c).
Proof.
  intros Hf. revert pth md. induction c; intros pth md; cbn [d_run]; try apply dle_refl; apply dle_bind; intros; auto; try apply dle_refl.
  - destruct a; [apply dle_refl|apply Hf].
  - destruct a; [apply dle_refl|]. intros p a p'. unfold d_force_map. destruct (_ !! _) as [[t' v|]|]; try done.
    + destruct (decide _); [|done]. destruct (tracked _ _); [done|].
      destruct (frc md t l p) as [[w p1]|] eqn:E; [|done]. by rewrite (Hf _ _ _ _ _ _ E).
    + destruct (frc md t l p) as [[w p1]|] eqn:E; [|done]. by rewrite (Hf _ _ _ _ _ _ E).
  - destruct a; [apply dle_refl|]. intros p a p'. unfold d_force_map. destruct (_ !! _) as [[t' v|]|]; try done.
    + destruct (decide _); [|done]. destruct (tracked _ _); [done|].
      destruct (frc md t l p) as [[w p1]|] eqn:E; [|done]. by rewrite (Hf _ _ _ _ _ _ E).
    + destruct (frc md t l p) as [[w p1]|] eqn:E; [|done]. by rewrite (Hf _ _ _ _ _ _ E).
Qed.
Lemma d_force_S n : ∀ stk md t l, dle (d_force opt md0 n stk md t l) (d_force opt md0 (S n) stk md t l).
Proof.
  induction n as [|n IH]; intros stk md t l p a p'.
  - cbn [d_force]. destruct (_ !! _) as [[]|]; try done. by destruct (decide _).
  - cbn [d_force]. destruct (_ !! _) as [[|t' pp arg spur]|]; try done. destruct (decide _); [|done].
    destruct (d_run opt (d_force opt md0 n (l :: stk)) (l :: stk) _ _ _ _) as [[v p1]|] eqn:E; [|done].
    eapply d_run_dle in E; [|intros; apply IH]. cbn [d_force] in E. by rewrite E.
Qed.
Lemma d_force_mono n n' stk md t l : (n ≤ n')%nat → dle (d_force opt md0 n stk md t l) (d_force opt md0 n' stk md t l).
Proof.
  induction 1 as [|n' Hle IH]; [apply dle_refl|]. intros p a p' E. by apply d_force_S, IH.
Qed.
Lemma d_exec_mono n n' c : (n ≤ n')%nat → dle (d_exec opt md0 n c) (d_exec opt md0 n' c).
Proof. intros Hle. apply d_run_dle. intros. by apply d_force_mono. Qed.
End Mono.

(** The from-scratch semantics does not depend on the depth bound. *)
Section RefMono.
Context `{Prog}.
Definition rle {A} (m m' : rM A) : Prop := ∀ st r, m st = r → r ≠ RFuel → m' st = r.
Lemma rle_refl {A} (m : rM A) : rle m m. Proof. by intros ? ?. Qed.
Lemma rle_bind {A B} (m m' : rM A) (f f' : A → rM B) : rle m m' → (∀ a, rle (f a) (f' a)) → rle (rbind m f) (rbind m' f').
Proof.
  intros Hm Hf st r E Hr. unfold rbind in *. destruct (m st) as [a st'|r'|] eqn:Em.
  - rewrite (Hm _ _ Em) by done. by eapply Hf.
  - by rewrite (Hm _ _ Em).
  - congruence.
Qed.
Lemma ref_run_rle frc frc' stk pth md c : (∀ md t l cyc, rle (frc md t l cyc) (frc' md t l cyc)) →
  rle (ref_run frc stk pth md c) (ref_run frc' stk pth md c).
Proof.
  intros Hf. revert pth md. induction c; intros pth md; cbn [ref_run]; try apply rle_refl; apply rle_bind; intros; auto; try apply rle_refl.
  all: destruct a; [apply rle_refl|apply Hf].
Qed.
Lemma ref_force_S n : ∀ stk md t l cyc, rle (ref_force n stk md t l cyc) (ref_force (S n) stk md t l cyc).
Proof.
  induction n as [|n IH]; intros stk md t l cyc st r.
  - cbn [ref_force]. destruct (_ !! _) as [ct|]; [|done]. destruct (decide _); [|done]. destruct ct; [done|].
    destruct (decide _); [done|]. by intros <-.
  - cbn [ref_force]. destruct (_ !! _) as [ct|]; [|done]. destruct (decide _); [|done]. destruct ct; [done|].
    destruct (decide _); [done|]. intros E Hr.
    exact (ref_run_rle (ref_force n (l :: stk)) (ref_force (S n) (l :: stk)) (l :: stk) _ _ _ (λ md t y cyc, IH (l :: stk) md t y cyc) _ _ E Hr).
Qed.
Lemma ref_force_mono n n' stk md t l cyc : (n ≤ n')%nat → rle (ref_force n stk md t l cyc) (ref_force n' stk md t l cyc).
Proof. induction 1 as [|n' Hle IH]; [apply rle_refl|]. intros st r E Hr. apply ref_force_S; [|done]. by apply IH. Qed.
Lemma ref_exec_mono n n' md c : (n ≤ n')%nat → rle (ref_exec n md c) (ref_exec n' md c).
Proof. intros Hle. apply ref_run_rle. intros. by apply ref_force_mono. Qed.

Theorem from_scratch_functional md c v σ v' σ' :
  from_scratch md c v σ → from_scratch md c v' σ' → v = v' ∧ σ = σ'.
Proof.
  intros (n & lg & E1) (n' & lg' & E2).
  assert (F1 := ref_exec_mono n (n + n') md c ltac:(lia) _ _ E1 ltac:(done)). assert (F2 := ref_exec_mono n' (n + n') md c ltac:(lia) _ _ E2 ltac:(done)).
  rewrite F1 in F2. by injection F2.
Qed.
Theorem demand_from_scratch_functional md t l σ v σ1 lg v' σ1' lg' :
  demand_from_scratch md t l σ v σ1 lg → demand_from_scratch md t l σ v' σ1' lg' → v = v' ∧ σ1 = σ1' ∧ lg = lg'.
Proof.
  intros (n & E1) (n' & E2).
  assert (F1 := ref_force_mono n (n + n') [] md t l None ltac:(lia) _ _ E1 ltac:(done)). assert (F2 := ref_force_mono n' (n + n') [] md t l None ltac:(lia) _ _ E2 ltac:(done)).
  rewrite F1 in F2. by injection F2.
Qed.
End RefMono.

Section Consistency.
Context `{Prog}.
Context (opt md : bool).

Lemma Ed_holds σ s : Ed opt md σ s → holds s = σ.
Proof. intros [HR _]. apply (R_store _ _ _ _ _ _ HR). Qed.

Lemma sim_from n c v p : d_exec opt md n c (d_init ∅) = Some (v, p) →
  ∃ K s, (∀ k, (K ≤ k)%nat → exec k c (dcg_new_flags md opt) = (OVal v, s)) ∧
    p = d_init (d_store p) ∧ Ed opt md (d_store p) s ∧ cpath s = [] ∧ structf s = md.
Proof.
  intros Hd. destruct (editor_sim opt md n c ∅ [] md v p (dcg_new_flags md opt) (Ed_init opt md) eq_refl eq_refl Hd)
    as (K & a & s & Hk & -> & Hp & HE & Hc & Hst & _). eauto 10.
Qed.

Lemma reached_Ed s : reached opt md s → Ed opt md (holds s) s ∧ cpath s = [] ∧ structf s = md ∧
  ∃ n c v, d_exec opt md n c (d_init ∅) = Some (v, d_init (holds s)) ∧ ∃ k, exec k c (dcg_new_flags md opt) = (OVal v, s).
Proof.
  intros (c & k & v & (n & v' & p & Hd) & Hx).
  destruct (sim_from _ _ _ _ Hd) as (K & s1 & Hk & Hp & HE & Hc & Hst).
  assert (exec (K + k)%nat c (dcg_new_flags md opt) = (OVal v, s)) as E1.
  { eapply exec_fuel_mono; [exact Hx|done|lia]. }
  rewrite (Hk (K + k)%nat ltac:(lia)) in E1. injection E1 as -> ->.
  rewrite (Ed_holds _ _ HE). split_and!; try done. exists n, c, v. rewrite <- Hp. eauto.
Qed.

(** A reached state followed by a disciplined program is reached. *)
Lemma reached_step s n c v p : reached opt md s → d_exec opt md n c (d_init (holds s)) = Some (v, p) →
  ∃ s', returns c s v s' ∧ reached opt md s' ∧ holds s' = d_store p.
Proof.
  intros (HE & Hc & Hst & n0 & c0 & v0 & Hd0 & k0 & Hx0)%reached_Ed Hd.
  destruct (editor_sim opt md n c (holds s) [] md v p s HE Hc Hst Hd) as (K & a & s' & Hk & -> & Hp & HE' & Hc' & Hst' & _).
  exists s'. split; [by exists K|]. split; [|by apply Ed_holds].
  exists (cbind c0 (λ _, c)), (k0 + K)%nat, v. split.
  - exists (n0 + n)%nat, v, p. unfold d_exec. rewrite d_run_cbind. unfold dbind.
    eapply (d_exec_mono _ _ _ (n0 + n)%nat) in Hd0; [|lia]. eapply (d_exec_mono _ _ _ (n0 + n)%nat) in Hd; [|lia].
    unfold d_exec in Hd0, Hd. rewrite Hd0. exact Hd.
  - unfold exec. rewrite run_cbind. rewrite (bind_val _ _ _ v0 s).
    + apply Hk. lia.
    + eapply exec_fuel_mono; [exact Hx0|done|lia].
Qed.

(** C01.  A disciplined program returns under the incremental engine exactly what it returns when
    nothing is cached.  (The values of all demands: a program can return any of them.) *)
Theorem C01_from_scratch_consistency c :
  disciplined opt md c →
  ∃ v σ s, from_scratch md c v σ ∧ returns c (dcg_new_flags md opt) v s ∧ holds s = σ ∧ idle s.
Proof.
  intros (n & v & p & Hd). destruct (sim_from _ _ _ _ Hd) as (K & s & Hk & Hp & HE & Hc & Hst).
  destruct (d_exec_ref opt md n c (d_init ∅) v p [] Hd) as (lg & Hr).
  exists v, (d_store p), s. split; [by exists n, (lg ++ [])|]. split; [by exists K|].
  split; [by apply Ed_holds|]. split; [apply HE|done].
Qed.

(** ... and no run of it, with whatever budget, returns anything else or panics. *)
Theorem C01_no_other_outcome c k o s v σ :
  disciplined opt md c → from_scratch md c v σ →
  exec k c (dcg_new_flags md opt) = (o, s) → o = OFuel ∨ (o = OVal v ∧ holds s = σ).
Proof.
  intros Hdisc Hfs Hx. destruct (C01_from_scratch_consistency c Hdisc) as (v1 & σ1 & s1 & (n1 & lg1 & Hr1) & (K & Hk) & Hh & _).
  destruct (from_scratch_functional md c v1 σ1 v σ) as [-> ->]; [by exists n1, lg1|done|].
  destruct o as [a|r|]; [right|right|by left].
  - assert (exec (K + k)%nat c (dcg_new_flags md opt) = (OVal a, s)) as E1 by (eapply exec_fuel_mono; [exact Hx|done|lia]).
    rewrite Hk in E1 by lia. by injection E1 as -> ->.
  - assert (exec (K + k)%nat c (dcg_new_flags md opt) = (OPanic r, s)) as E1 by (eapply exec_fuel_mono; [exact Hx|done|lia]).
    rewrite Hk in E1 by lia. done.
Qed.

(** C02.  The table holds exactly the cells and thunks of the from-scratch run. *)
Theorem C02_store_agreement c k v s :
  disciplined opt md c → exec k c (dcg_new_flags md opt) = (OVal v, s) →
  ∃ σ, from_scratch md c v σ ∧ ∀ l,
    match σ !! l with
    | None => table s !! l = None
    | Some (CCell t w) => (∃ ps, table s !! l = Some (NMut t ps w)) ∨ table s !! l = Some (NPure t w)
    | Some (CThunk t pp arg spur) => ∃ n, table s !! l = Some (NComp n) ∧
        c_ty n = t ∧ c_pp n = pp ∧ c_arg n = arg ∧ c_spur n = spur
    end.
Proof.
  intros Hdisc Hx. destruct (C01_from_scratch_consistency c Hdisc) as (v1 & σ & s1 & Hfs & _).
  destruct (C01_no_other_outcome c k _ s v1 σ Hdisc Hfs Hx) as [|[Hv Hh]]; [done|]. injection Hv as ->.
  exists σ. split; [done|]. intros l. rewrite <- Hh. unfold holds. rewrite contents_lookup.
  destruct (table s !! l) as [[t ps w|t w|n]|] eqn:E; simpl; eauto 10.
Qed.

(** The demand theorem: one outermost [force] after any disciplined history. *)
Theorem demand_after_history s t l :
  reached opt md s → disciplined_demand opt md t l (holds s) →
  ∃ v σ' lg s' rs, demand_from_scratch md t l (holds s) v σ' lg ∧ demand t l s v s' ∧ holds s' = σ' ∧
    runs s' = rs ++ runs s ∧ NoDup rs ∧ (∀ x, x ∈ rs → x ∈ lg) ∧ reached opt md s'.
Proof.
  intros Hs (n & v & p & Hd). destruct (reached_Ed _ Hs) as (HE & Hc & Hst & _).
  destruct (force_editor opt md n md t l None _ v p s HE Hst Hd) as (K & a & s' & Hk & -> & Hp & HE' & Hc' & Hst' & Hr & _).
  destruct Hr as (rs & Hrs & Hnd & _ & _ & lg & Hlg & Hin & _).
  exists v, (d_store p), lg, s', rs. split; [by exists n|]. split; [by exists K|]. split; [by apply Ed_holds|].
  split_and!; try done.
  destruct (reached_step s n (Force t (ALoc l) None Ret) v p Hs) as (s2 & (K2 & H2) & Hs2 & _).
  { unfold d_exec. cbn [d_run d_art]. unfold dbind. by rewrite Hd. }
  specialize (H2 (K + K2)%nat ltac:(lia)). unfold exec in H2. cbn [run force_art] in H2.
  rewrite (bind_val _ _ _ _ _ (Hk (K + K2)%nat ltac:(lia))) in H2. injection H2 as ->. done.
Qed.

(** C03.  Whatever is dirty, a demand runs only thunks that its from-scratch evaluation runs. *)
Theorem C03_demand_driven s t l v s' k :
  reached opt md s → disciplined_demand opt md t l (holds s) →
  force k t l None s = (OVal v, s') →
  ∃ lg rs, demand_from_scratch md t l (holds s) v (holds s') lg ∧ runs s' = rs ++ runs s ∧ ∀ x, x ∈ rs → x ∈ lg.
Proof.
  intros Hs Hd Hf. destruct (demand_after_history s t l Hs Hd) as (v1 & σ' & lg & s1 & rs & Hfs & (K & Hk) & <- & Hrs & _ & Hin & _).
  assert (force (K + k)%nat t l None s = (OVal v, s')) as E by (eapply force_fuel_mono; [exact Hf|done|lia]).
  rewrite Hk in E by lia. injection E as -> ->. eauto.
Qed.

(** C04.  During one demand no thunk body runs twice. *)
Theorem C04_at_most_once s t l v s' k :
  reached opt md s → disciplined_demand opt md t l (holds s) →
  force k t l None s = (OVal v, s') →
  ∃ rs, runs s' = rs ++ runs s ∧ NoDup rs.
Proof.
  intros Hs Hd Hf. destruct (demand_after_history s t l Hs Hd) as (v1 & σ' & lg & s1 & rs & Hfs & (K & Hk) & <- & Hrs & Hnd & _ & _).
  assert (force (K + k)%nat t l None s = (OVal v, s')) as E by (eapply force_fuel_mono; [exact Hf|done|lia]).
  rewrite Hk in E by lia. injection E as -> ->. eauto.
Qed.
End Consistency.
