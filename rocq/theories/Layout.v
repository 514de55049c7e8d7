(** * Programs that allocate according to a layout obey the naming discipline.

    Proof technique for client programs that allocate inside thunks (the catalog, [Cat.v]).  A layout [I] says what each
    location is to hold during one query.  [ev I own pth E c v n E'] evaluates a program in this fixed layout: an
    allocation must write what [I] says, a force must hit a location that has been established ([E]: allocated before, or
    there from the beginning).  [n] is the nesting depth of forces.  Nothing here is part of a statement about the
    engine: the results are [ev_disciplined] and its use in [CatSessions.v]. *)
From Verif Require Export Consistency.

Definition same_kind (a b : content) : Prop :=
  match a, b with
  | CCell t _, CCell t' _ => t = t'
  | CThunk t pp _ sp, CThunk t' pp' _ sp' => t = t' ∧ pp = pp' ∧ sp = sp'
  | _, _ => False
  end.
Definition compat (σ I : store) : Prop := ∀ l a b, σ !! l = Some a → I !! l = Some b → same_kind a b.
Definition settled (I σ : store) (E : gset loc) : Prop := ∀ l, l ∈ E → σ !! l = I !! l.
Definition mix (σ I σ' : store) : Prop := ∀ l, σ' !! l = σ !! l ∨ (σ' !! l = I !! l ∧ is_Some (I !! l)).
Definition nominal (I : store) : Prop := ∀ l, is_Some (I !! l) → is_struct l = false.

Lemma mix_refl σ I : mix σ I σ.
Proof. intros l. by left. Qed.
Lemma mix_trans σ I σ1 σ2 : mix σ I σ1 → mix σ1 I σ2 → mix σ I σ2.
Proof. intros H1 H2 l. destruct (H2 l) as [->|H]; [apply H1|by right]. Qed.
Lemma mix_insert σ I l ct : I !! l = Some ct → mix σ I (<[l := ct]> σ).
Proof. intros Hl k. destruct (decide (k = l)) as [->|Hk]; [right|left]. - rewrite lookup_insert, Hl. split; [done|by eexists]. - by rewrite lookup_insert_ne. Qed.
Lemma same_kind_refl a : same_kind a a.
Proof. by destruct a. Qed.
Lemma compat_mix σ I σ' : compat σ I → mix σ I σ' → compat σ' I.
Proof.
  intros Hc Hm l a b Ha Hb. destruct (Hm l) as [E|[E _]]; rewrite E in Ha; [by eapply Hc|].
  rewrite Ha in Hb. injection Hb as ->. apply same_kind_refl.
Qed.

Section Layout.
Context `{Prog}.

Inductive ev (I : store) : option loc → path → gset loc → comp → val → nat → gset loc → Prop :=
  | ev_ret own pth E v : ev I own pth E (Ret v) v 0 E
  | ev_get own pth E t l k v r n E' : l ∈ E → I !! l = Some (CCell t v) → ev I own pth E (k v) r n E' →
      ev I own pth E (Force t (ALoc l) None k) r n E'
  | ev_force own pth E t l pp arg sp k v r n1 n2 E1 E' : l ∈ E → I !! l = Some (CThunk t pp arg sp) →
      ev I (Some l) (l_path l) E (code pp arg sp) v n1 E1 → ev I own pth E1 (k v) r n2 E' →
      ev I own pth E (Force t (ALoc l) None k) r (S n1 `max` n2) E'
  | ev_cell own pth E t nm v k r n E' : own ≠ Some (Loc pth (IdNom nm)) → I !! Loc pth (IdNom nm) = Some (CCell t v) →
      ev I own pth ({[Loc pth (IdNom nm)]} ∪ E) (k (Loc pth (IdNom nm))) r n E' → ev I own pth E (Cell t nm v k) r n E'
  | ev_thunk own pth E t nm pp arg sp k r n E' : own ≠ Some (Loc pth (IdNom nm)) →
      I !! Loc pth (IdNom nm) = Some (CThunk t pp arg sp) →
      ev I own pth ({[Loc pth (IdNom nm)]} ∪ E) (k (Loc pth (IdNom nm))) r n E' →
      ev I own pth E (Thunk t (NCNominal nm) pp arg sp k) r n E'
  | ev_ns own pth E nm b k v r n1 n2 E1 E' : ev I own (nm :: pth) E b v n1 E1 → ev I own pth E1 (k v) r n2 E' →
      ev I own pth E (Ns nm b k) r (n1 `max` n2) E'.

(** The value and the depth do not depend on what was established before. *)
Lemma ev_det I own pth E c v n E1 own' E' v' n' E1' :
  ev I own pth E c v n E1 → ev I own' pth E' c v' n' E1' → v = v' ∧ n = n'.
Proof.
  intros Hev. revert own' E' v' n' E1'.
  induction Hev as [own pth E v|own pth E t l k v r n E' Hl Hi Hk IHk|own pth E t l pp arg sp k v r n1 n2 E1 E' Hl Hi Hb IHb Hk IHk
    |own pth E t nm v k r n E' Ho Hi Hk IHk|own pth E t nm pp arg sp k r n E' Ho Hi Hk IHk|own pth E nm b k v r n1 n2 E1 E' Hb IHb Hk IHk];
    intros own' F' v' n' F1' Hev'; inversion Hev'; subst; simplify_eq; try (by eauto).
  - destruct (IHb _ _ _ _ _ ltac:(eassumption)) as [-> ->]. destruct (IHk _ _ _ _ _ ltac:(eassumption)) as [-> ->]. done.
  - destruct (IHb _ _ _ _ _ ltac:(eassumption)) as [-> ->]. destruct (IHk _ _ _ _ _ ltac:(eassumption)) as [-> ->]. done.
Qed.
Lemma ev_mono I own pth E c v n E' : ev I own pth E c v n E' → E ⊆ E'.
Proof. induction 1; set_solver. Qed.
(** More may be established. *)
Lemma ev_more I own pth E c v n E' F : ev I own pth E c v n E' → E ⊆ F → ∃ F', ev I own pth F c v n F' ∧ E' ⊆ F'.
Proof.
  intros Hev. revert F.
  induction Hev as [own pth E v|own pth E t l k v r n E' Hl Hi Hk IHk|own pth E t l pp arg sp k v r n1 n2 E1 E' Hl Hi Hb IHb Hk IHk
    |own pth E t nm v k r n E' Ho Hi Hk IHk|own pth E t nm pp arg sp k r n E' Ho Hi Hk IHk|own pth E nm b k v r n1 n2 E1 E' Hb IHb Hk IHk]; intros F HF.
  - exists F. split; [constructor|done].
  - destruct (IHk F HF) as (F' & H1 & H2). exists F'. split; [econstructor; [set_solver|done|done]|done].
  - destruct (IHb F HF) as (F1 & H1 & H2). destruct (IHk F1 H2) as (F' & H3 & H4). exists F'. split; [econstructor; [set_solver|done|done|done]|done].
  - destruct (IHk ({[Loc pth (IdNom nm)]} ∪ F)) as (F' & H1 & H2); [set_solver|]. exists F'. split; [by constructor|done].
  - destruct (IHk ({[Loc pth (IdNom nm)]} ∪ F)) as (F' & H1 & H2); [set_solver|]. exists F'. split; [by constructor|done].
  - destruct (IHb F HF) as (F1 & H1 & H2). destruct (IHk F1 H2) as (F' & H3 & H4). exists F'. split; [by econstructor|done].
Qed.
Lemma ev_cbind I own pth E c g v n1 E1 r n2 E' :
  ev I own pth E c v n1 E1 → ev I own pth E1 (g v) r n2 E' → ∃ n, ev I own pth E (cbind c g) r n E' ∧ (n ≤ n1 `max` n2)%nat.
Proof.
  intros Hc. revert g r n2 E'. induction Hc as [own pth E v|own pth E t l k v r n E1 Hl Hi Hk IHk|own pth E t l pp arg sp k v r m1 m2 E0 E1 Hl Hi Hb IHb Hk IHk
    |own pth E t nm v k r n E1 Ho Hi Hk IHk|own pth E t nm pp arg sp k r n E1 Ho Hi Hk IHk|own pth E nm b k v r m1 m2 E0 E1 Hb IHb Hk IHk];
    intros g r' n2 E' Hg.
  - exists n2. split; [done|lia].
  - destruct (IHk _ _ _ _ Hg) as (m & Hm & Hle). exists m. split; [by eapply ev_get|done].
  - destruct (IHk _ _ _ _ Hg) as (m & Hm & Hle). eexists. split; [by eapply ev_force|lia].
  - destruct (IHk _ _ _ _ Hg) as (m & Hm & Hle). exists m. split; [by constructor|done].
  - destruct (IHk _ _ _ _ Hg) as (m & Hm & Hle). exists m. split; [by constructor|done].
  - destruct (IHk _ _ _ _ Hg) as (m & Hm & Hle). eexists. split; [by eapply ev_ns|lia].
Qed.

Context (opt : bool).
Lemma s6_nominal stk l : match stk with [] => True | x :: _ => is_struct x = false end → s6_ok opt stk l = true.
Proof. destruct stk as [|x stk]; [done|]. intros Hx. unfold s6_ok. rewrite Hx. by destruct opt. Qed.
Lemma rebind_layout I σ (S : gset loc) E l ct : nominal I → compat σ I → settled I σ E → S ⊆ E → I !! l = Some ct →
  rebind_ok l (σ !! l) ct S = true.
Proof.
  intros Hn Hc He HS Hi. unfold rebind_ok. destruct (σ !! l) as [old|] eqn:Ho; [|done].
  destruct (decide (old = ct)) as [->|Hne]; [by rewrite bool_decide_true|]. rewrite bool_decide_false by done. simpl.
  rewrite (Hn l) by (by eexists). simpl. rewrite bool_decide_true.
  2:{ intros Hl. apply HS, He in Hl. congruence. }
  simpl. specialize (Hc _ _ _ Ho Hi). destruct old, ct; simpl in *; try done; apply bool_decide_eq_true_2; naive_solver.
Qed.

(** The stack: each thunk on it is being evaluated, and the evaluation is at least as deep as the rest of it. *)
Definition stack_ok (I : store) (stk : list loc) (n : nat) : Prop :=
  ∀ l, l ∈ stk → is_struct l = false ∧ ∃ t pp arg sp v k E E', I !! l = Some (CThunk t pp arg sp) ∧
    ev I (Some l) (l_path l) E (code pp arg sp) v k E' ∧ (n ≤ k)%nat.
Lemma stack_ok_le I stk n m : stack_ok I stk n → (m ≤ n)%nat → stack_ok I stk m.
Proof. intros Hs Hle l Hl. destruct (Hs l Hl) as (? & t & pp & arg & sp & v & k & E & E' & ? & ? & ?). split; [done|]. exists t, pp, arg, sp, v, k, E, E'. split_and!; [done..|lia]. Qed.

Lemma ev_run I own pth E c v n E' : ev I own pth E c v n E' → nominal I →
  ∀ m stk σ S dn full, head stk = own → stack_ok I stk n → (n ≤ m)%nat → compat σ I → settled I σ E → S ⊆ E →
  ∃ σ' S' dn' full', d_run opt (d_force opt false m stk) stk pth false c (DState σ S dn full ∅) = Some (v, DState σ' S' dn' full' ∅) ∧
    mix σ I σ' ∧ settled I σ' E' ∧ S' ⊆ E' ∧ (stk = [] → S = ∅ → S' = ∅).
Proof.
  intros Hev Hnom.
  induction Hev as [own pth E v|own pth E t l k v r n E' Hl Hi Hk IHk|own pth E t l pp arg sp k v r n1 n2 E1 E' Hl Hi Hb IHb Hk IHk
    |own pth E t nm v k r n E' Ho Hi Hk IHk|own pth E t nm pp arg sp k r n E' Ho Hi Hk IHk|own pth E nm b k v r n1 n2 E1 E' Hb IHb Hk IHk];
    intros m stk σ S dn full Hhd Hstk Hm Hc He HS;
    (assert (match stk with [] => True | x :: _ => is_struct x = false end) as Hs6 by (destruct stk as [|x stk']; [done|]; apply (Hstk x); left)).
  - exists σ, S, dn, full. split_and!; try done. apply mix_refl.
  - cbn [Discipline.d_run d_art]. unfold dbind.
    assert (d_force opt false m stk false t l (DState σ S dn full ∅) = Some (v, d_observe stk l false (DState σ S dn full ∅))) as ->.
    { assert (σ !! l = Some (CCell t v)) as El by (rewrite <- Hi; by apply He). destruct m; simpl; rewrite El, decide_True by done;
        unfold d_get; rewrite s6_nominal by done; simpl; by rewrite bool_decide_true by set_solver. }
    set (S2 := match stk with [] => S | _ => {[l]} ∪ S end).
    assert (∃ full2, d_observe stk l false (DState σ S dn full ∅) = DState σ S2 dn full2 ∅) as (full2 & ->) by (destruct stk; by eexists).
    destruct (IHk m stk σ S2 dn full2) as (σ' & S' & dn' & full' & -> & Hm2 & He2 & HS2 & Hem); [done|done|done|done|done|subst S2; destruct stk; set_solver|].
    exists σ', S', dn', full'. split_and!; [done..|]. intros -> ?. by apply Hem.
  - cbn [Discipline.d_run d_art]. unfold dbind.
    assert (σ !! l = Some (CThunk t pp arg sp)) as El by (rewrite <- Hi; by apply He).
    assert (l ∉ stk) as Hns.
    { intros Hin. destruct (Hstk l Hin) as (_ & t' & pp' & arg' & sp' & v' & k' & F & F' & Hi' & Hev' & Hle).
      rewrite Hi in Hi'. injection Hi' as <- <- <- <-. destruct (ev_det _ _ _ _ _ _ _ _ _ _ _ _ _ Hb Hev') as [_ ->]. lia. }
    assert (is_struct l = false) as Hsl by (apply Hnom; by eexists).
    destruct m as [|m]; [lia|].
    edestruct (IHb m (l :: stk) σ ({[l]} ∪ S) dn ∅) as (σ1 & S1 & dn1 & full1 & Hr1 & Hm1 & He1 & HS1 & _); [done| |lia|done|done|set_solver|].
    { intros x Hx. apply elem_of_cons in Hx as [->|Hx].
      - split; [done|]. exists t, pp, arg, sp, v, n1, E, E1. split_and!; [done|done|lia].
      - eapply (stack_ok_le I stk _ n1) in Hx; [|exact Hstk|lia]. exact Hx. }
    assert (d_force opt false (Datatypes.S m) stk false t l (DState σ S dn full ∅) = Some (v, d_leave stk l (DState σ S dn full ∅) (DState σ1 S1 dn1 full1 ∅))) as ->.
    { simpl. rewrite El, decide_True by (split_and!; [done|done|done|by apply s6_nominal]). by rewrite Hr1. }
    set (S2 := match stk with [] => ∅ | _ => S1 end).
    assert (∃ dn2 full2, d_leave stk l (DState σ S dn full ∅) (DState σ1 S1 dn1 full1 ∅) = DState σ1 S2 dn2 full2 ∅) as (dn2 & full2 & ->).
    { destruct stk; simpl; by eexists _, _. }
    destruct (IHk (Datatypes.S m) stk σ1 S2 dn2 full2) as (σ' & S' & dn' & full' & -> & Hm2 & He2 & HS2 & Hem); [done|eapply stack_ok_le; [done|lia]|lia|by eapply compat_mix|done|subst S2; destruct stk; set_solver|].
    exists σ', S', dn', full'. split_and!; [done|by eapply mix_trans|done|done|]. intros -> _. by apply Hem.
  - cbn [Discipline.d_run]. unfold dbind, d_cell, d_alloc. simpl d_store. simpl d_seen.
    rewrite s6_nominal by done. rewrite (rebind_layout I σ S E _ _ Hnom Hc He HS Hi). simpl (true && _).
    rewrite bool_decide_false by (by rewrite Hhd). rewrite orb_true_r. unfold d_write. cbn [d_store d_seen d_done d_full d_map].
    set (l := Loc pth (IdNom nm)) in *. set (S2 := match stk with [] => S | _ => {[l]} ∪ S end).
    destruct (IHk m stk (<[l := CCell t v]> σ) S2 dn full) as (σ' & S' & dn' & full' & Hr & Hm2 & He2 & HS2 & Hem);
      [done|done|done|eapply compat_mix; [done|by apply mix_insert]| |subst S2; destruct stk; set_solver|].
    { intros x Hx. destruct (decide (x = l)) as [->|Hx']; [by rewrite lookup_insert|]. rewrite lookup_insert_ne by done. apply He. set_solver. }
    exists σ', S', dn', full'. split_and!; [by destruct stk|eapply mix_trans; [by apply mix_insert|done]|done|done|]. intros -> ?. by apply Hem.
  - cbn [Discipline.d_run]. unfold dbind, d_thunk, d_alloc. simpl d_store. simpl d_seen.
    rewrite s6_nominal by done. rewrite (rebind_layout I σ S E _ _ Hnom Hc He HS Hi). simpl (true && _).
    rewrite bool_decide_false by (by rewrite Hhd). rewrite orb_true_r. unfold d_write. cbn [d_store d_seen d_done d_full d_map].
    set (l := Loc pth (IdNom nm)) in *. set (S2 := match stk with [] => S | _ => {[l]} ∪ S end).
    destruct (IHk m stk (<[l := CThunk t pp arg sp]> σ) S2 dn full) as (σ' & S' & dn' & full' & Hr & Hm2 & He2 & HS2 & Hem);
      [done|done|done|eapply compat_mix; [done|by apply mix_insert]| |subst S2; destruct stk; set_solver|].
    { intros x Hx. destruct (decide (x = l)) as [->|Hx']; [by rewrite lookup_insert|]. rewrite lookup_insert_ne by done. apply He. set_solver. }
    exists σ', S', dn', full'. split_and!; [by destruct stk|eapply mix_trans; [by apply mix_insert|done]|done|done|]. intros -> ?. by apply Hem.
  - cbn [Discipline.d_run]. unfold dbind.
    destruct (IHb m stk σ S dn full) as (σ1 & S1 & dn1 & full1 & -> & Hm1 & He1 & HS1 & Hem1); [done|eapply stack_ok_le; [done|lia]|lia|done|done|done|].
    destruct (IHk m stk σ1 S1 dn1 full1) as (σ' & S' & dn' & full' & -> & Hm2 & He2 & HS2 & Hem2); [done|eapply stack_ok_le; [done|lia]|lia|by eapply compat_mix|done|done|].
    exists σ', S', dn', full'. split_and!; [done|by eapply mix_trans|done|done|]. intros. apply Hem2; [done|]. by apply Hem1.
Qed.

(** At the editor level. *)
Corollary ev_edit I E c v n E' m σ dn full : ev I None [] E c v n E' → nominal I → (n ≤ m)%nat → compat σ I → settled I σ E →
  ∃ σ' dn' full', d_run opt (d_force opt false m []) [] [] false c (DState σ ∅ dn full ∅) = Some (v, DState σ' ∅ dn' full' ∅) ∧
    mix σ I σ' ∧ settled I σ' E'.
Proof.
  intros Hev Hn Hm Hc He.
  destruct (ev_run _ _ _ _ _ _ _ _ Hev Hn m [] σ ∅ dn full) as (σ' & S' & dn' & full' & Hr & Hx & Hs & _ & Hem); [done|by intros ? ?%elem_of_nil|done|done|done|set_solver|].
  rewrite Hem in Hr by done. by exists σ', dn', full'.
Qed.
End Layout.
