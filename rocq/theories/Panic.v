(** * Specification: programs whose user code may panic.

    [Discipline.d_run] says nothing about a program that panics.  [p_run] is the same instrumented
    semantics with one more outcome: [PRaise], user code ([Comp.Fail]) panicked, and everything done
    before that point obeyed the discipline (S1-S13 of [Discipline.v]).  [None]: the program violates
    the discipline, is stopped by a panic of the engine itself, or runs out of fuel. *)
From Verif Require Export DiscRef.

Inductive pout (A : Type) := PVal (a : A) (p : dstate) | PRaise.
Arguments PVal {A} a p. Arguments PRaise {A}.
Definition pM (A : Type) := dstate → option (pout A).
Definition pret {A} (a : A) : pM A := λ p, Some (PVal a p).
Definition pbind {A B} (m : pM A) (f : A → pM B) : pM B :=
  λ p, match m p with Some (PVal a p') => f a p' | Some PRaise => Some PRaise | None => None end.
(** An operation that runs no user code. *)
Definition plift {A} (m : dM A) : pM A := λ p, match m p with Some (a, p') => Some (PVal a p') | None => None end.

Section Panic.
Context `{Prog}.
Context (opt : bool) (md0 : bool).

(** As [d_force_map]. *)
Definition p_force_map (frc : ty → loc → pM val) (abs : bool) (stk : list loc) (t : ty) (l : loc)
    (f : val → val) : pM val := λ p,
  match d_store p !! l with
  | Some (CCell t' v) =>
      if decide (t' = t) then
        if tracked opt l then
          match stk with
          | [] => Some (PVal (f v) p)
          | _ => if negb abs && s6_ok opt stk l && bool_decide (l ∉ d_map p ∧ l ∉ d_full p)
                 then Some (PVal (f v) (d_observe stk l true p)) else None
          end
        else pbind (frc t l) (λ v, pret (f v)) p
      else None
  | Some (CThunk _ _ _ _) => pbind (frc t l) (λ v, pret (f v)) p
  | None => None
  end.

Definition p_art (frc : ty → loc → pM val) (t : ty) (a : art) : pM val :=
  match a with ARc v => pret v | ALoc l => frc t l end.

(** As [d_run], except for [Fail]. *)
Fixpoint p_run (frc : bool → ty → loc → pM val)
    (stk : list loc) (pth : path) (md : bool) (c : comp) : pM val :=
  match c with
  | Ret v => pret v
  | Fail => λ _, Some PRaise
  | Force t a _ k => pbind (p_art (frc md) t a) (λ v, p_run frc stk pth md (k v))
  | ForceMap t a f k =>
      pbind (match a with ARc v => pret (f v) | ALoc l => p_force_map (frc md) false stk t l f end)
            (λ v, p_run frc stk pth md (k v))
  | ForceAbs t a f k =>
      pbind (match a with ARc v => pret (f v) | ALoc l => p_force_map (frc md) true stk t l f end)
            (λ v, p_run frc stk pth md (k v))
  | Cell t n v k => pbind (plift (d_cell opt stk pth md t n v)) (λ l, p_run frc stk pth md (k l))
  | Thunk t nc pp arg spur k => pbind (plift (d_thunk opt stk pth md t nc pp arg spur)) (λ l, p_run frc stk pth md (k l))
  | SetC t a v k => pbind (plift (d_set stk t a v)) (λ _, p_run frc stk pth md k)
  | Ns n b k => pbind (p_run frc stk (n :: pth) md b) (λ v, p_run frc stk pth md (k v))
  | Structural b k => pbind (p_run frc stk pth true b) (λ v, p_run frc stk pth md (k v))
  end.

(** As [d_force]. *)
Fixpoint p_force (n : nat) (stk : list loc) (md : bool) (t : ty) (l : loc) : pM val := λ p,
  match d_store p !! l with
  | None => None
  | Some (CCell t' v) => if decide (t' = t) then plift (d_get opt stk l v) p else None
  | Some (CThunk t' pp arg spur) =>
      if decide (t' = t ∧ l ∉ stk ∧ md = md0 ∧ s6_ok opt stk l = true) then
        match n with
        | O => None
        | S n =>
            match p_run (p_force n (l :: stk)) (l :: stk) (l_path l) md (code pp arg spur)
                        (DState (d_store p) ({[l]} ∪ d_seen p) (d_done p) ∅ ∅) with
            | Some (PVal v p') => Some (PVal v (d_leave stk l p p'))
            | Some PRaise => Some PRaise
            | None => None
            end
        end
      else None
  end.

Definition p_exec (n : nat) (c : comp) : pM val := p_run (p_force n []) [] [] md0 c.

(** The program is disciplined up to its end, or up to the first panic of user code. *)
Definition tame (c : comp) : Prop := ∃ n o, p_exec n c (d_init ∅) = Some o.
(** Likewise for one demand in store [σ]. *)
Definition tame_demand (t : ty) (l : loc) (σ : store) : Prop := ∃ n o, p_force n [] md0 t l (d_init σ) = Some o.

(** ** [p_run] extends [d_run] and is a run of the reference semantics *)
Definition pd_ok {A} (m : dM A) (m' : pM A) : Prop := ∀ p v p', m p = Some (v, p') ↔ m' p = Some (PVal v p').
Lemma pd_ret {A} (a : A) : pd_ok (λ p, Some (a, p)) (pret a).
Proof. intros p v p'. unfold pret. split; by intros [= -> ->]. Qed.
Lemma pd_lift {A} (m : dM A) : pd_ok m (plift m).
Proof. intros p v p'. unfold plift. destruct (m p) as [[a p1]|]; [|done]. split; by intros [= -> ->]. Qed.
Lemma pd_bind {A B} (m : dM A) (m' : pM A) (f : A → dM B) (f' : A → pM B) :
  pd_ok m m' → (∀ a, pd_ok (f a) (f' a)) → pd_ok (dbind m f) (pbind m' f').
Proof.
  intros Hm Hf p v p'. unfold dbind, pbind. split.
  - destruct (m p) as [[a p1]|] eqn:E; [|done]. apply Hm in E. rewrite E. apply Hf.
  - destruct (m' p) as [[a p1|]|] eqn:E; [|done..]. apply Hm in E. rewrite E. apply Hf.
Qed.
Lemma pd_force_map frc frc' abs stk t l f : pd_ok (frc t l) (frc' t l) →
  pd_ok (d_force_map opt frc abs stk t l f) (p_force_map frc' abs stk t l f).
Proof.
  intros Hf p v p'. unfold d_force_map, p_force_map.
  assert (∀ v p', match frc t l p with Some (v, p') => Some (f v, p') | None => None end = Some (v, p') ↔
    pbind (frc' t l) (λ v, pret (f v)) p = Some (PVal v p')) as Hb.
  { intros v0 p0. apply (pd_bind (frc t l) (frc' t l) (λ v p, Some (f v, p)) (λ v, pret (f v)) Hf).
    intros a. apply pd_ret. }
  destruct (d_store p !! l) as [[t' w|t' pp arg spur]|]; [|apply Hb|done].
  destruct (decide (t' = t)); [|done]. destruct (tracked opt l); [|apply Hb].
  destruct stk; [split; by intros [= <- <-]|]. destruct (_ && _); [|done]. split; by intros [= <- <-].
Qed.
Lemma pd_run frc frc' stk pth md c : (∀ md t l, pd_ok (frc md t l) (frc' md t l)) →
  pd_ok (d_run opt frc stk pth md c) (p_run frc' stk pth md c).
Proof.
  intros Hf. revert pth md.
  induction c as [v| |t a cyc k IH|t a f k IH|t a f k IH|t n v k IH|t nc pp arg spur k IH|t a v k IH|n b IHb k IH|b IHb k IH];
    intros pth md; cbn [d_run p_run].
  - apply pd_ret.
  - intros p v p'. done.
  - apply pd_bind; [|auto]. destruct a; simpl; [apply pd_ret|apply Hf].
  - apply pd_bind; [|auto]. destruct a; [apply pd_ret|by apply pd_force_map].
  - apply pd_bind; [|auto]. destruct a; [apply pd_ret|by apply pd_force_map].
  - apply pd_bind; [apply pd_lift|auto].
  - apply pd_bind; [apply pd_lift|auto].
  - apply pd_bind; [apply pd_lift|auto].
  - apply pd_bind; auto.
  - apply pd_bind; auto.
Qed.
Lemma pd_force n : ∀ stk md t l, pd_ok (d_force opt md0 n stk md t l) (p_force n stk md t l).
Proof.
  induction n as [|n IH]; intros stk md t l p v p'; cbn [d_force p_force];
    destruct (d_store p !! l) as [[t' w|t' pp arg spur]|]; try done.
  - destruct (decide _); [|done]. apply pd_lift.
  - destruct (decide _); done.
  - destruct (decide _); [|done]. apply pd_lift.
  - destruct (decide _); [|done].
    assert (Hr := pd_run _ _ (l :: stk) (l_path l) md (code pp arg spur) (IH (l :: stk))). split.
    + destruct (d_run _ _ _ _ _ _ _) as [[w p1]|] eqn:E; [|done]. apply Hr in E. rewrite E. by intros [= <- <-].
    + destruct (p_run _ _ _ _ _ _) as [[w p1|]|] eqn:E; [|done..]. apply Hr in E. rewrite E. by intros [= <- <-].
Qed.
(** A disciplined program is tame, with the same result. *)
Lemma p_exec_val n c p v p' : d_exec opt md0 n c p = Some (v, p') ↔ p_exec n c p = Some (PVal v p').
Proof. apply pd_run. intros. apply pd_force. Qed.

(** If it ends in [PRaise], the from-scratch evaluation panics. *)
Definition pr_ok {A} (m : pM A) (r : rM A) : Prop := ∀ p lg, m p = Some PRaise → r (RState (d_store p) lg) = RPanic PUser.
Lemma pr_bind {A B} stk (m : dM A) (m' : pM A) (r : rM A) (f' : A → pM B) (g : A → rM B) :
  pd_ok m m' → ref_ok stk m r → pr_ok m' r → (∀ a, pr_ok (f' a) (g a)) → pr_ok (pbind m' f') (rbind r g).
Proof.
  intros Hd Hr Hp Hf p lg. unfold pbind, rbind. destruct (m' p) as [[a p1|]|] eqn:E; [| |done].
  - apply Hd in E. destruct (Hr _ _ _ lg E) as (lg1 & Hr1 & _). rewrite Hr1. apply Hf.
  - intros _. by rewrite (Hp _ _ E).
Qed.
Lemma pr_lift {A} (m : dM A) (r : rM A) : pr_ok (plift m) r.
Proof. intros p lg. unfold plift. by destruct (m p) as [[]|]. Qed.
Lemma pr_ret {A} (a : A) (r : rM A) : pr_ok (pret a) r.
Proof. by intros p lg. Qed.
Lemma pr_run (frc : bool → ty → loc → dM val) (frcp : bool → ty → loc → pM val) (frc' : bool → ty → loc → option val → rM val) stk :
  (∀ md t l, pd_ok (frc md t l) (frcp md t l)) →
  (∀ md t l cyc, ref_ok stk (frc md t l) (frc' md t l cyc)) →
  (∀ md t l cyc, pr_ok (frcp md t l) (frc' md t l cyc)) →
  (∀ md t l p, match d_store p !! l with
            | Some (CCell t' v) => t' = t → ∀ lg, frc' md t l None (RState (d_store p) lg) = ROk v (RState (d_store p) lg)
            | _ => True end) →
  ∀ c pth md, pr_ok (p_run frcp stk pth md c) (ref_run frc' stk pth md c).
Proof.
  intros Hd Hr Hp Hc c.
  assert (Hmap : ∀ abs md t l f (k : val → comp) pth, (∀ v pth md, pr_ok (p_run frcp stk pth md (k v)) (ref_run frc' stk pth md (k v))) →
    pr_ok (pbind (p_force_map (frcp md) abs stk t l f) (λ v, p_run frcp stk pth md (k v)))
          (rbind (frc' md t l None) (λ v, ref_run frc' stk pth md (k (f v))))).
  { intros abs md t l f k pth IH p lg. unfold pbind, rbind.
    destruct (p_force_map _ _ _ _ _ _ _) as [[a p1|]|] eqn:E; [| |done].
    - apply (pd_force_map (frc md)) in E; [|apply Hd].
      destruct (ref_ok_map opt (frc md) (frc' md) _ _ _ _ _ (λ t l, Hr md t l None) (Hc md) _ _ _ lg E) as (lg1 & w & -> & -> & _).
      apply IH.
    - intros _. enough (frc' md t l None (RState (d_store p) lg) = RPanic PUser) as -> by done.
      apply Hp. unfold p_force_map in E. destruct (d_store p !! l) as [[t' w|t' pp arg spur]|]; [| |done].
      + destruct (decide (t' = t)); [|done]. destruct (tracked opt l).
        * destruct stk; [done|]. by destruct (_ && _) in E.
        * unfold pbind in E. by destruct (frcp md t l p) as [[]|].
      + unfold pbind in E. by destruct (frcp md t l p) as [[]|]. }
  induction c as [v| |t a cyc k IH|t a f k IH|t a f k IH|t n v k IH|t nc pp arg spur k IH|t a v k IH|n b IHb k IH|b IHb k IH];
    intros pth md; cbn [p_run ref_run].
  - apply pr_ret.
  - by intros p lg.
  - destruct a as [v|l]; cbn [p_art ref_art].
    + intros p lg. apply IH.
    + by apply (pr_bind stk (frc md t l)).
  - destruct a as [v|l]; cbn [p_art ref_art]; [intros p lg; apply IH|by apply Hmap].
  - destruct a as [v|l]; cbn [p_art ref_art]; [intros p lg; apply IH|by apply Hmap].
  - eapply pr_bind; [apply pd_lift|apply ref_ok_cell|apply pr_lift|auto].
  - eapply pr_bind; [apply pd_lift|apply ref_ok_thunk|apply pr_lift|auto].
  - eapply pr_bind; [apply pd_lift|apply ref_ok_set|apply pr_lift|auto].
  - eapply pr_bind; [by apply pd_run|by apply ref_ok_run|auto|auto].
  - eapply pr_bind; [by apply pd_run|by apply ref_ok_run|auto|auto].
Qed.
Lemma pr_force n : ∀ stk md t l cyc, pr_ok (p_force n stk md t l) (ref_force n stk md t l cyc).
Proof.
  induction n as [|n IH]; intros stk md t l cyc p lg; cbn [p_force ref_force r_store];
    destruct (d_store p !! l) as [[t' w|t' pp arg spur]|]; try done.
  - destruct (decide _); [|done]. apply pr_lift.
  - by destruct (decide (t' = t ∧ _)).
  - destruct (decide _); [|done]. apply pr_lift.
  - destruct (decide (t' = t ∧ _)) as [(-> & Hl & -> & Hs)|]; [|done]. simpl.
    rewrite decide_True by done. rewrite decide_False by done.
    destruct (p_run _ _ _ _ _ _) as [[w p1|]|] eqn:E; [done| |done]. intros _.
    refine (pr_run (d_force opt md0 n (l :: stk)) (p_force n (l :: stk)) (ref_force n (l :: stk)) (l :: stk) _ _ _ _ _ _ _ _ _ E).
    + intros. apply pd_force.
    + intros. apply ref_ok_force.
    + intros. apply IH.
    + intros. apply ref_force_cell.
Qed.
Lemma p_exec_raise n c p lg : p_exec n c p = Some PRaise → ref_exec n md0 c (RState (d_store p) lg) = RPanic PUser.
Proof.
  apply (pr_run (d_force opt md0 n []) (p_force n []) (ref_force n [])).
  - intros. apply pd_force.
  - intros. apply ref_ok_force.
  - intros. apply pr_force.
  - intros. apply ref_force_cell.
Qed.

(** Programs compose. *)
Lemma p_run_cbind frc stk pth md c g p :
  p_run frc stk pth md (cbind c g) p = pbind (p_run frc stk pth md c) (λ v, p_run frc stk pth md (g v)) p.
Proof.
  assert (Hb : ∀ A B (m : pM A) (f f' : A → pM B) s, (∀ a s, f a s = f' a s) → pbind m f s = pbind m f' s).
  { intros A B m f f' s0 Hf. unfold pbind. destruct (m s0) as [[a s1|]|]; auto. }
  assert (Ha : ∀ A B C (m : pM A) (f : A → pM B) (h : B → pM C) s, pbind (pbind m f) h s = pbind m (λ a, pbind (f a) h) s).
  { intros A B C m f h s0. unfold pbind. destruct (m s0) as [[a s1|]|]; auto. }
  revert pth md p. induction c; intros pth md p; cbn [cbind p_run]; try done; rewrite ?Ha; apply Hb; intros; eauto.
Qed.
(** More fuel never changes an outcome. *)
Definition ple {A} (m m' : pM A) : Prop := ∀ p o, m p = Some o → m' p = Some o.
Lemma ple_refl {A} (m : pM A) : ple m m. Proof. by intros ? ?. Qed.
Lemma ple_bind {A B} (m m' : pM A) (f f' : A → pM B) : ple m m' → (∀ a, ple (f a) (f' a)) → ple (pbind m f) (pbind m' f').
Proof.
  intros Hm Hf p o. unfold pbind. destruct (m p) as [[a p1|]|] eqn:E; [| |done]; rewrite (Hm _ _ E); [apply Hf|done].
Qed.
Lemma p_force_map_ple frc frc' abs stk t l f : ple (frc t l) (frc' t l) →
  ple (p_force_map frc abs stk t l f) (p_force_map frc' abs stk t l f).
Proof.
  intros Hf p o. unfold p_force_map.
  assert (ple (pbind (frc t l) (λ v, pret (f v))) (pbind (frc' t l) (λ v, pret (f v)))) as Hb.
  { apply ple_bind; [done|]. intros a. apply ple_refl. }
  destruct (d_store p !! l) as [[t' w|t' pp arg spur]|]; [|apply Hb|done].
  destruct (decide (t' = t)); [|done]. destruct (tracked opt l); [done|apply Hb].
Qed.
Lemma p_run_ple frc frc' stk pth md c : (∀ md t l, ple (frc md t l) (frc' md t l)) →
  ple (p_run frc stk pth md c) (p_run frc' stk pth md c).
Proof.
  intros Hf. revert pth md.
  induction c as [v| |t a cyc k IH|t a f k IH|t a f k IH|t n v k IH|t nc pp arg spur k IH|t a v k IH|n b IHb k IH|b IHb k IH];
    intros pth md; cbn [p_run].
  - apply ple_refl.
  - apply ple_refl.
  - apply ple_bind; [|auto]. destruct a; simpl; [apply ple_refl|apply Hf].
  - apply ple_bind; [|auto]. destruct a; [apply ple_refl|by apply p_force_map_ple].
  - apply ple_bind; [|auto]. destruct a; [apply ple_refl|by apply p_force_map_ple].
  - apply ple_bind; [apply ple_refl|auto].
  - apply ple_bind; [apply ple_refl|auto].
  - apply ple_bind; [apply ple_refl|auto].
  - apply ple_bind; auto.
  - apply ple_bind; auto.
Qed.
Lemma p_force_S n : ∀ stk md t l, ple (p_force n stk md t l) (p_force (S n) stk md t l).
Proof.
  induction n as [|n IH]; intros stk md t l p o.
  - cbn [p_force]. destruct (d_store p !! l) as [[t' w|t' pp arg spur]|]; try done. by destruct (decide _).
  - intros Hp. cbn [p_force] in Hp. change (match d_store p !! l with
      | None => None
      | Some (CCell t' v) => if decide (t' = t) then plift (d_get opt stk l v) p else None
      | Some (CThunk t' pp arg spur) =>
        if decide (t' = t ∧ l ∉ stk ∧ md = md0 ∧ s6_ok opt stk l = true) then
          match p_run (p_force (S n) (l :: stk)) (l :: stk) (l_path l) md (code pp arg spur)
                (DState (d_store p) ({[l]} ∪ d_seen p) (d_done p) ∅ ∅) with
            | Some (PVal v p') => Some (PVal v (d_leave stk l p p'))
            | Some PRaise => Some PRaise
            | None => None
            end else None end = Some o).
    destruct (d_store p !! l) as [[t' w|t' pp arg spur]|]; try done. destruct (decide _); [|done].
    destruct (p_run (p_force n _) _ _ _ _ _) as [o'|] eqn:E; [|done].
    assert (Hr := p_run_ple (p_force n (l :: stk)) (p_force (S n) (l :: stk)) (l :: stk) (l_path l) md (code pp arg spur) (IH (l :: stk)) _ _ E).
    rewrite Hr. done.
Qed.
Lemma p_force_mono n n' stk md t l : (n ≤ n')%nat → ple (p_force n stk md t l) (p_force n' stk md t l).
Proof. induction 1 as [|n' _ IH]; [apply ple_refl|]. intros p o Hp. by apply p_force_S, IH. Qed.
Lemma p_exec_mono n n' c : (n ≤ n')%nat → ple (p_exec n c) (p_exec n' c).
Proof. intros Hn. apply p_run_ple. intros. by apply p_force_mono. Qed.

End Panic.
