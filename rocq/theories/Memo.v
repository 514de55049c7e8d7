(** * Programs in which a name determines what is allocated under it.

    A second class of programs for which the hypothesis [disciplined] of the consistency theorems follows from the
    program text (the first is in [Static.v]).  This is the class of memoised functions: thunk bodies read, allocate and
    demand further thunks, under nested namespaces, as long as each location they allocate is always given the same
    function and arguments (or the same cell value).  [lay] is that assignment; the library's documentation asks users for
    exactly this when it says that names should be a function of what is computed.  The editor owns all other locations:
    it allocates, re-allocates and sets them freely. *)
From Verif Require Export Static.

Section Memo.
Context `{Prog}.
Context (opt : bool).
(** What thunk bodies allocate at each location; [None]: the location belongs to the editor. *)
Context (lay : loc → option content).

(** A thunk body, evaluated at location [own], in namespace [pth]; [F] ([M]): the locations it has read so far by [force]
    ([force_map]); [Q]: what holds when it returns. *)
Inductive body (own : loc) : path → gset loc → gset loc → comp → (gset loc → gset loc → Prop) → Prop :=
  | b_ret pth F M v (Q : gset loc → gset loc → Prop) : Q F M → body own pth F M (Ret v) Q
  | b_fail pth F M Q : body own pth F M Fail Q
  | b_force pth F M t l k Q : l ∉ M → (∀ v, body own pth ({[l]} ∪ F) M (k v) Q) → body own pth F M (Force t (ALoc l) None k) Q
  | b_force_rc pth F M t w cyc k Q : (∀ v, body own pth F M (k v) Q) → body own pth F M (Force t (ARc w) cyc k) Q
  | b_map pth F M t l f k Q : l ∉ M → l ∉ F → (∀ v, body own pth F ({[l]} ∪ M) (k v) Q) →
      body own pth F M (ForceMap t (ALoc l) f k) Q
  | b_map_rc pth F M t w f k Q : (∀ v, body own pth F M (k v) Q) → body own pth F M (ForceMap t (ARc w) f k) Q
  | b_abs_rc pth F M t w f k Q : (∀ v, body own pth F M (k v) Q) → body own pth F M (ForceAbs t (ARc w) f k) Q
  | b_cell pth F M t n v k Q : Loc pth (IdNom n) ≠ own → lay (Loc pth (IdNom n)) = Some (CCell t v) →
      body own pth F M (k (Loc pth (IdNom n))) Q → body own pth F M (Cell t n v k) Q
  | b_thunk pth F M t n pp arg spur k Q : Loc pth (IdNom n) ≠ own → lay (Loc pth (IdNom n)) = Some (CThunk t pp arg spur) →
      body own pth F M (k (Loc pth (IdNom n))) Q → body own pth F M (Thunk t (NCNominal n) pp arg spur k) Q
  | b_ns pth F M n b k (Q Q' : gset loc → gset loc → Prop) : body own (n :: pth) F M b Q' →
      (∀ F' M' v, Q' F' M' → body own pth F' M' (k v) Q) → body own pth F M (Ns n b k) Q.
(** The function [pp] may be suspended at [l] with these arguments. *)
Definition suspendable (l : loc) (pp : progpt) (arg spur : val) : Prop :=
  body l (l_path l) ∅ ∅ (code pp arg spur) (λ _ _, True).

(** The bodies of the thunks that thunk bodies allocate are themselves of this form. *)
Definition lay_ok : Prop := ∀ l ct, lay l = Some ct → is_struct l = false ∧
  match ct with CCell _ _ => True | CThunk _ pp arg spur => suspendable l pp arg spur end.

(** An editor program in namespace [pth]; [isc l]: the editor uses [l] for a cell (otherwise for a thunk). *)
Inductive edits (isc : loc → bool) : path → comp → Prop :=
  | e_ret pth v : edits isc pth (Ret v)
  | e_fail pth : edits isc pth Fail
  | e_force pth t a cyc k : (∀ v, edits isc pth (k v)) → edits isc pth (Force t a cyc k)
  | e_map pth t a f k : (∀ v, edits isc pth (k v)) → edits isc pth (ForceMap t a f k)
  | e_abs pth t a f k : (∀ v, edits isc pth (k v)) → edits isc pth (ForceAbs t a f k)
  | e_cell pth t n v k : lay (Loc pth (IdNom n)) = None → isc (Loc pth (IdNom n)) = true →
      edits isc pth (k (Loc pth (IdNom n))) → edits isc pth (Cell t n v k)
  | e_thunk pth t n pp arg k : lay (Loc pth (IdNom n)) = None → isc (Loc pth (IdNom n)) = false →
      suspendable (Loc pth (IdNom n)) pp arg VUnit →
      edits isc pth (k (Loc pth (IdNom n))) → edits isc pth (Thunk t (NCNominal n) pp arg VUnit k)
  | e_lay_cell pth t n v k : lay (Loc pth (IdNom n)) = Some (CCell t v) →
      edits isc pth (k (Loc pth (IdNom n))) → edits isc pth (Cell t n v k)
  | e_lay_thunk pth t n pp arg spur k : lay (Loc pth (IdNom n)) = Some (CThunk t pp arg spur) →
      edits isc pth (k (Loc pth (IdNom n))) → edits isc pth (Thunk t (NCNominal n) pp arg spur k)
  | e_set pth t a v k : (∀ l, a = ALoc l → lay l = None) → edits isc pth k → edits isc pth (SetC t a v k)
  | e_ns pth n b k : edits isc (n :: pth) b → (∀ v, edits isc pth (k v)) → edits isc pth (Ns n b k).

(** What the store of such a program looks like. *)
Definition fits (isc : loc → bool) (l : loc) (ct : content) : Prop := is_struct l = false ∧
  match lay l with
  | Some ct' => ct = ct'
  | None => match ct with
            | CCell _ _ => isc l = true
            | CThunk _ pp arg spur => isc l = false ∧ suspendable l pp arg spur ∧ spur = VUnit
            end
  end.
Definition mgood (isc : loc → bool) (σ : store) : Prop := ∀ l ct, σ !! l = Some ct → fits isc l ct.

Lemma mgood_struct isc σ l ct : mgood isc σ → σ !! l = Some ct → is_struct l = false.
Proof. intros Hg E. apply (Hg _ _ E). Qed.
Lemma mgood_insert isc σ l ct : mgood isc σ → fits isc l ct → mgood isc (<[l := ct]> σ).
Proof.
  intros Hg Hf l' ct' Hl'. destruct (decide (l = l')) as [<-|]; [|rewrite lookup_insert_ne in Hl' by done; by apply Hg].
  rewrite lookup_insert in Hl'. by injection Hl' as <-.
Qed.
Lemma mgood_body isc σ l t pp arg spur : lay_ok → mgood isc σ → σ !! l = Some (CThunk t pp arg spur) → suspendable l pp arg spur.
Proof.
  intros Hlay Hg E. destruct (Hg _ _ E) as [_ Hf]. destruct (lay l) as [ct'|] eqn:El; [|apply Hf].
  subst ct'. by destruct (Hlay _ _ El).
Qed.
Lemma fits_lay isc l ct : lay_ok → lay l = Some ct → fits isc l ct.
Proof. intros Hlay El. split; [by apply (Hlay _ _ El)|]. by rewrite El. Qed.
Lemma lay_rebind isc σ l ct seen : mgood isc σ → lay l = Some ct → rebind_ok l (σ !! l) ct seen = true.
Proof.
  intros Hg El. destruct (σ !! l) as [old|] eqn:E; [|done]. destruct (Hg _ _ E) as [_ Hf]. rewrite El in Hf. subst old.
  unfold rebind_ok. by rewrite bool_decide_eq_true_2.
Qed.

(** One force by an executing thunk. *)
Definition mforces (n : nat) (isc : loc → bool) : Prop := ∀ stk t l v st st' p,
  nominal stk → mgood isc (d_store p) → l ∉ d_map p → r_store st = d_store p →
  ref_force n stk false t l None st = ROk v st' →
  ∃ p', d_force opt false n stk false t l p = Some (v, p') ∧ mgood isc (d_store p') ∧
    r_store st' = d_store p' ∧ d_map p' = d_map p ∧ d_full p' = {[l]} ∪ d_full p.

(** One allocation. *)
Lemma lay_alloc isc stk l ct p : lay_ok → mgood isc (d_store p) → nominal stk → head stk ≠ Some l → lay l = Some ct →
  d_alloc opt stk l ct p = Some (l, d_write stk l ct p).
Proof.
  intros Hlay Hg Hs Hh El. unfold d_alloc. rewrite s6_nom by done. rewrite (lay_rebind isc) by done.
  rewrite bool_decide_eq_false_2 by done. by rewrite orb_true_r.
Qed.
Lemma ref_cell_ok pth t n v st l st' : ref_cell pth false t n v st = ROk l st' →
  l = Loc pth (IdNom n) ∧ st' = RState (<[l := CCell t v]> (r_store st)) (r_log st).
Proof.
  unfold ref_cell. destruct (r_store st !! _) as [ct|]; [destruct (decide _)|]; unfold rbind, rput; intros E; try done; by injection E as <- <-.
Qed.
Lemma ref_thunk_ok pth t n pp arg spur st l st' : ref_thunk pth false t (NCNominal n) pp arg spur st = ROk l st' →
  l = Loc pth (IdNom n) ∧ st' = RState (<[l := CThunk t pp arg spur]> (r_store st)) (r_log st).
Proof.
  unfold ref_thunk. destruct (r_store st !! _) as [[|]|]; repeat destruct (decide _); unfold rbind, rput; intros E; try done; by injection E as <- <-.
Qed.

Lemma body_run n isc (Hn : mforces n isc) (Hlay : lay_ok) stk own pth F M c Q :
  body own pth F M c Q → nominal stk → head stk = Some own → ∀ v st st' p,
  mgood isc (d_store p) → r_store st = d_store p → d_map p ⊆ M → d_full p ⊆ F ∪ M →
  ref_run (ref_force n stk) stk pth false c st = ROk v st' →
  ∃ p' F' M', d_run opt (d_force opt false n stk) stk pth false c p = Some (v, p') ∧ mgood isc (d_store p') ∧
    r_store st' = d_store p' ∧ Q F' M' ∧ d_map p' ⊆ M' ∧ d_full p' ⊆ F' ∪ M'.
Proof.
  intros Hc Hstk Hown. assert (is_struct own = false) as Hownns.
  { destruct Hstk as [_ Hs]. destruct stk; [done|]. simpl in Hown. injection Hown as ->. by inversion Hs. }
  induction Hc as [pth F M w Q HQ|pth F M Q|pth F M t l k Q Hl _ IH|pth F M t w cyc k Q _ IH|pth F M t l f k Q Hl Hl2 _ IH
    |pth F M t w f k Q _ IH|pth F M t w f k Q _ IH|pth F M t m w k Q Hne El _ IH|pth F M t m pp arg spur k Q Hne El _ IH|pth F M m b k Q Q' _ IHb _ IH];
    intros v st st' p Hg Hst HM HF Hr; cbn [ref_run ref_art] in Hr; cbn [Discipline.d_run d_art].
  - injection Hr as <- <-. by exists p, F, M.
  - done.
  - unfold rbind in Hr. destruct (ref_force n stk false t l None st) as [w st1|r|] eqn:E; try done.
    destruct (Hn stk t l w st st1 p Hstk Hg ltac:(set_solver) Hst E) as (p1 & E1 & Hs1 & Hs2 & Hm & Hf).
    unfold dbind. rewrite E1. apply (IH w v st1 st' p1); [done|done|set_solver|set_solver|exact Hr].
  - unfold rbind in Hr. apply (IH w v st st' p Hg Hst HM HF Hr).
  - unfold rbind in Hr. destruct (ref_force n stk false t l None st) as [w st1|r|] eqn:E; try done.
    unfold dbind, d_force_map. destruct (d_store p !! l) as [ct|] eqn:El;
      [|destruct n; simpl in E; rewrite Hst, El in E; done].
    assert (Hns : is_struct l = false) by (by eapply mgood_struct).
    destruct ct as [t' w'|t' pp arg spur].
    + assert (t' = t ∧ w' = w ∧ st1 = st) as (-> & -> & ->).
      { destruct n; simpl in E; rewrite Hst, El in E; simpl in E; (destruct (decide (t' = t)) as [->|]; [|done]); by injection E as -> ->. }
      rewrite decide_True by done. rewrite tracked_nom by done. destruct stk as [|x stk]; [by destruct Hstk|].
      rewrite s6_nom by done. rewrite bool_decide_eq_true_2 by set_solver. cbn [andb negb].
      apply (IH (f w) v st st' (d_observe (x :: stk) l true p)); [done|done|simpl; set_solver|simpl; set_solver|exact Hr].
    + destruct (Hn stk t l w st st1 p Hstk Hg ltac:(set_solver) Hst E) as (p1 & E1 & Hs1 & Hs2 & Hm & Hf). rewrite E1.
      apply (IH (f w) v st1 st' p1); [done|done|set_solver|set_solver|exact Hr].
  - unfold rbind in Hr. apply (IH (f w) v st st' p Hg Hst HM HF Hr).
  - unfold rbind in Hr. apply (IH (f w) v st st' p Hg Hst HM HF Hr).
  - unfold rbind in Hr. destruct (ref_cell pth false t m w st) as [l st1|r|] eqn:E; try done. apply ref_cell_ok in E as [-> ->].
    unfold dbind, d_cell. rewrite (lay_alloc isc) by (try done; by rewrite Hown; injection).
    apply (IH v _ st' (d_write stk (Loc pth (IdNom m)) (CCell t w) p)) in Hr; [done| | |done|done].
    + apply mgood_insert; [done|by apply fits_lay].
    + simpl. by rewrite Hst.
  - unfold rbind in Hr. destruct (ref_thunk pth false t (NCNominal m) pp arg spur st) as [l st1|r|] eqn:E; try done. apply ref_thunk_ok in E as [-> ->].
    unfold dbind, d_thunk. rewrite (lay_alloc isc) by (try done; by rewrite Hown; injection).
    apply (IH v _ st' (d_write stk (Loc pth (IdNom m)) (CThunk t pp arg spur) p)) in Hr; [done| | |done|done].
    + apply mgood_insert; [done|by apply fits_lay].
    + simpl. by rewrite Hst.
  - unfold rbind in Hr. destruct (ref_run _ _ (m :: pth) _ b st) as [w st1|r|] eqn:E; try done.
    destruct (IHb w st st1 p Hg Hst HM HF E) as (p1 & F1 & M1 & E1 & Hg1 & Hs1 & HQ & HM1 & HF1).
    unfold dbind. rewrite E1. by apply (IH F1 M1 w HQ v st1 st' p1).
Qed.

Lemma mforces_all n isc (Hlay : lay_ok) : mforces n isc.
Proof.
  induction n as [|n IHn]; intros stk t l v st st' p Hstk Hg Hl Hst Hr; simpl in Hr; rewrite Hst in Hr;
    destruct (d_store p !! l) as [ct|] eqn:El; try done; destruct (decide (content_ty ct = t)) as [Ht|]; try done;
    assert (Hns : is_struct l = false) by (by eapply mgood_struct); destruct ct as [t' w|t' pp arg spur]; simpl in Ht; subst t'.
  1,3: injection Hr as <- <-; cbn [Discipline.d_force]; rewrite El; rewrite decide_True by done; unfold d_get;
    rewrite s6_nom by done; rewrite bool_decide_eq_true_2 by done; eexists; split; [done|]; destruct stk; [by destruct Hstk|done].
  1: destruct (decide (l ∈ stk)); done.
  destruct (decide (l ∈ stk)) as [|Hl']; [done|]. cbn [Discipline.d_force]. rewrite El.
  rewrite decide_True by (by rewrite s6_nom).
  pose proof (mgood_body _ _ _ _ _ _ _ Hlay Hg El) as Hb.
  edestruct (body_run n isc IHn Hlay (l :: stk) l (l_path l) ∅ ∅ _ _ Hb ltac:(split; [done|]; constructor; [done|apply Hstk]) eq_refl v
    (RState (d_store p) (l :: r_log st)) st' (DState (d_store p) ({[l]} ∪ d_seen p) (d_done p) ∅ ∅))
    as (p2 & F' & M' & E2 & Hg2 & Hs2 & _); [done|done|set_solver|set_solver|exact Hr|].
  rewrite E2. eexists. split; [done|]. destruct stk; [by destruct Hstk|]. simpl in *. done.
Qed.

(** One demand by the editor. *)
Lemma memo_force n isc t l cyc v st st' : lay_ok →
  mgood isc (r_store st) → ref_force n [] false t l cyc st = ROk v st' →
  d_force opt false n [] false t l (d_init (r_store st)) = Some (v, d_init (r_store st')) ∧ mgood isc (r_store st').
Proof.
  intros Hlay Hg Hr. destruct n as [|n]; simpl in Hr; destruct (r_store st !! l) as [ct|] eqn:El; try done;
    destruct (decide (content_ty ct = t)) as [Ht|]; try done;
    assert (Hns : is_struct l = false) by (by eapply mgood_struct); destruct ct as [t' w|t' pp arg spur]; simpl in Ht; subst t';
    cbn [Discipline.d_force d_store d_init]; rewrite El.
  1,3: injection Hr as <- <-; rewrite decide_True by done; unfold d_get; by rewrite bool_decide_eq_true_2.
  1: done.
  rewrite decide_True by (split; [done|]; split; [set_solver|]; done).
  pose proof (mgood_body _ _ _ _ _ _ _ Hlay Hg El) as Hb.
  edestruct (body_run n isc (mforces_all n isc Hlay) Hlay [l] l (l_path l) ∅ ∅ _ _ Hb ltac:(split; [done|]; by repeat constructor) eq_refl v
    (RState (r_store st) (l :: r_log st)) st' (DState (r_store st) ({[l]} ∪ d_seen (d_init (r_store st))) ∅ ∅ ∅))
    as (p2 & F' & M' & E2 & Hg2 & Hs2 & _); [done|done|set_solver|set_solver|exact Hr|].
  simpl in E2, Hs2 |- *. rewrite E2. simpl. by rewrite Hs2.
Qed.

Lemma memo_force_map n isc t l abs f v st st' : lay_ok →
  mgood isc (r_store st) → ref_force n [] false t l None st = ROk v st' →
  d_force_map opt (d_force opt false n [] false) abs [] t l f (d_init (r_store st)) = Some (f v, d_init (r_store st')) ∧ mgood isc (r_store st').
Proof.
  intros Hlay Hg E. destruct (memo_force n isc t l None v st st' Hlay Hg E) as [E1 E2]. split; [|done].
  unfold d_force_map. rewrite E1. cbn [d_init d_store]. destruct (r_store st !! l) as [ct|] eqn:El; [|destruct n; simpl in E; by rewrite El in E].
  assert (Hns : is_struct l = false) by exact (mgood_struct isc _ _ _ Hg El).
  destruct ct as [t' w'|]; [|done].
  assert (t' = t ∧ w' = v ∧ st' = st) as (-> & -> & ->).
  { destruct n; simpl in E; rewrite El in E; simpl in E; (destruct (decide (t' = t)) as [->|]; [|done]); by injection E as -> ->. }
  rewrite decide_True by done. by rewrite tracked_nom.
Qed.

(** One allocation by the editor. *)
Lemma memo_alloc σ l ct : rebind_ok l (σ !! l) ct ∅ = true → d_alloc opt [] l ct (d_init σ) = Some (l, d_init (<[l := ct]> σ)).
Proof.
  intros Hb. unfold d_alloc. cbn [d_init d_store d_seen s6_ok]. rewrite Hb. rewrite bool_decide_eq_false_2 by done. by rewrite orb_true_r.
Qed.

Lemma memo_run n isc pth c : lay_ok → edits isc pth c → ∀ v st st',
  mgood isc (r_store st) →
  ref_run (ref_force n []) [] pth false c st = ROk v st' →
  d_run opt (d_force opt false n []) [] pth false c (d_init (r_store st)) = Some (v, d_init (r_store st')) ∧
  mgood isc (r_store st').
Proof.
  intros Hlay Hc. induction Hc as [pth w|pth|pth t a cyc k _ IH|pth t a f k _ IH|pth t a f k _ IH|pth t m w k El Hm _ IH|pth t m pp arg k El Hm Hpp _ IH
    |pth t m w k El _ IH|pth t m pp arg spur k El _ IH|pth t a w k Ha _ IH|pth m b k _ IHb _ IH];
    intros v st st' Hg Hr; cbn [ref_run ref_art] in Hr; cbn [Discipline.d_run d_art].
  - by injection Hr as <- <-.
  - done.
  - unfold rbind in Hr. destruct a as [w|l]; simpl in *; [by eapply IH|].
    destruct (ref_force n [] false t l cyc st) as [w st1|r|] eqn:E; try done.
    destruct (memo_force n isc t l cyc w st st1 Hlay Hg E) as [E1 E2]. unfold dbind. rewrite E1. by eapply IH.
  - unfold rbind in Hr. destruct a as [w|l]; simpl in *; [by eapply IH|].
    destruct (ref_force n [] false t l None st) as [w st1|r|] eqn:E; try done.
    destruct (memo_force_map n isc t l false f w st st1 Hlay Hg E) as [E1 E2]. unfold dbind. rewrite E1. by eapply IH.
  - unfold rbind in Hr. destruct a as [w|l]; simpl in *; [by eapply IH|].
    destruct (ref_force n [] false t l None st) as [w st1|r|] eqn:E; try done.
    destruct (memo_force_map n isc t l true f w st st1 Hlay Hg E) as [E1 E2]. unfold dbind. rewrite E1. by eapply IH.
  - unfold rbind in Hr. destruct (ref_cell pth false t m w st) as [l st1|r|] eqn:E; try done. pose proof E as E'. apply ref_cell_ok in E as [-> ->].
    set (l := Loc pth (IdNom m)) in *. unfold dbind, d_cell. fold l.
    rewrite memo_alloc.
    + change (d_init (<[l:=CCell t w]> (r_store st))) with (d_init (r_store (RState (<[l:=CCell t w]> (r_store st)) (r_log st)))).
      apply (IH v _ st'); [|exact Hr]. apply mgood_insert; [done|]. split; [done|]. by rewrite El.
    + unfold ref_cell in E'. fold l in E'. destruct (r_store st !! l) as [ct|] eqn:Es; [|done].
      destruct (Hg _ _ Es) as [_ Hf]. rewrite El in Hf. destruct ct as [t' w'|]; [|destruct Hf; congruence].
      simpl in E'. destruct (decide (t' = t)) as [->|]; [|done].
      unfold rebind_ok. apply orb_true_iff. right. simpl. by rewrite !bool_decide_eq_true_2.
  - unfold rbind in Hr. destruct (ref_thunk pth false t (NCNominal m) pp arg VUnit st) as [l st1|r|] eqn:E; try done. pose proof E as E'. apply ref_thunk_ok in E as [-> ->].
    set (l := Loc pth (IdNom m)) in *. unfold dbind, d_thunk. fold l.
    rewrite memo_alloc.
    + change (d_init (<[l:=CThunk t pp arg VUnit]> (r_store st))) with (d_init (r_store (RState (<[l:=CThunk t pp arg VUnit]> (r_store st)) (r_log st)))).
      apply (IH v _ st'); [|exact Hr]. apply mgood_insert; [done|]. split; [done|]. by rewrite El.
    + unfold ref_thunk in E'. fold l in E'. destruct (r_store st !! l) as [ct|] eqn:Es; [|done].
      destruct (Hg _ _ Es) as [_ Hf]. rewrite El in Hf. destruct ct as [t' w'|t' pp' arg' spur']; [congruence|].
      simpl in E'. destruct (decide (t' = t)) as [->|]; [|done]. destruct (decide (pp' = pp)) as [->|]; [|done]. destruct Hf as (_ & _ & ->).
      unfold rebind_ok. apply orb_true_iff. right. simpl. by rewrite !bool_decide_eq_true_2.
  - unfold rbind in Hr. destruct (ref_cell pth false t m w st) as [l st1|r|] eqn:E; try done. apply ref_cell_ok in E as [-> ->].
    set (l := Loc pth (IdNom m)) in *. unfold dbind, d_cell. fold l.
    rewrite memo_alloc by (by apply (lay_rebind isc)).
    change (d_init (<[l:=CCell t w]> (r_store st))) with (d_init (r_store (RState (<[l:=CCell t w]> (r_store st)) (r_log st)))).
    apply (IH v _ st'); [|exact Hr]. apply mgood_insert; [done|]. by apply fits_lay.
  - unfold rbind in Hr. destruct (ref_thunk pth false t (NCNominal m) pp arg spur st) as [l st1|r|] eqn:E; try done. apply ref_thunk_ok in E as [-> ->].
    set (l := Loc pth (IdNom m)) in *. unfold dbind, d_thunk. fold l.
    rewrite memo_alloc by (by apply (lay_rebind isc)).
    change (d_init (<[l:=CThunk t pp arg spur]> (r_store st))) with (d_init (r_store (RState (<[l:=CThunk t pp arg spur]> (r_store st)) (r_log st)))).
    apply (IH v _ st'); [|exact Hr]. apply mgood_insert; [done|]. by apply fits_lay.
  - unfold rbind in Hr. destruct a as [|l]; [done|]. cbn [ref_set] in Hr. unfold dbind, d_set. cbn [d_init d_store].
    destruct (r_store st !! l) as [[t' w'|t' pp arg spur]|] eqn:El; try done.
    + destruct (decide (t' = t)) as [->|]; [|done].
      assert (Hns : is_struct l = false) by (by eapply mgood_struct). rewrite decide_True by done.
      unfold rput in Hr. change (d_write [] l (CCell t w) (d_init (r_store st))) with (d_init (r_store (RState (<[l:=CCell t w]> (r_store st)) (r_log st)))).
      apply (IH v (RState (<[l:=CCell t w]> (r_store st)) (r_log st)) st'); [|exact Hr]. apply mgood_insert; [done|].
      destruct (Hg _ _ El) as [_ Hf]. split; [done|]. by rewrite (Ha l eq_refl) in *.
    + by destruct (decide (t' = t)).
  - unfold rbind in Hr. destruct (ref_run _ _ (m :: pth) _ b st) as [w st1|r|] eqn:E; try done.
    destruct (IHb _ _ _ Hg E) as [E1 Hg1]. unfold dbind. rewrite E1. by eapply IH.
Qed.

Theorem memo_disciplined isc c v σ :
  lay_ok → edits isc [] c → from_scratch false c v σ → disciplined opt false c.
Proof.
  intros Hlay He (n & lg & Hr). destruct (memo_run n isc [] c Hlay He v (RState ∅ []) (RState σ lg)) as [E _]; [done|exact Hr|].
  by exists n, v, (d_init σ).
Qed.

(** C01 for these programs: the engine (with or without the purity optimisation) returns exactly what the from-scratch
    evaluation returns, and leaves the same cells and thunks. *)
Theorem C01_memoized isc c v σ :
  lay_ok → edits isc [] c → from_scratch false c v σ →
  ∃ s, returns c (dcg_new_flags false opt) v s ∧ holds s = σ ∧ idle s.
Proof.
  intros Hlay He Hs. destruct (C01_from_scratch_consistency opt false c) as (v' & σ' & s & Hs' & Hr & Hh & Hi); [by eapply memo_disciplined|].
  destruct (from_scratch_functional _ _ _ _ _ _ Hs Hs') as [-> ->]. by exists s.
Qed.
End Memo.
