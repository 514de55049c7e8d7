(** * The documentation's switching example (lib.rs:296-395), for every division, every test and every history.

    Cells [num] and [den]; thunk [div] reads both; thunk [check] reads [den] and, unless it is zero, demands [div].
    "Whether [div] runs is based on demand from the Editor (of the output of [check]) and the value of input cell [den]";
    and when [den] comes back to a value for which [div] was computed, the division is reused. *)
From Verif Require Export Exact.
Local Open Scope string_scope.
Local Open Scope list_scope.

(** ** Generalities: the recorded edges of a thunk *)
Section Generic.
Context `{Prog}.
Context (opt : bool).
Definition recorded (s : dcg) (x : loc) (E : list eshape) (w : val) : Prop := ∃ c,
  table s !! x = Some (NComp c) ∧ shape <$> c_succs c = E ∧ c_res c = Some w.
Lemma rec_evaluated s x E w : recorded s x E w → evaluated s x.
Proof. intros (c & Hx & _ & Hw). by exists w, c. Qed.
Lemma rec_raised s s' x E w : recorded s x E w → onode_raised (table s !! x) (table s' !! x) → recorded s' x E w.
Proof.
  intros (c & Hx & <- & Hw) Hr. rewrite Hx in Hr. destruct (table s' !! x) as [nd|] eqn:Hx'; [|done]. destruct Hr as (es & -> & Hes).
  exists (with_succs es c). split; [done|]. split; [|done]. cbn [c_succs with_succs]. clear -Hes.
  induction Hes as [|e e' es0 es1 Hee Hes IH]; [done|]. cbn [fmap list_fmap]. f_equal; [|done].
  destruct Hee as (E1 & E2 & E3 & _). unfold shape. by rewrite E1, E2, E3.
Qed.
Lemma uneval_raised s s' x : ¬ evaluated s x → onode_raised (table s !! x) (table s' !! x) → ¬ evaluated s' x.
Proof.
  intros Hn Hr (w & c & Hc & Hw). rewrite Hc in Hr. destruct (table s !! x) as [nd|] eqn:Hx; [|done].
  destruct nd as [| |c0]; simpl in Hr; [naive_solver..|]. destruct Hr as (es & E & _). injection E as ->. apply Hn. by exists w, c0.
Qed.
Lemma rec_saw s x E w y t f v : recorded s x E w → saw s x y t f v →
  (y, Observe, DForce t v) ∈ E ∧ f = (λ u, u) ∨ (y, Observe, DForceMap t f v) ∈ E.
Proof.
  intros (c & Hx & <- & _) (c' & e & Hx' & He & Heff & <- & Hd). rewrite Hx in Hx'. injection Hx' as <-.
  destruct Hd as [[Hd ->]|Hd]; [left; split; [|done]|right]; apply elem_of_list_fmap; exists e; (split; [|done]);
    unfold shape; by rewrite Heff, Hd.
Qed.
Lemma rec_saw_r s x E w y t v : recorded s x E w → (y, Observe, DForce t v) ∈ E → saw s x y t (λ u, u) v.
Proof.
  intros (c & Hx & <- & _) (e & He & Hin)%elem_of_list_fmap. injection He as E1 E2 E3. exists c, e. split_and!; [done..|]. left. done.
Qed.
Lemma rec_made s x E w y : recorded s x E w → made s x y → ∃ d, (y, Allocate, d) ∈ E.
Proof.
  intros (c & Hx & <- & _) (c' & e & Hx' & He & Heff & <-). rewrite Hx in Hx'. injection Hx' as <-. exists (s_dep e).
  apply elem_of_list_fmap. exists e. split; [|done]. unfold shape. by rewrite Heff.
Qed.
Lemma tr_force_nominal tb pth m acc t x cyc k E v :
  is_struct x = false → (∀ t w, tb !! x ≠ Some (NPure t w)) → (∀ d, (x, Observe, d) ∉ acc) →
  tr opt tb pth m acc (Force t (ALoc x) cyc k) E v →
  ∃ w E', E = (x, Observe, DForce t w) :: E' ∧ tr opt tb pth m (acc ++ [(x, Observe, DForce t w)]) (k w) E' v.
Proof. intros H1 H2 H3 Ht. inversion Ht; subst; try congruence; [|eauto]. exfalso. by eapply H3. Qed.
Lemma tr_ret tb pth m acc v E w : tr opt tb pth m acc (Ret v) E w → E = [] ∧ w = v.
Proof. intros Ht. by inversion Ht. Qed.
Lemma not_pure md s l : reached opt md s → is_struct l = false → ∀ t w, table s !! l ≠ Some (NPure t w).
Proof. intros Hs Hl t w E. assert (Hi := reached_inv _ _ _ Hs). destruct (i_kind _ _ _ _ Hi _ _ E). congruence. Qed.
Lemma comp_at s l t pp arg spur : holds s !! l = Some (CThunk t pp arg spur) →
  ∃ c, table s !! l = Some (NComp c) ∧ c_ty c = t ∧ c_pp c = pp ∧ c_arg c = arg ∧ c_spur c = spur.
Proof.
  unfold holds. rewrite contents_lookup. destruct (table s !! l) as [[| |c]|]; simpl; try done. intros [= <- <- <- <-]. by exists c.
Qed.
Lemma cell_is md s x t v : reached opt md s → holds s !! x = Some (CCell t v) → gives s t x v.
Proof.
  intros Hr Hh. apply up_to_date_gives; [by destruct (reached_idle _ _ _ Hr)|]. unfold up_to_date.
  unfold holds in Hh. rewrite contents_lookup in Hh. destruct (table s !! x) as [[]|]; simpl in *; try done; by injection Hh as -> ->.
Qed.
(** An up-to-date thunk that recorded a [force] of [y] saw what [y] gives, and [y] is up to date. *)
Lemma up_saw md s x t w y ty f u : reached opt md s → up_to_date s t x w → saw s x y ty f u → ∃ v, gives s ty y v ∧ f v = u.
Proof.
  intros Hs Hu (c & e & Hc & He & Ho & <- & Hdep). unfold up_to_date in Hu. rewrite Hc in Hu. destruct Hu as (_ & _ & Hac).
  by eapply valid_gives.
Qed.
Lemma ref_thunk_step n stk md t l cyc st pp arg spur : r_store st !! l = Some (CThunk t pp arg spur) → l ∉ stk →
  ref_force (S n) stk md t l cyc st = ref_run (ref_force n (l :: stk)) (l :: stk) (l_path l) md (code pp arg spur) (RState (r_store st) (l :: r_log st)).
Proof. intros H1 H2. cbn [ref_force]. rewrite H1. cbn [content_ty]. rewrite decide_True by done. by rewrite decide_False. Qed.
Lemma ref_cell_step n stk md t l cyc st v : r_store st !! l = Some (CCell t v) → ref_force n stk md t l cyc st = ROk v st.
Proof. intros H1. destruct n; cbn [ref_force]; rewrite H1; cbn [content_ty]; by rewrite decide_True. Qed.
Lemma s6_nominal stk l : (∀ x, head stk = Some x → is_struct x = false) → s6_ok opt stk l = true.
Proof. destruct stk as [|x stk]; [done|]. simpl. intros Hx. rewrite (Hx x eq_refl). by rewrite andb_false_r. Qed.
End Generic.

Definition count (x : loc) (xs : list loc) : nat := length (filter (x =.) xs).
Lemma count_app x xs ys : count x (xs ++ ys) = (count x xs + count x ys)%nat.
Proof. unfold count. by rewrite filter_app, app_length. Qed.
Lemma count_once x xs (Q : Prop) `{!Decision Q} : NoDup xs → x ∈ xs ↔ Q → count x xs = if decide Q then 1%nat else 0%nat.
Proof.
  intros Hnd Hq. unfold count. destruct (decide Q) as [HQ|HQ].
  - apply Hq in HQ. clear Hq Q Decision0. apply elem_of_list_split in HQ as (l1 & l2 & ->). apply NoDup_app in Hnd as (_ & H1 & H2).
    rewrite filter_app, filter_cons_True by done. apply NoDup_cons in H2 as [H2 _].
    assert (∀ ys, x ∉ ys → filter (x =.) ys = []) as Hno.
    { intros ys Hys. induction ys as [|y ys IH]; [done|]. rewrite filter_cons_False by set_solver. apply IH. set_solver. }
    rewrite !Hno; [done|done|]. intros Hin. apply (H1 _ Hin). by left.
  - assert (x ∉ xs) as Hn by tauto. clear -Hn. induction xs as [|y ys IH]; [done|]. rewrite filter_cons_False by set_solver. apply IH. set_solver.
Qed.

Section Switch.
Context (dv : val → val → val) (isz : val → bool) (none : val) (some : val → val).

(** lib.rs:331-332.  The captured variables are the [spur] argument of the model. *)
Definition sw_code (pp : progpt) (arg spur : val) : comp :=
  match pp, spur with
  | "div", VPair num den => Force T0 (as_art num) None (λ n, Force T0 (as_art den) None (λ d, Ret (dv n d)))
  | "check", VPair den div => Force T0 (as_art den) None (λ d, if isz d then Ret none else Force T0 (as_art div) None (λ v, Ret (some v)))
  | _, _ => Fail
  end.
Definition sw_prog : Prog := {| code := sw_code; hash_val _ := 0%N; hash_app _ _ := 0%N |}.
Local Existing Instance sw_prog.
Notation "'lnum'" := (at_ "num"). Notation "'lden'" := (at_ "den"). Notation "'ldiv'" := (at_ "div"). Notation "'lchk'" := (at_ "check").
Definition ct_div : content := CThunk T0 "div" VUnit (VPair (VLoc lnum) (VLoc lden)).
Definition ct_chk : content := CThunk T1 "check" VUnit (VPair (VLoc lden) (VLoc ldiv)).
(** What [check] should return. *)
Definition sw_val (n d : val) : val := if isz d then none else some (dv n d).

Record sw_store (n d : val) (σ : store) : Prop := {
  ss_num : σ !! lnum = Some (CCell T0 n);
  ss_den : σ !! lden = Some (CCell T0 d);
  ss_div : σ !! ldiv = Some ct_div;
  ss_chk : σ !! lchk = Some ct_chk;
}.
Context (opt : bool).
Definition E_div (n d : val) : list eshape := [(lnum, Observe, DForce T0 n); (lden, Observe, DForce T0 d)].
Definition E_chk (n d : val) : list eshape :=
  (lden, Observe, DForce T0 d) :: if isz d then [] else [(ldiv, Observe, DForce T0 (dv n d))].
(** The state: the inputs now are [n] and [d]; [check] was last run or found unchanged for the inputs [lc], and [div] for
    the inputs [ld] ([None]: never run). *)
Record sw_state (lc ld : option (val * val)) (n d : val) (s : dcg) : Prop := {
  sw_reached : reached opt false s;
  sw_holds : sw_store n d (holds s);
  sw_chk : match lc with None => ¬ evaluated s lchk | Some (n0, d0) => recorded s lchk (E_chk n0 d0) (sw_val n0 d0) end;
  sw_div : match ld with None => ¬ evaluated s ldiv | Some (n0, d0) => recorded s ldiv (E_div n0 d0) (dv n0 d0) end;
}.

Lemma sw_demand n d σ : sw_store n d σ → d_force opt false 2 [] false T1 lchk (d_init σ) = Some (sw_val n d, d_init σ).
Proof.
  intros [Hn Hd Hdiv Hchk]. cbn [d_force]. cbn [d_store d_init]. rewrite Hchk. unfold ct_chk at 1.
  rewrite decide_True by (split_and!; try done; set_solver).
  cbn [code sw_prog sw_code]. cbn [Discipline.d_run d_art as_art]. unfold dbind at 1. cbn [d_store].
  rewrite Hd. rewrite decide_True by done. unfold d_get at 1. rewrite s6_nominal by (by intros x [= <-]). rewrite bool_decide_true by set_solver. cbn [andb].
  unfold sw_val. destruct (isz d); [done|]. cbn [Discipline.d_run d_art as_art]. unfold dbind at 1. cbn [d_store d_observe].
  rewrite Hdiv. unfold ct_div at 1. rewrite decide_True by (split_and!; [done|set_solver|done|by apply s6_nominal; intros x [= <-]]).
  cbn [code sw_prog sw_code]. cbn [Discipline.d_run d_art as_art]. unfold dbind at 1. cbn [d_store].
  rewrite Hn. rewrite decide_True by done. unfold d_get at 1. rewrite s6_nominal by (by intros x [= <-]). rewrite bool_decide_true by set_solver. cbn [andb].
  unfold dbind at 1. cbn [d_store d_observe]. rewrite Hd. rewrite decide_True by done. unfold d_get at 1. rewrite s6_nominal by (by intros x [= <-]).
  rewrite bool_decide_true by set_solver. cbn [andb]. done.
Qed.
Definition sw_log (d : val) : list loc := if isz d then [lchk] else [ldiv; lchk].
Lemma sw_ref n d σ : sw_store n d σ → ref_force 2 [] false T1 lchk None (RState σ []) = ROk (sw_val n d) (RState σ (sw_log d)).
Proof.
  intros [Hn Hd Hdiv Hchk]. rewrite (ref_thunk_step 1 [] false T1 lchk None (RState σ []) "check" VUnit (VPair (VLoc lden) (VLoc ldiv))); [|done|set_solver].
  cbn [code sw_prog sw_code l_path at_ r_log r_store as_art]. cbn [ref_run ref_art]. unfold rbind at 1.
  rewrite (ref_cell_step 1 _ _ _ _ _ _ d) by done. unfold sw_val, sw_log. destruct (isz d); [done|].
  cbn [ref_run ref_art]. unfold rbind at 1.
  rewrite (ref_thunk_step 0 [lchk] false T0 ldiv None _ "div" VUnit (VPair (VLoc lnum) (VLoc lden))); [|done|set_solver].
  cbn [code sw_prog sw_code l_path at_ r_log r_store as_art]. cbn [ref_run ref_art]. unfold rbind at 1.
  rewrite (ref_cell_step 0 _ _ _ _ _ _ n) by done. unfold rbind at 1. rewrite (ref_cell_step 0 _ _ _ _ _ _ d) by done. done.
Qed.

(** What an up-to-date [div] or [check] has recorded. *)
Lemma div_recorded s n d v : reached opt false s → sw_store n d (holds s) → up_to_date s T0 ldiv v → v = dv n d ∧ recorded s ldiv (E_div n d) (dv n d).
Proof.
  intros Hs [Hn Hd Hdiv _] Hu. assert (Hi := reached_inv _ _ _ Hs).
  destruct (comp_at _ _ _ _ _ _ Hdiv) as (c & Hc & _ & Pp & Pa & Ps). assert (Hu' := Hu). unfold up_to_date in Hu'. rewrite Hc in Hu'. destruct Hu' as (_ & Rc & Cc).
  assert (T := i_tr _ _ _ _ Hi _ _ _ Hc ltac:(set_solver) Rc). rewrite Pp, Pa, Ps in T. cbn [code sw_prog sw_code l_path at_ as_art] in T.
  apply tr_force_nominal in T as (w1 & E1 & S1 & T); [|done|by eapply not_pure|set_solver].
  apply tr_force_nominal in T as (w2 & E2 & -> & T); [|done|by eapply not_pure|set_solver].
  apply tr_ret in T as [-> ->].
  assert (recorded s ldiv (E_div w1 w2) (dv w1 w2)) as Hr by by exists c.
  destruct (up_saw opt false s ldiv T0 _ lnum T0 (λ u, u) w1 Hs Hu) as (v1 & G1 & <-); [eapply rec_saw_r; [exact Hr|by left]|].
  destruct (up_saw opt false s ldiv T0 _ lden T0 (λ u, u) w2 Hs Hu) as (v2 & G2 & <-); [eapply rec_saw_r; [exact Hr|right; by left]|].
  rewrite (gives_fun _ _ _ _ _ G1 (cell_is _ _ _ _ _ _ Hs Hn)) in *. rewrite (gives_fun _ _ _ _ _ G2 (cell_is _ _ _ _ _ _ Hs Hd)) in *. done.
Qed.
Lemma chk_recorded s n d v : reached opt false s → sw_store n d (holds s) → up_to_date s T1 lchk v →
  recorded s lchk (E_chk n d) (sw_val n d) ∧ (isz d = false → recorded s ldiv (E_div n d) (dv n d) ∧ up_to_date s T0 ldiv (dv n d)).
Proof.
  intros Hs Hst Hu. assert (Hi := reached_inv _ _ _ Hs).
  destruct (comp_at _ _ _ _ _ _ (ss_chk _ _ _ Hst)) as (c & Hc & _ & Pp & Pa & Ps). assert (Hu' := Hu). unfold up_to_date in Hu'. rewrite Hc in Hu'. destruct Hu' as (_ & Rc & Cc).
  assert (T := i_tr _ _ _ _ Hi _ _ _ Hc ltac:(set_solver) Rc). rewrite Pp, Pa, Ps in T. cbn [code sw_prog sw_code l_path at_ as_art] in T.
  apply tr_force_nominal in T as (w1 & E1 & S1 & T); [|done|by eapply not_pure|set_solver].
  assert (w1 = d) as ->.
  { destruct (up_saw opt false s lchk T1 v lden T0 (λ u, u) w1 Hs Hu) as (v1 & G1 & <-).
    - exists c. assert ((lden, Observe, DForce T0 w1) ∈ shape <$> c_succs c) as (e & He & Hin)%elem_of_list_fmap by (rewrite S1; by left).
      injection He as F1 F2 F3. exists e. split_and!; [done..|]. by left.
    - by rewrite (gives_fun _ _ _ _ _ G1 (cell_is _ _ _ _ _ _ Hs (ss_den _ _ _ Hst))). }
  unfold E_chk, sw_val. destruct (isz d) eqn:Ez.
  { apply tr_ret in T as [-> ->]. split; [|done]. by exists c. }
  apply tr_force_nominal in T as (w2 & E2 & -> & T); [|done|by eapply not_pure|set_solver]. apply tr_ret in T as [-> ->].
  assert (∃ e, e ∈ c_succs c ∧ shape e = (ldiv, Observe, DForce T0 w2)) as (e & He & Hse).
  { assert ((ldiv, Observe, DForce T0 w2) ∈ shape <$> c_succs c) as (e & ? & ?)%elem_of_list_fmap by (rewrite S1; right; by left). by exists e. }
  assert (up_to_date s T0 ldiv w2) as Hud.
  { assert (Hv := i_valid _ _ _ _ Hi _ _ _ Hc He (Cc _ He)). rewrite Hse in Hv. unfold valid in Hv. cbn [sh_dep sh_loc snd fst] in Hv.
    destruct (comp_at _ _ _ _ _ _ (ss_div _ _ _ Hst)) as (cd & Hcd & Ht & _). rewrite Hcd in Hv. unfold up_to_date. rewrite Hcd. destruct Hv as (? & ? & _). done. }
  destruct (div_recorded _ _ _ _ Hs Hst Hud) as [-> Hrd]. split; [|done]. by exists c.
Qed.

Lemma chk_same n0 n d : isz d = true ∨ dv n0 d = dv n d → E_chk n0 d = E_chk n d ∧ sw_val n0 d = sw_val n d.
Proof. unfold E_chk, sw_val. intros Hor. destruct (isz d); [done|]. destruct Hor as [| ->]; done. Qed.

(** C62, the documentation's example.  Whatever happened before, a demand of [check] returns what the inputs demand;
    it runs [div] iff the denominator is not zero and [div] was not last computed for these very inputs; it runs [check] iff
    its last run does not stand any more. *)
Theorem C62_switching lc ld n d s : sw_state lc ld n d s → ∃ s' rs,
  demand T1 lchk s (sw_val n d) s' ∧ runs s' = rs ++ runs s ∧ NoDup rs ∧ rs ⊆ [ldiv; lchk] ∧
  (ldiv ∈ rs ↔ isz d = false ∧ ld ≠ Some (n, d)) ∧
  (lchk ∈ rs ↔ ¬ ∃ n0, lc = Some (n0, d) ∧ (isz d = true ∨ dv n0 d = dv n d)) ∧
  sw_state (Some (n, d)) (if isz d then ld else Some (n, d)) n d s'.
Proof.
  intros [Hs Hst Hlc Hld]. assert (disciplined_demand opt false T1 lchk (holds s)) as Hd by (eexists _, _, _; by apply sw_demand).
  destruct (demand_after_history opt false s T1 lchk Hs Hd) as (v & σ' & lg0 & s' & rs0 & (m & Hfs) & Hdem & Hh & _).
  assert (v = sw_val n d ∧ σ' = holds s ∧ lg0 = sw_log d) as (-> & -> & ->).
  { destruct (demand_from_scratch_functional false T1 lchk (holds s) v σ' lg0 (sw_val n d) (holds s) (sw_log d)) as (? & ? & ?);
      [by exists m|exists 2%nat; by apply sw_ref|done]. }
  assert (Hdem' := Hdem). destruct Hdem' as (K & HK). assert (HfK := HK K ltac:(lia)).
  destruct (demand_up_to_date opt false s T1 lchk K (sw_val n d) s' Hs Hd HfK) as [Hu Hs'].
  destruct (demand_exact opt false s T1 lchk (sw_val n d) s' K Hs Hd HfK) as (lg1 & rs1 & _ & Hrs1 & _ & _ & _ & Hun & _).
  destruct (C62_runs_exactly opt false s T1 lchk (sw_val n d) s' K Hs Hd HfK) as (lg & rs & Hlg & Hrs & Hnd & Hx).
  rewrite Hrs in Hrs1. apply app_inv_tail in Hrs1 as <-.
  assert (lg = sw_log d) as ->.
  { destruct Hlg as (m' & Hm'). destruct (demand_from_scratch_functional false T1 lchk (holds s) (sw_val n d) (holds s') lg (sw_val n d) (holds s) (sw_log d)) as (? & ? & ?);
      [by exists m'|exists 2%nat; by apply sw_ref|done]. }
  assert (Hst' : sw_store n d (holds s')) by by rewrite Hh.
  destruct (chk_recorded s' n d _ Hs' Hst' Hu) as [Rc Rd].
  assert (rs ⊆ sw_log d) as Hsub by (intros y Hy; by apply Hx in Hy as [? _]).
  assert (Hlast : ∀ x E w, recorded s x E w → (∀ y e, (y, Allocate, e) ∉ E) →
    must_run s s' x ↔ ∃ y ty f u v', saw s x y ty f u ∧ gives s' ty y v' ∧ f v' ≠ u).
  { intros x E w Hr Hno. unfold must_run. rewrite Hh. split; [|tauto]. intros [Hne|[?|[?|(y & Hm & _)]]]; [|done|done|].
    - destruct Hne. by eapply rec_evaluated.
    - destruct (rec_made _ _ _ _ _ Hr Hm) as (e & He). by destruct (Hno _ _ He). }
  assert (Gn := cell_is _ _ _ _ _ _ Hs' (ss_num _ _ _ Hst')). assert (Gd := cell_is _ _ _ _ _ _ Hs' (ss_den _ _ _ Hst')).
  assert (Gv : isz d = false → gives s' T0 ldiv (dv n d)).
  { intros Hz. destruct (Rd Hz) as [_ ?]. apply up_to_date_gives; [|done]. by destruct (reached_idle _ _ _ Hs'). }
  exists s', rs. split; [done|]. split; [done|]. split; [done|].
  split; [intros y Hy; apply Hsub in Hy; unfold sw_log in Hy; destruct (isz d); set_solver|].
  assert (Hdiv : ldiv ∈ rs ↔ isz d = false ∧ ld ≠ Some (n, d)).
  { rewrite Hx. unfold sw_log. destruct (isz d) eqn:Hz.
    { split; [intros [Hin _]; apply elem_of_list_singleton in Hin; done|intros [? _]; done]. }
    assert (ldiv ∈ [ldiv; lchk]) as Hin by by left. split.
    - intros [_ Hm]. split; [done|]. intros ->. apply (Hlast _ _ _ Hld) in Hm as (y & ty & f & u & v' & Hsaw & Hg & Hne).
      2:{ intros y e. unfold E_div. rewrite !elem_of_cons, elem_of_nil. naive_solver. }
      destruct (rec_saw _ _ _ _ _ _ _ _ Hld Hsaw) as [[Hi ->]|Hi]; revert Hi; unfold E_div; rewrite !elem_of_cons, elem_of_nil; [|naive_solver].
      intros [Heq|[Heq|[]]]; injection Heq as -> -> ->; apply Hne; [by eapply gives_fun, Gn|by eapply gives_fun, Gd].
    - intros [_ Hne]. split; [done|]. destruct ld as [[n0 d0]|]; [|by left].
      apply (Hlast _ _ _ Hld); [intros y e; unfold E_div; rewrite !elem_of_cons, elem_of_nil; naive_solver|].
      destruct (decide (n0 = n)) as [->|Hn0].
      + exists lden, T0, (λ u, u), d0, d. split; [eapply rec_saw_r; [exact Hld|right; by left]|]. split; [done|]. congruence.
      + exists lnum, T0, (λ u, u), n0, n. split; [eapply rec_saw_r; [exact Hld|by left]|]. split; [done|]. congruence. }
  split; [done|]. split.
  - rewrite Hx. assert (lchk ∈ sw_log d) as Hin by (unfold sw_log; destruct (isz d); set_solver). split.
    + intros [_ Hm] (n0 & -> & Hor). apply (Hlast _ _ _ Hlc) in Hm as (y & ty & f & u & v' & Hsaw & Hg & Hne).
      2:{ intros y e. unfold E_chk. destruct (isz d); rewrite !elem_of_cons, elem_of_nil; naive_solver. }
      destruct (rec_saw _ _ _ _ _ _ _ _ Hlc Hsaw) as [[Hi ->]|Hi]; revert Hi; unfold E_chk; destruct (isz d) eqn:Hz;
        rewrite !elem_of_cons, elem_of_nil; [| |naive_solver..].
      * intros [Heq|[]]. injection Heq as -> -> ->. apply Hne. by eapply gives_fun, Gd.
      * intros [Heq|[Heq|[]]]; injection Heq as -> -> ->; apply Hne; [by eapply gives_fun, Gd|].
        destruct Hor as [|Hor]; [done|]. rewrite Hor. by eapply gives_fun, Gv.
    + intros Hno. split; [done|]. destruct lc as [[n0 d0]|]; [|by left].
      apply (Hlast _ _ _ Hlc); [intros y e; unfold E_chk; destruct (isz d0); rewrite !elem_of_cons, elem_of_nil; naive_solver|].
      destruct (decide (d0 = d)) as [->|Hd0].
      * destruct (isz d) eqn:Hz; [destruct Hno; eauto|]. exists ldiv, T0, (λ u, u), (dv n0 d), (dv n d).
        split; [eapply rec_saw_r; [exact Hlc|unfold E_chk; rewrite Hz; right; by left]|]. split; [by apply Gv|]. intros Heq. destruct Hno. eauto.
      * exists lden, T0, (λ u, u), d0, d. split; [eapply rec_saw_r; [exact Hlc|by left]|]. split; [done|]. congruence.
  - split; [done|done|done|]. destruct (isz d) eqn:Hz; [|by apply Rd].
    assert (ldiv ∉ rs) as Hni by (intros Hin; apply Hdiv in Hin as [? _]; congruence).
    destruct ld as [[n0 d0]|].
    + destruct Hld as (c0 & Hc0 & HE & Hw0). destruct (demand_justified opt false s T1 lchk (sw_val n d) s' K Hs Hd HfK) as (rs2 & Hrs2 & _ & Hrm).
      rewrite Hrs in Hrs2. apply app_inv_tail in Hrs2 as <-.
      destruct (Hrm ldiv c0 _ Hc0 Hw0) as [Hne|(c & w' & Hc & Hw & Hk)]; [change (holds s' !! ldiv ≠ holds s !! ldiv) in Hne; by rewrite Hh in Hne|].
      destruct (Hk Hni) as [-> Hsh]. exists c. split; [done|]. by rewrite Hsh.
    + intros (w & c1 & Hc1 & Hw1). destruct (Hun _ Hni c1 Hc1) as (c0 & Hc0 & Hr0 & _); [congruence|]. apply Hld.
      destruct (c_res c0) as [w0|] eqn:Hw0; [|done]. by exists w0, c0.
Qed.

(** ** Whole sessions *)
Lemma sw_set lc ld n d s l v : sw_state lc ld n d s → l = lnum ∨ l = lden → ∃ s',
  set_op T0 (ALoc l) v s = (OVal tt, s') ∧ runs s' = runs s ∧
  sw_state lc ld (if decide (l = lnum) then v else n) (if decide (l = lnum) then d else v) s'.
Proof.
  intros [Hs Hst Hlc Hld] Hl.
  assert (∃ v0, holds s !! l = Some (CCell T0 v0)) as (v0 & Hv0) by (destruct Hl as [->| ->]; eexists; apply Hst).
  assert (is_struct l = false) as Hns by (by destruct Hl as [->| ->]).
  destruct (reached_step opt false s 1 (SetC T0 (ALoc l) v (Ret v)) v (d_write [] l (CCell T0 v) (d_init (holds s))) Hs) as (s2 & (K & Hk) & Hs2 & Hh2).
  { unfold d_exec. cbn [d_run]. unfold dbind, d_set. cbn [d_store d_init]. rewrite Hv0. rewrite decide_True by done. done. }
  specialize (Hk K ltac:(lia)). unfold exec in Hk. cbn [run] in Hk. unfold bind in Hk.
  destruct (set_op T0 (ALoc l) v s) as [[[]|r|] s'] eqn:E; [|done|done]. injection Hk as ->. exists s2. split; [done|].
  destruct (post_elim _ _ _ _ _ (set_op_any T0 (ALoc l) v s) E) as (_ & Hrest & Hx & _).
  split; [apply Hrest|]. cbn [d_store d_write d_init] in Hh2.
  assert (Hx1 : onode_raised (table s !! lchk) (table s2 !! lchk)) by (apply Hx; by destruct Hl as [->| ->]).
  assert (Hx2 : onode_raised (table s !! ldiv) (table s2 !! ldiv)) by (apply Hx; by destruct Hl as [->| ->]).
  split; [done| | |].
  - rewrite Hh2. destruct Hst as [H1 H2 H3 H4]. destruct Hl as [->| ->].
    + rewrite !decide_True by done. split; rewrite ?lookup_insert, ?lookup_insert_ne by done; done.
    + rewrite !decide_False by done. split; rewrite ?lookup_insert, ?lookup_insert_ne by done; done.
  - destruct lc as [[n0 d0]|]; [by eapply rec_raised|by eapply uneval_raised].
  - destruct ld as [[n0 d0]|]; [by eapply rec_raised|by eapply uneval_raised].
Qed.

Inductive act := ANum (v : val) | ADen (v : val) | AGet.
Fixpoint sw_acts (as_ : list act) (acc : list val) : comp :=
  match as_ with
  | [] => Ret (foldr VPair VUnit acc)
  | ANum v :: r => SetC T0 (ALoc lnum) v (sw_acts r acc)
  | ADen v :: r => SetC T0 (ALoc lden) v (sw_acts r acc)
  | AGet :: r => Force T1 (ALoc lchk) None (λ v, sw_acts r (acc ++ [v]))
  end.
Definition sw_setup (n d : val) (k : comp) : comp :=
  Cell T0 (nm "num") n (λ num, Cell T0 (nm "den") d (λ den,
  Thunk T0 (NCNominal (nm "div")) "div" VUnit (VPair (VLoc num) (VLoc den)) (λ div,
  Thunk T1 (NCNominal (nm "check")) "check" VUnit (VPair (VLoc den) (VLoc div)) (λ _, k)))).
Definition sw_session (n d : val) (as_ : list act) : comp := sw_setup n d (sw_acts as_ []).
(** What the demands of a session should return. *)
Fixpoint sw_out (n d : val) (as_ : list act) : list val :=
  match as_ with
  | [] => [] | ANum v :: r => sw_out v d r | ADen v :: r => sw_out n v r
  | AGet :: r => sw_val n d :: sw_out n d r
  end.
(** How often the division should be computed: at each demand with a non-zero denominator, unless it was last computed for
    the same inputs ([ld]), whatever happened in between. *)
Fixpoint div_runs (ld : option (val * val)) (n d : val) (as_ : list act) : nat :=
  match as_ with
  | [] => 0 | ANum v :: r => div_runs ld v d r | ADen v :: r => div_runs ld n v r
  | AGet :: r => if isz d then div_runs ld n d r
                 else (if decide (ld = Some (n, d)) then 0 else 1) + div_runs (Some (n, d)) n d r
  end.
(** How often [check] should be computed: at each demand, unless neither the denominator nor (if it is not zero) the
    quotient has changed since the previous demand. *)
Fixpoint chk_runs (lc : option (val * val)) (n d : val) (as_ : list act) : nat :=
  match as_ with
  | [] => 0 | ANum v :: r => chk_runs lc v d r | ADen v :: r => chk_runs lc n v r
  | AGet :: r => (match lc with
                  | Some (n0, d0) => if decide (d0 = d ∧ (isz d = true ∨ dv n0 d = dv n d)) then 0 else 1
                  | None => 1 end) + chk_runs (Some (n, d)) n d r
  end.
Lemma sw_from lc ld n d s as_ acc : sw_state lc ld n d s → ∃ s',
  returns (sw_acts as_ acc) s (foldr VPair VUnit (acc ++ sw_out n d as_)) s' ∧
  count ldiv (runs s') = (div_runs ld n d as_ + count ldiv (runs s))%nat ∧
  count lchk (runs s') = (chk_runs lc n d as_ + count lchk (runs s))%nat.
Proof.
  revert lc ld n d s acc. induction as_ as [|[v|v|] r IH]; intros lc ld n d s acc Hsw.
  - exists s. split; [exists 0%nat; intros k _; cbn; by rewrite app_nil_r|]. done.
  - destruct (sw_set _ _ _ _ _ lnum v Hsw ltac:(by left)) as (s1 & E & Hr & Hsw1). rewrite !decide_True in Hsw1 by done.
    destruct (IH _ _ _ _ _ acc Hsw1) as (s' & (K & HK) & H1 & H2). rewrite Hr in H1, H2. exists s'. split; [|done].
    exists K. intros k Hk. unfold exec. cbn [sw_acts run]. rewrite (bind_val _ _ s tt s1) by exact E. by apply HK.
  - destruct (sw_set _ _ _ _ _ lden v Hsw ltac:(by right)) as (s1 & E & Hr & Hsw1). rewrite !decide_False in Hsw1 by done.
    destruct (IH _ _ _ _ _ acc Hsw1) as (s' & (K & HK) & H1 & H2). rewrite Hr in H1, H2. exists s'. split; [|done].
    exists K. intros k Hk. unfold exec. cbn [sw_acts run]. rewrite (bind_val _ _ s tt s1) by exact E. by apply HK.
  - destruct (C62_switching _ _ _ _ _ Hsw) as (s1 & rs & (K1 & HK1) & Hrs & Hnd & _ & Hdiv & Hchk & Hsw1).
    destruct (IH _ _ _ _ _ (acc ++ [sw_val n d]) Hsw1) as (s' & (K & HK) & H1 & H2). exists s'. split; [|split].
    + exists (K1 + K)%nat. intros k Hk. unfold exec. cbn [sw_acts run force_art sw_out].
      rewrite (bind_val _ _ s (sw_val n d) s1) by (apply HK1; lia). rewrite <- (assoc_L (++)) in HK. apply HK. lia.
    + rewrite H1, Hrs, count_app. rewrite (count_once ldiv rs _ Hnd Hdiv). cbn [div_runs]. destruct (isz d).
      * rewrite decide_False by (by intros []). lia.
      * destruct (decide (ld = Some (n, d))) as [Hl|Hl]; [rewrite decide_False by tauto|rewrite decide_True by done]; lia.
    + rewrite H2, Hrs, count_app. cbn [chk_runs].
      assert (count lchk rs = match lc with
                  | Some (n0, d0) => if decide (d0 = d ∧ (isz d = true ∨ dv n0 d = dv n d)) then 0%nat else 1%nat
                  | None => 1%nat end) as ->; [|lia].
      destruct lc as [[n0 d0]|].
      * assert (lchk ∈ rs ↔ ¬ (d0 = d ∧ (isz d = true ∨ dv n0 d = dv n d))) as Hc.
        { rewrite Hchk. split; [intros Hno [-> ?]; apply Hno; eauto|]. intros Hno (n1 & [= -> ->] & ?). tauto. }
        rewrite (count_once lchk rs _ Hnd Hc). destruct (decide (d0 = d ∧ _)) as [Hy|Hy]; [rewrite decide_False by tauto|rewrite decide_True by done]; done.
      * assert (lchk ∈ rs ↔ True) as Hc by (rewrite Hchk; split; [done|intros _ (? & ? & _); done]). by rewrite (count_once lchk rs _ Hnd Hc).
Qed.

Definition sw_s (n d : val) : dcg :=
  let s1 := (cell_op T0 (nm "num") n (dcg_new_flags false opt)).2 in
  let s2 := (cell_op T0 (nm "den") d s1).2 in
  let s3 := (thunk_op T0 (NCNominal (nm "div")) "div" VUnit (VPair (VLoc lnum) (VLoc lden)) s2).2 in
  (thunk_op T1 (NCNominal (nm "check")) "check" VUnit (VPair (VLoc lden) (VLoc ldiv)) s3).2.
Lemma sw_setup_run f n d k : run f (sw_setup n d k) (dcg_new_flags false opt) = run f k (sw_s n d).
Proof.
  assert (Hp : ∀ A (m : M A) s a, (m s).1 = OVal a → m s = (OVal a, (m s).2)) by (intros A m s a <-; apply surjective_pairing).
  unfold sw_setup, sw_s.
  set (s0 := dcg_new_flags false opt).
  assert (E1 : cell_op T0 (nm "num") n s0 = (OVal lnum, (cell_op T0 (nm "num") n s0).2)) by (apply Hp; subst s0; destruct opt; vm_compute; reflexivity).
  set (s1 := (cell_op T0 (nm "num") n s0).2) in *.
  assert (E2 : cell_op T0 (nm "den") d s1 = (OVal lden, (cell_op T0 (nm "den") d s1).2)) by (apply Hp; clear E1; subst s1 s0; destruct opt; vm_compute; reflexivity).
  set (s2 := (cell_op T0 (nm "den") d s1).2) in *.
  set (m3 := thunk_op T0 (NCNominal (nm "div")) "div" VUnit (VPair (VLoc lnum) (VLoc lden))).
  assert (E3 : m3 s2 = (OVal ldiv, (m3 s2).2)) by (apply Hp; clear E1 E2; subst m3 s2 s1 s0; destruct opt; vm_compute; reflexivity).
  set (s3 := (m3 s2).2) in *.
  set (m4 := thunk_op T1 (NCNominal (nm "check")) "check" VUnit (VPair (VLoc lden) (VLoc ldiv))).
  assert (E4 : m4 s3 = (OVal lchk, (m4 s3).2)) by (apply Hp; clear E1 E2 E3; subst m3 m4 s3 s2 s1 s0; destruct opt; vm_compute; reflexivity).
  clearbody s0. cbn [run].
  etransitivity; [eapply bind_val, E1|]. cbv beta. cbn [run].
  etransitivity; [eapply bind_val, E2|]. cbv beta. cbn [run].
  etransitivity; [eapply bind_val, E3|]. cbv beta. cbn [run].
  etransitivity; [eapply bind_val, E4|]. exact eq_refl.
Qed.
Lemma sw_first n d : sw_state None None n d (sw_s n d) ∧ runs (sw_s n d) = [].
Proof.
  assert (reached opt false (sw_s n d)) as Hr.
  { exists (sw_setup n d (Ret VUnit)), 4%nat, VUnit. split.
    - apply (disciplined_intro 4). destruct opt; vm_compute; reflexivity.
    - unfold exec. rewrite sw_setup_run. exact eq_refl. }
  split.
  - split; [exact Hr| | |].
    + clear Hr. destruct opt; split; vm_compute; reflexivity.
    + intros (w & c & Hc & Hw). revert Hc Hw. clear Hr. destruct opt; vm_compute; intros [= <-]; discriminate.
    + intros (w & c & Hc & Hw). revert Hc Hw. clear Hr. destruct opt; vm_compute; intros [= <-]; discriminate.
  - clear Hr. destruct opt; vm_compute; reflexivity.
Qed.

(** For every division, test, initial inputs and sequence of changes and demands. *)
Theorem C62_switching_sessions n d as_ : ∃ s',
  returns (sw_session n d as_) (dcg_new_flags false opt) (foldr VPair VUnit (sw_out n d as_)) s' ∧
  count ldiv (runs s') = div_runs None n d as_ ∧ count lchk (runs s') = chk_runs None n d as_.
Proof.
  destruct (sw_first n d) as [Hsw Hr]. destruct (sw_from _ _ _ _ _ as_ [] Hsw) as (s' & (K & HK) & H2 & H3).
  exists s'. split.
  - exists K. intros k Hk. unfold exec, sw_session. rewrite sw_setup_run. by apply HK.
  - rewrite H2, H3, Hr. change (count ldiv []) with 0%nat. change (count lchk []) with 0%nat. lia.
Qed.
End Switch.

(** The documentation's own numbers (lib.rs:364-380): [21], nothing, [21]; the division is computed once, the check three
    times; then with the numerator changed to 84 and back before a demand, nothing is computed at all. *)
Definition doc_dv (a b : val) : val := match a, b with VInt x, VInt y => VInt (x / y) | _, _ => VUnit end.
Definition doc_isz (a : val) : bool := bool_decide (a = VInt 0).
Lemma ex_doc_switching : ∃ s',
  returns (H := sw_prog doc_dv doc_isz VUnit (λ v, VPair (VInt 1) v))
    (sw_session (VInt 42) (VInt 2) [AGet; ADen (VInt 0); AGet; ADen (VInt 2); AGet; ANum (VInt 84); ANum (VInt 42); AGet]) dcg_new
    (VPair (VPair (VInt 1) (VInt 21)) (VPair VUnit (VPair (VPair (VInt 1) (VInt 21)) (VPair (VPair (VInt 1) (VInt 21)) VUnit)))) s' ∧
  count (at_ "div") (runs s') = 1%nat ∧ count (at_ "check") (runs s') = 3%nat.
Proof.
  exact (C62_switching_sessions doc_dv doc_isz VUnit (λ v, VPair (VInt 1) v) true (VInt 42) (VInt 2)
    [AGet; ADen (VInt 0); AGet; ADen (VInt 2); AGet; ANum (VInt 84); ANum (VInt 42); AGet]).
Qed.

(** The hypotheses of [C62_runs_exactly] are met by the state of the early cut-off example of Cutoff.v, where one of the two
    thunks of the from-scratch evaluation runs. *)
Local Existing Instance demo.
Lemma ex_runs_exactly : ∃ lg rs,
  demand_from_scratch (H := demo) false T0 (at_ "t") (holds (ex_c1 10)) (VInt 1) (holds (ex_c2 10)) lg ∧ runs (ex_c2 10) = rs ++ runs (ex_c1 10) ∧ NoDup rs ∧
  ∀ x, x ∈ rs ↔ x ∈ lg ∧ must_run (ex_c1 10) (ex_c2 10) x.
Proof. destruct ex_c1_demand as [Hd Hf]. exact (C62_runs_exactly true false (ex_c1 10) T0 (at_ "t") (VInt 1) (ex_c2 10) 40 ex_c1_reached Hd Hf). Qed.
