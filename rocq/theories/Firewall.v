(** * The nominal firewall of the documentation (lib.rs:867-1010), for every input and every history of changes.

    Thunk [f] allocates and forces [g], which reads the input cell [a] and writes the cell [b]; then it allocates and
    forces [h], which reads [b].  [g] computes an arbitrary function [sq] of its input (the documentation squares it),
    [h] an arbitrary function [fmt] (the documentation formats it).  The thunks capture [a] and [b]: captured variables
    are the [spur] argument of the model. *)
From Verif Require Export Dirtying Cutoff.
Local Open Scope string_scope.
Local Open Scope list_scope.

Definition TS : ty := 3%N.  (* String *)
Definition TA : ty := 4%N.  (* Art<i32> *)

Section Firewall.
Context (sq fmt : val → val).

(** lib.rs:885-894, expanded as in lib.rs:1000-1015 *)
Definition fw_code (pp : progpt) (arg spur : val) : comp :=
  match pp with
  | "f" => Thunk TA (NCNominal (nm "g")) "g" VUnit spur (λ g,
           Force TA (ALoc g) None (λ b,
           Thunk TS (NCNominal (nm "h")) "h" VUnit b (λ h,
           Force TS (ALoc h) None Ret)))
  | "g" => Force T0 (as_art spur) None (λ x, Cell T0 (nm "b") (sq x) (λ b, Ret (VLoc b)))
  | "h" => Force T0 (as_art spur) None (λ x, Ret (fmt x))
  | _ => Fail
  end.
Definition fw_prog : Prog := {| code := fw_code; hash_val _ := 0%N; hash_app _ _ := 0%N |}.
Local Existing Instance fw_prog.

Notation "'la'" := (at_ "a"). Notation "'lb'" := (at_ "b").
Notation "'lf'" := (at_ "f"). Notation "'lg'" := (at_ "g"). Notation "'lh'" := (at_ "h").
(** One run of the documentation's example: [demand_graph(let_cell!{a = z; a})]. *)
Definition fw_run (z : val) (k : val → comp) : comp :=
  Cell T0 (nm "a") z (λ a, Thunk TS (NCNominal (nm "f")) "f" VUnit (VLoc a) (λ f, Force TS (ALoc f) None k)).
Fixpoint fw_session (zs : list val) (acc : list val) : comp :=
  match zs with [] => Ret (foldr VPair VUnit acc) | z :: zs => fw_run z (λ v, fw_session zs (acc ++ [v])) end.

Definition ctf : content := CThunk TS "f" VUnit (VLoc la).
Definition ctg : content := CThunk TA "g" VUnit (VLoc la).
Definition cth : content := CThunk TS "h" VUnit (VLoc lb).
(** The store before a run ... *)
Record before (z : val) (σ : store) : Prop := {
  bf_a : σ !! la = Some (CCell T0 z);
  bf_f : σ !! lf = Some ctf;
  bf_g : σ !! lg = None ∨ σ !! lg = Some ctg;
  bf_h : σ !! lh = None ∨ σ !! lh = Some cth;
  bf_b : σ !! lb = None ∨ ∃ w, σ !! lb = Some (CCell T0 w);
}.
Definition after (z : val) (σ : store) : store := <[lh := cth]> (<[lb := CCell T0 (sq z)]> (<[lg := ctg]> σ)).

Context (opt : bool).
Lemma s6_nom stk l : (∀ x, head stk = Some x → is_struct x = false) → s6_ok opt stk l = true.
Proof. destruct stk as [|x stk]; [done|]. simpl. intros Hx. rewrite (Hx x eq_refl). by rewrite andb_false_r. Qed.
Lemma alloc_ok stk l ct p : (∀ x, head stk = Some x → is_struct x = false) → rebind_ok l (d_store p !! l) ct (d_seen p) = true →
  is_struct l = false → head stk ≠ Some l → d_alloc opt stk l ct p = Some (l, d_write stk l ct p).
Proof.
  intros H1 H2 H3 H4. unfold d_alloc. rewrite (s6_nom _ _ H1), H2, H3. rewrite bool_decide_eq_false_2 by done. done.
Qed.
Lemma rebind_same l old ct seen : old = None ∨ old = Some ct → rebind_ok l old ct seen = true.
Proof. intros [->| ->]; [done|]. unfold rebind_ok. by rewrite bool_decide_true. Qed.

Lemma fw_demand z σ : before z σ →
  d_force opt false 2 [] false TS lf (d_init σ) = Some (fmt (sq z), d_init (after z σ)).
Proof.
  intros [Ha Hf Hg Hh Hb]. cbn [d_force]. cbn [d_store d_init]. rewrite Hf. unfold ctf at 1.
  rewrite decide_True by (split_and!; try done; set_solver).
  cbn [code fw_prog fw_code]. cbn [Discipline.d_run d_art d_thunk]. unfold dbind at 1. cbn [l_path at_].
  change (Loc [] (IdNom (nm "g"))) with lg. change (CThunk TA "g" VUnit (VLoc la)) with ctg.
  rewrite alloc_ok; [|by intros x [= <-]|by apply rebind_same|done|done].
  unfold dbind at 1. unfold d_art. cbn [d_force]. cbn [d_store d_write].
  rewrite lookup_insert. unfold ctg at 1.
  rewrite decide_True by (split_and!; [done|set_solver|done|by apply s6_nom; intros x [= <-]]).
  cbn [code fw_prog fw_code]. cbn [Discipline.d_run d_art as_art]. unfold dbind at 1. cbn [l_path at_ d_store].
  rewrite lookup_insert_ne by done. rewrite Ha. rewrite decide_True by done.
  unfold d_get at 1. rewrite s6_nom by (by intros x [= <-]). rewrite bool_decide_true by set_solver. cbn [andb].
  cbn [Discipline.d_run d_cell]. unfold dbind at 1. unfold d_cell.
  change (Loc [] (IdNom (nm "b"))) with lb.
  rewrite alloc_ok; [|by intros x [= <-]| |done|done].
  2:{ cbn [d_store d_observe d_seen d_write]. rewrite lookup_insert_ne by done. destruct Hb as [->|[w ->]]; [done|].
      unfold rebind_ok. apply orb_true_iff. right. rewrite !bool_decide_true; [done|done|]. cbn. set_solver. }
  unfold dbind at 1. change (Loc [] (IdNom (nm "h"))) with lh. change (CThunk TS "h" VUnit (VLoc lb)) with cth.
  rewrite alloc_ok; [|by intros x [= <-]| |done|done].
  2:{ apply rebind_same. cbn [d_store d_observe d_seen d_write d_leave]. rewrite !lookup_insert_ne by done. done. }
  unfold dbind at 1. cbn [d_store d_write]. rewrite lookup_insert. unfold cth at 1.
  rewrite decide_True by (split_and!; [done|set_solver|done|by apply s6_nom; intros x [= <-]]).
  cbn [code fw_prog fw_code Discipline.d_run d_art as_art]. unfold dbind at 1. cbn [l_path at_ d_store d_leave d_write].
  rewrite lookup_insert_ne by done. rewrite lookup_insert. rewrite decide_True by done.
  unfold d_get at 1. rewrite s6_nom by (by intros x [= <-]). rewrite bool_decide_true by set_solver. done.
Qed.

(** ** What the recorded graph looks like *)
Lemma tr_force_nom tb pth m acc t x cyc k E v :
  is_struct x = false → (∀ t w, tb !! x ≠ Some (NPure t w)) → (∀ d, (x, Observe, d) ∉ acc) →
  tr opt tb pth m acc (Force t (ALoc x) cyc k) E v →
  ∃ w E', E = (x, Observe, DForce t w) :: E' ∧ tr opt tb pth m (acc ++ [(x, Observe, DForce t w)]) (k w) E' v.
Proof. intros H1 H2 H3 Ht. inversion Ht; subst; try congruence; [|eauto]. exfalso. by eapply H3. Qed.
Lemma tr_thunk_nom tb pth acc t n pp arg spur k E v :
  tr opt tb pth false acc (Thunk t (NCNominal n) pp arg spur k) E v →
  ∃ E', E = (Loc pth (IdNom n), Allocate, DAllocThunk arg) :: E' ∧
    tr opt tb pth false (acc ++ [(Loc pth (IdNom n), Allocate, DAllocThunk arg)]) (k (Loc pth (IdNom n))) E' v.
Proof. intros Ht. inversion Ht; subst; [eauto|naive_solver..]. Qed.
Lemma tr_cell_nom tb pth acc t n w k E v : (∀ t w, tb !! Loc pth (IdNom n) ≠ Some (NPure t w)) →
  tr opt tb pth false acc (Cell t n w k) E v →
  ∃ E', E = (Loc pth (IdNom n), Allocate, DAllocCell w) :: E' ∧
    tr opt tb pth false (acc ++ [(Loc pth (IdNom n), Allocate, DAllocCell w)]) (k (Loc pth (IdNom n))) E' v.
Proof. intros Hn Ht. inversion Ht; subst; [eauto|by edestruct Hn]. Qed.
Lemma tr_ret_inv tb pth m acc v E w : tr opt tb pth m acc (Ret v) E w → E = [] ∧ w = v.
Proof. intros Ht. by inversion Ht. Qed.
Lemma no_pure s l : reached opt false s → is_struct l = false → ∀ t w, table s !! l ≠ Some (NPure t w).
Proof. intros Hs Hl t w E. assert (Hi := reached_inv _ _ _ Hs). destruct (i_kind _ _ _ _ Hi _ _ E). congruence. Qed.
Lemma comp_of s l t pp arg spur : holds s !! l = Some (CThunk t pp arg spur) →
  ∃ c, table s !! l = Some (NComp c) ∧ c_ty c = t ∧ c_pp c = pp ∧ c_arg c = arg ∧ c_spur c = spur.
Proof.
  unfold holds. rewrite contents_lookup. destruct (table s !! l) as [[| |c]|]; simpl; try done. intros [= <- <- <- <-]. by exists c.
Qed.

(** The five locations, once a run is over. *)
Record over (z : val) (σ : store) : Prop := {
  ov_a : σ !! la = Some (CCell T0 z);
  ov_f : σ !! lf = Some ctf;
  ov_g : σ !! lg = Some ctg;
  ov_h : σ !! lh = Some cth;
  ov_b : σ !! lb = Some (CCell T0 (sq z));
}.
Lemma after_over z σ : before z σ → over z (after z σ).
Proof. intros [Ha Hf _ _ _]. unfold after. split; by rewrite ?lookup_insert, 1?lookup_insert_ne, ?lookup_insert, 1?lookup_insert_ne, ?lookup_insert, 1?lookup_insert_ne by done. Qed.

(** What each thunk has recorded: [f] allocated and forced [g] and [h]; [g] read [z] from [a] and wrote [b]; [h] read [b]. *)
Definition edges_of (s : dcg) (x : loc) (E : list eshape) (w : val) : Prop := ∃ c,
  table s !! x = Some (NComp c) ∧ shape <$> c_succs c = E ∧ c_res c = Some w.
Definition Ef (w : val) : list eshape :=
  [(lg, Allocate, DAllocThunk VUnit); (lg, Observe, DForce TA (VLoc lb)); (lh, Allocate, DAllocThunk VUnit); (lh, Observe, DForce TS w)].
Definition Eg (z : val) : list eshape := [(la, Observe, DForce T0 z); (lb, Allocate, DAllocCell (sq z))].
Definition Eh (y : val) : list eshape := [(lb, Observe, DForce T0 y)].
Record drawn (s : dcg) (z : val) : Prop := {
  dr_f : edges_of s lf (Ef (fmt (sq z))) (fmt (sq z));
  dr_g : edges_of s lg (Eg z) (VLoc lb);
  dr_h : edges_of s lh (Eh (sq z)) (fmt (sq z));
}.
Definition undirty (s : dcg) (x : loc) : Prop := ∀ eff y, nbit s x eff y ≠ Some true.
(** The state after a run with input [z]. *)
Record ran (z : val) (s : dcg) : Prop := {
  rn_reached : reached opt false s;
  rn_over : over z (holds s);
  rn_drawn : drawn s z;
  rn_clean : undirty s lf ∧ undirty s lg ∧ undirty s lh;
}.

Lemma all_clean_undirty s x c : table s !! x = Some (NComp c) → all_clean (c_succs c) → undirty s x.
Proof.
  intros Hx Hc eff y Hb. unfold nbit in Hb. rewrite Hx in Hb. destruct (bit_Some _ _ _ _ Hb) as (e & He & <- & <-).
  rewrite (Hc _ He) in Hb. done.
Qed.
Lemma clean_valid s x c h : reached opt false s → table s !! x = Some (NComp c) → all_clean (c_succs c) →
  h ∈ shape <$> c_succs c → valid (table s) [] h.
Proof.
  intros Hs Hx Hc Hin. apply elem_of_list_fmap in Hin as (e & -> & He). assert (Hi := reached_inv _ _ _ Hs).
  eapply i_valid; [exact Hi|exact Hx|exact He|]. by apply Hc.
Qed.
Lemma comp_valid s x y t w c : reached opt false s → table s !! x = Some (NComp c) → all_clean (c_succs c) →
  (y, Observe, DForce t w) ∈ shape <$> c_succs c → ∀ cy, table s !! y = Some (NComp cy) → c_res cy = Some w ∧ all_clean (c_succs cy).
Proof.
  intros Hs Hx Hc Hin cy Hy. assert (Hv := clean_valid _ _ _ _ Hs Hx Hc Hin). unfold valid in Hv.
  change (sh_loc (y, Observe, DForce t w)) with y in Hv. cbn [sh_dep snd] in Hv. rewrite Hy in Hv. by destruct Hv as (? & ? & _).
Qed.
Lemma draw s z : reached opt false s → over z (holds s) → up_to_date s TS lf (fmt (sq z)) → ran z s.
Proof.
  intros Hs Ho Hu. assert (Hi := reached_inv _ _ _ Hs). cut (drawn s z ∧ undirty s lf ∧ undirty s lg ∧ undirty s lh).
  { intros [? ?]. by split. }
  destruct (comp_of _ _ _ _ _ _ (ov_f _ _ Ho)) as (cf & Hf & _ & Ppf & Paf & Psf);
    destruct (comp_of _ _ _ _ _ _ (ov_g _ _ Ho)) as (cg & Hg & _ & Ppg & Pag & Psg);
    destruct (comp_of _ _ _ _ _ _ (ov_h _ _ Ho)) as (ch & Hh & _ & Pph & Pah & Psh).
  unfold up_to_date in Hu; rewrite Hf in Hu; destruct Hu as (_ & Rf & Cf).
  assert (Tf := i_tr _ _ _ _ Hi _ _ _ Hf ltac:(set_solver) Rf); rewrite Ppf, Paf, Psf in Tf; cbn [code fw_prog fw_code l_path at_] in Tf.
  apply tr_thunk_nom in Tf as (E1 & Sf & Tf); cbn [app] in Tf.
  apply tr_force_nom in Tf as (wg & E2 & -> & Tf); [|done|by apply no_pure|set_solver].
  apply tr_thunk_nom in Tf as (E3 & -> & Tf).
  apply tr_force_nom in Tf as (wh & E4 & -> & Tf); [|done|by apply no_pure|set_solver].
  apply tr_ret_inv in Tf as [-> Efw].
  destruct (comp_valid s lf lg TA wg cf Hs Hf Cf ltac:(rewrite Sf; set_solver) cg Hg) as [Rg Cg].
  destruct (comp_valid s lf lh TS wh cf Hs Hf Cf ltac:(rewrite Sf; set_solver) ch Hh) as [Rh Ch].
  split; [|split_and!; by eapply all_clean_undirty].
  assert (Tg := i_tr _ _ _ _ Hi _ _ _ Hg ltac:(set_solver) Rg); rewrite Ppg, Pag, Psg in Tg; cbn [code fw_prog fw_code l_path at_ as_art] in Tg.
  apply tr_force_nom in Tg as (wz & E5 & Sg & Tg); [|done|by apply no_pure|set_solver].
  apply tr_cell_nom in Tg as (E6 & -> & Tg); [|by apply no_pure]. apply tr_ret_inv in Tg as [-> Egw].
  assert (Th := i_tr _ _ _ _ Hi _ _ _ Hh ltac:(set_solver) Rh); rewrite Pph, Pah, Psh in Th; cbn [code fw_prog fw_code l_path at_ as_art] in Th.
  apply tr_force_nom in Th as (wy & E7 & Sh & Th); [|done|by apply no_pure|set_solver]. apply tr_ret_inv in Th as [-> Ehw].
  assert (wz = z) as ->.
  { assert (Hv := clean_valid s lg cg _ Hs Hg Cg ltac:(rewrite Sg; by left)). unfold valid in Hv. cbn [sh_dep sh_loc snd fst] in Hv.
    assert (Ha := ov_a _ _ Ho). unfold holds in Ha. rewrite contents_lookup in Ha.
    destruct (table s !! la) as [[]|]; simpl in *; try done. congruence. }
  assert (wy = sq z) as ->.
  { assert (Hv := clean_valid s lh ch _ Hs Hh Ch ltac:(rewrite Sh; by left)). unfold valid in Hv. cbn [sh_dep sh_loc snd fst] in Hv.
    assert (Hb := ov_b _ _ Ho). unfold holds in Hb. rewrite contents_lookup in Hb.
    destruct (table s !! lb) as [[]|]; simpl in *; try done. congruence. }
  subst wg wh. split.
  - exists cf. split; [done|]. split; [|done]. rewrite Sf. done.
  - exists cg. split; [done|]. by split.
  - exists ch. split; [done|]. by split.
Qed.

(** ** One run of the example after any history *)
Lemma ref_force_thunk n stk md t l cyc st pp arg spur : r_store st !! l = Some (CThunk t pp arg spur) → l ∉ stk →
  ref_force (S n) stk md t l cyc st = ref_run (ref_force n (l :: stk)) (l :: stk) (l_path l) md (code pp arg spur) (RState (r_store st) (l :: r_log st)).
Proof. intros H1 H2. cbn [ref_force]. rewrite H1. cbn [content_ty]. rewrite decide_True by done. by rewrite decide_False. Qed.
Lemma ref_force_cell n stk md t l cyc st v : r_store st !! l = Some (CCell t v) → ref_force n stk md t l cyc st = ROk v st.
Proof. intros H1. destruct n; cbn [ref_force]; rewrite H1; cbn [content_ty]; by rewrite decide_True. Qed.
Lemma ref_thunk_nom pth t n pp arg spur st : 
  r_store st !! Loc pth (IdNom n) = None ∨ r_store st !! Loc pth (IdNom n) = Some (CThunk t pp arg spur) →
  ref_thunk pth false t (NCNominal n) pp arg spur st =
    ROk (Loc pth (IdNom n)) (RState (<[Loc pth (IdNom n) := CThunk t pp arg spur]> (r_store st)) (r_log st)).
Proof. unfold ref_thunk. cbv zeta iota. intros [->| ->]; [done|]. cbn [content_ty]. by rewrite !decide_True. Qed.
Lemma ref_cell_nom pth t n v st : 
  r_store st !! Loc pth (IdNom n) = None ∨ (∃ w, r_store st !! Loc pth (IdNom n) = Some (CCell t w)) →
  ref_cell pth false t n v st = ROk (Loc pth (IdNom n)) (RState (<[Loc pth (IdNom n) := CCell t v]> (r_store st)) (r_log st)).
Proof. unfold ref_cell. cbv zeta iota. intros [->|[w ->]]; [done|]. cbn [content_ty]. by rewrite !decide_True. Qed.

Lemma fw_ref z σ : before z σ → ref_force 2 [] false TS lf None (RState σ []) = ROk (fmt (sq z)) (RState (after z σ) [lh; lg; lf]).
Proof.
  intros [Ha Hf Hg Hh Hb]. rewrite (ref_force_thunk 1 [] false TS lf None (RState σ []) "f" VUnit (VLoc la)); [|done|set_solver].
  cbn [code fw_prog fw_code l_path at_ r_log r_store]. cbn [ref_run]. unfold rbind at 1.
  rewrite ref_thunk_nom by done. change (Loc [] (IdNom (nm "g"))) with lg. change (CThunk TA "g" VUnit (VLoc la)) with ctg.
  cbn [r_store r_log ref_art]. unfold rbind at 1.
  rewrite (ref_force_thunk 0 [lf] false TA lg None _ "g" VUnit (VLoc la)); [|cbn [r_store]; by rewrite lookup_insert|set_solver].
  cbn [code fw_prog fw_code l_path at_ r_log r_store as_art]. cbn [ref_run ref_art]. unfold rbind at 1.
  rewrite (ref_force_cell 0 _ _ _ _ _ _ z); [|cbn [r_store]; by rewrite lookup_insert_ne].
  unfold rbind at 1. rewrite ref_cell_nom.
  2:{ cbn [r_store]. change (Loc [] (IdNom (nm "b"))) with lb. by rewrite lookup_insert_ne. }
  change (Loc [] (IdNom (nm "b"))) with lb. cbn [r_store r_log]. unfold rbind at 1. rewrite ref_thunk_nom.
  2:{ cbn [r_store]. change (Loc [] (IdNom (nm "h"))) with lh. by rewrite !lookup_insert_ne. }
  change (Loc [] (IdNom (nm "h"))) with lh. change (CThunk TS "h" VUnit (VLoc lb)) with cth. cbn [r_store r_log]. unfold rbind at 1.
  rewrite (ref_force_thunk 0 [lf] false TS lh None _ "h" VUnit (VLoc lb)); [|cbn [r_store]; by rewrite lookup_insert|set_solver].
  cbn [code fw_prog fw_code l_path at_ r_log r_store as_art]. cbn [ref_run ref_art]. unfold rbind at 1.
  rewrite (ref_force_cell 0 _ _ _ _ _ _ (sq z)); [|cbn [r_store]; rewrite lookup_insert_ne by done; by rewrite lookup_insert].
  done.
Qed.

(** The input is a cell or not yet there; likewise the other four locations. *)
Record ready (σ : store) : Prop := {
  rd_a : σ !! la = None ∨ ∃ w, σ !! la = Some (CCell T0 w);
  rd_f : σ !! lf = None ∨ σ !! lf = Some ctf;
  rd_g : σ !! lg = None ∨ σ !! lg = Some ctg;
  rd_h : σ !! lh = None ∨ σ !! lh = Some cth;
  rd_b : σ !! lb = None ∨ ∃ w, σ !! lb = Some (CCell T0 w);
}.
Lemma over_ready z σ : over z σ → ready σ.
Proof. intros []. split; eauto. Qed.
Lemma ready_before z σ : ready σ → before z (<[lf := ctf]> (<[la := CCell T0 z]> σ)).
Proof.
  intros [Ha Hf Hg Hh Hb].
  split; by rewrite ?lookup_insert, 1?lookup_insert_ne, ?lookup_insert, 1?lookup_insert_ne by done.
Qed.

Lemma fw_input z s : reached opt false s → ready (holds s) →
  ∃ s1, cell_op T0 (nm "a") z s = (OVal la, s1) ∧ reached opt false s1 ∧ holds s1 = <[la := CCell T0 z]> (holds s).
Proof.
  intros Hs Hr.
  destruct (reached_step opt false s 1 (Cell T0 (nm "a") z (λ l, Ret (VLoc l))) (VLoc la) (d_write [] la (CCell T0 z) (d_init (holds s))) Hs) as (s1 & (K & Hk) & Hs1 & Hh1).
  - unfold d_exec. cbn [d_run]. unfold dbind, d_cell. change (Loc [] (IdNom (nm "a"))) with la.
    rewrite alloc_ok; [done|done| |done|done]. cbn [d_store d_init d_seen]. destruct (rd_a _ Hr) as [->|[w ->]]; [done|].
    unfold rebind_ok. apply orb_true_iff. right. rewrite !bool_decide_true; [done|set_solver|done].
  - exists s1. specialize (Hk K ltac:(lia)). unfold exec in Hk. cbn [run] in Hk. unfold bind in Hk.
    destruct (cell_op T0 (nm "a") z s) as [[l|r|] s2]; [|done|done]. injection Hk as -> ->. done.
Qed.
Lemma fw_thunk s : reached opt false s → ready (holds s) →
  ∃ s1, thunk_op TS (NCNominal (nm "f")) "f" VUnit (VLoc la) s = (OVal lf, s1) ∧ reached opt false s1 ∧ holds s1 = <[lf := ctf]> (holds s).
Proof.
  intros Hs Hr.
  destruct (reached_step opt false s 1 (Thunk TS (NCNominal (nm "f")) "f" VUnit (VLoc la) (λ l, Ret (VLoc l))) (VLoc lf) (d_write [] lf ctf (d_init (holds s))) Hs) as (s1 & (K & Hk) & Hs1 & Hh1).
  - unfold d_exec. cbn [d_run]. unfold dbind, d_thunk. change (Loc [] (IdNom (nm "f"))) with lf. change (CThunk TS "f" VUnit (VLoc la)) with ctf.
    rewrite alloc_ok; [done|done| |done|done]. cbn [d_store d_init d_seen]. apply rebind_same, Hr.
  - exists s1. specialize (Hk K ltac:(lia)). unfold exec in Hk. cbn [run] in Hk. unfold bind in Hk.
    destruct (thunk_op _ _ _ _ _ s) as [[l|r|] s2]; [|done|done]. injection Hk as -> ->. done.
Qed.
Lemma ready_input z σ : ready σ → ready (<[la := CCell T0 z]> σ).
Proof. intros [Ha Hf Hg Hh Hb]. split; rewrite ?lookup_insert, ?lookup_insert_ne by done; eauto. Qed.

(** A demand of [f]: its value, the state it leaves, and which thunks it may run. *)
Lemma fw_force z s : reached opt false s → before z (holds s) →
  ∃ s' rs, demand TS lf s (fmt (sq z)) s' ∧ ran z s' ∧ runs s' = rs ++ runs s ∧ NoDup rs ∧ rs ⊆ [lh; lg; lf].
Proof.
  intros Hs Hb. assert (disciplined_demand opt false TS lf (holds s)) as Hd by (eexists _, _, _; by apply fw_demand).
  destruct (demand_after_history opt false s TS lf Hs Hd) as (v & σ' & lg0 & s' & rs & (n & Hfs) & Hdem & Hh & Hrs & Hnd & Hin & Hs').
  assert (v = fmt (sq z) ∧ σ' = after z (holds s) ∧ lg0 = [lh; lg; lf]) as (-> & -> & ->).
  { destruct (demand_from_scratch_functional false TS lf (holds s) v σ' lg0 (fmt (sq z)) (after z (holds s)) [lh; lg; lf]) as (? & ? & ?);
      [by exists n|exists 2%nat; by apply fw_ref|done]. }
  exists s', rs. split; [done|]. split_and!; [|done|done|done].
  destruct Hdem as (K & HK). destruct (demand_up_to_date opt false s TS lf K (fmt (sq z)) s' Hs Hd (HK K ltac:(lia))) as [Hu _].
  apply draw; [done| |done]. rewrite Hh. by apply after_over.
Qed.

Lemma edges_raised s s' x E w : edges_of s x E w → onode_raised (table s !! x) (table s' !! x) → edges_of s' x E w.
Proof.
  intros (c & Hx & <- & Hw) Hr. rewrite Hx in Hr. destruct (table s' !! x) as [nd|] eqn:Hx'; [|done]. destruct Hr as (es & -> & Hes).
  exists (with_succs es c). split; [done|]. split; [|done]. cbn [c_succs with_succs]. clear -Hes.
  induction Hes as [|e e' es0 es1 Hee Hes IH]; [done|]. cbn [fmap list_fmap]. f_equal; [|done].
  destruct Hee as (E1 & E2 & E3 & _). unfold shape. by rewrite E1, E2, E3.
Qed.
Lemma edges_saw s x E w y t f v : edges_of s x E w → saw s x y t f v →
  (y, Observe, DForce t v) ∈ E ∧ f = (λ u, u) ∨ (y, Observe, DForceMap t f v) ∈ E.
Proof.
  intros (c & Hx & <- & _) (c' & e & Hx' & He & Heff & <- & Hd). rewrite Hx in Hx'. injection Hx' as <-.
  destruct Hd as [[Hd ->]|Hd]; [left; split; [|done]|right]; apply elem_of_list_fmap; exists e; (split; [|done]);
    unfold shape; by rewrite Heff, Hd.
Qed.
Lemma edges_saw_r s x E w y t v : edges_of s x E w → (y, Observe, DForce t v) ∈ E → saw s x y t (λ u, u) v.
Proof.
  intros (c & Hx & <- & _) (e & He & Hin)%elem_of_list_fmap. injection He as E1 E2 E3. exists c, e. split_and!; [done..|]. left. done.
Qed.
Lemma edges_made s x E w y : edges_of s x E w → made s x y → ∃ d, (y, Allocate, d) ∈ E.
Proof.
  intros (c & Hx & <- & _) (c' & e & Hx' & He & Heff & <-). rewrite Hx in Hx'. injection Hx' as <-. exists (s_dep e).
  apply elem_of_list_fmap. exists e. split; [|done]. unfold shape. by rewrite Heff.
Qed.
Lemma edges_cached s x E w : edges_of s x E w → cached s x w.
Proof. intros (c & Hx & _ & Hw). by exists c. Qed.

Lemma up_gives z s x t pp sp E w : ran z s → holds s !! x = Some (CThunk t pp VUnit sp) → edges_of s x E w → undirty s x → gives s t x w.
Proof.
  intros Hr Hh (c & Hx & Hsh & Hw) Hu. apply up_to_date_gives; [by destruct (reached_idle _ _ _ (rn_reached _ _ Hr))|].
  unfold up_to_date. rewrite Hx. split; [|split; [done|]].
  - unfold holds in Hh. rewrite contents_lookup, Hx in Hh. simpl in Hh. congruence.
  - intros e He. destruct (bit_elem e _ He) as (b & Hb). destruct b; [|done]. exfalso. apply (Hu (s_eff e) (s_loc e)). unfold nbit. by rewrite Hx.
Qed.
Lemma cell_gives s x t v : reached opt false s → holds s !! x = Some (CCell t v) → gives s t x v.
Proof.
  intros Hr Hh. apply up_to_date_gives; [by destruct (reached_idle _ _ _ Hr)|]. unfold up_to_date.
  unfold holds in Hh. rewrite contents_lookup in Hh. destruct (table s !! x) as [[]|]; simpl in *; try done; by injection Hh as -> ->.
Qed.

(** What the change of input did: no thunk lost its record, the dirty edges are exactly [g]'s of [a] and [f]'s of [g]. *)
Record changed (z z' : val) (s s' : dcg) : Prop := {
  ch_drawn : drawn s' z;
  ch_dirty : ∀ x eff y, x ∈ [lf; lg; lh] →
    nbit s' x eff y = Some true ↔ z ≠ z' ∧ (x = lg ∧ eff = Observe ∧ y = la ∨ x = lf ∧ eff = Observe ∧ y = lg);
}.
Lemma edges_hit s x E w ct eff : edges_of s x E w → ∀ l, hits s l ct x eff → ∃ d, (l, eff, d) ∈ E ∧ view_changes ct d.
Proof.
  intros (c & Hx & <- & _) l (c' & e & Hx' & He & <- & <- & Hv). rewrite Hx in Hx'. injection Hx' as <-. exists (s_dep e). split; [|done].
  apply elem_of_list_fmap. exists e. done.
Qed.
Lemma edges_observes s x E w y : edges_of s x E w → observes (table s) x y → ∃ d, (y, Observe, d) ∈ E.
Proof.
  intros (c & Hx & <- & _) (c' & e & Hx' & He & Heff & <-). rewrite Hx in Hx'. injection Hx' as <-. exists (s_dep e).
  apply elem_of_list_fmap. exists e. split; [|done]. unfold shape. by rewrite Heff.
Qed.
Lemma edges_observes_r s x E w y d : edges_of s x E w → (y, Observe, d) ∈ E → observes (table s) x y.
Proof. intros (c & Hx & <- & _) (e & He & Hin)%elem_of_list_fmap. injection He as E1 E2 E3. exists c, e. done. Qed.
Lemma edges_hits_r s x E w ct l eff d : edges_of s x E w → (l, eff, d) ∈ E → view_changes ct d → hits s l ct x eff.
Proof. intros (c & Hx & <- & _) (e & He & Hin)%elem_of_list_fmap Hv. injection He as -> -> ->. exists c, e. done. Qed.

Lemma fw_change z z' s s1 : ran z s → cell_op T0 (nm "a") z' s = (OVal la, s1) → changed z z' s s1.
Proof.
  intros Hr Hc. destruct Hr as [Hs Ho Hd (Uf & Ug & Uh)]. destruct (reached_idle _ _ _ Hs) as [Hst Hcp].
  destruct (reached_Ed _ _ _ Hs) as (_ & _ & Hsf & _). cbn [negb] in Hsf.
  assert (∃ ps, table s !! la = Some (NMut T0 ps z)) as (ps & Hla).
  { assert (Ha := ov_a _ _ Ho). unfold holds in Ha. rewrite contents_lookup in Ha. destruct (table s !! la) as [[t0 ps0 v0|t0 v0|c0]|] eqn:E; simpl in *; try done.
    - injection Ha as -> ->. eauto.
    - exfalso. by eapply (no_pure s la). }
  destruct (decide (z = z')) as [<-|Hne].
  - destruct (C06_cell_same s T0 (nm "a") ps z Hst Hsf) as (s1' & E & Ht & _); [by rewrite Hcp|].
    rewrite Hc in E. injection E as _ <-. split.
    + destruct Hd as [Df Dg Dh]. unfold edges_of in *. rewrite <- Ht in Df, Dg, Dh. by split.
    + intros x eff y Hx. unfold nbit. rewrite Ht. fold (nbit s x eff y). split; [|by intros []]. intros Hb. exfalso.
      revert Hx. rewrite !elem_of_cons, elem_of_nil. intros [->|[->|[->|[]]]]; [by eapply Uf|by eapply Ug|by eapply Uh].
  - assert (drawn s1 z) as Hd1.
    { destruct (post_elim _ _ _ _ _ (cell_op_any T0 (nm "a") z' s) Hc) as [_ _ _ Hx _ _].
      assert (cell_loc s (nm "a") z' = la) as Hcl by (unfold cell_loc; by rewrite Hsf, Hcp). rewrite Hcl in Hx.
      specialize (Hx ltac:(rewrite Hla; done)). destruct Hd as [Df Dg Dh]. split; by eapply edges_raised, Hx. }
    split; [done|].
    destruct (C60_cell_dirties_exactly opt false s T0 (nm "a") z' z la s1 Hs Hsf (ov_a _ _ Ho) Hne Hc) as (_ & Hex & _).
    intros x eff y Hx. unfold dirties_exactly in Hex. rewrite Hex. clear Hex Hc. destruct Hd as [Df Dg Dh].
    assert (Hhg : hits s la (CCell T0 z') lg Observe) by (eapply edges_hits_r; [exact Dg|by left|done]).
    split.
    + intros [Hb|[[-> Hh]|(-> & Hob & q & eff' & Hq & Hrt)]]; (split; [done|]).
      * exfalso. revert Hx. rewrite !elem_of_cons, elem_of_nil. intros [->|[->|[->|[]]]]; [by eapply Uf|by eapply Ug|by eapply Uh].
      * revert Hx. rewrite !elem_of_cons, elem_of_nil. intros [->|[->|[->|[]]]].
        -- destruct (edges_hit _ _ _ _ _ _ Df _ Hh) as (d & Hin & _). exfalso. revert Hin. unfold Ef. rewrite !elem_of_cons, elem_of_nil. naive_solver.
        -- destruct (edges_hit _ _ _ _ _ _ Dg _ Hh) as (d & Hin & _). left. revert Hin. unfold Eg. rewrite !elem_of_cons, elem_of_nil. naive_solver.
        -- destruct (edges_hit _ _ _ _ _ _ Dh _ Hh) as (d & Hin & _). exfalso. revert Hin. unfold Eh. rewrite !elem_of_cons, elem_of_nil. naive_solver.
      * assert (Haf : ∀ y, affected s la (CCell T0 z') y → y = lf ∨ y = lg ∨ y = lh → y = lf ∨ y = lg).
        { intros u (q0 & e0 & Hq0 & Hr0) [->|[->| ->]]; auto. exfalso. inversion Hr0 as [|? u1 ? Hu1 Hr1]; subst.
          - destruct (edges_hit _ _ _ _ _ _ Dh _ Hq0) as (d & Hin & _). revert Hin. unfold Eh. rewrite !elem_of_cons, elem_of_nil. naive_solver.
          - destruct (edges_observes _ _ _ _ _ Dh Hu1) as (d & Hin). revert Hin. unfold Eh. rewrite !elem_of_cons, elem_of_nil.
            intros [Heq|[]]. injection Heq as -> _. inversion Hr1 as [|? u2 ? Hu2 _]; subst.
            + destruct Hq0 as (c & e & Hlb & _). assert (Hb := ov_b _ _ Ho). unfold holds in Hb. rewrite contents_lookup, Hlb in Hb. done.
            + destruct Hu2 as (c & e & Hlb & _). assert (Hb := ov_b _ _ Ho). unfold holds in Hb. rewrite contents_lookup, Hlb in Hb. done. }
        assert (Hy : affected s la (CCell T0 z') y) by (by exists q, eff').
        assert (Hcell : ∀ u w, holds s !! u = Some (CCell T0 w) → ¬ affected s la (CCell T0 z') u).
        { intros u w Hu (q0 & e0 & Hq0 & Hr0). unfold holds in Hu. rewrite contents_lookup in Hu. inversion Hr0 as [|? u1 ? Hu1 _]; subst.
          - destruct Hq0 as (c & e & Hlb & _). by rewrite Hlb in Hu.
          - destruct Hu1 as (c & e & Hlb & _). by rewrite Hlb in Hu. }
        revert Hx. rewrite !elem_of_cons, elem_of_nil. intros [->|[->|[->|[]]]].
        -- right. destruct (edges_observes _ _ _ _ _ Df Hob) as (d & Hin). revert Hin. unfold Ef. rewrite !elem_of_cons, elem_of_nil.
           intros [Heq|[Heq|[Heq|[Heq|[]]]]]; try done; injection Heq as -> _; [done|]. destruct (Haf _ Hy); auto; done.
        -- exfalso. destruct (edges_observes _ _ _ _ _ Dg Hob) as (d & Hin). revert Hin. unfold Eg. rewrite !elem_of_cons, elem_of_nil.
           intros [Heq|[Heq|[]]]; [|done]. injection Heq as -> _. by eapply (Hcell la z); [apply Ho|].
        -- exfalso. destruct (edges_observes _ _ _ _ _ Dh Hob) as (d & Hin). revert Hin. unfold Eh. rewrite !elem_of_cons, elem_of_nil.
           intros [Heq|[]]. injection Heq as -> _. by eapply (Hcell lb); [apply Ho|].
    + intros (_ & [(-> & -> & ->)|(-> & -> & ->)]).
      * right. left. done.
      * right. right. split; [done|]. split; [eapply edges_observes_r; [exact Df|right; by left]|].
        exists lg, Observe. split; [done|apply rtc_refl].
Qed.

(** C60, the documentation's example.  After any number of runs, giving the input [z'] instead of [z] ([let_cell!])
    dirties [g]'s view of [a] and [f]'s view of [g], and nothing of [h]; the next demand returns what the new input
    demands, runs no thunk twice and no other thunk, runs [g] iff the input changed, [h] iff the square changed (the
    firewall), and [f] iff the text changed; and the state is as if that had been the first run. *)
Theorem C60_nominal_firewall z z' s : ran z s →
  ∃ s1 s2 s3 rs,
    cell_op T0 (nm "a") z' s = (OVal la, s1) ∧ changed z z' s s1 ∧
    thunk_op TS (NCNominal (nm "f")) "f" VUnit (VLoc la) s1 = (OVal lf, s2) ∧ same_but_trace s1 s2 ∧
    demand TS lf s2 (fmt (sq z')) s3 ∧ ran z' s3 ∧
    runs s3 = rs ++ runs s ∧ NoDup rs ∧ rs ⊆ [lh; lg; lf] ∧
    (lg ∈ rs ↔ z ≠ z') ∧ (lh ∈ rs ↔ sq z ≠ sq z') ∧ (lf ∈ rs ↔ fmt (sq z) ≠ fmt (sq z')).
Proof.
  intros Hr. assert (Hrd := over_ready _ _ (rn_over _ _ Hr)).
  destruct (fw_input z' s (rn_reached _ _ Hr) Hrd) as (s1 & Hc & Hs1 & Hh1).
  assert (Hch := fw_change _ _ _ _ Hr Hc).
  assert (ready (holds s1)) as Hrd1 by (rewrite Hh1; by apply ready_input).
  assert (∃ c, table s1 !! lf = Some (NComp c) ∧ c_ty c = TS ∧ c_pp c = "f" ∧ c_arg c = VUnit) as (c & Hlf & Hty & Hpp & Harg).
  { destruct (comp_of s1 lf TS "f" VUnit (VLoc la)) as (c & ? & ? & ? & ? & _); [|by exists c]. rewrite Hh1, lookup_insert_ne by done. apply Hr. }
  destruct (reached_idle _ _ _ Hs1) as [Hst1 Hcp1]. destruct (reached_Ed _ _ _ Hs1) as (_ & _ & Hsf1 & _).
  destruct (C06_thunk_same s1 TS (nm "f") "f" VUnit (VLoc la) c Hst1 Hsf1) as (s2 & Ht & Hsame); [by rewrite Hcp1|done|done|done|].
  rewrite Hcp1 in Ht. change (Loc [] (IdNom (nm "f"))) with lf in Ht.
  destruct (fw_thunk s1 Hs1 Hrd1) as (s2' & Ht' & Hs2 & Hh2). rewrite Ht in Ht'. injection Ht' as <-.
  assert (before z' (holds s2)) as Hb2 by (rewrite Hh2, Hh1; by apply ready_before).
  destruct (fw_force z' s2 Hs2 Hb2) as (s3 & rs & Hdem & Hr3 & Hrs & Hnd & Hsub).
  assert (runs s2 = runs s) as Hrs2.
  { destruct Hsame as (_ & _ & _ & _ & _ & ->). by eapply C07_edits_do_not_evaluate. }
  assert (Hd2 : drawn s2 z).
  { destruct (ch_drawn _ _ _ _ Hch) as [Df Dg Dh]. destruct Hsame as [Ht2 _]. unfold edges_of in *. rewrite <- Ht2 in Df, Dg, Dh. by split. }
  assert (Hnb2 : ∀ x y, x ∈ [lf; lg; lh] → nbit s2 x Allocate y ≠ Some true).
  { intros x y Hx. destruct Hsame as [Ht2 _]. unfold nbit. rewrite Ht2. fold (nbit s1 x Allocate y). intros Hb.
    apply (ch_dirty _ _ _ _ Hch) in Hb as (_ & [(_ & ? & _)|(_ & ? & _)]); done. }
  exists s1, s2, s3, rs. rewrite Hrs2 in Hrs.
  assert (disciplined_demand opt false TS lf (holds s2)) as Hdd by (eexists _, _, _; by apply fw_demand).
  destruct Hdem as (K & HK). assert (HfK := HK K ltac:(lia)).
  destruct (C56_reason_to_rerun opt false s2 TS lf (fmt (sq z')) s3 K Hs2 Hdd HfK) as (rs1 & Hrs1 & Hreason).
  destruct (C56_demand_remembers opt false s2 TS lf (fmt (sq z')) s3 K Hs2 Hdd HfK) as (rs2 & Hrs3 & Hrem).
  rewrite Hrs2, Hrs in Hrs1, Hrs3. apply app_inv_tail in Hrs1 as <-. apply app_inv_tail in Hrs3 as <-.
  assert (Hs3 := rn_reached _ _ Hr3). destruct (rn_drawn _ _ Hr3) as [Df3 Dg3 Dh3]. destruct Hd2 as [Df2 Dg2 Dh2].
  destruct (rn_clean _ _ Hr3) as (Uf3 & Ug3 & Uh3).
  assert (Hh : ∀ x, x ∈ [lf; lg; lh] → holds s3 !! x = holds s2 !! x).
  { intros x. rewrite !elem_of_cons, elem_of_nil, Hh2, Hh1. destruct (rn_over _ _ Hr3) as [Oa Of Og Oh Ob]. destruct (rn_over _ _ Hr) as [Pa Pf Pg Ph Pb].
    intros [->|[->|[->|[]]]]; rewrite ?lookup_insert, ?lookup_insert_ne, ?lookup_insert by done; congruence. }
  assert (Hmade : ∀ x y, x ∈ [lf; lg; lh] → ¬ disturbed s2 x y).
  { intros x y Hx (c0 & Hc0 & Hb). apply (Hnb2 x y Hx). unfold nbit. by rewrite Hc0. }
  split; [done|]. split; [done|]. split; [done|]. split; [done|]. split; [by exists K|]. split; [done|]. split; [done|]. split; [done|]. split; [done|].
  split; [|split].
  - split.
    + intros Hin. destruct (Hreason _ Hin) as [Hn|[Hn|[(y & ty & f & w & v' & Hsaw & Hg & Hne)|(y & Hm & Hdis)]]].
      * exfalso. apply Hn. exists (VLoc lb). by eapply edges_cached.
      * exfalso. apply Hn, Hh. set_solver.
      * destruct (edges_saw _ _ _ _ _ _ _ _ Dg2 Hsaw) as [[Hi ->]|Hi]; revert Hi; unfold Eg; rewrite !elem_of_cons, elem_of_nil; [|naive_solver].
        intros [Heq|[Heq|[]]]; [|done]. injection Heq as -> -> ->. intros ->. apply Hne.
        by eapply gives_fun, cell_gives; [|apply Hr3|apply Hr3].
      * destruct (edges_made _ _ _ _ _ Dg2 Hm) as (d & Hi). revert Hi. unfold Eg. rewrite !elem_of_cons, elem_of_nil.
        intros [Heq|[Heq|[]]]; [done|]. injection Heq as -> _. intros ->. destruct Hdis as [Hdis|Hdis]; [by eapply Hmade, Hdis; set_solver|].
        apply Hdis. rewrite Hh2, Hh1, !lookup_insert_ne by done. destruct (rn_over _ _ Hr3) as [_ _ _ _ ->]. by destruct (rn_over _ _ Hr) as [_ _ _ _ ->].
    + intros Hne. destruct (decide (lg ∈ rs)) as [|Hnin]; [done|]. exfalso.
      destruct (Hrem lg (VLoc lb)) as [_ Hk]; [by eapply edges_cached|apply Hh; set_solver|]. destruct (Hk Hnin) as [_ Hs].
      assert (saw s3 lg la T0 (λ u, u) z) as Hsaw by (apply Hs; eapply edges_saw_r; [exact Dg2|by left]).
      destruct (edges_saw _ _ _ _ _ _ _ _ Dg3 Hsaw) as [[Hi _]|Hi]; revert Hi; unfold Eg; rewrite !elem_of_cons, elem_of_nil; naive_solver.
  - split.
    + intros Hin. destruct (Hreason _ Hin) as [Hn|[Hn|[(y & ty & f & w & v' & Hsaw & Hg & Hne)|(y & Hm & Hdis)]]].
      * exfalso. apply Hn. exists (fmt (sq z)). by eapply edges_cached.
      * exfalso. apply Hn, Hh. set_solver.
      * destruct (edges_saw _ _ _ _ _ _ _ _ Dh2 Hsaw) as [[Hi ->]|Hi]; revert Hi; unfold Eh; rewrite !elem_of_cons, elem_of_nil; [|naive_solver].
        intros [Heq|[]]. injection Heq as -> -> ->. intros Heq. apply Hne. rewrite Heq.
        by eapply gives_fun, cell_gives; [|apply Hr3|apply Hr3].
      * destruct (edges_made _ _ _ _ _ Dh2 Hm) as (d & Hi). revert Hi. unfold Eh. rewrite !elem_of_cons, elem_of_nil. naive_solver.
    + intros Hne. destruct (decide (lh ∈ rs)) as [|Hnin]; [done|]. exfalso.
      destruct (Hrem lh (fmt (sq z))) as [_ Hk]; [by eapply edges_cached|apply Hh; set_solver|]. destruct (Hk Hnin) as [_ Hs].
      assert (saw s3 lh lb T0 (λ u, u) (sq z)) as Hsaw by (apply Hs; eapply edges_saw_r; [exact Dh2|by left]).
      destruct (edges_saw _ _ _ _ _ _ _ _ Dh3 Hsaw) as [[Hi _]|Hi]; revert Hi; unfold Eh; rewrite !elem_of_cons, elem_of_nil; naive_solver.
  - split.
    + intros Hin. destruct (Hreason _ Hin) as [Hn|[Hn|[(y & ty & f & w & v' & Hsaw & Hg & Hne)|(y & Hm & Hdis)]]].
      * exfalso. apply Hn. exists (fmt (sq z)). by eapply edges_cached.
      * exfalso. apply Hn, Hh. set_solver.
      * destruct (edges_saw _ _ _ _ _ _ _ _ Df2 Hsaw) as [[Hi ->]|Hi]; revert Hi; unfold Ef; rewrite !elem_of_cons, elem_of_nil; [|naive_solver].
        intros [Heq|[Heq|[Heq|[Heq|[]]]]]; try done; injection Heq as -> -> ->.
        -- exfalso. apply Hne. eapply gives_fun; [exact Hg|]. eapply up_gives; [exact Hr3|apply Hr3|exact Dg3|done].
        -- intros Heq. apply Hne. rewrite Heq. eapply gives_fun; [exact Hg|]. eapply up_gives; [exact Hr3|apply Hr3|exact Dh3|done].
      * exfalso. assert (y = lg ∨ y = lh) as Hy.
        { destruct (edges_made _ _ _ _ _ Df2 Hm) as (d & Hi). revert Hi. unfold Ef. rewrite !elem_of_cons, elem_of_nil. naive_solver. }
        destruct Hdis as [Hdis|Hdis]; [by eapply Hmade, Hdis; set_solver|]. apply Hdis, Hh. set_solver.
    + intros Hne. destruct (decide (lf ∈ rs)) as [|Hnin]; [done|]. exfalso.
      destruct (Hrem lf (fmt (sq z))) as [_ Hk]; [by eapply edges_cached|apply Hh; set_solver|]. destruct (Hk Hnin) as [_ Hs].
      assert (saw s3 lf lh TS (λ u, u) (fmt (sq z))) as Hsaw by (apply Hs; eapply edges_saw_r; [exact Df2|set_solver]).
      destruct (edges_saw _ _ _ _ _ _ _ _ Df3 Hsaw) as [[Hi _]|Hi]; revert Hi; unfold Ef; rewrite !elem_of_cons, elem_of_nil; naive_solver.
Qed.

(** ** Whole sessions *)
Lemma first_runs z : runs (exec 4 (fw_run z Ret) (dcg_new_flags false opt)).2 = [lh; lg; lf] ∧
  (exec 4 (fw_run z Ret) (dcg_new_flags false opt)).1 = OVal (fmt (sq z)).
Proof. destruct opt; vm_compute; split; reflexivity. Qed.
Lemma fw_returns z s s1 s2 s3 v w k s' :
  cell_op T0 (nm "a") z s = (OVal la, s1) → thunk_op TS (NCNominal (nm "f")) "f" VUnit (VLoc la) s1 = (OVal lf, s2) →
  demand TS lf s2 v s3 → returns (k v) s3 w s' → returns (fw_run z k) s w s'.
Proof.
  intros H1 H2 (K1 & H3) (K2 & H4). exists (K1 + K2)%nat. intros n Hn. unfold exec, fw_run. cbn [run].
  rewrite (bind_val _ _ s la s1) by exact H1. cbn [run]. rewrite (bind_val _ _ s1 lf s2) by exact H2. cbn [run force_art].
  rewrite (bind_val _ _ s2 v s3) by (apply H3; lia). apply H4. lia.
Qed.

(** How often consecutive elements differ, the first counting as different from nothing. *)
Fixpoint changes (prev : option val) (xs : list val) : nat :=
  match xs with [] => 0 | x :: xs => (if decide (prev = Some x) then 0 else 1) + changes (Some x) xs end.
Definition times (x : loc) (xs : list loc) : nat := length (filter (x =.) xs).
Lemma times_app x xs ys : times x (xs ++ ys) = (times x xs + times x ys)%nat.
Proof. unfold times. by rewrite filter_app, app_length. Qed.
Lemma times_once x xs (Q : Prop) `{!Decision Q} : NoDup xs → x ∈ xs ↔ Q → times x xs = if decide Q then 1%nat else 0%nat.
Proof.
  intros Hnd Hq. unfold times. destruct (decide Q) as [HQ|HQ].
  - apply Hq in HQ. clear Hq Q Decision0. apply elem_of_list_split in HQ as (l1 & l2 & ->). apply NoDup_app in Hnd as (_ & H1 & H2).
    rewrite filter_app, filter_cons_True by done. apply NoDup_cons in H2 as [H2 _].
    assert (∀ ys, x ∉ ys → filter (x =.) ys = []) as Hno.
    { intros ys Hys. induction ys as [|y ys IH]; [done|]. rewrite filter_cons_False by set_solver. apply IH. set_solver. }
    rewrite !Hno; [done|done|]. intros Hin. apply (H1 _ Hin). by left.
  - assert (x ∉ xs) as Hn by tauto. clear -Hn. induction xs as [|y ys IH]; [done|]. rewrite filter_cons_False by set_solver. apply IH. set_solver.
Qed.

Lemma session_from z s acc zs : ran z s → ∃ s',
  returns (fw_session zs acc) s (foldr VPair VUnit (acc ++ ((λ x, fmt (sq x)) <$> zs))) s' ∧
  times lg (runs s') = (changes (Some z) zs + times lg (runs s))%nat ∧
  times lh (runs s') = (changes (Some (sq z)) (sq <$> zs) + times lh (runs s))%nat ∧
  times lf (runs s') = (changes (Some (fmt (sq z))) ((λ x, fmt (sq x)) <$> zs) + times lf (runs s))%nat.
Proof.
  revert z s acc. induction zs as [|z' zs IH]; intros z s acc Hr.
  { exists s. split; [exists 0%nat; intros k _; cbn; by rewrite app_nil_r|]. done. }
  destruct (C60_nominal_firewall z z' s Hr) as (s1 & s2 & s3 & rs & H1 & _ & H2 & _ & H3 & Hr3 & Hrs & Hnd & _ & Hg & Hh & Hf).
  destruct (IH z' s3 (acc ++ [fmt (sq z')]) Hr3) as (s' & Hret & Tg & Th & Tf). exists s'.
  split; [|split_and!].
  - cbn [fw_session fmap list_fmap]. eapply fw_returns; [done..|]. rewrite <- (assoc_L (++)) in Hret. exact Hret.
  - rewrite Tg, Hrs, times_app, (times_once lg rs (z ≠ z') Hnd Hg). cbn [changes].
    destruct (decide (z = z')) as [Heq|Hne]; [rewrite decide_False by tauto; rewrite decide_True by congruence|rewrite decide_True by done; rewrite decide_False by congruence]; lia.
  - rewrite Th, Hrs, times_app, (times_once lh rs _ Hnd Hh). cbn [changes fmap list_fmap].
    destruct (decide ((sq z) = (sq z'))) as [Heq|Hne]; [rewrite decide_False by tauto; rewrite decide_True by congruence|rewrite decide_True by done; rewrite decide_False by congruence]; lia.
  - rewrite Tf, Hrs, times_app, (times_once lf rs _ Hnd Hf). cbn [changes fmap list_fmap].
    destruct (decide ((fmt (sq z)) = (fmt (sq z')))) as [Heq|Hne]; [rewrite decide_False by tauto; rewrite decide_True by congruence|rewrite decide_True by done; rewrite decide_False by congruence]; lia.
Qed.

(** The first run, from a new engine: all three thunks run, and the state is one [C60_nominal_firewall] applies to. *)
Lemma fw_first z : ∃ s1 s2 s3,
  cell_op T0 (nm "a") z (dcg_new_flags false opt) = (OVal la, s1) ∧
  thunk_op TS (NCNominal (nm "f")) "f" VUnit (VLoc la) s1 = (OVal lf, s2) ∧
  demand TS lf s2 (fmt (sq z)) s3 ∧ ran z s3 ∧ runs s3 = [lh; lg; lf].
Proof.
  set (s0 := dcg_new_flags false opt).
  assert (reached opt false s0) as Hs0.
  { exists (Ret VUnit), 0%nat, VUnit. split; [|done]. by exists 0%nat, VUnit, (d_init ∅). }
  assert (ready (holds s0)) as Hrd0 by (split; by left).
  destruct (fw_input z s0 Hs0 Hrd0) as (s1 & H1 & Hs1 & Hh1).
  assert (ready (holds s1)) as Hrd1 by (rewrite Hh1; by apply ready_input).
  destruct (fw_thunk s1 Hs1 Hrd1) as (s2 & H2 & Hs2 & Hh2).
  assert (before z (holds s2)) as Hb2 by (rewrite Hh2, Hh1; by apply ready_before).
  destruct (fw_force z s2 Hs2 Hb2) as (s3 & rs & H3 & Hr3 & _).
  exists s1, s2, s3. split; [exact H1|]. split; [exact H2|]. split; [exact H3|]. split; [exact Hr3|].
  assert (returns (fw_run z Ret) s0 (fmt (sq z)) s3) as (K & HK) by (eapply fw_returns; [exact H1|exact H2|exact H3|by exists 0%nat]).
  destruct (first_runs z) as [E1 E2]. fold s0 in E1, E2. destruct (exec 4 (fw_run z Ret) s0) as [o s4] eqn:E. cbn [fst snd] in E1, E2. subst o.
  assert (exec (4 + K) (fw_run z Ret) s0 = (OVal (fmt (sq z)), s4)) as E'.
  { eapply exec_fuel_mono; [exact E|done|lia]. }
  rewrite HK in E' by lia. injection E' as ->. exact E1.
Qed.

(** C60, for every sequence of inputs: every run returns the right text, [g] runs once per change of the input,
    [h] once per change of the square and [f] once per change of the text, however many runs there are. *)
Theorem C60_firewall_sessions zs : ∃ s',
  returns (fw_session zs []) (dcg_new_flags false opt) (foldr VPair VUnit ((λ x, fmt (sq x)) <$> zs)) s' ∧
  times lg (runs s') = changes None zs ∧
  times lh (runs s') = changes None (sq <$> zs) ∧
  times lf (runs s') = changes None ((λ x, fmt (sq x)) <$> zs).
Proof.
  destruct zs as [|z zs]. { eexists. split; [by exists 0%nat|done]. }
  destruct (fw_first z) as (s1 & s2 & s3 & H1 & H2 & H3 & Hr3 & Hruns).
  destruct (session_from z s3 [fmt (sq z)] zs Hr3) as (s' & Hret & Tg & Th & Tf). exists s'. split_and!.
  - cbn [fw_session]. eapply fw_returns; [exact H1|exact H2|exact H3|]. exact Hret.
  - rewrite Tg, Hruns. cbn [changes]. rewrite decide_False by done. rewrite Nat.add_comm. done.
  - rewrite Th, Hruns. cbn [changes fmap list_fmap]. rewrite decide_False by done. rewrite Nat.add_comm. done.
  - rewrite Tf, Hruns. cbn [changes fmap list_fmap]. rewrite decide_False by done. rewrite Nat.add_comm. done.
Qed.
End Firewall.

(** The documentation's numbers (lib.rs:897-925): inputs 2, -2, 3.  The square is computed three times, the text twice. *)
Definition doc_sq (v : val) : val := match v with VInt z => VInt (z * z) | _ => v end.
Definition doc_fmt (v : val) : val := VPair (VInt 0) v.
Lemma ex_doc_firewall : ∃ s', @returns (fw_prog doc_sq doc_fmt) (fw_session [VInt 2; VInt (-2); VInt 3] []) (dcg_new_flags false true)
    (VPair (VPair (VInt 0) (VInt 4)) (VPair (VPair (VInt 0) (VInt 4)) (VPair (VPair (VInt 0) (VInt 9)) VUnit))) s' ∧
  times (at_ "g") (runs s') = 3%nat ∧ times (at_ "h") (runs s') = 2%nat ∧ times (at_ "f") (runs s') = 2%nat.
Proof. exact (C60_firewall_sessions doc_sq doc_fmt true [VInt 2; VInt (-2); VInt 3]). Qed.

(** The hypotheses of the C60 theorems, met: in [ex_s1] (Examples.v), [f] has read the first component of [p] through
    [force_map]; [p] is set to a pair with the same first component. *)
Section FirewallEx.
Local Existing Instance demo.
Lemma ex_set_p : ∃ s', set_op T1 (ALoc (at_ "p")) (VPair (VInt 1) (VInt 9)) ex_s1 = (OVal tt, s').
Proof.
  exists (set_op T1 (ALoc (at_ "p")) (VPair (VInt 1) (VInt 9)) ex_s1).2.
  replace (OVal tt) with ((set_op T1 (ALoc (at_ "p")) (VPair (VInt 1) (VInt 9)) ex_s1).1) by (vm_compute; reflexivity). apply surjective_pairing.
Qed.
Lemma ex_not_affected : ¬ affected ex_s1 (at_ "p") (CCell T1 (VPair (VInt 1) (VInt 9))) (at_ "f").
Proof.
  assert (Hf : ∀ c e, table ex_s1 !! at_ "f" = Some (NComp c) → e ∈ c_succs c → s_loc e = at_ "p" ∧ ¬ view_changes (CCell T1 (VPair (VInt 1) (VInt 9))) (s_dep e)).
  { intros c e Hc He. vm_compute in Hc. injection Hc as <-. cbn in He. apply elem_of_list_singleton in He as ->.
    split; [reflexivity|]. intros Hv. apply Hv. reflexivity. }
  intros (q & eff & Hq & Hr). apply rtc_inv in Hr as [<-|(y & (c & e & Hc & He & _ & <-) & Hr)].
  - destruct Hq as (c & e & Hc & He & _ & _ & Hv). destruct (Hf c e Hc He) as [_ Hn]. exact (Hn Hv).
  - destruct (Hf c e Hc He) as [Hy _]. rewrite Hy in Hr. apply rtc_inv in Hr as [<-|(y & (c' & e' & Hc' & _) & _)].
    + destruct Hq as (c' & e' & Hc' & _). vm_compute in Hc'. discriminate Hc'.
    + vm_compute in Hc'. discriminate Hc'.
Qed.
Lemma ex_firewall k : ∃ s' s'', set_op T1 (ALoc (at_ "p")) (VPair (VInt 1) (VInt 9)) ex_s1 = (OVal tt, s') ∧
  force (S k) T0 (at_ "f") None s' = (OVal (VInt 1), s'') ∧ runs s'' = runs s'.
Proof.
  destruct ex_set_p as (s' & Hs').
  destruct (C60_firewall true false ex_s1 T1 (at_ "p") (VPair (VInt 1) (VInt 9)) (VPair (VInt 1) (VInt 2)) s' T0 (at_ "f") (VInt 1)
    ex_s1_reached eq_refl ltac:(vm_compute; reflexivity) ltac:(discriminate) Hs' (proj1 ex_unrelated) ltac:(discriminate) ex_not_affected k None)
    as (s'' & E & _ & _ & _ & _ & _ & Hr). exists s', s''. exact (conj Hs' (conj E Hr)).
Qed.
(** ... while setting [a] dirties five edges and records five [Dirty] effects. *)
Lemma ex_set_a_dirt : ∃ s', set_op T0 (ALoc (at_ "a")) (VInt 5) ex_s1 = (OVal tt, s') ∧
  dirties (take (length (trc s') - length (trc ex_s1)) (trc s')) =
    [(at_ "fe", at_ "e"); (at_ "e", at_ "o"); (at_ "o", Loc [nm "inner"] (IdNom (nm "t"))); (Loc [nm "inner"] (IdNom (nm "t")), at_ "sum"); (at_ "sum", at_ "a")].
Proof.
  exists (set_op T0 (ALoc (at_ "a")) (VInt 5) ex_s1).2. split; [|vm_compute; reflexivity].
  replace (OVal tt) with ((set_op T0 (ALoc (at_ "a")) (VInt 5) ex_s1).1) by (vm_compute; reflexivity). apply surjective_pairing.
Qed.
(** ... and re-allocating the name [a] or the thunk [sum] differently meets the hypotheses of the other two. *)
Lemma ex_realloc_hyps :
  structf ex_s1 = false ∧ holds ex_s1 !! Loc [] (IdNom (nm "a")) = Some (CCell T0 (VInt 1)) ∧
  (cell_op T0 (nm "a") (VInt 5) ex_s1).1 = OVal (at_ "a") ∧
  holds ex_s1 !! Loc [] (IdNom (nm "sum")) = Some (CThunk T0 "add" (VPair (VLoc (at_ "a")) (VLoc (at_ "b"))) VUnit) ∧
  (thunk_op T0 (NCNominal (nm "sum")) "add" (VPair (VLoc (at_ "b")) (VLoc (at_ "b"))) VUnit ex_s1).1 = OVal (at_ "sum").
Proof.
  split; [vm_compute; reflexivity|]. split; [vm_compute; reflexivity|]. split; [vm_compute; reflexivity|]. split; vm_compute; reflexivity.
Qed.
End FirewallEx.
