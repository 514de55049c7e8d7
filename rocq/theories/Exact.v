(** * C62: a demand runs exactly the thunks it must.
    C03 says that a demand runs only thunks that its from-scratch evaluation runs, C56 that it runs a thunk only for one of
    four reasons.  Here: among the thunks of the from-scratch evaluation, those run are exactly the ones for which there is
    such a reason. *)
From Verif Require Export Cutoff.
Local Open Scope list_scope.

(** There is a reason to run thunk [x] between the states [s] and [s']: it had no value, or it has another argument (or
    function), or something it looked at through [f] and saw as [w] no longer looks like that, or something it had allocated
    has since been allocated differently or set, or is so in [s']. *)
Definition must_run `{Prog} (s s' : dcg) (x : loc) : Prop :=
  ¬ evaluated s x ∨ holds s' !! x ≠ holds s !! x ∨
  (∃ y ty f w v', saw s x y ty f w ∧ gives s' ty y v' ∧ f v' ≠ w) ∨
  (∃ y, made s x y ∧ (disturbed s x y ∨ holds s' !! y ≠ holds s !! y)).

Section Exact.
Context `{Prog}.
Context (opt md : bool).

Lemma demand_exact s t l v s' k :
  reached opt md s → disciplined_demand opt md t l (holds s) → force k t l None s = (OVal v, s') →
  ∃ lg rs, demand_from_scratch md t l (holds s) v (holds s') lg ∧ runs s' = rs ++ runs s ∧ NoDup rs ∧ (∀ x, x ∈ rs → x ∈ lg) ∧
    (∀ x, x ∈ lg → fresh_at (table s') x) ∧ (∀ x, x ∉ rs → untouched (table s) (table s') x) ∧ facts_le opt (table s) (table s').
Proof.
  intros Hs (n & v2 & p & Hd) Hf. destruct (reached_Ed _ _ _ Hs) as (HE & Hc & Hst & _).
  destruct (force_editor opt md n md t l None _ v2 p s HE Hst Hd) as (K2 & a & s2 & Hk2 & -> & _ & HE2 & _ & _ & Hr & _).
  assert (force (K2 + k)%nat t l None s = (OVal v, s')) as E by (eapply force_fuel_mono; [exact Hf|done|lia]).
  rewrite Hk2 in E by lia. injection E as -> ->. destruct Hr as (rs & Hrs & Hnd & _ & _ & lg & Hlg & Hin & Hfr & Hun & Hfa).
  exists lg, rs. split_and!; try done. exists n. by rewrite (Ed_holds _ _ _ _ HE2).
Qed.

Lemma valid_gives s x c e t f w :
  reached opt md s → table s !! x = Some (NComp c) → e ∈ c_succs c → all_clean (c_succs c) →
  (s_dep e = DForce t w ∧ f = (λ v, v)) ∨ s_dep e = DForceMap t f w → ∃ v, gives s t (s_loc e) v ∧ f v = w.
Proof.
  intros Hs Hc He Hac Hdep. destruct (reached_idle _ _ _ Hs) as [Hstk _]. assert (Hi := reached_inv _ _ _ Hs).
  assert (Hv := i_valid _ _ _ _ Hi _ _ _ Hc He (Hac _ He)). destruct (i_edge _ _ _ _ Hi _ _ _ Hc He) as [Hw _].
  unfold valid in Hv. unfold wfe in Hw.
  change (sh_loc (shape e)) with (s_loc e) in *. change (sh_eff (shape e)) with (s_eff e) in *. change (sh_dep (shape e)) with (s_dep e) in *.
  destruct Hdep as [[E ->]|E]; rewrite E in *.
  - exists w. split; [|done]. apply up_to_date_gives; [done|]. unfold up_to_date.
    destruct Hw as [_ [(ps & v1 & E1)|(c1 & E1 & Ht)]]; rewrite E1 in *; [done|]. destruct Hv as (? & ? & _). done.
  - destruct Hw as [_ (ps & v1 & E1)]. rewrite E1 in Hv. exists v1. split; [|done]. apply up_to_date_gives; [done|]. unfold up_to_date. by rewrite E1.
Qed.

Lemma valid_made s s' c c' e :
  facts_le opt (table s) (table s') → wfe (table s) (shape e) →
  valid (table s) c (shape e) → valid (table s') c' (shape e) → s_eff e = Allocate →
  holds s' !! s_loc e = holds s !! s_loc e.
Proof.
  intros Hfa Hw Hv Hv' Ha. unfold valid, wfe in *. unfold holds. rewrite !contents_lookup.
  change (sh_loc (shape e)) with (s_loc e) in *. change (sh_eff (shape e)) with (s_eff e) in *. change (sh_dep (shape e)) with (s_dep e) in *.
  destruct (s_dep e).
  - destruct Hw; congruence.
  - destruct Hw; congruence.
  - done.
  - destruct Hw as (_ & Hst & c0 & E). destruct (Hfa _ _ E) as ([| |c1] & E1 & Hn); [done..|]. rewrite E, E1. simpl in *.
    destruct Hn as (-> & -> & -> & Hn). by destruct (Hn Hst) as [-> _].
  - destruct Hw as (_ & Hst & c0 & E). destruct (Hfa _ _ E) as ([| |c1] & E1 & Hn); [done..|]. rewrite E, E1 in *. simpl in *.
    destruct Hn as (-> & -> & -> & _). congruence.
  - destruct Hw as (_ & t & ps & v0 & E). destruct (Hfa _ _ E) as ([t1 ps1 v1| |] & E1 & Hn); [|done..]. rewrite E, E1 in *. simpl in *. congruence.
Qed.

(** C62.  After any disciplined history, the thunks run by a disciplined demand, each once, are exactly those thunks of the
    from-scratch evaluation of the demand that must be run. *)
Theorem C62_runs_exactly s t l v s' k :
  reached opt md s → disciplined_demand opt md t l (holds s) → force k t l None s = (OVal v, s') →
  ∃ lg rs, demand_from_scratch md t l (holds s) v (holds s') lg ∧ runs s' = rs ++ runs s ∧ NoDup rs ∧
    ∀ x, x ∈ rs ↔ x ∈ lg ∧ must_run s s' x.
Proof.
  intros Hs Hd Hf. destruct (demand_exact _ _ _ _ _ _ Hs Hd Hf) as (lg & rs & Hlg & Hrs & Hnd & Hin & Hfr & Hun & Hfa).
  destruct (C56_reason_to_rerun _ _ _ _ _ _ _ _ Hs Hd Hf) as (rs' & Hrs' & Hwhy). rewrite Hrs in Hrs'. apply app_inv_tail in Hrs' as <-.
  destruct (demand_up_to_date _ _ _ _ _ _ _ _ Hs Hd Hf) as [_ Hs']. exists lg, rs. split_and!; try done.
  assert (Hi := reached_inv _ _ _ Hs). assert (Hi' := reached_inv _ _ _ Hs').
  intros x. split; [intros Hx; split; [by apply Hin|exact (Hwhy x Hx)]|].
  intros [Hx Hm]. destruct (decide (x ∈ rs)) as [|Hnx]; [done|exfalso].
  destruct (Hfr x Hx) as (c & w & Hc & Hw & Hac). destruct (Hun x Hnx c Hc) as (c0 & Hc0 & Hr0 & Hh & Hsh & Hbits & _); [congruence|].
  assert (Hone : ∀ e, e ∈ c_succs c0 → ∃ e', e' ∈ c_succs c ∧ shape e' = shape e).
  { intros e He. assert (shape e ∈ shape <$> c_succs c) as (e' & ? & ?)%elem_of_list_fmap by (rewrite Hsh; by apply elem_of_list_fmap_1). by exists e'. }
  destruct Hm as [Hm|[Hm|[(y & ty & f & w0 & v' & (c1 & e & Hc1 & He & Ho & <- & Hdep) & Hg & Hne)|(y & (c1 & e & Hc1 & He & Ha & <-) & Hm)]]].
  - apply Hm. destruct (c_res c0) as [w0|] eqn:E; [|done]. by exists w0, c0.
  - done.
  - rewrite Hc0 in Hc1. injection Hc1 as <-. destruct (Hone e He) as (e' & He' & Hse). injection Hse as E1 E2 E3.
    destruct (valid_gives s' x c e' ty f w0 Hs' Hc He' Hac) as (v1 & Hg1 & Hf1); [by rewrite E3|].
    rewrite E1 in Hg1. apply Hne. by rewrite (gives_fun _ _ _ _ _ Hg Hg1).
  - rewrite Hc0 in Hc1. injection Hc1 as <-. destruct (Hone e He) as (e' & He' & Hse).
    assert (bit Allocate (s_loc e) (c_succs c) = Some false) as Hbf. { assert (Hb := Hac _ He'). injection Hse as E1 E2 E3. rewrite E1, E2, Ha in Hb. done. }
    assert (bit Allocate (s_loc e) (c_succs c0) ≠ Some true) as Hnb by (intros Hb; apply Hbits in Hb; congruence).
    destruct Hm as [(c1 & Hc1 & Hb)|Hm]; [congruence|]. apply Hm.
    apply (valid_made s s' [] [] e); [done|by eapply (i_edge _ _ _ _ Hi)| | |done].
    + apply (i_valid _ _ _ _ Hi x c0 e Hc0 He). destruct (bit_elem e _ He) as ([] & Hb); [|done]. rewrite Ha in Hb. done.
    + rewrite <- Hse. apply (i_valid _ _ _ _ Hi' x c e' Hc He'). by apply Hac.
Qed.

(** Two consequences.  A demand runs nothing at all exactly when no thunk of its from-scratch evaluation must be run; *)
Corollary C62_nothing_to_do s t l v s' k :
  reached opt md s → disciplined_demand opt md t l (holds s) → force k t l None s = (OVal v, s') →
  runs s' = runs s ↔ ∃ lg, demand_from_scratch md t l (holds s) v (holds s') lg ∧ ∀ x, x ∈ lg → ¬ must_run s s' x.
Proof.
  intros Hs Hd Hf. destruct (C62_runs_exactly _ _ _ _ _ _ Hs Hd Hf) as (lg & rs & Hlg & Hrs & _ & Hx). split.
  - intros E. exists lg. split; [done|]. intros x H1 H2. assert (x ∈ rs) as Hr by by apply Hx.
    destruct rs as [|z rs]; [by apply elem_of_nil in Hr|]. rewrite E in Hrs. apply (f_equal length) in Hrs. simpl in Hrs. rewrite app_length in Hrs. lia.
  - intros (lg' & Hlg' & Hn). rewrite Hrs. destruct rs as [|z rs]; [done|].
    destruct (Hx z) as [Hz _]. destruct Hz as [Hz1 Hz2]; [by left|]. destruct (Hn z); [|done].
    assert (lg' = lg) as -> by (by destruct (demand_from_scratch_functional _ _ _ _ _ _ _ _ _ _ Hlg Hlg') as (_ & _ & ->)). done.
Qed.
End Exact.
