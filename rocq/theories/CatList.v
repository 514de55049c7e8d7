(** * The catalog's list functions, in a layout. *)
From Verif Require Export CatMerge.
Local Open Scope string_scope.
Local Open Scope list_scope.

(** What a location is used for, up to the values involved. *)
Inductive kind := KCell (t : ty) | KThunk (t : ty) (pp : progpt) (sp : val).
Definition kind_of (ct : content) : kind := match ct with CCell t _ => KCell t | CThunk t pp _ sp => KThunk t pp sp end.
Lemma kind_of_same a b : kind_of a = kind_of b → same_kind a b.
Proof. destruct a, b; simpl; intros [=]; by subst. Qed.
Definition kinds (e : list (loc * content)) : list (loc * kind) := (λ x, (x.1, kind_of x.2)) <$> e.
Lemma kinds_locs e : e.*1 = (kinds e).*1.
Proof. unfold kinds. by rewrite <- list_fmap_compose. Qed.

Section CatList.
Context `{Hashes} `{Hash64 val}.
Context (body : val → val) (pred : val → bool) (id_elm : val) (bin_op : val → val → val) (le : val → val → bool).
Context (F0 : nat) (hv : val → N) (ha : progpt → val → N).
Local Instance P4 : Prog := cat body pred id_elm bin_op le F0 hv ha.
Context (I : store).
Notation nloc pth n := (Loc pth (IdNom n)).

(** A list made by a thunk that has just been forced. *)
Lemma wp_eager_list own pth E nm pp arg sp k r (Φ : val → gset loc → Prop) : let l := nloc pth nm in
  own ≠ Some l → I !! l = Some (CThunk TyList pp arg sp) →
  (∀ E1, E ⊆ E1 → l ∈ E1 → wp I (Some l) pth E1 (code pp arg sp) (λ v E2, v = enc r ∧ linked I E2 r)) →
  (∀ E2, E ⊆ E2 → linked I E2 (AArt l r) → wp I own pth E2 (k l (enc r)) Φ) →
  wp I own pth E (eager_m TyList nm pp arg sp k) Φ.
Proof.
  intros l Ho Hi Hb Hk. apply wp_eager; [done|done|]. intros E1 HE1 Hin.
  destruct (Hb E1 HE1 Hin) as (v & n & E2 & Hev & -> & Hr). exists (enc r), n, E2. split; [done|].
  assert (E1 ⊆ E2) as H12 by (by eapply ev_mono). apply Hk; [set_solver|]. simpl. split; [set_solver|]. right.
  destruct (ev_more _ _ _ _ _ _ _ _ _ Hev H12) as (E3 & Hev3 & H23). exists pp, arg, sp, n, E3. split_and!; [done|done|by eapply linked_mono].
Qed.
(** A list made by a thunk that is not forced yet. *)
Lemma wp_lazy_list own pth E nm pp arg sp k r (Φ : val → gset loc → Prop) : let l := nloc pth nm in
  own ≠ Some l → I !! l = Some (CThunk TyList pp arg sp) →
  (∀ E1, E ⊆ E1 → l ∈ E1 → wp I (Some l) pth E1 (code pp arg sp) (λ v E2, v = enc r ∧ linked I E2 r)) →
  (∀ E2, E ⊆ E2 → linked I E2 (AArt l r) → wp I own pth E2 (k l) Φ) →
  wp I own pth E (thunk_m TyList nm pp arg sp k) Φ.
Proof.
  intros l Ho Hi Hb Hk. apply wp_thunk; [done|done|]. intros E1 HE1 Hin. apply Hk; [done|].
  destruct (Hb E1 HE1 Hin) as (v & n & E2 & Hev & -> & Hr). simpl. split; [done|]. right. exists pp, arg, sp, n, E2. done.
Qed.

(** ** [list_map_eager], [list_map_lazy] *)
Section Map.
Context (pth : path).
Definition map_thunk (t : alst) : content := CThunk TyList "list_map_eager" (enc t) (VStr "body").
Fixpoint amap (l : alst) : alst * list (loc * content) :=
  match l with
  | ANil => (ANil, [])
  | ACons x t => (ACons (body x) (amap t).1, (amap t).2)
  | AName n t => (AName n (AArt (nloc pth n) (amap t).1), (nloc pth n, map_thunk t) :: (amap t).2)
  | AArt _ l => amap l
  end.
Lemma amap_strip l : amap (strip l) = amap l. Proof. by induction l. Qed.
Lemma amap_erase l : erase (amap l).1 = list_map_eager (erase l) body.
Proof. induction l; simpl; congruence. Qed.
Lemma amap_kinds l : kinds (amap l).2 = (λ n, (nloc pth n, KThunk TyList "list_map_eager" (VStr "body"))) <$> names (erase l).
Proof. induction l; simpl; [done|done| |done]. change (names (LName n (erase l))) with (n :: names (erase l)). simpl. by f_equal. Qed.
Lemma amap_asize l : (asize (amap l).1 ≤ 2 * asize l)%nat.
Proof. induction l; simpl; lia. Qed.
Lemma wp_map F own E l : linked I E l → laid I (amap l).2 → NoDup (amap l).2.*1 → fresh own (amap l).2 → (asize l < F)%nat → (asize l < F0)%nat →
  wp I own pth E (c_map_eager body F (enc l)) (λ v E', v = enc (amap l).1 ∧ linked I E' (amap l).1).
Proof.
  remember (asize l) as h eqn:Hh. revert F own E l Hh. induction (lt_wf h) as [h _ IH]. intros F own E l Hh Hl Hla Hnd Hfr HF HF0. destruct F as [|F]; [lia|]. cbn [c_map_eager].
  assert (Hst := asize_strip l). rewrite <- amap_strip in Hla, Hnd, Hfr |- *. apply wp_l_elim; [done|lia|]. intros E1 HE1 Hl1.
  destruct (strip l) as [|x t|n t|a t]; [by apply wp_ret| | |done]; cbn [amap fst snd] in *; simpl in Hst.
  - apply wp_bind. eapply wp_conseq; [eapply (IH (asize t)); [lia|done|done|done|done|done|lia|lia]|]. intros v E2 HE2 [-> Hk]. by apply wp_ret.
  - rewrite laid_cons in Hla. rewrite fresh_cons in Hfr. rewrite fmap_cons, NoDup_cons in Hnd. destruct Hla as [Lt Le], Hfr as [Ft Fe], Hnd as [Nt Ne].
    eapply (wp_eager_list own pth E1 n _ _ _ _ (amap t).1); [done|exact Lt| |].
    + intros E2 HE2 Hin. change (code "list_map_eager" (enc t) (VStr "body")) with (c_map_eager body F0 (enc t)).
      eapply (IH (asize t)); [lia|done|by eapply linked_mono|done|done|by apply fresh_some|lia|lia].
    + intros E2 HE2 Hk. by apply wp_ret.
Qed.

Definition mapl_thunk (t : alst) : content := CThunk TyList "list_map_lazy" (enc t) (VStr "body").
Fixpoint amapl (l : alst) : alst * list (loc * content) :=
  match l with
  | ANil => (ANil, [])
  | ACons x t => (ACons (body x) (amapl t).1, (amapl t).2)
  | AName n t => (AArt (nloc pth n) (amapl t).1, (nloc pth n, mapl_thunk t) :: (amapl t).2)
  | AArt _ l => amapl l
  end.
Lemma amapl_strip l : amapl (strip l) = amapl l. Proof. by induction l. Qed.
Lemma amapl_erase l : erase (amapl l).1 = list_map_lazy (erase l) body.
Proof. induction l; simpl; congruence. Qed.
Lemma amapl_kinds l : kinds (amapl l).2 = (λ n, (nloc pth n, KThunk TyList "list_map_lazy" (VStr "body"))) <$> names (erase l).
Proof. induction l; simpl; [done|done| |done]. change (names (LName n (erase l))) with (n :: names (erase l)). simpl. by f_equal. Qed.
Lemma wp_mapl F own E l : linked I E l → laid I (amapl l).2 → NoDup (amapl l).2.*1 → fresh own (amapl l).2 → (asize l < F)%nat → (asize l < F0)%nat →
  wp I own pth E (c_map_lazy body F (enc l)) (λ v E', v = enc (amapl l).1 ∧ linked I E' (amapl l).1).
Proof.
  remember (asize l) as h eqn:Hh. revert F own E l Hh. induction (lt_wf h) as [h _ IH]. intros F own E l Hh Hl Hla Hnd Hfr HF HF0. destruct F as [|F]; [lia|]. cbn [c_map_lazy].
  assert (Hst := asize_strip l). rewrite <- amapl_strip in Hla, Hnd, Hfr |- *. apply wp_l_elim; [done|lia|]. intros E1 HE1 Hl1.
  destruct (strip l) as [|x t|n t|a t]; [by apply wp_ret| | |done]; cbn [amapl fst snd] in *; simpl in Hst.
  - apply wp_bind. eapply wp_conseq; [eapply (IH (asize t)); [lia|done|done|done|done|done|lia|lia]|]. intros v E2 HE2 [-> Hk]. by apply wp_ret.
  - rewrite laid_cons in Hla. rewrite fresh_cons in Hfr. rewrite fmap_cons, NoDup_cons in Hnd. destruct Hla as [Lt Le], Hfr as [Ft Fe], Hnd as [Nt Ne].
    eapply (wp_lazy_list own pth E1 n _ _ _ _ (amapl t).1); [done|exact Lt| |].
    + intros E2 HE2 Hin. change (code "list_map_lazy" (enc t) (VStr "body")) with (c_map_lazy body F0 (enc t)).
      eapply (IH (asize t)); [lia|done|by eapply linked_mono|done|done|by apply fresh_some|lia|lia].
    + intros E2 HE2 Hk. by apply wp_ret.
Qed.

(** ** [list_filter_eager], [list_filter_lazy] *)
Definition filter_thunk (t : alst) : content := CThunk TyList "list_filter_eager" (enc t) (VStr "pred").
Fixpoint afilter (l : alst) : alst * list (loc * content) :=
  match l with
  | ANil => (ANil, [])
  | ACons x t => (if pred x then ACons x (afilter t).1 else (afilter t).1, (afilter t).2)
  | AName n t => (AName n (AArt (nloc pth n) (afilter t).1), (nloc pth n, filter_thunk t) :: (afilter t).2)
  | AArt _ l => afilter l
  end.
Lemma afilter_strip l : afilter (strip l) = afilter l. Proof. by induction l. Qed.
Lemma afilter_erase l : erase (afilter l).1 = list_filter_eager (erase l) pred.
Proof. induction l as [|x l IH|n l IH|a l IH]; simpl; [done| |congruence|done]. destruct (pred x); simpl; congruence. Qed.
Lemma afilter_kinds l : kinds (afilter l).2 = (λ n, (nloc pth n, KThunk TyList "list_filter_eager" (VStr "pred"))) <$> names (erase l).
Proof. induction l; simpl; [done|done| |done]. change (names (LName n (erase l))) with (n :: names (erase l)). simpl. by f_equal. Qed.
Lemma wp_filter F own E l : linked I E l → laid I (afilter l).2 → NoDup (afilter l).2.*1 → fresh own (afilter l).2 → (asize l < F)%nat → (asize l < F0)%nat →
  wp I own pth E (c_filter_eager pred F (enc l)) (λ v E', v = enc (afilter l).1 ∧ linked I E' (afilter l).1).
Proof.
  remember (asize l) as h eqn:Hh. revert F own E l Hh. induction (lt_wf h) as [h _ IH]. intros F own E l Hh Hl Hla Hnd Hfr HF HF0. destruct F as [|F]; [lia|]. cbn [c_filter_eager].
  assert (Hst := asize_strip l). rewrite <- afilter_strip in Hla, Hnd, Hfr |- *. apply wp_l_elim; [done|lia|]. intros E1 HE1 Hl1.
  destruct (strip l) as [|x t|n t|a t]; [by apply wp_ret| | |done]; cbn [afilter fst snd] in *; simpl in Hst.
  - destruct (pred x); [|eapply (IH (asize t)); [lia|done|done|done|done|done|lia|lia]].
    apply wp_bind. eapply wp_conseq; [eapply (IH (asize t)); [lia|done|done|done|done|done|lia|lia]|]. intros v E2 HE2 [-> Hk]. by apply wp_ret.
  - rewrite laid_cons in Hla. rewrite fresh_cons in Hfr. rewrite fmap_cons, NoDup_cons in Hnd. destruct Hla as [Lt Le], Hfr as [Ft Fe], Hnd as [Nt Ne].
    eapply (wp_eager_list own pth E1 n _ _ _ _ (afilter t).1); [done|exact Lt| |].
    + intros E2 HE2 Hin. change (code "list_filter_eager" (enc t) (VStr "pred")) with (c_filter_eager pred F0 (enc t)).
      eapply (IH (asize t)); [lia|done|by eapply linked_mono|done|done|by apply fresh_some|lia|lia].
    + intros E2 HE2 Hk. by apply wp_ret.
Qed.

Definition filterl_thunk (t : alst) : content := CThunk TyList "list_filter_lazy" (enc t) (VStr "pred").
Fixpoint afilterl (l : alst) : alst * list (loc * content) :=
  match l with
  | ANil => (ANil, [])
  | ACons x t => (if pred x then ACons x (afilterl t).1 else (afilterl t).1, (afilterl t).2)
  | AName n t => (AArt (nloc pth n) (afilterl t).1, (nloc pth n, filterl_thunk t) :: (afilterl t).2)
  | AArt _ l => afilterl l
  end.
Lemma afilterl_strip l : afilterl (strip l) = afilterl l. Proof. by induction l. Qed.
Lemma afilterl_erase l : erase (afilterl l).1 = list_filter_lazy (erase l) pred.
Proof. induction l as [|x l IH|n l IH|a l IH]; simpl; [done| |congruence|done]. destruct (pred x); simpl; congruence. Qed.
Lemma afilterl_kinds l : kinds (afilterl l).2 = (λ n, (nloc pth n, KThunk TyList "list_filter_lazy" (VStr "pred"))) <$> names (erase l).
Proof. induction l; simpl; [done|done| |done]. change (names (LName n (erase l))) with (n :: names (erase l)). simpl. by f_equal. Qed.
Lemma wp_filterl F own E l : linked I E l → laid I (afilterl l).2 → NoDup (afilterl l).2.*1 → fresh own (afilterl l).2 → (asize l < F)%nat → (asize l < F0)%nat →
  wp I own pth E (c_filter_lazy pred F (enc l)) (λ v E', v = enc (afilterl l).1 ∧ linked I E' (afilterl l).1).
Proof.
  remember (asize l) as h eqn:Hh. revert F own E l Hh. induction (lt_wf h) as [h _ IH]. intros F own E l Hh Hl Hla Hnd Hfr HF HF0. destruct F as [|F]; [lia|]. cbn [c_filter_lazy].
  assert (Hst := asize_strip l). rewrite <- afilterl_strip in Hla, Hnd, Hfr |- *. apply wp_l_elim; [done|lia|]. intros E1 HE1 Hl1.
  destruct (strip l) as [|x t|n t|a t]; [by apply wp_ret| | |done]; cbn [afilterl fst snd] in *; simpl in Hst.
  - destruct (pred x); [|eapply (IH (asize t)); [lia|done|done|done|done|done|lia|lia]].
    apply wp_bind. eapply wp_conseq; [eapply (IH (asize t)); [lia|done|done|done|done|done|lia|lia]|]. intros v E2 HE2 [-> Hk]. by apply wp_ret.
  - rewrite laid_cons in Hla. rewrite fresh_cons in Hfr. rewrite fmap_cons, NoDup_cons in Hnd. destruct Hla as [Lt Le], Hfr as [Ft Fe], Hnd as [Nt Ne].
    eapply (wp_lazy_list own pth E1 n _ _ _ _ (afilterl t).1); [done|exact Lt| |].
    + intros E2 HE2 Hin. change (code "list_filter_lazy" (enc t) (VStr "pred")) with (c_filter_lazy pred F0 (enc t)).
      eapply (IH (asize t)); [lia|done|by eapply linked_mono|done|done|by apply fresh_some|lia|lia].
    + intros E2 HE2 Hk. by apply wp_ret.
Qed.

(** ** [list_map_eager2] *)
Definition map2_thunk (t : alst) : content := CThunk TyList "list_map_eager2" (enc t) (VStr "body").
Fixpoint amap2 (l : alst) : alst * list (loc * content) :=
  match l with
  | ANil => (ANil, [])
  | ACons x t => (ACons (body x) (amap2 t).1, (amap2 t).2)
  | AName n t => let '(nm1, nm2, nm3) := name_fork3 n in
      (AName nm1 (AArt (nloc pth nm3) (amap2 t).1),
       (nloc pth nm2, map2_thunk t) :: (nloc pth nm3, CCell TyList (enc (amap2 t).1)) :: (amap2 t).2)
  | AArt _ l => amap2 l
  end.
Lemma amap2_strip l : amap2 (strip l) = amap2 l. Proof. by induction l. Qed.
Lemma amap2_erase l : erase (amap2 l).1 = list_map_eager2 (erase l) body.
Proof. induction l; simpl; congruence. Qed.
Lemma amap2_kinds l : kinds (amap2 l).2 = names (erase l) ≫= λ n, let '(nm1, nm2, nm3) := name_fork3 n in
  [(nloc pth nm2, KThunk TyList "list_map_eager2" (VStr "body")); (nloc pth nm3, KCell TyList)].
Proof. induction l; simpl; [done|done| |done]. change (names (LName n (erase l))) with (n :: names (erase l)). simpl. by do 2 f_equal. Qed.
Lemma wp_map2 F own E l : linked I E l → laid I (amap2 l).2 → NoDup (amap2 l).2.*1 → fresh own (amap2 l).2 → (asize l < F)%nat → (asize l < F0)%nat →
  wp I own pth E (c_map_eager2 body F (enc l)) (λ v E', v = enc (amap2 l).1 ∧ linked I E' (amap2 l).1).
Proof.
  remember (asize l) as h eqn:Hh. revert F own E l Hh. induction (lt_wf h) as [h _ IH]. intros F own E l Hh Hl Hla Hnd Hfr HF HF0. destruct F as [|F]; [lia|]. cbn [c_map_eager2].
  assert (Hst := asize_strip l). rewrite <- amap2_strip in Hla, Hnd, Hfr |- *. apply wp_l_elim; [done|lia|]. intros E1 HE1 Hl1.
  destruct (strip l) as [|x t|n t|a t]; [by apply wp_ret| | |done]; cbn [amap2 fst snd] in *; simpl in Hst.
  - apply wp_bind. eapply wp_conseq; [eapply (IH (asize t)); [lia|done|done|done|done|done|lia|lia]|]. intros v E2 HE2 [-> Hk]. by apply wp_ret.
  - destruct (name_fork3 n) as [[nm1 nm2] nm3]. cbn [fst snd] in *.
    rewrite !laid_cons in Hla. rewrite !fresh_cons in Hfr. rewrite !fmap_cons, !NoDup_cons, elem_of_cons in Hnd.
    destruct Hla as (Lt & Lc & Le), Hfr as (Ft & Fc & Fe), Hnd as (Nt & Nc & Ne).
    apply wp_memo; [done|exact Lt|]. intros E2 HE2 Hin. change (code "list_map_eager2" (enc t) (VStr "body")) with (c_map_eager2 body F0 (enc t)).
    eapply wp_conseq; [eapply (IH (asize t)); [lia|done|by eapply linked_mono|done|done|apply fresh_some; tauto|lia|lia]|].
    intros v E3 HE3 [-> Hk]. cbv beta. apply wp_cell; [done|exact Lc|]. intros E4 HE4 Hin4. apply wp_ret. split; [done|]. simpl. split; [done|]. left.
    split; [exact Lc|by eapply linked_mono].
Qed.

(** ** [list_reverse] *)
Definition rev_name (n : name) : name := name_pair (name_of_string "rev") n.
Definition rev_thunk (t : alst) (n : name) : content := CThunk TyList "list_reverse" (VPair (enc t) (v_lart (nloc pth (rev_name n)))) VUnit.
Fixpoint arev (l rev : alst) : alst * list (loc * content) :=
  match l with
  | ANil => (rev, [])
  | ACons x t => arev t (ACons x rev)
  | AName n t => let re := arev t (AArt (nloc pth (rev_name n)) rev) in
      (AName n (AArt (nloc pth n) re.1), (nloc pth (rev_name n), CCell TyList (enc rev)) :: (nloc pth n, rev_thunk t n) :: re.2)
  | AArt _ l => arev l rev
  end.
Lemma arev_strip l rev : arev (strip l) rev = arev l rev. Proof. by induction l. Qed.
Lemma arev_erase l rev : erase (arev l rev).1 = list_reverse (erase l) (erase rev).
Proof.
  revert rev. induction l as [|x l IH|n l IH|a l IH]; intros rev; [done| | |].
  - cbn [arev erase list_reverse]. by rewrite IH.
  - cbn [arev erase list_reverse fst]. by rewrite IH.
  - apply IH.
Qed.
Lemma arev_kinds l rev : kinds (arev l rev).2 = names (erase l) ≫= λ n,
  [(nloc pth (rev_name n), KCell TyList); (nloc pth n, KThunk TyList "list_reverse" VUnit)].
Proof.
  revert rev. induction l as [|x l IH|n l IH|a l IH]; intros rev; cbn [arev snd erase]; [done|apply IH| |apply IH].
  change (names (LName n (erase l))) with (n :: names (erase l)). cbn. by do 2 f_equal.
Qed.
Lemma wp_rev F own E l rev : linked I E l → linked I E rev → laid I (arev l rev).2 → NoDup (arev l rev).2.*1 → fresh own (arev l rev).2 → (asize l < F)%nat → (asize l < F0)%nat →
  wp I own pth E (c_reverse F (enc l) (enc rev)) (λ v E', v = enc (arev l rev).1 ∧ linked I E' (arev l rev).1).
Proof.
  remember (asize l) as h eqn:Hh. revert F own E l rev Hh. induction (lt_wf h) as [h _ IH]. intros F own E l rev Hh Hl Hlr Hla Hnd Hfr HF HF0. destruct F as [|F]; [lia|]. cbn [c_reverse].
  assert (Hst := asize_strip l). rewrite <- arev_strip in Hla, Hnd, Hfr |- *. apply wp_l_elim; [done|lia|]. intros E1 HE1 Hl1.
  assert (linked I E1 rev) as Hlr1 by (by eapply linked_mono).
  destruct (strip l) as [|x t|n t|a t]; [by apply wp_ret| | |done]; cbn [arev fst snd] in *; simpl in Hst.
  - apply (IH (asize t) ltac:(lia) F own E1 t (ACons x rev)); [done|done|done|done|done|done|lia|lia].
  - rewrite !laid_cons in Hla. rewrite !fresh_cons in Hfr. rewrite !fmap_cons, !NoDup_cons in Hnd.
    destruct Hla as (Lc & Lt & Le), Hfr as (Fc & Ft & Fe), Hnd as (Nc & Nt & Ne).
    apply wp_cell; [done|exact Lc|]. intros E2 HE2 Hin2.
    eapply (wp_eager_list own pth E2 n _ _ _ _ (arev t (AArt (nloc pth (rev_name n)) rev)).1); [done|exact Lt| |].
    + intros E3 HE3 Hin. change (code "list_reverse" (VPair (enc t) (v_lart (nloc pth (rev_name n)))) VUnit) with (c_reverse F0 (enc t) (enc (AArt (nloc pth (rev_name n)) rev))).
      apply (IH (asize t) ltac:(lia) F0 _ E3 t (AArt (nloc pth (rev_name n)) rev)); [done|eapply linked_mono; [exact Hl1|sub]| |done|done|by apply fresh_some|lia|lia].
      split; [set_solver|]. left. split; [done|eapply linked_mono; [exact Hlr1|sub]].
    + intros E3 HE3 Hk. by apply wp_ret.
Qed.
End Map.

(** ** [list_fold], [list_append] *)
Lemma wp_fold own pth F E l res f : linked I E l → (asize l < F)%nat → wp I own pth E (c_fold F (enc l) res f) (λ v _, v = foldr f res (elems (erase l))).
Proof.
  remember (asize l) as h eqn:Hh. revert F E l Hh. induction (lt_wf h) as [h _ IH]. intros F E l Hh Hl HF. destruct F as [|F]; [lia|]. cbn [c_fold].
  assert (Hst := asize_strip l). unfold elems. rewrite <- toks_strip. apply wp_l_elim; [done|lia|]. intros E1 HE1 Hl1.
  destruct (strip l) as [|x rest|n rest|a rest]; [by apply wp_ret| | |done]; simpl in *.
  - apply wp_bind. eapply wp_conseq; [eapply (IH (asize rest)); [lia|done|done|lia]|]. intros v E2 HE2 ->. by apply wp_ret.
  - eapply (IH (asize rest)); [lia|done|done|lia].
Qed.
End CatList.
