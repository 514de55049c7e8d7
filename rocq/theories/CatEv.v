(** * Evaluating the catalog's functions in a layout.

    Lists and trees whose articulations carry their location; the functions of [Cat.v] on them, together with the
    locations they allocate ([entries]); each is related to its counterpart in [Lists.v]/[Trees.v] by [erase]. *)
From Verif Require Export Cat Layout.

(** ** Lists and trees with locations *)
Inductive alst := ANil | ACons (x : val) (l : alst) | AName (n : name) (l : alst) | AArt (a : loc) (l : alst).
Inductive atree := BNil | BLeaf (x : val) | BBin (lev : N) (l r : atree) | BName (n : name) (lev : N) (l r : atree) | BArt (a : loc) (t : atree).
Fixpoint enc (l : alst) : val :=
  match l with ANil => v_nil | ACons x l => v_cons x (enc l) | AName n l => v_lname n (enc l) | AArt a _ => v_lart a end.
Fixpoint tenc (t : atree) : val :=
  match t with
  | BNil => v_tnil | BLeaf x => v_leaf x | BBin lev l r => v_bin lev (tenc l) (tenc r)
  | BName n lev l r => v_tname n lev (tenc l) (tenc r) | BArt a _ => v_tart a
  end.
Fixpoint erase (l : alst) : lst val :=
  match l with ANil => LNil | ACons x l => LCons x (erase l) | AName n l => LName n (erase l) | AArt _ l => LArt (erase l) end.
Fixpoint terase (t : atree) : tree val :=
  match t with
  | BNil => TNil | BLeaf x => TLeaf x | BBin lev l r => TBin lev (terase l) (terase r)
  | BName n lev l r => TName n lev (terase l) (terase r) | BArt _ t => TArt (terase t)
  end.

(** Chains of inclusions. *)
Ltac sub := repeat first [reflexivity | eassumption | etrans; [eassumption|]].
Section Wp.
Context `{Prog}.
Context (I : store).

Definition wp (own : option loc) (pth : path) (E : gset loc) (c : comp) (Φ : val → gset loc → Prop) : Prop :=
  ∃ v n E', ev I own pth E c v n E' ∧ Φ v E'.
Lemma wp_ret own pth E v (Φ : val → gset loc → Prop) : Φ v E → wp own pth E (Ret v) Φ.
Proof. intros HΦ. exists v, 0%nat, E. split; [constructor|done]. Qed.
Lemma wp_conseq own pth E c (Φ Ψ : val → gset loc → Prop) : wp own pth E c Φ → (∀ v E', E ⊆ E' → Φ v E' → Ψ v E') → wp own pth E c Ψ.
Proof. intros (v & n & E' & Hev & HΦ) Himp. exists v, n, E'. split; [done|]. apply Himp; [by eapply ev_mono|done]. Qed.
Lemma wp_bind own pth E c g (Φ : val → gset loc → Prop) : wp own pth E c (λ v E', wp own pth E' (g v) Φ) → wp own pth E (cbind c g) Φ.
Proof.
  intros (v & n & E' & Hev & r & m & E2 & Hg & HΦ). destruct (ev_cbind _ _ _ _ _ _ _ _ _ _ _ _ Hev Hg) as (k & Hk & _).
  by exists r, k, E2.
Qed.
Lemma wp_ns own pth E nm b k (Φ : val → gset loc → Prop) : wp own (nm :: pth) E b (λ v E', wp own pth E' (k v) Φ) → wp own pth E (Ns nm b k) Φ.
Proof. intros (v & n & E' & Hev & r & m & E2 & Hg & HΦ). exists r. do 2 eexists. split; [by econstructor|done]. Qed.
Lemma wp_cell own pth E t nm v k (Φ : val → gset loc → Prop) : let l := Loc pth (IdNom nm) in
  own ≠ Some l → I !! l = Some (CCell t v) → (∀ E', E ⊆ E' → l ∈ E' → wp own pth E' (k l) Φ) → wp own pth E (Cell t nm v k) Φ.
Proof.
  intros l Ho Hi Hk. destruct (Hk ({[l]} ∪ E)) as (r & m & E2 & Hg & HΦ); [set_solver..|]. exists r, m, E2. split; [by constructor|done].
Qed.
Lemma wp_thunk own pth E t nm pp arg sp k (Φ : val → gset loc → Prop) : let l := Loc pth (IdNom nm) in
  own ≠ Some l → I !! l = Some (CThunk t pp arg sp) → (∀ E', E ⊆ E' → l ∈ E' → wp own pth E' (k l) Φ) →
  wp own pth E (thunk_m t nm pp arg sp k) Φ.
Proof.
  intros l Ho Hi Hk. destruct (Hk ({[l]} ∪ E)) as (r & m & E2 & Hg & HΦ); [set_solver..|]. exists r, m, E2. split; [by constructor|done].
Qed.
Lemma wp_eager own pth E t nm pp arg sp k (Φ : val → gset loc → Prop) : let l := Loc pth (IdNom nm) in
  own ≠ Some l → I !! l = Some (CThunk t pp arg sp) →
  (∀ E1, E ⊆ E1 → l ∈ E1 → wp (Some l) pth E1 (code pp arg sp) (λ v E2, wp own pth E2 (k l v) Φ)) →
  wp own pth E (eager_m t nm pp arg sp k) Φ.
Proof.
  intros l Ho Hi Hk. unfold eager_m. apply wp_thunk; [done|done|]. intros E1 HE Hl.
  destruct (Hk E1 HE Hl) as (v & n & E2 & Hev & r & m & E3 & Hg & HΦ). exists r. do 2 eexists. split; [by eapply ev_force|done].
Qed.
Lemma wp_memo own pth E t nm pp arg sp k (Φ : val → gset loc → Prop) : let l := Loc pth (IdNom nm) in
  own ≠ Some l → I !! l = Some (CThunk t pp arg sp) →
  (∀ E1, E ⊆ E1 → l ∈ E1 → wp (Some l) pth E1 (code pp arg sp) (λ v E2, wp own pth E2 (k v) Φ)) →
  wp own pth E (memo_m t nm pp arg sp k) Φ.
Proof. intros l. apply (wp_eager own pth E t nm pp arg sp (λ _ v, k v) Φ). Qed.

(** The articulation [a] is established and forcing it returns [v]. *)
Definition gives (E : gset loc) (t : ty) (a : loc) (v : val) : Prop :=
  a ∈ E ∧ (I !! a = Some (CCell t v) ∨
           ∃ pp arg sp n E', I !! a = Some (CThunk t pp arg sp) ∧ ev I (Some a) (l_path a) E (code pp arg sp) v n E').
Lemma gives_mono E E' t a v : gives E t a v → E ⊆ E' → gives E' t a v.
Proof.
  intros [Ha Hg] HE. split; [set_solver|]. destruct Hg as [Hg|(pp & arg & sp & n & E1 & Hi & Hev)]; [by left|right].
  destruct (ev_more _ _ _ _ _ _ _ _ _ Hev HE) as (F & Hf & _). by exists pp, arg, sp, n, F.
Qed.
Lemma wp_force own pth E t a v k (Φ : val → gset loc → Prop) : gives E t a v → (∀ E', E ⊆ E' → wp own pth E' (k v) Φ) →
  wp own pth E (Force t (ALoc a) None k) Φ.
Proof.
  intros [Ha [Hi|(pp & arg & sp & n & E1 & Hi & Hev)]] Hk.
  - destruct (Hk E) as (r & m & E2 & Hg & HΦ); [done|]. exists r, m, E2. split; [by eapply ev_get|done].
  - destruct (Hk E1) as (r & m & E2 & Hg & HΦ); [by eapply ev_mono|]. exists r. do 2 eexists. split; [by eapply ev_force|done].
Qed.

(** All articulations of a list or tree return what they should: for a list, those inside what a thunk returns may be
    allocated by that thunk. *)
Fixpoint linked (E : gset loc) (l : alst) : Prop :=
  match l with
  | ANil => True
  | ACons _ l | AName _ l => linked E l
  | AArt a l => a ∈ E ∧
      ((I !! a = Some (CCell TyList (enc l)) ∧ linked E l) ∨
       ∃ pp arg sp n E', I !! a = Some (CThunk TyList pp arg sp) ∧
         ev I (Some a) (l_path a) E (code pp arg sp) (enc l) n E' ∧ linked E' l)
  end.
Fixpoint tlinked (E : gset loc) (t : atree) : Prop :=
  match t with
  | BNil | BLeaf _ => True | BBin _ l r | BName _ _ l r => tlinked E l ∧ tlinked E r
  | BArt a t => gives E TyTree a (tenc t) ∧ tlinked E t
  end.
Lemma linked_mono E E' l : linked E l → E ⊆ E' → linked E' l.
Proof.
  revert E E'. induction l as [|x l IH|n l IH|a l IH]; intros E E' Hl HE; simpl in *; [done|by eapply IH|by eapply IH|].
  destruct Hl as [Ha [[Hi Hl]|(pp & arg & sp & n & E1 & Hi & Hev & Hl)]]; (split; [set_solver|]); [left|right].
  - split; [done|by eapply IH].
  - destruct (ev_more _ _ _ _ _ _ _ _ _ Hev HE) as (F & Hf & HF). exists pp, arg, sp, n, F. split_and!; [done|done|by eapply IH].
Qed.
Lemma tlinked_mono E E' t : tlinked E t → E ⊆ E' → tlinked E' t.
Proof. intros Hl HE. induction t; simpl in *; try tauto. destruct Hl. split; [by eapply gives_mono|tauto]. Qed.

(** Eliminators *)
Fixpoint strip (l : alst) : alst := match l with AArt _ l => strip l | _ => l end.
Fixpoint tstrip (t : atree) : atree := match t with BArt _ t => tstrip t | _ => t end.
Fixpoint arts (l : alst) : nat := match l with AArt _ l => S (arts l) | _ => 0 end.
Fixpoint tarts (t : atree) : nat := match t with BArt _ t => S (tarts t) | _ => 0 end.
Lemma wp_l_elim own pth E F l nilc consc namec (Φ : val → gset loc → Prop) : linked E l → (arts l ≤ F)%nat →
  (∀ E', E ⊆ E' → linked E' (strip l) → match strip l with
    | ANil => wp own pth E' nilc Φ
    | ACons x tl => wp own pth E' (consc x (enc tl)) Φ
    | AName n tl => wp own pth E' (namec n (enc tl)) Φ
    | AArt _ _ => True end) →
  wp own pth E (l_elim F (enc l) nilc consc namec) Φ.
Proof.
  revert E F. induction l as [|x l IH|n l IH|a l IH]; intros E F Hl HF Hk; simpl in *.
  - destruct F; by apply Hk.
  - destruct F; by apply Hk.
  - destruct F; by apply Hk.
  - destruct F as [|F]; [lia|]. simpl. destruct Hl as [Ha [[Hi Hl]|(pp & arg & sp & n & E1 & Hi & Hev & Hl)]].
    + destruct (IH E F Hl) as (r & m & E2 & Hg & HΦ); [lia|exact Hk|]. exists r, m, E2. split; [by eapply ev_get|done].
    + destruct (IH E1 F Hl) as (r & m & E2 & Hg & HΦ); [lia| |].
      { intros E' HE'. apply Hk. etrans; [by eapply ev_mono|done]. }
      exists r. do 2 eexists. split; [by eapply ev_force|done].
Qed.
Lemma wp_t_elim own pth E F t nilc leafc binc namec (Φ : val → gset loc → Prop) : tlinked E t → (tarts t ≤ F)%nat →
  (∀ E', E ⊆ E' → match tstrip t with
    | BNil => wp own pth E' nilc Φ
    | BLeaf x => wp own pth E' (leafc x) Φ
    | BBin lev l r => wp own pth E' (binc lev (tenc l) (tenc r)) Φ
    | BName n lev l r => wp own pth E' (namec n lev (tenc l) (tenc r)) Φ
    | BArt _ _ => True end) →
  wp own pth E (t_elim F (tenc t) nilc leafc binc namec) Φ.
Proof.
  revert E F. induction t as [|x|lev l IHl r IHr|n lev l IHl r IHr|a t IH]; intros E F Hl HF Hk; simpl in *.
  - destruct F; by apply Hk.
  - destruct F; by apply Hk.
  - destruct F; simpl; rewrite N2Z.id; by apply Hk.
  - destruct F; simpl; rewrite N2Z.id; by apply Hk.
  - destruct F as [|F]; [lia|]. simpl. destruct Hl as [Hg Hl]. eapply wp_force; [exact Hg|]. intros E' HE.
    apply IH; [by eapply tlinked_mono|lia|]. intros E'' HE'. apply Hk. set_solver.
Qed.
Lemma tlinked_strip E t : tlinked E t → tlinked E (tstrip t).
Proof. induction t; simpl; tauto. Qed.
Fixpoint asize (l : alst) : nat := match l with ANil => 0 | ACons _ l | AName _ l | AArt _ l => S (asize l) end.
Fixpoint theight (t : atree) : nat :=
  match t with BNil | BLeaf _ => 0 | BBin _ l r | BName _ _ l r => S (theight l `max` theight r) | BArt _ t => S (theight t) end.
Lemma asize_strip l : (asize l = arts l + asize (strip l))%nat.
Proof. induction l; simpl; lia. Qed.
Lemma theight_strip t : (theight t = tarts t + theight (tstrip t))%nat.
Proof. induction t; simpl; lia. Qed.
Lemma strip_not_art l a l' : strip l ≠ AArt a l'.
Proof. by induction l. Qed.
Lemma tstrip_not_art t a t' : tstrip t ≠ BArt a t'.
Proof. by induction t. Qed.
Lemma toks_strip l : toks (erase (strip l)) = toks (erase l).
Proof. by induction l. Qed.
Lemma tseq_strip t : tseq (terase (tstrip t)) = tseq (terase t).
Proof. by induction t. Qed.

(** What has been given to the layout. *)
Definition laid (es : list (loc * content)) : Prop := ∀ l ct, (l, ct) ∈ es → I !! l = Some ct.
Definition fresh (own : option loc) (es : list (loc * content)) : Prop := ∀ l, own = Some l → l ∉ es.*1.
Lemma laid_app a b : laid (a ++ b) ↔ laid a ∧ laid b.
Proof. unfold laid. setoid_rewrite elem_of_app. naive_solver. Qed.
Lemma laid_cons l ct b : laid ((l, ct) :: b) ↔ I !! l = Some ct ∧ laid b.
Proof. unfold laid. setoid_rewrite elem_of_cons. naive_solver. Qed.
End Wp.
Lemma fresh_app own a b : fresh own (a ++ b) ↔ fresh own a ∧ fresh own b.
Proof. unfold fresh. setoid_rewrite fmap_app. setoid_rewrite elem_of_app. naive_solver. Qed.
Lemma fresh_cons own l ct b : fresh own ((l, ct) :: b) ↔ own ≠ Some l ∧ fresh own b.
Proof. unfold fresh. setoid_rewrite fmap_cons. setoid_rewrite elem_of_cons. split; [intros Hx; split; [intros ->; naive_solver|naive_solver]|intros [H1 H2] k -> [->|Hk]; naive_solver]. Qed.
Lemma fresh_some l es : fresh (Some l) es ↔ l ∉ es.*1.
Proof. unfold fresh. naive_solver. Qed.
