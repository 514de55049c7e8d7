(** * C33: structural identity ([NameChoice::Structural], [structural]): /repo/src/engine.rs 1541-1546, 1656-1695. *)
From Verif Require Export NodeInv Examples.

(** With the purity optimisation on (the default), a structurally identified location holds, forever, exactly
    something that hashes to its identifier: an immutable value, or a thunk.  This holds in every state, after every
    program, disciplined or not, and even after a panic. *)
Section Share.
Context `{Prog}.
Definition hashed (l : loc) (nd : node) : Prop :=
  match l_id l with
  | IdNom _ => match nd with NPure _ _ => False | _ => True end
  | IdStruct h => match nd with
                  | NPure _ v => h = hash_val v
                  | NComp c => h = hash_app (c_pp c) (c_arg c)
                  | NMut _ _ _ => False
                  end
  end.
Lemma hashed_stable : stable true hashed.
Proof.
  unfold hashed. split; intros; simpl in *; try done.
  - destruct nd; simpl in *; simplify_eq; destruct (l_id l); done.
  - destruct nd; simpl in *; simplify_eq; destruct (l_id l); done.
Qed.
(** A state the engine can be in after running any programs, starting with purity [true]; panics included. *)
Inductive lived : dcg → Prop :=
  | lived_new md : lived (dcg_new_flags md true)
  | lived_exec s k c o s' : lived s → exec k c s = (o, s') → lived s'.
Lemma lived_hashed s : lived s → J true hashed s.
Proof.
  induction 1 as [md|s k c o s' _ IH E]; [split; [done|]; intros l nd; simpl; by rewrite lookup_empty|].
  eapply exec_keeps; [apply hashed_stable|exact IH|exact E].
Qed.

(** Within one namespace, two structural thunks get the same art exactly when function and argument hash alike. *)
Theorem C33_same_art s s1 s2 s3 t1 t2 pp1 pp2 arg1 arg2 sp1 sp2 l1 l2 :
  thunk_op t1 NCStructural pp1 arg1 sp1 s = (OVal l1, s1) → thunk_op t2 NCStructural pp2 arg2 sp2 s2 = (OVal l2, s3) →
  l1 = l2 ↔ cpath s = cpath s2 ∧ hash_app pp1 arg1 = hash_app pp2 arg2.
Proof.
  assert (HL : ∀ t pp arg sp s s' l, thunk_op t NCStructural pp arg sp s = (OVal l, s') → l = Loc (cpath s) (IdStruct (hash_app pp arg))).
  { intros t pp arg sp u u' l E. unfold thunk_op in E. rewrite (bind_val get _ u u u) in E by done. cbv zeta in E.
    destruct (table u !! _); by injection E as <- _. }
  intros ->%HL ->%HL. split; [by intros [= ? ?]|]. by intros [-> ->].
Qed.
(** Two structurally identified cells (allocated in structural mode) likewise. *)
Theorem C33_same_cell s s1 s2 s3 t1 t2 n1 n2 v1 v2 l1 l2 :
  structf s = true → structf s2 = true → cell_op t1 n1 v1 s = (OVal l1, s1) → cell_op t2 n2 v2 s2 = (OVal l2, s3) →
  l1 = l2 ↔ cpath s = cpath s2 ∧ hash_val v1 = hash_val v2.
Proof.
  assert (HL : ∀ t n v s s' l, structf s = true → cell_op t n v s = (OVal l, s') → l = Loc (cpath s) (IdStruct (hash_val v))).
  { intros t n v u u' l Hm E. destruct (post_elim _ _ _ _ _ (cell_op_any t n v u) E) as [_ _ _ _ _ Hv]. destruct (Hv _ eq_refl) as [-> _].
    unfold cell_loc. by rewrite Hm. }
  intros Hm1 Hm2 ->%HL ->%HL; [|done..]. split; [by intros [= ? ?]|]. by intros [-> ->].
Qed.
(** If the hash of (function, argument) is not shared with anything else, the art denotes a thunk of exactly that
    function and argument -- whatever happened before. *)
Theorem C33_content s s' t pp arg sp l :
  lived s → (∀ pp' arg', hash_app pp' arg' = hash_app pp arg → pp' = pp ∧ arg' = arg) → (∀ v, hash_val v ≠ hash_app pp arg) →
  thunk_op t NCStructural pp arg sp s = (OVal l, s') →
  ∃ c, table s' !! l = Some (NComp c) ∧ c_pp c = pp ∧ c_arg c = arg.
Proof.
  intros Hs Hinj Hdis E. unfold thunk_op in E. rewrite (bind_val get _ s s s) in E by done. cbv zeta in E.
  destruct (table s !! _) as [nd|] eqn:El.
  - injection E as <- <-. assert (HJ := proj2 (lived_hashed _ Hs) _ _ El). unfold hashed in HJ. simpl in HJ.
    destruct nd as [| |c]; [done|by destruct (Hdis _ (eq_sym HJ))|]. exists c. split; [done|]. by apply Hinj.
  - unfold bind in E. rewrite push_edge_eq in E. simpl in E. injection E as <- <-. eexists. simpl. rewrite lookup_insert. done.
Qed.
(** ... and it keeps denoting it, whatever runs afterwards. *)
Theorem C33_forever s k p o s' l c : lived s → exec k p s = (o, s') → is_struct l = true → table s !! l = Some (NComp c) →
  (∀ pp' arg', hash_app pp' arg' = hash_app (c_pp c) (c_arg c) → pp' = c_pp c ∧ arg' = c_arg c) →
  (∀ v, hash_val v ≠ hash_app (c_pp c) (c_arg c)) →
  ∃ c', table s' !! l = Some (NComp c') ∧ c_pp c' = c_pp c ∧ c_arg c' = c_arg c.
Proof.
  intros Hs E Hst Hl Hinj Hdis. destruct (C15_types_never_change k p s o s' l _ E Hl) as (nd' & Hl' & _).
  assert (HJ' := proj2 (lived_hashed _ (lived_exec _ _ _ _ _ Hs E)) _ _ Hl'). assert (HJ := proj2 (lived_hashed _ Hs) _ _ Hl).
  unfold hashed in *. unfold is_struct in Hst. destruct (l_id l) as [h|]; [|done]. rewrite HJ in HJ'.
  destruct nd' as [| |c']; [done|by destruct (Hdis _ (eq_sym HJ'))|]. exists c'. split; [done|]. by apply Hinj.
Qed.
(** A cell allocated in structural mode holds its value forever, if that value's hash is not shared. *)
Theorem C33_cell_content s s' t n v l k p o s'' :
  lived s → structf s = true → (∀ v', hash_val v' = hash_val v → v' = v) → (∀ pp arg, hash_app pp arg ≠ hash_val v) →
  cell_op t n v s = (OVal l, s') → exec k p s' = (o, s'') →
  (∃ t', table s'' !! l = Some (NPure t' v)).
Proof.
  intros Hs Hm Hinj Hdis E Ep. assert (E0 : exec 0 (new_cell t n v) s = (OVal (VLoc l), s')).
  { unfold exec, new_cell. cbn [run]. unfold bind. by rewrite E. }
  assert (Hs' : lived s') by (eapply lived_exec; [exact Hs|exact E0]).
  destruct (post_elim _ _ _ _ _ (cell_op_any t n v s) E) as [_ _ _ _ _ Hv]. destruct (Hv _ eq_refl) as [-> Hsome].
  assert (is_Some (table s'' !! cell_loc s n v)) as [nd Hnd].
  { assert (is_Some (table s' !! cell_loc s n v)) as [nd Hnd].
    { destruct (table s !! cell_loc s n v) as [nd|] eqn:El; [|by rewrite Hsome].
      destruct (C15_types_never_change _ _ _ _ _ _ _ E0 El) as (nd' & Hl' & _). eauto. }
    destruct (C15_types_never_change k p s' o s'' _ _ Ep Hnd) as (nd' & Hl' & _). eauto. }
  rewrite Hnd. assert (HJ := proj2 (lived_hashed _ (lived_exec _ _ _ _ _ Hs' Ep)) _ _ Hnd). unfold hashed, cell_loc in HJ. rewrite Hm in HJ. simpl in HJ.
  destruct nd as [|t' w|c]; [done|exists t'; f_equal; f_equal; by apply Hinj|by destruct (Hdis _ _ (eq_sym HJ))].
Qed.
End Share.

(** ** The hypotheses are met: hashes that never collide exist (the library's 64-bit SipHash is not one of them, but
    no collision occurs among the contents of a table in practice). *)
Fixpoint val_enc (v : val) : gen_tree (bool + (Z + (string + (name + loc)))) :=
  match v with
  | VUnit => GenNode 0 []
  | VBool b => GenLeaf (inl b)
  | VInt z => GenLeaf (inr (inl z))
  | VStr x => GenLeaf (inr (inr (inl x)))
  | VName n => GenLeaf (inr (inr (inr (inl n))))
  | VLoc l => GenLeaf (inr (inr (inr (inr l))))
  | VPair a b => GenNode 1 [val_enc a; val_enc b]
  | VInl a => GenNode 2 [val_enc a]
  | VInr a => GenNode 3 [val_enc a]
  | VRc a => GenNode 4 [val_enc a]
  end.
Fixpoint val_dec (t : gen_tree (bool + (Z + (string + (name + loc))))) : option val :=
  match t with
  | GenNode 0 [] => Some VUnit
  | GenLeaf (inl b) => Some (VBool b)
  | GenLeaf (inr (inl z)) => Some (VInt z)
  | GenLeaf (inr (inr (inl x))) => Some (VStr x)
  | GenLeaf (inr (inr (inr (inl n)))) => Some (VName n)
  | GenLeaf (inr (inr (inr (inr l)))) => Some (VLoc l)
  | GenNode 1 [a; b] => match val_dec a, val_dec b with Some a, Some b => Some (VPair a b) | _, _ => None end
  | GenNode 2 [a] => match val_dec a with Some a => Some (VInl a) | _ => None end
  | GenNode 3 [a] => match val_dec a with Some a => Some (VInr a) | _ => None end
  | GenNode 4 [a] => match val_dec a with Some a => Some (VRc a) | _ => None end
  | _ => None
  end.
Lemma val_dec_enc v : val_dec (val_enc v) = Some v.
Proof. induction v; simpl; rewrite ?IHv, ?IHv1, ?IHv2; reflexivity. Qed.
Global Instance val_countable : Countable val := inj_countable val_enc val_dec val_dec_enc.
Definition perfect : Prog := {|
  code := demo_code;
  hash_val := λ v, (2 * N.pos (encode v))%N;
  hash_app := λ pp v, (2 * N.pos (encode (pp, v)) + 1)%N;
|}.
Lemma ex_perfect : let P := perfect in
  (∀ pp v pp' v', hash_app pp v = hash_app pp' v' → pp = pp' ∧ v = v') ∧ (∀ v v', hash_val v = hash_val v' → v = v') ∧
  (∀ v pp v', hash_val v ≠ hash_app pp v').
Proof.
  split_and!; simpl; intros.
  - assert (encode (pp, v) = encode (pp', v')) as E by lia. apply (inj encode) in E. by injection E as -> ->.
  - assert (encode v = encode v') as E by lia. by apply (inj encode) in E.
  - lia.
Qed.
(** A state with structural thunks and cells, one of them shared. *)
Definition ex_share : comp :=
  Thunk T0 NCStructural "const" (VInt 3) VUnit (λ a, Thunk T0 NCStructural "const" (VInt 3) VUnit (λ b,
  Structural (Cell T0 (nm "x") (VInt 5) (λ c, Cell T0 (nm "y") (VInt 5) (λ d, Ret (VPair (VLoc c) (VLoc d))))) (λ p, Ret (VPair (VPair (VLoc a) (VLoc b)) p)))).
Lemma ex_shared : let s := (@exec demo 5 ex_share dcg_new) in
  @lived demo s.2 ∧ size (table s.2) = 2%nat ∧ match s.1 with OVal (VPair (VPair a b) (VPair c d)) => a = b ∧ c = d | _ => False end.
Proof.
  split; [|split; vm_compute; done]. eapply (lived_exec dcg_new 5 ex_share); [apply (lived_new false)|apply surjective_pairing].
Qed.
