(** * A demand neither depends on nor changes the namespace it is made in (engine.rs:933-992: [loc_produce] installs the
    namespace the thunk was allocated in and restores the previous one). *)
From Verif Require Export Limits.

Section NsFree.
Context `{Prog}.
(** [m] behaves alike in all namespaces, and leaves the namespace alone. *)
Definition po {A} (m : M A) : Prop := ∀ s p,
  match m s with
  | (OVal a, s') => cpath s' = cpath s ∧ m (set_cpath p s) = (OVal a, set_cpath p s')
  | (o, _) => (m (set_cpath p s)).1 = o
  end.
Lemma po_bind {A B} (m : M A) (f : A → M B) : po m → (∀ a, po (f a)) → po (bind m f).
Proof.
  intros Hm Hf s p. specialize (Hm s p). unfold bind. destruct (m s) as [[a|r|] s1].
  - destruct Hm as [Hc ->]. specialize (Hf a s1 p). destruct (f a s1) as [[b|r|] s2]; [|done..].
    destruct Hf as [Hc2 E]. split; [congruence|done].
  - destruct (m (set_cpath p s)) as [[]]; simpl in *; congruence.
  - destruct (m (set_cpath p s)) as [[]]; simpl in *; congruence.
Qed.
(** Code that reads the state but not the namespace in it. *)
Lemma po_get {B} (k : dcg → M B) : (∀ s p, k (set_cpath p s) = k s) → (∀ s, po (k s)) → po (bind get k).
Proof.
  intros Hk Hp s p. specialize (Hp s s p). unfold bind, get in *. cbv beta iota. rewrite Hk. exact Hp.
Qed.
Lemma po_ret {A} (a : A) : po (ret a). Proof. by intros s p. Qed.
Lemma po_panic {A} r : po (A:=A) (panic r). Proof. by intros s p. Qed.
Lemma po_nofuel {A} : po (A:=A) nofuel. Proof. by intros s p. Qed.
Lemma po_modify f : (∀ s p, f (set_cpath p s) = set_cpath p (f s)) → (∀ s, cpath (f s) = cpath s) → po (modify f).
Proof. intros E E2 s p. unfold modify. rewrite E. by split. Qed.
Lemma po_emit e : po (emit e). Proof. by apply po_modify. Qed.
Lemma po_assert b r : po (assert b r). Proof. destruct b; [apply po_ret|apply po_panic]. Qed.
Lemma po_of_opt {A} r (o : option A) : po (of_opt r o). Proof. destruct o; [apply po_ret|apply po_panic]. Qed.
Lemma po_put l nd : po (put_node l nd). Proof. by apply po_modify. Qed.
Lemma po_mfor {A} (xs : list A) f : (∀ x, po (f x)) → po (mfor xs f).
Proof. intros Hf. induction xs as [|x xs IH]; simpl; [apply po_ret|]. apply po_bind; [apply Hf|]. intros _. exact IH. Qed.
Lemma po_lookup l : po (lookup_abs l).
Proof. apply po_get; [done|]. intros s. destruct (table s !! l); [apply po_ret|apply po_panic]. Qed.
Lemma po_res t l : po (res_node t l).
Proof. apply po_bind; [apply po_lookup|]. intros nd. apply po_bind; [apply po_assert|]. intros _. apply po_ret. Qed.
Ltac p0 := first [apply po_emit|apply po_assert|apply po_of_opt|apply po_lookup|apply po_res|apply po_panic
  |apply po_nofuel|apply po_ret|apply po_put].
Ltac pb := apply po_bind; [try p0|intros ?].
Ltac pp := repeat first [p0|pb|match goal with |- po (match ?x with _ => _ end) => destruct x end].
Lemma po_get_dirty src eff tgt : po (get_dirty src eff tgt). Proof. unfold get_dirty. pp. Qed.
Lemma po_set_dirty b src eff tgt : po (set_dirty b src eff tgt). Proof. unfold set_dirty. pp. Qed.
Lemma po_cfm t f w l : po (check_force_map_dep t f w l). Proof. unfold check_force_map_dep. pp. Qed.
Lemma po_revoke l es : po (revoke_succs l es). Proof. apply po_mfor. intros e. pp. Qed.
Lemma po_push e pd : po (push_edge e pd).
Proof. apply po_modify; intros s; [intros p|]; simpl; by destruct (stack s). Qed.
Lemma po_insert_preds l es : po (insert_preds l es). Proof. apply po_mfor. intros [e pd]. pp. Qed.
Lemma po_finish l dup pure t r : po (force_finish l dup pure t r).
Proof. unfold force_finish. apply po_bind; [destruct (dup || pure); [p0|apply po_push]|intros _; p0]. Qed.

(** [produce_body] in other words: the function body runs in the namespace of the thunk. *)
Local Open Scope mon_scope.
Definition p_pre (t : ty) (l : loc) : M unit :=
  let! nd := res_node t l in
  match nd with
  | NComp c => put_node l (NComp (with_succs [] c)) ;! revoke_succs l (c_succs c) ;! modify (λ s, set_stack (Frame l [] :: stack s) s)
  | _ => panic PNoSuccs
  end.
Definition p_mid frc (t : ty) (l : loc) : M val :=
  let! nd := res_node t l in
  match nd with
  | NComp c => modify (add_run l) ;! run frc (code (c_pp c) (c_arg c) (c_spur c))
  | _ => panic PInternal
  end.
Definition p_fin (t : ty) (l : loc) (r : val) : M val :=
  let! s := get in
  match stack s with
  | [] => panic PStack
  | f :: fs =>
      modify (set_stack fs) ;!
      assert (bool_decide (f_loc f = l)) PAssert ;!
      insert_preds l (f_succs f) ;!
      let! nd := res_node t l in
      match nd with
      | NComp c => put_node l (NComp (with_res (Some r) (with_succs (f_succs f).*1 c))) ;! ret r
      | _ => panic PInternal
      end
  end.
Lemma produce_parts frc t l s : produce_body frc t l s =
  match p_pre t l s with
  | (OVal _, s1) => match p_mid frc t l (set_cpath (l_path l) s1) with
                    | (OVal r, s2) => p_fin t l r (set_cpath (cpath s1) s2)
                    | (OPanic r, s2) => (OPanic r, s2) | (OFuel, s2) => (OFuel, s2) end
  | (OPanic r, s2) => (OPanic r, s2) | (OFuel, s2) => (OFuel, s2)
  end.
Proof.
  unfold produce_body, produce_begin, p_pre, p_mid, p_fin, produce_end, put_node, modify, get, ret, panic, bind.
  destruct (res_node t l s) as [[nd|r|] s1]; [|done..]. destruct nd as [t0 ps0 v0|t0 v0|c]; [done|done|].
  destruct (revoke_succs l (c_succs c) _) as [[[]|r|] s3]; [|done..].
  destruct (res_node t l (set_cpath (l_path l) _)) as [[nd|r|] s5]; [|done..]. destruct nd as [t0 ps0 v0|t0 v0|c1]; [done|done|].
  destruct (run frc _ (add_run l s5)) as [[r|r|] s6]; [|done..].
  destruct (stack (set_cpath _ s6)) as [|f fs]; [done|].
  destruct (assert _ PAssert _) as [[[]|r1|] s8]; [|done..].
  destruct (insert_preds l (f_succs f) s8) as [[[]|r1|] s9]; [|done..].
  destruct (res_node t l s9) as [[nd|r1|] s10]; [|done..]. by destruct nd.
Qed.
Lemma po_pre t l : po (p_pre t l).
Proof.
  unfold p_pre. pb. destruct a; [p0|p0|]. pb. apply po_bind; [apply po_revoke|intros _]. by apply po_modify.
Qed.
Lemma po_fin t l r : po (p_fin t l r).
Proof.
  unfold p_fin. apply po_get; [done|]. intros s. destruct (stack s) as [|f fs]; [p0|]. apply po_bind; [by apply po_modify|intros _].
  pb. apply po_bind; [apply po_insert_preds|intros _]. pp.
Qed.
Lemma po_produce frc t l : po (produce_body frc t l).
Proof.
  intros s p. rewrite !produce_parts. assert (Hp := po_pre t l s p). destruct (p_pre t l s) as [[[]|r|] s1].
  2,3: destruct (p_pre t l (set_cpath p s)) as [[]]; simpl in *; congruence.
  destruct Hp as [Hc ->]. change (set_cpath (l_path l) (set_cpath p s1)) with (set_cpath (l_path l) s1).
  destruct (p_mid frc t l (set_cpath (l_path l) s1)) as [[r|r|] s2]; [|done..].
  assert (Hf := po_fin t l r (set_cpath (cpath s1) s2) p). destruct (p_fin t l r (set_cpath (cpath s1) s2)) as [[r0|r0|] s3]; [|done..].
  destruct Hf as [Hc2 E]. split; [rewrite Hc2; exact Hc|exact E].
Qed.
Lemma po_dep_clean cln d l : (∀ t w l, po (cln t w l)) → po (dep_clean cln d l).
Proof. intros Hc. destruct d; simpl; [apply Hc|apply po_cfm|p0..]. Qed.
Lemma po_clean_comp prod cln t w l cache es : (∀ t l, po (prod t l)) → (∀ t w l, po (cln t w l)) → po (clean_comp prod cln t w l cache es).
Proof.
  intros Hp Hc. induction es as [|e es IH]; simpl; [p0|]. apply po_bind; [apply po_get_dirty|]. intros [|]; [|exact IH].
  pb. apply po_bind; [by apply po_dep_clean|]. intros [|].
  - pb. apply po_bind; [apply Hp|intros r]. pp.
  - apply po_bind; [apply po_set_dirty|intros _]. pb. pb. exact IH.
Qed.
Lemma po_clean_body prod cln t w l : (∀ t l, po (prod t l)) → (∀ t w l, po (cln t w l)) → po (clean_body prod cln t w l).
Proof.
  intros Hp Hc. unfold clean_body. pb. destruct a as [| |c]; [p0|p0|]. destruct (c_res c); [by apply po_clean_comp|].
  pb. apply po_bind; [apply Hp|intros r]. pp.
Qed.
Lemma po_produce_clean n : (∀ t l, po (produce n t l)) ∧ (∀ t w l, po (clean n t w l)).
Proof.
  induction n as [|n [IHp IHc]]; [split; intros; apply po_nofuel|]. split; intros; [apply po_produce|by apply po_clean_body].
Qed.
Lemma po_force n t l cyc : po (force n t l cyc).
Proof.
  destruct (po_produce_clean n) as [Hp Hc]. unfold force, force_loc. apply po_get; [done|]. intros s. pb.
  destruct a as [t0 ps0 v0|t0 v0|c]; [pb; apply po_finish..|]. destruct (is_cycle s l).
  - destruct cyc; [|p0]. pb. pb. apply po_finish.
  - destruct (c_res c).
    + pb. apply po_bind; [apply Hc|intros _]. pb. pb. destruct a1 as [| |c']; [p0|p0|]. destruct (c_res c'); [apply po_finish|p0].
    + pb. pb. apply po_bind; [apply Hp|intros r]. pb. apply po_finish.
Qed.

(** Whatever namespace a demand is made in: the value is the same, so is the state it leaves, and the namespace is the one
    it was. *)
Theorem force_ignores_namespace k t l cyc s v s' : force k t l cyc s = (OVal v, s') →
  cpath s' = cpath s ∧ ∀ p, force k t l cyc (set_cpath p s) = (OVal v, set_cpath p s').
Proof.
  intros E. split; [|intros p]; [assert (Hp := po_force k t l cyc s []); rewrite E in Hp; apply Hp|].
  assert (Hp := po_force k t l cyc s p). rewrite E in Hp. apply Hp.
Qed.
(** C65: what a demand gives, and whether and with what panic it fails, does not depend on the namespace it is made in; an
    answered demand leaves the namespace as it was, and leaves the same graph, the same stack and the same trace. *)
Theorem C65_force_any_namespace k t l cyc s p :
  match force k t l cyc s with
  | (OVal v, s') => cpath s' = cpath s ∧ force k t l cyc (set_cpath p s) = (OVal v, set_cpath p s')
  | (o, _) => (force k t l cyc (set_cpath p s)).1 = o
  end.
Proof. apply po_force. Qed.
(** In particular [ns(n, || force(a))] is [force(a)], in any program and any state. *)
Theorem C65_ns_of_force k n t a cyc g s v s' : exec k (Force t a cyc Ret) s = (OVal v, s') →
  exec k (Ns n (Force t a cyc Ret) g) s = exec k (g v) s'.
Proof.
  unfold exec. cbn [run]. intros E. destruct a as [w|l]; cbn [force_art] in E |- *.
  - injection E as <- <-. unfold bind, Engine.get, modify, ret. cbn. f_equal. by destruct s.
  - unfold bind, ret in E. destruct (force k t l cyc s) as [[w|q|] s1] eqn:Ef; [|done|done]. injection E as -> ->.
    apply force_ignores_namespace in Ef as [Hc Ef]. unfold bind, Engine.get, modify, ret.
    rewrite (Ef (n :: cpath s)). f_equal. destruct s', s; cbn in *. by rewrite Hc.
Qed.
End NsFree.
