(** * Effect traces: the recorder (src/engine.rs 137-266) and the shape of recorded forests. *)
From Verif Require Export Engine.

(** reflect.rs:425-440, [struct Trace]: an effect, its edge and its extent. *)
Inductive tree := TNode (e : teffect) (src : option loc) (tgt : loc) (ext : list tree).
Definition t_eff (t : tree) : teffect := match t with TNode e _ _ _ => e end.
Definition t_ext (t : tree) : list tree := match t with TNode _ _ _ F => F end.
Lemma tree_ind' (P : tree → Prop) :
  (∀ e src tgt F, Forall P F → P (TNode e src tgt F)) → ∀ t, P t.
Proof.
  intros IH. fix REC 1. intros [e src tgt F]. apply IH. induction F as [|t F IHF]; constructor; [apply REC|apply IHF].
Qed.

(** The recorder: engine.rs:179-247.  [TraceSt::stack]; the head of the list is the last element of
    the [Vec], and each forest is kept in order.  [None]: an [unreachable!()] or a failing assertion. *)
Definition recorder := list (list tree).
Definition push_trace (t : tree) (r : recorder) : option recorder :=
  match r with [] => None | F :: r => Some ((F ++ [t]) :: r) end.
(** The last element of a [Vec], and what precedes it. *)
Fixpoint split_last {A} (xs : list A) : option (list A * A) :=
  match xs with
  | [] => None
  | x :: xs => match split_last xs with None => Some ([], x) | Some (ys, y) => Some (x :: ys, y) end
  end.
Definition record (ev : event) (r : recorder) : option recorder :=
  match ev with
  | EvEff e src tgt => push_trace (TNode e src tgt []) r                      (* 180-199, 249-254 *)
  | EvBegin e src tgt =>
      match push_trace (TNode e src tgt []) r with Some r => Some ([] :: r) | None => None end
  | EvEnd =>                                                                  (* 224-247 *)
      match r with
      | ext :: F :: r =>
          match split_last F with
          | None => None
          | Some (F', TNode e src tgt ext0) =>
              if decide (length ext0 = O) then Some ((F' ++ [TNode e src tgt ext]) :: r) else None
          end
      | _ => None
      end
  end.
Fixpoint record_all (evs : list event) (r : recorder) : option recorder :=
  match evs with [] => Some r | ev :: evs => match record ev r with Some r => record_all evs r | None => None end end.
(** engine.rs:141-152 [dcg_reflect_begin] and 156-175 [dcg_reflect_end], around the events [evs]. *)
Definition reflect_forest (evs : list event) : option (list tree) :=
  match record_all evs [[]] with
  | Some r => if decide (length r = 1%nat) then head r else None     (* 161 assert_eq!(tr.stack.len(), 1) *)
  | None => None
  end.

(** ** Balanced event sequences and the forest they denote *)
Inductive tword : list event → list tree → Prop :=
  | tw_nil : tword [] []
  | tw_eff e src tgt w F : tword w F → tword (EvEff e src tgt :: w) (TNode e src tgt [] :: F)
  | tw_ext e src tgt w1 F1 w2 F2 : tword w1 F1 → tword w2 F2 →
      tword (EvBegin e src tgt :: w1 ++ EvEnd :: w2) (TNode e src tgt F1 :: F2).

Lemma tword_app w1 F1 w2 F2 : tword w1 F1 → tword w2 F2 → tword (w1 ++ w2) (F1 ++ F2).
Proof.
  intros H1 H2. induction H1; simpl; [done|by constructor|]. rewrite <- (assoc_L (++)). simpl. by constructor.
Qed.
Lemma record_all_app w1 w2 r r1 : record_all w1 r = Some r1 → record_all (w1 ++ w2) r = record_all w2 r1.
Proof. revert r. induction w1 as [|ev w1 IH]; intros r; simpl; [by intros [= ->]|]. destruct (record ev r); [|done]. apply IH. Qed.
Lemma split_last_snoc {A} (xs : list A) x : split_last (xs ++ [x]) = Some (xs, x).
Proof. induction xs as [|y xs IH]; simpl; [done|]. by rewrite IH. Qed.

Lemma record_tword w F : tword w F → ∀ top r, record_all w (top :: r) = Some ((top ++ F) :: r).
Proof.
  induction 1 as [|e src tgt w F _ IH|e src tgt w1 F1 w2 F2 _ IH1 _ IH2]; intros top r.
  - simpl. by rewrite (right_id_L [] (++)).
  - simpl. rewrite IH. by rewrite <- (assoc_L (++)).
  - simpl. erewrite record_all_app by apply IH1. cbn [record_all record]. rewrite split_last_snoc. simpl. rewrite IH2. by rewrite <- (assoc_L (++)).
Qed.
Lemma reflect_tword w F : tword w F → reflect_forest w = Some F.
Proof. intros Hw. unfold reflect_forest. by rewrite (record_tword _ _ Hw). Qed.

(** ** The shape of the forests the engine emits *)
Inductive role := Editor | Archivist.    (* reflect.rs:450 *)

Fixpoint dtok (t : tree) : bool :=
  match t with TNode e _ _ F => match e with TDirty => forallb dtok F | _ => false end end.
Definition remove_leaf (t : tree) : bool :=
  match t with TNode TRemove _ _ [] => true | _ => false end.
Definition aext (F : list tree) : bool := forallb (λ t, dtok t || remove_leaf t) F.
Fixpoint tok (rl : role) (t : tree) : bool :=
  match t with TNode e _ _ F =>
    match e with
    | TDirty => forallb dtok F
    | TAlloc LocFresh _ => match F with [] => true | _ => false end
    | TAlloc (LocExists _) _ => aext F
    | TForce RefGet => match F with [] => true | _ => false end
    | TForce _ => forallb (tok Archivist) F
    | TRemove | TCleanEdge =>
        match rl, F with Archivist, [] => true | _, _ => false end
    | TCleanEval | TCleanRec =>
        match rl with Archivist => forallb (tok Archivist) F | Editor => false end
    end
  end.

(** The trace of [s'] extends that of [s] by a balanced sequence whose trees satisfy [P]. *)
Definition tr_ok (P : tree → bool) (s s' : dcg) : Prop :=
  ∃ w F, trc s' = reverse w ++ trc s ∧ tword w F ∧ forallb P F = true.

Lemma forallb_app_eq {A} (P : A → bool) xs ys : forallb P (xs ++ ys) = forallb P xs && forallb P ys.
Proof. apply forallb_app. Qed.
Lemma forallb_impl {A} (P Q : A → bool) xs : (∀ x, P x = true → Q x = true) → forallb P xs = true → forallb Q xs = true.
Proof. intros HPQ. rewrite !forallb_forall. eauto. Qed.
Lemma tr_ok_refl P s s' : trc s' = trc s → tr_ok P s s'.
Proof. intros E. exists [], []. split_and!; [by rewrite E|constructor|done]. Qed.
Lemma tr_ok_trans P s1 s2 s3 : tr_ok P s1 s2 → tr_ok P s2 s3 → tr_ok P s1 s3.
Proof.
  intros (w1 & F1 & E1 & W1 & P1) (w2 & F2 & E2 & W2 & P2). exists (w1 ++ w2), (F1 ++ F2). split_and!.
  - rewrite E2, E1. by rewrite reverse_app, (assoc_L (++)).
  - by apply tword_app.
  - by rewrite forallb_app, P1, P2.
Qed.
Lemma tr_ok_mono P Q s s' : (∀ t, P t = true → Q t = true) → tr_ok P s s' → tr_ok Q s s'.
Proof. intros HPQ (w & F & E & W & HP). exists w, F. split_and!; [done|done|]. by eapply forallb_impl. Qed.
Lemma tr_ok_cong P s s' s1 s1' : trc s1 = trc s → trc s1' = trc s' → tr_ok P s s' → tr_ok P s1 s1'.
Proof. unfold tr_ok. by intros -> ->. Qed.
Lemma tr_ok_eff (P : tree → bool) e src tgt s s' :
  P (TNode e src tgt []) = true → trc s' = EvEff e src tgt :: trc s → tr_ok P s s'.
Proof.
  intros HP E. exists [EvEff e src tgt], [TNode e src tgt []]. split_and!; [done|repeat constructor|]. simpl. by rewrite HP.
Qed.
(** Closing an extent. *)
Lemma tr_ok_ext (P Q : tree → bool) e src tgt s s1 s2 s3 :
  trc s1 = EvBegin e src tgt :: trc s → tr_ok P s1 s2 → trc s3 = EvEnd :: trc s2 →
  (∀ F, forallb P F = true → Q (TNode e src tgt F) = true) → tr_ok Q s s3.
Proof.
  intros E1 (w & F & E2 & W & HP) E3 HQ.
  exists (EvBegin e src tgt :: w ++ [EvEnd]), [TNode e src tgt F]. split_and!.
  - rewrite E3, E2, E1. rewrite reverse_cons, reverse_snoc. by rewrite <- (assoc_L (++)).
  - constructor; [done|constructor].
  - simpl. by rewrite HQ.
Qed.
Lemma dtok_tok rl t : dtok t = true → tok rl t = true.
Proof. destruct t as [e src tgt F]. simpl. by destruct e. Qed.
Lemma remove_leaf_tok t : remove_leaf t = true → tok Archivist t = true.
Proof. destruct t as [[] src tgt []]; simpl; try done. Qed.
Lemma tok_Editor t : tok Editor t = true → tok Archivist t = true.
Proof. destruct t as [[| | | | |c k|c] src tgt F]; simpl; done. Qed.
