(** * C72 for snapshots: the reflected graph shows at most one force edge per thunk and location. *)
From Verif Require Export Reflected NoDups.
Local Open Scope list_scope.
Global Instance reffect_eq_dec : EqDecision reffect.
Proof. solve_decision. Defined.
Section Snap.
Context `{Hashes} `{Prog} (debug : ty → val → list Ascii.ascii).
(** The force edges of a thunk in a snapshot (reflect.rs:161-184). *)
Definition force_edges (es : list rsucc) : list rloc := rs_loc <$> filter (λ e, rs_eff e = RForce) es.
Lemma force_edges_reflect es : force_edges (reflect_succ <$> es) = reflect_loc <$> observed es.
Proof.
  unfold force_edges, observed. induction es as [|e es IH]; [done|]. rewrite fmap_cons. destruct (decide (s_eff e = Observe)) as [Ho|Ho].
  - rewrite !filter_cons_True; [|done|by simpl; rewrite Ho]. by rewrite !fmap_cons, IH.
  - rewrite !filter_cons_False; [done|done|]. simpl. by destruct (s_eff e).
Qed.
Theorem C72_snapshot s ents g rl ps es pp v :
  (∀ pp a sp, no_maps (code pp a sp)) → reached no_maps s → ents ≡ₚ map_to_list (table s) →
  (∀ l, is_Some (table s !! l) → client_loc l) →
  (∀ l nd, table s !! l = Some nd → ∃ rn, reflect_node debug nd = Ok rn) →
  (∀ l c e, table s !! l = Some (NComp c) → e ∈ c_succs c → client_loc (s_loc e)) →
  dcg_reflect_now debug ents s = Ok g → r_table g !! rl = Some (RComp ps es pp v) → NoDup (force_edges es).
Proof.
  intros Hc Hs Hp Hcl Hv Hce Hg Hr. destruct (C54_snapshot_faithful debug s ents Hp Hcl Hv) as (g' & Hg' & _ & H2 & _).
  rewrite Hg in Hg'. injection Hg' as <-. destruct (H2 _ _ Hr) as (l & nd & Hl & _ & Hn).
  destruct nd as [t ps' w|t w|c]; simpl in Hn; [destruct (reflect_val _ _ _); discriminate..|].
  assert (es = reflect_succ <$> c_succs c) as ->.
  { destruct (c_res c) as [w|]; [destruct (reflect_val _ _ _)|]; simpl in Hn; try discriminate; by inversion Hn. }
  rewrite force_edges_reflect. destruct (C72_observed_once s Hc Hs) as [H1 _]. specialize (H1 l c Hl). specialize (Hce l c).
  assert (∀ x, x ∈ observed (c_succs c) → client_loc x) as Hx.
  { intros x (e & -> & [_ He]%elem_of_list_filter)%elem_of_list_fmap. by apply Hce. }
  revert H1 Hx. generalize (observed (c_succs c)). clear. induction l as [|x l IH]; intros Hnd Hx; [by apply NoDup_nil_2|].
  rewrite fmap_cons. apply NoDup_cons in Hnd as [Hni Hnd]. apply NoDup_cons. split.
  - intros (y & Ey & Hy)%elem_of_list_fmap. apply reflect_loc_inj in Ey as ->; [done|apply Hx; by left|apply Hx; by right].
  - apply IH; [done|]. intros y Hy. apply Hx. by right.
Qed.
End Snap.
(** Witness: the state after [prog_twice] and the change of the cell (see [ex_dups_no_maps], [ex_dups_reached]): its
    locations and the targets of its edges are client locations, the snapshot exists and shows the thunk with one force
    edge and two allocations. *)
Definition snap_s : dcg := (@exec dups1 9 prog_change (@exec dups1 9 prog_twice dcg_new).2).2.
Lemma ex_snap_dups :
  forallb (λ p, client_locb p.1 && match p.2 with NComp c => forallb (λ e, client_locb (s_loc e)) (c_succs c) | _ => true end) (map_to_list (table snap_s)) = true ∧
  match @dcg_reflect_now hashes_demo debug_demo (map_to_list (table snap_s)) snap_s with
  | Ok g => match r_table g !! ([], nm "t") with
            | Some (RComp _ es _ _) => (rs_eff <$> es) = [RAlloc; RAlloc; RForce] ∧ length (force_edges es) = 1%nat
            | _ => False end
  | _ => False end.
Proof. vm_compute. done. Qed.
