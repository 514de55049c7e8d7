(** * The DCG engine (src/engine.rs), function by function.

    Conventions
    - An engine operation is a function [dcg → out A * dcg].  [OPanic r] is a Rust panic; the state
      component is the engine state at the point of the panic (nothing is rolled back in Rust either).
      [OFuel] is an artefact: the recursion budget of the Coq function was too small.
    - [RefCell] borrows are not modelled: no borrow is live across a call of user code
      (engine.rs:956-964), except for [NameChoice::Eager], see [thunk_op].
    - [wf::check_dcg] is a no-op under the default flags (engine.rs:2691-2715); it is modelled
      separately in [WfCheck.v].
    - Two ghost fields have no counterpart in [struct DCG]: [runs] records every invocation of user
      code by [loc_produce] (engine.rs:965), [trc] is the sequence of calls of the macros
      [dcg_effect_begin!], [dcg_effect_end!] and [dcg_effect!] (engine.rs:180-266), most recent first. *)
From Verif Require Export Comp.

(** ** Outcomes and the state monad *)
Inductive reason :=
  | PUser        (* user code panicked *)
  | PDangling    (* engine.rs:787   "dangling pointer" *)
  | PType        (* engine.rs:805   "Detected a dynamic type error" *)
  | PNoSucc      (* engine.rs:1303  "tgt_loc is dangling in src_node.dem_succs" *)
  | PNoSuccs     (* engine.rs:875   "undefined": successors of a non-computation *)
  | PUnreach     (* unreachable!() *)
  | PUnimpl      (* unimplemented!() *)
  | PAssert      (* a failing assert!() *)
  | PSetInThunk  (* engine.rs:1622  assert!( self.stack.is_empty() ) *)
  | PFun         (* engine.rs:1743  "Memozied functions not equal!" *)
  | PCycle       (* engine.rs:1986  "unexpected cycle detected in DCG" *)
  | PStack       (* engine.rs:970   "expected Some _: stack invariants are broken" *)
  | PDirtyFrame  (* engine.rs:977   "newly-built DCG edge should be clean, but is dirty" *)
  | PInternal    (* engine.rs:951,987 "internal error" *)
  | PNotCell.    (* engine.rs:2376  "set: Cannot mutate immutable Rc articulation" *)

Inductive out (A : Type) := OVal (a : A) | OPanic (r : reason) | OFuel.
Arguments OVal {A} a. Arguments OPanic {A} r. Arguments OFuel {A}.

(** ** Graph structure *)

(** engine.rs:557-560, [enum Effect]. *)
Inductive effect := Observe | Allocate.
Global Instance effect_eq_dec : EqDecision effect.
Proof. solve_decision. Defined.

(** The implementors of [trait DCGDep] (engine.rs:581-585): [ForceDep] (1056), [ForceMapDep] (1061),
    [ForceAbsDep] (1116), [AllocStructuralThunk] (1030), [AllocNominalThunk] (1038), [AllocCell] (1046).
    The type parameter [T] of the Rust structures is the [ty] argument. *)
Inductive dep :=
  | DForce (t : ty) (w : val)
  | DForceMap (t : ty) (f : val → val) (w : val)
  | DForceAbs
  | DAllocStruct
  | DAllocThunk (arg : val)
  | DAllocCell (v : val).

(** engine.rs:511-516, [struct Succ]. *)
Record succ := Succ { s_dirty : bool; s_loc : loc; s_eff : effect; s_dep : dep }.
(** engine.rs:519-530, [struct Pred]. *)
Record pred := Pred { p_loc : loc; p_eff : effect; p_dep : option dep }.

(** engine.rs:666-671 [struct CompNode] and 720-725 [struct App] (the producer).  [fn_box] is the code
    at [c_pp] (see [Comp.Prog]); environment captured by the closure is part of [c_spur]. *)
Record compnode := CompNode {
  c_ty : ty;
  c_preds : list pred;
  c_succs : list succ;
  c_pp : progpt;
  c_arg : val;
  c_spur : val;
  c_res : option val;
}.

(** engine.rs:606-610, [enum Node], 647-649 [PureNode], 656-659 [MutNode].  The [ty] is the node's
    [res_typeid] (832-834). *)
Inductive node :=
  | NMut (t : ty) (ps : list pred) (v : val)
  | NPure (t : ty) (v : val)
  | NComp (c : compnode).

Definition node_ty (nd : node) : ty :=
  match nd with NMut t _ _ => t | NPure t _ => t | NComp c => c_ty c end.

(** engine.rs:496-499, [struct Frame]. *)
Record frame := Frame { f_loc : loc; f_succs : list (succ * option dep) }.

(** reflect.rs:318-434, [trace::Effect] (only what the engine emits). *)
Inductive change := ContentDiff | ContentSame.
Inductive alloccase := LocFresh | LocExists (c : change).
Inductive allockind := KRefCell | KThunk.
Inductive forcecase := CompCacheMiss | CompCacheHit | RefGet.
Inductive teffect :=
  | TCleanRec | TCleanEval | TCleanEdge | TDirty | TRemove
  | TAlloc (c : alloccase) (k : allockind)
  | TForce (c : forcecase).
Inductive event :=
  | EvBegin (e : teffect) (src : option loc) (tgt : loc)
  | EvEnd
  | EvEff (e : teffect) (src : option loc) (tgt : loc).

(** engine.rs:389-397, [struct DCG]; of the [Flags] (359-370) the two that matter.
    [stack]: the head of the list is the last element of the Rust [Vec]. *)
Record dcg := Dcg {
  table : gmap loc node;
  stack : list frame;
  cpath : path;
  structf : bool;      (* flags.ignore_nominal_use_structural *)
  purity : bool;       (* flags.use_purity_optimization *)
  runs : list loc;     (* ghost *)
  trc : list event;    (* ghost *)
}.

Definition set_table (m : gmap loc node) (s : dcg) : dcg :=
  Dcg m (stack s) (cpath s) (structf s) (purity s) (runs s) (trc s).
Definition set_stack (fs : list frame) (s : dcg) : dcg :=
  Dcg (table s) fs (cpath s) (structf s) (purity s) (runs s) (trc s).
Definition set_cpath (p : path) (s : dcg) : dcg :=
  Dcg (table s) (stack s) p (structf s) (purity s) (runs s) (trc s).
Definition set_structf (b : bool) (s : dcg) : dcg :=
  Dcg (table s) (stack s) (cpath s) b (purity s) (runs s) (trc s).
Definition add_run (l : loc) (s : dcg) : dcg :=
  Dcg (table s) (stack s) (cpath s) (structf s) (purity s) (l :: runs s) (trc s).
Definition add_ev (e : event) (s : dcg) : dcg :=
  Dcg (table s) (stack s) (cpath s) (structf s) (purity s) (runs s) (e :: trc s).

(** engine.rs:1483-1501, [DCG::new].  The flags come from environment variables; defaults:
    purity optimisation on, structural mode off. *)
Definition dcg_new_flags (structural purity : bool) : dcg := Dcg ∅ [] [] structural purity [] [].
Definition dcg_new : dcg := dcg_new_flags false true.

Definition M (A : Type) := dcg → out A * dcg.
Definition ret {A} (a : A) : M A := λ s, (OVal a, s).
Definition bind {A B} (m : M A) (f : A → M B) : M B :=
  λ s, match m s with
       | (OVal a, s') => f a s'
       | (OPanic r, s') => (OPanic r, s')
       | (OFuel, s') => (OFuel, s')
       end.
Definition panic {A} (r : reason) : M A := λ s, (OPanic r, s).
Definition nofuel {A} : M A := λ s, (OFuel, s).
Definition get : M dcg := λ s, (OVal s, s).
Definition modify (f : dcg → dcg) : M unit := λ s, (OVal tt, f s).
Definition assert (b : bool) (r : reason) : M unit := if b then ret tt else panic r.
Definition emit (e : event) : M unit := modify (add_ev e).

Declare Scope mon_scope.
Delimit Scope mon_scope with mon.
Notation "'let!' x ':=' m 'in' k" := (bind m (λ x, k))
  (at level 200, x pattern, m at level 100, k at level 200, right associativity) : mon_scope.
Notation "m ;! k" := (bind m (λ _, k)) (at level 100, k at level 200, right associativity) : mon_scope.
Open Scope mon_scope.

(** Iteration over a vector, in order. *)
Fixpoint mfor {A} (xs : list A) (f : A → M unit) : M unit :=
  match xs with [] => ret tt | x :: xs => f x ;! mfor xs f end.

Section Engine.
Context `{Prog}.

(** engine.rs:785-790 [lookup_abs]. *)
Definition lookup_abs (l : loc) : M node :=
  let! s := get in
  match table s !! l with None => panic PDangling | Some nd => ret nd end.

(** engine.rs:800-817 [assert_graphnode_res_type], 821-826 [res_node_of_loc]. *)
Definition res_node (t : ty) (l : loc) : M node :=
  let! nd := lookup_abs l in
  assert (bool_decide (node_ty nd = t)) PType ;!
  ret nd.

Definition put_node (l : loc) (nd : node) : M unit :=
  modify (λ s, set_table (<[l := nd]> (table s)) s).

(** engine.rs:268-276 [current_loc!]: the location of the top frame. *)
Definition cur_loc (s : dcg) : option loc :=
  match stack s with [] => None | f :: _ => Some (f_loc f) end.

(** engine.rs:842-859 [preds_obs]; 836-841 [preds_alloc].  [None]: unreachable!(). *)
Definition preds_obs (nd : node) : option (list (loc * option dep)) :=
  match nd with
  | NMut _ ps _ => Some (omap (λ p, if decide (p_eff p = Observe) then Some (p_loc p, p_dep p) else None) ps)
  | NComp c => Some (omap (λ p, if decide (p_eff p = Observe) then Some (p_loc p, None) else None) (c_preds c))
  | NPure _ _ => None
  end.
Definition preds_alloc (nd : node) : option (list loc) :=
  match nd with
  | NMut _ ps _ => Some (omap (λ p, if decide (p_eff p = Allocate) then Some (p_loc p) else None) ps)
  | NComp c => Some (omap (λ p, if decide (p_eff p = Allocate) then Some (p_loc p) else None) (c_preds c))
  | NPure _ _ => None
  end.

Definition with_preds (ps : list pred) (c : compnode) : compnode :=
  CompNode (c_ty c) ps (c_succs c) (c_pp c) (c_arg c) (c_spur c) (c_res c).
Definition with_succs (es : list succ) (c : compnode) : compnode :=
  CompNode (c_ty c) (c_preds c) es (c_pp c) (c_arg c) (c_spur c) (c_res c).
Definition with_res (r : option val) (c : compnode) : compnode :=
  CompNode (c_ty c) (c_preds c) (c_succs c) (c_pp c) (c_arg c) (c_spur c) r.
Definition with_arg (a : val) (c : compnode) : compnode :=
  CompNode (c_ty c) (c_preds c) (c_succs c) (c_pp c) a (c_spur c) (c_res c).

Definition of_opt {A} (r : reason) (o : option A) : M A :=
  match o with Some a => ret a | None => panic r end.

(** engine.rs:860-864 [preds_insert]. *)
Definition preds_insert (p : pred) (nd : node) : option node :=
  match nd with
  | NMut t ps v => Some (NMut t (ps ++ [p]) v)
  | NComp c => Some (NComp (with_preds (c_preds c ++ [p]) c))
  | NPure _ _ => None
  end.
(** engine.rs:865-869 [preds_remove]. *)
Definition preds_remove (src : loc) (nd : node) : option node :=
  match nd with
  | NMut t ps v => Some (NMut t (filter (λ p, p_loc p ≠ src) ps) v)
  | NComp c => Some (NComp (with_preds (filter (λ p, p_loc p ≠ src) (c_preds c)) c))
  | NPure _ _ => None
  end.

(** engine.rs:1265-1272 [revoke_succs]. *)
Definition revoke_succs (src : loc) (es : list succ) : M unit :=
  mfor es (λ e,
    emit (EvEff TRemove (Some src) (s_loc e)) ;!
    let! nd := lookup_abs (s_loc e) in
    let! nd' := of_opt PUnreach (preds_remove src nd) in
    put_node (s_loc e) nd').

(** engine.rs:1296-1304 [get_succ_mut]: the first edge with this effect and target. *)
Fixpoint find_succ (eff : effect) (tgt : loc) (es : list succ) : option succ :=
  match es with
  | [] => None
  | e :: es => if decide (s_eff e = eff ∧ s_loc e = tgt) then Some e else find_succ eff tgt es
  end.
Fixpoint mark_succ (b : bool) (eff : effect) (tgt : loc) (es : list succ) : list succ :=
  match es with
  | [] => []
  | e :: es => if decide (s_eff e = eff ∧ s_loc e = tgt)
               then Succ b (s_loc e) (s_eff e) (s_dep e) :: es
               else e :: mark_succ b eff tgt es
  end.
(** reading [get_succ_mut(..).dirty] *)
Definition get_dirty (src : loc) (eff : effect) (tgt : loc) : M bool :=
  let! nd := lookup_abs src in
  match nd with
  | NComp c => match find_succ eff tgt (c_succs c) with
               | Some e => ret (s_dirty e) | None => panic PNoSucc end
  | _ => panic PNoSuccs
  end.
(** assigning [get_succ_mut(..).dirty = b] *)
Definition set_dirty (b : bool) (src : loc) (eff : effect) (tgt : loc) : M unit :=
  let! nd := lookup_abs src in
  match nd with
  | NComp c => match find_succ eff tgt (c_succs c) with
               | Some _ => put_node src (NComp (with_succs (mark_succ b eff tgt (c_succs c)) c))
               | None => panic PNoSucc end
  | _ => panic PNoSuccs
  end.

(** engine.rs:1164-1180 [check_force_map_dep]. *)
Definition check_force_map_dep (t : ty) (f : val → val) (w : val) (l : loc) : M bool :=
  let! nd := res_node t l in
  match nd with
  | NMut _ _ v => ret (bool_decide (w ≠ f v))
  | _ => panic PUnreach
  end.

(** [DCGDep::dirty]: engine.rs:1033,1041,1049,1142,1189,1216. *)
Definition dep_dirty (d : dep) (l : loc) : M bool :=
  match d with
  | DForce _ _ | DAllocStruct | DAllocThunk _ | DAllocCell _ => ret true
  | DForceMap t f w => check_force_map_dep t f w l
  | DForceAbs => panic PUnimpl
  end.
(** [DCGDep::is_absmap() != None]: engine.rs:1032,1040,1048,1139,1186,1212. *)
Definition is_absmap (d : dep) : bool := match d with DForceAbs => true | _ => false end.

(** engine.rs:1306-1328 [dirty_pred_observers]: one iteration of the loop over the observers of [l];
    [rec] is the recursive call.  The closure given to [get_succ_mut] returns [stop]. *)
Definition dirty_step (rec : loc → M unit) (l : loc) (pd : loc * option dep) : M unit :=
  let! stop :=
    match pd.2 with
    | None => ret false
    | Some d => if is_absmap d then ret true
                else let! ch := dep_dirty d l in ret (negb ch)
    end in
  let! stop :=
    if stop : bool then ret true else
      let! b := get_dirty pd.1 Observe l in
      if b : bool then ret true else
        assert (bool_decide (pd.1 ≠ l)) PAssert ;!
        emit (EvBegin TDirty (Some pd.1) l) ;!
        set_dirty true pd.1 Observe l ;!
        ret false in
  if stop : bool then ret tt else
    rec pd.1 ;!
    emit EvEnd.
Fixpoint dirty_obs (fuel : nat) (l : loc) : M unit :=
  match fuel with
  | O => nofuel
  | S fuel =>
      let! nd := lookup_abs l in
      let! ps := of_opt PUnreach (preds_obs nd) in
      mfor ps (dirty_step (dirty_obs fuel) l)
  end.

(** The number of edges marked clean: dirtying visits at most that many locations. *)
Definition clean_count (es : list succ) : nat := length (filter (λ e, s_dirty e = false) es).
Definition node_clean_count (nd : node) : nat :=
  match nd with NComp c => clean_count (c_succs c) | _ => O end.
Definition dirty_fuel (s : dcg) : nat :=
  S (map_fold (λ _ nd n, node_clean_count nd + n)%nat O (table s)).
Definition dirty_observers (l : loc) : M unit := λ s, dirty_obs (dirty_fuel s) l s.

(** engine.rs:1330-1351 [dirty_alloc]; first the body of its loop (1333-1347). *)
Definition dirty_alloc_step (l : loc) (p : loc) : M unit :=
  let! b := get_dirty p Allocate l in
  if b : bool then ret tt else
    set_dirty true p Allocate l ;!
    assert (bool_decide (p ≠ l)) PAssert ;!
    emit (EvBegin TDirty (Some p) l) ;!
    dirty_observers p ;!
    emit EvEnd.
Definition dirty_alloc (l : loc) : M unit :=
  dirty_observers l ;!
  let! nd := lookup_abs l in
  let! ps := of_opt PUnreach (preds_alloc nd) in
  mfor ps (dirty_alloc_step l).

(** engine.rs:1366-1400 [set_]. *)
Definition set_val (t : ty) (l : loc) (v : val) : M unit :=
  let! nd := res_node t l in
  match nd with
  | NMut t' ps v0 =>
      if decide (v0 = v) then ret tt
      else put_node l (NMut t' ps v) ;! dirty_alloc l
  | _ => panic PUnreach
  end.

(** [self.stack.last_mut()] followed by [frame.succs.push]. *)
Definition push_edge (e : succ) (pd : option dep) : M unit :=
  modify (λ s, match stack s with
               | [] => s
               | f :: fs => set_stack (Frame (f_loc f) (f_succs f ++ [(e, pd)]) :: fs) s
               end).

(** engine.rs:1354-1363 [check_cell_change]. *)
Definition check_cell_change (t : ty) (l : loc) (v : val) : M bool :=
  let! nd := res_node t l in
  match nd with NMut _ _ v0 => ret (bool_decide (v0 ≠ v)) | _ => ret true end.

(** engine.rs:1533-1618 [cell]. *)
Definition cell_op (t : ty) (n : name) (v : val) : M loc :=
  let! s := get in
  let id := if structf s then IdStruct (hash_val v) else IdNom n in
  let is_pure := structf s && purity s in
  let l := Loc (cpath s) id in
  let! (do_dirty, do_set, succs, fresh) :=
    match table s !! l with
    | Some _ =>
        let! nd := res_node t l in
        match nd with
        | NMut _ _ _ => ret (false, true, None, false)
        | NComp c => ret (true, false, Some (c_succs c), false)
        | NPure _ _ => ret (false, false, None, false)
        end
    | None => ret (false, false, None, true)
    end in
  let! ac :=
    (if fresh : bool then ret LocFresh
     else let! ch := check_cell_change t l v in
          ret (LocExists (if ch : bool then ContentDiff else ContentSame))) in
  emit (EvBegin (TAlloc ac KRefCell) (cur_loc s) l) ;!
  (if do_set : bool then set_val t l v else ret tt) ;!
  (if do_dirty : bool then dirty_alloc l else ret tt) ;!
  match succs with Some es => revoke_succs l es | None => ret tt end ;!
  emit EvEnd ;!
  (if fresh : bool then put_node l (if is_pure then NPure t v else NMut t [] v) else ret tt) ;!
  (if is_pure then ret tt else push_edge (Succ false l Allocate (DAllocCell v)) None) ;!
  ret l.

(** engine.rs:1620-1625 [set], reached through 2374-2389. *)
Definition set_op (t : ty) (a : art) (v : val) : M unit :=
  match a with
  | ARc _ => panic PNotCell
  | ALoc l =>
      let! s := get in
      match stack s with [] => set_val t l v | _ => panic PSetInThunk end
  end.

(** engine.rs:1627-1810 [thunk], reached through 2427-2450.
    Simplification: for [Eager] the Rust code first runs the function while the engine is mutably
    borrowed; whatever it does, if it returns, 2440's [unreachable!()] is hit; if it calls the
    engine, the [RefCell] panics.  Both are [PUnreach] here. *)
Definition thunk_op (t : ty) (nc : namechoice) (pp : progpt) (arg spur : val) : M loc :=
  let! s := get in
  let nc := match nc with NCNominal n => if structf s then NCStructural else NCNominal n | _ => nc end in
  match nc with
  | NCEager => panic PUnreach
  | NCNaive => panic PUnimpl
  | NCStructural =>
      let l := Loc (cpath s) (IdStruct (hash_app pp arg)) in
      match table s !! l with
      | Some _ => ret l
      | None =>
          push_edge (Succ false l Allocate DAllocStruct) None ;!
          put_node l (NComp (CompNode t [] [] pp arg spur None)) ;!
          ret l
      end
  | NCNominal n =>
      let l := Loc (cpath s) (IdNom n) in
      let! (do_dirty, do_insert, fresh) :=
        match table s !! l with
        | None => ret (false, true, true)
        | Some nd =>
            assert (bool_decide (node_ty nd = t)) PType ;!
            match nd with
            | NPure _ _ => panic PUnreach
            | NMut _ _ _ => ret (true, true, false)
            | NComp c =>
                if decide (c_pp c = pp) then
                  if decide (c_arg c = arg) then ret (false, false, false)
                  else
                    put_node l (NComp (with_res None (with_arg arg c))) ;!
                    ret (true, false, false)
                else panic PFun
            end
        end in
      emit (EvBegin (TAlloc (if fresh : bool then LocFresh
                             else LocExists (if do_dirty : bool then ContentDiff else ContentSame)) KThunk)
                    (cur_loc s) l) ;!
      (if do_dirty : bool then dirty_alloc l else ret tt) ;!
      emit EvEnd ;!
      push_edge (Succ false l Allocate (DAllocThunk arg)) None ;!
      (if do_insert : bool then put_node l (NComp (CompNode t [] [] pp arg spur None)) else ret tt) ;!
      ret l
  end.

(** ** Evaluation and cleaning, by open recursion.
    [prod t l]: [loc_produce::<t>(l)];  [cln t w l]: [ForceDep::<t>{res:w}.clean(l)];
    [frc t l cyc]: [force::<t>(Loc l, cyc)]. *)

(** engine.rs:1942-2085 [force] at a location. *)
Definition is_cycle (s : dcg) (l : loc) : bool := existsb (λ f, bool_decide (f_loc f = l)) (stack s).
Definition is_dup (s : dcg) (l : loc) : bool :=
  match stack s with
  | [] => false
  | f :: _ => existsb (λ e, bool_decide (s_loc e.1 = l ∧ s_eff e.1 = Observe)) (f_succs f)
  end.
Definition force_finish (l : loc) (dup pure : bool) (t : ty) (r : val) : M val :=
  (if dup || pure then ret tt else push_edge (Succ false l Observe (DForce t r)) None) ;!
  ret r.
Definition force_loc (prod : ty → loc → M val) (cln : ty → val → loc → M bool)
    (t : ty) (l : loc) (cyc : option val) : M val :=
  let! s := get in
  let dup := is_dup s l in
  let! nd := res_node t l in
  match nd with
  | NPure _ v | NMut _ _ v =>
      emit (EvEff (TForce RefGet) (cur_loc s) l) ;!
      force_finish l dup (match nd with NPure _ _ => true | _ => false end) t v
  | NComp c =>
      let pure := is_struct l && bool_decide (length (c_succs c) = O) && purity s in
      if is_cycle s l then
        match cyc with
        | None => panic PCycle
        | Some o =>
            emit (EvBegin (TForce CompCacheHit) (cur_loc s) l) ;!
            emit EvEnd ;!
            force_finish l dup pure t o
        end
      else
        match c_res c with
        | None =>
            emit (EvBegin (TForce CompCacheMiss) (cur_loc s) l) ;!
            assert (negb dup) PAssert ;!
            let! r := prod t l in
            emit EvEnd ;!
            force_finish l dup pure t r
        | Some r0 =>
            emit (EvBegin (TForce CompCacheHit) (cur_loc s) l) ;!
            let! _ := cln t r0 l in
            emit EvEnd ;!
            let! nd' := res_node t l in
            match nd' with
            | NComp c' => match c_res c' with
                          | Some r => force_finish l dup pure t r
                          | None => panic PUnreach end
            | _ => panic PUnreach
            end
        end
  end.
Definition force_art (frc : ty → loc → option val → M val) (t : ty) (a : art) (cyc : option val) : M val :=
  match a with ARc v => ret v | ALoc l => frc t l cyc end.

(** engine.rs:1812-1870 [force_map]. *)
Definition force_map_art (frc : ty → loc → option val → M val) (t : ty) (a : art) (f : val → val) : M val :=
  match a with
  | ARc v => ret (f v)
  | ALoc l =>
      let! nd := res_node t l in
      match nd with
      | NMut _ _ v =>
          let! s := get in
          emit (EvEff (TForce RefGet) (cur_loc s) l) ;!
          push_edge (Succ false l Observe (DForceMap t f (f v))) (Some (DForceMap t f (f v))) ;!
          ret (f v)
      | _ => let! v := frc t l None in ret (f v)
      end
  end.

(** engine.rs:1875-1940 [force_abs]. *)
Definition force_abs_art (frc : ty → loc → option val → M val) (t : ty) (a : art) (f : val → val) : M val :=
  match a with
  | ARc v => ret (f v)
  | ALoc l =>
      let! nd := res_node t l in
      match nd with
      | NMut _ _ v =>
          let! s := get in
          emit (EvEff (TForce RefGet) (cur_loc s) l) ;!
          push_edge (Succ false l Observe DForceAbs) (Some DForceAbs) ;!
          ret (f v)
      | _ => let! v := frc t l None in ret (f v)
      end
  end.

(** A client program, run against the engine. *)
Fixpoint run (frc : ty → loc → option val → M val) (c : comp) : M val :=
  match c with
  | Ret v => ret v
  | Fail => panic PUser
  | Force t a cyc k => let! v := force_art frc t a cyc in run frc (k v)
  | ForceMap t a f k => let! v := force_map_art frc t a f in run frc (k v)
  | ForceAbs t a f k => let! v := force_abs_art frc t a f in run frc (k v)
  | Cell t n v k => let! l := cell_op t n v in run frc (k l)
  | Thunk t nc pp arg spur k => let! l := thunk_op t nc pp arg spur in run frc (k l)
  | SetC t a v k => set_op t a v ;! run frc k
  (* engine.rs:1517-1529 [ns] *)
  | Ns n b k =>
      let! s := get in
      modify (set_cpath (n :: cpath s)) ;!
      let! v := run frc b in
      modify (set_cpath (cpath s)) ;!
      run frc (k v)
  (* engine.rs:1503-1515 [structural] *)
  | Structural b k =>
      let! s := get in
      modify (set_structf true) ;!
      let! v := run frc b in
      modify (set_structf (structf s)) ;!
      run frc (k v)
  end.

(** engine.rs:971-981: the new edges of the finished frame are entered as predecessors. *)
Definition insert_preds (src : loc) (es : list (succ * option dep)) : M unit :=
  mfor es (λ '(e, pd),
    assert (negb (s_dirty e)) PDirtyFrame ;!
    let! nd := lookup_abs (s_loc e) in
    let! nd' := of_opt PUnreach (preds_insert (Pred src (s_eff e) pd) nd) in
    put_node (s_loc e) nd').

(** engine.rs:933-992 [loc_produce], in three parts: before, user code, after. *)
Definition produce_begin (t : ty) (l : loc) : M (compnode * path) :=
  let! nd := res_node t l in
  match nd with
  | NComp c =>
      put_node l (NComp (with_succs [] c)) ;!
      revoke_succs l (c_succs c) ;!
      modify (λ s, set_stack (Frame l [] :: stack s) s) ;!
      let! s := get in
      modify (set_cpath (l_path l)) ;!
      let! nd' := res_node t l in
      match nd' with
      | NComp c' => ret (c', cpath s)
      | _ => panic PInternal
      end
  | _ => panic PNoSuccs
  end.
Definition produce_end (t : ty) (l : loc) (prev : path) (r : val) : M unit :=
  modify (set_cpath prev) ;!
  let! s := get in
  match stack s with
  | [] => panic PStack
  | f :: fs =>
      modify (set_stack fs) ;!
      assert (bool_decide (f_loc f = l)) PAssert ;!
      insert_preds l (f_succs f) ;!
      let! nd := res_node t l in
      match nd with
      | NComp c => put_node l (NComp (with_res (Some r) (with_succs (f_succs f).*1 c)))
      | _ => panic PInternal
      end
  end.
Definition produce_body (frc : ty → loc → option val → M val) (t : ty) (l : loc) : M val :=
  let! (c, prev) := produce_begin t l in
  modify (add_run l) ;!
  let! r := run frc (code (c_pp c) (c_arg c) (c_spur c)) in
  produce_end t l prev r ;!
  ret r.

(** [DCGDep::clean]: engine.rs:1034,1042,1050,1145,1192,1220. *)
Definition dep_clean (cln : ty → val → loc → M bool) (d : dep) (l : loc) : M bool :=
  match d with
  | DForce t w => cln t w l
  | DForceMap t f w => check_force_map_dep t f w l
  | DForceAbs => ret true
  | DAllocStruct => ret false
  | DAllocThunk _ | DAllocCell _ => ret true
  end.

(** engine.rs:994-1027 [clean_comp]: [w] is [this_dep.res]. *)
Fixpoint clean_comp (prod : ty → loc → M val) (cln : ty → val → loc → M bool)
    (t : ty) (w : val) (l : loc) (cache : val) (es : list succ) : M bool :=
  match es with
  | [] => ret (bool_decide (w ≠ cache))
  | e :: es =>
      let! dirty := get_dirty l (s_eff e) (s_loc e) in
      if dirty : bool then
        emit (EvBegin TCleanRec (Some l) (s_loc e)) ;!
        let! ch := dep_clean cln (s_dep e) (s_loc e) in
        if ch : bool then
          emit (EvBegin TCleanEval (Some l) (s_loc e)) ;!
          let! r := prod t l in
          emit EvEnd ;!
          emit EvEnd ;!
          ret (bool_decide (r ≠ w))
        else
          set_dirty false l (s_eff e) (s_loc e) ;!
          emit (EvEff TCleanEdge (Some l) (s_loc e)) ;!
          emit EvEnd ;!
          clean_comp prod cln t w l cache es
      else clean_comp prod cln t w l cache es
  end.

(** engine.rs:1220-1258 [ForceDep::clean]. *)
Definition clean_body (prod : ty → loc → M val) (cln : ty → val → loc → M bool)
    (t : ty) (w : val) (l : loc) : M bool :=
  let! nd := res_node t l in
  match nd with
  | NPure _ _ => ret false
  | NMut _ _ v => ret (bool_decide (v ≠ w))
  | NComp c =>
      match c_res c with
      | Some r => clean_comp prod cln t w l r (c_succs c)
      | None =>
          emit (EvBegin TCleanEval None l) ;!
          let! r := prod t l in
          emit EvEnd ;!
          ret (bool_decide (w ≠ r))
      end
  end.

(** Tying the knot with fuel. *)
Fixpoint produce (n : nat) (t : ty) (l : loc) : M val :=
  match n with
  | O => nofuel
  | S n => produce_body (force_loc (produce n) (clean n)) t l
  end
with clean (n : nat) (t : ty) (w : val) (l : loc) : M bool :=
  match n with
  | O => nofuel
  | S n => clean_body (produce n) (clean n) t w l
  end.
Definition force (n : nat) : ty → loc → option val → M val := force_loc (produce n) (clean n).

(** An editor program (or any client program) run against the DCG engine. *)
Definition exec (n : nat) (c : comp) : M val := run (force n) c.

End Engine.
