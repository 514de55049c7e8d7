(** * The naming discipline.

    The reference semantics of [RefSem.v], instrumented with the conditions under which the
    incremental engine is claimed to agree with it.  [None] means: the program panics, runs out of
    fuel, or violates the discipline.  Inside one outermost demand ([force] from the editor):

    - S1  a location observed or allocated earlier in this demand is not re-bound to different content;
    - S2  a location is never switched between cell and thunk;
    - S3  [set] is only applied to nominal cells (structural ones are immutable);
    - S5  a cell observed through [force_map] by a thunk activation is observed only once by it, and
          not through [force_abs] (whose edges the engine never dirties);
    - S6  (purity optimisation on) a structurally named thunk only observes and allocates
          structurally named locations;
    - S7  the spurious arguments of a location never change;
    - S8  structural identity: a location named by a hash is always given the same content;
    - S9  a force never hits a cycle ([force_cycle] defaults are never used);
    - S10 thunks are forced in the engine's base mode [md0] (not inside a [structural] block, unless
          the whole engine runs structurally);
    - S13 a thunk does not allocate its own location.

    [Refuted.v] shows, for each condition but S3, a program violating it on which the engine goes wrong
    (S3, S7 and S8 concern documented preconditions); [Necessity.v] shows that it violates only that one. *)
From Verif Require Export RefSem.

(** [d_seen]: locations observed or allocated in the current demand; [d_done]: thunks whose
    evaluation was completed in the current demand; [d_full]/[d_map]: locations the innermost executing
    thunk has observed by [force]/[force_map]; all empty at the editor level. *)
Record dstate := DState {
  d_store : store;
  d_seen : gset loc;
  d_done : gset loc;
  d_full : gset loc;
  d_map : gset loc;
}.
Definition d_init (σ : store) : dstate := DState σ ∅ ∅ ∅ ∅.

Definition dM (A : Type) := dstate → option (A * dstate).
Definition dbind {A B} (m : dM A) (f : A → dM B) : dM B :=
  λ p, match m p with Some (a, p') => f a p' | None => None end.

Section Discipline.
Context `{Prog}.
Context (opt : bool) (md0 : bool).

(** S6: may the executing thunk touch this location? *)
Definition s6_ok (stk : list loc) (l : loc) : bool :=
  match stk with
  | [] => true
  | x :: _ => negb (opt && is_struct x && negb (is_struct l))
  end.

(** Is the cell at [l] one with dependency tracking?  (Structural cells are untracked when the
    purity optimisation is on.) *)
Definition tracked (l : loc) : bool := negb (is_struct l && opt).

(** Store [ct] at [l] and remember it as seen (not at the editor level). *)
Definition d_write (stk : list loc) (l : loc) (ct : content) (p : dstate) : dstate :=
  DState (<[l := ct]> (d_store p))
         (match stk with [] => d_seen p | _ => {[l]} ∪ d_seen p end)
         (d_done p) (d_full p) (d_map p).

(** S1, and everything else about re-binding [l] from [old] to [new]. *)
Definition rebind_ok (l : loc) (old : option content) (new : content) (seen : gset loc) : bool :=
  match old with
  | None => true
  | Some old =>
      bool_decide (old = new) ||
      (negb (is_struct l)                       (* S8 *)
       && bool_decide (l ∉ seen)                (* S1 *)
       && match old, new with
          | CCell t _, CCell t' _ => bool_decide (t = t')
          | CThunk t pp _ sp, CThunk t' pp' _ sp' => bool_decide (t = t' ∧ pp = pp' ∧ sp = sp')  (* S7 *)
          | _, _ => false                       (* S2 *)
          end)
  end.

Definition d_alloc (stk : list loc) (l : loc) (ct : content) : dM loc := λ p,
  if s6_ok stk l && rebind_ok l (d_store p !! l) ct (d_seen p)
     && (is_struct l || negb (bool_decide (head stk = Some l)))  (* S13 *)
  then Some (l, d_write stk l ct p) else None.

Definition d_cell (stk : list loc) (pth : path) (md : bool) (t : ty) (n : name) (v : val) : dM loc :=
  d_alloc stk (Loc pth (if md then IdStruct (hash_val v) else IdNom n)) (CCell t v).

Definition d_thunk (stk : list loc) (pth : path) (md : bool) (t : ty) (nc : namechoice) (pp : progpt)
    (arg spur : val) : dM loc :=
  match nc with
  | NCEager | NCNaive => λ _, None
  | NCStructural => d_alloc stk (Loc pth (IdStruct (hash_app pp arg))) (CThunk t pp arg spur)
  | NCNominal n => d_alloc stk (Loc pth (if md then IdStruct (hash_app pp arg) else IdNom n))
                               (CThunk t pp arg spur)
  end.

Definition d_set (stk : list loc) (t : ty) (a : art) (v : val) : dM unit := λ p,
  match a, stk with
  | ALoc l, [] =>
      match d_store p !! l with
      | Some (CCell t' _) => if decide (t' = t ∧ is_struct l = false)
                             then Some (tt, d_write stk l (CCell t v) p) else None
      | _ => None
      end
  | _, _ => None
  end.

(** Record an observation of [l] by the executing thunk. *)
Definition d_observe (stk : list loc) (l : loc) (map : bool) (p : dstate) : dstate :=
  match stk with
  | [] => p
  | _ => DState (d_store p) ({[l]} ∪ d_seen p) (d_done p)
                (if map then d_full p else {[l]} ∪ d_full p)
                (if map then {[l]} ∪ d_map p else d_map p)
  end.

(** Observing a cell with [force]. *)
Definition d_get (stk : list loc) (l : loc) (v : val) : dM val := λ p,
  if s6_ok stk l && bool_decide (l ∉ d_map p) then Some (v, d_observe stk l false p) else None.

(** End of the evaluation of thunk [l] called from a frame with observation sets of [p]. *)
Definition d_leave (stk : list loc) (l : loc) (p p' : dstate) : dstate :=
  match stk with
  | [] => d_init (d_store p')
  | _ => DState (d_store p') (d_seen p') ({[l]} ∪ d_done p') ({[l]} ∪ d_full p) (d_map p)
  end.

(** [force_map] (and [force_abs], [abs = true]) at a location, given [force]. *)
Definition d_force_map (frc : ty → loc → dM val) (abs : bool) (stk : list loc) (t : ty) (l : loc)
    (f : val → val) : dM val := λ p,
  match d_store p !! l with
  | Some (CCell t' v) =>
      if decide (t' = t) then
        if tracked l then
          match stk with
          | [] => Some (f v, p)
          | _ => if negb abs && s6_ok stk l && bool_decide (l ∉ d_map p ∧ l ∉ d_full p)
                 then Some (f v, d_observe stk l true p) else None
          end
        else match frc t l p with Some (v, p') => Some (f v, p') | None => None end
      else None
  | Some (CThunk _ _ _ _) =>
      match frc t l p with Some (v, p') => Some (f v, p') | None => None end
  | None => None
  end.

Definition d_art (frc : ty → loc → dM val) (t : ty) (a : art) : dM val :=
  match a with ARc v => λ p, Some (v, p) | ALoc l => frc t l end.

Fixpoint d_run (frc : bool → ty → loc → dM val)
    (stk : list loc) (pth : path) (md : bool) (c : comp) : dM val :=
  match c with
  | Ret v => λ p, Some (v, p)
  | Fail => λ _, None
  | Force t a _ k => dbind (d_art (frc md) t a) (λ v, d_run frc stk pth md (k v))
  | ForceMap t a f k =>
      dbind (match a with ARc v => λ p, Some (f v, p) | ALoc l => d_force_map (frc md) false stk t l f end)
            (λ v, d_run frc stk pth md (k v))
  | ForceAbs t a f k =>
      dbind (match a with ARc v => λ p, Some (f v, p) | ALoc l => d_force_map (frc md) true stk t l f end)
            (λ v, d_run frc stk pth md (k v))
  | Cell t n v k => dbind (d_cell stk pth md t n v) (λ l, d_run frc stk pth md (k l))
  | Thunk t nc pp arg spur k => dbind (d_thunk stk pth md t nc pp arg spur) (λ l, d_run frc stk pth md (k l))
  | SetC t a v k => dbind (d_set stk t a v) (λ _, d_run frc stk pth md k)
  | Ns n b k => dbind (d_run frc stk (n :: pth) md b) (λ v, d_run frc stk pth md (k v))
  | Structural b k => dbind (d_run frc stk pth true b) (λ v, d_run frc stk pth md (k v))
  end.

Fixpoint d_force (n : nat) (stk : list loc) (md : bool) (t : ty) (l : loc) : dM val := λ p,
  match d_store p !! l with
  | None => None
  | Some (CCell t' v) => if decide (t' = t) then d_get stk l v p else None
  | Some (CThunk t' pp arg spur) =>
      if decide (t' = t ∧ l ∉ stk ∧ md = md0 ∧ s6_ok stk l = true) then
        match n with
        | O => None
        | S n =>
            match d_run (d_force n (l :: stk)) (l :: stk) (l_path l) md (code pp arg spur)
                        (DState (d_store p) ({[l]} ∪ d_seen p) (d_done p) ∅ ∅) with
            | Some (v, p') => Some (v, d_leave stk l p p')
            | None => None
            end
        end
      else None
  end.

(** A whole editor program in the root namespace, starting in the base mode. *)
Definition d_exec (n : nat) (c : comp) : dM val := d_run (d_force n []) [] [] md0 c.

End Discipline.
