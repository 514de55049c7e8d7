(** * The specification: from-scratch evaluation.

    What a client program means when nothing is ever cached.  The store maps each location to a
    cell's value or to a suspended computation; forcing a thunk always runs its body again.
    There are no results stored, no edges and no dirty bits here: this file is meant to be read
    on its own, against the documentation of the API (src/engine.rs 2327-2573, src/lib.rs). *)
From Verif Require Export Engine.

(** What a location holds. *)
Inductive content :=
  | CCell (t : ty) (v : val)
  | CThunk (t : ty) (pp : progpt) (arg spur : val).
Global Instance content_eq_dec : EqDecision content.
Proof. solve_decision. Defined.
Definition content_ty (ct : content) : ty := match ct with CCell t _ => t | CThunk t _ _ _ => t end.

Notation store := (gmap loc content).

(** [r_log]: the thunks whose body was run, most recent first. *)
Record rstate := RState { r_store : store; r_log : list loc }.

Inductive rout (A : Type) :=
  | ROk (a : A) (st : rstate)
  | RPanic (r : reason)
  | RFuel.
Arguments ROk {A} a st. Arguments RPanic {A} r. Arguments RFuel {A}.

Definition rM (A : Type) := rstate → rout A.
Definition rbind {A B} (m : rM A) (f : A → rM B) : rM B :=
  λ st, match m st with ROk a st' => f a st' | RPanic r => RPanic r | RFuel => RFuel end.
Definition rput (l : loc) (ct : content) : rM unit :=
  λ st, ROk tt (RState (<[l := ct]> (r_store st)) (r_log st)).

Section RefSem.
Context `{Prog}.

(** [cell]: bind the name (or, in structural mode, the hash of the value) in the current namespace.
    Re-binding at another type is an error. *)
Definition ref_cell (pth : path) (md : bool) (t : ty) (n : name) (v : val) : rM loc := λ st,
  let l := Loc pth (if md then IdStruct (hash_val v) else IdNom n) in
  match r_store st !! l with
  | Some ct => if decide (content_ty ct = t) then rbind (rput l (CCell t v)) (λ _ st, ROk l st) st
               else RPanic PType
  | None => rbind (rput l (CCell t v)) (λ _ st, ROk l st) st
  end.

(** [thunk]: likewise.  Re-binding a name to a different function is an error. *)
Definition ref_thunk (pth : path) (md : bool) (t : ty) (nc : namechoice) (pp : progpt) (arg spur : val)
    : rM loc := λ st,
  match nc with
  | NCEager => RPanic PUnreach
  | NCNaive => RPanic PUnimpl
  | NCStructural | NCNominal _ =>
      let id := match nc with
                | NCNominal n => if md then IdStruct (hash_app pp arg) else IdNom n
                | _ => IdStruct (hash_app pp arg) end in
      let l := Loc pth id in
      match r_store st !! l with
      | Some ct =>
          if decide (content_ty ct = t) then
            match ct with
            | CThunk _ pp' _ _ => if decide (pp' = pp)
                                  then rbind (rput l (CThunk t pp arg spur)) (λ _ st, ROk l st) st
                                  else RPanic PFun
            | CCell _ _ => rbind (rput l (CThunk t pp arg spur)) (λ _ st, ROk l st) st
            end
          else RPanic PType
      | None => rbind (rput l (CThunk t pp arg spur)) (λ _ st, ROk l st) st
      end
  end.

(** [set]: only for cells, only from the editor (no thunk executing). *)
Definition ref_set (stk : list loc) (t : ty) (a : art) (v : val) : rM unit := λ st,
  match a with
  | ARc _ => RPanic PNotCell
  | ALoc l =>
      match stk with
      | _ :: _ => RPanic PSetInThunk
      | [] =>
          match r_store st !! l with
          | None => RPanic PDangling
          | Some (CCell t' _) => if decide (t' = t) then rput l (CCell t v) st else RPanic PType
          | Some (CThunk t' _ _ _) => if decide (t' = t) then RPanic PUnreach else RPanic PType
          end
      end
  end.

Definition ref_art (frc : ty → loc → option val → rM val) (t : ty) (a : art) (cyc : option val) : rM val :=
  match a with ARc v => λ st, ROk v st | ALoc l => frc t l cyc end.

(** [stk]: the thunks being evaluated, innermost first; [pth]: current namespace; [md]: structural mode. *)
Fixpoint ref_run (frc : bool → ty → loc → option val → rM val)
    (stk : list loc) (pth : path) (md : bool) (c : comp) : rM val :=
  match c with
  | Ret v => λ st, ROk v st
  | Fail => λ _, RPanic PUser
  | Force t a cyc k => rbind (ref_art (frc md) t a cyc) (λ v, ref_run frc stk pth md (k v))
  | ForceMap t a f k | ForceAbs t a f k =>
      rbind (ref_art (frc md) t a None) (λ v, ref_run frc stk pth md (k (f v)))
  | Cell t n v k => rbind (ref_cell pth md t n v) (λ l, ref_run frc stk pth md (k l))
  | Thunk t nc pp arg spur k => rbind (ref_thunk pth md t nc pp arg spur) (λ l, ref_run frc stk pth md (k l))
  | SetC t a v k => rbind (ref_set stk t a v) (λ _, ref_run frc stk pth md k)
  | Ns n b k => rbind (ref_run frc stk (n :: pth) md b) (λ v, ref_run frc stk pth md (k v))
  | Structural b k => rbind (ref_run frc stk pth true b) (λ v, ref_run frc stk pth md (k v))
  end.

(** Forcing: a cell gives its value; a thunk runs its body in the namespace it was allocated in.
    Fuel bounds the nesting depth of forces. *)
Fixpoint ref_force (n : nat) (stk : list loc) (md : bool) (t : ty) (l : loc) (cyc : option val) : rM val := λ st,
  match r_store st !! l with
  | None => RPanic PDangling
  | Some ct =>
      if decide (content_ty ct = t) then
        match ct with
        | CCell _ v => ROk v st
        | CThunk _ pp arg spur =>
            if decide (l ∈ stk) then
              match cyc with None => RPanic PCycle | Some o => ROk o st end
            else match n with
                 | O => RFuel
                 | S n => ref_run (ref_force n (l :: stk)) (l :: stk) (l_path l) md (code pp arg spur)
                                  (RState (r_store st) (l :: r_log st))
                 end
        end
      else RPanic PType
  end.

(** A whole editor program, from a given store, in the root namespace. *)
Definition ref_exec (n : nat) (md : bool) (c : comp) : rM val := ref_run (ref_force n []) [] [] md c.

End RefSem.
