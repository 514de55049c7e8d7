(** * Client programs.

    A client of the library is Rust code that calls the public API
    (src/engine.rs lines 2327-2573).  It is modelled as a tree: the next API call and, for each
    answer, the rest of the program.  The same type serves the editor (outermost program, empty
    stack) and thunk bodies.  Rust code between API calls is pure computation, hence Coq
    functions in the continuations. *)
From Verif Require Export Base.

Inductive comp :=
  (** return a value *)
  | Ret (v : val)
  (** user code panics *)
  | Fail
  (** engine.rs:2478-2491 [force] ([cyc = None]) and 2500-2513 [force_cycle] *)
  | Force (t : ty) (a : art) (cyc : option val) (k : val → comp)
  (** engine.rs:2525-2544 [force_map].  The map also receives the art being forced; here that
      argument is already supplied ([f] may mention it). *)
  | ForceMap (t : ty) (a : art) (f : val → val) (k : val → comp)
  (** engine.rs:2549-2573 [force_abs]; [f] is [absmapfam.map arg].  The other members of the
      family ([abs], [join], [diff], [is_dirty]) are never consulted by the engine, except [abs],
      whose result is stored and never read. *)
  | ForceAbs (t : ty) (a : art) (f : val → val) (k : val → comp)
  (** engine.rs:2360-2371 [cell] *)
  | Cell (t : ty) (n : name) (v : val) (k : loc → comp)
  (** engine.rs:2427-2450 [thunk]; [pp] identifies the code, [arg] the compared arguments,
      [spur] the spurious ones (and any captured environment). *)
  | Thunk (t : ty) (nc : namechoice) (pp : progpt) (arg spur : val) (k : loc → comp)
  (** engine.rs:2374-2389 [set] *)
  | SetC (t : ty) (a : art) (v : val) (k : comp)
  (** engine.rs:2327-2335 [ns] *)
  | Ns (n : name) (body : comp) (k : val → comp)
  (** engine.rs:2338-2346 [structural] *)
  | Structural (body : comp) (k : val → comp).

(** [put] (engine.rs:2350-2352) creates [ARc v] and needs no engine: it is a Coq function. *)
Definition put (v : val) : art := ARc v.

(** The static parts of a program: the code at each program point, and the hash function.
    engine.rs:39-45 [my_hash] is [DefaultHasher]; nothing is assumed about it here. *)
Class Prog := {
  code : progpt → val → val → comp;
  hash_val : val → N;               (* engine.rs:1543  my_hash(&val)             *)
  hash_app : progpt → val → N;      (* engine.rs:1658  my_hash(&(&prog_pt,&arg)) *)
}.

(** Sequencing of programs (used to build editor programs). *)
Fixpoint cbind (c : comp) (g : val → comp) : comp :=
  match c with
  | Ret v => g v
  | Fail => Fail
  | Force t a cyc k => Force t a cyc (λ v, cbind (k v) g)
  | ForceMap t a f k => ForceMap t a f (λ v, cbind (k v) g)
  | ForceAbs t a f k => ForceAbs t a f (λ v, cbind (k v) g)
  | Cell t n v k => Cell t n v (λ l, cbind (k l) g)
  | Thunk t nc pp arg spur k => Thunk t nc pp arg spur (λ l, cbind (k l) g)
  | SetC t a v k => SetC t a v (cbind k g)
  | Ns n b k => Ns n b (λ v, cbind (k v) g)
  | Structural b k => Structural b (λ v, cbind (k v) g)
  end.
