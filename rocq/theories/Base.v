(** * Names, namespaces, locations and values.

    Models src/engine.rs lines 291-354 (Name, Loc, ArtId), 421-440 (NameSym),
    455-459 (Path) and src/macros.rs lines 31-43 (ProgPt). *)
From stdpp Require Export gmap strings list sets.
From Coq Require Export ZArith.
Global Set Default Proof Using "Type".

(** engine.rs:430-439, [enum NameSym].  [Rc] is dropped: sharing is not observable.
    [usize]/[isize] are unbounded here. *)
Inductive namesym :=
  | SUnit
  | SHash64
  | SString (s : string)
  | SUsize (n : N)
  | SIsize (z : Z)
  | SPair (a b : namesym)
  | SForkL (a : namesym)
  | SForkR (a : namesym).

(** engine.rs:297-300, [struct Name].  Derived [PartialEq] compares both fields. *)
Record name := Name { nm_hash : N; nm_sym : namesym }.

(** engine.rs:456-459, [enum Path]; [Child(p,n)] is [n :: p], [Empty] is [[]]. *)
Definition path := list name.

(** engine.rs:341-346, [enum ArtId]. *)
Inductive artid :=
  | IdStruct (h : N)
  | IdNom (n : name).

(** engine.rs:312-316, [struct Loc].  The [hash] field is a function of the two others
    (engine.rs:1274-1277, 1547-1548), so equality of locations is equality of path and id. *)
Record loc := Loc { l_path : path; l_id : artid }.

Global Instance namesym_eq_dec : EqDecision namesym.
Proof. solve_decision. Defined.
Global Instance name_eq_dec : EqDecision name.
Proof. solve_decision. Defined.
Global Instance artid_eq_dec : EqDecision artid.
Proof. solve_decision. Defined.
Global Instance loc_eq_dec : EqDecision loc.
Proof. solve_decision. Defined.

(** Countability is only needed to use locations as keys of finite maps. *)
Fixpoint namesym_enc (s : namesym) : gen_tree (string + (N + Z)) :=
  match s with
  | SUnit => GenNode 0 []
  | SHash64 => GenNode 1 []
  | SString s => GenLeaf (inl s)
  | SUsize n => GenLeaf (inr (inl n))
  | SIsize z => GenLeaf (inr (inr z))
  | SPair a b => GenNode 2 [namesym_enc a; namesym_enc b]
  | SForkL a => GenNode 3 [namesym_enc a]
  | SForkR a => GenNode 4 [namesym_enc a]
  end.
Fixpoint namesym_dec (t : gen_tree (string + (N + Z))) : option namesym :=
  match t with
  | GenNode 0 [] => Some SUnit
  | GenNode 1 [] => Some SHash64
  | GenLeaf (inl s) => Some (SString s)
  | GenLeaf (inr (inl n)) => Some (SUsize n)
  | GenLeaf (inr (inr z)) => Some (SIsize z)
  | GenNode 2 [a; b] =>
      match namesym_dec a, namesym_dec b with
      | Some a, Some b => Some (SPair a b) | _, _ => None end
  | GenNode 3 [a] => match namesym_dec a with Some a => Some (SForkL a) | _ => None end
  | GenNode 4 [a] => match namesym_dec a with Some a => Some (SForkR a) | _ => None end
  | _ => None
  end.
Lemma namesym_dec_enc s : namesym_dec (namesym_enc s) = Some s.
Proof. induction s; simpl; rewrite ?IHs, ?IHs1, ?IHs2; reflexivity. Qed.
Global Instance namesym_countable : Countable namesym :=
  inj_countable namesym_enc namesym_dec namesym_dec_enc.
Global Instance name_countable : Countable name :=
  inj_countable' (λ n, (nm_hash n, nm_sym n)) (λ p, Name p.1 p.2)
    (λ n, match n with Name _ _ => eq_refl end).
Global Instance artid_countable : Countable artid :=
  inj_countable' (λ i, match i with IdStruct h => inl h | IdNom n => inr n end)
    (λ i, match i with inl h => IdStruct h | inr n => IdNom n end)
    (λ i, match i with IdStruct _ => eq_refl | IdNom _ => eq_refl end).
Global Instance loc_countable : Countable loc :=
  inj_countable' (λ l, (l_path l, l_id l)) (λ p, Loc p.1 p.2)
    (λ l, match l with Loc _ _ => eq_refl end).

(** Dynamic types: Rust's [TypeId].  An abstract tag with decidable equality. *)
Definition ty := N.
(** macros.rs:31-43, [struct ProgPt]: a symbol. *)
Definition progpt := string.

(** First-order values.  The engine is generic in its value types; it only clones, compares
    ([Eq]) and hashes values, and stores arts inside of them.  [VRc]/[VLoc] are the two
    [AbsArt] constructors (engine.rs:1412-1415) as first-class values. *)
Inductive val :=
  | VUnit
  | VBool (b : bool)
  | VInt (z : Z)
  | VStr (s : string)
  | VName (n : name)
  | VPair (a b : val)
  | VInl (a : val)
  | VInr (a : val)
  | VRc (a : val)
  | VLoc (l : loc).
Global Instance val_eq_dec : EqDecision val.
Proof. solve_decision. Defined.

(** engine.rs:1412-1415, [enum AbsArt]: an immutable value, or a location of the table. *)
Inductive art :=
  | ARc (v : val)
  | ALoc (l : loc).
Global Instance art_eq_dec : EqDecision art.
Proof. solve_decision. Defined.

(** engine.rs:694-704, [enum NameChoice]. *)
Inductive namechoice :=
  | NCNaive
  | NCEager
  | NCStructural
  | NCNominal (n : name).
Global Instance namechoice_eq_dec : EqDecision namechoice.
Proof. solve_decision. Defined.

Definition is_struct (l : loc) : bool :=
  match l_id l with IdStruct _ => true | IdNom _ => false end.
