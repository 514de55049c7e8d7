(** * Reflection of values through their debug strings (/repo/src/parse_val.rs): C41.

    [parse_val] prints a value with Rust's [{:?}], lexes and parses the string, and returns a reflected [Val].
    Characters are bytes (type [ascii], 8 bits), as in the Rust code ([into_bytes], [c as char]).
    Results: a value, a panic, or [OutOfFuel]; [C41_terminates] shows that the last never happens. *)
From Coq Require Import Ascii.
From Verif Require Export Names.
Local Open Scope char_scope.

Inductive res (A : Type) := Ok (a : A) | Panic | OutOfFuel.
Arguments Ok {A} a. Arguments Panic {A}. Arguments OutOfFuel {A}.
Definition rbind {A B} (r : res A) (f : A → res B) : res B := match r with Ok a => f a | Panic => Panic | OutOfFuel => OutOfFuel end.
Notation "'do' x <- r ; e" := (rbind r (λ x, e)) (at level 60, x pattern, r at next level, right associativity).

(** src/reflect.rs:98-108 [enum Const]; 69-97 [enum Val] ([ValTODO] is never built by the parser; the content of an
    [Art] built by the parser is always [Unknown] and left out); reflect.rs [Path] and [Loc]. *)
Inductive const := CNum (z : Z) | CNat (n : N) | CString (s : string).
Inductive rval :=
  | RConstr (c : name) (args : list rval) | RTuple (vs : list rval) | RVec (vs : list rval)
  | RStruct (c : name) (fields : list (name * rval)) | RArt (path : list name) (id : name) | RName (n : name)
  | RConst (c : const).

(** parse_val.rs:17-39 [BalTok], [Tok]. *)
Inductive baltok := Paren | Bracket | Brace.
Inductive tok := TLeft (b : baltok) | TRight (b : baltok) | TConst (c : const) | TIdent (s : string) | TColon | TComma.
Global Instance const_eq_dec : EqDecision const. Proof. solve_decision. Defined.
Global Instance baltok_eq_dec : EqDecision baltok. Proof. solve_decision. Defined.
Global Instance tok_eq_dec : EqDecision tok. Proof. solve_decision. Defined.

(** ** The lexer: parse_val.rs:68-164. *)
Definition is_digit (c : ascii) : bool := (48 <=? N_of_ascii c)%N && (N_of_ascii c <=? 57)%N.
Definition is_alpha (c : ascii) : bool :=
  ((97 <=? N_of_ascii c)%N && (N_of_ascii c <=? 122)%N) || ((65 <=? N_of_ascii c)%N && (N_of_ascii c <=? 90)%N) || (N_of_ascii c =? 95)%N.
Definition is_alnum (c : ascii) : bool := is_alpha c || is_digit c.
(** The inner loops, which pop characters while [p] holds and push the first other one back. *)
Fixpoint span (p : ascii → bool) (l : list ascii) : list ascii * list ascii :=
  match l with
  | [] => ([], [])
  | c :: l' => if p c then let '(a, b) := span p l' in (c :: a, b) else ([], l)
  end.
Definition str (l : list ascii) : string := string_of_list_ascii l.
(** [usize::from_str_radix] and [isize::from_str_radix] on digits, and on a minus sign with digits; 64 bits. *)
Definition dec (l : list ascii) : N := foldl (λ a c, 10 * a + (N_of_ascii c - 48))%N 0%N l.
Definition usize_of_digits (l : list ascii) : res N := if (dec l <? 2 ^ 64)%N then Ok (dec l) else Panic.
Definition isize_of_neg (l : list ascii) : res Z :=
  match l with [] => Panic | _ => if (dec l <=? 2 ^ 63)%N then Ok (- Z.of_N (dec l))%Z else Panic end.
Definition push (ts : list tok) (r : res (list tok)) : res (list tok) := do l <- r; Ok (ts ++ l).
Definition punct (c : ascii) : option tok :=
  if decide (c = ":") then Some TColon else if decide (c = ",") then Some TComma
  else if decide (c = "{") then Some (TLeft Brace) else if decide (c = "[") then Some (TLeft Bracket)
  else if decide (c = "(") then Some (TLeft Paren) else if decide (c = "}") then Some (TRight Brace)
  else if decide (c = "]") then Some (TRight Bracket) else if decide (c = ")") then Some (TRight Paren) else None.
Definition not_quote (c : ascii) : bool := bool_decide (c ≠ """").
Fixpoint lexf (fuel : nat) (chars : list ascii) : res (list tok) :=
  match fuel with
  | O => OutOfFuel
  | S fuel =>
      match chars with
      | [] => Ok []
      | c :: chars =>
          if decide (c = " ") then lexf fuel chars
          else match punct c with
          | Some t => push [t] (lexf fuel chars)
          | None =>
              if decide (c = """") then
                let '(s, rest) := span not_quote chars in push [TConst (CString (str s))] (lexf fuel (tail rest))
              else if decide (c = "-") then
                let '(ds, rest) := span is_digit chars in do z <- isize_of_neg ds; push [TConst (CNum z)] (lexf fuel rest)
              else if is_digit c then
                let '(ds, rest) := span is_digit chars in do n <- usize_of_digits (c :: ds); push [TConst (CNat n)] (lexf fuel rest)
              else if is_alpha c then
                let '(s, rest) := span is_alnum chars in push [TIdent (str (c :: s))] (lexf fuel rest)
              else lexf fuel chars                (* any other character is skipped *)
          end
      end
  end.
Definition lex (chars : list ascii) : res (list tok) := lexf (S (length chars)) chars.

(** ** The parser *)
Section Parser.
Context `{Hashes}.

(** parse_val.rs:237-283 [name_of_val]. *)
Fixpoint name_of_val (v : rval) : res name :=
  match v with
  | RConstr c args =>
      if decide (c = name_of_string "Unit") then Ok name_unit
      else if decide (c = name_of_string "Hash64") then Ok (name_of_hash64 0)
      else if decide (c = name_of_string "String") then match args with RConst (CString s) :: _ => Ok (name_of_string s) | _ => Panic end
      else if decide (c = name_of_string "Usize") then match args with RConst (CNat n) :: _ => Ok (name_of_usize n) | _ => Panic end
      else if decide (c = name_of_string "Isize") then Panic
      else if decide (c = name_of_string "Pair") then
        match args with a :: b :: _ => do n1 <- name_of_val a; do n2 <- name_of_val b; Ok (name_pair n1 n2) | _ => Panic end
      else if decide (c = name_of_string "ForkL") then match args with a :: _ => do n <- name_of_val a; Ok (name_fork n).1 | _ => Panic end
      else if decide (c = name_of_string "ForkR") then match args with a :: _ => do n <- name_of_val a; Ok (name_fork n).2 | _ => Panic end
      else Panic
  | RName n => Ok n
  | _ => Panic
  end.
(** parse_val.rs:285-343 [name_option_of_val]. *)
Fixpoint name_option_of_val (v : rval) : res (option name) :=
  match v with
  | RConstr c args =>
      if decide (c = name_of_string "Unit") then Ok (Some name_unit)
      else if decide (c = name_of_string "Hash64") then Ok (Some (name_of_hash64 0))
      else if decide (c = name_of_string "String") then match args with RConst (CString s) :: _ => Ok (Some (name_of_string s)) | _ => Ok None end
      else if decide (c = name_of_string "Usize") then match args with RConst (CNat n) :: _ => Ok (Some (name_of_usize n)) | _ => Ok None end
      else if decide (c = name_of_string "Isize") then Panic
      else if decide (c = name_of_string "Pair") then
        match args with
        | a :: b :: _ => do n1 <- name_option_of_val a; do n2 <- name_option_of_val b;
            match n1, n2 with Some n1, Some n2 => Ok (Some (name_pair n1 n2)) | _, _ => Ok None end
        | _ => Ok None
        end
      else if decide (c = name_of_string "ForkL") then
        match args with a :: _ => do n <- name_option_of_val a; Ok (match n with Some n => Some (name_fork n).1 | None => None end) | _ => Ok None end
      else if decide (c = name_of_string "ForkR") then
        match args with a :: _ => do n <- name_option_of_val a; Ok (match n with Some n => Some (name_fork n).2 | None => None end) | _ => Ok None end
      else Ok None
  | RName n => Ok (Some n)
  | _ => Ok None
  end.
(** parse_val.rs:230-235 [path_of_val]. *)
Fixpoint names_of_vals (vs : list rval) : res (list name) :=
  match vs with [] => Ok [] | v :: vs => do n <- name_of_val v; do ns <- names_of_vals vs; Ok (n :: ns) end.
Definition path_of_val (v : rval) : res (list name) := match v with RVec vs => names_of_vals vs | _ => Panic end.
(** parse_val.rs:351-383 [parse_art_val]. *)
Definition parse_art_val (i : string) (fields : list (name * rval)) : res (option rval) :=
  match fields with
  | [(nf, vf)] =>
      if decide (i = "Art"%string) then
        if decide (nf = name_of_string "art") then
          match vf with
          | RStruct j [(f1, v1); (f2, v2)] =>
              if decide (j = name_of_string "Loc") then if decide (f1 = name_of_string "path") then if decide (f2 = name_of_string "id")
                then do p <- path_of_val v1; do n <- name_of_val v2; Ok (Some (RArt p n))
              else Ok None else Ok None else Ok None
          | _ => Ok None
          end
        else Ok None
      else Ok None
  | _ => Ok None
  end.

(** parse_val.rs:386-449 [parse_val_rec]; 194-210 [parse_vals]; 168-190 [parse_fields]; 213-220 [expect_tok] (inlined:
    the colon after a field name).  The token vector is reversed before parsing (224) and popped from the end: here it
    is a list and popped from the front. *)
Fixpoint parse_val_rec (fuel : nat) (toks : list tok) : res (rval * list tok) :=
  match fuel with
  | O => OutOfFuel
  | S fuel =>
      match toks with
      | [] | TRight _ :: _ | TComma :: _ | TColon :: _ | TLeft Brace :: _ => Panic
      | TLeft Bracket :: toks => do r <- parse_vals fuel toks [] (TRight Bracket); Ok (RVec r.1, r.2)
      | TLeft Paren :: toks => do r <- parse_vals fuel toks [] (TRight Paren); Ok (RTuple r.1, r.2)
      | TIdent i :: toks =>
          match toks with
          | [] => Ok (RConstr (name_of_string i) [], [])
          | TLeft Brace :: toks =>
              do r <- parse_fields fuel toks [] (TRight Brace);
              do a <- parse_art_val i r.1;
              Ok (match a with Some a => a | None => RStruct (name_of_string i) r.1 end, r.2)
          | TLeft Paren :: toks =>
              do r <- parse_vals fuel toks [] (TRight Paren);
              let v := RConstr (name_of_string i) r.1 in
              do n <- name_option_of_val v;
              Ok (match n with Some n => RName n | None => v end, r.2)
          | TComma :: _ | TRight _ :: _ => Ok (RConstr (name_of_string i) [], toks)
          | _ => Panic
          end
      | TConst c :: toks => Ok (RConst c, toks)
      end
  end
with parse_vals (fuel : nat) (toks : list tok) (vals : list rval) (bal : tok) : res (list rval * list tok) :=
  match fuel with
  | O => OutOfFuel
  | S fuel =>
      match toks with
      | [] => Panic
      | t :: toks' =>
          if decide (t = bal) then Ok (vals, toks')
          else if decide (t = TComma) then parse_vals fuel toks' vals bal
          else do r <- parse_val_rec fuel toks; parse_vals fuel r.2 (vals ++ [r.1]) bal
      end
  end
with parse_fields (fuel : nat) (toks : list tok) (fields : list (name * rval)) (bal : tok) : res (list (name * rval) * list tok) :=
  match fuel with
  | O => OutOfFuel
  | S fuel =>
      match toks with
      | [] => Panic
      | t :: toks' =>
          if decide (t = bal) then Ok (fields, toks')
          else if decide (t = TComma) then parse_fields fuel toks' fields bal
          else match t with
          | TIdent i =>
              match toks' with
              | TColon :: toks' => do r <- parse_val_rec fuel toks'; parse_fields fuel r.2 (fields ++ [(name_of_string i, r.1)]) bal
              | _ => Panic
              end
          | _ => Panic
          end
      end
  end.
Definition p_val (toks : list tok) := parse_val_rec (S (2 * length toks)) toks.
Definition p_vals (toks : list tok) := parse_vals (S (S (2 * length toks))) toks.
Definition p_fields (toks : list tok) := parse_fields (S (S (2 * length toks))) toks.
(** parse_val.rs:222-228 [parse_toks]; 59-65 [parse_val], from the debug string on. *)
Definition parse_toks (toks : list tok) : res rval :=
  do r <- p_val toks; match r.2 with [] => Ok r.1 | _ => Panic end.
Definition parse_string (chars : list ascii) : res rval := do toks <- lex chars; parse_toks toks.
End Parser.

(** ** Specification: Rust data and its debug output.

    [data] is what [parse_val] is documented to handle: numbers, strings, enums, structs, tuples, vectors, names and
    articulations.  [print] is the [{:?}] output: that of [derive(Debug)] and the standard library for the former, of
    engine.rs:301-303 (names print their symbol, 429-439), 317-322 ([Loc]), 348-355 ([ArtId]), 473-480 ([Path]) and
    2108-2111, 2146-2154 ([Art]) for the latter. *)
Inductive data :=
  | DNat (n : N)                                   (* a non-negative integer, of any type *)
  | DNeg (p : positive)                            (* a negative integer *)
  | DStr (s : string)
  | DConstr (c : string) (args : list data)        (* an enum or tuple struct constructor, a boolean *)
  | DStruct (c : string) (fields : list (string * data))
  | DTuple (vs : list data) | DVec (vs : list data)
  | DName (n : name)
  | DArt (path : list name) (id : artid).          (* an articulation of the DCG engine; root of the path first *)

Definition chars (s : string) : list ascii := list_ascii_of_string s.
(** Decimal digits *)
Definition digit (n : N) : ascii := ascii_of_N (48 + n).
Fixpoint digits (fuel : nat) (n : N) : list ascii :=
  match fuel with
  | O => []
  | S fuel => if (n <? 10)%N then [digit n] else digits fuel (n / 10)%N ++ [digit (n mod 10)%N]
  end.
Definition print_N (n : N) : list ascii := digits (S (N.size_nat n)) n.
(** Escaping in strings: quote and backslash (other escapes concern characters that [ok] rules out). *)
Definition escape (c : ascii) : list ascii :=
  if decide (c = """") then chars "\""" else if decide (c = "\") then chars "\\" else [c].
Definition print_str (s : string) : list ascii := chars """" ++ concat (escape <$> chars s) ++ chars """".
Fixpoint join {A} (sep : list A) (ls : list (list A)) : list A :=
  match ls with [] => [] | [l] => l | l :: ls => l ++ sep ++ join sep ls end.
Fixpoint print_sym (s : namesym) : list ascii :=
  match s with
  | SUnit => chars "Unit"
  | SHash64 => chars "Hash64"
  | SString s => chars "String(" ++ print_str s ++ chars ")"
  | SUsize u => chars "Usize(" ++ print_N u ++ chars ")"
  | SIsize i => chars "Isize(" ++ (match i with Z0 => print_N 0 | Zpos p => print_N (Npos p) | Zneg p => chars "-" ++ print_N (Npos p) end) ++ chars ")"
  | SPair a b => chars "Pair(" ++ print_sym a ++ chars ", " ++ print_sym b ++ chars ")"
  | SForkL a => chars "ForkL(" ++ print_sym a ++ chars ")"
  | SForkR a => chars "ForkR(" ++ print_sym a ++ chars ")"
  end.
Definition print_name (n : name) : list ascii := print_sym (nm_sym n).
Fixpoint print (d : data) : list ascii :=
  match d with
  | DNat n => print_N n
  | DNeg p => chars "-" ++ print_N (Npos p)
  | DStr s => print_str s
  | DConstr c [] => chars c
  | DConstr c args => chars c ++ chars "(" ++ join (chars ", ") (print <$> args) ++ chars ")"
  | DStruct c [] => chars c
  | DStruct c fields => chars c ++ chars " { " ++ join (chars ", ") ((λ f, chars f.1 ++ chars ": " ++ print f.2) <$> fields) ++ chars " }"
  | DTuple [v] => chars "(" ++ print v ++ chars ",)"
  | DTuple vs => chars "(" ++ join (chars ", ") (print <$> vs) ++ chars ")"
  | DVec vs => chars "[" ++ join (chars ", ") (print <$> vs) ++ chars "]"
  | DName n => print_name n
  | DArt path id =>
      chars "Art { art: Loc { path:[" ++ concat ((λ n, chars "," ++ print_name n) <$> path) ++ chars "], id:" ++
        (match id with IdNom n => print_name n | IdStruct h => print_N h end) ++ chars " } }"
  end.

(** The reflected value meant. *)
Section Reflect.
Context `{Hashes}.
Definition reflect_name (n : name) : rval := if decide (n = name_unit) then RConstr (name_of_string "Unit") [] else RName n.
Definition reflect_id (id : artid) : name := match id with IdNom n => n | IdStruct h => name_of_hash64 h end.   (* engine.rs:328-337 *)
Fixpoint reflect (d : data) : rval :=
  match d with
  | DNat n => RConst (CNat n)
  | DNeg p => RConst (CNum (Zneg p))
  | DStr s => RConst (CString s)
  | DConstr c args => RConstr (name_of_string c) (reflect <$> args)
  | DStruct c [] => RConstr (name_of_string c) []
  | DStruct c fields => RStruct (name_of_string c) ((λ f, (name_of_string f.1, reflect f.2)) <$> fields)
  | DTuple vs => RTuple (reflect <$> vs)
  | DVec vs => RVec (reflect <$> vs)
  | DName n => reflect_name n
  | DArt path id => RArt path (reflect_id id)
  end.

(** The data that is reflected correctly. *)
Definition ident (s : string) : Prop := match chars s with [] => False | c :: cs => is_alpha c ∧ Forall is_alnum cs end.
Definition plain (s : string) : Prop := Forall (λ c, c ≠ """" ∧ c ≠ "\") (chars s).
Definition reserved : list string := ["Unit"; "Hash64"; "String"; "Usize"; "Isize"; "Pair"; "ForkL"; "ForkR"]%string.
(** Names made from unit, plain strings and usizes by pairing and forking. *)
Inductive ok_name : name → Prop :=
  | ok_unit : ok_name name_unit
  | ok_usize u : (u < 2 ^ 64)%N → ok_name (name_of_usize u)
  | ok_string s : plain s → ok_name (name_of_string s)
  | ok_pair a b : ok_name a → ok_name b → ok_name (name_pair a b)
  | ok_fork_l n : ok_name n → ok_name (name_fork n).1
  | ok_fork_r n : ok_name n → ok_name (name_fork n).2.
Fixpoint ok (d : data) : Prop :=
  match d with
  | DNat n => (n < 2 ^ 64)%N
  | DNeg p => (Npos p <= 2 ^ 63)%N
  | DStr s => plain s
  | DConstr c args => ident c ∧ (args = [] ∨ c ∉ reserved) ∧ foldr (λ d P, ok d ∧ P) True args
  | DStruct c fields => ident c ∧ (fields = [] ∨ c ≠ "Art"%string) ∧ foldr (λ f P, (ident f.1 ∧ ok f.2) ∧ P) True fields
  | DTuple vs | DVec vs => foldr (λ d P, ok d ∧ P) True vs
  | DName n => ok_name n
  | DArt path id => Forall ok_name path ∧ match id with IdNom n => ok_name n | IdStruct _ => False end
  end.
End Reflect.

(** ** Proofs: the lexer *)
Lemma span_length p l : length (span p l).2 ≤ length l.
Proof. induction l as [|c l IH]; simpl; [done|]. destruct (p c); [|done]. destruct (span p l) as [a b]. simpl in *. lia. Qed.
Lemma span_app (p : ascii → bool) a b : Forall p a → match b with [] => True | c :: _ => ¬ p c end → span p (a ++ b) = (a, b).
Proof.
  intros Ha Hb. induction Ha as [|c a Hc Ha IH]; simpl.
  - destruct b as [|c b]; [done|]. simpl. destruct (p c); [by destruct Hb|done].
  - apply Is_true_eq_true in Hc. by rewrite Hc, IH.
Qed.
Lemma lexf_fuel f1 f2 l : length l < f1 → length l < f2 → lexf f1 l = lexf f2 l ∧ lexf f1 l ≠ OutOfFuel.
Proof.
  revert f2 l. induction f1 as [|f1 IH]; intros f2 l H1 H2; [lia|]. destruct f2 as [|f2]; [lia|].
  destruct l as [|c l]; simpl; [done|]. simpl in H1, H2.
  assert (∀ ts l', length l' ≤ length l → push ts (lexf f1 l') = push ts (lexf f2 l') ∧ push ts (lexf f1 l') ≠ OutOfFuel) as Hp.
  { intros ts l' Hl. destruct (IH f2 l') as [-> ?]; [lia..|]. by destruct (lexf f2 l'). }
  case_decide; [apply IH; lia|]. destruct (punct c); [by apply Hp|].
  case_decide.
  { assert (Hs := span_length not_quote l). destruct (span not_quote l) as [s [|c' r]]; simpl in *; apply Hp; simpl; lia. }
  case_decide.
  { assert (Hs := span_length is_digit l). destruct (span is_digit l) as [s r]. simpl in *. unfold isize_of_neg. destruct s; [done|].
    destruct (_ <=? _)%N; [|done]. by apply Hp. }
  destruct (is_digit c).
  { assert (Hs := span_length is_digit l). destruct (span is_digit l) as [s r]. simpl in *. unfold usize_of_digits. destruct (_ <? _)%N; [|done]. by apply Hp. }
  destruct (is_alpha c).
  { assert (Hs := span_length is_alnum l). destruct (span is_alnum l) as [s r]. simpl in *. by apply Hp. }
  apply IH; lia.
Qed.
Lemma lex_eq f l : length l < f → lexf f l = lex l.
Proof. intros Hf. apply lexf_fuel; [done|]. lia. Qed.
Lemma push_nil r : push [] r = r.
Proof. by destruct r. Qed.
Lemma push_push a b r : push a (push b r) = push (a ++ b) r.
Proof. destruct r; [|done..]. simpl. by rewrite (assoc_L (++)). Qed.
Lemma lex_nil : lex [] = Ok [].
Proof. done. Qed.
Lemma lex_space l : lex (" " :: l) = lex l.
Proof. unfold lex at 1. cbn [lexf]. rewrite decide_True by done. apply lex_eq. simpl. lia. Qed.
Lemma lex_punct c t l : punct c = Some t → lex (c :: l) = push [t] (lex l).
Proof.
  intros Ht. unfold lex at 1. cbn [lexf]. rewrite decide_False; [|by intros ->]. by rewrite Ht.
Qed.
(** What may follow an identifier or a number. *)
Definition boundary (l : list ascii) : Prop := match l with [] => True | c :: _ => ¬ is_alnum c end.
Lemma alpha_char c : is_alpha c → c ≠ " " ∧ punct c = None ∧ c ≠ """" ∧ c ≠ "-" ∧ is_digit c = false.
Proof. intros Hc. destruct c as [[] [] [] [] [] [] [] []]; vm_compute in Hc; done. Qed.
Lemma digit_char c : is_digit c → c ≠ " " ∧ punct c = None ∧ c ≠ """" ∧ c ≠ "-" ∧ is_alnum c.
Proof. intros Hc. destruct c as [[] [] [] [] [] [] [] []]; vm_compute in Hc; done. Qed.
Lemma lex_ident s l : ident s → boundary l → lex (chars s ++ l) = push [TIdent s] (lex l).
Proof.
  unfold ident. intros Hs Hl. assert (str (chars s) = s) as E by (apply string_of_list_ascii_of_string). destruct (chars s) as [|c cs]; [done|]. destruct Hs as [Hc Hcs].
  destruct (alpha_char c Hc) as (H1 & H2 & H3 & H4 & H5). unfold lex at 1. rewrite <- app_comm_cons. cbn [lexf].
  rewrite decide_False, H2, decide_False, decide_False, H5 by done. apply Is_true_eq_true in Hc. rewrite Hc.
  rewrite span_app by done. rewrite E. f_equal. apply lex_eq. simpl. rewrite app_length. lia.
Qed.
Lemma lex_str s l : plain s → lex (print_str s ++ l) = push [TConst (CString s)] (lex l).
Proof.
  intros Hs. unfold print_str. assert (concat (escape <$> chars s) = chars s) as ->.
  { unfold plain in Hs. induction Hs as [|c cs [H1 H2] Hcs IH]; [done|]. rewrite fmap_cons. cbn [concat]. rewrite IH. unfold escape. by rewrite !decide_False. }
  change (chars """" ++ chars s ++ chars """") with ("""" :: chars s ++ [""""]). rewrite <- app_comm_cons, <- app_assoc. simpl app.
  unfold lex at 1. cbn [lexf]. rewrite decide_False by done. change (punct """") with (@None tok). cbn iota. rewrite decide_True by done.
  rewrite span_app.
  - cbn [tail]. unfold str, chars at 1. rewrite string_of_list_ascii_of_string. f_equal. apply lex_eq. simpl. rewrite app_length. simpl. lia.
  - eapply Forall_impl; [exact Hs|]. intros c [? _]. by apply bool_decide_pack.
  - by vm_compute.
Qed.
Lemma digit_spec n : (n < 10)%N → is_digit (digit n) ∧ (N_of_ascii (digit n) - 48 = n)%N.
Proof.
  intros Hn. unfold digit, is_digit. rewrite N_ascii_embedding by lia. split; [|lia].
  apply Is_true_true, andb_true_iff. rewrite !N.leb_le. lia.
Qed.
Lemma dec_snoc l c : dec (l ++ [c]) = (10 * dec l + (N_of_ascii c - 48))%N.
Proof. unfold dec. by rewrite foldl_app. Qed.
Lemma digits_spec fuel n : (n < 2 ^ N.of_nat fuel)%N → fuel ≠ O → Forall is_digit (digits fuel n) ∧ dec (digits fuel n) = n ∧ digits fuel n ≠ [].
Proof.
  revert n. induction fuel as [|fuel IH]; intros n Hn Hf; [done|]. cbn [digits].
  destruct (N.ltb_spec n 10) as [Hl|Hl].
  - destruct (digit_spec n Hl) as [H1 H2]. split_and!; [by repeat constructor| |done]. unfold dec. simpl. rewrite H2. lia.
  - rewrite Nat2N.inj_succ, N.pow_succ_r' in Hn.
    assert (n / 10 < 2 ^ N.of_nat fuel)%N as Hq by (apply N.div_lt_upper_bound; lia).
    destruct fuel as [|fuel]. { simpl in Hn. lia. }
    destruct (IH _ Hq ltac:(done)) as (H1 & H2 & H3). destruct (digit_spec (n mod 10)) as [H4 H5]; [by apply N.mod_upper_bound|].
    split_and!; [apply Forall_app; by repeat constructor| |by destruct (digits (S fuel) (n / 10))].
    rewrite dec_snoc, H2, H5. rewrite (N.div_mod' n 10) at 3. done.
Qed.
Lemma print_N_spec n : Forall is_digit (print_N n) ∧ dec (print_N n) = n ∧ print_N n ≠ [].
Proof.
  apply digits_spec; [|done]. rewrite Nat2N.inj_succ, N.pow_succ_r'.
  assert (n < 2 ^ N.of_nat (N.size_nat n))%N; [|lia].
  assert (N.of_nat (N.size_nat n) = N.size n) as ->; [|apply N.size_gt].
  destruct n as [|p]; [done|]. simpl. induction p; simpl in *; rewrite ?Nat2N.inj_succ, ?IHp; lia.
Qed.
Lemma boundary_digit l : boundary l → match l with [] => True | c :: _ => ¬ is_digit c end.
Proof. destruct l as [|c l]; [done|]. simpl. intros Hb Hc. apply Hb. by apply digit_char. Qed.
Lemma lex_N n l : (n < 2 ^ 64)%N → boundary l → lex (print_N n ++ l) = push [TConst (CNat n)] (lex l).
Proof.
  intros Hn Hl. destruct (print_N_spec n) as (H1 & H2 & H3). destruct (print_N n) as [|c cs]; [done|]. inversion_clear H1 as [|?? Hc Hcs].
  destruct (digit_char c Hc) as (D1 & D2 & D3 & D4 & _). unfold lex at 1. rewrite <- app_comm_cons. cbn [lexf].
  rewrite decide_False, D2, decide_False, decide_False by done. apply Is_true_eq_true in Hc. rewrite Hc.
  rewrite span_app by (done || by apply boundary_digit). unfold usize_of_digits. rewrite H2. rewrite (proj2 (N.ltb_lt _ _) Hn). cbn [rbind].
  f_equal. apply lex_eq. simpl. rewrite app_length. lia.
Qed.
Lemma lex_neg p l : (Npos p <= 2 ^ 63)%N → boundary l → lex (chars "-" ++ print_N (Npos p) ++ l) = push [TConst (CNum (Zneg p))] (lex l).
Proof.
  intros Hn Hl. destruct (print_N_spec (Npos p)) as (H1 & H2 & H3). unfold lex at 1. change (chars "-" ++ ?x) with ("-" :: x). cbn [lexf].
  rewrite decide_False by done. change (punct "-") with (@None tok). cbn iota. rewrite decide_False, decide_True by done.
  rewrite span_app by (done || by apply boundary_digit). unfold isize_of_neg. rewrite H2. destruct (print_N (Npos p)) as [|c cs]; [done|].
  rewrite (proj2 (N.leb_le _ _) Hn). cbn [rbind]. f_equal. apply lex_eq. simpl. rewrite app_length. lia.
Qed.

(** The tokens of printed data. *)
Fixpoint toks_sym (s : namesym) : list tok :=
  match s with
  | SUnit => [TIdent "Unit"]
  | SHash64 => [TIdent "Hash64"]
  | SString s => [TIdent "String"; TLeft Paren; TConst (CString s); TRight Paren]
  | SUsize u => [TIdent "Usize"; TLeft Paren; TConst (CNat u); TRight Paren]
  | SIsize i => [TIdent "Isize"; TLeft Paren; TConst (match i with Zneg p => CNum i | _ => CNat (Z.to_N i) end); TRight Paren]
  | SPair a b => TIdent "Pair" :: TLeft Paren :: toks_sym a ++ TComma :: toks_sym b ++ [TRight Paren]
  | SForkL a => TIdent "ForkL" :: TLeft Paren :: toks_sym a ++ [TRight Paren]
  | SForkR a => TIdent "ForkR" :: TLeft Paren :: toks_sym a ++ [TRight Paren]
  end.
Fixpoint toks_of (d : data) : list tok :=
  match d with
  | DNat n => [TConst (CNat n)]
  | DNeg p => [TConst (CNum (Zneg p))]
  | DStr s => [TConst (CString s)]
  | DConstr c [] => [TIdent c]
  | DConstr c args => TIdent c :: TLeft Paren :: join [TComma] (toks_of <$> args) ++ [TRight Paren]
  | DStruct c [] => [TIdent c]
  | DStruct c fields => TIdent c :: TLeft Brace :: join [TComma] ((λ f, TIdent f.1 :: TColon :: toks_of f.2) <$> fields) ++ [TRight Brace]
  | DTuple [v] => TLeft Paren :: toks_of v ++ [TComma; TRight Paren]
  | DTuple vs => TLeft Paren :: join [TComma] (toks_of <$> vs) ++ [TRight Paren]
  | DVec vs => TLeft Bracket :: join [TComma] (toks_of <$> vs) ++ [TRight Bracket]
  | DName n => toks_sym (nm_sym n)
  | DArt path id =>
      [TIdent "Art"; TLeft Brace; TIdent "art"; TColon; TIdent "Loc"; TLeft Brace; TIdent "path"; TColon; TLeft Bracket] ++
      concat ((λ n, TComma :: toks_sym (nm_sym n)) <$> path) ++ [TRight Bracket; TComma; TIdent "id"; TColon] ++
      (match id with IdNom n => toks_sym (nm_sym n) | IdStruct h => [TConst (CNat h)] end) ++ [TRight Brace; TRight Brace]
  end.

(** Induction over data. *)
Lemma data_ind' (P : data → Prop) :
  (∀ n, P (DNat n)) → (∀ p, P (DNeg p)) → (∀ s, P (DStr s)) → (∀ c args, Forall P args → P (DConstr c args)) →
  (∀ c fields, Forall (λ f, P f.2) fields → P (DStruct c fields)) → (∀ vs, Forall P vs → P (DTuple vs)) →
  (∀ vs, Forall P vs → P (DVec vs)) → (∀ n, P (DName n)) → (∀ p i, P (DArt p i)) → ∀ d, P d.
Proof.
  intros H1 H2 H3 H4 H5 H6 H7 H8 H9. fix IH 1. intros [n|p|s|c args|c fields|vs|vs|n|p i]; [apply H1|apply H2|apply H3| | | | |apply H8|apply H9].
  - apply H4. induction args; constructor; auto.
  - apply H5. induction fields as [|[f v] fields IHf]; constructor; [apply IH|exact IHf].
  - apply H6. induction vs; constructor; auto.
  - apply H7. induction vs; constructor; auto.
Qed.
Lemma join_cons2 {A} (sep : list A) x y ls : join sep (x :: y :: ls) = x ++ sep ++ join sep (y :: ls).
Proof. done. Qed.

(** Printed data lexes to its tokens. *)
Definition lexes (cs : list ascii) (ts : list tok) : Prop := ∀ l, boundary l → lex (cs ++ l) = push ts (lex l).
Lemma lexes_ident s : ident s → lexes (chars s) [TIdent s].
Proof. intros Hs l Hl. by apply lex_ident. Qed.
Ltac bd := first [done | by intros []].
Lemma lexes_join {A} (pr : A → list ascii) (tk : A → list tok) ds : Forall (λ d, lexes (pr d) (tk d)) ds →
  lexes (join (chars ", ") (pr <$> ds)) (join [TComma] (tk <$> ds)).
Proof.
  intros Hds l Hl. induction Hds as [|d ds Hd Hds IH]; [by rewrite push_nil|].
  destruct ds as [|d' ds]; [by apply Hd|]. rewrite !fmap_cons, !join_cons2, <- !app_assoc. rewrite Hd by bd.
  change (chars ", " ++ ?x) with ("," :: " " :: x). rewrite (lex_punct "," TComma), lex_space by bd. rewrite fmap_cons in IH. rewrite IH, !push_push. by rewrite <- app_assoc.
Qed.
Section LexPrint.
Context `{Hashes}.
Ltac lx := repeat first [rewrite lex_space | match goal with |- context [lex (?c :: ?l)] => rewrite (lex_punct c _ l eq_refl) end | rewrite push_push].
Ltac idt := rewrite lex_ident; [|by repeat constructor|by intros []].
Lemma lexes_name n : ok_name n → lexes (print_name n) (toks_sym (nm_sym n)).
Proof.
  unfold print_name. induction 1 as [|u Hu|s Hs|a b Ha IHa Hb IHb|n Hn IHn|n Hn IHn]; intros l Hl; cbn [nm_sym name_unit name_of_usize name_of_string name_pair name_fork fst snd print_sym toks_sym]; rewrite <- ?app_assoc.
  - apply lex_ident; [by repeat constructor|done].
  - change (chars "Usize(" ++ ?x) with (chars "Usize" ++ "(" :: x). idt. lx. rewrite lex_N by bd.
    change (chars ")" ++ l) with (")" :: l). lx. done.
  - change (chars "String(" ++ ?x) with (chars "String" ++ "(" :: x). idt. lx. rewrite lex_str by bd.
    change (chars ")" ++ l) with (")" :: l). lx. done.
  - change (chars "Pair(" ++ ?x) with (chars "Pair" ++ "(" :: x). idt. lx. rewrite IHa by bd.
    change (chars ", " ++ ?x) with ("," :: " " :: x). lx. rewrite IHb by bd. change (chars ")" ++ l) with (")" :: l). lx.
    f_equal. simpl. by rewrite <- !app_assoc.
  - change (chars "ForkL(" ++ ?x) with (chars "ForkL" ++ "(" :: x). idt. lx. rewrite IHn by bd.
    change (chars ")" ++ l) with (")" :: l). lx. done.
  - change (chars "ForkR(" ++ ?x) with (chars "ForkR" ++ "(" :: x). idt. lx. rewrite IHn by bd.
    change (chars ")" ++ l) with (")" :: l). lx. done.
Qed.
Lemma foldr_ok {A} (Q : A → Prop) ds : foldr (λ d P, Q d ∧ P) True ds ↔ Forall Q ds.
Proof. induction ds as [|d ds IH]; simpl; [by split|]. rewrite Forall_cons. naive_solver. Qed.
Lemma ok_all ds : Forall (λ d, ok d → lexes (print d) (toks_of d)) ds → foldr (λ d P, ok d ∧ P) True ds → Forall (λ d, lexes (print d) (toks_of d)) ds.
Proof. intros H1 H2. apply foldr_ok in H2. apply Forall_forall. intros d Hd. rewrite Forall_forall in H1, H2. auto. Qed.
Lemma lexes_path path : Forall ok_name path → ∀ l, boundary l →
  lex (concat ((λ n, chars "," ++ print_name n) <$> path) ++ l) = push (concat ((λ n, TComma :: toks_sym (nm_sym n)) <$> path)) (lex l).
Proof.
  intros Hp. induction Hp as [|n path Hn Hp IH]; intros l Hl; [by rewrite push_nil|]. rewrite !fmap_cons. cbn [concat]. rewrite <- !app_assoc.
  change (chars "," ++ ?x) with ("," :: x). lx. rewrite lexes_name; [|done|]. { rewrite IH by bd. lx. done. }
  destruct path; [done|by vm_compute].
Qed.
Lemma lexes_art path ics its : Forall ok_name path → lexes ics its →
  lexes (chars "Art { art: Loc { path:[" ++ concat ((λ n, chars "," ++ print_name n) <$> path) ++ chars "], id:" ++ ics ++ chars " } }")
    ([TIdent "Art"; TLeft Brace; TIdent "art"; TColon; TIdent "Loc"; TLeft Brace; TIdent "path"; TColon; TLeft Bracket] ++
      concat ((λ n, TComma :: toks_sym (nm_sym n)) <$> path) ++ [TRight Bracket; TComma; TIdent "id"; TColon] ++ its ++ [TRight Brace; TRight Brace]).
Proof.
  intros Hp Hi l Hl. rewrite <- !app_assoc.
  change (chars "Art { art: Loc { path:[" ++ ?x) with (chars "Art" ++ " " :: "{" :: " " :: chars "art" ++ ":" :: " " :: chars "Loc" ++ " " :: "{" :: " " :: chars "path" ++ ":" :: "[" :: x).
  idt. lx. idt. lx. idt. lx. idt. lx.
  rewrite lexes_path by bd. change (chars "], id:" ++ ?x) with ("]" :: "," :: " " :: chars "id" ++ ":" :: x). lx. idt. lx.
  rewrite Hi by bd. change (chars " } }" ++ ?x) with (" " :: "}" :: " " :: "}" :: x). lx. f_equal. simpl. by rewrite <- !app_assoc.
Qed.
Theorem lexes_data d : ok d → lexes (print d) (toks_of d).
Proof.
  induction d as [n|p|s|c args IH|c fields IH|vs IH|vs IH|n|path id] using data_ind'; intros Hok.
  - intros l Hl. by apply lex_N.
  - intros l Hl. cbn [print]. rewrite <- app_assoc. by apply lex_neg.
  - intros l Hl. by apply lex_str.
  - destruct Hok as (Hc & _ & Ha). apply (ok_all _ IH) in Ha. clear IH. destruct args as [|a args]; [by apply lexes_ident|].
    intros l Hl. cbn [print toks_of]. rewrite <- !app_assoc, lex_ident by bd.
    change (chars "(" ++ ?x) with ("(" :: x). lx. rewrite (lexes_join print toks_of) by bd. change (chars ")" ++ ?x) with (")" :: x). lx. done.
  - destruct Hok as (Hc & _ & Ha). apply foldr_ok in Ha. assert (Forall (λ f, lexes (chars f.1 ++ chars ": " ++ print f.2) (TIdent f.1 :: TColon :: toks_of f.2)) fields) as Hf.
    { apply Forall_forall. intros f Hf. rewrite Forall_forall in IH, Ha. destruct (Ha f Hf) as [Hi Ho]. specialize (IH f Hf Ho).
      intros l Hl. rewrite <- !app_assoc, lex_ident by bd. change (chars ": " ++ ?x) with (":" :: " " :: x). lx. rewrite IH by bd. lx. done. }
    clear IH Ha. destruct fields as [|a fields]; [by apply lexes_ident|].
    intros l Hl. cbn [print toks_of]. rewrite <- !app_assoc, lex_ident by bd.
    change (chars " { " ++ ?x) with (" " :: "{" :: " " :: x). lx. rewrite (lexes_join _ _ _ Hf) by bd. change (chars " }" ++ ?x) with (" " :: "}" :: x). lx. done.
  - apply (ok_all _ IH) in Hok. clear IH. intros l Hl. assert (lex ((chars "(" ++ join (chars ", ") (print <$> vs) ++ chars ")") ++ l) = push (TLeft Paren :: join [TComma] (toks_of <$> vs) ++ [TRight Paren]) (lex l)) as Hg.
    { rewrite <- !app_assoc. change (chars "(" ++ ?x) with ("(" :: x). lx. rewrite (lexes_join print toks_of) by bd. change (chars ")" ++ ?x) with (")" :: x). lx. done. }
    destruct vs as [|v [|v' vs]]; [exact Hg| |exact Hg]. inversion_clear Hok as [|?? Hv _].
    cbn [print toks_of]. rewrite <- !app_assoc. change (chars "(" ++ ?x) with ("(" :: x). lx. rewrite Hv by bd. change (chars ",)" ++ ?x) with ("," :: ")" :: x). lx. simpl. by rewrite <- !app_assoc.
  - apply (ok_all _ IH) in Hok. intros l Hl. cbn [print toks_of]. rewrite <- !app_assoc. change (chars "[" ++ ?x) with ("[" :: x). lx.
    rewrite (lexes_join print toks_of) by bd. change (chars "]" ++ ?x) with ("]" :: x). lx. done.
  - by apply lexes_name.
  - destruct Hok as [Hp Hi]. destruct id as [h|n]; [done|]. apply lexes_art; [done|]. by apply lexes_name.
Qed.
End LexPrint.

(** ** Proofs: the parser *)
Section ParsePrint.
Context `{Hashes}.
Definition shorter {A} (n : nat) (r : res (A * list tok)) : Prop :=
  match r with Ok (_, rest) => length rest < n | Panic => True | OutOfFuel => False end.
Lemma name_option_total v : name_option_of_val v ≠ OutOfFuel.
Proof.
  assert (∀ v, name_option_of_val v ≠ OutOfFuel) as Hn; [|done]. clear v. fix IH 1. intros v. destruct v as [c args| | | | | |]; cbn [name_option_of_val]; try done.
  repeat (case_decide; [try done; try (destruct args as [|[| | | | | |[]] ?]; done)|]); try done.
  - destruct args as [|a [|b args]]; [done..|]. assert (Ha := IH a). assert (Hb := IH b).
    destruct (name_option_of_val a); [|done..]. destruct (name_option_of_val b); [|done..]. cbn [rbind]. by repeat case_match.
  - destruct args as [|a args]; [done|]. assert (Ha := IH a). by destruct (name_option_of_val a).
  - destruct args as [|a args]; [done|]. assert (Ha := IH a). by destruct (name_option_of_val a).
Qed.
Lemma name_of_val_total v : name_of_val v ≠ OutOfFuel.
Proof.
  assert (∀ v, name_of_val v ≠ OutOfFuel) as Hn; [|done]. clear v. fix IH 1. intros v. destruct v as [c args| | | | | |]; cbn [name_of_val]; try done.
  repeat (case_decide; [try done; try (destruct args as [|[| | | | | |[]] ?]; done)|]); try done.
  - destruct args as [|a [|b args]]; [done..|]. assert (Ha := IH a). assert (Hb := IH b).
    destruct (name_of_val a); [|done..]. by destruct (name_of_val b).
  - destruct args as [|a args]; [done|]. assert (Ha := IH a). by destruct (name_of_val a).
  - destruct args as [|a args]; [done|]. assert (Ha := IH a). by destruct (name_of_val a).
Qed.
Lemma names_of_vals_total vs : names_of_vals vs ≠ OutOfFuel.
Proof. induction vs as [|v vs IH]; simpl; [done|]. assert (Hv := name_of_val_total v). destruct (name_of_val v); [|done..]. by destruct (names_of_vals vs). Qed.
Lemma parse_art_total i fs : parse_art_val i fs ≠ OutOfFuel.
Proof.
  unfold parse_art_val. destruct fs as [|[nf vf] [|]]; [done| |done]. repeat (case_decide; [|done]).
  destruct vf as [| | |j [|[f1 v1] [|[f2 v2] [|]]]| | |]; try done. repeat (case_decide; [|done]).
  destruct v1; try done. cbn [path_of_val]. assert (Hs := names_of_vals_total vs). destruct (names_of_vals vs); [|done..].
  cbn [rbind]. assert (Hv := name_of_val_total v2). by destruct (name_of_val v2).
Qed.
(** Unfolding equations. *)
Lemma pvr_S fuel toks : parse_val_rec (S fuel) toks =
      match toks with
      | [] | TRight _ :: _ | TComma :: _ | TColon :: _ | TLeft Brace :: _ => Panic
      | TLeft Bracket :: toks => do r <- parse_vals fuel toks [] (TRight Bracket); Ok (RVec r.1, r.2)
      | TLeft Paren :: toks => do r <- parse_vals fuel toks [] (TRight Paren); Ok (RTuple r.1, r.2)
      | TIdent i :: toks =>
          match toks with
          | [] => Ok (RConstr (name_of_string i) [], [])
          | TLeft Brace :: toks =>
              do r <- parse_fields fuel toks [] (TRight Brace);
              do a <- parse_art_val i r.1;
              Ok (match a with Some a => a | None => RStruct (name_of_string i) r.1 end, r.2)
          | TLeft Paren :: toks =>
              do r <- parse_vals fuel toks [] (TRight Paren);
              let v := RConstr (name_of_string i) r.1 in
              do n <- name_option_of_val v;
              Ok (match n with Some n => RName n | None => v end, r.2)
          | TComma :: _ | TRight _ :: _ => Ok (RConstr (name_of_string i) [], toks)
          | _ => Panic
          end
      | TConst c :: toks => Ok (RConst c, toks)
      end.
Proof. done. Qed.
Lemma pvs_S fuel toks vals bal : parse_vals (S fuel) toks vals bal =
      match toks with
      | [] => Panic
      | t :: toks' =>
          if decide (t = bal) then Ok (vals, toks')
          else if decide (t = TComma) then parse_vals fuel toks' vals bal
          else do r <- parse_val_rec fuel toks; parse_vals fuel r.2 (vals ++ [r.1]) bal
      end.
Proof. done. Qed.
Lemma pfs_S fuel toks fields bal : parse_fields (S fuel) toks fields bal =
      match toks with
      | [] => Panic
      | t :: toks' =>
          if decide (t = bal) then Ok (fields, toks')
          else if decide (t = TComma) then parse_fields fuel toks' fields bal
          else match t with
          | TIdent i =>
              match toks' with
              | TColon :: toks' => do r <- parse_val_rec fuel toks'; parse_fields fuel r.2 (fields ++ [(name_of_string i, r.1)]) bal
              | _ => Panic
              end
          | _ => Panic
          end
      end.
Proof. done. Qed.
Lemma parse_fuel f1 : 
  (∀ f2 toks, 2 * length toks < f1 → 2 * length toks < f2 → parse_val_rec f1 toks = parse_val_rec f2 toks ∧ shorter (length toks) (parse_val_rec f1 toks)) ∧
  (∀ f2 toks vs b, S (2 * length toks) < f1 → S (2 * length toks) < f2 → parse_vals f1 toks vs b = parse_vals f2 toks vs b ∧ shorter (length toks) (parse_vals f1 toks vs b)) ∧
  (∀ f2 toks fs b, S (2 * length toks) < f1 → S (2 * length toks) < f2 → parse_fields f1 toks fs b = parse_fields f2 toks fs b ∧ shorter (length toks) (parse_fields f1 toks fs b)).
Proof.
  induction f1 as [|f1 (IH1 & IH2 & IH3)]; [split_and!; intros; lia|]. split_and!.
  - intros [|f2] toks H1 H2; [lia|]. destruct toks as [|t toks]; [done|]. simpl in H1, H2. rewrite ?pvr_S; cbv iota beta.
    destruct t as [[]|[]|c|i| |]; try done.
    + destruct (IH2 f2 toks [] (TRight Paren)) as [<- Hs]; [lia..|]. destruct (parse_vals f1 toks [] (TRight Paren)) as [[v r]| |]; [|done..]. simpl in *. split; [done|lia].
    + destruct (IH2 f2 toks [] (TRight Bracket)) as [<- Hs]; [lia..|]. destruct (parse_vals f1 toks [] (TRight Bracket)) as [[v r]| |]; [|done..]. simpl in *. split; [done|lia].
    + simpl. split; [done|lia].
    + destruct toks as [|t toks]; [simpl; split; [done|lia]|]. simpl in H1, H2. destruct t as [[]|[]|c|j| |]; try done; try (simpl; split; [done|lia]).
      * destruct (IH2 f2 toks [] (TRight Paren)) as [<- Hs]; [lia..|]. destruct (parse_vals f1 toks [] (TRight Paren)) as [[v r]| |]; [|done..]. cbn [rbind fst snd].
        assert (Hn := name_option_total (RConstr (name_of_string i) v)). destruct (name_option_of_val (RConstr (name_of_string i) v)); [|done..]. simpl in *. split; [done|lia].
      * destruct (IH3 f2 toks [] (TRight Brace)) as [<- Hs]; [lia..|]. destruct (parse_fields f1 toks [] (TRight Brace)) as [[v r]| |]; [|done..]. cbn [rbind fst snd].
        assert (Hn := parse_art_total i v). destruct (parse_art_val i v); [|done..]. simpl in *. split; [done|lia].
  - intros [|f2] toks vs b H1 H2; [lia|]. destruct toks as [|t toks]; [done|]. simpl in H1, H2. rewrite ?pvs_S; cbv iota beta.
    case_decide; [simpl; split; [done|lia]|]. case_decide.
    { destruct (IH2 f2 toks vs b) as [<- Hs]; [lia..|]. destruct (parse_vals f1 toks vs b) as [[v r]| |]; [|done..]. simpl in *. split; [done|lia]. }
    destruct (IH1 f2 (t :: toks)) as [<- Hs]; [simpl; lia..|]. destruct (parse_val_rec f1 (t :: toks)) as [[v r]| |]; [|done..]. cbn [rbind fst snd]. simpl in Hs.
    destruct (IH2 f2 r (vs ++ [v]) b) as [<- Hs']; [lia..|]. destruct (parse_vals f1 r (vs ++ [v]) b) as [[v' r']| |]; [|done..]. simpl in *. split; [done|lia].
  - intros [|f2] toks vs b H1 H2; [lia|]. destruct toks as [|t toks]; [done|]. simpl in H1, H2. rewrite ?pfs_S; cbv iota beta.
    case_decide; [simpl; split; [done|lia]|]. case_decide.
    { destruct (IH3 f2 toks vs b) as [<- Hs]; [lia..|]. destruct (parse_fields f1 toks vs b) as [[v r]| |]; [|done..]. simpl in *. split; [done|lia]. }
    destruct t as [[]|[]|c|i| |]; try done. destruct toks as [|[[]|[]|c|j| |] toks]; try done. simpl in H1, H2.
    destruct (IH1 f2 toks) as [<- Hs]; [simpl; lia..|]. destruct (parse_val_rec f1 toks) as [[v r]| |]; [|done..]. cbn [rbind fst snd]. simpl in Hs.
    destruct (IH3 f2 r (vs ++ [(name_of_string i, v)]) b) as [<- Hs']; [lia..|]. destruct (parse_fields f1 r (vs ++ [(name_of_string i, v)]) b) as [[v' r']| |]; [|done..]. simpl in *. split; [done|lia].
Qed.
Lemma p_val_eq f toks : 2 * length toks < f → parse_val_rec f toks = p_val toks.
Proof. intros Hf. apply parse_fuel; [done|]. lia. Qed.
Lemma p_vals_eq f toks vs b : S (2 * length toks) < f → parse_vals f toks vs b = p_vals toks vs b.
Proof. intros Hf. apply parse_fuel; [done|]. lia. Qed.
Lemma p_fields_eq f toks vs b : S (2 * length toks) < f → parse_fields f toks vs b = p_fields toks vs b.
Proof. intros Hf. apply parse_fuel; [done|]. lia. Qed.

(** [parse_val] terminates on every string: it returns a value or panics. *)
Theorem C41_terminates cs : parse_string cs ≠ OutOfFuel.
Proof.
  unfold parse_string, lex. destruct (lexf_fuel (S (length cs)) (S (length cs)) cs) as [_ Hl]; [lia..|]. destruct (lexf _ cs) as [ts| |]; [|done..].
  cbn [rbind]. unfold parse_toks, p_val. destruct (proj1 (parse_fuel (S (2 * length ts))) (S (2 * length ts)) ts) as [_ Hs]; [lia..|].
  destruct (parse_val_rec _ ts) as [[v [|]]| |]; done.
Qed.

(** Unfolding equations without fuel. *)
Lemma p_const c rest : p_val (TConst c :: rest) = Ok (RConst c, rest).
Proof. done. Qed.
Lemma p_vals_end b rest vs : p_vals (b :: rest) vs b = Ok (vs, rest).
Proof. unfold p_vals. rewrite pvs_S; cbv iota beta. by rewrite decide_True. Qed.
Lemma p_vals_comma b rest vs : b ≠ TComma → p_vals (TComma :: rest) vs b = p_vals rest vs b.
Proof. intros Hb. unfold p_vals at 1. rewrite pvs_S; cbv iota beta. rewrite decide_False, decide_True by done. apply p_vals_eq. simpl. lia. Qed.
Lemma p_vals_val t toks vs b v rest : t ≠ b → t ≠ TComma → p_val (t :: toks) = Ok (v, rest) → p_vals (t :: toks) vs b = p_vals rest (vs ++ [v]) b.
Proof.
  intros Ht Hc E. unfold p_vals at 1. rewrite pvs_S; cbv iota beta. rewrite decide_False, decide_False by done. rewrite p_val_eq by (simpl; lia). rewrite E. cbn [rbind fst snd].
  apply p_vals_eq. assert (Hs := proj2 (proj1 (parse_fuel (S (2 * length (t :: toks)))) (S (2 * length (t :: toks))) (t :: toks) ltac:(lia) ltac:(lia))).
  fold (p_val (t :: toks)) in Hs. rewrite E in Hs. simpl in *. lia.
Qed.
Lemma p_fields_end b rest vs : p_fields (b :: rest) vs b = Ok (vs, rest).
Proof. unfold p_fields. rewrite pfs_S; cbv iota beta. by rewrite decide_True. Qed.
Lemma p_fields_comma b rest vs : b ≠ TComma → p_fields (TComma :: rest) vs b = p_fields rest vs b.
Proof. intros Hb. unfold p_fields at 1. rewrite pfs_S; cbv iota beta. rewrite decide_False, decide_True by done. apply p_fields_eq. simpl. lia. Qed.
Lemma p_fields_field i toks vs v rest : p_val toks = Ok (v, rest) →
  p_fields (TIdent i :: TColon :: toks) vs (TRight Brace) = p_fields rest (vs ++ [(name_of_string i, v)]) (TRight Brace).
Proof.
  intros E. unfold p_fields at 1. rewrite pfs_S; cbv iota beta. rewrite decide_False, decide_False by done. rewrite p_val_eq by (simpl; lia). rewrite E. cbn [rbind fst snd].
  apply p_fields_eq. assert (Hs := proj2 (proj1 (parse_fuel (S (2 * length toks))) (S (2 * length toks)) toks ltac:(lia) ltac:(lia))).
  fold (p_val toks) in Hs. rewrite E in Hs. simpl in *. lia.
Qed.
Lemma p_tuple toks vs rest : p_vals toks [] (TRight Paren) = Ok (vs, rest) → p_val (TLeft Paren :: toks) = Ok (RTuple vs, rest).
Proof. intros E. unfold p_val. rewrite pvr_S; cbv iota beta. rewrite p_vals_eq by (simpl; lia). by rewrite E. Qed.
Lemma p_vec toks vs rest : p_vals toks [] (TRight Bracket) = Ok (vs, rest) → p_val (TLeft Bracket :: toks) = Ok (RVec vs, rest).
Proof. intros E. unfold p_val. rewrite pvr_S; cbv iota beta. rewrite p_vals_eq by (simpl; lia). by rewrite E. Qed.
Lemma p_constr i toks vs rest : p_vals toks [] (TRight Paren) = Ok (vs, rest) →
  p_val (TIdent i :: TLeft Paren :: toks) =
    do n <- name_option_of_val (RConstr (name_of_string i) vs); Ok (match n with Some n => RName n | None => RConstr (name_of_string i) vs end, rest).
Proof. intros E. unfold p_val. rewrite pvr_S; cbv iota beta. rewrite p_vals_eq by (simpl; lia). by rewrite E. Qed.
Lemma p_struct i toks fs rest : p_fields toks [] (TRight Brace) = Ok (fs, rest) →
  p_val (TIdent i :: TLeft Brace :: toks) =
    do a <- parse_art_val i fs; Ok (match a with Some a => a | None => RStruct (name_of_string i) fs end, rest).
Proof. intros E. unfold p_val. rewrite pvr_S; cbv iota beta. rewrite p_fields_eq by (simpl; lia). by rewrite E. Qed.
(** What may follow a value. *)
Definition pboundary (l : list tok) : Prop := match l with [] | TComma :: _ | TRight _ :: _ => True | _ => False end.
Lemma p_nullary i rest : pboundary rest → p_val (TIdent i :: rest) = Ok (RConstr (name_of_string i) [], rest).
Proof. intros Hr. unfold p_val. rewrite pvr_S; cbv iota beta. destruct rest as [|[[]|[]|c|j| |] rest]; done. Qed.
(** A token that starts a value. *)
Definition starts (ts : list tok) : Prop := match ts with t :: _ => t ≠ TComma ∧ ∀ b, t ≠ TRight b | [] => False end.
Definition parses (ts : list tok) (v : rval) : Prop := starts ts ∧ ∀ rest, pboundary rest → p_val (ts ++ rest) = Ok (v, rest).
Lemma p_vals_cons ts v b rest vs : parses ts v → pboundary rest → p_vals (ts ++ rest) vs (TRight b) = p_vals rest (vs ++ [v]) (TRight b).
Proof.
  intros [Hs Hp] Hr. specialize (Hp _ Hr). destruct ts as [|t ts]; [done|]. destruct Hs as [H1 H2]. rewrite <- app_comm_cons in *. by apply p_vals_val.
Qed.
Lemma p_vals_join {A} (tk : A → list tok) (rf : A → rval) ds b rest vs : Forall (λ d, parses (tk d) (rf d)) ds →
  p_vals (join [TComma] (tk <$> ds) ++ TRight b :: rest) vs (TRight b) = Ok (vs ++ (rf <$> ds), rest).
Proof.
  intros Hds. revert vs. induction Hds as [|d ds Hd Hds IH]; intros vs; [rewrite app_nil_r; apply p_vals_end|].
  destruct ds as [|d' ds].
  - change (join [TComma] (tk <$> [d])) with (tk d). rewrite (p_vals_cons _ _ _ _ _ Hd) by done. apply p_vals_end.
  - rewrite !fmap_cons, join_cons2, <- !app_assoc. rewrite (p_vals_cons _ _ _ _ _ Hd) by done.
    change ([TComma] ++ ?x) with (TComma :: x). rewrite p_vals_comma by done. rewrite fmap_cons in IH. rewrite IH. f_equal. by rewrite <- app_assoc.
Qed.
Lemma p_fields_join {A} (nm : A → string) (tk : A → list tok) (rf : A → rval) ds rest vs : Forall (λ d, parses (tk d) (rf d)) ds →
  p_fields (join [TComma] ((λ d, TIdent (nm d) :: TColon :: tk d) <$> ds) ++ TRight Brace :: rest) vs (TRight Brace) = Ok (vs ++ ((λ d, (name_of_string (nm d), rf d)) <$> ds), rest).
Proof.
  intros Hds. revert vs. induction Hds as [|d ds Hd Hds IH]; intros vs; [rewrite app_nil_r; apply p_fields_end|].
  destruct ds as [|d' ds].
  - cbn [fmap list_fmap join]. rewrite <- !app_comm_cons. rewrite (p_fields_field _ _ _ (rf d) (TRight Brace :: rest)) by (by apply Hd). apply p_fields_end.
  - rewrite !fmap_cons, join_cons2, <- !app_assoc. rewrite <- !app_comm_cons. 
    erewrite p_fields_field; [|by apply Hd].
    change ([TComma] ++ ?x) with (TComma :: x). rewrite p_fields_comma by done. rewrite fmap_cons in IH. rewrite IH. f_equal. by rewrite <- app_assoc.
Qed.

(** Names *)
Lemma string_inj a b : name_of_string a = name_of_string b → a = b.
Proof. by intros [=]. Qed.
Ltac nm := cbn [name_option_of_val name_of_val]; repeat (rewrite decide_False by (by intros ?%string_inj)); try rewrite decide_True by done.
Lemma parses_name n : ok_name n → parses (toks_sym (nm_sym n)) (reflect_name n) ∧
  name_option_of_val (reflect_name n) = Ok (Some n) ∧ name_of_val (reflect_name n) = Ok n.
Proof.
  unfold reflect_name. intros Hn. induction Hn as [|u Hu|s Hs|a b Ha IHa Hb IHb|n Hn IHn|n Hn IHn].
  - rewrite decide_True by done. split_and!; [|by nm|by nm]. split; [done|]. intros rest Hr. by apply p_nullary.
  - rewrite decide_False by done. split_and!; [|done|done]. split; [done|]. intros rest Hr.
    cbn [nm_sym name_of_usize toks_sym app]. rewrite (p_constr _ _ [RConst (CNat u)] rest); [by nm|].
    erewrite p_vals_val; [apply p_vals_end|done|done|apply p_const].
  - rewrite decide_False by done. split_and!; [|done|done]. split; [done|]. intros rest Hr.
    cbn [nm_sym name_of_string toks_sym app]. rewrite (p_constr _ _ [RConst (CString s)] rest); [by nm|].
    erewrite p_vals_val; [apply p_vals_end|done|done|apply p_const].
  - destruct IHa as (Pa & Na & _), IHb as (Pb & Nb & _). rewrite (decide_False (P := name_pair a b = name_unit)) by done. split_and!; [|done|done]. split; [done|]. intros rest Hr.
    cbn [nm_sym name_pair toks_sym]. rewrite <- !app_comm_cons, <- !app_assoc, <- !app_comm_cons, <- !app_assoc. simpl app.
    rewrite (p_constr _ _ [(if decide (a = name_unit) then RConstr (name_of_string "Unit") [] else RName a); (if decide (b = name_unit) then RConstr (name_of_string "Unit") [] else RName b)] rest).
    + nm. rewrite Na, Nb. done.
    + rewrite (p_vals_cons _ _ _ _ _ Pa) by done. rewrite p_vals_comma by done. rewrite (p_vals_cons _ _ _ _ _ Pb) by done. apply p_vals_end.
  - destruct IHn as (Pn & Nn & _). rewrite (decide_False (P := (name_fork n).1 = name_unit)) by done. split_and!; [|done|done]. split; [done|]. intros rest Hr.
    cbn [nm_sym name_fork toks_sym fst]. rewrite <- !app_comm_cons, <- !app_assoc. simpl app.
    rewrite (p_constr _ _ [(if decide (n = name_unit) then RConstr (name_of_string "Unit") [] else RName n)] rest).
    + nm. rewrite Nn. done.
    + rewrite (p_vals_cons _ _ _ _ _ Pn) by done. apply p_vals_end.
  - destruct IHn as (Pn & Nn & _). rewrite (decide_False (P := (name_fork n).2 = name_unit)) by done. split_and!; [|done|done]. split; [done|]. intros rest Hr.
    cbn [nm_sym name_fork toks_sym snd]. rewrite <- !app_comm_cons, <- !app_assoc. simpl app.
    rewrite (p_constr _ _ [(if decide (n = name_unit) then RConstr (name_of_string "Unit") [] else RName n)] rest).
    + nm. rewrite Nn. done.
    + rewrite (p_vals_cons _ _ _ _ _ Pn) by done. apply p_vals_end.
Qed.
Lemma p_path path rest vs : Forall ok_name path →
  p_vals (concat ((λ n, TComma :: toks_sym (nm_sym n)) <$> path) ++ TRight Bracket :: rest) vs (TRight Bracket) = Ok (vs ++ (reflect_name <$> path), rest).
Proof.
  intros Hp. revert vs. induction Hp as [|n path Hn Hp IH]; intros vs; [rewrite app_nil_r; apply p_vals_end|].
  rewrite fmap_cons. cbn [concat]. rewrite <- app_assoc, <- app_comm_cons. rewrite p_vals_comma by done.
  destruct (parses_name n Hn) as [Pn _]. rewrite (p_vals_cons _ _ _ _ _ Pn); [|by destruct path]. rewrite IH. f_equal. by rewrite <- app_assoc.
Qed.
Lemma names_path path : Forall ok_name path → names_of_vals (reflect_name <$> path) = Ok path.
Proof. intros Hp. induction Hp as [|n path Hn Hp IH]; [done|]. rewrite fmap_cons. cbn [names_of_vals]. destruct (parses_name n Hn) as (_ & _ & ->). by rewrite IH. Qed.

(** A constructor whose name is not reserved is no name. *)
Lemma not_reserved c vs : c ∉ reserved → name_option_of_val (RConstr (name_of_string c) vs) = Ok None.
Proof.
  intros Hc. cbn [name_option_of_val]. rewrite !decide_False; [done|..]; intros ->%string_inj; apply Hc; unfold reserved; rewrite !elem_of_cons; tauto.
Qed.
Lemma parses_all ds : Forall (λ d, ok d → parses (toks_of d) (reflect d)) ds → foldr (λ d P, ok d ∧ P) True ds → Forall (λ d, parses (toks_of d) (reflect d)) ds.
Proof. intros H1 H2. apply foldr_ok in H2. apply Forall_forall. intros d Hd. rewrite Forall_forall in H1, H2. auto. Qed.
Lemma p_art path its v rest : Forall ok_name path → parses its v →
  p_val (([TIdent "Art"; TLeft Brace; TIdent "art"; TColon; TIdent "Loc"; TLeft Brace; TIdent "path"; TColon; TLeft Bracket] ++
      concat ((λ n, TComma :: toks_sym (nm_sym n)) <$> path) ++ [TRight Bracket; TComma; TIdent "id"; TColon] ++ its ++ [TRight Brace; TRight Brace]) ++ rest) =
  do n <- name_of_val v; Ok (RArt path n, rest).
Proof.
  intros Hp [_ Pn]. rewrite <- !app_assoc. simpl app.
  erewrite p_struct.
  2: { erewrite p_fields_field; [apply p_fields_end|].
    erewrite p_struct.
    2: { erewrite p_fields_field; [|by apply p_vec, p_path]. rewrite p_fields_comma by done.
      erewrite p_fields_field; [apply p_fields_end|]. by apply Pn. }
    unfold parse_art_val; cbn [app]. reflexivity. }
  unfold parse_art_val; cbn [app]. rewrite decide_True, decide_True by done. cbn [path_of_val]. rewrite decide_True, decide_True, decide_True by done.
  rewrite names_path by done. cbn [rbind]. by destruct (name_of_val v).
Qed.
Lemma parses_data d : ok d → parses (toks_of d) (reflect d).
Proof.
  induction d as [n|p|s|c args IH|c fields IH|vs IH|vs IH|n|path id] using data_ind'; intros Hok.
  - done.
  - done.
  - done.
  - destruct Hok as (Hc & Hr & Ha). apply (parses_all _ IH) in Ha. clear IH. destruct args as [|a args]; [split; [done|]; by intros; apply p_nullary|].
    destruct Hr as [|Hr]; [done|]. split; [done|]. intros rest Hb. cbn [toks_of reflect]. rewrite <- !app_comm_cons, <- app_assoc. simpl ([_] ++ _).
    erewrite p_constr; [|by apply (p_vals_join toks_of reflect)]. by rewrite not_reserved.
  - destruct Hok as (Hc & Hr & Ha). apply foldr_ok in Ha. assert (Forall (λ f, parses (toks_of f.2) (reflect f.2)) fields) as Hf.
    { apply Forall_forall. intros f Hf. rewrite Forall_forall in IH, Ha. destruct (Ha f Hf) as [Hi Ho]. by apply IH. }
    clear IH Ha. destruct fields as [|a fields]; [split; [done|]; by intros; apply p_nullary|].
    destruct Hr as [|Hr]; [done|]. split; [done|]. intros rest Hb. cbn [toks_of reflect]. rewrite <- !app_comm_cons, <- app_assoc. simpl ([_] ++ _).
    erewrite p_struct; [|by apply (p_fields_join fst (λ f, toks_of f.2) (λ f, reflect f.2))].
    assert (∀ fs, parse_art_val c fs = Ok None) as ->; [|done]. intros fs. unfold parse_art_val. destruct fs as [|[nf vf] [|]]; [done| |done]. by rewrite decide_False.
  - apply (parses_all _ IH) in Hok. clear IH. split; [by destruct vs as [|? [|]]|]. intros rest Hb. cbn [reflect].
    assert (p_val ((TLeft Paren :: join [TComma] (toks_of <$> vs) ++ [TRight Paren]) ++ rest) = Ok (RTuple (reflect <$> vs), rest)) as Hg.
    { rewrite <- !app_comm_cons, <- app_assoc. simpl ([_] ++ _). apply p_tuple. exact (p_vals_join toks_of reflect vs Paren rest [] Hok). }
    destruct vs as [|v [|v' vs]]; [exact Hg| |exact Hg]. inversion_clear Hok as [|?? Hv _]. cbn [toks_of]. rewrite <- !app_comm_cons, <- app_assoc. simpl ([_; _] ++ _).
    apply p_tuple. rewrite (p_vals_cons _ _ _ _ _ Hv) by done. rewrite p_vals_comma by done. apply p_vals_end.
  - apply (parses_all _ IH) in Hok. split; [done|]. intros rest Hb. cbn [toks_of reflect]. rewrite <- !app_comm_cons, <- app_assoc. simpl ([_] ++ _).
    apply p_vec. exact (p_vals_join toks_of reflect vs Bracket rest [] Hok).
  - by apply parses_name.
  - destruct Hok as [Hp Hi]. destruct id as [h|n]; [done|]. split; [done|]. intros rest Hb. cbn [reflect reflect_id].
    destruct (parses_name n Hi) as (Pn & _ & Nn). etrans; [by apply (p_art path _ _ rest Hp Pn)|]. by rewrite Nn.
Qed.

(** C41. Parsing the debug string of a value reflects it. *)
Theorem C41_parse_print d : ok d → parse_string (print d) = Ok (reflect d).
Proof.
  intros Hok. unfold parse_string. rewrite <- (app_nil_r (print d)), (lexes_data d Hok []) by done. rewrite lex_nil. cbn [push rbind]. rewrite app_nil_r.
  unfold parse_toks. destruct (parses_data d Hok) as [_ Hp]. specialize (Hp []). rewrite app_nil_r in Hp. by rewrite Hp.
Qed.

(** ** What is not reflected *)
Lemma parse_lexes cs ts : lexes cs ts → parse_string cs = parse_toks ts.
Proof. intros Hl. unfold parse_string. rewrite <- (app_nil_r cs), (Hl []) by done. rewrite lex_nil. cbn [push rbind]. by rewrite app_nil_r. Qed.
(** A value that contains an articulation identified structurally (by a hash) makes [parse_val] panic. *)
Theorem C41_structural_art_panics path h : Forall ok_name path → (h < 2 ^ 64)%N → parse_string (print (DArt path (IdStruct h))) = Panic.
Proof.
  intros Hp Hh. rewrite (parse_lexes _ (toks_of (DArt path (IdStruct h)))).
  - unfold parse_toks. assert (parses [TConst (CNat h)] (RConst (CNat h))) as P by done. assert (E := p_art path _ _ [] Hp P). rewrite app_nil_r in E.
    cbn [toks_of]. by rewrite E.
  - apply lexes_art; [done|]. intros l Hl. by apply lex_N.
Qed.
(** So does every name made from an [isize]; *)
Theorem C41_isize_panics i : (- 2 ^ 63 <= i < 2 ^ 63)%Z → parse_string (print (DName (name_of_isize i))) = Panic.
Proof.
  intros Hi. set (c := match i with Zneg p => CNum i | _ => CNat (Z.to_N i) end). rewrite (parse_lexes _ [TIdent "Isize"; TLeft Paren; TConst c; TRight Paren]).
  - unfold parse_toks. rewrite (p_constr _ _ [RConst c] []); [|erewrite p_vals_val; [apply p_vals_end|done|done|apply p_const]]. nm. done.
  - intros l Hl. cbn [print print_name print_sym nm_sym name_of_isize]. unfold print_name. cbn [nm_sym name_of_isize print_sym]. rewrite <- !app_assoc. change (chars "Isize(" ++ ?x) with (chars "Isize" ++ "(" :: x).
    rewrite lex_ident; [|by repeat constructor|by intros []]. rewrite (lex_punct "(" (TLeft Paren)) by done.
    assert (∀ x, boundary x → lex ((match i with Z0 => print_N 0 | Zpos p => print_N (Npos p) | Zneg p => chars "-" ++ print_N (Npos p) end) ++ x) = push [TConst c] (lex x)) as Hx.
    { intros x Hx. subst c. destruct i as [|p|p]; [apply lex_N; done|apply lex_N; [|done]; apply N2Z.inj_lt; rewrite N2Z.inj_pow; change (Z.of_N (N.pos p)) with (Z.pos p); change (Z.of_N 2 ^ Z.of_N 64)%Z with (2 * 2 ^ 63)%Z; lia|rewrite <- app_assoc; apply lex_neg; [|done]; apply N2Z.inj_le; rewrite N2Z.inj_pow; change (Z.of_N (N.pos p)) with (Z.pos p); change (Z.of_N 2 ^ Z.of_N 63)%Z with (2 ^ 63)%Z; lia]. }
    rewrite Hx by bd. change (chars ")" ++ l) with (")" :: l). rewrite (lex_punct ")" (TRight Paren)) by done. by rewrite !push_push.
Qed.
(** and every floating point number (the dot is skipped, the second number is left over). *)
Theorem C41_float_panics a b : (a < 2 ^ 64)%N → (b < 2 ^ 64)%N → parse_string (print_N a ++ chars "." ++ print_N b) = Panic.
Proof.
  intros Ha Hb. unfold parse_string. rewrite lex_N by bd. change (chars "." ++ ?x) with ("." :: x).
  assert (lex ("." :: print_N b) = lex (print_N b ++ [])) as ->. { rewrite app_nil_r. unfold lex at 1. reflexivity. }
  rewrite lex_N by bd. done.
Qed.
(** Backslashes in strings come back doubled. *)
Theorem C41_escapes_not_undone s : Forall (λ c, c ≠ """") (chars s) →
  parse_string (print (DStr s)) = Ok (RConst (CString (str (concat (escape <$> chars s))))).
Proof.
  intros Hs. rewrite (parse_lexes _ [TConst (CString (str (concat (escape <$> chars s))))]); [done|].
  intros l Hl. cbn [print]. unfold print_str. set (e := concat _).
  assert (Forall (λ c, c ≠ """") e) as He.
  { subst e. induction Hs as [|c cs Hc Hcs IH]; [constructor|]. rewrite fmap_cons. cbn [concat]. apply Forall_app. split; [|done].
    unfold escape. rewrite decide_False by done. case_decide; by repeat constructor. }
  change (chars """" ++ e ++ chars """") with ("""" :: e ++ [""""]). rewrite <- app_comm_cons, <- app_assoc. simpl app.
  unfold lex at 1. cbn [lexf]. rewrite decide_False by done. change (punct """") with (@None tok). cbn iota. rewrite decide_True by done.
  rewrite span_app.
  - cbn [tail]. f_equal. apply lex_eq. simpl. rewrite app_length. simpl. lia.
  - eapply Forall_impl; [exact He|]. intros c ?. by apply bool_decide_pack.
  - by vm_compute.
Qed.
Corollary C41_backslash_refuted : parse_string (print (DStr "a\b")) ≠ Ok (reflect (DStr "a\b")).
Proof. rewrite C41_escapes_not_undone by (by repeat constructor). by vm_compute. Qed.
(** A user's own constructor [String(s)] is taken for a name, *)
Theorem C41_user_constructor_refuted s : plain s → parse_string (print (DConstr "String" [DStr s])) = Ok (RName (name_of_string s)) ∧
  parse_string (print (DConstr "String" [DStr s])) ≠ Ok (reflect (DConstr "String" [DStr s])).
Proof.
  intros Hs. assert (parse_string (print (DConstr "String" [DStr s])) = Ok (RName (name_of_string s))) as E; [|by rewrite E].
  assert (E := C41_parse_print (DName (name_of_string s)) (ok_string s Hs)). cbn [reflect] in E. unfold reflect_name in E. rewrite decide_False in E by done. exact E.
Qed.
(** and the hash in a name made by [name_of_hash64] is lost. *)
Theorem C41_hash64_lost path h : Forall ok_name path →
  parse_string (print (DArt path (IdNom (name_of_hash64 h)))) = Ok (RArt path (name_of_hash64 0)).
Proof.
  intros Hp. rewrite (parse_lexes _ (toks_of (DArt path (IdNom (name_of_hash64 h))))).
  - unfold parse_toks. assert (parses [TIdent "Hash64"] (RConstr (name_of_string "Hash64") [])) as P by (split; [done|]; intros; by apply p_nullary).
    assert (E := p_art path _ _ [] Hp P). rewrite app_nil_r in E. cbn [toks_of name_of_hash64 nm_sym toks_sym]. rewrite E. nm. done.
  - apply lexes_art; [done|]. apply lexes_ident. by repeat constructor.
Qed.

(** A concrete case: [Foo { x: [1, -2], y: Cons("ab", Nil), n: Pair(Unit, Usize(3)), a: Art { .. }, t: (7,), b: true }]. *)
Definition ex_data : data :=
  DStruct "Foo" [("x", DVec [DNat 1; DNeg 2]); ("y", DConstr "Cons" [DStr "ab"; DConstr "Nil" []]);
    ("n", DName (name_pair name_unit (name_of_usize 3))); ("a", DArt [name_of_string "p"; name_unit] (IdNom (name_fork (name_of_usize 12)).1));
    ("t", DTuple [DNat 7]); ("b", DConstr "true" [])]%string.
Lemma ex_data_ok : ok ex_data.
Proof.
  assert (∀ s, bool_decide (s ∉ reserved) = true → s ∉ reserved) as Hr by (intros s Hs; by apply bool_decide_eq_true in Hs).
  cbn. split_and!; try done; try (by repeat constructor); try (by right).
  - right. by apply Hr.
  - apply (ok_fork_l (name_of_usize 12)). by constructor.
Qed.
Lemma ex_data_print : str (print ex_data) = "Foo { x: [1, -2], y: Cons(""ab"", Nil), n: Pair(Unit, Usize(3)), a: Art { art: Loc { path:[,String(""p""),Unit], id:ForkL(Usize(12)) } }, t: (7,), b: true }"%string.
Proof. reflexivity. Qed.
End ParsePrint.
