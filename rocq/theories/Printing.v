(** * C71: the printed forms of names and locations (/repo/src/engine.rs 88-125, 441-452 and 2726-2752).

    Strings are lists of bytes, as in [Parse.v]. *)
From Coq Require Import Ascii.
From Verif Require Export Parse.
Local Open Scope char_scope.

(** ** The code *)
(** [write!(w, "{}", n)] for an [isize] *)
Definition print_Z (i : Z) : list ascii :=
  match i with Z0 => print_N 0 | Zpos p => print_N (Npos p) | Zneg p => chars "-" ++ print_N (Npos p) end.
(** engine.rs:441-452 [write_namesym]; the triangle is U+25B2, three bytes in UTF-8 *)
Fixpoint write_namesym (n : namesym) : list ascii :=
  match n with
  | SUnit => [ascii_of_N 226; ascii_of_N 150; ascii_of_N 178]
  | SHash64 => chars "(Hash64)"
  | SString s => chars s
  | SUsize n => print_N n
  | SIsize n => print_Z n
  | SPair l r => write_namesym l ++ chars "-" ++ write_namesym r
  | SForkL s => write_namesym s ++ chars "-l"
  | SForkR s => write_namesym s ++ chars "-r"
  end.
(** engine.rs:90-92 [string_of_name], 104-106 [write_name] *)
Definition string_of_name (n : name) : list ascii := write_namesym (nm_sym n).
(** engine.rs:94-96 [string_of_path], 110-116 [write_path]; a reflected path is a list of names, the root first *)
Definition string_of_path (p : list name) : list ascii := chars "__" ++ concat ((λ n, string_of_name n ++ chars "__") <$> p).
(** engine.rs:98-100 [string_of_loc], 120-124 [write_loc]; a reflected location is its path and its name *)
Definition string_of_loc (l : list name * name) : list ascii := string_of_path l.1 ++ chars "_" ++ string_of_name l.2.
(** engine.rs:317-322 [Debug for Loc] (as in [Parse.print]) *)
Definition print_loc (path : list name) (id : artid) : list ascii :=
  chars "Loc { path:[" ++ concat ((λ n, chars "," ++ print_name n) <$> path) ++ chars "], id:" ++
    (match id with IdNom n => print_name n | IdStruct h => print_N h end) ++ chars " }".
(** engine.rs:2737 in [write_dcg_file]: the line of a cell in the DOT file, without the newline *)
Definition dot_cell_line (path : list name) (id : artid) : list ascii := chars """" ++ print_loc path id ++ chars """ [shape=box];".

(** ** Specification *)
(** The atoms that a name is made of, from left to right; a fork adds an atom "l" or "r". *)
Fixpoint parts (n : namesym) : list (list ascii) :=
  match n with
  | SUnit => [[ascii_of_N 226; ascii_of_N 150; ascii_of_N 178]]
  | SHash64 => [chars "(Hash64)"]
  | SString s => [chars s]
  | SUsize u => [print_N u]
  | SIsize i => [print_Z i]
  | SPair a b => parts a ++ parts b
  | SForkL a => parts a ++ [chars "l"]
  | SForkR a => parts a ++ [chars "r"]
  end.
(** No string in the name contains [c]; for the dash, no number in it is negative. *)
Fixpoint avoids (c : ascii) (n : namesym) : Prop :=
  match n with
  | SUnit | SHash64 | SUsize _ => True
  | SString s => c ∉ chars s
  | SIsize i => c = "-" → (0 <= i)%Z
  | SPair a b => avoids c a ∧ avoids c b
  | SForkL a | SForkR a => avoids c a
  end.
(** Made from [n] by forking. *)
Inductive forked `{Hashes} (n : name) : name → Prop :=
  | fk_refl : forked n n
  | fk_l m : forked n m → forked n (name_fork m).1
  | fk_r m : forked n m → forked n (name_fork m).2.
(** DOT: a quoted identifier ends at the first double quote without a backslash before it.  The argument is what follows
    the opening quote. *)
Fixpoint dot_id (l : list ascii) : list ascii :=
  match l with
  | [] => []
  | c :: l =>
      if decide (c = """") then []
      else if decide (c = "\") then match l with [] => [c] | d :: l => c :: d :: dot_id l end
      else c :: dot_id l
  end.

(** ** Proofs *)
Lemma parts_ne n : parts n ≠ [].
Proof. induction n; simpl; try done; by destruct (parts _). Qed.
Lemma join_app {A} (sep : list A) xs ys : xs ≠ [] → ys ≠ [] → join sep (xs ++ ys) = join sep xs ++ sep ++ join sep ys.
Proof.
  intros Hx Hy. induction xs as [|x xs IH]; [done|]. destruct xs as [|x' xs].
  - simpl. by destruct ys.
  - change ((x :: x' :: xs) ++ ys) with (x :: ((x' :: xs) ++ ys)).
    change (join sep (x :: x' :: xs)) with (x ++ sep ++ join sep (x' :: xs)).
    assert (join sep (x :: (x' :: xs) ++ ys) = x ++ sep ++ join sep ((x' :: xs) ++ ys)) as -> by done.
    rewrite IH by done. by rewrite <- !app_assoc.
Qed.
(** The string of a name is its atoms with dashes between them: pairing and forking leave no other trace. *)
Theorem C71_atoms n : string_of_name n = join (chars "-") (parts (nm_sym n)).
Proof.
  unfold string_of_name. induction (nm_sym n) as [| | | | |a IHa b IHb|a IHa|a IHa]; simpl write_namesym; cbn [parts]; try done.
  - rewrite join_app by apply parts_ne. by rewrite IHa, IHb.
  - rewrite join_app by first [apply parts_ne|done]. by rewrite IHa.
  - rewrite join_app by first [apply parts_ne|done]. by rewrite IHa.
Qed.
Lemma cut {A} (c : A) a b x y : c ∉ a → c ∉ b → a ++ c :: x = b ++ c :: y → a = b ∧ x = y.
Proof.
  revert b. induction a as [|d a IH]; intros [|e b] Ha Hb E; simpl in E.
  - by injection E.
  - injection E as <- _. destruct Hb. by left.
  - injection E as -> _. destruct Ha. by left.
  - injection E as -> E. destruct (IH b) as [-> ->]; [intros ?; apply Ha; by right|intros ?; apply Hb; by right|done|done].
Qed.
Lemma cut_none {A} (c : A) a x : c ∉ a → a ≠ x ++ [c] ∧ ∀ b y, a ≠ b ++ c :: y.
Proof. intros Ha. assert (∀ b y, a ≠ b ++ c :: y) as H; [|by split; [apply (H x [])|]]. intros b y ->. apply Ha. apply elem_of_app. right. by left. Qed.
Lemma join_inj {A} (c : A) xs ys : xs ≠ [] → ys ≠ [] → Forall (λ x, c ∉ x) xs → Forall (λ x, c ∉ x) ys →
  join [c] xs = join [c] ys → xs = ys.
Proof.
  revert ys. induction xs as [|x xs IH]; intros ys Hx Hy Fx Fy E; [done|]. destruct ys as [|y ys]; [done|].
  apply Forall_cons in Fx as [Hcx Fx]. apply Forall_cons in Fy as [Hcy Fy]. destruct xs as [|x' xs], ys as [|y' ys].
  - simpl in E. by subst.
  - exfalso. change (join [c] [x]) with x in E. change (join [c] (y :: y' :: ys)) with (y ++ c :: join [c] (y' :: ys)) in E.
    by apply (proj2 (cut_none c x [] Hcx)) in E.
  - exfalso. change (join [c] [y]) with y in E. change (join [c] (x :: x' :: xs)) with (x ++ c :: join [c] (x' :: xs)) in E.
    by apply eq_sym, (proj2 (cut_none c y [] Hcy)) in E.
  - change (join [c] (x :: x' :: xs)) with (x ++ c :: join [c] (x' :: xs)) in E. change (join [c] (y :: y' :: ys)) with (y ++ c :: join [c] (y' :: ys)) in E.
    apply cut in E as [-> E]; [|done..]. f_equal. by apply IH.
Qed.
Lemma digits_avoid c n : is_digit c = false → c ∉ print_N n.
Proof. intros Hc Hin. destruct (print_N_spec n) as (Hd & _ & _). rewrite Forall_forall in Hd. apply Hd in Hin. by rewrite Hc in Hin. Qed.
Lemma parts_avoid n : avoids "-" n → Forall (λ x, "-" ∉ x) (parts n).
Proof.
  induction n as [| | | | |a IHa b IHb|a IHa|a IHa]; simpl; intros Hn.
  - constructor; [|done]. by vm_compute; intros Hx; repeat (apply elem_of_cons in Hx as [?|Hx]; [done|]); apply elem_of_nil in Hx.
  - constructor; [|done]. by vm_compute; intros Hx; repeat (apply elem_of_cons in Hx as [?|Hx]; [done|]); apply elem_of_nil in Hx.
  - by constructor.
  - constructor; [|done]. by apply digits_avoid.
  - constructor; [|done]. specialize (Hn eq_refl). match goal with i : Z |- _ => destruct i as [|p|p] end; [by apply digits_avoid..|lia].
  - destruct Hn. apply Forall_app. auto.
  - apply Forall_app. split; [auto|]. constructor; [|done]. by intros Hx; apply elem_of_list_singleton in Hx.
  - apply Forall_app. split; [auto|]. constructor; [|done]. by intros Hx; apply elem_of_list_singleton in Hx.
Qed.
(** If no string in two names contains a dash, and no number in them is negative, they print alike exactly when they have
    the same atoms in the same order. *)
Theorem C71_names_exact n n' : avoids "-" (nm_sym n) → avoids "-" (nm_sym n') →
  string_of_name n = string_of_name n' ↔ parts (nm_sym n) = parts (nm_sym n').
Proof.
  intros H1 H2. rewrite !C71_atoms. split; [|by intros ->]. change (chars "-") with ["-"].
  apply join_inj; [apply parts_ne..| |]; by apply parts_avoid.
Qed.
Section Names.
Context `{Hashes}.
(** All names made from one name by forking print differently. *)
Lemma forked_length n m : forked n m → length (string_of_name n) ≤ length (string_of_name m).
Proof. induction 1 as [|m _ IH|m _ IH]; [done|..]; unfold string_of_name in *; simpl; rewrite app_length; simpl; lia. Qed.
Theorem C71_forks n a b : forked n a → forked n b → string_of_name a = string_of_name b → a = b.
Proof.
  intros Ha. revert b. induction Ha as [|a Ha IH|a Ha IH]; intros b Hb E.
  - destruct Hb as [|m Hm|m Hm]; [done|..]; apply (f_equal length) in E; apply forked_length in Hm;
      unfold string_of_name in *; simpl in *; rewrite app_length in E; simpl in E; lia.
  - destruct Hb as [|m Hm|m Hm].
    + apply (f_equal length) in E. apply forked_length in Ha. unfold string_of_name in *. simpl in *. rewrite app_length in E. simpl in E. lia.
    + unfold string_of_name in E. simpl in E. apply app_inj_2 in E as [E _]; [|done]. by rewrite (IH m Hm E).
    + unfold string_of_name in E. simpl in E. by apply app_inj_2 in E as [_ E].
  - destruct Hb as [|m Hm|m Hm].
    + apply (f_equal length) in E. apply forked_length in Ha. unfold string_of_name in *. simpl in *. rewrite app_length in E. simpl in E. lia.
    + unfold string_of_name in E. simpl in E. by apply app_inj_2 in E as [_ E].
    + unfold string_of_name in E. simpl in E. apply app_inj_2 in E as [E _]; [|done]. by rewrite (IH m Hm E).
Qed.
(** But different names can print alike: the nesting of pairs is lost; a fork is like a pair with the name "l"; numbers are
    like the strings of their digits, and signed like unsigned ones; a pair is like a string with a dash; and all names made
    from hashes print the same. *)
Lemma pair_not_self (a b : namesym) : a ≠ SPair a b.
Proof. revert b. induction a; try done. intros ? E. injection E as E _. by eapply IHa1. Qed.
Lemma str_chars l : chars (str l) = l.
Proof. apply list_ascii_of_string_of_list_ascii. Qed.
Lemma chars_app a b : chars (a ++ b)%string = chars a ++ chars b.
Proof. unfold chars. induction a as [|x a IH]; simpl; [done|]. f_equal. exact IH. Qed.
Theorem C71_names_refuted a b c n u s t h h' : h ≠ h' →
  (name_pair a (name_pair b c) ≠ name_pair (name_pair a b) c ∧
     string_of_name (name_pair a (name_pair b c)) = string_of_name (name_pair (name_pair a b) c)) ∧
  ((name_fork n).1 ≠ name_pair n (name_of_string "l") ∧ string_of_name (name_fork n).1 = string_of_name (name_pair n (name_of_string "l"))) ∧
  (name_of_usize u ≠ name_of_isize (Z.of_N u) ∧ string_of_name (name_of_usize u) = string_of_name (name_of_isize (Z.of_N u))) ∧
  (name_of_usize u ≠ name_of_string (str (print_N u)) ∧ string_of_name (name_of_usize u) = string_of_name (name_of_string (str (print_N u)))) ∧
  (name_pair (name_of_string s) (name_of_string t) ≠ name_of_string (s ++ "-" ++ t) ∧
     string_of_name (name_pair (name_of_string s) (name_of_string t)) = string_of_name (name_of_string (s ++ "-" ++ t))) ∧
  (name_of_hash64 h ≠ name_of_hash64 h' ∧ string_of_name (name_of_hash64 h) = string_of_name (name_of_hash64 h')).
Proof.
  intros Hh. unfold string_of_name. split_and!; try done.
  - intros E. injection E as _ E _. by apply pair_not_self in E.
  - simpl. by rewrite <- app_assoc.
  - simpl. by destruct u.
  - simpl. by rewrite str_chars.
  - change (chars s ++ chars "-" ++ chars t = chars (s ++ "-" ++ t)). by rewrite !chars_app.
  - intros E. by injection E.
Qed.
(** ** Locations *)
Lemma avoids_under n : avoids "_" n → "_" ∉ write_namesym n.
Proof.
  induction n as [| | | | |a IHa b IHb|a IHa|a IHa]; simpl; intros Hn.
  - by vm_compute; intros Hx; repeat (apply elem_of_cons in Hx as [?|Hx]; [done|]); apply elem_of_nil in Hx.
  - by vm_compute; intros Hx; repeat (apply elem_of_cons in Hx as [?|Hx]; [done|]); apply elem_of_nil in Hx.
  - done.
  - by apply digits_avoid.
  - unfold print_Z. match goal with i : Z |- _ => destruct i as [|p|p] end; [by apply digits_avoid..|]. intros [Hx|Hx]%elem_of_app; [by apply elem_of_list_singleton in Hx|by apply digits_avoid in Hx].
  - destruct Hn. intros [Hx|Hx]%elem_of_app; [by apply IHa|]. apply elem_of_cons in Hx as [?|Hx]; [done|by apply IHb].
  - intros [Hx|Hx]%elem_of_app; [by apply IHa|]. by repeat (apply elem_of_cons in Hx as [?|Hx]; [done|]); apply elem_of_nil in Hx.
  - intros [Hx|Hx]%elem_of_app; [by apply IHa|]. by repeat (apply elem_of_cons in Hx as [?|Hx]; [done|]); apply elem_of_nil in Hx.
Qed.
(** If no string in two locations contains an underscore, they print alike exactly when their paths have the same length
    and their names print alike one by one. *)
Theorem C71_locations_exact p n p' n' :
  Forall (λ m, avoids "_" (nm_sym m)) (n :: p) → Forall (λ m, avoids "_" (nm_sym m)) (n' :: p') →
  string_of_loc (p, n) = string_of_loc (p', n') ↔ string_of_name <$> p = string_of_name <$> p' ∧ string_of_name n = string_of_name n'.
Proof.
  intros H1 H2. apply Forall_cons in H1 as [Hn Hp]. apply Forall_cons in H2 as [Hn' Hp']. unfold string_of_loc, string_of_path. cbn [fst snd].
  apply avoids_under in Hn, Hn'. split.
  - intros E. rewrite <- !app_assoc in E. apply app_inj_1 in E as [_ E]; [|done]. revert p' Hp' E.
    induction p as [|m p IH]; intros [|m' p'] Hp' E.
    + simpl in E. by injection E.
    + exfalso. rewrite fmap_cons in E. cbn [concat fmap list_fmap] in E. rewrite <- !app_assoc in E. simpl in E.
      destruct (string_of_name m') as [|d l] eqn:Em.
      * simpl in E. injection E as E. by apply (proj2 (cut_none _ _ [] Hn)) with (b := []) in E.
      * apply Forall_cons in Hp' as [Hm' _]. apply avoids_under in Hm'. fold (string_of_name m') in Hm'. rewrite Em in Hm'. simpl in E. injection E as <- _. destruct Hm'. by left.
    + exfalso. rewrite fmap_cons in E. cbn [concat fmap list_fmap] in E. rewrite <- !app_assoc in E. simpl in E.
      destruct (string_of_name m) as [|d l] eqn:Em.
      * simpl in E. injection E as E. by apply eq_sym, (proj2 (cut_none _ _ [] Hn')) with (b := []) in E.
      * apply Forall_cons in Hp as [Hm' _]. apply avoids_under in Hm'. fold (string_of_name m) in Hm'. rewrite Em in Hm'. simpl in E. injection E as -> _. destruct Hm'. by left.
    + rewrite !fmap_cons in E. cbn [concat] in E. rewrite <- !app_assoc in E. simpl in E.
      apply Forall_cons in Hp as [Hm Hp]. apply Forall_cons in Hp' as [Hm' Hp']. apply avoids_under in Hm, Hm'.
      apply cut in E as [Em E]; [|done..]. injection E as E. destruct (IH Hp p' Hp') as [Ep En]; [done|]. split; [|done]. rewrite !fmap_cons. by rewrite Em, Ep.
  - intros [Ep ->]. assert (∀ q : list name, (λ n0, string_of_name n0 ++ chars "__") <$> q = (λ x, x ++ chars "__") <$> (string_of_name <$> q)) as Eq.
    { intros q. by rewrite <- list_fmap_compose. }
    by rewrite !Eq, Ep.
Qed.
(** All structurally named locations of a namespace print the same; and an underscore in a name can hide a namespace. *)
Theorem C71_locations_refuted p n s t h h' : h ≠ h' →
  ((p, reflect_id (IdStruct h)) ≠ (p, reflect_id (IdStruct h')) ∧
     string_of_loc (p, reflect_id (IdStruct h)) = string_of_loc (p, reflect_id (IdStruct h'))) ∧
  (([name_of_string s; name_of_string t], n) ≠ ([name_of_string (s ++ "__" ++ t)], n) ∧
     string_of_loc ([name_of_string s; name_of_string t], n) = string_of_loc ([name_of_string (s ++ "__" ++ t)], n)).
Proof.
  intros Hh. split_and!; try done.
  - intros E. by injection E.
  - unfold string_of_loc, string_of_path. cbn. f_equal. f_equal. rewrite !app_nil_r. unfold string_of_name. cbn [nm_sym name_of_string write_namesym]. rewrite !chars_app. by rewrite <- !app_assoc.
Qed.
(** The verbose form does not confuse names, nor arts. *)
Theorem C71_debug_names n n' : ok_name n → ok_name n' → print_name n = print_name n' → n = n'.
Proof.
  intros H1 H2 E. assert (E1 := C41_parse_print (DName n) H1). assert (E2 := C41_parse_print (DName n') H2).
  cbn [print] in *. rewrite E, E2 in E1. injection E1 as E1. cbn [reflect] in E1. unfold reflect_name in E1.
  repeat case_decide; try congruence.
Qed.
Theorem C71_debug_arts p n p' n' : Forall ok_name (n :: p) → Forall ok_name (n' :: p') →
  print (DArt p (IdNom n)) = print (DArt p' (IdNom n')) → p = p' ∧ n = n'.
Proof.
  intros H1 H2 E. apply Forall_cons in H1 as [Hn Hp]. apply Forall_cons in H2 as [Hn' Hp'].
  assert (E1 := C41_parse_print (DArt p (IdNom n)) (conj Hp Hn)). assert (E2 := C41_parse_print (DArt p' (IdNom n')) (conj Hp' Hn')).
  rewrite E, E2 in E1. by injection E1.
Qed.
(** ** The DOT file *)
(** A location is read back from its line if its debug string contains no quote and no backslash; *)
Theorem C71_dot_exact p id : """" ∉ print_loc p id → "\" ∉ print_loc p id → dot_id (tail (dot_cell_line p id)) = print_loc p id.
Proof.
  intros H1 H2. unfold dot_cell_line. change (tail (chars """" ++ ?x)) with x. revert H1 H2. generalize (print_loc p id) as l. induction l as [|c l IH]; intros H1 H2; [reflexivity|].
  simpl. rewrite decide_False by (intros ->; apply H1; by left). rewrite decide_False by (intros ->; apply H2; by left).
  f_equal. apply IH; intros ?; [apply H1|apply H2]; by right.
Qed.
(** but all cells of the root namespace named by strings have the same identifier. *)
Theorem C71_dot_refuted s : dot_id (tail (dot_cell_line [] (IdNom (name_of_string s)))) = chars "Loc { path:[], id:String(".
Proof. reflexivity. Qed.
End Names.

(** Concrete cases. *)
Local Existing Instance bad_hash.
Lemma ex_printed : string_of_loc ([name_of_string "map"], (name_fork (name_pair (name_of_usize 12) (name_of_string "a"))).2) = chars "__map___12-a-r".
Proof. by vm_compute. Qed.
(** It meets the hypotheses of the theorems above. *)
Lemma ex_printed_meets : let n := (name_fork (name_pair (name_of_usize 12) (name_of_string "a"))).2 in
  avoids "-" (nm_sym n) ∧ Forall (λ m, avoids "_" (nm_sym m)) [n; name_of_string "map"] ∧ Forall ok_name [n; name_of_string "map"] ∧
  parts (nm_sym n) = [chars "12"; chars "a"; chars "r"] ∧ forked (name_pair (name_of_usize 12) (name_of_string "a")) n ∧
  """" ∉ print_loc [] (IdNom (name_of_usize 12)) ∧ "\" ∉ print_loc [] (IdNom (name_of_usize 12)).
Proof.
  intros n. assert (Hc : ∀ (c : ascii) s, forallb (λ d, negb (bool_decide (d = c))) s = true → c ∉ s).
  { intros c s E Hin. rewrite forallb_forall in E. specialize (E c). rewrite bool_decide_eq_true_2 in E by done. discriminate E. by apply elem_of_list_In. }
  assert (Forall ok_name [n; name_of_string "map"]) as Hok.
  { repeat (apply Forall_cons; split); [| |apply Forall_nil; done].
    - apply ok_fork_r, ok_pair; [by apply ok_usize|apply ok_string; by repeat constructor].
    - apply ok_string; by repeat constructor. }
  split; [split; [exact I|by apply Hc; vm_compute]|].
  split; [apply Forall_cons; split; [split; [exact I|by apply Hc; vm_compute]|]; apply Forall_cons; split; [by apply Hc; vm_compute|by apply Forall_nil]|].
  split; [exact Hok|]. split; [by vm_compute|]. split; [apply fk_r, fk_refl|]. split; by apply Hc; vm_compute.
Qed.
