(** * C70: the calculator of src/catalog/arith_parse.rs

    The file is not compiled by the crate (catalog/mod.rs does not list it); it is modelled as text.  As in [Lists.v]
    and [Trees.v] an articulation is represented by what forcing it returns.  [None] is a panic.  Recursive functions
    that pop a list are written by recursion on the list, looking through its names and articulations as [pop] and
    [List::is_empty] do. *)
From Coq Require Import Ascii.
From Verif Require Export Trees.

(** arith_parse.rs:13-20. *)
Inductive op := Plus | Minus | Times | Divide | ParenOpen | ParenClose.
Inductive token := TNum (n : Z) | TOp (o : op).
Global Instance op_eq_dec : EqDecision op.
Proof. solve_decision. Defined.
Global Instance token_eq_dec : EqDecision token.
Proof. solve_decision. Defined.
(** arith_parse.rs:22. *)
Inductive precedence := Higher | Lower | Equal.

(** ** Rust's [isize] on a 64-bit machine.  [checks]: are overflow checks on?  Division truncates; it panics for a zero
    divisor and for the only quotient that is out of range, with or without checks. *)
Definition in_isize (z : Z) : Prop := (- 2 ^ 63 ≤ z < 2 ^ 63)%Z.
Global Instance in_isize_dec z : Decision (in_isize z).
Proof. unfold in_isize. apply _. Defined.
Definition wrap_isize (z : Z) : Z := ((z + 2 ^ 63) mod 2 ^ 64 - 2 ^ 63)%Z.
Definition isize (checks : bool) (z : Z) : option Z :=
  if decide (in_isize z) then Some z else if checks then None else Some (wrap_isize z).
Definition isize_div (y x : Z) : option Z :=
  if decide (x = 0%Z) then None else if decide (in_isize (Z.quot y x)) then Some (Z.quot y x) else None.

(** ** The model *)
Section Model.
Context (checks : bool).

(** arith_parse.rs:24-30, [pop]; 32-36, [push]. *)
Fixpoint pop {X} (stack : lst X) : option (X * lst X) :=
  match stack with LNil => None | LCons h t => Some (h, t) | LName _ t => pop t | LArt t => pop t end.
Definition push {X} (stack : lst X) (elm : X) : lst X := LCons elm stack.

(** arith_parse.rs:38-60, [precedence_check]. *)
Definition precedence_check (top_op next_op : op) : precedence :=
  match top_op, next_op with
  | Plus, Plus => Equal
  | Plus, Minus => Equal
  | Minus, Plus => Equal
  | Minus, Minus => Equal
  | Times, Times => Equal
  | Divide, Divide => Equal
  | Times, Plus => Higher
  | Times, Minus => Higher
  | Times, Divide => Higher
  | Divide, Plus => Higher
  | Divide, Minus => Higher
  | Divide, Times => Higher
  | _, ParenOpen => Higher
  | _, _ => Lower
  end.

(** arith_parse.rs:60-74, [check_ops_rec]; 76-82, [check_ops]. *)
Fixpoint check_ops_rec (ops : lst op) (o : op) : bool :=
  match ops with
  | LNil => true
  | LName _ ops | LArt ops => check_ops_rec ops o
  | LCons top_op popped_ops =>
      match o with
      | ParenOpen => check_ops_rec popped_ops top_op
      | _ => match precedence_check o top_op with Higher => check_ops_rec popped_ops top_op | _ => false end
      end
  end.
Definition check_ops (ops : lst op) : bool :=
  match pop ops with None => true | Some (top_op, popped_ops) => check_ops_rec popped_ops top_op end.

(** arith_parse.rs:164-170, [myloop] for a closing parenthesis. *)
Fixpoint loop_close (ops : lst op) (postfix : lst token) : option (lst op * lst token) :=
  match ops with
  | LNil => None
  | LName _ ops | LArt ops => loop_close ops postfix
  | LCons ParenOpen popped_ops => Some (popped_ops, postfix)
  | LCons top_op popped_ops => loop_close popped_ops (push postfix (TOp top_op))
  end.
(** arith_parse.rs:176-185, [myloop] for an operator. *)
Fixpoint loop_op (o : op) (ops : lst op) (postfix : lst token) : lst op * lst token :=
  match ops with
  | LNil => (ops, postfix)
  | LName _ l | LArt l => if is_empty l then (ops, postfix) else loop_op o l postfix
  | LCons top_op popped_ops =>
      match precedence_check top_op o with
      | Higher => loop_op o popped_ops (push postfix (TOp top_op))
      | Equal => (popped_ops, push postfix (TOp top_op))
      | Lower => (push popped_ops top_op, postfix)
      end
  end.
(** arith_parse.rs:156-191, the function applied to each token; [assert!(check_ops(..))] is line 157. *)
Definition infix_leaf (t : token) (st : option (lst op * lst token)) : option (lst op * lst token) :=
  match st with
  | None => None
  | Some (ops, postfix) =>
      if check_ops ops then
        match t with
        | TNum n => Some (ops, push postfix (TNum n))
        | TOp ParenOpen => Some (push ops ParenOpen, postfix)
        | TOp ParenClose => loop_close ops postfix
        | TOp o =>
            if is_empty ops then Some (push ops o, postfix)
            else let '(ops, postfix) := loop_op o ops postfix in Some (push ops o, postfix)
        end
      else None
  end.
(** arith_parse.rs:201-206, the last [myloop]. *)
Fixpoint loop_rest (ops : lst op) (postfix : lst token) : lst token :=
  match ops with
  | LNil => postfix
  | LName _ ops | LArt ops => loop_rest ops postfix
  | LCons top_op popped_ops => loop_rest popped_ops (push postfix (TOp top_op))
  end.
(** arith_parse.rs:152-207, [postfix_of_infix]; lines 192-200 put the operators and the output behind articulations at
    each name of the tree, and the name into the output. *)
Definition postfix_of_infix (infix : tree token) : option (lst token) :=
  match tree_fold_seq infix_leaf (λ _ a, a)
          (λ n _ st, match st with Some (ops, toks) => Some (LArt ops, LName n (LArt toks)) | None => None end)
          infix DLeft (Some (LNil, LNil)) with
  | None => None
  | Some (ops, postfix) => Some (loop_rest ops postfix)
  end.

(** arith_parse.rs:227-263, [evaluate_postfix]. *)
Definition eval_leaf (t : token) (st : option (lst Z)) : option (lst Z) :=
  match st with
  | None => None
  | Some stack =>
      match t with
      | TNum n => Some (push stack n)
      | TOp ParenOpen | TOp ParenClose => None
      | TOp o =>
          match pop stack with
          | None => None
          | Some (x, stack) =>
              match pop stack with
              | None => None
              | Some (y, stack) =>
                  match (match o with
                         | Plus => isize checks (y + x)
                         | Minus => isize checks (y - x)
                         | Times => isize checks (y * x)
                         | Divide => isize_div y x
                         | _ => None
                         end) with
                  | None => None
                  | Some z => Some (push stack z)
                  end
              end
          end
      end
  end.
Definition evaluate_postfix (input : tree token) : option Z :=
  match tree_fold_seq eval_leaf (λ _ stack, stack)
          (λ _ _ st, match st with Some stack => Some (LArt stack) | None => None end) input DLeft (Some LNil) with
  | None => None
  | Some stack => match pop stack with
                  | None => None
                  | Some (x, stack) => if is_empty stack then Some x else None
                  end
  end.

(** arith_parse.rs:85-95, [num_of_digits_rec], called with [num = 0] on a stack of digits; it always returns the empty
    list as its second component.  (The sum exceeds an [isize] only for numerals of more than 10^17 digits, which do not
    fit into memory.) *)
Definition digit_value (c : ascii) : Z := (Z.of_nat (nat_of_ascii c) - Z.of_nat (nat_of_ascii "0"))%Z.
Fixpoint num_of_digits_rec (num : Z) (digits : lst ascii) : Z :=
  match digits with
  | LNil => num
  | LName _ digits | LArt digits => num_of_digits_rec num digits
  | LCons top_dig popped_digs =>
      if decide (0 < num)%Z then num_of_digits_rec (num + 10 * digit_value top_dig)%Z popped_digs
      else num_of_digits_rec (digit_value top_dig) popped_digs
  end.
(** arith_parse.rs:97-107, [num_of_digits], [transfer_num]: the digits read so far become a number. *)
Definition transfer_num (digits : lst ascii) (output : lst token) : lst ascii * lst token :=
  if is_empty digits then (digits, output) else (LNil, push output (TNum (num_of_digits_rec 0 digits))).
(** arith_parse.rs:110-113, [read_op]. *)
Definition read_op (digits : lst ascii) (output : lst token) (o : op) : lst ascii * lst token :=
  let '(digits, output) := transfer_num digits output in (digits, push output (TOp o)).
(** arith_parse.rs:115-139, the function applied to each character. *)
Definition char_leaf (ch : ascii) (st : option (lst ascii * lst token)) : option (lst ascii * lst token) :=
  match st with
  | None => None
  | Some (digits, output) =>
      (if decide (ch = "+") then Some (read_op digits output Plus)
       else if decide (ch = "-") then Some (read_op digits output Minus)
       else if decide (ch = "*") then Some (read_op digits output Times)
       else if decide (ch = "/") then Some (read_op digits output Divide)
       else if decide (ch = "(") then Some (read_op digits output ParenOpen)
       else if decide (ch = ")") then Some (read_op digits output ParenClose)
       else if decide (ch ∈ ["0"; "1"; "2"; "3"; "4"; "5"; "6"; "7"; "8"; "9"]) then Some (push digits ch, output)
       else None)%char
  end.
(** arith_parse.rs:84, 115-150, [tok_of_char]; the fuel is that of [tree_of_list] ([Trees.v]). *)
Definition tok_of_char `{Hashes} `{Hash64 token} (fuel : nat) (input : tree ascii) : option (tree token) :=
  match tree_fold_seq char_leaf (λ _ a, a)
          (λ n _ st, match st with
                     | Some (digs, toks) => Some (digs, LName (name_pair name_unit n) (LArt toks))
                     | None => None
                     end)
          input DLeft (Some (LNil, LNil)) with
  | None => None
  | Some (digits, output) =>
      let '(digits, output) := transfer_num digits output in
      if is_empty digits then match tree_of_list fuel DRight output with Built t => Some t | _ => None end else None
  end.
(** arith_parse.rs:349-366 ([test_tok_of_char]) and 413-436 ([doit]): the calculator. *)
Definition calculate_tokens `{Hashes} `{Hash64 token} (fuel : nat) (infix : tree token) : option Z :=
  match postfix_of_infix infix with
  | None => None
  | Some list => match tree_of_list fuel DRight list with Built t => evaluate_postfix t | _ => None end
  end.
Definition calculate `{Hashes} `{Hash64 token} (fuel : nat) (input : tree ascii) : option Z :=
  match tok_of_char fuel input with None => None | Some t => calculate_tokens fuel t end.
End Model.

(** ** Specification: arithmetic expressions, how they are written, what they mean

    [L]: the literals, numbers or strings of digits. *)
Inductive word (L : Type) := WLit (x : L) | WOp (o : op).
Arguments WLit {L} x. Arguments WOp {L} o.
Inductive expr (L : Type) := ELit (x : L) | EBin (o : op) (a b : expr L).
Arguments ELit {L} x. Arguments EBin {L} o a b.
Inductive level := Factor | Term | Expression.
(** The usual grammar: factors, products of factors, sums of products; operators of one kind associate to the left. *)
Inductive written {L} : level → list (word L) → expr L → Prop :=
  | wr_literal x : written Factor [WLit x] (ELit x)
  | wr_parens ws e : written Expression ws e → written Factor (WOp ParenOpen :: ws ++ [WOp ParenClose]) e
  | wr_factor ws e : written Factor ws e → written Term ws e
  | wr_product o ws us a b : o = Times ∨ o = Divide → written Term ws a → written Factor us b →
      written Term (ws ++ WOp o :: us) (EBin o a b)
  | wr_term ws e : written Term ws e → written Expression ws e
  | wr_sum o ws us a b : o = Plus ∨ o = Minus → written Expression ws a → written Term us b →
      written Expression (ws ++ WOp o :: us) (EBin o a b).

(** The value of an expression in Rust, given the values of its literals; [None]: evaluating it panics. *)
Fixpoint rust_value {L} (checks : bool) (lit : L → Z) (e : expr L) : option Z :=
  match e with
  | ELit x => Some (lit x)
  | EBin o a b =>
      match rust_value checks lit a, rust_value checks lit b with
      | Some y, Some x =>
          match o with
          | Plus => isize checks (y + x) | Minus => isize checks (y - x) | Times => isize checks (y * x)
          | Divide => isize_div y x | _ => None
          end
      | _, _ => None
      end
  end.
(** The mathematical value (division truncates towards zero). *)
Fixpoint value {L} (lit : L → Z) (e : expr L) : Z :=
  match e with
  | ELit x => lit x
  | EBin o a b =>
      let y := value lit a in let x := value lit b in
      match o with Plus => y + x | Minus => y - x | Times => y * x | _ => Z.quot y x end%Z
  end.
(** Every intermediate result fits into an [isize] and no divisor is zero. *)
Fixpoint in_range {L} (lit : L → Z) (e : expr L) : Prop :=
  match e with
  | ELit x => True
  | EBin o a b => in_range lit a ∧ in_range lit b ∧ in_isize (value lit e) ∧
      match o with Divide => value lit b ≠ 0%Z | ParenOpen | ParenClose => False | _ => True end
  end.

(** Numerals: non-empty strings of decimal digits, the first the most significant. *)
Definition is_digit (c : ascii) : Prop := (0 ≤ digit_value c ≤ 9)%Z.
Definition numeral (ds : list ascii) : Prop := ds ≠ [] ∧ Forall is_digit ds.
Definition decimal (ds : list ascii) : Z := fold_left (λ n d, 10 * n + digit_value d)%Z ds 0%Z.
(** How a text is written. *)
Definition op_char (o : op) : ascii :=
  (match o with Plus => "+" | Minus => "-" | Times => "*" | Divide => "/" | ParenOpen => "(" | ParenClose => ")" end)%char.
Definition written_text (ws : list (word (list ascii))) : list ascii :=
  mjoin ((λ w, match w with WLit ds => ds | WOp o => [op_char o] end) <$> ws).
Fixpoint literals {L} (e : expr L) : list L := match e with ELit x => [x] | EBin _ a b => literals a ++ literals b end.
Definition word_of_token (t : token) : word Z := match t with TNum n => WLit n | TOp o => WOp o end.

Lemma in_range_value {L} checks (lit : L → Z) e : in_range lit e → rust_value checks lit e = Some (value lit e).
Proof.
  induction e as [x|o a IHa b IHb]; [done|]. intros (Ha & Hb & Hv & Ho). simpl in *. rewrite (IHa Ha), (IHb Hb).
  unfold isize, isize_div. destruct o; try done; try by rewrite decide_True by done.
  rewrite decide_False by done. by rewrite decide_True by done.
Qed.

(** ** Forgetting names and articulations *)
Lemma fold_seq_rel {X St A} (R : St → A → Prop) leaf bin nam (step : X → A → A) :
  (∀ x s a, R s a → R (leaf x s) (step x a)) → (∀ n s a, R s a → R (bin n s) a) → (∀ n k s a, R s a → R (nam n k s) a) →
  ∀ (t : tree X) s a, R s a → R (tree_fold_seq leaf bin nam t DLeft s) (fold_left (λ a x, step x a) (telems t) a).
Proof.
  intros Hl Hb Hn t. induction t as [|x|lev l IHl r IHr|n lev l IHl r IHr|t IHt]; intros s a Hs.
  - done.
  - by apply Hl.
  - rewrite telems_bin, fold_left_app. simpl. eauto.
  - rewrite telems_name, fold_left_app. simpl. eauto.
  - by apply IHt.
Qed.
Lemma pop_elems {X} (l : lst X) : match pop l with
  | None => elems l = [] | Some (x, l') => elems l = x :: elems l' end.
Proof. induction l as [|x l IH|n l IH|l IH]; simpl; done. Qed.
Lemma empty_elems {X} (l : lst X) : is_empty l = match elems l with [] => true | _ => false end.
Proof. induction l as [|x l IH|n l IH|l IH]; simpl; done. Qed.

(** The same functions on plain lists, the top of a stack first. *)
Fixpoint chk (ops : list op) : bool :=
  match ops with
  | o :: (o' :: _) as r => match o, precedence_check o o' with ParenOpen, _ => chk r | _, Higher => chk r | _, _ => false end
  | _ => true
  end.
Fixpoint a_close (ops : list op) (post : list token) : option (list op * list token) :=
  match ops with
  | [] => None | ParenOpen :: ops => Some (ops, post) | o :: ops => a_close ops (TOp o :: post)
  end.
Fixpoint a_op (o : op) (ops : list op) (post : list token) : list op * list token :=
  match ops with
  | [] => ([], post)
  | top :: ops' => match precedence_check top o with
      | Higher => a_op o ops' (TOp top :: post) | Equal => (ops', TOp top :: post) | Lower => (ops, post) end
  end.
Definition a_step (t : token) (st : option (list op * list token)) : option (list op * list token) :=
  match st with
  | None => None
  | Some (ops, post) =>
      if chk ops then
        match t with
        | TNum n => Some (ops, TNum n :: post)
        | TOp ParenOpen => Some (ParenOpen :: ops, post)
        | TOp ParenClose => a_close ops post
        | TOp o => let '(ops, post) := a_op o ops post in Some (o :: ops, post)
        end
      else None
  end.
Definition a_run (ts : list token) st := fold_left (λ a x, a_step x a) ts st.
Definition sees (s : option (lst op * lst token)) (a : option (list op * list token)) : Prop :=
  match s, a with None, None => True | Some (o, p), Some (o', p') => elems o = o' ∧ elems p = p' | _, _ => False end.

Lemma chk_rec_elems ops o : check_ops_rec ops o = chk (o :: elems ops).
Proof.
  revert o. induction ops as [|x l IH|n l IH|l IH]; intros o; try done; [|apply IH|apply IH].
  simpl check_ops_rec. rewrite (IH x). rewrite elems_cons. simpl. by destruct o, x.
Qed.
Lemma chk_elems ops : check_ops ops = chk (elems ops).
Proof.
  unfold check_ops. assert (Hp := pop_elems ops). destruct (pop ops) as [[x l]|]; [|by rewrite Hp].
  by rewrite Hp, chk_rec_elems.
Qed.
Lemma close_elems ops post : sees (loop_close ops post) (a_close (elems ops) (elems post)).
Proof.
  revert post. induction ops as [|x l IH|n l IH|l IH]; intros post; [done| |apply IH|apply IH].
  rewrite elems_cons. destruct x; simpl; try done; apply (IH (push post _)).
Qed.
Lemma op_elems o ops post : let r := loop_op o ops post in (elems r.1, elems r.2) = a_op o (elems ops) (elems post).
Proof.
  cbv zeta. revert post. induction ops as [|x l IH|n l IH|l IH]; intros post; [done| | |].
  - rewrite elems_cons. simpl. destruct (precedence_check x o); [apply (IH (push post _))|done|done].
  - simpl. rewrite empty_elems. destruct (elems l) eqn:E; [|].
    + simpl. unfold elems in E |- *. simpl. by rewrite E.
    + rewrite IH. rewrite elems_name. by rewrite E.
  - simpl. rewrite empty_elems. destruct (elems l) eqn:E; [|].
    + simpl. unfold elems in E |- *. simpl. by rewrite E.
    + rewrite IH. rewrite elems_art. by rewrite E.
Qed.
Lemma leaf_elems t s a : sees s a → sees (infix_leaf t s) (a_step t a).
Proof.
  destruct s as [[ops post]|], a as [[o p]|]; try done. intros [<- <-]. simpl. rewrite chk_elems. destruct (chk (elems ops)); [|done].
  assert (∀ o, sees (if is_empty ops then Some (push ops o, post) else let '(ops, postfix) := loop_op o ops post in Some (push ops o, postfix))
    (let '(ops, post) := a_op o (elems ops) (elems post) in Some (o :: ops, post))) as Hop.
  { intros o. assert (Ho := op_elems o ops post). cbv zeta in Ho. rewrite <- Ho. rewrite empty_elems. destruct (elems ops) eqn:E.
    - simpl in Ho. injection Ho as E1 E2. rewrite E1, E2. simpl. unfold push. rewrite elems_cons. by rewrite E.
    - by destruct (loop_op o ops post). }
  destruct t as [n|[]]; try done; [..|apply close_elems]; apply Hop.
Qed.
Lemma rest_elems ops post : elems (loop_rest ops post) = reverse (TOp <$> elems ops) ++ elems post.
Proof.
  revert post. induction ops as [|x l IH|n l IH|l IH]; intros post; [done| |apply IH|apply IH].
  rewrite elems_cons. simpl. rewrite IH, reverse_cons, <- (assoc_L (++)). done.
Qed.
Lemma infix_elems t : match postfix_of_infix t, a_run (telems t) (Some ([], [])) with
  | None, None => True | Some l, Some (o, p) => elems l = reverse (TOp <$> o) ++ p | _, _ => False end.
Proof.
  unfold postfix_of_infix, a_run.
  assert (sees (tree_fold_seq infix_leaf (λ _ a, a)
          (λ n _ st, match st with Some (ops, toks) => Some (LArt ops, LName n (LArt toks)) | None => None end)
          t DLeft (Some (LNil, LNil))) (fold_left (λ a x, a_step x a) (telems t) (Some ([], [])))) as Hs.
  { apply fold_seq_rel.
    - intros; by apply leaf_elems.
    - done.
    - intros n k [[o p]|] [[o' p']|]; done.
    - done. }
  destruct (tree_fold_seq _ _ _ t DLeft _) as [[o p]|], (fold_left _ _ _) as [[o' p']|]; try done. destruct Hs as [<- <-].
  apply rest_elems.
Qed.

(** ** The assertion of [postfix_of_infix] never fails *)
Definition is_open (o : op) : Prop := o = ParenOpen.
Global Instance is_open_dec o : Decision (is_open o).
Proof. unfold is_open. apply _. Defined.
Definition opens (ops : list op) : nat := length (filter is_open ops).
Definition binop (o : op) : Prop := o ≠ ParenOpen ∧ o ≠ ParenClose.
Lemma chk_tail o ops : chk (o :: ops) = true → chk ops = true.
Proof. destruct ops as [|o' ops]; [done|]. simpl. by destruct o, o'. Qed.
(** The operators on the stack: ordered, and no closing parenthesis. *)
Definition fine_ops (ops : list op) : Prop := chk ops = true ∧ ParenClose ∉ ops.
Lemma fine_tail o ops : fine_ops (o :: ops) → fine_ops ops ∧ o ≠ ParenClose.
Proof. intros [H1 H2]. split; [split; [by eapply chk_tail|]|]; set_solver. Qed.
Lemma a_op_chk o ops post : binop o → fine_ops ops → let r := a_op o ops post in fine_ops (o :: r.1) ∧ opens r.1 = opens ops.
Proof.
  intros [Ho1 Ho2]. cbv zeta. revert post. induction ops as [|top ops IH]; intros post Hf.
  { split; [|done]. split; [done|]. simpl. set_solver. }
  destruct (fine_tail _ _ Hf) as [Ht Htop]. destruct Hf as [Hc Hf]. simpl. destruct (precedence_check top o) eqn:Ep.
  - destruct (IH (TOp top :: post) Ht) as [H1 H2]. split; [done|]. rewrite H2. unfold opens. rewrite filter_cons_False; [done|].
    unfold is_open. intros ->. by destruct o.
  - simpl. split; [|done]. split; [|set_solver]. clear IH. destruct top, o; try done; exact Hc.
  - simpl. split; [|unfold opens; rewrite filter_cons_False; [done|]; unfold is_open; intros ->; by destruct o].
    split; [|set_solver]. clear IH. destruct ops as [|o' ops]; [done|]. destruct top, o; try done; destruct o'; done.
Qed.
Lemma a_close_chk ops post : fine_ops ops →
  match a_close ops post with
  | None => opens ops = 0%nat
  | Some (ops', _) => fine_ops ops' ∧ opens ops = S (opens ops')
  end.
Proof.
  revert post. induction ops as [|top ops IH]; intros post Hc; [done|]. destruct (fine_tail _ _ Hc) as [Ht _].
  destruct (decide (is_open top)) as [->|Hn].
  - simpl. split; [done|]. unfold opens. by rewrite filter_cons_True.
  - unfold opens. rewrite filter_cons_False by done. fold (opens ops).
    assert (a_close (top :: ops) post = a_close ops (TOp top :: post)) as -> by (by destruct top). by apply IH.
Qed.
(** Opening minus closing parentheses. *)
Definition depth (ts : list token) : Z :=
  foldr (λ t n, match t with TOp ParenOpen => n + 1 | TOp ParenClose => n - 1 | _ => n end)%Z 0%Z ts.
Lemma depth_app a b : depth (a ++ b) = (depth a + depth b)%Z.
Proof. induction a as [|[n|[]] a IH]; simpl; try done; rewrite IH; lia. Qed.
Lemma a_run_none ts : a_run ts None = None.
Proof. by induction ts. Qed.
Lemma a_run_cons t ts st : a_run (t :: ts) st = a_run ts (a_step t st).
Proof. done. Qed.
Lemma a_run_depth ts ops post : fine_ops ops →
  match a_run ts (Some (ops, post)) with
  | None => ∃ us vs, ts = us ++ vs ∧ (Z.of_nat (opens ops) + depth us < 0)%Z
  | Some _ => ∀ us vs, ts = us ++ vs → (0 ≤ Z.of_nat (opens ops) + depth us)%Z
  end.
Proof.
  revert ops post. induction ts as [|t ts IH]; intros ops post Hc; assert (Hk1 := proj1 Hc).
  { simpl. intros us vs E. symmetry in E. apply app_nil in E as [-> _]. simpl. lia. }
  rewrite a_run_cons.
  assert (∀ ops' post' d, (∀ us, depth (t :: us) = depth us + d)%Z → a_step t (Some (ops, post)) = Some (ops', post') →
     fine_ops ops' → Z.of_nat (opens ops') = (Z.of_nat (opens ops) + d)%Z →
     match a_run ts (a_step t (Some (ops, post))) with
     | None => ∃ us vs, t :: ts = us ++ vs ∧ (Z.of_nat (opens ops) + depth us < 0)%Z
     | Some _ => ∀ us vs, t :: ts = us ++ vs → (0 ≤ Z.of_nat (opens ops) + depth us)%Z
     end) as Hgo.
  { intros ops' post' d Hd E Hc' Hn. rewrite E. specialize (IH ops' post' Hc'). destruct (a_run ts (Some (ops', post'))).
    - intros [|u us] vs Eq; simpl in Eq; [simpl; lia|]. injection Eq as <- Eq. specialize (IH us vs Eq). rewrite Hd. lia.
    - destruct IH as (us & vs & -> & Hlt). exists (t :: us), vs. split; [done|]. rewrite Hd. lia. }
  assert (∀ o, binop o → t = TOp o → match a_run ts (a_step t (Some (ops, post))) with
     | None => ∃ us vs, t :: ts = us ++ vs ∧ (Z.of_nat (opens ops) + depth us < 0)%Z
     | Some _ => ∀ us vs, t :: ts = us ++ vs → (0 ≤ Z.of_nat (opens ops) + depth us)%Z
     end) as Hbin.
  { intros o Ho Et. destruct (a_op_chk o ops post Ho Hc) as [H1 H2].
    apply (Hgo (o :: (a_op o ops post).1) (a_op o ops post).2 0%Z).
    - intros us. rewrite Et. destruct Ho. destruct o; simpl; try done; lia.
    - rewrite Et. simpl. rewrite Hk1. destruct (a_op o ops post) eqn:E. destruct Ho. destruct o; try done; by rewrite E.
    - done.
    - assert (opens (o :: (a_op o ops post).1) = opens (a_op o ops post).1) as ->; [|lia].
      unfold opens. by rewrite filter_cons_False by (unfold is_open; apply Ho). }
  destruct t as [n|o].
  { apply (Hgo ops (TNum n :: post) 0%Z); [intros us; simpl; lia|simpl; by rewrite Hk1|done|lia]. }
  destruct o; try (eapply Hbin; [|done]; done).
  - apply (Hgo (ParenOpen :: ops) post 1%Z); [done|simpl; by rewrite Hk1| |].
    + destruct Hc. split; [by destruct ops|set_solver].
    + unfold opens. rewrite filter_cons_True by done. simpl. lia.
  - assert (Hk := a_close_chk ops post Hc). destruct (a_close ops post) as [[ops' post']|] eqn:E.
    + destruct Hk as [Hc' Hn]. apply (Hgo ops' post' (-1)%Z); [intros us; simpl; lia|simpl; by rewrite Hk1|done|lia].
    + simpl a_step. rewrite Hk1, E. rewrite a_run_none. exists [TOp ParenClose], ts. split; [done|]. simpl. lia.
Qed.

(** C70. On every tree of tokens, however meaningless, the assertion of [postfix_of_infix] holds at every token: the
    function panics exactly if some parenthesis is closed that was not opened. *)
Theorem C70_panics_iff_unmatched (t : tree token) :
  postfix_of_infix t = None ↔ ∃ us vs, telems t = us ++ vs ∧ (depth us < 0)%Z.
Proof.
  assert (Hi := infix_elems t).
  assert (Hd := a_run_depth (telems t) [] [] ltac:(split; [done|set_solver])). change (Z.of_nat (opens [])) with 0%Z in Hd.
  destruct (postfix_of_infix t) as [l|], (a_run (telems t) (Some ([], []))) as [[o p]|]; try done.
  split; [done|]. intros (us & vs & E & Hlt). specialize (Hd us vs E). lia.
Qed.

(** ** What [postfix_of_infix] computes *)
Section Grammar.
Context {L : Type} (lit : L → Z).
Definition token_of_word (w : word L) : token := match w with WLit x => TNum (lit x) | WOp o => TOp o end.
(** Reverse Polish notation. *)
Fixpoint polish (e : expr L) : list token :=
  match e with ELit x => [TNum (lit x)] | EBin o a b => polish a ++ polish b ++ [TOp o] end.
Definition mulop (o : op) : Prop := o = Times ∨ o = Divide.
Definition addop (o : op) : Prop := o = Plus ∨ o = Minus.
Definition at_open (s : list op) : Prop := s = [] ∨ ∃ s', s = ParenOpen :: s'.
Definition at_add (s : list op) : Prop := at_open s ∨ ∃ o s', addop o ∧ at_open s' ∧ s = o :: s'.
Definition claim (lv : level) (ws : list (word L)) (e : expr L) : Prop :=
  match lv with
  | Factor => ∀ s p, fine_ops s → a_run (token_of_word <$> ws) (Some (s, p)) = Some (s, reverse (polish e) ++ p)
  | Term => ∀ s p, fine_ops s → at_add s → ∃ o q,
      a_run (token_of_word <$> ws) (Some (s, p)) = Some (o ++ s, q ++ p) ∧ (o = [] ∨ ∃ m, mulop m ∧ o = [m]) ∧
      reverse (TOp <$> o) ++ q = reverse (polish e)
  | Expression => ∀ s p, fine_ops s → at_open s → ∃ o q,
      a_run (token_of_word <$> ws) (Some (s, p)) = Some (o ++ s, q ++ p) ∧
      (∃ o1 o2, (o1 = [] ∨ ∃ m, mulop m ∧ o1 = [m]) ∧ (o2 = [] ∨ ∃ a, addop a ∧ o2 = [a]) ∧ o = o1 ++ o2) ∧
      reverse (TOp <$> o) ++ q = reverse (polish e)
  end.
Local Arguments a_run : simpl never.
Lemma a_run_app a b st : a_run (a ++ b) st = a_run b (a_run a st).
Proof. apply fold_left_app. Qed.
Lemma fine_mul m s : mulop m → fine_ops s → at_add s → fine_ops (m :: s).
Proof.
  intros Hm [Hc Hn] Ha. split; [|destruct Hm; set_solver]. destruct s as [|o s]; [done|].
  destruct Ha as [[?|[s' E]]|(a & s' & Hadd & _ & E)]; [done| |]; injection E as -> ->.
  - by destruct Hm as [->| ->].
  - by destruct Hm as [->| ->], Hadd as [->| ->].
Qed.
Lemma fine_add a s : addop a → fine_ops s → at_open s → fine_ops (a :: s).
Proof.
  intros Hm [Hc Hn] Ha. split; [|destruct Hm; set_solver]. destruct s as [|o s]; [done|].
  destruct Ha as [?|[s' E]]; [done|]; injection E as -> ->. by destruct Hm as [->| ->].
Qed.
Lemma op_step_mul m o1 s p : mulop m → (o1 = [] ∨ ∃ m, mulop m ∧ o1 = [m]) → at_add s → a_op m (o1 ++ s) p = (s, reverse (TOp <$> o1) ++ p).
Proof.
  intros Hm Ho Hs. assert (∀ p, a_op m s p = (s, p)) as Hst.
  { intros p'. destruct Hs as [[->|[s' ->]]|(a & s' & Ha & _ & ->)]; [done|by destruct Hm as [->| ->]|].
    by destruct Hm as [->| ->], Ha as [->| ->]. }
  destruct Ho as [->|(m' & Hm' & ->)]; [apply Hst|].
  destruct Hm as [->| ->], Hm' as [->| ->]; simpl; try done; apply Hst.
Qed.
Lemma op_step_add a o1 o2 s p : addop a → (o1 = [] ∨ ∃ m, mulop m ∧ o1 = [m]) → (o2 = [] ∨ ∃ a, addop a ∧ o2 = [a]) → at_open s →
  a_op a ((o1 ++ o2) ++ s) p = (s, reverse (TOp <$> o1 ++ o2) ++ p).
Proof.
  intros Ha Ho1 Ho2 Hs. assert (∀ p, a_op a s p = (s, p)) as Hst.
  { intros p'. destruct Hs as [->|[s' ->]]; [done|]. by destruct Ha as [->| ->]. }
  assert (∀ p, a_op a (o2 ++ s) p = (s, reverse (TOp <$> o2) ++ p)) as Hst2.
  { intros p'. destruct Ho2 as [->|(a' & Ha' & ->)]; [apply Hst|]. by destruct Ha as [->| ->], Ha' as [->| ->]. }
  destruct Ho1 as [->|(m & Hm & ->)]; [apply Hst2|].
  rewrite fmap_app, reverse_app. simpl. rewrite <- (assoc_L (++)).
  destruct Ha as [->| ->], Hm as [->| ->]; simpl; apply Hst2.
Qed.
Lemma close_step o1 o2 s p : (o1 = [] ∨ ∃ m, mulop m ∧ o1 = [m]) → (o2 = [] ∨ ∃ a, addop a ∧ o2 = [a]) →
  a_close ((o1 ++ o2) ++ ParenOpen :: s) p = Some (s, reverse (TOp <$> o1 ++ o2) ++ p).
Proof.
  intros [->|(m & [->| ->] & ->)] [->|(a & [->| ->] & ->)]; done.
Qed.
Lemma chk_run o1 o2 s : (o1 = [] ∨ ∃ m, mulop m ∧ o1 = [m]) → (o2 = [] ∨ ∃ a, addop a ∧ o2 = [a]) → fine_ops s → at_open s →
  fine_ops ((o1 ++ o2) ++ s).
Proof.
  intros H1 H2 Hf Hs. assert (fine_ops (o2 ++ s) ∧ at_add (o2 ++ s)) as [Hf2 Hs2].
  { destruct H2 as [->|(a & Ha & ->)]; simpl; [by split; [|left]|]. split; [by apply fine_add|]. right. eauto 10. }
  rewrite <- (assoc_L (++)). destruct H1 as [->|(m & Hm & ->)]; simpl; [done|by apply fine_mul].
Qed.
Lemma a_step_op o s p : binop o → fine_ops s → a_step (TOp o) (Some (s, p)) = Some (o :: (a_op o s p).1, (a_op o s p).2).
Proof. intros [H1 H2] [Hc _]. simpl. rewrite Hc. destruct (a_op o s p) eqn:E. destruct o; try done; by rewrite E. Qed.

Lemma written_claim lv ws e : written lv ws e → claim lv ws e.
Proof.
  induction 1 as [x|ws e _ IH|ws e _ IH|o ws us a b Ho _ IHa _ IHb|ws e _ IH|o ws us a b Ho _ IHa _ IHb]; simpl.
  - intros s p [Hc _]. unfold a_run. simpl. by rewrite Hc.
  - intros s p Hf. rewrite fmap_app. simpl. rewrite a_run_cons, a_run_app.
    destruct (IH (ParenOpen :: s) p) as (o & q & E & (o1 & o2 & H1 & H2 & ->) & Hq).
    { destruct Hf as [Hc Hn]. split; [by destruct s|set_solver]. }
    { right. eauto. }
    assert (a_step (TOp ParenOpen) (Some (s, p)) = Some (ParenOpen :: s, p)) as -> by (simpl; by rewrite (proj1 Hf)).
    rewrite E. unfold a_run. simpl. assert (fine_ops ((o1 ++ o2) ++ ParenOpen :: s)) as [Hc _].
    { apply chk_run; try done; [|right; eauto]. destruct Hf as [Hc Hn]. split; [by destruct s|set_solver]. }
    rewrite Hc, close_step by done. by rewrite (assoc_L (++)), Hq.
  - intros s p Hf Hs. exists [], (reverse (polish e)). split; [by apply IH|]. split; [by left|done].
  - intros s p Hf Hs. rewrite fmap_app, fmap_cons. rewrite a_run_app, a_run_cons. cbn [token_of_word polish].
    destruct (IHa s p Hf Hs) as (o1 & q & E & H1 & Hq). rewrite E.
    assert (Hm : fine_ops (o :: s)) by (by apply fine_mul).
    rewrite a_step_op.
    2: { destruct Ho as [->| ->]; done. }
    2: { destruct H1 as [->|(m & Hmm & ->)]; [done|by apply fine_mul]. }
    rewrite (op_step_mul o o1 s) by done. simpl. rewrite (IHb (o :: s) _ Hm).
    exists [o], (reverse (polish b) ++ reverse (polish a)). split; [by rewrite (assoc_L (++) _ q p), Hq, <- (assoc_L (++))|]. split; [eauto|].
    by rewrite !reverse_app.
  - intros s p Hf Hs. destruct (IH s p Hf) as (o & q & E & H1 & Hq); [by left|]. exists o, q. split; [done|]. split; [|done].
    exists o, []. rewrite app_nil_r. eauto.
  - intros s p Hf Hs. rewrite fmap_app, fmap_cons. rewrite a_run_app, a_run_cons. cbn [token_of_word polish].
    destruct (IHa s p Hf Hs) as (o' & q & E & (o1 & o2 & H1 & H2 & ->) & Hq). rewrite E.
    rewrite a_step_op; [|destruct Ho as [->| ->]; done|by apply chk_run].
    rewrite op_step_add by done. cbn [fst snd].
    destruct (IHb (o :: s) (reverse (TOp <$> o1 ++ o2) ++ q ++ p)) as (o3 & q3 & E3 & H3 & Hq3).
    { by apply fine_add. }
    { right. eauto 10. }
    rewrite E3. exists (o3 ++ [o]), (q3 ++ reverse (polish a)). split; [|split].
    + rewrite (assoc_L (++) _ q p), Hq. by rewrite <- !(assoc_L (++)).
    + exists o3, [o]. split; [done|]. split; [|done]. right. eauto.
    + rewrite fmap_app, !reverse_app. simpl. f_equal. by rewrite (assoc_L (++)), Hq3.
Qed.
(** C70. A tree whose leaves, from left to right, are an expression as it is usually written, becomes (the reverse of)
    its reverse Polish notation, wherever there are names in the tree. *)
Theorem C70_postfix (t : tree token) ws e : written Expression ws e → telems t = token_of_word <$> ws →
  ∃ l, postfix_of_infix t = Some l ∧ elems l = reverse (polish e).
Proof.
  intros Hw Ht. assert (Hi := infix_elems t). rewrite Ht in Hi.
  destruct (written_claim _ _ _ Hw [] []) as (o & q & E & _ & Hq); [split; [done|set_solver]|by left|].
  rewrite E in Hi. destruct (postfix_of_infix t) as [l|]; [|done]. exists l. split; [done|]. by rewrite Hi, !app_nil_r.
Qed.
End Grammar.

(** ** What [evaluate_postfix] computes *)
Section Eval.
Context (checks : bool).
Definition e_step (t : token) (st : option (list Z)) : option (list Z) :=
  match st with
  | None => None
  | Some stack =>
      match t with
      | TNum n => Some (n :: stack)
      | TOp ParenOpen | TOp ParenClose => None
      | TOp o =>
          match stack with
          | x :: y :: stack =>
              (λ z, z :: stack) <$> match o with
                         | Plus => isize checks (y + x)
                         | Minus => isize checks (y - x)
                         | Times => isize checks (y * x)
                         | Divide => isize_div y x
                         | _ => None
                         end
          | _ => None
          end
      end
  end.
Lemma eval_leaf_elems t s : elems <$> eval_leaf checks t s = e_step t (elems <$> s).
Proof.
  destruct s as [s|]; [|done]. simpl. destruct t as [n|o]; [done|].
  assert (Hp := pop_elems s). destruct (pop s) as [[x s1]|]; [|rewrite Hp; by destruct o]. rewrite Hp.
  assert (Hp1 := pop_elems s1). destruct (pop s1) as [[y s2]|]; [|rewrite Hp1; by destruct o]. rewrite Hp1.
  destruct o; try done;
    match goal with |- context [match ?r with _ => _ end] => destruct r as [z|] eqn:Ez end; try done; simpl in Ez; by rewrite Ez.
Qed.
Lemma evaluate_elems t : evaluate_postfix checks t = match fold_left (λ a x, e_step x a) (telems t) (Some []) with Some [x] => Some x | _ => None end.
Proof.
  unfold evaluate_postfix.
  assert (elems <$> tree_fold_seq (eval_leaf checks) (λ _ stack, stack)
          (λ _ _ st, match st with Some stack => Some (LArt stack) | None => None end) t DLeft (Some LNil) =
     fold_left (λ a x, e_step x a) (telems t) (Some [])) as Hs.
  { apply (fold_seq_rel (λ s a, elems <$> s = a)).
    - intros x s a <-. apply eval_leaf_elems.
    - done.
    - by intros n k [s|] a <-.
    - done. }
  rewrite <- Hs. destruct (tree_fold_seq _ _ _ t DLeft _) as [s|]; [|done]. simpl.
  assert (Hp := pop_elems s). destruct (pop s) as [[x s1]|]; rewrite Hp; [|done]. rewrite empty_elems. by destruct (elems s1).
Qed.
Lemma polish_value {L} (lit : L → Z) e st :
  fold_left (λ a x, e_step x a) (polish lit e) (Some st) = (λ v, v :: st) <$> rust_value checks lit e.
Proof.
  assert (∀ ts, fold_left (λ a x, e_step x a) ts None = None) as Hnone by (by induction ts).
  revert st. induction e as [x|o a IHa b IHb]; intros st; [done|]. simpl. rewrite !fold_left_app, IHa.
  destruct (rust_value checks lit a) as [y|]; simpl; [|by rewrite Hnone]. rewrite IHb.
  destruct (rust_value checks lit b) as [x|]; simpl; [|done]. by destruct o.
Qed.
End Eval.

(** ** The calculator on tokens *)
Section Tokens.
Context `{Hashes} `{Hash64 token} (checks : bool).
Lemma tree_right (l : lst token) : ∃ n t, (∀ fuel, (n ≤ fuel)%nat → tree_of_list fuel DRight l = Built t) ∧ telems t = reverse (elems l).
Proof.
  destruct (C38_tree_of_list DRight l (S (lsize l))) as (t & E & Hq & _); [lia|].
  exists (S (lsize l)), t. split; [intros fuel Hn; rewrite <- E; apply C38_history_independent; [lia|lia|done]|]. unfold telems, elems. rewrite <- Hq. simpl.
  clear. induction (tseq t) as [|x xs IH]; [done|]. rewrite reverse_cons, elems_of_app, reverse_app, <- IH.
  by destruct x.
Qed.
(** C70. The calculator, from a tree of tokens: the value of the expression, or a panic where Rust's arithmetic has none. *)
Theorem C70_tokens {L} (lit : L → Z) (t : tree token) ws e :
  written Expression ws e → telems t = token_of_word lit <$> ws →
  ∃ n, ∀ fuel, (n ≤ fuel)%nat → calculate_tokens checks fuel t = rust_value checks lit e.
Proof.
  intros Hw Ht. destruct (C70_postfix lit t ws e Hw Ht) as (l & E & Hl). destruct (tree_right l) as (n & t' & Hn & Ht').
  exists n. intros fuel Hf. unfold calculate_tokens. rewrite E, (Hn fuel Hf).
  rewrite evaluate_elems, Ht', Hl, reverse_involutive, polish_value. by destruct (rust_value checks lit e).
Qed.
(** If no intermediate result leaves the range of [isize] and no divisor is zero, it is the mathematical value. *)
Theorem C70_tokens_value {L} (lit : L → Z) (t : tree token) ws e :
  written Expression ws e → telems t = token_of_word lit <$> ws → in_range lit e →
  ∃ n, ∀ fuel, (n ≤ fuel)%nat → calculate_tokens checks fuel t = Some (value lit e).
Proof. intros Hw Ht Hr. rewrite <- (in_range_value checks lit e Hr). by apply (C70_tokens lit t ws e). Qed.

(** ** From characters to tokens *)
Fixpoint a_num (num : Z) (ds : list ascii) : Z :=
  match ds with
  | [] => num
  | d :: ds => if decide (0 < num)%Z then a_num (num + 10 * digit_value d)%Z ds else a_num (digit_value d) ds
  end.
(** What [tok_of_char] takes a numeral for. *)
Definition misread (ds : list ascii) : Z := a_num 0 (reverse ds).
Lemma num_elems num ds : num_of_digits_rec num ds = a_num num (elems ds).
Proof. revert num. induction ds as [|x l IH|n l IH|l IH]; intros num; simpl; [done| |apply IH|apply IH]. by destruct (decide _). Qed.
Definition a_flush (st : list ascii * list token) : list ascii * list token :=
  match st.1 with [] => st | _ => ([], TNum (a_num 0 st.1) :: st.2) end.
Definition seen (s : lst ascii * lst token) (a : list ascii * list token) : Prop := elems s.1 = a.1 ∧ elems s.2 = a.2.
Lemma flush_elems d o : seen (transfer_num d o) (a_flush (elems d, elems o)).
Proof.
  unfold transfer_num, a_flush, seen. cbn [fst snd]. rewrite empty_elems. destruct (elems d) eqn:E; [done|].
  cbn [fst snd]. split; [done|]. unfold push. by rewrite elems_cons, num_elems, E.
Qed.
Definition char_op (c : ascii) : option op :=
  (if decide (c = "+") then Some Plus else if decide (c = "-") then Some Minus else if decide (c = "*") then Some Times
   else if decide (c = "/") then Some Divide else if decide (c = "(") then Some ParenOpen else if decide (c = ")") then Some ParenClose
   else None)%char.
Definition digit_chars : list ascii := ["0"; "1"; "2"; "3"; "4"; "5"; "6"; "7"; "8"; "9"]%char.
Definition a_char (c : ascii) (st : option (list ascii * list token)) : option (list ascii * list token) :=
  match st with
  | None => None
  | Some st => match char_op c with
      | Some o => let st := a_flush st in Some (st.1, TOp o :: st.2)
      | None => if decide (c ∈ digit_chars) then Some (c :: st.1, st.2) else None
      end
  end.
Definition seen' (s : option (lst ascii * lst token)) (a : option (list ascii * list token)) : Prop :=
  match s, a with None, None => True | Some s, Some a => seen s a | _, _ => False end.
Lemma char_leaf_elems c s a : seen' s a → seen' (char_leaf c s) (a_char c a).
Proof.
  destruct s as [[d o]|], a as [[d' o']|]; try done. intros [Hd Ho]. simpl in Hd, Ho. subst d' o'.
  assert (∀ x, seen' (Some (read_op d o x)) (let st := a_flush (elems d, elems o) in Some (st.1, TOp x :: st.2))) as Hop.
  { intros x. cbv zeta. unfold read_op. destruct (flush_elems d o) as [H1 H2]. destruct (transfer_num d o) as [d1 o1]. simpl in *.
    unfold seen. cbn [fst snd]. unfold push. rewrite elems_cons. split; congruence. }
  unfold char_leaf, a_char, char_op. change ["0"; "1"; "2"; "3"; "4"; "5"; "6"; "7"; "8"; "9"]%char with digit_chars.
  repeat (destruct (decide _) as [_|_]; [first [apply Hop|done]|]). done.
Qed.
Lemma is_digit_chars c : is_digit c → c ∈ digit_chars.
Proof.
  unfold is_digit, digit_value, digit_chars. intros Hc. apply elem_of_list_In.
  destruct c as [[] [] [] [] [] [] [] []]; vm_compute in Hc; destruct Hc as [H1 H2]; first [by destruct H1|by destruct H2|simpl; tauto].
Qed.
Lemma digit_step c st : is_digit c → a_char c (Some st) = Some (c :: st.1, st.2).
Proof.
  intros Hc%is_digit_chars%elem_of_list_In. unfold digit_chars in Hc. simpl in Hc.
  repeat (destruct Hc as [<-|Hc]; [done|]). done.
Qed.
Lemma digits_step ds st : Forall is_digit ds →
  fold_left (λ a c, a_char c a) ds (Some st) = Some (reverse ds ++ st.1, st.2).
Proof.
  revert st. induction ds as [|c ds IH]; intros st Hf; [by destruct st|]. apply Forall_cons in Hf as [Hc Hf].
  change (fold_left (λ a c, a_char c a) (c :: ds) (Some st)) with (fold_left (λ a c, a_char c a) ds (a_char c (Some st))).
  rewrite (digit_step c st Hc), IH by done. simpl. by rewrite reverse_cons, <- (assoc_L (++)).
Qed.
Lemma op_step o st : a_char (op_char o) (Some st) = Some ((a_flush st).1, TOp o :: (a_flush st).2).
Proof. by destruct o. Qed.
(** No two literals side by side. *)
Fixpoint apart {L} (ws : list (word L)) : Prop :=
  match ws with [] => True | WOp _ :: ws => apart ws | WLit _ :: ws => match ws with WLit _ :: _ => False | _ => apart ws end end.
Lemma apart_app {L} (a : list (word L)) o b : apart a → apart b → apart (a ++ WOp o :: b).
Proof. induction a as [|[x|o'] a IH]; intros Ha Hb; [done| |by apply IH]. destruct a as [|[y|o'] a]; simpl in *; [done|done|by apply IH]. Qed.
Lemma written_apart {L} lv ws (e : expr L) : written lv ws e → apart ws.
Proof. induction 1; try done; by apply apart_app. Qed.
Lemma written_literals {L} lv ws (e : expr L) x : written lv ws e → WLit x ∈ ws → x ∈ literals e.
Proof. induction 1; simpl in *; set_solver. Qed.
Lemma words_step ws d o : apart ws → (match ws with WLit _ :: _ => d = [] | _ => True end) → (∀ ds, WLit ds ∈ ws → numeral ds) →
  ∃ st, fold_left (λ a c, a_char c a) (written_text ws) (Some (d, o)) = Some st ∧
    a_flush st = ([], reverse (token_of_word misread <$> ws) ++ (a_flush (d, o)).2).
Proof.
  revert d o. induction ws as [|[ds|x] ws IH]; intros d o Ha Hd Hn.
  - exists (d, o). split; [done|]. unfold a_flush. simpl. by destruct d.
  - subst d. destruct (Hn ds) as [Hne Hf]; [by left|].
    destruct (IH (reverse ds) o) as (st & E & Hs).
    { simpl in Ha. by destruct ws as [|[]]. }
    { simpl in Ha. by destruct ws as [|[]]. }
    { intros ds' Hds. apply Hn. by right. }
    exists st. change (written_text (WLit ds :: ws)) with (ds ++ written_text ws).
    rewrite fold_left_app, digits_step by done. cbn [fst snd]. rewrite app_nil_r. split; [exact E|].
    rewrite Hs, fmap_cons, reverse_cons, <- (assoc_L (++)). f_equal. f_equal. unfold a_flush. simpl.
    destruct (reverse ds) eqn:Er; [by destruct Hne; rewrite <- (reverse_involutive ds), Er|]. unfold misread. by rewrite Er.
  - destruct (IH [] (TOp x :: (a_flush (d, o)).2)) as (st & E & Hs).
    { done. }
    { by destruct ws as [|[]]. }
    { intros ds' Hds. apply Hn. by right. }
    exists st.
    change (fold_left (λ a c, a_char c a) (written_text (WOp x :: ws)) (Some (d, o)))
      with (fold_left (λ a c, a_char c a) (written_text ws) (a_char (op_char x) (Some (d, o)))). rewrite op_step.
    assert ((a_flush (d, o)).1 = []) as -> by (unfold a_flush; by destruct d). split; [exact E|].
    rewrite Hs, fmap_cons, reverse_cons, <- (assoc_L (++)). done.
Qed.
Lemma tok_of_char_elems (t : tree ascii) ws : apart ws → (∀ ds, WLit ds ∈ ws → numeral ds) → telems t = written_text ws →
  ∃ n t', (∀ fuel, (n ≤ fuel)%nat → tok_of_char fuel t = Some t') ∧ telems t' = token_of_word misread <$> ws.
Proof.
  intros Ha Hn Ht. unfold tok_of_char.
  assert (seen' (tree_fold_seq char_leaf (λ _ a, a)
          (λ n _ st, match st with
                     | Some (digs, toks) => Some (digs, LName (name_pair name_unit n) (LArt toks))
                     | None => None
                     end)
          t DLeft (Some (LNil, LNil))) (fold_left (λ a c, a_char c a) (telems t) (Some ([], [])))) as Hs.
  { apply fold_seq_rel.
    - intros; by apply char_leaf_elems.
    - done.
    - intros n k [[o p]|] [[o' p']|]; done.
    - done. }
  destruct (words_step ws [] [] Ha) as (st & E & Hf); [by destruct ws as [|[]]|done|]. rewrite Ht, E in Hs.
  destruct (tree_fold_seq _ _ _ t DLeft _) as [[d o]|]; [|done]. destruct Hs as [Hd Ho]. simpl in Hd, Ho.
  assert (Hfl := flush_elems d o). destruct (transfer_num d o) as [d' o']. destruct Hfl as [Hd' Ho']. simpl in Hd', Ho'.
  assert ((elems d, elems o) = st) as Est by (destruct st; by f_equal). rewrite Est, Hf in Hd', Ho'. simpl in Hd', Ho'.
  rewrite app_nil_r in Ho'. destruct (tree_right o') as (n & t' & Hr & Ht'). exists n, t'. split.
  - intros fuel Hle. by rewrite empty_elems, Hd', (Hr fuel Hle).
  - by rewrite Ht', Ho', reverse_involutive.
Qed.

(** ** Numerals are misread *)
Fixpoint low_first (r : list ascii) : Z := match r with [] => 0 | d :: r => digit_value d + 10 * low_first r end%Z.
Fixpoint dsum (r : list ascii) : Z := match r with [] => 0 | d :: r => digit_value d + dsum r end%Z.
Lemma decimal_low ds : decimal ds = low_first (reverse ds).
Proof.
  induction ds as [|d ds IH] using rev_ind; [done|]. unfold decimal in *. rewrite fold_left_app, reverse_snoc. simpl. rewrite IH. lia.
Qed.
Lemma dsum_low r : Forall is_digit r → (0 ≤ dsum r ≤ low_first r)%Z ∧ (dsum r = low_first r ↔ low_first r < 10)%Z.
Proof.
  induction r as [|d r IH]; intros Hf; [simpl; lia|]. apply Forall_cons in Hf as [Hd Hf]. destruct (IH Hf) as [H1 H2]. unfold is_digit in Hd. simpl. lia.
Qed.
Lemma a_num_pos n r : Forall is_digit r → (0 < n)%Z → a_num n r = (n + 10 * dsum r)%Z.
Proof.
  revert n. induction r as [|d r IH]; intros n Hf Hn; [simpl; lia|]. apply Forall_cons in Hf as [Hd Hf]. simpl.
  rewrite decide_True by done. unfold is_digit in Hd. rewrite IH by (done || lia). lia.
Qed.
Lemma a_num_low r : Forall is_digit r → (0 ≤ a_num 0 r ≤ low_first r)%Z ∧
  (a_num 0 r = low_first r ↔ low_first r = 0 ∨ low_first r < 100 ∧ low_first r mod 10 ≠ 0)%Z.
Proof.
  induction r as [|d r IH]; intros Hf; [simpl; lia|]. apply Forall_cons in Hf as [Hd Hf]. destruct (IH Hf) as [H1 H2]. unfold is_digit in Hd.
  destruct (dsum_low r Hf) as [H3 H4]. cbn [a_num low_first]. rewrite decide_False by lia.
  assert ((digit_value d + 10 * low_first r) mod 10 = digit_value d)%Z as Hmod.
  { rewrite Z.add_comm, Z.mul_comm, Z.add_comm, Z_mod_plus_full. apply Z.mod_small. lia. }
  rewrite Hmod. destruct (decide (0 < digit_value d)%Z).
  - rewrite a_num_pos by done. lia.
  - assert (digit_value d = 0%Z) as -> by lia. lia.
Qed.
Lemma misread_iff ds : Forall is_digit ds → (misread ds = decimal ds ↔ decimal ds = 0 ∨ decimal ds < 100 ∧ decimal ds mod 10 ≠ 0)%Z.
Proof. intros Hf. unfold misread. rewrite decimal_low. apply a_num_low. by apply Forall_reverse. Qed.
Lemma misread_le ds : Forall is_digit ds → (0 ≤ misread ds ≤ decimal ds)%Z.
Proof. intros Hf. unfold misread. rewrite decimal_low. apply a_num_low. by apply Forall_reverse. Qed.

(** ** The calculator on texts *)
Theorem C70_text_misread (t : tree ascii) ws e :
  written Expression ws e → Forall numeral (literals e) → telems t = written_text ws →
  ∃ n, ∀ fuel, (n ≤ fuel)%nat → calculate checks fuel t = rust_value checks misread e.
Proof.
  intros Hw Hl Ht. destruct (tok_of_char_elems t ws) as (n & t' & Hn & Ht'); [by eapply written_apart| |done|].
  { intros ds Hds. rewrite Forall_forall in Hl. apply Hl. by eapply written_literals. }
  destruct (C70_tokens misread t' ws e Hw Ht') as [m Hm]. exists (n + m)%nat. intros fuel Hf.
  unfold calculate. rewrite Hn by lia. apply Hm. lia.
Qed.
(** C70. The calculator, from characters: if every literal is zero, or below 100 and not a multiple of ten. *)
Theorem C70_text (t : tree ascii) ws e :
  written Expression ws e → telems t = written_text ws →
  Forall (λ ds, numeral ds ∧ (decimal ds = 0 ∨ decimal ds < 100 ∧ decimal ds mod 10 ≠ 0)%Z) (literals e) →
  ∃ n, ∀ fuel, (n ≤ fuel)%nat → calculate checks fuel t = rust_value checks decimal e.
Proof.
  intros Hw Ht Hl. assert (rust_value checks misread e = rust_value checks decimal e) as <-.
  { clear -Hl. induction e as [ds|o a IHa b IHb]; simpl in Hl |- *.
    - apply Forall_cons in Hl as [[[_ Hd] Hv] _]. f_equal. by apply misread_iff.
    - apply Forall_app in Hl as [Ha Hb]. by rewrite IHa, IHb. }
  eapply C70_text_misread; [done| |done]. eapply Forall_impl; [exact Hl|]. by intros ds [? _].
Qed.
(** All other literals are misread: the calculator takes them for a smaller number. *)
Theorem C70_numerals_refuted (t : tree ascii) ds : numeral ds → telems t = ds →
  ∃ n v, (∀ fuel, (n ≤ fuel)%nat → calculate checks fuel t = Some v) ∧ (0 ≤ v ≤ decimal ds)%Z ∧
    (v = decimal ds ↔ decimal ds = 0 ∨ decimal ds < 100 ∧ decimal ds mod 10 ≠ 0)%Z.
Proof.
  intros Hn Ht. destruct (C70_text_misread t [WLit ds] (ELit ds)) as [n Hc].
  - repeat constructor.
  - by constructor.
  - rewrite Ht. unfold written_text. simpl. by rewrite app_nil_r.
  - exists n, (misread ds). split; [exact Hc|]. destruct Hn as [_ Hf]. split; [by apply misread_le|by apply misread_iff].
Qed.
End Tokens.

(** ** Examples *)
Section Examples.
Context `{Hashes} `{Hash64 token}.
Definition ex_words : list (word (list ascii)) :=
  [WLit ["2"]; WOp Times; WOp ParenOpen; WLit ["2"; "3"]; WOp Minus; WLit ["3"]; WOp ParenClose; WOp Minus; WLit ["7"]; WOp Minus; WLit ["1"]]%char.
Definition ex_expr : expr (list ascii) :=
  (EBin Minus (EBin Minus (EBin Times (ELit ["2"]) (EBin Minus (ELit ["2"; "3"]) (ELit ["3"]))) (ELit ["7"])) (ELit ["1"]))%char.
(** 2*(23-3)-7-1, with a name in the middle of the tree, inside the numeral 23. *)
Definition ex_chars : tree ascii :=
  (TName (name_of_usize 5) 40 (TArt (TBin 3 (TBin 2 (TLeaf "2") (TBin 1 (TLeaf "*") (TLeaf "("))) (TLeaf "2")))
    (TBin 3 (TBin 1 (TLeaf "3") (TLeaf "-")) (TBin 2 (TBin 1 (TLeaf "3") (TLeaf ")")) (TBin 1 (TBin 1 (TLeaf "-") (TLeaf "7")) (TBin 1 (TLeaf "-") (TLeaf "1"))))))%char.
Lemma C70_ex : written Expression ex_words ex_expr ∧ telems ex_chars = written_text ex_words ∧
  Forall (λ ds, numeral ds ∧ (decimal ds = 0 ∨ decimal ds < 100 ∧ decimal ds mod 10 ≠ 0)%Z) (literals ex_expr) ∧
  in_range decimal ex_expr ∧ rust_value true decimal ex_expr = Some 32%Z.
Proof.
  split; [|split; [done|split; [|split; [|done]]]].
  - unfold ex_words, ex_expr.
    apply (wr_sum Minus (take 9 ex_words) [WLit ["1"%char]]); [by right| |by repeat constructor].
    apply (wr_sum Minus (take 7 ex_words) [WLit ["7"%char]]); [by right| |by repeat constructor].
    apply wr_term. apply (wr_product Times [WLit ["2"%char]] (drop 2 (take 7 ex_words))); [by left|by repeat constructor|].
    apply (wr_parens (drop 3 (take 6 ex_words))).
    apply (wr_sum Minus [WLit ["2"; "3"]%char] [WLit ["3"]%char]); [by right|by repeat constructor|by repeat constructor].
  - repeat constructor; try done; right; split; vm_compute; done.
  - repeat split; vm_compute; done.
Qed.
(** What goes wrong: 20 is read as 2, 123 as 33. *)
Lemma C70_ex_misread : misread ["2"; "0"]%char = 2%Z ∧ misread ["1"; "2"; "3"]%char = 33%Z ∧ decimal ["1"; "2"; "3"]%char = 123%Z ∧
  numeral ["1"; "2"; "3"]%char.
Proof. split; [done|]. split; [done|]. split; [done|]. split; [done|]. repeat constructor; vm_compute; done. Qed.
(** An unmatched parenthesis, and a sequence of tokens that makes no sense but is accepted. *)
Lemma C70_ex_unmatched : postfix_of_infix (TBin 1 (TLeaf (TNum 1)) (TLeaf (TOp ParenClose))) = None ∧
  is_Some (postfix_of_infix (TBin 1 (TLeaf (TNum 1)) (TLeaf (TNum 2)))).
Proof. split; [done|by eexists]. Qed.
End Examples.
