(** * Examples for C49, C50: a session with edits that meets the hypotheses; what the engine returns for it. *)
From Verif Require Export CatSessions Consistency.
Local Open Scope string_scope.
Local Open Scope list_scope.

(** Some hash functions (none of the theorems depends on them). *)
Global Instance ex_hashes : Hashes := {| h_pair := λ a b, (7 * a + 13 * b + 1)%N; h_usize := λ u, (u * 2654435761 mod 4294967296)%N;
  h_isize := Z.to_N; h_str := λ s, N.of_nat (String.length s); h_fork1 := λ n, (3 * n + 1)%N; h_fork2 := λ n, (5 * n + 2)%N |}.
Global Instance ex_hash64 : Hash64 val := {|
  hash_elt := λ v, match v with VInt z => (Z.to_N z * 40503 mod 65536)%N | _ => 0%N end; hash_name := λ n, (nm_hash n / 64)%N |}.
Definition ex_add (a b : val) : val := match a, b with VInt x, VInt y => VInt (x + y) | _, _ => VUnit end.
Definition ex_le (a b : val) : bool := match a, b with VInt x, VInt y => (x <=? y)%Z | _, _ => true end.
Definition ex_body (v : val) : val := ex_add v (VInt 100).
Definition ex_pred (v : val) : bool := match v with VInt z => Z.even z | _ => true end.
Definition ex_cat (F : nat) : Prog := cat ex_body ex_pred (VInt 0) ex_add ex_le F (λ _, 0%N) (λ _ _, 0%N).
Definition c_sess (F : nat) (ss : list sstep) : comp := c_session ex_body ex_pred (VInt 0) ex_add ex_le F ss.
Definition nu (n : N) : name := name_of_usize n.

(** A list in three pieces: 5, name 1, 2, 9, name 2, 7, name 3, 1, 4.  Then 3 and 8 are inserted before 7, the piece
    after name 3 is replaced, and a new piece (name 4, 6) is put in front.  After each edit several queries. *)
Definition hd1 : val := v_cons (VInt 5) (v_lname (nu 1) (v_lart (root_cell (nu 1)))).
Definition hd2 : val := v_lname (nu 4) (v_lart (root_cell (nu 4))).
Definition ints (l : list Z) (tl : val) : val := foldr (λ z, v_cons (VInt z)) tl l.
Definition queries (hd : val) : list sstep :=
  [SQuery [] FinVec hd;
   SQuery [StMap; StFilter] FinVec hd;
   SQuery [StReverse; StTree DLeft DLeft; StMapLazy] (FinMonoid DLeft) hd;
   SQuery [] (FinSort DLeft) hd;
   SQuery [StFilterTree DRight DLeft; StAppend hd] (FinSort2 (Some (nu 99))) hd;
   SQuery [StMap; StPrepend hd] (FinSort3 DRight (Some (nu 77))) hd].
Definition ex_session : list sstep :=
  [SCell (nu 3) (ints [1; 4]%Z v_nil);
   SCell (nu 2) (ints [7]%Z (v_lname (nu 3) (v_lart (root_cell (nu 3)))));
   SCell (nu 1) (ints [2; 9]%Z (v_lname (nu 2) (v_lart (root_cell (nu 2)))))] ++
  queries hd1 ++
  [SSet (nu 2) (ints [3; 8; 7]%Z (v_lname (nu 3) (v_lart (root_cell (nu 3)))))] ++
  queries hd1 ++
  [SCell (nu 3) (ints [10]%Z v_nil); SCell (nu 4) (ints [6]%Z hd1)] ++
  queries hd2.

Local Ltac den := repeat first [apply den_nil | apply den_cons | apply den_name | eapply den_art; [vm_compute; reflexivity|]].
Local Ltac names_ok := split_and!;
  [apply (bool_decide_unpack (NoDup _)); vm_compute; reflexivity|repeat (apply Forall_cons_2; [match goal with |- api_name ?n => let m := eval vm_compute in n in match m with Name _ (SUsize ?u) => exact (api_usize u) end end|]); apply Forall_nil_2|repeat constructor].
Local Ltac query := split; [split; [eexists; split; [den|split; [names_ok|intros; exact I]]|repeat constructor]|].
Local Ltac query_app := split; [split; [eexists; split; [den|split; [names_ok|intros; exact I]]|]; apply Forall_cons_2; [exact I|]; apply Forall_cons_2; [eexists; split; [den|names_ok]|apply Forall_nil_2]|].
Local Ltac query_sort3 := split; [split; [eexists; split; [den|split; [names_ok|]]|]|];
  [intros ? (? & -> & ? & (? & Hd & ->) & ->); match type of Hd with denotes ?cells ?v ?L' => eassert (Hd' : L' = _) by (eapply denotes_functional; [exact Hd|den]); rewrite Hd'; clear Hd Hd' end;
   match goal with |- final_ok _ ?ts => change (good_names (nu 77 :: names_of ts)) end; match goal with |- good_names ?l => let l' := eval vm_compute in l in change (good_names l') end; names_ok
  |apply Forall_cons_2; [exact I|]; apply Forall_cons_2; [eexists; den|apply Forall_nil_2]|].
Local Ltac queries_ok := do 4 query; query_app; query_sort3.
(** The hypothesis of C49 is met. *)
Lemma ex_session_valid : valid_session ex_body ex_pred ∅ ex_session.
Proof.
  unfold ex_session, queries, hd1, hd2, ints. cbn [app foldr valid_session].
  queries_ok. split; [vm_compute; eauto|]. queries_ok. queries_ok. exact I.
Qed.

Fixpoint ints_of (v : val) : list Z :=
  match v with
  | VInr (VInl (VPair (VInt z) tl)) => z :: ints_of tl
  | VInr (VInr (VInl (VPair _ tl))) => ints_of tl
  | VInt z => [z]
  | _ => []
  end.
Fixpoint results (v : val) : list (list Z) := match v with VPair a r => ints_of a :: results r | _ => [] end.
(** What the incremental engine returns. *)
Lemma ex_session_results : match (@exec (ex_cat 60) 80 (c_sess 60 ex_session) dcg_new).1 with OVal v => results v | _ => [] end =
  [ [5; 2; 9; 7; 1; 4]; [102; 104]; [628]; [1; 2; 4; 5; 7; 9]; [1; 2; 2; 4; 4; 5; 7; 9]; [1; 2; 4; 5; 7; 9; 101; 102; 104; 105; 107; 109];
    [5; 2; 9; 3; 8; 7; 1; 4]; [102; 108; 104]; [839]; [1; 2; 3; 4; 5; 7; 8; 9]; [1; 2; 2; 3; 4; 4; 5; 7; 8; 8; 9]; [1; 2; 3; 4; 5; 7; 8; 9; 101; 102; 103; 104; 105; 107; 108; 109];
    [6; 5; 2; 9; 3; 8; 7; 10]; [106; 102; 108; 110]; [850]; [2; 3; 5; 6; 7; 8; 9; 10]; [2; 2; 3; 5; 6; 6; 7; 8; 8; 9; 10; 10]; [2; 3; 5; 6; 7; 8; 9; 10; 102; 103; 105; 106; 107; 108; 109; 110] ]%Z.
Proof. vm_compute. reflexivity. Qed.
(** The functions used in the example are a monoid and a total order on integers; not on all values, so the answers for
    sums and sorting are those of the computation. *)

(** ** Lookups in an edited association list
    The pairs (1,10), name 1, (2,20), (1,11), name 2, (3,30).  [map_find] of 1, 2, 3, 4; then the cell behind name 1 is
    replaced, so that 2 is bound to 22 and 4 to 44, and the same lookups again. *)
Definition prs (l : list (Z * Z)) (tl : val) : val := foldr (λ '(k, v), v_cons (VPair (VInt k) (VInt v))) tl l.
Definition hd_map : val := prs [(1, 10)]%Z (v_lname (nu 1) (v_lart (root_cell (nu 1)))).
Definition lookups : list sstep :=
  [SQuery [] (FinFind (VInt 1)) hd_map; SQuery [] (FinFind (VInt 2)) hd_map;
   SQuery [StReverse] (FinFind (VInt 1)) hd_map; SQuery [] (FinFind (VInt 3)) hd_map; SQuery [] (FinFind (VInt 4)) hd_map].
Definition ex_lookups : list sstep :=
  [SCell (nu 2) (prs [(3, 30)]%Z v_nil);
   SCell (nu 1) (prs [(2, 20); (1, 11)]%Z (v_lname (nu 2) (v_lart (root_cell (nu 2)))))] ++
  lookups ++
  [SSet (nu 1) (prs [(2, 22); (2, 20); (4, 44)]%Z (v_lname (nu 2) (v_lart (root_cell (nu 2)))))] ++
  lookups.
Lemma ex_lookups_valid : valid_session ex_body ex_pred ∅ ex_lookups.
Proof.
  unfold ex_lookups, lookups, hd_map, prs. cbn [app foldr valid_session].
  do 5 query. split; [vm_compute; eauto|]. do 5 query. exact I.
Qed.
Fixpoint found (v : val) : list (option Z) :=
  match v with VPair (VPair _ (VInt z)) r => Some z :: found r | VPair _ r => None :: found r | _ => [] end.
Lemma ex_lookups_results : match (@exec (ex_cat 60) 80 (c_sess 60 ex_lookups) dcg_new).1 with OVal v => found v | _ => [] end =
  [Some 10; Some 20; Some 11; Some 30; None; Some 10; Some 22; Some 10; Some 30; Some 44]%Z.
Proof. vm_compute. reflexivity. Qed.
