(** * Bit strings (/repo/src/catalog/bitstring.rs)

    i64 arithmetic is modelled on [Z]; an operation whose exact result is not an i64 overflows, which is a panic in a
    debug build: [None].  (A release build wraps silently; every theorem that gives [Some] therefore also describes
    release builds.)  [&] on i64 is [Z.land]: both are two's complement, with infinitely many sign bits in [Z]. *)
From Coq Require Import ZArith Lia Bool.
From stdpp Require Import base option tactics numbers list.
Local Open Scope Z_scope.

(** i64 range, and checked i64 results *)
Definition i64 (z : Z) : Prop := - 2 ^ 63 <= z < 2 ^ 63.
Global Instance i64_dec z : Decision (i64 z).
Proof. unfold i64. apply _. Defined.
Definition chk (z : Z) : option Z := if (- 2 ^ 63 <=? z) && (z <? 2 ^ 63) then Some z else None.

(** src/catalog/bitstring.rs:4-8 [struct BS] *)
Record BS := mkBS { bs_length : Z; bs_value : Z }.

(** src/catalog/bitstring.rs:22-31 [pow].  The Rust function recurses on [n / 2] (truncating division); the fuel
    |n|+1 is enough for every n: see [pow_unfold], which is the Rust text. *)
Fixpoint pow_fuel (fuel : nat) (b n : Z) : option Z :=
  match fuel with
  | O => None
  | S fuel =>
    if n =? 0 then Some 1
    else if n =? 1 then Some b
    else
      x ← pow_fuel fuel b (Z.quot n 2);
      xx ← chk (x * x);
      chk (xx * (if Z.rem n 2 =? 0 then 1 else b))
  end.
Definition pow (b n : Z) : option Z := pow_fuel (S (Z.to_nat (Z.abs n))) b n.

(** src/catalog/bitstring.rs:33-40 [flip] *)
Definition flip (i b : Z) : option Z :=
  n ← pow 2 i;
  if Z.land n b =? n then (m ← pow 2 i; chk (b - m)) else (m ← pow 2 i; chk (b + m)).
(** src/catalog/bitstring.rs:42-45 [is_set] *)
Definition is_set (i b : Z) : option bool := n ← flip i 0; Some (Z.land n b =? n).
(** src/catalog/bitstring.rs:48-66 [prepend]: the two guarded arms are tried in order, each evaluating its guard only
    when its literal matches; [None] is also the panic of the last arm. *)
Definition prepend (b : Z) (bs : BS) : option BS :=
  if b =? 0 then
    r ← is_set (bs_length bs) (bs_value bs);
    if negb r then l ← chk (bs_length bs + 1); Some (mkBS l (bs_value bs))
    else l ← chk (bs_length bs + 1); v ← flip (bs_length bs) (bs_value bs); Some (mkBS l v)
  else if b =? 1 then
    r ← is_set (bs_length bs) (bs_value bs);
    if (r : bool) then l ← chk (bs_length bs + 1); Some (mkBS l (bs_value bs))
    else l ← chk (bs_length bs + 1); v ← flip (bs_length bs) (bs_value bs); Some (mkBS l v)
  else None.
(** src/catalog/bitstring.rs:68-70 [length] *)
Definition length_of (bs : BS) : Z := bs_length bs.
(** i64 wrap-around, for [<<], which drops the bits shifted out; a shift amount outside 0..63 panics. *)
Definition wrap (z : Z) : Z := (z + 2 ^ 63) mod 2 ^ 64 - 2 ^ 63.
Definition shl (v i : Z) : option Z := if (0 <=? i) && (i <? 64) then Some (wrap (Z.shiftl v i)) else None.
(** src/catalog/bitstring.rs:72-77 [shift_left]; [2i64.pow(length as u32) - 1]: the cast reduces modulo 2^32 and the
    power panics on overflow. *)
Definition shift_left (bs : BS) (i : Z) : option BS :=
  v ← shl (bs_value bs) i;
  p ← chk (2 ^ (bs_length bs mod 2 ^ 32));
  m ← chk (p - 1);
  Some (mkBS (bs_length bs) (Z.land v m)).
(** src/catalog/bitstring.rs:80 [MAX_LEN] *)
Definition MAX_LEN : Z := 30.

(** ** Proofs *)
Lemma chk_Some z : i64 z → chk z = Some z.
Proof.
  unfold i64, chk. intros [H1 H2]. rewrite (proj2 (Z.leb_le _ _) H1), (proj2 (Z.ltb_lt _ _) H2). done.
Qed.
Lemma chk_inv z w : chk z = Some w → w = z ∧ i64 z.
Proof.
  unfold i64, chk. destruct (_ <=? z) eqn:E1; [|done]. destruct (z <? _) eqn:E2; [|done]. simpl.
  intros [= <-]. apply Z.leb_le in E1. apply Z.ltb_lt in E2. done.
Qed.
Lemma chk_None z : ¬ i64 z → chk z = None.
Proof. intros H. destruct (chk z) eqn:E; [|done]. apply chk_inv in E as [_ E]. done. Qed.

Lemma quot2_lt n : n <> 0 → n <> 1 → Z.abs (Z.quot n 2) < Z.abs n.
Proof.
  intros H0 H1. rewrite <- Z.quot_abs by lia. change (Z.abs 2) with 2. rewrite Z.quot_div_nonneg by lia.
  apply Z.div_lt; lia.
Qed.
Lemma pow_fuel_enough f : ∀ g b n, (Z.to_nat (Z.abs n) < f)%nat → (Z.to_nat (Z.abs n) < g)%nat → pow_fuel f b n = pow_fuel g b n.
Proof.
  induction f as [|f IH]; intros g b n Hf Hg; [lia|]. destruct g as [|g]; [lia|]. simpl.
  destruct (n =? 0) eqn:E0; [done|]. destruct (n =? 1) eqn:E1; [done|].
  apply Z.eqb_neq in E0, E1. pose proof (quot2_lt n E0 E1). rewrite (IH g); [done|lia|lia].
Qed.
(** The Rust text of [pow]. *)
Lemma pow_unfold b n : pow b n =
  if n =? 0 then Some 1 else if n =? 1 then Some b else
  x ← pow b (Z.quot n 2); xx ← chk (x * x); chk (xx * (if Z.rem n 2 =? 0 then 1 else b)).
Proof.
  unfold pow at 1. cbn [pow_fuel]. destruct (n =? 0) eqn:E0; [done|]. destruct (n =? 1) eqn:E1; [done|].
  apply Z.eqb_neq in E0, E1. pose proof (quot2_lt n E0 E1).
  unfold pow. rewrite (pow_fuel_enough _ (S (Z.to_nat (Z.abs (Z.quot n 2))))); [done|lia|lia].
Qed.

Lemma pow_abs_le b k n : 0 <= k <= n → b <> 0 → Z.abs (b ^ k) <= Z.abs (b ^ n).
Proof.
  intros H Hb. rewrite !Z.abs_pow. apply Z.pow_le_mono_r; lia.
Qed.
Lemma abs_i64 a c : Z.abs a <= Z.abs c → 0 <= a → (c = - 2 ^ 63 → a < 2 ^ 63) → i64 c → i64 a.
Proof. unfold i64. intros H1 H2 H3 [H4 H5]. destruct (Z.eq_dec c (- 2 ^ 63)) as [->|]; lia. Qed.

(** pow(b, n) is b^n for every n >= 0, exactly when b^n fits in an i64; otherwise it overflows. *)
Theorem C36_pow b n : i64 b → 0 <= n → pow b n = chk (b ^ n).
Proof.
  intros Hb Hn. revert Hn. induction n as [n IH] using (well_founded_induction (Z.lt_wf 0)). intros Hn.
  rewrite pow_unfold. destruct (n =? 0) eqn:E0.
  { apply Z.eqb_eq in E0 as ->. rewrite Z.pow_0_r. rewrite chk_Some; [done|]. unfold i64. lia. }
  destruct (n =? 1) eqn:E1.
  { apply Z.eqb_eq in E1 as ->. rewrite Z.pow_1_r. by rewrite chk_Some. }
  apply Z.eqb_neq in E0, E1.
  rewrite Z.quot_div_nonneg, Z.rem_mod_nonneg by lia.
  pose proof (Z.div_mod n 2 ltac:(lia)) as Hdm. pose proof (Z.mod_pos_bound n 2 ltac:(lia)) as Hm.
  set (k := n / 2) in *. rewrite (IH k) by lia.
  assert (b ^ k * b ^ k * (if n mod 2 =? 0 then 1 else b) = b ^ n) as Hval.
  { rewrite <- Z.pow_add_r by lia. destruct (n mod 2 =? 0) eqn:Em.
    - apply Z.eqb_eq in Em. rewrite Z.mul_1_r. f_equal. lia.
    - apply Z.eqb_neq in Em. rewrite <- (Z.pow_1_r b) at 2. rewrite <- Z.pow_add_r by lia. f_equal. lia. }
  destruct (decide (i64 (b ^ n))) as [Hi|Hi].
  - (* in range: so are the intermediate results *)
    destruct (Z.eq_dec b 0) as [->|Hb0].
    { rewrite !Z.pow_0_l by lia. by destruct (n mod 2 =? 0). }
    assert (n mod 2 = 0 ∨ n mod 2 = 1) as Hpar by lia.
    assert (i64 (b ^ k * b ^ k)) as Hkk.
    { apply (abs_i64 _ (b ^ n)); [| |intros Hmin|done].
      - rewrite <- Z.pow_add_r by lia. apply pow_abs_le; lia.
      - rewrite <- Z.pow_2_r. apply Z.pow_even_nonneg. by exists 1.
      - destruct Hpar as [Hp|Hp]; rewrite Hp in Hval; simpl in Hval.
        + rewrite Z.mul_1_r in Hval. pose proof (Z.pow_even_nonneg (b ^ k) 2 ltac:(by exists 1)). rewrite Z.pow_2_r in *. lia.
        + pose proof (Z.pow_even_nonneg (b ^ k) 2 ltac:(by exists 1)). rewrite Z.pow_2_r in *.
          destruct (Z.eq_dec b (-1)) as [->|].
          { assert (Z.abs ((-1) ^ n) = 1) by (rewrite Z.abs_pow; apply Z.pow_1_l; lia). lia. }
          unfold i64 in Hb. nia. }
    assert (i64 (b ^ k)) as Hk.
    { unfold i64 in *. nia. }
    rewrite (chk_Some (b ^ k)) by done. simpl. rewrite (chk_Some (b ^ k * b ^ k)) by done. simpl. by rewrite Hval.
  - rewrite (chk_None _ Hi).
    destruct (chk (b ^ k)) as [x|] eqn:Ex; [|done]. apply chk_inv in Ex as [-> _]. simpl.
    destruct (chk (b ^ k * b ^ k)) as [xx|] eqn:Exx; [|done]. apply chk_inv in Exx as [-> _]. simpl.
    rewrite Hval. by apply chk_None.
Qed.

(** A negative exponent is treated like its absolute value: pow(2, -3) is 8, not an error. *)
Theorem C36_pow_negative b n : i64 b → 0 <= n → pow b (- n) = chk (b ^ n).
Proof.
  intros Hb Hn. rewrite <- C36_pow by done. revert Hn. induction n as [n IH] using (well_founded_induction (Z.lt_wf 0)). intros Hn.
  rewrite (pow_unfold b (- n)), (pow_unfold b n). destruct (Z.eq_dec n 0) as [->|H0]; [done|].
  rewrite (proj2 (Z.eqb_neq (- n) 0)), (proj2 (Z.eqb_neq (- n) 1)), (proj2 (Z.eqb_neq n 0)) by lia.
  rewrite Z.quot_opp_l, Z.rem_opp_l by lia.
  destruct (Z.eq_dec n 1) as [->|H1].
  { change (pow b (- (1 ÷ 2))) with (Some 1). simpl. change (chk (1 * 1)) with (Some 1). simpl. rewrite chk_Some; [f_equal; lia|]. by rewrite Z.mul_1_l || (destruct b; done). }
  rewrite (proj2 (Z.eqb_neq n 1)) by done.
  assert (0 <= n ÷ 2 < n) by (rewrite Z.quot_div_nonneg by lia; split; [apply Z.div_pos|apply Z.div_lt]; lia).
  rewrite IH by lia.
  assert ((- Z.rem n 2 =? 0) = (Z.rem n 2 =? 0)) as -> by (destruct (Z.eqb_spec (Z.rem n 2) 0), (Z.eqb_spec (- Z.rem n 2) 0); lia).
  done.
Qed.

(** ** Bits *)
Lemma pow2 i : 0 <= i <= 62 → pow 2 i = Some (2 ^ i).
Proof.
  intros H. rewrite C36_pow by (unfold i64; lia). apply chk_Some. unfold i64.
  pose proof (Z.pow_pos_nonneg 2 i ltac:(lia) ltac:(lia)). pose proof (Z.pow_le_mono_r 2 i 62 ltac:(lia) ltac:(lia)).
  assert (2 ^ 62 < 2 ^ 63) by (apply Z.pow_lt_mono_r; lia). lia.
Qed.
Lemma land_pow2 i b : 0 <= i → (Z.land (2 ^ i) b =? 2 ^ i) = Z.testbit b i.
Proof.
  intros Hi. destruct (Z.eqb_spec (Z.land (2 ^ i) b) (2 ^ i)) as [E|E].
  - assert (Z.testbit (Z.land (2 ^ i) b) i = Z.testbit (2 ^ i) i) as E' by by rewrite E.
    rewrite Z.land_spec, Z.pow2_bits_true in E' by done. done.
  - destruct (Z.testbit b i) eqn:Eb; [|done]. destruct E. apply Z.bits_inj'. intros j Hj.
    rewrite Z.land_spec, Z.pow2_bits_eqb by done. destruct (Z.eqb_spec i j) as [->|]; [by rewrite Eb|done].
Qed.
Lemma lxor_set b i : 0 <= i → Z.testbit b i = true → Z.lxor b (2 ^ i) = b - 2 ^ i.
Proof.
  intros Hi Hb. symmetry. rewrite Z.sub_nocarry_ldiff.
  - apply Z.bits_inj'. intros j Hj. rewrite Z.ldiff_spec, Z.lxor_spec, Z.pow2_bits_eqb by done.
    destruct (Z.eqb_spec i j) as [->|]; [by rewrite Hb|]. by destruct (Z.testbit b j).
  - apply Z.bits_inj'. intros j Hj. rewrite Z.ldiff_spec, Z.pow2_bits_eqb, Z.bits_0 by done.
    destruct (Z.eqb_spec i j) as [->|]; [by rewrite Hb|done].
Qed.
Lemma lxor_unset b i : 0 <= i → Z.testbit b i = false → Z.lxor b (2 ^ i) = b + 2 ^ i.
Proof.
  intros Hi Hb. symmetry. apply Z.add_nocarry_lxor. apply Z.bits_inj'. intros j Hj.
  rewrite Z.land_spec, Z.pow2_bits_eqb, Z.bits_0 by done. destruct (Z.eqb_spec i j) as [->|]; [by rewrite Hb|]. by destruct (Z.testbit b j).
Qed.
Lemma flip_range b i : 0 <= i <= 62 → i64 b → i64 (Z.lxor b (2 ^ i)).
Proof.
  intros Hi Hb. unfold i64 in *.
  assert (2 ^ 63 = 2 ^ i * (2 * 2 ^ (62 - i))) as E63.
  { rewrite <- Z.pow_succ_r, <- Z.pow_add_r by lia. f_equal. lia. }
  set (p := 2 ^ (62 - i)) in *. set (q := 2 ^ i) in *.
  assert (0 < p) by (apply Z.pow_pos_nonneg; lia). assert (0 < q) by (apply Z.pow_pos_nonneg; lia).
  pose proof (Z.div_mod b q ltac:(lia)) as Hdm. pose proof (Z.mod_pos_bound b q ltac:(lia)) as Hm.
  assert (- (2 * p) <= b / q < 2 * p) as Hq by nia.
  pose proof (Z.testbit_spec' b i ltac:(lia)) as Ht. fold q in Ht.
  pose proof (Z.div_mod (b / q) 2 ltac:(lia)) as Hdm2.
  destruct (Z.testbit b i) eqn:Eb.
  - unfold q. rewrite lxor_set by (done || lia). fold q. simpl in Ht. nia.
  - unfold q. rewrite lxor_unset by (done || lia). fold q. simpl in Ht. nia.
Qed.

(** flip(i, b) toggles exactly the i-th bit: for every i64 b and 0 <= i <= 62; bit 63 (the sign) overflows. *)
Theorem C36_flip i b : 0 <= i <= 62 → i64 b →
  ∃ r, flip i b = Some r ∧ i64 r ∧ ∀ j, 0 <= j → Z.testbit r j = if j =? i then negb (Z.testbit b j) else Z.testbit b j.
Proof.
  intros Hi Hb. exists (Z.lxor b (2 ^ i)). split; [|split].
  - unfold flip. rewrite pow2 by done. simpl. rewrite land_pow2 by lia. pose proof (flip_range b i Hi Hb) as Hr.
    destruct (Z.testbit b i) eqn:Eb.
    + rewrite lxor_set in * by (done || lia). by apply chk_Some.
    + rewrite lxor_unset in * by (done || lia). by apply chk_Some.
  - by apply flip_range.
  - intros j Hj. rewrite Z.lxor_spec, Z.pow2_bits_eqb by lia. rewrite (Z.eqb_sym i j). destruct (j =? i), (Z.testbit b j); done.
Qed.
Theorem C36_flip_sign b : flip 63 b = None.
Proof. reflexivity. Qed.

(** is_set(i, b) is the i-th bit of b. *)
Theorem C36_is_set i b : 0 <= i <= 62 → is_set i b = Some (Z.testbit b i).
Proof.
  intros Hi. unfold is_set. destruct (C36_flip i 0 Hi ltac:(unfold i64; lia)) as (r & -> & _ & Hr). simpl.
  assert (r = 2 ^ i) as ->.
  { apply Z.bits_inj'. intros j Hj. rewrite Hr by done. rewrite Z.bits_0, Z.pow2_bits_eqb by lia. rewrite Z.eqb_sym. by destruct (i =? j). }
  by rewrite land_pow2 by lia.
Qed.

(** A well-formed bit string: the value has no bits beyond the length. *)
Definition wf_bs (bs : BS) : Prop := 0 <= bs_length bs ∧ 0 <= bs_value bs < 2 ^ bs_length bs.

(** prepend(b, bs) puts b at position [length] and keeps all other bits. *)
Theorem C36_prepend b bs : (b = 0 ∨ b = 1) → 0 <= bs_length bs <= 62 → i64 (bs_value bs) →
  ∃ r, prepend b bs = Some r ∧ bs_length r = bs_length bs + 1 ∧
    ∀ j, 0 <= j → Z.testbit (bs_value r) j = if j =? bs_length bs then (b =? 1) else Z.testbit (bs_value bs) j.
Proof.
  intros Hb Hl Hv. destruct (C36_flip _ _ Hl Hv) as (r & Er & _ & Hr).
  assert (chk (bs_length bs + 1) = Some (bs_length bs + 1)) as Ec by (apply chk_Some; unfold i64; lia).
  unfold prepend. rewrite C36_is_set by done. rewrite Ec, Er. simpl.
  destruct Hb as [-> | ->]; simpl; destruct (Z.testbit (bs_value bs) (bs_length bs)) eqn:Et; simpl; eexists; (split; [reflexivity|]); simpl; (split; [done|]); intros j Hj; try rewrite Hr by done; destruct (Z.eqb_spec j (bs_length bs)) as [->|]; rewrite ?Et; done.
Qed.
(** On well-formed strings: the value grows by b * 2^length, and the result is well-formed. *)
Theorem C36_prepend_value b bs : (b = 0 ∨ b = 1) → bs_length bs <= 62 → wf_bs bs →
  prepend b bs = Some (mkBS (bs_length bs + 1) (bs_value bs + b * 2 ^ bs_length bs)) ∧
  wf_bs (mkBS (bs_length bs + 1) (bs_value bs + b * 2 ^ bs_length bs)).
Proof.
  intros Hb Hl [Hl0 Hv]. assert (i64 (bs_value bs)) as Hi.
  { unfold i64. pose proof (Z.pow_le_mono_r 2 (bs_length bs) 62 ltac:(lia) ltac:(lia)). assert (2 ^ 62 < 2 ^ 63) by (apply Z.pow_lt_mono_r; lia). lia. }
  assert (Z.testbit (bs_value bs) (bs_length bs) = false) as Et.
  { destruct (Z.eq_dec (bs_value bs) 0) as [->|]; [apply Z.bits_0|]. apply Z.bits_above_log2; [lia|]. apply Z.log2_lt_pow2; lia. }
  destruct (C36_prepend b bs Hb ltac:(lia) Hi) as (r & -> & Hlr & Hr). split.
  - f_equal. destruct r as [l v]; simpl in *. f_equal; [done|]. apply Z.bits_inj'. intros j Hj. rewrite Hr by done.
    destruct Hb as [-> | ->].
    + rewrite Z.mul_0_l, Z.add_0_r. destruct (Z.eqb_spec j (bs_length bs)) as [->|]; done.
    + rewrite Z.mul_1_l.
      rewrite <- lxor_unset by done. rewrite Z.lxor_spec, Z.pow2_bits_eqb by done. rewrite (Z.eqb_sym (bs_length bs) j).
      destruct (Z.eqb_spec j (bs_length bs)) as [->|]; [by rewrite Et|]. by rewrite xorb_false_r.
  - split; simpl; [lia|]. rewrite Z.pow_add_r by lia. rewrite Z.pow_1_r. destruct Hb as [-> | ->]; lia.
Qed.
Theorem C36_prepend_not_a_bit b bs : b <> 0 → b <> 1 → prepend b bs = None.
Proof. intros H0 H1. unfold prepend. by rewrite (proj2 (Z.eqb_neq b 0)), (proj2 (Z.eqb_neq b 1)). Qed.

(** shift_left(bs, i) keeps the length, moves every bit i places up and drops what exceeds the length. *)
Theorem C36_shift_left bs i : wf_bs bs → bs_length bs <= 62 → 0 <= i < 64 →
  ∃ r, shift_left bs i = Some r ∧ bs_length r = bs_length bs ∧ bs_value r = (bs_value bs * 2 ^ i) mod 2 ^ bs_length bs ∧ wf_bs r.
Proof.
  intros [Hl0 Hv] Hl Hi. unfold shift_left, shl.
  rewrite (proj2 (Z.leb_le 0 i)), (proj2 (Z.ltb_lt i 64)) by lia. simpl.
  rewrite (Z.mod_small (bs_length bs) (2 ^ 32)) by lia.
  pose proof (Z.pow_pos_nonneg 2 (bs_length bs) ltac:(lia) ltac:(lia)) as Hp.
  pose proof (Z.pow_le_mono_r 2 (bs_length bs) 62 ltac:(lia) ltac:(lia)).
  assert (2 ^ 62 < 2 ^ 63) by (apply Z.pow_lt_mono_r; lia).
  rewrite (chk_Some (2 ^ bs_length bs)) by (unfold i64; lia). simpl.
  rewrite (chk_Some (2 ^ bs_length bs - 1)) by (unfold i64; lia). simpl.
  eexists. split; [reflexivity|]. simpl. split; [done|].
  assert (Z.land (wrap (Z.shiftl (bs_value bs) i)) (2 ^ bs_length bs - 1) = (bs_value bs * 2 ^ i) mod 2 ^ bs_length bs) as E.
  { rewrite Z.sub_1_r, <- Z.ones_equiv, Z.land_ones by done. rewrite Z.shiftl_mul_pow2 by lia. unfold wrap.
    set (x := bs_value bs * 2 ^ i). set (P := 2 ^ bs_length bs) in *.
    assert (2 ^ 64 = P * 2 ^ (64 - bs_length bs)) as E64 by (unfold P; rewrite <- Z.pow_add_r by lia; f_equal; lia).
    assert (2 ^ 63 = P * 2 ^ (63 - bs_length bs)) as E63 by (unfold P; rewrite <- Z.pow_add_r by lia; f_equal; lia).
    rewrite Zminus_mod. rewrite E64. rewrite Z.rem_mul_r by (try apply Z.pow_pos_nonneg; lia || (apply Z.pow_nonzero; lia) || lia).
    rewrite (Z.mul_comm P (_ mod _)), Z.mod_add by lia. rewrite Zmod_mod, <- Zminus_mod. f_equal. lia. }
  split; [done|]. split; simpl; [done|]. rewrite E. by apply Z.mod_pos_bound.
Qed.

(** Lengths up to MAX_LEN are covered by all of the above. *)
Theorem C36_max_len : MAX_LEN <= 62.
Proof. discriminate. Qed.

(** Strings built by prepending: any sequence of at most 63 bits is stored faithfully. *)
Fixpoint of_bits (l : list bool) (bs : BS) : option BS :=
  match l with
  | [] => Some bs
  | b :: l => bs' ← prepend (if b : bool then 1 else 0) bs; of_bits l bs'
  end.
Theorem C36_bits_roundtrip l : (List.length l <= 63)%nat →
  ∃ bs, of_bits l (mkBS 0 0) = Some bs ∧ wf_bs bs ∧ bs_length bs = Z.of_nat (List.length l) ∧
    ∀ (k : nat) (b : bool), l !! k = Some b → (k <= 62)%nat → is_set (Z.of_nat k) (bs_value bs) = Some b.
Proof.
  intros Hlen.
  assert (∀ l bs, wf_bs bs → bs_length bs + Z.of_nat (List.length l) <= 63 →
    ∃ r, of_bits l bs = Some r ∧ wf_bs r ∧ bs_length r = bs_length bs + Z.of_nat (List.length l) ∧
      (∀ j, 0 <= j < bs_length bs → Z.testbit (bs_value r) j = Z.testbit (bs_value bs) j) ∧
      ∀ (k : nat) (b : bool), l !! k = Some b → Z.testbit (bs_value r) (bs_length bs + Z.of_nat k) = b) as H.
  { clear l Hlen. induction l as [|b l IH]; intros bs Hw Hl; simpl in *.
    { exists bs. split; [done|]. split; [done|]. split; [lia|]. done. }
    assert ((if b then 1 else 0) = 0 ∨ (if b then 1 else 0) = 1) as Hb by (destruct b; auto).
    destruct (C36_prepend_value _ bs Hb ltac:(lia) Hw) as [E Hw'].
    assert (i64 (bs_value bs)) as Hi.
    { destruct Hw as [? ?]. unfold i64. pose proof (Z.pow_le_mono_r 2 (bs_length bs) 62 ltac:(lia) ltac:(lia)). assert (2 ^ 62 < 2 ^ 63) by (apply Z.pow_lt_mono_r; lia). lia. }
    destruct (C36_prepend _ bs Hb ltac:(destruct Hw; lia) Hi) as (r' & E' & Hlr' & Hr'). rewrite E in E'. injection E' as <-.
    rewrite E. simpl. set (bs' := mkBS _ _) in *. simpl in Hlr'.
    destruct (IH bs' Hw' ltac:(simpl; lia)) as (r & Er & Hwr & Hlen & Hlow & Hhigh).
    exists r. split; [done|]. split; [done|]. split; [simpl in *; lia|]. split.
    - intros j Hj. rewrite Hlow by (simpl; lia). rewrite Hr' by lia. rewrite (proj2 (Z.eqb_neq j (bs_length bs))); [done|lia].
    - intros k c Hk. destruct k as [|k]; simpl in Hk.
      + injection Hk as <-. rewrite Z.add_0_r. destruct Hw. rewrite Hlow by (simpl; lia). rewrite Hr' by lia. rewrite Z.eqb_refl. by destruct b.
      + rewrite <- (Hhigh k c Hk). simpl. f_equal. lia. }
  destruct (H l (mkBS 0 0)) as (r & Er & Hw & Hl & _ & Hb); simpl in *; [split; simpl; lia|lia|].
  exists r. split; [done|]. split; [done|]. split; [done|]. intros k b Hk Hk62. rewrite C36_is_set by lia. f_equal. by apply (Hb k b).
Qed.

(** The unit tests of the module, as instances. *)
Lemma ex_bits : pow 2 4 = Some 16 ∧ pow (-2) 3 = Some (-8) ∧ flip 1 7 = Some 5 ∧ flip 3 7 = Some 15 ∧
  prepend 1 (mkBS 2 1) = Some (mkBS 3 5) ∧ shift_left (mkBS 4 2) 2 = Some (mkBS 4 8) ∧ wf_bs (mkBS 4 2) ∧ pow 2 (-3) = Some 8.
Proof. repeat split; simpl; lia. Qed.
