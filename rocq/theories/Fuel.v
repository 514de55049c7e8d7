(** * The recursion budget is only an artefact: more of it never changes a result. *)
From Verif Require Export Engine.

Definition mle {A} (m m' : M A) : Prop := ∀ s o s', m s = (o, s') → o ≠ OFuel → m' s = (o, s').

Lemma mle_refl {A} (m : M A) : mle m m.
Proof. by intros s o s'. Qed.
Lemma mle_trans {A} (m1 m2 m3 : M A) : mle m1 m2 → mle m2 m3 → mle m1 m3.
Proof. intros H1 H2 s o s' Hm Ho. eapply H2; [|done]. by eapply H1. Qed.
Lemma mle_nofuel {A} (m : M A) : mle nofuel m.
Proof. intros s o s' [= <- <-]. done. Qed.
Lemma mle_bind {A B} (m m' : M A) (f f' : A → M B) :
  mle m m' → (∀ a, mle (f a) (f' a)) → mle (bind m f) (bind m' f').
Proof.
  intros Hm Hf s o s' Hb Ho. unfold bind in *. destruct (m s) as [[a|r|] s1] eqn:E.
  - rewrite (Hm _ _ _ E) by done. by eapply Hf.
  - rewrite (Hm _ _ _ E) by done. done.
  - by injection Hb as <- <-.
Qed.

Ltac mle := repeat first
  [ apply mle_refl | assumption | apply mle_bind; [|intros ?] | match goal with
    | |- mle (match ?x with _ => _ end) _ => destruct x
    | |- mle (let '(_, _) := ?x in _) _ => destruct x end ].

Section Fuel.
Context `{Prog}.

Lemma force_loc_mle prod prod' cln cln' t l cyc :
  (∀ t l, mle (prod t l) (prod' t l)) → (∀ t w l, mle (cln t w l) (cln' t w l)) →
  mle (force_loc prod cln t l cyc) (force_loc prod' cln' t l cyc).
Proof. intros Hp Hc. unfold force_loc. mle; auto. Qed.
Lemma run_mle frc frc' c : (∀ t l cyc, mle (frc t l cyc) (frc' t l cyc)) → mle (run frc c) (run frc' c).
Proof.
  intros Hf. induction c; simpl; unfold force_art, force_map_art, force_abs_art; mle; auto.
Qed.
Lemma produce_body_mle frc frc' t l :
  (∀ t l cyc, mle (frc t l cyc) (frc' t l cyc)) → mle (produce_body frc t l) (produce_body frc' t l).
Proof. intros Hf. unfold produce_body. mle. by apply run_mle. Qed.
Lemma clean_comp_mle prod prod' cln cln' t w l cache es :
  (∀ t l, mle (prod t l) (prod' t l)) → (∀ t w l, mle (cln t w l) (cln' t w l)) →
  mle (clean_comp prod cln t w l cache es) (clean_comp prod' cln' t w l cache es).
Proof.
  intros Hp Hc. induction es as [|e es IH]; simpl; [mle|].
  mle; auto. unfold dep_clean. mle; auto.
Qed.
Lemma clean_body_mle prod prod' cln cln' t w l :
  (∀ t l, mle (prod t l) (prod' t l)) → (∀ t w l, mle (cln t w l) (cln' t w l)) →
  mle (clean_body prod cln t w l) (clean_body prod' cln' t w l).
Proof. intros Hp Hc. unfold clean_body. mle; auto. by apply clean_comp_mle. Qed.

Lemma produce_clean_mle n :
  (∀ t l, mle (produce n t l) (produce (S n) t l)) ∧ (∀ t w l, mle (clean n t w l) (clean (S n) t w l)).
Proof.
  induction n as [|n [IHp IHc]].
  - split; intros; apply mle_nofuel.
  - split; intros.
    + apply (produce_body_mle (force_loc (produce n) (clean n)) (force_loc (produce (S n)) (clean (S n)))).
      intros. by apply force_loc_mle.
    + by apply (clean_body_mle (produce n) (produce (S n)) (clean n) (clean (S n))).
Qed.
Lemma force_mle n m t l cyc : (n ≤ m)%nat → mle (force n t l cyc) (force m t l cyc).
Proof.
  induction 1 as [|m Hle IH]; [apply mle_refl|]. eapply mle_trans; [done|].
  apply force_loc_mle; apply produce_clean_mle.
Qed.

(** A result other than "budget exhausted" does not depend on the budget. *)
Theorem exec_fuel_mono n m c s o s' :
  exec n c s = (o, s') → o ≠ OFuel → (n ≤ m)%nat → exec m c s = (o, s').
Proof. intros He Ho Hle. eapply run_mle; [|exact He|exact Ho]. intros. by apply force_mle. Qed.
Theorem force_fuel_mono n m t l cyc s o s' :
  force n t l cyc s = (o, s') → o ≠ OFuel → (n ≤ m)%nat → force m t l cyc s = (o, s').
Proof. intros He Ho Hle. by eapply force_mle. Qed.
End Fuel.
