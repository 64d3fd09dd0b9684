(** C85: the powers of Huge.  Vocabulary: HugeSpec.v ([hval], [hcanon], [dval], [canon]). *)
From Coq Require Import ZArith Lia Bool List.
From Verif Require Import Base HugeModel HugeSpec HugeProofs1 RestModel.
Import ListNotations.
Open Scope Z_scope.

(** Huge::pow is unfinished: its result is the power only of the base 0 with a positive exponent (or, read as a quotient, with no negative one) *)
Theorem C85_pow a h : hcanon a -> 0 <= hval h -> (hval (huge_pow a h) = hval a ^ hval h <-> hval a = 0 /\ 0 < hval h).
Proof.
  intros C P. change (hval (huge_pow a h)) with 0. split.
  - intros E. destruct (Z.eq_dec (hval h) 0) as [Z|N]; [rewrite Z in E; discriminate|]. split; [|lia].
    destruct (Z.eq_dec (hval a) 0) as [|Na]; [assumption|]. exfalso. apply (Z.pow_nonzero (hval a) (hval h)); [assumption|lia|now symmetry].
  - intros [-> L]. now rewrite Z.pow_0_l by assumption.
Qed.
(** digits_pow, which it does not call, gives the power of the magnitudes exactly for the exponent 0 and for the bases 0 and 1 (for the exponent 1 it returns the exponent) *)
Theorem C85_digits_pow a b : canon a -> canon b -> (dval (digits_pow a b) = dval a ^ dval b <-> dval b = 0 \/ dval a = 0 \/ dval a = 1).
Proof.
  intros Ca Cb. assert (Za : dval a = 0 -> a = []) by now apply canon_zero. assert (Zb : dval b = 0 -> b = []) by now apply canon_zero.
  assert (Pa : 0 <= dval a) by (apply dval_nonneg, Ca). assert (Pb : 0 <= dval b) by (apply dval_nonneg, Cb).
  unfold digits_pow. destruct b as [|d b]; [split; [now left|reflexivity]|]. set (B := d :: b) in *. assert (Nb : dval B <> 0) by (intros X; apply Zb in X; discriminate).
  destruct a as [|e a]; [split; [intros _; right; left; reflexivity|]; intros _; change (dval []) with 0; now rewrite Z.pow_0_l by lia|]. set (A := e :: a) in *.
  assert (Na : dval A <> 0) by (intros X; apply Za in X; discriminate).
  assert (One : forall l, canon l -> ((length l =? 1)%nat && (nth 0 l 0 =? 1))%bool = true <-> dval l = 1).
  { intros l C. split.
    - intros X. apply andb_true_iff in X as [X Y]. apply Nat.eqb_eq in X. apply Z.eqb_eq in Y. destruct l as [|u [|v l]]; try discriminate. cbn in *. lia.
    - intros X. destruct l as [|u l]; [discriminate|]. destruct C as [W L]. inversion W as [|? ? Wu Wl]; subst. assert (0 <= dval l) by (apply dval_nonneg, Wl). cbn [dval] in X.
      assert (dval l = 0) by lia. assert (l = []) as ->; [|cbn in *; apply Z.eqb_eq; lia].
      apply canon_zero; [|assumption]. split; [exact Wl|]. intros N. specialize (L ltac:(discriminate)). destruct l; [contradiction|exact L]. }
  destruct ((length B =? 1)%nat && (nth 0 B 0 =? 1))%bool eqn:EB.
  - apply One in EB; [|assumption]. rewrite EB, Z.pow_1_r. split; [intros <-; auto|]. intros [X|[X|X]]; [discriminate|contradiction|now symmetry].
  - destruct ((length A =? 1)%nat && (nth 0 A 0 =? 1))%bool eqn:EA.
    + apply One in EA; [|assumption]. rewrite EA, Z.pow_1_l by lia. split; [auto|reflexivity].
    + assert (dval A <> 1) by (intros X; apply One in X; [congruence|assumption]). change (dval []) with 0. split; [|intros [X|[X|X]]; contradiction].
      intros X. exfalso. apply (Z.pow_nonzero (dval A) (dval B)); [assumption|lia|now symmetry].
Qed.
(** 2^3 is 0, and 7^1 would be 1 *)
Theorem C85_power_refuted : hval (huge_pow (mkHuge [2] true) (mkHuge [3] true)) = 0 /\ digits_pow [7] [1] = [1].
Proof. split; reflexivity. Qed.
Example C85_ex : hcanon (mkHuge [2] true) /\ canon [7] /\ canon [0; 1] /\ dval (digits_pow [1] [0; 1]) = 1.
Proof. repeat split; try (repeat constructor; lia); try (cbn; lia); cbn; intros _ X; discriminate. Qed.

Print Assumptions C85_pow.
Print Assumptions C85_digits_pow.
Print Assumptions C85_power_refuted.
