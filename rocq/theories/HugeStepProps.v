(** C74: ++, --, unary minus and abs of Huge, and counting with them.  Vocabulary: HugeSpec.v ([hval], [hcanon]). *)
From Coq Require Import ZArith String Ascii Lia Bool List.
From Verif Require Import Base HugeModel HugeSpec HugeProofs1 HugeProofs2 HugeProofs3 HugeProofs4 HugeProofs5 HugeProps.
Import ListNotations.
Open Scope Z_scope.

Fixpoint times {A} (n : nat) (f : A -> A) (x : A) : A := match n with O => x | S n => f (times n f x) end.

(** ** unary minus, abs *)
Theorem C74_negate x : hval (huge_neg x) = - hval x /\ (hcanon x -> hcanon (huge_neg x)) /\ huge_neg (huge_neg x) = x.
Proof. destruct x as [d b]. unfold hval, hcanon, huge_neg. cbn [digits is_positive]. rewrite negb_involutive. split; [destruct b; cbn [negb]; lia|]. split; [auto|reflexivity]. Qed.
Print Assumptions C74_negate.
Theorem C74_abs x : hcanon x -> hval (huge_abs x) = Z.abs (hval x) /\ hcanon (huge_abs x).
Proof. intros C. split; [|exact C]. pose proof (dval_nonneg (digits x) (proj1 C)) as N. unfold hval, huge_abs. cbn [digits is_positive]. destruct (is_positive x); lia. Qed.
Print Assumptions C74_abs.
(** ** ++ is exact; it keeps non-negative numbers canonical, so counting up is exact for ever *)
Lemma one_ok : hcanon huge_one. Proof. apply canonb_canon. reflexivity. Qed.
Theorem C74_increment x : hcanon x -> hval (huge_incr x) = hval x + 1.
Proof. intros C. exact (proj2 (C02_add_exact x huge_one C one_ok)). Qed.
Print Assumptions C74_increment.
Theorem C74_count_up n x : hcanon x -> is_positive x = true -> let y := times n huge_incr x in hcanon y /\ is_positive y = true /\ hval y = hval x + Z.of_nat n.
Proof.
  cbv zeta. intros C P. induction n as [|n (A & B & D)]; [cbn [times]; repeat split; auto; try apply C; lia|]. cbn [times]. split; [now apply huge_add_canon; [|apply one_ok|]|]. split; [|rewrite C74_increment by exact A; lia].
  revert B. generalize (times n huge_incr x) as y. intros [d b] B. cbn [is_positive] in B. subst b. reflexivity.
Qed.
Print Assumptions C74_count_up.
(** ** -- is exact except at -1, which becomes 0 *)
Theorem C74_decrement x : hcanon x -> hval (huge_decr x) = if hval x =? -1 then 0 else hval x - 1.
Proof.
  intros C. unfold huge_decr. destruct (Z.eqb_spec (hval x) (-1)) as [E|E].
  - rewrite (proj2 (C03_sub_characterised x huge_one C one_ok)), E. assert (is_positive x = false) as ->; [|reflexivity]. destruct (is_positive x) eqn:P; [|reflexivity]. pose proof (dval_nonneg (digits x) (proj1 C)). unfold hval in E. rewrite P in E. lia.
  - rewrite (C03_sub_exact x huge_one C one_ok); [reflexivity|]. change (hval huge_one) with 1. lia.
Qed.
Print Assumptions C74_decrement.
(** so counting down from 0 alternates between -1 and 0 and never arrives at -2 *)
Theorem C74_count_down_stuck n : hval (times n huge_decr (mkHuge [] true)) = (if Nat.even n then 0 else -1) /\ hcanon (times n huge_decr (mkHuge [] true)).
Proof.
  assert (H : times n huge_decr (mkHuge [] true) = mkHuge (if Nat.even n then [] else [1]) (Nat.eqb n 0)).
  { induction n as [|n IH]; [reflexivity|]. cbn [times]. rewrite IH. rewrite Nat.even_succ, <- Nat.negb_even. destruct (Nat.even n) eqn:E; destruct n; try discriminate; reflexivity. }
  rewrite H. destruct n as [|n]; [split; [reflexivity|apply canonb_canon; reflexivity]|]. destruct (Nat.even (S n)); (split; [reflexivity|]); apply canonb_canon; reflexivity.
Qed.
Print Assumptions C74_count_down_stuck.
(** below -1 it is exact for ever *)
Theorem C74_count_down_negative n x : hcanon x -> hval x < -1 -> let y := times n huge_decr x in hcanon y /\ hval y = hval x - Z.of_nat n.
Proof.
  cbv zeta. intros C L. induction n as [|n (A & B)]; [cbn [times]; split; [exact C|lia]|]. cbn [times]. split; [|rewrite C74_decrement by exact A; destruct (Z.eqb_spec (hval (times n huge_decr x)) (-1)); lia].
  set (y := times n huge_decr x) in *. assert (P : is_positive y = false). { destruct (is_positive y) eqn:P; [|reflexivity]. pose proof (dval_nonneg (digits y) (proj1 A)). unfold hval in B at 1. rewrite P in B. lia. }
  assert (E : huge_decr y = mkHuge (digits_add (digits y) [1]) false).
  { unfold huge_decr, huge_sub. rewrite P. cbn [huge_one digits is_positive negb andb orb]. destruct (Z.eqb_spec (digits_cmp (digits y) [1] true true) 0) as [Z|Z]; [|reflexivity]. exfalso. destruct (C09_comparisons (mkHuge (digits y) true) huge_one A one_ok) as (K & _). unfold huge_eq, huge_cmp in K. cbn [digits is_positive huge_one] in K. rewrite Z in K. symmetry in K. apply Z.eqb_eq in K. unfold hval in K, B at 1. rewrite P in B. cbn [digits is_positive huge_one dval] in K. lia. }
  rewrite E. pose proof (huge_add_canon (mkHuge (digits y) true) huge_one A one_ok eq_refl) as K. exact K.
Qed.
Print Assumptions C74_count_down_negative.
(** ** the other direction: -- of a positive number may leave a leading zero digit, and then the number is not the one a comparison sees *)
Lemma down_one d : 0 < d < 2 ^ 30 -> huge_decr (mkHuge [d; 0] true) = mkHuge [d - 1; 0] true.
Proof.
  intros L. unfold huge_decr, huge_sub. cbn [huge_one digits is_positive negb andb orb]. change (digits_cmp [d; 0] [1] true true) with 1. cbn [Z.eqb Z.ltb Z.compare Pos.compare Pos.compare_cont]. unfold digits_sub. cbn [sub_loop]. unfold u32, MASK, SHIFT, BASE. rewrite Z.sub_0_r, (Z.mod_small d) by lia. rewrite (Z.mod_small (d - 1)) by lia. change (2 ^ 30 - 1) with (Z.ones 30). rewrite Z.land_ones by lia. rewrite (Z.mod_small (d - 1)) by lia.
  rewrite Z.shiftr_div_pow2 by lia. rewrite (Z.div_small (d - 1)) by lia. reflexivity.
Qed.
(** counting down from 2^30: right for 2^30 steps, without ever comparing equal to zero; the next step gives 2^60 - 1 *)
Theorem C74_count_down_refuted :
  (forall k, 1 <= Z.of_nat k <= 2 ^ 30 -> let y := times k huge_decr (mkHuge [0; 1] true) in hval y = 2 ^ 30 - Z.of_nat k /\ ~ hcanon y /\ huge_eq y (mkHuge [] true) = false) /\
  exists z, (forall k, Z.of_nat k = 2 ^ 30 -> times k huge_decr (mkHuge [0; 1] true) = z) /\ hval z = 0 /\ hval (huge_decr z) = 2 ^ 60 - 1.
Proof.
  assert (H : forall k, 1 <= Z.of_nat k <= 2 ^ 30 -> times k huge_decr (mkHuge [0; 1] true) = mkHuge [2 ^ 30 - Z.of_nat k; 0] true).
  { induction k as [|k IH]; intros L; [cbn in L; lia|]. cbn [times]. destruct k as [|k]; [vm_compute; reflexivity|]. rewrite IH by lia. rewrite down_one by lia. f_equal. f_equal. lia. }
  split.
  - cbv zeta. intros k L. rewrite (H k L). split; [unfold hval; cbn [digits is_positive dval]; lia|]. split; [intros [_ C]; apply (C ltac:(discriminate)); reflexivity|]. unfold huge_eq, huge_cmp. cbn [digits is_positive digits_cmp]. reflexivity.
  - exists (mkHuge [0; 0] true). split; [|split; vm_compute; reflexivity]. intros k E. rewrite H by lia. rewrite E. reflexivity.
Qed.
Print Assumptions C74_count_down_refuted.

(** ** cases *)
Example C74_case : hcanon (mkHuge [1073741823; 5] true) /\ huge_incr (mkHuge [1073741823; 5] true) = mkHuge [0; 6] true /\ huge_decr (mkHuge [0; 6] true) = mkHuge [1073741823; 5] true /\ huge_decr (mkHuge [7] false) = mkHuge [8] false.
Proof. split; [apply canonb_canon; reflexivity|]. repeat split; vm_compute; reflexivity. Qed.
Example C74_minus_one_refuted : hcanon (mkHuge [1] false) /\ hval (mkHuge [1] false) = -1 /\ hval (huge_decr (mkHuge [1] false)) = 0.
Proof. split; [apply canonb_canon; reflexivity|]. split; reflexivity. Qed.
