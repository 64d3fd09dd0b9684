(** C22-C27, C55: Rational<T> for a signed machine integer T of [w] bits.
    Vocabulary (RationalSpec.v): [qv r] is the rational number num/den; [run w fd e] executes a history [e] of public operations and
    [denotes] is the rational number the history stands for; [fd] is an arbitrary result for texts that contain a '.'. *)
From Coq Require Import ZArith QArith Qpower String Ascii Lia Bool List.
From Verif Require Import Base HugeSpec AdapterModel AdapterProofs RationalModel RationalSpec RationalProofs RationalProofs2.
Import ListNotations.
Open Scope Z_scope.

Local Definition txt (s : string) : list ascii := list_ascii_of_string s.
Local Definition no_decimal (s : list ascii) : res rat := Throw "decimal".

(** ** C22 exact arithmetic *)
Theorem C22_make w n d r : rat_make w n d = Ok r -> (qv r == inject_Z n / inject_Z d)%Q.
Proof. exact (fun H => proj2 (rat_make_exact w n d r H)). Qed.
(** Rational() is 0, in lowest terms, and prints as 0 *)
Theorem C22_default : (qv rat_zero == 0)%Q /\ Z.gcd (num rat_zero) (den rat_zero) = 1 /\ rat_to_string rat_zero = txt "0" /\ rat_to_tex rat_zero = txt "0".
Proof. repeat split. Qed.
Theorem C22_add w a b r : den a <> 0 -> den b <> 0 -> rat_add w a b = Ok r -> (qv r == qv a + qv b)%Q.
Proof. exact (fun A B H => proj2 (rat_add_exact w a b r A B H)). Qed.
Theorem C22_sub w a b r : den a <> 0 -> den b <> 0 -> rat_sub w a b = Ok r -> (qv r == qv a - qv b)%Q.
Proof. exact (fun A B H => proj2 (rat_sub_exact w a b r A B H)). Qed.
Theorem C22_mul w a b r : rat_mul w a b = Ok r -> (qv r == qv a * qv b)%Q.
Proof. exact (fun H => proj2 (proj2 (proj2 (rat_mul_exact w a b r H)))). Qed.
Theorem C22_div w a b r : den b <> 0 -> rat_div w a b = Ok r -> (qv r == qv a / qv b)%Q.
Proof. exact (fun B H => proj2 (proj2 (rat_div_exact w a b r B H))). Qed.
Theorem C22_negate w a r : den a <> 0 -> rat_negate w a = Ok r -> (qv r == - qv a)%Q.
Proof. exact (fun A H => proj2 (rat_negate_exact w a r A H)). Qed.
Theorem C22_inverse w a r : den a <> 0 -> rat_inverse w a = Ok r -> (qv r == / qv a)%Q.
Proof. exact (fun A H => proj2 (proj2 (rat_inverse_exact w a r A H))). Qed.
(** any sequence of operations *)
Theorem C22_histories w fd e r : run w fd e = Ok r -> (qv r == denotes w fd e)%Q.
Proof. exact (fun H => proj2 (run_exact w fd e r H)). Qed.
Print Assumptions C22_histories.
Example C22_hyp : run 64 no_decimal (EDiv (EAdd (EMake 1 6) (EText (txt "-10/4"))) (EInv (EMake (-3) 7))) = Ok (Rat 1 1).
Proof. reflexivity. Qed.
Example C22_hyp' : rat_add 64 (Rat 1 6) (Rat (-5) 2) = Ok (Rat (-7) 3) /\ rat_mul 64 (Rat 4 6) (Rat 3 (-8)) = Ok (Rat 1 (-4)).
Proof. split; reflexivity. Qed.

(** ** C23 lowest terms *)
Theorem C23_lowest_terms w fd e r : no_text e -> run w fd e = Ok r -> Z.gcd (num r) (den r) = 1.
Proof. exact (fun N => run_lowest w fd e N r). Qed.
Print Assumptions C23_lowest_terms.
(** single operations: only * and / need operands in lowest terms *)
Theorem C23_add_reduces w a b r : rat_add w a b = Ok r -> Z.gcd (num r) (den r) = 1.
Proof. exact (rat_add_lowest w a b r). Qed.
Theorem C23_mul_keeps w a b r : Z.gcd (num a) (den a) = 1 -> Z.gcd (num b) (den b) = 1 -> rat_mul w a b = Ok r -> Z.gcd (num r) (den r) = 1.
Proof. exact (rat_mul_lowest w a b r). Qed.
(** positive denominators stay positive under + - * and negate *)
Theorem C23_positive w fd e r : positive_only e -> run w fd e = Ok r -> 0 < den r.
Proof. exact (fun N => run_positive w fd e N r). Qed.
Print Assumptions C23_positive.
Example C23_hyp : no_text (EMul (EMake 6 4) (ENeg (EMake 10 15))) /\ run 64 no_decimal (EMul (EMake 6 4) (ENeg (EMake 10 15))) = Ok (Rat (-1) 1).
Proof. split; [cbn; auto|reflexivity]. Qed.
(** the sign of the denominator is not normalised *)
Theorem C23_negative_denominator_refuted : run 64 no_decimal (EInv (EMake (-3) 2)) = Ok (Rat 2 (-3)) /\ rat_to_string (Rat 2 (-3)) = txt "2/-3".
Proof. split; reflexivity. Qed.
(** the string constructor does not reduce *)
Theorem C23_text_refuted : run 64 no_decimal (EText (txt "2/4")) = Ok (Rat 2 4).
Proof. reflexivity. Qed.

(** ** C24 order and equality *)
Theorem C24_order w a b c : 0 < den a -> 0 < den b -> rat_cmp w a b = Ok c -> c = (qv a ?= qv b)%Q.
Proof. exact (fun A B => rat_cmp_same_sign w a b c (Z.mul_pos_pos _ _ A B)). Qed.
Theorem C24_order_both_negative w a b c : den a < 0 -> den b < 0 -> rat_cmp w a b = Ok c -> c = (qv a ?= qv b)%Q.
Proof. exact (fun A B => rat_cmp_same_sign w a b c (Z.mul_neg_neg _ _ A B)). Qed.
Theorem C24_equality w a b e : den a <> 0 -> den b <> 0 -> rat_eq w a b = Ok e -> (e = true <-> (qv a == qv b)%Q).
Proof. exact (rat_eq_exact w a b e). Qed.
Theorem C24_inequality w a b e : den a <> 0 -> den b <> 0 -> rat_ne w a b = Ok e -> (e = true <-> ~ (qv a == qv b)%Q).
Proof. exact (rat_ne_exact w a b e). Qed.
(** opposite signs: the answer is reversed, always *)
Theorem C24_opposite_signs w a b c : den a * den b < 0 -> rat_cmp w a b = Ok c -> c = CompOpp (qv a ?= qv b)%Q.
Proof. exact (rat_cmp_opposite w a b c). Qed.
Theorem C24_lt w a b x : 0 < den a -> 0 < den b -> rat_lt w a b = Ok x -> (x = true <-> (qv a < qv b)%Q).
Proof. exact (rat_lt_exact w a b x). Qed.
Theorem C24_le w a b x : 0 < den a -> 0 < den b -> rat_le w a b = Ok x -> (x = true <-> (qv a <= qv b)%Q).
Proof. exact (rat_le_exact w a b x). Qed.
Print Assumptions C24_order.
Print Assumptions C24_opposite_signs.
Example C24_hyp : rat_lt 64 (Rat (-1) 2) (Rat 1 3) = Ok true /\ rat_eq 64 (Rat 2 4) (Rat (-1) (-2)) = Ok true.
Proof. split; reflexivity. Qed.
(** 1 / (-2) is not below 0 for this library *)
Theorem C24_negative_denominator_refuted :
  exists m z, run 64 no_decimal (EInv (EInt (-2))) = Ok m /\ run 64 no_decimal (EInt 0) = Ok z /\
    rat_lt 64 m z = Ok false /\ rat_gt 64 m z = Ok true /\ (qv m < qv z)%Q.
Proof. exists (Rat 1 (-2)), (Rat 0 1). repeat split; reflexivity. Qed.

(** ** C25 overflow is the only other outcome *)
Theorem C25_outcome w fd e : no_text e ->
  (exists r, run w fd e = Ok r /\ den r <> 0 /\ (qv r == denotes w fd e)%Q) \/ (exists u, run w fd e = Ub u) \/ run w fd e = Throw division_by_zero.
Proof. exact (run_trichotomy w fd e). Qed.
Print Assumptions C25_outcome.
(** no overflow while the products of the components fit *)
Theorem C25_no_overflow w B a b : small B a -> small B b -> den a <> 0 -> den b <> 0 -> 2 * (B * B) < 2 ^ (w - 1) ->
  (exists r, rat_add w a b = Ok r) /\ (exists r, rat_sub w a b = Ok r) /\ (exists r, rat_mul w a b = Ok r) /\
  (num b <> 0 -> exists r, rat_div w a b = Ok r) /\ (exists r, rat_negate w a = Ok r) /\ (num a <> 0 -> exists r, rat_inverse w a = Ok r) /\
  (exists c, rat_cmp w a b = Ok c) /\ (exists c, rat_eq w a b = Ok c) /\ (exists c, rat_ne w a b = Ok c).
Proof. exact (no_overflow w B a b). Qed.
Print Assumptions C25_no_overflow.
Example C25_hyp : small 2000000000 (Rat 1999999999 (-2000000000)) /\ 2 * (2000000000 * 2000000000) < 2 ^ (64 - 1).
Proof. unfold small. cbn [num den]. lia. Qed.
Theorem C25_overflow_refuted : is_ub (rat_add 64 (Rat 1 3037000500) (Rat 1 3037000501)) = true /\ is_ub (rat_make 64 (- 2 ^ 63) 1) = true.
Proof. split; reflexivity. Qed.

(** ** C26 pow; [e] is the value of the exponent, which may be given with any denominator *)
Theorem C26_pow w fp r p e : 1 < w -> pow_exact w fp -> den r <> 0 -> den p <> 0 -> 0 <= e -> num p = e * den p ->
  Z.abs (num p) < 2 ^ (w - 1) -> Z.abs (den p) < 2 ^ (w - 1) -> Z.abs (num p) <= 2 ^ 53 -> Z.abs (den p) <= 2 ^ 53 ->
  Z.abs (num r) <= 2 ^ 53 -> Z.abs (den r) <= 2 ^ 53 ->
  Z.abs (num r ^ e) <= 2 ^ 53 -> Z.abs (den r ^ e) <= 2 ^ 53 -> Z.abs (num r ^ e) < 2 ^ (w - 1) -> Z.abs (den r ^ e) < 2 ^ (w - 1) ->
  exists r', rat_pow w fp r p = Ok r' /\ den r' <> 0 /\ (qv r' == qv r ^ e)%Q.
Proof. exact (rat_pow_exact w fp r p e). Qed.
Print Assumptions C26_pow.
(** the assumptions on the machine pow can be met *)
Theorem C26_pow_assumptions_consistent w : 1 < w -> pow_exact w (ideal_pow w) /\ pow_truncates (ideal_pow w).
Proof. exact (ideal_pow_exact w). Qed.
Example C26_hyp : rat_pow 64 (ideal_pow 64) (Rat (-2) 3) (Rat 5 1) = Ok (Rat (-32) 243).
Proof. reflexivity. Qed.
(** negative exponents: n.pow(e) is 0, and (1/n).pow(-1) has denominator 0 *)
Theorem C26_negative_refuted w fp n e : 1 < w -> pow_truncates fp -> 2 <= Z.abs n < 2 ^ (w - 1) -> - 2 ^ (w - 1) <= e < 0 ->
  rat_pow w fp (Rat n 1) (Rat e 1) = Ok (Rat 0 1) /\ (e = -1 -> rat_pow w fp (Rat 1 n) (Rat e 1) = Ok (Rat 1 0)).
Proof. exact (rat_pow_negative w fp n e). Qed.
Print Assumptions C26_negative_refuted.

(** ** C27 zero denominators *)
Theorem C27_make w n : rat_make w n 0 = Throw division_by_zero.
Proof. reflexivity. Qed.
Theorem C27_text w fd s n ds : 1 < w <= 64 -> - 2 ^ (w - 1) <= n < 2 ^ (w - 1) -> s = adapter_to_string n -> ds <> [] -> Forall (fun c => c = "0"%char) ds ->
  rat_of_string w fd (s ++ "/"%char :: ds) = Throw division_by_zero.
Proof. exact (text_zero_den w fd s n ds). Qed.
Theorem C27_inverse w a : num a = 0 -> rat_inverse w a = Throw division_by_zero.
Proof. exact (inverse_zero w a). Qed.
Theorem C27_div w a b : num b = 0 -> rat_div w a b = Throw division_by_zero.
Proof. exact (div_zero w a b). Qed.
Theorem C27_reachable w fd e r : run w fd e = Ok r -> den r <> 0.
Proof. exact (fun H => proj1 (run_exact w fd e r H)). Qed.
Print Assumptions C27_text.
Print Assumptions C27_reachable.
Example C27_hyp : rat_of_string 64 no_decimal (txt "-7/00") = Throw division_by_zero.
Proof. reflexivity. Qed.

(** ** C55 text *)
Theorem C55_round_trip w fd r : 1 < w <= 64 -> den r <> 0 ->
  - 2 ^ (w - 1) <= num r < 2 ^ (w - 1) -> - 2 ^ (w - 1) <= den r < 2 ^ (w - 1) ->
  rat_of_string w fd (rat_to_string r) = Ok r.
Proof. exact (rat_text_round_trip w fd r). Qed.
Print Assumptions C55_round_trip.
(** two values print the same only if they are the same fraction *)
Theorem C55_injective w r r' : 1 < w <= 64 -> den r <> 0 -> den r' <> 0 ->
  - 2 ^ (w - 1) <= num r < 2 ^ (w - 1) -> - 2 ^ (w - 1) <= den r < 2 ^ (w - 1) ->
  - 2 ^ (w - 1) <= num r' < 2 ^ (w - 1) -> - 2 ^ (w - 1) <= den r' < 2 ^ (w - 1) ->
  rat_to_string r = rat_to_string r' -> r = r'.
Proof. exact (rat_text_injective w r r'). Qed.
Print Assumptions C55_injective.
Theorem C55_tex_form n d : rat_to_tex (Rat n d) =
  if d =? 1 then adapter_to_string n else txt "\frac{" ++ adapter_to_string n ++ txt "}{" ++ adapter_to_string d ++ txt "}".
Proof. exact (rat_tex_form n d). Qed.
Example C55_hyp : rat_to_string (Rat (-22) 7) = txt "-22/7" /\ rat_of_string 64 no_decimal (txt "-22/7") = Ok (Rat (-22) 7).
Proof. split; reflexivity. Qed.
Theorem C55_minus_one_denominator_refuted : rat_of_string 64 no_decimal (txt "5/-1") = Ok (Rat 5 (-1)) /\ is_int (Rat 5 (-1)) = false.
Proof. split; reflexivity. Qed.
