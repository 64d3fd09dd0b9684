(** Properties C13-C16 and C53 (int_adapter.hpp).  [w] is the bit width of the signed type T; [numeral n] is specified by
    [C15_numeral]; [dec_value], [canonical_numeral], [is_dec_digit] are in HugeSpec.v. *)
From Coq Require Import ZArith String Ascii Lia Bool List.
From Verif Require Import Base HugeModel HugeSpec HugeProofs6 AdapterModel AdapterProofs.
Import ListNotations.
Open Scope Z_scope.

Local Definition txt (s : string) : list ascii := list_ascii_of_string s.

(** ** C13 mulmod *)
Theorem C13_mulmod_exact : forall w a b m, 1 < w -> 0 <= a -> 0 <= b < 2 ^ (w - 2) -> 0 < m <= 2 ^ (w - 2) ->
  adapter_mulmod w a b m = Ok ((a * b) mod m).
Proof. exact mulmod_spec. Qed.
Print Assumptions C13_mulmod_exact.
Example C13_ex : adapter_mulmod 64 4611686018427387903 4611686018427387901 4611686018427387904 = Ok 3.
Proof. reflexivity. Qed.
(** beyond 2^(w-2) the shift wraps silently: 2 * (m-1) mod m is m-2, the code says -52 *)
Theorem C13_wide_modulus_refuted : let m := 9223372036854775783 in
  adapter_mulmod 64 2 (m - 1) m = Ok (-52) /\ (2 * (m - 1)) mod m = m - 2.
Proof. split; reflexivity. Qed.
Theorem C13_wide_modulus_ub_refuted : is_ub (adapter_mulmod 64 3 (2 ^ 62 - 1) (2 ^ 63 - 1)) = true.
Proof. reflexivity. Qed.

(** ** C14 modpow *)
Theorem C14_modpow_exact : forall w base exp m, 0 <= base < 2 ^ (w - 1) -> 0 <= exp -> 1 < m -> (m - 1) * (m - 1) < 2 ^ (w - 1) ->
  adapter_modpow w base exp m = Ok (base ^ exp mod m).
Proof. exact modpow_spec. Qed.
Print Assumptions C14_modpow_exact.
Theorem C14_modpow_sound : forall w base exp m x, 0 <= base -> 0 <= exp -> 1 < m ->
  adapter_modpow w base exp m = Ok x -> x = base ^ exp mod m.
Proof. exact modpow_sound. Qed.
Print Assumptions C14_modpow_sound.
Theorem C14_modpow_outcome : forall w base exp m, 0 <= exp ->
  (exists x, adapter_modpow w base exp m = Ok x) \/ (exists u, adapter_modpow w base exp m = Ub u).
Proof. exact modpow_outcome. Qed.
Print Assumptions C14_modpow_outcome.
Example C14_ex : adapter_modpow 64 3 1000000006 1000000007 = Ok 1 /\ (1000000007 - 1) * (1000000007 - 1) < 2 ^ 63.
Proof. split; reflexivity. Qed.
(** 64-bit products overflow for moduli from about 3.04e9 *)
Theorem C14_overflow_refuted : is_ub (adapter_modpow 64 2 4294967310 4294967311) = true.
Proof. reflexivity. Qed.
Theorem C14_modulus_one_refuted : adapter_modpow 64 5 0 1 = Ok 1 /\ 5 ^ 0 mod 1 = 0.
Proof. split; reflexivity. Qed.

(** ** C15 printing 128-bit integers *)
Theorem C15_numeral : forall n, 0 <= n -> canonical_numeral (numeral n) /\ dec_value (numeral n) = n.
Proof. exact numeral_spec. Qed.
Print Assumptions C15_numeral.
Theorem C15_positive : forall n, 0 < n < 2 ^ 127 -> to_string128 n = Ok (numeral n).
Proof. exact to_string128_pos. Qed.
Print Assumptions C15_positive.
Theorem C15_negative : forall n, - 2 ^ 127 < n < 0 ->
  to_string128 n = Ok ("-"%char :: (if Z.of_nat (length (numeral (- n))) <? size_estimate (Z.log2 (- n) + 1) then ["000"%char] else [])
                       ++ numeral (- n)).
Proof. exact to_string128_neg. Qed.
Print Assumptions C15_negative.
Example C15_ex : to_string128 123456789012345678901234567890123456789 = Ok (txt "123456789012345678901234567890123456789")
  /\ to_string128 (-7) = Ok (txt "-7").
Proof. split; vm_compute; reflexivity. Qed.
Theorem C15_negative_nul_refuted : to_string128 (-8) = Ok ["-"%char; "000"%char; "8"%char].
Proof. reflexivity. Qed.
Theorem C15_zero_refuted : to_string128 0 = Ok [].
Proof. reflexivity. Qed.
Theorem C15_minimum_refuted : is_ub (to_string128 (- 2 ^ 127)) = true.
Proof. reflexivity. Qed.
(** unsigned: right below 2^127; the top 2^100 values write before the beginning of the buffer *)
Theorem C15_unsigned : forall n, 0 < n < 2 ^ 127 -> to_string_u128 n = Ok (numeral n).
Proof. exact to_string_u128_small. Qed.
Print Assumptions C15_unsigned.
Theorem C15_unsigned_big_ub : forall n, 2 ^ 128 - 2 ^ 100 <= n < 2 ^ 128 -> exists u, to_string_u128 n = Ub u.
Proof. exact to_string_u128_big. Qed.
Print Assumptions C15_unsigned_big_ub.

(** ** C16 parsing 128-bit integers *)
Theorem C16_digits : forall ds, Forall is_dec_digit ds -> dec_value ds < 2 ^ 127 -> adapter_to_int128 ds = Ok (dec_value ds).
Proof. exact (fun ds F B => to_int128_loop_spec ds F 0 (Z.le_refl 0) B). Qed.
Print Assumptions C16_digits.
Theorem C16_too_big_ub : forall ds, Forall is_dec_digit ds -> 2 ^ 127 <= dec_value ds -> exists u, adapter_to_int128 ds = Ub u.
Proof. exact (fun ds F B => to_int128_loop_overflow ds F 0 (conj (Z.le_refl 0) eq_refl) B). Qed.
Print Assumptions C16_too_big_ub.
Theorem C16_unsigned : forall ds, Forall is_dec_digit ds -> adapter_to_uint128 ds = dec_value ds mod 2 ^ 128.
Proof. exact (fun ds F => to_uint128_loop_spec ds F 0 (conj (Z.le_refl 0) eq_refl)). Qed.
Print Assumptions C16_unsigned.
Theorem C16_round_trip : forall n, 0 < n < 2 ^ 127 -> exists s, to_string128 n = Ok s /\ adapter_to_int128 s = Ok n.
Proof. exact int128_round_trip. Qed.
Print Assumptions C16_round_trip.
Example C16_ex : adapter_to_int128 (txt "170141183460469231731687303715884105727") = Ok (2 ^ 127 - 1) /\
  is_ub (adapter_to_int128 (txt "170141183460469231731687303715884105728")) = true.
Proof. split; vm_compute; reflexivity. Qed.
Theorem C16_minus_refuted : adapter_to_int128 (txt "-5") = Ok (-25).
Proof. reflexivity. Qed.

(** ** C53 machine-integer text *)
Theorem C53_round_trip : forall w n, 1 < w <= 64 -> - 2 ^ (w - 1) <= n < 2 ^ (w - 1) ->
  adapter_to_int w (adapter_to_string n) = Ok n.
Proof. exact int_text_round_trip. Qed.
Print Assumptions C53_round_trip.
(** blanks, a sign and digits are read as the number denoted, whatever follows; a number outside 64 bits throws *)
Theorem C53_stoll : forall blanks sg ds rest, Forall (fun c => nat_of_ascii c = 32 \/ 9 <= nat_of_ascii c <= 13)%nat blanks -> ds <> [] -> Forall is_dec_digit ds ->
  match rest with [] => True | x :: _ => isdigit x = false end ->
  stoll (blanks ++ sign_text sg ++ ds ++ rest) =
    if in_range 64 (sign_val sg (dec_value ds)) then Ok (sign_val sg (dec_value ds)) else Throw "out_of_range".
Proof.
  intros blanks sg ds rest B. apply stoll_spec. eapply Forall_impl; [|exact B]. intros c H. unfold isspace. apply orb_true_iff. rewrite Nat.eqb_eq, andb_true_iff, !Nat.leb_le. exact H.
Qed.
Print Assumptions C53_stoll.
Example C53_ex : adapter_to_int 32 (txt " -2147483648xyz") = Ok (- 2 ^ 31) /\ adapter_to_string (-90210) = txt "-90210".
Proof. split; reflexivity. Qed.
(** T = int: the 64-bit value is narrowed silently *)
Theorem C53_int_narrowing_refuted : adapter_to_int 32 (txt "4294967297") = Ok 1.
Proof. reflexivity. Qed.

(** ** C54 gcd and lcm *)
Theorem C54_gcd : forall w a b g, adapter_gcd w a b = Ok g -> 0 <= g /\ (g | a) /\ (g | b) /\ forall d, (d | a) -> (d | b) -> (d | g).
Proof. exact gcd_sound. Qed.
Print Assumptions C54_gcd.
Theorem C54_lcm : forall w a b l, adapter_lcm w a b = Ok l -> 0 <= l /\ (a | l) /\ (b | l) /\ forall m, (a | m) -> (b | m) -> (l | m).
Proof. exact lcm_sound. Qed.
Print Assumptions C54_lcm.
Theorem C54_gcd_returns : forall w a b, Z.abs a < 2 ^ (w - 1) -> Z.abs b < 2 ^ (w - 1) -> exists g, adapter_gcd w a b = Ok g.
Proof. exact gcd_returns. Qed.
Print Assumptions C54_gcd_returns.
Theorem C54_lcm_returns : forall w a b, Z.abs (a * b) < 2 ^ (w - 1) -> a <> 0 -> b <> 0 -> exists l, adapter_lcm w a b = Ok l.
Proof. exact lcm_returns. Qed.
Print Assumptions C54_lcm_returns.
Example C54_ex : adapter_gcd 64 (-12) 18 = Ok 6 /\ adapter_lcm 64 (-4) 6 = Ok 12.
Proof. split; reflexivity. Qed.
Theorem C54_minimum_refuted : is_ub (adapter_gcd 64 (- 2 ^ 63) 2) = true /\ is_ub (adapter_lcm 32 65536 65537) = true.
Proof. split; reflexivity. Qed.
