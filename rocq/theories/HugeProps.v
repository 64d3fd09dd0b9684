(** Properties C01-C12 (Huge).  Vocabulary: HugeSpec.v ([hval] = the integer denoted, [hcanon] = no leading zero digit,
    [dec_value] = value of a decimal numeral); [HugeHistory.v] for the closing theorem about histories.
    [Ok] = returns, [Throw] = throws, [Ub] = undefined behaviour. *)
From Coq Require Import ZArith String Ascii Lia Bool List.
From Verif Require Import Base HugeModel HugeSpec HugeProofs1 HugeProofs2 HugeProofs3 HugeProofs4 HugeProofs5
  HugeProofs6 HugeProofs7 HugeProofs8 HugeHistory.
Import ListNotations.
Open Scope Z_scope.

Definition txt (s : string) : list ascii := list_ascii_of_string s.

(** ** C01 text *)
Theorem C01_parse_unsigned : forall ds rest, ds <> [] -> Forall is_dec_digit ds ->
  match rest with [] => True | x :: _ => isdigit x = false end ->
  exists h, huge_of_string (ds ++ rest) = Ok h /\ hcanon h /\ is_positive h = true /\ hval h = dec_value ds.
Proof. exact parse_plain. Qed.
Print Assumptions C01_parse_unsigned.
Example C01_parse_unsigned_ex : exists h, huge_of_string (txt "123456789012345678901234567890x1") = Ok h /\
  hval h = 123456789012345678901234567890.
Proof. vm_compute. eexists; split; reflexivity. Qed.

Theorem C01_parse_signed : forall c ds rest, c = "+"%char \/ c = "-"%char -> Forall is_dec_digit ds ->
  match rest with [] => True | x :: _ => isdigit x = false end ->
  exists h, huge_of_string (c :: ds ++ rest) = Ok h /\ hcanon h /\ is_positive h = Ascii.eqb c "+" /\
    hval h = if Ascii.eqb c "+" then dec_value ds else - dec_value ds.
Proof. exact parse_signed. Qed.
Print Assumptions C01_parse_signed.
Example C01_parse_signed_ex : exists h, huge_of_string (txt "-98765432109876543210") = Ok h /\ hval h = -98765432109876543210.
Proof. vm_compute. eexists; split; reflexivity. Qed.

(** printing any vector of 30-bit digits, canonical or not, gives the canonical numeral of its magnitude *)
Theorem C01_print : forall x, wf (digits x) ->
  exists num, huge_to_string x = Ok ((if is_positive x then [] else ["-"%char]) ++ num) /\
    canonical_numeral num /\ dec_value num = dval (digits x).
Proof. exact print_spec. Qed.
Print Assumptions C01_print.
Example C01_print_ex : huge_to_string (mkHuge [5; 7; 0] false) = Ok (txt "-7516192773").
Proof. reflexivity. Qed.

Theorem C01_print_then_parse : forall x s, wf (digits x) -> huge_to_string x = Ok s ->
  exists h, huge_of_string s = Ok h /\ hcanon h /\ hval h = hval x /\ is_positive h = is_positive x.
Proof. exact print_parse_value. Qed.
Print Assumptions C01_print_then_parse.

Theorem C01_parse_then_print : forall num, canonical_numeral num ->
  exists h, huge_of_string num = Ok h /\ hval h = dec_value num /\ huge_to_string h = Ok num.
Proof. exact parse_print_plain. Qed.
Print Assumptions C01_parse_then_print.
Theorem C01_parse_then_print_neg : forall num, canonical_numeral num ->
  exists h, huge_of_string ("-"%char :: num) = Ok h /\ hval h = - dec_value num /\ huge_to_string h = Ok ("-"%char :: num).
Proof. exact parse_print_neg. Qed.
Print Assumptions C01_parse_then_print_neg.
Example C01_canonical_numeral_ex : canonical_numeral (txt "10203040506070809010").
Proof. split; [discriminate|]. split; [|cbn; discriminate]. repeat (constructor; [unfold is_dec_digit; cbn; lia|]); constructor. Qed.

Theorem C01_parse_rejects : forall s, huge_of_string s = Throw "Invaild string." <->
  Forall (fun c => isdigit c = false /\ c <> "+"%char /\ c <> "-"%char) s.
Proof. exact parse_throw. Qed.
Print Assumptions C01_parse_rejects.
(** the sign is looked up at position 0, so a sign after leading blanks loses the whole number *)
Theorem C01_leading_blank_sign_refuted : exists h, huge_of_string (txt " -5") = Ok h /\ hval h = 0.
Proof. vm_compute. eexists; split; reflexivity. Qed.

(** ** C02 addition *)
Theorem C02_add_exact : forall x h, hcanon x -> hcanon h ->
  wf (digits (huge_add x h)) /\ hval (huge_add x h) = hval x + hval h.
Proof. exact huge_add_spec. Qed.
Print Assumptions C02_add_exact.
Example C02_ex : hcanon (mkHuge [1073741823; 1073741823] true) /\ hcanon (mkHuge [1] true) /\
  digits (huge_add (mkHuge [1073741823; 1073741823] true) (mkHuge [1] true)) = [0; 0; 1].
Proof. repeat split; try (apply canonb_canon; reflexivity). Qed.

(** ** C03 subtraction *)
Theorem C03_sub_characterised : forall x h, hcanon x -> hcanon h ->
  wf (digits (huge_sub x h)) /\
  hval (huge_sub x h) =
    (if ((Z.abs (hval x) =? Z.abs (hval h)) && negb (hval x =? 0) && negb (Bool.eqb (is_positive x) (is_positive h)))%bool
     then 0 else hval x - hval h).
Proof. exact huge_sub_spec. Qed.
Print Assumptions C03_sub_characterised.
Theorem C03_sub_exact : forall x h, hcanon x -> hcanon h -> ~ (hval h = - hval x /\ hval x <> 0) ->
  hval (huge_sub x h) = hval x - hval h.
Proof. exact (fun x h Hx Hh N => huge_sub_exact x h Hx Hh N). Qed.
Print Assumptions C03_sub_exact.
Theorem C03_sub_opposite_refuted : exists x h, hcanon x /\ hcanon h /\ hval x = 5 /\ hval h = -5 /\ hval (huge_sub x h) = 0.
Proof.
  exact (ex_intro _ (mkHuge [5] true) (ex_intro _ (mkHuge [5] false)
    (conj (proj1 (canonb_canon [5]) eq_refl) (conj (proj1 (canonb_canon [5]) eq_refl) (conj eq_refl (conj eq_refl eq_refl)))))).
Qed.
Print Assumptions C03_sub_opposite_refuted.

(** ** C04 canonical representation *)
Theorem C04_add_canonical : forall x h, hcanon x -> hcanon h -> is_positive x = is_positive h -> hcanon (huge_add x h).
Proof. exact huge_add_canon. Qed.
Print Assumptions C04_add_canonical.
Theorem C04_int_canonical : forall w n, 0 < w <= 64 ->
  (- 2 ^ (w - 1) < n < 2 ^ (w - 1) -> exists h, huge_of_signed w n = Ok h /\ hcanon h /\ hval h = n) /\
  (0 <= n < 2 ^ w -> exists h, huge_of_unsigned n = Ok h /\ hcanon h /\ hval h = n).
Proof. exact (fun w n H => conj (huge_of_signed_spec w n H) (huge_of_unsigned_spec w n H)). Qed.
Print Assumptions C04_int_canonical.
(** canonical vectors are determined by their value *)
Theorem C04_canonical_unique : forall a b, canon a -> canon b -> dval a = dval b -> a = b.
Proof. exact canon_inj. Qed.
Print Assumptions C04_canonical_unique.
(** x = 2^30 - (2^30-1) is 1 but is not == 1, and x - 2 is wrong *)
Definition two30 : huge := mkHuge [0; 1] true.
Definition two30m1 : huge := mkHuge [1073741823] true.
Theorem C04_sub_not_canonical_refuted : exists x h, hcanon x /\ hcanon h /\
  let d := huge_sub x h in
  hval d = 1 /\ ~ hcanon d /\ huge_eq d (mkHuge [1] true) = false /\
  hval (huge_sub d (mkHuge [2] true)) <> -1.
Proof.
  exists two30, two30m1. split; [apply canonb_canon; reflexivity|]. split; [apply canonb_canon; reflexivity|].
  cbv zeta. split; [reflexivity|]. split; [|split; [reflexivity|vm_compute; discriminate]].
  intros C. apply canonb_canon in C. vm_compute in C. discriminate.
Qed.
Print Assumptions C04_sub_not_canonical_refuted.
Theorem C04_div_not_canonical_refuted : exists x h q, hcanon x /\ hcanon h /\ huge_div x h = Ok q /\
  hval q = 536870912 /\ ~ hcanon q /\ huge_eq q (mkHuge [536870912] true) = false.
Proof.
  exists two30, (mkHuge [2] true), (mkHuge [536870912; 0] true).
  split; [apply canonb_canon; reflexivity|]. split; [apply canonb_canon; reflexivity|].
  split; [reflexivity|]. split; [reflexivity|]. split; [|reflexivity].
  intros C. apply canonb_canon in C. vm_compute in C. discriminate.
Qed.
Print Assumptions C04_div_not_canonical_refuted.

(** ** C05 multiplication *)
Theorem C05_mul_exact : forall x h t, wf (digits x) -> wf (digits h) -> huge_mul x h = Ok t ->
  hcanon t /\ hval t = hval x * hval h.
Proof. exact huge_mul_spec. Qed.
Print Assumptions C05_mul_exact.
(** it terminates and never throws; the only other outcome is the empty-vector back() *)
Theorem C05_mul_outcome : forall x h, wf (digits x) -> wf (digits h) ->
  (exists t, huge_mul x h = Ok t) \/ (exists w, huge_mul x h = Ub w).
Proof. exact huge_mul_outcome. Qed.
Print Assumptions C05_mul_outcome.
Theorem C05_mul_returns : forall x h, hcanon x -> hcanon h ->
  (Nat.min (length (digits x)) (length (digits h)) <= 70)%nat \/
  (digits x = digits h /\ (length (digits x) <= 140)%nat) ->
  exists t, huge_mul x h = Ok t.
Proof. exact huge_mul_small. Qed.
Print Assumptions C05_mul_returns.
Example C05_ex : let a := repeat 1073741823 71 in let b := repeat 1073741822 150 in
  canonb a = true /\ canonb b = true /\
  match huge_mul (mkHuge a true) (mkHuge b false) with
  | Ok t => hval t =? (- (dval a * dval b)) | _ => false end = true.
Proof. vm_compute. repeat split; reflexivity. Qed.
(** 2^(30*150) squared: the low halves are all zero *)
Theorem C05_mul_zero_half_refuted : exists x, hcanon x /\ is_ub (huge_mul x x) = true.
Proof.
  exists (mkHuge (repeat 0 150 ++ [1]) true). split; [apply canonb_canon; vm_compute; reflexivity|vm_compute; reflexivity].
Qed.
Print Assumptions C05_mul_zero_half_refuted.

(** ** C06 magnitude division *)
Theorem C06_divrem_euclid : forall a b, canon a -> canon b -> b <> [] ->
  ~ (2 ^ 30 <= dval b /\ dval b < dval a /\ (dval b | dval a)) ->
  exists q r, digits_divrem a b = Ok (q, r) /\ wf q /\ canon r /\
    dval a = dval q * dval b + dval r /\ 0 <= dval r < dval b.
Proof. exact divrem_euclid. Qed.
Print Assumptions C06_divrem_euclid.
Theorem C06_divrem_exact_ub : forall a b, canon a -> canon b -> b <> [] ->
  2 ^ 30 <= dval b -> dval b < dval a -> (dval b | dval a) -> is_ub (digits_divrem a b) = true.
Proof. exact divrem_exact_ub. Qed.
Print Assumptions C06_divrem_exact_ub.
(** non-vacuous: an add-back case (q-hat one too big) and an exact division *)
Example C06_ex : let a := [0; 0; 1073741823; 536870911] in let b := [1; 0; 536870912] in
  canonb a = true /\ canonb b = true /\
  match digits_divrem a b with
  | Ok (q, r) => ((dval q =? dval a / dval b) && (dval r =? dval a mod dval b))%bool | _ => false end = true.
Proof. vm_compute. repeat split; reflexivity. Qed.
Example C06_ub_ex : is_ub (digits_divrem [0; 0; 1] [0; 1]) = true.
Proof. reflexivity. Qed.

(** ** C07 operator/ and operator% *)
Theorem C07_div_truncates : forall x h, hcanon x -> hcanon h -> hval h <> 0 ->
  ~ (2 ^ 30 <= Z.abs (hval h) /\ Z.abs (hval h) < Z.abs (hval x) /\ (hval h | hval x)) ->
  exists q, huge_div x h = Ok q /\ wf (digits q) /\ hval q = Z.quot (hval x) (hval h).
Proof. exact huge_div_spec. Qed.
Print Assumptions C07_div_truncates.
Theorem C07_mod_sign_of_dividend : forall x h, hcanon x -> hcanon h -> hval h <> 0 ->
  ~ (2 ^ 30 <= Z.abs (hval h) /\ Z.abs (hval h) < Z.abs (hval x) /\ (hval h | hval x)) ->
  exists r, huge_mod x h = Ok r /\ hcanon r /\ hval r = Z.rem (hval x) (hval h).
Proof. exact huge_mod_spec. Qed.
Print Assumptions C07_mod_sign_of_dividend.
Theorem C07_exact_long_division_ub : forall x h, hcanon x -> hcanon h -> hval h <> 0 ->
  2 ^ 30 <= Z.abs (hval h) /\ Z.abs (hval h) < Z.abs (hval x) /\ (hval h | hval x) ->
  is_ub (huge_div x h) = true /\ is_ub (huge_mod x h) = true /\ is_ub (huge_divrem x h) = true.
Proof. exact huge_div_exact_ub. Qed.
Print Assumptions C07_exact_long_division_ub.
Example C07_ex : let x := mkHuge [7; 3; 9] false in let h := mkHuge [5; 2] true in
  match huge_div x h, huge_mod x h with
  | Ok q, Ok r => ((hval q =? Z.quot (hval x) (hval h)) && (hval r =? Z.rem (hval x) (hval h)) && (hval r <? 0))%bool
  | _, _ => false end = true.
Proof. reflexivity. Qed.

(** ** C08 division by zero *)
Theorem C08_division_by_zero_throws : forall x h, hcanon h -> hval h = 0 ->
  huge_div x h = Throw "Division by zero" /\ huge_mod x h = Throw "Division by zero" /\
  huge_divrem x h = Throw "Division by zero".
Proof. exact huge_div_zero. Qed.
Print Assumptions C08_division_by_zero_throws.
Theorem C08_never_throws_otherwise : forall x h, hcanon x -> hcanon h -> hval h <> 0 ->
  is_throw (huge_div x h) = false /\ is_throw (huge_mod x h) = false /\ is_throw (huge_divrem x h) = false.
Proof. exact huge_div_nonzero_no_throw. Qed.
Print Assumptions C08_never_throws_otherwise.
(** a zero reached through subtraction, (2^30 - (2^30-1)) - 1, keeps two zero digits and is not reported *)
Theorem C08_noncanonical_zero_refuted : 
  let z := huge_sub (huge_sub two30 two30m1) (mkHuge [1] true) in
  hval z = 0 /\ is_ub (huge_div (mkHuge [1; 2; 3] true) z) = true.
Proof. vm_compute. split; reflexivity. Qed.
Print Assumptions C08_noncanonical_zero_refuted.

(** ** C09 comparison *)
Theorem C09_comparisons : forall x h, hcanon x -> hcanon h ->
  huge_eq x h = (hval x =? hval h) /\ huge_ne x h = negb (hval x =? hval h) /\
  huge_lt x h = (hval x <? hval h) /\ huge_le x h = (hval x <=? hval h) /\
  huge_gt x h = (hval h <? hval x) /\ huge_ge x h = (hval h <=? hval x).
Proof. exact huge_compare_spec. Qed.
Print Assumptions C09_comparisons.
Example C09_ex : huge_lt (mkHuge [5; 1] false) (mkHuge [4; 1] false) = true /\ huge_eq (mkHuge [] true) (mkHuge [] false) = true.
Proof. split; reflexivity. Qed.

(** ** C10 gcd *)
Theorem C10_gcd : forall x h, hcanon x -> hcanon h ->
  hval x = 0 \/ hval h = 0 \/ Z.abs (hval x) = Z.abs (hval h) \/ Z.gcd (hval x) (hval h) < 2 ^ 30 ->
  exists g, huge_gcd x h = Ok g /\ hcanon g /\ hval g = Z.gcd (hval x) (hval h).
Proof. exact huge_gcd_spec. Qed.
Print Assumptions C10_gcd.
Theorem C10_gcd_long_ub : forall x h, hcanon x -> hcanon h ->
  hval x <> 0 -> hval h <> 0 -> Z.abs (hval x) <> Z.abs (hval h) -> 2 ^ 30 <= Z.gcd (hval x) (hval h) ->
  is_ub (huge_gcd x h) = true.
Proof. exact huge_gcd_ub. Qed.
Print Assumptions C10_gcd_long_ub.
Example C10_ex : let x := mkHuge [0; 0; 6] true in let h := mkHuge [15; 30] true in
  hval x = 6917529027641081856 /\ match huge_gcd x h with Ok g => hval g =? Z.gcd (hval x) (hval h) | _ => false end = true.
Proof. vm_compute. split; reflexivity. Qed.
Example C10_ub_ex : is_ub (huge_gcd (mkHuge [0; 2] true) (mkHuge [0; 3] true)) = true.
Proof. reflexivity. Qed.

(** ** C11 conversions *)
Theorem C11_signed_round_trip : forall w n, 1 < w <= 64 -> - 2 ^ (w - 1) < n < 2 ^ (w - 1) ->
  exists h, huge_of_signed w n = Ok h /\ huge_to w true h = Ok n.
Proof. exact signed_round_trip. Qed.
Print Assumptions C11_signed_round_trip.
Theorem C11_unsigned_round_trip : forall w n, 1 < w <= 64 -> 0 <= n < 2 ^ w ->
  exists h, huge_of_unsigned n = Ok h /\ huge_to w false h = Ok n.
Proof. exact unsigned_round_trip. Qed.
Print Assumptions C11_unsigned_round_trip.
Theorem C11_to_in_range : forall w (sg : bool) x, 1 < w -> hcanon x ->
  Z.abs (hval x) <= (if sg then 2 ^ (w - 1) - 1 else 2 ^ w - 1) -> (0 <= hval x \/ sg = true) ->
  huge_to w sg x = Ok (hval x).
Proof. exact huge_to_in_range. Qed.
Print Assumptions C11_to_in_range.
Theorem C11_negative_to_unsigned_throws : forall w x, hcanon x -> hval x < 0 ->
  huge_to w false x = Throw "The Huge is negative but U is unsigned.".
Proof. exact huge_to_negative_unsigned. Qed.
Print Assumptions C11_negative_to_unsigned_throws.
Theorem C11_too_big_throws : forall w sg x, 1 < w -> hcanon x -> (0 <= hval x \/ sg = true) ->
  2 ^ (30 * (w / 30 + 1)) <= Z.abs (hval x) -> huge_to w sg x = Throw "The Huge is too big.".
Proof. exact huge_to_too_big. Qed.
Print Assumptions C11_too_big_throws.
(** everything between is modular: the result is the only value of the type congruent to the Huge modulo 2^w.  The only
    exception is the final multiplication by -1 of the minimum of a type of 32 bits or more, which is undefined *)
Theorem C11_modular : forall w (sg : bool) x, 1 < w -> hcanon x -> (0 <= hval x \/ sg = true) -> Z.abs (hval x) < 2 ^ (30 * (w / 30 + 1)) ->
  (~ (sg = true /\ 32 <= w /\ hval x < 0 /\ Z.abs (hval x) mod 2 ^ w = 2 ^ (w - 1)) ->
    exists n, huge_to w sg x = Ok n /\ n mod 2 ^ w = hval x mod 2 ^ w /\ (if sg then - 2 ^ (w - 1) <= n < 2 ^ (w - 1) else 0 <= n < 2 ^ w)) /\
  (sg = true /\ 32 <= w /\ hval x < 0 /\ Z.abs (hval x) mod 2 ^ w = 2 ^ (w - 1) -> is_ub (huge_to w sg x) = true).
Proof.
  intros w sg x Hw Hx Hs HB. rewrite (huge_to_mod w sg x Hw Hx Hs HB).
  destruct (sg && (32 <=? w) && (hval x <? 0) && (Z.abs (hval x) mod 2 ^ w =? 2 ^ (w - 1)))%bool eqn:T.
  - rewrite !andb_true_iff, Z.leb_le, Z.ltb_lt, Z.eqb_eq in T. split; [tauto|reflexivity].
  - split.
    + intros _. eexists. split; [reflexivity|]. split; [apply cast_mod; lia|]. pose proof (cast_range w sg (hval x) ltac:(lia)) as CR. unfold ulow, umax in CR. destruct sg; lia.
    + intros (A & B & C & D). apply Z.leb_le in B. apply Z.ltb_lt in C. apply Z.eqb_eq in D. rewrite A, B, C, D in T. discriminate.
Qed.
Print Assumptions C11_modular.
Example C11_modular_ex : huge_to 32 true (mkHuge [5; 4] true) = Ok 5 /\ huge_to 16 false (mkHuge [70000] true) = Ok 4464 /\ huge_to 16 true (mkHuge [32768] false) = Ok (- 32768).
Proof. repeat split; reflexivity. Qed.
Example C11_ex : huge_to 64 true (mkHuge [1073741823; 1073741823; 7] false) = Ok (- (2 ^ 63 - 1)) /\
  huge_to 16 false (mkHuge [65535] true) = Ok 65535 /\
  huge_to 32 true (mkHuge [0; 0; 1] true) = Throw "The Huge is too big.".
Proof. repeat split; reflexivity. Qed.
(** 2^32+1 converts to 1; the minimum int is undefined both ways *)
Theorem C11_truncation_refuted : exists x, hcanon x /\ hval x = 2 ^ 32 + 1 /\ huge_to 32 true x = Ok 1.
Proof. exists (mkHuge [1; 4] true). split; [apply canonb_canon; reflexivity|split; reflexivity]. Qed.
Theorem C11_minimum_refuted : is_ub (huge_of_signed 32 (- 2 ^ 31)) = true /\
  exists h, huge_of_string (txt "-2147483648") = Ok h /\ is_ub (huge_to 32 true h) = true.
Proof. split; [reflexivity|]. exists (mkHuge [0; 2] false). split; vm_compute; reflexivity. Qed.
Print Assumptions C11_minimum_refuted.

(** ** C12 divrem *)
Theorem C12_divrem : forall x h, hcanon x -> hcanon h -> hval h <> 0 ->
  ~ (2 ^ 30 <= Z.abs (hval h) /\ Z.abs (hval h) < Z.abs (hval x) /\ (hval h | hval x)) ->
  exists q r, huge_divrem x h = Ok (q, r) /\ wf (digits q) /\ hcanon r /\
    hval q = Z.quot (hval x) (hval h) /\ hval r = Z.abs (Z.rem (hval x) (hval h)) /\
    (0 <= hval x -> hval x = hval q * hval h + hval r).
Proof. exact huge_divrem_identity. Qed.
Print Assumptions C12_divrem.
Theorem C12_negative_dividend_refuted : exists x h q r, hcanon x /\ hcanon h /\ huge_divrem x h = Ok (q, r) /\
  hval x = -7 /\ hval h = 2 /\ hval q = -3 /\ hval r = 1 /\ hval x <> hval q * hval h + hval r.
Proof.
  exists (mkHuge [7] false), (mkHuge [2] true), (mkHuge [3] false), (mkHuge [1] true).
  split; [apply canonb_canon; reflexivity|]. split; [apply canonb_canon; reflexivity|].
  repeat split; try reflexivity. vm_compute. discriminate.
Qed.
Print Assumptions C12_negative_dividend_refuted.

(** ** Histories: every program over literals with + and * that returns, returns the right canonical value,
    and it returns when every product has a factor below 2^2100. *)
Theorem C02_C05_history_sound : forall e, hlegal e -> forall h, hrun e = Ok h ->
  hcanon h /\ is_positive h = true /\ hval h = hmath e.
Proof. exact hrun_sound. Qed.
Print Assumptions C02_C05_history_sound.
Theorem C02_C05_history_returns : forall e, hlegal e -> hsmall e -> exists h, hrun e = Ok h.
Proof. exact hrun_total. Qed.
Print Assumptions C02_C05_history_returns.
Example C02_C05_history_ex :
  let e := HMul (HAdd (HText (txt "99999999999999999999")) (HInt 1)) (HMul (HInt 12345678901234567890) (HText (txt "7"))) in
  hlegal e /\ hsmall e.
Proof.
  cbv zeta. split.
  - cbn [hlegal]. split; split; try split; try discriminate; try lia; try split; try discriminate; try lia.
    all: repeat (constructor; [unfold is_dec_digit; cbn; lia|]); constructor.
  - cbn [hsmall]. repeat split; vm_compute; reflexivity.
Qed.
