(** C90: Rational from any text with a dot (num.hpp 127-159 through std::stold).
    Vocabulary (StoldSpec.v): [number_text t i f ex e], t is written with the digits i, a dot, the digits f and the exponent text ex for e;
    [number_value i f e] is i.f * 10^e; [ends_here] the text after it does not continue it; [blank], [sign_text]; [begins_number],
    [spelled] (in upper or lower case).  DecSpec.v: [shortest_decimal x m k] says x = m / 10^k with k least; [good_format] holds of the
    machine's formats.  [rat_of_text w F] is Rational<T>(text) for a T of w bits and long double format F. *)
From Coq Require Import ZArith QArith Qabs Qpower Lqa Lia Bool List String Ascii.
From Verif Require Import Base AdapterModel RationalModel RationalSpec ParserModel DecModel DecSpec DecProofs1 DecProofs4 DecProofs7 DecProps StoldModel StoldSpec StoldProofs1 StoldProofs2 StoldProofs3.
Import ListNotations. Open Scope Z_scope.
Local Definition txt : string -> list ascii := list_ascii_of_string.
Local Definition read (s : string) : res rat := rat_of_text 64 x87 (txt s).

(** ** whitespace before a number and text after it are ignored *)
Theorem C90_ignored w F sp sg t i f ex e rest : Forall blank sp -> sign_text sg -> number_text t i f ex e -> ends_here t ex rest -> In "."%char (t ++ rest) ->
  rat_of_text w F (sp ++ sg ++ t ++ rest) = rat_of_text w F (sg ++ i ++ ["."%char] ++ f ++ ex).
Proof.
  intros B S T R I. pose proof T as (_ & D & NE & X). assert (T' : number_text (i ++ ["."%char] ++ f ++ ex) i f ex e) by (split; [now left|auto]).
  rewrite (text_reads w F _ _ _ _ _ _ _ _ B S T R I).
  set (t' := i ++ ["."%char] ++ f ++ ex) in *. symmetry. rewrite <- (app_nil_r t') at 1. apply (text_reads w F [] sg t' i f ex e [] (Forall_nil _) S T' Logic.I).
  rewrite app_nil_r. unfold t'. apply in_or_app. right. now left.
Qed.
Print Assumptions C90_ignored.

(** ** the value: +-n / 10^k with n = m or n = m - 1, and n = m for integers, tenths and sums of powers of 1/2 *)
Theorem C90_value w F sp sg t i f ex e rest m k : good_format F -> Forall blank sp -> sign_text sg -> number_text t i f ex e -> ends_here t ex rest -> In "."%char (t ++ rest) ->
  shortest_decimal (number_value i f e) m k -> 28 * m <= 2 ^ fprec F -> (k <= fdig F)%nat -> 2 <= w -> (k <= int_digits10 w)%nat -> m < 2 ^ (w - 1) ->
  exists n r, (n = m \/ n = m - 1) /\ 0 <= n /\ ((k <= 1)%nat \/ (5 ^ Z.of_nat k | m) -> n = m) /\
    rat_of_text w F (sp ++ sg ++ t ++ rest) = Ok r /\ lowest_terms r /\ 0 < den r /\ (qv r == (if list_eq_dec ascii_dec sg ["-"%char] then - n else n) # pow10 k)%Q.
Proof. exact (text_value w F sp sg t i f ex e rest m k). Qed.
Print Assumptions C90_value.
(** an exponent that makes it an integer: exact *)
Theorem C90_integer w F i f ex e m : good_format F -> number_text (i ++ ["."%char] ++ f ++ ex) i f ex e -> 0 <= m -> (number_value i f e == inject_Z m)%Q -> 28 * m <= 2 ^ fprec F -> 2 <= w -> m < 2 ^ (w - 1) ->
  rat_of_text w F (i ++ ["."%char] ++ f ++ ex) = Ok (Rat m 1).
Proof.
  intros HF T M0 V Hm Hw Hr. assert (S : shortest_decimal (number_value i f e) m 0) by (split; [assumption|]; split; [exact V|now left]).
  destruct (C90_value w F [] [] _ i f ex e [] m 0 HF (Forall_nil _) (or_introl eq_refl) T I) as (n & r & _ & _ & N & E & L & P & Q); try assumption; try lia.
  - rewrite app_nil_r. apply in_or_app. right. now left.
  - rewrite app_nil_r in E. cbn [app] in E. etransitivity; [exact E|]. rewrite (N (or_introl (Nat.le_0_l 1))) in Q. cbn in Q. f_equal. destruct r as [a b]. cbn [num den] in *. unfold qv in Q. cbn [num den] in Q.
    assert (X : a = m * b). { apply inject_Z_injective. rewrite inject_Z_mult. assert (Y : ~ inject_Z b == 0) by (intros C; unfold Qeq, inject_Z in C; cbn in C; lia). transitivity (inject_Z a / inject_Z b * inject_Z b)%Q; [field; exact Y|]. rewrite Q. reflexivity. }
    unfold lowest_terms in L. cbn [num den] in L. subst a. rewrite Z.gcd_comm, (Z.mul_comm m), Z.gcd_mul_diag_l in L by lia. subst b. f_equal. lia.
Qed.
Print Assumptions C90_integer.
(** a magnitude of 2^emax or more is reported *)
Theorem C90_out_of_range w F sp sg t i f ex e rest : 1 <= fprec F -> Forall blank sp -> sign_text sg -> number_text t i f ex e -> ends_here t ex rest -> In "."%char (t ++ rest) ->
  (Qpower 2 (femax F) <= number_value i f e)%Q \/ ((0 < number_value i f e)%Q /\ (number_value i f e <= inject_Z (2 ^ fprec F - 1) * Qpower 2 (femin F - fprec F))%Q) ->
  rat_of_text w F (sp ++ sg ++ t ++ rest) = Throw "The number is out of range.".
Proof.
  intros Hp B S T R I V. rewrite (text_reads w F _ _ _ _ _ _ _ _ B S T R I). unfold read_value. pose proof (scale10_value i f e) as EV. destruct V as [V|[V1 V2]].
  - rewrite range_large; [reflexivity|exact Hp|]. rewrite EV. exact V.
  - rewrite range_small; [reflexivity|exact Hp|rewrite EV; exact V1|rewrite EV; exact V2].
Qed.
Print Assumptions C90_out_of_range.

(** ** hexadecimal numbers (h / 16^k * 2^e), with the same value; magnitudes of 2^emax and more are reported *)
Theorem C90_hexadecimal w F sp sg t h k ex e rest m d : good_format F -> Forall blank sp -> sign_text sg -> hex_text t h k ex e -> hex_ends ex rest ->
  shortest_decimal (hex_value h k e) m d -> 28 * m <= 2 ^ fprec F -> (d <= fdig F)%nat -> 2 <= w -> (d <= int_digits10 w)%nat -> m < 2 ^ (w - 1) ->
  exists n r, (n = m \/ n = m - 1) /\ 0 <= n /\ ((d <= 1)%nat \/ (5 ^ Z.of_nat d | m) -> n = m) /\
    rat_of_text w F (sp ++ sg ++ t ++ rest) = Ok r /\ lowest_terms r /\ 0 < den r /\ (qv r == (if list_eq_dec ascii_dec sg ["-"%char] then - n else n) # pow10 d)%Q.
Proof. exact (hex_text_value w F sp sg t h k ex e rest m d). Qed.
Print Assumptions C90_hexadecimal.
Theorem C90_hexadecimal_large w F sp sg t h k ex e rest : good_format F -> Forall blank sp -> sign_text sg -> hex_text t h k ex e -> hex_ends ex rest ->
  (Qpower 2 (femax F) <= hex_value h k e)%Q -> rat_of_text w F (sp ++ sg ++ t ++ rest) = Throw "The number is out of range.".
Proof. intros (A & B & C & _). apply hex_large; lia. Qed.
Print Assumptions C90_hexadecimal_large.
Example C90_hexadecimal_large_example : read "0x1.p16384" = Throw "The number is out of range."%string /\ exists r, read "0x.8p63" = Ok r /\ r = Rat (2 ^ 62) 1.
Proof. split; [vm_compute; reflexivity|]. eexists. split; [vm_compute; reflexivity|reflexivity]. Qed.
Example C90_hyp_hex : hex_text (txt "0xA.8p-1") 168 1 (txt "p-1") (-1) /\ shortest_decimal (hex_value 168 1 (-1)) 525 2 /\ (5 ^ 2 | 525) /\ read "-0xA.8p-1z" = Ok (Rat (-21) 4).
Proof.
  split; [|split; [split; [lia|split; [vm_compute; reflexivity|right; discriminate]]|split; [exists 21; reflexivity|vm_compute; reflexivity]]].
  exists "x"%char, (txt "A"), (txt "8"). split; [now left|]. split; [reflexivity|]. split; [discriminate|]. split; [|split; [reflexivity|]].
  - apply (hex_snoc (txt "A") 10 "8"%char 8); [apply (hex_snoc [] 0 "A"%char 10); [constructor|]|]; unfold hex_digit; cbn; lia.
  - right. exists "p"%char, ["-"%char], (txt "1"). split; [reflexivity|]. split; [now left|]. split; [repeat constructor; vm_compute; discriminate|]. split; [discriminate|]. right. split; reflexivity.
Qed.

(** ** texts of digits and dots: the same as in C65 *)
Theorem C90_agrees w F s : rat_of_string w (dec_of w F) s <> Ub "stold: not modelled" -> rat_of_text w F s = rat_of_string w (dec_of w F) s.
Proof.
  unfold rat_of_text, rat_of_string. destruct (find_char "." s) as [p|]; [|reflexivity]. intros N. rewrite dec_agrees; [reflexivity|]. intros X. apply N. rewrite X. reflexivity.
Qed.
Print Assumptions C90_agrees.

(** ** exactly the texts that begin with no number are refused as invalid; infinities and nan are converted to an integer, which is undefined *)
Theorem C90_invalid w F sp sg u : Forall blank sp -> sign_text sg -> In "."%char u -> (sg = [] -> match u with [] => True | c :: _ => ~ blank c /\ c <> "-"%char /\ c <> "+"%char end) ->
  rat_of_text w F (sp ++ sg ++ u) = Throw "Invaild string." <-> ~ begins_number u /\ ~ spelled (txt "inf") u /\ ~ spelled (txt "nan") u.
Proof. exact (text_invalid w F sp sg u). Qed.
Print Assumptions C90_invalid.
Theorem C90_not_finite_refuted w F s r : In s ["inf"; "nan"]%string -> In "."%char r -> exists why, rat_of_text w F (txt s ++ r) = Ub why.
Proof.
  intros S I. destruct (find_dot_in (txt s ++ r)) as [p E]; [apply in_or_app; now right|]. unfold rat_of_text, rat_of_string. rewrite E. eexists. destruct S as [<- |[<- |[]]]; reflexivity.
Qed.
Print Assumptions C90_not_finite_refuted.

(** ** refutation: a fraction whose denominator has a dot is read as its numerator *)
Theorem C90_slash_refuted w F a b : good_format F -> Forall is_dec_digit a -> a <> [] -> In "."%char b -> 28 * row_value a <= 2 ^ fprec F -> 2 <= w -> row_value a < 2 ^ (w - 1) ->
  rat_of_text w F (a ++ "/"%char :: b) = Ok (Rat (row_value a) 1).
Proof.
  intros HF D NE Ib Hm Hw Hr. assert (X : exponent_text [] 0) by (left; split; reflexivity).
  assert (T : number_text a a [] [] 0). { split; [right; split; [reflexivity|now rewrite app_nil_r]|]. rewrite app_nil_r. auto. }
  pose proof (C90_ignored w F [] [] a a [] [] 0 ("/"%char :: b) (Forall_nil _) (or_introl eq_refl) T) as K. cbn [app] in K. rewrite K.
  - change (["."%char]) with (["."%char] ++ [] ++ []). apply (C90_integer w F a [] [] 0); try assumption; [split; [left; reflexivity|rewrite app_nil_r; auto]| |].
    + apply row_nonneg, D.
    + unfold number_value, literal_value. cbn. unfold Qeq, Qmult, Qplus, inject_Z. cbn. ring.
  - cbn. split; [unfold is_dec_digit; cbn; lia|]. intros _. repeat split; discriminate.
  - apply in_or_app. right. now right.
Qed.
Print Assumptions C90_slash_refuted.
(** such texts, and the exponent that counts only if there is a dot somewhere *)
Theorem C90_texts_refuted :
  read "1/2.5" = Ok (Rat 1 1) /\ read "1.5/2" = Ok (Rat 3 2) /\ read "1/2" = Ok (Rat 1 2) /\ read "12abc." = Ok (Rat 12 1) /\
  read "1e3" = Ok (Rat 1 1) /\ read "1.e3" = Ok (Rat 1000 1) /\ read "1e3." = Ok (Rat 1000 1) /\ read "0x1.8" = Ok (Rat 3 2) /\ read ".inf" = Throw "Invaild string."%string.
Proof. vm_compute. repeat split. Qed.

(** ** the hypotheses are met *)
Example C90_hyp : number_text (txt "1.25e2") (txt "1") (txt "25") (txt "e2") 2 /\ ends_here (txt "1.25e2") (txt "e2") (txt "/7.") /\ shortest_decimal (number_value (txt "1") (txt "25") 2) 125 0 /\
  good_format x87 /\ rat_of_text 64 x87 (txt "  -1.25e2/7.") = Ok (Rat (-125) 1).
Proof.
  split; [|split; [|split; [|split; [apply C65_formats|vm_compute; reflexivity]]]].
  - split; [left; reflexivity|]. split; [repeat constructor; vm_compute; discriminate|]. split; [discriminate|]. right. exists "e"%char, [], (txt "2"). split; [reflexivity|]. split; [now left|]. split; [repeat constructor; vm_compute; discriminate|]. split; [discriminate|]. left. split; [now left|reflexivity].
  - split; [unfold is_dec_digit; cbn; lia|discriminate].
  - split; [lia|]. split; [vm_compute; reflexivity|now left].
Qed.
Example C90_hyp_invalid : In "."%char (txt "e.5") /\ ~ begins_number (txt "e.5") /\ read "e.5" = Throw "Invaild string."%string /\ read " +.5" = Ok (Rat 1 2).
Proof.
  split; [right; now left|]. split; [|vm_compute; auto]. intros [(c & r & E & D)|(c & r & E & D)]; [injection E as <- _; revert D; unfold is_dec_digit; cbn; lia|discriminate].
Qed.
