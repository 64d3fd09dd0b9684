(** C65: decimal literals. *)
From Coq Require Import ZArith QArith Qreals Qabs Qpower Reals String Ascii Lia Lqa Bool List.
From Verif Require Import Base AdapterModel AdapterProofs FactorizeModel RationalModel RationalSpec RationalProofs RealModel RealSpec PolyModel PolySpec ExprModel ExprSpec ParserModel ParserSpec TextSpec
  DecModel DecSpec DecProofs1 DecProofs2 DecProofs3 DecProofs4 DecProofs5 DecProofs6 DecProofs7.
Import ListNotations.
Open Scope Z_scope.

(** ** The arithmetic of the model is that of IEEE 754: the result has at most p bits, and no number with at most p bits is nearer *)
Theorem C65_rounding p x : 1 <= p -> has_bits p (rnd p x) /\ forall y, has_bits p y -> (Qabs (x - rnd p x) <= Qabs (x - y))%Q.
Proof.
  intros Hp.
  assert (Pos : forall x, (0 < x)%Q -> has_bits p (rnd p x) /\ forall y, has_bits p y -> (Qabs (x - rnd p x) <= Qabs (x - y))%Q).
  { clear x. intros x Hx. split.
    - destruct (rnd_spec p x Hx) as (e & m & E1 & E2 & R & M0 & R1 & _). exists m, (e - p + 1). split; [|exact R].
      rewrite Z.abs_eq by exact M0. destruct (Z_le_gt_dec m (2 ^ p)) as [|C]; [assumption|exfalso].
      set (U := P2 (e - p + 1)) in *. assert (PU : (0 < U)%Q) by apply P2_pos.
      assert (B : (P2 (e + 1) == inject_Z (2 ^ p) * U)%Q) by (rewrite <- P2_nonneg by lia; unfold U; rewrite <- P2_plus; replace (p + (e - p + 1)) with (e + 1) by lia; reflexivity).
      assert (inject_Z (2 ^ p) + 1 <= inject_Z m)%Q by (change 1%Q with (inject_Z 1); rewrite <- inject_Z_plus, <- Zle_Qle; lia).
      assert ((inject_Z (2 ^ p) + 1) * U <= inject_Z m * U)%Q by (apply Qmult_le_compat_r; lra).
      pose proof (Qle_Qabs (- (x - inject_Z m * U))) as A. rewrite Qabs_opp in A. lra.
    - intros y (n & s & Hn & Ey). destruct (Z_le_gt_dec 0 n) as [Nn|Nn].
      + apply rnd_nearest_pos; [exact Hp|exact Hx|]. exists n, s. split; [lia|exact Ey].
      + apply Qle_trans with (Qabs (x - 0)).
        * apply rnd_nearest_pos; [exact Hp|exact Hx|]. exists 0, 0. split; [split; [lia|apply Z.pow_nonneg; lia]|reflexivity].
        * assert (inject_Z n <= 0)%Q by (change 0%Q with (inject_Z 0); rewrite <- Zle_Qle; lia). pose proof (P2_pos s) as Ps. unfold P2 in Ps.
          assert (y <= 0)%Q by (rewrite Ey; nra). rewrite !Qabs_pos by lra. lra. }
  destruct (Qlt_le_dec 0 x) as [H|H]; [apply Pos; exact H|].
  destruct (Qlt_le_dec x 0) as [H'|H'].
  - destruct (Pos (- x)%Q ltac:(lra)) as [(n & s & Hn & En) N]. rewrite rnd_opp in En, N. split.
    + exists (- n), s. split; [lia|]. rewrite inject_Z_opp. lra.
    + intros y (k & t & Hk & Ek). assert (HY : has_bits p (- y)) by (exists (- k), t; split; [lia|rewrite inject_Z_opp, Ek; ring]).
      specialize (N _ HY). assert (A : forall z, (Qabs (x - z) == Qabs (- x - - z))%Q) by (intros z; rewrite <- Qabs_opp; apply Qabs_wd; ring).
      rewrite (A (rnd p x)), (A y). exact N.
  - assert (E : (x == 0)%Q) by lra. rewrite (rnd_0 p x E). split.
    + exists 0, 0. split; [apply Z.pow_nonneg; lia|reflexivity].
    + intros y _. assert (Qabs (x - 0) == 0)%Q by (rewrite E; reflexivity). pose proof (Qabs_nonneg (x - y)). lra.
Qed.
Print Assumptions C65_rounding.

(** ** What a literal is read as: the number it denotes, or one unit in its last place less *)
(** with or without a minus sign; m / 10^k is the number written with as few decimal places as possible *)
Theorem C65_literal w F s i f m k : good_format F -> decimal_literal s i f -> shortest_decimal (literal_value i f) m k -> 28 * m <= 2 ^ fprec F ->
  (k <= fdig F)%nat -> 2 <= w -> (k <= int_digits10 w)%nat -> m < 2 ^ (w - 1) ->
  exists n r r', (n = m \/ n = m - 1) /\ 0 <= n /\
    rat_of_string w (dec_of w F) s = Ok r /\ lowest_terms r /\ 0 < den r /\ (qv r == n # pow10 k)%Q /\
    rat_of_string w (dec_of w F) ("-"%char :: s) = Ok r' /\ lowest_terms r' /\ 0 < den r' /\ (qv r' == - (n # pow10 k))%Q.
Proof.
  intros H1 H2 H3 H4 H5 H6 H7 H8. destruct (read_literal w F s i f m k H1 H2 H3 H4 H5 H6 H7 H8) as (n & x & r & r' & _ & _ & A & B & C). exists n, r, r'. tauto.
Qed.
Print Assumptions C65_literal.

(** ** It is exact for integers, for one decimal place, and for halves, quarters, eighths, ... *)
Theorem C65_exact w F s i f m k : good_format F -> decimal_literal s i f -> shortest_decimal (literal_value i f) m k -> 28 * m <= 2 ^ fprec F ->
  (k <= fdig F)%nat -> 2 <= w -> (k <= int_digits10 w)%nat -> m < 2 ^ (w - 1) ->
  (k <= 1)%nat \/ (5 ^ Z.of_nat k | m) ->
  exists r r', rat_of_string w (dec_of w F) s = Ok r /\ (qv r == literal_value i f)%Q /\
    rat_of_string w (dec_of w F) ("-"%char :: s) = Ok r' /\ (qv r' == - literal_value i f)%Q.
Proof.
  intros H1 H2 H3 H4 H5 H6 H7 H8 H9. destruct (read_literal w F s i f m k H1 H2 H3 H4 H5 H6 H7 H8) as (n & x & r & r' & Sx & En & _ & _ & A & _ & _ & V & A' & _ & _ & V').
  rewrite (numerator_exact F x m k H1 Sx H4 H5 H9) in En. subst n. exists r, r'. destruct H3 as (_ & E & _). rewrite E. tauto.
Qed.
Print Assumptions C65_exact.

(** ** More decimal places than T's digits10: the literal is rounded to digits10 places, to one of the nearest, and may lose one more unit *)
Theorem C65_long_literal w F s i f m k : good_format F -> decimal_literal s i f -> shortest_decimal (literal_value i f) m k -> 28 * m <= 2 ^ fprec F ->
  (k <= fdig F)%nat -> 2 <= w ->
  let d := int_digits10 w in let t := 10 ^ Z.of_nat (k - d) in
  (d < k)%nat -> 2 * m + t < 2 ^ w * t ->
  exists q n r r', 0 <= q /\ 2 * Z.abs (q * t - m) <= t /\ 0 <= n /\ (n = q \/ n = q - 1) /\
    rat_of_string w (dec_of w F) s = Ok r /\ lowest_terms r /\ 0 < den r /\ (qv r == n # pow10 d)%Q /\
    rat_of_string w (dec_of w F) ("-"%char :: s) = Ok r' /\ lowest_terms r' /\ 0 < den r' /\ (qv r' == - (n # pow10 d))%Q.
Proof. exact (read_long_literal w F s i f m k). Qed.
Print Assumptions C65_long_literal.
(** an int (9 digits), ten places *)
Example C65_example_long : decimal_literal (txt "0.3333333339") (txt "0") (txt "3333333339") /\ shortest_decimal (literal_value (txt "0") (txt "3333333339")) 3333333339 10 /\
  28 * 3333333339 <= 2 ^ fprec x87 /\ int_digits10 32 = 9%nat /\ 2 * 3333333339 + 10 < 2 ^ 32 * 10 /\
  rat_of_string 32 (dec_of 32 x87) (txt "0.3333333339") = Ok (Rat 166666667 500000000).
Proof.
  split; [|split; [|repeat split; vm_compute; (reflexivity || discriminate)]].
  - split; [reflexivity|]. split; [|discriminate]. repeat constructor; vm_compute; discriminate.
  - split; [lia|]. split; [reflexivity|]. right. discriminate.
Qed.

(** ** In an expression: the token, and the tree if the literal is the whole text *)
Theorem C65_parse P F s i f m k : reads P -> good_format F -> decimal_literal s i f -> shortest_decimal (literal_value i f) m k -> 28 * m <= 2 ^ fprec F ->
  (k <= fdig F)%nat -> (k <= int_digits10 (ew (pe P)))%nat -> m < 2 ^ (ew (pe P) - 1) ->
  exists n g, (n = m \/ n = m - 1) /\ (forall a, fv a g = IZR n / IZR (10 ^ Z.of_nat k))%R /\
    (forall next, stops (first s) next -> lexeme P (dec_of (ew (pe P)) F) s (TNum g) next) /\ parse P (dec_of (ew (pe P)) F) s = Ok (Leaf g).
Proof.
  intros HR H1 H2 H3 H4 H5 H7 H8. assert (H6 : 2 <= ew (pe P)) by (destruct HR; lia).
  destruct (read_literal _ F s i f m k H1 H2 H3 H4 H5 H6 H7 H8) as (n & x & r & r' & Sx & En & N1 & N0 & A & G & D & V & _).
  exists n, (leaf_quotient (num r) (den r)). split; [exact N1|].
  assert (EQ : num r * 10 ^ Z.of_nat k = n * den r).
  { unfold qv in V. rewrite <- pow10_value. assert (V' : (inject_Z (num r) == (n # pow10 k) * inject_Z (den r))%Q).
    { rewrite <- V. field. intros C. unfold Qeq, inject_Z in C. cbn in C. lia. }
    unfold Qeq, Qmult, inject_Z in V'. cbn [QArith_base.Qnum QArith_base.Qden] in V'. rewrite Pos.mul_1_r in V'. lia. }
  assert (T0 : 0 < 10 ^ Z.of_nat k) by (apply Z.pow_pos_nonneg; lia).
  assert (NN : 0 <= num r) by nia.
  pose proof (digits10_fits _ k H6 H7) as DF.
  assert (B : num r <= n /\ den r <= 10 ^ Z.of_nat k).
  { unfold lowest_terms in G. assert (DV : (den r | 10 ^ Z.of_nat k)).
    { apply (Z.gauss _ (num r)); [rewrite EQ; apply Z.divide_factor_r|rewrite Z.gcd_comm; exact G]. }
    destruct DV as [c Hc]. assert (0 < c) by nia. split; [|nia].
    assert (num r * c = n) by nia. nia. }
  destruct (literal_parse P HR (dec_of (ew (pe P)) F) s i f r H2 A) as [LX PA]; try lia; [exact G|].
  split; [|split; [exact LX|exact PA]].
  intros a. rewrite leaf_quotient_value by lia.
  assert (R1 : (IZR (den r) <> 0)%R) by (apply not_0_IZR; lia). assert (R2 : (IZR (10 ^ Z.of_nat k) <> 0)%R) by (apply not_0_IZR; lia).
  apply (f_equal IZR) in EQ. rewrite !mult_IZR in EQ.
  apply Rmult_eq_reg_r with (IZR (den r) * IZR (10 ^ Z.of_nat k))%R; [|apply Rmult_integral_contrapositive_currified; assumption].
  transitivity (IZR (num r) * IZR (10 ^ Z.of_nat k))%R; [field; assumption|]. rewrite EQ. field. assumption.
Qed.
Print Assumptions C65_parse.

(** ** The formats *)
Theorem C65_formats : good_format x87 /\ good_format binary64 /\ good_format binary128.
Proof. unfold good_format. cbn [fprec fdig femax femin x87 binary64 binary128]. repeat split; try lia; vm_compute; discriminate. Qed.
Print Assumptions C65_formats.

(** ** The range: a literal is refused as out of range when it is at least 2^emax or below the smallest normal number, and never from the smallest normal
    number to the largest number of the type.  (Between 2^emax and the largest number below it, and just below the smallest normal number, rounding decides.) *)
Theorem C65_out_of_range w F p dg emax emin s i f :
  In (F, p, dg, emax, emin) [(binary64, 53, 17%nat, 1024, -1022); (x87, 64, 21%nat, 16384, -16382); (binary128, 113, 36%nat, 16384, -16382)] -> decimal_literal s i f ->
  fdig F = dg /\ fprec F = p /\ forall t, t = s \/ t = "-"%char :: s ->
  ((Qpower 2 emax <= literal_value i f)%Q -> rat_of_string w (dec_of w F) t = Throw "The number is out of range.") /\
  ((0 < literal_value i f)%Q -> (literal_value i f <= inject_Z (2 ^ p - 1) * Qpower 2 (emin - p))%Q -> rat_of_string w (dec_of w F) t = Throw "The number is out of range.") /\
  ((literal_value i f == 0)%Q \/ (Qpower 2 emin <= literal_value i f)%Q /\ (literal_value i f <= inject_Z (2 ^ p - 1) * Qpower 2 (emax - p))%Q ->
     rat_of_string w (dec_of w F) t <> Throw "The number is out of range.").
Proof.
  intros I L. destruct (read_range w F s i f L) as (x & X & R1 & R2).
  assert (K : fdig F = dg /\ fprec F = p /\ femax F = emax /\ femin F = emin /\ 1 <= p).
  { cbn [In] in I. destruct I as [I|[I|[I|[]]]]; injection I as <- <- <- <- <-; cbn; repeat split; lia. }
  destruct K as (K0 & K1 & K2 & K3 & K4). split; [exact K0|]. split; [exact K1|]. rewrite <- K1 in K4. rewrite <- K1, <- K2, <- K3. intros t T.
  assert (R : rat_of_string w (dec_of w F) t = Throw range_message <-> out_of_normal_range F (rnd (fprec F) x) = true) by (destruct T as [-> | ->]; assumption). clear R1 R2. unfold range_message in R.
  rewrite <- X. fold (P2 (femax F)) (P2 (femin F)) (P2 (femin F - fprec F)) (P2 (femax F - fprec F)). rewrite R. split; [exact (range_large F x K4)|]. split; [exact (range_small F x K4)|].
  intros H C. rewrite (range_inside F x K4 H) in C. discriminate.
Qed.
Print Assumptions C65_out_of_range.
Example C65_example_range : let big := "1"%char :: repeat "0"%char 309 in let small := repeat "0"%char 307 ++ ["1"%char] in
  decimal_literal (big ++ txt ".") big [] /\ (Qpower 2 1024 <= literal_value big [])%Q /\ rat_of_string 64 (dec_of 64 binary64) (big ++ txt ".") = Throw "The number is out of range." /\
  decimal_literal (txt "." ++ small) [] small /\ (0 < literal_value [] small)%Q /\ (literal_value [] small <= inject_Z (2 ^ 53 - 1) * Qpower 2 (-1022 - 53))%Q.
Proof.
  cbv zeta. split; [split; [reflexivity|split; [|discriminate]]; apply Forall_forall; intros c H; vm_compute in H; unfold is_dec_digit; repeat (destruct H as [<-|H]; [vm_compute; split; discriminate|]); destruct H|].
  split; [vm_compute; discriminate|]. split; [vm_compute; reflexivity|].
  split; [split; [reflexivity|split; [|discriminate]]; apply Forall_forall; intros c H; vm_compute in H; unfold is_dec_digit; repeat (destruct H as [<-|H]; [vm_compute; split; discriminate|]); destruct H|].
  split; [vm_compute; reflexivity|vm_compute; discriminate].
Qed.
(** ** Hypotheses met: "0.53" and "12.50" on x86-64 *)
Example C65_example_53 : decimal_literal (txt "0.53") (txt "0") (txt "53") /\ shortest_decimal (literal_value (txt "0") (txt "53")) 53 2 /\ 28 * 53 <= 2 ^ fprec x87 /\ (2 <= fdig x87)%nat /\ (2 <= int_digits10 64)%nat /\ 53 < 2 ^ (64 - 1).
Proof.
  split; [|split; [|repeat split; try (vm_compute; discriminate); cbn; lia]].
  - split; [reflexivity|]. split; [|discriminate]. repeat constructor; vm_compute; discriminate.
  - split; [lia|]. split; [reflexivity|]. right. discriminate.
Qed.
Example C65_example_1250 : decimal_literal (txt "12.50") (txt "12") (txt "50") /\ shortest_decimal (literal_value (txt "12") (txt "50")) 125 1 /\ rat_of_string 64 (dec_of 64 x87) (txt "12.50") = Ok (Rat 25 2).
Proof.
  split; [|split; [|vm_compute; reflexivity]].
  - split; [reflexivity|]. split; [|discriminate]. repeat constructor; vm_compute; discriminate.
  - split; [lia|]. split; [reflexivity|]. right. discriminate.
Qed.
Example C65_example_dyadic : (5 ^ Z.of_nat 3 | 375) /\ rat_of_string 64 (dec_of 64 x87) (txt "-0.375") = Ok (Rat (-3) 8).
Proof. split; [exists 3; reflexivity|vm_compute; reflexivity]. Qed.

(** ** It is not exact in general: on x86-64, "0.53" is 13/25 = 0.52; with a 53-bit long double "1.15" is 1.14 *)
Theorem C65_wrong_value_refuted :
  decimal_literal (txt "0.53") (txt "0") (txt "53") /\ (literal_value (txt "0") (txt "53") == 53 # 100)%Q /\
  rat_of_string 64 (dec_of 64 x87) (txt "0.53") = Ok (Rat 13 25) /\ rat_of_string 64 (dec_of 64 binary64) (txt "1.15") = Ok (Rat 57 50).
Proof.
  split; [exact (proj1 C65_example_53)|]. split; [reflexivity|]. split; vm_compute; reflexivity.
Qed.
Print Assumptions C65_wrong_value_refuted.
(** other literals: digits beyond T's digits10 are dropped; a second dot and what follows it is dropped; too large is undefined *)
Theorem C65_other_texts_refuted :
  rat_of_string 64 (dec_of 64 x87) (txt "0.333333333333333333333") = Ok (Rat 333333333333333333 1000000000000000000) /\
  rat_of_string 64 (dec_of 64 x87) (txt "1.5.3") = Ok (Rat 3 2) /\
  rat_of_string 64 (dec_of 64 x87) (txt ".") = Throw "Invaild string." /\
  rat_of_string 64 (dec_of 64 x87) (txt "9223372036854775808.5") = Ub "signed overflow".
Proof. repeat split; vm_compute; reflexivity. Qed.
Print Assumptions C65_other_texts_refuted.
