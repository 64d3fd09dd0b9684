(** Decimal texts: std::stold and the constructor Rational(std::string). *)
From Coq Require Import ZArith QArith Qround Qabs Qpower Lqa Lia Bool List String Ascii.
From Verif Require Import Base AdapterModel AdapterProofs RationalModel RationalProofs RationalSpec ParserModel DecModel DecSpec DecProofs1 DecProofs2 DecProofs3.
Import ListNotations.
Open Scope Z_scope.

Lemma is_digit_spec c : is_digit c = true <-> is_dec_digit c.
Proof. unfold is_digit, ParserModel.in_range, is_dec_digit. rewrite andb_true_iff, !N.leb_le. lia. Qed.
Lemma span_all f s r : forallb f s = true -> match r with [] => True | c :: _ => f c = false end -> span f (s ++ r) = (s, r).
Proof.
  intros H. induction s as [|c s IH]; cbn [app span forallb] in *; intros R.
  - destruct r as [|c r]; [reflexivity|]. cbn [span]. rewrite R. reflexivity.
  - apply andb_true_iff in H as [H1 H2]. rewrite H1, (IH H2 R). reflexivity.
Qed.
Lemma digits_all s : Forall is_dec_digit s -> forallb is_digit s = true.
Proof. intros H. apply forallb_forall. intros c I. apply is_digit_spec. rewrite Forall_forall in H. auto. Qed.
Lemma dot_not_digit : is_digit "." = false. Proof. reflexivity. Qed.

Lemma scan_decimal_literal s i f : decimal_literal s i f -> scan_decimal s = (i, f, []).
Proof.
  intros (-> & D & _). apply Forall_app in D as [Di Df]. unfold scan_decimal.
  rewrite (span_all is_digit i (["."%char] ++ f)); [|apply digits_all; exact Di|reflexivity]. cbn [app].
  change (is_dot ".") with true. cbv iota. rewrite <- (app_nil_r f) at 1.
  rewrite (span_all is_digit f []); [reflexivity|apply digits_all; exact Df|exact I].
Qed.
Lemma digits_value_acc s : forall a, fold_left (fun a c => 10 * a + digit_value c) s a = a * 10 ^ Z.of_nat (List.length s) + row_value s.
Proof.
  induction s as [|c s IH]; intros a; cbn [fold_left row_value List.length]; [change (10 ^ Z.of_nat 0) with 1; lia|].
  rewrite IH. rewrite Nat2Z.inj_succ, Z.pow_succ_r by lia. unfold digit_value. ring.
Qed.
Lemma digits_value_row s : digits_value s = row_value s.
Proof. unfold digits_value. rewrite digits_value_acc. lia. Qed.
Lemma row_app a b : row_value (a ++ b) = row_value a * 10 ^ Z.of_nat (List.length b) + row_value b.
Proof.
  induction a as [|c a IH]; cbn [app row_value]; [lia|]. rewrite IH, app_length, Nat2Z.inj_add, Z.pow_add_r by lia. ring.
Qed.
Lemma row_nonneg s : Forall is_dec_digit s -> 0 <= row_value s.
Proof.
  induction 1 as [|c s H _ IH]; cbn [row_value]; [lia|]. unfold is_dec_digit in H. assert (0 < 10 ^ Z.of_nat (List.length s)) by (apply Z.pow_pos_nonneg; lia). nia.
Qed.
Lemma literal_row i f : (literal_value i f == row_value (i ++ f) # pow10 (List.length f))%Q.
Proof.
  unfold literal_value. rewrite row_app. set (d := pow10 (List.length f)). assert (Zpos d = 10 ^ Z.of_nat (List.length f)) as E by apply pow10_value. rewrite <- E.
  unfold Qeq, Qplus, inject_Z. cbn [QArith_base.Qnum QArith_base.Qden]. rewrite Pos.mul_1_l. lia.
Qed.
Lemma literal_nonneg i f : Forall is_dec_digit (i ++ f) -> (0 <= literal_value i f)%Q.
Proof. intros H. rewrite literal_row. apply row_nonneg in H. unfold Qle. cbn. lia. Qed.

(** in the normal range *)
Lemma in_normal_range F x m k : good_format F -> shortest_decimal x m k -> 28 * m <= 2 ^ fprec F -> (k <= fdig F)%nat ->
  out_of_normal_range F (rnd (fprec F) x) = false.
Proof.
  intros (F1 & F2 & F3 & F4) S Hm Hk. pose proof (shortest_x x m k S) as Ex. destruct S as (M0 & E & _). set (p := fprec F) in *.
  unfold out_of_normal_range.
  destruct (Z.eq_dec m 0) as [->|Hm0]. { rewrite rnd_0; [reflexivity|]. rewrite E. reflexivity. }
  set (T := inject_Z (10 ^ Z.of_nat k)) in *.
  assert (T0 : (1 <= T)%Q). { change 1%Q with (inject_Z 1). unfold T. rewrite <- Zle_Qle. assert (0 < 10 ^ Z.of_nat k) by (apply Z.pow_pos_nonneg; lia). lia. }
  assert (M1 : (1 <= inject_Z m)%Q) by (change 1%Q with (inject_Z 1); rewrite <- Zle_Qle; lia).
  assert (xP : (0 < x)%Q). { apply Qnot_le_lt. intros C. assert (x * T <= 0)%Q by nra. lra. }
  assert (x1 : (x <= inject_Z m)%Q) by nra.
  destruct (rnd_rel p x ltac:(lra)) as [B1 B2]. pose proof (P2_neg_small p F1) as U. pose proof (P2_pos (- p)) as U0.
  assert (ux : (P2 (- p) * x <= (1 # 1000) * x)%Q) by nra. assert (ux0 : (0 < P2 (- p) * x)%Q) by nra. set (v := rnd p x) in *.
  apply andb_false_iff. right. apply orb_false_iff. split.
  - destruct (Qle_bool (dyadic 1 (femax F)) v) eqn:L; [exfalso|reflexivity]. apply Qle_bool_iff in L. rewrite dyadic_value in L. change (inject_Z 1) with 1%Q in L. rewrite Qmult_1_l in L.
    assert (P2 p <= P2 (femax F))%Q by (apply P2_le; lia). assert (inject_Z (28 * m) <= P2 p)%Q by (rewrite P2_nonneg, <- Zle_Qle by lia; exact Hm).
    rewrite inject_Z_mult in H0. change (inject_Z 28) with 28%Q in H0. lra.
  - apply flt_false. rewrite dyadic_value. change (inject_Z 1) with 1%Q. rewrite Qmult_1_l.
    assert (L : (P2 (femin F) <= P2 (- 4 * Z.of_nat k - 1))%Q) by (apply P2_le; lia).
    assert (H2 : (P2 (- 4 * Z.of_nat k) == 2 * P2 (- 4 * Z.of_nat k - 1))%Q) by (rewrite <- P2_S; replace (- 4 * Z.of_nat k - 1 + 1) with (- 4 * Z.of_nat k) by lia; reflexivity).
    assert (T4 : (T <= P2 (4 * Z.of_nat k))%Q).
    { unfold T. rewrite P2_nonneg by lia. rewrite <- Zle_Qle. rewrite Z.pow_mul_r by lia. apply Z.pow_le_mono_l. lia. }
    pose proof (P2_inv (4 * Z.of_nat k)) as I. replace (- (4 * Z.of_nat k)) with (- 4 * Z.of_nat k) in I by lia. pose proof (P2_pos (- 4 * Z.of_nat k)) as P4.
    assert (P2 (- 4 * Z.of_nat k) <= x)%Q.
    { assert (P2 (- 4 * Z.of_nat k) * T <= 1)%Q by (rewrite <- I; apply Qmult_le_l; assumption).
      apply Qmult_le_r with (z := T); lra. }
    lra.
Qed.

Lemma stold_unsigned_literal F s i f m k : good_format F -> decimal_literal s i f -> shortest_decimal (literal_value i f) m k -> 28 * m <= 2 ^ fprec F -> (k <= fdig F)%nat ->
  exists x, shortest_decimal x m k /\ stold_unsigned F s = Ok (rnd (fprec F) x).
Proof.
  intros HF L S Hm Hk. exists (row_value (i ++ f) # pow10 (List.length f)).
  assert (S' : shortest_decimal (row_value (i ++ f) # pow10 (List.length f)) m k).
  { destruct S as (A & B & C). split; [assumption|]. split; [rewrite <- literal_row; exact B|exact C]. }
  split; [exact S'|]. unfold stold_unsigned. rewrite (scan_decimal_literal _ _ _ L). cbn [plain_rest negb].
  destruct L as (_ & _ & NE). destruct (i ++ f) as [|c r] eqn:E; [contradiction|]. rewrite digits_value_row.
  rewrite (in_normal_range F _ m k HF S' Hm Hk). reflexivity.
Qed.
Lemma first_not_sign s i f : decimal_literal s i f -> exists c r, s = c :: r /\ Ascii.eqb c "-" = false /\ Ascii.eqb c "+" = false.
Proof.
  intros (-> & D & _). destruct i as [|c i]; [exists "."%char, f; repeat split; reflexivity|]. exists c, (i ++ ["."%char] ++ f). split; [reflexivity|].
  cbn [app] in D. inversion D as [|? ? H _]; subst. unfold is_dec_digit in H.
  split; (apply Ascii.eqb_neq; intros ->; cbn in H; lia).
Qed.
Lemma find_dot i f : Forall is_dec_digit i -> exists a b, find_char "." (i ++ ["."%char] ++ f) = Some (a, b).
Proof.
  induction 1 as [|c i H _ [a [b IH]]]; cbn [app find_char] in *; [change (Ascii.eqb "." ".") with true; eauto|].
  assert (Ascii.eqb c "." = false) as -> by (apply Ascii.eqb_neq; intros ->; unfold is_dec_digit in H; cbn in H; lia). rewrite IH. eauto.
Qed.

(** the rational number that is read *)
Lemma read_literal w F s i f m k : good_format F -> decimal_literal s i f -> shortest_decimal (literal_value i f) m k -> 28 * m <= 2 ^ fprec F ->
  (k <= fdig F)%nat -> 2 <= w -> (k <= int_digits10 w)%nat -> m < 2 ^ (w - 1) ->
  exists n x r r', shortest_decimal x m k /\ n = read_numerator (fprec F) m k x /\ (n = m \/ n = m - 1) /\ 0 <= n /\
    rat_of_string w (dec_of w F) s = Ok r /\ lowest_terms r /\ 0 < den r /\ (qv r == n # pow10 k)%Q /\
    rat_of_string w (dec_of w F) ("-"%char :: s) = Ok r' /\ lowest_terms r' /\ 0 < den r' /\ (qv r' == - (n # pow10 k))%Q.
Proof.
  intros HF L S Hm Hk Hw Hd Hr. destruct (stold_unsigned_literal F s i f m k HF L S Hm Hk) as (x & Sx & St).
  destruct (rat_of_nonneg_float w F x m k HF Sx Hm Hk Hw Hd Hr) as (R1 & R2 & N1 & N2).
  exists (read_numerator (fprec F) m k x), x. set (n := read_numerator (fprec F) m k x) in *.
  pose proof (digits10_fits w k Hw Hd) as DF. set (D := 10 ^ Z.of_nat k) in *. assert (D0 : 0 < D) by (apply Z.pow_pos_nonneg; lia).
  destruct (normalize_ok w (Rat n D)) as (r & E & _); cbn [num den]; try lia.
  destruct (normalize_ok w (Rat (- n) D)) as (r' & E' & _); cbn [num den]; try lia.
  exists r, r'. split; [exact Sx|]. split; [reflexivity|]. split; [lia|]. split; [lia|].
  destruct (rat_normalize_val _ _ _ E) as [V1 V2]; cbn [num den] in *; [lia|]. destruct (rat_normalize_val _ _ _ E') as [V1' V2']; cbn [num den] in *; [lia|].
  pose proof (rat_normalize_pos _ _ _ E ltac:(cbn; lia)) as P. pose proof (rat_normalize_pos _ _ _ E' ltac:(cbn; lia)) as P'.
  pose proof (rat_normalize_lowest _ _ _ E) as G. pose proof (rat_normalize_lowest _ _ _ E') as G'.
  assert (QV : forall q z, 0 < den q -> z * den q = num q * D -> (qv q == z # pow10 k)%Q).
  { intros q z Pq Eq. unfold qv. apply Qmult_inj_r with (z := inject_Z (den q)). { intros C. unfold Qeq, inject_Z in C. cbn in C. lia. }
    transitivity (inject_Z (num q)). { field. intros C. unfold Qeq, inject_Z in C. cbn in C. lia. }
    unfold Qeq, Qmult, inject_Z. cbn [QArith_base.Qnum QArith_base.Qden]. rewrite Pos.mul_1_r, pow10_value. fold D. lia. }
  destruct (first_not_sign s i f L) as (c & s0 & Es & C1 & C2).
  assert (DI : Forall is_dec_digit i) by (destruct L as (_ & A & _); apply Forall_app in A; tauto).
  destruct (find_dot i f DI) as (a & b & FD). assert (Es' : s = i ++ ["."%char] ++ f) by (destruct L; assumption). rewrite <- Es' in FD.
  repeat match goal with |- _ /\ _ => split end.
  - unfold rat_of_string. rewrite FD. unfold dec_of, stold. rewrite Es at 1. rewrite C1, C2. rewrite St. cbn [bind]. rewrite R1, E. cbn [map_std_exn bind].
    destruct (Z.eqb_spec (den r) 0); [lia|reflexivity].
  - exact G.
  - exact P.
  - apply QV; [exact P|exact V2].
  - unfold rat_of_string. cbn [find_char]. change (Ascii.eqb "-" ".") with false. cbv iota. rewrite FD. unfold dec_of, stold. change (Ascii.eqb "-" "-") with true. cbv iota.
    rewrite St. cbn [bind]. rewrite R2, E'. cbn [map_std_exn bind]. destruct (Z.eqb_spec (den r') 0); [lia|reflexivity].
  - exact G'.
  - exact P'.
  - rewrite (QV r' (- n) P' V2'). unfold Qeq, Qopp. cbn. lia.
Qed.
