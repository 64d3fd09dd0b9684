(** Literals with more decimal places than T has digits. *)
From Coq Require Import ZArith QArith Qround Qabs Qpower String Ascii Lia Lqa Bool List.
From Verif Require Import Base AdapterModel AdapterProofs RationalModel RationalSpec RationalProofs ParserModel ParserSpec DecModel DecSpec DecProofs1 DecProofs2 DecProofs3 DecProofs4.
Import ListNotations.
Open Scope Z_scope.

Lemma product_near F x n j : good_format F -> 0 <= n -> (x * inject_Z (10 ^ Z.of_nat j) == inject_Z n)%Q -> 28 * n <= 2 ^ fprec F ->
  let y := rnd (fprec F) (rnd (fprec F) x * inject_Z (10 ^ Z.of_nat j)) in
  (inject_Z n - (3 # 28) <= y /\ y <= inject_Z n + (3 # 28) /\ 0 <= y)%Q.
Proof.
  intros (F1 & _ & _ & F4) N0 Ex Hn y. set (p := fprec F) in *.
  assert (T : (0 < inject_Z (10 ^ Z.of_nat j))%Q) by (change 0%Q with (inject_Z 0); rewrite <- Zlt_Qlt; apply Z.pow_pos_nonneg; lia).
  assert (N0' : (0 <= inject_Z n)%Q) by (change 0%Q with (inject_Z 0); rewrite <- Zle_Qle; lia).
  assert (xN : (0 <= x)%Q) by (apply Qnot_lt_le; intros C; assert (x * inject_Z (10 ^ Z.of_nat j) < 0)%Q by nra; lra).
  assert (vN : (0 <= rnd p x)%Q) by (apply rnd_nonneg; [assumption|lia]).
  assert (yN : (0 <= y)%Q) by (apply rnd_nonneg; [nra|lia]).
  destruct (Z.eq_dec n 0) as [->|Hm0].
  { assert (x == 0)%Q. { change (inject_Z 0) with 0%Q in Ex. apply Qmult_integral in Ex. destruct Ex as [Ex|Ex]; [exact Ex|lra]. }
    assert (E0 : rnd p x = 0%Q) by (apply rnd_0; assumption).
    assert (EY : y = 0%Q) by (unfold y; rewrite E0; apply rnd_0; ring). rewrite EY. change (inject_Z 0) with 0%Q. repeat split; lra. }
  assert (Hp : 24 <= p) by exact F1. assert (H1 : 1 <= n) by lia.
  pose proof (w_bounds p n j x Hp H1 Ex j (inject_Z (10 ^ Z.of_nat j)) (Qeq_refl _)) as [W1 W2]. unfold X in W1, W2. rewrite Ex in W1, W2.
  assert (U : (28 * (P2 (- p) * inject_Z n) <= 1)%Q) by (exact (um p n j Hp Hn)). unfold fmul in W1, W2. fold y in W1, W2. repeat split; try assumption; lra.
Qed.

Lemma trunc_near y n : 0 <= n -> (inject_Z n - (3 # 28) <= y)%Q -> (y <= inject_Z n + (3 # 28))%Q -> (0 <= y)%Q -> 0 <= ftrunc y /\ (ftrunc y = n \/ ftrunc y = n - 1).
Proof.
  intros N0 A B C. unfold ftrunc. assert (Qle_bool 0 y = true) as -> by (apply Qle_bool_iff; exact C).
  destruct (Qlt_le_dec y (inject_Z n)) as [L|L].
  - assert (Qfloor y = n - 1) as ->. { apply floor_is; unfold Z.sub; rewrite inject_Z_plus; change (inject_Z (-(1))) with (-(1))%Q; lra. }
    split; [|right; reflexivity]. assert (n <> 0); [|lia]. intros ->. change (inject_Z 0) with 0%Q in L. lra.
  - assert (Qfloor y = n) as -> by (apply floor_is; lra). split; [assumption|left; reflexivity].
Qed.

(** std::round of a nonnegative number *)
Lemma fround_near y : (0 <= y)%Q -> exists R, fround y = inject_Z R /\ 0 <= R /\ (inject_Z R - (1 # 2) <= y)%Q /\ (y <= inject_Z R + (1 # 2))%Q.
Proof.
  intros H. unfold fround. assert (Qle_bool 0 y = true) as -> by (apply Qle_bool_iff; exact H). set (R := Qfloor (y + (1 # 2))). exists R. split; [reflexivity|].
  pose proof (Qfloor_le (y + (1 # 2))) as A. pose proof (Qlt_floor (y + (1 # 2))) as B. fold R in A, B. rewrite inject_Z_plus in B. change (inject_Z 1) with 1%Q in B.
  split; [|split; lra]. assert (0 < R + 1); [|lia]. rewrite Zlt_Qlt, inject_Z_plus. change (inject_Z 1) with 1%Q. change (inject_Z 0) with 0%Q. lra.
Qed.
Lemma fround_opp y : fround (- y) = (- fround y)%Q.
Proof.
  unfold fround. destruct (Qle_bool 0 y) eqn:A, (Qle_bool 0 (- y)) eqn:B.
  - apply Qle_bool_iff in A, B. assert (E : (y == 0)%Q) by lra.
    assert (Qfloor (y + (1 # 2)) = 0) as -> by (apply floor_is; change (inject_Z 0) with 0%Q; lra).
    assert (Qfloor (- y + (1 # 2)) = 0) as -> by (apply floor_is; change (inject_Z 0) with 0%Q; lra). reflexivity.
  - rewrite Qopp_involutive. reflexivity.
  - unfold inject_Z, Qopp. cbn [QArith_base.Qnum QArith_base.Qden]. rewrite Z.opp_involutive. reflexivity.
  - assert (~ (0 <= y)%Q) by (intros C; apply Qle_bool_iff in C; congruence). assert (~ (0 <= - y)%Q) by (intros C; apply Qle_bool_iff in C; congruence).
    exfalso. destruct (Qlt_le_dec y 0); [apply H0; lra|apply H; lra].
Qed.
Lemma opp_div v d : (- v / d)%Q = (- (v / d))%Q.
Proof. unfold Qdiv. apply opp_mul. Qed.

Lemma rat_of_long_float w F x m k : good_format F -> shortest_decimal x m k -> 28 * m <= 2 ^ fprec F -> (k <= fdig F)%nat -> 2 <= w ->
  let d := int_digits10 w in let t := 10 ^ Z.of_nat (k - d) in
  (d < k)%nat -> 2 * m + t < 2 ^ w * t ->
  exists q n, 0 <= q /\ 2 * Z.abs (q * t - m) <= t /\ 0 <= n /\ (n = q \/ n = q - 1) /\ n < 2 ^ (w - 1) /\
    rat_of_float w F (rnd (fprec F) x) = rat_normalize w (Rat n (10 ^ Z.of_nat d)) /\
    rat_of_float w F (- rnd (fprec F) x) = rat_normalize w (Rat (- n) (10 ^ Z.of_nat d)).
Proof.
  intros HF S Hm Hk Hw d t Hd Hr. pose proof (places F x m k HF S Hm Hk) as PL.
  pose proof (shortest_x x m k S) as Ex. destruct S as (M0 & E & S). assert (HF' := HF). destruct HF' as (F1 & _). set (p := fprec F) in *.
  assert (H1 : 1 <= m). { destruct (Z.eq_dec m 0) as [->|]; [|lia]. destruct S; [lia|exfalso; apply H; reflexivity]. }
  assert (T10 : 10 <= t). { unfold t. change 10 with (10 ^ 1) at 1. apply Z.pow_le_mono_r; lia. }
  set (D := 10 ^ Z.of_nat d) in *. set (v := rnd p x) in *.
  pose proof (w_bounds p m k x F1 H1 Ex d (inject_Z D) (Qeq_refl _)) as [W1 W2].
  pose proof (X_rest p m k x F1 Ex d ltac:(lia)) as XR. fold t in XR.
  pose proof (X_pos p m k x H1 Ex d) as XP. set (Xd := X x d) in *.
  assert (U : (28 * (P2 (- p) * inject_Z m) <= 1)%Q) by (exact (um p m k F1 Hm)).
  fold v in W1, W2. set (y1 := fmul p v (inject_Z D)) in *.
  assert (xP : (0 < x)%Q) by (exact (x_pos p m k x H1 Ex)).
  assert (vN : (0 <= v)%Q) by (apply rnd_nonneg; [lra|lia]).
  assert (D0 : (0 < inject_Z D)%Q) by (change 0%Q with (inject_Z 0); rewrite <- Zlt_Qlt; apply Z.pow_pos_nonneg; lia).
  assert (y1N : (0 <= y1)%Q) by (apply rnd_nonneg; [nra|lia]).
  destruct (fround_near y1 y1N) as (q & Eq & Q0 & Q1 & Q2).
  assert (T0 : (10 <= inject_Z t)%Q) by (change 10%Q with (inject_Z 10); rewrite <- Zle_Qle; exact T10).
  assert (UX : (P2 (- p) * Xd * inject_Z t == P2 (- p) * inject_Z m)%Q) by (rewrite <- XR; ring).
  assert (N : 2 * Z.abs (q * t - m) <= t).
  { assert (A1 : (inject_Z q * inject_Z t <= (Xd + 3 * (P2 (- p) * Xd) + (1 # 2)) * inject_Z t)%Q) by (apply Qmult_le_compat_r; lra).
    assert (A2 : ((Xd - 3 * (P2 (- p) * Xd) - (1 # 2)) * inject_Z t <= inject_Z q * inject_Z t)%Q) by (apply Qmult_le_compat_r; lra).
    assert (B1 : (inject_Z q * inject_Z t <= inject_Z m + (3 # 28) + (1 # 2) * inject_Z t)%Q) by lra.
    assert (B2 : (inject_Z m - (3 # 28) - (1 # 2) * inject_Z t <= inject_Z q * inject_Z t)%Q) by lra.
    assert (C1 : 2 * (q * t) < 2 * m + t + 1) by (rewrite Zlt_Qlt, !inject_Z_plus, !inject_Z_mult; change (inject_Z 1) with 1%Q; change (inject_Z 2) with 2%Q; lra).
    assert (C2 : 2 * m - t - 1 < 2 * (q * t)).
    { rewrite Zlt_Qlt. unfold Z.sub. rewrite !inject_Z_plus, !inject_Z_mult, !inject_Z_opp. change (inject_Z 1) with 1%Q; change (inject_Z 2) with 2%Q. lra. }
    lia. }
  assert (QB : q < 2 ^ (w - 1)). { assert (2 ^ w = 2 * 2 ^ (w - 1)) as E2 by (rewrite <- Z.pow_succ_r by lia; f_equal; lia). rewrite E2 in Hr. nia. }
  assert (QM : 28 * q <= 2 ^ p). { assert (2 ^ 24 <= 2 ^ p) by (apply Z.pow_le_mono_r; lia). change (2 ^ 24) with 16777216 in H. nia. }
  set (x2 := (inject_Z q / inject_Z D)%Q).
  assert (Ex2 : (x2 * inject_Z D == inject_Z q)%Q) by (unfold x2; field; lra).
  destruct (product_near F x2 q d HF Q0 Ex2 QM) as (B1 & B2 & B3). fold p D in B1, B2, B3.
  destruct (trunc_near _ q Q0 B1 B2 B3) as [n0 nq].
  set (n := ftrunc (rnd p (rnd p x2 * inject_Z D))) in *.
  exists q, n. split; [exact Q0|]. split; [exact N|]. split; [exact n0|]. split; [exact nq|]. split; [lia|].
  assert (NB : (d <? k)%nat = true) by (apply Nat.ltb_lt; exact Hd).
  split.
  - unfold rat_of_float. fold p d. rewrite PL, NB, Nat.min_r by lia. fold D. unfold round_decplaces. fold D y1. rewrite Eq. unfold fdiv. fold x2. unfold fmul. fold n.
    rewrite chk_ok by lia. reflexivity.
  - unfold rat_of_float, decimal_places. fold p d. rewrite Qabs_opp_eq. unfold decimal_places in PL. fold p in PL. rewrite PL, NB, Nat.min_r by lia. fold D. unfold round_decplaces. fold D.
    unfold fmul at 2. rewrite opp_mul, rnd_opp. fold (fmul p v (inject_Z D)). fold y1. rewrite fround_opp, Eq. unfold fdiv. rewrite opp_div, rnd_opp. fold x2. unfold fmul.
    rewrite opp_mul, rnd_opp, ftrunc_opp. fold n. rewrite chk_ok by lia. reflexivity.
Qed.

Lemma read_long_literal w F s i f m k : good_format F -> decimal_literal s i f -> shortest_decimal (literal_value i f) m k -> 28 * m <= 2 ^ fprec F ->
  (k <= fdig F)%nat -> 2 <= w ->
  let d := int_digits10 w in let t := 10 ^ Z.of_nat (k - d) in
  (d < k)%nat -> 2 * m + t < 2 ^ w * t ->
  exists q n r r', 0 <= q /\ 2 * Z.abs (q * t - m) <= t /\ 0 <= n /\ (n = q \/ n = q - 1) /\
    rat_of_string w (dec_of w F) s = Ok r /\ lowest_terms r /\ 0 < den r /\ (qv r == n # pow10 d)%Q /\
    rat_of_string w (dec_of w F) ("-"%char :: s) = Ok r' /\ lowest_terms r' /\ 0 < den r' /\ (qv r' == - (n # pow10 d))%Q.
Proof.
  intros HF L S Hm Hk Hw d t Hd Hr. destruct (stold_unsigned_literal F s i f m k HF L S Hm Hk) as (x & Sx & St).
  destruct (rat_of_long_float w F x m k HF Sx Hm Hk Hw Hd Hr) as (q & n & Q0 & QN & N0 & NQ & NB & R1 & R2). fold d t in QN, R1, R2.
  exists q, n.
  pose proof (digits10_fits w d Hw (le_n _)) as DF. set (D := 10 ^ Z.of_nat d) in *. assert (D0 : 0 < D) by (apply Z.pow_pos_nonneg; lia).
  destruct (normalize_ok w (Rat n D)) as (r & E & _); cbn [num den]; try lia.
  destruct (normalize_ok w (Rat (- n) D)) as (r' & E' & _); cbn [num den]; try lia.
  exists r, r'. split; [exact Q0|]. split; [exact QN|]. split; [exact N0|]. split; [exact NQ|].
  destruct (rat_normalize_val _ _ _ E) as [V1 V2]; cbn [num den] in *; [lia|]. destruct (rat_normalize_val _ _ _ E') as [V1' V2']; cbn [num den] in *; [lia|].
  pose proof (rat_normalize_pos _ _ _ E ltac:(cbn; lia)) as P. pose proof (rat_normalize_pos _ _ _ E' ltac:(cbn; lia)) as P'.
  pose proof (rat_normalize_lowest _ _ _ E) as G. pose proof (rat_normalize_lowest _ _ _ E') as G'.
  assert (QV : forall q z, 0 < den q -> z * den q = num q * D -> (qv q == z # pow10 d)%Q).
  { intros q' z Pq Eq. unfold qv. apply Qmult_inj_r with (z := inject_Z (den q')). { intros C. unfold Qeq, inject_Z in C. cbn in C. lia. }
    transitivity (inject_Z (num q')). { field. intros C. unfold Qeq, inject_Z in C. cbn in C. lia. }
    unfold Qeq, Qmult, inject_Z. cbn [QArith_base.Qnum QArith_base.Qden]. rewrite Pos.mul_1_r, pow10_value. fold D. lia. }
  destruct (first_not_sign s i f L) as (c & s0 & Es & C1 & C2).
  assert (DI : Forall is_dec_digit i) by (destruct L as (_ & A & _); apply Forall_app in A; tauto).
  destruct (find_dot i f DI) as (a & b & FD). assert (Es' : s = i ++ ["."%char] ++ f) by (destruct L; assumption). rewrite <- Es' in FD.
  repeat match goal with |- _ /\ _ => split end.
  - unfold rat_of_string. rewrite FD. unfold dec_of, stold. rewrite Es at 1. rewrite C1, C2. rewrite St. cbn [bind]. rewrite R1, E. cbn [map_std_exn bind].
    destruct (Z.eqb_spec (den r) 0); [lia|reflexivity].
  - exact G.
  - exact P.
  - apply QV; [exact P|exact V2].
  - unfold rat_of_string. cbn [find_char]. change (Ascii.eqb "-" ".") with false. cbv iota. rewrite FD. unfold dec_of, stold. change (Ascii.eqb "-" "-") with true. cbv iota.
    rewrite St. cbn [bind]. rewrite R2, E'. cbn [map_std_exn bind]. destruct (Z.eqb_spec (den r') 0); [lia|reflexivity].
  - exact G'.
  - exact P'.
  - rewrite (QV r' (- n) P' V2'). unfold Qeq, Qopp. cbn. lia.
Qed.
