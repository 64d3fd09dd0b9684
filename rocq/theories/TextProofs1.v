(** Proofs for the text round trip: what reading a number and a symbol gives. *)
From Coq Require Import ZArith QArith Qreals Reals String Ascii Lia Lra Bool List Permutation.
From Verif Require Import Base HugeSpec AdapterModel AdapterProofs FactorizeModel RationalModel RationalSpec RationalProofs RationalProofs2 RealModel RealSpec RealProofs1 PolyModel PolySpec ExprModel ParserModel TextSpec.
Import ListNotations.
Open Scope Z_scope.

(** ** numbers without radical *)
Lemma make_one E c : 3 <= ew E -> efac E 1 = Ok [] -> Z.abs (num c) < 2 ^ (ew E - 1) -> Z.abs (den c) < 2 ^ (ew E - 1) -> real_make E c (Rat 1 1) 1 = Ok (Real 1 (Rat 1 1) c).
Proof.
  intros W F B1 B2. assert (4 <= 2 ^ (ew E - 1)) by (change 4 with (2 ^ 2); apply Z.pow_le_mono_r; lia). assert (2 <= 2 ^ (ew E - 2)) by (change 2 with (2 ^ 1) at 1; apply Z.pow_le_mono_r; lia).
  unfold real_make, real_normalize. cbv zeta. cbn [idx rad coe is_int num den Z.eqb Pos.eqb bind]. unfold decompose. destruct (Z.leb_spec 1 (2 ^ (ew E - 2))); [|lia]. rewrite F. cbn [bind decompose_loop pull_all].
  change (1 =? 1) with true. cbv iota. cbn [bind fold_left]. rewrite Z.gcd_1_l. rewrite swrap_id by lia. change (1 =? 1) with true. cbv iota. cbn [bind].
  unfold rat_eq. cbn [num den]. rewrite !Z.mul_1_r, Z.mul_0_l. repeat (rewrite chk_ok by lia; cbn [bind]). cbn [Z.eqb Pos.eqb]. now destruct (num c =? 0).
Qed.
Lemma mul_ints w a b : 3 <= w -> Z.abs a < 2 ^ (w - 1) -> Z.abs b < 2 ^ (w - 1) -> Z.abs (a * b) < 2 ^ (w - 1) -> rat_mul w (Rat a 1) (Rat b 1) = Ok (Rat (a * b) 1).
Proof.
  intros W A B C. assert (4 <= 2 ^ (w - 1)) by (change 4 with (2 ^ 2); apply Z.pow_le_mono_r; lia). unfold rat_mul. cbn [num den]. rewrite !gcd_ok' by lia. cbn [bind]. rewrite !Z.gcd_1_r.
  repeat (rewrite quot_ok by lia; cbn [bind]; rewrite ?Z.quot_1_r). rewrite chk_ok by lia. cbn [bind]. repeat (rewrite quot_ok by lia; cbn [bind]; rewrite ?Z.quot_1_r). rewrite chk_ok by lia. reflexivity.
Qed.
Section R.
  Variable P : penv.
  Hypothesis R : reads P.
  Local Notation E := (pe P).
  Local Notation w := (ew (pe P)).
  Lemma w3 : 3 <= w. Proof. apply R. Qed.
  Lemma w4 : 4 <= 2 ^ (w - 1). Proof. pose proof w3. change 4 with (2 ^ 2). apply Z.pow_le_mono_r; lia. Qed.
  Lemma make_int n : Z.abs n < 2 ^ (w - 1) -> real_make E (Rat n 1) (Rat 1 1) 1 = Ok (rint n).
  Proof. intros H. pose proof w4; pose proof w3. destruct R as (W & F & _). apply make_one; cbn [num den]; try assumption; lia. Qed.
  Lemma of_int n : Z.abs n < 2 ^ (w - 1) -> real_of_int E n = Ok (rint n).
  Proof. intros H. pose proof w3. unfold real_of_int. rewrite of_int_ok by lia. now apply make_int. Qed.
  Lemma rpow_one : rpow w (Rat 1 1) (Rat 1 1) = Ok (Rat 1 1).
  Proof. pose proof w4. pose proof w3. unfold rpow, rat_pow. rewrite pow_eq0 by (cbn [num den]; lia). cbn [bind num den Z.eqb]. rewrite pow_eq1 by (cbn [num den]; lia). reflexivity. Qed.
  Lemma mul_int a b : Z.abs a < 2 ^ (w - 1) -> Z.abs b < 2 ^ (w - 1) -> Z.abs (a * b) < 2 ^ (w - 1) -> real_mul E (rint a) (rint b) = Ok (rint (a * b)).
  Proof.
    intros A B C. pose proof w3 as W3. pose proof w4 as W4. assert (4 <= 2 ^ w) by (change 4 with (2 ^ 2); apply Z.pow_le_mono_r; lia).
    unfold real_mul. cbv zeta. cbn [idx rad coe rint]. unfold ulcm. change (Z.lcm 1 1) with 1. destruct (Z.ltb_spec 1 (2 ^ w)); [|lia]. cbn [bind]. change (uquot 1 1) with (Ok 1). cbn [bind].
    assert (I : rat_of_index w 1 = Ok (Rat 1 1)) by (unfold rat_of_index; rewrite swrap_id by lia; apply of_int_ok; lia).
    rewrite I. cbn [bind]. rewrite rpow_one. cbn [bind]. rewrite mul_ints by (assumption || lia). cbn [bind]. change (1 * 1) with 1. rewrite mul_ints by assumption. cbn [bind]. exact (make_int (a * b) C).
  Qed.
  Lemma div_int1 a : Z.abs a < 2 ^ (w - 1) -> real_div E (rint a) (rint 1) = Ok (rint a).
  Proof.
    intros A. pose proof w3 as W3. pose proof w4 as W4. unfold real_div, real_inverse. cbn [idx rad coe rint].
    assert (I : rat_inverse w (Rat 1 1) = Ok (Rat 1 1)) by (unfold rat_inverse, rat_make; cbn [num den Z.eqb]; apply (of_int_ok w 1); lia).
    rewrite I. cbn [bind]. fold (rint 1). rewrite mul_int by (rewrite ?Z.mul_1_r; lia). now rewrite Z.mul_1_r.
  Qed.
  Definition plain (m : smap) : Prop := drop_zero w m = Ok m.
  Lemma plain_nil : plain []. Proof. reflexivity. Qed.
  Lemma plain_sym k : plain [(k, Rat 1 1)].
  Proof. pose proof w3 as W3. pose proof w4 as W4. unfold plain. cbn [drop_zero]. rewrite pow_eq0 by (cbn [num den]; lia). reflexivity. Qed.
  Lemma scale_one n m : plain m -> Z.abs n < 2 ^ (w - 1) -> (c <- real_of_int E 1 ;; term_mul E (Term (rint n) m) (term_const c)) = Ok (Term (rint n) m).
  Proof.
    intros Pm Hn. pose proof w4. rewrite of_int by lia. cbn [bind]. unfold term_mul, term_const. cbn [tco syms merge_syms bind]. rewrite mul_int by (rewrite ?Z.mul_1_r; lia). rewrite Z.mul_1_r. cbn [bind]. unfold term_normalize. cbn [tco syms]. now rewrite Pm.
  Qed.
  Lemma normalize_one t : poly_normalize P [t] = Ok [t].
  Proof. unfold poly_normalize. destruct R as (_ & _ & S). now rewrite S. Qed.
  Lemma normalize_leaf n m : plain m -> Z.abs n < 2 ^ (w - 1) -> frac_normalize P (Frac [Term (rint n) m] [term_const (rint 1)]) = Ok (Frac [Term (rint n) m] [term_const (rint 1)]).
  Proof.
    intros Pm Hn. pose proof w3 as W3. pose proof w4 as W4. unfold frac_normalize. cbv zeta. cbn [fnum fden]. rewrite !normalize_one. cbn [bind].
    assert (D : forall m, dens w 1 [Term (rint n) m] = Ok 1) by (intros m'; cbn [dens tco]; change (1 * den (coe (rint n))) with 1; rewrite chk_ok by lia; reflexivity).
    assert (D1 : dens w 1 [term_const (rint 1)] = Ok 1) by (cbn [dens]; change (1 * den (coe (tco (term_const (rint 1))))) with 1; rewrite chk_ok by lia; reflexivity).
    rewrite D1. cbn [bind]. rewrite D. cbn [bind mapr]. rewrite scale_one by assumption. cbn [bind].
    assert (S1 : (c <- real_of_int E 1;; term_mul E (term_const (rint 1)) (term_const c)) = Ok (term_const (rint 1))) by (apply (scale_one 1 []); [apply plain_nil|lia]). rewrite S1. cbn [bind tco].
    assert (T : forall k, Z.abs k < 2 ^ (w - 1) -> rat_to_t w (coe (rint k)) = Ok k) by (intros k Hk; unfold rat_to_t; cbn [coe rint num den]; rewrite quot_ok by lia; now rewrite Z.quot_1_r).
    rewrite T by assumption. cbn [bind]. change (tco (term_const (rint 1))) with (rint 1). rewrite T by lia. cbn [bind]. rewrite gcd_ok' by lia. cbn [bind]. rewrite Z.gcd_1_r. cbn [gcd_outer bind]. rewrite of_int by lia. cbn [bind].
    assert (DV : forall k m, plain m -> Z.abs k < 2 ^ (w - 1) -> poly_div_to P [Term (rint k) m] (rint 1) = Ok [Term (rint k) m]).
    { intros k m' Pm' Hk. unfold poly_div_to. cbn [mapr]. unfold term_div. cbn [tco syms]. rewrite div_int1 by assumption. cbn [bind]. unfold term_normalize. cbn [tco syms]. rewrite Pm'. cbn [bind]. now rewrite normalize_one. }
    rewrite DV by assumption. cbn [bind]. unfold term_const. rewrite DV by (apply plain_nil || lia). reflexivity.
  Qed.
  Lemma poly_one_ok : poly_one P = Ok [term_const (rint 1)].
  Proof. pose proof w4. unfold poly_one. rewrite of_int by lia. cbn [bind]. apply normalize_one. Qed.
  Lemma frac_leaf n m : plain m -> Z.abs n < 2 ^ (w - 1) -> frac_of_term P (Term (rint n) m) = Ok (Frac [Term (rint n) m] [term_const (rint 1)]).
  Proof. intros Pm Hn. unfold frac_of_term, poly_make. rewrite normalize_one. cbn [bind]. unfold frac_of_poly. rewrite poly_one_ok. cbn [bind]. now apply normalize_leaf. Qed.
  Lemma read_int n : Z.abs n < 2 ^ (w - 1) -> frac_of_int P n = Ok (leaf_int n).
  Proof. intros H. unfold frac_of_int. rewrite of_int by assumption. cbn [bind]. apply frac_leaf; [apply plain_nil|assumption]. Qed.
  Lemma read_rat n : Z.abs n < 2 ^ (w - 1) -> frac_of_rat P (Rat n 1) = Ok (leaf_int n).
  Proof. intros H. unfold frac_of_rat. unfold real_of_rat. rewrite make_int by assumption. cbn [bind]. apply frac_leaf; [apply plain_nil|assumption]. Qed.
  Lemma read_sym k : frac_of_sym P k = Ok (leaf_sym k).
  Proof. pose proof w4. unfold frac_of_sym. rewrite of_int by lia. cbn [bind]. apply frac_leaf; [apply plain_sym|lia]. Qed.
End R.
(** the usual machines *)
Lemma std_reads w i128 rnd fuel junk : 3 <= w <= 64 -> (0 < fuel)%nat -> reads (PEnv (std_env w i128 rnd fuel junk) (isort w)).
Proof. intros W F. split; [exact W|]. split; [|reflexivity]. cbn. destruct fuel; [lia|]. reflexivity. Qed.
