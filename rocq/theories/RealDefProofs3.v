(** The operations of Real return. *)
From Coq Require Import ZArith Znumtheory QArith Lia Bool List String Ascii.
From Verif Require Import Base AdapterModel AdapterProofs RationalModel RationalSpec RationalProofs RationalProofs2 RealModel RealSpec RealProofs1 RealProofs2 RealProofs3 RealProofs4 Valuation RealDefSpec RealDefProofs1 RealDefProofs2.
Import ListNotations.
Open Scope Z_scope.

Lemma abs_base b e : 1 <= e -> Z.abs b <= Z.abs (b ^ e).
Proof.
  intros E. rewrite Z.abs_pow. destruct (Z.eq_dec b 0) as [->|N]; [lia|]. apply base_le; lia.
Qed.
Section Ops.
Context (w : Z) (Hw : 1 < w).
Lemma one_w : 2 <= 2 ^ (w - 1). Proof. change 2 with (2 ^ 1) at 1. apply Z.pow_le_mono_r; lia. Qed.
Lemma pow_cast_ok b e : 0 <= e <= 2 ^ 53 -> Z.abs b <= 2 ^ 53 -> Z.abs (b ^ e) <= 2 ^ 53 -> Z.abs (b ^ e) < 2 ^ (w - 1) -> pow_cast w b e 1 = Ok (b ^ e).
Proof.
  intros E B P W. unfold pow_cast, fits53. change (1 =? 0) with false. cbv iota. destruct (Z.leb_spec (Z.abs e) (2 ^ 53)); [|lia]. change (Z.abs 1 <=? 2 ^ 53) with true. rewrite Z.mod_1_r, Z.div_1_r. cbn [andb Z.eqb]. rewrite dpow_ok by assumption. cbn [bind]. apply chk_ok. lia.
Qed.
(** a power of a rational *)
Lemma rpow_ok r e : den r <> 0 -> 1 <= e <= 2 ^ 53 -> e < 2 ^ (w - 1) -> Z.abs (num r ^ e) <= 2 ^ 53 -> Z.abs (den r ^ e) <= 2 ^ 53 -> Z.abs (num r ^ e) < 2 ^ (w - 1) -> Z.abs (den r ^ e) < 2 ^ (w - 1) ->
  exists p, rpow w r (Rat e 1) = Ok p /\ Z.abs (num p) <= Z.abs (num r ^ e) /\ Z.abs (den p) <= Z.abs (den r ^ e) /\ den p <> 0 /\ (den r = 1 -> p = Rat (num r ^ e) 1) /\ (num r = 1 -> 0 < den r -> p = Rat 1 (den r ^ e)).
Proof.
  intros D E Ew N1 N2 N3 N4. pose proof one_w. unfold rpow, rat_pow. rewrite pow_eq0, pow_eq1 by (cbn [num den]; lia). cbn [num den bind]. destruct (Z.eqb_spec e 0); [lia|]. cbn [bind]. destruct (Z.eqb_spec e 1) as [->|NE].
  - exists r. rewrite !Z.pow_1_r in *. split; [reflexivity|]. split; [lia|]. split; [lia|]. split; [exact D|]. destruct r as [rn rd]. cbn [num den]. split; [intros ->; reflexivity|intros -> _; reflexivity].
  - pose proof (abs_base (num r) e ltac:(lia)). pose proof (abs_base (den r) e ltac:(lia)). rewrite !pow_cast_ok by lia. cbn [bind].
    assert (DE : den r ^ e <> 0) by (apply Z.pow_nonzero; lia).
    destruct (normalize_ok w (Rat (num r ^ e) (den r ^ e))) as (p & P & A & B); cbn [num den] in *; try assumption. exists p. split; [exact P|]. split; [exact A|]. split; [exact B|].
    assert (ND : den p <> 0). { unfold rat_normalize in P. cbn [num den] in P. unfold adapter_abs in P. rewrite !chk_ok in P by lia. cbn [bind] in P. rewrite gcd_ok' in P by lia. cbn [bind] in P. rewrite Z.gcd_abs_l, Z.gcd_abs_r in P.
      assert (G : Z.gcd (num r ^ e) (den r ^ e) <> 0) by (intros Z0; apply Z.gcd_eq_0_r in Z0; contradiction). rewrite !quot_ok in P by assumption. cbn [bind] in P. pose proof (quot_exact (den r ^ e) _ G (Z.gcd_divide_r _ _)) as Q.
      destruct (Z.eqb_spec (Z.quot (den r ^ e) (Z.gcd (num r ^ e) (den r ^ e))) (-1)) as [M|M]; [apply bind_ok in P as (z & _ & P); injection P as <-; discriminate|]. injection P as <-. cbn [den]. intros Z0. rewrite Z0 in Q. lia. }
    split; [exact ND|]. split.
    + intros D1. rewrite D1, Z.pow_1_l in P by lia. fold (rat_of_int w (num r ^ e)) in P. rewrite of_int_ok in P by assumption. now injection P.
    + intros D1 D2. rewrite D1, Z.pow_1_l in P by lia. unfold rat_normalize, adapter_abs in P. cbn [num den] in P. rewrite !chk_ok in P by lia. cbn [bind] in P. rewrite gcd_ok' in P by lia. change (Z.abs 1) with 1 in P. rewrite Z.gcd_1_l in P. cbn [bind] in P. rewrite !quot_ok in P by lia. cbn [bind] in P. rewrite !Z.quot_1_r in P.
      assert (0 < den r ^ e) by (apply Z.pow_pos_nonneg; lia). destruct (Z.eqb_spec (den r ^ e) (-1)); [lia|]. now injection P.
Qed.
Lemma unit_inverse q : 1 <= q < 2 ^ (w - 1) -> rat_inverse w (Rat q 1) = Ok (Rat 1 q).
Proof.
  intros Q. unfold rat_inverse, rat_make. cbn [num den]. destruct (Z.eqb_spec q 0); [lia|]. unfold rat_normalize, adapter_abs. cbn [num den]. rewrite !chk_ok by lia. cbn [bind]. rewrite gcd_ok' by lia. change (Z.abs 1) with 1. rewrite Z.gcd_1_l. cbn [bind]. rewrite !quot_ok by lia. cbn [bind]. rewrite !Z.quot_1_r. destruct (Z.eqb_spec q (-1)); [lia|reflexivity].
Qed.
Lemma index_ok n : 0 <= n < 2 ^ (w - 1) -> rat_of_index w n = Ok (Rat n 1).
Proof. intros H. unfold rat_of_index. rewrite swrap_id by lia. apply of_int_ok; lia. Qed.
End Ops.


Lemma bound1 B m X : 0 < B -> 1 <= m -> B * m < X -> B < X.
Proof. intros. assert (B * 1 <= B * m) by (apply Z.mul_le_mono_nonneg_l; lia). lia. Qed.
Lemma lcm_parts i j : 1 <= i -> 1 <= j -> let l := Z.lcm i j in 1 <= l /\ 1 <= l / i <= l /\ 1 <= l / j <= l.
Proof.
  intros I J l. assert (L : 1 <= l) by (pose proof (Z.lcm_nonneg i j); assert (Z.lcm i j <> 0) by (intros H0; apply Z.lcm_eq_0 in H0; lia); unfold l; lia).
  assert (forall k, 1 <= k -> (k | l) -> 1 <= l / k <= l). { intros k K [q Q]. rewrite Q, Z.div_mul by lia. nia. }
  split; [exact L|]. split; apply H; try assumption; [apply Z.divide_lcm_l|apply Z.divide_lcm_r].
Qed.

Section Ret.
Context (E : env) (Hw : 1 < ew E) (FS : fac_sound E).
Let w := ew E.
Lemma fac_ready_le N M : N <= M -> fac_ready E M -> fac_ready E N.
Proof. intros L F k K. apply F. lia. Qed.
(** an integer radicand normalises *)
Lemma norm_int c m i : 1 <= i < 2 ^ w -> 1 <= m -> den c <> 0 -> fits w m -> Z.abs (num c) * m < 2 ^ (w - 1) -> Z.abs (den c) < 2 ^ (w - 1) -> fac_ready E m ->
  exists x n K k, real_normalize E (Real i (Rat m 1) c) = Ok x /\ m = n * K ^ i /\ 1 <= K /\ 1 <= n /\ rad x = Rat k 1 /\ 1 <= k <= n /\ Z.abs (num (coe x)) <= Z.abs (num c) * K /\ den (coe x) <> 0 /\ Z.abs (den (coe x)) <= Z.abs (den c).
Proof.
  intros I M D F L1 L2 FR. destruct (normalize_returns E Hw FS c (Rat m 1) i) as (x & n & K & k & A); cbn [num den] in *; try assumption; try lia.
  - unfold room. cbn [num den]. rewrite !Z.pow_1_l by lia. rewrite !Z.mul_1_r. destruct (w_pos E Hw). split; [exact F|]. split; [unfold fits; lia|]. split; assumption.
  - rewrite Z.pow_1_l, Z.mul_1_r by lia. exact FR.
  - exists x, n, K, k. rewrite Z.pow_1_l, !Z.mul_1_r in A by lia. exact A.
Qed.
(** addition of equal radicals *)
Lemma add_returns a b m B : rad a = Rat m 1 -> 1 <= m -> rad b = rad a -> idx b = idx a -> 1 <= idx a < 2 ^ w -> den (coe a) <> 0 -> den (coe b) <> 0 -> small B (coe a) -> small B (coe b) ->
  fits w m -> 2 * (B * B) * m < 2 ^ (w - 1) -> fac_ready E m ->
  exists x k, real_add E a b = Ok x /\ rad x = Rat k 1 /\ 1 <= k <= m /\ den (coe x) <> 0 /\ Z.abs (num (coe x)) * k < 2 ^ (w - 1) /\ Z.abs (den (coe x)) < 2 ^ (w - 1).
Proof.
  intros Ra M Rb Ib I Da Db Sa Sb [F1 F2] L FR. destruct (w_pos E Hw) as [W1 W2]. fold w in W1, W2. unfold real_add. fold w. assert (P : 0 < B) by (destruct Sa; lia).
  assert (EQ : is_equivalent w a b = Ok true). { unfold is_equivalent. rewrite Rb, Ra, Ib. unfold rat_eq. cbn [num den]. rewrite !chk_ok by lia. cbn [bind]. rewrite Z.eqb_refl. destruct (m * 1 =? 1 * 1); cbn [andb]; [reflexivity|]. rewrite Z.eqb_refl. destruct (idx a =? 1); reflexivity. }
  rewrite EQ. cbn [bind]. assert (BB : 2 * (B * B) < 2 ^ (w - 1)) by (apply (bound1 _ m); [clear - P; nia|lia|exact L]).
  destruct (add_ok w B (coe a) (coe b) Sa Sb Da Db BB) as (c & C & S1 & S2). rewrite C. cbn [bind]. rewrite Ra. pose proof (rat_add_exact _ _ _ _ Da Db C) as (D & _).
  assert (CM : Z.abs (num c) * m < 2 ^ (w - 1)) by (apply Z.le_lt_trans with (2 * (B * B) * m); [apply Z.mul_le_mono_nonneg_r; lia|exact L]).
  destruct (norm_int c m (idx a)) as (x & n & K & k & -> & EN & K1 & N1 & R & Hk & B1 & B2 & B3); try assumption; [split; assumption|fold w; lia|].
  exists x, k. split; [reflexivity|]. split; [exact R|]. pose proof (base_le K (idx a) K1 ltac:(lia)) as KI. assert (NK : n * K <= m) by (rewrite EN; apply Z.mul_le_mono_nonneg_l; lia). split; [clear - Hk NK K1; nia|]. split; [exact B2|]. split; [|lia].
  apply Z.le_lt_trans with (Z.abs (num c) * m); [|exact CM]. apply Z.le_trans with (Z.abs (num c) * K * k); [apply Z.mul_le_mono_nonneg_r; lia|]. rewrite <- Z.mul_assoc. apply Z.mul_le_mono_nonneg_l; [lia|]. clear - Hk NK K1 N1. nia.
Qed.
Context (FE : fac_exact E).
(** negation keeps radicand and index *)
Lemma negate_returns b m B : canonical b -> rad b = Rat m 1 -> idx b < 2 ^ w -> small B (coe b) -> fits w m -> B * m < 2 ^ (w - 1) -> fac_ready E m ->
  exists x, real_negate E b = Ok x /\ small B (coe x) /\ den (coe x) <> 0 /\ rad x = rad b /\ idx x = idx b.
Proof.
  intros CB Rb' Iw S [F1 F2] L FR. pose proof CB as (m' & Rb & M & I & D & NP & NQ & Z0). rewrite Rb in Rb'. injection Rb' as ->. destruct (w_pos E Hw) as [W1 W2]. fold w in W1, W2. assert (P : 0 < B) by (destruct S; lia). assert (BW : B < 2 ^ (w - 1)) by (apply (bound1 _ m); assumption).
  unfold real_negate. fold w. destruct (negate_ok w B (coe b) S D BW) as (c & C & S1 & S2). rewrite C. cbn [bind]. apply rat_negate_exact in C as [DC VC]; [|exact D]. unfold real_make. rewrite Rb.
  destruct (norm_int c m (idx b)) as (x & n & K & k & EX & EN & K1 & N1 & R & Hk & B1 & B2 & B3); try assumption; try (fold w; lia); [split; assumption|apply Z.le_lt_trans with (B * m); [apply Z.mul_le_mono_nonneg_r; lia|exact L]|].
  exists x. split; [exact EX|]. assert (K = 1).
  { destruct (Z.eq_dec K 1) as [|NK]; [assumption|]. exfalso. destruct (prime_divisor_exists K ltac:(lia)) as (p & PP & [q Q]). apply (NP p PP). exists (n * q ^ idx b). rewrite EN, Q, Z.pow_mul_l. ring. }
  subst K. split; [unfold small; split; lia|]. split; [exact B2|].
  assert (CC : canonical (Real (idx b) (Rat m 1) c)). { exists m. cbn [rad idx coe]. repeat split; try assumption. intros N0. apply Z0. unfold qv in VC. rewrite N0 in VC. clear - VC D. destruct (coe b) as [bn bd]. cbn [num den] in *. unfold Qeq, Qdiv, Qmult, Qinv, Qopp, inject_Z in VC. cbn in VC. destruct bd; cbn in VC; try lia; destruct (den c); cbn in VC; nia. }
  destruct (fun W => canonical_good E _ x Hw FS FE W EX) as (_ & CX & VX); [repeat split; cbn [idx rad coe num den]; try assumption; lia|].
  destruct (canonical_unique _ _ CX CC VX) as (A1 & A2 & _). cbn [rad idx] in A1, A2. auto.
Qed.
Lemma sub_returns a b m B : canonical a -> canonical b -> rad a = Rat m 1 -> rad b = rad a -> idx b = idx a -> idx a < 2 ^ w -> small B (coe a) -> small B (coe b) ->
  fits w m -> 2 * (B * B) * m < 2 ^ (w - 1) -> fac_ready E m -> exists x, real_sub E a b = Ok x.
Proof.
  intros CA CB Ra Rb Ib Iw Sa Sb F L FR. pose proof CA as (m' & Ra' & M & I & D & _). rewrite Ra in Ra'. injection Ra' as <-. assert (P : 0 < B) by (destruct Sa; lia).
  assert (BM : B * m < 2 ^ (w - 1)) by (apply Z.le_lt_trans with (2 * (B * B) * m); [apply Z.mul_le_mono_nonneg_r; nia|exact L]).
  unfold real_sub. destruct (negate_returns b m B CB) as (y & -> & Sy & Dy & Ry & Iy); try assumption; try congruence; try (rewrite Ib; assumption). cbn [bind].
  destruct (add_returns a y m B) as (s & k & S & R & Hk & D1 & D2 & D3); try assumption; try congruence; [lia|]. rewrite S. cbn [bind].
  assert (Gy : good w y). { split; [repeat split; try assumption; rewrite ?Ry, ?Rb, ?Ra, ?Iy, ?Ib; cbn [num den]; lia|]. rewrite Ry, Rb, Ra, Iy, Ib. cbn [num den]. intros I1. apply (canonical_trivial a m CA Ra I1). }
  assert (Ga : good w a). { split; [repeat split; try assumption; rewrite ?Ra; cbn [num den]; lia|]. rewrite Ra. cbn [num den]. intros I1. apply (canonical_trivial a m CA Ra I1). }
  destruct (real_add_value E a y s Hw FS FE Ga Gy S) as (([HI _] & _) & _ & _).
  destruct s as [si sr sc]. cbn [rad coe idx] in *. subst sr. destruct F as [F1 F2].
  destruct (norm_int sc k si) as (x & _ & _ & _ & -> & _); try assumption; try lia; [split; lia|eapply fac_ready_le; [|exact FR]; lia|eauto].
Qed.

(** multiplication *)
Lemma mul_ints' a b : 1 <= a -> 1 <= b -> a * b < 2 ^ (w - 1) -> rat_mul w (Rat a 1) (Rat b 1) = Ok (Rat (a * b) 1).
Proof.
  intros A B L. assert (a <= a * b) by nia. assert (b <= a * b) by nia. pose proof (one_w w Hw). unfold rat_mul. cbn [num den]. rewrite !gcd_ok' by lia. cbn [bind]. rewrite !Z.gcd_1_r.
  rewrite !quot_ok by lia. cbn [bind]. rewrite !Z.quot_1_r. rewrite !chk_ok by lia. reflexivity.
Qed.
Lemma mul_returns a b m n B : rad a = Rat m 1 -> rad b = Rat n 1 -> 1 <= m -> 1 <= n -> 1 <= idx a -> 1 <= idx b -> den (coe a) <> 0 -> den (coe b) <> 0 -> small B (coe a) -> small B (coe b) ->
  let l := Z.lcm (idx a) (idx b) in let P := m ^ (l / idx a) * n ^ (l / idx b) in
  l <= 2 ^ 53 -> l < 2 ^ (w - 1) -> fits w P -> B * B * P < 2 ^ (w - 1) -> fac_ready E P -> exists x, real_mul E a b = Ok x.
Proof.
  intros Ra Rb M N Ia Ib Da Db Sa Sb l P L1 L2 [F1 F2] LB FR. destruct (w_pos E Hw) as [W1 W2]. fold w in W1, W2. destruct (lcm_parts (idx a) (idx b) Ia Ib) as (L & La & Lb). fold l in L, La, Lb.
  assert (B0 : 0 < B) by (destruct Sa; lia). assert (WW : 2 ^ w = 2 * 2 ^ (w - 1)) by (replace w with (1 + (w - 1)) at 1 by lia; rewrite Z.pow_add_r by (unfold w in *; lia); reflexivity).
  assert (X1 : 1 <= m ^ (l / idx a)) by (assert (0 < m ^ (l / idx a)) by (apply Z.pow_pos_nonneg; lia); lia). assert (X2 : 1 <= n ^ (l / idx b)) by (assert (0 < n ^ (l / idx b)) by (apply Z.pow_pos_nonneg; lia); lia).
  assert (Y1 : m ^ (l / idx a) <= P) by (unfold P; nia). assert (Y2 : n ^ (l / idx b) <= P) by (unfold P; nia).
  unfold real_mul, ulcm, uquot. fold w. fold l. destruct (Z.ltb_spec l (2 ^ w)); [|lia]. cbn [bind]. destruct (Z.eqb_spec (idx a) 0); [lia|]. destruct (Z.eqb_spec (idx b) 0); [lia|]. cbn [bind].
  rewrite (index_ok w Hw (l / idx a)) by lia. cbn [bind]. rewrite Ra, Rb.
  destruct (rpow_ok w Hw (Rat m 1) (l / idx a)) as (p & PE & _ & _ & _ & PI & _); cbn [num den] in *; rewrite ?Z.pow_1_l by lia; try lia. rewrite PE, (PI eq_refl). clear PE PI. cbn [bind].
  rewrite (index_ok w Hw (l / idx b)) by lia. cbn [bind].
  destruct (rpow_ok w Hw (Rat n 1) (l / idx b)) as (q & QE & _ & _ & _ & QI & _); cbn [num den] in *; rewrite ?Z.pow_1_l by lia; try lia. rewrite QE, (QI eq_refl). clear QE QI. cbn [bind].
  rewrite mul_ints' by (fold P; lia). fold P. cbn [bind]. assert (BB : B * B < 2 ^ (w - 1)) by (apply (bound1 _ P); [clear - B0; nia|lia|exact LB]).
  destruct (mul_ok w B (coe a) (coe b) Sa Sb Da Db BB) as (c & C & S1 & S2). rewrite C. cbn [bind]. pose proof (rat_mul_exact _ _ _ _ C) as (_ & _ & D & _).
  destruct (norm_int c P l) as (x & _ & _ & _ & -> & _); try assumption; try lia; [split; assumption| |eauto].
  apply Z.le_lt_trans with (B * B * P); [apply Z.mul_le_mono_nonneg_r; lia|exact LB].
Qed.
End Ret.
