(** Division, powers and comparisons of Real return. *)
From Coq Require Import ZArith Znumtheory QArith Lia Bool List String Ascii.
From Verif Require Import Base AdapterModel AdapterProofs RationalModel RationalSpec RationalProofs RationalProofs2 RealModel RealSpec RealProofs1 RealProofs2 RealProofs3 RealProofs4 Valuation RealDefSpec RealDefProofs1 RealDefProofs2 RealDefProofs3.
Import ListNotations.
Open Scope Z_scope.

Lemma pow_ge1 b e : 1 <= b -> 0 <= e -> 1 <= b ^ e.
Proof. intros B H. assert (0 < b ^ e) by (apply Z.pow_pos_nonneg; lia). lia. Qed.
Section Ret.
Context (E : env) (Hw : 1 < ew E) (FS : fac_sound E).
Let w := ew E.
(** a quotient of coprime parts under the root *)
Lemma norm_frac c A Q g p q i : 1 <= i < 2 ^ w -> 1 <= p -> 1 <= q -> 1 <= g -> A = p * g -> Q = q * g -> den c <> 0 ->
  fits w (A * Q ^ (i - 1)) -> fits w (Q ^ i) -> Z.abs (num c) * (A * Q ^ (i - 1)) < 2 ^ (w - 1) -> Z.abs (den c) * Q < 2 ^ (w - 1) -> fac_ready E (A * Q ^ (i - 1)) ->
  exists x, real_normalize E (Real i (Rat p q) c) = Ok x.
Proof.
  intros I P1 Q1 G1 EA EQ D F1 F2 L1 L2 FR. assert (PA : p <= A) by (subst A; clear - P1 G1; nia). assert (QQ : q <= Q) by (subst Q; clear - Q1 G1; nia).
  assert (Y1 : q ^ (i - 1) <= Q ^ (i - 1)) by (apply Z.pow_le_mono_l; lia). assert (Y2 : q ^ i <= Q ^ i) by (apply Z.pow_le_mono_l; lia). pose proof (pow_ge1 q (i - 1) Q1 ltac:(lia)) as Y3.
  assert (Y : p * q ^ (i - 1) <= A * Q ^ (i - 1)) by (apply Z.mul_le_mono_nonneg; lia).
  destruct (normalize_returns E Hw FS c (Rat p q) i) as (x & _ & _ & _ & X & _); cbn [num den]; try assumption; try lia.
  - unfold room, fits in *. fold w. cbn [num den]. split; [lia|]. split; [lia|]. split; [eapply Z.le_lt_trans; [|exact L1]; apply Z.mul_le_mono_nonneg_l; lia|eapply Z.le_lt_trans; [|exact L2]; apply Z.mul_le_mono_nonneg_l; lia].
  - eapply fac_ready_le; [|exact FR]. exact Y.
  - eauto.
Qed.
Lemma div_returns a b m n B : rad a = Rat m 1 -> rad b = Rat n 1 -> 1 <= m -> 1 <= n -> 1 <= idx a -> 1 <= idx b -> den (coe a) <> 0 -> den (coe b) <> 0 -> num (coe b) <> 0 -> small B (coe a) -> small B (coe b) ->
  let l := Z.lcm (idx a) (idx b) in let P := m ^ (l / idx a) in let Q := n ^ (l / idx b) in
  l <= 2 ^ 53 -> l < 2 ^ (w - 1) -> fits w (P * Q ^ (l - 1)) -> fits w (Q ^ l) -> B * B * (P * Q ^ (l - 1)) < 2 ^ (w - 1) -> B * B * Q < 2 ^ (w - 1) -> fac_ready E (P * Q ^ (l - 1)) ->
  exists x, real_div E a b = Ok x.
Proof.
  intros Ra Rb M N Ia Ib Da Db Nb Sa Sb l P Q L1 L2 F G LB LQ FR. destruct (w_pos E Hw) as [W1 W2]. fold w in W1, W2. destruct (lcm_parts (idx a) (idx b) Ia Ib) as (L & La & Lb). fold l in L, La, Lb.
  assert (B0 : 0 < B) by (destruct Sa; lia). assert (WW : 2 ^ w = 2 * 2 ^ (w - 1)) by (replace w with (1 + (w - 1)) at 1 by lia; rewrite Z.pow_add_r by (unfold w in *; lia); reflexivity).
  assert (X1 : 1 <= P) by (apply pow_ge1; lia). assert (X2 : 1 <= Q) by (apply pow_ge1; lia). pose proof (pow_ge1 Q (l - 1) X2 ltac:(lia)) as X3. pose proof (base_le Q l X2 L) as X4.
  assert (Y1 : P <= P * Q ^ (l - 1)) by (clear - X1 X3; nia). pose proof F as [F1 F2]. pose proof G as [G1 G2]. assert (NQ : n <= Q) by (unfold Q; apply base_le; lia).
  assert (BB : B * B < 2 ^ (w - 1)) by (apply (bound1 _ Q); [clear - B0; nia|lia|exact LQ]). assert (B1 : B < 2 ^ (w - 1)) by (clear - BB B0; nia).
  unfold real_div, real_inverse. fold w. destruct (inverse_ok w B (coe b) Sb Nb B1) as (ci & CI & SI). rewrite CI. cbn [bind]. rewrite Rb, unit_inverse by lia. cbn [bind].
  apply rat_inverse_exact in CI as (DI & NI & _); [|exact Db].
  unfold real_mul, ulcm, uquot. fold w. cbn [idx rad coe]. fold l. destruct (Z.ltb_spec l (2 ^ w)); [|lia]. cbn [bind]. destruct (Z.eqb_spec (idx a) 0); [lia|]. destruct (Z.eqb_spec (idx b) 0); [lia|]. cbn [bind].
  rewrite (index_ok w Hw (l / idx a)) by lia. cbn [bind]. rewrite Ra.
  destruct (rpow_ok w Hw (Rat m 1) (l / idx a)) as (p & PE & _ & _ & _ & PI & _); cbn [num den] in *; rewrite ?Z.pow_1_l by lia; fold P; try lia. rewrite PE, (PI eq_refl). clear PE PI. cbn [bind]. fold P.
  rewrite (index_ok w Hw (l / idx b)) by lia. cbn [bind].
  destruct (rpow_ok w Hw (Rat 1 n) (l / idx b)) as (q & QE & _ & _ & _ & _ & QI); cbn [num den] in *; rewrite ?Z.pow_1_l by lia; fold Q; try lia. rewrite QE, (QI eq_refl ltac:(lia)). clear QE QI. cbn [bind]. fold Q.
  destruct (mul_bound w (Rat P 1) (Rat 1 Q)) as (r & g & -> & G0 & N1 & D1); cbn [num den] in *; try lia. cbn [bind].
  destruct (mul_ok w B (coe a) ci Sa SI Da DI BB) as (c & C & S1 & S2). rewrite C. cbn [bind]. pose proof (rat_mul_exact _ _ _ _ C) as (_ & _ & D & _).
  destruct r as [rn rd]. cbn [num den] in *. assert (1 <= rn) by (clear - N1 G0 X1; nia). assert (1 <= rd) by (clear - D1 G0 X2; nia).
  apply (norm_frac c P Q g rn rd l); try assumption; try lia.
  - eapply Z.le_lt_trans; [|exact LB]. apply Z.mul_le_mono_nonneg_r; lia.
  - eapply Z.le_lt_trans; [|exact LQ]. apply Z.mul_le_mono_nonneg_r; lia.
Qed.
(** integer powers *)
Lemma rpow_small c B e : den c <> 0 -> small B c -> 1 <= e <= 2 ^ 53 -> e < 2 ^ (w - 1) -> B ^ e <= 2 ^ 53 -> B ^ e < 2 ^ (w - 1) -> exists p, rpow w c (Rat e 1) = Ok p /\ den p <> 0 /\ small (B ^ e) p.
Proof.
  intros D [S1 S2] H Hw' L1 L2. assert (A1 : Z.abs (num c ^ e) <= B ^ e) by (rewrite Z.abs_pow; apply Z.pow_le_mono_l; lia). assert (A2 : Z.abs (den c ^ e) <= B ^ e) by (rewrite Z.abs_pow; apply Z.pow_le_mono_l; lia).
  destruct (rpow_ok w Hw c e) as (p & P & P1 & P2 & P3 & _); try assumption; try lia. exists p. split; [exact P|]. split; [exact P3|]. unfold small. lia.
Qed.
Lemma pow_nonneg_returns a m B e : rad a = Rat m 1 -> 1 <= m -> 1 <= idx a < 2 ^ w -> den (coe a) <> 0 -> small B (coe a) -> 1 <= e <= 2 ^ 53 -> e < 2 ^ (w - 1) ->
  B ^ e <= 2 ^ 53 -> fits w (m ^ e) -> B ^ e * m ^ e < 2 ^ (w - 1) -> fac_ready E (m ^ e) -> exists x, real_pow E a (Rat e 1) = Ok x.
Proof.
  intros Ra M I D S He Hew L1 F L2 FR. destruct (w_pos E Hw) as [W1 W2]. fold w in W1, W2. assert (B0 : 1 <= B) by (destruct S; lia). pose proof (pow_ge1 B e B0 ltac:(lia)) as P1. pose proof (pow_ge1 m e M ltac:(lia)) as P2.
  assert (BE : B ^ e < 2 ^ (w - 1)) by (apply (bound1 _ (m ^ e)); [lia|exact P2|exact L2]). pose proof F as [F1 F2].
  unfold real_pow. cbn [real_pow_fuel]. fold w. rewrite pow_eq0, pow_eq1 by (cbn [num den]; lia). cbn [bind num den]. destruct (Z.eqb_spec e 0); [lia|]. destruct (Z.eqb_spec e 1); [eauto|].
  unfold rat_lt, rat_cmp. cbn [num den]. rewrite !chk_ok by lia. cbn [bind]. replace (e * 1 ?= 0 * 1) with Gt by (symmetry; apply Z.compare_gt_iff; lia). cbv iota.
  unfold real_pow_pos. fold w. unfold is_int. cbn [den]. change (1 =? 1) with true. cbv iota.
  destruct (rpow_small (coe a) B e D S He Hew L1 BE) as (c & -> & Dc & S1 & S2). cbn [bind]. rewrite Ra.
  destruct (rpow_ok w Hw (Rat m 1) e) as (p & PE & _ & _ & _ & PI & _); cbn [num den] in *; rewrite ?Z.pow_1_l by lia; try lia. rewrite PE, (PI eq_refl). clear PE PI. cbn [bind].
  destruct (norm_int E Hw FS c (m ^ e) (idx a)) as (x & _ & _ & _ & -> & _); try assumption; try (fold w; lia); [|eauto]. eapply Z.le_lt_trans; [|exact L2]. apply Z.mul_le_mono_nonneg_r; lia.
Qed.

Lemma negate_int e : 1 <= e < 2 ^ (w - 1) -> rat_negate w (Rat (- e) 1) = Ok (Rat e 1).
Proof.
  intros H. unfold rat_negate. cbn [num den]. rewrite chk_ok by lia. cbn [bind]. replace (- - e) with e by lia. unfold rat_make. change (1 =? 0) with false. cbv iota. fold (rat_of_int w e). apply of_int_ok; [exact Hw|lia].
Qed.
Lemma pow_neg_returns a m B e : rad a = Rat m 1 -> 1 <= m -> 1 <= idx a < 2 ^ w -> den (coe a) <> 0 -> num (coe a) <> 0 -> small B (coe a) -> 1 <= e <= 2 ^ 53 -> e < 2 ^ (w - 1) ->
  B ^ e <= 2 ^ 53 -> B ^ e < 2 ^ (w - 1) -> let Q := m ^ e in let i := idx a in fits w (Q ^ (i - 1)) -> fits w (Q ^ i) -> B ^ e * Q ^ (i - 1) < 2 ^ (w - 1) -> B ^ e * Q < 2 ^ (w - 1) -> fac_ready E (Q ^ (i - 1)) ->
  exists x, real_pow E a (Rat (- e) 1) = Ok x.
Proof.
  intros Ra M I D N S He Hew L1 BE Q i F G L2 L3 FR. destruct (w_pos E Hw) as [W1 W2]. fold w in W1, W2. assert (B0 : 1 <= B) by (destruct S; lia). pose proof (pow_ge1 B e B0 ltac:(lia)) as P1. pose proof (pow_ge1 m e M ltac:(lia)) as P2. fold Q in P2.
  pose proof (base_le Q i P2 ltac:(unfold i; lia)) as QI. pose proof (base_le m e M ltac:(lia)) as MQ. fold Q in MQ. pose proof F as [F1 F2]. pose proof G as [G1 G2]. pose proof (base_le B e B0 ltac:(lia)) as BI.
  unfold real_pow. cbn [real_pow_fuel]. fold w. rewrite !pow_eq0, !pow_eq1 by (cbn [num den]; unfold w in *; lia). cbn [bind num den]. destruct (Z.eqb_spec (- e) 0); [lia|]. destruct (Z.eqb_spec (- e) 1); [lia|].
  unfold rat_lt, rat_cmp. cbn [num den]. rewrite !chk_ok by lia. cbn [bind]. replace (- e * 1 ?= 0 * 1) with Lt by (symmetry; apply Z.compare_lt_iff; lia). cbv iota.
  unfold real_inverse. destruct (inverse_ok w B (coe a) S N ltac:(lia)) as (ci & CI & SI). rewrite CI. cbn [bind]. rewrite Ra, unit_inverse by lia. cbn [bind]. apply rat_inverse_exact in CI as (DI & _ & _); [|exact D].
  rewrite negate_int by lia. cbn [bind]. rewrite !pow_eq0, !pow_eq1 by (cbn [num den]; unfold w in *; lia). cbn [bind num den]. destruct (Z.eqb_spec e 0); [lia|]. destruct (Z.eqb_spec e 1); [eauto|].
  unfold rat_lt, rat_cmp. cbn [num den]. rewrite !chk_ok by lia. cbn [bind]. replace (e * 1 ?= 0 * 1) with Gt by (symmetry; apply Z.compare_gt_iff; lia). cbv iota.
  unfold real_pow_pos. fold w. unfold is_int. cbn [den idx rad coe]. change (1 =? 1) with true. cbv iota.
  destruct (rpow_small ci B e DI SI He Hew L1 BE) as (c & -> & Dc & S1 & S2). cbn [bind].
  destruct (rpow_ok w Hw (Rat 1 m) e) as (p & PE & _ & _ & _ & _ & PI); cbn [num den] in *; rewrite ?Z.pow_1_l by lia; fold Q; try lia. rewrite PE, (PI eq_refl ltac:(lia)). clear PE PI. cbn [bind]. fold Q. fold i.
  apply (norm_frac c 1 Q 1 1 Q i); try assumption; try (fold w; lia); rewrite ?Z.mul_1_l; try assumption.
  - eapply Z.le_lt_trans; [|exact L2]. apply Z.mul_le_mono_nonneg_r; lia.
  - eapply Z.le_lt_trans; [|exact L3]. apply Z.mul_le_mono_nonneg_r; lia.
Qed.
Lemma pow_zero_returns a : fac_ready E 1 -> exists x, real_pow E a (Rat 0 1) = Ok x.
Proof.
  intros FR. destruct (w_pos E Hw) as [W1 W2]. fold w in W1, W2. pose proof (one_w w Hw). unfold real_pow. cbn [real_pow_fuel]. fold w. rewrite !pow_eq0 by (cbn [num den]; unfold w in *; lia). cbn [bind num den]. change (0 =? 0) with true. cbv iota.
  assert (W3 : 2 ^ w = 2 * 2 ^ (w - 1)) by (replace w with (1 + (w - 1)) at 1 by lia; rewrite Z.pow_add_r by (unfold w in *; lia); reflexivity).
  unfold real_of_int. fold w. rewrite of_int_ok by (unfold w in *; lia). cbn [bind]. unfold real_make. destruct (norm_int E Hw FS (Rat 1 1) 1 1) as (x & _ & _ & _ & -> & _); cbn [num den]; fold w; try lia; [unfold fits; lia|exact FR|eauto].
Qed.
End Ret.

(** comparisons *)
Section Cmp.
Context (w : Z) (Hw : 1 < w).
Lemma real_eq_returns a b B : small B (coe a) -> small B (coe b) -> B * B < 2 ^ (w - 1) -> den (rad a) = 1 -> den (rad b) = 1 -> Z.abs (num (rad a)) < 2 ^ (w - 1) -> Z.abs (num (rad b)) < 2 ^ (w - 1) -> exists t, real_eq w a b = Ok t.
Proof.
  intros Sa Sb L Da Db Na Nb. unfold real_eq. destruct (cmp_ok w B _ _ Sa Sb L) as (_ & -> & _). cbn [bind]. destruct (negb _); [eauto|]. unfold rat_eq. rewrite Da, Db, !Z.mul_1_r, !chk_ok by lia. cbn [bind]. eauto.
Qed.
Lemma power_form_ok c m ij j B : den c <> 0 -> small B c -> 1 <= m -> 1 <= j <= ij -> ij <= 2 ^ 53 -> ij < 2 ^ (w - 1) -> B ^ ij * m ^ j <= 2 ^ 53 -> B ^ ij * m ^ j < 2 ^ (w - 1) ->
  exists x, power_form w c (Rat m 1) ij j = Ok x /\ Z.abs (num x) <= B ^ ij * m ^ j /\ Z.abs (den x) <= B ^ ij.
Proof.
  intros D S M J L1 L2 P1 P2. pose proof (one_w w Hw). assert (B0 : 1 <= B) by (destruct S; lia). pose proof (pow_ge1 B ij B0 ltac:(lia)) as Q1. pose proof (pow_ge1 m j M ltac:(lia)) as Q2.
  assert (A1 : B ^ ij <= B ^ ij * m ^ j) by (clear - Q1 Q2; nia). assert (A2 : m ^ j <= B ^ ij * m ^ j) by (clear - Q1 Q2; nia).
  unfold power_form. rewrite (index_ok w Hw ij) by lia. cbn [bind]. 
  assert (N1 : Z.abs (num c ^ ij) <= B ^ ij) by (rewrite Z.abs_pow; apply Z.pow_le_mono_l; destruct S; lia). assert (N2 : Z.abs (den c ^ ij) <= B ^ ij) by (rewrite Z.abs_pow; apply Z.pow_le_mono_l; destruct S; lia).
  destruct (rpow_ok w Hw c ij) as (x & -> & X1 & X2 & X3 & _); try assumption; try lia. cbn [bind]. rewrite (index_ok w Hw j) by lia. cbn [bind].
  destruct (rpow_ok w Hw (Rat m 1) j) as (p & PE & _ & _ & _ & PI & _); cbn [num den] in *; rewrite ?Z.pow_1_l by lia; try lia. rewrite PE, (PI eq_refl). clear PE PI. cbn [bind].
  assert (N3 : Z.abs (num x) * m ^ j <= B ^ ij * m ^ j) by (apply Z.mul_le_mono_nonneg_r; lia).
  destruct (mul_bound w x (Rat (m ^ j) 1)) as (r & g & -> & G0 & E1 & E2); cbn [num den] in *; try assumption; try lia; try (rewrite Z.abs_mul, (Z.abs_eq (m ^ j)) by lia; lia).
  exists r. split; [reflexivity|]. pose proof (abs_factor _ _ g G0 E1) as Y1. pose proof (abs_factor _ _ g G0 E2) as Y2. rewrite Z.abs_mul, (Z.abs_eq (m ^ j)) in Y1 by lia. rewrite Z.mul_1_r in Y2. clear - Y1 Y2 X1 X2 N1 N2 N3. split; lia.
Qed.
Lemma cross_ok x y X Y D : Z.abs (num x) <= X -> Z.abs (den x) <= D -> Z.abs (num y) <= Y -> Z.abs (den y) <= D -> X * D < 2 ^ (w - 1) -> Y * D < 2 ^ (w - 1) -> exists c, rat_cmp w x y = Ok c.
Proof.
  intros X1 X2 Y1 Y2 L1 L2. unfold rat_cmp. assert (Z.abs (num x * den y) <= X * D) by (rewrite Z.abs_mul; apply Z.mul_le_mono_nonneg; lia). assert (Z.abs (num y * den x) <= Y * D) by (rewrite Z.abs_mul; apply Z.mul_le_mono_nonneg; lia).
  rewrite !chk_ok by lia. cbn [bind]. eauto.
Qed.
Lemma cmp0 a : Z.abs (num a) < 2 ^ (w - 1) -> exists c, rat_cmp w a (Rat 0 1) = Ok c.
Proof. intros H. pose proof (one_w w Hw). unfold rat_cmp. cbn [num den]. rewrite !chk_ok by lia. cbn [bind]. eauto. Qed.
Lemma lt_returns a b m n B : rad a = Rat m 1 -> rad b = Rat n 1 -> 1 <= m -> 1 <= n -> 1 <= idx a -> 1 <= idx b -> den (coe a) <> 0 -> den (coe b) <> 0 -> small B (coe a) -> small B (coe b) ->
  let k := idx a * idx b in let P := m ^ idx b in let Q := n ^ idx a in
  k <= 2 ^ 53 -> k < 2 ^ (w - 1) -> B ^ k * P <= 2 ^ 53 -> B ^ k * Q <= 2 ^ 53 -> B ^ k * P * B ^ k < 2 ^ (w - 1) -> B ^ k * Q * B ^ k < 2 ^ (w - 1) ->
  (exists t, real_eq w a b = Ok t) /\ (exists t, real_lt w a b = Ok t) /\ (exists t, real_gt w a b = Ok t).
Proof.
  intros Ra Rb M N Ia Ib Da Db Sa Sb k P Q K1 K2 P1 Q1 P2 Q2. pose proof (one_w w Hw) as W. assert (B0 : 1 <= B) by (destruct Sa; lia).
  assert (Ka : idx a <= k) by (unfold k; nia). assert (Kb : idx b <= k) by (unfold k; nia). pose proof (pow_ge1 B k B0 ltac:(lia)) as B1. pose proof (pow_ge1 m (idx b) M ltac:(lia)) as PP. pose proof (pow_ge1 n (idx a) N ltac:(lia)) as QQ. fold P in PP. fold Q in QQ.
  pose proof (base_le B k B0 ltac:(lia)) as BK. pose proof (base_le m (idx b) M Ib) as MP. fold P in MP. pose proof (base_le n (idx a) N Ia) as NQ. fold Q in NQ.
  assert (P0 : B ^ k * P < 2 ^ (w - 1)) by (clear - P2 B1 PP; nia). assert (Q0 : B ^ k * Q < 2 ^ (w - 1)) by (clear - Q2 B1 QQ; nia).
  assert (BB : B * B < 2 ^ (w - 1)) by (apply Z.le_lt_trans with (B ^ k * P * B ^ k); [|exact P2]; apply Z.mul_le_mono_nonneg; try lia; clear - BK B1 PP; nia).
  assert (MW : m < 2 ^ (w - 1)) by (clear - MP P0 B1 PP; nia). assert (NW : n < 2 ^ (w - 1)) by (clear - NQ Q0 B1 QQ; nia). assert (BW : B < 2 ^ (w - 1)) by (clear - BB B0; nia).
  assert (EQ : exists t, real_eq w a b = Ok t) by (apply (real_eq_returns a b B); try assumption; rewrite ?Ra, ?Rb; cbn [num den]; try reflexivity; lia). split; [exact EQ|].
  assert (WW : 2 ^ w = 2 * 2 ^ (w - 1)) by (replace w with (1 + (w - 1)) at 1 by lia; rewrite Z.pow_add_r by lia; reflexivity).
  assert (LT : exists t, real_lt w a b = Ok t).
  { unfold real_lt. destruct EQ as ([|] & ->); cbn [bind]; [eauto|]. pose proof Sa as [SA1 SA2]. pose proof Sb as [SB1 SB2].
    destruct (cmp0 (coe a) ltac:(lia)) as (ca & CA). destruct (cmp0 (coe b) ltac:(lia)) as (cb & CB). unfold rat_le, rat_ge. rewrite CA, CB. cbn [bind].
    assert (UW : uwrap w (idx b * idx a) = k) by (unfold uwrap; rewrite Z.mul_comm; fold k; apply Z.mod_small; lia). rewrite UW.
    destruct (_ && _); [eauto|]. destruct (_ && _); [eauto|]. destruct (_ && _).
    - destruct (negate_ok w B (coe a) Sa Da BW) as (na & NA & S1). destruct (negate_ok w B (coe b) Sb Db BW) as (nb & NB & S2). rewrite NA, NB. cbn [bind]. apply rat_negate_exact in NA as [DA _]; [|exact Da]. apply rat_negate_exact in NB as [DB _]; [|exact Db]. rewrite Ra, Rb.
      destruct (power_form_ok na m k (idx b) B) as (x & -> & X1 & X2); try assumption; try lia. destruct (power_form_ok nb n k (idx a) B) as (y & -> & Y1 & Y2); try assumption; try lia. cbn [bind]. unfold rat_gt.
      destruct (cross_ok x y _ _ _ X1 X2 Y1 Y2) as (c & ->); try assumption. cbn [bind]. eauto.
    - rewrite Ra, Rb. destruct (power_form_ok (coe a) m k (idx b) B) as (x & -> & X1 & X2); try assumption; try lia. destruct (power_form_ok (coe b) n k (idx a) B) as (y & -> & Y1 & Y2); try assumption; try lia. cbn [bind]. unfold rat_lt.
      destruct (cross_ok x y _ _ _ X1 X2 Y1 Y2) as (c & ->); try assumption. cbn [bind]. eauto. }
  split; [exact LT|]. unfold real_gt. destruct LT as (t & ->). cbn [bind]. destruct t; [eauto|]. destruct EQ as (u & ->). cbn [bind]. eauto.
Qed.
End Cmp.
