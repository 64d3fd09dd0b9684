(** Normalisation and boundaries of a positive finite double. *)
From Coq Require Import ZArith QArith Qabs Qpower Lia Lqa Bool List.
From Verif Require Import Base DtoaTable DtoaModel DtoaSpec DtoaProofs1.
Import ListNotations.
Open Scope Z_scope.

Lemma land_bit x n : 0 <= n -> 0 <= x < 2 ^ (n + 1) -> negb (Z.land x (2 ^ n) =? 0) = (2 ^ n <=? x).
Proof.
  intros Hn Hx. assert (E : Z.land x (2 ^ n) = if Z.testbit x n then 2 ^ n else 0).
  { apply Z.bits_inj'. intros m Hm. rewrite Z.land_spec, Z.pow2_bits_eqb by assumption. destruct (Z.eqb_spec n m) as [->|Hne].
    - rewrite andb_true_r. destruct (Z.testbit x m); [now rewrite Z.pow2_bits_true|now rewrite Z.bits_0].
    - rewrite andb_false_r. destruct (Z.testbit x n); [now rewrite Z.pow2_bits_false|now rewrite Z.bits_0]. }
  rewrite E. clear E. assert (P : 0 < 2 ^ n) by (apply Z.pow_pos_nonneg; lia). rewrite Z.pow_add_r, Z.pow_1_r in Hx by lia.
  rewrite Z.testbit_odd, shr_div by assumption. destruct (Z.leb_spec (2 ^ n) x) as [L|L].
  - assert (x / 2 ^ n = 1) as -> by (symmetry; apply Z.div_unique with (r := x - 2 ^ n); lia). cbn [Z.odd]. destruct (Z.eqb_spec (2 ^ n) 0); [lia|reflexivity].
  - rewrite Z.div_small by lia. reflexivity.
Qed.
(** how far x is below n + 1 bits *)
Definition gap (n x : Z) : Z := n - Z.log2 x.
Lemma shift_up_ok n : 0 <= n < 63 -> forall fuel x e, 0 < x < 2 ^ (n + 1) -> gap n x <= Z.of_nat fuel -> shift_up fuel (2 ^ n) (Diy x e) = Ok (Diy (x * 2 ^ gap n x) (e - gap n x)).
Proof.
  intros Hn. assert (P63 : 2 ^ (n + 1) <= 2 ^ 63) by (apply Z.pow_le_mono_r; lia).
  induction fuel as [|fuel IH]; intros x e Hx Hg.
  - cbn [shift_up df]. rewrite land_bit by lia. assert (L : n <= Z.log2 x) by (unfold gap in Hg; lia). assert (Z.log2 x < n + 1) by (apply Z.log2_lt_pow2; lia).
    replace (gap n x) with 0 by (unfold gap; lia). assert (2 ^ n <= x) by (apply Z.log2_le_pow2; lia). apply Z.leb_le in H0. rewrite H0. now rewrite Z.mul_1_r, Z.sub_0_r.
  - cbn [shift_up df de]. rewrite land_bit by lia. destruct (Z.leb_spec (2 ^ n) x) as [L|L].
    + assert (n <= Z.log2 x) by (apply Z.log2_le_pow2; lia). assert (Z.log2 x < n + 1) by (apply Z.log2_lt_pow2; lia). replace (gap n x) with 0 by (unfold gap; lia). now rewrite Z.mul_1_r, Z.sub_0_r.
    + assert (Z.log2 x < n) by (apply Z.log2_lt_pow2; lia). rewrite Z.shiftl_mul_pow2, Z.pow_1_r by lia. rewrite Z.pow_add_r, Z.pow_1_r in Hx, P63 by lia. rewrite u64_id by lia.
      assert (G : gap n (x * 2) = gap n x - 1) by (unfold gap; rewrite Z.mul_comm, Z.log2_double by lia; lia).
      rewrite IH; [|rewrite Z.pow_add_r, Z.pow_1_r by lia; lia|rewrite G; lia]. rewrite G. f_equal. f_equal; [|lia].
      replace (2 ^ gap n x) with (2 * 2 ^ (gap n x - 1)); [ring|]. rewrite <- Z.pow_succ_r by (unfold gap; lia). f_equal. lia.
Qed.
Lemma gap_bound n x : 0 <= n -> 0 < x < 2 ^ (n + 1) -> 0 <= gap n x <= n /\ 2 ^ n <= x * 2 ^ gap n x < 2 ^ (n + 1).
Proof.
  intros Hn Hx. assert (Z.log2 x < n + 1) by (apply Z.log2_lt_pow2; lia). pose proof (Z.log2_nonneg x). pose proof (Z.log2_spec x ltac:(lia)) as [A B]. unfold gap. split; [lia|].
  assert (P : 0 < 2 ^ (n - Z.log2 x)) by (apply Z.pow_pos_nonneg; lia).
  split.
  - replace (2 ^ n) with (2 ^ Z.log2 x * 2 ^ (n - Z.log2 x)) by (rewrite <- Z.pow_add_r by lia; f_equal; lia). apply Z.mul_le_mono_nonneg_r; lia.
  - replace (2 ^ (n + 1)) with (2 ^ Z.succ (Z.log2 x) * 2 ^ (n - Z.log2 x)) by (rewrite <- Z.pow_add_r by lia; f_equal; lia). apply Z.mul_lt_mono_pos_r; lia.
Qed.

(** the significand and the exponent of a positive finite pattern *)
Lemma bits_ok b : finite b -> 0 < b -> exists f e, diy_of_bits b = Diy f e /\ 0 < f < 2 ^ 53 /\ -1074 <= e <= 971 /\ (f < 2 ^ 52 -> e = -1074) /\
  (dbl b == IQ f * pow2 e)%Q /\ (dbl (b + 1) == IQ (f + 1) * pow2 e)%Q /\
  ((f <> 2 ^ 52 \/ e = -1074) -> (dbl (b - 1) == IQ (f - 1) * pow2 e)%Q) /\ (f = 2 ^ 52 -> e <> -1074 -> (dbl (b - 1) == IQ (2 * f - 1) * pow2 (e - 1))%Q).
Proof.
  intros [H0 H1] Hb. unfold diy_of_bits. change significand_mask with (2 ^ 52 - 1). rewrite land_ones by lia. change hidden_bit with (2 ^ 52). change significand_size with 52.
  assert (EM : Z.shiftr (Z.land b exponent_mask) 52 = b / 2 ^ 52).
  { rewrite Z.shiftr_land. change (Z.shiftr exponent_mask 52) with (2 ^ 11 - 1). rewrite land_ones, shr_div by lia. apply Z.mod_small. split; [apply Z.div_pos; lia|apply Z.div_lt_upper_bound; lia]. }
  rewrite EM. clear EM. set (q := b / 2 ^ 52). set (m := b mod 2 ^ 52). assert (Eb : b = 2 ^ 52 * q + m) by (apply Z.div_mod; lia). assert (Hm : 0 <= m < 2 ^ 52) by (apply Z.mod_pos_bound; lia).
  assert (Hq : 0 <= q < 2047) by (unfold q; split; [apply Z.div_pos; lia|apply Z.div_lt_upper_bound; lia]).
  assert (D : forall q' m', 0 <= m' < 2 ^ 52 -> dbl (2 ^ 52 * q' + m') = if q' =? 0 then (IQ m' * pow2 (-1074))%Q else (IQ (2 ^ 52 + m') * pow2 (q' - 1075))%Q).
  { intros q' m' Hm'. unfold dbl. assert (E1 : (2 ^ 52 * q' + m') / 2 ^ 52 = q') by (symmetry; apply Z.div_unique with (r := m'); lia).
    assert (E2 : (2 ^ 52 * q' + m') mod 2 ^ 52 = m') by (symmetry; apply Z.mod_unique with (q := q'); lia). now rewrite E1, E2. }
  clearbody q m. subst b. change exponent_bias with 1075. change (min_exponent + 1) with (-1074). destruct (Z.eqb_spec q 0) as [->|Nq]; cbn [negb].
  - exists m, (-1074). repeat match goal with |- _ /\ _ => split end; try lia; try reflexivity.
    + rewrite D by assumption. reflexivity.
    + destruct (Z.eq_dec m (2 ^ 52 - 1)) as [->|N].
      * replace (2 ^ 52 * 0 + (2 ^ 52 - 1) + 1) with (2 ^ 52 * 1 + 0) by ring. rewrite D by lia. reflexivity.
      * replace (2 ^ 52 * 0 + m + 1) with (2 ^ 52 * 0 + (m + 1)) by ring. rewrite D by lia. reflexivity.
    + intros _. replace (2 ^ 52 * 0 + m - 1) with (2 ^ 52 * 0 + (m - 1)) by ring. rewrite D by lia. reflexivity.
  - exists (m + 2 ^ 52), (q - 1075). rewrite u64_id by lia. repeat match goal with |- _ /\ _ => split end; try lia; try reflexivity.
    + rewrite D by assumption. destruct (Z.eqb_spec q 0); [lia|]. rewrite Z.add_comm. reflexivity.
    + destruct (Z.eq_dec m (2 ^ 52 - 1)) as [->|N].
      * replace (2 ^ 52 * q + (2 ^ 52 - 1) + 1) with (2 ^ 52 * (q + 1) + 0) by ring. rewrite D by lia. destruct (Z.eqb_spec (q + 1) 0); [lia|]. replace (q + 1 - 1075) with (1 + (q - 1075)) by ring. rewrite pow2_add.
        change (pow2 1) with (IQ 2). rewrite Qmult_assoc, <- IQ_mul. reflexivity.
      * replace (2 ^ 52 * q + m + 1) with (2 ^ 52 * q + (m + 1)) by ring. rewrite D by lia. destruct (Z.eqb_spec q 0); [lia|]. replace (m + 2 ^ 52 + 1) with (2 ^ 52 + (m + 1)) by ring. reflexivity.
    + intros HH. destruct (Z.eq_dec m 0) as [->|N].
      * destruct HH as [HH|HH]; [lia|]. assert (q = 1) as -> by lia. replace (2 ^ 52 * 1 + 0 - 1) with (2 ^ 52 * 0 + (2 ^ 52 - 1)) by ring. rewrite D by lia. reflexivity.
      * replace (2 ^ 52 * q + m - 1) with (2 ^ 52 * q + (m - 1)) by ring. rewrite D by lia. destruct (Z.eqb_spec q 0); [lia|]. replace (m + 2 ^ 52 - 1) with (2 ^ 52 + (m - 1)) by ring. reflexivity.
    + intros HH He. assert (m = 0) as -> by lia. replace (2 ^ 52 * q + 0 - 1) with (2 ^ 52 * (q - 1) + (2 ^ 52 - 1)) by ring. rewrite D by lia. destruct (Z.eqb_spec (q - 1) 0); [lia|].
      replace (q - 1 - 1075) with (q - 1075 - 1) by ring. reflexivity.
Qed.

(** normalize and normalized_boundaries in terms of the significand f: with s the shift, the unit is 2^(e-s-11) *)
Lemma normalize_ok f e : 0 < f < 2 ^ 53 -> normalize (Diy f e) = Ok (Diy (f * 2 ^ (gap 52 f) * 2 ^ 11) (e - gap 52 f - 11)).
Proof.
  intros Hf. unfold normalize. change hidden_bit with (2 ^ 52). change (diy_size - significand_size - 1) with 11. destruct (gap_bound 52 f ltac:(lia) Hf) as [G1 G2].
  rewrite (shift_up_ok 52) by (try lia; assumption). cbn [bind df de]. unfold shl64. cbn [andb Z.leb Z.ltb Z.compare Pos.compare Pos.compare_cont]. rewrite Z.shiftl_mul_pow2 by lia. rewrite u64_id by lia. reflexivity.
Qed.
Lemma boundaries_ok f e : 0 < f < 2 ^ 53 -> normalized_boundaries (Diy f e) =
  Ok (Diy (if f =? 2 ^ 52 then (4 * f - 1) * 2 ^ 9 else (2 * f - 1) * 2 ^ (gap 52 f) * 2 ^ 10) (e - gap 52 f - 11), Diy ((2 * f + 1) * 2 ^ (gap 52 f) * 2 ^ 10) (e - gap 52 f - 11)).
Proof.
  intros Hf. unfold normalized_boundaries. cbn [df de]. rewrite !Z.shiftl_mul_pow2 by lia. rewrite (u64_id (f * 2 ^ 1)) by lia. replace (f * 2 ^ 1) with (2 * f) by ring. rewrite (u64_id (2 * f + 1)) by lia.
  destruct (gap_bound 52 f ltac:(lia) Hf) as [G1 G2]. assert (G : gap 53 (2 * f + 1) = gap 52 f) by (unfold gap; rewrite Z.log2_succ_double by lia; lia).
  assert (Hf' : 0 < 2 * f + 1 < 2 ^ (53 + 1)) by lia. destruct (gap_bound 53 (2 * f + 1) ltac:(lia) Hf') as [G3 G4]. rewrite G in *.
  unfold normalize_boundary. change (Z.shiftl hidden_bit 1) with (2 ^ 53). rewrite (shift_up_ok 53) by (try lia; rewrite ?G; try lia; assumption). rewrite G. cbn [bind df de].
  change (diy_size - significand_size - 2) with 10. unfold shl64 at 1. cbn [andb Z.leb Z.ltb Z.compare Pos.compare Pos.compare_cont]. rewrite Z.shiftl_mul_pow2 by lia. rewrite u64_id by lia. cbn [bind df de].
  change hidden_bit with (2 ^ 52). set (s := gap 52 f) in *. replace (e - 1 - s - 10) with (e - s - 11) by ring. destruct (Z.eqb_spec f (2 ^ 52)) as [E|N].
  - assert (s = 0) as -> by (unfold s; rewrite E; reflexivity). cbn [df de]. replace (f * 2 ^ 2) with (4 * f) by ring. rewrite (u64_id (4 * f)), (u64_id (4 * f - 1)) by lia. replace (e - 2 - (e - 0 - 11)) with 9 by ring.
    unfold shl64. cbn [andb Z.leb Z.ltb Z.compare Pos.compare Pos.compare_cont]. rewrite Z.shiftl_mul_pow2, u64_id by lia. reflexivity.
  - cbn [df de]. rewrite (u64_id (2 * f - 1)) by lia. replace (e - 1 - (e - s - 11)) with (s + 10) by ring. unfold shl64. replace (0 <=? s + 10) with true by (symmetry; apply Z.leb_le; lia). replace (s + 10 <? 64) with true by (symmetry; apply Z.ltb_lt; lia). cbn [andb].
    rewrite Z.shiftl_mul_pow2, Z.pow_add_r, Z.mul_assoc by lia. rewrite u64_id; [reflexivity|]. assert (0 < 2 ^ s) by (apply Z.pow_pos_nonneg; lia). assert (0 <= (2 * f - 1) * 2 ^ s) by (apply Z.mul_nonneg_nonneg; lia).
    assert ((2 * f - 1) * 2 ^ s <= (2 * f + 1) * 2 ^ s) by (apply Z.mul_le_mono_nonneg_r; lia). lia.
Qed.
