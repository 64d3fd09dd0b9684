(** Lemmas: division by one digit, shifts, Knuth algorithm D. *)
From Coq Require Import ZArith String Ascii Lia Bool List.
From Verif Require Import Base HugeModel HugeSpec HugeProofs1 HugeProofs2.
Import ListNotations.
Open Scope Z_scope.

Lemma BB : BASE * BASE = 1152921504606846976. Proof. reflexivity. Qed.
Lemma p32 : 2 ^ 32 = 4294967296. Proof. reflexivity. Qed.
Lemma p64 : 2 ^ 64 = 18446744073709551616. Proof. reflexivity. Qed.

(** ** one-digit divisor *)
Lemma divrem_by1_loop_spec b c : 0 < b < BASE -> wf c ->
  wf (fst (divrem_by1_loop b c)) /\ length (fst (divrem_by1_loop b c)) = length c /\
  0 <= snd (divrem_by1_loop b c) < b /\
  dval c = dval (fst (divrem_by1_loop b c)) * b + snd (divrem_by1_loop b c).
Proof.
  intros Hb. induction c as [|x c IH]; intros Hc; cbn [divrem_by1_loop].
  - cbn [fst snd length dval]. repeat split; try apply wf_nil; lia.
  - apply wf_cons in Hc. destruct Hc as [Hx Hc]. specialize (IH Hc).
    destruct (divrem_by1_loop b c) as [qs r]. cbn [fst snd] in *.
    destruct IH as (I1 & I2 & I3 & I4).
    rewrite shiftl_SHIFT.
    assert (Bd : 0 <= r * BASE < 2 ^ 64) by (rewrite p64; rewrite BASE_val in *; lia).
    rewrite (u64_small _ Bd), lor_BASE by assumption.
    assert (Bq : 0 <= (r * BASE + x) / b < BASE).
    { split; [apply Z.div_pos; [rewrite BASE_val in *; lia|lia]|]. apply Z.div_lt_upper_bound; [lia|]. nia. }
    pose proof (Z.mod_pos_bound (r * BASE + x) b ltac:(lia)) as Bm.
    pose proof (Z.div_mod (r * BASE + x) b ltac:(lia)) as DM.
    rewrite !u32_small by (rewrite p32; rewrite BASE_val in *; lia).
    repeat split; try lia; [apply wf_cons; auto|cbn [length]; lia|].
    rewrite !dval_cons, I4. nia.
Qed.

Lemma rem_by1_loop_spec y x : 0 < y < BASE -> wf x -> rem_by1_loop y x = dval x mod y.
Proof.
  intros Hy. induction x as [|a x IH]; intros Hx; cbn [rem_by1_loop].
  - symmetry. apply Z.mod_0_l. lia.
  - apply wf_cons in Hx. destruct Hx as [Ha Hx]. rewrite IH by assumption. rewrite shiftl_SHIFT.
    pose proof (Z.mod_pos_bound (dval x) y ltac:(lia)) as Bm.
    assert (Bd : 0 <= dval x mod y * BASE < 2 ^ 64) by (rewrite p64; rewrite BASE_val in *; lia).
    rewrite (u64_small _ Bd), lor_BASE by assumption.
    rewrite dval_cons. rewrite Z.add_comm, (Z.mul_comm BASE).
    rewrite Zplus_mod, Zmult_mod_idemp_l, <- Zplus_mod. reflexivity.
Qed.

Definition one_digit (r : Z) : list Z := if r =? 0 then [] else [r].
Lemma one_digit_spec r : 0 <= r < BASE -> canon (one_digit r) /\ dval (one_digit r) = r.
Proof.
  intros Hr. unfold one_digit. destruct (Z.eqb_spec r 0) as [->|N].
  - split; [apply canon_nil|reflexivity].
  - split; [|cbn [dval]; lia]. split; [apply wf_cons; split; [assumption|apply wf_nil]|cbn; auto].
Qed.

Lemma digits_divrem_by1_spec c b : 0 < b < BASE -> wf c ->
  exists q r, digits_divrem_by1 c b = Ok (q, r) /\ wf q /\ length q = length c /\ canon r /\
    dval q = dval c / b /\ dval r = dval c mod b.
Proof.
  intros Hb Hc. unfold digits_divrem_by1. destruct (Z.eqb_spec b 0); [lia|].
  pose proof (divrem_by1_loop_spec b c Hb Hc) as S. destruct (divrem_by1_loop b c) as [q r]. cbn [fst snd] in S.
  destruct S as (S1 & S2 & S3 & S4).
  destruct (one_digit_spec r) as [O1 O2]; [rewrite BASE_val in *; lia|].
  exists q, (one_digit r). split; [reflexivity|]. rewrite O2.
  repeat split; try assumption; try apply O1.
  - apply Z.div_unique with r; lia.
  - apply Z.mod_unique with (dval q); lia.
Qed.

Lemma digits_rem_by1_spec c b : 0 < b < BASE -> wf c ->
  exists r, digits_rem_by1 c b = Ok r /\ canon r /\ dval r = dval c mod b.
Proof.
  intros Hb Hc. unfold digits_rem_by1. destruct (Z.eqb_spec b 0); [lia|].
  rewrite rem_by1_loop_spec by assumption.
  pose proof (Z.mod_pos_bound (dval c) b ltac:(lia)).
  rewrite u32_small by (rewrite p32; rewrite BASE_val in *; lia).
  destruct (one_digit_spec (dval c mod b)) as [O1 O2]; [rewrite BASE_val in *; lia|].
  exists (one_digit (dval c mod b)). auto.
Qed.

(** ** shifts *)
Lemma left_shift_spec d : 0 <= d < 30 -> forall a carry, wf a -> 0 <= carry < 2 ^ d ->
  wf (fst (left_shift_loop d carry a)) /\ length (fst (left_shift_loop d carry a)) = length a /\
  0 <= snd (left_shift_loop d carry a) < 2 ^ d /\
  dval (fst (left_shift_loop d carry a)) + BASE ^ Z.of_nat (length a) * snd (left_shift_loop d carry a)
    = dval a * 2 ^ d + carry.
Proof.
  intros Hd. induction a as [|x a IH]; intros carry Ha Hc; cbn [left_shift_loop].
  - cbn [fst snd length dval]. change (Z.of_nat 0) with 0. rewrite Z.pow_0_r.
    repeat split; try apply wf_nil; lia.
  - apply wf_cons in Ha. destruct Ha as [Hx Ha].
    assert (P : 0 < 2 ^ d < BASE) by (split; [apply Z.pow_pos_nonneg; lia|apply Z.pow_lt_mono_r; lia]).
    rewrite Z.shiftl_mul_pow2 by lia.
    assert (Bx : 0 <= x * 2 ^ d < BASE * 2 ^ d) by nia.
    assert (BP : BASE * 2 ^ d < BASE * BASE) by nia. rewrite BB in BP.
    rewrite (u64_small (x * 2 ^ d)) by (rewrite p64; lia).
    rewrite lor_shiftl_add by lia. set (acc := x * 2 ^ d + carry).
    assert (Bacc : 0 <= acc < BASE * 2 ^ d) by (unfold acc; nia).
    rewrite land_MASK, shiftr_SHIFT.
    assert (E1 : u32 acc mod BASE = acc mod BASE).
    { unfold u32, BASE. rewrite <- Znumtheory.Zmod_div_mod; try reflexivity. exists 4. reflexivity. }
    rewrite E1.
    assert (Bc : 0 <= acc / BASE < 2 ^ d).
    { split; [apply Z.div_pos; [lia|reflexivity]|apply Z.div_lt_upper_bound; [reflexivity|lia]]. }
    rewrite (u32_small (acc / BASE)) by (rewrite p32; rewrite BASE_val in *; lia).
    specialize (IH (acc / BASE) Ha Bc). destruct (left_shift_loop d (acc / BASE) a) as [zs cf]. cbn [fst snd] in *.
    destruct IH as (I1 & I2 & I3 & I4).
    pose proof (Z.mod_pos_bound acc BASE ltac:(reflexivity)).
    pose proof (Z.div_mod acc BASE ltac:(discriminate)).
    repeat split; try lia; [apply wf_cons; auto|cbn [length]; lia|].
    cbn [length]. rewrite Nat2Z.inj_succ, Z.pow_succ_r by lia. rewrite !dval_cons.
    unfold acc in *. nia.
Qed.

Lemma land_ones' x d : 0 <= d -> Z.land x (2 ^ d - 1) = x mod 2 ^ d.
Proof. intros. rewrite <- Z.land_ones by lia. rewrite Z.ones_equiv. rewrite Z.sub_1_r. reflexivity. Qed.

Lemma right_shift_loop_spec d : 0 <= d < 30 -> forall a, wf a ->
  wf (fst (right_shift_loop d (2 ^ d - 1) a)) /\ length (fst (right_shift_loop d (2 ^ d - 1) a)) = length a /\
  0 <= snd (right_shift_loop d (2 ^ d - 1) a) < 2 ^ d /\
  dval a = dval (fst (right_shift_loop d (2 ^ d - 1) a)) * 2 ^ d + snd (right_shift_loop d (2 ^ d - 1) a).
Proof.
  intros Hd. assert (P : 0 < 2 ^ d < BASE) by (split; [apply Z.pow_pos_nonneg; lia|apply Z.pow_lt_mono_r; lia]).
  induction a as [|x a IH]; intros Ha; cbn [right_shift_loop].
  - cbn [fst snd length dval]. repeat split; try apply wf_nil; lia.
  - apply wf_cons in Ha. destruct Ha as [Hx Ha]. specialize (IH Ha).
    destruct (right_shift_loop d (2 ^ d - 1) a) as [zs c]. cbn [fst snd] in *.
    destruct IH as (I1 & I2 & I3 & I4).
    rewrite shiftl_SHIFT. assert (0 <= c * BASE < 2 ^ 64) by (rewrite p64; rewrite BASE_val in *; lia).
    rewrite (u64_small (c * BASE)) by assumption. rewrite lor_BASE by assumption.
    set (acc := c * BASE + x).
    assert (Bacc : 0 <= acc < BASE * 2 ^ d) by (unfold acc; nia).
    rewrite Z.shiftr_div_pow2 by lia. rewrite land_ones' by lia.
    assert (E1 : u32 acc mod 2 ^ d = acc mod 2 ^ d).
    { unfold u32. rewrite <- Znumtheory.Zmod_div_mod; try lia.
      exists (2 ^ (32 - d)). rewrite <- Z.pow_add_r by lia. f_equal. lia. }
    rewrite E1.
    assert (Bq : 0 <= acc / 2 ^ d < BASE).
    { split; [apply Z.div_pos; lia|apply Z.div_lt_upper_bound; lia]. }
    rewrite u32_small by (rewrite p32; rewrite BASE_val in *; lia).
    pose proof (Z.mod_pos_bound acc (2 ^ d) ltac:(lia)).
    pose proof (Z.div_mod acc (2 ^ d) ltac:(lia)).
    repeat split; try lia; [apply wf_cons; auto|cbn [length]; lia|].
    rewrite !dval_cons, I4. unfold acc in *. nia.
Qed.

Lemma digits_right_shift_spec d v n : 0 <= d < 30 -> wf v -> (n <= length v)%nat ->
  wf (fst (digits_right_shift v n d)) /\ length (fst (digits_right_shift v n d)) = n /\
  dval (fst (digits_right_shift v n d)) = dval (firstn n v) / 2 ^ d.
Proof.
  intros Hd Hv Hn. unfold digits_right_shift.
  assert (P : 0 < 2 ^ d < BASE) by (split; [apply Z.pow_pos_nonneg; lia|apply Z.pow_lt_mono_r; lia]).
  assert (E : u32 (u32 (Z.shiftl 1 d) - 1) = 2 ^ d - 1).
  { rewrite Z.shiftl_mul_pow2 by lia. rewrite Z.mul_1_l.
    rewrite (u32_small (2 ^ d)) by (rewrite p32; rewrite BASE_val in *; lia).
    apply u32_small. rewrite p32; rewrite BASE_val in *; lia. }
  rewrite E. destruct (right_shift_loop_spec d Hd (firstn n v) (wf_firstn _ _ Hv)) as (R1 & R2 & R3 & R4).
  rewrite R2, firstn_length_le by lia. repeat split; auto.
  apply Z.div_unique with (snd (right_shift_loop d (2 ^ d - 1) (firstn n v))); lia.
Qed.

(** ** quotient digit estimate *)
(** [U] = dividend window, [W] = divisor; [U'],[W'] their top three / two digits. *)
Lemma qcorrect_spec P W U wm1 wm2 wl vtop v1 v0 ul : forall fuel q r,
  0 < P -> BASE / 2 <= wm1 < BASE -> 0 <= wm2 < BASE -> 0 <= wl < P ->
  0 <= vtop < BASE -> 0 <= v1 < BASE -> 0 <= v0 < BASE -> 0 <= ul < P ->
  W = (wm1 * BASE + wm2) * P + wl ->
  U = ((vtop * BASE + v1) * BASE + v0) * P + ul ->
  U < BASE * W ->
  vtop * BASE + v1 = q * wm1 + r -> 0 <= r < BASE -> 0 <= q <= BASE + 1 -> U < (q + 1) * W ->
  BASE <= r + Z.of_nat fuel * wm1 ->
  exists q', qcorrect fuel wm1 wm2 v0 q r = Ok q' /\ 0 <= q' <= BASE /\ (q' - 1) * W <= U < (q' + 1) * W.
Proof.
  induction fuel as [|fuel IH]; intros q r HP H1 H2 H3 H4 H5 H6 H7 EW EU HU Eq Hr Hq HQ HF.
  - lia.
  - cbn [qcorrect]. rewrite shiftl_SHIFT.
    assert (HB : BASE = 1073741824) by reflexivity.
    assert (B1 : 0 <= wm2 * q <= (BASE - 1) * (BASE + 1)) by nia.
    rewrite (u64_small (wm2 * q)) by (rewrite p64; rewrite HB in B1; lia).
    rewrite (u64_small (r * BASE)) by (rewrite p64; rewrite HB in *; lia).
    rewrite lor_BASE by assumption.
    set (W' := wm1 * BASE + wm2) in *.
    set (U' := (vtop * BASE + v1) * BASE + v0) in *.
    assert (HW' : BASE * BASE <= 2 * W').
    { unfold W'. assert (BASE / 2 = 536870912) by reflexivity. rewrite HB in *. lia. }
    assert (HWP : W' * P <= W < (W' + 1) * P) by (rewrite EW; lia).
    assert (HUP : U' * P <= U < (U' + 1) * P) by (rewrite EU; lia).
    assert (HU' : U' <= BASE * W' + BASE - 1).
    { assert (U' * P < BASE * ((W' + 1) * P)) by (apply Z.le_lt_trans with U; [lia|]; apply Z.lt_trans with (BASE * W); [lia|nia]).
      assert (U' < BASE * (W' + 1)) by nia. lia. }
    (* a value q passing the test is at most one too big *)
    assert (Good : forall q1, 0 <= q1 -> q1 * W' <= U' -> q1 <= BASE /\ (q1 - 1) * W <= U).
    { intros q1 Q1 T. assert (q1 <= BASE).
      { destruct (Z_le_gt_dec q1 BASE) as [|G]; [assumption|exfalso].
        assert ((BASE + 1) * W' <= q1 * W') by (apply Z.mul_le_mono_nonneg_r; lia).
        rewrite HB in *. lia. }
      split; [assumption|].
      assert (q1 * W = q1 * W' * P + q1 * wl) by (rewrite EW; ring).
      assert (q1 * W' * P <= U' * P) by (apply Z.mul_le_mono_nonneg_r; lia).
      assert (q1 * wl <= BASE * P) by (apply Z.mul_le_mono_nonneg; lia).
      assert (BASE * P <= W' * P) by (apply Z.mul_le_mono_nonneg_r; [lia|rewrite HB in *; lia]).
      lia. }
    destruct (wm2 * q >? r * BASE + v0) eqn:T.
    + rewrite Z.gtb_lt in T.
      assert (TT : U' < q * W') by (unfold U', W'; rewrite Eq; lia).
      assert (Hqpos : 1 <= q) by (destruct (Z.eq_dec q 0) as [->|]; lia).
      assert (HQ' : U < q * W).
      { assert ((U' + 1) * P <= q * W' * P) by (apply Z.mul_le_mono_nonneg_r; lia).
        assert (q * W = q * W' * P + q * wl) by (rewrite EW; ring).
        assert (0 <= q * wl) by (apply Z.mul_nonneg_nonneg; lia). lia. }
      rewrite (u32_small (q - 1)) by (rewrite p32; rewrite HB in *; lia).
      rewrite (u32_small (r + wm1)) by (rewrite p32; rewrite HB in *; lia).
      destruct (r + wm1 >=? BASE) eqn:R.
      * apply Z.geb_le in R. exists (q - 1). split; [reflexivity|].
        assert (Eq' : vtop * BASE + v1 = (q - 1) * wm1 + (r + wm1)) by lia.
        assert (Tq : (q - 1) * W' <= U').
        { unfold U', W'. rewrite Eq'.
          assert ((q - 1) * wm2 <= BASE * (BASE - 1)) by (apply Z.mul_le_mono_nonneg; lia).
          rewrite HB in *. lia. }
        destruct (Good (q - 1) ltac:(lia) Tq). split; [lia|]. split; [assumption|].
        replace (q - 1 + 1) with q by lia. assumption.
      * rewrite Z.geb_leb, Z.leb_gt in R.
        apply IH; try assumption; try lia.
    + rewrite Z.gtb_ltb, Z.ltb_ge in T.
      assert (TT : q * W' <= U') by (unfold U', W'; rewrite Eq; lia).
      destruct (Good q ltac:(lia) TT). exists q. split; [reflexivity|]. split; [lia|]. split; assumption.
Qed.

(** ** multiply-subtract and add-back *)
Lemma mulsub_spec q : 0 <= q <= BASE -> forall w v zhi, wf v -> wf w -> length v = length w -> - BASE <= zhi <= 0 ->
  wf (fst (mulsub_loop q zhi v w)) /\ length (fst (mulsub_loop q zhi v w)) = length w /\
  - BASE <= snd (mulsub_loop q zhi v w) <= 0 /\
  dval (fst (mulsub_loop q zhi v w)) + BASE ^ Z.of_nat (length w) * snd (mulsub_loop q zhi v w)
    = dval v - q * dval w + zhi.
Proof.
  intros Hq. induction w as [|y w IH]; intros v zhi Hv Hw L Hz.
  - destruct v; [|discriminate]. cbn [mulsub_loop fst snd length dval].
    change (Z.of_nat 0) with 0. rewrite Z.pow_0_r. repeat split; try apply wf_nil; lia.
  - destruct v as [|x v]; [discriminate|]. cbn [length] in L. cbn [mulsub_loop].
    apply wf_cons in Hv, Hw. destruct Hv as [Hx Hv], Hw as [Hy Hw].
    assert (HB : BASE = 1073741824) by reflexivity.
    rewrite (swrap32_small x) by (rewrite HB in *; lia).
    set (z := x + zhi - q * y).
    assert (Bqy : 0 <= q * y <= BASE * (BASE - 1)) by nia.
    assert (Bz : - (BASE * BASE) <= z < BASE) by (unfold z; lia).
    rewrite shiftr_SHIFT, land_MASK.
    assert (E1 : u32 z mod BASE = z mod BASE).
    { unfold u32, BASE. rewrite <- Znumtheory.Zmod_div_mod; try reflexivity. exists 4. reflexivity. }
    rewrite E1.
    pose proof (Z.mod_pos_bound z BASE ltac:(reflexivity)).
    pose proof (Z.div_mod z BASE ltac:(discriminate)).
    assert (Bd : - BASE <= z / BASE <= 0) by (rewrite HB in *; lia).
    rewrite swrap32_small by (rewrite HB in *; lia).
    specialize (IH v (z / BASE) Hv Hw ltac:(lia) Bd).
    destruct (mulsub_loop q (z / BASE) v w) as [r zf]. cbn [fst snd] in *.
    destruct IH as (I1 & I2 & I3 & I4).
    split; [apply wf_cons; auto|]. split; [cbn [length]; lia|]. split; [lia|].
    cbn [length]. rewrite Nat2Z.inj_succ, Z.pow_succ_r by lia. rewrite !dval_cons. unfold z in *. nia.
Qed.

Lemma addback_spec : forall w v carry, wf v -> wf w -> length v = length w -> 0 <= carry <= 1 ->
  wf (addback_loop carry v w) /\ length (addback_loop carry v w) = length w /\
  exists c, 0 <= c <= 1 /\
  dval (addback_loop carry v w) + BASE ^ Z.of_nat (length w) * c = dval v + dval w + carry.
Proof.
  induction w as [|y w IH]; intros v carry Hv Hw L Hc.
  - destruct v; [|discriminate]. cbn [addback_loop length dval].
    change (Z.of_nat 0) with 0. rewrite Z.pow_0_r. repeat split; try apply wf_nil. exists carry. lia.
  - destruct v as [|x v]; [discriminate|]. cbn [length] in L. cbn [addback_loop].
    apply wf_cons in Hv, Hw. destruct Hv as [Hx Hv], Hw as [Hy Hw].
    rewrite (u32_small (x + y)) by (rewrite p32; rewrite BASE_val in *; lia).
    rewrite u32_small by (rewrite p32; rewrite BASE_val in *; lia).
    rewrite land_MASK, shiftr_SHIFT. set (c0 := carry + (x + y)).
    pose proof (Z.mod_pos_bound c0 BASE ltac:(reflexivity)).
    pose proof (Z.div_mod c0 BASE ltac:(discriminate)).
    assert (Bd : 0 <= c0 / BASE <= 1) by (unfold c0 in *; rewrite BASE_val in *; lia).
    destruct (IH v (c0 / BASE) Hv Hw ltac:(lia) Bd) as (I1 & I2 & c & C1 & C2).
    split; [apply wf_cons; auto|]. split; [cbn [length]; lia|].
    exists c. split; [assumption|]. cbn [length]. rewrite Nat2Z.inj_succ, Z.pow_succ_r by lia.
    rewrite !dval_cons. unfold c0 in *. nia.
Qed.
