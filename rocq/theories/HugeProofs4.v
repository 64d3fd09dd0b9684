(** Lemmas: Knuth algorithm D main loop, digits_divrem, digits_rem, gcd. *)
From Coq Require Import ZArith String Ascii Lia Bool List.
From Verif Require Import Base HugeModel HugeSpec HugeProofs1 HugeProofs2 HugeProofs3.
Import ListNotations.
Open Scope Z_scope.

Lemma nth_skipn' {A} (v : list A) d : forall j i, nth i (skipn j v) d = nth (j + i) v d.
Proof. induction v as [|x v IH]; intros [|j] i; cbn [skipn nth Nat.add]; auto; destruct i; auto. Qed.
Lemma nth_firstn' {A} (v : list A) d : forall n i, (i < n)%nat -> nth i (firstn n v) d = nth i v d.
Proof. induction v as [|x v IH]; intros [|n] [|i] L; cbn [firstn nth]; auto; try lia. apply IH. lia. Qed.
Lemma firstn_S_nth (l : list Z) : forall n, (n < length l)%nat -> firstn (S n) l = firstn n l ++ [nth n l 0].
Proof.
  induction l as [|x l IH]; intros n L; cbn [length] in L; [lia|].
  destruct n as [|n]; [reflexivity|]. cbn [firstn nth app]. f_equal. rewrite <- IH by lia. reflexivity.
Qed.
Lemma skipn_S_nth (l : list Z) : forall n, (n < length l)%nat -> skipn n l = nth n l 0 :: skipn (S n) l.
Proof.
  induction l as [|x l IH]; intros n L; cbn [length] in L; [lia|].
  destruct n as [|n]; [reflexivity|]. cbn [skipn nth]. rewrite IH by lia. reflexivity.
Qed.

Lemma dval_top2 l n : wf l -> length l = n -> (2 <= n)%nat ->
  dval l = (nth (n - 1) l 0 * BASE + nth (n - 2) l 0) * BASE ^ Z.of_nat (n - 2) + dval (firstn (n - 2) l)
  /\ 0 <= dval (firstn (n - 2) l) < BASE ^ Z.of_nat (n - 2).
Proof.
  intros Hw L N.
  assert (E : l = firstn (n - 2) l ++ [nth (n - 2) l 0; nth (n - 1) l 0]).
  { rewrite <- (firstn_all l) at 1. rewrite L. replace n with (S (S (n - 2))) at 1 by lia.
    rewrite !firstn_S_nth by lia. rewrite <- app_assoc. cbn [app]. do 4 f_equal. lia. }
  assert (LF : length (firstn (n - 2) l) = (n - 2)%nat) by (rewrite firstn_length_le; lia).
  split.
  - rewrite E at 1. rewrite dval_app, LF. rewrite !dval_cons. cbn [dval]. lia.
  - pose proof (dval_bound (firstn (n - 2) l) (wf_firstn _ _ Hw)) as D. rewrite LF in D. assumption.
Qed.

Lemma divrem_iter_spec w n j v :
  wf w -> length w = n -> (2 <= n)%nat -> BASE / 2 <= nth (n - 1) w 0 ->
  wf v -> (j + n < length v)%nat -> dval (firstn n (skipn (S j) v)) < dval w ->
  exists q win2, divrem_iter w n j v = Ok (q, firstn j v ++ win2 ++ skipn (j + n) v) /\
    0 <= q < BASE /\ wf win2 /\ length win2 = n /\
    dval (firstn (S n) (skipn j v)) = q * dval w + dval win2 /\ dval win2 < dval w.
Proof.
  intros Hw Lw N Htop Hv Lv HX. unfold divrem_iter.
  set (win := firstn n (skipn j v)).
  assert (Wwin : wf win) by (apply wf_firstn, wf_skipn; assumption).
  assert (Lwin : length win = n) by (unfold win; rewrite firstn_length_le; [reflexivity|rewrite skipn_length; lia]).
  assert (N1 : nth (j + n - 1) v 0 = nth (n - 1) win 0).
  { unfold win. rewrite nth_firstn', nth_skipn' by lia. f_equal. lia. }
  assert (N2 : nth (j + n - 2) v 0 = nth (n - 2) win 0).
  { unfold win. rewrite nth_firstn', nth_skipn' by lia. f_equal. lia. }
  rewrite N1, N2. set (vtop := nth (j + n) v 0).
  assert (EU : firstn (S n) (skipn j v) = win ++ [vtop]).
  { rewrite firstn_S_nth by (rewrite skipn_length; lia). unfold win, vtop. rewrite nth_skipn'. reflexivity. }
  assert (HU : dval (firstn (S n) (skipn j v)) < BASE * dval w).
  { rewrite (skipn_S_nth v j) by lia. cbn [firstn]. rewrite dval_cons.
    pose proof (wf_nth j v Hv). rewrite BASE_val in *. lia. }
  set (U := dval (firstn (S n) (skipn j v))) in *.
  assert (VU : U = dval win + BASE ^ Z.of_nat n * vtop).
  { unfold U. rewrite EU, dval_app, Lwin. cbn [dval]. lia. }
  destruct (dval_top2 win n Wwin Lwin N) as [Ewin Bwin].
  destruct (dval_top2 w n Hw Lw N) as [EW BW].
  pose proof (wf_nth (n - 1) w Hw) as Hwm1. pose proof (wf_nth (n - 2) w Hw) as Hwm2.
  pose proof (wf_nth (n - 1) win Wwin) as Hv1. pose proof (wf_nth (n - 2) win Wwin) as Hv0.
  assert (Hvt : 0 <= vtop < BASE) by (apply wf_nth; assumption).
  set (wm1 := nth (n - 1) w 0) in *. set (wm2 := nth (n - 2) w 0) in *.
  set (v1 := nth (n - 1) win 0) in *. set (v0 := nth (n - 2) win 0) in *.
  set (P := BASE ^ Z.of_nat (n - 2)) in *.
  assert (HP : 0 < P) by (apply BASEn_pos; lia).
  assert (EPn : BASE ^ Z.of_nat n = BASE * BASE * P).
  { unfold P. rewrite <- Z.mul_assoc, <- Z.pow_succ_r, <- Z.pow_succ_r by lia. f_equal. lia. }
  assert (EU' : U = ((vtop * BASE + v1) * BASE + v0) * P + dval (firstn (n - 2) win)).
  { rewrite VU, Ewin, EPn. ring. }
  assert (H2 : BASE / 2 = 536870912) by reflexivity.
  destruct (Z.eqb_spec wm1 0) as [E0|_]; [lia|].
  rewrite shiftl_SHIFT.
  rewrite (u64_small (vtop * BASE)) by (rewrite p64; rewrite BASE_val in *; lia).
  rewrite lor_BASE by assumption.
  set (vv := vtop * BASE + v1) in *.
  (* vtop <= wm1 *)
  assert (Hvw : vtop <= wm1).
  { destruct (Z_le_gt_dec vtop wm1) as [|G]; [assumption|exfalso].
    assert (dval w < (wm1 + 1) * (BASE * P)).
    { rewrite EW. assert (wm2 * P <= (BASE - 1) * P) by (apply Z.mul_le_mono_nonneg_r; lia). lia. }
    assert (vtop * (BASE * BASE * P) <= U).
    { rewrite VU, EPn. pose proof (dval_nonneg win Wwin). lia. }
    assert ((wm1 + 1) * (BASE * BASE * P) <= vtop * (BASE * BASE * P)).
    { apply Z.mul_le_mono_nonneg_r; [|lia]. rewrite BB; lia. }
    assert (BASE * dval w < BASE * ((wm1 + 1) * (BASE * P))) by (apply Z.mul_lt_mono_pos_l; [reflexivity|assumption]).
    lia. }
  pose proof (Z.div_mod vv wm1 ltac:(lia)) as DM.
  pose proof (Z.mod_pos_bound vv wm1 ltac:(lia)) as MB.
  assert (Bq0 : 0 <= vv / wm1 <= BASE + 1).
  { split; [apply Z.div_pos; [unfold vv; rewrite BASE_val in *; lia|lia]|].
    assert (vv / wm1 < BASE + 2); [|lia]. apply Z.div_lt_upper_bound; [lia|]. unfold vv. rewrite BASE_val in *. lia. }
  rewrite (u32_small (vv / wm1)) by (rewrite p32; rewrite BASE_val in *; lia).
  rewrite (u32_small (vv mod wm1)) by (rewrite p32; rewrite BASE_val in *; lia).
  destruct (qcorrect_spec P (dval w) U wm1 wm2 (dval (firstn (n - 2) w)) vtop v1 v0 (dval (firstn (n - 2) win))
              4 (vv / wm1) (vv mod wm1)) as (q & Q1 & Q2 & Q3);
    try assumption; try lia.
  { assert (E : vv < (vv / wm1 + 1) * wm1) by lia.
    assert (E2 : vv + 1 <= (vv / wm1 + 1) * wm1) by lia.
    assert ((vv + 1) * (BASE * P) <= (vv / wm1 + 1) * wm1 * (BASE * P)).
    { apply Z.mul_le_mono_nonneg_r; [|assumption]. rewrite BASE_val; lia. }
    assert ((vv / wm1 + 1) * wm1 * (BASE * P) <= (vv / wm1 + 1) * dval w).
    { rewrite <- Z.mul_assoc. apply Z.mul_le_mono_nonneg_l; [lia|].
      rewrite EW. assert (0 <= wm2 * P) by (apply Z.mul_nonneg_nonneg; lia). lia. }
    assert (U < (vv + 1) * (BASE * P)).
    { rewrite EU'. fold vv. assert (v0 * P <= (BASE - 1) * P) by (apply Z.mul_le_mono_nonneg_r; lia). lia. }
    lia. }
  { rewrite BASE_val in *. lia. }
  rewrite Q1. cbn [bind].
  destruct (mulsub_spec q Q2 w win 0 Wwin Hw ltac:(lia) ltac:(rewrite BASE_val; lia)) as (M1 & M2 & M3 & M4).
  destruct (mulsub_loop q 0 win w) as [win1 zhi]. cbn [fst snd] in *.
  rewrite (swrap32_small vtop) by (rewrite BASE_val in *; lia).
  rewrite Lw in *.
  pose proof (dval_bound win1 M1) as D1. rewrite M2 in D1.
  pose proof (dval_bound w Hw) as DW. rewrite Lw in DW.
  set (B := BASE ^ Z.of_nat n) in *.
  assert (EQ : U - q * dval w = dval win1 + B * (vtop + zhi)) by (rewrite VU; lia).
  destruct (Z.ltb_spec (vtop + zhi) 0) as [Neg|Pos].
  - (* q one too big *)
    assert (HN : U - q * dval w < 0).
    { rewrite EQ. assert (B * (vtop + zhi) <= B * (-1)) by (apply Z.mul_le_mono_nonneg_l; lia). lia. }
    assert (Eh : vtop + zhi = -1).
    { assert (- dval w <= U - q * dval w) by lia.
      destruct (Z_le_gt_dec (vtop + zhi) (-2)) as [G|G]; [exfalso|lia].
      assert (B * (vtop + zhi) <= B * (-2)) by (apply Z.mul_le_mono_nonneg_l; lia). lia. }
    destruct (addback_spec w win1 0 M1 Hw ltac:(lia) ltac:(lia)) as (A1 & A2 & c & A3 & A4).
    rewrite Lw in *. fold B in A4.
    exists (u32 (q - 1)), (addback_loop 0 win1 w).
    assert (q <> 0) by (intros ->; pose proof (dval_nonneg win Wwin); rewrite VU in HN; assert (0 <= B * vtop) by (apply Z.mul_nonneg_nonneg; lia); lia).
    rewrite u32_small by (rewrite p32; rewrite BASE_val in *; lia).
    split; [reflexivity|]. split; [lia|]. split; [assumption|]. split; [assumption|].
    rewrite Eh in EQ.
    pose proof (dval_bound (addback_loop 0 win1 w) A1) as DA. rewrite A2 in DA. fold B in DA.
    assert (Hc : c = 1).
    { assert (c = 0 \/ c = 1) as [->|] by lia; [|assumption]. exfalso. lia. }
    subst c. lia.
  - exists q, win1.
    assert (Eh : vtop + zhi = 0).
    { assert (U - q * dval w < dval w) by lia.
      destruct (Z_le_gt_dec (vtop + zhi) 0) as [G|G]; [lia|exfalso].
      assert (B * 1 <= B * (vtop + zhi)) by (apply Z.mul_le_mono_nonneg_l; lia). lia. }
    rewrite Eh in EQ.
    assert (q < BASE).
    { destruct (Z_lt_le_dec q BASE) as [|G]; [assumption|exfalso].
      assert (BASE * dval w <= q * dval w) by (apply Z.mul_le_mono_nonneg_r; lia). lia. }
    split; [reflexivity|]. split; [lia|]. split; [assumption|]. split; [assumption|]. lia.
Qed.

Lemma divrem_loop_spec w n : wf w -> length w = n -> (2 <= n)%nat -> BASE / 2 <= nth (n - 1) w 0 ->
  forall k v qs, wf v -> (k + n <= length v)%nat -> dval (firstn n (skipn k v)) < dval w ->
  exists nq v', divrem_loop w n k v qs = Ok (nq ++ qs, v') /\ wf nq /\ length nq = k /\ wf v' /\
    length v' = length v /\
    dval (firstn (k + n) v) = dval nq * dval w + dval (firstn n v') /\ dval (firstn n v') < dval w.
Proof.
  intros Hw Lw N Ht. induction k as [|j IH]; intros v qs Hv Lv HX.
  - cbn [divrem_loop]. exists [], v. cbn [skipn Nat.add] in *. repeat split; auto using wf_nil; cbn [dval]; lia.
  - cbn [divrem_loop].
    destruct (divrem_iter_spec w n j v Hw Lw N Ht Hv ltac:(lia) HX) as (q & win2 & D1 & D2 & D3 & D4 & D5 & D6).
    rewrite D1. cbn [bind].
    set (v1 := firstn j v ++ win2 ++ skipn (j + n) v).
    assert (Lf : length (firstn j v) = j) by (rewrite firstn_length_le; lia).
    assert (Wv1 : wf v1) by (unfold v1; apply wf_app; split; [now apply wf_firstn|]; apply wf_app; split; [assumption|now apply wf_skipn]).
    assert (Lv1 : length v1 = length v) by (unfold v1; rewrite !app_length, skipn_length; lia).
    assert (Sk : skipn j v1 = win2 ++ skipn (j + n) v).
    { unfold v1. rewrite skipn_app, Lf, Nat.sub_diag. cbn [skipn]. rewrite skipn_all2 by lia. reflexivity. }
    assert (Fn : firstn n (skipn j v1) = win2).
    { rewrite Sk, firstn_app, D4, Nat.sub_diag. cbn [firstn]. rewrite app_nil_r. apply firstn_all2. lia. }
    destruct (IH v1 (q :: qs) Wv1 ltac:(lia)) as (nq & v' & I1 & I2 & I3 & I4 & I5 & I6 & I7).
    { rewrite Fn. assumption. }
    exists (nq ++ [q]), v'. rewrite I1, <- app_assoc. cbn [app].
    split; [reflexivity|]. split; [apply wf_app; split; [assumption|apply wf_cons; split; [assumption|apply wf_nil]]|].
    split; [rewrite app_length; cbn [length]; lia|]. split; [assumption|]. split; [lia|]. split; [|assumption].
    assert (E1 : firstn (S j + n) v = firstn j v ++ firstn (S n) (skipn j v)).
    { replace (S j + n)%nat with (j + S n)%nat by lia.
      rewrite <- (firstn_skipn j v) at 1. rewrite firstn_app, Lf.
      replace (j + S n - j)%nat with (S n) by lia. f_equal. apply firstn_all2. lia. }
    assert (E2 : firstn (j + n) v1 = firstn j v ++ win2).
    { rewrite <- (firstn_skipn j v1), firstn_app.
      assert (F1 : firstn j v1 = firstn j v).
      { unfold v1. rewrite firstn_app, Lf, Nat.sub_diag. cbn [firstn]. rewrite app_nil_r. apply firstn_all2. lia. }
      rewrite F1, Lf. replace (j + n - j)%nat with n by lia. rewrite Fn. f_equal. apply firstn_all2. lia. }
    rewrite E1, dval_app, Lf, D5. rewrite E2, dval_app, Lf in I6.
    rewrite dval_app, I3. cbn [dval].
    set (B := BASE ^ Z.of_nat j) in *. lia.
Qed.

(** ** normalisation of the divisor *)
Lemma bit_width_spec x : 0 < x < BASE -> 1 <= bit_width x <= 30 /\ 2 ^ (bit_width x - 1) <= x < 2 ^ bit_width x.
Proof.
  intros H. unfold bit_width. destruct (Z.eqb_spec x 0); [lia|].
  pose proof (Z.log2_spec x ltac:(lia)) as [L1 L2]. pose proof (Z.log2_nonneg x).
  replace (Z.log2 x + 1 - 1) with (Z.log2 x) by lia. rewrite <- Z.add_1_r in L2.
  split; [|split; assumption]. split; [lia|].
  assert (Z.log2 x < 30); [|lia]. apply Z.log2_lt_pow2; [lia|]. unfold BASE in H. lia.
Qed.

Lemma last_nth (l : list Z) : last l 0 = nth (length l - 1) l 0.
Proof.
  induction l as [|x l IH]; [reflexivity|]. destruct l as [|y l]; [reflexivity|].
  rewrite last_cons_ne by discriminate. rewrite IH. cbn [length]. 
  replace (S (S (length l)) - 1)%nat with (S (S (length l) - 1)) by lia. reflexivity.
Qed.

Lemma dval_split_last l : l <> [] ->
  dval l = dval (firstn (length l - 1) l) + BASE ^ Z.of_nat (length l - 1) * last l 0.
Proof.
  intros H. assert (L : (0 < length l)%nat) by (destruct l; cbn; [congruence|lia]).
  rewrite <- (firstn_all l) at 1. replace (length l) with (S (length l - 1)) at 1 by lia.
  rewrite firstn_S_nth by lia. rewrite dval_app, firstn_length_le by lia. rewrite last_nth. cbn [dval]. lia.
Qed.

Lemma normalize_divisor b d : canon b -> b <> [] -> d = SHIFT - bit_width (last b 0) ->
  0 <= d < 30 /\
  let w := fst (digits_left_shift b d) in
  wf w /\ length w = length b /\ dval w = dval b * 2 ^ d /\ BASE / 2 <= nth (length b - 1) w 0.
Proof.
  intros Hb Nb Ed. pose proof (canon_wf b Hb) as Wb.
  assert (Hl : 0 < last b 0 < BASE).
  { destruct Hb as [_ Hb]. specialize (Hb Nb). pose proof (wf_nth (length b - 1) b Wb) as H. rewrite <- last_nth in H. lia. }
  destruct (bit_width_spec _ Hl) as [B1 B2].
  assert (Hd : 0 <= d < 30) by (rewrite Ed; unfold SHIFT; lia).
  split; [assumption|]. intros w. unfold w, digits_left_shift.
  destruct (left_shift_spec d Hd b 0 Wb) as (S1 & S2 & S3 & S4).
  { split; [lia|apply Z.pow_pos_nonneg; lia]. }
  destruct (left_shift_loop d 0 b) as [z c]. cbn [fst snd] in *.
  pose proof (dval_split_last b Nb) as DL.
  pose proof (dval_bound (firstn (length b - 1) b) (wf_firstn _ _ Wb)) as BF.
  assert (Lb : (0 < length b)%nat) by (destruct b; cbn; [congruence|lia]).
  rewrite firstn_length_le in BF by lia.
  set (Q := BASE ^ Z.of_nat (length b - 1)) in *.
  assert (EQ : BASE ^ Z.of_nat (length b) = BASE * Q).
  { unfold Q. rewrite <- Z.pow_succ_r by lia. f_equal. lia. }
  assert (HQ : 0 < Q) by (apply BASEn_pos; lia).
  assert (Pd : 0 < 2 ^ d) by (apply Z.pow_pos_nonneg; lia).
  assert (E30 : 2 ^ bit_width (last b 0) * 2 ^ d = BASE).
  { rewrite <- Z.pow_add_r by lia. unfold BASE. f_equal. rewrite Ed. unfold SHIFT. lia. }
  assert (E29 : 2 ^ (bit_width (last b 0) - 1) * 2 ^ d = BASE / 2).
  { rewrite <- Z.pow_add_r by lia. change (BASE / 2) with (2 ^ 29). f_equal. rewrite Ed. unfold SHIFT. lia. }
  assert (Up : (last b 0 + 1) * 2 ^ d <= BASE).
  { rewrite <- E30. apply Z.mul_le_mono_nonneg_r; lia. }
  assert (Lo : BASE / 2 <= last b 0 * 2 ^ d).
  { rewrite <- E29. apply Z.mul_le_mono_nonneg_r; lia. }
  assert (V1 : dval b * 2 ^ d < BASE * Q).
  { assert (dval b < Q * (last b 0 + 1)) by lia.
    assert (dval b * 2 ^ d < Q * (last b 0 + 1) * 2 ^ d) by (apply Z.mul_lt_mono_pos_r; lia).
    assert (Q * ((last b 0 + 1) * 2 ^ d) <= Q * BASE) by (apply Z.mul_le_mono_nonneg_l; lia). lia. }
  assert (C0 : c = 0).
  { rewrite EQ in S4. pose proof (dval_nonneg z S1).
    destruct (Z_le_gt_dec c 0) as [|G]; [lia|exfalso].
    assert (BASE * Q * 1 <= BASE * Q * c) by (apply Z.mul_le_mono_nonneg_l; [rewrite BASE_val; lia|lia]). lia. }
  subst c. assert (VZ : dval z = dval b * 2 ^ d) by lia.
  repeat split; try assumption.
  assert (Nz : z <> []) by (destruct z; [cbn in S2; lia|discriminate]).
  pose proof (dval_split_last z Nz) as DZ. rewrite last_nth, S2 in DZ.
  pose proof (dval_bound (firstn (length b - 1) z) (wf_firstn _ _ S1)) as BZ.
  rewrite firstn_length_le in BZ by lia. fold Q in DZ, BZ.
  set (t := nth (length b - 1) z 0) in *.
  assert (Q * (BASE / 2) <= Q * (last b 0 * 2 ^ d)) by (apply Z.mul_le_mono_nonneg_l; lia).
  assert (Q * (last b 0 * 2 ^ d) <= dval z).
  { rewrite VZ, DL. rewrite Z.mul_add_distr_r, <- Z.mul_assoc.
    assert (0 <= dval (firstn (length b - 1) b) * 2 ^ d) by (apply Z.mul_nonneg_nonneg; lia). lia. }
  destruct (Z_le_gt_dec (BASE / 2) t) as [|G]; [assumption|exfalso].
  assert (Q * (t + 1) <= Q * (BASE / 2)) by (apply Z.mul_le_mono_nonneg_l; lia). lia.
Qed.

(** top digit comparison bounds a same-length comparison *)
Lemma top_lt_dval l w n : wf l -> wf w -> length l = n -> length w = n -> (0 < n)%nat ->
  nth (n - 1) l 0 < nth (n - 1) w 0 -> dval l < dval w.
Proof.
  intros Hl Hw Ll Lw N H.
  assert (Nl : l <> []) by (destruct l; cbn in *; [lia|congruence]).
  assert (Nw : w <> []) by (destruct w; cbn in *; [lia|congruence]).
  pose proof (dval_split_last l Nl) as D1. pose proof (dval_split_last w Nw) as D2.
  rewrite last_nth, Ll in D1. rewrite last_nth, Lw in D2.
  pose proof (dval_bound _ (wf_firstn (n - 1) l Hl)) as B1. pose proof (dval_bound _ (wf_firstn (n - 1) w Hw)) as B2.
  rewrite firstn_length_le in B1, B2 by lia.
  set (Q := BASE ^ Z.of_nat (n - 1)) in *. 
  assert (Q * (nth (n - 1) l 0 + 1) <= Q * nth (n - 1) w 0) by (apply Z.mul_le_mono_nonneg_l; lia). lia.
Qed.

Lemma digits_divrem_long a b : canon a -> canon b -> (2 <= length b)%nat -> dval b < dval a ->
  exists q r, wf q /\ wf r /\ dval q = dval a / dval b /\ dval r = dval a mod dval b /\
   digits_divrem a b = (rem <- trim_back r ;; q' <- trim_back q ;; Ok (q', rem)).
Proof.
  intros Ha Hb Lb V. unfold digits_divrem.
  pose proof (digits_cmp_spec a b true true Ha Hb) as C. cbn in C.
  destruct (sgn_tests _ _ C) as (T1 & T2 & _). rewrite T1, T2.
  destruct (Z.eqb_spec (dval a - dval b) 0) as [?|_]; [lia|]. destruct (Z.ltb_spec (dval a - dval b) 0) as [?|_]; [lia|].
  destruct b as [|b0 [|b1 bt]] eqn:Eb; [cbn in Lb; lia|cbn in Lb; lia|]. rewrite <- Eb in *. clear Eb b0 b1 bt.
  assert (Nb : b <> []) by (destruct b; cbn in *; [lia|congruence]).
  set (d := SHIFT - bit_width (last b 0)).
  destruct (normalize_divisor b d Hb Nb eq_refl) as (Hd & W1 & W2 & W3 & W4).
  set (w := fst (digits_left_shift b d)) in *.
  pose proof (canon_wf a Ha) as Wa. pose proof (canon_wf b Hb) as Wb.
  assert (Pd : 0 < 2 ^ d) by (apply Z.pow_pos_nonneg; lia).
  destruct (left_shift_spec d Hd a 0 Wa ltac:(lia)) as (S1 & S2 & S3 & S4).
  unfold digits_left_shift. destruct (left_shift_loop d 0 a) as [v0 carry]. cbn [fst snd] in *.
  assert (Lab : (length b <= length a)%nat).
  { destruct (Nat.le_gt_cases (length b) (length a)) as [|G]; [assumption|].
    pose proof (canon_length_lt a b Ha Hb G). lia. }
  assert (P29 : 2 ^ d <= BASE / 2) by (change (BASE / 2) with (2 ^ 29); apply Z.pow_le_mono_r; lia).
  assert (H2 : BASE / 2 = 536870912) by reflexivity.
  assert (Hcarry : 0 <= carry < BASE) by (rewrite BASE_val; lia).
  set (n := length b) in *.
  set (grow := (negb (carry =? 0) || (nth (length a - 1) v0 0 >=? nth (n - 1) w 0))%bool).
  set (v := v0 ++ [if grow then carry else 0]).
  set (sz_a := (if grow then (length a + 1)%nat else length a)).
  assert (Wv : wf v).
  { unfold v. apply wf_app; split; [assumption|]. apply wf_cons; split; [destruct grow; [assumption|rewrite BASE_val; lia]|apply wf_nil]. }
  assert (Lv : length v = (length a + 1)%nat) by (unfold v; rewrite app_length; cbn [length]; lia).
  assert (Hsz : (n <= sz_a <= length a + 1)%nat) by (unfold sz_a; destruct grow; lia).
  assert (VA : dval (firstn sz_a v) = dval a * 2 ^ d).
  { unfold sz_a, v. destruct grow eqn:EG.
    - rewrite firstn_all2 by (rewrite app_length; cbn [length]; lia).
      rewrite dval_app, S2. cbn [dval]. lia.
    - unfold grow in EG. apply orb_false_iff in EG. destruct EG as [EG _].
      rewrite negb_false_iff, Z.eqb_eq in EG. subst carry.
      rewrite firstn_app, S2, Nat.sub_diag. cbn [firstn]. rewrite app_nil_r, firstn_all2 by lia. lia. }
  assert (HX : dval (firstn n (skipn (sz_a - n) v)) < dval w).
  { assert (Lx : length (firstn n (skipn (sz_a - n) v)) = n).
    { rewrite firstn_length_le; [reflexivity|]. rewrite skipn_length. lia. }
    apply top_lt_dval with (n := n); auto; try lia.
    - now apply wf_firstn, wf_skipn.
    - rewrite nth_firstn', nth_skipn' by lia. replace (sz_a - n + (n - 1))%nat with (sz_a - 1)%nat by lia.
      unfold sz_a, v. destruct grow eqn:EG.
      + rewrite app_nth2 by lia. replace (length a + 1 - 1 - length v0)%nat with 0%nat by lia. cbn [nth]. lia.
      + rewrite app_nth1 by lia. unfold grow in EG. apply orb_false_iff in EG. destruct EG as [_ EG].
        rewrite Z.geb_leb, Z.leb_gt in EG. assumption. }
  destruct (divrem_loop_spec w n W1 W2 ltac:(lia) W4 (sz_a - n) v [] Wv ltac:(lia) HX)
    as (nq & v' & I1 & I2 & I3 & I4 & I5 & I6 & I7).
  rewrite I1. cbn [bind]. rewrite app_nil_r.
  replace (sz_a - n + n)%nat with sz_a in I6 by lia. rewrite VA, W3 in I6. rewrite W3 in I7.
  destruct (digits_right_shift_spec d v' n Hd I4 ltac:(lia)) as (R1 & R2 & R3).
  set (rr := fst (digits_right_shift v' n d)) in *.
  pose proof (dval_nonneg (firstn n v') (wf_firstn n v' I4)) as Pr.
  set (X := dval (firstn n v')) in *.
  assert (EX : X = (dval a - dval nq * dval b) * 2 ^ d) by lia.
  assert (ER : dval rr = dval a - dval nq * dval b).
  { rewrite R3, EX. apply Z.div_mul. lia. }
  assert (BR : 0 <= dval rr < dval b).
  { rewrite ER. rewrite EX in Pr, I7. split; nia. }
  exists nq, rr. repeat split; auto.
  - apply Z.div_unique with (dval rr); lia.
  - apply Z.mod_unique with (dval nq); lia.
Qed.
