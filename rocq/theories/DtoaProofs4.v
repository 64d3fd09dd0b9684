(** grisu2: the decimal lies strictly inside the rounding interval. *)
From Coq Require Import ZArith QArith Qabs Qpower Ascii Lia Lqa Bool List.
From Verif Require Import Base DtoaTable DtoaModel DtoaSpec DtoaProofs1 DtoaProofs2 DtoaProofs3.
Import ListNotations.
Open Scope Z_scope.

Lemma mul_gap X Y f : 0 <= X -> X + 2 ^ 10 <= Y -> 2 ^ 63 <= f -> (X * f + 2 ^ 63) / 2 ^ 64 + 2 ^ 9 <= (Y * f + 2 ^ 63) / 2 ^ 64.
Proof.
  intros HX HY Hf. rewrite <- (Z.div_add (X * f + 2 ^ 63) (2 ^ 9)) by lia. apply Z.div_le_mono; [lia|].
  assert ((X + 2 ^ 10) * f <= Y * f) by (apply Z.mul_le_mono_nonneg_r; lia). lia.
Qed.
Lemma scale_lt V X k mk ne ce we : ne = - (we + ce + 64) -> (V * pow10 k * pow2 ne * pow2 64 < X * (pow10 mk / pow2 ce))%Q -> (V * pow10 (k - mk) < X * pow2 we)%Q.
Proof.
  intros E H. set (c := (pow10 (- mk) * pow2 (- ne - 64))%Q). assert (C : (0 < c)%Q) by (apply Qmult_lt_0_compat; [apply pow10_pos|apply pow2_pos]).
  apply (Qmult_lt_compat_r _ _ c C) in H. eapply Qle_lt_trans; [|eapply Qlt_le_trans; [exact H|]]; apply Qle_lteq; right; unfold c.
  - unfold Z.sub at 1. rewrite pow10_add. assert (A : (pow2 ne * pow2 64 * pow2 (- ne - 64) == 1)%Q) by (rewrite <- !pow2_add; replace (ne + 64 + (- ne - 64)) with 0 by ring; reflexivity).
    setoid_replace (V * pow10 k * pow2 ne * pow2 64 * (pow10 (- mk) * pow2 (- ne - 64)))%Q with (V * (pow10 k * pow10 (- mk)) * (pow2 ne * pow2 64 * pow2 (- ne - 64)))%Q by ring. rewrite A. ring.
  - replace (- ne - 64) with (we + ce) by lia. rewrite pow2_add. assert (A : (pow10 mk * pow10 (- mk) == 1)%Q) by (rewrite <- pow10_add, Z.add_opp_diag_r; reflexivity).
    pose proof (pow2_pos ce) as P. setoid_replace (X * (pow10 mk / pow2 ce) * (pow10 (- mk) * (pow2 we * pow2 ce)))%Q with (X * pow2 we * (pow10 mk * pow10 (- mk)))%Q by (field; intros Z; rewrite Z in P; discriminate). rewrite A. ring.
Qed.
Lemma scale_gt V X k mk ne ce we : ne = - (we + ce + 64) -> (X * (pow10 mk / pow2 ce) < V * pow10 k * pow2 ne * pow2 64)%Q -> (X * pow2 we < V * pow10 (k - mk))%Q.
Proof.
  intros E H. apply Qopp_lt_compat in H. assert (A : ((- V) * pow10 (k - mk) < (- X) * pow2 we)%Q); [|lra].
  apply (scale_lt (- V) (- X) k mk ne ce we E). setoid_replace ((- V) * pow10 k * pow2 ne * pow2 64)%Q with (- (V * pow10 k * pow2 ne * pow2 64))%Q by ring.
  setoid_replace ((- X) * (pow10 mk / pow2 ce))%Q with (- (X * (pow10 mk / pow2 ce)))%Q by (unfold Qdiv; ring). exact H.
Qed.
Lemma half_pow e : (pow2 e == 2 * pow2 (e - 1))%Q. Proof. replace e with (1 + (e - 1)) at 1 by ring. rewrite pow2_add. reflexivity. Qed.

Lemma digits17 wp wm cf d delta M Wp Wm : 0 <= wm /\ (wp <= 2 ^ 63 + 2 ^ 10 /\ wm + 1536 <= wp \/ wp < 2 ^ 64 /\ wm + 2048 <= wp) -> 2 ^ 63 <= cf < 2 ^ 64 ->
  Wp = (wp * cf + 2 ^ 63) / 2 ^ 64 -> Wm = (wm * cf + 2 ^ 63) / 2 ^ 64 -> M = Wp - 1 -> delta = M - (Wm + 1) -> 0 < delta -> d * delta <= 10 * M -> d < 10 ^ 17.
Proof.
  intros [H0 H] Hc -> -> -> -> Hd HD. pose proof (Z.div_mod (wp * cf + 2 ^ 63) (2 ^ 64) ltac:(lia)) as D1. pose proof (Z.mod_pos_bound (wp * cf + 2 ^ 63) (2 ^ 64) ltac:(lia)) as M1.
  pose proof (Z.div_mod (wm * cf + 2 ^ 63) (2 ^ 64) ltac:(lia)) as D2. pose proof (Z.mod_pos_bound (wm * cf + 2 ^ 63) (2 ^ 64) ltac:(lia)) as M2.
  set (P := (wp * cf + 2 ^ 63) / 2 ^ 64) in *. set (Q := (wm * cf + 2 ^ 63) / 2 ^ 64) in *. clearbody P Q.
  assert (B : P - 1 < 10 ^ 16 * (P - 1 - (Q + 1))).
  { assert (G : 10 ^ 16 * ((wp - wm) * cf - 3 * 2 ^ 64) >= wp * cf).
    { destruct H as [[A1 A2]|[A1 A2]].
      - assert (1536 * cf <= (wp - wm) * cf) by (apply Z.mul_le_mono_nonneg_r; lia). assert (wp * cf <= (2 ^ 63 + 2 ^ 10) * cf) by (apply Z.mul_le_mono_nonneg_r; lia). lia.
      - assert (2048 * cf <= (wp - wm) * cf) by (apply Z.mul_le_mono_nonneg_r; lia). assert (wp * cf <= 2 ^ 64 * cf) by (apply Z.mul_le_mono_nonneg_r; lia). lia. }
    rewrite Z.mul_sub_distr_r in G. lia. }
  apply Z.mul_lt_mono_pos_r with (p := P - 1 - (Q + 1)); [exact Hd|]. lia.
Qed.

Theorem grisu2_ok b : finite b -> 0 < b -> exists r K, grisu2 b = Ok (r, K) /\ Forall digit r /\ lead r /\ r <> [] /\ dval r < 10 ^ 17 /\
  ((dbl (b - 1) + dbl b) / 2 < IQ (dval r) * pow10 K)%Q /\ (IQ (dval r) * pow10 K < (dbl b + dbl (b + 1)) / 2)%Q.
Proof.
  intros Fb Pb. destruct (bits_ok b Fb Pb) as (f & e & Ebits & Hf & He & Hsub & V0 & V1 & V2 & V3). unfold grisu2. rewrite Ebits.
  rewrite boundaries_ok by assumption. cbn [bind]. rewrite normalize_ok by assumption. cbn [bind de df].
  destruct (gap_bound 52 f ltac:(lia) Hf) as [G1 G2]. assert (Hs : gap 52 f = 0 \/ e = -1074).
  { destruct (Z_lt_ge_dec f (2 ^ 52)) as [L|L]; [right; auto|left]. unfold gap in *. assert (52 <= Z.log2 f) by (apply Z.log2_le_pow2; lia). lia. }
  set (s := gap 52 f) in *. set (we := e - s - 11). assert (Hwe : -1137 <= we <= 960) by (unfold we; lia).
  destruct (kcomp_ok we Hwe) as [Hmk HE]. set (mk := k_comp (we + 64) (-59)) in *. destruct (table_ok mk Hmk) as (cf & ce & Ec & Hc). rewrite Ec. cbn [bind]. specialize (HE _ Ec). cbn [de] in HE.
  assert (P2s : 0 < 2 ^ s) by (apply Z.pow_pos_nonneg; lia). assert (HsF : 2 ^ 52 <= f * 2 ^ s < 2 ^ 53) by exact G2.
  set (wp := (2 * f + 1) * 2 ^ s * 2 ^ 10). set (w := f * 2 ^ s * 2 ^ 11). set (wm := if f =? 2 ^ 52 then (4 * f - 1) * 2 ^ 9 else (2 * f - 1) * 2 ^ s * 2 ^ 10).
  assert (Hfs : 2 ^ s <= f * 2 ^ s) by nia. assert (F52 : f = 2 ^ 52 -> 2 ^ s = 1) by (intros E; unfold s; rewrite E; reflexivity).
  assert (Hs53 : (2 * f + 1) * 2 ^ s < 2 ^ 54).
  { assert (B : f < 2 ^ (53 - s)). { apply Z.mul_lt_mono_pos_r with (p := 2 ^ s); [lia|]. rewrite <- Z.pow_add_r by lia. replace (53 - s + s) with 53 by ring. lia. }
    assert (T : (f + 1) * 2 ^ s <= 2 ^ (53 - s) * 2 ^ s) by (apply Z.mul_le_mono_nonneg_r; lia). rewrite <- Z.pow_add_r in T by lia. replace (53 - s + s) with 53 in T by ring. lia. }
  assert (Bp : 0 < wp < 2 ^ 64) by (unfold wp; lia). assert (Bw : 0 <= w /\ w + 2 ^ 10 <= wp) by (unfold w, wp; lia).
  assert (Bm : 0 <= wm /\ wm + 2 ^ 10 <= wp) by (unfold wm, wp; destruct (Z.eqb_spec f (2 ^ 52)) as [E|E]; [rewrite (F52 E); lia|lia]).
  assert (Bpm : 0 <= wm /\ (wp <= 2 ^ 63 + 2 ^ 10 /\ wm + 1536 <= wp \/ wp < 2 ^ 64 /\ wm + 2048 <= wp)).
  { split; [apply Bm|]. unfold wm, wp. destruct (Z.eqb_spec f (2 ^ 52)) as [E|E]; [left; rewrite (F52 E); lia|right; lia]. }
  destruct Hc as [Hcf Hcq]. pose proof (conj Hcf Hcq : entry_ok mk cf ce) as Hc.
  destruct (diy_mul_ok (Diy wp we) (Diy cf ce) ltac:(cbn [df]; lia) ltac:(cbn [df]; lia)) as [Ep Ep2]. destruct (diy_mul_ok (Diy w we) (Diy cf ce) ltac:(cbn [df]; lia) ltac:(cbn [df]; lia)) as [Ew Ew2].
  destruct (diy_mul_ok (Diy wm we) (Diy cf ce) ltac:(cbn [df]; lia) ltac:(cbn [df]; lia)) as [Em Em2].
  pose proof (mul_error (Diy wp we) mk cf ce ltac:(cbn [df]; lia) Hc) as Qp. pose proof (mul_error (Diy wm we) mk cf ce ltac:(cbn [df]; lia) Hc) as Qm.
  cbn [df de] in Ep, Ep2, Ew, Ew2, Em, Em2, Qp, Qm.
  pose proof (mul_gap w wp cf (proj1 Bw) (proj2 Bw) ltac:(lia)) as Gw. pose proof (mul_gap wm wp cf (proj1 Bm) (proj2 Bm) ltac:(lia)) as Gm. rewrite <- Ep, <- Ew in Gw. rewrite <- Ep, <- Em in Gm.
  assert (Wp64 : df (diy_mul (Diy wp we) (Diy cf ce)) < 2 ^ 64).
  { rewrite Ep. apply Z.div_lt_upper_bound; [lia|]. assert (wp * cf <= (2 ^ 64 - 1) * (2 ^ 64 - 1)) by (apply Z.mul_le_mono_nonneg; lia). lia. }
  assert (Wm0 : 0 <= df (diy_mul (Diy wm we) (Diy cf ce))) by (rewrite Em; apply Z.div_pos; [assert (0 <= wm * cf) by (apply Z.mul_nonneg_nonneg; lia)|]; lia).
  assert (Ww0 : 0 <= df (diy_mul (Diy w we) (Diy cf ce))) by (rewrite Ew; apply Z.div_pos; [assert (0 <= w * cf) by (apply Z.mul_nonneg_nonneg; lia)|]; lia).
  set (Wp := df (diy_mul (Diy wp we) (Diy cf ce))) in *. set (Wm := df (diy_mul (Diy wm we) (Diy cf ce))) in *. set (W := df (diy_mul (Diy w we) (Diy cf ce))) in *.
  rewrite Ep2, Em2. rewrite (u64_id (Wp - 1)), (u64_id (Wm + 1)) by lia. set (E := we + ce + 64) in *.
  unfold diy_sub at 1. cbn [df de]. rewrite Z.eqb_refl. replace (Wm + 1 <=? Wp - 1) with true by (symmetry; apply Z.leb_le; lia). cbn [andb bind]. rewrite u64_id by lia.
  set (ne := - E). assert (Hne : 56 <= ne <= 59) by (unfold ne; lia). set (M := Wp - 1). assert (HM : 0 < M < 2 ^ 64) by (unfold M; lia).
  unfold digit_gen. cbn [df de]. fold ne. unfold shl64, shr64. replace (0 <=? ne) with true by (symmetry; apply Z.leb_le; lia). replace (ne <? 64) with true by (symmetry; apply Z.ltb_lt; lia). cbn [andb bind].
  rewrite Z.shiftl_mul_pow2, Z.mul_1_l by lia. assert (P2n : 2 ^ 56 <= 2 ^ ne <= 2 ^ 59) by (split; apply Z.pow_le_mono_r; lia). rewrite u64_id by lia.
  unfold diy_sub. cbn [df de]. rewrite Ew2. fold E W. rewrite Z.eqb_refl. replace (W <=? M) with true by (symmetry; apply Z.leb_le; unfold M; lia). cbn [andb bind df]. rewrite (u64_id (M - W)) by (unfold M; lia).
  rewrite land_ones, shr_div by lia. assert (HP1 : 0 <= M / 2 ^ ne < 2 ^ 8) by (split; [apply Z.div_pos; lia|apply Z.div_lt_upper_bound; lia]). rewrite u32_id by lia.
  pose proof (Z.div_mod M (2 ^ ne) ltac:(lia)) as DM. pose proof (Z.mod_pos_bound M (2 ^ ne) ltac:(lia)) as MB.
  set (delta := M - (Wm + 1)). assert (HD : 0 < delta < M) by (unfold delta, M; lia).
  destruct (integer_ok ne ltac:(lia) (M - W) M (- mk) delta HD ltac:(lia) 10%nat [] 0 (M / 2 ^ ne) (M mod 2 ^ ne) ten9) as (r & k & Er & Gd & Gl & Gn & G17 & GL & GU).
  { repeat split; constructor. } { lia. } { change (10 ^ Z.of_nat 10) with 10000000000. lia. } { assumption. } { lia. } { reflexivity. }
  rewrite Er. exists r, (k - mk). split; [f_equal; f_equal; lia|]. split; [exact Gd|]. split; [exact Gl|]. split; [exact Gn|].
  split; [exact (digits17 wp wm cf (dval r) delta M Wp Wm Bpm Hcf Ep Em eq_refl eq_refl ltac:(lia) G17)|].
  assert (EM : M - delta = Wm + 1) by (unfold delta; ring). rewrite EM in GL. unfold M in GU. rewrite IQ_sub in GU. rewrite IQ_add in GL. rewrite <- pow2_Z in GL, GU by lia. change (IQ 1) with 1%Q in *.
  assert (P64 : (0 < pow2 64)%Q) by apply pow2_pos. apply Qabs_Qlt_condition in Qp, Qm. set (V := IQ (dval r)) in *. clearbody V.
  assert (U : (V * pow10 (k - mk) < IQ wp * pow2 we)%Q).
  { apply (scale_lt _ _ k mk ne ce we eq_refl). apply (Qmult_le_compat_r _ _ (pow2 64)) in GU; [|lra]. lra. }
  assert (L : (IQ wm * pow2 we < V * pow10 (k - mk))%Q).
  { apply (scale_gt _ _ k mk ne ce we eq_refl). apply (Qmult_le_compat_r _ _ (pow2 64)) in GL; [|lra]. lra. }
  assert (PW : forall x j, 0 <= j -> (IQ (x * 2 ^ s * 2 ^ j) * pow2 we == IQ x * pow2 (e - 11 + j))%Q).
  { intros x j Hj. rewrite !IQ_mul, <- !pow2_Z by lia. replace (e - 11 + j) with (s + j + we) by (unfold we; ring). rewrite !pow2_add. ring. }
  assert (UP : (IQ wp * pow2 we == IQ (2 * f + 1) * pow2 (e - 1))%Q) by (unfold wp; rewrite PW by lia; replace (e - 11 + 10) with (e - 1) by ring; reflexivity).
  pose proof (half_pow e) as HP. pose proof (half_pow (e - 1)) as HP2. replace (e - 1 - 1) with (e - 2) in HP2 by ring. pose proof (pow2_pos (e - 2)) as P2e. split.
  - refine (Qle_lt_trans _ _ _ _ L). unfold wm. destruct (Z.eqb_spec f (2 ^ 52)) as [Ef|Nf].
    + assert (LP : (IQ ((4 * f - 1) * 2 ^ 9) * pow2 we == IQ (4 * f - 1) * pow2 (e - 2))%Q) by (replace ((4 * f - 1) * 2 ^ 9) with ((4 * f - 1) * 2 ^ s * 2 ^ 9) by (rewrite (F52 Ef); ring); rewrite PW by lia; replace (e - 11 + 9) with (e - 2) by ring; reflexivity).
      rewrite LP. rewrite (IQ_sub (4 * f) 1), IQ_mul. change (IQ 1) with 1%Q. change (IQ 4) with 4%Q. destruct (Z.eq_dec e (-1074)) as [E1|N1].
      * rewrite (V2 (or_intror E1)), V0, IQ_sub. rewrite HP, HP2. change (IQ 1) with 1%Q. set (x := pow2 (e - 2)) in *. clearbody x. set (y := IQ f). clearbody y.
        apply Qle_shift_div_r; [reflexivity|]. assert (H : (0 <= 2 * x)%Q) by lra. setoid_replace ((y - 1) * (2 * (2 * x)) + y * (2 * (2 * x)))%Q with ((4 * y - 1) * x * 2 - 2 * x)%Q by ring. lra.
      * rewrite (V3 Ef N1), V0. rewrite HP, HP2, IQ_sub, IQ_mul. change (IQ 1) with 1%Q. change (IQ 2) with 2%Q. set (x := pow2 (e - 2)) in *. clearbody x. set (y := IQ f). clearbody y.
        apply Qle_lteq. right. field.
    + rewrite PW by lia. replace (e - 11 + 10) with (e - 1) by ring. rewrite (V2 (or_introl Nf)), V0. rewrite HP, !IQ_sub, IQ_mul. change (IQ 1) with 1%Q. change (IQ 2) with 2%Q. apply Qle_lteq. right. field.
  - refine (Qlt_le_trans _ _ _ U _). rewrite UP, V0, V1, HP, !IQ_add, IQ_mul. change (IQ 1) with 1%Q. change (IQ 2) with 2%Q. apply Qle_lteq. right. field.
Qed.
