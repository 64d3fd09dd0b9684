(** Digit generation. *)
From Coq Require Import ZArith QArith Qabs Qpower Ascii Lia Lqa Bool List.
From Verif Require Import Base DtoaTable DtoaModel DtoaSpec DtoaProofs1.
Import ListNotations.
Open Scope Z_scope.

Lemma code_chr z : 0 <= z < 256 -> code (chr z) = z.
Proof. intros H. unfold code, chr. rewrite Z.mod_small by assumption. rewrite N_ascii_embedding by lia. lia. Qed.
Lemma digit_chr d : 0 <= d <= 9 -> digit (chr (48 + d)) /\ code (chr (48 + d)) = 48 + d.
Proof. intros H. unfold digit. rewrite code_chr by lia. lia. Qed.
Lemma dval_snoc s c : dval (s ++ [c]) = 10 * dval s + (code c - 48). Proof. unfold dval. now rewrite fold_left_app. Qed.
Definition lead (s : text) : Prop := match s with [] => True | c :: _ => code c <> 48 end.
Lemma dval_nonneg s : Forall digit s -> 0 <= dval s.
Proof. induction s as [|c s IH] using rev_ind; [cbn; lia|]. intros H. apply Forall_app in H as [A B]. inversion B as [|? ? C _]; subst. unfold digit in C. rewrite dval_snoc. specialize (IH A). lia. Qed.
Lemma lead_pos s : Forall digit s -> lead s -> s <> [] -> 1 <= dval s.
Proof.
  induction s as [|c s IH] using rev_ind; [congruence|]. intros H L _. apply Forall_app in H as [A B]. inversion B as [|? ? C _]; subst. unfold digit in C. rewrite dval_snoc.
  destruct s as [|a s]; [cbn [app lead] in L; cbn; lia|]. specialize (IH A L ltac:(discriminate)). lia.
Qed.
Lemma lead_app s t : s <> [] -> lead s -> lead (s ++ t). Proof. destruct s; [congruence|auto]. Qed.

Definition holds (buf : text) (D : Z) : Prop := Forall digit buf /\ lead buf /\ dval buf = D.
Lemma put_ok buf D d : holds buf D -> 0 <= d <= 9 -> holds (put_digit buf d) (10 * D + d) /\ (1 <= 10 * D + d -> put_digit buf d = buf ++ [chr (48 + d)]).
Proof.
  intros (A & B & C) Hd. destruct (digit_chr d Hd) as [E F]. unfold put_digit. destruct (Z.eqb_spec d 0) as [->|N]; cbn [negb orb].
  - destruct buf as [|c buf]; [subst D; split; [repeat split; constructor|cbn; lia]|]. split; [|reflexivity]. split; [apply Forall_app; split; [exact A|repeat constructor; apply E]|].
    split; [apply lead_app; [discriminate|exact B]|]. rewrite dval_snoc, C, F. lia.
  - split; [|reflexivity]. split; [apply Forall_app; split; [exact A|repeat constructor; apply E]|]. split; [|rewrite dval_snoc, C, F; lia].
    destruct buf; [cbn [app lead]; rewrite F; lia|]. apply lead_app; [discriminate|exact B].
Qed.

Lemma dec_last_ok b d : 1 <= d <= 9 -> dec_last (b ++ [chr (48 + d)]) = Ok (b ++ [chr (48 + (d - 1))]).
Proof.
  intros H. induction b as [|c b IH].
  - cbn [app dec_last]. rewrite code_chr by lia. do 3 f_equal. lia.
  - cbn [app dec_last]. destruct (b ++ [chr (48 + d)]) eqn:E; [destruct b; discriminate|]. now rewrite IH.
Qed.
Lemma grisu_round_ok w ten : 0 < ten -> forall fuel b d delta rest, 0 <= rest <= delta -> delta < 2 ^ 64 -> 0 <= d <= 9 -> (Z.to_nat d < fuel)%nat -> delta < rest + (d + 1) * ten ->
  exists j, 0 <= j <= d /\ rest + j * ten <= delta /\ grisu_round fuel (b ++ [chr (48 + d)]) delta rest ten w = Ok (b ++ [chr (48 + (d - j))]).
Proof.
  intros Ht. induction fuel as [|fuel IH]; intros b d delta rest Hr Hdl Hd Hf Hlt; [lia|]. cbn [grisu_round].
  destruct (rest <? w); cbn [andb]; [|exists 0; rewrite Z.sub_0_r; split; [lia|split; [lia|reflexivity]]].
  rewrite (u64_id (delta - rest)) by lia. destruct (Z.leb_spec ten (delta - rest)) as [L|L]; cbn [andb]; [|exists 0; rewrite Z.sub_0_r; split; [lia|split; [lia|reflexivity]]].
  destruct (orb _ _); [|exists 0; rewrite Z.sub_0_r; split; [lia|split; [lia|reflexivity]]].
  assert (1 <= d) by nia. rewrite dec_last_ok by lia. cbn [bind]. rewrite u64_id by lia.
  destruct (IH b (d - 1) delta (rest + ten)) as (j & Hj & Hj2 & E); [lia|lia|lia|lia|lia|]. exists (j + 1). rewrite E. split; [lia|]. split; [lia|]. do 4 f_equal. lia.
Qed.
(** the last digit and its rounding *)
Lemma finish buf D d delta rest ten w : holds buf D -> 0 <= d <= 9 -> 1 <= 10 * D + d -> 0 < ten -> 0 <= rest <= delta -> delta < 2 ^ 64 -> delta < rest + (d + 1) * ten ->
  exists r j, grisu_round round_fuel (put_digit buf d) delta rest ten w = Ok r /\ 0 <= j <= d /\ rest + j * ten <= delta /\ Forall digit r /\ dval r = 10 * D + d - j /\ r <> [] /\ (1 <= 10 * D + d - j -> lead r).
Proof.
  intros HB Hd H1 Ht Hr Hdl Hlt. destruct (put_ok buf D d HB Hd) as [_ E]. rewrite (E H1). destruct HB as (A & B & C).
  destruct (grisu_round_ok w ten Ht round_fuel buf d delta rest Hr Hdl Hd ltac:(unfold round_fuel; lia) Hlt) as (j & Hj & Hj2 & G). rewrite G.
  destruct (digit_chr (d - j) ltac:(lia)) as [Dg Cd]. exists (buf ++ [chr (48 + (d - j))]), j. split; [reflexivity|]. split; [assumption|]. split; [assumption|].
  split; [apply Forall_app; split; [exact A|repeat constructor; apply Dg]|]. split; [rewrite dval_snoc, C, Cd; lia|]. split; [destruct buf; discriminate|]. intros P.
  destruct buf as [|c buf]; [|apply lead_app; [discriminate|exact B]]. cbn [app lead]. rewrite Cd. cbn in C. lia.
Qed.

(** what the generator delivers: digits whose value times 10^kappa, in units of 1/one, lies between M - delta and M *)
Definition generated (r : text) (kappa one M delta : Z) : Prop :=
  Forall digit r /\ lead r /\ r <> [] /\ dval r * delta <= 10 * M /\ (IQ (M - delta) <= IQ (dval r) * pow10 kappa * IQ one)%Q /\ (IQ (dval r) * pow10 kappa * IQ one <= IQ M)%Q.

Section Gen.
  Context (ne : Z) (Hne : 0 <= ne <= 59).
  Local Notation one := (2 ^ ne).
  Lemma one_bound : 0 < one <= 2 ^ 59. Proof. split; [apply Z.pow_pos_nonneg; lia|apply Z.pow_le_mono_r; lia]. Qed.
  Lemma fraction_ok wp_w M K delta0 : 0 < delta0 < M -> forall fuel m buf D p2 delta unit, 0 <= m -> holds buf D -> M * 10 ^ m = D * one + p2 -> 0 <= p2 < one -> delta = delta0 * 10 ^ m -> delta <= p2 ->
    18 - m < Z.of_nat fuel -> exists r kappa, fraction_digits fuel ne one wp_w buf p2 delta unit (- m) K = Ok (r, K + kappa) /\ generated r kappa one M delta0.
  Proof.
    intros HM. pose proof one_bound as Ho. induction fuel as [|fuel IH]; intros m buf D p2 delta unit Hm HB EM Hp Ed Hdp Hf.
    { assert (10 ^ 18 <= 10 ^ m) by (apply Z.pow_le_mono_r; lia). assert (10 ^ m <= delta) by (rewrite Ed; nia). lia. }
    cbn [fraction_digits]. assert (P10 : 0 < 10 ^ m) by (apply Z.pow_pos_nonneg; lia). assert (D10 : delta = delta0 * 10 ^ m) by assumption. assert (0 < delta) by nia.
    rewrite (u64_id (p2 * 10)), (u64_id (delta * 10)) by lia. rewrite shr_div, land_ones by lia.
    pose proof (Z.div_mod (p2 * 10) one ltac:(lia)) as DM. pose proof (Z.mod_pos_bound (p2 * 10) one ltac:(lia)) as MB.
    assert (Hd : 0 <= p2 * 10 / one <= 9) by (split; [apply Z.div_pos; lia|]; assert (p2 * 10 / one < 10) by (apply Z.div_lt_upper_bound; lia); lia).
    set (d := p2 * 10 / one) in *. set (p2' := (p2 * 10) mod one) in *. clearbody d p2'.
    assert (EM' : M * 10 ^ (m + 1) = (10 * D + d) * one + p2') by (rewrite Z.pow_add_r, Z.pow_1_r by lia; nia).
    assert (Ed' : delta * 10 = delta0 * 10 ^ (m + 1)) by (rewrite Z.pow_add_r, Z.pow_1_r by lia; lia).
    replace (- m - 1) with (- (m + 1)) by ring. destruct (Z.ltb_spec p2' (delta * 10)) as [L|L].
    - assert (D1 : 1 <= 10 * D + d). { destruct HB as (A & _ & C). pose proof (dval_nonneg buf A). destruct (Z.eq_dec (10 * D + d) 0) as [Z0|]; [|lia]. rewrite Z0 in EM'. rewrite Ed' in L. assert (0 < 10 ^ (m + 1)) by (apply Z.pow_pos_nonneg; lia). nia. }
      destruct (finish buf D d (delta * 10) p2' one (u64 (wp_w * u64 (unit * 10))) HB Hd D1 ltac:(lia) ltac:(lia) ltac:(lia) ltac:(nia)) as (r & j & G & Hj & Hj2 & Dg & Dv & Ne & Ld).
      rewrite G. cbn [bind]. exists r, (- (m + 1)). split; [reflexivity|]. set (u := 10 ^ (m + 1)) in *. assert (Hu : 0 < u) by (apply Z.pow_pos_nonneg; lia).
      assert (V1 : (M - delta0) * u <= dval r * one <= M * u) by (rewrite Dv; nia).
      split; [exact Dg|]. split; [apply Ld; rewrite <- Dv; assert (0 < dval r * one) by nia; nia|]. split; [exact Ne|].
      split. { pose proof (dval_nonneg r Dg) as DN. assert (B1 : dval r * delta <= dval r * one) by (apply Z.mul_le_mono_nonneg_l; lia). unfold u in V1. rewrite Z.pow_add_r, Z.pow_1_r in V1 by lia. rewrite D10 in B1.
        apply Z.mul_le_mono_pos_r with (p := 10 ^ m); [assumption|]. replace (dval r * delta0 * 10 ^ m) with (dval r * (delta0 * 10 ^ m)) by ring. replace (10 * M * 10 ^ m) with (M * (10 ^ m * 10)) by ring. lia. }
      assert (PU : (pow10 (- (m + 1)) * IQ u == 1)%Q) by (unfold u; rewrite <- pow10_Z, <- pow10_add by lia; replace (- (m + 1) + (m + 1)) with 0 by ring; reflexivity).
      assert (HU : (0 < IQ u)%Q) by (apply (proj1 (IQ_lt 0 u)); exact Hu). set (t := pow10 (- (m + 1))) in *. clearbody t. destruct V1 as [V1 V2]. apply IQ_le in V1, V2. rewrite !IQ_mul in V1, V2.
      split; apply Qmult_le_r with (z := IQ u); try exact HU; setoid_replace (IQ (dval r) * t * IQ one * IQ u)%Q with (IQ (dval r) * IQ one * (t * IQ u))%Q by ring; rewrite PU, Qmult_1_r; assumption.
    - apply (IH (m + 1) _ (10 * D + d) p2' (delta * 10)); try lia. now apply put_ok.
  Qed.
  Lemma integer_ok wp_w M K delta : 0 < delta < M -> M < 2 ^ 64 -> forall k buf D p1 p2 div, holds buf D -> M = (D * 10 ^ Z.of_nat k + p1) * one + p2 -> 0 <= p1 < 10 ^ Z.of_nat k -> 0 <= p2 < one -> delta < p1 * one + p2 ->
    (k <> O -> div = 10 ^ (Z.of_nat k - 1)) ->
    exists r kappa, integer_digits k ne one wp_w buf p1 p2 delta div K = Ok (r, K + kappa) /\ generated r kappa one M delta.
  Proof.
    intros HM HM64. pose proof one_bound as Ho. induction k as [|k IH]; intros buf D p1 p2 div HB EM Hp1 Hp2 Hd Hdiv.
    { cbn [integer_digits]. change (Z.of_nat 0) with 0 in *. apply (fraction_ok wp_w M K delta HM 32 0 buf D p2 delta 1); try lia; assumption. }
    cbn [integer_digits]. specialize (Hdiv ltac:(discriminate)). rewrite Nat2Z.inj_succ, <- Z.add_1_r in *. replace (Z.of_nat k + 1 - 1) with (Z.of_nat k) in Hdiv by ring. rewrite Z.pow_add_r, Z.pow_1_r in * by lia.
    assert (P10 : 0 < 10 ^ Z.of_nat k) by (apply Z.pow_pos_nonneg; lia). assert (Hk : 10 ^ Z.of_nat k = div) by auto. rewrite Hk in *. clear Hdiv.
    pose proof (Z.div_mod p1 div ltac:(lia)) as DM. pose proof (Z.mod_pos_bound p1 div ltac:(lia)) as MB.
    assert (Hdd : 0 <= p1 / div <= 9) by (split; [apply Z.div_pos; lia|]; assert (p1 / div < 10) by (apply Z.div_lt_upper_bound; lia); lia).
    set (d := p1 / div) in *. set (q := p1 mod div) in *. clearbody d q. destruct HB as (A & B & C). pose proof (dval_nonneg buf A) as D0. rewrite C in D0.
    assert (EM' : M = ((10 * D + d) * div + q) * one + p2) by (rewrite EM, DM; ring).
    assert (Q0 : 0 <= q * one) by nia. assert (QM : q * one + p2 <= M) by (assert (0 <= (10 * D + d) * div * one) by (repeat apply Z.mul_nonneg_nonneg; lia); lia).
    rewrite Z.shiftl_mul_pow2 by lia. rewrite (u64_id (q * one)) by lia. rewrite (u64_id (q * one + p2)) by lia.
    destruct (Z.leb_spec (q * one + p2) delta) as [L|L].
    - assert (D1 : 1 <= 10 * D + d) by (destruct (Z.eq_dec (10 * D + d) 0) as [Z0|]; [|lia]; rewrite Z0 in EM'; lia).
      assert (PD : 0 < div * one) by (apply Z.mul_pos_pos; lia). assert (T64 : div * one <= M) by (assert (1 * (div * one) <= (10 * D + d) * (div * one)) by (apply Z.mul_le_mono_nonneg_r; lia); replace (((10 * D + d) * div + q) * one) with ((10 * D + d) * (div * one) + q * one) in EM' by ring; lia). rewrite Z.shiftl_mul_pow2 by lia. rewrite (u64_id (div * one)) by lia.
      destruct (finish buf D d delta (q * one + p2) (div * one) wp_w (conj A (conj B C)) Hdd D1 ltac:(nia) ltac:(lia) ltac:(lia)) as (r & j & G & Hj & Hj2 & Dg & Dv & Ne & Ld).
      { rewrite DM in Hd. nia. }
      rewrite G. cbn [bind]. exists r, (Z.of_nat k). split; [reflexivity|].
      assert (V1 : M - delta <= dval r * div * one <= M) by (rewrite Dv; nia).
      split; [exact Dg|]. split; [apply Ld; rewrite <- Dv; assert (0 < dval r * (div * one)) by lia; nia|]. split; [exact Ne|].
      split. { pose proof (dval_nonneg r Dg) as DN. assert (PB : p1 * one + p2 <= 10 * (div * one)) by (assert ((p1 + 1) * one <= (div * 10) * one) by (apply Z.mul_le_mono_nonneg_r; lia); lia).
        assert (B1 : dval r * delta <= dval r * (10 * (div * one))) by (apply Z.mul_le_mono_nonneg_l; lia). replace (dval r * (10 * (div * one))) with (10 * (dval r * div * one)) in B1 by ring. lia. }
      rewrite pow10_Z, Hk by lia. destruct V1 as [V1 V2]. rewrite <- !IQ_mul.
      split; apply (proj1 (IQ_le _ _)); assumption.
    - apply (IH _ (10 * D + d) q p2 (div / 10)); try lia; [apply put_ok; [now repeat split|assumption]|].
      intros Nk. rewrite <- Hk. replace (Z.of_nat k) with (Z.of_nat k - 1 + 1) at 1 by ring. rewrite Z.pow_add_r by lia. now apply Z.div_mul.
  Qed.
End Gen.
