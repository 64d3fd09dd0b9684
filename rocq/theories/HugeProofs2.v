(** Lemmas: trimming, schoolbook and Karatsuba multiplication. *)
From Coq Require Import ZArith String Ascii Lia Bool List.
From Verif Require Import Base HugeModel HugeSpec HugeProofs1.
Import ListNotations.
Open Scope Z_scope.

(** ** trim_back *)
Lemma trim_back_snoc v x : trim_back (v ++ [x]) = if x =? 0 then trim_back v else Ok (v ++ [x]).
Proof.
  unfold trim_back. rewrite rev_app_distr. cbn [rev app pop_zeros].
  destruct (x =? 0); [reflexivity|]. cbn [bind].
  rewrite <- (rev_involutive (v ++ [x])), rev_app_distr. reflexivity.
Qed.

Lemma trim_back_zero v : wf v -> dval v = 0 -> trim_back v = Ub "back() on an empty vector".
Proof.
  induction v as [|x v IH] using rev_ind; intros Hw E; [reflexivity|].
  apply wf_app in Hw. destruct Hw as [Hw Hx]. apply wf_cons in Hx. destruct Hx as [Hx _].
  rewrite dval_app in E. cbn [dval] in E.
  pose proof (dval_bound v Hw). pose proof (BASEn_pos (Z.of_nat (length v)) ltac:(lia)).
  assert (x = 0) by nia. subst x.
  rewrite trim_back_snoc. cbn [Z.eqb]. apply IH; [assumption|lia].
Qed.

Lemma trim_back_pos v : wf v -> dval v <> 0 ->
  exists r, trim_back v = Ok r /\ canon r /\ dval r = dval v /\ (length r <= length v)%nat /\ r <> [].
Proof.
  induction v as [|x v IH] using rev_ind; intros Hw E; [cbn in E; congruence|].
  apply wf_app in Hw. destruct Hw as [Hw Hx].
  rewrite trim_back_snoc.
  destruct (Z.eqb_spec x 0) as [->|Hx0].
  - rewrite dval_app in *. cbn [dval] in *.
    destruct (IH Hw) as (r & R1 & R2 & R3 & R4 & R5); [lia|].
    exists r. repeat split; try assumption; try (apply R2); try lia.
    rewrite app_length; cbn [length]; lia.
  - exists (v ++ [x]). repeat split; try lia.
    + apply wf_app; auto.
    + intros _. rewrite last_last. exact Hx0.
    + destruct v; discriminate.
Qed.

Lemma trim_back_ok v r : wf v -> trim_back v = Ok r -> canon r /\ dval r = dval v /\ dval r <> 0 /\ (length r <= length v)%nat.
Proof.
  intros Hw E. destruct (Z.eq_dec (dval v) 0) as [Z0|Z0].
  - rewrite trim_back_zero in E by assumption. discriminate.
  - destruct (trim_back_pos v Hw Z0) as (r' & R1 & R2 & R3 & R4 & R5).
    rewrite R1 in E. inversion E; subst. repeat split; try assumption; try apply R2. lia.
Qed.

Lemma trim_back_shape v : wf v -> is_throw (trim_back v) = false /\ trim_back v <> Fuel.
Proof.
  intros Hw. destruct (Z.eq_dec (dval v) 0) as [Z0|Z0].
  - rewrite trim_back_zero by assumption. split; [reflexivity|discriminate].
  - destruct (trim_back_pos v Hw Z0) as (r' & R1 & _). rewrite R1. split; [reflexivity|discriminate].
Qed.

(** ** schoolbook *)
Lemma mul_row_spec ai b : forall carry f z, 0 <= ai < BASE -> 0 <= carry < BASE -> wf b -> wf f ->
  length f = length b ->
  exists f', mul_row ai carry b (f ++ 0 :: z) = Ok (f' ++ z) /\ wf f' /\ length f' = S (length b) /\
             dval f' = dval f + ai * dval b + carry.
Proof.
  induction b as [|y b IH]; intros carry f z Ha Hc Hb Hf L.
  - destruct f; [|discriminate]. cbn [mul_row app].
    destruct (Z.eqb_spec carry 0) as [->|N].
    + exists [0]. repeat split; [apply wf_cons; split; [rewrite BASE_val; lia|apply wf_nil]|cbn [dval]; lia].
    + exists [carry]. rewrite land_MASK, Z.mod_small by assumption.
      rewrite (u32_small carry), Z.add_0_l, u32_small by (rewrite BASE_val in *; change (2 ^ 32) with 4294967296; lia).
      repeat split; [apply wf_cons; split; [assumption|apply wf_nil]|cbn [dval]; lia].
  - destruct f as [|r f]; [discriminate|]. cbn [length] in L. cbn [mul_row app].
    apply wf_cons in Hb, Hf. destruct Hb as [Hy Hb], Hf as [Hr Hf].
    assert (B1 : 0 <= y * ai <= (BASE - 1) * (BASE - 1)).
    { split; [nia|]. apply Z.mul_le_mono_nonneg; lia. }
    assert (B2 : (BASE - 1) * (BASE - 1) = 1152921502459363329) by reflexivity.
    rewrite (u64_small (y * ai)) by (change (2 ^ 64) with 18446744073709551616; lia).
    rewrite (u64_small (r + y * ai)) by (change (2 ^ 64) with 18446744073709551616; rewrite BASE_val in *; lia).
    rewrite u64_small by (change (2 ^ 64) with 18446744073709551616; rewrite BASE_val in *; lia).
    set (c := carry + (r + y * ai)) in *.
    rewrite land_MASK, shiftr_SHIFT.
    pose proof (Z.div_mod c BASE ltac:(discriminate)) as DM.
    pose proof (Z.mod_pos_bound c BASE ltac:(reflexivity)) as MB.
    assert (Hc' : 0 <= c / BASE < BASE).
    { split; [apply Z.div_pos; [lia|reflexivity]|]. apply Z.div_lt_upper_bound; [reflexivity|].
      unfold c. rewrite B2 in B1. rewrite BASE_val in *. lia. }
    destruct (IH (c / BASE) f z Ha Hc' Hb Hf ltac:(lia)) as (f' & F1 & F2 & F3 & F4).
    rewrite F1. cbn [bind].
    rewrite u32_small by (rewrite BASE_val in *; change (2 ^ 32) with 4294967296; lia).
    exists (c mod BASE :: f'). repeat split.
    + apply wf_cons; auto.
    + cbn [length]; lia.
    + rewrite !dval_cons, F4. unfold c in *. nia.
Qed.

Lemma mul_rows_spec a : forall b f, wf a -> wf b -> wf f -> length f = length b ->
  exists r, mul_rows a b (f ++ repeat 0 (length a)) = Ok r /\ wf r /\ length r = (length a + length b)%nat /\
            dval r = dval f + dval a * dval b.
Proof.
  induction a as [|x a IH]; intros b f Ha Hb Hf L.
  - cbn [length repeat mul_rows]. rewrite app_nil_r. exists f.
    repeat split; auto. cbn [dval]. lia.
  - apply wf_cons in Ha. destruct Ha as [Hx Ha]. cbn [length repeat mul_rows].
    destruct (mul_row_spec x b 0 f (repeat 0 (length a)) Hx ltac:(rewrite BASE_val; lia) Hb Hf L)
      as (f' & F1 & F2 & F3 & F4).
    rewrite F1. cbn [bind]. destruct f' as [|r f']; [discriminate|]. cbn [app].
    apply wf_cons in F2. destruct F2 as [Hr F2].
    destruct (IH b f' Ha Hb F2 ltac:(cbn [length] in F3; lia)) as (r' & R1 & R2 & R3 & R4).
    rewrite R1. cbn [bind]. exists (r :: r'). repeat split.
    + apply wf_cons; auto.
    + cbn [length]; lia.
    + rewrite !dval_cons in *. rewrite R4. nia.
Qed.

Lemma simple_mul_pre a b : wf a -> wf b ->
  exists r, wf r /\ length r = (length a + length b)%nat /\ dval r = dval a * dval b /\
            digits_simple_mul a b = trim_back r.
Proof.
  intros Ha Hb. unfold digits_simple_mul.
  destruct (mul_rows_spec a b (repeat 0 (length b)) Ha Hb (wf_repeat0 _) (repeat_length _ _))
    as (r & R1 & R2 & R3 & R4).
  rewrite <- repeat_app in R1. rewrite Nat.add_comm. rewrite R1. cbn [bind].
  rewrite dval_repeat0 in R4. exists r. repeat split; auto; lia.
Qed.

(** ** modular view of the in-place operations *)
Lemma inplace_sub_trunc x : forall y borrow,
  inplace_sub_loop borrow x y = inplace_sub_loop borrow x (firstn (length x) y).
Proof.
  induction x as [|a x IH]; intros y borrow; cbn [inplace_sub_loop length]; [reflexivity|].
  destruct y as [|b y]; cbn [firstn]; [reflexivity|]. rewrite IH. reflexivity.
Qed.
Lemma inplace_add_trunc x : forall y carry,
  inplace_add_loop carry x y = inplace_add_loop carry x (firstn (length x) y).
Proof.
  induction x as [|a x IH]; intros y carry; cbn [inplace_add_loop length]; [reflexivity|].
  destruct y as [|b y]; cbn [firstn]; [reflexivity|]. rewrite IH. reflexivity.
Qed.
Lemma dval_firstn_mod n y : wf y -> dval (firstn n y) mod BASE ^ Z.of_nat n = dval y mod BASE ^ Z.of_nat n.
Proof.
  intros Hw. rewrite <- (firstn_skipn n y) at 2. rewrite dval_app.
  destruct (Nat.le_gt_cases n (length y)) as [L|L].
  - rewrite firstn_length_le by lia.
    rewrite Z.mul_comm, Z_mod_plus_full. reflexivity.
  - rewrite skipn_all2 by lia. cbn [dval]. f_equal. lia.
Qed.

Lemma inplace_sub_mod x y : wf x -> wf y ->
  let r := fst (digits_inplace_sub x y) in
  wf r /\ length r = length x /\
  dval r = (dval x - dval y) mod BASE ^ Z.of_nat (length x).
Proof.
  intros Hx Hy r. unfold r, digits_inplace_sub. rewrite inplace_sub_trunc.
  assert (L : (length (firstn (length x) y) <= length x)%nat) by (rewrite firstn_length; lia).
  destruct (inplace_sub_spec x (firstn (length x) y) 0 Hx (wf_firstn _ _ Hy) L ltac:(lia))
    as (I1 & I2 & I3 & I4).
  repeat split; try assumption.
  pose proof (dval_bound _ I1) as D. rewrite I2 in D.
  rewrite <- (Z.mod_small (dval _) _ D), I4.
  set (P := BASE ^ _). rewrite Z.mul_comm, Z_mod_plus_full, Z.sub_0_r.
  rewrite Zminus_mod, (Zminus_mod (dval x) (dval y)). unfold P. rewrite dval_firstn_mod by assumption. reflexivity.
Qed.
Lemma inplace_add_mod x y : wf x -> wf y ->
  let r := fst (digits_inplace_add x y) in
  wf r /\ length r = length x /\
  dval r = (dval x + dval y) mod BASE ^ Z.of_nat (length x).
Proof.
  intros Hx Hy r. unfold r, digits_inplace_add. rewrite inplace_add_trunc.
  assert (L : (length (firstn (length x) y) <= length x)%nat) by (rewrite firstn_length; lia).
  destruct (inplace_add_spec x (firstn (length x) y) 0 Hx (wf_firstn _ _ Hy) L ltac:(lia))
    as (I1 & I2 & I3 & I4).
  repeat split; try assumption.
  pose proof (dval_bound _ I1) as D. rewrite I2 in D.
  rewrite <- (Z.mod_small (dval _) _ D).
  set (P := BASE ^ _) in *.
  match type of I4 with ?l = _ => idtac | _ => idtac end.
  transitivity ((dval x + dval (firstn (length x) y)) mod P).
  - match goal with |- ?A mod P = _ =>
      replace (dval x + dval (firstn (length x) y)) with (A + snd (inplace_add_loop 0 x (firstn (length x) y)) * P) by lia end.
    now rewrite Z_mod_plus_full.
  - rewrite Zplus_mod, (Zplus_mod (dval x) (dval y)). unfold P. rewrite dval_firstn_mod by assumption. reflexivity.
Qed.

(** ** comparison of well-formed (possibly non-canonical) vectors *)
Lemma digits_cmp_eq_wf a b : wf a -> wf b -> digits_cmp a b true true = 0 <-> a = b.
Proof.
  intros Ha Hb. unfold digits_cmp. split.
  - destruct (Z.eqb_spec (1 * Z.of_nat (length a) - 1 * Z.of_nat (length b)) 0) as [E|E]; [|intros; lia].
    intros C. assert (L : length a = length b) by lia.
    pose proof (cmp_loop_spec a b Ha Hb L) as S. rewrite C in S. cbn in S.
    apply dval_inj_len; auto.
    destruct (dval a - dval b) eqn:E2; cbn in S; try discriminate. lia.
  - intros ->. rewrite Z.sub_diag. cbn [Z.eqb].
    pose proof (cmp_loop_spec b b Hb Hb eq_refl) as S. rewrite Z.sub_diag in S. cbn in S.
    destruct (cmp_loop (rev b) (rev b)); cbn in S; congruence.
Qed.

(** ** write_at *)
Lemma write_at_zeros n pos t : (pos + length t <= n)%nat ->
  write_at (repeat 0 n) pos t = Ok (repeat 0 pos ++ t ++ repeat 0 (n - pos - length t)).
Proof.
  intros L. unfold write_at. rewrite repeat_length.
  destruct (Nat.leb_spec (pos + length t) n); [|lia].
  assert (E : repeat 0 n = repeat 0 pos ++ repeat 0 (n - pos)) by (rewrite <- repeat_app; f_equal; lia).
  f_equal. rewrite E at 1. rewrite firstn_app, repeat_length, Nat.sub_diag. cbn [firstn].
  rewrite app_nil_r, firstn_all2 by (rewrite repeat_length; lia).
  do 2 f_equal. replace n with ((pos + length t) + (n - pos - length t))%nat at 1 by lia.
  rewrite repeat_app, skipn_app, repeat_length, Nat.sub_diag. cbn [skipn].
  rewrite skipn_all2 by (rewrite repeat_length; lia). reflexivity.
Qed.

(** ** Karatsuba *)
Lemma canon_length_le t n : canon t -> dval t < BASE ^ Z.of_nat n -> (length t <= n)%nat.
Proof.
  intros Hc V. destruct (Nat.le_gt_cases (length t) n) as [L|L]; [assumption|exfalso].
  assert (t <> []) by (destruct t; cbn in L; [lia|congruence]).
  pose proof (canon_lower t Hc H).
  pose proof (pow_le_mono (Z.of_nat n) (Z.of_nat (length t) - 1)). lia.
Qed.
Lemma mul_length c d t : wf c -> wf d -> canon t -> dval t = dval c * dval d ->
  (length t <= length c + length d)%nat.
Proof.
  intros Hc Hd Ht E. apply canon_length_le; [assumption|].
  rewrite E, Nat2Z.inj_add, Z.pow_add_r by lia.
  pose proof (dval_bound c Hc). pose proof (dval_bound d Hd).
  apply Z.mul_lt_mono_nonneg; lia.
Qed.

Lemma kara_arith al ah bl bh lo hi S P a b :
  0 < S -> 0 < P -> 0 <= lo -> 0 <= hi -> 0 <= al -> 0 <= ah -> 0 <= bl -> 0 <= bh ->
  a = al + S * ah -> b = bl + S * bh -> a * b < S * P ->
  lo + S * hi = al * bl + S * S * (ah * bh) ->
  lo + S * ((((hi - al * bl) mod P - ah * bh) mod P + (ah + al) * (bh + bl)) mod P) = a * b.
Proof.
  intros HS HP Hlo Hhi Hal Hah Hbl Hbh Ea Eb Hlt E.
  rewrite Zminus_mod_idemp_l, Zplus_mod_idemp_l.
  replace (hi - al * bl - ah * bh + (ah + al) * (bh + bl)) with (hi + (al * bh + ah * bl)) by ring.
  assert (V : a * b = lo + S * (hi + (al * bh + ah * bl))) by (transitivity (lo + S * hi + S * (al * bh + ah * bl)); [rewrite E; subst a b; ring|ring]).
  rewrite Z.mod_small; [lia|].
  assert (0 <= al * bh) by nia. assert (0 <= ah * bl) by nia.
  split; [lia|]. rewrite V in Hlt. nia.
Qed.

Lemma k_split_spec n s : wf n ->
  wf (fst (k_mul_split n s)) /\ wf (snd (k_mul_split n s)) /\
  length (snd (k_mul_split n s)) = Nat.min (length n) s /\
  length (fst (k_mul_split n s)) = (length n - s)%nat /\
  dval n = dval (snd (k_mul_split n s)) + BASE ^ Z.of_nat s * dval (fst (k_mul_split n s)).
Proof.
  intros Hw. unfold k_mul_split. cbn [fst snd].
  repeat split; [now apply wf_skipn|now apply wf_firstn|rewrite firstn_length; lia|rewrite skipn_length; lia|].
  destruct (Nat.le_gt_cases s (length n)) as [L|L].
  - rewrite Nat.min_r by lia. rewrite <- (firstn_skipn s n) at 1. rewrite dval_app, firstn_length_le by lia. reflexivity.
  - rewrite Nat.min_l by lia. rewrite firstn_all, skipn_all. cbn [dval]. lia.
Qed.

(** The combination step (266-292), for any recursive multiplier that is right on the three sub-products. *)
Definition kara_step (rec : list Z -> list Z -> res (list Z)) (n s : nat) (ah al bh bl s1 s2 : list Z) : res (list Z) :=
  t1 <- rec ah bh ;;
  ret <- write_at (repeat 0 n) (s * 2) t1 ;;
  t2 <- rec al bl ;;
  ret <- write_at ret 0 t2 ;;
  let mid1 := fst (digits_inplace_sub (skipn s ret) t2) in
  let mid2 := fst (digits_inplace_sub mid1 t1) in
  t3 <- rec s1 s2 ;;
  let mid3 := fst (digits_inplace_add mid2 t3) in
  trim_back (firstn s ret ++ mid3).

Definition good (c d : list Z) (r : res (list Z)) : Prop :=
  match r with
  | Ok t => canon t /\ dval t = dval c * dval d
  | Ub _ => c <> [] /\ d <> []
  | _ => False
  end.

Lemma kara_step_spec rec a b s ah al bh bl :
  wf a -> wf b -> (length a <= length b)%nat -> a <> [] -> b <> [] -> (1 <= s)%nat -> (2 * s <= length b)%nat ->
  k_mul_split a s = (ah, al) -> k_mul_split b s = (bh, bl) ->
  good ah bh (rec ah bh) -> good al bl (rec al bl) ->
  good (digits_add ah al) (digits_add bh bl) (rec (digits_add ah al) (digits_add bh bl)) ->
  good a b (kara_step rec (length a + length b) s ah al bh bl (digits_add ah al) (digits_add bh bl)).
Proof.
  intros Ha Hb Lab Na Nb Hs Hs2 Ka Kb G1 G2 G3. unfold kara_step.
  pose proof (k_split_spec a s Ha) as KA. rewrite Ka in KA. cbn [fst snd] in KA.
  pose proof (k_split_spec b s Hb) as KB. rewrite Kb in KB. cbn [fst snd] in KB.
  destruct KA as (A1 & A2 & A3 & A4 & A5), KB as (B1 & B2 & B3 & B4 & B5). clear Ka Kb.
  destruct (digits_add_spec ah al A1 A2) as [W1 V1].
  destruct (digits_add_spec bh bl B1 B2) as [W2 V2].
  destruct (rec ah bh) as [t1|m|w|]; cbn [good bind] in *; try tauto. destruct G1 as [C1 P1].
  pose proof (mul_length ah bh t1 A1 B1 C1 P1) as L1.
  assert (L1' : ah = [] -> t1 = []).
  { intros ->. apply canon_zero; [assumption|]. rewrite P1. reflexivity. }
  assert (LL1 : (s * 2 + length t1 <= length a + length b)%nat).
  { destruct ah as [|xx ah]; [rewrite L1' by reflexivity; cbn [length]; lia|cbn [length] in *; lia]. }
  rewrite write_at_zeros by assumption. cbn [bind].
  destruct (rec al bl) as [t2|m|w|]; cbn [good bind] in *; try tauto. destruct G2 as [C2 P2].
  pose proof (mul_length al bl t2 A2 B2 C2 P2) as L2.
  assert (L2' : (length t2 <= s * 2)%nat) by lia.
  unfold write_at at 1.
  set (R1 := repeat 0 (s * 2) ++ t1 ++ repeat 0 (length a + length b - s * 2 - length t1)).
  assert (LR1 : length R1 = (length a + length b)%nat) by (unfold R1; rewrite !app_length, !repeat_length; lia).
  destruct (Nat.leb_spec (0 + length t2) (length R1)) as [LQ|LQ]; [|lia]. cbn [bind firstn app Nat.add].
  set (R2 := t2 ++ skipn (length t2) R1).
  assert (ER2 : R2 = t2 ++ repeat 0 (s * 2 - length t2) ++ t1 ++ repeat 0 (length a + length b - s * 2 - length t1)).
  { unfold R2, R1. f_equal. rewrite skipn_app, repeat_length.
    replace (length t2 - s * 2)%nat with 0%nat by lia. cbn [skipn]. f_equal.
    replace (s * 2)%nat with (length t2 + (s * 2 - length t2))%nat at 1 by lia.
    rewrite repeat_app, skipn_app, repeat_length, Nat.sub_diag. cbn [skipn].
    rewrite skipn_all2 by (rewrite repeat_length; lia). reflexivity. }
  assert (WR2 : wf R2).
  { rewrite ER2. repeat (apply wf_app; split); try apply wf_repeat0; apply canon_wf; assumption. }
  assert (VR2 : dval R2 = dval t2 + BASE ^ Z.of_nat s * BASE ^ Z.of_nat s * dval t1).
  { rewrite ER2, !dval_app, !dval_repeat0, repeat_length.
    rewrite <- Z.pow_add_r by lia.
    replace (BASE ^ (Z.of_nat s + Z.of_nat s)) with (BASE ^ Z.of_nat (length t2) * BASE ^ Z.of_nat (s * 2 - length t2)).
    - ring.
    - rewrite <- Z.pow_add_r by lia. f_equal. lia. }
  assert (LR2 : length R2 = (length a + length b)%nat).
  { rewrite ER2, !app_length, !repeat_length. lia. }
  clearbody R2. clear ER2 R1 LR1 LQ.
  destruct (inplace_sub_mod (skipn s R2) t2 (wf_skipn _ _ WR2) (canon_wf _ C2)) as (M1 & M2 & M3).
  set (mid1 := fst (digits_inplace_sub (skipn s R2) t2)) in *.
  destruct (inplace_sub_mod mid1 t1 M1 (canon_wf _ C1)) as (M4 & M5 & M6).
  set (mid2 := fst (digits_inplace_sub mid1 t1)) in *.
  destruct (rec (digits_add ah al) (digits_add bh bl)) as [t3|m|w|]; cbn [good bind] in *; try tauto.
  destruct G3 as [C3 P3].
  destruct (inplace_add_mod mid2 t3 M4 (canon_wf _ C3)) as (M7 & M8 & M9).
  set (mid3 := fst (digits_inplace_add mid2 t3)) in *.
  set (F := firstn s R2 ++ mid3).
  assert (WF : wf F) by (unfold F; apply wf_app; split; [now apply wf_firstn|assumption]).
  assert (VF : dval F = dval a * dval b).
  { unfold F. rewrite dval_app, firstn_length_le by (clear - Hs2 LR2; lia).
    rewrite M9, M6, M5, M3, M2, P3, V1, V2, P1, P2.
    set (P := BASE ^ Z.of_nat (length (skipn s R2))).
    assert (EP : BASE ^ Z.of_nat s * P = BASE ^ Z.of_nat (length a + length b)).
    { unfold P. rewrite skipn_length, LR2, <- Z.pow_add_r by (clear; lia). f_equal. clear - Hs2; lia. }
    apply kara_arith with (al := dval al) (ah := dval ah) (bl := dval bl) (bh := dval bh);
      try (apply dval_nonneg; auto using wf_firstn, wf_skipn); try assumption; try (apply BASEn_pos; lia).
    - rewrite EP, Nat2Z.inj_add, Z.pow_add_r by lia.
      pose proof (dval_bound a Ha). pose proof (dval_bound b Hb).
      apply Z.mul_lt_mono_nonneg; lia.
    - rewrite <- P1, <- P2, <- VR2. rewrite <- (firstn_skipn s R2) at 3.
      rewrite dval_app, firstn_length_le by (clear - Hs2 LR2; lia). reflexivity. }
  unfold good. destruct (trim_back F) as [t|m|w|] eqn:ET.
  - destruct (trim_back_ok F t WF ET) as (T1 & T2 & _). rewrite T2. auto.
  - destruct (trim_back_shape F WF) as [X _]; rewrite ET in X; discriminate.
  - auto.
  - destruct (trim_back_shape F WF) as [_ X]; rewrite ET in X; congruence.
Qed.

Lemma simple_mul_good a b : wf a -> wf b -> a <> [] -> b <> [] -> good a b (digits_simple_mul a b).
Proof.
  intros Ha Hb Na Nb. destruct (simple_mul_pre a b Ha Hb) as (r & R1 & R2 & R3 & R4). rewrite R4.
  unfold good. rewrite <- R3.
  destruct (trim_back r) as [t|m|w|] eqn:ET.
  - destruct (trim_back_ok r t R1 ET) as (T1 & T2 & _). auto.
  - destruct (trim_back_shape r R1) as [X _]; rewrite ET in X; discriminate.
  - auto.
  - destruct (trim_back_shape r R1) as [_ X]; rewrite ET in X; congruence.
Qed.

Lemma good_swap c d r : good c d r -> good d c r.
Proof. unfold good. destruct r; try tauto. rewrite (Z.mul_comm (dval c)). tauto. Qed.

Lemma mul_fuel_spec fuel : forall c d, wf c -> wf d -> (Nat.max (length c) (length d) < fuel)%nat ->
  good c d (digits_mul_fuel fuel c d).
Proof.
  induction fuel as [|fuel IH]; intros c d Hc Hd HF; [lia|]. cbn [digits_mul_fuel].
  destruct (Nat.eqb_spec (length c) 0) as [Ec|Ec].
  { destruct c; [|cbn in Ec; lia]. cbn [orb good]. split; [apply canon_nil|cbn [dval]; lia]. }
  destruct (Nat.eqb_spec (length d) 0) as [Ed|Ed].
  { destruct d; [|cbn in Ed; lia]. cbn [orb good]. split; [apply canon_nil|cbn [dval]; lia]. }
  cbn [orb].
  assert (Nc : c <> []) by (intro; subst; cbn in *; lia).
  assert (Nd : d <> []) by (intro; subst; cbn in *; lia).
  set (a := if Nat.ltb (length c) (length d) then c else d).
  set (b := if Nat.ltb (length c) (length d) then d else c).
  assert (AB : wf a /\ wf b /\ a <> [] /\ b <> [] /\ (length a <= length b < S fuel)%nat /\ (c = d -> a = b)
               /\ forall r, good a b r -> good c d r).
  { unfold a, b. destruct (Nat.ltb_spec (length c) (length d)); repeat split; auto; try lia. apply good_swap. }
  destruct AB as (Ha & Hb & Na & Nb & Lab & Eab & AB). apply AB. clear AB.
  clearbody a b.
  set (eq := digits_cmp c d true true =? 0).
  assert (Heq : eq = true -> a = b).
  { unfold eq. intros Q. apply Z.eqb_eq, digits_cmp_eq_wf in Q; auto. }
  clearbody eq. clear Eab Hc Hd HF Ec Ed Nc Nd c d.
  assert (Hk : (70 <= (if eq then square_cut_off else cut_off))%nat) by (destruct eq; vm_compute; lia).
  set (k := if eq then square_cut_off else cut_off) in *. clearbody k.
  destruct (Nat.leb_spec (length a) k) as [Lk|Lk]; [now apply simple_mul_good|].
  set (s := Nat.div (length b) 2).
  assert (Hs : (2 <= s /\ 2 * s <= length b <= 2 * s + 1)%nat).
  { unfold s. pose proof (Nat.div_mod (length b) 2 ltac:(lia)).
    pose proof (Nat.mod_upper_bound (length b) 2 ltac:(lia)). lia. }
  clearbody s.
  destruct (k_mul_split a s) as [ah al] eqn:Ka.
  destruct (k_mul_split b s) as [bh bl] eqn:Kb.
  assert (E1 : (if eq then (ah, al) else (bh, bl)) = (bh, bl)).
  { destruct eq; [|reflexivity]. rewrite (Heq eq_refl) in Ka. congruence. }
  rewrite E1.
  assert (E2 : (if eq then digits_add ah al else digits_add bh bl) = digits_add bh bl).
  { destruct eq; [|reflexivity]. injection E1 as -> ->. reflexivity. }
  rewrite E2.
  apply (kara_step_spec (digits_mul_fuel fuel)); auto; try lia.
  all: pose proof (k_split_spec a s Ha) as KA; rewrite Ka in KA; cbn [fst snd] in KA;
    pose proof (k_split_spec b s Hb) as KB; rewrite Kb in KB; cbn [fst snd] in KB;
    destruct KA as (A1 & A2 & A3 & A4 & A5), KB as (B1 & B2 & B3 & B4 & B5).
  - apply IH; auto. lia.
  - apply IH; auto. lia.
  - pose proof (digits_add_length ah al A1 A2). pose proof (digits_add_length bh bl B1 B2).
    apply IH; [apply digits_add_spec; auto|apply digits_add_spec; auto|lia].
Qed.

Lemma digits_mul_good c d : wf c -> wf d -> good c d (digits_mul c d).
Proof. intros. apply mul_fuel_spec; auto. Qed.

(** Below the cut-off multiplication of nonzero numbers always returns. *)
Lemma digits_mul_small c d : canon c -> canon d ->
  (Nat.min (length c) (length d) <= cut_off)%nat \/ (c = d /\ (length c <= square_cut_off)%nat) ->
  exists t, digits_mul c d = Ok t.
Proof.
  intros Hc Hd L. unfold digits_mul. cbn [digits_mul_fuel].
  destruct (Nat.eqb_spec (length c) 0) as [Ec|Ec]; [cbn [orb]; eauto|].
  destruct (Nat.eqb_spec (length d) 0) as [Ed|Ed]; [cbn [orb]; eauto|]. cbn [orb].
  assert (Nc : c <> []) by (intro; subst; cbn in *; lia).
  assert (Nd : d <> []) by (intro; subst; cbn in *; lia).
  pose proof (canon_pos c Hc Nc). pose proof (canon_pos d Hd Nd).
  pose proof (canon_wf c Hc) as Wc. pose proof (canon_wf d Hd) as Wd.
  set (a := if Nat.ltb (length c) (length d) then c else d).
  set (b := if Nat.ltb (length c) (length d) then d else c).
  assert (SM : exists t, digits_simple_mul a b = Ok t).
  { destruct (simple_mul_pre a b) as (r & R1 & R2 & R3 & R4).
    - unfold a; destruct (Nat.ltb _ _); auto.
    - unfold b; destruct (Nat.ltb _ _); auto.
    - rewrite R4. destruct (trim_back_pos r R1) as (t & T & _); [|eauto].
      rewrite R3. unfold a, b. destruct (Nat.ltb _ _); nia. }
  assert (Q : Nat.leb (length a) (if digits_cmp c d true true =? 0 then square_cut_off else cut_off) = true).
  { apply Nat.leb_le. assert (LA : length a = Nat.min (length c) (length d)).
    { unfold a. destruct (Nat.ltb_spec (length c) (length d)); lia. }
    destruct L as [L|[-> L]].
    - rewrite LA. destruct (_ =? 0); [|lia].
      assert ((cut_off <= square_cut_off)%nat) by (vm_compute; lia). lia.
    - rewrite (proj2 (digits_cmp_eq_wf d d Wd Wd) eq_refl). cbn [Z.eqb]. rewrite LA. lia. }
  rewrite Q. exact SM.
Qed.
