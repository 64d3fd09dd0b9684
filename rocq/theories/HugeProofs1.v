(** Lemmas: digit basics, addition, subtraction, comparison. *)
From Coq Require Import ZArith String Ascii Lia Bool List.
From Verif Require Import Base HugeModel HugeSpec.
Import ListNotations.
Open Scope Z_scope.

Lemma BASE_val : BASE = 1073741824. Proof. reflexivity. Qed.
Lemma pow30 : 2 ^ 30 = 1073741824. Proof. reflexivity. Qed.

Lemma land_MASK x : Z.land x MASK = x mod BASE.
Proof.
  change MASK with (Z.ones 30). rewrite Z.land_ones by lia. reflexivity.
Qed.
Lemma shiftr_SHIFT x : Z.shiftr x SHIFT = x / BASE.
Proof. unfold SHIFT. rewrite Z.shiftr_div_pow2 by lia. reflexivity. Qed.
Lemma shiftl_SHIFT x : Z.shiftl x SHIFT = x * BASE.
Proof. unfold SHIFT. rewrite Z.shiftl_mul_pow2 by lia. reflexivity. Qed.

Lemma u32_small x : 0 <= x < 2 ^ 32 -> u32 x = x.
Proof. intros; unfold u32; apply Z.mod_small; lia. Qed.
Lemma u64_small x : 0 <= x < 2 ^ 64 -> u64 x = x.
Proof. intros; unfold u64; apply Z.mod_small; lia. Qed.
Lemma u32_range x : 0 <= u32 x < 2 ^ 32.
Proof. unfold u32; apply Z.mod_pos_bound; lia. Qed.
Lemma swrap_small w x : 0 < w -> - 2 ^ (w - 1) <= x < 2 ^ (w - 1) -> swrap w x = x.
Proof.
  intros Hw Hx; unfold swrap.
  assert (E : 2 ^ w = 2 * 2 ^ (w - 1)).
  { replace w with (Z.succ (w - 1)) at 1 by lia. rewrite Z.pow_succ_r by lia. ring. }
  destruct (Z_lt_le_dec x 0) as [Hn|Hn].
  - assert (E1 : x mod 2 ^ w = x + 2 ^ w).
    { symmetry; apply Z.mod_unique with (q := -1); lia. }
    rewrite E1. destruct (Z.ltb_spec (x + 2 ^ w) (2 ^ (w - 1))); lia.
  - rewrite Z.mod_small by lia.
    destruct (Z.ltb_spec x (2 ^ (w - 1))); lia.
Qed.
Lemma swrap32_small x : - 2147483648 <= x < 2147483648 -> swrap 32 x = x.
Proof. intros; apply swrap_small; [lia|]. change (2 ^ (32 - 1)) with 2147483648. lia. Qed.

(** x*2^k | y = x*2^k + y for y below 2^k *)
Lemma lor_shiftl_add x y k : 0 <= k -> 0 <= y < 2 ^ k -> Z.lor (x * 2 ^ k) y = x * 2 ^ k + y.
Proof.
  intros Hk Hy. rewrite <- Z.shiftl_mul_pow2 by lia.
  assert (Hb : forall n, k <= n -> Z.testbit y n = false).
  { intros n Hn. destruct (Z.eq_dec y 0) as [->|]; [apply Z.bits_0|].
    apply Z.bits_above_log2; [lia|].
    apply Z.lt_le_trans with k; [|lia]. apply Z.log2_lt_pow2; lia. }
  assert (HL : Z.land (Z.shiftl x k) y = 0).
  { apply Z.bits_inj'; intros n Hn. rewrite Z.land_spec, Z.bits_0.
    destruct (Z_lt_le_dec n k) as [L|L].
    - rewrite (Z.shiftl_spec_low x k n) by lia. reflexivity.
    - rewrite Hb by lia. apply andb_false_r. }
  rewrite (Z.add_nocarry_lxor _ _ HL). symmetry. now apply Z.lxor_lor.
Qed.
Lemma lor_BASE x y : 0 <= y < BASE -> Z.lor (x * BASE) y = x * BASE + y.
Proof. intros; unfold BASE in *; apply lor_shiftl_add; lia. Qed.

(** dval / wf structure *)
Lemma dval_app a b : dval (a ++ b) = dval a + BASE ^ Z.of_nat (length a) * dval b.
Proof.
  induction a as [|x a IH]; cbn [dval app length].
  - change (Z.of_nat 0) with 0. rewrite Z.pow_0_r. lia.
  - rewrite IH. rewrite Nat2Z.inj_succ, Z.pow_succ_r by lia. fold BASE. ring.
Qed.
Lemma dval_cons x a : dval (x :: a) = x + BASE * dval a.
Proof. reflexivity. Qed.
Lemma wf_cons x a : wf (x :: a) <-> 0 <= x < BASE /\ wf a.
Proof. unfold wf. rewrite Forall_cons_iff. reflexivity. Qed.
Lemma wf_nil : wf []. Proof. constructor. Qed.
Lemma wf_app a b : wf (a ++ b) <-> wf a /\ wf b.
Proof. unfold wf. apply Forall_app. Qed.
Lemma wf_rev a : wf (rev a) <-> wf a.
Proof. unfold wf. split; intros H; [rewrite <- (rev_involutive a)|]; now apply Forall_rev. Qed.
Lemma wf_firstn n a : wf a -> wf (firstn n a).
Proof. intros H. rewrite <- (firstn_skipn n a) in H. apply wf_app in H. tauto. Qed.
Lemma wf_skipn n a : wf a -> wf (skipn n a).
Proof. intros H. rewrite <- (firstn_skipn n a) in H. apply wf_app in H. tauto. Qed.
Lemma wf_repeat0 n : wf (repeat 0 n).
Proof. unfold wf. apply Forall_forall. intros x Hx. apply repeat_spec in Hx. subst. rewrite pow30. lia. Qed.
Lemma dval_repeat0 n : dval (repeat 0 n) = 0.
Proof. induction n as [|n IH]; cbn [repeat dval]; [reflexivity|rewrite IH; lia]. Qed.
Lemma wf_nth n a : wf a -> 0 <= nth n a 0 < BASE.
Proof.
  intros H. destruct (Nat.lt_ge_cases n (length a)) as [L|L].
  - unfold wf in H. rewrite Forall_forall in H. apply H. now apply nth_In.
  - rewrite nth_overflow by lia. rewrite BASE_val. lia.
Qed.

Lemma BASE_pos : 0 < BASE. Proof. reflexivity. Qed.
Lemma BASEn_pos n : 0 <= n -> 0 < BASE ^ n.
Proof. intros; apply Z.pow_pos_nonneg; [reflexivity|lia]. Qed.

Lemma dval_bound a : wf a -> 0 <= dval a < BASE ^ Z.of_nat (length a).
Proof.
  induction a as [|x a IH]; intros H; cbn [dval length].
  - change (Z.of_nat 0) with 0. rewrite Z.pow_0_r. lia.
  - apply wf_cons in H. destruct H as [Hx Ha]. specialize (IH Ha).
    rewrite Nat2Z.inj_succ, Z.pow_succ_r by lia. fold BASE. nia.
Qed.
Lemma dval_nonneg a : wf a -> 0 <= dval a.
Proof. intros; apply dval_bound; auto. Qed.

Lemma canon_nil : canon [].
Proof. split; [constructor|congruence]. Qed.
Lemma canon_wf a : canon a -> wf a. Proof. intros [H _]; exact H. Qed.
Lemma canonb_canon l : canonb l = true <-> canon l.
Proof.
  unfold canonb, canon, wf. rewrite andb_true_iff, forallb_forall, Forall_forall.
  split; intros [H1 H2]; split.
  - intros x Hx. specialize (H1 x Hx). rewrite andb_true_iff, Z.leb_le, Z.ltb_lt in H1. lia.
  - intros Hl. destruct l as [|y l]; [congruence|].
    rewrite negb_true_iff, Z.eqb_neq in H2. exact H2.
  - intros x Hx. specialize (H1 x Hx). rewrite andb_true_iff, Z.leb_le, Z.ltb_lt. lia.
  - destruct l as [|y l]; [reflexivity|].
    rewrite negb_true_iff, Z.eqb_neq. apply H2. congruence.
Qed.

(** canonical => top digit gives a lower bound *)
Lemma last_split (a : list Z) : a <> [] -> a = removelast a ++ [last a 0].
Proof. apply app_removelast_last. Qed.
Lemma canon_lower a : canon a -> a <> [] -> BASE ^ (Z.of_nat (length a) - 1) <= dval a.
Proof.
  intros [Hw Hl] Hne. specialize (Hl Hne).
  rewrite (last_split a Hne) in *. set (r := removelast a) in *. set (t := last a 0) in *.
  rewrite last_last in Hl.
  apply wf_app in Hw. destruct Hw as [Hr Ht]. apply wf_cons in Ht.
  rewrite app_length, dval_app. cbn [length dval].
  replace (Z.of_nat (length r + 1) - 1) with (Z.of_nat (length r)) by lia.
  pose proof (dval_bound r Hr). pose proof (BASEn_pos (Z.of_nat (length r))). nia.
Qed.
Lemma canon_zero a : canon a -> dval a = 0 -> a = [].
Proof.
  intros H E. destruct a as [|x a]; [reflexivity|exfalso].
  pose proof (canon_lower (x :: a) H ltac:(congruence)).
  pose proof (BASEn_pos (Z.of_nat (length (x :: a)) - 1)). cbn [length] in *. lia.
Qed.
Lemma canon_pos a : canon a -> a <> [] -> 0 < dval a.
Proof.
  intros H Hne. pose proof (canon_lower a H Hne).
  assert (0 < BASE ^ (Z.of_nat (length a) - 1)).
  { apply BASEn_pos. destruct a; [congruence|cbn [length]; lia]. }
  lia.
Qed.

Lemma pow_le_mono n m : 0 <= n <= m -> BASE ^ n <= BASE ^ m.
Proof. intros; apply Z.pow_le_mono_r; [reflexivity|lia]. Qed.

Lemma canon_length_lt a b : canon a -> canon b -> (length a < length b)%nat -> dval a < dval b.
Proof.
  intros Ha Hb L.
  assert (b <> []) by (destruct b; cbn in L; [lia|congruence]).
  pose proof (canon_lower b Hb H). pose proof (dval_bound a (canon_wf a Ha)).
  pose proof (pow_le_mono (Z.of_nat (length a)) (Z.of_nat (length b) - 1)). lia.
Qed.

(** Same value, same length, wf => same list *)
Lemma dval_inj_len a b : wf a -> wf b -> length a = length b -> dval a = dval b -> a = b.
Proof.
  revert b; induction a as [|x a IH]; intros [|y b] Ha Hb L E; cbn [length] in *; try lia; [reflexivity|].
  apply wf_cons in Ha, Hb. cbn [dval] in E. fold BASE in E.
  assert (x = y /\ dval a = dval b) as [-> E2].
  { destruct Ha as [Hx _], Hb as [Hy _]. rewrite BASE_val in *. lia. }
  f_equal. apply IH; try tauto; lia.
Qed.
Lemma canon_inj a b : canon a -> canon b -> dval a = dval b -> a = b.
Proof.
  intros Ha Hb E. apply dval_inj_len; try (now apply canon_wf); [|assumption].
  destruct (Nat.lt_trichotomy (length a) (length b)) as [L|[L|L]]; [|assumption|].
  - pose proof (canon_length_lt a b Ha Hb L). lia.
  - pose proof (canon_length_lt b a Hb Ha L). lia.
Qed.

(** ** addition *)
Lemma add_loop_spec a : forall b carry, wf a -> wf b -> (length b <= length a)%nat -> 0 <= carry <= 1 ->
  wf (add_loop carry a b) /\ dval (add_loop carry a b) = dval a + dval b + carry.
Proof.
  induction a as [|x a IH]; intros b carry Ha Hb L Hc.
  - destruct b; cbn [length] in L; [|lia]. cbn [add_loop dval].
    destruct (Z.eqb_spec carry 0); split; try (apply wf_nil); cbn [dval]; try lia.
    apply wf_cons; split; [rewrite BASE_val; lia|apply wf_nil].
  - apply wf_cons in Ha. destruct Ha as [Hx Ha]. cbn [add_loop].
    rewrite u32_small by (change (2 ^ 32) with 4294967296; rewrite BASE_val in *; lia).
    destruct b as [|y b]; rewrite land_MASK, shiftr_SHIFT.
    + specialize (IH [] ((carry + x) / BASE) Ha wf_nil ltac:(cbn [length]; lia)).
      pose proof (Z.div_mod (carry + x) BASE ltac:(discriminate)).
      pose proof (Z.mod_pos_bound (carry + x) BASE ltac:(reflexivity)).
      destruct IH as [IH1 IH2]; [rewrite BASE_val in *; lia|].
      split; [apply wf_cons; split; [assumption|assumption]|].
      rewrite !dval_cons, IH2. cbn [dval] in *. lia.
    + apply wf_cons in Hb. destruct Hb as [Hy Hb].
      rewrite u32_small by (change (2 ^ 32) with 4294967296; rewrite BASE_val in *; lia).
      specialize (IH b ((carry + x + y) / BASE) Ha Hb ltac:(cbn [length] in *; lia)).
      pose proof (Z.div_mod (carry + x + y) BASE ltac:(discriminate)).
      pose proof (Z.mod_pos_bound (carry + x + y) BASE ltac:(reflexivity)).
      destruct IH as [IH1 IH2]; [rewrite BASE_val in *; lia|].
      split; [apply wf_cons; split; assumption|].
      rewrite !dval_cons, IH2. lia.
Qed.

Lemma digits_add_spec a b : wf a -> wf b ->
  wf (digits_add a b) /\ dval (digits_add a b) = dval a + dval b.
Proof.
  intros Ha Hb. unfold digits_add.
  destruct (Nat.ltb_spec (length b) (length a)) as [L|L].
  - destruct (add_loop_spec a b 0 Ha Hb ltac:(lia) ltac:(lia)). split; [assumption|lia].
  - destruct (add_loop_spec b a 0 Hb Ha ltac:(lia) ltac:(lia)). split; [assumption|lia].
Qed.

Lemma last_cons_ne (x : Z) l : l <> [] -> last (x :: l) 0 = last l 0.
Proof. destruct l; [congruence|reflexivity]. Qed.

(** canonicity via value and length: if wf, and BASE^(len-1) <= dval then canonical *)
Lemma canon_intro a : wf a -> (a <> [] -> BASE ^ (Z.of_nat (length a) - 1) <= dval a) -> canon a.
Proof.
  intros Hw H. split; [assumption|]. intros Hne Hl. specialize (H Hne).
  rewrite (last_split a Hne) in H, Hw. rewrite Hl in H. apply wf_app in Hw.
  rewrite dval_app, app_length in H. cbn [length dval] in H.
  replace (Z.of_nat (length (removelast a) + 1) - 1) with (Z.of_nat (length (removelast a))) in H by lia.
  pose proof (dval_bound (removelast a) (proj1 Hw)). lia.
Qed.

Lemma add_loop_length a : forall b carry, wf a -> wf b -> (length b <= length a)%nat -> 0 <= carry <= 1 ->
  (length (add_loop carry a b) = length a /\ dval a + dval b + carry < BASE ^ Z.of_nat (length a)) \/
  (length (add_loop carry a b) = S (length a) /\ BASE ^ Z.of_nat (length a) <= dval a + dval b + carry).
Proof.
  induction a as [|x a IH]; intros b carry Ha Hb L Hc.
  - destruct b; cbn [length] in L; [|lia]. cbn [add_loop dval length].
    change (Z.of_nat 0) with 0. rewrite Z.pow_0_r.
    destruct (Z.eqb_spec carry 0); [left|right]; cbn [length]; lia.
  - apply wf_cons in Ha. destruct Ha as [Hx Ha]. cbn [add_loop length].
    rewrite Nat2Z.inj_succ, Z.pow_succ_r by lia.
    rewrite u32_small by (change (2 ^ 32) with 4294967296; rewrite BASE_val in *; lia).
    destruct b as [|y b]; rewrite shiftr_SHIFT.
    + specialize (IH [] ((carry + x) / BASE) Ha wf_nil ltac:(cbn [length]; lia)).
      pose proof (Z.div_mod (carry + x) BASE ltac:(discriminate)).
      pose proof (Z.mod_pos_bound (carry + x) BASE ltac:(reflexivity)).
      destruct IH as [IH|IH]; [rewrite BASE_val in *; lia|left|right]; cbn [length]; rewrite dval_cons; cbn [dval] in *; nia.
    + apply wf_cons in Hb. destruct Hb as [Hy Hb].
      rewrite u32_small by (change (2 ^ 32) with 4294967296; rewrite BASE_val in *; lia).
      specialize (IH b ((carry + x + y) / BASE) Ha Hb ltac:(cbn [length] in *; lia)).
      pose proof (Z.div_mod (carry + x + y) BASE ltac:(discriminate)).
      pose proof (Z.mod_pos_bound (carry + x + y) BASE ltac:(reflexivity)).
      destruct IH as [IH|IH]; [rewrite BASE_val in *; lia|left|right]; cbn [length]; rewrite !dval_cons; nia.
Qed.

Lemma digits_add_length a b : wf a -> wf b ->
  (length (digits_add a b) <= S (Nat.max (length a) (length b)))%nat.
Proof.
  intros Ha Hb. unfold digits_add.
  destruct (Nat.ltb_spec (length b) (length a)) as [L|L].
  - destruct (add_loop_length a b 0 Ha Hb ltac:(lia) ltac:(lia)); lia.
  - destruct (add_loop_length b a 0 Hb Ha ltac:(lia) ltac:(lia)); lia.
Qed.

Lemma add_loop_canon a b : canon a -> canon b -> (length b <= length a)%nat -> canon (add_loop 0 a b).
Proof.
  intros Ha Hb L. pose proof (canon_wf _ Ha) as Wa. pose proof (canon_wf _ Hb) as Wb.
  destruct (add_loop_spec a b 0 Wa Wb L ltac:(lia)) as [W V].
  apply canon_intro; [assumption|]. intros Hne. rewrite V.
  pose proof (dval_nonneg a Wa). pose proof (dval_nonneg b Wb).
  destruct (add_loop_length a b 0 Wa Wb L ltac:(lia)) as [[E1 E2]|[E1 E2]]; rewrite E1 in *.
  - assert (a <> []) by (intro; subst a; destruct (add_loop 0 [] b); cbn in *; congruence).
    pose proof (canon_lower a Ha H1). lia.
  - replace (Z.of_nat (S (length a)) - 1) with (Z.of_nat (length a)) by lia. lia.
Qed.
Lemma digits_add_canon a b : canon a -> canon b -> canon (digits_add a b).
Proof.
  intros Ha Hb. unfold digits_add.
  destruct (Nat.ltb_spec (length b) (length a)) as [L|L]; apply add_loop_canon; auto; lia.
Qed.

(** ** subtraction *)
Lemma sub_step x y borrow : 0 <= x < BASE -> 0 <= y < BASE -> 0 <= borrow <= 1 ->
  let t := u32 (u32 (x - borrow) - y) in
  let nb := Z.land (Z.shiftr t SHIFT) 1 in
  0 <= nb <= 1 /\ Z.land t MASK = x - borrow - y + BASE * nb /\ 0 <= Z.land t MASK < BASE.
Proof.
  intros Hx Hy Hb t nb.
  assert (Et : t = (x - borrow - y) mod 2 ^ 32).
  { unfold t, u32. rewrite Zminus_mod_idemp_l. f_equal; lia. }
  assert (En : nb = (t / BASE) mod 2).
  { unfold nb. rewrite shiftr_SHIFT. change 1 with (Z.ones 1). rewrite Z.land_ones by lia. reflexivity. }
  rewrite land_MASK.
  change (2 ^ 32) with 4294967296 in Et. rewrite BASE_val in *.
  destruct (Z_lt_le_dec (x - borrow - y) 0) as [N|N].
  - assert (E : t = x - borrow - y + 4294967296) by (rewrite Et; symmetry; apply Z.mod_unique with (q := -1); lia).
    assert (D : t / 1073741824 = 3) by (symmetry; apply Z.div_unique with (r := t - 3 * 1073741824); lia).
    rewrite D in En. change (3 mod 2) with 1 in En.
    assert (M : t mod 1073741824 = t - 3 * 1073741824) by (rewrite Z.mod_eq by lia; rewrite D; lia).
    rewrite En, M. lia.
  - assert (E : t = x - borrow - y) by (rewrite Et; apply Z.mod_small; lia).
    assert (D : t / 1073741824 = 0) by (apply Z.div_small; lia).
    rewrite D in En. change (0 mod 2) with 0 in En.
    rewrite En, Z.mod_small by lia. lia.
Qed.

Lemma u32_idem_sub0 z : u32 (u32 z - 0) = u32 z.
Proof. unfold u32. rewrite Z.sub_0_r, Z.mod_mod by lia. reflexivity. Qed.

Lemma inplace_sub_spec x : forall y borrow, wf x -> wf y -> (length y <= length x)%nat -> 0 <= borrow <= 1 ->
  wf (fst (inplace_sub_loop borrow x y)) /\ length (fst (inplace_sub_loop borrow x y)) = length x /\
  0 <= snd (inplace_sub_loop borrow x y) <= 1 /\
  dval (fst (inplace_sub_loop borrow x y)) =
    dval x - dval y - borrow + BASE ^ Z.of_nat (length x) * snd (inplace_sub_loop borrow x y).
Proof.
  induction x as [|a x IH]; intros y borrow Hx Hy L Hb.
  - destruct y; cbn [length] in L; [|lia]. cbn [inplace_sub_loop inplace_add_loop fst snd length dval].
    change (Z.of_nat 0) with 0. rewrite Z.pow_0_r. split; [apply wf_nil|]. repeat split; lia.
  - apply wf_cons in Hx. destruct Hx as [Ha Hx]. cbn [inplace_sub_loop].
    destruct y as [|b y].
    + pose proof (sub_step a 0 borrow Ha ltac:(rewrite BASE_val; lia) Hb) as S. cbv zeta in S.
      rewrite u32_idem_sub0 in S. destruct S as (S1 & S2 & S3).
      specialize (IH [] _ Hx wf_nil ltac:(cbn [length]; lia) S1).
      destruct (inplace_sub_loop _ x []) as [r bf]. cbn [fst snd] in *.
      destruct IH as (I1 & I2 & I3 & I4). rewrite !dval_cons. cbn [length] in *.
      rewrite Nat2Z.inj_succ, Z.pow_succ_r by lia.
      repeat split; try tauto; try lia; try (apply wf_cons; tauto).
      all: rewrite I4, S2; cbn [dval]; ring.
    + apply wf_cons in Hy. destruct Hy as [Hb' Hy].
      pose proof (sub_step a b borrow Ha Hb' Hb) as S. cbv zeta in S. destruct S as (S1 & S2 & S3).
      specialize (IH y _ Hx Hy ltac:(cbn [length] in *; lia) S1).
      destruct (inplace_sub_loop _ x y) as [r bf]. cbn [fst snd] in *.
      destruct IH as (I1 & I2 & I3 & I4). rewrite !dval_cons. cbn [length] in *.
      rewrite Nat2Z.inj_succ, Z.pow_succ_r by lia.
      repeat split; try tauto; try lia; try (apply wf_cons; tauto).
      all: rewrite I4, S2; ring.
Qed.

Lemma sub_loop_inplace a : forall b borrow, sub_loop borrow a b = fst (inplace_sub_loop borrow a b).
Proof.
  induction a as [|x a IH]; intros b borrow; cbn [sub_loop inplace_sub_loop]; [reflexivity|].
  destruct b as [|y b]; cbn -[Z.land Z.shiftr]; rewrite IH.
  - destruct (inplace_sub_loop _ a []) as [r bf]; reflexivity.
  - destruct (inplace_sub_loop _ a b) as [r bf]; reflexivity.
Qed.

Lemma digits_sub_spec a b : wf a -> wf b -> (length b <= length a)%nat -> dval b <= dval a ->
  wf (digits_sub a b) /\ length (digits_sub a b) = length a /\ dval (digits_sub a b) = dval a - dval b.
Proof.
  intros Ha Hb L V. unfold digits_sub. rewrite sub_loop_inplace.
  destruct (inplace_sub_spec a b 0 Ha Hb L ltac:(lia)) as (I1 & I2 & I3 & I4).
  repeat split; try assumption.
  pose proof (dval_bound _ I1) as D. rewrite I2 in D.
  pose proof (dval_nonneg b Hb). pose proof (dval_bound a Ha).
  set (bf := snd _) in *. assert (bf = 0 \/ bf = 1) as [E|E] by lia; rewrite E in *; lia.
Qed.

(** ** in-place addition *)
Lemma inplace_add_spec x : forall y carry, wf x -> wf y -> (length y <= length x)%nat -> 0 <= carry <= 1 ->
  wf (fst (inplace_add_loop carry x y)) /\ length (fst (inplace_add_loop carry x y)) = length x /\
  0 <= snd (inplace_add_loop carry x y) <= 1 /\
  dval (fst (inplace_add_loop carry x y)) + BASE ^ Z.of_nat (length x) * snd (inplace_add_loop carry x y) =
    dval x + dval y + carry.
Proof.
  induction x as [|a x IH]; intros y carry Hx Hy L Hc.
  - destruct y; cbn [length] in L; [|lia]. cbn [inplace_sub_loop inplace_add_loop fst snd length dval].
    change (Z.of_nat 0) with 0. rewrite Z.pow_0_r. split; [apply wf_nil|]. repeat split; lia.
  - apply wf_cons in Hx. destruct Hx as [Ha Hx]. cbn [inplace_add_loop].
    rewrite u32_small by (change (2 ^ 32) with 4294967296; rewrite BASE_val in *; lia).
    destruct y as [|b y].
    + rewrite land_MASK, shiftr_SHIFT.
      pose proof (Z.div_mod (carry + a) BASE ltac:(discriminate)).
      pose proof (Z.mod_pos_bound (carry + a) BASE ltac:(reflexivity)).
      assert (S1 : 0 <= (carry + a) / BASE <= 1) by (rewrite BASE_val in *; lia).
      specialize (IH [] _ Hx wf_nil ltac:(cbn [length]; lia) S1).
      destruct (inplace_add_loop _ x []) as [r bf]. cbn [fst snd] in *.
      destruct IH as (I1 & I2 & I3 & I4). rewrite !dval_cons. cbn [length dval] in *.
      rewrite Nat2Z.inj_succ, Z.pow_succ_r by lia.
      repeat split; try tauto; try lia; try (apply wf_cons; tauto).
      all: nia.
    + apply wf_cons in Hy. destruct Hy as [Hb' Hy].
      rewrite u32_small by (change (2 ^ 32) with 4294967296; rewrite BASE_val in *; lia).
      rewrite land_MASK, shiftr_SHIFT.
      pose proof (Z.div_mod (carry + a + b) BASE ltac:(discriminate)).
      pose proof (Z.mod_pos_bound (carry + a + b) BASE ltac:(reflexivity)).
      assert (S1 : 0 <= (carry + a + b) / BASE <= 1) by (rewrite BASE_val in *; lia).
      specialize (IH y _ Hx Hy ltac:(cbn [length] in *; lia) S1).
      destruct (inplace_add_loop _ x y) as [r bf]. cbn [fst snd] in *.
      destruct IH as (I1 & I2 & I3 & I4). rewrite !dval_cons. cbn [length] in *.
      rewrite Nat2Z.inj_succ, Z.pow_succ_r by lia.
      repeat split; try tauto; try lia; try (apply wf_cons; tauto).
      all: nia.
Qed.

(** ** comparison *)
Lemma cmp_loop_spec a : forall b, wf a -> wf b -> length a = length b ->
  Z.sgn (cmp_loop (rev a) (rev b)) = Z.sgn (dval a - dval b).
Proof.
  induction a as [|x a IH] using rev_ind; intros b Ha Hb L.
  - destruct b; cbn in L; [reflexivity|lia].
  - destruct (@exists_last _ b) as (b' & y & ->); [destruct b; cbn in *; rewrite ?app_length in L; cbn in L; [lia|congruence]|].
    rewrite !app_length in L. cbn [length] in L.
    rewrite !rev_app_distr. cbn [rev app cmp_loop].
    apply wf_app in Ha, Hb. destruct Ha as [Ha Hx], Hb as [Hb Hy]. apply wf_cons in Hx, Hy.
    destruct Hx as [Hx _], Hy as [Hy _].
    rewrite !swrap32_small by (rewrite BASE_val in *; lia).
    rewrite !dval_app. cbn [dval]. fold BASE.
    pose proof (dval_bound a Ha). pose proof (dval_bound b' Hb).
    assert (EL : length a = length b') by lia. rewrite EL in *.
    set (P := BASE ^ Z.of_nat (length b')) in *.
    destruct (Z.eqb_spec (x - y) 0) as [E|E].
    + rewrite IH by (auto; lia). f_equal. nia.
    + assert (0 < P) by (apply BASEn_pos; lia).
      destruct (Z_lt_le_dec (x - y) 0).
      * rewrite !Z.sgn_neg; nia.
      * rewrite !Z.sgn_pos; nia.
Qed.

Lemma digits_cmp_spec a b apos bpos : canon a -> canon b ->
  Z.sgn (digits_cmp a b apos bpos) =
  Z.sgn ((if apos then dval a else - dval a) - (if bpos then dval b else - dval b)).
Proof.
  intros Ha Hb. unfold digits_cmp.
  pose proof (canon_wf _ Ha) as Wa. pose proof (canon_wf _ Hb) as Wb.
  set (s := _ - _). destruct (Z.eqb_spec s 0) as [E|E].
  - assert (L : length a = length b /\ (apos = bpos \/ (a = [] /\ b = []))).
    { unfold s in E. destruct apos, bpos; try (split; [lia|left; reflexivity]);
      (split; [lia|right; destruct a, b; cbn [length] in E; try lia; auto]). }
    destruct L as [L [->|[-> ->]]].
    + pose proof (cmp_loop_spec a b Wa Wb L) as C.
      destruct bpos; [exact C|]. rewrite Z.sgn_opp, C, <- Z.sgn_opp. f_equal. lia.
    + cbn. destruct apos, bpos; reflexivity.
  - pose proof (canon_length_lt a b Ha Hb). pose proof (canon_length_lt b a Hb Ha).
    pose proof (dval_nonneg a Wa). pose proof (dval_nonneg b Wb).
    assert (Za : (0 < length a)%nat -> 0 < dval a) by (intros; apply canon_pos; [auto|destruct a; cbn in *; [lia|congruence]]).
    assert (Zb : (0 < length b)%nat -> 0 < dval b) by (intros; apply canon_pos; [auto|destruct b; cbn in *; [lia|congruence]]).
    assert (Ea : length a = 0%nat -> dval a = 0) by (destruct a; cbn; [reflexivity|lia]).
    assert (Eb : length b = 0%nat -> dval b = 0) by (destruct b; cbn; [reflexivity|lia]).
    unfold s in *. clear s.
    destruct apos, bpos; match goal with |- Z.sgn ?u = Z.sgn ?v =>
      assert ((u < 0 /\ v < 0) \/ (0 < u /\ 0 < v)) as [[? ?]|[? ?]] by
        (destruct (Nat.lt_trichotomy (length a) (length b)) as [?|[?|?]];
         destruct (Nat.eq_dec (length a) 0); destruct (Nat.eq_dec (length b) 0); lia) end;
      rewrite ?Z.sgn_neg, ?Z.sgn_pos by assumption; rewrite ?Z.sgn_neg, ?Z.sgn_pos by assumption; reflexivity.
Qed.

Lemma sgn_tests x y : Z.sgn x = Z.sgn y ->
  (x =? 0) = (y =? 0) /\ (x <? 0) = (y <? 0) /\ (x >? 0) = (y >? 0) /\ (x <=? 0) = (y <=? 0) /\ (x >=? 0) = (y >=? 0).
Proof.
  intros H. destruct x, y; cbn in H; try discriminate; cbn; repeat split; reflexivity.
Qed.
