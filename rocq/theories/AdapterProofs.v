(** Lemmas about int_adapter.hpp. *)
From Coq Require Import ZArith String Ascii Lia Bool List Znumtheory Zpow_facts.
From Verif Require Import Base HugeModel HugeSpec HugeProofs1 HugeProofs6 AdapterModel.
Import ListNotations.
Open Scope Z_scope.

Lemma in_range_spec w x : in_range w x = true <-> - 2 ^ (w - 1) <= x < 2 ^ (w - 1).
Proof. unfold in_range. rewrite andb_true_iff, Z.leb_le, Z.ltb_lt. tauto. Qed.
Lemma chk_ok w x : - 2 ^ (w - 1) <= x < 2 ^ (w - 1) -> chk w x = Ok x.
Proof. intros H. unfold chk. apply in_range_spec in H. now rewrite H. Qed.
Lemma chk_inv w x y : chk w x = Ok y -> y = x /\ - 2 ^ (w - 1) <= x < 2 ^ (w - 1).
Proof.
  unfold chk. destruct (in_range w x) eqn:E; [|discriminate]. intros [= <-]. split; [reflexivity|].
  now apply in_range_spec.
Qed.
Lemma chk_cases w x : chk w x = Ok x \/ chk w x = Ub "signed overflow".
Proof. unfold chk. destruct (in_range w x); auto. Qed.

Lemma rem_w_pos w a m : 0 <= a < 2 ^ (w - 1) -> 0 < m -> rem_w w a m = Ok (a mod m).
Proof.
  intros Ha Hm. unfold rem_w. destruct (Z.eqb_spec m 0); [lia|].
  rewrite chk_ok; cbn [bind].
  - f_equal. apply Z.rem_mod_nonneg; lia.
  - rewrite Z.quot_div_nonneg by lia. split; [pose proof (Z.pow_nonneg 2 (w-1)); assert (0 <= a / m) by (apply Z.div_pos; lia); lia|].
    apply Z.le_lt_trans with a; [|lia]. apply Z.div_le_upper_bound; nia.
Qed.

Lemma odd_half a : 0 <= a -> a = 2 * (Z.shiftr a 1) + (if Z.odd a then 1 else 0).
Proof.
  intros H. rewrite Z.shiftr_div_pow2 by lia. change (2^1) with 2.
  rewrite <- Zmod_odd. apply Z.div_mod. lia.
Qed.
Lemma shiftr_nonneg a : 0 <= a -> 0 <= Z.shiftr a 1.
Proof. intros. now apply Z.shiftr_nonneg. Qed.
Lemma bits_fuel_bound a : 0 <= a -> a < 2 ^ Z.of_nat (bits_fuel a).
Proof.
  intros H. unfold bits_fuel. rewrite (Z.abs_eq a H).
  destruct (Z.eq_dec a 0) as [->|N]; [reflexivity|].
  rewrite Nat2Z.inj_succ, Z2Nat.id by (pose proof (Z.log2_nonneg a); lia).
  pose proof (Z.log2_spec a ltac:(lia)) as [_ L].
  apply Z.lt_trans with (1 := L). apply Z.pow_lt_mono_r; pose proof (Z.log2_nonneg a); lia.
Qed.

(** [adapter_mulmod] *)
Lemma swrap_small' w x : 0 < w -> 0 <= x < 2 ^ (w - 1) -> swrap w x = x.
Proof.
  intros Hw H. unfold swrap.
  assert (2 ^ w = 2 * 2 ^ (w - 1)) by (rewrite <- Z.pow_succ_r by lia; f_equal; lia).
  rewrite Z.mod_small by lia. destruct (Z.ltb_spec x (2 ^ (w - 1))); lia.
Qed.

Lemma mulmod_loop_spec w m : 1 < w -> 0 < m <= 2 ^ (w - 2) ->
  forall fuel a b r, 0 <= a < 2 ^ Z.of_nat fuel -> 0 <= b < 2 ^ (w - 2) -> 0 <= r < m ->
  mulmod_loop w fuel a b m r = Ok ((r + a * b) mod m).
Proof.
  intros Hw Hm. assert (P : 2 ^ (w - 1) = 2 * 2 ^ (w - 2)) by (rewrite <- Z.pow_succ_r by lia; f_equal; lia).
  induction fuel as [|f IH]; intros a b r Ha Hb Hr.
  - cbn in Ha. assert (a = 0) by lia. subst. cbn [mulmod_loop]. rewrite Z.eqb_refl.
    rewrite Z.mul_0_l, Z.add_0_r, Z.mod_small by lia. reflexivity.
  - cbn [mulmod_loop]. destruct (Z.eqb_spec a 0) as [->|N].
    { rewrite Z.mul_0_l, Z.add_0_r, Z.mod_small by lia. reflexivity. }
    assert (R : exists r', (if Z.odd a then s <- chk w (r + b);; rem_w w s m else Ok r) = Ok r' /\ 0 <= r' < m /\
                r' mod m = (r + (if Z.odd a then 1 else 0) * b) mod m).
    { destruct (Z.odd a).
      - rewrite chk_ok by lia. cbn [bind]. rewrite rem_w_pos by lia. eexists; split; [reflexivity|].
        split; [apply Z.mod_pos_bound; lia|]. rewrite Z.mod_mod by lia. f_equal. lia.
      - exists r. split; [reflexivity|]. split; [lia|]. f_equal. lia. }
    destruct R as (r' & -> & Hr' & Er'). cbn [bind].
    unfold shl1_w. rewrite swrap_small' by lia. rewrite rem_w_pos by lia. cbn [bind].
    pose proof (odd_half a ltac:(lia)) as Ea. pose proof (shiftr_nonneg a ltac:(lia)) as Sa.
    rewrite IH.
    + f_equal. rewrite <- Z.add_mod_idemp_l by lia. rewrite Er'. rewrite Z.add_mod_idemp_l by lia.
      rewrite <- Z.add_mod_idemp_r by lia. rewrite Z.mul_mod_idemp_r by lia. rewrite Z.add_mod_idemp_r by lia.
      f_equal. rewrite Ea at 3. ring.
    + rewrite Nat2Z.inj_succ, Z.pow_succ_r in Ha by lia. destruct (Z.odd a); lia.
    + pose proof (Z.mod_pos_bound (2 * b) m). lia.
    + lia.
Qed.
Lemma mulmod_spec w a b m : 1 < w -> 0 <= a -> 0 <= b < 2 ^ (w - 2) -> 0 < m <= 2 ^ (w - 2) ->
  adapter_mulmod w a b m = Ok ((a * b) mod m).
Proof.
  intros. unfold adapter_mulmod. rewrite mulmod_loop_spec; try assumption; try lia.
  - f_equal.
  - split; [assumption|]. now apply bits_fuel_bound.
Qed.

(** [adapter_modpow] *)
Lemma modpow_loop_spec w m : 1 < m -> (m - 1) * (m - 1) < 2 ^ (w - 1) ->
  forall fuel base exp r, 0 <= exp < 2 ^ Z.of_nat fuel -> 0 <= base < m -> 0 <= r < m ->
  modpow_loop w fuel base exp m r = Ok ((r * base ^ exp) mod m).
Proof.
  intros Hm Hw. induction fuel as [|f IH]; intros base exp r He Hb Hr.
  - cbn in He. assert (exp = 0) by lia. subst. cbn [modpow_loop]. destruct (Z.leb_spec 0 0); [|lia].
    rewrite Z.pow_0_r, Z.mul_1_r, Z.mod_small by lia. reflexivity.
  - cbn [modpow_loop]. destruct (Z.leb_spec exp 0) as [L|N].
    { assert (exp = 0) by lia. subst. rewrite Z.pow_0_r, Z.mul_1_r, Z.mod_small by lia. reflexivity. }
    assert (B1 : 0 <= r * base <= (m - 1) * (m - 1)) by nia.
    assert (B2 : 0 <= base * base <= (m - 1) * (m - 1)) by nia.
    assert (R : exists r', (if Z.odd exp then s <- chk w (r * base);; rem_w w s m else Ok r) = Ok r' /\ 0 <= r' < m /\
                r' mod m = (r * base ^ (if Z.odd exp then 1 else 0)) mod m).
    { destruct (Z.odd exp).
      - rewrite chk_ok by lia. cbn [bind]. rewrite rem_w_pos by lia. eexists; split; [reflexivity|].
        split; [apply Z.mod_pos_bound; lia|]. rewrite Z.mod_mod by lia. rewrite Z.pow_1_r. reflexivity.
      - exists r. split; [reflexivity|]. split; [lia|]. rewrite Z.pow_0_r, Z.mul_1_r. reflexivity. }
    destruct R as (r' & -> & Hr' & Er'). cbn [bind].
    rewrite chk_ok by lia. cbn [bind]. rewrite rem_w_pos by lia. cbn [bind].
    pose proof (odd_half exp ltac:(lia)) as Ea. pose proof (shiftr_nonneg exp ltac:(lia)) as Sa.
    rewrite IH.
    + f_equal. rewrite <- Z.mul_mod_idemp_l by lia. rewrite Er'. rewrite Z.mul_mod_idemp_l by lia.
      rewrite <- Z.mul_mod_idemp_r by lia. rewrite <- Zpower_mod by lia.
      rewrite Z.mul_mod_idemp_r by lia. f_equal. rewrite Ea at 3.
      rewrite Z.pow_add_r by (destruct (Z.odd exp); lia). rewrite Z.pow_mul_r by lia. rewrite Z.pow_2_r. ring.
    + rewrite Nat2Z.inj_succ, Z.pow_succ_r in He by lia. destruct (Z.odd exp); lia.
    + apply Z.mod_pos_bound. lia.
    + assumption.
Qed.
Lemma modpow_spec w base exp m : 0 <= base < 2 ^ (w - 1) -> 0 <= exp -> 1 < m -> (m - 1) * (m - 1) < 2 ^ (w - 1) ->
  adapter_modpow w base exp m = Ok (base ^ exp mod m).
Proof.
  intros. unfold adapter_modpow. rewrite rem_w_pos by lia. cbn [bind]. rewrite modpow_loop_spec; try assumption; try lia.
  - f_equal. rewrite Z.mul_1_l. symmetry. apply Zpower_mod. lia.
  - split; [assumption|]. now apply bits_fuel_bound.
  - apply Z.mod_pos_bound. lia.
Qed.

(** whenever either returns, the value is right (even if the type is too narrow in general) *)
Lemma rem_w_inv w a m y : rem_w w a m = Ok y -> m <> 0 /\ y = Z.rem a m.
Proof.
  unfold rem_w. destruct (Z.eqb_spec m 0); [discriminate|]. destruct (chk w (Z.quot a m)); cbn; try discriminate.
  intros [= <-]. auto.
Qed.
Lemma modpow_loop_sound w m : 1 < m ->
  forall fuel base exp r x, 0 <= base < m -> 0 <= exp -> 0 <= r < m ->
  modpow_loop w fuel base exp m r = Ok x -> x = (r * base ^ exp) mod m.
Proof.
  intros Hm. induction fuel as [|f IH]; intros base exp r x Hb He Hr.
  - cbn [modpow_loop]. destruct (Z.leb_spec exp 0); [|discriminate]. intros [= <-].
    assert (exp = 0) by lia. subst. rewrite Z.pow_0_r, Z.mul_1_r, Z.mod_small by lia. reflexivity.
  - cbn [modpow_loop]. destruct (Z.leb_spec exp 0) as [L|N].
    { intros [= <-]. assert (exp = 0) by lia. subst. rewrite Z.pow_0_r, Z.mul_1_r, Z.mod_small by lia. reflexivity. }
    destruct (if Z.odd exp then s <- chk w (r * base);; rem_w w s m else Ok r) as [r'| | |] eqn:R; cbn [bind]; try discriminate.
    assert (Er : 0 <= r' < m /\ r' mod m = (r * base ^ (if Z.odd exp then 1 else 0)) mod m).
    { destruct (Z.odd exp).
      - destruct (chk w (r * base)) as [s| | |] eqn:C; cbn [bind] in R; try discriminate.
        apply chk_inv in C as [-> _]. apply rem_w_inv in R as [_ ->].
        rewrite Z.rem_mod_nonneg by nia. split; [apply Z.mod_pos_bound; lia|]. rewrite Z.mod_mod by lia. rewrite Z.pow_1_r. reflexivity.
      - injection R as <-. split; [lia|]. rewrite Z.pow_0_r, Z.mul_1_r. reflexivity. }
    destruct Er as [Hr' Er'].
    destruct (chk w (base * base)) as [s| | |] eqn:C; cbn [bind]; try discriminate. apply chk_inv in C as [-> _].
    destruct (rem_w w (base * base) m) as [b'| | |] eqn:C; cbn [bind]; try discriminate. apply rem_w_inv in C as [_ ->].
    rewrite Z.rem_mod_nonneg by nia.
    pose proof (odd_half exp ltac:(lia)) as Ea. pose proof (shiftr_nonneg exp ltac:(lia)) as Sa.
    intros E. apply IH in E; [|apply Z.mod_pos_bound; lia|assumption|assumption]. rewrite E.
    rewrite <- Z.mul_mod_idemp_l by lia. rewrite Er'. rewrite Z.mul_mod_idemp_l by lia.
    rewrite <- Z.mul_mod_idemp_r by lia. rewrite <- Zpower_mod by lia.
    rewrite Z.mul_mod_idemp_r by lia. f_equal. rewrite Ea at 3.
    rewrite Z.pow_add_r by (destruct (Z.odd exp); lia). rewrite Z.pow_mul_r by lia. rewrite Z.pow_2_r. ring.
Qed.
Lemma modpow_sound w base exp m x : 0 <= base -> 0 <= exp -> 1 < m ->
  adapter_modpow w base exp m = Ok x -> x = base ^ exp mod m.
Proof.
  intros Hb He Hm. unfold adapter_modpow. destruct (rem_w w base m) as [b| | |] eqn:R; cbn [bind]; try discriminate.
  apply rem_w_inv in R as [_ ->]. rewrite Z.rem_mod_nonneg by lia. intros E.
  apply modpow_loop_sound in E; try lia; [|apply Z.mod_pos_bound; lia].
  rewrite E, Z.mul_1_l. symmetry. apply Zpower_mod. lia.
Qed.
(** the only non-[Ok] outcomes are undefined behaviours: it terminates *)
Lemma modpow_loop_no_fuel w m : forall fuel base exp r, 0 <= exp < 2 ^ Z.of_nat fuel ->
  modpow_loop w fuel base exp m r <> Fuel /\ is_throw (modpow_loop w fuel base exp m r) = false.
Proof.
  induction fuel as [|f IH]; intros base exp r He.
  - cbn in He. cbn [modpow_loop]. destruct (Z.leb_spec exp 0); [|lia]. split; [discriminate|reflexivity].
  - cbn [modpow_loop]. destruct (Z.leb_spec exp 0); [split; [discriminate|reflexivity]|].
    assert (0 <= Z.shiftr exp 1 < 2 ^ Z.of_nat f).
    { pose proof (odd_half exp ltac:(lia)). pose proof (shiftr_nonneg exp ltac:(lia)).
      rewrite Nat2Z.inj_succ, Z.pow_succ_r in He by lia. destruct (Z.odd exp); lia. }
    assert (Q : forall y k, (rem_w w y m = Ok k \/ exists u, rem_w w y m = Ub u) \/ True) by (intros; auto).
    unfold rem_w. destruct (Z.odd exp); repeat (match goal with
      | |- context [chk w ?e] => destruct (chk_cases w e) as [-> | ->]; cbn [bind]
      | |- context [if m =? 0 then _ else _] => destruct (m =? 0); cbn [bind]
      end); try (split; [discriminate|reflexivity]); apply IH; assumption.
Qed.
Lemma modpow_outcome w base exp m : 0 <= exp -> (exists x, adapter_modpow w base exp m = Ok x) \/ (exists u, adapter_modpow w base exp m = Ub u).
Proof.
  intros He. unfold adapter_modpow.
  assert (rem_w w base m <> Fuel /\ is_throw (rem_w w base m) = false).
  { unfold rem_w. destruct (m =? 0); [split; [discriminate|reflexivity]|]. destruct (chk_cases w (Z.quot base m)) as [-> | ->]; cbn; split; try discriminate; reflexivity. }
  destruct (rem_w w base m) as [b| | |]; cbn [bind]; destruct H; try discriminate; try congruence; eauto.
  pose proof (modpow_loop_no_fuel w m (bits_fuel exp) b exp 1 (conj He (bits_fuel_bound exp He))) as [F T].
  destruct (modpow_loop w (bits_fuel exp) b exp m 1); eauto; try discriminate; congruence.
Qed.

(** ** decimal text *)
Lemma dec_value_snoc s c : dec_value (s ++ [c]) = 10 * dec_value s + digit_of c.
Proof. rewrite dec_value_app, dec_value_cons. cbn [length]. change (Z.of_nat 1) with 1. change (Z.of_nat 0) with 0. rewrite Z.pow_1_r, Z.pow_0_r. change (dec_value []) with 0. lia. Qed.

Lemma udigits_spec : forall fuel n, 0 <= n < 2 ^ Z.of_nat fuel -> (1 <= fuel)%nat ->
  canonical_numeral (rev (udigits fuel n)) /\ dec_value (rev (udigits fuel n)) = n /\ (0 < n -> hd "0"%char (rev (udigits fuel n)) <> "0"%char).
Proof.
  induction fuel as [|f IH]; intros n Hn Hf; [lia|]. cbn [udigits].
  destruct (Z.ltb_spec n 10) as [L|G].
  - destruct (char_of_digit_spec n ltac:(lia)) as [D V]. cbn [rev app].
    assert (C : 0 < n -> char_of_digit n <> "0"%char).
    { intros P E. rewrite E in V. change (digit_of "0") with 0 in V. lia. }
    split; [|split].
    + split; [discriminate|]. split; [constructor; [exact D|constructor]|]. cbn. intros ->. reflexivity.
    + rewrite dec_value_cons. change (dec_value []) with 0. cbn [length]. change (Z.of_nat 0) with 0. lia.
    + exact C.
  - assert (Hf' : (1 <= f)%nat).
    { destruct f; [|lia]. cbn in Hn. lia. }
    assert (B : 0 <= n / 10 < 2 ^ Z.of_nat f).
    { rewrite Nat2Z.inj_succ, Z.pow_succ_r in Hn by lia. split; [apply Z.div_pos; lia|]. apply Z.div_lt_upper_bound; lia. }
    destruct (IH _ B Hf') as ((NE & FD & Z0) & V & H0).
    assert (P : 0 < n / 10) by (apply Z.div_str_pos; lia). specialize (H0 P).
    pose proof (Z.mod_pos_bound n 10 ltac:(lia)) as M.
    destruct (char_of_digit_spec (n mod 10) ltac:(lia)) as [D W]. cbn [rev].
    set (t := rev (udigits f (n / 10))) in *. destruct t as [|t0 t']; [congruence|].
    split; [|split].
    + split; [discriminate|]. split; [apply Forall_app; split; [assumption|constructor; [exact D|constructor]]|].
      cbn. intros E. cbn in H0. congruence.
    + rewrite dec_value_snoc, V, W. pose proof (Z.div_mod n 10). lia.
    + intros _. exact H0.
Qed.
Lemma numeral_spec n : 0 <= n -> canonical_numeral (numeral n) /\ dec_value (numeral n) = n.
Proof.
  intros H. unfold numeral.
  assert (B : 0 <= n < 2 ^ Z.of_nat (S (Z.to_nat (Z.log2 n)))).
  { split; [assumption|]. pose proof (Z.log2_nonneg n). rewrite Nat2Z.inj_succ, Z2Nat.id by lia.
    destruct (Z.eq_dec n 0) as [->|]; [reflexivity|]. apply Z.log2_spec. lia. }
  destruct (udigits_spec _ n B ltac:(lia)) as (C & V & _). auto.
Qed.

Lemma accum_acc ds : forall acc, accum acc ds = dec_value_acc acc ds.
Proof. induction ds as [|c ds IH]; intros acc; cbn [accum dec_value_acc]; [reflexivity|]. rewrite IH. f_equal. unfold digit_of. lia. Qed.
Lemma take_digits_spec ds rest : Forall is_dec_digit ds -> match rest with [] => True | x :: _ => isdigit x = false end ->
  take_digits (ds ++ rest) = ds.
Proof.
  induction ds as [|c ds IH]; intros F R.
  - destruct rest as [|x r]; [reflexivity|]. cbn. now rewrite R.
  - inversion F as [|? ? D F']; subst. cbn. apply isdigit_spec in D. rewrite D. f_equal. now apply IH.
Qed.
Lemma digit_not_space c : is_dec_digit c -> isspace c = false /\ Ascii.eqb c "-" = false /\ Ascii.eqb c "+" = false.
Proof.
  intros D. unfold is_dec_digit in D. split; [|split].
  - unfold isspace. destruct (Nat.eqb_spec (nat_of_ascii c) 32); [lia|]. destruct (Nat.leb_spec 9 (nat_of_ascii c)); [|lia].
    destruct (Nat.leb_spec (nat_of_ascii c) 13); [lia|reflexivity].
  - destruct (Ascii.eqb_spec c "-"); [subst; cbn in D; lia|reflexivity].
  - destruct (Ascii.eqb_spec c "+"); [subst; cbn in D; lia|reflexivity].
Qed.
Definition sign_text (sg : option bool) : list ascii :=
  match sg with None => [] | Some true => ["+"%char] | Some false => ["-"%char] end.
Definition sign_val (sg : option bool) (v : Z) : Z := match sg with Some false => - v | _ => v end.
Lemma skip_space_app b s : Forall (fun c => isspace c = true) b -> skip_space (b ++ s) = skip_space s.
Proof. induction 1; cbn; [reflexivity|]. now rewrite H. Qed.
Lemma stoll_spec blanks sg ds rest : Forall (fun c => isspace c = true) blanks -> ds <> [] -> Forall is_dec_digit ds ->
  match rest with [] => True | x :: _ => isdigit x = false end ->
  stoll (blanks ++ sign_text sg ++ ds ++ rest) =
    if in_range 64 (sign_val sg (dec_value ds)) then Ok (sign_val sg (dec_value ds)) else Throw "out_of_range".
Proof.
  intros Hb NE F R. unfold stoll. rewrite skip_space_app by assumption.
  pose proof (take_digits_spec ds rest F R) as T.
  destruct ds as [|d ds']; [congruence|]. inversion F as [|? ? D F']; subst.
  destruct (digit_not_space d D) as (S1 & S2 & S3).
  destruct sg as [[|]|]; cbn [sign_text app skip_space].
  - change (isspace "+") with false. cbn iota. change (Ascii.eqb "+" "-") with false. change (Ascii.eqb "+" "+") with true. cbn iota.
    change (d :: ds' ++ rest) with ((d :: ds') ++ rest). rewrite T, accum_acc. reflexivity.
  - change (isspace "-") with false. cbn iota. change (Ascii.eqb "-" "-") with true. cbn iota.
    change (d :: ds' ++ rest) with ((d :: ds') ++ rest). rewrite T, accum_acc. reflexivity.
  - rewrite S1, S2, S3. change (d :: ds' ++ rest) with ((d :: ds') ++ rest). rewrite T, accum_acc. reflexivity.
Qed.
Lemma swrap_id w x : 1 < w -> - 2 ^ (w - 1) <= x < 2 ^ (w - 1) -> swrap w x = x.
Proof.
  intros Hw H. unfold swrap.
  assert (P : 2 ^ w = 2 * 2 ^ (w - 1)) by (rewrite <- Z.pow_succ_r by lia; f_equal; lia).
  destruct (Z.neg_nonneg_cases x).
  - replace (x mod 2 ^ w) with (x + 2 ^ w).
    + destruct (Z.ltb_spec (x + 2 ^ w) (2 ^ (w - 1))); lia.
    + apply Z.mod_unique with (-1); lia.
  - rewrite Z.mod_small by lia. destruct (Z.ltb_spec x (2 ^ (w - 1))); lia.
Qed.
Lemma to_string_text n : exists sg, adapter_to_string n = sign_text sg ++ numeral (Z.abs n) /\ sign_val sg (Z.abs n) = n /\ sg <> Some true.
Proof.
  unfold adapter_to_string. destruct (Z.ltb_spec n 0).
  - exists (Some false). rewrite Z.abs_neq by lia. split; [reflexivity|]. split; [unfold sign_val; lia|discriminate].
  - exists None. rewrite Z.abs_eq by lia. split; [reflexivity|]. split; [reflexivity|discriminate].
Qed.
Lemma int_text_round_trip w n : 1 < w <= 64 -> - 2 ^ (w - 1) <= n < 2 ^ (w - 1) ->
  adapter_to_int w (adapter_to_string n) = Ok n.
Proof.
  intros Hw Hn. destruct (to_string_text n) as (sg & -> & V & _).
  destruct (numeral_spec (Z.abs n) ltac:(lia)) as ((NE & F & _) & DV).
  unfold adapter_to_int.
  pose proof (stoll_spec [] sg (numeral (Z.abs n)) [] (Forall_nil _) NE F I) as S. rewrite app_nil_r in S. cbn [app] in S. rewrite S.
  rewrite DV, V.
  assert (B : 2 ^ (w - 1) <= 2 ^ (64 - 1)) by (apply Z.pow_le_mono_r; lia).
  assert (R : in_range 64 n = true) by (apply in_range_spec; lia). rewrite R. cbn [bind]. f_equal.
  now apply swrap_id.
Qed.

(** ** 128-bit *)
Lemma dec_rev_spec : forall fuel n, 0 < n < 2 ^ Z.of_nat fuel ->
  Forall is_dec_digit (dec_rev fuel n) /\ dec_value (rev (dec_rev fuel n)) = n /\
  hd "0"%char (rev (dec_rev fuel n)) <> "0"%char /\ dec_rev fuel n <> [].
Proof.
  induction fuel as [|f IH]; intros n Hn; [cbn in Hn; lia|]. cbn [dec_rev].
  destruct (Z.leb_spec n 0); [lia|].
  pose proof (Z.mod_pos_bound n 10 ltac:(lia)) as M.
  destruct (char_of_digit_spec (n mod 10) ltac:(lia)) as [D W]. cbn [rev].
  pose proof (Z.div_mod n 10 ltac:(lia)) as DM.
  destruct (Z.eq_dec (n / 10) 0) as [E|N].
  - rewrite E. assert (X : dec_rev f 0 = []) by (destruct f; reflexivity). rewrite X. cbn [rev app].
    split; [|split; [|split]].
    + constructor; [exact D|constructor].
    + rewrite dec_value_cons. change (dec_value []) with 0. cbn [length]. change (Z.of_nat 0) with 0. lia.
    + cbn. intros EE. rewrite EE in W. change (digit_of "0") with 0 in W. lia.
    + discriminate.
  - assert (P : 0 < n / 10) by (pose proof (Z.div_pos n 10); lia).
    assert (B : 0 < n / 10 < 2 ^ Z.of_nat f).
    { rewrite Nat2Z.inj_succ, Z.pow_succ_r in Hn by lia. split; [lia|]. apply Z.div_lt_upper_bound; lia. }
    destruct (IH _ B) as (FD & V & H0 & NE).
    assert (NE' : rev (dec_rev f (n / 10)) <> []) by (intros E; apply NE; rewrite <- (rev_involutive (dec_rev f (n/10))), E; reflexivity).
    split; [constructor; assumption|]. split; [rewrite dec_value_snoc, V, W; lia|]. split; [|discriminate].
    destruct (rev (dec_rev f (n / 10))); [congruence|]. exact H0.
Qed.

Lemma dec_rev_numeral fuel n : 0 < n < 2 ^ Z.of_nat fuel -> rev (dec_rev fuel n) = numeral n.
Proof.
  intros H. destruct (dec_rev_spec fuel n H) as (F & V & H0 & NE).
  destruct (numeral_spec n ltac:(lia)) as (C & W).
  apply canonical_numeral_inj; [|assumption|congruence].
  split; [|split].
  - intros E. apply NE. rewrite <- (rev_involutive (dec_rev fuel n)), E. reflexivity.
  - now apply Forall_rev.
  - intros E. congruence.
Qed.

(** decimal length of a k-bit number against the size estimate *)
Lemma size_table : forallb (fun k =>
   let k := Z.of_nat k in
   (2 ^ k <=? 10 ^ size_estimate k) && (10 ^ (size_estimate k - 2) <=? 2 ^ (k - 1)) && (1 <=? size_estimate k) && (size_estimate k <=? 39))%bool (seq 1 127) = true.
Proof. vm_compute. reflexivity. Qed.

Lemma numeral_length n : 0 < n -> 10 ^ (Z.of_nat (length (numeral n)) - 1) <= n < 10 ^ Z.of_nat (length (numeral n)).
Proof.
  intros H. destruct (numeral_spec n ltac:(lia)) as ((NE & F & Z0) & V).
  pose proof (dec_value_bound _ F) as B. rewrite V in B. split; [|lia].
  destruct (numeral n) as [|c s] eqn:E; [congruence|].
  rewrite dec_value_cons in V. inversion F as [|? ? D F']; subst.
  pose proof (dec_value_bound _ F') as B'. pose proof (digit_of_bound c D) as Dc.
  cbn [length]. rewrite Nat2Z.inj_succ. replace (Z.succ (Z.of_nat (length s)) - 1) with (Z.of_nat (length s)) by lia.
  assert (digit_of c <> 0).
  { intros E0. assert (c = "0"%char) by (apply digit_of_inj; [assumption|unfold is_dec_digit; cbn; lia|rewrite E0; reflexivity]).
    subst c. cbn in Z0. specialize (Z0 eq_refl). injection Z0 as ->. change (digit_of "0") with 0 in H. change (dec_value []) with 0 in H. lia. }
  pose proof (Z.pow_nonneg 10 (Z.of_nat (length s)) ltac:(lia)). nia.
Qed.

Lemma numeral_len_estimate n : 0 < n < 2 ^ 127 ->
  size_estimate (Z.log2 n + 1) - 1 <= Z.of_nat (length (numeral n)) <= size_estimate (Z.log2 n + 1).
Proof.
  intros H. pose proof (Z.log2_spec n ltac:(lia)) as L. pose proof (Z.log2_nonneg n) as L0.
  assert (L1 : Z.log2 n < 127) by (apply Z.log2_lt_pow2; lia).
  pose proof size_table as T. rewrite forallb_forall in T.
  specialize (T (Z.to_nat (Z.log2 n + 1))). rewrite in_seq in T. specialize (T ltac:(lia)). cbv zeta in T.
  rewrite Z2Nat.id in T by lia. rewrite !andb_true_iff, !Z.leb_le in T. destruct T as [[[T1 T2] T3] T4].
  replace (Z.log2 n + 1 - 1) with (Z.log2 n) in T2 by lia. replace (Z.succ (Z.log2 n)) with (Z.log2 n + 1) in L by lia.
  set (S := size_estimate (Z.log2 n + 1)) in *. clearbody S.
  pose proof (numeral_length n ltac:(lia)) as B. set (len := Z.of_nat (length (numeral n))) in *.
  assert (0 <= len) by lia. clearbody len.
  split.
  - apply Z.nlt_ge. intros C. assert (10 ^ len <= 10 ^ (S - 2)) by (apply Z.pow_le_mono_r; lia). lia.
  - apply Z.nlt_ge. intros C. assert (10 ^ S <= 10 ^ (len - 1)) by (apply Z.pow_le_mono_r; lia). lia.
Qed.

Lemma abs128 n : - 2 ^ 127 < n < 2 ^ 127 -> adapter_abs 128 n = Ok (Z.abs n).
Proof. intros. unfold adapter_abs. apply chk_ok. change (128 - 1) with 127. lia. Qed.

Lemma repeat_snoc {A} (x : A) n : repeat x n ++ [x] = x :: repeat x n.
Proof. induction n; cbn; [reflexivity|]. now rewrite IHn. Qed.

Lemma numeral_hd n : 0 < n -> match numeral n with [] => False | c :: _ => is_dec_digit c end.
Proof.
  intros H. destruct (numeral_spec n ltac:(lia)) as ((NE & F & _) & _). destruct (numeral n); [congruence|]. now inversion F.
Qed.
Lemma digit_not_nul c : is_dec_digit c -> Ascii.eqb c "000" = false.
Proof. intros D. destruct (Ascii.eqb_spec c "000"); [subst; cbv in D; lia|reflexivity]. Qed.

Lemma to_string128_pos n : 0 < n < 2 ^ 127 -> to_string128 n = Ok (numeral n).
Proof.
  intros H. unfold to_string128, adapter_bit_width. rewrite abs128 by lia. cbn [bind].
  rewrite Z.abs_eq by lia. destruct (Z.eqb_spec n 0); [lia|]. destruct (Z.ltb_spec n 0); [lia|].
  pose proof (numeral_len_estimate n H) as L. rewrite Z.add_0_r.
  pose proof (dec_rev_numeral 129 n ltac:(split; [lia|]; apply Z.lt_trans with (2 ^ 127); [lia|reflexivity])) as R.
  assert (LL : length (dec_rev 129 n) = length (numeral n)) by (rewrite <- R, rev_length; reflexivity).
  unfold place. rewrite LL. set (S := size_estimate (Z.log2 n + 1)) in *. clearbody S.
  destruct (Nat.ltb_spec (Z.to_nat S) (length (numeral n))); [lia|]. cbn [bind]. rewrite R. f_equal.
  pose proof (numeral_hd n ltac:(lia)) as HD.
  assert (K : (Z.to_nat S - length (numeral n) = 0 \/ Z.to_nat S - length (numeral n) = 1)%nat) by lia.
  destruct K as [-> | ->]; cbn [repeat app erase_nul].
  - destruct (numeral n); [reflexivity|]. cbn. now rewrite digit_not_nul.
  - reflexivity.
Qed.

Lemma to_string128_neg n : - 2 ^ 127 < n < 0 ->
  to_string128 n = Ok ("-"%char :: (if Z.of_nat (length (numeral (- n))) <? size_estimate (Z.log2 (- n) + 1) then ["000"%char] else [])
                       ++ numeral (- n)).
Proof.
  intros H. unfold to_string128, adapter_bit_width. rewrite abs128 by lia. cbn [bind].
  rewrite Z.abs_neq by lia. destruct (Z.eqb_spec (- n) 0); [lia|]. destruct (Z.ltb_spec n 0); [|lia].
  pose proof (numeral_len_estimate (- n) ltac:(lia)) as L.
  pose proof (dec_rev_numeral 129 (- n) ltac:(split; [lia|]; apply Z.lt_trans with (2 ^ 127); [lia|reflexivity])) as R.
  assert (LL : length (dec_rev 129 (- n)) = length (numeral (- n))) by (rewrite <- R, rev_length; reflexivity).
  unfold place. rewrite LL. set (S := size_estimate (Z.log2 (- n) + 1)) in *. clearbody S.
  destruct (Nat.ltb_spec (Z.to_nat (S + 1)) (length (numeral (- n)))); [lia|]. cbn [bind]. rewrite R. f_equal.
  destruct (Z.ltb_spec (Z.of_nat (length (numeral (- n)))) S).
  - assert (K : (Z.to_nat (S + 1) - length (numeral (- n)) = 2)%nat) by lia. rewrite K. reflexivity.
  - assert (K : (Z.to_nat (S + 1) - length (numeral (- n)) = 1)%nat) by lia. rewrite K. reflexivity.
Qed.

Lemma to_string_u128_small n : 0 < n < 2 ^ 127 -> to_string_u128 n = Ok (numeral n).
Proof.
  intros H. rewrite <- to_string128_pos by assumption. unfold to_string_u128, to_string128.
  assert (E : swrap 128 n = n) by (apply swrap_small'; [lia|exact (conj (Z.lt_le_incl _ _ (proj1 H)) (proj2 H))]). rewrite E.
  rewrite abs128 by lia. destruct (Z.ltb_spec n 0); [lia|]. rewrite Z.abs_eq by lia.
  unfold adapter_bit_width. rewrite abs128 by lia. cbn [bind]. rewrite Z.add_0_r. reflexivity.
Qed.
(** n >= 2^127 is seen as the negative n - 2^128: when that has few bits the digits do not fit *)
Lemma to_string_u128_big n : 2 ^ 128 - 2 ^ 100 <= n < 2 ^ 128 -> exists u, to_string_u128 n = Ub u.
Proof.
  intros H. unfold to_string_u128.
  assert (E : swrap 128 n = n - 2 ^ 128).
  { unfold swrap. rewrite Z.mod_small by lia. destruct (Z.ltb_spec n (2 ^ (128 - 1))); [|reflexivity].
    change (2 ^ (128 - 1)) with 170141183460469231731687303715884105728 in *. lia. }
  rewrite E. unfold adapter_bit_width. rewrite abs128 by lia. cbn [bind]. rewrite Z.abs_neq by lia.
  set (t := - (n - 2 ^ 128)). assert (Ht : 0 < t <= 2 ^ 100) by (unfold t; lia).
  destruct (Z.eqb_spec t 0); [lia|].
  assert (Lt : 0 <= Z.log2 t <= 100).
  { split; [apply Z.log2_nonneg|]. change 100 with (Z.log2 (2 ^ 100)). apply Z.log2_le_mono. lia. }
  assert (SE : size_estimate (Z.log2 t + 1) <= 31).
  { unfold size_estimate. assert ((Z.log2 t + 1) * 100000000000000000 / 332192809488736234 <= 101 * 100000000000000000 / 332192809488736234)
      by (apply Z.div_le_mono; lia). change (101 * 100000000000000000 / 332192809488736234) with 30 in *. lia. }
  assert (Hn : 0 < n < 2 ^ Z.of_nat 129) by (split; [lia|]; apply Z.lt_trans with (2 ^ 128); [lia|reflexivity]).
  pose proof (dec_rev_numeral 129 n Hn) as R.
  assert (LL : length (dec_rev 129 n) = length (numeral n)) by (rewrite <- R, rev_length; reflexivity).
  pose proof (numeral_length n ltac:(lia)) as NL.
  assert (LB : (38 <= length (numeral n))%nat).
  { destruct (Nat.le_gt_cases 38 (length (numeral n))) as [?|C]; [assumption|].
    assert (10 ^ Z.of_nat (length (numeral n)) <= 10 ^ 37) by (apply Z.pow_le_mono_r; lia).
    assert (10 ^ 37 < 2 ^ 128 - 2 ^ 100) by reflexivity. lia. }
  unfold place. rewrite LL.
  destruct (Nat.ltb_spec (Z.to_nat (size_estimate (Z.log2 t + 1))) (length (numeral n))); [|lia].
  cbn [bind]. eauto.
Qed.

(** parsing *)
Lemma char_signed_digit c : is_dec_digit c -> swrap 8 (Z.of_nat (nat_of_ascii c)) - 48 = digit_of c.
Proof. intros D. unfold is_dec_digit in D. rewrite swrap_small' by (try change (2 ^ (8 - 1)) with 128; lia). reflexivity. Qed.
Lemma dec_acc_ge ds : forall acc, 0 <= acc -> Forall is_dec_digit ds -> acc <= dec_value_acc acc ds.
Proof.
  induction ds as [|c ds IH]; intros acc A F; cbn [dec_value_acc]; [lia|].
  inversion F as [|? ? D F']; subst. unfold is_dec_digit in D. specialize (IH (10 * acc + (Z.of_nat (nat_of_ascii c) - 48)) ltac:(lia) F'). lia.
Qed.
Lemma to_int128_loop_spec ds : Forall is_dec_digit ds -> forall m, 0 <= m -> dec_value_acc m ds < 2 ^ 127 ->
  to_int128_loop m ds = Ok (dec_value_acc m ds).
Proof.
  induction ds as [|c ds IH]; intros F m Hm B; [reflexivity|].
  inversion F as [|? ? D F']; subst. cbn [to_int128_loop]. rewrite char_signed_digit by assumption.
  cbn [dec_value_acc] in *. fold (digit_of c) in *. pose proof (digit_of_bound c D).
  pose proof (dec_acc_ge ds (10 * m + digit_of c) ltac:(lia) F').
  rewrite chk_ok by (change (128 - 1) with 127; lia). cbn [bind].
  rewrite chk_ok by (change (128 - 1) with 127; lia). cbn [bind].
  rewrite IH; try assumption; try lia. 2: replace (m * 10 + digit_of c) with (10 * m + digit_of c) by lia; assumption.
  do 2 f_equal. lia.
Qed.
Lemma to_int128_loop_overflow ds : Forall is_dec_digit ds -> forall m, 0 <= m < 2 ^ 127 -> 2 ^ 127 <= dec_value_acc m ds ->
  exists u, to_int128_loop m ds = Ub u.
Proof.
  induction ds as [|c ds IH]; intros F m Hm B; [cbn in B; lia|].
  inversion F as [|? ? D F']; subst. cbn [to_int128_loop]. rewrite char_signed_digit by assumption.
  cbn [dec_value_acc] in *. fold (digit_of c) in *. pose proof (digit_of_bound c D).
  destruct (chk_cases 128 (m * 10)) as [E | ->]; [|cbn; eauto]. rewrite E. apply chk_inv in E as [_ E]. change (128 - 1) with 127 in E. cbn [bind].
  destruct (chk_cases 128 (m * 10 + digit_of c)) as [E2 | ->]; [|cbn; eauto]. rewrite E2. apply chk_inv in E2 as [_ E2].
  change (128 - 1) with 127 in E2. cbn [bind]. apply IH; [assumption|lia|]. replace (m * 10 + digit_of c) with (10 * m + digit_of c) by lia. assumption.
Qed.
Lemma int128_round_trip n : 0 < n < 2 ^ 127 -> exists s, to_string128 n = Ok s /\ adapter_to_int128 s = Ok n.
Proof.
  intros H. rewrite to_string128_pos by assumption. eexists; split; [reflexivity|].
  destruct (numeral_spec n ltac:(lia)) as ((NE & F & _) & V).
  unfold adapter_to_int128. rewrite to_int128_loop_spec; [now fold (dec_value (numeral n)); rewrite V|assumption|lia|].
  fold (dec_value (numeral n)). lia.
Qed.
Lemma to_uint128_loop_spec ds : Forall is_dec_digit ds -> forall m, 0 <= m < 2 ^ 128 ->
  to_uint128_loop m ds = dec_value_acc m ds mod 2 ^ 128.
Proof.
  intros F. induction ds as [|c ds IH]; intros m Hm.
  - cbn. now rewrite Z.mod_small.
  - inversion F as [|? ? D F']; subst. cbn [to_uint128_loop dec_value_acc]. fold (digit_of c).
    rewrite char_signed_digit by assumption. rewrite IH; [|assumption|unfold uwrap; apply Z.mod_pos_bound; reflexivity].
    rewrite !(dec_acc_split ds). rewrite <- !Z.add_mod_idemp_l with (a := _ * _) by discriminate.
    rewrite <- Z.mul_mod_idemp_l with (a := uwrap _ _) by discriminate. rewrite <- Z.mul_mod_idemp_l with (a := 10 * m + _) by discriminate.
    do 4 f_equal. unfold uwrap. rewrite Z.mod_mod by discriminate. rewrite Z.add_mod_idemp_l by discriminate. f_equal. lia.
Qed.

(** ** gcd and lcm *)
Lemma gcd_sound w a b g : adapter_gcd w a b = Ok g -> 0 <= g /\ (g | a) /\ (g | b) /\ forall d, (d | a) -> (d | b) -> (d | g).
Proof.
  unfold adapter_gcd. destruct (chk w (Z.abs a)); cbn [bind]; try discriminate. destruct (chk w (Z.abs b)); cbn [bind]; try discriminate.
  intros [= <-]. split; [apply Z.gcd_nonneg|]. split; [apply Z.gcd_divide_l|]. split; [apply Z.gcd_divide_r|]. intros. now apply Z.gcd_greatest.
Qed.
Lemma lcm_sound w a b l : adapter_lcm w a b = Ok l -> 0 <= l /\ (a | l) /\ (b | l) /\ forall m, (a | m) -> (b | m) -> (l | m).
Proof.
  unfold adapter_lcm. destruct (chk w (Z.abs a)); cbn [bind]; try discriminate. destruct (chk w (Z.abs b)); cbn [bind]; try discriminate.
  intros H. apply chk_inv in H as [-> _]. split; [apply Z.lcm_nonneg|]. split; [apply Z.divide_lcm_l|]. split; [apply Z.divide_lcm_r|]. intros. now apply Z.lcm_least.
Qed.
Lemma gcd_returns w a b : Z.abs a < 2 ^ (w - 1) -> Z.abs b < 2 ^ (w - 1) -> exists g, adapter_gcd w a b = Ok g.
Proof. intros A B. unfold adapter_gcd. rewrite !chk_ok by lia. cbn [bind]. eauto. Qed.
Lemma lcm_returns w a b : Z.abs (a * b) < 2 ^ (w - 1) -> a <> 0 -> b <> 0 -> exists l, adapter_lcm w a b = Ok l.
Proof.
  intros M A B. assert (Z.abs a <= Z.abs (a * b)) by nia. assert (Z.abs b <= Z.abs (a * b)) by nia.
  unfold adapter_lcm. rewrite !chk_ok by lia. cbn [bind]. rewrite chk_ok; [eauto|].
  pose proof (Z.lcm_nonneg a b). enough (Z.lcm a b <= Z.abs (a * b)) by lia.
  apply Z.divide_pos_le; [lia|]. apply Z.divide_abs_r. apply Z.lcm_least; [apply Z.divide_factor_l|apply Z.divide_factor_r].
Qed.
