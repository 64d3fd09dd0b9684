(** Nearest double; layout of the text; dtoa. *)
From Coq Require Import ZArith QArith Qabs Qpower String Ascii Lia Lqa Bool List.
From Verif Require Import Base DtoaTable DtoaModel DtoaSpec DtoaProofs1 DtoaProofs2 DtoaProofs3 DtoaProofs4.
Import ListNotations.
Open Scope Z_scope.

(** ** doubles are ordered like their patterns *)
Lemma dbl_succ b : finite b -> (dbl b < dbl (b + 1))%Q.
Proof.
  intros F. destruct (Z.eq_dec b 0) as [->|N]; [vm_compute; reflexivity|]. destruct F as [F0 F1]. destruct (bits_ok b (conj F0 F1) ltac:(lia)) as (f & e & _ & _ & _ & _ & V0 & V1 & _).
  rewrite V0, V1, IQ_add. pose proof (pow2_pos e) as P. set (x := pow2 e) in *. set (y := IQ f). change (IQ 1) with 1%Q. clearbody x y. setoid_replace ((y + 1) * x)%Q with (y * x + x)%Q by ring. lra.
Qed.
Lemma dbl_mono a b : 0 <= a <= b -> b <= 0x7ff * 2 ^ 52 -> (dbl a <= dbl b)%Q.
Proof.
  intros [Ha Hab] Hb. replace b with (a + (b - a)) in * by ring. assert (Hd : 0 <= b - a) by lia. revert Hb. generalize (b - a) Hd. clear b Hab Hd. intros d Hd. pattern d. apply natlike_ind; [| |exact Hd].
  - intros _. rewrite Z.add_0_r. apply Qle_refl.
  - intros x Hx IH Hb. apply Qle_trans with (dbl (a + x)); [apply IH; lia|]. rewrite <- Z.add_1_r, Z.add_assoc. apply Qlt_le_weak, dbl_succ. unfold finite. lia.
Qed.
Lemma nearest_between x b : finite b -> 0 < b -> ((dbl (b - 1) + dbl b) / 2 < x)%Q -> (x < (dbl b + dbl (b + 1)) / 2)%Q -> nearest x b.
Proof.
  intros F Pb L U b' F' N. pose proof (dbl_succ b F) as S. assert (F1 : finite (b - 1)) by (unfold finite in *; lia). pose proof (dbl_succ (b - 1) F1) as S'. replace (b - 1 + 1) with b in S' by ring.
  unfold finite in F, F'. assert (L' : (dbl (b - 1) + dbl b < x * 2)%Q) by (setoid_replace (dbl (b - 1) + dbl b)%Q with ((dbl (b - 1) + dbl b) / 2 * 2)%Q by field; apply Qmult_lt_r; [reflexivity|exact L]).
  assert (U' : (x * 2 < dbl b + dbl (b + 1))%Q) by (setoid_replace (dbl b + dbl (b + 1))%Q with ((dbl b + dbl (b + 1)) / 2 * 2)%Q by field; apply Qmult_lt_r; [reflexivity|exact U]). clear L U.
  destruct (Z_lt_ge_dec b' b) as [C|C].
  - pose proof (dbl_mono b' (b - 1) ltac:(lia) ltac:(lia)) as M. apply Qabs_case; intros; apply Qabs_case; intros; lra.
  - pose proof (dbl_mono (b + 1) b' ltac:(lia) ltac:(lia)) as M. apply Qabs_case; intros; apply Qabs_case; intros; lra.
Qed.

(** ** digits *)
Lemma dval_from a s : fold_left (fun a c => 10 * a + (code c - 48)) s a = a * 10 ^ Z.of_nat (length s) + dval s.
Proof.
  unfold dval. revert a. induction s as [|c s IH]; intros a; cbn [fold_left length]; [rewrite Z.pow_0_r; ring|]. rewrite IH, (IH (10 * 0 + _)). rewrite Nat2Z.inj_succ, Z.pow_succ_r by lia. ring.
Qed.
Lemma dval_app a b : dval (a ++ b) = dval a * 10 ^ Z.of_nat (length b) + dval b. Proof. unfold dval at 1. rewrite fold_left_app. fold (dval a). apply dval_from. Qed.
Lemma dval_zeros n : dval (repeat "0"%char n) = 0.
Proof. induction n; [reflexivity|]. cbn [repeat]. change ("0"%char :: repeat "0"%char n) with (["0"%char] ++ repeat "0"%char n). rewrite dval_app, IHn. reflexivity. Qed.
Lemma dval_upper s : Forall digit s -> dval s < 10 ^ Z.of_nat (length s).
Proof.
  induction s as [|c s IH] using rev_ind; [intros _; reflexivity|]. intros H. apply Forall_app in H as [A B]. inversion B as [|? ? C _]; subst. unfold digit in C. rewrite dval_snoc, app_length. cbn [length]. specialize (IH A).
  rewrite Nat2Z.inj_add, Z.pow_add_r by lia. change (10 ^ Z.of_nat 1) with 10. lia.
Qed.
Lemma dval_lower s : Forall digit s -> lead s -> s <> [] -> 10 ^ (Z.of_nat (length s) - 1) <= dval s.
Proof.
  destruct s as [|c s]; [congruence|]. intros H L _. inversion H as [|? ? C D]; subst. cbn [lead] in L. unfold digit in C. change (c :: s) with ([c] ++ s). rewrite dval_app, app_length. cbn [length app dval fold_left].
  replace (Z.of_nat (1 + length s) - 1) with (Z.of_nat (length s)) by lia. pose proof (dval_nonneg s D). assert (0 < 10 ^ Z.of_nat (length s)) by (apply Z.pow_pos_nonneg; lia).
  assert (1 * 10 ^ Z.of_nat (length s) <= (10 * 0 + (code c - 48)) * 10 ^ Z.of_nat (length s)) by (apply Z.mul_le_mono_nonneg_r; lia). lia.
Qed.
Lemma is_digit_iff c : is_digit c = true <-> digit c. Proof. unfold is_digit, digit. rewrite andb_true_iff, !Z.leb_le. tauto. Qed.
Lemma all_digits_iff s : all_digits s = true <-> Forall digit s.
Proof. unfold all_digits. rewrite forallb_forall, Forall_forall. split; intros H c I; apply is_digit_iff; auto. Qed.
Lemma some_digits_ok s : Forall digit s -> s <> [] -> some_digits s = true.
Proof. intros A B. unfold some_digits. apply all_digits_iff in A. rewrite A. destruct s; [congruence|reflexivity]. Qed.
Lemma zeros_digits n : Forall digit (repeat "0"%char n). Proof. apply Forall_forall. intros c H. apply repeat_spec in H. subst c. unfold digit, code. cbn. lia. Qed.

(** ** cutting *)
Definition free (c : ascii) (s : text) : Prop := Forall (fun d => d <> c) s.
Lemma digits_free c s : ~ digit c -> Forall digit s -> free c s. Proof. intros N H. eapply Forall_impl; [|exact H]. cbv beta. intros d D ->. contradiction. Qed.
Lemma cut_none c (s : text) : free c s -> cut c s = (s, None).
Proof. induction 1 as [|d s N H IH]; [reflexivity|]. cbn [cut]. destruct (Ascii.eqb_spec d c); [contradiction|]. now rewrite IH. Qed.
Lemma cut_some c (a b : text) : free c a -> cut c (a ++ c :: b) = (a, Some b).
Proof. induction 1 as [|d s N H IH]; [cbn [app cut]; now rewrite Ascii.eqb_refl|]. cbn [app cut]. destruct (Ascii.eqb_spec d c); [contradiction|]. now rewrite IH. Qed.
Lemma nd_e : ~ digit "e"%char. Proof. unfold digit, code. cbn. lia. Qed.
Lemma nd_dot : ~ digit "."%char. Proof. unfold digit, code. cbn. lia. Qed.
Lemma nd_minus : ~ digit "-"%char. Proof. unfold digit, code. cbn. lia. Qed.
Lemma free_app c a b : free c a -> free c b -> free c (a ++ b). Proof. intros A B. apply Forall_app. auto. Qed.

(** the three shapes of a literal *)
Lemma read_point (ip fp : text) : Forall digit ip -> ip <> [] -> Forall digit fp -> read_decimal (ip ++ "."%char :: fp) = Some (IQ (dval (ip ++ fp)) * pow10 (0 - Z.of_nat (length fp)))%Q.
Proof.
  intros A B C. unfold read_decimal. rewrite cut_none; [|apply free_app; [apply digits_free; [apply nd_e|assumption]|constructor; [discriminate|apply digits_free; [apply nd_e|assumption]]]].
  rewrite cut_some by (apply digits_free; [apply nd_dot|assumption]). cbn [read_exponent]. rewrite some_digits_ok by assumption. apply all_digits_iff in C. now rewrite C.
Qed.
Lemma read_exp (ip ex : text) x : Forall digit ip -> ip <> [] -> read_exponent (Some ex) = Some x -> read_decimal (ip ++ "e"%char :: ex) = Some (IQ (dval ip) * pow10 (x - 0))%Q.
Proof.
  intros A B C. unfold read_decimal. rewrite cut_some by (apply digits_free; [apply nd_e|assumption]). rewrite cut_none by (apply digits_free; [apply nd_dot|assumption]). cbv beta iota zeta. rewrite C, some_digits_ok by assumption. cbn [all_digits forallb andb length]. now rewrite app_nil_r.
Qed.
Lemma read_point_exp (ip fp ex : text) x : Forall digit ip -> ip <> [] -> Forall digit fp -> read_exponent (Some ex) = Some x ->
  read_decimal ((ip ++ "."%char :: fp) ++ "e"%char :: ex) = Some (IQ (dval (ip ++ fp)) * pow10 (x - Z.of_nat (length fp)))%Q.
Proof.
  intros A B C D. unfold read_decimal. rewrite cut_some by (apply free_app; [apply digits_free; [apply nd_e|assumption]|constructor; [discriminate|apply digits_free; [apply nd_e|assumption]]]).
  rewrite cut_some by (apply digits_free; [apply nd_dot|assumption]). cbv beta iota zeta. rewrite D, some_digits_ok by assumption. apply all_digits_iff in C. now rewrite C.
Qed.

(** ** the exponent *)
Definition exp_digits (K : Z) : text :=
  if 100 <=? K then [chr (48 + Z.quot K 100); chr (48 + Z.quot (Z.rem K 100) 10); chr (48 + Z.rem (Z.rem K 100) 10)]
  else if 10 <=? K then [chr (48 + Z.quot K 10); chr (48 + Z.rem K 10)] else [chr (48 + K)].
Lemma exp_digits_ok K : 0 <= K <= 999 -> Forall digit (exp_digits K) /\ exp_digits K <> [] /\ dval (exp_digits K) = K.
Proof.
  intros H. assert (Q : forall a n, 0 <= a -> 0 < n -> Z.quot a n = a / n) by (intros; apply Z.quot_div_nonneg; lia). assert (R : forall a n, 0 <= a -> 0 < n -> Z.rem a n = a mod n) by (intros; apply Z.rem_mod_nonneg; lia).
  unfold exp_digits. rewrite (R K 100), (Q K 100), (Q K 10), (R K 10) by lia. pose proof (Z.div_mod K 100 ltac:(lia)) as D1. pose proof (Z.mod_pos_bound K 100 ltac:(lia)) as M1.
  pose proof (Z.div_mod K 10 ltac:(lia)) as D2. pose proof (Z.mod_pos_bound K 10 ltac:(lia)) as M2.
  rewrite (Q (K mod 100) 10), (R (K mod 100) 10) by lia. pose proof (Z.div_mod (K mod 100) 10 ltac:(lia)) as D3. pose proof (Z.mod_pos_bound (K mod 100) 10 ltac:(lia)) as M3.
  set (a := K / 100) in *. set (m := K mod 100) in *. set (c := m / 10) in *. set (d := m mod 10) in *. set (g := K / 10) in *. set (h := K mod 10) in *. clearbody a m c d g h.
  assert (E : forall x, 0 <= x <= 9 -> digit (chr (48 + x)) /\ code (chr (48 + x)) = 48 + x) by apply digit_chr.
  destruct (Z.leb_spec 100 K); [|destruct (Z.leb_spec 10 K)].
  - destruct (E a ltac:(lia)) as [A1 A2]. destruct (E c ltac:(lia)) as [B1 B2]. destruct (E d ltac:(lia)) as [C1 C2]. split; [repeat constructor; assumption || apply A1 || apply B1 || apply C1|]. split; [discriminate|]. unfold dval. cbn [fold_left]. rewrite A2, B2, C2. lia.
  - destruct (E g ltac:(lia)) as [A1 A2]. destruct (E h ltac:(lia)) as [B1 B2]. split; [repeat constructor; apply A1 || apply B1|]. split; [discriminate|]. unfold dval. cbn [fold_left]. rewrite A2, B2. lia.
  - destruct (E K ltac:(lia)) as [A1 A2]. split; [repeat constructor; apply A1|]. split; [discriminate|]. unfold dval. cbn [fold_left]. rewrite A2. lia.
Qed.
Definition exp_text (K : Z) : text := if K <? 0 then "-"%char :: exp_digits (- K) else exp_digits K.
Lemma fill_exponent_text K buf : fill_exponent K buf = buf ++ exp_text K.
Proof. unfold fill_exponent, exp_text, exp_digits. destruct (K <? 0); destruct (100 <=? _); try destruct (10 <=? _); rewrite <- ?app_assoc; reflexivity. Qed.
Lemma read_exp_text K : -999 <= K <= 999 -> read_exponent (Some (exp_text K)) = Some K.
Proof.
  intros H. unfold exp_text. destruct (Z.ltb_spec K 0).
  - destruct (exp_digits_ok (- K) ltac:(lia)) as (A & B & C). cbn [read_exponent]. rewrite Ascii.eqb_refl. rewrite some_digits_ok by assumption. rewrite C. f_equal. lia.
  - destruct (exp_digits_ok K ltac:(lia)) as (A & B & C). unfold read_exponent. destruct (exp_digits K) as [|c s] eqn:E; [congruence|]. destruct (Ascii.eqb_spec c "-") as [->|]; [inversion A; subst; elim nd_minus; assumption|].
    rewrite <- E in *. rewrite some_digits_ok by assumption. now rewrite C.
Qed.

(** ** prettify_string *)
Definition shown (n k : Z) : Z := if ((n <=? n + k) && (n + k <=? 21))%bool then n + k - 1 else k.
Lemma prettify_ok r k : Forall digit r -> r <> [] -> -999 <= Z.of_nat (length r) + k - 1 <= 999 ->
  exists t q, prettify_string r k = Ok t /\ read_decimal t = Some q /\ (q == IQ (dval r) * pow10 (shown (Z.of_nat (length r)) k))%Q.
Proof.
  intros A B H. unfold prettify_string, shown. set (n := Z.of_nat (length r)) in *. assert (Hn : 1 <= n) by (unfold n; destruct r; [congruence|cbn [length]; lia]).
  destruct ((n <=? n + k) && (n + k <=? 21))%bool eqn:E1.
  { apply andb_true_iff in E1 as [L1 L2]. apply Z.leb_le in L1, L2. unfold zeros. replace (n + k - 1 <? 0) with false by (symmetry; apply Z.ltb_ge; lia). cbn [bind].
    eexists. eexists. split; [reflexivity|]. rewrite app_assoc. change (list_ascii_of_string ".0") with ("."%char :: ["0"%char]).
    split; [apply read_point; [apply Forall_app; split; [exact A|apply zeros_digits]|destruct r; [congruence|discriminate]|repeat constructor; unfold digit, code; cbn; lia]|].
    rewrite !dval_app, dval_zeros, repeat_length. cbn [length]. change (dval ["0"%char]) with 0. rewrite !Z.add_0_r, Z2Nat.id by lia. change (10 ^ Z.of_nat 1) with 10. change (0 - Z.of_nat 1) with (-1).
    rewrite !IQ_mul, <- pow10_Z by lia. change (pow10 (-1)) with (1 # 10)%Q. change (IQ 10) with (10 # 1)%Q. field. }
  destruct ((0 <? n + k) && (n + k <=? 21))%bool eqn:E2.
  { apply andb_true_iff in E2 as [L1 L2]. apply Z.ltb_lt in L1. apply Z.leb_le in L2. assert (K0 : k < 0). { apply andb_false_iff in E1 as [E1|E1]; apply Z.leb_gt in E1; lia. }
    eexists. eexists. split; [reflexivity|]. change (list_ascii_of_string ".") with ["."%char]. cbn [app]. assert (LF : length (firstn (Z.to_nat (n + k)) r) = Z.to_nat (n + k)) by (apply firstn_length_le; lia).
    pose proof A as A'. rewrite <- (firstn_skipn (Z.to_nat (n + k)) r) in A'. apply Forall_app in A' as [A1 A2].
    split; [apply read_point; [exact A1|intros Z; rewrite Z in LF; cbn in LF; lia|exact A2]|]. rewrite firstn_skipn, skipn_length. replace (0 - Z.of_nat (length r - Z.to_nat (n + k))) with k by lia. reflexivity. }
  assert (KK : n + k <= 0 \/ 21 < n + k). { apply andb_false_iff in E2 as [E2|E2]; [apply Z.ltb_ge in E2|apply Z.leb_gt in E2]; lia. }
  destruct ((-6 <? n + k) && (n + k <=? 0))%bool eqn:E3.
  { apply andb_true_iff in E3 as [L1 L2]. apply Z.ltb_lt in L1. apply Z.leb_le in L2. unfold zeros. replace (- (n + k) <? 0) with false by (symmetry; apply Z.ltb_ge; lia). cbn [bind].
    eexists. eexists. split; [reflexivity|]. change (list_ascii_of_string "0.") with (["0"%char] ++ ["."%char]). rewrite <- app_assoc. cbn [app].
    split; [apply (read_point ["0"%char]); [repeat constructor; unfold digit, code; cbn; lia|discriminate|apply Forall_app; split; [apply zeros_digits|exact A]]|].
    rewrite !dval_app, dval_zeros, app_length, repeat_length. change (dval ["0"%char]) with 0. rewrite Z.mul_0_l, Z.add_0_l. replace (0 - Z.of_nat (Z.to_nat (- (n + k)) + length r)) with k by lia. reflexivity. }
  destruct (Z.eqb_spec n 1) as [N1|N1].
  { eexists. eexists. split; [reflexivity|]. rewrite fill_exponent_text, <- app_assoc. change (list_ascii_of_string "e") with ["e"%char]. cbn [app].
    split; [apply read_exp; [exact A|exact B|apply read_exp_text; lia]|]. replace (n + k - 1 - 0) with k by lia. reflexivity. }
  destruct r as [|c r]; [congruence|]. inversion A as [|? ? A1 A2]; subst. eexists. eexists. split; [reflexivity|]. rewrite fill_exponent_text. change (list_ascii_of_string ".") with ["."%char]. change (list_ascii_of_string "e") with ["e"%char].
  replace (([c] ++ ["."%char] ++ r ++ ["e"%char]) ++ exp_text (n + k - 1)) with (([c] ++ "."%char :: r) ++ "e"%char :: exp_text (n + k - 1)) by (cbn [app]; rewrite <- app_assoc; reflexivity).
  split; [apply read_point_exp; [repeat constructor; apply A1|discriminate|exact A2|apply read_exp_text; lia]|]. cbn [app]. replace (n + k - 1 - Z.of_nat (length r)) with k by (unfold n; cbn [length]; lia). reflexivity.
Qed.

(** ** the size of K *)
Lemma pow10_mono a b : a <= b -> (pow10 a <= pow10 b)%Q.
Proof.
  intros H. replace b with (a + (b - a)) by ring. rewrite pow10_add. rewrite (pow10_Z (b - a)) by lia. pose proof (pow10_pos a) as P. setoid_replace (pow10 a) with (pow10 a * 1)%Q at 1 by ring.
  apply Qmult_le_l; [exact P|]. change 1%Q with (IQ 1). apply (proj1 (IQ_le _ _)). assert (0 < 10 ^ (b - a)) by (apply Z.pow_pos_nonneg; lia). lia.
Qed.
Lemma pow10_lt_inv a b : (pow10 a < pow10 b)%Q -> a < b.
Proof. intros H. destruct (Z_lt_ge_dec a b) as [L|L]; [exact L|]. pose proof (pow10_mono b a ltac:(lia)). exfalso. apply (Qlt_irrefl (pow10 a)). eapply Qlt_le_trans; [exact H|assumption]. Qed.
Lemma magnitude r K : Forall digit r -> lead r -> r <> [] -> (pow10 (Z.of_nat (length r) + K - 1) <= IQ (dval r) * pow10 K)%Q /\ (IQ (dval r) * pow10 K < pow10 (Z.of_nat (length r) + K))%Q.
Proof.
  intros A B C. pose proof (dval_lower r A B C) as L. pose proof (dval_upper r A) as U. assert (1 <= Z.of_nat (length r)) by (destruct r; [congruence|cbn [length]; lia]). pose proof (pow10_pos K) as P.
  replace (Z.of_nat (length r) + K - 1) with (Z.of_nat (length r) - 1 + K) by ring. rewrite !pow10_add. rewrite (pow10_Z (Z.of_nat (length r) - 1)), (pow10_Z (Z.of_nat (length r))) by lia. apply (proj1 (IQ_le _ _)) in L. apply (proj1 (IQ_lt _ _)) in U.
  split; [apply Qmult_le_compat_r; [exact L|apply Qlt_le_weak; exact P]|apply Qmult_lt_compat_r; [exact P|exact U]].
Qed.
Lemma dbl_bounds b : finite b -> 0 < b -> (0 <= dbl (b - 1))%Q /\ (pow10 (-400) < dbl b)%Q /\ (dbl (b + 1) < pow10 400)%Q.
Proof.
  intros F P. unfold finite in F. split; [apply Qle_trans with (dbl 0); [discriminate|apply dbl_mono; lia]|]. split.
  - apply Qlt_le_trans with (dbl 1); [vm_compute; reflexivity|apply dbl_mono; lia].
  - apply Qle_lt_trans with (dbl (0x7ff * 2 ^ 52)); [apply dbl_mono; lia|vm_compute; reflexivity].
Qed.
Lemma exponent_range b r K : finite b -> 0 < b -> Forall digit r -> lead r -> r <> [] -> ((dbl (b - 1) + dbl b) / 2 < IQ (dval r) * pow10 K)%Q -> (IQ (dval r) * pow10 K < (dbl b + dbl (b + 1)) / 2)%Q ->
  -999 <= Z.of_nat (length r) + K - 1 <= 999.
Proof.
  intros F P A B C L U. destruct (magnitude r K A B C) as [M1 M2]. destruct (dbl_bounds b F P) as (B0 & B1 & B2). pose proof (dbl_succ b F) as S.
  assert (T : (pow10 (-401) < pow10 (Z.of_nat (length r) + K))%Q).
  { eapply Qle_lt_trans; [|eapply Qlt_trans; [exact L|exact M2]]. assert (E : (pow10 (-400) == 10 * pow10 (-401))%Q) by (change (-400) with (1 + -401); rewrite pow10_add; reflexivity).
    pose proof (pow10_pos (-401)). set (x := pow10 (-401)) in *. set (y := pow10 (-400)) in *. clearbody x y. apply Qle_shift_div_l; [reflexivity|]. lra. }
  assert (T' : (pow10 (Z.of_nat (length r) + K - 1) < pow10 400)%Q).
  { eapply Qle_lt_trans; [exact M1|]. eapply Qlt_trans; [exact U|]. apply Qlt_shift_div_r; [reflexivity|]. set (y := pow10 400) in *. clearbody y. lra. }
  apply pow10_lt_inv in T, T'. lia.
Qed.

(** ** dtoa *)
Lemma positive_bits b : finite b -> 0 < b -> is_zero b = false /\ is_negative b = false /\ fabs b = b /\ Z.land b sign_mask = 0.
Proof.
  intros [F0 F1] P. assert (E : Z.land b 0x7FFFFFFFFFFFFFFF = b) by (change 0x7FFFFFFFFFFFFFFF with (2 ^ 63 - 1); rewrite land_ones by lia; apply Z.mod_small; lia).
  assert (S : Z.land b sign_mask = 0). { change sign_mask with (2 ^ 63). apply Z.bits_inj'. intros m Hm. rewrite Z.land_spec, Z.bits_0, Z.pow2_bits_eqb by lia. destruct (Z.eqb_spec 63 m) as [<-|]; [|apply andb_false_r]. rewrite andb_true_r. apply Z.bits_above_log2; [lia|apply Z.log2_lt_pow2; lia]. }
  unfold is_negative, is_zero, fabs. rewrite E, S. repeat split; try reflexivity. apply Z.eqb_neq. lia.
Qed.
Lemma dtoa_positive b : finite b -> 0 < b -> exists r K t q, grisu2 b = Ok (r, K) /\ dtoa b = Ok t /\ read_decimal t = Some q /\ (q == IQ (dval r) * pow10 (shown (Z.of_nat (length r)) K))%Q /\
  nearest (IQ (dval r) * pow10 K) b /\ Forall digit r /\ lead r /\ r <> [] /\ (length r <= 17)%nat /\ ((dbl (b - 1) + dbl b) / 2 < IQ (dval r) * pow10 K)%Q /\ (IQ (dval r) * pow10 K < (dbl b + dbl (b + 1)) / 2)%Q.
Proof.
  intros F P. destruct (grisu2_ok b F P) as (r & K & G & A & B & C & D17 & L & U). destruct (prettify_ok r K A C (exponent_range b r K F P A B C L U)) as (t & q & T & R & Q).
  exists r, K, t, q. destruct (positive_bits b F P) as (Z1 & Z2 & Z3 & Z4). split; [exact G|]. split; [|split; [exact R|split; [exact Q|split; [now apply nearest_between|assert (L17 : (length r <= 17)%nat) by (pose proof (dval_lower r A B C) as LB; assert (Z.of_nat (length r) - 1 < 17) by (apply (Z.pow_lt_mono_r_iff 10); lia); lia); tauto]]]].
  unfold dtoa. rewrite Z1, Z2, Z3. cbn [andb]. unfold fill_double. rewrite G. cbn [bind]. rewrite T. reflexivity.
Qed.
(** a double that is not an integer needs digits behind the point *)
Lemma fraction_K b r K : finite b -> 0 < b -> (forall z, ~ (dbl b == IQ z)%Q) -> ((dbl (b - 1) + dbl b) / 2 < IQ (dval r) * pow10 K)%Q -> (IQ (dval r) * pow10 K < (dbl b + dbl (b + 1)) / 2)%Q -> K < 0.
Proof.
  intros F P N L U. destruct (Z_lt_ge_dec K 0) as [|H]; [assumption|exfalso]. rewrite pow10_Z, <- IQ_mul in L, U by lia. set (z := dval r * 10 ^ K) in *. clearbody z.
  destruct (bits_ok b F P) as (f & e & _ & Hf & He & _ & V0 & V1 & V2 & V3). destruct (Z_lt_ge_dec e 0) as [E|E].
  2: { apply (N (f * 2 ^ e)). rewrite V0, pow2_Z, <- IQ_mul by lia. reflexivity. }
  assert (LO : (IQ (2 * f - 1) * pow2 e <= dbl (b - 1) + dbl b)%Q).
  { rewrite IQ_sub, IQ_mul. change (IQ 2) with 2%Q. change (IQ 1) with 1%Q. pose proof (pow2_pos (e - 1)) as PP. pose proof (half_pow e) as HP. destruct (Z.eq_dec f (2 ^ 52)) as [Ef|Nf]; [destruct (Z.eq_dec e (-1074)) as [Ee|Ne]|].
    - rewrite (V2 (or_intror Ee)), V0, IQ_sub. change (IQ 1) with 1%Q. apply Qle_lteq. right. ring.
    - rewrite (V3 Ef Ne), V0, IQ_sub, IQ_mul, HP. change (IQ 1) with 1%Q. change (IQ 2) with 2%Q. set (x := pow2 (e - 1)) in *. set (y := IQ f). clearbody x y. setoid_replace ((2 * y - 1) * (2 * x))%Q with (4 * (y * x) - 2 * x)%Q by ring. setoid_replace ((2 * y - 1) * x + y * (2 * x))%Q with (4 * (y * x) - x)%Q by ring. lra.
    - rewrite (V2 (or_introl Nf)), V0, IQ_sub. change (IQ 1) with 1%Q. apply Qle_lteq. right. ring. }
  assert (UP : (dbl b + dbl (b + 1) == IQ (2 * f + 1) * pow2 e)%Q) by (rewrite V0, V1, !IQ_add, IQ_mul; change (IQ 2) with 2%Q; change (IQ 1) with 1%Q; ring).
  assert (PE : (pow2 e * pow2 (- e) == 1)%Q) by (rewrite <- pow2_add, Z.add_opp_diag_r; reflexivity). pose proof (pow2_pos (- e)) as PN. assert (PZ : (pow2 (- e) == IQ (2 ^ (- e)))%Q) by (apply pow2_Z; lia). set (u := 2 ^ (- e)) in *.
  assert (L' : (IQ (2 * f - 1) * pow2 e < IQ z * 2)%Q). { eapply Qle_lt_trans; [exact LO|]. apply (Qmult_lt_compat_r _ _ 2 ltac:(reflexivity)) in L. setoid_replace ((dbl (b - 1) + dbl b) / 2 * 2)%Q with (dbl (b - 1) + dbl b)%Q in L by field. exact L. }
  assert (U' : (IQ z * 2 < IQ (2 * f + 1) * pow2 e)%Q). { apply (Qmult_lt_compat_r _ _ 2 ltac:(reflexivity)) in U. setoid_replace ((dbl b + dbl (b + 1)) / 2 * 2)%Q with (dbl b + dbl (b + 1))%Q in U by field. rewrite UP in U. exact U. }
  apply (Qmult_lt_compat_r _ _ _ PN) in L', U'.
  setoid_replace (IQ (2 * f - 1) * pow2 e * pow2 (- e))%Q with (IQ (2 * f - 1) * (pow2 e * pow2 (- e)))%Q in L' by ring. setoid_replace (IQ (2 * f + 1) * pow2 e * pow2 (- e))%Q with (IQ (2 * f + 1) * (pow2 e * pow2 (- e)))%Q in U' by ring.
  rewrite PE, Qmult_1_r in L', U'. rewrite PZ in L', U'. change 2%Q with (IQ 2) in L', U'. rewrite <- !IQ_mul in L', U'. apply IQ_lt in L', U'. assert (EZ : f = z * u) by lia.
  apply (N z). rewrite V0, EZ, IQ_mul, <- PZ. setoid_replace (IQ z * pow2 (- e) * pow2 e)%Q with (IQ z * (pow2 e * pow2 (- e)))%Q by ring. rewrite PE. ring.
Qed.
