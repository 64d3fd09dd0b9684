(** Integer powers through double, and that a faithful pow exists. *)
From Coq Require Import ZArith QArith Qabs Qround Qpower String Ascii Lia Lqa Bool List.
From Verif Require Import Base AdapterModel AdapterProofs RationalModel RationalProofs RationalProofs2 RealModel RealSpec DecModel DecSpec DecProofs1 DecProofs2 DecProofs3 DecProps NumModel DblModel DblSpec DblProofs1.
Import ListNotations.
Open Scope Z_scope.

Lemma inject_abs z : (Qabs (inject_Z z) == inject_Z (Z.abs z))%Q. Proof. reflexivity. Qed.
Lemma inject_le a b : (inject_Z a <= inject_Z b)%Q <-> a <= b. Proof. rewrite <- Zle_Qle. reflexivity. Qed.
Lemma pow2_int s : 0 <= s -> (Qpower 2 s == inject_Z (2 ^ s))%Q.
Proof. intros H. symmetry. change 2%Q with (inject_Z 2). exact (Zpower_Qpower 2 s H). Qed.
Lemma bits_of_double z : double_int z -> forall x, (x == inject_Z z)%Q -> has_bits 53 x.
Proof. intros (m & k & K & M & ->) x E. exists m, k. split; [exact M|]. rewrite E, inject_Z_mult, pow2_int by exact K. reflexivity. Qed.
(** 53 bits above 2^52: an integer a double holds *)
Lemma big_bits q : has_bits 53 q -> (inject_Z (2 ^ 52) < Qabs q)%Q -> exists z, (q == inject_Z z)%Q /\ double_int z.
Proof.
  intros (n & s & N & E) B. destruct (Z_le_gt_dec 0 s) as [S0|S0].
  - exists (n * 2 ^ s). split; [rewrite E, inject_Z_mult, pow2_int by exact S0; reflexivity|]. exists n, s. auto.
  - exfalso. assert (P : (Qpower 2 s <= (1#2))%Q).
    { assert (T : (Qpower 2 s * Qpower 2 (-1 - s) == (1#2))%Q) by (rewrite <- Qpower_plus by discriminate; replace (s + (-1 - s)) with (-1) by lia; reflexivity).
      assert (L : (1 <= Qpower 2 (-1 - s))%Q) by (rewrite pow2_int by lia; apply (inject_le 1); pose proof (Z.pow_pos_nonneg 2 (-1 - s)); lia).
      assert (N0 : (0 <= Qpower 2 s)%Q) by (apply Qpower_pos; discriminate). nra. }
    assert (N0 : (0 <= Qpower 2 s)%Q) by (apply Qpower_pos; discriminate).
    assert (A : (Qabs q == inject_Z (Z.abs n) * Qpower 2 s)%Q) by (rewrite E, Qabs_Qmult, (Qabs_pos _ N0); reflexivity).
    apply inject_le in N. rewrite A in B. assert (0 <= inject_Z (Z.abs n))%Q by (apply (inject_le 0); lia). change (inject_Z (2 ^ 53)) with (9007199254740992#1) in N. change (inject_Z (2 ^ 52)) with (4503599627370496#1) in B. nra.
Qed.
Lemma odd_double z : Z.odd z = true -> 2 ^ 53 < Z.abs z -> ~ double_int z.
Proof.
  intros O B (m & k & K & M & E). destruct (Z.eq_dec k 0) as [->|K0]; [change (2 ^ 0) with 1 in E; lia|].
  rewrite E in O. replace k with (Z.succ (k - 1)) in O by lia. rewrite Z.pow_succ_r in O by lia. rewrite Z.odd_mul, Z.odd_mul in O. cbn in O. rewrite andb_false_r in O. discriminate.
Qed.

(** what pow gives after the cast *)
Lemma faithful_trunc f b e : pow_faithful f -> Z.abs b <= 2 ^ 53 -> 0 <= e <= 2 ^ 53 -> forall x y, (x == inject_Z b)%Q -> (y == inject_Z e)%Q ->
  Z.abs (ftrunc (f x y) - b ^ e) * 2 ^ 52 <= Z.abs (b ^ e) /\ (ftrunc (f x y) = b ^ e <-> double_int (b ^ e)).
Proof.
  intros F B He x y X Y. destruct (F b e x y X Y B He) as (H1 & H2 & H3). set (z := b ^ e) in *. set (q := f x y) in *. clearbody z q. clear F.
  destruct (Z_le_gt_dec (Z.abs z) (2 ^ 53)) as [S|S].
  - assert (D : double_int z) by now apply double_small. specialize (H2 D). rewrite (ftrunc_int q z H2). split; [lia|tauto].
  - assert (L : (inject_Z (2 ^ 52) < Qabs q)%Q).
    { assert (T : (inject_Z (Z.abs z) <= Qabs q + Qabs (q - inject_Z z))%Q).
      { rewrite <- inject_abs. rewrite (Qabs_Qminus q). setoid_replace (inject_Z z) with (q + (inject_Z z - q))%Q at 1 by ring. apply Qabs_triangle. }
      assert (Z2 : (inject_Z (2 ^ 53 + 1) <= inject_Z (Z.abs z))%Q) by (apply inject_le; lia). change (inject_Z (2 ^ 53 + 1)) with (9007199254740993#1) in Z2. change (inject_Z (2 ^ 52)) with (4503599627370496#1) in H3 |- *. nra. }
    destruct (big_bits q H1 L) as (v & V & D). rewrite (ftrunc_int q v V). split.
    + rewrite V in H3. unfold Qminus in H3. rewrite <- inject_Z_opp, <- inject_Z_plus, inject_abs, <- inject_Z_mult in H3. exact (proj1 (inject_le (Z.abs (v + - z) * 2 ^ 52) (Z.abs z)) H3).
    + split; [intros <-; exact D|]. intros D'. specialize (H2 D'). rewrite V in H2. unfold Qeq in H2. cbn in H2. lia.
Qed.

Section Pow.
Context (X : denv) (G : good_double X) (W : 2 <= ew (de X)).
Let w := ew (de X).
Lemma half : 2 <= 2 ^ (w - 1). Proof. change 2 with (2 ^ 1) at 1. apply Z.pow_le_mono_r; unfold w; lia. Qed.
Lemma exponent_double e : Z.abs e <= 2 ^ 53 -> (rat_to_float 53 (Rat e 1) == inject_Z e)%Q.
Proof. intros H. unfold rat_to_float, fdiv. cbn [num den]. apply rnd_int; [lia|exact H|]. rewrite (rnd_int 53 e), (rnd_int 53 1); try lia; try reflexivity. field. Qed.
Lemma rpow_int n e : 2 <= e <= 2 ^ 53 -> e < 2 ^ (w - 1) ->
  rpow_d X (Rat n 1) (Rat e 1) = (m <- chk w (ftrunc (pow_d X n (rat_to_float 53 (Rat e 1)))) ;; rat_of_int w m).
Proof.
  intros He Hw. pose proof half. unfold rpow_d, rat_pow. fold w. rewrite pow_eq0, pow_eq1 by (cbn [num den]; lia). cbn [num den bind]. destruct (Z.eqb_spec e 0); [lia|]. cbn [bind]. destruct (Z.eqb_spec e 1); [lia|].
  unfold pow_cast_d. cbn [num den]. change (1 =? 0) with false. cbv iota. fold w. unfold of_double at 1. destruct (chk w (ftrunc (pow_d X n (rat_to_float 53 (Rat e 1))))) as [m|?|?|]; cbn [bind]; try reflexivity.
  destruct (proj1 G 1 e (to_double 1) (rat_to_float 53 (Rat e 1)) (to_double_int 1 ltac:(lia)) (exponent_double e ltac:(lia)) ltac:(lia) ltac:(lia)) as (_ & K & _). rewrite Z.pow_1_l in K by lia. specialize (K (double_small 1 ltac:(lia))).
  unfold pow_d. rewrite (of_double_int w _ 1 K), chk_ok by lia. reflexivity.
Qed.
Lemma of_int_fits m r : rat_of_int w m = Ok r -> r = Rat m 1 /\ Z.abs m < 2 ^ (w - 1).
Proof.
  intros H. pose proof half. assert (A : Z.abs m < 2 ^ (w - 1)).
  { unfold rat_of_int, rat_normalize in H. cbn [num den] in H. apply bind_ok in H as (a & Ha & _). unfold adapter_abs in Ha. apply chk_inv in Ha. lia. }
  split; [|exact A]. rewrite of_int_ok in H by (try exact A; unfold w; lia). now injection H.
Qed.
(** a number in lowest terms with no radical *)
Lemma normalize_plain c : efac (de X) 1 = Ok [] -> Z.abs (num c) < 2 ^ (w - 1) -> den c = 1 -> real_normalize_d X (Real 1 (Rat 1 1) c) = Ok (Real 1 (Rat 1 1) c).
Proof.
  intros F C D. pose proof half. unfold real_normalize_d. cbn [rad idx coe den num]. change (is_int (Rat 1 1)) with true. cbn [bind]. unfold decompose. cbn [num]. fold w. assert ((1 <=? 2 ^ (w - 2)) = true) as -> by (apply Z.leb_le; pose proof (Z.pow_pos_nonneg 2 (w - 2)); unfold w in *; lia). rewrite F. cbn [bind decompose_loop pull_all_d]. cbn [num]. change (1 =? 1) with true. cbn [bind fold_left].
  rewrite Z.gcd_1_l. assert (swrap w 1 = 1) as ->. { unfold swrap. assert (2 ^ w = 2 * 2 ^ (w - 1)) by (rewrite <- Z.pow_succ_r by (unfold w; lia); f_equal; lia). rewrite Z.mod_small by lia. destruct (Z.ltb_spec 1 (2 ^ (w - 1))); lia. }
  change (1 =? 1) with true. cbn [bind]. unfold rat_eq at 1. cbn [num den]. change (1 * 1) with 1. rewrite !chk_ok by lia. cbn [bind]. rewrite pow_eq0 by (try (unfold w; lia); lia). cbn [bind]. change (1 =? 1) with true. cbv iota. destruct (num c =? 0); reflexivity.
Qed.
Lemma pow_int n e : efac (de X) 1 = Ok [] -> 2 <= e <= 2 ^ 53 -> e < 2 ^ (w - 1) ->
  let m := ftrunc (pow_d X n (rat_to_float 53 (Rat e 1))) in
  (Z.abs m < 2 ^ (w - 1) -> real_pow_d X (Real 1 (Rat 1 1) (Rat n 1)) (Rat e 1) = Ok (Real 1 (Rat 1 1) (Rat m 1))) /\
  forall y, real_pow_d X (Real 1 (Rat 1 1) (Rat n 1)) (Rat e 1) = Ok y -> Z.abs m < 2 ^ (w - 1).
Proof.
  intros F He Hw. pose proof half. cbv zeta. set (m := ftrunc _).
  assert (E : real_pow_d X (Real 1 (Rat 1 1) (Rat n 1)) (Rat e 1) = (c <- rpow_d X (Rat n 1) (Rat e 1) ;; r <- rpow_d X (Rat 1 1) (Rat e 1) ;; real_normalize_d X (Real 1 r c))).
  { unfold real_pow_d, real_pow_fuel_d. fold w. rewrite pow_eq0, pow_eq1 by (cbn [num den]; unfold w in *; lia). cbn [num den bind]. destruct (Z.eqb_spec e 0); [lia|]. cbn [bind]. destruct (Z.eqb_spec e 1); [lia|].
    unfold rat_lt, rat_cmp. cbn [num den]. rewrite !chk_ok by lia. cbn [bind]. rewrite Z.mul_1_r, Z.mul_0_l. destruct (Z.compare_spec e 0); [lia|lia|]. cbn [bind]. reflexivity. }
  assert (O : rpow_d X (Rat 1 1) (Rat e 1) = Ok (Rat 1 1)).
  { rewrite rpow_int by assumption. destruct (proj1 G 1 e (to_double 1) (rat_to_float 53 (Rat e 1)) (to_double_int 1 ltac:(lia)) (exponent_double e ltac:(lia)) ltac:(lia) ltac:(lia)) as (_ & K & _). rewrite Z.pow_1_l in K by lia. specialize (K (double_small 1 ltac:(lia))). unfold pow_d. rewrite (ftrunc_int _ 1 K), chk_ok by lia. cbn [bind]. apply of_int_ok; unfold w in *; lia. }
  rewrite E, O. rewrite rpow_int by assumption. fold m. split.
  - intros M. rewrite chk_ok by lia. cbn [bind]. rewrite of_int_ok by (try exact M; unfold w; lia). cbn [bind]. now apply normalize_plain.
  - intros y Y. apply bind_ok in Y as (c & C & _). apply bind_ok in C as (m' & M & C). apply chk_inv in M as [-> _]. exact (proj2 (of_int_fits _ _ C)).
Qed.
End Pow.

(** ** a faithful pow *)
Lemma rnd_err p x : (Qabs (rnd p x - x) <= P2 (- p) * Qabs x)%Q.
Proof.
  destruct (Qlt_le_dec x 0) as [N|N].
  - assert (D : rnd p x = (- rnd p (- x))%Q). { rewrite rnd_opp. destruct (rnd p x) as [a b]. unfold Qopp. cbn. now rewrite Z.opp_involutive. }
    destruct (rnd_rel p (- x) ltac:(lra)) as [A B]. rewrite D, (Qabs_neg x) by lra. apply Qabs_Qle_condition. split; lra.
  - destruct (rnd_rel p x N) as [A B]. rewrite (Qabs_pos x) by lra. apply Qabs_Qle_condition. split; lra.
Qed.
Lemma nearest_faithful : pow_faithful nearest_pow.
Proof.
  intros b e x y Hx Hy B He. unfold nearest_pow. rewrite (ftrunc_int x b Hx), (ftrunc_int y e Hy). set (z := b ^ e). split; [exact (proj1 (C65_rounding 53 (inject_Z z) ltac:(lia)))|]. split.
  - intros D. apply rnd_bits; [lia|]. exact (bits_of_double z D _ (Qeq_refl _)).
  - pose proof (rnd_err 53 (inject_Z z)) as H. rewrite inject_abs in H. assert (0 <= inject_Z (Z.abs z))%Q by (apply (inject_le 0); lia). change (P2 (- (53))) with (1#9007199254740992) in H. change (inject_Z (2 ^ 52)) with (4503599627370496#1). lra.
Qed.
