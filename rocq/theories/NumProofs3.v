(** Lemmas: conversions of Huge, Rational and Real to floating-point and integer types. *)
From Coq Require Import ZArith QArith Qabs Qround String Ascii Lia Lqa Bool List.
From Verif Require Import Base AdapterModel HugeModel HugeSpec HugeProofs1 HugeProofs2 HugeProofs3 HugeProofs4 HugeProofs5 HugeProofs6 HugeProofs7 HugeProofs8 RationalModel RationalSpec RationalProofs RealModel DecModel DecSpec DecProofs1 DecProofs2 DecProofs3 NumModel NumSpec NumProofs2.
Import ListNotations.
Open Scope Z_scope.

Lemma abs_canon x : hcanon x -> hcanon (huge_abs x) /\ hval (huge_abs x) = Z.abs (hval x).
Proof.
  intros H. unfold huge_abs, hcanon in *. split; [exact H|]. rewrite abs_hval by now apply canon_wf. unfold hval. cbn [digits is_positive]. reflexivity.
Qed.
Lemma hval_sign x : hcanon x -> (if is_positive x then 1 else -1) * Z.abs (hval x) = hval x.
Proof. intros H. rewrite abs_hval by now apply canon_wf. unfold hval. destruct (is_positive x); lia. Qed.

Lemma rnd_le_max p z : 0 < p -> 0 <= z < 2 ^ 64 -> (rnd p (inject_Z z) <= inject_Z (2 ^ 65))%Q.
Proof.
  intros Hp Hz. destruct (rnd_rel p (inject_Z z)) as [_ U]; [change 0%Q with (inject_Z 0); rewrite <- Zle_Qle; lia|].
  assert (P : (P2 (- p) <= 1)%Q) by (change 1%Q with (P2 0); apply P2_le; lia). assert (Z0 : (0 <= inject_Z z)%Q) by (change 0%Q with (inject_Z 0); rewrite <- Zle_Qle; lia).
  assert (Z1 : (inject_Z z <= inject_Z (2 ^ 64))%Q) by (rewrite <- Zle_Qle; lia).
  change (inject_Z (2 ^ 65)) with (2 * inject_Z (2 ^ 64))%Q. nra.
Qed.
Lemma fmax_big F : 1 <= fprec F -> 66 <= femax F -> (inject_Z (2 ^ 65) <= fmax F)%Q.
Proof.
  intros Hp He. unfold fmax. rewrite dyadic_value.
  assert (A : (inject_Z (2 ^ (fprec F - 1)) <= inject_Z (2 ^ fprec F - 1))%Q).
  { rewrite <- Zle_Qle. assert (2 ^ fprec F = 2 * 2 ^ (fprec F - 1)) by (rewrite <- Z.pow_succ_r by lia; f_equal; lia). assert (0 < 2 ^ (fprec F - 1)) by (apply Z.pow_pos_nonneg; lia). lia. }
  rewrite <- P2_nonneg in A by lia. pose proof (P2_pos (femax F - fprec F)) as PP.
  apply Qle_trans with (P2 (fprec F - 1) * P2 (femax F - fprec F))%Q; [|apply Qmult_le_compat_r; [exact A|apply Qlt_le_weak, PP]].
  rewrite <- P2_plus, <- (P2_nonneg 65) by lia. apply P2_le. lia.
Qed.

Lemma rnd_bits_pos p x : 1 <= p -> (0 < x)%Q -> rep p (rnd p x).
Proof.
  intros Hp Hx. destruct (rnd_spec p x Hx) as (e & m & E1 & E2 & R & M0 & R1 & _). exists m, (e - p + 1). split; [|exact R].
  split; [exact M0|]. destruct (Z_le_gt_dec m (2 ^ p)) as [|C]; [assumption|exfalso].
  set (U := P2 (e - p + 1)) in *. assert (PU : (0 < U)%Q) by apply P2_pos.
  assert (B : (P2 (e + 1) == inject_Z (2 ^ p) * U)%Q) by (rewrite <- P2_nonneg by lia; unfold U; rewrite <- P2_plus; replace (p + (e - p + 1)) with (e + 1) by lia; reflexivity).
  assert (inject_Z (2 ^ p) + 1 <= inject_Z m)%Q by (change 1%Q with (inject_Z 1); rewrite <- inject_Z_plus, <- Zle_Qle; lia).
  assert ((inject_Z (2 ^ p) + 1) * U <= inject_Z m * U)%Q by (apply Qmult_le_compat_r; lra).
  pose proof (Qle_Qabs (- (x - inject_Z m * U))) as A. rewrite Qabs_opp in A. lra.
Qed.
Lemma rnd_idem p x : 1 <= p -> (rnd p (rnd p x) == rnd p x)%Q.
Proof.
  intros Hp. destruct (Qlt_le_dec 0 x) as [H|H]; [apply rnd_rep; [exact Hp|]; apply rnd_bits_pos; assumption|].
  destruct (Qlt_le_dec x 0) as [H'|H'].
  - assert (A : (rnd p (rnd p (- x)) == rnd p (- x))%Q) by (apply rnd_rep; [exact Hp|]; apply rnd_bits_pos; [exact Hp|lra]).
    rewrite rnd_opp, rnd_opp in A. lra.
  - rewrite (rnd_0 p x) by lra. rewrite rnd_0; reflexivity.
Qed.
Lemma mul_1 x : (x * 1)%Q = x.
Proof. destruct x as [n d]. unfold Qmult. cbn [QArith_base.Qnum QArith_base.Qden]. rewrite Z.mul_1_r, Pos.mul_1_r. reflexivity. Qed.
Lemma mul_m1 x : (x * (-1))%Q = (- x)%Q.
Proof. destruct x as [n d]. unfold Qmult, Qopp. cbn [QArith_base.Qnum QArith_base.Qden]. rewrite Pos.mul_1_r. f_equal. lia. Qed.

Lemma huge_to_float_ok F x : 1 <= fprec F -> 66 <= femax F -> hcanon x -> Z.abs (hval x) < 2 ^ 90 ->
  exists f, huge_to_float F x = Ok f /\ (f == rnd (fprec F) (inject_Z ((if is_positive x then 1 else -1) * (Z.abs (hval x) mod 2 ^ 64))))%Q.
Proof.
  intros Hp He Hx HB. destruct (abs_canon x Hx) as [Ac Av]. unfold huge_to_float.
  rewrite (huge_to_mod 64 false (huge_abs x)); [|lia|exact Ac|left; rewrite Av; lia|rewrite Av; change (30 * (64 / 30 + 1)) with 90; lia].
  cbn [andb bind]. rewrite Av. unfold cast, uwrap. set (z := Z.abs (hval x) mod 2 ^ 64).
  assert (Hz : 0 <= z < 2 ^ 64) by (apply Z.mod_pos_bound; reflexivity).
  assert (L : Qle_bool (rnd (fprec F) (inject_Z z)) (fmax F) = true).
  { apply Qle_bool_iff. apply Qle_trans with (inject_Z (2 ^ 65)); [apply rnd_le_max; lia|apply fmax_big; assumption]. }
  rewrite L. cbn [negb]. eexists. split; [reflexivity|]. unfold fmul. destruct (is_positive x).
  - rewrite mul_1, rnd_idem by exact Hp. rewrite Z.mul_1_l. reflexivity.
  - rewrite mul_m1, rnd_opp, rnd_idem by exact Hp. rewrite <- rnd_opp. unfold inject_Z, Qopp. cbn [QArith_base.Qnum QArith_base.Qden]. reflexivity || (replace (-1 * z) with (- z) by lia; reflexivity).
Qed.
Lemma huge_to_float_value F x : 1 <= fprec F -> 66 <= femax F -> hcanon x -> Z.abs (hval x) < 2 ^ 64 ->
  exists f, huge_to_float F x = Ok f /\ (f == rnd (fprec F) (inject_Z (hval x)))%Q.
Proof.
  intros Hp He Hx HB. destruct (huge_to_float_ok F x Hp He Hx) as (f & E & V). { assert (2 ^ 64 < 2 ^ 90) by reflexivity. lia. }
  exists f. split; [exact E|]. rewrite V. rewrite Z.mod_small by lia. rewrite hval_sign by exact Hx. reflexivity.
Qed.
Lemma huge_to_float_big F x : hcanon x -> 2 ^ 90 <= Z.abs (hval x) -> huge_to_float F x = Throw "The Huge is too big.".
Proof.
  intros Hx HB. destruct (abs_canon x Hx) as [Ac Av]. unfold huge_to_float.
  rewrite huge_to_too_big; [reflexivity|lia|exact Ac|left; rewrite Av; lia|rewrite Av; change (30 * (64 / 30 + 1)) with 90; lia].
Qed.

(** ** Rational *)
Lemma cast_id w sg x : 0 < w -> ulow w sg <= x <= umax w sg -> cast w sg x = x.
Proof.
  intros Hw Hx. unfold cast, ulow, umax in *. destruct sg.
  - apply swrap_small; [assumption|]. lia.
  - unfold uwrap. apply Z.mod_small. lia.
Qed.
Lemma quot_range w sg n d : 2 <= w -> d <> 0 -> ulow w sg <= n <= umax w sg -> ulow w sg <= d <= umax w sg -> ~ (sg = true /\ n = - 2 ^ (w - 1) /\ d = -1) ->
  ulow w sg <= n ÷ d <= umax w sg.
Proof.
  intros Hw Hd Hn Hd' N. assert (P : 2 <= 2 ^ (w - 1)) by (change 2 with (2 ^ 1) at 1; apply Z.pow_le_mono_r; lia). unfold ulow, umax in *. destruct sg.
  - assert (C : d = 1 \/ d = -1 \/ 2 <= Z.abs d) by lia. destruct C as [->|[->|C]].
    + rewrite Z.quot_1_r. exact Hn.
    + change (-1) with (- (1)). rewrite Z.quot_opp_r, Z.quot_1_r by lia. assert (n <> - 2 ^ (w - 1)) by (intros ->; apply N; auto). lia.
    + pose proof (Z.quot_abs n d Hd) as QA. assert (A : 2 * (Z.abs n ÷ Z.abs d) <= Z.abs n).
      { pose proof (Z.mul_quot_le (Z.abs n) (Z.abs d) ltac:(lia) ltac:(lia)). assert (0 <= Z.abs n ÷ Z.abs d) by (apply Z.quot_pos; lia). nia. }
      lia.
  - assert (0 <= n ÷ d) by (apply Z.quot_pos; lia). pose proof (Z.mul_quot_le n d ltac:(lia) ltac:(lia)). nia.
Qed.
Lemma rat_to_int_fits w sg r : 2 <= w -> den r <> 0 -> ulow w sg <= num r <= umax w sg -> ulow w sg <= den r <= umax w sg ->
  ~ (sg = true /\ num r = - 2 ^ (w - 1) /\ den r = -1) -> rat_to_int w sg r = Ok (num r ÷ den r).
Proof.
  intros Hw Hd Hn Hd' N. unfold rat_to_int. rewrite !cast_id by (assumption || lia). destruct (Z.eqb_spec (den r) 0); [contradiction|].
  pose proof (quot_range w sg (num r) (den r) Hw Hd Hn Hd' N) as QR.
  assert ((umax w sg <? num r ÷ den r) = false) as -> by (apply Z.ltb_ge; lia). rewrite andb_false_r. rewrite cast_id by (assumption || lia). reflexivity.
Qed.
Lemma rat_to_int_wraps w sg r : cast w sg (den r) = 0 -> rat_to_int w sg r = Ub "division by zero".
Proof. intros E. unfold rat_to_int. rewrite E. reflexivity. Qed.

(** both parts exactly representable: one rounding of the exact quotient *)
Lemma rat_to_float_nearest p r : 1 <= p -> Z.abs (num r) <= 2 ^ p -> Z.abs (den r) <= 2 ^ p -> den r <> 0 ->
  exists z, (z == qv r)%Q /\ rat_to_float p r = rnd p z.
Proof.
  intros Hp Hn Hd D0. unfold rat_to_float, fdiv. eexists. split; [|reflexivity]. unfold qv.
  apply Qdiv_eq; apply rnd_int; (assumption || reflexivity).
Qed.
