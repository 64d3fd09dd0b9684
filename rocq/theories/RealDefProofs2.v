(** Real::normalize returns. *)
From Coq Require Import ZArith Znumtheory QArith Lia Bool List Permutation Sorted String Ascii.
From Verif Require Import Base AdapterModel AdapterProofs FactorizeModel FactorizeProofs4 RationalModel RationalSpec RationalProofs RationalProofs2 RealModel RealSpec RealProofs1 RealProofs2 RealProofs3 RealDefSpec RealDefProofs1.
Import ListNotations.
Open Scope Z_scope.

Section Norm.
Context (E : env) (Hw : 1 < ew E) (FS : fac_sound E).
Let w := ew E.
Lemma w_pos : 0 < 2 ^ (w - 2) /\ 2 ^ (w - 1) = 2 * 2 ^ (w - 2).
Proof. split; [apply Z.pow_pos_nonneg; unfold w; lia|]. rewrite <- Z.pow_succ_r by (unfold w; lia). f_equal. lia. Qed.
Lemma decompose_ok N n : fac_ready E N -> 1 <= n <= N -> n <= 2 ^ (w - 2) -> exists m, decompose E n = Ok m /\ factors_of n m.
Proof.
  intros R Hn B. destruct (R n Hn) as [l L]. assert (D : decompose E n = Ok (decompose_loop l 1 [])). { unfold decompose. fold w. destruct (Z.leb_spec n (2 ^ (w - 2))); [|lia]. now rewrite L. }
  eexists. split; [exact D|]. now apply (decompose_inv E n _ Hw FS D).
Qed.
(** the denominator of the radicand is cleared *)
Lemma clear_ok c r i : 0 < num r -> 0 < den r -> den c <> 0 -> 1 <= i -> room w c r i ->
  exists c', (if is_int r then Ok (c, r) else
   d <- rat_of_int w (den r) ;; c <- rat_div w c d ;; p <- pow_rat w (den r) i ;; r <- rat_mul w r p ;; Ok (c, r)) = Ok (c', Rat (num r * den r ^ (i - 1)) 1) /\
   Z.abs (num c') <= Z.abs (num c) /\ den c' <> 0 /\ Z.abs (den c') <= Z.abs (den c) * den r.
Proof.
  intros Hn Hd Hc Hi ((F1 & F2) & (G1 & G2) & C1 & C2). destruct w_pos as [W1 W2]. destruct r as [p q]. cbn [num den] in *. unfold is_int. cbn [den]. destruct (Z.eqb_spec q 1) as [->|N].
  - exists c. rewrite Z.pow_1_l, Z.mul_1_r by lia. repeat split; try assumption; lia.
  - assert (P1 : 0 < q ^ (i - 1)) by (apply Z.pow_pos_nonneg; lia). assert (QI : q ^ i = q ^ (i - 1) * q) by (replace i with (i - 1 + 1) at 1 by lia; rewrite Z.pow_add_r, Z.pow_1_r by lia; reflexivity).
    pose proof (base_le q i ltac:(lia) Hi) as BQ. pose proof (base_le q i ltac:(lia) Hi). assert (PN : 1 <= p * q ^ (i - 1)) by nia. assert (CN : Z.abs (num c) < 2 ^ (w - 1)) by (clear - C1 PN; nia). assert (CD : Z.abs (den c) < 2 ^ (w - 1)) by (clear - C2 Hd; nia).
    rewrite of_int_ok by (unfold w in *; lia). cbn [bind]. unfold rat_div, rat_inverse. cbn [num den].
    assert (IQ : rat_make w 1 q = Ok (Rat 1 q)).
    { unfold rat_make. destruct (Z.eqb_spec q 0); [lia|]. unfold rat_normalize, adapter_abs. cbn [num den]. rewrite !chk_ok by lia. cbn [bind]. rewrite gcd_ok' by lia. change (Z.abs 1) with 1. rewrite Z.gcd_1_l. cbn [bind]. rewrite !quot_ok by lia. cbn [bind]. rewrite !Z.quot_1_r. destruct (Z.eqb_spec q (-1)); [lia|reflexivity]. }
    rewrite IQ. cbn [bind]. destruct (mul_bound w c (Rat 1 q)) as (c' & g & -> & G & N1 & D1); cbn [num den]; try lia; try (rewrite Z.abs_mul, (Z.abs_eq q); lia). cbn [num den] in N1, D1. cbn [bind].
    unfold pow_rat. rewrite dpow_pos by lia. cbn [bind]. rewrite chk_ok by lia. cbn [bind]. rewrite of_int_ok by (unfold w in *; lia). cbn [bind].
    assert (RM : rat_mul w (Rat p q) (Rat (q ^ i) 1) = Ok (Rat (p * q ^ (i - 1)) 1)).
    { unfold rat_mul. cbn [num den]. assert (PB : p <= p * q ^ (i - 1)) by (clear - P1 Hn; nia). rewrite !gcd_ok' by lia. cbn [bind]. rewrite Z.gcd_1_r. assert (GQ : Z.gcd (q ^ i) q = q). { rewrite QI, Z.gcd_comm. replace q with (1 * q) at 1 by ring. rewrite Z.gcd_mul_mono_r, Z.gcd_1_l, Z.abs_eq by lia. lia. }
      rewrite GQ. rewrite !quot_ok by lia. cbn [bind]. rewrite !Z.quot_1_r. rewrite QI, Z.quot_mul by lia. rewrite Z.quot_same by lia. rewrite !chk_ok by lia. cbn [bind]. reflexivity. }
    rewrite RM. cbn [bind]. exists c'. split; [reflexivity|]. pose proof (abs_factor _ _ g G N1) as A1. pose proof (abs_factor _ _ g G D1) as A2. rewrite Z.mul_1_r in A1. rewrite Z.abs_mul, (Z.abs_eq q) in A2 by lia. split; [exact A1|]. split; [|exact A2].
    intros Z0. rewrite Z0 in D1. assert (den c * q = 0) as X by lia. apply Z.mul_eq_0 in X. lia.
Qed.
Lemma wrap_nonzero g i : 1 <= i < 2 ^ w -> (g | i) -> 1 <= g -> swrap w g <> 0.
Proof.
  intros Hi [k K] Hg. assert (g <= i) by (assert (1 <= k) by nia; nia). unfold swrap. rewrite Z.mod_small by lia. destruct (_ <? _); lia.
Qed.
Lemma normalize_returns c r i : 1 <= i < 2 ^ w -> 0 < num r -> 0 < den r -> den c <> 0 -> room w c r i -> fac_ready E (num r * den r ^ (i - 1)) ->
  exists x n K k, real_normalize E (Real i r c) = Ok x /\ num r * den r ^ (i - 1) = n * K ^ i /\ 1 <= K /\ 1 <= n /\ rad x = Rat k 1 /\ 1 <= k <= n /\
    Z.abs (num (coe x)) <= Z.abs (num c) * K /\ den (coe x) <> 0 /\ Z.abs (den (coe x)) <= Z.abs (den c) * den r.
Proof.
  intros Hi Hn Hd Hc RM FR. destruct w_pos as [W1 W2]. destruct (clear_ok c r i Hn Hd Hc ltac:(lia) RM) as (c1 & E1 & B1 & B2 & B3).
  unfold real_normalize. cbn [rad idx coe]. fold w. rewrite E1. clear E1. cbn [bind]. destruct RM as ((F1 & F2) & _ & C1 & C2). set (n := num r * den r ^ (i - 1)) in *. cbn [num den].
  assert (Pn : 1 <= n) by (assert (0 < den r ^ (i - 1)) by (apply Z.pow_pos_nonneg; lia); unfold n; nia).
  destruct (decompose_ok n n FR ltac:(lia) F2) as (m0 & -> & FO). cbn [bind].
  destruct (pull_all_ok w i Hw ltac:(lia) m0 (fo_keys _ _ FO) (fo_vals _ _ FO) n c1) as (r1 & c2 & K & -> & E2 & K1 & R1 & B4 & B5 & B6 & B7); try lia; [rewrite (fo_prod _ _ FO); apply Z.divide_refl|apply Z.le_lt_trans with (Z.abs (num c) * n); [apply Z.mul_le_mono_nonneg_r; lia|exact C1]|].
  cbn [bind]. assert (PK : 0 < K ^ i) by (apply Z.pow_pos_nonneg; lia). assert (RN : r1 <= n) by (clear - E2 R1 PK; nia).
  assert (M : exists m, (if r1 =? n then Ok (Rat n 1, m0) else m' <- decompose E r1;; Ok (Rat r1 1, m')) = Ok (Rat r1 1, m) /\ factors_of r1 m).
  { destruct (Z.eqb_spec r1 n) as [->|NE]; [eauto|]. destruct (decompose_ok n r1 FR ltac:(lia) ltac:(lia)) as (m & -> & FO1). cbn [bind]. eauto. }
  destruct M as (m & -> & FO1). cbn [bind].
  set (g0 := match m with [] => ejunk E | (e, _) :: _ => e end). fold (gcd_keys m g0). destruct (gcd_keys_spec m g0) as (GA & GB & GC).
  set (gg := Z.gcd i (gcd_keys m g0)). assert (G1 : 1 <= gg) by (pose proof (Z.gcd_nonneg i (gcd_keys m g0)); fold gg in H; assert (gg <> 0) by (unfold gg; intros Z0; apply Z.gcd_eq_0_l in Z0; lia); lia).
  assert (SN : swrap w gg <> 0) by (apply (wrap_nonzero gg i Hi); [apply Z.gcd_divide_l|exact G1]).
  assert (S : exists i' k, (if swrap w gg =? 1 then Ok (i, Rat r1 1) else if swrap w gg =? 0 then Ub "/ 0" else r0 <- mul_all w (swrap w gg) m 1;; rd <- rat_of_int w r0;; Ok (i / swrap w gg, rd)) = Ok (i', Rat k 1) /\ 1 <= k <= r1).
  { destruct (Z.eqb_spec (swrap w gg) 1); [exists i, r1; split; [reflexivity|lia]|]. destruct (Z.eqb_spec (swrap w gg) 0); [contradiction|].
    assert (Em : m = [] \/ exists e0 vs0 m', m = (e0, vs0) :: m') by (clear; destruct m as [|[? ?] ?]; eauto). destruct Em as [Em|(e0 & vs0 & m' & Em)].
    - rewrite Em. cbn [mul_all bind]. rewrite of_int_ok by (unfold w in *; lia). cbn [bind]. eexists _, 1. split; [reflexivity|lia].
    - assert (I0 : In (e0, vs0) m) by (rewrite Em; now left). pose proof (key_bound r1 m e0 vs0 FO1 I0) as KB.
      assert (Dg0 : (gg | e0)). { assert (g0 = e0) as <- by (unfold g0; now rewrite Em). eapply Z.divide_trans; [apply Z.gcd_divide_r|exact GA]. }
      assert (Lg : gg <= e0) by (apply Z.divide_pos_le; [lia|exact Dg0]). assert (Sg : swrap w gg = gg) by (apply swrap_id; [exact Hw|unfold w in *; lia]). rewrite Sg in *.
      assert (DG : forall p, In p m -> (gg | fst p)) by (intros p I; eapply Z.divide_trans; [apply Z.gcd_divide_r|now apply GB]).
      assert (PP : pprod (fun e => e) (flat m) = pprod (dv gg) (flat m) ^ gg). { apply pprod_dv_pow; [exact G1|exact (fo_exps _ _ FO1)|]. now apply flat_div. }
      rewrite (fo_prod _ _ FO1) in PP. assert (P1 : 0 < pprod (dv gg) (flat m)). { apply pprod_positive; [exact (fo_vals _ _ FO1)|exact (fo_exps _ _ FO1)|]. intros e He. apply Z.div_pos; lia. }
      assert (LE : pprod (dv gg) (flat m) <= r1) by (rewrite PP; apply base_le; lia).
      rewrite (mul_all_ok w Hw gg m G1 (fo_keys _ _ FO1) DG (fo_vals _ _ FO1) 1) by lia. cbn [bind]. rewrite Z.mul_1_l. rewrite of_int_ok by (unfold w in *; lia). cbn [bind]. eexists _, _. split; [reflexivity|lia]. }
  destruct S as (i' & k & -> & Hk). cbn [bind]. rewrite pow_eq1 by (cbn [num den]; lia). cbn [bind num den]. 
  assert (CN : Z.abs (num c2) < 2 ^ (w - 1)) by (clear - B7 R1; nia). rewrite pow_eq0 by (unfold w in *; lia). cbn [bind].
  assert (FIN : forall y, coe y = c2 -> Z.abs (num (coe y)) <= Z.abs (num c) * K /\ den (coe y) <> 0 /\ Z.abs (den (coe y)) <= Z.abs (den c) * den r).
  { intros y ->. repeat split; try assumption; try lia. eapply Z.le_trans; [exact B4|]. apply Z.mul_le_mono_nonneg_r; lia. }
  assert (Z0 : 1 <= 1 <= r1) by lia.
  destruct (num c2 =? 0); eexists _, r1, K, _; (split; [reflexivity|]); cbn [rad]; (split; [exact E2|]; split; [exact K1|]; split; [exact R1|]; split; [reflexivity|]; split; [assumption|]); apply FIN; reflexivity.
Qed.
End Norm.
