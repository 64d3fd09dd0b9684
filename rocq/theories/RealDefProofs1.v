(** When Real operations return: bounds under which nothing overflows and every double is exact. *)
From Coq Require Import ZArith Znumtheory QArith Lia Bool List Permutation Sorted String Ascii.
From Verif Require Import Base AdapterModel AdapterProofs FactorizeModel FactorizeProofs4 RationalModel RationalSpec RationalProofs RationalProofs2 RealModel RealSpec RealProofs1 RealProofs2.
Import ListNotations.
Open Scope Z_scope.

(** ** rationals *)
Lemma lt_factor a g X : 0 < g -> Z.abs a * g < X -> - X <= a < X.
Proof. intros G L. assert (Z.abs a <= Z.abs a * g) by nia. lia. Qed.
Lemma mul_bound w a b : den a <> 0 -> den b <> 0 -> Z.abs (num a) < 2 ^ (w - 1) -> Z.abs (den a) < 2 ^ (w - 1) -> Z.abs (num b) < 2 ^ (w - 1) -> Z.abs (den b) < 2 ^ (w - 1) ->
  Z.abs (num a * num b) < 2 ^ (w - 1) -> Z.abs (den a * den b) < 2 ^ (w - 1) ->
  exists r g, rat_mul w a b = Ok r /\ 0 < g /\ num a * num b = num r * g /\ den a * den b = den r * g.
Proof.
  intros Ha Hb A1 A2 B1 B2 N D. unfold rat_mul. rewrite (gcd_ok' w (num a)), (gcd_ok' w (num b)) by lia. cbn [bind].
  assert (G1 : 0 < Z.gcd (num a) (den b)) by (pose proof (Z.gcd_nonneg (num a) (den b)); assert (Z.gcd (num a) (den b) <> 0) by (intros E; apply Z.gcd_eq_0_r in E; contradiction); lia).
  assert (G2 : 0 < Z.gcd (num b) (den a)) by (pose proof (Z.gcd_nonneg (num b) (den a)); assert (Z.gcd (num b) (den a) <> 0) by (intros E; apply Z.gcd_eq_0_r in E; contradiction); lia).
  pose proof (quot_exact (num a) (Z.gcd (num a) (den b)) ltac:(lia) (Z.gcd_divide_l (num a) (den b))) as Q1. pose proof (quot_exact (den b) (Z.gcd (num a) (den b)) ltac:(lia) (Z.gcd_divide_r _ _)) as Q2.
  pose proof (quot_exact (num b) (Z.gcd (num b) (den a)) ltac:(lia) (Z.gcd_divide_l (num b) (den a))) as Q3. pose proof (quot_exact (den a) (Z.gcd (num b) (den a)) ltac:(lia) (Z.gcd_divide_r _ _)) as Q4.
  set (g1 := Z.gcd (num a) (den b)) in *. set (g2 := Z.gcd (num b) (den a)) in *. rewrite !quot_ok by lia. cbn [bind].
  set (n1 := Z.quot (num a) g1) in *. set (n2 := Z.quot (num b) g2) in *. set (d1 := Z.quot (den a) g2) in *. set (d2 := Z.quot (den b) g1) in *. clearbody n1 n2 d1 d2 g1 g2.
  assert (E1 : num a * num b = n1 * n2 * (g1 * g2)) by (rewrite <- Q1, <- Q3; ring). assert (E2 : den a * den b = d1 * d2 * (g1 * g2)) by (rewrite <- Q2, <- Q4; ring).
  assert (G : 0 < g1 * g2) by (apply Z.mul_pos_pos; assumption). rewrite E1 in N. rewrite E2 in D. rewrite Z.abs_mul in N, D. rewrite (Z.abs_eq (g1 * g2)) in N, D by lia.
  rewrite (chk_ok w (n1 * n2)) by (exact (lt_factor _ _ _ G N)). cbn [bind]. rewrite (chk_ok w (d1 * d2)) by (exact (lt_factor _ _ _ G D)). cbn [bind]. destruct (Z.eqb_spec (d1 * d2) 0) as [Z0|Z0]; [rewrite Z0 in E2; apply Z.mul_eq_0 in E2; tauto|].
  exists (Rat (n1 * n2) (d1 * d2)), (g1 * g2). cbn [num den]. auto.
Qed.
Lemma abs_factor a b g : 0 < g -> a = b * g -> Z.abs b <= Z.abs a.
Proof. intros G ->. rewrite Z.abs_mul, (Z.abs_eq g) by lia. nia. Qed.

(** ** the double operations *)
Lemma exp_le b e : 2 <= b -> 0 <= e -> e <= b ^ e.
Proof. intros B E. pose proof (Z.pow_gt_lin_r b e). lia. Qed.
Lemma dpow_ok b e : 0 <= e <= 2 ^ 53 -> Z.abs b <= 2 ^ 53 -> Z.abs (b ^ e) <= 2 ^ 53 -> dpow b e = Ok (b ^ e).
Proof. intros H B P. unfold dpow, fits53. destruct (Z.leb_spec 0 e); [|lia]. destruct (Z.leb_spec (Z.abs b) (2 ^ 53)); [|lia]. destruct (Z.leb_spec (Z.abs e) (2 ^ 53)); [|lia]. destruct (Z.leb_spec (Z.abs (b ^ e)) (2 ^ 53)); [reflexivity|lia]. Qed.
Lemma base_le b e : 1 <= b -> 1 <= e -> b <= b ^ e.
Proof. intros B E. replace e with (1 + (e - 1)) by lia. rewrite Z.pow_add_r, Z.pow_1_r by lia. assert (0 < b ^ (e - 1)) by (apply Z.pow_pos_nonneg; lia). nia. Qed.
Lemma dpow_pos b e : 2 <= b -> 1 <= e -> b ^ e <= 2 ^ 53 -> dpow b e = Ok (b ^ e).
Proof. intros B E P. pose proof (exp_le b e B ltac:(lia)). pose proof (base_le b e ltac:(lia) E). apply dpow_ok; lia. Qed.
Lemma div_pow_ok w x b e : 2 <= b -> 1 <= e -> 1 <= x <= 2 ^ 53 -> x < 2 ^ (w - 1) -> (b ^ e | x) -> exists y, div_pow w x b e = Ok y /\ x = y * b ^ e /\ 1 <= y.
Proof.
  intros B E X W [y Y]. assert (P : 0 < b ^ e) by (apply Z.pow_pos_nonneg; lia). assert (Y1 : 1 <= y) by nia. exists y. split; [|auto]. unfold div_pow. rewrite dpow_pos by (try assumption; nia). cbn [bind]. unfold fits53.
  destruct (Z.leb_spec (Z.abs x) (2 ^ 53)); [|lia]. destruct (Z.eqb_spec (b ^ e) 0); [lia|]. assert (M : x mod b ^ e = 0) by (rewrite Y; apply Z.mod_mul; lia). rewrite M. cbn [andb negb Z.eqb]. rewrite Y, Z.div_mul by lia. apply chk_ok. nia.
Qed.
Lemma mul_pow_ok w x b e : 2 <= b -> 1 <= e -> 1 <= x -> x * b ^ e <= 2 ^ 53 -> x * b ^ e < 2 ^ (w - 1) -> mul_pow w x b e = Ok (x * b ^ e).
Proof.
  intros B E X P W. assert (0 < b ^ e) by (apply Z.pow_pos_nonneg; lia). unfold mul_pow. rewrite dpow_pos by (try assumption; nia). cbn [bind]. unfold fits53.
  destruct (Z.leb_spec (Z.abs x) (2 ^ 53)); [|nia]. destruct (Z.leb_spec (Z.abs (x * b ^ e)) (2 ^ 53)); [|lia]. apply chk_ok. lia.
Qed.

(** ** the loops of normalize *)
Section Loops.
Context (w i : Z) (Hw : 1 < w) (Hi : 1 <= i).
Lemma pull_vals_ok vs : Forall (fun v => 1 < v) vs -> forall r c, 1 <= r <= 2 ^ 53 -> r < 2 ^ (w - 1) -> (zprod vs ^ i | r) ->
  Z.abs (num c) * r < 2 ^ (w - 1) -> den c <> 0 -> Z.abs (den c) < 2 ^ (w - 1) ->
  exists r' c', pull_vals w i vs (r, c) = Ok (r', c') /\ r = r' * zprod vs ^ i /\ 1 <= r' /\ Z.abs (num c') <= Z.abs (num c) * zprod vs /\ den c' <> 0 /\ Z.abs (den c') <= Z.abs (den c) /\ Z.abs (num c') * r' < 2 ^ (w - 1).
Proof.
  induction 1 as [|v vs V F IH]; intros r c R Rw D C D0 Dw; cbn [pull_vals].
  - exists r, c. change (zprod []) with 1 in *. rewrite Z.pow_1_l by lia. repeat split; try lia; auto.
  - change (zprod (v :: vs)) with (v * zprod vs) in *. assert (Z0 : 1 <= zprod vs). { clear - F. induction F as [|x l H _ IHF]; [cbn; lia|]. change (zprod (x :: l)) with (x * zprod l). nia. }
    rewrite Z.pow_mul_l in *. destruct D as [k Dk]. assert (P1 : 0 < v ^ i) by (apply Z.pow_pos_nonneg; lia). assert (P2 : 0 < zprod vs ^ i) by (apply Z.pow_pos_nonneg; lia).
    assert (K : 1 <= k) by (clear - Dk R P1 P2; assert (0 < v ^ i * zprod vs ^ i) by (apply Z.mul_pos_pos; assumption); nia).
    destruct (div_pow_ok w r v i ltac:(lia) Hi R Rw) as (y & -> & Y & Y1); [exists (k * zprod vs ^ i); rewrite Dk; ring|]. cbn [bind].
    assert (Ek : y = k * zprod vs ^ i) by (apply (Z.mul_reg_r _ _ (v ^ i)); [lia|]; rewrite <- Y, Dk; ring).
    pose proof (base_le v i ltac:(lia) Hi) as VI. assert (VR : v <= r) by (clear - Y Y1 VI P1; nia).
    rewrite of_int_ok by lia. cbn [bind]. assert (CV : Z.abs (num c * v) <= Z.abs (num c) * r) by (rewrite Z.abs_mul, (Z.abs_eq v) by lia; apply Z.mul_le_mono_nonneg_l; lia).
    assert (CN : Z.abs (num c) < 2 ^ (w - 1)) by (clear - C R; nia).
    destruct (mul_bound w c (Rat v 1)) as (c1 & g & -> & G & N1 & D1); cbn [num den]; try lia. cbn [num den] in N1, D1. cbn [bind].
    pose proof (abs_factor _ _ g G N1) as A1. pose proof (abs_factor _ _ g G D1) as A2. rewrite Z.mul_1_r in A2. rewrite Z.abs_mul, (Z.abs_eq v) in A1 by lia.
    assert (B1 : Z.abs (num c1) * y < 2 ^ (w - 1)).
    { apply Z.le_lt_trans with (Z.abs (num c) * r); [|exact C]. rewrite Y. apply Z.le_trans with (Z.abs (num c) * v * y); [apply Z.mul_le_mono_nonneg_r; lia|]. rewrite <- Z.mul_assoc. apply Z.mul_le_mono_nonneg_l; [lia|]. rewrite (Z.mul_comm y). apply Z.mul_le_mono_nonneg_r; lia. }
    assert (YR : y <= r) by (clear - Y P1 Y1; nia). assert (C10 : den c1 <> 0) by (intros E; rewrite E in D1; lia).
    destruct (IH y c1) as (r' & c' & -> & E1 & E2 & E3 & E4 & E5 & E6); try assumption; try lia; [exists k; exact Ek|].
    exists r', c'. split; [reflexivity|]. split; [rewrite Y, E1; ring|]. split; [exact E2|]. split; [|split; [exact E4|split; [lia|exact E6]]].
    apply Z.le_trans with (Z.abs (num c1) * zprod vs); [exact E3|]. replace (Z.abs (num c) * (v * zprod vs)) with (Z.abs (num c) * v * zprod vs) by ring. apply Z.mul_le_mono_nonneg_r; lia.
Qed.
Lemma zprod_pos vs : Forall (fun v => 1 < v) vs -> 1 <= zprod vs.
Proof. induction 1 as [|x l H _ IHF]; [cbn; lia|]. change (zprod (x :: l)) with (x * zprod l). nia. Qed.
Lemma pull_exp_ok vs : Forall (fun v => 1 < v) vs -> forall fuel e r c, 0 <= e -> (Z.to_nat e <= fuel)%nat -> 1 <= r <= 2 ^ 53 -> r < 2 ^ (w - 1) -> (zprod vs ^ e | r) ->
  Z.abs (num c) * r < 2 ^ (w - 1) -> den c <> 0 -> Z.abs (den c) < 2 ^ (w - 1) ->
  exists r' c', pull_exp w i fuel e vs (r, c) = Ok (r', c') /\ r = r' * (zprod vs ^ (e / i)) ^ i /\ 1 <= r' /\ Z.abs (num c') <= Z.abs (num c) * zprod vs ^ (e / i) /\ den c' <> 0 /\ Z.abs (den c') <= Z.abs (den c) /\ Z.abs (num c') * r' < 2 ^ (w - 1).
Proof.
  intros V. pose proof (zprod_pos vs V) as Z1. induction fuel as [|f IH]; intros e r c He Hf R Rw D C D0 Dw; cbn [pull_exp]; destruct (Z.ltb_spec e i) as [L|L]; try lia.
  1,2: exists r, c; rewrite (Z.div_small e i), Z.pow_0_r, Z.pow_1_l by lia; repeat split; try lia; auto.
  assert (DI : (zprod vs ^ i | r)). { eapply Z.divide_trans; [|exact D]. exists (zprod vs ^ (e - i)). rewrite <- Z.pow_add_r by lia. f_equal. lia. }
  destruct (pull_vals_ok vs V r c R Rw DI C D0 Dw) as (r1 & c1 & -> & E1 & E2 & E3 & E4 & E5 & E6). cbn [bind].
  assert (PI : 0 < zprod vs ^ i) by (apply Z.pow_pos_nonneg; lia).
  assert (R1R : r1 <= r) by (clear - E1 E2 PI; nia).
  destruct (IH (e - i) r1 c1) as (r' & c' & -> & F1 & F2 & F3 & F4 & F5 & F6); try assumption; try lia.
  { destruct D as [k Dk]. exists k. apply (Z.mul_reg_r _ _ (zprod vs ^ i)); [lia|]. rewrite <- E1, Dk. rewrite <- Z.mul_assoc, <- Z.pow_add_r by lia. do 2 f_equal. lia. }
  assert (QE : e / i = (e - i) / i + 1). { replace e with (e - i + 1 * i) at 1 by ring. rewrite Z.div_add by lia. reflexivity. }
  assert (Q0 : 0 <= (e - i) / i) by (apply Z.div_pos; lia).
  exists r', c'. split; [reflexivity|]. rewrite QE, Z.pow_add_r, Z.pow_1_r by lia. split; [rewrite Z.pow_mul_l, E1, F1; ring|]. split; [exact F2|]. split; [|split; [exact F4|split; [lia|exact F6]]].
  assert (0 < zprod vs ^ ((e - i) / i)) by (apply Z.pow_pos_nonneg; lia). eapply Z.le_trans; [exact F3|]. replace (Z.abs (num c) * (zprod vs ^ ((e - i) / i) * zprod vs)) with (Z.abs (num c) * zprod vs * zprod vs ^ ((e - i) / i)) by ring. apply Z.mul_le_mono_nonneg_r; lia.
Qed.
Lemma pull_all_ok m : Forall (fun p => 1 <= fst p) m -> Forall (fun p => 1 < fst p) (flat m) -> forall r c, 1 <= r <= 2 ^ 53 -> r < 2 ^ (w - 1) -> (pprod (fun e => e) (flat m) | r) ->
  Z.abs (num c) * r < 2 ^ (w - 1) -> den c <> 0 -> Z.abs (den c) < 2 ^ (w - 1) ->
  exists r' c' K, pull_all w i m (r, c) = Ok (r', c') /\ r = r' * K ^ i /\ 1 <= K /\ 1 <= r' /\ Z.abs (num c') <= Z.abs (num c) * K /\ den c' <> 0 /\ Z.abs (den c') <= Z.abs (den c) /\ Z.abs (num c') * r' < 2 ^ (w - 1).
Proof.
  induction 1 as [|[e vs] m He F IH]; intros V r c R Rw D C D0 Dw; cbn [pull_all].
  - exists r, c, 1. rewrite Z.pow_1_l by lia. repeat split; try lia; auto.
  - cbn [fst] in He. rewrite flat_cons in V, D. apply Forall_app in V as [V1 V2]. rewrite pprod_app, pprod_const in D by lia.
    assert (Vs : Forall (fun v => 1 < v) vs) by (apply Forall_forall; intros v I; rewrite Forall_forall in V1; apply (V1 (v, e)); apply (in_map (fun v => (v, e))); exact I).
    pose proof (zprod_pos vs Vs) as Z1. destruct D as [k Dk].
    destruct (pull_exp_ok vs Vs (Z.to_nat e) e r c) as (r1 & c1 & -> & E1 & E2 & E3 & E4 & E5 & E6); try assumption; try lia; [exists (k * pprod (fun e => e) (flat m)); rewrite Dk; ring|]. cbn [bind].
    set (q := zprod vs ^ (e / i)) in *. assert (Q0 : 0 <= e / i) by (apply Z.div_pos; lia). assert (Q1 : 0 < q) by (apply Z.pow_pos_nonneg; lia). assert (Q2 : 0 < q ^ i) by (apply Z.pow_pos_nonneg; lia).
    assert (RM : r = r1 * q ^ i) by exact E1.
    assert (R1R : r1 <= r) by (clear - RM E2 Q2; nia).
    destruct (IH V2 r1 c1) as (r' & c' & K & -> & F1 & F2 & F3 & F4 & F5 & F6 & F7); try assumption; try lia.
    { assert (QD : zprod vs ^ e = q ^ i * zprod vs ^ (e mod i)). { pose proof (Z.mod_pos_bound e i ltac:(lia)). unfold q. rewrite <- Z.pow_mul_r by lia. rewrite <- Z.pow_add_r by (clear - H Q0 Hi; nia). f_equal. rewrite Z.mul_comm. apply Z.div_mod. lia. }
      exists (k * zprod vs ^ (e mod i)). apply (Z.mul_reg_r _ _ (q ^ i)); [lia|]. rewrite <- RM, Dk, QD. ring. }
    exists r', c', (q * K). split; [reflexivity|]. rewrite Z.pow_mul_l. split; [rewrite RM, F1; ring|]. split; [clear - Q1 F2; nia|]. split; [exact F3|]. split; [|split; [exact F5|split; [lia|exact F7]]].
    eapply Z.le_trans; [exact F4|]. rewrite Z.mul_assoc. apply Z.mul_le_mono_nonneg_r; lia.
Qed.
End Loops.
Section Mul.
Context (w : Z) (Hw : 1 < w).
Lemma mul_vals_ok e vs : 1 <= e -> Forall (fun v => 1 < v) vs -> forall r, 1 <= r -> r * zprod vs ^ e <= 2 ^ 53 -> r * zprod vs ^ e < 2 ^ (w - 1) -> mul_vals w e vs r = Ok (r * zprod vs ^ e).
Proof.
  intros He. induction 1 as [|v vs V F IH]; intros r R L W; cbn [mul_vals].
  - change (zprod []) with 1. rewrite Z.pow_1_l by lia. f_equal. lia.
  - change (zprod (v :: vs)) with (v * zprod vs) in *. rewrite Z.pow_mul_l in *. pose proof (zprod_pos vs F). assert (0 < zprod vs ^ e) by (apply Z.pow_pos_nonneg; lia). assert (0 < v ^ e) by (apply Z.pow_pos_nonneg; lia).
    assert (r * v ^ e <= r * (v ^ e * zprod vs ^ e)) by nia. rewrite mul_pow_ok by lia. cbn [bind]. rewrite IH by (try nia; rewrite <- Z.mul_assoc; assumption). f_equal. ring.
Qed.
Lemma mul_all_ok g m : 1 <= g -> Forall (fun p => 1 <= fst p) m -> (forall p, In p m -> (g | fst p)) -> Forall (fun p => 1 < fst p) (flat m) -> forall r, 1 <= r -> r * pprod (dv g) (flat m) <= 2 ^ 53 -> r * pprod (dv g) (flat m) < 2 ^ (w - 1) ->
  mul_all w g m r = Ok (r * pprod (dv g) (flat m)).
Proof.
  intros Hg. induction 1 as [|[e vs] m He F IH]; intros DV V r R L W; cbn [mul_all]; [change (pprod (dv g) (flat [])) with 1; f_equal; lia|].
  cbn [fst] in He. destruct (DV (e, vs) (or_introl eq_refl)) as [q Q]. cbn [fst] in Q. assert (EG : e / g = q) by (rewrite Q; apply Z.div_mul; lia). assert (Q1 : 1 <= q) by nia.
  rewrite flat_cons in V, L, W |- *. apply Forall_app in V as [V1 V2]. assert (DQ : dv g e = q) by exact EG. rewrite pprod_app, pprod_const in L, W |- * by lia. rewrite DQ in *.
  assert (Vs : Forall (fun v => 1 < v) vs) by (apply Forall_forall; intros v I; rewrite Forall_forall in V1; apply (V1 (v, e)); apply (in_map (fun v => (v, e))); exact I).
  pose proof (zprod_pos vs Vs). assert (0 < zprod vs ^ q) by (apply Z.pow_pos_nonneg; lia).
  assert (PP : 0 < pprod (dv g) (flat m)).
  { destruct (pprod_pos (dv g) (flat m) V2) as [P|([v e'] & I & N)]; [exact P|]. exfalso. cbn [snd] in N. apply flat_in in I as (vs' & I & _). rewrite Forall_forall in F. specialize (F _ I). cbn [fst] in F. unfold dv in N. assert (0 <= e' / g) by (apply Z.div_pos; lia). lia. }
  rewrite EG, mul_vals_ok; try assumption; try nia. cbn [bind]. rewrite IH; try nia; [f_equal; ring|intros p I; apply DV; now right|exact V2].
Qed.
End Mul.
