(** Lemmas: is_rational decides rationality of a normal form. *)
From Coq Require Import ZArith Znumtheory QArith Qreals Reals String Lia Lra Bool List.
From Verif Require Import Base AdapterModel FactorizeModel RationalModel RationalSpec RationalProofs RealModel RealSpec RealProofs1 RealProofs3 RealProofs4 RealProofs5 RealProofs6 RealProofs7 RealProofs8 Valuation ExprProofs1 AdapterProofs NumSpec NumProofs6.
Import ListNotations.
Open Scope Z_scope.

Lemma is_rational_cases w a b : is_rational w a = Ok b -> b = true <-> num (coe a) = 0 \/ num (rad a) = den (rad a) \/ num (rad a) = 0 \/ idx a = 1 \/ idx a = 0.
Proof.
  unfold is_rational. intros H. apply bind_ok in H as (c0 & Hc & H). apply rat_eq_inv in Hc. cbn [num den] in Hc. rewrite Z.mul_1_r, Z.mul_0_l in Hc. symmetry in Hc.
  destruct c0; [apply Z.eqb_eq in Hc; injection H as <-; tauto|apply Z.eqb_neq in Hc].
  apply bind_ok in H as (r1 & Hr & H). apply rat_eq_inv in Hr. cbn [num den] in Hr. rewrite Z.mul_1_r, Z.mul_1_l in Hr. symmetry in Hr.
  destruct r1; [apply Z.eqb_eq in Hr; injection H as <-; tauto|apply Z.eqb_neq in Hr].
  apply bind_ok in H as (r0 & Hr0 & H). apply rat_eq_inv in Hr0. cbn [num den] in Hr0. rewrite Z.mul_1_r, Z.mul_0_l in Hr0. symmetry in Hr0.
  destruct r0; [apply Z.eqb_eq in Hr0; injection H as <-; tauto|apply Z.eqb_neq in Hr0].
  injection H as <-. rewrite orb_true_iff, !Z.eqb_eq. tauto.
Qed.

Lemma rational_canonical n d : d <> 0 -> canonical (Real 1 (Rat 1 1) (Rat n d)) /\ rv (Real 1 (Rat 1 1) (Rat n d)) = (IZR n / IZR d)%R.
Proof.
  intros D. split.
  - exists 1. cbn [rad idx coe den num]. split; [reflexivity|]. split; [lia|]. split; [lia|]. split; [exact D|]. split; [|split; [|reflexivity]].
    + intros p Pp Dv. rewrite Z.pow_1_r in Dv. apply Z.divide_1_r in Dv. destruct Pp as [P _]. lia.
    + intros e k E Dv. apply Z.divide_1_r in Dv. lia.
  - unfold rv. cbn [coe rad idx]. rewrite !qv_value by (cbn [den]; lia). cbn [num den]. replace (1 / 1)%R with 1%R by field. unfold Rpower. rewrite ln_1, Rmult_0_r, exp_0. ring.
Qed.

Lemma is_rational_decides w a b : canonical a -> is_rational w a = Ok b -> b = true <-> exists n d, d <> 0 /\ rv a = (IZR n / IZR d)%R.
Proof.
  intros C H. rewrite (is_rational_cases w a b H). split.
  - intros K. destruct C as (m & Er & Hm & Hi & Dc & Np & _). exists (num (coe a)), (den (coe a)). split; [exact Dc|].
    unfold rv. rewrite (qv_value (coe a) Dc).
    assert (R1 : num (coe a) = 0 \/ rad a = Rat 1 1).
    { rewrite Er in *. cbn [num den] in K. destruct K as [K|[K|[K|[K|K]]]]; [left; exact K|right; congruence|lia|right|lia].
      destruct (Z.eq_dec m 1) as [-> | N]; [reflexivity|exfalso]. destruct (Valuation.prime_divisor_exists m ltac:(lia)) as (p & Pp & Dv). apply (Np p Pp). rewrite K, Z.pow_1_r. exact Dv. }
    destruct R1 as [-> | ->]; [unfold Rdiv; ring|]. rewrite qv_value by (cbn [den]; lia). cbn [num den]. replace (1 / 1)%R with 1%R by field. unfold Rpower. rewrite ln_1, Rmult_0_r, exp_0. ring.
  - intros (n & d & D & V). destruct (rational_canonical n d D) as [C1 V1]. rewrite <- V1 in V. destruct (canonical_unique a _ C C1 V) as (I & _). cbn [idx] in I. tauto.
Qed.

(** no comparison overflows when the parts are numbers of the type *)
Lemma is_rational_total w a : 2 <= w -> in_w w (coe a) -> in_w w (rad a) -> exists b, is_rational w a = Ok b.
Proof.
  intros Hw (A1 & A2) (B1 & B2). assert (P : 0 < 2 ^ (w - 1)) by (apply Z.pow_pos_nonneg; lia). unfold is_rational, rat_eq. cbn [num den]. rewrite !Z.mul_1_r, !Z.mul_0_l, !Z.mul_1_l. rewrite !chk_ok by lia. cbn [bind].
  destruct (num (coe a) =? 0); [eauto|]. destruct (num (rad a) =? den (rad a)); [eauto|]. destruct (num (rad a) =? 0); eauto.
Qed.

(** ** every result of a history is a normal form or the reciprocal of one *)
Definition nearly (x : real) : Prop :=
  canonical x \/ exists m, 1 <= m /\ rad x = Rat 1 m /\ den (coe x) <> 0 /\ num (coe x) <> 0 /\ canonical (Real (idx x) (Rat m 1) (Rat 1 1)).

Lemma inverse_cross w a r : rat_inverse w a = Ok r -> den r <> 0 /\ num a <> 0 /\ num r * num a = den a * den r.
Proof. intros H. unfold rat_inverse in H. apply rat_make_inv in H as [N H]. apply rat_normalize_val in H as [D V]; [|cbn; lia]. cbn [num den] in V. split; [exact D|]. split; [exact N|lia]. Qed.
Lemma inverse_unit w a r m : 1 <= m -> (a = Rat m 1 -> rat_inverse w a = Ok r -> r = Rat 1 m) /\ (a = Rat 1 m -> rat_inverse w a = Ok r -> r = Rat m 1).
Proof.
  intros Hm. split; intros -> H; pose proof (rat_inverse_lowest _ _ _ H) as L; apply inverse_pos in H as (A & B & C); cbn [num den] in *; try lia; destruct r as [n d]; unfold lowest_terms in L; cbn [num den] in *.
  - assert (n = 1); [|subst; f_equal; lia]. replace d with (n * m) in L by lia. rewrite Z.gcd_mul_diag_l in L by lia. exact L.
  - assert (d = 1); [|subst; f_equal; lia]. replace n with (d * m) in L by lia. rewrite Z.gcd_comm, Z.gcd_mul_diag_l in L by lia. exact L.
Qed.
Lemma nearly_inverse w a x : nearly a -> real_inverse w a = Ok x -> nearly x.
Proof.
  intros N H. unfold real_inverse in H. apply bind_ok in H as (c & Hc & H). apply bind_ok in H as (r & Hr & H). injection H as <-.
  destruct (inverse_cross _ _ _ Hc) as (D & Na & V).
  destruct N as [C|(m & Hm & Er & Dc & Nc & C)].
  - destruct C as (m & Er & Hm & Hi & Dc & P1 & P2 & P3). apply (proj1 (inverse_unit w (rad a) r m Hm) Er) in Hr. subst r.
    right. exists m. cbn [rad coe idx]. split; [exact Hm|]. split; [reflexivity|]. split; [exact D|]. split; [nia|].
    exists m. cbn [rad coe idx num den]. split; [reflexivity|]. split; [exact Hm|]. split; [exact Hi|]. split; [lia|]. split; [exact P1|]. split; [exact P2|lia].
  - apply (proj2 (inverse_unit w (rad a) r m Hm) Er) in Hr. subst r. destruct C as (m' & Er' & Hm' & Hi & _ & P1 & P2 & _). cbn [rad idx] in *. injection Er' as <-.
    left. exists m. cbn [rad coe idx num den]. split; [reflexivity|]. split; [exact Hm|]. split; [exact Hi|]. split; [exact D|]. split; [exact P1|]. split; [exact P2|]. nia.
Qed.
Lemma nearly_pow E : 1 < ew E -> fac_sound E -> fac_exact E -> forall fuel a e x, good (ew E) a -> nearly a -> real_pow_fuel fuel E a (Rat e 1) = Ok x -> nearly x.
Proof.
  intros Hw FS FE. induction fuel as [|f IH]; intros a e x G N H; cbn [real_pow_fuel] in H; [discriminate|].
  apply bind_ok in H as (z & Hz & H). apply rat_eq_inv in Hz. cbn [num den] in Hz. rewrite Z.mul_1_r, Z.mul_0_l in Hz. destruct z.
  { apply of_int1_value in H as (G' & C' & V); try assumption. left; assumption. }
  apply bind_ok in H as (o & Ho & H). apply rat_eq_inv in Ho. cbn [num den] in Ho. rewrite Z.mul_1_r, Z.mul_1_l in Ho. destruct o.
  { injection H as <-. exact N. }
  apply bind_ok in H as (n & Hn & H). apply rat_lt_int in Hn. destruct n.
  - apply bind_ok in H as (ia & Hi & H). pose proof (nearly_inverse _ _ _ N Hi) as Ni. apply real_inverse_value in Hi as (Gi & NZ & Vi); [|assumption].
    apply bind_ok in H as (np & Hp & H). apply negate_int in Hp as ->. exact (IH _ _ _ Gi Ni H).
  - apply pow_pos_int in H as (Gx & C & V); try assumption; [|apply G]. left; exact C.
Qed.
Lemma lrun_nearly E e : 1 < ew E -> fac_sound E -> fac_exact E -> lwf (ew E) e -> forall x, lrun E e = Ok x -> nearly x.
Proof.
  intros Hw FS FE W. assert (LC : lnormal e \/ ~ lnormal e -> True) by auto. clear LC. pose proof (lrun_value E) as LV.
  induction e as [c r i|a IHa b IHb|a IHa b IHb|a IHa b IHb|a IHa b IHb|a IHa|a IHa|a IHa n]; cbn [lwf lrun] in *; intros z H.
  - left. now apply make_good in H as (_ & C & _).
  - left. destruct W as [Wa Wb]. apply bind_ok in H as (x & Hx & H). apply bind_ok in H as (y & Hy & H). apply LV in Hx as [Ga _]; try assumption. apply LV in Hy as [Gb _]; try assumption. now apply real_add_value in H as (_ & C & _).
  - left. destruct W as [Wa Wb]. apply bind_ok in H as (x & Hx & H). apply bind_ok in H as (y & Hy & H). apply LV in Hx as [Ga _]; try assumption. apply LV in Hy as [Gb _]; try assumption. now apply real_sub_value in H as (_ & C & _).
  - left. destruct W as [Wa Wb]. apply bind_ok in H as (x & Hx & H). apply bind_ok in H as (y & Hy & H). apply LV in Hx as [Ga _]; try assumption. apply LV in Hy as [Gb _]; try assumption.
    apply real_mul_good in H as (_ & C & _); try assumption; [apply Ga|apply Gb].
  - left. destruct W as [Wa Wb]. apply bind_ok in H as (x & Hx & H). apply bind_ok in H as (y & Hy & H). apply LV in Hx as [Ga _]; try assumption. apply LV in Hy as [Gb _]; try assumption.
    apply real_div_value in H as (_ & C & _); try assumption. apply Ga.
  - left. apply bind_ok in H as (x & Hx & H). apply LV in Hx as [Ga Va]; try assumption. apply real_negate_value in H as (_ & C & _); try assumption. apply Ga.
  - apply bind_ok in H as (x & Hx & H). exact (nearly_inverse _ _ _ (IHa W _ Hx) H).
  - apply bind_ok in H as (x & Hx & H). pose proof (IHa W _ Hx) as N. apply LV in Hx as [Ga _]; try assumption. exact (nearly_pow E Hw FS FE _ _ _ _ Ga N H).
Qed.

Lemma nearly_decides w a b : nearly a -> is_rational w a = Ok b -> b = true <-> rational (rv a).
Proof.
  intros [C|(m & Hm & Er & Dc & Nc & C)] H; [exact (is_rational_decides w a b C H)|].
  rewrite (is_rational_cases w a b H).
  assert (S : (num (rad a) = den (rad a) \/ idx a = 1) <-> m = 1).
  { rewrite Er. cbn [num den]. split; [|lia]. intros [E|E]; [lia|]. destruct C as (m' & Er' & _ & _ & _ & Np & _). cbn [rad idx] in *. injection Er' as <-.
    destruct (Z.eq_dec m 1) as [E1|N]; [exact E1|exfalso]. destruct (Valuation.prime_divisor_exists m ltac:(lia)) as (p & Pp & Dv). apply (Np p Pp). rewrite E, Z.pow_1_r. exact Dv. }
  assert (I1 : 1 <= idx a) by (destruct C as (m' & _ & _ & I & _); exact I).
  assert (V : rv a = (IZR (num (coe a)) / IZR (den (coe a)) / rv (Real (idx a) (Rat m 1) (Rat 1 1)))%R).
  { unfold rv. cbn [idx rad coe]. rewrite Er. rewrite !qv_value by (cbn [den]; lia). cbn [num den].
    assert (PM : (0 < IZR m)%R) by (apply (IZR_lt 0); lia). replace (IZR m / 1)%R with (IZR m) by field. replace (1 / IZR m)%R with (/ IZR m)%R by (field; lra).
    unfold Rpower. rewrite ln_Rinv by exact PM. replace (/ IZR (idx a) * - ln (IZR m))%R with (- (/ IZR (idx a) * ln (IZR m)))%R by ring. rewrite exp_Ropp. 
    field. split; [apply not_0_IZR; exact Dc|]. apply Rgt_not_eq, exp_pos. }
  assert (Y : exists y, rv (Real (idx a) (Rat m 1) (Rat 1 1)) = y /\ (0 < y)%R).
  { eexists. split; [reflexivity|]. unfold rv. cbn [coe rad idx]. rewrite (qv_value (Rat 1 1)) by (cbn; lia). cbn [num den]. replace (1 / 1)%R with 1%R by field. rewrite Rmult_1_l. apply exp_pos. }
  destruct Y as (y & Ey & Py). rewrite Ey in V.
  split.
  - intros K. assert (m = 1) by (apply S; rewrite Er in *; cbn [num den] in *; lia). subst m. exists (num (coe a)), (den (coe a)). split; [exact Dc|]. rewrite V.
    assert (y = 1%R); [|subst; rewrite H0; field; apply not_0_IZR; exact Dc]. rewrite <- Ey. unfold rv. cbn [coe rad idx]. rewrite !qv_value by (cbn [den]; lia). cbn [num den]. replace (1 / 1)%R with 1%R by field. unfold Rpower. rewrite ln_1, Rmult_0_r, exp_0. ring.
  - intros (n & d & D & VR). 
    assert (NZ : n <> 0). { intros ->. rewrite V in VR. assert (X : (IZR (num (coe a)) = 0)%R). { replace (0 / IZR d)%R with 0%R in VR by (unfold Rdiv; ring). apply (Rmult_eq_reg_r (/ IZR (den (coe a)) * / y)); [rewrite Rmult_0_l; rewrite <- VR; unfold Rdiv; ring|]. apply Rmult_integral_contrapositive_currified; apply Rinv_neq_0_compat; [apply not_0_IZR; exact Dc|lra]. } apply eq_IZR in X. contradiction. }
    assert (R1 : y = (IZR (num (coe a) * d) / IZR (den (coe a) * n))%R).
    { rewrite V in VR. rewrite !mult_IZR. assert (A1 := not_0_IZR _ Dc). assert (A2 := not_0_IZR _ D). assert (A3 := not_0_IZR _ NZ).
      apply (Rmult_eq_reg_r (IZR n / IZR d)); [|apply Rmult_integral_contrapositive_currified; [exact A3|apply Rinv_neq_0_compat; exact A2]]. rewrite <- VR at 1. field. repeat split; try assumption. lra. }
    assert (DN : den (coe a) * n <> 0) by nia. destruct (rational_canonical (num (coe a) * d) (den (coe a) * n) DN) as [C1 V1]. rewrite <- V1, <- Ey in R1. destruct (canonical_unique _ _ C C1 R1) as (I & _). cbn [idx] in I. tauto.
Qed.
Lemma nearly_rational w a : nearly a -> is_rational w a = Ok true -> rad a = Rat 1 1.
Proof.
  intros N H. pose proof (proj1 (is_rational_cases w a true H) eq_refl) as K. 
  assert (P : forall m, 1 <= m -> (forall p, prime p -> ~ (p ^ idx a | m)) -> idx a = 1 -> m = 1).
  { intros m Hm Np E. destruct (Z.eq_dec m 1) as [E1|Nm]; [exact E1|exfalso]. destruct (Valuation.prime_divisor_exists m ltac:(lia)) as (p & Pp & Dv). apply (Np p Pp). rewrite E, Z.pow_1_r. exact Dv. }
  destruct N as [(m & Er & Hm & Hi & Dc & Np & _ & P3)|(m & Hm & Er & Dc & Nc & (m' & Er' & _ & Hi & _ & Np & _))]; rewrite Er in *; cbn [num den rad idx] in *.
  - f_equal. destruct K as [K|[K|[K|[K|K]]]]; [apply P; auto|exact K|lia|apply P; auto|lia].
  - injection Er' as <-. f_equal. destruct K as [K|[K|[K|[K|K]]]]; [contradiction|lia|lia|apply P; auto|lia].
Qed.
Lemma mul_one w a : 1 < w -> Z.abs (num a) < 2 ^ (w - 1) -> Z.abs (den a) < 2 ^ (w - 1) -> den a <> 0 -> rat_mul w a (Rat 1 1) = Ok a.
Proof.
  intros Hw A B D. unfold rat_mul. cbn [num den]. assert (2 <= 2 ^ (w - 1)) by (change 2 with (2 ^ 1) at 1; apply Z.pow_le_mono_r; lia). rewrite !gcd_ok' by lia. cbn [bind]. rewrite Z.gcd_1_r, Z.gcd_1_l. rewrite !quot_ok by lia. cbn [bind]. rewrite !Z.quot_1_r, !Z.mul_1_r. rewrite !chk_ok by lia. cbn [bind]. destruct (Z.eqb_spec (den a) 0); [contradiction|]. now destruct a.
Qed.
