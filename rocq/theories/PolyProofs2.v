(** Values of terms. *)
From Coq Require Import ZArith Znumtheory QArith Qreals Reals String Lia Lra Bool List Permutation.
From Verif Require Import Base AdapterModel AdapterProofs RationalModel RationalSpec RationalProofs RationalProofs2 RealModel RealSpec RealProofs1 RealProofs2 RealProofs3 RealProofs4 RealProofs5 RealProofs6 PolyModel PolySpec PolyProofs1.
Import ListNotations.
Open Scope Z_scope.

Definition okenv (E : env) : Prop := 1 < ew E /\ fac_sound E /\ fac_exact E.

(** ** integers as reals *)
Lemma of_int_value E n x : okenv E -> real_of_int E n = Ok x -> good (ew E) x /\ canonical x /\ rv x = IZR n.
Proof.
  intros (Hw & FS & FE) H. unfold real_of_int in H. apply bind_ok in H as (c & Hc & H). apply of_int_inv in Hc as ->.
  apply make_good in H as (G & C & V); try assumption.
  - split; [assumption|]. split; [assumption|]. rewrite V, rv_root. cbn [coe rad idx]. rewrite rat1_R, root_one, Rmult_1_r, qv_R by (cbn; lia). cbn [num den]. field.
  - assert (2 <= 2 ^ ew E) by (change 2 with (2 ^ 1) at 1; apply Z.pow_le_mono_r; lia). repeat split; cbn; lia.
Qed.
Lemma of_rat_value E q x : okenv E -> den q <> 0 -> real_of_rat E q = Ok x -> good (ew E) x /\ canonical x /\ rv x = Q2R (qv q).
Proof.
  intros (Hw & FS & FE) D H. unfold real_of_rat in H. apply make_good in H as (G & C & V); try assumption.
  - split; [assumption|]. split; [assumption|]. rewrite V, rv_root. cbn [coe rad idx]. rewrite rat1_R, root_one. ring.
  - assert (2 <= 2 ^ ew E) by (change 2 with (2 ^ 1) at 1; apply Z.pow_le_mono_r; lia). repeat split; cbn; lia.
Qed.
Lemma of_int_coe E n x : okenv E -> real_of_int E n = Ok x -> num (coe x) = n * den (coe x).
Proof.
  intros O H. pose proof (of_int_value _ _ _ O H) as (G & C & V). pose proof O as (Hw & FS & FE).
  assert (Cn : canonical (Real 1 (Rat 1 1) (Rat n 1))).
  { exists 1. cbn [rad idx coe num den]. repeat split; try lia.
    - intros p Hp D. rewrite Z.pow_1_r in D. destruct Hp as [Hp _]. apply Z.divide_1_r_nonneg in D; lia.
    - intros d k Hd D. apply Z.divide_1_r_nonneg in D; lia. }
  destruct (canonical_unique x (Real 1 (Rat 1 1) (Rat n 1)) C Cn) as (_ & _ & Q).
  - rewrite V, rv_root. cbn [coe rad idx]. rewrite rat1_R, root_one, Rmult_1_r, qv_R by (cbn; lia). cbn [num den]. field.
  - cbn [coe] in Q. unfold qv in Q. apply qdiv_eq_inv in Q; [cbn [num den] in Q; lia| |cbn; lia]. now destruct G as [(_ & _ & _ & D) _].
Qed.

(** ** terms *)
Lemma term_normalize_value w s t t' : twf w t -> term_normalize w t = Ok t' -> twf w t' /\ no_zero_exponent (syms t') /\ tco t' = tco t /\ tv s t' = tv s t /\ (tadm s t -> tadm s t').
Proof.
  intros [G W] H. unfold term_normalize in H. apply bind_ok in H as (m & Hm & H). injection H as <-. apply (normalize_syms w s) in Hm as (A & B & C & D); [|assumption].
  split; [split; assumption|]. unfold tv, tadm. cbn [tco syms]. rewrite C. auto.
Qed.
Lemma term_mul_value E s a b t : okenv E -> twf (ew E) a -> twf (ew E) b -> tadm s a -> tadm s b -> term_mul E a b = Ok t ->
  twf (ew E) t /\ no_zero_exponent (syms t) /\ canonical (tco t) /\ tadm s t /\ tv s t = (tv s a * tv s b)%R.
Proof.
  intros (Hw & FS & FE) [Ga Wa] [Gb Wb] Aa Ab H. unfold term_mul in H. apply bind_ok in H as (m & Hm & H). apply bind_ok in H as (c & Hc & H).
  apply (merge_syms_spec _ s) in Hm as (Wm & Am & Vm); try assumption. apply real_mul_good in Hc as (Gc & Cc & Vc); try assumption; try apply Ga; try apply Gb.
  apply (term_normalize_value _ s) in H as (W & N & T & V & A); [|now split]. cbn [tco] in T. split; [assumption|]. split; [assumption|]. split; [now rewrite T|]. split; [now apply A|].
  rewrite V. unfold tv. cbn [tco syms]. rewrite Vm, Vc. ring.
Qed.
Lemma term_negate_value E s a t : okenv E -> twf (ew E) a -> tadm s a -> term_negate E a = Ok t ->
  twf (ew E) t /\ no_zero_exponent (syms t) /\ canonical (tco t) /\ tadm s t /\ tv s t = (- tv s a)%R.
Proof.
  intros (Hw & FS & FE) [Ga Wa] Aa H. unfold term_negate in H. apply bind_ok in H as (c & Hc & H). apply real_negate_value in Hc as (Gc & Cc & Vc); try assumption; try apply Ga.
  apply (term_normalize_value _ s) in H as (W & N & T & V & A); [|now split]. cbn [tco] in T. split; [assumption|]. split; [assumption|]. split; [now rewrite T|]. split; [now apply A|].
  rewrite V. unfold tv. cbn [tco syms]. rewrite Vc. ring.
Qed.
Lemma term_div_value E s a r t : okenv E -> twf (ew E) a -> good (ew E) r -> tadm s a -> term_div E a r = Ok t ->
  twf (ew E) t /\ no_zero_exponent (syms t) /\ canonical (tco t) /\ tadm s t /\ tv s t = (tv s a / rv r)%R.
Proof.
  intros (Hw & FS & FE) [Ga Wa] Gr Aa H. unfold term_div in H. apply bind_ok in H as (c & Hc & H). apply real_div_value in Hc as (Gc & Cc & Vc); try assumption; try apply Ga.
  apply (term_normalize_value _ s) in H as (W & N & T & V & A); [|now split]. cbn [tco] in T. split; [assumption|]. split; [assumption|]. split; [now rewrite T|]. split; [now apply A|].
  rewrite V. unfold tv. cbn [tco syms]. rewrite Vc. unfold Rdiv. ring.
Qed.
(** scaling the exponents by an integer *)
Lemma mul_int_value w v n v' : qok v -> rat_mul w v (Rat n 1) = Ok v' -> qok v' /\ (qv v' == qv v * inject_Z n)%Q.
Proof.
  intros Q H. assert (Qn : qok (Rat n 1)) by (split; [cbn; lia|unfold lowest_terms; cbn; apply Z.gcd_1_r]). split; [now apply (qok_mul w v (Rat n 1))|].
  apply rat_mul_exact in H as (_ & _ & _ & V). rewrite V. unfold qv. cbn [num den]. unfold Qdiv at 2. now rewrite Qmult_1_r.
Qed.
Lemma pwr_int_scale w x v n v' : qok v -> 0 <= n -> rat_mul w v (Rat n 1) = Ok v' -> adm1 x v ->
  pwr x v' = (pwr x v ^ Z.to_nat n)%R /\ (num v' = 0 \/ adm1 x v').
Proof.
  intros Q N H A. destruct (mul_int_value _ _ _ _ Q H) as [Q' V]. destruct (Rlt_dec 0 x) as [P|NP].
  - split; [|right; now left]. rewrite !pwr_pos by assumption. rewrite (Q2R_eq _ _ V), Q2R_mult. rewrite <- Rpower_mult. rewrite <- Rpower_pow by apply exp_pos. f_equal. unfold Q2R, inject_Z. cbn [Qnum Qden]. rewrite INR_IZR_INZ, Z2Nat.id by lia. field.
  - destruct A as [?|[D A]]; [contradiction|]. rewrite (rat_den1 v D) in V |- *. assert (E : v' = Rat (num v * n) 1).
    { apply qok_int; [assumption|]. rewrite V. unfold qv. cbn [num den]. rewrite inject_Z_mult. unfold Qdiv. now rewrite Qmult_1_r. }
    subst v'. rewrite !pwr_int. cbn [num den] in *. destruct (Req_dec x 0) as [->|NZ].
    + destruct A as [?|A]; [contradiction|]. destruct (Z.eq_dec n 0) as [->|Nn].
      * rewrite Z.mul_0_r. cbn. auto.
      * rewrite !powerRZ0 by nia. rewrite pow_i by lia. split; [reflexivity|]. right. right. cbn. split; [reflexivity|right; nia].
    + split; [|right; right; cbn; auto]. rewrite <- (Z2Nat.id n) at 1 by lia. rewrite <- powerRZ_mult by assumption. now rewrite <- pow_powerRZ.
Qed.
Lemma scale_int_spec w s n m : 0 <= n -> forall m', scale_syms w (Rat n 1) m = Ok m' -> swf m -> sadm s m ->
  swf m' /\ map fst m' = map fst m /\ sv s m' = (sv s m ^ Z.to_nat n)%R /\ (forall p, In p m' -> num (snd p) = 0 \/ adm1 (s (fst p)) (snd p)).
Proof.
  intros N. induction m as [|[k v] m IH]; intros m' H W A; cbn [scale_syms] in H.
  - injection H as <-. split; [assumption|]. split; [reflexivity|]. split; [cbn; now rewrite pow1|]. intros p [].
  - apply bind_ok in H as (v' & Hv & H). apply bind_ok in H as (r & Hr & H). injection H as <-. destruct W as [ND Q]. inversion Q as [|? ? Q1 Q2]; subst. inversion A as [|? ? A1 A2]; subst. cbn [map fst snd] in *. inversion ND as [|? ? X Y]; subst.
    destruct (IH _ Hr) as ([W1 W2] & K & V & P); [now split|assumption|]. destruct (pwr_int_scale _ _ _ _ _ Q1 N Hv A1) as [V1 P1].
    split; [split; [cbn [map fst]; rewrite K; now constructor|constructor; [now apply (mul_int_value w v n)|assumption]]|]. split; [cbn [map fst]; now rewrite K|].
    split; [rewrite !sv_cons; cbn [fst snd]; now rewrite V, V1, Rpow_mult_distr|]. intros p [<-|I]; auto.
Qed.
Lemma term_pow_int E s a n t : okenv E -> 0 <= n -> twf (ew E) a -> tadm s a -> term_pow E a (Rat n 1) = Ok t ->
  twf (ew E) t /\ no_zero_exponent (syms t) /\ tadm s t /\ tv s t = (tv s a ^ Z.to_nat n)%R.
Proof.
  intros (Hw & FS & FE) Hn [Ga Wa] Aa H. unfold term_pow in H. apply bind_ok in H as (c & Hc & H). apply bind_ok in H as (m & Hm & H).
  apply pow_fuel_int in Hc as (Gc & _ & _ & Vc); try assumption. destruct (scale_int_spec _ s _ _ Hn _ Hm Wa Aa) as (Wm & K & Vm & Pm).
  pose proof H as H2. apply (term_normalize_value _ s) in H as (W & N & T & V & _); [|now split]. split; [assumption|]. split; [assumption|]. split.
  - unfold term_normalize in H2. apply bind_ok in H2 as (m' & Hm' & H2). injection H2 as <-. cbn [syms] in *. unfold tadm. cbn [syms]. destruct (drop_zero_spec _ s _ _ Hm' (proj2 Wm)) as (I & _). unfold sadm. rewrite Forall_forall. intros p J. apply I in J as [J NZ]. destruct (Pm p J); [contradiction|assumption].
  - rewrite V. unfold tv. cbn [tco syms]. rewrite Vm, Vc, Rpow_mult_distr, powerRZ_pos by assumption. reflexivity.
Qed.
(** any rational exponent, positive symbols *)
Lemma scale_pos_spec w s q m : (forall k, (0 < s k)%R) -> qok q -> forall m', scale_syms w q m = Ok m' -> swf m ->
  swf m' /\ map fst m' = map fst m /\ sv s m' = Rpower (sv s m) (Q2R (qv q)) /\ (0 < sv s m)%R.
Proof.
  intros SP Qq. induction m as [|[k v] m IH]; intros m' H W; cbn [scale_syms] in H.
  - injection H as <-. split; [assumption|]. split; [reflexivity|]. split; [|cbn; lra]. cbn. unfold Rpower. rewrite ln_1, Rmult_0_r, exp_0. reflexivity.
  - apply bind_ok in H as (v' & Hv & H). apply bind_ok in H as (r & Hr & H). injection H as <-. destruct W as [ND Q]. inversion Q as [|? ? Q1 Q2]; subst. cbn [map fst snd] in *. inversion ND as [|? ? X Y]; subst.
    destruct (IH _ Hr) as ([W1 W2] & K & V & P); [now split|]. pose proof (qok_mul _ _ _ _ Q1 Qq Hv) as Q'. pose proof Hv as Hv2. apply rat_mul_exact in Hv2 as (_ & _ & _ & V1).
    split; [split; [cbn [map fst]; rewrite K; now constructor|now constructor]|]. split; [cbn [map fst]; now rewrite K|]. rewrite !sv_cons. cbn [fst snd]. rewrite !pwr_pos by auto. split; [|apply Rmult_lt_0_compat; [apply exp_pos|assumption]].
    rewrite V, (Q2R_eq _ _ V1), Q2R_mult, <- Rpower_mult. now rewrite Rpower_mult_distr by (try apply exp_pos; assumption).
Qed.
Lemma sadm_pos s m : (forall k, (0 < s k)%R) -> sadm s m.
Proof. intros H. unfold sadm. rewrite Forall_forall. intros p _. now left. Qed.
Lemma term_pow_frac E s a q t : okenv E -> (forall k, (0 < s k)%R) -> qok q -> twf (ew E) a -> 0 < num (coe (tco a)) -> 0 < den (coe (tco a)) -> idx (tco a) * den q < 2 ^ ew E ->
  term_pow E a q = Ok t -> twf (ew E) t /\ no_zero_exponent (syms t) /\ tv s t = Rpower (tv s a) (Q2R (qv q)).
Proof.
  intros (Hw & FS & FE) SP Qq [Ga Wa] Nc Dc B H. unfold term_pow in H. apply bind_ok in H as (c & Hc & H). apply bind_ok in H as (m & Hm & H).
  apply pow_fuel_frac in Hc as (Gc & Vc); try assumption; [|apply Qq]. destruct (scale_pos_spec _ s _ _ SP Qq _ Hm Wa) as (Wm & K & Vm & Pm).
  apply (term_normalize_value _ s) in H as (W & N & T & V & _); [|now split]. split; [assumption|]. split; [assumption|]. rewrite V. unfold tv. cbn [tco syms]. rewrite Vm, Vc. apply Rpower_mult_distr; [|assumption]. apply (rv_positive (ew E)); try assumption. apply Ga.
Qed.
(** negative integers *)
Lemma scale_neg_spec w s n m : (forall k, s k <> 0%R) -> Forall (fun p => den (snd p) = 1) m -> forall m', scale_syms w (Rat n 1) m = Ok m' -> swf m ->
  swf m' /\ sv s m' = powerRZ (sv s m) n /\ (sv s m <> 0%R) /\ Forall (fun p => den (snd p) = 1) m'.
Proof.
  intros SP Dm. induction m as [|[k v] m IH]; intros m' H W; cbn [scale_syms] in H.
  - injection H as <-. split; [assumption|]. cbn [sv fold_right]. split; [|split; [lra|constructor]]. destruct n; cbn; rewrite ?pow1; lra.
  - apply bind_ok in H as (v' & Hv & H). apply bind_ok in H as (r & Hr & H). injection H as <-. destruct W as [ND Q]. inversion Q as [|? ? Q1 Q2]; subst. inversion Dm as [|? ? D1 D2]; subst. cbn [map fst snd] in *. inversion ND as [|? ? X Y]; subst.
    destruct (IH D2 _ Hr) as ([W1 W2] & V & P & D3); [now split|]. destruct (mul_int_value _ _ _ _ Q1 Hv) as [Q' V1].
    assert (E : v' = Rat (num v * n) 1).
    { apply qok_int; [assumption|]. rewrite V1. rewrite (rat_den1 v D1). unfold qv. cbn [num den]. rewrite inject_Z_mult. unfold Qdiv. now rewrite Qmult_1_r. }
    subst v'. assert (K : forall m r, scale_syms w (Rat n 1) m = Ok r -> map fst r = map fst m).
    { clear. induction m as [|[k v] m IH]; intros r H; cbn [scale_syms] in H; [now injection H as <-|]. apply bind_ok in H as (? & _ & H). apply bind_ok in H as (r' & Hr & H). injection H as <-. cbn. f_equal. auto. }
    split; [split; [cbn [map fst]; rewrite (K _ _ Hr); now constructor|now constructor]|]. rewrite !sv_cons. cbn [fst snd]. rewrite (rat_den1 v D1), !pwr_int. cbn [num den].
    assert (NZ : (powerRZ (s k) (num v) <> 0)%R) by now apply powerRZ_NOR. split; [|split; [now apply Rmult_integral_contrapositive|now constructor]].
    rewrite V, Rfunctions.powerRZ_mult. f_equal.
    destruct (Z_lt_le_dec n 0) as [L|L].
    + replace n with (- Z.of_nat (Z.to_nat (- n))) at 2 by lia. rewrite powerRZ_neg'. rewrite powerRZ_mult by auto. rewrite <- powerRZ_neg'. f_equal. rewrite Z2Nat.id by lia. ring.
    + rewrite <- (Z2Nat.id n) at 2 by lia. rewrite powerRZ_mult by auto. f_equal. now rewrite Z2Nat.id by lia.
Qed.
Lemma term_pow_neg E s a n t : okenv E -> (forall k, s k <> 0%R) -> Forall (fun p => den (snd p) = 1) (syms a) -> twf (ew E) a -> term_pow E a (Rat n 1) = Ok t ->
  twf (ew E) t /\ no_zero_exponent (syms t) /\ tv s t = powerRZ (tv s a) n /\ (n < 0 -> tv s a <> 0%R).
Proof.
  intros (Hw & FS & FE) SP Da [Ga Wa] H. unfold term_pow in H. apply bind_ok in H as (c & Hc & H). apply bind_ok in H as (m & Hm & H).
  apply pow_fuel_int in Hc as (Gc & _ & Nz & Vc); try assumption. destruct (scale_neg_spec _ s _ _ SP Da _ Hm Wa) as (Wm & Vm & Pm & _).
  apply (term_normalize_value _ s) in H as (W & N & T & V & _); [|now split]. split; [assumption|]. split; [assumption|].
  assert (NZ : n < 0 -> rv (tco a) <> 0%R).
  { intros L Z. rewrite rv_radical in Z. apply Rmult_integral in Z as [Z|Z]; [|pose proof (radical_pos (tco a)); lra]. destruct Ga as [(_ & _ & _ & Dc) _]. rewrite qv_R in Z by assumption. apply Nz; [assumption|]. apply eq_IZR. apply IZR_nz in Dc. unfold Rdiv in Z. apply Rmult_integral in Z as [Z|Z]; [assumption|]. exfalso. now apply Rinv_neq_0_compat in Dc. }
  split; [|intros L; unfold tv; apply Rmult_integral_contrapositive; auto].
  rewrite V. unfold tv. cbn [tco syms]. rewrite Vm, Vc, Rfunctions.powerRZ_mult. reflexivity.
Qed.
