(** Real::normalize preserves the number and produces the canonical form; the canonical form is unique. *)
From Coq Require Import ZArith Znumtheory QArith Qreals Reals String Lia Lra Bool List Permutation Sorted.
From Verif Require Import Base AdapterModel AdapterProofs FactorizeModel FactorizeProofs4 RationalModel RationalSpec RationalProofs RealModel RealSpec Valuation RealProofs1 RealProofs2.
Import ListNotations.
Open Scope Z_scope.

(** ** rational and integer numbers as reals *)
Lemma Q2R_inject n : Q2R (inject_Z n) = IZR n.
Proof. unfold Q2R, inject_Z. cbn [Qnum Qden]. lra. Qed.
Lemma IZR_nz n : n <> 0 -> IZR n <> 0%R. Proof. intros H E. apply H. now apply eq_IZR. Qed.
Lemma qv_R r : den r <> 0 -> Q2R (qv r) = (IZR (num r) / IZR (den r))%R.
Proof. intros H. unfold qv. rewrite Q2R_div by now apply inj0. now rewrite !Q2R_inject. Qed.
Lemma Q2R_eq a b : (a == b)%Q -> Q2R a = Q2R b. Proof. apply Qeq_eqR. Qed.
Lemma IZR_pow_Rpower k i : 0 < k -> 0 <= i -> IZR (k ^ i) = Rpower (IZR k) (IZR i).
Proof.
  intros Hk Hi. rewrite <- (Z2Nat.id i) at 1 by assumption. rewrite <- pow_IZR. rewrite <- Rpower_pow by now apply IZR_lt.
  f_equal. rewrite INR_IZR_INZ. now rewrite Z2Nat.id.
Qed.
Definition root (x : R) (i : Z) : R := Rpower x (/ IZR i).
Lemma root_pos x i : (0 < root x i)%R. Proof. apply exp_pos. Qed.
Lemma root_mul x y i : (0 < x -> 0 < y -> root (x * y) i = root x i * root y i)%R.
Proof. intros. unfold root. symmetry. now apply Rpower_mult_distr. Qed.
Lemma root_pow k i : 0 < k -> 1 <= i -> root (IZR (k ^ i)) i = IZR k.
Proof.
  intros Hk Hi. unfold root. rewrite IZR_pow_Rpower by lia. rewrite Rpower_mult. rewrite Rinv_r by (apply IZR_nz; lia).
  apply Rpower_1. now apply IZR_lt.
Qed.
Lemma root_root k g j : 0 < k -> 1 <= g -> 1 <= j -> root (IZR (k ^ g)) (g * j) = root (IZR k) j.
Proof.
  intros Hk Hg Hj. unfold root. rewrite IZR_pow_Rpower by lia. rewrite Rpower_mult. f_equal. rewrite mult_IZR. field. split; apply IZR_nz; lia.
Qed.
Lemma root_1 x : (0 < x)%R -> root x 1 = x.
Proof. intros H. unfold root. rewrite Rinv_1. now apply Rpower_1. Qed.
Lemma root_one i : root 1 i = 1%R. Proof. unfold root, Rpower. rewrite ln_1, Rmult_0_r. apply exp_0. Qed.
(** x^(1/i) to the power i *)
Lemma root_npow x i : (0 < x)%R -> 1 <= i -> (root x i ^ Z.to_nat i = x)%R.
Proof.
  intros Hx Hi. unfold root. rewrite <- Rpower_pow by apply exp_pos. rewrite Rpower_mult, INR_IZR_INZ, Z2Nat.id by lia.
  rewrite Rinv_l by (apply IZR_nz; lia). now apply Rpower_1.
Qed.
Lemma rv_root x : rv x = (Q2R (qv (coe x)) * root (Q2R (qv (rad x))) (idx x))%R. Proof. reflexivity. Qed.

(** the radicand is a product of g-th powers *)
Lemma pprod_dv_pow g ps : 1 <= g -> Forall (fun p => 1 <= snd p) ps -> (forall p, In p ps -> (g | snd p)) -> pprod (fun e => e) ps = pprod (dv g) ps ^ g.
Proof.
  intros Hg. induction ps as [|p ps IH]; intros F D; [cbn; now rewrite Z.pow_1_l by lia|]. inversion F as [|? ? F1 F2]; subst.
  rewrite !pprod_cons, IH by (try assumption; intros q I; apply D; now right). rewrite Z.pow_mul_l. f_equal.
  destruct (D p (or_introl eq_refl)) as [q Eq]. unfold dv. rewrite Eq, Z.div_mul by lia. rewrite <- Z.pow_mul_r by lia. reflexivity.
Qed.
Lemma flat_div g m : (forall p : Z * list Z, In p m -> (g | fst p)) -> forall p, In p (flat m) -> (g | snd p).
Proof. intros H [v e] I. apply flat_in in I as (vs & I & _). now apply (H (e, vs)). Qed.

Theorem normalize_value E x x' : 1 < ew E -> fac_sound E -> wf (ew E) x -> real_normalize E x = Ok x' -> wf (ew E) x' /\ rv x' = rv x.
Proof.
  intros Hw FS W H. destruct (normalize_inv E x x' Hw FS W H) as (n & r & K & g & c & m0 & m & NR).
  destruct NR as [En EK Ep _ _ F0 Fm Qc Dc Pg Dgi Dgk Gg Ex]. destruct W as (Hi & Hn & Hd & Hcd).
  pose proof (factors_pos _ _ Fm) as Pr. pose proof (factors_pos _ _ F0) as Pn.
  assert (PK : 0 < K). { rewrite EK. apply pprod_positive; [apply (fo_vals _ _ F0)|apply (fo_exps _ _ F0)|]. intros e He. apply Z.div_pos; lia. }
  set (s := pprod (dv g) (flat m)) in *.
  assert (Ps : 0 < s). { apply pprod_positive; [apply (fo_vals _ _ Fm)|apply (fo_exps _ _ Fm)|]. intros e He. apply Z.div_pos; lia. }
  assert (Er : r = s ^ g). { rewrite <- (fo_prod _ _ Fm). apply pprod_dv_pow; [assumption|apply (fo_exps _ _ Fm)|now apply flat_div]. }
  destruct Dgi as [j Ej]. assert (Pj : 1 <= j) by nia. assert (Dj : idx x / g = j) by (rewrite Ej, Z.div_mul; lia).
  assert (P2 : 1 < 2 ^ ew E) by (apply Z.pow_gt_1; lia).
  (* value of x *)
  assert (V : rv x = (Q2R (qv c) * root (IZR s) j)%R).
  { rewrite (Q2R_eq _ _ Qc). rewrite Q2R_mult, Q2R_div, !Q2R_inject by (apply inj0; lia).
    rewrite rv_root. rewrite (qv_R (rad x)) by lia.
    assert (A : (IZR (num (rad x)) / IZR (den (rad x)) = IZR n / IZR (den (rad x) ^ idx x))%R).
    { assert (DD : den (rad x) ^ idx x = den (rad x) ^ (idx x - 1) * den (rad x)).
      { replace (idx x) with (idx x - 1 + 1) at 1 by lia. rewrite Z.pow_add_r, Z.pow_1_r by lia. reflexivity. }
      assert (0 < den (rad x) ^ (idx x - 1)) by (apply Z.pow_pos_nonneg; lia).
      rewrite En, DD, !mult_IZR. field. split; apply IZR_nz; lia. }
    rewrite A. unfold Rdiv. assert (B : root (IZR n * / IZR (den (rad x) ^ idx x)) (idx x) = (root (IZR n) (idx x) * / IZR (den (rad x)))%R).
    { assert (D0 : (0 < IZR (den (rad x) ^ idx x))%R) by (apply IZR_lt, Z.pow_pos_nonneg; lia).
      assert (N0 : (0 < IZR n)%R) by (now apply IZR_lt).
      assert (C : (root (IZR n * / IZR (den (rad x) ^ idx x)) (idx x) * root (IZR (den (rad x) ^ idx x)) (idx x) = root (IZR n) (idx x))%R).
      { rewrite <- root_mul; [|apply Rmult_lt_0_compat; [assumption|now apply Rinv_0_lt_compat]|assumption].
        f_equal. field. lra. }
      rewrite root_pow in C by lia. rewrite <- C. field. apply IZR_nz. lia. }
    rewrite B. rewrite Ep, mult_IZR, root_mul by (apply IZR_lt; try assumption; apply Z.pow_pos_nonneg; lia).
    rewrite root_pow by lia. rewrite Er, Ej. rewrite (Z.mul_comm j g). rewrite root_root by lia. ring. }
  destruct (Z.eqb_spec (num c) 0) as [C0|C0].
  - rewrite Ex. split; [unfold wf; cbn [idx rad coe num den]; lia|]. rewrite V. unfold rv. cbn [coe].
    assert (Z0 : Q2R (qv c) = 0%R) by (rewrite qv_R by assumption; rewrite C0; unfold Rdiv; ring). rewrite Z0. ring.
  - assert (W' : j <= idx x) by nia. rewrite Dj in Ex. split; [rewrite Ex; unfold wf; cbn [idx rad coe num den]; destruct (r =? 1); lia|].
    rewrite V, Ex, rv_root. cbn [coe rad idx]. rewrite (qv_R (Rat s 1)) by (cbn [den]; lia). cbn [num den]. unfold Rdiv. rewrite Rinv_1, Rmult_1_r.
    f_equal. destruct (Z.eqb_spec r 1) as [R1|]; [|reflexivity].
    assert (S1 : s = 1). { rewrite R1 in Er. destruct (Z.eq_dec s 1); [assumption|]. assert (1 < s ^ g) by (apply Z.pow_gt_1; lia). lia. }
    rewrite S1. now rewrite !root_one.
Qed.

(** ** exponents of the primes in a product of pairs *)
Lemma val_pprod_notin q f ps : prime q -> Forall (fun p => prime (fst p)) ps -> Forall (fun p => 0 <= f (snd p)) ps -> ~ In q (map fst ps) -> val q (pprod f ps) = 0.
Proof.
  intros Q F. induction F as [|p ps P F IH]; intros G N; [apply val_1; destruct Q; lia|]. inversion G as [|? ? G1 G2]; subst.
  rewrite pprod_cons. assert (1 < fst p) by (destruct P; lia). assert (Z1 : fst p ^ f (snd p) <> 0) by (apply Z.pow_nonzero; lia).
  assert (Z2 : pprod f ps <> 0).
  { destruct (pprod_pos f ps) as [|(y & I & L)]; [eapply Forall_impl; [|exact F]; intros a [A _]; exact A|lia|].
    rewrite Forall_forall in G2. specialize (G2 _ I). lia. }
  rewrite val_mul, val_pow, IH by (try assumption; try lia; intros I; apply N; now right).
  rewrite val_other by (try assumption; intros ->; apply N; now left). lia.
Qed.
Lemma val_pprod_in q f ps e : prime q -> Forall (fun p => prime (fst p)) ps -> Forall (fun p => 0 <= f (snd p)) ps -> NoDup (map fst ps) -> In (q, e) ps -> val q (pprod f ps) = f e.
Proof.
  intros Q F. induction F as [|p ps P F IH]; intros G ND I; [destruct I|]. inversion G as [|? ? G1 G2]; subst. cbn [map] in ND. inversion ND as [|? ? N1 N2]; subst.
  rewrite pprod_cons. assert (1 < fst p) by (destruct P; lia). assert (Z1 : fst p ^ f (snd p) <> 0) by (apply Z.pow_nonzero; lia).
  assert (Z2 : pprod f ps <> 0).
  { destruct (pprod_pos f ps) as [|(y & J & L)]; [eapply Forall_impl; [|exact F]; intros a [A _]; exact A|lia|].
    rewrite Forall_forall in G2. specialize (G2 _ J). lia. }
  rewrite val_mul, val_pow by (try assumption; lia). destruct I as [->|I].
  - cbn [fst snd] in *. rewrite val_self, val_pprod_notin by assumption. lia.
  - rewrite (IH G2 N2 I). rewrite val_other; [lia|assumption|assumption|]. intros Eq. apply N1. rewrite <- Eq. apply (in_map fst) in I. exact I.
Qed.
Lemma in_map_fst (q : Z) (ps : list (Z * Z)) : In q (map fst ps) -> exists e, In (q, e) ps.
Proof. intros I. apply in_map_iff in I as ([a e] & <- & I). eauto. Qed.
(** [flat] of a factor map whose values are primes *)
Definition primes_of (m : list (Z * list Z)) : Prop := Forall (fun p => prime (fst p)) (flat m).
Lemma val_factors n m q : factors_of n m -> primes_of m -> prime q ->
  (forall e, In (q, e) (flat m) -> val q n = e) /\ (~ In q (map fst (flat m)) -> val q n = 0).
Proof.
  intros H P Q. assert (X : Forall (fun p : Z * Z => 0 <= snd p) (flat m)) by (eapply Forall_impl; [|exact (fo_exps _ _ H)]; cbn; intros; lia). split.
  - intros e I. rewrite <- (fo_prod _ _ H). now apply (val_pprod_in q (fun e => e)); [| | |apply (fo_nodup _ _ H)|].
  - intros I. rewrite <- (fo_prod _ _ H). now apply (val_pprod_notin q (fun e => e)).
Qed.
Lemma val_pprod_dv n m q g : factors_of n m -> primes_of m -> prime q -> 1 <= g -> val q (pprod (dv g) (flat m)) = val q n / g.
Proof.
  intros H P Q Hg. assert (X : Forall (fun p : Z * Z => 0 <= dv g (snd p)) (flat m)).
  { eapply Forall_impl; [|exact (fo_exps _ _ H)]. cbn; intros. apply Z.div_pos; lia. }
  destruct (val_factors n m q H P Q) as [V1 V2]. destruct (in_dec Z.eq_dec q (map fst (flat m))) as [I|I].
  - apply in_map_fst in I as (e & I). rewrite (V1 e I). now rewrite (val_pprod_in q (dv g) (flat m) e); [| | | |apply (fo_nodup _ _ H)|].
  - rewrite V2 by assumption. rewrite val_pprod_notin by assumption. now rewrite Z.div_0_l by lia.
Qed.
(** with prime factors the exponents left in the radicand are the remainders modulo the index *)
Lemma val_remainder n r K i m0 q : factors_of n m0 -> primes_of m0 -> prime q -> 1 <= i -> K = pprod (dv i) (flat m0) -> n = r * K ^ i -> 0 < r ->
  val q r = val q n mod i.
Proof.
  intros H P Q Hi EK En Hr. pose proof (factors_pos _ _ H) as Pn.
  assert (PK : 0 < K). { rewrite EK. apply pprod_positive; [apply (fo_vals _ _ H)|apply (fo_exps _ _ H)|]. intros e He. apply Z.div_pos; lia. }
  assert (V : val q n = val q r + i * val q K). { rewrite En at 1. rewrite val_mul, val_pow by (try assumption; try lia; apply Z.pow_nonzero; lia). reflexivity. }
  rewrite EK, (val_pprod_dv n m0 q i H P Q Hi) in V. rewrite Z.mod_eq by lia. lia.
Qed.

Lemma decompose_primes E n m : decompose E n = Ok m -> (forall l, efac E n = Ok l -> Forall prime l) -> primes_of m.
Proof.
  unfold decompose. destruct (n <=? _); [|discriminate]. intros H PF. apply bind_ok in H as (l & Hl & H). injection H as <-.
  specialize (PF l Hl). unfold primes_of. pose proof (flat_decompose l 1 []) as P. change (flat []) with (@nil (Z * Z)) in P. rewrite app_nil_r in P.
  eapply Permutation_Forall; [symmetry; exact P|]. apply Forall_forall. intros p I. apply runs_in in I. rewrite Forall_forall in PF. auto.
Qed.
Lemma canonical_one c : den c <> 0 -> canonical (Real 1 (Rat 1 1) c).
Proof.
  intros D. exists 1. cbn [rad idx coe]. split; [reflexivity|]. split; [lia|]. split; [lia|]. split; [assumption|]. split; [|split; [|auto]].
  - intros p P X. rewrite Z.pow_1_r in X. apply Z.divide_1_r_nonneg in X; destruct P; lia.
  - intros d k L X. apply Z.divide_1_r_nonneg in X; lia.
Qed.
Theorem normalize_canonical E x x' : 1 < ew E -> fac_sound E -> wf (ew E) x -> real_normalize E x = Ok x' ->
  (forall n l, 1 <= n <= num (rad x) * den (rad x) ^ (idx x - 1) -> efac E n = Ok l -> Forall prime l) -> canonical x'.
Proof.
  intros Hw FS W H PF. destruct (normalize_inv E x x' Hw FS W H) as (n & r & K & g & c & m0 & m & NR).
  destruct NR as [En EK Ep Dm0 Dm F0 Fm Qc Dc Pg Dgi Dgk Gg Ex]. destruct W as (Hi & Hn & Hd & Hcd).
  pose proof (factors_pos _ _ Fm) as Pr. pose proof (factors_pos _ _ F0) as Pn.
  assert (PK : 0 < K). { rewrite EK. apply pprod_positive; [apply (fo_vals _ _ F0)|apply (fo_exps _ _ F0)|]. intros e He. apply Z.div_pos; lia. }
  assert (PKi : 0 < K ^ idx x) by (apply Z.pow_pos_nonneg; lia). rewrite <- En in PF.
  assert (P0 : primes_of m0) by (apply (decompose_primes E n); [assumption|intros l; apply PF; lia]).
  assert (P1 : primes_of m) by (apply (decompose_primes E r); [assumption|intros l; apply PF; nia]).
  set (s := pprod (dv g) (flat m)) in *.
  assert (Ps : 0 < s). { apply pprod_positive; [apply (fo_vals _ _ Fm)|apply (fo_exps _ _ Fm)|]. intros e He. apply Z.div_pos; lia. }
  assert (Er : r = s ^ g). { rewrite <- (fo_prod _ _ Fm). apply pprod_dv_pow; [assumption|apply (fo_exps _ _ Fm)|now apply flat_div]. }
  rewrite Ex. destruct (num c =? 0) eqn:C0; [now apply canonical_one|]. apply Z.eqb_neq in C0.
  destruct (Z.eqb_spec r 1) as [R1|R1].
  { assert (S1 : s = 1). { rewrite R1 in Er. destruct (Z.eq_dec s 1); [assumption|]. assert (1 < s ^ g) by (apply Z.pow_gt_1; lia). lia. }
    rewrite S1. now apply canonical_one. }
  destruct Dgi as [j Ej]. assert (Pj : 1 <= j) by nia. assert (Dj : idx x / g = j) by (rewrite Ej, Z.div_mul; lia). rewrite Dj.
  assert (VS : forall q, prime q -> val q r = g * val q s /\ val q r < idx x).
  { intros q Q. split; [rewrite Er; rewrite val_pow by (try assumption; lia); reflexivity|].
    rewrite (val_remainder n r K (idx x) m0 q F0 P0 Q ltac:(lia) EK Ep Pr). apply Z.mod_pos_bound. lia. }
  exists s. cbn [rad idx coe]. split; [reflexivity|]. split; [lia|]. split; [assumption|]. split; [assumption|]. split; [|split; [|intros; contradiction]].
  - intros p P X. assert (1 < p) by (destruct P; lia). apply val_divide_pow in X; [|assumption|lia|lia]. destruct (VS p P) as [V1 V2]. nia.
  - intros d k Ld Dd Es. destruct Dd as [t Et].
    assert (Nk : k <> 0). { intros ->. rewrite Z.pow_0_l in Es by lia. lia. }
    destruct Gg as [Gg|Gg]; [apply R1; now apply (factors_nil r m Fm)|].
    assert (X : (d * g | g)).
    { apply Gg; [exists t; rewrite Ej, Et; ring|]. intros [e vs] I. cbn [fst].
      pose proof (fo_vecs _ _ Fm) as NV. rewrite Forall_forall in NV. specialize (NV _ I). cbn [snd] in NV. destruct vs as [|v vs]; [congruence|].
      assert (J : In (v, e) (flat m)) by (apply in_flat with (v :: vs); [assumption|now left]).
      pose proof P1 as PV. unfold primes_of in PV. rewrite Forall_forall in PV. specialize (PV _ J). cbn [fst] in PV.
      destruct (val_factors r m v Fm P1 PV) as [V1 _]. specialize (V1 e J). destruct (VS v PV) as [V2 _].
      rewrite Es, val_pow in V2 by (try assumption; lia). exists (val v k). lia. }
    apply Z.divide_pos_le in X; nia.
Qed.

(** ** uniqueness *)
Lemma canonical_trivial x m : canonical x -> rad x = Rat m 1 -> idx x = 1 -> m = 1.
Proof.
  intros (m' & E & L & _ & _ & F & _) E' I. rewrite E in E'. injection E' as ->. destruct (Z.eq_dec m 1) as [|N]; [assumption|exfalso].
  destruct (prime_divisor_exists m ltac:(lia)) as (p & P & D). apply (F p P). now rewrite I, Z.pow_1_r.
Qed.
Lemma canonical_zero x : canonical x -> rv x = 0%R -> num (coe x) = 0.
Proof.
  intros (m & E & L & _ & D & _) V. rewrite rv_root in V. apply Rmult_integral in V as [V|V]; [|pose proof (root_pos (Q2R (qv (rad x))) (idx x)); lra].
  rewrite qv_R in V by assumption. unfold Rdiv in V. apply Rmult_integral in V as [V|V]; [now apply eq_IZR in V|].
  exfalso. apply (Rinv_neq_0_compat (IZR (den (coe x)))); [now apply IZR_nz|assumption].
Qed.
(** the power that makes everything rational *)
Lemma rv_pow x m k : rad x = Rat m 1 -> 0 < m -> 1 <= idx x -> 0 <= k -> den (coe x) <> 0 ->
  (rv x ^ Z.to_nat (idx x * k) * IZR (den (coe x) ^ (idx x * k)) = IZR (num (coe x) ^ (idx x * k) * m ^ k))%R.
Proof.
  intros E Hm Hi Hk D. rewrite rv_root, E. rewrite (qv_R (Rat m 1)) by (cbn [den]; lia). cbn [num den]. unfold Rdiv at 1. rewrite Rinv_1, Rmult_1_r.
  rewrite Rpow_mult_distr. rewrite (Z2Nat.inj_mul (idx x) k) at 2 by lia. rewrite pow_mult.
  rewrite root_npow by (try apply IZR_lt; lia). rewrite (pow_IZR m). rewrite Z2Nat.id by assumption.
  rewrite qv_R by assumption. unfold Rdiv. rewrite Rpow_mult_distr. rewrite mult_IZR.
  assert (NN : 0 <= idx x * k) by nia.
  assert (P : forall z, (IZR z ^ Z.to_nat (idx x * k))%R = IZR (z ^ (idx x * k))) by (intros z; rewrite pow_IZR, Z2Nat.id by assumption; reflexivity).
  rewrite P. rewrite <- (P (den (coe x))). rewrite pow_inv.
  assert ((IZR (den (coe x)) ^ Z.to_nat (idx x * k) <> 0)%R) by (apply pow_nonzero; now apply IZR_nz). field. assumption.
Qed.
Lemma val_prod3 p a m b n k : prime p -> a <> 0 -> m <> 0 -> b <> 0 -> 0 <= n -> 0 <= k ->
  val p (a ^ n * m ^ k * b ^ n) = n * val p a + k * val p m + n * val p b.
Proof.
  intros P A M B N K. assert (a ^ n <> 0) by now apply Z.pow_nonzero. assert (m ^ k <> 0) by now apply Z.pow_nonzero. assert (b ^ n <> 0) by now apply Z.pow_nonzero.
  rewrite val_mul; [|assumption|apply Z.neq_mul_0; auto|assumption]. rewrite val_mul by assumption. now rewrite !val_pow by assumption.
Qed.
Lemma val_core i i' x y t : 1 <= i -> 1 <= i' -> 0 <= x < i -> 0 <= y < i' -> i' * x - i * y = i * i' * t -> i' * x = i * y.
Proof.
  intros A B C D E. assert (i' * x < i * i') by nia. assert (i * y < i * i') by nia. assert (0 <= i' * x) by nia. assert (0 <= i * y) by nia.
  assert (t = 0); [|nia]. set (N := i * i') in *. clearbody N. set (P := i' * x) in *. set (Q := i * y) in *. clearbody P Q. nia.
Qed.
Theorem canonical_unique x y : canonical x -> canonical y -> rv x = rv y -> idx x = idx y /\ rad x = rad y /\ (qv (coe x) == qv (coe y))%Q.
Proof.
  intros CX CY V. destruct (Z.eq_dec (num (coe x)) 0) as [X0|X0].
  - assert (VY : rv y = 0%R).
    { rewrite <- V, rv_root. destruct CX as (m & _ & _ & _ & D & _). rewrite qv_R by assumption. rewrite X0. unfold Rdiv. ring. }
    pose proof (canonical_zero y CY VY) as Y0.
    pose proof CX as (m & E & L & Hi & D & _ & _ & Z). pose proof CY as (m' & E' & L' & Hi' & D' & _ & _ & Z').
    specialize (Z X0). specialize (Z' Y0). assert (m = 1) by (now apply (canonical_trivial x)). assert (m' = 1) by (now apply (canonical_trivial y)). subst m m'.
    rewrite Z, Z', E, E'. split; [reflexivity|]. split; [reflexivity|]. unfold qv. rewrite X0, Y0. apply qdiv_eq; try assumption. ring.
  - assert (Y0 : num (coe y) <> 0).
    { intros Y0. apply X0. apply canonical_zero; [assumption|]. rewrite V, rv_root. destruct CY as (m & _ & _ & _ & D & _).
      rewrite qv_R by assumption. rewrite Y0. unfold Rdiv. ring. }
    destruct CX as (m & E & L & Hi & D & F & PP & Z). destruct CY as (m' & E' & L' & Hi' & D' & F' & PP' & Z'). clear Z Z'.
    set (i := idx x) in *. set (i' := idx y) in *. set (a := num (coe x)) in *. set (b := den (coe x)) in *. set (a' := num (coe y)) in *. set (b' := den (coe y)) in *.
    pose proof (rv_pow x m i' E ltac:(lia) Hi ltac:(lia) D) as R1. pose proof (rv_pow y m' i E' ltac:(lia) Hi' ltac:(lia) D') as R2.
    fold i a b in R1. fold i' a' b' in R2. rewrite (Z.mul_comm i' i) in R2. rewrite <- V in R2. set (N := i * i') in *.
    assert (PN : 1 <= N) by (unfold N; clear -Hi Hi'; nia).
    assert (EQ : a ^ N * m ^ i' * b' ^ N = a' ^ N * m' ^ i * b ^ N).
    { apply eq_IZR. rewrite (mult_IZR (a ^ N * m ^ i')), (mult_IZR (a' ^ N * m' ^ i)). rewrite <- R1, <- R2. ring. }
    assert (VV : forall p, prime p -> i' * val p m = i * val p m').
    { intros p P. assert (1 < p) by (destruct P; lia). apply (f_equal (val p)) in EQ.
      rewrite !val_prod3 in EQ by (try assumption; lia).
      assert (B1 : 0 <= val p m < i). { split; [apply val_nonneg; lia|]. destruct (Z.le_gt_cases i (val p m)) as [G|]; [exfalso|lia]. apply (F p P). apply val_divide_pow; lia. }
      assert (B2 : 0 <= val p m' < i'). { split; [apply val_nonneg; lia|]. destruct (Z.le_gt_cases i' (val p m')) as [G|]; [exfalso|lia]. apply (F' p P). apply val_divide_pow; lia. }
      apply (val_core i i' (val p m) (val p m') (val p a' + val p b - val p a - val p b')); try assumption. fold N.
      revert EQ. generalize (val p a) (val p a') (val p b) (val p b') (val p m) (val p m'). clear. intros. lia. }
    assert (G : exists g u v, 0 < g /\ i = g * u /\ i' = g * v /\ Z.gcd u v = 1).
    { exists (Z.gcd i i'), (i / Z.gcd i i'), (i' / Z.gcd i i').
      assert (0 < Z.gcd i i'). { pose proof (Z.gcd_nonneg i i'). assert (Z.gcd i i' <> 0) by (intros X; apply Z.gcd_eq_0_l in X; lia). lia. }
      split; [assumption|]. split; [apply Z_div_exact_full_2; [lia|]; apply Z.mod_divide; [lia|apply Z.gcd_divide_l]|].
      split; [apply Z_div_exact_full_2; [lia|]; apply Z.mod_divide; [lia|apply Z.gcd_divide_r]|]. apply Z.gcd_div_gcd; [lia|reflexivity]. }
    destruct G as (g & u & v & Pg & Ei & Ei' & Cop).
    assert (VU : forall p, prime p -> v * val p m = u * val p m').
    { intros p P. specialize (VV p P). rewrite Ei, Ei' in VV. apply Z.mul_reg_l with g; [lia|]. rewrite !Z.mul_assoc. exact VV. }
    assert (Pu : 1 <= u) by (clear -Pg Ei Hi; nia). assert (Pv : 1 <= v) by (clear -Pg Ei' Hi'; nia).
    assert (U1 : u = 1).
    { destruct (Z.eq_dec u 1) as [|Nu]; [assumption|exfalso]. destruct (val_power u m ltac:(lia) ltac:(lia)) as (k & _ & Ek).
      - intros p P. apply Z.gauss with v; [|assumption]. exists (val p m'). rewrite (VU p P). ring.
      - apply (PP u k); [lia|exists g; lia|assumption]. }
    assert (V1 : v = 1).
    { destruct (Z.eq_dec v 1) as [|Nu]; [assumption|exfalso]. destruct (val_power v m' ltac:(lia) ltac:(lia)) as (k & _ & Ek).
      - intros p P. apply Z.gauss with u; [|rewrite Z.gcd_comm; assumption]. exists (val p m). rewrite <- (VU p P). ring.
      - apply (PP' v k); [lia|exists g; lia|assumption]. }
    subst u v. assert (II : i = i') by lia. split; [assumption|].
    assert (MM : m = m'). { apply val_eq; try lia. intros p P. specialize (VU p P). lia. }
    split; [now rewrite E, E', MM|]. rewrite !rv_root in V. fold i i' in V. rewrite E, E', <- II, <- MM in V.
    apply Rmult_eq_reg_r in V; [|pose proof (root_pos (Q2R (qv (Rat m 1))) i); lra]. now apply eqR_Qeq.
Qed.
