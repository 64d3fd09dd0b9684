(** Histories of Real operations, the standard environment, equality and order, the refusal of additions, junk independence. *)
From Coq Require Import ZArith Znumtheory QArith Qreals Reals String Lia Lra Bool List.
From Verif Require Import Base AdapterModel AdapterProofs FactorizeModel FactorizeProofs4 RationalModel RationalSpec RationalProofs RationalProofs2 RealModel RealSpec Valuation RealProofs1 RealProofs2 RealProofs3 RealProofs4 RealProofs5.
Import ListNotations.
Open Scope Z_scope.

Ltac two H x y Hx Hy := apply bind_ok in H as (x & Hx & H); apply bind_ok in H as (y & Hy & H).
Lemma lrun_value E e : 1 < ew E -> fac_sound E -> fac_exact E -> lwf (ew E) e -> forall x, lrun E e = Ok x -> good (ew E) x /\ rv x = ldenotes e.
Proof.
  intros Hw FS FE. induction e as [c r i|a IHa b IHb|a IHa b IHb|a IHa b IHb|a IHa b IHb|a IHa|a IHa|a IHa n]; cbn [lwf lrun ldenotes]; intros W z H.
  - apply make_good in H as (G & _ & V); auto.
  - destruct W as [Wa Wb]. two H x y Hx Hy. apply IHa in Hx as [Ga Va]; [|assumption]. apply IHb in Hy as [Gb Vb]; [|assumption].
    apply real_add_value in H as (G & _ & V); try assumption. rewrite V, Va, Vb. auto.
  - destruct W as [Wa Wb]. two H x y Hx Hy. apply IHa in Hx as [Ga Va]; [|assumption]. apply IHb in Hy as [Gb Vb]; [|assumption].
    apply real_sub_value in H as (G & _ & V); try assumption. rewrite V, Va, Vb. auto.
  - destruct W as [Wa Wb]. two H x y Hx Hy. apply IHa in Hx as [Ga Va]; [|assumption]. apply IHb in Hy as [Gb Vb]; [|assumption].
    apply real_mul_good in H as (G & _ & V); try assumption; [|apply Ga|apply Gb]. rewrite V, Va, Vb. auto.
  - destruct W as [Wa Wb]. two H x y Hx Hy. apply IHa in Hx as [Ga Va]; [|assumption]. apply IHb in Hy as [Gb Vb]; [|assumption].
    apply real_div_value in H as (G & _ & V); try assumption; [|apply Ga]. rewrite V, Va, Vb. auto.
  - apply bind_ok in H as (x & Hx & H). apply IHa in Hx as [Ga Va]; [|assumption]. apply real_negate_value in H as (G & _ & V); try assumption; [|apply Ga]. rewrite V, Va. auto.
  - apply bind_ok in H as (x & Hx & H). apply IHa in Hx as [Ga Va]; [|assumption]. apply real_inverse_value in H as (G & _ & V); try assumption. rewrite V, Va. auto.
  - apply bind_ok in H as (x & Hx & H). apply IHa in Hx as [Ga Va]; [|assumption]. apply pow_fuel_int in H as (G & _ & _ & V); try assumption. rewrite V, Va. auto.
Qed.
Lemma lrun_canonical E e : 1 < ew E -> fac_sound E -> fac_exact E -> lwf (ew E) e -> lnormal e -> forall x, lrun E e = Ok x -> canonical x.
Proof.
  intros Hw FS FE W L z H. pose proof (lrun_value E) as LV.
  destruct e as [c r i|a b|a b|a b|a b|a|a|a n]; cbn [lwf lrun lnormal] in *; try contradiction.
  - now apply make_good in H as (_ & C & _).
  - destruct W as [Wa Wb]. two H x y Hx Hy. apply LV in Hx as [Ga _]; try assumption. apply LV in Hy as [Gb _]; try assumption. now apply real_add_value in H as (_ & C & _).
  - destruct W as [Wa Wb]. two H x y Hx Hy. apply LV in Hx as [Ga _]; try assumption. apply LV in Hy as [Gb _]; try assumption. now apply real_sub_value in H as (_ & C & _).
  - destruct W as [Wa Wb]. two H x y Hx Hy. apply LV in Hx as [Ga _]; try assumption. apply LV in Hy as [Gb _]; try assumption.
    apply real_mul_good in H as (_ & C & _); try assumption; [apply Ga|apply Gb].
  - destruct W as [Wa Wb]. two H x y Hx Hy. apply LV in Hx as [Ga _]; try assumption. apply LV in Hy as [Gb _]; try assumption.
    apply real_div_value in H as (_ & C & _); try assumption. apply Ga.
  - apply bind_ok in H as (x & Hx & H). apply LV in Hx as [Ga Va]; try assumption. apply real_negate_value in H as (_ & C & _); try assumption. apply Ga.
Qed.

(** ** the standard environment *)
Lemma std_sound w i128 rnd fuel junk : fac_sound (std_env w i128 rnd fuel junk).
Proof.
  intros n l H. cbn [efac std_env ew] in *. destruct (n <? 9006401); [|discriminate]. apply bind_ok in H as ([l' k'] & H & R). injection R as ->. exists i128, rnd, fuel, 0%nat, k'. assumption.
Qed.
Lemma std_exact w i128 rnd fuel junk : 26 <= w -> fac_exact (std_env w i128 rnd fuel junk).
Proof.
  intros Hw n l H Hn. cbn [efac std_env] in H. destruct (Z.ltb_spec n 9006401) as [L|]; [|discriminate]. apply bind_ok in H as ([l' k'] & H & R). injection R as ->.
  assert (L2 : 9006401 <= 2 ^ (w - 2)) by (transitivity (2 ^ 24); [lia|apply Z.pow_le_mono_r; lia]).
  apply factorize_spec in H as (fs & P & Z & F); [|lia|lia]. rewrite app_nil_r in P. apply Forall_forall. intros p I. apply (Permutation.Permutation_in _ P) in I.
  rewrite Forall_forall in F. destruct (F p I) as [P1 P2]. assert (p <= n).
  { subst n. clear -F I P1 Hn. induction fs as [|q fs IH]; [destruct I|]. cbn [zprod fold_right] in *. change (fold_right Z.mul 1 fs) with (zprod fs) in *.
    assert (1 < q) by (apply F; now left). assert (1 <= zprod fs) by nia. destruct I as [->|I]; [nia|]. assert (p <= zprod fs) by (apply IH; auto; intros; apply F; now right). nia. }
  apply (is_prime_exact w i128 p true); [lia|lia|assumption|reflexivity].
Qed.

(** ** == *)
Lemma real_eq_value w x y t : canonical x -> canonical y -> real_eq w x y = Ok t -> (t = true <-> rv x = rv y).
Proof.
  intros Cx Cy H. unfold real_eq in H. pose proof Cx as (m & Ex & _ & _ & Dx & _). pose proof Cy as (n & Ey & _ & _ & Dy & _).
  apply bind_ok in H as (c & Hc & H). apply rat_eq_exact in Hc; [|assumption|assumption].
  assert (U : rv x = rv y -> idx x = idx y /\ rad x = rad y /\ (qv (coe x) == qv (coe y))%Q) by (apply canonical_unique; assumption).
  destruct c; cbn [negb] in H.
  - apply bind_ok in H as (r & Hr & H). apply rat_eq_exact in Hr; [|rewrite Ex; cbn; lia|rewrite Ey; cbn; lia]. injection H as <-. rewrite andb_true_iff, Hr, Z.eqb_eq. split.
    + intros [Q I]. rewrite !rv_root. rewrite (Q2R_eq _ _ (proj1 Hc eq_refl)), (Q2R_eq _ _ Q), I. reflexivity.
    + intros V. destruct (U V) as (I & R & _). rewrite R. split; [reflexivity|assumption].
  - injection H as <-. split; [discriminate|]. intros V. destruct (U V) as (_ & _ & Q). apply Hc. assumption.
Qed.

(** ** order *)
Lemma power_form_inv w c r i j x : 1 < w -> power_form w c r (i * j) j = Ok x -> 0 < num c -> 0 < den c -> 0 < num r -> 0 < den r -> 1 <= i -> 1 <= j -> i * j < 2 ^ w ->
  0 < den x /\ Q2R (qv x) = ((Q2R (qv c) * root (Q2R (qv r)) i) ^ Z.to_nat (i * j))%R.
Proof.
  intros Hw H Nc Dc Nr Dr Hi Hj B. unfold power_form in H. apply bind_ok in H as (e & He & H). apply of_index_inv in He as ->. apply bind_ok in H as (u & Hu & H).
  apply bind_ok in H as (f & Hf & H). apply of_index_inv in Hf as ->. apply bind_ok in H as (v & Hv & H).
  pose proof (rpow_inv _ _ _ _ Hu ltac:(lia)) as (S1 & _ & _ & D1 & _). pose proof (rpow_inv _ _ _ _ Hv ltac:(lia)) as (S2 & _ & _ & D2 & _).
  rewrite swrap_nonneg in Hu by (try assumption; nia). rewrite swrap_nonneg in Hv by (try assumption; nia).
  apply rpow_R in Hu; [|lia]. apply rpow_R in Hv; [|lia]. pose proof (rat_mul_pos _ _ _ _ H) as P. apply rat_mul_exact in H as (_ & _ & _ & Q).
  split; [apply P; apply Z.mul_pos_pos; auto|]. rewrite (Q2R_eq _ _ Q), Q2R_mult, Hu, Hv, Rpow_mult_distr. f_equal.
  rewrite Z2Nat.inj_mul by lia. rewrite pow_mult, root_npow; [reflexivity| |assumption]. rewrite qv_R by lia. apply Rdiv_lt_0_compat; now apply IZR_lt.
Qed.
Lemma pow_lt_iff x y n : (0 < x)%R -> (0 < y)%R -> 1 <= n -> (x ^ Z.to_nat n < y ^ Z.to_nat n <-> x < y)%R.
Proof.
  intros Hx Hy Hn. rewrite <- !Rpower_pow by assumption. rewrite INR_IZR_INZ, Z2Nat.id by lia.
  assert (0 < IZR n)%R by (apply IZR_lt; lia). split; intros L.
  - destruct (Rtotal_order x y) as [T|[T|T]]; [assumption|subst; lra|]. pose proof (Rlt_Rpower_l y x (IZR n) ltac:(assumption) (conj Hy T)); lra.
  - apply Rlt_Rpower_l; auto.
Qed.
Lemma Q2R_lt_iff a b : (a < b)%Q <-> (Q2R a < Q2R b)%R.
Proof. split; [apply Qlt_Rlt|apply Rlt_Qlt]. Qed.
Definition sgn_ok (x : real) : Prop := 0 < den (coe x) /\ (num (coe x) = 0 -> idx x = 1).
Lemma rat_le0 w p b : rat_le w p (Rat 0 1) = Ok b -> b = (num p <=? 0).
Proof.
  unfold rat_le. intros H. apply bind_ok in H as (c & Hc & H). apply rat_cmp_inv in Hc. cbn [num den] in Hc. rewrite Z.mul_1_r, Z.mul_0_l in Hc. subst c.
  injection H as <-. reflexivity.
Qed.
Lemma rat_ge0 w p b : rat_ge w p (Rat 0 1) = Ok b -> b = (0 <=? num p).
Proof.
  unfold rat_ge. intros H. apply bind_ok in H as (c & Hc & H). apply rat_cmp_inv in Hc. cbn [num den] in Hc. rewrite Z.mul_1_r, Z.mul_0_l in Hc. subst c.
  injection H as <-. rewrite Z.compare_antisym. unfold Z.leb. now destruct (0 ?= num p).
Qed.
Lemma rv_sign x : 0 < den (coe x) -> (num (coe x) < 0 <-> (rv x < 0)%R) /\ (0 < num (coe x) <-> (0 < rv x)%R) /\ (num (coe x) = 0 <-> rv x = 0%R).
Proof.
  intros D. assert (V : rv x = (IZR (num (coe x)) * (/ IZR (den (coe x)) * radical x))%R) by (rewrite rv_radical, qv_R by lia; unfold Rdiv; ring).
  assert (P : (0 < / IZR (den (coe x)) * radical x)%R) by (apply Rmult_lt_0_compat; [apply Rinv_0_lt_compat; now apply IZR_lt|apply radical_pos]).
  rewrite V. clear V. generalize dependent (/ IZR (den (coe x)) * radical x)%R. intros k K. generalize (num (coe x)). intros n.
  assert (A : n < 0 -> (IZR n * k < 0)%R) by (intros L; apply IZR_lt in L; nra).
  assert (B : 0 < n -> (0 < IZR n * k)%R) by (intros L; apply IZR_lt in L; nra).
  assert (C : n = 0 -> (IZR n * k = 0)%R) by (intros ->; ring).
  assert (T : n < 0 \/ n = 0 \/ 0 < n) by lia.
  split; [|split]; (split; [auto|]); intros L; destruct T as [T|[T|T]]; auto; try (specialize (A T); lra); try (specialize (B T); lra); specialize (C T); lra.
Qed.
Lemma real_lt_value w a b t : 1 < w -> good w a -> good w b -> sgn_ok a -> sgn_ok b -> idx a * idx b < 2 ^ w -> real_lt w a b = Ok t -> (t = true <-> (rv a < rv b)%R).
Proof.
  intros Hw [Wa Ga] [Wb Gb] [Da Za] [Db Zb] B H. pose proof Wa as (Ia & Na & Ra & _). pose proof Wb as (Ib & Nb & Rb & _). unfold real_lt in H.
  apply bind_ok in H as (e & He & H). destruct e.
  { injection H as <-. split; [discriminate|]. intros L. exfalso. unfold real_eq in He. apply bind_ok in He as (c & Hc & He). destruct c; cbn [negb] in He; [|discriminate].
    apply bind_ok in He as (r & Hr & He). injection He as He. apply andb_true_iff in He as [-> I]. apply Z.eqb_eq in I.
    apply rat_eq_exact in Hc; [|lia|lia]. apply rat_eq_exact in Hr; [|lia|lia].
    apply (Rlt_irrefl (rv a)). rewrite rv_root in L. rewrite (Q2R_eq _ _ (proj1 Hc eq_refl)), (Q2R_eq _ _ (proj1 Hr eq_refl)), I in L. rewrite rv_root at 2. rewrite (Q2R_eq _ _ (proj1 Hc eq_refl)), (Q2R_eq _ _ (proj1 Hr eq_refl)), I.
    rewrite (rv_root a), (Q2R_eq _ _ (proj1 Hc eq_refl)), (Q2R_eq _ _ (proj1 Hr eq_refl)), I. exact L. }
  apply bind_ok in H as (al & Hal & H). apply rat_le0 in Hal. apply bind_ok in H as (ag & Hag & H). apply rat_ge0 in Hag.
  apply bind_ok in H as (bl & Hbl & H). apply rat_le0 in Hbl. apply bind_ok in H as (bg & Hbg & H). apply rat_ge0 in Hbg.
  destruct (rv_sign a Da) as (A1 & A2 & A3). destruct (rv_sign b Db) as (B1 & B2 & B3).
  assert (NZ : ~ (num (coe a) = 0 /\ num (coe b) = 0)).
  { intros [Z1 Z2]. specialize (Ga (Za Z1)). specialize (Gb (Zb Z2)). unfold real_eq in He. apply bind_ok in He as (c & Hc & He). apply rat_eq_inv in Hc. rewrite Z1, Z2, !Z.mul_0_l in Hc. subst c. cbn [negb Z.eqb] in He.
    apply bind_ok in He as (r & Hr & He). apply rat_eq_inv in Hr. rewrite Ga, Gb, Z.mul_comm, Z.eqb_refl in Hr. subst r. rewrite (Za Z1), (Zb Z2) in He. discriminate. }
  destruct (al && bg)%bool eqn:T1.
  { injection H as <-. apply andb_true_iff in T1 as [-> ->]. symmetry in Hal, Hbg. apply Z.leb_le in Hal, Hbg. split; [intros _|auto].
    assert (rv a <= 0)%R by (destruct (Z.eq_dec (num (coe a)) 0) as [e|e]; [apply A3 in e; lra|]; assert (num (coe a) < 0) as l by lia; apply A1 in l; lra).
    assert (0 <= rv b)%R by (destruct (Z.eq_dec (num (coe b)) 0) as [e|e]; [apply B3 in e; lra|]; assert (0 < num (coe b)) as l by lia; apply B2 in l; lra).
    destruct (Rle_lt_dec (rv b) (rv a)); [|assumption]. exfalso. apply NZ. split; [apply A3|apply B3]; lra. }
  destruct (ag && bl)%bool eqn:T2.
  { injection H as <-. apply andb_true_iff in T2 as [-> ->]. symmetry in Hag, Hbl. apply Z.leb_le in Hag, Hbl. split; [discriminate|intros L; exfalso].
    assert (0 <= rv a)%R by (destruct (Z.eq_dec (num (coe a)) 0) as [e|e]; [apply A3 in e; lra|]; assert (0 < num (coe a)) as l by lia; apply A2 in l; lra).
    assert (rv b <= 0)%R by (destruct (Z.eq_dec (num (coe b)) 0) as [e|e]; [apply B3 in e; lra|]; assert (num (coe b) < 0) as l by lia; apply B1 in l; lra). lra. }
  cbv zeta in H. unfold uwrap in H. rewrite (Z.mul_comm (idx b)), Z.mod_small in H by nia.
  destruct (al && bl)%bool eqn:T3.
  - apply andb_true_iff in T3 as [-> ->]. rewrite andb_false_iff in T1, T2. destruct T1 as [T1|T1]; [discriminate|]. destruct T2 as [T2|T2]; [|discriminate].
    rewrite T1 in Hbg. rewrite T2 in Hag. symmetry in Hbg, Hag. apply Z.leb_gt in Hbg, Hag.
    apply bind_ok in H as (ca & Hca & H). apply bind_ok in H as (cb & Hcb & H). apply bind_ok in H as (x & Hx & H). apply bind_ok in H as (y & Hy & H).
    pose proof (negate_den _ _ _ Da Hca) as [[Pa _] Ea]. pose proof (negate_den _ _ _ Db Hcb) as [[Pb _] Eb].
    apply rat_negate_exact in Hca as [_ Qa]; [|lia]. apply rat_negate_exact in Hcb as [_ Qb]; [|lia].
    apply power_form_inv in Hx as [Dx Vx]; try assumption; try lia; try nia.
    rewrite Z.mul_comm in Hy. apply power_form_inv in Hy as [Dy Vy]; try assumption; try lia; try nia.
    rewrite (Q2R_eq _ _ Qa), Q2R_opp in Vx. rewrite (Q2R_eq _ _ Qb), Q2R_opp, (Z.mul_comm (idx b)) in Vy.
    replace (- Q2R (qv (coe a)) * root (Q2R (qv (rad a))) (idx a))%R with (- rv a)%R in Vx by (rewrite rv_root; ring).
    replace (- Q2R (qv (coe b)) * root (Q2R (qv (rad b))) (idx b))%R with (- rv b)%R in Vy by (rewrite rv_root; ring).
    apply A1 in Hag. apply B1 in Hbg. unfold rat_gt in H. apply bind_ok in H as (c & Hc & H). apply rat_cmp_same_sign in Hc; [|now apply Z.mul_pos_pos].
    pose proof (pow_lt_iff (- rv b) (- rv a) (idx a * idx b) ltac:(lra) ltac:(lra) ltac:(nia)) as PL. rewrite <- Vx, <- Vy, <- Q2R_lt_iff in PL.
    assert (NN : (- rv b < - rv a <-> rv a < rv b)%R) by lra. rewrite <- NN, <- PL. injection H as <-. rewrite Qgt_alt, <- Hc. destruct c; split; congruence.
  - assert (SA : 0 < num (coe a) /\ 0 < num (coe b)).
    { rewrite Hal, Hag, Hbl, Hbg in *. clear -T1 T2 T3. rewrite !andb_false_iff, !Z.leb_gt in *. lia. }
    destruct SA as [SA SB]. apply bind_ok in H as (x & Hx & H). apply bind_ok in H as (y & Hy & H).
    apply power_form_inv in Hx as [Dx Vx]; try assumption; try lia.
    rewrite Z.mul_comm in Hy. apply power_form_inv in Hy as [Dy Vy]; try assumption; try lia.
    rewrite <- rv_root in Vx, Vy. rewrite (Z.mul_comm (idx b)) in Vy. apply rat_lt_exact in H; [|assumption|assumption]. rewrite H, Q2R_lt_iff, Vx, Vy.
    apply A2 in SA. apply B2 in SB. apply pow_lt_iff; try assumption. nia.
Qed.
