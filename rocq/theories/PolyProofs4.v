(** solve_variable_eq; the multinomial theorem; powers of polynomials. *)
From Coq Require Import ZArith Znumtheory QArith Qreals Reals String Lia Lra Bool List Permutation.
From Verif Require Import Base AdapterModel AdapterProofs RationalModel RationalSpec RationalProofs RationalProofs2 RealModel RealSpec RealProofs1 RealProofs2 RealProofs3 RealProofs4 RealProofs5 RealProofs6 PolyModel PolySpec PolyProofs1 PolyProofs2 PolyProofs3.
Import ListNotations.
Open Scope Z_scope.

(** ** solve_variable_eq *)
Fixpoint sols (k : nat) (n : Z) : list (list Z) :=
  match k with
  | O => map (fun i => [Z.of_nat i; n - Z.of_nat i]) (seq 0 (Z.to_nat (n + 1)))
  | S k' => flat_map (fun i => map (cons (Z.of_nat i)) (sols k' (n - Z.of_nat i))) (seq 0 (Z.to_nat (n + 1)))
  end.
Lemma solve_helper_inv w n l : solve_helper w n = Ok l -> - 2 ^ (w - 1) <= n + 1 < 2 ^ (w - 1) /\ l = map (fun i => [Z.of_nat i; n - Z.of_nat i]) (seq 0 (Z.to_nat (n + 1))).
Proof. unfold solve_helper. intros H. apply bind_ok in H as (k & Hk & H). apply chk_inv in Hk as [-> B]. injection H as <-. auto. Qed.
Lemma solve_sols w : forall fuel k n l, solve_variable_eq w fuel n (Z.of_nat k + 2) = Ok l -> - 2 ^ (w - 1) <= n + 1 < 2 ^ (w - 1) /\ l = sols k n.
Proof.
  induction fuel as [|f IH]; intros k n l H; cbn [solve_variable_eq] in H.
  - destruct (Z.eqb_spec (Z.of_nat k + 2) 2); [|discriminate]. assert (k = 0%nat) as -> by lia. now apply solve_helper_inv.
  - destruct (Z.eqb_spec (Z.of_nat k + 2) 2) as [E|E]; [assert (k = 0%nat) as -> by lia; now apply solve_helper_inv|]. destruct k as [|k]; [lia|]. replace (Z.of_nat (S k) + 2 - 1) with (Z.of_nat k + 2) in H by lia.
    apply bind_ok in H as (tmp & Ht & H). apply solve_helper_inv in Ht as [B ->]. split; [assumption|]. cbn [sols]. clear B. revert l H. generalize (seq 0 (Z.to_nat (n + 1))). induction l as [|i l IHl]; intros r H; cbn [map flat_map] in *; [now injection H as <-|].
    cbn [nth] in H. apply bind_ok in H as (t & Ht & H). apply bind_ok in H as (r' & Hr & H). injection H as <-. apply IH in Ht as [_ ->]. f_equal. now apply IHl.
Qed.
Lemma solve_never w : forall fuel n m l, m < 2 -> 0 <= n -> solve_variable_eq w fuel n m <> Ok l.
Proof.
  induction fuel as [|f IH]; intros n m l Hm Hn H; cbn [solve_variable_eq] in H.
  - destruct (Z.eqb_spec m 2); [lia|discriminate].
  - destruct (Z.eqb_spec m 2); [lia|]. apply bind_ok in H as (tmp & Ht & H). apply solve_helper_inv in Ht as [_ ->]. replace (Z.to_nat (n + 1)) with (S (Z.to_nat n)) in H by lia. cbn [seq map nth] in H.
    apply bind_ok in H as (t & Ht & H). revert Ht. apply IH; lia.
Qed.
Lemma solve_total w : forall fuel k n, 0 <= n -> n + 1 < 2 ^ (w - 1) -> (k <= fuel)%nat -> exists l, solve_variable_eq w fuel n (Z.of_nat k + 2) = Ok l.
Proof.
  assert (HH : forall n, 0 <= n -> n + 1 < 2 ^ (w - 1) -> solve_helper w n = Ok (map (fun i => [Z.of_nat i; n - Z.of_nat i]) (seq 0 (Z.to_nat (n + 1))))).
  { intros n H1 H2. unfold solve_helper. rewrite chk_ok by lia. reflexivity. }
  induction fuel as [|f IH]; intros k n Hn B L; cbn [solve_variable_eq].
  - assert (k = 0%nat) as -> by lia. cbn [Z.of_nat Z.add Z.eqb Pos.eqb]. rewrite HH by lia. eauto.
  - destruct (Z.eqb_spec (Z.of_nat k + 2) 2) as [E|E]; [rewrite HH by lia; eauto|]. destruct k as [|k]; [lia|]. replace (Z.of_nat (S k) + 2 - 1) with (Z.of_nat k + 2) by lia. rewrite HH by lia. cbn [bind].
    assert (F : Forall (fun i => Z.of_nat i <= n) (seq 0 (Z.to_nat (n + 1)))) by (rewrite Forall_forall; intros i I; apply in_seq in I; lia).
    revert F. generalize (seq 0 (Z.to_nat (n + 1))). induction l as [|i l IHl]; intros F; cbn [map nth]; [eauto|]. inversion F; subst. destruct (IH k (n - Z.of_nat i)) as [t ->]; [lia|lia|lia|]. cbn [bind]. destruct IHl as [r ->]; [assumption|]. cbn [bind]. eauto.
Qed.
Lemma sols_in k : forall n v, In v (sols k n) <-> solution n (Z.of_nat k + 2) v.
Proof.
  unfold solution. induction k as [|k IH]; intros n v; cbn [sols].
  - rewrite in_map_iff. split.
    + intros (i & <- & I). apply in_seq in I. cbn. repeat split; [repeat constructor; lia|lia].
    + intros (L & F & S). destruct v as [|a [|b [|]]]; cbn [length] in L; try lia. inversion F as [|? ? F1 F2]; subst. inversion F2; subst. cbn [fold_right]. exists (Z.to_nat a). rewrite in_seq. split; [|lia]. repeat f_equal; lia.
  - rewrite in_flat_map. split.
    + intros (i & I & H). apply in_seq in I. apply in_map_iff in H as (v' & <- & H). apply IH in H as (L & F & S). cbn [length fold_right]. repeat split; [lia|constructor; [lia|assumption]|lia].
    + intros (L & F & S). destruct v as [|a v]; cbn [length] in L; [lia|]. inversion F as [|? ? F1 F2]; subst. cbn [fold_right]. assert (0 <= fold_right Z.add 0 v) by (clear -F2; induction F2; cbn; lia). exists (Z.to_nat a). rewrite in_seq. split; [lia|]. rewrite in_map_iff. exists v. split; [f_equal; lia|]. apply IH. repeat split; [lia|assumption|lia].
Qed.
Lemma nodup_flat_map {A B} (f : A -> list B) l : NoDup l -> (forall a, In a l -> NoDup (f a)) -> (forall a b x, In a l -> In b l -> In x (f a) -> In x (f b) -> a = b) -> NoDup (flat_map f l).
Proof.
  induction l as [|a l IH]; intros N F D; cbn [flat_map]; [constructor|]. inversion N as [|? ? X Y]; subst. assert (N1 : NoDup (f a)) by (apply F; now left). assert (N2 : NoDup (flat_map f l)).
  { apply IH; [assumption|intros; apply F; now right|intros; eapply D; eauto; now right]. }
  assert (DJ : forall x, In x (f a) -> ~ In x (flat_map f l)).
  { intros x I J. apply in_flat_map in J as (b & Hb & J). assert (a = b) by (eapply D; eauto; [now left|now right]). subst b. contradiction. }
  clear -N1 N2 DJ. induction (f a) as [|x r IHr]; cbn [app]; [assumption|]. inversion N1; subst. constructor.
  - rewrite in_app_iff. intros [?|?]; [contradiction|]. apply (DJ x); [now left|assumption].
  - apply IHr; [assumption|]. intros y I. apply DJ. now right.
Qed.
Lemma sols_nodup k : forall n, NoDup (sols k n).
Proof.
  induction k as [|k IH]; intros n; cbn [sols].
  - apply FinFun.Injective_map_NoDup; [|apply seq_NoDup]. intros a b H. injection H. lia.
  - apply nodup_flat_map; [apply seq_NoDup| |].
    + intros i _. apply FinFun.Injective_map_NoDup; [|apply IH]. intros a b H. now injection H.
    + intros a b x _ _ I J. apply in_map_iff in I as (u & <- & _). apply in_map_iff in J as (v & E & _). injection E. lia.
Qed.

(** ** the multinomial theorem *)
Definition rsum {A} (f : A -> R) (l : list A) : R := fold_right (fun a s => f a + s)%R 0%R l.
Lemma rsum_app {A} (f : A -> R) a b : rsum f (a ++ b) = (rsum f a + rsum f b)%R.
Proof. induction a as [|x a IH]; unfold rsum in *; cbn [app fold_right]; [ring|]. rewrite IH. ring. Qed.
Lemma rsum_map {A B} (f : B -> R) (g : A -> B) l : rsum f (map g l) = rsum (fun a => f (g a)) l.
Proof. induction l as [|x l IH]; unfold rsum in *; cbn; congruence. Qed.
Lemma rsum_flat {A B} (f : B -> R) (g : A -> list B) l : rsum f (flat_map g l) = rsum (fun a => rsum f (g a)) l.
Proof. induction l as [|x l IH]; cbn [flat_map]; [reflexivity|]. rewrite rsum_app, IH. reflexivity. Qed.
Lemma rsum_ext {A} (f g : A -> R) l : (forall a, In a l -> f a = g a) -> rsum f l = rsum g l.
Proof. induction l as [|x l IH]; intros H; unfold rsum in *; cbn [fold_right]; [reflexivity|]. rewrite IH by (intros; apply H; now right). now rewrite H by now left. Qed.
Lemma rsum_scale {A} c (f : A -> R) l : rsum (fun a => c * f a)%R l = (c * rsum f l)%R.
Proof. induction l as [|x l IH]; unfold rsum in *; cbn [fold_right]; [ring|]. rewrite IH. ring. Qed.
Lemma rsum_seq f n : rsum f (seq 0 (S n)) = sum_f_R0 f n.
Proof. induction n as [|n IH]; [cbn; ring|]. rewrite seq_S, rsum_app, IH. cbn. ring. Qed.
Lemma binomial_div x y n : rsum (fun i => x ^ i / INR (fact i) * (y ^ (n - i) / INR (fact (n - i))))%R (seq 0 (S n)) = ((x + y) ^ n / INR (fact n))%R.
Proof.
  rewrite rsum_seq, binomial. unfold Rdiv at 3. rewrite Rmult_comm, scal_sum. apply sum_eq. intros i Hi. unfold C. field. repeat split; apply INR_fact_neq_0.
Qed.
Fixpoint mono (xs : list R) (v : list Z) : R :=
  match xs, v with x :: xs', e :: v' => (x ^ Z.to_nat e / INR (fact (Z.to_nat e)) * mono xs' v')%R | _, _ => 1%R end.
Lemma multinomial_sum k : forall xs n, length xs = (k + 2)%nat -> rsum (mono xs) (sols k (Z.of_nat n)) = (fold_right Rplus 0 xs ^ n / INR (fact n))%R.
Proof.
  induction k as [|k IH]; intros xs n L; cbn [sols]; replace (Z.to_nat (Z.of_nat n + 1)) with (S n) by lia.
  - destruct xs as [|x [|y [|]]]; cbn [length] in L; try lia. rewrite rsum_map. cbn [fold_right]. rewrite Rplus_0_r, <- binomial_div. apply rsum_ext. intros i I. apply in_seq in I. cbn [mono]. rewrite Nat2Z.id. replace (Z.to_nat (Z.of_nat n - Z.of_nat i)) with (n - i)%nat by lia. ring.
  - destruct xs as [|x xs]; cbn [length] in L; [lia|]. rewrite rsum_flat. cbn [fold_right]. rewrite <- binomial_div. apply rsum_ext. intros i I. apply in_seq in I. rewrite rsum_map.
    replace (Z.of_nat n - Z.of_nat i) with (Z.of_nat (n - i)) by lia. rewrite <- IH by lia. rewrite <- rsum_scale. apply rsum_ext. intros v _. cbn [mono]. now rewrite Nat2Z.id.
Qed.

(** ** the coefficients *)
Lemma div_fact_value w : 1 < w -> forall k q t q', Z.of_nat t + Z.of_nat k < 2 ^ (w - 1) -> den q <> 0 -> div_fact w q (Z.of_nat t + 1) k = Ok q' ->
  den q' <> 0 /\ (Q2R (qv q') * INR (fact (t + k)) = Q2R (qv q) * INR (fact t))%R.
Proof.
  intros Hw. induction k as [|k IH]; intros q t q' B D H; cbn [div_fact] in H.
  - injection H as <-. rewrite Nat.add_0_r. auto.
  - apply bind_ok in H as (d & Hd & H). apply bind_ok in H as (q1 & Hq & H). unfold rat_of_index in Hd. apply of_int_inv in Hd. rewrite swrap_small' in Hd by lia. subst d.
    apply rat_div_exact in Hq as (D1 & _ & V); [|cbn; lia]. replace (Z.of_nat t + 1 + 1) with (Z.of_nat (S t) + 1) in H by lia. apply IH in H as [D' V']; [|lia|assumption]. split; [assumption|].
    replace (t + S k)%nat with (S t + k)%nat by lia. rewrite V'. rewrite (Q2R_eq _ _ V). unfold Qdiv. rewrite Q2R_mult. rewrite fact_simpl, mult_INR.
    assert (NZ : INR (S t) <> 0%R) by (apply not_0_INR; lia).
    rewrite Q2R_inv.
    + rewrite (qv_R (Rat (Z.of_nat t + 1) 1)) by (cbn; lia). cbn [num den]. replace (Z.of_nat t + 1) with (Z.of_nat (S t)) by lia. rewrite <- INR_IZR_INZ. field. assumption.
    + intros E. assert (E2 : inject_Z (Z.of_nat t + 1) == inject_Z 0) by (rewrite <- E; unfold qv, Qdiv; cbn [num den]; now rewrite Qmult_1_r). unfold Qeq, inject_Z in E2. cbn [Qnum Qden] in E2. lia.
Qed.
Fixpoint vfacts (v : list Z) : R := match v with [] => 1%R | e :: v' => (INR (fact (Z.to_nat e)) * vfacts v')%R end.
Lemma div_facts_value w : 1 < w -> forall v q q', Forall (fun e => 0 <= e < 2 ^ (w - 1)) v -> den q <> 0 -> div_facts w q v = Ok q' -> den q' <> 0 /\ (Q2R (qv q') * vfacts v = Q2R (qv q))%R.
Proof.
  intros Hw. induction v as [|e v IH]; intros q q' F D H; cbn [div_facts vfacts] in *.
  - injection H as <-. split; [assumption|ring].
  - inversion F as [|? ? F1 F2]; subst. apply bind_ok in H as (q1 & Hq & H). apply (div_fact_value w Hw _ _ 0) in Hq as [D1 V1]; [|lia|assumption]. apply IH in H as [D' V']; try assumption. split; [assumption|].
    cbn [Nat.add] in V1. cbn [fact INR] in V1. rewrite Rmult_1_r in V1. rewrite <- V1, <- V'. ring.
Qed.
Lemma wfact_exact w : forall n, Z.of_nat (fact n) < 2 ^ (w - 1) -> 1 < w -> wfact w n = Z.of_nat (fact n).
Proof.
  induction n as [|n IH]; intros B Hw; [reflexivity|]. cbn [wfact]. assert (L : (fact n <= fact (S n))%nat) by (apply fact_le; lia). rewrite IH by lia. rewrite fact_simpl in *. rewrite Nat2Z.inj_mul in *. unfold uwrap. apply Z.mod_small. split; [lia|]. assert (2 ^ w = 2 * 2 ^ (w - 1)) by (rewrite <- Z.pow_succ_r by lia; f_equal; lia). lia.
Qed.
Lemma mul_powers_value E s : okenv E -> forall l v acc t, twf (ew E) acc -> tadm s acc -> pwf (ew E) l -> padm s l -> Forall (fun e => 0 <= e) v -> length v = length l -> mul_powers E acc l v = Ok t ->
  twf (ew E) t /\ tadm s t /\ tv s t = (tv s acc * (mono (map (tv s) l) v * vfacts v))%R.
Proof.
  intros O. induction l as [|a l IH]; intros v acc t Wc Ac Wl Al F L H; cbn [mul_powers] in H.
  - injection H as <-. destruct v; [|discriminate]. split; [assumption|]. split; [assumption|]. cbn. ring.
  - destruct v as [|e v]; [discriminate|]. inversion Wl; subst. inversion Al; subst. inversion F as [|? ? F1 F2]; subst. cbn [length] in L. apply bind_ok in H as (q & Hq & H). apply of_int_inv in Hq as ->. apply bind_ok in H as (p & Hp & H). apply bind_ok in H as (c & Hc & H).
    apply (term_pow_int E s) in Hp as (Wp & _ & Ap & Vp); try assumption. apply (term_mul_value E s) in Hc as (Wc' & _ & _ & Ac' & Vc'); try assumption. apply IH in H as (W & A & V); try assumption; [|lia]. split; [assumption|]. split; [assumption|].
    rewrite V, Vc', Vp. cbn [map mono vfacts]. field. apply INR_fact_neq_0.
Qed.
Lemma vfacts_nz v : vfacts v <> 0%R.
Proof. induction v; cbn; [lra|]. apply Rmult_integral_contrapositive. split; [apply INR_fact_neq_0|assumption]. Qed.
Lemma multinomial_value E s a n v t : okenv E -> pwf (ew E) a -> padm s a -> Forall (fun e => 0 <= e < 2 ^ (ew E - 1)) v -> length v = length a -> Z.of_nat (fact n) < 2 ^ (ew E - 1) ->
  multinomial E a (Z.of_nat (fact n)) v = Ok t -> twf (ew E) t /\ tadm s t /\ tv s t = (INR (fact n) * mono (map (tv s) a) v)%R.
Proof.
  intros O W A F L B H. pose proof O as (Hw & _). unfold multinomial in H. apply bind_ok in H as (q0 & H0 & H). apply bind_ok in H as (q & Hq & H). apply bind_ok in H as (c & Hc & H).
  unfold rat_of_index in H0. apply of_int_inv in H0. rewrite swrap_small' in H0 by lia. subst q0. apply div_facts_value in Hq as [Dq Vq]; try assumption; [|cbn; lia].
  apply of_rat_value in Hc as (Gc & _ & Vc); try assumption. destruct (const_value (ew E) s c Gc) as (X & Y & Z). apply (mul_powers_value E s) in H as (W' & A' & V'); try assumption; [|eapply Forall_impl; [|exact F]; cbn; lia]. split; [assumption|]. split; [assumption|].
  rewrite V', Z, Vc. assert (E0 : (Q2R (qv q) * vfacts v = INR (fact n))%R). { rewrite Vq, qv_R by (cbn; lia). cbn [num den]. rewrite <- INR_IZR_INZ. field. }
  rewrite <- E0. ring.
Qed.

(** ** pow *)
Lemma le_sum v e : Forall (fun a => 0 <= a) v -> In e v -> e <= fold_right Z.add 0 v.
Proof.
  induction 1 as [|a v Ha F IH]; [intros []|]. assert (0 <= fold_right Z.add 0 v) by (clear -F; induction F; cbn; lia). intros [<-|I]; cbn [fold_right]; [lia|specialize (IH I); lia].
Qed.
Lemma multinomials_value E s a n vs : okenv E -> pwf (ew E) a -> padm s a -> Z.of_nat (fact n) < 2 ^ (ew E - 1) ->
  Forall (fun v => Forall (fun e => 0 <= e < 2 ^ (ew E - 1)) v /\ length v = length a) vs -> forall l, mapr (multinomial E a (Z.of_nat (fact n))) vs = Ok l ->
  pwf (ew E) l /\ padm s l /\ pv s l = rsum (fun v => INR (fact n) * mono (map (tv s) a) v)%R vs /\ length l = length vs.
Proof.
  intros O W A B F l H. apply mapr_inv in H. induction H as [|v t vs l Ht H IH].
  - split; [constructor|]. split; [constructor|]. auto.
  - inversion F as [|? ? [F1 F2] F3]; subst. destruct IH as (X & Y & Z & L); [assumption|]. apply (multinomial_value E s) in Ht as (X' & Y' & Z'); try assumption. split; [now constructor|]. split; [now constructor|]. split; [|cbn; congruence]. rewrite pv_cons, Z, Z'. reflexivity.
Qed.
Lemma pv_rsum s l : pv s l = fold_right Rplus 0%R (map (tv s) l). Proof. induction l as [|t l IH]; [reflexivity|]. rewrite pv_cons, IH. reflexivity. Qed.
Lemma poly_pow_value P s a n r : machine P -> pgood P s a -> 0 <= n -> Z.of_nat (fact (Z.to_nat n)) < 2 ^ (ew (pe P) - 1) -> poly_pow P a (Rat n 1) = Ok r ->
  pgood P s r /\ pv s r = (pv s a ^ Z.to_nat n)%R /\ (a <> [] -> r <> []).
Proof.
  intros M [Wa Aa] Hn B H. pose proof (machine_env _ M) as O. pose proof O as (Hw & FS & FE). unfold poly_pow in H. cbv zeta in H.
  apply bind_ok in H as (z & Hz & H). apply rat_eq_inv in Hz. cbn [num den] in Hz. rewrite Z.mul_1_r, Z.mul_0_l in Hz. destruct z.
  { symmetry in Hz. apply Z.eqb_eq in Hz. subst n. apply bind_ok in H as (c & Hc & H). apply of_int_value in Hc as (Gc & _ & Vc); [|assumption]. apply (const_poly P s) in H as (W & A & V & N); try assumption. split; [now split|]. split; [rewrite V, Vc; reflexivity|auto]. }
  symmetry in Hz. apply Z.eqb_neq in Hz. apply bind_ok in H as (o & Ho & H). apply rat_eq_inv in Ho. cbn [num den] in Ho. rewrite Z.mul_1_r, Z.mul_1_l in Ho. destruct o.
  { symmetry in Ho. apply Z.eqb_eq in Ho. subst n. injection H as <-. split; [now split|]. split; [change (Z.to_nat 1) with 1%nat; now rewrite pow_1|auto]. }
  clear Ho.
  assert (HC : forall c l, good (ew (pe P)) c -> rv c = pv s a -> (c' <- real_pow (pe P) c (Rat n 1) ;; poly_make P [term_const c']) = Ok l -> pgood P s l /\ pv s l = (pv s a ^ Z.to_nat n)%R /\ (a <> [] -> l <> [])).
  { intros c l G V X. apply bind_ok in X as (c' & Hc & X). apply pow_fuel_int in Hc as (Gc & _ & _ & Vc); try assumption. apply (const_poly P s) in X as (W & A & V' & N); try assumption. split; [now split|]. split; [|auto]. now rewrite V', Vc, V, powerRZ_pos. }
  assert (HM : (v <- poly_try_eval (pe P) a ;; match v with Some c => c' <- real_pow (pe P) c (Rat n 1) ;; poly_make P [term_const c'] | None => if is_int (Rat n 1) then
            n <- rat_to_t (ew (pe P)) (Rat n 1) ;;
            vs <- solve_variable_eq (ew (pe P)) (length a) n (Z.of_nat (length a)) ;;
            l <- mapr (multinomial (pe P) a (wfact (ew (pe P)) (Z.to_nat (uwrap (ew (pe P)) n)))) vs ;;
            poly_make P l
          else Throw "Must be a int." end) = Ok r -> length a <> 1%nat -> pgood P s r /\ pv s r = (pv s a ^ Z.to_nat n)%R /\ (a <> [] -> r <> [])).
  { clear H. intros H LA. apply bind_ok in H as (v & Hv & H). destruct v as [c|]; [apply (poly_try_eval_value _ s) in Hv as (G & V & _); try assumption; now apply (HC c r)|].
    unfold is_int in H. cbn [den Z.eqb Pos.eqb] in H. apply bind_ok in H as (n' & Hn' & H). unfold rat_to_t in Hn'. apply quot_w_inv in Hn' as (_ & -> & B2). cbn [num den] in *. rewrite Z.quot_1_r in *.
    apply bind_ok in H as (vs & Hvs & H). apply bind_ok in H as (l & Hl & H).
    assert (2 <= length a)%nat. { destruct a as [|? [|? ?]]; cbn [length] in *; try lia. exfalso. unfold poly_try_eval in Hv. apply bind_ok in Hv as (z & _ & Hv). discriminate. }
    assert (HL : Z.of_nat (length a) = Z.of_nat (length a - 2) + 2) by lia. rewrite HL in Hvs. apply solve_sols in Hvs as [_ ->].
    unfold uwrap in Hl. rewrite Z.mod_small in Hl by (assert (2 ^ ew (pe P) = 2 * 2 ^ (ew (pe P) - 1)) by (rewrite <- Z.pow_succ_r by lia; f_equal; lia); lia). rewrite wfact_exact in Hl by lia.
    apply (multinomials_value (pe P) s) in Hl as (Wl & Al & Vl & Ll); try assumption.
    - apply (poly_normalize_value P s) in H as (W & A & V & N); try assumption. split; [now split|]. split.
      + rewrite V, Vl, rsum_scale, pv_rsum. rewrite <- (Z2Nat.id n) at 2 by lia. rewrite multinomial_sum by (rewrite map_length; lia). field. apply INR_fact_neq_0.
      + intros _ E. apply N in E. subst l. cbn [length] in Ll. symmetry in Ll. apply length_zero_iff_nil in Ll. pose proof (proj2 (sols_in (length a - 2) n (n :: repeat 0 (length a - 1)))) as X. rewrite Ll in X. apply X. unfold solution. cbn [length fold_right]. rewrite repeat_length. repeat split; [lia| |].
        * constructor; [lia|]. rewrite Forall_forall. intros x I. apply repeat_spec in I. lia.
        * assert (Z0 : forall k, fold_right Z.add 0 (repeat 0 k) = 0) by (induction k; cbn; auto). rewrite Z0. lia.
    - rewrite Forall_forall. intros v I. apply sols_in in I as (L & F & S). split; [|lia]. rewrite Forall_forall. intros e I. pose proof (le_sum v e F I). rewrite Forall_forall in F. specialize (F e I). cbn in F. lia. }
  destruct a as [|t [|u a]]; [apply HM; [assumption|discriminate]| |apply HM; [assumption|discriminate]].
  apply bind_ok in H as (p & Hp & H). inversion Wa; subst. inversion Aa; subst. apply (term_pow_int (pe P) s) in Hp as (Wp & _ & Ap & Vp); try assumption. apply (poly_normalize_value P s) in H as (W & A & V & N); [|assumption|now constructor|now constructor].
  split; [now split|]. split; [|intros _ E; apply N in E; discriminate]. rewrite V, !pv_cons, Vp. cbn. rewrite !Rplus_0_r. reflexivity.
Qed.
