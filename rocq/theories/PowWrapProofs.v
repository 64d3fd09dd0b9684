(** Proofs: powers of sums whose factorial is not representable. *)
From Coq Require Import ZArith Znumtheory QArith Qreals Reals String Lia Lra Bool List Factorial.
From Verif Require Import Base AdapterModel AdapterProofs RationalModel RationalSpec RationalProofs RationalProofs2 RealModel RealSpec RealProofs1 RealProofs2 RealProofs3 RealProofs4 RealProofs5 RealProofs6 PolyModel PolySpec PolyProofs1 PolyProofs2 PolyProofs3 PolyProofs4.
Import ListNotations.
Open Scope Z_scope.

(** the unsigned factorial is n! modulo 2^w *)
Lemma wfact_mod w n : 0 < w -> wfact w n = Z.of_nat (fact n) mod 2 ^ w.
Proof.
  intros W. assert (M : 1 < 2 ^ w) by (apply Z.pow_gt_1; lia). induction n as [|n IH]; [cbn [wfact fact]; rewrite Z.mod_small; lia|].
  cbn [wfact]. unfold uwrap. rewrite IH, Zmult_mod_idemp_r, fact_simpl, Nat2Z.inj_mul. reflexivity.
Qed.
Lemma swrap_spec w z : 0 < w -> - 2 ^ (w - 1) <= swrap w z < 2 ^ (w - 1) /\ (2 ^ w | z - swrap w z).
Proof.
  intros W. assert (E : 2 ^ w = 2 * 2 ^ (w - 1)) by (rewrite <- Z.pow_succ_r by lia; f_equal; lia). assert (0 < 2 ^ (w - 1)) by (apply Z.pow_pos_nonneg; lia).
  pose proof (Z.mod_pos_bound z (2 ^ w) ltac:(lia)) as B. pose proof (Z.div_mod z (2 ^ w) ltac:(lia)) as D. unfold swrap. unfold uwrap in *. cbv zeta.
  destruct (Z.ltb_spec (z mod 2 ^ w) (2 ^ (w - 1))); (split; [lia|]); [exists (z / 2 ^ w)|exists (z / 2 ^ w + 1)]; lia.
Qed.
Lemma multinomial_any E s a F v t : okenv E -> pwf (ew E) a -> padm s a -> Forall (fun e => 0 <= e < 2 ^ (ew E - 1)) v -> length v = length a ->
  multinomial E a F v = Ok t -> twf (ew E) t /\ tadm s t /\ tv s t = (IZR (swrap (ew E) F) * mono (map (tv s) a) v)%R.
Proof.
  intros O W A Fv L H. pose proof O as (Hw & _). unfold multinomial in H. apply bind_ok in H as (q0 & H0 & H). apply bind_ok in H as (q & Hq & H). apply bind_ok in H as (c & Hc & H).
  unfold rat_of_index in H0. apply of_int_inv in H0. subst q0. apply div_facts_value in Hq as [Dq Vq]; try assumption; [|cbn; lia].
  apply of_rat_value in Hc as (Gc & _ & Vc); try assumption. destruct (const_value (ew E) s c Gc) as (X & Y & Z). apply (mul_powers_value E s) in H as (W' & A' & V'); try assumption; [|eapply Forall_impl; [|exact Fv]; cbn; lia]. split; [assumption|]. split; [assumption|].
  rewrite V', Z, Vc. assert (E0 : (Q2R (qv q) * vfacts v = IZR (swrap (ew E) F))%R). { rewrite Vq, qv_R by (cbn; lia). cbn [num den]. field. }
  rewrite <- E0. ring.
Qed.
Lemma multinomials_any E s a F vs : okenv E -> pwf (ew E) a -> padm s a ->
  Forall (fun v => Forall (fun e => 0 <= e < 2 ^ (ew E - 1)) v /\ length v = length a) vs -> forall l, mapr (multinomial E a F) vs = Ok l ->
  pwf (ew E) l /\ padm s l /\ pv s l = rsum (fun v => IZR (swrap (ew E) F) * mono (map (tv s) a) v)%R vs.
Proof.
  intros O W A Fv l H. apply mapr_inv in H. induction H as [|v t vs l Ht H IH].
  - split; [constructor|]. split; [constructor|]. auto.
  - inversion Fv as [|? ? [F1 F2] F3]; subst. destruct IH as (X & Y & Z); [assumption|]. apply (multinomial_any E s) in Ht as (X' & Y' & Z'); try assumption. split; [now constructor|]. split; [now constructor|]. rewrite pv_cons, Z, Z'. reflexivity.
Qed.
(** the factorial as an integer of w bits: its remainder modulo 2^w between -2^(w-1) and 2^(w-1) *)
Lemma poly_pow_wrapped P s a n r : machine P -> pgood P s a -> (2 <= length a)%nat -> poly_try_eval (pe P) a = Ok None -> 2 <= n -> poly_pow P a (Rat n 1) = Ok r ->
  pgood P s r /\ pv s r = (IZR (swrap (ew (pe P)) (Z.of_nat (fact (Z.to_nat n)))) * (pv s a ^ Z.to_nat n / INR (fact (Z.to_nat n))))%R.
Proof.
  intros M [Wa Aa] LA TE Hn H. pose proof (machine_env _ M) as O. pose proof O as (Hw & FS & FE). unfold poly_pow in H. cbv zeta in H.
  apply bind_ok in H as (z & Hz & H). apply rat_eq_inv in Hz. cbn [num den] in Hz. rewrite Z.mul_1_r, Z.mul_0_l in Hz. destruct z; [symmetry in Hz; apply Z.eqb_eq in Hz; lia|].
  apply bind_ok in H as (o & Ho & H). apply rat_eq_inv in Ho. cbn [num den] in Ho. rewrite Z.mul_1_r, Z.mul_1_l in Ho. destruct o; [symmetry in Ho; apply Z.eqb_eq in Ho; lia|]. clear Hz Ho.
  destruct a as [|t [|u a]]; cbn [length] in LA; try lia. set (b := t :: u :: a) in *. rewrite TE in H. cbn [bind] in H.
  unfold is_int in H. cbn [den Z.eqb Pos.eqb] in H. apply bind_ok in H as (n' & Hn' & H). unfold rat_to_t in Hn'. apply quot_w_inv in Hn' as (_ & -> & B2). cbn [num den] in *. rewrite Z.quot_1_r in *.
  apply bind_ok in H as (vs & Hvs & H). apply bind_ok in H as (l & Hl & H).
  assert (LB : (2 <= length b)%nat) by (unfold b; cbn [length]; lia). assert (HL : Z.of_nat (length b) = Z.of_nat (length b - 2) + 2) by lia. rewrite HL in Hvs. apply solve_sols in Hvs as [_ ->].
  set (w := ew (pe P)) in *. assert (E2 : 2 ^ w = 2 * 2 ^ (w - 1)) by (rewrite <- Z.pow_succ_r by lia; f_equal; lia).
  unfold uwrap in Hl. rewrite Z.mod_small in Hl by lia. rewrite wfact_mod in Hl by lia.
  apply (multinomials_any (pe P) s) in Hl as (Wl & Al & Vl); try assumption.
  - apply (poly_normalize_value P s) in H as (W & A & V & N); try assumption. split; [now split|].
    rewrite V, Vl, rsum_scale, pv_rsum. rewrite <- (Z2Nat.id n) at 2 by lia. rewrite multinomial_sum by (rewrite map_length; lia). f_equal. f_equal.
    fold w. unfold swrap, uwrap. now rewrite Z.mod_mod by lia.
  - rewrite Forall_forall. intros v I. apply sols_in in I as (L & F & Sm). split; [|lia]. rewrite Forall_forall. intros e I. pose proof (le_sum v e F I). rewrite Forall_forall in F. specialize (F e I). cbn in F. fold w. lia.
Qed.
Lemma fact_divide m n : (m <= n)%nat -> (Z.of_nat (fact m) | Z.of_nat (fact n)).
Proof. induction 1 as [|n L IH]; [apply Z.divide_refl|]. rewrite fact_simpl, Nat2Z.inj_mul. now apply Z.divide_mul_r. Qed.
Lemma fact_66 n : (66 <= n)%nat -> (2 ^ 64 | Z.of_nat (fact n)).
Proof.
  intros L. apply Z.divide_trans with (Z.of_nat (fact 66)); [|now apply fact_divide]. apply Z.mod_divide; [lia|]. rewrite <- wfact_mod by lia. vm_compute. reflexivity.
Qed.
Lemma swrap_0 w z : 0 < w -> (2 ^ w | z) -> swrap w z = 0.
Proof.
  intros W D. destruct (swrap_spec w z W) as [B D2]. assert (E : 2 ^ w = 2 * 2 ^ (w - 1)) by (rewrite <- Z.pow_succ_r by lia; f_equal; lia).
  assert (X : (2 ^ w | swrap w z)) by (replace (swrap w z) with (z - (z - swrap w z)) by lia; now apply Z.divide_sub_r). destruct X as [k X]. assert (0 < 2 ^ (w - 1)) by (apply Z.pow_pos_nonneg; lia). assert (k = 0) by nia. subst k. lia.
Qed.
(** single terms and polynomials that evaluate to a number are not expanded *)
Lemma poly_pow_unexpanded P s a n r : machine P -> pgood P s a -> length a = 1%nat \/ (exists c, poly_try_eval (pe P) a = Ok (Some c)) -> 0 <= n -> poly_pow P a (Rat n 1) = Ok r ->
  pgood P s r /\ pv s r = (pv s a ^ Z.to_nat n)%R.
Proof.
  intros M [Wa Aa] LA Hn H. pose proof (machine_env _ M) as O. pose proof O as (Hw & FS & FE). unfold poly_pow in H. cbv zeta in H.
  apply bind_ok in H as (z & Hz & H). apply rat_eq_inv in Hz. cbn [num den] in Hz. rewrite Z.mul_1_r, Z.mul_0_l in Hz. destruct z.
  { symmetry in Hz. apply Z.eqb_eq in Hz. subst n. apply bind_ok in H as (c & Hc & H). apply of_int_value in Hc as (Gc & _ & Vc); [|assumption]. apply (const_poly P s) in H as (W & A & V & N); try assumption. split; [now split|]. rewrite V, Vc. reflexivity. }
  symmetry in Hz. apply Z.eqb_neq in Hz. apply bind_ok in H as (o & Ho & H). apply rat_eq_inv in Ho. cbn [num den] in Ho. rewrite Z.mul_1_r, Z.mul_1_l in Ho. destruct o.
  { symmetry in Ho. apply Z.eqb_eq in Ho. subst n. injection H as <-. split; [now split|]. change (Z.to_nat 1) with 1%nat. now rewrite pow_1. }
  clear Ho.
  assert (HC : forall c l, good (ew (pe P)) c -> rv c = pv s a -> (c' <- real_pow (pe P) c (Rat n 1) ;; poly_make P [term_const c']) = Ok l -> pgood P s l /\ pv s l = (pv s a ^ Z.to_nat n)%R).
  { intros c l G V X. apply bind_ok in X as (c' & Hc & X). apply pow_fuel_int in Hc as (Gc & _ & _ & Vc); try assumption. apply (const_poly P s) in X as (W & A & V' & N); try assumption. split; [now split|]. now rewrite V', Vc, V, powerRZ_pos. }
  destruct a as [|t [|u a]].
  - destruct LA as [L|[c E]]; [discriminate|]. rewrite E in H. cbn [bind] in H. apply (poly_try_eval_value _ s) in E as (G & V & _); try assumption. now apply (HC c r).
  - apply bind_ok in H as (p & Hp & H). inversion Wa; subst. inversion Aa; subst. apply (term_pow_int (pe P) s) in Hp as (Wp & _ & Ap & Vp); try assumption. apply (poly_normalize_value P s) in H as (W & A & V & N); [|assumption|now constructor|now constructor].
    split; [now split|]. rewrite V, !pv_cons, Vp. cbn. rewrite !Rplus_0_r. reflexivity.
  - destruct LA as [L|[c E]]; [discriminate|]. rewrite E in H. cbn [bind] in H. apply (poly_try_eval_value _ s) in E as (G & V & _); try assumption. now apply (HC c r).
Qed.
