(** The accuracy of the numeric evaluation. *)
From Coq Require Import ZArith QArith Qreals Qabs Reals Lra Lia String Ascii List.
From Verif Require Import Base RationalModel RationalSpec RealModel RealSpec PolyModel PolySpec ExprModel ExprSpec TextSpec CliModel DecModel DecSpec DecProofs1 DecProofs3 NumModel NumSpec NumProofs1.
Import ListNotations.
Open Scope R_scope.

Lemma some_inj (a b : Q) : Some a = Some b -> a = b. Proof. congruence. Qed.
Lemma ok_inj (a b : Q) : Ok (Some a) = Ok (Some b) -> a = b. Proof. congruence. Qed.
Lemma none_some (a : Q) : None = Some a -> False. Proof. discriminate. Qed.
Lemma ok_some_inj (o p : option Q) : Ok o = Ok p -> o = p. Proof. congruence. Qed.
Lemma Q2R_0 : Q2R 0 = 0. Proof. unfold Q2R; cbn; lra. Qed.
Lemma Q2R_1 : Q2R 1 = 1. Proof. unfold Q2R; cbn; lra. Qed.
Lemma Q2R_pos x : (0 < x)%Q <-> 0 < Q2R x.
Proof. rewrite <- Q2R_0. split; [apply Qlt_Rlt|apply Rlt_Qlt]. Qed.

(** integers of at most p bits are exact *)
Lemma Qopp_opp x : (- - x)%Q = x.
Proof. destruct x as [a b]. unfold Qopp. cbn. now rewrite Z.opp_involutive. Qed.
Lemma rnd_int p n x : (1 <= p)%Z -> (Z.abs n <= 2 ^ p)%Z -> (x == inject_Z n)%Q -> (rnd p x == inject_Z n)%Q.
Proof.
  intros Hp Hn E. destruct (Z_le_gt_dec 0 n) as [N|N].
  - rewrite rnd_rep; [exact E|exact Hp|]. exists n, 0%Z. split; [lia|]. rewrite E. change (P2 0) with 1%Q. ring.
  - assert (R : (rnd p (- x) == inject_Z (- n))%Q).
    { assert (E' : (- x == inject_Z (- n))%Q) by (rewrite E, inject_Z_opp; reflexivity).
      rewrite rnd_rep; [exact E'|exact Hp|]. exists (- n)%Z, 0%Z. split; [lia|]. rewrite E'. change (P2 0) with 1%Q. ring. }
    rewrite rnd_opp, inject_Z_opp in R. apply Qopp_comp in R. rewrite !Qopp_opp in R. exact R.
Qed.
Lemma rat_to_float_int p n : (1 <= p)%Z -> (Z.abs n <= 2 ^ p)%Z -> (rat_to_float p (Rat n 1) == inject_Z n)%Q.
Proof.
  intros Hp Hn. unfold rat_to_float, fdiv. cbn [num den]. assert (1 <= 2 ^ p)%Z by (change 1%Z with (2 ^ 0)%Z; apply Z.pow_le_mono_r; lia). apply rnd_int; [exact Hp|exact Hn|].
  rewrite (rnd_int p n) by (auto; reflexivity). rewrite (rnd_int p 1) by (auto; try lia; reflexivity). change (inject_Z 1) with 1%Q. field.
Qed.
Lemma Qdiv_eq a b c d : (a == c)%Q -> (b == d)%Q -> (a / b == c / d)%Q.
Proof. intros E F. now rewrite E, F. Qed.
Lemma rat_to_float_within p r : (1 <= p)%Z -> (0 < num r <= 2 ^ p)%Z -> (0 < den r <= 2 ^ p)%Z -> 0 < Q2R (qv r) /\ within (ulp p) 1 (Q2R (rat_to_float p r)) (Q2R (qv r)).
Proof.
  intros Hp Hn Hd. unfold rat_to_float, fdiv.
  assert (E : (rnd p (inject_Z (num r)) / rnd p (inject_Z (den r)) == qv r)%Q) by (apply Qdiv_eq; apply rnd_int; try reflexivity; lia).
  assert (P : (0 < qv r)%Q).
  { unfold qv, Qdiv. apply Qmult_lt_0_compat; [change 0%Q with (inject_Z 0); rewrite <- Zlt_Qlt; lia|]. apply Qinv_lt_0_compat. change 0%Q with (inject_Z 0). rewrite <- Zlt_Qlt. lia. }
  split; [apply Q2R_pos; exact P|]. rewrite <- (Qeq_eqR _ _ E). apply within_rnd; [exact Hp|]. rewrite E. exact P.
Qed.

Section Eval.
Context (p : Z) (m : nat) (fpow lpow : Q -> Q -> Q) (show : Q -> text) (read : text -> res Q) (root : rat -> Z -> res Z).
Context (Hp : (2 <= p)%Z) (H1 : forall x y, (x == 1)%Q -> (fpow x y == 1)%Q) (HL : pow_within p m lpow).
Context (v : list (string * Q)) (s : string -> R) (Hv : forall k y, mget k v = Some y -> (0 < y)%Q /\ s k = Q2R y).
Notation F := (float_ops p fpow lpow show read root).
Notation u := (ulp p).

Lemma Hu : 0 <= u < 1.
Proof. pose proof (ulp_pos p ltac:(lia)). pose proof (ulp_half p ltac:(lia)). lra. Qed.
Lemma one_le : (1 <= 2 ^ p)%Z.
Proof. change 1%Z with (2 ^ 0)%Z. apply Z.pow_le_mono_r; lia. Qed.
Lemma rounded x k b : 0 < b -> within u k (Q2R x) b -> within u (S k) (Q2R (rnd p x)) b.
Proof.
  intros Hb W. replace (S k) with (1 + k)%nat by lia. apply within_trans with (Q2R x); [exact Hu| |exact W].
  apply within_rnd; [lia|]. apply Q2R_pos. apply (within_pos u Hu k _ b); assumption.
Qed.

Lemma root_one i : (rnd p (fpow (rat_to_float 53 (Rat 1 1)) (fdiv 53 1 (rnd 53 (inject_Z i)))) == 1)%Q.
Proof.
  apply (rnd_int p 1); [lia|pose proof one_le; lia|]. apply H1. apply (rat_to_float_int 53 1); lia.
Qed.
Lemma coeff_within t : tame_term p t -> 0 < rv (tco t) /\ within u 2 (Q2R (real_to_float p fpow (tco t))) (rv (tco t)).
Proof.
  intros (Hr & Hn & Hd & Hi & _). destruct (rat_to_float_within p (coe (tco t)) ltac:(lia) Hn Hd) as [P W].
  assert (E : rv (tco t) = Q2R (qv (coe (tco t)))).
  { unfold rv. rewrite Hr. replace (Q2R (qv (Rat 1 1))) with 1 by (unfold qv, Q2R; cbn; lra). unfold Rpower. rewrite ln_1, Rmult_0_r, exp_0. ring. }
  rewrite E. split; [exact P|]. unfold real_to_float, fmul. rewrite Hr. apply rounded; [exact P|].
  set (c := rat_to_float p (coe (tco t))) in *. assert (X : (c * rnd p (fpow (rat_to_float 53 (Rat 1 1)) (fdiv 53 1 (rnd 53 (inject_Z (idx (tco t)))))) == c)%Q) by (rewrite root_one; ring).
  rewrite (Qeq_eqR _ _ X). exact W.
Qed.
Lemma pwr_int x q : den q = 1%Z -> pwr x q = powerRZ x (num q).
Proof. unfold pwr. intros ->. reflexivity. Qed.
Lemma powerRZ_pos x n : 0 < x -> 0 < powerRZ x n.
Proof. apply powerRZ_lt. Qed.
Lemma syms_within : forall l acc A k x, Forall (fun q => den (snd q) = 1%Z /\ (Z.abs (num (snd q)) <= 2 ^ p)%Z) l -> 0 < A -> within u k (Q2R acc) A ->
  syms_ld F v l acc = Some x -> 0 < sv s l /\ within u (k + (m + 1) * length l) (Q2R x) (A * sv s l).
Proof.
  induction l as [|[n q] l IH]; intros acc A k x HF HA W E; cbn [syms_ld sv fold_right length fst snd] in *; change (D F) with Q in *.
  - apply some_inj in E; subst x. split; [lra|]. rewrite Rmult_1_r, Nat.mul_0_r, Nat.add_0_r. exact W.
  - destruct (mget n v) as [y|] eqn:M; [|destruct (none_some _ E)]. destruct (Hv n y M) as [Py Ey]. inversion_clear HF as [|? ? [Q1 Q2] HF']. cbn [snd] in Q1, Q2.
    assert (Ey' : (rat_to_float p q == inject_Z (num q))%Q) by (destruct q as [a b]; cbn [den num] in *; subst b; apply rat_to_float_int; [lia|exact Q2]).
    pose proof (HL y (rat_to_float p q) (num q) Py Ey' Q2) as WP. rewrite <- Ey, <- (pwr_int _ q Q1) in WP.
    assert (PP : 0 < pwr (s n) q) by (rewrite (pwr_int _ q Q1); apply powerRZ_pos; rewrite Ey; apply Q2R_pos; exact Py).
    cbn [d_mul d_pow d_of_rat float_ops] in E. 
    destruct (IH (fmul p acc (lpow y (rat_to_float p q))) (A * pwr (s n) q) (S (k + m)) x HF') as [G1 G2]; [apply Rmult_lt_0_compat; assumption| |exact E|].
    + unfold fmul. apply rounded; [apply Rmult_lt_0_compat; assumption|]. rewrite Q2R_mult. apply within_mul; auto. exact Hu.
    + fold (sv s l). split; [apply Rmult_lt_0_compat; assumption|]. replace (A * (pwr (s n) q * sv s l)) with (A * pwr (s n) q * sv s l) by ring.
      replace (k + (m + 1) * S (length l))%nat with (S (k + m) + (m + 1) * length l)%nat by lia. exact G2.
Qed.
Lemma term_within t x : tame_term p t -> term_ld F v t = Some x -> 0 < tv s t /\ within u (term_steps m t) (Q2R x) (tv s t).
Proof.
  intros T E. destruct (coeff_within t T) as [P W]. destruct T as (_ & _ & _ & _ & HF).
  destruct (syms_within (syms t) _ (rv (tco t)) 2 x HF P W E) as [A B]. split; [apply Rmult_lt_0_compat; assumption|]. exact B.
Qed.
Lemma terms_within : forall l acc A k x, Forall (tame_term p) l -> 0 <= A -> within u k (Q2R acc) A -> (fold_right (fun t k => Nat.max (term_steps m t) k) 0%nat l <= k)%nat ->
  terms_ld F v l acc = Some x -> 0 <= pv s l /\ (l <> [] -> 0 < pv s l) /\ within u (k + length l) (Q2R x) (A + pv s l).
Proof.
  induction l as [|t l IH]; intros acc A k x HF HA W HK E; cbn [terms_ld pv fold_right length] in *; change (D F) with Q in *.
  - apply some_inj in E; subst x. split; [lra|]. split; [congruence|]. rewrite Rplus_0_r, Nat.add_0_r. exact W.
  - destruct (term_ld F v t) as [y|] eqn:T; [|destruct (none_some _ E)]. inversion_clear HF as [|? ? HT HF']. destruct (term_within t y HT T) as [P WT].
    cbn [d_add float_ops] in E.
    destruct (IH (fadd p acc y) (A + tv s t) (S k) x HF') as (G0 & _ & G); [lra| |lia|exact E|].
    + unfold fadd. apply rounded; [lra|]. rewrite Q2R_plus. apply within_add; [exact W|]. apply (within_more u Hu (term_steps m t)); [lra|exact WT|lia].
    + fold (pv s l). split; [lra|]. split; [intros _; lra|]. rewrite <- Rplus_assoc. replace (k + S (length l))%nat with (S k + length l)%nat by lia. exact G.
Qed.
Lemma poly_within l x : l <> [] -> Forall (tame_term p) l -> poly_ld F v l = Some x -> 0 < pv s l /\ within u (poly_steps m l) (Q2R x) (pv s l).
Proof.
  intros N HF E. unfold poly_ld in E. cbn [d_zero float_ops] in E.
  destruct (terms_within l 0%Q 0 (fold_right (fun t k => Nat.max (term_steps m t) k) 0%nat l) x HF) as (_ & P & W); [lra| |lia|exact E|].
  - rewrite Q2R_0. split; lra.
  - split; [exact (P N)|]. rewrite Rplus_0_l in W. unfold poly_steps. rewrite Nat.add_comm. exact W.
Qed.
Lemma frac_within f x : tame p f -> frac_ld F v f = Some x -> 0 < fv s f /\ within u (frac_steps m f) (Q2R x) (fv s f).
Proof.
  intros (N1 & N2 & F1 & F2) E. unfold frac_ld in E. change (D F) with Q in *. destruct (poly_ld F v (fnum f)) as [a|] eqn:A; [|destruct (none_some _ E)]. destruct (poly_ld F v (fden f)) as [b|] eqn:B; [|destruct (none_some _ E)].
  cbn [d_div float_ops] in E. apply some_inj in E; subst x. destruct (poly_within _ _ N1 F1 A) as [P1 W1]. destruct (poly_within _ _ N2 F2 B) as [P2 W2].
  assert (P : 0 < fv s f) by (apply Rdiv_lt_0_compat; assumption). split; [exact P|]. unfold fdiv, frac_steps. apply rounded; [exact P|].
  rewrite Q2R_div. { apply within_div; auto. exact Hu. }
  intros Z. apply Qeq_eqR in Z. rewrite Q2R_0 in Z. pose proof (within_pos u Hu _ _ _ P2 W2). lra.
Qed.
Lemma int_coeff n : (Z.abs n <= 2 ^ p)%Z -> (real_to_float p fpow (rint n) == inject_Z n)%Q.
Proof.
  intros Hn. unfold real_to_float, fmul, rint. cbn [coe rad idx]. apply rnd_int; [lia|exact Hn|]. rewrite root_one, rat_to_float_int by lia. ring.
Qed.
Lemma int_leaf_exact n x : (0 < n <= 2 ^ p)%Z -> frac_ld F v (leaf_int n) = Some x -> (x == inject_Z n)%Q.
Proof.
  intros Hn E. unfold frac_ld, poly_ld, leaf_int in E. cbn [fnum fden terms_ld] in E. unfold term_ld, term_const in E. cbn [syms syms_ld tco d_of_real d_add d_zero d_div float_ops] in E.
  apply some_inj in E; subst x. unfold fadd, fdiv. pose proof one_le. apply rnd_int; [lia|lia|].
  rewrite (rnd_int p n) by (try lia; rewrite int_coeff by lia; ring). rewrite (rnd_int p 1) by (try lia; rewrite int_coeff by lia; reflexivity). change (inject_Z 1) with 1%Q. field.
Qed.
Lemma fv_int n : fv s (leaf_int n) = IZR n.
Proof.
  unfold fv, pv, tv, leaf_int, term_const, rint, rv. cbn [fnum fden fold_right tco syms sv coe rad idx]. unfold qv, Rpower. cbn [num den].
  replace (Q2R (inject_Z 1 / inject_Z 1)) with 1 by (unfold Q2R; cbn; lra). rewrite ln_1, Rmult_0_r, exp_0.
  replace (Q2R (inject_Z n / inject_Z 1)) with (IZR n) by (rewrite <- Q2R_Z; apply Qeq_eqR; change (inject_Z 1) with 1%Q; field). field.
Qed.
Lemma expr_within e k : steps p m e k -> forall x, expr_ld F v e = Ok (Some x) -> 0 < ev s e /\ within u k (Q2R x) (ev s e).
Proof.
  assert (Sub : forall l r c x, expr_ld F v (Op c l r) = Ok (Some x) -> exists a b, expr_ld F v l = Ok (Some a) /\ expr_ld F v r = Ok (Some b)).
  { intros l r c x E. cbn [expr_ld] in E. destruct (expr_ld F v l) as [[a|]| | |]; cbn [bind] in E; try discriminate; destruct (expr_ld F v r) as [[b|]| | |]; cbn [bind] in E; try discriminate. eauto. }
  induction 1 as [f T|l r a b L IHl R IHr|l r a b L IHl R IHr|l r a b L IHl R IHr|l n a L IHl Hn]; intros x E.
  - cbn [expr_ld] in E. apply ok_some_inj in E. apply frac_within; assumption.
  - destruct (Sub _ _ _ _ E) as (y & z & Ey & Ez). destruct (IHl y Ey) as [P1 W1]. destruct (IHr z Ez) as [P2 W2]. cbn [expr_ld] in E. rewrite Ey, Ez in E. apply ok_inj in E; subst x.
    cbn [ev Ascii.eqb Bool.eqb]. assert (P : 0 < ev s l + ev s r) by lra. split; [exact P|]. unfold fadd. apply rounded; [exact P|]. rewrite Q2R_plus.
    apply within_add; [apply (within_more u Hu a)|apply (within_more u Hu b)]; try assumption; try lra; lia.
  - destruct (Sub _ _ _ _ E) as (y & z & Ey & Ez). destruct (IHl y Ey) as [P1 W1]. destruct (IHr z Ez) as [P2 W2]. cbn [expr_ld] in E. rewrite Ey, Ez in E. apply ok_inj in E; subst x.
    cbn [ev Ascii.eqb Bool.eqb]. assert (P : 0 < ev s l * ev s r) by (apply Rmult_lt_0_compat; assumption). split; [exact P|]. unfold fmul. apply rounded; [exact P|]. rewrite Q2R_mult.
    apply within_mul; auto. exact Hu.
  - destruct (Sub _ _ _ _ E) as (y & z & Ey & Ez). destruct (IHl y Ey) as [P1 W1]. destruct (IHr z Ez) as [P2 W2]. cbn [expr_ld] in E. rewrite Ey, Ez in E. apply ok_inj in E; subst x.
    cbn [ev Ascii.eqb Bool.eqb]. assert (P : 0 < ev s l / ev s r) by (apply Rdiv_lt_0_compat; assumption). split; [exact P|]. unfold fdiv. apply rounded; [exact P|]. rewrite Q2R_div.
    { apply within_div; auto. exact Hu. }
    intros Z. apply Qeq_eqR in Z. rewrite Q2R_0 in Z. pose proof (within_pos u Hu _ _ _ P2 W2). lra.
  - destruct (Sub _ _ _ _ E) as (y & z & Ey & Ez). destruct (IHl y Ey) as [P1 W1]. cbn [expr_ld] in Ez. apply ok_some_inj in Ez. pose proof (int_leaf_exact n z Hn Ez) as En.
    cbn [expr_ld] in E. rewrite Ey, Ez in E. apply ok_inj in E; subst x.
    cbn [ev Ascii.eqb Bool.eqb]. rewrite fv_int. unfold epow. destruct (Rlt_dec 0 (ev s l)); [|contradiction].
    pose proof (within_pos u Hu _ _ _ P1 W1) as Py. pose proof (HL y z n (proj2 (Q2R_pos y) Py) En ltac:(lia)) as WP.
    assert (EP : forall t, 0 < t -> Rpower t (IZR n) = t ^ Z.to_nat n).
    { intros t Ht. rewrite <- (Rpower_pow _ _ Ht), INR_IZR_INZ, Z2Nat.id by lia. reflexivity. }
    rewrite EP by assumption. split; [apply pow_lt; assumption|]. replace (powerRZ (Q2R y) n) with (Q2R y ^ Z.to_nat n) in WP by (rewrite pow_powerRZ, Z2Nat.id by lia; reflexivity).
    apply within_trans with (Q2R y ^ Z.to_nat n); [exact Hu|exact WP|]. apply within_pow; [exact Hu|exact P1|exact W1].
Qed.
End Eval.
