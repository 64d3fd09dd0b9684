(** Proofs: the built-in function fib computes the Fibonacci numbers. *)
From Coq Require Import ZArith Znumtheory QArith Qreals Reals String Ascii Lia Lra Bool List Factorial.
From Verif Require Import Base RationalModel RationalSpec RationalProofs RealModel RealSpec RealProofs1 RealProofs3 PolyModel PolySpec PolyProofs1 PolyProofs2 PolyProofs3 PolyProofs5 ExprModel ExprSpec ExprProofs1 TextSpec TextProofs1 RingProofs2 RingProofs11 FibSpec.
Import ListNotations. Open Scope Z_scope.

(** ** Binet *)
Local Notation r := (Rpower 5 (/ 2)).
Lemma r_sq : (r * r = 5)%R.
Proof. rewrite <- Rpower_plus. replace (/ 2 + / 2)%R with 1%R by field. apply Rpower_1. lra. Qed.
Lemma binet_pair n : (r / 5 * (((r + 1) / 2) ^ n - ((- r + 1) / 2) ^ n) = IZR (fib n) /\ r / 5 * (((r + 1) / 2) ^ S n - ((- r + 1) / 2) ^ S n) = IZR (fib (S n)))%R.
Proof.
  pose proof r_sq as Q. induction n as [|n [I1 I2]].
  - cbn [pow fib]. split; [field|]. field_simplify. replace (r ^ 2)%R with 5%R by (cbn [pow]; lra). field.
  - split; [exact I2|]. change (fib (S (S n))) with (fib (S n) + fib n). rewrite plus_IZR, <- I1, <- I2. cbn [pow].
    set (a := ((r + 1) / 2)%R). set (b := ((- r + 1) / 2)%R). assert (A : (a * a = a + 1)%R) by (unfold a; field_simplify; replace (r ^ 2)%R with 5%R by (cbn [pow]; lra); field).
    assert (B : (b * b = b + 1)%R) by (unfold b; field_simplify; replace (r ^ 2)%R with 5%R by (cbn [pow]; lra); field).
    replace (a * (a * a ^ n))%R with ((a + 1) * a ^ n)%R by (rewrite <- A; ring). replace (b * (b * b ^ n))%R with ((b + 1) * b ^ n)%R by (rewrite <- B; ring). ring.
Qed.
Lemma binet n : (r / 5 * (((r + 1) / 2) ^ n - ((- r + 1) / 2) ^ n) = IZR (fib n))%R. Proof. apply binet_pair. Qed.

(** ** the leaves *)
Section F.
  Variable P : penv.
  Hypothesis HM : machine P.
  Hypothesis HR : reads P.
  Local Notation w := (ew (pe P)).
  Lemma good_sqrt5 c : good w (Real 2 (Rat 5 1) (Rat c 1)).
  Proof. pose proof (w3 P HR). assert (8 <= 2 ^ w) by (change 8 with (2 ^ 3); apply Z.pow_le_mono_r; lia). split; [|cbn [idx]; lia]. unfold wf. cbn [idx rad coe num den]. repeat split; lia. Qed.
  Lemma good_rint n : good w (rint n).
  Proof. pose proof (w3 P HR). assert (8 <= 2 ^ w) by (change 8 with (2 ^ 3); apply Z.pow_le_mono_r; lia). split; [|reflexivity]. unfold wf, rint. cbn [idx rad coe num den]. repeat split; lia. Qed.
  Lemma const_leaf s l d : (forall t, In t (l ++ d) -> (exists c, t = sqrt5 c) \/ exists n, t = whole n) -> fgood P s (Frac l d).
  Proof.
    intros H. assert (G : forall k, (forall t, In t k -> (exists c, t = sqrt5 c) \/ exists n, t = whole n) -> pgood P s k).
    { intros k K. split; apply Forall_forall; intros t T; destruct (K t T) as [[c ->]|[n ->]].
      - split; [apply good_sqrt5|]. split; constructor.
      - split; [apply good_rint|]. split; constructor.
      - constructor.
      - constructor. }
    split; apply G; intros t T; apply H, in_or_app; auto.
  Qed.
  Lemma tv_sqrt5 s c : tv s (sqrt5 c) = (IZR c * r)%R.
  Proof.
    change (rv (Real 2 (Rat 5 1) (Rat c 1)) * 1 = IZR c * r)%R. unfold rv. cbn [idx rad coe]. rewrite !qv_R by (cbn; lia). cbn [num den]. unfold Rdiv. rewrite !RMicromega.Rinv_1, !Rmult_1_r. reflexivity.
  Qed.
  Lemma tv_whole s n : tv s (whole n) = IZR n.
  Proof.
    change (rv (Real 1 (Rat 1 1) (Rat n 1)) * 1 = IZR n)%R. unfold rv. cbn [idx rad coe]. rewrite !qv_R by (cbn; lia). cbn [num den]. unfold Rdiv. rewrite !RMicromega.Rinv_1, !Rmult_1_r. unfold Rpower. rewrite ln_1, Rmult_0_r, exp_0. ring.
  Qed.
  Lemma leaf_value s e l d x f : (forall t, In t (l ++ d) -> (exists c, t = sqrt5 c) \/ exists n, t = whole n) -> (forall s, pv s d <> 0%R) -> (forall s, fv s (Frac l d) = x) ->
    frac_subst P e (Frac l d) = Ok f -> fval P s f x.
  Proof.
    intros H D V S. apply (frac_subst_value P s e (Frac l d) x f); try assumption; [now apply const_leaf|apply D|apply V| |]; apply Forall_forall; intros t T;
      cbn [fnum fden] in T; (destruct (H t) as [[c ->]|[n ->]]; [apply in_or_app; tauto|constructor|constructor]).
  Qed.
  Lemma sym_value n f : 0 <= n < 2 ^ (w - 1) -> frac_subst P [("n"%string, rint n)] (leaf_sym "n") = Ok f -> f = leaf_int n.
  Proof.
    intros N H. pose proof (w4 P HR). unfold frac_subst, leaf_sym in H. cbn [fnum fden] in H. unfold poly_subst in H. cbn [mapr] in H. unfold term_subst in H. cbn [term_sym term_const syms tco subst_coe efind String.eqb Ascii.eqb Bool.eqb fold_left fst serase bind] in H.
    apply bind_ok in H as (l & Hl & H). apply bind_ok in Hl as (t & Ht & Hl). injection Hl as <-. apply bind_ok in Ht as (c & Hc & Ht). injection Ht as <-. apply bind_ok in Hc as (p & Hp & Hc).
    apply (zpow P HR) in Hp as [-> _]; [|lia|unfold rng; lia]. rewrite Z.pow_1_r in Hc. apply bind_ok in Hc as (c2 & Hc & Hc2). injection Hc2 as <-. apply (zmul P HR) in Hc as [-> _]. rewrite Z.mul_1_l in H.
    apply bind_ok in H as (g & Hg & H). change (Term (rint 1) []) with (term_const (rint 1)) in Hg. rewrite (normalize_leaf P HR) in Hg; [|apply plain_nil|lia]. injection Hg as <-. apply bind_ok in H as (z & _ & H). destruct z; [discriminate|]. now injection H as <-.
  Qed.
  (** one power of the formula *)
  Lemma power_step s a x n e : fval P s a x -> 0 <= n -> Z.of_nat (fact (Z.to_nat n)) < 2 ^ (w - 1) -> expr_normalize P (Op "^" (Leaf a) (Leaf (leaf_int n))) = Ok e ->
    exists f, e = Leaf f /\ fval P s f (x ^ Z.to_nat n)%R.
  Proof.
    intros A N F H. assert (NB : 0 <= n < 2 ^ (w - 1)). { split; [lia|]. eapply Z.le_lt_trans; [|exact F]. assert (forall k, (k <= fact k)%nat) as K. { induction k as [|k IH]; [cbn; lia|]. cbn [fact]. pose proof (lt_O_fact k). nia. } specialize (K (Z.to_nat n)). lia. }
    cbn [expr_normalize expr_try_eval bind] in H. change (Ascii.eqb "^" "^") with true in H. cbv iota in H. rewrite (exponent_ok P HR n NB) in H. cbn [bind] in H. rewrite (real_rational_ok P HR n NB) in H. cbn [bind] in H. apply bind_ok in H as (g & Hg & H). injection H as <-.
    exists g. split; [reflexivity|]. apply (frac_pow_any P s a x n g HM A) in Hg; [|now right|now left]. replace (x ^ Z.to_nat n)%R with (powerRZ x n); [exact Hg|]. rewrite <- (Z2Nat.id n) at 1 by lia. now rewrite <- pow_powerRZ.
  Qed.
  Lemma op_step s c a b x y e : fval P s a x -> fval P s b y -> c = "-"%char \/ c = "*"%char -> expr_normalize P (Op c (Leaf a) (Leaf b)) = Ok e ->
    exists f, e = Leaf f /\ fval P s f (if Ascii.eqb c "-" then x - y else x * y)%R.
  Proof.
    intros A B K H. cbn [expr_normalize expr_try_eval bind] in H. assert (K2 : Ascii.eqb c "^" = false) by (now destruct K as [-> | ->]). rewrite K2 in H. apply bind_ok in H as (g & Hg & H). injection H as <-. exists g. split; [reflexivity|].
    apply (apply_op_value P s c a b x y g HM A B) in Hg; [|intros ->; now destruct K as [K|K]|intros ->; now destruct K as [K|K]]. now destruct K as [-> | ->].
  Qed.
  Theorem fib_subst n e : 0 <= n -> Z.of_nat (fact (Z.to_nat n)) < 2 ^ (w - 1) -> expr_subst P [("n"%string, rint n)] fib_tree = Ok e ->
    exists f, e = Leaf f /\ forall s, fv s f = IZR (fib (Z.to_nat n)) /\ pv s (fden f) <> 0%R.
  Proof.
    intros N F H. assert (NB : 0 <= n < 2 ^ (w - 1)). { split; [lia|]. eapply Z.le_lt_trans; [|exact F]. assert (forall k, (k <= fact k)%nat) as K. { induction k as [|k IH]; [cbn; lia|]. cbn [fact]. pose proof (lt_O_fact k). nia. } specialize (K (Z.to_nat n)). lia. }
    assert (G : forall s, exists f, e = Leaf f /\ fval P s f (IZR (fib (Z.to_nat n)))).
    { intros s. unfold fib_tree in H. cbn [expr_subst] in H.
      apply bind_ok in H as (l1 & H1 & H). apply bind_ok in H1 as (a & Ha & H1). injection H1 as <-.
      apply bind_ok in H as (m & H2 & H). apply bind_ok in H2 as (p1 & Hp1 & H2). apply bind_ok in H2 as (p2 & Hp2 & H2).
      apply bind_ok in Hp1 as (l2 & B1 & Hp1). apply bind_ok in B1 as (b & Hb & B1). injection B1 as <-. apply bind_ok in Hp1 as (l3 & B1 & Hp1). apply bind_ok in B1 as (k & Hk & B1). injection B1 as <-. apply sym_value in Hk; [|exact NB]. subst k.
      apply bind_ok in Hp2 as (l4 & B1 & Hp2). apply bind_ok in B1 as (c & Hc & B1). injection B1 as <-. apply bind_ok in Hp2 as (l5 & B1 & Hp2). apply bind_ok in B1 as (k & Hk & B1). injection B1 as <-. apply sym_value in Hk; [|exact NB]. subst k.
      apply (leaf_value s _ _ _ (r / 5)%R) in Ha.
      2:{ intros t T. cbn in T. destruct T as [<-|[<-|[]]]; eauto. }
      2:{ intros s'. rewrite pv_cons, tv_whole. cbn. lra. }
      2:{ intros s'. unfold fv. cbn [fnum fden]. rewrite !pv_cons, tv_whole, tv_sqrt5. cbn. field. }
      apply (leaf_value s _ _ _ ((r + 1) / 2)%R) in Hb.
      2:{ intros t T. cbn in T. destruct T as [<-|[<-|[<-|[]]]]; eauto. }
      2:{ intros s'. rewrite pv_cons, tv_whole. cbn. lra. }
      2:{ intros s'. unfold fv. cbn [fnum fden]. rewrite !pv_cons, !tv_whole, tv_sqrt5. cbn. field. }
      apply (leaf_value s _ _ _ ((- r + 1) / 2)%R) in Hc.
      2:{ intros t T. cbn in T. destruct T as [<-|[<-|[<-|[]]]]; eauto. }
      2:{ intros s'. rewrite pv_cons, tv_whole. cbn. lra. }
      2:{ intros s'. unfold fv. cbn [fnum fden]. rewrite !pv_cons, !tv_whole, tv_sqrt5. cbn. field. }
      destruct (power_step s b _ n p1 Hb N F Hp1) as (f1 & -> & V1). destruct (power_step s c _ n p2 Hc N F Hp2) as (f2 & -> & V2).
      destruct (op_step s "-" f1 f2 _ _ m V1 V2 (or_introl eq_refl) H2) as (f3 & -> & V3). cbn [Ascii.eqb Bool.eqb] in V3.
      destruct (op_step s "*" a f3 _ _ e Ha V3 (or_intror eq_refl) H) as (f4 & -> & V4). exists f4. split; [reflexivity|]. cbn [Ascii.eqb Bool.eqb] in V4. now rewrite binet in V4. }
    destruct (G (fun _ => 0%R)) as (f & -> & _). exists f. split; [reflexivity|]. intros s. destruct (G s) as (f' & E & (_ & D & V)). injection E as <-. now split.
  Qed.
End F.
