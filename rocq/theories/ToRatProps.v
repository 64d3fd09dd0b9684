(** C69: is_rational() and to<Rational<T>>().
    [lrun E e] runs a history of Real operations, [ldenotes e] is the real number it stands for (RealSpec), [rational v] says that v is a
    quotient of two integers (NumSpec). *)
From Coq Require Import ZArith Znumtheory QArith Qreals Reals String Ascii Lia Lra Bool List.
From Verif Require Import Base AdapterModel AdapterProofs RationalProofs FactorizeModel RationalModel RationalSpec RealModel RealSpec RealProofs6 PolyModel PolySpec ExprModel ExprProofs1 NumSpec NumProofs6 NumProofs7 TextSpec SortProofs.
Import ListNotations.
Open Scope Z_scope.

(** is_rational() decides whether the number is rational, for every history of constructors, + - * /, negate, inverse and integer pow *)
Theorem C69_decides E e x b : 1 < ew E -> fac_sound E -> fac_exact E -> lwf (ew E) e -> lrun E e = Ok x -> is_rational (ew E) x = Ok b ->
  (b = true <-> rational (ldenotes e)).
Proof.
  intros Hw FS FE W H B. destruct (lrun_value E e Hw FS FE W x H) as [_ <-]. exact (nearly_decides (ew E) x b (lrun_nearly E e Hw FS FE W x H) B).
Qed.
Print Assumptions C69_decides.
(** and it never overflows *)
Theorem C69_total w x : 2 <= w -> in_w w (coe x) -> in_w w (rad x) -> exists b, is_rational w x = Ok b.
Proof. exact (is_rational_total w x). Qed.
Print Assumptions C69_total.
(** to<Rational<T>>() is the number itself, whenever it returns *)
Theorem C69_value E e x q : 1 < ew E -> fac_sound E -> fac_exact E -> lwf (ew E) e -> lrun E e = Ok x -> real_to_rational (ew E) x = Ok q ->
  den q <> 0 /\ (IZR (num q) / IZR (den q) = ldenotes e)%R.
Proof.
  intros Hw FS FE W H B. destruct (lrun_value E e Hw FS FE W x H) as [G <-]. destruct (real_rational_value (ew E) x q G B) as [V D]. split; [exact D|].
  rewrite <- V. symmetry. exact (qv_value q D).
Qed.
Print Assumptions C69_value.
(** it returns if the number is rational (and no part is the smallest number of the type), it throws if it is not *)
Theorem C69_outcome E e x : 1 < ew E -> fac_sound E -> fac_exact E -> lwf (ew E) e -> lrun E e = Ok x -> in_w (ew E) (coe x) -> in_w (ew E) (rad x) ->
  (~ rational (ldenotes e) -> real_to_rational (ew E) x = Throw "Must be a rational.") /\
  (rational (ldenotes e) -> Z.abs (num (coe x)) < 2 ^ (ew E - 1) -> Z.abs (den (coe x)) < 2 ^ (ew E - 1) -> exists q, real_to_rational (ew E) x = Ok q).
Proof.
  intros Hw FS FE W H I1 I2. destruct (is_rational_total (ew E) x ltac:(lia) I1 I2) as (b & B). pose proof (C69_decides E e x b Hw FS FE W H B) as D. split.
  - intros N. unfold real_to_rational. rewrite B. destruct b; [exfalso; apply N, D; reflexivity|reflexivity].
  - intros Y A1 A2. apply D in Y. subst b. unfold real_to_rational. rewrite B. cbn [bind]. rewrite (nearly_rational _ _ (lrun_nearly E e Hw FS FE W x H) B).
    destruct (lrun_value E e Hw FS FE W x H) as [((_ & _ & _ & Dc) & _) _]. exists (coe x). exact (mul_one (ew E) (coe x) Hw A1 A2 Dc).
Qed.
Print Assumptions C69_outcome.
(** Frac::to<Rational<T>>(): the value of the fraction, whatever the symbols are *)
Theorem C69_fraction w s f q : pwf w (fnum f) -> pwf w (fden f) -> frac_to_rational w f = Ok q -> (fv s f = Q2R (qv q))%R.
Proof. intros A B H. symmetry. exact (frac_rational_value w s f q A B H). Qed.
Print Assumptions C69_fraction.
(** a fraction with a symbol in it is never converted *)
Theorem C69_fraction_symbols w f t : (In t (fnum f) \/ In t (fden f)) -> syms t <> [] -> forall q, frac_to_rational w f <> Ok q.
Proof.
  intros HI HS q H. unfold frac_to_rational in H. apply bind_ok in H as (n & Hn & H). apply bind_ok in H as (d & Hd & _).
  assert (G : forall l acc r, In t l -> sum_rationals w acc l <> Ok r).
  { induction l as [|u l IH]; intros acc r I; [destruct I|]. intros X. cbn [sum_rationals] in X. apply bind_ok in X as (y & Hy & X). apply bind_ok in X as (a' & _ & X).
    destruct I as [->|I]; [|exact (IH _ _ I X)]. unfold term_to_rational, no_symbols in Hy. destruct (syms t); [contradiction|discriminate]. }
  unfold poly_to_rational in *. apply bind_ok in Hn as (z & _ & Hn). apply bind_ok in Hd as (z' & _ & Hd). destruct HI as [I|I]; [exact (G _ _ _ I Hn)|exact (G _ _ _ I Hd)].
Qed.
Print Assumptions C69_fraction_symbols.
(** Frac::is_rational(): no term of the numerator or denominator has a symbol, and every coefficient is rational *)
Theorem C69_fraction_decides w f b : (forall t, In t (fnum f ++ fden f) -> canonical (tco t)) -> frac_is_rational w f = Ok b ->
  (b = true <-> forall t, In t (fnum f ++ fden f) -> syms t = [] /\ rational (rv (tco t))).
Proof.
  intros C H. assert (G : forall l b, (forall t, In t l -> canonical (tco t)) -> poly_is_rational w l = Ok b -> (b = true <-> forall t, In t l -> syms t = [] /\ rational (rv (tco t)))).
  { clear. induction l as [|t l IH]; intros b C H; cbn [poly_is_rational] in H; [injection H as <-; split; [intros _ t []|reflexivity]|]. apply bind_ok in H as (c & Hc & H).
    assert (D : c = true <-> syms t = [] /\ rational (rv (tco t))).
    { unfold term_is_rational, no_symbols in Hc. destruct (syms t); [|injection Hc as <-; split; [discriminate|intros [X _]; discriminate]]. apply (nearly_decides w) in Hc; [|left; apply C; now left]. rewrite Hc. split; [auto|intros [_ X]; exact X]. }
    destruct c.
    - rewrite (IH b (fun u I => C u (or_intror I)) H). split; [intros X u [<-|I]; [now apply D|now apply X]|intros X u I; apply X; now right].
    - injection H as <-. split; [discriminate|]. intros X. apply D, X. now left. }
  unfold frac_is_rational in H. apply bind_ok in H as (c & Hc & H). apply G in Hc; [|intros t I; apply C, in_or_app; now left]. destruct c.
  - apply G in H; [|intros t I; apply C, in_or_app; now right]. rewrite H. split; [intros X t I; apply in_app_or in I as [I|I]; [now apply Hc|now apply X]|intros X t I; apply X, in_or_app; now right].
  - injection H as <-. split; [discriminate|]. intros X. apply Hc. intros t I. apply X, in_or_app. now left.
Qed.
Print Assumptions C69_fraction_decides.
(** where it says no, the conversion does not return *)
Theorem C69_fraction_refused w f : frac_is_rational w f = Ok false -> forall q, frac_to_rational w f <> Ok q.
Proof.
  intros H q X. assert (G : forall l acc r, sum_rationals w acc l = Ok r -> poly_is_rational w l <> Ok false).
  { clear. induction l as [|t l IH]; intros acc r H; cbn [sum_rationals poly_is_rational] in *; [discriminate|]. apply bind_ok in H as (y & Hy & H). apply bind_ok in H as (a & _ & H). unfold term_to_rational in Hy. unfold term_is_rational. destruct (no_symbols t); [|discriminate].
    unfold real_to_rational in Hy. apply bind_ok in Hy as (c & -> & Hy). destruct c; [|discriminate]. cbn [bind]. exact (IH _ _ H). }
  unfold frac_to_rational, poly_to_rational in X. apply bind_ok in X as (n & Hn & X). apply bind_ok in X as (d & Hd & _). apply bind_ok in Hn as (z & _ & Hn). apply bind_ok in Hd as (z' & _ & Hd). apply G in Hn, Hd.
  unfold frac_is_rational in H. destruct (poly_is_rational w (fnum f)) as [[]|m|m|]; cbn [bind] in H; congruence.
Qed.
Print Assumptions C69_fraction_refused.

Local Definition E64 := std_env 64 true (fun k => Z.of_nat k * Z.of_nat k * 3 + 1) 200 0.
Local Definition root2 (c n : Z) : rlexp := LMake (Rat c 1) (Rat n 1) 2.
(** sqrt(8) / sqrt(18) is 2/3; 1 / sqrt(2) is irrational *)
Example C69_ex : let e := LDiv (root2 1 8) (root2 1 18) in
  lwf 64 e /\ (x <- lrun E64 e ;; real_to_rational 64 x) = Ok (Rat 2 3) /\
  lwf 64 (LInv (root2 3 2)) /\ lrun E64 (LInv (root2 3 2)) = Ok (Real 2 (Rat 1 2) (Rat 1 3)) /\ is_rational 64 (Real 2 (Rat 1 2) (Rat 1 3)) = Ok false.
Proof. cbv zeta. split; [unfold lwf, wf; cbn; lia|]. split; [vm_compute; reflexivity|]. split; [unfold lwf, wf; cbn; lia|]. split; vm_compute; reflexivity. Qed.
(** hence sqrt(2)/6 is irrational *)
Example C69_ex_irrational : ~ rational (ldenotes (LInv (root2 3 2))).
Proof.
  intros Y. assert (A : lrun E64 (LInv (root2 3 2)) = Ok (Real 2 (Rat 1 2) (Rat 1 3))) by (vm_compute; reflexivity).
  assert (B : is_rational 64 (Real 2 (Rat 1 2) (Rat 1 3)) = Ok false) by (vm_compute; reflexivity).
  pose proof (C69_decides E64 (LInv (root2 3 2)) _ false ltac:(reflexivity) (std_sound 64 true _ 200 0) (std_exact 64 true _ 200 0 ltac:(lia)) ltac:(unfold lwf, wf; cbn; lia) A B) as D.
  apply D in Y. discriminate.
Qed.

(** it decides term by term: 2 sqrt(2) / (3 sqrt(2)) is 2/3, and yet refused; 2/(3*5) is accepted *)
Local Definition quot (a b : real) : frac := Frac [Term a []] [Term b []].
Example C69_fraction_ex : frac_is_rational 64 (quot (Real 1 (Rat 1 1) (Rat 2 1)) (Real 1 (Rat 1 1) (Rat 15 1))) = Ok true. Proof. vm_compute. reflexivity. Qed.
Theorem C69_fraction_rational_refuted : exists f, (forall t, In t (fnum f ++ fden f) -> canonical (tco t)) /\ (forall s, fv s f = 2 / 3)%R /\ frac_is_rational 64 f = Ok false.
Proof.
  exists (quot (Real 2 (Rat 2 1) (Rat 2 1)) (Real 2 (Rat 2 1) (Rat 3 1))). split; [|split; [|vm_compute; reflexivity]].
  - intros t [<-|[<-|[]]]; apply canonical_root2; discriminate.
  - intros s. unfold fv, quot. cbn [fnum fden]. set (r := radical (Real 2 (Rat 2 1) (Rat 1 1))). assert (P : (0 < r)%R) by apply exp_pos.
    assert (V : forall c, pv s [Term (Real 2 (Rat 2 1) (Rat c 1)) []] = (IZR c * r)%R).
    { intros c. unfold pv, tv. cbn [fold_right tco syms sv]. unfold rv. cbn [coe rad idx]. change (Rpower (Q2R (qv (Rat 2 1))) (/ 2)) with r. rewrite (qv_value (Rat c 1)) by discriminate. cbn [num den]. field. }
    rewrite !V. field. lra.
Qed.
Print Assumptions C69_fraction_rational_refuted.
