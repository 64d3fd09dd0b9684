From Coq Require Import ZArith QArith Qreals Reals String Ascii Lia Lra Bool List.
From Verif Require Import Base AdapterModel RationalModel RationalSpec RationalProofs RealModel RealSpec RealProofs1 RealProofs6 RealProofs8 PolyModel PolySpec SortSpec RestModel RestSpec.
Import ListNotations.
Open Scope Z_scope.

Lemma sum_exponents_value w m : Forall (fun p => qok (snd p)) m -> forall acc r, den acc <> 0 -> sum_exponents w acc m = Ok r ->
  den r <> 0 /\ (qv r == qv acc + fold_right (fun p s => (qv (snd p) + s)%Q) 0%Q m)%Q.
Proof.
  induction 1 as [|[k q] m [Q _] F IH]; intros acc r D H; cbn [sum_exponents fold_right] in *.
  - injection H as <-. split; [exact D|]. ring.
  - apply bind_ok in H as (acc' & Ha & H). cbn [snd] in *. apply rat_add_exact in Ha as [D' V]; [|assumption|lia]. destruct (IH _ _ D' H) as [Dr Vr]. split; [exact Dr|]. rewrite Vr, V. ring.
Qed.
Lemma degree_value w t r : twf w t -> sum_exponents w (Rat 0 1) (syms t) = Ok r -> den r <> 0 /\ (qv r == degree t)%Q.
Proof.
  intros (_ & _ & F) H. destruct (sum_exponents_value w _ F (Rat 0 1) r ltac:(cbn; lia) H) as [D V]. split; [exact D|]. rewrite V. unfold degree, qv at 1. cbn [num den]. change (inject_Z 0 / inject_Z 1)%Q with 0%Q. ring.
Qed.
Lemma is_zero_eq w q e : den q <> 0 -> rat_eq w q (Rat 0 1) = Ok e -> (e = true <-> (qv q == 0)%Q).
Proof. intros D H. rewrite (rat_eq_exact w q (Rat 0 1) e D ltac:(cbn; lia) H). change (qv (Rat 0 1)) with 0%Q. reflexivity. Qed.
Lemma is_zero_ne w q e : den q <> 0 -> rat_ne w q (Rat 0 1) = Ok e -> (negb e = true <-> (qv q == 0)%Q).
Proof.
  intros D H. apply rat_ne_inv in H. cbn [num den] in H. rewrite Z.mul_1_r, Z.mul_0_l in H. subst e. rewrite negb_involutive, Z.eqb_eq. unfold qv, Qeq, Qdiv, Qmult, Qinv, inject_Z. cbn [Qnum Qden].
  split; [intros ->; reflexivity|]. destruct (den q) as [|p|p]; [contradiction|cbn; lia|cbn; lia].
Qed.
Lemma less_value w a b t : 1 < w -> plain_term w a -> plain_term w b -> term_lt w a b = Ok t -> (t = true <-> less a b).
Proof.
  intros Hw (Wa & Ca & Da & Ia) (Wb & Cb & Db & Ib) H. unfold term_lt in H. apply bind_ok in H as (za & Ha & H). apply bind_ok in H as (zb & Hb & H).
  apply of_int_inv in Ha, Hb. subst za zb.
  apply bind_ok in H as (p & Hp & H). apply bind_ok in H as (q & Hq & H). destruct (degree_value w a p Wa Hp) as [Dp Vp]. destruct (degree_value w b q Wb Hq) as [Dq Vq].
  apply bind_ok in H as (e & He & H). apply (rat_eq_exact w p q e Dp Dq) in He. rewrite Vp, Vq in He. unfold less. destruct e.
  - assert (E : (degree a == degree b)%Q) by now apply He.
    assert (t = true <-> (rv (tco a) < rv (tco b))%R).
    { apply (real_lt_value w) in H; [exact H|assumption|apply Wa|apply Wb| | |].
      - split; [assumption|]. destruct Ca as (r & _ & _ & _ & _ & _ & _ & X). exact X.
      - split; [assumption|]. destruct Cb as (r & _ & _ & _ & _ & _ & _ & X). exact X.
      - assert (0 < idx (tco a) /\ 0 < idx (tco b)) by (destruct Wa as [[(A & _) _] _], Wb as [[(B & _) _] _]; unfold wf in *; lia). nia. }
    rewrite H0. split; [tauto|]. intros [X|[X Y]]; [tauto|]. exfalso. apply X. now rewrite E.
  - assert (NE : ~ (degree a == degree b)%Q) by (intros X; apply He in X; discriminate).
    apply bind_ok in H as (a0 & Ha0 & H). apply (is_zero_eq w p a0 Dp) in Ha0. rewrite Vp in Ha0. apply bind_ok in H as (bn & Hbn & H).
    destruct a0.
    + injection Hbn as <-. injection H as <-. split; [discriminate|]. intros [[X _]|[X _]]; [contradiction|]. exfalso. apply X, Ha0. reflexivity.
    + assert (NA : ~ (degree a == 0)%Q) by (intros X; apply Ha0 in X; discriminate).
      apply (is_zero_ne w q bn Dq) in Hbn. rewrite Vq in Hbn. rename Hbn into Hb0. destruct bn; cbn [negb] in H, Hb0.
      * injection H as <-. split; [discriminate|]. intros [[X _]|[_ X]]; [contradiction|]. apply Hb0 in X. discriminate.
      * apply bind_ok in H as (an & Han & H). apply (is_zero_ne w p an Dp) in Han. rewrite Vp in Han.
        destruct an; [|exfalso; apply NA, Han; reflexivity]. cbn [bind] in H. injection H as <-. split; [|reflexivity]. intros _. right. split; [exact NA|]. now apply Hb0.
Qed.
Lemma less_partial_order w : 1 < w -> strict_partial_order (plain_term w) (term_lt w).
Proof.
  intros Hw. pose proof (fun a b t A B H => less_value w a b t Hw A B H) as LV.
  assert (IR : forall a, ~ less a a) by (intros a [[_ X]|[X Y]]; [Lra.lra|contradiction]).
  assert (TR : forall a b c, less a b -> less b c -> less a c).
  { intros a b c [[E1 L1]|[N1 Z1]] [[E2 L2]|[N2 Z2]]; [left|right|right|right].
    - split; [now rewrite E1|Lra.lra].
    - split; [now rewrite E1|assumption].
    - split; [assumption|now rewrite <- E2].
    - contradiction. }
  assert (G : forall a b, plain_term w a -> plain_term w b -> term_lt w a b = Ok true -> less a b) by (intros a b A B H; now apply (LV a b true A B H)).
  split; [|split].
  - intros a A H. exact (IR a (G a a A A H)).
  - intros a b A B H1 H2. exact (IR a (TR a b a (G a b A B H1) (G b a B A H2))).
  - intros a b c A B C H1 H2 H3. pose proof (proj2 (LV a c false A C H3) (TR a b c (G a b A B H1) (G b c B C H2))). discriminate.
Qed.

