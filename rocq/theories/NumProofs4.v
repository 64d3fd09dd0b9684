(** Lemmas: rounding depends on the value only; the accuracy of Rational::to and Real::to. *)
From Coq Require Import ZArith QArith Qabs Qround Qreals Reals Lia Lqa Lra Bool List.
From Verif Require Import Base RationalModel RationalSpec RealModel RealSpec DecModel DecSpec DecProofs1 DecProofs2 DecProofs3 NumModel NumSpec NumProofs1 NumProofs2 NumProofs3.
Import ListNotations.

Section RndWd.
Local Open Scope Z_scope.
Lemma rnd_wd_pos p x y : (0 < x)%Q -> (x == y)%Q -> (rnd p x == rnd p y)%Q.
Proof.
  intros Hx E. destruct (rnd_spec p x Hx) as (e & m & A1 & A2 & A3 & A4 & A5 & A6). destruct (rnd_spec p y ltac:(Lqa.lra)) as (f & n & B1 & B2 & B3 & B4 & B5 & B6).
  assert (e = f). { assert (e < f + 1) by (apply P2_lt_inv; Lqa.lra). assert (f < e + 1) by (apply P2_lt_inv; Lqa.lra). lia. } subst f.
  set (u := P2 (e - p + 1)) in *. assert (U : (0 < u)%Q) by apply P2_pos.
  rewrite A3, B3. clear A3 B3 A1 A2 B1 B2.
  destruct (Z.eq_dec m n) as [->|N]; [reflexivity|exfalso].
  assert (Key : forall a b, (a < b)%Z -> (Qabs (x - inject_Z a * u) * 2 <= u)%Q -> (Qabs (x - inject_Z b * u) * 2 <= u)%Q ->
                 (b = a + 1)%Z /\ (Qabs (x - inject_Z a * u) * 2 == u)%Q /\ (Qabs (x - inject_Z b * u) * 2 == u)%Q).
  { intros a b L HA HB.
    destruct (Qabs_cases (x - inject_Z a * u)) as [[C1 C2]|[C1 C2]]; destruct (Qabs_cases (x - inject_Z b * u)) as [[D1 D2]|[D1 D2]]; rewrite C2 in *; rewrite D2 in *;
    assert (LQ : (inject_Z a + 1 <= inject_Z b)%Q) by (change 1%Q with (inject_Z 1); rewrite <- inject_Z_plus, <- Zle_Qle; lia);
    assert (LU : ((inject_Z a + 1) * u <= inject_Z b * u)%Q) by (apply Qmult_le_compat_r; Lqa.lra); try (exfalso; Lqa.lra).
    split; [|split; Lqa.lra]. assert (inject_Z b < inject_Z a + 2)%Q. { apply Qnot_le_lt. intros C. assert ((inject_Z a + 2) * u <= inject_Z b * u)%Q by (apply Qmult_le_compat_r; Lqa.lra). Lqa.lra. }
    change 2%Q with (inject_Z 2) in H. rewrite <- inject_Z_plus, <- Zlt_Qlt in H. lia. }
  assert (B5' : (Qabs (x - inject_Z n * u) * 2 <= u)%Q) by (rewrite E; exact B5).
  assert (B6' : (Qabs (x - inject_Z n * u) * 2 == u)%Q -> Z.even n = true) by (rewrite E; exact B6).
  assert (C : m < n \/ n < m) by lia. destruct C as [C|C].
  - destruct (Key m n C A5 B5') as (K1 & K2 & K3). specialize (A6 K2). specialize (B6' K3). subst n. rewrite Z.even_add, A6 in B6'. discriminate.
  - destruct (Key n m C B5' A5) as (K1 & K2 & K3). specialize (A6 K3). specialize (B6' K2). subst m. rewrite Z.even_add, B6' in A6. discriminate.
Qed.
Lemma rnd_wd p x y : (x == y)%Q -> (rnd p x == rnd p y)%Q.
Proof.
  intros E. destruct (Qlt_le_dec 0 x) as [H|H]; [apply rnd_wd_pos; assumption|]. destruct (Qlt_le_dec x 0) as [H'|H'].
  - pose proof (rnd_wd_pos p (- x) (- y) ltac:(Lqa.lra) ltac:(Lqa.lra)) as A. rewrite !rnd_opp in A. Lqa.lra.
  - rewrite !rnd_0 by Lqa.lra. reflexivity.
Qed.
Lemma rat_to_float_exact p r : 1 <= p -> Z.abs (num r) <= 2 ^ p -> Z.abs (den r) <= 2 ^ p -> den r <> 0 -> (rat_to_float p r == rnd p (qv r))%Q.
Proof. intros A B C D. destruct (rat_to_float_nearest p r A B C D) as (z & E & ->). apply rnd_wd, E. Qed.
End RndWd.

Open Scope R_scope.
Lemma within_mono u u' k a b : 0 <= u <= u' -> u' < 1 -> 0 <= a -> 0 <= b -> within u k a b -> within u' k a b.
Proof.
  intros Hu Hu' Ha Hb [A B]. assert (L : (1 - u') ^ k <= (1 - u) ^ k) by (apply pow_incr; lra).
  split; [apply Rle_trans with (b * (1 - u) ^ k)|apply Rle_trans with (a * (1 - u) ^ k)]; try assumption; apply Rmult_le_compat_l; assumption.
Qed.

(** any positive rational: two conversions and a division *)
Lemma qv_pos r : (0 < num r)%Z -> (0 < den r)%Z -> (0 < qv r)%Q.
Proof.
  intros Hn Hd. unfold qv, Qdiv. apply Qmult_lt_0_compat; [change 0%Q with (inject_Z 0); rewrite <- Zlt_Qlt; lia|]. apply Qinv_lt_0_compat. change 0%Q with (inject_Z 0). rewrite <- Zlt_Qlt. lia.
Qed.
Lemma Q2R_quot a b : ~ (b == 0)%Q -> Q2R (a / b) = Q2R a / Q2R b.
Proof. intros H. apply Q2R_div, H. Qed.
Lemma rat_to_float_close p r : (2 <= p)%Z -> (0 < num r)%Z -> (0 < den r)%Z -> 0 < Q2R (qv r) /\ within (ulp p) 3 (Q2R (rat_to_float p r)) (Q2R (qv r)).
Proof.
  intros Hp Hn Hd. pose proof (qv_pos r Hn Hd) as P. split; [apply Q2R_pos, P|]. assert (HU := Hu p Hp).
  assert (Pn : (0 < inject_Z (num r))%Q) by (change 0%Q with (inject_Z 0); rewrite <- Zlt_Qlt; lia). assert (Pd : (0 < inject_Z (den r))%Q) by (change 0%Q with (inject_Z 0); rewrite <- Zlt_Qlt; lia).
  pose proof (within_rnd p _ ltac:(lia) Pn) as Wn. pose proof (within_rnd p _ ltac:(lia) Pd) as Wd.
  assert (Rn := proj1 (Q2R_pos _) Pn). assert (Rd := proj1 (Q2R_pos _) Pd).
  assert (Rd' : 0 < Q2R (rnd p (inject_Z (den r)))) by (apply (within_pos (ulp p) HU 1 _ _ Rd Wd)).
  unfold rat_to_float, fdiv. change 3%nat with (S 2). apply (rounded p Hp); [apply Q2R_pos, P|].
  rewrite Q2R_quot by (intros C; rewrite (Qeq_eqR _ _ C) in Rd'; rewrite Q2R_0 in Rd'; lra).
  unfold qv. rewrite Q2R_quot by (intros C; rewrite C in Pd; Lqa.lra). change 2%nat with (1 + 1)%nat. apply within_div; assumption.
Qed.
