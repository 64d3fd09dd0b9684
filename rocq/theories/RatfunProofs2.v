(** Proofs: what the operations do with rational coefficients. *)
From Coq Require Import ZArith Znumtheory QArith Qreals Reals String Ascii Lia Lra Bool List Permutation Sorted.
From Verif Require Import Base AdapterModel AdapterProofs RationalModel RationalSpec RationalProofs RationalProofs2 RealModel RealSpec RealProofs1 RealProofs3 RealProofs4 RealProofs5 PolyModel PolySpec PolyProofs1 PolyProofs2 PolyProofs3 PolyProofs6 ExprModel ParserModel TextSpec TextProofs1 RingProofs1 RingProofs2 RingProofs3.
Import ListNotations.
Open Scope Z_scope.

Definition rq (q : rat) : real := Real 1 (Rat 1 1) q.
Definition israt (x : real) : Prop := exists q, x = rq q /\ den q <> 0.
Lemma israt_int n : israt (rint n). Proof. exists (Rat n 1). split; [reflexivity|discriminate]. Qed.
Lemma rv_rq q : rv (rq q) = Q2R (qv q).
Proof. rewrite rv_root. cbn [rq coe rad idx]. rewrite rat1_R, root_one. ring. Qed.
Lemma rq_zero q : den q <> 0 -> (rv (rq q) = 0%R <-> num q = 0).
Proof.
  intros D. rewrite rv_rq, qv_R by assumption. split; [|intros ->; unfold Rdiv; ring]. intros H. apply eq_IZR. apply not_0_IZR in D. apply (Rmult_eq_compat_r (IZR (den q))) in H. unfold Rdiv in H. rewrite Rmult_assoc, Rinv_l, Rmult_1_r, Rmult_0_l in H by exact D. exact H.
Qed.
Lemma one_canonical x : canonical x -> rv x = 1%R -> israt x.
Proof.
  intros C V. assert (D : den (coe x) <> 0) by (destruct C as (m & _ & _ & _ & D & _); exact D). destruct (canonical_unique x (Real 1 (Rat 1 1) (Rat 1 1)) C) as (A & B & _); [apply RealProofs3.canonical_one; discriminate|now rewrite V, rv_one|]. exists (coe x). split; [|exact D]. destruct x as [i r c]. cbn [idx rad coe] in *. now subst.
Qed.
Lemma mul_den_rng w a b r : rat_mul w a b = Ok r -> den r < 2 ^ (w - 1).
Proof.
  intros H. unfold rat_mul in H. do 6 (apply bind_ok in H as (? & _ & H)). apply bind_ok in H as (d2 & _ & H). apply bind_ok in H as (d & Hd & H). apply chk_inv in Hd as [-> B]. destruct (_ =? 0); [discriminate|]. injection H as <-. cbn [den]. lia.
Qed.

Section I.
  Variable P : penv.
  Hypothesis HR : reads P.
  Hypothesis HM : machine P.
  Local Notation E := (pe P).
  Local Notation w := (ew (pe P)).
  Lemma qof n x : real_of_int E n = Ok x -> israt x.
  Proof. intros H. apply (zof P HR) in H as ->. apply israt_int. Qed.
  Lemma qadd a b x : israt a -> israt b -> real_add E a b = Ok x -> israt x.
  Proof.
    intros (p & -> & A) (q & -> & B) H. unfold real_add in H. apply bind_ok in H as (e & _ & H). destruct e; [|discriminate]. apply bind_ok in H as (c & Hc & H). cbn [rq coe] in Hc. apply rat_add_exact in Hc as [D _]; try assumption. cbn [rq idx rad] in H. apply (norm_unit P HR) in H as ->. now exists c.
  Qed.
  Lemma qneg a x : israt a -> real_negate E a = Ok x -> israt x.
  Proof.
    intros (p & -> & A) H. unfold real_negate in H. apply bind_ok in H as (c & Hc & H). cbn [rq coe] in Hc. apply rat_negate_exact in Hc as [D _]; try assumption. cbn [rq idx rad] in H. apply (norm_unit P HR) in H as ->. now exists c.
  Qed.
  Lemma qmul a b x : israt a -> israt b -> real_mul E a b = Ok x -> israt x.
  Proof.
    intros (p & -> & A) (q & -> & B) H. pose proof (w3 P HR) as W3. pose proof (w4 P HR) as W4. unfold real_mul in H. cbv zeta in H. cbn [rq idx rad coe] in H. apply bind_ok in H as (l & Hl & H). unfold ulcm in Hl. destruct (_ <? _); [|discriminate]. injection Hl as <-. change (Z.lcm 1 1) with 1 in H. change (uquot 1 1) with (Ok 1) in H. cbn [bind] in H.
    assert (I : rat_of_index w 1 = Ok (Rat 1 1)) by (unfold rat_of_index; rewrite swrap_id by lia; apply of_int_ok; lia). rewrite I in H. cbn [bind] in H. rewrite (rpow_one P HR) in H. cbn [bind] in H. apply bind_ok in H as (r & Hr & H). apply mul_zz in Hr as ->. apply bind_ok in H as (c & Hc & H). apply rat_mul_exact in Hc as (_ & _ & D & _). apply (norm_unit P HR) in H as ->. now exists c.
  Qed.
  Lemma qinv a x : israt a -> real_inverse w a = Ok x -> israt x.
  Proof.
    intros (p & -> & A) H. pose proof (w3 P HR) as W3. pose proof (w4 P HR) as W4. unfold real_inverse in H. cbn [rq idx rad coe] in H. apply bind_ok in H as (c & Hc & H). apply rat_inverse_exact in Hc as (D & _); [|exact A]. assert (I : rat_inverse w (Rat 1 1) = Ok (Rat 1 1)) by (unfold rat_inverse, rat_make; cbn [num den Z.eqb]; apply (of_int_ok w 1); lia). rewrite I in H. cbn [bind] in H. injection H as <-. now exists c.
  Qed.
  Lemma qdiv a b x : israt a -> israt b -> real_div E a b = Ok x -> israt x.
  Proof. intros A B H. unfold real_div in H. apply bind_ok in H as (i & Hi & H). apply qinv in Hi; [|exact B]. now apply (qmul a i). Qed.
  Lemma qpow a n x : 0 <= n -> israt a -> real_pow E a (Rat n 1) = Ok x -> israt x.
  Proof.
    intros N (p & -> & A) H. unfold real_pow in H. cbn [real_pow_fuel] in H. apply bind_ok in H as (z & Hz & H). destruct z; [now apply qof in H|]. apply bind_ok in H as (o & Ho & H). destruct o; [injection H as <-; now exists p|].
    apply bind_ok in H as (g & Hg & H). apply rat_lt_int in Hg. destruct (Z.ltb_spec n 0); [lia|]. subst g. unfold real_pow_pos in H. cbv zeta in H. change (is_int (Rat n 1)) with true in H. cbv iota in H. cbn [rq idx rad coe] in H. apply bind_ok in H as (c & Hc & H). apply bind_ok in H as (r & Hr & H). apply rpow_inv in Hc as (_ & D & _); [|exact A]. pose proof (w3 P HR). pose proof (w4 P HR). apply pow_zz in Hr as [-> _]; try lia. rewrite Z.pow_1_l in H by assumption. apply (norm_unit P HR) in H as ->. now exists c.
  Qed.
  (** a fractional power of 1 *)
  Lemma one_root q x : 0 < den q < 2 ^ w -> 0 <= num q -> real_pow E (rint 1) q = Ok x -> israt x.
  Proof.
    intros D N H. pose proof HM as (Hw & FS & FE & _). unfold real_pow in H. cbn [real_pow_fuel] in H. apply bind_ok in H as (z & Hz & H). destruct z; [now apply qof in H|]. apply bind_ok in H as (o & Ho & H). destruct o; [injection H as <-; apply israt_int|].
    apply bind_ok in H as (g & Hg & H). apply rat_lt0 in Hg; [|lia]. destruct (Z.ltb_spec (num q) 0); [lia|]. subst g. apply pow_pos_frac in H as (_ & C & V); try assumption; try (apply (wf_one w); exact Hw); try (cbn [rint idx coe num den]; lia).
    apply one_canonical; [exact C|]. rewrite V. change (rv (rint 1)) with (rv (Real 1 (Rat 1 1) (Rat 1 1))). rewrite rv_one. apply Rpower_1_l.
  Qed.
End I.
