(** Histories of Huge operations: arbitrary expressions over literals with + and * on naturals. *)
From Coq Require Import ZArith String Ascii Lia Bool List.
From Verif Require Import Base HugeModel HugeSpec HugeProofs1 HugeProofs2 HugeProofs5 HugeProofs6 HugeProofs7.
Import ListNotations.
Open Scope Z_scope.

(** Any program that builds Huges from decimal literals / unsigned 64-bit integers and combines them with + and *. *)
Inductive hexpr :=
| HText (s : list ascii)
| HInt (n : Z)
| HAdd (a b : hexpr)
| HMul (a b : hexpr).
Fixpoint hrun (e : hexpr) : res huge :=
  match e with
  | HText s => huge_of_string s
  | HInt n => huge_of_unsigned n
  | HAdd a b => x <- hrun a ;; y <- hrun b ;; Ok (huge_add x y)
  | HMul a b => x <- hrun a ;; y <- hrun b ;; huge_mul x y
  end.
Fixpoint hmath (e : hexpr) : Z :=
  match e with
  | HText s => dec_value s
  | HInt n => n
  | HAdd a b => hmath a + hmath b
  | HMul a b => hmath a * hmath b
  end.
Fixpoint hlegal (e : hexpr) : Prop :=
  match e with
  | HText s => s <> [] /\ Forall is_dec_digit s
  | HInt n => 0 <= n < 2 ^ 64
  | HAdd a b => hlegal a /\ hlegal b
  | HMul a b => hlegal a /\ hlegal b
  end.
(** every product has a factor below 2^(30*70) *)
Fixpoint hsmall (e : hexpr) : Prop :=
  match e with
  | HText _ | HInt _ => True
  | HAdd a b => hsmall a /\ hsmall b
  | HMul a b => hsmall a /\ hsmall b /\ Z.min (hmath a) (hmath b) < 2 ^ (30 * 70)
  end.

Lemma hrun_lit_text s : s <> [] -> Forall is_dec_digit s ->
  exists h, huge_of_string s = Ok h /\ hcanon h /\ is_positive h = true /\ hval h = dec_value s.
Proof. intros N F. destruct (parse_plain s [] N F I) as (h & H). rewrite app_nil_r in H. eauto. Qed.
Lemma hrun_lit_int n : 0 <= n < 2 ^ 64 ->
  exists h, huge_of_unsigned n = Ok h /\ hcanon h /\ is_positive h = true /\ hval h = n.
Proof.
  intros H. destruct (huge_of_unsigned_spec 64 n ltac:(lia) H) as (h & H1 & H2 & H3).
  exists h. repeat split; auto; try apply H2.
  unfold huge_of_unsigned in H1. destruct (digits_from_int n); cbn [bind] in H1; try discriminate.
  inversion H1; subst. cbn [is_positive]. apply Z.geb_le. lia.
Qed.

Lemma hrun_sound e : hlegal e -> forall h, hrun e = Ok h -> hcanon h /\ is_positive h = true /\ hval h = hmath e.
Proof.
  induction e as [s|n|a IHa b IHb|a IHa b IHb]; intros L h E; cbn [hlegal hrun hmath] in *.
  - destruct (hrun_lit_text s) as (h' & H1 & H2); try tauto. rewrite H1 in E. inversion E; subst. tauto.
  - destruct (hrun_lit_int n L) as (h' & H1 & H2). rewrite H1 in E. inversion E; subst. tauto.
  - destruct (hrun a) as [x| | |]; cbn [bind] in E; try discriminate.
    destruct (hrun b) as [y| | |]; cbn [bind] in E; try discriminate.
    destruct (IHa (proj1 L) x eq_refl) as (A1 & A2 & A3), (IHb (proj2 L) y eq_refl) as (B1 & B2 & B3).
    inversion E; subst h. split; [apply huge_add_canon; auto; congruence|].
    split; [unfold huge_add; rewrite A2, B2; reflexivity|].
    rewrite (proj2 (huge_add_spec x y A1 B1)). lia.
  - destruct (hrun a) as [x| | |]; cbn [bind] in E; try discriminate.
    destruct (hrun b) as [y| | |]; cbn [bind] in E; try discriminate.
    destruct (IHa (proj1 L) x eq_refl) as (A1 & A2 & A3), (IHb (proj2 L) y eq_refl) as (B1 & B2 & B3).
    destruct (huge_mul_spec x y h (canon_wf _ A1) (canon_wf _ B1) E) as [M1 M2].
    split; [assumption|]. split; [|congruence].
    unfold huge_mul in E. destruct (digits_mul (digits x) (digits y)); cbn [bind] in E; try discriminate.
    inversion E; subst. cbn [is_positive]. unfold same_sign. rewrite A2, B2. reflexivity.
Qed.

Lemma canon_len_70 x : hcanon x -> is_positive x = true -> hval x < 2 ^ (30 * 70) -> (length (digits x) <= 70)%nat.
Proof.
  intros C P H. unfold hval in H. rewrite P in H. apply canon_length_le; [assumption|].
  unfold BASE. rewrite <- Z.pow_mul_r by lia. exact H.
Qed.
Lemma hrun_total e : hlegal e -> hsmall e -> exists h, hrun e = Ok h.
Proof.
  induction e as [s|n|a IHa b IHb|a IHa b IHb]; intros L S; cbn [hlegal hrun hsmall] in *.
  - destruct (hrun_lit_text s) as (h & H & _); try tauto. eauto.
  - destruct (hrun_lit_int n L) as (h & H & _). eauto.
  - destruct IHa as [x Ex]; try tauto. destruct IHb as [y Ey]; try tauto. rewrite Ex, Ey. cbn [bind]. eauto.
  - destruct IHa as [x Ex]; try tauto. destruct IHb as [y Ey]; try tauto. rewrite Ex, Ey. cbn [bind].
    destruct (hrun_sound a (proj1 L) x Ex) as (A1 & A2 & A3), (hrun_sound b (proj2 L) y Ey) as (B1 & B2 & B3).
    apply huge_mul_small; auto. left. rewrite <- A3, <- B3 in S.
    destruct S as (_ & _ & S). destruct (Z_le_gt_dec (hval x) (hval y)).
    + pose proof (canon_len_70 x A1 A2 ltac:(lia)). lia.
    + pose proof (canon_len_70 y B1 B2 ltac:(lia)). lia.
Qed.
