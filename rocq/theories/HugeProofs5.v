(** Lemmas: summary of division, remainder, gcd. *)
From Coq Require Import ZArith String Ascii Lia Bool List.
From Verif Require Import Base HugeModel HugeSpec HugeProofs1 HugeProofs2 HugeProofs3 HugeProofs4.
Import ListNotations.
Open Scope Z_scope.

Definition ub_back : string := "back() on an empty vector".

Lemma canon_two_digits b : canon b -> ((2 <= length b)%nat <-> BASE <= dval b).
Proof.
  intros Hb. split; intros H.
  - assert (b <> []) by (destruct b; cbn in *; [lia|congruence]).
    pose proof (canon_lower b Hb H0). pose proof (pow_le_mono 1 (Z.of_nat (length b) - 1) ltac:(lia)).
    rewrite Z.pow_1_r in *. lia.
  - destruct (Nat.le_gt_cases 2 (length b)) as [|G]; [assumption|].
    pose proof (dval_bound b (canon_wf b Hb)). pose proof (pow_le_mono (Z.of_nat (length b)) 1 ltac:(lia)).
    rewrite Z.pow_1_r in *. lia.
Qed.

Lemma canon_single x : canon [x] -> 0 < x < BASE /\ dval [x] = x.
Proof.
  intros [Hw Hl]. apply wf_cons in Hw. specialize (Hl ltac:(discriminate)). cbn in Hl. cbn [dval]. lia.
Qed.

Lemma cmp_pos a b : canon a -> canon b ->
  (digits_cmp a b true true =? 0) = (dval a =? dval b) /\ (digits_cmp a b true true <? 0) = (dval a <? dval b).
Proof.
  intros Ha Hb. pose proof (digits_cmp_spec a b true true Ha Hb) as C. cbn in C.
  destruct (sgn_tests _ _ C) as (T1 & T2 & _). rewrite T1, T2. split.
  - destruct (Z.eqb_spec (dval a - dval b) 0), (Z.eqb_spec (dval a) (dval b)); lia || reflexivity.
  - destruct (Z.ltb_spec (dval a - dval b) 0), (Z.ltb_spec (dval a) (dval b)); lia || reflexivity.
Qed.

(** division returns unless the divisor has >= 2 digits and divides the (larger) dividend *)
Definition exact_long (a b : Z) : Prop := BASE <= b /\ b < a /\ (b | a).

Lemma digits_divrem_spec a b : canon a -> canon b -> b <> [] ->
  (exact_long (dval a) (dval b) -> digits_divrem a b = Ub ub_back) /\
  (~ exact_long (dval a) (dval b) ->
   exists q r, digits_divrem a b = Ok (q, r) /\ wf q /\ canon r /\
     dval q = dval a / dval b /\ dval r = dval a mod dval b /\ ((2 <= length b)%nat -> canon q)).
Proof.
  intros Ha Hb Nb. pose proof (canon_pos b Hb Nb) as Pb. pose proof (dval_nonneg a (canon_wf a Ha)) as Pa.
  destruct (cmp_pos a b Ha Hb) as [T1 T2].
  destruct (Z.lt_trichotomy (dval a) (dval b)) as [C|[C|C]].
  - split; [intros (H1 & H2 & H3); lia|]. intros _.
    exists [], a. unfold digits_divrem. rewrite T1, T2.
    destruct (Z.eqb_spec (dval a) (dval b)); [lia|]. destruct (Z.ltb_spec (dval a) (dval b)); [|lia].
    split; [reflexivity|]. split; [apply wf_nil|]. split; [assumption|].
    rewrite Z.div_small, Z.mod_small by lia. repeat split; auto using wf_nil; congruence.
  - split; [intros (H1 & H2 & H3); lia|]. intros _.
    exists [1], []. unfold digits_divrem. rewrite T1.
    destruct (Z.eqb_spec (dval a) (dval b)); [|lia].
    assert (W1 : wf [1]) by (apply wf_cons; split; [rewrite BASE_val; lia|apply wf_nil]).
    split; [reflexivity|]. split; [assumption|]. split; [apply canon_nil|].
    rewrite C, Z.div_same, Z.mod_same by lia. repeat split; auto; cbn; discriminate.
  - destruct (Nat.le_gt_cases 2 (length b)) as [L|L].
    + pose proof (proj1 (canon_two_digits b Hb) L) as LB.
      destruct (digits_divrem_long a b Ha Hb L C) as (q & r & Q1 & Q2 & Q3 & Q4 & Q5).
      rewrite Q5. split.
      * intros (_ & _ & D). apply Z.mod_divide in D; [|lia].
        rewrite (trim_back_zero r) by (auto; lia). reflexivity.
      * intros NE.
        assert (R0 : dval r <> 0).
        { rewrite Q4. intros E. apply NE. split; [assumption|]. split; [assumption|]. apply Z.mod_divide; lia. }
        destruct (trim_back_pos r Q2 R0) as (r' & R1 & R2 & R3 & _).
        assert (Q0 : dval q <> 0).
        { rewrite Q3. assert (0 < dval a / dval b); [|lia]. apply Z.div_str_pos. lia. }
        destruct (trim_back_pos q Q1 Q0) as (q' & R1' & R2' & R3' & _).
        rewrite R1, R1'. cbn [bind]. exists q', r'. rewrite R3, R3'. repeat split; auto; try apply R2'; apply R2.
    + split; [intros (H1 & _); apply canon_two_digits in H1; [lia|assumption]|]. intros _.
      unfold digits_divrem. rewrite T1, T2.
      destruct (Z.eqb_spec (dval a) (dval b)); [lia|]. destruct (Z.ltb_spec (dval a) (dval b)); [lia|].
      destruct b as [|x [|y b]]; [congruence| |cbn in L; lia].
      destruct (canon_single x Hb) as [Hx Ex]. rewrite Ex.
      destruct (digits_divrem_by1_spec a x Hx (canon_wf a Ha)) as (q & r & E & W1 & L1 & C1 & V1 & V2).
      exists q, r. repeat split; auto; try apply C1. cbn; lia.
Qed.

Lemma digits_rem_spec a b : canon a -> canon b -> b <> [] ->
  (exact_long (dval a) (dval b) -> digits_rem a b = Ub ub_back) /\
  (~ exact_long (dval a) (dval b) ->
   exists r, digits_rem a b = Ok r /\ canon r /\ dval r = dval a mod dval b).
Proof.
  intros Ha Hb Nb. pose proof (canon_pos b Hb Nb) as Pb. pose proof (dval_nonneg a (canon_wf a Ha)) as Pa.
  destruct (cmp_pos a b Ha Hb) as [T1 T2].
  unfold digits_rem. rewrite T2.
  destruct (Z.ltb_spec (dval a) (dval b)) as [L|L].
  - split; [intros (H1 & H2 & H3); lia|]. intros _. exists a. rewrite Z.mod_small by lia. auto.
  - destruct (digits_divrem_spec a b Ha Hb Nb) as [D1 D2].
    destruct b as [|x [|y b]]; [congruence| |].
    + destruct (canon_single x Hb) as [Hx Ex]. rewrite Ex. split; [intros (H1 & _); lia|]. intros _.
      apply digits_rem_by1_spec; [assumption|now apply canon_wf].
    + split.
      * intros E. rewrite D1 by assumption. reflexivity.
      * intros E. destruct (D2 E) as (q & r & R1 & R2 & R3 & R4 & R5 & R6).
        rewrite R1. cbn [bind]. eauto.
Qed.

(** ** gcd *)
Lemma mod_half a b : 0 < b -> b <= a -> 2 * (b * (a mod b)) < a * b.
Proof.
  intros Hb Hab. pose proof (Z.mod_pos_bound a b Hb). pose proof (Z.div_mod a b ltac:(lia)).
  assert (1 <= a / b) by (apply Z.div_le_lower_bound; lia).
  assert (b + a mod b <= a) by nia.
  assert (2 * (a mod b) < a) by lia. nia.
Qed.

Definition bad_gcd (a b : Z) : Prop := a <> 0 /\ b <> 0 /\ a <> b /\ BASE <= Z.gcd a b.

Lemma gcd_step_bad a b : 0 < b -> 0 <= a -> ~ exact_long a b -> (bad_gcd a b <-> bad_gcd b (a mod b)).
Proof.
  intros Hb Ha NE. unfold bad_gcd.
  assert (EG : Z.gcd b (a mod b) = Z.gcd a b) by (rewrite Z.gcd_comm, Z.gcd_mod, Z.gcd_comm by lia; reflexivity).
  rewrite EG. pose proof (Z.mod_pos_bound a b Hb) as MB. split.
  - intros (H1 & H2 & H3 & H4). repeat split; try lia; try assumption.
    intros E. apply Z.mod_divide in E; [|lia].
    assert (Eg : Z.gcd a b = b) by (rewrite Z.gcd_comm; apply Z.divide_gcd_iff; [lia|assumption]).
    apply NE. rewrite Eg in H4. split; [assumption|]. split; [|assumption].
    apply Z.divide_pos_le in E; lia.
  - intros (H1 & H2 & H3 & H4). repeat split; try lia; try assumption.
    + intros ->. rewrite Z.mod_0_l in H2; lia.
    + intros ->. rewrite Z.mod_same in H2; lia.
Qed.

Lemma gcd_fuel_spec fuel : forall a b, canon a -> canon b -> dval b <= dval a ->
  (1 <= fuel)%nat -> dval a * dval b < 2 ^ (Z.of_nat fuel - 1) ->
  (bad_gcd (dval a) (dval b) -> digits_gcd_fuel fuel a b = Ub ub_back) /\
  (~ bad_gcd (dval a) (dval b) ->
   exists g, digits_gcd_fuel fuel a b = Ok g /\ canon g /\ dval g = Z.gcd (dval a) (dval b)).
Proof.
  induction fuel as [|fuel IH]; intros a b Ha Hb L F HM; [lia|]. cbn [digits_gcd_fuel].
  pose proof (dval_nonneg a (canon_wf a Ha)) as Pa.
  destruct b as [|x bt] eqn:Eb.
  - split.
    + intros (_ & H & _). cbn in H. congruence.
    + intros _. exists a. cbn [dval]. rewrite Z.gcd_0_r, Z.abs_eq by assumption. auto.
  - rewrite <- Eb in *. assert (Nb : b <> []) by (rewrite Eb; discriminate). clear Eb x bt.
    pose proof (canon_pos b Hb Nb) as Pb.
    destruct (digits_rem_spec a b Ha Hb Nb) as [R1 R2].
    assert (DX : exact_long (dval a) (dval b) \/ ~ exact_long (dval a) (dval b)).
    { unfold exact_long. destruct (Z_lt_le_dec (dval b) BASE); [right; lia|].
      destruct (Z_lt_le_dec (dval b) (dval a)); [|right; lia].
      destruct (Znumtheory.Zdivide_dec (dval b) (dval a)); [left; auto|right; tauto]. }
    destruct DX as [E|E].
    + rewrite R1 by assumption. split; [reflexivity|]. intros NB. exfalso. apply NB.
      destruct E as (E1 & E2 & E3). unfold bad_gcd. repeat split; try lia.
      assert (Eg : Z.gcd (dval a) (dval b) = dval b) by (rewrite Z.gcd_comm; apply Z.divide_gcd_iff; [lia|assumption]).
      lia.
    + destruct (R2 E) as (t & T1 & T2 & T3). rewrite T1. cbn [bind].
      pose proof (gcd_step_bad (dval a) (dval b) Pb Pa E) as GS.
      pose proof (Z.mod_pos_bound (dval a) (dval b) Pb) as MB.
      assert (EG : Z.gcd (dval b) (dval a mod dval b) = Z.gcd (dval a) (dval b))
        by (rewrite Z.gcd_comm, Z.gcd_mod, Z.gcd_comm by lia; reflexivity).
      pose proof (mod_half (dval a) (dval b) Pb L) as MH.
      assert (1 <= dval a * dval b) by nia.
      assert (F2 : (1 <= fuel)%nat).
      { destruct fuel; [|lia]. change (Z.of_nat 1 - 1) with 0 in HM. rewrite Z.pow_0_r in HM. lia. }
      assert (P2 : 2 ^ (Z.of_nat (S fuel) - 1) = 2 * 2 ^ (Z.of_nat fuel - 1)).
      { rewrite <- Z.pow_succ_r by lia. f_equal. lia. }
      destruct (IH b t Hb T2 ltac:(lia) F2 ltac:(rewrite T3; lia)) as [I1 I2].
      rewrite T3 in I1, I2. rewrite EG in I2. split.
      * intros Bd. apply I1. apply GS. assumption.
      * intros NB. apply I2. rewrite <- GS. assumption.
Qed.

Lemma digits_gcd_spec a b : canon a -> canon b ->
  (bad_gcd (dval a) (dval b) -> digits_gcd a b = Ub ub_back) /\
  (~ bad_gcd (dval a) (dval b) ->
   exists g, digits_gcd a b = Ok g /\ canon g /\ dval g = Z.gcd (dval a) (dval b)).
Proof.
  intros Ha Hb. unfold digits_gcd.
  pose proof (dval_bound a (canon_wf a Ha)) as BA. pose proof (dval_bound b (canon_wf b Hb)) as BB'.
  assert (PP : dval a * dval b < 2 ^ (30 * Z.of_nat (length a + length b))).
  { replace (2 ^ (30 * Z.of_nat (length a + length b))) with (BASE ^ Z.of_nat (length a) * BASE ^ Z.of_nat (length b)).
    - apply Z.mul_lt_mono_nonneg; lia.
    - rewrite <- Z.pow_add_r by lia. unfold BASE. rewrite <- Z.pow_mul_r by lia. f_equal. lia. }
  set (f := gcd_fuel a b). assert (Ef : f = S (S (S (30 * (length a + length b))))) by (unfold f, gcd_fuel; lia).
  rewrite Ef. clear f Ef. set (f := S (S (30 * (length a + length b)))).
  assert (PP2 : dval a * dval b < 2 ^ (Z.of_nat f - 1)).
  { apply Z.lt_le_trans with (1 := PP). apply Z.pow_le_mono_r; lia. }
  assert (F1 : (1 <= f)%nat) by (unfold f; lia). clearbody f. clear PP.
  destruct (Z_le_gt_dec (dval b) (dval a)) as [L|L].
  - apply gcd_fuel_spec; auto; try lia.
    apply Z.lt_le_trans with (1 := PP2). apply Z.pow_le_mono_r; lia.
  - cbn [digits_gcd_fuel].
    assert (Nb : b <> []) by (intros ->; cbn [dval] in L; pose proof (dval_nonneg a (canon_wf a Ha)); lia).
    replace (match b with [] => Ok a | _ :: _ => t <- digits_rem a b;; digits_gcd_fuel f b t end)
      with (t <- digits_rem a b;; digits_gcd_fuel f b t) by (destruct b; [congruence|reflexivity]).
    unfold digits_rem. rewrite (proj2 (cmp_pos a b Ha Hb)).
    destruct (Z.ltb_spec (dval a) (dval b)) as [L2|]; [|lia]. cbn [bind].
    destruct (gcd_fuel_spec f b a Hb Ha ltac:(lia) ltac:(lia) ltac:(rewrite Z.mul_comm; lia)) as [I1 I2].
    rewrite Z.gcd_comm in I2.
    assert (S : bad_gcd (dval a) (dval b) <-> bad_gcd (dval b) (dval a)).
    { unfold bad_gcd. rewrite (Z.gcd_comm (dval b)). split; intros (H1 & H2 & H3 & H4); repeat split; auto. }
    rewrite S. auto.
Qed.

(** ** signed operations *)
Lemma huge_add_spec x h : hcanon x -> hcanon h ->
  wf (digits (huge_add x h)) /\ hval (huge_add x h) = hval x + hval h.
Proof.
  destruct x as [a p], h as [b q]. unfold hcanon. cbn [digits]. intros Ha Hb.
  pose proof (canon_wf a Ha) as Wa. pose proof (canon_wf b Hb) as Wb.
  destruct (digits_add_spec a b Wa Wb) as [A1 A2].
  destruct (cmp_pos a b Ha Hb) as [T1 T2].
  unfold huge_add, hval. cbn [digits is_positive]. rewrite T1, T2.
  assert (Ls : dval b < dval a -> (length b <= length a)%nat).
  { intros; destruct (Nat.le_gt_cases (length b) (length a)) as [|G]; [assumption|]. pose proof (canon_length_lt a b Ha Hb G). lia. }
  assert (Ls' : dval a < dval b -> (length a <= length b)%nat).
  { intros; destruct (Nat.le_gt_cases (length a) (length b)) as [|G]; [assumption|]. pose proof (canon_length_lt b a Hb Ha G). lia. }
  destruct p, q; cbn [andb orb negb].
  1, 4: cbn [digits is_positive]; split; [assumption|lia].
  all: destruct (Z.eqb_spec (dval a) (dval b)); [cbn [digits is_positive dval]; split; [apply wf_nil|lia]|].
  all: destruct (Z.ltb_spec (dval a) (dval b)) as [L|L]; cbn [digits is_positive negb].
  - destruct (digits_sub_spec b a Wb Wa ltac:(auto) ltac:(lia)) as (S1 & S2 & S3). split; [assumption|lia].
  - destruct (digits_sub_spec a b Wa Wb ltac:(apply Ls; lia) ltac:(lia)) as (S1 & S2 & S3). split; [assumption|lia].
  - destruct (digits_sub_spec b a Wb Wa ltac:(auto) ltac:(lia)) as (S1 & S2 & S3). split; [assumption|lia].
  - destruct (digits_sub_spec a b Wa Wb ltac:(apply Ls; lia) ltac:(lia)) as (S1 & S2 & S3). split; [assumption|lia].
Qed.

Lemma huge_add_canon x h : hcanon x -> hcanon h -> is_positive x = is_positive h -> hcanon (huge_add x h).
Proof.
  destruct x as [a p], h as [b q]. unfold hcanon, huge_add. cbn [digits is_positive]. intros Ha Hb <-.
  destruct p; cbn [andb orb negb digits]; now apply digits_add_canon.
Qed.

Lemma huge_sub_spec x h : hcanon x -> hcanon h ->
  wf (digits (huge_sub x h)) /\
  hval (huge_sub x h) =
    (if ((Z.abs (hval x) =? Z.abs (hval h)) && negb (hval x =? 0) && negb (Bool.eqb (is_positive x) (is_positive h)))%bool
     then 0 else hval x - hval h).
Proof.
  destruct x as [a p], h as [b q]. unfold hcanon. cbn [digits]. intros Ha Hb.
  pose proof (canon_wf a Ha) as Wa. pose proof (canon_wf b Hb) as Wb.
  destruct (digits_add_spec a b Wa Wb) as [A1 A2].
  destruct (cmp_pos a b Ha Hb) as [T1 T2].
  pose proof (dval_nonneg a Wa) as Pa. pose proof (dval_nonneg b Wb) as Pb.
  unfold huge_sub, hval. cbn [digits is_positive]. rewrite T1, T2.
  assert (Ls : dval b < dval a -> (length b <= length a)%nat).
  { intros; destruct (Nat.le_gt_cases (length b) (length a)) as [|G]; [assumption|]. pose proof (canon_length_lt a b Ha Hb G). lia. }
  assert (Ls' : dval a < dval b -> (length a <= length b)%nat).
  { intros; destruct (Nat.le_gt_cases (length a) (length b)) as [|G]; [assumption|]. pose proof (canon_length_lt b a Hb Ha G). lia. }
  assert (EA : Z.abs (if p then dval a else - dval a) = dval a) by (destruct p; lia).
  assert (EB : Z.abs (if q then dval b else - dval b) = dval b) by (destruct q; lia).
  rewrite EA, EB.
  destruct (Z.eqb_spec (dval a) (dval b)) as [E|E].
  - cbn [digits is_positive dval]. split; [apply wf_nil|]. rewrite E.
    destruct p, q; cbn [Bool.eqb negb andb]; rewrite ?andb_true_r, ?andb_false_r; cbn [andb];
      try (destruct (Z.eqb_spec (dval b) 0)); try (destruct (Z.eqb_spec (- dval b) 0)); cbn [negb]; lia.
  - cbn [andb].
    destruct p, q; cbn [andb orb negb].
    2, 3: cbn [digits is_positive]; split; [assumption|lia].
    all: destruct (Z.ltb_spec (dval a) (dval b)) as [L|L]; cbn [digits is_positive negb].
    + destruct (digits_sub_spec b a Wb Wa ltac:(auto) ltac:(lia)) as (S1 & S2 & S3). split; [assumption|lia].
    + destruct (digits_sub_spec a b Wa Wb ltac:(apply Ls; lia) ltac:(lia)) as (S1 & S2 & S3). split; [assumption|lia].
    + destruct (digits_sub_spec b a Wb Wa ltac:(auto) ltac:(lia)) as (S1 & S2 & S3). split; [assumption|lia].
    + destruct (digits_sub_spec a b Wa Wb ltac:(apply Ls; lia) ltac:(lia)) as (S1 & S2 & S3). split; [assumption|lia].
Qed.

Lemma huge_mul_spec x h t : wf (digits x) -> wf (digits h) -> huge_mul x h = Ok t ->
  hcanon t /\ hval t = hval x * hval h.
Proof.
  destruct x as [a p], h as [b q]. unfold huge_mul, same_sign. cbn [digits is_positive]. intros Wa Wb E.
  pose proof (digits_mul_good a b Wa Wb) as G.
  destruct (digits_mul a b) as [u|m|w|]; cbn [bind good] in *; try discriminate.
  inversion E; subst t. clear E. destruct G as [G1 G2]. split; [exact G1|].
  unfold hval. cbn [digits is_positive]. rewrite G2. destruct p, q; cbn [andb orb negb]; lia.
Qed.

Lemma huge_mul_small x h : hcanon x -> hcanon h ->
  (Nat.min (length (digits x)) (length (digits h)) <= 70)%nat \/
  (digits x = digits h /\ (length (digits x) <= 140)%nat) ->
  exists t, huge_mul x h = Ok t.
Proof.
  intros Hx Hh L. unfold huge_mul. destruct (digits_mul_small (digits x) (digits h) Hx Hh L) as [t ->].
  cbn [bind]. eauto.
Qed.

Lemma huge_mul_outcome x h : wf (digits x) -> wf (digits h) ->
  (exists t, huge_mul x h = Ok t) \/ (exists w, huge_mul x h = Ub w).
Proof.
  intros Hx Hh. unfold huge_mul. pose proof (digits_mul_good _ _ Hx Hh) as G.
  destruct (digits_mul (digits x) (digits h)); cbn [bind good] in *; try tauto; eauto.
Qed.

(** Z.quot / Z.rem on signed magnitudes *)
Lemma quot_sign (p q : bool) a b : 0 <= a -> 0 < b ->
  Z.quot (if p then a else - a) (if q then b else - b) = (if Bool.eqb p q then a / b else - (a / b)).
Proof.
  intros. destruct p, q; cbn [Bool.eqb]; rewrite ?Z.quot_opp_l, ?Z.quot_opp_r, ?Z.quot_div_nonneg, ?Z.opp_involutive by lia; reflexivity.
Qed.
Lemma rem_sign (p q : bool) a b : 0 <= a -> 0 < b ->
  Z.rem (if p then a else - a) (if q then b else - b) = (if p then a mod b else - (a mod b)).
Proof.
  intros. destruct p, q; rewrite ?Z.rem_opp_l, ?Z.rem_opp_r, ?Z.rem_mod_nonneg by lia; reflexivity.
Qed.

(** in terms of the denoted integers *)
Definition exact_long_h (x h : huge) : Prop :=
  2 ^ 30 <= Z.abs (hval h) /\ Z.abs (hval h) < Z.abs (hval x) /\ (hval h | hval x).
Lemma abs_hval x : wf (digits x) -> Z.abs (hval x) = dval (digits x).
Proof. intros W. pose proof (dval_nonneg _ W). unfold hval. destruct (is_positive x); lia. Qed.
Lemma exact_long_iff x h : hcanon x -> hcanon h -> exact_long_h x h <-> exact_long (dval (digits x)) (dval (digits h)).
Proof.
  intros Hx Hh. unfold exact_long_h, exact_long. rewrite !abs_hval by now apply canon_wf.
  fold BASE. rewrite <- (Z.divide_abs_l (hval h)), <- (Z.divide_abs_r _ (hval x)).
  rewrite !abs_hval by now apply canon_wf. reflexivity.
Qed.
Lemma hval_zero h : hcanon h -> hval h = 0 <-> digits h = [].
Proof.
  intros Hh. unfold hval. split.
  - intros E. apply canon_zero; [assumption|]. destruct (is_positive h); lia.
  - intros ->. destruct (is_positive h); reflexivity.
Qed.
Lemma same_sign_eqb x h : same_sign x h = Bool.eqb (is_positive x) (is_positive h).
Proof. unfold same_sign. destruct (is_positive x), (is_positive h); reflexivity. Qed.

Lemma huge_divrem_spec x h : hcanon x -> hcanon h -> hval h <> 0 -> ~ exact_long_h x h ->
  exists q r, huge_divrem x h = Ok (q, r) /\ wf (digits q) /\ hcanon r /\
    hval q = Z.quot (hval x) (hval h) /\ hval r = Z.abs (Z.rem (hval x) (hval h)).
Proof.
  intros Hx Hh N E. rewrite exact_long_iff in E by assumption.
  rewrite hval_zero in N by assumption. unfold huge_divrem.
  destruct (digits h) as [|y l] eqn:Eh; [congruence|]. rewrite <- Eh in *. clear Eh y l.
  destruct (digits_divrem_spec (digits x) (digits h) Hx Hh N) as [_ D]. destruct (D E) as (q & r & R1 & R2 & R3 & R4 & R5 & _).
  rewrite R1. cbn [bind]. eexists _, _. split; [reflexivity|]. cbn [digits]. split; [assumption|]. split; [exact R3|].
  pose proof (canon_pos _ Hh N) as Ph. pose proof (dval_nonneg _ (canon_wf _ Hx)) as Px.
  unfold hval. cbn [digits is_positive]. rewrite quot_sign, rem_sign, same_sign_eqb, R4, R5 by assumption.
  pose proof (Z.mod_pos_bound (dval (digits x)) _ Ph).
  split; [reflexivity|]. destruct (is_positive x); lia.
Qed.
Lemma huge_div_spec x h : hcanon x -> hcanon h -> hval h <> 0 -> ~ exact_long_h x h ->
  exists q, huge_div x h = Ok q /\ wf (digits q) /\ hval q = Z.quot (hval x) (hval h).
Proof.
  intros Hx Hh N E. destruct (huge_divrem_spec x h Hx Hh N E) as (q & r & R1 & R2 & R3 & R4 & R5).
  unfold huge_divrem in R1. unfold huge_div. rewrite hval_zero in N by assumption.
  destruct (digits h) as [|y l] eqn:Eh; [congruence|]. rewrite <- Eh in *. clear Eh y l.
  destruct (digits_divrem (digits x) (digits h)) as [[q' r']| | |]; cbn [bind] in *; try discriminate.
  inversion R1; subst. eauto.
Qed.
Lemma huge_mod_spec x h : hcanon x -> hcanon h -> hval h <> 0 -> ~ exact_long_h x h ->
  exists r, huge_mod x h = Ok r /\ hcanon r /\ hval r = Z.rem (hval x) (hval h).
Proof.
  intros Hx Hh N E. rewrite exact_long_iff in E by assumption.
  rewrite hval_zero in N by assumption. unfold huge_mod.
  destruct (digits h) as [|y l] eqn:Eh; [congruence|]. rewrite <- Eh in *. clear Eh y l.
  destruct (digits_rem_spec (digits x) (digits h) Hx Hh N) as [_ D]. destruct (D E) as (r & R1 & R2 & R3).
  rewrite R1. cbn [bind]. eexists. split; [reflexivity|]. split; [exact R2|].
  pose proof (canon_pos _ Hh N) as Ph. pose proof (dval_nonneg _ (canon_wf _ Hx)) as Px.
  unfold hval. cbn [digits is_positive]. rewrite rem_sign, R3 by assumption. reflexivity.
Qed.
Lemma huge_div_exact_ub x h : hcanon x -> hcanon h -> hval h <> 0 -> exact_long_h x h ->
  is_ub (huge_div x h) = true /\ is_ub (huge_mod x h) = true /\ is_ub (huge_divrem x h) = true.
Proof.
  intros Hx Hh N E. rewrite exact_long_iff in E by assumption.
  rewrite hval_zero in N by assumption. unfold huge_mod, huge_div, huge_divrem.
  destruct (digits h) as [|y l] eqn:Eh; [congruence|]. rewrite <- Eh in *. clear Eh y l.
  destruct (digits_rem_spec (digits x) (digits h) Hx Hh N) as [D1 _].
  destruct (digits_divrem_spec (digits x) (digits h) Hx Hh N) as [D2 _].
  rewrite (D1 E), (D2 E). repeat split.
Qed.

Lemma huge_gcd_spec x h : hcanon x -> hcanon h ->
  hval x = 0 \/ hval h = 0 \/ Z.abs (hval x) = Z.abs (hval h) \/ Z.gcd (hval x) (hval h) < 2 ^ 30 ->
  exists g, huge_gcd x h = Ok g /\ hcanon g /\ hval g = Z.gcd (hval x) (hval h).
Proof.
  intros Hx Hh C. unfold huge_gcd. destruct (digits_gcd_spec (digits x) (digits h) Hx Hh) as [_ G].
  assert (EG : Z.gcd (dval (digits x)) (dval (digits h)) = Z.gcd (hval x) (hval h)).
  { rewrite <- (abs_hval x), <- (abs_hval h) by now apply canon_wf. now rewrite Z.gcd_abs_l, Z.gcd_abs_r. }
  destruct G as (g & G1 & G2 & G3).
  - unfold bad_gcd. rewrite EG. rewrite <- (abs_hval x), <- (abs_hval h) by now apply canon_wf. unfold BASE. lia.
  - rewrite G1. cbn [bind]. eexists. split; [reflexivity|]. split; [exact G2|]. unfold hval at 1. cbn [digits is_positive]. lia.
Qed.
Lemma huge_gcd_ub x h : hcanon x -> hcanon h ->
  hval x <> 0 -> hval h <> 0 -> Z.abs (hval x) <> Z.abs (hval h) -> 2 ^ 30 <= Z.gcd (hval x) (hval h) ->
  is_ub (huge_gcd x h) = true.
Proof.
  intros Hx Hh N1 N2 N3 N4. unfold huge_gcd. destruct (digits_gcd_spec (digits x) (digits h) Hx Hh) as [G _].
  assert (EG : Z.gcd (dval (digits x)) (dval (digits h)) = Z.gcd (hval x) (hval h)).
  { rewrite <- (abs_hval x), <- (abs_hval h) by now apply canon_wf. now rewrite Z.gcd_abs_l, Z.gcd_abs_r. }
  rewrite G; [reflexivity|]. unfold bad_gcd. rewrite EG. rewrite <- (abs_hval x), <- (abs_hval h) by now apply canon_wf.
  unfold BASE. lia.
Qed.

(** ** comparisons *)
Lemma huge_cmp_sgn x h : hcanon x -> hcanon h -> Z.sgn (huge_cmp x h) = Z.sgn (hval x - hval h).
Proof. intros. apply digits_cmp_spec; assumption. Qed.
Lemma huge_compare_spec x h : hcanon x -> hcanon h ->
  huge_eq x h = (hval x =? hval h) /\ huge_ne x h = negb (hval x =? hval h) /\
  huge_lt x h = (hval x <? hval h) /\ huge_le x h = (hval x <=? hval h) /\
  huge_gt x h = (hval h <? hval x) /\ huge_ge x h = (hval h <=? hval x).
Proof.
  intros Hx Hh. pose proof (huge_cmp_sgn x h Hx Hh) as S. destruct (sgn_tests _ _ S) as (T1 & T2 & T3 & T4 & T5).
  unfold huge_eq, huge_ne, huge_lt, huge_le, huge_gt, huge_ge. rewrite T1, T2, T3, T4, T5.
  set (u := hval x). set (v := hval h). repeat split.
  - destruct (Z.eqb_spec (u - v) 0), (Z.eqb_spec u v); lia || reflexivity.
  - destruct (Z.eqb_spec (u - v) 0), (Z.eqb_spec u v); lia || reflexivity.
  - destruct (Z.ltb_spec (u - v) 0), (Z.ltb_spec u v); lia || reflexivity.
  - destruct (Z.leb_spec (u - v) 0), (Z.leb_spec u v); lia || reflexivity.
  - rewrite Z.gtb_ltb. destruct (Z.ltb_spec 0 (u - v)), (Z.ltb_spec v u); lia || reflexivity.
  - rewrite Z.geb_leb. destruct (Z.leb_spec 0 (u - v)), (Z.leb_spec v u); lia || reflexivity.
Qed.
