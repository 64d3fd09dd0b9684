(** Lemmas: machine-integer conversions, text round trips. *)
From Coq Require Import ZArith String Ascii Lia Bool List.
From Verif Require Import Base HugeModel HugeSpec HugeProofs1 HugeProofs2 HugeProofs3 HugeProofs4 HugeProofs5 HugeProofs6.
Import ListNotations.
Open Scope Z_scope.

Lemma from_int_loop_spec fuel : forall u, 0 <= u < BASE ^ Z.of_nat fuel ->
  exists r, from_int_loop fuel u = Ok r /\ canon r /\ dval r = u.
Proof.
  induction fuel as [|fuel IH]; intros u Hu; cbn [from_int_loop].
  - change (Z.of_nat 0) with 0 in Hu. rewrite Z.pow_0_r in Hu. destruct (Z.eqb_spec u 0); [|lia].
    exists []. split; [reflexivity|]. split; [apply canon_nil|cbn; lia].
  - destruct (Z.eqb_spec u 0) as [->|N].
    + exists []. split; [reflexivity|]. split; [apply canon_nil|reflexivity].
    + rewrite shiftr_SHIFT, land_MASK.
      pose proof (Z.mod_pos_bound u BASE ltac:(reflexivity)) as MB.
      pose proof (Z.div_mod u BASE ltac:(discriminate)) as DM.
      rewrite Nat2Z.inj_succ, Z.pow_succ_r in Hu by lia.
      destruct (IH (u / BASE)) as (r & R1 & R2 & R3).
      { split; [apply Z.div_pos; [lia|reflexivity]|]. apply Z.div_lt_upper_bound; [reflexivity|lia]. }
      rewrite R1. cbn [bind]. rewrite u32_small by (rewrite p32; rewrite BASE_val in *; lia).
      exists (u mod BASE :: r). split; [reflexivity|]. split; [|rewrite dval_cons, R3; lia].
      apply canon_cons; auto. intros ->. cbn [dval] in R3. rewrite <- R3 in DM. lia.
Qed.
Lemma digits_from_int_spec u : 0 <= u < 2 ^ 64 -> exists r, digits_from_int u = Ok r /\ canon r /\ dval r = u.
Proof. intros H. apply from_int_loop_spec. split; [lia|]. apply Z.lt_le_trans with (2 ^ 64); [lia|]. vm_compute; discriminate. Qed.

Lemma huge_of_signed_spec w n : 0 < w <= 64 -> - 2 ^ (w - 1) < n < 2 ^ (w - 1) ->
  exists h, huge_of_signed w n = Ok h /\ hcanon h /\ hval h = n.
Proof.
  intros Hw Hn. unfold huge_of_signed. destruct (Z.eqb_spec n (- 2 ^ (w - 1))); [lia|].
  assert (2 ^ (w - 1) <= 2 ^ 63) by (apply Z.pow_le_mono_r; lia). change (2 ^ 63) with 9223372036854775808 in *.
  destruct (digits_from_int_spec (Z.abs n)) as (r & R1 & R2 & R3); [rewrite p64; lia|].
  rewrite R1. cbn [bind]. eexists. split; [reflexivity|]. split; [exact R2|].
  unfold hval. cbn [digits is_positive]. rewrite R3. rewrite Z.geb_leb. destruct (Z.leb_spec 0 n); lia.
Qed.
Lemma huge_of_unsigned_spec w n : 0 < w <= 64 -> 0 <= n < 2 ^ w ->
  exists h, huge_of_unsigned n = Ok h /\ hcanon h /\ hval h = n.
Proof.
  intros Hw Hn. unfold huge_of_unsigned.
  assert (2 ^ w <= 2 ^ 64) by (apply Z.pow_le_mono_r; lia).
  destruct (digits_from_int_spec n) as (r & R1 & R2 & R3); [lia|].
  rewrite R1. cbn [bind]. eexists. split; [reflexivity|]. split; [exact R2|].
  unfold hval. cbn [digits is_positive]. rewrite R3. rewrite Z.geb_leb. destruct (Z.leb_spec 0 n); lia.
Qed.

Lemma cast_small w sg x : 0 < w -> 0 <= x <= umax w sg -> cast w sg x = x.
Proof.
  intros Hw Hx. unfold cast, umax in *. destruct sg.
  - apply swrap_small; [assumption|]. assert (0 < 2 ^ (w - 1)) by (apply Z.pow_pos_nonneg; lia). lia.
  - unfold uwrap. apply Z.mod_small. lia.
Qed.

Lemma to_loop_spec w sg : 0 < w -> forall rd P, wf rd -> rd <> [] -> 0 <= P ->
  P * BASE ^ Z.of_nat (length rd) + dval (rev rd) <= umax w sg ->
  to_loop w sg (P * BASE) rd = P * BASE ^ Z.of_nat (length rd) + dval (rev rd).
Proof.
  intros Hw. induction rd as [|d rd IH]; intros P Hd Ne HP HB; [congruence|].
  apply wf_cons in Hd. destruct Hd as [Hd Hr]. cbn [to_loop].
  rewrite lor_BASE by assumption.
  cbn [length rev] in *. rewrite dval_app, rev_length in *. cbn [dval] in *. rewrite Z.mul_0_r, Z.add_0_r in *.
  rewrite Nat2Z.inj_succ, Z.pow_succ_r in * by lia.
  pose proof (dval_nonneg (rev rd) (proj2 (wf_rev rd) Hr)) as Pr.
  set (Q := BASE ^ Z.of_nat (length rd)) in *.
  assert (HQ : 0 < Q) by (apply BASEn_pos; lia).
  assert (ET : P * (BASE * Q) + (dval (rev rd) + Q * d) = (P * BASE + d) * Q + dval (rev rd)) by ring.
  rewrite ET in *.
  assert (B0 : 0 <= P * BASE + d) by (rewrite BASE_val in *; lia).
  assert (B1 : P * BASE + d <= (P * BASE + d) * Q) by nia.
  rewrite cast_small by (auto; lia).
  destruct rd as [|d2 rd].
  - cbn [rev dval length] in *. unfold Q. change (Z.of_nat 0) with 0. rewrite Z.pow_0_r. lia.
  - rewrite shiftl_SHIFT.
    assert (B2 : (P * BASE + d) * BASE <= (P * BASE + d) * Q).
    { apply Z.mul_le_mono_nonneg_l; [assumption|]. unfold Q. cbn [length]. rewrite Nat2Z.inj_succ, Z.pow_succ_r by lia.
      assert (0 < BASE ^ Z.of_nat (length rd)) by (apply BASEn_pos; lia). rewrite BASE_val in *. lia. }
    rewrite cast_small; [|assumption|].
    2: { split; [apply Z.mul_nonneg_nonneg; [assumption|rewrite BASE_val; lia]|lia]. }
    apply IH; auto; try discriminate; lia.
Qed.

Lemma umax_bound w sg : 0 < w -> umax w sg < 2 ^ w.
Proof.
  intros. unfold umax. destruct sg; [|lia].
  assert (2 ^ (w - 1) < 2 ^ w) by (apply Z.pow_lt_mono_r; lia). lia.
Qed.

Lemma times_sign_spec w sg pos r : 0 < w -> 0 <= r <= umax w sg -> (pos = true \/ sg = true) ->
  times_sign w sg pos r = Ok (if pos then r else - r).
Proof.
  intros Hw Hr Hs. unfold times_sign. destruct sg.
  - assert (0 < 2 ^ (w - 1)) by (apply Z.pow_pos_nonneg; lia).
    assert (T : ((if pos then r else - r) >? umax w true) = false).
    { rewrite Z.gtb_ltb. apply Z.ltb_ge. destruct pos; lia. }
    rewrite T, andb_false_r. f_equal. unfold cast. apply swrap_small; [assumption|].
    unfold umax in Hr. destruct pos; lia.
  - destruct Hs as [->|]; [|discriminate]. f_equal.
    assert (E : cast w false 1 = 1).
    { unfold cast, uwrap. destruct (Z.eq_dec w 0); [lia|]. apply Z.mod_small.
      assert (2 ^ 1 <= 2 ^ w) by (apply Z.pow_le_mono_r; lia). lia. }
    rewrite E, Z.mul_1_r. apply cast_small; assumption.
Qed.

Lemma huge_to_in_range w sg x : 1 < w -> hcanon x -> Z.abs (hval x) <= umax w sg -> (0 <= hval x \/ sg = true) ->
  huge_to w sg x = Ok (hval x).
Proof.
  intros Hw Hx HB Hs. rewrite abs_hval in HB by now apply canon_wf. unfold huge_to.
  destruct x as [ds pos]. unfold hcanon, hval in *. cbn [digits is_positive] in *.
  destruct ds as [|d tl] eqn:Ed; [cbn; destruct pos; reflexivity|].
  assert (Pos : 0 < dval ds) by (apply canon_pos; subst; [assumption|discriminate]).
  rewrite <- Ed in *.
  assert (Sg : pos = true \/ sg = true).
  { destruct pos; [auto|]. destruct Hs; [lia|auto]. }
  assert (Neg : negb (pos || sg) = false) by (destruct Sg as [-> | ->]; [reflexivity|destruct pos; reflexivity]).
  rewrite Neg.
  assert (Hd : 0 <= d < BASE) by (subst ds; destruct Hx as [Wx _]; apply wf_cons in Wx; tauto).
  destruct ((match tl with [] => true | _ => false end && (d <=? umax w sg) && (swrap 32 d >=? ulow w sg))%bool) eqn:T.
  - apply andb_true_iff in T. destruct T as [T _]. apply andb_true_iff in T. destruct T as [T1 T2].
    destruct tl; [|discriminate]. apply Z.leb_le in T2.
    assert (EV : dval ds = d) by (subst ds; cbn [dval]; lia). rewrite EV.
    rewrite cast_small by lia. apply times_sign_spec; auto; lia.
  - assert (LC : (Z.of_nat (length ds) - 1) * SHIFT <=? w = true).
    { apply Z.leb_le. destruct (Z_le_gt_dec ((Z.of_nat (length ds) - 1) * SHIFT) w) as [|G]; [assumption|exfalso].
      assert (ds <> []) by (subst; discriminate).
      pose proof (canon_lower ds Hx H) as CL. unfold BASE in CL. 
      assert (L0 : (0 < length ds)%nat) by (destruct ds; [congruence|cbn; lia]).
      rewrite <- Z.pow_mul_r in CL by lia.
      assert (2 ^ w <= 2 ^ (30 * (Z.of_nat (length ds) - 1))) by (apply Z.pow_le_mono_r; unfold SHIFT in G; lia).
      pose proof (umax_bound w sg). lia. }
    rewrite LC.
    assert (EL : to_loop w sg 0 (rev ds) = dval ds).
    { change 0 with (0 * BASE) at 1. rewrite to_loop_spec.
      - rewrite rev_involutive. lia.
      - lia.
      - apply wf_rev, canon_wf. assumption.
      - intros E. apply (f_equal (@rev Z)) in E. rewrite rev_involutive in E. cbn in E. subst; discriminate.
      - lia.
      - rewrite rev_involutive. lia. }
    rewrite EL. apply times_sign_spec; auto; lia.
Qed.

Lemma huge_to_negative_unsigned w x : hcanon x -> hval x < 0 ->
  huge_to w false x = Throw "The Huge is negative but U is unsigned.".
Proof.
  intros Hx Hn. unfold huge_to, hval in *. destruct x as [ds pos]. cbn [digits is_positive] in *.
  pose proof (dval_nonneg ds (canon_wf _ Hx)). destruct pos; [lia|].
  destruct ds; [cbn in Hn; lia|]. reflexivity.
Qed.
Lemma huge_to_too_big w sg x : 1 < w -> hcanon x -> (0 <= hval x \/ sg = true) ->
  2 ^ (30 * (w / 30 + 1)) <= Z.abs (hval x) -> huge_to w sg x = Throw "The Huge is too big.".
Proof.
  intros Hw Hx Hs HB. rewrite abs_hval in HB by now apply canon_wf. unfold huge_to.
  destruct x as [ds pos]. unfold hcanon, hval in *. cbn [digits is_positive] in *.
  assert (W0 : 0 <= w / 30) by (apply Z.div_pos; lia).
  pose proof (Z.div_mod w 30 ltac:(lia)). pose proof (Z.mod_pos_bound w 30 ltac:(lia)).
  assert (LB : w / 30 + 1 < Z.of_nat (length ds)).
  { pose proof (dval_bound ds (canon_wf _ Hx)) as B. unfold BASE in B. rewrite <- Z.pow_mul_r in B by lia.
    assert (2 ^ (30 * (w / 30 + 1)) < 2 ^ (30 * Z.of_nat (length ds))) by lia.
    apply Z.pow_lt_mono_r_iff in H1; lia. }
  destruct ds as [|d [|d2 tl]] eqn:Ed; [cbn in LB; lia|cbn in LB; lia|]. rewrite <- Ed in *.
  assert (Pos : 0 < dval ds) by (apply canon_pos; subst; [assumption|discriminate]).
  assert (Neg : negb (pos || sg) = false).
  { destruct Hs as [Hs| ->]; [|destruct pos; reflexivity]. destruct pos; [reflexivity|lia]. }
  rewrite Neg. cbn [andb].
  destruct (Z.leb_spec ((Z.of_nat (length ds) - 1) * SHIFT) w) as [G|G]; [|reflexivity].
  unfold SHIFT in G. lia.
Qed.

(** ** round trips *)
Lemma print_parse_value x s : wf (digits x) -> huge_to_string x = Ok s ->
  exists h, huge_of_string s = Ok h /\ hcanon h /\ hval h = hval x /\ is_positive h = is_positive x.
Proof.
  intros Hw E. destruct (print_spec x Hw) as (num & P1 & P2 & P3). rewrite P1 in E. inversion E; subst s. clear E.
  destruct P2 as (Ne & F & _). unfold hval at 2.
  destruct (is_positive x) eqn:Ep; cbn [app].
  - destruct (parse_plain num [] Ne F I) as (h & H1 & H2 & H3 & H4). rewrite app_nil_r in H1.
    exists h. rewrite H4, P3. auto.
  - destruct (parse_signed "-" num [] (or_intror eq_refl) F I) as (h & H1 & H2 & H3 & H4). rewrite app_nil_r in H1.
    exists h. cbn in H3, H4. rewrite H4, P3. auto.
Qed.

Lemma parse_print_plain num : canonical_numeral num ->
  exists h, huge_of_string num = Ok h /\ hval h = dec_value num /\ huge_to_string h = Ok num.
Proof.
  intros C. pose proof C as (Ne & F & _). destruct (parse_plain num [] Ne F I) as (h & H1 & H2 & H3 & H4).
  rewrite app_nil_r in H1. exists h. split; [assumption|]. split; [assumption|].
  destruct (print_spec h (canon_wf _ H2)) as (n2 & P1 & P2 & P3). rewrite H3 in P1. cbn [app] in P1.
  rewrite P1. f_equal. apply canonical_numeral_inj; auto. unfold hval in H4. rewrite H3 in H4. lia.
Qed.
Lemma parse_print_neg num : canonical_numeral num ->
  exists h, huge_of_string ("-"%char :: num) = Ok h /\ hval h = - dec_value num /\ huge_to_string h = Ok ("-"%char :: num).
Proof.
  intros C. pose proof C as (Ne & F & _). destruct (parse_signed "-" num [] (or_intror eq_refl) F I) as (h & H1 & H2 & H3 & H4).
  rewrite app_nil_r in H1. cbn in H3, H4. exists h. split; [assumption|]. split; [assumption|].
  destruct (print_spec h (canon_wf _ H2)) as (n2 & P1 & P2 & P3). rewrite H3 in P1. cbn [app] in P1.
  rewrite P1. do 2 f_equal. apply canonical_numeral_inj; auto. unfold hval in H4. rewrite H3 in H4. lia.
Qed.
Lemma huge_to_string_total x : wf (digits x) -> exists s, huge_to_string x = Ok s.
Proof. intros H. destruct (print_spec x H) as (n & P & _). eauto. Qed.

Lemma parse_throw s : huge_of_string s = Throw "Invaild string." <->
  Forall (fun c => isdigit c = false /\ c <> "+"%char /\ c <> "-"%char) s.
Proof.
  assert (SP : skip_prefix s = [] <-> Forall (fun c => isdigit c = false /\ c <> "+"%char /\ c <> "-"%char) s).
  { induction s as [|c s IH]; cbn [skip_prefix]; [split; auto|]. rewrite Forall_cons_iff, <- IH.
    destruct (isdigit c); cbn [orb]; [split; [discriminate|intros [[? _] _]; discriminate]|].
    destruct (Ascii.eqb_spec c "+"); cbn [orb]; [split; [discriminate|intros [(_ & ? & _) _]; congruence]|].
    destruct (Ascii.eqb_spec c "-"); [split; [discriminate|intros [(_ & _ & ?) _]; congruence]|].
    tauto. }
  rewrite <- SP. unfold huge_of_string. split.
  - intros E. destruct (skip_prefix s) as [|p ps] eqn:EP; [reflexivity|exfalso].
    assert (PT : forall fuel s' acc m, parse_loop fuel s' acc <> Throw m).
    { assert (PC : forall f c m, push_carry f c <> Throw m).
      { induction f as [|f IHf]; intros c m; cbn [push_carry]; destruct (c =? 0); try discriminate.
        specialize (IHf (Z.shiftr c SHIFT)). destruct (push_carry f (Z.shiftr c SHIFT)); cbn [bind]; congruence. }
      assert (MT : forall ds mult c m, muladd_loop mult c ds <> Throw m).
      { induction ds as [|y ds IHd]; intros mult c m; cbn [muladd_loop]; [apply PC|].
        match goal with |- context [muladd_loop ?a ?b ds] => specialize (IHd a b); destruct (muladd_loop a b ds) end; cbn [bind]; congruence. }
      induction fuel as [|fuel IHf]; intros s' acc m; destruct s' as [|ch s']; cbn [parse_loop]; try discriminate;
        destruct (negb (isdigit ch)); try discriminate.
      destruct (read_chunk 8 (digit_of ch) 1 s') as [[[c i] rest] stop].
      pose proof (MT acc (convmult i) c). destruct (muladd_loop (convmult i) c acc); cbn [bind]; try congruence.
      destruct stop; [discriminate|apply IHf]. }
    destruct s as [|c0 s0]; [discriminate|].
    destruct (Ascii.eqb c0 "+"); [|destruct (Ascii.eqb c0 "-")];
      match type of E with (_ <- parse_loop ?a ?b ?c ;; _) = _ => pose proof (PT a b c "Invaild string."%string); destruct (parse_loop a b c); cbn [bind] in E; congruence end.
  - intros ->. reflexivity.
Qed.

Lemma huge_sub_exact x h : hcanon x -> hcanon h -> ~ (hval h = - hval x /\ hval x <> 0) ->
  hval (huge_sub x h) = hval x - hval h.
Proof.
  intros Hx Hh N. rewrite (proj2 (huge_sub_spec x h Hx Hh)).
  destruct (Z.eqb_spec (Z.abs (hval x)) (Z.abs (hval h))) as [E|E]; [|reflexivity]. cbn [andb].
  destruct (Z.eqb_spec (hval x) 0) as [E0|E0]; [reflexivity|]. cbn [negb andb].
  destruct (Bool.eqb (is_positive x) (is_positive h)) eqn:EB; [reflexivity|]. cbn [negb]. exfalso. apply N. split; [|assumption].
  pose proof (dval_nonneg _ (canon_wf _ Hx)). pose proof (dval_nonneg _ (canon_wf _ Hh)).
  unfold hval in *. destruct (is_positive x), (is_positive h); cbn in EB; try discriminate; lia.
Qed.

Lemma divrem_euclid a b : canon a -> canon b -> b <> [] ->
  ~ (2 ^ 30 <= dval b /\ dval b < dval a /\ (dval b | dval a)) ->
  exists q r, digits_divrem a b = Ok (q, r) /\ wf q /\ canon r /\
    dval a = dval q * dval b + dval r /\ 0 <= dval r < dval b.
Proof.
  intros Ha Hb Nb NE. destruct (proj2 (digits_divrem_spec a b Ha Hb Nb) NE) as (q & r & R1 & R2 & R3 & R4 & R5 & _).
  pose proof (canon_pos b Hb Nb) as Pb. exists q, r. repeat split; auto; try apply R3.
  - rewrite R4, R5. pose proof (Z.div_mod (dval a) (dval b)). lia.
  - rewrite R5. apply Z.mod_pos_bound. assumption.
  - rewrite R5. apply Z.mod_pos_bound. assumption.
Qed.
Lemma divrem_exact_ub a b : canon a -> canon b -> b <> [] ->
  2 ^ 30 <= dval b -> dval b < dval a -> (dval b | dval a) -> is_ub (digits_divrem a b) = true.
Proof.
  intros Ha Hb Nb H1 H2 H3. rewrite (proj1 (digits_divrem_spec a b Ha Hb Nb)); [reflexivity|]. repeat split; assumption.
Qed.

Lemma huge_div_zero x h : hcanon h -> hval h = 0 ->
  huge_div x h = Throw "Division by zero" /\ huge_mod x h = Throw "Division by zero" /\
  huge_divrem x h = Throw "Division by zero".
Proof.
  intros Hh E. apply hval_zero in E; [|assumption]. unfold huge_div, huge_mod, huge_divrem. rewrite E. repeat split.
Qed.

Lemma exact_long_h_dec x h : exact_long_h x h \/ ~ exact_long_h x h.
Proof.
  unfold exact_long_h. destruct (Z_lt_le_dec (Z.abs (hval h)) (2 ^ 30)); [right; lia|].
  destruct (Z_lt_le_dec (Z.abs (hval h)) (Z.abs (hval x))); [|right; lia].
  destruct (Znumtheory.Zdivide_dec (hval h) (hval x)); [left; auto|right; tauto].
Qed.
Lemma huge_div_nonzero_no_throw x h : hcanon x -> hcanon h -> hval h <> 0 ->
  is_throw (huge_div x h) = false /\ is_throw (huge_mod x h) = false /\ is_throw (huge_divrem x h) = false.
Proof.
  intros Hx Hh N. destruct (exact_long_h_dec x h) as [E|E].
  - destruct (huge_div_exact_ub x h Hx Hh N E) as (U1 & U2 & U3).
    destruct (huge_div x h), (huge_mod x h), (huge_divrem x h); try discriminate; repeat split.
  - destruct (huge_div_spec x h Hx Hh N E) as (q & -> & _).
    destruct (huge_mod_spec x h Hx Hh N E) as (r & -> & _).
    destruct (huge_divrem_spec x h Hx Hh N E) as (q' & r' & -> & _). repeat split.
Qed.
Lemma huge_divrem_identity x h : hcanon x -> hcanon h -> hval h <> 0 -> ~ exact_long_h x h ->
  exists q r, huge_divrem x h = Ok (q, r) /\ wf (digits q) /\ hcanon r /\
    hval q = Z.quot (hval x) (hval h) /\ hval r = Z.abs (Z.rem (hval x) (hval h)) /\
    (0 <= hval x -> hval x = hval q * hval h + hval r).
Proof.
  intros Hx Hh N E. destruct (huge_divrem_spec x h Hx Hh N E) as (q & r & R1 & R2 & R3 & R4 & R5).
  exists q, r. repeat split; auto; try apply R3. intros P. rewrite R4, R5.
  assert (0 <= Z.rem (hval x) (hval h)).
  { rewrite <- Z.rem_abs_r by assumption. apply Z.rem_bound_pos; lia. }
  rewrite Z.abs_eq by assumption. pose proof (Z.quot_rem (hval x) (hval h) N). lia.
Qed.
Lemma signed_round_trip w n : 1 < w <= 64 -> - 2 ^ (w - 1) < n < 2 ^ (w - 1) ->
  exists h, huge_of_signed w n = Ok h /\ huge_to w true h = Ok n.
Proof.
  intros Hw Hn. destruct (huge_of_signed_spec w n ltac:(lia) Hn) as (h & H1 & H2 & H3).
  exists h. split; [assumption|]. rewrite <- H3. apply huge_to_in_range; auto; try lia. rewrite H3. unfold umax. lia.
Qed.
Lemma unsigned_round_trip w n : 1 < w <= 64 -> 0 <= n < 2 ^ w ->
  exists h, huge_of_unsigned n = Ok h /\ huge_to w false h = Ok n.
Proof.
  intros Hw Hn. destruct (huge_of_unsigned_spec w n ltac:(lia) Hn) as (h & H1 & H2 & H3).
  exists h. split; [assumption|]. rewrite <- H3. apply huge_to_in_range; auto; try lia. rewrite H3. unfold umax. lia.
Qed.
