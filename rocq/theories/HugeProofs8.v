(** Lemmas: conversion of a Huge to a machine integer is modular. *)
From Coq Require Import ZArith String Ascii Lia Bool List.
From Verif Require Import Base HugeModel HugeSpec HugeProofs1 HugeProofs2 HugeProofs3 HugeProofs4 HugeProofs5 HugeProofs6 HugeProofs7.
Import ListNotations.
Open Scope Z_scope.

Lemma cast_mod w sg x : 0 < w -> cast w sg x mod 2 ^ w = x mod 2 ^ w.
Proof.
  intros Hw. assert (0 < 2 ^ w) by (apply Z.pow_pos_nonneg; lia). unfold cast. destruct sg.
  - unfold swrap. cbv zeta. destruct (x mod 2 ^ w <? 2 ^ (w - 1)).
    + apply Z.mod_mod. lia.
    + unfold Z.sub. replace (- 2 ^ w) with ((-1) * 2 ^ w) by ring. rewrite Z.mod_add by lia. apply Z.mod_mod. lia.
  - unfold uwrap. apply Z.mod_mod. lia.
Qed.
Lemma cast_range w sg x : 0 < w -> ulow w sg <= cast w sg x <= umax w sg.
Proof.
  intros Hw. assert (P : 0 < 2 ^ (w - 1)) by (apply Z.pow_pos_nonneg; lia). assert (E : 2 ^ w = 2 * 2 ^ (w - 1)) by (rewrite <- Z.pow_succ_r by lia; f_equal; lia).
  pose proof (Z.mod_pos_bound x (2 ^ w) ltac:(lia)). unfold cast, ulow, umax. destruct sg.
  - unfold swrap. cbv zeta. destruct (Z.ltb_spec (x mod 2 ^ w) (2 ^ (w - 1))); lia.
  - unfold uwrap. lia.
Qed.
Lemma cast_eq w sg x y : x mod 2 ^ w = y mod 2 ^ w -> cast w sg x = cast w sg y.
Proof. intros E. unfold cast, swrap, uwrap. rewrite E. reflexivity. Qed.
Lemma mod_split x y m : m <> 0 -> x mod m = y mod m -> exists k, x = y + k * m.
Proof.
  intros Hm E. exists (x / m - y / m). pose proof (Z.div_mod x m Hm). pose proof (Z.div_mod y m Hm). rewrite E in H. lia.
Qed.
Lemma cast_split w sg x : 0 < w -> exists k, cast w sg x = x + k * 2 ^ w.
Proof. intros Hw. apply mod_split; [apply Z.pow_nonzero; lia|]. apply cast_mod, Hw. Qed.
Lemma cast_add w sg x k : 0 < w -> cast w sg (x + k * 2 ^ w) = cast w sg x.
Proof. intros Hw. apply cast_eq. apply Z.mod_add. apply Z.pow_nonzero; lia. Qed.

Lemma to_loop_mod w sg : 30 <= w -> forall rd P, wf rd -> rd <> [] ->
  to_loop w sg (P * BASE) rd = cast w sg (P * BASE ^ Z.of_nat (length rd) + dval (rev rd)).
Proof.
  intros Hw. induction rd as [|d rd IH]; intros P Hd Ne; [congruence|].
  apply wf_cons in Hd. destruct Hd as [Hd Hr]. cbn [to_loop]. rewrite lor_BASE by assumption.
  cbn [length rev]. rewrite dval_app, rev_length. cbn [dval]. rewrite Z.mul_0_r, Z.add_0_r.
  rewrite Nat2Z.inj_succ, Z.pow_succ_r by lia.
  destruct rd as [|d2 rd].
  - cbn [rev dval length]. change (Z.of_nat 0) with 0. rewrite Z.pow_0_r. f_equal. ring.
  - rewrite shiftl_SHIFT. destruct (cast_split w sg (P * BASE + d)) as [k1 E1]; [lia|]. rewrite E1.
    replace ((P * BASE + d + k1 * 2 ^ w) * BASE) with ((P * BASE + d) * BASE + (k1 * BASE) * 2 ^ w) by ring. rewrite cast_add by lia.
    destruct (cast_split w sg ((P * BASE + d) * BASE)) as [k2 E2]; [lia|]. rewrite E2.
    assert (EW : 2 ^ w = 2 ^ (w - 30) * BASE) by (unfold BASE; rewrite <- Z.pow_add_r by lia; f_equal; lia).
    replace ((P * BASE + d) * BASE + k2 * 2 ^ w) with ((P * BASE + d + k2 * 2 ^ (w - 30)) * BASE) by (rewrite EW; ring).
    rewrite IH by (auto; discriminate). set (V := dval (rev (d2 :: rd))). cbn [length]. rewrite Nat2Z.inj_succ, Z.pow_succ_r by lia. set (B := BASE ^ Z.of_nat (length rd)).
    replace ((P * BASE + d + k2 * 2 ^ (w - 30)) * (BASE * B) + V) with (P * (BASE * (BASE * B)) + (V + BASE * B * d) + (k2 * B) * 2 ^ w) by (rewrite EW; ring).
    apply cast_add. lia.
Qed.

Lemma times_sign_mod w sg (pos : bool) v : 1 < w -> (pos = true \/ sg = true) -> 0 <= v ->
  times_sign w sg pos (cast w sg v) =
    if (sg && (32 <=? w) && negb pos && (v mod 2 ^ w =? 2 ^ (w - 1)))%bool then Ub "signed overflow" else Ok (cast w sg (if pos then v else - v)).
Proof.
  intros Hw Hs Hv. assert (P : 0 < 2 ^ (w - 1)) by (apply Z.pow_pos_nonneg; lia). assert (E : 2 ^ w = 2 * 2 ^ (w - 1)) by (rewrite <- Z.pow_succ_r by lia; f_equal; lia).
  pose proof (cast_range w sg v ltac:(lia)) as CR. unfold times_sign.
  assert (CC : forall z, cast w sg (cast w sg z) = cast w sg z) by (intros z; apply cast_eq, cast_mod; lia).
  destruct sg.
  - cbn [andb]. unfold ulow, umax in CR. destruct pos; cbn [negb andb].
    + rewrite andb_false_r. cbn [andb]. assert ((cast w true v >? umax w true) = false) as -> by (rewrite Z.gtb_ltb; apply Z.ltb_ge; unfold umax; lia).
      rewrite andb_false_r, CC. reflexivity.
    + rewrite andb_true_r.
      assert (T : (- cast w true v >? umax w true) = (v mod 2 ^ w =? 2 ^ (w - 1))).
      { rewrite Z.gtb_ltb. pose proof (Z.mod_pos_bound v (2 ^ w) ltac:(lia)). unfold cast, swrap, umax in *. cbv zeta in *.
        destruct (Z.ltb_spec (v mod 2 ^ w) (2 ^ (w - 1))); destruct (Z.eqb_spec (v mod 2 ^ w) (2 ^ (w - 1))); first [apply Z.ltb_lt; lia|apply Z.ltb_ge; lia]. }
      rewrite T. destruct ((32 <=? w) && (v mod 2 ^ w =? 2 ^ (w - 1)))%bool; [reflexivity|]. f_equal.
      destruct (cast_split w true v) as [k Ek]; [lia|]. rewrite Ek. replace (- (v + k * 2 ^ w)) with (- v + (- k) * 2 ^ w) by ring. apply cast_add. lia.
  - destruct Hs as [->|]; [|discriminate]. cbn [andb]. f_equal.
    assert (cast w false 1 = 1) as ->. { apply cast_small; [lia|]. unfold umax. lia. }
    rewrite Z.mul_1_r. apply CC.
Qed.

Lemma huge_to_mod w sg x : 1 < w -> hcanon x -> (0 <= hval x \/ sg = true) -> Z.abs (hval x) < 2 ^ (30 * (w / 30 + 1)) ->
  huge_to w sg x = if (sg && (32 <=? w) && (hval x <? 0) && (Z.abs (hval x) mod 2 ^ w =? 2 ^ (w - 1)))%bool then Ub "signed overflow" else Ok (cast w sg (hval x)).
Proof.
  intros Hw Hx Hs HB. rewrite abs_hval in * by now apply canon_wf. unfold huge_to.
  destruct x as [ds pos]. unfold hcanon, hval in *. cbn [digits is_positive] in *.
  assert (P1 : 0 < 2 ^ (w - 1)) by (apply Z.pow_pos_nonneg; lia).
  destruct ds as [|d tl] eqn:Ed.
  { cbn [dval]. assert (cast w sg 0 = 0) as C0. { apply cast_small; [lia|]. assert (2 ^ 1 <= 2 ^ w) by (apply Z.pow_le_mono_r; lia). unfold umax. destruct sg; lia. }
    destruct pos; cbn [Z.opp Z.ltb Z.compare]; rewrite andb_false_r; cbn [andb]; rewrite C0; reflexivity. }
  assert (Pos : 0 < dval ds) by (apply canon_pos; subst; [assumption|discriminate]).
  rewrite <- Ed in *.
  assert (Sg : pos = true \/ sg = true).
  { destruct pos; [auto|]. destruct Hs; [lia|auto]. }
  assert (Neg : negb (pos || sg) = false) by (destruct Sg as [-> | ->]; [reflexivity|destruct pos; reflexivity]).
  rewrite Neg.
  assert (NP : ((if pos then dval ds else - dval ds) <? 0) = negb pos). { destruct pos; cbn [negb]; [apply Z.ltb_ge|apply Z.ltb_lt]; lia. }
  rewrite NP.
  assert (Hd : 0 <= d < BASE) by (subst ds; destruct Hx as [Wx _]; apply wf_cons in Wx; tauto).
  rewrite <- times_sign_mod by (auto; lia).
  destruct ((match tl with [] => true | _ => false end && (d <=? umax w sg) && (swrap 32 d >=? ulow w sg))%bool) eqn:T.
  - apply andb_true_iff in T. destruct T as [T _]. apply andb_true_iff in T. destruct T as [T1 T2].
    destruct tl; [|discriminate]. assert (EV : dval ds = d) by (subst ds; cbn [dval]; lia). rewrite EV. reflexivity.
  - pose proof (Z.div_mod w 30 ltac:(lia)) as DM. pose proof (Z.mod_pos_bound w 30 ltac:(lia)) as MB. assert (W0 : 0 <= w / 30) by (apply Z.div_pos; lia).
    assert (LC : (Z.of_nat (length ds) - 1) * SHIFT <= w).
    { unfold SHIFT. assert (NE : ds <> []) by (subst; discriminate).
      pose proof (canon_lower ds Hx NE) as CL. unfold BASE in CL. assert (L0 : (0 < length ds)%nat) by (destruct ds; [congruence|cbn; lia]).
      rewrite <- Z.pow_mul_r in CL by lia. assert (2 ^ (30 * (Z.of_nat (length ds) - 1)) < 2 ^ (30 * (w / 30 + 1))) as LT by lia.
      apply Z.pow_lt_mono_r_iff in LT; lia. }
    assert (LC' := proj2 (Z.leb_le _ _) LC). rewrite LC'. f_equal.
    destruct (Z_lt_le_dec w 30) as [Sm|Big].
    + assert (L1 : length ds = 1%nat) by (unfold SHIFT in LC; subst ds; cbn [length] in *; lia).
      subst ds. destruct tl; [|discriminate]. cbn [rev app to_loop dval]. change (Z.lor 0 d) with (Z.lor (0 * BASE) d). rewrite lor_BASE by assumption. f_equal. lia.
    + change 0 with (0 * BASE) at 1. rewrite to_loop_mod; [|lia|apply wf_rev, canon_wf; assumption|].
      * rewrite rev_involutive. reflexivity.
      * intros C. apply (f_equal (@rev Z)) in C. rewrite rev_involutive in C. cbn in C. subst; discriminate.
Qed.
