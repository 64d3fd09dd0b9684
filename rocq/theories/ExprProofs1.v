(** Proofs: simplification keeps the value of a tree. *)
From Coq Require Import ZArith Znumtheory QArith Qreals Reals String Ascii Lia Lra Bool List Permutation.
From Verif Require Import Base AdapterModel AdapterProofs RationalModel RationalSpec RationalProofs RationalProofs2 RealModel RealSpec RealProofs1 RealProofs2 RealProofs3 RealProofs4 RealProofs5 RealProofs6 PolyModel PolySpec PolyProofs1 PolyProofs2 PolyProofs3 PolyProofs4 PolyProofs5 ExprModel ExprSpec.
Import ListNotations.
Open Scope Z_scope.

Lemma Int_part_IZR n : Int_part (IZR n) = n.
Proof. pose proof (base_Int_part (IZR n)) as [A B]. rewrite <- minus_IZR in B. apply le_IZR in A. assert (-1 < Int_part (IZR n) - n) by (apply lt_IZR; lra). lia. Qed.
Lemma epow_int x n : epow x (IZR n) = powerRZ x n.
Proof. unfold epow. destruct (Rlt_dec 0 x); [now rewrite powerRZ_Rpower|now rewrite Int_part_IZR]. Qed.
Lemma powerRZ_mul x e n : x <> 0%R -> powerRZ (powerRZ x e) n = powerRZ x (e * n).
Proof.
  intros X. destruct (Z_lt_le_dec n 0) as [L|L].
  - replace n with (- Z.of_nat (Z.to_nat (- n))) at 1 by lia. rewrite powerRZ_neg'. rewrite powerRZ_mult by auto. rewrite <- powerRZ_neg'. f_equal. rewrite Z2Nat.id by lia. ring.
  - rewrite <- (Z2Nat.id n) at 1 by lia. rewrite powerRZ_mult by auto. f_equal. now rewrite Z2Nat.id by lia.
Qed.
(** scaling an exponent by any integer *)
Lemma pwr_scale w x v n v' : qok v -> rat_mul w v (Rat n 1) = Ok v' -> adm1 x v -> (pwr x v <> 0%R \/ 0 <= n) ->
  pwr x v' = powerRZ (pwr x v) n /\ (num v' = 0 \/ adm1 x v').
Proof.
  intros Q H A NZ. destruct (Z_lt_le_dec n 0) as [L|L].
  2:{ destruct (pwr_int_scale _ _ _ _ _ Q L H A) as [X Y]. rewrite powerRZ_pos by assumption. auto. }
  destruct NZ as [NZ|]; [|lia]. destruct (mul_int_value _ _ _ _ Q H) as [Q' V]. destruct (Rlt_dec 0 x) as [P|NP].
  - split; [|right; now left]. rewrite !pwr_pos by assumption. rewrite (Q2R_eq _ _ V), Q2R_mult, <- Rpower_mult. rewrite powerRZ_Rpower by apply exp_pos. f_equal. unfold Q2R, inject_Z. cbn [Qnum Qden]. field.
  - destruct A as [?|[D A]]; [contradiction|]. rewrite (rat_den1 v D) in V, NZ |- *. assert (E : v' = Rat (num v * n) 1).
    { apply qok_int; [assumption|]. rewrite V. unfold qv. cbn [num den]. rewrite inject_Z_mult. unfold Qdiv. now rewrite Qmult_1_r. }
    subst v'. rewrite !pwr_int in *. cbn [num den] in *. assert (X : x <> 0%R). { destruct A as [?|A]; [assumption|]. intros ->. apply NZ. now apply powerRZ0. }
    split; [now rewrite powerRZ_mul|]. right. right. cbn. auto.
Qed.
Lemma scale_syms_value w s n m : forall m', scale_syms w (Rat n 1) m = Ok m' -> swf m -> sadm s m -> (sv s m <> 0%R \/ 0 <= n) ->
  swf m' /\ map fst m' = map fst m /\ sv s m' = powerRZ (sv s m) n /\ (forall p, In p m' -> num (snd p) = 0 \/ adm1 (s (fst p)) (snd p)).
Proof.
  induction m as [|[k v] m IH]; intros m' H W A NZ; cbn [scale_syms] in H.
  - injection H as <-. split; [assumption|]. split; [reflexivity|]. split; [cbn; now rewrite powerRZ_R1|]. intros p [].
  - apply bind_ok in H as (v' & Hv & H). apply bind_ok in H as (r & Hr & H). injection H as <-. destruct W as [ND Q]. inversion Q as [|? ? Q1 Q2]; subst. inversion A as [|? ? A1 A2]; subst. cbn [map fst snd] in *. inversion ND as [|? ? X Y]; subst.
    rewrite sv_cons in NZ. cbn [fst snd] in NZ.
    assert (Z1 : pwr (s k) v <> 0%R \/ 0 <= n) by (destruct NZ as [NZ|]; [left; intros Z; apply NZ; rewrite Z; ring|now right]).
    assert (Z2 : sv s m <> 0%R \/ 0 <= n) by (destruct NZ as [NZ|]; [left; intros Z; apply NZ; rewrite Z; ring|now right]).
    destruct (IH _ Hr) as ([W1 W2] & K & V & P); [now split|assumption|assumption|]. destruct (pwr_scale _ _ _ _ _ Q1 Hv A1 Z1) as [V1 P1].
    split; [split; [cbn [map fst]; rewrite K; now constructor|constructor; [now apply (mul_int_value w v n)|assumption]]|]. split; [cbn [map fst]; now rewrite K|].
    split; [rewrite !sv_cons; cbn [fst snd]; now rewrite V, V1, Rfunctions.powerRZ_mult|]. intros p [<-|I]; auto.
Qed.
Lemma term_pow_value E s a n t : okenv E -> twf (ew E) a -> tadm s a -> (tv s a <> 0%R \/ 0 <= n) -> term_pow E a (Rat n 1) = Ok t ->
  twf (ew E) t /\ tadm s t /\ tv s t = powerRZ (tv s a) n.
Proof.
  intros (Hw & FS & FE) [Ga Wa] Aa NZ H. unfold term_pow in H. apply bind_ok in H as (c & Hc & H). apply bind_ok in H as (m & Hm & H).
  assert (Z2 : sv s (syms a) <> 0%R \/ 0 <= n) by (destruct NZ as [NZ|]; [left; intros Z; apply NZ; unfold tv; rewrite Z; ring|now right]).
  apply pow_fuel_int in Hc as (Gc & _ & _ & Vc); try assumption. destruct (scale_syms_value _ s _ _ _ Hm Wa Aa Z2) as (Wm & K & Vm & Pm).
  pose proof H as H2. apply (term_normalize_value _ s) in H as (W & N & T & V & _); [|now split]. split; [assumption|]. split.
  - unfold term_normalize in H2. apply bind_ok in H2 as (m' & Hm' & H2). injection H2 as <-. cbn [syms] in *. unfold tadm. cbn [syms]. destruct (drop_zero_spec _ s _ _ Hm' (proj2 Wm)) as (I & _). unfold sadm. rewrite Forall_forall. intros p J. apply I in J as [J NZ']. destruct (Pm p J); [contradiction|assumption].
  - rewrite V. unfold tv. cbn [tco syms]. rewrite Vm, Vc, Rfunctions.powerRZ_mult. reflexivity.
Qed.
(** any integer power of a polynomial: of one term, or with a representable factorial; a negative power of several terms gives the empty vector *)
Lemma poly_pow_any P s a n r : machine P -> pgood P s a -> (pv s a <> 0%R \/ 0 <= n) -> Z.of_nat (fact (Z.to_nat n)) < 2 ^ (ew (pe P) - 1) \/ length a = 1%nat ->
  poly_pow P a (Rat n 1) = Ok r -> r = [] \/ pgood P s r /\ pv s r = powerRZ (pv s a) n.
Proof.
  intros M [Wa Aa] NZ B H. pose proof (machine_env _ M) as O. pose proof O as (Hw & FS & FE). destruct (Z_lt_le_dec n 0) as [L|L]; [|destruct B as [B|B]].
  2:{ right. apply (poly_pow_value P s) in H as (G & V & _); try assumption; [|now split]. now rewrite powerRZ_pos. }
  - unfold poly_pow in H. cbv zeta in H.
    apply bind_ok in H as (z & Hz & H). apply rat_eq_inv in Hz. cbn [num den] in Hz. rewrite Z.mul_1_r, Z.mul_0_l in Hz. destruct z; [symmetry in Hz; apply Z.eqb_eq in Hz; lia|].
    apply bind_ok in H as (o & Ho & H). apply rat_eq_inv in Ho. cbn [num den] in Ho. rewrite Z.mul_1_r, Z.mul_1_l in Ho. destruct o; [symmetry in Ho; apply Z.eqb_eq in Ho; lia|]. clear Hz Ho.
    assert (HM : (v <- poly_try_eval (pe P) a ;; match v with Some c => c' <- real_pow (pe P) c (Rat n 1) ;; poly_make P [term_const c'] | None => if is_int (Rat n 1) then
            n <- rat_to_t (ew (pe P)) (Rat n 1) ;;
            vs <- solve_variable_eq (ew (pe P)) (length a) n (Z.of_nat (length a)) ;;
            l <- mapr (multinomial (pe P) a (wfact (ew (pe P)) (Z.to_nat (uwrap (ew (pe P)) n)))) vs ;;
            poly_make P l
          else Throw "Must be a int." end) = Ok r -> length a <> 1%nat -> r = [] \/ pgood P s r /\ pv s r = powerRZ (pv s a) n).
    { clear H. intros H LA. apply bind_ok in H as (v & Hv & H). destruct v as [c|].
      - apply (poly_try_eval_value _ s) in Hv as (G & V & _); try assumption. apply bind_ok in H as (c' & Hc & X). apply pow_fuel_int in Hc as (Gc & _ & _ & Vc); try assumption. apply (const_poly P s) in X as (W & A & V' & N); try assumption. right. split; [now split|]. now rewrite V', Vc, V.
      - left. unfold is_int in H. cbn [den Z.eqb Pos.eqb] in H. apply bind_ok in H as (n' & Hn' & H). unfold rat_to_t in Hn'. apply quot_w_inv in Hn' as (_ & -> & B2). cbn [num den] in *. rewrite Z.quot_1_r in *.
        apply bind_ok in H as (vs & Hvs & H). apply bind_ok in H as (l & Hl & H).
        assert (2 <= length a)%nat. { destruct a as [|? [|? ?]]; cbn [length] in *; try lia. exfalso. unfold poly_try_eval in Hv. apply bind_ok in Hv as (z & _ & Hv). discriminate. }
        assert (HL : Z.of_nat (length a) = Z.of_nat (length a - 2) + 2) by lia. rewrite HL in Hvs. apply solve_sols in Hvs as [_ ->].
        assert (S0 : sols (length a - 2) n = []). { destruct (sols (length a - 2) n) as [|v vs] eqn:E; [reflexivity|]. exfalso. pose proof (proj1 (sols_in (length a - 2) n v)) as X. rewrite E in X. destruct (X (or_introl eq_refl)) as (_ & F & S). assert (0 <= fold_right Z.add 0 v) by (clear -F; induction F; cbn; lia). lia. }
        rewrite S0 in Hl. cbn [mapr] in Hl. injection Hl as <-. apply (poly_normalize_value P s) in H as (_ & _ & _ & N); [|assumption|constructor|constructor]. now apply N. }
    destruct a as [|t [|u a]]; [apply HM; [assumption|discriminate]| |apply HM; [assumption|discriminate]].
    right. apply bind_ok in H as (p & Hp & H). inversion Wa; subst. inversion Aa; subst. apply (term_pow_value (pe P) s) in Hp as (Wp & Ap & Vp); try assumption.
    + apply (poly_normalize_value P s) in H as (W & A & V & N); [|assumption|now constructor|now constructor]. split; [now split|]. rewrite V, !pv_cons, Vp. cbn. rewrite !Rplus_0_r. reflexivity.
    + destruct NZ as [NZ|]; [left|now right]. intros Z. apply NZ. rewrite pv_cons, Z. cbn. ring.
  - right. destruct a as [|t [|u a]]; try discriminate. inversion Wa; subst. inversion Aa; subst. unfold poly_pow in H. cbv zeta in H.
    apply bind_ok in H as (z & Hz & H). apply rat_eq_inv in Hz. cbn [num den] in Hz. rewrite Z.mul_1_r, Z.mul_0_l in Hz. destruct z.
    { symmetry in Hz. apply Z.eqb_eq in Hz. subst n. apply bind_ok in H as (c & Hc & H). apply of_int_value in Hc as (Gc & _ & Vc); [|assumption]. apply (const_poly P s) in H as (W & A & V & N); try assumption. split; [now split|]. rewrite V, Vc. reflexivity. }
    clear Hz. apply bind_ok in H as (o & Ho & H). apply rat_eq_inv in Ho. cbn [num den] in Ho. rewrite Z.mul_1_r, Z.mul_1_l in Ho. destruct o.
    { symmetry in Ho. apply Z.eqb_eq in Ho. subst n. injection H as <-. split; [now split|]. now rewrite powerRZ_1. }
    apply bind_ok in H as (p & Hp & H). apply (term_pow_value (pe P) s) in Hp as (Wp & Ap & Vp); try assumption; [|now right].
    apply (poly_normalize_value P s) in H as (W & A & V & N); [|assumption|now constructor|now constructor]. split; [now split|]. rewrite V, !pv_cons, Vp. cbn. rewrite !Rplus_0_r. reflexivity.
Qed.
Lemma normalize_nonempty P s f f' : machine P -> pgood P s (fnum f) \/ fnum f = [] -> pgood P s (fden f) \/ fden f = [] -> frac_normalize P f = Ok f' -> fnum f <> [] /\ fden f <> [].
Proof.
  intros M Gn Gd H. assert (G : fgood P s f). { split; [destruct Gn as [?|E]|destruct Gd as [?|E]]; try assumption; rewrite E; split; constructor. }
  pose proof H as H2. apply (frac_normalize_value P s) in H2 as (_ & N & D & _); try assumption. unfold frac_normalize in H. cbv zeta in H. apply bind_ok in H as (n & Hn & H). apply bind_ok in H as (d & Hd & H). apply bind_ok in H as (m1 & Hm1 & H). apply bind_ok in H as (m & Hm & H). apply bind_ok in H as (n2 & Hn2 & H). apply bind_ok in H as (d2 & Hd2 & H).
  destruct G as [[A1 A2] [B1 B2]]. split; intros E.
  - apply (poly_normalize_value P s) in Hn as (_ & _ & _ & X); try assumption. apply X in E. subst n. cbn [mapr] in Hn2. injection Hn2 as <-. discriminate.
  - apply (poly_normalize_value P s) in Hd as (_ & _ & _ & X); try assumption. apply X in E. subst d. cbn [mapr] in Hd2. injection Hd2 as <-. destruct n2; discriminate.
Qed.
Lemma frac_pow_any P s a x n r : machine P -> fval P s a x -> (x <> 0%R \/ 0 <= n) ->
  Z.of_nat (fact (Z.to_nat n)) < 2 ^ (ew (pe P) - 1) \/ length (fnum a) = 1%nat /\ length (fden a) = 1%nat -> frac_pow P a (Rat n 1) = Ok r -> fval P s r (powerRZ x n).
Proof.
  intros M (G & D & V) NZ B H. pose proof (machine_env _ M) as O. pose proof O as (Hw & FS & FE). unfold frac_pow in H. apply bind_ok in H as (v & Hv & H). destruct v as [c|].
  - apply (frac_try_eval_value P s) in Hv as (Gc & Vc & _); try assumption. apply bind_ok in H as (c' & Hc & H). apply pow_fuel_int in Hc as (Gc' & _ & _ & Vc'); try assumption. apply (frac_of_real_value P s) in H; try assumption. now rewrite Vc', Vc, V in H.
  - destruct G as [Gn Gd]. apply bind_ok in H as (n' & Hn & H). apply bind_ok in H as (d' & Hd & H).
    assert (Zn : pv s (fnum a) <> 0%R \/ 0 <= n) by (destruct NZ as [NZ|]; [left; intros Z; apply NZ; rewrite <- V; unfold fv; rewrite Z; unfold Rdiv; ring|now right]).
    apply (poly_pow_any P s) in Hn; try assumption; [|tauto]. apply (poly_pow_any P s) in Hd; try assumption; [|now left|tauto].
    assert (NN : n' <> [] /\ d' <> []) by (apply (normalize_nonempty P s _ _ M) in H; cbn [fnum fden] in *; tauto). destruct NN as [N1 N2]. destruct Hn as [?|[Gn' Vn']]; [contradiction|]. destruct Hd as [?|[Gd' Vd']]; [contradiction|].
    apply (normalize_fval P s) in H; [|assumption|now split|cbn [fden]; rewrite Vd'; now apply powerRZ_NOR]. unfold fv in H at 1. cbn [fnum fden] in H. rewrite Vn', Vd' in H. rewrite <- V. unfold fv, Rdiv.
    rewrite Rfunctions.powerRZ_mult. replace (powerRZ (/ pv s (fden a)) n) with (/ powerRZ (pv s (fden a)) n)%R; [exact H|]. symmetry. apply powerRZ_inv'.
Qed.
(** fractional powers *)
Lemma frac_pow_root P s a x q r : machine P -> fval P s a x -> qok q ->
  match frac_try_eval P a with
  | Ok (Some c) => root_fits (ew (pe P)) c (den q)
  | _ => (forall k, (0 < s k)%R) /\ exists t u, fnum a = [t] /\ fden a = [u] /\ root_fits (ew (pe P)) (tco t) (den q) /\ root_fits (ew (pe P)) (tco u) (den q)
  end -> frac_pow P a q = Ok r -> (0 < x)%R /\ fval P s r (Rpower x (Q2R (qv q))).
Proof.
  intros M (G & D & V) Qq B H. pose proof (machine_env _ M) as O. pose proof O as (Hw & FS & FE). unfold frac_pow in H. apply bind_ok in H as (v & Hv & H). rewrite Hv in B. destruct v as [c|].
  - destruct B as (B1 & B2 & B3). apply (frac_try_eval_value P s) in Hv as (Gc & Vc & _); try assumption. apply bind_ok in H as (c' & Hc & H). apply pow_fuel_frac in Hc as (Gc' & Vc'); try assumption; [|apply Qq]. apply (frac_of_real_value P s) in H; try assumption. rewrite Vc', Vc, V in H. split; [|assumption].
    rewrite <- V, <- Vc. apply (rv_positive (ew (pe P))); try assumption. apply Gc.
  - destruct B as (SP & t & u & En & Ed & (T1 & T2 & T3) & (U1 & U2 & U3)). apply bind_ok in H as (n' & Hn & H). apply bind_ok in H as (d' & Hd & H). destruct G as [Gn Gd]. rewrite En in Hn, Gn. rewrite Ed in Hd, Gd.
    assert (PP : forall t p, pgood P s [t] -> 0 < num (coe (tco t)) -> 0 < den (coe (tco t)) -> idx (tco t) * den q < 2 ^ ew (pe P) -> poly_pow P [t] q = Ok p -> (0 < pv s [t])%R /\ pgood P s p /\ pv s p = Rpower (pv s [t]) (Q2R (qv q))).
    { clear - M O Hw FS FE SP Qq. intros t p [W A] X1 X2 X3 H. inversion W as [|? ? Wt _]; subst. inversion A as [|? ? At _]; subst.
      assert (PT : (0 < pv s [t])%R). { rewrite pv_cons. cbn. rewrite Rplus_0_r. unfold tv. apply Rmult_lt_0_compat; [apply (rv_positive (ew (pe P))); try assumption; apply Wt|]. destruct Wt as [_ Wt]. clear -SP Wt. destruct Wt as [_ Q]. induction Q as [|[k v] m Q1 Q IH]; cbn [syms]; [cbn; lra|]. rewrite sv_cons. apply Rmult_lt_0_compat; [cbn [fst snd]; rewrite pwr_pos by auto; apply exp_pos|assumption]. }
      split; [assumption|]. unfold poly_pow in H. cbv zeta in H. destruct Qq as [Dq Lq].
      apply bind_ok in H as (z & Hz & H). apply rat_eq_inv in Hz. cbn [num den] in Hz. rewrite Z.mul_1_r, Z.mul_0_l in Hz. destruct z.
      { symmetry in Hz. apply Z.eqb_eq in Hz. apply bind_ok in H as (c & Hc & H). apply of_int_value in Hc as (Gc & _ & Vc); [|assumption]. apply (const_poly P s) in H as (W' & A' & V & N); try assumption. split; [now split|]. rewrite V, Vc. rewrite qv_R by lia. rewrite Hz. unfold Rdiv. rewrite Rmult_0_l, Rpower_O by assumption. reflexivity. }
      clear Hz. apply bind_ok in H as (o & Ho & H). apply rat_eq_inv in Ho. cbn [num den] in Ho. rewrite Z.mul_1_r, Z.mul_1_l in Ho. destruct o.
      { symmetry in Ho. apply Z.eqb_eq in Ho. injection H as <-. split; [now split|]. rewrite qv_R by lia. rewrite Ho. unfold Rdiv. rewrite Rinv_r by (apply not_0_IZR; lia). now rewrite Rpower_1. }
      apply bind_ok in H as (p' & Hp & H). apply (term_pow_frac (pe P) s) in Hp as (Wp & _ & Vp); try assumption; [|now split].
      apply (poly_normalize_value P s) in H as (W' & A' & V & N); [|assumption|now constructor|constructor; [now apply sadm_pos|constructor]]. split; [now split|]. rewrite V, !pv_cons, Vp. cbn. rewrite !Rplus_0_r. reflexivity. }
    apply PP in Hn as (P1 & Gn' & Vn'); try assumption. apply PP in Hd as (P2 & Gd' & Vd'); try assumption. rewrite <- V. unfold fv. rewrite En, Ed. split; [now apply Rdiv_lt_0_compat|].
    apply (normalize_fval P s) in H; [|assumption|now split|cbn [fden]; rewrite Vd'; unfold Rpower; apply Rgt_not_eq, exp_pos]. unfold fv in H at 1. cbn [fnum fden] in H. rewrite Vn', Vd' in H.
    replace (Rpower (pv s [t] / pv s [u]) (Q2R (qv q))) with (Rpower (pv s [t]) (Q2R (qv q)) / Rpower (pv s [u]) (Q2R (qv q)))%R; [assumption|].
    unfold Rdiv. rewrite <- Rpower_mult_distr; [|assumption|now apply Rinv_0_lt_compat]. f_equal. unfold Rpower. rewrite ln_Rinv by assumption. rewrite <- exp_Ropp. f_equal. ring.
Qed.
(** the exponent *)
Lemma real_rational_value w a q : good w a -> real_to_rational w a = Ok q -> Q2R (qv q) = rv a /\ den q <> 0.
Proof.
  intros [(I & N & D & Dc) G1] H. unfold real_to_rational in H. apply bind_ok in H as (b & Hb & H). destruct b; [|discriminate]. apply rat_mul_exact in H as (_ & _ & Dq & V). split; [|assumption].
  rewrite (Q2R_eq _ _ V), Q2R_mult. unfold rv. unfold is_rational in Hb. apply bind_ok in Hb as (c0 & Hc & Hb). apply rat_eq_inv in Hc. cbn [num den] in Hc. rewrite Z.mul_1_r, Z.mul_0_l in Hc. destruct c0.
  { symmetry in Hc. apply Z.eqb_eq in Hc. rewrite (qv_R (coe a)) by assumption. rewrite Hc. unfold Rdiv. ring. }
  clear Hc. apply bind_ok in Hb as (r1 & Hr & Hb). apply rat_eq_inv in Hr. cbn [num den] in Hr. rewrite Z.mul_1_r, Z.mul_1_l in Hr.
  assert (E : num (rad a) = den (rad a)). { destruct r1; [symmetry in Hr; now apply Z.eqb_eq in Hr|]. apply bind_ok in Hb as (r0 & Hr0 & Hb). apply rat_eq_inv in Hr0. cbn [num den] in Hr0. rewrite Z.mul_1_r, Z.mul_0_l in Hr0. destruct r0; [symmetry in Hr0; apply Z.eqb_eq in Hr0; lia|]. injection Hb as Hb. apply orb_true_iff in Hb as [Hb|Hb]; apply Z.eqb_eq in Hb; [now apply G1|lia]. }
  f_equal. rewrite (qv_R (rad a)) by lia. rewrite E. unfold Rdiv. rewrite Rinv_r by (apply not_0_IZR; lia). unfold Rpower. rewrite ln_1, Rmult_0_r, exp_0. reflexivity.
Qed.
Lemma term_rational_value w s t q : twf w t -> term_to_rational w t = Ok q -> Q2R (qv q) = tv s t /\ den q <> 0.
Proof.
  intros [G _] H. unfold term_to_rational, no_symbols in H. destruct (syms t) eqn:E; [|discriminate]. apply real_rational_value in H as [V D]; [|assumption]. split; [|assumption]. unfold tv. rewrite E. cbn. now rewrite Rmult_1_r.
Qed.
Lemma poly_rational_value w s l q : pwf w l -> poly_to_rational w l = Ok q -> Q2R (qv q) = pv s l /\ den q <> 0.
Proof.
  intros W H. unfold poly_to_rational in H. apply bind_ok in H as (z & Hz & H).
  assert (G : forall l acc, pwf w l -> den acc <> 0 -> sum_rationals w acc l = Ok q -> Q2R (qv q) = (Q2R (qv acc) + pv s l)%R /\ den q <> 0).
  { clear. induction l as [|t l IH]; intros acc W D H; cbn [sum_rationals] in H; [injection H as <-; split; [cbn; ring|assumption]|]. inversion W; subst. apply bind_ok in H as (x & Hx & H). apply bind_ok in H as (a' & Ha & H).
    apply (term_rational_value w s) in Hx as [Vx Dx]; [|assumption]. apply rat_add_exact in Ha as [Da Va]; [|assumption|assumption]. apply IH in H as [V Dq]; [|assumption|assumption]. split; [|assumption]. rewrite V, (Q2R_eq _ _ Va), Q2R_plus, Vx, pv_cons. ring. }
  unfold rat_of_int in Hz. apply rat_normalize_val in Hz as [Dz Vz]; [|cbn; lia]. cbn [num den] in Vz. apply G in H as [V D]; [|assumption|assumption]. split; [|assumption]. rewrite V, qv_R by assumption. replace (num z) with 0 by lia. unfold Rdiv. ring.
Qed.
Lemma frac_rational_value w s f q : pwf w (fnum f) -> pwf w (fden f) -> frac_to_rational w f = Ok q -> Q2R (qv q) = fv s f.
Proof.
  intros W1 W2 H. unfold frac_to_rational in H. apply bind_ok in H as (n & Hn & H). apply bind_ok in H as (d & Hd & H). apply (poly_rational_value w s) in Hn as [Vn Dn]; [|assumption]. apply (poly_rational_value w s) in Hd as [Vd Dd]; [|assumption].
  apply rat_div_exact in H as (_ & ND & V); [|assumption]. rewrite (Q2R_eq _ _ V), Q2R_div, Vn, Vd; [reflexivity|]. intros Z. apply ND. apply Qeq_eqR in Z. rewrite qv_R in Z by assumption. apply eq_IZR. assert (X : IZR (den d) <> 0%R) by now apply not_0_IZR. apply (Rmult_eq_reg_r (/ IZR (den d))); [|now apply Rinv_neq_0_compat]. unfold Rdiv in Z. rewrite Z. unfold Q2R. cbn. ring.
Qed.
Lemma exponent_value P s b q : machine P -> fgood P s b -> computed_exponent P b q -> Q2R (qv q) = fv s b.
Proof.
  intros M G (p & Hp & [H|H]).
  - apply (frac_rational_value (ew (pe P)) s) in H; [assumption|apply G|apply G].
  - unfold exponent_of in Hp. apply bind_ok in Hp as (v & Hv & Hp). destruct v as [c|]; [|discriminate]. apply bind_ok in Hp as (rr & _ & Hp). destruct rr; [|discriminate]. injection Hp as <-. apply (frac_try_eval_value P s) in Hv as (Gc & Vc & _); try assumption. apply real_rational_value in H as [V _]; [|assumption]. congruence.
Qed.
Lemma leaf_fval P s f : leaf_defined (ew (pe P)) s f -> fval P s f (fv s f).
Proof. intros (A & B & C & D & E). split; [split; split; assumption|]. auto. Qed.
Lemma fval_leaf P s f x : fval P s f x -> leaf_defined (ew (pe P)) s f.
Proof. intros ([[A B] [C D]] & E & _). repeat split; assumption. Qed.
Lemma power_value P s a x b y q r : machine P -> fval P s a x -> fval P s b y -> computed_exponent P b q -> 0 < den q /\ lowest_terms q /\ power_fits P s a x q ->
  frac_pow P a q = Ok r -> fval P s r (epow x y).
Proof.
  intros M A B C (D & L & F) H. pose proof B as (GB & _ & VB). apply (exponent_value P s) in C; try assumption. rewrite VB in C. destruct F as [(D1 & NZ & F)|F].
  - rewrite (rat_den1 q D1) in H, C. apply (frac_pow_any P s a x) in H; try assumption. replace y with (IZR (num q)); [now rewrite epow_int|]. rewrite <- C. rewrite qv_R by (cbn; lia). cbn [num den]. field.
  - apply (frac_pow_root P s a x q) in H as [X H]; try assumption; [|now split]. rewrite C in H. unfold epow. destruct (Rlt_dec 0 x); [assumption|contradiction].
Qed.
Lemma apply_op_value P s c a b x y r : machine P -> fval P s a x -> fval P s b y -> (c = "/"%char -> y <> 0%R) -> c <> "^"%char -> apply_op P c a b = Ok r ->
  fval P s r (if Ascii.eqb c "+" then x + y else if Ascii.eqb c "-" then x - y else if Ascii.eqb c "*" then x * y else if Ascii.eqb c "/" then x / y else if Ascii.eqb c "^" then epow x y else 0)%R.
Proof.
  intros M A B NZ NP H. unfold apply_op in H. destruct (Ascii.eqb c "+"); [now apply (frac_add_value P s a b)|]. destruct (Ascii.eqb c "-"); [now apply (frac_sub_value P s a b)|]. destruct (Ascii.eqb c "*"); [now apply (frac_mul_value P s a b)|].
  destruct (Ascii.eqb_spec c "/"); [apply (frac_div_value P s a b); auto|]. discriminate.
Qed.
Theorem try_eval_value P s e f : machine P -> edefined P s e -> expr_try_eval P e = Ok (Some f) -> fval P s f (ev s e).
Proof.
  intros M. revert f. induction e as [f0|c l IHl r IHr]; intros f D H; cbn [expr_try_eval ev edefined] in *; [injection H as <-; now apply leaf_fval|].
  destruct D as (Dl & Dr & Dd & Dp). apply bind_ok in H as (lv & Hl & H). apply bind_ok in H as (rv' & Hr & H). destruct lv as [a|]; [|discriminate]. destruct rv' as [b|]; [|discriminate].
  pose proof (IHl _ Dl Hl) as Va. pose proof (IHr _ Dr Hr) as Vb. destruct (Ascii.eqb_spec c "^") as [->|NC].
  - apply bind_ok in H as (p & Hp & H). destruct p as [p|]; [|discriminate]. apply bind_ok in H as (q & Hq & H). apply bind_ok in H as (x & Hx & H). injection H as <-.
    assert (CE : computed_exponent P b q) by (exists p; split; [assumption|now left]). exact (power_value P s a _ b _ q x M Va Vb CE (Dp eq_refl a b q Hl Hr CE) Hx).
  - apply bind_ok in H as (x & Hx & H). injection H as <-. pose proof (apply_op_value P s c a b _ _ x M Va Vb Dd NC Hx) as V. now destruct (Ascii.eqb_spec c "^").
Qed.
Theorem normalize_value P s e : machine P -> edefined P s e -> forall e', expr_normalize P e = Ok e' -> ev s e' = ev s e.
Proof.
  intros M. induction e as [f0|c l IHl r IHr]; intros D e' H; cbn [expr_normalize] in H; [now injection H as <-|].
  destruct D as (Dl & Dr & Dd & Dp). apply bind_ok in H as (lv & Hl & H). apply bind_ok in H as (rv' & Hr & H).
  assert (HN : forall l' r', expr_normalize P l = Ok l' -> expr_normalize P r = Ok r' -> ev s (Op c l' r') = ev s (Op c l r)) by (intros l' r' A B; cbn [ev]; now rewrite (IHl Dl _ A), (IHr Dr _ B)).
  destruct lv as [a|]; [destruct rv' as [b|]|].
  - pose proof (try_eval_value P s _ _ M Dl Hl) as Va. pose proof (try_eval_value P s _ _ M Dr Hr) as Vb. destruct (Ascii.eqb_spec c "^") as [->|NC].
    + apply bind_ok in H as (p & Hp & H). destruct p as [p|].
      * apply bind_ok in H as (q & Hq & H). apply bind_ok in H as (x & Hx & H). injection H as <-. assert (CE : computed_exponent P b q) by (exists p; split; [assumption|now right]).
        destruct (power_value P s a _ b _ q x M Va Vb CE (Dp eq_refl a b q Hl Hr CE) Hx) as (_ & _ & V). cbn [ev]. exact V.
      * apply bind_ok in H as (l' & A & H). apply bind_ok in H as (r' & B & H). injection H as <-. now apply HN.
    + apply bind_ok in H as (x & Hx & H). injection H as <-. destruct (apply_op_value P s c a b _ _ x M Va Vb Dd NC Hx) as (_ & _ & V). cbn [ev]. exact V.
  - apply bind_ok in H as (r' & B & H). apply bind_ok in H as (l' & A & H). injection H as <-. now apply HN.
  - apply bind_ok in H as (r' & B & H). apply bind_ok in H as (l' & A & H). injection H as <-. now apply HN.
Qed.
Theorem subst_value P en s e : machine P -> sdefined P en s e -> forall e', expr_subst P en e = Ok e' -> ev s e' = ev (extend en s) e.
Proof.
  intros M. induction e as [f|c l IHl r IHr]; intros D e' H; cbn [expr_subst sdefined] in *.
  - destruct D as ((A & B & C & D & E) & Pn & Pd). apply bind_ok in H as (x & Hx & H). injection H as <-. pose proof (frac_subst_value P s en f _ x M (conj (conj A C) (conj B D)) E eq_refl Pn Pd Hx) as (_ & _ & V). exact V.
  - destruct D as (Dl & Dr & D). apply bind_ok in H as (l' & Hl & H). apply bind_ok in H as (r' & Hr & H). apply (normalize_value P s) in H; [|assumption|now apply D]. rewrite H. cbn [ev]. now rewrite (IHl Dl _ Hl), (IHr Dr _ Hr).
Qed.
