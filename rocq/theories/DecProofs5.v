(** A decimal literal in the parser: the token and the tree. *)
From Coq Require Import ZArith QArith Qreals Reals String Ascii Lia Lra Bool List Permutation.
From Verif Require Import Base HugeSpec AdapterModel AdapterProofs FactorizeModel RationalModel RationalSpec RationalProofs RationalProofs2 RealModel RealSpec RealProofs1 RealProofs3 RealProofs8 PolyModel PolySpec ExprModel ExprSpec ExprProofs1 ParserModel
  ParserSpec ParserProofs1 ParserProofs3 TextSpec TextProofs1 TextProofs2 PrintSpec PrintProofs1 DecModel DecSpec DecProofs4.
Import ListNotations.
Open Scope Z_scope.

Section D.
Variable P : penv.
Hypothesis HR : reads P.
Local Notation w := (ew (pe P)).

(** the leaf made from the fraction n/i in lowest terms *)
Definition leaf_quotient (n i : Z) : frac := Frac [term_const (rint n)] [term_const (rint i)].
Lemma read_quotient n i : 0 <= n < 2 ^ (w - 1) -> 1 <= i < 2 ^ (w - 1) -> Z.gcd n i = 1 -> frac_of_rat P (Rat n i) = Ok (leaf_quotient n i).
Proof.
  intros Hn H G. pose proof (w3 P HR) as W3. pose proof (w4 P HR) as W4.
  unfold frac_of_rat, real_of_rat. destruct HR as (W & F1 & SO). rewrite make_one; try assumption; try (cbn [num den]; lia). cbn [bind]. unfold frac_of_real, frac_of_term, poly_make. rewrite (normalize_one P HR). cbn [bind].
  unfold frac_of_poly. rewrite (poly_one_ok P HR). cbn [bind]. unfold frac_normalize. cbv zeta. cbn [fnum fden]. rewrite !(normalize_one P HR). cbn [bind].
  cbn [dens tco term_const coe rint den]. rewrite !Z.mul_1_l. repeat (rewrite chk_ok by lia; cbn [bind]). cbn [mapr]. rewrite !(of_int P HR) by lia. cbn [bind].
  assert (RI : rat_mul w (Rat n i) (Rat i 1) = Ok (Rat n 1)).
  { unfold rat_mul. cbn [num den]. rewrite gcd_ok' by lia. cbn [bind]. rewrite Z.gcd_1_r. rewrite gcd_ok' by lia. cbn [bind]. rewrite Z.gcd_diag, Z.abs_eq by lia.
    repeat (rewrite quot_ok by lia; cbn [bind]). rewrite ?Z.quot_1_r, ?Z.quot_same by lia. rewrite Z.mul_1_r. repeat (rewrite chk_ok by lia; cbn [bind]). reflexivity. }
  unfold term_mul. cbn [tco syms term_const merge_syms bind]. assert (MC : real_mul (pe P) (Real 1 (Rat 1 1) (Rat n i)) (rint i) = Ok (rint n)) by (apply (mul_coe P HR _ _ _ RI); cbn [num den]; lia).
  rewrite ?Z.mul_1_l. rewrite MC. cbn [bind]. unfold term_normalize. cbn [tco syms drop_zero bind].
  rewrite (mul_int P HR 1 i) by (rewrite ?Z.mul_1_l; lia). rewrite Z.mul_1_l. cbn [bind tco syms]. cbn [drop_zero bind tco].
  assert (T : forall k, Z.abs k < 2 ^ (w - 1) -> rat_to_t w (coe (rint k)) = Ok k) by (intros k Hk; unfold rat_to_t; cbn [coe rint num den]; rewrite quot_ok by lia; now rewrite Z.quot_1_r).
  rewrite !T by lia. cbn [bind]. rewrite gcd_ok' by lia. cbn [bind]. rewrite G. cbn [gcd_outer bind]. rewrite !(of_int P HR) by lia. cbn [bind].
  fold (term_const (rint n)). fold (term_const (rint i)). rewrite !(div_one P HR) by lia. reflexivity.
Qed.
Lemma leaf_quotient_value n i s : 1 <= i -> fv s (leaf_quotient n i) = (IZR n / IZR i)%R.
Proof. intros H. unfold leaf_quotient, fv, pv, tv. cbn [fnum fden fold_right tco syms term_const sv]. rewrite !rv_int. field. apply not_0_IZR. lia. Qed.

(** the text of a literal is a number for the tokenizer *)
Lemma literal_number s i f : decimal_literal s i f -> number s.
Proof.
  intros (-> & D & _). apply Forall_app in D as [Di Df]. destruct i as [|c i]; cbn [app number].
  - split; [now right|]. eapply Forall_impl; [|exact Df]. intros a Ha. unfold number_char. apply is_digit_spec in Ha. rewrite Ha. reflexivity.
  - inversion Di as [|? ? Hc Hi]; subst. apply is_digit_spec in Hc. split; [now left|].
    assert (ND : is_dot c = false) by (unfold is_dot; apply Ascii.eqb_neq; intros ->; discriminate).
    apply Forall_app. split; [|constructor].
    + eapply Forall_impl; [|exact Hi]. intros a Ha. unfold number_char. apply is_digit_spec in Ha. rewrite Ha. reflexivity.
    + unfold number_char. rewrite ND. reflexivity.
    + eapply Forall_impl; [|exact Df]. intros a Ha. unfold number_char. apply is_digit_spec in Ha. rewrite Ha. reflexivity.
Qed.
Lemma literal_parse dec s i f r : decimal_literal s i f -> rat_of_string w dec s = Ok r -> 0 <= num r < 2 ^ (w - 1) -> 0 < den r < 2 ^ (w - 1) -> lowest_terms r ->
  (forall next, stops (first s) next -> lexeme P dec s (TNum (leaf_quotient (num r) (den r))) next) /\ parse P dec s = Ok (Leaf (leaf_quotient (num r) (den r))).
Proof.
  intros L E N D G. destruct r as [n d]. cbn [num den] in *.
  assert (Q : frac_of_rat P (Rat n d) = Ok (leaf_quotient n d)) by (apply read_quotient; [assumption|lia|exact G]).
  assert (LX : forall next, stops (first s) next -> lexeme P dec s (TNum (leaf_quotient n d)) next).
  { intros next St. eapply lx_num; [exact (literal_number s i f L)|exact St|exact E|exact Q]. }
  split; [exact LX|]. apply (parse_iff P dec). exists [TNum (leaf_quotient n d)]. split.
  - rewrite <- (app_nil_r s). rewrite <- (app_nil_l (s ++ [])). apply ls_tok; [constructor|apply LX; exact I|apply ls_end; constructor].
  - apply grammar_parse. apply d_expr, d_sum, d_prod, d_pow, d_num.
Qed.
End D.
