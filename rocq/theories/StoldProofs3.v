(** Proofs: hexadecimal numbers. *)
From Coq Require Import ZArith QArith Qround Qabs Qpower Lqa Lia Bool List String Ascii.
From Verif Require Import Base AdapterModel AdapterProofs RationalModel RationalProofs RationalSpec ParserModel DecModel DecSpec DecProofs1 DecProofs2 DecProofs3 DecProofs4 DecProofs7 StoldModel StoldSpec StoldProofs1 StoldProofs2.
Import ListNotations.
Open Scope Z_scope.

Lemma hex_digit_is c v : hex_digit c v -> is_hex c = true /\ hex_digit_value c = v.
Proof.
  unfold hex_digit, is_hex, hex_digit_value. cbv zeta. intros H. destruct (is_digit c) eqn:D.
  - apply is_digit_spec in D. unfold is_dec_digit in D. split; [reflexivity|]. unfold digit_value. lia.
  - assert (ND : ~ is_dec_digit c) by (intros X; apply is_digit_spec in X; congruence). unfold is_dec_digit in ND. cbn [orb].
    unfold lower, ParserModel.in_range. destruct (N.leb_spec 65 (N_of_ascii c)) as [L|L]; cbn [andb]; [destruct (N.leb_spec (N_of_ascii c) 90) as [K|K]|]; try lia.
    + rewrite N_ascii_embedding by lia. rewrite andb_true_iff, !N.leb_le. lia.
    + rewrite andb_true_iff, !N.leb_le. lia.
Qed.
Lemma is_hex_digit c : is_hex c = true -> exists v, hex_digit c v.
Proof.
  unfold is_hex, hex_digit. cbv zeta. destruct (is_digit c) eqn:D.
  - intros _. apply is_digit_spec in D. unfold is_dec_digit in D. exists (Z.of_N (N_of_ascii c) - 48). lia.
  - cbn [orb]. unfold lower, ParserModel.in_range. destruct (N.leb_spec 65 (N_of_ascii c)) as [L|L]; cbn [andb]; [destruct (N.leb_spec (N_of_ascii c) 90) as [K|K]|].
    + rewrite N_ascii_embedding by lia. rewrite andb_true_iff, !N.leb_le. intros H. exists (Z.of_N (N_of_ascii c) - 55). lia.
    + rewrite andb_true_iff, !N.leb_le. intros H. exists (Z.of_N (N_of_ascii c) - 87). lia.
    + rewrite andb_true_iff, !N.leb_le. intros H. exists (Z.of_N (N_of_ascii c) - 87). lia.
Qed.
Lemma hex_row_is s v : hex_row s v -> forallb is_hex s = true /\ hex_digits_value s = v.
Proof.
  induction 1 as [|s v c d _ [A B] H]; [split; reflexivity|]. apply hex_digit_is in H as [H1 H2]. split; [rewrite forallb_app, A; cbn [forallb]; now rewrite H1|].
  unfold hex_digits_value in *. rewrite fold_left_app, B. cbn [fold_left]. now rewrite H2.
Qed.
Lemma lower_p c : Ascii.eqb (lower c) "p" = true -> c = "p"%char \/ c = "P"%char.
Proof.
  intros H. apply Ascii.eqb_eq in H. unfold lower in H. destruct (ParserModel.in_range 65 90 c) eqn:R; [|now left]. right.
  unfold ParserModel.in_range in R. apply andb_true_iff in R as [R1 R2]. apply N.leb_le in R1, R2. apply (f_equal N_of_ascii) in H. rewrite N_ascii_embedding in H by lia. apply N_ascii_inj. change (N_of_ascii "p") with 112%N in H. change (N_of_ascii "P") with 80%N. lia.
Qed.
Lemma scan_hex_exponent ex e rest : hex_exponent ex e -> hex_ends ex rest -> scan_exponent "p" (ex ++ rest) = e.
Proof.
  intros [[-> ->]|(c & sg & ds & -> & C & D & NE & S)] R.
  - destruct rest as [|c rest]; [reflexivity|]. cbn [app scan_exponent]. destruct (Ascii.eqb (lower c) "p") eqn:X; [|reflexivity]. apply lower_p in X. destruct R as (_ & R & _). destruct (R eq_refl) as [? ?]. tauto.
  - assert (L : Ascii.eqb (lower c) "p" = true) by (destruct C as [-> | ->]; reflexivity).
    assert (SP : span is_digit (ds ++ rest) = (ds, rest)). { apply span_all; [now apply digits_all|]. destruct rest as [|d rest]; [exact I|]. apply not_digit. destruct R as (_ & _ & R). apply R. discriminate. }
    cbn [app scan_exponent]. rewrite L. destruct ds as [|d ds]; [contradiction|]. assert (Dd : is_dec_digit d) by now inversion D.
    assert (N1 : Ascii.eqb d "-" = false) by (apply Ascii.eqb_neq, digit_neq; [assumption|reflexivity]). assert (N2 : Ascii.eqb d "+" = false) by (apply Ascii.eqb_neq, digit_neq; [assumption|reflexivity]).
    destruct S as [[[-> | ->] ->]|[-> ->]]; cbn [app].
    + rewrite N1, N2. change (d :: ds ++ rest) with ((d :: ds) ++ rest). rewrite SP. cbn [fst]. apply digits_value_row.
    + change (Ascii.eqb "+" "-") with false. change (Ascii.eqb "+" "+") with true. cbv iota. change (d :: ds ++ rest) with ((d :: ds) ++ rest). rewrite SP. cbn [fst]. apply digits_value_row.
    + change (Ascii.eqb "-" "-") with true. cbv iota. change (d :: ds ++ rest) with ((d :: ds) ++ rest). rewrite SP. cbn [fst]. now rewrite digits_value_row.
Qed.
Definition hex_read (F : ffmt) (h : Z) (k : nat) (e : Z) : Q := rnd (fprec F) (dyadic h (e - 4 * Z.of_nat k)).
Lemma stold_hex F t h k ex e rest : hex_text t h k ex e -> hex_ends ex rest -> stold_number F (t ++ rest) =
  let x := hex_read F h k e in if out_of_normal_range F x then (if flt x (dyadic 1 (femin F)) then Ub "subnormal: not modelled" else Throw "out_of_range") else Ok (Some x).
Proof.
  intros (x & i & f & X & -> & NE & Hr & -> & He) R. apply hex_row_is in Hr as [A B]. rewrite forallb_app in A. apply andb_true_iff in A as [Ai Af].
  unfold stold_number. assert (hex_parts (("0"%char :: x :: i ++ ["."%char] ++ f ++ ex) ++ rest) = Some (i, f, ex ++ rest)) as ->.
  { cbn [app hex_parts]. assert (Ascii.eqb (lower x) "x" = true) as -> by (destruct X as [-> | ->]; reflexivity). cbn [andb Ascii.eqb]. change (Ascii.eqb "0" "0") with true. cbv iota.
    rewrite <- app_assoc. unfold scan_digits. rewrite (span_all is_hex i); [|exact Ai|reflexivity]. cbn [app]. change (is_dot ".") with true. cbv iota.
    rewrite <- app_assoc. rewrite (span_all is_hex f); [destruct (i ++ f); [contradiction|reflexivity]|exact Af|].
    destruct ex as [|c ex].
    - cbn [app]. destruct rest as [|c rest]; [exact I|]. destruct (is_hex c) eqn:Hc; [|reflexivity]. apply is_hex_digit in Hc as [v Hc]. destruct R as [R _]. now apply R in Hc.
    - destruct He as [[? _]|(c' & sg & ds & E & C & _)]; [discriminate|]. injection E as -> _. cbn [app]. destruct C as [-> | ->]; reflexivity. }
  rewrite (scan_hex_exponent _ _ _ He R), B. reflexivity.
Qed.
(** stold on a hexadecimal number between whitespace, a sign and other text *)
Lemma stold_hex_text F sp sg t h k ex e rest : Forall blank sp -> sign_text sg -> hex_text t h k ex e -> hex_ends ex rest ->
  stold_text F (sp ++ sg ++ t ++ rest) = (y <- (let x := hex_read F h k e in if out_of_normal_range F x then (if flt x (dyadic 1 (femin F)) then Ub "subnormal: not modelled" else Throw "out_of_range") else Ok (Some x)) ;; Ok (option_map (signed sg) y)).
Proof.
  intros B Sg T R. pose proof (stold_hex F t h k ex e rest T R) as K. cbv zeta in K. destruct T as (x' & i & f & _ & -> & _). set (u := ("0"%char :: x' :: i ++ ["."%char] ++ f ++ ex) ++ rest) in *.
  assert (Hu : exists u', u = "0"%char :: u') by (eexists; reflexivity). destruct Hu as [u' Hu].
  unfold stold_text. destruct Sg as [-> |[-> | ->]]; cbn [app]; rewrite skip_blanks; try assumption; try reflexivity; try (rewrite Hu; reflexivity).
  - rewrite Hu. change (Ascii.eqb "0" "-") with false. change (Ascii.eqb "0" "+") with false. cbv iota. rewrite <- Hu, K. cbv zeta. destruct (out_of_normal_range _ _); [destruct (flt _ _); reflexivity|reflexivity].
  - change (Ascii.eqb "-" "-") with true. cbv iota. rewrite K. cbv zeta. destruct (out_of_normal_range _ _); [destruct (flt _ _); reflexivity|reflexivity].
  - change (Ascii.eqb "+" "-") with false. change (Ascii.eqb "+" "+") with true. cbv iota. rewrite K. cbv zeta. destruct (out_of_normal_range _ _); [destruct (flt _ _); reflexivity|reflexivity].
Qed.
Lemma hex_read_value h k e : (dyadic h (e - 4 * Z.of_nat k) == hex_value h k e)%Q.
Proof. rewrite dyadic_value. reflexivity. Qed.
Lemma hex_text_value w F sp sg t h k ex e rest m d : good_format F -> Forall blank sp -> sign_text sg -> hex_text t h k ex e -> hex_ends ex rest ->
  shortest_decimal (hex_value h k e) m d -> 28 * m <= 2 ^ fprec F -> (d <= fdig F)%nat -> 2 <= w -> (d <= int_digits10 w)%nat -> m < 2 ^ (w - 1) ->
  exists n r, (n = m \/ n = m - 1) /\ 0 <= n /\ ((d <= 1)%nat \/ (5 ^ Z.of_nat d | m) -> n = m) /\
    rat_of_text w F (sp ++ sg ++ t ++ rest) = Ok r /\ lowest_terms r /\ 0 < den r /\ (qv r == (if list_eq_dec ascii_dec sg ["-"%char] then - n else n) # pow10 d)%Q.
Proof.
  intros HF B Sg T R S Hm Hk Hw Hd Hr. set (x := dyadic h (e - 4 * Z.of_nat k)).
  assert (Sx : shortest_decimal x m d). { destruct S as (A & V & C). split; [assumption|]. split; [|exact C]. unfold x. now rewrite hex_read_value. }
  destruct (rat_of_nonneg_float w F x m d HF Sx Hm Hk Hw Hd Hr) as (R1 & R2 & N1 & N2). pose proof (numerator_exact F x m d HF Sx Hm Hk) as NX.
  set (n := read_numerator (fprec F) m d x) in *. pose proof (digits10_fits w d Hw Hd) as DF. set (D := 10 ^ Z.of_nat d) in *. assert (D0 : 0 < D) by (apply Z.pow_pos_nonneg; lia).
  set (n' := if list_eq_dec ascii_dec sg ["-"%char] then - n else n). assert (Bn : Z.abs n' <= n) by (unfold n'; destruct (list_eq_dec _ _ _); lia).
  destruct (normalize_ok w (Rat n' D)) as (r & E & _); cbn [num den]; try lia.
  assert (V : rat_of_float w F (signed sg (hex_read F h k e)) = Ok r).
  { unfold signed, hex_read. fold x. unfold n' in E. destruct (list_eq_dec ascii_dec sg ["-"%char]); [now rewrite R2|now rewrite R1]. }
  destruct (rat_normalize_val _ _ _ E) as [V1 V2]; cbn [num den] in *; [lia|]. pose proof (rat_normalize_pos _ _ _ E ltac:(cbn; lia)) as P. pose proof (rat_normalize_lowest _ _ _ E) as G.
  assert (NR : out_of_normal_range F (hex_read F h k e) = false) by (unfold hex_read; fold x; exact (in_normal_range F x m d HF Sx Hm Hk)).
  exists n, r. split; [lia|]. split; [lia|]. split; [exact NX|]. split; [|split; [exact G|split; [exact P|]]].
  - assert (IN : In "."%char (sp ++ sg ++ t ++ rest)).
    { destruct T as (x' & i & f & _ & -> & _). apply in_or_app. right. apply in_or_app. right. apply in_or_app. left. right. right. apply in_or_app. right. now left. }
    unfold rat_of_text, rat_of_string. destruct (find_dot_in _ IN) as [p ->].
    assert (ST : stold_text F (sp ++ sg ++ t ++ rest) = Ok (Some (signed sg (hex_read F h k e)))) by (rewrite (stold_hex_text F sp sg t h k ex e rest B Sg T R); cbv zeta; rewrite NR; reflexivity).
    unfold dec_text. rewrite ST. cbn [bind]. rewrite V. cbn [map_std_exn bind]. destruct (Z.eqb_spec (den r) 0); [lia|reflexivity].
  - fold n'. unfold qv. apply Qmult_inj_r with (z := inject_Z (den r)). { intros C. unfold Qeq, inject_Z in C. cbn in C. lia. }
    transitivity (inject_Z (num r)). { field. intros C. unfold Qeq, inject_Z in C. cbn in C. lia. }
    unfold Qeq, Qmult, inject_Z. cbn [QArith_base.Qnum QArith_base.Qden]. rewrite Pos.mul_1_r, pow10_value. fold D. lia.
Qed.
Lemma hex_large w F sp sg t h k ex e rest : 1 <= fprec F -> femin F <= femax F -> Forall blank sp -> sign_text sg -> hex_text t h k ex e -> hex_ends ex rest ->
  (Qpower 2 (femax F) <= hex_value h k e)%Q -> rat_of_text w F (sp ++ sg ++ t ++ rest) = Throw "The number is out of range.".
Proof.
  intros Hp HF B Sg T R V. set (x := dyadic h (e - 4 * Z.of_nat k)). assert (L : (P2 (femax F) <= x)%Q) by (unfold x; rewrite hex_read_value; exact V).
  assert (X : (0 < x)%Q) by (pose proof (P2_pos (femax F)); lra). pose proof (range_large F x Hp L) as O. pose proof (rnd_ge (fprec F) x _ Hp X (rep_P2 (fprec F) (femax F) Hp) L) as G.
  assert (IN : In "."%char (sp ++ sg ++ t ++ rest)).
  { destruct T as (x' & i & f & _ & -> & _). apply in_or_app. right. apply in_or_app. right. apply in_or_app. left. right. right. apply in_or_app. right. now left. }
  unfold rat_of_text, rat_of_string. destruct (find_dot_in _ IN) as [p ->]. unfold dec_text. rewrite (stold_hex_text F sp sg t h k ex e rest B Sg T R). cbv zeta. unfold hex_read. fold x. rewrite O.
  assert (flt (rnd (fprec F) x) (dyadic 1 (femin F)) = false) as ->.
  { unfold flt. apply negb_false_iff, Qle_bool_iff. rewrite dyadic_value. apply Qle_trans with (P2 (femax F)); [|exact G]. change (inject_Z 1) with 1%Q. rewrite Qmult_1_l. exact (P2_le (femin F) (femax F) HF). }
  reflexivity.
Qed.
