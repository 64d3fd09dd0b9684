(** Proofs: the Rational read from any text with a dot; agreement with DecModel.v; texts that are no numbers. *)
From Coq Require Import ZArith QArith Qround Qabs Qpower Lqa Lia Bool List String Ascii.
From Verif Require Import Base AdapterModel AdapterProofs RationalModel RationalProofs RationalSpec ParserModel DecModel DecSpec DecProofs1 DecProofs2 DecProofs3 DecProofs4 DecProofs7 StoldModel StoldSpec StoldProofs1.
Import ListNotations.
Open Scope Z_scope.

(** ** the value *)
Lemma text_value w F sp sg t i f ex e rest m k : good_format F -> Forall blank sp -> sign_text sg -> number_text t i f ex e -> ends_here t ex rest -> In "."%char (t ++ rest) ->
  shortest_decimal (number_value i f e) m k -> 28 * m <= 2 ^ fprec F -> (k <= fdig F)%nat -> 2 <= w -> (k <= int_digits10 w)%nat -> m < 2 ^ (w - 1) ->
  exists n r, (n = m \/ n = m - 1) /\ 0 <= n /\ ((k <= 1)%nat \/ (5 ^ Z.of_nat k | m) -> n = m) /\
    rat_of_text w F (sp ++ sg ++ t ++ rest) = Ok r /\ lowest_terms r /\ 0 < den r /\ (qv r == (if list_eq_dec ascii_dec sg ["-"%char] then - n else n) # pow10 k)%Q.
Proof.
  intros HF B Sg T R I S Hm Hk Hw Hd Hr. set (x := scale10 (row_value (i ++ f)) (List.length f) e).
  assert (Sx : shortest_decimal x m k). { destruct S as (A & V & C). split; [assumption|]. split; [|exact C]. unfold x. now rewrite scale10_value. }
  destruct (rat_of_nonneg_float w F x m k HF Sx Hm Hk Hw Hd Hr) as (R1 & R2 & N1 & N2). pose proof (numerator_exact F x m k HF Sx Hm Hk) as NX.
  set (n := read_numerator (fprec F) m k x) in *. pose proof (digits10_fits w k Hw Hd) as DF. set (D := 10 ^ Z.of_nat k) in *. assert (D0 : 0 < D) by (apply Z.pow_pos_nonneg; lia).
  set (n' := if list_eq_dec ascii_dec sg ["-"%char] then - n else n). assert (Bn : Z.abs n' <= n) by (unfold n'; destruct (list_eq_dec _ _ _); lia).
  destruct (normalize_ok w (Rat n' D)) as (r & E & _); cbn [num den]; try lia.
  assert (V : rat_of_float w F (signed sg (read_value F i f e)) = Ok r).
  { unfold signed, read_value. fold x. unfold n' in E. destruct (list_eq_dec ascii_dec sg ["-"%char]); [now rewrite R2|now rewrite R1]. }
  destruct (rat_normalize_val _ _ _ E) as [V1 V2]; cbn [num den] in *; [lia|]. pose proof (rat_normalize_pos _ _ _ E ltac:(cbn; lia)) as P. pose proof (rat_normalize_lowest _ _ _ E) as G.
  exists n, r. split; [lia|]. split; [lia|]. split; [exact NX|]. split; [|split; [exact G|split; [exact P|]]].
  - rewrite (text_reads w F _ _ _ _ _ _ _ _ B Sg T R I), V. unfold read_value. fold x. rewrite (in_normal_range F x m k HF Sx Hm Hk). cbn [bind]. destruct (Z.eqb_spec (den r) 0); [lia|reflexivity].
  - fold n'. unfold qv. apply Qmult_inj_r with (z := inject_Z (den r)). { intros C. unfold Qeq, inject_Z in C. cbn in C. lia. }
    transitivity (inject_Z (num r)). { field. intros C. unfold Qeq, inject_Z in C. cbn in C. lia. }
    unfold Qeq, Qmult, inject_Z. cbn [QArith_base.Qnum QArith_base.Qden]. rewrite Pos.mul_1_r, pow10_value. fold D. lia.
Qed.

(** ** agreement with the digits and dots of DecModel.v *)
Definition unmodelled : string := "stold: not modelled".
Lemma scan_same s : scan_digits is_digit s = scan_decimal s. Proof. reflexivity. Qed.
Lemma plain_exponent r : plain_rest r = true -> scan_exponent "e" r = 0.
Proof.
  destruct r as [|c r]; [reflexivity|]. cbn [plain_rest scan_exponent]. intros H. destruct (Ascii.eqb (lower c) "e") eqn:L; [|reflexivity]. apply lower_e in L. destruct L as [-> | ->]; discriminate.
Qed.
Lemma hex_not_plain z c s : z = "0"%char -> Ascii.eqb (lower c) "x" = true -> let '(_, _, r) := scan_decimal (z :: c :: s) in plain_rest r = false.
Proof. intros -> L. apply lower_x in L. destruct L as [-> | ->]; reflexivity. Qed.
Lemma scale10_0 m k : scale10 m k 0 = (m # pow10 k)%Q.
Proof.
  unfold scale10. change (0 - Z.of_nat k) with (- Z.of_nat k). destruct (Z.leb_spec 0 (- Z.of_nat k)) as [L|L].
  - assert (k = 0%nat) by lia. subst k. cbn. rewrite Z.mul_1_r. reflexivity.
  - rewrite Z.opp_involutive, Nat2Z.id. reflexivity.
Qed.
Lemma number_agrees F s : stold_unsigned F s <> Ub unmodelled -> stold_number F s = (x <- stold_unsigned F s ;; Ok (Some x)).
Proof.
  intros N. unfold stold_unsigned in N |- *. destruct (scan_decimal s) as [[i f] r] eqn:Sc. destruct (plain_rest r) eqn:P; cbn [negb] in N |- *; [|contradiction].
  unfold stold_number. assert (hex_parts s = None) as ->.
  { unfold hex_parts. destruct s as [|z [|c s]]; try reflexivity. destruct (Ascii.eqb_spec z "0"); [|reflexivity]. destruct (Ascii.eqb (lower c) "x") eqn:L; [|reflexivity].
    exfalso. pose proof (hex_not_plain z c s e L) as X. rewrite Sc in X. congruence. }
  rewrite scan_same, Sc, (plain_exponent _ P). destruct (i ++ f) as [|d ds] eqn:E.
  - assert (starts_with (list_ascii_of_string "inf") s = false /\ starts_with (list_ascii_of_string "nan") s = false) as [-> ->]; [|reflexivity].
    destruct s as [|c s]; [split; reflexivity|]. apply app_eq_nil in E as [-> ->]. unfold scan_decimal in Sc. cbn [span] in Sc.
    destruct (is_digit c) eqn:Dc; [destruct (span is_digit s) as [a b]; destruct b as [|d b]; [discriminate|destruct (is_dot d); [destruct (span is_digit b)|]; discriminate]|].
    assert (Dt : c = "."%char).
    { destruct (is_dot c) eqn:Dt; [now apply Ascii.eqb_eq in Dt|]. injection Sc as <-. cbn [plain_rest] in P. rewrite Dc, Dt in P. discriminate. }
    subst c. split; unfold starts_with; destruct (list_eq_dec _ _ _) as [X|]; try reflexivity; cbn in X; discriminate.
  - rewrite scale10_0. cbv zeta. destruct (out_of_normal_range _ _); reflexivity.
Qed.
Lemma space_unmodelled F c s : is_space c = true -> stold_unsigned F (c :: s) = Ub unmodelled.
Proof.
  intros H. apply blank_space in H. assert (D : is_digit c = false). { destruct (is_digit c) eqn:D; [|reflexivity]. apply is_digit_spec, digit_not_space in D. apply blank_space in H. congruence. }
  assert (Dt : is_dot c = false). { unfold is_dot. apply Ascii.eqb_neq. intros ->. unfold blank in H. cbn in H. lia. }
  unfold stold_unsigned, scan_decimal. cbn [span]. rewrite D, Dt. cbn [plain_rest]. rewrite D, Dt. reflexivity.
Qed.
Lemma stold_agrees F s : stold F s <> Ub unmodelled -> stold_text F s = (x <- stold F s ;; Ok (Some x)).
Proof.
  intros N. destruct s as [|c s]; [reflexivity|]. unfold stold_text. cbn [span]. destruct (is_space c) eqn:Sp.
  { exfalso. apply N. cbn [stold]. destruct (Ascii.eqb_spec c "-"); [subst; discriminate|]. destruct (Ascii.eqb_spec c "+"); [subst; discriminate|]. now apply space_unmodelled. }
  cbn [snd]. cbn [stold] in N |- *. destruct (Ascii.eqb c "-").
  - rewrite number_agrees by (intros X; apply N; rewrite X; reflexivity). destruct (stold_unsigned F s); reflexivity.
  - destruct (Ascii.eqb c "+"); now rewrite number_agrees.
Qed.
Lemma dec_agrees w F s : dec_of w F s <> Ub unmodelled -> dec_text w F s = dec_of w F s.
Proof.
  intros N. unfold dec_text, dec_of in *. rewrite stold_agrees by (intros X; apply N; now rewrite X). destruct (stold F s); reflexivity.
Qed.

(** ** texts that are no numbers *)
Lemma hex_begins s p : hex_parts s = Some p -> begins_number s.
Proof.
  unfold hex_parts. destruct s as [|z [|c s]]; try discriminate. destruct (Ascii.eqb_spec z "0"); [|discriminate]. intros _. subst z. left. exists "0"%char, (c :: s). split; [reflexivity|]. unfold is_dec_digit. cbn. lia.
Qed.
Lemma scan_empty s : (let '(i, f, _) := scan_digits is_digit s in i ++ f = []) <-> ~ begins_number s.
Proof.
  unfold scan_digits. destruct s as [|c s]; cbn [span].
  - split; [|reflexivity]. intros _ [(? & ? & ? & _)|(? & ? & ? & _)]; discriminate.
  - destruct (is_digit c) eqn:Dc.
    + destruct (span is_digit s) as [a b]. split.
      * destruct b as [|d b]; [discriminate|]. destruct (is_dot d); [destruct (span is_digit b)|]; discriminate.
      * intros N. exfalso. apply N. left. exists c, s. split; [reflexivity|now apply is_digit_spec].
    + destruct (is_dot c) eqn:Dt.
      * unfold is_dot in Dt. apply Ascii.eqb_eq in Dt. subst c. destruct s as [|d s]; cbn [span].
        { split; [|reflexivity]. intros _ [(? & ? & X & D)|(? & ? & X & _)]; [injection X as <- _; revert D; unfold is_dec_digit; cbn; lia|discriminate]. }
        destruct (is_digit d) eqn:Dd.
        { destruct (span is_digit s). split; [discriminate|]. intros N. exfalso. apply N. right. exists d, s. split; [reflexivity|now apply is_digit_spec]. }
        split; [|reflexivity]. intros _ [(? & ? & X & D)|(? & ? & X & D)]; [injection X as <- _; revert D; unfold is_dec_digit; cbn; lia|]. injection X as <- _. apply is_digit_spec in D. congruence.
      * split; [|reflexivity]. intros _ [(? & ? & X & D)|(? & ? & X & _)]; [injection X as <- _; apply is_digit_spec in D; congruence|]. injection X as -> _. discriminate.
Qed.
Lemma lower_same a b : (97 <= N_of_ascii a <= 122)%N -> lower b = a <-> same_letter a b.
Proof.
  intros A. unfold lower, same_letter, ParserModel.in_range. destruct (N.leb_spec 65 (N_of_ascii b)) as [L|L]; cbn [andb]; [destruct (N.leb_spec (N_of_ascii b) 90) as [K|K]|].
  - split; [intros <-|intros [H|H]]; [right; rewrite N_ascii_embedding by lia; reflexivity|lia|]. apply N_ascii_inj. rewrite N_ascii_embedding by lia. exact H.
  - split; [intros ->; now left|intros [H|H]; [now apply N_ascii_inj|lia]].
  - split; [intros ->; now left|intros [H|H]; [now apply N_ascii_inj|lia]].
Qed.
Lemma starts_spelled p u : Forall (fun a => 97 <= N_of_ascii a <= 122)%N p -> starts_with p u = true <-> spelled p u.
Proof.
  intros H. unfold starts_with. destruct (list_eq_dec _ _ _) as [E|E]; (split; [intros X|]); try discriminate; try reflexivity.
  - clear X. revert u E. induction H as [|a p A _ IH]; intros u E; [exists [], u; split; [reflexivity|constructor]|]. destruct u as [|b u]; [discriminate|]. cbn [map List.length firstn] in E. injection E as E1 E2.
    destruct (IH u E2) as (q & r & -> & F2). exists (b :: q), r. split; [reflexivity|]. constructor; [now apply lower_same|exact F2].
  - intros (q & r & -> & F2). exfalso. apply E. clear E. revert H. induction F2 as [|a b p q S _ IH]; intros H; [reflexivity|]. inversion H; subst. cbn [map app List.length firstn]. f_equal; [now apply lower_same|auto].
Qed.
Lemma number_invalid F u : stold_number F u = Throw "invalid_argument" <-> ~ begins_number u /\ ~ spelled (list_ascii_of_string "inf") u /\ ~ spelled (list_ascii_of_string "nan") u.
Proof.
  assert (W : forall s, s = "inf"%string \/ s = "nan"%string -> starts_with (list_ascii_of_string s) u = true <-> spelled (list_ascii_of_string s) u).
  { intros s Hs. apply starts_spelled. destruct Hs as [-> | ->]; repeat constructor; cbn; lia. }
  pose proof (W _ (or_introl eq_refl)) as W1. pose proof (W _ (or_intror eq_refl)) as W2. clear W.
  unfold stold_number. destruct (hex_parts u) as [[[i f] r]|] eqn:H.
  - apply hex_begins in H. split; [|intros [N _]; contradiction]. cbv zeta. destruct (out_of_normal_range _ _); [destruct (flt _ _)|]; discriminate.
  - pose proof (scan_empty u) as SE. destruct (scan_digits is_digit u) as [[i f] r]. destruct (i ++ f) as [|d ds] eqn:E.
    + rewrite <- W1, <- W2. destruct (starts_with (list_ascii_of_string "inf") u), (starts_with (list_ascii_of_string "nan") u); cbn [orb]; split; try discriminate; try (intros (_ & A & B); exfalso; (now apply A) || now apply B).
      intros _. split; [now apply SE|]. split; discriminate.
      intros _. reflexivity.
    + cbv zeta. destruct (out_of_normal_range _ _); split; try discriminate; intros [N _]; apply SE in N; discriminate.
Qed.
Lemma text_invalid w F sp sg u : Forall blank sp -> sign_text sg -> In "."%char u -> (sg = [] -> match u with [] => True | c :: _ => ~ blank c /\ c <> "-"%char /\ c <> "+"%char end) ->
  rat_of_text w F (sp ++ sg ++ u) = Throw "Invaild string." <-> ~ begins_number u /\ ~ spelled (list_ascii_of_string "inf") u /\ ~ spelled (list_ascii_of_string "nan") u.
Proof.
  intros B S I U. rewrite <- (number_invalid F). unfold rat_of_text, rat_of_string. destruct (find_dot_in (sp ++ sg ++ u)) as [p ->]; [apply in_or_app; right; apply in_or_app; now right|].
  assert (D : dec_text w F (sp ++ sg ++ u) = (x <- stold_number F u ;; match x with Some q => rat_of_float w F (signed sg q) | None => Ub "inf or nan converted to an integer" end)).
  { unfold dec_text, stold_text. destruct S as [-> |[-> | ->]]; cbn [app].
    - specialize (U eq_refl). destruct u as [|c u]; [destruct I|]. destruct U as (U1 & U2 & U3). rewrite skip_blanks; [|assumption|destruct (is_space c) eqn:Sp; [now apply blank_space in Sp|reflexivity]].
      apply Ascii.eqb_neq in U2, U3. rewrite U2, U3. reflexivity.
    - rewrite skip_blanks by (assumption || reflexivity). change (Ascii.eqb "-" "-") with true. cbv iota. destruct (stold_number F u) as [[q|]|m| |]; reflexivity.
    - rewrite skip_blanks by (assumption || reflexivity). reflexivity. }
  rewrite D.
  assert (Q : forall q, (r <- map_std_exn (rat_of_float w F q) ;; (if den r =? 0 then Throw division_by_zero else Ok r)) <> Throw "Invaild string.").
  { intros q. destruct (rat_of_float w F q) as [r|m| |] eqn:E; try discriminate; [|now apply of_float_silent in E]. cbn [map_std_exn bind]. destruct (den r =? 0); discriminate. }
  destruct (stold_number F u) as [[q|]|m| |] eqn:E; cbn [bind]; try (split; discriminate).
  - split; [intros X; now apply Q in X|discriminate].
  - cbn [map_std_exn]. destruct (String.eqb_spec m "invalid_argument"); [subst m; split; reflexivity|]. destruct (String.eqb_spec m "out_of_range"); [subst m; split; discriminate|].
    cbn [bind]. split; [|intros X; injection X; contradiction]. intros X. injection X as ->. exfalso. clear - E. unfold stold_number in E. destruct (hex_parts u) as [[[i f] r]|].
    + cbv zeta in E. destruct (out_of_normal_range _ _); [destruct (flt _ _)|]; discriminate.
    + destruct (scan_digits is_digit u) as [[i f] r]. destruct (i ++ f); [destruct (_ || _)%bool; discriminate|]. cbv zeta in E. destruct (out_of_normal_range _ _); discriminate.
Qed.
