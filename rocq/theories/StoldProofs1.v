(** Proofs: std::stold on any text. *)
From Coq Require Import ZArith QArith Qround Qabs Qpower Lqa Lia Bool List String Ascii.
From Verif Require Import Base AdapterModel AdapterProofs RationalModel RationalProofs RationalSpec ParserModel DecModel DecSpec DecProofs1 DecProofs2 DecProofs3 DecProofs4 DecProofs7 StoldModel StoldSpec.
Import ListNotations.
Open Scope Z_scope.

Lemma N_ascii_inj a b : N_of_ascii a = N_of_ascii b -> a = b.
Proof. intros H. rewrite <- (ascii_N_embedding a), <- (ascii_N_embedding b). now rewrite H. Qed.
Lemma not_digit c : ~ is_dec_digit c -> is_digit c = false.
Proof. intros H. destruct (is_digit c) eqn:E; [apply is_digit_spec in E; contradiction|reflexivity]. Qed.
Lemma blank_space c : blank c <-> is_space c = true.
Proof.
  unfold blank, is_space, ParserModel.in_range. cbn [In]. rewrite orb_true_iff, andb_true_iff, !N.leb_le, Ascii.eqb_eq. split.
  - intros H. destruct (N.eq_dec (N_of_ascii c) 32) as [E|]; [right; now apply N_ascii_inj|left; lia].
  - intros [H| ->]; [lia|]. cbn. lia.
Qed.
Lemma lower_digit c : is_dec_digit c -> lower c = c.
Proof. unfold is_dec_digit, lower, ParserModel.in_range. intros H. destruct (N.leb_spec 65 (N_of_ascii c)); [lia|reflexivity]. Qed.
Lemma digit_neq c d : is_dec_digit c -> is_digit d = false -> c <> d.
Proof. intros H D ->. apply is_digit_spec in H. congruence. Qed.
Lemma lower_x c : Ascii.eqb (lower c) "x" = true -> c = "x"%char \/ c = "X"%char.
Proof.
  intros H. apply Ascii.eqb_eq in H. unfold lower in H. destruct (ParserModel.in_range 65 90 c) eqn:R; [|now left]. right.
  unfold ParserModel.in_range in R. apply andb_true_iff in R as [R1 R2]. apply N.leb_le in R1, R2. apply (f_equal N_of_ascii) in H. rewrite N_ascii_embedding in H by lia. apply N_ascii_inj. change (N_of_ascii "x") with 120%N in H. change (N_of_ascii "X") with 88%N. lia.
Qed.
Lemma lower_e c : Ascii.eqb (lower c) "e" = true -> c = "e"%char \/ c = "E"%char.
Proof.
  intros H. apply Ascii.eqb_eq in H. unfold lower in H. destruct (ParserModel.in_range 65 90 c) eqn:R; [|now left]. right.
  unfold ParserModel.in_range in R. apply andb_true_iff in R as [R1 R2]. apply N.leb_le in R1, R2. apply (f_equal N_of_ascii) in H. rewrite N_ascii_embedding in H by lia. apply N_ascii_inj. change (N_of_ascii "e") with 101%N in H. change (N_of_ascii "E") with 69%N. lia.
Qed.

(** ** the exponent *)
Definition no_more (ex rest : list ascii) : Prop := match rest with [] => True | c :: _ => ~ is_dec_digit c /\ (ex = [] -> c <> "e"%char /\ c <> "E"%char) end.
Lemma scan_exponent_text ex e rest : exponent_text ex e -> no_more ex rest -> scan_exponent "e" (ex ++ rest) = e.
Proof.
  intros [[-> ->]|(c & sg & ds & -> & C & D & NE & S)] R.
  - destruct rest as [|c rest]; [reflexivity|]. cbn [app scan_exponent]. destruct (Ascii.eqb (lower c) "e") eqn:X; [|reflexivity]. apply lower_e in X. destruct R as [_ R]. destruct (R eq_refl) as [? ?]. tauto.
  - assert (L : Ascii.eqb (lower c) "e" = true) by (destruct C as [-> | ->]; reflexivity).
    assert (SP : span is_digit (ds ++ rest) = (ds, rest)). { apply span_all; [now apply digits_all|]. destruct rest as [|d rest]; [exact I|]. apply not_digit, R. }
    cbn [app scan_exponent]. rewrite L. destruct ds as [|d ds]; [contradiction|]. assert (Dd : is_dec_digit d) by now inversion D.
    assert (N1 : Ascii.eqb d "-" = false) by (apply Ascii.eqb_neq, digit_neq; [assumption|reflexivity]). assert (N2 : Ascii.eqb d "+" = false) by (apply Ascii.eqb_neq, digit_neq; [assumption|reflexivity]).
    destruct S as [[[-> | ->] ->]|[-> ->]]; cbn [app].
    + rewrite N1, N2. change (d :: ds ++ rest) with ((d :: ds) ++ rest). rewrite SP. cbn [fst]. apply digits_value_row.
    + change (Ascii.eqb "+" "-") with false. change (Ascii.eqb "+" "+") with true. cbv iota. change (d :: ds ++ rest) with ((d :: ds) ++ rest). rewrite SP. cbn [fst]. apply digits_value_row.
    + change (Ascii.eqb "-" "-") with true. cbv iota. change (d :: ds ++ rest) with ((d :: ds) ++ rest). rewrite SP. cbn [fst]. now rewrite digits_value_row.
Qed.
Lemma ends_no_more t ex rest : ends_here t ex rest -> no_more ex rest.
Proof. destruct rest as [|c rest]; [easy|]. intros [A B]. split; [exact A|]. intros E. destruct (B E) as (? & ? & _). tauto. Qed.
(** the exponent does not begin with a digit, a dot or an x *)
Lemma exponent_head ex e rest c r : exponent_text ex e -> ex ++ rest = c :: r -> ex <> [] -> c = "e"%char \/ c = "E"%char.
Proof. intros [[-> _]|(c' & sg & ds & -> & C & _)] E N; [contradiction|]. injection E as <- _. exact C. Qed.

(** ** the digits *)
Lemma scan_number_text t i f ex e rest : number_text t i f ex e -> ends_here t ex rest -> scan_digits is_digit (t ++ rest) = (i, f, ex ++ rest).
Proof.
  intros (T & D & NE & X) R. apply Forall_app in D as [Di Df].
  assert (H : match ex ++ rest with [] => True | c :: _ => is_digit c = false end).
  { destruct ex as [|c ex]; [cbn; destruct rest; [exact I|apply not_digit, R]|]. cbn [app]. assert (C : c = "e"%char \/ c = "E"%char) by (apply (exponent_head (c :: ex) e [] c ex X); [now rewrite app_nil_r|discriminate]). destruct C as [-> | ->]; reflexivity. }
  unfold scan_digits. destruct T as [-> |[-> ->]].
  - rewrite <- !app_assoc. rewrite (span_all is_digit i); [|now apply digits_all|reflexivity]. cbn [app]. change (is_dot ".") with true. cbv iota. rewrite (span_all is_digit f); [reflexivity|now apply digits_all|exact H].
  - rewrite <- app_assoc. rewrite (span_all is_digit i); [|now apply digits_all|exact H]. destruct (ex ++ rest) as [|c r] eqn:E; [reflexivity|].
    assert (ND : is_dot c = false); [|now rewrite ND]. unfold is_dot. apply Ascii.eqb_neq. destruct ex as [|c' ex].
    + cbn in E. subst rest. destruct R as [_ R]. destruct (R eq_refl) as (_ & _ & _ & _ & R'). rewrite app_nil_r in R'. apply R'. intros In. rewrite Forall_forall in Di. specialize (Di _ In). revert Di. unfold is_dec_digit. cbn. lia.
    + assert (C : c = "e"%char \/ c = "E"%char) by (apply (exponent_head _ _ _ _ _ X E); discriminate). destruct C as [-> | ->]; discriminate.
Qed.
Lemma second_not_x t i f ex e rest z c s : number_text t i f ex e -> ends_here t ex rest -> t ++ rest = z :: c :: s -> z = "0"%char -> Ascii.eqb (lower c) "x" = false.
Proof.
  intros (T & D & NE & X) R E Z0. destruct (Ascii.eqb (lower c) "x") eqn:L; [exfalso|reflexivity]. apply lower_x in L. apply Forall_app in D as [Di Df].
  assert (tail : forall r, ex ++ rest = c :: r -> False).
  { intros r Er. destruct ex as [|c' ex]; [|assert (C : c = "e"%char \/ c = "E"%char) by (apply (exponent_head _ _ _ _ _ X Er); discriminate); destruct C as [-> | ->]; destruct L; discriminate].
    cbn in Er. subst rest. destruct R as [_ R]. destruct (R eq_refl) as (_ & _ & ? & ? & _). tauto. }
  assert (dig : is_dec_digit c -> False) by (intros Dc; destruct L as [-> | ->]; revert Dc; unfold is_dec_digit; cbn; lia).
  destruct i as [|a i].
  - destruct T as [-> |[-> ->]]; [|contradiction]. cbn [app] in E. injection E as E1 _. subst z. discriminate.
  - inversion Di as [|? ? Da Di']; subst. destruct T as [-> |[-> ->]]; rewrite <- ?app_assoc in E; cbn [app] in E; injection E as _ E.
    + destruct i as [|b i]; cbn [app] in E; injection E as Ec _; [subst c; destruct L; discriminate|subst b; apply dig; now inversion Di'].
    + destruct i as [|b i]; cbn [app] in E; [now apply (tail s)|]. injection E as Ec _. subst b. apply dig. now inversion Di'.
Qed.
Lemma hex_none t i f ex e rest : number_text t i f ex e -> ends_here t ex rest -> hex_parts (t ++ rest) = None.
Proof.
  intros T R. unfold hex_parts. destruct (t ++ rest) as [|z [|c s]] eqn:E; try reflexivity. destruct (Ascii.eqb_spec z "0"); [|reflexivity].
  rewrite (second_not_x _ _ _ _ _ _ _ _ _ T R E e0). reflexivity.
Qed.
Definition read_value (F : ffmt) (i f : list ascii) (e : Z) : Q := rnd (fprec F) (scale10 (row_value (i ++ f)) (List.length f) e).
Lemma stold_number_text F t i f ex e rest : number_text t i f ex e -> ends_here t ex rest ->
  stold_number F (t ++ rest) = if out_of_normal_range F (read_value F i f e) then Throw "out_of_range" else Ok (Some (read_value F i f e)).
Proof.
  intros T R. unfold stold_number. rewrite (hex_none _ _ _ _ _ _ T R), (scan_number_text _ _ _ _ _ _ T R). pose proof T as (_ & _ & NE & X). rewrite (scan_exponent_text _ _ _ X (ends_no_more _ _ _ R)).
  unfold read_value. rewrite <- digits_value_row. destruct (i ++ f) eqn:E; [contradiction|]. reflexivity.
Qed.
Lemma scale10_value i f e : (scale10 (row_value (i ++ f)) (List.length f) e == number_value i f e)%Q.
Proof.
  unfold scale10, number_value. rewrite literal_row. set (m := row_value (i ++ f)). set (k := List.length f).
  assert (P : (m # pow10 k == inject_Z m * Qpower 10 (- Z.of_nat k))%Q).
  { rewrite Qpower_opp. unfold Qdiv. change 10%Q with (inject_Z 10). rewrite <- Zpower_Qpower by lia. unfold Qeq, Qmult, Qinv, inject_Z. rewrite <- pow10_value. cbn. rewrite ?Pos.mul_1_r, ?Z.mul_1_r. reflexivity. }
  rewrite P, <- Qmult_assoc, <- Qpower_plus by discriminate. replace (- Z.of_nat k + e) with (e - Z.of_nat k) by lia. destruct (Z.leb_spec 0 (e - Z.of_nat k)) as [L|L].
  - rewrite inject_Z_mult, Zpower_Qpower by lia. reflexivity.
  - set (j := - (e - Z.of_nat k)). replace (e - Z.of_nat k) with (- Z.of_nat (Z.to_nat j)) by (unfold j; lia).
    rewrite Qpower_opp. change 10%Q with (inject_Z 10). rewrite <- Zpower_Qpower by lia. unfold Qeq, Qmult, Qinv, inject_Z. rewrite <- pow10_value. cbn. rewrite ?Pos.mul_1_r, ?Z.mul_1_r. reflexivity.
Qed.

(** ** whitespace and the sign *)
Definition signed (sg : list ascii) (x : Q) : Q := if list_eq_dec ascii_dec sg ["-"%char] then (- x)%Q else x.
Lemma skip_blanks sp s : Forall blank sp -> match s with [] => True | c :: _ => is_space c = false end -> snd (span is_space (sp ++ s)) = s.
Proof. intros B H. rewrite span_all; [reflexivity| |exact H]. apply forallb_forall. intros c I. apply blank_space. rewrite Forall_forall in B. auto. Qed.
Lemma digit_not_space c : is_dec_digit c -> is_space c = false.
Proof. intros D. destruct (is_space c) eqn:E; [|reflexivity]. apply blank_space in E. unfold blank in E. unfold is_dec_digit in D. cbn [In] in E. lia. Qed.
Lemma text_head t i f ex e rest : number_text t i f ex e -> exists c r, t ++ rest = c :: r /\ is_space c = false /\ Ascii.eqb c "-" = false /\ Ascii.eqb c "+" = false.
Proof.
  intros (T & D & NE & _). apply Forall_app in D as [Di Df]. destruct i as [|c i].
  - destruct T as [-> |[-> ->]]; [|contradiction]. exists "."%char. eexists. split; [reflexivity|]. repeat split.
  - assert (Dc : is_dec_digit c) by now inversion Di. exists c. destruct T as [-> |[-> ->]]; eexists; (split; [reflexivity|]); (split; [now apply digit_not_space|]); split; apply Ascii.eqb_neq, digit_neq; (assumption || reflexivity).
Qed.
Lemma stold_text_number F sp sg t i f ex e rest : Forall blank sp -> sign_text sg -> number_text t i f ex e -> ends_here t ex rest ->
  stold_text F (sp ++ sg ++ t ++ rest) = if out_of_normal_range F (read_value F i f e) then Throw "out_of_range" else Ok (Some (signed sg (read_value F i f e))).
Proof.
  intros B S T R. pose proof (stold_number_text F _ _ _ _ _ _ T R) as V. destruct (text_head _ _ _ _ _ rest T) as (c & r & E & C1 & C2 & C3).
  unfold stold_text. destruct S as [-> |[-> | ->]]; cbn [app]; rewrite skip_blanks; try assumption; try reflexivity; try (rewrite E; assumption).
  - rewrite E, C2, C3, <- E, V. reflexivity.
  - change (Ascii.eqb "-" "-") with true. cbv iota. rewrite V. destruct (out_of_normal_range _ _); reflexivity.
Qed.
Lemma find_dot_in s : In "."%char s -> exists p, find_char "." s = Some p.
Proof.
  induction s as [|c s IH]; [intros []|]. cbn [find_char]. destruct (Ascii.eqb_spec c "."); [eauto|]. intros [?|I]; [contradiction|]. destruct (IH I) as [[a b] ->]. eauto.
Qed.
Lemma text_reads w F sp sg t i f ex e rest : Forall blank sp -> sign_text sg -> number_text t i f ex e -> ends_here t ex rest -> In "."%char (t ++ rest) ->
  rat_of_text w F (sp ++ sg ++ t ++ rest) =
  (if out_of_normal_range F (read_value F i f e) then Throw "The number is out of range." else
   r <- rat_of_float w F (signed sg (read_value F i f e)) ;; if den r =? 0 then Throw division_by_zero else Ok r).
Proof.
  intros B S T R I. unfold rat_of_text, rat_of_string. destruct (find_dot_in (sp ++ sg ++ t ++ rest)) as [p ->]; [apply in_or_app; right; apply in_or_app; now right|].
  unfold dec_text. rewrite (stold_text_number _ _ _ _ _ _ _ _ _ B S T R). destruct (out_of_normal_range _ _); [reflexivity|]. cbn [bind].
  destruct (rat_of_float w F (signed sg (read_value F i f e))) as [r|m| |] eqn:E; try reflexivity. now apply of_float_silent in E.
Qed.
