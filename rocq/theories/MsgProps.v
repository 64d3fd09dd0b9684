(** C77: error texts and type names. *)
From Coq Require Import ZArith String Ascii Bool List Lia.
From Verif Require Import Base AdapterModel AdapterProofs HugeSpec MsgModel.
Import ListNotations.
Open Scope Z_scope.

(** ** assertions *)
Theorem C77_assert b detail l : (b = true -> symxx_assert b detail l = None) /\ (b = false -> exists e, symxx_assert b detail l = Some e /\ ewhat e = detail /\ edetail e = detail).
Proof. split; intros ->; [reflexivity|]. eexists. split; [reflexivity|auto]. Qed.
Print Assumptions C77_assert.
Theorem C77_unreachable detail l : exists e, symxx_unreachable detail l = Some e /\ ewhat e = list_ascii_of_string "Unreachable code: " ++ detail.
Proof. eexists. split; reflexivity. Qed.
Print Assumptions C77_unreachable.
(** errors are equal when their messages are, wherever they come from *)
Theorem C77_equality d d' l l' : error_eq (error_make d l) (error_make d' l') = true <-> d = d'.
Proof. unfold error_eq, error_make. cbn [edetail]. destruct (list_eq_dec ascii_dec d d'); split; congruence. Qed.
Print Assumptions C77_equality.

(** ** what is shown determines message and place *)
Lemma split_at (c : ascii) (p p' q q' : list ascii) : ~ In c p -> ~ In c p' -> p ++ c :: q = p' ++ c :: q' -> p = p' /\ q = q'.
Proof.
  revert p'. induction p as [|x p IH]; intros [|y p'] N N' E; cbn [app] in E.
  - injection E as ->. auto.
  - injection E as E _. destruct N'. left. auto.
  - injection E as E _. destruct N. left. auto.
  - injection E as -> E. destruct (IH p') as [-> ->]; [intros I; apply N; now right|intros I; apply N'; now right|exact E|auto].
Qed.
Lemma digits_no_colon n : ~ In ":"%char (adapter_to_string n) /\ ~ In esc (adapter_to_string n).
Proof.
  assert (G : forall m, 0 <= m -> ~ In ":"%char (numeral m) /\ ~ In esc (numeral m)).
  { intros m Hm. destruct (numeral_spec m Hm) as [C _]. assert (F : Forall is_dec_digit (numeral m)) by (apply C). rewrite Forall_forall in F. split; intros I; apply F in I; unfold is_dec_digit in I; cbn in I; lia. }
  unfold adapter_to_string. destruct (Z.ltb_spec n 0); [|apply G; lia]. destruct (G (- n) ltac:(lia)). split; (intros [X|X]; [discriminate|contradiction]).
Qed.
Theorem C77_content_determines d d' l l' : ~ In esc (lfile l ++ lfunc l) -> ~ In esc (lfile l' ++ lfunc l') -> get_content (error_make d l) = get_content (error_make d' l') -> d = d' /\ location_to_str l = location_to_str l'.
Proof.
  intros N N' H. unfold get_content, error_make in H. cbn [elocation edetail] in H. injection H as H.
  assert (G : forall l, ~ In esc (lfile l ++ lfunc l) -> ~ In esc (location_to_str l ++ mtxt ":")).
  { clear. intros l N I. apply N. unfold location_to_str in I. rewrite !in_app_iff in *. destruct (digits_no_colon (lline l)) as [_ D]. repeat (destruct I as [I|I]; try tauto); try (cbn in I; intuition discriminate). }
  assert (A : (location_to_str l ++ mtxt ":") ++ esc :: mtxt "[m " ++ d = (location_to_str l' ++ mtxt ":") ++ esc :: mtxt "[m " ++ d') by (rewrite <- !app_assoc; exact H).
  apply split_at in A as [A B]; [|now apply G|now apply G]. apply app_inv_tail in A. apply app_inv_head in B. auto.
Qed.
Print Assumptions C77_content_determines.
Theorem C77_place_determines l l' : ~ In ":"%char (lfile l) -> ~ In ":"%char (lfile l') -> 0 <= lline l -> 0 <= lline l' -> location_to_str l = location_to_str l' -> l = l'.
Proof.
  intros N N' P P' H. unfold location_to_str in H. destruct l as [f n g], l' as [f' n' g']. cbn [lfile lline lfunc] in *.
  apply split_at in H as [-> H]; [|assumption|assumption]. apply split_at in H as [H E]; [|apply digits_no_colon|apply digits_no_colon]. apply app_inv_tail in E. subst g'.
  assert (n = n') as ->; [|reflexivity]. unfold adapter_to_string in H. destruct (Z.ltb_spec n 0); [lia|]. destruct (Z.ltb_spec n' 0); [lia|]. destruct (numeral_spec n P) as [_ <-]. destruct (numeral_spec n' P') as [_ <-]. now rewrite H.
Qed.
Print Assumptions C77_place_determines.
Theorem C77_place_refuted : let a := Loc (mtxt "a:1:b") 2 (mtxt "f") in let b := Loc (mtxt "a") 1 (mtxt "b:2:f") in a <> b /\ location_to_str a = location_to_str b.
Proof. split; [discriminate|reflexivity]. Qed.
Print Assumptions C77_place_refuted.

(** ** the name of a type: the text between the first '<' and the last '>' *)
Lemma find_first_absent c s i : ~ In c s -> find_first_from i c s = npos.
Proof. revert i. induction s as [|x s IH]; intros i N; cbn [find_first_from]; [reflexivity|]. destruct (Ascii.eqb_spec x c) as [->|_]; [destruct N; now left|]. apply IH. intros I. apply N. now right. Qed.
Lemma find_first_at c p q i : ~ In c p -> find_first_from i c (p ++ c :: q) = i + Z.of_nat (length p).
Proof.
  revert i. induction p as [|x p IH]; intros i N; cbn [find_first_from app length]; [rewrite Ascii.eqb_refl; lia|]. destruct (Ascii.eqb_spec x c) as [->|_]; [destruct N; now left|]. rewrite IH by (intros I; apply N; now right). lia.
Qed.
Lemma find_last_absent c s : forall i best, ~ In c s -> find_last_from i best c s = best.
Proof. induction s as [|x s IH]; intros i best N; cbn [find_last_from]; [reflexivity|]. destruct (Ascii.eqb_spec x c) as [->|_]; [destruct N; now left|]. apply IH. intros I. apply N. now right. Qed.
Lemma find_last_at c p q : forall i best, ~ In c q -> find_last_from i best c (p ++ c :: q) = i + Z.of_nat (length p).
Proof.
  induction p as [|x p IH]; intros i best N; cbn [find_last_from app length]; [rewrite Ascii.eqb_refl, find_last_absent by exact N; lia|]. rewrite IH by exact N. lia.
Qed.
Definition fits_64 (s : mtext) : Prop := Z.of_nat (length s) < 2 ^ 63.
Lemma sub_mid (p m q : mtext) : fits_64 (p ++ m ++ q) -> substr (p ++ m ++ q) (Z.of_nat (length p)) (Z.of_nat (length m)) = Ok m.
Proof.
  unfold fits_64, substr. rewrite !app_length, !Nat2Z.inj_add. intros F. destruct (Z.ltb_spec (Z.of_nat (length p) + (Z.of_nat (length m) + Z.of_nat (length q))) (Z.of_nat (length p))); [lia|].
  rewrite Z.min_l by lia. rewrite !Nat2Z.id. f_equal. rewrite skipn_app, skipn_all, Nat.sub_diag. cbn [skipn app]. rewrite firstn_app, firstn_all, Nat.sub_diag. cbn [firstn]. apply app_nil_r.
Qed.
Theorem C77_nameof pre name post : fits_64 (pre ++ "<"%char :: name ++ ">"%char :: post) -> ~ In "<"%char pre -> ~ In ">"%char post -> nameof (pre ++ "<"%char :: name ++ ">"%char :: post) = Ok name.
Proof.
  intros F N N'. unfold nameof, find_first_of, find_last_of. rewrite find_first_at by exact N.
  replace (pre ++ "<"%char :: name ++ ">"%char :: post) with ((pre ++ "<"%char :: name) ++ ">"%char :: post) at 2 by (rewrite <- app_assoc; reflexivity). rewrite find_last_at by exact N'.
  unfold fits_64 in F. rewrite !app_length in *. cbn [length] in *. rewrite app_length in F. cbn [length] in F. unfold u64. rewrite !Z.mod_small by lia.
  replace (pre ++ "<"%char :: name ++ ">"%char :: post) with ((pre ++ ["<"%char]) ++ name ++ (">"%char :: post)) by (rewrite <- app_assoc; reflexivity).
  replace (0 + Z.of_nat (length pre) + 1) with (Z.of_nat (length (pre ++ ["<"%char]))) by (rewrite app_length; cbn [length]; lia).
  replace (0 + Z.of_nat (length pre + S (length name)) - (0 + Z.of_nat (length pre)) - 1) with (Z.of_nat (length name)) by lia.
  apply sub_mid. unfold fits_64. rewrite !app_length. cbn [length]. lia.
Qed.
Print Assumptions C77_nameof.
(** without the brackets: everything (the way clang spells it); without '<': everything before the last '>'; without '>': everything after the first '<' *)
Theorem C77_nameof_plain s : fits_64 s -> ~ In "<"%char s -> ~ In ">"%char s -> nameof s = Ok s.
Proof.
  intros F N N'. unfold nameof, find_first_of, find_last_of. rewrite find_first_absent, find_last_absent by assumption. change (u64 (npos + 1)) with 0. change (u64 (npos - npos - 1)) with npos. unfold substr, fits_64 in *. destruct (Z.ltb_spec (Z.of_nat (length s)) 0); [lia|].
  rewrite Z.sub_0_r, Z.min_r by (unfold npos; lia). rewrite Nat2Z.id. cbn [Z.to_nat skipn]. now rewrite firstn_all.
Qed.
Print Assumptions C77_nameof_plain.
Theorem C77_nameof_no_open pre post : fits_64 (pre ++ ">"%char :: post) -> ~ In "<"%char (pre ++ ">"%char :: post) -> ~ In ">"%char post -> nameof (pre ++ ">"%char :: post) = Ok pre.
Proof.
  intros F N N'. unfold nameof, find_first_of, find_last_of. rewrite find_first_absent, find_last_at by assumption. unfold fits_64 in F. rewrite app_length in F. cbn [length] in F. change (u64 (npos + 1)) with 0.
  replace (u64 (0 + Z.of_nat (length pre) - npos - 1)) with (Z.of_nat (length pre)).
  - apply (sub_mid [] pre (">"%char :: post)). unfold fits_64. cbn [app]. rewrite app_length. cbn [length]. lia.
  - unfold u64, npos. replace (0 + Z.of_nat (length pre) - (2 ^ 64 - 1) - 1) with (Z.of_nat (length pre) + (-1) * 2 ^ 64) by lia. rewrite Z.mod_add, Z.mod_small by lia. reflexivity.
Qed.
Print Assumptions C77_nameof_no_open.
Example C77_nameof_hyp : nameof (mtxt "nameof<long long>(void)") = Ok (mtxt "long long").
Proof. reflexivity. Qed.
(** the way GCC spells function_name(), the first '<' is not the template's: the name shown for every plain type is "char" *)
Theorem C77_nameof_gcc_refuted ty : ~ In "<"%char ty -> ~ In ">"%char ty -> fits_64 (mtxt "consteval std::string_view symxx::utils::nameof() [with T = ; std::string_view = std::basic_string_view<char>]" ++ ty) ->
  nameof (mtxt "consteval std::string_view symxx::utils::nameof() [with T = " ++ ty ++ mtxt "; std::string_view = std::basic_string_view<char>]") = Ok (mtxt "char").
Proof.
  intros N N' F. set (a := mtxt "consteval std::string_view symxx::utils::nameof() [with T = "). 
  change (mtxt "; std::string_view = std::basic_string_view<char>]") with (mtxt "; std::string_view = std::basic_string_view" ++ "<"%char :: mtxt "char" ++ ">"%char :: mtxt "]").
  rewrite !app_assoc. set (b := mtxt "; std::string_view = std::basic_string_view"). apply C77_nameof.
  - revert F. unfold fits_64. rewrite !app_length. cbn [length]. rewrite !app_length. cbn [length app]. subst a b. cbn [mtxt list_ascii_of_string length]. lia.
  - rewrite !in_app_iff. intros [[I|I]|I]; [|contradiction|]; cbn in I; intuition discriminate.
  - cbn. intuition discriminate.
Qed.
Print Assumptions C77_nameof_gcc_refuted.
Example C77_content_hyp : exists s, get_content (error_make (mtxt "Division by zero") (Loc (mtxt "num.hpp") 42 (mtxt "normalize"))) = esc :: mtxt "[0;32;31mError: " ++ esc :: mtxt "[mnum.hpp:42:normalize():" ++ esc :: s /\ s = mtxt "[m Division by zero".
Proof. eexists. split; reflexivity. Qed.
