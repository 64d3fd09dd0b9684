(** C40-C42: the parser, for a machine integer T of [ew (pe P)] bits.
    Vocabulary (ParserSpec.v): [derives P level ts t] is the grammar over the tokens of the text, [lexes P dec s ts] says that the text s is the sequence of
    lexemes ts with white space between them, [parse_lexemes P ts] is the parser's work on a token list; [operands], [operators] of a tree from left to right. *)
From Coq Require Import ZArith String Ascii Lia Bool List Permutation.
From Verif Require Import Base AdapterModel FactorizeModel RationalModel RealModel RealSpec PolyModel ExprModel ParserModel ParserSpec ParserProofs1 ParserProofs2 ParserProofs3 TextSpec TextProofs1.
Import ListNotations.
Open Scope Z_scope.

Local Definition E64 : env := std_env 64 true (fun k => Z.of_nat k * Z.of_nat k * 3 + 1) 200 0.
Local Definition P64 : penv := PEnv E64 (isort 64).
Local Definition dec (s : text) : res rat := Throw "decimal".
Local Definition L (n : Z) : expr := Leaf (leaf_int n).
Local Definition V (k : string) : expr := Leaf (leaf_sym k).
Local Definition p (s : string) : res expr := parse P64 dec (txt s).

(** ** C40 precedence and associativity *)
(** every token list of the grammar parses to the tree the grammar gives it *)
Theorem C40_grammar P ts t : derives P Expr ts t -> parse_lexemes P ts = Ok t.
Proof. exact (grammar_parse P ts t). Qed.
Print Assumptions C40_grammar.
(** hence the tree is unique *)
Theorem C40_unambiguous P ts t t' : derives P Expr ts t -> derives P Expr ts t' -> t = t'.
Proof. intros A B. apply grammar_parse in A, B. congruence. Qed.
Print Assumptions C40_unambiguous.
(** from text to tree *)
Theorem C40_text P dec s ts t : lexes P dec s ts -> derives P Expr ts t -> parse P dec s = Ok t.
Proof. intros A B. apply parse_iff. exists ts. split; [assumption|now apply grammar_parse]. Qed.
Print Assumptions C40_text.
Example C40_example_derives : exists t, derives P64 Expr [TOp "-"; TSym (leaf_sym "x"); TOp "+"; TNum (leaf_int 2); TSym (leaf_sym "y"); TOp "^"; TNum (leaf_int 3)] t.
Proof.
  eexists. eapply d_sign with (z := leaf_int 0); [now right|vm_compute; reflexivity|].
  eapply (d_pm P64 "+" [TNum (leaf_int 0); TOp "-"; TSym (leaf_sym "x")] [TNum (leaf_int 2); TSym (leaf_sym "y"); TOp "^"; TNum (leaf_int 3)]); [now left| |].
  - eapply (d_pm P64 "-" [_] [_]); [now right|apply d_sum, d_prod, d_pow, d_num|apply d_prod, d_pow, d_sym].
  - eapply (d_juxt P64 [_] [_; _; _]); [apply d_prod, d_pow, d_num| |reflexivity]. eapply (d_hat P64 [_] [_]); [apply d_pow, d_sym|apply d_num].
Qed.
Example C40_example_left : p "8-3-2" = Ok (Op "-" (Op "-" (L 8) (L 3)) (L 2)). Proof. vm_compute. reflexivity. Qed.
Example C40_example_power : p "2^3^x" = Ok (Op "^" (Op "^" (L 2) (L 3)) (V "x")). Proof. vm_compute. reflexivity. Qed.
Example C40_example_precedence : p "1+2*x^2/3" = Ok (Op "+" (L 1) (Op "/" (Op "*" (L 2) (Op "^" (V "x") (L 2))) (L 3))). Proof. vm_compute. reflexivity. Qed.
Example C40_example_juxtaposition : p "2x(y+1)" = Ok (Op "*" (Op "*" (L 2) (V "x")) (Op "+" (V "y") (L 1))). Proof. vm_compute. reflexivity. Qed.
(** juxtaposition binds like *, not tighter: 1/2x is (1/2)*x *)
Example C40_example_division : p "1/2x" = Ok (Op "*" (Op "/" (L 1) (L 2)) (V "x")). Proof. vm_compute. reflexivity. Qed.

(** ** C41 what an accepted text has become *)
(** every operand is used, in order; the operators before the first operand may be lost (one for each closing parenthesis too many there), all
    others are used; an unclosed '(' becomes an operator of the tree *)
Theorem C41_structure ts e : Forall proper_op ts -> parse_tokens ts = Ok e ->
  operands e = flat_map tok_operand ts /\
  exists pre post lost kept, ts = pre ++ post /\ Forall (fun t => tok_operand t = []) pre /\ match post with x :: _ => tok_operand x <> [] | [] => False end /\
    Permutation (lost ++ kept) (flat_map tok_operator pre) /\ Permutation (real_operators e) (kept ++ flat_map tok_operator post) /\
    (unclosed e + right_parens ts = left_parens ts + length lost)%nat.
Proof. exact (parse_structure ts e). Qed.
Print Assumptions C41_structure.
(** nothing is lost when the text starts with an operand *)
Theorem C41_all_used ts e : Forall proper_op ts -> parse_tokens ts = Ok e -> (forall t r, ts = t :: r -> tok_operand t <> []) ->
  Permutation (real_operators e) (flat_map tok_operator ts) /\ (unclosed e + right_parens ts = left_parens ts)%nat.
Proof. exact (parse_all_used ts e). Qed.
Print Assumptions C41_all_used.
(** the stacks are never read when empty, and the loops end *)
Theorem C41_total ts : (exists e, parse_tokens ts = Ok e) \/ (exists m, parse_tokens ts = Throw m).
Proof. exact (parse_tokens_total ts). Qed.
Print Assumptions C41_total.
(** the tokens the parser makes from a text meet the hypothesis *)
Theorem C41_tokens_proper P dec raw l : get_all_tokens P dec raw = Ok l -> Forall proper_op l.
Proof. exact (tokens_proper P dec raw l). Qed.
Print Assumptions C41_tokens_proper.
(** texts outside the grammar are accepted: a missing ')' , an operator behind its operands, a closing parenthesis that swallows an operator *)
Theorem C41_rejection_refuted :
  p "(1 2" = Ok (Op "(" (L 1) (L 2)) /\ p "1 2+" = Ok (Op "+" (L 1) (L 2)) /\ p "()1" = Ok (L 1) /\ p "*)1" = Ok (L 1) /\ p "1 2 3*+" = Ok (Op "+" (L 1) (Op "*" (L 2) (L 3))).
Proof. vm_compute. repeat split. Qed.
Print Assumptions C41_rejection_refuted.
(** and the accepted tree with operator '(' cannot be evaluated *)
Theorem C41_open_paren_refuted : (t <- p "(1 2" ;; expr_normalize P64 t) = Throw "Unreachable code: ".
Proof. vm_compute. reflexivity. Qed.
Print Assumptions C41_open_paren_refuted.
Example C41_example_rejected : p "1+" = Throw "Invaild string." /\ p "1)" = Throw "Expected '('" /\ p "" = Throw "Invaild string." /\ p "1 2" = Throw "Invaild string.".
Proof. vm_compute. repeat split. Qed.
Example C41_example_tokens : Forall proper_op [TNum (leaf_int 1); TOp "+"; TNum (leaf_int 2)] /\ parse_tokens [TNum (leaf_int 1); TOp "+"; TNum (leaf_int 2)] = Ok (Op "+" (L 1) (L 2)).
Proof. split; [repeat constructor|reflexivity]. Qed.

(** ** C42 the tokenizer reads everything *)
(** parsing succeeds exactly when the whole text is a sequence of lexemes and their parse succeeds *)
Theorem C42_parse_iff P dec raw e : parse P dec raw = Ok e <-> exists ts, lexes P dec raw ts /\ parse_lexemes P ts = Ok e.
Proof. exact (parse_iff P dec raw e). Qed.
Print Assumptions C42_parse_iff.
Theorem C42_tokens_iff P dec raw l : get_all_tokens P dec raw = Ok l <-> exists ts, lexes P dec raw ts /\ push_all P [TBegin] (ts ++ [TEnd]) = Ok (rev l).
Proof. exact (all_tokens_iff P dec raw l). Qed.
Print Assumptions C42_tokens_iff.
(** in one way only *)
Theorem C42_unique P dec s ts ts' : lexes P dec s ts -> lexes P dec s ts' -> ts = ts'.
Proof. intros A B. exact (lexes_unique P dec s ts A ts' B). Qed.
Print Assumptions C42_unique.
(** one token: the end exactly when only spaces are left, otherwise one lexeme is cut off *)
Theorem C42_token P dec s t rest : get_token P dec s = Ok (t, rest) ->
  (t = TEnd /\ rest = [] /\ spaces s) \/ (t <> TEnd /\ exists sp l, s = sp ++ l ++ rest /\ l <> [] /\ spaces sp /\ lexeme P dec l t (hd_error rest)).
Proof. exact (get_token_sound P dec s t rest). Qed.
Print Assumptions C42_token.
Theorem C42_token_complete P dec sp l t rest : spaces sp -> lexeme P dec l t (hd_error rest) -> get_token P dec (sp ++ l ++ rest) = Ok (t, rest).
Proof. exact (get_token_complete P dec sp l t rest). Qed.
Print Assumptions C42_token_complete.
(** the loop ends: running out of fuel can only come from building a number or a symbol *)
Theorem C42_terminates P dec raw : get_all_tokens P dec raw = Fuel -> exists s t back acc, get_token P dec s = Fuel \/ add_token P back acc t = Fuel.
Proof. exact (tokens_fuel P dec raw). Qed.
Print Assumptions C42_terminates.
(** the character classes and token classes the vocabulary uses, spelled out *)
Theorem C42_characters c d :
  (is_digit c = true <-> In c (list_ascii_of_string "0123456789")) /\
  (is_alpha c = true <-> In c (list_ascii_of_string "abcdefghijklmnopqrstuvwxyzABCDEFGHIJKLMNOPQRSTUVWXYZ")) /\
  (is_opchar c = true <-> In c (list_ascii_of_string "+-*/^")) /\
  (is_space c = true <-> In c (" "%char :: map ascii_of_nat [9; 10; 11; 12; 13]%nat)) /\
  (number_char c d = true <-> In d (list_ascii_of_string "0123456789") \/ (d = "."%char /\ c <> "."%char)).
Proof.
  assert (D : forall c, is_digit c = true <-> In c (list_ascii_of_string "0123456789")).
  { intros x. split; [destruct x as [[] [] [] [] [] [] [] []]; vm_compute; intuition congruence|]. intros H. repeat (destruct H as [<-|H]; [reflexivity|]). destruct H. }
  split; [exact (D c)|]. split; [|split; [|split]].
  - split; [destruct c as [[] [] [] [] [] [] [] []]; vm_compute; intuition congruence|]. intros H. repeat (destruct H as [<-|H]; [reflexivity|]). destruct H.
  - split; [destruct c as [[] [] [] [] [] [] [] []]; vm_compute; intuition congruence|]. intros H. repeat (destruct H as [<-|H]; [reflexivity|]). destruct H.
  - split; [destruct c as [[] [] [] [] [] [] [] []]; vm_compute; intuition congruence|]. intros H. repeat (destruct H as [<-|H]; [reflexivity|]). destruct H.
  - unfold number_char, is_dot. rewrite orb_true_iff, andb_true_iff, negb_true_iff, Ascii.eqb_neq, Ascii.eqb_eq, D. tauto.
Qed.
Print Assumptions C42_characters.
Theorem C42_tokens t :
  (starts_factor t = true <-> (exists f, t = TSym f) \/ t = TL \/ (exists q, t = TRad q)) /\
  (ends_factor t = true <-> (exists f, t = TSym f) \/ (exists f, t = TNum f) \/ t = TR) /\
  (is_sign t = true <-> t = TOp "+" \/ t = TOp "-").
Proof.
  split; [|split].
  - split; [destruct t; try discriminate; eauto|]. intros [(f & ->)|[->|(q & ->)]]; reflexivity.
  - split; [destruct t; try discriminate; eauto|]. intros [(f & ->)|[(f & ->)| ->]]; reflexivity.
  - split; [|intros [->| ->]; reflexivity]. destruct t; try discriminate. cbn. unfold is_pm. rewrite orb_true_iff, !Ascii.eqb_eq. intros [->| ->]; auto.
Qed.
Print Assumptions C42_tokens.
(** what gets inserted between two tokens: a '*' between operand and factor, a 0 before a leading sign, the parenthesised power for a radical *)
Theorem C42_insertion P back acc t r : add_token P back acc t = Ok r ->
  (starts_factor t = true /\ ends_factor back = true /\ r = t :: TOp "*" :: back :: acc) \/
  (exists q f g, back = TRad q /\ t = TNum f /\ frac_of_rat P q = Ok g /\ r = TR :: TNum g :: TOp "^" :: t :: TL :: acc) \/
  (exists z, (back = TL \/ back = TBegin) /\ is_sign t = true /\ frac_of_int P 0 = Ok z /\ r = t :: TNum z :: back :: acc) \/
  (r = t :: back :: acc /\ starts_factor t && ends_factor back = false /\ (back = TL \/ back = TBegin -> is_sign t = false) /\ (forall q, back <> TRad q))%bool.
Proof.
  unfold add_token. destruct (starts_factor t && ends_factor back)%bool eqn:SE; [intros [= <-]; left; apply andb_true_iff in SE; tauto|].
  assert (R : back <> TL -> back <> TBegin -> (forall q, back <> TRad q) -> Ok (t :: back :: acc) = Ok r -> r = t :: back :: acc /\ false = false /\ (back = TL \/ back = TBegin -> is_sign t = false) /\ (forall q, back <> TRad q)) by (intros A B C [= <-]; repeat split; tauto).
  destruct back; intros H; try (right; right; right; apply R; (discriminate || assumption)).
  - destruct (is_sign t) eqn:S; [apply RationalProofs.bind_ok in H as (z & Hz & H); injection H as <-; right; right; left; exists z; tauto|]. injection H as <-. right. right. right. repeat split; congruence.
  - destruct t; try discriminate. apply RationalProofs.bind_ok in H as (g & Hg & H). injection H as <-. right. left. exists q, f, g. tauto.
  - destruct (is_sign t) eqn:S; [apply RationalProofs.bind_ok in H as (z & Hz & H); injection H as <-; right; right; left; exists z; tauto|]. injection H as <-. right. right. right. repeat split; congruence.
Qed.
Print Assumptions C42_insertion.
Example C42_example_lexes : lexes P64 dec (txt " 12x ") [TNum (leaf_int 12); TSym (leaf_sym "x")].
Proof.
  apply (ls_tok P64 dec (txt " ") (txt "12") (TNum (leaf_int 12)) (txt "x ")); [repeat constructor| |].
  - apply lx_num with (q := Rat 12 1); [vm_compute; split; [now left|repeat constructor]|reflexivity|reflexivity|vm_compute; reflexivity].
  - apply (ls_tok P64 dec [] (txt "x") (TSym (leaf_sym "x")) (txt " ")); [constructor|apply lx_letter; [reflexivity|vm_compute; reflexivity]|apply ls_end; repeat constructor].
Qed.
Example C42_example_radical : p "_/2" = Ok (Op "^" (L 2) (Leaf (Frac [term_const (rint 1)] [term_const (rint 2)]))). Proof. vm_compute. reflexivity. Qed.
(** the character behind the index of a root is skipped whatever it is: "_3x16" is read as "_3/16" *)
Theorem C42_root_separator_refuted : p "_3x16" = p "_3/16". Proof. vm_compute. reflexivity. Qed.
Print Assumptions C42_root_separator_refuted.
