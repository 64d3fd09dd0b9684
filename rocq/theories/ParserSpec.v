(** Vocabulary of the parser theorems: a grammar, and a description of the lexemes. *)
From Coq Require Import ZArith String Ascii Bool List.
From Verif Require Import Base RationalModel RealModel PolyModel ExprModel ParserModel.
Import ListNotations.
Open Scope char_scope.

(** The grammar of expressions over the tokens of the text:
      Expr ::= Sum | sign Sum           (a leading sign stands for "0 sign Sum")
      Sum  ::= Prod | Sum (+|-) Prod
      Prod ::= Pow | Prod ( * | / ) Pow | Prod Pow'       (juxtaposition; Pow' starts with a symbol, a parenthesis or a radical)
      Pow  ::= Atom | Pow ^ Atom
      Atom ::= number | symbol | radical number | ( Expr )  *)
Inductive level := Expr | Sum | Prod | Pow | Atom.
Definition starts (ts : list tok) : Prop := match ts with t :: _ => starts_factor t = true | [] => False end.
Inductive derives (P : penv) : level -> list tok -> expr -> Prop :=
| d_expr ts t : derives P Sum ts t -> derives P Expr ts t
| d_sign c z ts t : c = "+" \/ c = "-" -> frac_of_int P 0 = Ok z -> derives P Sum (TNum z :: TOp c :: ts) t -> derives P Expr (TOp c :: ts) t
| d_sum ts t : derives P Prod ts t -> derives P Sum ts t
| d_pm c a b x y : c = "+" \/ c = "-" -> derives P Sum a x -> derives P Prod b y -> derives P Sum (a ++ TOp c :: b) (Op c x y)
| d_prod ts t : derives P Pow ts t -> derives P Prod ts t
| d_md c a b x y : c = "*" \/ c = "/" -> derives P Prod a x -> derives P Pow b y -> derives P Prod (a ++ TOp c :: b) (Op c x y)
| d_juxt a b x y : derives P Prod a x -> derives P Pow b y -> starts b -> derives P Prod (a ++ b) (Op "*" x y)
| d_pow ts t : derives P Atom ts t -> derives P Pow ts t
| d_hat a b x y : derives P Pow a x -> derives P Atom b y -> derives P Pow (a ++ TOp "^" :: b) (Op "^" x y)
| d_num f : derives P Atom [TNum f] (Leaf f)
| d_sym f : derives P Atom [TSym f] (Leaf f)
| d_rad q f g : frac_of_rat P q = Ok g -> derives P Atom [TRad q; TNum f] (Op "^" (Leaf f) (Leaf g))
| d_paren ts t : derives P Expr ts t -> derives P Atom (TL :: ts ++ [TR]) t.

(** the tokens of the text as the parser completes them, and the tree (the parse of a token list without BEGIN and END) *)
Fixpoint push_all (P : penv) (acc : list tok) (ts : list tok) : res (list tok) :=
  match ts with [] => Ok acc | t :: ts' => a <- push_token P acc t ;; push_all P a ts' end.
Definition parse_lexemes (P : penv) (ts : list tok) : res expr :=
  acc <- push_all P [TBegin] (ts ++ [TEnd]) ;; parse_tokens (removelast (tl (rev acc))).

(** What the pieces of a text stand for.  [lexeme text t next]: the piece [text], followed by the character [next] (None at the end), is the token t. *)
Definition stops (c : ascii) (next : option ascii) : Prop := match next with Some d => number_char c d = false | None => True end.
(** a number: a digit or a dot, then digits, and dots unless it starts with one *)
Definition number (s : text) : Prop := match s with c :: s' => (is_digit c = true \/ c = ".") /\ Forall (fun d => number_char c d = true) s' | [] => False end.
Definition first (s : text) : ascii := match s with c :: _ => c | [] => "0" end.
Inductive lexeme (P : penv) (dec : text -> res rat) : text -> tok -> option ascii -> Prop :=
| lx_num s q f n : number s -> stops (first s) n -> rat_of_string (ew (pe P)) dec s = Ok q -> frac_of_rat P q = Ok f -> lexeme P dec s (TNum f) n
| lx_sqrt p q n : rat_of_int (ew (pe P)) 2 = Ok p -> rat_inverse (ew (pe P)) p = Ok q -> lexeme P dec ["_"; "/"] (TRad q) n
| lx_root s d p q n : number s -> stops (first s) (Some d) -> rat_of_string (ew (pe P)) dec s = Ok p -> rat_inverse (ew (pe P)) p = Ok q ->
    lexeme P dec ("_" :: s ++ [d]) (TRad q) n
| lx_root_end s p q : number s -> rat_of_string (ew (pe P)) dec s = Ok p -> rat_inverse (ew (pe P)) p = Ok q -> lexeme P dec ("_" :: s) (TRad q) None
| lx_hat n : lexeme P dec ["*"; "*"] (TOp "^") n
| lx_op c n : is_opchar c = true -> c <> "*" \/ n <> Some "*" -> lexeme P dec [c] (TOp c) n
| lx_lparen n : lexeme P dec ["("] TL n
| lx_rparen n : lexeme P dec [")"] TR n
| lx_letter c f n : is_alpha c = true -> frac_of_sym P (String c EmptyString) = Ok f -> lexeme P dec [c] (TSym f) n
| lx_name k f n : Forall (fun d => d <> "}") k -> frac_of_sym P (string_of_list_ascii k) = Ok f -> lexeme P dec ("{" :: k ++ ["}"]) (TSym f) n
| lx_name_end k f : Forall (fun d => d <> "}") k -> frac_of_sym P (string_of_list_ascii k) = Ok f -> lexeme P dec ("{" :: k) (TSym f) None.
(** a text is a sequence of lexemes with spaces between them *)
Definition spaces (s : text) : Prop := Forall (fun c => is_space c = true) s.
Inductive lexes (P : penv) (dec : text -> res rat) : text -> list tok -> Prop :=
| ls_end s : spaces s -> lexes P dec s []
| ls_tok sp l t rest ts : spaces sp -> lexeme P dec l t (hd_error rest) -> lexes P dec rest ts -> lexes P dec (sp ++ l ++ rest) (t :: ts).

(** the operands and the operators of a tree, and of a list of tokens, from left to right *)
Fixpoint operands (e : expr) : list frac := match e with Leaf f => [f] | Op _ l r => operands l ++ operands r end.
Fixpoint operators (e : expr) : list ascii := match e with Leaf _ => [] | Op c l r => operators l ++ c :: operators r end.
Definition tok_operand (t : tok) : list frac := match t with TNum f | TSym f => [f] | _ => [] end.
Definition tok_operator (t : tok) : list ascii := match t with TOp c => [c] | _ => [] end.
Definition left_parens (ts : list tok) : nat := length (filter (fun t => match t with TL => true | _ => false end) ts).
Definition right_parens (ts : list tok) : nat := length (filter (fun t => match t with TR => true | _ => false end) ts).
Definition proper_op (t : tok) : Prop := match t with TOp c => is_opchar c = true | _ => True end.
(** the operators of a tree that come from operator tokens; an unclosed '(' becomes an operator too *)
Definition real_operators (e : expr) : list ascii := filter (fun c => negb (Ascii.eqb c "(")) (operators e).
Definition unclosed (e : expr) : nat := length (filter (Ascii.eqb "(") (operators e)).
