(** Model of ExprParser<T> (include/symxx/parser.hpp) for a machine integer T.

    Simplifications:
    - the position in the text is the list of the characters not read yet; reading at the end gives '\0' (std::string guarantees it), and the
      position one behind the end, reached after "_3" or an unclosed '{' at the end of the text, is the empty list too;
    - std::isdigit, isalpha, isspace are those of the C locale (characters above 127 belong to no class);
    - tokens is kept in reverse order; the value of BEGIN and END tokens is not modelled (never read);
    - the nodes the parser allocates are values (their ownership: OwnModel.v);
    - [dec] is what the constructor Rational(std::string) does with a text containing '.' (floating point, see RationalModel.rat_of_string). *)
From Coq Require Import ZArith String Ascii Lia Bool List.
From Verif Require Import Base AdapterModel RationalModel RealModel PolyModel ExprModel.
Import ListNotations.
Open Scope Z_scope.

(** 28-38 ExprTokenType and the value (41-68) that goes with it *)
Inductive tok := TBegin | TEnd | TRad (q : rat) | TOp (c : ascii) | TL | TR | TNum (f : frac) | TSym (f : frac).

Definition in_range (a b : N) (c : ascii) : bool := ((a <=? N_of_ascii c)%N && (N_of_ascii c <=? b)%N)%bool.
Definition is_digit (c : ascii) : bool := in_range 48 57 c.
Definition is_alpha (c : ascii) : bool := (in_range 65 90 c || in_range 97 122 c)%bool.
Definition is_space (c : ascii) : bool := (in_range 9 13 c || Ascii.eqb c " ")%bool.
Definition is_dot (c : ascii) : bool := Ascii.eqb c ".".
Definition peek (s : text) : ascii := match s with [] => "000"%char | c :: _ => c end.

(** 207-218 parse_a_number: the first character, then digits, and dots unless the first character was one *)
Fixpoint span (f : ascii -> bool) (s : text) : text * text :=
  match s with
  | [] => ([], [])
  | c :: s' => if f c then let (a, b) := span f s' in (c :: a, b) else ([], s)
  end.
Definition number_char (first : ascii) (c : ascii) : bool := (is_digit c || (negb (is_dot first) && is_dot c))%bool.
Definition scan_number (s : text) : text * text :=
  match s with [] => ([], []) | c :: s' => let (a, b) := span (number_char c) s' in (c :: a, b) end.

(** Frac<T>{Rational<T>}: Rational -> Real -> Frac *)
Definition frac_of_rat (P : penv) (q : rat) : res frac := c <- real_of_rat (pe P) q ;; frac_of_real P c.
Definition frac_of_int (P : penv) (n : Z) : res frac := c <- real_of_int (pe P) n ;; frac_of_real P c.
Definition frac_of_sym (P : penv) (k : string) : res frac := c <- real_of_int (pe P) 1 ;; frac_of_term P (term_sym c k).
Fixpoint drop_spaces (s : text) : text := match s with c :: s' => if is_space c then drop_spaces s' else s | [] => [] end.
Definition is_opchar (c : ascii) : bool := (is_pm c || is_md c || Ascii.eqb c "^")%bool.

(** 220-296 get_token: the token and the rest of the text *)
Definition get_token (P : penv) (dec : text -> res rat) (s0 : text) : res (tok * text) :=
  let w := ew (pe P) in
  match drop_spaces s0 with
  | [] => Ok (TEnd, [])
  | c :: s =>
      if Ascii.eqb c "_" then
        '(p, s1) <- (if Ascii.eqb (peek s) "/" then p <- rat_of_int w 2 ;; Ok (p, s)
                     else if (is_digit (peek s) || is_dot (peek s))%bool then let (n, s1) := scan_number s in p <- rat_of_string w dec n ;; Ok (p, s1)
                     else unreachable "Unexpected '_', needs a '/'") ;;
        q <- rat_inverse w p ;; Ok (TRad q, tl s1)
      else if (is_digit c || is_dot c)%bool then
        let (n, s1) := scan_number (c :: s) in q <- rat_of_string w dec n ;; f <- frac_of_rat P q ;; Ok (TNum f, s1)
      else if is_opchar c then
        if (Ascii.eqb c "*" && Ascii.eqb (peek s) "*")%bool then Ok (TOp "^", tl s) else Ok (TOp c, s)
      else if Ascii.eqb c "(" then Ok (TL, s)
      else if Ascii.eqb c ")" then Ok (TR, s)
      else if (is_alpha c || Ascii.eqb c "{")%bool then
        let (k, s1) := if Ascii.eqb c "{" then let (k, s1) := span (fun d => negb (Ascii.eqb d "}")) s in (k, tl s1) else ([c], s) in
        f <- frac_of_sym P (string_of_list_ascii k) ;; Ok (TSym f, s1)
      else unreachable ("unexpected '" ++ String c EmptyString ++ "'.")
  end.

Definition starts_factor (t : tok) : bool := match t with TSym _ | TL | TRad _ => true | _ => false end.
Definition ends_factor (t : tok) : bool := match t with TSym _ | TNum _ | TR => true | _ => false end.
Definition is_sign (t : tok) : bool := match t with TOp c => is_pm c | _ => false end.
(** 161-204: one round of get_all_tokens; [back :: acc] are the tokens so far, latest first *)
Definition add_token (P : penv) (back : tok) (acc : list tok) (t : tok) : res (list tok) :=
  if (starts_factor t && ends_factor back)%bool then Ok (t :: TOp "*" :: back :: acc) else
  match back with
  | TRad q =>
      match t with
      | TNum _ => f <- frac_of_rat P q ;; Ok (TR :: TNum f :: TOp "^" :: t :: TL :: acc)
      | _ => Throw "Radical needs a rational."
      end
  | TL | TBegin => if is_sign t then z <- frac_of_int P 0 ;; Ok (t :: TNum z :: back :: acc) else Ok (t :: back :: acc)
  | _ => Ok (t :: back :: acc)
  end.
Definition push_token (P : penv) (acc : list tok) (t : tok) : res (list tok) :=
  match acc with [] => Ub "back of empty" | back :: acc' => add_token P back acc' t end.
(** 158-205 get_all_tokens *)
Fixpoint token_loop (P : penv) (dec : text -> res rat) (fuel : nat) (acc : list tok) (s : text) : res (list tok) :=
  match acc with
  | TEnd :: _ => Ok acc
  | _ =>
      match fuel with
      | O => Fuel
      | S f => '(t, s') <- get_token P dec s ;; acc' <- push_token P acc t ;; token_loop P dec f acc' s'
      end
  end.
Definition get_all_tokens (P : penv) (dec : text -> res rat) (raw : text) : res (list tok) :=
  acc <- token_loop P dec (S (length raw)) [TBegin] raw ;; Ok (rev acc).

(** 298-308 great_or_equal: priorities; std::map::at throws for another character *)
Definition priority (c : ascii) : option Z :=
  if Ascii.eqb c "(" then Some 0 else if is_pm c then Some 10 else if is_md c then Some 100 else if Ascii.eqb c "^" then Some 1000 else None.
Definition great_or_equal (a b : ascii) : res bool :=
  match priority a, priority b with Some x, Some y => Ok (y <=? x) | _, _ => Throw "out_of_range" end.

Definition invalid : string := "Invaild string.".
Definition expected_paren : string := "Expected '('".
Definition state := (list expr * list ascii)%type.
(** 97-106 handle *)
Definition handle (st : state) : res state :=
  match st with
  | (r :: l :: ns, c :: os) => Ok (Op c l r :: ns, os)
  | _ => Throw invalid
  end.
(** 112-115: the loop pops the operators of at least the priority of [c] (one pop each, so as many rounds as operators suffice) *)
Fixpoint pop_ge (fuel : nat) (c : ascii) (st : state) : res state :=
  match snd st with
  | [] => Ok st
  | o :: _ =>
      g <- great_or_equal o c ;;
      if g : bool then match fuel with O => Fuel | S f => st' <- handle st ;; pop_ge f c st' end else Ok st
  end.
(** 127-131 *)
Fixpoint pop_paren (fuel : nat) (st : state) : res state :=
  match fst st, snd st with
  | _, [] => Ub "top of empty stack"
  | [], _ => Ok st
  | _, o :: _ =>
      if Ascii.eqb o "(" then Ok st else
      match fuel with
      | O => Fuel
      | S f => st' <- handle st ;; match snd st' with [] => Throw expected_paren | _ => pop_paren f st' end
      end
  end.
(** 108-145: one token *)
Definition step (st : state) (t : tok) : res state :=
  match t with
  | TOp c => st' <- pop_ge (length (snd st)) c st ;; Ok (fst st', c :: snd st')
  | TL => Ok (fst st, "("%char :: snd st)
  | TR =>
      match snd st with
      | [] => Throw expected_paren
      | _ => st' <- pop_paren (length (snd st)) st ;; match snd st' with [] => Throw invalid | _ :: os => Ok (fst st', os) end
      end
  | TNum f | TSym f => Ok (Leaf f :: fst st, snd st)
  | _ => unreachable "unexpected ExprToken."
  end.
Fixpoint steps (st : state) (ts : list tok) : res state :=
  match ts with [] => Ok st | t :: ts' => st' <- step st t ;; steps st' ts' end.
(** 147-150 *)
Fixpoint pop_all (fuel : nat) (st : state) : res state :=
  match snd st with
  | [] => Ok st
  | _ => match fuel with O => Fuel | S f => st' <- handle st ;; pop_all f st' end
  end.
(** 108-153 with the tokens between BEGIN and END *)
Definition parse_tokens (ts : list tok) : res expr :=
  st <- steps ([], []) ts ;; st' <- pop_all (length (snd st)) st ;;
  match fst st' with [e] => Ok e | _ => Throw invalid end.
(** 76-154 parse *)
Definition parse (P : penv) (dec : text -> res rat) (raw : text) : res expr :=
  ts <- get_all_tokens P dec raw ;; parse_tokens (removelast (tl ts)).
