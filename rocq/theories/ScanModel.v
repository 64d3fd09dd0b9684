(** The readers of text again, with positions: ExprParser::get_token (include/symxx/parser.hpp), the splitting of a line (include/symxx/cli.hpp) and Huge(const std::string &) (include/symxx/huge.hpp).
    Every access s[i] is one to a std::string: inside, the '\0' at s.size(), or outside (undefined).  Every call of a function of <cctype> with a char that is negative is undefined
    ([cctype.syn], C17 7.4: the value must be representable as unsigned char or be EOF; char is signed on the platforms in question).
    Positions are natural numbers (size_t, and none exceeds s.size() + 2). *)
From Coq Require Import ZArith String Ascii Lia Bool List.
From Verif Require Import Base AdapterModel HugeModel RationalModel RealModel PolyModel ExprModel ParserModel CliModel.
Import ListNotations.
Open Scope Z_scope.

(** what reading gives: an access outside the text, a bad argument of a <cctype> function, or an outcome as before *)
Inductive scan (A : Type) := Outside | BadChar | Scan (r : res A).
Arguments Outside {A}. Arguments BadChar {A}. Arguments Scan {A} r.
Definition sbind {A B} (x : scan A) (f : A -> scan B) : scan B :=
  match x with
  | Outside => Outside | BadChar => BadChar
  | Scan (Ok a) => f a | Scan (Throw m) => Scan (Throw m) | Scan (Ub m) => Scan (Ub m) | Scan Fuel => Scan Fuel
  end.
Notation "x <~ e ;; f" := (sbind e (fun x => f)) (at level 61, e at next level, right associativity).
Notation "' p <~ e ;; f" := (sbind e (fun p => f)) (at level 61, p pattern, e at next level, right associativity).
Definition ret {A} (a : A) : scan A := Scan (Ok a).

(** std::string::operator[] *)
Definition read (s : text) (i : nat) : scan ascii :=
  if (i <? length s)%nat then ret (nth i s "000"%char) else if (i =? length s)%nat then ret "000"%char else Outside.
(** a function of <cctype> applied to a char *)
Definition ctype (f : ascii -> bool) (c : ascii) : scan bool := if (N_of_ascii c <? 128)%N then ret (f c) else BadChar.
(** std::string::find_first_of(c, from) with one character *)
Fixpoint find_from (c : ascii) (s : text) (i : nat) : option nat :=
  match s with [] => None | x :: s' => if Ascii.eqb x c then Some i else find_from c s' (S i) end.
Definition find_first_of (c : ascii) (s : text) (from : nat) : option nat := find_from c (skipn from s) from.
(** std::string::substr(i, n), substr(i): throws out_of_range behind the end *)
Definition substr (s : text) (i n : nat) : scan text := if (i <=? length s)%nat then ret (firstn n (skipn i s)) else Scan (Throw "out_of_range").

(** parser.hpp 204-215 parse_a_number: the text of the number and the position behind it *)
Fixpoint number_loop (fuel : nat) (raw : text) (has_dot : bool) (temp : text) (pos : nat) : scan (text * nat) :=
  match fuel with
  | O => Scan Fuel
  | S f =>
      c <~ read raw pos ;;
      let temp := temp ++ [c] in
      let pos := S pos in
      if (pos <? length raw)%nat then
        c <~ read raw pos ;;
        d <~ ctype is_digit c ;;
        if d : bool then number_loop f raw has_dot temp pos else
        if has_dot then ret (temp, pos) else
        c <~ read raw pos ;;
        if is_dot c then number_loop f raw has_dot temp pos else ret (temp, pos)
      else ret (temp, pos)
  end.
Definition parse_a_number (P : penv) (dec : text -> res rat) (raw : text) (pos : nat) : scan (rat * nat) :=
  c <~ read raw pos ;;
  '(temp, pos) <~ number_loop (length raw) raw (is_dot c) [] pos ;;
  q <~ Scan (rat_of_string (ew (pe P)) dec temp) ;; ret (q, pos).
(** parser.hpp 219-222 *)
Fixpoint skip_spaces (fuel : nat) (raw : text) (pos : nat) : scan nat :=
  match fuel with
  | O => Scan Fuel
  | S f =>
      if (pos <? length raw)%nat then
        c <~ read raw pos ;; b <~ ctype is_space c ;; if b : bool then skip_spaces f raw (S pos) else ret pos
      else ret pos
  end.
(** parser.hpp 280-284 *)
Fixpoint braced (fuel : nat) (raw : text) (symbol : text) (pos : nat) : scan (text * nat) :=
  match fuel with
  | O => Scan Fuel
  | S f =>
      if (pos <? length raw)%nat then
        c <~ read raw pos ;; if Ascii.eqb c "}" then ret (symbol, pos) else braced f raw (symbol ++ [c]) (S pos)
      else ret (symbol, pos)
  end.
(** parser.hpp 217-296 get_token, [rawpos] before and after *)
Definition token_at (P : penv) (dec : text -> res rat) (raw : text) (pos : nat) : scan (tok * nat) :=
  pos <~ skip_spaces (S (length raw)) raw pos ;;
  if (length raw <=? pos)%nat then ret (TEnd, pos) else
  ch <~ read raw pos ;;
  if Ascii.eqb ch "_" then
    let pos := S pos in
    c <~ read raw pos ;;
    '(power, pos) <~ (if Ascii.eqb c "/" then p <~ Scan (rat_of_int (ew (pe P)) 2) ;; ret (p, pos) else
                      d <~ ctype is_digit c ;;
                      if (d || is_dot c)%bool then parse_a_number P dec raw pos else Scan (unreachable "Unexpected '_', needs a '/'")) ;;
    q <~ Scan (rat_inverse (ew (pe P)) power) ;; ret (TRad q, S pos)
  else
  d <~ ctype is_digit ch ;;
  if (d || is_dot ch)%bool then '(q, pos) <~ parse_a_number P dec raw pos ;; f <~ Scan (frac_of_rat P q) ;; ret (TNum f, pos)
  else if is_opchar ch then
    if Ascii.eqb ch "*" then
      if (pos + 1 <? length raw)%nat then
        c <~ read raw (pos + 1) ;; if Ascii.eqb c "*" then ret (TOp "^", (pos + 2)%nat) else ret (TOp ch, S pos)
      else ret (TOp ch, S pos)
    else ret (TOp ch, S pos)
  else if Ascii.eqb ch "(" then ret (TL, S pos)
  else if Ascii.eqb ch ")" then ret (TR, S pos)
  else
  a <~ ctype is_alpha ch ;;
  if (a || Ascii.eqb ch "{")%bool then
    '(symbol, pos) <~ (if Ascii.eqb ch "{" then braced (S (length raw)) raw [] (S pos) else ret ([ch], pos)) ;;
    f <~ Scan (frac_of_sym P (string_of_list_ascii symbol)) ;; ret (TSym f, S pos)
  else Scan (unreachable ("unexpected '" ++ String ch EmptyString ++ "'.")).
(** parser.hpp 161-202 get_all_tokens, tokens in reverse order *)
Fixpoint tokens_from (P : penv) (dec : text -> res rat) (fuel : nat) (raw : text) (acc : list tok) (pos : nat) : scan (list tok) :=
  match acc with
  | TEnd :: _ => ret acc
  | _ =>
      match fuel with
      | O => Scan Fuel
      | S f => '(t, pos) <~ token_at P dec raw pos ;; acc <~ Scan (push_token P acc t) ;; tokens_from P dec f raw acc pos
      end
  end.
Definition tokens_at (P : penv) (dec : text -> res rat) (raw : text) : scan (list tok) :=
  acc <~ tokens_from P dec (S (length raw)) raw [TBegin] 0 ;; ret (rev acc).

(** cli.hpp 136-154: the arguments between positions i and rp *)
Fixpoint args_at (fuel : nat) (body : text) (i rp : nat) (temp : text) : scan (list text) :=
  match fuel with
  | O => Scan Fuel
  | S f =>
      if (i <? rp)%nat then
        c <~ read body i ;; b <~ ctype is_space c ;;
        if b : bool then args_at f body (S i) rp temp else
        c <~ read body i ;;
        if Ascii.eqb c "," then match temp with [] => Scan (Throw empty_argument) | _ => r <~ args_at f body (S i) rp [] ;; ret (temp :: r) end
        else c <~ read body i ;; args_at f body (S i) rp (temp ++ [c])
      else ret (match temp with [] => [] | _ => [temp] end)
  end.
(** cli.hpp 155: here without a test of the length *)
Fixpoint spaces_at (fuel : nat) (body : text) (i : nat) : scan nat :=
  match fuel with
  | O => Scan Fuel
  | S f => c <~ read body i ;; b <~ ctype is_space c ;; if b : bool then spaces_at f body (S i) else ret i
  end.
(** cli.hpp 130-158 cmd_func up to the parser: name, arguments, text of the definition.  find_first_of(")", lp) starts at npos for a body without '(' *)
Definition func_at (body : text) : scan (text * list text * text) :=
  let lp := find_first_of "(" body 0 in
  let rp := match lp with Some i => find_first_of ")" body i | None => None end in
  match lp, rp with
  | Some lp, Some rp =>
      name <~ substr body 0 lp ;;
      args <~ args_at (S (length body)) body (lp + 1) rp [] ;;
      i <~ spaces_at (S (length body)) body (rp + 1) ;;
      c <~ read body i ;;
      if Ascii.eqb c "=" then def <~ substr body (i + 1) (length body) ;; ret (name, args, def) else Scan (Throw expected_equals)
  | _, _ => Scan (Throw needs_parens)
  end.
(** cli.hpp 176-187 cmd_constant: name and text of the value *)
Fixpoint name_at (fuel : nat) (body : text) (i eq : nat) (temp : text) : scan text :=
  match fuel with
  | O => Scan Fuel
  | S f =>
      if (i <? eq)%nat then
        c <~ read body i ;; b <~ ctype is_space c ;;
        if b : bool then name_at f body (S i) eq temp else c <~ read body i ;; name_at f body (S i) eq (temp ++ [c])
      else ret temp
  end.
Definition constant_at (body : text) : scan (text * text) :=
  match find_first_of "=" body 0 with
  | None => Scan (Throw expected_equals)
  | Some eq =>
      temp <~ name_at (S (length body)) body 0 eq [] ;;
      match temp with
      | [] => Scan (Throw "Constant's name can not be empty.")
      | _ => val <~ substr body (eq + 1) (length body) ;; ret (temp, val)
      end
  end.
(** cli.hpp 220-236 the arguments of a call *)
Fixpoint call_args (C : cenv) (t temp : text) : scan (list real) :=
  let w := ew (pe (cp C)) in
  match t with
  | [] => match temp with [] => ret [] | _ => q <~ Scan (rat_of_string w (cdec C) temp) ;; x <~ Scan (real_of_rat (pe (cp C)) q) ;; ret [x] end
  | c :: t' =>
      b <~ ctype is_space c ;;
      if b : bool then call_args C t' temp else
      if Ascii.eqb c "," then
        match temp with
        | [] => Scan (Throw empty_argument)
        | _ => q <~ Scan (rat_of_string w (cdec C) temp) ;; x <~ Scan (real_of_rat (pe (cp C)) q) ;; r <~ call_args C t' [] ;; ret (x :: r)
        end
      else call_args C t' (temp ++ [c])
  end.
(** cli.hpp 288-303: name and arguments of a call; None if the line is none *)
Definition call_at (cmd : text) : scan (option (text * text)) :=
  let lp := find_first_of "(" cmd 0 in
  let rp := match lp with Some i => find_first_of ")" cmd i | None => None end in
  match lp, rp with
  | Some lp, Some rp => name <~ substr cmd 0 lp ;; args <~ substr cmd (lp + 1) (rp - lp - 1) ;; ret (Some (name, args))
  | _, _ => ret None
  end.
(** cli.hpp 264-274 *)
Definition line_at (str : text) : scan (text * text) :=
  match find_first_of " " str 0 with
  | Some pos => cmd <~ substr str 0 pos ;; body <~ substr str (pos + 1) (length str) ;; ret (cmd, body)
  | None => ret (str, [])
  end.

(** huge.hpp 562: pos < end is tested last *)
Fixpoint huge_skip (fuel : nat) (s : text) (end_ pos : nat) : scan nat :=
  match fuel with
  | O => Scan Fuel
  | S f =>
      c <~ read s pos ;; d <~ ctype isdigit c ;;
      if d : bool then ret pos else
      c <~ read s pos ;;
      if Ascii.eqb c "+" then ret pos else
      c <~ read s pos ;;
      if Ascii.eqb c "-" then ret pos else
      if (pos <? end_)%nat then huge_skip f s end_ (S pos) else ret pos
  end.
(** huge.hpp 584-595: value, number of digits, position, end *)
Fixpoint chunk_at (fuel : nat) (s : text) (end_ pos : nat) (c i : Z) : scan (Z * Z * nat * nat) :=
  match fuel with
  | O => Scan Fuel
  | S f =>
      if ((i <? 9) && (pos <? end_)%nat)%bool then
        ch <~ read s pos ;; d <~ ctype isdigit ch ;;
        if d : bool then ch <~ read s pos ;; chunk_at f s end_ (S pos) (u64 (c * 10 + digit_of ch)) (i + 1)
        else chunk_at f s pos (S pos) c i
      else ret (c, i, pos, end_)
  end.
(** huge.hpp 579-618 *)
Fixpoint huge_loop (fuel : nat) (s : text) (end_ pos : nat) (ds : list Z) : scan (list Z) :=
  match fuel with
  | O => Scan Fuel
  | S f =>
      if (pos <? end_)%nat then
        ch <~ read s pos ;; d <~ ctype isdigit ch ;;
        if d : bool then
          ch <~ read s pos ;;
          '(c, i, pos, end_) <~ chunk_at 10 s end_ (S pos) (digit_of ch) 1 ;;
          ds <~ Scan (muladd_loop (convmult i) c ds) ;; huge_loop f s end_ pos ds
        else ret ds
      else ret ds
  end.
(** huge.hpp 558-619 Huge(const std::string &) *)
Definition huge_at (s : text) : scan huge :=
  pos <~ huge_skip (S (length s)) s (length s) 0 ;;
  if (pos <? length s)%nat then
    c <~ read s 0 ;;
    let pos := if Ascii.eqb c "+" then S pos else pos in
    c <~ read s 0 ;;
    let '(positive, pos) := if Ascii.eqb c "-" then (false, S pos) else (true, pos) in
    ds <~ huge_loop (S (length s)) s (length s) pos [] ;; ret (mkHuge ds positive)
  else Scan (Throw "Invaild string.").
