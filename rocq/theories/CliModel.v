(** Model of the long double evaluation of Term, Poly, Frac and ExprNode (include/symxx/frac.hpp, expr.hpp) and of the command line
    BasicCLI<T> (include/symxx/cli.hpp; citations without a file are to it), for a machine integer T.

    Simplifications:
    - long double is an abstract type with abstract operations (record [fops]); nothing is assumed of them unless a theorem says so;
    - [out] is what is written to std::cout, in order, std::endl being one newline; what std::cerr gets is the message of the Error, without
      the colour codes and the source location (error.hpp 48-51);
    - a [Throw] is a symxx::Error unless its message is one of the two standard exceptions ([is_std]): std::invalid_argument, std::out_of_range;
    - std::map<std::string, X> is the list of its entries in key order;
    - std::isspace is that of the C locale; memory exhaustion and failing output streams are not modelled. *)
From Coq Require Import ZArith String Ascii Lia Bool List.
From Verif Require Import Base AdapterModel RationalModel RealModel PolyModel ExprModel ParserModel.
Import ListNotations.
Open Scope Z_scope.

(** long double: the conversions Rational::to<long double> (num.hpp 274-278) and Real::to<long double> (num.hpp 675-679), the operators,
    std::pow, operator<<, std::stold (which throws std::invalid_argument or std::out_of_range); [d_root r i] is
    static_cast<T>(std::pow(double(r), 1.0 / double(i))) (num.hpp 696-698) *)
Record fops := FOps {
  D : Type; d_of_rat : rat -> D; d_of_real : real -> D; d_zero : D;
  d_add : D -> D -> D; d_sub : D -> D -> D; d_mul : D -> D -> D; d_div : D -> D -> D; d_pow : D -> D -> D;
  d_show : D -> text; d_read : text -> res D; d_root : rat -> Z -> res Z }.

(** std::map: at/find, operator[] followed by an assignment *)
Fixpoint mget {A} (k : string) (m : list (string * A)) : option A :=
  match m with [] => None | (k', v) :: m' => if String.eqb k k' then Some v else mget k m' end.
Fixpoint mput {A} (k : string) (v : A) (m : list (string * A)) : list (string * A) :=
  match m with
  | [] => [(k, v)]
  | (k', v') :: m' => match String.compare k k' with Lt => (k, v) :: m | Eq => (k, v) :: m' | Gt => (k', v') :: mput k v m' end
  end.

(** frac.hpp 175-190 Term::try_eval(v) *)
Fixpoint syms_ld (F : fops) (v : list (string * D F)) (m : smap) (acc : D F) : option (D F) :=
  match m with
  | [] => Some acc
  | (k, q) :: m' => match mget k v with Some x => syms_ld F v m' (d_mul F acc (d_pow F x (d_of_rat F q))) | None => None end
  end.
Definition term_ld (F : fops) (v : list (string * D F)) (t : term) : option (D F) := syms_ld F v (syms t) (d_of_real F (tco t)).
(** frac.hpp 531-546 Poly::try_eval(v) *)
Fixpoint terms_ld (F : fops) (v : list (string * D F)) (l : poly) (acc : D F) : option (D F) :=
  match l with
  | [] => Some acc
  | t :: l' => match term_ld F v t with Some x => terms_ld F v l' (d_add F acc x) | None => None end
  end.
Definition poly_ld (F : fops) (v : list (string * D F)) (l : poly) : option (D F) := terms_ld F v l (d_zero F).
(** frac.hpp 895-902 Frac::try_eval(v) *)
Definition frac_ld (F : fops) (v : list (string * D F)) (f : frac) : option (D F) :=
  match poly_ld F v (fnum f), poly_ld F v (fden f) with Some n, Some d => Some (d_div F n d) | _, _ => None end.
(** expr.hpp 134-166 ExprNode::try_eval(v); every operand is evaluated twice (142-144), with the same result *)
Fixpoint expr_ld (F : fops) (v : list (string * D F)) (e : expr) : res (option (D F)) :=
  match e with
  | Leaf f => Ok (frac_ld F v f)
  | Op c l r =>
      a <- expr_ld F v l ;; b <- expr_ld F v r ;;
      match a, b with
      | Some a, Some b =>
          if Ascii.eqb c "+" then Ok (Some (d_add F a b)) else
          if Ascii.eqb c "-" then Ok (Some (d_sub F a b)) else
          if Ascii.eqb c "*" then Ok (Some (d_mul F a b)) else
          if Ascii.eqb c "/" then Ok (Some (d_div F a b)) else
          if Ascii.eqb c "^" then Ok (Some (d_pow F a b)) else
          unreachable ""
      | _, _ => Ok None
      end
  end.

(** what the program is compiled with: T and its environment, what Rational(std::string) does with decimals, long double, the name of T *)
Record cenv := CEnv { cp : penv; cdec : text -> res rat; cf : fops; ctype : text }.
(** 41-51: funcs and constants *)
Definition fdef := (list string * expr)%type.
Record cstate (C : cenv) := CState { funcs : list (string * fdef); consts : list (string * D (cf C)) }.
Arguments CState {C}. Arguments funcs {C}. Arguments consts {C}.

(** what a member function does: what it prints, how it ends, the members afterwards *)
Record result (C : cenv) := Result { out : text; fin : res unit; post : cstate C }.
Arguments Result {C}. Arguments out {C}. Arguments fin {C}. Arguments post {C}.
Definition newline : text := ["010"%char].
Definition say {C} (t : text) (s : cstate C) : result C := Result t (Ok tt) s.
Definition stop {C A} (r : res A) (s : cstate C) : result C := Result [] (_ <- r ;; Ok tt) s.
Definition run {C A} (r : res A) (s : cstate C) (k : A -> result C) : result C := match r with Ok x => k x | _ => stop r s end.
Definition follow {C} (r : result C) (k : cstate C -> result C) : result C :=
  match fin r with Ok _ => let r2 := k (post r) in Result (out r ++ out r2) (fin r2) (post r2) | _ => r end.

(** the argument list as it is printed: 56-64 *)
Fixpoint comma_list (l : list string) : text :=
  match l with [] => [] | [a] => txt a | a :: l' => txt a ++ txt "," ++ comma_list l' end.
(** 53-67 print_func; std::map::at throws for an unknown name *)
Definition print_func (C : cenv) (name : string) (s : cstate C) : result C :=
  match mget name (funcs s) with
  | None => stop (A := unit) (Throw "out_of_range") s
  | Some (args, e) =>
      let head := txt "Function: " ++ txt name ++ txt "(" ++ comma_list args ++ txt ") = " in
      match expr_to_string (pe (cp C)) e with
      | Ok t => say (head ++ t ++ newline) s
      | r => Result head (_ <- r ;; Ok tt) s
      end
  end.
(** 91-94 print_constant *)
Definition print_constant (C : cenv) (name : string) (s : cstate C) : result C :=
  match mget name (consts s) with
  | None => Result (txt "Constant: " ++ txt name ++ txt " = ") (Throw "out_of_range") s
  | Some x => say (txt "Constant: " ++ txt name ++ txt " = " ++ d_show (cf C) x ++ newline) s
  end.
(** 72-79: the test for an integer *)
Definition shows_integer (C : cenv) (e : expr) : res bool :=
  v <- expr_try_eval (cp C) e ;;
  match v with
  | Some f =>
      if frac_no_symbols f then
        q <- frac_is_rational (ew (pe (cp C))) f ;;
        if q : bool then r <- frac_to_rational (ew (pe (cp C))) f ;; Ok (is_int r) else Ok false
      else Ok false
  | None => Ok false
  end.
(** 69-89 print_result *)
Definition print_result (C : cenv) (e : expr) (s : cstate C) : result C :=
  run (n <- expr_normalize (cp C) e ;; t <- expr_to_string (pe (cp C)) n ;; Ok (n, t)) s (fun nt =>
  follow (say (snd nt) s) (fun s =>
  run (shows_integer C (fst nt)) s (fun i =>
  if i : bool then say newline s else
  run (expr_ld (cf C) (consts s) (fst nt)) s (fun v =>
  match v with
  | Some x => say (txt " = " ++ d_show (cf C) x ++ newline) s
  | None => say newline s
  end)))).

Definition parse_normal (C : cenv) (t : text) : res expr := e <- parse (cp C) (cdec C) t ;; expr_normalize (cp C) e.
(** 97-100 cmd_normalize *)
Definition cmd_normalize (C : cenv) (body : text) (s : cstate C) : result C := run (parse_normal C body) s (fun e => print_result C e s).
(** 102-105 cmd_tex *)
Definition cmd_tex (C : cenv) (body : text) (s : cstate C) : result C :=
  run (e <- parse (cp C) (cdec C) body ;; expr_to_tex (pe (cp C)) e) s (fun t => say (t ++ newline) s).
(** 107-110 cmd_ntex *)
Definition cmd_ntex (C : cenv) (body : text) (s : cstate C) : result C :=
  run (e <- parse_normal C body ;; expr_to_tex (pe (cp C)) e) s (fun t => say (t ++ newline) s).
(** num.hpp 690-704 Real::try_to<T>(): never null *)
Definition real_to_int (C : cenv) (a : real) : res Z :=
  let w := ew (pe (cp C)) in q <- rat_to_t w (coe a) ;; r <- d_root (cf C) (rad a) (idx a) ;; chk w (q * r).
Definition invailed : string := "Invailed string".
(** 112-128 cmd_factor *)
Definition cmd_factor (C : cenv) (body : text) (s : cstate C) : result C :=
  run (e <- parse_normal C body ;;
       v <- expr_try_eval (cp C) e ;; f <- (match v with Some f => Ok f | None => Throw invailed end) ;;
       c <- frac_try_eval (cp C) f ;; x <- (match c with Some x => Ok x | None => Throw invailed end) ;;
       n <- real_to_int C x ;; efac (pe (cp C)) n) s
    (fun l => say (flat_map (fun p => adapter_to_string p ++ txt " ") l ++ newline) s).

(** 135-155: the pieces between commas, without white space; a last empty piece is dropped *)
Definition empty_argument : string := "Argument can not be """".".
Fixpoint split_args (t temp : text) : res (list text) :=
  match t with
  | [] => Ok (match temp with [] => [] | _ => [rev temp] end)
  | c :: t' =>
      if is_space c then split_args t' temp else
      if Ascii.eqb c "," then match temp with [] => Throw empty_argument | _ => r <- split_args t' [] ;; Ok (rev temp :: r) end
      else split_args t' (c :: temp)
  end.
Definition expected_equals : string := "Expected '='.".
Definition needs_parens : string := "Function needs '(' and ')'.".
(** 129-172 cmd_func up to the assignment: name, arguments, body *)
Definition read_func (C : cenv) (body : text) : res (string * fdef) :=
  match find_char "(" body with
  | None => Throw needs_parens
  | Some (name, rest) =>
      match find_char ")" rest with
      | None => Throw needs_parens
      | Some (argtext, rest2) =>
          args <- split_args argtext [] ;;
          match drop_spaces rest2 with
          | c :: def => if Ascii.eqb c "=" then e <- parse_normal C def ;; Ok (string_of_list_ascii name, (map string_of_list_ascii args, e))
                        else Throw expected_equals
          | [] => Throw expected_equals
          end
      end
  end.
(** 170 funcs[name] = {args, func}: assigning an operator tree to a slot that holds one shares its operands with the temporary, which are then
    deleted (OwnProps: C51_redefinition); the following print_func reads them *)
Definition is_op (e : expr) : bool := match e with Op _ _ _ => true | Leaf _ => false end.
Definition store_func {C} (name : string) (d : fdef) (s : cstate C) : res (cstate C) :=
  match mget name (funcs s) with
  | Some (_, old) => if (is_op old && is_op (snd d))%bool then Ub "use after free" else Ok (CState (mput name d (funcs s)) (consts s))
  | None => Ok (CState (mput name d (funcs s)) (consts s))
  end.
(** 129-172 cmd_func *)
Definition cmd_func (C : cenv) (body : text) (s : cstate C) : result C :=
  run (read_func C body) s (fun nd => run (store_func (fst nd) (snd nd) s) s (fun s' => print_func C (fst nd) s')).
Definition no_spaces (t : text) : text := filter (fun c => negb (is_space c)) t.
(** 174-188 cmd_constant *)
Definition read_constant (C : cenv) (body : text) : res (string * D (cf C)) :=
  match find_char "=" body with
  | None => Throw expected_equals
  | Some (name, val) =>
      match no_spaces name with
      | [] => Throw "Constant's name can not be empty."
      | k => x <- d_read (cf C) val ;; Ok (string_of_list_ascii k, x)
      end
  end.
Definition cmd_constant (C : cenv) (body : text) (s : cstate C) : result C :=
  run (read_constant C body) s (fun kx => print_constant C (fst kx) (CState (funcs s) (mput (fst kx) (snd kx) (consts s)))).
(** 190-216 cmd_print *)
Fixpoint for_each {C} (f : string -> cstate C -> result C) (l : list string) (s : cstate C) : result C :=
  match l with [] => say [] s | k :: l' => follow (f k s) (for_each f l') end.
Definition has {A} (k : string) (m : list (string * A)) : bool := match mget k m with Some _ => true | None => false end.
Definition cmd_print (C : cenv) (body : text) (s : cstate C) : result C :=
  match body with
  | [] => follow (for_each (print_func C) (map fst (funcs s)) s) (for_each (print_constant C) (map fst (consts s)))
  | _ =>
      let name := string_of_list_ascii body in
      follow (if has name (funcs s) then print_func C name s else say [] s)
             (fun s => if has name (consts s) then print_constant C name s else say [] s)
  end.

(** 238: std::to_string of the number of arguments *)
Definition expected_arguments (n : nat) : string := ("Expected " ++ string_of_list_ascii (numeral (Z.of_nat n)) ++ " arguments")%string.
(** 220-236: the arguments of a call are rationals, each converted as soon as its comma (or the end) is reached *)
Fixpoint read_args (C : cenv) (t temp : text) : res (list real) :=
  let w := ew (pe (cp C)) in
  match t with
  | [] => match temp with [] => Ok [] | _ => q <- rat_of_string w (cdec C) (rev temp) ;; x <- real_of_rat (pe (cp C)) q ;; Ok [x] end
  | c :: t' =>
      if is_space c then read_args C t' temp else
      if Ascii.eqb c "," then
        match temp with
        | [] => Throw empty_argument
        | _ => q <- rat_of_string w (cdec C) (rev temp) ;; x <- real_of_rat (pe (cp C)) q ;; r <- read_args C t' [] ;; Ok (x :: r)
        end
      else read_args C t' (c :: temp)
  end.
(** 218-248 cmd_call *)
Definition cmd_call (C : cenv) (name : string) (argstr : text) (s : cstate C) : result C :=
  run (read_args C argstr []) s (fun args =>
  match mget name (funcs s) with
  | None => stop (A := unit) (Throw "out_of_range") s
  | Some (fargs, e) =>
      if Nat.eqb (length args) (length fargs) then
        let env := fold_left (fun m kv => mput (fst kv) (snd kv) m) (combine fargs args) [] in
        run (expr_subst (cp C) env e) s (fun e' => print_result C e' s)
      else stop (A := unit) (Throw (expected_arguments (length fargs))) s
  end).
(** 250-253 cmd_version *)
Definition version_text (C : cenv) : text := txt "symxx | version - 0.0.1 | int - " ++ ctype C ++ newline.
Definition cmd_version (C : cenv) (s : cstate C) : result C := say (version_text C) s.

(** 266-275: the command word and the rest of the line *)
Definition split_line (line : text) : text * text := match find_char " " line with Some (cmd, body) => (cmd, body) | None => (line, []) end.
Definition is_cmd (cmd : text) (name : string) : bool := String.eqb (string_of_list_ascii cmd) name.
(** 286-305 *)
Definition evaluate (C : cenv) (line cmd : text) (s : cstate C) : result C :=
  match find_char "(" cmd with
  | None => cmd_normalize C line s
  | Some (name, rest) =>
      match find_char ")" rest with
      | None => cmd_normalize C line s
      | Some (argstr, _) =>
          if has (string_of_list_ascii name) (funcs s) then cmd_call C (string_of_list_ascii name) argstr s else cmd_normalize C line s
      end
  end.
(** 277-305; None is "quit" *)
Definition dispatch (C : cenv) (line : text) (s : cstate C) : option (result C) :=
  let (cmd, body) := split_line line in
  let first := follow (if is_cmd cmd "normalize" then cmd_normalize C body s else say [] s)
                      (fun s => if is_cmd cmd "tex" then cmd_tex C body s else say [] s) in
  if is_cmd cmd "ntex" then Some (follow first (cmd_ntex C body))
  else if is_cmd cmd "func" then Some (follow first (cmd_func C body))
  else if is_cmd cmd "constant" then Some (follow first (cmd_constant C body))
  else if is_cmd cmd "print" then Some (follow first (cmd_print C body))
  else if is_cmd cmd "factor" then Some (follow first (cmd_factor C body))
  else if is_cmd cmd "version" then Some (follow first (cmd_version C))
  else if is_cmd cmd "quit" then None
  else Some (follow first (evaluate C line cmd)).

(** the standard exceptions that are no symxx::Error *)
Definition is_std (m : string) : bool := (String.eqb m "invalid_argument" || String.eqb m "out_of_range")%bool.
(** 260-311: one round of the loop.  [Continue msg]: it goes on, having written [msg] to std::cerr; [Quit]: mainloop returns 0;
    [Escape m]: the exception m leaves mainloop; [Undefined]: undefined behaviour; [Hang]: the round does not end *)
Inductive next := Continue (err : option string) | Quit | Escape (m : string) | Undefined (why : string) | Hang.
Record round_end (C : cenv) := RoundEnd { printed : text; then_ : next; members : cstate C }.
Arguments RoundEnd {C}. Arguments printed {C}. Arguments then_ {C}. Arguments members {C}.
Definition prompt : text := txt "symxx> ".
Definition round (C : cenv) (line : text) (s : cstate C) : round_end C :=
  match dispatch C line s with
  | None => RoundEnd prompt Quit s
  | Some r =>
      RoundEnd (prompt ++ out r)
        (match fin r with
         | Ok _ => Continue None
         | Throw m => if is_std m then Escape m else Continue (Some m)
         | Ub why => Undefined why
         | Fuel => Hang
         end) (post r)
  end.

(** std::getline (265): the text of std::cin is its lines, each ended by a newline, and the characters after the last newline.  Reading on
    at the end gives "" and, from then on, leaves str alone; a last line without a newline is read once and then left in str for ever *)
Record input := Input { full : list text; tail : text }.
Definition nth_line (i : input) (k : nat) : text := nth k (full i) (tail i).
(** 256-314 mainloop, [n] rounds from the k-th getline on: what they print, and how the last one ended *)
Fixpoint loop (C : cenv) (i : input) (k n : nat) (s : cstate C) : text * next * cstate C :=
  match n with
  | O => ([], Continue None, s)
  | S m =>
      let r := round C (nth_line i k) s in
      match then_ r with
      | Continue _ => let '(t, e, s') := loop C i (S k) m (members r) in (printed r ++ t, e, s')
      | e => (printed r, e, members r)
      end
  end.
Definition mainloop (C : cenv) (i : input) (n : nat) (s : cstate C) : text * next * cstate C :=
  let '(t, e, s') := loop C i 0 n s in (version_text C ++ t, e, s').
(** 41-44: the members at the start; [pi e phi egamma] are the values of the four constants *)
Definition fib_text : text := txt "((1/5)^0.5)*(((1+5^0.5)/2)^n-((1-5^0.5)/2)^n)".
Definition boot (C : cenv) (pi e phi egamma : D (cf C)) : res (cstate C) :=
  f <- parse_normal C fib_text ;;
  Ok (CState [("fib"%string, (["n"%string], f))] [("e"%string, e); ("egamma"%string, egamma); ("phi"%string, phi); ("pi"%string, pi)]).
