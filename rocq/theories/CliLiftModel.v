(** The command line (include/symxx/cli.hpp) with the arithmetic of double spelled out: the definitions of CliModel.v that compute with expressions, one by one, over the
    expressions of LiftModel.v.  [M] is the machine; the field [cp] of [C] (the machine of the exact models) is not read, the other fields are (decimals, long double, the name of
    the type).  The two are compared in CliLiftProofs.v. *)
From Coq Require Import ZArith QArith String Ascii Lia Bool List.
From Verif Require Import Base AdapterModel RationalModel RealModel PolyModel ExprModel ParserModel DecModel NumModel DblModel LiftModel CliModel.
Import ListNotations.
Open Scope Z_scope.

(** cli.hpp 53-67 print_func; std::map::at throws for an unknown name *)
Definition print_func_d (M : dpenv) (C : cenv) (name : string) (s : cstate C) : result C :=
  match mget name (funcs s) with
  | None => stop (A := unit) (Throw "out_of_range") s
  | Some (args, e) =>
      let head := txt "Function: " ++ txt name ++ txt "(" ++ comma_list args ++ txt ") = " in
      match expr_to_string_d (dpe M) e with
      | Ok t => say (head ++ t ++ newline) s
      | r => Result head (_ <- r ;; Ok tt) s
      end
  end.
(** cli.hpp 72-79: the test for an integer *)
Definition shows_integer_d (M : dpenv) (C : cenv) (e : expr) : res bool :=
  v <- expr_try_eval_d M e ;;
  match v with
  | Some f =>
      if frac_no_symbols f then
        q <- frac_is_rational (ew (de (dpe M))) f ;;
        if q : bool then r <- frac_to_rational (ew (de (dpe M))) f ;; Ok (is_int r) else Ok false
      else Ok false
  | None => Ok false
  end.
(** cli.hpp 69-89 print_result *)
Definition print_result_d (M : dpenv) (C : cenv) (e : expr) (s : cstate C) : result C :=
  run (n <- expr_normalize_d M e ;; t <- expr_to_string_d (dpe M) n ;; Ok (n, t)) s (fun nt =>
  follow (say (snd nt) s) (fun s =>
  run (shows_integer_d M C (fst nt)) s (fun i =>
  if i : bool then say newline s else
  run (expr_ld (cf C) (consts s) (fst nt)) s (fun v =>
  match v with
  | Some x => say (txt " = " ++ d_show (cf C) x ++ newline) s
  | None => say newline s
  end)))).
(** cli.hpp 98, 108, 113: parse(), then normalize() *)
Definition parse_normal_d (M : dpenv) (C : cenv) (t : text) : res expr := e <- parse_d M (cdec C) t ;; expr_normalize_d M e.
(** cli.hpp 97-100 cmd_normalize *)
Definition cmd_normalize_d (M : dpenv) (C : cenv) (body : text) (s : cstate C) : result C := run (parse_normal_d M C body) s (fun e => print_result_d M C e s).
(** cli.hpp 102-105 cmd_tex *)
Definition cmd_tex_d (M : dpenv) (C : cenv) (body : text) (s : cstate C) : result C :=
  run (e <- parse_d M (cdec C) body ;; expr_to_tex_d (dpe M) e) s (fun t => say (t ++ newline) s).
(** cli.hpp 107-110 cmd_ntex *)
Definition cmd_ntex_d (M : dpenv) (C : cenv) (body : text) (s : cstate C) : result C :=
  run (e <- parse_normal_d M C body ;; expr_to_tex_d (dpe M) e) s (fun t => say (t ++ newline) s).
(** num.hpp 690-704 Real::try_to<T>(): never null *)
Definition real_to_int_d (M : dpenv) (C : cenv) (a : real) : res Z :=
  let w := ew (de (dpe M)) in q <- rat_to_t w (coe a) ;; r <- d_root (cf C) (rad a) (idx a) ;; chk w (q * r).
(** cli.hpp 112-128 cmd_factor *)
Definition cmd_factor_d (M : dpenv) (C : cenv) (body : text) (s : cstate C) : result C :=
  run (e <- parse_normal_d M C body ;;
       v <- expr_try_eval_d M e ;; f <- (match v with Some f => Ok f | None => Throw invailed end) ;;
       c <- frac_try_eval_d M f ;; x <- (match c with Some x => Ok x | None => Throw invailed end) ;;
       n <- real_to_int_d M C x ;; efac (de (dpe M)) n) s
    (fun l => say (flat_map (fun p => adapter_to_string p ++ txt " ") l ++ newline) s).
(** cli.hpp 129-172 cmd_func up to the assignment: name, arguments, body *)
Definition read_func_d (M : dpenv) (C : cenv) (body : text) : res (string * fdef) :=
  match find_char "(" body with
  | None => Throw needs_parens
  | Some (name, rest) =>
      match find_char ")" rest with
      | None => Throw needs_parens
      | Some (argtext, rest2) =>
          args <- split_args argtext [] ;;
          match drop_spaces rest2 with
          | c :: def => if Ascii.eqb c "=" then e <- parse_normal_d M C def ;; Ok (string_of_list_ascii name, (map string_of_list_ascii args, e))
                        else Throw expected_equals
          | [] => Throw expected_equals
          end
      end
  end.
(** cli.hpp 129-172 cmd_func *)
Definition cmd_func_d (M : dpenv) (C : cenv) (body : text) (s : cstate C) : result C :=
  run (read_func_d M C body) s (fun nd => run (store_func (fst nd) (snd nd) s) s (fun s' => print_func_d M C (fst nd) s')).
(** part of cli.hpp 190-216 cmd_print *)
Definition cmd_print_d (M : dpenv) (C : cenv) (body : text) (s : cstate C) : result C :=
  match body with
  | [] => follow (for_each (print_func_d M C) (map fst (funcs s)) s) (for_each (print_constant C) (map fst (consts s)))
  | _ =>
      let name := string_of_list_ascii body in
      follow (if has name (funcs s) then print_func_d M C name s else say [] s)
             (fun s => if has name (consts s) then print_constant C name s else say [] s)
  end.
(** cli.hpp 220-236: the arguments of a call are rationals, each converted as soon as its comma (or the end) is reached *)
Fixpoint read_args_d (M : dpenv) (C : cenv) (t temp : text) : res (list real) :=
  let w := ew (de (dpe M)) in
  match t with
  | [] => match temp with [] => Ok [] | _ => q <- rat_of_string w (cdec C) (rev temp) ;; x <- real_of_rat_d (dpe M) q ;; Ok [x] end
  | c :: t' =>
      if is_space c then read_args_d M C t' temp else
      if Ascii.eqb c "," then
        match temp with
        | [] => Throw empty_argument
        | _ => q <- rat_of_string w (cdec C) (rev temp) ;; x <- real_of_rat_d (dpe M) q ;; r <- read_args_d M C t' [] ;; Ok (x :: r)
        end
      else read_args_d M C t' (c :: temp)
  end.
(** cli.hpp 218-248 cmd_call *)
Definition cmd_call_d (M : dpenv) (C : cenv) (name : string) (argstr : text) (s : cstate C) : result C :=
  run (read_args_d M C argstr []) s (fun args =>
  match mget name (funcs s) with
  | None => stop (A := unit) (Throw "out_of_range") s
  | Some (fargs, e) =>
      if Nat.eqb (length args) (length fargs) then
        let env := fold_left (fun m kv => mput (fst kv) (snd kv) m) (combine fargs args) [] in
        run (expr_subst_d M env e) s (fun e' => print_result_d M C e' s)
      else stop (A := unit) (Throw (expected_arguments (length fargs))) s
  end).
(** cli.hpp 286-305 *)
Definition evaluate_d (M : dpenv) (C : cenv) (line cmd : text) (s : cstate C) : result C :=
  match find_char "(" cmd with
  | None => cmd_normalize_d M C line s
  | Some (name, rest) =>
      match find_char ")" rest with
      | None => cmd_normalize_d M C line s
      | Some (argstr, _) =>
          if has (string_of_list_ascii name) (funcs s) then cmd_call_d M C (string_of_list_ascii name) argstr s else cmd_normalize_d M C line s
      end
  end.
(** cli.hpp 277-305; None is "quit" *)
Definition dispatch_d (M : dpenv) (C : cenv) (line : text) (s : cstate C) : option (result C) :=
  let (cmd, body) := split_line line in
  let first := follow (if is_cmd cmd "normalize" then cmd_normalize_d M C body s else say [] s)
                      (fun s => if is_cmd cmd "tex" then cmd_tex_d M C body s else say [] s) in
  if is_cmd cmd "ntex" then Some (follow first (cmd_ntex_d M C body))
  else if is_cmd cmd "func" then Some (follow first (cmd_func_d M C body))
  else if is_cmd cmd "constant" then Some (follow first (cmd_constant C body))
  else if is_cmd cmd "print" then Some (follow first (cmd_print_d M C body))
  else if is_cmd cmd "factor" then Some (follow first (cmd_factor_d M C body))
  else if is_cmd cmd "version" then Some (follow first (cmd_version C))
  else if is_cmd cmd "quit" then None
  else Some (follow first (evaluate_d M C line cmd)).
(** part of cli.hpp 260-311: one round of the loop.  [Continue msg]: it goes on, having written [msg] to std::cerr; [Quit]: mainloop returns 0;
    [Escape m]: the exception m leaves mainloop; [Undefined]: undefined behaviour; [Hang]: the round does not end *)
Definition round_d (M : dpenv) (C : cenv) (line : text) (s : cstate C) : round_end C :=
  match dispatch_d M C line s with
  | None => RoundEnd prompt Quit s
  | Some r =>
      RoundEnd (prompt ++ out r)
        (match fin r with
         | Ok _ => Continue None
         | Throw m => if is_std m then Escape m else Continue (Some m)
         | Ub why => Undefined why
         | Fuel => Hang
         end) (post r)
  end.
(** cli.hpp 256-314 mainloop, [n] rounds from the k-th getline on: what they print, and how the last one ended *)
Fixpoint loop_d (M : dpenv) (C : cenv) (i : input) (k n : nat) (s : cstate C) : text * next * cstate C :=
  match n with
  | O => ([], Continue None, s)
  | S m =>
      let r := round_d M C (nth_line i k) s in
      match then_ r with
      | Continue _ => let '(t, e, s') := loop_d M C i (S k) m (members r) in (printed r ++ t, e, s')
      | e => (printed r, e, members r)
      end
  end.
(** part of cli.hpp 256-314 mainloop, [n] rounds from the k-th getline on: what they print, and how the last one ended *)
Definition mainloop_d (M : dpenv) (C : cenv) (i : input) (n : nat) (s : cstate C) : text * next * cstate C :=
  let '(t, e, s') := loop_d M C i 0 n s in (version_text C ++ t, e, s').
(** part of cli.hpp 41-44: the members at the start; [pi e phi egamma] are the values of the four constants *)
Definition boot_d (M : dpenv) (C : cenv) (pi e phi egamma : D (cf C)) : res (cstate C) :=
  f <- parse_normal_d M C fib_text ;;
  Ok (CState [("fib"%string, (["n"%string], f))] [("e"%string, e); ("egamma"%string, egamma); ("phi"%string, phi); ("pi"%string, pi)]).
