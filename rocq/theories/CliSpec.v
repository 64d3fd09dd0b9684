(** Vocabulary of the command line theorems. *)
From Coq Require Import ZArith QArith Qreals Reals String Ascii Lia Bool List Sorted.
From Verif Require Import Base AdapterModel RationalModel RationalSpec RealModel RealSpec PolyModel PolySpec ExprModel ExprSpec ParserModel CliModel ErrSpec.
Import ListNotations.
Open Scope Z_scope.

Definition lacks (c : ascii) (t : text) : Prop := ~ In c t.
(** a line is a word without a blank and, behind the first blank, a body (empty if there is no blank) *)
Definition reads (line word body : text) : Prop := lacks " " word /\ (line = word ++ " "%char :: body \/ line = word /\ body = []).
Definition words : list text := map txt ["normalize"; "tex"; "ntex"; "func"; "constant"; "print"; "factor"; "version"; "quit"]%string.
(** the word calls the function [name] with the argument text [args]; everything behind the ')' is left over *)
Definition calls (word name args : text) : Prop := exists rest, word = name ++ "("%char :: args ++ ")"%char :: rest /\ lacks "(" name /\ lacks ")" args.

(** how the round ends when the action ends so *)
Definition ends (f : res unit) : next :=
  match f with Ok _ => Continue None | Throw m => if is_std m then Escape m else Continue (Some m) | Ub why => Undefined why | Fuel => Hang end.
(** the round is the action r, and nothing else *)
Definition does {C} (line : text) (s : cstate C) (r : result C) : Prop := round C line s = RoundEnd (prompt ++ out r) (ends (fin r)) (post r).
(** the round is r and, if r succeeds, then also r' *)
Definition does_both {C} (line : text) (s : cstate C) (r r' : result C) : Prop :=
  round C line s = match fin r with
                   | Ok _ => RoundEnd (prompt ++ out r ++ out r') (ends (fin r')) (post r')
                   | _ => RoundEnd (prompt ++ out r) (ends (fin r)) (post r)
                   end.

(** the members between two rounds: no denominator is 0 in a function body, the maps are ordered by name *)
Definition ordered {A} (m : list (string * A)) : Prop := StronglySorted (fun a b => String.compare (fst a) (fst b) = Lt) m.
Definition sane_members {C} (s : cstate C) : Prop :=
  Forall (fun f => sane_expr (snd (snd f))) (funcs s) /\ ordered (funcs s) /\ ordered (consts s).
(** the program: factorize and std::sort throw nothing; neither does the conversion of a floating-point number to T *)
Definition calm_program (C : cenv) : Prop := calm (cp C) /\ forall r i, no_exception (d_root (cf C) r i).

Definition unspaced (t : text) : text := filter (fun c => negb (is_space c)) t.
(** the line defines the constant k as x *)
Definition defines_constant (C : cenv) (line : text) (k : string) (x : D (cf C)) : Prop :=
  exists name val, line = txt "constant " ++ name ++ "="%char :: val /\ lacks "=" name /\ unspaced name = list_ascii_of_string k /\ k <> ""%string /\ d_read (cf C) val = Ok x.
(** the text a, blanks aside, is the names with commas between them; one comma behind the last name is accepted *)
Fixpoint joined (l : list text) : text := match l with [] => [] | [a] => a | a :: l' => a ++ ","%char :: joined l' end.
Definition pieces (a : text) (l : list text) : Prop :=
  Forall (fun x => x <> [] /\ lacks "," x) l /\ (unspaced a = joined l \/ l <> [] /\ unspaced a = joined l ++ [","%char]).
(** the line defines the function k with parameters and body d *)
Definition defines_function (C : cenv) (line : text) (k : string) (d : fdef) : Prop :=
  exists name a blanks def params e,
    line = txt "func " ++ name ++ "("%char :: a ++ ")"%char :: blanks ++ "="%char :: def /\ lacks "(" name /\ lacks ")" a /\ Forall (fun c => is_space c = true) blanks /\
    name = list_ascii_of_string k /\ pieces a params /\ map string_of_list_ascii params = fst d /\ parse (cp C) (cdec C) def = Ok e /\ expr_normalize (cp C) e = Ok (snd d).
(** [o] is what the last line that defines k says, or what was there before *)
Definition latest {X} (def : text -> string -> X -> Prop) (lines : list text) (before : option X) (k : string) (o : option X) : Prop :=
  (exists l1 line l2 x, lines = l1 ++ line :: l2 /\ def line k x /\ (forall line' x', In line' l2 -> ~ def line' k x') /\ o = Some x) \/
  ((forall line x, In line lines -> ~ def line k x) /\ o = before).
Definition first_lines (i : input) (n : nat) : list text := map (nth_line i) (seq 0 n).

(** ** long double evaluation *)
Definition tsymbol (k : string) (t : term) : Prop := In k (map fst (syms t)).
Definition psymbol (k : string) (l : poly) : Prop := exists t, In t l /\ tsymbol k t.
Definition fsymbol (k : string) (f : frac) : Prop := psymbol k (fnum f) \/ psymbol k (fden f).
Fixpoint symbol (k : string) (e : expr) : Prop := match e with Leaf f => fsymbol k f | Op _ l r => symbol k l \/ symbol k r end.
Definition operator (c : ascii) : Prop := In c (list_ascii_of_string "+-*/^").
Fixpoint proper (e : expr) : Prop := match e with Leaf _ => True | Op c l r => operator c /\ proper l /\ proper r end.
(** every power in a leaf is one of a positive number, or one with an integer exponent *)
Definition plain_power (s : string -> R) (p : string * rat) : Prop := (0 < s (fst p))%R \/ den (snd p) = 1.
Definition plain_poly (s : string -> R) (l : poly) : Prop := Forall (fun t => Forall (plain_power s) (syms t)) l.
Fixpoint plain (s : string -> R) (e : expr) : Prop := match e with Leaf f => plain_poly s (fnum f) /\ plain_poly s (fden f) | Op _ l r => plain s l /\ plain s r end.
(** the real numbers as a floating-point type without rounding *)
Definition exact (show : R -> text) (read : text -> res R) (root : rat -> Z -> res Z) : fops :=
  FOps R (fun q => Q2R (qv q)) rv 0%R Rplus Rminus Rmult Rdiv epow show read root.

(** ** calls *)
(** the value of the parameter k: the last argument given for it *)
Fixpoint argument (params : list string) (vals : list real) (k : string) : option real :=
  match params, vals with
  | p :: ps, v :: vs => match argument ps vs k with Some x => Some x | None => if String.eqb k p then Some v else None end
  | _, _ => None
  end.
Definition with_arguments (params : list string) (vals : list real) (s : string -> R) (k : string) : R :=
  match argument params vals k with Some v => rv v | None => s k end.

(** ** what is printed for an expression *)
(** e is a constant that is an integer (for the code: a Rational with denominator 1) *)
Definition integer_constant (C : cenv) (e : expr) : Prop :=
  exists f q, expr_try_eval (cp C) e = Ok (Some f) /\ frac_no_symbols f = true /\ frac_is_rational (ew (pe (cp C))) f = Ok true /\
    frac_to_rational (ew (pe (cp C))) f = Ok q /\ den q = 1.
(** the text t for e: e normalised and, unless that is an integer or has a symbol without a value, its value in long double *)
Definition shown (C : cenv) (e : expr) (s : cstate C) (t : text) : Prop :=
  exists e' u, expr_normalize (cp C) e = Ok e' /\ expr_to_string (pe (cp C)) e' = Ok u /\
    (t = u ++ newline /\ (integer_constant C e' \/ expr_ld (cf C) (consts s) e' = Ok None) \/
     exists x, ~ integer_constant C e' /\ expr_ld (cf C) (consts s) e' = Ok (Some x) /\ t = u ++ txt " = " ++ d_show (cf C) x ++ newline).
(** an argument of a call: a rational number *)
Definition argument_value (C : cenv) (u : text) (x : real) : Prop := exists q, rat_of_string (ew (pe (cp C))) (cdec C) u = Ok q /\ real_of_rat (pe (cp C)) q = Ok x.
