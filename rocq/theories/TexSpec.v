(** Vocabulary of the theorems on the TeX output (C72): a reader of TeX formulas, written from the usual meaning of the notation and not from
    the printer.  It is a function, so a text has at most one reading. *)
From Coq Require Import ZArith QArith Qreals Reals String Ascii Bool List.
From Verif Require Import Base RationalModel RationalSpec RealModel RealSpec PolyModel PolySpec ExprModel ExprSpec ParserModel TextSpec PrintSpec.
Import ListNotations.
Open Scope Z_scope.

(** ** formulas and their values *)
Inductive formula :=
  | FNum (n : Z) | FSym (k : string) | FNeg (a : formula) | FAdd (a b : formula) | FSub (a b : formula) | FMul (a b : formula) | FDiv (a b : formula)
  | FPow (a b : formula) | FRoot (i a : formula).
Fixpoint value (s : string -> R) (f : formula) : R :=
  match f with
  | FNum n => IZR n
  | FSym k => s k
  | FNeg a => - value s a
  | FAdd a b => value s a + value s b
  | FSub a b => value s a - value s b
  | FMul a b => value s a * value s b
  | FDiv a b => value s a / value s b
  | FPow a b => epow (value s a) (value s b)
  | FRoot i a => Rpower (value s a) (/ value s i)
  end%R.

(** ** tokens: numbers, symbols (a letter, or a control word of at least two letters), the control words with a meaning, other characters *)
Inductive token := KNum (n : Z) | KSym (k : string) | KFrac | KSqrt | KTimes | KChar (c : ascii).
Definition digit (c : ascii) : bool := let n := Z.of_nat (nat_of_ascii c) in ((48 <=? n) && (n <=? 57))%bool.
Definition letter (c : ascii) : bool := let n := Z.of_nat (nat_of_ascii c) in ((65 <=? n) && (n <=? 90) || (97 <=? n) && (n <=? 122))%bool.
Definition control (k : string) : token :=
  if String.eqb k "frac" then KFrac else if String.eqb k "sqrt" then KSqrt else if String.eqb k "times" then KTimes else
  if Nat.leb 2 (String.length k) then KSym k else KChar "\".
(** what has been read of the current token: nothing, a number, a control word *)
Inductive partial := Between | Number (n : Z) | Word (k : string).
Definition finish (p : partial) : list token := match p with Between => [] | Number n => [KNum n] | Word k => [control k] end.
Definition continue_with (p : partial) (c : ascii) : option partial :=
  match p with
  | Between => None
  | Number n => if digit c then Some (Number (10 * n + (Z.of_nat (nat_of_ascii c) - 48))) else None
  | Word k => if letter c then Some (Word (k ++ String c "")) else None
  end.
Definition begin_with (c : ascii) : list token * partial :=
  if digit c then ([], Number (Z.of_nat (nat_of_ascii c) - 48)) else
  if letter c then ([KSym (String c "")], Between) else
  if Ascii.eqb c "\" then ([], Word "") else
  if Ascii.eqb c " " then ([], Between) else ([KChar c], Between).
Fixpoint tokens (p : partial) (t : text) : list token :=
  match t with
  | [] => finish p
  | c :: t' => match continue_with p c with Some p' => tokens p' t' | None => finish p ++ fst (begin_with c) ++ tokens (snd (begin_with c)) t' end
  end.

(** ** grammar, by recursive descent; [n] bounds the depth of the recursion
      sum     ::= [-] product { (+|-) product }
      product ::= factor { [\times] factor }
      factor  ::= base [ ^ { sum } ]                     (a second superscript is an error)
      base    ::= number | symbol | \frac { sum } { sum } | \sqrt { sum } | \sqrt [ sum ] { sum } | ( sum ) *)
Definition expect (c : ascii) (l : list token) : option (list token) := match l with KChar d :: r => if Ascii.eqb d c then Some r else None | _ => None end.
Definition is_char (c : ascii) (l : list token) : bool := match l with KChar d :: _ => Ascii.eqb d c | _ => false end.
Definition begins_factor (l : list token) : bool := match l with KNum _ :: _ | KSym _ :: _ | KFrac :: _ | KSqrt :: _ => true | KChar d :: _ => Ascii.eqb d "(" | _ => false end.
Fixpoint r_sum (n : nat) (l : list token) : option (formula * list token) :=
  match n with O => None | S n =>
    if is_char "-" l then match r_product n (tl l) with Some (a, r) => r_terms n (FNeg a) r | None => None end
    else match r_product n l with Some (a, r) => r_terms n a r | None => None end
  end
with r_terms (n : nat) (a : formula) (l : list token) : option (formula * list token) :=
  match n with O => None | S n =>
    if is_char "+" l then match r_product n (tl l) with Some (b, r) => r_terms n (FAdd a b) r | None => None end
    else if is_char "-" l then match r_product n (tl l) with Some (b, r) => r_terms n (FSub a b) r | None => None end
    else Some (a, l)
  end
with r_product (n : nat) (l : list token) : option (formula * list token) :=
  match n with O => None | S n => match r_factor n l with Some (a, r) => r_factors n a r | None => None end end
with r_factors (n : nat) (a : formula) (l : list token) : option (formula * list token) :=
  match n with O => None | S n =>
    match l with
    | KTimes :: r => match r_factor n r with Some (b, r') => r_factors n (FMul a b) r' | None => None end
    | _ => if begins_factor l then match r_factor n l with Some (b, r') => r_factors n (FMul a b) r' | None => None end else Some (a, l)
    end
  end
with r_factor (n : nat) (l : list token) : option (formula * list token) :=
  match n with O => None | S n =>
    match r_base n l with
    | None => None
    | Some (a, r) =>
        if is_char "^" r then match r_group n "{" "}" (tl r) with Some (b, r') => if is_char "^" r' then None else Some (FPow a b, r') | None => None end
        else Some (a, r)
    end
  end
with r_base (n : nat) (l : list token) : option (formula * list token) :=
  match n with O => None | S n =>
    match l with
    | KNum z :: r => Some (FNum z, r)
    | KSym k :: r => Some (FSym k, r)
    | KFrac :: r => match r_group n "{" "}" r with Some (a, r1) => match r_group n "{" "}" r1 with Some (b, r2) => Some (FDiv a b, r2) | None => None end | None => None end
    | KSqrt :: r =>
        if is_char "[" r then match r_group n "[" "]" r with Some (i, r1) => match r_group n "{" "}" r1 with Some (a, r2) => Some (FRoot i a, r2) | None => None end | None => None end
        else match r_group n "{" "}" r with Some (a, r1) => Some (FRoot (FNum 2) a, r1) | None => None end
    | _ => r_group n "(" ")" l
    end
  end
with r_group (n : nat) (op cl : ascii) (l : list token) : option (formula * list token) :=
  match n with O => None | S n =>
    match expect op l with
    | None => None
    | Some r => match r_sum n r with Some (a, r1) => match expect cl r1 with Some r2 => Some (a, r2) | None => None end | None => None end
    end
  end.
(** the whole text is one sum *)
Definition read_tex (n : nat) (t : text) : option formula := match r_sum n (tokens Between t) with Some (f, []) => Some f | _ => None end.
(** the reading of a text, at every sufficient depth *)
Definition means (t : text) (f : formula) : Prop := exists n, forall m, (n <= m)%nat -> read_tex m t = Some f.

(** ** what can be written in TeX *)
(** names: one letter, or at least two letters (written as a control word) other than the ones with a meaning *)
Definition tex_name (k : string) : Prop :=
  Forall (fun c => letter c = true) (list_ascii_of_string k) /\ (1 <= String.length k)%nat /\ ~ In k ["frac"; "sqrt"; "times"]%string.
(** coefficients in normal form without roots other than square roots; exponents in lowest terms *)
Definition tex_real (w : Z) (c : real) : Prop := plain_real w c /\ idx c <= 2.
Definition tex_sym (w : Z) (p : string * rat) : Prop :=
  tex_name (fst p) /\ qok (snd p) /\ num (snd p) <> 0 /\ Z.abs (num (snd p)) < 2 ^ (w - 1) /\ den (snd p) < 2 ^ (w - 1).
Definition tex_term (w : Z) (t : term) : Prop := tex_real w (tco t) /\ Forall (tex_sym w) (syms t).
Definition tex_poly (w : Z) (l : poly) : Prop := Forall (tex_term w) l.
Definition tex_frac (w : Z) (f : frac) : Prop := tex_poly w (fnum f) /\ tex_poly w (fden f).
(** the symbols below a root are positive *)
Definition roots_ok (s : string -> R) (l : poly) : Prop := Forall (fun t => Forall (fun p => den (snd p) = 1 \/ (0 < s (fst p))%R) (syms t)) l.
Definition froots_ok (s : string -> R) (f : frac) : Prop := roots_ok s (fnum f) /\ roots_ok s (fden f).
Fixpoint eroots_ok (s : string -> R) (e : expr) : Prop := match e with Leaf f => froots_ok s f | Op _ l r => eroots_ok s l /\ eroots_ok s r end.

(** ** trees.  A leaf without a denominator is printed without parentheses in a tree, whatever it is; so it has to hold together where it stands *)
(** printed as a single base: a natural number, a square root, a symbol *)
Definition base_term (t : term) : Prop :=
  positive t /\ ((syms t = [] /\ den (coe (tco t)) = 1 /\ (idx (tco t) = 1 \/ num (coe (tco t)) = 1)) \/ (tco t = rint 1 /\ exists k, syms t = [(k, Rat 1 1)])).
Definition tex_shape (p : place) (l : poly) : Prop :=
  l = [] \/ l = [term_const (rint 0)] \/
  match p with
  | Single => exists t, l = [t] /\ base_term t
  | Factors => exists t, l = [t] /\ positive t
  | Sums => exists t m, l = t :: m /\ positive t
  | Start => True
  end.
Definition tex_binds (p : place) (f : frac) : Prop := ~ undivided f \/ tex_shape p (fnum f).
(** [start]: the text of the tree begins the whole text, or follows an opening parenthesis or brace *)
Fixpoint tex_fits (w : Z) (start : bool) (e : expr) : Prop :=
  match e with
  | Leaf f => tex_frac w f
  | Op c l r =>
      is_opchar c = true /\
      match l with
      | Leaf f => tex_frac w f /\ (c = "/"%char \/ tex_binds (if is_pm c then (if start then Start else Sums) else if is_md c then Factors else Single) f)
      | Op lc _ _ => tex_fits w (if Ascii.eqb c "/" then true else (paren_l c lc || start)%bool) l
      end /\
      match r with
      | Leaf f => tex_frac w f /\ ((c = "/" \/ c = "^")%char \/ tex_binds (if Ascii.eqb c "+" then Sums else Factors) f)
      | Op rc _ _ => tex_fits w (if (Ascii.eqb c "/" || Ascii.eqb c "^")%bool then true else paren_r c rc) r
      end
  end.
