(** Outcome monad and machine-integer helpers shared by all models.

    [Ok v]     : the C++ function returns [v].
    [Throw m]  : it throws symxx::Error (or a std exception) with message [m]
                 (include/symxx/error.hpp 45-69: [symxx_assert] / [symxx_unreachable] throw [Error]).
    [Ub w]     : it executes undefined behaviour described by [w]; nothing after it is constrained.
    [Fuel]     : the model ran out of the explicit fuel given to a C++ loop/recursion; never a result. *)
From Coq Require Import ZArith String Lia Bool List.
Import ListNotations.
Open Scope Z_scope.

Inductive res (A : Type) : Type :=
| Ok (a : A)
| Throw (msg : string)
| Ub (why : string)
| Fuel.
Arguments Ok {A} a.
Arguments Throw {A} msg.
Arguments Ub {A} why.
Arguments Fuel {A}.

Definition bind {A B} (x : res A) (f : A -> res B) : res B :=
  match x with
  | Ok a => f a
  | Throw m => Throw m
  | Ub w => Ub w
  | Fuel => Fuel
  end.

Notation "x <- e ;; f" := (bind e (fun x => f))
  (at level 61, e at next level, right associativity).
Notation "' pat <- e ;; f" := (bind e (fun pat => f))
  (at level 61, pat pattern, e at next level, right associativity).

Definition is_ok {A} (x : res A) : bool := match x with Ok _ => true | _ => false end.
Definition is_throw {A} (x : res A) : bool := match x with Throw _ => true | _ => false end.
Definition is_ub {A} (x : res A) : bool := match x with Ub _ => true | _ => false end.

(** Modular casts: uint32_t, uint64_t, int32_t, int64_t (C++20: two's complement, conversions are modular). *)
Definition u32 (x : Z) : Z := x mod 2 ^ 32.
Definition u64 (x : Z) : Z := x mod 2 ^ 64.
Definition swrap (w x : Z) : Z :=
  let y := x mod 2 ^ w in if y <? 2 ^ (w - 1) then y else y - 2 ^ w.
Definition uwrap (w x : Z) : Z := x mod 2 ^ w.

(** error.hpp 58: the message of division-by-zero errors. *)
Definition division_by_zero : string := "Division by zero".
