(** Vocabulary of the theorems about the command line with double arithmetic. *)
From Coq Require Import ZArith QArith String Ascii Bool List.
From Verif Require Import Base PolyModel ExprModel CliModel DecModel NumModel DblModel LiftModel LiftSpec.
Import ListNotations.
Open Scope Z_scope.

(** the session [x] (what was printed, how the last round ended, the members) has run into undefined behaviour or an endless computation *)
Definition lost {C} (x : text * next * cstate C) : Prop := match snd (fst x) with Undefined _ | Hang => True | _ => False end.
(** a std::sort and machine of the exact models for the command line [C] on the machine [M] *)
Definition runs_on (M : dpenv) (C : cenv) (sort : poly -> res poly) : Prop := cp C = exact_machine sort M.
(** a text in which no power can be written: no '^', no "**" and no '_' (which writes a root) *)
Definition powerless_text (t : text) : Prop := ~ In "^"%char t /\ ~ In "_"%char t /\ forall a b, t <> a ++ ["*"; "*"]%char ++ b.
