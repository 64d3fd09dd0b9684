(** Vocabulary of the theorems on the symbols of an expression (C73). *)
From Coq Require Import ZArith String Ascii Bool List Sorted.
From Verif Require Import Base RationalModel RealModel PolyModel ExprModel ParserModel.
Import ListNotations.
Open Scope Z_scope.

(** the symbol k occurs in a term, polynomial, fraction, tree *)
Definition tmentions (k : string) (t : term) : Prop := In k (map fst (syms t)).
Definition pmentions (k : string) (l : poly) : Prop := Exists (tmentions k) l.
Definition fmentions (k : string) (f : frac) : Prop := pmentions k (fnum f) \/ pmentions k (fden f).
Fixpoint mentions (k : string) (e : expr) : Prop := match e with Leaf f => fmentions k f | Op _ l r => mentions k l \/ mentions k r end.
(** the symbols of each term are the keys of a std::map: ascending, each once *)
Definition ascending (m : smap) : Prop := StronglySorted (fun a b => String.compare (fst a) (fst b) = Lt) m.
Definition fmaps (f : frac) : Prop := Forall (fun t => ascending (syms t)) (fnum f) /\ Forall (fun t => ascending (syms t)) (fden f).
Fixpoint maps (e : expr) : Prop := match e with Leaf f => fmaps f | Op _ l r => maps l /\ maps r end.
(** how a name is written in the input: a letter as it is, any name after '{', up to '}' or the end *)
Definition occurs (k : string) (t : text) : Prop :=
  (exists c, k = String c EmptyString /\ is_alpha c = true /\ In c t) \/
  (exists a b, t = a ++ txt "{" ++ txt k ++ b /\ (b = [] \/ hd_error b = Some "}"%char)).
