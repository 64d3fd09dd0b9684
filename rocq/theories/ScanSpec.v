(** Vocabulary of the theorems on the readers of text (C82). *)
From Coq Require Import ZArith NArith String Ascii List.
From Verif Require Import Base ParserModel ScanModel.
Import ListNotations.
Open Scope Z_scope.

(** a byte that is negative as a signed char *)
Definition high (c : ascii) : Prop := (128 <= N_of_ascii c)%N.
(** x stays inside the text s and does what r does, unless it comes across a high byte of s *)
Definition reads_as {A} (s : list ascii) (x : scan A) (r : res A) : Prop := x = Scan r \/ x = BadChar /\ Exists high s.
