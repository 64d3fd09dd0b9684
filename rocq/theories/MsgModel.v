(** error.hpp and utils.hpp: error texts, assertions, the name of a type. *)
From Coq Require Import ZArith String Ascii Bool List.
From Verif Require Import Base AdapterModel.
Import ListNotations.
Open Scope Z_scope.

Definition mtext := list ascii.
Definition mtxt (s : string) : mtext := list_ascii_of_string s.
Definition esc : ascii := ascii_of_nat 27.

(** std::experimental::source_location: file_name, line, function_name *)
Record location := Loc { lfile : mtext; lline : Z; lfunc : mtext }.
(** error.hpp 21-25 location_to_str *)
Definition location_to_str (l : location) : mtext := lfile l ++ mtxt ":" ++ adapter_to_string (lline l) ++ mtxt ":" ++ lfunc l ++ mtxt "()".
(** error.hpp 27-40 class Error: logic_error(detail_), location, detail *)
Record error := Error { ewhat : mtext; elocation : mtext; edetail : mtext }.
Definition error_make (detail : mtext) (l : location) : error := Error detail (location_to_str l) detail.
(** 42-45 get_content *)
Definition get_content (e : error) : mtext := esc :: mtxt "[0;32;31mError: " ++ esc :: mtxt "[m" ++ elocation e ++ mtxt ":" ++ esc :: mtxt "[m " ++ edetail e.
(** 48-51 operator== *)
Definition error_eq (a b : error) : bool := if list_eq_dec ascii_dec (edetail a) (edetail b) then true else false.
(** 54-58 symxx_unreachable, 62-71 symxx_assert: the Error thrown, if any *)
Definition symxx_unreachable (detail : mtext) (l : location) : option error := Some (error_make (mtxt "Unreachable code: " ++ detail) l).
Definition symxx_assert (b : bool) (detail : mtext) (l : location) : option error := if b then None else Some (error_make detail l).

(** std::string_view::find_first_of(c), find_last_of(c): npos = 2^64 - 1 *)
Definition npos : Z := 2 ^ 64 - 1.
Fixpoint find_first_from (i : Z) (c : ascii) (s : mtext) : Z :=
  match s with [] => npos | x :: s' => if Ascii.eqb x c then i else find_first_from (i + 1) c s' end.
Definition find_first_of (c : ascii) (s : mtext) : Z := find_first_from 0 c s.
Fixpoint find_last_from (i : Z) (best : Z) (c : ascii) (s : mtext) : Z :=
  match s with [] => best | x :: s' => find_last_from (i + 1) (if Ascii.eqb x c then i else best) c s' end.
Definition find_last_of (c : ascii) (s : mtext) : Z := find_last_from 0 npos c s.
(** substr(pos, count): out_of_range if pos > size *)
Definition substr (s : mtext) (pos count : Z) : res mtext :=
  if Z.of_nat (length s) <? pos then Throw "out_of_range"
  else Ok (firstn (Z.to_nat (Z.min count (Z.of_nat (length s) - pos))) (skipn (Z.to_nat pos) s)).
(** utils.hpp 25-31 nameof, of the compiler's function_name() *)
Definition nameof (str : mtext) : res mtext :=
  let b := find_first_of "<" str in let e := find_last_of ">" str in
  substr str (u64 (b + 1)) (u64 (e - b - 1)).
