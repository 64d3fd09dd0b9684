(** C82: the readers of text stay inside the text and, on text of 7-bit characters, inside what <cctype> allows.
    [tokens_at], [func_at], [constant_at], [call_at], [call_args], [line_at], [huge_at] (ScanModel.v) are the readers with their positions: every s[i] is checked against the length, every call of a <cctype> function against the sign of its char.
    [reads_as s x r] (ScanSpec.v): x is the outcome r of the reader without positions, or x met a byte of s above 127 in a <cctype> call; never an access outside. *)
From Coq Require Import ZArith NArith String Ascii Lia Bool List.
From Verif Require Import Base AdapterModel HugeModel RationalModel RealModel RealSpec PolyModel ExprModel ParserModel CliModel TextSpec ScanModel ScanSpec ScanProofs1 ScanProofs2 ScanProofs3.
Import ListNotations.
Open Scope Z_scope.

(** the tokens of an expression *)
Theorem C82_tokens P dec raw : reads_as raw (tokens_at P dec raw) (get_all_tokens P dec raw).
Proof. exact (tokens_ok P dec raw). Qed.
(** the body of func: name, arguments and text of the definition, as the command uses them *)
Theorem C82_func C body : exists r, reads_as body (func_at body) r /\
  read_func C body = ('(n, a, d) <- r ;; e <- parse_normal C d ;; Ok (string_of_list_ascii n, (map string_of_list_ascii a, e))).
Proof. exists (func_parts body). split; [exact (func_at_ok body)|exact (read_func_parts C body)]. Qed.
(** the body of constant *)
Theorem C82_constant C body : exists r, reads_as body (constant_at body) r /\ read_constant C body = ('(k, v) <- r ;; x <- d_read (cf C) v ;; Ok (string_of_list_ascii k, x)).
Proof. exists (constant_parts body). split; [exact (constant_at_ok body)|exact (read_constant_parts C body)]. Qed.
(** the arguments of a call *)
Theorem C82_arguments C t : reads_as t (call_args C t []) (read_args C t []).
Proof. exact (call_args_ok C t). Qed.
(** the line into command word and body, and a call into name and arguments: no access outside, substr never throws, no <cctype> *)
Theorem C82_line str : line_at str = Scan (Ok (split_line str)).
Proof. exact (line_at_ok str). Qed.
Theorem C82_call C cmd line s : exists r, call_at cmd = Scan (Ok r) /\
  evaluate C line cmd s = match r with Some (name, args) => if has (string_of_list_ascii name) (funcs s) then cmd_call C (string_of_list_ascii name) args s else cmd_normalize C line s | None => cmd_normalize C line s end.
Proof.
  exists (match find_char "(" cmd with Some (name, rest) => match find_char ")" rest with Some (a, _) => Some (name, a) | None => None end | None => None end).
  split; [exact (call_at_ok cmd)|]. unfold evaluate. destruct (find_char "(" cmd) as [[n r]|]; [|reflexivity]. destruct (find_char ")" r) as [[a b]|]; reflexivity.
Qed.
(** Huge from text *)
Theorem C82_huge s : reads_as s (huge_at s) (huge_of_string s).
Proof. exact (huge_at_ok s). Qed.
(** nothing is ever read outside the text *)
Theorem C82_inside P dec C s : tokens_at P dec s <> Outside /\ func_at s <> Outside /\ constant_at s <> Outside /\ call_args C s [] <> Outside /\ call_at s <> Outside /\ line_at s <> Outside /\ huge_at s <> Outside.
Proof.
  assert (G : forall A (x : scan A) r, reads_as s x r -> x <> Outside) by (intros A x r [->|[-> _]]; discriminate).
  split; [exact (G _ _ _ (tokens_ok P dec s))|]. split; [exact (G _ _ _ (func_at_ok s))|]. split; [exact (G _ _ _ (constant_at_ok s))|]. split; [exact (G _ _ _ (call_args_ok C s))|].
  split; [rewrite call_at_ok; discriminate|]. split; [rewrite line_at_ok; discriminate|exact (G _ _ _ (huge_at_ok s))].
Qed.
(** text of 7-bit characters never makes a bad call *)
Theorem C82_ascii P dec C s : Forall (fun c => (N_of_ascii c < 128)%N) s ->
  tokens_at P dec s = Scan (get_all_tokens P dec s) /\ func_at s <> BadChar /\ constant_at s <> BadChar /\ call_args C s [] = Scan (read_args C s []) /\ huge_at s = Scan (huge_of_string s).
Proof.
  intros F. assert (G : forall A (x : scan A) r, reads_as s x r -> x = Scan r).
  { intros A x r [->|[_ X]]; [reflexivity|]. exfalso. apply Exists_exists in X as (c & I & X). rewrite Forall_forall in F. specialize (F c I). unfold high in X. lia. }
  split; [exact (G _ _ _ (tokens_ok P dec s))|]. split; [rewrite (G _ _ _ (func_at_ok s)); discriminate|]. split; [rewrite (G _ _ _ (constant_at_ok s)); discriminate|]. split; [exact (G _ _ _ (call_args_ok C s))|exact (G _ _ _ (huge_at_ok s))].
Qed.
(** with other characters it can, but an expression that is accepted and has no radical sign was read without one (such characters stand between braces) *)
Theorem C82_accepted P dec raw l : ~ In "_"%char raw -> get_all_tokens P dec raw = Ok l -> tokens_at P dec raw = Scan (Ok l).
Proof. exact (accepted P dec raw l). Qed.
(** every expression that begins with such a character makes a bad call *)
Theorem C82_first_byte P dec c s : (128 <= N_of_ascii c)%N -> tokens_at P dec (c :: s) = BadChar.
Proof. exact (first_byte P dec c s). Qed.

Local Definition E64 : env := std_env 64 true (fun k => Z.of_nat k * Z.of_nat k * 3 + 1) 200 0.
Local Definition P64 : penv := PEnv E64 (isort 64).
Local Definition dec (s : text) : res rat := Throw "decimal".
(** behind the index of a radical any character is skipped, but tested first: an accepted expression with a bad call *)
Theorem C82_radical_refuted : exists raw l, get_all_tokens P64 dec raw = Ok l /\ tokens_at P64 dec raw = BadChar.
Proof. exists ["_"; "2"; "255"; "9"]%char. eexists. split; vm_compute; reflexivity. Qed.
(** Huge reads a text with such a character in front of the number, as 5 *)
Theorem C82_huge_refuted : exists s h, huge_of_string s = Ok h /\ huge_at s = BadChar.
Proof. exists ["255"; "5"]%char, (mkHuge [5] true). split; vm_compute; reflexivity. Qed.

(** letters of other alphabets between braces: {e'}^2 as UTF-8 *)
Local Definition utf8 : text := ["{"; "195"; "169"; "}"; "^"; "2"]%char.
Example C82_ex_accepted : ~ In "_"%char utf8 /\ Exists high utf8 /\ exists l, get_all_tokens P64 dec utf8 = Ok l /\ tokens_at P64 dec utf8 = Scan (Ok l).
Proof. split; [cbn; intuition discriminate|]. split; [right; left; vm_compute; discriminate|]. eexists. split; vm_compute; reflexivity. Qed.
(** the ends of the text: a lone radical sign, an open brace, a number at the end, a func without '=' *)
Example C82_ex_ends : tokens_at P64 dec (txt "_") = Scan (get_all_tokens P64 dec (txt "_")) /\ tokens_at P64 dec (txt "2{ab") = Scan (get_all_tokens P64 dec (txt "2{ab")) /\
  tokens_at P64 dec (txt "_3") = Scan (get_all_tokens P64 dec (txt "_3")) /\ func_at (txt "f(x, y)  ") = Scan (Throw "Expected '='.") /\
  func_at (txt "f(x, y) = x-y") = Scan (Ok (txt "f", [txt "x"; txt "y"], txt " x-y")) /\ constant_at (txt "k =7") = Scan (Ok (txt "k", txt "7")) /\
  call_at (txt "f(1,2)") = Scan (Ok (Some (txt "f", txt "1,2"))) /\ line_at (txt "func f(x)=x") = Scan (Ok (txt "func", txt "f(x)=x")) /\
  huge_at (txt "ab-12345678901 c") = Scan (huge_of_string (txt "ab-12345678901 c")) /\ huge_at [] = Scan (Throw "Invaild string.").
Proof. repeat (apply conj; [vm_compute; reflexivity|]). vm_compute. reflexivity. Qed.

Print Assumptions C82_tokens.
Print Assumptions C82_func.
Print Assumptions C82_constant.
Print Assumptions C82_arguments.
Print Assumptions C82_line.
Print Assumptions C82_call.
Print Assumptions C82_huge.
Print Assumptions C82_inside.
Print Assumptions C82_ascii.
Print Assumptions C82_accepted.
Print Assumptions C82_first_byte.
Print Assumptions C82_radical_refuted.
Print Assumptions C82_huge_refuted.
