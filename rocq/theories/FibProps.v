(** C88: the built-in function fib *)
From Coq Require Import ZArith Znumtheory QArith Qreals Reals String Ascii Lia Lra Bool List Factorial.
From Verif Require Import Base AdapterModel FactorizeModel RationalModel RealModel RealSpec PolyModel PolySpec PolyProps ExprModel ExprSpec RealProofs8 AdapterProofs ParserModel CliModel CliSpec CliProofs1 CliProofs4 CliProps TextSpec TextProofs1 TextProofs2 RingProofs11 DecModel NumModel DblModel DblSpec LiftModel LiftSpec LiftProps CliLiftModel CliLiftSpec CliLiftProps FibSpec FibProofs.
Import ListNotations. Open Scope Z_scope.

(** As long as the state holds the fib the program starts with, a call fib(u) with u read as the integer n >= 0, n! representable, either ends in an exception, in
    undefined behaviour or out of fuel, or prints a number whose value is the n-th Fibonacci number (and which is printed without a division by zero). *)
Theorem C88_fib C (s : cstate C) t u n : machine (cp C) -> reads (cp C) -> mget "fib" (funcs s) = Some (["n"%string], fib_tree) ->
  pieces t [u] -> argument_value C u (rint n) -> 0 <= n -> Z.of_nat (fact (Z.to_nat n)) < 2 ^ (ew (pe (cp C)) - 1) -> fin (cmd_call C "fib" t s) = Ok tt ->
  exists f v rest, expr_to_string (pe (cp C)) (Leaf f) = Ok v /\ out (cmd_call C "fib" t s) = v ++ rest /\
    forall x, pv x (fden f) <> 0%R /\ fv x f = IZR (fib (Z.to_nat n)).
Proof.
  intros M R G PC AV N F E. unfold cmd_call in *. rewrite (proj2 (read_args_iff C t [rint n])) in * by (exists [u]; split; [assumption|repeat constructor; assumption]).
  cbn [run] in *. rewrite G in *. cbn [length Nat.eqb combine fold_left fst snd mput] in *.
  destruct (expr_subst (cp C) [("n"%string, rint n)] fib_tree) as [e|m|m|] eqn:S; cbn [run stop fin] in E; try discriminate. cbn [run].
  destruct (fib_subst (cp C) M R n e N F S) as (f & -> & V). apply print_result_shown in E. cbn [run]. destruct E as (e' & v & NE & T & H). cbn [expr_normalize] in NE. injection NE as <-.
  destruct H as [[H _]|(x & _ & _ & H)]; exists f, v; eexists; (split; [exact T|]); (split; [exact H|]); intros y; destruct (V y); now split.
Qed.
Print Assumptions C88_fib.
(** the same as a line of a session: fib(...) with the decimal digits of n *)
Definition fib_line (n : Z) : text := txt "fib(" ++ numeral n ++ txt ")".
Lemma digits_lack n c : 0 <= n -> (nat_of_ascii c < 48 \/ 57 < nat_of_ascii c)%nat -> lacks c (numeral n).
Proof. intros N C I. pose proof (numeral_no n c N C) as F. rewrite Forall_forall in F. specialize (F c I). now rewrite Ascii.eqb_refl in F. Qed.
Lemma digits_piece n : 0 <= n -> pieces (numeral n) [numeral n].
Proof.
  intros N. destruct (numeral_spec n N) as ((NE & _) & _). split.
  - constructor; [|constructor]. split; [exact NE|]. apply digits_lack; [assumption|cbn; lia].
  - left. cbn [joined]. unfold unspaced. assert (F : forall l, Forall (fun c => is_space c = false) l -> filter (fun c => negb (is_space c)) l = l) by (induction 1 as [|c l H F IH]; [reflexivity|]; cbn [filter]; rewrite H; cbn [negb]; now rewrite IH).
    apply F, Forall_forall. intros c I. destruct (is_space c) eqn:E; [|reflexivity]. exfalso.
    apply (digits_lack n c N); [|exact I]. clear - E. destruct c as [[] [] [] [] [] [] [] []]; try discriminate E; cbn; lia.
Qed.
Lemma digits_value C n : reads (cp C) -> 0 <= n < 2 ^ (ew (pe (cp C)) - 1) -> argument_value C (numeral n) (rint n).
Proof. intros R N. exists (Rat n 1). split; [now apply (numeral_rat (cp C))|]. apply (make_int (cp C) R). lia. Qed.
Theorem C88_line C (s : cstate C) n : machine (cp C) -> reads (cp C) -> mget "fib" (funcs s) = Some (["n"%string], fib_tree) ->
  0 <= n -> Z.of_nat (fact (Z.to_nat n)) < 2 ^ (ew (pe (cp C)) - 1) -> then_ (round C (fib_line n) s) = Continue None ->
  exists f v rest, expr_to_string (pe (cp C)) (Leaf f) = Ok v /\ printed (round C (fib_line n) s) = prompt ++ v ++ rest /\
    forall x, pv x (fden f) <> 0%R /\ fv x f = IZR (fib (Z.to_nat n)).
Proof.
  intros M R G N F E. assert (NB : 0 <= n < 2 ^ (ew (pe (cp C)) - 1)).
  { split; [lia|]. eapply Z.le_lt_trans; [|exact F]. assert (forall k, (k <= fact k)%nat) as K. { induction k as [|k IH]; [cbn; lia|]. cbn [fact]. pose proof (lt_O_fact k). nia. } specialize (K (Z.to_nat n)). lia. }
  assert (LB : lacks " " (fib_line n)). { unfold fib_line. intros I. apply in_app_or in I as [I|I]; [cbn in I; intuition discriminate|]. apply in_app_or in I as [I|I]; [|cbn in I; intuition discriminate]. revert I. apply digits_lack; [assumption|cbn; lia]. }
  assert (D : dispatch C (fib_line n) s = Some (cmd_call C "fib" (numeral n) s)).
  { unfold dispatch, split_line. rewrite (proj2 (find_none _ _) LB). cbv zeta.
    assert (W : Forall (fun k => is_cmd (fib_line n) k = false) ["normalize"; "tex"; "ntex"; "func"; "constant"; "print"; "factor"; "version"; "quit"]%string) by (repeat constructor).
    repeat match goal with W : Forall _ (_ :: _) |- _ => let W1 := fresh in inversion W as [|? ? W1 ?]; subst; clear W; rewrite W1 end.
    unfold evaluate. assert (F1 : find_char "(" (fib_line n) = Some (txt "fib", numeral n ++ txt ")")) by (apply find_some; split; [reflexivity|]; intros I; cbn in I; intuition discriminate).
    assert (F2 : find_char ")" (numeral n ++ txt ")") = Some (numeral n, [])) by (apply find_some; split; [reflexivity|]; apply digits_lack; [assumption|cbn; lia]).
    rewrite F1, F2. change (string_of_list_ascii (txt "fib")) with "fib"%string. assert (HH : has "fib" (funcs s) = true) by (unfold has; match goal with |- context [mget ?k ?m] => change (mget k m) with (mget "fib" (funcs s)) end; now rewrite G). rewrite !follow_say, HH. reflexivity. }
  unfold round in *. rewrite D in *. cbn [printed then_] in *.
  destruct (fin (cmd_call C "fib" (numeral n) s)) as [[]|m|m|] eqn:FE; try (destruct (is_std m)); try discriminate.
  destruct (C88_fib C s (numeral n) (numeral n) n M R G (digits_piece n N) (digits_value C n R NB) N F FE) as (f & v & rest & T & O & V). exists f, v, rest. split; [exact T|]. split; [now rewrite O|exact V].
Qed.
Print Assumptions C88_line.
(** and with the doubles of the machine: where the exact computation succeeds, fib prints the same *)
Theorem C88_doubles M C sort (s : cstate C) n : runs_on M C sort -> good_double (dpe M) -> sorts_alike sort M -> machine (cp C) -> reads (cp C) -> mget "fib" (funcs s) = Some (["n"%string], fib_tree) ->
  0 <= n -> Z.of_nat (fact (Z.to_nat n)) < 2 ^ (ew (pe (cp C)) - 1) -> then_ (round C (fib_line n) s) = Continue None ->
  exists f v rest, expr_to_string (pe (cp C)) (Leaf f) = Ok v /\ printed (round_d M C (fib_line n) s) = prompt ++ v ++ rest /\
    forall x, pv x (fden f) <> 0%R /\ fv x f = IZR (fib (Z.to_nat n)).
Proof.
  intros HC G HS MA R F N B E. rewrite (C87_line M C sort (fib_line n) s HC G HS) by (rewrite E; discriminate). now apply C88_line.
Qed.
Print Assumptions C88_doubles.

(** ** the program of the examples: 64 bits *)
Local Definition E64 : env := std_env 64 true (fun k => Z.of_nat k * Z.of_nat k * 3 + 1)%Z 200 0.
Local Definition P64 : penv := PEnv E64 (isort 64).
Local Definition dec (s : text) : res rat := if String.eqb (string_of_list_ascii s) "0.5" then Ok (Rat 1 2) else Throw "invalid_argument".
Local Definition F0 : fops := FOps Z (fun _ => 0) (fun _ => 0) 0 Z.add Z.sub Z.mul Z.div Z.pow (fun n => txt "~" ++ adapter_to_string n) (fun t => Throw "invalid_argument") (fun r i => Ok 1).
Local Definition C0 : cenv := CEnv P64 dec F0 (txt "long").
Local Definition started (r : res (cstate C0)) : cstate C0 := match r with Ok s => s | _ => CState (C := C0) [] [] end.
Local Definition s0 : cstate C0 := started (boot C0 0 0 0 0).
(** the state the program starts with holds fib_tree *)
Theorem C88_start : boot C0 0 0 0 0 = Ok s0 /\ mget "fib" (funcs s0) = Some (["n"%string], fib_tree).
Proof.
  assert (K : (match boot C0 0 0 0 0 with Ok s => mget "fib" (funcs s) | _ => None end) = Some (["n"%string], fib_tree)) by (vm_compute; reflexivity).
  unfold s0. destruct (boot C0 0 0 0 0) as [s|m|m|]; try discriminate. split; [reflexivity|exact K].
Qed.
Print Assumptions C88_start.
Example C88_example_hypotheses : machine (cp C0) /\ reads (cp C0) /\ (0 <= 6 /\ Z.of_nat (fact (Z.to_nat 6)) < 2 ^ (ew (pe (cp C0)) - 1)) /\ then_ (round C0 (fib_line 6) s0) = Continue None.
Proof. split; [exact (proj1 (C34_standard_machine 64 true _ 200 0 ltac:(lia)))|]. split; [apply std_reads; lia|]. split; [split; [lia|vm_compute; reflexivity]|vm_compute; reflexivity]. Qed.
Example C88_example : map (fun n => string_of_list_ascii (printed (round C0 (fib_line n) s0))) [0; 1; 2; 3; 9] =
  map (fun n => "symxx> " ++ n ++ String (ascii_of_nat 10) "")%string ["0"; "1"; "1"; "2"; "34"]%string /\ map (fun n => fib (Z.to_nat n)) [0; 1; 2; 3; 9] = [0; 1; 1; 2; 34].
Proof. split; vm_compute; reflexivity. Qed.
(** beyond: with the doubles of 64 bits (a correctly rounded pow, the modelled factorize) fib(10) is 55, and from 11 on long overflows *)
Local Definition E1 : env := Env 64 (fun n => '(l, _) <- factorize 64 true (fun k => Z.of_nat k * Z.of_nat k * 3 + 1) 3000 n nil 0 ;; Ok l) 0.
Local Definition M1 : dpenv := DPEnv (DEnv E1 nearest_pow x87) (isort_d (DEnv E1 nearest_pow x87)).
Local Definition C1 : cenv := CEnv (exact_machine (isort 64) M1) dec F0 (txt "long").
Theorem C88_overflow_refuted : forall consts, let s := CState (C := C1) [("fib"%string, (["n"%string], fib_tree))] consts in
  (printed (round_d M1 C1 (fib_line 10) s), then_ (round_d M1 C1 (fib_line 10) s)) = (txt "symxx> 55" ++ newline, Continue None) /\
  then_ (round_d M1 C1 (fib_line 11) s) = Undefined "signed overflow" /\ then_ (round_d M1 C1 (fib_line 20) s) = Undefined "signed overflow".
Proof. intros c s. split; [vm_compute; reflexivity|]. split; vm_compute; reflexivity. Qed.
Print Assumptions C88_overflow_refuted.
