(** C87: sessions with double arithmetic.  Vocabulary: CliLiftSpec.v ([runs_on], [lost], [powerless_text]), LiftSpec.v ([exact_machine], [sorts_alike], [sorts_same]), DblSpec.v ([good_double], [agrees]).
    [mainloop_d M C i n s] is what [n] rounds of the loop print with the doubles of the machine [M], how the last one ends, and the members afterwards; [mainloop C i n s] is the same with
    exact arithmetic, about which C49, C50, C62-C64, C78 speak. *)
From Coq Require Import ZArith QArith String Ascii Lia Bool List.
From Verif Require Import Base AdapterModel FactorizeModel RationalModel RealModel RealSpec RealProofs6 PolyModel PolySpec PolyProps ExprModel ParserModel CliModel DecModel NumModel DblModel DblSpec DblProofs1 DblProofs2 DblProps LiftModel LiftSpec LiftProofs LiftProofs2 LiftProps CliLiftModel CliLiftSpec CliLiftProofs CliLiftProofs2 CliLiftProofs3.
Import ListNotations.
Open Scope Z_scope.

(** a session with doubles is the session with exact arithmetic, unless the latter has run into undefined behaviour: the same output, the same ending, the same functions and constants *)
Theorem C87_session M C sort i n (s : cstate C) : runs_on M C sort -> good_double (dpe M) -> sorts_alike sort M -> ~ lost (mainloop C i n s) -> mainloop_d M C i n s = mainloop C i n s.
Proof. intros HC G HS L. destruct (mainloop_lift M C sort HC G HS i n s) as [H|H]; [contradiction|exact H]. Qed.
Print Assumptions C87_session.
(** and so is every round: a line that is no undefined behaviour prints the same, ends the same and leaves the same members *)
Theorem C87_line M C sort line (s : cstate C) : runs_on M C sort -> good_double (dpe M) -> sorts_alike sort M ->
  (forall why, then_ (round C line s) <> Undefined why) -> then_ (round C line s) <> Hang -> round_d M C line s = round C line s.
Proof. intros HC G HS U H. pose proof (round_lift M C sort HC G HS line s) as K. destruct (then_ (round C line s)) as [err| |m|why|]; try exact K; [now destruct (U why)|contradiction]. Qed.
Print Assumptions C87_line.
(** and the members the program starts with *)
Theorem C87_start M C sort pi e phi egamma : runs_on M C sort -> good_double (dpe M) -> sorts_alike sort M -> agrees (boot C pi e phi egamma) (boot_d M C pi e phi egamma).
Proof. exact (fun HC G HS => boot_lift M C sort HC G HS pi e phi egamma). Qed.
Print Assumptions C87_start.

(** where no power is written nothing is computed with doubles, and the commands do the same, undefined behaviour included, whatever std::pow is; tex never computes with doubles *)
Theorem C87_exact M C sort body (s : cstate C) : runs_on M C sort -> 2 <= ew (de (dpe M)) -> efac (de (dpe M)) 1 = Ok [] -> sorts_same sort M ->
  cmd_tex_d M C body s = cmd_tex C body s /\
  (powerless_text body -> cmd_normalize_d M C body s = cmd_normalize C body s /\ cmd_ntex_d M C body s = cmd_ntex C body s /\ cmd_factor_d M C body s = cmd_factor C body s).
Proof.
  intros HC W F HS. split; [exact (cmd_tex_same M C sort HC W F HS body s)|]. intros T. pose proof (fun e => parse_powerless (PEnv (de (dpe M)) sort) (cdec C) body e T) as N.
  split; [exact (cmd_normalize_same M C sort HC W F HS body N s)|]. split; [exact (cmd_ntex_same M C sort HC W F HS body N s)|exact (cmd_factor_same M C sort HC W F HS body N s)].
Qed.
Print Assumptions C87_exact.

(** ** cases: 64 bits, a correctly rounded pow; the "long double" of the example only counts *)
Local Definition E64 : env := std_env 64 true (fun k => Z.of_nat k * Z.of_nat k * 3 + 1) 200 0.
Local Definition X64 : denv := DEnv E64 nearest_pow x87.
Local Definition M64 : dpenv := DPEnv X64 (isort_d X64).
Local Definition F0 : fops := FOps Z (fun _ => 0) (fun _ => 0) 0 Z.add Z.sub Z.mul Z.div Z.pow (fun n => txt "~" ++ adapter_to_string n) (fun t => Throw "invalid_argument") (fun r i => Ok 1).
Local Definition half_only (t : text) : res rat := if String.eqb (string_of_list_ascii t) "0.5" then Ok (Rat 1 2) else Throw "decimal".
Local Definition C64 : cenv := CEnv (exact_machine (isort 64) M64) half_only F0 (txt "long").
Local Definition zero : D (cf C64) := 0.
Local Definition start : res (cstate C64) := boot_d M64 C64 zero zero zero zero.
Local Definition played (lines : list string) (s : cstate C64) : text * next * cstate C64 := loop_d M64 C64 (Input (map txt lines) []) 0 (length lines) s.
Local Definition shown (x : text * next * cstate C64) : string * next := (string_of_list_ascii (fst (fst x)), snd (fst x)).
Local Definition from (r : res (cstate C64)) (lines : list string) : string * next := match r with Ok s => shown (played lines s) | _ => (""%string, Hang) end.
Local Definition session (lines : list string) : string * next := from start lines.
Example C87_hyp : runs_on M64 C64 (isort 64) /\ good_double (dpe M64) /\ sorts_alike (isort 64) M64 /\ sorts_same (isort 64) M64 /\ efac (de (dpe M64)) 1 = Ok [] /\ 2 <= ew (de (dpe M64)) /\
  powerless_text (txt "9007199254740993*x-y/3") /\
  (forall s, ~ lost (mainloop C64 (Input [txt "func f(x)=x^2+1"; txt "f(12)"; txt "quit"] []) 3 (CState (C := C64) [] s))).
Proof.
  assert (G : good_double X64) by exact (conj (proj1 Xd_good) (proj2 Xd_good)). destruct (C86_sorts X64) as [A B].
  split; [reflexivity|]. split; [exact G|]. split; [exact (A G)|]. split; [apply B; cbn; lia|]. split; [vm_compute; reflexivity|]. split; [cbn; lia|]. split.
  - split; [cbn; intuition discriminate|]. split; [cbn; intuition discriminate|]. intros a b. do 23 (destruct a as [|? a]; [discriminate|]; cbn [app]; try (intros K; injection K as _ K; revert K)). cbn. discriminate.
  - intros s. unfold lost. vm_compute. tauto.
Qed.
Example C87_functions : session ["func f(x)=x^2+1"; "f(12)"; "fib(6)"; "9007199254740993*x-y/3"; "quit"]%string =
("symxx> Function: f(x) = (x**2)+1
symxx> 145
symxx> 8
symxx> (-y+27021597764222979x)/3
symxx> ", Quit)%string.
Proof. vm_compute. reflexivity. Qed.
(** where the exact model speaks of undefined behaviour (a power above 2^53) the program prints a number: 3^34 = 16677181699666569 *)
Theorem C87_power_refuted : session ["3^34"]%string = ("symxx> 16677181699666568
", Continue None)%string /\ 3 ^ 34 = 16677181699666569.
Proof. split; vm_compute; reflexivity. Qed.
Print Assumptions C87_power_refuted.
