(** C35, beyond the representable factorials: what Poly::pow returns for every exponent (frac.hpp 466-500).
    Vocabulary (PolySpec.v, PolyProps.v): [pv s a] the real value of the polynomial a where the symbols have the values s; [pwf], [padm] hold of the polynomials the
    operations build and of positive values; [machine P]: widths from 2 bits, factorisations that are right, a sort that permutes. *)
From Coq Require Import ZArith QArith Qreals Reals String Ascii Lia Lra Bool List Factorial.
From Verif Require Import Base AdapterModel AdapterProofs FactorizeModel RationalModel RealModel RealSpec RealProofs8 RealProofs3 RealProofs4 PolyModel PolySpec PolyProofs1 PolyProofs2 PolyProofs3 PolyProofs4 PolyProps ExprModel RingProofs11 ParserModel CliModel PowWrapProofs.
Import ListNotations. Open Scope Z_scope.

(** a single term or a number: the power, for every exponent *)
Theorem C35_unexpanded P s a n r : machine P -> pwf (ew (pe P)) a /\ padm s a -> length a = 1%nat \/ (exists c, poly_try_eval (pe P) a = Ok (Some c)) -> 0 <= n -> poly_pow P a (Rat n 1) = Ok r ->
  pv s r = (pv s a ^ Z.to_nat n)%R.
Proof. intros M A L N H. now apply (poly_pow_unexpanded P s) in H as [_ V]. Qed.
Print Assumptions C35_unexpanded.
(** a polynomial that is not a single term or a number, to the power n >= 2: n! is taken as an integer f of w bits (n! modulo 2^w), and the result is f/n! times the power *)
Theorem C35_every_exponent P s a n r : machine P -> pwf (ew (pe P)) a /\ padm s a -> (2 <= length a)%nat -> poly_try_eval (pe P) a = Ok None -> 2 <= n -> poly_pow P a (Rat n 1) = Ok r ->
  exists f, - 2 ^ (ew (pe P) - 1) <= f < 2 ^ (ew (pe P) - 1) /\ (2 ^ ew (pe P) | Z.of_nat (fact (Z.to_nat n)) - f) /\
    pv s r = (IZR f / INR (fact (Z.to_nat n)) * pv s a ^ Z.to_nat n)%R.
Proof.
  intros M A L T N H. pose proof (machine_env _ M) as (Hw & _). apply (poly_pow_wrapped P s) in H as [_ V]; try assumption. eexists. split; [apply swrap_spec; lia|]. split; [apply swrap_spec; lia|].
  rewrite V. field. apply INR_fact_neq_0.
Qed.
Print Assumptions C35_every_exponent.
(** so it is the power exactly where n! is representable (or the value is 0) *)
Theorem C35_exactly P s a n r : machine P -> pwf (ew (pe P)) a /\ padm s a -> (2 <= length a)%nat -> poly_try_eval (pe P) a = Ok None -> 2 <= n -> poly_pow P a (Rat n 1) = Ok r ->
  (pv s r = (pv s a ^ Z.to_nat n)%R <-> Z.of_nat (fact (Z.to_nat n)) < 2 ^ (ew (pe P) - 1) \/ pv s a = 0%R).
Proof.
  intros M A L T N H. destruct (C35_every_exponent P s a n r M A L T N H) as (f & B & D & V). rewrite V. assert (NZ : INR (fact (Z.to_nat n)) <> 0%R) by apply INR_fact_neq_0.
  split.
  - intros E. destruct (Req_dec (pv s a) 0) as [Z|Z]; [now right|left]. assert (K : IZR f = INR (fact (Z.to_nat n))).
    { assert (Q : (pv s a ^ Z.to_nat n <> 0)%R) by now apply pow_nonzero. apply Rmult_eq_reg_r with (r := (pv s a ^ Z.to_nat n / INR (fact (Z.to_nat n)))%R).
      - transitivity (IZR f / INR (fact (Z.to_nat n)) * pv s a ^ Z.to_nat n)%R; [field; exact NZ|]. rewrite E. field. exact NZ.
      - unfold Rdiv. apply Rmult_integral_contrapositive. split; [exact Q|]. now apply Rinv_neq_0_compat. }
    rewrite INR_IZR_INZ in K. apply eq_IZR in K. lia.
  - intros [E|E].
    + pose proof (machine_env _ M) as (Hw & _). assert (P2 : 2 ^ ew (pe P) = 2 * 2 ^ (ew (pe P) - 1)) by (rewrite <- Z.pow_succ_r by lia; f_equal; lia). destruct D as [k D].
      assert (k = 0) by nia. assert (f = Z.of_nat (fact (Z.to_nat n))) as -> by nia. rewrite <- INR_IZR_INZ. field. exact NZ.
    + rewrite E, pow_i by lia. ring.
Qed.
Print Assumptions C35_exactly.
(** in 64 bits it is 0 from 66 on: (x + y)^66 is the polynomial 0 *)
Theorem C35_sixty_six_refuted P s a n r : machine P -> ew (pe P) = 64 -> pwf (ew (pe P)) a /\ padm s a -> (2 <= length a)%nat -> poly_try_eval (pe P) a = Ok None -> 66 <= n -> poly_pow P a (Rat n 1) = Ok r ->
  pv s r = 0%R.
Proof.
  intros M W A L T N H. apply (poly_pow_wrapped P s) in H as [_ V]; try assumption; [|lia]. rewrite V, W, swrap_0; [ring|lia|]. apply fact_66. lia.
Qed.
Print Assumptions C35_sixty_six_refuted.

(** on the command line *)
Local Definition E64 : env := std_env 64 true (fun k => Z.of_nat k * Z.of_nat k * 3 + 1) 200 0.
Local Definition F0 : fops := FOps Z (fun _ => 0) (fun _ => 0) 0 Z.add Z.sub Z.mul Z.div Z.pow (fun n => txt "~" ++ adapter_to_string n) (fun t => Throw "invalid_argument"%string) (fun r i => Ok 1).
Local Definition C0 : cenv := CEnv (PEnv E64 (isort 64)) (fun _ => Throw "invalid_argument"%string) F0 (txt "long").
Local Definition see (line : string) : string * next :=
  let r := round C0 (txt line) (CState (C := C0) [] []) in (string_of_list_ascii (printed r), then_ r).
Theorem C35_line_refuted : see "(x+y)^66" = ("symxx> 0" ++ String (ascii_of_nat 10) "", Continue None)%string /\ see "(x+y)^66+3" = ("symxx> 3" ++ String (ascii_of_nat 10) "", Continue None)%string.
Proof. split; vm_compute; reflexivity. Qed.
Print Assumptions C35_line_refuted.

(** the hypotheses are met: x + y to the powers 2 and 66, and x^40 *)
Local Definition one (k : string) : term := Term (Real 1 (Rat 1 1) (Rat 1 1)) [(k, Rat 1 1)].
Example C35_hyp_every : poly_try_eval E64 [one "x"; one "y"] = Ok None /\ length [one "x"; one "y"] = 2%nat /\ map (fun n => match poly_pow (PEnv E64 (isort 64)) [one "x"; one "y"] (Rat n 1) with Ok r => length r | _ => O end) [2; 66] = [3; 67]%nat /\ poly_pow (PEnv E64 (isort 64)) [one "x"] (Rat 40 1) = Ok [Term (Real 1 (Rat 1 1) (Rat 1 1)) [("x"%string, Rat 40 1)]].
Proof. vm_compute. auto. Qed.
