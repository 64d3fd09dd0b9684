(** C78: the text of a simplified polynomial expression is a fixed point of simplification: typed in again, it is answered with itself.
    Vocabulary: RingSpec.v ([polynomial], [weight], [degree], as for C70), RingProps.v ([simplifies_to], [typeset_as]). *)
From Coq Require Import ZArith Reals String Ascii Lia Bool List Sorted.
From Verif Require Import Base AdapterModel FactorizeModel RationalModel RationalSpec RealModel RealSpec RealProofs6 PolyModel PolySpec PolyProofs6 ExprModel ExprSpec ParserModel ParserSpec TextSpec TextProofs1 PrintSpec RingSpec RingProofs4 RingProofs11 RingProps IdemProofs1 IdemProofs2 CliModel.
From Verif Require CliSpec CliProps.
Import ListNotations.
Open Scope Z_scope.

Local Definition E64 : env := std_env 64 true (fun k => Z.of_nat k * Z.of_nat k * 3 + 1) 200 0.
Local Definition P64 : penv := PEnv E64 (isort 64).
Local Definition dec (s : text) : res rat := Throw "decimal".
Local Definition get (s : string) : expr := match parse P64 dec (txt s) with Ok e => e | _ => Leaf (leaf_int 0) end.
Local Lemma P64_ok : machine P64 /\ sort_orders P64.
Proof. apply (isort_machine E64). split; [cbn; lia|]. split; [apply std_sound|apply std_exact; lia]. Qed.
Local Lemma P64_reads : reads P64. Proof. apply std_reads; lia. Qed.

(** the text [line], read, simplified and printed, is [t]; or typeset *)
Definition answers (P : penv) (dec : text -> res rat) (line t : text) : Prop := exists e, parse P dec line = Ok e /\ simplifies_to P e t.
Definition typesets (P : penv) (dec : text -> res rat) (line t : text) : Prop := exists e, parse P dec line = Ok e /\ typeset_as P e t.

Local Lemma aux P dec e : machine P -> sort_orders P -> sort_returns P -> reads P -> ew (pe P) <= 128 ->
  polynomial (ew (pe P)) e -> weight e + 1 < 2 ^ (ew (pe P) - 1) -> weight e < 2 ^ 53 -> degree e < 2 ^ (ew (pe P) - 1) -> degree e <= 2 ^ 53 ->
  exists t u e', parse P dec t = Ok e' /\ polynomial (ew (pe P)) e' /\ simplifies_to P e t /\ simplifies_to P e' t /\ typeset_as P e u /\ typeset_as P e' u.
Proof.
  intros HM HS HT HR W Q WB W53 DB D53. destruct (normalize_ok P HR HM HS HT W e Q) as (f & H); try lia. destruct (C70_prints P e (Leaf f) HM HS HR Q H) as [(t & T) (u & U)].
  assert (T' : expr_to_string (pe P) (Leaf f) = Ok t) by (destruct T as (x & X & T); rewrite H in X; injection X as <-; exact T).
  destruct (reparse P dec HR HM HS HT W e f t Q) as (e' & HP & (Q' & W1 & D1)); [lia|lia|lia|exact D53|exact H|exact T'|].
  destruct (C70_reads_back P dec e t HM HS HR Q T) as (e'' & HP' & V). rewrite HP in HP'. injection HP' as <-.
  destruct (C70_total P e' HM HS HT HR W Q') as [(t' & S') (u' & U')]; [lia|lia|lia|].
  assert (t' = t) as -> by (apply (proj2 (C70_canonical P e' e t' t HM HS HR Q' Q S' T)); intros s _; apply V).
  assert (u' = u) as -> by (apply (C70_tex P e' e u' u HM HS HR Q' Q U' U); intros s _; apply V).
  exists t, u, e'. auto 10.
Qed.
(** the answer to the answer is the answer *)
Theorem C78_fixed_point P dec line e : machine P -> sort_orders P -> sort_returns P -> reads P -> ew (pe P) <= 128 ->
  parse P dec line = Ok e -> polynomial (ew (pe P)) e -> weight e + 1 < 2 ^ (ew (pe P) - 1) -> weight e < 2 ^ 53 -> degree e < 2 ^ (ew (pe P) - 1) -> degree e <= 2 ^ 53 ->
  exists t u, answers P dec line t /\ answers P dec t t /\ typesets P dec line u /\ typesets P dec t u.
Proof.
  intros HM HS HT HR W HL Q WB W53 DB D53. destruct (aux P dec e HM HS HT HR W Q WB W53 DB D53) as (t & u & e' & H & Q' & A & A' & U & U'). exists t, u. split; [exists e; now split|]. split; [exists e'; now split|]. split; [exists e; now split|exists e'; now split].
Qed.
Print Assumptions C78_fixed_point.
(** the same for what the command line prints: for the printed text (what is before " = value", if a value is printed) it prints the same text; and ntex prints exactly the same for both *)
Theorem C78_session C (s : cstate C) body e : let P := cp C in machine P -> sort_orders P -> sort_returns P -> reads P -> ew (pe P) <= 128 ->
  parse P (cdec C) body = Ok e -> polynomial (ew (pe P)) e -> weight e + 1 < 2 ^ (ew (pe P) - 1) -> weight e < 2 ^ 53 -> degree e < 2 ^ (ew (pe P) - 1) -> degree e <= 2 ^ 53 ->
  exists t, (forall line, line = body \/ line = t -> exists rest, out (cmd_normalize C line s) = t ++ rest) /\ cmd_ntex C t s = cmd_ntex C body s.
Proof.
  intros P HM HS HT HR W HL Q WB W53 DB D53. destruct (aux P (cdec C) e HM HS HT HR W Q WB W53 DB D53) as (t & u & e' & H & Q' & A & A' & U & U'). exists t.
  assert (K : forall line x, parse P (cdec C) line = Ok x -> polynomial (ew (pe P)) x -> simplifies_to P x t -> exists rest, out (cmd_normalize C line s) = t ++ rest).
  { intros line x X Qx (x' & N & T). destruct (C70_expanded P x x' HM HS HR Qx N) as (f & -> & _). unfold cmd_normalize, parse_normal, print_result. fold P. rewrite X. cbn [bind]. rewrite N. cbn [run expr_normalize bind]. rewrite T. cbn [bind run fst snd]. unfold follow, say. cbn [fin out post]. eexists. reflexivity. }
  assert (L : forall line x, parse P (cdec C) line = Ok x -> typeset_as P x u -> cmd_ntex C line s = say (u ++ newline) s).
  { intros line x X (x' & N & T). unfold cmd_ntex, parse_normal. fold P. rewrite X. cbn [bind]. rewrite N. cbn [bind]. rewrite T. reflexivity. }
  split; [intros line [-> | ->]; eauto|]. now rewrite (L t e'), (L body e).
Qed.
Print Assumptions C78_session.

(** ** cases *)
Local Definition show (s : string) : res string := e <- parse P64 dec (txt s) ;; n <- expr_normalize P64 e ;; x <- expr_to_string E64 n ;; Ok (string_of_list_ascii x).
Local Lemma poly_int n : 0 <= n < 2 ^ 63 -> polynomial 64 (Leaf (leaf_int n)). Proof. left. eauto. Qed.
Local Lemma poly_sym c : is_alpha c = true -> polynomial 64 (Leaf (leaf_sym (String c EmptyString))). Proof. right. eexists. split; [|reflexivity]. left. eauto. Qed.
Local Lemma poly_op c l r : (c = "+" \/ c = "-" \/ c = "*")%char -> polynomial 64 l -> polynomial 64 r -> polynomial 64 (Op c l r). Proof. intros. split; [assumption|]. left. now split. Qed.
Local Lemma poly_pow l n : 0 <= n < 2 ^ 63 -> Z.of_nat (fact (Z.to_nat n)) < 2 ^ 63 \/ n <= 2 ^ 53 /\ (exists k, l = Leaf (leaf_sym k)) -> polynomial 64 l -> polynomial 64 (Op "^" l (Leaf (leaf_int n))). Proof. intros. split; [assumption|]. right. split; [reflexivity|]. eauto. Qed.
Local Ltac poly_ok := first [refine (poly_int _ _); lia | refine (poly_sym _ _); reflexivity | refine (poly_pow _ _ _ _ _); [lia|first [right; split; [lia|eexists; reflexivity]|left; reflexivity]|poly_ok] | refine (poly_op _ _ _ _ _ _); [first [left; reflexivity|right; left; reflexivity|right; right; reflexivity]|poly_ok|poly_ok]].
(** a square of a binomial of degree 1000 *)
Example C78_meets : let e := get "(2*x^1000-y*x)^2-3" in parse P64 dec (txt "(2*x^1000-y*x)^2-3") = Ok e /\ polynomial 64 e /\ weight e = 12 /\ degree e = 2000.
Proof. set (e := get _). vm_compute in e. subst e. cbv zeta. apply conj; [vm_compute; reflexivity|]. split; [poly_ok|]. split; vm_compute; reflexivity. Qed.
Example C78_applies : exists t u, answers P64 dec (txt "(2*x^1000-y*x)^2-3") t /\ answers P64 dec t t /\ typesets P64 dec (txt "(2*x^1000-y*x)^2-3") u /\ typesets P64 dec t u.
Proof.
  destruct P64_ok as [HM HS]. destruct C78_meets as (HP & Q & W & D). apply (C78_fixed_point P64 dec (txt "(2*x^1000-y*x)^2-3") (get "(2*x^1000-y*x)^2-3") HM HS (isort_returns E64) P64_reads); [cbn; lia|exact HP|exact Q|rewrite W; reflexivity|rewrite W; reflexivity|rewrite D; reflexivity|rewrite D; vm_compute; discriminate].
Qed.
Example C78_shows : show "(2*x^1000-y*x)^2-3" = Ok "4(x**2000)-4(x**1001)y+(x**2)(y**2)-3"%string /\ show "4(x**2000)-4(x**1001)y+(x**2)(y**2)-3" = show "(2*x^1000-y*x)^2-3".
Proof. split; vm_compute; reflexivity. Qed.
(** not so with a denominator: the answer to 1/(2x) is read as x/2, and the answer to the square root of x as the half of x *)
Example C78_quotients_refuted : show "1/(2*x)" = Ok "1/2x"%string /\ show "1/2x" = Ok "x/2"%string /\ show "x^(1/2)" = Ok "(x**1/2)"%string /\ show "(x**1/2)" = Ok "x/2"%string.
Proof. repeat (apply conj; [vm_compute; reflexivity|]); vm_compute; reflexivity. Qed.
