(** C43-C45: expression trees.  Vocabulary (ExprSpec.v, TextSpec.v): [ev s e] is the value of the tree e when the symbols have the values s;
    [edefined P s e]: it is defined there and the powers that get computed fit the machine; [simple w e]: a tree of + - * / ^ over symbols and
    non-negative integers. *)
From Coq Require Import ZArith QArith Qreals Reals String Ascii Lia Lra Bool List.
From Verif Require Import Base AdapterModel FactorizeModel RationalModel RationalSpec RationalProofs RealModel RealSpec RealProofs3 RealProofs6 PolyModel PolySpec PolyProofs2 PolyProofs3 PolyProofs5 PolyProofs6 ExprModel ExprSpec ExprProofs1 ParserModel ParserSpec TextSpec TextProofs1 TextProofs2.
Import ListNotations.
Open Scope Z_scope.

Local Definition E64 : env := std_env 64 true (fun k => Z.of_nat k * Z.of_nat k * 3 + 1) 200 0.
Local Definition P64 : penv := PEnv E64 (isort 64).
Local Definition dec (s : text) : res rat := Throw "decimal".
Local Definition L (n : Z) : expr := Leaf (leaf_int n).
Local Definition V (k : string) : expr := Leaf (leaf_sym k).
Local Definition p (s : string) : res expr := parse P64 dec (txt s).
Local Definition show (e : res expr) : res string := t <- e ;; x <- expr_to_string E64 t ;; Ok (string_of_list_ascii x).
Local Definition norm (e : res expr) : res expr := t <- e ;; expr_normalize P64 t.
Local Lemma P64_ok : machine P64 /\ sort_orders P64.
Proof. apply (isort_machine E64). split; [cbn; lia|]. split; [apply std_sound|apply std_exact; lia]. Qed.
Local Lemma P64_reads : reads P64. Proof. apply std_reads; lia. Qed.

(** ** C43 printing and reading again *)
Theorem C43_round_trip P dec e : reads P -> simple (ew (pe P)) e ->
  exists t e', expr_to_string (pe P) e = Ok t /\ parse P dec t = Ok e' /\ forall s, ev s e' = ev s e.
Proof. intros R S. exact (simple_round_trip P dec R e S). Qed.
Print Assumptions C43_round_trip.
Theorem C43_standard_machine w i128 rnd fuel junk : 3 <= w <= 64 -> (0 < fuel)%nat -> reads (PEnv (std_env w i128 rnd fuel junk) (isort w)).
Proof. exact (std_reads w i128 rnd fuel junk). Qed.
Print Assumptions C43_standard_machine.
(** the values of the leaves are what they should be *)
Theorem C43_leaves s n k : fv s (leaf_int n) = IZR n /\ fv s (leaf_sym k) = s k.
Proof. split; [apply fv_int|apply fv_sym]. Qed.
Print Assumptions C43_leaves.
Local Definition deep : expr := Op "/" (Op "-" (V "x") (Op "-" (L 7) (V "alpha"))) (Op "*" (Op "^" (Op "^" (L 2) (V "y")) (Op "+" (V "z") (L 1))) (L 12)).
Example C43_example : simple 64 deep /\ show (Ok deep) = Ok "(x-(7-{alpha}))/((2^y)^(z+1)*12)"%string.
Proof.
  split; [|vm_compute; reflexivity]. assert (SL : forall n, 0 <= n < 100 -> simple 64 (L n)) by (intros n H; left; exists n; split; [cbn; lia|reflexivity]).
  assert (SV : forall c, is_alpha c = true -> simple 64 (V (String c EmptyString))) by (intros c H; right; exists (String c EmptyString); split; [left; exists c; split; [reflexivity|exact H]|reflexivity]).
  assert (SA : simple 64 (V "alpha")) by (right; exists "alpha"%string; split; [right; split; [discriminate|repeat constructor; discriminate]|reflexivity]).
  unfold deep. repeat match goal with |- simple 64 (Op _ _ _) => split; [reflexivity|split] end; first [exact SA | apply (SV _); reflexivity | apply (SL _); lia].
Qed.
(** the tree itself need not come back: a-(b-c) keeps its parentheses, a+(b-c) does not need them *)
Example C43_example_shape : show (Ok (Op "+" (V "a") (Op "-" (V "b") (V "c")))) = Ok "a+b-c"%string /\ p "a+b-c" = Ok (Op "-" (Op "+" (V "a") (V "b")) (V "c")).
Proof. vm_compute. split; reflexivity. Qed.
(** names of one character other than a letter are printed bare and come back as something else *)
Theorem C43_odd_name_refuted : (t <- p "{1}+x" ;; Ok t) = Ok (Op "+" (V "1") (V "x")) /\ show (p "{1}+x") = Ok "1+x"%string /\ p "1+x" = Ok (Op "+" (L 1) (V "x")).
Proof. vm_compute. repeat split. Qed.
Print Assumptions C43_odd_name_refuted.

(** ** C44 simplification keeps the value *)
Theorem C44_try_eval P s e f : machine P -> edefined P s e -> expr_try_eval P e = Ok (Some f) -> leaf_defined (ew (pe P)) s f /\ fv s f = ev s e.
Proof. intros M D H. pose proof (try_eval_value P s e f M D H) as X. split; [now apply (fval_leaf P s f (ev s e))|apply X]. Qed.
Print Assumptions C44_try_eval.
Theorem C44_normalize P s e e' : machine P -> edefined P s e -> expr_normalize P e = Ok e' -> ev s e' = ev s e.
Proof. intros M D H. exact (normalize_value P s e M D e' H). Qed.
Print Assumptions C44_normalize.
(** substituting values v for symbols gives the value under the assignment changed to v *)
Theorem C44_substitute P v s e e' : machine P -> sdefined P v s e -> expr_subst P v e = Ok e' -> ev s e' = ev (extend v s) e.
Proof. intros M D H. exact (subst_value P v s e M D e' H). Qed.
Print Assumptions C44_substitute.
(** an integer to an integer power is what the usual power is *)
Theorem C44_integer_power x n : epow x (IZR n) = powerRZ x n. Proof. apply epow_int. Qed.
Print Assumptions C44_integer_power.

Local Lemma int_leaf s n : leaf_defined 64 s (leaf_int n).
Proof.
  assert (G : forall n, pwf 64 [term_const (rint n)]) by (intros m; constructor; [|constructor]; split; [split; [unfold wf; cbn; lia|reflexivity]|split; constructor]).
  repeat split; try apply G; try (repeat constructor; fail). unfold pv. cbn. unfold tv. cbn. rewrite rv_int. lra.
Qed.
Local Lemma sym_leaf s k : leaf_defined 64 s (leaf_sym k).
Proof.
  destruct (int_leaf s 1) as (_ & A & _ & B & C). split; [|split; [exact A|split; [|split; [exact B|exact C]]]].
  - constructor; [|constructor]. apply (sym_wf 64 s (rint 1) k). split; [unfold wf; cbn; lia|reflexivity].
  - constructor; [|constructor]. apply (sym_wf 64 s (rint 1) k). split; [unfold wf; cbn; lia|reflexivity].
Qed.
(** (x+1)^2*x - 3x : defined for every assignment, and simplified to x^3+2x^2-2x *)
Local Definition cubic : expr := Op "-" (Op "*" (Op "^" (Op "+" (V "x") (L 1)) (L 2)) (V "x")) (Op "*" (L 3) (V "x")).
Local Lemma plain s c l r : c <> "/"%char -> c <> "^"%char -> edefined P64 s l -> edefined P64 s r -> edefined P64 s (Op c l r).
Proof. intros A B C D. cbn [edefined]. split; [exact C|]. split; [exact D|]. split; intros E; contradiction. Qed.
Example C44_example_defined s : edefined P64 s cubic.
Proof.
  assert (V' : forall k, edefined P64 s (V k)) by (intros k; exact (sym_leaf s k)). assert (L' : forall n, edefined P64 s (L n)) by (intros n; exact (int_leaf s n)).
  unfold cubic. apply plain; [discriminate|discriminate| |apply plain; [discriminate|discriminate|apply L'|apply V']]. apply plain; [discriminate|discriminate| |apply V'].
  assert (B : edefined P64 s (Op "+" (V "x") (L 1))) by (apply plain; [discriminate|discriminate|apply V'|apply L']).
  set (base := Op "+" (V "x") (L 1)) in *. clearbody base. cbn [edefined]. split; [exact B|]. split; [apply L'|]. split; [discriminate|].
  intros _ a b q _ Hb (r & Hr & Hq). vm_compute in Hb. injection Hb as <-. assert (q = Rat 2 1) as ->.
  { vm_compute in Hr. injection Hr as <-. destruct Hq as [Hq|Hq]; vm_compute in Hq; congruence. }
  split; [cbn; lia|]. split; [reflexivity|]. left. split; [reflexivity|]. split; [right; cbn; lia|]. left. vm_compute. reflexivity.
Qed.
Example C44_example_text : p "(x+1)^2*x-3*x" = Ok cubic /\ show (norm (Ok cubic)) = Ok "(x**3)+2(x**2)-2x"%string.
Proof. vm_compute. split; reflexivity. Qed.
(** x^y with symbols stays a power; its base and exponent are simplified *)
Example C44_example_symbolic : show (norm (p "(x+x)^(y+y)")) = Ok "2x^2y"%string. Proof. vm_compute. reflexivity. Qed.
(** an exponent with denominator -1 is not reduced: x^2 written as x^(0-3/(0-2)-1/(0-2)) gets the exponent -2/-1 *)
Theorem C44_exponent_refuted : show (norm (p "x^(0-3/(0-2)-1/(0-2))")) = Ok "(x**-2/-1)"%string /\ norm (p "(x+1)^(0-3/(0-2)-1/(0-2))") = Throw "Must be a int.".
Proof. vm_compute. split; reflexivity. Qed.
Print Assumptions C44_exponent_refuted.

(** ** C45 after simplification parentheses are missing *)
(** (x+1)^y, simplified, prints as x+1^y: its value at x = 1, y = 2 is 4, but the text denotes 2 *)
Local Definition at12 (k : string) : R := (if String.eqb k "x" then 1 else 2)%R.
Local Definition xplus1 : frac := Frac [term_sym (rint 1) "x"; term_const (rint 1)] [term_const (rint 1)].
Local Lemma fv_xplus1 s : fv s xplus1 = (s "x"%string + 1)%R.
Proof. unfold fv, xplus1, pv, tv. cbn [fnum fden fold_right tco syms term_const term_sym sv fst snd]. rewrite !rv_int. unfold pwr. cbn [num den Z.eqb Pos.eqb]. rewrite powerRZ_1. field. Qed.
Local Lemma ev_leaf s f : ev s (Leaf f) = fv s f. Proof. reflexivity. Qed.
Local Lemma ev_sum s l r : ev s (Op "+" l r) = (ev s l + ev s r)%R. Proof. reflexivity. Qed.
Local Lemma ev_pow s l r : ev s (Op "^" l r) = epow (ev s l) (ev s r). Proof. reflexivity. Qed.
Local Lemma at12_x : at12 "x" = 1%R. Proof. reflexivity. Qed.
Local Lemma at12_y : at12 "y" = 2%R. Proof. reflexivity. Qed.
Local Lemma square x : epow x 2 = (x * x)%R. Proof. rewrite (epow_int x 2). simpl. ring. Qed.
Theorem C45_power_refuted : exists e e' e'' t, p "(x+1)^y" = Ok e /\ expr_normalize P64 e = Ok e' /\ expr_to_string E64 e' = Ok t /\ string_of_list_ascii t = "x+1^y"%string /\ parse P64 dec t = Ok e'' /\
  ev at12 e = 4%R /\ ev at12 e' = 4%R /\ ev at12 e'' = 2%R.
Proof.
  exists (Op "^" (Op "+" (V "x") (L 1)) (V "y")), (Op "^" (Leaf xplus1) (V "y")), (Op "+" (V "x") (Op "^" (L 1) (V "y"))), (txt "x+1^y").
  split; [vm_compute; reflexivity|]. split; [vm_compute; reflexivity|]. split; [vm_compute; reflexivity|]. split; [reflexivity|]. split; [vm_compute; reflexivity|].
  unfold L, V. rewrite !ev_sum, !ev_pow, !ev_sum, !ev_leaf, fv_xplus1, !fv_int, !fv_sym, at12_x, at12_y, !square. repeat split; lra.
Qed.
Print Assumptions C45_power_refuted.
(** and inside a product *)
Theorem C45_product_refuted : show (norm (p "x*(1+y)^z")) = Ok "x*y+1^z"%string /\ show (norm (p "(x+1)*2^z")) = Ok "x+1*2^z"%string.
Proof. vm_compute. split; reflexivity. Qed.
Print Assumptions C45_product_refuted.
(** where the text is right: whenever every leaf next to an operator is printed as one factor (or as a fraction, which gets parentheses), the text of
    the whole tree has the value of the tree; [leaves_read] says so of every leaf *)
Theorem C45_faithful_when_leaves_are P dec e t : leaves_read P dec e -> expr_to_string (pe P) e = Ok t -> exists e', parse P dec t = Ok e' /\ forall s, ev s e' = ev s e.
Proof. intros LR H. exact (print_parse P dec e LR t H). Qed.
Print Assumptions C45_faithful_when_leaves_are.
Example C45_example_leaves : leaves_read P64 dec (Op "^" (V "x") (L 2)).
Proof. apply simple_leaves; [exact P64_reads|]. cbn [simple]. split; [reflexivity|]. split; [right; exists "x"%string; split; [left; exists "x"%char; split; reflexivity|reflexivity]|left; exists 2; split; [cbn; lia|reflexivity]]. Qed.
