(** C58: the text of polynomials, fractions and simplified trees reads back.  Vocabulary: PrintSpec.v ([plain_poly]: coefficients in normal form with
    positive denominators, positive integer exponents; [plain_frac]: also a denominator that is printed in parentheses or as a single factor;
    [fits]: a tree whose leaves hold together where they stand), ExprSpec.v ([ev], the value of a tree), PolySpec.v ([pv], [fv]). *)
From Coq Require Import ZArith QArith Qreals Reals String Ascii Lia Lra Bool List.
From Verif Require Import Base AdapterModel FactorizeModel RationalModel RationalSpec RationalProofs RealModel RealSpec RealProofs3 RealProofs4 RealProofs6 PolyModel PolySpec PolyProofs2 PolyProofs3 PolyProofs5 PolyProofs6 ExprModel ExprSpec ExprProofs1 ParserModel ParserSpec TextSpec TextProofs1 TextProofs2
  PrintSpec PrintProofs5.
Import ListNotations.
Open Scope Z_scope.

Local Definition E64 : env := std_env 64 true (fun k => Z.of_nat k * Z.of_nat k * 3 + 1) 200 0.
Local Definition P64 : penv := PEnv E64 (isort 64).
Local Definition dec (s : text) : res rat := Throw "decimal".
Local Definition p (s : string) : res expr := parse P64 dec (txt s).
Local Definition show (e : res expr) : res string := t <- e ;; x <- expr_to_string E64 t ;; Ok (string_of_list_ascii x).
Local Definition norm (e : res expr) : res expr := t <- e ;; expr_normalize P64 t.
Local Lemma P64_ok : machine P64 /\ sort_orders P64.
Proof. apply (isort_machine E64). split; [cbn; lia|]. split; [apply std_sound|apply std_exact; lia]. Qed.
Local Lemma P64_reads : reads P64. Proof. apply std_reads; lia. Qed.

(** Poly::to_string *)
Theorem C58_polynomial P dec l t : machine P -> reads P -> plain_poly (ew (pe P)) l -> poly_to_string (pe P) l = Ok t -> exists e, parse P dec t = Ok e /\ forall s, ev s e = pv s l.
Proof. intros HM HR. exact (poly_reads_back P dec HM HR l t). Qed.
Print Assumptions C58_polynomial.
(** Frac::to_string *)
Theorem C58_fraction P dec f t : machine P -> reads P -> plain_frac (ew (pe P)) f -> frac_to_string (pe P) f = Ok t -> exists e, parse P dec t = Ok e /\ forall s, ev s e = fv s f.
Proof. intros HM HR. exact (frac_reads_back P dec HM HR f t). Qed.
Print Assumptions C58_fraction.
(** Expr::to_string *)
Theorem C58_tree P dec e t : machine P -> reads P -> fits (ew (pe P)) true e -> expr_to_string (pe P) e = Ok t -> exists e', parse P dec t = Ok e' /\ forall s, ev s e' = ev s e.
Proof. intros HM HR. exact (tree_reads_back P dec HM HR e t). Qed.
Print Assumptions C58_tree.
(** simplify, print, read: the value is the one of the expression before *)
Theorem C58_simplified P dec s e e' t : machine P -> reads P -> edefined P s e -> expr_normalize P e = Ok e' -> fits (ew (pe P)) true e' -> expr_to_string (pe P) e' = Ok t ->
  exists e'', parse P dec t = Ok e'' /\ ev s e'' = ev s e.
Proof.
  intros HM HR D N F H. destruct (C58_tree P dec e' t HM HR F H) as (e'' & A & B). exists e''. split; [exact A|]. rewrite B. exact (ExprProofs1.normalize_value P s e HM D e' N).
Qed.
Print Assumptions C58_simplified.

(** -3√2·x² + (2/3)·x·{ab} - 1 over 4y + 1 *)
Local Definition surd : real := Real 2 (Rat 2 1) (Rat (-3) 1).
Local Definition num1 : poly := [Term surd [("x"%string, Rat 2 1)]; Term (Real 1 (Rat 1 1) (Rat 2 3)) [("ab"%string, Rat 1 1); ("x"%string, Rat 1 1)]; term_const (rint (-1))].
Local Definition den1 : poly := [Term (rint 4) [("y"%string, Rat 1 1)]; term_const (rint 1)].
Local Lemma plain_surd : plain_real 64 surd.
Proof.
  assert (W : wf (ew E64) (Real 2 (Rat 2 1) (Rat (-3) 1))) by (unfold wf; cbn; lia). assert (M : real_make E64 (Rat (-3) 1) (Rat 2 1) 2 = Ok surd) by (vm_compute; reflexivity).
  destruct P64_ok as [(Hw & FS & FE & _) _]. destruct (make_good E64 _ _ _ _ Hw FS FE W M) as (_ & C & _). split; [exact C|]. unfold qok, lowest_terms. cbn. repeat split; lia.
Qed.
Local Lemma plain_q a b : 0 < b -> Z.gcd a b = 1 -> Z.abs a < 2 ^ 63 -> b < 2 ^ 63 -> plain_real 64 (Real 1 (Rat 1 1) (Rat a b)).
Proof. intros B G A1 A2. split; [apply RealProofs3.canonical_one; cbn; lia|]. unfold qok, lowest_terms. cbn [coe rad idx num den]. repeat split; try assumption; try lia. Qed.
Local Lemma letter k c : k = String c EmptyString -> is_alpha c = true -> name_ok k. Proof. intros. left. eauto. Qed.
Local Lemma name_x : name_ok "x". Proof. now apply (letter _ "x"%char). Qed.
Local Lemma name_y : name_ok "y". Proof. now apply (letter _ "y"%char). Qed.
Local Lemma name_ab : name_ok "ab". Proof. right. split; [discriminate|]. cbn. repeat constructor; discriminate. Qed.
Local Ltac syms_ok := repeat (apply Forall_cons; [split; [first [exact name_x|exact name_y|exact name_ab|assumption]|cbn; lia]|]); apply Forall_nil.
Local Lemma plain_num1 : plain_poly 64 num1.
Proof.
  repeat apply Forall_cons; [| | |apply Forall_nil].
  - split; [exact plain_surd|]. split; [repeat constructor; cbn; intuition discriminate|]. syms_ok.
  - split; [apply plain_q; cbn; lia|]. split; [repeat constructor; cbn; intuition discriminate|]. syms_ok.
  - split; [apply (plain_q (-1) 1); cbn; lia|]. split; constructor.
Qed.
Local Lemma plain_den1 : plain_poly 64 den1.
Proof.
  repeat apply Forall_cons; [| |apply Forall_nil].
  - split; [apply (plain_q 4 1); cbn; lia|]. split; [repeat constructor; cbn; intuition discriminate|]. syms_ok.
  - split; [apply (plain_q 1 1); cbn; lia|]. split; constructor.
Qed.
Local Lemma plain_f1 : plain_frac 64 (Frac num1 den1).
Proof. split; [discriminate|]. split; [exact plain_num1|]. split; [exact plain_den1|exact I]. Qed.
Example C58_example_fraction : machine P64 /\ reads P64 /\ plain_frac 64 (Frac num1 den1) /\ plain_poly 64 num1 /\
  (t <- frac_to_string E64 (Frac num1 den1) ;; Ok (string_of_list_ascii t)) = Ok "(-3_/2(x**2)+2/3{ab}x-1)/(4y+1)"%string /\
  (t <- poly_to_string E64 num1 ;; Ok (string_of_list_ascii t)) = Ok "-3_/2(x**2)+2/3{ab}x-1"%string.
Proof. split; [apply P64_ok|]. split; [exact P64_reads|]. split; [exact plain_f1|]. split; [exact plain_num1|]. split; vm_compute; reflexivity. Qed.
(** 3x^y - (that fraction), simplified: a tree that fits *)
Local Definition tree1 : expr := Op "-" (Op "*" (Leaf (leaf_int 3)) (Op "^" (Leaf (leaf_sym "x")) (Leaf (leaf_sym "y")))) (Leaf (Frac num1 den1)).
Local Lemma plain_leaf_int n : 0 < n < 2 ^ 63 -> plain_frac 64 (leaf_int n).
Proof.
  intros N. split; [discriminate|]. split; [|split].
  - apply Forall_cons; [|apply Forall_nil]. split; [apply (plain_q n 1); cbn; try lia; apply Z.gcd_1_r|]. split; constructor.
  - apply Forall_cons; [|apply Forall_nil]. split; [apply (plain_q 1 1); cbn; lia|]. split; constructor.
  - split; [unfold positive; cbn; lia|]. left. cbn. auto.
Qed.
Local Lemma plain_leaf_sym k : name_ok k -> plain_frac 64 (leaf_sym k).
Proof.
  intros N. split; [discriminate|]. split; [|split].
  - apply Forall_cons; [|apply Forall_nil]. split; [apply (plain_q 1 1); cbn; lia|]. split; [repeat constructor; intros []|]. syms_ok.
  - apply Forall_cons; [|apply Forall_nil]. split; [apply (plain_q 1 1); cbn; lia|]. split; constructor.
  - split; [unfold positive; cbn; lia|]. left. cbn. auto.
Qed.
Example C58_example_tree : fits 64 true tree1 /\ (t <- expr_to_string E64 tree1 ;; Ok (string_of_list_ascii t)) = Ok "3*x^y-((-3_/2(x**2)+2/3{ab}x-1)/(4y+1))"%string.
Proof.
  split; [|vm_compute; reflexivity]. assert (X : name_ok "x") by now apply (letter _ "x"%char). assert (Y : name_ok "y") by now apply (letter _ "y"%char). cbn [fits tree1]. split; [reflexivity|]. split.
  - split; [reflexivity|]. split.
    + split; [apply plain_leaf_int; lia|]. right. right. eexists. split; [reflexivity|]. unfold positive. cbn. lia.
    + split; [reflexivity|]. split; (split; [now apply plain_leaf_sym|]; right; right; eexists; split; [reflexivity|]; split; [unfold positive; cbn; lia|]; right; auto).
  - split; [exact plain_f1|]. left. discriminate.
Qed.
(** from text to text: (x+y)^2-3_/2x simplifies to (y**2)+(x**2)+2xy-3_/2x, which fits *)
Local Definition square : poly := [Term (rint 1) [("y"%string, Rat 2 1)]; Term (rint 1) [("x"%string, Rat 2 1)]; Term (rint 2) [("x"%string, Rat 1 1); ("y"%string, Rat 1 1)]; Term surd [("x"%string, Rat 1 1)]].
Example C58_example_simplified : norm (p "(x+y)^2-3_/2x") = Ok (Leaf (Frac square [term_const (rint 1)])) /\ fits 64 true (Leaf (Frac square [term_const (rint 1)])) /\
  show (norm (p "(x+y)^2-3_/2x")) = Ok "(y**2)+(x**2)+2xy-3_/2x"%string.
Proof.
  split; [vm_compute; reflexivity|]. split; [|vm_compute; reflexivity]. assert (X : name_ok "x") by now apply (letter _ "x"%char). assert (Y : name_ok "y") by now apply (letter _ "y"%char). split; [discriminate|]. split; [|split; [|split; [unfold positive; cbn; lia|left; cbn; auto]]].
  - repeat apply Forall_cons; [| | | |apply Forall_nil]; (split; [first [exact plain_surd|apply (plain_q 1 1); cbn; lia|apply (plain_q 2 1); cbn; lia]|]; split; [repeat constructor; cbn; intuition discriminate|]; syms_ok).
  - apply Forall_cons; [|apply Forall_nil]. split; [apply (plain_q 1 1); cbn; lia|]. split; constructor.
Qed.

(** ** what does not read back *)
Local Definition two (k : string) : R := 2%R.
Local Lemma ev_leaf s f : ev s (Leaf f) = fv s f. Proof. reflexivity. Qed.
Local Lemma ev_mul s l r : ev s (Op "*" l r) = (ev s l * ev s r)%R. Proof. reflexivity. Qed.
Local Lemma ev_div s l r : ev s (Op "/" l r) = (ev s l / ev s r)%R. Proof. reflexivity. Qed.
Local Lemma ev_pow s l r : ev s (Op "^" l r) = epow (ev s l) (ev s r). Proof. reflexivity. Qed.
Local Ltac values := unfold fv, pv, tv; cbn [fnum fden fold_right tco syms term_const term_sym sv fst snd]; rewrite ?rv_int; unfold pwr, two; cbn [num den Z.eqb Pos.eqb]; rewrite ?powerRZ_1.
(** 1/(2x) prints as 1/2x, which reads as (1/2)x: at x = 2 the values are 1/4 and 1 *)
Local Definition half_x : frac := Frac [term_const (rint 1)] [Term (rint 2) [("x"%string, Rat 1 1)]].
Theorem C58_denominator_refuted : exists e' e'' t, norm (p "1/(2x)") = Ok e' /\ expr_to_string E64 e' = Ok t /\ string_of_list_ascii t = "1/2x"%string /\ parse P64 dec t = Ok e'' /\ ev two e' = (1 / 4)%R /\ ev two e'' = 1%R.
Proof.
  exists (Leaf half_x), (Op "*" (Op "/" (Leaf (leaf_int 1)) (Leaf (leaf_int 2))) (Leaf (leaf_sym "x"))), (txt "1/2x").
  split; [vm_compute; reflexivity|]. split; [vm_compute; reflexivity|]. split; [reflexivity|]. split; [vm_compute; reflexivity|]. split.
  - rewrite ev_leaf. unfold half_x. values. field.
  - rewrite ev_mul, ev_div, !ev_leaf, !fv_int, fv_sym. unfold two. field.
Qed.
Print Assumptions C58_denominator_refuted.
(** the square root of x prints as (x**1/2), which reads as (x^1)/2: at x = 2 the values are √2 and 1 *)
Local Definition root_x : frac := Frac [Term (rint 1) [("x"%string, Rat 1 2)]] [term_const (rint 1)].
Theorem C58_exponent_refuted : exists e' e'' t, norm (p "x^(1/2)") = Ok e' /\ expr_to_string E64 e' = Ok t /\ string_of_list_ascii t = "(x**1/2)"%string /\ parse P64 dec t = Ok e'' /\
  ev two e' = sqrt 2 /\ ev two e'' = 1%R.
Proof.
  exists (Leaf root_x), (Op "/" (Op "^" (Leaf (leaf_sym "x")) (Leaf (leaf_int 1))) (Leaf (leaf_int 2))), (txt "(x**1/2)").
  split; [vm_compute; reflexivity|]. split; [vm_compute; reflexivity|]. split; [reflexivity|]. split; [vm_compute; reflexivity|]. split.
  - rewrite ev_leaf. unfold root_x. values. rewrite qv_R by (cbn; lia). cbn [num den]. rewrite <- Rpower_sqrt by lra. replace (1 / 2)%R with (/ 2)%R by field. field.
  - rewrite ev_div, ev_pow, !ev_leaf, !fv_int, fv_sym. rewrite (epow_int _ 1), powerRZ_1. unfold two. field.
Qed.
Print Assumptions C58_exponent_refuted.
(** negative exponents and negative denominators print as text the parser refuses *)
Theorem C58_sign_refuted : show (norm (p "x^(0-2)")) = Ok "(x**-2)"%string /\ p "(x**-2)" = Throw "Invaild string." /\ show (norm (p "x/(0-2)")) = Ok "x/-2"%string /\ p "x/-2" = Throw "Invaild string.".
Proof. vm_compute. repeat split; reflexivity. Qed.
Print Assumptions C58_sign_refuted.
