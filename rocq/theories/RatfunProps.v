(** C71: simplification recognises zero: an expression built from +, -, *, / and literal powers is printed as 0, 0/... or (0)/... exactly if it is zero wherever it is defined.
    Vocabulary: RatfunSpec.v ([rational_function], [has_value], [power_sum], [zero_text]), ExprSpec.v ([ev], the value of a tree), PolySpec.v ([fv], [pv]). *)
From Coq Require Import ZArith QArith Qreals Reals String Ascii Lia Lra Bool List Sorted.
From Verif Require Import Base AdapterModel FactorizeModel RationalModel RationalSpec RationalProofs RealModel RealSpec RealProofs3 RealProofs6 PolyModel PolySpec PolyProofs2 PolyProofs3 PolyProofs5 PolyProofs6 ExprModel ExprSpec ExprProofs1 ParserModel ParserSpec TextSpec TextProofs1 TextProofs2
  RingProofs1 RingProps RatfunSpec RatfunProofs1 RatfunProofs2 RatfunProofs3 RatfunProofs4 RatfunProofs5 RatfunProofs6.
Import ListNotations.
Open Scope Z_scope.

Local Definition E64 : env := std_env 64 true (fun k => Z.of_nat k * Z.of_nat k * 3 + 1) 200 0.
Local Definition P64 : penv := PEnv E64 (isort 64).
Local Definition dec (s : text) : res rat := Throw "decimal".
Local Definition p (s : string) : res expr := parse P64 dec (txt s).
Local Definition show (e : res expr) : res string := t <- e ;; x <- expr_to_string E64 t ;; Ok (string_of_list_ascii x).
Local Definition norm (e : res expr) : res expr := t <- e ;; expr_normalize P64 t.
Local Lemma P64_ok : machine P64 /\ sort_orders P64.
Proof. apply (isort_machine E64). split; [cbn; lia|]. split; [apply std_sound|apply std_exact; lia]. Qed.
Local Lemma P64_reads : reads P64. Proof. apply std_reads; lia. Qed.

(** what simplification returns is one quotient of two sums of powers; where the expression is defined, the denominator is not zero and the value is the same *)
Theorem C71_quotient P e e' : machine P -> sort_orders P -> reads P -> rational_function (ew (pe P)) e -> expr_normalize P e = Ok e' ->
  exists f, e' = Leaf f /\ power_sum (fnum f) /\ power_sum (fden f) /\ forall s, (forall k, 0 < s k)%R -> has_value s e -> pv s (fden f) <> 0%R /\ fv s f = ev s e.
Proof.
  intros HM HS HR Q H. destruct (normalize_e P HR HM HS e e' Q H) as (f & -> & A & B). exists f. split; [reflexivity|]. split; [now apply sum_of|]. split; [now apply sum_of|]. intros s S V. exact (normalized P HR HM HS s e f S Q V H).
Qed.
Print Assumptions C71_quotient.
(** an expression that simplifies is defined somewhere: one with a divisor that is zero everywhere is always refused *)
Theorem C71_domain P e e' : machine P -> sort_orders P -> reads P -> rational_function (ew (pe P)) e -> expr_normalize P e = Ok e' -> exists s, (forall k, 0 < s k)%R /\ has_value s e.
Proof.
  intros HM HS HR Q H. destruct (domain_normalize P HR HM HS e e' Q H) as (L & N & F). destruct (all_nonzero L N) as (s & S & G). exists s. split; [exact S|]. now apply F.
Qed.
Print Assumptions C71_domain.
(** two expressions that simplify are defined together somewhere *)
Theorem C71_common_domain P e1 e2 x1 x2 : machine P -> sort_orders P -> reads P -> rational_function (ew (pe P)) e1 -> rational_function (ew (pe P)) e2 -> expr_normalize P e1 = Ok x1 -> expr_normalize P e2 = Ok x2 ->
  exists s, (forall k, 0 < s k)%R /\ has_value s e1 /\ has_value s e2.
Proof.
  intros HM HS HR Q1 Q2 H1 H2. destruct (domain_normalize P HR HM HS e1 x1 Q1 H1) as (L1 & N1 & F1). destruct (domain_normalize P HR HM HS e2 x2 Q2 H2) as (L2 & N2 & F2). destruct (all_nonzero (L1 ++ L2)) as (s & S & G); [apply Forall_app; now split|]. apply Forall_app in G as [G1 G2]. exists s. split; [exact S|]. split; [now apply F1|now apply F2].
Qed.
Print Assumptions C71_common_domain.
(** the zero test *)
Theorem C71_zero P e t : machine P -> sort_orders P -> reads P -> rational_function (ew (pe P)) e -> simplifies_to P e t ->
  (zero_text t <-> forall s, (forall k, 0 < s k)%R -> has_value s e -> ev s e = 0%R).
Proof.
  intros HM HS HR Q (e' & H & T). destruct (normalize_e P HR HM HS e e' Q H) as (f & -> & _). destruct (zero_q P HR HM HS e f t Q H T) as [A B]. split; [exact A|exact B].
Qed.
Print Assumptions C71_zero.
(** so the text of a difference tells whether two expressions have the same values *)
Theorem C71_difference P e1 e2 t : machine P -> sort_orders P -> reads P -> rational_function (ew (pe P)) e1 -> rational_function (ew (pe P)) e2 -> simplifies_to P (Op "-" e1 e2) t ->
  (zero_text t <-> forall s, (forall k, 0 < s k)%R -> has_value s e1 -> has_value s e2 -> ev s e1 = ev s e2).
Proof.
  intros HM HS HR Q1 Q2 H. assert (Q : rational_function (ew (pe P)) (Op "-" e1 e2)) by (left; tauto). rewrite (C71_zero P (Op "-" e1 e2) t HM HS HR Q H). split; intros X s S.
  - intros V1 V2. specialize (X s S). cbn [has_value ev Ascii.eqb Bool.eqb] in X. assert (ev s e1 - ev s e2 = 0)%R; [|Lra.lra]. apply X. repeat split; try assumption. discriminate.
  - cbn [has_value ev Ascii.eqb Bool.eqb]. intros (V1 & V2 & _). rewrite (X s S V1 V2). ring.
Qed.
Print Assumptions C71_difference.

(** ** cases *)
Local Definition get (s : string) : expr := match p s with Ok e => e | _ => Leaf (leaf_int 0) end.
Local Lemma rf_int n : 0 <= n < 2 ^ 63 -> rational_function 64 (Leaf (leaf_int n)). Proof. left. eauto. Qed.
Local Lemma rf_sym c : is_alpha c = true -> rational_function 64 (Leaf (leaf_sym (String c EmptyString))). Proof. right. eexists. split; [|reflexivity]. left. eauto. Qed.
Local Lemma rf_op c l r : (c = "+" \/ c = "-" \/ c = "*" \/ c = "/")%char -> rational_function 64 l -> rational_function 64 r -> rational_function 64 (Op c l r). Proof. intros. left. tauto. Qed.
Local Lemma rf_pow l n : 0 <= n -> Z.of_nat (fact (Z.to_nat n)) < 2 ^ 63 -> rational_function 64 l -> rational_function 64 (Op "^" l (Leaf (leaf_int n))). Proof. intros. right. left. split; [reflexivity|]. split; [assumption|]. eauto. Qed.
Local Lemma rf_root c n m : is_alpha c = true -> 0 <= n < 2 ^ 63 -> 0 < m < 2 ^ 63 -> rational_function 64 (Op "^" (Leaf (leaf_sym (String c EmptyString))) (Op "/" (Leaf (leaf_int n)) (Leaf (leaf_int m)))).
Proof. intros. right. right. split; [reflexivity|]. exists (String c EmptyString), n, m. split; [left; eauto|]. repeat split; try assumption; lia. Qed.
Local Ltac rf_ok := first [refine (rf_int _ _); lia | refine (rf_sym _ _); reflexivity | refine (rf_root _ _ _ _ _ _); [reflexivity|lia|lia] | refine (rf_pow _ _ _ _ _); [lia|reflexivity|rf_ok]
  | refine (rf_op _ _ _ _ _ _); [first [left; reflexivity|right; left; reflexivity|right; right; left; reflexivity|right; right; right; reflexivity]|rf_ok|rf_ok]].
Local Ltac is_rf := let e := fresh in set (e := get _); vm_compute in e; subst e; rf_ok.
Local Ltac simp s := exists (match norm (p s) with Ok e => e | _ => Leaf (leaf_int 0) end); split; vm_compute; reflexivity.
Example C71_partial_fractions : rational_function 64 (get "x/(x-y)+y/(y-x)-1") /\ simplifies_to P64 (get "x/(x-y)+y/(y-x)-1") (txt "(0)/(-(y**2)-(x**2)+2xy)").
Proof. split; [is_rf|]. simp "x/(x-y)+y/(y-x)-1"%string. Qed.
(** so x/(x-y) + y/(y-x) = 1 for all positive x and y with x <> y *)
Example C71_partial_fractions_zero s : (forall k, 0 < s k)%R -> has_value s (get "x/(x-y)+y/(y-x)-1") -> ev s (get "x/(x-y)+y/(y-x)-1") = 0%R.
Proof.
  destruct P64_ok as [HM HS]. destruct C71_partial_fractions as [Q S]. refine (proj1 (C71_zero P64 (get "x/(x-y)+y/(y-x)-1") _ HM HS P64_reads Q S) _ s). right. exists (txt "(-(y**2)-(x**2)+2xy)"). right. reflexivity.
Qed.
Example C71_cancel : rational_function 64 (get "(x+1)^2/(x^2-1)-(x+1)/(x-1)") /\ simplifies_to P64 (get "(x+1)^2/(x^2-1)-(x+1)/(x-1)") (txt "(0)/((x**3)-(x**2)-x+1)").
Proof. split; [is_rf|]. simp "(x+1)^2/(x^2-1)-(x+1)/(x-1)"%string. Qed.
Example C71_root : rational_function 64 (get "x^(1/2)*x^(1/2)-x") /\ simplifies_to P64 (get "x^(1/2)*x^(1/2)-x") (txt "0").
Proof. split; [is_rf|]. simp "x^(1/2)*x^(1/2)-x"%string. Qed.
Example C71_plain_zero : rational_function 64 (get "(x-x)/(y+1)") /\ simplifies_to P64 (get "(x-x)/(y+1)") (txt "0/(y+1)").
Proof. split; [is_rf|]. simp "(x-x)/(y+1)"%string. Qed.
Example C71_nonzero : rational_function 64 (get "(x+1)/(x-y)^2-1/x") /\ simplifies_to P64 (get "(x+1)/(x-y)^2-1/x") (txt "(-(y**2)+2xy+x)/((x**3)-2(x**2)y+x(y**2))").
Proof. split; [is_rf|]. simp "(x+1)/(x-y)^2-1/x"%string. Qed.
(** a divisor that is zero everywhere *)
Example C71_zero_divisor : rational_function 64 (get "1/(x-x)") /\ norm (p "1/(x-x)") = Throw "Division by zero".
Proof. split; [is_rf|]. vm_compute. reflexivity. Qed.
(** not every expression that is defined somewhere simplifies: 1/2 with terms that cancelled in front is refused as a division by zero *)
Example C71_defined_but_refused_refuted s : (forall k, 0 < s k)%R -> rational_function 64 (get "(x-x+1)/(x-x+2)") /\ has_value s (get "(x-x+1)/(x-x+2)") /\ ev s (get "(x-x+1)/(x-x+2)") = (1 / 2)%R /\ norm (p "(x-x+1)/(x-x+2)") = Throw "Division by zero".
Proof.
  intros S. split; [is_rf|]. assert (X : ev s (Leaf (leaf_sym "x")) = s "x"%string) by (cbn [ev]; unfold fv, leaf_sym; cbn [fnum fden]; unfold pv; cbn [fold_right]; unfold tv; cbn [term_sym term_const tco syms sv fold_right fst snd]; rewrite !rv_int; unfold pwr; cbn [den num]; cbn [Z.eqb Pos.eqb]; cbn [powerRZ]; change (Pos.to_nat 1) with 1%nat; cbn [pow]; field).
  split; [|split; [|vm_compute; reflexivity]].
  - set (e := get _). vm_compute in e. subst e. change (has_value s (Op "/" (Op "+" (Op "-" (Leaf (leaf_sym "x")) (Leaf (leaf_sym "x"))) (Leaf (leaf_int 1))) (Op "+" (Op "-" (Leaf (leaf_sym "x")) (Leaf (leaf_sym "x"))) (Leaf (leaf_int 2))))). cbn [has_value]. repeat split; try discriminate. intros _. cbn [ev Ascii.eqb Bool.eqb]. change (fv s (leaf_sym "x")) with (ev s (Leaf (leaf_sym "x"))). change (fv s (leaf_int 2)) with (ev s (Leaf (leaf_int 2))). rewrite X, literal_ev. Lra.lra.
  - set (e := get _). vm_compute in e. subst e. change (ev s (Op "/" (Op "+" (Op "-" (Leaf (leaf_sym "x")) (Leaf (leaf_sym "x"))) (Leaf (leaf_int 1))) (Op "+" (Op "-" (Leaf (leaf_sym "x")) (Leaf (leaf_sym "x"))) (Leaf (leaf_int 2)))) = (1 / 2)%R). cbn [ev Ascii.eqb Bool.eqb]. change (fv s (leaf_sym "x")) with (ev s (Leaf (leaf_sym "x"))). change (fv s (leaf_int 2)) with (ev s (Leaf (leaf_int 2))). change (fv s (leaf_int 1)) with (ev s (Leaf (leaf_int 1))). rewrite X, !literal_ev. field. Lra.lra.
Qed.
(** and a coefficient of the result can have a negative denominator *)
Example C71_negative_denominator_refuted : rational_function 64 (get "(3/(0-2))^3") /\ show (norm (p "(3/(0-2))^3")) = Ok "-27/-1/-8"%string.
Proof. split; [is_rf|]. vm_compute. reflexivity. Qed.
