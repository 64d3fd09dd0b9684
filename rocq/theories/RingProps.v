(** C70: polynomial expressions (+, -, * and literal powers over symbols and integers) simplify to a canonical form: equal functions have the same text.
    Vocabulary: RingSpec.v ([polynomial], [monomial], [expanded]), ExprSpec.v ([ev], the value of a tree), PolySpec.v ([fv]). *)
From Coq Require Import ZArith QArith Qreals Reals String Ascii Lia Lra Bool List Sorted.
From Verif Require Import Base AdapterModel FactorizeModel RationalModel RationalSpec RationalProofs RealModel RealSpec RealProofs3 RealProofs6 PolyModel PolySpec PolyProofs2 PolyProofs3 PolyProofs5 PolyProofs6 ExprModel ExprSpec ExprProofs1 ParserModel ParserSpec TextSpec TextProofs1 TextProofs2
  PrintSpec PrintProofs5 RingSpec RingProofs1 RingProofs2 RingProofs3 RingProofs4 RingProofs5 RingProofs6 RingProofs7 RingProofs8 RingProofs9 RingProofs10 RingProofs11.
Import ListNotations.
Open Scope Z_scope.

Local Definition E64 : env := std_env 64 true (fun k => Z.of_nat k * Z.of_nat k * 3 + 1) 200 0.
Local Definition P64 : penv := PEnv E64 (isort 64).
Local Definition dec (s : text) : res rat := Throw "decimal".
Local Definition p (s : string) : res expr := parse P64 dec (txt s).
Local Definition show (e : res expr) : res string := t <- e ;; x <- expr_to_string E64 t ;; Ok (string_of_list_ascii x).
Local Definition norm (e : res expr) : res expr := t <- e ;; expr_normalize P64 t.
Local Lemma P64_ok : machine P64 /\ sort_orders P64.
Proof. apply (isort_machine E64). split; [cbn; lia|]. split; [apply std_sound|apply std_exact; lia]. Qed.
Local Lemma P64_reads : reads P64. Proof. apply std_reads; lia. Qed.

(** normalize, then to_string; normalize, then to_tex *)
Definition simplifies_to (P : penv) (e : expr) (t : text) : Prop := exists e', expr_normalize P e = Ok e' /\ expr_to_string (pe P) e' = Ok t.
Definition typeset_as (P : penv) (e : expr) (t : text) : Prop := exists e', expr_normalize P e = Ok e' /\ expr_to_tex (pe P) e' = Ok t.

(** a polynomial expression that simplifies at all becomes one expanded polynomial with the same value, everywhere *)
Theorem C70_expanded P e e' : machine P -> sort_orders P -> reads P -> polynomial (ew (pe P)) e -> expr_normalize P e = Ok e' ->
  exists f, e' = Leaf f /\ expanded (ew (pe P)) f /\ forall s, fv s f = ev s e.
Proof.
  intros HM HS HR Q H. destruct (normalize_try P HR HM HS e e' Q H) as (f & -> & F). exists f. split; [reflexivity|]. split; [now apply (sfrac_expanded P)|]. intros s. rewrite (simplified P HR HM s e f Q H (proj1 F)). apply (fv_i P). apply F.
Qed.
Print Assumptions C70_expanded.
(** and is then printed, in both ways *)
Theorem C70_prints P e e' : machine P -> sort_orders P -> reads P -> polynomial (ew (pe P)) e -> expr_normalize P e = Ok e' -> (exists t, simplifies_to P e t) /\ (exists t, typeset_as P e t).
Proof.
  intros HM HS HR Q H. destruct (C70_expanded P e e' HM HS HR Q H) as (f & -> & F & _). destruct (expanded_prints P HR f F) as [(a & A) (b & B)]. split; [exists a|exists b]; exists (Leaf f); now split.
Qed.
Print Assumptions C70_prints.
(** the text is an expression with the same value *)
Theorem C70_reads_back P dec e t : machine P -> sort_orders P -> reads P -> polynomial (ew (pe P)) e -> simplifies_to P e t -> exists e', parse P dec t = Ok e' /\ forall s, ev s e' = ev s e.
Proof.
  intros HM HS HR Q (e' & H & T). destruct (normalize_try P HR HM HS e e' Q H) as (f & -> & F). destruct (frac_reads_back P dec HM HR f t (plain_i P HR f F) T) as (e'' & A & B). exists e''. split; [exact A|]. intros s. rewrite B. rewrite (simplified P HR HM s e f Q H (proj1 F)). apply (fv_i P). apply F.
Qed.
Print Assumptions C70_reads_back.
(** two expressions have the same text exactly if they have the same values; equality for positive values of the symbols is enough *)
Theorem C70_canonical P e1 e2 t1 t2 : machine P -> sort_orders P -> reads P -> polynomial (ew (pe P)) e1 -> polynomial (ew (pe P)) e2 -> simplifies_to P e1 t1 -> simplifies_to P e2 t2 ->
  (t1 = t2 <-> forall s, ev s e1 = ev s e2) /\ ((forall s, (forall k, 0 < s k)%R -> ev s e1 = ev s e2) -> t1 = t2).
Proof.
  intros HM HS HR Q1 Q2 S1 S2.
  assert (C : (forall s, (forall k, 0 < s k)%R -> ev s e1 = ev s e2) -> t1 = t2).
  { intros V. destruct S1 as (x1 & H1 & T1), S2 as (x2 & H2 & T2). destruct (normalize_try P HR HM HS e1 x1 Q1 H1) as (f1 & -> & _). destruct (normalize_try P HR HM HS e2 x2 Q2 H2) as (f2 & -> & _). destruct (text_complete P HR HM HS e1 e2 f1 f2 t1 t2 Q1 Q2 H1 H2 V) as [A _]. now apply A. }
  split; [|exact C]. split; [|intros V; apply C; intros s _; apply V].
  intros <- s. destruct (C70_reads_back P (fun _ => Throw "") e1 t1 HM HS HR Q1 S1) as (x & X & Vx). destruct (C70_reads_back P (fun _ => Throw "") e2 t1 HM HS HR Q2 S2) as (y & Y & Vy). rewrite X in Y. injection Y as <-. now rewrite <- Vx, Vy.
Qed.
Print Assumptions C70_canonical.
Theorem C70_tex P e1 e2 t1 t2 : machine P -> sort_orders P -> reads P -> polynomial (ew (pe P)) e1 -> polynomial (ew (pe P)) e2 -> typeset_as P e1 t1 -> typeset_as P e2 t2 -> (forall s, (forall k, 0 < s k)%R -> ev s e1 = ev s e2) -> t1 = t2.
Proof.
  intros HM HS HR Q1 Q2 (x1 & H1 & T1) (x2 & H2 & T2) V. destruct (normalize_try P HR HM HS e1 x1 Q1 H1) as (f1 & -> & _). destruct (normalize_try P HR HM HS e2 x2 Q2 H2) as (f2 & -> & _). destruct (text_complete P HR HM HS e1 e2 f1 f2 t1 t2 Q1 Q2 H1 H2 V) as [_ A]. now apply A.
Qed.
Print Assumptions C70_tex.
(** the text is "0" exactly for the zero function *)
Theorem C70_zero P e t : machine P -> sort_orders P -> reads P -> polynomial (ew (pe P)) e -> simplifies_to P e t -> (t = txt "0" <-> forall s, ev s e = 0%R).
Proof.
  intros HM HS HR Q (e' & H & T). destruct (normalize_try P HR HM HS e e' Q H) as (f & -> & _). destruct (zero_test P HR HM HS e f t Q H T) as [A B]. split; [exact A|]. intros V. apply B. intros s _. apply V.
Qed.
Print Assumptions C70_zero.
(** e1 - e2 simplifies to "0" exactly if e1 and e2 are equal functions *)
Theorem C70_difference P e1 e2 t : machine P -> sort_orders P -> reads P -> polynomial (ew (pe P)) e1 -> polynomial (ew (pe P)) e2 -> simplifies_to P (Op "-" e1 e2) t -> (t = txt "0" <-> forall s, ev s e1 = ev s e2).
Proof.
  intros HM HS HR Q1 Q2 S. assert (Q : polynomial (ew (pe P)) (Op "-" e1 e2)) by (cbn [polynomial]; split; [exact Q1|]; left; split; [right; now left|exact Q2]). rewrite (C70_zero P _ t HM HS HR Q S). split; intros V s; specialize (V s).
  - change (ev s (Op "-" e1 e2)) with (ev s e1 - ev s e2)%R in V. lra.
  - change (ev s (Op "-" e1 e2)) with (ev s e1 - ev s e2)%R. rewrite V. ring.
Qed.
Print Assumptions C70_difference.

(** if its weight and its degree are representable, an expression is simplified and printed: no overflow, no error (the sort must return when its comparisons do) *)
Theorem C70_total P e : machine P -> sort_orders P -> sort_returns P -> reads P -> ew (pe P) <= 128 -> polynomial (ew (pe P)) e -> weight e < 2 ^ (ew (pe P) - 1) -> weight e <= 2 ^ 53 -> degree e < 2 ^ (ew (pe P) - 1) ->
  (exists t, simplifies_to P e t) /\ (exists t, typeset_as P e t).
Proof. intros HM HS HT HR W Q A1 A2 A3. destruct (normalize_ok P HR HM HS HT W e Q A1 A2 A3) as (f & H). exact (C70_prints P e (Leaf f) HM HS HR Q H). Qed.
Print Assumptions C70_total.
(** so simplification decides whether two such expressions have the same values *)
Theorem C70_decides P e1 e2 : machine P -> sort_orders P -> sort_returns P -> reads P -> ew (pe P) <= 128 -> (forall e, e = e1 \/ e = e2 -> polynomial (ew (pe P)) e /\ weight e < 2 ^ (ew (pe P) - 1) /\ weight e <= 2 ^ 53 /\ degree e < 2 ^ (ew (pe P) - 1)) ->
  exists t1 t2, simplifies_to P e1 t1 /\ simplifies_to P e2 t2 /\ (t1 = t2 <-> forall s, ev s e1 = ev s e2).
Proof.
  intros HM HS HT HR W Q. destruct (Q e1 (or_introl eq_refl)) as (Q1 & A1 & B1 & D1). destruct (Q e2 (or_intror eq_refl)) as (Q2 & A2 & B2 & D2). destruct (C70_total P e1 HM HS HT HR W Q1 A1 B1 D1) as [(t1 & H1) _]. destruct (C70_total P e2 HM HS HT HR W Q2 A2 B2 D2) as [(t2 & H2) _]. exists t1, t2. split; [exact H1|]. split; [exact H2|]. apply (C70_canonical P e1 e2 t1 t2 HM HS HR Q1 Q2 H1 H2).
Qed.
Print Assumptions C70_decides.

(** ** cases *)
Local Definition get (s : string) : expr := match p s with Ok e => e | _ => Leaf (leaf_int 0) end.
Local Lemma poly_int n : 0 <= n < 2 ^ 63 -> polynomial 64 (Leaf (leaf_int n)). Proof. left. eauto. Qed.
Local Lemma poly_sym c : is_alpha c = true -> polynomial 64 (Leaf (leaf_sym (String c EmptyString))). Proof. right. eexists. split; [|reflexivity]. left. eauto. Qed.
Local Lemma poly_op c l r : (c = "+" \/ c = "-" \/ c = "*")%char -> polynomial 64 l -> polynomial 64 r -> polynomial 64 (Op c l r). Proof. intros. split; [assumption|]. left. now split. Qed.
Local Lemma poly_pow l n : 0 <= n < 2 ^ 63 -> Z.of_nat (fact (Z.to_nat n)) < 2 ^ 63 \/ n <= 2 ^ 53 /\ (exists k, l = Leaf (leaf_sym k)) -> polynomial 64 l -> polynomial 64 (Op "^" l (Leaf (leaf_int n))). Proof. intros. split; [assumption|]. right. split; [reflexivity|]. eauto. Qed.
Local Ltac poly_ok := first [refine (poly_int _ _); lia | refine (poly_sym _ _); reflexivity | refine (poly_pow _ _ _ _ _); [lia|first [right; split; [lia|eexists; reflexivity]|left; reflexivity]|poly_ok] | refine (poly_op _ _ _ _ _ _); [first [left; reflexivity|right; left; reflexivity|right; right; reflexivity]|poly_ok|poly_ok]].
Example C70_cube_is_polynomial : polynomial 64 (get "(x+y)^3-(x-y)^3"). Proof. set (e := get _). vm_compute in e. subst e. poly_ok. Qed.
Example C70_cube : show (norm (p "(x+y)^3-(x-y)^3")) = Ok "2(y**3)+6(x**2)y"%string. Proof. vm_compute. reflexivity. Qed.
Example C70_square : polynomial 64 (get "(x+y)^2-x^2-2*x*y-y^2") /\ simplifies_to P64 (get "(x+y)^2-x^2-2*x*y-y^2") (txt "0").
Proof. split; [set (e := get _); vm_compute in e; subst e; poly_ok|]. exists (match norm (p "(x+y)^2-x^2-2*x*y-y^2") with Ok e => e | _ => Leaf (leaf_int 0) end). split; vm_compute; reflexivity. Qed.
(** so (x + y)^2 - x^2 - 2xy - y^2 = 0 for all x and y *)
Example C70_square_zero s : ev s (get "(x+y)^2-x^2-2*x*y-y^2") = 0%R.
Proof. destruct P64_ok. destruct C70_square as [Q S]. exact (proj1 (C70_zero P64 (get "(x+y)^2-x^2-2*x*y-y^2") (txt "0") H H0 P64_reads Q S) eq_refl s). Qed.
(** without division: a quotient is not brought to a canonical form *)
Example C70_quotients_refuted : show (norm (p "x*y/y")) = Ok "xy/y"%string /\ show (norm (p "x")) = Ok "x"%string /\ show (norm (p "(x^2-1)/(x-1)")) = Ok "((x**2)-1)/(x-1)"%string /\ show (norm (p "x+1")) = Ok "x+1"%string /\ show (norm (p "x/2+x/2")) = Ok "2x/2"%string.
Proof. vm_compute. repeat split; reflexivity. Qed.
(** the weight is what can make it overflow: ((x+y+z+1)^4)^5 has weight 4^20 and is expanded; 2^62 x + 2^62 x is not *)
Example C70_large : polynomial 64 (get "((x+y+z+1)^4)^5-(x-y)^7") /\ weight (get "((x+y+z+1)^4)^5-(x-y)^7") = 4 ^ 20 + 2 ^ 7 /\ degree (get "((x+y+z+1)^4)^5-(x-y)^7") = 20.
Proof. split; [set (e := get _); vm_compute in e; subst e; poly_ok|]. split; vm_compute; reflexivity. Qed.
Example C70_large_returns : exists t, simplifies_to P64 (get "((x+y+z+1)^4)^5-(x-y)^7") t.
Proof.
  destruct P64_ok as [HM HS]. destruct C70_large as (Q & W & D). apply (C70_total P64); try assumption; [exact (isort_returns E64)|exact P64_reads|cbn; lia|rewrite W; vm_compute; reflexivity|rewrite W; vm_compute; discriminate|rewrite D; vm_compute; reflexivity].
Qed.
Example C70_overflow_refuted : polynomial 64 (get "4611686018427387904*x+4611686018427387904*x") /\ weight (get "4611686018427387904*x+4611686018427387904*x") = 2 ^ 63 /\ norm (p "4611686018427387904*x+4611686018427387904*x") = Ub "signed overflow".
Proof. split; [set (e := get _); vm_compute in e; subst e; poly_ok|]. split; vm_compute; reflexivity. Qed.
