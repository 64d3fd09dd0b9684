(** C59, C60: which exceptions the library throws, for a machine integer T.
    Vocabulary (ErrSpec.v): [only_errors r]: an exception that r throws is a symxx::Error; [no_exception r]: r throws none; [sane_*]: no denominator in the
    value is 0; [calm P]: factorize and std::sort throw nothing, and std::sort invents no element (C59_environment: so it is for the code's own). *)
From Coq Require Import ZArith String Ascii Lia Bool List.
From Verif Require Import Base AdapterModel FactorizeModel RationalModel RealModel RealSpec PolyModel ExprModel ParserModel TextSpec CliModel ErrSpec ErrProofs1 ErrProofs2 ErrProofs3 ErrProofs4.
Import ListNotations.
Open Scope Z_scope.

Local Definition E64 : env := std_env 64 true (fun k => Z.of_nat k * Z.of_nat k * 3 + 1) 200 0.
Local Definition P64 : penv := PEnv E64 (isort 64).
Local Definition dec (s : text) : res rat := Throw "invalid_argument".
Local Definition one : rat := Rat 1 1.
Local Definition root2 : real := Real 2 (Rat 2 1) one.
Local Definition X : expr := Leaf (leaf_sym "x").
Local Definition N (n : Z) : expr := Leaf (leaf_int n).

(** what the results keep, beside the exceptions *)
Definition safe {A} (Q : A -> Prop) (r : res A) : Prop := only_errors r /\ forall x, r = Ok x -> Q x.
Local Ltac parts := repeat match goal with |- _ /\ _ => split end.
Definition opt {A} (Q : A -> Prop) (o : option A) : Prop := forall x, o = Some x -> Q x.
Lemma o_safe {A} (Q : A -> Prop) r : outcome err Q r -> safe Q r.
Proof. intros H. split; [exact (o_err Q r H)|]. intros x E. rewrite E in H. exact H. Qed.
Lemma o_opt {A} (Q : A -> Prop) r : outcome err (sane_opt Q) r -> safe (opt Q) r.
Proof. intros H. apply o_safe. eapply o_weak; [exact H|]. intros o O x E. rewrite E in O. exact O. Qed.

(** ** C59 the only exceptions are symxx::Error *)
(** the environment of the code itself, whatever std::random_device delivers *)
Theorem C59_environment w i128 rnd fuel junk : calm (PEnv (std_env w i128 rnd fuel junk) (isort w)).
Proof. exact (std_calm w i128 rnd fuel junk). Qed.
Print Assumptions C59_environment.
(** Rational: every constructor and operator *)
Theorem C59_rational w a b p n d : sane_rat a -> sane_rat b ->
  safe sane_rat (rat_make w n d) /\ safe sane_rat (rat_of_int w n) /\ safe sane_rat (rat_add w a b) /\ safe sane_rat (rat_sub w a b) /\ safe sane_rat (rat_mul w a b) /\
  safe sane_rat (rat_div w a b) /\ safe sane_rat (rat_negate w a) /\ safe sane_rat (rat_inverse w a) /\ safe sane_rat (rpow w a p).
Proof.
  intros A B. parts; apply o_safe; [apply o_make_err|apply o_of_int|apply o_add; assumption| |apply o_mul; assumption|apply o_div; assumption|apply o_negate; assumption|apply o_inverse|
    apply o_rpow; assumption].
  unfold rat_sub. eapply o_bind; [apply o_negate, B|]. intros; apply o_add; assumption.
Qed.
Print Assumptions C59_rational.
Theorem C59_rational_text w dec s : safe sane_rat (rat_of_string w dec s).
Proof. exact (o_safe _ _ (o_rat_of_string w dec s)). Qed.
Print Assumptions C59_rational_text.
(** Real *)
Theorem C59_real E a b c r i p : (forall n, no_exception (efac E n)) -> sane_real a -> sane_real b -> sane_rat c -> sane_rat r -> sane_rat p ->
  safe sane_real (real_make E c r i) /\ safe sane_real (real_add E a b) /\ safe sane_real (real_sub E a b) /\ safe sane_real (real_mul E a b) /\ safe sane_real (real_div E a b) /\
  safe sane_real (real_pow E a p) /\ safe sane_real (real_negate E a) /\ safe sane_rat (real_to_rational (ew E) a) /\ only_errors (real_lt (ew E) a b).
Proof.
  intros F A B C R P. parts; try apply o_safe.
  - apply o_real_make; assumption.
  - apply o_real_add; assumption.
  - apply o_real_sub; assumption.
  - apply o_real_mul; assumption.
  - apply o_real_div; assumption.
  - apply o_real_pow; assumption.
  - apply o_real_negate; assumption.
  - apply o_real_to_rational; assumption.
  - eapply o_err, o_real_lt; assumption.
Qed.
Print Assumptions C59_real.
(** Poly and Frac *)
Theorem C59_poly P a b q : calm P -> sane_poly a -> sane_poly b -> sane_rat q ->
  safe sane_poly (poly_make P a) /\ safe sane_poly (poly_add P a b) /\ safe sane_poly (poly_sub P a b) /\ safe sane_poly (poly_mul P a b) /\ safe sane_poly (poly_pow P a q) /\
  safe sane_poly (poly_negate (pe P) a) /\ safe (opt sane_real) (poly_try_eval (pe P) a).
Proof.
  intros C A B Q. pose proof (calm_fac P C) as F. parts; try (apply o_safe; auto with calm; fail).
  - apply o_safe. unfold poly_sub. step. destruct x as [[x y]|]; cbn [sane_opt fst snd] in *; [|apply o_sub_to; assumption].
    match goal with Hxy : _ /\ _ |- _ => destruct Hxy end. step. apply o_poly_make; auto with calm.
  - apply o_opt, o_poly_try_eval; assumption.
Qed.
Print Assumptions C59_poly.
Theorem C59_frac P a b n d q v : calm P -> sane_frac a -> sane_frac b -> sane_poly n -> sane_poly d -> sane_rat q -> sane_env v ->
  safe sane_frac (frac_make P n d) /\ safe sane_frac (frac_add P a b) /\ safe sane_frac (frac_sub P a b) /\ safe sane_frac (frac_mul P a b) /\ safe sane_frac (frac_div P a b) /\
  safe sane_frac (frac_pow P a q) /\ safe sane_frac (frac_subst P v a) /\ safe (opt sane_real) (frac_try_eval P a) /\ safe sane_rat (frac_to_rational (ew (pe P)) a).
Proof.
  intros C A B N D Q V. parts; try (apply o_safe; auto with calm; fail).
  - apply o_opt, o_frac_try_eval; assumption.
Qed.
Print Assumptions C59_frac.
(** expressions: whatever the text, parsing it, simplifying, evaluating and substituting in what it gives *)
Theorem C59_parse P dec s : calm P -> safe sane_expr (parse P dec s).
Proof. intros C. exact (o_safe _ _ (o_parse P dec s C)). Qed.
Print Assumptions C59_parse.
Theorem C59_expr P e v : calm P -> sane_expr e -> sane_env v ->
  safe sane_expr (expr_normalize P e) /\ safe (opt sane_frac) (expr_try_eval P e) /\ safe sane_expr (expr_subst P v e).
Proof.
  intros C S V. parts; [apply o_safe, o_expr_normalize|apply o_opt, o_expr_try_eval|apply o_safe, o_expr_subst]; assumption.
Qed.
Print Assumptions C59_expr.
(** a std::map of values made by the constructors meets [sane_env]; the text below reaches every layer and fails with an Error *)
Example C59_example_parse : parse P64 dec (txt "1/(2-2)x") = Ok (Op "*" (Op "/" (N 1) (Op "-" (N 2) (N 2))) X) /\ sane_expr (Op "*" (Op "/" (N 1) (Op "-" (N 2) (N 2))) X) /\
  expr_normalize P64 (Op "*" (Op "/" (N 1) (Op "-" (N 2) (N 2))) X) = Throw "Division by zero".
Proof. split; [vm_compute; reflexivity|]. split; [|vm_compute; reflexivity]. repeat split; repeat constructor; cbn; discriminate. Qed.
(** a text with a '.' that std::stold refuses is an Error too *)
Example C59_example_stold : parse P64 dec (txt "..") = Throw "Invaild string.". Proof. vm_compute. reflexivity. Qed.
Example C59_example_too_long : parse P64 dec (txt "99999999999999999999") = Throw "The number is out of range.". Proof. vm_compute. reflexivity. Qed.
Example C59_example_sum : exists m, real_add E64 root2 (Real 1 one one) = Throw m /\ is_std m = false /\ sane_real root2 /\ sane_real (Real 1 one one).
Proof. eexists. split; [vm_compute; reflexivity|]. split; [reflexivity|]. repeat split; cbn; discriminate. Qed.
Example C59_example_env : sane_env [("x"%string, root2)] /\ expr_subst P64 [("x"%string, root2)] (Op "^" X (N 2)) = Ok (N 2).
Proof. split; [repeat constructor; cbn; discriminate|vm_compute; reflexivity]. Qed.
(** the condition: a Rational with denominator 0 (no constructor makes one) fails in another way *)
Theorem C59_denominator_refuted : rat_add 64 (Rat 1 0) (Rat 1 1) = Ub "/ 0".
Proof. vm_compute. reflexivity. Qed.
Print Assumptions C59_denominator_refuted.

(** ** C60 printing throws nothing *)
Theorem C60_printing E (a : real) (l : poly) (f : frac) (e : expr) : (forall n, no_exception (efac E n)) -> sane_poly l -> sane_frac f -> sane_expr e ->
  no_exception (real_to_string (ew E) a) /\ no_exception (real_to_tex (ew E) a) /\ no_exception (poly_to_string E l) /\ no_exception (poly_to_tex E l) /\
  no_exception (frac_to_string E f) /\ no_exception (frac_to_tex E f) /\ no_exception (expr_to_string E e) /\ no_exception (expr_to_tex E e).
Proof.
  intros F L S X. parts; apply o_none with (Q := any);
    [apply o_real_to_string|apply o_real_to_tex|apply o_poly_to_string|apply o_poly_to_tex|apply o_frac_to_string|apply o_frac_to_tex|apply o_expr_to_string|apply o_expr_to_tex]; assumption.
Qed.
Print Assumptions C60_printing.
(** hence what was read from a text, and its simplification, are printed without an exception *)
Theorem C60_read_print P dec s e e' : calm P -> parse P dec s = Ok e -> expr_normalize P e = Ok e' ->
  no_exception (expr_to_string (pe P) e) /\ no_exception (expr_to_string (pe P) e') /\ no_exception (expr_to_tex (pe P) e) /\ no_exception (expr_to_tex (pe P) e').
Proof.
  intros C R M. pose proof (proj2 (C59_parse P dec s C) e R) as S. pose proof (proj2 (proj1 (C59_expr P e [] C S (Forall_nil _))) e' M) as S'.
  pose proof (calm_fac P C) as F. parts; apply o_none with (Q := any); [apply o_expr_to_string|apply o_expr_to_string|apply o_expr_to_tex|apply o_expr_to_tex]; assumption.
Qed.
Print Assumptions C60_read_print.
Example C60_example : exists e e', parse P64 dec (txt "(x+1)/2") = Ok e /\ expr_normalize P64 e = Ok e' /\ expr_to_string E64 e' = Ok (txt "(x+1)/2").
Proof. do 2 eexists. split; [vm_compute; reflexivity|]. split; [vm_compute; reflexivity|]. vm_compute; reflexivity. Qed.
