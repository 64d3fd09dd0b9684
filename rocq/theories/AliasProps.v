(** C79, C80: the compound assignment operators as programs on an object (AliasModel.v), the argument being the object itself or another one.
    [done (op x a)]: the object after `a op= x`, if the call returns; [Itself] is the object, [Other b] another object holding b;
    [copy_safe op]: `a op= a` does what it does with a copy of a; [keeps p a]: if p throws on a, a is unchanged.
    [sane_*]: no denominator is 0 (everything the constructors build: C59); [calm P]: C59_environment; [fval P s f v]: f is well-formed and has the
    value v under the assignment s. *)
From Coq Require Import ZArith QArith Reals String Ascii Lia Lra Bool List.
From Verif Require Import Base AdapterModel HugeModel HugeSpec RationalModel RationalSpec RealModel RealSpec RealProofs4 RealProofs5 RealProofs6 PolyModel PolySpec PolyProofs1 PolyProofs2 PolyProofs3 PolyProofs5 PolyProofs6 CliModel.
From Verif Require Import AliasModel AliasSpec AliasProofs1 ErrSpec ErrProofs1 ErrProofs2 ErrProofs3 ErrProofs4 AliasProofs2 AliasProofs3.
Import ListNotations.
Open Scope Z_scope.

Local Definition E64 : env := std_env 64 true (fun k => Z.of_nat k * Z.of_nat k * 3 + 1) 200 0.
Local Definition P64 : penv := PEnv E64 (isort 64).
Local Lemma E64_ok : okenv E64. Proof. split; [cbn; lia|]. split; [apply std_sound|apply std_exact; lia]. Qed.
Local Lemma P64_ok : machine P64 /\ sort_orders P64. Proof. exact (isort_machine E64 E64_ok). Qed.
Local Lemma P64_calm : calm P64. Proof. exact (std_calm 64 true _ 200 0). Qed.
Local Definition int (n : Z) : real := Real 1 (Rat 1 1) (Rat n 1).
Local Definition cst (n : Z) : term := term_const (int n).
Local Definition x : term := term_sym (int 1) "x".
Local Definition y : term := term_sym (int 1) "y".

(** ** C79 *)
(** the programs compute what the value models of C01-C58 compute, also when the argument is the object *)
Theorem C79_huge x a :
  done (huge_add_p x a) = Ok (huge_add a (at_arg x a)) /\ done (huge_sub_p x a) = Ok (huge_sub a (at_arg x a)) /\ done (huge_mul_p x a) = huge_mul a (at_arg x a) /\
  done (huge_div_p x a) = huge_div a (at_arg x a) /\ done (huge_mod_p x a) = huge_mod a (at_arg x a).
Proof. exact (conj (huge_add_done x a) (conj (huge_sub_done x a) (conj (huge_mul_done x a) (conj (huge_div_done x a) (huge_mod_done x a))))). Qed.
Print Assumptions C79_huge.
Theorem C79_huge_copy : copy_safe huge_add_p /\ copy_safe huge_sub_p /\ copy_safe huge_mul_p /\ copy_safe huge_div_p /\ copy_safe huge_mod_p.
Proof.
  repeat apply conj; intros a; [rewrite !huge_add_done|rewrite !huge_sub_done|rewrite !huge_mul_done|rewrite !huge_div_done|rewrite !huge_mod_done]; reflexivity.
Qed.
Print Assumptions C79_huge_copy.
(** postfix ++ and -- return the old value *)
Theorem C79_huge_postfix a : fst (postfix huge_incr_p a) = a /\ done (snd (postfix huge_incr_p a)) = Ok (huge_add a huge_one) /\
  fst (postfix huge_decr_p a) = a /\ done (snd (postfix huge_decr_p a)) = Ok (huge_sub a huge_one).
Proof. exact (conj eq_refl (conj (huge_add_done (Other huge_one) a) (conj eq_refl (huge_sub_done (Other huge_one) a)))). Qed.
Print Assumptions C79_huge_postfix.
Theorem C79_rational w x a :
  done (rat_add_p w x a) = rat_add w a (at_arg x a) /\ done (rat_sub_p w x a) = rat_sub w a (at_arg x a) /\ done (rat_mul_p w x a) = rat_mul w a (at_arg x a) /\
  done (rat_div_p w x a) = rat_div w a (at_arg x a).
Proof. exact (conj (add_p w x a) (conj (sub_p w x a) (conj (mul_p w x a) (div_p w x a)))). Qed.
Print Assumptions C79_rational.
Theorem C79_rational_copy w : copy_safe (rat_add_p w) /\ copy_safe (rat_sub_p w) /\ copy_safe (rat_mul_p w) /\ copy_safe (rat_div_p w).
Proof. repeat apply conj; intros a; [rewrite !add_p|rewrite !sub_p|rewrite !mul_p|rewrite !div_p]; reflexivity. Qed.
Print Assumptions C79_rational_copy.
Theorem C79_real E x a :
  done (real_add_p E x a) = real_add E a (at_arg x a) /\ done (real_sub_p E x a) = real_sub E a (at_arg x a) /\ done (real_mul_p E x a) = real_mul E a (at_arg x a) /\
  done (real_div_p E x a) = real_div E a (at_arg x a).
Proof. exact (conj (real_add_done E x a) (conj (real_sub_done E x a) (conj (real_mul_done E x a) (real_div_done E x a)))). Qed.
Print Assumptions C79_real.
Theorem C79_real_copy E : copy_safe (real_add_p E) /\ copy_safe (real_sub_p E) /\ copy_safe (real_mul_p E) /\ copy_safe (real_div_p E).
Proof. repeat apply conj; intros a; [rewrite !real_add_done|rewrite !real_sub_done|rewrite !real_mul_done|rewrite !real_div_done]; reflexivity. Qed.
Print Assumptions C79_real_copy.
(** Term *= walks over the map it changes; Term /= may be given the term's own coefficient *)
Theorem C79_term E x a : keyed (at_arg x a) -> done (term_mul_p E x a) = term_mul E a (at_arg x a).
Proof. exact (term_mul_done E x a). Qed.
Print Assumptions C79_term.
Theorem C79_term_copy E a : keyed a -> done (term_mul_p E Itself a) = done (term_mul_p E (Other a) a).
Proof. intros K. now rewrite !term_mul_done. Qed.
Print Assumptions C79_term_copy.
Theorem C79_term_divide E r a : done (term_div_p E r a) = term_div E a (at_arg r (tco a)).
Proof. exact (term_div_done E r a). Qed.
Print Assumptions C79_term_divide.
(** Poly and Frac: all but += and, for Frac, /= *)
Theorem C79_poly P x a : done (poly_sub_p P x a) = poly_sub_to P a (at_arg x a) /\ done (poly_mul_p P x a) = poly_mul_to P a (at_arg x a).
Proof. exact (conj (poly_sub_done P x a) (poly_mul_done P x a)). Qed.
Print Assumptions C79_poly.
Theorem C79_poly_other P a b r : done (poly_add_p P (Other b) a) = poly_add_to P a b /\ done (poly_div_p P (Elsewhere r) a) = poly_div_to P a r.
Proof. exact (conj (poly_add_other P b a) (poly_div_done P r a)). Qed.
Print Assumptions C79_poly_other.
Theorem C79_poly_copy P : copy_safe (poly_sub_p P) /\ copy_safe (poly_mul_p P).
Proof. apply conj; intros a; [rewrite !poly_sub_done|rewrite !poly_mul_done]; reflexivity. Qed.
Print Assumptions C79_poly_copy.
Theorem C79_frac P x a : done (frac_sub_p P x a) = frac_sub_to P a (at_arg x a) /\ done (frac_mul_p P x a) = frac_mul P a (at_arg x a).
Proof. exact (conj (frac_sub_done P x a) (frac_mul_done P x a)). Qed.
Print Assumptions C79_frac.
Theorem C79_frac_other P a b : done (frac_add_p P (Other b) a) = frac_add P a b /\ done (frac_div_p P (Other b) a) = frac_div P a b.
Proof. exact (conj (frac_add_other P b a) (frac_div_other P b a)). Qed.
Print Assumptions C79_frac_other.
Theorem C79_frac_copy P : copy_safe (frac_sub_p P) /\ copy_safe (frac_mul_p P).
Proof. apply conj; intros a; [rewrite !frac_sub_done|rewrite !frac_mul_done]; reflexivity. Qed.
Print Assumptions C79_frac_copy.
(** p += p is undefined for every polynomial, f += f for every fraction *)
Theorem C79_poly_plus_itself P a : exists why, done (poly_add_p P Itself a) = Ub why.
Proof. exists "vector::insert of its own range"%string. exact (poly_add_itself P a). Qed.
Print Assumptions C79_poly_plus_itself.
Theorem C79_frac_plus_itself P f : exists why, done (frac_add_p P Itself f) = Ub why.
Proof. exact (frac_add_itself P f). Qed.
Print Assumptions C79_frac_plus_itself.
(** f /= f is 1 / denominator of f, not 1 *)
Theorem C79_frac_divide_itself P s f v g : machine P -> calm P -> fval P s f v -> v <> 0%R -> done (frac_div_p P Itself f) = Ok g -> fval P s g (/ pv s (fden f)).
Proof.
  intros M C V N D. assert (NZ : pv s (fnum f) <> 0%R) by (intros X; apply N; destruct V as (_ & _ & <-); unfold fv; rewrite X; unfold Rdiv; ring).
  pose proof (frac_div_itself_ends P M C s f v V NZ) as H. unfold ends, done in *. destruct (snd (frac_div_p P Itself f)); try discriminate. injection D as <-. exact H.
Qed.
Print Assumptions C79_frac_divide_itself.
(** p /= the coefficient of the term t of p: the terms before t and t are divided, those after t are not *)
Theorem C79_poly_divide_own P s a t b r : machine P -> pgood P s (a ++ t :: b) -> done (poly_div_p P (Coefficient (length a)) (a ++ t :: b)) = Ok r ->
  pgood P s r /\ pv s r = ((pv s a + tv s t) / rv (tco t) + pv s b)%R.
Proof. exact (poly_div_own_value P s a t b r). Qed.
Print Assumptions C79_poly_divide_own.

(** examples: 3 += itself, (6/4)/=itself, x*y^2 *= itself, (x+1) *= itself, 2^40 %= itself *)
Example C79_huge_example : option_map hval (match done (huge_mul_p Itself (mkHuge [7; 1] false)) with Ok r => Some r | _ => None end) = Some ((2 ^ 30 + 7) ^ 2).
Proof. vm_compute. reflexivity. Qed.
Example C79_rational_example : done (rat_add_p 64 Itself (Rat 3 4)) = Ok (Rat 3 2) /\ done (rat_sub_p 64 Itself (Rat 3 4)) = Ok (Rat 0 1) /\
  done (rat_mul_p 64 Itself (Rat 3 4)) = Ok (Rat 9 16) /\ done (rat_div_p 64 Itself (Rat 3 4)) = Ok (Rat 1 1).
Proof. vm_compute. repeat split. Qed.
Example C79_real_example : done (real_mul_p E64 Itself (Real 2 (Rat 2 1) (Rat 3 1))) = Ok (int 18) /\ done (real_div_p E64 Itself (Real 2 (Rat 2 1) (Rat 3 1))) = Ok (int 1).
Proof. vm_compute. repeat split. Qed.
Local Definition xy2 : term := Term (int 3) [("x", Rat 1 1); ("y", Rat 2 1)]%string.
Example C79_term_example : keyed xy2 /\ done (term_mul_p E64 Itself xy2) = Ok (Term (int 9) [("x", Rat 2 1); ("y", Rat 4 1)]%string).
Proof. split; [|vm_compute; reflexivity]. unfold keyed. cbn. constructor; [cbn; intuition discriminate|]. constructor; [intros []|constructor]. Qed.
Example C79_poly_example : done (poly_mul_p P64 Itself [x; cst 1]) = Ok [Term (int 1) [("x", Rat 2 1)]%string; Term (int 2) [("x", Rat 1 1)]%string; cst 1] /\
  done (poly_sub_p P64 Itself [x]) = Ok [Term (int 0) [("x", Rat 1 1)]%string].
Proof. split; vm_compute; reflexivity. Qed.
(** (x/y) /= itself is 1/y; (2 x + 4) /= its first coefficient is x + 4 *)
Theorem C79_frac_divide_itself_refuted : done (frac_div_p P64 Itself (Frac [x] [y])) = Ok (Frac [Term (int 1) [("x", Rat 1 1); ("y", Rat 1 1)]%string] [Term (int 1) [("x", Rat 1 1); ("y", Rat 2 1)]%string]) /\
  done (frac_div_p P64 (Other (Frac [x] [y])) (Frac [x] [y])) <> done (frac_div_p P64 Itself (Frac [x] [y])).
Proof. split; vm_compute; [reflexivity|discriminate]. Qed.
Print Assumptions C79_frac_divide_itself_refuted.
Local Definition s3 (k : string) : R := 3%R.
Lemma C79_frac_hypotheses : fval P64 s3 (Frac [x] [y]) 1.
Proof.
  assert (G : forall k, pgood P64 s3 [term_sym (int 1) k]).
  { intros k. split; constructor; try constructor; cbn.
    - split; [unfold wf; cbn; lia|reflexivity].
    - split; [constructor; [intros []|constructor]|]. constructor; [|constructor]. split; [cbn; lia|reflexivity].
    - unfold adm1. cbn. left. unfold s3. lra.
    - constructor. }
  assert (V : forall k, pv s3 [term_sym (int 1) k] = 3%R).
  { intros k. rewrite pv_cons. unfold tv, term_sym. cbn [tco syms sv fold_right fst snd pv]. change (int 1) with (Real 1 (Rat 1 1) (Rat 1 1)). rewrite rv_one. unfold pwr. cbn [den Z.eqb num s3 powerRZ Pos.to_nat]. unfold s3. cbn. change (Pos.to_nat 1) with 1%nat. rewrite pow_1. ring. }
  unfold x, y. split; [split; apply G|]. cbn [fnum fden]. unfold fv. cbn [fnum fden]. rewrite !V. split; [lra|]. field.
Qed.
Theorem C79_poly_divide_own_refuted : done (poly_div_p P64 (Coefficient 0) [Term (int 2) [("x", Rat 1 1)]%string; cst 4]) = Ok [x; cst 4] /\
  done (poly_div_p P64 (Elsewhere (int 2)) [Term (int 2) [("x", Rat 1 1)]%string; cst 4]) = Ok [x; cst 2].
Proof. split; vm_compute; reflexivity. Qed.
Print Assumptions C79_poly_divide_own_refuted.

(** ** C80: a compound assignment that throws leaves the object as it was *)
Theorem C80_huge x a : keeps (huge_add_p x) a /\ keeps (huge_sub_p x) a /\ keeps (huge_mul_p x) a /\ keeps (huge_div_p x) a /\ keeps (huge_mod_p x) a.
Proof. exact (conj (huge_add_keeps x a) (conj (huge_sub_keeps x a) (conj (huge_mul_keeps x a) (conj (huge_div_keeps x a) (huge_mod_keeps x a))))). Qed.
Print Assumptions C80_huge.
Theorem C80_rational w x a : sane_rat a -> sane_rat (at_arg x a) ->
  keeps (rat_add_p w x) a /\ keeps (rat_sub_p w x) a /\ keeps (rat_mul_p w x) a /\ keeps (rat_div_p w x) a.
Proof. intros A B. exact (conj (keeps_quiet_o _ _ _ (rat_add_quiet w x a A B)) (conj (keeps_quiet_o _ _ _ (rat_sub_quiet w x a A B)) (conj (keeps_quiet_o _ _ _ (rat_mul_quiet w x a A B)) (rat_div_keeps w x a A)))). Qed.
Print Assumptions C80_rational.
Theorem C80_real E x a : (forall n, no_exception (efac E n)) -> sane_real a -> sane_real (at_arg x a) ->
  keeps (real_add_p E x) a /\ keeps (real_sub_p E x) a /\ keeps (real_mul_p E x) a /\ keeps (real_div_p E x) a.
Proof. intros F A B. exact (conj (real_add_keeps E F x a A B) (conj (real_sub_keeps E F x a A B) (conj (keeps_quiet_o _ _ _ (real_mul_quiet E F x a A B)) (real_div_keeps E F x a A)))). Qed.
Print Assumptions C80_real.
Theorem C80_term E x r a : (forall n, no_exception (efac E n)) -> keyed (at_arg x a) -> sane_term a -> sane_term (at_arg x a) -> keeps (term_mul_p E x) a /\ keeps (term_div_p E r) a.
Proof. intros F K A B. exact (conj (keeps_quiet_o _ _ _ (term_mul_quiet E F x a K A B)) (term_div_keeps E F r a A)). Qed.
Print Assumptions C80_term.
Theorem C80_poly P x r a : calm P -> sane_poly a -> sane_poly (at_arg x a) ->
  keeps (poly_add_p P x) a /\ keeps (poly_sub_p P x) a /\ keeps (poly_mul_p P x) a /\ keeps (poly_div_p P (Elsewhere r)) a.
Proof. intros C A B. exact (conj (keeps_quiet_o _ _ _ (poly_add_quiet P C x a A B)) (conj (keeps_quiet_o _ _ _ (poly_sub_quiet P C x a A B)) (conj (keeps_quiet_o _ _ _ (poly_mul_quiet P C x a A B)) (poly_div_keeps P C r a A)))). Qed.
Print Assumptions C80_poly.
(** Frac: after an exception the object has the value it had, or the value the operation should give *)
Theorem C80_frac P s f g a b m : machine P -> calm P -> fval P s f a -> fval P s g b ->
  (snd (frac_add_p P (Other g) f) = Throw m -> fst (frac_add_p P (Other g) f) = f \/ fval P s (fst (frac_add_p P (Other g) f)) (a + b)) /\
  (snd (frac_sub_p P (Other g) f) = Throw m -> fst (frac_sub_p P (Other g) f) = f \/ fval P s (fst (frac_sub_p P (Other g) f)) (a - b)) /\
  (snd (frac_mul_p P (Other g) f) = Throw m -> fval P s (fst (frac_mul_p P (Other g) f)) (a * b)) /\
  (b <> 0%R -> snd (frac_div_p P (Other g) f) = Throw m -> fst (frac_div_p P (Other g) f) = f \/ fval P s (fst (frac_div_p P (Other g) f)) (a / b)).
Proof.
  intros M C A B. pose proof (frac_add_ends P M C s g f a b A B) as H1. pose proof (frac_sub_ends P M C s (Other g) f a b A B) as H2. pose proof (frac_mul_ends P M C s (Other g) f a b A B) as H3. unfold ends in *.
  split; [intros E; rewrite E in H1; exact H1|]. split; [intros E; rewrite E in H2; exact H2|]. split; [intros E; rewrite E in H3; exact H3|]. intros N E. pose proof (frac_div_ends P M C s g f a b A B N) as H4. unfold ends in H4. rewrite E in H4. exact H4.
Qed.
Print Assumptions C80_frac.
(** dividing by zero leaves it alone *)
Theorem C80_frac_zero P x f : poly_is_zero (pe P) (fnum (at_arg x f)) = Ok true -> snd (frac_div_p P x f) = Throw division_by_zero /\ fst (frac_div_p P x f) = f.
Proof. intros Z. rewrite (frac_div_zero_keeps P x f Z). split; reflexivity. Qed.
Print Assumptions C80_frac_zero.
(** in every case it can be used on: no denominator is 0 *)
Theorem C80_frac_usable P x f m : calm P -> sane_frac f -> sane_frac (at_arg x f) ->
  (snd (frac_add_p P x f) = Throw m -> sane_frac (fst (frac_add_p P x f))) /\ (snd (frac_sub_p P x f) = Throw m -> sane_frac (fst (frac_sub_p P x f))) /\
  (snd (frac_mul_p P x f) = Throw m -> sane_frac (fst (frac_mul_p P x f))) /\ (snd (frac_div_p P x f) = Throw m -> sane_frac (fst (frac_div_p P x f))).
Proof.
  intros C A B. assert (X : sane_arg x) by (intros b E; subst x; exact B).
  pose proof (steady_frac_add P C x X f A) as H1. pose proof (steady_frac_sub P C x X f A) as H2. pose proof (steady_frac_mul P C x X f A) as H3. pose proof (steady_frac_div P C x X f A) as H4.
  repeat apply conj; intros E; [rewrite E in H1|rewrite E in H2|rewrite E in H3|rewrite E in H4]; assumption.
Qed.
Print Assumptions C80_frac_usable.
(** it need not be unchanged: with f = 0 x + 1 (from x - x + 1) and g = 1 / (0 x + 2), f *= g throws and f has the value 1/2 *)
Local Definition zx : term := Term (int 0) [("x", Rat 1 1)]%string.
Local Definition f0 : frac := Frac [zx; cst 1] [cst 1].
Local Definition g0 : frac := Frac [cst 1] [zx; cst 2].
Theorem C80_frac_refuted : frac_mul_p P64 (Other g0) f0 = (Frac [zx; cst 1] [zx; cst 2], Throw division_by_zero) /\ sane_frac f0 /\ sane_frac g0 /\ ~ keeps (frac_mul_p P64 (Other g0)) f0.
Proof.
  assert (H : frac_mul_p P64 (Other g0) f0 = (Frac [zx; cst 1] [zx; cst 2], Throw division_by_zero)) by (vm_compute; reflexivity).
  split; [exact H|]. split; [split; repeat constructor; discriminate|]. split; [split; repeat constructor; discriminate|]. intros K. specialize (K division_by_zero). rewrite H in K. specialize (K eq_refl). discriminate.
Qed.
Print Assumptions C80_frac_refuted.
(** the exceptions that do occur *)
Example C80_huge_example : huge_div_p (Other (mkHuge [] true)) (mkHuge [5] true) = (mkHuge [5] true, Throw division_by_zero).
Proof. vm_compute. reflexivity. Qed.
Example C80_rational_example : rat_div_p 64 (Other (Rat 0 1)) (Rat 3 4) = (Rat 3 4, Throw division_by_zero).
Proof. vm_compute. reflexivity. Qed.
Example C80_real_example : real_add_p E64 (Other (Real 2 (Rat 2 1) (Rat 3 1))) (int 1) = (int 1, Throw radicands_differ) /\ real_div_p E64 (Other (int 0)) (int 1) = (int 1, Throw division_by_zero).
Proof. split; vm_compute; reflexivity. Qed.
Example C80_poly_example : poly_div_p P64 (Elsewhere (int 0)) [x; cst 2] = ([x; cst 2], Throw division_by_zero).
Proof. vm_compute. reflexivity. Qed.
