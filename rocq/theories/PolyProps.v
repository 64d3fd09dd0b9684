(** C33-C39, C52, C57: Term<T>, Poly<T>, Frac<T> for a machine integer T of [ew (pe P)] bits.
    Vocabulary (PolySpec.v): for an assignment s of real numbers to the symbols, [tv s], [pv s], [fv s] are the values of a term, a polynomial, a fraction;
    [twf]/[pwf] well-formed (coefficients as the Real operations return them, every symbol once, exponents reduced);
    [tadm s]/[padm s] every power is defined under s (always so for positive s, and for every s when the exponents are positive integers);
    [machine P]: word size above 1, factorisations as in C29, and std::sort gives some permutation;  [sort_orders P]: moreover a sorted one.
    [frun P e] executes a history of public Frac operations, [fdenotes s e] is the number it stands for, [fdefined s e]: no division by zero. *)
From Coq Require Import ZArith Znumtheory QArith Qreals Reals String Ascii Lia Lra Bool List Permutation Sorted.
From Verif Require Import Base AdapterModel FactorizeModel RationalModel RationalSpec RationalProofs RealModel RealSpec RealProofs4 RealProofs6 PolyModel PolySpec PolyProofs1 PolyProofs2 PolyProofs3 PolyProofs4 PolyProofs5 PolyProofs6.
Import ListNotations.
Open Scope Z_scope.

Local Definition E64 : env := std_env 64 true (fun k => Z.of_nat k * Z.of_nat k * 3 + 1) 200 0.
Local Definition P64 : penv := PEnv E64 (isort 64).
Local Definition int (n : Z) : real := Real 1 (Rat 1 1) (Rat n 1).
Local Definition sqr (m n : Z) : real := Real 2 (Rat m 1) (Rat n 1).
Local Definition x : term := term_sym (int 1) "x".
Local Definition y : term := term_sym (int 1) "y".
Local Lemma E64_ok : okenv E64. Proof. split; [cbn; lia|]. split; [apply std_sound|apply std_exact; lia]. Qed.
(** the hypotheses are met by 64-bit integers, factorize and insertion sort *)
Theorem C34_standard_machine w i128 rnd fuel junk : 26 <= w ->
  machine (PEnv (std_env w i128 rnd fuel junk) (isort w)) /\ sort_orders (PEnv (std_env w i128 rnd fuel junk) (isort w)).
Proof. intros H. apply (isort_machine (std_env w i128 rnd fuel junk)). split; [cbn; lia|]. split; [apply std_sound|now apply std_exact]. Qed.
Print Assumptions C34_standard_machine.
Local Lemma P64_ok : machine P64 /\ sort_orders P64. Proof. exact (isort_machine E64 E64_ok). Qed.
Local Lemma int_ok n : good 64 (int n). Proof. split; [unfold wf; cbn; lia|reflexivity]. Qed.
Local Lemma sqr_ok m n : 1 <= m -> good 64 (sqr m n). Proof. intros H. split; [unfold wf; cbn; lia|discriminate]. Qed.

(** ** C52 terms *)
Theorem C52_product E s a b t : okenv E -> twf (ew E) a -> twf (ew E) b -> tadm s a -> tadm s b -> term_mul E a b = Ok t ->
  twf (ew E) t /\ no_zero_exponent (syms t) /\ canonical (tco t) /\ tadm s t /\ tv s t = (tv s a * tv s b)%R.
Proof. exact (term_mul_value E s a b t). Qed.
Print Assumptions C52_product.
(** the exponents of a product: the sum of the two exponents, absent ones counting 0, symbols with sum 0 absent *)
Theorem C52_exponents E a b t : okenv E -> twf (ew E) a -> twf (ew E) b -> term_mul E a b = Ok t ->
  forall k, (exponent k (syms t) == exponent k (syms a) + exponent k (syms b))%Q.
Proof. exact (mul_exponents E a b t). Qed.
Print Assumptions C52_exponents.
Theorem C52_power E s a n t : okenv E -> 0 <= n -> twf (ew E) a -> tadm s a -> term_pow E a (Rat n 1) = Ok t ->
  twf (ew E) t /\ no_zero_exponent (syms t) /\ tadm s t /\ tv s t = (tv s a ^ Z.to_nat n)%R.
Proof. exact (term_pow_int E s a n t). Qed.
Print Assumptions C52_power.
(** any integer exponent when the symbols' values are not 0 and their exponents are integers *)
Theorem C52_integer_power E s a n t : okenv E -> (forall k, s k <> 0%R) -> Forall (fun p => den (snd p) = 1) (syms a) -> twf (ew E) a -> term_pow E a (Rat n 1) = Ok t ->
  twf (ew E) t /\ no_zero_exponent (syms t) /\ tv s t = powerRZ (tv s a) n /\ (n < 0 -> tv s a <> 0%R).
Proof. exact (term_pow_neg E s a n t). Qed.
Print Assumptions C52_integer_power.
(** any rational exponent when the symbols' values and the coefficient are positive *)
Theorem C52_rational_power E s a q t : okenv E -> (forall k, (0 < s k)%R) -> 0 < den q /\ lowest_terms q -> twf (ew E) a -> 0 < num (coe (tco a)) -> 0 < den (coe (tco a)) -> idx (tco a) * den q < 2 ^ ew E ->
  term_pow E a q = Ok t -> twf (ew E) t /\ no_zero_exponent (syms t) /\ tv s t = Rpower (tv s a) (Q2R (qv q)).
Proof. exact (term_pow_frac E s a q t). Qed.
Print Assumptions C52_rational_power.
(** pow multiplies every exponent *)
Theorem C52_power_exponents E a q t : qok q -> twf (ew E) a -> term_pow E a q = Ok t -> forall k, (exponent k (syms t) == exponent k (syms a) * qv q)%Q.
Proof. exact (pow_exponents E a q t). Qed.
Print Assumptions C52_power_exponents.
Theorem C52_negate E s a t : okenv E -> twf (ew E) a -> tadm s a -> term_negate E a = Ok t ->
  twf (ew E) t /\ no_zero_exponent (syms t) /\ canonical (tco t) /\ tadm s t /\ tv s t = (- tv s a)%R.
Proof. exact (term_negate_value E s a t). Qed.
Print Assumptions C52_negate.
Local Definition t1 : term := Term (sqr 2 3) [("x", Rat 2 1); ("y", Rat (-1) 1)]%string.
Local Definition t2 : term := Term (sqr 6 1) [("y", Rat 1 1); ("z", Rat 1 2)]%string.
Local Lemma t1_ok : twf 64 t1. Proof. split; [apply sqr_ok; lia|]. split; [repeat constructor; cbn; intuition discriminate|repeat constructor]. Qed.
Local Lemma t2_ok : twf 64 t2. Proof. split; [apply sqr_ok; lia|]. split; [repeat constructor; cbn; intuition discriminate|repeat constructor]. Qed.
Example C52_hyp : twf 64 t1 /\ twf 64 t2 /\ term_mul E64 t1 t2 = Ok (Term (sqr 3 6) [("x", Rat 2 1); ("z", Rat 1 2)]%string) /\
  term_pow E64 t1 (Rat 2 1) = Ok (Term (int 18) [("x", Rat 4 1); ("y", Rat (-2) 1)]%string) /\ term_pow E64 t1 (Rat 1 2) = Ok (Term (Real 4 (Rat 18 1) (Rat 1 1)) [("x", Rat 1 1); ("y", Rat (-1) 2)]%string).
Proof. split; [exact t1_ok|]. split; [exact t2_ok|]. vm_compute. auto. Qed.

(** ** C33 polynomial arithmetic *)
Theorem C33_add P s a b r : machine P -> pwf (ew (pe P)) a /\ padm s a -> pwf (ew (pe P)) b /\ padm s b -> poly_add P a b = Ok r ->
  (pwf (ew (pe P)) r /\ padm s r) /\ pv s r = (pv s a + pv s b)%R.
Proof. intros M A B H. destruct (poly_add_value P s a b r M A B H) as (X & Y & _). auto. Qed.
Print Assumptions C33_add.
Theorem C33_sub P s a b r : machine P -> pwf (ew (pe P)) a /\ padm s a -> pwf (ew (pe P)) b /\ padm s b -> poly_sub P a b = Ok r ->
  (pwf (ew (pe P)) r /\ padm s r) /\ pv s r = (pv s a - pv s b)%R.
Proof. exact (poly_sub_value P s a b r). Qed.
Print Assumptions C33_sub.
Theorem C33_mul P s a b r : machine P -> pwf (ew (pe P)) a /\ padm s a -> pwf (ew (pe P)) b /\ padm s b -> poly_mul P a b = Ok r ->
  (pwf (ew (pe P)) r /\ padm s r) /\ pv s r = (pv s a * pv s b)%R.
Proof. intros M A B H. destruct (poly_mul_value P s a b r M A B H) as (X & Y & _). auto. Qed.
Print Assumptions C33_mul.
Theorem C33_negate E s a r : okenv E -> pwf (ew E) a -> padm s a -> poly_negate E a = Ok r -> pwf (ew E) r /\ padm s r /\ pv s r = (- pv s a)%R /\ length r = length a.
Proof. exact (poly_negate_value E s a r). Qed.
Print Assumptions C33_negate.
(** the compound assignments += -= *= /= *)
Theorem C33_assignments P s a b c : machine P -> pwf (ew (pe P)) a /\ padm s a -> pwf (ew (pe P)) b /\ padm s b -> good (ew (pe P)) c ->
  (forall r, poly_add_to P a b = Ok r -> (pwf (ew (pe P)) r /\ padm s r) /\ pv s r = (pv s a + pv s b)%R) /\
  (forall r, poly_sub_to P a b = Ok r -> (pwf (ew (pe P)) r /\ padm s r) /\ pv s r = (pv s a - pv s b)%R) /\
  (forall r, poly_mul_to P a b = Ok r -> (pwf (ew (pe P)) r /\ padm s r) /\ pv s r = (pv s a * pv s b)%R) /\
  (forall r, poly_div_to P a c = Ok r -> (pwf (ew (pe P)) r /\ padm s r) /\ pv s r = (pv s a / rv c)%R /\ (a <> [] -> rv c <> 0%R)).
Proof.
  intros M A B C. repeat split; intros.
  all: try (apply (poly_add_to_value P s) in H as (X & Y & _); try assumption; apply X || exact Y).
  all: try (apply (poly_sub_to_value P s) in H as (X & Y); try assumption; apply X || exact Y).
  all: try (apply (poly_mul_to_value P s) in H as (X & Y & _); try assumption; apply X || exact Y).
  all: apply (poly_div_to_value P s) in H as (X & Y & Z & _); try assumption; (apply X || exact Y || now apply Z).
Qed.
Print Assumptions C33_assignments.
(** every symbol positive: all powers are defined *)
Theorem C33_positive_assignments s l : (forall k, (0 < s k)%R) -> padm s l.
Proof. intros H. unfold padm. rewrite Forall_forall. intros t _. now apply sadm_pos. Qed.
Print Assumptions C33_positive_assignments.
Local Lemma xy_ok : pwf 64 [x; y]. Proof. repeat constructor; cbn; try lia; intuition discriminate. Qed.
Example C33_hyp : machine P64 /\ pwf 64 [x; y] /\ pwf 64 [t1; t2] /\
  poly_mul P64 [x; y] [y; x] = Ok [Term (int 1) [("y", Rat 2 1)]%string; Term (int 1) [("x", Rat 2 1)]%string; Term (int 2) [("x", Rat 1 1); ("y", Rat 1 1)]%string] /\
  is_ok (poly_mul P64 [t1; t2] [t2; x]) = true /\ poly_sub P64 [x; y] [y; x] = Ok [Term (int 0) [("y", Rat 1 1)]%string; Term (int 0) [("x", Rat 1 1)]%string].
Proof. split; [apply P64_ok|]. split; [exact xy_ok|]. split; [constructor; [exact t1_ok|constructor; [exact t2_ok|constructor]]|]. vm_compute. auto. Qed.

(** ** C34 normalisation *)
Theorem C34_normalize_value P s l l' : machine P -> pwf (ew (pe P)) l -> padm s l -> poly_normalize P l = Ok l' ->
  pwf (ew (pe P)) l' /\ padm s l' /\ pv s l' = pv s l /\ (l' = [] <-> l = []).
Proof. exact (poly_normalize_value P s l l'). Qed.
Print Assumptions C34_normalize_value.
(** of two like terms at least one is zero *)
Theorem C34_like_terms P l l' : machine P -> sort_orders P -> Forall (fun t => (twf (ew (pe P)) t /\ canonical (tco t)) /\ no_zero_exponent (syms t)) l -> poly_normalize P l = Ok l' ->
  ForallOrdPairs (fun a b => like a b -> rv (tco a) = 0%R \/ rv (tco b) = 0%R) l'.
Proof. exact (normalize_like P l l'). Qed.
Print Assumptions C34_like_terms.
(** with rational coefficients every combination of symbols occurs once *)
Theorem C34_rational_distinct P l l' : machine P -> sort_orders P -> Forall (fun t => (twf (ew (pe P)) t /\ canonical (tco t)) /\ no_zero_exponent (syms t)) l -> Forall (fun t => idx (tco t) = 1) l ->
  poly_normalize P l = Ok l' -> ForallOrdPairs (fun a b => syms a <> syms b) l' /\ Forall (fun t => idx (tco t) = 1) l'.
Proof. exact (normalize_rational P l l'). Qed.
Print Assumptions C34_rational_distinct.
Local Lemma int_canonical n : canonical (int n).
Proof.
  exists 1. unfold int. cbn [rad idx coe num den]. repeat split; try lia.
  - intros p Hp D. rewrite Z.pow_1_r in D. destruct Hp as [Hp _]. apply Z.divide_1_r_nonneg in D; lia.
  - intros d k Hd D. apply Z.divide_1_r_nonneg in D; lia.
Qed.
Example C34_hyp : machine P64 /\ sort_orders P64 /\ Forall (fun t => (twf 64 t /\ canonical (tco t)) /\ no_zero_exponent (syms t)) [x; y; x] /\ Forall (fun t => idx (tco t) = 1) [x; y; x] /\
  poly_normalize P64 [x; y; x] = Ok [y; term_sym (int 2) "x"].
Proof.
  split; [apply P64_ok|]. split; [apply P64_ok|]. split; [|split; [repeat constructor|vm_compute; reflexivity]].
  assert (H : forall k, (twf 64 (term_sym (int 1) k) /\ canonical (int 1)) /\ no_zero_exponent [(k, Rat 1 1)]).
  { intros k. split; [split; [|apply int_canonical]|repeat constructor; cbn; lia]. split; [apply int_ok|]. split; [repeat constructor; intros []|repeat constructor]. }
  constructor; [apply H|]. constructor; [apply H|]. constructor; [apply H|constructor].
Qed.
(** sqrt3 x - sqrt3 x + sqrt2 x + 3x becomes 0x, sqrt2 x, 3x: the zero term stays and is not merged with 3x, and normalising again changes the polynomial;
    zero terms are kept (x - x has one term) *)
Theorem C34_unmerged_zero_refuted :
  let l := [term_sym (sqr 3 1) "x"; term_sym (sqr 3 (-1)) "x"; term_sym (sqr 2 1) "x"; term_sym (int 3) "x"] in
  poly_normalize P64 l = Ok [term_sym (int 0) "x"; term_sym (sqr 2 1) "x"; term_sym (int 3) "x"] /\
  (l' <- poly_normalize P64 l ;; poly_normalize P64 l') = Ok [term_sym (sqr 2 1) "x"; term_sym (int 3) "x"] /\
  poly_sub P64 [x] [x] = Ok [term_sym (int 0) "x"].
Proof. vm_compute. auto. Qed.
Print Assumptions C34_unmerged_zero_refuted.

(** ** C35 powers *)
Theorem C35_pow P s a n r : machine P -> pwf (ew (pe P)) a /\ padm s a -> 0 <= n -> Z.of_nat (fact (Z.to_nat n)) < 2 ^ (ew (pe P) - 1) -> poly_pow P a (Rat n 1) = Ok r ->
  (pwf (ew (pe P)) r /\ padm s r) /\ pv s r = (pv s a ^ Z.to_nat n)%R.
Proof. intros M A N B H. destruct (poly_pow_value P s a n r M A N B H) as (X & Y & _). auto. Qed.
Print Assumptions C35_pow.
(** 20! is representable in 64 bits *)
Theorem C35_up_to_twenty n : 0 <= n <= 20 -> Z.of_nat (fact (Z.to_nat n)) < 2 ^ (64 - 1).
Proof.
  intros H. apply Z.le_lt_trans with (wfact 64 20); [|reflexivity]. assert (E : forall k, (k <= 20)%nat -> Z.of_nat (fact k) <= wfact 64 20).
  { intros k K. assert (F : wfact 64 k = Z.of_nat (fact k)). { clear H. induction k as [|k IH]; [reflexivity|]. cbn [wfact]. rewrite IH by lia. rewrite fact_simpl, Nat2Z.inj_mul. rewrite <- IH by lia. unfold uwrap. apply Z.mod_small. do 20 (destruct k as [|k]; [vm_compute; split; congruence|]). lia. }
    rewrite <- F. clear F H. do 21 (destruct k as [|k]; [vm_compute; congruence|]). lia. }
  apply E. lia.
Qed.
Print Assumptions C35_up_to_twenty.
(** several terms and a negative exponent: the empty polynomial *)
Theorem C35_negative_exponent P a n r : poly_try_eval (pe P) a = Ok None -> (2 <= length a)%nat -> n < 0 -> psort P [] = Ok [] -> poly_pow P a (Rat n 1) = Ok r -> r = [].
Proof. exact (poly_pow_negative P a n r). Qed.
Print Assumptions C35_negative_exponent.
Example C35_hyp : machine P64 /\ pwf 64 [x; y] /\ is_ok (poly_pow P64 [x; y] (Rat 20 1)) = true /\
  poly_pow P64 [x; term_const (sqr 2 1)] (Rat 3 1) = Ok [Term (int 1) [("x", Rat 3 1)]%string; Term (sqr 2 3) [("x", Rat 2 1)]%string; Term (int 6) [("x", Rat 1 1)]%string; term_const (sqr 2 2)] /\
  poly_try_eval E64 [x; y] = Ok None.
Proof. split; [apply P64_ok|]. split; [exact xy_ok|]. vm_compute. auto. Qed.
(** n = 21: 21! wraps modulo 2^64 and (x + y)^21 gets -5403251710789/64965492466875 as the coefficient of y^21 *)
Theorem C35_twenty_one_refuted : exists r, poly_pow P64 [x; y] (Rat 21 1) = Ok (Term (Real 1 (Rat 1 1) (Rat (-5403251710789) 64965492466875)) [("y", Rat 21 1)]%string :: r).
Proof. eexists. vm_compute. reflexivity. Qed.
Print Assumptions C35_twenty_one_refuted.

(** ** C36 solve_variable_eq *)
Theorem C36_solutions w fuel n m l : 2 <= m -> solve_variable_eq w fuel n m = Ok l -> NoDup l /\ (forall v, In v l <-> solution n m v).
Proof.
  intros Hm H. replace m with (Z.of_nat (Z.to_nat (m - 2)) + 2) in * by lia. apply solve_sols in H as [_ ->]. split; [apply sols_nodup|]. intros v. apply sols_in.
Qed.
Print Assumptions C36_solutions.
Theorem C36_total w n m : 0 <= n -> n + 1 < 2 ^ (w - 1) -> 2 <= m -> exists l, solve_variable_eq w (Z.to_nat (m - 2)) n m = Ok l.
Proof. intros A B C. pose proof (solve_total w (Z.to_nat (m - 2)) (Z.to_nat (m - 2)) n A B (le_n _)) as H. replace (Z.of_nat (Z.to_nat (m - 2)) + 2) with m in H by lia. exact H. Qed.
Print Assumptions C36_total.
(** m < 2 does not end, whatever the depth of the recursion *)
Theorem C36_one_variable_never_returns w fuel n m l : m < 2 -> 0 <= n -> solve_variable_eq w fuel n m <> Ok l.
Proof. exact (solve_never w fuel n m l). Qed.
Print Assumptions C36_one_variable_never_returns.
Example C36_hyp : solve_variable_eq 64 5 2 3 = Ok [[0; 0; 2]; [0; 1; 1]; [0; 2; 0]; [1; 0; 1]; [1; 1; 0]; [2; 0; 0]] /\ solve_variable_eq 64 100 1 1 = Fuel.
Proof. vm_compute. auto. Qed.

(** ** C37 substitution *)
Theorem C37_term E e s t t' : okenv E -> twf (ew E) t -> Forall (power_ok (ew E) e) (syms t) -> term_subst E e t = Ok t' ->
  twf (ew E) t' /\ tv s t' = tv (extend e s) t /\ (tadm (extend e s) t -> tadm s t') /\ (forall k, In k (map fst (syms t')) <-> In k (map fst (syms t)) /\ ~ In k (map fst e)).
Proof. exact (term_subst_value E e s t t'). Qed.
Print Assumptions C37_term.
Theorem C37_poly E e s l l' : okenv E -> pwf (ew E) l -> Forall (fun t => Forall (power_ok (ew E) e) (syms t)) l -> poly_subst E e l = Ok l' ->
  pwf (ew E) l' /\ (padm (extend e s) l -> padm s l') /\ pv s l' = pv (extend e s) l /\ length l' = length l.
Proof. exact (poly_subst_value E e s l l'). Qed.
Print Assumptions C37_poly.
Theorem C37_frac P s e a r : machine P -> pwf (ew (pe P)) (fnum a) /\ padm (extend e s) (fnum a) -> pwf (ew (pe P)) (fden a) /\ padm (extend e s) (fden a) -> pv (extend e s) (fden a) <> 0%R ->
  Forall (fun t => Forall (power_ok (ew (pe P)) e) (syms t)) (fnum a) -> Forall (fun t => Forall (power_ok (ew (pe P)) e) (syms t)) (fden a) -> frac_subst P e a = Ok r ->
  pv s (fden r) <> 0%R /\ fv s r = fv (extend e s) a.
Proof. intros M A B D X Y H. destruct (frac_subst_value P s e a _ r M (conj A B) D eq_refl X Y H) as (_ & U & V). auto. Qed.
Print Assumptions C37_frac.
Example C37_hyp : let e := [("x", sqr 2 1); ("z", int 9)]%string in Forall (power_ok 64 e) (syms t1) /\ Forall (power_ok 64 e) (syms t2) /\
  term_subst E64 e t1 = Ok (Term (sqr 2 6) [("y", Rat (-1) 1)]%string) /\ term_subst E64 e t2 = Ok (Term (sqr 6 3) [("y", Rat 1 1)]%string).
Proof. cbv zeta. split; [repeat constructor; cbn; auto; lia|]. split; [repeat constructor; cbn; try lia; right; lia|]. vm_compute. auto. Qed.

(** ** C38 fractions *)
(** every history of Frac operations, under every assignment for which nothing is divided by zero *)
Theorem C38_histories P e f : machine P -> fwf (ew (pe P)) e -> frun P e = Ok f -> forall s, fdefined s e -> pv s (fden f) <> 0%R /\ fv s f = fdenotes s e.
Proof. intros M W H s D. destruct (frun_value P e M W f H) as [_ V]. destruct (V s D) as (_ & X & Y). auto. Qed.
Print Assumptions C38_histories.
(** ... and the result is well-formed with positive integer exponents *)
Theorem C38_histories_wf P e f : machine P -> fwf (ew (pe P)) e -> frun P e = Ok f ->
  pwf (ew (pe P)) (fnum f) /\ pwf (ew (pe P)) (fden f) /\ Forall (fun t => Forall (fun p => den (snd p) = 1 /\ 0 < num (snd p)) (syms t)) (fnum f ++ fden f).
Proof.
  intros M W H. destruct (frun_value P e M W f H) as [G _]. split; [apply (G (fun _ => 0%R))|]. split; [apply (G (fun _ => 0%R))|]. apply Forall_app. split; apply padm_all; intros s; apply G.
Qed.
Print Assumptions C38_histories_wf.
(** the compound assignments -= ; eval and try_eval of a fraction without symbols *)
Theorem C38_eval P s a : machine P -> pwf (ew (pe P)) (fnum a) /\ padm s (fnum a) -> pwf (ew (pe P)) (fden a) /\ padm s (fden a) ->
  (forall c, frac_eval P a = Ok c -> good (ew (pe P)) c /\ rv c = fv s a /\ pv s (fden a) <> 0%R) /\ (forall c, frac_try_eval P a = Ok (Some c) -> good (ew (pe P)) c /\ rv c = fv s a /\ pv s (fden a) <> 0%R).
Proof. intros M A B. split; intros c H; [now apply (frac_eval_value P s a c)|now apply (frac_try_eval_value P s a c)]. Qed.
Print Assumptions C38_eval.
Theorem C38_minus_assign P s a b r : machine P -> fgood P s a -> pv s (fden a) <> 0%R -> fgood P s b -> pv s (fden b) <> 0%R -> frac_sub_to P a b = Ok r ->
  fgood P s r /\ pv s (fden r) <> 0%R /\ fv s r = (fv s a - fv s b)%R.
Proof. intros M A Da B Db H. exact (frac_sub_to_value P s a b (fv s a) (fv s b) r M (conj A (conj Da eq_refl)) (conj B (conj Db eq_refl)) H). Qed.
Print Assumptions C38_minus_assign.
Theorem C38_division_by_zero_throws P a b : machine P -> Forall (fun t => tco t = real_zero) (fnum b) -> (exists z, real_of_int (pe P) 0 = Ok z) ->
  frac_div P a b = Throw division_by_zero /\ frac_inverse P b = Throw division_by_zero.
Proof. exact (div_zero P a b). Qed.
Print Assumptions C38_division_by_zero_throws.
(** "Division by zero" is only reported by the check when the divisor's coefficients are all zero *)
Theorem C38_zero_check E l : okenv E -> pwf (ew E) l -> poly_is_zero E l = Ok true -> Forall (fun t => rv (tco t) = 0%R) l.
Proof. exact (is_zero_nonzero E l). Qed.
Print Assumptions C38_zero_check.
Local Definition h1 : fexp := FPow (FDiv (FAdd (FSym "x") (FReal (int 1))) (FSub (FSym "y") (FReal (sqr 2 1)))) 3.
Example C38_hyp : machine P64 /\ fwf 64 (FSubst [("y", int 3)]%string h1) /\ is_ok (frun P64 (FSubst [("y", int 3)]%string h1)) = true /\ fdefined (fun _ => 5%R) (FSubst [("z", int 3)]%string (FInv (FSym "y"))) /\
  (z <- frun P64 (FSub (FSym "x") (FSym "x")) ;; Ok (fnum z)) = Ok [Term real_zero [("x", Rat 1 1)]%string] /\ frun P64 (FDiv (FSym "y") (FSub (FSym "x") (FSym "x"))) = Throw division_by_zero /\ is_ok (real_of_int E64 0) = true.
Proof.
  split; [apply P64_ok|]. split.
  - cbn [fwf h1]. split; [constructor; [apply int_ok|constructor]|]. split; [|split; [lia|vm_compute; reflexivity]]. repeat split; try apply int_ok; try (apply sqr_ok; lia).
  - split; [vm_compute; reflexivity|]. split; [cbn; lra|]. vm_compute. auto.
Qed.

(** ** C39 Frac::normalize *)
Theorem C39_normalize P s f f' : machine P -> pwf (ew (pe P)) (fnum f) /\ padm s (fnum f) -> pwf (ew (pe P)) (fden f) /\ padm s (fden f) -> frac_normalize P f = Ok f' ->
  exists k, k <> 0%R /\ (pv s (fnum f') = k * pv s (fnum f))%R /\ (pv s (fden f') = k * pv s (fden f))%R.
Proof. intros M A B H. destruct (frac_normalize_value P s f f' M (conj A B) H) as (_ & _ & _ & X). exact X. Qed.
Print Assumptions C39_normalize.
(** (z - z) / (y + x - x) computes g % 0; (z - z) / (x + y - y) throws "Division by zero"; but both are 0 for x = y = 1 *)
Theorem C39_remainder_by_zero_refuted :
  frun P64 (FDiv (FSub (FSym "z") (FSym "z")) (FSub (FAdd (FSym "y") (FSym "x")) (FSym "x"))) = Ub "% 0" /\
  frun P64 (FDiv (FSub (FSym "z") (FSym "z")) (FSub (FAdd (FSym "x") (FSym "y")) (FSym "y"))) = Throw division_by_zero /\
  fdefined (fun _ => 1%R) (FDiv (FSub (FSym "z") (FSym "z")) (FSub (FAdd (FSym "x") (FSym "y")) (FSym "y"))).
Proof. split; [vm_compute; reflexivity|]. split; [vm_compute; reflexivity|]. cbn. repeat split; lra. Qed.
Print Assumptions C39_remainder_by_zero_refuted.
Example C39_hyp : frac_normalize P64 (Frac [Term (Real 1 (Rat 1 1) (Rat 3 2)) [("x", Rat 1 1)]%string] [term_const (Real 1 (Rat 1 1) (Rat 9 4)); y]) = Ok (Frac [term_sym (int 12) "x"] [term_sym (int 8) "y"; term_const (int 18)]).
Proof. vm_compute. reflexivity. Qed.

(** ** C57 evaluation of polynomials without symbols *)
Theorem C57_eval E s l c : okenv E -> pwf (ew E) l -> poly_eval E l = Ok c -> good (ew E) c /\ rv c = pv s l /\ poly_no_symbols l = true.
Proof. exact (poly_eval_value E s l c). Qed.
Print Assumptions C57_eval.
Theorem C57_try_eval E s l c : okenv E -> pwf (ew E) l -> poly_try_eval E l = Ok (Some c) -> good (ew E) c /\ rv c = pv s l /\ poly_no_symbols l = true.
Proof. exact (poly_try_eval_value E s l c). Qed.
Print Assumptions C57_try_eval.
Example C57_hyp : poly_eval E64 [term_const (int 2); term_const (int 3)] = Ok (int 5).
Proof. vm_compute. reflexivity. Qed.
(** the sum starts from the rational 0, so a polynomial that is just sqrt 2 throws, and try_eval gives nothing *)
Theorem C57_irrational_refuted : poly_eval E64 [term_const (sqr 2 1)] = Throw radicands_differ /\ poly_try_eval E64 [term_const (sqr 2 1)] = Ok None.
Proof. vm_compute. auto. Qed.
Print Assumptions C57_irrational_refuted.
