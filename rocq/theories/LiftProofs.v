(** Poly, Frac, ExprNode and the parser compute the same with double arithmetic as with exact arithmetic, wherever the exact models say what happens. *)
From Coq Require Import ZArith QArith String Ascii Lia Bool List.
From Verif Require Import Base AdapterModel RationalModel RealModel PolyModel ExprModel ParserModel DecModel NumModel DblModel DblSpec DblProofs1 LiftModel PolySpec LiftSpec.
Import ListNotations.
Open Scope Z_scope.

Create HintDb lift.
Ltac lift1 :=
  match goal with
  | |- agrees ?r ?r => simple apply agrees_refl
  | |- agrees (bind _ _) (bind _ _) => simple apply agrees_bind; [|intros ? _]
  | |- agrees (match ?x with _ => _ end) (match ?x with _ => _ end) => destruct x
  | |- agrees (Ub _) _ => exact I
  | |- agrees Fuel _ => exact I
  | _ => solve [eauto 3 with lift]
  end.
Ltac lift := cbn [pe psort]; repeat lift1.
Lemma mapr_agrees {A B} (f g : A -> res B) l : (forall x, agrees (f x) (g x)) -> agrees (mapr f l) (mapr g l).
Proof. intros H. induction l as [|a l IH]; cbn [mapr]; [reflexivity|]. apply agrees_bind; [apply H|intros ? _]. apply agrees_bind; [exact IH|intros ? _]. reflexivity. Qed.
Local Hint Extern 2 (agrees (mapr _ _) (mapr _ _)) => (apply mapr_agrees; intros ?; repeat lift1) : lift.

Section Lift.
Context (D : dpenv) (G : good_double (dpe D)) (sort : poly -> res poly) (HS : forall l, agrees (sort l) (dsort D l)).
Notation X := (dpe D).
Notation E := (de (dpe D)).
Notation P := (PEnv (de (dpe D)) sort).
Local Hint Resolve HS : lift.
Local Hint Extern 1 (agrees (real_make _ _ _ _) (real_make_d _ _ _ _)) => (simple apply (make_agrees X G)) : lift.
Local Hint Extern 1 (agrees (real_of_int _ _) (real_of_int_d _ _)) => (simple apply (of_int_agrees X G)) : lift.
Local Hint Extern 1 (agrees (real_add _ _ _) (real_add_d _ _ _)) => (simple apply (add_agrees X G)) : lift.
Local Hint Extern 1 (agrees (real_negate _ _) (real_negate_d _ _)) => (simple apply (negate_agrees X G)) : lift.
Local Hint Extern 1 (agrees (real_sub _ _ _) (real_sub_d _ _ _)) => (simple apply (sub_agrees X G)) : lift.
Local Hint Extern 1 (agrees (real_mul _ _ _) (real_mul_d _ _ _)) => (simple apply (mul_agrees X G)) : lift.
Local Hint Extern 1 (agrees (real_div _ _ _) (real_div_d _ _ _)) => (simple apply (div_agrees X G)) : lift.
Local Hint Extern 1 (agrees (real_pow _ _ _) (real_pow_d _ _ _)) => (simple apply (pow_agrees X G)) : lift.
Local Hint Extern 1 (agrees (real_lt _ _ _) (real_lt_d _ _ _)) => (simple apply (lt_agrees X G)) : lift.
Local Hint Extern 1 (agrees (real_gt _ _ _) (real_gt_d _ _ _)) => (simple apply (gt_agrees X G)) : lift.
Lemma of_rat_agrees c : agrees (real_of_rat E c) (real_of_rat_d X c). Proof. exact (make_agrees X G c (Rat 1 1) 1). Qed.
Local Hint Resolve of_rat_agrees : lift.
Lemma subst_coe_lift m : forall e c, agrees (subst_coe E e m c) (subst_coe_d X e m c).
Proof. induction m as [|? m IH]; intros; cbn [subst_coe subst_coe_d]; lift. Qed.
Local Hint Resolve subst_coe_lift : lift.
Lemma term_subst_lift e t : agrees (term_subst E e t) (term_subst_d X e t).
Proof. unfold term_subst, term_subst_d. lift. Qed.
Local Hint Resolve term_subst_lift : lift.
Lemma term_mul_lift a b : agrees (term_mul E a b) (term_mul_d X a b).
Proof. unfold term_mul, term_mul_d. lift. Qed.
Local Hint Resolve term_mul_lift : lift.
Lemma term_div_lift a r : agrees (term_div E a r) (term_div_d X a r).
Proof. unfold term_div, term_div_d. lift. Qed.
Local Hint Resolve term_div_lift : lift.
Lemma term_pow_lift a q : agrees (term_pow E a q) (term_pow_d X a q).
Proof. unfold term_pow, term_pow_d. lift. Qed.
Local Hint Resolve term_pow_lift : lift.
Lemma term_negate_lift a : agrees (term_negate E a) (term_negate_d X a).
Proof. unfold term_negate, term_negate_d. lift. Qed.
Local Hint Resolve term_negate_lift : lift.
Lemma term_positive_lift a : agrees (term_positive E a) (term_positive_d X a).
Proof. unfold term_positive, term_positive_d. lift. Qed.
Local Hint Resolve term_positive_lift : lift.
Lemma term_before_lift a b : agrees (term_before (ew E) a b) (term_before_d X a b).
Proof. unfold term_before, term_before_d. lift. Qed.
Local Hint Resolve term_before_lift : lift.
Lemma insert_term_lift l : forall t, agrees (insert_term (ew E) t l) (insert_term_d X t l).
Proof. induction l as [|? l IH]; intros; cbn [insert_term insert_term_d]; lift. Qed.
Local Hint Resolve insert_term_lift : lift.
Lemma isort_lift l : agrees (isort (ew E) l) (isort_d X l).
Proof. induction l as [|? l IH]; cbn [isort isort_d]; lift. Qed.
Local Hint Resolve isort_lift : lift.
Lemma merge_from_lift l : forall a, agrees (merge_from E a l) (merge_from_d X a l).
Proof. induction l as [|? l IH]; intros; cbn [merge_from merge_from_d]; lift. Qed.
Local Hint Resolve merge_from_lift : lift.
Lemma merge_terms_lift l : agrees (merge_terms E l) (merge_terms_d X l).
Proof. unfold merge_terms, merge_terms_d. lift. Qed.
Local Hint Resolve merge_terms_lift : lift.
Lemma poly_normalize_lift l : agrees (poly_normalize P l) (poly_normalize_d D l).
Proof. unfold poly_normalize, poly_normalize_d. lift. Qed.
Local Hint Resolve poly_normalize_lift : lift.
Lemma try_sum_lift l : forall acc, agrees (try_sum E acc l) (try_sum_d X acc l).
Proof. induction l as [|? l IH]; intros; cbn [try_sum try_sum_d]; lift. Qed.
Local Hint Resolve try_sum_lift : lift.
Lemma poly_try_eval_lift l : agrees (poly_try_eval E l) (poly_try_eval_d X l).
Proof. unfold poly_try_eval, poly_try_eval_d. lift. Qed.
Local Hint Resolve poly_try_eval_lift : lift.
Lemma eval_sum_lift l : forall acc, agrees (eval_sum E acc l) (eval_sum_d X acc l).
Proof. induction l as [|? l IH]; intros; cbn [eval_sum eval_sum_d]; lift. Qed.
Local Hint Resolve eval_sum_lift : lift.
Lemma poly_eval_lift l : agrees (poly_eval E l) (poly_eval_d X l).
Proof. unfold poly_eval, poly_eval_d. lift. Qed.
Local Hint Resolve poly_eval_lift : lift.
Lemma poly_subst_lift e l : agrees (poly_subst E e l) (poly_subst_d X e l).
Proof. unfold poly_subst, poly_subst_d. lift. Qed.
Local Hint Resolve poly_subst_lift : lift.
Lemma poly_is_zero_lift l : agrees (poly_is_zero E l) (poly_is_zero_d X l).
Proof. induction l as [|? l IH]; cbn [poly_is_zero poly_is_zero_d]; lift. Qed.
Local Hint Resolve poly_is_zero_lift : lift.
Lemma poly_make_lift l : agrees (poly_make P l) (poly_make_d D l).
Proof. unfold poly_make, poly_make_d. lift. Qed.
Local Hint Resolve poly_make_lift : lift.
Lemma both_lift a b : agrees (both E a b) (both_d X a b).
Proof. unfold both, both_d. lift. Qed.
Local Hint Resolve both_lift : lift.
Lemma poly_add_to_lift a b : agrees (poly_add_to P a b) (poly_add_to_d D a b).
Proof. unfold poly_add_to, poly_add_to_d. lift. Qed.
Local Hint Resolve poly_add_to_lift : lift.
Lemma poly_add_lift a b : agrees (poly_add P a b) (poly_add_d D a b).
Proof. unfold poly_add, poly_add_d. lift. Qed.
Local Hint Resolve poly_add_lift : lift.
Lemma poly_negate_lift a : agrees (poly_negate E a) (poly_negate_d X a).
Proof. unfold poly_negate, poly_negate_d. lift. Qed.
Local Hint Resolve poly_negate_lift : lift.
Lemma poly_sub_to_lift a b : agrees (poly_sub_to P a b) (poly_sub_to_d D a b).
Proof. unfold poly_sub_to, poly_sub_to_d. lift. Qed.
Local Hint Resolve poly_sub_to_lift : lift.
Lemma poly_sub_lift a b : agrees (poly_sub P a b) (poly_sub_d D a b).
Proof. unfold poly_sub, poly_sub_d. lift. Qed.
Local Hint Resolve poly_sub_lift : lift.
Lemma poly_mul_to_lift a b : agrees (poly_mul_to P a b) (poly_mul_to_d D a b).
Proof. unfold poly_mul_to, poly_mul_to_d. lift. Qed.
Local Hint Resolve poly_mul_to_lift : lift.
Lemma poly_mul_lift a b : agrees (poly_mul P a b) (poly_mul_d D a b).
Proof. unfold poly_mul, poly_mul_d. lift. Qed.
Local Hint Resolve poly_mul_lift : lift.
Lemma poly_div_to_lift a r : agrees (poly_div_to P a r) (poly_div_to_d D a r).
Proof. unfold poly_div_to, poly_div_to_d. lift. Qed.
Local Hint Resolve poly_div_to_lift : lift.
Lemma mul_powers_lift l : forall acc v, agrees (mul_powers E acc l v) (mul_powers_d X acc l v).
Proof. induction l as [|? l IH]; intros; cbn [mul_powers mul_powers_d]; lift. Qed.
Local Hint Resolve mul_powers_lift : lift.
Lemma multinomial_lift a fact v : agrees (multinomial E a fact v) (multinomial_d X a fact v).
Proof. unfold multinomial, multinomial_d. lift. Qed.
Local Hint Resolve multinomial_lift : lift.
Lemma poly_pow_lift a q : agrees (poly_pow P a q) (poly_pow_d D a q).
Proof. unfold poly_pow, poly_pow_d. lift. Qed.
Local Hint Resolve poly_pow_lift : lift.
Lemma poly_one_lift  : agrees (poly_one P) (poly_one_d D).
Proof. unfold poly_one, poly_one_d. lift. Qed.
Local Hint Resolve poly_one_lift : lift.
Lemma frac_normalize_lift f : agrees (frac_normalize P f) (frac_normalize_d D f).
Proof. unfold frac_normalize, frac_normalize_d. lift. Qed.
Local Hint Resolve frac_normalize_lift : lift.
Lemma frac_of_poly_lift n : agrees (frac_of_poly P n) (frac_of_poly_d D n).
Proof. unfold frac_of_poly, frac_of_poly_d. lift. Qed.
Local Hint Resolve frac_of_poly_lift : lift.
Lemma frac_of_term_lift t : agrees (frac_of_term P t) (frac_of_term_d D t).
Proof. unfold frac_of_term, frac_of_term_d. lift. Qed.
Local Hint Resolve frac_of_term_lift : lift.
Lemma frac_of_real_lift c : agrees (frac_of_real P c) (frac_of_real_d D c).
Proof. unfold frac_of_real, frac_of_real_d. lift. Qed.
Local Hint Resolve frac_of_real_lift : lift.
Lemma frac_make_lift n d : agrees (frac_make P n d) (frac_make_d D n d).
Proof. unfold frac_make, frac_make_d. lift. Qed.
Local Hint Resolve frac_make_lift : lift.
Lemma frac_add_lift a b : agrees (frac_add P a b) (frac_add_d D a b).
Proof. unfold frac_add, frac_add_d. lift. Qed.
Local Hint Resolve frac_add_lift : lift.
Lemma frac_negate_lift a : agrees (frac_negate P a) (frac_negate_d D a).
Proof. unfold frac_negate, frac_negate_d. lift. Qed.
Local Hint Resolve frac_negate_lift : lift.
Lemma frac_inverse_lift a : agrees (frac_inverse P a) (frac_inverse_d D a).
Proof. unfold frac_inverse, frac_inverse_d. lift. Qed.
Local Hint Resolve frac_inverse_lift : lift.
Lemma frac_sub_to_lift a b : agrees (frac_sub_to P a b) (frac_sub_to_d D a b).
Proof. unfold frac_sub_to, frac_sub_to_d. lift. Qed.
Local Hint Resolve frac_sub_to_lift : lift.
Lemma frac_sub_lift a b : agrees (frac_sub P a b) (frac_sub_d D a b).
Proof. unfold frac_sub, frac_sub_d. lift. Qed.
Local Hint Resolve frac_sub_lift : lift.
Lemma frac_mul_lift a b : agrees (frac_mul P a b) (frac_mul_d D a b).
Proof. unfold frac_mul, frac_mul_d. lift. Qed.
Local Hint Resolve frac_mul_lift : lift.
Lemma frac_div_lift a b : agrees (frac_div P a b) (frac_div_d D a b).
Proof. unfold frac_div, frac_div_d. lift. Qed.
Local Hint Resolve frac_div_lift : lift.
Lemma frac_try_eval_lift a : agrees (frac_try_eval P a) (frac_try_eval_d D a).
Proof. unfold frac_try_eval, frac_try_eval_d. lift. Qed.
Local Hint Resolve frac_try_eval_lift : lift.
Lemma frac_eval_lift a : agrees (frac_eval P a) (frac_eval_d D a).
Proof. unfold frac_eval, frac_eval_d. lift. Qed.
Local Hint Resolve frac_eval_lift : lift.
Lemma frac_pow_lift a q : agrees (frac_pow P a q) (frac_pow_d D a q).
Proof. unfold frac_pow, frac_pow_d. lift. Qed.
Local Hint Resolve frac_pow_lift : lift.
Lemma frac_subst_lift e a : agrees (frac_subst P e a) (frac_subst_d D e a).
Proof. unfold frac_subst, frac_subst_d. lift. Qed.
Local Hint Resolve frac_subst_lift : lift.
Lemma term_to_string_lift t : agrees (term_to_string E t) (term_to_string_d X t).
Proof. unfold term_to_string, term_to_string_d. lift. Qed.
Local Hint Resolve term_to_string_lift : lift.
Lemma term_to_tex_lift t : agrees (term_to_tex E t) (term_to_tex_d X t).
Proof. unfold term_to_tex, term_to_tex_d. lift. Qed.
Local Hint Resolve term_to_tex_lift : lift.
Lemma term_zero_lift t : agrees (term_zero E t) (term_zero_d X t).
Proof. unfold term_zero, term_zero_d. lift. Qed.
Local Hint Resolve term_zero_lift : lift.
Lemma poly_text_lift f g (H : forall t, agrees (f t) (g t)) l : forall first, agrees (poly_text E f first l) (poly_text_d X g first l).
Proof. induction l as [|t l IH]; intros first; cbn [poly_text poly_text_d]; lift. Qed.
Lemma poly_print_lift f g (H : forall t, agrees (f t) (g t)) l : agrees (poly_print E f l) (poly_print_d X g l).
Proof. unfold poly_print, poly_print_d. pose proof (poly_text_lift f g H). lift. Qed.
Lemma poly_to_string_lift l : agrees (poly_to_string E l) (poly_to_string_d X l).
Proof. apply poly_print_lift. exact term_to_string_lift. Qed.
Local Hint Resolve poly_to_string_lift : lift.
Lemma poly_to_tex_lift l : agrees (poly_to_tex E l) (poly_to_tex_d X l).
Proof. apply poly_print_lift. exact term_to_tex_lift. Qed.
Local Hint Resolve poly_to_tex_lift : lift.
Lemma den_is_one_lift d : agrees (den_is_one E d) (den_is_one_d X d).
Proof. unfold den_is_one, den_is_one_d. lift. Qed.
Local Hint Resolve den_is_one_lift : lift.
Lemma output_need_paren_lift f : agrees (output_need_paren E f) (output_need_paren_d X f).
Proof. unfold output_need_paren, output_need_paren_d. lift. Qed.
Local Hint Resolve output_need_paren_lift : lift.
Lemma frac_to_string_lift f : agrees (frac_to_string E f) (frac_to_string_d X f).
Proof. unfold frac_to_string, frac_to_string_d. lift. Qed.
Local Hint Resolve frac_to_string_lift : lift.
Lemma frac_to_tex_lift f : agrees (frac_to_tex E f) (frac_to_tex_d X f).
Proof. unfold frac_to_tex, frac_to_tex_d. lift. Qed.
Local Hint Resolve frac_to_tex_lift : lift.
Lemma apply_op_lift c a b : agrees (apply_op P c a b) (apply_op_d D c a b).
Proof. unfold apply_op, apply_op_d. lift. Qed.
Local Hint Resolve apply_op_lift : lift.
Lemma exponent_of_lift b : agrees (exponent_of P b) (exponent_of_d D b).
Proof. unfold exponent_of, exponent_of_d. lift. Qed.
Local Hint Resolve exponent_of_lift : lift.
Lemma expr_try_eval_lift e : agrees (expr_try_eval P e) (expr_try_eval_d D e).
Proof. induction e as [f|c l IHl r IHr]; cbn [expr_try_eval expr_try_eval_d]; lift. Qed.
Local Hint Resolve expr_try_eval_lift : lift.
Lemma expr_normalize_lift e : agrees (expr_normalize P e) (expr_normalize_d D e).
Proof. induction e as [f|c l IHl r IHr]; cbn [expr_normalize expr_normalize_d]; lift. Qed.
Local Hint Resolve expr_normalize_lift : lift.
Lemma expr_subst_lift e : forall env, agrees (expr_subst P env e) (expr_subst_d D env e).
Proof. induction e as [f|c l IHl r IHr]; intros; cbn [expr_subst expr_subst_d]; lift. Qed.
Local Hint Resolve expr_subst_lift : lift.
Lemma paren_left_lift c l : agrees (paren_left E c l) (paren_left_d X c l).
Proof. unfold paren_left, paren_left_d. lift. Qed.
Local Hint Resolve paren_left_lift : lift.
Lemma paren_right_lift c r : agrees (paren_right E c r) (paren_right_d X c r).
Proof. unfold paren_right, paren_right_d. lift. Qed.
Local Hint Resolve paren_right_lift : lift.
Lemma expr_to_string_lift e : agrees (expr_to_string E e) (expr_to_string_d X e).
Proof. induction e as [f|c l IHl r IHr]; cbn [expr_to_string expr_to_string_d]; lift. Qed.
Local Hint Resolve expr_to_string_lift : lift.
Lemma expr_to_tex_lift e : agrees (expr_to_tex E e) (expr_to_tex_d X e).
Proof. induction e as [f|c l IHl r IHr]; cbn [expr_to_tex expr_to_tex_d]; lift. Qed.
Local Hint Resolve expr_to_tex_lift : lift.
Lemma frac_of_rat_lift q : agrees (frac_of_rat P q) (frac_of_rat_d D q).
Proof. unfold frac_of_rat, frac_of_rat_d. lift. Qed.
Local Hint Resolve frac_of_rat_lift : lift.
Lemma frac_of_int_lift n : agrees (frac_of_int P n) (frac_of_int_d D n).
Proof. unfold frac_of_int, frac_of_int_d. lift. Qed.
Local Hint Resolve frac_of_int_lift : lift.
Lemma frac_of_sym_lift k : agrees (frac_of_sym P k) (frac_of_sym_d D k).
Proof. unfold frac_of_sym, frac_of_sym_d. lift. Qed.
Local Hint Resolve frac_of_sym_lift : lift.
Lemma get_token_lift dec s0 : agrees (get_token P dec s0) (get_token_d D dec s0).
Proof. unfold get_token, get_token_d. lift. Qed.
Local Hint Resolve get_token_lift : lift.
Lemma add_token_lift back acc t : agrees (add_token P back acc t) (add_token_d D back acc t).
Proof. unfold add_token, add_token_d. lift. Qed.
Local Hint Resolve add_token_lift : lift.
Lemma push_token_lift acc t : agrees (push_token P acc t) (push_token_d D acc t).
Proof. unfold push_token, push_token_d. lift. Qed.
Local Hint Resolve push_token_lift : lift.
Lemma token_loop_lift fuel : forall dec acc s, agrees (token_loop P dec fuel acc s) (token_loop_d D dec fuel acc s).
Proof. induction fuel as [|fuel IH]; intros; cbn [token_loop token_loop_d]; lift. Qed.
Local Hint Resolve token_loop_lift : lift.
Lemma get_all_tokens_lift dec raw : agrees (get_all_tokens P dec raw) (get_all_tokens_d D dec raw).
Proof. unfold get_all_tokens, get_all_tokens_d. lift. Qed.
Local Hint Resolve get_all_tokens_lift : lift.
Lemma parse_lift dec raw : agrees (parse P dec raw) (parse_d D dec raw).
Proof. unfold parse, parse_d. lift. Qed.
Local Hint Resolve parse_lift : lift.
Lemma history_lift h : agrees (frun P h) (frun_d D h).
Proof. induction h; cbn [frun frun_d]; lift. Qed.
End Lift.
