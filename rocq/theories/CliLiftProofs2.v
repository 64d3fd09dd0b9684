(** Commands on lines without powers do exactly the same with doubles; tex does on every line. *)
From Coq Require Import ZArith QArith String Ascii Lia Bool List.
From Verif Require Import Base AdapterModel RationalModel RealModel PolyModel ExprModel ParserModel CliModel DecModel NumModel DblModel DblSpec LiftModel PolySpec LiftSpec LiftProofs2 CliLiftModel CliLiftSpec.
Import ListNotations.
Open Scope Z_scope.

Section CliSame.
Context (M : dpenv) (C : cenv) (sort : poly -> res poly) (HC : cp C = PEnv (de (dpe M)) sort) (W : 2 <= ew (de (dpe M))) (F : efac (de (dpe M)) 1 = Ok []) (HS : sorts_same sort M).
Notation X := (dpe M).
Notation E := (de (dpe M)).
Notation P := (PEnv (de (dpe M)) sort).
Lemma to_tex_leaves e : rootless_leaves e -> expr_to_tex_d X e = expr_to_tex E e.
Proof.
  induction e as [f|c l IHl r IHr]; cbn [rootless_leaves expr_to_tex expr_to_tex_d]; [intros H; exact (proj1 (frac_to_tex_same M W F f H))|]. intros (L & R). now rewrite paren_left_same, paren_right_same, IHl, IHr.
Qed.
Lemma to_string_leaves e : rootless_leaves e -> expr_to_string_d X e = expr_to_string E e.
Proof.
  induction e as [f|c l IHl r IHr]; cbn [rootless_leaves expr_to_string expr_to_string_d]; [intros H; exact (proj1 (frac_to_string_same M W F f H))|]. intros (L & R). now rewrite paren_left_same, paren_right_same, IHl, IHr.
Qed.
Lemma bind_same {A B} (r : res A) (f g : A -> res B) : (forall x, r = Ok x -> f x = g x) -> bind r f = bind r g.
Proof. destruct r; cbn [bind]; auto. Qed.
Lemma run_same {A} (r : res A) (s : cstate C) f g : (forall x, r = Ok x -> f x = g x) -> run r s f = run r s g.
Proof. destruct r; cbn [run]; auto. Qed.
Lemma run_eq {A} (r r' : res A) (s : cstate C) f : r' = r -> run r' s f = run r s f.
Proof. now intros ->. Qed.
Lemma cmd_tex_same body s : cmd_tex_d M C body s = cmd_tex C body s.
Proof.
  unfold cmd_tex, cmd_tex_d. rewrite HC. cbn [pe]. rewrite (parse_same M W F sort HS). apply run_eq. apply bind_same. intros e H. apply to_tex_leaves. exact (parse_leaves M W F sort HS (cdec C) body e H).
Qed.
Context (body : text) (N : forall e, parse P (cdec C) body = Ok e -> powerless e).
Lemma parse_rootless e : parse P (cdec C) body = Ok e -> rootless_expr e.
Proof. intros H. apply rootless_both; [exact (parse_leaves M W F sort HS (cdec C) body e H)|exact (N e H)]. Qed.
Lemma parse_normal_same : parse_normal_d M C body = parse_normal C body /\ forall e, parse_normal C body = Ok e -> rootless_expr e.
Proof.
  unfold parse_normal, parse_normal_d. rewrite HC. rewrite (parse_same M W F sort HS). pose proof parse_rootless as K. destruct (parse P (cdec C) body) as [e| | |] eqn:H; cbn [bind]; try (split; [reflexivity|discriminate]).
  exact (expr_normalize_same M W F sort HS e (K e eq_refl)).
Qed.
Lemma print_result_same e s : rootless_expr e -> print_result_d M C e s = print_result C e s.
Proof.
  intros R. unfold print_result, print_result_d. rewrite HC. cbn [pe]. destruct (expr_normalize_same M W F sort HS e R) as [A B]. rewrite A. destruct (expr_normalize P e) as [n| | |]; cbn [bind run]; try reflexivity. specialize (B n eq_refl).
  rewrite (proj1 (expr_to_string_same M W F n B)). destruct (expr_to_string E n) as [t| | |]; cbn [bind run]; try reflexivity. cbn [fst snd]. f_equal.
  unfold shows_integer, shows_integer_d. rewrite HC. cbn [pe]. rewrite (proj1 (expr_try_eval_same M W F sort HS n B)). reflexivity.
Qed.
Lemma cmd_normalize_same s : cmd_normalize_d M C body s = cmd_normalize C body s.
Proof. unfold cmd_normalize, cmd_normalize_d. destruct parse_normal_same as [A B]. rewrite A. apply run_same. intros e H. apply print_result_same. now apply B. Qed.
Lemma cmd_ntex_same s : cmd_ntex_d M C body s = cmd_ntex C body s.
Proof. unfold cmd_ntex, cmd_ntex_d. destruct parse_normal_same as [A B]. rewrite A, HC. cbn [pe]. apply run_eq. apply bind_same. intros e H. exact (proj1 (expr_to_tex_same M W F e (B e H))). Qed.
Lemma cmd_factor_same s : cmd_factor_d M C body s = cmd_factor C body s.
Proof.
  unfold cmd_factor, cmd_factor_d, real_to_int_d, real_to_int. destruct parse_normal_same as [A B]. rewrite A, HC. cbn [pe]. apply run_eq. apply bind_same. intros e H. destruct (expr_try_eval_same M W F sort HS e (B e H)) as [T R]. rewrite T. apply bind_same. intros [f|] H'; cbn [bind]; [|reflexivity].
  rewrite (proj1 (frac_try_eval_same M W F sort f (R (Some f) H'))). reflexivity.
Qed.
End CliSame.
