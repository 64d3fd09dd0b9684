(** Exceptions of Frac, ExprNode, ExprParser; printing. *)
From Coq Require Import ZArith String Ascii Lia Bool List.
From Verif Require Import Base AdapterModel FactorizeModel RationalModel RealModel RealSpec PolyModel ExprModel ParserModel CliModel ErrSpec ErrProofs1 ErrProofs2.
Import ListNotations.
Open Scope Z_scope.

#[export] Hint Resolve o_poly_pow : calm.
Lemma o_poly_one P : calm P -> outcome err sane_poly (poly_one P).
Proof. intros C. unfold poly_one. pose proof (calm_fac P C). step. apply o_poly_make; auto with calm. Qed.
Lemma o_dens X w l : forall m, outcome X any (dens w m l).
Proof. induction l as [|t l IH]; intros m; cbn [dens]; [exact I|]. step. apply IH. Qed.
Lemma o_gcd_inner X w n ds : forall g, outcome X any (gcd_inner w g n ds).
Proof. induction ds as [|d ds IH]; intros g; cbn [gcd_inner]; [exact I|]. do 2 step. destruct (x0 =? 0); [exact I|]. destruct (Z.rem g x0 =? 0); [apply IH|exact I]. Qed.
Lemma o_gcd_outer X w ds ns : forall g, outcome X any (gcd_outer w g ns ds).
Proof.
  induction ns as [|t ns IH]; intros g; cbn [gcd_outer]; [exact I|]. destruct ds as [|d ds]; [apply IH|]. step. eapply o_bind; [apply o_gcd_inner|]. intros [g'|] _; [apply IH|exact I].
Qed.
#[export] Hint Resolve o_poly_one o_dens o_gcd_outer : calm.
Lemma o_frac_normalize P f : calm P -> sane_frac f -> outcome err sane_frac (frac_normalize P f).
Proof.
  intros C [N M]. unfold frac_normalize. pose proof (calm_fac P C) as F. do 4 step.
  assert (G : forall l, sane_poly l -> outcome err sane_poly (mapr (fun t => c <- real_of_int (pe P) x2 ;; term_mul (pe P) t (term_const c)) l)).
  { intros l L. eapply o_mapr; [exact L|]. intros t T. step. apply o_term_mul; auto with calm. }
  eapply o_bind; [apply G; assumption|intros n' Sn]. eapply o_bind; [apply G; assumption|intros d' Sd]. clear G.
  destruct n' as [|n0 ns]; [exact I|]. destruct d' as [|d0 ds]; [exact I|]. do 4 step. destruct x6 as [g|]; [|split; assumption]. repeat step. split; assumption.
Qed.
#[export] Hint Resolve o_frac_normalize : calm.
Lemma o_frac_of_poly P n : calm P -> sane_poly n -> outcome err sane_frac (frac_of_poly P n).
Proof. intros C S. unfold frac_of_poly. step. apply o_frac_normalize; [exact C|split; assumption]. Qed.
#[export] Hint Resolve o_frac_of_poly : calm.
Lemma o_frac_of_term P t : calm P -> sane_term t -> outcome err sane_frac (frac_of_term P t).
Proof. intros C S. unfold frac_of_term. eapply o_bind; [apply o_poly_make; auto with calm|]. intros; apply o_frac_of_poly; assumption. Qed.
#[export] Hint Resolve o_frac_of_term : calm.
Lemma o_frac_of_real P c : calm P -> sane_real c -> outcome err sane_frac (frac_of_real P c).
Proof. intros C S. apply o_frac_of_term; auto with calm. Qed.
Lemma o_frac_make P n d : calm P -> sane_poly n -> sane_poly d -> outcome err sane_frac (frac_make P n d).
Proof. intros C N M. unfold frac_make. pose proof (calm_fac P C). step. destruct x; [reflexivity|]. apply o_frac_normalize; [exact C|split; assumption]. Qed.
#[export] Hint Resolve o_frac_of_real o_frac_make : calm.
Lemma o_frac_add P a b : calm P -> sane_frac a -> sane_frac b -> outcome err sane_frac (frac_add P a b).
Proof.
  intros C [A1 A2] [B1 B2]. unfold frac_add. step. destruct x. { step. split; assumption. } repeat step. apply o_frac_normalize; [exact C|split; assumption].
Qed.
Lemma o_frac_negate P a : calm P -> sane_frac a -> outcome err sane_frac (frac_negate P a).
Proof. intros C [A1 A2]. unfold frac_negate. pose proof (calm_fac P C). step. apply o_frac_make; assumption. Qed.
Lemma o_frac_inverse P a : calm P -> sane_frac a -> outcome err sane_frac (frac_inverse P a).
Proof. intros C [A1 A2]. apply o_frac_make; assumption. Qed.
#[export] Hint Resolve o_frac_add o_frac_negate o_frac_inverse : calm.
Lemma o_frac_sub P a b : calm P -> sane_frac a -> sane_frac b -> outcome err sane_frac (frac_sub P a b).
Proof. intros C A B. unfold frac_sub. step. apply o_frac_add; assumption. Qed.
Lemma o_frac_mul P a b : calm P -> sane_frac a -> sane_frac b -> outcome err sane_frac (frac_mul P a b).
Proof. intros C [A1 A2] [B1 B2]. unfold frac_mul. repeat step. apply o_frac_normalize; [exact C|split; assumption]. Qed.
Lemma o_frac_div P a b : calm P -> sane_frac a -> sane_frac b -> outcome err sane_frac (frac_div P a b).
Proof. intros C [A1 A2] [B1 B2]. unfold frac_div. pose proof (calm_fac P C). step. destruct x; [reflexivity|]. repeat step. apply o_frac_normalize; [exact C|split; assumption]. Qed.
Lemma o_frac_try_eval P a : calm P -> sane_frac a -> outcome err (sane_opt sane_real) (frac_try_eval P a).
Proof. intros C [A1 A2]. unfold frac_try_eval. pose proof (calm_fac P C). do 2 step. destruct x as [x|], x0 as [y|]; cbn [sane_opt] in *; try exact I. step. assumption. Qed.
#[export] Hint Resolve o_frac_sub o_frac_mul o_frac_div o_frac_try_eval : calm.
Lemma o_frac_pow P a q : calm P -> sane_frac a -> sane_rat q -> outcome err sane_frac (frac_pow P a q).
Proof.
  intros C A Q. unfold frac_pow. pose proof (calm_fac P C). step. destruct A as [A1 A2]. destruct x as [c|]; cbn [sane_opt] in *.
  - step. apply o_frac_of_real; assumption.
  - repeat step. apply o_frac_normalize; [exact C|split; assumption].
Qed.
Lemma o_frac_subst P e a : calm P -> sane_env e -> sane_frac a -> outcome err sane_frac (frac_subst P e a).
Proof.
  intros C E [A1 A2]. unfold frac_subst. pose proof (calm_fac P C). do 2 step. eapply o_bind; [apply o_frac_normalize; [exact C|split; assumption]|intros f Sf].
  step. destruct x1; [reflexivity|exact Sf].
Qed.
#[export] Hint Resolve o_frac_pow o_frac_subst : calm.

Lemma o_term_is_rational X w t : outcome X any (term_is_rational w t).
Proof. unfold term_is_rational. destruct (no_symbols t); [apply o_is_rational|exact I]. Qed.
#[export] Hint Resolve o_term_is_rational : calm.
Lemma o_poly_is_rational X w l : outcome X any (poly_is_rational w l).
Proof. induction l as [|t l IH]; cbn [poly_is_rational]; [exact I|]. step. destruct x; [exact IH|exact I]. Qed.
#[export] Hint Resolve o_poly_is_rational : calm.
Lemma o_frac_is_rational X w f : outcome X any (frac_is_rational w f).
Proof. unfold frac_is_rational. step. destruct x; [apply o_poly_is_rational|exact I]. Qed.
Lemma o_term_to_rational w t : sane_term t -> outcome err sane_rat (term_to_rational w t).
Proof. intros [T1 T2]. unfold term_to_rational. destruct (no_symbols t); [apply o_real_to_rational; assumption|reflexivity]. Qed.
Lemma o_sum_rationals w l : sane_poly l -> forall acc, sane_rat acc -> outcome err sane_rat (sum_rationals w acc l).
Proof. intros H. induction H as [|t l T H IH]; intros acc A; cbn [sum_rationals]; [exact A|]. eapply o_bind; [apply o_term_to_rational, T|intros q Q]. step. apply IH. assumption. Qed.
Lemma o_poly_to_rational w l : sane_poly l -> outcome err sane_rat (poly_to_rational w l).
Proof. intros S. unfold poly_to_rational. step. apply o_sum_rationals; assumption. Qed.
#[export] Hint Resolve o_frac_is_rational o_poly_to_rational : calm.
Lemma o_frac_to_rational w f : sane_frac f -> outcome err sane_rat (frac_to_rational w f).
Proof. intros [A B]. unfold frac_to_rational. repeat step. apply o_div; assumption. Qed.
#[export] Hint Resolve o_frac_to_rational : calm.

Lemma o_apply_op P c a b : calm P -> sane_frac a -> sane_frac b -> outcome err sane_frac (apply_op P c a b).
Proof. intros C A B. unfold apply_op. repeat step; auto with calm. reflexivity. Qed.
Lemma o_exponent_of P b : calm P -> sane_frac b -> outcome err (sane_opt sane_real) (exponent_of P b).
Proof. intros C B. unfold exponent_of. step. destruct x as [c|]; cbn [sane_opt] in *; [|exact I]. step. destruct x; cbn [outcome sane_opt]; auto. Qed.
#[export] Hint Resolve o_apply_op o_exponent_of : calm.
Lemma o_expr_try_eval P e : calm P -> sane_expr e -> outcome err (sane_opt sane_frac) (expr_try_eval P e).
Proof.
  intros C. induction e as [f|c l IHl r IHr]; intros S; cbn [expr_try_eval]; [exact S|]. destruct S as [Sl Sr].
  eapply o_bind; [apply IHl, Sl|intros lv L]. eapply o_bind; [apply IHr, Sr|intros rv R]. destruct lv as [a|], rv as [b|]; cbn [sane_opt] in *; try exact I.
  destruct (Ascii.eqb c "^").
  - step. destruct x as [p|]; cbn [sane_opt] in *; [|exact I]. repeat step. assumption.
  - step. assumption.
Qed.
#[export] Hint Resolve o_expr_try_eval : calm.
Lemma o_expr_normalize P e : calm P -> sane_expr e -> outcome err sane_expr (expr_normalize P e).
Proof.
  intros C. induction e as [f|c l IHl r IHr]; intros S; cbn [expr_normalize]; [exact S|]. destruct S as [Sl Sr]. do 2 step.
  assert (G : outcome err sane_expr (r' <- expr_normalize P r ;; l' <- expr_normalize P l ;; Ok (Op c l' r'))).
  { eapply o_bind; [apply IHr, Sr|intros r' R']. eapply o_bind; [apply IHl, Sl|intros l' L']. split; assumption. }
  destruct x as [a|], x0 as [b|]; cbn [sane_opt] in *; try exact G. clear G. destruct (Ascii.eqb c "^").
  - step. destruct x as [p|]; cbn [sane_opt] in *. { repeat step. assumption. }
    eapply o_bind; [apply IHl, Sl|intros l' L']. eapply o_bind; [apply IHr, Sr|intros r' R']. split; assumption.
  - step. assumption.
Qed.
#[export] Hint Resolve o_expr_normalize : calm.
Lemma o_expr_subst P env e : calm P -> sane_env env -> sane_expr e -> outcome err sane_expr (expr_subst P env e).
Proof.
  intros C SE. induction e as [f|c l IHl r IHr]; intros S; cbn [expr_subst]. { step. assumption. } destruct S as [Sl Sr].
  eapply o_bind; [apply IHl, Sl|intros l' L]. eapply o_bind; [apply IHr, Sr|intros r' R]. apply o_expr_normalize; [exact C|split; assumption].
Qed.
#[export] Hint Resolve o_expr_subst : calm.

(** printing throws nothing *)
Lemma o_syms_text X w m : outcome X any (syms_text w m).
Proof. induction m as [|[k q] m IH]; cbn [syms_text]; [exact I|]. step. eapply o_bind; [exact IH|]. intros; exact I. Qed.
Lemma o_syms_tex X w m : outcome X any (syms_tex w m).
Proof. induction m as [|[k q] m IH]; cbn [syms_tex]; [exact I|]. step. eapply o_bind; [exact IH|]. intros; exact I. Qed.
#[export] Hint Resolve o_syms_text o_syms_tex : calm.
Lemma o_term_to_string X E t : fac_calm E -> outcome X any (term_to_string E t).
Proof.
  intros F. unfold term_to_string. do 2 step. destruct x0; [exact I|]. do 2 step. eapply o_bind with (Q := any); [|intros; repeat step; exact I].
  match goal with |- outcome _ _ (if ?b then _ else _) => destruct b end; [|exact I]. do 2 step.
  match goal with |- outcome _ _ (if ?b then _ else _) => destruct b end; [exact I|apply o_real_to_string].
Qed.
Lemma o_term_to_tex X E t : fac_calm E -> outcome X any (term_to_tex E t).
Proof.
  intros F. unfold term_to_tex. do 2 step. destruct x0; [exact I|]. do 2 step. eapply o_bind with (Q := any); [|intros; repeat step; exact I].
  match goal with |- outcome _ _ (if ?b then _ else _) => destruct b end; [|exact I]. do 2 step.
  match goal with |- outcome _ _ (if ?b then _ else _) => destruct b end; [exact I|apply o_real_to_tex].
Qed.
Lemma o_poly_text X E f l : fac_calm E -> (forall t, outcome X any (f t)) -> sane_poly l -> forall b, outcome X any (poly_text E f b l).
Proof.
  intros F G H. induction H as [|t l T H IH]; intros b; cbn [poly_text]; [exact I|]. eapply o_bind with (Q := any). { unfold term_zero. repeat step. apply o_real_eq. }
  intros z _. destruct z; [apply IH|]. eapply o_bind with (Q := any); [|intros s _; eapply o_bind; [apply IH|intros; exact I]].
  destruct b; [apply G|]. step. destruct x. { eapply o_bind; [apply G|intros; exact I]. } step. eapply o_bind; [apply G|intros; exact I].
Qed.
Lemma o_poly_print X E f l : fac_calm E -> (forall t, outcome X any (f t)) -> sane_poly l -> outcome X any (poly_print E f l).
Proof. intros F G S. unfold poly_print. destruct l as [|t l]; [exact I|]. step. destruct x; [exact I|]. apply o_poly_text; assumption. Qed.
Lemma o_poly_to_string X E l : fac_calm E -> sane_poly l -> outcome X any (poly_to_string E l).
Proof. intros F S. apply o_poly_print; [exact F| |exact S]. intros; apply o_term_to_string, F. Qed.
Lemma o_poly_to_tex X E l : fac_calm E -> sane_poly l -> outcome X any (poly_to_tex E l).
Proof. intros F S. apply o_poly_print; [exact F| |exact S]. intros; apply o_term_to_tex, F. Qed.
Lemma o_den_is_one X E d : fac_calm E -> outcome X any (den_is_one E d).
Proof. intros F. unfold den_is_one. destruct d as [|t [|u d]]; [exact I| |exact I]. repeat step. exact I. Qed.
#[export] Hint Resolve o_poly_to_string o_poly_to_tex o_den_is_one : calm.
Lemma o_need_paren X E f : fac_calm E -> outcome X any (output_need_paren E f).
Proof. intros F. unfold output_need_paren. step. exact I. Qed.
Lemma o_frac_to_string X E f : fac_calm E -> sane_frac f -> outcome X any (frac_to_string E f).
Proof. intros F [A B]. unfold frac_to_string. destruct (fnum f); [exact I|]. step. destruct x; [apply o_poly_to_string; assumption|]. repeat step. exact I. Qed.
Lemma o_frac_to_tex X E f : fac_calm E -> sane_frac f -> outcome X any (frac_to_tex E f).
Proof. intros F [A B]. unfold frac_to_tex. destruct (fnum f); [exact I|]. step. destruct x; [apply o_poly_to_tex; assumption|]. repeat step. exact I. Qed.
#[export] Hint Resolve o_need_paren : calm.
Lemma o_paren_left X E c l : fac_calm E -> outcome X any (paren_left E c l).
Proof. intros F. destruct l; cbn [paren_left]; [apply o_need_paren, F|exact I]. Qed.
Lemma o_paren_right X E c r : fac_calm E -> outcome X any (paren_right E c r).
Proof. intros F. destruct r; cbn [paren_right]; [apply o_need_paren, F|exact I]. Qed.
#[export] Hint Resolve o_paren_left o_paren_right : calm.
Lemma o_expr_to_string X E e : fac_calm E -> sane_expr e -> outcome X any (expr_to_string E e).
Proof.
  intros F. induction e as [f|c l IHl r IHr]; intros S; cbn [expr_to_string]; [apply o_frac_to_string; assumption|]. destruct S as [Sl Sr].
  step. eapply o_bind; [apply IHl, Sl|intros ? ?]. step. eapply o_bind; [apply IHr, Sr|intros ? ?]. exact I.
Qed.
Lemma o_expr_to_tex X E e : fac_calm E -> sane_expr e -> outcome X any (expr_to_tex E e).
Proof.
  intros F. induction e as [f|c l IHl r IHr]; intros S; cbn [expr_to_tex]; [apply o_frac_to_tex; assumption|]. destruct S as [Sl Sr].
  step. eapply o_bind; [apply IHl, Sl|intros ? ?]. step. eapply o_bind; [apply IHr, Sr|intros ? ?]. exact I.
Qed.

(** the parser *)
Lemma o_rat_of_string w dec s : outcome err sane_rat (rat_of_string w dec s).
Proof.
  unfold rat_of_string. eapply o_bind with (Q := any).
  - match goal with |- outcome _ _ (map_std_exn ?r) => destruct r as [q|m|u|] end; cbn [map_std_exn outcome]; try exact I.
    destruct (String.eqb m "invalid_argument") eqn:A; [reflexivity|]. destruct (String.eqb m "out_of_range") eqn:B; [reflexivity|]. cbn [outcome]. unfold err, is_std. now rewrite A, B.
  - intros q _. destruct (Z.eqb_spec (den q) 0); [reflexivity|assumption].
Qed.
#[export] Hint Resolve o_rat_of_string : calm.
Lemma o_frac_of_rat P q : calm P -> sane_rat q -> outcome err sane_frac (frac_of_rat P q).
Proof. intros C S. unfold frac_of_rat. pose proof (calm_fac P C). step. apply o_frac_of_real; assumption. Qed.
Lemma o_frac_of_int P n : calm P -> outcome err sane_frac (frac_of_int P n).
Proof. intros C. unfold frac_of_int. pose proof (calm_fac P C). step. apply o_frac_of_real; assumption. Qed.
Lemma o_frac_of_sym P k : calm P -> outcome err sane_frac (frac_of_sym P k).
Proof. intros C. unfold frac_of_sym. pose proof (calm_fac P C). step. apply o_frac_of_term; auto with calm. Qed.
#[export] Hint Resolve o_frac_of_rat o_frac_of_int o_frac_of_sym : calm.
Definition has_priority (c : ascii) : Prop := exists p, priority c = Some p.
Definition sane_tok (t : tok) : Prop := match t with TNum f | TSym f => sane_frac f | TRad q => sane_rat q | TOp c => has_priority c | _ => True end.
Lemma opchar_priority c : is_opchar c = true -> has_priority c.
Proof. unfold is_opchar, has_priority, priority. intros H. destruct (Ascii.eqb c "("); [eauto|]. destruct (is_pm c); [eauto|]. destruct (is_md c); [eauto|]. destruct (Ascii.eqb c "^"); [eauto|discriminate]. Qed.
Lemma o_get_token P dec s : calm P -> outcome err (fun p => sane_tok (fst p)) (get_token P dec s).
Proof.
  intros C. unfold get_token. destruct (drop_spaces s) as [|c s']; [exact I|]. destruct (Ascii.eqb c "_").
  { eapply o_bind with (Q := any).
    - destruct (Ascii.eqb (peek s') "/"). { step. exact I. } destruct (is_digit (peek s') || is_dot (peek s'))%bool; [|reflexivity].
      destruct (scan_number s') as [n s1]. step. exact I.
    - intros [p s1] _. step. assumption. }
  destruct (is_digit c || is_dot c)%bool. { destruct (scan_number (c :: s')) as [n s1]. repeat step. assumption. }
  destruct (is_opchar c) eqn:O. { destruct (Ascii.eqb c "*" && Ascii.eqb (peek s') "*")%bool; cbn [outcome fst sane_tok]; [exists 1000; reflexivity|apply opchar_priority, O]. }
  destruct (Ascii.eqb c "("); [exact I|]. destruct (Ascii.eqb c ")"); [exact I|]. destruct (is_alpha c || Ascii.eqb c "{")%bool; [|reflexivity].
  match goal with |- outcome _ _ (let (_, _) := ?x in _) => destruct x as [k s1] end. step. assumption.
Qed.
Lemma o_push_token P acc t : calm P -> Forall sane_tok acc -> sane_tok t -> outcome err (Forall sane_tok) (push_token P acc t).
Proof.
  intros C A T. unfold push_token. destruct A as [|back acc B A]; [exact I|]. unfold add_token.
  assert (M : sane_tok (TOp "*")) by (exists 100; reflexivity). assert (M2 : sane_tok (TOp "^")) by (exists 1000; reflexivity).
  destruct (starts_factor t && ends_factor back)%bool; [repeat (apply Forall_cons || assumption)|].
  destruct back as [| |q|c| | |f|f]; try (cbn [outcome]; repeat (apply Forall_cons || assumption)).
  - destruct (is_sign t). { step. repeat (apply Forall_cons || assumption). } repeat (apply Forall_cons || assumption).
  - destruct t as [| |q'|c'| | |f'|f']; try reflexivity. cbn [sane_tok] in B. step. repeat (apply Forall_cons; [first [assumption|exact I]|]). assumption.
  - destruct (is_sign t). { step. repeat (apply Forall_cons || assumption). } repeat (apply Forall_cons || assumption).
Qed.
Lemma o_token_loop P dec fuel : calm P -> forall acc s, Forall sane_tok acc -> outcome err (Forall sane_tok) (token_loop P dec fuel acc s).
Proof.
  intros C. induction fuel as [|f IH]; intros acc s A; cbn [token_loop].
  - destruct acc as [|[] acc]; try exact I. exact A.
  - assert (G : outcome err (Forall sane_tok) ('(t, s') <- get_token P dec s ;; acc' <- push_token P acc t ;; token_loop P dec f acc' s')).
    { eapply o_bind; [apply o_get_token, C|]. intros [t s'] T. eapply o_bind; [apply o_push_token; eassumption|]. intros acc' A'. apply IH, A'. }
    destruct acc as [|[] acc]; try exact G. exact A.
Qed.
Lemma o_get_all_tokens P dec raw : calm P -> outcome err (Forall sane_tok) (get_all_tokens P dec raw).
Proof. intros C. unfold get_all_tokens. eapply o_bind; [apply o_token_loop; [exact C|repeat constructor]|]. intros acc A. apply Forall_rev, A. Qed.
Definition sane_state (st : state) : Prop := Forall sane_expr (fst st) /\ Forall has_priority (snd st).
Lemma o_great_or_equal X a b : has_priority a -> has_priority b -> outcome X any (great_or_equal a b).
Proof. intros [p A] [q B]. unfold great_or_equal. rewrite A, B. exact I. Qed.
Lemma o_handle st : sane_state st -> outcome err sane_state (handle st).
Proof.
  destruct st as [ns os]. intros [A B]. cbn [fst snd] in *. unfold handle. destruct A as [|r ns R A]; [reflexivity|]. destruct A as [|l ns L A]; [reflexivity|].
  destruct B as [|c os O B]; [reflexivity|]. split; cbn [fst snd]; [constructor; [split; assumption|assumption]|assumption].
Qed.
Lemma o_pop_ge c fuel : has_priority c -> forall st, sane_state st -> outcome err sane_state (pop_ge fuel c st).
Proof.
  intros HC. induction fuel as [|f IH]; intros st S; cbn [pop_ge]; (destruct (snd st) as [|o os] eqn:E; [exact S|]);
    (eapply o_bind; [apply o_great_or_equal; [destruct S as [_ S]; rewrite E in S; inversion S; assumption|exact HC]|intros g _]); (destruct g; [|exact S]); [exact I|].
  eapply o_bind; [apply o_handle, S|]. exact IH.
Qed.
Lemma o_pop_paren fuel : forall st, sane_state st -> outcome err sane_state (pop_paren fuel st).
Proof.
  induction fuel as [|f IH]; intros st S; cbn [pop_paren]; destruct (fst st) as [|n ns] eqn:EN; destruct (snd st) as [|o os] eqn:EO; try exact I; try exact S.
  - destruct (Ascii.eqb o "("); [exact S|exact I].
  - destruct (Ascii.eqb o "("); [exact S|]. eapply o_bind; [apply o_handle, S|]. intros st' S'. destruct (snd st') eqn:E'; [reflexivity|]. apply IH, S'.
Qed.
Lemma o_step st t : sane_state st -> sane_tok t -> outcome err sane_state (step st t).
Proof.
  intros [A B] T. assert (S : sane_state st) by (split; assumption). unfold step. destruct t as [| |q|c| | |f|f]; try reflexivity.
  - eapply o_bind; [apply o_pop_ge; [exact T|exact S]|]. intros st' [A' B']. split; cbn [fst snd]; [exact A'|constructor; assumption].
  - split; cbn [fst snd]; [exact A|constructor; [exists 0; reflexivity|exact B]].
  - destruct (snd st) eqn:E; [reflexivity|]. eapply o_bind; [apply o_pop_paren, S|]. intros st' [A' B']. destruct (snd st') as [|o os]; [reflexivity|].
    split; cbn [fst snd]; [exact A'|inversion B'; assumption].
  - split; cbn [fst snd]; [constructor; assumption|exact B].
  - split; cbn [fst snd]; [constructor; assumption|exact B].
Qed.
Lemma o_steps ts : Forall sane_tok ts -> forall st, sane_state st -> outcome err sane_state (steps st ts).
Proof. intros H. induction H as [|t ts T H IH]; intros st S; cbn [steps]; [exact S|]. eapply o_bind; [apply o_step; assumption|]. exact IH. Qed.
Lemma o_pop_all fuel : forall st, sane_state st -> outcome err sane_state (pop_all fuel st).
Proof.
  induction fuel as [|f IH]; intros st S; cbn [pop_all]; destruct (snd st); try exact S; [exact I|]. eapply o_bind; [apply o_handle, S|]. exact IH.
Qed.
Lemma o_parse_tokens ts : Forall sane_tok ts -> outcome err sane_expr (parse_tokens ts).
Proof.
  intros T. unfold parse_tokens. eapply o_bind; [apply o_steps; [exact T|split; constructor]|]. intros st S. eapply o_bind; [apply o_pop_all, S|]. intros st' [A _].
  destruct A as [|e l E A]; [reflexivity|]. destruct A; [exact E|reflexivity].
Qed.
Lemma Forall_tl {A} (Q : A -> Prop) l : Forall Q l -> Forall Q (tl l). Proof. destruct 1; [constructor|assumption]. Qed.
Lemma Forall_removelast {A} (Q : A -> Prop) l : Forall Q l -> Forall Q (removelast l).
Proof. intros H. induction H as [|x l X H IH]; [constructor|]. cbn [removelast]. destruct l; [constructor|constructor; assumption]. Qed.
Lemma o_parse P dec raw : calm P -> outcome err sane_expr (parse P dec raw).
Proof.
  intros C. unfold parse. eapply o_bind; [apply o_get_all_tokens, C|]. intros ts T. apply o_parse_tokens, Forall_removelast, Forall_tl, T.
Qed.
#[export] Hint Resolve o_parse : calm.
