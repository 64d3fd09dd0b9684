(** Without roots and powers the two machines do exactly the same: no double is ever computed. *)
From Coq Require Import ZArith QArith String Ascii Lia Bool List.
From Verif Require Import Base AdapterModel AdapterProofs RationalModel RationalProofs RationalProofs2 RealModel PolyModel ExprModel ParserModel DecModel NumModel DblModel DblSpec DblProofs1 DblProofs2 LiftModel LiftSpec.
Import ListNotations.
Open Scope Z_scope.

Definition same {A} (Q : A -> Prop) (r r' : res A) : Prop := r' = r /\ forall x, r = Ok x -> Q x.
Definition any {A} (x : A) : Prop := True.
Lemma same_refl {A} (r : res A) : same any r r. Proof. split; [reflexivity|intros; exact I]. Qed.
Lemma same_ok {A} (Q : A -> Prop) x : Q x -> same Q (Ok x) (Ok x). Proof. intros H. split; [reflexivity|]. intros y E. injection E as <-. exact H. Qed.
Lemma same_throw {A} (Q : A -> Prop) m : same Q (Throw m) (Throw m). Proof. split; [reflexivity|discriminate]. Qed.
Lemma same_ub {A} (Q : A -> Prop) m : same Q (Ub m) (Ub m). Proof. split; [reflexivity|discriminate]. Qed.
Lemma same_fuel {A} (Q : A -> Prop) : same Q Fuel Fuel. Proof. split; [reflexivity|discriminate]. Qed.
Lemma same_bind {A B} (Q : A -> Prop) (Q' : B -> Prop) r r' f f' : same Q r r' -> (forall x, r = Ok x -> Q x -> same Q' (f x) (f' x)) -> same Q' (bind r f) (bind r' f').
Proof. intros [-> H] K. destruct r as [x|m|m|]; cbn [bind]; try (split; [reflexivity|discriminate]). exact (K x eq_refl (H x eq_refl)). Qed.
Lemma same_weaken {A} (Q Q' : A -> Prop) r r' : same Q r r' -> (forall x, Q x -> Q' x) -> same Q' r r'.
Proof. intros [E H] K. split; [exact E|]. intros x X. exact (K x (H x X)). Qed.

Section Real.
Context (X : denv) (W : 2 <= ew (de X)) (F : efac (de X) 1 = Ok []).
Notation E := (de X).
Let w := ew (de X).
Lemma half2 : 2 <= 2 ^ (w - 1). Proof. exact (half X W). Qed.
Lemma swrap1 : swrap w 1 = 1.
Proof. pose proof half2. unfold swrap. assert (2 ^ w = 2 * 2 ^ (w - 1)) by (rewrite <- Z.pow_succ_r by (unfold w in *; lia); f_equal; lia). rewrite Z.mod_small by lia. destruct (Z.ltb_spec 1 (2 ^ (w - 1))); lia. Qed.
Lemma eq11 : rat_eq w (Rat 1 1) (Rat 1 1) = Ok true.
Proof. pose proof half2. unfold rat_eq. cbn [num den]. change (1 * 1) with 1. rewrite !chk_ok by lia. reflexivity. Qed.
Lemma index1 : rat_of_index w 1 = Ok (Rat 1 1). Proof. pose proof half2. unfold rat_of_index. rewrite swrap1. apply of_int_ok; unfold w in *; lia. Qed.
Lemma mul11 : rat_mul w (Rat 1 1) (Rat 1 1) = Ok (Rat 1 1).
Proof. pose proof half2. unfold rat_mul. cbn [num den]. rewrite !gcd_ok' by lia. cbn [bind]. change (Z.gcd 1 1) with 1. rewrite !quot_ok by lia. cbn [bind]. rewrite !Z.quot_1_r. rewrite !chk_ok by lia. reflexivity. Qed.
Lemma inverse1 : rat_inverse w (Rat 1 1) = Ok (Rat 1 1). Proof. pose proof half2. unfold rat_inverse. cbn [num den]. change (rat_make w 1 1) with (rat_of_int w 1). apply of_int_ok; unfold w in *; lia. Qed.
Lemma rpow1 c : rpow w c (Rat 1 1) = Ok c /\ rpow_d X c (Rat 1 1) = Ok c.
Proof. pose proof half2. unfold rpow, rpow_d, rat_pow. fold w. rewrite pow_eq0 by (cbn [num den]; unfold w in *; lia). rewrite eq11. cbn [num bind]. change (1 =? 0) with false. cbv iota. split; reflexivity. Qed.
Lemma normal_rootless c : real_normalize E (Real 1 (Rat 1 1) c) = (z <- rat_eq w c (Rat 0 1) ;; if z : bool then Ok (Real 1 (Rat 1 1) c) else Ok (Real 1 (Rat 1 1) c)) /\ real_normalize_d X (Real 1 (Rat 1 1) c) = real_normalize E (Real 1 (Rat 1 1) c).
Proof. pose proof half2.
  unfold real_normalize, real_normalize_d. cbn [rad idx coe den num]. change (is_int (Rat 1 1)) with true. cbn [bind]. unfold decompose. cbn [num]. fold w.
  assert ((1 <=? 2 ^ (w - 2)) = true) as -> by (apply Z.leb_le; pose proof (Z.pow_pos_nonneg 2 (w - 2)); unfold w in *; lia). rewrite F. cbn [bind decompose_loop pull_all pull_all_d]. cbn [num]. change (1 =? 1) with true. cbn [bind fold_left].
  rewrite Z.gcd_1_l, swrap1. change (1 =? 1) with true. cbn [bind]. rewrite eq11. cbn [bind]. split; reflexivity.
Qed.
Lemma normal_same x : rootless x -> same rootless (real_normalize E x) (real_normalize_d X x).
Proof.
  destruct x as [i r c]. intros [I R]. cbn [idx rad] in I, R. subst i r. destruct (normal_rootless c) as [A B]. split; [exact B|]. rewrite A. intros y Y. apply bind_ok in Y as (z & _ & Y). destruct z; injection Y as <-; split; reflexivity.
Qed.
Lemma make_same c : same rootless (real_make E c (Rat 1 1) 1) (real_make_d X c (Rat 1 1) 1). Proof. apply normal_same. split; reflexivity. Qed.
Lemma of_int_same n : same rootless (real_of_int E n) (real_of_int_d X n).
Proof. unfold real_of_int, real_of_int_d. eapply same_bind; [apply same_refl|intros c _ _]. apply make_same. Qed.
Lemma of_rat_same c : same rootless (real_of_rat E c) (real_of_rat_d X c). Proof. apply make_same. Qed.
Lemma add_same a b : rootless a -> same rootless (real_add E a b) (real_add_d X a b).
Proof. intros [I R]. unfold real_add, real_add_d. eapply same_bind; [apply same_refl|intros e _ _]. destruct e; [|apply same_throw]. eapply same_bind; [apply same_refl|intros c _ _]. apply normal_same. now split. Qed.
Lemma negate_same a : rootless a -> same rootless (real_negate E a) (real_negate_d X a).
Proof. intros [I R]. unfold real_negate, real_negate_d. eapply same_bind; [apply same_refl|intros c _ _]. apply normal_same. now split. Qed.
Lemma sub_same a b : rootless a -> rootless b -> same rootless (real_sub E a b) (real_sub_d X a b).
Proof. intros A B. unfold real_sub, real_sub_d. eapply same_bind; [now apply negate_same|intros n _ _]. eapply same_bind; [now apply add_same|intros s _ S]. now apply normal_same. Qed.
Lemma mul_same a b : rootless a -> rootless b -> same rootless (real_mul E a b) (real_mul_d X a b).
Proof.
  intros [Ia Ra] [Ib Rb]. unfold real_mul, real_mul_d. rewrite Ia, Ib, Ra, Rb. fold w. eapply same_bind; [apply same_refl|intros l L _].
  unfold ulcm in L. change (Z.lcm 1 1) with 1 in L. destruct (1 <? 2 ^ w); [|discriminate]. injection L as <-. change (uquot 1 1) with (Ok 1). cbn [bind]. rewrite index1. cbn [bind].
  destruct (rpow1 (Rat 1 1)) as [P1 P2]. rewrite P1, P2. cbn [bind]. rewrite mul11. cbn [bind]. eapply same_bind; [apply same_refl|intros c _ _]. apply normal_same. now split.
Qed.
Lemma inverse_same a : rootless a -> same rootless (real_inverse w a) (real_inverse w a).
Proof. intros [I R]. split; [reflexivity|]. unfold real_inverse. rewrite R, inverse1. intros y Y. apply bind_ok in Y as (c & _ & Y). cbn [bind] in Y. injection Y as <-. now split. Qed.
Lemma div_same a b : rootless a -> rootless b -> same rootless (real_div E a b) (real_div_d X a b).
Proof. intros A B. unfold real_div, real_div_d. eapply same_bind; [now apply inverse_same|intros i _ Hi]. now apply mul_same. Qed.
Lemma power_form_same c j : j = 1 -> power_form w c (Rat 1 1) (uwrap w (1 * 1)) j = power_form_d X c (Rat 1 1) (uwrap w (1 * 1)) j.
Proof. pose proof half2.
  intros ->. unfold power_form, power_form_d. fold w. assert (uwrap w (1 * 1) = 1) as ->. { unfold uwrap. apply Z.mod_small. assert (2 ^ w = 2 * 2 ^ (w - 1)) by (rewrite <- Z.pow_succ_r by (unfold w in *; lia); f_equal; lia). lia. }
  rewrite index1. cbn [bind]. destruct (rpow1 c) as [-> ->]. cbn [bind]. destruct (rpow1 (Rat 1 1)) as [-> ->]. reflexivity.
Qed.
Lemma lt_same a b : rootless a -> rootless b -> real_lt_d X a b = real_lt w a b.
Proof.
  intros [Ia Ra] [Ib Rb]. unfold real_lt, real_lt_d. fold w. rewrite Ia, Ib, Ra, Rb. destruct (real_eq w a b) as [e| | |]; cbn [bind]; try reflexivity. destruct e; [reflexivity|].
  repeat match goal with |- bind ?r _ = bind ?r _ => destruct r; cbn [bind]; try reflexivity end.
  repeat match goal with |- (if ?b then _ else _) = (if ?b then _ else _) => destruct b; try reflexivity end; repeat (match goal with |- bind (rat_negate ?u ?v) _ = _ => destruct (rat_negate u v); cbn [bind]; try reflexivity end); now rewrite !power_form_same by reflexivity.
Qed.
Lemma gt_same a b : rootless a -> rootless b -> real_gt_d X a b = real_gt w a b.
Proof. intros A B. unfold real_gt, real_gt_d. fold w. now rewrite (lt_same a b A B). Qed.
End Real.

Notation rt t := (rootless (tco t)).
Notation ro := (fun o : option real => match o with Some c => rootless c | None => True end).
Lemma mapr_same {A B} (Q : A -> Prop) (Q' : B -> Prop) (f g : A -> res B) l : Forall Q l -> (forall x, Q x -> same Q' (f x) (g x)) -> same (Forall Q') (mapr f l) (mapr g l).
Proof.
  intros H K. induction H as [|a l Ha H IH]; cbn [mapr]; [apply same_ok; constructor|]. eapply same_bind; [now apply K|intros b _ Hb]. eapply same_bind; [exact IH|intros r _ Hr]. apply same_ok. now constructor.
Qed.
Lemma normalize_rt w c s : rootless c -> same (fun t => rt t) (term_normalize w (Term c s)) (term_normalize w (Term c s)).
Proof. intros H. split; [reflexivity|]. unfold term_normalize. cbn [tco syms]. intros t T. apply bind_ok in T as (s' & _ & T). injection T as <-. exact H. Qed.
Lemma make_rt w c s : rootless c -> same (fun t => rt t) (term_make w c s) (term_make w c s). Proof. apply normalize_rt. Qed.

Lemma rnil : rootless_poly []. Proof. constructor. Qed.
Lemma rcons t l : rt t -> rootless_poly l -> rootless_poly (t :: l). Proof. now constructor. Qed.
(** an expression of rootless leaves with + - * / *)
Fixpoint rootless_expr (e : expr) : Prop :=
  match e with Leaf f => rootless_frac f | Op c l r => c <> "^"%char /\ rootless_expr l /\ rootless_expr r end.
Lemma rootless_both e : rootless_leaves e -> powerless e -> rootless_expr e.
Proof. induction e as [f|c l IHl r IHr]; cbn; [auto|]. intros [A B] (C & H & K). auto. Qed.

Section Poly.
Context (D : dpenv) (W : 2 <= ew (de (dpe D))) (F : efac (de (dpe D)) 1 = Ok []) (sort : poly -> res poly) (HS : sorts_same sort D).
Notation X := (dpe D).
Notation E := (de (dpe D)).
Notation P := (PEnv (de (dpe D)) sort).

Lemma term_mul_same a b : rt a -> rt b -> same (fun t => rt t) (term_mul E a b) (term_mul_d X a b).
Proof. intros A B. unfold term_mul, term_mul_d. eapply same_bind; [apply same_refl|intros s _ _]. eapply same_bind; [now apply (mul_same X W F)|intros c _ C]. now apply normalize_rt. Qed.
Lemma term_div_same a r : rt a -> rootless r -> same (fun t => rt t) (term_div E a r) (term_div_d X a r).
Proof. intros A B. unfold term_div, term_div_d. eapply same_bind; [now apply (div_same X W F)|intros c _ C]. now apply normalize_rt. Qed.
Lemma term_negate_same a : rt a -> same (fun t => rt t) (term_negate E a) (term_negate_d X a).
Proof. intros A. unfold term_negate, term_negate_d. eapply same_bind; [now apply (negate_same X W F)|intros c _ C]. now apply make_rt. Qed.
Lemma term_positive_same a : rt a -> same any (term_positive E a) (term_positive_d X a).
Proof. intros A. unfold term_positive, term_positive_d. eapply same_bind; [apply (of_int_same X W F)|intros z _ Hz]. rewrite (gt_same X W _ _ A Hz). apply same_refl. Qed.
Lemma term_before_same a b : rt a -> rt b -> same any (term_before (ew E) a b) (term_before_d X a b).
Proof. intros A B. unfold term_before, term_before_d. rewrite (gt_same X W _ _ A B). apply same_refl. Qed.
Lemma insert_term_same t l : rt t -> rootless_poly l -> same rootless_poly (insert_term (ew E) t l) (insert_term_d X t l).
Proof.
  intros T L. induction L as [|u l U L IH]; cbn [insert_term insert_term_d]; [apply same_ok; auto using rcons, rnil|]. eapply same_bind; [now apply term_before_same|intros b _ _]. destruct b.
  - eapply same_bind; [exact IH|intros r _ R]. apply same_ok. auto using rcons, rnil.
  - apply same_ok. auto using rcons, rnil.
Qed.
Lemma isort_same l : rootless_poly l -> same rootless_poly (isort (ew E) l) (isort_d X l).
Proof. intros L. induction L as [|u l U L IH]; cbn [isort isort_d]; [apply same_ok; constructor|]. eapply same_bind; [exact IH|intros s _ S]. now apply insert_term_same. Qed.
Lemma merge_from_same l : rootless_poly l -> forall a, rt a -> same rootless_poly (merge_from E a l) (merge_from_d X a l).
Proof.
  intros L. induction L as [|b l B L IH]; intros a A; cbn [merge_from merge_from_d]; [apply same_ok; auto using rcons, rnil|]. eapply same_bind; [apply same_refl|intros e _ _]. destruct e.
  - eapply same_bind; [now apply (add_same X W F)|intros c _ C]. eapply same_bind; [now apply make_rt|intros t _ T]. now apply IH.
  - eapply same_bind; [now apply IH|intros r _ R]. apply same_ok. auto using rcons, rnil.
Qed.
Lemma merge_terms_same l : rootless_poly l -> same rootless_poly (merge_terms E l) (merge_terms_d X l).
Proof. intros L. destruct L as [|a l A L]; cbn [merge_terms merge_terms_d]; [apply same_ok; constructor|now apply merge_from_same]. Qed.
Lemma sort_same l : rootless_poly l -> same rootless_poly (sort l) (dsort D l). Proof. intros L. destruct (HS l L). now split. Qed.
Lemma poly_normalize_same l : rootless_poly l -> same rootless_poly (poly_normalize P l) (poly_normalize_d D l).
Proof. intros L. unfold poly_normalize, poly_normalize_d. cbn [pe psort]. eapply same_bind; [now apply sort_same|intros s _ S]. now apply merge_terms_same. Qed.
Lemma poly_make_same l : rootless_poly l -> same rootless_poly (poly_make P l) (poly_make_d D l). Proof. apply poly_normalize_same. Qed.
Lemma make_const_same c : rootless c -> same rootless_poly (poly_make P [term_const c]) (poly_make_d D [term_const c]).
Proof. intros C. apply poly_make_same. auto using rcons, rnil. Qed.
Lemma try_sum_same l : rootless_poly l -> forall acc, rootless acc -> same ro (try_sum E acc l) (try_sum_d X acc l).
Proof.
  intros L. induction L as [|t l T L IH]; intros acc A; cbn [try_sum try_sum_d]; [now apply same_ok|]. destruct (term_try_eval t); [|now apply same_ok].
  eapply same_bind; [apply same_refl|intros e _ _]. destruct e; [|now apply same_ok]. eapply same_bind; [now apply (add_same X W F)|intros c _ C]. now apply IH.
Qed.
Lemma poly_try_eval_same l : rootless_poly l -> same ro (poly_try_eval E l) (poly_try_eval_d X l).
Proof. intros L. unfold poly_try_eval, poly_try_eval_d. eapply same_bind; [apply (of_int_same X W F)|intros z _ Hz]. now apply try_sum_same. Qed.
Lemma eval_sum_same l : rootless_poly l -> forall acc, rootless acc -> same rootless (eval_sum E acc l) (eval_sum_d X acc l).
Proof.
  intros L. induction L as [|t l T L IH]; intros acc A; cbn [eval_sum eval_sum_d]; [now apply same_ok|]. eapply same_bind; [apply same_refl|intros c _ _]. eapply same_bind; [now apply (add_same X W F)|intros d _ Hd]. now apply IH.
Qed.
Lemma poly_eval_same l : rootless_poly l -> same rootless (poly_eval E l) (poly_eval_d X l).
Proof. intros L. unfold poly_eval, poly_eval_d. eapply same_bind; [apply (of_int_same X W F)|intros z _ Hz]. now apply eval_sum_same. Qed.
Lemma poly_is_zero_same l : same any (poly_is_zero E l) (poly_is_zero_d X l).
Proof. induction l as [|t l IH]; cbn [poly_is_zero poly_is_zero_d]; [now apply same_ok|]. eapply same_bind; [apply (of_int_same X W F)|intros z _ Hz]. eapply same_bind; [apply same_refl|intros n _ _]. destruct n; [now apply same_ok|exact IH]. Qed.
Notation ro2 := (fun o : option (real * real) => match o with Some (x, y) => rootless x /\ rootless y | None => True end).
Lemma both_same a b : rootless_poly a -> rootless_poly b -> same ro2 (both E a b) (both_d X a b).
Proof.
  intros A B. unfold both, both_d. eapply same_bind; [now apply poly_try_eval_same|intros x _ Hx]. eapply same_bind; [now apply poly_try_eval_same|intros y _ Hy]. destruct x, y; apply same_ok; auto.
Qed.
Lemma app_rootless a b : rootless_poly a -> rootless_poly b -> rootless_poly (a ++ b). Proof. intros A B. apply Forall_app. now split. Qed.
Lemma poly_add_to_same a b : rootless_poly a -> rootless_poly b -> same rootless_poly (poly_add_to P a b) (poly_add_to_d D a b).
Proof. intros A B. apply poly_normalize_same. now apply app_rootless. Qed.
Lemma poly_negate_same a : rootless_poly a -> same rootless_poly (poly_negate E a) (poly_negate_d X a).
Proof. intros A. apply (mapr_same (fun t => rt t)); [exact A|]. intros t T. now apply term_negate_same. Qed.
Lemma poly_add_same a b : rootless_poly a -> rootless_poly b -> same rootless_poly (poly_add P a b) (poly_add_d D a b).
Proof.
  intros A B. unfold poly_add, poly_add_d. cbn [pe]. eapply same_bind; [now apply both_same|intros [[x y]|] _ H]; [|now apply poly_add_to_same]. destruct H. eapply same_bind; [now apply (add_same X W F)|intros s _ S]. now apply make_const_same.
Qed.
Lemma poly_sub_to_same a b : rootless_poly a -> rootless_poly b -> same rootless_poly (poly_sub_to P a b) (poly_sub_to_d D a b).
Proof. intros A B. unfold poly_sub_to, poly_sub_to_d. cbn [pe]. eapply same_bind; [now apply poly_negate_same|intros n _ N]. eapply same_bind; [now apply poly_add_to_same|intros s _ S]. now apply poly_normalize_same. Qed.
Lemma poly_sub_same a b : rootless_poly a -> rootless_poly b -> same rootless_poly (poly_sub P a b) (poly_sub_d D a b).
Proof.
  intros A B. unfold poly_sub, poly_sub_d. cbn [pe]. eapply same_bind; [now apply both_same|intros [[x y]|] _ H]; [|now apply poly_sub_to_same]. destruct H. eapply same_bind; [now apply (sub_same X W F)|intros s _ S]. now apply make_const_same.
Qed.
Lemma poly_mul_to_same a b : rootless_poly a -> rootless_poly b -> same rootless_poly (poly_mul_to P a b) (poly_mul_to_d D a b).
Proof.
  intros A B. unfold poly_mul_to, poly_mul_to_d. cbn [pe]. eapply same_bind.
  - apply (mapr_same (fun t => rt t) rootless_poly); [exact A|]. intros x Hx. apply (mapr_same (fun t => rt t)); [exact B|]. intros y Hy. now apply term_mul_same.
  - intros l _ L. apply poly_normalize_same. apply Forall_concat. exact L.
Qed.
Lemma poly_mul_same a b : rootless_poly a -> rootless_poly b -> same rootless_poly (poly_mul P a b) (poly_mul_d D a b).
Proof.
  intros A B. unfold poly_mul, poly_mul_d. cbn [pe]. eapply same_bind; [now apply both_same|intros [[x y]|] _ H]; [|now apply poly_mul_to_same]. destruct H. eapply same_bind; [now apply (mul_same X W F)|intros s _ S]. now apply make_const_same.
Qed.
Lemma poly_div_to_same a r : rootless_poly a -> rootless r -> same rootless_poly (poly_div_to P a r) (poly_div_to_d D a r).
Proof.
  intros A B. unfold poly_div_to, poly_div_to_d. cbn [pe]. eapply same_bind; [apply (mapr_same (fun t => rt t) (fun t => rt t)); [exact A|]; intros x Hx; now apply term_div_same|]. intros l _ L. now apply poly_normalize_same.
Qed.
Lemma poly_one_same : same rootless_poly (poly_one P) (poly_one_d D).
Proof. unfold poly_one, poly_one_d. cbn [pe]. eapply same_bind; [apply (of_int_same X W F)|intros c _ C]. now apply make_const_same. Qed.
Lemma scale_same m l : rootless_poly l -> same rootless_poly (mapr (fun t => c <- real_of_int E m ;; term_mul E t (term_const c)) l) (mapr (fun t => c <- real_of_int_d X m ;; term_mul_d X t (term_const c)) l).
Proof. intros L. apply (mapr_same (fun t => rt t) (fun t => rt t)); [exact L|]. intros t T. eapply same_bind; [apply (of_int_same X W F)|intros c _ C]. now apply term_mul_same. Qed.
Lemma frac_normalize_same f : rootless_frac f -> same rootless_frac (frac_normalize P f) (frac_normalize_d D f).
Proof.
  intros [N Dn]. unfold frac_normalize, frac_normalize_d. cbn [pe]. eapply same_bind; [now apply poly_normalize_same|intros n _ Hn]. eapply same_bind; [now apply poly_normalize_same|intros d _ Hd].
  do 2 (eapply same_bind; [apply same_refl|intros ? _ _]). eapply same_bind; [now apply scale_same|intros n' _ Hn']. eapply same_bind; [now apply scale_same|intros d' _ Hd'].
  destruct n' as [|n0 n']; [apply same_ub|]. destruct d' as [|d0 d']; [apply same_ub|]. do 3 (eapply same_bind; [apply same_refl|intros ? _ _]). eapply same_bind; [apply same_refl|intros [g|] _ _]; [|apply same_ok; now split].
  eapply same_bind; [apply (of_int_same X W F)|intros gr _ G1]. eapply same_bind; [now apply poly_div_to_same|intros n2 _ N2]. eapply same_bind; [apply (of_int_same X W F)|intros gr' _ G2]. eapply same_bind; [now apply poly_div_to_same|intros d2 _ D2]. apply same_ok. now split.
Qed.
Lemma frac_of_poly_same n : rootless_poly n -> same rootless_frac (frac_of_poly P n) (frac_of_poly_d D n).
Proof. intros N. unfold frac_of_poly, frac_of_poly_d. eapply same_bind; [apply poly_one_same|intros d _ Hd]. apply frac_normalize_same. now split. Qed.
Lemma frac_of_term_same t : rt t -> same rootless_frac (frac_of_term P t) (frac_of_term_d D t).
Proof. intros T. unfold frac_of_term, frac_of_term_d. eapply same_bind; [apply poly_make_same; auto using rcons, rnil|intros n _ N]. now apply frac_of_poly_same. Qed.
Lemma frac_of_real_same c : rootless c -> same rootless_frac (frac_of_real P c) (frac_of_real_d D c). Proof. intros C. apply frac_of_term_same. exact C. Qed.
Lemma frac_make_same n d : rootless_poly n -> rootless_poly d -> same rootless_frac (frac_make P n d) (frac_make_d D n d).
Proof. intros N Dn. unfold frac_make, frac_make_d. cbn [pe]. eapply same_bind; [apply poly_is_zero_same|intros z _ _]. destruct z; [apply same_throw|]. apply frac_normalize_same. now split. Qed.
Lemma frac_add_same a b : rootless_frac a -> rootless_frac b -> same rootless_frac (frac_add P a b) (frac_add_d D a b).
Proof.
  intros [A1 A2] [B1 B2]. unfold frac_add, frac_add_d. cbn [pe]. eapply same_bind; [apply same_refl|intros e _ _]. destruct e.
  - eapply same_bind; [now apply poly_add_to_same|intros n _ N]. apply same_ok. now split.
  - eapply same_bind; [now apply poly_mul_same|intros x _ Hx]. eapply same_bind; [now apply poly_mul_same|intros y _ Hy]. eapply same_bind; [now apply poly_add_same|intros n _ Hn]. eapply same_bind; [now apply poly_mul_to_same|intros d _ Hd]. apply frac_normalize_same. now split.
Qed.
Lemma frac_negate_same a : rootless_frac a -> same rootless_frac (frac_negate P a) (frac_negate_d D a).
Proof. intros [A1 A2]. unfold frac_negate, frac_negate_d. cbn [pe]. eapply same_bind; [now apply poly_negate_same|intros n _ N]. now apply frac_make_same. Qed.
Lemma frac_inverse_same a : rootless_frac a -> same rootless_frac (frac_inverse P a) (frac_inverse_d D a). Proof. intros [A1 A2]. now apply frac_make_same. Qed.
Lemma frac_sub_same a b : rootless_frac a -> rootless_frac b -> same rootless_frac (frac_sub P a b) (frac_sub_d D a b).
Proof. intros A B. unfold frac_sub, frac_sub_d. eapply same_bind; [now apply frac_negate_same|intros n _ N]. now apply frac_add_same. Qed.
Lemma frac_mul_same a b : rootless_frac a -> rootless_frac b -> same rootless_frac (frac_mul P a b) (frac_mul_d D a b).
Proof. intros [A1 A2] [B1 B2]. unfold frac_mul, frac_mul_d. do 2 (eapply same_bind; [now apply poly_mul_to_same|intros ? _ ?]). apply frac_normalize_same. now split. Qed.
Lemma frac_div_same a b : rootless_frac a -> rootless_frac b -> same rootless_frac (frac_div P a b) (frac_div_d D a b).
Proof. intros [A1 A2] [B1 B2]. unfold frac_div, frac_div_d. cbn [pe]. eapply same_bind; [apply poly_is_zero_same|intros z _ _]. destruct z; [apply same_throw|]. do 2 (eapply same_bind; [now apply poly_mul_to_same|intros ? _ ?]). apply frac_normalize_same. now split. Qed.
Lemma frac_try_eval_same a : rootless_frac a -> same ro (frac_try_eval P a) (frac_try_eval_d D a).
Proof.
  intros [A1 A2]. unfold frac_try_eval, frac_try_eval_d. cbn [pe]. eapply same_bind; [now apply poly_try_eval_same|intros x _ Hx]. eapply same_bind; [now apply poly_try_eval_same|intros y _ Hy]. destruct x, y; try now apply same_ok. eapply same_bind; [now apply (div_same X W F)|intros q _ Q]. now apply same_ok.
Qed.
Lemma frac_eval_same a : rootless_frac a -> same rootless (frac_eval P a) (frac_eval_d D a).
Proof. intros [A1 A2]. unfold frac_eval, frac_eval_d. cbn [pe]. do 2 (eapply same_bind; [now apply poly_eval_same|intros ? _ ?]). now apply (div_same X W F). Qed.

(** ** expressions *)
Notation rf := (fun o : option frac => match o with Some f => rootless_frac f | None => True end).
Lemma apply_op_same c a b : rootless_frac a -> rootless_frac b -> same rootless_frac (apply_op P c a b) (apply_op_d D c a b).
Proof.
  intros A B. unfold apply_op, apply_op_d. repeat match goal with |- same _ (if ?b then _ else _) _ => destruct b end; [now apply frac_add_same|now apply frac_sub_same|now apply frac_mul_same|now apply frac_div_same|apply same_throw].
Qed.
Lemma no_caret c : c <> "^"%char -> Ascii.eqb c "^" = false. Proof. intros H. now apply Ascii.eqb_neq. Qed.
Lemma expr_try_eval_same e : rootless_expr e -> same rf (expr_try_eval P e) (expr_try_eval_d D e).
Proof.
  induction e as [f|c l IHl r IHr]; cbn [rootless_expr expr_try_eval expr_try_eval_d]; [intros H; now apply same_ok|]. intros (C & L & R). rewrite (no_caret c C).
  eapply same_bind; [now apply IHl|intros x _ Hx]. eapply same_bind; [now apply IHr|intros y _ Hy]. destruct x, y; try now apply same_ok. eapply same_bind; [now apply apply_op_same|intros z _ Z]. now apply same_ok.
Qed.
Lemma expr_normalize_same e : rootless_expr e -> same rootless_expr (expr_normalize P e) (expr_normalize_d D e).
Proof.
  induction e as [f|c l IHl r IHr]; intros H; cbn [expr_normalize expr_normalize_d]; [now apply same_ok|]. destruct H as (C & L & R). rewrite (no_caret c C).
  eapply same_bind; [now apply expr_try_eval_same|intros x _ Hx]. eapply same_bind; [now apply expr_try_eval_same|intros y _ Hy].
  assert (K : same rootless_expr (r' <- expr_normalize P r ;; l' <- expr_normalize P l ;; Ok (Op c l' r')) (r' <- expr_normalize_d D r ;; l' <- expr_normalize_d D l ;; Ok (Op c l' r'))).
  { eapply same_bind; [now apply IHr|intros r' _ R']. eapply same_bind; [now apply IHl|intros l' _ L']. apply same_ok. cbn. auto. }
  destruct x; [|exact K]. destruct y; [|exact K]. eapply same_bind; [now apply apply_op_same|intros z _ Z]. now apply same_ok.
Qed.

(** ** texts *)
Lemma term_to_string_same t : same any (term_to_string E t) (term_to_string_d X t).
Proof. unfold term_to_string, term_to_string_d. rewrite !(proj1 (of_int_same X W F _)). apply same_refl. Qed.
Lemma term_to_tex_same t : same any (term_to_tex E t) (term_to_tex_d X t).
Proof. unfold term_to_tex, term_to_tex_d. rewrite !(proj1 (of_int_same X W F _)). apply same_refl. Qed.
Lemma poly_text_same f g (H : forall t, same any (f t) (g t)) l : rootless_poly l -> forall first, same any (poly_text E f first l) (poly_text_d X g first l).
Proof.
  intros L. induction L as [|t l T L IH]; intros first; cbn [poly_text poly_text_d]; [apply same_refl|]. unfold term_zero_d. rewrite (proj1 (of_int_same X W F 0)). fold (term_zero E t). eapply same_bind; [apply same_refl|intros z _ _]. destruct z; [apply IH|].
  eapply (same_bind any).
  - destruct first; [apply H|]. eapply same_bind; [now apply term_positive_same|intros p _ _]. destruct p.
    + eapply same_bind; [apply H|intros s _ _]. now apply same_ok.
    + eapply same_bind; [now apply term_negate_same|intros n _ N]. eapply same_bind; [apply H|intros s _ _]. now apply same_ok.
  - intros s _ _. eapply same_bind; [apply IH|intros r _ _]. now apply same_ok.
Qed.
Lemma poly_print_same f g (H : forall t, same any (f t) (g t)) l : rootless_poly l -> same any (poly_print E f l) (poly_print_d X g l).
Proof. intros L. unfold poly_print, poly_print_d. destruct l as [|t l]; [now apply same_ok|]. eapply same_bind; [apply poly_is_zero_same|intros z _ _]. destruct z; [now apply same_ok|]. now apply poly_text_same. Qed.
Lemma poly_to_string_same l : rootless_poly l -> same any (poly_to_string E l) (poly_to_string_d X l). Proof. apply poly_print_same. exact term_to_string_same. Qed.
Lemma poly_to_tex_same l : rootless_poly l -> same any (poly_to_tex E l) (poly_to_tex_d X l). Proof. apply poly_print_same. exact term_to_tex_same. Qed.
Lemma den_is_one_same d : den_is_one_d X d = den_is_one E d.
Proof. unfold den_is_one, den_is_one_d. rewrite !(proj1 (of_int_same X W F _)). reflexivity. Qed.
Lemma need_paren_same f : output_need_paren_d X f = output_need_paren E f. Proof. unfold output_need_paren, output_need_paren_d. now rewrite den_is_one_same. Qed.
Lemma frac_to_string_same f : rootless_frac f -> same any (frac_to_string E f) (frac_to_string_d X f).
Proof.
  intros [N Dn]. unfold frac_to_string, frac_to_string_d. rewrite den_is_one_same. destruct (fnum f); [now apply same_ok|]. eapply same_bind; [apply same_refl|intros o _ _]. destruct o; [now apply poly_to_string_same|]. do 2 (eapply same_bind; [now apply poly_to_string_same|intros ? _ _]). now apply same_ok.
Qed.
Lemma frac_to_tex_same f : rootless_frac f -> same any (frac_to_tex E f) (frac_to_tex_d X f).
Proof.
  intros [N Dn]. unfold frac_to_tex, frac_to_tex_d. rewrite den_is_one_same. destruct (fnum f); [now apply same_ok|]. eapply same_bind; [apply same_refl|intros o _ _]. destruct o; [now apply poly_to_tex_same|]. do 2 (eapply same_bind; [now apply poly_to_tex_same|intros ? _ _]). now apply same_ok.
Qed.
Lemma paren_left_same c l : paren_left_d X c l = paren_left E c l. Proof. destruct l; cbn [paren_left paren_left_d]; [apply need_paren_same|reflexivity]. Qed.
Lemma paren_right_same c l : paren_right_d X c l = paren_right E c l. Proof. destruct l; cbn [paren_right paren_right_d]; [apply need_paren_same|reflexivity]. Qed.
Lemma expr_to_string_same e : rootless_expr e -> same any (expr_to_string E e) (expr_to_string_d X e).
Proof.
  induction e as [f|c l IHl r IHr]; cbn [rootless_expr expr_to_string expr_to_string_d]; [apply frac_to_string_same|]. intros (_ & L & R). rewrite paren_left_same, paren_right_same.
  eapply same_bind; [apply same_refl|intros ? _ _]. eapply same_bind; [now apply IHl|intros ? _ _]. eapply same_bind; [apply same_refl|intros ? _ _]. eapply same_bind; [now apply IHr|intros ? _ _]. now apply same_ok.
Qed.
Lemma expr_to_tex_same e : rootless_expr e -> same any (expr_to_tex E e) (expr_to_tex_d X e).
Proof.
  induction e as [f|c l IHl r IHr]; cbn [rootless_expr expr_to_tex expr_to_tex_d]; [apply frac_to_tex_same|]. intros (_ & L & R). rewrite paren_left_same, paren_right_same.
  eapply same_bind; [apply same_refl|intros ? _ _]. eapply same_bind; [now apply IHl|intros ? _ _]. eapply same_bind; [apply same_refl|intros ? _ _]. eapply same_bind; [now apply IHr|intros ? _ _]. now apply same_ok.
Qed.

(** ** the parser: always the same *)
Lemma frac_of_rat_same q : same rootless_frac (frac_of_rat P q) (frac_of_rat_d D q).
Proof. unfold frac_of_rat, frac_of_rat_d. cbn [pe]. eapply same_bind; [apply (of_rat_same X W F)|intros c _ C]. now apply frac_of_real_same. Qed.
Lemma frac_of_int_same n : same rootless_frac (frac_of_int P n) (frac_of_int_d D n).
Proof. unfold frac_of_int, frac_of_int_d. cbn [pe]. eapply same_bind; [apply (of_int_same X W F)|intros c _ C]. now apply frac_of_real_same. Qed.
Lemma frac_of_sym_same k : same rootless_frac (frac_of_sym P k) (frac_of_sym_d D k).
Proof. unfold frac_of_sym, frac_of_sym_d. cbn [pe]. eapply same_bind; [apply (of_int_same X W F)|intros c _ C]. now apply frac_of_term_same. Qed.
Definition rtok (t : tok) : Prop := match t with TNum f | TSym f => rootless_frac f | _ => True end.
Lemma get_token_same dec s : same (fun p => rtok (fst p)) (get_token P dec s) (get_token_d D dec s).
Proof.
  unfold get_token, get_token_d. cbn [pe]. destruct (drop_spaces s) as [|c s']; [now apply same_ok|].
  repeat match goal with
  | |- same _ (if ?b then _ else _) _ => destruct b
  | |- same _ (let (_, _) := ?p in _) _ => destruct p
  | |- same _ (unreachable _) _ => apply same_throw
  | |- same _ (Ok _) _ => apply same_ok; cbn; solve [exact I|assumption]
  | |- same _ (bind (frac_of_rat _ _) _) _ => eapply same_bind; [apply frac_of_rat_same|intros ? _ ?]
  | |- same _ (bind (frac_of_sym _ _) _) _ => eapply same_bind; [apply frac_of_sym_same|intros ? _ ?]
  | |- same _ (bind ?r _) (bind ?r _) => eapply same_bind; [apply same_refl|intros [] _ _ || intros ? _ _]
  end.
Qed.
Ltac toks := repeat (apply Forall_cons; [first [assumption|exact I]|]); assumption.
Lemma add_token_same back acc t : Forall rtok (back :: acc) -> rtok t -> same (Forall rtok) (add_token P back acc t) (add_token_d D back acc t).
Proof.
  intros A T. inversion A; subst. unfold add_token, add_token_d. destruct (_ && _)%bool; [apply same_ok; toks|].
  destruct back; try (apply same_ok; toks).
  - destruct (is_sign t); [|apply same_ok; toks]. eapply same_bind; [apply frac_of_int_same|intros z _ Z]. apply same_ok. toks.
  - destruct t; try apply same_throw. eapply same_bind; [apply frac_of_rat_same|intros z _ Z]. apply same_ok. toks.
  - destruct (is_sign t); [|apply same_ok; toks]. eapply same_bind; [apply frac_of_int_same|intros z _ Z]. apply same_ok. toks.
Qed.
Lemma push_token_same acc t : Forall rtok acc -> rtok t -> same (Forall rtok) (push_token P acc t) (push_token_d D acc t).
Proof. intros A T. unfold push_token, push_token_d. destruct acc; [apply same_ub|]. now apply add_token_same. Qed.
Lemma token_loop_same dec fuel : forall acc s, Forall rtok acc -> same (Forall rtok) (token_loop P dec fuel acc s) (token_loop_d D dec fuel acc s).
Proof.
  induction fuel as [|f IH]; intros acc s A; cbn [token_loop token_loop_d].
  - destruct acc as [|[] ?]; first [simple apply same_ok; exact A|simple apply same_fuel].
  - assert (K : same (Forall rtok) ('(t, s') <- get_token P dec s ;; acc' <- push_token P acc t ;; token_loop P dec f acc' s') ('(t, s') <- get_token_d D dec s ;; acc' <- push_token_d D acc t ;; token_loop_d D dec f acc' s')).
    { eapply same_bind; [apply get_token_same|intros [t s'] _ T]. eapply same_bind; [now apply push_token_same|intros acc' _ A']. now apply IH. }
    destruct acc as [|[] ?]; first [simple apply same_ok; exact A|exact K].
Qed.
Lemma get_all_tokens_same dec raw : same (Forall rtok) (get_all_tokens P dec raw) (get_all_tokens_d D dec raw).
Proof. unfold get_all_tokens, get_all_tokens_d. eapply same_bind; [apply token_loop_same; constructor; [exact I|constructor]|intros acc _ A]. apply same_ok. now apply Forall_rev. Qed.
Lemma parse_same dec raw : parse_d D dec raw = parse P dec raw.
Proof. unfold parse, parse_d. now rewrite (proj1 (get_all_tokens_same dec raw)). Qed.

Notation rst := (fun st : state => Forall rootless_leaves (fst st)).
Lemma handle_leaves st st' : rst st -> handle st = Ok st' -> rst st'.
Proof.
  destruct st as [ns os]. unfold handle. destruct ns as [|r [|l ns]]; try discriminate. destruct os as [|c os]; [discriminate|]. cbn [fst]. intros H K. injection K as <-. cbn [fst].
  inversion H as [|? ? R H1]; subst. inversion H1 as [|? ? L H2]; subst. constructor; [split; assumption|assumption].
Qed.
Lemma pop_ge_leaves fuel c : forall st st', rst st -> pop_ge fuel c st = Ok st' -> rst st'.
Proof.
  induction fuel as [|f IH]; intros st st' H; cbn [pop_ge]; (destruct (snd st) as [|o os]; [intros K; injection K as <-; exact H|]); intros K; apply bind_ok in K as (g & _ & K); destruct g; try discriminate; try (injection K as <-; exact H).
  apply bind_ok in K as (st1 & K1 & K). exact (IH st1 st' (handle_leaves _ _ H K1) K).
Qed.
Lemma pop_paren_leaves fuel : forall st st', rst st -> pop_paren fuel st = Ok st' -> rst st'.
Proof.
  induction fuel as [|f IH]; intros st st' H; cbn [pop_paren]; (destruct (fst st) as [|n ns] eqn:N, (snd st) as [|o os]; try discriminate; [intros K; injection K as <-; rewrite N; constructor|]); (destruct (Ascii.eqb o "("); [intros K; injection K as <-; rewrite N; exact H|]); [discriminate|].
  intros K. apply bind_ok in K as (st1 & K1 & K). destruct (snd st1); [discriminate|]. apply (IH st1 st'); [|exact K]. apply (handle_leaves st st1); [rewrite N; exact H|exact K1].
Qed.
Lemma step_leaves st t st' : rst st -> rtok t -> step st t = Ok st' -> rst st'.
Proof.
  intros H T K. destruct t; cbn [step] in K; try discriminate; try (injection K as <-; cbn [fst]; first [exact H|constructor; assumption]).
  - apply bind_ok in K as (st1 & K1 & K). injection K as <-. cbn [fst]. exact (pop_ge_leaves _ _ _ _ H K1).
  - destruct (snd st); [discriminate|]. apply bind_ok in K as (st1 & K1 & K). destruct (snd st1); [discriminate|]. injection K as <-. cbn [fst]. exact (pop_paren_leaves _ _ _ H K1).
Qed.
Lemma steps_leaves ts : forall st st', rst st -> Forall rtok ts -> steps st ts = Ok st' -> rst st'.
Proof.
  induction ts as [|t ts IH]; intros st st' H T K; cbn [steps] in K; [injection K as <-; exact H|]. inversion T; subst. apply bind_ok in K as (st1 & K1 & K). apply (IH st1 st'); [exact (step_leaves st t st1 H ltac:(assumption) K1)|assumption|exact K].
Qed.
Lemma pop_all_leaves fuel : forall st st', rst st -> pop_all fuel st = Ok st' -> rst st'.
Proof.
  induction fuel as [|f IH]; intros st st' H; cbn [pop_all]; (destruct (snd st); [intros K; injection K as <-; exact H|]); [discriminate|]. intros K. apply bind_ok in K as (st1 & K1 & K). exact (IH st1 st' (handle_leaves _ _ H K1) K).
Qed.
Lemma parse_leaves dec raw e : parse P dec raw = Ok e -> rootless_leaves e.
Proof.
  unfold parse. intros H. apply bind_ok in H as (ts & T & H). pose proof (proj2 (get_all_tokens_same dec raw) ts T) as R. unfold parse_tokens in H. apply bind_ok in H as (st & K & H). apply bind_ok in H as (st' & K' & H).
  assert (R1 : Forall rtok (removelast (tl ts))). { assert (Forall rtok (tl ts)) as T1 by (destruct R; [constructor|assumption]). revert T1. generalize (tl ts). intros l L. induction L as [|a l A L IH]; [constructor|]. cbn [removelast]. destruct l; [constructor|]. now constructor. }
  pose proof (steps_leaves _ ([], []) _ (Forall_nil _) R1 K) as S1. pose proof (pop_all_leaves _ _ _ S1 K') as S2. cbn beta in S2. destruct (fst st') as [|e' [|? ?]]; try discriminate. injection H as <-. now inversion S2.
Qed.
Lemma history_same h : rational_history h -> same rootless_frac (PolySpec.frun P h) (frun_d D h).
Proof.
  induction h as [c|k|a IHa b IHb|a IHa b IHb|a IHa b IHb|a IHa b IHb|a IHa|a IHa|a IHa n|v a IHa]; cbn [rational_history PolySpec.frun frun_d]; try tauto.
  - apply frac_of_real_same.
  - intros _. apply frac_of_sym_same.
  - intros [A B]. eapply same_bind; [now apply IHa|intros x _ Hx]. eapply same_bind; [now apply IHb|intros y _ Hy]. now apply frac_add_same.
  - intros [A B]. eapply same_bind; [now apply IHa|intros x _ Hx]. eapply same_bind; [now apply IHb|intros y _ Hy]. now apply frac_sub_same.
  - intros [A B]. eapply same_bind; [now apply IHa|intros x _ Hx]. eapply same_bind; [now apply IHb|intros y _ Hy]. now apply frac_mul_same.
  - intros [A B]. eapply same_bind; [now apply IHa|intros x _ Hx]. eapply same_bind; [now apply IHb|intros y _ Hy]. now apply frac_div_same.
  - intros A. eapply same_bind; [now apply IHa|intros x _ Hx]. now apply frac_negate_same.
  - intros A. eapply same_bind; [now apply IHa|intros x _ Hx]. now apply frac_inverse_same.
Qed.
End Poly.
