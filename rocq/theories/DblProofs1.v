(** Double arithmetic is exact on the integers RealModel computes with, so the two models of Real agree. *)
From Coq Require Import ZArith QArith Qabs Qround Qpower String Ascii Lia Lqa Bool List.
From Verif Require Import Base AdapterModel AdapterProofs RationalModel RationalProofs RealModel RealSpec DecModel DecSpec DecProofs1 DecProofs2 DecProofs3 NumModel DblModel DblSpec.
Import ListNotations.
Open Scope Z_scope.

(** ** numbers *)
Lemma rnd_bits p x : 1 <= p -> has_bits p x -> (rnd p x == x)%Q.
Proof.
  intros Hp (n & s & Hn & E). destruct (Z_le_gt_dec 0 n) as [N|N].
  - apply rnd_rep; [exact Hp|]. exists n, s. split; [lia|exact E].
  - assert (X : x = (- - x)%Q) by (destruct x as [a b]; unfold Qopp; cbn; now rewrite Z.opp_involutive). rewrite X at 1. rewrite rnd_opp.
    rewrite (rnd_rep p (- x)%Q Hp); [ring|]. exists (- n), s. split; [lia|]. rewrite inject_Z_opp. rewrite E. unfold P2. ring.
Qed.
Lemma int_bits p z : Z.abs z <= 2 ^ p -> forall x, (x == inject_Z z)%Q -> has_bits p x.
Proof. intros H x E. exists z, 0. split; [exact H|]. rewrite E. change (Qpower 2 0) with 1%Q. ring. Qed.
Lemma rnd_int p z x : 1 <= p -> Z.abs z <= 2 ^ p -> (x == inject_Z z)%Q -> (rnd p x == inject_Z z)%Q.
Proof. intros Hp H E. rewrite (rnd_bits p x Hp (int_bits p z H x E)). exact E. Qed.
Lemma to_double_int z : Z.abs z <= 2 ^ 53 -> (to_double z == inject_Z z)%Q.
Proof. intros H. apply rnd_int; [lia|exact H|reflexivity]. Qed.
Lemma ftrunc_int q z : (q == inject_Z z)%Q -> ftrunc q = z.
Proof.
  intros E. unfold ftrunc. destruct (Qle_bool 0 q).
  - rewrite (Qfloor_comp _ _ E). apply Qfloor_Z.
  - assert (F : (- q == inject_Z (- z))%Q) by (rewrite inject_Z_opp, E; reflexivity). rewrite (Qfloor_comp _ _ F), Qfloor_Z. lia.
Qed.
Lemma of_double_int w q z : (q == inject_Z z)%Q -> of_double w q = chk w z.
Proof. intros E. unfold of_double. now rewrite (ftrunc_int q z E). Qed.
Lemma fits53_iff x : fits53 x = true <-> Z.abs x <= 2 ^ 53. Proof. unfold fits53. apply Z.leb_le. Qed.
Lemma double_small z : Z.abs z <= 2 ^ 53 -> double_int z.
Proof. intros H. exists z, 0. split; [lia|]. split; [exact H|]. change (2 ^ 0) with 1. lia. Qed.

(** ** agreement *)
Lemma agrees_refl {A} (r : res A) : agrees r r. Proof. destruct r; exact eq_refl || exact I. Qed.
Lemma agrees_bind {A B} (r r' : res A) (f f' : A -> res B) : agrees r r' -> (forall x, r = Ok x -> agrees (f x) (f' x)) -> agrees (bind r f) (bind r' f').
Proof. intros H K. destruct r as [x|m|u|]; cbn [agrees bind] in *; try exact I; rewrite H; cbn [bind]; [exact (K x eq_refl)|reflexivity]. Qed.
Lemma agrees_ub {A} u (r : res A) : agrees (Ub u) r. Proof. exact I. Qed.
Lemma agrees_ok {A} (r r' : res A) x : agrees r r' -> r = Ok x -> r' = Ok x. Proof. intros H ->. exact H. Qed.

Section Exact.
Context (X : denv) (G : good_double X).
Let w := ew (de X).
Lemma dpow_agrees b e v : dpow b e = Ok v -> Z.abs v <= 2 ^ 53 /\ forall y, (y == inject_Z e)%Q -> (pow_d X b y == inject_Z v)%Q.
Proof.
  unfold dpow. destruct (_ && _)%bool eqn:C; [|discriminate]. intros H. injection H as <-. rewrite !andb_true_iff, !fits53_iff in C. destruct C as (((Ce & Cb) & Ce2) & Cv). apply Z.leb_le in Ce.
  split; [exact Cv|]. intros y Y. unfold pow_d. destruct (proj1 G b e (to_double b) y (to_double_int b Cb) Y Cb ltac:(lia)) as (_ & K & _). apply K. now apply double_small.
Qed.
Lemma pow_cast_agrees b n d : agrees (pow_cast w b n d) (pow_cast_d X b n d).
Proof.
  unfold pow_cast, pow_cast_d. destruct (Z.eqb_spec d 0) as [D|D]; [exact I|]. destruct (_ && _)%bool eqn:C; [|exact I]. rewrite !andb_true_iff, !fits53_iff, Z.eqb_eq in C. destruct C as ((Cn & Cd) & M).
  assert (Q : n = d * (n / d)) by (apply Z.div_exact; lia). assert (QB : Z.abs (n / d) <= 2 ^ 53) by nia.
  assert (R : (rat_to_float 53 (Rat n d) == inject_Z (n / d))%Q).
  { unfold rat_to_float, fdiv. cbn [num den]. apply rnd_int; [lia|exact QB|]. rewrite (rnd_int 53 n), (rnd_int 53 d); try lia; try reflexivity. rewrite Q at 1. rewrite inject_Z_mult. field. intros H. apply D. unfold Qeq in H. cbn in H. lia. }
  destruct (dpow b (n / d)) as [v|m|u|] eqn:E; cbn [bind]; try exact I; [|now unfold dpow in E; destruct (_ && _)%bool in E].
  destruct (dpow_agrees _ _ _ E) as [V P]. fold w. rewrite (of_double_int w _ v (P _ R)). apply agrees_refl.
Qed.
Lemma places_int F x v : (x == inject_Z v)%Q -> decimal_places F x = 0%nat.
Proof.
  intros E. unfold decimal_places. set (p := fprec F). assert (A : (Qabs x == inject_Z (Z.abs v))%Q) by (rewrite E; reflexivity).
  assert (Z0 : fsub p (Qabs x) (ffloor (Qabs x)) = 0%Q). { unfold fsub. apply rnd_0. unfold ffloor. rewrite (Qfloor_comp _ _ A), Qfloor_Z, A. ring. }
  rewrite Z0. assert (E0 : fmul p (fepsilon p) 0 = 0%Q) by (unfold fmul; apply rnd_0; ring). rewrite E0. destruct (fdig F); reflexivity.
Qed.
Lemma of_float_int F x v : 53 <= fprec F -> Z.abs v <= 2 ^ 53 -> (x == inject_Z v)%Q -> rat_of_float w F x = (n <- chk w v ;; rat_of_int w n).
Proof.
  intros HF HV E. unfold rat_of_float. rewrite (places_int F x v E). cbn [Nat.min]. assert ((int_digits10 w <? 0)%nat = false) as -> by (apply Nat.ltb_ge; lia).
  change (10 ^ Z.of_nat 0) with 1. assert (ftrunc (fmul (fprec F) x (inject_Z 1)) = v) as ->; [|reflexivity].
  apply ftrunc_int. unfold fmul. apply rnd_int; [lia| |rewrite E; change (inject_Z 1) with 1%Q; ring]. pose proof (Z.pow_le_mono_r 2 53 (fprec F)). lia.
Qed.
Lemma dpow_cases b e : (exists v, dpow b e = Ok v) \/ exists u, dpow b e = Ub u.
Proof. unfold dpow. destruct (_ && _)%bool; eauto. Qed.
Lemma dpow_exponent b e v : dpow b e = Ok v -> Z.abs e <= 2 ^ 53.
Proof. unfold dpow. destruct (_ && _)%bool eqn:C; [|discriminate]. intros _. rewrite !andb_true_iff, !fits53_iff in C. lia. Qed.
Lemma pow_rat_agrees b e : agrees (pow_rat w b e) (pow_rat_d X b e).
Proof.
  unfold pow_rat, pow_rat_d. destruct (dpow_cases b e) as [[v E]|[u E]]; rewrite E; cbn [bind]; [|exact I].
  destruct (dpow_agrees _ _ _ E) as [V P]. fold w. rewrite (of_float_int (fld X) _ v (proj2 G) V (P _ (to_double_int e (dpow_exponent _ _ _ E)))). apply agrees_refl.
Qed.
Lemma inject_nz z : z <> 0 -> ~ (inject_Z z == 0)%Q. Proof. intros H K. apply H. unfold Qeq in K. cbn in K. lia. Qed.
Lemma div_pow_agrees x b e : agrees (div_pow w x b e) (div_pow_d X x b e).
Proof.
  unfold div_pow, div_pow_d. destruct (dpow_cases b e) as [[v E]|[u E]]; rewrite E; cbn [bind]; [|exact I].
  destruct (dpow_agrees _ _ _ E) as [V P]. specialize (P _ (to_double_int e (dpow_exponent _ _ _ E))). destruct (_ && _)%bool eqn:C; [|exact I].
  rewrite !andb_true_iff, fits53_iff, negb_true_iff, Z.eqb_eq, Z.eqb_neq in C. destruct C as ((Cx & NZ) & M). assert (Q : x = v * (x / v)) by (apply Z.div_exact; lia). assert (QB : Z.abs (x / v) <= 2 ^ 53) by nia.
  destruct (Qeq_bool _ 0) eqn:Q0; [apply Qeq_bool_iff in Q0; rewrite P in Q0; now destruct (inject_nz v NZ)|].
  fold w. rewrite (of_double_int w _ (x / v)); [apply agrees_refl|]. unfold fdiv. apply rnd_int; [lia|exact QB|]. rewrite P, to_double_int by exact Cx. rewrite Q at 1. rewrite inject_Z_mult. field. now apply inject_nz.
Qed.
Lemma mul_pow_agrees x b e : agrees (mul_pow w x b e) (mul_pow_d X x b e).
Proof.
  unfold mul_pow, mul_pow_d. destruct (dpow_cases b e) as [[v E]|[u E]]; rewrite E; cbn [bind]; [|exact I].
  destruct (dpow_agrees _ _ _ E) as [V P]. specialize (P _ (to_double_int e (dpow_exponent _ _ _ E))). destruct (_ && _)%bool eqn:C; [|exact I].
  rewrite andb_true_iff, !fits53_iff in C. destruct C as [Cx Cv].
  fold w. rewrite (of_double_int w _ (x * v)); [apply agrees_refl|]. unfold fmul. apply rnd_int; [lia|exact Cv|]. rewrite P, to_double_int by exact Cx. now rewrite inject_Z_mult.
Qed.

(** ** the operations of Real *)
Local Ltac go := repeat first [simple apply agrees_refl | simple apply agrees_bind; [simple apply agrees_refl|intros ? _] | exact I].
Lemma rpow_agrees a p : agrees (rpow w a p) (rpow_d X a p).
Proof.
  unfold rpow, rpow_d, rat_pow. fold w. go. destruct x; [apply agrees_refl|]. go. destruct x; [apply agrees_refl|].
  apply agrees_bind; [apply pow_cast_agrees|intros ? _]. apply agrees_bind; [apply pow_cast_agrees|intros ? _]. apply agrees_refl.
Qed.
Lemma pull_vals_agrees i vs : forall st, agrees (pull_vals w i vs st) (pull_vals_d X i vs st).
Proof. induction vs as [|v vs IH]; intros [r c]; cbn [pull_vals pull_vals_d]; [reflexivity|]. apply agrees_bind; [apply div_pow_agrees|intros ? _]. go. apply IH. Qed.
Lemma pull_exp_agrees i fuel : forall e vs st, agrees (pull_exp w i fuel e vs st) (pull_exp_d X i fuel e vs st).
Proof. induction fuel as [|f IH]; intros e vs st; cbn [pull_exp pull_exp_d]; (destruct (e <? i); [reflexivity|]); [exact I|]. apply agrees_bind; [apply pull_vals_agrees|intros ? _]. apply IH. Qed.
Lemma pull_all_agrees i m : forall st, agrees (pull_all w i m st) (pull_all_d X i m st).
Proof. induction m as [|[e vs] m IH]; intros st; cbn [pull_all pull_all_d]; [reflexivity|]. apply agrees_bind; [apply pull_exp_agrees|intros ? _]. apply IH. Qed.
Lemma mul_vals_agrees e vs : forall r, agrees (mul_vals w e vs r) (mul_vals_d X e vs r).
Proof. induction vs as [|v vs IH]; intros r; cbn [mul_vals mul_vals_d]; [reflexivity|]. apply agrees_bind; [apply mul_pow_agrees|intros ? _]. apply IH. Qed.
Lemma mul_all_agrees g m : forall r, agrees (mul_all w g m r) (mul_all_d X g m r).
Proof. induction m as [|[e vs] m IH]; intros r; cbn [mul_all mul_all_d]; [reflexivity|]. apply agrees_bind; [apply mul_vals_agrees|intros ? _]. apply IH. Qed.
Lemma normalize_agrees x : agrees (real_normalize (de X) x) (real_normalize_d X x).
Proof.
  unfold real_normalize, real_normalize_d. fold w. apply agrees_bind.
  - destruct (is_int (rad x)); [reflexivity|]. do 2 (apply agrees_bind; [apply agrees_refl|intros ? _]). apply agrees_bind; [apply pow_rat_agrees|intros ? _]. apply agrees_refl.
  - intros [c rd] _. go. apply agrees_bind; [apply pull_all_agrees|]. intros [r c'] _. go. intros. destruct x1 as [rd' m']. apply agrees_bind.
    + destruct (_ =? 1); [reflexivity|]. destruct (_ =? 0); [exact I|]. apply agrees_bind; [apply mul_all_agrees|intros ? _]. go.
    + intros [i' rd''] _. apply agrees_refl.
Qed.
Lemma make_agrees c r i : agrees (real_make (de X) c r i) (real_make_d X c r i). Proof. apply normalize_agrees. Qed.
Lemma of_int_agrees n : agrees (real_of_int (de X) n) (real_of_int_d X n). Proof. unfold real_of_int, real_of_int_d. fold w. go. apply make_agrees. Qed.
Lemma add_agrees a b : agrees (real_add (de X) a b) (real_add_d X a b).
Proof. unfold real_add, real_add_d. fold w. go. destruct x; [|reflexivity]. go. apply normalize_agrees. Qed.
Lemma negate_agrees a : agrees (real_negate (de X) a) (real_negate_d X a). Proof. unfold real_negate, real_negate_d. fold w. go. apply make_agrees. Qed.
Lemma sub_agrees a b : agrees (real_sub (de X) a b) (real_sub_d X a b).
Proof. unfold real_sub, real_sub_d. apply agrees_bind; [apply negate_agrees|intros ? _]. apply agrees_bind; [apply add_agrees|intros ? _]. apply normalize_agrees. Qed.
Lemma mul_agrees a b : agrees (real_mul (de X) a b) (real_mul_d X a b).
Proof. unfold real_mul, real_mul_d. fold w. do 3 (apply agrees_bind; [apply agrees_refl|intros ? _]). (apply agrees_bind; [apply rpow_agrees|intros ? _]). do 2 (apply agrees_bind; [apply agrees_refl|intros ? _]). (apply agrees_bind; [apply rpow_agrees|intros ? _]). do 2 (apply agrees_bind; [apply agrees_refl|intros ? _]). apply normalize_agrees. Qed.
Lemma div_agrees a b : agrees (real_div (de X) a b) (real_div_d X a b). Proof. unfold real_div, real_div_d. fold w. (apply agrees_bind; [apply agrees_refl|intros ? _]). apply mul_agrees. Qed.
Lemma pow_pos_agrees a p : agrees (real_pow_pos (de X) a p) (real_pow_pos_d X a p).
Proof.
  unfold real_pow_pos, real_pow_pos_d. fold w. destruct (is_int p).
  - do 2 (apply agrees_bind; [apply rpow_agrees|intros ? _]). apply normalize_agrees.
  - apply agrees_bind; [apply agrees_refl|intros ? _]. do 2 (apply agrees_bind; [apply rpow_agrees|intros ? _]). apply agrees_bind; [apply make_agrees|intros ? _]. apply agrees_bind; [apply mul_agrees|intros ? _]. apply normalize_agrees.
Qed.
Lemma pow_fuel_agrees fuel : forall a p, agrees (real_pow_fuel fuel (de X) a p) (real_pow_fuel_d fuel X a p).
Proof.
  induction fuel as [|f IH]; intros a p; cbn [real_pow_fuel real_pow_fuel_d]; [exact I|]. fold w. apply agrees_bind; [apply agrees_refl|intros x _]. destruct x; [apply of_int_agrees|]. apply agrees_bind; [apply agrees_refl|intros x _]. destruct x; [reflexivity|]. apply agrees_bind; [apply agrees_refl|intros x _]. destruct x; [do 2 (apply agrees_bind; [apply agrees_refl|intros ? _]); apply IH|apply pow_pos_agrees].
Qed.
Lemma pow_agrees a p : agrees (real_pow (de X) a p) (real_pow_d X a p). Proof. apply pow_fuel_agrees. Qed.
Lemma power_form_agrees c r ij j : agrees (power_form w c r ij j) (power_form_d X c r ij j).
Proof. unfold power_form, power_form_d. fold w. (apply agrees_bind; [apply agrees_refl|intros ? _]). (apply agrees_bind; [apply rpow_agrees|intros ? _]). (apply agrees_bind; [apply agrees_refl|intros ? _]). (apply agrees_bind; [apply rpow_agrees|intros ? _]). apply agrees_refl. Qed.
Lemma lt_agrees a b : agrees (real_lt w a b) (real_lt_d X a b).
Proof.
  unfold real_lt, real_lt_d. fold w. apply agrees_bind; [apply agrees_refl|intros x _]. destruct x; [reflexivity|]. do 4 (apply agrees_bind; [apply agrees_refl|intros ? _]).
  destruct (_ && _)%bool; [reflexivity|]. destruct (_ && _)%bool; [reflexivity|]. destruct (_ && _)%bool.
  - do 2 (apply agrees_bind; [apply agrees_refl|intros ? _]). do 2 (apply agrees_bind; [apply power_form_agrees|intros ? _]). apply agrees_refl.
  - do 2 (apply agrees_bind; [apply power_form_agrees|intros ? _]). apply agrees_refl.
Qed.
Lemma gt_agrees a b : agrees (real_gt w a b) (real_gt_d X a b).
Proof. unfold real_gt, real_gt_d. fold w. apply agrees_bind; [apply lt_agrees|intros x _]. destruct x; [reflexivity|]. apply agrees_refl. Qed.
Lemma run_agrees e : agrees (lrun (de X) e) (lrun_d X e).
Proof.
  induction e as [c r i|a IHa b IHb|a IHa b IHb|a IHa b IHb|a IHa b IHb|a IHa|a IHa|a IHa n]; cbn [lrun lrun_d]; [apply make_agrees|..]; (apply agrees_bind; [exact IHa|intros ? _]);
    [apply agrees_bind; [exact IHb|intros ? _]|apply agrees_bind; [exact IHb|intros ? _]|apply agrees_bind; [exact IHb|intros ? _]|apply agrees_bind; [exact IHb|intros ? _]|..].
  - apply add_agrees. - apply sub_agrees. - apply mul_agrees. - apply div_agrees. - apply negate_agrees. - apply agrees_refl. - apply pow_agrees.
Qed.
End Exact.
