(** Proofs: a polynomial expression whose weight and degree are representable is simplified. *)
From Coq Require Import ZArith Znumtheory QArith Qreals Reals String Ascii Lia Lra Bool List Permutation Sorted.
From Verif Require Import Base AdapterModel AdapterProofs RationalModel RationalSpec RationalProofs RationalProofs2 RealModel RealSpec RealProofs1 RealProofs3 PolyModel PolySpec PolyProofs1 PolyProofs2 PolyProofs3 PolyProofs4 PolyProofs6 ExprModel ExprSpec ExprProofs1 ParserModel TextSpec TextProofs1 TextProofs2 PrintSpec RingSpec RingProofs1 RingProofs2 RingProofs3 RingProofs4 RingProofs5 RingProofs6 RingProofs7 RingProofs8 RingProofs9 RingProofs10.
Import ListNotations.
Open Scope Z_scope.

Lemma literal_pos e : 1 <= literal e. Proof. destruct e as [f|]; cbn [literal]; [destruct (fnum f); lia|lia]. Qed.
Lemma weight_pos e : 1 <= weight e.
Proof.
  induction e as [f|c l IHl r IHr]; [apply (literal_pos (Leaf f))|]. cbn [weight]. pose proof (literal_pos r). destruct (Ascii.eqb c "^"); [assert (0 < weight l ^ literal r) by (apply Z.pow_pos_nonneg; lia); lia|]. destruct (Ascii.eqb c "*"); [nia|lia].
Qed.
Lemma degree_pos e : 0 <= degree e.
Proof.
  induction e as [f|c l IHl r IHr]; cbn [degree]; [destruct (frac_no_symbols f); lia|]. pose proof (literal_pos r). destruct (Ascii.eqb c "^"); [nia|]. destruct (Ascii.eqb c "*"); lia.
Qed.

Section O.
  Variable P : penv.
  Hypothesis HR : reads P.
  Hypothesis HM : machine P.
  Hypothesis HS : sort_orders P.
  Hypothesis HT : sort_returns P.
  Local Notation E := (pe P).
  Local Notation w := (ew (pe P)).
  Local Notation B := (2 ^ (ew (pe P) - 1)).
  Local Notation iterm := (iterm P name_ok).
  Local Notation fitp := (fitp P).
  Local Notation one := [term_const (rint 1)].
  Definition ffit (W D : Z) (f : frac) : Prop := fden f = one /\ fitp W D (fnum f) /\ fnum f <> [].

  Lemma dens_ok : forall l, Forall iterm l -> dens w 1 l = Ok 1.
  Proof. pose proof (w4 P HR). induction 1 as [|t l Tt F IH]; [reflexivity|]. cbn [dens]. rewrite (iterm_co P t Tt). change (1 * den (coe (rint (co t)))) with 1. rewrite chk_ok by lia. exact IH. Qed.
  Lemma one_div_ok : poly_div_to P one (rint 1) = Ok one.
  Proof. pose proof (w4 P HR). unfold poly_div_to. cbn [mapr]. unfold term_div. cbn [tco syms term_const]. rewrite (div_int1 P HR) by (cbn; lia). cbn [bind]. unfold term_normalize. cbn [tco syms drop_zero bind]. apply (normalize_one P HR). Qed.
  Lemma one_eq_ok : poly_eq w one one = Ok true.
  Proof. pose proof (w4 P HR). unfold poly_eq. cbn [length Nat.eqb terms_eq]. unfold term_eq. cbn [term_const tco syms]. rewrite (real_eq_ok P HR) by (cbn; lia). reflexivity. Qed.
  Lemma one_zero_ok : poly_is_zero E one = Ok false.
  Proof. pose proof (w4 P HR). cbn [poly_is_zero]. rewrite (of_int P HR) by (cbn; lia). cbn [bind term_const tco]. unfold real_ne. rewrite (real_eq_ok P HR) by (cbn; lia). reflexivity. Qed.
  Lemma one_mul_ok : poly_mul_to P one one = Ok one.
  Proof. unfold poly_mul_to. cbn [mapr]. rewrite (one_mul P HR). cbn [bind concat app]. apply (normalize_one P HR). Qed.
  Lemma const_try n : Z.abs n < B -> poly_try_eval E [term_const (rint n)] = Ok (Some (rint n)).
  Proof. intros A. pose proof (w4 P HR). unfold poly_try_eval. rewrite (of_int P HR) by (cbn; lia). cbn [bind try_sum]. unfold term_try_eval. cbn [no_symbols term_const syms tco]. rewrite (equiv_ok P HR). cbn [bind]. rewrite (add_ok P HR) by (cbn [Z.add]; lia). reflexivity. Qed.
  Lemma one_pow_ok n : 0 <= n < B -> n <= 2 ^ 53 -> poly_pow P one (Rat n 1) = Ok one.
  Proof.
    intros N N53. pose proof (w4 P HR). unfold poly_pow. cbv zeta. rewrite !(rat_eq_ok P) by lia. cbn [bind]. destruct (n =? 0); [rewrite (of_int P HR) by (cbn; lia); cbn [bind]; apply (normalize_one P HR)|]. destruct (n =? 1); [reflexivity|].
    unfold term_pow. cbn [term_const tco syms scale_syms]. rewrite (pow_ok P HR) by (rewrite ?Z.pow_1_l by lia; cbn; lia). cbn [bind]. rewrite Z.pow_1_l by lia. unfold term_normalize. cbn [tco syms drop_zero bind]. apply (normalize_one P HR).
  Qed.
  Lemma to_t_ok n : Z.abs n < B -> rat_to_t w (coe (rint n)) = Ok n.
  Proof. intros A. unfold rat_to_t. cbn [coe rint num den]. rewrite quot_ok by lia. now rewrite Z.quot_1_r. Qed.
  Lemma frac_normalize_ok W D n : W < B -> D < B -> fitp W D n -> n <> [] -> exists f, frac_normalize P (Frac n one) = Ok f /\ ffit W D f.
  Proof.
    intros WB DB FN NE. pose proof (w4 P HR) as W4. unfold frac_normalize. cbv zeta. cbn [fnum fden]. destruct (normalize_ok P HR HM HS HT W D n WB FN NE) as (n1 & -> & I1 & F1). cbn [bind]. rewrite (normalize_one P HR). cbn [bind]. rewrite dens_ok by (constructor; [apply iconst; unfold rng; lia|constructor]). cbn [bind]. rewrite dens_ok by apply I1. cbn [bind].
    destruct (mapr_total (fun t => c <- real_of_int E 1 ;; term_mul E t (term_const c)) (fun t u => iterm u /\ co u = co t /\ tdeg (syms u) = tdeg (syms t)) n1) as (n2 & Hn2 & Q).
    { intros t I. rewrite (of_int P HR) by (cbn; lia). cbn [bind]. pose proof (fitp_co _ _ _ _ _ F1 I) as CT. destruct F1 as (F & _ & G). rewrite Forall_forall in F, G. specialize (G t I). cbn beta in G. destruct (mul_ok P HR t (term_const (rint 1)) (F t I)) as (u & Hu & X & Y & Z); [apply iconst; unfold rng; lia|lia|cbn; lia|cbn [co term_const tco rint coe num]; lia|cbn [term_const syms tdeg fold_right]; lia|]. exists u. split; [exact Hu|]. split; [exact X|]. cbn [co term_const tco rint coe num syms tdeg fold_right] in Y, Z. split; lia. }
    rewrite Hn2. cbn [bind mapr]. rewrite (of_int P HR) by (cbn; lia). cbn [bind]. rewrite (one_mul P HR). cbn [bind].
    assert (K : fitp W D n2 /\ n2 <> []).
    { split; [|intros ->; inversion Q; subst; destruct I1 as (_ & _ & X); congruence]. destruct F1 as (F & S & G). assert (K : Forall iterm n2 /\ wt n2 = wt n1 /\ Forall (fun t => tdeg (syms t) <= D) n2).
      { clear - Q F G. induction Q as [|t u a r (X & Y & Z) Q IH]; [repeat split; constructor|]. inversion F; subst. inversion G; subst. destruct IH as (A1 & A2 & A3); try assumption. split; [now constructor|]. split; [rewrite !wt_cons, A2; unfold wt1; rewrite Y; lia|constructor; [lia|exact A3]]. }
      destruct K as (A1 & A2 & A3). split; [exact A1|]. split; [lia|exact A3]. }
    destruct K as (F2 & N2). destruct n2 as [|t n2]; [contradiction|]. pose proof (fitp_co _ _ _ _ t F2 (or_introl eq_refl)) as CT. assert (Tt : iterm t) by (destruct F2 as (F & _); now inversion F). rewrite (iterm_co P t Tt). rewrite to_t_ok by lia. cbn [bind]. change (tco (term_const (rint 1))) with (rint 1). rewrite to_t_ok by (cbn; lia). cbn [bind]. rewrite gcd_ok' by (cbn; lia). cbn [bind]. rewrite Z.gcd_1_r. rewrite gcd_outer_nil. cbn [bind]. rewrite !(of_int P HR) by (cbn; lia). cbn [bind].
    destruct (div_poly_ok P HR HM HS HT W D (t :: n2) WB F2 N2) as (n3 & -> & I3 & F3). cbn [bind]. rewrite one_div_ok. cbn [bind]. eexists. split; [reflexivity|]. split; [reflexivity|]. split; [exact F3|apply I3].
  Qed.
  Lemma frac_add_ok W1 W2 D1 D2 a b : ffit W1 D1 a -> ffit W2 D2 b -> W1 + W2 < B -> exists f, frac_add P a b = Ok f /\ ffit (W1 + W2) (Z.max D1 D2) f.
  Proof.
    intros (Da & Fa & Na) (Db & Fb & Nb) WB. unfold frac_add. rewrite Da, Db, one_eq_ok. cbn [bind]. unfold poly_add_to. destruct (normalize_ok P HR HM HS HT (W1 + W2) (Z.max D1 D2) (fnum a ++ fnum b) WB) as (r & -> & I & F); [now apply fitp_app|destruct (fnum a); [contradiction|discriminate]|]. cbn [bind]. eexists. split; [reflexivity|]. split; [reflexivity|]. split; [exact F|apply I].
  Qed.
  Lemma frac_negate_ok W D a : ffit W D a -> W < B -> D < B -> exists f, frac_negate P a = Ok f /\ ffit W D f.
  Proof. intros (Da & Fa & Na) WB DB. unfold frac_negate. destruct (negate_ok P HR W D (fnum a) WB Fa Na) as (r & -> & F & NE). cbn [bind]. unfold frac_make. rewrite Da, one_zero_ok. cbn [bind]. now apply frac_normalize_ok. Qed.
  Lemma ffit_pos W D a : ffit W D a -> 1 <= W /\ 0 <= D. Proof. intros (_ & F & N). now apply (fit_pos P W D (fnum a)). Qed.
  Lemma frac_sub_ok W1 W2 D1 D2 a b : ffit W1 D1 a -> ffit W2 D2 b -> W1 + W2 < B -> D2 < B -> exists f, frac_sub P a b = Ok f /\ ffit (W1 + W2) (Z.max D1 D2) f.
  Proof. intros A Q WB DB. unfold frac_sub. pose proof (ffit_pos _ _ _ A). destruct (frac_negate_ok W2 D2 b Q) as (nb & -> & F); [lia|lia|]. cbn [bind]. now apply frac_add_ok. Qed.
  Lemma frac_mul_ok W1 W2 D1 D2 a b : ffit W1 D1 a -> ffit W2 D2 b -> W1 * W2 < B -> D1 + D2 < B -> exists f, frac_mul P a b = Ok f /\ ffit (W1 * W2) (D1 + D2) f.
  Proof.
    intros (Da & Fa & Na) (Db & Fb & Nb) WB DB. unfold frac_mul. destruct (mul_poly_ok P HR HM HS HT W1 W2 D1 D2 (fnum a) (fnum b) Fa Fb Na Nb WB DB) as (r & -> & I & F). cbn [bind]. rewrite Da, Db, one_mul_ok. cbn [bind]. apply frac_normalize_ok; try assumption. apply I.
  Qed.
  Lemma frac_pow_ok W D a n : ffit W D a -> 0 <= n < B -> Z.of_nat (fact (Z.to_nat n)) < B \/ length (fnum a) = 1%nat -> n <= 2 ^ 53 -> W ^ Z.max 1 n < B -> W ^ Z.max 1 n <= 2 ^ 53 -> Z.max 1 n * D < B ->
    exists f, frac_pow P a (Rat n 1) = Ok f /\ ffit (W ^ Z.max 1 n) (Z.max 1 n * D) f.
  Proof.
    intros FA N FB N53 WB W53 DB. destruct (ffit_pos _ _ _ FA) as [WP DP]. pose proof FA as (Da & Fa & Na). pose proof (w4 P HR) as W4.
    assert (WW : W <= W ^ Z.max 1 n) by (rewrite <- (Z.pow_1_r W) at 1; apply Z.pow_le_mono_r; lia). assert (WT : wt (fnum a) <= W) by apply Fa.
    unfold frac_pow, frac_try_eval. destruct (try_eval_ok P HR (fnum a) (proj1 Fa)) as (x & -> & Q); [lia|]. cbn [bind]. rewrite Da, const_try by (cbn; lia). cbn [bind].
    assert (G : exists f, (n0 <- poly_pow P (fnum a) (Rat n 1) ;; d <- poly_pow P one (Rat n 1) ;; frac_normalize P (Frac n0 d)) = Ok f /\ ffit (W ^ Z.max 1 n) (Z.max 1 n * D) f).
    { destruct (pow_poly_ok P HR HM HS HT W D (fnum a) n) as (r & -> & F & NE); try assumption. cbn [bind]. rewrite one_pow_ok by lia. cbn [bind]. now apply frac_normalize_ok. }
    destruct x as [c|]; [|exact G]. destruct (Q c eq_refl) as (m & -> & M). rewrite (div_int1 P HR) by lia. cbn [bind].
    assert (PM : Z.abs (m ^ n) <= W ^ Z.max 1 n). { rewrite Z.abs_pow. transitivity (W ^ n); [apply Z.pow_le_mono_l; lia|apply Z.pow_le_mono_r; lia]. }
    rewrite (pow_ok P HR) by lia. cbn [bind]. unfold frac_of_real. unfold term_const. rewrite (frac_leaf P HR) by (apply (plain_nil P) || lia). eexists. split; [reflexivity|]. split; [reflexivity|]. cbn [fnum]. split; [|discriminate]. apply (fit_const P); [lia|lia|nia].
  Qed.

  (** ** expressions *)
  Lemma exponent_ok n : 0 <= n < B -> exponent_of P (leaf_int n) = Ok (Some (rint n)).
  Proof.
    intros A. pose proof (w4 P HR). unfold exponent_of, frac_try_eval, leaf_int. cbn [fnum fden]. rewrite !const_try by (cbn; lia). cbn [bind]. rewrite (div_int1 P HR) by lia. cbn [bind]. rewrite (is_rational_ok P HR) by lia. reflexivity.
  Qed.
  Lemma real_rational_ok n : 0 <= n < B -> real_to_rational w (rint n) = Ok (Rat n 1).
  Proof. intros A. pose proof (w4 P HR). pose proof (w3 P HR). unfold real_to_rational. rewrite (is_rational_ok P HR) by lia. cbn [bind rint coe rad]. rewrite mul_ints by lia. now rewrite Z.mul_1_r. Qed.
  Lemma frac_rational_ok n : 0 <= n < B -> frac_to_rational w (leaf_int n) = Ok (Rat n 1).
  Proof.
    intros A. pose proof (w4 P HR). pose proof (w3 P HR). assert (S : forall k, 0 <= k < B -> poly_to_rational w [term_const (rint k)] = Ok (Rat k 1)).
    { intros k K. unfold poly_to_rational. rewrite of_int_ok by lia. cbn [bind sum_rationals]. unfold term_to_rational. cbn [no_symbols term_const syms tco]. rewrite real_rational_ok by lia. cbn [bind]. rewrite (rat_add_ok P HR) by lia. reflexivity. }
    unfold frac_to_rational, leaf_int. cbn [fnum fden]. rewrite !S by lia. cbn [bind]. unfold rat_div. change (rat_inverse w (Rat 1 1)) with (rat_of_int w 1). rewrite of_int_ok by lia. cbn [bind]. rewrite mul_ints by lia. now rewrite Z.mul_1_r.
  Qed.
  Lemma leaf_fit f : polynomial w (Leaf f) -> ffit (weight (Leaf f)) (degree (Leaf f)) f.
  Proof.
    pose proof (w4 P HR) as W4. intros Q. destruct (leaf_i P HR f Q) as [[D (F & _ & NE)] _]. split; [exact D|]. split; [|exact NE]. split; [exact F|]. destruct Q as [(n & N & ->)|(k & K & ->)].
    - split; [|constructor; [cbn; lia|constructor]]. cbn [weight literal leaf_int fnum wt fold_right term_const tco rint coe num]. unfold wt1, co. cbn [term_const tco rint coe num]. lia.
    - split; [cbn; lia|]. constructor; [|constructor]. cbn. lia.
  Qed.
  Hypothesis H128 : w <= 128.
  Lemma small_exponent n : 0 <= n -> Z.of_nat (fact (Z.to_nat n)) < B -> n <= 2 ^ 53.
  Proof.
    intros N FB. pose proof (pow2_fact (Z.to_nat n)) as F. rewrite Z2Nat.id in F by assumption. assert (n < w); [|change (2 ^ 53) with 9007199254740992; lia]. destruct (Z.lt_ge_cases n w) as [|G]; [assumption|]. exfalso. assert (B <= 2 ^ (n - 1)) by (apply Z.pow_le_mono_r; lia). lia.
  Qed.
  Lemma eval_ok : forall e, polynomial w e -> weight e < B -> weight e <= 2 ^ 53 -> degree e < B -> exists f, expr_try_eval P e = Ok (Some f) /\ ffit (weight e) (degree e) f.
  Proof.
    induction e as [f|c l IHl r IHr]; intros Q WB W53 DB; [exists f; split; [reflexivity|now apply leaf_fit]|]. cbn [polynomial] in Q. destruct Q as (Ql & Q). pose proof (weight_pos l) as Wl. pose proof (weight_pos r) as Wr. pose proof (degree_pos l) as Dl. pose proof (degree_pos r) as Dr. cbn [expr_try_eval weight degree] in *. destruct Q as [(C & Qr)|(-> & n & N & FB & ->)].
    - destruct C as [-> |[-> | ->]]; cbn [Ascii.eqb Bool.eqb] in WB, W53, DB |- *; cbv iota in WB, W53, DB |- *.
      + destruct (IHl Ql) as (a & -> & Fa); try lia. destruct (IHr Qr) as (b & -> & Fb); try lia. cbn [bind]. change (apply_op P "+" a b) with (frac_add P a b). destruct (frac_add_ok _ _ _ _ a b Fa Fb) as (f & -> & F); [lia|]. cbn [bind]. eexists. split; [reflexivity|exact F].
      + destruct (IHl Ql) as (a & -> & Fa); try lia. destruct (IHr Qr) as (b & -> & Fb); try lia. cbn [bind]. change (apply_op P "-" a b) with (frac_sub P a b). destruct (frac_sub_ok _ _ _ _ a b Fa Fb) as (f & -> & F); [lia|lia|]. cbn [bind]. eexists. split; [reflexivity|exact F].
      + destruct (IHl Ql) as (a & -> & Fa); try nia. destruct (IHr Qr) as (b & -> & Fb); try nia. cbn [bind]. change (apply_op P "*" a b) with (frac_mul P a b). destruct (frac_mul_ok _ _ _ _ a b Fa Fb) as (f & -> & F); [lia|lia|]. cbn [bind]. eexists. split; [reflexivity|exact F].
    - change (Ascii.eqb "^" "^") with true in *. cbv iota in WB, W53, DB |- *. assert (LN : literal (Leaf (leaf_int n)) = Z.max 1 n) by reflexivity. rewrite LN in *. assert (N53 : n <= 2 ^ 53) by (destruct FB as [FB|FB]; [apply small_exponent; [lia|exact FB]|apply FB]). assert (WW : weight l <= weight l ^ Z.max 1 n) by (rewrite <- (Z.pow_1_r (weight l)) at 1; apply Z.pow_le_mono_r; lia).
      destruct (IHl Ql) as (a & Ha & Fa); [lia|lia|nia|]. rewrite Ha. cbn [bind expr_try_eval]. rewrite exponent_ok by lia. cbn [bind]. rewrite frac_rational_ok by lia. cbn [bind]. destruct (frac_pow_ok _ _ a n Fa) as (f & -> & F); try assumption; [exact (base_case' P l a n FB Ha)|]. cbn [bind]. eexists. split; [reflexivity|exact F].
  Qed.
  Theorem normalize_fit e : polynomial w e -> weight e < B -> weight e <= 2 ^ 53 -> degree e < B -> exists f, expr_normalize P e = Ok (Leaf f) /\ ffit (weight e) (degree e) f.
  Proof.
    intros Q WB W53 DB. destruct (eval_ok e Q WB W53 DB) as (f & H & F). exists f. split; [|exact F]. clear F WB W53 DB. destruct e as [g|c l r]; [injection H as <-; reflexivity|]. cbn [expr_try_eval] in H. apply bind_ok in H as (a & Ha & H). apply bind_ok in H as (b & Hb & H). cbn [expr_normalize]. rewrite Ha, Hb. cbn [bind]. destruct a as [a|]; [|discriminate]. destruct b as [b|]; [|discriminate].
    destruct (Ascii.eqb c "^") eqn:C.
    - apply Ascii.eqb_eq in C as ->. destruct Q as (_ & [([X|[X|X]] & _)|(_ & n & N & FB & ->)]); try discriminate X. cbn [expr_try_eval] in Hb. injection Hb as <-.
      rewrite exponent_ok in * by lia. cbn [bind] in *. rewrite frac_rational_ok in H by lia. rewrite real_rational_ok by lia. cbn [bind] in *. apply bind_ok in H as (x & Hx & H). injection H as <-. rewrite Hx. reflexivity.
    - apply bind_ok in H as (x & Hx & H). injection H as <-. rewrite Hx. reflexivity.
  Qed.
  Theorem normalize_ok e : polynomial w e -> weight e < B -> weight e <= 2 ^ 53 -> degree e < B -> exists f, expr_normalize P e = Ok (Leaf f).
  Proof. intros Q WB W53 DB. destruct (normalize_fit e Q WB W53 DB) as (f & H & _). eauto. Qed.
End O.
(** insertion returns *)
Lemma insert_returns w t : forall l, (forall a b, In a (t :: l) -> In b (t :: l) -> exists r, term_before w a b = Ok r) -> exists l', insert_term w t l = Ok l' /\ forall x, In x l' -> In x (t :: l).
Proof.
  induction l as [|u l IH]; intros H; cbn [insert_term]; [exists [t]; now split|]. destruct (H u t) as (r & ->); [right; now left|now left|]. cbn [bind]. destruct r; [|exists (t :: u :: l); now split].
  destruct IH as (l' & -> & Q); [intros a b Ia Ib; apply H; cbn in *; tauto|]. cbn [bind]. exists (u :: l'). split; [reflexivity|]. intros x [<-|I]; [right; now left|]. specialize (Q x I). cbn in *. tauto.
Qed.
Lemma isort_returns E : sort_returns (PEnv E (isort (ew E))).
Proof.
  intros l. cbn [pe psort]. assert (K : (forall a b, In a l -> In b l -> exists r, term_before (ew E) a b = Ok r) -> exists l', isort (ew E) l = Ok l' /\ forall x, In x l' -> In x l).
  { induction l as [|t l IH]; intros H; cbn [isort]; [exists []; now split|]. destruct IH as (s & -> & Q); [intros a b Ia Ib; apply H; now right|]. cbn [bind]. destruct (insert_returns (ew E) t s) as (l' & -> & Q').
    - intros a b Ia Ib. apply H; cbn [In] in *; [destruct Ia; [now left|right; now apply Q]|destruct Ib; [now left|right; now apply Q]].
    - exists l'. split; [reflexivity|]. intros x I. specialize (Q' x I). cbn [In] in *. destruct Q'; [now left|right; now apply Q]. }
  intros H. destruct (K H) as (l' & H' & _). eauto.
Qed.
