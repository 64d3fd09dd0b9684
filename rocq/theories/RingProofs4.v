(** Proofs: polynomial expressions simplify to expanded form. *)
From Coq Require Import ZArith Znumtheory QArith Qreals Reals String Ascii Lia Lra Bool List Permutation Sorted.
From Verif Require Import Base AdapterModel AdapterProofs RationalModel RationalSpec RationalProofs RationalProofs2 RealModel RealSpec RealProofs1 RealProofs3 PolyModel PolySpec PolyProofs1 PolyProofs2 PolyProofs3 PolyProofs4 PolyProofs6 ExprModel ExprSpec ExprProofs1 ParserModel TextSpec TextProofs1 TextProofs2 PrintSpec RingSpec RingProofs1 RingProofs2 RingProofs3.
Import ListNotations.
Open Scope Z_scope.

Section F.
  Variable P : penv.
  Hypothesis HR : reads P.
  Hypothesis HM : machine P.
  Hypothesis HS : sort_orders P.
  Local Notation E := (pe P).
  Local Notation w := (ew (pe P)).
  Local Notation iterm := (iterm P name_ok).
  Local Notation ipoly := (ipoly P name_ok).
  Local Notation one := [term_const (rint 1)].
  Definition ifrac (f : frac) : Prop := fden f = one /\ ipoly (fnum f).

  Definition sfrac (f : frac) : Prop := ifrac f /\ above P (fnum f).

  Lemma rng1 : rng P 1. Proof. pose proof (w4 P HR). unfold rng. lia. Qed.
  Lemma one_i : ipoly one. Proof. apply single_i, iconst, rng1. Qed.
  Lemma dens_i : forall l m m', Forall iterm l -> dens w m l = Ok m' -> m' = m.
  Proof.
    induction l as [|t l IH]; intros m m' F H; cbn [dens] in H; [congruence|]. inversion F as [|? ? [(n & Hn & _) _] F']; subst. apply bind_ok in H as (k & Hk & H). rewrite Hn in Hk. cbn [rint coe den] in Hk. rewrite Z.mul_1_r in Hk. apply chk_inv in Hk as [-> _]. now apply IH in H.
  Qed.
  Lemma gcd_outer_nil : forall ns g, gcd_outer w g ns [] = Ok (Some g).
  Proof. induction ns as [|t ns IH]; intros g; [reflexivity|]. cbn [gcd_outer]. apply IH. Qed.
  Lemma one_mul : term_mul E (term_const (rint 1)) (term_const (rint 1)) = Ok (term_const (rint 1)).
  Proof. pose proof (scale_one P HR 1 [] (plain_nil P)) as H. pose proof (w4 P HR). rewrite (of_int P HR) in H by lia. cbn [bind] in H. apply H. lia. Qed.
  Lemma one_div r : poly_div_to P one (rint 1) = Ok r -> r = one.
  Proof.
    intros H. pose proof (w4 P HR). unfold poly_div_to in H. cbn [mapr] in H. unfold term_div in H. cbn [tco syms term_const] in H. rewrite (div_int1 P HR) in H by lia. cbn [bind] in H. unfold term_normalize in H. cbn [tco syms drop_zero bind] in H. rewrite (normalize_one P HR) in H. now injection H as <-.
  Qed.
  Lemma frac_normalize_i n f' : Forall iterm n -> n <> [] -> frac_normalize P (Frac n one) = Ok f' -> sfrac f'.
  Proof.
    intros F NE H. pose proof (w4 P HR) as W4. unfold frac_normalize in H. cbv zeta in H. cbn [fnum fden] in H. apply bind_ok in H as (n1 & H1 & H). apply (normalize_i P name_ok HR HM HS) in H1 as (F1 & _ & NE1); try assumption. rewrite (normalize_one P HR) in H. cbn [bind] in H.
    apply bind_ok in H as (m1 & Hm1 & H). apply dens_i in Hm1; [|apply one_i]. subst m1. apply bind_ok in H as (m & Hm & H). apply dens_i in Hm; [|exact F1]. subst m. apply bind_ok in H as (n2 & H2 & H).
    apply (mapr_i P name_ok) in H2 as [F2 NE2].
    2:{ intros t u I Hu. apply bind_ok in Hu as (c & Hc & Hu). apply (zof P HR) in Hc as ->. rewrite Forall_forall in F1. apply (imul P name_ok HR) in Hu; [exact Hu|now apply F1|apply iconst, rng1]. }
    specialize (NE2 NE1). apply bind_ok in H as (d2 & H2 & H). cbn [mapr] in H2. rewrite (of_int P HR) in H2 by lia. cbn [bind] in H2. rewrite one_mul in H2. cbn [bind] in H2. injection H2 as <-.
    destruct n2 as [|t n2]; [contradiction|]. apply bind_ok in H as (a & _ & H). apply bind_ok in H as (b & Hb & H). unfold rat_to_t in Hb. cbn [tco term_const rint coe num den] in Hb. apply quot_w_inv in Hb as (_ & -> & _). change (Z.quot 1 1) with 1 in H.
    apply bind_ok in H as (g & Hg & H). apply adapter_gcd_inv in Hg. rewrite Z.gcd_1_r in Hg. subst g. rewrite gcd_outer_nil in H. cbn [bind] in H. rewrite !(of_int P HR) in H by lia. cbn [bind] in H. apply bind_ok in H as (n3 & H3 & H). pose proof (div1_above P name_ok HR HM _ _ F2 H3) as AB. apply (div1_i P name_ok HR HM HS) in H3; try assumption. apply bind_ok in H as (d3 & H4 & H). apply one_div in H4 as ->. injection H as <-. split; [now split|exact AB].
  Qed.
  Lemma real_eq_same x e : real_eq w x x = Ok e -> e = true.
  Proof. intros H. unfold real_eq in H. apply bind_ok in H as (c & Hc & H). apply rat_eq_inv in Hc. rewrite Z.eqb_refl in Hc. subst c. cbn [negb] in H. apply bind_ok in H as (r & Hr & H). apply rat_eq_inv in Hr. rewrite Z.eqb_refl in Hr. subst r. rewrite Z.eqb_refl in H. now injection H as <-. Qed.
  Lemma one_eq e : poly_eq w one one = Ok e -> e = true.
  Proof.
    unfold poly_eq. cbn [length Nat.eqb terms_eq]. intros H. apply bind_ok in H as (x & Hx & H). unfold term_eq in Hx. apply bind_ok in Hx as (c & Hc & Hx). apply real_eq_same in Hc as ->. cbn [term_const syms] in Hx. change (smap_eq w [] []) with (@Ok bool true) in Hx. injection Hx as <-. now injection H as <-.
  Qed.
  Lemma one_zero z : poly_is_zero E one = Ok z -> z = false.
  Proof.
    pose proof (w4 P HR). cbn [poly_is_zero]. rewrite (of_int P HR) by lia. cbn [bind term_const tco]. intros H'. apply bind_ok in H' as (n & Hn & H'). unfold real_ne, real_eq in Hn. cbn [rint coe rad idx] in Hn. apply bind_ok in Hn as (e & He & Hn). apply bind_ok in He as (c & Hc & He). apply rat_eq_inv in Hc. cbn in Hc. subst c. cbn in He. injection He as <-. injection Hn as <-. now injection H' as <-.
  Qed.
  Lemma frac_add_i a b f : sfrac a -> sfrac b -> frac_add P a b = Ok f -> sfrac f.
  Proof.
    intros [[Da A] Aa] [[Db B] Ab] H. unfold frac_add in H. rewrite Da, Db in H. apply bind_ok in H as (e & He & H). apply one_eq in He as ->. apply bind_ok in H as (n & Hn & H). assert (AB : above P n) by (apply (normalize_above_i P HR HM) in Hn; [exact Hn|now apply Forall_app]). apply (add_i P name_ok HR HM HS) in Hn; try assumption. injection H as <-. split; [now split|exact AB].
  Qed.
  Lemma frac_negate_i a f : ifrac a -> frac_negate P a = Ok f -> sfrac f.
  Proof.
    intros [Da A] H. unfold frac_negate in H. apply bind_ok in H as (n & Hn & H). apply (negate_i P name_ok HR) in Hn as [F NE]; [|exact A]. unfold frac_make in H. rewrite Da in H. apply bind_ok in H as (z & Hz & H). apply one_zero in Hz as ->. now apply frac_normalize_i in H.
  Qed.
  Lemma frac_sub_i a b f : sfrac a -> ifrac b -> frac_sub P a b = Ok f -> sfrac f.
  Proof. intros A B H. unfold frac_sub in H. apply bind_ok in H as (nb & Hn & H). apply frac_negate_i in Hn; [|exact B]. now apply (frac_add_i a nb). Qed.
  Lemma one_mul_to r : poly_mul_to P one one = Ok r -> r = one.
  Proof. unfold poly_mul_to. cbn [mapr]. rewrite one_mul. cbn [bind concat app]. rewrite (normalize_one P HR). congruence. Qed.
  Lemma frac_mul_i a b f : ifrac a -> ifrac b -> frac_mul P a b = Ok f -> sfrac f.
  Proof.
    intros [Da A] [Db B] H. unfold frac_mul in H. apply bind_ok in H as (n & Hn & H). apply (mul_i P name_ok HR HM HS) in Hn as (F & _ & NE); try assumption. apply bind_ok in H as (d & Hd & H). rewrite Da, Db in Hd. apply one_mul_to in Hd as ->. now apply frac_normalize_i in H.
  Qed.
  Lemma one_try x : poly_try_eval E one = Ok x -> x = Some (rint 1).
  Proof.
    pose proof (w4 P HR). unfold poly_try_eval. rewrite (of_int P HR) by lia. cbn [bind try_sum]. unfold term_try_eval. cbn [no_symbols term_const syms tco]. intros H'. apply bind_ok in H' as (e & He & H'). apply equiv_rint in He as ->. apply bind_ok in H' as (a & Ha & H'). apply (zadd P HR) in Ha as [-> _]. now injection H' as <-.
  Qed.
  Lemma frac_try_eval_i a c : ifrac a -> frac_try_eval P a = Ok (Some c) -> exists n, c = rint n /\ rng P n.
  Proof.
    intros [Da (F & _)] H. unfold frac_try_eval in H. rewrite Da in H. apply bind_ok in H as (x & Hx & H). apply bind_ok in H as (y & Hy & H). apply one_try in Hy as ->. destruct x as [x|]; [|discriminate]. apply (try_eval_i P name_ok HR) in Hx as (n & -> & B); [|exact F]. apply bind_ok in H as (q & Hq & H). apply (zdiv1 P HR) in Hq as ->. injection H as <-. exists n. now split.
  Qed.
  Lemma frac_of_real_i n f : rng P n -> frac_of_real P (rint n) = Ok f -> sfrac f.
  Proof.
    intros B H. unfold frac_of_real, frac_of_term, poly_make in H. rewrite (normalize_one P HR) in H. cbn [bind] in H. unfold frac_of_poly in H. rewrite (poly_one_ok P HR) in H. cbn [bind] in H. apply frac_normalize_i in H; [exact H|constructor; [now apply iconst|constructor]|discriminate].
  Qed.
  Lemma one_pow n r : 0 <= n -> poly_pow P one (Rat n 1) = Ok r -> r = one.
  Proof.
    intros N H. pose proof (w4 P HR) as W4. unfold poly_pow in H. cbv zeta in H. apply bind_ok in H as (z & _ & H). destruct z.
    - rewrite (of_int P HR) in H by lia. cbn [bind] in H. unfold poly_make in H. rewrite (normalize_one P HR) in H. congruence.
    - apply bind_ok in H as (o & _ & H). destruct o; [congruence|]. apply bind_ok in H as (p & Hp & H). unfold term_pow in Hp. cbn [term_const tco syms scale_syms] in Hp. apply bind_ok in Hp as (c & Hc & Hp). apply (zpow P HR) in Hc as [-> _]; [|exact N|apply rng1]. rewrite Z.pow_1_l in Hp by assumption. cbn [bind] in Hp. unfold term_normalize in Hp. cbn [tco syms drop_zero bind] in Hp. injection Hp as <-. unfold poly_make in H. rewrite (normalize_one P HR) in H. now injection H as <-.
  Qed.
  Lemma frac_pow_i a n f : 0 <= n -> Z.of_nat (fact (Z.to_nat n)) < 2 ^ (w - 1) \/ length (fnum a) = 1%nat -> ifrac a -> frac_pow P a (Rat n 1) = Ok f -> sfrac f.
  Proof.
    intros N B A H. unfold frac_pow in H. apply bind_ok in H as (v & Hv & H). destruct v as [c|].
    - apply frac_try_eval_i in Hv as (m & -> & Bm); [|exact A]. apply bind_ok in H as (c' & Hc & H). apply (zpow P HR) in Hc as [-> Bc]; try assumption. now apply frac_of_real_i in H.
    - destruct A as [Da A]. apply bind_ok in H as (x & Hx & H). apply (pow_i P name_ok HR HM HS) in Hx as (F & _ & NE); try assumption. apply bind_ok in H as (d & Hd & H). rewrite Da in Hd. apply one_pow in Hd; [|exact N]. subst d. now apply frac_normalize_i in H.
  Qed.

  (** ** the exponent *)
  Lemma leaf_exponent n p : exponent_of P (leaf_int n) = Ok (Some p) -> p = rint n.
  Proof.
    unfold exponent_of. intros H. apply bind_ok in H as (v & Hv & H). destruct v as [c|]; [|discriminate]. apply bind_ok in H as (r & _ & H). destruct r; [|discriminate]. injection H as <-.
    unfold frac_try_eval, leaf_int in Hv. cbn [fnum fden] in Hv. apply bind_ok in Hv as (x & Hx & Hv). apply bind_ok in Hv as (y & Hy & Hv). apply one_try in Hy as ->. destruct x as [x|]; [|discriminate]. apply bind_ok in Hv as (q & Hq & Hv). injection Hv as <-.
    unfold poly_try_eval in Hx. pose proof (w4 P HR). rewrite (of_int P HR) in Hx by lia. cbn [bind try_sum] in Hx. unfold term_try_eval in Hx. cbn [no_symbols term_const syms tco] in Hx. apply bind_ok in Hx as (e & He & Hx). apply equiv_rint in He as ->. apply bind_ok in Hx as (a & Ha & Hx). apply (zadd P HR) in Ha as [-> _]. injection Hx as <-. apply (zdiv1 P HR) in Hq. rewrite ?Z.add_0_l in Hq. exact Hq.
  Qed.
  Lemma real_q n q : real_to_rational w (rint n) = Ok q -> q = Rat n 1.
  Proof. unfold real_to_rational. intros H. apply bind_ok in H as (b & _ & H). destruct b; [|discriminate]. cbn [rint coe rad] in H. apply mul_zz in H. now rewrite Z.mul_1_r in H. Qed.
  Lemma sum_q n q : poly_to_rational w [term_const (rint n)] = Ok q -> q = Rat n 1.
  Proof.
    unfold poly_to_rational. intros H. apply bind_ok in H as (z & Hz & H). apply of_int_inv in Hz as ->. cbn [sum_rationals] in H. apply bind_ok in H as (x & Hx & H). unfold term_to_rational in Hx. cbn [no_symbols term_const syms tco] in Hx. apply real_q in Hx as ->. apply bind_ok in H as (y & Hy & H). injection H as <-. apply add_zz in Hy. now rewrite Z.add_0_l in Hy.
  Qed.
  Lemma frac_q n q : frac_to_rational w (leaf_int n) = Ok q -> q = Rat n 1.
  Proof.
    unfold frac_to_rational, leaf_int. cbn [fnum fden]. intros H. apply bind_ok in H as (x & Hx & H). apply bind_ok in H as (y & Hy & H). apply sum_q in Hx, Hy. subst x y. unfold rat_div in H. apply bind_ok in H as (iv & Hi & H). unfold rat_inverse, rat_make in Hi. cbn [num den Z.eqb] in Hi. apply norm_zz in Hi as ->. apply mul_zz in H. now rewrite Z.mul_1_r in H.
  Qed.
  Lemma computed n q : computed_exponent P (leaf_int n) q -> q = Rat n 1.
  Proof. intros (p & Hp & [H|H]); [now apply frac_q in H|]. apply leaf_exponent in Hp as ->. now apply real_q in H. Qed.

  (** ** expressions *)
  Lemma leaf_i f : polynomial w (Leaf f) -> sfrac f.
  Proof.
    pose proof (w4 P HR) as W4. intros [(n & B & ->)|(k & K & ->)]; (split; [split; [reflexivity|]; apply single_i|constructor; [|constructor]]).
    - apply iconst. unfold rng. lia.
    - exists n. split; [reflexivity|lia].
    - split; [exists 1; split; [reflexivity|apply rng1]|]. cbn [term_sym syms]. split; [repeat constructor|]. constructor; [|constructor]. split; [exact K|]. split; [reflexivity|]. cbn [snd num]. lia.
    - exists 1. split; [reflexivity|lia].
  Qed.
  Lemma base_case l a n : Z.of_nat (fact (Z.to_nat n)) < 2 ^ (w - 1) \/ n <= 2 ^ 53 /\ (exists k, l = Leaf (leaf_sym k)) -> expr_try_eval P l = Ok (Some a) ->
    Z.of_nat (fact (Z.to_nat n)) < 2 ^ (w - 1) \/ length (fnum a) = 1%nat /\ length (fden a) = 1%nat.
  Proof. intros [B|(_ & k & ->)] H; [now left|]. right. cbn [expr_try_eval] in H. injection H as <-. now split. Qed.
  Lemma base_case' l a n : Z.of_nat (fact (Z.to_nat n)) < 2 ^ (w - 1) \/ n <= 2 ^ 53 /\ (exists k, l = Leaf (leaf_sym k)) -> expr_try_eval P l = Ok (Some a) -> Z.of_nat (fact (Z.to_nat n)) < 2 ^ (w - 1) \/ length (fnum a) = 1%nat.
  Proof. intros B H. destruct (base_case l a n B H) as [|[]]; [now left|now right]. Qed.
  Lemma try_eval_poly : forall e f, polynomial w e -> expr_try_eval P e = Ok (Some f) -> sfrac f.
  Proof.
    induction e as [f0|c l IHl r IHr]; intros f Q H; [cbn [expr_try_eval] in H; injection H as <-; now apply leaf_i|].
    cbn [expr_try_eval] in H. apply bind_ok in H as (a & Ha & H). apply bind_ok in H as (b & Hb & H). destruct a as [a|]; [|discriminate]. destruct b as [b|]; [|discriminate]. cbn [polynomial] in Q. destruct Q as (Ql & [(C & Qr)|(-> & n & N & B & ->)]).
    - specialize (IHl a Ql Ha). specialize (IHr b Qr Hb). destruct C as [-> |[-> | ->]]; change (Ascii.eqb _ "^") with false in H; cbv iota in H; apply bind_ok in H as (x & Hx & H); injection H as <-; unfold apply_op in Hx; cbn [Ascii.eqb Bool.eqb] in Hx; [apply (frac_add_i a b)|apply (frac_sub_i a b)|apply (frac_mul_i a b)]; try assumption; match goal with X : sfrac ?q |- ifrac ?q => exact (proj1 X) end.
    - specialize (IHl a Ql Ha). cbn [expr_try_eval] in Hb. injection Hb as <-. change (Ascii.eqb "^" "^") with true in H. cbv iota in H. apply bind_ok in H as (p & Hp & H). destruct p as [p|]; [|discriminate]. apply bind_ok in H as (q & Hq & H). apply frac_q in Hq as ->. apply bind_ok in H as (x & Hx & H). injection H as <-. apply (frac_pow_i a n); [lia|exact (base_case' l a n B Ha)| |exact Hx]. apply IHl.
  Qed.
  Lemma try_eval_some : forall e r, polynomial w e -> expr_try_eval P e = Ok r -> r <> None.
  Proof.
    induction e as [f0|c l IHl r IHr]; intros o Q H; [cbn [expr_try_eval] in H; injection H as <-; discriminate|].
    cbn [expr_try_eval] in H. apply bind_ok in H as (a & Ha & H). apply bind_ok in H as (b & Hb & H). cbn [polynomial] in Q. destruct Q as (Ql & Q). specialize (IHl a Ql Ha). destruct a as [a|]; [|contradiction].
    destruct Q as [(C & Qr)|(-> & n & N & B & ->)].
    - specialize (IHr b Qr Hb). destruct b as [b|]; [|contradiction]. destruct C as [-> |[-> | ->]]; change (Ascii.eqb _ "^") with false in H; cbv iota in H; apply bind_ok in H as (x & Hx & H); injection H as <-; discriminate.
    - cbn [expr_try_eval] in Hb. injection Hb as <-. change (Ascii.eqb "^" "^") with true in H. cbv iota in H. apply bind_ok in H as (p & Hp & H). destruct p as [p|]; [apply bind_ok in H as (q & _ & H); apply bind_ok in H as (x & _ & H); injection H as <-; discriminate|]. exfalso.
      unfold exponent_of in Hp. apply bind_ok in Hp as (v & Hv & Hp). unfold frac_try_eval, leaf_int in Hv. cbn [fnum fden] in Hv. apply bind_ok in Hv as (x & Hx & Hv). apply bind_ok in Hv as (y & Hy & Hv). apply one_try in Hy as ->.
      unfold poly_try_eval in Hx. pose proof (w4 P HR). rewrite (of_int P HR) in Hx by lia. cbn [bind try_sum] in Hx. unfold term_try_eval in Hx. cbn [no_symbols term_const syms tco] in Hx. apply bind_ok in Hx as (e & He & Hx). apply equiv_rint in He as ->. apply bind_ok in Hx as (a' & Ha' & Hx). apply (zadd P HR) in Ha' as [-> _]. injection Hx as <-.
      apply bind_ok in Hv as (q & Hq & Hv). injection Hv as <-. apply (zdiv1 P HR) in Hq as ->. apply bind_ok in Hp as (b & Hb & Hp). destruct b; [discriminate|]. unfold is_rational in Hb. cbn [rint coe rad] in Hb. apply bind_ok in Hb as (c0 & _ & Hb). destruct c0; [discriminate|]. apply bind_ok in Hb as (c1 & Hc1 & Hb). apply rat_eq_inv in Hc1. cbn in Hc1. subst c1. discriminate.
  Qed.
  Lemma normalize_try e e' : polynomial w e -> expr_normalize P e = Ok e' -> exists f, e' = Leaf f /\ sfrac f.
  Proof.
    destruct e as [f0|c l r]; intros Q H; [cbn [expr_normalize] in H; injection H as <-; exists f0; split; [reflexivity|now apply leaf_i]|].
    cbn [expr_normalize] in H. apply bind_ok in H as (a & Ha & H). apply bind_ok in H as (b & Hb & H). cbn [polynomial] in Q. destruct Q as (Ql & Q). pose proof (try_eval_some l a Ql Ha) as NA. destruct a as [a|]; [|contradiction]. pose proof (try_eval_poly l a Ql Ha) as IA.
    destruct Q as [(C & Qr)|(-> & n & N & B & ->)].
    - pose proof (try_eval_some r b Qr Hb) as NB. destruct b as [b|]; [|contradiction]. pose proof (try_eval_poly r b Qr Hb) as IB. destruct C as [-> |[-> | ->]]; change (Ascii.eqb _ "^") with false in H; cbv iota in H; apply bind_ok in H as (x & Hx & H); injection H as <-; exists x; (split; [reflexivity|]); unfold apply_op in Hx; cbn [Ascii.eqb Bool.eqb] in Hx; [apply (frac_add_i a b)|apply (frac_sub_i a b)|apply (frac_mul_i a b)]; try assumption; match goal with X : sfrac ?q |- ifrac ?q => exact (proj1 X) end.
    - cbn [expr_try_eval] in Hb. injection Hb as <-. change (Ascii.eqb "^" "^") with true in H. cbv iota in H. apply bind_ok in H as (p & Hp & H). destruct p as [p|].
      + apply leaf_exponent in Hp as ->. apply bind_ok in H as (q & Hq & H). apply real_q in Hq as ->. apply bind_ok in H as (x & Hx & H). injection H as <-. exists x. split; [reflexivity|]. apply (frac_pow_i a n); [lia|exact (base_case' l a n B Ha)| |exact Hx]. apply IA.
      + exfalso. assert (X : exists r, expr_try_eval P (Op "^" l (Leaf (leaf_int n))) = Ok r /\ r = None). { cbn [expr_try_eval]. rewrite Ha. cbn [bind]. change (Ascii.eqb "^" "^") with true. cbv iota. rewrite Hp. cbn [bind]. eauto. }
        destruct X as (o & X & ->). apply (try_eval_some (Op "^" l (Leaf (leaf_int n))) None) in X; [now apply X|]. cbn [polynomial]. split; [exact Ql|]. right. split; [reflexivity|]. now exists n.
  Qed.
  Lemma sfrac_expanded f : sfrac f <-> expanded w f.
  Proof.
    split.
    - intros ((D & F & S & N) & AB). split; [exact D|]. split; [exact N|]. split; [|exact S]. eapply Forall_impl; [|exact (Forall_and F AB)]. intros t (((n & Hn & U) & B & C) & (m & Hm & L)). split; [exists n; split; [exact Hn|]; rewrite Hn in Hm; injection Hm as ->; unfold rng in U; lia|]. split; [exact B|]. eapply Forall_impl; [|exact C]. intros p (X & Y & Z). split; [exact X|]. split; [exact Y|]. lia.
    - intros (D & N & F & S). split; [split; [exact D|]; split; [|split; [exact S|exact N]]|]; [|eapply Forall_impl; [|exact F]; intros t ((n & Hn & U) & _); exists n; split; [exact Hn|lia]]. eapply Forall_impl; [|exact F]. intros t ((n & Hn & U) & B & C). split; [exists n; split; [exact Hn|unfold rng; lia]|]. split; [exact B|]. eapply Forall_impl; [|exact C]. intros p (X & Y & Z). split; [exact X|]. split; [exact Y|]. lia.
  Qed.

  (** ** values *)
  Lemma padm_i s l : Forall iterm l -> padm s l.
  Proof. intros F. eapply Forall_impl; [|exact F]. intros t (_ & _ & C). unfold tadm, sadm. eapply Forall_impl; [|exact C]. intros p (_ & Y & Z). right. split; [exact Y|]. right. lia. Qed.
  Lemma pwf_i l : Forall iterm l -> pwf w l.
  Proof. intros F. eapply Forall_impl; [|exact F]. intros t T. exact (proj1 (iterm_tok P name_ok HR t T)). Qed.
  Lemma pv_one s : pv s one = 1%R.
  Proof. unfold pv. cbn [fold_right]. unfold tv. cbn [term_const tco syms sv fold_right]. rewrite rv_int. lra. Qed.
  Lemma defined_i s f : ifrac f -> leaf_defined w s f.
  Proof.
    intros (D & F & _). unfold leaf_defined. rewrite D. split; [now apply pwf_i|]. split; [apply pwf_i, one_i|]. split; [now apply padm_i|]. split; [apply padm_i, one_i|]. rewrite pv_one. lra.
  Qed.
  Lemma defined_poly s : forall e, polynomial w e -> edefined P s e.
  Proof.
    induction e as [f|c l IHl r IHr]; intros Q; cbn [edefined]; [apply defined_i; apply (leaf_i _ Q)|]. cbn [polynomial] in Q. destruct Q as (Ql & [(C & Qr)|(-> & n & N & B & ->)]).
    - split; [now apply IHl|]. split; [now apply IHr|]. split; [destruct C as [-> |[-> | ->]]; discriminate|]. destruct C as [-> |[-> | ->]]; discriminate.
    - split; [now apply IHl|]. split; [apply defined_i; unfold ifrac; split; [reflexivity|]; apply single_i, iconst|].
      + pose proof (w4 P HR). unfold rng. lia.
      + split; [discriminate|]. intros _ a b q Ha Hb Hq. cbn [expr_try_eval] in Hb. injection Hb as <-. apply computed in Hq as ->. split; [cbn; lia|]. split; [apply (proj2 (qok_z n))|]. left. split; [reflexivity|]. split; [right; cbn [num]; lia|]. exact (base_case l a n B Ha).
  Qed.
  Lemma fv_i s f : ifrac f -> fv s f = pv s (fnum f).
  Proof. intros (D & _). unfold fv. rewrite D, pv_one. field. Qed.
End F.
