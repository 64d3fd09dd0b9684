(** Proofs: quotients of polynomials simplify to one quotient of sums. *)
From Coq Require Import ZArith Znumtheory QArith Qreals Reals String Ascii Lia Lra Bool List Permutation Sorted.
From Verif Require Import Base AdapterModel AdapterProofs RationalModel RationalSpec RationalProofs RationalProofs2 RealModel RealSpec RealProofs1 RealProofs3 RealProofs4 PolyModel PolySpec PolyProofs1 PolyProofs2 PolyProofs3 PolyProofs4 PolyProofs6 ExprModel ExprSpec ExprProofs1 ParserModel TextSpec TextProofs1 TextProofs2 RingProofs1 RingProofs2 RingProofs3 RingProofs4 RatfunSpec RatfunProofs2 RatfunProofs3.
Import ListNotations.
Open Scope Z_scope.

Section F.
  Variable P : penv.
  Hypothesis HR : reads P.
  Hypothesis HM : machine P.
  Hypothesis HS : sort_orders P.
  Local Notation E := (pe P).
  Local Notation w := (ew (pe P)).
  Local Notation qterm := (qterm name_ok).
  Local Notation qpoly := (qpoly name_ok).
  Local Notation one := [term_const (rint 1)].
  Definition qfrac (f : frac) : Prop := qpoly (fnum f) /\ qpoly (fden f).

  Lemma scale_poly m : forall l l', Forall qterm l -> mapr (fun t => c <- real_of_int E m ;; term_mul E t (term_const c)) l = Ok l' -> Forall qterm l' /\ map syms l' = map syms l.
  Proof.
    induction l as [|t l IH]; intros l' F H; cbn [mapr] in H; [injection H as <-; split; [constructor|reflexivity]|]. inversion F as [|? ? T F']; subst. apply bind_ok in H as (u & Hu & H). apply bind_ok in H as (r & Hr & H). injection H as <-. apply IH in Hr as [A B]; [|exact F']. apply bind_ok in Hu as (c & Hc & Hu). apply (zof P HR) in Hc as ->. cbn [map]. rewrite B.
    assert (syms u = syms t) as ->; [|split; [|reflexivity]; constructor; [|exact A]; apply (tmul P name_ok HR) in Hu; [exact Hu|exact T|apply qconst, israt_int]].
    unfold term_mul in Hu. cbn [term_const syms merge_syms bind] in Hu. apply bind_ok in Hu as (c & _ & Hu). unfold term_normalize in Hu. cbn [syms tco] in Hu. apply bind_ok in Hu as (s & Hs & Hu). apply drop_zero_id in Hs; [|now apply (qterm_nonzero name_ok)]. subst s. now injection Hu as <-.
  Qed.
  Lemma desc_map l l' : map syms l' = map syms l -> desc l -> desc l'.
  Proof.
    intros Q D. revert l' Q. induction D as [|t l D IH G]; intros [|u l'] Q; try discriminate; [constructor|]. cbn [map] in Q. injection Q as Q1 Q2. constructor; [now apply IH|]. rewrite Q1. rewrite Forall_forall in *. intros x I. assert (J : In (syms x) (map syms l)) by (rewrite <- Q2; now apply in_map). apply in_map_iff in J as (y & Hy & J). rewrite <- Hy. exact (G y J).
  Qed.
  Lemma scale_qpoly m l l' : qpoly l -> mapr (fun t => c <- real_of_int E m ;; term_mul E t (term_const c)) l = Ok l' -> qpoly l'.
  Proof. intros (A & D & NE) H. apply scale_poly in H as [B Q]; [|exact A]. split; [exact B|]. split; [now apply (desc_map l)|]. intros ->. destruct l; [contradiction|discriminate]. Qed.
  Lemma frac_normalize_q n d f : Forall qterm n -> n <> [] -> Forall qterm d -> d <> [] -> frac_normalize P (Frac n d) = Ok f -> qfrac f.
  Proof.
    intros Fn Nn Fd Nd H. unfold frac_normalize in H. cbv zeta in H. cbn [fnum fden] in H. apply bind_ok in H as (n1 & H1 & H). apply bind_ok in H as (d1 & H2 & H). apply (normalize_q P name_ok HR HM HS) in H1, H2; try assumption. apply bind_ok in H as (m1 & _ & H). apply bind_ok in H as (m & _ & H). apply bind_ok in H as (n2 & H3 & H). apply bind_ok in H as (d2 & H4 & H). apply scale_qpoly in H3, H4; try assumption.
    destruct n2 as [|n0 n2]; [discriminate|]. destruct d2 as [|d0 ds]; [discriminate|]. apply bind_ok in H as (a & _ & H). apply bind_ok in H as (b & _ & H). apply bind_ok in H as (g0 & _ & H). apply bind_ok in H as (o & _ & H). destruct o as [g|]; [|injection H as <-; now split].
    apply bind_ok in H as (gr & Hg & H). apply (qof P HR) in Hg. apply bind_ok in H as (n' & Hn & H). apply bind_ok in H as (gr' & Hg' & H). apply (qof P HR) in Hg'. apply bind_ok in H as (d' & Hd & H). injection H as <-. apply (div_q P name_ok HR HM HS) in Hn, Hd; try assumption; try apply H3; try apply H4. now split.
  Qed.
  Lemma frac_make_q n d f : Forall qterm n -> n <> [] -> qpoly d -> frac_make P n d = Ok f -> qfrac f.
  Proof. intros A B (C & _ & D) H. unfold frac_make in H. apply bind_ok in H as (z & _ & H). destruct z; [discriminate|]. now apply frac_normalize_q in H. Qed.
  Lemma frac_add_q a b f : qfrac a -> qfrac b -> frac_add P a b = Ok f -> qfrac f.
  Proof.
    intros [Na Da] [Nb Db] H. unfold frac_add in H. apply bind_ok in H as (e & _ & H). destruct e.
    - apply bind_ok in H as (n & Hn & H). apply (add_q P name_ok HR HM HS) in Hn; try assumption. injection H as <-. now split.
    - apply bind_ok in H as (x & Hx & H). apply (pmul_q P name_ok HR HM HS) in Hx; try assumption. apply bind_ok in H as (y & Hy & H). apply (pmul_q P name_ok HR HM HS) in Hy; try assumption. apply bind_ok in H as (n & Hn & H). apply (padd_q P name_ok HR HM HS) in Hn as (A & _ & B); try assumption. apply bind_ok in H as (d & Hd & H). apply (mul_q P name_ok HR HM HS) in Hd as (C & _ & D); try assumption. now apply frac_normalize_q in H.
  Qed.
  Lemma frac_sub_q a b f : qfrac a -> qfrac b -> frac_sub P a b = Ok f -> qfrac f.
  Proof. intros A [Nb Db] H. unfold frac_sub in H. apply bind_ok in H as (nb & Hn & H). unfold frac_negate in Hn. apply bind_ok in Hn as (n & Hm & Hn). apply (negate_q P name_ok HR) in Hm as [X Y]; [|exact Nb]. apply frac_make_q in Hn; try assumption. now apply (frac_add_q a nb). Qed.
  Lemma frac_mul_q a b f : qfrac a -> qfrac b -> frac_mul P a b = Ok f -> qfrac f.
  Proof.
    intros [Na Da] [Nb Db] H. unfold frac_mul in H. apply bind_ok in H as (n & Hn & H). apply (mul_q P name_ok HR HM HS) in Hn as (A & _ & B); try assumption. apply bind_ok in H as (d & Hd & H). apply (mul_q P name_ok HR HM HS) in Hd as (C & _ & D); try assumption. now apply frac_normalize_q in H.
  Qed.
  Lemma frac_div_q a b f : qfrac a -> qfrac b -> frac_div P a b = Ok f -> qfrac f /\ poly_is_zero E (fnum b) = Ok false.
  Proof.
    intros [Na Da] [Nb Db] H. unfold frac_div in H. apply bind_ok in H as (z & Hz & H). destruct z; [discriminate|]. split; [|exact Hz]. apply bind_ok in H as (n & Hn & H). apply (mul_q P name_ok HR HM HS) in Hn as (A & _ & B); try assumption. apply bind_ok in H as (d & Hd & H). apply (mul_q P name_ok HR HM HS) in Hd as (C & _ & D); try assumption. now apply frac_normalize_q in H.
  Qed.
  Lemma one_q : qpoly one. Proof. apply single_q, qconst, israt_int. Qed.
  Lemma frac_of_real_q c f : israt c -> frac_of_real P c = Ok f -> qfrac f.
  Proof.
    intros C H. unfold frac_of_real, frac_of_term in H. apply bind_ok in H as (n & Hn & H). apply (make_q P name_ok HR HM HS) in Hn as (A & _ & B); [|exact C]. unfold frac_of_poly in H. rewrite (poly_one_ok P HR) in H. cbn [bind] in H. apply frac_normalize_q in H; try assumption; [apply one_q|discriminate].
  Qed.
  Lemma frac_try_eval_q a c : qfrac a -> frac_try_eval P a = Ok (Some c) -> israt c.
  Proof.
    intros [Na Da] H. unfold frac_try_eval in H. apply bind_ok in H as (x & Hx & H). apply bind_ok in H as (y & Hy & H). destruct x as [x|]; [|discriminate]. destruct y as [y|]; [|discriminate]. apply bind_ok in H as (q & Hq & H). injection H as <-. apply (try_eval_q P name_ok HR) in Hx, Hy; [|apply Da|apply Na]. now apply (qdiv P HR) in Hq.
  Qed.
  Lemma frac_pow_q a n f : 0 <= n -> qfrac a -> frac_pow P a (Rat n 1) = Ok f -> qfrac f.
  Proof.
    intros N A H. unfold frac_pow in H. apply bind_ok in H as (v & Hv & H). destruct v as [c|].
    - apply frac_try_eval_q in Hv; [|exact A]. apply bind_ok in H as (c' & Hc & H). apply (qpow P HR) in Hc; try assumption. now apply frac_of_real_q in H.
    - destruct A as [Na Da]. apply bind_ok in H as (x & Hx & H). apply (pow_q P name_ok HR HM HS) in Hx as (A & _ & B); try assumption. apply bind_ok in H as (d & Hd & H). apply (pow_q P name_ok HR HM HS) in Hd as (C & _ & D); try assumption. now apply frac_normalize_q in H.
  Qed.
  Lemma sym_mono k : name_ok k -> qmono name_ok [(k, Rat 1 1)].
  Proof. intros K. split; [split; [repeat constructor|]|]; constructor; try constructor; try exact K; try apply qok_z; try discriminate; constructor. Qed.
  Lemma sym_q k : name_ok k -> qfrac (leaf_sym k).
  Proof. intros K. split; [|apply one_q]. apply single_q. split; [apply israt_int|]. now apply sym_mono. Qed.
  Lemma int_q n : qfrac (leaf_int n).
  Proof. split; apply single_q, qconst, israt_int. Qed.
  Lemma sym_try k v : frac_try_eval P (leaf_sym k) = Ok v -> v = None.
  Proof. unfold frac_try_eval, leaf_sym. cbn [fnum fden]. intros H. apply bind_ok in H as (x & Hx & H). apply bind_ok in H as (y & _ & H). unfold poly_try_eval in Hx. apply bind_ok in Hx as (z & _ & Hx). cbn [try_sum] in Hx. unfold term_try_eval in Hx. cbn [no_symbols term_sym syms] in Hx. injection Hx as <-. now injection H as <-. Qed.
  Lemma root_frac_q k q f : name_ok k -> qok q -> den q < 2 ^ w -> 0 <= num q -> frac_pow P (leaf_sym k) q = Ok f -> qfrac f.
  Proof.
    intros K Q B N H. unfold frac_pow in H. apply bind_ok in H as (v & Hv & H). apply sym_try in Hv as ->. apply bind_ok in H as (x & Hx & H). cbn [leaf_sym fnum term_sym] in Hx. apply (root_q P name_ok HR HM HS) in Hx as (A & _ & A'); try assumption; [|now apply sym_mono]. apply bind_ok in H as (d & Hd & H). cbn [leaf_sym fden term_const] in Hd. apply (root_q P name_ok HR HM HS) in Hd as (C & _ & C'); try assumption; [|split; [split|]; constructor]. now apply frac_normalize_q in H.
  Qed.

  (** ** the exponent n / m *)
  Lemma mul_coe p q x : real_mul E (rq p) (rq q) = Ok x -> exists c, rat_mul w p q = Ok c /\ x = rq c.
  Proof.
    intros H. pose proof (w3 P HR) as W3. pose proof (w4 P HR) as W4. unfold real_mul in H. cbv zeta in H. cbn [rq idx rad coe] in H. apply bind_ok in H as (l & Hl & H). unfold ulcm in Hl. destruct (_ <? _); [|discriminate]. injection Hl as <-. change (Z.lcm 1 1) with 1 in H. change (uquot 1 1) with (Ok 1) in H. cbn [bind] in H.
    assert (I : rat_of_index w 1 = Ok (Rat 1 1)) by (unfold rat_of_index; rewrite swrap_id by lia; apply of_int_ok; lia). rewrite I in H. cbn [bind] in H. rewrite (rpow_one P HR) in H. cbn [bind] in H. apply bind_ok in H as (r & Hr & H). apply mul_zz in Hr as ->. apply bind_ok in H as (c & Hc & H). apply (norm_unit P HR) in H as ->. now exists c.
  Qed.
  Lemma div_coe a g x : real_div E (rint a) (rint g) = Ok x -> exists c, rat_div w (Rat a 1) (Rat g 1) = Ok c /\ x = rq c.
  Proof.
    intros H. pose proof (w3 P HR) as W3. pose proof (w4 P HR) as W4. unfold real_div in H. apply bind_ok in H as (i & Hi & H). unfold real_inverse in Hi. cbn [rint idx rad coe] in Hi. apply bind_ok in Hi as (c & Hc & Hi). assert (I : rat_inverse w (Rat 1 1) = Ok (Rat 1 1)) by (unfold rat_inverse, rat_make; cbn [num den Z.eqb]; apply (of_int_ok w 1); lia). rewrite I in Hi. cbn [bind] in Hi. injection Hi as <-. apply (mul_coe (Rat a 1) c) in H as (d & Hd & ->). exists d. split; [|reflexivity]. unfold rat_div. rewrite Hc. exact Hd.
  Qed.
  Lemma div_num a g c : 0 <= a -> 0 < g -> rat_div w (Rat a 1) (Rat g 1) = Ok c -> qok c /\ 0 <= num c /\ den c < 2 ^ w /\ (qv c == inject_Z a / inject_Z g)%Q.
  Proof.
    intros A G H. pose proof (w3 P HR). assert (Q : qok c) by (apply (qok_div_pos P (Rat a 1) g c); [apply qok_z|exact G|exact H]). split; [exact Q|]. assert (V := H). apply rat_div_exact in V as (D & _ & V); [|discriminate]. split; [|split].
    - destruct Q as [DP _]. unfold qv in V. cbn [num den] in V. assert (X : (inject_Z (num c) / inject_Z (den c) == inject_Z a / inject_Z g)%Q) by (rewrite V; field; apply inj0; lia). apply qdiv_eq_inv in X; [|lia|lia]. nia.
    - unfold rat_div in H. apply bind_ok in H as (i & _ & H). apply mul_den_rng in H. assert (2 ^ (w - 1) < 2 ^ w) by (apply Z.pow_lt_mono_r; lia). lia.
    - rewrite V. unfold qv. cbn [num den]. field. apply inj0. lia.
  Qed.
  Lemma div_exact_z a g c : 0 <= a -> 0 < g -> (g | a) -> rat_div w (Rat a 1) (Rat g 1) = Ok c -> c = Rat (a / g) 1.
  Proof.
    intros A G [k ->] H. apply div_num in H as (Q & _ & _ & V); try assumption. rewrite Z.div_mul by lia. apply qok_int; [exact Q|]. rewrite V, inject_Z_mult. field. apply inj0. lia.
  Qed.
  Lemma const_mul a b t : term_mul E (term_const (rint a)) (term_const (rint b)) = Ok t -> t = term_const (rint (a * b)).
  Proof. intros H. unfold term_mul in H. cbn [term_const syms merge_syms bind tco] in H. apply bind_ok in H as (c & Hc & H). apply (zmul P HR) in Hc as [-> _]. unfold term_normalize in H. cbn [syms tco drop_zero bind] in H. now injection H as <-. Qed.
  Lemma const_mul_to a b r : poly_mul_to P [term_const (rint a)] [term_const (rint b)] = Ok r -> r = [term_const (rint (a * b))].
  Proof. intros H. unfold poly_mul_to in H. cbn [mapr] in H. apply bind_ok in H as (l & Hl & H). apply bind_ok in Hl as (row & Hrow & Hl). apply bind_ok in Hrow as (t & Ht & Hrow). apply const_mul in Ht as ->. cbn [bind] in *. injection Hrow as <-. injection Hl as <-. cbn [concat app] in H. rewrite (normalize_one P HR) in H. now injection H as <-. Qed.
  Lemma const_div a g r : 0 <= a -> 0 < g -> (g | a) -> poly_div_to P [term_const (rint a)] (rint g) = Ok r -> r = [term_const (rint (a / g))].
  Proof.
    intros A G D H. unfold poly_div_to in H. cbn [mapr] in H. apply bind_ok in H as (l & Hl & H). apply bind_ok in Hl as (t & Ht & Hl). unfold term_div in Ht. cbn [term_const syms tco] in Ht. apply bind_ok in Ht as (c & Hc & Ht). apply div_coe in Hc as (q & Hq & ->). apply div_exact_z in Hq as ->; try assumption. unfold term_normalize in Ht. cbn [syms tco drop_zero bind] in Ht. injection Ht as <-. cbn [bind] in Hl. injection Hl as <-. rewrite (normalize_one P HR) in H. now injection H as <-.
  Qed.
  Definition literal_ratio (b : frac) : Prop := exists a c, 0 <= a /\ 0 < c /\ b = Frac [term_const (rint a)] [term_const (rint c)].
  Lemma ratio n m b : 0 <= n -> 0 < m -> frac_div P (leaf_int n) (leaf_int m) = Ok b -> literal_ratio b.
  Proof.
    intros N M H. pose proof (w4 P HR) as W4. unfold frac_div, leaf_int in H. cbn [fnum fden] in H. apply bind_ok in H as (z & _ & H). destruct z; [discriminate|]. apply bind_ok in H as (x & Hx & H). apply const_mul_to in Hx as ->. apply bind_ok in H as (y & Hy & H). apply const_mul_to in Hy as ->. rewrite Z.mul_1_r, Z.mul_1_l in H.
    unfold frac_normalize in H. cbv zeta in H. cbn [fnum fden] in H. rewrite !(normalize_one P HR) in H. cbn [bind dens] in H. apply bind_ok in H as (m1 & H1 & H). apply bind_ok in H1 as (k & Hk & H1). cbn [term_const tco rint coe den] in Hk. apply chk_inv in Hk as [-> _]. injection H1 as <-. apply bind_ok in H as (m2 & H1 & H). apply bind_ok in H1 as (k & Hk & H1). cbn [term_const tco rint coe den] in Hk. apply chk_inv in Hk as [-> _]. injection H1 as <-. change (1 * 1 * 1) with 1 in H.
    cbn [mapr] in H. rewrite !(of_int P HR) in H by (cbn; lia). cbn [bind] in H. apply bind_ok in H as (n2 & H2 & H). apply bind_ok in H2 as (t & Ht & H2). apply const_mul in Ht as ->. injection H2 as <-. apply bind_ok in H as (d2 & H2 & H). apply bind_ok in H2 as (t & Ht & H2). apply const_mul in Ht as ->. injection H2 as <-. rewrite !Z.mul_1_r in H.
    apply bind_ok in H as (a & Ha & H). unfold rat_to_t in Ha. cbn [term_const tco rint coe num den] in Ha. apply quot_w_inv in Ha as (_ & -> & _). apply bind_ok in H as (b' & Hb & H). unfold rat_to_t in Hb. cbn [term_const tco rint coe num den] in Hb. apply quot_w_inv in Hb as (_ & -> & _). rewrite !Z.quot_1_r in H. apply bind_ok in H as (g & Hg & H). apply adapter_gcd_inv in Hg.
    rewrite gcd_outer_nil in H. cbn [bind] in H. apply bind_ok in H as (gr & Hgr & H). apply (zof P HR) in Hgr as ->. assert (G : 0 < g). { subst g. pose proof (Z.gcd_nonneg n m). assert (Z.gcd n m <> 0) by (intros X; apply Z.gcd_eq_0_r in X; lia). lia. }
    apply bind_ok in H as (n' & Hn & H). apply const_div in Hn; [|lia|exact G|rewrite Hg; apply Z.gcd_divide_l]. apply bind_ok in H as (gr' & Hgr & H). apply (zof P HR) in Hgr as ->. apply bind_ok in H as (d' & Hd & H). assert (DM : (g | m)) by (rewrite Hg; apply Z.gcd_divide_r). apply const_div in Hd; [|lia|exact G|exact DM]. injection H as <-. exists (n / g), (m / g). split; [apply Z.div_pos; lia|]. split; [|now rewrite Hn, Hd]. destruct DM as [k ->]. rewrite Z.div_mul by lia. nia.
  Qed.
  Lemma const_try a v : poly_try_eval E [term_const (rint a)] = Ok v -> v = Some (rint a).
  Proof.
    unfold poly_try_eval. intros H. apply bind_ok in H as (z & Hz & H). apply (zof P HR) in Hz as ->. cbn [try_sum] in H. unfold term_try_eval in H. cbn [no_symbols term_const syms tco] in H. apply bind_ok in H as (e & He & H). apply equiv_rint in He as ->. apply bind_ok in H as (x & Hx & H). apply (zadd P HR) in Hx as [-> _]. injection H as <-. reflexivity.
  Qed.
  Lemma ratio_exponent b p : literal_ratio b -> exponent_of P b = Ok p -> exists c, p = Some (rq c) /\ qok c /\ 0 <= num c /\ den c < 2 ^ w.
  Proof.
    intros (a & c & A & C & ->) H. unfold exponent_of in H. apply bind_ok in H as (v & Hv & H). unfold frac_try_eval in Hv. cbn [fnum fden] in Hv. apply bind_ok in Hv as (x & Hx & Hv). apply bind_ok in Hv as (y & Hy & Hv). apply const_try in Hx, Hy. subst x y. apply bind_ok in Hv as (q & Hq & Hv). injection Hv as <-. apply div_coe in Hq as (d & Hd & ->). apply div_num in Hd as (Q & Nn & D & _); try assumption. apply bind_ok in H as (r & Hr & H).
    assert (r = true) as ->. { unfold is_rational in Hr. cbn [rq coe rad] in Hr. apply bind_ok in Hr as (c0 & _ & Hr). destruct c0; [congruence|]. apply bind_ok in Hr as (c1 & Hc1 & Hr). apply rat_eq_inv in Hc1. cbn in Hc1. subst c1. congruence. }
    injection H as <-. exists d. split; [reflexivity|]. now split.
  Qed.
  Lemma real_q' c q : qok c -> 0 <= num c -> real_to_rational w (rq c) = Ok q -> qok q /\ 0 <= num q /\ den q < 2 ^ w.
  Proof.
    intros Q N H. pose proof (w3 P HR). unfold real_to_rational in H. apply bind_ok in H as (b & _ & H). destruct b; [|discriminate]. cbn [rq coe rad] in H. assert (Qq := qok_mul _ _ _ _ Q (qok_z 1) H). split; [exact Qq|]. pose proof (mul_den_rng _ _ _ _ H) as B. assert (2 ^ (w - 1) < 2 ^ w) by (apply Z.pow_lt_mono_r; lia). split; [|lia].
    apply rat_mul_exact in H as (_ & _ & _ & V). assert (c = q) as <-; [|exact N]. apply qv_inj; try assumption. rewrite V, qv_z. ring.
  Qed.
  Lemma ratio_q b q : literal_ratio b -> computed_exponent P b q -> qok q /\ 0 <= num q /\ den q < 2 ^ w.
  Proof.
    intros L (p & Hp & H). destruct H as [H|H].
    - destruct L as (a & c & A & C & ->). unfold frac_to_rational in H. cbn [fnum fden] in H. apply bind_ok in H as (x & Hx & H). apply bind_ok in H as (y & Hy & H). apply sum_q in Hx, Hy. subst x y. apply div_num in H as (Q & Nn & D & _); try assumption. now split.
    - destruct (ratio_exponent b (Some p) L Hp) as (c & Ec & Q & Nn & D). injection Ec as ->. now apply (real_q' c).
  Qed.

  (** ** expressions *)
  Lemma leaf_q f : rational_function w (Leaf f) -> qfrac f.
  Proof. intros [(n & _ & ->)|(k & K & ->)]; [apply int_q|now apply sym_q]. Qed.
  Lemma op_q c a b x : (c = "+" \/ c = "-" \/ c = "*" \/ c = "/")%char -> qfrac a -> qfrac b -> apply_op P c a b = Ok x -> qfrac x /\ (c = "/"%char -> poly_is_zero E (fnum b) = Ok false).
  Proof.
    intros C A B H. unfold apply_op in H. destruct C as [-> |[-> |[-> | ->]]]; cbn [Ascii.eqb Bool.eqb] in H.
    - split; [now apply (frac_add_q a b)|discriminate].
    - split; [now apply (frac_sub_q a b)|discriminate].
    - split; [now apply (frac_mul_q a b)|discriminate].
    - apply frac_div_q in H as [X Y]; try assumption. now split.
  Qed.
  Lemma eval_leaf f o : expr_try_eval P (Leaf f) = Ok o -> o = Some f. Proof. cbn. congruence. Qed.
  Lemma eval_ratio n m o : 0 <= n -> 0 < m -> expr_try_eval P (Op "/" (Leaf (leaf_int n)) (Leaf (leaf_int m))) = Ok o -> exists b, o = Some b /\ literal_ratio b /\ poly_is_zero E (fnum (leaf_int m)) = Ok false.
  Proof.
    intros N M H. cbn [expr_try_eval bind] in H. change (Ascii.eqb "/" "^") with false in H. cbv iota in H. apply bind_ok in H as (x & Hx & H). injection H as <-. unfold apply_op in Hx. cbn [Ascii.eqb Bool.eqb] in Hx. exists x. split; [reflexivity|]. split; [now apply ratio in Hx|]. apply frac_div_q in Hx as [_ Z]; [exact Z|apply int_q|apply int_q].
  Qed.
  Lemma literal_exponent n p : exponent_of P (leaf_int n) = Ok p -> p = Some (rint n).
  Proof.
    intros H. destruct p as [p|]; [apply (leaf_exponent P HR) in H; now subst|]. exfalso. unfold exponent_of in H. apply bind_ok in H as (v & Hv & H). unfold frac_try_eval, leaf_int in Hv. cbn [fnum fden] in Hv. apply bind_ok in Hv as (x & Hx & Hv). apply bind_ok in Hv as (y & Hy & Hv). apply const_try in Hx, Hy. subst x y. apply bind_ok in Hv as (q & Hq & Hv). injection Hv as <-. apply (zdiv1 P HR) in Hq as ->. apply bind_ok in H as (b & Hb & H). destruct b; [discriminate|]. unfold is_rational in Hb. cbn [rint coe rad] in Hb. apply bind_ok in Hb as (c0 & _ & Hb). destruct c0; [discriminate|]. apply bind_ok in Hb as (c1 & Hc1 & Hb). apply rat_eq_inv in Hc1. cbn in Hc1. subst c1. discriminate.
  Qed.
  Theorem eval_q : forall e o, rational_function w e -> expr_try_eval P e = Ok o -> exists f, o = Some f /\ qfrac f.
  Proof.
    induction e as [f0|c l IHl r IHr]; intros o Q H; [apply eval_leaf in H as ->; exists f0; split; [reflexivity|now apply leaf_q]|]. cbn [rational_function] in Q. cbn [expr_try_eval] in H. apply bind_ok in H as (a & Ha & H). apply bind_ok in H as (b & Hb & H). destruct Q as [(C & Ql & Qr)|[(-> & Ql & n & N & _ & ->)|(-> & k & n & m & K & -> & N & M & ->)]].
    - destruct (IHl a Ql Ha) as (fa & -> & FA). destruct (IHr b Qr Hb) as (fb & -> & FB). assert (NE : Ascii.eqb c "^" = false) by (destruct C as [-> |[-> |[-> | ->]]]; reflexivity). rewrite NE in H. apply bind_ok in H as (x & Hx & H). injection H as <-. exists x. split; [reflexivity|]. apply op_q in Hx as [X _]; assumption.
    - destruct (IHl a Ql Ha) as (fa & -> & FA). apply eval_leaf in Hb as ->. change (Ascii.eqb "^" "^") with true in H. cbv iota in H. apply bind_ok in H as (p & Hp & H). apply literal_exponent in Hp as ->. apply bind_ok in H as (q & Hq & H). apply frac_q in Hq as ->. apply bind_ok in H as (x & Hx & H). injection H as <-. exists x. split; [reflexivity|]. now apply (frac_pow_q fa n).
    - apply eval_leaf in Ha as ->. apply eval_ratio in Hb as (fb & -> & L & _); [|lia|lia]. change (Ascii.eqb "^" "^") with true in H. cbv iota in H. apply bind_ok in H as (p & Hp & H). destruct (ratio_exponent fb p L Hp) as (c & -> & _). apply bind_ok in H as (q & Hq & H). apply bind_ok in H as (x & Hx & H). injection H as <-. exists x. split; [reflexivity|]. destruct (ratio_q fb q L) as (Q1 & Q2 & Q3); [exists (rq c); split; [exact Hp|now left]|]. now apply (root_frac_q k q).
  Qed.
  Theorem normalize_e : forall e e', rational_function w e -> expr_normalize P e = Ok e' -> exists f, e' = Leaf f /\ qfrac f.
  Proof.
    destruct e as [f0|c l r]; intros e' Q H; [cbn in H; injection H as <-; exists f0; split; [reflexivity|now apply leaf_q]|]. cbn [rational_function] in Q. cbn [expr_normalize] in H. apply bind_ok in H as (a & Ha & H). apply bind_ok in H as (b & Hb & H). destruct Q as [(C & Ql & Qr)|[(-> & Ql & n & N & _ & ->)|(-> & k & n & m & K & -> & N & M & ->)]].
    - destruct (eval_q l a Ql Ha) as (fa & -> & FA). destruct (eval_q r b Qr Hb) as (fb & -> & FB). assert (NE : Ascii.eqb c "^" = false) by (destruct C as [-> |[-> |[-> | ->]]]; reflexivity). rewrite NE in H. apply bind_ok in H as (x & Hx & H). injection H as <-. exists x. split; [reflexivity|]. apply op_q in Hx as [X _]; assumption.
    - destruct (eval_q l a Ql Ha) as (fa & -> & FA). apply eval_leaf in Hb as ->. change (Ascii.eqb "^" "^") with true in H. cbv iota in H. apply bind_ok in H as (p & Hp & H). apply literal_exponent in Hp as ->. apply bind_ok in H as (q & Hq & H). apply real_q in Hq as ->. apply bind_ok in H as (x & Hx & H). injection H as <-. exists x. split; [reflexivity|]. now apply (frac_pow_q fa n).
    - apply eval_leaf in Ha as ->. apply eval_ratio in Hb as (fb & -> & L & _); [|lia|lia]. change (Ascii.eqb "^" "^") with true in H. cbv iota in H. apply bind_ok in H as (p & Hp & H). destruct (ratio_exponent fb p L Hp) as (c & -> & _). apply bind_ok in H as (q & Hq & H). apply bind_ok in H as (x & Hx & H). injection H as <-. exists x. split; [reflexivity|]. destruct (ratio_q fb q L) as (Q1 & Q2 & Q3); [exists (rq c); split; [exact Hp|now right]|]. now apply (root_frac_q k q).
  Qed.
End F.
