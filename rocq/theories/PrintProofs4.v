(** Reading the text of polynomials and fractions. *)
From Coq Require Import ZArith Znumtheory QArith Qreals Reals String Ascii Lia Lra Bool List Permutation.
From Verif Require Import Base HugeSpec AdapterModel AdapterProofs FactorizeModel FactorizeProofs1 RationalModel RationalSpec RationalProofs RationalProofs2 RealModel RealSpec RealProofs1 RealProofs3 RealProofs4 RealProofs7 RealProofs8 PolyModel PolySpec PolyProofs6 ExprModel ExprSpec ExprProofs1 ParserModel
  ParserSpec ParserProofs1 ParserProofs3 TextSpec TextProofs1 TextProofs2 PrintSpec PrintProofs1 PrintProofs2 PrintProofs3.
Import ListNotations.
Open Scope Z_scope.

(** ** the normal form of a number keeps its coefficient in lowest terms *)
Lemma low_int n : lowest_terms (Rat n 1). Proof. unfold lowest_terms. cbn [num den]. apply Z.gcd_1_r. Qed.
Lemma pull_vals_low w i : forall vs r c r' c', pull_vals w i vs (r, c) = Ok (r', c') -> lowest_terms c -> lowest_terms c'.
Proof.
  induction vs as [|v vs IH]; intros r c r' c' H D; cbn [pull_vals] in H; [injection H as <- <-; assumption|].
  apply bind_ok in H as (r1 & _ & H). apply bind_ok in H as (vr & Hv & H). apply of_int_inv in Hv as ->. apply bind_ok in H as (c1 & Hc & H).
  apply IH in H; [assumption|]. apply (rat_mul_lowest _ _ _ _ D (low_int v) Hc).
Qed.
Lemma pull_exp_low w i vs : forall fuel e r c r' c', pull_exp w i fuel e vs (r, c) = Ok (r', c') -> lowest_terms c -> lowest_terms c'.
Proof.
  induction fuel as [|f IH]; intros e r c r' c' H D; cbn [pull_exp] in H; destruct (e <? i); try discriminate; try (injection H as <- <-; assumption).
  apply bind_ok in H as ([r1 c1] & H1 & H). apply pull_vals_low in H1; [|assumption]. now apply IH in H.
Qed.
Lemma pull_all_low w i : forall m r c r' c', pull_all w i m (r, c) = Ok (r', c') -> lowest_terms c -> lowest_terms c'.
Proof.
  induction m as [|[e vs] m IH]; intros r c r' c' H D; cbn [pull_all] in H; [injection H as <- <-; assumption|].
  apply bind_ok in H as ([r1 c1] & H1 & H). apply pull_exp_low in H1; [|assumption]. now apply IH in H.
Qed.
Lemma normalize_low E x x' : lowest_terms (coe x) -> real_normalize E x = Ok x' -> lowest_terms (coe x').
Proof.
  intros D H. unfold real_normalize in H. apply bind_ok in H as ([c0 rd] & Hc & H).
  assert (D0 : lowest_terms c0).
  { destruct (is_int (rad x)); [injection Hc as <- <-; assumption|]. apply bind_ok in Hc as (d & Hd & Hc). apply of_int_inv in Hd as ->. apply bind_ok in Hc as (c1 & Hc1 & Hc).
    unfold rat_div in Hc1. apply bind_ok in Hc1 as (iv & Hi & Hc1). apply rat_inverse_lowest in Hi.
    apply bind_ok in Hc as (p & _ & Hc). apply bind_ok in Hc as (r & _ & Hc). injection Hc as <- <-. exact (rat_mul_lowest _ _ _ _ D Hi Hc1). }
  apply bind_ok in H as (m & _ & H). apply bind_ok in H as ([r c] & Hp & H). apply pull_all_low in Hp; [|assumption].
  apply bind_ok in H as ([rd' m'] & _ & H). cbv zeta in H. apply bind_ok in H as ([i rd2] & _ & H). apply bind_ok in H as (o & _ & H). apply bind_ok in H as (z & _ & H).
  destruct z; injection H as <-; assumption.
Qed.
Lemma qok_unique a b : qok a -> qok b -> (qv a == qv b)%Q -> a = b.
Proof.
  intros (Da & La) (Db & Lb) H. unfold qv, lowest_terms in *. destruct a as [na da], b as [nb db]. cbn [num den] in *. assert (X : na * db = nb * da).
  { unfold Qeq in H. unfold Qdiv, Qmult, Qinv, inject_Z in H. destruct da as [|da|da], db as [|db|db]; try lia. cbn in H. lia. }
  assert (D1 : (da | db)). { apply (Z.gauss da na db); [exists nb; lia|]. rewrite Z.gcd_comm. exact La. } assert (D2 : (db | da)). { apply (Z.gauss db nb da); [exists na; lia|]. rewrite Z.gcd_comm. exact Lb. }
  assert (da = db) as -> by (apply Z.divide_antisym_nonneg; auto; lia). f_equal. nia.
Qed.

Section A.
Variable P : penv.
Variable dec : text -> res rat.
Hypothesis HM : machine P.
Hypothesis HR : reads P.
Local Notation w := (ew (pe P)).
Local Notation RD := (Rd P dec).

Lemma negate_plain t n : plain_term w t -> term_negate (pe P) t = Ok n -> n = nterm t.
Proof.
  intros (C & ND & S) H. unfold term_negate in H. apply bind_ok in H as (c & Hc & H). unfold term_make, term_normalize in H. cbn [syms tco] in H. apply bind_ok in H as (m & Hm & H). injection H as <-.
  apply drop_zero_id in Hm; [|unfold no_zero_exponent; eapply Forall_impl; [|exact S]; cbv beta; intros p (_ & _ & B); lia]. subst m. unfold nterm. f_equal.
  pose proof (plain_nreal P _ C) as (Cn & Qn & _). destruct C as (Ca & Q & B1 & B2 & B3 & B4). unfold real_negate in Hc. apply bind_ok in Hc as (q & Hq & Hc). destruct HM as (Hw & FS & FE & _). pose proof (proj1 Q) as QD.
  pose proof (rat_negate_lowest _ _ _ Hq) as Lq. pose proof (rat_negate_pos _ _ _ Hq QD) as Dq. destruct (rat_negate_exact _ _ _ (not_eq_sym (Z.lt_neq _ _ QD)) Hq) as [_ Vq]. destruct (canonical_split _ Ca) as (m & E & Sm).
  assert (Eq : q = Rat (- num (coe (tco t))) (den (coe (tco t)))). { apply qok_unique; [now split|exact Qn|]. rewrite Vq. unfold qv. cbn [num den]. rewrite inject_Z_opp. field. unfold Qeq, inject_Z. cbn. lia. }
  subst q. fold (nreal (tco t)) in Hc. assert (HI : 1 <= idx (tco t) < 2 ^ w). { destruct Sm; split; try lia. all: assert (2 ^ (w - 1) < 2 ^ w) by (apply Z.pow_lt_mono_r; lia); lia. }
  assert (W : wf w (Real (idx (tco t)) (rad (tco t)) (Rat (- num (coe (tco t))) (den (coe (tco t)))))). { split; [exact HI|]. cbn [rad coe den num]. rewrite E. cbn [num den]. lia. }
  destruct (make_good _ _ _ _ _ Hw FS FE W Hc) as (Gx & Cx & Vx). destruct (canonical_unique c (nreal (tco t)) Cx Cn Vx) as (I1 & I2 & I3).
  assert (Qc : qok (coe c)). { split; [|]. - apply (normalize_den _ _ _) in Hc; [exact Hc|cbn [rad]; rewrite E; cbn; lia|exact QD]. - apply (normalize_low _ _ _) in Hc; [exact Hc|exact Lq]. }
  apply (qok_unique _ _ Qc) in I3; [|exact Qn]. destruct c as [i r k]. cbn in *. unfold nreal in *. cbn in *. congruence.
Qed.
Lemma positive_ok t b : plain_term w t -> num (coe (tco t)) <> 0 -> term_positive (pe P) t = Ok b -> b = (0 <? num (coe (tco t))).
Proof.
  intros (C & _) N H. pose proof (w3 P HR) as W3. pose proof (w4 P HR) as W4. unfold term_positive in H. rewrite (of_int P HR) in H by lia. cbn [bind] in H. unfold real_gt, real_lt in H. rewrite (real_eq_unit P HR) in H by (auto; lia). rewrite (unit_zero P) in H by auto.
  destruct C as (_ & (D & _) & A & B & _). destruct (Z.eqb_spec (num (coe (tco t))) 0); [contradiction|]. cbn [bind] in H. unfold rat_le, rat_ge, rat_cmp in H. cbn [rint coe num den] in H. rewrite !Z.mul_1_r, !Z.mul_0_l in H. rewrite !chk_ok in H by lia. cbn [bind] in H. cbn [Z.compare andb] in H.
  destruct (Z.ltb_spec 0 (num (coe (tco t)))) as [L|L].
  - assert (K : (num (coe (tco t)) ?= 0) = Gt) by (apply Z.compare_gt_iff; lia). rewrite K in H. cbn [andb bind negb] in H. injection H as <-. reflexivity.
  - assert (K : (num (coe (tco t)) ?= 0) = Lt) by (apply Z.compare_lt_iff; lia). rewrite K in H. cbn [andb bind negb] in H. injection H as <-. reflexivity.
Qed.
Lemma zero_ok t : plain_term w t -> term_zero (pe P) t = Ok (num (coe (tco t)) =? 0).
Proof. intros (C & _). pose proof (w4 P HR) as W4. unfold term_zero. rewrite (of_int P HR) by lia. cbn [bind]. rewrite (real_eq_unit P HR) by (auto; lia). now rewrite (unit_zero P). Qed.
Lemma tv_zero s t : num (coe (tco t)) = 0 -> den (coe (tco t)) <> 0 -> tv s t = 0%R.
Proof. intros N D. unfold tv, rv. rewrite qv_R by assumption. rewrite N. unfold Rdiv. ring. Qed.
Lemma tv_nterm s t : plain_term w t -> tv s (nterm t) = (- tv s t)%R.
Proof. intros (C & _). unfold tv. cbn [nterm tco syms]. rewrite rv_nreal; [ring|]. apply C. Qed.

(** ** texts that may begin with a minus sign *)
Definition RdX (l : text) (v : (string -> R) -> R) : Prop :=
  heads l /\ exists ts t, seg P dec l ts /\ (derives P Sum ts t \/ exists us, ts = TOp "-" :: us /\ derives P Sum (TNum (leaf_int 0) :: TOp "-" :: us) t) /\ forall s, ev s t = v s.
Lemma rdx_sum l v : RD Sum l v -> RdX l v.
Proof. intros (H & ts & t & S & D & V). split; [exact H|]. exists ts, t. auto. Qed.
Lemma rdx_expr l v : RdX l v -> RD Expr l v.
Proof.
  intros (H & ts & t & S & D & V). split; [exact H|]. exists ts, t. split; [exact S|]. split; [|exact V]. destruct D as [D|(us & -> & D)]; [now apply d_expr|]. apply (d_sign P "-" (leaf_int 0)); [now right| |exact D]. apply read_int; [exact HR|]. pose proof (w4 P HR). lia.
Qed.
Lemma rdx_ext l v v' : (forall s, v s = v' s) -> RdX l v -> RdX l v'.
Proof. intros E (H & ts & t & S & D & V). split; [exact H|]. exists ts, t. split; [exact S|]. split; [exact D|]. intros s. now rewrite V. Qed.
Lemma rdx_neg l v : RD Prod l v -> RdX ("-"%char :: l) (fun s => - v s)%R.
Proof.
  intros (H & ts & t & S & D & V). split; [discriminate|]. exists (TOp "-" :: ts), (Op "-" (Leaf (leaf_int 0)) t). split; [|split].
  - intros rest us K L. apply (seg_op P dec "-" [] [] l ts); [reflexivity|exact H|intros r u _ X; exact X|exact S|exact K|exact L].
  - right. exists ts. split; [reflexivity|]. apply (d_pm P "-" [TNum (leaf_int 0)] ts); [now right|apply d_sum, d_prod, d_pow, d_num|exact D].
  - intros s. cbn [ev Ascii.eqb Bool.eqb]. rewrite fv_int, V. ring.
Qed.
Lemma rdx_plus a b x y : RdX a x -> RD Sum b y -> RdX (a ++ ["+"%char] ++ b) (fun s => x s + y s)%R.
Proof.
  intros (Ha & ta & e & Sa & Da & Va) (Hb & tb & f & Sb & Db & Vb). split; [destruct a; [contradiction|exact Ha]|].
  destruct Da as [Da|(us & -> & Da)]; destruct (sum_sum P _ _ Da _ _ Db) as (t & Dt & Vt).
  - exists (ta ++ TOp "+" :: tb), t. split; [now apply seg_op|]. split; [now left|]. intros s. now rewrite Vt, Va, Vb.
  - exists ((TOp "-" :: us) ++ TOp "+" :: tb), t. split; [now apply seg_op|]. split; [right; exists (us ++ TOp "+" :: tb); split; [reflexivity|exact Dt]|]. intros s. now rewrite Vt, Va, Vb.
Qed.
Lemma rdx_pm c a b x y : c = "+"%char \/ c = "-"%char -> RdX a x -> RD Prod b y -> RdX (a ++ [c] ++ b) (fun s => if Ascii.eqb c "+" then x s + y s else x s - y s)%R.
Proof.
  intros C (Ha & ta & e & Sa & Da & Va) (Hb & tb & f & Sb & Db & Vb). split; [destruct a; [contradiction|exact Ha]|]. exists (ta ++ TOp c :: tb), (Op c e f). split; [apply seg_op; try assumption; destruct C as [-> | ->]; reflexivity|]. split.
  - destruct Da as [Da|(us & -> & Da)]; [left; now apply d_pm|]. right. exists (us ++ TOp c :: tb). split; [reflexivity|]. apply (d_pm P c (TNum (leaf_int 0) :: TOp "-" :: us)); assumption.
  - intros s. cbn [ev]. rewrite Va, Vb. destruct C as [-> | ->]; reflexivity.
Qed.

(** ** polynomials *)
Lemma rest_reads l : plain_poly w l -> forall r, poly_text (pe P) (term_to_string (pe P)) false l = Ok r -> forall a x,
  (RdX a x -> RdX (a ++ r) (fun s => x s + pv s l)%R) /\ (RD Sum a x -> RD Sum (a ++ r) (fun s => x s + pv s l)%R).
Proof.
  induction 1 as [|t l Ht F IH]; intros r H a x; cbn [poly_text] in H.
  - injection H as <-. rewrite app_nil_r. split; [apply rdx_ext|apply rd_ext]; intros s; cbn; ring.
  - rewrite (zero_ok t Ht) in H. cbn [bind] in H. destruct (Z.eqb_spec (num (coe (tco t))) 0) as [N|N].
    + assert (E : forall s, (x s + pv s l = x s + pv s (t :: l))%R). { intros s. cbn [pv fold_right]. fold (pv s l). rewrite (tv_zero s t N); [ring|]. destruct Ht as ((_ & (D & _) & _) & _). lia. }
      destruct (IH r H a x) as [I1 I2]. split; intros X; [apply (rdx_ext _ _ _ E)|apply (rd_ext P dec _ _ _ _ E)]; auto.
    + apply bind_ok in H as (s & Hs & H). apply bind_ok in H as (r' & Hr & H). injection H as <-. apply bind_ok in Hs as (b & Hb & Hs). apply (positive_ok t b Ht N) in Hb. destruct (Z.ltb_spec 0 (num (coe (tco t)))) as [L|L]; subst b.
      * rewrite (term_print P HR t Ht) in Hs. cbn [bind] in Hs. injection Hs as <-. destruct (rd_term P dec HR t Ht L) as [RT _]. destruct (IH r' Hr (a ++ txt "+" ++ term_text t) (fun s => x s + tv s t)%R) as [I1 I2].
        assert (E : forall s, (x s + tv s t + pv s l = x s + pv s (t :: l))%R) by (intros s; cbn [pv fold_right]; fold (pv s l); ring). rewrite (app_assoc a).
        split; intros X; [apply (rdx_ext _ _ _ E), I1|apply (rd_ext P dec _ _ _ _ E), I2]; [exact (rdx_pm "+" _ _ _ _ (or_introl eq_refl) X RT)|exact (rd_pm P dec "+" _ _ _ _ (or_introl eq_refl) X RT)].
      * apply bind_ok in Hs as (n & Hn & Hs). apply (negate_plain t n Ht) in Hn. subst n. rewrite (term_print P HR _ (plain_nterm P _ Ht)) in Hs. cbn [bind] in Hs. injection Hs as <-.
        destruct (rd_term P dec HR (nterm t) (plain_nterm P _ Ht)) as [RT _]; [unfold positive; cbn; lia|]. destruct (IH r' Hr (a ++ txt "-" ++ term_text (nterm t)) (fun s => x s - tv s (nterm t))%R) as [I1 I2].
        assert (E : forall s, (x s - tv s (nterm t) + pv s l = x s + pv s (t :: l))%R) by (intros s; rewrite (tv_nterm s t Ht); cbn [pv fold_right]; fold (pv s l); ring). rewrite (app_assoc a).
        split; intros X; [apply (rdx_ext _ _ _ E), I1|apply (rd_ext P dec _ _ _ _ E), I2]; [exact (rdx_pm "-" _ _ _ _ (or_intror eq_refl) X RT)|exact (rd_pm P dec "-" _ _ _ _ (or_intror eq_refl) X RT)].
Qed.
Lemma zero_atom : RD Atom (txt "0") (fun _ => 0%R).
Proof. pose proof (w4 P HR). exact (rd_num P dec HR 0 ltac:(lia)). Qed.
Lemma is_zero_val l : plain_poly w l -> forall b, poly_is_zero (pe P) l = Ok b -> (b = true -> forall s, pv s l = 0%R) /\ (b = false -> Exists (fun t => num (coe (tco t)) <> 0) l).
Proof.
  pose proof (w4 P HR) as W4. induction 1 as [|t l Ht F IH]; intros b H; cbn [poly_is_zero] in H; [injection H as <-; split; [reflexivity|discriminate]|]. rewrite (of_int P HR) in H by lia. cbn [bind] in H. unfold real_ne in H. pose proof Ht as (C & _). rewrite (real_eq_unit P HR) in H by (auto; lia). rewrite (unit_zero P) in H by auto. cbn [bind] in H.
  destruct (Z.eqb_spec (num (coe (tco t))) 0) as [N|N]; cbn [negb] in H.
  - destruct (IH b H) as [I1 I2]. split; [intros B s; cbn [pv fold_right]; fold (pv s l); rewrite (I1 B s), (tv_zero s t N); [ring|destruct C as (_ & (D & _) & _); lia]|]. intros B. right. auto.
  - injection H as <-. split; [discriminate|]. intros _. now left.
Qed.
Lemma first_reads l : plain_poly w l -> Exists (fun t => num (coe (tco t)) <> 0) l -> forall r, poly_text (pe P) (term_to_string (pe P)) true l = Ok r -> RdX r (fun s => pv s l).
Proof.
  induction 1 as [|t l Ht F IH]; intros X r H; [inversion X|]. cbn [poly_text] in H. rewrite (zero_ok t Ht) in H. cbn [bind] in H. destruct (Z.eqb_spec (num (coe (tco t))) 0) as [N|N].
  - assert (E : forall s, (pv s l = pv s (t :: l))%R). { intros s. cbn [pv fold_right]. fold (pv s l). rewrite (tv_zero s t N); [ring|]. destruct Ht as ((_ & (D & _) & _) & _). lia. }
    apply (rdx_ext _ _ _ E), IH; [|exact H]. inversion X; [contradiction|assumption].
  - rewrite (term_print P HR t Ht) in H. cbn [bind] in H. apply bind_ok in H as (r' & Hr & H). injection H as <-. apply (rdx_ext _ (fun s => tv s t + pv s l)%R); [intros s; reflexivity|]. apply (rest_reads l F r' Hr). destruct (Z.ltb_spec 0 (num (coe (tco t)))) as [L|L].
    + apply rdx_sum, (rd_up P dec Prod), (rd_term P dec HR t Ht L).
    + rewrite (term_text_neg P t Ht) by lia. apply (rdx_ext _ (fun s => - tv s (nterm t))%R); [intros s; rewrite (tv_nterm s t Ht); ring|]. apply rdx_neg. apply (rd_term P dec HR (nterm t) (plain_nterm P _ Ht)). unfold positive. cbn. lia.
Qed.
Definition reads_at (p : place) (l : text) (v : (string -> R) -> R) : Prop := match p with Single => RD Atom l v | Factors => RD Prod l v | Sums => RD Sum l v | Start => RdX l v end.
Lemma poly_reads l r p : plain_poly w l -> poly_to_string (pe P) l = Ok r -> shape p l -> reads_at p r (fun s => pv s l).
Proof.
  intros F H S. unfold poly_to_string, poly_print in H. destruct l as [|t0 l0].
  { injection H as <-. destruct S as [S|S]; [discriminate|]. destruct p.
    - destruct S as (? & S & _). discriminate.
    - destruct S as (? & S & _). discriminate.
    - destruct S as (? & ? & S & _). discriminate.
    - now apply rdx_sum, (rd_up P dec Prod), atom_prod, zero_atom. }
  remember (t0 :: l0) as l eqn:El. apply bind_ok in H as (b & Hb & H). destruct (is_zero_val l F b Hb) as [Z1 Z2]. destruct b.
  { injection H as <-. assert (A : RD Atom (txt "0") (fun s => pv s l)) by (apply (rd_ext P dec _ _ (fun _ => 0%R)); [intros s; symmetry; now apply Z1|apply zero_atom]). destruct p; cbn [reads_at]; [exact A|now apply atom_prod|now apply (rd_up P dec Prod), atom_prod|now apply rdx_sum, (rd_up P dec Prod), atom_prod]. }
  specialize (Z2 eq_refl). destruct S as [S|S]. { rewrite S in Z2. inversion Z2 as [? ? Q|? ? Q]; [cbn in Q; lia|inversion Q]. }
  assert (K : forall t m, l = t :: m -> positive t -> exists r', r = term_text t ++ r' /\ RD Sum r (fun s => pv s l) /\ (m = [] -> r' = [])).
  { intros t m E N. rewrite E in F, H |- *. inversion F as [|? ? Ft Fm]; subst. cbn [poly_text] in H. rewrite (zero_ok t Ft) in H. cbn [bind] in H. unfold positive in N. destruct (Z.eqb_spec (num (coe (tco t))) 0); [lia|]. rewrite (term_print P HR t Ft) in H. cbn [bind] in H. apply bind_ok in H as (r' & Hr & H). injection H as <-.
    exists r'. split; [reflexivity|]. split; [|intros ->; cbn in Hr; now injection Hr]. apply (rd_ext P dec _ _ (fun s => tv s t + pv s m)%R); [intros s; reflexivity|]. apply (rest_reads m Fm r' Hr). now apply (rd_up P dec Prod), (rd_term P dec HR t Ft N). }
  assert (K1 : forall t, l = [t] -> positive t -> r = term_text t /\ plain_term w t /\ forall s, pv s l = tv s t).
  { intros t E N. destruct (K t [] E N) as (r' & -> & _ & X). rewrite (X eq_refl), app_nil_r. split; [reflexivity|]. rewrite E in F |- *. inversion F; subst. split; [assumption|]. intros s. cbn [pv fold_right]. ring. }
  destruct p; cbn [reads_at].
  - destruct S as (t & E & FT). destruct (K1 t E (proj1 FT)) as (-> & Ft & V). apply (rd_ext P dec _ _ (fun s => tv s t)); [intros s; now rewrite V|]. now apply (rd_term P dec HR t Ft (proj1 FT)).
  - destruct S as (t & E & N). destruct (K1 t E N) as (-> & Ft & V). apply (rd_ext P dec _ _ (fun s => tv s t)); [intros s; now rewrite V|]. now apply (rd_term P dec HR t Ft N).
  - destruct S as (t & m & E & N). now destruct (K t m E N) as (r' & _ & X & _).
  - now apply first_reads.
Qed.
End A.
