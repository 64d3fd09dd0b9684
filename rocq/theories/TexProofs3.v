(** The TeX text of polynomials, fractions and trees. *)
From Coq Require Import ZArith Znumtheory QArith Qreals Reals String Ascii Lia Lra Bool List.
From Verif Require Import Base HugeSpec AdapterModel AdapterProofs FactorizeModel RationalModel RationalSpec RationalProofs RationalProofs2 RealModel RealSpec RealProofs1 RealProofs3 PolyModel PolySpec PolyProofs6 ExprModel ExprSpec ExprProofs1 ParserModel
  TextSpec TextProofs1 TextProofs2 PrintSpec PrintProofs1 PrintProofs2 PrintProofs3 PrintProofs4 PrintProofs5 TexSpec TexProofs1 TexProofs2.
Import ListNotations.
Open Scope Z_scope.

Section A.
Variable P : penv.
Hypothesis HR : reads P.
Local Notation w := (ew (pe P)).
Lemma real_print_tex c : tex_real w c -> real_to_tex w c = Ok (real_tx c).
Proof.
  intros ((Ca & Q & A & B & C & F) & I2). pose proof (w3 P HR) as W3. pose proof (w4 P HR) as W4. destruct (canonical_split c Ca) as (m & E & S). unfold real_to_tex, real_tx. pose proof (proj1 Q) as QD.
  rewrite (eq_small P) by lia. cbn [bind]. rewrite Z.mul_0_l. destruct (Z.eqb_spec (num (coe c)) 0) as [N0|N0]; [reflexivity|]. unfold is_rational. rewrite (eq_small P) by lia. cbn [bind]. rewrite Z.mul_0_l. destruct (Z.eqb_spec (num (coe c)) 0); [contradiction|].
  rewrite E in C |- *. cbn [num den] in C. rewrite !(eq_small P) by (cbn [num den]; lia). cbn [bind num den]. destruct S as [[-> ->]|[S1 S2]]; [reflexivity|].
  destruct (Z.eqb_spec m (1 * 1)); [lia|]. cbn [bind]. destruct (Z.eqb_spec m (0 * 1)); [lia|]. cbn [bind]. assert (J : idx c = 2) by lia. rewrite J. change (2 =? 1) with false. change (2 =? 0) with false. change (2 =? 2) with true. cbn [orb bind]. rewrite (ne_small P) by lia. cbn [bind]. rewrite Z.mul_1_l.
  replace (-1 * den (coe c)) with (- den (coe c)) by lia. reflexivity.
Qed.
Lemma syms_print_tex m : Forall (tex_sym w) m -> syms_tex w m = Ok (smtx m).
Proof.
  pose proof (w4 P HR) as W4. induction 1 as [|[k q] m (N & Q & Z0 & B1 & B2) F IH]; [reflexivity|]. cbn [fst snd] in *. cbn [syms_tex smtx flat_map]. fold (smtx m). pose proof (proj1 Q) as QD. rewrite (ne_small P) by lia. cbn [bind]. rewrite IH. cbn [bind]. rewrite Z.mul_1_l. unfold sym_tx. cbn [fst snd].
  destruct (Z.eqb_spec (num q) (den q)); cbn [negb]; reflexivity.
Qed.
Lemma coef t : tex_term w t -> plain_real w (tco t). Proof. intros ((C & _) & _). exact C. Qed.
Lemma term_print_tex t : tex_term w t -> term_to_tex (pe P) t = Ok (term_tx t).
Proof.
  intros T. pose proof (coef t T) as C. destruct T as (CT & S). pose proof (w3 P HR) as W3. pose proof (w4 P HR) as W4. unfold term_to_tex, term_tx. cbv zeta. rewrite !(of_int P HR) by lia. cbn [bind]. rewrite (real_eq_unit P HR) by (auto; lia). cbn [bind]. rewrite (unit_zero P) by exact C.
  destruct (Z.eqb_spec (num (coe (tco t))) 0) as [N|N]; [reflexivity|]. unfold real_ne. rewrite !(real_eq_unit P HR) by (auto; lia). cbn [bind]. rewrite (syms_print_tex _ S). rewrite (real_print_tex _ CT). destruct (no_symbols t); [rewrite orb_true_r, andb_false_r; reflexivity|]. rewrite orb_false_r, andb_true_r. destruct (is_unit 1 (tco t)); [reflexivity|]. cbn [negb]. destruct (is_unit (-1) (tco t)); reflexivity.
Qed.
Lemma coef_plain t : tex_term w t -> plain_term w (Term (tco t) []).
Proof. intros T. split; [exact (coef t T)|]. split; constructor. Qed.
Lemma zero_tex t : tex_term w t -> term_zero (pe P) t = Ok (num (coe (tco t)) =? 0).
Proof. intros T. exact (zero_ok P HR (Term (tco t) []) (coef_plain t T)). Qed.
Lemma positive_tex t b : tex_term w t -> num (coe (tco t)) <> 0 -> term_positive (pe P) t = Ok b -> b = (0 <? num (coe (tco t))).
Proof. intros T. exact (positive_ok P HR (Term (tco t) []) b (coef_plain t T)). Qed.
Hypothesis HM : machine P.
Lemma negate_tex t n : tex_term w t -> term_negate (pe P) t = Ok n -> n = nterm t.
Proof.
  intros T H. unfold term_negate in H. apply bind_ok in H as (c & Hc & H). assert (X : term_negate (pe P) (Term (tco t) []) = Ok (Term c [])). { unfold term_negate. cbn [tco]. rewrite Hc. cbn [bind]. reflexivity. }
  apply (negate_plain P HM (Term (tco t) []) _ (coef_plain t T)) in X. injection X as ->. unfold term_make, term_normalize in H. cbn [syms tco] in H. apply bind_ok in H as (m & Hm & H). injection H as <-. apply drop_zero_id in Hm; [now subst m|].
  unfold no_zero_exponent. destruct T as (_ & S). eapply Forall_impl; [|exact S]. intros p (_ & _ & N & _). exact N.
Qed.
Lemma tex_nterm t : tex_term w t -> tex_term w (nterm t).
Proof. intros ((C & I2) & S). split; [|exact S]. split; [now apply plain_nreal|exact I2]. Qed.
Lemma tv_nterm_tex s t : tex_term w t -> tv s (nterm t) = (- tv s t)%R.
Proof. intros T. pose proof (coef t T) as C. unfold tv. cbn [nterm tco syms]. rewrite rv_nreal; [ring|]. apply C. Qed.
Lemma den_pos t : tex_term w t -> 0 < den (coe (tco t)). Proof. intros T. apply (coef t T). Qed.

Section D.
Variable dom : (string -> R) -> Prop.
Local Notation B := (TB dom).
Local Notation F := (TF dom).
Local Notation PR := (TP dom).
Local Notation SU := (TS dom).
Local Notation X := (TX dom).
Definition drel (l : poly) : Prop := forall s, dom s -> roots_ok s l.
Lemma drel_hd t l : drel (t :: l) -> forall s, dom s -> troot s t. Proof. intros H s D. specialize (H s D). now inversion H. Qed.
Lemma drel_tl t l : drel (t :: l) -> drel l. Proof. intros H s D. specialize (H s D). now inversion H. Qed.
(** ** polynomials *)
Lemma tx_rest l : tex_poly w l -> drel l -> forall r, poly_text (pe P) (term_to_tex (pe P)) false l = Ok r -> forall a x,
  (X a x -> X (a ++ r) (fun s => x s + pv s l)%R) /\ (SU a x -> SU (a ++ r) (fun s => x s + pv s l)%R).
Proof.
  induction 1 as [|t l Ht Fl IH]; intros D r H a x; cbn [poly_text] in H.
  - injection H as <-. rewrite app_nil_r. split; [apply tx_ext|apply ts_ext]; intros s _; cbn; ring.
  - rewrite (zero_tex t Ht) in H. cbn [bind] in H. pose proof (drel_tl _ _ D) as Dl. pose proof (drel_hd _ _ D) as Dt. destruct (Z.eqb_spec (num (coe (tco t))) 0) as [N|N].
    + assert (E : forall s, dom s -> (x s + pv s l = x s + pv s (t :: l))%R). { intros s _. cbn [pv fold_right]. fold (pv s l). rewrite (tv_zero s t N); [ring|]. pose proof (den_pos t Ht). lia. }
      destruct (IH Dl r H a x) as [I1 I2]. split; intros Y; [apply (tx_ext dom _ _ _ E)|apply (ts_ext dom _ _ _ E)]; auto.
    + apply bind_ok in H as (s & Hs & H). apply bind_ok in H as (r' & Hr & H). injection H as <-. apply bind_ok in Hs as (b & Hb & Hs). apply (positive_tex t b Ht N) in Hb. destruct (Z.ltb_spec 0 (num (coe (tco t)))) as [L|L]; subst b.
      * rewrite (term_print_tex t Ht) in Hs. cbn [bind] in Hs. injection Hs as <-. destruct (tp_term dom w t Ht Dt N (or_introl L)) as [RT _]. destruct (IH Dl r' Hr (a ++ txt "+" ++ term_tx t) (fun s => x s + tv s t)%R) as [I1 I2].
        assert (E : forall s, dom s -> (x s + tv s t + pv s l = x s + pv s (t :: l))%R) by (intros s _; cbn [pv fold_right]; fold (pv s l); ring). rewrite (app_assoc a).
        split; intros Y; [apply (tx_ext dom _ _ _ E), I1|apply (ts_ext dom _ _ _ E), I2]; [exact (tx_sum dom _ _ _ _ Y (tp_ts dom _ _ RT))|exact (ts_sum dom _ _ _ _ Y (tp_ts dom _ _ RT))].
      * apply bind_ok in Hs as (n & Hn & Hs). apply (negate_tex t n Ht) in Hn. subst n. rewrite (term_print_tex _ (tex_nterm _ Ht)) in Hs. cbn [bind] in Hs. injection Hs as <-.
        destruct (tp_term dom w (nterm t) (tex_nterm _ Ht) Dt) as [RT _]; [cbn; lia|cbn; lia|]. destruct (IH Dl r' Hr (a ++ txt "-" ++ term_tx (nterm t)) (fun s => x s - tv s (nterm t))%R) as [I1 I2].
        assert (E : forall s, dom s -> (x s - tv s (nterm t) + pv s l = x s + pv s (t :: l))%R) by (intros s _; rewrite (tv_nterm_tex s t Ht); cbn [pv fold_right]; fold (pv s l); ring). rewrite (app_assoc a).
        split; intros Y; [apply (tx_ext dom _ _ _ E), I1|apply (ts_ext dom _ _ _ E), I2]; [exact (tx_sub dom _ _ _ _ Y RT)|exact (ts_sub dom _ _ _ _ Y RT)].
Qed.
Lemma tex_is_zero l : tex_poly w l -> forall b, poly_is_zero (pe P) l = Ok b -> (b = true -> forall s, pv s l = 0%R) /\ (b = false -> Exists (fun t => num (coe (tco t)) <> 0) l).
Proof.
  pose proof (w4 P HR) as W4. induction 1 as [|t l Ht Fl IH]; intros b H; cbn [poly_is_zero] in H; [injection H as <-; split; [reflexivity|discriminate]|]. rewrite (of_int P HR) in H by lia. cbn [bind] in H. unfold real_ne in H. pose proof (coef t Ht) as C. rewrite (real_eq_unit P HR) in H by (auto; lia). rewrite (unit_zero P) in H by auto. cbn [bind] in H.
  destruct (Z.eqb_spec (num (coe (tco t))) 0) as [N|N]; cbn [negb] in H.
  - destruct (IH b H) as [I1 I2]. split; [intros B0 s; cbn [pv fold_right]; fold (pv s l); rewrite (I1 B0 s), (tv_zero s t N); [ring|pose proof (den_pos t Ht); lia]|]. intros B0. right. auto.
  - injection H as <-. split; [discriminate|]. intros _. now left.
Qed.
Lemma tx_first l : tex_poly w l -> drel l -> Exists (fun t => num (coe (tco t)) <> 0) l -> forall r, poly_text (pe P) (term_to_tex (pe P)) true l = Ok r -> X r (fun s => pv s l).
Proof.
  induction 1 as [|t l Ht Fl IH]; intros D Y r H; [inversion Y|]. cbn [poly_text] in H. rewrite (zero_tex t Ht) in H. cbn [bind] in H. pose proof (drel_tl _ _ D) as Dl. pose proof (drel_hd _ _ D) as Dt. destruct (Z.eqb_spec (num (coe (tco t))) 0) as [N|N].
  - assert (E : forall s, dom s -> (pv s l = pv s (t :: l))%R). { intros s _. cbn [pv fold_right]. fold (pv s l). rewrite (tv_zero s t N); [ring|]. pose proof (den_pos t Ht). lia. }
    apply (tx_ext dom _ _ _ E), IH; [exact Dl| |exact H]. inversion Y; [contradiction|assumption].
  - rewrite (term_print_tex t Ht) in H. cbn [bind] in H. apply bind_ok in H as (r' & Hr & H). injection H as <-. apply (tx_ext dom _ (fun s => tv s t + pv s l)%R); [intros s _; reflexivity|]. apply (tx_rest l Fl Dl r' Hr). destruct (Z.ltb_spec 0 (num (coe (tco t)))) as [L|L].
    + apply tp_tx, (tp_term dom w t Ht Dt N). now left.
    + destruct (Z.eq_dec (den (coe (tco t))) 1) as [D1|D1]; [|apply tp_tx, (tp_term dom w t Ht Dt N); now right].
      rewrite (term_tx_neg w t Ht) by lia. apply (tx_ext dom _ (fun s => - tv s (nterm t))%R); [intros s _; rewrite (tv_nterm_tex s t Ht); ring|]. apply tx_neg. apply (tp_term dom w (nterm t) (tex_nterm _ Ht) Dt); cbn; lia.
Qed.
Definition tex_at (p : place) (l : text) (v : (string -> R) -> R) : Prop := match p with Single => B l v | Factors => PR l v | Sums => SU l v | Start => X l v end.
Lemma base_at p t v : B t v -> tex_at p t v.
Proof. intros H. destruct p; cbn [tex_at]; [exact H|now apply tb_tp|now apply tp_ts, tb_tp|now apply tb_tx]. Qed.
Lemma at_ext p t v v' : (forall s, dom s -> v s = v' s) -> tex_at p t v -> tex_at p t v'.
Proof. intros E. destruct p; cbn [tex_at]; [apply tb_ext|apply tp_ext|apply ts_ext|apply tx_ext]; exact E. Qed.
Lemma tex_poly_at l r p : tex_poly w l -> drel l -> poly_to_tex (pe P) l = Ok r -> tex_shape p l -> tex_at p r (fun s => pv s l).
Proof.
  intros Fl D H Sh. unfold poly_to_tex, poly_print in H. destruct l as [|t0 l0].
  { injection H as <-. apply base_at, tb_zero. }
  destruct Sh as [Sh|Sh]; [discriminate|]. remember (t0 :: l0) as l eqn:El. apply bind_ok in H as (b & Hb & H). destruct (tex_is_zero l Fl b Hb) as [Z1 Z2]. destruct b.
  { injection H as <-. apply base_at. apply (tb_ext dom _ (fun _ => 0%R)); [intros s _; symmetry; now apply Z1|apply tb_zero]. }
  specialize (Z2 eq_refl). destruct Sh as [Sh|Sh]. { rewrite Sh in Z2. inversion Z2 as [? ? Q|? ? Q]; [cbn in Q; lia|inversion Q]. }
  assert (K : forall t m, l = t :: m -> positive t -> exists r', r = term_tx t ++ r' /\ SU r (fun s => pv s l) /\ (m = [] -> r' = [])).
  { intros t m E N. rewrite E in Fl, D, H |- *. inversion Fl as [|? ? Ft Fm]; subst. cbn [poly_text] in H. rewrite (zero_tex t Ft) in H. cbn [bind] in H. unfold positive in N. destruct (Z.eqb_spec (num (coe (tco t))) 0); [lia|]. rewrite (term_print_tex t Ft) in H. cbn [bind] in H. apply bind_ok in H as (r' & Hr & H). injection H as <-.
    exists r'. split; [reflexivity|]. split; [|intros ->; cbn in Hr; now injection Hr]. apply (ts_ext dom _ (fun s => tv s t + pv s m)%R); [intros s _; reflexivity|]. apply (tx_rest m Fm (drel_tl _ _ D) r' Hr). apply tp_ts, (tp_term dom w t Ft (drel_hd _ _ D)); [assumption|now left]. }
  assert (K1 : forall t, l = [t] -> positive t -> r = term_tx t /\ tex_term w t /\ (forall s, dom s -> troot s t) /\ forall s, pv s l = tv s t).
  { intros t E N. destruct (K t [] E N) as (r' & -> & _ & Y). rewrite (Y eq_refl), app_nil_r. split; [reflexivity|]. rewrite E in Fl, D |- *. split; [now inversion Fl|]. split; [exact (drel_hd _ _ D)|]. intros s. cbn [pv fold_right]. ring. }
  destruct p; cbn [tex_at].
  - destruct Sh as (t & E & FT). destruct (K1 t E (proj1 FT)) as (-> & Ft & Dt & V). apply (tb_ext dom _ (fun s => tv s t)); [intros s _; now rewrite V|]. pose proof (proj1 FT) as N. unfold positive in N. apply (tp_term dom w t Ft Dt); [lia|now left|exact FT].
  - destruct Sh as (t & E & N). destruct (K1 t E N) as (-> & Ft & Dt & V). apply (tp_ext dom _ (fun s => tv s t)); [intros s _; now rewrite V|]. unfold positive in N. apply (tp_term dom w t Ft Dt); [lia|now left].
  - destruct Sh as (t & m & E & N). now destruct (K t m E N) as (r' & _ & Y & _).
  - now apply tx_first.
Qed.
(** ** fractions *)
Definition frel (f : frac) : Prop := drel (fnum f) /\ drel (fden f).
Lemma den_one_tex d b : tex_poly w d -> den_is_one (pe P) d = Ok b -> (b = true <-> d = [term_const (rint 1)]).
Proof.
  pose proof (w4 P HR) as W4. intros Fd H. unfold den_is_one in H. destruct d as [|t [|t' d]]; try (injection H as <-; split; [discriminate|intros Y; discriminate Y]).
  inversion Fd as [|? ? Ht _]; subst. pose proof (coef t Ht) as C. rewrite (of_int P HR) in H by lia. cbn [bind] in H. rewrite (real_eq_unit P HR) in H by (auto; lia). cbn [bind] in H. injection H as <-. rewrite andb_true_iff. rewrite (unit_rint P _ 1 C (or_introl eq_refl)).
  destruct t as [c m]. unfold no_symbols. cbn [tco syms]. split; [intros [-> Y]; destruct m; [reflexivity|discriminate]|]. intros Y. injection Y as -> ->. auto.
Qed.
Lemma tex_frac_at f t : tex_frac w f -> frel f -> frac_to_tex (pe P) f = Ok t ->
  (~ undivided f -> B t (fun s => fv s f)) /\ (undivided f -> forall p, tex_shape p (fnum f) -> tex_at p t (fun s => fv s f)) /\ (undivided f \/ ~ undivided f \/ fnum f = []).
Proof.
  intros (Fn & Fd) (Dn & Dd) H. unfold frac_to_tex in H. destruct (fnum f) as [|t0 l0] eqn:En.
  - injection H as <-. assert (Z0 : B (txt "0") (fun s => fv s f)) by (apply (tb_ext dom _ (fun _ => 0%R)); [intros s _; unfold fv; rewrite En; cbn [pv fold_right]; unfold Rdiv; now rewrite Rmult_0_l|apply tb_zero]).
    split; [intros _; exact Z0|]. split; [intros _ p _; now apply base_at|auto].
  - rewrite <- En in *. clear En t0 l0. apply bind_ok in H as (b & Hb & H). apply (den_one_tex _ _ Fd) in Hb. destruct b.
    + assert (U : undivided f) by now apply Hb. split; [contradiction|]. split; [|auto]. intros _ p Sh. apply (at_ext p t (fun s => pv s (fnum f))); [intros s _; unfold fv; rewrite U, pv_one; field|]. now apply tex_poly_at.
    + assert (U : ~ undivided f) by (intros Y; apply Hb in Y; discriminate). split; [|split; [contradiction|auto]]. intros _. apply bind_ok in H as (n & Hn & H). apply bind_ok in H as (d & Hd & H). injection H as <-. unfold fv.
      apply (tb_frac dom n d (fun s => pv s (fnum f)) (fun s => pv s (fden f))); [apply (tex_poly_at _ _ Start Fn Dn Hn)|apply (tex_poly_at _ _ Start Fd Dd Hd)]; right; right; exact I.
Qed.
Lemma tx_frac f t : tex_frac w f -> frel f -> frac_to_tex (pe P) f = Ok t -> X t (fun s => fv s f).
Proof.
  intros Ff Df H. destruct (tex_frac_at f t Ff Df H) as (A1 & A2 & [U|[U|U]]).
  - apply (A2 U Start). right. right. exact I.
  - now apply tb_tx, A1.
  - unfold frac_to_tex in H. rewrite U in H. injection H as <-. apply tb_tx. apply (tb_ext dom _ (fun _ => 0%R)); [intros s _; unfold fv; rewrite U; cbn [pv fold_right]; unfold Rdiv; now rewrite Rmult_0_l|apply tb_zero].
Qed.
Lemma paren_x b t v : X t v -> X (in_parens b t) v. Proof. intros H. destruct b; cbn [in_parens]; [now apply tb_tx, tb_paren|exact H]. Qed.
Lemma tex_leaf f t p b : tex_frac w f -> frel f -> tex_binds p f -> frac_to_tex (pe P) f = Ok t -> output_need_paren (pe P) f = Ok b -> tex_at p (in_parens b t) (fun s => fv s f).
Proof.
  intros Ff Df Bi H N. unfold output_need_paren in N. apply bind_ok in N as (o & Ho & N). injection N as <-. pose proof Ff as (_ & Fd). apply (den_one_tex _ _ Fd) in Ho. destruct (tex_frac_at f t Ff Df H) as (A1 & A2 & _). destruct o; cbn [negb in_parens].
  - assert (U : undivided f) by now apply Ho. apply A2; [exact U|]. destruct Bi as [Bi|Bi]; [contradiction|exact Bi].
  - apply base_at, tb_paren. now apply (tx_frac f t).
Qed.
(** ** trees *)
Lemma is_pm_cases c : is_pm c = true -> c = "+"%char \/ c = "-"%char. Proof. unfold is_pm. rewrite orb_true_iff, !Ascii.eqb_eq. auto. Qed.
Fixpoint erel (e : expr) : Prop := match e with Leaf f => frel f | Op _ l r => erel l /\ erel r end.
Definition op_tex (c : ascii) (t : text) (v : (string -> R) -> R) : Prop := if is_pm c then SU t v else if Ascii.eqb c "*" then PR t v else if Ascii.eqb c "/" then B t v else F t v.
Definition tree_tex (start : bool) (c : ascii) (t : text) (v : (string -> R) -> R) : Prop := if (start && is_pm c)%bool then X t v else op_tex c t v.
Lemma op_sum c t v : op_tex c t v -> SU t v /\ (is_pm c = false -> PR t v).
Proof.
  unfold op_tex. destruct (is_pm c); [intros H; split; [exact H|discriminate]|]. destruct (Ascii.eqb c "*"); [intros H; split; [now apply tp_ts|auto]|]. destruct (Ascii.eqb c "/"); intros H; (split; [apply tp_ts|intros _]); [now apply tb_tp|now apply tb_tp|now apply tf_tp|now apply tf_tp].
Qed.
Lemma tree_x start c t v : tree_tex start c t v -> X t v.
Proof. unfold tree_tex. destruct (start && is_pm c)%bool; [auto|]. intros H. apply ts_tx. now apply op_sum in H. Qed.
Lemma tex_tree e : forall start, tex_fits w start e -> erel e -> forall t, expr_to_tex (pe P) e = Ok t -> match e with Leaf _ => X t (fun s => ev s e) | Op c _ _ => tree_tex start c t (fun s => ev s e) end.
Proof.
  induction e as [f|c l IHl r IHr]; intros start Ft De t H; [now apply tx_frac|]. cbn [tex_fits] in Ft. destruct Ft as (O & Fl & Fr). destruct De as (Dl & Dr). cbn [expr_to_tex] in H.
  apply bind_ok in H as (pl & Hpl & H). apply bind_ok in H as (sl & Hsl & H). apply bind_ok in H as (pr & Hpr & H). apply bind_ok in H as (sr & Hsr & H). injection H as <-.
  set (vl := fun s => ev s l). set (vr := fun s => ev s r).
  assert (XL : X (in_parens pl sl) vl /\ (is_pm c = true -> start = false -> SU (in_parens pl sl) vl) /\ (c = "*"%char -> PR (in_parens pl sl) vl) /\ (c = "^"%char -> B (in_parens pl sl) vl)).
  { destruct l as [f|lc l1 l2].
    - destruct Fl as (Ff & Bi). split; [apply paren_x; now apply (tx_frac f)|]. cbn [paren_left] in Hpl. split; [|split].
      + intros C S. subst start. destruct Bi as [->|Bi]; [discriminate|]. rewrite C in Bi. exact (tex_leaf f sl Sums pl Ff Dl Bi Hsl Hpl).
      + intros ->. destruct Bi as [Bi|Bi]; [discriminate|]. exact (tex_leaf f sl Factors pl Ff Dl Bi Hsl Hpl).
      + intros ->. destruct Bi as [Bi|Bi]; [discriminate|]. exact (tex_leaf f sl Single pl Ff Dl Bi Hsl Hpl).
    - specialize (IHl _ Fl Dl _ Hsl). cbv beta iota in IHl. fold vl in IHl. pose proof (tree_x _ _ _ _ IHl) as XX. split; [now apply paren_x|]. cbn [paren_left] in Hpl. injection Hpl as Hpl. split; [|split].
      + intros C S. subst start. unfold paren_l in IHl. destruct (is_pm_cases c C) as [-> | ->]; cbn in Hpl; subst pl; cbn in IHl |- *; now apply op_sum in IHl.
      + intros ->. cbn in Hpl. subst pl. destruct (is_pm lc) eqn:E; cbn [in_parens]; [now apply tb_tp, tb_paren|]. unfold tree_tex in IHl. rewrite E, andb_false_r in IHl. exact (proj2 (op_sum _ _ _ IHl) E).
      + intros ->. cbn in Hpl. subst pl. cbn [in_parens]. now apply tb_paren. }
  assert (XR : X (in_parens pr sr) vr /\ (c = "+"%char -> SU (in_parens pr sr) vr) /\ (c = "-"%char -> PR (in_parens pr sr) vr) /\ (c = "*"%char -> PR (in_parens pr sr) vr)).
  { destruct r as [f|rc r1 r2].
    - destruct Fr as (Ff & Bi). split; [apply paren_x; now apply (tx_frac f)|]. cbn [paren_right] in Hpr. split; [|split]; intros ->; (destruct Bi as [[Bi|Bi]|Bi]; [discriminate|discriminate|]).
      + exact (tex_leaf f sr Sums pr Ff Dr Bi Hsr Hpr).
      + exact (tex_leaf f sr Factors pr Ff Dr Bi Hsr Hpr).
      + exact (tex_leaf f sr Factors pr Ff Dr Bi Hsr Hpr).
    - specialize (IHr _ Fr Dr _ Hsr). cbv beta iota in IHr. fold vr in IHr. pose proof (tree_x _ _ _ _ IHr) as XX. split; [now apply paren_x|]. cbn [paren_right] in Hpr. injection Hpr as Hpr. split; [|split]; intros ->; cbn in Hpr; subst pr.
      + cbn in IHr. cbn [in_parens]. now apply op_sum in IHr.
      + destruct (is_pm rc) eqn:E; cbn [in_parens]; [now apply tb_tp, tb_paren|]. unfold tree_tex in IHr. rewrite E, andb_false_r in IHr. exact (proj2 (op_sum _ _ _ IHr) E).
      + destruct (is_pm rc) eqn:E; cbn [in_parens]; [now apply tb_tp, tb_paren|]. unfold tree_tex in IHr. rewrite E, andb_false_r in IHr. exact (proj2 (op_sum _ _ _ IHr) E). }
  destruct XL as (L1 & L2 & L3 & L4). destruct XR as (R1 & R2 & R3 & R4). clear Fl Fr IHl IHr Hsl Hsr Hpl Hpr. set (tl := in_parens pl sl) in *. set (tr := in_parens pr sr) in *.
  assert (C : c = "+"%char \/ c = "-"%char \/ c = "*"%char \/ c = "/"%char \/ c = "^"%char).
  { unfold is_opchar, is_pm, is_md in O. rewrite !orb_true_iff, !Ascii.eqb_eq in O. tauto. }
  destruct C as [->|[->|[->|[->| ->]]]].
  - specialize (L2 eq_refl). specialize (R2 eq_refl). unfold tree_tex, op_tex. cbn [is_pm Ascii.eqb Bool.eqb orb andb is_md txt list_ascii_of_string app]. rewrite app_nil_r. destruct start; cbn [andb].
    + exact (tx_sum dom tl tr vl vr L1 R2).
    + exact (ts_sum dom tl tr vl vr (L2 eq_refl) R2).
  - specialize (L2 eq_refl). specialize (R3 eq_refl). unfold tree_tex, op_tex. cbn [is_pm Ascii.eqb Bool.eqb orb andb is_md txt list_ascii_of_string app]. rewrite app_nil_r. destruct start; cbn [andb].
    + exact (tx_sub dom tl tr vl vr L1 R3).
    + exact (ts_sub dom tl tr vl vr (L2 eq_refl) R3).
  - unfold tree_tex, op_tex. rewrite andb_false_r. cbn [is_pm Ascii.eqb Bool.eqb orb andb]. rewrite app_nil_r. exact (tp_times dom tl tr vl vr (L3 eq_refl) (R4 eq_refl)).
  - unfold tree_tex, op_tex. rewrite andb_false_r. exact (tb_frac dom tl tr vl vr L1 R1).
  - unfold tree_tex, op_tex. rewrite andb_false_r. exact (tf_pow dom tl tr vl vr (L4 eq_refl) R1).
Qed.
End D.
Theorem poly_typeset l t : tex_poly w l -> poly_to_tex (pe P) l = Ok t -> exists f, means t f /\ forall s, roots_ok s l -> value s f = pv s l.
Proof. intros Fl H. apply (tx_means (fun s => roots_ok s l)). apply (tex_poly_at _ l t Start Fl); [intros s D; exact D|exact H|right; right; exact I]. Qed.
Theorem frac_typeset f t : tex_frac w f -> frac_to_tex (pe P) f = Ok t -> exists g, means t g /\ forall s, froots_ok s f -> value s g = fv s f.
Proof. intros Ff H. apply (tx_means (fun s => froots_ok s f)). apply (tx_frac _ f t Ff); [split; intros s D; apply D|exact H]. Qed.
Lemma erel_self e : forall dom : (string -> R) -> Prop, (forall s, dom s -> eroots_ok s e) -> erel dom e.
Proof. induction e as [f|c l IHl r IHr]; intros dom D; [split; intros s Ds; apply (D s Ds)|]. split; [apply IHl|apply IHr]; intros s Ds; apply (D s Ds). Qed.
Theorem tree_typeset e t : tex_fits w true e -> expr_to_tex (pe P) e = Ok t -> exists g, means t g /\ forall s, eroots_ok s e -> value s g = ev s e.
Proof.
  intros Fe H. apply (tx_means (fun s => eroots_ok s e)). pose proof (tex_tree (fun s => eroots_ok s e) e true Fe (erel_self e _ (fun s D => D)) t H) as Y. destruct e as [f|c l r]; [exact Y|]. now apply tree_x in Y.
Qed.
End A.
