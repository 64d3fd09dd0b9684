(** Proofs: polynomial expressions are equal as functions exactly when their simplified texts are equal. *)
From Coq Require Import ZArith Znumtheory QArith Qreals Reals String Ascii Lia Lra Bool List Permutation Sorted.
From Verif Require Import Base HugeSpec AdapterModel AdapterProofs RationalModel RationalSpec RationalProofs RationalProofs2 RealModel RealSpec RealProofs1 RealProofs3 PolyModel PolySpec PolyProofs1 PolyProofs2 PolyProofs3 PolyProofs4 PolyProofs6 ExprModel ExprSpec ExprProofs1 ParserModel TextSpec TextProofs1 TextProofs2 PrintSpec PrintProofs5 RingSpec RingProofs1 RingProofs2 RingProofs3 RingProofs4.
Import ListNotations.
Open Scope Z_scope.

Lemma sorted_ext {A} (Rl : A -> A -> Prop) : (forall x y, Rl x y -> Rl y x -> False) -> forall a b, StronglySorted Rl a -> StronglySorted Rl b -> (forall x, In x a <-> In x b) -> a = b.
Proof.
  intros AS. induction a as [|x a IH]; intros [|y b] Sa Sb H.
  - reflexivity.
  - exfalso. apply (proj2 (H y)). now left.
  - exfalso. apply (proj1 (H x)). now left.
  - inversion Sa as [|? ? Sa' Fa]; subst. inversion Sb as [|? ? Sb' Fb]; subst. rewrite Forall_forall in Fa, Fb. assert (x = y).
    { destruct (proj1 (H x) (or_introl eq_refl)) as [E|I]; [congruence|]. destruct (proj2 (H y) (or_introl eq_refl)) as [E|J]; [exact E|]. exfalso. apply (AS x y); auto. }
    subst y. f_equal. apply IH; try assumption. intros z. split; intros I.
    + destruct (proj1 (H z) (or_intror I)) as [E|J]; [|exact J]. subst z. exfalso. apply (AS x x); auto.
    + destruct (proj2 (H z) (or_intror I)) as [E|J]; [|exact J]. subst z. exfalso. apply (AS x x); auto.
Qed.
Definition co (t : term) : Z := num (coe (tco t)).
Definition nz (l : poly) : poly := filter (fun t => negb (co t =? 0)) l.
Definition pairs (l : poly) : list (R * smap) := map (fun t => (IZR (co t), syms t)) l.
Lemma csum_app m a b : csum m (a ++ b) = (csum m a + csum m b)%R.
Proof. induction a as [|[c x] a IH]; cbn [app]; [cbn; ring|]. rewrite !csum_cons, IH. ring. Qed.
Lemma lin_app s a b : lin s (a ++ b) = (lin s a + lin s b)%R.
Proof. induction a as [|[c x] a IH]; cbn [app]; [cbn; ring|]. rewrite !lin_cons, IH. ring. Qed.
Definition opp (l : list (R * smap)) : list (R * smap) := map (fun p => (- fst p, snd p)%R) l.
Lemma csum_opp m l : csum m (opp l) = (- csum m l)%R.
Proof. induction l as [|[c x] l IH]; [cbn; ring|]. change (opp ((c, x) :: l)) with ((- c, x)%R :: opp l). rewrite !csum_cons, IH. destruct (smap_dec x m); ring. Qed.
Lemma lin_opp s l : lin s (opp l) = (- lin s l)%R.
Proof. induction l as [|[c x] l IH]; [cbn; ring|]. change (opp ((c, x) :: l)) with ((- c, x)%R :: opp l). rewrite !lin_cons, IH. ring. Qed.
Lemma csum_absent m l : (forall t, In t l -> syms t <> m) -> csum m (pairs l) = 0%R.
Proof. induction l as [|t l IH]; intros H; [reflexivity|]. change (pairs (t :: l)) with ((IZR (co t), syms t) :: pairs l). rewrite csum_cons. destruct (smap_dec (syms t) m) as [Q|_]; [exfalso; apply (H t); [now left|exact Q]|]. rewrite IH; [ring|]. intros u I. apply H. now right. Qed.

Section G.
  Variable P : penv.
  Hypothesis HR : reads P.
  Hypothesis HM : machine P.
  Hypothesis HS : sort_orders P.
  Local Notation E := (pe P).
  Local Notation w := (ew (pe P)).
  Local Notation iterm := (iterm P name_ok).
  Local Notation ipoly := (ipoly P name_ok).
  Local Notation ifrac := (ifrac P).

  Lemma iterm_eta t : iterm t -> t = Term (rint (co t)) (syms t).
  Proof. intros [(n & Hn & _) _]. destruct t as [c m]. cbn [tco syms] in *. unfold co. cbn [tco]. subst c. reflexivity. Qed.
  Lemma pv_lin s l : Forall iterm l -> pv s l = lin s (pairs l).
  Proof.
    induction 1 as [|t l T F IH]; [reflexivity|]. rewrite pv_cons, IH. change (pairs (t :: l)) with ((IZR (co t), syms t) :: pairs l). rewrite lin_cons. f_equal. unfold tv. f_equal. destruct T as [(n & Hn & _) _]. unfold co. rewrite Hn. cbn [rint coe num]. apply rv_int.
  Qed.
  Lemma desc_absent t l : Forall iterm l -> Forall (fun b => syms_cmp (syms t) (syms b) = Gt) l -> iterm t -> forall u, In u l -> syms u <> syms t.
  Proof.
    destruct syms_total as (S1 & _). intros F G T u I Q. rewrite Forall_forall in G. specialize (G u I). rewrite Q, S1 in G; [discriminate|]. apply (iterm_qok P name_ok t T).
  Qed.
  Lemma csum_in l : ipoly l -> forall t, In t l -> csum (syms t) (pairs l) = IZR (co t).
  Proof.
    intros (F & D & _). revert F. induction D as [|u l D IH G]; intros F t I; [contradiction|]. inversion F as [|? ? Tu Tl]; subst. change (pairs (u :: l)) with ((IZR (co u), syms u) :: pairs l). rewrite csum_cons. destruct I as [-> |I].
    - destruct (smap_dec (syms t) (syms t)); [|contradiction]. rewrite csum_absent; [ring|]. intros v J. apply (desc_absent t l); assumption.
    - destruct (smap_dec (syms u) (syms t)) as [Q|_]; [exfalso; apply (desc_absent u l Tl G Tu t I); congruence|]. rewrite IH by assumption. ring.
  Qed.
  Lemma ipoly_mono l : ipoly l -> Forall (fun p => mono (snd p)) (pairs l).
  Proof. intros (F & _). unfold pairs. rewrite Forall_map. eapply Forall_impl; [|exact F]. intros t T. cbn [snd]. exact (iterm_mono P name_ok t T). Qed.
  Lemma desc_filter f l : desc l -> desc (filter f l).
  Proof. intros D. induction D as [|u l D IH G]; [constructor|]. cbn [filter]. destruct (f u); [|exact IH]. constructor; [exact IH|]. now apply forall_filter. Qed.
  Lemma nz_unique a b : ipoly a -> ipoly b -> (forall s, pos s -> pv s a = pv s b) -> nz a = nz b.
  Proof.
    intros A B H. assert (C : forall m, csum m (pairs a) = csum m (pairs b)).
    { intros m. assert (Z : csum m (pairs a ++ opp (pairs b)) = 0%R).
      { apply (independent (length (pairs a ++ opp (pairs b)))); [lia| |].
        - apply Forall_app. split; [now apply ipoly_mono|]. unfold opp. rewrite Forall_map. cbn [snd]. now apply ipoly_mono.
        - intros s S. rewrite lin_app, lin_opp. rewrite <- !pv_lin; [|apply B|apply A]. rewrite (H s S). ring. }
      rewrite csum_app, csum_opp in Z. lra. }
    assert (X : forall a b, ipoly a -> ipoly b -> (forall m, csum m (pairs a) = csum m (pairs b)) -> forall t, In t (nz a) -> In t (nz b)).
    { clear. intros a b A B C t I. apply filter_In in I as [I NZ]. pose proof (csum_in a A t I) as V. rewrite C in V. destruct (Z.eqb_spec (co t) 0) as [|N]; [discriminate|].
      destruct (Classical_Prop.classic (exists u, In u b /\ syms u = syms t)) as [(u & J & Q)|NO].
      - pose proof (csum_in b B u J) as W. rewrite Q, V in W. apply eq_IZR in W. assert (t = u). { destruct A as (FA & _). destruct B as (FB & _). rewrite Forall_forall in FA, FB. transitivity (Term (rint (co t)) (syms t)); [exact (iterm_eta t (FA t I))|]. rewrite W, <- Q. symmetry. exact (iterm_eta u (FB u J)). } subst u. apply filter_In. split; [exact J|]. destruct (Z.eqb_spec (co t) 0); [contradiction|reflexivity].
      - exfalso. rewrite csum_absent in V; [apply N; apply eq_IZR; now rewrite <- V|]. intros u J Q. apply NO. eauto. }
    apply (sorted_ext (fun a b => syms_cmp (syms a) (syms b) = Gt)).
    - destruct syms_total as (_ & _ & S3 & _). intros x y Q1 Q2. rewrite (S3 (syms x) (syms y)), Q1 in Q2. discriminate.
    - apply desc_filter, A.
    - apply desc_filter, B.
    - intros t. split; apply X; auto.
  Qed.
  Lemma nz_value s l : Forall iterm l -> pv s (nz l) = pv s l.
  Proof.
    induction 1 as [|t l T F IH]; [reflexivity|]. unfold nz in *. cbn [filter]. rewrite pv_cons, <- IH. destruct (Z.eqb_spec (co t) 0) as [Z|N]; cbn [negb]; [|now rewrite pv_cons]. unfold tv. destruct T as [(n & Hn & _) _]. unfold co in Z. rewrite Hn in *. cbn [rint coe num] in Z. subst n. rewrite rv_int. ring.
  Qed.

  (** ** printing *)
  Lemma eq_zero_int n z : real_eq w (rint n) (rint 0) = Ok z -> z = (n =? 0).
  Proof.
    intros H. unfold real_eq in H. cbn [rint coe rad idx] in H. apply bind_ok in H as (c & Hc & H). apply rat_eq_inv in Hc. cbn [num den] in Hc. rewrite Z.mul_1_r in Hc. change (0 * 1) with 0 in Hc. subst c. destruct (n =? 0); cbn [negb] in H; [|congruence].
    apply bind_ok in H as (r & Hr & H). apply rat_eq_inv in Hr. cbn in Hr. subst r. cbn in H. congruence.
  Qed.
  Lemma eq_zero t z : iterm t -> real_eq w (tco t) (rint 0) = Ok z -> z = (co t =? 0).
  Proof. intros [(n & Hn & _) _] H. unfold co. rewrite Hn in *. now apply eq_zero_int in H. Qed.
  Lemma zero_i t z : iterm t -> term_zero E t = Ok z -> z = (co t =? 0).
  Proof. intros T H. pose proof (w4 P HR). unfold term_zero in H. rewrite (of_int P HR) in H by lia. cbn [bind] in H. now apply eq_zero in H. Qed.
  Lemma text_nz g : forall l first t, Forall iterm l -> poly_text E g first l = Ok t -> poly_text E g first (nz l) = Ok t.
  Proof.
    induction l as [|u l IH]; intros first t F H; [exact H|]. inversion F as [|? ? Tu Tl]; subst. cbn [poly_text] in H. apply bind_ok in H as (z & Hz & H). pose proof (zero_i u z Tu Hz) as Z. unfold nz. cbn [filter]. fold (nz l). rewrite <- Z. destruct z; cbn [negb]; [now apply IH|].
    cbn [poly_text]. rewrite Hz. cbn [bind]. apply bind_ok in H as (s & Hs & H). rewrite Hs. cbn [bind]. apply bind_ok in H as (r & Hr & H). apply IH in Hr; [|exact Tl]. rewrite Hr. exact H.
  Qed.
  Lemma is_zero_nz : forall l z, Forall iterm l -> poly_is_zero E l = Ok z -> (z = true <-> nz l = []).
  Proof.
    pose proof (w4 P HR) as W4. induction l as [|u l IH]; intros z F H; cbn [poly_is_zero] in H; [injection H as <-; split; reflexivity|]. inversion F as [|? ? Tu Tl]; subst. rewrite (of_int P HR) in H by lia. cbn [bind] in H. apply bind_ok in H as (n & Hn & H). unfold real_ne in Hn. apply bind_ok in Hn as (e & He & Hn). injection Hn as <-. apply eq_zero in He; [|exact Tu].
    unfold nz. cbn [filter]. fold (nz l). rewrite <- He. destruct e; cbn [negb] in *; [now apply IH|]. injection H as <-. split; discriminate.
  Qed.
  Lemma print_nz g l t : ipoly l -> poly_print E g l = Ok t -> (nz l = [] /\ t = txt "0") \/ (nz l <> [] /\ poly_text E g true (nz l) = Ok t).
  Proof.
    intros (F & _ & NE) H. unfold poly_print in H. destruct l as [|u l]; [contradiction|]. apply bind_ok in H as (z & Hz & H). apply is_zero_nz in Hz; [|exact F]. destruct z; [left; split; [now apply Hz|congruence]|]. right. split; [intros X; apply Hz in X; discriminate|]. now apply text_nz.
  Qed.
  Lemma one_is b : den_is_one E [term_const (rint 1)] = Ok b -> b = true.
  Proof.
    pose proof (w4 P HR). unfold den_is_one. rewrite (of_int P HR) by lia. cbn [bind term_const tco no_symbols syms]. intros H'. apply bind_ok in H' as (e & He & H'). apply real_eq_same in He as ->. now injection H' as <-.
  Qed.
  Lemma frac_string f t : ifrac f -> frac_to_string E f = Ok t -> poly_print E (term_to_string E) (fnum f) = Ok t.
  Proof. intros (D & (_ & _ & NE)) H. unfold frac_to_string in H. destruct (fnum f) as [|u l] eqn:Q; [contradiction|]. rewrite D in H. apply bind_ok in H as (o & Ho & H). apply one_is in Ho as ->. exact H. Qed.
  Lemma frac_tex f t : ifrac f -> frac_to_tex E f = Ok t -> poly_print E (term_to_tex E) (fnum f) = Ok t.
  Proof. intros (D & (_ & _ & NE)) H. unfold frac_to_tex in H. destruct (fnum f) as [|u l] eqn:Q; [contradiction|]. rewrite D in H. apply bind_ok in H as (o & Ho & H). apply one_is in Ho as ->. exact H. Qed.
  Lemma print_unique g a b t u : ipoly a -> ipoly b -> nz a = nz b -> poly_print E g a = Ok t -> poly_print E g b = Ok u -> t = u.
  Proof.
    intros A B Q H1 H2. apply print_nz in H1, H2; try assumption. rewrite Q in H1. destruct H1 as [[N1 ->]|[N1 T1]], H2 as [[N2 ->]|[N2 T2]]; try contradiction; congruence.
  Qed.
  Lemma numeral_nz n : 0 < n -> exists c r, numeral n = c :: r /\ c <> "0"%char.
  Proof.
    intros N. destruct (numeral_spec n) as [(NE & _ & Z) V]; [lia|]. destruct (numeral n) as [|c r] eqn:Q; [contradiction|]. exists c, r. split; [reflexivity|]. intros ->. cbn [hd] in Z. specialize (Z eq_refl). rewrite Z in V. cbn in V. lia.
  Qed.
  Lemma int_text_nz n : n <> 0 -> exists c r, adapter_to_string n = c :: r /\ c <> "0"%char.
  Proof.
    intros N. destruct (to_string_text n) as (sg & -> & V & S). destruct (numeral_nz (Z.abs n)) as (c & r & -> & C); [lia|]. destruct sg as [[|]|]; [contradiction S; reflexivity| |]; cbn [sign_text app].
    - eexists _, _. split; [reflexivity|discriminate].
    - eauto.
  Qed.
  Lemma name_nz k : name_ok k -> exists c r, name_text k = c :: r /\ c <> "0"%char.
  Proof.
    intros [(c & -> & C)|(L & _)]; unfold name_text.
    - cbn. exists c, []. split; [reflexivity|]. intros ->. discriminate.
    - destruct (Nat.eqb_spec (String.length k) 1); [contradiction|]. cbn. eexists _, _. split; [reflexivity|discriminate].
  Qed.
  Lemma rat_text_i n : rat_to_string (Rat n 1) = adapter_to_string n. Proof. reflexivity. Qed.
  Lemma term_text_nz u s : iterm u -> co u <> 0 -> term_to_string E u = Ok s -> exists c r, s = c :: r /\ c <> "0"%char.
  Proof.
    intros T N H. pose proof (w4 P HR) as W4. unfold term_to_string in H. cbv zeta in H. rewrite !(of_int P HR) in H by lia. cbn [bind] in H. apply bind_ok in H as (e & He & H). apply eq_zero in He; [|exact T]. destruct (Z.eqb_spec (co u) 0); [contradiction|]. subst e. apply bind_ok in H as (n1 & Hn1 & H). apply bind_ok in H as (pre & Hp & H). apply bind_ok in H as (y & Hy & H). injection H as <-.
    destruct (n1 || no_symbols u)%bool eqn:Q.
    - apply bind_ok in Hp as (m1 & _ & Hp). destruct (m1 && negb (no_symbols u))%bool; [injection Hp as <-; cbn; eexists _, _; split; [reflexivity|discriminate]|].
      rewrite (iterm_eta u T) in Hp. cbn [tco] in Hp. unfold real_to_string in Hp. cbn [rint coe rad idx] in Hp. apply bind_ok in Hp as (c0 & Hc0 & Hp). apply rat_eq_inv in Hc0. cbn [num den] in Hc0. rewrite Z.mul_1_r in Hc0. change (0 * 1) with 0 in Hc0. destruct (Z.eqb_spec (co u) 0); [contradiction|]. subst c0. apply bind_ok in Hp as (q & Hq & Hp).
      assert (q = true) as ->.
      { unfold is_rational in Hq. cbn [coe rad idx] in Hq. apply bind_ok in Hq as (d0 & _ & Hq). destruct d0; [congruence|]. apply bind_ok in Hq as (d1 & Hd & Hq). apply rat_eq_inv in Hd. cbn in Hd. subst d1. congruence. }
      injection Hp as <-. rewrite rat_text_i. destruct (int_text_nz (co u) N) as (c & r & -> & C). cbn [app]. eauto.
    - injection Hp as <-. apply orb_false_iff in Q as [_ Q]. unfold no_symbols in Q. destruct T as (_ & _ & F). destruct (syms u) as [|[k v] m]; [discriminate|]. inversion F as [|? ? (NK & _) _]; subst. cbn [fst] in NK. cbn [syms_text] in Hy. apply bind_ok in Hy as (q1 & _ & Hy). apply bind_ok in Hy as (r0 & _ & Hy). injection Hy as <-. destruct q1; [cbn; eexists _, _; split; [reflexivity|discriminate]|]. destruct (name_nz k NK) as (c & r & -> & C). cbn [app]. eauto.
  Qed.
  Lemma text_zero l t : ipoly l -> poly_print E (term_to_string E) l = Ok t -> (t = txt "0" <-> nz l = []).
  Proof.
    intros I H. pose proof I as (F & _). apply print_nz in H; [|exact I]. destruct H as [[A ->]|[A T]]; [tauto|]. split; [|contradiction]. intros ->. exfalso. destruct (nz l) as [|u r] eqn:Q; [contradiction|]. assert (J : In u (nz l)) by (rewrite Q; now left). apply filter_In in J as [J NZ]. rewrite Forall_forall in F. specialize (F u J). destruct (Z.eqb_spec (co u) 0) as [|N]; [discriminate|].
    cbn [poly_text] in T. apply bind_ok in T as (z & Hz & T). apply zero_i in Hz; [|exact F]. destruct (Z.eqb_spec (co u) 0); [contradiction|]. subst z. apply bind_ok in T as (s & Hs & T). apply bind_ok in T as (r' & _ & T). destruct (term_text_nz u s F N Hs) as (c & x & -> & C). cbn in T. injection T as T1 T2. congruence.
  Qed.

  (** ** expressions *)
  Lemma simplified s e f : polynomial w e -> expr_normalize P e = Ok (Leaf f) -> ifrac f -> ev s e = pv s (fnum f).
  Proof. intros Q H I. pose proof (normalize_value P s e HM (defined_poly P HR s e Q) (Leaf f) H) as V. rewrite <- V. cbn [ev]. now apply (fv_i P). Qed.
  Lemma plain_i f : sfrac P f -> plain_frac w f.
  Proof.
    intros ((D & (F & _ & NE)) & AB). pose proof (w4 P HR) as W4. pose proof (w3 P HR) as W3. split; [exact NE|]. assert (X : forall t, iterm t -> tco t <> rint (- 2 ^ (w - 1)) -> plain_term w t).
    { intros t T L. pose proof T as [(n & Hn & B) (S & C)]. rewrite Hn in L. assert (n <> - 2 ^ (w - 1)) by congruence. unfold rng in B. split; [|split].
      - rewrite Hn. split; [apply canonical_rint|]. split; [apply qok_z|]. cbn [rint coe rad idx num den]. lia.
      - now apply skeys_nodup.
      - eapply Forall_impl; [|exact C]. intros p (A1 & A2 & A3). split; [exact A1|]. split; [exact A2|]. lia. }
    split; [unfold plain_poly, above in *; rewrite Forall_forall in *; intros t I; apply X; [now apply F|]; destruct (AB t I) as (n & Hn & L); rewrite Hn; intros Q; injection Q as Q; lia|]. rewrite D. split.
    - constructor; [|constructor]. apply X; [apply iconst, rng1, HR|]. cbn [term_const tco]. unfold rint. intros Q. injection Q as Q. lia.
    - cbn. split; [reflexivity|]. left. split; [reflexivity|]. split; [reflexivity|]. left. reflexivity.
  Qed.
  Lemma text_complete e1 e2 f1 f2 t1 t2 : polynomial w e1 -> polynomial w e2 -> expr_normalize P e1 = Ok (Leaf f1) -> expr_normalize P e2 = Ok (Leaf f2) -> (forall s, pos s -> ev s e1 = ev s e2) ->
    (frac_to_string E f1 = Ok t1 -> frac_to_string E f2 = Ok t2 -> t1 = t2) /\ (frac_to_tex E f1 = Ok t1 -> frac_to_tex E f2 = Ok t2 -> t1 = t2).
  Proof.
    intros Q1 Q2 H1 H2 V. destruct (normalize_try P HR HM HS e1 _ Q1 H1) as (g1 & Eq1 & I1 & _). injection Eq1 as <-. destruct (normalize_try P HR HM HS e2 _ Q2 H2) as (g2 & Eq2 & I2 & _). injection Eq2 as <-.
    assert (Z : nz (fnum f1) = nz (fnum f2)). { apply nz_unique; [apply I1|apply I2|]. intros s S. rewrite <- (simplified s e1 f1 Q1 H1 I1), <- (simplified s e2 f2 Q2 H2 I2). now apply V. }
    split; intros T1 T2; [apply frac_string in T1, T2; try assumption|apply frac_tex in T1, T2; try assumption]; eapply print_unique; [apply I1|apply I2|exact Z|exact T1|exact T2|apply I1|apply I2|exact Z|exact T1|exact T2].
  Qed.
  Lemma zero_test e f t : polynomial w e -> expr_normalize P e = Ok (Leaf f) -> frac_to_string E f = Ok t -> (t = txt "0" -> forall s, ev s e = 0%R) /\ ((forall s, pos s -> ev s e = 0%R) -> t = txt "0").
  Proof.
    intros Q H T. destruct (normalize_try P HR HM HS e _ Q H) as (g & Eq & I & _). injection Eq as <-. apply frac_string in T; [|exact I]. pose proof (text_zero _ _ (proj2 I) T) as Z. split.
    - intros X s. apply Z in X. rewrite (simplified s e f Q H I). rewrite <- nz_value by apply I. rewrite X. reflexivity.
    - intros X. apply Z. assert (Y : nz (fnum f) = nz [term_const (rint 0)]).
      { apply nz_unique; [apply I|apply single_i, iconst; pose proof (w4 P HR); unfold rng; lia|]. intros s S. rewrite <- (simplified s e f Q H I), (X s S). unfold pv. cbn [fold_right]. unfold tv. cbn [term_const tco syms]. rewrite rv_int. ring. }
      rewrite Y. reflexivity.
  Qed.
End G.
