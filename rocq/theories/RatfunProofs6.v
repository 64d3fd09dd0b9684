(** Proofs: which quotients are printed as a zero. *)
From Coq Require Import ZArith Znumtheory QArith Qreals Reals String Ascii Lia Lra Bool List Permutation Sorted.
From Verif Require Import Base HugeSpec AdapterModel AdapterProofs RationalModel RationalSpec RationalProofs RationalProofs2 RealModel RealSpec RealProofs1 RealProofs3 RealProofs4 PolyModel PolySpec PolyProofs1 PolyProofs2 PolyProofs3 PolyProofs4 PolyProofs5 PolyProofs6 ExprModel ExprSpec ExprProofs1 ParserModel TextSpec TextProofs1 TextProofs2 RingProofs1 RingProofs2 RingProofs3 RingProofs4 RingProofs5 RatfunSpec RatfunProofs1 RatfunProofs2 RatfunProofs3 RatfunProofs4 RatfunProofs5.
Import ListNotations.
Open Scope Z_scope.

(** a text that is not read as a zero: its first character is neither "0" nor the parenthesis of a zero *)
Definition leads (t : text) : Prop := exists c r, t = c :: r /\ c <> "0"%char /\ (c = "("%char -> exists d r', r = d :: r' /\ d <> "0"%char).
Lemma leads_app a b : leads a -> leads (a ++ b).
Proof. intros (c & r & -> & C & D). exists c, (r ++ b). split; [reflexivity|]. split; [exact C|]. intros X. destruct (D X) as (d & r' & -> & Y). exists d, (r' ++ b). now split. Qed.
Lemma leads_plain c r : c <> "0"%char -> c <> "("%char -> leads (c :: r).
Proof. intros A B. exists c, r. split; [reflexivity|]. split; [exact A|]. contradiction. Qed.
Lemma numeral_digit n : 0 < n -> exists c r, numeral n = c :: r /\ c <> "0"%char /\ c <> "("%char.
Proof.
  intros N. destruct (numeral_spec n) as [(NE & D & Z) V]; [lia|]. destruct (numeral n) as [|c r] eqn:Q; [contradiction|]. exists c, r. split; [reflexivity|]. split.
  - intros ->. cbn [hd] in Z. specialize (Z eq_refl). rewrite Z in V. cbn in V. lia.
  - intros ->. inversion D as [|? ? X _]; subst. unfold is_dec_digit in X. change (nat_of_ascii "(") with 40%nat in X. lia.
Qed.
Lemma int_leads n : n <> 0 -> leads (adapter_to_string n).
Proof.
  intros N. destruct (to_string_text n) as (sg & -> & V & S). destruct (numeral_digit (Z.abs n)) as (c & r & -> & C & D); [lia|]. destruct sg as [[|]|]; [contradiction S; reflexivity| |]; cbn [sign_text app]; apply leads_plain; congruence.
Qed.
Lemma name_leads k : name_ok k -> exists c r, name_text k = c :: r /\ c <> "0"%char /\ c <> "("%char.
Proof.
  intros [(c & -> & C)|(L & _)]; unfold name_text.
  - cbn. exists c, []. split; [reflexivity|]. split; intros ->; discriminate.
  - destruct (Nat.eqb_spec (String.length k) 1); [contradiction|]. cbn. eexists _, _. split; [reflexivity|]. split; discriminate.
Qed.
Lemma rat_leads q : num q <> 0 -> leads (rat_to_string q).
Proof. intros N. unfold rat_to_string. destruct (negb (den q =? 1)); [apply leads_app|]; now apply int_leads. Qed.

Section X.
  Variable P : penv.
  Hypothesis HR : reads P.
  Hypothesis HM : machine P.
  Hypothesis HS : sort_orders P.
  Local Notation E := (pe P).
  Local Notation w := (ew (pe P)).
  Local Notation qterm := (qterm name_ok).
  Local Notation qpoly := (qpoly name_ok).
  Lemma term_leads u s : qterm u -> num (coe (tco u)) <> 0 -> term_to_string E u = Ok s -> leads s.
  Proof.
    intros T N H. pose proof (w4 P HR) as W4. pose proof T as [(c & Ec & Dc) [[_ F] _]]. unfold term_to_string in H. cbv zeta in H. rewrite !(of_int P HR) in H by lia. cbn [bind] in H. apply bind_ok in H as (e & He & H). apply (eq_zero_q P) in He; [|apply T]. destruct (Z.eqb_spec (num (coe (tco u))) 0); [contradiction|]. subst e. apply bind_ok in H as (n1 & Hn1 & H). apply bind_ok in H as (pre & Hp & H). apply bind_ok in H as (y & Hy & H). injection H as <-.
    destruct (n1 || no_symbols u)%bool eqn:Q.
    - apply leads_app. apply bind_ok in Hp as (m1 & _ & Hp). destruct (m1 && negb (no_symbols u))%bool; [injection Hp as <-; apply leads_plain; discriminate|].
      rewrite Ec in *. cbn [rq coe] in N. unfold real_to_string in Hp. cbn [rq coe rad idx] in Hp. apply bind_ok in Hp as (c0 & Hc0 & Hp). apply rat_eq_inv in Hc0. cbn [num den] in Hc0. rewrite Z.mul_1_r in Hc0. cbn [Z.mul] in Hc0. destruct (Z.eqb_spec (num c) 0); [contradiction|]. subst c0. apply bind_ok in Hp as (q & Hq & Hp).
      assert (q = true) as ->.
      { unfold is_rational in Hq. cbn [coe rad idx] in Hq. apply bind_ok in Hq as (d0 & _ & Hq). destruct d0; [congruence|]. apply bind_ok in Hq as (d1 & Hd & Hq). apply rat_eq_inv in Hd. cbn in Hd. subst d1. congruence. }
      injection Hp as <-. now apply rat_leads.
    - injection Hp as <-. cbn [app]. apply orb_false_iff in Q as [_ Q]. unfold no_symbols in Q. destruct (syms u) as [|[k v] m]; [discriminate|]. inversion F as [|? ? [NK _] _]; subst. cbn [fst] in NK. cbn [syms_text] in Hy. apply bind_ok in Hy as (q1 & _ & Hy). apply bind_ok in Hy as (r0 & _ & Hy). injection Hy as <-. apply leads_app. destruct (name_leads k NK) as (d & r & -> & D1 & D2). destruct q1; [|now apply leads_plain]. cbn. exists "("%char. eexists. split; [reflexivity|]. split; [discriminate|]. intros _. eexists _, _. split; [reflexivity|exact D1].
  Qed.
  Lemma zero_term u z : qterm u -> term_zero E u = Ok z -> z = (num (coe (tco u)) =? 0).
  Proof. intros T H. pose proof (w4 P HR). unfold term_zero in H. rewrite (of_int P HR) in H by lia. cbn [bind] in H. apply (eq_zero_q P) in H; [exact H|apply T]. Qed.
  Lemma text_leads : forall l t, Forall qterm l -> ~ no_terms l -> poly_text E (term_to_string E) true l = Ok t -> leads t.
  Proof.
    induction l as [|u l IH]; intros t F N H; [exfalso; apply N; constructor|]. inversion F as [|? ? Tu Tl]; subst. cbn [poly_text] in H. apply bind_ok in H as (z & Hz & H). apply (zero_term u) in Hz; [|exact Tu]. destruct (Z.eqb_spec (num (coe (tco u))) 0) as [Z|Z]; subst z.
    - apply IH in H; [exact H|exact Tl|]. intros X. apply N. now constructor.
    - apply bind_ok in H as (s & Hs & H). apply bind_ok in H as (r & Hr & H). injection H as <-. apply leads_app. now apply (term_leads u).
  Qed.
  Lemma print_q l t : qpoly l -> poly_to_string E l = Ok t -> (no_terms l /\ t = txt "0") \/ (~ no_terms l /\ leads t).
  Proof.
    intros (F & _ & NE) H. unfold poly_to_string, poly_print in H. destruct l as [|u l]; [contradiction|]. apply bind_ok in H as (z & Hz & H). apply (is_zero_q P HR) in Hz; [|exact F]. destruct z; [left; split; [now apply Hz|congruence]|]. right. assert (N : ~ no_terms (u :: l)) by (intros X; apply Hz in X; discriminate). split; [exact N|]. now apply (text_leads (u :: l)).
  Qed.
  Lemma leads_not t : leads t -> ~ zero_text t.
  Proof.
    intros (c & r & -> & C & D) [H|(d & [H|H])]; injection H as -> ->; try (now apply C). destruct (D eq_refl) as (x & r' & H & X). cbn in H. injection H as <- _. now apply X.
  Qed.
  Theorem frac_zero f t : qfrac f -> frac_to_string E f = Ok t -> (zero_text t <-> no_terms (fnum f)).
  Proof.
    intros [A B] H. unfold frac_to_string in H. destruct (fnum f) as [|u l] eqn:Q; [destruct A as (_ & _ & A); contradiction|]. rewrite <- Q in *. apply bind_ok in H as (o & Ho & H). destruct o.
    - apply print_q in H; [|exact A]. destruct H as [[N ->]|[N L]]; [split; intros _; [exact N|now left]|]. split; [intros X; now apply leads_not in X|contradiction].
    - apply bind_ok in H as (n & Hn & H). apply bind_ok in H as (d & Hd & H). injection H as <-. apply print_q in Hn; [|exact A]. destruct Hn as [[N ->]|[N L]].
      + split; intros _; [exact N|]. right. destruct (several (fnum f)); cbn [in_parens]; eexists; [right|left]; rewrite <- ?app_assoc; reflexivity.
      + split; [|contradiction]. intros X. exfalso. revert X. apply leads_not. destruct (several (fnum f)); cbn [in_parens]; [|now apply leads_app]. rewrite <- app_assoc. destruct L as (c & r & -> & C & _). exists "("%char. eexists. split; [reflexivity|]. split; [discriminate|]. intros _. eexists _, _. split; [reflexivity|exact C].
  Qed.
  Lemma sum_of l : qpoly l -> power_sum l.
  Proof.
    intros (F & D & N). split; [exact N|]. split; [|exact D]. eapply Forall_impl; [|exact F]. intros t ((q & Eq & Dq) & (S & G) & Z). split; [exists q; split; [exact Eq|exact Dq]|]. split; [exact S|]. rewrite Forall_forall in *. intros p I. destruct (G p I) as [A [B C]]. specialize (Z p I). repeat split; assumption.
  Qed.
  (** zero test *)
  Theorem zero_q e f t : rational_function w e -> expr_normalize P e = Ok (Leaf f) -> frac_to_string E f = Ok t ->
    (zero_text t -> forall s, pos s -> has_value s e -> ev s e = 0%R) /\ ((forall s, pos s -> has_value s e -> ev s e = 0%R) -> zero_text t).
  Proof.
    intros Q H T. destruct (normalize_e P HR HM HS e _ Q H) as (g & Eg & F). injection Eg as <-. pose proof (frac_zero f t F T) as Z. split.
    - intros X s S V. destruct (normalized P HR HM HS s e f S Q V H) as [_ <-]. unfold fv. rewrite (zero_value s (fnum f)); [unfold Rdiv; ring|apply F|now apply Z].
    - intros X. apply Z. apply Classical_Prop.NNPP. intros N. destruct (domain_normalize P HR HM HS e _ Q H) as (L & NL & HL). destruct (all_nonzero (qpairs (fnum f) :: L)) as (s & S & G).
      + constructor; [|exact NL]. apply nonzero_q; [apply F|exact N].
      + inversion G as [|? ? G0 G']; subst. pose proof (HL s S G') as V. destruct (normalized P HR HM HS s e f S Q V H) as [D Ev]. rewrite (X s S V) in Ev. unfold fv in Ev. rewrite pv_qlin in Ev. apply Rmult_integral in Ev as [Y|Y]; [contradiction|]. apply Rinv_neq_0_compat in D. contradiction.
  Qed.
End X.
