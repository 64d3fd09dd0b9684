(** Proofs: the text of an integer polynomial is read as a polynomial expression of the same weight and degree. *)
From Coq Require Import ZArith Znumtheory QArith Qreals Reals String Ascii Lia Lra Bool List Permutation Sorted.
From Verif Require Import Base HugeSpec AdapterModel AdapterProofs RationalModel RationalSpec RationalProofs RationalProofs2 RealModel RealSpec RealProofs1 RealProofs3 PolyModel PolySpec PolyProofs1 PolyProofs6 ExprModel ExprSpec ExprProofs1 ParserModel ParserSpec ParserProofs1 ParserProofs3
  TextSpec TextProofs1 TextProofs2 PrintSpec PrintProofs1 PrintProofs2 PrintProofs3 PrintProofs4 PrintProofs5 RingSpec RingProofs1 RingProofs2 RingProofs3 RingProofs4 RingProofs5 RingProofs6 RingProofs7 RingProofs8.
Import ListNotations.
Open Scope Z_scope.

Section I.
  Variable P : penv.
  Variable dec : text -> res rat.
  Hypothesis HR : reads P.
  Hypothesis HM : machine P.
  Local Notation E := (pe P).
  Local Notation w := (ew (pe P)).
  Local Notation B := (2 ^ (ew (pe P) - 1)).
  Local Notation iterm := (iterm P name_ok).
  Definition fit (W D : Z) (e : expr) : Prop := polynomial w e /\ 1 <= weight e <= W /\ 0 <= degree e <= D.
  Definition Rp (lv : level) (l : text) (W D : Z) : Prop := heads l /\ exists ts t, seg P dec l ts /\ derives P lv ts t /\ fit W D t.
  (** a text that can be juxtaposed *)
  Definition Rps (l : text) (W D : Z) : Prop := opens l /\ exists ts t, seg P dec l ts /\ derives P Atom ts t /\ starts ts /\ fit W D t.
  (** a text that may begin with a minus sign *)
  Definition Rpx (l : text) (W D : Z) : Prop :=
    heads l /\ exists ts t, seg P dec l ts /\ (derives P Sum ts t \/ exists us, ts = TOp "-" :: us /\ derives P Sum (TNum (leaf_int 0) :: TOp "-" :: us) t) /\ fit W D t.
  Lemma fit_le W D W' D' e : W <= W' -> D <= D' -> fit W D e -> fit W' D' e.
  Proof. intros A C (Q & U & V). split; [exact Q|]. lia. Qed.
  Lemma rp_le lv l W D W' D' : W <= W' -> D <= D' -> Rp lv l W D -> Rp lv l W' D'.
  Proof. intros A C (H & ts & t & S & Dv & F). split; [exact H|]. exists ts, t. repeat (split; [assumption|]). exact (fit_le W D _ _ t A C F). Qed.
  Lemma rpx_le l W D W' D' : W <= W' -> D <= D' -> Rpx l W D -> Rpx l W' D'.
  Proof. intros A C (H & ts & t & S & Dv & F). split; [exact H|]. exists ts, t. repeat (split; [assumption|]). exact (fit_le W D _ _ t A C F). Qed.
  Lemma rp_up lv l W D : Rp lv l W D -> match lv with Atom => Rp Pow l W D | Pow => Rp Prod l W D | Prod => Rp Sum l W D | Sum => Rp Expr l W D | Expr => True end.
  Proof. intros (H & ts & t & S & Dv & F). destruct lv; trivial; (split; [assumption|]; exists ts, t; split; [assumption|]; split; [|assumption]). - now apply d_expr. - now apply d_sum. - now apply d_prod. - now apply d_pow. Qed.
  Lemma rp_atom_prod l W D : Rp Atom l W D -> Rp Prod l W D. Proof. intros H. now apply (rp_up Pow), (rp_up Atom). Qed.
  Lemma rps_atom l W D : Rps l W D -> Rp Atom l W D.
  Proof. intros (O & ts & t & S & Dv & _ & F). split; [now apply opens_heads|]. exists ts, t. auto. Qed.
  Lemma rp_num n : 0 <= n < B -> Rp Atom (numeral n) (Z.max 1 n) 0.
  Proof.
    intros N. split; [apply digit_head; lia|]. exists [TNum (leaf_int n)], (Leaf (leaf_int n)). split; [now apply seg_num|]. split; [apply d_num|]. split; [left; eauto|]. cbn [weight literal degree frac_no_symbols leaf_int fnum fden term_const tco rint coe num]. split; [lia|]. cbn. lia.
  Qed.
  Lemma rp_juxt a b W1 D1 W2 D2 : Rp Prod a W1 D1 -> Rps b W2 D2 -> Rp Prod (a ++ b) (W1 * W2) (D1 + D2).
  Proof.
    intros (Ha & ta & e & Sa & Da & Qa & Wa & Xa) (O & tb & f & Sb & Db & St & Qb & Wb & Xb). split; [destruct a; [contradiction|exact Ha]|]. exists (ta ++ tb), (Op "*" e f). split; [|split].
    - apply seg_app; [exact Sa|exact Sb|]. intros rest _. now apply opens_brk.
    - apply d_juxt; [exact Da|now apply d_pow|exact St].
    - split; [split; [exact Qa|left; auto]|]. cbn [weight degree Ascii.eqb Bool.eqb]. split; [nia|lia].
  Qed.
  Lemma rps_sym p : plain_sym w p -> num (snd p) <= 2 ^ 53 -> Rps (sym_text p) 1 (num (snd p)).
  Proof.
    intros (N & D & U) U53. unfold sym_text. assert (QS : polynomial w (Leaf (leaf_sym (fst p)))) by (right; eauto). destruct (Z.eqb_spec (num (snd p)) 1) as [O|O].
    - split; [now apply name_opens|]. exists [TSym (leaf_sym (fst p))], (Leaf (leaf_sym (fst p))). split; [now apply seg_sym|]. split; [apply d_sym|]. split; [reflexivity|]. split; [exact QS|]. rewrite O. cbn. lia.
    - split; [split; [reflexivity|split; discriminate]|]. exists (TL :: ([TSym (leaf_sym (fst p))] ++ TOp "^" :: [TNum (leaf_int (num (snd p)))]) ++ [TR]), (Op "^" (Leaf (leaf_sym (fst p))) (Leaf (leaf_int (num (snd p))))).
      split; [|split; [apply d_paren, d_expr, d_sum, d_prod, d_hat; [apply d_pow, d_sym|apply d_num]|split; [reflexivity|]]].
      + intros rest ts K L. cbn [txt list_ascii_of_string app]. rewrite <- !app_assoc. refine (ls_tok P dec [] ["("%char] TL _ _ (Forall_nil _) _ _); [constructor|]. apply (seg_sym P dec HR _ N _ (TOp "^" :: TNum (leaf_int (num (snd p))) :: TR :: ts)); [split; [reflexivity|discriminate]|].
        cbn [app]. refine (ls_tok P dec [] ["*"; "*"]%char (TOp "^") _ _ (Forall_nil _) _ _); [constructor|]. rewrite <- app_assoc. apply (seg_num P dec HR (num (snd p)) ltac:(lia) _ (TR :: ts)); [split; [reflexivity|discriminate]|].
        refine (ls_tok P dec [] [")"%char] TR _ _ (Forall_nil _) _ _); [constructor|exact L].
      + split; [split; [exact QS|]; right; split; [reflexivity|]; exists (num (snd p)); split; [lia|]; split; [right; split; [exact U53|eauto]|reflexivity]|].
        change (weight (Op "^" (Leaf (leaf_sym (fst p))) (Leaf (leaf_int (num (snd p)))))) with (1 ^ Z.max 1 (num (snd p))). change (degree (Op "^" (Leaf (leaf_sym (fst p))) (Leaf (leaf_int (num (snd p)))))) with (Z.max 1 (num (snd p)) * 1). rewrite Z.pow_1_l by lia. lia.
  Qed.
  Definition modest (t : term) : Prop := Forall (fun p => num (snd p) <= 2 ^ 53) (syms t).
  Lemma rp_syms m : Forall (plain_sym w) m -> Forall (fun p => num (snd p) <= 2 ^ 53) m -> forall a W D, Rp Prod a W D -> Rp Prod (a ++ smtext m) W (D + tdeg m).
  Proof.
    induction 1 as [|p m Hp F IH]; intros G a W D A.
    - cbn [smtext flat_map tdeg fold_right]. rewrite app_nil_r, Z.add_0_r. exact A.
    - inversion G; subst. cbn [smtext flat_map tdeg fold_right]. fold (smtext m) (tdeg m). rewrite app_assoc. pose proof (IH H2 _ _ _ (rp_juxt _ _ _ _ _ _ A (rps_sym p Hp H1))) as R. rewrite Z.mul_1_r in R. replace (D + (num (snd p) + tdeg m)) with (D + num (snd p) + tdeg m) by lia. exact R.
  Qed.
  Lemma int_text n : 0 < n -> real_text (rint n) = numeral n.
  Proof. intros N. unfold real_text. cbn [rint coe num idx]. destruct (Z.eqb_spec n 0); [lia|]. cbn [Z.eqb Pos.eqb]. unfold rat_to_string. cbn [num den Z.eqb Pos.eqb negb]. apply numeral_text. lia. Qed.
  Lemma nreal_rint n : nreal (rint n) = rint (- n). Proof. reflexivity. Qed.
  (** a positive term *)
  Lemma rp_term t : plain_term w t -> tco t = rint (co t) -> 0 < co t -> modest t -> Rp Prod (term_text t) (wt1 t) (tdeg (syms t)).
  Proof.
    intros (C & _ & S) CE N M. change (Forall (plain_sym w) (syms t)) in S. assert (CB : co t < B) by (destruct C as (_ & _ & X & _); rewrite CE in X; cbn [rint coe num] in X; lia). assert (WE : wt1 t = co t) by (unfold wt1; lia). unfold term_text. fold (co t). destruct (Z.eqb_spec (co t) 0); [lia|].
    assert (RN : Rp Prod (real_text (tco t)) (wt1 t) 0). { rewrite CE, int_text by exact N. rewrite WE. apply (rp_le _ _ (Z.max 1 (co t)) 0); [lia|lia|]. apply rp_atom_prod, rp_num. lia. }
    destruct t as [c m]. cbn [tco syms] in *. unfold no_symbols. cbn [syms]. unfold modest in M. cbn [syms] in M. destruct m as [|p m].
    - cbn [smtext flat_map tdeg fold_right]. rewrite app_nil_r. exact RN.
    - pose proof (rp_syms (p :: m) S M) as RS. cbn [tdeg fold_right] in *. fold (tdeg m) in *. destruct (is_unit 1 c) eqn:EU.
      + cbn [app]. inversion S; subst. inversion M; subst. pose proof (rp_atom_prod _ _ _ (rps_atom _ _ _ (rps_sym p H1 H3))) as RP. pose proof (rp_syms m H2 H4 _ _ _ RP) as R. cbn [smtext flat_map]. fold (smtext m). apply (rp_le _ _ 1 (num (snd p) + tdeg m)); [pose proof (wt1_pos (Term c (p :: m))); lia|lia|exact R].
      + assert (is_unit (-1) c = false) as ->. { rewrite CE. unfold is_unit. cbn [rint coe num den]. destruct (Z.eqb_spec (co (Term c (p :: m))) (-1 * 1)); [lia|reflexivity]. }
        specialize (RS _ _ _ RN). rewrite Z.add_0_l in RS. exact RS.
  Qed.
  Lemma rp_pm c a b W1 D1 W2 D2 : c = "+"%char \/ c = "-"%char -> Rpx a W1 D1 -> Rp Prod b W2 D2 -> Rpx (a ++ [c] ++ b) (W1 + W2) (Z.max D1 D2).
  Proof.
    intros C (Ha & ta & e & Sa & Da & Qa & Wa & Xa) (Hb & tb & f & Sb & Db & Qb & Wb & Xb). split; [destruct a; [contradiction|exact Ha]|]. exists (ta ++ TOp c :: tb), (Op c e f). split; [apply seg_op; try assumption; destruct C as [-> | ->]; reflexivity|]. split.
    - destruct Da as [Da|(us & -> & Da)]; [left; now apply d_pm|]. right. exists (us ++ TOp c :: tb). split; [reflexivity|]. apply (d_pm P c (TNum (leaf_int 0) :: TOp "-" :: us)); assumption.
    - split; [split; [exact Qa|left; split; [tauto|exact Qb]]|]. cbn [weight degree]. destruct C as [-> | ->]; cbn [Ascii.eqb Bool.eqb]; lia.
  Qed.
  Lemma rp_neg l W D : Rp Prod l W D -> Rpx ("-"%char :: l) (1 + W) D.
  Proof.
    intros (H & ts & t & S & Dv & Q & Wt & Dt). split; [discriminate|]. exists (TOp "-" :: ts), (Op "-" (Leaf (leaf_int 0)) t). split; [|split].
    - intros rest us K L. apply (seg_op P dec "-" [] [] l ts); [reflexivity|exact H|intros r u _ X; exact X|exact S|exact K|exact L].
    - right. exists ts. split; [reflexivity|]. apply (d_pm P "-" [TNum (leaf_int 0)] ts); [now right|apply d_sum, d_prod, d_pow, d_num|exact Dv].
    - pose proof (w4 P HR). split; [split; [left; exists 0; split; [lia|reflexivity]|left; split; [auto|exact Q]]|]. cbn [weight degree Ascii.eqb Bool.eqb]. change (literal (Leaf (leaf_int 0))) with 1. change (frac_no_symbols (leaf_int 0)) with true. cbv iota. lia.
  Qed.
  Lemma rpx_sum l W D : Rp Sum l W D -> Rpx l W D.
  Proof. intros (H & ts & t & S & Dv & F). split; [exact H|]. exists ts, t. auto. Qed.
  Lemma nterm_co t : tco t = rint (co t) -> tco (nterm t) = rint (co (nterm t)) /\ co (nterm t) = - co t /\ wt1 (nterm t) = wt1 t.
  Proof. intros H. unfold nterm, wt1, co. cbn [tco nreal coe num]. unfold co in H. rewrite H. cbn [nreal rint coe num rad idx den]. split; [reflexivity|]. split; lia. Qed.
  Definition intp (l : poly) : Prop := Forall (fun t => tco t = rint (co t) /\ modest t) l.
  Definition maxdeg (D : Z) (l : poly) : Prop := Forall (fun t => tdeg (syms t) <= D) l.
  Lemma rest_rp D l : plain_poly w l -> intp l -> maxdeg D l -> forall r, poly_text E (term_to_string E) false l = Ok r -> forall a W, Rpx a W D -> Rpx (a ++ r) (W + wt l) D.
  Proof.
    induction 1 as [|t l Ht F IH]; intros GI GD r H a W X; cbn [poly_text] in H.
    - injection H as <-. rewrite app_nil_r. cbn [wt fold_right]. rewrite Z.add_0_r. exact X.
    - inversion GI as [|? ? [CE Mt] GI']; subst. inversion GD as [|? ? Dt GD']; subst. rewrite (zero_ok P HR t Ht) in H. cbn [bind] in H. rewrite wt_cons. pose proof (wt1_pos t) as WP. change (num (coe (tco t))) with (co t) in H. destruct (Z.eqb_spec (co t) 0) as [N|N].
      + apply (rpx_le _ (W + wt l) D); [lia|lia|]. now apply IH.
      + apply bind_ok in H as (s & Hs & H). apply bind_ok in H as (r' & Hr & H). injection H as <-. apply bind_ok in Hs as (b & Hb & Hs). apply (positive_ok P HR t b Ht N) in Hb. change (num (coe (tco t))) with (co t) in Hb. rewrite app_assoc. rewrite Z.add_assoc. apply IH; try assumption. destruct (Z.ltb_spec 0 (co t)) as [L|L]; subst b.
        * rewrite (term_print P HR t Ht) in Hs. cbn [bind] in Hs. injection Hs as <-. apply (rpx_le _ (W + wt1 t) (Z.max D (tdeg (syms t)))); [lia|lia|]. apply rp_pm; [now left|exact X|]. now apply rp_term.
        * apply bind_ok in Hs as (n & Hn & Hs). apply (negate_plain P HM t n Ht) in Hn. subst n. rewrite (term_print P HR _ (plain_nterm P _ Ht)) in Hs. cbn [bind] in Hs. injection Hs as <-. destruct (nterm_co t CE) as (CE' & CN & WN).
          apply (rpx_le _ (W + wt1 (nterm t)) (Z.max D (tdeg (syms (nterm t))))); [lia|cbn [nterm syms]; lia|]. apply rp_pm; [now right|exact X|]. apply rp_term; [now apply (plain_nterm P)|exact CE'|lia|exact Mt].
  Qed.
  Lemma first_rp D l : plain_poly w l -> intp l -> maxdeg D l -> Exists (fun t => num (coe (tco t)) <> 0) l -> forall r, poly_text E (term_to_string E) true l = Ok r -> Rpx r (1 + wt l) D.
  Proof.
    induction 1 as [|t l Ht F IH]; intros GI GD X r H; [inversion X|]. inversion GI as [|? ? [CE Mt] GI']; subst. inversion GD as [|? ? Dt GD']; subst. cbn [poly_text] in H. rewrite (zero_ok P HR t Ht) in H. cbn [bind] in H. rewrite wt_cons. pose proof (wt1_pos t) as WP. change (num (coe (tco t))) with (co t) in H. destruct (Z.eqb_spec (co t) 0) as [N|N].
    - apply (rpx_le _ (1 + wt l) D); [lia|lia|]. apply IH; try assumption. inversion X; [contradiction|assumption].
    - rewrite (term_print P HR t Ht) in H. cbn [bind] in H. apply bind_ok in H as (r' & Hr & H). injection H as <-. rewrite Z.add_assoc. apply rest_rp; try assumption. destruct (Z.ltb_spec 0 (co t)) as [L|L].
      + apply (rpx_le _ (wt1 t) (tdeg (syms t))); [lia|exact Dt|]. apply rpx_sum, (rp_up Prod). now apply rp_term.
      + rewrite (term_text_neg P t Ht) by (fold (co t); lia). destruct (nterm_co t CE) as (CE' & CN & WN). apply (rpx_le _ (1 + wt1 (nterm t)) (tdeg (syms (nterm t)))); [lia|exact Dt|]. apply rp_neg. apply rp_term; [now apply (plain_nterm P)|exact CE'|lia|exact Mt].
  Qed.
  Lemma rpx_parse l W D : Rpx l W D -> exists e, parse P dec l = Ok e /\ fit W D e.
  Proof.
    intros (H & ts & t & S & Dv & F). exists t. split; [|exact F]. apply parse_iff. exists ts. split; [specialize (S [] [] I (ls_end P dec [] (Forall_nil _))); now rewrite !app_nil_r in S|]. apply grammar_parse. destruct Dv as [Dv|(us & -> & Dv)]; [now apply d_expr|]. apply (d_sign P "-" (leaf_int 0)); [now right| |exact Dv]. apply read_int; [exact HR|]. pose proof (w4 P HR). lia.
  Qed.
  Lemma poly_rp D l r : 0 <= D -> plain_poly w l -> intp l -> maxdeg D l -> poly_to_string E l = Ok r -> exists e, parse P dec r = Ok e /\ fit (1 + wt l) D e.
  Proof.
    intros D0 F GI GD H. pose proof (w4 P HR) as W4. pose proof (wt_pos l) as WP. assert (Z0 : exists e, parse P dec (txt "0") = Ok e /\ fit (1 + wt l) D e).
    { apply rpx_parse, (rpx_le _ 1 0); [lia|lia|]. apply rpx_sum, (rp_up Prod), rp_atom_prod. exact (rp_num 0 ltac:(lia)). }
    unfold poly_to_string, poly_print in H. destruct l as [|t0 l0]; [injection H as <-; exact Z0|]. remember (t0 :: l0) as l eqn:El. apply bind_ok in H as (b & Hb & H). destruct (is_zero_val P HR l F b Hb) as [_ Z2]. destruct b; [injection H as <-; exact Z0|]. apply rpx_parse. apply first_rp; auto.
  Qed.
End I.
