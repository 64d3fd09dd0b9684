(** Reading the text of fractions and trees. *)
From Coq Require Import ZArith Znumtheory QArith Qreals Reals String Ascii Lia Lra Bool List Permutation.
From Verif Require Import Base HugeSpec AdapterModel AdapterProofs RationalModel RationalSpec RationalProofs RationalProofs2 RealModel RealSpec PolyModel PolySpec ExprModel ExprSpec ParserModel
  ParserSpec TextSpec TextProofs1 TextProofs2 PrintSpec PrintProofs1 PrintProofs2 PrintProofs3 PrintProofs4.
Import ListNotations.
Open Scope Z_scope.

Ltac conjs := repeat match goal with |- _ /\ _ => split end.
Section A.
Variable P : penv.
Variable dec : text -> res rat.
Hypothesis HM : machine P.
Hypothesis HR : reads P.
Local Notation w := (ew (pe P)).
Local Notation RD := (Rd P dec).
Local Notation RX := (RdX P dec).

Lemma den_one_ok d b : plain_poly w d -> den_is_one (pe P) d = Ok b -> (b = true <-> d = [term_const (rint 1)]).
Proof.
  pose proof (w4 P HR) as W4. intros F H. unfold den_is_one in H. destruct d as [|t [|t' d]]; try (injection H as <-; split; [discriminate|intros X; discriminate X]).
  inversion F as [|? ? (C & _) _]; subst. rewrite (of_int P HR) in H by lia. cbn [bind] in H. rewrite (real_eq_unit P HR) in H by (auto; lia). cbn [bind] in H. injection H as <-. rewrite andb_true_iff. rewrite (unit_rint P _ 1 C (or_introl eq_refl)).
  destruct t as [c m]. unfold no_symbols. cbn [tco syms]. split; [intros [-> X]; destruct m; [reflexivity|discriminate]|]. intros X. injection X as -> ->. auto.
Qed.
Lemma pv_one s : pv s [term_const (rint 1)] = 1%R.
Proof. unfold pv, tv. cbn [fold_right tco syms term_const sv]. rewrite rv_int. ring. Qed.
Lemma paren_reads l v : RX l v -> RD Atom (txt "(" ++ l ++ txt ")") v.
Proof. intros H. now apply rd_paren, rdx_expr. Qed.
Lemma single_zero t n : plain_term w t -> num (coe (tco t)) = 0 -> poly_to_string (pe P) [t] = Ok n -> n = txt "0" /\ forall s, pv s [t] = 0%R.
Proof.
  intros Ft N H. pose proof (w4 P HR) as W4. unfold poly_to_string, poly_print in H. cbn [poly_is_zero] in H. rewrite (of_int P HR) in H by lia. cbn [bind] in H. unfold real_ne in H. rewrite (real_eq_unit P HR) in H by (try apply Ft; lia). rewrite (unit_zero P) in H by apply Ft. rewrite N in H. cbn in H. injection H as <-. split; [reflexivity|].
  intros s. cbn [pv fold_right]. rewrite (tv_zero s t N); [ring|]. destruct Ft as ((_ & (D & _) & _) & _). lia.
Qed.
Lemma frac_divided f t : plain_frac w f -> ~ undivided f -> frac_to_string (pe P) f = Ok t -> RX t (fun s => fv s f).
Proof.
  intros (NE & Fn & Fd & PD) U H. unfold frac_to_string in H. destruct (fnum f) as [|t0 l0] eqn:En; [contradiction|]. rewrite <- En in *. clear NE. apply bind_ok in H as (b & Hb & H). apply (den_one_ok _ _ Fd) in Hb. destruct b; [exfalso; now apply U, Hb|]. clear Hb.
  apply bind_ok in H as (n & Hn & H). apply bind_ok in H as (d & Hd & H). injection H as <-.
  assert (D : RD Atom (in_parens (several (fden f)) d) (fun s => pv s (fden f))).
  { unfold several. destruct (Nat.eqb_spec (length (fden f)) 1) as [L|L]; cbn [negb in_parens].
    - unfold plain_denominator in PD. destruct (fden f) as [|t [|t' l]]; try discriminate. apply (poly_reads P dec HM HR _ _ Single Fd Hd). right. exists t. auto.
    - apply paren_reads. apply (poly_reads P dec HM HR _ _ Start Fd Hd). now right. }
  apply (rd_up P dec Atom) in D. unfold several. destruct (Nat.eqb_spec (length (fnum f)) 1) as [L|L]; cbn [negb in_parens].
  - destruct (fnum f) as [|t [|t' l]] eqn:E1; try discriminate. inversion Fn as [|? ? Ft _]; subst. destruct (Z.lt_trichotomy (num (coe (tco t))) 0) as [N|[N|N]].
    + assert (Hn2 : n = "-"%char :: term_text (nterm t)). { rewrite <- (term_text_neg P t Ft N). unfold poly_to_string, poly_print in Hn. apply bind_ok in Hn as (z & Hz & Hn). destruct (is_zero_val P HR [t] Fn z Hz) as [Z1 Z2]. destruct z.
        - exfalso. cbn [poly_is_zero] in Hz. pose proof (w4 P HR). rewrite (of_int P HR) in Hz by lia. cbn [bind] in Hz. unfold real_ne in Hz. rewrite (real_eq_unit P HR) in Hz by (try apply Ft; lia). rewrite (unit_zero P) in Hz by apply Ft. cbn [bind] in Hz. destruct (Z.eqb_spec (num (coe (tco t))) 0); [lia|discriminate].
        - cbn [poly_text] in Hn. rewrite (zero_ok P HR t Ft) in Hn. cbn [bind] in Hn. destruct (Z.eqb_spec (num (coe (tco t))) 0); [lia|]. rewrite (term_print P HR t Ft) in Hn. cbn [bind] in Hn. rewrite app_nil_r in Hn. now injection Hn. }
      subst n. cbn [app]. refine (rdx_ext P dec _ _ _ _ (rdx_neg P dec _ _ (rd_md P dec "/" _ _ _ _ (or_intror eq_refl) (proj1 (rd_term P dec HR (nterm t) (plain_nterm P _ Ft) _)) D))).
      * intros s. cbn [Ascii.eqb Bool.eqb]. unfold fv. rewrite E1. rewrite (tv_nterm P s t Ft). cbn [pv fold_right]. fold (pv s (fden f)). unfold Rdiv. ring.
      * unfold positive. cbn. lia.
    + assert (A : RD Prod n (fun s => pv s [t])).
      { apply atom_prod. destruct (single_zero t n Ft N Hn) as [-> V]. apply (rd_ext P dec _ _ (fun _ => 0%R)); [intros s; now rewrite V|now apply zero_atom]. }
      refine (rdx_ext P dec _ _ _ _ (rdx_sum P dec _ _ (rd_up P dec Prod _ _ (rd_md P dec "/" _ _ _ _ (or_intror eq_refl) A D)))). intros s. unfold fv. rewrite E1. reflexivity.
    + refine (rdx_ext P dec _ _ _ _ (rdx_sum P dec _ _ (rd_up P dec Prod _ _ (rd_md P dec "/" _ _ _ _ (or_intror eq_refl) (poly_reads P dec HM HR _ _ Factors Fn Hn (or_intror (ex_intro _ t (conj eq_refl N)))) D)))). intros s. unfold fv. rewrite E1. reflexivity.
  - refine (rdx_ext P dec _ _ _ _ (rdx_sum P dec _ _ (rd_up P dec Prod _ _ (rd_md P dec "/" _ _ _ _ (or_intror eq_refl) (atom_prod P dec _ _ (paren_reads _ _ (poly_reads P dec HM HR _ _ Start Fn Hn (or_intror I)))) D)))). intros s. unfold fv. reflexivity.
Qed.
Lemma frac_reads f t : plain_frac w f -> frac_to_string (pe P) f = Ok t -> RX t (fun s => fv s f) /\ (undivided f -> forall p, shape p (fnum f) -> reads_at P dec p t (fun s => fv s f)).
Proof.
  intros F H. destruct F as (NE & Fn & Fd & PD). assert (Dec : undivided f \/ ~ undivided f).
  { unfold frac_to_string in H. destruct (fnum f) eqn:En; [contradiction|]. apply bind_ok in H as (b & Hb & _). apply (den_one_ok _ _ Fd) in Hb. unfold undivided. destruct b; [left; now apply Hb|]. right. intros X. apply Hb in X. discriminate. }
  destruct Dec as [U|U]; [|split; [apply frac_divided; auto; repeat split; assumption|contradiction]].
  assert (V : forall s, fv s f = pv s (fnum f)) by (intros s; unfold fv; rewrite U, pv_one; field).
  assert (K : forall p, shape p (fnum f) -> reads_at P dec p t (fun s => fv s f)).
  { intros p S. assert (X : reads_at P dec p t (fun s => pv s (fnum f))).
    { apply (poly_reads P dec HM HR _ _ p Fn); [|exact S]. unfold frac_to_string in H. destruct (fnum f) as [|t0 l0] eqn:En; [contradiction|]. rewrite U, (den_one P HR) in H. exact H. }
    destruct p; cbn [reads_at] in X |- *; [apply (rd_ext P dec _ _ _ _ (fun s => eq_sym (V s)) X)..|apply (rdx_ext P dec _ _ _ (fun s => eq_sym (V s)) X)]. }
  split; [exact (K Start (or_intror I))|auto].
Qed.
Lemma leaf_place f t p b : plain_frac w f -> binds p f -> frac_to_string (pe P) f = Ok t -> output_need_paren (pe P) f = Ok b -> reads_at P dec p (in_parens b t) (fun s => fv s f).
Proof.
  intros F B H N. unfold output_need_paren in N. apply bind_ok in N as (o & Ho & N). injection N as <-. pose proof F as (_ & _ & Fd & _). apply (den_one_ok _ _ Fd) in Ho. destruct (frac_reads f t F H) as [X1 X2]. destruct o; cbn [negb in_parens].
  - assert (U : undivided f) by now apply Ho. apply X2; [exact U|]. destruct B as [B|B]; [contradiction|exact B].
  - assert (A : RD Atom (txt "(" ++ t ++ txt ")") (fun s => fv s f)) by now apply paren_reads. destruct p; cbn [reads_at]; [exact A|now apply atom_prod|now apply (rd_up P dec Prod), atom_prod|now apply rdx_sum, (rd_up P dec Prod), atom_prod].
Qed.
Definition tree_at (start : bool) (c : ascii) (t : text) (v : (string -> R) -> R) : Prop := if (start && is_pm c)%bool then RX t v else RD (op_level c) t v.
Lemma tree_expr start c t v : tree_at start c t v -> RX t v.
Proof. unfold tree_at. destruct (start && is_pm c)%bool; [auto|]. intros H. now apply rdx_sum, (op_up P dec c). Qed.
Lemma tree_up c t v : tree_at false c t v -> RD Sum t v /\ (is_pm c = false -> RD Prod t v) /\ (is_pm c = false -> is_md c = false -> RD Pow t v).
Proof. exact (op_up P dec c t v). Qed.
Lemma tree_fits e : forall start, fits w start e -> forall t, expr_to_string (pe P) e = Ok t -> match e with Leaf _ => RX t (fun s => ev s e) | Op c _ _ => tree_at start c t (fun s => ev s e) end.
Proof.
  induction e as [f|c l IHl r IHr]; intros start F t H; [now apply frac_reads|]. cbn [fits] in F. destruct F as (O & Fl & Fr). cbn [expr_to_string] in H.
  apply bind_ok in H as (pl & Hpl & H). apply bind_ok in H as (sl & Hsl & H). apply bind_ok in H as (pr & Hpr & H). apply bind_ok in H as (sr & Hsr & H). injection H as <-.
  set (vl := fun s => ev s l). set (vr := fun s => ev s r).
  assert (XL : (is_pm c = true -> if start then RX (in_parens pl sl) vl else RD Sum (in_parens pl sl) vl) /\ (is_md c = true -> RD Prod (in_parens pl sl) vl) /\ (Ascii.eqb c "^" = true -> RD Pow (in_parens pl sl) vl)).
  { destruct l as [f|lc l1 l2].
    - destruct Fl as [F B]. cbn [expr_to_string paren_left] in Hsl, Hpl. pose proof (leaf_place f sl _ pl F B Hsl Hpl) as X. unfold is_pm, is_md in *. destruct (Ascii.eqb_spec c "+") as [->|_]; [destruct start; cbn in X |- *; conjs; intros Q; first [exact X|discriminate Q]|]. destruct (Ascii.eqb_spec c "-") as [->|_]; [destruct start; cbn in X |- *; conjs; intros Q; first [exact X|discriminate Q]|].
      cbn [orb] in *. destruct (Ascii.eqb_spec c "*") as [->|_]; [cbn in X |- *; conjs; intros Q; first [exact X|discriminate Q]|]. destruct (Ascii.eqb_spec c "/") as [->|_]; [cbn in X |- *; conjs; intros Q; first [exact X|discriminate Q]|]. cbn [orb] in *. conjs; intros Q; first [exact (rd_up P dec Atom _ _ X)|discriminate Q].
    - specialize (IHl _ Fl _ Hsl). cbn [paren_left] in Hpl. injection Hpl as Hpl. fold (paren_l c lc) in Hpl. rewrite Hpl in IHl. change (tree_at (pl || start) lc sl vl) in IHl. destruct pl; cbn [in_parens orb] in *.
      + assert (A : RD Atom (txt "(" ++ sl ++ txt ")") vl) by (apply paren_reads; now apply tree_expr in IHl). split; [intros _; destruct start; [apply rdx_sum|]; now apply (rd_up P dec Prod), atom_prod|]. split; [intros _; now apply atom_prod|intros _; now apply (rd_up P dec Atom)].
      + unfold paren_l in Hpl. split; [|split].
        * intros C. destruct start; [now apply tree_expr in IHl|]. now apply tree_up in IHl.
        * intros C. rewrite C in Hpl. unfold tree_at in IHl. rewrite Hpl, andb_false_r in IHl. now apply (op_up P dec lc).
        * intros C. apply Ascii.eqb_eq in C. subst c. discriminate. }
  assert (XR : (Ascii.eqb c "+" = true -> RD Sum (in_parens pr sr) vr) /\ (Ascii.eqb c "-" = true -> RD Prod (in_parens pr sr) vr) /\ (Ascii.eqb c "*" = true -> RD Prod (in_parens pr sr) vr) /\ (Ascii.eqb c "/" = true -> RD Pow (in_parens pr sr) vr) /\ (Ascii.eqb c "^" = true -> RD Atom (in_parens pr sr) vr)).
  { destruct r as [f|rc r1 r2].
    - destruct Fr as [F B]. cbn [expr_to_string paren_right] in Hsr, Hpr. pose proof (leaf_place f sr _ pr F B Hsr Hpr) as X. destruct (Ascii.eqb_spec c "+") as [->|_]; [cbn in X |- *; conjs; intros Q; first [exact X|discriminate Q]|]. destruct (Ascii.eqb_spec c "-") as [->|_]; [cbn in X |- *; conjs; intros Q; first [exact X|discriminate Q]|].
      cbn [orb] in *. destruct (Ascii.eqb_spec c "*") as [->|_]; [cbn in X |- *; conjs; intros Q; first [exact X|discriminate Q]|]. conjs; intros Q; first [exact X|exact (rd_up P dec Atom _ _ X)|discriminate Q].
    - specialize (IHr _ Fr _ Hsr). cbn [paren_right] in Hpr. injection Hpr as Hpr. fold (paren_r c rc) in Hpr. rewrite Hpr in IHr. change (tree_at pr rc sr vr) in IHr. destruct pr; cbn [in_parens] in *.
      + assert (A : RD Atom (txt "(" ++ sr ++ txt ")") vr) by (apply paren_reads; now apply tree_expr in IHr). conjs; intros _; [now apply (rd_up P dec Prod), atom_prod|now apply atom_prod|now apply atom_prod|now apply (rd_up P dec Atom)|exact A].
      + unfold paren_r in Hpr. apply tree_up in IHr. destruct IHr as (U1 & U2 & U3). conjs; intros C; apply Ascii.eqb_eq in C; subst c; cbn in Hpr; auto; try discriminate. apply orb_false_iff in Hpr as [Q1 Q2]. auto. }
  remember (in_parens pl sl) as tl eqn:El. remember (in_parens pr sr) as tr eqn:Er. clear El Er Hsl Hsr IHl IHr Fl Fr Hpl Hpr.
  destruct XL as (L1 & L2 & L3). destruct XR as (R1 & R2 & R3 & R4 & R5). unfold tree_at, op_level. destruct (is_pm c) eqn:EP; [|destruct (is_md c) eqn:EM].
  - specialize (L1 eq_refl). apply orb_true_iff in EP as [EP|EP]; apply Ascii.eqb_eq in EP; subst c.
    + specialize (R1 eq_refl). destruct start; cbn [andb]; [exact (rdx_plus P dec _ _ _ _ L1 R1)|exact (rd_sum P dec _ _ _ _ L1 R1)].
    + specialize (R2 eq_refl). destruct start; cbn [andb]; [exact (rdx_pm P dec "-" _ _ _ _ (or_intror eq_refl) L1 R2)|exact (rd_pm P dec "-" _ _ _ _ (or_intror eq_refl) L1 R2)].
  - rewrite andb_false_r. specialize (L2 eq_refl). apply orb_true_iff in EM as [EM|EM]; apply Ascii.eqb_eq in EM; subst c.
    + exact (rd_prod P dec _ _ _ _ L2 (R3 eq_refl)).
    + exact (rd_md P dec "/" _ _ _ _ (or_intror eq_refl) L2 (R4 eq_refl)).
  - rewrite andb_false_r. assert (c = "^"%char) as ->. { unfold is_opchar in O. rewrite EP, EM in O. cbn in O. now apply Ascii.eqb_eq in O. }
    exact (rd_hat P dec _ _ _ _ (L3 eq_refl) (R5 eq_refl)).
Qed.
Theorem poly_reads_back l t : plain_poly w l -> poly_to_string (pe P) l = Ok t -> exists e, parse P dec t = Ok e /\ forall s, ev s e = pv s l.
Proof. intros F H. apply (rd_parse P dec t (fun s => pv s l)). apply (rdx_expr P dec HR). apply (poly_reads P dec HM HR _ _ Start F H). now right. Qed.
Theorem frac_reads_back f t : plain_frac w f -> frac_to_string (pe P) f = Ok t -> exists e, parse P dec t = Ok e /\ forall s, ev s e = fv s f.
Proof. intros F H. apply (rd_parse P dec t (fun s => fv s f)). apply (rdx_expr P dec HR). now apply frac_reads. Qed.
Theorem tree_reads_back e t : fits w true e -> expr_to_string (pe P) e = Ok t -> exists e', parse P dec t = Ok e' /\ forall s, ev s e' = ev s e.
Proof. intros F H. apply (rd_parse P dec t (fun s => ev s e)). apply (rdx_expr P dec HR). pose proof (tree_fits e true F t H) as X. destruct e as [f|c l r]; [exact X|]. now apply tree_expr in X. Qed.
End A.
