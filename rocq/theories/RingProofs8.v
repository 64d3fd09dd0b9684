(** Proofs: normalisation, sums and products of integer polynomials succeed within the bounds. *)
From Coq Require Import ZArith Znumtheory QArith Qreals Reals String Ascii Lia Lra Bool List Permutation Sorted.
From Verif Require Import Base AdapterModel AdapterProofs RationalModel RationalSpec RationalProofs RationalProofs2 RealModel RealSpec RealProofs1 RealProofs3 PolyModel PolySpec PolyProofs1 PolyProofs2 PolyProofs3 PolyProofs4 PolyProofs6 ExprModel ExprSpec ExprProofs1 ParserModel TextSpec TextProofs1 TextProofs2 PrintSpec RingSpec RingProofs1 RingProofs2 RingProofs3 RingProofs4 RingProofs5 RingProofs6 RingProofs7.
Import ListNotations.
Open Scope Z_scope.

Lemma mapr_total {A C} (f : A -> res C) (Q : A -> C -> Prop) l : (forall a, In a l -> exists t, f a = Ok t /\ Q a t) -> exists r, mapr f l = Ok r /\ Forall2 Q l r.
Proof.
  induction l as [|a l IH]; intros H; [exists []; split; [reflexivity|constructor]|]. destruct (H a (or_introl eq_refl)) as (t & Ht & Qt). destruct IH as (r & Hr & F); [intros b I; apply H; now right|]. exists (t :: r). cbn [mapr]. rewrite Ht. cbn [bind]. rewrite Hr. split; [reflexivity|now constructor].
Qed.

Section L.
  Variable P : penv.
  Hypothesis HR : reads P.
  Hypothesis HM : machine P.
  Hypothesis HS : sort_orders P.
  Hypothesis HT : sort_returns P.
  Local Notation E := (pe P).
  Local Notation w := (ew (pe P)).
  Local Notation B := (2 ^ (ew (pe P) - 1)).
  Local Notation iterm := (iterm P name_ok).
  Local Notation ipoly := (ipoly P name_ok).
  Definition fitp (W D : Z) (l : poly) : Prop := Forall iterm l /\ wt l <= W /\ Forall (fun t => tdeg (syms t) <= D) l.
  Lemma fitp_co W D l t : fitp W D l -> In t l -> Z.abs (co t) <= W.
  Proof. intros (_ & S & _) I. pose proof (wt_in t l I). unfold wt1 in *. lia. Qed.

  (** ** the comparator *)
  Lemma smap_eq_ok a b : powers P name_ok 1 a -> powers P name_ok 1 b -> exists e, smap_eq w a b = Ok e.
  Proof.
    intros [_ Fa] [_ Fb]. unfold smap_eq. destruct (Nat.eqb _ _); [|eauto]. revert b Fb. induction Fa as [|[k [x d]] a (_ & D1 & B1) Fa IH]; intros b Fb; [eexists; reflexivity|]. destruct Fb as [|[k' [y d']] b (_ & D2 & B2) Fb]; [eexists; reflexivity|]. cbn [snd num den] in *. subst d d'. cbn [entries_eq]. destruct (String.eqb k k'); [|eauto]. rewrite (rat_eq_ok P) by lia. cbn [bind]. destruct (x =? y); [|eauto]. now apply IH.
  Qed.
  Lemma smap_cmp_ok : forall a b, powers P name_ok 1 a -> powers P name_ok 1 b -> exists e, smap_cmp w a b = Ok e.
  Proof.
    intros a b [_ Fa] [_ Fb]. revert b Fb. induction Fa as [|[k [x d]] a (_ & D1 & B1) Fa IH]; intros b Fb; destruct Fb as [|[k' [y d']] b (_ & D2 & B2) Fb]; try (eexists; reflexivity). cbn [snd num den] in *. subst d d'. cbn [smap_cmp]. destruct (String.compare k k'); eauto. rewrite (rat_cmp_ok P) by lia. cbn [bind]. destruct (x ?= y); eauto.
  Qed.
  Lemma power_form_ok c : Z.abs c < B -> power_form w (Rat c 1) (Rat 1 1) (uwrap w (1 * 1)) 1 = Ok (Rat c 1).
  Proof.
    intros C. pose proof (w3 P HR) as W3. pose proof (w4 P HR) as W4. assert (4 <= 2 ^ w) by (change 4 with (2 ^ 2); apply Z.pow_le_mono_r; lia). unfold power_form. unfold uwrap. rewrite Z.mod_small by lia. change (1 * 1) with 1.
    assert (I : rat_of_index w 1 = Ok (Rat 1 1)) by (unfold rat_of_index; rewrite swrap_id by lia; apply of_int_ok; lia). rewrite I. cbn [bind].
    assert (R : forall x, Z.abs x < B -> rpow w (Rat x 1) (Rat 1 1) = Ok (Rat x 1)) by (intros x X; unfold rpow, rat_pow; rewrite !(rat_eq_ok P) by lia; reflexivity). rewrite !R by lia. cbn [bind]. rewrite mul_ints by lia. now rewrite Z.mul_1_r.
  Qed.
  Lemma real_gt_total a b : Z.abs a < B -> Z.abs b < B -> exists r, real_gt w (rint a) (rint b) = Ok r.
  Proof.
    intros A1 A2. pose proof (w4 P HR). assert (L : exists r, real_lt w (rint a) (rint b) = Ok r).
    { unfold real_lt. rewrite (real_eq_ok P HR) by assumption. cbn [bind]. destruct (a =? b); [eauto|]. cbn [rint coe idx rad]. unfold rat_le, rat_ge. rewrite !(rat_cmp_ok P) by lia. cbn [bind]. destruct (_ && _)%bool; [eauto|]. destruct (_ && _)%bool; [eauto|]. destruct (_ && _)%bool.
      - unfold rat_negate. cbn [num den]. rewrite !chk_ok by lia. cbn [bind]. unfold rat_make. cbn [Z.eqb]. change (rat_normalize w (Rat (- a) 1)) with (rat_of_int w (- a)). change (rat_normalize w (Rat (- b) 1)) with (rat_of_int w (- b)). pose proof (w3 P HR). rewrite !of_int_ok by lia. cbn [bind]. rewrite !power_form_ok by lia. cbn [bind]. unfold rat_gt. rewrite (rat_cmp_ok P) by lia. cbn [bind]. eauto.
      - rewrite !power_form_ok by lia. cbn [bind]. unfold rat_lt. rewrite (rat_cmp_ok P) by lia. cbn [bind]. eauto. }
    destruct L as (r & Hr). unfold real_gt. rewrite Hr. cbn [bind]. destruct r; [eauto|]. rewrite (real_eq_ok P HR) by assumption. cbn [bind]. eauto.
  Qed.
  Lemma before_ok a b : iterm a -> iterm b -> Z.abs (co a) < B -> Z.abs (co b) < B -> exists r, term_before w a b = Ok r.
  Proof.
    intros Ta Tb A1 A2. pose proof (w4 P HR). unfold term_before. destruct (smap_eq_ok (syms a) (syms b) (proj2 Ta) (proj2 Tb)) as (e & ->). cbn [bind]. destruct e; cbn [negb].
    - rewrite (iterm_co P a Ta), (iterm_co P b Tb). cbn [rint idx rad Z.eqb Pos.eqb negb]. rewrite (rat_ne_ok P) by lia. cbn [bind Z.eqb Pos.eqb negb]. now apply real_gt_total.
    - destruct (smap_cmp_ok (syms a) (syms b) (proj2 Ta) (proj2 Tb)) as (c & ->). cbn [bind]. eauto.
  Qed.

  (** ** merging and normalising *)
  Lemma merge_ok D : forall l a, Forall iterm (a :: l) -> wt (a :: l) < B -> Forall (fun t => tdeg (syms t) <= D) (a :: l) -> exists l', merge_from E a l = Ok l' /\ wt l' <= wt (a :: l) /\ Forall (fun t => tdeg (syms t) <= D) l'.
  Proof.
    induction l as [|b l IH]; intros a F S G; [exists [a]; split; [reflexivity|split; [lia|exact G]]|]. inversion F as [|? ? Ta F']; subst. inversion F' as [|? ? Tb F'']; subst. inversion G as [|? ? Ga G']; subst. inversion G' as [|? ? Gb G'']; subst. rewrite !wt_cons in S. pose proof (wt_pos l) as PL. pose proof (wt1_pos a) as PA. pose proof (wt1_pos b) as PB. cbn [merge_from]. unfold term_equivalent. destruct (smap_eq_ok (syms a) (syms b) (proj2 Ta) (proj2 Tb)) as (e & ->). cbn [bind]. destruct e.
    - rewrite (iterm_co P a Ta), (iterm_co P b Tb), (equiv_ok P HR). cbn [bind]. unfold wt1 in *. rewrite (add_ok P HR) by lia. cbn [bind]. unfold term_make. destruct (term_norm_ok P HR (rint (co a + co b)) (syms a) (powers_le P name_ok _ (proj2 Ta))) as (t & Ht & Ct & Dt). rewrite Ht. cbn [bind].
      assert (Tt : iterm t) by (apply (iterm_of P name_ok (co a + co b) (syms a)) in Ht; [exact Ht|unfold rng; lia|apply (powers_le P name_ok), (proj2 Ta)]). assert (Ct' : co t = co a + co b) by (unfold co; rewrite Ct; reflexivity).
      destruct (IH t) as (l' & Hl & Sl & Gl); [now constructor|rewrite wt_cons; unfold wt1; rewrite Ct'; lia|constructor; [lia|exact G'']|]. exists l'. split; [exact Hl|]. split; [|exact Gl]. rewrite wt_cons in Sl. rewrite !wt_cons. unfold wt1 in *. rewrite Ct' in Sl. lia.
    - cbn [bind]. destruct (IH b) as (l' & Hl & Sl & Gl); [exact F'|rewrite wt_cons; lia|exact G'|]. rewrite Hl. cbn [bind]. exists (a :: l'). split; [reflexivity|]. split; [rewrite !wt_cons in *; lia|now constructor].
  Qed.
  Lemma normalize_ok W D l : W < B -> fitp W D l -> l <> [] -> exists l', poly_normalize P l = Ok l' /\ ipoly l' /\ fitp W D l'.
  Proof.
    intros WB FL NE. pose proof FL as (F & S & G). destruct (HT l) as (m & Hm).
    { intros a b Ia Ib. pose proof (fitp_co _ _ _ _ FL Ia). pose proof (fitp_co _ _ _ _ FL Ib). rewrite Forall_forall in F. apply before_ok; try lia; auto. }
    assert (PM : Permutation l m) by (destruct HM as (_ & _ & _ & SP); now apply SP). destruct m as [|a m]; [apply Permutation_sym, Permutation_nil in PM; contradiction|].
    destruct (merge_ok D m a) as (l' & Hl & Sl & Gl); [eapply Forall_perm; eauto|rewrite <- (wt_perm _ _ PM); lia|eapply Forall_perm; eauto|]. assert (X : poly_normalize P l = Ok l') by (unfold poly_normalize; rewrite Hm; exact Hl).
    pose proof (normalize_i P name_ok HR HM HS l l' F NE X) as I. exists l'. split; [exact X|]. split; [exact I|]. split; [apply I|]. split; [rewrite <- (wt_perm _ _ PM) in Sl; lia|exact Gl].
  Qed.

  (** ** sums, products *)
  Lemma fitp_app W1 W2 D1 D2 a b : fitp W1 D1 a -> fitp W2 D2 b -> fitp (W1 + W2) (Z.max D1 D2) (a ++ b).
  Proof.
    intros (F1 & S1 & G1) (F2 & S2 & G2). split; [now apply Forall_app|]. split; [rewrite wt_app; lia|]. apply Forall_app. split; [eapply Forall_impl; [|exact G1]|eapply Forall_impl; [|exact G2]]; cbn beta; intros; lia.
  Qed.
  Lemma negate_ok W D a : W < B -> fitp W D a -> a <> [] -> exists r, poly_negate E a = Ok r /\ fitp W D r /\ r <> [].
  Proof.
    intros WB FA NE. pose proof FA as (F & S & G). destruct (mapr_total (term_negate E) (fun t u => iterm u /\ co u = - co t /\ tdeg (syms u) = tdeg (syms t)) a) as (r & Hr & Q).
    { intros t I. pose proof (fitp_co _ _ _ _ FA I). rewrite Forall_forall in F. destruct (neg_term_ok P HR t (F t I)) as (u & Hu & X & Y & Z); [lia|]. eauto. }
    exists r. split; [exact Hr|]. clear Hr FA. split; [|destruct Q; [contradiction|discriminate]]. clear NE. revert S. assert (K : Forall iterm r /\ wt r = wt a /\ Forall (fun t => tdeg (syms t) <= D) r).
    { induction Q as [|t u a r (X & Y & Z) Q IH]; [repeat split; constructor|]. inversion F; subst. inversion G; subst. destruct IH as (A1 & A2 & A3); try assumption. split; [now constructor|]. split; [rewrite !wt_cons, A2; unfold wt1; rewrite Y; lia|constructor; [lia|exact A3]]. }
    destruct K as (A1 & A2 & A3). intros S. split; [exact A1|]. split; [lia|exact A3].
  Qed.
  Lemma row_ok W2 D2 x b : iterm x -> fitp W2 D2 b -> wt1 x * W2 < B -> 0 <= W2 -> tdeg (syms x) + D2 < B -> exists r, mapr (term_mul E x) b = Ok r /\ fitp (wt1 x * W2) (tdeg (syms x) + D2) r /\ (b <> [] -> r <> []).
  Proof.
    intros Tx FB WB W0 DB. pose proof (wt1_pos x) as PX. destruct (mapr_total (term_mul E x) (fun t u => iterm u /\ co u = co x * co t /\ tdeg (syms u) = tdeg (syms x) + tdeg (syms t)) b) as (r & Hr & Q).
    { intros t I. pose proof (fitp_co _ _ _ _ FB I) as CT. destruct FB as (F & S & G). rewrite Forall_forall in F, G. specialize (G t I). cbn beta in G. assert (Z.abs (co x) <= wt1 x) by (unfold wt1; lia). assert (1 <= W2) by (pose proof (wt_in t b I); pose proof (wt1_pos t); lia). assert (Z.abs (co x * co t) <= wt1 x * W2) by (rewrite Z.abs_mul; nia). destruct (mul_ok P HR x t Tx (F t I)) as (u & Hu & X & Y & Z); [nia|nia|lia|lia|]. exists u. split; [exact Hu|]. split; [exact X|]. split; [exact Y|exact Z]. }
    exists r. split; [exact Hr|]. clear Hr. split; [|destruct Q; [intros; contradiction|discriminate]]. destruct FB as (F & S & G). assert (K : Forall iterm r /\ wt r <= wt1 x * wt b /\ Forall (fun t => tdeg (syms t) <= tdeg (syms x) + D2) r).
    { clear S WB. induction Q as [|t u b r (X & Y & Z) Q IH]; [split; [constructor|]; split; [cbn; lia|constructor]|]. inversion F; subst. inversion G; subst. destruct IH as (A1 & A2 & A3); try assumption. split; [now constructor|]. split; [|constructor; [lia|exact A3]]. rewrite !wt_cons. assert (wt1 u <= wt1 x * wt1 t); [|nia]. unfold wt1. rewrite Y, Z.abs_mul. nia. }
    destruct K as (A1 & A2 & A3). split; [exact A1|]. split; [nia|exact A3].
  Qed.
  Lemma mul_poly_ok W1 W2 D1 D2 a b : fitp W1 D1 a -> fitp W2 D2 b -> a <> [] -> b <> [] -> W1 * W2 < B -> D1 + D2 < B -> exists r, poly_mul_to P a b = Ok r /\ ipoly r /\ fitp (W1 * W2) (D1 + D2) r.
  Proof.
    intros FA FB NA NB WB DB. pose proof FA as (Fa & Sa & Ga). assert (W2P : 1 <= W2) by (destruct b as [|t b]; [contradiction|]; destruct FB as (_ & S & _); rewrite wt_cons in S; pose proof (wt1_pos t); pose proof (wt_pos b); lia).
    destruct (mapr_total (fun x => mapr (term_mul E x) b) (fun x row => fitp (wt1 x * W2) (tdeg (syms x) + D2) row /\ row <> []) a) as (rows & Hr & Q).
    { intros x I. pose proof (wt_in x a I). rewrite Forall_forall in Fa, Ga. specialize (Ga x I). cbn beta in Ga. destruct (row_ok W2 D2 x b (Fa x I) FB) as (r & Hr & X & Y); [nia|lia|lia|]. exists r. split; [exact Hr|]. split; [exact X|now apply Y]. }
    assert (K : fitp (W1 * W2) (D1 + D2) (concat rows) /\ concat rows <> []).
    { clear Hr. split.
      - assert (K : Forall iterm (concat rows) /\ wt (concat rows) <= wt a * W2 /\ Forall (fun t => tdeg (syms t) <= D1 + D2) (concat rows)).
        { clear FA Sa NA. induction Q as [|x row a rows ((X & Y & Z) & _) Q IH]; [split; [constructor|]; split; [cbn; lia|constructor]|]. inversion Fa; subst. inversion Ga; subst. destruct IH as (A1 & A2 & A3); try assumption. cbn [concat]. split; [now apply Forall_app|]. split; [rewrite wt_app, wt_cons; nia|]. apply Forall_app. split; [|exact A3]. eapply Forall_impl; [|exact Z]. cbn beta. intros; lia. }
        destruct K as (A1 & A2 & A3). split; [exact A1|]. split; [nia|exact A3].
      - destruct Q as [|x row a rows (_ & NR) Q]; [contradiction|]. cbn [concat]. destruct row; [contradiction|discriminate]. }
    destruct K as (FC & NC). destruct (normalize_ok _ _ _ WB FC NC) as (r & H & I & F). exists r. split; [|now split]. unfold poly_mul_to. rewrite Hr. exact H.
  Qed.
  Lemma div_poly_ok W D a : W < B -> fitp W D a -> a <> [] -> exists r, poly_div_to P a (rint 1) = Ok r /\ ipoly r /\ fitp W D r.
  Proof.
    intros WB FA NE. pose proof FA as (F & S & G). destruct (mapr_total (fun t => term_div E t (rint 1)) (fun t u => iterm u /\ co u = co t /\ tdeg (syms u) = tdeg (syms t)) a) as (r & Hr & Q).
    { intros t I. pose proof (fitp_co _ _ _ _ FA I). rewrite Forall_forall in F. destruct (div_term_ok P HR t (F t I)) as (u & Hu & X & Y & Z); [lia|]. eauto. }
    assert (K : Forall iterm r /\ wt r = wt a /\ Forall (fun t => tdeg (syms t) <= D) r).
    { clear Hr FA NE S. induction Q as [|t u a r (X & Y & Z) Q IH]; [repeat split; constructor|]. inversion F; subst. inversion G; subst. destruct IH as (A1 & A2 & A3); try assumption. split; [now constructor|]. split; [rewrite !wt_cons, A2; unfold wt1; rewrite Y; lia|constructor; [lia|exact A3]]. }
    destruct K as (A1 & A2 & A3). destruct (normalize_ok W D r WB) as (l & Hl & I & FL); [split; [exact A1|]; split; [lia|exact A3]|destruct Q; [contradiction|discriminate]|]. exists l. split; [unfold poly_div_to; rewrite Hr; exact Hl|now split].
  Qed.
End L.
