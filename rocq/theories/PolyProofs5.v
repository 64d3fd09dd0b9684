(** Values of fractions. *)
From Coq Require Import ZArith Znumtheory QArith Qreals Reals String Lia Lra Bool List Permutation.
From Verif Require Import Base AdapterModel AdapterProofs RationalModel RationalSpec RationalProofs RationalProofs2 RealModel RealSpec RealProofs1 RealProofs2 RealProofs3 RealProofs4 RealProofs5 RealProofs6 PolyModel PolySpec PolyProofs1 PolyProofs2 PolyProofs3 PolyProofs4.
Import ListNotations.
Open Scope Z_scope.

(** ** equality *)
Lemma real_eq_rv w a b : den (coe a) <> 0 -> den (coe b) <> 0 -> den (rad a) <> 0 -> den (rad b) <> 0 -> real_eq w a b = Ok true -> rv a = rv b.
Proof.
  intros A B C D H. unfold real_eq in H. apply bind_ok in H as (c & Hc & H). destruct c; cbn [negb] in H; [|discriminate]. apply bind_ok in H as (r & Hr & H). injection H as H. apply andb_true_iff in H as [-> H]. apply Z.eqb_eq in H.
  apply rat_eq_inv in Hc, Hr. symmetry in Hc, Hr. apply Z.eqb_eq in Hc, Hr. rewrite !rv_root, H. rewrite !qv_R by assumption. apply IZR_nz in A, B, C, D. f_equal; [|f_equal].
  - apply (f_equal IZR) in Hc. rewrite !mult_IZR in Hc. apply (Rmult_eq_reg_r (IZR (den (coe a)) * IZR (den (coe b)))); [|now apply Rmult_integral_contrapositive]. field_simplify; [rewrite Rmult_comm; lra|assumption|assumption].
  - apply (f_equal IZR) in Hr. rewrite !mult_IZR in Hr. apply (Rmult_eq_reg_r (IZR (den (rad a)) * IZR (den (rad b)))); [|now apply Rmult_integral_contrapositive]. field_simplify; [rewrite Rmult_comm; lra|assumption|assumption].
Qed.
Lemma term_eq_value w s a b : twf w a -> twf w b -> term_eq w a b = Ok true -> tv s a = tv s b.
Proof.
  intros [Ga Sa] [Gb Sb] H. unfold term_eq in H. apply bind_ok in H as (c & Hc & H). destruct c; [|discriminate]. apply (smap_eq_value w _ _ s) in H as [_ V]; [|apply Sa|apply Sb].
  destruct Ga as [(_ & _ & D1 & D2) _], Gb as [(_ & _ & D3 & D4) _]. apply real_eq_rv in Hc; try assumption; try lia. unfold tv. now rewrite V, Hc.
Qed.
Lemma poly_eq_value w s a b : pwf w a -> pwf w b -> poly_eq w a b = Ok true -> pv s a = pv s b.
Proof.
  intros Wa Wb H. unfold poly_eq in H. destruct (Nat.eqb_spec (length a) (length b)) as [L|]; [|discriminate]. revert b L Wb H. induction Wa as [|t a Wt Wa IH]; intros [|u b] L Wb H; cbn [length] in L; try discriminate; [reflexivity|].
  inversion Wb; subst. cbn [terms_eq] in H. apply bind_ok in H as (e & He & H). destruct e; [|discriminate]. apply (term_eq_value w s) in He; try assumption. rewrite !pv_cons, He. f_equal. apply IH; auto.
Qed.

(** ** normalize *)
Lemma dens_nz w l : Forall (fun t => den (coe (tco t)) <> 0) l -> forall m m', m <> 0 -> dens w m l = Ok m' -> m' <> 0.
Proof.
  induction 1 as [|t l D F IH]; intros m m' M H; cbn [dens] in H; [congruence|]. apply bind_ok in H as (m1 & H1 & H). apply chk_inv in H1 as [-> _]. apply IH in H; [assumption|]. now apply Z.neq_mul_0.
Qed.
Lemma pwf_dens w l : pwf w l -> Forall (fun t => den (coe (tco t)) <> 0) l.
Proof. intros H. eapply Forall_impl; [|exact H]. intros t [[(_ & _ & _ & D) _] _]. exact D. Qed.
Lemma scale_value P s m l l' : machine P -> pgood P s l -> mapr (fun t => c <- real_of_int (pe P) m ;; term_mul (pe P) t (term_const c)) l = Ok l' ->
  pgood P s l' /\ pv s l' = (IZR m * pv s l)%R.
Proof.
  intros M [W A] H. pose proof (machine_env _ M) as O. apply (mapr_value (ew (pe P)) s _ (fun x => IZR m * x)%R) in H as (W' & A' & V); try assumption; [now split|ring|intros; ring|].
  intros t t' Wt At Ht. apply bind_ok in Ht as (c & Hc & Ht). apply of_int_value in Hc as (Gc & _ & Vc); [|assumption]. destruct (const_value (ew (pe P)) s c Gc) as (X & Y & Z). apply (term_mul_value (pe P) s) in Ht as (? & _ & _ & ? & V); try assumption. split; [assumption|]. split; [assumption|]. rewrite V, Z, Vc. ring.
Qed.
Definition fgood (P : penv) (s : string -> R) (f : frac) : Prop := pgood P s (fnum f) /\ pgood P s (fden f).
Lemma frac_normalize_value P s f f' : machine P -> fgood P s f -> frac_normalize P f = Ok f' ->
  fgood P s f' /\ fnum f' <> [] /\ fden f' <> [] /\ exists k, k <> 0%R /\ (pv s (fnum f') = k * pv s (fnum f))%R /\ (pv s (fden f') = k * pv s (fden f))%R.
Proof.
  intros M [[Wn An] [Wd Ad]] H. pose proof (machine_env _ M) as O. unfold frac_normalize in H. cbv zeta in H. apply bind_ok in H as (n & Hn & H). apply bind_ok in H as (d & Hd & H). apply bind_ok in H as (m1 & Hm1 & H). apply bind_ok in H as (m & Hm & H).
  apply (poly_normalize_value P s) in Hn as (Wn1 & An1 & Vn1 & _); try assumption. apply (poly_normalize_value P s) in Hd as (Wd1 & Ad1 & Vd1 & _); try assumption.
  apply dens_nz in Hm1; [|now apply (pwf_dens (ew (pe P)))|lia]. apply dens_nz in Hm; [|now apply (pwf_dens (ew (pe P)))|assumption]. apply IZR_nz in Hm.
  apply bind_ok in H as (n2 & Hn2 & H). apply bind_ok in H as (d2 & Hd2 & H). apply (scale_value P s) in Hn2 as (Gn2 & Vn2); [|assumption|now split]. apply (scale_value P s) in Hd2 as (Gd2 & Vd2); [|assumption|now split].
  destruct n2 as [|n0 ns]; [discriminate|]. destruct d2 as [|d0 ds]; [discriminate|]. apply bind_ok in H as (a & Ha & H). apply bind_ok in H as (b & Hb & H). apply bind_ok in H as (g0 & Hg0 & H). apply bind_ok in H as (o & Ho & H). destruct o as [g|].
  - apply bind_ok in H as (gr & Hgr & H). apply bind_ok in H as (n' & Hn' & H). apply bind_ok in H as (gr2 & Hgr2 & H). apply bind_ok in H as (d' & Hd' & H). injection H as <-. rewrite Hgr in Hgr2. injection Hgr2 as <-.
    apply of_int_value in Hgr as (Gg & _ & Vg); [|assumption]. apply (poly_div_to_value P s) in Hn' as (Gn' & Vn' & NZ & Nn); try assumption. apply (poly_div_to_value P s) in Hd' as (Gd' & Vd' & _ & Nd); try assumption.
    specialize (NZ ltac:(discriminate)). cbn [fnum fden]. split; [now split|]. split; [intros X; apply Nn in X; discriminate|]. split; [intros X; apply Nd in X; discriminate|]. exists (IZR m / rv gr)%R. rewrite Vn', Vd', Vn2, Vd2, Vn1, Vd1. split; [|split; field; assumption]. unfold Rdiv. apply Rmult_integral_contrapositive. split; [assumption|now apply Rinv_neq_0_compat].
  - injection H as <-. cbn [fnum fden]. split; [now split|]. split; [discriminate|]. split; [discriminate|]. exists (IZR m). rewrite Vn2, Vd2, Vn1, Vd1. auto.
Qed.
(** with a nonzero denominator *)
Definition fval (P : penv) (s : string -> R) (f : frac) (v : R) : Prop := fgood P s f /\ (pv s (fden f) <> 0%R) /\ fv s f = v.
Lemma normalize_fval P s f f' : machine P -> fgood P s f -> pv s (fden f) <> 0%R -> frac_normalize P f = Ok f' -> fval P s f' (fv s f).
Proof.
  intros M G D H. apply (frac_normalize_value P s) in H as (G' & _ & _ & k & K & A & B); try assumption. split; [assumption|]. unfold fv. rewrite A, B. split; [now apply Rmult_integral_contrapositive|]. field. auto.
Qed.
Lemma frac_of_poly_value P s n f : machine P -> pgood P s n -> frac_of_poly P n = Ok f -> fval P s f (pv s n).
Proof.
  intros M G H. pose proof (machine_env _ M) as O. unfold frac_of_poly in H. apply bind_ok in H as (d & Hd & H). unfold poly_one in Hd. apply bind_ok in Hd as (c & Hc & Hd). apply of_int_value in Hc as (Gc & _ & Vc); [|assumption].
  apply (const_poly P s) in Hd as (Wd & Ad & Vd & _); try assumption. rewrite Vc in Vd. apply (normalize_fval P s) in H; [|assumption|split; [assumption|now split]|cbn [fden]; rewrite Vd; lra].
  unfold fv in H at 1. cbn [fnum fden] in H. rewrite Vd in H. unfold Rdiv in H. now rewrite Rinv_1, Rmult_1_r in H.
Qed.
Lemma frac_of_term_value P s t f : machine P -> twf (ew (pe P)) t -> tadm s t -> frac_of_term P t = Ok f -> fval P s f (tv s t).
Proof.
  intros M W A H. unfold frac_of_term in H. apply bind_ok in H as (n & Hn & H). apply (poly_normalize_value P s) in Hn as (Wn & An & Vn & _); [|assumption|now constructor|now constructor]. apply (frac_of_poly_value P s) in H; [|assumption|now split]. rewrite Vn, pv_cons in H. cbn [pv fold_right] in H. now rewrite Rplus_0_r in H.
Qed.
Lemma frac_of_real_value P s c f : machine P -> good (ew (pe P)) c -> frac_of_real P c = Ok f -> fval P s f (rv c).
Proof. intros M G H. destruct (const_value (ew (pe P)) s c G) as (W & A & V). rewrite <- V. now apply frac_of_term_value. Qed.
Lemma frac_make_value P s n d f : machine P -> pgood P s n -> pgood P s d -> pv s d <> 0%R -> frac_make P n d = Ok f -> fval P s f (pv s n / pv s d).
Proof.
  intros M Gn Gd D H. unfold frac_make in H. apply bind_ok in H as (z & _ & H). destruct z; [discriminate|]. apply (normalize_fval P s) in H; try assumption. now split.
Qed.

(** ** the operations *)
Lemma frac_add_value P s a b x y r : machine P -> fval P s a x -> fval P s b y -> frac_add P a b = Ok r -> fval P s r (x + y).
Proof.
  intros M ([Gan Gad] & Da & Va) ([Gbn Gbd] & Db & Vb) H. unfold frac_add in H. apply bind_ok in H as (e & He & H). destruct e.
  - apply bind_ok in H as (n & Hn & H). injection H as <-. apply (poly_add_to_value P s) in Hn as (Gn & Vn & _); try assumption. apply (poly_eq_value _ s) in He; [|apply Gad|apply Gbd]. split; [now split|]. split; [assumption|]. subst. unfold fv. cbn [fnum fden]. rewrite Vn, <- He. field. assumption.
  - apply bind_ok in H as (u & Hu & H). apply bind_ok in H as (v & Hv & H). apply bind_ok in H as (n & Hn & H). apply bind_ok in H as (d & Hd & H).
    apply (poly_mul_value P s) in Hu as (Gu & Vu & _); try assumption. apply (poly_mul_value P s) in Hv as (Gv & Vv & _); try assumption. apply (poly_add_value P s) in Hn as (Gn & Vn & _); try assumption. apply (poly_mul_to_value P s) in Hd as (Gd & Vd & _); try assumption.
    apply (normalize_fval P s) in H; [|assumption|now split|cbn [fden]; rewrite Vd; now apply Rmult_integral_contrapositive]. unfold fv in H at 1. cbn [fnum fden] in H. rewrite Vn, Vd, Vu, Vv in H. replace (x + y)%R with ((pv s (fnum a) * pv s (fden b) + pv s (fnum b) * pv s (fden a)) / (pv s (fden a) * pv s (fden b)))%R; [assumption|]. subst. unfold fv. field. auto.
Qed.
Lemma frac_negate_value P s a x r : machine P -> fval P s a x -> frac_negate P a = Ok r -> fval P s r (- x).
Proof.
  intros M ([Gn Gd] & D & V) H. pose proof (machine_env _ M) as O. unfold frac_negate in H. apply bind_ok in H as (n & Hn & H). apply (poly_negate_value _ s) in Hn as (Wn & An & Vn & _); try assumption; try apply Gn. apply (frac_make_value P s) in H; try assumption; [|now split]. rewrite Vn in H. replace (- x)%R with (- pv s (fnum a) / pv s (fden a))%R; [assumption|]. subst. unfold fv. field. assumption.
Qed.
Lemma frac_inverse_value P s a x r : machine P -> fval P s a x -> x <> 0%R -> frac_inverse P a = Ok r -> fval P s r (/ x).
Proof.
  intros M ([Gn Gd] & D & V) NZ H. unfold frac_inverse in H. assert (pv s (fnum a) <> 0%R) by (intros X; apply NZ; subst; unfold fv; rewrite X; unfold Rdiv; ring).
  apply (frac_make_value P s) in H; try assumption. replace (/ x)%R with (pv s (fden a) / pv s (fnum a))%R; [assumption|]. subst. unfold fv. field. auto.
Qed.
Lemma frac_sub_value P s a b x y r : machine P -> fval P s a x -> fval P s b y -> frac_sub P a b = Ok r -> fval P s r (x - y).
Proof. intros M A B H. unfold frac_sub in H. apply bind_ok in H as (nb & Hn & H). apply (frac_negate_value P s _ y) in Hn; try assumption. apply (frac_add_value P s a nb x (- y)%R) in H; assumption. Qed.
Lemma frac_sub_to_value P s a b x y r : machine P -> fval P s a x -> fval P s b y -> frac_sub_to P a b = Ok r -> fval P s r (x - y).
Proof.
  intros M A B H. unfold frac_sub_to in H. apply bind_ok in H as (nb & Hn & H). apply bind_ok in H as (u & Hu & H). apply (frac_negate_value P s _ y) in Hn; try assumption. apply (frac_add_value P s a nb x (- y)%R) in Hu as (Gu & Du & Vu); try assumption. apply (normalize_fval P s) in H; try assumption. unfold Rminus. now rewrite <- Vu.
Qed.
Lemma frac_mul_value P s a b x y r : machine P -> fval P s a x -> fval P s b y -> frac_mul P a b = Ok r -> fval P s r (x * y).
Proof.
  intros M ([Gan Gad] & Da & Va) ([Gbn Gbd] & Db & Vb) H. unfold frac_mul in H. apply bind_ok in H as (n & Hn & H). apply bind_ok in H as (d & Hd & H). apply (poly_mul_to_value P s) in Hn as (Gn & Vn & _); try assumption. apply (poly_mul_to_value P s) in Hd as (Gd & Vd & _); try assumption.
  apply (normalize_fval P s) in H; [|assumption|now split|cbn [fden]; rewrite Vd; now apply Rmult_integral_contrapositive]. unfold fv in H at 1. cbn [fnum fden] in H. rewrite Vn, Vd in H. replace (x * y)%R with (pv s (fnum a) * pv s (fnum b) / (pv s (fden a) * pv s (fden b)))%R; [assumption|]. subst. unfold fv. field. auto.
Qed.
Lemma frac_div_value P s a b x y r : machine P -> fval P s a x -> fval P s b y -> y <> 0%R -> frac_div P a b = Ok r -> fval P s r (x / y).
Proof.
  intros M ([Gan Gad] & Da & Va) ([Gbn Gbd] & Db & Vb) NZ H. assert (pv s (fnum b) <> 0%R) by (intros X; apply NZ; subst; unfold fv; rewrite X; unfold Rdiv; ring).
  unfold frac_div in H. apply bind_ok in H as (z & _ & H). destruct z; [discriminate|]. apply bind_ok in H as (n & Hn & H). apply bind_ok in H as (d & Hd & H). apply (poly_mul_to_value P s) in Hn as (Gn & Vn & _); try assumption. apply (poly_mul_to_value P s) in Hd as (Gd & Vd & _); try assumption.
  apply (normalize_fval P s) in H; [|assumption|now split|cbn [fden]; rewrite Vd; now apply Rmult_integral_contrapositive]. unfold fv in H at 1. cbn [fnum fden] in H. rewrite Vn, Vd in H. replace (x / y)%R with (pv s (fnum a) * pv s (fden b) / (pv s (fden a) * pv s (fnum b)))%R; [assumption|]. subst. unfold fv. field. auto.
Qed.
Lemma frac_try_eval_value P s a c : machine P -> fgood P s a -> frac_try_eval P a = Ok (Some c) -> good (ew (pe P)) c /\ rv c = fv s a /\ pv s (fden a) <> 0%R.
Proof.
  intros M [[Wn An] [Wd Ad]] H. pose proof (machine_env _ M) as O. pose proof O as (Hw & FS & FE). unfold frac_try_eval in H. apply bind_ok in H as (x & Hx & H). apply bind_ok in H as (y & Hy & H). destruct x as [x|]; [|discriminate]. destruct y as [y|]; [|discriminate]. apply bind_ok in H as (q & Hq & H). injection H as ->.
  apply (poly_try_eval_value _ s) in Hx as (Gx & Vx & _); try assumption. apply (poly_try_eval_value _ s) in Hy as (Gy & Vy & _); try assumption. assert (rv y <> 0%R) by (eapply real_div_nonzero; [exact Gy|exists (pe P); split; [reflexivity|exact Hq]]). apply real_div_value in Hq as (Gq & _ & Vq); try assumption; try apply Gx. split; [assumption|]. unfold fv. rewrite Vq, Vx, Vy. split; [reflexivity|congruence].
Qed.
Lemma frac_eval_value P s a c : machine P -> fgood P s a -> frac_eval P a = Ok c -> good (ew (pe P)) c /\ rv c = fv s a /\ pv s (fden a) <> 0%R.
Proof.
  intros M [[Wn An] [Wd Ad]] H. pose proof (machine_env _ M) as O. pose proof O as (Hw & FS & FE). unfold frac_eval in H. apply bind_ok in H as (x & Hx & H). apply bind_ok in H as (y & Hy & H).
  apply (poly_eval_value _ s) in Hx as (Gx & Vx & _); try assumption. apply (poly_eval_value _ s) in Hy as (Gy & Vy & _); try assumption. assert (rv y <> 0%R) by (eapply real_div_nonzero; [exact Gy|exists (pe P); split; [reflexivity|exact H]]). apply real_div_value in H as (Gq & _ & Vq); try assumption; try apply Gx. split; [assumption|]. unfold fv. rewrite Vq, Vx, Vy. split; [reflexivity|congruence].
Qed.
Lemma frac_pow_value P s a x n r : machine P -> fval P s a x -> 0 <= n -> Z.of_nat (fact (Z.to_nat n)) < 2 ^ (ew (pe P) - 1) -> frac_pow P a (Rat n 1) = Ok r -> fval P s r (powerRZ x n).
Proof.
  intros M (G & D & V) N B H. pose proof (machine_env _ M) as O. pose proof O as (Hw & FS & FE). unfold frac_pow in H. apply bind_ok in H as (v & Hv & H). destruct v as [c|].
  - apply (frac_try_eval_value P s) in Hv as (Gc & Vc & _); try assumption. apply bind_ok in H as (c' & Hc & H). apply pow_fuel_int in Hc as (Gc' & _ & _ & Vc'); try assumption. apply (frac_of_real_value P s) in H; try assumption. now rewrite Vc', Vc, V in H.
  - destruct G as [Gn Gd]. apply bind_ok in H as (n' & Hn & H). apply bind_ok in H as (d' & Hd & H). apply (poly_pow_value P s) in Hn as (Gn' & Vn' & _); try assumption. apply (poly_pow_value P s) in Hd as (Gd' & Vd' & _); try assumption.
    apply (normalize_fval P s) in H; [|assumption|now split|cbn [fden]; rewrite Vd'; now apply pow_nonzero]. unfold fv in H at 1. cbn [fnum fden] in H. rewrite Vn', Vd' in H. rewrite powerRZ_pos by assumption. subst x. unfold fv, Rdiv. rewrite Rpow_mult_distr, pow_inv. assumption.
Qed.
Lemma frac_subst_value P s e a x r : machine P -> fgood P (extend e s) a -> pv (extend e s) (fden a) <> 0%R -> fv (extend e s) a = x ->
  Forall (fun t => Forall (power_ok (ew (pe P)) e) (syms t)) (fnum a) -> Forall (fun t => Forall (power_ok (ew (pe P)) e) (syms t)) (fden a) -> frac_subst P e a = Ok r -> fval P s r x.
Proof.
  intros M [[Wn An] [Wd Ad]] D V Pn Pd H. pose proof (machine_env _ M) as O. unfold frac_subst in H. apply bind_ok in H as (n & Hn & H). apply bind_ok in H as (d & Hd & H). apply bind_ok in H as (f & Hf & H). apply bind_ok in H as (z & _ & H). destruct z; [discriminate|]. injection H as <-.
  apply (poly_subst_value _ e s) in Hn as (Wn' & An' & Vn' & _); try assumption. apply (poly_subst_value _ e s) in Hd as (Wd' & Ad' & Vd' & _); try assumption. apply (normalize_fval P s) in Hf; [|assumption|split; split; auto|cbn [fden]; now rewrite Vd']. unfold fv in Hf at 1. cbn [fnum fden] in Hf. rewrite Vn', Vd' in Hf. now subst.
Qed.

(** ** histories *)
Definition pint (m : smap) : Prop := Forall (fun p => den (snd p) = 1 /\ 0 < num (snd p)) m.
Lemma sadm_all m : (forall s, sadm s m) -> pint m.
Proof. intros H. specialize (H (fun _ => 0%R)). unfold sadm, pint in *. eapply Forall_impl; [|exact H]. intros p [A|[A [B|B]]]; [lra|lra|auto]. Qed.
Lemma padm_all l : (forall s, padm s l) -> Forall (fun t => pint (syms t)) l.
Proof.
  intros H. rewrite Forall_forall. intros t I. apply sadm_all. intros s. specialize (H s). unfold padm in H. rewrite Forall_forall in H. now apply H.
Qed.
Lemma pint_power w e m : Forall (fun p => good w (snd p)) e -> pint m -> Forall (power_ok w e) m.
Proof.
  intros G P. eapply Forall_impl; [|exact P]. intros [k q] [D _]. unfold power_ok. cbn [fst snd] in *. destruct (efind k e) as [v|] eqn:F; [|trivial]. split; [|now left]. clear -F G. induction G as [|[k' v'] e Gv G IH]; cbn [efind] in F; [discriminate|]. destruct (String.eqb k k'); [injection F as <-; assumption|auto].
Qed.
Lemma normalize_good P s f f' : machine P -> fgood P s f -> frac_normalize P f = Ok f' -> fgood P s f'.
Proof. intros M G H. now apply (frac_normalize_value P s) in H. Qed.
Lemma make_fgood P s n d f : machine P -> pgood P s n -> pgood P s d -> frac_make P n d = Ok f -> fgood P s f.
Proof. intros M Gn Gd H. unfold frac_make in H. apply bind_ok in H as (z & _ & H). destruct z; [discriminate|]. apply (normalize_good P s) in H; try assumption. now split. Qed.
Lemma add_good P s a b r : machine P -> fgood P s a -> fgood P s b -> frac_add P a b = Ok r -> fgood P s r.
Proof.
  intros M [Gan Gad] [Gbn Gbd] H. unfold frac_add in H. apply bind_ok in H as (e & He & H). destruct e.
  - apply bind_ok in H as (n & Hn & H). injection H as <-. apply (poly_add_to_value P s) in Hn as (Gn & _); try assumption. now split.
  - apply bind_ok in H as (u & Hu & H). apply bind_ok in H as (v & Hv & H). apply bind_ok in H as (n & Hn & H). apply bind_ok in H as (d & Hd & H).
    apply (poly_mul_value P s) in Hu as (Gu & _); try assumption. apply (poly_mul_value P s) in Hv as (Gv & _); try assumption. apply (poly_add_value P s) in Hn as (Gn & _); try assumption. apply (poly_mul_to_value P s) in Hd as (Gd & _); try assumption.
    apply (normalize_good P s) in H; [assumption|assumption|now split].
Qed.
Lemma negate_good P s a r : machine P -> fgood P s a -> frac_negate P a = Ok r -> fgood P s r.
Proof.
  intros M [Gn Gd] H. pose proof (machine_env _ M) as O. unfold frac_negate in H. apply bind_ok in H as (n & Hn & H). apply (poly_negate_value _ s) in Hn as (Wn & An & _); try assumption; try apply Gn. apply (make_fgood P s) in H; try assumption. now split.
Qed.
Lemma mul_good P s a b r : machine P -> fgood P s a -> fgood P s b -> frac_mul P a b = Ok r -> fgood P s r.
Proof.
  intros M [Gan Gad] [Gbn Gbd] H. unfold frac_mul in H. apply bind_ok in H as (n & Hn & H). apply bind_ok in H as (d & Hd & H). apply (poly_mul_to_value P s) in Hn as (Gn & _); try assumption. apply (poly_mul_to_value P s) in Hd as (Gd & _); try assumption. apply (normalize_good P s) in H; [assumption|assumption|now split].
Qed.
Lemma div_good P s a b r : machine P -> fgood P s a -> fgood P s b -> frac_div P a b = Ok r -> fgood P s r.
Proof.
  intros M [Gan Gad] [Gbn Gbd] H. unfold frac_div in H. apply bind_ok in H as (z & _ & H). destruct z; [discriminate|]. apply bind_ok in H as (n & Hn & H). apply bind_ok in H as (d & Hd & H). apply (poly_mul_to_value P s) in Hn as (Gn & _); try assumption. apply (poly_mul_to_value P s) in Hd as (Gd & _); try assumption. apply (normalize_good P s) in H; [assumption|assumption|now split].
Qed.
Lemma fpow_good P s a n r : machine P -> fgood P s a -> 0 <= n -> Z.of_nat (fact (Z.to_nat n)) < 2 ^ (ew (pe P) - 1) -> frac_pow P a (Rat n 1) = Ok r -> fgood P s r.
Proof.
  intros M G N B H. pose proof (machine_env _ M) as O. pose proof O as (Hw & FS & FE). unfold frac_pow in H. apply bind_ok in H as (v & Hv & H). destruct v as [c|].
  - apply (frac_try_eval_value P s) in Hv as (Gc & Vc & _); try assumption. apply bind_ok in H as (c' & Hc & H). apply pow_fuel_int in Hc as (Gc' & _ & _ & Vc'); try assumption. apply (frac_of_real_value P s) in H as [H _]; assumption.
  - destruct G as [Gn Gd]. apply bind_ok in H as (n' & Hn & H). apply bind_ok in H as (d' & Hd & H). apply (poly_pow_value P s) in Hn as (Gn' & _); try assumption. apply (poly_pow_value P s) in Hd as (Gd' & _); try assumption.
    apply (normalize_good P s) in H; [assumption|assumption|now split].
Qed.
Lemma subst_good P s e a r : machine P -> fgood P (extend e s) a -> Forall (fun t => Forall (power_ok (ew (pe P)) e) (syms t)) (fnum a) -> Forall (fun t => Forall (power_ok (ew (pe P)) e) (syms t)) (fden a) -> frac_subst P e a = Ok r -> fgood P s r.
Proof.
  intros M [[Wn An] [Wd Ad]] Pn Pd H. pose proof (machine_env _ M) as O. unfold frac_subst in H. apply bind_ok in H as (n & Hn & H). apply bind_ok in H as (d & Hd & H). apply bind_ok in H as (f & Hf & H). apply bind_ok in H as (z & _ & H). destruct z; [discriminate|]. injection H as <-.
  apply (poly_subst_value _ e s) in Hn as (Wn' & An' & _); try assumption. apply (poly_subst_value _ e s) in Hd as (Wd' & Ad' & _); try assumption. apply (normalize_good P s) in Hf; [assumption|assumption|split; split; auto].
Qed.
Lemma sym_wf w s c k : good w c -> twf w (term_sym c k) /\ tadm s (term_sym c k).
Proof.
  intros G. split; [split; [assumption|]|].
  - split; cbn; [constructor; [intros []|constructor]|]. constructor; [|constructor]. cbn. split; [cbn; lia|reflexivity].
  - constructor; [|constructor]. right. cbn. split; [reflexivity|right; lia].
Qed.
Lemma frun_value P e : machine P -> fwf (ew (pe P)) e -> forall f, frun P e = Ok f -> (forall s, fgood P s f) /\ (forall s, fdefined s e -> fval P s f (fdenotes s e)).
Proof.
  intros M. pose proof (machine_env _ M) as O. induction e as [c|k|a IHa b IHb|a IHa b IHb|a IHa b IHb|a IHa b IHb|a IHa|a IHa|a IHa n|e a IHa]; intros W f H; cbn [frun fwf] in *.
  - assert (X : forall s, fval P s f (rv c)) by (intros s; now apply frac_of_real_value). split; [intros s; apply X|intros s _; apply X].
  - apply bind_ok in H as (c & Hc & H). apply of_int_value in Hc as (Gc & _ & Vc); [|assumption]. assert (X : forall s, fval P s f (s k)).
    { intros s. destruct (sym_wf _ s c k Gc) as [Wt At]. apply (frac_of_term_value P s) in H; try assumption. replace (s k) with (tv s (term_sym c k)); [assumption|]. unfold tv, term_sym. cbn [tco syms sv fold_right fst snd]. rewrite Vc, pwr_int, powerRZ_1. ring. }
    split; [intros s; apply X|intros s _; apply X].
  - destruct W as [Wa Wb]. apply bind_ok in H as (x & Hx & H). apply bind_ok in H as (y & Hy & H). destruct (IHa Wa _ Hx) as [Ga Va], (IHb Wb _ Hy) as [Gb Vb]. split; [intros s; now apply (add_good P s x y)|]. intros s [D1 D2]. cbn [fdenotes]. apply (frac_add_value P s x y); auto.
  - destruct W as [Wa Wb]. apply bind_ok in H as (x & Hx & H). apply bind_ok in H as (y & Hy & H). destruct (IHa Wa _ Hx) as [Ga Va], (IHb Wb _ Hy) as [Gb Vb]. split.
    + intros s. unfold frac_sub in H. apply bind_ok in H as (nb & Hn & H). apply (add_good P s x nb); auto. now apply (negate_good P s y).
    + intros s [D1 D2]. cbn [fdenotes]. apply (frac_sub_value P s x y); auto.
  - destruct W as [Wa Wb]. apply bind_ok in H as (x & Hx & H). apply bind_ok in H as (y & Hy & H). destruct (IHa Wa _ Hx) as [Ga Va], (IHb Wb _ Hy) as [Gb Vb]. split; [intros s; now apply (mul_good P s x y)|]. intros s [D1 D2]. cbn [fdenotes]. apply (frac_mul_value P s x y); auto.
  - destruct W as [Wa Wb]. apply bind_ok in H as (x & Hx & H). apply bind_ok in H as (y & Hy & H). destruct (IHa Wa _ Hx) as [Ga Va], (IHb Wb _ Hy) as [Gb Vb]. split; [intros s; now apply (div_good P s x y)|]. intros s (D1 & D2 & NZ). cbn [fdenotes]. apply (frac_div_value P s x y); auto.
  - apply bind_ok in H as (x & Hx & H). destruct (IHa W _ Hx) as [Ga Va]. split; [intros s; now apply (negate_good P s x)|]. intros s D. cbn [fdenotes]. apply (frac_negate_value P s x); auto.
  - apply bind_ok in H as (x & Hx & H). destruct (IHa W _ Hx) as [Ga Va]. split; [intros s; destruct (Ga s); now apply (make_fgood P s (fden x) (fnum x))|]. intros s [D NZ]. cbn [fdenotes]. apply (frac_inverse_value P s x); auto.
  - destruct W as (Wa & N & B). apply bind_ok in H as (x & Hx & H). destruct (IHa Wa _ Hx) as [Ga Va]. split; [intros s; now apply (fpow_good P s x n)|]. intros s D. cbn [fdenotes]. apply (frac_pow_value P s x); auto.
  - destruct W as (We & Wa). apply bind_ok in H as (x & Hx & H). destruct (IHa Wa _ Hx) as [Ga Va].
    assert (Pn : Forall (fun t => Forall (power_ok (ew (pe P)) e) (syms t)) (fnum x)). { eapply Forall_impl; [|apply (padm_all (fnum x)); intros s; apply Ga]. intros t Ht. now apply pint_power. }
    assert (Pd : Forall (fun t => Forall (power_ok (ew (pe P)) e) (syms t)) (fden x)). { eapply Forall_impl; [|apply (padm_all (fden x)); intros s; apply Ga]. intros t Ht. now apply pint_power. }
    split; [intros s; now apply (subst_good P s e x)|]. intros s D. cbn [fdenotes]. destruct (Va (extend e s) D) as (G & NZ & V). now apply (frac_subst_value P s e x).
Qed.

(** ** division by zero *)
Lemma of_int0 E z : okenv E -> real_of_int E 0 = Ok z -> idx z = 1 /\ rad z = Rat 1 1 /\ num (coe z) = 0.
Proof.
  intros O H. pose proof (of_int_value _ _ _ O H) as (G & C & V). pose proof (of_int_coe _ _ _ O H) as N. rewrite Z.mul_0_l in N. destruct C as (m & Em & Hm & Hi & Hd & P1 & P2 & Z0). specialize (Z0 N). split; [assumption|]. split; [|assumption].
  destruct (Z.eq_dec m 1) as [->|]; [assumption|]. exfalso. rewrite Z0 in P1. destruct (Valuation.prime_divisor_exists m) as (p & Pp & Dp); [lia|]. apply (P1 p Pp). now rewrite Z.pow_1_r.
Qed.
Lemma is_zero_true E l : okenv E -> Forall (fun t => tco t = real_zero) l -> (exists z, real_of_int E 0 = Ok z) -> poly_is_zero E l = Ok true.
Proof.
  intros O F [z Hz]. pose proof O as (Hw & _). destruct (of_int0 _ _ O Hz) as (I & R & N). induction F as [|t l Ht F IH]; [reflexivity|]. cbn [poly_is_zero]. rewrite Hz. cbn [bind]. unfold real_ne, real_eq. rewrite Ht, I, R. cbn [real_zero coe rad idx]. unfold rat_eq. rewrite N. cbn [num den].
  rewrite Z.mul_0_l. assert (2 <= 2 ^ (ew E - 1)) by (change 2 with (2 ^ 1) at 1; apply Z.pow_le_mono_r; lia). rewrite !chk_ok by lia. cbn. exact IH.
Qed.
Lemma div_zero P a b : machine P -> Forall (fun t => tco t = real_zero) (fnum b) -> (exists z, real_of_int (pe P) 0 = Ok z) -> frac_div P a b = Throw division_by_zero /\ frac_inverse P b = Throw division_by_zero.
Proof. intros M F Z. pose proof (machine_env _ M) as O. unfold frac_div, frac_inverse, frac_make. rewrite (is_zero_true _ _ O F Z). cbn. auto. Qed.
Lemma is_zero_nonzero E l : okenv E -> pwf (ew E) l -> poly_is_zero E l = Ok true -> Forall (fun t => rv (tco t) = 0%R) l.
Proof.
  intros O W. induction W as [|t l Wt Wl IH]; intros H; [constructor|]. cbn [poly_is_zero] in H. apply bind_ok in H as (z & Hz & H). apply bind_ok in H as (n & Hn & H). destruct n; [discriminate|]. constructor; [|auto].
  unfold real_ne in Hn. apply bind_ok in Hn as (e & He & Hn). destruct e; [|discriminate]. apply of_int_value in Hz as (Gz & _ & Vz); [|assumption]. destruct Wt as [[(_ & _ & D1 & D2) _] _]. destruct Gz as [(_ & _ & D3 & D4) _]. apply real_eq_rv in He; try assumption; try lia. now rewrite He.
Qed.
