(** Proofs: values of quotients of sums of powers, and where they are defined. *)
From Coq Require Import ZArith Znumtheory QArith Qreals Reals String Ascii Lia Lra Bool List Permutation Sorted.
From Verif Require Import Base HugeSpec AdapterModel AdapterProofs RationalModel RationalSpec RationalProofs RationalProofs2 RealModel RealSpec RealProofs1 RealProofs3 RealProofs4 PolyModel PolySpec PolyProofs1 PolyProofs2 PolyProofs3 PolyProofs4 PolyProofs5 PolyProofs6 ExprModel ExprSpec ExprProofs1 ParserModel TextSpec TextProofs1 RingProofs1 RingProofs2 RingProofs3 TextProofs2 RingProofs4 RingProofs5 RatfunSpec RatfunProofs1 RatfunProofs2 RatfunProofs3 RatfunProofs4.
Import ListNotations.
Open Scope Z_scope.

Definition qpairs (l : poly) : list (R * smap) := map (fun t => (rv (tco t), syms t)) l.
Lemma pv_qlin s l : pv s l = lin s (qpairs l).
Proof. induction l as [|t l IH]; [reflexivity|]. rewrite pv_cons, IH. reflexivity. Qed.
Lemma csum_qabsent m l : (forall t, In t l -> syms t <> m) -> csum m (qpairs l) = 0%R.
Proof. induction l as [|t l IH]; intros H; [reflexivity|]. change (qpairs (t :: l)) with ((rv (tco t), syms t) :: qpairs l). rewrite csum_cons. destruct (smap_dec (syms t) m) as [Q|_]; [exfalso; apply (H t); [now left|exact Q]|]. rewrite IH; [ring|]. intros u I. apply H. now right. Qed.

Section V.
  Variable P : penv.
  Hypothesis HR : reads P.
  Hypothesis HM : machine P.
  Hypothesis HS : sort_orders P.
  Local Notation E := (pe P).
  Local Notation w := (ew (pe P)).
  Local Notation qterm := (qterm name_ok).
  Local Notation qpoly := (qpoly name_ok).
  Local Notation one := [term_const (rint 1)].

  Lemma israt_zero x : israt x -> (rv x = 0%R <-> num (coe x) = 0).
  Proof. intros (q & -> & D). exact (rq_zero q D). Qed.
  Lemma qabsent t l : Forall (fun b => syms_cmp (syms t) (syms b) = Gt) l -> qterm t -> forall u, In u l -> syms u <> syms t.
  Proof.
    destruct syms_total as (S1 & _). intros G T u I Q. rewrite Forall_forall in G. specialize (G u I). rewrite Q, S1 in G; [discriminate|]. apply (qterm_qok name_ok t T).
  Qed.
  Lemma csum_qin l : Forall qterm l -> desc l -> forall t, In t l -> csum (syms t) (qpairs l) = rv (tco t).
  Proof.
    intros F D. revert F. induction D as [|u l D IH G]; intros F t I; [contradiction|]. inversion F as [|? ? Tu Tl]; subst. change (qpairs (u :: l)) with ((rv (tco u), syms u) :: qpairs l). rewrite csum_cons. destruct I as [-> |I].
    - destruct (smap_dec (syms t) (syms t)); [|contradiction]. rewrite csum_qabsent; [ring|]. intros v J. apply (qabsent t l); assumption.
    - destruct (smap_dec (syms u) (syms t)) as [Q|_]; [exfalso; apply (qabsent u l G Tu t I); congruence|]. rewrite IH by assumption. ring.
  Qed.
  Lemma qpairs_mono l : Forall qterm l -> Forall (fun p => mono (snd p)) (qpairs l).
  Proof. intros F. unfold qpairs. rewrite Forall_map. eapply Forall_impl; [|exact F]. intros t T. cbn [snd]. exact (qterm_mono name_ok t T). Qed.
  Lemma zero_coefficients l : qpoly l -> (forall s, pos s -> pv s l = 0%R) -> no_terms l.
  Proof.
    intros (F & D & _) H. assert (C : forall m, csum m (qpairs l) = 0%R).
    { apply (independent (length (qpairs l))); [lia|now apply qpairs_mono|]. intros s S. rewrite <- pv_qlin. now apply H. }
    apply Forall_forall. intros t I. rewrite Forall_forall in F. destruct (F t I) as [X _]. apply (israt_zero _ X). rewrite <- (csum_qin l); [apply C|now apply Forall_forall|exact D|exact I].
  Qed.
  Lemma nonzero_q l : qpoly l -> ~ no_terms l -> nonzero_somewhere (qpairs l).
  Proof.
    intros Q N. split; [apply qpairs_mono, Q|]. apply Classical_Prop.NNPP. intros X. apply N. apply zero_coefficients; [exact Q|]. intros s S. apply Classical_Prop.NNPP. intros Y. apply X. exists s. split; [exact S|]. now rewrite <- pv_qlin.
  Qed.
  Lemma zero_value s l : Forall qterm l -> no_terms l -> pv s l = 0%R.
  Proof.
    intros F N. induction l as [|t l IH]; [reflexivity|]. inversion F as [|? ? [X _] F']; subst. inversion N as [|? ? Z N']; subst. rewrite pv_cons, IH by assumption. unfold tv. rewrite (proj2 (israt_zero _ X) Z). ring.
  Qed.
  Lemma eq_zero_q x z : israt x -> real_eq w x (rint 0) = Ok z -> z = (num (coe x) =? 0).
  Proof.
    intros (q & -> & D) H. unfold real_eq in H. cbn [rint rq coe rad idx] in H. apply bind_ok in H as (c & Hc & H). apply rat_eq_inv in Hc. cbn [num den] in Hc. rewrite Z.mul_1_r in Hc. cbn [Z.mul] in Hc. subst c. cbn [rq coe]. destruct (num q =? 0); cbn [negb] in H; [|congruence].
    apply bind_ok in H as (r & Hr & H). apply rat_eq_inv in Hr. cbn in Hr. subst r. cbn in H. congruence.
  Qed.
  Lemma is_zero_q : forall l z, Forall qterm l -> poly_is_zero E l = Ok z -> (z = true <-> no_terms l).
  Proof.
    pose proof (w4 P HR) as W4. induction l as [|u l IH]; intros z F H; cbn [poly_is_zero] in H; [injection H as <-; split; [constructor|reflexivity]|]. inversion F as [|? ? Tu Tl]; subst. rewrite (of_int P HR) in H by lia. cbn [bind] in H. apply bind_ok in H as (n & Hn & H). unfold real_ne in Hn. apply bind_ok in Hn as (e & He & Hn). injection Hn as <-. apply eq_zero_q in He; [|apply Tu].
    destruct (Z.eqb_spec (num (coe (tco u))) 0) as [Z|N]; subst e; cbn [negb] in *.
    - apply IH in H; [|exact Tl]. rewrite H. split; [now constructor|]. intros X. now inversion X.
    - injection H as <-. split; [discriminate|]. intros X. inversion X. contradiction.
  Qed.

  Lemma padm_q s l : pos s -> padm s l.
  Proof. intros S. apply Forall_forall. intros t _. unfold tadm, sadm. apply Forall_forall. intros p _. left. apply S. Qed.
  Lemma pwf_q l : Forall qterm l -> pwf w l.
  Proof. intros F. eapply Forall_impl; [|exact F]. intros t T. exact (proj1 (qterm_tok P name_ok HR t T)). Qed.
  Lemma leaf_def s f : pos s -> rational_function w (Leaf f) -> leaf_defined w s f.
  Proof.
    intros S Q. assert (F : fden f = one) by (destruct Q as [(n & _ & ->)|(k & _ & ->)]; reflexivity). apply (leaf_q P) in Q as [A B]. split; [apply pwf_q, A|]. split; [apply pwf_q, B|]. split; [now apply padm_q|]. split; [now apply padm_q|]. rewrite F, pv_one. lra.
  Qed.
  Lemma fact_above n : 0 <= n -> n <= Z.of_nat (fact (Z.to_nat n)).
  Proof. intros N. assert (NF : forall k, Z.of_nat k <= Z.of_nat (fact k)) by (induction k as [|k IH]; [cbn; lia|]; rewrite fact_simpl, Nat2Z.inj_mul; pose proof (lt_O_fact k); nia). specialize (NF (Z.to_nat n)). lia. Qed.
  Lemma defined_q s : pos s -> forall e, rational_function w e -> has_value s e -> edefined P s e.
  Proof.
    intros S. induction e as [f|c l IHl r IHr]; intros Q V; [now apply leaf_def|]. cbn [rational_function] in Q. cbn [has_value] in V. destruct V as (Vl & Vr & Vd). cbn [edefined]. destruct Q as [(C & Ql & Qr)|[(-> & Ql & n & N & B & ->)|(-> & k & n & m & K & -> & N & M & ->)]].
    - split; [now apply IHl|]. split; [now apply IHr|]. split; [exact Vd|]. destruct C as [-> |[-> |[-> | ->]]]; discriminate.
    - pose proof (fact_above n N). split; [now apply IHl|]. split; [apply leaf_def; [exact S|]; left; exists n; split; [lia|reflexivity]|]. split; [discriminate|]. intros _ a b q _ Hb Hq. cbn [expr_try_eval] in Hb. injection Hb as <-. apply (computed P HR) in Hq as ->. split; [cbn; lia|]. split; [apply (proj2 (qok_z n))|]. left. split; [reflexivity|]. split; [right; exact N|]. left. exact B.
    - split; [apply leaf_def; [exact S|]; right; eauto|]. split.
      + cbn [has_value] in Vr. destruct Vr as (_ & _ & Vr). cbn [edefined]. split; [apply leaf_def; [exact S|]; left; eauto|]. split; [apply leaf_def; [exact S|]; left; exists m; split; [lia|reflexivity]|]. split; [exact Vr|discriminate].
      + split; [discriminate|]. intros _ a b q Ha Hb Hq. cbn [expr_try_eval] in Ha. injection Ha as <-. apply (eval_ratio P HR HM HS) in Hb as (b' & Eb & L & _); [|lia|lia]. injection Eb as <-. destruct (ratio_q P HR b q L Hq) as ([D T] & Nn & Dw). split; [exact D|]. split; [exact T|]. right. destruct (frac_try_eval P (leaf_sym k)) as [[c|]| | |] eqn:Hc.
        { apply (sym_try P) in Hc. discriminate. }
        all: split; [exact S|]; eexists _, _; split; [reflexivity|]; split; [reflexivity|]; unfold root_fits; cbn [tco term_sym term_const rint coe num den idx]; lia.
  Qed.

  Lemma value_q s e f : pos s -> rational_function w e -> has_value s e -> expr_try_eval P e = Ok (Some f) -> pv s (fden f) <> 0%R /\ fv s f = ev s e.
  Proof. intros S Q V H. destruct (try_eval_value P s e f HM (defined_q s S e Q V) H) as (_ & A & B). now split. Qed.
  Lemma literal_ev s n : ev s (Leaf (leaf_int n)) = IZR n.
  Proof. cbn [ev]. unfold fv, leaf_int. cbn [fnum fden]. rewrite pv_one. unfold pv. cbn [fold_right]. unfold tv. cbn [term_const tco syms sv fold_right]. rewrite rv_int. field. Qed.
  Definition domain (e : expr) : Prop := exists L, Forall nonzero_somewhere L /\ forall s, pos s -> Forall (fun l => lin s l <> 0%R) L -> has_value s e.
  Lemma domain_node c l r : rational_function w (Op c l r) -> (c = "/"%char -> exists b, expr_try_eval P r = Ok (Some b) /\ qfrac b /\ poly_is_zero E (fnum b) = Ok false) -> domain l -> domain r -> domain (Op c l r).
  Proof.
    intros Q D (L1 & N1 & H1) (L2 & N2 & H2). destruct (Ascii.ascii_dec c "/") as [-> |C].
    - destruct (D eq_refl) as (b & Hb & B & Z). exists (qpairs (fnum b) :: L1 ++ L2). split.
      + constructor; [|apply Forall_app; now split]. apply nonzero_q; [apply B|]. intros X. apply is_zero_q in Z; [|apply B]. apply Z in X. discriminate.
      + intros s S F. inversion F as [|? ? F0 F']; subst. apply Forall_app in F' as [F1 F2]. cbn [has_value]. split; [now apply H1|]. split; [now apply H2|]. intros _. cbn [rational_function] in Q. destruct Q as [(_ & _ & Qr)|[(X & _)|(X & _)]]; [|discriminate|discriminate]. destruct (value_q s r b S Qr (H2 s S F2) Hb) as [V1 V2]. rewrite <- V2. unfold fv. intros X. apply Rmult_integral in X as [X|X]; [rewrite pv_qlin in X; contradiction|]. apply Rinv_neq_0_compat in V1. contradiction.
    - exists (L1 ++ L2). split; [apply Forall_app; now split|]. intros s S F. apply Forall_app in F as [F1 F2]. cbn [has_value]. split; [now apply H1|]. split; [now apply H2|]. intros X. contradiction.
  Qed.
  Lemma domain_leaf f : domain (Leaf f). Proof. exists []. split; [constructor|]. intros s _ _. exact I. Qed.
  Lemma domain_ratio n m : 0 < m -> domain (Op "/" (Leaf (leaf_int n)) (Leaf (leaf_int m))).
  Proof. intros M. exists []. split; [constructor|]. intros s _ _. cbn [has_value]. split; [exact I|]. split; [exact I|]. intros _. rewrite literal_ev. apply not_0_IZR. lia. Qed.
  Theorem domain_eval : forall e f, rational_function w e -> expr_try_eval P e = Ok (Some f) -> domain e.
  Proof.
    induction e as [f0|c l IHl r IHr]; intros f Q H; [apply domain_leaf|]. assert (Q0 := Q). cbn [rational_function] in Q. cbn [expr_try_eval] in H. apply bind_ok in H as (a & Ha & H). apply bind_ok in H as (b & Hb & H). destruct Q as [(C & Ql & Qr)|[(-> & Ql & n & N & _ & ->)|(-> & k & n & m & K & -> & N & M & ->)]].
    - destruct (eval_q P HR HM HS l a Ql Ha) as (fa & -> & FA). destruct (eval_q P HR HM HS r b Qr Hb) as (fb & -> & FB). assert (NE : Ascii.eqb c "^" = false) by (destruct C as [-> |[-> |[-> | ->]]]; reflexivity). rewrite NE in H. apply bind_ok in H as (x & Hx & H). apply (op_q P HR HM HS) in Hx as [_ X]; try assumption. apply domain_node; [exact Q0| |now apply (IHl fa)|now apply (IHr fb)]. intros ->. exists fb. split; [exact Hb|]. split; [exact FB|]. now apply X.
    - destruct (eval_q P HR HM HS l a Ql Ha) as (fa & -> & FA). apply domain_node; [exact Q0|discriminate|now apply (IHl fa)|apply domain_leaf].
    - apply domain_node; [exact Q0|discriminate|apply domain_leaf|apply domain_ratio; lia].
  Qed.
  Theorem domain_normalize e e' : rational_function w e -> expr_normalize P e = Ok e' -> domain e.
  Proof.
    destruct e as [f0|c l r]; intros Q H; [apply domain_leaf|]. assert (Q0 := Q). cbn [rational_function] in Q. cbn [expr_normalize] in H. apply bind_ok in H as (a & Ha & H). apply bind_ok in H as (b & Hb & H). destruct Q as [(C & Ql & Qr)|[(-> & Ql & n & N & _ & ->)|(-> & k & n & m & K & -> & N & M & ->)]].
    - destruct (eval_q P HR HM HS l a Ql Ha) as (fa & -> & FA). destruct (eval_q P HR HM HS r b Qr Hb) as (fb & -> & FB). assert (NE : Ascii.eqb c "^" = false) by (destruct C as [-> |[-> |[-> | ->]]]; reflexivity). rewrite NE in H. apply bind_ok in H as (x & Hx & H). apply (op_q P HR HM HS) in Hx as [_ X]; try assumption. apply domain_node; [exact Q0| |now apply (domain_eval l fa)|now apply (domain_eval r fb)]. intros ->. exists fb. split; [exact Hb|]. split; [exact FB|]. now apply X.
    - destruct (eval_q P HR HM HS l a Ql Ha) as (fa & -> & FA). apply domain_node; [exact Q0|discriminate|now apply (domain_eval l fa)|apply domain_leaf].
    - apply domain_node; [exact Q0|discriminate|apply domain_leaf|apply domain_ratio; lia].
  Qed.
  (** the value of the simplified fraction *)
  Theorem normalized s e f : pos s -> rational_function w e -> has_value s e -> expr_normalize P e = Ok (Leaf f) -> pv s (fden f) <> 0%R /\ fv s f = ev s e.
  Proof.
    intros S Q V H. pose proof (defined_q s S e Q V) as D. split; [|exact (normalize_value P s e HM D (Leaf f) H)].
    destruct e as [f0|c l r]; [cbn in H; injection H as <-; apply D|]. assert (H' := H). cbn [expr_normalize] in H. apply bind_ok in H as (a & Ha & H). apply bind_ok in H as (b & Hb & H). cbn [has_value] in V. destruct V as (Vl & Vr & Vd). cbn [edefined] in D. destruct D as (Dl & Dr & _ & Dp). destruct a as [a|], b as [b|].
    2,3,4: apply bind_ok in H as (? & _ & H); apply bind_ok in H as (? & _ & H); discriminate.
    pose proof (try_eval_value P s l a HM Dl Ha) as Fa. pose proof (try_eval_value P s r b HM Dr Hb) as Fb. destruct (Ascii.eqb_spec c "^") as [-> |C].
    - apply bind_ok in H as (p & Hp & H). destruct p as [p|]; [|apply bind_ok in H as (? & _ & H); apply bind_ok in H as (? & _ & H); discriminate]. apply bind_ok in H as (q & Hq & H). apply bind_ok in H as (x & Hx & H). injection H as <-. assert (CE : computed_exponent P b q) by (exists p; split; [exact Hp|now right]). pose proof (power_value P s a (ev s l) b (ev s r) q x HM Fa Fb CE (Dp eq_refl a b q Ha Hb CE) Hx) as X. apply X.
    - apply bind_ok in H as (x & Hx & H). injection H as <-. pose proof (apply_op_value P s c a b _ _ x HM Fa Fb Vd C Hx) as X. apply X.
  Qed.
End V.
