(** Proofs: sums of rational multiples of products of powers, in the order of the comparator. *)
From Coq Require Import ZArith Znumtheory QArith Qreals Reals String Ascii Lia Lra Bool List Permutation Sorted.
From Verif Require Import Base AdapterModel AdapterProofs RationalModel RationalSpec RationalProofs RationalProofs2 RealModel RealSpec RealProofs1 RealProofs3 RealProofs4 PolyModel PolySpec PolyProofs1 PolyProofs2 PolyProofs3 PolyProofs4 PolyProofs6 ExprModel ParserModel TextSpec TextProofs1 RingProofs1 RingProofs2 RingProofs3 RatfunProofs2.
Import ListNotations.
Open Scope Z_scope.

Section T.
  Variable P : penv.
  Variable N : string -> Prop.
  Hypothesis HR : reads P.
  Hypothesis HM : machine P.
  Local Notation E := (pe P).
  Local Notation w := (ew (pe P)).
  Definition qentry (p : string * rat) : Prop := N (fst p) /\ qok (snd p).
  Definition qsyms (m : smap) : Prop := skeys m /\ Forall qentry m.
  Definition qmono (m : smap) : Prop := qsyms m /\ Forall (fun p => num (snd p) <> 0) m.
  Definition qterm (t : term) : Prop := israt (tco t) /\ qmono (syms t).

  Lemma merge_q : forall b a m, qsyms a -> qsyms b -> merge_syms w b a = Ok m -> qsyms m.
  Proof.
    induction b as [|[k q] b IH]; intros a m A B H; cbn [merge_syms] in H; [injection H as <-; exact A|].
    destruct B as [Sb Fb]. inversion Sb as [|? ? Sb' _]; subst. inversion Fb as [|? ? Eb Fb']; subst. destruct A as [Sa Fa]. destruct (sfind k a) as [q0|] eqn:F.
    - apply bind_ok in H as (q1 & Hq & H). apply sfind_in in F. pose proof (proj1 (Forall_forall _ _) Fa _ F) as E0. destruct E0 as [N0 Q0], Eb as [N1 Q1]. cbn [fst snd] in *. pose proof (qok_add _ _ _ _ Q0 Q1 Hq) as Q2. apply IH in H; [exact H| |split; assumption]. split; [now apply update_skeys|]. apply supdate_forall; [exact Fa|]. now split.
    - apply sfind_none_in in F. apply IH in H; [exact H| |split; assumption]. split; [now apply insert_skeys|]. apply insert_forall; assumption.
  Qed.
  Lemma drop_q : forall m m', qsyms m -> drop_zero w m = Ok m' -> qmono m'.
  Proof.
    assert (H : forall m m', drop_zero w m = Ok m' -> qsyms m -> qmono m' /\ incl m' m).
    { induction m as [|[k v] m IH]; intros m' H [S F]; cbn [drop_zero] in H; [injection H as <-; split; [split; [split; constructor|constructor]|apply incl_refl]|].
      inversion S as [|? ? S' L]; subst. inversion F as [|? ? F1 F']; subst. apply bind_ok in H as (z & Hz & H). apply bind_ok in H as (r & Hr & H). injection H as <-. apply IH in Hr as [[[Sr Fr] Nr] I]; [|split; assumption].
      apply rat_eq_inv in Hz. cbn [num den] in Hz. rewrite Z.mul_1_r, Z.mul_0_l in Hz. destruct (Z.eqb_spec (num v) 0) as [Z0|Z0]; subst z.
      - split; [split; [split; assumption|assumption]|]. intros x J. right. now apply I.
      - split; [|intros x [<-|J]; [now left|right; now apply I]]. split; [split|].
        + constructor; [exact Sr|]. rewrite Forall_forall in *. intros x J. apply L, I, J.
        + now constructor.
        + now constructor. }
    intros m m' A B. now apply (H m m').
  Qed.
  Lemma qterm_of c m : israt c -> qsyms m -> forall t, term_normalize w (Term c m) = Ok t -> qterm t.
  Proof. intros B A t H. unfold term_normalize in H. cbn [tco syms] in H. apply bind_ok in H as (s & Hs & H). injection H as <-. split; [exact B|]. cbn [syms]. now apply (drop_q m). Qed.
  Lemma tmul a b t : qterm a -> qterm b -> term_mul E a b = Ok t -> qterm t.
  Proof.
    intros [Ra [A _]] [Rb [B _]] H. unfold term_mul in H. apply bind_ok in H as (s & Hs & H). apply bind_ok in H as (c & Hc & H). apply (qmul P HR) in Hc; try assumption. apply merge_q in Hs; try assumption. eapply qterm_of; [exact Hc|exact Hs|exact H].
  Qed.
  Lemma tneg a t : qterm a -> term_negate E a = Ok t -> qterm t.
  Proof. intros [Ra [A _]] H. unfold term_negate in H. apply bind_ok in H as (c & Hc & H). apply (qneg P HR) in Hc; [|exact Ra]. eapply qterm_of; [exact Hc|exact A|exact H]. Qed.
  Lemma tdiv a r t : israt r -> qterm a -> term_div E a r = Ok t -> qterm t.
  Proof. intros Rr [Ra [A _]] H. unfold term_div in H. apply bind_ok in H as (c & Hc & H). apply (qdiv P HR) in Hc; try assumption. eapply qterm_of; [exact Hc|exact A|exact H]. Qed.
  Lemma scale_q q : qok q -> forall m m', qsyms m -> scale_syms w q m = Ok m' -> qsyms m' /\ map fst m' = map fst m.
  Proof.
    intros Q. induction m as [|[k v] m IH]; intros m' [S F] H; cbn [scale_syms] in H; [injection H as <-; split; [split; constructor|reflexivity]|].
    inversion S as [|? ? S' L]; subst. inversion F as [|? ? [N1 Q1] F']; subst. apply bind_ok in H as (v' & Hv & H). apply bind_ok in H as (r & Hr & H). injection H as <-. apply IH in Hr as [[Sr Fr] K]; [|split; assumption]. cbn [fst snd] in *. pose proof (qok_mul _ _ _ _ Q1 Q Hv) as Q2. split; [|cbn [map fst]; now rewrite K]. split.
    - constructor; [exact Sr|]. rewrite Forall_forall in *. intros x J. assert (I : In (fst x) (map fst m)) by (rewrite <- K; now apply in_map). apply in_map_iff in I as (z & Hz & I). cbn [fst]. rewrite <- Hz. exact (L z I).
    - constructor; [now split|exact Fr].
  Qed.
  Lemma tpow a n t : 0 <= n -> qterm a -> term_pow E a (Rat n 1) = Ok t -> qterm t.
  Proof.
    intros Hn [Ra [A _]] H. unfold term_pow in H. apply bind_ok in H as (c & Hc & H). apply (qpow P HR) in Hc; try assumption. apply bind_ok in H as (s & Hs & H). apply (scale_q _ (qok_z n)) in Hs as [Hs _]; [|exact A]. eapply qterm_of; [exact Hc|exact Hs|exact H].
  Qed.
  Lemma troot m q t : qok q -> den q < 2 ^ w -> 0 <= num q -> qsyms m -> term_pow E (Term (rint 1) m) q = Ok t -> qterm t.
  Proof.
    intros Q B Hn A H. unfold term_pow in H. cbn [tco syms] in H. apply bind_ok in H as (c & Hc & H). apply (one_root P HR HM) in Hc; [|split; [apply Q|exact B]|exact Hn]. apply bind_ok in H as (s & Hs & H). apply (scale_q _ Q) in Hs as [Hs _]; [|exact A]. eapply qterm_of; [exact Hc|exact Hs|exact H].
  Qed.
  Lemma qconst c : israt c -> qterm (term_const c).
  Proof. intros B. split; [exact B|]. split; [split; constructor|constructor]. Qed.

  (** ** merging *)
  Lemma qsyms_qok m : qsyms m -> Forall (fun p => qok (snd p)) m.
  Proof. intros [_ F]. eapply Forall_impl; [|exact F]. now intros p [_ Q]. Qed.
  Lemma qterm_qok t : qterm t -> Forall (fun p => qok (snd p)) (syms t). Proof. intros [_ [A _]]. now apply qsyms_qok. Qed.
  Lemma qterm_mono t : qterm t -> mono (syms t).
  Proof. intros [_ [[S F] Z]]. split; [exact S|]. eapply Forall_impl; [|exact (Forall_and F Z)]. now intros p [[_ Q] Y]. Qed.
  Lemma qterm_nonzero t : qterm t -> no_zero_exponent (syms t). Proof. now intros [_ [_ F]]. Qed.
  Lemma good_rq q : den q <> 0 -> good w (rq q).
  Proof. intros D. pose proof (w3 P HR). assert (2 <= 2 ^ w) by (change 2 with (2 ^ 1) at 1; apply Z.pow_le_mono_r; lia). split; [|reflexivity]. unfold wf. cbn [rq idx rad coe num den]. lia. Qed.
  Lemma qterm_tok t : qterm t -> PolyProofs6.tok w t.
  Proof.
    intros T. pose proof T as [(q & Hq & D) [[S _] _]]. split; [|rewrite Hq; now apply RealProofs3.canonical_one]. split; [rewrite Hq; now apply good_rq|]. split; [now apply skeys_nodup|now apply qterm_qok].
  Qed.
  Lemma equiv_rq a b e : is_equivalent w (rq a) (rq b) = Ok e -> e = true.
  Proof.
    unfold is_equivalent. cbn [rq rad idx]. intros H. apply bind_ok in H as (s & _ & H). apply bind_ok in H as (o & _ & H). destruct (s && o)%bool; [congruence|]. change ((1 =? 1) && (1 =? 1))%bool with true in H. congruence.
  Qed.
  Lemma merge_desc_q : forall l a l', qterm a -> Forall qterm l -> StronglySorted (fun a b => syms_cmp (syms a) (syms b) <> Lt) l -> Forall (fun b => syms_cmp (syms a) (syms b) <> Lt) l -> merge_from E a l = Ok l' ->
    Forall qterm l' /\ desc l' /\ Forall (fun x => exists y, In y (a :: l) /\ syms x = syms y) l' /\ l' <> [].
  Proof.
    destruct syms_total as (S1 & S2 & S3 & S4). induction l as [|b l IH]; intros a l' Ta Tl S G H.
    - injection H as <-. split; [now constructor|]. split; [repeat constructor|]. split; [|discriminate]. constructor; [|constructor]. exists a. split; [now left|reflexivity].
    - inversion Tl as [|? ? Tb Tl']; subst. inversion S as [|? ? S' Sb]; subst. inversion G as [|? ? G1 G2]; subst. apply merge_from_step in H as (e & He & H). unfold term_equivalent in He. apply bind_ok in He as (q & Hq & He). pose proof Ta as [Ra Pa]. pose proof Tb as [Rb Pb]. destruct q.
      + destruct Ra as (x & Hx & Dx), Rb as (y & Hy & Dy). rewrite Hx, Hy in He. apply equiv_rq in He as ->. apply (smap_eq_value _ _ _ (fun _ => 0%R)) in Hq as [Es _]; [|now apply qterm_qok|now apply qterm_qok].
        destruct H as (t & Ht & H). apply bind_ok in Ht as (c & Hc & Ht). apply (qadd P HR) in Hc; [|now exists x|now exists y]. unfold term_make, term_normalize in Ht. cbn [syms tco] in Ht. apply bind_ok in Ht as (m & Hm & Ht). apply drop_zero_id in Hm; [|now apply qterm_nonzero]. subst m. injection Ht as <-.
        apply IH in H as (A & B & C & D); try assumption.
        * split; [exact A|]. split; [exact B|]. split; [|exact D]. eapply Forall_impl; [|exact C]. cbn beta. intros z (u & [<-|J] & K); [exists a; split; [now left|exact K]|exists u; split; [right; now right|exact K]].
        * split; [exact Hc|exact Pa].
      + injection He as <-. destruct H as (r & Hr & ->). apply smap_eq_false in Hq. apply IH in Hr as (A & B & C & D); try assumption. split; [now constructor|]. split; [|split; [|discriminate]].
        * constructor; [exact B|]. assert (AB : syms_cmp (syms b) (syms a) = Lt).
          { rewrite (S3 (syms a) (syms b)). destruct (syms_cmp (syms a) (syms b)) eqn:K; cbn [CompOpp]; [|congruence|reflexivity]. exfalso. apply Hq. apply S2; [now apply qterm_qok|now apply qterm_qok|exact K]. }
          rewrite Forall_forall in *. intros z J. destruct (C z J) as (u & [<-|I] & K); rewrite K; [rewrite (S3 (syms b) (syms a)), AB; reflexivity|].
          specialize (Sb u I). rewrite (S3 (syms u) (syms a)). assert (syms_cmp (syms u) (syms a) = Lt) as ->; [|reflexivity].
          destruct (syms_cmp (syms b) (syms u)) eqn:BU; [|congruence|].
          -- apply S2 in BU; [rewrite <- BU; exact AB|now apply qterm_qok|apply qterm_qok; now apply Tl'].
          -- apply (S4 (syms u) (syms b) (syms a)); [apply qterm_qok; now apply Tl'|now apply qterm_qok|now apply qterm_qok|rewrite (S3 (syms b) (syms u)), BU; reflexivity|exact AB].
        * constructor; [exists a; split; [now left|reflexivity]|]. eapply Forall_impl; [|exact C]. cbn beta. intros z (u & J & K). exists u. split; [now right|exact K].
  Qed.
  Lemma key_syms_q a b : qterm a -> qterm b -> key_cmp a b = syms_cmp (syms a) (syms b).
  Proof. intros [(x & Hx & _) _] [(y & Hy & _) _]. unfold key_cmp. rewrite Hx, Hy. cbn [rq idx rad]. rewrite Z.compare_refl. change (qcmp (Rat 1 1) (Rat 1 1)) with Eq. now destruct (syms_cmp (syms a) (syms b)). Qed.

  Hypothesis HS : sort_orders P.
  Definition qpoly (l : poly) : Prop := Forall qterm l /\ desc l /\ l <> [].
  Lemma normalize_q l l' : Forall qterm l -> l <> [] -> poly_normalize P l = Ok l' -> qpoly l'.
  Proof.
    intros F NE H. unfold poly_normalize in H. apply bind_ok in H as (m & Hm & H). assert (PM : Permutation l m) by (destruct HM as (_ & _ & _ & SP); now apply SP). assert (Fm : Forall qterm m) by (eapply Forall_perm; eauto).
    apply HS in Hm; [|eapply Forall_impl; [|exact F]; apply qterm_tok]. destruct m as [|a m]; [apply Permutation_sym, Permutation_nil in PM; contradiction|]. cbn [merge_terms] in H. inversion Fm as [|? ? Ta Tm]; subst. inversion Hm as [|? ? Sm Am]; subst.
    apply merge_desc_q in H as (A & B & _ & D); try assumption; [now repeat split| |].
    - clear - Sm Tm. induction Sm as [|x r Sr IH Xr]; [constructor|]. inversion Tm; subst. constructor; [now apply IH|]. rewrite Forall_forall in *. intros y I. rewrite <- key_syms_q; auto.
    - rewrite Forall_forall in *. intros y I. rewrite <- key_syms_q; auto.
  Qed.
  Lemma mapr_q {A} (f : A -> res term) l r : (forall a t, In a l -> f a = Ok t -> qterm t) -> mapr f l = Ok r -> Forall qterm r /\ (l <> [] -> r <> []).
  Proof.
    intros F H. apply mapr_inv in H. split.
    - revert F. induction H as [|a t l r Ht H IH]; intros F; [constructor|]. constructor; [apply (F a); [now left|exact Ht]|]. apply IH. intros b u I. apply F. now right.
    - destruct H; congruence.
  Qed.
  Lemma add_q a b r : qpoly a -> qpoly b -> poly_add_to P a b = Ok r -> qpoly r.
  Proof. intros (A & _ & NA) (B & _ & _) H. apply normalize_q in H; [exact H|apply Forall_app; now split|destruct a; [contradiction|discriminate]]. Qed.
  Lemma negate_q a r : qpoly a -> poly_negate E a = Ok r -> Forall qterm r /\ r <> [].
  Proof. intros (A & _ & NA) H. apply mapr_q in H as [X Y]; [split; auto|]. intros t u I. rewrite Forall_forall in A. apply tneg, A, I. Qed.
  Lemma mul_q a b r : qpoly a -> qpoly b -> poly_mul_to P a b = Ok r -> qpoly r.
  Proof.
    intros (A & _ & NA) (B & _ & NB) H. unfold poly_mul_to in H. apply bind_ok in H as (l & Hl & H). pose proof (rows_nonempty _ _ _ _ Hl) as NE. apply normalize_q in H; [exact H| |intros Z; destruct (NE Z); contradiction]. apply mapr_inv in Hl. clear - Hl A B HR. induction Hl as [|x row a l Hx Hl IH]; [constructor|]. inversion A; subst. cbn [concat]. apply Forall_app. split; [|now apply IH].
    apply mapr_q in Hx as [X _]; [exact X|]. intros y t I Ht. rewrite Forall_forall in B. apply (tmul x y t); auto.
  Qed.
  Lemma div_q a g r : israt g -> Forall qterm a -> a <> [] -> poly_div_to P a g = Ok r -> qpoly r.
  Proof.
    intros G A NA H. unfold poly_div_to in H. apply bind_ok in H as (l & Hl & H). apply mapr_q in Hl as [X Y]; [apply normalize_q in H; auto|]. intros t u I. rewrite Forall_forall in A. apply (tdiv t g u G), A, I.
  Qed.
  Lemma single_q t : qterm t -> qpoly [t]. Proof. intros T. repeat split; [now constructor|repeat constructor|discriminate]. Qed.
  Lemma make_q c r : israt c -> poly_make P [term_const c] = Ok r -> qpoly r.
  Proof. intros C H. apply normalize_q in H; [exact H|constructor; [now apply qconst|constructor]|discriminate]. Qed.

  (** ** constants *)
  Lemma try_sum_q : forall l m x, israt m -> Forall qterm l -> try_sum E m l = Ok (Some x) -> israt x.
  Proof.
    induction l as [|t l IH]; intros m x B F H; cbn [try_sum] in H; [injection H as <-; exact B|]. inversion F as [|? ? [Tt _] Tl]; subst. unfold term_try_eval in H. destruct (no_symbols t); [|discriminate]. apply bind_ok in H as (e & He & H). destruct e; [|discriminate]. apply bind_ok in H as (a & Ha & H). apply (qadd P HR) in Ha; try assumption. now apply IH in H.
  Qed.
  Lemma try_eval_q l x : Forall qterm l -> poly_try_eval E l = Ok (Some x) -> israt x.
  Proof. intros F H. unfold poly_try_eval in H. apply bind_ok in H as (z & Hz & H). apply (qof P HR) in Hz. now apply try_sum_q in H. Qed.
  Lemma both_q a b x y : Forall qterm a -> Forall qterm b -> both E a b = Ok (Some (x, y)) -> israt x /\ israt y.
  Proof.
    intros A B H. unfold both in H. apply bind_ok in H as (u & Hu & H). apply bind_ok in H as (v & Hv & H). destruct u as [u|]; [|discriminate]. destruct v as [v|]; [|discriminate]. injection H as <- <-. split; [now apply try_eval_q in Hu|now apply try_eval_q in Hv].
  Qed.
  Lemma padd_q a b r : qpoly a -> qpoly b -> poly_add P a b = Ok r -> qpoly r.
  Proof.
    intros A B H. unfold poly_add in H. apply bind_ok in H as (v & Hv & H). destruct v as [[x y]|]; [|now apply (add_q a b)]. apply both_q in Hv as [X Y]; [|apply A|apply B]. apply bind_ok in H as (s & Hs & H). apply (qadd P HR) in Hs; try assumption. now apply make_q in H.
  Qed.
  Lemma pmul_q a b r : qpoly a -> qpoly b -> poly_mul P a b = Ok r -> qpoly r.
  Proof.
    intros A B H. unfold poly_mul in H. apply bind_ok in H as (v & Hv & H). destruct v as [[x y]|]; [|now apply (mul_q a b)]. apply both_q in Hv as [X Y]; [|apply A|apply B]. apply bind_ok in H as (s & Hs & H). apply (qmul P HR) in Hs; try assumption. now apply make_q in H.
  Qed.

  (** ** powers *)
  Lemma div_fact_den : forall k q t q', den q <> 0 -> div_fact w q t k = Ok q' -> den q' <> 0.
  Proof.
    induction k as [|k IH]; intros q t q' Q H; cbn [div_fact] in H; [injection H as <-; exact Q|]. apply bind_ok in H as (d & Hd & H). apply bind_ok in H as (q1 & Hq & H). unfold rat_of_index in Hd. apply of_int_inv in Hd as ->. apply rat_div_exact in Hq as [D _]; [|discriminate]. now apply IH in H.
  Qed.
  Lemma div_facts_den : forall v q q', den q <> 0 -> div_facts w q v = Ok q' -> den q' <> 0.
  Proof. induction v as [|e v IH]; intros q q' Q H; cbn [div_facts] in H; [injection H as <-; exact Q|]. apply bind_ok in H as (q1 & Hq & H). apply div_fact_den in Hq; [|exact Q]. now apply IH in H. Qed.
  Lemma multinomial_q a k v t : Forall qterm a -> Forall (fun e => 0 <= e) v -> multinomial E a k v = Ok t -> qterm t.
  Proof.
    intros A F H. unfold multinomial in H. apply bind_ok in H as (q0 & H0 & H). apply bind_ok in H as (q & Hq & H). apply bind_ok in H as (c & Hc & H). unfold rat_of_index in H0. apply of_int_inv in H0 as ->. apply div_facts_den in Hq; [|discriminate]. unfold real_of_rat, real_make in Hc. apply (norm_unit P HR) in Hc. assert (T0 : qterm (term_const c)) by (subst c; apply qconst; now exists q).
    clear - H A F T0 HR. revert H T0. generalize (term_const c). revert v F. induction a as [|x a IH]; intros v F acc H T0; cbn [mul_powers] in H; [injection H as <-; exact T0|].
    destruct v as [|e v]; [injection H as <-; exact T0|]. inversion F; subst. inversion A; subst. apply bind_ok in H as (q & Hq & H). apply of_int_inv in Hq as ->. apply bind_ok in H as (p & Hp & H). apply bind_ok in H as (c' & Hc & H). apply tpow in Hp; try assumption. apply tmul in Hc; try assumption. now apply IH in H.
  Qed.
  Lemma pow_q a n r : 0 <= n -> qpoly a -> poly_pow P a (Rat n 1) = Ok r -> qpoly r.
  Proof.
    intros Hn IA H. pose proof IA as (A & DA & NA). unfold poly_pow in H. cbv zeta in H. apply bind_ok in H as (z & Hz & H). destruct z.
    { apply bind_ok in H as (c & Hc & H). apply (qof P HR) in Hc. now apply make_q in H. }
    apply bind_ok in H as (o & Ho & H). destruct o; [injection H as <-; exact IA|].
    assert (HG : (2 <= length a)%nat -> (v <- poly_try_eval E a ;; match v with Some c => c' <- real_pow E c (Rat n 1) ;; poly_make P [term_const c'] | None => if is_int (Rat n 1) then
            n <- rat_to_t w (Rat n 1) ;;
            vs <- solve_variable_eq w (length a) n (Z.of_nat (length a)) ;;
            l <- mapr (multinomial E a (wfact w (Z.to_nat (uwrap w n)))) vs ;;
            poly_make P l
          else Throw "Must be a int." end) = Ok r -> qpoly r).
    { clear H. intros LA H. apply bind_ok in H as (v & Hv & H). destruct v as [c|].
      { apply try_eval_q in Hv; [|exact A]. apply bind_ok in H as (c' & Hc & H). apply (qpow P HR) in Hc; try assumption. now apply make_q in H. }
      unfold is_int in H. cbn [den Z.eqb Pos.eqb] in H. apply bind_ok in H as (n' & Hn' & H). unfold rat_to_t in Hn'. apply quot_w_inv in Hn' as (_ & -> & B2). cbn [num den] in *. rewrite Z.quot_1_r in *.
      apply bind_ok in H as (vs & Hvs & H). apply bind_ok in H as (l & Hl & H). assert (HL : Z.of_nat (length a) = Z.of_nat (length a - 2) + 2) by lia. rewrite HL in Hvs. apply solve_sols in Hvs as [_ ->].
      apply mapr_q in Hl as [X Y].
      - apply normalize_q in H; [exact H|exact X|]. apply Y. intros Z0. pose proof (proj2 (sols_in (length a - 2) n (n :: repeat 0 (length a - 1)))) as Q. rewrite Z0 in Q. apply Q. unfold solution. cbn [length fold_right]. rewrite repeat_length. repeat split; [lia| |].
        + constructor; [lia|]. rewrite Forall_forall. intros x I. apply repeat_spec in I. lia.
        + assert (Z1 : forall k, fold_right Z.add 0 (repeat 0 k) = 0) by (induction k; cbn; auto). rewrite Z1. lia.
      - intros v t I Ht. apply sols_in in I as (_ & F & _). now apply multinomial_q in Ht. }
    destruct a as [|t [|u a]]; [contradiction| |apply HG; [cbn; lia|exact H]]. apply bind_ok in H as (p & Hp & H). inversion A; subst. apply tpow in Hp; try assumption. apply normalize_q in H; [exact H|now constructor|discriminate].
  Qed.
  Lemma root_q m q r : qok q -> den q < 2 ^ w -> 0 <= num q -> qmono m -> poly_pow P [Term (rint 1) m] q = Ok r -> qpoly r.
  Proof.
    intros Q B Hn M H. unfold poly_pow in H. cbv zeta in H. apply bind_ok in H as (z & Hz & H). destruct z.
    { apply bind_ok in H as (c & Hc & H). apply (qof P HR) in Hc. now apply make_q in H. }
    apply bind_ok in H as (o & Ho & H). destruct o; [injection H as <-; apply single_q; split; [apply israt_int|exact M]|]. apply bind_ok in H as (p & Hp & H). apply troot in Hp; try assumption; [|apply M]. apply normalize_q in H; [exact H|now constructor|discriminate].
  Qed.
End T.
