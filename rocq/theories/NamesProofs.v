(** What the operations on the symbols of a term preserve, all operations preserve; so no operation introduces symbols, and the symbols of a term stay sorted. *)
From Coq Require Import ZArith QArith Reals String Ascii Lia Bool List Permutation Sorted.
From Verif Require Import Base RationalModel RationalProofs RealModel PolyModel PolySpec ExprModel ExprSpec NamesSpec.
Import ListNotations.
Open Scope Z_scope.

Definition closed (Ns : smap -> Prop) : Prop :=
  Ns [] /\ (forall w m m', drop_zero w m = Ok m' -> Ns m -> Ns m') /\ (forall w b a r, merge_syms w b a = Ok r -> Ns a -> Ns b -> Ns r) /\ (forall w q m r, scale_syms w q m = Ok r -> Ns m -> Ns r).
Ltac ok H x := let Q := fresh "Q" in apply bind_ok in H as (x & Q & H).
Section G.
Variable Ns : smap -> Prop.
Hypothesis HC : closed Ns.
Definition Nt (t : term) : Prop := Ns (syms t).
Definition Np (l : poly) : Prop := Forall Nt l.
Definition Nf (f : frac) : Prop := Np (fnum f) /\ Np (fden f).
Fixpoint Ne (e : expr) : Prop := match e with Leaf f => Nf f | Op _ l r => Ne l /\ Ne r end.
Lemma n_const c : Nt (term_const c). Proof. apply HC. Qed.
Lemma n_pconst c : Np [term_const c]. Proof. constructor; [apply n_const|constructor]. Qed.
Lemma n_drop w m m' : drop_zero w m = Ok m' -> Ns m -> Ns m'. Proof. apply HC. Qed.
Lemma n_tnorm w t t' : term_normalize w t = Ok t' -> Nt t -> Nt t'.
Proof. intros H F. unfold term_normalize in H. ok H s. injection H as <-. exact (n_drop _ _ _ Q F). Qed.
Lemma n_merge w b a r : merge_syms w b a = Ok r -> Ns a -> Ns b -> Ns r. Proof. apply HC. Qed.
Lemma n_tmul E a b r : term_mul E a b = Ok r -> Nt a -> Nt b -> Nt r.
Proof. intros H A B. unfold term_mul in H. ok H s. ok H c. apply n_tnorm in H; [exact H|]. exact (n_merge _ _ _ _ Q A B). Qed.
Lemma n_tdiv E a c r : term_div E a c = Ok r -> Nt a -> Nt r.
Proof. intros H A. unfold term_div in H. ok H s. apply n_tnorm in H; [exact H|exact A]. Qed.
Lemma n_scale w q m r : scale_syms w q m = Ok r -> Ns m -> Ns r. Proof. apply HC. Qed.
Lemma n_tpow E a q r : term_pow E a q = Ok r -> Nt a -> Nt r.
Proof. intros H A. unfold term_pow in H. ok H c. ok H s. apply n_tnorm in H; [exact H|]. exact (n_scale _ _ _ _ Q0 A). Qed.
Lemma n_tneg E a r : term_negate E a = Ok r -> Nt a -> Nt r.
Proof. intros H A. unfold term_negate, term_make in H. ok H c. apply n_tnorm in H; [exact H|exact A]. Qed.
Lemma n_mapr {A B} (f : A -> res B) (X : A -> Prop) (Y : B -> Prop) l : (forall a b, f a = Ok b -> X a -> Y b) -> forall r, mapr f l = Ok r -> Forall X l -> Forall Y r.
Proof. intros K. induction l as [|a l IH]; intros r H F; cbn [mapr] in H; [injection H as <-; constructor|]. inversion F; subst. ok H b. ok H r'. injection H as <-. constructor; [now apply (K a)|now apply IH]. Qed.
Lemma n_mergefrom E l : forall a r, merge_from E a l = Ok r -> Nt a -> Np l -> Np r.
Proof.
  induction l as [|b l IH]; intros a r H A F; cbn [merge_from] in H; [injection H as <-; now constructor|]. inversion F; subst. ok H e. destruct e.
  - ok H c. ok H t. apply IH in H; [exact H| |assumption]. unfold term_make in Q1. apply n_tnorm in Q1; [exact Q1|exact A].
  - ok H r'. injection H as <-. constructor; [exact A|]. now apply IH in Q0.
Qed.

Variable P : penv.
Hypothesis HS : sort_permutes P.
Lemma n_pnorm l r : poly_normalize P l = Ok r -> Np l -> Np r.
Proof.
  intros H F. unfold poly_normalize in H. ok H s. apply HS in Q. unfold Np in F. rewrite Forall_forall in F. assert (Fs : Np s) by (apply Forall_forall; intros x I; apply F; now apply (Permutation_in _ (Permutation_sym Q))).
  unfold merge_terms in H. destruct s as [|a s]; [injection H as <-; constructor|]. inversion Fs; subst. now apply n_mergefrom in H.
Qed.
Lemma n_addto a b r : poly_add_to P a b = Ok r -> Np a -> Np b -> Np r.
Proof. intros H A B. apply n_pnorm in H; [exact H|]. now apply Forall_app. Qed.
Lemma n_pneg E a r : poly_negate E a = Ok r -> Np a -> Np r. Proof. apply n_mapr. intros x y. apply n_tneg. Qed.
Lemma n_multo a b r : poly_mul_to P a b = Ok r -> Np a -> Np b -> Np r.
Proof.
  intros H A B. unfold poly_mul_to in H. ok H l. apply n_pnorm in H; [exact H|]. apply Forall_concat. refine (n_mapr _ Nt Np a _ l Q A). intros x y E X. refine (n_mapr _ Nt Nt b _ y E B). intros u v D U. exact (n_tmul _ _ _ _ D X U).
Qed.
Lemma n_padd a b r : poly_add P a b = Ok r -> Np a -> Np b -> Np r.
Proof. intros H A B. unfold poly_add in H. ok H v. destruct v as [[x y]|]; [ok H s; apply n_pnorm in H; [exact H|apply n_pconst]|now apply n_addto in H]. Qed.
Lemma n_pmul a b r : poly_mul P a b = Ok r -> Np a -> Np b -> Np r.
Proof. intros H A B. unfold poly_mul in H. ok H v. destruct v as [[x y]|]; [ok H s; apply n_pnorm in H; [exact H|apply n_pconst]|now apply n_multo in H]. Qed.
Lemma n_psub a b r : poly_sub P a b = Ok r -> Np a -> Np b -> Np r.
Proof.
  intros H A B. unfold poly_sub in H. ok H v. destruct v as [[x y]|]; [ok H s; apply n_pnorm in H; [exact H|apply n_pconst]|]. unfold poly_sub_to in H. ok H nb. ok H s. apply n_pnorm in H; [exact H|]. apply n_addto in Q1; [exact Q1|exact A|]. now apply n_pneg in Q0.
Qed.
Lemma n_divto a c r : poly_div_to P a c = Ok r -> Np a -> Np r.
Proof. intros H A. unfold poly_div_to in H. ok H l. apply n_pnorm in H; [exact H|]. refine (n_mapr _ Nt Nt a _ l Q A). intros x y. apply n_tdiv. Qed.
Lemma n_powers E l : forall v acc r, mul_powers E acc l v = Ok r -> Nt acc -> Np l -> Nt r.
Proof.
  induction l as [|t l IH]; intros v acc r H A F; cbn [mul_powers] in H; [injection H as <-; assumption|]. destruct v as [|x v]; [injection H as <-; assumption|]. inversion F; subst. ok H q. ok H p. ok H acc'. apply IH in H; [exact H| |assumption].
  apply n_tmul in Q1; [exact Q1|exact A|]. now apply n_tpow in Q0.
Qed.
Lemma n_ppow a q r : poly_pow P a q = Ok r -> Np a -> Np r.
Proof.
  intros H A. unfold poly_pow in H. cbv zeta in H. ok H z. destruct z; [ok H c; apply n_pnorm in H; [exact H|apply n_pconst]|]. ok H o. destruct o; [injection H as <-; exact A|].
  assert (G : forall l, (v <- poly_try_eval (pe P) a;; match v with Some c => c' <- real_pow (pe P) c q;; poly_make P [term_const c'] | None => if is_int q then n <- rat_to_t (ew (pe P)) q;; vs <- solve_variable_eq (ew (pe P)) (length a) n (Z.of_nat (length a));;
    l <- mapr (multinomial (pe P) a (wfact (ew (pe P)) (Z.to_nat (uwrap (ew (pe P)) n)))) vs;; poly_make P l else Throw "Must be a int." end) = Ok l -> Np l).
  { intros l G. ok G v. destruct v as [c|]; [ok G c'; apply n_pnorm in G; [exact G|apply n_pconst]|]. destruct (is_int q); [|discriminate]. ok G n. ok G vs. ok G l'. apply n_pnorm in G; [exact G|].
    refine (n_mapr _ (fun _ => True) Nt vs _ l' Q4 _); [|apply Forall_forall; trivial]. intros v t M _. unfold multinomial in M. ok M q0. ok M q1. ok M c. apply n_powers in M; [exact M|apply n_const|exact A]. }
  destruct a as [|t [|t' a]]; [exact (G _ H)| |exact (G _ H)]. ok H p. apply n_pnorm in H; [exact H|]. inversion A; subst. repeat constructor. now apply n_tpow in Q1.
Qed.
Lemma n_pone r : poly_one P = Ok r -> Np r. Proof. intros H. unfold poly_one in H. ok H c. apply n_pnorm in H; [exact H|apply n_pconst]. Qed.
Lemma n_fnorm f r : frac_normalize P f = Ok r -> Nf f -> Nf r.
Proof.
  intros H (A & B). unfold frac_normalize in H. cbv zeta in H. ok H n. ok H d. apply n_pnorm in Q; [|exact A]. apply n_pnorm in Q0; [|exact B]. ok H m1. ok H m. ok H nn. ok H dd.
  assert (G : forall l l', mapr (fun t => c <- real_of_int (pe P) m;; term_mul (pe P) t (term_const c)) l = Ok l' -> Np l -> Np l'). { intros l l'. apply n_mapr. intros x y E X. ok E c. apply n_tmul in E; [exact E|exact X|apply n_const]. }
  apply G in Q3; [|exact Q]. apply G in Q4; [|exact Q0]. destruct nn as [|n0 nn]; [discriminate|]. destruct dd as [|d0 dd]; [discriminate|]. ok H a. ok H b. ok H g0. ok H o. destruct o as [g|]; [|injection H as <-; now split].
  ok H gr. ok H n'. ok H gr'. ok H d'. injection H as <-. split; [now apply n_divto in Q10|now apply n_divto in Q12].
Qed.
Lemma n_ofpoly n r : frac_of_poly P n = Ok r -> Np n -> Nf r.
Proof. intros H A. unfold frac_of_poly in H. ok H d. apply n_fnorm in H; [exact H|]. split; [exact A|now apply n_pone]. Qed.
Lemma n_ofterm t r : frac_of_term P t = Ok r -> Nt t -> Nf r.
Proof. intros H A. unfold frac_of_term in H. ok H n. apply n_ofpoly in H; [exact H|]. apply n_pnorm in Q; [exact Q|]. repeat constructor. exact A. Qed.
Lemma n_ofreal c r : frac_of_real P c = Ok r -> Nf r. Proof. intros H. apply n_ofterm in H; [exact H|apply n_const]. Qed.
Lemma n_fmake n d r : frac_make P n d = Ok r -> Np n -> Np d -> Nf r.
Proof. intros H A B. unfold frac_make in H. ok H z. destruct z; [discriminate|]. apply n_fnorm in H; [exact H|now split]. Qed.
Lemma n_fadd a b r : frac_add P a b = Ok r -> Nf a -> Nf b -> Nf r.
Proof.
  intros H (A & A') (B & B'). unfold frac_add in H. ok H e. destruct e; [ok H n; injection H as <-; split; [now apply n_addto in Q0|exact A']|]. ok H x. ok H y. ok H n. ok H d. apply n_fnorm in H; [exact H|]. split; [|now apply n_multo in Q3].
  apply n_pmul in Q0; [|assumption|assumption]. apply n_pmul in Q1; [|assumption|assumption]. now apply n_padd in Q2.
Qed.
Lemma n_fneg a r : frac_negate P a = Ok r -> Nf a -> Nf r.
Proof. intros H (A & A'). unfold frac_negate in H. ok H n. apply n_fmake in H; [exact H|now apply n_pneg in Q|exact A']. Qed.
Lemma n_fsub a b r : frac_sub P a b = Ok r -> Nf a -> Nf b -> Nf r.
Proof. intros H A B. unfold frac_sub in H. ok H nb. apply n_fadd in H; [exact H|exact A|now apply n_fneg in Q]. Qed.
Lemma n_fmul a b r : frac_mul P a b = Ok r -> Nf a -> Nf b -> Nf r.
Proof. intros H (A & A') (B & B'). unfold frac_mul in H. ok H n. ok H d. apply n_fnorm in H; [exact H|]. split; [now apply n_multo in Q|now apply n_multo in Q0]. Qed.
Lemma n_fdiv a b r : frac_div P a b = Ok r -> Nf a -> Nf b -> Nf r.
Proof. intros H (A & A') (B & B'). unfold frac_div in H. ok H z. destruct z; [discriminate|]. ok H n. ok H d. apply n_fnorm in H; [exact H|]. split; [now apply n_multo in Q0|now apply n_multo in Q1]. Qed.
Lemma n_fpow a q r : frac_pow P a q = Ok r -> Nf a -> Nf r.
Proof.
  intros H (A & A'). unfold frac_pow in H. ok H v. destruct v as [c|]; [ok H c'; now apply n_ofreal in H|]. ok H n. ok H d. apply n_fnorm in H; [exact H|]. split; [now apply n_ppow in Q0|now apply n_ppow in Q1].
Qed.
Lemma n_apply c a b r : apply_op P c a b = Ok r -> Nf a -> Nf b -> Nf r.
Proof. unfold apply_op. destruct (Ascii.eqb c "+"); [apply n_fadd|]. destruct (Ascii.eqb c "-"); [apply n_fsub|]. destruct (Ascii.eqb c "*"); [apply n_fmul|]. destruct (Ascii.eqb c "/"); [apply n_fdiv|discriminate]. Qed.
Lemma n_tryeval e : forall r, expr_try_eval P e = Ok r -> Ne e -> forall f, r = Some f -> Nf f.
Proof.
  induction e as [g|c l IHl x IHr]; intros r H F f E; cbn [expr_try_eval] in H; [injection H as <-; injection E as <-; exact F|]. destruct F as (Fl & Fr). ok H lv. ok H rv. destruct lv as [a|]; [|injection H as <-; discriminate]. destruct rv as [b|]; [|injection H as <-; discriminate].
  specialize (IHl _ Q Fl a eq_refl). specialize (IHr _ Q0 Fr b eq_refl). destruct (Ascii.eqb c "^").
  - ok H p. destruct p as [p|]; [|injection H as <-; discriminate]. ok H q. ok H y. injection H as <-. injection E as <-. now apply n_fpow in Q3.
  - ok H y. injection H as <-. injection E as <-. now apply n_apply in Q1.
Qed.
Lemma n_normalize e : forall e', expr_normalize P e = Ok e' -> Ne e -> Ne e'.
Proof.
  induction e as [g|c l IHl x IHr]; intros e' H F; cbn [expr_normalize] in H; [injection H as <-; exact F|]. destruct F as (Fl & Fr). ok H lv. ok H rv. assert (G : forall e', (r' <- expr_normalize P x ;; l' <- expr_normalize P l ;; Ok (Op c l' r')) = Ok e' -> Ne e').
  { intros e2 G. ok G r'. ok G l'. injection G as <-. split; [now apply IHl|now apply IHr]. }
  destruct lv as [a|]; [|exact (G _ H)]. destruct rv as [b|]; [|exact (G _ H)]. pose proof (n_tryeval l _ Q Fl a eq_refl) as A. pose proof (n_tryeval x _ Q0 Fr b eq_refl) as B. destruct (Ascii.eqb c "^").
  - ok H p. destruct p as [p|]; [|ok H l'; ok H r'; injection H as <-; split; [now apply IHl|now apply IHr]]. ok H q. ok H y. injection H as <-. cbn [Ne]. now apply n_fpow in Q3.
  - ok H y. injection H as <-. cbn [Ne]. now apply n_apply in Q1.
Qed.
End G.

(** ** the names *)
Section N.
Variable N : string -> Prop.
Definition named (m : smap) : Prop := Forall (fun p => N (fst p)) m.
Lemma d_drop w m m' : drop_zero w m = Ok m' -> named m -> named m'.
Proof.
  revert m'. induction m as [|[k v] m IH]; intros m' H F; cbn [drop_zero] in H; [injection H as <-; constructor|]. inversion F; subst. ok H z. ok H r. injection H as <-. apply IH in Q0; [|assumption]. destruct z; [assumption|now constructor].
Qed.
Lemma n_insert k v m : N k -> named m -> named (sinsert k v m).
Proof. intros K. induction 1 as [|[k' v'] m A F IH]; cbn [sinsert]; [repeat constructor; exact K|]. destruct (String.compare k k'); constructor; try assumption; now constructor. Qed.
Lemma n_update k v m : named m -> named (supdate k v m).
Proof. induction 1 as [|[k' v'] m A F IH]; cbn [supdate]; [constructor|]. destruct (String.eqb k k'); constructor; assumption. Qed.
Lemma d_merge w b : forall a r, merge_syms w b a = Ok r -> named a -> named b -> named r.
Proof.
  induction b as [|[k q] b IH]; intros a r H A B; cbn [merge_syms] in H; [injection H as <-; assumption|]. inversion B; subst. destruct (sfind k a).
  - ok H q1. apply IH in H; [assumption|now apply n_update|assumption].
  - apply IH in H; [assumption|now apply n_insert|assumption].
Qed.
Lemma d_scale w q m : forall r, scale_syms w q m = Ok r -> named m -> named r.
Proof. induction m as [|[k v] m IH]; intros r H F; cbn [scale_syms] in H; [injection H as <-; constructor|]. inversion F; subst. ok H v'. ok H r'. injection H as <-. constructor; [assumption|now apply IH]. Qed.
Lemma named_closed : closed named.
Proof. split; [constructor|]. split; [exact d_drop|]. split; [intros w b; exact (d_merge w b)|]. intros w q m. exact (d_scale w q m). Qed.
End N.
(** ** the order *)
Lemma lt_trans a b c : String.compare a b = Lt -> String.compare b c = Lt -> String.compare a c = Lt.
Proof.
  revert b c. induction a as [|x a IH]; intros [|y b] [|z c]; cbn [String.compare]; try discriminate; try reflexivity. intros H K. assert (T : Ascii.compare x y = Lt -> Ascii.compare y z = Lt -> Ascii.compare x z = Lt) by (unfold Ascii.compare; rewrite !N.compare_lt_iff; apply N.lt_trans). destruct (Ascii.compare x y) eqn:E1; try discriminate; destruct (Ascii.compare y z) eqn:E2; try discriminate.
  - apply Ascii.compare_eq_iff in E1. subst y. rewrite E2. now apply (IH b).
  - apply Ascii.compare_eq_iff in E1. subst y. now rewrite E2.
  - apply Ascii.compare_eq_iff in E2. subst z. now rewrite E1.
  - now rewrite (T eq_refl eq_refl).
Qed.
Lemma ascending_closed : closed ascending.
Proof.
  split; [constructor|]. split; [|split].
  - intros w m m' H. revert m' H. assert (I : forall m m', drop_zero w m = Ok m' -> forall p, In p m' -> In p m).
    { clear. induction m as [|[k v] m IH]; intros m' H p I; cbn [drop_zero] in H; [injection H as <-; exact I|]. ok H z. ok H r. injection H as <-. destruct z; [right; now apply (IH r)|]. destruct I as [I|I]; [now left|right; now apply (IH r)]. }
    induction m as [|[k v] m IH]; intros m' H S; cbn [drop_zero] in H; [injection H as <-; exact S|]. ok H z. ok H r. injection H as <-. inversion S as [|? ? S1 F]; subst. destruct z; [now apply IH|]. constructor; [now apply IH|]. rewrite Forall_forall in *. intros p J. apply F. now apply (I m r).
  - intros w b. assert (U : forall k v m, map fst (supdate k v m) = map fst m). { clear. intros k v m. induction m as [|[a q] m IH]; cbn [supdate]; [reflexivity|]. destruct (String.eqb k a); cbn [map fst]; congruence. }
    assert (AM : forall m m' : smap, map fst m = map fst m' -> ascending m -> ascending m').
    { clear. unfold ascending. induction m as [|p m IH]; intros [|p' m'] E S; try discriminate; [constructor|]. cbn [map] in E. injection E as E1 E2. inversion S as [|? ? S1 F]; subst. constructor; [now apply IH|]. rewrite Forall_forall in *. intros q I. assert (J : In (fst q) (map fst m)) by (rewrite E2; now apply in_map). apply in_map_iff in J as (q' & Q & J). rewrite <- E1, <- Q. now apply F. }
    assert (N : forall k v m, ascending m -> sfind k m = None -> ascending (sinsert k v m)).
    { clear. unfold ascending. intros k v m. assert (X : forall m p, In p (sinsert k v m) -> p = (k, v) \/ In p m). { clear. induction m as [|[a q] m IH]; intros p I; cbn [sinsert] in I; [destruct I as [<-|[]]; now left|]. destruct (String.compare k a); try (destruct I as [<-|I]; [right; now left|destruct (IH p I); [now left|right; now right]]). destruct I as [<-|I]; [now left|now right]. }
      induction m as [|[a q] m IH]; intros S E; cbn [sinsert]; [repeat constructor|]. cbn [sfind] in E. destruct (String.eqb_spec k a) as [|NE]; [discriminate|]. inversion S as [|? ? S1 F]; subst.
      assert (C : String.compare k a <> Lt -> String.compare a k = Lt). { intros L. rewrite String.compare_antisym. destruct (String.compare k a) eqn:K; [apply String.compare_eq_iff in K; contradiction|congruence|reflexivity]. }
      assert (D : String.compare k a <> Lt -> StronglySorted (fun a b => String.compare (fst a) (fst b) = Lt) ((a, q) :: sinsert k v m)). { intros L. specialize (C L). constructor; [now apply IH|]. rewrite Forall_forall in *. intros p I. apply X in I as [->|I]; [exact C|now apply F]. }
      destruct (String.compare k a) eqn:K; [apply D; discriminate| |apply D; discriminate]. constructor; [exact S|]. constructor; [exact K|]. rewrite Forall_forall in *. intros p I. cbn [fst]. apply (lt_trans _ a); [exact K|now apply F]. }
    induction b as [|[k q] b IH]; intros a r H A B; cbn [merge_syms] in H; [injection H as <-; exact A|]. inversion B as [|? ? B1 _]; subst. destruct (sfind k a) eqn:E.
    + ok H q1. apply IH in H; [exact H| |exact B1]. apply (AM a); [symmetry; apply U|exact A].
    + apply IH in H; [exact H| |exact B1]. now apply N.
  - intros w q m. assert (I : forall m r, scale_syms w q m = Ok r -> map fst r = map fst m). { clear. induction m as [|[k v] m IH]; intros r H; cbn [scale_syms] in H; [injection H as <-; reflexivity|]. ok H v'. ok H r'. injection H as <-. cbn [map fst]. f_equal. now apply IH. }
    induction m as [|[k v] m IH]; intros r H S; cbn [scale_syms] in H; [injection H as <-; exact S|]. ok H v'. ok H r'. injection H as <-. inversion S as [|? ? S1 F]; subst. constructor; [now apply IH|]. rewrite Forall_forall in *. intros p J. assert (K : In (fst p) (map fst m)) by (rewrite <- (I m r' Q0); now apply in_map). apply in_map_iff in K as (p' & E & K). cbn [fst]. rewrite <- E. exact (F p' K).
Qed.
Lemma maps_ne e : maps e <-> Ne ascending e.
Proof. induction e as [f|c l IHl r IHr]; cbn [maps Ne]; [reflexivity|]. now rewrite IHl, IHr. Qed.
Lemma String_compare_refl a : String.compare a a = Eq.
Proof. pose proof (String.compare_antisym a a) as H. destruct (String.compare a a); [reflexivity|discriminate|discriminate]. Qed.
Lemma ascending_nodup (m : smap) : ascending m -> NoDup (map fst m).
Proof.
  induction 1 as [|p m S IH F]; cbn [map]; constructor; [|exact IH]. intros I. apply in_map_iff in I as (q & E & I). rewrite Forall_forall in F. apply F in I. rewrite E in I. assert (X : String.compare (fst p) (fst p) = Eq) by apply String_compare_refl. congruence.
Qed.

(** ** substitution *)
Lemma erase_in k k' (m : smap) : In k' (map fst (serase k m)) -> In k' (map fst m).
Proof. induction m as [|[a v] m IH]; cbn [serase map fst]; [auto|]. destruct (String.eqb k a); cbn [map fst]; [intros I; now right|]. intros [I|I]; [now left|right; auto]. Qed.
Lemma erase_nodup k (m : smap) : NoDup (map fst m) -> NoDup (map fst (serase k m)) /\ ~ In k (map fst (serase k m)).
Proof.
  induction m as [|[a v] m IH]; cbn [serase map fst]; intros D; [split; [constructor|intros []]|]. inversion D as [|? ? I D']; subst. destruct (String.eqb_spec k a) as [->|E]; [split; assumption|]. cbn [map fst]. destruct (IH D') as [A B]. split; [constructor; [|exact A]; intros J; now apply erase_in in J|]. intros [J|J]; [now apply E|contradiction].
Qed.
Lemma erase_all (e : envmap) : forall m : smap, NoDup (map fst m) -> let m' := fold_left (fun m p => serase (fst p) m) e m in NoDup (map fst m') /\ forall k, In k (map fst m') -> In k (map fst m) /\ efind k e = None.
Proof.
  cbv zeta. induction e as [|[a v] e IH]; intros m D; cbn [fold_left fst efind]; [auto|]. destruct (erase_nodup a m D) as [D' NI]. destruct (IH _ D') as [A B]. split; [exact A|]. intros k I. destruct (B k I) as [B1 B2]. split; [now apply erase_in in B1|]. destruct (String.eqb_spec k a) as [->|E]; [contradiction|exact B2].
Qed.
Lemma n_tsubst E e t r : term_subst E e t = Ok r -> NoDup (map fst (syms t)) -> forall k, tmentions k r -> tmentions k t /\ efind k e = None.
Proof. intros H D k I. unfold term_subst in H. apply bind_ok in H as (c & _ & H). injection H as <-. exact (proj2 (erase_all e (syms t) D) k I). Qed.
Lemma nt_iff N t : Nt (named N) t <-> forall k, tmentions k t -> N k.
Proof. unfold Nt, named, tmentions. rewrite Forall_forall. split; [intros H k I; apply in_map_iff in I as ([a v] & <- & I); exact (H _ I)|]. intros H [a v] I. apply H. apply in_map_iff. now exists (a, v). Qed.
Lemma np_iff N l : Np (named N) l <-> forall k, pmentions k l -> N k.
Proof.
  unfold Np, pmentions. rewrite Forall_forall. split.
  - intros H k I. apply Exists_exists in I as (t & I & M). exact (proj1 (nt_iff N t) (H t I) k M).
  - intros H t I. apply nt_iff. intros k M. apply H. apply Exists_exists. now exists t.
Qed.
Lemma nf_iff N f : Nf (named N) f <-> forall k, fmentions k f -> N k.
Proof. unfold Nf, fmentions. rewrite !np_iff. split; [intros [A B] k [I|I]; auto|]. intros H. split; auto. Qed.
Lemma ne_iff N e : Ne (named N) e <-> forall k, mentions k e -> N k.
Proof. induction e as [f|c l IHl r IHr]; cbn [Ne mentions]; [apply nf_iff|]. rewrite IHl, IHr. split; [intros [A B] k [I|I]; auto|]. intros H. split; auto. Qed.
Section S.
Variable P : penv.
Hypothesis HS : sort_permutes P.
Lemma n_psubst E e l : forall r, poly_subst E e l = Ok r -> Forall (fun t => ascending (syms t)) l -> Np (named (fun k => pmentions k l /\ efind k e = None)) r.
Proof.
  unfold poly_subst. induction l as [|t l IH]; intros r H D; cbn [mapr] in H; [injection H as <-; constructor|]. inversion D; subst. apply bind_ok in H as (b & Hb & H). apply bind_ok in H as (r' & Hr & H). injection H as <-. constructor.
  - apply nt_iff. intros k M. destruct (n_tsubst _ _ _ _ Hb ltac:(apply ascending_nodup; assumption) k M) as [A B]. split; [now left|exact B].
  - apply np_iff. intros k M. destruct (proj1 (np_iff _ r') (IH r' Hr ltac:(assumption)) k M) as [A B]. split; [now right|exact B].
Qed.
Lemma n_fsubst e f r : frac_subst P e f = Ok r -> fmaps f -> Nf (named (fun k => fmentions k f /\ efind k e = None)) r.
Proof.
  intros H (A & B). unfold frac_subst in H. apply bind_ok in H as (n & Hn & H). apply bind_ok in H as (d & Hd & H). apply bind_ok in H as (g & Hg & H). apply bind_ok in H as (z & _ & H). destruct z; [discriminate|]. injection H as <-.
  refine (n_fnorm _ (named_closed _) P HS _ _ Hg _). split.
  - apply np_iff. intros k M. destruct (proj1 (np_iff _ n) (n_psubst _ _ _ _ Hn A) k M) as [I J]. split; [now left|exact J].
  - apply np_iff. intros k M. destruct (proj1 (np_iff _ d) (n_psubst _ _ _ _ Hd B) k M) as [I J]. split; [now right|exact J].
Qed.
Lemma n_esubst e t : forall r, expr_subst P e t = Ok r -> maps t -> Ne (named (fun k => mentions k t /\ efind k e = None)) r.
Proof.
  induction t as [f|c l IHl x IHr]; intros r H D; cbn [expr_subst] in H.
  - apply bind_ok in H as (g & Hg & H). injection H as <-. exact (n_fsubst e f g Hg D).
  - destruct D as (Dl & Dr). apply bind_ok in H as (l' & Hl & H). apply bind_ok in H as (r' & Hr & H). refine (n_normalize _ (named_closed _) P HS _ _ H _). split; apply ne_iff; intros k M.
    + destruct (proj1 (ne_iff _ l') (IHl _ Hl Dl) k M) as [I J]. split; [now left|exact J].
    + destruct (proj1 (ne_iff _ r') (IHr _ Hr Dr) k M) as [I J]. split; [now right|exact J].
Qed.
End S.
