(** Exceptions of Term, Poly, Frac. *)
From Coq Require Import ZArith String Ascii Lia Bool List.
From Verif Require Import Base AdapterModel RationalModel RealModel PolyModel ExprModel CliModel ErrSpec ErrProofs1.
Import ListNotations.
Open Scope Z_scope.

Lemma o_mapr {A B} X (Q : A -> Prop) (R : B -> Prop) (f : A -> res B) l :
  Forall Q l -> (forall a, Q a -> outcome X R (f a)) -> outcome X (Forall R) (mapr f l).
Proof.
  intros H G. induction H as [|a l Qa _ IH]; cbn [mapr]; [constructor|]. eapply o_bind; [apply G, Qa|intros b Rb]. eapply o_bind; [exact IH|intros r Rr]. constructor; assumption.
Qed.

Lemma o_entries_eq X w a : forall b, outcome X any (entries_eq w a b).
Proof. induction a as [|[k v] a IH]; intros [|[k' v'] b]; cbn [entries_eq]; try exact I. destruct (String.eqb k k'); [|exact I]. step. destruct x; [apply IH|exact I]. Qed.
Lemma o_smap_eq X w a b : outcome X any (smap_eq w a b).
Proof. unfold smap_eq. destruct (Nat.eqb _ _); [apply o_entries_eq|exact I]. Qed.
Lemma o_smap_cmp X w a : forall b, outcome X any (smap_cmp w a b).
Proof.
  induction a as [|[k v] a IH]; intros [|[k' v'] b]; cbn [smap_cmp]; try exact I. destruct (String.compare k k'); try exact I. step. destruct x; [apply IH|exact I|exact I].
Qed.
#[export] Hint Resolve o_smap_eq o_smap_cmp : calm.
Lemma o_drop_zero X w m : sane_syms m -> outcome X sane_syms (drop_zero w m).
Proof.
  intros H. induction H as [|[k v] m V H IH]; cbn [drop_zero]; [constructor|]. step. eapply o_bind; [exact IH|]. intros r Sr. destruct x; cbn [outcome]; [exact Sr|constructor; assumption].
Qed.
#[export] Hint Resolve o_drop_zero : calm.
Lemma o_term_normalize X w t : sane_term t -> outcome X sane_term (term_normalize w t).
Proof. intros [C S]. unfold term_normalize. step. split; assumption. Qed.
Lemma o_term_make X w c s : sane_real c -> sane_syms s -> outcome X sane_term (term_make w c s).
Proof. intros C S. apply o_term_normalize. split; assumption. Qed.
Lemma sane_const c : sane_real c -> sane_term (term_const c).
Proof. intros C. split; [exact C|constructor]. Qed.
Lemma sane_sym c k : sane_real c -> sane_term (term_sym c k).
Proof. intros C. split; [exact C|]. repeat constructor. exact sane1. Qed.
#[export] Hint Resolve o_term_normalize o_term_make sane_const sane_sym : calm.
Lemma efind_sane k e v : sane_env e -> efind k e = Some v -> sane_real v.
Proof. intros H. induction H as [|[k' v'] e V _ IH]; cbn [efind]; [discriminate|]. destruct (String.eqb k k'); [intros E; injection E as <-; exact V|exact IH]. Qed.
Lemma o_subst_coe E e m : fac_calm E -> sane_env e -> sane_syms m -> forall c, sane_real c -> outcome err sane_real (subst_coe E e m c).
Proof.
  intros F SE H. induction H as [|[k q] m V H IH]; intros c C; cbn [subst_coe]; [exact C|]. destruct (efind k e) as [v|] eqn:Ev; [|apply IH, C].
  pose proof (efind_sane _ _ _ SE Ev) as Sv. cbn [snd] in V. repeat step. apply IH. assumption.
Qed.
Lemma serase_sane k m : sane_syms m -> sane_syms (serase k m).
Proof. intros H. induction H as [|[k' v] m V H IH]; cbn [serase]; [constructor|]. destruct (String.eqb k k'); [exact H|constructor; assumption]. Qed.
Lemma erase_all_sane (e : envmap) : forall m, sane_syms m -> sane_syms (fold_left (fun m p => serase (fst p) m) e m).
Proof. induction e as [|p e IH]; intros m H; cbn [fold_left]; [exact H|]. apply IH, serase_sane, H. Qed.
Lemma o_term_subst E e t : fac_calm E -> sane_env e -> sane_term t -> outcome err sane_term (term_subst E e t).
Proof. intros F SE [C S]. unfold term_subst. eapply o_bind; [apply o_subst_coe; assumption|intros c Sc]. split; [exact Sc|apply erase_all_sane, S]. Qed.
Lemma o_term_eq X w a b : outcome X any (term_eq w a b).
Proof. unfold term_eq. step. destruct x; [apply o_smap_eq|exact I]. Qed.
#[export] Hint Resolve o_term_subst o_term_eq : calm.
Lemma sinsert_sane k q m : sane_rat q -> sane_syms m -> sane_syms (sinsert k q m).
Proof. intros Q H. induction H as [|[k' v] m V H IH]; cbn [sinsert]; [repeat constructor; exact Q|]. destruct (String.compare k k'); repeat constructor; assumption. Qed.
Lemma supdate_sane k q m : sane_rat q -> sane_syms m -> sane_syms (supdate k q m).
Proof. intros Q H. induction H as [|[k' v] m V H IH]; cbn [supdate]; [constructor|]. destruct (String.eqb k k'); constructor; assumption. Qed.
Lemma sfind_sane k m v : sane_syms m -> sfind k m = Some v -> sane_rat v.
Proof. intros H. induction H as [|[k' v'] m V _ IH]; cbn [sfind]; [discriminate|]. destruct (String.eqb k k'); [intros E; injection E as <-; exact V|exact IH]. Qed.
Lemma o_merge_syms X w b : sane_syms b -> forall a, sane_syms a -> outcome X sane_syms (merge_syms w b a).
Proof.
  intros H. induction H as [|[k q] b V H IH]; intros a A; cbn [merge_syms]; [exact A|]. cbn [snd] in V. destruct (sfind k a) as [q0|] eqn:Fk; [|apply IH, sinsert_sane; assumption].
  pose proof (sfind_sane _ _ _ A Fk). step. apply IH, supdate_sane; assumption.
Qed.
#[export] Hint Resolve o_merge_syms : calm.
Lemma o_term_mul X E a b : fac_calm E -> sane_term a -> sane_term b -> outcome X sane_term (term_mul E a b).
Proof. intros F [A1 A2] [B1 B2]. unfold term_mul. repeat step. apply o_term_normalize. split; assumption. Qed.
Lemma o_term_div E a r : fac_calm E -> sane_term a -> outcome err sane_term (term_div E a r).
Proof. intros F [A1 A2]. unfold term_div. repeat step. apply o_term_normalize. split; assumption. Qed.
Lemma o_scale_syms X w q m : sane_rat q -> sane_syms m -> outcome X sane_syms (scale_syms w q m).
Proof. intros Q H. induction H as [|[k v] m V H IH]; cbn [scale_syms]; [constructor|]. cbn [snd] in V. step. eapply o_bind; [exact IH|intros r Sr]. constructor; assumption. Qed.
#[export] Hint Resolve o_term_mul o_term_div o_scale_syms : calm.
Lemma o_term_pow E a q : fac_calm E -> sane_term a -> sane_rat q -> outcome err sane_term (term_pow E a q).
Proof. intros F [A1 A2] Q. unfold term_pow. repeat step. apply o_term_normalize. split; assumption. Qed.
Lemma o_term_negate X E a : fac_calm E -> sane_term a -> outcome X sane_term (term_negate E a).
Proof. intros F [A1 A2]. unfold term_negate. repeat step. apply o_term_make; assumption. Qed.
Lemma o_term_positive X E a : fac_calm E -> sane_term a -> outcome X any (term_positive E a).
Proof. intros F [A1 A2]. unfold term_positive. repeat step. apply o_real_gt; assumption. Qed.
Lemma o_term_eval a : sane_term a -> outcome err sane_real (term_eval a).
Proof. intros [A1 A2]. unfold term_eval. destruct (no_symbols a); [exact A1|reflexivity]. Qed.
Lemma o_term_equivalent X w a b : outcome X any (term_equivalent w a b).
Proof. unfold term_equivalent. step. destruct x; [apply o_is_equivalent|exact I]. Qed.
#[export] Hint Resolve o_term_pow o_term_negate o_term_positive o_term_eval o_term_equivalent : calm.
Lemma o_solve_helper X w n : outcome X any (solve_helper w n).
Proof. unfold solve_helper. step. exact I. Qed.
Lemma o_solve X w fuel : forall n m, outcome X any (solve_variable_eq w fuel n m).
Proof.
  induction fuel as [|f IH]; intros n m; cbn [solve_variable_eq]; (destruct (m =? 2); [apply o_solve_helper|]); [exact I|].
  eapply o_bind; [apply o_solve_helper|intros tmp _]. induction tmp as [|r l IHl]; [exact I|]. eapply o_bind; [apply IH|intros t _]. eapply o_bind; [exact IHl|]. intros; exact I.
Qed.
#[export] Hint Resolve o_solve : calm.
Lemma o_term_before X w a b : sane_term a -> sane_term b -> outcome X any (term_before w a b).
Proof.
  intros [A1 A2] [B1 B2]. unfold term_before. step. destruct (negb x). { step. exact I. } destruct (negb (idx (tco a) =? idx (tco b))); [exact I|].
  step. destruct x0; [apply o_gt|apply o_real_gt; assumption].
Qed.
Lemma o_merge_from E l : fac_calm E -> sane_poly l -> forall a, sane_term a -> outcome err sane_poly (merge_from E a l).
Proof.
  intros F H. induction H as [|b l SB H IH]; intros a SA; cbn [merge_from]; [constructor; [exact SA|constructor]|]. step. destruct x.
  - destruct SA as [A1 A2], SB as [B1 B2]. do 2 step. apply IH. assumption.
  - eapply o_bind; [apply IH, SB|]. intros r Sr. constructor; assumption.
Qed.
Lemma calm_fac P : calm P -> fac_calm (pe P). Proof. intros (F & _). exact F. Qed.
#[export] Hint Resolve calm_fac : calm.
Lemma o_sort X P l : calm P -> sane_poly l -> outcome X sane_poly (psort P l).
Proof.
  intros (_ & N & K) S. eapply o_of_ok; [apply o_no_exception, N, S|]. intros l' E. apply Forall_forall. intros t T. eapply Forall_forall; [exact S|]. exact (K l l' S E t T).
Qed.
Lemma o_poly_normalize P l : calm P -> sane_poly l -> outcome err sane_poly (poly_normalize P l).
Proof.
  intros C S. unfold poly_normalize. eapply o_bind; [apply o_sort; assumption|]. intros s Ss. unfold merge_terms. destruct Ss as [|a s A Ss]; [constructor|].
  apply o_merge_from; auto with calm.
Qed.
Lemma o_poly_make P l : calm P -> sane_poly l -> outcome err sane_poly (poly_make P l).
Proof. apply o_poly_normalize. Qed.
#[export] Hint Resolve o_poly_normalize o_poly_make : calm.
Definition sane_opt {A} (Q : A -> Prop) (o : option A) : Prop := match o with Some x => Q x | None => True end.
Lemma o_try_sum E l : fac_calm E -> sane_poly l -> forall acc, sane_real acc -> outcome err (sane_opt sane_real) (try_sum E acc l).
Proof.
  intros F H. induction H as [|t l [T1 T2] H IH]; intros acc A; cbn [try_sum]; [exact A|]. unfold term_try_eval. destruct (no_symbols t); [|exact I].
  step. destruct x; [|exact I]. step. apply IH. assumption.
Qed.
Lemma o_poly_try_eval E l : fac_calm E -> sane_poly l -> outcome err (sane_opt sane_real) (poly_try_eval E l).
Proof. intros F S. unfold poly_try_eval. step. apply o_try_sum; assumption. Qed.
Lemma o_terms_eq X w a : forall b, outcome X any (terms_eq w a b).
Proof. induction a as [|t a IH]; intros [|u b]; cbn [terms_eq]; try exact I. step. destruct x; [apply IH|exact I]. Qed.
Lemma o_poly_eq X w a b : outcome X any (poly_eq w a b).
Proof. unfold poly_eq. destruct (Nat.eqb _ _); [apply o_terms_eq|exact I]. Qed.
Lemma o_poly_subst E e l : fac_calm E -> sane_env e -> sane_poly l -> outcome err sane_poly (poly_subst E e l).
Proof. intros F SE S. eapply o_mapr; [exact S|]. intros; apply o_term_subst; assumption. Qed.
Lemma o_poly_is_zero X E l : fac_calm E -> outcome X any (poly_is_zero E l).
Proof. intros F. induction l as [|t l IH]; cbn [poly_is_zero]; [exact I|]. do 2 step. destruct x0; [exact I|exact IH]. Qed.
#[export] Hint Resolve o_poly_try_eval o_poly_eq o_poly_subst o_poly_is_zero : calm.
Lemma o_both E a b : fac_calm E -> sane_poly a -> sane_poly b -> outcome err (sane_opt (fun p => sane_real (fst p) /\ sane_real (snd p))) (both E a b).
Proof. intros F A B. unfold both. do 2 step. destruct x, x0; cbn [outcome sane_opt fst snd] in *; auto. Qed.
#[export] Hint Resolve o_both : calm.
Lemma sane_app a b : sane_poly a -> sane_poly b -> sane_poly (a ++ b).
Proof. intros A B. apply Forall_app. split; assumption. Qed.
Lemma sane_one t : sane_term t -> sane_poly [t].
Proof. intros S. constructor; [exact S|constructor]. Qed.
#[export] Hint Resolve sane_app sane_one : calm.
Lemma o_add_to P a b : calm P -> sane_poly a -> sane_poly b -> outcome err sane_poly (poly_add_to P a b).
Proof. intros C A B. apply o_poly_normalize; auto with calm. Qed.
Ltac binary := match goal with |- outcome _ _ (match ?v with Some _ => _ | None => _ end) => destruct v as [[x y]|]; cbn [sane_opt fst snd] in *; [intuition (idtac)|] end.
Lemma o_poly_add P a b : calm P -> sane_poly a -> sane_poly b -> outcome err sane_poly (poly_add P a b).
Proof.
  intros C A B. unfold poly_add. pose proof (calm_fac P C). step. destruct x as [[x y]|]; cbn [sane_opt fst snd] in *; [|apply o_add_to; assumption].
  match goal with Hxy : _ /\ _ |- _ => destruct Hxy end. step. apply o_poly_make; auto with calm.
Qed.
Lemma o_poly_negate X E a : fac_calm E -> sane_poly a -> outcome X sane_poly (poly_negate E a).
Proof. intros F A. eapply o_mapr; [exact A|]. intros; apply o_term_negate; assumption. Qed.
#[export] Hint Resolve o_add_to o_poly_add o_poly_negate : calm.
Lemma o_sub_to P a b : calm P -> sane_poly a -> sane_poly b -> outcome err sane_poly (poly_sub_to P a b).
Proof. intros C A B. unfold poly_sub_to. repeat step. apply o_poly_normalize; assumption. Qed.
Lemma o_mul_to P a b : calm P -> sane_poly a -> sane_poly b -> outcome err sane_poly (poly_mul_to P a b).
Proof.
  intros C A B. unfold poly_mul_to. eapply o_bind.
  - eapply o_mapr with (R := sane_poly); [exact A|]. intros t T. eapply o_mapr; [exact B|]. intros u U. apply o_term_mul; auto with calm.
  - intros l L. apply o_poly_normalize; [exact C|]. unfold sane_poly. apply Forall_concat, L.
Qed.
Lemma o_poly_mul P a b : calm P -> sane_poly a -> sane_poly b -> outcome err sane_poly (poly_mul P a b).
Proof.
  intros C A B. unfold poly_mul. pose proof (calm_fac P C). step. destruct x as [[x y]|]; cbn [sane_opt fst snd] in *; [|apply o_mul_to; assumption].
  match goal with Hxy : _ /\ _ |- _ => destruct Hxy end. step. apply o_poly_make; auto with calm.
Qed.
Lemma o_div_to P a r : calm P -> sane_poly a -> outcome err sane_poly (poly_div_to P a r).
Proof. intros C A. unfold poly_div_to. eapply o_bind; [eapply o_mapr; [exact A|]; intros; apply o_term_div; auto with calm|]. intros l L. apply o_poly_normalize; assumption. Qed.
#[export] Hint Resolve o_sub_to o_mul_to o_poly_mul o_div_to : calm.
Lemma o_div_fact w n : forall q t, sane_rat q -> outcome err sane_rat (div_fact w q t n).
Proof. induction n as [|n IH]; intros q t Q; cbn [div_fact]; [exact Q|]. repeat step. apply IH. assumption. Qed.
#[export] Hint Resolve o_div_fact : calm.
Lemma o_div_facts w v : forall q, sane_rat q -> outcome err sane_rat (div_facts w q v).
Proof. induction v as [|x v IH]; intros q Q; cbn [div_facts]; [exact Q|]. step. apply IH. assumption. Qed.
#[export] Hint Resolve o_div_facts : calm.
Lemma o_mul_powers E l : fac_calm E -> sane_poly l -> forall v acc, sane_term acc -> outcome err sane_term (mul_powers E acc l v).
Proof. intros F H. induction H as [|t l T H IH]; intros v acc A; cbn [mul_powers]; [exact A|]. destruct v as [|x v]; [exact A|]. repeat step. apply IH. assumption. Qed.
Lemma o_multinomial E a n v : fac_calm E -> sane_poly a -> outcome err sane_term (multinomial E a n v).
Proof. intros F A. unfold multinomial. repeat step. apply o_mul_powers; auto with calm. Qed.
Lemma Forall_any {A} (l : list A) : Forall any l. Proof. induction l; constructor; [exact I|assumption]. Qed.
Lemma o_poly_pow P a q : calm P -> sane_poly a -> sane_rat q -> outcome err sane_poly (poly_pow P a q).
Proof.
  intros C A Q. unfold poly_pow. pose proof (calm_fac P C) as F. step. destruct x. { step. apply o_poly_make; auto with calm. } step. destruct x; [exact A|].
  assert (G : outcome err sane_poly (v <- poly_try_eval (pe P) a ;; match v with Some c => c' <- real_pow (pe P) c q ;; poly_make P [term_const c'] | None =>
            if is_int q then n <- rat_to_t (ew (pe P)) q ;; vs <- solve_variable_eq (ew (pe P)) (length a) n (Z.of_nat (length a)) ;;
            l <- mapr (multinomial (pe P) a (wfact (ew (pe P)) (Z.to_nat (uwrap (ew (pe P)) n)))) vs ;; poly_make P l else Throw "Must be a int." end)).
  { step. destruct x as [c|]; cbn [sane_opt] in *. { step. apply o_poly_make; auto with calm. } destruct (is_int q); [|reflexivity].
    do 2 step. eapply o_bind; [eapply o_mapr with (Q := any); [apply Forall_any|]; intros; apply o_multinomial; assumption|]. intros l L. apply o_poly_make; assumption. }
  destruct a as [|t [|u a]]; [exact G| |exact G]. assert (T : sane_term t) by (inversion A; assumption). step. apply o_poly_make; auto with calm.
Qed.
