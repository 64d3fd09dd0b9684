(** Proofs: what an exception leaves behind. *)
From Coq Require Import ZArith String Ascii Lia Bool List.
From Verif Require Import Base AdapterModel HugeModel RationalModel RealModel PolyModel CliModel AliasModel AliasSpec AliasProofs1 ErrSpec ErrProofs1 ErrProofs2 ErrProofs3.
Import ListNotations.
Open Scope Z_scope.

Local Notation none := (fun _ : string => False).
Lemma throw_done {A} (p : A * res unit) m : done p = Throw m <-> snd p = Throw m.
Proof. unfold done. destruct (snd p); split; congruence. Qed.
Lemma keeps_quiet {A} (p : prog A) s : no_exception (done (p s)) -> keeps p s.
Proof. intros H m E. apply throw_done in E. exfalso. exact (H m E). Qed.
Lemma keeps_quiet_o {A} (Q : A -> Prop) (p : prog A) s : outcome none Q (done (p s)) -> keeps p s.
Proof. intros H. apply keeps_quiet. exact (o_none _ _ H). Qed.
Lemma keeps_assign {A} (f : A -> res A) s : keeps (assign f) s.
Proof. intros m. unfold assign. destruct (f s); cbn; congruence. Qed.
Lemma keeps_local {A B} (f : A -> res B) (k : B -> prog A) s : (forall b, f s = Ok b -> keeps (k b) s) -> keeps (local f k) s.
Proof. intros H m. unfold local. destruct (f s) as [b|x|x|]; cbn; try congruence. exact (H b eq_refl m). Qed.
Lemma keeps_then {A} (c d : prog A) s : keeps c s -> (forall s', done (c s) = Ok s' -> no_exception (done (d s'))) -> keeps (c ;> d) s.
Proof.
  intros K N m. unfold then_. destruct (c s) as [s' r] eqn:C. destruct r as [u|x|x|]; cbn; try congruence.
  - intros E. apply throw_done in E. exfalso. exact (N s' ltac:(reflexivity) m E).
  - intros _. specialize (K x). rewrite C in K. exact (K eq_refl).
Qed.
Lemma keeps_inside {A B} (get : A -> B) put (c : prog B) (s : A) : put (get s) s = s -> keeps c (get s) -> keeps (inside get put c) s.
Proof. intros E K m. unfold inside. specialize (K m). destruct (c (get s)) as [b r]. cbn in *. intros X. now rewrite K. Qed.

(** ** Huge: only the test for zero throws, before anything is written *)
Lemma q_pop l : outcome none any (pop_zeros l). Proof. induction l as [|x l IH]; cbn [pop_zeros]; [exact I|]. destruct (x =? 0); [exact IH|exact I]. Qed.
Lemma q_trim v : outcome none any (trim_back v). Proof. unfold trim_back. eapply o_bind; [apply q_pop|]. intros; exact I. Qed.
Lemma q_row a b : forall c rt, outcome none any (mul_row a c b rt).
Proof. induction b as [|y b IH]; intros c rt; cbn [mul_row]; [destruct (c =? 0); [exact I|]; destruct rt; exact I|]. destruct rt as [|r rt]; [exact I|]. cbv zeta. eapply o_bind; [apply IH|]. intros; exact I. Qed.
Lemma q_rows a b : forall rt, outcome none any (mul_rows a b rt).
Proof. induction a as [|x a IH]; intros rt; cbn [mul_rows]; [exact I|]. eapply o_bind; [apply q_row|]. intros [|r r2] _; [exact I|]. eapply o_bind; [apply IH|]. intros; exact I. Qed.
Lemma q_write r p t : outcome none any (write_at r p t). Proof. unfold write_at. destruct (Nat.leb _ _); exact I. Qed.
Lemma q_mul_fuel n : forall c d, outcome none any (digits_mul_fuel n c d).
Proof.
  induction n as [|n IH]; intros c d; cbn [digits_mul_fuel]; [exact I|]. destruct (_ || _)%bool; [exact I|]. cbv zeta.
  match goal with |- context [Nat.leb ?a ?b] => destruct (Nat.leb a b) end; [unfold digits_simple_mul; eapply o_bind; [apply q_rows|intros; apply q_trim]|].
  match goal with |- outcome _ _ (let '(_, _) := ?e in _) => destruct e as [ah al] end. match goal with |- outcome _ _ (let '(_, _) := ?e in _) => destruct e as [bh bl] end.
  eapply o_bind; [apply IH|intros t1 _]. eapply o_bind; [apply q_write|intros r1 _]. eapply o_bind; [apply IH|intros t2 _]. eapply o_bind; [apply q_write|intros r2 _]. eapply o_bind; [apply IH|intros t3 _]. apply q_trim.
Qed.
Lemma q_mul c d : outcome none any (digits_mul c d). Proof. apply q_mul_fuel. Qed.
Lemma q_by1 c b : outcome none any (digits_divrem_by1 c b). Proof. unfold digits_divrem_by1. destruct (b =? 0); [exact I|]. destruct (divrem_by1_loop b c); exact I. Qed.
Lemma q_correct n a b c : forall q r, outcome none any (qcorrect n a b c q r).
Proof. induction n as [|n IH]; intros q r; cbn [qcorrect]; [exact I|]. destruct (_ >? _); [|exact I]. cbv zeta. destruct (_ >=? _); [exact I|apply IH]. Qed.
Lemma q_iter w n j v : outcome none any (divrem_iter w n j v).
Proof. unfold divrem_iter. cbv zeta. destruct (_ =? 0); [exact I|]. eapply o_bind; [apply q_correct|intros q _]. destruct (mulsub_loop _ _ _ _) as [w1 z]. destruct (_ <? 0); exact I. Qed.
Lemma q_loop w n k : forall v qs, outcome none any (divrem_loop w n k v qs).
Proof. induction k as [|k IH]; intros v qs; cbn [divrem_loop]; [exact I|]. eapply o_bind; [apply q_iter|]. intros [q v'] _. apply IH. Qed.
Lemma q_divrem a b : outcome none any (digits_divrem a b).
Proof.
  unfold digits_divrem. cbv zeta. destruct (_ =? 0); [exact I|]. destruct (_ <? 0); [exact I|]. destruct b as [|b0 [|b1 b]]; [exact I|apply q_by1|].
  destruct (digits_left_shift a _) as [v0 cr]. eapply o_bind; [apply q_loop|intros [qs v'] _]. eapply o_bind; [apply q_trim|intros r _]. eapply o_bind; [apply q_trim|intros q _]. exact I.
Qed.
Lemma q_rem a b : outcome none any (digits_rem a b).
Proof.
  unfold digits_rem. destruct (_ <? 0); [exact I|]. assert (outcome none any ('(_, rem) <- digits_divrem a b ;; Ok rem)) by (eapply o_bind; [apply q_divrem|intros [x y] _; exact I]).
  destruct b as [|b0 [|b1 b]]; try assumption. unfold digits_rem_by1. destruct (b0 =? 0); [destruct a|]; exact I.
Qed.
Lemma huge_add_keeps x a : keeps (huge_add_p x) a. Proof. apply keeps_quiet. rewrite huge_add_done. intros m. discriminate. Qed.
Lemma huge_sub_keeps x a : keeps (huge_sub_p x) a. Proof. apply keeps_quiet. rewrite huge_sub_done. intros m. discriminate. Qed.
Lemma huge_mul_keeps x a : keeps (huge_mul_p x) a.
Proof. apply (keeps_quiet_o any). rewrite huge_mul_done. unfold huge_mul. eapply o_bind; [apply q_mul|]. intros; exact I. Qed.
Lemma huge_div_keeps x a : keeps (huge_div_p x) a.
Proof.
  apply keeps_then; [apply keeps_assign|]. intros s'. rewrite done_assign. destruct (digits (at_arg x a)); [discriminate|]. intros E. injection E as <-. apply (o_none any).
  rewrite done_then, done_assign. cbn [bind]. unfold assign_digits. rewrite done_assign. eapply o_bind; [eapply o_bind; [apply q_divrem|intros [q r] _; exact I]|intros; exact I].
Qed.
Lemma huge_mod_keeps x a : keeps (huge_mod_p x) a.
Proof. apply keeps_then; [apply keeps_assign|]. intros s' _. apply (o_none any). unfold assign_digits. rewrite done_assign. eapply o_bind; [apply q_rem|intros; exact I]. Qed.

(** ** Rational *)
Section Rat.
  Variable w : Z.
  Lemma sane_at {A} (Q : A -> Prop) x (a : A) : (forall b, x = Other b -> Q b) -> Q a -> Q (at_arg x a).
  Proof. intros X H. destruct x as [|b]; cbn [at_arg]; auto. Qed.
  Lemma rat_add_quiet x a : sane_rat a -> sane_rat (at_arg x a) -> outcome none sane_rat (done (rat_add_p w x a)).
  Proof. intros A B. rewrite add_p. now apply o_add. Qed.
  Lemma rat_mul_quiet x a : sane_rat a -> sane_rat (at_arg x a) -> outcome none sane_rat (done (rat_mul_p w x a)).
  Proof. intros A B. rewrite mul_p. now apply o_mul. Qed.
  Lemma rat_sub_quiet x a : sane_rat a -> sane_rat (at_arg x a) -> outcome none sane_rat (done (rat_sub_p w x a)).
  Proof. intros A B. unfold rat_sub_p. rewrite done_local. eapply o_bind; [apply o_negate, B|]. intros n N. now apply rat_add_quiet. Qed.
  Lemma rat_div_keeps x a : sane_rat a -> keeps (rat_div_p w x) a.
  Proof.
    intros A. apply keeps_local. intros i E. apply (keeps_quiet_o sane_rat). apply rat_mul_quiet; [exact A|]. pose proof (o_inverse w (at_arg x a)) as H. rewrite E in H. exact H.
  Qed.
End Rat.

(** ** Real *)
Section Real.
  Variable E : env.
  Hypothesis F : fac_calm E.
  Lemma set_coe_get a : set_coe (coe a) a = a. Proof. destruct a; reflexivity. Qed.
  Lemma real_add_keeps x a : sane_real a -> sane_real (at_arg x a) -> keeps (real_add_p E x) a.
  Proof.
    intros [A1 A2] [B1 B2]. apply keeps_local. intros [] _; [|apply keeps_assign]. apply (keeps_quiet_o sane_real). rewrite done_then, done_inside.
    eapply o_bind with (Q := sane_real); [eapply o_bind; [apply rat_add_quiet; [exact A1|]|]|]. { rewrite at_member. exact B1. } { intros c C. split; assumption. } intros s S. rewrite done_assign. now apply o_real_normalize.
  Qed.
  Lemma real_sub_keeps x a : sane_real a -> sane_real (at_arg x a) -> keeps (real_sub_p E x) a.
  Proof.
    intros A B. apply keeps_local. intros n N. pose proof (o_real_negate none E (at_arg x a) F B) as H. rewrite N in H. cbn [outcome] in H. apply keeps_then; [now apply real_add_keeps|].
    intros s' D. rewrite real_add_done in D. cbn [at_arg] in D. pose proof (o_real_add E a n F A H) as G. rewrite D in G. cbn [outcome] in G. rewrite done_assign. apply (o_none sane_real). now apply o_real_normalize.
  Qed.
  Lemma real_mul_quiet x a : sane_real a -> sane_real (at_arg x a) -> outcome none sane_real (done (real_mul_p E x a)).
  Proof. intros A B. rewrite real_mul_done. now apply o_real_mul. Qed.
  Lemma real_div_keeps x a : sane_real a -> keeps (real_div_p E x) a.
  Proof.
    intros A. apply keeps_local. intros i I. apply (keeps_quiet_o sane_real). apply real_mul_quiet; [exact A|]. pose proof (o_real_inverse (ew E) (at_arg x a)) as H. rewrite I in H. exact H.
  Qed.
  (** once the divisor has an inverse, division throws nothing *)
  Lemma real_div_quiet a b i : sane_real a -> real_inverse (ew E) b = Ok i -> outcome none sane_real (real_div E a b).
  Proof. intros A I. unfold real_div. rewrite I. cbn [bind]. pose proof (o_real_inverse (ew E) b) as H. rewrite I in H. now apply o_real_mul. Qed.

  Lemma term_mul_quiet x a : keyed (at_arg x a) -> sane_term a -> sane_term (at_arg x a) -> outcome none sane_term (done (term_mul_p E x a)).
  Proof. intros K A B. rewrite term_mul_done by exact K. now apply o_term_mul. Qed.
  Lemma set_tco_get a : set_tco (tco a) a = a. Proof. destruct a; reflexivity. Qed.
  Lemma term_div_keeps x a : sane_term a -> keeps (term_div_p E x) a.
  Proof.
    intros [A1 A2]. apply keeps_then; [apply keeps_inside; [apply set_tco_get|now apply real_div_keeps]|]. intros s' D. rewrite done_inside, real_div_done in D. pose proof (o_real_div E (tco a) (at_arg x (tco a)) F A1) as G.
    destruct (real_div E (tco a) (at_arg x (tco a))) as [c|m|m|]; try discriminate. cbn [bind outcome] in *. injection D as <-. rewrite done_assign. apply (o_none sane_term), o_term_normalize. split; assumption.
  Qed.
  Lemma term_div_quiet a b i : sane_term a -> real_inverse (ew E) b = Ok i -> outcome none sane_term (term_div E a b).
  Proof. intros [A1 A2] I. unfold term_div. eapply o_bind; [now apply (real_div_quiet (tco a) b i)|]. intros c C. apply o_term_normalize. split; assumption. Qed.
End Real.

(** ** Poly *)
Section Poly.
  Variable P : penv.
  Hypothesis C : calm P.
  Local Notation F := (calm_fac P C).
  Lemma q_merge l : sane_poly l -> forall a, sane_term a -> outcome none sane_poly (merge_from (pe P) a l).
  Proof.
    intros H. induction H as [|b l SB H IH]; intros a SA; cbn [merge_from]; [constructor; [exact SA|constructor]|].
    destruct (term_equivalent (ew (pe P)) a b) as [e|m|m|] eqn:Q; cbn [bind outcome]; try exact I. 2: { pose proof (o_term_equivalent none (ew (pe P)) a b) as G. rewrite Q in G. exact G. }
    destruct e; [|eapply o_bind; [apply IH, SB|]; intros r Sr; constructor; assumption].
    unfold term_equivalent in Q. destruct (smap_eq (ew (pe P)) (syms a) (syms b)) as [[]|m|m|]; cbn [bind] in Q; try discriminate. destruct SA as [A1 A2], SB as [B1 B2].
    eapply o_bind with (Q := sane_real). { unfold real_add. rewrite Q. cbn [bind]. destruct A1 as [A11 A12], B1 as [B11 B12]. eapply o_bind; [now apply o_add|]. intros c Sc. apply o_real_normalize; [exact F|split; assumption]. }
    intros c Sc. eapply o_bind; [now apply o_term_make|]. intros t T. now apply IH.
  Qed.
  Lemma poly_normalize_quiet l : sane_poly l -> outcome none sane_poly (poly_normalize P l).
  Proof. intros S. unfold poly_normalize. eapply o_bind; [apply o_sort; assumption|]. intros s Ss. unfold merge_terms. destruct Ss as [|a s A Ss]; [constructor|]. now apply q_merge. Qed.
  Lemma poly_add_to_quiet a b : sane_poly a -> sane_poly b -> outcome none sane_poly (poly_add_to P a b).
  Proof. intros A B. apply poly_normalize_quiet. now apply sane_app. Qed.
  Lemma poly_sub_to_quiet a b : sane_poly a -> sane_poly b -> outcome none sane_poly (poly_sub_to P a b).
  Proof. intros A B. unfold poly_sub_to. eapply o_bind; [apply o_poly_negate; [exact F|exact B]|]. intros n N. eapply o_bind; [now apply poly_add_to_quiet|]. intros s S. now apply poly_normalize_quiet. Qed.
  Lemma poly_mul_to_quiet a b : sane_poly a -> sane_poly b -> outcome none sane_poly (poly_mul_to P a b).
  Proof.
    intros A B. unfold poly_mul_to. eapply o_bind.
    - eapply o_mapr with (R := sane_poly); [exact A|]. intros t T. eapply o_mapr; [exact B|]. intros u U. apply o_term_mul; auto with calm.
    - intros l L. apply poly_normalize_quiet. unfold sane_poly. apply Forall_concat, L.
  Qed.
  Lemma poly_add_quiet x a : sane_poly a -> sane_poly (at_arg x a) -> outcome none sane_poly (done (poly_add_p P x a)).
  Proof. intros A B. destruct x as [|b]; [exact I|]. rewrite poly_add_other. now apply poly_add_to_quiet. Qed.
  Lemma poly_sub_quiet x a : sane_poly a -> sane_poly (at_arg x a) -> outcome none sane_poly (done (poly_sub_p P x a)).
  Proof. intros A B. rewrite poly_sub_done. now apply poly_sub_to_quiet. Qed.
  Lemma poly_mul_quiet x a : sane_poly a -> sane_poly (at_arg x a) -> outcome none sane_poly (done (poly_mul_p P x a)).
  Proof. intros A B. rewrite poly_mul_done. now apply poly_mul_to_quiet. Qed.
  (** division: if the first term can be divided, all can *)
  Lemma q_div_mapr r i l : real_inverse (ew (pe P)) r = Ok i -> sane_poly l -> outcome none sane_poly (mapr (fun t => term_div (pe P) t r) l).
  Proof. intros I S. eapply o_mapr; [exact S|]. intros t T. exact (term_div_quiet (pe P) F t r i T I). Qed.
  Lemma poly_div_quiet r i l : real_inverse (ew (pe P)) r = Ok i -> sane_poly l -> outcome none sane_poly (poly_div_to P l r).
  Proof. intros I S. unfold poly_div_to. eapply o_bind; [exact (q_div_mapr r i l I S)|]. intros l' L. now apply poly_normalize_quiet. Qed.
  Lemma poly_div_keeps r l : sane_poly l -> keeps (poly_div_p P (Elsewhere r)) l.
  Proof.
    intros S. destruct (real_inverse (ew (pe P)) r) as [i|m|m|] eqn:J.
    - apply (keeps_quiet_o sane_poly). rewrite poly_div_done. exact (poly_div_quiet r i l J S).
    - destruct l as [|t l]; [apply (keeps_quiet_o sane_poly); rewrite poly_div_done; unfold poly_div_to; cbn [mapr bind]; now apply poly_normalize_quiet|].
      assert (X : div_term P (Elsewhere r) 0 (t :: l) = (t :: l, Throw m)).
      { unfold div_term. cbn [nth_error firstn skipn app]. unfold term_div_p, then_, inside, real_div_p, local. cbn [at_arg]. rewrite J. cbn [failed]. now rewrite set_tco_get. }
      intros m' _. unfold poly_div_p, local. cbn [length seq div_terms]. unfold then_. now rewrite X.
    - apply keeps_quiet. rewrite poly_div_done. unfold poly_div_to. destruct l as [|t l]; [cbn [mapr bind]; apply (o_none sane_poly); now apply poly_normalize_quiet|]. cbn [mapr]. unfold term_div, real_div. rewrite J. cbn [bind]. intros m'. discriminate.
    - apply keeps_quiet. rewrite poly_div_done. unfold poly_div_to. destruct l as [|t l]; [cbn [mapr bind]; apply (o_none sane_poly); now apply poly_normalize_quiet|]. cbn [mapr]. unfold term_div, real_div. rewrite J. cbn [bind]. intros m'. discriminate.
  Qed.

  (** ** Frac: no strong guarantee, but an invariant *)
  Definition steady {A} (I : A -> Prop) (p : prog A) : Prop := forall s, I s -> match snd (p s) with Ok _ | Throw _ => I (fst (p s)) | _ => True end.
  Lemma steady_assign {A} (I : A -> Prop) f : (forall s, I s -> outcome any I (f s)) -> steady I (assign f).
  Proof. intros H s S. specialize (H s S). unfold assign. destruct (f s); cbn in *; auto. Qed.
  Lemma steady_then {A} (I : A -> Prop) c d : steady I c -> steady I d -> steady I (c ;> d).
  Proof. intros X Y s S. specialize (X s S). unfold then_. destruct (c s) as [s' [u|m|m|]]; cbn in *; auto. now apply Y. Qed.
  Lemma steady_local {A B} (I : A -> Prop) (Q : B -> Prop) (f : A -> res B) k : (forall s, I s -> outcome any Q (f s)) -> (forall b, Q b -> steady I (k b)) -> steady I (local f k).
  Proof. intros X Y s S. specialize (X s S). unfold local. destruct (f s) as [b|m|m|]; cbn in *; auto. now apply Y. Qed.
  Lemma steady_keeps {A} (I : A -> Prop) (p : prog A) : (forall s, I s -> keeps p s /\ outcome any I (done (p s))) -> steady I p.
  Proof.
    intros H s S. destruct (H s S) as [K O]. unfold done in O. destruct (snd (p s)) as [u|m|m|] eqn:E; cbn in *; auto. now rewrite (K m E).
  Qed.
  Lemma steady_quiet {A} (I : A -> Prop) (p : prog A) : (forall s, I s -> outcome none I (done (p s))) -> steady I p.
  Proof. intros H. apply steady_keeps. intros s S. split; [exact (keeps_quiet_o I p s (H s S))|]. specialize (H s S). destruct (done (p s)); cbn in *; auto. contradiction. Qed.
  Lemma steady_num (p : prog poly) : steady sane_poly p -> steady sane_frac (on_num p).
  Proof. intros H [n d] [N D]. specialize (H n N). unfold on_num, inside. cbn [fnum]. destruct (p n) as [n' [u|m|m|]]; cbn in *; auto; split; assumption. Qed.
  Lemma steady_den (p : prog poly) : steady sane_poly p -> steady sane_frac (on_den p).
  Proof. intros H [n d] [N D]. specialize (H d D). unfold on_den, inside. cbn [fden]. destruct (p d) as [d' [u|m|m|]]; cbn in *; auto; split; assumption. Qed.
  Lemma steady_skip {A} (I : A -> Prop) : steady I skip. Proof. intros s S. exact S. Qed.
  Lemma any_none {A} (Q : A -> Prop) r : outcome none Q r -> outcome any Q r. Proof. destruct r; cbn; auto. contradiction. Qed.
  Lemma any_err {A} (Q : A -> Prop) r : outcome err Q r -> outcome any Q r. Proof. destruct r; cbn; auto. intros; exact I. Qed.
  Lemma steady_pnorm : steady sane_poly (assign (poly_normalize P)).
  Proof. apply steady_assign. intros s S. now apply any_none, poly_normalize_quiet. Qed.
  Lemma steady_scale m : steady sane_poly (scale_terms P m).
  Proof. apply steady_assign. intros s S. eapply o_mapr; [exact S|]. intros t T. eapply o_bind; [apply o_real_of_int, F|]. intros c Sc. apply o_term_mul; [exact F|exact T|now apply sane_const]. Qed.
  Lemma steady_div r : steady sane_poly (poly_div_p P (Elsewhere r)).
  Proof. apply steady_keeps. intros s S. split; [now apply poly_div_keeps|]. rewrite poly_div_done. now apply any_err, o_div_to. Qed.
  Lemma steady_normalize : steady sane_frac (frac_normalize_p P).
  Proof.
    unfold frac_normalize_p. cbv zeta. apply steady_then; [apply steady_num, steady_pnorm|]. apply steady_then; [apply steady_den, steady_pnorm|].
    eapply (steady_local sane_frac any); [intros s _; eapply o_bind; [apply o_dens|intros; apply o_dens]|]. intros m _. apply steady_then; [apply steady_num, steady_scale|]. apply steady_then; [apply steady_den, steady_scale|].
    eapply (steady_local sane_frac any).
    - intros s _. destruct (fnum s) as [|n0 ns]; [exact I|]. destruct (fden s) as [|d0 ds]; [exact I|]. eapply o_bind; [apply o_to_t|intros a _]. eapply o_bind; [apply o_to_t|intros b _]. eapply o_bind; [apply o_gcd|intros g _]. apply o_gcd_outer.
    - intros [g|] _; [|apply steady_skip]. apply steady_then; (eapply (steady_local sane_frac any); [intros s _; eapply o_any, o_real_of_int, F|intros r _]); [apply steady_num, steady_div|apply steady_den, steady_div].
  Qed.
  Lemma steady_mul_with (b : poly) : sane_poly b -> steady sane_poly (poly_mul_p P (Other b)).
  Proof. intros B. apply steady_quiet. intros s S. now apply poly_mul_quiet. Qed.
  Lemma steady_mul_self : steady sane_poly (poly_mul_p P Itself).
  Proof. apply steady_quiet. intros s S. now apply poly_mul_quiet. Qed.
  Definition sane_arg (x : arg frac) : Prop := forall b, x = Other b -> sane_frac b.
  Lemma steady_member_num x : sane_arg x -> steady sane_poly (poly_mul_p P (member fnum x)).
  Proof. intros X. destruct x as [|b]; [apply steady_mul_self|apply steady_mul_with, (X b eq_refl)]. Qed.
  Lemma steady_member_den x : sane_arg x -> steady sane_poly (poly_mul_p P (member fden x)).
  Proof. intros X. destruct x as [|b]; [apply steady_mul_self|apply steady_mul_with, (X b eq_refl)]. Qed.
  Lemma sane_at_frac x f : sane_arg x -> sane_frac f -> sane_frac (at_arg x f). Proof. intros X S. destruct x as [|b]; cbn [at_arg]; auto. Qed.
  Lemma steady_frac_add x : sane_arg x -> steady sane_frac (frac_add_p P x).
  Proof.
    intros X. eapply (steady_local sane_frac any); [intros s _; apply o_poly_eq|]. intros [] _.
    - apply steady_num. apply steady_quiet. intros s S. destruct x as [|b]; cbn [member]; [exact I|]. apply poly_add_quiet; [exact S|apply (X b eq_refl)].
    - apply steady_then; [|apply steady_then; [apply steady_den, steady_member_den, X|apply steady_normalize]]. apply steady_assign. intros s [S1 S2]. destruct (sane_at_frac x s X (conj S1 S2)) as [B1 B2]. apply any_err.
      eapply o_bind; [apply o_poly_mul; assumption|intros p Sp]. eapply o_bind; [apply o_poly_mul; assumption|intros q Sq]. eapply o_bind; [apply o_poly_add; assumption|intros n Sn]. split; assumption.
  Qed.
  Lemma steady_frac_sub x : sane_arg x -> steady sane_frac (frac_sub_p P x).
  Proof.
    intros X. eapply (steady_local sane_frac sane_frac); [intros s S; apply any_err, o_frac_negate; [exact C|now apply sane_at_frac]|]. intros n N. apply steady_then; [apply steady_frac_add; intros b E; injection E as <-; exact N|apply steady_normalize].
  Qed.
  Lemma steady_frac_mul x : sane_arg x -> steady sane_frac (frac_mul_p P x).
  Proof. intros X. apply steady_then; [apply steady_num, steady_member_num, X|]. apply steady_then; [apply steady_den, steady_member_den, X|apply steady_normalize]. Qed.
  Lemma steady_frac_div x : sane_arg x -> steady sane_frac (frac_div_p P x).
  Proof.
    intros X. eapply (steady_local sane_frac any); [intros s _; eapply o_poly_is_zero, F|]. intros [] _; [apply steady_assign; intros; exact I|].
    apply steady_then; [|apply steady_then; [|apply steady_normalize]].
    - eapply (steady_local sane_frac sane_poly); [intros s S; exact (proj2 (sane_at_frac x s X S))|]. intros d D. apply steady_num, steady_mul_with, D.
    - eapply (steady_local sane_frac sane_poly); [intros s S; exact (proj1 (sane_at_frac x s X S))|]. intros d D. apply steady_den, steady_mul_with, D.
  Qed.
  Lemma frac_div_zero_keeps x f : poly_is_zero (pe P) (fnum (at_arg x f)) = Ok true -> frac_div_p P x f = (f, Throw division_by_zero).
  Proof. intros Z. unfold frac_div_p, local. now rewrite Z. Qed.
End Poly.
