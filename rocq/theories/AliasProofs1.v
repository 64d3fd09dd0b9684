(** Proofs: the compound assignments compute what the pure models compute, whether or not the argument is the object itself. *)
From Coq Require Import ZArith String Ascii Lia Bool List Sorted.
From Verif Require Import Base AdapterModel HugeModel RationalModel RealModel PolyModel AliasModel AliasSpec.
Import ListNotations.
Open Scope Z_scope.

Lemma bind_assoc {A B C} (e : res A) (f : A -> res B) (g : B -> res C) : bind (bind e f) g = bind e (fun x => bind (f x) g).
Proof. destruct e; reflexivity. Qed.
Lemma bind_ext {A B} (e : res A) (f g : A -> res B) : (forall x, f x = g x) -> bind e f = bind e g.
Proof. intros H. destruct e; cbn [bind]; auto. Qed.
Lemma done_assign {A} (f : A -> res A) s : done (assign f s) = f s.
Proof. unfold assign. destruct (f s); reflexivity. Qed.
Lemma done_then {A} (c d : prog A) s : done ((c ;> d) s) = (s' <- done (c s) ;; done (d s')).
Proof. unfold then_. destruct (c s) as [s' []]; reflexivity. Qed.
Lemma done_local {A B} (f : A -> res B) (k : B -> prog A) s : done (local f k s) = (b <- f s ;; done (k b s)).
Proof. unfold local. destruct (f s); reflexivity. Qed.
Lemma done_inside {A B} (get : A -> B) put (c : prog B) (s : A) : done (inside get put c s) = (b <- done (c (get s)) ;; Ok (put b s)).
Proof. unfold inside. destruct (c (get s)) as [b []]; reflexivity. Qed.
Lemma done_skip {A} (s : A) : done (skip s) = Ok s. Proof. reflexivity. Qed.

Section R.
  Variable w : Z.
  Lemma normalize_p t : done (rat_normalize_p w t) = rat_normalize w t.
  Proof.
    unfold rat_normalize_p, rat_normalize. rewrite done_local. destruct (adapter_abs w (num t)) as [a|m|m|]; try reflexivity. cbn [bind]. destruct (adapter_abs w (den t)) as [b|m|m|]; try reflexivity. cbn [bind]. destruct (adapter_gcd w a b) as [g|m|m|]; try reflexivity. cbn [bind]. rewrite done_then, done_assign. destruct (quot_w w (num t) g) as [n|m|m|]; try reflexivity. cbn [bind]. rewrite done_then, done_assign. cbn [set_num den]. destruct (quot_w w (den t) g) as [d|m|m|]; try reflexivity. cbn [bind]. rewrite done_local. cbn [bind set_den den num]. destruct (d =? -1); [|reflexivity]. rewrite done_then, done_assign. cbn [num set_den set_num]. destruct (chk w (- n)); reflexivity.
  Qed.
  Lemma at_den x n t : den (at_arg x (set_num n t)) = den (at_arg x t). Proof. destruct x; reflexivity. Qed.
  Lemma add_p x t : done (rat_add_p w x t) = rat_add w t (at_arg x t).
  Proof.
    unfold rat_add_p, rat_add. rewrite done_local. destruct (adapter_lcm w (den t) (den (at_arg x t))) as [l|m|m|]; try reflexivity. cbn [bind]. rewrite done_then, done_assign.
    destruct (quot_w w l (den t)); try reflexivity. cbn [bind]. destruct (chk w (num t * a)); try reflexivity. cbn [bind]. destruct (quot_w w l (den (at_arg x t))); try reflexivity. cbn [bind]. destruct (chk w (num (at_arg x t) * a1)); try reflexivity. cbn [bind]. destruct (chk w (a0 + a2)); try reflexivity. cbn [bind]. rewrite done_then, done_assign. cbn [bind set_num set_den num den]. apply normalize_p.
  Qed.
  Lemma sub_p x t : done (rat_sub_p w x t) = rat_sub w t (at_arg x t).
  Proof. unfold rat_sub_p, rat_sub. rewrite done_local. apply bind_ext. intros n. exact (add_p (Other n) t). Qed.
  Lemma mul_p x t : done (rat_mul_p w x t) = rat_mul w t (at_arg x t).
  Proof.
    unfold rat_mul_p, rat_mul. rewrite done_local. destruct (adapter_gcd w (num t) (den (at_arg x t))) as [g1|m|m|]; try reflexivity. cbn [bind]. rewrite done_local. destruct (adapter_gcd w (num (at_arg x t)) (den t)) as [g2|m|m|]; try reflexivity. cbn [bind]. rewrite done_then, done_assign.
    destruct (quot_w w (num t) g1) as [a|m|m|]; try reflexivity. cbn [bind]. destruct (quot_w w (num (at_arg x t)) g2) as [b|m|m|]; try reflexivity. cbn [bind]. destruct (chk w (a * b)) as [n|m|m|]; try reflexivity. cbn [bind]. rewrite done_then, done_assign. rewrite at_den. cbn [set_num num den]. destruct (quot_w w (den t) g2) as [c|m|m|]; try reflexivity. cbn [bind]. destruct (quot_w w (den (at_arg x t)) g1) as [d|m|m|]; try reflexivity. cbn [bind]. destruct (chk w (c * d)) as [e|m|m|]; try reflexivity. cbn [bind]. rewrite done_assign. cbn [set_den num den]. reflexivity.
  Qed.
  Lemma div_p x t : done (rat_div_p w x t) = rat_div w t (at_arg x t).
  Proof. unfold rat_div_p, rat_div. rewrite done_local. apply bind_ext. intros n. exact (mul_p (Other n) t). Qed.
End R.

Section Re.
  Variable E : env.
  Local Notation w := (ew E).
  Lemma at_member {A B} (f : A -> B) x t : at_arg (member f x) (f t) = f (at_arg x t). Proof. destruct x; reflexivity. Qed.
  Lemma real_add_done x t : done (real_add_p E x t) = real_add E t (at_arg x t).
  Proof.
    unfold real_add_p, real_add. rewrite done_local. apply bind_ext. intros []; [|rewrite done_assign; reflexivity]. rewrite done_then, done_inside, add_p, at_member, bind_assoc. apply bind_ext. intros c. cbn [bind]. apply done_assign.
  Qed.
  Lemma real_sub_done x t : done (real_sub_p E x t) = real_sub E t (at_arg x t).
  Proof. unfold real_sub_p, real_sub. rewrite done_local. apply bind_ext. intros n. rewrite done_then, real_add_done. apply bind_ext. intros s. apply done_assign. Qed.
  Lemma at_coe x r i t : coe (at_arg x (set_idx i (set_rad r t))) = coe (at_arg x t). Proof. destruct x; reflexivity. Qed.
  Lemma real_mul_done x t : done (real_mul_p E x t) = real_mul E t (at_arg x t).
  Proof.
    unfold real_mul_p, real_mul. rewrite done_local. apply bind_ext. intros l. rewrite done_then, done_assign.
    destruct (uquot l (idx t)) as [qa|m|m|]; try reflexivity. cbn [bind]. destruct (rat_of_index w qa) as [ea|m|m|]; try reflexivity. cbn [bind]. destruct (rpow w (rad t) ea) as [pa|m|m|]; try reflexivity. cbn [bind].
    destruct (uquot l (idx (at_arg x t))) as [qb|m|m|]; try reflexivity. cbn [bind]. destruct (rat_of_index w qb) as [eb|m|m|]; try reflexivity. cbn [bind]. destruct (rpow w (rad (at_arg x t)) eb) as [pb|m|m|]; try reflexivity. cbn [bind]. destruct (rat_mul w pa pb) as [r|m|m|]; try reflexivity. cbn [bind].
    rewrite done_then, done_assign. cbn [bind]. rewrite done_then, done_inside, mul_p, at_member, at_coe, bind_assoc. change (coe (set_idx l (set_rad r t))) with (coe t). apply bind_ext. intros c. cbn [bind]. apply done_assign.
  Qed.
  Lemma real_div_done x t : done (real_div_p E x t) = real_div E t (at_arg x t).
  Proof. unfold real_div_p, real_div. rewrite done_local. apply bind_ext. intros n. exact (real_mul_done (Other n) t). Qed.
End Re.

Section T.
  Variable E : env.
  Local Notation w := (ew E).
  Lemma supdate_find k q m : sfind k m <> None -> sfind k (supdate k q m) = Some q.
  Proof. induction m as [|[k' v] m IH]; intros H; cbn [sfind supdate] in *; [contradiction|]. destruct (String.eqb k k') eqn:X; cbn [sfind]; rewrite X; [reflexivity|auto]. Qed.
  Lemma supdate_other k k' q m : k <> k' -> sfind k (supdate k' q m) = sfind k m.
  Proof. intros N. induction m as [|[k0 v] m IH]; [reflexivity|]. cbn [supdate]. destruct (String.eqb_spec k' k0) as [<-|X]; cbn [sfind]; [destruct (String.eqb_spec k k'); [congruence|reflexivity]|]. now rewrite IH. Qed.
  Lemma sfind_key k q m : NoDup (map fst m) -> In (k, q) m -> sfind k m = Some q.
  Proof.
    induction m as [|[k' v] m IH]; intros N I; [contradiction|]. cbn [sfind]. inversion N; subst. destruct I as [X|I]; [injection X as -> ->; now rewrite String.eqb_refl|]. destruct (String.eqb_spec k k') as [->|]; [|auto]. exfalso. apply H1. apply in_map_iff. now exists (k', q).
  Qed.
  Definition step_other (r : rat) (k : string) (a : smap) : res smap := match sfind k a with None => Ok (sinsert k r a) | Some q0 => q1 <- rat_add w q0 r ;; Ok (supdate k q1 a) end.
  Lemma key_other b k r t : sfind k (syms b) = Some r -> done (mul_key E (Other b) k t) = (s <- step_other r k (syms t) ;; Ok (set_syms s t)).
  Proof.
    intros H. unfold mul_key, step_other. rewrite done_local. cbn [at_arg bind]. rewrite H. rewrite done_local. cbn [bind]. destruct (sfind k (syms t)) as [q0|] eqn:F; [|rewrite done_assign; reflexivity]. rewrite done_inside, add_p. cbn [at_arg]. rewrite F, bind_assoc. reflexivity.
  Qed.
  Lemma keys_other b : NoDup (map fst (syms b)) -> forall l t, incl l (syms b) -> done (mul_keys E (Other b) (map fst l) t) = (s <- merge_syms w l (syms t) ;; Ok (set_syms s t)).
  Proof.
    intros N. induction l as [|[k r] l IH]; intros t I; [cbn [map mul_keys merge_syms bind]; destruct t; reflexivity|]. cbn [map mul_keys merge_syms fst]. rewrite done_then. rewrite (key_other b k r t) by (apply sfind_key; [exact N|apply I; now left]). unfold step_other.
    assert (I' : incl l (syms b)) by (intros y Y; apply I; now right). destruct (sfind k (syms t)) as [q0|]; cbn [bind]; [|rewrite IH by exact I'; reflexivity]. destruct (rat_add w q0 r) as [q1|m|m|]; try reflexivity. cbn [bind]. rewrite IH by exact I'. reflexivity.
  Qed.
  (** the object itself: every exponent is doubled *)
  Lemma key_itself k r t : sfind k (syms t) = Some r -> done (mul_key E Itself k t) = (q <- rat_add w r r ;; Ok (set_syms (supdate k q (syms t)) t)).
  Proof. intros H. unfold mul_key. rewrite done_local. cbn [at_arg bind]. rewrite H. rewrite done_local. cbn [bind]. rewrite H. rewrite done_inside, add_p. cbn [at_arg]. rewrite H. reflexivity. Qed.
  (** [m0]: the entries at the start; those in [l] are still as they were *)
  Lemma keys_itself : forall l t, NoDup (map fst l) -> (forall k r, In (k, r) l -> sfind k (syms t) = Some r) -> done (mul_keys E Itself (map fst l) t) = (s <- merge_syms w l (syms t) ;; Ok (set_syms s t)).
  Proof.
    induction l as [|[k r] l IH]; intros t N H; [cbn [map mul_keys merge_syms bind]; destruct t; reflexivity|]. cbn [map mul_keys merge_syms fst]. rewrite done_then. rewrite (key_itself k r t) by (apply H; now left). rewrite (H k r (or_introl eq_refl)). cbn [map fst] in N. inversion N; subst. destruct (rat_add w r r) as [q|m|m|]; try reflexivity. cbn [bind]. rewrite IH; [reflexivity|assumption|]. intros k' r' I. cbn [set_syms syms]. rewrite supdate_other; [apply H; now right|]. intros ->. apply H2. apply in_map_iff. now exists (k, r').
  Qed.
  Lemma at_tco x s t : tco (at_arg x (set_syms s t)) = tco (at_arg x t). Proof. destruct x; reflexivity. Qed.
  Lemma term_mul_done x t : keyed (at_arg x t) -> done (term_mul_p E x t) = term_mul E t (at_arg x t).
  Proof.
    intros K. unfold term_mul_p, term_mul. rewrite done_local. cbn [bind]. rewrite done_then.
    assert (done (mul_keys E x (map fst (syms (at_arg x t))) t) = (s <- merge_syms w (syms (at_arg x t)) (syms t) ;; Ok (set_syms s t))) as ->.
    { destruct x as [|b]; cbn [at_arg] in *; [apply keys_itself; [exact K|intros k r I; now apply sfind_key]|apply keys_other; [exact K|apply incl_refl]]. }
    rewrite bind_assoc. apply bind_ext. intros s. cbn [bind]. rewrite done_then, done_inside, real_mul_done, at_member, at_tco, bind_assoc. apply bind_ext. intros c. cbn [bind]. apply done_assign.
  Qed.
  Lemma term_div_done x t : done (term_div_p E x t) = term_div E t (at_arg x (tco t)).
  Proof. unfold term_div_p, term_div. rewrite done_then, done_inside, real_div_done, bind_assoc. apply bind_ext. intros c. cbn [bind]. apply done_assign. Qed.
End T.

Section P.
  Variable P : penv.
  Lemma poly_add_other b t : done (poly_add_p P (Other b) t) = poly_add_to P t b.
  Proof. unfold poly_add_p, poly_add_to. rewrite done_then, done_assign. cbn [bind]. apply done_assign. Qed.
  Lemma poly_add_itself t : done (poly_add_p P Itself t) = Ub "vector::insert of its own range".
  Proof. reflexivity. Qed.
  Lemma poly_sub_done x t : done (poly_sub_p P x t) = poly_sub_to P t (at_arg x t).
  Proof. unfold poly_sub_p, poly_sub_to. rewrite done_local. apply bind_ext. intros n. rewrite done_then, poly_add_other. apply bind_ext. intros s. apply done_assign. Qed.
  Lemma poly_mul_done x t : done (poly_mul_p P x t) = poly_mul_to P t (at_arg x t).
  Proof. unfold poly_mul_p, poly_mul_to. rewrite done_local, bind_assoc. apply bind_ext. intros l. cbn [bind]. rewrite done_then, done_assign. cbn [bind]. apply done_assign. Qed.
  Lemma nth_split (a b : poly) t : nth_error (a ++ t :: b) (length a) = Some t. Proof. induction a; [reflexivity|assumption]. Qed.
  Lemma first_split (a b : poly) : firstn (length a) (a ++ b) = a. Proof. induction a; cbn; [now destruct b|now rewrite IHa]. Qed.
  Lemma skip_split (a b : poly) t : skipn (S (length a)) (a ++ t :: b) = b. Proof. induction a; [reflexivity|exact IHa]. Qed.
  Lemma div_term_done d a t b : done (div_term P d (length a) (a ++ t :: b)) =
    (t' <- term_div (pe P) t (match d with Elsewhere r => r | Coefficient k => if Nat.eqb (length a) k then tco t else match nth_error (a ++ t :: b) k with Some u => tco u | None => tco t end end) ;; Ok (a ++ t' :: b)).
  Proof.
    unfold div_term. rewrite nth_split. rewrite first_split, skip_split.
    set (x := match d with Coefficient k => _ | Elsewhere r => Other r end). assert (AX : at_arg x (tco t) = match d with Elsewhere r => r | Coefficient k => if Nat.eqb (length a) k then tco t else match nth_error (a ++ t :: b) k with Some u => tco u | None => tco t end end).
    { subst x. destruct d as [k|r]; [|reflexivity]. destruct (Nat.eqb (length a) k); [reflexivity|]. destruct (nth_error (a ++ t :: b) k); reflexivity. }
    rewrite <- AX, <- term_div_done. destruct (term_div_p (pe P) x t) as [t' []]; reflexivity.
  Qed.
  Lemma div_terms_done r : forall b a, done (div_terms P (Elsewhere r) (seq (length a) (length b)) (a ++ b)) = (l <- mapr (fun t => term_div (pe P) t r) b ;; Ok (a ++ l)).
  Proof.
    induction b as [|t b IH]; intros a; [reflexivity|]. cbn [length seq div_terms mapr]. rewrite done_then, div_term_done. destruct (term_div (pe P) t r) as [t'|m|m|]; try reflexivity. cbn [bind]. replace (a ++ t' :: b) with ((a ++ [t']) ++ b) by (now rewrite <- app_assoc). replace (S (length a)) with (length (a ++ [t'])) by (rewrite app_length; cbn; lia). rewrite IH, bind_assoc. apply bind_ext. intros l. cbn [bind]. now rewrite <- app_assoc.
  Qed.
  Lemma poly_div_done r t : done (poly_div_p P (Elsewhere r) t) = poly_div_to P t r.
  Proof. unfold poly_div_p, poly_div_to. rewrite done_local. cbn [bind]. rewrite done_then. pose proof (div_terms_done r t []) as H. cbn [app length] in H. rewrite H, bind_assoc. apply bind_ext. intros l. cbn [bind]. apply done_assign. Qed.

  Lemma on_num_done c f : done (on_num c f) = (n <- done (c (fnum f)) ;; Ok (Frac n (fden f))). Proof. unfold on_num. now rewrite done_inside. Qed.
  Lemma on_den_done c f : done (on_den c f) = (d <- done (c (fden f)) ;; Ok (Frac (fnum f) d)). Proof. unfold on_den. now rewrite done_inside. Qed.
  Lemma frac_normalize_done f : done (frac_normalize_p P f) = frac_normalize P f.
  Proof.
    unfold frac_normalize_p, frac_normalize. cbv zeta. rewrite done_then, on_num_done, done_assign, bind_assoc. apply bind_ext. intros n. cbn [bind]. rewrite done_then, on_den_done, done_assign, bind_assoc. cbn [fnum fden]. apply bind_ext. intros d. cbn [bind]. rewrite done_local. cbn [fnum fden]. rewrite bind_assoc. apply bind_ext. intros m1. apply bind_ext. intros m.
    rewrite done_then, on_num_done. unfold scale_terms at 1. rewrite done_assign, bind_assoc. cbn [fnum fden]. apply bind_ext. intros n2. cbn [bind]. rewrite done_then, on_den_done. unfold scale_terms. rewrite done_assign, bind_assoc. cbn [fnum fden]. apply bind_ext. intros d2. cbn [bind]. rewrite done_local. cbn [fnum fden]. destruct n2 as [|n0 n2]; [reflexivity|]. destruct d2 as [|d0 d2]; [reflexivity|].
    rewrite !bind_assoc. apply bind_ext. intros a. rewrite !bind_assoc. apply bind_ext. intros b. rewrite !bind_assoc. apply bind_ext. intros g0. apply bind_ext. intros [g|]; [|reflexivity]. rewrite done_then, done_local, bind_assoc. apply bind_ext. intros gr. rewrite on_num_done, poly_div_done, bind_assoc. cbn [fnum fden]. apply bind_ext. intros n'. cbn [bind]. rewrite done_local. apply bind_ext. intros gr'. rewrite on_den_done, poly_div_done. reflexivity.
  Qed.
  Lemma at_fden x n f : fden (at_arg x (set_fnum n f)) = fden (at_arg x f). Proof. destruct x; reflexivity. Qed.
  Lemma frac_add_other b f : done (frac_add_p P (Other b) f) = frac_add P f b.
  Proof.
    unfold frac_add_p, frac_add. rewrite done_local. cbn [at_arg member]. apply bind_ext. intros []; [rewrite on_num_done, poly_add_other; reflexivity|]. rewrite done_then, done_assign, bind_assoc. apply bind_ext. intros a. rewrite bind_assoc. apply bind_ext. intros c. rewrite bind_assoc. apply bind_ext. intros n. cbn [bind]. rewrite done_then, on_den_done, poly_mul_done, bind_assoc. apply bind_ext. intros d. cbn [bind]. apply frac_normalize_done.
  Qed.
  Lemma frac_sub_done x f : done (frac_sub_p P x f) = frac_sub_to P f (at_arg x f).
  Proof. unfold frac_sub_p, frac_sub_to. rewrite done_local. apply bind_ext. intros n. rewrite done_then, frac_add_other. apply bind_ext. intros s. apply frac_normalize_done. Qed.
  Lemma frac_mul_done x f : done (frac_mul_p P x f) = frac_mul P f (at_arg x f).
  Proof.
    unfold frac_mul_p, frac_mul. rewrite done_then, on_num_done, poly_mul_done, at_member, bind_assoc. apply bind_ext. intros n. cbn [bind]. rewrite done_then, on_den_done, poly_mul_done. cbn [fden fnum]. assert (at_arg (member fden x) (fden f) = fden (at_arg x f)) as -> by apply at_member. rewrite bind_assoc. apply bind_ext. intros d. cbn [bind]. apply frac_normalize_done.
  Qed.
  Lemma frac_div_other b f : done (frac_div_p P (Other b) f) = frac_div P f b.
  Proof.
    unfold frac_div_p, frac_div. rewrite done_local. cbn [at_arg]. apply bind_ext. intros []; [rewrite done_assign; reflexivity|]. rewrite done_then, done_local. cbn [bind]. rewrite on_num_done, poly_mul_done, bind_assoc. cbn [at_arg]. apply bind_ext. intros n. cbn [bind]. rewrite done_then, done_local. cbn [bind]. rewrite on_den_done, poly_mul_done, bind_assoc. cbn [at_arg fnum fden]. apply bind_ext. intros d. cbn [bind]. apply frac_normalize_done.
  Qed.
  (** f /= f divides by the numerator it has just changed *)
  Lemma frac_div_itself f : done (frac_div_p P Itself f) =
    (z <- poly_is_zero (pe P) (fnum f) ;; if z : bool then Throw division_by_zero else n <- poly_mul_to P (fnum f) (fden f) ;; d <- poly_mul_to P (fden f) n ;; frac_normalize P (Frac n d)).
  Proof.
    unfold frac_div_p. rewrite done_local. cbn [at_arg]. apply bind_ext. intros []; [rewrite done_assign; reflexivity|]. rewrite done_then, done_local. cbn [bind]. rewrite on_num_done, poly_mul_done, bind_assoc. cbn [at_arg]. apply bind_ext. intros n. cbn [bind]. rewrite done_then, done_local. cbn [bind]. rewrite on_den_done, poly_mul_done, bind_assoc. cbn [at_arg fnum fden]. apply bind_ext. intros d. cbn [bind]. apply frac_normalize_done.
  Qed.
End P.

(** ** Huge *)
Lemma huge_add_done x t : done (huge_add_p x t) = Ok (huge_add t (at_arg x t)).
Proof.
  unfold huge_add_p, huge_add. rewrite done_local. cbn [bind]. unfold positive_product. destruct (_ || _)%bool; [unfold assign_digits; rewrite done_assign; reflexivity|]. rewrite done_local. cbn [bind]. destruct (_ =? 0); [reflexivity|]. destruct (_ <? 0); [|reflexivity]. rewrite done_then, done_assign. cbn [bind]. unfold assign_digits. rewrite done_assign. destruct x; reflexivity.
Qed.
Lemma huge_sub_done x t : done (huge_sub_p x t) = Ok (huge_sub t (at_arg x t)).
Proof.
  unfold huge_sub_p, huge_sub. rewrite done_local. cbn [bind]. destruct (_ =? 0); [reflexivity|]. rewrite done_local. cbn [bind]. destruct (_ || _)%bool; [reflexivity|]. destruct (_ <? 0); [|reflexivity]. rewrite done_then, done_assign. cbn [bind]. unfold assign_digits. rewrite done_assign. destruct x; reflexivity.
Qed.
Lemma huge_mul_done x t : done (huge_mul_p x t) = huge_mul t (at_arg x t).
Proof. unfold huge_mul_p, huge_mul. rewrite done_then, done_assign. cbn [bind]. unfold assign_digits. rewrite done_assign. destruct x; reflexivity. Qed.
Lemma huge_div_done x t : done (huge_div_p x t) = huge_div t (at_arg x t).
Proof.
  unfold huge_div_p, huge_div. rewrite done_then, done_assign. destruct (digits (at_arg x t)) as [|d0 ds] eqn:D; [reflexivity|]. cbn [bind]. rewrite done_then, done_assign. cbn [bind]. unfold assign_digits. rewrite done_assign. assert (digits (at_arg x (set_sign (positive_product t (at_arg x t)) t)) = d0 :: ds) as -> by (destruct x; exact D). cbn [set_sign digits]. destruct (digits_divrem (digits t) (d0 :: ds)) as [[q r]|m|m|]; reflexivity.
Qed.
Lemma huge_mod_done x t : done (huge_mod_p x t) = huge_mod t (at_arg x t).
Proof.
  unfold huge_mod_p, huge_mod. rewrite done_then, done_assign. destruct (digits (at_arg x t)) as [|d0 ds] eqn:D; [reflexivity|]. cbn [bind]. unfold assign_digits. rewrite done_assign. rewrite D. reflexivity.
Qed.
