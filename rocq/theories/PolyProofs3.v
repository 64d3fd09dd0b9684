(** Substitution; values of polynomials. *)
From Coq Require Import ZArith Znumtheory QArith Qreals Reals String Lia Lra Bool List Permutation.
From Verif Require Import Base AdapterModel AdapterProofs RationalModel RationalSpec RationalProofs RationalProofs2 RealModel RealSpec RealProofs1 RealProofs2 RealProofs3 RealProofs4 RealProofs5 RealProofs6 PolyModel PolySpec PolyProofs1 PolyProofs2.
Import ListNotations.
Open Scope Z_scope.

(** ** substitution *)
Definition subv (e : envmap) (m : smap) : R := fold_right (fun p a => match efind (fst p) e with Some v => pwr (rv v) (snd p) * a | None => a end)%R 1%R m.
Lemma subst_coe_value E e : okenv E -> forall m c c', Forall (fun p => qok (snd p)) m -> Forall (power_ok (ew E) e) m -> good (ew E) c -> subst_coe E e m c = Ok c' ->
  good (ew E) c' /\ rv c' = (rv c * subv e m)%R.
Proof.
  intros (Hw & FS & FE). induction m as [|[k q] m IH]; intros c c' Q S G H; cbn [subst_coe] in H.
  - injection H as <-. split; [assumption|]. cbn. ring.
  - inversion Q as [|? ? Q1 Q2]; subst. inversion S as [|? ? S1 S2]; subst. unfold power_ok in S1. cbn [fst snd] in *. cbn [subv fold_right fst snd]. destruct (efind k e) as [v|] eqn:F; [|now apply IH].
    destruct S1 as [Gv S1]. apply bind_ok in H as (p & Hp & H). apply bind_ok in H as (c1 & Hc & H).
    assert (V : good (ew E) p /\ rv p = pwr (rv v) q).
    { destruct (Z.eq_dec (den q) 1) as [D|D].
      - rewrite (rat_den1 q D) in Hp |- *. apply pow_fuel_int in Hp as (Gp & _ & _ & Vp); try assumption. auto.
      - destruct S1 as [?|(P1 & P2 & P3)]; [contradiction|]. apply pow_fuel_frac in Hp as (Gp & Vp); try assumption; [|apply Q1]. split; [assumption|]. rewrite Vp. unfold pwr. now rewrite (proj2 (Z.eqb_neq _ _) D). }
    destruct V as [Gp Vp]. apply real_mul_good in Hc as (Gc & _ & Vc); try assumption; [|apply G|apply Gp]. apply IH in H as [G' V']; try assumption. split; [assumption|]. rewrite V', Vc, Vp. fold (subv e m). ring.
Qed.
Lemma serase_filter k m : NoDup (map fst m) -> serase k m = filter (fun p => negb (String.eqb k (fst p))) m.
Proof.
  induction m as [|[k' v] m IH]; intros N; cbn [serase filter fst]; [reflexivity|]. inversion N as [|? ? X Y]; subst. destruct (String.eqb_spec k k') as [<-|D]; cbn [negb].
  - clear IH N Y. symmetry. cbn [map fst] in X. induction m as [|[a b] m IHm]; cbn [filter fst]; [reflexivity|]. cbn [map fst In] in X. destruct (String.eqb_spec k a) as [<-|]; cbn [negb]; [exfalso; apply X; now left|]. f_equal. apply IHm. tauto.
  - f_equal. auto.
Qed.
Lemma nodup_filter (f : string * rat -> bool) m : NoDup (map fst m) -> NoDup (map fst (filter f m)).
Proof.
  induction m as [|p m IH]; intros N; [constructor|]. cbn [map] in N. inversion N as [|? ? X Y]; subst. cbn [filter]. destruct (f p); [|auto]. cbn [map]. constructor; [|auto]. intros I. apply X. apply in_map_iff in I as (q & E & I). apply filter_In in I as [I _]. rewrite <- E. now apply in_map.
Qed.
Lemma efind_none k e : efind k e = None <-> ~ In k (map fst e).
Proof.
  induction e as [|[k' v] e IH]; cbn [efind map fst In]; [tauto|]. destruct (String.eqb_spec k k') as [<-|N]; [split; [discriminate|intros H; exfalso; apply H; now left]|]. rewrite IH. split; intros H; [intros [X|X]; [congruence|tauto]|tauto].
Qed.
Definition free (e : envmap) (p : string * rat) : bool := match efind (fst p) e with Some _ => false | None => true end.
Lemma erase_all e : forall m, NoDup (map fst m) -> fold_left (fun m p => serase (fst p) m) e m = filter (free e) m.
Proof.
  induction e as [|[k v] e IH]; intros m N; cbn [fold_left fst].
  - induction m as [|p m IHm]; [reflexivity|]. cbn [filter free efind]. f_equal. apply IHm. now inversion N.
  - rewrite serase_filter by assumption. rewrite IH by now apply nodup_filter. clear IH N. induction m as [|p m IHm]; [reflexivity|]. cbn [filter]. unfold free in *. cbn [efind]. rewrite (String.eqb_sym (fst p) k).
    destruct (String.eqb k (fst p)); cbn [negb]; [assumption|]. cbn [filter]. destruct (efind (fst p) e); [assumption|]. now f_equal.
Qed.
Lemma sv_extend e s m : sv (extend e s) m = (subv e m * sv s (filter (free e) m))%R.
Proof.
  induction m as [|[k q] m IH]; [cbn; ring|]. rewrite sv_cons. cbn [subv fold_right fst snd filter]. fold (subv e m). unfold free at 1, extend at 1. cbn [fst]. rewrite IH. destruct (efind k e); [ring|]. rewrite sv_cons. cbn [fst snd]. ring.
Qed.
Lemma term_subst_value E e s t t' : okenv E -> twf (ew E) t -> Forall (power_ok (ew E) e) (syms t) -> term_subst E e t = Ok t' ->
  twf (ew E) t' /\ tv s t' = tv (extend e s) t /\ (tadm (extend e s) t -> tadm s t') /\ (forall k, In k (map fst (syms t')) <-> In k (map fst (syms t)) /\ ~ In k (map fst e)).
Proof.
  intros O [G [N Q]] S H. unfold term_subst in H. apply bind_ok in H as (c & Hc & H). injection H as <-. apply subst_coe_value in Hc as [Gc Vc]; try assumption. rewrite erase_all by assumption. split; [|split; [|split]].
  - split; [assumption|]. split; cbn [syms]; [now apply nodup_filter|]. rewrite Forall_forall in *. intros p I. apply filter_In in I as [I _]. auto.
  - unfold tv. cbn [tco syms]. rewrite sv_extend, Vc. ring.
  - unfold tadm, sadm. cbn [syms]. rewrite !Forall_forall. intros A p I. apply filter_In in I as [I F]. specialize (A p I). unfold extend in A. unfold free in F. destruct (efind (fst p) e); [discriminate|assumption].
  - intros k. cbn [syms]. rewrite <- efind_none. rewrite !in_map_iff. split.
    + intros (p & <- & I). apply filter_In in I as [I F]. unfold free in F. split; [now exists p|]. now destruct (efind (fst p) e).
    + intros [(p & <- & I) F]. exists p. split; [reflexivity|]. apply filter_In. split; [assumption|]. unfold free. now rewrite F.
Qed.

(** ** lists of results *)
Lemma mapr_inv {A B} (f : A -> res B) l : forall r, mapr f l = Ok r -> Forall2 (fun a b => f a = Ok b) l r.
Proof.
  induction l as [|a l IH]; intros r H; cbn [mapr] in H; [injection H as <-; constructor|]. apply bind_ok in H as (b & Hb & H). apply bind_ok in H as (r' & Hr & H). injection H as <-. constructor; auto.
Qed.
Lemma pv_cons s t l : pv s (t :: l) = (tv s t + pv s l)%R. Proof. reflexivity. Qed.
Lemma pv_app s a b : pv s (a ++ b) = (pv s a + pv s b)%R.
Proof. induction a as [|t a IH]; cbn [app]; [cbn; ring|]. rewrite !pv_cons, IH. ring. Qed.
Lemma pv_perm s a b : Permutation a b -> pv s a = pv s b.
Proof. induction 1; rewrite ?pv_cons; [reflexivity|congruence|ring|congruence]. Qed.
Lemma Forall_perm {A} (P : A -> Prop) a b : Permutation a b -> Forall P a -> Forall P b.
Proof. intros H F. rewrite Forall_forall in *. intros x I. apply F. eapply Permutation_in; [symmetry; exact H|assumption]. Qed.
(** mapping a function that acts on values *)
Lemma mapr_value w s f (g : R -> R) l : g 0%R = 0%R -> (forall x y, g (x + y) = g x + g y)%R ->
  (forall t t', twf w t -> tadm s t -> f t = Ok t' -> twf w t' /\ tadm s t' /\ tv s t' = g (tv s t)) ->
  forall l', mapr f l = Ok l' -> pwf w l -> padm s l -> pwf w l' /\ padm s l' /\ pv s l' = g (pv s l).
Proof.
  intros g0 ga Hf l' H W A. apply mapr_inv in H. induction H as [|t t' l l' Ht H IH].
  - split; [constructor|]. split; [constructor|]. cbn. now rewrite g0.
  - inversion W; subst. inversion A; subst. destruct IH as (W' & A' & V'); [assumption|assumption|]. destruct (Hf t t') as (X & Y & Z); [assumption|assumption|assumption|]. split; [now constructor|]. split; [now constructor|]. rewrite !pv_cons, ga, V', Z. reflexivity.
Qed.

(** ** normalize *)
Lemma smap_eq_value w a b s : Forall (fun p => qok (snd p)) a -> Forall (fun p => qok (snd p)) b -> smap_eq w a b = Ok true -> a = b /\ sv s a = sv s b.
Proof.
  intros Qa Qb H. assert (a = b); [|now subst]. unfold smap_eq in H. destruct (Nat.eqb_spec (length a) (length b)) as [L|]; [|discriminate].
  revert b L Qb H. induction Qa as [|[k v] a Q1 Q2 IH]; intros [|[k' v'] b] L Qb H; cbn [length] in L; try discriminate; [reflexivity|]. cbn [entries_eq] in H. inversion Qb as [|? ? R1 R2]; subst. cbn [snd] in *.
  destruct (String.eqb_spec k k') as [<-|]; [|discriminate]. apply bind_ok in H as (e & He & H). destruct e; [|discriminate]. apply rat_eq_inv in He. symmetry in He. apply Z.eqb_eq in He.
  f_equal; [|apply IH; auto]. f_equal. destruct Q1 as [D1 L1], R1 as [D2 L2]. unfold lowest_terms in *. destruct v as [n d], v' as [n' d']. cbn [num den] in *.
  assert (d = d').
  { apply Z.divide_antisym_nonneg; try lia.
    - apply Z.gauss with n; [exists n'; lia|]. now rewrite Z.gcd_comm.
    - apply Z.gauss with n'; [exists n; lia|]. now rewrite Z.gcd_comm. }
  subst d'. f_equal. nia.
Qed.
Lemma merge_from_value E s : okenv E -> forall l a l', twf (ew E) a -> tadm s a -> pwf (ew E) l -> padm s l -> merge_from E a l = Ok l' ->
  pwf (ew E) l' /\ padm s l' /\ pv s l' = (tv s a + pv s l)%R /\ l' <> [].
Proof.
  intros O. pose proof O as (Hw & FS & FE). induction l as [|b l IH]; intros a l' Wa Aa Wl Al H; cbn [merge_from] in H.
  - injection H as <-. split; [now constructor|]. split; [now constructor|]. split; [reflexivity|discriminate].
  - inversion Wl as [|? ? Wb Wl']; subst. inversion Al as [|? ? Ab Al']; subst. apply bind_ok in H as (e & He & H). destruct e.
    + apply bind_ok in H as (c & Hc & H). apply bind_ok in H as (t & Ht & H). unfold term_equivalent in He. apply bind_ok in He as (q & Hq & He). destruct q; [|discriminate].
      destruct Wa as [Ga Sa], Wb as [Gb Sb]. apply (smap_eq_value _ _ _ s) in Hq as [Es Ev]; [|apply Sa|apply Sb]. apply real_add_value in Hc as (Gc & Cc & Vc); try assumption.
      apply (term_normalize_value _ s) in Ht as (Wt & _ & _ & Vt & At); [|now split]. apply IH in H as (W & A & V & N); try assumption; [|now apply At]. split; [assumption|]. split; [assumption|]. split; [|assumption]. rewrite V, Vt, pv_cons. unfold tv. cbn [tco syms]. rewrite Vc, <- Ev. ring.
    + apply bind_ok in H as (r & Hr & H). injection H as <-. apply IH in Hr as (W & A & V & N); try assumption. split; [now constructor|]. split; [now constructor|]. split; [|discriminate]. rewrite !pv_cons, V. ring.
Qed.
Lemma machine_env P : machine P -> okenv (pe P). Proof. intros (A & B & C & _). now repeat split. Qed.
Lemma poly_normalize_value P s l l' : machine P -> pwf (ew (pe P)) l -> padm s l -> poly_normalize P l = Ok l' ->
  pwf (ew (pe P)) l' /\ padm s l' /\ pv s l' = pv s l /\ (l' = [] <-> l = []).
Proof.
  intros M W A H. pose proof (machine_env _ M) as O. unfold poly_normalize in H. apply bind_ok in H as (m & Hm & H). destruct M as (_ & _ & _ & SP). apply SP in Hm.
  assert (Wm : pwf (ew (pe P)) m) by (eapply Forall_perm; [exact Hm|exact W]). assert (Am : padm s m) by (eapply Forall_perm; [exact Hm|exact A]). rewrite (pv_perm s l m Hm).
  assert (NE : m = [] <-> l = []) by (split; intros ->; [now apply Permutation_nil, Permutation_sym|now apply Permutation_nil]).
  destruct m as [|a m]; cbn [merge_terms] in H; [injection H as <-; auto|]. inversion Wm; subst. inversion Am; subst. apply (merge_from_value (pe P) s) in H as (X & Y & Z & N); try assumption. rewrite <- NE. repeat split; try assumption; intros; try contradiction; discriminate.
Qed.

(** ** try_eval *)
Lemma try_sum_value E s : okenv E -> forall l acc c, pwf (ew E) l -> good (ew E) acc -> try_sum E acc l = Ok (Some c) -> good (ew E) c /\ rv c = (rv acc + pv s l)%R /\ poly_no_symbols l = true.
Proof.
  intros (Hw & FS & FE). induction l as [|t l IH]; intros acc c W G H; cbn [try_sum] in H.
  - injection H as <-. split; [assumption|]. split; [cbn; ring|reflexivity].
  - inversion W as [|? ? [Gt St] Wl]; subst. unfold term_try_eval in H. destruct (no_symbols t) eqn:N; [|discriminate]. apply bind_ok in H as (e & He & H). destruct e; [|discriminate]. apply bind_ok in H as (a & Ha & H).
    apply real_add_value in Ha as (Ga & _ & Va); try assumption. apply IH in H as (Gc & V & NS); try assumption. split; [assumption|]. split; [|unfold poly_no_symbols in *; cbn [forallb]; now rewrite N, NS]. rewrite V, Va, pv_cons. unfold tv. unfold no_symbols in N. destruct (syms t); [|discriminate]. cbn [sv fold_right]. ring.
Qed.
Lemma poly_try_eval_value E s l c : okenv E -> pwf (ew E) l -> poly_try_eval E l = Ok (Some c) -> good (ew E) c /\ rv c = pv s l /\ poly_no_symbols l = true.
Proof.
  intros O W H. unfold poly_try_eval in H. apply bind_ok in H as (z & Hz & H). apply of_int_value in Hz as (Gz & _ & Vz); [|assumption]. apply (try_sum_value E s) in H as (G & V & N); try assumption. split; [assumption|]. split; [|assumption]. rewrite V, Vz. ring.
Qed.
Lemma eval_sum_value E s : okenv E -> forall l acc c, pwf (ew E) l -> good (ew E) acc -> eval_sum E acc l = Ok c -> good (ew E) c /\ rv c = (rv acc + pv s l)%R /\ poly_no_symbols l = true.
Proof.
  intros (Hw & FS & FE). induction l as [|t l IH]; intros acc c W G H; cbn [eval_sum] in H.
  - injection H as <-. split; [assumption|]. split; [cbn; ring|reflexivity].
  - inversion W as [|? ? [Gt St] Wl]; subst. unfold term_eval in H. destruct (no_symbols t) eqn:N; [|discriminate]. cbn [bind] in H. apply bind_ok in H as (a & Ha & H).
    apply real_add_value in Ha as (Ga & _ & Va); try assumption. apply IH in H as (Gc & V & NS); try assumption. split; [assumption|]. split; [|unfold poly_no_symbols in *; cbn [forallb]; now rewrite N, NS]. rewrite V, Va, pv_cons. unfold tv. unfold no_symbols in N. destruct (syms t); [|discriminate]. cbn [sv fold_right]. ring.
Qed.
Lemma poly_eval_value E s l c : okenv E -> pwf (ew E) l -> poly_eval E l = Ok c -> good (ew E) c /\ rv c = pv s l /\ poly_no_symbols l = true.
Proof.
  intros O W H. unfold poly_eval in H. apply bind_ok in H as (z & Hz & H). apply of_int_value in Hz as (Gz & _ & Vz); [|assumption]. apply (eval_sum_value E s) in H as (G & V & N); try assumption. split; [assumption|]. split; [|assumption]. rewrite V, Vz. ring.
Qed.
Lemma const_value w s c : good w c -> twf w (term_const c) /\ tadm s (term_const c) /\ tv s (term_const c) = rv c.
Proof. intros G. split; [split; [assumption|split; constructor]|]. split; [constructor|]. unfold tv. cbn. ring. Qed.
Lemma const_poly P s c l : machine P -> good (ew (pe P)) c -> poly_make P [term_const c] = Ok l -> pwf (ew (pe P)) l /\ padm s l /\ pv s l = rv c /\ l <> [].
Proof.
  intros M G H. destruct (const_value (ew (pe P)) s c G) as (W & A & V). apply (poly_normalize_value P s) in H as (W' & A' & V' & N); [|assumption|now constructor|now constructor]. split; [assumption|]. split; [assumption|]. split; [|intros E; apply N in E; discriminate]. rewrite V', pv_cons, V. cbn. ring.
Qed.
Lemma both_value E s a b x y : okenv E -> pwf (ew E) a -> pwf (ew E) b -> both E a b = Ok (Some (x, y)) -> good (ew E) x /\ good (ew E) y /\ rv x = pv s a /\ rv y = pv s b.
Proof.
  intros O Wa Wb H. unfold both in H. apply bind_ok in H as (u & Hu & H). apply bind_ok in H as (v & Hv & H). destruct u as [u|]; [|discriminate]. destruct v as [v|]; [|discriminate]. injection H as -> ->.
  apply (poly_try_eval_value E s) in Hu as (? & ? & _); try assumption. apply (poly_try_eval_value E s) in Hv as (? & ? & _); try assumption. auto.
Qed.

(** ** + - * negate / *)
Definition pgood (P : penv) (s : string -> R) (l : poly) : Prop := pwf (ew (pe P)) l /\ padm s l.
Lemma poly_add_to_value P s a b r : machine P -> pgood P s a -> pgood P s b -> poly_add_to P a b = Ok r -> pgood P s r /\ pv s r = (pv s a + pv s b)%R /\ (r = [] <-> a = [] /\ b = []).
Proof.
  intros M [Wa Aa] [Wb Ab] H. unfold poly_add_to in H. apply (poly_normalize_value P s) in H as (W & A & V & N); try assumption; try (now apply Forall_app). rewrite pv_app in V. split; [now split|]. split; [assumption|]. rewrite N. split; [intros X; now apply app_eq_nil in X|now intros [-> ->]].
Qed.
Lemma poly_add_value P s a b r : machine P -> pgood P s a -> pgood P s b -> poly_add P a b = Ok r -> pgood P s r /\ pv s r = (pv s a + pv s b)%R /\ (r = [] -> a = [] /\ b = []).
Proof.
  intros M Ga Gb H. pose proof (machine_env _ M) as O. pose proof O as (Hw & FS & FE). unfold poly_add in H. apply bind_ok in H as (v & Hv & H). destruct v as [[x y]|].
  - apply (both_value _ s) in Hv as (Gx & Gy & Vx & Vy); try assumption; try apply Ga; try apply Gb. apply bind_ok in H as (c & Hc & H). apply real_add_value in Hc as (Gc & _ & Vc); try assumption.
    apply (const_poly P s) in H as (W & A & V & N); try assumption. split; [now split|]. split; [|contradiction]. now rewrite V, Vc, Vx, Vy.
  - apply (poly_add_to_value P s) in H as (G & V & N); try assumption. repeat split; try apply G; try assumption; now apply N.
Qed.
Lemma poly_negate_value E s a r : okenv E -> pwf (ew E) a -> padm s a -> poly_negate E a = Ok r -> pwf (ew E) r /\ padm s r /\ pv s r = (- pv s a)%R /\ length r = length a.
Proof.
  intros O W A H. unfold poly_negate in H. assert (L : length r = length a) by (apply mapr_inv in H; clear -H; induction H; cbn; congruence).
  apply (mapr_value (ew E) s _ Ropp) in H as (W' & A' & V'); try assumption; [auto|lra|intros; lra|].
  intros t t' Wt At Ht. apply (term_negate_value E s) in Ht as (? & _ & _ & ? & ?); auto.
Qed.
Lemma poly_sub_to_value P s a b r : machine P -> pgood P s a -> pgood P s b -> poly_sub_to P a b = Ok r -> pgood P s r /\ pv s r = (pv s a - pv s b)%R.
Proof.
  intros M Ga [Wb Ab] H. pose proof (machine_env _ M) as O. unfold poly_sub_to in H. apply bind_ok in H as (nb & Hn & H). apply bind_ok in H as (x & Hx & H).
  apply (poly_negate_value _ s) in Hn as (Wn & An & Vn & _); try assumption. apply (poly_add_to_value P s) in Hx as ([Wx Ax] & Vx & _); try assumption; [|now split]. apply (poly_normalize_value P s) in H as (W & A & V & _); try assumption. split; [now split|]. rewrite V, Vx, Vn. ring.
Qed.
Lemma poly_sub_value P s a b r : machine P -> pgood P s a -> pgood P s b -> poly_sub P a b = Ok r -> pgood P s r /\ pv s r = (pv s a - pv s b)%R.
Proof.
  intros M Ga Gb H. pose proof (machine_env _ M) as O. pose proof O as (Hw & FS & FE). unfold poly_sub in H. apply bind_ok in H as (v & Hv & H). destruct v as [[x y]|].
  - apply (both_value _ s) in Hv as (Gx & Gy & Vx & Vy); try assumption; try apply Ga; try apply Gb. apply bind_ok in H as (c & Hc & H). apply real_sub_value in Hc as (Gc & _ & Vc); try assumption.
    apply (const_poly P s) in H as (W & A & V & N); try assumption. split; [now split|]. now rewrite V, Vc, Vx, Vy.
  - now apply (poly_sub_to_value P s) in H.
Qed.
Lemma row_value E s t b r : okenv E -> twf (ew E) t -> tadm s t -> pwf (ew E) b -> padm s b -> mapr (term_mul E t) b = Ok r -> pwf (ew E) r /\ padm s r /\ pv s r = (tv s t * pv s b)%R.
Proof.
  intros O Wt At Wb Ab H. apply (mapr_value (ew E) s _ (fun x => tv s t * x)%R) in H; try assumption; [ring|intros; ring|].
  intros u u' Wu Au Hu. apply (term_mul_value E s) in Hu as (? & _ & _ & ? & ?); auto.
Qed.
Lemma rows_value E s a b : okenv E -> pwf (ew E) b -> padm s b -> forall l, mapr (fun x => mapr (term_mul E x) b) a = Ok l -> pwf (ew E) a -> padm s a ->
  pwf (ew E) (concat l) /\ padm s (concat l) /\ pv s (concat l) = (pv s a * pv s b)%R.
Proof.
  intros O Wb Ab l H Wa Aa. apply mapr_inv in H. induction H as [|t r a l Ht H IH]; cbn [concat].
  - split; [constructor|]. split; [constructor|]. cbn. ring.
  - inversion Wa; subst. inversion Aa; subst. destruct IH as (X & Y & Z); try assumption. apply (row_value E s) in Ht as (X' & Y' & Z'); try assumption. split; [now apply Forall_app|]. split; [now apply Forall_app|]. rewrite pv_app, pv_cons, Z, Z'. ring.
Qed.
Lemma rows_nonempty E a b : forall l, mapr (fun x => mapr (term_mul E x) b) a = Ok l -> concat l = [] -> a = [] \/ b = [].
Proof.
  intros l H C. apply mapr_inv in H. destruct H as [|t r a l Ht H]; [now left|]. right. cbn [concat] in C. apply app_eq_nil in C as [-> _]. apply mapr_inv in Ht. now inversion Ht.
Qed.
Lemma poly_mul_to_value P s a b r : machine P -> pgood P s a -> pgood P s b -> poly_mul_to P a b = Ok r -> pgood P s r /\ pv s r = (pv s a * pv s b)%R /\ (r = [] -> a = [] \/ b = []).
Proof.
  intros M [Wa Aa] [Wb Ab] H. pose proof (machine_env _ M) as O. unfold poly_mul_to in H. apply bind_ok in H as (l & Hl & H). pose proof Hl as Hl2. apply (rows_value (pe P) s) in Hl as (Wl & Al & Vl); try assumption.
  apply (poly_normalize_value P s) in H as (W & A & V & N); try assumption. split; [now split|]. split; [congruence|]. intros X. apply N in X. now apply (rows_nonempty (pe P) a b l).
Qed.
Lemma poly_mul_value P s a b r : machine P -> pgood P s a -> pgood P s b -> poly_mul P a b = Ok r -> pgood P s r /\ pv s r = (pv s a * pv s b)%R /\ (r = [] -> a = [] \/ b = []).
Proof.
  intros M Ga Gb H. pose proof (machine_env _ M) as O. pose proof O as (Hw & FS & FE). unfold poly_mul in H. apply bind_ok in H as (v & Hv & H). destruct v as [[x y]|].
  - apply (both_value _ s) in Hv as (Gx & Gy & Vx & Vy); try assumption; try apply Ga; try apply Gb. apply bind_ok in H as (c & Hc & H). apply real_mul_good in Hc as (Gc & _ & Vc); try assumption; try apply Gx; try apply Gy.
    apply (const_poly P s) in H as (W & A & V & N); try assumption. split; [now split|]. split; [|contradiction]. now rewrite V, Vc, Vx, Vy.
  - now apply (poly_mul_to_value P s) in H.
Qed.
Lemma real_div_nonzero w a b x : good w b -> (exists E, ew E = w /\ real_div E a b = Ok x) -> rv b <> 0%R.
Proof.
  intros G (E & <- & H). unfold real_div in H. apply bind_ok in H as (i & Hi & _). apply real_inverse_value in Hi as (_ & N & _); [|assumption]. rewrite rv_radical. pose proof (radical_pos b). destruct G as [(_ & _ & _ & D) _]. apply Rmult_integral_contrapositive. split; [|lra]. rewrite qv_R by assumption. apply IZR_nz in D, N. unfold Rdiv. apply Rmult_integral_contrapositive. split; [assumption|]. now apply Rinv_neq_0_compat.
Qed.
Lemma poly_div_to_value P s a c r : machine P -> pgood P s a -> good (ew (pe P)) c -> poly_div_to P a c = Ok r -> pgood P s r /\ pv s r = (pv s a / rv c)%R /\ (a <> [] -> rv c <> 0%R) /\ (r = [] <-> a = []).
Proof.
  intros M [Wa Aa] Gc H. pose proof (machine_env _ M) as O. unfold poly_div_to in H. apply bind_ok in H as (l & Hl & H). pose proof Hl as Hl2.
  apply (mapr_value (ew (pe P)) s _ (fun x => x / rv c)%R) in Hl as (Wl & Al & Vl); try assumption; [|unfold Rdiv; ring|intros; unfold Rdiv; ring|].
  - apply (poly_normalize_value P s) in H as (W & A & V & N); try assumption. split; [now split|]. split; [congruence|]. apply mapr_inv in Hl2. split.
    + intros NE. destruct Hl2 as [|t t' a l Ht]; [contradiction|]. unfold term_div in Ht. apply bind_ok in Ht as (q & Hq & _). eapply real_div_nonzero; [exact Gc|]. exists (pe P). split; [reflexivity|exact Hq].
    + rewrite N. split; intros ->; now inversion Hl2.
  - intros t t' Wt At Ht. apply (term_div_value (pe P) s) in Ht as (? & _ & _ & ? & ?); auto.
Qed.
Lemma poly_subst_value E e s l l' : okenv E -> pwf (ew E) l -> Forall (fun t => Forall (power_ok (ew E) e) (syms t)) l -> poly_subst E e l = Ok l' ->
  pwf (ew E) l' /\ (padm (extend e s) l -> padm s l') /\ pv s l' = pv (extend e s) l /\ length l' = length l.
Proof.
  intros O W S H. unfold poly_subst in H. apply mapr_inv in H. induction H as [|t t' l l' Ht H IH].
  - split; [constructor|]. split; [constructor|]. auto.
  - inversion W; subst. inversion S; subst. destruct IH as (X & Y & Z & L); try assumption. apply (term_subst_value E e s) in Ht as (X' & Z' & Y' & _); try assumption. split; [now constructor|]. split; [intros A; inversion A as [|? ? A1 A2]; subst; constructor; [auto|now apply Y]|]. rewrite !pv_cons, Z, Z'. cbn [length]. auto.
Qed.
