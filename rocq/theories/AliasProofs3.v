(** Proofs: a Frac after an exception has its old value or already the value of the result. *)
From Coq Require Import ZArith Znumtheory QArith Qreals Reals String Lia Lra Bool List Permutation.
From Verif Require Import Base AdapterModel RationalModel RationalSpec RationalProofs RationalProofs2 RealModel RealSpec RealProofs1 RealProofs2 RealProofs3 RealProofs4 RealProofs5 RealProofs6 PolyModel PolySpec PolyProofs1 PolyProofs2 PolyProofs3 PolyProofs4 PolyProofs5.
From Verif Require Import CliModel AliasModel AliasSpec AliasProofs1 ErrSpec ErrProofs1 ErrProofs2 ErrProofs3 AliasProofs2.
Import ListNotations.
Open Scope Z_scope.

Definition ends {A} (p : prog A) (s : A) (J K : A -> Prop) : Prop := match snd (p s) with Ok _ => J (fst (p s)) | Throw _ => K (fst (p s)) | _ => True end.
Lemma ends_then {A} (c d : prog A) s (J1 J K : A -> Prop) : ends c s J1 K -> (forall s', J1 s' -> ends d s' J K) -> ends (c ;> d) s J K.
Proof. unfold ends, then_. intros H G. destruct (c s) as [s' [u|m|m|]]; cbn in *; auto. exact (G s' H). Qed.
Lemma ends_local {A B} (f : A -> res B) (k : B -> prog A) s (J K : A -> Prop) : (forall m, f s = Throw m -> K s) -> (forall b, f s = Ok b -> ends (k b) s J K) -> ends (local f k) s J K.
Proof. unfold ends, local. intros H G. destruct (f s) as [b|m|m|]; cbn in *; eauto. exact (G b eq_refl). Qed.
Lemma ends_assign {A} (f : A -> res A) s (J K : A -> Prop) : (forall s', f s = Ok s' -> J s') -> (forall m, f s = Throw m -> K s) -> ends (assign f) s J K.
Proof. unfold ends, assign. intros H G. destruct (f s) as [b|m|m|]; cbn in *; eauto. Qed.
Lemma ends_keeps {A} (p : prog A) s (J K : A -> Prop) : keeps p s -> K s -> (forall s', done (p s) = Ok s' -> J s') -> ends p s J K.
Proof. unfold ends. intros Q H G. unfold done in G. destruct (snd (p s)) as [b|m|m|] eqn:E; cbn in *; eauto. now rewrite (Q m E). Qed.
Lemma ends_quiet {A} (p : prog A) s (J K : A -> Prop) : no_exception (done (p s)) -> (forall s', done (p s) = Ok s' -> J s') -> ends p s J K.
Proof. unfold ends. intros Q G. unfold done in *. destruct (snd (p s)) as [b|m|m|] eqn:E; cbn in *; eauto. exfalso. exact (Q m eq_refl). Qed.
Lemma ends_weak {A} (p : prog A) s (J K J' K' : A -> Prop) : ends p s J K -> (forall x, J x -> J' x) -> (forall x, K x -> K' x) -> ends p s J' K'.
Proof. unfold ends. intros H X Y. destruct (snd (p s)); auto. Qed.
Lemma set_fnum_get f : set_fnum (fnum f) f = f. Proof. destruct f; reflexivity. Qed.
Lemma set_fden_get f : set_fden (fden f) f = f. Proof. destruct f; reflexivity. Qed.
Lemma on_num_keeps (p : prog poly) f : keeps p (fnum f) -> keeps (on_num p) f. Proof. apply keeps_inside, set_fnum_get. Qed.
Lemma on_den_keeps (p : prog poly) f : keeps p (fden f) -> keeps (on_den p) f. Proof. apply keeps_inside, set_fden_get. Qed.

Lemma qok_sane q : qok q -> sane_rat q. Proof. intros [H _]. unfold sane_rat. lia. Qed.
Lemma good_sane w a : good w a -> sane_real a.
Proof. intros [(_ & _ & D & E) _]. split; unfold sane_rat; lia. Qed.
Lemma twf_sane w t : twf w t -> sane_term t.
Proof. intros [G [_ S]]. split; [exact (good_sane w _ G)|]. eapply Forall_impl; [|exact S]. intros kv H. now apply qok_sane. Qed.
Lemma pgood_sane P s l : pgood P s l -> sane_poly l.
Proof. intros [W _]. eapply Forall_impl; [|exact W]. intros t. apply twf_sane. Qed.
Lemma fgood_sane P s f : fgood P s f -> sane_frac f.
Proof. intros [N D]. split; eapply pgood_sane; eassumption. Qed.

Section Fr.
  Variable P : penv.
  Hypothesis M : machine P.
  Hypothesis C : calm P.
  Variable s : string -> R.
  Lemma fval_rescale n d n' d' k v : fval P s (Frac n d) v -> pgood P s n' -> pgood P s d' -> k <> 0%R -> pv s n' = (k * pv s n)%R -> pv s d' = (k * pv s d)%R -> fval P s (Frac n' d') v.
  Proof.
    intros (_ & D & V) N' D' K A B. cbn [fnum fden] in *. split; [now split|]. cbn [fnum fden]. split; [rewrite B; now apply Rmult_integral_contrapositive|]. rewrite <- V. unfold fv. cbn [fnum fden]. rewrite A, B. field. auto.
  Qed.
  Lemma norm_pgood l l' : pgood P s l -> poly_normalize P l = Ok l' -> pgood P s l' /\ pv s l' = (1 * pv s l)%R.
  Proof. intros [W A] H. apply (poly_normalize_value P s) in H as (W' & A' & V & _); try assumption. split; [now split|]. rewrite V. ring. Qed.
  Lemma same_pv l : pv s l = (1 * pv s l)%R. Proof. ring. Qed.
  Lemma normalize_ends f v : fval P s f v -> ends (frac_normalize_p P) f (fun f' => fval P s f' v) (fun f' => fval P s f' v).
  Proof.
    intros V. unfold frac_normalize_p. cbv zeta. pose proof (calm_fac P C) as F. pose proof (machine_env _ M) as O.
    apply ends_then with (J1 := fun f' => fval P s f' v).
    { apply ends_keeps; [apply on_num_keeps, keeps_assign|exact V|]. intros f' D. rewrite on_num_done, done_assign in D. apply bind_ok in D as (n & Hn & D). injection D as <-. destruct f as [n0 d0]. cbn [fnum fden] in *. pose proof V as ([GN GD] & _). apply norm_pgood in Hn as [G E]; [|exact GN]. eapply fval_rescale; [exact V|exact G|exact GD| |exact E|apply same_pv]. lra. }
    clear f V. intros f V. apply ends_then with (J1 := fun f' => fval P s f' v).
    { apply ends_keeps; [apply on_den_keeps, keeps_assign|exact V|]. intros f' D. rewrite on_den_done, done_assign in D. apply bind_ok in D as (n & Hn & D). injection D as <-. destruct f as [n0 d0]. cbn [fnum fden] in *. pose proof V as ([GN GD] & _). apply norm_pgood in Hn as [G E]; [|exact GD]. eapply fval_rescale; [exact V|exact GN|exact G| |apply same_pv|exact E]. lra. }
    clear f V. intros [n d] V. pose proof V as ([GN GD] & DZ & _). cbn [fnum fden] in GN, GD, DZ. apply ends_local; [intros; exact V|]. cbn [fnum fden]. intros m Hm. apply bind_ok in Hm as (m1 & Hm1 & Hm).
    apply dens_nz in Hm1; [|now apply (pwf_dens (ew (pe P))), GD|lia]. apply dens_nz in Hm; [|now apply (pwf_dens (ew (pe P))), GN|assumption]. apply IZR_nz in Hm.
    apply ends_then with (J1 := fun f' => exists n', f' = Frac n' d /\ pgood P s n' /\ pv s n' = (IZR m * pv s n)%R).
    { apply ends_keeps; [apply on_num_keeps, keeps_assign|exact V|]. intros f' D. rewrite on_num_done in D. unfold scale_terms in D. rewrite done_assign in D. apply bind_ok in D as (n' & Hn & D). injection D as <-. cbn [fnum fden] in *. apply (scale_value P s) in Hn as [G E]; try assumption. exists n'. auto. }
    intros f' (n' & -> & GN' & EN). apply ends_then with (J1 := fun f' => exists d', f' = Frac n' d' /\ fval P s f' v).
    { apply ends_quiet.
      - rewrite on_den_done. cbn [fden]. unfold scale_terms. rewrite done_assign. apply (o_none any). eapply o_bind with (Q := any); [|intros; exact I]. eapply o_any. eapply o_mapr; [exact (pgood_sane P s d GD)|]. intros t T. eapply o_bind; [apply o_real_of_int, F|]. intros c Sc. apply o_term_mul; [exact F|exact T|now apply sane_const].
      - intros f' D. rewrite on_den_done in D. unfold scale_terms in D. rewrite done_assign in D. apply bind_ok in D as (d' & Hd & D). injection D as <-. cbn [fnum fden] in *. apply (scale_value P s) in Hd as [G E]; try assumption. exists d'. split; [reflexivity|]. exact (fval_rescale n d n' d' (IZR m) v V GN' G Hm EN E). }
    intros f' (d' & -> & V'). apply ends_local; [intros; exact V'|]. cbn [fnum fden]. intros o Ho. destruct o as [g|]; [|exact V'].
    destruct n' as [|n0 ns]; [discriminate|]. destruct d' as [|d0 ds]; [discriminate|]. pose proof V' as ([_ GD'] & _). cbn [fnum fden] in GD'.
    apply ends_then with (J1 := fun f' => exists gr n2 i, real_of_int (pe P) g = Ok gr /\ f' = Frac n2 (d0 :: ds) /\ pgood P s n2 /\ good (ew (pe P)) gr /\ rv gr <> 0%R /\ pv s n2 = (/ rv gr * pv s (n0 :: ns))%R /\ real_inverse (ew (pe P)) gr = Ok i).
    { apply ends_local; [intros; exact V'|]. intros gr Hgr. pose proof Hgr as Hg. apply of_int_value in Hg as (Gg & _ & _); [|assumption]. apply ends_keeps; [apply on_num_keeps, poly_div_keeps; [exact C|exact (pgood_sane P s _ GN')]|exact V'|].
      intros f' D. rewrite on_num_done, poly_div_done in D. apply bind_ok in D as (n2 & Hn & D). injection D as <-. cbn [fnum fden] in *. assert (exists i, real_inverse (ew (pe P)) gr = Ok i) as [i Hi].
      { unfold poly_div_to in Hn. apply bind_ok in Hn as (l & Hl & _). cbn [mapr] in Hl. apply bind_ok in Hl as (t & Ht & _). unfold term_div in Ht. apply bind_ok in Ht as (c & Hc & _). unfold real_div in Hc. apply bind_ok in Hc as (i & Hi & _). now exists i. }
      apply (poly_div_to_value P s) in Hn as (Gn & Vn & NZ & _); try assumption. specialize (NZ ltac:(discriminate)). exists gr, n2, i. do 5 (split; [auto; fail|]). split; [rewrite Vn; field; assumption|exact Hi]. }
    intros f' (gr & n2 & i & Hgr & -> & Gn2 & Gg & NZ & En & Hi). apply ends_local; [intros x X; rewrite Hgr in X; discriminate|]. intros gr' Hgr'. rewrite Hgr in Hgr'. injection Hgr' as <-. apply ends_quiet.
    - rewrite on_den_done, poly_div_done. apply (o_none any). eapply o_bind; [exact (poly_div_quiet P C gr i _ Hi (pgood_sane P s _ GD'))|intros; exact I].
    - intros f' D. rewrite on_den_done, poly_div_done in D. apply bind_ok in D as (d2 & Hd & D). injection D as <-. cbn [fnum fden] in *. apply (poly_div_to_value P s) in Hd as (Gd & Vd & _); try assumption. eapply fval_rescale; [exact V'|exact Gn2|exact Gd| |exact En|]; [now apply Rinv_neq_0_compat|]. rewrite Vd. field. assumption.
  Qed.

  Lemma on_mul_num_ends x f (K : frac -> Prop) : fgood P s f -> pgood P s (at_arg x (fnum f)) ->
    ends (on_num (poly_mul_p P x)) f (fun f' => exists n, f' = Frac n (fden f) /\ pgood P s n /\ pv s n = (pv s (fnum f) * pv s (at_arg x (fnum f)))%R) K.
  Proof.
    intros [GN GD] GX. apply ends_quiet.
    - rewrite on_num_done. apply (o_none any). eapply o_bind; [apply poly_mul_quiet; [exact C|exact (pgood_sane P s _ GN)|exact (pgood_sane P s _ GX)]|intros; exact I].
    - intros f' D. rewrite on_num_done, poly_mul_done in D. apply bind_ok in D as (n & Hn & D). injection D as <-. apply (poly_mul_to_value P s) in Hn as (G & V & _); try assumption. exists n. auto.
  Qed.
  Lemma on_mul_den_ends x f (K : frac -> Prop) : pgood P s (fden f) -> pgood P s (at_arg x (fden f)) ->
    ends (on_den (poly_mul_p P x)) f (fun f' => exists d, f' = Frac (fnum f) d /\ pgood P s d /\ pv s d = (pv s (fden f) * pv s (at_arg x (fden f)))%R) K.
  Proof.
    intros GD GX. apply ends_quiet.
    - rewrite on_den_done. apply (o_none any). eapply o_bind; [apply poly_mul_quiet; [exact C|exact (pgood_sane P s _ GD)|exact (pgood_sane P s _ GX)]|intros; exact I].
    - intros f' D. rewrite on_den_done, poly_mul_done in D. apply bind_ok in D as (n & Hn & D). injection D as <-. apply (poly_mul_to_value P s) in Hn as (G & V & _); try assumption. exists n. auto.
  Qed.
  Lemma frac_mul_ends x f a b : fval P s f a -> fval P s (at_arg x f) b -> ends (frac_mul_p P x) f (fun f' => fval P s f' (a * b)) (fun f' => fval P s f' (a * b)).
  Proof.
    intros ([GN GD] & DZ & V) ([XN XD] & XZ & XV). assert (at_arg (member fnum x) (fnum f) = fnum (at_arg x f)) as EN by apply at_member. assert (at_arg (member fden x) (fden f) = fden (at_arg x f)) as ED by apply at_member.
    unfold frac_mul_p. eapply ends_then; [apply on_mul_num_ends; [now split|now rewrite EN]|]. rewrite EN. intros f' (n & -> & Gn & Vn). eapply ends_then; [apply on_mul_den_ends; cbn [fden]; [exact GD|now rewrite ED]|]. cbn [fden fnum]. rewrite ED. intros f' (d & -> & Gd & Vd). apply normalize_ends.
    split; [now split|]. cbn [fden]. rewrite Vd. split; [now apply Rmult_integral_contrapositive|]. unfold fv. cbn [fnum fden]. rewrite Vn, Vd. subst a b. unfold fv. field. auto.
  Qed.
  Lemma frac_add_ends g f a b : fval P s f a -> fval P s g b ->
    ends (frac_add_p P (Other g)) f (fun f' => fval P s f' (a + b)) (fun f' => f' = f \/ fval P s f' (a + b)).
  Proof.
    intros ([GN GD] & DZ & V) ([XN XD] & XZ & XV). unfold frac_add_p. apply ends_local; [auto|]. cbn [at_arg member]. intros e He. destruct e.
    - apply ends_quiet.
      + rewrite on_num_done. apply (o_none any). eapply o_bind; [apply poly_add_quiet; [exact C|exact (pgood_sane P s _ GN)|exact (pgood_sane P s _ XN)]|intros; exact I].
      + intros f' D. rewrite on_num_done, poly_add_other in D. apply bind_ok in D as (n & Hn & D). injection D as <-. apply (poly_add_to_value P s) in Hn as (G & Vn & _); try assumption. apply (poly_eq_value _ s) in He; [|apply GD|apply XD]. split; [now split|]. split; [exact DZ|]. unfold fv in *. cbn [fnum fden]. subst a b. rewrite <- He, Vn. field. assumption.
    - apply ends_then with (J1 := fun f' => exists n, f' = Frac n (fden f) /\ pgood P s n /\ pv s n = (pv s (fnum f) * pv s (fden g) + pv s (fnum g) * pv s (fden f))%R).
      { apply ends_assign; [|auto]. intros f' D. apply bind_ok in D as (p & Hp & D). apply bind_ok in D as (q & Hq & D). apply bind_ok in D as (n & Hn & D). injection D as <-. apply (poly_mul_value P s) in Hp as (Gp & Vp & _); try assumption. apply (poly_mul_value P s) in Hq as (Gq & Vq & _); try assumption. apply (poly_add_value P s) in Hn as (Gn & Vn & _); try assumption. exists n. split; [reflexivity|]. split; [assumption|]. now rewrite Vn, Vp, Vq. }
      intros f' (n & -> & Gn & Vn). eapply ends_then; [apply on_mul_den_ends; cbn [fden at_arg]; [exact GD|exact XD]|]. cbn [fden fnum at_arg]. intros f' (d & -> & Gd & Vd). eapply ends_weak; [apply (normalize_ends _ (a + b))|auto|auto].
      split; [now split|]. cbn [fden]. rewrite Vd. split; [now apply Rmult_integral_contrapositive|]. unfold fv. cbn [fnum fden]. rewrite Vn, Vd. subst a b. unfold fv. field. auto.
  Qed.
  Lemma frac_sub_ends x f a b : fval P s f a -> fval P s (at_arg x f) b -> ends (frac_sub_p P x) f (fun f' => fval P s f' (a - b)) (fun f' => f' = f \/ fval P s f' (a - b)).
  Proof.
    intros V X. unfold frac_sub_p. apply ends_local; [auto|]. intros n Hn. apply (frac_negate_value P s _ b) in Hn; try assumption. eapply ends_then; [apply frac_add_ends; [exact V|exact Hn]|]. intros f' V'. eapply ends_weak; [apply normalize_ends; exact V'|auto|auto].
  Qed.
  Lemma frac_div_ends g f a b : fval P s f a -> fval P s g b -> b <> 0%R -> ends (frac_div_p P (Other g)) f (fun f' => fval P s f' (a / b)) (fun f' => f' = f \/ fval P s f' (a / b)).
  Proof.
    intros ([GN GD] & DZ & V) ([XN XD] & XZ & XV) NZ. assert (pv s (fnum g) <> 0%R) by (intros X; apply NZ; subst; unfold fv; rewrite X; unfold Rdiv; ring). unfold frac_div_p. apply ends_local; [auto|]. intros [] _; [apply ends_assign; [discriminate|auto]|]. cbn [at_arg].
    eapply ends_then; [apply ends_local; [discriminate|]; intros d E; injection E as <-; apply on_mul_num_ends; [now split|exact XD]|]. cbn [at_arg]. intros f' (n & -> & Gn & Vn).
    eapply ends_then; [apply ends_local; [discriminate|]; intros d E; injection E as <-; apply on_mul_den_ends; [exact GD|exact XN]|]. cbn [at_arg fnum fden]. intros f' (d & -> & Gd & Vd). eapply ends_weak; [apply (normalize_ends _ (a / b))|auto|auto].
    split; [now split|]. cbn [fden]. rewrite Vd. split; [now apply Rmult_integral_contrapositive|]. unfold fv. cbn [fnum fden]. rewrite Vn, Vd. subst a b. unfold fv. field. auto.
  Qed.
  (** f /= f: the reciprocal of the denominator *)
  Lemma frac_div_itself_ends f a : fval P s f a -> pv s (fnum f) <> 0%R -> ends (frac_div_p P Itself) f (fun f' => fval P s f' (/ pv s (fden f))) (fun f' => f' = f \/ fval P s f' (/ pv s (fden f))).
  Proof.
    intros ([GN GD] & DZ & V) NZ. unfold frac_div_p. apply ends_local; [auto|]. intros [] _; [apply ends_assign; [discriminate|auto]|]. cbn [at_arg].
    eapply ends_then; [apply ends_local; [discriminate|]; intros d E; injection E as <-; apply on_mul_num_ends; [now split|exact GD]|]. cbn [at_arg]. intros f' (n & -> & Gn & Vn).
    eapply ends_then; [apply ends_local; [discriminate|]; intros d E; injection E as <-; apply on_mul_den_ends; [exact GD|exact Gn]|]. cbn [at_arg fnum fden]. intros f' (d & -> & Gd & Vd). eapply ends_weak; [apply (normalize_ends _ (/ pv s (fden f)))|auto|auto].
    assert (pv s n <> 0%R) by (rewrite Vn; now apply Rmult_integral_contrapositive). split; [now split|]. cbn [fden]. rewrite Vd. split; [now apply Rmult_integral_contrapositive|]. unfold fv. cbn [fnum fden]. rewrite Vd. field. auto.
  Qed.
End Fr.

(** ** Frac += itself always inserts a vector into itself *)
Definition yes {A} (r : res A) (x : A) : Prop := r = Ok x \/ exists why, r = Ub why.
Lemma yes_chk w x : yes (chk w x) x. Proof. unfold chk. destruct (in_range w x); [now left|right; eauto]. Qed.
Lemma yes_rat w q : yes (rat_eq w q q) true.
Proof. unfold rat_eq. destruct (yes_chk w (num q * den q)) as [-> | [y ->]]; cbn [bind]; [left; now rewrite Z.eqb_refl|right; eauto]. Qed.
Lemma yes_real w a : yes (real_eq w a a) true.
Proof. unfold real_eq. destruct (yes_rat w (coe a)) as [-> | [y ->]]; cbn [bind negb]; [|right; eauto]. destruct (yes_rat w (rad a)) as [-> | [y ->]]; cbn [bind]; [|right; eauto]. left. now rewrite Z.eqb_refl. Qed.
Lemma yes_smap w m : yes (smap_eq w m m) true.
Proof. unfold smap_eq. rewrite Nat.eqb_refl. induction m as [|[k v] m IH]; cbn [entries_eq]; [now left|]. rewrite String.eqb_refl. destruct (yes_rat w v) as [-> | [y ->]]; cbn [bind]; [exact IH|right; eauto]. Qed.
Lemma yes_term w t : yes (term_eq w t t) true.
Proof. unfold term_eq. destruct (yes_real w (tco t)) as [-> | [y ->]]; cbn [bind]; [apply yes_smap|right; eauto]. Qed.
Lemma yes_poly w l : yes (poly_eq w l l) true.
Proof. unfold poly_eq. rewrite Nat.eqb_refl. induction l as [|t l IH]; cbn [terms_eq]; [now left|]. destruct (yes_term w t) as [-> | [y ->]]; cbn [bind]; [exact IH|right; eauto]. Qed.
Lemma frac_add_itself P f : exists why, done (frac_add_p P Itself f) = Ub why.
Proof. unfold frac_add_p. rewrite done_local. cbn [at_arg]. destruct (yes_poly (ew (pe P)) (fden f)) as [-> | [y ->]]; cbn [bind]; [rewrite on_num_done; cbn [member]; rewrite poly_add_itself; cbn [bind]; eauto|eauto]. Qed.

(** ** Poly /= one of its own coefficients *)
Lemma div_terms_coefficient P k : forall b a c, nth_error (a ++ b) k = Some c -> (k < length a)%nat ->
  done (div_terms P (Coefficient k) (seq (length a) (length b)) (a ++ b)) = (l <- mapr (fun t => term_div (pe P) t (tco c)) b ;; Ok (a ++ l)).
Proof.
  induction b as [|t b IH]; intros a c N L; [reflexivity|]. cbn [length seq div_terms mapr]. rewrite done_then, div_term_done. replace (Nat.eqb (length a) k) with false by (symmetry; apply Nat.eqb_neq; lia). rewrite N. destruct (term_div (pe P) t (tco c)) as [t'|m|m|]; try reflexivity. cbn [bind].
  replace (a ++ t' :: b) with ((a ++ [t']) ++ b) by (now rewrite <- app_assoc). replace (S (length a)) with (length (a ++ [t'])) by (rewrite app_length; cbn; lia). rewrite (IH (a ++ [t']) c).
  - rewrite AliasProofs1.bind_assoc. apply bind_ext. intros l. cbn [bind]. now rewrite <- app_assoc.
  - rewrite <- app_assoc. rewrite nth_error_app1 in N |- * by lia. exact N.
  - rewrite app_length. cbn. lia.
Qed.
Lemma div_terms_before P t b : forall a2 a1, done (div_terms P (Coefficient (length (a1 ++ a2))) (seq (length a1) (length a2 + S (length b))) (a1 ++ a2 ++ t :: b)) =
  (l <- mapr (fun u => term_div (pe P) u (tco t)) a2 ;; t' <- term_div (pe P) t (tco t) ;; r <- mapr (fun u => term_div (pe P) u (tco t')) b ;; Ok (a1 ++ l ++ t' :: r)).
Proof.
  induction a2 as [|u a2 IH]; intros a1.
  - rewrite app_nil_r. cbn [app length Nat.add seq div_terms mapr bind]. rewrite done_then, div_term_done, Nat.eqb_refl. destruct (term_div (pe P) t (tco t)) as [t'|m|m|]; try reflexivity. cbn [bind]. replace (a1 ++ t' :: b) with ((a1 ++ [t']) ++ b) by (now rewrite <- app_assoc). replace (S (length a1)) with (length (a1 ++ [t'])) by (rewrite app_length; cbn; lia).
    rewrite (div_terms_coefficient P (length a1) b (a1 ++ [t']) t'); [apply bind_ext; intros r; now rewrite <- app_assoc|rewrite <- app_assoc, nth_error_app2, Nat.sub_diag by lia; reflexivity|rewrite app_length; cbn; lia].
  - cbn [app length Nat.add seq div_terms mapr]. rewrite done_then, div_term_done. replace (Nat.eqb (length a1) (length (a1 ++ u :: a2))) with false by (symmetry; apply Nat.eqb_neq; rewrite app_length; cbn; lia).
    replace (nth_error (a1 ++ u :: a2 ++ t :: b) (length (a1 ++ u :: a2))) with (Some t) by (change (a1 ++ u :: a2 ++ t :: b) with (a1 ++ (u :: a2) ++ t :: b); rewrite app_assoc, nth_error_app2, Nat.sub_diag by lia; reflexivity).
    destruct (term_div (pe P) u (tco t)) as [u'|m|m|]; try reflexivity. cbn [bind]. replace (a1 ++ u' :: a2 ++ t :: b) with ((a1 ++ [u']) ++ a2 ++ t :: b) by (now rewrite <- app_assoc). replace (S (length a1)) with (length (a1 ++ [u'])) by (rewrite app_length; cbn; lia).
    replace (length (a1 ++ u :: a2)) with (length ((a1 ++ [u']) ++ a2)) by (rewrite !app_length; cbn; lia). rewrite IH. rewrite AliasProofs1.bind_assoc. apply bind_ext. intros l. cbn [bind]. apply bind_ext. intros t'. apply bind_ext. intros r. now rewrite <- app_assoc.
Qed.
Lemma poly_div_own P a t b : done (poly_div_p P (Coefficient (length a)) (a ++ t :: b)) =
  (l <- mapr (fun u => term_div (pe P) u (tco t)) a ;; t' <- term_div (pe P) t (tco t) ;; r <- mapr (fun u => term_div (pe P) u (tco t')) b ;; poly_normalize P (l ++ t' :: r)).
Proof.
  unfold poly_div_p. rewrite done_local. cbn [bind]. rewrite app_length. cbn [length]. rewrite done_then. pose proof (div_terms_before P t b a []) as H. cbn [app length] in H. rewrite H. rewrite AliasProofs1.bind_assoc. apply bind_ext. intros l. rewrite AliasProofs1.bind_assoc. apply bind_ext. intros t'. rewrite AliasProofs1.bind_assoc. apply bind_ext. intros r. cbn [bind]. apply done_assign.
Qed.
Lemma div_all_value P s c l l' : machine P -> good (ew (pe P)) c -> pgood P s l -> mapr (fun u => term_div (pe P) u c) l = Ok l' -> pgood P s l' /\ pv s l' = (pv s l / rv c)%R.
Proof.
  intros M G [W A] H. pose proof (machine_env _ M) as O. apply (mapr_value (ew (pe P)) s _ (fun x => x / rv c)%R) in H as (W' & A' & V); try assumption; [now split|unfold Rdiv; ring|intros; unfold Rdiv; ring|]. intros t t' Wt At Ht. apply (term_div_value (pe P) s) in Ht as (? & _ & _ & ? & ?); auto.
Qed.
Lemma poly_div_own_value P s a t b r : machine P -> pgood P s (a ++ t :: b) -> done (poly_div_p P (Coefficient (length a)) (a ++ t :: b)) = Ok r ->
  pgood P s r /\ pv s r = ((pv s a + tv s t) / rv (tco t) + pv s b)%R.
Proof.
  intros M [W A] H. pose proof (machine_env _ M) as O. pose proof O as (Hw & FS & FE). unfold pwf in W. apply Forall_app in W as [Wa W]. inversion W as [|? ? Wt Wb]; subst. unfold padm in A. apply Forall_app in A as [Aa A]. inversion A as [|? ? At Ab]; subst.
  rewrite poly_div_own in H. apply bind_ok in H as (a' & Ha & H). apply bind_ok in H as (t' & Ht & H). apply bind_ok in H as (b' & Hb & H).
  assert (rv (tco t) <> 0%R /\ rv (tco t') = 1%R) as [NZ ONE].
  { pose proof Ht as Ht'. unfold term_div in Ht'. apply bind_ok in Ht' as (c & Hc & Ht'). unfold term_normalize in Ht'. apply bind_ok in Ht' as (m & _ & Ht'). injection Ht' as <-. cbn [tco]. assert (rv (tco t) <> 0%R) by (eapply real_div_nonzero; [apply Wt|exists (pe P); split; [reflexivity|exact Hc]]). split; [assumption|]. apply real_div_value in Hc as (_ & _ & V); try assumption; try apply Wt. rewrite V. field. assumption. }
  apply (div_all_value P s) in Ha as [Ga Va]; [|assumption|apply Wt|now split]. apply (term_div_value (pe P) s) in Ht as (Wt' & _ & _ & At' & Vt); [|assumption|assumption|apply Wt|assumption]. apply (div_all_value P s) in Hb as [Gb Vb]; [|assumption|apply Wt'|now split].
  apply (poly_normalize_value P s) in H as (W' & A' & V & _); [|assumption|apply Forall_app; split; [apply Ga|constructor; [assumption|apply Gb]]|apply Forall_app; split; [apply Ga|constructor; [assumption|apply Gb]]]. split; [now split|]. rewrite V, pv_app, pv_cons, Va, Vt, Vb, ONE. field. assumption.
Qed.
