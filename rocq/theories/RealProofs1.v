(** decompose_radicand and the loops of Real::normalize. *)
From Coq Require Import ZArith Znumtheory QArith Qreals Reals String Lia Lra Bool List Permutation Sorted.
From Verif Require Import Base AdapterModel AdapterProofs FactorizeModel FactorizeProofs4 RationalModel RationalSpec RationalProofs RealModel RealSpec Valuation.
Import ListNotations.
Open Scope Z_scope.

(** ** the factor map as a list of (prime, exponent) pairs *)
Definition flat (m : list (Z * list Z)) : list (Z * Z) := flat_map (fun p => map (fun v => (v, fst p)) (snd p)) m.
Fixpoint runs (l : list Z) (e : Z) : list (Z * Z) :=
  match l with
  | [] => []
  | x :: l' => match l' with
               | y :: _ => if x =? y then runs l' (e + 1) else (x, e) :: runs l' 1
               | [] => [(x, e)]
               end
  end.
Lemma runs2 x y l e : runs (x :: y :: l) e = if x =? y then runs (y :: l) (e + 1) else (x, e) :: runs (y :: l) 1. Proof. reflexivity. Qed.
Lemma runs1 x e : runs [x] e = [(x, e)]. Proof. reflexivity. Qed.
Lemma decompose2 x y l e m : decompose_loop (x :: y :: l) e m = if x =? y then decompose_loop (y :: l) (e + 1) m else decompose_loop (y :: l) 1 (map_add e x m).
Proof. reflexivity. Qed.
Lemma decompose1 x e m : decompose_loop [x] e m = map_add e x m. Proof. reflexivity. Qed.
Definition pprod (f : Z -> Z) (ps : list (Z * Z)) : Z := fold_right (fun p a => fst p ^ f (snd p) * a) 1 ps.

Lemma flat_cons e vs m : flat ((e, vs) :: m) = map (fun v => (v, e)) vs ++ flat m.
Proof. reflexivity. Qed.
Lemma flat_map_add e x m : Permutation (flat (map_add e x m)) ((x, e) :: flat m).
Proof.
  induction m as [|[k vs] m IH]; cbn [map_add]; [reflexivity|].
  destruct (Z.eqb_spec e k) as [->|_].
  - rewrite !flat_cons, map_app. cbn [map]. rewrite <- app_assoc. symmetry. apply (Permutation_middle _ _ (x, k)).
  - destruct (e <? k); [reflexivity|]. rewrite !flat_cons. rewrite IH. symmetry. apply Permutation_middle.
Qed.
Lemma flat_decompose l : forall e m, Permutation (flat (decompose_loop l e m)) (runs l e ++ flat m).
Proof.
  induction l as [|x l IH]; intros e m; [reflexivity|]. destruct l as [|y l].
  - rewrite decompose1, runs1. cbn [app]. apply flat_map_add.
  - rewrite decompose2, runs2. destruct (x =? y); [apply IH|]. etransitivity; [apply IH|]. rewrite flat_map_add. cbn [app].
    symmetry. apply Permutation_middle.
Qed.
Lemma pprod_perm f a b : Permutation a b -> pprod f a = pprod f b.
Proof.
  unfold pprod. induction 1 as [|x a b P IH|x y a|a b c P1 IH1 P2 IH2]; cbn [fold_right]; [reflexivity|now rewrite IH| |congruence].
  generalize (fold_right (fun p a => fst p ^ f (snd p) * a) 1 a). intros z. ring.
Qed.
Lemma pprod_app f a b : pprod f (a ++ b) = pprod f a * pprod f b.
Proof.
  induction a as [|p a IH]; cbn [app]; [change (pprod f []) with 1; lia|].
  change (pprod f (p :: a ++ b)) with (fst p ^ f (snd p) * pprod f (a ++ b)). change (pprod f (p :: a)) with (fst p ^ f (snd p) * pprod f a). rewrite IH. ring.
Qed.
Lemma pprod_cons f p a : pprod f (p :: a) = fst p ^ f (snd p) * pprod f a. Proof. reflexivity. Qed.
Lemma pprod_const f e vs : 0 <= f e -> pprod f (map (fun v => (v, e)) vs) = zprod vs ^ f e.
Proof.
  intros H. induction vs as [|v vs IH]; [cbn; now rewrite Z.pow_1_l|]. cbn [map]. rewrite pprod_cons, IH. cbn [fst snd].
  change (zprod (v :: vs)) with (v * zprod vs). now rewrite Z.pow_mul_l.
Qed.
Lemma runs_prod l : forall e, 1 <= e -> pprod (fun e => e) (runs l e) = match l with [] => 1 | x :: _ => x ^ (e - 1) * zprod l end.
Proof.
  induction l as [|x l IH]; intros e He; [reflexivity|]. destruct l as [|y l].
  - rewrite runs1, pprod_cons. cbn [fst snd pprod fold_right zprod]. replace e with (1 + (e - 1)) at 1 by lia.
    rewrite Z.pow_add_r, Z.pow_1_r by lia. lia.
  - rewrite runs2. change (zprod (x :: y :: l)) with (x * zprod (y :: l)). destruct (Z.eqb_spec x y) as [->|N].
    + rewrite IH by lia. replace (e + 1 - 1) with (1 + (e - 1)) by lia. rewrite Z.pow_add_r, Z.pow_1_r by lia. lia.
    + rewrite pprod_cons, IH by lia. cbn [fst snd]. rewrite Z.sub_diag, Z.pow_0_r. replace e with (1 + (e - 1)) at 1 by lia.
      rewrite Z.pow_add_r, Z.pow_1_r by lia. lia.
Qed.
Lemma runs_pos l : forall e, 1 <= e -> Forall (fun p => 1 <= snd p) (runs l e).
Proof.
  induction l as [|x l IH]; intros e He; [constructor|]. destruct l as [|y l]; [rewrite runs1; repeat constructor; assumption|rewrite runs2].
  destruct (x =? y); [apply IH; lia|]. constructor; [assumption|apply IH; lia].
Qed.
Lemma runs_in l : forall e p, In p (runs l e) -> In (fst p) l.
Proof.
  induction l as [|x l IH]; intros e p; [intros []|]. destruct l as [|y l].
  - intros [<-|[]]. now left.
  - rewrite runs2. destruct (x =? y); [intros H; right; eauto|]. intros [<-|H]; [now left|right; eauto].
Qed.
Lemma runs_nil l e : runs l e = [] -> l = [].
Proof.
  revert e. induction l as [|x l IH]; intros e; [reflexivity|]. destruct l as [|y l]; [discriminate|rewrite runs2].
  destruct (x =? y); [|discriminate]. intros H. apply IH in H. discriminate.
Qed.
Lemma sorted_head_le x l : Sorted Z.le (x :: l) -> forall y, In y l -> x <= y.
Proof. intros S y I. apply Sorted_StronglySorted in S; [|red; intros; lia]. inversion S as [|? ? _ F]; subst. rewrite Forall_forall in F. auto. Qed.
Lemma runs_nodup l : Sorted Z.le l -> forall e, NoDup (map fst (runs l e)).
Proof.
  induction l as [|x l IH]; intros S e; [constructor|]. pose proof (sorted_head_le x l S) as L. inversion S as [|? ? S' _]; subst.
  destruct l as [|y l]; [repeat constructor; intros []|rewrite runs2].
  destruct (Z.eqb_spec x y) as [->|N]; [now apply IH|]. cbn [map fst]. constructor; [|now apply IH].
  intros I. apply in_map_iff in I as (p & Ep & I). apply runs_in in I. rewrite Ep in I.
  pose proof (sorted_head_le y l S') as L'. pose proof (L y (or_introl eq_refl)). destruct I as [->|I]; [congruence|]. specialize (L' _ I). lia.
Qed.

(** ** exact double operations *)
Lemma dpow_inv b e x : dpow b e = Ok x -> x = b ^ e /\ 0 <= e.
Proof. unfold dpow. destruct (_ && _)%bool eqn:C; [|discriminate]. intros [= <-]. rewrite !andb_true_iff in C. split; [reflexivity|lia]. Qed.
Lemma div_pow_inv w x b e y : div_pow w x b e = Ok y -> x = y * b ^ e /\ b ^ e <> 0 /\ 0 <= e.
Proof.
  unfold div_pow. intros H. apply bind_ok in H as (p & Hp & H). apply dpow_inv in Hp as [-> He].
  destruct (_ && _)%bool eqn:C; [|discriminate]. apply chk_inv in H as [-> _]. rewrite !andb_true_iff, negb_true_iff in C.
  destruct C as [[_ C1] C2]. apply Z.eqb_neq in C1. apply Z.eqb_eq in C2. apply Z.mod_divide in C2; [|assumption]. destruct C2 as [q ->].
  rewrite Z.div_mul by assumption. auto.
Qed.
Lemma mul_pow_inv w x b e y : mul_pow w x b e = Ok y -> y = x * b ^ e.
Proof.
  unfold mul_pow. intros H. apply bind_ok in H as (p & Hp & H). apply dpow_inv in Hp as [-> He].
  destruct (_ && _)%bool eqn:C; [|discriminate]. now apply chk_inv in H as [-> _].
Qed.
Lemma of_int_inv w n r : rat_of_int w n = Ok r -> r = Rat n 1.
Proof.
  unfold rat_of_int, rat_normalize, adapter_abs. cbn [num den]. intros H.
  apply bind_ok in H as (a & Ha & H). apply chk_inv in Ha as [-> _]. apply bind_ok in H as (b & Hb & H). apply chk_inv in Hb as [-> _].
  apply bind_ok in H as (g & Hg & H). apply adapter_gcd_inv in Hg. change (Z.abs 1) with 1 in Hg. rewrite Z.gcd_1_r in Hg. subst g.
  apply bind_ok in H as (x & Hx & H). apply quot_w_inv in Hx as (_ & -> & _). apply bind_ok in H as (y & Hy & H). apply quot_w_inv in Hy as (_ & -> & _).
  rewrite !Z.quot_1_r in H. change (1 =? -1) with false in H. cbn iota in H. now injection H as <-.
Qed.
Lemma rat_eq_inv w a b e : rat_eq w a b = Ok e -> e = (num a * den b =? num b * den a).
Proof.
  unfold rat_eq. intros H. apply bind_ok in H as (x & Hx & H). apply chk_inv in Hx as [-> _].
  apply bind_ok in H as (y & Hy & H). apply chk_inv in Hy as [-> _]. now injection H as <-.
Qed.

(** ** the loops *)
Definition dv (i e : Z) : Z := e / i.
Lemma pull_vals_spec w i : 0 <= i -> forall vs r c r' c', pull_vals w i vs (r, c) = Ok (r', c') -> den c <> 0 ->
  r = r' * zprod vs ^ i /\ (qv c' == qv c * inject_Z (zprod vs))%Q /\ den c' <> 0.
Proof.
  intros Hi. induction vs as [|v vs IH]; intros r c r' c' H D; cbn [pull_vals] in H.
  - injection H as <- <-. cbn [zprod fold_right]. rewrite Z.pow_1_l by assumption. split; [lia|]. split; [ring|assumption].
  - apply bind_ok in H as (r1 & Hr & H). apply div_pow_inv in Hr as (-> & _ & _).
    apply bind_ok in H as (vr & Hv & H). apply of_int_inv in Hv as ->. apply bind_ok in H as (c1 & Hc & H).
    apply rat_mul_exact in Hc as (_ & _ & D1 & Q1). apply IH in H as (E & Q & D'); [|assumption].
    change (zprod (v :: vs)) with (v * zprod vs). rewrite Z.pow_mul_l. split; [rewrite E; ring|]. split; [|assumption].
    rewrite Q, Q1, inject_Z_mult. unfold qv at 2. cbn [num den]. field.
Qed.
Lemma pull_exp_spec w i vs : 1 <= i -> forall fuel e r c r' c', pull_exp w i fuel e vs (r, c) = Ok (r', c') -> den c <> 0 -> 0 <= e ->
  r = r' * (zprod vs ^ (e / i)) ^ i /\ (qv c' == qv c * inject_Z (zprod vs ^ (e / i)))%Q /\ den c' <> 0.
Proof.
  intros Hi. assert (B : forall e r c r' c', e < i -> Ok (r, c) = Ok (r', c') -> den c <> 0 -> 0 <= e ->
    r = r' * (zprod vs ^ (e / i)) ^ i /\ (qv c' == qv c * inject_Z (zprod vs ^ (e / i)))%Q /\ den c' <> 0).
  { intros e r c r' c' L [= <- <-] D He. rewrite Z.div_small, Z.pow_0_r, Z.pow_1_l by lia. split; [lia|]. split; [ring|assumption]. }
  induction fuel as [|f IH]; intros e r c r' c' H D He; cbn [pull_exp] in H; destruct (Z.ltb_spec e i); try (now apply B); try discriminate.
  apply bind_ok in H as ([r1 c1] & Hv & H). apply pull_vals_spec in Hv as (E1 & Q1 & D1); [|lia|assumption].
  apply IH in H as (E2 & Q2 & D2); [|assumption|lia].
  assert (X : e / i = 1 + (e - i) / i) by (replace e with (e - i + 1 * i) at 1 by lia; rewrite Z.div_add by lia; lia).
  assert (0 <= (e - i) / i) by (apply Z.div_pos; lia).
  rewrite X, Z.pow_add_r, Z.pow_1_r by lia. split; [rewrite E1, E2, Z.pow_mul_l; ring|]. split; [|assumption].
  rewrite Q2, Q1, inject_Z_mult. ring.
Qed.
Lemma pull_all_spec w i : 1 <= i -> forall m r c r' c', pull_all w i m (r, c) = Ok (r', c') -> den c <> 0 -> Forall (fun p => 0 <= fst p) m ->
  r = r' * pprod (dv i) (flat m) ^ i /\ (qv c' == qv c * inject_Z (pprod (dv i) (flat m)))%Q /\ den c' <> 0.
Proof.
  intros Hi. induction m as [|[e vs] m IH]; intros r c r' c' H D F; cbn [pull_all] in H.
  - injection H as <- <-. cbn [flat flat_map pprod fold_right]. rewrite Z.pow_1_l by lia. split; [lia|]. split; [ring|assumption].
  - inversion F as [|? ? He F']; subst. cbn [fst] in He. apply bind_ok in H as ([r1 c1] & Hv & H).
    apply pull_exp_spec in Hv as (E1 & Q1 & D1); [|assumption|assumption|assumption]. apply IH in H as (E2 & Q2 & D2); [|assumption|assumption].
    rewrite flat_cons, pprod_app, pprod_const by (apply Z.div_pos; lia); change (dv i e) with (e / i). split; [rewrite E1, E2, Z.pow_mul_l; ring|]. split; [|assumption].
    rewrite Q2, Q1, inject_Z_mult. ring.
Qed.
Lemma mul_vals_spec w e : 0 <= e -> forall vs r r', mul_vals w e vs r = Ok r' -> r' = r * zprod vs ^ e.
Proof.
  intros He. induction vs as [|v vs IH]; intros r r' H; cbn [mul_vals] in H.
  - injection H as <-. cbn [zprod fold_right]. rewrite Z.pow_1_l by assumption. lia.
  - apply bind_ok in H as (r1 & H1 & H). apply mul_pow_inv in H1 as ->. apply IH in H as ->.
    change (zprod (v :: vs)) with (v * zprod vs). rewrite Z.pow_mul_l. ring.
Qed.
Lemma mul_all_spec w g : 0 < g -> forall m r r', mul_all w g m r = Ok r' -> Forall (fun p => 0 <= fst p) m -> r' = r * pprod (dv g) (flat m).
Proof.
  intros Hg. induction m as [|[e vs] m IH]; intros r r' H F; cbn [mul_all] in H.
  - injection H as <-. cbn. lia.
  - inversion F as [|? ? He F']; subst. cbn [fst] in He. apply bind_ok in H as (r1 & H1 & H).
    apply mul_vals_spec in H1 as ->; [|apply Z.div_pos; lia]. apply IH in H as ->; [|assumption].
    rewrite flat_cons, pprod_app, pprod_const by (apply Z.div_pos; lia); change (dv g e) with (e / g). ring.
Qed.

(** ** what the factor map of n satisfies *)
Record factors_of (n : Z) (m : list (Z * list Z)) : Prop := {
  fo_prod : pprod (fun e => e) (flat m) = n;
  fo_exps : Forall (fun p => 1 <= snd p) (flat m);
  fo_vals : Forall (fun p => 1 < fst p) (flat m);
  fo_nodup : NoDup (map fst (flat m));
  fo_keys : Forall (fun p => 1 <= fst p) m;
  fo_vecs : Forall (fun p => snd p <> []) m }.
Lemma map_add_keys e x m : 1 <= e -> Forall (fun p : Z * list Z => 1 <= fst p) m -> Forall (fun p => 1 <= fst p) (map_add e x m).
Proof.
  intros He. induction 1 as [|[k vs] m H F IH]; cbn [map_add]; [repeat constructor; assumption|].
  destruct (e =? k); [constructor; assumption|]. destruct (e <? k); repeat constructor; assumption.
Qed.
Lemma map_add_vecs e x m : Forall (fun p : Z * list Z => snd p <> []) m -> Forall (fun p => snd p <> []) (map_add e x m).
Proof.
  induction 1 as [|[k vs] m H F IH]; cbn [map_add]; [repeat constructor; discriminate|].
  destruct (e =? k); [constructor; [cbn; now destruct vs|assumption]|]. destruct (e <? k); repeat constructor; try assumption. discriminate.
Qed.
Lemma decompose_keys l : forall e m, 1 <= e -> Forall (fun p : Z * list Z => 1 <= fst p) m -> Forall (fun p => 1 <= fst p) (decompose_loop l e m).
Proof.
  induction l as [|x l IH]; intros e m He F; [assumption|]. destruct l as [|y l]; [rewrite decompose1|rewrite decompose2]; [now apply map_add_keys|].
  destruct (x =? y); apply IH; try lia; try assumption. now apply map_add_keys.
Qed.
Lemma decompose_vecs l : forall e m, Forall (fun p : Z * list Z => snd p <> []) m -> Forall (fun p => snd p <> []) (decompose_loop l e m).
Proof.
  induction l as [|x l IH]; intros e m F; [assumption|]. destruct l as [|y l]; [rewrite decompose1|rewrite decompose2]; [now apply map_add_vecs|].
  destruct (x =? y); apply IH; try assumption. now apply map_add_vecs.
Qed.
Lemma factors_of_list l : Sorted Z.le l -> Forall (fun p => 1 < p) l -> factors_of (zprod l) (decompose_loop l 1 []).
Proof.
  intros S F. pose proof (flat_decompose l 1 []) as P. change (flat []) with (@nil (Z * Z)) in P. rewrite app_nil_r in P. split.
  - rewrite (pprod_perm _ _ _ P), runs_prod by lia. destruct l; [reflexivity|]. rewrite Z.sub_diag, Z.pow_0_r. lia.
  - eapply Permutation_Forall; [symmetry; exact P|]. apply runs_pos. lia.
  - eapply Permutation_Forall; [symmetry; exact P|]. apply Forall_forall. intros p I. apply runs_in in I. rewrite Forall_forall in F. auto.
  - eapply Permutation_NoDup; [apply Permutation_map; symmetry; exact P|]. now apply runs_nodup.
  - apply decompose_keys; [lia|constructor].
  - apply decompose_vecs. constructor.
Qed.
Lemma fac_spec E n l : 1 < ew E -> fac_sound E -> efac E n = Ok l -> 1 <= n <= 2 ^ (ew E - 2) ->
  zprod l = n /\ Sorted Z.le l /\ Forall (fun p => 1 < p) l.
Proof.
  intros Hw FS H Hn. destruct (FS n l H) as (i & rnd & fuel & k & k' & F). pose proof F as F'.
  apply factorize_sorted in F'; [|constructor]. apply factorize_spec in F as (fs & P & Z & A); [|assumption|assumption].
  rewrite app_nil_r in P. split; [|split; [assumption|]].
  - rewrite <- Z. now apply zprod_perm.
  - eapply Permutation_Forall; [symmetry; exact P|]. eapply Forall_impl; [|exact A]. cbn. tauto.
Qed.
Lemma decompose_inv E n m : 1 < ew E -> fac_sound E -> decompose E n = Ok m -> 1 <= n -> factors_of n m.
Proof.
  intros Hw FS H Hn. unfold decompose in H. destruct (Z.leb_spec n (2 ^ (ew E - 2))); [|discriminate].
  apply bind_ok in H as (l & Hl & H). injection H as <-. destruct (fac_spec E n l Hw FS Hl ltac:(lia)) as (<- & S & F). now apply factors_of_list.
Qed.
Lemma pprod_pos f ps : Forall (fun p => 1 < fst p) ps -> 0 < pprod f ps \/ exists p, In p ps /\ f (snd p) < 0.
Proof.
  induction 1 as [|p ps H F IH]; [left; cbn; lia|]. destruct IH as [IH|(q & I & L)]; [|right; exists q; split; [now right|assumption]].
  destruct (Z.lt_ge_cases (f (snd p)) 0); [right; exists p; split; [now left|assumption]|left].
  rewrite pprod_cons. assert (0 < fst p ^ f (snd p)) by (apply Z.pow_pos_nonneg; lia). nia.
Qed.
Lemma pprod_positive f ps : Forall (fun p => 1 < fst p) ps -> Forall (fun p => 1 <= snd p) ps -> (forall e, 1 <= e -> 0 <= f e) -> 0 < pprod f ps.
Proof.
  intros F G H. destruct (pprod_pos f ps F) as [|(p & I & L)]; [assumption|]. rewrite Forall_forall in G. specialize (H (snd p) (G p I)). lia.
Qed.
