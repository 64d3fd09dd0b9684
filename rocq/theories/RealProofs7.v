(** Denominator signs through the operations, the refusal of additions, independence of the undefined read. *)
From Coq Require Import ZArith Znumtheory QArith Qreals Reals String Lia Lra Bool List.
From Verif Require Import Base AdapterModel AdapterProofs FactorizeModel FactorizeProofs4 RationalModel RationalSpec RationalProofs RationalProofs2 RealModel RealSpec Valuation RealProofs1 RealProofs2 RealProofs3 RealProofs4 RealProofs5 RealProofs6.
Import ListNotations.
Open Scope Z_scope.

(** ** signs of denominators *)
Lemma pull_vals_den w i : forall vs r c r' c', pull_vals w i vs (r, c) = Ok (r', c') -> 0 < den c -> 0 < den c'.
Proof.
  induction vs as [|v vs IH]; intros r c r' c' H D; cbn [pull_vals] in H; [injection H as <- <-; assumption|].
  apply bind_ok in H as (r1 & _ & H). apply bind_ok in H as (vr & Hv & H). apply of_int_inv in Hv as ->. apply bind_ok in H as (c1 & Hc & H).
  apply IH in H; [assumption|]. apply (rat_mul_pos _ _ _ _ Hc). cbn [den]. lia.
Qed.
Lemma pull_exp_den w i vs : forall fuel e r c r' c', pull_exp w i fuel e vs (r, c) = Ok (r', c') -> 0 < den c -> 0 < den c'.
Proof.
  induction fuel as [|f IH]; intros e r c r' c' H D; cbn [pull_exp] in H; destruct (e <? i); try discriminate; try (injection H as <- <-; assumption).
  apply bind_ok in H as ([r1 c1] & H1 & H). apply pull_vals_den in H1; [|assumption]. now apply IH in H.
Qed.
Lemma pull_all_den w i : forall m r c r' c', pull_all w i m (r, c) = Ok (r', c') -> 0 < den c -> 0 < den c'.
Proof.
  induction m as [|[e vs] m IH]; intros r c r' c' H D; cbn [pull_all] in H; [injection H as <- <-; assumption|].
  apply bind_ok in H as ([r1 c1] & H1 & H). apply pull_exp_den in H1; [|assumption]. now apply IH in H.
Qed.
Lemma normalize_den E x x' : 0 < den (rad x) -> 0 < den (coe x) -> real_normalize E x = Ok x' -> 0 < den (coe x').
Proof.
  intros R D H. unfold real_normalize in H. apply bind_ok in H as ([c0 rd] & Hc & H).
  assert (D0 : 0 < den c0).
  { destruct (is_int (rad x)); [injection Hc as <- <-; assumption|]. apply bind_ok in Hc as (d & Hd & Hc). apply of_int_inv in Hd as ->. apply bind_ok in Hc as (c1 & Hc1 & Hc).
    unfold rat_div in Hc1. apply bind_ok in Hc1 as (iv & Hi & Hc1). apply inverse_pos in Hi as (_ & Pi & _); [|assumption|cbn; lia].
    apply bind_ok in Hc as (p & _ & Hc). apply bind_ok in Hc as (r & _ & Hc). injection Hc as <- <-. apply (rat_mul_pos _ _ _ _ Hc1). now apply Z.mul_pos_pos. }
  apply bind_ok in H as (m & _ & H). apply bind_ok in H as ([r c] & Hp & H). apply pull_all_den in Hp; [|assumption].
  apply bind_ok in H as ([rd' m'] & _ & H). cbv zeta in H. apply bind_ok in H as ([i rd2] & _ & H). apply bind_ok in H as (o & _ & H). apply bind_ok in H as (z & _ & H).
  destruct z; injection H as <-; assumption.
Qed.
Lemma lrun_den E e : 1 < ew E -> fac_sound E -> fac_exact E -> lwf (ew E) e -> lpositive e -> forall x, lrun E e = Ok x -> 0 < den (coe x).
Proof.
  intros Hw FS FE. induction e as [c r i|a IHa b IHb|a IHa b IHb|a IHa b IHb|a IHa b IHb|a IHa|a IHa|a IHa n]; cbn [lwf lrun lpositive]; intros W L z H; try contradiction.
  - apply normalize_den in H; [assumption|apply W|assumption].
  - destruct W as [Wa Wb]. destruct L as [La Lb]. two H x y Hx Hy. pose proof (lrun_value E a Hw FS FE Wa x Hx) as [[(_ & _ & Da & Ca) _] _]. pose proof (lrun_value E b Hw FS FE Wb y Hy) as [[(_ & _ & _ & Cb) _] _].
    unfold real_add in H. apply bind_ok in H as ([] & _ & H); [|discriminate]. apply bind_ok in H as (c & Hc & H). apply rat_add_pos in Hc; try assumption.
    apply normalize_den in H; assumption.
  - destruct W as [Wa Wb]. destruct L as [La Lb]. two H x y Hx Hy. pose proof (lrun_value E a Hw FS FE Wa x Hx) as [[(_ & _ & Da & Ca) _] _]. pose proof (lrun_value E b Hw FS FE Wb y Hy) as [Gb _].
    unfold real_sub in H. apply bind_ok in H as (nb & Hn & H). apply real_negate_value in Hn as ([(_ & _ & _ & Cn) _] & _ & _); try assumption; [|apply Gb].
    apply bind_ok in H as (s & Hs & H). unfold real_add in Hs. apply bind_ok in Hs as ([] & _ & Hs); [|discriminate]. apply bind_ok in Hs as (c & Hc & Hs). apply rat_add_pos in Hc; try assumption.
    pose proof Hs as Hs2. apply normalize_den in Hs; try assumption. apply normalize_value in Hs2 as [(_ & _ & Ds & _) _]; try assumption.
    { apply normalize_den in H; assumption. } { destruct (lrun_value E a Hw FS FE Wa x Hx) as [[(? & ? & _) _] _]. repeat split; cbn [idx rad coe]; try assumption; try lia. }
  - destruct W as [Wa Wb]. destruct L as [La Lb]. two H x y Hx Hy. pose proof (lrun_value E a Hw FS FE Wa x Hx) as [[(_ & Na & Da & Ca) _] _]. pose proof (lrun_value E b Hw FS FE Wb y Hy) as [[(_ & Nb & Db & Cb) _] _].
    unfold real_mul in H. apply bind_ok in H as (l & _ & H). apply bind_ok in H as (qa & _ & H). apply bind_ok in H as (ea & Hea & H). apply of_index_inv in Hea as ->. apply bind_ok in H as (pa & Hpa & H). apply bind_ok in H as (qb & _ & H).
    apply bind_ok in H as (eb & Heb & H). apply of_index_inv in Heb as ->. apply bind_ok in H as (pb & Hpb & H). apply bind_ok in H as (r & Hr & H). apply bind_ok in H as (c & Hc & H).
    apply rat_mul_pos in Hc. apply rat_mul_pos in Hr. apply rpow_inv in Hpa as (_ & _ & _ & Ppa & _); [|lia]. apply rpow_inv in Hpb as (_ & _ & _ & Ppb & _); [|lia].
    apply normalize_den in H; [assumption| |]; cbn [rad coe]; [apply Hr|apply Hc]; apply Z.mul_pos_pos; auto.
  - apply bind_ok in H as (x & Hx & H). pose proof (lrun_value E a Hw FS FE W x Hx) as [[(_ & _ & Da & Ca) _] _]. unfold real_negate in H. apply bind_ok in H as (c & Hc & H).
    apply rat_negate_pos in Hc; [|auto]. apply normalize_den in H; assumption.
Qed.
Lemma lpositive_normal e : lpositive e -> lnormal e.
Proof. induction e; cbn; try tauto. Qed.
Lemma canonical_sgn x : canonical x -> 0 < den (coe x) -> sgn_ok x.
Proof. intros (m & _ & _ & _ & _ & _ & _ & Z) D. split; assumption. Qed.
Lemma lrun_order E a b x y t : 1 < ew E -> fac_sound E -> fac_exact E -> lwf (ew E) a -> lwf (ew E) b -> lpositive a -> lpositive b ->
  lrun E a = Ok x -> lrun E b = Ok y -> idx x * idx y < 2 ^ ew E -> real_lt (ew E) x y = Ok t -> (t = true <-> (ldenotes a < ldenotes b)%R).
Proof.
  intros Hw FS FE Wa Wb Pa Pb Hx Hy B H. destruct (lrun_value E a Hw FS FE Wa x Hx) as [Gx <-]. destruct (lrun_value E b Hw FS FE Wb y Hy) as [Gy <-].
  apply (real_lt_value (ew E)); try assumption.
  - apply canonical_sgn; [apply (lrun_canonical E a); auto using lpositive_normal|apply (lrun_den E a); auto].
  - apply canonical_sgn; [apply (lrun_canonical E b); auto using lpositive_normal|apply (lrun_den E b); auto].
Qed.
Lemma real_gt_value w a b t : 1 < w -> good w a -> good w b -> canonical a -> canonical b -> 0 < den (coe a) -> 0 < den (coe b) -> idx a * idx b < 2 ^ w -> real_gt w a b = Ok t ->
  (t = true <-> (rv b < rv a)%R).
Proof.
  intros Hw Ga Gb Ca Cb Da Db B H. unfold real_gt in H. apply bind_ok in H as (l & Hl & H). apply real_lt_value in Hl; try assumption; [|now apply canonical_sgn|now apply canonical_sgn].
  destruct l.
  - injection H as <-. split; [discriminate|]. intros. assert (rv a < rv b)%R by now apply Hl. lra.
  - apply bind_ok in H as (e & He & H). apply real_eq_value in He; try assumption. injection H as <-. assert (~ (rv a < rv b)%R) by (intros L; apply Hl in L; discriminate).
    destruct e; cbn [negb]; split; try discriminate; try tauto; intros.
    + assert (rv a = rv b) by now apply He. lra.
    + destruct (Rtotal_order (rv a) (rv b)) as [T|[T|T]]; [contradiction|apply He in T; discriminate|lra].
Qed.

(** ** nothing but the announced error *)
Definition quiet {A} (x : res A) : Prop := forall m, x <> Throw m.
Lemma quiet_ok {A} (a : A) : quiet (Ok a). Proof. now intros m. Qed.
Lemma quiet_ub {A} u : quiet (@Ub A u). Proof. now intros m. Qed.
Lemma quiet_ou {A} (x : res A) : ok_or_ub x -> quiet x. Proof. intros [[a ->]|[u ->]] m; discriminate. Qed.
Lemma quiet_bind {A B} (x : res A) (f : A -> res B) : quiet x -> (forall a, x = Ok a -> quiet (f a)) -> quiet (bind x f).
Proof. intros Q F m. destruct x as [a|t|u|]; cbn [bind]; try discriminate; [now apply F|]. intros [= ->]. now apply (Q m). Qed.
Lemma quiet_eq w a b : quiet (rat_eq w a b).
Proof. unfold rat_eq. apply quiet_bind; [apply quiet_ou, ou_chk|]. intros. apply quiet_bind; [apply quiet_ou, ou_chk|]. intros. apply quiet_ok. Qed.
Lemma quiet_dpow b e : quiet (dpow b e). Proof. unfold dpow. destruct (_ && _)%bool; [apply quiet_ok|apply quiet_ub]. Qed.
Lemma quiet_of_int w n : quiet (rat_of_int w n). Proof. apply quiet_ou, normalize_outcome. Qed.
Lemma quiet_div_pow w x b e : quiet (div_pow w x b e).
Proof. unfold div_pow. apply quiet_bind; [apply quiet_dpow|]. intros p _. destruct (_ && _)%bool; [apply quiet_ou, ou_chk|apply quiet_ub]. Qed.
Lemma quiet_mul_pow w x b e : quiet (mul_pow w x b e).
Proof. unfold mul_pow. apply quiet_bind; [apply quiet_dpow|]. intros p _. destruct (_ && _)%bool; [apply quiet_ou, ou_chk|apply quiet_ub]. Qed.
Lemma quiet_pull_vals w i : forall vs r c, den c <> 0 -> quiet (pull_vals w i vs (r, c)) /\ (forall r' c', pull_vals w i vs (r, c) = Ok (r', c') -> den c' <> 0).
Proof.
  induction vs as [|v vs IH]; intros r c D; cbn [pull_vals]; [split; [apply quiet_ok|intros ? ? [= <- <-]; assumption]|]. split.
  - apply quiet_bind; [apply quiet_div_pow|]. intros r1 _. apply quiet_bind; [apply quiet_of_int|]. intros vr Hv. apply of_int_inv in Hv as ->.
    apply quiet_bind; [apply quiet_ou, mul_outcome; cbn; [assumption|lia]|]. intros c1 Hc. apply rat_mul_exact in Hc as (_ & _ & D1 & _). now apply IH.
  - intros r' c' H. apply bind_ok in H as (r1 & _ & H). apply bind_ok in H as (vr & Hv & H). apply bind_ok in H as (c1 & Hc & H). apply rat_mul_exact in Hc as (_ & _ & D1 & _).
    exact (proj2 (IH r1 c1 D1) _ _ H).
Qed.
Lemma quiet_pull_exp w i vs : forall fuel e r c, den c <> 0 -> quiet (pull_exp w i fuel e vs (r, c)) /\ (forall r' c', pull_exp w i fuel e vs (r, c) = Ok (r', c') -> den c' <> 0).
Proof.
  induction fuel as [|f IH]; intros e r c D; cbn [pull_exp]; destruct (e <? i); try (split; [apply quiet_ok|intros ? ? [= <- <-]; assumption]).
  - split; [now intros m|discriminate].
  - destruct (quiet_pull_vals w i vs r c D) as [Q1 Q2]. split.
    + apply quiet_bind; [exact Q1|]. intros [r1 c1] H. apply IH. apply (Q2 _ _ H).
    + intros r' c' H. apply bind_ok in H as ([r1 c1] & H1 & H). exact (proj2 (IH _ _ _ (Q2 _ _ H1)) _ _ H).
Qed.
Lemma quiet_pull_all w i : forall m r c, den c <> 0 -> quiet (pull_all w i m (r, c)).
Proof.
  induction m as [|[e vs] m IH]; intros r c D; cbn [pull_all]; [apply quiet_ok|]. destruct (quiet_pull_exp w i vs (Z.to_nat e) e r c D) as [Q1 Q2].
  apply quiet_bind; [exact Q1|]. intros [r1 c1] H. apply IH. apply (Q2 _ _ H).
Qed.
Lemma quiet_mul_vals w e : forall vs r, quiet (mul_vals w e vs r).
Proof. induction vs as [|v vs IH]; intros r; cbn [mul_vals]; [apply quiet_ok|]. apply quiet_bind; [apply quiet_mul_pow|]. intros. apply IH. Qed.
Lemma quiet_mul_all w g : forall m r, quiet (mul_all w g m r).
Proof. induction m as [|[e vs] m IH]; intros r; cbn [mul_all]; [apply quiet_ok|]. apply quiet_bind; [apply quiet_mul_vals|]. intros. apply IH. Qed.
Lemma quiet_decompose E n : fac_quiet E -> quiet (decompose E n).
Proof. intros Q. unfold decompose. destruct (n <=? _); [|apply quiet_ub]. apply quiet_bind; [intros m; apply Q|]. intros. apply quiet_ok. Qed.
Lemma quiet_normalize E x : fac_quiet E -> 0 < den (rad x) -> den (coe x) <> 0 -> quiet (real_normalize E x).
Proof.
  intros Q R D. unfold real_normalize. cbv zeta. apply quiet_bind.
  - destruct (is_int (rad x)); [apply quiet_ok|]. apply quiet_bind; [apply quiet_of_int|]. intros d Hd. apply of_int_inv in Hd as ->.
    apply quiet_bind.
    { destruct (div_outcome (ew E) (coe x) (Rat (den (rad x)) 1) D) as [[N _]|[_ O]]; [cbn; lia|cbn in N; lia|now apply quiet_ou]. }
    intros c _. apply quiet_bind. { unfold pow_rat. apply quiet_bind; [apply quiet_dpow|]. intros y _. apply quiet_bind; [apply quiet_ou, ou_chk|]. intros. apply quiet_of_int. }
    intros p Hp. apply quiet_bind; [|intros; apply quiet_ok]. apply quiet_ou, mul_outcome; [lia|]. unfold pow_rat in Hp. apply bind_ok in Hp as (y & _ & Hp). apply bind_ok in Hp as (z & _ & Hp).
    apply of_int_inv in Hp as ->. cbn. lia.
  - intros [c rd] Hc. assert (Dc : den c <> 0).
    { destruct (is_int (rad x)); [injection Hc as <- <-; assumption|]. apply bind_ok in Hc as (d & Hd & Hc). apply of_int_inv in Hd as ->. apply bind_ok in Hc as (c1 & Hc1 & Hc).
      apply rat_div_exact in Hc1 as (Dc1 & _); [|cbn; lia]. apply bind_ok in Hc as (p & _ & Hc). apply bind_ok in Hc as (r & _ & Hc). injection Hc as <- <-. assumption. }
    apply quiet_bind; [now apply quiet_decompose|]. intros m _. apply quiet_bind; [now apply quiet_pull_all|]. intros [r c'] _.
    apply quiet_bind. { destruct (r =? num rd); [apply quiet_ok|]. apply quiet_bind; [now apply quiet_decompose|]. intros. apply quiet_ok. }
    intros [rd' m'] _. apply quiet_bind.
    { destruct (_ =? 1); [apply quiet_ok|]. destruct (_ =? 0); [apply quiet_ub|]. apply quiet_bind; [apply quiet_mul_all|]. intros. apply quiet_bind; [apply quiet_of_int|]. intros. apply quiet_ok. }
    intros [i rd2] _. apply quiet_bind; [apply quiet_eq|]. intros o _. apply quiet_bind; [apply quiet_eq|]. intros z _. destruct z; apply quiet_ok.
Qed.

Lemma unit_canonical x m : canonical x -> rad x = Rat m 1 -> canonical (Real (idx x) (Rat m 1) (Rat 1 1)).
Proof.
  intros (m' & E & M & I & _ & A & B & _) E2. rewrite E in E2. injection E2 as ->. exists m. cbn [rad idx coe num den]. repeat split; try assumption; lia.
Qed.
Lemma rv_unit i m : rv (Real i (Rat m 1) (Rat 1 1)) = radical (Real i (Rat m 1) (Rat 1 1)).
Proof. rewrite rv_radical. cbn [coe]. rewrite rat1_R. ring. Qed.
Lemma same_radical x y : canonical x -> canonical y -> radical x = radical y -> idx x = idx y /\ rad x = rad y.
Proof.
  intros Cx Cy E. pose proof Cx as (m & Em & _). pose proof Cy as (n & En & _).
  destruct (canonical_unique (Real (idx x) (Rat m 1) (Rat 1 1)) (Real (idx y) (Rat n 1) (Rat 1 1))) as (A & B & _); [now apply unit_canonical|now apply unit_canonical| |].
  - rewrite !rv_unit. unfold radical in *. cbn [rad idx]. rewrite Em, En in E. exact E.
  - cbn [idx rad] in *. rewrite Em, En. auto.
Qed.
Lemma equivalent_canonical w a b t : canonical a -> canonical b -> is_equivalent w a b = Ok t -> (t = true <-> radical a = radical b).
Proof.
  intros Ca Cb H. pose proof Ca as (m & Em & Hm & Ia & _). pose proof Cb as (n & En & Hn & Ib & _).
  unfold is_equivalent in H. rewrite Em, En in H.
  apply bind_ok in H as (s & Hs & H). apply rat_eq_inv in Hs. apply bind_ok in H as (o & Ho & H). apply rat_eq_inv in Ho.
  cbn [num den] in *. rewrite !Z.mul_1_r in Hs. rewrite Z.mul_1_r in Ho. change (1 * 1) with 1 in Ho. subst s o.
  assert (T1 : idx a = 1 -> m = 1) by (now apply (canonical_trivial a)). assert (T2 : idx b = 1 -> n = 1) by (now apply (canonical_trivial b)).
  assert (O1 : m = 1 -> radical a = 1%R) by (intros ->; apply radical_one; rewrite Em; cbn; lia). assert (O2 : n = 1 -> radical b = 1%R) by (intros ->; apply radical_one; rewrite En; cbn; lia).
  assert (SR : radical a = radical b -> idx a = idx b /\ m = n) by (intros X; apply same_radical in X as [X Y]; try assumption; rewrite Em, En in Y; injection Y; auto).
  destruct ((m =? n) && (m =? 1))%bool eqn:A.
  - injection H as <-. apply andb_true_iff in A as [A1 A2]. apply Z.eqb_eq in A1, A2. split; [intros _|auto]. rewrite O1, O2 by lia. reflexivity.
  - destruct ((idx a =? idx b) && (idx a =? 1))%bool eqn:B.
    + injection H as <-. apply andb_true_iff in B as [B1 B2]. apply Z.eqb_eq in B1, B2. split; [intros _|auto]. rewrite O1, O2; [reflexivity|apply T2; lia|apply T1; lia].
    + injection H as <-. rewrite andb_true_iff, !Z.eqb_eq. split; [|intros X; apply SR in X; tauto]. intros [M I]. unfold radical. rewrite Em, En, M, I. reflexivity.
Qed.
Lemma add_throws E a b m : fac_quiet E -> canonical a -> canonical b -> real_add E a b = Throw m -> m = radicands_differ /\ radical a <> radical b.
Proof.
  intros Q Ca Cb H. pose proof Ca as (m1 & E1 & _ & _ & D1 & _). pose proof Cb as (m2 & E2 & _ & _ & D2 & _). unfold real_add in H.
  destruct (is_equivalent (ew E) a b) as [t|u|u|] eqn:Ht; cbn [bind] in H; try discriminate.
  - apply equivalent_canonical in Ht; try assumption. destruct t.
    + exfalso. revert H. apply (quiet_bind (rat_add (ew E) (coe a) (coe b))); [apply quiet_ou, add_outcome|]. intros c Hc. apply rat_add_exact in Hc as [Dc _]; try assumption.
      apply quiet_normalize; cbn [rad coe]; [assumption|rewrite E1; cbn; lia|assumption].
    + injection H as <-. split; [reflexivity|]. intros X. apply Ht in X. discriminate.
  - exfalso. revert Ht. unfold is_equivalent. apply (quiet_bind (rat_eq _ _ _)); [apply quiet_eq|]. intros. apply quiet_bind; [apply quiet_eq|]. intros.
    destruct (_ && _)%bool; [apply quiet_ok|]. destruct (_ && _)%bool; apply quiet_ok.
Qed.
Lemma add_refuses E a b : canonical a -> canonical b -> radical a <> radical b -> real_add E a b = Throw radicands_differ \/ exists u, real_add E a b = Ub u.
Proof.
  intros Ca Cb N. unfold real_add. destruct (is_equivalent (ew E) a b) as [t|u|u|] eqn:Ht; cbn [bind].
  - apply equivalent_canonical in Ht; try assumption. destruct t; [exfalso; apply N, Ht; reflexivity|now left].
  - exfalso. revert Ht. unfold is_equivalent. apply (quiet_bind (rat_eq _ _ _)); [apply quiet_eq|]. intros. apply quiet_bind; [apply quiet_eq|]. intros.
    destruct (_ && _)%bool; [apply quiet_ok|]. destruct (_ && _)%bool; apply quiet_ok.
  - eauto.
  - exfalso. unfold is_equivalent, rat_eq, chk in Ht. repeat match type of Ht with context [if ?b then _ else _] => destruct b; cbn [bind] in Ht end; discriminate.
Qed.

(** ** the value read through the iterator of an empty map never matters *)
Lemma chk1 w : 1 < w -> chk w 1 = Ok 1.
Proof. intros. apply chk_ok. assert (2 ^ 1 <= 2 ^ (w - 1)) by (apply Z.pow_le_mono_r; lia). lia. Qed.
Lemma swrap_nz w g : 1 < w -> 1 <= g < 2 ^ w -> swrap w g <> 0.
Proof. intros Hw H. unfold swrap. rewrite Z.mod_small by lia. destruct (g <? _); lia. Qed.
Lemma rat_of_int1 w : 1 < w -> rat_of_int w 1 = Ok (Rat 1 1).
Proof. intros. apply of_int_ok; [assumption|]. cbn [Z.abs]. assert (2 ^ 1 <= 2 ^ (w - 1)) by (apply Z.pow_le_mono_r; lia). lia. Qed.
Lemma normalize_junk E j x : 1 < ew E -> fac_sound E -> wf (ew E) x -> real_normalize (with_junk E j) x = real_normalize E x.
Proof.
  intros Hw FS W. unfold real_normalize. cbn [with_junk ew ejunk]. cbv zeta.
  destruct (if is_int (rad x) then _ else _) as [[c rd]| | |] eqn:Hc; cbn [bind]; try reflexivity. apply clear_den in Hc as (-> & Q0 & D0); [|assumption].
  destruct W as (Hi & Hn & Hd & Hcd). set (n := num (rad x) * den (rad x) ^ (idx x - 1)) in *. cbn [num den].
  assert (Pn : 1 <= n) by (assert (0 < den (rad x) ^ (idx x - 1)) by (apply Z.pow_pos_nonneg; lia); unfold n; nia).
  change (decompose (with_junk E j) n) with (decompose E n).
  destruct (decompose E n) as [m0| | |] eqn:Hm0; cbn [bind]; try reflexivity. pose proof (decompose_bound _ _ _ Hm0) as B0. pose proof Hm0 as Dm0. apply decompose_inv in Hm0; try assumption.
  destruct (pull_all (ew E) (idx x) m0 (n, c)) as [[r c']| | |] eqn:Hp; cbn [bind]; try reflexivity. assert (KF : Forall (fun p : Z * list Z => 0 <= fst p) m0).
  { eapply Forall_impl; [|exact (fo_keys _ _ Hm0)]. cbn; intros; lia. }
  apply pull_all_spec in Hp as (En & Qc & Dc); try assumption; [|lia].
  set (K := pprod (dv (idx x)) (flat m0)) in *.
  assert (PK : 0 < K). { apply pprod_positive; [apply (fo_vals _ _ Hm0)|apply (fo_exps _ _ Hm0)|]. intros e He. apply Z.div_pos; lia. }
  assert (PKi : 0 < K ^ idx x) by (apply Z.pow_pos_nonneg; lia). assert (Pr : 1 <= r) by nia. assert (Br : r <= 2 ^ (ew E - 2)) by nia.
  change (decompose (with_junk E j) r) with (decompose E r).
  destruct (if r =? n then _ else _) as [[rd m]| | |] eqn:Hm; cbn [bind]; try reflexivity.
  assert (M : factors_of r m /\ rd = Rat r 1).
  { destruct (Z.eqb_spec r n) as [En'|Nn].
    - injection Hm as <- <-. rewrite En'. auto.
    - apply bind_ok in Hm as (m' & Hm' & Hm). injection Hm as <- <-. split; [now apply decompose_inv in Hm'|auto]. }
  destruct M as [Hm1 ->]. destruct m as [|[e0 vs0] m']; [|reflexivity].
  assert (Er : r = 1) by (now apply (factors_nil r [] Hm1)). subst r. cbn [fold_left mul_all num den].
  assert (G : forall k, 1 <= Z.gcd (idx x) k < 2 ^ ew E).
  { intros k. pose proof (Z.gcd_nonneg (idx x) k). assert (Z.gcd (idx x) k <> 0) by (intros X; apply Z.gcd_eq_0_l in X; lia).
    assert (Z.gcd (idx x) k <= idx x) by (apply Z.divide_pos_le; [lia|apply Z.gcd_divide_l]). lia. }
  assert (S : forall k (f : Z * rat -> res real), (forall i i', f (i, Rat 1 1) = f (i', Rat 1 1)) ->
     bind (if swrap (ew E) (Z.gcd (idx x) k) =? 1 then Ok (idx x, Rat 1 1) else if swrap (ew E) (Z.gcd (idx x) k) =? 0 then Ub "/ 0" else
           r <- Ok 1 ;; rd <- rat_of_int (ew E) r ;; Ok (idx x / swrap (ew E) (Z.gcd (idx x) k), rd)) f = f (1, Rat 1 1)).
  { intros k f F. destruct (_ =? 1); cbn [bind]; [apply F|]. destruct (Z.eqb_spec (swrap (ew E) (Z.gcd (idx x) k)) 0) as [Z0|_]; [exfalso; revert Z0; now apply swrap_nz|].
    rewrite rat_of_int1 by assumption. cbn [bind]. apply F. }
  rewrite !S; [reflexivity| |]; intros i i'; unfold rat_eq; cbn [num den]; rewrite !chk1 by assumption; reflexivity.
Qed.

(** ** index 0 *)
Lemma pull_exp0 w vs : forall fuel e st st', 0 <= e -> pull_exp w 0 fuel e vs st <> Ok st'.
Proof.
  induction fuel as [|f IH]; intros e st st' He; cbn [pull_exp]; (destruct (Z.ltb_spec e 0); [lia|]); [discriminate|].
  destruct (pull_vals w 0 vs st) as [st1| | |]; cbn [bind]; try discriminate. rewrite Z.sub_0_r. now apply IH.
Qed.
Lemma index_zero E c n x : 1 < ew E -> fac_sound E -> 2 <= n -> real_make E c (Rat n 1) 0 <> Ok x.
Proof.
  intros Hw FS Hn H. unfold real_make, real_normalize in H. cbn [rad idx coe is_int den num Z.eqb Pos.eqb] in H. unfold is_int in H. cbn [den Z.eqb Pos.eqb bind num] in H.
  apply bind_ok in H as (m & Hm & H). apply decompose_inv in Hm; [|assumption|assumption|lia]. apply bind_ok in H as (st & Hp & _).
  destruct m as [|[e vs] m]; [assert (n = 1) by (now apply (factors_nil n [] Hm)); lia|]. pose proof (key_bound n _ e vs Hm (or_introl eq_refl)).
  cbn [pull_all] in Hp. apply bind_ok in Hp as (st1 & Hp & _). revert Hp. apply pull_exp0. lia.
Qed.
