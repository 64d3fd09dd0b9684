(** Like terms after normalisation; insertion sort as an instance of std::sort. *)
From Coq Require Import ZArith Znumtheory QArith Qreals Reals String Ascii Lia Lra Bool List Permutation Sorted.
From Verif Require Import Base AdapterModel AdapterProofs RationalModel RationalSpec RationalProofs RationalProofs2 RealModel RealSpec RealProofs1 RealProofs2 RealProofs3 RealProofs4 RealProofs5 RealProofs6 RealProofs7 RealProofs8 PolyModel PolySpec PolyProofs1 PolyProofs2 PolyProofs3 PolyProofs4.
Import ListNotations.
Open Scope Z_scope.

(** ** orders *)
Definition total {A} (D : A -> Prop) (c : A -> A -> comparison) : Prop :=
  (forall x, D x -> c x x = Eq) /\ (forall x y, D x -> D y -> c x y = Eq -> x = y) /\ (forall x y, c y x = CompOpp (c x y)) /\
  (forall x y z, D x -> D y -> D z -> c x y = Lt -> c y z = Lt -> c x z = Lt).
Lemma string_total : total (fun _ => True) String.compare.
Proof.
  repeat split.
  - intros x _. pose proof (String.compare_antisym x x) as H. now destruct (String.compare x x).
  - intros x y _ _. apply String.compare_eq_iff.
  - intros x y. apply String.compare_antisym.
  - intros x y z _ _ _. revert y z. induction x as [|a x IH]; intros [|b y] [|c z]; cbn [String.compare]; try discriminate; [reflexivity|]. unfold Ascii.compare.
    destruct (N.compare_spec (N_of_ascii a) (N_of_ascii b)) as [E|L|G]; try discriminate; destruct (N.compare_spec (N_of_ascii b) (N_of_ascii c)) as [E2|L2|G2]; try discriminate; intros H1 H2.
    + rewrite E, E2, N.compare_refl. eapply IH; eauto.
    + rewrite E. now rewrite (proj2 (N.compare_lt_iff _ _) L2).
    + rewrite <- E2. now rewrite (proj2 (N.compare_lt_iff _ _) L).
    + now rewrite (proj2 (N.compare_lt_iff _ _) (N.lt_trans _ _ _ L L2)).
Qed.
Lemma qok_eq a b : qok a -> qok b -> num a * den b = num b * den a -> a = b.
Proof.
  intros [D1 L1] [D2 L2] He. unfold lowest_terms in *. destruct a as [n d], b as [n' d']. cbn [num den] in *.
  assert (d = d').
  { apply Z.divide_antisym_nonneg; try lia.
    - apply Z.gauss with n; [exists n'; lia|]. now rewrite Z.gcd_comm.
    - apply Z.gauss with n'; [exists n; lia|]. now rewrite Z.gcd_comm. }
  subst d'. f_equal. nia.
Qed.
Lemma qcmp_total : total qok qcmp.
Proof.
  unfold qcmp. repeat split.
  - intros x _. apply Z.compare_refl.
  - intros x y X Y H. apply Z.compare_eq in H. now apply qok_eq.
  - intros x y. apply Z.compare_antisym.
  - intros [a b] [c d] [e f] [X _] [Y _] [Z _] H1 H2. cbn [num den] in *. rewrite Z.compare_lt_iff in *. nia.
Qed.
Lemma syms_total : total (Forall (fun p => qok (snd p))) syms_cmp.
Proof.
  destruct string_total as (S1 & S2 & S3 & S4). destruct qcmp_total as (Q1 & Q2 & Q3 & Q4). repeat split.
  - intros x X. induction X as [|[k v] x Hv X IH]; [reflexivity|]. cbn [syms_cmp]. rewrite S1, Q1 by trivial. exact IH.
  - intros x y X. revert y. induction X as [|[k v] x Hv X IH]; intros [|[k' v'] y] Y H; cbn [syms_cmp] in H; try discriminate; [reflexivity|]. inversion Y; subst. cbn [snd] in *. destruct (String.compare k k') eqn:E1; try discriminate. apply S2 in E1; trivial. destruct (qcmp v v') eqn:E2; try discriminate. apply Q2 in E2; trivial. subst. f_equal. auto.
  - intros x. induction x as [|[k v] x IH]; intros [|[k' v'] y]; cbn [syms_cmp]; try reflexivity. rewrite (S3 k k'), (Q3 v v'). destruct (String.compare k k'); cbn [CompOpp]; try reflexivity. destruct (qcmp v v'); cbn [CompOpp]; try reflexivity. apply IH.
  - intros x y z X. revert y z. induction X as [|[k v] x Hv X IH]; intros [|[k1 v1] y] [|[k2 v2] z] Y Z H1 H2; cbn [syms_cmp] in *; try discriminate; [reflexivity|]. inversion Y; subst. inversion Z; subst. cbn [snd] in *.
    destruct (String.compare k k1) eqn:E1; try discriminate; destruct (String.compare k1 k2) eqn:E2; try discriminate.
    + apply S2 in E1, E2; trivial. subst. rewrite S1 by trivial. destruct (qcmp v v1) eqn:F1; try discriminate; destruct (qcmp v1 v2) eqn:F2; try discriminate.
      * apply Q2 in F1, F2; trivial. subst. rewrite Q1 by trivial. now apply (IH y z).
      * apply Q2 in F1; trivial. subst. now rewrite F2.
      * apply Q2 in F2; trivial. subst. now rewrite F1.
      * now rewrite (Q4 v v1 v2) by trivial.
    + apply S2 in E1; trivial. subst. now rewrite E2.
    + apply S2 in E2; trivial. subst. now rewrite E1.
    + now rewrite (S4 k k1 k2) by trivial.
Qed.
Definition tok (w : Z) (t : term) : Prop := twf w t /\ canonical (tco t).
Lemma tok_syms w t : tok w t -> Forall (fun p => qok (snd p)) (syms t). Proof. now intros [[_ [_ Q]] _]. Qed.
Lemma rad_qok x : canonical x -> qok (rad x).
Proof. intros (m & -> & M & _). split; [cbn; lia|]. unfold lowest_terms. cbn. apply Z.gcd_1_r. Qed.
Lemma key_eq w a b : tok w a -> tok w b -> (key_cmp a b = Eq <-> syms a = syms b /\ idx (tco a) = idx (tco b) /\ rad (tco a) = rad (tco b)).
Proof.
  intros A B. destruct syms_total as (S1 & S2 & _). destruct qcmp_total as (Q1 & Q2 & _). unfold key_cmp. split.
  - destruct (syms_cmp (syms a) (syms b)) eqn:E; try discriminate. apply S2 in E; [|now apply (tok_syms w)|now apply (tok_syms w)]. destruct (Z.compare_spec (idx (tco a)) (idx (tco b))) as [I|I|I]; try discriminate. intros H. apply Q2 in H; [auto|apply rad_qok, A|apply rad_qok, B].
  - intros (-> & -> & ->). rewrite S1 by now apply (tok_syms w). rewrite Z.compare_refl. apply Q1. apply rad_qok, B.
Qed.
Lemma key_opp a b : key_cmp b a = CompOpp (key_cmp a b).
Proof.
  destruct syms_total as (_ & _ & S3 & _). destruct qcmp_total as (_ & _ & Q3 & _). unfold key_cmp. rewrite (S3 (syms a) (syms b)). destruct (syms_cmp (syms a) (syms b)); cbn [CompOpp]; try reflexivity. rewrite (Z.compare_antisym (idx (tco a)) (idx (tco b))). destruct (idx (tco a) ?= idx (tco b)); cbn [CompOpp]; try reflexivity. apply Q3.
Qed.
Lemma key_trans w a b c : tok w a -> tok w b -> tok w c -> key_cmp a b <> Lt -> key_cmp b c <> Lt -> key_cmp a c <> Lt /\ (key_cmp a c = Eq -> key_cmp a b = Eq).
Proof.
  intros A B C. destruct syms_total as (S1 & S2 & S3 & S4). destruct qcmp_total as (Q1 & Q2 & Q3 & Q4).
  assert (LT : forall x y z, tok w x -> tok w y -> tok w z -> key_cmp x y = Lt -> key_cmp y z = Lt -> key_cmp x z = Lt).
  { clear - S1 S2 S4 Q2 Q4. intros x y z X Y Z. unfold key_cmp. pose proof (tok_syms w x X) as Qx. pose proof (tok_syms w y Y) as Qy. pose proof (tok_syms w z Z) as Qz.
    destruct (syms_cmp (syms x) (syms y)) eqn:E1; try discriminate; destruct (syms_cmp (syms y) (syms z)) eqn:E2; try discriminate.
    - apply S2 in E1, E2; trivial. rewrite E1, E2, S1 by trivial. destruct (Z.compare_spec (idx (tco x)) (idx (tco y))) as [I|I|I]; try discriminate; destruct (Z.compare_spec (idx (tco y)) (idx (tco z))) as [J|J|J]; try discriminate; intros H1 H2.
      + rewrite I, J, Z.compare_refl. apply (Q4 _ (rad (tco y))); trivial; apply rad_qok; [apply X|apply Y|apply Z].
      + rewrite I. now rewrite (proj2 (Z.compare_lt_iff _ _) J).
      + rewrite <- J. now rewrite (proj2 (Z.compare_lt_iff _ _) I).
      + now rewrite (proj2 (Z.compare_lt_iff _ _) (Z.lt_trans _ _ _ I J)).
    - apply S2 in E1; trivial. now rewrite E1, E2.
    - apply S2 in E2; trivial. now rewrite <- E2, E1.
    - now rewrite (S4 _ (syms y) _) by trivial. }
  assert (EQ : forall x y z, tok w x -> tok w y -> tok w z -> key_cmp x y = Eq -> key_cmp x z = key_cmp y z).
  { clear. intros x y z X Y Z E. apply (key_eq w) in E as (E1 & E2 & E3); try assumption. unfold key_cmp. now rewrite E1, E2, E3. }
  intros H1 H2. destruct (key_cmp a b) eqn:E1; [|congruence|].
  - rewrite (EQ a b c) by assumption. auto.
  - destruct (key_cmp b c) eqn:E2; [|congruence|].
    + assert (E3 : key_cmp c b = Eq) by (rewrite key_opp, E2; reflexivity). rewrite key_opp. rewrite (EQ c b a) by assumption. rewrite <- key_opp, E1. split; congruence.
    + assert (E3 : key_cmp c a = Lt). { apply (LT c b a); try assumption; rewrite key_opp; [now rewrite E2|now rewrite E1]. } rewrite key_opp, E3. cbn. split; congruence.
Qed.

(** ** the comparator *)
Lemma smap_cmp_inv w a : forall b c, smap_cmp w a b = Ok c -> c = syms_cmp a b.
Proof.
  induction a as [|[k v] a IH]; intros [|[k' v'] b] c H; cbn [smap_cmp syms_cmp] in *; try (injection H as <-; reflexivity). destruct (String.compare k k'); try (injection H as <-; reflexivity).
  apply bind_ok in H as (d & Hd & H). unfold rat_cmp in Hd. apply bind_ok in Hd as (x & Hx & Hd). apply bind_ok in Hd as (y & Hy & Hd). apply chk_inv in Hx as [-> _]. apply chk_inv in Hy as [-> _]. injection Hd as <-. unfold qcmp. destruct (num v * den v' ?= num v' * den v); try (injection H as <-; reflexivity). now apply IH.
Qed.
Lemma smap_eq_false w a b : smap_eq w a b = Ok false -> a <> b.
Proof.
  intros H ->. unfold smap_eq in H. rewrite Nat.eqb_refl in H. induction b as [|[k v] b IH]; cbn [entries_eq] in H; [discriminate|]. rewrite String.eqb_refl in H. apply bind_ok in H as (e & He & H). apply rat_eq_inv in He. rewrite Z.eqb_refl in He. subst e. auto.
Qed.
Lemma before_key w a b t : tok w a -> tok w b -> term_before w a b = Ok t -> if t then key_cmp a b <> Lt else key_cmp a b <> Gt.
Proof.
  intros A B H. destruct syms_total as (S1 & S2 & _). unfold term_before in H. apply bind_ok in H as (e & He & H). unfold key_cmp. destruct e; cbn [negb] in H.
  - apply (smap_eq_value w _ _ (fun _ => 0%R)) in He as [E _]; [|now apply (tok_syms w)|now apply (tok_syms w)]. rewrite E, S1 by now apply (tok_syms w). destruct (Z.eqb_spec (idx (tco a)) (idx (tco b))) as [I|I]; cbn [negb] in H.
    + rewrite I, Z.compare_refl. apply bind_ok in H as (r & Hr & H). apply rat_ne_inv in Hr. unfold qcmp. destruct (Z.eqb_spec (num (rad (tco a)) * den (rad (tco b))) (num (rad (tco b)) * den (rad (tco a)))) as [Q|Q]; cbn [negb] in Hr; subst r.
      * rewrite Q, Z.compare_refl. destruct t; discriminate.
      * unfold rat_gt, rat_cmp in H. apply bind_ok in H as (c & Hc & H). apply bind_ok in Hc as (x & Hx & Hc). apply bind_ok in Hc as (y & Hy & Hc). apply chk_inv in Hx as [-> _]. apply chk_inv in Hy as [-> _]. injection Hc as <-. injection H as <-. destruct (num (rad (tco a)) * den (rad (tco b)) ?= num (rad (tco b)) * den (rad (tco a))); discriminate.
    + injection H as <-. destruct (Z.compare_spec (idx (tco a)) (idx (tco b))) as [J|J|J]; [contradiction| |]; destruct (Z.ltb_spec (idx (tco b)) (idx (tco a))); try lia; discriminate.
  - apply smap_eq_false in He. apply bind_ok in H as (c & Hc & H). apply smap_cmp_inv in Hc as ->. injection H as <-. destruct (syms_cmp (syms a) (syms b)) eqn:E; try discriminate. apply S2 in E; [contradiction|now apply (tok_syms w)|now apply (tok_syms w)].
Qed.
Lemma insert_term_perm w t l : forall l', insert_term w t l = Ok l' -> Permutation (t :: l) l'.
Proof.
  induction l as [|u l IH]; intros l' H; cbn [insert_term] in H; [injection H as <-; reflexivity|]. apply bind_ok in H as (b & _ & H). destruct b; [|injection H as <-; reflexivity]. apply bind_ok in H as (r & Hr & H). injection H as <-. rewrite perm_swap. now apply perm_skip, IH.
Qed.
Lemma isort_perm w l : forall l', isort w l = Ok l' -> Permutation l l'.
Proof.
  induction l as [|t l IH]; intros l' H; cbn [isort] in H; [injection H as <-; reflexivity|]. apply bind_ok in H as (s & Hs & H). apply insert_term_perm in H. rewrite <- H. now apply perm_skip, IH.
Qed.
Lemma insert_sorted w t l : tok w t -> Forall (tok w) l -> StronglySorted (fun a b => key_cmp a b <> Lt) l -> forall l', insert_term w t l = Ok l' -> StronglySorted (fun a b => key_cmp a b <> Lt) l'.
Proof.
  intros T F S. induction S as [|u l S IH U]; intros l' H; cbn [insert_term] in H; [injection H as <-; repeat constructor|]. inversion F as [|? ? Fu Fl]; subst. apply bind_ok in H as (b & Hb & H). apply before_key in Hb; try assumption. destruct b.
  - apply bind_ok in H as (r & Hr & H). injection H as <-. constructor; [now apply IH|]. apply insert_term_perm in Hr. eapply Forall_perm; [exact Hr|]. now constructor.
  - injection H as <-. assert (K : key_cmp t u <> Lt) by (rewrite key_opp; destruct (key_cmp u t); cbn; congruence). constructor; [now constructor|]. constructor; [assumption|]. rewrite Forall_forall in *. intros x I. apply (key_trans w t u x); auto.
Qed.
Lemma isort_sorted w l : Forall (tok w) l -> forall l', isort w l = Ok l' -> StronglySorted (fun a b => key_cmp a b <> Lt) l'.
Proof.
  induction 1 as [|t l T F IH]; intros l' H; cbn [isort] in H; [injection H as <-; constructor|]. apply bind_ok in H as (s & Hs & H). pose proof (isort_perm _ _ _ Hs) as P. apply (insert_sorted w t s); auto. eapply Forall_perm; eauto.
Qed.
Lemma isort_machine E : okenv E -> machine (PEnv E (isort (ew E))) /\ sort_orders (PEnv E (isort (ew E))).
Proof.
  intros (A & B & C). split; [repeat split; try assumption; intros l l' H; now apply (isort_perm (ew E))|]. intros l l' F H. now apply (isort_sorted (ew E) l).
Qed.

(** ** merging *)
Definition tzero (t : term) : Prop := num (coe (tco t)) = 0.
Definition mok (w : Z) (t : term) : Prop := tok w t /\ no_zero_exponent (syms t).
Lemma drop_zero_id w m : no_zero_exponent m -> forall m', drop_zero w m = Ok m' -> m' = m.
Proof.
  induction 1 as [|[k v] m N F IH]; intros m' H; cbn [drop_zero] in H; [now injection H as <-|]. apply bind_ok in H as (z & Hz & H). apply bind_ok in H as (r & Hr & H). injection H as <-. apply rat_eq_inv in Hz. cbn [num den snd] in *. rewrite Z.mul_1_r, Z.mul_0_l in Hz. rewrite (proj2 (Z.eqb_neq _ _) N) in Hz. subst z. f_equal. auto.
Qed.
Lemma canonical_coe x c : canonical x -> den c <> 0 -> num c <> 0 -> canonical (Real (idx x) (rad x) c).
Proof. intros (m & E & M & I & _ & A & B & _) D N. exists m. cbn [rad idx coe]. repeat split; try assumption. contradiction. Qed.
Lemma canonical_zero x : canonical x -> num (coe x) = 0 -> idx x = 1 /\ rad x = Rat 1 1.
Proof.
  intros (m & E & M & I & _ & A & B & Z) N. specialize (Z N). split; [assumption|]. rewrite E. f_equal. destruct (Z.eq_dec m 1); [assumption|]. exfalso. destruct (Valuation.prime_divisor_exists m) as (p & P & D); [lia|]. apply (A p P). now rewrite Z, Z.pow_1_r.
Qed.
Lemma canonical_one x : canonical x -> idx x = 1 -> rad x = Rat 1 1.
Proof.
  intros (m & E & M & I & _ & A & B & _) N. rewrite E. f_equal. destruct (Z.eq_dec m 1); [assumption|]. exfalso. destruct (Valuation.prime_divisor_exists m) as (p & P & D); [lia|]. apply (A p P). now rewrite N, Z.pow_1_r.
Qed.
Lemma equivalent_keys w a b t : canonical a -> canonical b -> is_equivalent w a b = Ok t -> (t = true <-> idx a = idx b /\ rad a = rad b).
Proof.
  intros A B H. apply equivalent_canonical in H; try assumption. rewrite H. split; [now apply same_radical|]. intros [E1 E2]. unfold radical. now rewrite E1, E2.
Qed.
Lemma add_keys E a b x : okenv E -> good (ew E) a -> good (ew E) b -> canonical a -> canonical b -> idx a = idx b -> rad a = rad b -> real_add E a b = Ok x -> canonical x /\ good (ew E) x /\ (num (coe x) = 0 \/ (idx x = idx b /\ rad x = rad b)).
Proof.
  intros (Hw & FS & FE) Ga Gb Ca Cb EI ER H. pose proof H as H2. apply real_add_value in H as (G & C & V); try assumption. split; [assumption|]. split; [assumption|]. destruct (Z.eq_dec (num (coe x)) 0) as [|N]; [now left|]. right.
  unfold real_add in H2. apply bind_ok in H2 as (e & _ & H2). destruct e; [|discriminate]. apply bind_ok in H2 as (c & Hc & H2). apply rat_add_exact in Hc as [Dc Vc]; [|apply Ga|apply Gb].
  assert (Nc : num c <> 0).
  { intros Z. apply N. assert (R0 : rv x = 0%R).
    { apply canonical_good in H2 as (_ & _ & V2); try assumption; [|destruct Ga as [(W1 & W2 & W3 & W4) _]; now repeat split]. rewrite V2, rv_radical. cbn [coe]. rewrite qv_R by assumption. rewrite Z. unfold Rdiv. ring. }
    rewrite rv_radical in R0. apply Rmult_integral in R0 as [R0|R0]; [|pose proof (radical_pos x); lra]. destruct G as [(_ & _ & _ & Dx) _]. rewrite qv_R in R0 by assumption. apply IZR_nz in Dx. apply eq_IZR. unfold Rdiv in R0. apply Rmult_integral in R0 as [R0|R0]; [assumption|]. exfalso. now apply Rinv_neq_0_compat in Dx. }
  pose proof (canonical_coe b c Cb Dc Nc) as Cc. apply canonical_good in H2 as (_ & _ & V2); try assumption; [|destruct Ga as [(W1 & W2 & W3 & W4) _]; now repeat split]. rewrite EI, ER in V2. destruct (canonical_unique x (Real (idx b) (rad b) c) C Cc V2) as (X & Y & _). auto.
Qed.
Lemma merge_step E a b t : okenv E -> mok (ew E) a -> mok (ew E) b -> term_equivalent (ew E) a b = Ok true -> (c <- real_add E (tco a) (tco b) ;; term_make (ew E) c (syms a)) = Ok t ->
  mok (ew E) t /\ syms a = syms b /\ key_cmp a b = Eq /\ syms t = syms b /\ (tzero t \/ key_cmp t b = Eq) /\ (idx (tco b) = 1 -> key_cmp t b = Eq).
Proof.
  intros O [Ta Na] [Tb Nb] He H. pose proof Ta as [[Ga Sa] Ca]. pose proof Tb as [[Gb Sb] Cb]. unfold term_equivalent in He. apply bind_ok in He as (q & Hq & He). destruct q; [|discriminate]. apply (smap_eq_value _ _ _ (fun _ => 0%R)) in Hq as [Es _]; [|apply Sa|apply Sb].
  apply equivalent_keys in He; try assumption. destruct (proj1 He eq_refl) as [EI ER]. apply bind_ok in H as (c & Hc & H). apply add_keys in Hc as (Cc & Gc & K); try assumption. unfold term_make, term_normalize in H. cbn [syms tco] in H. apply bind_ok in H as (m & Hm & H). apply drop_zero_id in Hm; [|assumption]. subst m. injection H as <-.
  assert (Tt : tok (ew E) (Term c (syms a))) by (split; [split; assumption|assumption]). split; [split; [assumption|exact Na]|]. split; [assumption|]. split; [now apply (key_eq (ew E))|]. split; [assumption|]. split.
  - destruct K as [K|[K1 K2]]; [now left|right]. now apply (key_eq (ew E)).
  - intros I. apply (key_eq (ew E)); try assumption. cbn [syms tco]. split; [assumption|]. destruct K as [K|K]; [|exact K]. destruct (canonical_zero c Cc K) as [-> ->]. rewrite I. split; [reflexivity|]. symmetry. now apply canonical_one.
Qed.
Lemma merge_from_step E a b l r : merge_from E a (b :: l) = Ok r -> exists e, term_equivalent (ew E) a b = Ok e /\
  (if e then exists t, (c <- real_add E (tco a) (tco b) ;; term_make (ew E) c (syms a)) = Ok t /\ merge_from E t l = Ok r else exists r', merge_from E b l = Ok r' /\ r = a :: r').
Proof.
  cbn [merge_from]. intros H. apply bind_ok in H as (e & He & H). exists e. split; [assumption|]. destruct e.
  - apply bind_ok in H as (c & Hc & H). apply bind_ok in H as (t & Ht & H). exists t. rewrite Hc. auto.
  - apply bind_ok in H as (r' & Hr & H). injection H as <-. eauto.
Qed.
Lemma differ E a b : okenv E -> mok (ew E) a -> mok (ew E) b -> term_equivalent (ew E) a b = Ok false -> key_cmp a b <> Eq.
Proof.
  intros O [Ta _] [Tb _] He K. apply (key_eq (ew E)) in K as (K1 & K2 & K3); try assumption. unfold term_equivalent in He. apply bind_ok in He as (q & Hq & He). destruct q.
  - apply equivalent_keys in He; [|apply Ta|apply Tb]. assert (false = true) by (apply He; auto). discriminate.
  - now apply smap_eq_false in Hq.
Qed.
Lemma merge_like E : okenv E -> forall l a l', mok (ew E) a -> Forall (mok (ew E)) l -> StronglySorted (fun a b => key_cmp a b <> Lt) l -> (tzero a \/ Forall (fun b => key_cmp a b <> Lt) l) -> merge_from E a l = Ok l' ->
  Forall (mok (ew E)) l' /\ ForallOrdPairs (fun x y => key_cmp x y = Eq -> tzero x \/ tzero y) l' /\
  Forall (fun x => tzero x \/ (exists y, In y l /\ key_cmp x y = Eq) \/ (~ tzero a /\ key_cmp x a = Eq)) l'.
Proof.
  intros O. induction l as [|b l IH]; intros a l' Ma Ml S G H.
  - injection H as <-. split; [now constructor|]. split; [repeat constructor|]. constructor; [|constructor]. destruct (Z.eq_dec (num (coe (tco a))) 0) as [Z|Z]; [now left|]. right. right. split; [assumption|]. apply (key_eq (ew E)); [apply Ma|apply Ma|auto].
  - inversion Ml as [|? ? Mb Ml']; subst. inversion S as [|? ? S' Sb]; subst. apply merge_from_step in H as (e & He & H). destruct e.
    + destruct H as (t & Ht & H). apply merge_step in Ht as (Mt & Es & Kab & Et & Kt & _); try assumption. apply IH in H as (X & Y & W); try assumption.
      * split; [assumption|]. split; [assumption|]. eapply Forall_impl; [|exact (Forall_and X W)]. cbn beta. intros x [Mx [Z|[(y & I & K)|(N & K)]]]; [now left| |].
        -- right. left. exists y. split; [now right|assumption].
        -- right. left. exists b. split; [now left|]. destruct Kt as [Kt|Kt]; [contradiction|]. apply (key_eq (ew E)) in K; [|apply Mx|apply Mt]. apply (key_eq (ew E)) in Kt; [|apply Mt|apply Mb]. apply (key_eq (ew E)); [apply Mx|apply Mb|]. destruct K as (-> & -> & ->). exact Kt.
      * destruct Kt as [Kt|Kt]; [now left|right]. rewrite Forall_forall in *. intros y I. apply (key_trans (ew E) t b y); [apply Mt|apply Mb|now apply Ml'|rewrite Kt; discriminate|now apply Sb].
    + destruct H as (r & Hr & ->). pose proof (differ _ _ _ O Ma Mb He) as K. apply IH in Hr as (X & Y & W); try assumption; [|right; assumption].
      assert (K2 : forall x, In x r -> tzero x \/ (exists y, In y (b :: l) /\ key_cmp x y = Eq)).
      { rewrite Forall_forall in W. intros x I. destruct (W x I) as [Z|[(y & J & Ky)|(_ & Kx)]]; [now left|right; exists y; split; [now right|assumption]|right; exists b; split; [now left|assumption]]. }
      split; [now constructor|]. split.
      * constructor; [|assumption]. rewrite Forall_forall. intros x I Kx. destruct G as [G|G]; [now left|]. destruct (K2 x I) as [Z|(y & J & Ky)]; [now right|]. exfalso. apply K. rewrite Forall_forall in X. pose proof (X x I) as Mx.
        assert (My : mok (ew E) y) by (rewrite Forall_forall in Ml; now apply Ml). assert (Kay : key_cmp a y = Eq).
        { apply (key_eq (ew E)) in Kx; [|apply Ma|apply Mx]. apply (key_eq (ew E)) in Ky; [|apply Mx|apply My]. apply (key_eq (ew E)); [apply Ma|apply My|]. destruct Kx as (-> & -> & ->). exact Ky. }
        destruct J as [->|J]; [assumption|]. inversion G as [|? ? G1 G2]; subst. rewrite Forall_forall in Sb. apply (key_trans (ew E) a b y); [apply Ma|apply Mb|apply My|assumption|now apply Sb|assumption].
      * constructor; [|].
        -- destruct (Z.eq_dec (num (coe (tco a))) 0) as [Z|Z]; [now left|]. right. right. split; [assumption|]. apply (key_eq (ew E)); [apply Ma|apply Ma|auto].
        -- rewrite Forall_forall. intros x I. destruct (K2 x I) as [Z|Z]; auto.
Qed.
(** rational coefficients *)
Lemma merge_rational E : okenv E -> forall l a l', mok (ew E) a -> Forall (mok (ew E)) l -> idx (tco a) = 1 -> Forall (fun t => idx (tco t) = 1) l -> StronglySorted (fun a b => key_cmp a b <> Lt) l -> Forall (fun b => key_cmp a b <> Lt) l -> merge_from E a l = Ok l' ->
  Forall (mok (ew E)) l' /\ ForallOrdPairs (fun x y => syms x <> syms y) l' /\ Forall (fun x => idx (tco x) = 1 /\ exists y, In y (a :: l) /\ key_cmp x y = Eq) l'.
Proof.
  intros O. assert (RE : forall a, mok (ew E) a -> key_cmp a a = Eq) by (intros a Ma; apply (key_eq (ew E)); [apply Ma|apply Ma|auto]).
  induction l as [|b l IH]; intros a l' Ma Ml Ia Il S G H.
  - injection H as <-. split; [now constructor|]. split; [repeat constructor|]. constructor; [|constructor]. split; [assumption|]. exists a. split; [now left|auto].
  - inversion Ml as [|? ? Mb Ml']; subst. inversion S as [|? ? S' Sb]; subst. inversion G as [|? ? G1 G2]; subst. inversion Il as [|? ? I1 I2]; subst. apply merge_from_step in H as (e & He & H). destruct e.
    + destruct H as (t & Ht & H). apply merge_step in Ht as (Mt & Es & Kab & Et & _ & Kt); try assumption. specialize (Kt I1). pose proof Kt as Kt2. apply (key_eq (ew E)) in Kt2 as (_ & It & _); [|apply Mt|apply Mb]. apply IH in H as (X & Y & W); try assumption; [|congruence|].
      * split; [assumption|]. split; [assumption|]. eapply Forall_impl; [|exact (Forall_and X W)]. cbn beta. intros x [Mx [Ix (y & [<-|J] & K)]]; (split; [assumption|]); [exists b; split; [right; now left|]|exists y; split; [right; now right|assumption]].
        apply (key_eq (ew E)) in K; [|apply Mx|apply Mt]. apply (key_eq (ew E)) in Kt; [|apply Mt|apply Mb]. apply (key_eq (ew E)); [apply Mx|apply Mb|]. destruct K as (-> & -> & ->). exact Kt.
      * rewrite Forall_forall in *. intros y J. apply (key_trans (ew E) t b y); [apply Mt|apply Mb|now apply Ml'|rewrite Kt; discriminate|now apply Sb].
    + destruct H as (r & Hr & ->). pose proof (differ _ _ _ O Ma Mb He) as K. apply IH in Hr as (X & Y & W); try assumption. split; [now constructor|]. split.
      * constructor; [|assumption]. rewrite Forall_forall in *. intros x J Ex. destruct (W x J) as [Ix (y & Jy & Ky)]. pose proof (X x J) as Mx. assert (My : mok (ew E) y) by now apply Ml. apply K. assert (Kay : key_cmp a y = Eq).
        { apply (key_eq (ew E)) in Ky as (Ky1 & Ky2 & Ky3); [|apply Mx|apply My]. apply (key_eq (ew E)); [apply Ma|apply My|]. split; [congruence|]. split; [congruence|]. rewrite <- Ky3. rewrite (canonical_one (tco a)), (canonical_one (tco x)); try assumption; [reflexivity|apply Mx|apply Ma]. }
        destruct Jy as [->|Jy]; [assumption|]. apply (key_trans (ew E) a b y); [apply Ma|apply Mb|apply My|assumption|now apply Sb|assumption].
      * constructor; [split; [assumption|exists a; split; [now left|auto]]|]. eapply Forall_impl; [|exact W]. cbn beta. intros x [Ix (y & J & Ky)]. split; [assumption|]. exists y. split; [now right|assumption].
Qed.
Lemma normalize_like P l l' : machine P -> sort_orders P -> Forall (mok (ew (pe P))) l -> poly_normalize P l = Ok l' -> ForallOrdPairs (fun a b => like a b -> rv (tco a) = 0%R \/ rv (tco b) = 0%R) l'.
Proof.
  intros M SO F H. pose proof (machine_env _ M) as O. unfold poly_normalize in H. apply bind_ok in H as (m & Hm & H). assert (Fm : Forall (mok (ew (pe P))) m) by (destruct M as (_ & _ & _ & SP); eapply Forall_perm; [apply SP; exact Hm|assumption]).
  apply SO in Hm; [|eapply Forall_impl; [|exact F]; now intros t [T _]]. destruct m as [|a m]; cbn [merge_terms] in H; [injection H as <-; constructor|]. inversion Fm; subst. inversion Hm; subst. apply merge_like in H as (X & Y & _); try assumption; [|now right].
  assert (TZ : forall t, mok (ew (pe P)) t -> tzero t -> rv (tco t) = 0%R). { intros t [[[Gt _] _] _] Z. rewrite rv_radical. destruct Gt as [(_ & _ & _ & D) _]. rewrite qv_R by assumption. unfold tzero in Z. rewrite Z. unfold Rdiv. ring. }
  clear -X Y TZ. induction Y as [|x r A Y IH]; [constructor|]. inversion X as [|? ? Mx Mr]; subst. constructor; [|now apply IH]. rewrite Forall_forall in *. intros y I [L1 L2]. pose proof (Mr y I) as My. destruct (A y I) as [Z|Z]; [|left; auto|right; auto]. apply same_radical in L2; [|apply Mx|apply My]. apply (key_eq (ew (pe P))); [apply Mx|apply My|tauto].
Qed.
Lemma normalize_rational P l l' : machine P -> sort_orders P -> Forall (mok (ew (pe P))) l -> Forall (fun t => idx (tco t) = 1) l -> poly_normalize P l = Ok l' -> ForallOrdPairs (fun a b => syms a <> syms b) l' /\ Forall (fun t => idx (tco t) = 1) l'.
Proof.
  intros M SO F R H. pose proof (machine_env _ M) as O. unfold poly_normalize in H. apply bind_ok in H as (m & Hm & H). assert (PM : Permutation l m) by (destruct M as (_ & _ & _ & SP); now apply SP). assert (Fm : Forall (mok (ew (pe P))) m) by (eapply Forall_perm; eauto). assert (Rm : Forall (fun t => idx (tco t) = 1) m) by (eapply Forall_perm; eauto).
  apply SO in Hm; [|eapply Forall_impl; [|exact F]; now intros t [T _]]. destruct m as [|a m]; cbn [merge_terms] in H; [injection H as <-; split; constructor|]. inversion Fm; subst. inversion Hm; subst. inversion Rm; subst. apply merge_rational in H as (X & Y & W); try assumption. split; [assumption|]. eapply Forall_impl; [|exact W]. now intros t [I _].
Qed.

(** ** exponents *)
Lemma sfind_some_in k q m : NoDup (map fst m) -> In (k, q) m -> sfind k m = Some q.
Proof.
  induction m as [|[k' v] m IH]; intros N I; [contradiction|]. cbn [sfind]. cbn [map fst] in N. inversion N as [|? ? X Y]; subst. destruct I as [E|I]; [injection E as -> ->; now rewrite String.eqb_refl|]. destruct (String.eqb_spec k k') as [<-|]; [|auto]. exfalso. apply X. change k with (fst (k, q)). now apply in_map.
Qed.
Lemma exponent_cons k p m : exponent k (p :: m) = (if String.eqb k (fst p) then qv (snd p) else exponent k m).
Proof. destruct p as [k' v]. unfold exponent. cbn [sfind fst snd]. now destruct (String.eqb k k'). Qed.
Lemma exponent_perm k a b : Permutation a b -> NoDup (map fst a) -> exponent k a = exponent k b.
Proof.
  intros P N. assert (N2 : NoDup (map fst b)) by (eapply Permutation_NoDup; [apply Permutation_map; exact P|assumption]). unfold exponent. destruct (sfind k a) as [q|] eqn:E.
  - apply sfind_in in E. eapply Permutation_in in E; [|exact P]. now rewrite (sfind_some_in k q b).
  - apply sfind_none in E. assert (F : sfind k b = None) by (apply sfind_none; intros I; apply E; eapply Permutation_in; [apply Permutation_map, Permutation_sym; exact P|assumption]). now rewrite F.
Qed.
Lemma exponent_update k k' v m : In k' (map fst m) -> exponent k (supdate k' v m) = if String.eqb k k' then qv v else exponent k m.
Proof.
  induction m as [|[a b] m IH]; intros I; [contradiction|]. cbn [supdate]. destruct (String.eqb_spec k' a) as [<-|D].
  - rewrite !exponent_cons. cbn [fst snd]. now destruct (String.eqb k k').
  - destruct I as [E|I]; [cbn in E; congruence|]. rewrite !exponent_cons. cbn [fst snd]. destruct (String.eqb_spec k a) as [->|]; [|now apply IH]. destruct (String.eqb_spec a k'); [congruence|reflexivity].
Qed.
Lemma exponent_absent k m : ~ In k (map fst m) -> exponent k m = 0%Q.
Proof. intros H. apply sfind_none in H. unfold exponent. now rewrite H. Qed.
Lemma merge_exponents w b : forall a m, merge_syms w b a = Ok m -> swf a -> swf b -> forall k, (exponent k m == exponent k a + exponent k b)%Q.
Proof.
  induction b as [|[k' q] b IH]; intros a m H Wa Wb k; cbn [merge_syms] in H; [injection H as <-; unfold exponent at 3; cbn; now rewrite Qplus_0_r|]. destruct Wb as [Nb Qb]. cbn [map fst] in Nb. inversion Nb as [|? ? N1 N2]; subst. inversion Qb as [|? ? Q1 Q2]; subst. cbn [snd] in Q1. rewrite exponent_cons. cbn [fst snd].
  destruct (sfind k' a) as [q0|] eqn:F.
  - apply bind_ok in H as (q1 & Hq & H). pose proof (sfind_in _ _ _ F) as I. assert (Q0 : qok q0) by (destruct Wa as [_ Qa]; rewrite Forall_forall in Qa; exact (Qa _ I)). pose proof (qok_add _ _ _ _ Q0 Q1 Hq) as Q3. apply rat_add_exact in Hq as [_ V]; [|destruct Q0; lia|destruct Q1; lia].
    rewrite (IH _ _ H); [|split; [rewrite supdate_keys; apply Wa|apply supdate_forall; [apply Wa|assumption]]|now split]. rewrite exponent_update by (apply in_map_iff; exists (k', q0); auto). destruct (String.eqb_spec k k') as [->|D]; [|reflexivity]. rewrite V. rewrite (exponent_absent k' b N1). unfold exponent. rewrite F. ring.
  - apply sfind_none in F. rewrite (IH _ _ H); [| |now split].
    + rewrite (exponent_perm k _ _ (insert_perm k' q a)).
      * rewrite exponent_cons. cbn [fst snd]. destruct (String.eqb_spec k k') as [->|D]; [|reflexivity]. rewrite (exponent_absent k' b N1), (exponent_absent k' a F). ring.
      * eapply Permutation_NoDup; [apply Permutation_map, Permutation_sym, insert_perm|]. cbn [map fst]. constructor; [assumption|apply Wa].
    + eapply swf_perm; [symmetry; apply insert_perm|]. destruct Wa as [Na Qa]. split; [cbn [map fst]; now constructor|now constructor].
Qed.
Lemma drop_zero_exponents w m m' : drop_zero w m = Ok m' -> swf m -> forall k, (exponent k m' == exponent k m)%Q.
Proof.
  intros H [N Q] k. destruct (drop_zero_spec w (fun _ => 0%R) m m' H Q) as (I & ND & _). specialize (ND N). unfold exponent. destruct (sfind k m) as [q|] eqn:F.
  - apply sfind_in in F. destruct (Z.eq_dec (num q) 0) as [Z|Z].
    + assert (F2 : sfind k m' = None). { apply sfind_none. intros J. apply in_map_iff in J as ([k2 q2] & E & J). cbn in E. subst k2. apply I in J as [J NZ]. assert (q2 = q) by (apply sfind_some_in in J; [|assumption]; apply sfind_some_in in F; [|assumption]; congruence). subst. contradiction. }
      rewrite F2. unfold qv. rewrite Z. unfold Qdiv. symmetry. apply Qmult_0_l.
    + rewrite (sfind_some_in k q m'); [reflexivity|assumption|]. apply I. auto.
  - apply sfind_none in F. assert (F2 : sfind k m' = None). { apply sfind_none. intros J. apply F. apply in_map_iff in J as (p & <- & J). apply I in J as [J _]. now apply in_map. } now rewrite F2.
Qed.
Lemma mul_exponents E a b t : okenv E -> twf (ew E) a -> twf (ew E) b -> term_mul E a b = Ok t -> forall k, (exponent k (syms t) == exponent k (syms a) + exponent k (syms b))%Q.
Proof.
  intros O [Ga Wa] [Gb Wb] H k. unfold term_mul in H. apply bind_ok in H as (m & Hm & H). apply bind_ok in H as (c & _ & H). unfold term_normalize in H. cbn [syms tco] in H. apply bind_ok in H as (m' & Hm' & H). injection H as <-. cbn [syms].
  assert (Wm : swf m). { apply (merge_syms_spec (ew E) (fun _ => 1%R)) in Hm as (W & _); try assumption; apply sadm_pos; intros; lra. }
  rewrite (drop_zero_exponents _ _ _ Hm' Wm). now apply (merge_exponents (ew E)).
Qed.
Lemma scale_exponents w q m : forall m', scale_syms w q m = Ok m' -> forall k, (exponent k m' == exponent k m * qv q)%Q.
Proof.
  induction m as [|[k' v] m IH]; intros m' H k; cbn [scale_syms] in H; [injection H as <-; unfold exponent; cbn; now rewrite Qmult_0_l|]. apply bind_ok in H as (v' & Hv & H). apply bind_ok in H as (r & Hr & H). injection H as <-. rewrite !exponent_cons. cbn [fst snd]. destruct (String.eqb k k'); [now apply rat_mul_exact in Hv as (_ & _ & _ & V)|now apply IH].
Qed.
Lemma pow_exponents E a q t : qok q -> twf (ew E) a -> term_pow E a q = Ok t -> forall k, (exponent k (syms t) == exponent k (syms a) * qv q)%Q.
Proof.
  intros Q [Ga Wa] H k. unfold term_pow in H. apply bind_ok in H as (c & _ & H). apply bind_ok in H as (m & Hm & H). unfold term_normalize in H. cbn [syms tco] in H. apply bind_ok in H as (m' & Hm' & H). injection H as <-. cbn [syms].
  assert (Wm : swf m) by (apply (scale_pos_spec (ew E) (fun _ => 1%R)) in Hm as (W & _); try assumption; intros; lra). rewrite (drop_zero_exponents _ _ _ Hm' Wm). now apply (scale_exponents (ew E)).
Qed.

(** ** several terms and a negative exponent *)
Lemma poly_pow_negative P a n r : poly_try_eval (pe P) a = Ok None -> (2 <= length a)%nat -> n < 0 -> psort P [] = Ok [] -> poly_pow P a (Rat n 1) = Ok r -> r = [].
Proof.
  intros T L N S H. unfold poly_pow in H. cbv zeta in H. apply bind_ok in H as (z & Hz & H). apply rat_eq_inv in Hz. cbn [num den] in Hz. rewrite (proj2 (Z.eqb_neq _ _)) in Hz by lia. subst z. apply bind_ok in H as (o & Ho & H). apply rat_eq_inv in Ho. cbn [num den] in Ho. rewrite (proj2 (Z.eqb_neq _ _)) in Ho by lia. subst o.
  destruct a as [|t [|u a]]; cbn [length] in L; try lia. set (l := t :: u :: a) in *. rewrite T in H. cbn [bind] in H. unfold is_int in H. cbn [den Z.eqb Pos.eqb] in H. apply bind_ok in H as (n' & Hn & H). unfold rat_to_t in Hn. apply quot_w_inv in Hn as (_ & -> & _). cbn [num den] in *. rewrite Z.quot_1_r in *.
  apply bind_ok in H as (vs & Hvs & H). replace (Z.of_nat (length l)) with (Z.of_nat (length a) + 2) in Hvs by (subst l; cbn [length]; lia). apply solve_sols in Hvs as [_ ->]. assert (E : sols (length a) n = []) by (destruct (length a); cbn [sols]; replace (Z.to_nat (n + 1)) with 0%nat by lia; reflexivity). rewrite E in H. cbn [mapr bind] in H. unfold poly_make, poly_normalize in H. rewrite S in H. cbn in H. now injection H as <-.
Qed.
