(** Proofs: the operations succeed on integer polynomials whose weight and degree are representable. *)
From Coq Require Import ZArith Znumtheory QArith Qreals Reals String Ascii Lia Lra Bool List Permutation Sorted.
From Verif Require Import Base AdapterModel AdapterProofs RationalModel RationalSpec RationalProofs RationalProofs2 RealModel RealSpec RealProofs1 RealProofs3 PolyModel PolySpec PolyProofs1 PolyProofs2 PolyProofs3 PolyProofs4 PolyProofs6 ExprModel ExprSpec ExprProofs1 ParserModel TextSpec TextProofs1 TextProofs2 PrintSpec RingSpec RingProofs1 RingProofs2 RingProofs3 RingProofs4 RingProofs5 RingProofs6.
Import ListNotations.
Open Scope Z_scope.

Definition tdeg (m : smap) : Z := fold_right (fun p r => num (snd p) + r) 0 m.
Lemma tdeg_cons p m : tdeg (p :: m) = num (snd p) + tdeg m. Proof. reflexivity. Qed.
Lemma tdeg_insert k v m : tdeg (sinsert k v m) = num v + tdeg m.
Proof. induction m as [|[k' v'] m IH]; [reflexivity|]. cbn [sinsert]. destruct (String.compare k k'); rewrite ?tdeg_cons, ?IH; cbn [snd]; rewrite ?tdeg_cons; cbn [snd]; lia. Qed.
Lemma tdeg_update k v q0 m : sfind k m = Some q0 -> tdeg (supdate k v m) = tdeg m - num q0 + num v.
Proof. induction m as [|[k' v'] m IH]; intros H; [discriminate|]. cbn [sfind supdate] in *. destruct (String.eqb k k'); rewrite ?tdeg_cons; cbn [snd]; [injection H as ->; lia|]. rewrite IH by assumption. lia. Qed.
Lemma tdeg_in m p : Forall (fun p => 0 <= num (snd p)) m -> In p m -> num (snd p) <= tdeg m.
Proof. intros F. assert (N : forall l, Forall (fun p : string * rat => 0 <= num (snd p)) l -> 0 <= tdeg l) by (induction 1; rewrite ?tdeg_cons; cbn; lia). induction F as [|x m X F IH]; intros []; rewrite tdeg_cons; [subst; specialize (N m F); lia|]. specialize (IH H). lia. Qed.
Lemma tdeg_pos m : Forall (fun p => 0 <= num (snd p)) m -> 0 <= tdeg m.
Proof. induction 1; rewrite ?tdeg_cons; [cbn; lia|lia]. Qed.
(** weight: the sum of the absolute values of the coefficients, each at least 1 *)
Definition wt1 (t : term) : Z := Z.max 1 (Z.abs (co t)).
Definition wt (l : poly) : Z := fold_right (fun t r => wt1 t + r) 0 l.
Lemma wt_cons t l : wt (t :: l) = wt1 t + wt l. Proof. reflexivity. Qed.
Lemma wt1_pos t : 1 <= wt1 t. Proof. unfold wt1. lia. Qed.
Lemma wt_pos l : 0 <= wt l. Proof. induction l as [|t l IH]; [cbn; lia|]. rewrite wt_cons. pose proof (wt1_pos t). lia. Qed.
Lemma wt_app a b : wt (a ++ b) = wt a + wt b. Proof. induction a as [|t a IH]; [reflexivity|]. cbn [app]. rewrite !wt_cons, IH. lia. Qed.
Lemma wt_in t l : In t l -> wt1 t <= wt l. Proof. induction l as [|u l IH]; intros []; rewrite wt_cons; [subst; pose proof (wt_pos l); lia|]. specialize (IH H). pose proof (wt1_pos u). lia. Qed.
Lemma wt_perm a b : Permutation a b -> wt a = wt b. Proof. induction 1; rewrite ?wt_cons; try congruence; lia. Qed.

Section K.
  Variable P : penv.
  Hypothesis HR : reads P.
  Local Notation E := (pe P).
  Local Notation w := (ew (pe P)).
  Local Notation B := (2 ^ (ew (pe P) - 1)).
  Local Notation iterm := (iterm P name_ok).
  Local Notation ipoly := (ipoly P name_ok).

  Lemma rat_add_ok a b : Z.abs a < B -> Z.abs b < B -> Z.abs (a + b) < B -> rat_add w (Rat a 1) (Rat b 1) = Ok (Rat (a + b) 1).
  Proof.
    intros A1 A2 A3. pose proof (w3 P HR). pose proof (w4 P HR). unfold rat_add, adapter_lcm, quot_w. cbn [num den Z.abs]. rewrite !chk_ok by (cbn; lia). cbn [bind]. change (Z.lcm 1 1) with 1. rewrite !chk_ok by (cbn; lia). cbn [bind Z.eqb]. change (Z.quot 1 1) with 1. rewrite !chk_ok by lia. cbn [bind]. rewrite !Z.mul_1_r. rewrite !chk_ok by lia. cbn [bind]. change (rat_normalize w (Rat (a + b) 1)) with (rat_of_int w (a + b)). apply of_int_ok; lia.
  Qed.
  Lemma equiv_ok a b : is_equivalent w (rint a) (rint b) = Ok true.
  Proof. pose proof (w4 P HR). unfold is_equivalent. cbn [rint rad idx]. rewrite (rat_eq_ok P) by lia. reflexivity. Qed.
  Lemma add_ok a b : Z.abs a < B -> Z.abs b < B -> Z.abs (a + b) < B -> real_add E (rint a) (rint b) = Ok (rint (a + b)).
  Proof. intros A1 A2 A3. unfold real_add. rewrite equiv_ok. cbn [bind rint coe idx rad]. rewrite rat_add_ok by assumption. cbn [bind]. exact (make_int P HR (a + b) A3). Qed.
  Lemma rpow_ok a n : 0 <= n < B -> n <= 2 ^ 53 -> Z.abs a < B -> Z.abs (a ^ n) < B -> Z.abs a <= 2 ^ 53 -> Z.abs (a ^ n) <= 2 ^ 53 -> rpow w (Rat a 1) (Rat n 1) = Ok (Rat (a ^ n) 1).
  Proof.
    intros N N53 A1 A2 A3 A4. pose proof (w3 P HR). pose proof (w4 P HR). unfold rpow, rat_pow. rewrite !(rat_eq_ok P) by lia. cbn [bind]. destruct (Z.eqb_spec n 0) as [->|N0]; [apply of_int_ok; [lia|cbn; lia]|]. destruct (Z.eqb_spec n 1) as [->|N1]; [now rewrite Z.pow_1_r|]. cbn [num den].
    assert (Q : forall b, Z.abs b <= 2 ^ 53 -> Z.abs (b ^ n) <= 2 ^ 53 -> Z.abs (b ^ n) < B -> pow_cast w b n 1 = Ok (b ^ n)).
    { intros b B1 B2 B3. unfold pow_cast. cbn [Z.eqb]. unfold fits53 at 1 2. rewrite Z.mod_1_r, Z.div_1_r. replace (Z.abs n <=? 2 ^ 53) with true by (symmetry; apply Z.leb_le; lia). change (Z.abs 1 <=? 2 ^ 53) with true. cbn [andb Z.eqb]. unfold dpow, fits53. replace (0 <=? n) with true by (symmetry; apply Z.leb_le; lia).
      replace (Z.abs b <=? 2 ^ 53) with true by (symmetry; apply Z.leb_le; lia). replace (Z.abs n <=? 2 ^ 53) with true by (symmetry; apply Z.leb_le; lia). replace (Z.abs (b ^ n) <=? 2 ^ 53) with true by (symmetry; apply Z.leb_le; lia). cbn [andb bind]. apply chk_ok. lia. }
    rewrite !Q by (rewrite ?Z.pow_1_l; try assumption; lia). cbn [bind]. rewrite Z.pow_1_l by lia. change (rat_normalize w (Rat (a ^ n) 1)) with (rat_of_int w (a ^ n)). apply of_int_ok; lia.
  Qed.
  Lemma pow_ok a n : 0 <= n < B -> n <= 2 ^ 53 -> Z.abs a < B -> Z.abs (a ^ n) < B -> Z.abs a <= 2 ^ 53 -> Z.abs (a ^ n) <= 2 ^ 53 -> real_pow E (rint a) (Rat n 1) = Ok (rint (a ^ n)).
  Proof.
    intros N N53 A1 A2 A3 A4. pose proof (w3 P HR). pose proof (w4 P HR). unfold real_pow. cbn [real_pow_fuel]. rewrite !(rat_eq_ok P) by lia. cbn [bind]. destruct (Z.eqb_spec n 0) as [->|N0]; [apply (of_int P HR); cbn; lia|]. destruct (Z.eqb_spec n 1) as [->|N1]; [now rewrite Z.pow_1_r|].
    unfold rat_lt. rewrite (rat_cmp_ok P) by lia. cbn [bind]. destruct (Z.compare_spec n 0); [lia|lia|]. unfold real_pow_pos. cbv zeta. change (is_int (Rat n 1)) with true. cbv iota. cbn [rint idx rad coe]. rewrite !rpow_ok by (rewrite ?Z.pow_1_l by lia; try assumption; cbn; lia). cbn [bind]. rewrite Z.pow_1_l by lia. exact (make_int P HR (a ^ n) A2).
  Qed.
  Lemma iterm_co t : iterm t -> tco t = rint (co t). Proof. intros [(n & Hn & _) _]. unfold co. rewrite Hn. reflexivity. Qed.
  Lemma powers_nonneg lo m : 0 <= lo -> powers P name_ok lo m -> Forall (fun p => 0 <= num (snd p)) m.
  Proof. intros L [_ F]. eapply Forall_impl; [|exact F]. intros p (_ & _ & C). lia. Qed.
  Lemma iterm_nonneg t : iterm t -> Forall (fun p => 0 <= num (snd p)) (syms t). Proof. intros [_ Q]. now apply (powers_nonneg 1). Qed.
  Lemma merge_syms_ok : forall b a, powers P name_ok 1 a -> powers P name_ok 1 b -> tdeg a + tdeg b < B -> exists m, merge_syms w b a = Ok m /\ tdeg m = tdeg a + tdeg b.
  Proof.
    induction b as [|[k q] b IH]; intros a A Q D; cbn [merge_syms]; [exists a; split; [reflexivity|cbn; lia]|]. rewrite tdeg_cons in D. cbn [snd] in D. destruct Q as [Sb Fb]. inversion Sb as [|? ? Sb' _]; subst. inversion Fb as [|? ? Eb Fb']; subst. pose proof (powers_nonneg 1 b ltac:(lia) (conj Sb' Fb')) as Nb. pose proof (tdeg_pos b Nb) as Pb. pose proof (powers_nonneg 1 a ltac:(lia) A) as Na.
    destruct A as [Sa Fa]. pose proof (entry_rat P name_ok _ _ Eb) as X1. cbn [snd] in X1. pose proof Eb as (N1 & D1 & B1). cbn [fst snd] in *. destruct (sfind k a) as [q0|] eqn:F.
    - pose proof (sfind_in _ _ _ F) as I. pose proof (proj1 (Forall_forall _ _) Fa _ I) as E0. pose proof (entry_rat P name_ok _ _ E0) as X0. cbn [snd] in X0. pose proof (tdeg_in a _ Na I) as L. destruct E0 as (N0 & D0 & B0). cbn [fst snd] in *. rewrite X0, X1. rewrite rat_add_ok by lia. cbn [bind].
      destruct (IH (supdate k (Rat (num q0 + num q) 1) a)) as (m & Hm & Dm); [split; [now apply update_skeys|]; apply supdate_forall; [exact Fa|]; split; [exact N0|]; split; [reflexivity|cbn [snd num]; lia]|split; assumption|rewrite (tdeg_update k _ q0) by assumption; cbn [num]; lia|].
      exists m. split; [exact Hm|]. rewrite Dm, (tdeg_update k _ q0) by assumption. rewrite tdeg_cons. cbn [num snd]. lia.
    - apply sfind_none_in in F. destruct (IH (sinsert k q a)) as (m & Hm & Dm); [split; [now apply insert_skeys|apply insert_forall; assumption]|split; assumption|rewrite tdeg_insert; lia|]. exists m. split; [exact Hm|]. rewrite Dm, tdeg_insert, tdeg_cons. cbn [snd]. lia.
  Qed.
  Lemma drop_ok : forall m, powers P name_ok 0 m -> exists m', drop_zero w m = Ok m' /\ tdeg m' = tdeg m.
  Proof.
    pose proof (w4 P HR) as W4. induction m as [|[k q] m IH]; intros [S F]; [exists []; split; reflexivity|]. inversion S as [|? ? S' _]; subst. inversion F as [|? ? Eq F']; subst. destruct q as [n d]. destruct Eq as (_ & X & C). cbn [snd num den] in X, C. subst d. cbn [drop_zero]. rewrite (rat_eq_ok P) by lia. cbn [bind]. destruct IH as (m' & -> & D); [now split|]. cbn [bind]. eexists. split; [reflexivity|]. destruct (Z.eqb_spec n 0); rewrite !tdeg_cons; cbn [snd num]; lia.
  Qed.
  Lemma term_norm_ok c m : powers P name_ok 0 m -> exists t, term_normalize w (Term c m) = Ok t /\ tco t = c /\ tdeg (syms t) = tdeg m.
  Proof. intros Q. unfold term_normalize. cbn [tco syms]. destruct (drop_ok m Q) as (m' & -> & D). cbn [bind]. eexists. split; [reflexivity|]. now split. Qed.
  Lemma mul_ok a b : iterm a -> iterm b -> Z.abs (co a) < B -> Z.abs (co b) < B -> Z.abs (co a * co b) < B -> tdeg (syms a) + tdeg (syms b) < B -> exists t, term_mul E a b = Ok t /\ iterm t /\ co t = co a * co b /\ tdeg (syms t) = tdeg (syms a) + tdeg (syms b).
  Proof.
    intros Ta Tb A1 A2 A3 D. destruct (merge_syms_ok (syms b) (syms a) (proj2 Ta) (proj2 Tb) D) as (m & Hm & Dm). pose proof (merge_powers P name_ok 1 ltac:(lia) _ _ _ (proj2 Ta) (proj2 Tb) Hm) as Pm.
    destruct (term_norm_ok (rint (co a * co b)) m (powers_le P name_ok m Pm)) as (t & Ht & Ct & Dt). assert (X : term_mul E a b = Ok t). { unfold term_mul. rewrite Hm. cbn [bind]. rewrite (iterm_co a Ta), (iterm_co b Tb), (mul_int P HR) by assumption. exact Ht. }
    exists t. split; [exact X|]. split; [exact (imul P name_ok HR a b t Ta Tb X)|]. split; [unfold co; rewrite Ct; reflexivity|lia].
  Qed.
  Lemma neg_term_ok a : iterm a -> Z.abs (co a) < B -> exists t, term_negate E a = Ok t /\ iterm t /\ co t = - co a /\ tdeg (syms t) = tdeg (syms a).
  Proof.
    intros Ta A1. destruct (term_norm_ok (rint (- co a)) (syms a) (powers_le P name_ok _ (proj2 Ta))) as (t & Ht & Ct & Dt). assert (X : term_negate E a = Ok t). { unfold term_negate. rewrite (iterm_co a Ta), (neg_ok P HR) by assumption. exact Ht. }
    exists t. split; [exact X|]. split; [exact (inegate P name_ok HR a t Ta X)|]. split; [unfold co; rewrite Ct; reflexivity|exact Dt].
  Qed.
  Lemma div_term_ok a : iterm a -> Z.abs (co a) < B -> exists t, term_div E a (rint 1) = Ok t /\ iterm t /\ co t = co a /\ tdeg (syms t) = tdeg (syms a).
  Proof.
    intros Ta A1. destruct (term_norm_ok (rint (co a)) (syms a) (powers_le P name_ok _ (proj2 Ta))) as (t & Ht & Ct & Dt). assert (X : term_div E a (rint 1) = Ok t). { unfold term_div. rewrite (iterm_co a Ta), (div_int1 P HR) by assumption. exact Ht. }
    exists t. split; [exact X|]. split; [exact (idiv1 P name_ok HR a t Ta X)|]. split; [unfold co; rewrite Ct; reflexivity|exact Dt].
  Qed.
  Lemma scale_ok n : 0 <= n < B -> forall m, powers P name_ok 1 m -> n * tdeg m < B -> exists m', scale_syms w (Rat n 1) m = Ok m' /\ tdeg m' = n * tdeg m.
  Proof.
    intros N. pose proof (w3 P HR) as W3. induction m as [|[k q] m IH]; intros [S F] D; [exists []; split; [reflexivity|cbn; lia]|]. inversion S as [|? ? S' _]; subst. inversion F as [|? ? Eq F']; subst. destruct q as [z d]. destruct Eq as (_ & X & C). cbn [snd num den] in X, C. subst d. rewrite tdeg_cons in D. cbn [snd num] in D. pose proof (tdeg_pos m (powers_nonneg 1 m ltac:(lia) (conj S' F'))) as Pm.
    cbn [scale_syms]. rewrite mul_ints by nia. cbn [bind]. destruct IH as (m' & -> & Dm); [now split|nia|]. cbn [bind]. eexists. split; [reflexivity|]. rewrite !tdeg_cons. cbn [snd num]. nia.
  Qed.
  Lemma pow_term_ok a n : iterm a -> 0 <= n < B -> n <= 2 ^ 53 -> Z.abs (co a) < B -> Z.abs (co a ^ n) < B -> Z.abs (co a) <= 2 ^ 53 -> Z.abs (co a ^ n) <= 2 ^ 53 -> n * tdeg (syms a) < B -> exists t, term_pow E a (Rat n 1) = Ok t /\ iterm t /\ co t = co a ^ n /\ tdeg (syms t) = n * tdeg (syms a).
  Proof.
    intros Ta N N53 A1 A2 A3 A4 D. destruct (scale_ok n N (syms a) (proj2 Ta) D) as (m & Hm & Dm). pose proof (scale_powers P name_ok n ltac:(lia) _ _ (proj2 Ta) Hm) as [Pm _].
    destruct (term_norm_ok (rint (co a ^ n)) m Pm) as (t & Ht & Ct & Dt). assert (X : term_pow E a (Rat n 1) = Ok t). { unfold term_pow. rewrite (iterm_co a Ta), pow_ok by assumption. cbn [bind]. rewrite Hm. exact Ht. }
    exists t. split; [exact X|]. split; [exact (ipow P name_ok HR a n t ltac:(lia) Ta X)|]. split; [unfold co; rewrite Ct; reflexivity|lia].
  Qed.
End K.
