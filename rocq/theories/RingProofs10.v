(** Proofs: a polynomial expression whose weight and degree are representable is simplified. *)
From Coq Require Import ZArith Znumtheory QArith Qreals Reals String Ascii Lia Lra Bool List Permutation Sorted.
From Verif Require Import Base AdapterModel AdapterProofs RationalModel RationalSpec RationalProofs RationalProofs2 RealModel RealSpec RealProofs1 RealProofs3 PolyModel PolySpec PolyProofs1 PolyProofs2 PolyProofs3 PolyProofs4 PolyProofs6 ExprModel ExprSpec ExprProofs1 ParserModel TextSpec TextProofs1 TextProofs2 PrintSpec RingSpec RingProofs1 RingProofs2 RingProofs3 RingProofs4 RingProofs5 RingProofs6 RingProofs7 RingProofs8 RingProofs9.
Import ListNotations.
Open Scope Z_scope.

Lemma fold_in {A} (f : A -> Z) l a : (forall x, In x l -> 0 <= f x) -> In a l -> f a <= fold_right (fun x r => f x + r) 0 l.
Proof.
  intros F. assert (N : forall m, (forall x, In x m -> 0 <= f x) -> 0 <= fold_right (fun x r => f x + r) 0 m) by (induction m as [|x m IH]; intros G; cbn [fold_right]; [lia|]; pose proof (G x (or_introl eq_refl)); specialize (IH (fun y I => G y (or_intror I))); lia).
  induction l as [|x l IH]; intros []; cbn [fold_right]; [subst; pose proof (N l (fun y I => F y (or_intror I))); lia|]. specialize (IH (fun y I => F y (or_intror I)) H). pose proof (F x (or_introl eq_refl)). lia.
Qed.
Lemma wt_sum l : wt l = fold_right Z.add 0 (map wt1 l). Proof. induction l as [|t l IH]; [reflexivity|]. rewrite wt_cons, IH. reflexivity. Qed.

Section N.
  Variable P : penv.
  Hypothesis HR : reads P.
  Hypothesis HM : machine P.
  Hypothesis HS : sort_orders P.
  Hypothesis HT : sort_returns P.
  Local Notation E := (pe P).
  Local Notation w := (ew (pe P)).
  Local Notation B := (2 ^ (ew (pe P) - 1)).
  Local Notation iterm := (iterm P name_ok).
  Local Notation ipoly := (ipoly P name_ok).
  Local Notation fitp := (fitp P).
  Local Notation one := [term_const (rint 1)].

  Lemma multinomial_ok D a n v : Forall iterm a -> (2 <= length a)%nat -> Forall (fun t => 0 <= tdeg (syms t) <= D) a -> Z.of_nat (fact n) < B -> Z.of_nat n <= 2 ^ 53 -> In v (sols (length a - 2) (Z.of_nat n)) ->
    wt a ^ Z.of_nat n < B -> wt a ^ Z.of_nat n <= 2 ^ 53 -> D * Z.of_nat n < B ->
    exists t, multinomial E a (Z.of_nat (fact n)) v = Ok t /\ iterm t /\ wt1 t <= Z.of_nat (fact n) / zfacts v * zmono (map wt1 a) v /\ tdeg (syms t) <= D * Z.of_nat n.
  Proof.
    intros F L G FB N53 I WB W53 DB. pose proof (w3 P HR) as W3. pose proof (lt_O_fact n) as FP. assert (PX : Forall (fun x => 1 <= x) (map wt1 a)) by (apply Forall_map, Forall_forall; intros; apply wt1_pos).
    assert (TOT : Z.of_nat (fact n) / zfacts v * zmono (map wt1 a) v <= wt a ^ Z.of_nat n).
    { rewrite wt_sum, <- sum_terms by (rewrite ?map_length; lia). rewrite map_length. apply (fold_in (fun v => Z.of_nat (fact n) / zfacts v * zmono (map wt1 a) v)); [|exact I]. intros u J. apply sols_in in J as (_ & Fu & _). pose proof (zmono_pos (map wt1 a) u PX Fu). pose proof (zfacts_pos u). assert (0 <= Z.of_nat (fact n) / zfacts u) by (apply Z.div_pos; lia). nia. }
    apply sols_in in I as (LV & V & S). pose proof (facts_divide v V) as DV. rewrite S, Nat2Z.id in DV. fold (zfacts v) in DV. pose proof (zfacts_pos v) as ZP. assert (V53 : Forall (fun e => 0 <= e <= Z.of_nat n) v) by (rewrite Forall_forall; intros e J; pose proof (le_sum v e V J); rewrite Forall_forall in V; specialize (V e J); cbn beta in V; lia).
    assert (NF : Z.of_nat n <= Z.of_nat (fact n)) by (clear; induction n as [|n IH]; [cbn; lia|]; rewrite fact_simpl, Nat2Z.inj_mul; pose proof (lt_O_fact n); nia).
    unfold multinomial. unfold rat_of_index. rewrite swrap_small' by lia. rewrite of_int_ok by lia. cbn [bind]. rewrite (div_facts_ok P HR); [|lia|eapply Forall_impl; [|exact V53]; cbn beta; intros; lia|exact DV]. cbn [bind]. destruct DV as [k Hk]. assert (K : Z.of_nat (fact n) / zfacts v = k) by (rewrite Hk; apply Z.div_mul; lia). rewrite K in *. assert (KP : 1 <= k) by nia. pose proof (zmono_pos (map wt1 a) v PX V) as MP.
    unfold real_of_rat. rewrite (make_int P HR) by nia. cbn [bind]. assert (WK : wt1 (term_const (rint k)) = k) by (unfold wt1, co; cbn [term_const tco rint coe num]; lia).
    destruct (mul_powers_ok P HR D a v (term_const (rint k))) as (t & Ht & Tt & Wt & Dt); try assumption.
    - apply iconst. unfold rng. nia.
    - lia.
    - eapply Forall_impl; [|exact V53]; cbn beta; intros; lia.
    - eapply Forall_impl; [|exact V53]; cbn beta; intros; lia.
    - rewrite WK. lia.
    - rewrite WK. lia.
    - rewrite S. cbn [term_const syms tdeg fold_right]. lia.
    - exists t. split; [exact Ht|]. split; [exact Tt|]. rewrite WK in Wt. split; [exact Wt|]. rewrite S in Dt. cbn [term_const syms tdeg fold_right] in Dt. lia.
  Qed.
  Lemma try_sum_ok : forall l m, Forall iterm l -> Z.abs m + wt l < B -> exists r, try_sum E (rint m) l = Ok r /\ forall c, r = Some c -> exists n, c = rint n /\ Z.abs n <= Z.abs m + wt l.
  Proof.
    induction l as [|t l IH]; intros m F W; [exists (Some (rint m)); split; [reflexivity|]; intros c X; injection X as <-; exists m; split; [reflexivity|cbn; lia]|]. inversion F as [|? ? Tt F']; subst. rewrite wt_cons in *. cbn [try_sum]. unfold term_try_eval. destruct (no_symbols t); [|exists None; split; [reflexivity|discriminate]]. rewrite (iterm_co P t Tt), (equiv_ok P HR). cbn [bind]. pose proof (wt_pos l). unfold wt1 in W |- *. rewrite (add_ok P HR) by lia. cbn [bind].
    destruct (IH (m + co t) F') as (r & Hr & Q); [lia|]. exists r. split; [exact Hr|]. intros c X. destruct (Q c X) as (n & -> & L). exists n. split; [reflexivity|lia].
  Qed.
  Lemma try_eval_ok l : Forall iterm l -> wt l < B -> exists r, poly_try_eval E l = Ok r /\ forall c, r = Some c -> exists n, c = rint n /\ Z.abs n <= wt l.
  Proof. intros F W. pose proof (w4 P HR). unfold poly_try_eval. rewrite (of_int P HR) by (cbn; lia). cbn [bind]. destruct (try_sum_ok l 0 F) as (r & Hr & Q); [cbn; lia|]. exists r. split; [exact Hr|]. intros c X. destruct (Q c X) as (n & -> & L). exists n. split; [reflexivity|cbn in L; lia]. Qed.
  Lemma fit_const W D n : Z.abs n < B -> Z.max 1 (Z.abs n) <= W -> 0 <= D -> fitp W D [term_const (rint n)].
  Proof. intros A1 A2 A3. split; [constructor; [apply iconst; unfold rng; lia|constructor]|]. split; [rewrite wt_cons; unfold wt1, co; cbn [wt fold_right term_const tco rint coe num]; lia|]. constructor; [cbn; lia|constructor]. Qed.
  Lemma fit_pos W D a : fitp W D a -> a <> [] -> 1 <= W /\ 0 <= D.
  Proof. intros (F & S & G) NE. destruct a as [|t a]; [contradiction|]. rewrite wt_cons in S. pose proof (wt1_pos t). pose proof (wt_pos a). inversion F; subst. inversion G; subst. pose proof (tdeg_pos _ (iterm_nonneg P t ltac:(assumption))). cbn beta in *. lia. Qed.
  Lemma fit_weaken W W' D D' a : W <= W' -> D <= D' -> fitp W D a -> fitp W' D' a.
  Proof. intros A1 A2 (F & S & G). split; [exact F|]. split; [lia|]. eapply Forall_impl; [|exact G]. cbn beta. intros; lia. Qed.
  Lemma pow_poly_ok W D a n : fitp W D a -> a <> [] -> 0 <= n < B -> Z.of_nat (fact (Z.to_nat n)) < B \/ length a = 1%nat -> n <= 2 ^ 53 -> W ^ Z.max 1 n < B -> W ^ Z.max 1 n <= 2 ^ 53 -> Z.max 1 n * D < B ->
    exists r, poly_pow P a (Rat n 1) = Ok r /\ fitp (W ^ Z.max 1 n) (Z.max 1 n * D) r /\ r <> [].
  Proof.
    intros FA NE N FB N53 WB W53 DB. pose proof FA as (F & SW & G). destruct (fit_pos _ _ _ FA NE) as [WP DP]. pose proof (w3 P HR) as W3. pose proof (w4 P HR) as W4.
    unfold poly_pow. cbv zeta. rewrite !(rat_eq_ok P) by lia. cbn [bind]. destruct (Z.eqb_spec n 0) as [->|N0].
    { rewrite (of_int P HR) by (cbn; lia). cbn [bind]. unfold poly_make. rewrite (normalize_one P HR). eexists. split; [reflexivity|]. split; [|discriminate]. change (Z.max 1 0) with 1 in *. rewrite Z.pow_1_r in *. apply fit_const; lia. }
    destruct (Z.eqb_spec n 1) as [->|N1]. { exists a. split; [reflexivity|]. change (Z.max 1 1) with 1 in *. rewrite Z.pow_1_r, Z.mul_1_l in *. now split. }
    replace (Z.max 1 n) with n in * by lia. assert (WW : W <= W ^ n) by (rewrite <- (Z.pow_1_r W) at 1; apply Z.pow_le_mono_r; lia). assert (PM : forall m, Z.abs m <= W -> Z.abs (m ^ n) <= W ^ n) by (intros m M; rewrite Z.abs_pow; apply Z.pow_le_mono_l; lia). assert (W1 : 1 <= W ^ n) by lia.
    assert (HC : forall m, Z.abs m <= W -> exists r, (c' <- real_pow E (rint m) (Rat n 1) ;; poly_make P [term_const c']) = Ok r /\ fitp (W ^ n) (n * D) r /\ r <> []).
    { intros m M. specialize (PM m M). rewrite (pow_ok P HR) by lia. cbn [bind]. unfold poly_make. rewrite (normalize_one P HR). eexists. split; [reflexivity|]. split; [|discriminate]. apply fit_const; [lia|lia|nia]. }
    assert (HG : (2 <= length a)%nat -> exists r, (v <- poly_try_eval E a ;; match v with Some c => c' <- real_pow E c (Rat n 1) ;; poly_make P [term_const c'] | None => if is_int (Rat n 1) then
            n <- rat_to_t w (Rat n 1) ;;
            vs <- solve_variable_eq w (length a) n (Z.of_nat (length a)) ;;
            l <- mapr (multinomial E a (wfact w (Z.to_nat (uwrap w n)))) vs ;;
            poly_make P l
          else Throw "Must be a int." end) = Ok r /\ fitp (W ^ n) (n * D) r /\ r <> []).
    { intros LA. destruct FB as [FB|FB]; [|lia]. destruct (try_eval_ok a F ltac:(lia)) as (v & Hv & Qv). rewrite Hv. cbn [bind]. destruct v as [c|]; [destruct (Qv c eq_refl) as (m & -> & M); apply HC; lia|].
      change (is_int (Rat n 1)) with true. cbv iota. unfold rat_to_t. cbn [num den]. rewrite quot_ok by lia. rewrite Z.quot_1_r. cbn [bind].
      assert (N3 : n + 1 < B). { destruct (Z.eq_dec n 2); [lia|]. assert (exists k, Z.to_nat n = S k) as (k & Hk) by (exists (pred (Z.to_nat n)); lia). rewrite Hk, fact_simpl, Nat2Z.inj_mul in FB. assert (2 <= Z.of_nat (fact k)) by (destruct k as [|[|k]]; [lia|lia|]; rewrite fact_simpl, Nat2Z.inj_mul; pose proof (lt_O_fact (S k)); lia). nia. }
      assert (HL : Z.of_nat (length a) = Z.of_nat (length a - 2) + 2) by lia. destruct (solve_total w (length a) (length a - 2) n ltac:(lia) N3 ltac:(lia)) as (vs & Hvs). rewrite HL. rewrite Hvs. cbn [bind]. apply solve_sols in Hvs as [_ ->].
      unfold uwrap. rewrite Z.mod_small by (assert (2 ^ w = 2 * 2 ^ (w - 1)) by (rewrite <- Z.pow_succ_r by lia; f_equal; lia); lia). rewrite wfact_exact by lia.
      assert (GG : Forall (fun t => 0 <= tdeg (syms t) <= D) a) by (rewrite Forall_forall in *; intros t I; split; [apply tdeg_pos, (iterm_nonneg P), F, I|now apply G]). assert (WA : wt a ^ n <= W ^ n) by (apply Z.pow_le_mono_l; pose proof (wt_pos a); lia). assert (NN : Z.of_nat (Z.to_nat n) = n) by lia.
      destruct (mapr_total (multinomial E a (Z.of_nat (fact (Z.to_nat n)))) (fun v t => iterm t /\ wt1 t <= Z.of_nat (fact (Z.to_nat n)) / zfacts v * zmono (map wt1 a) v /\ tdeg (syms t) <= D * n) (sols (length a - 2) n)) as (l & Hl & Q).
      { intros v I. destruct (multinomial_ok D a (Z.to_nat n) v) as (t & Ht & X & Y & Z); try assumption; rewrite ?NN; try assumption; try lia. exists t. rewrite NN in Z. split; [exact Ht|]. split; [exact X|]. split; [exact Y|exact Z]. }
      rewrite Hl. cbn [bind]. unfold poly_make. pose proof (sum_terms (map wt1 a) (Z.to_nat n)) as ST. rewrite map_length, NN, <- wt_sum in ST. specialize (ST LA ltac:(pose proof (lt_O_fact (Z.to_nat n)); lia)).
      assert (FL : fitp (W ^ n) (n * D) l).
      { assert (K : Forall iterm l /\ wt l <= fold_right (fun v r => Z.of_nat (fact (Z.to_nat n)) / zfacts v * zmono (map wt1 a) v + r) 0 (sols (length a - 2) n) /\ Forall (fun t => tdeg (syms t) <= n * D) l).
        { clear - Q. induction Q as [|v t vs l (X & Y & Z) Q IH]; [repeat split; [constructor|cbn; lia|constructor]|]. destruct IH as (A1 & A2 & A3). split; [now constructor|]. split; [rewrite wt_cons; cbn [fold_right]; lia|constructor; [lia|exact A3]]. }
        destruct K as (A1 & A2 & A3). split; [exact A1|]. split; [lia|exact A3]. }
      destruct (normalize_ok P HR HM HS HT (W ^ n) (n * D) l WB FL) as (r & Hr & I & FR); [|exists r; split; [exact Hr|]; split; [exact FR|apply I]].
      intros ->. inversion Q as [X|]. pose proof (proj2 (sols_in (length a - 2) n (n :: repeat 0 (length a - 1)))) as Z0. rewrite <- X in Z0. apply Z0. unfold solution. cbn [length fold_right]. rewrite repeat_length. repeat split; [lia| |].
      - constructor; [lia|]. rewrite Forall_forall. intros x I. apply repeat_spec in I. lia.
      - assert (Z1 : forall k, fold_right Z.add 0 (repeat 0 k) = 0) by (induction k; cbn; auto). rewrite Z1. lia. }
    destruct a as [|t [|u a]]; [contradiction| |apply HG; cbn [length]; lia]. clear HG. inversion F as [|? ? Tt _]; subst. inversion G as [|? ? Gt _]; subst. assert (WT : wt1 t <= W) by (rewrite wt_cons in SW; cbn [wt fold_right] in SW; lia). pose proof (tdeg_pos _ (iterm_nonneg P t Tt)) as TP. specialize (PM (co t) ltac:(unfold wt1 in WT; lia)).
    destruct (pow_term_ok P HR t n Tt) as (p & Hp & Tp & Cp & Dp); try (unfold wt1 in WT; lia). { nia. }
    rewrite Hp. cbn [bind]. unfold poly_make. rewrite (normalize_one P HR). eexists. split; [reflexivity|]. split; [|discriminate]. split; [now constructor|]. split; [rewrite wt_cons; unfold wt1; rewrite Cp; cbn [wt fold_right]; lia|]. constructor; [nia|constructor].
  Qed.
End N.
