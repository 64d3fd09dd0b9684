(** Real::normalize: structure of the result, value preserved. *)
From Coq Require Import ZArith Znumtheory QArith Qreals Reals String Lia Lra Bool List Permutation Sorted.
From Verif Require Import Base AdapterModel AdapterProofs FactorizeModel FactorizeProofs4 RationalModel RationalSpec RationalProofs RealModel RealSpec Valuation RealProofs1.
Import ListNotations.
Open Scope Z_scope.

(** ** gcd of the exponents *)
Definition gcd_keys (m : list (Z * list Z)) (g0 : Z) : Z := fold_left (fun g p => Z.gcd (fst p) g) m g0.
Lemma gcd_keys_spec m : forall g0, (gcd_keys m g0 | g0) /\ (forall p, In p m -> (gcd_keys m g0 | fst p)) /\
  (forall d, (d | g0) -> (forall p, In p m -> (d | fst p)) -> (d | gcd_keys m g0)).
Proof.
  unfold gcd_keys. induction m as [|p m IH]; intros g0; cbn [fold_left].
  - split; [apply Z.divide_refl|]. split; [intros ? []|auto].
  - destruct (IH (Z.gcd (fst p) g0)) as (A & B & C). split; [eapply Z.divide_trans; [exact A|apply Z.gcd_divide_r]|]. split.
    + intros q [<-|I]; [eapply Z.divide_trans; [exact A|apply Z.gcd_divide_l]|auto].
    + intros d D1 D2. apply C; [apply Z.gcd_greatest; [apply D2; now left|assumption]|]. intros q I. apply D2. now right.
Qed.
Lemma in_flat m e vs v : In (e, vs) m -> In v vs -> In (v, e) (flat m).
Proof. intros I J. unfold flat. apply in_flat_map. exists (e, vs). split; [assumption|]. cbn [fst snd]. apply (in_map (fun v => (v, e))). assumption. Qed.
Lemma flat_in m v e : In (v, e) (flat m) -> exists vs, In (e, vs) m /\ In v vs.
Proof.
  unfold flat. intros I. apply in_flat_map in I as ([k vs] & I & J). cbn [fst snd] in J. apply in_map_iff in J as (u & [= <- <-] & J). eauto.
Qed.
Lemma pprod_ge ps : Forall (fun p => 1 < fst p) ps -> Forall (fun p => 1 <= snd p) ps -> forall p, In p ps -> fst p ^ snd p <= pprod (fun e => e) ps.
Proof.
  induction ps as [|q ps IH]; intros F G p; [intros []|]. inversion F as [|? ? F1 F2]; subst. inversion G as [|? ? G1 G2]; subst.
  rewrite pprod_cons. pose proof (pprod_positive (fun e => e) ps F2 G2 ltac:(lia)) as P. assert (0 < fst q ^ snd q) by (apply Z.pow_pos_nonneg; lia).
  intros [<-|I]; [nia|]. specialize (IH F2 G2 p I). nia.
Qed.
Lemma factors_pos n m : factors_of n m -> 0 < n.
Proof. intros [P X V _ _ _]. rewrite <- P. apply pprod_positive; try assumption. auto with zarith. Qed.
Lemma key_bound n m e vs : factors_of n m -> In (e, vs) m -> 1 <= e < n.
Proof.
  intros [P X V ND K N] I. rewrite Forall_forall in K, N. specialize (K _ I). specialize (N _ I). cbn [fst snd] in *. split; [assumption|].
  destruct vs as [|v vs]; [congruence|]. assert (J : In (v, e) (flat m)) by (apply in_flat with (v :: vs); [assumption|now left]).
  pose proof (pprod_ge _ V X _ J) as L. cbn [fst snd] in L. rewrite P in L. rewrite Forall_forall in V. specialize (V _ J). cbn [fst] in V.
  assert (e < v ^ e) by (apply Z.pow_gt_lin_r; lia). lia.
Qed.
Lemma factors_nil n m : factors_of n m -> (m = [] <-> n = 1).
Proof.
  intros H. pose proof (fo_prod _ _ H) as P. split; [intros ->; now rewrite <- P|]. intros ->. destruct m as [|[e vs] m]; [reflexivity|exfalso].
  pose proof (key_bound 1 _ e vs H (or_introl eq_refl)). lia.
Qed.
Lemma nonnil_in (m : list (Z * list Z)) : m = [] \/ exists e vs, In (e, vs) m.
Proof. destruct m as [|[e vs] m]; [now left|right]. exists e, vs. now left. Qed.
Lemma decompose_bound E n m : decompose E n = Ok m -> n <= 2 ^ (ew E - 2).
Proof. unfold decompose. destruct (Z.leb_spec n (2 ^ (ew E - 2))); [auto|discriminate]. Qed.

(** ** the result of normalize *)
Record normal_result (E : env) (x x' : real) (n r K g : Z) (c : rat) (m0 m : list (Z * list Z)) : Prop := {
  nr_n : n = num (rad x) * den (rad x) ^ (idx x - 1);
  nr_K : K = pprod (dv (idx x)) (flat m0);
  nr_pull : n = r * K ^ idx x;
  nr_d0 : decompose E n = Ok m0;
  nr_d : decompose E r = Ok m;
  nr_m0 : factors_of n m0;
  nr_m : factors_of r m;
  nr_c : (qv c == qv (coe x) / inject_Z (den (rad x)) * inject_Z K)%Q;
  nr_cd : den c <> 0;
  nr_g : 1 <= g;
  nr_gi : (g | idx x);
  nr_gk : forall p, In p m -> (g | fst p);
  nr_gg : m = [] \/ forall d, (d | idx x) -> (forall p, In p m -> (d | fst p)) -> (d | g);
  nr_x : x' = if num c =? 0 then Real 1 (Rat 1 1) c else Real (if r =? 1 then 1 else idx x / g) (Rat (pprod (dv g) (flat m)) 1) c }.

Lemma clear_den w x c rd : wf w x ->
  (if is_int (rad x) then Ok (coe x, rad x) else
   d <- rat_of_int w (den (rad x)) ;; c <- rat_div w (coe x) d ;;
   p <- pow_rat w (den (rad x)) (idx x) ;; r <- rat_mul w (rad x) p ;; Ok (c, r)) = Ok (c, rd) ->
  rd = Rat (num (rad x) * den (rad x) ^ (idx x - 1)) 1 /\ (qv c == qv (coe x) / inject_Z (den (rad x)))%Q /\ den c <> 0.
Proof.
  intros (Hi & Hn & Hd & Hc). destruct (rad x) as [n d]. cbn [num den is_int] in *. unfold is_int. cbn [den]. destruct (Z.eqb_spec d 1) as [->|N].
  - intros [= <- <-]. rewrite Z.pow_1_l, Z.mul_1_r by lia. split; [reflexivity|]. split; [|assumption]. field.
  - intros H. apply bind_ok in H as (dr & Hdr & H). apply of_int_inv in Hdr as ->. apply bind_ok in H as (c1 & Hc1 & H).
    apply rat_div_exact in Hc1 as (D1 & _ & Q1); [|cbn; lia]. apply bind_ok in H as (p & Hp & H).
    unfold pow_rat in Hp. apply bind_ok in Hp as (y & Hy & Hp). apply dpow_inv in Hy as [-> _]. apply bind_ok in Hp as (y & Hy & Hp).
    apply chk_inv in Hy as [-> _]. apply of_int_inv in Hp as ->. apply bind_ok in H as (r & Hr & H). injection H as <- <-.
    apply rat_mul_inv in Hr as (g1 & g2 & _ & _ & E1 & E2 & _ & _ & _ & N1 & N2). cbn [num den] in *.
    rewrite Z.gcd_1_r in E1. subst g1. assert (S : d ^ idx x = d ^ (idx x - 1) * d) by (replace (idx x) with (idx x - 1 + 1) at 1 by lia; rewrite Z.pow_add_r, Z.pow_1_r by lia; reflexivity).
    assert (G : g2 = d). { rewrite E2, S. rewrite Z.gcd_comm. replace d with (1 * d) at 1 by ring. rewrite Z.gcd_mul_mono_r, Z.gcd_1_l. lia. }
    rewrite G, S, Z.quot_mul, Z.quot_1_r in N1 by lia. rewrite G, Z.quot_same, Z.quot_1_r in N2 by lia.
    split; [destruct r as [rn rdn]; cbn [num den] in *; now rewrite N1, N2|]. split; [|assumption]. rewrite Q1. unfold qv at 2. cbn [num den]. field. apply inj0. lia.
Qed.

Lemma normalize_inv E x x' : 1 < ew E -> fac_sound E -> wf (ew E) x -> real_normalize E x = Ok x' ->
  exists n r K g c m0 m, normal_result E x x' n r K g c m0 m.
Proof.
  intros Hw FS W H. unfold real_normalize in H. apply bind_ok in H as ([c0 rd] & Hc & H). apply clear_den in Hc as (-> & Q0 & D0); [|assumption].
  destruct W as (Hi & Hn & Hd & Hcd). set (n := num (rad x) * den (rad x) ^ (idx x - 1)) in *. cbn [num den] in H.
  assert (Pn : 1 <= n) by (assert (0 < den (rad x) ^ (idx x - 1)) by (apply Z.pow_pos_nonneg; lia); unfold n; nia).
  apply bind_ok in H as (m0 & Hm0 & H). pose proof (decompose_bound _ _ _ Hm0) as B0. pose proof Hm0 as Dm0. apply decompose_inv in Hm0; try assumption.
  apply bind_ok in H as ([r c] & Hp & H). assert (KF : Forall (fun p : Z * list Z => 0 <= fst p) m0).
  { eapply Forall_impl; [|exact (fo_keys _ _ Hm0)]. cbn; intros; lia. }
  apply pull_all_spec in Hp as (En & Qc & Dc); try assumption; [|lia].
  set (K := pprod (dv (idx x)) (flat m0)) in *.
  assert (PK : 0 < K). { apply pprod_positive; [apply (fo_vals _ _ Hm0)|apply (fo_exps _ _ Hm0)|]. intros e He. apply Z.div_pos; lia. }
  assert (PKi : 0 < K ^ idx x) by (apply Z.pow_pos_nonneg; lia). assert (Pr : 1 <= r) by nia. assert (Br : r <= 2 ^ (ew E - 2)) by nia.
  apply bind_ok in H as ([rd m] & Hm & H).
  assert (M : factors_of r m /\ rd = Rat r 1 /\ decompose E r = Ok m).
  { destruct (Z.eqb_spec r n) as [En'|Nn].
    - injection Hm as <- <-. rewrite En'. auto.
    - apply bind_ok in Hm as (m' & Hm' & Hm). injection Hm as <- <-. split; [now apply decompose_inv in Hm'|auto]. }
  destruct M as [Hm1 [-> Dm]]. clear Hm.
  set (g0 := match m with [] => ejunk E | (e, _) :: _ => e end) in *.
  fold (gcd_keys m g0) in H. cbn [num den] in H.
  destruct (gcd_keys_spec m g0) as (GA & GB & GC).
  assert (PW : 0 < 2 ^ (ew E - 1)) by (apply Z.pow_pos_nonneg; lia).
  assert (PW2 : 2 ^ (ew E - 1) = 2 * 2 ^ (ew E - 2)) by (replace (ew E - 1) with (1 + (ew E - 2)) by lia; rewrite Z.pow_add_r; lia).
  (* the step with g *)
  assert (G : exists g i' rd', (forall y, bind (if swrap (ew E) (Z.gcd (idx x) (gcd_keys m g0)) =? 1 then Ok (idx x, Rat r 1) else
               if swrap (ew E) (Z.gcd (idx x) (gcd_keys m g0)) =? 0 then Ub "/ 0" else
               r <- mul_all (ew E) (swrap (ew E) (Z.gcd (idx x) (gcd_keys m g0))) m 1 ;; rd <- rat_of_int (ew E) r ;;
               Ok (idx x / swrap (ew E) (Z.gcd (idx x) (gcd_keys m g0)), rd)) y = Ok x' -> y (i', rd') = Ok x') /\
             1 <= g /\ (g | idx x) /\ (forall p, In p m -> (g | fst p)) /\
             (m = [] \/ forall d, (d | idx x) -> (forall p, In p m -> (d | fst p)) -> (d | g)) /\
             rd' = Rat (pprod (dv g) (flat m)) 1 /\ (r = 1 \/ i' = idx x / g)).
  { destruct (Z.eq_dec r 1) as [Er1|Nr1].
    - assert (Em : m = []) by (now apply (factors_nil r m Hm1)). subst m.
      set (s := swrap _ _) in *. destruct (Z.eqb_spec s 1) as [E1|N1].
      + exists 1, (idx x), (Rat r 1). split; [intros y Hy; exact Hy|]. split; [lia|]. split; [apply Z.divide_1_l|]. split; [intros ? []|].
        split; [now left|]. split; [rewrite Er1; reflexivity|now left].
      + destruct (Z.eqb_spec s 0) as [E0|N0].
        * exists 1, 1, (Rat (pprod (dv 1) (flat [])) 1). split; [intros y Hy; discriminate|]. split; [lia|]. split; [apply Z.divide_1_l|]. split; [intros ? []|].
          split; [now left|]. split; [reflexivity|now left].
        * exists 1, (idx x / s), (Rat 1 1). split.
          { intros y Hy. cbn [mul_all bind] in Hy. destruct (rat_of_int (ew E) 1) as [o| | |] eqn:Eo; try discriminate.
            apply of_int_inv in Eo as ->. exact Hy. }
          split; [lia|]. split; [apply Z.divide_1_l|]. split; [intros ? []|]. split; [now left|]. split; [reflexivity|now left].
    - destruct m as [|[e0 vs0] m'] eqn:Em; [exfalso; apply Nr1; now apply (factors_nil r [] Hm1)|]. rewrite <- Em in *.
      assert (I0 : In (e0, vs0) m) by (rewrite Em; now left). assert (G0 : g0 = e0) by (first [reflexivity | unfold g0; now rewrite Em]).
      pose proof (key_bound r m e0 vs0 Hm1 I0) as KB.
      set (g := Z.gcd (idx x) (gcd_keys m g0)) in *.
      assert (Dg0 : (g | e0)) by (rewrite <- G0; eapply Z.divide_trans; [apply Z.gcd_divide_r|exact GA]).
      assert (Pg : 1 <= g). { pose proof (Z.gcd_nonneg (idx x) (gcd_keys m g0)). fold g in H0. assert (g <> 0). { intros Eg. unfold g in Eg. apply Z.gcd_eq_0_l in Eg. lia. } lia. }
      assert (Lg : g <= e0) by (apply Z.divide_pos_le; [lia|assumption]).
      assert (Sg : swrap (ew E) g = g) by (apply swrap_id; lia). rewrite Sg in *.
      exists g, (idx x / g), (Rat (pprod (dv g) (flat m)) 1). split.
      { intros y Hy. destruct (Z.eqb_spec g 1) as [E1|N1].
        - rewrite E1, Z.div_1_r. rewrite <- (fo_prod _ _ Hm1) in Hy. cbn [bind] in Hy.
          replace (pprod (dv 1) (flat m)) with (pprod (fun e => e) (flat m)); [exact Hy|].
          clear. induction (flat m) as [|p l IH]; [reflexivity|]. rewrite !pprod_cons, IH. unfold dv at 2. now rewrite Z.div_1_r.
        - destruct (Z.eqb_spec g 0); [lia|]. destruct (mul_all (ew E) g m 1) as [z| | |] eqn:Ez; try discriminate.
          apply mul_all_spec in Ez; [|lia|eapply Forall_impl; [|exact (fo_keys _ _ Hm1)]; cbn; intros; lia]. rewrite Z.mul_1_l in Ez. subst z.
          cbn [bind] in Hy. destruct (rat_of_int (ew E) _) as [o| | |] eqn:Eo; try discriminate. apply of_int_inv in Eo as ->. exact Hy. }
      split; [assumption|]. split; [apply Z.gcd_divide_l|].
      split; [intros p I; eapply Z.divide_trans; [apply Z.gcd_divide_r|now apply GB]|].
      split; [right|split; [reflexivity|now right]]. intros d Di Dk. apply Z.gcd_greatest; [assumption|]. apply GC; [|assumption].
      rewrite G0. apply (Dk _ I0). }
  destruct G as (g & i' & rd' & STEP & Pg & Dgi & Dgk & Gg & Erd & Ei). apply STEP in H. clear STEP. cbn beta iota in H.
  apply bind_ok in H as (one & Ho & H). apply rat_eq_inv in Ho. rewrite Erd in Ho. cbn [num den] in Ho. rewrite !Z.mul_1_r in Ho.
  apply bind_ok in H as (zero & Hz & H). apply rat_eq_inv in Hz. cbn [num den] in Hz. rewrite Z.mul_1_r, Z.mul_0_l in Hz.
  exists n, r, K, g, c, m0, m. split; try assumption; try reflexivity.
  - rewrite Qc, Q0. reflexivity.
  - subst zero. destruct (num c =? 0); [now injection H as <-|]. injection H as <-. rewrite Erd. f_equal. subst one.
    destruct (Z.eqb_spec r 1) as [Er1|Nr1].
    + assert (Em : m = []) by (now apply (factors_nil r m Hm1)). rewrite Em. reflexivity.
    + destruct Ei as [|Ei]; [contradiction|]. rewrite Ei. destruct (Z.eqb_spec (pprod (dv g) (flat m)) 1) as [E1|]; [exfalso|reflexivity].
      apply Nr1. apply (factors_nil r m Hm1). destruct (nonnil_in m) as [|(e0 & vs0 & I0)]; [assumption|exfalso].
      pose proof (fo_vecs _ _ Hm1) as NV. rewrite Forall_forall in NV. specialize (NV _ I0). cbn [snd] in NV. destruct vs0 as [|v vs0]; [congruence|].
      assert (J : In (v, e0) (flat m)) by (apply in_flat with (v :: vs0); [assumption|now left]).
      pose proof (fo_vals _ _ Hm1) as V. pose proof V as V'. rewrite Forall_forall in V'. specialize (V' _ J). cbn [fst] in V'.
      pose proof (key_bound r m _ _ Hm1 I0) as KB. destruct (Dgk _ I0) as [q Eq]. cbn [fst] in Eq. assert (1 <= q) by nia.
      apply in_split in J as (l1 & l2 & El). rewrite El in E1, V. rewrite pprod_app, pprod_cons in E1. cbn [fst snd] in E1. unfold dv at 2 in E1.
      rewrite Eq, Z.div_mul in E1 by lia. apply Forall_app in V as [V1 V2]. inversion V2 as [|? ? _ V3]; subst.
      pose proof (fo_exps _ _ Hm1) as X. rewrite El in X. apply Forall_app in X as [X1 X2]. inversion X2 as [|? ? _ X3]; subst.
      assert (DP : forall e, 1 <= e -> 0 <= dv g e) by (intros; apply Z.div_pos; lia).
      pose proof (pprod_positive (dv g) l1 V1 X1 DP). pose proof (pprod_positive (dv g) l2 V3 X3 DP). assert (1 < v ^ q) by (apply Z.pow_gt_1; lia). nia.
Qed.
