(** Proofs: monomials with different exponents are linearly independent functions of positive arguments. *)
From Coq Require Import ZArith Znumtheory QArith Qreals Reals String Ascii Lia Lra Bool List Permutation Sorted.
From Verif Require Import Base AdapterModel AdapterProofs RationalModel RationalSpec RationalProofs RationalProofs2 RealModel RealSpec RealProofs3 PolyModel PolySpec PolyProofs1 PolyProofs2 PolyProofs6.
Import ListNotations.
Open Scope Z_scope.

(** the entries of a std::map are in ascending order of the keys *)
Definition skeys (m : smap) : Prop := StronglySorted (fun a b => String.compare (fst a) (fst b) = Lt) m.
Definition mono (m : smap) : Prop := skeys m /\ Forall (fun p => qok (snd p) /\ num (snd p) <> 0) m.

Lemma skeys_nodup m : skeys m -> NoDup (map fst m).
Proof.
  induction 1 as [|a m S IH F]; [constructor|]. cbn [map]. constructor; [|exact IH]. intros I. apply in_map_iff in I as (b & E & I). rewrite Forall_forall in F. specialize (F b I). rewrite E in F.
  destruct string_total as (S1 & _). rewrite S1 in F by trivial. discriminate.
Qed.
Lemma skeys_below k (m : smap) : Forall (fun b => String.compare k (fst b) = Lt) m -> ~ In k (map fst m).
Proof. intros F I. apply in_map_iff in I as (b & E & I). rewrite Forall_forall in F. specialize (F b I). rewrite E in F. destruct string_total as (S1 & _). rewrite S1 in F by trivial. discriminate. Qed.
Lemma inj_nz n : n <> 0 -> ~ (inject_Z n == 0)%Q.
Proof. unfold Qeq, inject_Z. cbn. lia. Qed.
Lemma qv_nz q : den q <> 0 -> num q <> 0 -> ~ (qv q == 0)%Q.
Proof.
  intros D N H. apply N. unfold qv in H. apply inject_Z_injective. pose proof (inj_nz _ D) as Y.
  transitivity (inject_Z (num q) / inject_Z (den q) * inject_Z (den q))%Q; [field; assumption|]. rewrite H. ring.
Qed.
Lemma qv_inj a b : qok a -> qok b -> (qv a == qv b)%Q -> a = b.
Proof.
  intros A B H. apply qok_eq; try assumption. destruct A as [DA _], B as [DB _]. unfold qv in H. apply inject_Z_injective. rewrite !inject_Z_mult.
  pose proof (inj_nz (den a) ltac:(lia)) as YA. pose proof (inj_nz (den b) ltac:(lia)) as YB.
  transitivity (inject_Z (num a) / inject_Z (den a) * (inject_Z (den a) * inject_Z (den b)))%Q; [field; assumption|]. rewrite H. field. assumption.
Qed.
Lemma mono_ext : forall a b, mono a -> mono b -> (forall k, (exponent k a == exponent k b)%Q) -> a = b.
Proof.
  destruct string_total as (S1 & S2 & S3 & S4).
  assert (AB : forall k (m : smap), Forall (fun b => String.compare k (fst b) = Lt) m -> exponent k m = 0%Q) by (intros k m F; apply exponent_absent, skeys_below, F).
  induction a as [|[k v] a IH]; intros [|[k' v'] b] [Sa Fa] [Sb Fb] H.
  - reflexivity.
  - exfalso. specialize (H k'). rewrite (exponent_cons k' (k', v')) in H. cbn [fst snd] in H. rewrite String.eqb_refl in H. inversion Fb as [|? ? [Q N] _]; subst. cbn [snd] in *. apply (qv_nz v'); [destruct Q; lia|exact N|symmetry; exact H].
  - exfalso. specialize (H k). rewrite (exponent_cons k (k, v)) in H. cbn [fst snd] in H. rewrite String.eqb_refl in H. inversion Fa as [|? ? [Q N] _]; subst. cbn [snd] in *. apply (qv_nz v); [destruct Q; lia|exact N|exact H].
  - inversion Sa as [|? ? Sa' La]; subst. inversion Sb as [|? ? Sb' Lb]; subst. inversion Fa as [|? ? [Qa Na] Fa']; subst. inversion Fb as [|? ? [Qb Nb] Fb']; subst. cbn [fst snd] in *.
    destruct (String.compare k k') eqn:C.
    + apply S2 in C; trivial. subst k'. assert (v = v').
      { specialize (H k). rewrite !exponent_cons in H. cbn [fst snd] in H. rewrite String.eqb_refl in H. now apply qv_inj. }
      subst v'. f_equal. apply IH; [split; assumption|split; assumption|]. intros x. destruct (String.eqb_spec x k) as [->|N].
      * rewrite (AB k a La), (AB k b Lb). reflexivity.
      * specialize (H x). rewrite !exponent_cons in H. cbn [fst snd] in H. destruct (String.eqb_spec x k) as [|_]; [contradiction|exact H].
    + exfalso. specialize (H k). rewrite (AB k ((k', v') :: b)) in H.
      * rewrite (exponent_cons k (k, v)) in H. cbn [fst snd] in H. rewrite String.eqb_refl in H. apply (qv_nz v); [destruct Qa; lia|exact Na|exact H].
      * constructor; [exact C|]. rewrite Forall_forall in *. intros y I. apply (S4 k k' (fst y)); trivial. apply Lb, I.
    + exfalso. assert (C' : String.compare k' k = Lt) by (rewrite S3, C; reflexivity). specialize (H k'). rewrite (AB k' ((k, v) :: a)) in H.
      * rewrite (exponent_cons k' (k', v')) in H. cbn [fst snd] in H. rewrite String.eqb_refl in H. apply (qv_nz v'); [destruct Qb; lia|exact Nb|symmetry; exact H].
      * constructor; [exact C'|]. rewrite Forall_forall in *. intros y I. apply (S4 k' k (fst y)); trivial. apply La, I.
Qed.

(** monomials as functions of positive arguments *)
Definition pos (s : string -> R) : Prop := forall k, (0 < s k)%R.
Lemma sv_pos s m : pos s -> mono m -> (0 < sv s m)%R.
Proof.
  intros S [_ F]. induction F as [|[k v] m [Q _] F IH]; [cbn; lra|]. rewrite sv_cons. cbn [fst snd] in *. apply Rmult_lt_0_compat; [|exact IH]. rewrite pwr_pos by auto. apply exp_pos.
Qed.
Lemma sv_mul s t m : pos s -> pos t -> mono m -> sv (fun k => s k * t k)%R m = (sv s m * sv t m)%R.
Proof.
  intros S T [_ F]. induction F as [|[k v] m [Q _] F IH]; [cbn; ring|]. rewrite !sv_cons. cbn [fst snd] in *. rewrite IH. rewrite !pwr_pos by (try apply Rmult_lt_0_compat; auto). rewrite <- Rpower_mult_distr by auto. ring.
Qed.
Definition at2 (k : string) : string -> R := fun x => if String.eqb x k then 2%R else 1%R.
Lemma at2_pos k : pos (at2 k). Proof. intros x. unfold at2. destruct (String.eqb x k); lra. Qed.
Lemma Rpower_1_l x : Rpower 1 x = 1%R. Proof. unfold Rpower. rewrite ln_1, Rmult_0_r. apply exp_0. Qed.
Lemma sv_at2 k m : mono m -> sv (at2 k) m = Rpower 2 (Q2R (exponent k m)).
Proof.
  intros [S F]. apply skeys_nodup in S. induction F as [|[x v] m [Q _] F IH].
  - cbn. rewrite RMicromega.Q2R_0, Rpower_O by lra. reflexivity.
  - inversion S as [|? ? N S']; subst. rewrite sv_cons, exponent_cons. cbn [fst snd] in *. rewrite (IH S'). rewrite pwr_pos by (try apply at2_pos; auto). unfold at2. rewrite (String.eqb_sym k x). destruct (String.eqb_spec x k) as [->|NE].
    + rewrite (exponent_absent k m N), RMicromega.Q2R_0, Rpower_O by lra. ring.
    + rewrite Rpower_1_l. ring.
Qed.
Lemma Rpower2_inj x y : Rpower 2 x = Rpower 2 y -> x = y.
Proof. intros H. unfold Rpower in H. apply exp_inv in H. apply Rmult_eq_reg_r in H; [exact H|]. assert (0 < ln 2)%R by (rewrite <- ln_1; apply ln_increasing; lra). lra. Qed.
Lemma separate a b : mono a -> mono b -> a <> b -> exists s, pos s /\ sv s a <> sv s b.
Proof.
  intros A B N. destruct (Classical_Prop.classic (exists k, ~ (exponent k a == exponent k b)%Q)) as [(k & K)|K].
  - exists (at2 k). split; [apply at2_pos|]. rewrite !sv_at2 by assumption. intros H. apply Rpower2_inj, eqR_Qeq in H. contradiction.
  - exfalso. apply N. apply mono_ext; try assumption. intros k. destruct (Qeq_dec (exponent k a) (exponent k b)) as [E|E]; [exact E|exfalso; eauto].
Qed.

(** ** independence, for lists with repetitions *)
Definition rat_dec (a b : rat) : {a = b} + {a <> b}. Proof. decide equality; apply Z.eq_dec. Defined.
Definition smap_dec (a b : smap) : {a = b} + {a <> b}. Proof. decide equality. decide equality; [apply rat_dec|apply string_dec]. Defined.
Definition lin (s : string -> R) (l : list (R * smap)) : R := fold_right (fun p a => fst p * sv s (snd p) + a)%R 0%R l.
Definition csum (m : smap) (l : list (R * smap)) : R := fold_right (fun p a => (if smap_dec (snd p) m then fst p else 0) + a)%R 0%R l.
Definition others (m : smap) (l : list (R * smap)) := filter (fun p => if smap_dec (snd p) m then false else true) l.
Lemma lin_cons s c m l : lin s ((c, m) :: l) = (c * sv s m + lin s l)%R. Proof. reflexivity. Qed.
Lemma csum_cons m c x l : csum m ((c, x) :: l) = ((if smap_dec x m then c else 0) + csum m l)%R. Proof. reflexivity. Qed.
Lemma others_cons m c x l : others m ((c, x) :: l) = if smap_dec x m then others m l else (c, x) :: others m l.
Proof. unfold others. cbn [filter snd]. now destruct (smap_dec x m). Qed.
Lemma lin_split s m l : lin s l = (csum m l * sv s m + lin s (others m l))%R.
Proof. induction l as [|[c x] l IH]; [cbn; ring|]. rewrite lin_cons, csum_cons, others_cons, IH. destruct (smap_dec x m) as [->|N]; [ring|]. rewrite lin_cons. ring. Qed.
Lemma others_le m l : (length (others m l) <= length l)%nat.
Proof. induction l as [|[c x] l IH]; [cbn; lia|]. rewrite others_cons. destruct (smap_dec x m); cbn [length]; lia. Qed.
Lemma csum_others m0 m l : m <> m0 -> csum m (others m0 l) = csum m l.
Proof.
  intros N. induction l as [|[c x] l IH]; [reflexivity|]. rewrite others_cons. destruct (smap_dec x m0) as [->|N'].
  - rewrite IH, csum_cons. destruct (smap_dec m0 m) as [->|_]; [contradiction|ring].
  - rewrite !csum_cons. now rewrite IH.
Qed.
Lemma csum_same m l : csum m (others m l) = 0%R.
Proof. induction l as [|[c x] l IH]; [reflexivity|]. rewrite others_cons. destruct (smap_dec x m) as [->|N']; [exact IH|]. rewrite csum_cons. destruct (smap_dec x m); [contradiction|]. rewrite IH. ring. Qed.
Lemma lin_zero s : forall n l, (length l <= n)%nat -> (forall m, csum m l = 0%R) -> lin s l = 0%R.
Proof.
  induction n as [|n IH]; intros [|[c m] l] L H; try reflexivity; [cbn in L; lia|]. rewrite (lin_split s m). rewrite H. rewrite IH; [ring| |].
  - rewrite others_cons. destruct (smap_dec m m); [|contradiction]. pose proof (others_le m l). cbn [length] in L. lia.
  - intros x. destruct (smap_dec x m) as [->|N]; [apply csum_same|]. rewrite csum_others by assumption. apply H.
Qed.
Definition scaled (s0 : string -> R) (v : R) (l : list (R * smap)) := map (fun p => (fst p * (sv s0 (snd p) - v), snd p)%R) l.
Lemma lin_scaled s s0 v l : pos s -> pos s0 -> Forall (fun p => mono (snd p)) l -> lin s (scaled s0 v l) = (lin (fun k => s k * s0 k)%R l - v * lin s l)%R.
Proof. intros S S0 F. induction F as [|[c m] l M F IH]; [cbn; ring|]. change (scaled s0 v ((c, m) :: l)) with ((c * (sv s0 m - v), m)%R :: scaled s0 v l). rewrite !lin_cons, IH. cbn [snd] in M. rewrite sv_mul by assumption. ring. Qed.
Lemma csum_scaled s0 v m l : csum m (scaled s0 v l) = ((sv s0 m - v) * csum m l)%R.
Proof. induction l as [|[c x] l IH]; [cbn; ring|]. change (scaled s0 v ((c, x) :: l)) with ((c * (sv s0 x - v), x)%R :: scaled s0 v l). rewrite !csum_cons, IH. destruct (smap_dec x m) as [->|]; ring. Qed.
Lemma forall_filter {A} (Q : A -> Prop) f l : Forall Q l -> Forall Q (filter f l).
Proof. induction 1; cbn; [constructor|]. destruct (f x); [now constructor|assumption]. Qed.
Theorem independent : forall n l, (length l <= n)%nat -> Forall (fun p => mono (snd p)) l -> (forall s, pos s -> lin s l = 0%R) -> forall m, csum m l = 0%R.
Proof.
  induction n as [|n IH]; intros [|[c m0] l] L F H m; try reflexivity; [cbn in L; lia|].
  set (L0 := (c, m0) :: l) in *. assert (M0 : mono m0) by (inversion F; assumption).
  assert (LO : (length (others m0 L0) <= n)%nat). { unfold L0. rewrite others_cons. destruct (smap_dec m0 m0); [|contradiction]. pose proof (others_le m0 l). unfold L0 in L. cbn [length] in L. lia. }
  assert (FO : Forall (fun p => mono (snd p)) (others m0 L0)) by (apply forall_filter; exact F).
  assert (OT : forall m, m <> m0 -> csum m L0 = 0%R).
  { intros x N. destruct (Classical_Prop.classic (exists p, In p L0 /\ snd p = x)) as [(p & I & Ep)|NI].
    - assert (Mx : mono x) by (rewrite Forall_forall in F; specialize (F p I); rewrite Ep in F; exact F). destruct (separate x m0 Mx M0 N) as (s0 & P0 & D0).
      assert (Z : csum x (scaled s0 (sv s0 m0) (others m0 L0)) = 0%R).
      { apply IH.
        - unfold scaled. rewrite map_length. exact LO.
        - unfold scaled. rewrite Forall_map. cbn [snd]. exact FO.
        - intros s Ps. rewrite lin_scaled by assumption. assert (Ps0 : pos (fun k => s k * s0 k)%R) by (intros k; apply Rmult_lt_0_compat; auto).
          pose proof (H _ Ps) as H1. pose proof (H _ Ps0) as H2. rewrite (lin_split _ m0) in H1. rewrite (lin_split _ m0) in H2. rewrite sv_mul in H2 by assumption.
          apply Rplus_opp_r_uniq in H1, H2. rewrite H1, H2. ring. }
      rewrite csum_scaled, csum_others in Z by assumption. apply Rmult_integral in Z as [Z|Z]; [exfalso; apply D0; lra|exact Z].
    - assert (G : forall l', (forall p, In p l' -> snd p <> x) -> csum x l' = 0%R).
      { induction l' as [|[c' m'] l' IHl]; intros K; [reflexivity|]. rewrite csum_cons. destruct (smap_dec m' x) as [E|_]; [exfalso; apply (K (c', m')); [now left|exact E]|]. rewrite IHl; [ring|]. intros p I. apply K. now right. }
      apply G. intros p I E. apply NI. exists p. auto. }
  destruct (smap_dec m m0) as [->|N]; [|apply OT; exact N].
  assert (LZ : lin (fun _ => 1%R) (others m0 L0) = 0%R).
  { apply (lin_zero _ n); [exact LO|]. intros x. destruct (smap_dec x m0) as [->|N]; [apply csum_same|]. rewrite csum_others by assumption. apply OT, N. }
  assert (P1 : pos (fun _ => 1%R)) by (intros k; lra). pose proof (H _ P1) as H1. rewrite (lin_split _ m0), LZ, Rplus_0_r in H1. apply Rmult_integral in H1 as [H1|H1]; [exact H1|]. pose proof (sv_pos _ _ P1 M0). lra.
Qed.
