(** Powers, symbol maps, terms. *)
From Coq Require Import ZArith Znumtheory QArith Qreals Reals String Lia Lra Bool List Permutation.
From Verif Require Import Base AdapterModel AdapterProofs RationalModel RationalSpec RationalProofs RationalProofs2 RealModel RealSpec RealProofs1 RealProofs2 RealProofs3 RealProofs4 RealProofs5 RealProofs6 PolyModel PolySpec.
Import ListNotations.
Open Scope Z_scope.

(** ** powers *)
Lemma pwr_pos x q : qok q -> (0 < x)%R -> pwr x q = Rpower x (Q2R (qv q)).
Proof.
  intros [D _] H. unfold pwr. destruct (Z.eqb_spec (den q) 1) as [E|]; [|reflexivity]. rewrite powerRZ_Rpower by assumption. f_equal. rewrite qv_R by lia. rewrite E. field.
Qed.
Lemma pwr_int x n : pwr x (Rat n 1) = powerRZ x n. Proof. reflexivity. Qed.
Lemma rat_den1 q : den q = 1 -> q = Rat (num q) 1. Proof. destruct q as [n d]. cbn. now intros ->. Qed.
Lemma qok_add w a b c : qok a -> qok b -> rat_add w a b = Ok c -> qok c.
Proof. intros [A _] [B _] H. split; [apply (rat_add_pos w a b); try lia; assumption|now apply (rat_add_lowest w a b)]. Qed.
Lemma qok_mul w a b c : qok a -> qok b -> rat_mul w a b = Ok c -> qok c.
Proof. intros [A A'] [B B'] H. split; [apply (rat_mul_pos w a b c H); now apply Z.mul_pos_pos|now apply (rat_mul_lowest w a b)]. Qed.
(** the reduced fraction of an integer *)
Lemma qok_int q n : qok q -> (qv q == inject_Z n)%Q -> q = Rat n 1.
Proof.
  intros [D L] E. assert (E2 : num q * 1 = n * den q).
  { apply qdiv_eq_inv; [lia|lia|]. fold (qv q). rewrite E. unfold Qdiv. rewrite Qmult_1_r. reflexivity. }
  rewrite Z.mul_1_r in E2. unfold lowest_terms in L. rewrite E2 in L. rewrite Z.gcd_comm in L. replace (den q) with (1 * den q) in L at 1 by ring. rewrite Z.gcd_mul_mono_r, Z.gcd_1_l in L.
  assert (den q = 1) by lia. destruct q as [a d]. cbn in *. subst d. f_equal. lia.
Qed.
Lemma powerRZ_mult x e k : x <> 0%R -> powerRZ (powerRZ x e) (Z.of_nat k) = powerRZ x (e * Z.of_nat k).
Proof.
  intros H. rewrite <- pow_powerRZ. induction k as [|k IH]; [now rewrite Z.mul_0_r|]. cbn [pow]. rewrite IH, <- powerRZ_add by assumption. f_equal. lia.
Qed.
Lemma powerRZ0 e : 0 < e -> powerRZ 0 e = 0%R.
Proof. destruct e; try lia. intros _. cbn. apply pow_i. lia. Qed.
Lemma pwr_add w x a b c : qok a -> qok b -> rat_add w a b = Ok c -> adm1 x a -> adm1 x b -> pwr x c = (pwr x a * pwr x b)%R /\ adm1 x c.
Proof.
  intros Qa Qb H Aa Ab. pose proof (qok_add _ _ _ _ Qa Qb H) as Qc. pose proof H as H2. apply rat_add_exact in H2 as [_ V]; [|destruct Qa; lia|destruct Qb; lia].
  destruct (Rlt_dec 0 x) as [P|N].
  - split; [|now left]. rewrite !pwr_pos by assumption. rewrite (Q2R_eq _ _ V), Q2R_plus. apply Rpower_plus.
  - destruct Aa as [?|[Da Na]]; [contradiction|]. destruct Ab as [?|[Db Nb]]; [contradiction|].
    rewrite (rat_den1 a Da), (rat_den1 b Db) in V |- *. assert (E : c = Rat (num a + num b) 1).
    { apply qok_int; [assumption|]. rewrite V. unfold qv. cbn [num den]. rewrite inject_Z_plus. unfold Qdiv. rewrite !Qmult_1_r. reflexivity. }
    subst c. rewrite !pwr_int. destruct (Req_dec x 0) as [->|NZ].
    + assert (0 < num a) by (destruct Na; [contradiction|assumption]). assert (0 < num b) by (destruct Nb; [contradiction|assumption]).
      split; [rewrite !powerRZ0 by lia; ring|]. right. cbn [num den]. split; [reflexivity|right; lia].
    + split; [now apply powerRZ_add|]. right. cbn [den]. auto.
Qed.

(** ** symbol maps *)
Lemma sv_cons s p m : sv s (p :: m) = (pwr (s (fst p)) (snd p) * sv s m)%R. Proof. reflexivity. Qed.
Lemma sfind_in k m q : sfind k m = Some q -> In (k, q) m.
Proof. induction m as [|[k' v] m IH]; cbn [sfind]; [discriminate|]. destruct (String.eqb_spec k k') as [<-|]; [intros [= ->]; now left|right; auto]. Qed.
Lemma sfind_none k m : sfind k m = None <-> ~ In k (map fst m).
Proof.
  induction m as [|[k' v] m IH]; cbn [sfind map fst In]; [tauto|]. destruct (String.eqb_spec k k') as [<-|N]; [split; [discriminate|intros H; exfalso; apply H; now left]|].
  rewrite IH. split; intros H; [intros [E|I]; [congruence|tauto]|tauto].
Qed.
Lemma sv_insert s k v m : sv s (sinsert k v m) = (pwr (s k) v * sv s m)%R.
Proof.
  induction m as [|[k' v'] m IH]; cbn [sinsert]; [reflexivity|]. destruct (String.compare k k'); rewrite ?sv_cons; cbn [fst snd]; try reflexivity; rewrite IH; ring.
Qed.
Lemma insert_perm k v m : Permutation (sinsert k v m) ((k, v) :: m).
Proof.
  induction m as [|[k' v'] m IH]; cbn [sinsert]; [reflexivity|]. destruct (String.compare k k'); [|reflexivity|]; (etransitivity; [apply perm_skip, IH|apply perm_swap]).
Qed.
Lemma swf_perm m m' : Permutation m m' -> swf m -> swf m'.
Proof.
  intros P [N F]. split; [eapply Permutation_NoDup; [apply Permutation_map; exact P|assumption]|]. rewrite Forall_forall in *. intros x I. apply F. eapply Permutation_in; [symmetry; exact P|assumption].
Qed.
Lemma sadm_perm s m m' : Permutation m m' -> sadm s m -> sadm s m'.
Proof. intros P F. unfold sadm in *. rewrite Forall_forall in *. intros x I. apply F. eapply Permutation_in; [symmetry; exact P|assumption]. Qed.
Lemma supdate_keys k v m : map fst (supdate k v m) = map fst m.
Proof. induction m as [|[k' v'] m IH]; cbn [supdate]; [reflexivity|]. destruct (String.eqb k k'); cbn [map fst]; [reflexivity|now rewrite IH]. Qed.
Lemma supdate_forall (Q : string * rat -> Prop) k v m : Forall Q m -> Q (k, v) -> Forall Q (supdate k v m).
Proof.
  intros F H. induction F as [|[k' v'] m X F IH]; cbn [supdate]; [constructor|]. destruct (String.eqb_spec k k') as [<-|]; constructor; auto.
Qed.
Lemma sv_update s k q0 q1 q m : sfind k m = Some q0 -> pwr (s k) q1 = (pwr (s k) q0 * pwr (s k) q)%R -> sv s (supdate k q1 m) = (pwr (s k) q * sv s m)%R.
Proof.
  intros F E. induction m as [|[k' v] m IH]; cbn [sfind supdate] in *; [discriminate|]. destruct (String.eqb_spec k k') as [<-|N].
  - injection F as ->. rewrite !sv_cons. cbn [fst snd]. rewrite E. ring.
  - rewrite !sv_cons. cbn [fst snd]. rewrite IH by assumption. ring.
Qed.
Lemma merge_syms_spec w s b : forall a m, merge_syms w b a = Ok m -> swf a -> swf b -> sadm s a -> sadm s b ->
  swf m /\ sadm s m /\ sv s m = (sv s a * sv s b)%R.
Proof.
  induction b as [|[k q] b IH]; intros a m H Wa Wb Aa Ab; cbn [merge_syms] in H.
  - injection H as <-. split; [assumption|]. split; [assumption|]. cbn. ring.
  - destruct Wb as [Nb Fb]. cbn [map fst] in Nb. inversion Nb as [|? ? N1 N2]; subst. inversion Fb as [|? ? F1 F2]; subst. inversion Ab as [|? ? A1 A2]; subst. cbn [fst snd] in *.
    destruct (sfind k a) as [q0|] eqn:Fa.
    + apply bind_ok in H as (q1 & Hq & H). pose proof (sfind_in _ _ _ Fa) as I. pose proof Wa as [Na Qa]. pose proof Aa as Aa2. unfold sadm in Aa2. rewrite Forall_forall in Qa, Aa2. specialize (Aa2 _ I). pose proof (Qa _ I) as Q0. cbn [fst snd] in *.
      destruct (pwr_add _ _ _ _ _ Q0 F1 Hq Aa2 A1) as [E Ad]. pose proof (qok_add _ _ _ _ Q0 F1 Hq) as Q1.
      apply IH in H as (Wm & Am & V); [|split; [rewrite supdate_keys; assumption|]|split; assumption| |assumption].
      * split; [assumption|]. split; [assumption|]. rewrite V, (sv_update s k q0 q1 q a Fa E), sv_cons. cbn [fst snd]. ring.
      * apply supdate_forall; [apply Forall_forall; assumption|assumption].
      * apply supdate_forall; assumption.
    + apply sfind_none in Fa. apply IH in H as (Wm & Am & V).
      * split; [assumption|]. split; [assumption|]. rewrite V, sv_insert, sv_cons. cbn [fst snd]. ring.
      * eapply swf_perm; [symmetry; apply insert_perm|]. destruct Wa as [Na Qa]. split; [cbn [map fst]; now constructor|now constructor].
      * now split.
      * eapply sadm_perm; [symmetry; apply insert_perm|]. now constructor.
      * assumption.
Qed.
Lemma merge_keys w b : forall a m, merge_syms w b a = Ok m -> forall k, In k (map fst m) <-> In k (map fst a) \/ In k (map fst b).
Proof.
  induction b as [|[k q] b IH]; intros a m H x; cbn [merge_syms] in H; [injection H as <-; cbn; tauto|]. cbn [map fst In].
  destruct (sfind k a) as [q0|] eqn:Fa.
  - apply bind_ok in H as (q1 & _ & H). rewrite (IH _ _ H x), supdate_keys. assert (In k (map fst a)) by (apply (in_map fst) in Fa as X || apply sfind_in, (in_map fst) in Fa; exact Fa).
    intuition (subst; auto).
  - rewrite (IH _ _ H x). rewrite (Permutation_map fst (insert_perm k q a)). cbn [map fst In]. intuition.
Qed.
Lemma drop_zero_spec w s m : forall m', drop_zero w m = Ok m' -> Forall (fun p => qok (snd p)) m ->
  (forall p, In p m' <-> In p m /\ num (snd p) <> 0) /\ (NoDup (map fst m) -> NoDup (map fst m')) /\ sv s m' = sv s m.
Proof.
  induction m as [|[k v] m IH]; intros m' H Q; cbn [drop_zero] in H.
  - injection H as <-. split; [cbn; tauto|auto].
  - apply bind_ok in H as (z & Hz & H). apply rat_eq_inv in Hz. cbn [num den] in Hz. rewrite Z.mul_1_r, Z.mul_0_l in Hz. apply bind_ok in H as (r & Hr & H). inversion Q as [|? ? Q1 Q2]; subst. cbn [snd] in Q1.
    destruct (IH _ Hr Q2) as (A & B & C). injection H as <-. destruct (Z.eqb_spec (num v) 0) as [E|N].
    + split; [|split].
      * intros p. rewrite A. cbn [In]. split; [tauto|]. intros [[<-|I] Np]; [cbn in Np; lia|auto].
      * intros N. inversion N; subst. auto.
      * rewrite C, sv_cons. cbn [fst snd]. assert (v = Rat 0 1) as ->.
        { apply qok_int; [assumption|]. unfold qv. rewrite E. unfold Qdiv. apply Qmult_0_l. }
        rewrite pwr_int. cbn [powerRZ]. ring.
    + split; [|split].
      * intros p. cbn [In]. rewrite A. split; [intros [<-|I]; [split; [now left|assumption]|tauto]|]. intros [[<-|I] Np]; tauto.
      * intros ND. inversion ND as [|? ? X Y]; subst. cbn [map fst]. constructor; [|auto]. intros I. apply X. apply in_map_iff in I as (p & <- & I). apply A in I as [I _]. now apply in_map.
      * rewrite !sv_cons, C. reflexivity.
Qed.
Lemma normalize_syms w s m m' : drop_zero w m = Ok m' -> swf m -> swf m' /\ no_zero_exponent m' /\ sv s m' = sv s m /\ (sadm s m -> sadm s m').
Proof.
  intros H [N Q]. destruct (drop_zero_spec w s m m' H Q) as (A & B & C). unfold no_zero_exponent, sadm. rewrite !Forall_forall. split; [split; [auto|]|].
  - rewrite Forall_forall. intros p I. apply A in I as [I _]. rewrite Forall_forall in Q. auto.
  - split; [intros p I; now apply A in I as [_ I]|]. split; [assumption|]. intros F p I. apply A in I as [I _]. auto.
Qed.
