(** Proofs: the comparator of Poly::normalize. *)
From Coq Require Import ZArith Znumtheory QArith Qreals Reals String Ascii Lia Lra Bool List Permutation Sorted.
From Verif Require Import Base AdapterModel AdapterProofs RationalModel RationalSpec RationalProofs RationalProofs2 RealModel RealSpec RealProofs1 RealProofs2 RealProofs3 RealProofs4 RealProofs5 RealProofs6 RealProofs7 RealProofs8 PolyModel PolySpec PolyProofs1 PolyProofs2 PolyProofs3 PolyProofs4 PolyProofs6 SortSpec.
Import ListNotations.
Open Scope Z_scope.

Lemma plain_tok w t : plain_term w t -> tok w t. Proof. intros (A & B & _). now split. Qed.
Lemma idx_bound a b w : 0 < a -> a = b -> a * a < 2 ^ w -> a * b < 2 ^ w. Proof. now intros _ <-. Qed.
Lemma before_precedes w a b t : 1 < w -> plain_term w a -> plain_term w b -> term_before w a b = Ok t -> (t = true <-> precedes a b).
Proof.
  intros Hw A B H. pose proof (plain_tok w a A) as TA. pose proof (plain_tok w b B) as TB. pose proof (before_key w a b t TA TB H) as K. unfold precedes. destruct (key_cmp a b) eqn:E.
  - assert (t = true <-> (rv (tco b) < rv (tco a))%R).
    { apply (key_eq w) in E as (E1 & E2 & E3); try assumption. unfold term_before in H. apply bind_ok in H as (e & He & H). destruct e; [|apply smap_eq_false in He; contradiction]. cbn [negb] in H. rewrite E2, Z.eqb_refl in H. cbn [negb] in H. apply bind_ok in H as (r & Hr & H). apply rat_ne_inv in Hr. rewrite E3, Z.eqb_refl in Hr. cbn [negb] in Hr. subst r.
      destruct A as ([Ga _] & Ca & Da & Ia), B as ([Gb _] & Cb & Db & Ib). refine (real_gt_value w (tco a) (tco b) t Hw Ga Gb Ca Cb Da Db _ H). now rewrite E2. }
    rewrite H0. split; [auto|]. intros [X|X]; [discriminate|apply X].
  - destruct t; [contradiction|]. split; [discriminate|]. intros [X|[X _]]; discriminate.
  - destruct t; [|contradiction]. split; auto.
Qed.
Lemma precedes_trans w a b c : plain_term w a -> plain_term w b -> plain_term w c -> precedes a b -> precedes b c -> precedes a c.
Proof.
  intros A B C H1 H2. apply plain_tok in A, B, C. assert (K1 : key_cmp a b <> Lt) by (destruct H1 as [->|[-> _]]; discriminate). assert (K2 : key_cmp b c <> Lt) by (destruct H2 as [->|[-> _]]; discriminate). destruct (key_trans w a b c A B C K1 K2) as [N Q]. unfold precedes in *.
  destruct (key_cmp a c) eqn:E; [|contradiction|now left]. right. split; [reflexivity|]. specialize (Q eq_refl). destruct H1 as [H1|[_ H1]]; [congruence|]. assert (key_cmp b c = Eq).
  { apply (key_eq w) in Q as (X1 & X2 & X3); try assumption. apply (key_eq w) in E as (Y1 & Y2 & Y3); try assumption. apply (key_eq w); try assumption. repeat split; congruence. }
  destruct H2 as [H2|[_ H2]]; [congruence|]. lra.
Qed.
Lemma not_precedes w a b : plain_term w a -> plain_term w b -> ~ precedes a b -> ~ precedes b a -> key_cmp a b = Eq /\ rv (tco a) = rv (tco b).
Proof.
  intros A B N1 N2. unfold precedes in *. rewrite (key_opp a b) in N2. destruct (key_cmp a b); cbn [CompOpp] in N2; [|exfalso; apply N2; now left|exfalso; apply N1; now left]. split; [reflexivity|].
  destruct (Rtotal_order (rv (tco a)) (rv (tco b))) as [L|[L|L]]; [|assumption|]; exfalso; [apply N2|apply N1]; right; auto.
Qed.
Lemma comparator_strict_weak w : 1 < w -> strict_weak_ordering (plain_term w) (term_before w).
Proof.
  intros Hw. pose proof (fun a b t A B H => before_precedes w a b t Hw A B H) as BP.
  assert (IR : forall a, plain_term w a -> ~ precedes a a).
  { intros a A [X|[_ X]]; [|lra]. pose proof (key_opp a a) as O. rewrite X in O. discriminate. }
  assert (FA : forall a b, plain_term w a -> plain_term w b -> term_before w a b = Ok false -> ~ precedes a b).
  { intros a b A B H X. apply BP in H; try assumption. apply H in X. discriminate. }
  split; [|split; [|split]].
  - intros a A H. apply (IR a A). now apply BP in H; [apply H| |].
  - intros a b A B H1 H2. apply (IR a A). apply BP in H1; try assumption. apply BP in H2; try assumption. apply (precedes_trans w a b a); try assumption; [now apply H1|now apply H2].
  - intros a b c A B C H1 H2 H3. apply BP in H1; try assumption. apply BP in H2; try assumption. apply (FA a c A C H3). apply (precedes_trans w a b c); try assumption; [now apply H1|now apply H2].
  - intros a b c A B C H1 H2 H3 H4. apply FA in H1, H2, H3, H4; try assumption. destruct (not_precedes w a b A B H1 H2) as [K1 V1]. destruct (not_precedes w b c B C H3 H4) as [K2 V2].
    pose proof (plain_tok w a A) as TA. pose proof (plain_tok w b B) as TB. pose proof (plain_tok w c C) as TC.
    assert (K : key_cmp a c = Eq). { apply (key_eq w) in K1 as (X1 & X2 & X3); try assumption. apply (key_eq w) in K2 as (Y1 & Y2 & Y3); try assumption. apply (key_eq w); try assumption. repeat split; congruence. }
    split; intros H; (apply BP in H; try assumption); apply proj1 in H; specialize (H eq_refl).
    + destruct H as [H|[_ H]]; [congruence|]. rewrite V1, V2 in H. lra.
    + destruct H as [H|[_ H]]; [rewrite (key_opp a c), K in H; discriminate|]. rewrite V1, V2 in H. lra.
Qed.
Lemma sorts_orders P : sorts P -> sort_permutes P /\ sort_orders P.
Proof.
  intros H. split; [intros l l' E; exact (proj1 (H l l' E))|]. intros l l' F E. destruct (H l l' E) as [PM S]. assert (F' : Forall (tok (ew (pe P))) l') by (eapply Forall_perm; [exact PM|exact F]). clear E PM F H.
  induction S as [|a l' S IH A]; [constructor|]. inversion F' as [|? ? Ta Tl]; subst. specialize (IH Tl). constructor; [assumption|]. destruct A as [|b l' A]; [constructor|]. inversion Tl as [|? ? Tb Tr]; subst.
  assert (K : key_cmp a b <> Lt). { destruct A as [A|A]; [pose proof (before_key _ a b _ Ta Tb A) as X; destruct (key_cmp a b); congruence|]. pose proof (before_key _ b a _ Tb Ta A) as X. rewrite key_opp. destruct (key_cmp b a); cbn [CompOpp]; congruence. }
  inversion IH as [|? ? _ FB]; subst. constructor; [assumption|]. rewrite Forall_forall in *. intros x I. apply (key_trans (ew (pe P)) a b x); auto.
Qed.
Lemma insert_adjacent w t l : let Q a b := term_before w a b = Ok true \/ term_before w b a = Ok false in Sorted Q l -> forall l', insert_term w t l = Ok l' -> Sorted Q l' /\ (forall u, HdRel Q u l -> Q u t -> HdRel Q u l').
Proof.
  intros Q S. induction S as [|u l S IH A]; intros l' H; cbn [insert_term] in H; [injection H as <-; split; [repeat constructor|intros; now constructor]|]. apply bind_ok in H as (b & Hb & H). destruct b.
  - apply bind_ok in H as (r & Hr & H). injection H as <-. destruct (IH r Hr) as [S' H']. split; [constructor; [assumption|]; apply H'; [assumption|now left]|]. intros v Hv _. inversion Hv; subst. now constructor.
  - injection H as <-. split; [constructor; [now constructor|]; constructor; now right|]. intros v _ Hv. now constructor.
Qed.
Lemma isort_sorts E : sorts (PEnv E (isort (ew E))).
Proof.
  intros l l' H. cbn [psort pe] in *. split; [now apply (isort_perm (ew E))|]. revert l' H. induction l as [|t l IH]; intros l' H; cbn [isort] in H; [injection H as <-; constructor|]. apply bind_ok in H as (s & Hs & H). exact (proj1 (insert_adjacent (ew E) t s (IH s Hs) l' H)).
Qed.
Lemma ties w a b : 1 < w -> plain_term w a -> plain_term w b -> term_before w a b = Ok false -> term_before w b a = Ok false -> syms a = syms b /\ idx (tco a) = idx (tco b) /\ rad (tco a) = rad (tco b) /\ rv (tco a) = rv (tco b).
Proof.
  intros Hw A B H1 H2. apply (before_precedes w) in H1, H2; try assumption. destruct (not_precedes w a b A B) as [K V]; [intros X; apply H1 in X; discriminate|intros X; apply H2 in X; discriminate|].
  apply (key_eq w) in K as (E1 & E2 & E3); [auto|now apply plain_tok|now apply plain_tok].
Qed.
Lemma canonical_root2 q : den q <> 0 -> num q <> 0 -> canonical (Real 2 (Rat 2 1) q).
Proof.
  intros D N. exists 2. cbn [rad idx coe]. split; [reflexivity|]. split; [lia|]. split; [lia|]. split; [assumption|]. split; [|split; [|contradiction]].
  - intros p Hp X. apply prime_ge_2 in Hp. apply Z.divide_pos_le in X; nia.
  - intros d k Hd X E. apply Z.divide_pos_le in X; [|lia]. assert (d = 2) as -> by lia. destruct (Z_lt_le_dec (Z.abs k) 2); nia.
Qed.
