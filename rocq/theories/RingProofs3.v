(** Proofs: polynomials with integer coefficients and positive integer exponents, in the order of the comparator. *)
From Coq Require Import ZArith Znumtheory QArith Qreals Reals String Ascii Lia Lra Bool List Permutation Sorted.
From Verif Require Import Base AdapterModel AdapterProofs RationalModel RationalSpec RationalProofs RationalProofs2 RealModel RealSpec RealProofs1 RealProofs3 PolyModel PolySpec PolyProofs1 PolyProofs2 PolyProofs3 PolyProofs4 PolyProofs6 ExprModel ParserModel TextSpec TextProofs1 RingProofs1 RingProofs2.
Import ListNotations.
Open Scope Z_scope.

Lemma sfind_none_in k (m : smap) : sfind k m = None -> ~ In k (map fst m). Proof. apply sfind_none. Qed.
Lemma insert_forall (Q : string * rat -> Prop) k v m : Q (k, v) -> Forall Q m -> Forall Q (sinsert k v m).
Proof. intros A B. eapply Forall_perm; [apply Permutation_sym, insert_perm|]. now constructor. Qed.
Lemma insert_skeys k v m : skeys m -> ~ In k (map fst m) -> skeys (sinsert k v m).
Proof.
  destruct string_total as (S1 & S2 & S3 & S4). intros S. induction S as [|[k' v'] m S IH F]; intros N; cbn [sinsert]; [repeat constructor|]. cbn [map fst] in N. destruct (String.compare k k') eqn:C.
  - apply S2 in C; trivial. subst. exfalso. apply N. now left.
  - constructor; [now constructor|]. constructor; [exact C|]. rewrite Forall_forall in *. intros y I. apply (S4 k k' (fst y)); trivial. exact (F y I).
  - constructor; [apply IH; intros I; apply N; now right|]. apply insert_forall; [|exact F]. cbn [fst]. rewrite S3, C. reflexivity.
Qed.
Lemma update_skeys k v m : skeys m -> skeys (supdate k v m).
Proof.
  intros S. induction S as [|[k' v'] m S IH F]; cbn [supdate]; [constructor|]. destruct (String.eqb k k').
  - constructor; [exact S|]. exact F.
  - constructor; [exact IH|]. cbn [fst] in *. rewrite Forall_forall in *. intros y I.
    assert (J : In (fst y) (map fst m)) by (rewrite <- (supdate_keys k v m); now apply in_map). apply in_map_iff in J as (z & Hz & J). rewrite <- Hz. exact (F z J).
Qed.

Section T.
  Variable P : penv.
  Variable N : string -> Prop.
  Hypothesis HR : reads P.
  Local Notation E := (pe P).
  Local Notation w := (ew (pe P)).
  (** an entry: an allowed name, an integer exponent from lo up *)
  Definition entry (lo : Z) (p : string * rat) : Prop := N (fst p) /\ den (snd p) = 1 /\ lo <= num (snd p) < 2 ^ (w - 1).
  Definition powers (lo : Z) (m : smap) : Prop := skeys m /\ Forall (entry lo) m.
  Definition iterm (t : term) : Prop := (exists n, tco t = rint n /\ rng P n) /\ powers 1 (syms t).

  Lemma entry_rat lo p : entry lo p -> snd p = Rat (num (snd p)) 1. Proof. intros (_ & D & _). now apply rat_den1. Qed.
  Lemma merge_powers lo : 0 <= lo -> forall b a m, powers lo a -> powers lo b -> merge_syms w b a = Ok m -> powers lo m.
  Proof.
    intros L. induction b as [|[k q] b IH]; intros a m A B H; cbn [merge_syms] in H; [injection H as <-; exact A|].
    destruct B as [Sb Fb]. inversion Sb as [|? ? Sb' _]; subst. inversion Fb as [|? ? Eb Fb']; subst. destruct A as [Sa Fa]. destruct (sfind k a) as [q0|] eqn:F.
    - apply bind_ok in H as (q1 & Hq & H). apply sfind_in in F. pose proof (proj1 (Forall_forall _ _) Fa _ F) as E0. pose proof (entry_rat _ _ E0) as X0. pose proof (entry_rat _ _ Eb) as X1. cbn [snd] in X0, X1. rewrite X0, X1 in Hq.
      pose proof (add_rng _ _ _ _ Hq) as B. apply add_zz in Hq. apply IH in H; [exact H| |split; assumption]. split; [now apply update_skeys|]. apply supdate_forall; [exact Fa|]. destruct E0 as (N0 & D0 & B0), Eb as (N1 & D1 & B1). cbn [fst snd] in *. subst q1. split; [exact N0|]. split; [reflexivity|]. cbn [num snd]. lia.
    - apply sfind_none_in in F. apply IH in H; [exact H| |split; assumption]. split; [now apply insert_skeys|]. apply insert_forall; assumption.
  Qed.
  Lemma drop_powers : forall m m', powers 0 m -> drop_zero w m = Ok m' -> powers 1 m'.
  Proof.
    assert (H : forall m m', drop_zero w m = Ok m' -> powers 0 m -> powers 1 m' /\ incl m' m).
    { induction m as [|[k v] m IH]; intros m' H [S F]; cbn [drop_zero] in H; [injection H as <-; split; [split; constructor|apply incl_refl]|].
      inversion S as [|? ? S' L]; subst. inversion F as [|? ? (N1 & D1 & B1) F']; subst. cbn [fst snd] in *. apply bind_ok in H as (z & Hz & H). apply bind_ok in H as (r & Hr & H). injection H as <-. apply IH in Hr as [[Sr Fr] I]; [|split; assumption].
      apply rat_eq_inv in Hz. cbn [num den] in Hz. rewrite Z.mul_1_r, Z.mul_0_l in Hz. destruct (Z.eqb_spec (num v) 0) as [Z0|Z0]; subst z.
      - split; [split; assumption|]. intros x J. right. now apply I.
      - split; [|intros x [<-|J]; [now left|right; now apply I]]. split.
        + constructor; [exact Sr|]. rewrite Forall_forall in *. intros x J. apply L, I, J.
        + constructor; [|exact Fr]. split; [exact N1|]. split; [exact D1|]. cbn [snd]. lia. }
    intros m m' A B. now apply (H m m').
  Qed.
  Lemma powers_le m : powers 1 m -> powers 0 m.
  Proof. intros [S F]. split; [exact S|]. eapply Forall_impl; [|exact F]. intros p (A & B & C). split; [exact A|]. split; [exact B|]. lia. Qed.
  Lemma iterm_of n m : rng P n -> powers 0 m -> forall t, term_normalize w (Term (rint n) m) = Ok t -> iterm t.
  Proof. intros B A t H. unfold term_normalize in H. cbn [tco syms] in H. apply bind_ok in H as (s & Hs & H). injection H as <-. split; [exists n; now split|]. cbn [syms]. now apply (drop_powers m). Qed.
  Lemma imul a b t : iterm a -> iterm b -> term_mul E a b = Ok t -> iterm t.
  Proof.
    intros [(x & Hx & Bx) A] [(y & Hy & By) B] H. unfold term_mul in H. apply bind_ok in H as (s & Hs & H). apply bind_ok in H as (c & Hc & H). rewrite Hx, Hy in Hc. apply (zmul P HR) in Hc as [-> Bc]. apply (merge_powers 1) in Hs; [|lia|exact A|exact B]. eapply iterm_of; [exact Bc|apply powers_le; exact Hs|exact H].
  Qed.
  Lemma inegate a t : iterm a -> term_negate E a = Ok t -> iterm t.
  Proof. intros [(x & Hx & Bx) A] H. unfold term_negate in H. apply bind_ok in H as (c & Hc & H). rewrite Hx in Hc. apply (zneg P HR) in Hc as [-> Bc]. eapply iterm_of; [exact Bc|apply powers_le; exact A|exact H]. Qed.
  Lemma idiv1 a t : iterm a -> term_div E a (rint 1) = Ok t -> iterm t.
  Proof. intros [(x & Hx & Bx) A] H. unfold term_div in H. apply bind_ok in H as (c & Hc & H). rewrite Hx in Hc. apply (zdiv1 P HR) in Hc as ->. eapply iterm_of; [exact Bx|apply powers_le; exact A|exact H]. Qed.
  Lemma scale_powers n : 0 <= n -> forall m m', powers 1 m -> scale_syms w (Rat n 1) m = Ok m' -> powers 0 m' /\ map fst m' = map fst m.
  Proof.
    intros Hn. induction m as [|[k v] m IH]; intros m' [S F] H; cbn [scale_syms] in H; [injection H as <-; split; [split; constructor|reflexivity]|].
    inversion S as [|? ? S' L]; subst. inversion F as [|? ? Ev F']; subst. apply bind_ok in H as (v' & Hv & H). apply bind_ok in H as (r & Hr & H). injection H as <-. apply IH in Hr as [[Sr Fr] K]; [|split; assumption].
    pose proof (entry_rat _ _ Ev) as X. cbn [snd] in X. rewrite X in Hv. pose proof (mul_rng _ _ _ _ Hv) as B. apply mul_zz in Hv. destruct Ev as (N1 & D1 & B1). cbn [fst snd] in *. subst v'. split; [|cbn [map fst]; now rewrite K]. split.
    - constructor; [exact Sr|]. rewrite Forall_forall in *. intros x J. assert (I : In (fst x) (map fst m)) by (rewrite <- K; now apply in_map). apply in_map_iff in I as (z & Hz & I). cbn [fst]. rewrite <- Hz. exact (L z I).
    - constructor; [|exact Fr]. split; [exact N1|]. split; [reflexivity|]. cbn [num snd]. nia.
  Qed.
  Lemma ipow a n t : 0 <= n -> iterm a -> term_pow E a (Rat n 1) = Ok t -> iterm t.
  Proof.
    intros Hn [(x & Hx & Bx) A] H. unfold term_pow in H. apply bind_ok in H as (c & Hc & H). rewrite Hx in Hc. apply (zpow P HR) in Hc as [-> Bc]; try assumption. apply bind_ok in H as (s & Hs & H). apply (scale_powers n Hn) in Hs as [Hs _]; [|exact A]. eapply iterm_of; [exact Bc|exact Hs|exact H].
  Qed.
  Lemma iconst n : rng P n -> iterm (term_const (rint n)).
  Proof. intros B. split; [exists n; now split|]. split; constructor. Qed.

  (** ** merging *)
  Definition desc (l : poly) : Prop := StronglySorted (fun a b => syms_cmp (syms a) (syms b) = Gt) l.
  Lemma powers_qok lo m : powers lo m -> Forall (fun p => qok (snd p)) m.
  Proof. intros [_ F]. eapply Forall_impl; [|exact F]. intros p Ep. rewrite (entry_rat _ _ Ep). apply qok_z. Qed.
  Lemma iterm_qok t : iterm t -> Forall (fun p => qok (snd p)) (syms t). Proof. intros [_ A]. now apply (powers_qok 1). Qed.
  Lemma iterm_mono t : iterm t -> mono (syms t).
  Proof. intros [_ [S F]]. split; [exact S|]. eapply Forall_impl; [|exact F]. intros p Ep. split; [rewrite (entry_rat _ _ Ep); apply qok_z|]. destruct Ep as (_ & _ & B). lia. Qed.
  Lemma iterm_nonzero t : iterm t -> no_zero_exponent (syms t).
  Proof. intros [_ [_ F]]. eapply Forall_impl; [|exact F]. intros p (_ & _ & B). lia. Qed.
  Lemma canonical_rint n : canonical (rint n).
  Proof.
    exists 1. cbn [rint rad idx coe den num]. repeat split; try lia.
    - intros p Hp D. rewrite Z.pow_1_r in D. apply Z.divide_1_r in D. pose proof (prime_ge_2 p Hp). lia.
    - intros d k D1 D2. apply Z.divide_1_r in D2. lia.
  Qed.
  Lemma good_rint n : good w (rint n).
  Proof. pose proof (w3 P HR). assert (2 <= 2 ^ w) by (change 2 with (2 ^ 1) at 1; apply Z.pow_le_mono_r; lia). split; [|reflexivity]. unfold wf. cbn [rint idx rad coe num den]. lia. Qed.
  Lemma iterm_tok t : iterm t -> PolyProofs6.tok w t.
  Proof.
    intros T. pose proof T as [(n & Hn & _) [S _]]. split; [|rewrite Hn; apply canonical_rint]. split; [rewrite Hn; apply good_rint|]. split; [now apply skeys_nodup|now apply iterm_qok].
  Qed.
  Lemma equiv_rint a b e : is_equivalent w (rint a) (rint b) = Ok e -> e = true.
  Proof.
    unfold is_equivalent. cbn [rint rad idx]. intros H. apply bind_ok in H as (s & _ & H). apply bind_ok in H as (o & _ & H). destruct (s && o)%bool; [congruence|]. change ((1 =? 1) && (1 =? 1))%bool with true in H. congruence.
  Qed.
  Lemma merge_desc : forall l a l', iterm a -> Forall iterm l -> StronglySorted (fun a b => syms_cmp (syms a) (syms b) <> Lt) l -> Forall (fun b => syms_cmp (syms a) (syms b) <> Lt) l -> merge_from E a l = Ok l' ->
    Forall iterm l' /\ desc l' /\ Forall (fun x => exists y, In y (a :: l) /\ syms x = syms y) l' /\ l' <> [].
  Proof.
    destruct syms_total as (S1 & S2 & S3 & S4). induction l as [|b l IH]; intros a l' Ta Tl S G H.
    - injection H as <-. split; [now constructor|]. split; [repeat constructor|]. split; [|discriminate]. constructor; [|constructor]. exists a. split; [now left|reflexivity].
    - inversion Tl as [|? ? Tb Tl']; subst. inversion S as [|? ? S' Sb]; subst. inversion G as [|? ? G1 G2]; subst. apply merge_from_step in H as (e & He & H). unfold term_equivalent in He. apply bind_ok in He as (q & Hq & He). pose proof Ta as [(x & Hx & Bx) Pa]. pose proof Tb as [(y & Hy & By) Pb]. destruct q.
      + rewrite Hx, Hy in He. apply equiv_rint in He as ->. apply (smap_eq_value _ _ _ (fun _ => 0%R)) in Hq as [Es _]; [|now apply iterm_qok|now apply iterm_qok].
        destruct H as (t & Ht & H). apply bind_ok in Ht as (c & Hc & Ht). rewrite Hx, Hy in Hc. apply (zadd P HR) in Hc as [-> Bc]. unfold term_make, term_normalize in Ht. cbn [syms tco] in Ht. apply bind_ok in Ht as (m & Hm & Ht). apply drop_zero_id in Hm; [|now apply iterm_nonzero]. subst m. injection Ht as <-.
        apply IH in H as (A & B & C & D); try assumption.
        * split; [exact A|]. split; [exact B|]. split; [|exact D]. eapply Forall_impl; [|exact C]. cbn beta. intros z (u & [<-|J] & K); [exists a; split; [now left|exact K]|exists u; split; [right; now right|exact K]].
        * split; [exists (x + y); now split|exact Pa].
      + injection He as <-. destruct H as (r & Hr & ->). apply smap_eq_false in Hq. apply IH in Hr as (A & B & C & D); try assumption. split; [now constructor|]. split; [|split; [|discriminate]].
        * constructor; [exact B|]. assert (AB : syms_cmp (syms b) (syms a) = Lt).
          { rewrite (S3 (syms a) (syms b)). destruct (syms_cmp (syms a) (syms b)) eqn:K; cbn [CompOpp]; [|congruence|reflexivity]. exfalso. apply Hq. apply S2; [now apply iterm_qok|now apply iterm_qok|exact K]. }
          rewrite Forall_forall in *. intros z J. destruct (C z J) as (u & [<-|I] & K); rewrite K; [rewrite (S3 (syms b) (syms a)), AB; reflexivity|].
          specialize (Sb u I). rewrite (S3 (syms u) (syms a)). assert (syms_cmp (syms u) (syms a) = Lt) as ->; [|reflexivity].
          destruct (syms_cmp (syms b) (syms u)) eqn:BU; [|congruence|].
          -- apply S2 in BU; [rewrite <- BU; exact AB|now apply iterm_qok|apply iterm_qok; now apply Tl'].
          -- apply (S4 (syms u) (syms b) (syms a)); [apply iterm_qok; now apply Tl'|now apply iterm_qok|now apply iterm_qok|rewrite (S3 (syms b) (syms u)), BU; reflexivity|exact AB].
        * constructor; [exists a; split; [now left|reflexivity]|]. eapply Forall_impl; [|exact C]. cbn beta. intros z (u & J & K). exists u. split; [now right|exact K].
  Qed.
  Lemma key_syms a b : iterm a -> iterm b -> key_cmp a b = syms_cmp (syms a) (syms b).
  Proof. intros [(x & Hx & _) _] [(y & Hy & _) _]. unfold key_cmp. rewrite Hx, Hy. cbn [rint idx rad]. rewrite Z.compare_refl. change (qcmp (Rat 1 1) (Rat 1 1)) with Eq. now destruct (syms_cmp (syms a) (syms b)). Qed.

  Hypothesis HM : machine P.
  Hypothesis HS : sort_orders P.
  Definition ipoly (l : poly) : Prop := Forall iterm l /\ desc l /\ l <> [].
  Lemma normalize_i l l' : Forall iterm l -> l <> [] -> poly_normalize P l = Ok l' -> ipoly l'.
  Proof.
    intros F NE H. unfold poly_normalize in H. apply bind_ok in H as (m & Hm & H). assert (PM : Permutation l m) by (destruct HM as (_ & _ & _ & SP); now apply SP). assert (Fm : Forall iterm m) by (eapply Forall_perm; eauto).
    apply HS in Hm; [|eapply Forall_impl; [|exact F]; apply iterm_tok]. destruct m as [|a m]; [apply Permutation_sym, Permutation_nil in PM; contradiction|]. cbn [merge_terms] in H. inversion Fm as [|? ? Ta Tm]; subst. inversion Hm as [|? ? Sm Am]; subst.
    apply merge_desc in H as (A & B & _ & D); try assumption; [now repeat split| |].
    - clear - Sm Tm. induction Sm as [|x r Sr IH Xr]; [constructor|]. inversion Tm; subst. constructor; [now apply IH|]. rewrite Forall_forall in *. intros y I. rewrite <- key_syms; auto.
    - rewrite Forall_forall in *. intros y I. rewrite <- key_syms; auto.
  Qed.
  Lemma mapr_i {A} (f : A -> res term) l r : (forall a t, In a l -> f a = Ok t -> iterm t) -> mapr f l = Ok r -> Forall iterm r /\ (l <> [] -> r <> []).
  Proof.
    intros F H. apply mapr_inv in H. split.
    - revert F. induction H as [|a t l r Ht H IH]; intros F; [constructor|]. constructor; [apply (F a); [now left|exact Ht]|]. apply IH. intros b u I. apply F. now right.
    - destruct H; congruence.
  Qed.
  Lemma add_i a b r : ipoly a -> ipoly b -> poly_add_to P a b = Ok r -> ipoly r.
  Proof. intros (A & _ & NA) (B & _ & _) H. apply normalize_i in H; [exact H|apply Forall_app; now split|destruct a; [contradiction|discriminate]]. Qed.
  Lemma negate_i a r : ipoly a -> poly_negate E a = Ok r -> Forall iterm r /\ r <> [].
  Proof. intros (A & _ & NA) H. apply mapr_i in H as [X Y]; [split; auto|]. intros t u I. rewrite Forall_forall in A. apply inegate, A, I. Qed.
  Lemma mul_i a b r : ipoly a -> ipoly b -> poly_mul_to P a b = Ok r -> ipoly r.
  Proof.
    intros (A & _ & NA) (B & _ & NB) H. unfold poly_mul_to in H. apply bind_ok in H as (l & Hl & H). pose proof (rows_nonempty _ _ _ _ Hl) as NE. apply normalize_i in H; [exact H| |intros Z; destruct (NE Z); contradiction]. apply mapr_inv in Hl. clear - Hl A B HR. induction Hl as [|x row a l Hx Hl IH]; [constructor|]. inversion A; subst. cbn [concat]. apply Forall_app. split; [|now apply IH].
    apply mapr_i in Hx as [X _]; [exact X|]. intros y t I Ht. rewrite Forall_forall in B. apply (imul x y t); auto.
  Qed.
  Lemma div1_i a r : Forall iterm a -> a <> [] -> poly_div_to P a (rint 1) = Ok r -> ipoly r.
  Proof.
    intros A NA H. unfold poly_div_to in H. apply bind_ok in H as (l & Hl & H). apply mapr_i in Hl as [X Y]; [apply normalize_i in H; auto|]. intros t u I. rewrite Forall_forall in A. apply idiv1, A, I.
  Qed.
  (** every coefficient is above the least number of the machine *)
  Definition above (l : poly) : Prop := Forall (fun t => exists n, tco t = rint n /\ - 2 ^ (w - 1) < n) l.
  Lemma merge_above : forall l a l', above (a :: l) -> merge_from E a l = Ok l' -> above l'.
  Proof.
    induction l as [|b l IH]; intros a l' A H; [injection H as <-; exact A|]. inversion A as [|? ? (x & Hx & Bx) A']; subst. inversion A' as [|? ? (y & Hy & By) A'']; subst. apply merge_from_step in H as (e & _ & H). destruct e.
    - destruct H as (t & Ht & H). apply bind_ok in Ht as (c & Hc & Ht). rewrite Hx, Hy in Hc. pose proof (zadd_above P _ _ _ Hc) as B. apply (zadd P HR) in Hc as [-> _]. unfold term_make, term_normalize in Ht. cbn [syms tco] in Ht. apply bind_ok in Ht as (m & _ & Ht). injection Ht as <-. apply IH in H; [exact H|]. constructor; [|exact A'']. exists (x + y). now split.
    - destruct H as (r & Hr & ->). apply IH in Hr; [|exact A']. constructor; [|exact Hr]. exists x. now split.
  Qed.
  Lemma normalize_above_i l l' : above l -> poly_normalize P l = Ok l' -> above l'.
  Proof.
    intros A H. unfold poly_normalize in H. apply bind_ok in H as (m & Hm & H). assert (PM : Permutation l m) by (destruct HM as (_ & _ & _ & SP); now apply SP). assert (Am : above m) by (eapply Forall_perm; eauto).
    destruct m as [|a m]; cbn [merge_terms] in H; [injection H as <-; constructor|]. now apply merge_above in H.
  Qed.
  Lemma div1_above a r : Forall iterm a -> poly_div_to P a (rint 1) = Ok r -> above r.
  Proof.
    intros A H. unfold poly_div_to in H. apply bind_ok in H as (l & Hl & H). apply normalize_above_i in H; [exact H|]. apply mapr_inv in Hl. clear - Hl A HR. induction Hl as [|x t a l Hx Hl IH]; [constructor|]. inversion A as [|? ? [(n & Hn & _) _] A']; subst. constructor; [|now apply IH].
    unfold term_div in Hx. apply bind_ok in Hx as (c & Hc & Hx). rewrite Hn in Hc. pose proof (zdiv1_above P HR _ _ Hc) as B. apply (zdiv1 P HR) in Hc as ->. unfold term_normalize in Hx. cbn [tco syms] in Hx. apply bind_ok in Hx as (m & _ & Hx). injection Hx as <-. exists n. now split.
  Qed.
  Lemma single_i t : iterm t -> ipoly [t]. Proof. intros T. repeat split; [now constructor|repeat constructor|discriminate]. Qed.

  (** ** powers *)
  Lemma qok_div_pos q t q' : qok q -> 0 < t -> rat_div w q (Rat t 1) = Ok q' -> qok q'.
  Proof.
    intros Q T H. unfold rat_div in H. apply bind_ok in H as (iv & Hi & H). apply (qok_mul _ _ _ _ Q) in H; [exact H|]. split; [|now apply rat_inverse_lowest in Hi]. unfold rat_inverse in Hi. cbn [num den] in Hi. now apply rat_make_pos in Hi.
  Qed.
  Lemma div_fact_qok : forall k q t q', qok q -> 0 < t -> t + Z.of_nat k <= 2 ^ (w - 1) -> div_fact w q t k = Ok q' -> qok q'.
  Proof.
    pose proof (w3 P HR) as W3. induction k as [|k IH]; intros q t q' Q T B H; cbn [div_fact] in H; [injection H as <-; exact Q|]. apply bind_ok in H as (d & Hd & H). apply bind_ok in H as (q1 & Hq & H). unfold rat_of_index in Hd. apply of_int_inv in Hd. rewrite swrap_small' in Hd by lia. subst d. apply qok_div_pos in Hq; [|exact Q|exact T]. apply IH in H; [exact H|exact Hq|lia|lia].
  Qed.
  Lemma div_facts_qok : forall v q q', qok q -> Forall (fun e => 0 <= e < 2 ^ (w - 1)) v -> div_facts w q v = Ok q' -> qok q'.
  Proof. induction v as [|e v IH]; intros q q' Q F H; cbn [div_facts] in H; [injection H as <-; exact Q|]. inversion F; subst. apply bind_ok in H as (q1 & Hq & H). apply div_fact_qok in Hq; [|exact Q|lia|lia]. now apply IH in H. Qed.
  Lemma vfacts_z v : vfacts v = IZR (fold_right (fun a r => Z.of_nat (fact (Z.to_nat a)) * r) 1 v).
  Proof. induction v as [|a v IH]; [reflexivity|]. cbn [vfacts fold_right]. rewrite mult_IZR, <- IH, <- INR_IZR_INZ. reflexivity. Qed.
  Lemma multinomial_i a n v t : Forall iterm a -> Z.of_nat (fact n) < 2 ^ (w - 1) -> Forall (fun e => 0 <= e) v -> fold_right Z.add 0 v = Z.of_nat n -> multinomial E a (Z.of_nat (fact n)) v = Ok t -> iterm t.
  Proof.
    intros A B F S H. pose proof (w3 P HR) as W3. pose proof (lt_O_fact n) as FP. unfold multinomial in H. apply bind_ok in H as (q0 & H0 & H). apply bind_ok in H as (q & Hq & H). apply bind_ok in H as (c & Hc & H).
    unfold rat_of_index in H0. apply of_int_inv in H0. rewrite swrap_small' in H0 by lia. subst q0. assert (NF : Z.of_nat n <= Z.of_nat (fact n)) by (clear; induction n as [|n IH]; [cbn; lia|]; rewrite fact_simpl, Nat2Z.inj_mul; pose proof (lt_O_fact n); nia).
    assert (F2 : Forall (fun e => 0 <= e < 2 ^ (w - 1)) v) by (rewrite Forall_forall; intros e I; pose proof (le_sum v e F I); rewrite Forall_forall in F; specialize (F e I); cbn beta in F; lia).
    pose proof (div_facts_qok _ _ _ (qok_z _) F2 Hq) as Qq. apply div_facts_value in Hq as [Dq Vq]; [|lia|exact F2|discriminate].
    destruct (facts_divide v F) as [k Hk]. rewrite S, Nat2Z.id in Hk. set (D := fold_right (fun a r => Z.of_nat (fact (Z.to_nat a)) * r) 1 v) in *. assert (DP : 0 < D) by (unfold D; clear; induction v as [|e v IH]; cbn [fold_right]; [lia|]; pose proof (lt_O_fact (Z.to_nat e)); nia).
    assert (Vk : q = Rat k 1).
    { apply qok_int; [exact Qq|]. apply eqR_Qeq. rewrite vfacts_z in Vq. fold D in Vq. rewrite (Q2R_eq _ _ (qv_z (Z.of_nat (fact n)))) in Vq. unfold Q2R in Vq at 2. cbn [inject_Z Qnum Qden QArith_base.Qnum QArith_base.Qden] in Vq. rewrite Hk, mult_IZR in Vq. unfold Q2R at 2. cbn [inject_Z Qnum Qden QArith_base.Qnum QArith_base.Qden]. apply (IZR_lt 0) in DP. apply (Rmult_eq_reg_r (IZR D)); lra. }
    subst q. unfold real_of_rat, real_make in Hc. apply (norm_unit P HR) in Hc. assert (RK : rng P k) by (unfold rng; nia). assert (T0 : iterm (term_const c)) by (subst c; now apply iconst). clear - H A F T0 HR. revert H T0. generalize (term_const c). revert v F. induction a as [|x a IH]; intros v F acc H T0; cbn [mul_powers] in H; [injection H as <-; exact T0|].
    destruct v as [|e v]; [injection H as <-; exact T0|]. inversion F; subst. inversion A; subst. apply bind_ok in H as (q & Hq & H). apply of_int_inv in Hq as ->. apply bind_ok in H as (p & Hp & H). apply bind_ok in H as (c' & Hc & H). apply ipow in Hp; try assumption. apply imul in Hc; try assumption. now apply IH in H.
  Qed.
  Lemma try_sum_i : forall l m x, rng P m -> Forall iterm l -> try_sum E (rint m) l = Ok (Some x) -> exists n, x = rint n /\ rng P n.
  Proof.
    induction l as [|t l IH]; intros m x B F H; cbn [try_sum] in H; [injection H as <-; exists m; now split|]. inversion F as [|? ? Tt Tl]; subst. unfold term_try_eval in H. destruct (no_symbols t); [|discriminate]. apply bind_ok in H as (e & He & H). destruct e; [|discriminate]. apply bind_ok in H as (a & Ha & H). destruct Tt as [(n & Hn & _) _]. rewrite Hn in Ha. apply (zadd P HR) in Ha as [-> Ba]. now apply IH in H.
  Qed.
  Lemma try_eval_i l x : Forall iterm l -> poly_try_eval E l = Ok (Some x) -> exists n, x = rint n /\ rng P n.
  Proof. intros F H. pose proof (w4 P HR). unfold poly_try_eval in H. apply bind_ok in H as (z & Hz & H). apply (zof P HR) in Hz as ->. apply try_sum_i in H; [exact H|unfold rng; lia|exact F]. Qed.
  Lemma pow_i a n r : 0 <= n -> Z.of_nat (fact (Z.to_nat n)) < 2 ^ (w - 1) \/ length a = 1%nat -> ipoly a -> poly_pow P a (Rat n 1) = Ok r -> ipoly r.
  Proof.
    intros Hn B IA H. pose proof IA as (A & DA & NA). pose proof (w3 P HR) as W3. pose proof (w4 P HR) as W4. unfold poly_pow in H. cbv zeta in H. apply bind_ok in H as (z & Hz & H). apply rat_eq_inv in Hz. cbn [num den] in Hz. rewrite Z.mul_1_r, Z.mul_0_l in Hz. destruct (Z.eqb_spec n 0) as [N0|N0]; subst z.
    { apply bind_ok in H as (c & Hc & H). apply (zof P HR) in Hc as ->. apply normalize_i in H; [exact H|constructor; [apply iconst; unfold rng; lia|constructor]|discriminate]. }
    apply bind_ok in H as (o & Ho & H). destruct o; [injection H as <-; exact IA|].
    assert (HC : forall c l, (exists m, c = rint m /\ rng P m) -> (c' <- real_pow E c (Rat n 1) ;; poly_make P [term_const c']) = Ok l -> ipoly l).
    { intros c l (m & -> & Bm) X. apply bind_ok in X as (c' & Hc & X). apply (zpow P HR) in Hc as [-> Bc]; try assumption. apply normalize_i in X; [exact X|constructor; [now apply iconst|constructor]|discriminate]. }
    assert (HG : (2 <= length a)%nat -> (v <- poly_try_eval E a ;; match v with Some c => c' <- real_pow E c (Rat n 1) ;; poly_make P [term_const c'] | None => if is_int (Rat n 1) then
            n <- rat_to_t w (Rat n 1) ;;
            vs <- solve_variable_eq w (length a) n (Z.of_nat (length a)) ;;
            l <- mapr (multinomial E a (wfact w (Z.to_nat (uwrap w n)))) vs ;;
            poly_make P l
          else Throw "Must be a int." end) = Ok r -> ipoly r).
    { clear H. intros LA H. destruct B as [B|B]; [|lia]. apply bind_ok in H as (v & Hv & H). destruct v as [c|]; [apply try_eval_i in Hv; [now apply (HC c r)|exact A]|].
      unfold is_int in H. cbn [den Z.eqb Pos.eqb] in H. apply bind_ok in H as (n' & Hn' & H). unfold rat_to_t in Hn'. apply quot_w_inv in Hn' as (_ & -> & B2). cbn [num den] in *. rewrite Z.quot_1_r in *.
      apply bind_ok in H as (vs & Hvs & H). apply bind_ok in H as (l & Hl & H). assert (HL : Z.of_nat (length a) = Z.of_nat (length a - 2) + 2) by lia. rewrite HL in Hvs. apply solve_sols in Hvs as [_ ->].
      unfold uwrap in Hl. rewrite Z.mod_small in Hl by (assert (2 ^ w = 2 * 2 ^ (w - 1)) by (rewrite <- Z.pow_succ_r by lia; f_equal; lia); lia). rewrite wfact_exact in Hl by lia.
      apply mapr_i in Hl as [X Y].
      - apply normalize_i in H; [exact H|exact X|]. apply Y. intros Z0. pose proof (proj2 (sols_in (length a - 2) n (n :: repeat 0 (length a - 1)))) as Q. rewrite Z0 in Q. apply Q. unfold solution. cbn [length fold_right]. rewrite repeat_length. repeat split; [lia| |].
        + constructor; [lia|]. rewrite Forall_forall. intros x I. apply repeat_spec in I. lia.
        + assert (Z1 : forall k, fold_right Z.add 0 (repeat 0 k) = 0) by (induction k; cbn; auto). rewrite Z1. lia.
      - intros v t I Ht. apply sols_in in I as (_ & F & S). apply multinomial_i in Ht; try assumption. now rewrite Z2Nat.id. }
    destruct a as [|t [|u a]]; [contradiction| |apply HG; [cbn; lia|exact H]]. apply bind_ok in H as (p & Hp & H). inversion A; subst. apply ipow in Hp; try assumption. apply normalize_i in H; [exact H|now constructor|discriminate].
  Qed.
End T.
