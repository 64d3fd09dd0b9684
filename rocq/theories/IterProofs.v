From Coq Require Import ZArith String Ascii Lia Bool List Sorted.
From Verif Require Import Base AdapterModel HugeModel RationalModel RealModel PolyModel ScanModel DtoaModel IterModel.
Import ListNotations.
Open Scope Z_scope.

Lemma sret {A B} (a : A) (f : A -> scan B) : sbind (ret a) f = f a. Proof. reflexivity. Qed.
Lemma sscan {A B} (x : res A) (f : A -> res B) (g : A -> scan B) : (forall a, x = Ok a -> g a = Scan (f a)) -> sbind (Scan x) g = Scan (bind x f).
Proof. intros H. destruct x; cbn; auto. Qed.
Lemma next_in n i : (i < n)%nat -> next_it n i = ret (S i).
Proof. intros H. unfold next_it. destruct (Nat.ltb_spec i n); [reflexivity|lia]. Qed.
Lemma mid_deref {A} (pre l : list A) a : deref (pre ++ a :: l) (length pre) = ret a.
Proof. unfold deref. now rewrite nth_error_app2, Nat.sub_diag by lia. Qed.
Lemma mid_deref1 {A} (pre l : list A) a b : deref (pre ++ a :: b :: l) (S (length pre)) = ret b.
Proof. unfold deref. rewrite nth_error_app2 by lia. now replace (S (length pre) - length pre)%nat with 1%nat by lia. Qed.
Lemma mid_split {A} (pre l : list A) a : firstn (length pre) (pre ++ a :: l) = pre /\ skipn (S (length pre)) (pre ++ a :: l) = l.
Proof.
  split; [now rewrite firstn_app, Nat.sub_diag, firstn_all, app_nil_r|].
  rewrite skipn_app. replace (S (length pre) - length pre)%nat with 1%nat by lia. rewrite skipn_all2 by lia. reflexivity.
Qed.
Lemma mid_len {A} (pre l : list A) a : (length pre <? length (pre ++ a :: l))%nat = true.
Proof. apply Nat.ltb_lt. rewrite app_length. cbn. lia. Qed.
Lemma mid_erase {A} (pre l : list A) a : erase_it (pre ++ a :: l) (length pre) = ret (pre ++ l, length pre).
Proof. unfold erase_it. rewrite mid_len. destruct (mid_split pre l a) as [-> ->]. reflexivity. Qed.
Lemma mid_store {A} (pre l : list A) a b : store_it (pre ++ a :: l) (length pre) b = ret (pre ++ b :: l).
Proof. unfold store_it. rewrite mid_len. destruct (mid_split pre l a) as [-> ->]. reflexivity. Qed.
Lemma snoc {A} (pre l : list A) a : pre ++ a :: l = (pre ++ [a]) ++ l. Proof. now rewrite <- app_assoc. Qed.
Lemma snoc_len {A} (pre : list A) a : S (length pre) = length (pre ++ [a]). Proof. rewrite app_length. cbn. lia. Qed.
Lemma mid_next {A} (pre l : list A) a : next_it (length (pre ++ a :: l)) (length pre) = ret (S (length pre)).
Proof. apply next_in. rewrite app_length. cbn. lia. Qed.

(** Poly::normalize *)
Lemma merge_mid E l : forall f pre a, (length l + 1 < f)%nat -> merge_at f E (pre ++ a :: l) (length pre) = Scan (r <- merge_from E a l ;; Ok (pre ++ r)).
Proof.
  induction l as [|b l IH]; intros f pre a F; (destruct f as [|f]; [cbn in F; lia|]); cbn [merge_at merge_from]; rewrite mid_len, mid_next, sret.
  - replace (S (length pre) <? length (pre ++ [a]))%nat with false by (rewrite <- snoc_len; symmetry; apply Nat.ltb_ge; lia).
    rewrite sret, sret. destruct f as [|f]; [cbn in F; lia|]. cbn [merge_at]. rewrite <- snoc_len, Nat.ltb_irrefl. reflexivity.
  - replace (S (length pre) <? length (pre ++ a :: b :: l))%nat with true by (symmetry; apply Nat.ltb_lt; rewrite app_length; cbn; lia).
    rewrite mid_deref, !sret, mid_deref1, !sret.
    destruct (term_equivalent (ew E) a b) as [[|]|m|m|]; cbn [sbind bind]; try reflexivity.
    + destruct (real_add E (tco a) (tco b)) as [c|m|m|]; cbn [sbind bind]; try reflexivity.
      destruct (term_make (ew E) c (syms a)) as [t|m|m|]; cbn [sbind bind]; try reflexivity.
      rewrite mid_store, sret, ?mid_next, ?sret. rewrite (snoc pre (b :: l) t), (snoc_len pre t), mid_erase, sret. rewrite <- snoc_len. cbn [prev_it]. rewrite sret, <- snoc.
      apply IH. cbn in F. lia.
    + rewrite (snoc pre (b :: l) a), (snoc_len pre a). rewrite IH by (cbn in F; lia).
      destruct (merge_from E b l) as [r|m|m|]; cbn [bind]; try reflexivity. now rewrite <- snoc.
Qed.
Lemma merge_ok E l : merge_at (S (S (length l))) E l 0 = Scan (merge_terms E l).
Proof.
  destruct l as [|a l]; [reflexivity|]. rewrite (merge_mid E l _ [] a) by (cbn; lia). unfold merge_terms. cbn [app]. destruct (merge_from E a l); reflexivity.
Qed.
Lemma normalize_at_ok P l : normalize_at P l = Scan (poly_normalize P l).
Proof. unfold normalize_at, poly_normalize. apply sscan. intros s _. apply merge_ok. Qed.

(** Term::normalize *)
Lemma drop_mid w m : forall f pre, (length m < f)%nat -> drop_at f w (pre ++ m) (length pre) = Scan (r <- drop_zero w m ;; Ok (pre ++ r)).
Proof.
  induction m as [|[k v] m IH]; intros f pre F; (destruct f as [|f]; [lia|]); cbn [drop_at drop_zero].
  - rewrite app_nil_r, Nat.eqb_refl. cbn [bind]. now rewrite app_nil_r.
  - replace (length pre =? length (pre ++ (k, v) :: m))%nat with false by (symmetry; apply Nat.eqb_neq; rewrite app_length; cbn; lia).
    rewrite mid_deref, sret. cbn [snd]. destruct (rat_eq w v (Rat 0 1)) as [[|]|e|e|]; cbn [sbind bind]; try reflexivity.
    + rewrite mid_erase, sret, IH by (cbn in F; lia). destruct (drop_zero w m); reflexivity.
    + rewrite mid_next, sret, (snoc pre m), (snoc_len pre (k, v)), IH by (cbn in F; lia).
      destruct (drop_zero w m) as [r|e|e|]; cbn [bind]; try reflexivity. now rewrite <- snoc.
Qed.
Lemma term_normalize_at_ok w t : term_normalize_at w t = Scan (term_normalize w t).
Proof. unfold term_normalize_at, term_normalize. rewrite (drop_mid w (syms t) _ []) by lia. cbn [app]. destruct (drop_zero w (syms t)); reflexivity. Qed.

(** std::map::find *)
Lemma find_some {V} k : forall m : list (string * V), (find_at String.eqb k m = length m /\ (forall q, ~ In (k, q) m)) \/ (exists pre q l, m = pre ++ (k, q) :: l /\ find_at String.eqb k m = length pre /\ (forall q', ~ In (k, q') pre)).
Proof.
  induction m as [|[k' v] m IH]; [left; split; [reflexivity|intros q []]|]. cbn [find_at]. destruct (String.eqb_spec k k') as [->|N].
  - right. exists [], v, m. repeat split. intros q' [].
  - destruct IH as [[E H]|(pre & q & l & -> & E & H)].
    + left. split; [cbn; now rewrite E|]. intros q [X|X]; [congruence|exact (H q X)].
    + right. exists ((k', v) :: pre), q, l. repeat split; [cbn; now rewrite E|]. intros q' [X|X]; [congruence|exact (H q' X)].
Qed.
Lemma absent_sfind k : forall m : smap, (forall q, ~ In (k, q) m) -> sfind k m = None /\ serase k m = m.
Proof.
  induction m as [|[k' v] m IH]; intros H; [split; reflexivity|]. cbn [sfind serase]. destruct (String.eqb_spec k k') as [->|N]; [exfalso; apply (H v); left; reflexivity|].
  destruct IH as [-> ->]; [intros q X; apply (H q); right; exact X|split; reflexivity].
Qed.
Lemma present_smap k q l : forall pre : smap, (forall q', ~ In (k, q') pre) ->
  sfind k (pre ++ (k, q) :: l) = Some q /\ serase k (pre ++ (k, q) :: l) = pre ++ l /\ forall q1, supdate k q1 (pre ++ (k, q) :: l) = pre ++ (k, q1) :: l.
Proof.
  induction pre as [|[k' v] pre IH]; intros H; cbn [app sfind serase supdate]; [rewrite String.eqb_refl; repeat split|].
  destruct (String.eqb_spec k k') as [->|N]; [exfalso; apply (H v); left; reflexivity|]. destruct IH as (-> & -> & U); [intros q' X; apply (H q'); right; exact X|].
  repeat split. intros q1. now rewrite U.
Qed.
Lemma absent_efind k : forall m : envmap, (forall q, ~ In (k, q) m) -> efind k m = None.
Proof.
  induction m as [|[k' v] m IH]; intros H; [reflexivity|]. cbn [efind]. destruct (String.eqb_spec k k') as [->|N]; [exfalso; apply (H v); left; reflexivity|].
  apply IH. intros q X. apply (H q). right. exact X.
Qed.
Lemma present_efind k q l : forall pre : envmap, (forall q', ~ In (k, q') pre) -> efind k (pre ++ (k, q) :: l) = Some q.
Proof.
  induction pre as [|[k' v] pre IH]; intros H; cbn [app efind]; [now rewrite String.eqb_refl|].
  destruct (String.eqb_spec k k') as [->|N]; [exfalso; apply (H v); left; reflexivity|]. apply IH. intros q' X. apply (H q'). right. exact X.
Qed.
Lemma not_end {A} (pre l : list A) a : (length pre =? length (pre ++ a :: l))%nat = false.
Proof. apply Nat.eqb_neq. rewrite app_length. cbn. lia. Qed.
Lemma subst_coe_ok E e : forall m c, subst_coe_at E e m c = Scan (subst_coe E e m c).
Proof.
  induction m as [|[k q] m IH]; intros c; [reflexivity|]. cbn [subst_coe_at subst_coe]. destruct (find_some k e) as [[F H]|(pre & v & l & -> & F & H)].
  - rewrite F, Nat.eqb_refl, (absent_efind k e H). apply IH.
  - rewrite F, not_end, mid_deref, sret, (present_efind k v l pre H). cbn [snd]. apply sscan. intros p _. apply sscan. intros c' _. apply IH.
Qed.
Lemma subst_erase_ok e : forall m, subst_erase_at e m = Scan (Ok (fold_left (fun m p => serase (fst p) m) e m)).
Proof.
  induction e as [|[k v] e IH]; intros m; [reflexivity|]. cbn [subst_erase_at fold_left fst]. destruct (find_some k m) as [[F H]|(pre & q & l & -> & F & H)].
  - rewrite F, Nat.eqb_refl, IH. destruct (absent_sfind k m H) as [_ ->]. reflexivity.
  - rewrite F, not_end, mid_erase, sret, IH. destruct (present_smap k q l pre H) as (_ & -> & _). reflexivity.
Qed.
Lemma term_subst_at_ok E e t : term_subst_at E e t = Scan (term_subst E e t).
Proof. unfold term_subst_at, term_subst. rewrite subst_coe_ok. apply sscan. intros c _. rewrite subst_erase_ok. reflexivity. Qed.
Lemma merge_syms_ok w : forall b a, merge_syms_at w b a = Scan (merge_syms w b a).
Proof.
  induction b as [|[k q] b IH]; intros a; [reflexivity|]. cbn [merge_syms_at merge_syms]. destruct (find_some k a) as [[F H]|(pre & q0 & l & -> & F & H)].
  - rewrite F, Nat.eqb_refl. destruct (absent_sfind k a H) as [-> _]. apply IH.
  - rewrite F, not_end, mid_deref, sret. destruct (present_smap k q0 l pre H) as (-> & _ & U). cbn [fst snd]. apply sscan. intros q1 _. rewrite mid_store, sret, U. apply IH.
Qed.

(** decompose_radicand *)
Definition keys_up (m : list (Z * list Z)) : Prop := StronglySorted (fun a b => fst a < fst b) m.
Lemma add_at e x : forall m, keys_up m ->
  (find_at Z.eqb e m = length m /\ insert_entry e [x] m = map_add e x m) \/
  (exists pre u l, m = pre ++ (e, u) :: l /\ find_at Z.eqb e m = length pre /\ map_add e x m = pre ++ (e, u ++ [x]) :: l).
Proof.
  induction m as [|[k u] m IH]; intros S; [left; split; reflexivity|]. inversion S as [|? ? S' F]; subst. cbn [find_at insert_entry map_add].
  destruct (Z.eqb_spec e k) as [->|N]; [right; exists [], u, m; repeat split|]. destruct (IH S') as [[E H]|(pre & u' & l & -> & E & H)].
  - left. rewrite E, H. split; [reflexivity|]. reflexivity.
  - right. assert (k < e) by (apply Forall_app in F as [_ F]; inversion F; subst; cbn in *; lia). destruct (Z.ltb_spec e k); [lia|].
    exists ((k, u) :: pre), u', l. repeat split; [cbn; now rewrite E|now rewrite H].
Qed.
Lemma map_add_up e x : forall m, keys_up m -> keys_up (map_add e x m) /\ (forall k v, In (k, v) (map_add e x m) -> k = e \/ In k (map fst m)).
Proof.
  induction m as [|[k u] m IH]; intros S.
  - split; [repeat constructor|]. intros k v [X|[]]. left. congruence.
  - inversion S as [|? ? S' F]; subst. cbn [map_add]. destruct (Z.eqb_spec e k) as [->|N].
    + split; [constructor; [exact S'|exact F]|]. intros k' v [X|X]; [left; congruence|]. right. right. exact (in_map fst _ _ X).
    + destruct (Z.ltb_spec e k).
      * split. { constructor; [exact S|]. constructor; [cbn; lia|]. eapply Forall_impl; [|exact F]. cbn. intros. lia. }
        intros k' v [X|X]; [left; congruence|]. right. exact (in_map fst _ _ X).
      * destruct (IH S') as [IS IK]. split.
        { constructor; [exact IS|]. apply Forall_forall. intros [k' v] X. cbn. destruct (IK k' v X) as [->|Y]; [lia|]. apply in_map_iff in Y as ([k2 v2] & <- & Y). rewrite Forall_forall in F. exact (F _ Y). }
        intros k' v [X|X]; [right; left; cbn; congruence|]. destruct (IK k' v X) as [->|Y]; [left; reflexivity|right; right; exact Y].
Qed.
Lemma decompose_mid l : forall f pre exp m, (length l < f)%nat -> keys_up m -> decompose_at f (pre ++ l) (length pre) exp m = Scan (Ok (decompose_loop l exp m)).
Proof.
  induction l as [|x l IH]; intros f pre exp m F K; (destruct f as [|f]; [lia|]); cbn [decompose_at].
  - rewrite app_nil_r, Nat.eqb_refl. reflexivity.
  - rewrite not_end, mid_next, sret.
    assert (Step : forall same m', same = false -> m' = map_add exp x m ->
       ('(exp, m) <~ (if same : bool then ret (exp + 1, m) else
                      let itr := find_at Z.eqb exp m in
                      m <~ (if (itr =? length m)%nat then x <~ deref (pre ++ x :: l) (length pre) ;; ret (insert_entry exp [x] m)
                            else r <~ deref m itr ;; x <~ deref (pre ++ x :: l) (length pre) ;; store_it m itr (fst r, snd r ++ [x])) ;;
                      ret (1, m)) ;; it <~ ret (S (length pre)) ;; decompose_at f (pre ++ x :: l) it exp m) = Scan (Ok (decompose_loop l 1 m'))).
    { intros same m' -> ->. rewrite mid_deref. cbv zeta. pose proof (proj1 (map_add_up exp x m K)) as K'.
      destruct (add_at exp x m K) as [[E H]|(p & u & r & E0 & E & H)].
      - rewrite E, Nat.eqb_refl, !sret, H, (snoc pre l x), (snoc_len pre x). apply IH; [cbn in F; lia|exact K'].
      - rewrite E. rewrite E0 at 1. rewrite not_end. rewrite E0. rewrite mid_deref, !sret. cbn [fst snd]. rewrite mid_store, !sret, <- E0, <- H, (snoc pre l x), (snoc_len pre x).
        apply IH; [cbn in F; lia|exact K']. }
    destruct l as [|y l].
    + replace (S (length pre) =? length (pre ++ [x]))%nat with true by (rewrite <- snoc_len; symmetry; apply Nat.eqb_refl). rewrite sret.
      exact (Step false _ eq_refl eq_refl).
    + replace (S (length pre) =? length (pre ++ x :: y :: l))%nat with false by (symmetry; apply Nat.eqb_neq; rewrite app_length; cbn; lia).
      rewrite mid_deref, mid_deref1, !sret. change (decompose_loop (x :: y :: l) exp m) with (if x =? y then decompose_loop (y :: l) (exp + 1) m else decompose_loop (y :: l) 1 (map_add exp x m)).
      destruct (x =? y) eqn:XY.
      * rewrite ?sret, (snoc pre (y :: l) x), (snoc_len pre x). apply IH; [cbn in F |- *; lia|exact K].
      * pose proof (Step false _ eq_refl eq_refl) as G. rewrite mid_deref in G. exact G.
Qed.
Lemma decompose_at_ok l : decompose_at (S (length l)) l 0 1 [] = Scan (Ok (decompose_loop l 1 [])).
Proof. apply (decompose_mid l _ []); [lia|constructor]. Qed.

(** prettify_string *)
Lemma plus_in n k : 0 <= k <= Z.of_nat n -> plus_it n 0 k = ret (Z.to_nat k).
Proof. intros H. unfold plus_it. cbn [Z.add]. replace ((0 <=? k) && (k <=? Z.of_nat n))%bool with true by (symmetry; apply andb_true_iff; split; apply Z.leb_le; lia). reflexivity. Qed.
Lemma range_in (s : text) a b : (a <= b)%nat -> range_at s a b = ret (firstn (b - a) (skipn a s)).
Proof. intros H. unfold range_at. destruct (Nat.leb_spec a b); [reflexivity|lia]. Qed.
Lemma prettify_at_ok buffer k : buffer <> [] -> prettify_at buffer k = Scan (prettify_string buffer k).
Proof.
  intros N. unfold prettify_at, prettify_string. cbv zeta. set (kk := Z.of_nat (length buffer) + k).
  destruct ((Z.of_nat (length buffer) <=? kk) && (kk <=? 21))%bool eqn:E1; [destruct (zeros (kk - 1)); reflexivity|].
  destruct ((0 <? kk) && (kk <=? 21))%bool eqn:E2.
  { apply andb_true_iff in E2 as [A B]. rewrite B, andb_true_r in E1. apply Z.ltb_lt in A. apply Z.leb_gt in E1. rewrite plus_in by lia. rewrite !sret. rewrite (range_in buffer 0) by lia. rewrite !sret. rewrite (range_in buffer (Z.to_nat kk)) by lia. rewrite !sret.
    rewrite Nat.sub_0_r. cbn [skipn]. rewrite firstn_all2 with (n := (length buffer - Z.to_nat kk)%nat) by (rewrite skipn_length; lia). reflexivity. }
  destruct ((-6 <? kk) && (kk <=? 0))%bool; [destruct (zeros (- kk)); reflexivity|].
  destruct (Z.of_nat (length buffer) =? 1); [reflexivity|]. destruct buffer as [|c r]; [contradiction|].
  rewrite (plus_in _ 1) by (cbn [length]; lia). rewrite (plus_in _ (Z.of_nat _)) by lia. unfold read. replace (0 <? length (c :: r))%nat with true by reflexivity. cbn [nth]. rewrite !sret, Nat2Z.id.
  rewrite range_in by (cbn [length Z.to_nat Pos.to_nat Pos.iter_op]; lia). rewrite sret. change (Z.to_nat 1) with 1%nat. cbn [skipn]. rewrite firstn_all2 by (cbn [length]; lia). reflexivity.
Qed.
(** of an empty buffer it would form an iterator behind the end, where prettify_string says so *)
Lemma prettify_at_empty k : prettify_at [] k = Outside <-> exists m, prettify_string [] k = Ub m.
Proof.
  unfold prettify_at, prettify_string. cbv zeta. cbn [length Z.of_nat]. set (kk := 0 + k).
  destruct ((0 <=? kk) && (kk <=? 21))%bool eqn:E1. { unfold zeros. destruct (kk - 1 <? 0); cbn; split; try discriminate; intros [m X]; discriminate. }
  destruct ((0 <? kk) && (kk <=? 21))%bool eqn:E2. { exfalso. apply andb_true_iff in E2 as [A B]. rewrite B, andb_true_r in E1. apply Z.ltb_lt in A. apply Z.leb_gt in E1. lia. }
  destruct ((-6 <? kk) && (kk <=? 0))%bool. { unfold zeros. destruct (- kk <? 0); cbn; split; try discriminate; intros [m X]; discriminate. }
  cbn. split; [eauto|reflexivity].
Qed.
