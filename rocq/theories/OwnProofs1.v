(** Proofs about OwnModel: which heap cells a tree owns, copying and destroying. *)
From Coq Require Import ZArith String Ascii Lia Bool List Arith.
From Verif Require Import Base AdapterModel RationalModel RealModel PolyModel ExprModel ParserModel OwnModel OwnSpec.
Import ListNotations.
Open Scope nat_scope.

Inductive repr (h : heap) : node -> expr -> list nat -> Prop :=
| repr_leaf f : repr h (NLeaf f) (Leaf f) []
| repr_op c a b nl nr l r Fl Fr : fetch h a = Some nl -> fetch h b = Some nr -> repr h nl l Fl -> repr h nr r Fr ->
    repr h (NOp c (At a) (At b)) (Op c l r) (a :: b :: Fl ++ Fr).
Fixpoint height (t : expr) : nat := match t with Leaf _ => 0 | Op _ l r => S (Nat.max (height l) (height r)) end.

Lemma repr_below h n t F : repr h n t F -> length F = below t.
Proof. induction 1; cbn [length below]; [reflexivity|]. rewrite app_length. lia. Qed.
Lemma height_below t : height t <= below t.
Proof. induction t; cbn [height below]; lia. Qed.
Lemma repr_live h n t F : repr h n t F -> forall a, In a F -> fetch h a <> None.
Proof.
  induction 1; intros x Hx; [destruct Hx|]. destruct Hx as [<-|[<-|Hx]]; [congruence|congruence|].
  apply in_app_or in Hx. destruct Hx; auto.
Qed.
Lemma fetch_lt h a n : fetch h a = Some n -> a < length h.
Proof. unfold fetch. intros H. apply nth_error_Some. destruct (nth_error h a); congruence. Qed.
Lemma fetch_lt' h a : fetch h a <> None -> a < length h.
Proof. destruct (fetch h a) eqn:E; [intros _; eapply fetch_lt; eauto|congruence]. Qed.
Lemma bounded_length (F : list nat) n : NoDup F -> (forall a, In a F -> a < n) -> length F <= n.
Proof.
  intros D B. rewrite <- (seq_length n 0). apply NoDup_incl_length; [exact D|]. intros a Ha. apply in_seq. specialize (B a Ha). lia.
Qed.
Lemma repr_height h n t F : repr h n t F -> NoDup F -> height t <= length h.
Proof.
  intros R D. pose proof (repr_below _ _ _ _ R). pose proof (height_below t).
  pose proof (bounded_length F (length h) D) as B. enough (length F <= length h) by lia. apply B.
  intros a Ha. apply fetch_lt'. eapply repr_live; eauto.
Qed.
Lemma repr_frame h h' n t F : repr h n t F -> (forall a, In a F -> fetch h' a = fetch h a) -> repr h' n t F.
Proof.
  induction 1; intros A; [constructor|]. econstructor.
  - rewrite A by (left; reflexivity). eauto.
  - rewrite A by (right; left; reflexivity). eauto.
  - apply IHrepr1. intros x Hx. apply A. right. right. apply in_or_app. auto.
  - apply IHrepr2. intros x Hx. apply A. right. right. apply in_or_app. auto.
Qed.
Lemma repr_inj_node h n t F : repr h n t F -> forall t' F', repr h n t' F' -> t = t' /\ F = F'.
Proof.
  induction 1; intros t' F' R'; inversion R'; subst; [auto|].
  match goal with H : fetch h a = Some ?x, H' : fetch h a = Some ?y |- _ => assert (x = y) by congruence; subst end.
  match goal with H : fetch h b = Some ?x, H' : fetch h b = Some ?y |- _ => assert (x = y) by congruence; subst end.
  edestruct IHrepr1 as [-> ->]; [eauto|]. edestruct IHrepr2 as [-> ->]; [eauto|]. auto.
Qed.

(** the heap after an allocation or an update *)
Lemma fetch_app_old h e a : a < length h -> fetch (h ++ e) a = fetch h a.
Proof. intros L. unfold fetch. rewrite nth_error_app1 by exact L. reflexivity. Qed.
Lemma fetch_app_new h n : fetch (h ++ [Some n]) (length h) = Some n.
Proof. unfold fetch. rewrite nth_error_app2 by lia. rewrite Nat.sub_diag. reflexivity. Qed.
Lemma update_length h a v : length (update h a v) = length h.
Proof. revert a. induction h; intros [|a']; cbn; auto. Qed.
Lemma nth_update_same h a v : a < length h -> nth_error (update h a v) a = Some v.
Proof. revert a. induction h; intros [|a'] L; cbn in *; try lia; auto. apply IHh. lia. Qed.
Lemma nth_update_other h a b v : a <> b -> nth_error (update h a v) b = nth_error h b.
Proof. revert a b. induction h; intros [|a'] [|b'] N; cbn; try reflexivity; try congruence. apply IHh. lia. Qed.
Lemma fetch_update_same h a v : a < length h -> fetch (update h a v) a = v.
Proof. intros L. unfold fetch. rewrite nth_update_same by exact L. destruct v; reflexivity. Qed.
Lemma fetch_update_other h a b v : a <> b -> fetch (update h a v) b = fetch h b.
Proof. intros N. unfold fetch. rewrite nth_update_other by exact N. reflexivity. Qed.

Lemma NoDup_app_iff {A} (l m : list A) : NoDup (l ++ m) <-> NoDup l /\ NoDup m /\ (forall x, In x l -> In x m -> False).
Proof.
  induction l as [|x l IH]; cbn [app].
  - split; [intros H; repeat split; [constructor|exact H|intros ? []]|tauto].
  - rewrite !NoDup_cons_iff, IH. split.
    + intros (N & D & E & F). repeat split; auto; [intros C; apply N, in_or_app; auto|].
      intros y [<-|Hy] Hm; [apply N, in_or_app; auto|eauto].
    + intros ((N & D) & E & F). repeat split; auto; [|intros y Hy Hm; apply (F y); cbn; auto].
      intros C. apply in_app_or in C. destruct C; [tauto|]. apply (F x); cbn; auto.
Qed.
Lemma nodup_op {a b : nat} {Fl Fr} : NoDup (a :: b :: Fl ++ Fr) ->
  a <> b /\ ~ In a Fl /\ ~ In a Fr /\ ~ In b Fl /\ ~ In b Fr /\ NoDup Fl /\ NoDup Fr /\ (forall x, In x Fl -> In x Fr -> False).
Proof.
  intros D. apply NoDup_cons_iff in D. destruct D as [Na D]. apply NoDup_cons_iff in D. destruct D as [Nb D].
  apply NoDup_app_iff in D. destruct D as (D1 & D2 & D3).
  assert (a <> b) by (intros ->; apply Na; left; reflexivity).
  assert (~ In a (Fl ++ Fr)) by (intros C; apply Na; right; exact C).
  rewrite in_app_iff in *. tauto.
Qed.
Lemma op_nodup {a b : nat} {Fl Fr} : a <> b -> ~ In a Fl -> ~ In a Fr -> ~ In b Fl -> ~ In b Fr -> NoDup Fl -> NoDup Fr ->
  (forall x, In x Fl -> In x Fr -> False) -> NoDup (a :: b :: Fl ++ Fr).
Proof.
  intros. apply NoDup_cons_iff. split; [|apply NoDup_cons_iff; split; [rewrite in_app_iff; tauto|apply NoDup_app_iff; auto]].
  cbn [In]. rewrite in_app_iff. intros [C|C]; [congruence|tauto].
Qed.

(** copying a tree: only new cells, all of them part of the copy *)
Definition copied (h h' : heap) (n' : node) (t : expr) (F' : list nat) : Prop :=
  (exists e, h' = h ++ e) /\ repr h' n' t F' /\ NoDup F' /\ (forall a, In a F' <-> length h <= a < length h').
Lemma app_lt_fetch h e : forall a, a < length h -> fetch (h ++ e) a = fetch h a.
Proof. intros. apply fetch_app_old. assumption. Qed.
Definition live_on (h : heap) (lo hi : nat) := forall a, lo <= a < hi -> fetch h a <> None.

Lemma copy_node_spec t : forall k h n F, repr h n t F -> height t <= k ->
  exists n' h' F', copy_node k n h = (Ok n', h') /\ copied h h' n' t F'.
Proof.
  induction t as [f|c l IHl r IHr]; intros k h n F R K.
  - inversion R; subst. exists (NLeaf f), h, []. split; [destruct k; reflexivity|].
    split; [exists []; symmetry; apply app_nil_r|]. split; [constructor|]. split; [constructor|]. intros a. cbn [In]. lia.
  - inversion R as [|c' a b nl nr l' r' Fl Fr Ha Hb RL Rr]; subst. cbn [height] in K. destruct k as [|k]; [lia|].
    destruct (IHl k h nl Fl RL ltac:(lia)) as (nl' & h1 & Fl' & C1 & (e1 & E1) & R1 & D1 & I1).
    set (h2 := h1 ++ [Some nl']).
    assert (Lb : b < length h) by (eapply fetch_lt; eauto).
    assert (RR : repr h2 nr r Fr).
    { apply (repr_frame h); [assumption|]. intros x Hx. unfold h2. rewrite E1, <- app_assoc. apply fetch_app_old, fetch_lt'. eapply repr_live; eauto. }
    destruct (IHr k h2 nr Fr RR ltac:(lia)) as (nr' & h3 & Fr' & C3 & (e3 & E3) & R3 & D3 & I3).
    set (h4 := h3 ++ [Some nr']).
    exists (NOp c (At (length h1)) (At (length h3))), h4, (length h1 :: length h3 :: Fl' ++ Fr').
    assert (L12 : length h2 = length h1 + 1) by (unfold h2; rewrite app_length; cbn; lia).
    assert (L23 : length h2 <= length h3) by (rewrite E3, app_length; lia).
    assert (L01 : length h <= length h1) by (rewrite E1, app_length; lia).
    assert (L34 : length h4 = length h3 + 1) by (unfold h4; rewrite app_length; cbn; lia).
    assert (Ag : forall x, x < length h1 -> fetch h4 x = fetch h1 x).
    { intros x Hx. unfold h4. rewrite E3. unfold h2. rewrite <- !app_assoc. apply fetch_app_old. exact Hx. }
    split.
    + cbn [copy_node]. unfold hbind, load, alloc, ret. rewrite Ha. rewrite C1. cbn [fst snd]. fold h2.
      replace (fetch h2 b) with (Some nr) by (unfold h2; rewrite E1, <- app_assoc, fetch_app_old; [symmetry; assumption|exact Lb]).
      rewrite C3. reflexivity.
    + split; [|split; [|split]].
      * exists (e1 ++ [Some nl'] ++ e3 ++ [Some nr']). unfold h4. rewrite E3. unfold h2. rewrite E1, <- !app_assoc. reflexivity.
      * apply repr_op with (nl := nl') (nr := nr').
        -- unfold h4. rewrite E3. unfold h2. rewrite <- app_assoc. rewrite fetch_app_old by (rewrite app_length; cbn; lia). apply fetch_app_new.
        -- apply fetch_app_new.
        -- apply (repr_frame h1); [assumption|]. intros x Hx. apply I1 in Hx. apply Ag. lia.
        -- apply (repr_frame h3); [assumption|]. intros x Hx. apply I3 in Hx. unfold h4. apply fetch_app_old. lia.
      * apply op_nodup; try assumption; try lia.
        -- intros C. apply I1 in C. lia.
        -- intros C. apply I3 in C. lia.
        -- intros C. apply I1 in C. lia.
        -- intros C. apply I3 in C. lia.
        -- intros x C C'. apply I1 in C. apply I3 in C'. lia.
      * intros x. cbn [In]. rewrite in_app_iff, I1, I3. lia.
Qed.
Lemma copy_spec h n t F : repr h n t F -> NoDup F -> exists n' h' F', copy n h = (Ok n', h') /\ copied h h' n' t F'.
Proof. intros R D. unfold copy, sized. eapply copy_node_spec; eauto. pose proof (repr_height _ _ _ _ R D). lia. Qed.

(** destroying a tree frees exactly its cells *)
Definition freed (h h' : heap) (F : list nat) : Prop :=
  length h' = length h /\ (forall a, In a F -> fetch h' a = None) /\ (forall a, ~ In a F -> fetch h' a = fetch h a).
Lemma destroy_node_spec t : forall k h n F, repr h n t F -> NoDup F -> height t <= k ->
  exists h', destroy_node k n h = (Ok tt, h') /\ freed h h' F.
Proof.
  induction t as [f|c l IHl r IHr]; intros k h n F R D K.
  - inversion R; subst. exists h. split; [destruct k; reflexivity|]. split; [reflexivity|]. split; [intros ? []|auto].
  - inversion R as [|c' a b nl nr l' r' Fl Fr Ha Hb RL Rr]; subst. cbn [height] in K. destruct k as [|k]; [lia|].
    destruct (nodup_op D) as (Dab & Dal & Dar & Dbl & Dbr & DFl & DFr & Dlr).
    destruct (IHl k h nl Fl RL DFl ltac:(lia)) as (h1 & C1 & L1 & G1 & O1).
    set (h2 := update h1 a None).
    assert (A2 : forall x, x <> a -> ~ In x Fl -> fetch h2 x = fetch h x).
    { intros x Nx NFl. unfold h2. rewrite fetch_update_other by congruence. apply O1, NFl. }
    assert (RR : repr h2 nr r Fr).
    { apply (repr_frame h); [assumption|]. intros x Hx. apply A2; [intros ->; tauto|intros C; eapply Dlr; eauto]. }
    destruct (IHr k h2 nr Fr RR DFr ltac:(lia)) as (h3 & C3 & L3 & G3 & O3).
    set (h4 := update h3 b None).
    assert (La : a < length h) by (eapply fetch_lt; eauto). assert (Lb : b < length h) by (eapply fetch_lt; eauto).
    assert (L2 : length h2 = length h) by (unfold h2; rewrite update_length; exact L1).
    exists h4. split.
    + cbn [destroy_node]. unfold hbind. rewrite Ha, C1. unfold release at 1. fold h2. cbn [fst snd].
      rewrite (A2 b) by (congruence || assumption). rewrite Hb, C3. unfold release. reflexivity.
    + split; [unfold h4; rewrite update_length; congruence|]. split.
      * intros x Hx. unfold h4. destruct (Nat.eq_dec b x) as [<-|Nb]; [apply fetch_update_same; lia|].
        rewrite fetch_update_other by congruence.
        destruct Hx as [<-|[Hx|Hx]]; [|congruence|].
        -- rewrite O3 by assumption. unfold h2. apply fetch_update_same. lia.
        -- apply in_app_or in Hx. destruct Hx as [Hx|Hx]; [|auto].
           rewrite O3 by (intros C; eapply Dlr; eauto). unfold h2. destruct (Nat.eq_dec a x) as [<-|Na]; [apply fetch_update_same; lia|].
           rewrite fetch_update_other by congruence. auto.
      * intros x Nx. cbn [In] in Nx. rewrite in_app_iff in Nx. unfold h4. rewrite fetch_update_other by tauto. rewrite O3 by tauto. apply A2; [intros ->; tauto|tauto].
Qed.
Lemma destroy_spec h n t F : repr h n t F -> NoDup F -> exists h', destroy n h = (Ok tt, h') /\ freed h h' F.
Proof. intros R D. unfold destroy, sized. eapply destroy_node_spec; eauto. pose proof (repr_height _ _ _ _ R D). lia. Qed.
