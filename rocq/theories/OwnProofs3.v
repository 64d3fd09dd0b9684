(** Proofs about OwnModel: the parser's nodes, and programs over expression variables. *)
From Coq Require Import ZArith String Ascii Lia Bool List Arith Permutation.
From Verif Require Import Base AdapterModel RationalModel RealModel PolyModel ExprModel ParserModel OwnModel OwnSpec OwnProofs1 OwnProofs2.
Import ListNotations.
Open Scope nat_scope.

(** a list of nodes in the heap, with all their cells; [L] are the cells of everybody else *)
Inductive stack (h : heap) : list ptr -> list expr -> list nat -> Prop :=
| stack_nil : stack h [] [] []
| stack_cons a t F ps ts G : operand h a t F -> stack h ps ts G -> stack h (At a :: ps) (t :: ts) (a :: F ++ G).
Lemma stack_frame h h' ps ts G : stack h ps ts G -> (forall a, In a G -> fetch h' a = fetch h a) -> stack h' ps ts G.
Proof.
  induction 1; intros A; constructor.
  - eapply operand_frame; [eassumption|apply A; left; reflexivity|]. intros x Hx. apply A. right. apply in_or_app. auto.
  - apply IHstack. intros x Hx. apply A. right. apply in_or_app. auto.
Qed.
Lemma stack_size_length h ps ts G : stack h ps ts G -> length G = stack_size ts.
Proof.
  induction 1; [reflexivity|]. cbn [length stack_size]. rewrite app_length, IHstack. destruct H as (n & _ & R). rewrite (repr_below _ _ _ _ R). lia.
Qed.
Lemma stack_live h ps ts G : stack h ps ts G -> forall a, In a G -> fetch h a <> None.
Proof.
  induction 1 as [|a t F ps ts G (n & E & R) S IH]; intros x Hx; [destruct Hx|]. destruct Hx as [<-|Hx]; [congruence|].
  apply in_app_or in Hx. destruct Hx; [eapply repr_live; eauto|auto].
Qed.

(** the heap consists of exactly the cells of G and L, all different *)
Definition exactly (h : heap) (G : list nat) : Prop := NoDup G /\ forall a, In a G <-> fetch h a <> None.
Lemma exactly_live h G : exactly h G -> live h = length G.
Proof.
  intros [D X]. unfold live.
  enough (A : forall (h : heap) G, NoDup G -> (forall a, In a G <-> exists n, nth_error h a = Some (Some n)) -> length (filter (fun c : option node => match c with Some _ => true | None => false end) h) = length G).
  { apply A; [exact D|]. intros a. rewrite X. unfold fetch. destruct (nth_error h a) as [[n|]|]; split; intros H; try congruence; eauto; destruct H; congruence. }
  clear. induction h as [|c h IH]; intros G D X.
  - destruct G as [|x G]; [reflexivity|]. destruct (proj1 (X x) (or_introl eq_refl)) as [n Hn]. destruct x; discriminate Hn.
  - assert (Y : forall G, NoDup G -> ~ In 0 G -> (forall a, In (S a) G <-> exists n, nth_error h a = Some (Some n)) -> length (filter (fun c : option node => match c with Some _ => true | None => false end) h) = length G).
    { intros G0 D0 N0 X0. rewrite (IH (map pred G0)); [apply map_length| |].
      - assert (NZ : forall x, In x G0 -> x <> 0) by (intros x Hx ->; tauto). clear -D0 NZ. induction D0 as [|x G0 Nx D0 IH]; [constructor|].
        cbn [map]. constructor; [|apply IH; intros; apply NZ; right; assumption]. intros C. apply in_map_iff in C. destruct C as (y & E & Hy).
        assert (x = y) by (pose proof (NZ x (or_introl eq_refl)); pose proof (NZ y (or_intror Hy)); lia). subst. tauto.
      - intros a. rewrite in_map_iff, <- X0. split; [intros (y & E & Hy); destruct y; [tauto|cbn in E; subst; exact Hy]|intros H; exists (S a); auto]. }
    destruct c as [n|]; cbn [filter length].
    + assert (I0 : In 0 G) by (apply X; exists n; reflexivity). apply in_split in I0. destruct I0 as (G1 & G2 & ->). rewrite app_length. cbn [length].
      rewrite (Y (G1 ++ G2)); [rewrite app_length; lia|eapply NoDup_remove_1; eauto|eapply NoDup_remove_2; eauto|].
      intros a. rewrite <- (X (S a)). rewrite !in_app_iff. cbn [In]. split; [tauto|]. intros [H|[H|H]]; [auto|discriminate|auto].
    + apply Y; [exact D| |intros a; apply (X (S a))]. intros C. apply X in C. destruct C as [n C]. discriminate C.
Qed.
Lemma exactly_swap h A B : exactly h (A ++ B) -> exactly h (B ++ A).
Proof. intros [D X]. split; [|intros a; rewrite <- X, !in_app_iff; tauto]. apply NoDup_app_iff in D. apply NoDup_app_iff. destruct D as (D1 & D2 & D3). repeat split; auto. intros; eapply D3; eauto. Qed.

(** set reasoning about footprints *)
Lemma exactly_copied h h' n t F' G : exactly h G -> copied h h' n t F' -> (forall a, length h <= a < length h' -> fetch h' a <> None) -> exactly h' (F' ++ G).
Proof.
  intros [D X] ((e & ->) & R & D' & I) Lv. split.
  - apply NoDup_app_iff. repeat split; auto. intros a Ha Hg. apply I in Ha. apply X in Hg. apply fetch_lt' in Hg. lia.
  - intros a. rewrite in_app_iff, I, X. split.
    + intros [H|H]; [apply Lv, H|]. rewrite fetch_app_old; [exact H|apply fetch_lt'; exact H].
    + intros H. pose proof (fetch_lt' _ _ H). destruct (Nat.lt_ge_cases a (length h)) as [Hl|Hl]; [right|left; lia]. rewrite fetch_app_old in H; assumption.
Qed.
Lemma copied_exactly h h' n t F' G : exactly h G -> copied h h' n t F' -> exactly h' (F' ++ G).
Proof. intros X C. apply (exactly_copied h h' n t F' G X C). destruct C as (_ & R & _ & I). intros a Ha. apply I in Ha. eapply repr_live; eauto. Qed.
Lemma copied_old h h' n t F' a : copied h h' n t F' -> a < length h -> fetch h' a = fetch h a.
Proof. intros ((e & ->) & _) L. apply fetch_app_old, L. Qed.
Lemma alloc_exactly h n G : exactly h G -> exactly (h ++ [Some n]) (length h :: G).
Proof.
  intros [D X]. assert (N : ~ In (length h) G) by (intros C; apply X, fetch_lt' in C; lia). split; [constructor; assumption|].
  intros a. cbn [In]. rewrite X. split.
  - intros [<-|H]; [rewrite fetch_app_new; discriminate|]. rewrite fetch_app_old; [exact H|apply fetch_lt', H].
  - intros H. pose proof (fetch_lt' _ _ H) as L. rewrite app_length in L. cbn in L. destruct (Nat.eq_dec (length h) a) as [E|E]; [auto|right].
    rewrite fetch_app_old in H; [exact H|lia].
Qed.
Lemma freed_exactly h h' F G : exactly h (F ++ G) -> freed h h' F -> exactly h' G.
Proof.
  intros [D X] (L & Z & U). apply NoDup_app_iff in D. destruct D as (D1 & D2 & D3). split; [exact D2|]. intros a. split.
  - intros Ha. rewrite U by (intros C; eapply D3; eauto). apply X, in_or_app. auto.
  - intros Ha. assert (NF : ~ In a F) by (intros C; apply Ha, Z, C). rewrite U in Ha by exact NF. apply X in Ha. apply in_app_or in Ha. tauto.
Qed.
Lemma inplace_exactly h h' F F' G n t : exactly h (F ++ G) -> inplace h h' F F' -> repr h' n t F' -> exactly h' (F' ++ G).
Proof.
  intros [D X] (L & D' & I & U & Z) R. apply NoDup_app_iff in D. destruct D as (D1 & D2 & D3). split.
  - apply NoDup_app_iff. repeat split; auto. intros x H H'. eapply D3; eauto.
  - intros a. rewrite in_app_iff. split.
    + intros [H|H]; [eapply repr_live; eauto|]. rewrite U by (intros C; eapply D3; eauto). apply X, in_or_app. auto.
    + intros H. destruct (in_dec Nat.eq_dec a F) as [Hf|Hf].
      * destruct (in_dec Nat.eq_dec a F') as [Hf'|Hf']; [auto|]. exfalso. apply H, Z; assumption.
      * rewrite U in H by exact Hf. apply X in H. apply in_app_or in H. tauto.
Qed.
Lemma exactly_perm h G G' : exactly h G -> (forall a, In a G' <-> In a G) -> NoDup G' -> exactly h G'.
Proof. intros [D X] E D'. split; [exact D'|]. intros a. rewrite E. apply X. Qed.

(** copying the operand of an operator, and making an operator node *)
Lemma make_op_spec h c a b l r F G H : operand h a l F -> operand h b r G -> exactly h ((a :: b :: F ++ G) ++ H) ->
  exists n h' F', make_op c (At a) (At b) h = (Ok n, h') /\ repr h' n (Op c l r) F' /\ exactly h' (F' ++ H) /\ length h <= length h' /\
    (forall x, In x H -> fetch h' x = fetch h x).
Proof.
  intros (na & Ea & Ra) (nb & Eb & Rb) X. assert (R : repr h (NOp c (At a) (At b)) (Op c l r) (a :: b :: F ++ G)) by (econstructor; eauto).
  pose proof X as [D XX]. apply NoDup_app_iff in D. destruct D as (D1 & D2 & D3).
  destruct (copy_spec h _ _ _ R D1) as (n & h1 & F1 & E1 & C1). pose proof (copied_exactly _ _ _ _ _ _ X C1) as X1.
  assert (Old : forall x, In x ((a :: b :: F ++ G) ++ H) -> fetch h1 x = fetch h x).
  { intros x Hx. eapply copied_old; [exact C1|]. apply fetch_lt', XX, Hx. }
  assert (R1 : repr h1 (NOp c (At a) (At b)) (Op c l r) (a :: b :: F ++ G)).
  { apply (repr_frame h); [exact R|]. intros x Hx. apply Old, in_or_app. auto. }
  destruct (destroy_spec h1 _ _ _ R1 D1) as (h2 & E2 & Fr). pose proof Fr as (L2 & Z2 & U2).
  pose proof C1 as ((e & Eh1) & RC & DF1 & I1).
  assert (Dis : forall x, In x F1 -> In x (a :: b :: F ++ G) -> False).
  { intros x H1 H2. apply I1 in H1. assert (fetch h x <> None) by (apply XX, in_or_app; auto). apply fetch_lt' in H0. lia. }
  exists n, h2, F1. split; [unfold make_op; rewrite (hbind_ok _ _ _ _ _ E1), (hbind_ok _ _ _ _ _ E2); reflexivity|].
  split; [apply (repr_frame h1); [exact RC|]; intros x Hx; apply U2; intros C; eapply Dis; eauto|].
  split; [|split].
  - apply (freed_exactly h1 h2 (a :: b :: F ++ G)); [|exact Fr]. apply (exactly_perm h1 (F1 ++ (a :: b :: F ++ G) ++ H)); [exact X1| |].
    + intros x. rewrite !in_app_iff. tauto.
    + destruct X1 as [DD _]. apply NoDup_app_iff in DD. destruct DD as (_ & DD & D4). apply NoDup_app_iff. split; [exact D1|]. split.
      * apply NoDup_app_iff. split; [exact DF1|]. split; [exact D2|]. intros x Hx Hy. apply (D4 x Hx). apply in_or_app. auto.
      * intros x Hx Hy. apply in_app_or in Hy. destruct Hy as [Hy|Hy]; [eapply Dis; eauto|eapply D3; eauto].
  - rewrite L2, Eh1, app_length. lia.
  - intros x Hx. rewrite U2; [apply Old, in_or_app; auto|]. intros C. eapply D3; eauto.
Qed.

(** the parser with nodes in the heap does what the functional parser does; H are the cells of everybody else, N bounds the nodes made *)
Definition related (h : heap) (st : pstate) (st' : state) (G : list nat) : Prop := stack h (fst st) (fst st') G /\ snd st = snd st'.
Definition same_kind {A B} (o : res A) (r : res B) : Prop :=
  match o, r with Ok _, Ok _ => True | Throw s, Throw s' => s = s' | Ub s, Ub s' => s = s' | Fuel, Fuel => True | _, _ => False end.
Definition sim (N : nat) (m : hm pstate) (r : res state) (h : heap) (H : list nat) : Prop :=
  exists o h' G', m h = (o, h') /\ same_kind o r /\ exactly h' (G' ++ H) /\ (forall x, In x H -> fetch h' x = fetch h x) /\ length G' <= N /\
    (forall st st', o = Ok st -> r = Ok st' -> related h' st st' G' /\ length G' + length (snd st) <= N).
Lemma sim_ret h H st st' G N : related h st st' G -> exactly h (G ++ H) -> length G + length (snd st) <= N -> sim N (ret st) (Ok st') h H.
Proof.
  intros R X L. exists (Ok st), h, G. split; [reflexivity|]. split; [exact I|]. split; [exact X|]. split; [auto|]. split; [lia|].
  intros s s' E E'. injection E as <-. injection E' as <-. auto.
Qed.
Lemma sim_fail h H G N (o : res pstate) (r : res state) : same_kind o r -> (forall s, o <> Ok s) -> exactly h (G ++ H) -> length G <= N -> sim N (lift o) r h H.
Proof. intros K F X L. exists o, h, G. split; [reflexivity|]. split; [exact K|]. split; [exact X|]. split; [auto|]. split; [lia|]. intros s s' E. exfalso. eapply F; eauto. Qed.
Lemma sim_bind N N' m r f f' h H : sim N m r h H -> N <= N' ->
  (forall st st' h' G', related h' st st' G' -> exactly h' (G' ++ H) -> length G' + length (snd st) <= N -> r = Ok st' -> sim N' (f st) (f' st') h' H) ->
  sim N' (hbind m f) (bind r f') h H.
Proof.
  intros (o & h1 & G1 & E & K & X & U & L & Q) LN C. destruct o as [st|s|s|], r as [st'|s'|s'|]; try destruct K.
  - destruct (Q st st' eq_refl eq_refl) as (R & L2). destruct (C st st' h1 G1 R X L2 eq_refl) as (o & h2 & G2 & E2 & K2 & X2 & U2 & L2' & Q2).
    exists o, h2, G2. split; [unfold hbind; rewrite E; exact E2|]. split; [exact K2|]. split; [exact X2|]. split; [|auto].
    intros x Hx. rewrite U2 by exact Hx. apply U, Hx.
  - exists (Throw s), h1, G1. split; [unfold hbind; rewrite E; reflexivity|]. split; [reflexivity|]. split; [exact X|]. split; [exact U|]. split; [lia|]. intros; discriminate.
  - exists (Ub s), h1, G1. split; [unfold hbind; rewrite E; reflexivity|]. split; [reflexivity|]. split; [exact X|]. split; [exact U|]. split; [lia|]. intros; discriminate.
  - exists Fuel, h1, G1. split; [unfold hbind; rewrite E; reflexivity|]. split; [exact I|]. split; [exact X|]. split; [exact U|]. split; [lia|]. intros; discriminate.
Qed.
Lemma related_inv h st st' G : related h st st' G -> snd st = snd st' /\
  match fst st' with
  | [] => fst st = []
  | [t] => exists a, fst st = [At a]
  | t :: s :: ts => exists a b ps F F' G', fst st = At a :: At b :: ps /\ operand h a t F /\ operand h b s F' /\ stack h ps ts G' /\ G = a :: F ++ b :: F' ++ G'
  end.
Proof.
  intros [S E]. split; [exact E|]. destruct st as [ps os], st' as [ts os']. cbn [fst snd] in *. inversion S as [|a t F ps1 ts1 G1 O1 S1]; subst; [reflexivity|].
  inversion S1 as [|b s F' ps2 ts2 G2 O2 S2]; subst; [eauto|]. exists a, b, ps2, F, F', G2. auto.
Qed.
Lemma handle_sim h H st st' G N : related h st st' G -> exactly h (G ++ H) -> length G + length (snd st) <= N -> sim N (hhandle st) (handle st') h H.
Proof.
  intros R X L. destruct (related_inv _ _ _ _ R) as (E & I0). destruct st as [ps os], st' as [ts os']. cbn [fst snd] in *. subst os'.
  assert (FAIL : sim N (lift (Throw invalid)) (Throw invalid) h H) by (apply (sim_fail h H G); [reflexivity|discriminate|exact X|lia]).
  destruct ts as [|t [|s ts]]; [subst; exact FAIL|destruct I0 as (a & ->); exact FAIL|].
  destruct I0 as (a & b & ps' & F & F' & G' & -> & Oa & Ob & S & ->). destruct os as [|c os]; [exact FAIL|].
  assert (X' : exactly h ((b :: a :: F' ++ F) ++ (G' ++ H))).
  { apply (exactly_perm h _ _ X).
    - intros x. repeat (cbn [app In] || rewrite in_app_iff). tauto.
    - destruct X as [D _]. clear -D. repeat (progress cbn [app] in D || rewrite <- app_assoc in D). repeat (progress cbn [app] || rewrite <- app_assoc).
      eapply (Permutation_NoDup); [|exact D].
      transitivity (a :: b :: F ++ F' ++ G' ++ H); [apply perm_skip; symmetry; apply Permutation_middle|].
      transitivity (b :: a :: F ++ F' ++ G' ++ H); [apply perm_swap|]. do 2 apply perm_skip. rewrite !app_assoc. do 2 apply Permutation_app_tail.
      apply Permutation_app_comm. }
  destruct (make_op_spec h c b a s t F' F (G' ++ H) Ob Oa X') as (n & h1 & F1 & E1 & R1 & X1 & L1 & U1).
  pose proof (alloc_exactly h1 n _ X1) as X2.
  assert (LF : length F1 = length F + length F' + 2).
  { rewrite (repr_below _ _ _ _ R1). destruct Oa as (? & _ & Ra). destruct Ob as (? & _ & Rb). rewrite (repr_below _ _ _ _ Ra), (repr_below _ _ _ _ Rb). cbn [below]. lia. }
  assert (LG : length (length h1 :: F1 ++ G') + length os <= N).
  { cbn [length] in *. repeat (rewrite app_length in * || cbn [length] in *). lia. }
  exists (Ok (At (length h1) :: ps', os)), (h1 ++ [Some n]), (length h1 :: F1 ++ G').
  split; [cbn [hhandle]; rewrite (hbind_ok _ _ _ _ _ E1); reflexivity|]. split; [exact I|]. split; [cbn [app]; rewrite <- app_assoc; exact X2|].
  assert (OLD : forall x, In x (F1 ++ G' ++ H) -> fetch (h1 ++ [Some n]) x = fetch h1 x).
  { intros x Hx. apply fetch_app_old. destruct X1 as [_ X1]. apply fetch_lt', X1, Hx. }
  split; [intros x Hx; rewrite OLD by (rewrite !in_app_iff; tauto); apply U1, in_or_app; tauto|]. split; [lia|].
  intros st0 st0' E0 E0'. injection E0 as <-. injection E0' as <-. cbn [snd]. split; [|exact LG]. split; [|reflexivity]. cbn [fst]. constructor.
  - exists n. split; [apply fetch_app_new|]. apply (repr_frame h1); [exact R1|]. intros x Hx. apply OLD, in_or_app. auto.
  - apply (stack_frame h); [exact S|]. intros x Hx. rewrite OLD by (rewrite !in_app_iff; tauto). apply U1, in_or_app. auto.
Qed.
Lemma pop_ge_sim c f : forall h H st st' G N, related h st st' G -> exactly h (G ++ H) -> length G + length (snd st) <= N -> sim N (hpop_ge f c st) (pop_ge f c st') h H.
Proof.
  induction f as [|f IH]; intros h H st st' G N R X L; destruct R as [S E].
  - cbn [hpop_ge pop_ge]. rewrite E. destruct (snd st') as [|o os] eqn:Es; [eapply sim_ret; eauto; split; congruence|].
    unfold hbind, lift. destruct (great_or_equal o c) as [[]|s|s|] eqn:Eg; cbn [bind].
    + apply (sim_fail h H G _ Fuel); [exact I|discriminate|exact X|lia].
    + eapply sim_ret; eauto. split; congruence.
    + apply (sim_fail h H G _ (Throw s)); [reflexivity|discriminate|exact X|lia].
    + apply (sim_fail h H G _ (Ub s)); [reflexivity|discriminate|exact X|lia].
    + apply (sim_fail h H G _ Fuel); [exact I|discriminate|exact X|lia].
  - cbn [hpop_ge pop_ge]. rewrite E. destruct (snd st') as [|o os] eqn:Es; [eapply sim_ret; eauto; split; congruence|].
    unfold hbind at 1. unfold lift at 1. destruct (great_or_equal o c) as [[]|s|s|] eqn:Eg; cbn [bind].
    + apply (sim_bind N N); [apply (handle_sim h H st st' G); [split; congruence|exact X|exact L]|lia|]. intros st1 st1' h1 G1 R1 X1 L1 _. eapply IH; eauto.
    + eapply sim_ret; eauto. split; congruence.
    + apply (sim_fail h H G _ (Throw s)); [reflexivity|discriminate|exact X|lia].
    + apply (sim_fail h H G _ (Ub s)); [reflexivity|discriminate|exact X|lia].
    + apply (sim_fail h H G _ Fuel); [exact I|discriminate|exact X|lia].
Qed.
Lemma pop_paren_sim f : forall h H st st' G N, related h st st' G -> exactly h (G ++ H) -> length G + length (snd st) <= N -> sim N (hpop_paren f st) (pop_paren f st') h H.
Proof.
  induction f as [|f IH]; intros h H st st' G N R X L; destruct (related_inv _ _ _ _ R) as (E & _); pose proof R as [S _].
  - cbn [hpop_paren pop_paren]. rewrite E. destruct (fst st') as [|t ts] eqn:Et, (fst st) as [|p ps] eqn:Ep; try solve [inversion S].
    + destruct (snd st') eqn:Es; [apply (sim_fail h H G); [reflexivity|discriminate|exact X|lia]|eapply sim_ret; eauto].
    + destruct (snd st') as [|o os] eqn:Es; [apply (sim_fail h H G); [reflexivity|discriminate|exact X|lia]|].
      destruct (Ascii.eqb o "("); [eapply sim_ret; eauto|apply (sim_fail h H G); [exact I|discriminate|exact X|lia]].
  - cbn [hpop_paren pop_paren]. rewrite E. destruct (fst st') as [|t ts] eqn:Et, (fst st) as [|p ps] eqn:Ep; try solve [inversion S].
    + destruct (snd st') eqn:Es; [apply (sim_fail h H G); [reflexivity|discriminate|exact X|lia]|eapply sim_ret; eauto].
    + destruct (snd st') as [|o os] eqn:Es; [apply (sim_fail h H G); [reflexivity|discriminate|exact X|lia]|].
      destruct (Ascii.eqb o "("); [eapply sim_ret; eauto|].
      apply (sim_bind N N); [apply (handle_sim h H st st' G); assumption|lia|]. intros st1 st1' h1 G1 R1 X1 L1 _.
      pose proof R1 as [_ E1]. rewrite E1. destruct (snd st1') eqn:E1'; [apply (sim_fail h1 H G1); [reflexivity|discriminate|exact X1|lia]|]. eapply IH; eauto.
Qed.
Lemma step_sim t : forall h H st st' G N, related h st st' G -> exactly h (G ++ H) -> length G + length (snd st) <= N -> sim (S N) (hstep st t) (step st' t) h H.
Proof.
  intros h H st st' G N R X L. pose proof R as [S E].
  assert (UN : forall s, sim (Datatypes.S N) (lift (Throw s)) (Throw s) h H) by (intros s; apply (sim_fail h H G); [reflexivity|discriminate|exact X|lia]).
  assert (NEW : forall f, sim (Datatypes.S N) (p <~ alloc (NLeaf f) ;; ret (p :: fst st, snd st)) (Ok (Leaf f :: fst st', snd st')) h H).
  { intros f. pose proof (alloc_exactly h (NLeaf f) _ X) as X2. exists (Ok (At (length h) :: fst st, snd st)), (h ++ [Some (NLeaf f)]), (length h :: [] ++ G).
    split; [reflexivity|]. split; [exact I|]. split; [exact X2|].
    assert (OLD : forall x, In x (G ++ H) -> fetch (h ++ [Some (NLeaf f)]) x = fetch h x).
    { intros x Hx. apply fetch_app_old. destruct X as [_ X]. apply fetch_lt', X, Hx. }
    split; [intros x Hx; apply OLD, in_or_app; auto|]. split; [cbn [length app]; lia|]. intros s s' Q Q'. injection Q as <-. injection Q' as <-. cbn [snd].
    split; [|cbn [length app]; lia]. split; [|exact E]. cbn [fst]. constructor; [exists (NLeaf f); split; [apply fetch_app_new|constructor]|].
    apply (stack_frame h); [exact S|]. intros x Hx. apply OLD, in_or_app. auto. }
  destruct t; cbn [hstep step]; try apply UN; try apply NEW.
  - rewrite E. apply (sim_bind N (Datatypes.S N)); [eapply pop_ge_sim; eauto|lia|]. intros st1 st1' h1 G1 [R1 E1] X1 L1 _.
    eapply sim_ret; [split; [exact R1|cbn [snd]; rewrite E1; reflexivity]|exact X1|]. cbn [snd length]. lia.
  - eapply sim_ret; [split; [exact S|cbn [snd]; rewrite E; reflexivity]|exact X|]. cbn [snd length]. lia.
  - rewrite E. destruct (snd st') as [|o os] eqn:Es; [apply UN|].
    apply (sim_bind N (Datatypes.S N)); [eapply pop_paren_sim; eauto|lia|]. intros st1 st1' h1 G1 [R1 E1] X1 L1 _. rewrite E1.
    destruct (snd st1') as [|o' os'] eqn:E1'; [apply (sim_fail h1 H G1); [reflexivity|discriminate|exact X1|lia]|].
    eapply sim_ret; [split; [exact R1|reflexivity]|exact X1|]. cbn [snd]. rewrite E1 in L1. cbn [length] in L1. lia.
Qed.
Lemma steps_sim ts : forall h H st st' G N, related h st st' G -> exactly h (G ++ H) -> length G + length (snd st) <= N -> sim (N + length ts) (hsteps st ts) (steps st' ts) h H.
Proof.
  induction ts as [|t ts IH]; intros h H st st' G N R X L; cbn [hsteps steps length].
  - eapply sim_ret; eauto. lia.
  - apply (sim_bind (S N)); [eapply step_sim; eauto|lia|]. intros st1 st1' h1 G1 R1 X1 L1 _. rewrite <- Nat.add_succ_comm. eapply IH; eauto.
Qed.
Lemma pop_all_sim f : forall h H st st' G N, related h st st' G -> exactly h (G ++ H) -> length G + length (snd st) <= N -> sim N (hpop_all f st) (pop_all f st') h H.
Proof.
  induction f as [|f IH]; intros h H st st' G N R X L; pose proof R as [S E]; cbn [hpop_all pop_all]; rewrite E.
  - destruct (snd st') eqn:Es; [eapply sim_ret; eauto|apply (sim_fail h H G); [exact I|discriminate|exact X|lia]].
  - destruct (snd st') eqn:Es; [eapply sim_ret; eauto|].
    apply (sim_bind N N); [apply (handle_sim h H st st' G); assumption|lia|]. intros st1 st1' h1 G1 R1 X1 L1 _. eapply IH; eauto.
Qed.

(** parsing: the nodes left behind are G *)
Lemma hparse_tokens_spec ts h H : exactly h H -> exists o h' F G, hparse_tokens ts h = (o, h') /\ same_kind o (parse_tokens ts) /\
  exactly h' (F ++ G ++ H) /\ (forall x, In x H -> fetch h' x = fetch h x) /\ length G <= length ts /\
  match o, parse_tokens ts with Ok n, Ok t => repr h' n t F /\ length G = S (below t) | _, _ => F = [] end.
Proof.
  intros X.
  pose proof (steps_sim ts h H ([], []) ([], []) [] 0 ltac:(split; [constructor|reflexivity]) X ltac:(cbn; lia)) as S1.
  assert (S2 : sim (length ts) (st <~ hsteps ([], []) ts ;; hpop_all (length (snd st)) st) (st <- steps ([], []) ts ;; pop_all (length (snd st)) st)%Z h H).
  { apply (sim_bind (length ts)); [exact S1|lia|]. intros st st' h1 G1 [R1 E1] X1 L1 _. rewrite <- E1. eapply pop_all_sim; eauto. split; assumption. }
  destruct S2 as (o & h1 & G1 & E1 & K & X1 & U1 & L1 & Q).
  unfold hparse_tokens. rewrite <- (hbind_assoc (hsteps ([], []) ts) (fun st => hpop_all (length (snd st)) st)
     (fun st' => match fst st' with [p] => n <~ load p ;; copy n | _ => lift (Throw invalid) end)).
  assert (EP : parse_tokens ts = (st' <- (st <- steps ([], []) ts ;; pop_all (length (snd st)) st) ;; match fst st' with [e] => Ok e | _ => Throw invalid end)%Z).
  { unfold parse_tokens. destruct (steps ([], []) ts); reflexivity. }
  rewrite EP. unfold hbind at 1. rewrite E1. destruct (st <- steps ([], []) ts ;; pop_all (length (snd st)) st)%Z as [st'|s'|s'|]; destruct o as [st|s|s|]; try destruct K;
    [|exists (Throw s), h1, [], G1; cbn [bind same_kind app]; auto 10|exists (Ub s), h1, [], G1; cbn [bind same_kind app]; auto 10|exists Fuel, h1, [], G1; cbn [bind same_kind app]; auto 10].
  destruct (Q st st' eq_refl eq_refl) as (R & LN). cbn [bind].
  destruct R as [S E]. destruct (fst st') as [|t tl'] eqn:Et, (fst st) as [|p ps] eqn:Ep; try solve [inversion S];
    [exists (Throw invalid), h1, [], G1; cbn [same_kind app]; auto 10|].
  inversion S as [|a t0 F0 ps0 ts0 G0 O0 S0]; subst. destruct tl' as [|t2 tl2], ps as [|p2 ps2]; try solve [inversion S0];
    [|exists (Throw invalid), h1, [], (a :: F0 ++ G0); cbn [same_kind app]; auto 10].
  inversion S0; subst. destruct O0 as (n & Ea & R). rewrite app_nil_r in *.
  assert (DF : NoDup F0) by (destruct X1 as [D _]; cbn [app] in D; apply NoDup_cons_iff in D; destruct D as [_ D]; apply NoDup_app_iff in D; tauto).
  destruct (copy_spec h1 n t F0 R DF) as (n' & h2 & F2 & E2 & C2).
  exists (Ok n'), h2, F2, (a :: F0). rewrite (hbind_ok _ _ _ _ _ (load_ok _ _ _ Ea)). split; [exact E2|]. split; [exact I|].
  split; [eapply copied_exactly; eauto|]. split; [|split; [exact L1|]].
  - intros x Hx. rewrite (copied_old _ _ _ _ _ x C2); [apply U1, Hx|]. apply fetch_lt'. destruct X1 as [_ X1]. apply X1, in_or_app. auto.
  - split; [apply C2|]. cbn [length]. rewrite (repr_below _ _ _ _ R). reflexivity.
Qed.
