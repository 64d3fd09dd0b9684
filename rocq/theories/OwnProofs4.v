(** Proofs about OwnModel: programs over expression variables. *)
From Coq Require Import ZArith String Ascii Lia Bool List Arith Permutation.
From Verif Require Import Base AdapterModel RationalModel RealModel PolyModel ExprModel ParserModel OwnModel OwnSpec OwnProofs1 OwnProofs2 OwnProofs3.
Import ListNotations.
Open Scope nat_scope.

Inductive own_vars (h : heap) : vars -> values -> list nat -> Prop :=
| own_nil : own_vars h [] [] []
| own_cons x n t F s vs G : repr h n t F -> own_vars h s vs G -> own_vars h ((x, n) :: s) ((x, t) :: vs) (F ++ G).
Definition inv (h : heap) (s : vars) (vs : values) (L : list nat) : Prop := exists G, own_vars h s vs G /\ exactly h (G ++ L).

Lemma exactly_permutation h G G' : exactly h G -> Permutation G G' -> exactly h G'.
Proof.
  intros X P. apply (exactly_perm h G); [exact X| |destruct X as [D _]; eapply Permutation_NoDup; eauto].
  intros a. split; apply Permutation_in; [symmetry; exact P|exact P].
Qed.
Lemma own_vars_frame h h' s vs G : own_vars h s vs G -> (forall a, In a G -> fetch h' a = fetch h a) -> own_vars h' s vs G.
Proof.
  induction 1; intros A; constructor.
  - eapply repr_frame; [eassumption|]. intros a Ha. apply A, in_or_app. auto.
  - apply IHown_vars. intros a Ha. apply A, in_or_app. auto.
Qed.
Lemma own_size h s vs G : own_vars h s vs G -> length G = owned vs.
Proof. induction 1; [reflexivity|]. rewrite app_length, IHown_vars, (repr_below _ _ _ _ H). reflexivity. Qed.
Lemma own_lookup_none h s vs G x : own_vars h s vs G -> lookup x s = None <-> lookup x vs = None.
Proof. induction 1; cbn [lookup]; [tauto|]. destruct (String.eqb x x0); [split; discriminate|exact IHown_vars]. Qed.
(** taking one variable out of the store *)
Lemma own_split h s vs G x n : own_vars h s vs G -> lookup x s = Some n -> exists t F G', lookup x vs = Some t /\ repr h n t F /\ Permutation G (F ++ G') /\
  (forall h' n' t' F', repr h' n' t' F' -> (forall a, In a G' -> fetch h' a = fetch h a) ->
     exists G2, own_vars h' (setvar x n' s) (setvar x t' vs) G2 /\ Permutation G2 (F' ++ G')) /\
  (forall h', (forall a, In a G' -> fetch h' a = fetch h a) -> own_vars h' (delvar x s) (delvar x vs) G').
Proof.
  induction 1 as [|y m t F s vs G R O IH]; cbn [lookup]; [discriminate|]. cbn [setvar delvar]. destruct (String.eqb x y) eqn:Exy.
  - intros E. injection E as ->. exists t, F, G. split; [reflexivity|]. split; [exact R|]. split; [reflexivity|]. split.
    + intros h' n' t' F' R' A. exists (F' ++ G). split; [|reflexivity]. constructor; [exact R'|]. eapply own_vars_frame; eauto.
    + intros h' A. eapply own_vars_frame; eauto.
  - intros E. destruct (IH E) as (t1 & F1 & G1 & E1 & R1 & P1 & S1 & D1). exists t1, F1, (F ++ G1). split; [exact E1|]. split; [exact R1|]. split.
    { rewrite P1, !app_assoc. apply Permutation_app_tail, Permutation_app_comm. }
    assert (K : forall h', (forall a, In a (F ++ G1) -> fetch h' a = fetch h a) -> repr h' m t F).
    { intros h' A. eapply repr_frame; [exact R|]. intros a Ha. apply A, in_or_app. auto. }
    split.
    + intros h' n' t' F' R' A. destruct (S1 h' n' t' F' R') as (G2 & O2 & P2); [intros a Ha; apply A, in_or_app; auto|].
      exists (F ++ G2). split; [constructor; [apply K, A|exact O2]|]. rewrite P2, !app_assoc. apply Permutation_app_tail, Permutation_app_comm.
    + intros h' A. constructor; [apply K, A|]. apply D1. intros a Ha. apply A, in_or_app. auto.
Qed.
Lemma setvar_same {A} x (n : A) s : lookup x s = Some n -> setvar x n s = s.
Proof. induction s as [|[y m] s IH]; cbn; [discriminate|]. destruct (String.eqb x y); [congruence|]. intros E. rewrite IH by exact E. reflexivity. Qed.

Section Run.
Variables (P : penv) (dec : text -> res rat).

Definition step_ok (c : cmd) (s : vars) (vs : values) (h : heap) (L : list nat) : Prop :=
  exists s' h' L', exec1 P dec c s h = (fst (vexec P dec c vs), s', h') /\ inv h' s' (snd (vexec P dec c vs)) L' /\
    length L + fst (leak P dec c vs) <= length L' <= length L + snd (leak P dec c vs).

Lemma inv_old h s vs L : inv h s vs L -> forall G, own_vars h s vs G -> forall a, In a (G ++ L) -> a < length h.
Proof.
  intros (G0 & O & [D X]) G O' a Ha. apply fetch_lt'. apply in_app_or in Ha. destruct Ha as [Ha|Ha]; [|apply X, in_or_app; auto].
  clear -O' Ha. induction O' as [|x n t F s vs G R O IH]; [destruct Ha|]. apply in_app_or in Ha. destruct Ha; [eapply repr_live; eauto|auto].
Qed.
Lemma fresh_cases h s vs G x : own_vars h s vs G -> (fresh x s = Ok tt /\ fresh x vs = Ok tt /\ lookup x vs = None) \/ (fresh x s = Throw rejected /\ fresh x vs = Throw rejected /\ lookup x vs <> None).
Proof.
  intros O. pose proof (own_lookup_none h s vs G x O) as N. unfold fresh. destruct (lookup x s), (lookup x vs); [right|left|left|left]; repeat split; try reflexivity; try discriminate; destruct N as [N1 N2]; try (discriminate (N1 eq_refl)); try (discriminate (N2 eq_refl)).
Qed.

Lemma copied_inv h s vs L h' n t F x : inv h s vs L -> copied h h' n t F -> inv h' ((x, n) :: s) ((x, t) :: vs) L.
Proof.
  intros (G & O & X) C. exists (F ++ G). split.
  - constructor; [apply C|]. eapply own_vars_frame; [exact O|]. intros a Ha. eapply copied_old; [exact C|]. apply fetch_lt'. destruct X as [_ X]. apply X, in_or_app. auto.
  - rewrite <- app_assoc. eapply copied_exactly; eauto.
Qed.

Lemma exec_ok c s vs h L : inv h s vs L -> op_to_op c vs = false -> step_ok c s vs h L.
Proof.
  intros I NO. pose proof I as (G & O & X).
  assert (SAME : forall (o : res text) , exists s' h' L', (o, s, h) = (o, s', h') /\ inv h' s' vs L' /\ length L + 0 <= length L' <= length L + 0)
    by (intros o; exists s, h, L; split; [reflexivity|]; split; [exact I|lia]).
  unfold step_ok, exec1. destruct c as [x f|x c y z|x y|x y|x|x env|x raw|x|x].
  - (* Make *)
    cbn [exec vexec leak fst snd]. unfold declare. destruct (fresh_cases h s vs G x O) as [(E & E' & _)|(E & E' & _)]; unfold hbind, lift; rewrite E, E'; cbn [bind]; [|apply SAME].
    exists ((x, NLeaf f) :: s), h, L. split; [reflexivity|]. split; [|lia]. exists ([] ++ G). split; [constructor; [constructor|exact O]|exact X].
  - (* MakeOp *)
    cbn [exec vexec leak fst snd]. unfold declare. destruct (fresh_cases h s vs G x O) as [(E & E' & _)|(E & E' & _)]; unfold hbind at 1; unfold lift at 1; rewrite E, E'; cbn [bind]; [|apply SAME].
    unfold getvar, value. destruct (lookup y s) as [ny|] eqn:Ly; [|unfold hbind, lift; rewrite (proj1 (own_lookup_none _ _ _ _ y O) Ly); apply SAME].
    destruct (own_split _ _ _ _ _ _ O Ly) as (ty & Fy & Gy & Ey & Ry & Py & _ & _). rewrite Ey. cbn [bind].
    rewrite (hbind_ok (ret ny) _ h ny h eq_refl).
    destruct (lookup z s) as [nz|] eqn:Lz; [|unfold hbind, lift; rewrite (proj1 (own_lookup_none _ _ _ _ z O) Lz); apply SAME].
    destruct (own_split _ _ _ _ _ _ O Lz) as (tz & Fz & Gz & Ez & Rz & Pz & _ & _). rewrite Ez. cbn [bind].
    rewrite (hbind_ok (ret nz) _ h nz h eq_refl).
    assert (DG : NoDup G) by (destruct X as [D _]; apply NoDup_app_iff in D; tauto).
    assert (Dy : NoDup Fy) by (eapply Permutation_NoDup in DG; [|exact Py]; apply NoDup_app_iff in DG; tauto).
    assert (Dz : NoDup Fz) by (eapply Permutation_NoDup in DG; [|exact Pz]; apply NoDup_app_iff in DG; tauto).
    destruct (copy_spec h ny ty Fy Ry Dy) as (n1 & h1 & F1 & E1 & C1).
    pose proof (copied_exactly _ _ _ _ _ _ X C1) as X1. pose proof (alloc_exactly h1 n1 _ X1) as X1'.
    rewrite (hbind_ok (n <~ copy ny ;; alloc n) _ h (At (length h1)) (h1 ++ [Some n1])) by (rewrite (hbind_ok _ _ _ _ _ E1); reflexivity).
    assert (OLD1 : forall a, In a (F1 ++ G ++ L) -> fetch (h1 ++ [Some n1]) a = fetch h1 a) by (intros a Ha; apply fetch_app_old; destruct X1 as [_ X1]; apply fetch_lt', X1, Ha).
    assert (OLD0 : forall a, In a (G ++ L) -> fetch (h1 ++ [Some n1]) a = fetch h a).
    { intros a Ha. rewrite OLD1 by (apply in_or_app; auto). eapply copied_old; [exact C1|]. eapply inv_old; eauto. }
    assert (Rz1 : repr (h1 ++ [Some n1]) nz tz Fz).
    { apply (repr_frame h); [exact Rz|]. intros a Ha. apply OLD0, in_or_app. left. eapply Permutation_in; [symmetry; exact Pz|]. apply in_or_app. auto. }
    destruct (copy_spec _ nz tz Fz Rz1 Dz) as (n2 & h2 & F2 & E2 & C2).
    pose proof (copied_exactly _ _ _ _ _ _ X1' C2) as X2. pose proof (alloc_exactly h2 n2 _ X2) as X2'.
    rewrite (hbind_ok (n <~ copy nz ;; alloc n) _ (h1 ++ [Some n1]) (At (length h2)) (h2 ++ [Some n2])) by (rewrite (hbind_ok _ _ _ _ _ E2); reflexivity).
    assert (OLD2 : forall a, In a (F2 ++ length h1 :: F1 ++ G ++ L) -> fetch (h2 ++ [Some n2]) a = fetch h2 a) by (intros a Ha; apply fetch_app_old; destruct X2 as [_ X2]; apply fetch_lt', X2, Ha).
    assert (OLD3 : forall a, In a (length h1 :: F1 ++ G ++ L) -> fetch (h2 ++ [Some n2]) a = fetch (h1 ++ [Some n1]) a).
    { intros a Ha. rewrite OLD2 by (apply in_or_app; right; exact Ha). eapply copied_old; [exact C2|]. destruct X1' as [_ X1']. apply fetch_lt', X1', Ha. }
    set (h3 := h2 ++ [Some n2]) in *.
    assert (OA : operand h3 (length h1) ty F1).
    { exists n1. split; [rewrite OLD3 by (left; reflexivity); apply fetch_app_new|]. apply (repr_frame h1); [apply C1|]. intros a Ha.
      rewrite OLD3 by (right; apply in_or_app; auto). apply OLD1, in_or_app. auto. }
    assert (OB : operand h3 (length h2) tz F2).
    { exists n2. split; [apply fetch_app_new|]. apply (repr_frame h2); [apply C2|]. intros a Ha. apply OLD2, in_or_app. auto. }
    assert (X3 : exactly h3 ((length h1 :: length h2 :: F1 ++ F2) ++ G ++ L)).
    { apply (exactly_permutation _ _ _ X2'). cbn [app]. rewrite perm_swap. rewrite <- app_assoc.
      transitivity (length h2 :: length h1 :: F2 ++ F1 ++ G ++ L); [apply perm_skip; symmetry; apply Permutation_middle|].
      do 2 apply perm_skip. rewrite !app_assoc. do 2 apply Permutation_app_tail. apply Permutation_app_comm. }
    destruct (make_op_spec h3 c _ _ _ _ _ _ _ OA OB X3) as (n & h4 & F4 & E4 & R4 & X4 & L4 & U4).
    rewrite (hbind_ok _ _ _ _ _ E4). exists ((x, n) :: s), h4, L. split; [reflexivity|]. split; [|lia].
    exists (F4 ++ G). split; [|rewrite <- app_assoc; exact X4]. constructor; [exact R4|]. eapply own_vars_frame; [exact O|].
    intros a Ha. rewrite U4 by (apply in_or_app; auto). rewrite OLD3 by (right; rewrite !in_app_iff; auto). apply OLD0, in_or_app. auto.
  - (* Copy *)
    cbn [exec vexec leak fst snd]. unfold declare. destruct (fresh_cases h s vs G x O) as [(E & E' & _)|(E & E' & _)]; unfold hbind at 1; unfold lift at 1; rewrite E, E'; cbn [bind]; [|apply SAME].
    unfold getvar, value. destruct (lookup y s) as [ny|] eqn:Ly; [|unfold hbind, lift; rewrite (proj1 (own_lookup_none _ _ _ _ y O) Ly); apply SAME].
    destruct (own_split _ _ _ _ _ _ O Ly) as (ty & Fy & Gy & Ey & Ry & Py & _ & _). rewrite Ey.
    rewrite (hbind_ok (ret ny) _ h ny h eq_refl).
    assert (DG : NoDup G) by (destruct X as [D _]; apply NoDup_app_iff in D; tauto).
    assert (Dy : NoDup Fy) by (eapply Permutation_NoDup in DG; [|exact Py]; apply NoDup_app_iff in DG; tauto).
    destruct (copy_spec h ny ty Fy Ry Dy) as (n1 & h1 & F1 & E1 & C1). rewrite (hbind_ok _ _ _ _ _ E1).
    exists ((x, n1) :: s), h1, L. split; [reflexivity|]. split; [|lia]. eapply copied_inv; eauto.
  - (* Assign *)
    cbn [exec vexec leak fst snd]. unfold getvar, value.
    destruct (lookup x s) as [nx|] eqn:Lx; [|unfold hbind, lift; rewrite (proj1 (own_lookup_none _ _ _ _ x O) Lx); destruct (lookup y vs); apply SAME].
    destruct (own_split _ _ _ _ _ _ O Lx) as (tx & Fx & Gx & Ex & Rx & Px & Sx & _). rewrite Ex.
    rewrite (hbind_ok (ret nx) _ h nx h eq_refl).
    destruct (lookup y s) as [ny|] eqn:Ly; [|unfold hbind, lift; rewrite (proj1 (own_lookup_none _ _ _ _ y O) Ly); apply SAME].
    destruct (own_split _ _ _ _ _ _ O Ly) as (ty & Fy & Gy & Ey & Ry & Py & _ & _). rewrite Ey.
    rewrite (hbind_ok (ret ny) _ h ny h eq_refl). cbn [fst snd].
    cbn [op_to_op] in NO. rewrite Ex, Ey in NO.
    assert (XX : exactly h (Fx ++ (Gx ++ L))) by (rewrite app_assoc; apply (exactly_permutation _ _ _ X), Permutation_app_tail, Px).
    assert (DG : NoDup G) by (destruct X as [D _]; apply NoDup_app_iff in D; tauto).
    assert (Dx : NoDup Fx) by (eapply Permutation_NoDup in DG; [|exact Px]; apply NoDup_app_iff in DG; tauto).
    assert (Dy : NoDup Fy) by (eapply Permutation_NoDup in DG; [|exact Py]; apply NoDup_app_iff in DG; tauto).
    destruct (String.eqb_spec x y) as [<-|Nxy].
    { (* the same variable *)
      assert (ny = nx) by congruence. assert (ty = tx) by congruence. subst ny ty.
      assert (EA : assign nx nx h = (Ok nx, h) \/ exists f, nx = NLeaf f) by (destruct nx; [right; eauto|left; reflexivity]).
      destruct EA as [EA|(f & ->)].
      - rewrite (hbind_ok _ _ _ _ _ EA). exists s, h, L. rewrite (setvar_same x nx s Lx), (setvar_same x tx vs Ex). split; [reflexivity|]. split; [exact I|lia].
      - inversion Rx; subst. rewrite (hbind_ok (assign (NLeaf f) (NLeaf f)) _ h (NLeaf f) h eq_refl). exists s, h, L.
        rewrite (setvar_same x _ s Lx), (setvar_same x _ vs Ex). split; [reflexivity|]. split; [exact I|lia]. }
    cbn [negb andb] in NO.
    assert (EA : assign nx ny = (_ <~ destroy nx ;; copy ny)).
    { destruct nx; [reflexivity|]. destruct ny; [reflexivity|]. inversion Rx; subst. inversion Ry; subst. discriminate NO. }
    rewrite EA. destruct (destroy_spec h nx tx Fx Rx Dx) as (h1 & E1 & Fr1). pose proof (freed_exactly _ _ _ _ XX Fr1) as X1.
    pose proof Fr1 as (L1 & Z1 & U1).
    (* y's cells survive *)
    assert (Ry1 : repr h1 ny ty Fy).
    { destruct (is_op tx) eqn:Otx.
      - assert (is_op ty = false) by (destruct (is_op ty); [discriminate NO|reflexivity]). inversion Ry; subst; [constructor|discriminate].
      - inversion Rx; subst; [|discriminate]. apply (repr_frame h); [exact Ry|]. intros a Ha. apply U1. intros []. }
    destruct (copy_spec h1 ny ty Fy Ry1 Dy) as (n2 & h2 & F2 & E2 & C2). pose proof (copied_exactly _ _ _ _ _ _ X1 C2) as X2.
    rewrite (hbind_ok (_ <~ destroy nx ;; copy ny) _ h n2 h2) by (rewrite (hbind_ok _ _ _ _ _ E1); exact E2).
    destruct (Sx h2 n2 ty F2) as (G2 & O2 & P2); [apply C2| |].
    { intros a Ha. rewrite (copied_old _ _ _ _ _ _ C2); [apply U1|].
      - intros C. destruct XX as [D _]. apply NoDup_app_iff in D. destruct D as (_ & _ & D). apply (D a C), in_or_app. auto.
      - rewrite L1. apply fetch_lt'. destruct XX as [_ XX]. apply XX. rewrite !in_app_iff. auto. }
    exists (setvar x n2 s), h2, L. split; [reflexivity|]. split; [|lia]. exists G2. split; [exact O2|].
    apply (exactly_permutation _ _ _ X2). rewrite app_assoc. apply Permutation_app_tail. symmetry. exact P2.
  - (* Normalize *)
    cbn [exec vexec leak fst snd]. unfold getvar, change, value.
    destruct (lookup x s) as [nx|] eqn:Lx; [|unfold hbind, lift; rewrite (proj1 (own_lookup_none _ _ _ _ x O) Lx); apply SAME].
    destruct (own_split _ _ _ _ _ _ O Lx) as (tx & Fx & Gx & Ex & Rx & Px & Sx & _). rewrite Ex.
    rewrite (hbind_ok (ret nx) _ h nx h eq_refl).
    assert (XX : exactly h (Fx ++ (Gx ++ L))) by (rewrite app_assoc; apply (exactly_permutation _ _ _ X), Permutation_app_tail, Px).
    assert (Dx : NoDup Fx) by (destruct XX as [D _]; apply NoDup_app_iff in D; tauto).
    destruct (normalize_spec P tx h nx Fx Rx Dx) as (o & h1 & F1 & E1 & Eo & R1 & IP). pose proof (inplace_exactly _ _ _ _ _ _ _ XX IP R1) as X1.
    destruct (norm_value P tx) as [ov tx'] eqn:Ev. cbn [fst snd] in *.
    destruct (Sx h1 (keep o nx) tx' F1 R1) as (G2 & O2 & P2).
    { intros a Ha. destruct IP as (_ & _ & _ & U & _). apply U. intros C. destruct XX as [D _]. apply NoDup_app_iff in D. destruct D as (_ & _ & D). apply (D a C), in_or_app. auto. }
    assert (I1 : inv h1 (setvar x (keep o nx) s) (setvar x tx' vs) L).
    { exists G2. split; [exact O2|]. apply (exactly_permutation _ _ _ X1). rewrite app_assoc. apply Permutation_app_tail. symmetry. exact P2. }
    unfold hbind at 1. rewrite E1. subst ov. exists (setvar x (keep o nx) s), h1, L. split; [|split; [exact I1|lia]].
    destruct o; cbn [keep done bind]; [reflexivity|rewrite (setvar_same x nx s Lx); reflexivity ..].
  - (* Substitute *)
    cbn [exec vexec leak fst snd]. unfold getvar, change, value.
    destruct (lookup x s) as [nx|] eqn:Lx; [|unfold hbind, lift; rewrite (proj1 (own_lookup_none _ _ _ _ x O) Lx); apply SAME].
    destruct (own_split _ _ _ _ _ _ O Lx) as (tx & Fx & Gx & Ex & Rx & Px & Sx & _). rewrite Ex.
    rewrite (hbind_ok (ret nx) _ h nx h eq_refl).
    assert (XX : exactly h (Fx ++ (Gx ++ L))) by (rewrite app_assoc; apply (exactly_permutation _ _ _ X), Permutation_app_tail, Px).
    assert (Dx : NoDup Fx) by (destruct XX as [D _]; apply NoDup_app_iff in D; tauto).
    destruct (substitute_spec P env tx h nx Fx Rx Dx) as (o & h1 & F1 & E1 & Eo & R1 & IP). pose proof (inplace_exactly _ _ _ _ _ _ _ XX IP R1) as X1.
    destruct (subst_value P env tx) as [ov tx'] eqn:Ev. cbn [fst snd] in *.
    destruct (Sx h1 (keep o nx) tx' F1 R1) as (G2 & O2 & P2).
    { intros a Ha. destruct IP as (_ & _ & _ & U & _). apply U. intros C. destruct XX as [D _]. apply NoDup_app_iff in D. destruct D as (_ & _ & D). apply (D a C), in_or_app. auto. }
    assert (I1 : inv h1 (setvar x (keep o nx) s) (setvar x tx' vs) L).
    { exists G2. split; [exact O2|]. apply (exactly_permutation _ _ _ X1). rewrite app_assoc. apply Permutation_app_tail. symmetry. exact P2. }
    unfold hbind at 1. rewrite E1. subst ov. exists (setvar x (keep o nx) s), h1, L. split; [|split; [exact I1|lia]].
    destruct o; cbn [keep done bind]; [reflexivity|rewrite (setvar_same x nx s Lx); reflexivity ..].
  - (* Parse *)
    cbn [exec vexec leak]. unfold declare. destruct (fresh_cases h s vs G x O) as [(E & E' & LX)|(E & E' & LX)]; unfold hbind at 1; unfold lift at 1; rewrite E, E'; cbn [bind fst snd].
    2: { destruct (lookup x vs); [apply SAME|congruence]. }
    rewrite LX. unfold hparse, parse. destruct (get_all_tokens P dec raw) as [ts|m|m|] eqn:Et; [|apply SAME ..]. cbn [bind].
    rewrite (hbind_assoc (lift (Ok ts))). rewrite (hbind_ok (lift (Ok ts)) _ h ts h eq_refl).
    destruct (hparse_tokens_spec (removelast (tl ts)) h (G ++ L) X) as (o & h1 & F1 & G1 & E1 & K & X1 & U1 & LG & Q).
    assert (LT : length (removelast (tl ts)) <= length ts).
    { clear. destruct ts as [|t ts]; [cbn; lia|]. cbn [tl length]. enough (length (removelast ts) <= length ts) by lia.
      induction ts as [|a l IH]; [cbn; lia|]. cbn [removelast]. destruct l; cbn [length] in *; lia. }
    assert (O1 : own_vars h1 s vs G) by (eapply own_vars_frame; [exact O|]; intros a Ha; apply U1, in_or_app; auto).
    unfold hbind. rewrite E1. destruct (parse_tokens (removelast (tl ts))) as [t|m|m|] eqn:Ep; destruct o as [n|m'|m'|]; try destruct K; cbn [fst snd].
    { destruct Q as [R1 LG1]. exists ((x, n) :: s), h1, (G1 ++ L). split; [reflexivity|]. split; [|rewrite app_length; lia].
      exists (F1 ++ G). split; [constructor; [exact R1|exact O1]|]. apply (exactly_permutation _ _ _ X1). rewrite <- app_assoc. apply Permutation_app_head.
      rewrite !app_assoc. apply Permutation_app_tail, Permutation_app_comm. }
    all: subst F1; exists s, h1, (G1 ++ L); split; [reflexivity|]; split; [|rewrite app_length; lia]; exists G; split; [exact O1|];
      apply (exactly_permutation _ _ _ X1); cbn [app]; rewrite !app_assoc; apply Permutation_app_tail, Permutation_app_comm.
  - (* Print *)
    cbn [exec vexec leak fst snd]. unfold getvar, value.
    destruct (lookup x s) as [nx|] eqn:Lx; [|unfold hbind, lift; rewrite (proj1 (own_lookup_none _ _ _ _ x O) Lx); apply SAME].
    destruct (own_split _ _ _ _ _ _ O Lx) as (tx & Fx & Gx & Ex & Rx & Px & Sx & _). rewrite Ex.
    rewrite (hbind_ok (ret nx) _ h nx h eq_refl).
    assert (DG : NoDup G) by (destruct X as [D _]; apply NoDup_app_iff in D; tauto).
    assert (Dx : NoDup Fx) by (eapply Permutation_NoDup in DG; [|exact Px]; apply NoDup_app_iff in DG; tauto).
    unfold hbind. rewrite (to_string_spec (pe P) h nx tx Fx Rx Dx). cbn [bind]. destruct (expr_to_string (pe P) tx); apply SAME.
  - (* Destroy *)
    cbn [exec vexec leak fst snd]. unfold getvar, value.
    destruct (lookup x s) as [nx|] eqn:Lx; [|unfold hbind, lift; rewrite (proj1 (own_lookup_none _ _ _ _ x O) Lx); apply SAME].
    destruct (own_split _ _ _ _ _ _ O Lx) as (tx & Fx & Gx & Ex & Rx & Px & _ & Dl). rewrite Ex.
    rewrite (hbind_ok (ret nx) _ h nx h eq_refl).
    assert (XX : exactly h (Fx ++ (Gx ++ L))) by (rewrite app_assoc; apply (exactly_permutation _ _ _ X), Permutation_app_tail, Px).
    assert (Dx : NoDup Fx) by (destruct XX as [D _]; apply NoDup_app_iff in D; tauto).
    destruct (destroy_spec h nx tx Fx Rx Dx) as (h1 & E1 & Fr1). pose proof (freed_exactly _ _ _ _ XX Fr1) as X1. pose proof Fr1 as (_ & _ & U1).
    rewrite (hbind_ok _ _ _ _ _ E1). exists (delvar x s), h1, L. split; [reflexivity|]. split; [|lia]. exists Gx. split; [|exact X1].
    apply Dl. intros a Ha. apply U1. intros C. destruct XX as [D _]. apply NoDup_app_iff in D. destruct D as (_ & _ & D). apply (D a C), in_or_app. auto.
Qed.

Lemma run_ok p : forall s vs h L, inv h s vs L -> no_op_to_op P dec p vs = true ->
  exists s' h' L', run P dec p s h = (fst (vrun P dec p vs), s', h') /\ inv h' s' (snd (vrun P dec p vs)) L' /\
    length L + fst (leaks P dec p vs) <= length L' <= length L + snd (leaks P dec p vs).
Proof.
  induction p as [|c p IH]; intros s vs h L I N; cbn [run vrun leaks no_op_to_op] in *.
  - exists s, h, L. split; [reflexivity|]. split; [exact I|]. cbn. lia.
  - apply andb_prop in N. destruct N as [N1 N2]. destruct (exec_ok c s vs h L I ltac:(destruct (op_to_op c vs); [discriminate N1|reflexivity])) as (s1 & h1 & L1 & E1 & I1 & B1).
    rewrite E1. destruct (vexec P dec c vs) as [o vs1]. cbn [fst snd] in *. destruct o as [t|m|m|].
    + destruct (IH s1 vs1 h1 L1 I1 N2) as (s2 & h2 & L2 & E2 & I2 & B2). rewrite E2. destruct (vrun P dec p vs1) as [os vs2]. cbn [fst snd] in *.
      exists s2, h2, L2. split; [reflexivity|]. split; [exact I2|]. cbn [fst snd]. lia.
    + destruct (IH s1 vs1 h1 L1 I1 N2) as (s2 & h2 & L2 & E2 & I2 & B2). rewrite E2. destruct (vrun P dec p vs1) as [os vs2]. cbn [fst snd] in *.
      exists s2, h2, L2. split; [reflexivity|]. split; [exact I2|]. cbn [fst snd]. lia.
    + exists s1, h1, L1. auto.
    + exists s1, h1, L1. auto.
Qed.
Lemma inv_start : inv [] [] [] [].
Proof. exists []. split; [constructor|]. split; [constructor|]. intros a. split; [intros []|]. intros H. apply fetch_lt' in H. cbn in H. lia. Qed.
Lemma inv_live h s vs L : inv h s vs L -> live h = owned vs + length L.
Proof. intros (G & O & X). rewrite (exactly_live _ _ X), app_length, (own_size _ _ _ _ O). reflexivity. Qed.
End Run.
