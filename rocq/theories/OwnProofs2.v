(** Proofs about OwnModel: evaluating, normalising and substituting in place. *)
From Coq Require Import ZArith String Ascii Lia Bool List Arith.
From Verif Require Import Base AdapterModel RationalModel RealModel PolyModel ExprModel ParserModel OwnModel OwnSpec OwnProofs1.
Import ListNotations.
Open Scope nat_scope.

Definition done {A} (o : res A) : res unit := (_ <- o ;; Ok tt)%Z.
Definition keep (o : res node) (n : node) : node := match o with Ok n' => n' | _ => n end.

Lemma hbind_assoc {A B C} (m : hm A) (f : A -> hm B) (g : B -> hm C) h : (x <~ (y <~ m ;; f y) ;; g x) h = (y <~ m ;; x <~ f y ;; g x) h.
Proof. unfold hbind. destruct (m h) as [[] ?]; reflexivity. Qed.
Lemma hbind_ok {A B} (m : hm A) (f : A -> hm B) h x h' : m h = (Ok x, h') -> (y <~ m ;; f y) h = f x h'.
Proof. intros E. unfold hbind. rewrite E. reflexivity. Qed.
Lemma load_ok h a n : fetch h a = Some n -> load (At a) h = (Ok n, h).
Proof. intros E. unfold load. rewrite E. reflexivity. Qed.

Section Values.
Variable P : penv.

Definition comb (c : ascii) (lv rv : option frac) : res (option frac) :=
  match lv, rv with
  | Some a, Some b =>
      if Ascii.eqb c "^" then
        (p <- exponent_of P b ;;
        match p with
        | None => Ok None
        | Some _ => q <- frac_to_rational (ew (pe P)) b ;; x <- frac_pow P a q ;; Ok (Some x)
        end)
      else (x <- apply_op P c a b ;; Ok (Some x))
  | _, _ => Ok None
  end.

Lemma try_eval_node_spec t : forall k h n F, repr h n t F -> height t <= k -> try_eval_node P k n h = (expr_try_eval P t, h).
Proof.
  induction t as [f|c l IHl r IHr]; intros k h n F R K.
  - inversion R; subst. destruct k; reflexivity.
  - inversion R as [|c' a b nl nr l' r' Fl Fr Ha Hb RL RR]; subst. cbn [height] in K. destruct k as [|k]; [lia|].
    cbn [try_eval_node]. rewrite (hbind_ok _ _ _ _ _ (load_ok _ _ _ Ha)). unfold hbind at 1. rewrite (IHl k h nl Fl RL) by lia.
    cbn [expr_try_eval]. destruct (expr_try_eval P l) as [lv| | |]; try reflexivity. cbn [bind].
    rewrite (hbind_ok _ _ _ _ _ (load_ok _ _ _ Hb)). unfold hbind at 1. rewrite (IHr k h nr Fr RR) by lia.
    destruct (expr_try_eval P r) as [rv| | |]; reflexivity.
Qed.
Lemma try_eval_spec h n t F : repr h n t F -> NoDup F -> try_eval P n h = (expr_try_eval P t, h).
Proof. intros R D. unfold try_eval, sized. eapply try_eval_node_spec; eauto. pose proof (repr_height _ _ _ _ R D). lia. Qed.

Lemma view_node_spec t : forall k h n F, repr h n t F -> height t <= k -> view_node k n h = (Ok t, h).
Proof.
  induction t as [f|c l IHl r IHr]; intros k h n F R K.
  - inversion R; subst. destruct k; reflexivity.
  - inversion R as [|c' a b nl nr l' r' Fl Fr Ha Hb RL RR]; subst. cbn [height] in K. destruct k as [|k]; [lia|].
    cbn [view_node]. rewrite (hbind_ok _ _ _ _ _ (load_ok _ _ _ Ha)). rewrite (hbind_ok _ _ _ _ _ (IHl k h nl Fl RL ltac:(lia))).
    rewrite (hbind_ok _ _ _ _ _ (load_ok _ _ _ Hb)). rewrite (hbind_ok _ _ _ _ _ (IHr k h nr Fr RR ltac:(lia))). reflexivity.
Qed.
Lemma to_string_spec E h n t F : repr h n t F -> NoDup F -> to_string E n h = (expr_to_string E t, h).
Proof.
  intros R D. unfold to_string, hbind, sized. rewrite (view_node_spec t _ _ _ _ R); [reflexivity|]. pose proof (repr_height _ _ _ _ R D). lia.
Qed.

(** working in place on the cells F, ending with the cells F' *)
Definition inplace (h h' : heap) (F F' : list nat) : Prop :=
  length h' = length h /\ NoDup F' /\ incl F' F /\ (forall a, ~ In a F -> fetch h' a = fetch h a) /\ (forall a, In a F -> ~ In a F' -> fetch h' a = None).
Lemma inplace_refl h F : NoDup F -> inplace h h F F.
Proof. intros D. repeat split; auto; [apply incl_refl|tauto]. Qed.
(** what an in-place operation has to satisfy for a tree *)
Definition acts (g : node -> hm node) (v : expr -> res unit * expr) (t : expr) : Prop :=
  forall h n F, repr h n t F -> NoDup F -> exists o h' F', g n h = (o, h') /\ done o = fst (v t) /\ repr h' (keep o n) (snd (v t)) F' /\ inplace h h' F F'.

Definition inside (g : node -> hm node) (p : ptr) : hm unit := m <~ load p ;; m' <~ g m ;; store p m'.
(** an operand: its own cell and the cells below *)
Definition operand (h : heap) (a : nat) (t : expr) (F : list nat) : Prop := exists n, fetch h a = Some n /\ repr h n t F.
Definition changed (h h' : heap) (a : nat) (F F' : list nat) : Prop :=
  length h' = length h /\ NoDup F' /\ incl F' F /\ (forall x, x <> a -> ~ In x F -> fetch h' x = fetch h x) /\ (forall x, In x F -> ~ In x F' -> fetch h' x = None).
Lemma inside_spec g v t h a F : acts g v t -> operand h a t F -> NoDup F -> ~ In a F ->
  exists h' F', inside g (At a) h = (fst (v t), h') /\ operand h' a (snd (v t)) F' /\ changed h h' a F F'.
Proof.
  intros A (n & Ha & R) D Na. destruct (A h n F R D) as (o & h' & F' & E & Eo & R' & L & D' & I & O & Z).
  assert (Ha' : fetch h' a = Some n) by (rewrite O by assumption; exact Ha).
  assert (La : a < length h') by (rewrite L; eapply fetch_lt; eauto).
  assert (Na' : ~ In a F') by (intros C; apply Na, I, C).
  destruct o as [n'|m|m|] eqn:Eo'.
  - exists (update h' a (Some n')), F'. cbn [keep] in R'. split; [|split; [|split; [|split; [|split; [|split]]]]].
    + unfold inside. rewrite (hbind_ok _ _ _ _ _ (load_ok _ _ _ Ha)). rewrite (hbind_ok _ _ _ _ _ E). unfold store. rewrite Ha'.
      rewrite <- Eo. reflexivity.
    + exists n'. split; [apply fetch_update_same; exact La|]. apply (repr_frame h'); [exact R'|]. intros x Hx. apply fetch_update_other. congruence.
    + rewrite update_length. exact L.
    + exact D'.
    + exact I.
    + intros x Nx Nf. rewrite fetch_update_other by congruence. apply O, Nf.
    + intros x Hx Nx. rewrite fetch_update_other by congruence. apply Z; assumption.
  - exists h', F'. cbn [keep] in R'. split; [|split; [|split; [|split; [|split; [|split]]]]]; auto.
    + unfold inside. rewrite (hbind_ok _ _ _ _ _ (load_ok _ _ _ Ha)). unfold hbind. rewrite E. rewrite <- Eo. reflexivity.
    + exists n. auto.
  - exists h', F'. cbn [keep] in R'. split; [|split; [|split; [|split; [|split; [|split]]]]]; auto.
    + unfold inside. rewrite (hbind_ok _ _ _ _ _ (load_ok _ _ _ Ha)). unfold hbind. rewrite E. rewrite <- Eo. reflexivity.
    + exists n. auto.
  - exists h', F'. cbn [keep] in R'. split; [|split; [|split; [|split; [|split; [|split]]]]]; auto.
    + unfold inside. rewrite (hbind_ok _ _ _ _ _ (load_ok _ _ _ Ha)). unfold hbind. rewrite E. rewrite <- Eo. reflexivity.
    + exists n. auto.
Qed.

Definition two (g : node -> hm node) (p q : ptr) : hm unit := _ <~ inside g p ;; inside g q.
Definition separate (a b : nat) (F G : list nat) : Prop :=
  a <> b /\ ~ In a F /\ ~ In a G /\ ~ In b F /\ ~ In b G /\ NoDup F /\ NoDup G /\ (forall x, In x F -> In x G -> False).
Definition two_value (v : expr -> res unit * expr) (s t : expr) : res unit * (expr * expr) :=
  match v s with (Ok _, s') => let (o, t') := v t in (o, (s', t')) | (o, s') => (o, (s', t)) end.
Definition changed2 (h h' : heap) (a b : nat) (F F' G G' : list nat) : Prop :=
  length h' = length h /\ separate a b F' G' /\ incl F' F /\ incl G' G /\
  (forall x, x <> a -> x <> b -> ~ In x F -> ~ In x G -> fetch h' x = fetch h x) /\
  (forall x, In x F -> ~ In x F' -> fetch h' x = None) /\ (forall x, In x G -> ~ In x G' -> fetch h' x = None).
Lemma operand_frame h h' a t F : operand h a t F -> fetch h' a = fetch h a -> (forall x, In x F -> fetch h' x = fetch h x) -> operand h' a t F.
Proof. intros (n & E & R) E' A. exists n. split; [congruence|]. eapply repr_frame; eauto. Qed.
Lemma two_spec g v s t h a b F G : acts g v s -> acts g v t -> operand h a s F -> operand h b t G -> separate a b F G ->
  exists h' F' G', two g (At a) (At b) h = (fst (two_value v s t), h') /\ operand h' a (fst (snd (two_value v s t))) F'
    /\ operand h' b (snd (snd (two_value v s t))) G' /\ changed2 h h' a b F F' G G'.
Proof.
  intros As At_ OS OT (Nab & NaF & NaG & NbF & NbG & DF & DG & FG).
  destruct (inside_spec g v s h a F As OS DF NaF) as (h1 & F1 & E1 & OS1 & L1 & D1 & I1 & U1 & Z1).
  assert (OT1 : operand h1 b t G).
  { apply (operand_frame h); [exact OT|apply U1; congruence|]. intros x Hx. apply U1; [intros ->; tauto|]. intros C. eapply FG; eauto. }
  assert (Na1 : ~ In a F1) by (intros C; apply NaF, I1, C). assert (Nb1 : ~ In b F1) by (intros C; apply NbF, I1, C).
  unfold two, two_value. destruct (v s) as [os s'] eqn:Ev. cbn [fst snd] in *. destruct os as [[]|m|m|].
  2: { exists h1, F1, G. unfold hbind. rewrite E1. split; [reflexivity|]. split; [exact OS1|]. split; [exact OT1|].
       split; [exact L1|]. split; [repeat split; auto; intros x C C'; eapply FG; eauto|]. split; [exact I1|]. split; [apply incl_refl|].
       split; [intros; apply U1; assumption|]. split; [exact Z1|]. intros; tauto. }
  2: { exists h1, F1, G. unfold hbind. rewrite E1. split; [reflexivity|]. split; [exact OS1|]. split; [exact OT1|].
       split; [exact L1|]. split; [repeat split; auto; intros x C C'; eapply FG; eauto|]. split; [exact I1|]. split; [apply incl_refl|].
       split; [intros; apply U1; assumption|]. split; [exact Z1|]. intros; tauto. }
  2: { exists h1, F1, G. unfold hbind. rewrite E1. split; [reflexivity|]. split; [exact OS1|]. split; [exact OT1|].
       split; [exact L1|]. split; [repeat split; auto; intros x C C'; eapply FG; eauto|]. split; [exact I1|]. split; [apply incl_refl|].
       split; [intros; apply U1; assumption|]. split; [exact Z1|]. intros; tauto. }
  destruct (inside_spec g v t h1 b G At_ OT1 DG NbG) as (h2 & G2 & E2 & OT2 & L2 & D2 & I2 & U2 & Z2).
  exists h2, F1, G2. rewrite (hbind_ok _ _ _ _ _ E1). rewrite E2. destruct (v t) as [ot t'] eqn:Evt. cbn [fst snd] in *.
  assert (FG1 : forall x, In x F1 -> In x G -> False) by (intros x C C'; eapply FG; eauto).
  split; [reflexivity|]. split.
  { apply (operand_frame h1); [exact OS1|apply U2; congruence|]. intros x Hx. apply U2; [intros ->; tauto|]. intros C. eapply FG1; eauto. }
  split; [exact OT2|]. split; [congruence|].
  assert (Na2 : ~ In a G2) by (intros C; apply NaG, I2, C). assert (Nb2 : ~ In b G2) by (intros C; apply NbG, I2, C).
  split; [repeat split; auto; intros x C C'; eapply FG1; eauto|]. split; [exact I1|]. split; [exact I2|].
  split; [intros x X1 X2 X3 X4; rewrite U2 by assumption; apply U1; assumption|]. split.
  - intros x Hx Nx. destruct (Nat.eq_dec x b) as [->|Nb]; [tauto|]. rewrite U2; [apply Z1; assumption|exact Nb|intros C; eapply FG; eauto].
  - exact Z2.
Qed.
(** assembled again as a node *)
Lemma assemble h h' c a b s t F F' G G' : operand h' a s F' -> operand h' b t G' -> changed2 h h' a b F F' G G' ->
  repr h' (NOp c (At a) (At b)) (Op c s t) (a :: b :: F' ++ G') /\ inplace h h' (a :: b :: F ++ G) (a :: b :: F' ++ G').
Proof.
  intros (n & Ea & R) (m & Eb & R') (L & (Nab & NaF & NaG & NbF & NbG & DF & DG & FG) & I & J & U & Z & Z').
  split; [econstructor; eauto|]. split; [exact L|]. split; [apply op_nodup; assumption|]. split; [|split].
  - intros x [<-|[<-|H]]; [left; reflexivity|right; left; reflexivity|]. right. right. apply in_app_or in H. apply in_or_app. destruct H; auto.
  - intros x Nx. cbn [In] in Nx. rewrite in_app_iff in Nx. apply U; [intros ->; tauto|intros ->; tauto|tauto|tauto].
  - intros x Hx Nx. cbn [In] in Nx, Hx. rewrite in_app_iff in Nx, Hx. destruct Hx as [->|[->|[Hx|Hx]]]; [tauto|tauto| |]; [apply Z|apply Z']; tauto.
Qed.
Lemma assemble' h h' c a b s t F F' G G' : operand h' a s F' -> operand h' b t G' -> changed2 h h' b a G G' F F' ->
  repr h' (NOp c (At a) (At b)) (Op c s t) (a :: b :: F' ++ G') /\ inplace h h' (a :: b :: F ++ G) (a :: b :: F' ++ G').
Proof.
  intros A B (L & (Nab & NaF & NaG & NbF & NbG & DF & DG & FG) & I & J & U & Z & Z').
  apply assemble; [assumption|assumption|]. split; [exact L|]. split; [repeat split; auto; intros; eapply FG; eauto|]. auto 10.
Qed.
Lemma inplace_trans h1 h2 h3 F G H : inplace h1 h2 F G -> inplace h2 h3 G H -> inplace h1 h3 F H.
Proof.
  intros (L & D & I & U & Z) (L' & D' & I' & U' & Z'). split; [congruence|]. split; [exact D'|]. split; [eapply incl_tran; eauto|]. split.
  - intros a Na. rewrite U'; [apply U, Na|]. intros C. apply Na, I, C.
  - intros a Ha Na. destruct (in_dec Nat.eq_dec a G) as [Hg|Hg]; [apply Z'; assumption|]. rewrite U' by exact Hg. apply Z; assumption.
Qed.
Lemma freed_inplace h h' F : freed h h' F -> inplace h h' F [].
Proof. intros (L & Z & U). split; [exact L|]. split; [constructor|]. split; [intros ? []|]. split; [exact U|auto]. Qed.

Lemma hb_unit (m : hm unit) (n : node) h o h' : m h = (o, h') -> (_ <~ m ;; ret n) h = (match o with Ok _ => Ok n | Throw s => Throw s | Ub s => Ub s | Fuel => Fuel end, h').
Proof. intros E. unfold hbind. rewrite E. destruct o; reflexivity. Qed.

Lemma andthen_two v s t (w : expr -> expr -> expr) :
  andthen (v s) (fun s' => andthen (v t) (fun t' => (Ok tt, w s' t')) (fun t' => w s' t')) (fun s' => w s' t)
  = (fst (two_value v s t), w (fst (snd (two_value v s t))) (snd (snd (two_value v s t)))).
Proof. unfold andthen, two_value. destruct (v s) as [[[]| | |] s']; try reflexivity. destruct (v t) as [[[]| | |] t']; reflexivity. Qed.


Lemma done_unit (o : res unit) (n : node) : done (match o with Ok _ => Ok n | Throw s => Throw s | Ub s => Ub s | Fuel => Fuel end) = o.
Proof. destruct o as [[]| | |]; reflexivity. Qed.
Lemma keep_unit (o : res unit) (n : node) : keep (match o with Ok _ => Ok n | Throw s => Throw s | Ub s => Ub s | Fuel => Fuel end) n = n.
Proof. destruct o as [[]| | |]; reflexivity. Qed.

Lemma both_lr g v c l r h a b F G : acts g v l -> acts g v r -> operand h a l F -> operand h b r G -> separate a b F G ->
  let V := andthen (v l) (fun l' => andthen (v r) (fun r' => (Ok tt, Op c l' r')) (fun r' => Op c l' r')) (fun l' => Op c l' r) in
  exists o h' F', (_ <~ inside g (At a) ;; _ <~ inside g (At b) ;; ret (NOp c (At a) (At b))) h = (o, h') /\ done o = fst V
    /\ repr h' (keep o (NOp c (At a) (At b))) (snd V) F' /\ inplace h h' (a :: b :: F ++ G) F'.
Proof.
  intros Al Ar OL OR SEP V. destruct (two_spec g v l r h a b F G Al Ar OL OR SEP) as (h' & F' & G' & E & O1 & O2 & CH).
  rewrite <- (hbind_assoc (inside g (At a)) (fun _ => inside g (At b)) (fun _ => ret (NOp c (At a) (At b)))). fold (two g (At a) (At b)).
  rewrite (hb_unit _ _ _ _ _ E). eexists _, h', (a :: b :: F' ++ G'). split; [reflexivity|]. rewrite done_unit, keep_unit.
  unfold V. rewrite (andthen_two v l r (Op c)). cbn [fst snd]. split; [reflexivity|]. apply assemble; assumption.
Qed.
Lemma both_rl g v c l r h a b F G : acts g v l -> acts g v r -> operand h a l F -> operand h b r G -> separate a b F G ->
  let V := andthen (v r) (fun r' => andthen (v l) (fun l' => (Ok tt, Op c l' r')) (fun l' => Op c l' r')) (fun r' => Op c l r') in
  exists o h' F', (_ <~ inside g (At b) ;; _ <~ inside g (At a) ;; ret (NOp c (At a) (At b))) h = (o, h') /\ done o = fst V
    /\ repr h' (keep o (NOp c (At a) (At b))) (snd V) F' /\ inplace h h' (a :: b :: F ++ G) F'.
Proof.
  intros Al Ar OL OR (Nab & NaF & NaG & NbF & NbG & DF & DG & FG) V.
  assert (SEP : separate b a G F) by (repeat split; auto; intros; eapply FG; eauto).
  destruct (two_spec g v r l h b a G F Ar Al OR OL SEP) as (h' & G' & F' & E & O2 & O1 & CH).
  rewrite <- (hbind_assoc (inside g (At b)) (fun _ => inside g (At a)) (fun _ => ret (NOp c (At a) (At b)))). fold (two g (At b) (At a)).
  rewrite (hb_unit _ _ _ _ _ E). eexists _, h', (a :: b :: F' ++ G'). split; [reflexivity|]. rewrite done_unit, keep_unit.
  unfold V. rewrite (andthen_two v r l (fun x y => Op c y x)). cbn [fst snd]. split; [reflexivity|]. apply assemble'; assumption.
Qed.

Lemma normalize_node_spec t : forall k, height t <= k -> acts (normalize_node P k) (norm_value P) t.
Proof.
  induction t as [f|c l IHl r IHr]; intros k K h n F R D.
  - inversion R; subst. exists (Ok (NLeaf f)), h, []. split; [destruct k; reflexivity|]. split; [reflexivity|]. split; [constructor|apply inplace_refl; exact D].
  - cbn [height] in K. destruct k as [|k]; [lia|]. specialize (IHl k ltac:(lia)). specialize (IHr k ltac:(lia)).
    pose proof R as R0. inversion R as [|c' a b nl nr l' r' Fl Fr Ha Hb RL RR]; subst. pose proof (nodup_op D) as SEP. fold (separate a b Fl Fr) in SEP.
    pose proof SEP as (Nab & NaF & NaG & NbF & NbG & DF & DG & FG).
    assert (OL : operand h a l Fl) by (exists nl; auto). assert (OR : operand h b r Fr) by (exists nr; auto).
    pose proof (both_lr _ _ c l r h a b Fl Fr IHl IHr OL OR SEP) as LR. pose proof (both_rl _ _ c l r h a b Fl Fr IHl IHr OL OR SEP) as RLB.
    destruct (destroy_spec h _ _ _ R0 D) as (hd & Ed & Fd).
    assert (BEC : forall x : frac, exists o h' F', (_ <~ destroy (NOp c (At a) (At b)) ;; ret (NLeaf x)) h = (o, h') /\ done o = Ok tt
       /\ repr h' (keep o (NOp c (At a) (At b))) (Leaf x) F' /\ inplace h h' (a :: b :: Fl ++ Fr) F').
    { intros x. rewrite (hbind_ok _ _ _ _ _ Ed). exists (Ok (NLeaf x)), hd, []. split; [reflexivity|]. split; [reflexivity|]. split; [constructor|].
      apply freed_inplace; exact Fd. }
    assert (STAY : forall (x : res node) (e : res unit), done x = e -> (match x with Ok _ => False | _ => True end) ->
       exists o h' F', (x, h) = (o, h') /\ done o = e /\ repr h' (keep o (NOp c (At a) (At b))) (Op c l r) F' /\ inplace h h' (a :: b :: Fl ++ Fr) F').
    { intros x e Ex Nx. exists x, h, (a :: b :: Fl ++ Fr). split; [reflexivity|]. split; [exact Ex|]. split; [|apply inplace_refl; exact D].
      destruct x; [destruct Nx|exact R0|exact R0|exact R0]. }
    cbn [normalize_node norm_value]. cbv zeta in LR, RLB.
    rewrite (hbind_ok _ _ _ _ _ (load_ok _ _ _ Ha)). unfold hbind at 1. rewrite (try_eval_spec h nl l Fl RL DF).
    destruct (expr_try_eval P l) as [lv|m|m|]; [|apply STAY; [reflexivity|exact I] ..].
    rewrite (hbind_ok _ _ _ _ _ (load_ok _ _ _ Hb)). unfold hbind at 1. rewrite (try_eval_spec h nr r Fr RR DG).
    destruct (expr_try_eval P r) as [rv|m|m|]; [|destruct lv; apply STAY; [reflexivity|exact I|reflexivity|exact I] ..].
    destruct lv as [x|]; [|exact RLB]. destruct rv as [y|]; [|exact RLB].
    destruct (Ascii.eqb c "^").
    + unfold hbind at 1. unfold lift at 1. destruct (exponent_of P y) as [[p|]|m|m|]; [|exact LR|apply STAY; [reflexivity|exact I] ..].
      unfold hbind at 1. unfold lift at 1.
      destruct (q <- real_to_rational (ew (pe P)) p ;; frac_pow P x q)%Z as [z|m|m|]; [|apply STAY; [reflexivity|exact I] ..].
      destruct (BEC z) as (o & h' & F' & E & X). exists o, h', F'. split; [exact E|exact X].
    + unfold hbind at 1. unfold lift at 1.
      destruct (apply_op P c x y) as [z|m|m|]; [|apply STAY; [reflexivity|exact I] ..].
      destruct (BEC z) as (o & h' & F' & E & X). exists o, h', F'. split; [exact E|exact X].
Qed.
Lemma normalize_spec t : acts (normalize P) (norm_value P) t.
Proof. intros h n F R D. unfold normalize, sized. apply normalize_node_spec; [|exact R|exact D]. pose proof (repr_height _ _ _ _ R D). lia. Qed.

Lemma subst_node_spec env t : forall k, height t <= k -> acts (subst_node P env k) (subst_value P env) t.
Proof.
  induction t as [f|c l IHl r IHr]; intros k K h n F R D.
  - inversion R; subst. replace (subst_node P env k (NLeaf f)) with (x <~ lift (frac_subst P env f) ;; ret (NLeaf x)) by (destruct k; reflexivity).
    unfold hbind, lift. cbn [subst_value]. destruct (frac_subst P env f) as [x|m|m|]; (eexists _, h, []; split; [reflexivity|]; split; [reflexivity|];
    split; [constructor|apply inplace_refl; constructor]).
  - cbn [height] in K. destruct k as [|k]; [lia|]. specialize (IHl k ltac:(lia)). specialize (IHr k ltac:(lia)).
    inversion R as [|c' a b nl nr l' r' Fl Fr Ha Hb RL RR]; subst. pose proof (nodup_op D) as SEP. fold (separate a b Fl Fr) in SEP.
    assert (OL : operand h a l Fl) by (exists nl; auto). assert (OR : operand h b r Fr) by (exists nr; auto).
    destruct (two_spec _ _ l r h a b Fl Fr IHl IHr OL OR SEP) as (h1 & F1 & G1 & E & O1 & O2 & CH).
    destruct (assemble h h1 c a b _ _ _ _ _ _ O1 O2 CH) as (R1 & IP).
    replace (subst_node P env (S k) (NOp c (At a) (At b))) with
      (_ <~ inside (subst_node P env k) (At a) ;; _ <~ inside (subst_node P env k) (At b) ;; normalize P (NOp c (At a) (At b))) by reflexivity.
    rewrite <- (hbind_assoc (inside (subst_node P env k) (At a)) (fun _ => inside (subst_node P env k) (At b)) (fun _ => normalize P (NOp c (At a) (At b)))).
    fold (two (subst_node P env k) (At a) (At b)).
    cbn [subst_value]. unfold andthen, two_value in *. unfold hbind at 1. rewrite E.
    destruct (subst_value P env l) as [[[]|m|m|] l'];
      [|eexists _, h1, _; split; [reflexivity|]; split; [reflexivity|]; split; [exact R1|exact IP] ..].
    destruct (subst_value P env r) as [[[]|m|m|] r'];
      [|eexists _, h1, _; split; [reflexivity|]; split; [reflexivity|]; split; [exact R1|exact IP] ..].
    cbn [fst snd] in *. destruct (normalize_spec _ h1 _ _ R1 ltac:(destruct IP as (_ & X & _); exact X)) as (o & h2 & F2 & E2 & Eo & R2 & IP2).
    exists o, h2, F2. split; [exact E2|]. split; [exact Eo|]. split; [exact R2|]. eapply inplace_trans; eauto.
Qed.
Lemma substitute_spec env t : acts (substitute P env) (subst_value P env) t.
Proof. intros h n F R D. unfold substitute, sized. apply subst_node_spec; [|exact R|exact D]. pose proof (repr_height _ _ _ _ R D). lia. Qed.

(** the specification's normalisation agrees with the functional model of ExprModel.v *)
Lemma norm_value_normalize t : expr_normalize P t = (_ <- fst (norm_value P t) ;; Ok (snd (norm_value P t)))%Z.
Proof.
  induction t as [f|c l IHl r IHr]; [reflexivity|]. cbn [expr_normalize norm_value]. rewrite IHl, IHr.
  destruct (expr_try_eval P l) as [lv|m|m|]; cbn [bind]; [|reflexivity ..].
  destruct (expr_try_eval P r) as [rv|m|m|]; [|destruct lv; reflexivity ..].
  assert (X : (r' <- (_ <- fst (norm_value P r) ;; Ok (snd (norm_value P r))) ;; l' <- (_ <- fst (norm_value P l) ;; Ok (snd (norm_value P l))) ;; Ok (Op c l' r'))%Z
    = let v := andthen (norm_value P r) (fun r' => andthen (norm_value P l) (fun l' => (Ok tt, Op c l' r')) (fun l' => Op c l' r')) (fun r' => Op c l r') in
      (_ <- fst v ;; Ok (snd v))%Z).
  { unfold andthen. destruct (norm_value P r) as [[[]| | |] r']; try reflexivity. destruct (norm_value P l) as [[[]| | |] l']; reflexivity. }
  cbn [bind]. destruct lv as [a|]; [|exact X]. destruct rv as [b|]; [|exact X]. destruct (Ascii.eqb c "^").
  - destruct (exponent_of P b) as [[p|]|m|m|]; cbn [bind]; [| |reflexivity ..].
    + destruct (real_to_rational (ew (pe P)) p) as [q|m|m|]; cbn [bind]; [|reflexivity ..]. destruct (frac_pow P a q); reflexivity.
    + unfold andthen. destruct (norm_value P l) as [[[]| | |] l']; try reflexivity. destruct (norm_value P r) as [[[]| | |] r']; reflexivity.
  - destruct (apply_op P c a b); reflexivity.
Qed.
Lemma subst_value_subst env t : expr_subst P env t = (_ <- fst (subst_value P env t) ;; Ok (snd (subst_value P env t)))%Z.
Proof.
  induction t as [f|c l IHl r IHr]; cbn [expr_subst subst_value].
  - destruct (frac_subst P env f); reflexivity.
  - rewrite IHl, IHr. unfold andthen. destruct (subst_value P env l) as [[[]| | |] l']; try reflexivity.
    destruct (subst_value P env r) as [[[]| | |] r']; try reflexivity. cbn [fst snd bind]. apply norm_value_normalize.
Qed.
End Values.
