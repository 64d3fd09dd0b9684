(** A text without '^', '_' and "**" is read as an expression without powers. *)
From Coq Require Import ZArith QArith String Ascii Lia Bool List.
From Verif Require Import Base RationalModel RationalProofs RealModel PolyModel ExprModel ParserModel ParserProofs3 LiftModel LiftSpec CliLiftSpec.
Import ListNotations.
Open Scope Z_scope.

Lemma ptext_suffix a b : powerless_text (a ++ b) -> powerless_text b.
Proof.
  intros (A & B & K). split; [intros H; apply A, in_or_app; now right|]. split; [intros H; apply B, in_or_app; now right|]. intros x y ->. apply (K (a ++ x) y). now rewrite app_assoc.
Qed.
Lemma ptext_tl s : powerless_text s -> powerless_text (tl s).
Proof. destruct s as [|c s]; [auto|]. exact (ptext_suffix [c] s). Qed.
Definition ptok (t : tok) : Prop := match t with TOp c => c <> "^"%char | TRad _ => False | _ => True end.
Lemma get_token_p P dec s t s' : powerless_text s -> get_token P dec s = Ok (t, s') -> ptok t /\ powerless_text s'.
Proof.
  intros H. unfold get_token. destruct (drop_spaces_inv s) as (sp & E & _). rewrite E in H. apply ptext_suffix in H. clear E. destruct (drop_spaces s) as [|c r].
  - intros K. injection K as <- <-. split; [exact I|exact H].
  - cbv zeta. destruct (Ascii.eqb_spec c "_") as [->|_]; [destruct H as (_ & H & _); exfalso; apply H; now left|].
    assert (R : powerless_text r) by exact (ptext_tl _ H).
    destruct (is_digit c || is_dot c)%bool eqn:DG.
    { destruct (scan_number (c :: r)) as [n s1] eqn:SC. intros K. apply bind_ok in K as (q & _ & K). apply bind_ok in K as (f & _ & K). injection K as <- <-. split; [exact I|].
      destruct (scan_inv c r n s1 DG SC) as (E & _). rewrite E in H. exact (ptext_suffix n s1 H). }
    destruct (is_opchar c).
    { destruct (Ascii.eqb_spec c "*") as [->|N]; cbn [andb].
      - destruct (Ascii.eqb_spec (peek r) "*") as [Q|Q].
        + destruct r as [|d r]; [discriminate Q|]. cbn [peek] in Q. subst d. destruct H as (_ & _ & H). exfalso. exact (H [] r eq_refl).
        + intros K. injection K as <- <-. split; [discriminate|exact R].
      - intros K. injection K as <- <-. split; [|exact R]. intros ->. destruct H as (H & _). apply H. now left. }
    destruct (Ascii.eqb c "("); [intros K; injection K as <- <-; split; [exact I|exact R]|]. destruct (Ascii.eqb c ")"); [intros K; injection K as <- <-; split; [exact I|exact R]|].
    destruct (is_alpha c || Ascii.eqb c "{")%bool; [|discriminate]. destruct (Ascii.eqb c "{").
    + destruct (span (fun d => negb (Ascii.eqb d "}")) r) as [k s1] eqn:SP. intros K. apply bind_ok in K as (f & _ & K). injection K as <- <-. split; [exact I|]. destruct (span_inv _ _ _ _ SP) as (E & _). rewrite E in R. apply ptext_tl. exact (ptext_suffix k s1 R).
    + intros K. apply bind_ok in K as (f & _ & K). injection K as <- <-. split; [exact I|exact R].
Qed.
Lemma push_token_p P acc t acc' : Forall ptok acc -> ptok t -> push_token P acc t = Ok acc' -> Forall ptok acc'.
Proof.
  intros A T. unfold push_token. destruct acc as [|back acc]; [discriminate|]. inversion A; subst. unfold add_token. destruct (_ && _)%bool.
  - intros K. injection K as <-. repeat (constructor; trivial). discriminate.
  - assert (B : Forall ptok (t :: back :: acc)) by (constructor; assumption). destruct back; try (intros K; injection K as <-; exact B); try contradiction.
    + destruct (is_sign t); [|intros K; injection K as <-; exact B]. intros K. apply bind_ok in K as (z & _ & K). injection K as <-. repeat (constructor; trivial).
    + destruct (is_sign t); [|intros K; injection K as <-; exact B]. intros K. apply bind_ok in K as (z & _ & K). injection K as <-. repeat (constructor; trivial).
Qed.
Lemma token_loop_p P dec fuel : forall acc s acc', Forall ptok acc -> powerless_text s -> token_loop P dec fuel acc s = Ok acc' -> Forall ptok acc'.
Proof.
  induction fuel as [|f IH]; intros acc s acc' A S; cbn [token_loop].
  - destruct acc as [|[] ?]; try discriminate; intros K; injection K as <-; exact A.
  - assert (K : ('(t, s') <- get_token P dec s ;; acc0 <- push_token P acc t ;; token_loop P dec f acc0 s') = Ok acc' -> Forall ptok acc').
    { intros K. apply bind_ok in K as ([t s'] & G & K). destruct (get_token_p P dec s t s' S G) as [T S']. apply bind_ok in K as (a & PT & K). exact (IH a s' acc' (push_token_p P acc t a A T PT) S' K). }
    destruct acc as [|[] ?]; first [exact K|intros Q; injection Q as <-; exact A].
Qed.
Definition pstate (st : state) : Prop := Forall powerless (fst st) /\ Forall (fun c => c <> "^"%char) (snd st).
Lemma handle_p st st' : pstate st -> handle st = Ok st' -> pstate st'.
Proof.
  destruct st as [[|r [|l ns]] [|c os]]; try discriminate. intros [A B] H. injection H as <-. cbn [fst snd] in *. inversion A as [|? ? R A']; subst. inversion A' as [|? ? L N]; subst. inversion B; subst. split; [|assumption]. constructor; [cbn; auto|assumption].
Qed.
Lemma pop_ge_p c fuel : forall st st', pstate st -> pop_ge fuel c st = Ok st' -> pstate st'.
Proof.
  induction fuel as [|f IH]; intros st st' S; cbn [pop_ge]; (destruct (snd st) as [|o os]; [intros H; injection H as <-; exact S|]); intros H; apply bind_ok in H as (g & _ & H); destruct g; try discriminate; try (injection H as <-; exact S).
  apply bind_ok in H as (s1 & H1 & H). exact (IH s1 st' (handle_p st s1 S H1) H).
Qed.
Lemma pop_paren_p fuel : forall st st', pstate st -> pop_paren fuel st = Ok st' -> pstate st'.
Proof.
  induction fuel as [|f IH]; intros st st' S H; cbn [pop_paren] in H.
  - destruct (fst st), (snd st); try discriminate; try (injection H as <-; exact S). destruct (Ascii.eqb _ _); [injection H as <-; exact S|discriminate].
  - destruct (fst st), (snd st); try discriminate; try (injection H as <-; exact S). destruct (Ascii.eqb _ _); [injection H as <-; exact S|]. apply bind_ok in H as (s1 & H1 & H). destruct (snd s1); [discriminate|]. exact (IH s1 st' (handle_p st s1 S H1) H).
Qed.
Lemma step_p st t st' : pstate st -> ptok t -> step st t = Ok st' -> pstate st'.
Proof.
  intros S T. destruct t; cbn [step]; try discriminate.
  all: try (intros H; injection H as <-; destruct S as [A B]; split; cbn [fst snd]; [first [assumption|constructor; [exact I|assumption]]|first [assumption|constructor; [discriminate|assumption]]]; fail).
  - intros H. apply bind_ok in H as (s1 & H1 & H). injection H as <-. destruct (pop_ge_p _ _ _ _ S H1) as [A B]. split; [exact A|]. constructor; [exact T|exact B].
  - destruct (snd st) eqn:E; [discriminate|]. intros H. apply bind_ok in H as (s1 & H1 & H). destruct (pop_paren_p _ _ _ S H1) as [A B]. destruct (snd s1); [discriminate|]. injection H as <-. inversion B; subst. split; assumption.
Qed.
Lemma steps_p ts : forall st st', pstate st -> Forall ptok ts -> steps st ts = Ok st' -> pstate st'.
Proof.
  induction ts as [|t ts IH]; intros st st' S T; cbn [steps]; [intros H; injection H as <-; exact S|]. inversion T as [|? ? T1 T2]; subst. intros H. apply bind_ok in H as (s1 & H1 & H). exact (IH s1 st' (step_p st t s1 S T1 H1) T2 H).
Qed.
Lemma pop_all_p fuel : forall st st', pstate st -> pop_all fuel st = Ok st' -> pstate st'.
Proof.
  induction fuel as [|f IH]; intros st st' S; cbn [pop_all]; (destruct (snd st); [intros H; injection H as <-; exact S|]); [discriminate|]. intros H. apply bind_ok in H as (s1 & H1 & H). exact (IH s1 st' (handle_p st s1 S H1) H).
Qed.
Lemma Forall_tl {A} (Q : A -> Prop) l : Forall Q l -> Forall Q (tl l). Proof. destruct 1; cbn; auto. Qed.
Lemma Forall_removelast {A} (Q : A -> Prop) l : Forall Q l -> Forall Q (removelast l).
Proof. induction 1 as [|x l H K IH]; [constructor|]. cbn [removelast]. destruct l; [constructor|]. constructor; assumption. Qed.
Lemma parse_powerless P dec raw e : powerless_text raw -> parse P dec raw = Ok e -> powerless e.
Proof.
  intros T. unfold parse, get_all_tokens. intros H. apply bind_ok in H as (ts & HT & H). apply bind_ok in HT as (acc & HA & HT). injection HT as <-.
  pose proof (token_loop_p P dec _ [TBegin] raw acc ltac:(constructor; [exact I|constructor]) T HA) as A. apply Forall_rev in A. apply Forall_tl, Forall_removelast in A. revert A H. generalize (removelast (tl (rev acc))). intros ts A H.
  unfold parse_tokens in H. apply bind_ok in H as (s1 & H1 & H). apply bind_ok in H as (s2 & H2 & H).
  destruct (pop_all_p _ _ _ (steps_p ts ([], []) s1 ltac:(split; constructor) A H1) H2) as [B _]. destruct (fst s2) as [|x [|]]; try discriminate. injection H as <-. now inversion B.
Qed.
