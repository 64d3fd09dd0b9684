(** Whatever is accepted: operands in order, operators counted. *)
From Coq Require Import ZArith String Ascii Lia Bool List Permutation.
From Verif Require Import Base AdapterModel RationalModel RationalProofs RealModel PolyModel ExprModel ParserModel ParserSpec ParserProofs1.
Import ListNotations.
Open Scope nat_scope.

Notation cnt := (count_occ ascii_dec).
Definition sops (st : state) : list ascii := flat_map operators (fst st) ++ snd st.
Definition sargs (st : state) : list frac := flat_map operands (rev (fst st)).
Lemma handle_inv st st' : handle st = Ok st' -> sargs st' = sargs st /\ (forall x, cnt (sops st') x = cnt (sops st) x) /\ fst st' <> [] /\ (exists c, snd st = c :: snd st').
Proof.
  destruct st as [[|r [|l N]] [|c O]]; cbn [handle]; try discriminate. intros [= <-]. unfold sargs, sops. cbn [fst snd rev flat_map operands operators]. split; [|split; [|split; [discriminate|eauto]]].
  - rewrite !flat_map_app. cbn [flat_map operands]. rewrite !app_nil_r, <- !app_assoc. reflexivity.
  - intros x. repeat (rewrite ?count_occ_app; cbn [count_occ app]). destruct (ascii_dec c x); lia.
Qed.
(** after the first operand the stack of nodes is never empty again *)
Lemma pop_ge_inv fuel c : forall st st', pop_ge fuel c st = Ok st' -> sargs st' = sargs st /\ (forall x, cnt (sops st') x = cnt (sops st) x) /\ (fst st <> [] -> fst st' <> []) /\ (fst st = [] -> st' = st).
Proof.
  assert (T : forall st, sargs st = sargs st /\ (forall x, cnt (sops st) x = cnt (sops st) x) /\ (fst st <> [] -> fst st <> []) /\ (fst st = [] -> st = st)) by auto.
  induction fuel as [|fuel IH]; intros st st' H; cbn [pop_ge] in H; (destruct (snd st) as [|o O] eqn:EO; [injection H as <-; apply T|]); apply bind_ok in H as (g & _ & H); (destruct g; [|injection H as <-; apply T]); [discriminate|].
  apply bind_ok in H as (s1 & H1 & H). pose proof H1 as H0. apply handle_inv in H1 as (A & B & C & _). apply IH in H as (A' & B' & C' & D'). split; [congruence|]. split; [intros x; rewrite B'; apply B|]. split; [auto|]. intros N. destruct st as [N0 O0]. cbn in N. subst. destruct O0; discriminate.
Qed.
Lemma pop_paren_inv fuel : forall st st', pop_paren fuel st = Ok st' -> sargs st' = sargs st /\ (forall x, cnt (sops st') x = cnt (sops st) x) /\ (fst st <> [] -> fst st' <> [] /\ exists O, snd st' = "("%char :: O) /\ (fst st = [] -> st' = st).
Proof.
  induction fuel as [|fuel IH]; intros [N O] st' H; cbn [pop_paren fst snd] in H.
  - destruct N as [|n N], O as [|o O]; try discriminate; [injection H as <-; split; [reflexivity|]; split; [reflexivity|]; split; [intros X; cbn in X; congruence|reflexivity]|]. destruct (Ascii.eqb_spec o "(") as [->|]; [|discriminate]. injection H as <-. cbn. repeat split; try congruence. eauto.
  - destruct N as [|n N], O as [|o O]; try discriminate; [injection H as <-; split; [reflexivity|]; split; [reflexivity|]; split; [intros X; cbn in X; congruence|reflexivity]|]. destruct (Ascii.eqb_spec o "(") as [->|]; [injection H as <-; cbn; repeat split; try congruence; eauto|].
    apply bind_ok in H as (s1 & H1 & H). destruct (snd s1) as [|o1 O1] eqn:E1; [discriminate|]. apply handle_inv in H1 as (A & B & C & _). apply IH in H as (A' & B' & C' & D'). split; [congruence|]. split; [intros x; rewrite B'; apply B|]. split; [intros _; auto|cbn; congruence].
Qed.
Lemma pop_all_inv fuel : forall st st', pop_all fuel st = Ok st' -> sargs st' = sargs st /\ (forall x, cnt (sops st') x = cnt (sops st) x) /\ snd st' = [].
Proof.
  induction fuel as [|fuel IH]; intros st st' H; cbn [pop_all] in H; (destruct (snd st) as [|o O] eqn:EO; [injection H as <-; auto|]); [discriminate|].
  apply bind_ok in H as (s1 & H1 & H). apply handle_inv in H1 as (A & B & C & _). apply IH in H as (A' & B' & C'). split; [congruence|]. split; [intros x; rewrite B'; apply B|assumption].
Qed.
(** one token *)
Definition tops (t : tok) : list ascii := match t with TOp c => [c] | TL => ["("%char] | _ => [] end.
Lemma step_inv st t st' : step st t = Ok st' -> sargs st' = sargs st ++ tok_operand t /\ (fst st <> [] -> fst st' <> []) /\ (tok_operand t <> [] -> fst st' <> []) /\ (fst st = [] -> tok_operand t = [] -> fst st' = []) /\
  exists popped, (forall x, cnt (sops st') x + cnt popped x = cnt (sops st) x + cnt (tops t) x) /\ (match t with TR => exists c, popped = [c] /\ (fst st <> [] -> c = "("%char) | _ => popped = [] end).
Proof.
  intros H. destruct t; cbn [step] in H; try discriminate.
  - apply bind_ok in H as (s1 & H1 & H). injection H as <-. apply pop_ge_inv in H1 as (A & B & C & D). cbn [fst snd tok_operand tops]. rewrite app_nil_r. split; [exact A|]. split; [exact C|]. split; [congruence|]. split; [intros N _; now rewrite (D N)|].
    exists []. split; [|reflexivity]. intros x. specialize (B x). unfold sops in B |- *. cbn [fst snd]. rewrite !count_occ_app in *. cbn [count_occ]. destruct (ascii_dec c x); lia.
  - injection H as <-. cbn [fst snd tok_operand tops]. rewrite app_nil_r. split; [reflexivity|]. split; [auto|]. split; [congruence|]. split; [auto|]. exists []. split; [|reflexivity]. intros x. unfold sops. cbn [fst snd]. rewrite !count_occ_app. cbn [count_occ]. destruct (ascii_dec "(" x); lia.
  - destruct (snd st) as [|o O] eqn:EO; [discriminate|]. apply bind_ok in H as (s1 & H1 & H). apply pop_paren_inv in H1 as (A & B & C & D). destruct (snd s1) as [|c O1] eqn:E1; [discriminate|]. injection H as <-. cbn [fst snd tok_operand tops]. rewrite app_nil_r.
    split; [exact A|]. split; [intros N; apply (C N)|]. split; [congruence|]. split; [intros N _; now rewrite (D N)|]. exists [c]. split.
    + intros x. specialize (B x). unfold sops in B |- *. rewrite E1 in B. cbn [fst snd]. rewrite !count_occ_app in *. cbn [count_occ] in *. destruct (ascii_dec c x); lia.
    + exists c. split; [reflexivity|]. intros N. destruct (C N) as (_ & O2 & X). congruence.
  - injection H as <-. cbn [fst snd tok_operand tops]. unfold sargs, sops. cbn [fst snd rev flat_map operators app]. rewrite flat_map_app. cbn [flat_map operands]. rewrite app_nil_r. split; [reflexivity|]. split; [discriminate|]. split; [discriminate|]. split; [discriminate|]. exists []. split; [intros x; cbn; lia|reflexivity].
  - injection H as <-. cbn [fst snd tok_operand tops]. unfold sargs, sops. cbn [fst snd rev flat_map operators app]. rewrite flat_map_app. cbn [flat_map operands]. rewrite app_nil_r. split; [reflexivity|]. split; [discriminate|]. split; [discriminate|]. split; [discriminate|]. exists []. split; [intros x; cbn; lia|reflexivity].
Qed.
Lemma steps_args st ts st' : steps st ts = Ok st' -> sargs st' = sargs st ++ flat_map tok_operand ts.
Proof.
  revert st. induction ts as [|t ts IH]; intros st H; cbn [steps flat_map] in *; [injection H as <-; now rewrite app_nil_r|]. apply bind_ok in H as (s1 & H1 & H). apply step_inv in H1 as (A & _). apply IH in H. rewrite H, A, app_assoc. reflexivity.
Qed.
Definition lp := "("%char.
(** the tokens after the first operand: nothing but '(' is dropped *)
Lemma steps_late st ts st' : steps st ts = Ok st' -> fst st <> [] ->
  forall x, cnt (sops st') x + (if ascii_dec lp x then right_parens ts else 0) = cnt (sops st) x + cnt (flat_map tops ts) x.
Proof.
  revert st. induction ts as [|t ts IH]; intros st H N x; cbn [steps flat_map] in *; [injection H as <-; unfold right_parens; cbn [filter length count_occ]; destruct (ascii_dec lp x); lia|].
  apply bind_ok in H as (s1 & H1 & H). apply step_inv in H1 as (_ & B & _ & _ & popped & D & E). specialize (IH _ H (B N) x). specialize (D x). rewrite count_occ_app. unfold right_parens in *. cbn [filter]. destruct t; cbn [length].
  1-6: try (subst popped; cbn [count_occ] in D; lia). 2-3: (subst popped; cbn [count_occ] in D; lia).
  destruct E as (c & -> & E). rewrite (E N) in D. cbn [count_occ] in D. unfold lp in *. destruct (ascii_dec "(" x); lia.
Qed.
(** the tokens before the first operand *)
Lemma steps_early ts : forall st st', steps st ts = Ok st' -> fst st = [] -> Forall (fun t => tok_operand t = []) ts ->
  fst st' = [] /\ exists popped, length popped = right_parens ts /\ forall x, cnt (sops st') x + cnt popped x = cnt (sops st) x + cnt (flat_map tops ts) x.
Proof.
  induction ts as [|t ts IH]; intros st st' H N F; cbn [steps flat_map] in *; [injection H as <-; split; [assumption|]; exists []; split; [reflexivity|intros x; cbn; lia]|].
  apply bind_ok in H as (s1 & H1 & H). inversion F as [|? ? F1 F2]; subst. apply step_inv in H1 as (_ & _ & _ & C & p1 & D & E). specialize (C N F1). destruct (IH _ _ H C F2) as (N' & p2 & L & G). split; [assumption|]. exists (p1 ++ p2). unfold right_parens in *. cbn [filter]. split.
  - destruct t; try (subst p1; exact L). destruct E as (c & -> & _). cbn [app length]. now rewrite L.
  - intros x. rewrite !count_occ_app. specialize (D x). specialize (G x). lia.
Qed.
Lemma split_operand ts : (exists pre x post, ts = pre ++ x :: post /\ Forall (fun t => tok_operand t = []) pre /\ tok_operand x <> []) \/ Forall (fun t => tok_operand t = []) ts.
Proof.
  induction ts as [|t ts [(pre & x & post & -> & F & X)|F]]; [right; constructor| |].
  - destruct (tok_operand t) eqn:E; [left; exists (t :: pre), x, post; repeat split; auto|left; exists [], t, (pre ++ x :: post); rewrite E; repeat split; [constructor|discriminate]].
  - destruct (tok_operand t) eqn:E; [right; constructor; auto|left; exists [], t, ts; rewrite E; repeat split; [constructor|discriminate]].
Qed.
Lemma cnt_filter f l x : cnt (filter f l) x = if f x then cnt l x else 0.
Proof.
  induction l as [|a l IH]; cbn [filter]; [now destruct (f x)|]. destruct (f a) eqn:E; cbn [count_occ]; destruct (ascii_dec a x) as [Q|N]; rewrite ?IH; try reflexivity; subst; rewrite ?E; reflexivity.
Qed.
Lemma cnt_length_filter l : length (filter (Ascii.eqb "(") l) = cnt l lp.
Proof. induction l as [|a l IH]; cbn [filter count_occ]; [reflexivity|]. destruct (ascii_dec a lp) as [->|N]; [cbn; now rewrite IH|]. destruct (Ascii.eqb_spec "(" a); [unfold lp in N; congruence|exact IH]. Qed.
Lemma perm_cnt a b : (forall x, cnt a x = cnt b x) -> Permutation a b.
Proof. intros H. now apply (Permutation_count_occ ascii_dec). Qed.
Lemma tops_ops ts : Forall proper_op ts -> forall x, cnt (flat_map tops ts) x = if ascii_dec lp x then left_parens ts else cnt (flat_map tok_operator ts) x.
Proof.
  induction 1 as [|t ts H F IH]; intros x; cbn [flat_map]; [unfold left_parens; cbn [filter length count_occ]; now destruct (ascii_dec lp x)|]. rewrite !count_occ_app, IH. unfold left_parens. cbn [filter]. destruct t; cbn [tops tok_operator count_occ length]; try (destruct (ascii_dec lp x); lia).
  - destruct (ascii_dec lp x) as [<-|N]; [|lia]. destruct (ascii_dec c lp) as [->|]; [discriminate|lia].
  - unfold lp. destruct (ascii_dec "(" x); lia.
Qed.
Lemma right_app a b : right_parens (a ++ b) = right_parens a + right_parens b.
Proof. unfold right_parens. now rewrite filter_app, app_length. Qed.
Lemma left_app a b : left_parens (a ++ b) = left_parens a + left_parens b.
Proof. unfold left_parens. now rewrite filter_app, app_length. Qed.
Lemma nolp_ops ts : Forall proper_op ts -> cnt (flat_map tok_operator ts) lp = 0.
Proof. induction 1 as [|t ts H F IH]; cbn [flat_map]; [reflexivity|]. rewrite count_occ_app, IH. destruct t; cbn; try reflexivity. destruct (ascii_dec c lp) as [->|]; [discriminate|reflexivity]. Qed.

Theorem parse_structure ts e : Forall proper_op ts -> parse_tokens ts = Ok e ->
  operands e = flat_map tok_operand ts /\
  exists pre post lost kept, ts = pre ++ post /\ Forall (fun t => tok_operand t = []) pre /\ match post with x :: _ => tok_operand x <> [] | [] => False end /\
    Permutation (lost ++ kept) (flat_map tok_operator pre) /\ Permutation (real_operators e) (kept ++ flat_map tok_operator post) /\
    unclosed e + right_parens ts = left_parens ts + length lost.
Proof.
  intros PR H. unfold parse_tokens in H. apply bind_ok in H as (st & H & K). apply bind_ok in K as (st2 & H2 & K). pose proof (steps_args _ _ _ H) as AR. apply pop_all_inv in H2 as (A & B & C).
  destruct st2 as [N O]. cbn [fst snd] in *. subst O. destruct N as [|n [|]]; try discriminate. injection K as ->. unfold sargs in A, AR. cbn [fst snd rev app flat_map] in A, AR. rewrite app_nil_r in A. split; [congruence|].
  destruct (split_operand ts) as [(pre & x & post & -> & F & X)|F].
  2:{ exfalso. assert (Z : flat_map tok_operand ts = []) by (clear -F; induction F as [|t ts E F IH]; cbn; [reflexivity|now rewrite E, IH]). rewrite Z in AR. rewrite AR in A. clear -A. induction e as [f|c l IH r IHr]; cbn in A; [discriminate|]. apply app_eq_nil in A as [A _]. auto. }
  rewrite steps_app in H. apply bind_ok in H as (s1 & H1 & H). cbn [steps] in H. apply bind_ok in H as (s2 & Hx & H). apply steps_early in H1 as (N1 & popped & L & G); [|reflexivity|assumption].
  pose proof (step_inv _ _ _ Hx) as (_ & _ & NX & _ & px & DX & EX). specialize (NX X).
  pose proof (steps_late _ _ _ H NX) as LT.
  apply Forall_app in PR as [PR1 PR2]. inversion PR2 as [|? ? PX PR3]; subst.
  assert (TX : tops x = [] /\ tok_operator x = [] /\ px = []) by (destruct x; try (cbn in X; congruence); auto). destruct TX as (TX & TOX & ->).
  assert (RX : right_parens (x :: post) = right_parens post /\ left_parens (x :: post) = left_parens post) by (unfold right_parens, left_parens; destruct x; try (cbn in X; congruence); auto). destruct RX as [RX LX].
  (* totals *)
  assert (TOT : forall y, cnt (operators e) y + (if ascii_dec lp y then right_parens post else 0) + cnt popped y = cnt (flat_map tops pre) y + cnt (flat_map tops post) y).
  { intros y. specialize (B y). specialize (LT y). specialize (DX y). specialize (G y). rewrite TX in DX. cbn [count_occ] in DX. unfold sops in B at 1. unfold sops in G at 2. cbn [fst snd flat_map count_occ app] in B, G. rewrite !app_nil_r in B. lia. }
  exists pre, (x :: post), (filter (fun c => negb (Ascii.eqb c "(")) popped).
  (* kept: the operators of pre not in popped *)
  assert (Q : forall l m : list ascii, (forall y, cnt l y <= cnt m y) -> exists k, Permutation (l ++ k) m).
  { clear. induction l as [|a l IH]; intros m Hm; [exists m; reflexivity|]. assert (I : In a m) by (apply (count_occ_In ascii_dec); specialize (Hm a); cbn in Hm; destruct (ascii_dec a a); [lia|congruence]). apply in_split in I as (m1 & m2 & ->).
    destruct (IH (m1 ++ m2)) as (k & K). { intros y. specialize (Hm y). rewrite count_occ_app in *. cbn [count_occ] in Hm. destruct (ascii_dec a y); lia. } exists k. cbn. rewrite K. apply Permutation_middle. }
  destruct (Q (filter (fun c => negb (Ascii.eqb c "(")) popped) (flat_map tok_operator pre)) as (kept & K).
  { intros y. rewrite cnt_filter. destruct (Ascii.eqb_spec y "(") as [->|NY]; cbn [negb]; [lia|]. specialize (G y). rewrite (tops_ops pre PR1) in G. destruct (ascii_dec lp y); [unfold lp in *; congruence|]. unfold sops in G at 2. cbn [fst snd flat_map app count_occ] in G. lia. }
  exists kept. split; [reflexivity|]. split; [assumption|]. split; [assumption|]. split; [assumption|].
  assert (KC : forall y, cnt (filter (fun c => negb (Ascii.eqb c "(")) popped) y + cnt kept y = cnt (flat_map tok_operator pre) y) by (intros y; rewrite <- count_occ_app; now apply (Permutation_count_occ ascii_dec)).
  split.
  - apply perm_cnt. intros y. unfold real_operators. rewrite cnt_filter, count_occ_app. cbn [flat_map]. rewrite TOX. cbn [app]. specialize (KC y). rewrite cnt_filter in KC. destruct (Ascii.eqb_spec y "(") as [EY|NY]; cbn [negb] in KC |- *.
    + pose proof (nolp_ops _ PR1) as N2. pose proof (nolp_ops _ PR3) as N3. subst y. unfold lp in *. lia.
    + specialize (TOT y). rewrite (tops_ops pre PR1), (tops_ops post PR3) in TOT. destruct (ascii_dec lp y); [unfold lp in *; congruence|]. lia.
  - unfold unclosed. rewrite cnt_length_filter. specialize (TOT lp). rewrite (tops_ops pre PR1), (tops_ops post PR3) in TOT. destruct (ascii_dec lp lp); [|congruence].
    assert (FL : forall p, length (filter (fun c => negb (Ascii.eqb c "(")) p) + cnt p lp = length p). { clear. induction p as [|a p IH]; [reflexivity|]. cbn [filter count_occ]. destruct (Ascii.eqb_spec a "(") as [->|N]; cbn [negb length]; [destruct (ascii_dec "(" lp); [lia|unfold lp in *; congruence]|destruct (ascii_dec a lp); [unfold lp in *; congruence|lia]]. }
    specialize (FL popped). rewrite right_app, left_app, RX, LX. lia.
Qed.
(** with balanced parentheses and no operator before the first operand *)
Corollary parse_all_used ts e : Forall proper_op ts -> parse_tokens ts = Ok e -> (forall t r, ts = t :: r -> tok_operand t <> []) -> Permutation (real_operators e) (flat_map tok_operator ts) /\ unclosed e + right_parens ts = left_parens ts.
Proof.
  intros PR H F. destruct (parse_structure ts e PR H) as (_ & pre & post & lost & kept & -> & FP & PO & K & R & U). destruct pre as [|t pre]; [|exfalso; inversion FP; subst; now apply (F t (pre ++ post))].
  cbn [flat_map app] in *. apply Permutation_sym, Permutation_nil, app_eq_nil in K as [-> ->]. cbn [app length] in *. split; [assumption|lia].
Qed.
(** no case is undefined and the loops end: the result is a tree or an error *)
Lemma pop_ge_total fuel c : forall st, length (snd st) <= fuel -> (exists s, pop_ge fuel c st = Ok s) \/ (exists m, pop_ge fuel c st = Throw m).
Proof.
  induction fuel as [|fuel IH]; intros [N O] L; cbn [pop_ge snd] in *; (destruct O as [|o O]; [eauto|]); [cbn in L; lia|].
  destruct (great_or_equal o c) as [[]|m|m|] eqn:G; cbn [bind]; eauto; try (unfold great_or_equal in G; destruct (priority o), (priority c); discriminate).
  destruct N as [|r [|l N]]; cbn [handle bind]; eauto. apply IH. cbn [length snd] in *. lia.
Qed.
Lemma pop_paren_total fuel : forall st, snd st <> [] -> length (snd st) <= fuel -> (exists s, pop_paren fuel st = Ok s) \/ (exists m, pop_paren fuel st = Throw m).
Proof.
  induction fuel as [|fuel IH]; intros [N O] NE L; cbn [pop_paren fst snd] in *; (destruct O as [|o O]; [congruence|]); [cbn in L; lia|]. destruct N as [|r N]; [eauto|]. destruct (Ascii.eqb o "("); [eauto|].
  destruct N as [|l N]; cbn [handle bind snd]; [eauto|]. destruct O as [|o1 O]; [eauto|]. apply IH; [discriminate|cbn [length snd] in *; lia].
Qed.
Lemma pop_all_total fuel : forall st, length (snd st) <= fuel -> (exists s, pop_all fuel st = Ok s) \/ (exists m, pop_all fuel st = Throw m).
Proof.
  induction fuel as [|fuel IH]; intros [N O] L; cbn [pop_all snd] in *; (destruct O as [|o O]; [eauto|]); [cbn in L; lia|]. destruct N as [|r [|l N]]; cbn [handle bind]; eauto. apply IH. cbn [length snd] in *. lia.
Qed.
Theorem parse_tokens_total ts : (exists e, parse_tokens ts = Ok e) \/ (exists m, parse_tokens ts = Throw m).
Proof.
  assert (S : forall st t, (exists s, step st t = Ok s) \/ (exists m, step st t = Throw m)).
  { intros st t. destruct t; cbn [step]; try (right; unfold unreachable; eauto; fail); try (left; eauto; fail).
    - destruct (pop_ge_total (length (snd st)) c st (le_n _)) as [[s ->]|[m ->]]; cbn [bind]; eauto.
    - destruct (snd st) as [|o O] eqn:E; [eauto|]. rewrite <- E. destruct (pop_paren_total (length (snd st)) st) as [[s ->]|[m ->]]; [congruence|lia| |]; cbn [bind]; eauto. destruct (snd s); eauto. }
  assert (SS : forall st, (exists s, steps st ts = Ok s) \/ (exists m, steps st ts = Throw m)).
  { induction ts as [|t ts IH]; intros st; cbn [steps]; [eauto|]. destruct (S st t) as [[s ->]|[m ->]]; cbn [bind]; eauto. }
  unfold parse_tokens. destruct (SS ([], [])) as [[s ->]|[m ->]]; cbn [bind]; [|eauto]. destruct (pop_all_total (length (snd s)) s (le_n _)) as [[s1 ->]|[m ->]]; cbn [bind]; [|eauto]. destruct (fst s1) as [|e [|]]; eauto.
Qed.
