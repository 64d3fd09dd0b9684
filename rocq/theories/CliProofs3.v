(** Proofs: definitions and sessions. *)
From Coq Require Import ZArith String Ascii Lia Bool List Sorted.
From Verif Require Import Base AdapterModel RationalModel RealModel PolyModel ExprModel ParserModel CliModel ErrSpec ErrProofs1 ErrProofs2 ErrProofs3 CliSpec CliProofs1 CliProofs2.
Import ListNotations.
Open Scope Z_scope.

Lemma first_unique c (a x u v : text) : a ++ c :: u = x ++ c :: v -> lacks c a -> lacks c x -> a = x /\ u = v.
Proof.
  revert x. induction a as [|y a IH]; intros [|z x] E A X; cbn [app] in E; injection E.
  - auto.
  - intros _ ->. exfalso. apply X. now left.
  - intros _ ->. exfalso. apply A. now left.
  - intros E1 ->. destruct (IH x E1) as [-> ->]; [intros I; apply A; now right|intros I; apply X; now right|auto].
Qed.
Definition ptext (u : text) (l : list text) : Prop := Forall (fun x => x <> [] /\ lacks "," x) l /\ (u = joined l \/ l <> [] /\ u = joined l ++ [","%char]).
Lemma joined_cons a b l : joined (a :: b :: l) = a ++ ","%char :: joined (b :: l). Proof. reflexivity. Qed.
Lemma comma_in (a u : text) : In ","%char (a ++ ","%char :: u). Proof. apply in_or_app. right. now left. Qed.
Lemma ptext_comma a u l : a <> [] -> lacks "," a -> ptext (a ++ ","%char :: u) l <-> exists r, l = a :: r /\ ptext u r.
Proof.
  intros NE LA. split.
  - intros [F H]. destruct l as [|x l].
    { destruct H as [H|[H _]]; [|congruence]. destruct a; discriminate H. }
    inversion F as [|? ? [Fx Lx] F']; subst. destruct l as [|y l].
    + cbn [joined] in H. destruct H as [H|[_ H]].
      * exfalso. apply Lx. rewrite <- H. apply comma_in.
      * destruct (first_unique _ _ _ _ _ H LA Lx) as [-> ->]. exists []. split; [reflexivity|]. split; [constructor|left; reflexivity].
    + rewrite joined_cons in H. assert (X : exists v, a ++ ","%char :: u = x ++ ","%char :: v /\ (v = joined (y :: l) \/ v = joined (y :: l) ++ [","%char])).
      { destruct H as [H|[_ H]]; [eauto|]. rewrite <- app_assoc in H. cbn [app] in H. eauto. }
      destruct X as (v & E & V). destruct (first_unique _ _ _ _ _ E LA Lx) as [-> ->]. exists (y :: l). split; [reflexivity|]. split; [exact F'|].
      destruct V as [->| ->]; [left; reflexivity|right; split; [discriminate|reflexivity]].
  - intros (r & -> & F & H). split; [constructor; auto|]. destruct r as [|y r].
    + right. split; [discriminate|]. destruct H as [->|[H _]]; [reflexivity|now elim H].
    + rewrite joined_cons. destruct H as [->|[_ ->]]; [left; reflexivity|right; split; [discriminate|]]. rewrite <- app_assoc. reflexivity.
Qed.
Lemma ptext_plain a l : lacks "," a -> ptext a l <-> l = match a with [] => [] | _ => [a] end.
Proof.
  intros L. split.
  - intros [F H]. destruct l as [|x l].
    { destruct H as [->|[H _]]; [reflexivity|congruence]. }
    inversion F as [|? ? [Fx Lx] F']; subst. destruct l as [|y l].
    + cbn [joined] in H. destruct H as [->|[_ ->]]; [destruct x; [congruence|reflexivity]|exfalso; apply L, comma_in].
    + exfalso. apply L. rewrite joined_cons in H. destruct H as [->|[_ ->]]; [apply comma_in|rewrite <- app_assoc; apply comma_in].
  - intros ->. destruct a as [|c a]; (split; [repeat constructor; [discriminate|exact L]|left; reflexivity]) || (split; [constructor|left; reflexivity]).
Qed.
Lemma lacks_rev c t : lacks c (rev t) <-> lacks c t. Proof. unfold lacks. now rewrite <- in_rev. Qed.
Lemma split_args_spec t : forall temp l, lacks "," temp -> split_args t temp = Ok l <-> ptext (rev temp ++ unspaced t) l.
Proof.
  induction t as [|c t IH]; intros temp l L; cbn [split_args].
  - unfold unspaced. cbn [filter]. rewrite app_nil_r, ptext_plain by now apply lacks_rev.
    destruct temp as [|c temp]; cbn [rev]; [split; [intros E; injection E as <-; reflexivity|intros ->; reflexivity]|].
    destruct (rev temp ++ [c]) as [|d u] eqn:E; [destruct (rev temp); discriminate E|]. split; [intros X; injection X as <-; reflexivity|intros ->; reflexivity].
  - unfold unspaced. cbn [filter]. destruct (is_space c) eqn:Sp; cbn [negb]; [apply IH, L|]. destruct (Ascii.eqb_spec c ",") as [->|N].
    + fold (unspaced t). destruct temp as [|d temp].
      * split; [discriminate|]. intros [F H]. exfalso. cbn [rev app] in H. destruct l as [|x l]; [destruct H as [H|[H _]]; [discriminate|congruence]|].
        inversion F as [|? ? [Fx Lx] _]; subst. destruct x as [|e x]; [congruence|]. apply Lx. left. destruct l; cbn [joined app] in H; destruct H as [H|[_ H]]; injection H; auto.
      * assert (NE : rev (d :: temp) <> []) by (cbn [rev]; destruct (rev temp); discriminate).
        rewrite (ptext_comma (rev (d :: temp)) (unspaced t) l NE) by now apply lacks_rev. split.
        -- destruct (split_args t []) as [r|m|u|] eqn:E; try discriminate. cbn [bind]. intros X. injection X as <-. exists r. split; [reflexivity|].
           apply (IH [] r) in E; [exact E|intros []].
        -- intros (r & -> & H). assert (E : split_args t [] = Ok r) by (apply (IH [] r); [intros []|exact H]). now rewrite E.
    + rewrite (IH (c :: temp) l) by (intros [?|?]; [congruence|exact (L H)]). cbn [rev]. rewrite <- app_assoc. reflexivity.
Qed.
Lemma split_args_pieces t l : split_args t [] = Ok l <-> pieces t l.
Proof. apply (split_args_spec t [] l). intros []. Qed.
Lemma drop_spaces_eq t c def : drop_spaces t = c :: def <-> is_space c = false /\ exists blanks, t = blanks ++ c :: def /\ Forall (fun c => is_space c = true) blanks.
Proof.
  split.
  - induction t as [|x t IH]; cbn [drop_spaces]; [discriminate|]. destruct (is_space x) eqn:Sx.
    + intros E. destruct (IH E) as (Sc & b & -> & F). split; [exact Sc|]. exists (x :: b). split; [reflexivity|constructor; assumption].
    + intros E. injection E as -> ->. split; [exact Sx|]. exists []. split; [reflexivity|constructor].
  - intros (Sc & b & -> & F). induction F as [|x b Fx F IH]; cbn [app drop_spaces]; [now rewrite Sc|]. now rewrite Fx.
Qed.

Lemma reads_body n body : lacks " " (txt n) -> reads (txt n ++ " "%char :: body) (txt n) body.
Proof. intros L. split; [exact L|now left]. Qed.
Lemma word_no_space n : In n words_of -> lacks " " (txt n).
Proof. intros I. apply lacks_all. repeat (destruct I as [<-|I]; [repeat constructor|]). destruct I. Qed.
Lemma constant_word body : txt "constant" ++ " "%char :: body = txt "constant " ++ body. Proof. reflexivity. Qed.
Lemma func_word body : txt "func" ++ " "%char :: body = txt "func " ++ body. Proof. reflexivity. Qed.

Lemma read_constant_iff C line k x : (exists body, reads line (txt "constant") body /\ read_constant C body = Ok (k, x)) <-> defines_constant C line k x.
Proof.
  split.
  - intros (body & [_ R] & E). unfold read_constant in E. destruct (find_char "=" body) as [[name val]|] eqn:F; [|discriminate]. apply find_some in F. destruct F as [-> L].
    destruct R as [->|[_ R]]; [|destruct name; discriminate R]. destruct (no_spaces name) as [|c t] eqn:NS; [discriminate|].
    destruct (d_read (cf C) val) as [y|m|m|] eqn:RD; cbn [bind] in E; try discriminate. injection E as <- <-.
    exists name, val. rewrite constant_word. split; [reflexivity|]. split; [exact L|]. split; [|split; [discriminate|exact RD]].
    change (unspaced name) with (no_spaces name). rewrite NS. change (String c (string_of_list_ascii t)) with (string_of_list_ascii (c :: t)). now rewrite list_ascii_of_string_of_list_ascii.
  - intros (name & val & -> & L & U & NE & RD). exists (name ++ "="%char :: val). split; [apply (reads_body "constant"); apply word_no_space; cbn; tauto|].
    unfold read_constant. rewrite (proj2 (find_some "=" _ name val)) by (split; [reflexivity|exact L]). change (no_spaces name) with (unspaced name). rewrite U.
    destruct k as [|c k]; [congruence|]. cbn [list_ascii_of_string]. rewrite RD. cbn [bind string_of_list_ascii]. now rewrite string_of_list_ascii_of_string.
Qed.
Lemma read_constant_throw C line m : (exists body, reads line (txt "constant") body /\ read_constant C body = Throw m) -> is_std m = true ->
  exists name val, line = txt "constant " ++ name ++ "="%char :: val /\ lacks "=" name /\ unspaced name <> [] /\ d_read (cf C) val = Throw m.
Proof.
  intros (body & [_ R] & E) St. unfold read_constant in E. destruct (find_char "=" body) as [[name val]|] eqn:F; [|injection E as <-; discriminate]. apply find_some in F. destruct F as [-> L].
  destruct R as [->|[_ R]]; [|destruct name; discriminate R]. destruct (no_spaces name) as [|c t] eqn:NS; [injection E as <-; discriminate|].
  destruct (d_read (cf C) val) as [y|m'|m'|] eqn:RD; cbn [bind] in E; try discriminate. injection E as <-.
  exists name, val. rewrite constant_word. repeat split; auto. change (unspaced name) with (no_spaces name). rewrite NS. discriminate.
Qed.
Lemma read_constant_throws C name val m : lacks "=" name -> unspaced name <> [] -> d_read (cf C) val = Throw m -> read_constant C (name ++ "="%char :: val) = Throw m.
Proof.
  intros L NE RD. unfold read_constant. rewrite (proj2 (find_some "=" _ name val)) by (split; [reflexivity|exact L]). change (no_spaces name) with (unspaced name).
  destruct (unspaced name); [congruence|]. now rewrite RD.
Qed.
Lemma read_func_iff C line k d : (exists body, reads line (txt "func") body /\ read_func C body = Ok (k, d)) <-> defines_function C line k d.
Proof.
  split.
  - intros (body & [_ R] & E). unfold read_func in E. destruct (find_char "(" body) as [[name rest]|] eqn:F; [|discriminate]. apply find_some in F. destruct F as [-> L].
    destruct R as [->|[_ R]]; [|destruct name; discriminate R]. destruct (find_char ")" rest) as [[a rest2]|] eqn:F2; [|discriminate]. apply find_some in F2. destruct F2 as [-> L2].
    destruct (split_args a []) as [args|m|m|] eqn:SA; cbn [bind] in E; try discriminate. destruct (drop_spaces rest2) as [|c def] eqn:DS; [discriminate|].
    destruct (Ascii.eqb_spec c "=") as [->|]; [|discriminate]. apply drop_spaces_eq in DS. destruct DS as (_ & blanks & -> & FB).
    unfold parse_normal in E. destruct (parse (cp C) (cdec C) def) as [e|m|m|] eqn:PE; cbn [bind] in E; try discriminate. destruct (expr_normalize (cp C) e) as [e'|m|m|] eqn:NE; cbn [bind] in E; try discriminate.
    injection E as <- <-. exists name, a, blanks, def, args, e. rewrite func_word. cbn [fst snd]. repeat split; auto.
    + now rewrite list_ascii_of_string_of_list_ascii.
    + apply split_args_pieces in SA. apply SA.
    + apply split_args_pieces in SA. apply SA.
  - intros (name & a & blanks & def & params & e & -> & L & L2 & FB & -> & PC & EP & PE & NE).
    exists (list_ascii_of_string k ++ "("%char :: a ++ ")"%char :: blanks ++ "="%char :: def). split; [apply (reads_body "func"); apply word_no_space; cbn; tauto|].
    unfold read_func. rewrite (proj2 (find_some "(" _ (list_ascii_of_string k) _)) by (split; [reflexivity|exact L]).
    rewrite (proj2 (find_some ")" _ a _)) by (split; [reflexivity|exact L2]). apply split_args_pieces in PC. rewrite PC. cbn [bind].
    rewrite (proj2 (drop_spaces_eq (blanks ++ "="%char :: def) "=" def)) by (split; [reflexivity|exists blanks; split; [reflexivity|exact FB]]).
    cbn [Ascii.eqb Bool.eqb]. unfold parse_normal. rewrite PE. cbn [bind]. rewrite NE. cbn [bind]. rewrite string_of_list_ascii_of_string, EP. destruct d; reflexivity.
Qed.
Lemma defines_constant_unique C line k x k' x' : defines_constant C line k x -> defines_constant C line k' x' -> k = k' /\ x = x'.
Proof.
  intros H H'. apply read_constant_iff in H, H'. destruct H as (b & R & E), H' as (b' & R' & E'). destruct (reads_unique _ _ _ _ _ R R') as [_ <-]. rewrite E in E'. injection E' as -> ->. auto.
Qed.
Lemma defines_function_unique C line k x k' x' : defines_function C line k x -> defines_function C line k' x' -> k = k' /\ x = x'.
Proof.
  intros H H'. apply read_func_iff in H, H'. destruct H as (b & R & E), H' as (b' & R' & E'). destruct (reads_unique _ _ _ _ _ R R') as [_ <-]. rewrite E in E'. injection E' as -> ->. auto.
Qed.

Section Session.
Context (C : cenv) (K : calm_program C).

Lemma ends_continue f e : ends f = Continue e -> f = Ok tt \/ exists m, f = Throw m.
Proof. destruct f as [[]|m|m|]; cbn [ends]; intros H; [now left|right; eauto|discriminate|discriminate]. Qed.
(** what one round does to the members *)
Lemma round_members line (s : cstate C) : sane_members s ->
  let r := round C line s in
  sane_members (members r) /\
  (forall m, then_ r = Continue (Some m) -> members r = s) /\
  (forall e, then_ r = Continue e ->
     (forall k, (forall x, ~ defines_constant C line k x) /\ mget k (consts (members r)) = mget k (consts s) \/ exists x, defines_constant C line k x /\ mget k (consts (members r)) = Some x) /\
     (forall k, (forall d, ~ defines_function C line k d) /\ mget k (funcs (members r)) = mget k (funcs s) \/ exists d, defines_function C line k d /\ mget k (funcs (members r)) = Some d)).
Proof.
  intros S. cbv zeta. destruct (reads_dec line "func") as [(b & R)|NF]; [|destruct (reads_dec line "constant") as [(b & R)|NC]].
  - pose proof (round_func C line b s S R) as W. unfold does in W. rewrite W. cbn [members then_].
    assert (NC : forall k x, ~ defines_constant C line k x).
    { intros k x H. apply read_constant_iff in H. destruct H as (b' & R' & _). destruct (reads_unique _ _ _ _ _ R R') as [E _]. discriminate E. }
    pose proof (p_func C K b s S) as H. destruct (fin (cmd_func C b s)) as [[]|m|m|] eqn:F; cbn [ends].
    + destruct H as ([k d] & RF & E1 & E2 & S'). cbn [fst snd] in E1. split; [exact S'|]. split; [discriminate|]. intros e _. rewrite E1, E2.
      assert (DF : defines_function C line k d) by (apply read_func_iff; eauto). split; [auto|].
      intros k'. rewrite mget_mput. destruct (String.eqb_spec k' k) as [->|N]; [right; eauto|left]. split; [|reflexivity].
      intros d' H. now destruct (defines_function_unique _ _ _ _ _ _ H DF) as [-> _].
    + destruct H as (E & m' & RF). rewrite E. split; [exact S|]. split; [auto|]. intros e _. split; [auto|]. intros k. left. split; [|reflexivity].
      intros d H. apply read_func_iff in H. destruct H as (b' & R' & E'). destruct (reads_unique _ _ _ _ _ R R') as [_ <-]. congruence.
    + split; [exact H|]. split; discriminate.
    + split; [exact H|]. split; discriminate.
  - pose proof (round_constant C line b s S R) as W. unfold does in W. rewrite W. cbn [members then_].
    assert (NF' : forall k x, ~ defines_function C line k x).
    { intros k x H. apply read_func_iff in H. destruct H as (b' & R' & _). exact (NF b' R'). }
    pose proof (p_constant C b s S) as H. destruct (fin (cmd_constant C b s)) as [[]|m|m|] eqn:F; cbn [ends].
    + destruct H as ([k x] & RF & E1 & E2 & S'). cbn [fst snd] in E1. split; [exact S'|]. split; [discriminate|]. intros e _. rewrite E1, E2.
      assert (DF : defines_constant C line k x) by (apply read_constant_iff; eauto). split; [|auto].
      intros k'. rewrite mget_mput. destruct (String.eqb_spec k' k) as [->|N]; [right; eauto|left]. split; [|reflexivity].
      intros x' H. now destruct (defines_constant_unique _ _ _ _ _ _ H DF) as [-> _].
    + destruct H as (E & RF). rewrite E. split; [exact S|]. split; [auto|]. intros e _. split; [|auto]. intros k. left. split; [|reflexivity].
      intros x H. apply read_constant_iff in H. destruct H as (b' & R' & E'). destruct (reads_unique _ _ _ _ _ R R') as [_ <-]. congruence.
    + split; [exact H|]. split; discriminate.
    + split; [exact H|]. split; discriminate.
  - destruct (round_steady C K line s S NF NC) as [E _]. rewrite E. split; [exact S|]. split; [auto|]. intros e _. split; intros k; left; (split; [|reflexivity]); intros x H.
    + apply read_constant_iff in H. destruct H as (b' & R' & _). exact (NC b' R').
    + apply read_func_iff in H. destruct H as (b' & R' & _). exact (NF b' R').
Qed.
Lemma round_escape line (s : cstate C) m : sane_members s ->
  then_ (round C line s) = Escape m <->
  is_std m = true /\ exists name val, line = txt "constant " ++ name ++ "="%char :: val /\ lacks "=" name /\ unspaced name <> [] /\ d_read (cf C) val = Throw m.
Proof.
  intros S. split.
  - destruct (reads_dec line "func") as [(b & R)|NF]; [|destruct (reads_dec line "constant") as [(b & R)|NC]].
    + pose proof (round_func C line b s S R) as W. unfold does in W. rewrite W. cbn [then_]. intros E. pose proof (r_func C K b s S) as RO. unfold rout in RO.
      destruct (fin (cmd_func C b s)); cbn [ends] in E; try discriminate. unfold err in RO. rewrite RO in E. discriminate.
    + pose proof (round_constant C line b s S R) as W. unfold does in W. rewrite W. cbn [then_]. intros E. pose proof (p_constant C b s S) as H.
      destruct (fin (cmd_constant C b s)) as [|m'| |]; cbn [ends] in E; try discriminate. destruct (is_std m') eqn:St; [|discriminate]. injection E as ->. split; [exact St|].
      apply read_constant_throw; [|exact St]. exists b. split; [exact R|]. now destruct H.
    + intros E. exfalso. now apply (proj2 (round_steady C K line s S NF NC) m).
  - intros (St & name & val & -> & L & NE & RD).
    assert (R : reads (txt "constant " ++ name ++ "="%char :: val) (txt "constant") (name ++ "="%char :: val)) by (apply (reads_body "constant"); apply word_no_space; cbn; tauto).
    pose proof (round_constant C _ _ s S R) as W. unfold does in W. rewrite W. cbn [then_]. unfold cmd_constant. rewrite (read_constant_throws C name val m L NE RD). cbn [run stop fin bind ends]. now rewrite St.
Qed.
Lemma round_quit line (s : cstate C) : then_ (round C line s) = Quit <-> exists body, reads line (txt "quit") body.
Proof.
  split.
  - destruct (round_cases C line s) as [H|[(n & f & b & R & I)|[(n & f & b & R & I)|(cmd & b & R & O)]]]; [auto| | |]; intros E; exfalso.
    + pose proof (does_word C line n b s f R I) as W. unfold does in W. rewrite W in E. cbn [then_] in E. destruct (fin (f b s)); cbn [ends] in E; try discriminate. destruct (is_std msg); discriminate.
    + pose proof (does_twice C line n b s f R I) as W. unfold does_both in W. rewrite W in E.
      destruct (fin (f b s)); cbn [then_ ends] in E; try discriminate; [|destruct (is_std msg); discriminate].
      destruct (fin (cmd_normalize C line s)); cbn [ends] in E; try discriminate. destruct (is_std msg); discriminate.
    + pose proof (round_does C line s _ (dispatch_other C line cmd b s R O)) as W. unfold does in W. rewrite W in E. cbn [then_] in E.
      destruct (fin (evaluate C line cmd s)); cbn [ends] in E; try discriminate. destruct (is_std msg); discriminate.
  - intros (b & R). now rewrite (does_quit C line b s R).
Qed.

(** ** sessions *)
Lemma seq_succ a n : map S (seq a n) = seq (S a) n. Proof. apply seq_shift. Qed.
Lemma loop_sane i n : forall k (s : cstate C), sane_members s -> sane_members (snd (loop C i k n s)).
Proof.
  induction n as [|n IH]; intros k s S; cbn [loop]; [exact S|]. destruct (round_members (nth_line i k) s S) as (S' & _).
  destruct (then_ (round C (nth_line i k) s)); try exact S'. specialize (IH (Datatypes.S k) _ S'). destruct (loop C i (Datatypes.S k) n (members (round C (nth_line i k) s))) as [[t e] s']. exact IH.
Qed.
Lemma latest_step {X} (def : text -> string -> X -> Prop) line lines k (old mid new : option X) :
  ((forall x, ~ def line k x) /\ mid = old \/ exists x, def line k x /\ mid = Some x) -> latest def lines mid k new -> latest def (line :: lines) old k new.
Proof.
  intros M [(l1 & l & l2 & x & -> & D & N & E)|(N & E)].
  - left. exists (line :: l1), l, l2, x. auto.
  - subst new. destruct M as [(ND & ->)|(x & D & ->)].
    + right. split; [|reflexivity]. intros l x [<-|I]; [apply ND|now apply N].
    + left. exists [], line, lines, x. auto.
Qed.
Lemma loop_latest i n : forall k (s : cstate C) t e s', sane_members s -> loop C i k n s = (t, Continue e, s') ->
  forall name,
  latest (defines_constant C) (map (nth_line i) (seq k n)) (mget name (consts s)) name (mget name (consts s')) /\
  latest (defines_function C) (map (nth_line i) (seq k n)) (mget name (funcs s)) name (mget name (funcs s')).
Proof.
  induction n as [|n IH]; intros k s t e s' S E name; cbn [loop] in E.
  - injection E as <- <- <-. cbn [seq map]. split; right; (split; [intros ? ? []|reflexivity]).
  - destruct (round_members (nth_line i k) s S) as (S' & _ & M). destruct (then_ (round C (nth_line i k) s)) eqn:T; try discriminate.
    destruct (M _ eq_refl) as (M1 & M2). destruct (loop C i (Datatypes.S k) n (members (round C (nth_line i k) s))) as [[t' e'] s2] eqn:L.
    injection E as <- -> ->. destruct (IH (Datatypes.S k) _ _ _ _ S' L name) as [I1 I2]. cbn [seq map]. split.
    + eapply latest_step; [exact (M1 name)|exact I1].
    + eapply latest_step; [exact (M2 name)|exact I2].
Qed.
End Session.
