(** The tokenizer against the description of the lexemes. *)
From Coq Require Import ZArith String Ascii Lia Bool List.
From Verif Require Import Base AdapterModel RationalModel RationalProofs RealModel PolyModel ExprModel ParserModel ParserSpec ParserProofs1.
Import ListNotations.
Open Scope char_scope.

Lemma span_inv f s a b : span f s = (a, b) -> s = a ++ b /\ Forall (fun d => f d = true) a /\ match b with d :: _ => f d = false | [] => True end.
Proof.
  revert a b. induction s as [|c s IH]; intros a b H; cbn [span] in H; [injection H as <- <-; auto|]. destruct (f c) eqn:E; [|injection H as <- <-; auto].
  destruct (span f s) as [a' b'] eqn:S. injection H as <- <-. destruct (IH _ _ eq_refl) as (-> & F & B). auto.
Qed.
Lemma span_app f a b : Forall (fun d => f d = true) a -> match b with d :: _ => f d = false | [] => True end -> span f (a ++ b) = (a, b).
Proof.
  induction 1 as [|c a E F IH]; intros B; cbn [app]; [destruct b as [|d b]; cbn [span]; [reflexivity|now rewrite B]|]. cbn [span]. rewrite E, IH by assumption. reflexivity.
Qed.
Lemma scan_app s rest : number s -> stops (first s) (hd_error rest) -> scan_number (s ++ rest) = (s, rest).
Proof. destruct s as [|c s]; cbn [number]; [tauto|]. intros [_ F] S. cbn [app scan_number]. rewrite (span_app _ s rest F); [reflexivity|]. destruct rest; [exact I|exact S]. Qed.
Lemma scan_inv c s n r : (is_digit c || is_dot c)%bool = true -> scan_number (c :: s) = (n, r) -> c :: s = n ++ r /\ number n /\ stops (first n) (hd_error r) /\ first n = c /\ n <> [].
Proof.
  intros C H. cbn [scan_number] in H. destruct (span (number_char c) s) as [a b] eqn:S. injection H as <- <-. apply span_inv in S as (-> & F & B). split; [reflexivity|]. split; [|split; [destruct b; [exact I|exact B]|split; [reflexivity|discriminate]]].
  cbn [number]. split; [|assumption]. apply orb_true_iff in C as [C|C]; [now left|right; now apply Ascii.eqb_eq in C].
Qed.
Lemma drop_spaces_inv s : exists sp, s = sp ++ drop_spaces s /\ spaces sp /\ match drop_spaces s with c :: _ => is_space c = false | [] => True end.
Proof.
  induction s as [|c s (sp & E & S & B)]; cbn [drop_spaces]; [exists []; repeat split; constructor|]. destruct (is_space c) eqn:C; [|exists []; repeat split; auto; constructor].
  exists (c :: sp). split; [cbn; now rewrite <- E|]. split; [now constructor|assumption].
Qed.
Lemma drop_spaces_app sp s : spaces sp -> match s with c :: _ => is_space c = false | [] => True end -> drop_spaces (sp ++ s) = s.
Proof. induction 1 as [|c sp C F IH]; intros B; cbn [app drop_spaces]; [destruct s as [|c s]; cbn [drop_spaces]; [reflexivity|now rewrite B]|]. rewrite C. auto. Qed.

Ltac chars := intros c; destruct c as [[] [] [] [] [] [] [] []]; vm_compute; intuition congruence.
Lemma digit_other : forall c, (is_digit c || is_dot c)%bool = true -> Ascii.eqb c "_" = false /\ is_space c = false /\ Ascii.eqb c "/" = false. Proof. chars. Qed.
Lemma op_other : forall c, is_opchar c = true -> Ascii.eqb c "_" = false /\ is_space c = false /\ (is_digit c || is_dot c)%bool = false. Proof. chars. Qed.
Lemma alpha_other : forall c, is_alpha c = true -> Ascii.eqb c "_" = false /\ is_space c = false /\ (is_digit c || is_dot c)%bool = false /\ is_opchar c = false /\ Ascii.eqb c "(" = false /\ Ascii.eqb c ")" = false /\ Ascii.eqb c "{" = false. Proof. chars. Qed.
Lemma peek_hd s : hd_error s = match s with [] => None | _ => Some (peek s) end. Proof. now destruct s. Qed.
Lemma number_first s : number s -> (is_digit (first s) || is_dot (first s))%bool = true /\ exists s', s = first s :: s'.
Proof. destruct s as [|c s]; cbn; [tauto|]. intros [[C| ->] _]; (split; [|eauto]); [now rewrite C|reflexivity]. Qed.
Lemma notbrace k : Forall (fun d => d <> "}") k <-> Forall (fun d => negb (Ascii.eqb d "}") = true) k.
Proof. split; intros H; (eapply Forall_impl; [|exact H]); intros d; cbn; destruct (Ascii.eqb_spec d "}"); cbn; congruence. Qed.

(** ** soundness *)
Lemma get_token_sound P dec s t rest : get_token P dec s = Ok (t, rest) ->
  (t = TEnd /\ rest = [] /\ spaces s) \/ (t <> TEnd /\ exists sp l, s = sp ++ l ++ rest /\ l <> [] /\ spaces sp /\ lexeme P dec l t (hd_error rest)).
Proof.
  intros H. unfold get_token in H. cbv zeta in H. destruct (drop_spaces_inv s) as (sp & E & S & B). destruct (drop_spaces s) as [|c r]; [injection H as <- <-; left; rewrite app_nil_r in E; subst; auto|]. right.
  assert (K : forall l t0, c :: r = l ++ rest -> l <> [] -> lexeme P dec l t0 (hd_error rest) -> t = t0 -> t0 <> TEnd -> t <> TEnd /\ exists sp0 l0, s = sp0 ++ l0 ++ rest /\ l0 <> [] /\ spaces sp0 /\ lexeme P dec l0 t (hd_error rest)).
  { intros l t0 Q NE L -> NT. split; [assumption|]. exists sp, l. rewrite <- Q. auto. }
  destruct (Ascii.eqb_spec c "_") as [->|_].
  { apply bind_ok in H as ([p s1] & Hp & H). apply bind_ok in H as (q & Hq & H). injection H as <- <-.
    destruct (Ascii.eqb_spec (peek r) "/") as [PK|_].
    - apply bind_ok in Hp as (p0 & Hp0 & Hp). injection Hp as -> ->. destruct s1 as [|c1 s1]; [discriminate|]. cbn in PK. subst c1. apply (K ["_"; "/"] (TRad q)); try reflexivity; try discriminate. apply (lx_sqrt P dec p); assumption.
    - destruct (is_digit (peek r) || is_dot (peek r))%bool eqn:D; [|discriminate]. destruct (scan_number r) as [n s2] eqn:SC. apply bind_ok in Hp as (p0 & Hp0 & Hp). injection Hp as -> ->. destruct r as [|c1 r]; [discriminate|]. apply scan_inv in SC as (Q & NU & ST & F & NN); [|exact D].
      rewrite Q in *. destruct s1 as [|d s1]; cbn [tl].
      + apply (K ("_" :: n) (TRad q)); try reflexivity; try discriminate. now apply (lx_root_end P dec n p).
      + apply (K ("_" :: n ++ [d]) (TRad q)); try reflexivity; try discriminate; [cbn; now rewrite <- app_assoc|]. now apply (lx_root P dec n d p). }
  destruct (is_digit c || is_dot c)%bool eqn:D.
  { destruct (scan_number (c :: r)) as [n s2] eqn:SC. apply bind_ok in H as (q & Hq & H). apply bind_ok in H as (f & Hf & H). injection H as <- <-. apply scan_inv in SC as (Q & NU & ST & F & NN); [|exact D].
    apply (K n (TNum f)); try assumption; try reflexivity; try discriminate. now apply (lx_num P dec n q). }
  destruct (is_opchar c) eqn:OC.
  { destruct (Ascii.eqb c "*" && Ascii.eqb (peek r) "*")%bool eqn:ST.
    - injection H as <- <-. apply andb_true_iff in ST as [A1 A2]. apply Ascii.eqb_eq in A1, A2. destruct r as [|c1 r]; [discriminate|]. cbn in A2. subst. apply (K ["*"; "*"] (TOp "^")); try reflexivity; try discriminate. constructor.
    - injection H as <- <-. apply (K [c] (TOp c)); try reflexivity; try discriminate. constructor; [assumption|]. apply andb_false_iff in ST as [A|A]; [left; now apply Ascii.eqb_neq|right]. apply Ascii.eqb_neq in A. destruct r; cbn in *; congruence. }
  destruct (Ascii.eqb_spec c "(") as [->|_]. { injection H as <- <-. apply (K ["("] TL); try reflexivity; try discriminate. constructor. }
  destruct (Ascii.eqb_spec c ")") as [->|_]. { injection H as <- <-. apply (K [")"] TR); try reflexivity; try discriminate. constructor. }
  destruct (is_alpha c || Ascii.eqb c "{")%bool eqn:AC; [|discriminate].
  destruct (Ascii.eqb_spec c "{") as [->|NB].
  - destruct (span (fun d => negb (Ascii.eqb d "}")) r) as [k s1] eqn:SP. apply bind_ok in H as (f & Hf & H). injection H as <- <-. apply span_inv in SP as (-> & F & Bk). apply notbrace in F. destruct s1 as [|d s1]; cbn [tl].
    + apply (K ("{" :: k) (TSym f)); try reflexivity; try discriminate. now constructor.
    + destruct (Ascii.eqb_spec d "}") as [->|]; [|discriminate]. apply (K ("{" :: k ++ ["}"]) (TSym f)); try reflexivity; try discriminate; [cbn; now rewrite <- app_assoc|]. now constructor.
  - rewrite orb_false_r in AC. apply bind_ok in H as (f & Hf & H). injection H as <- <-. apply (K [c] (TSym f)); try reflexivity; try discriminate. now constructor.
Qed.
(** ** completeness *)
Lemma get_token_complete P dec sp l t rest : spaces sp -> lexeme P dec l t (hd_error rest) -> get_token P dec (sp ++ l ++ rest) = Ok (t, rest).
Proof.
  intros S L. remember (hd_error rest) as n eqn:HN. unfold get_token. cbv zeta.
  destruct L as [s q f n NU ST Hq Hf|p q n Hp Hq|s d p q n NU ST Hp Hq|s p q NU Hp Hq|n|c n OC NS|n|n|c f n AL Hf|k f n F Hf|k f F Hf].
  - destruct (number_first s NU) as (D & s' & E). destruct (digit_other _ D) as (N_ & NSP & _). rewrite drop_spaces_app; [|assumption|rewrite E; exact NSP]. subst n. pose proof (scan_app s rest NU ST) as SC. rewrite E in SC |- *. cbn [app] in SC |- *. cbn [first] in *. rewrite N_, D, SC, <- E, Hq. cbn [bind]. rewrite Hf. reflexivity.
  - rewrite drop_spaces_app by (assumption || reflexivity). cbn [app peek]. change (Ascii.eqb "_" "_") with true. cbv iota. change (Ascii.eqb "/" "/") with true. cbv iota. rewrite Hp. cbn [bind]. rewrite Hq. reflexivity.
  - destruct (number_first s NU) as (D & s' & E). destruct (digit_other _ D) as (_ & _ & NSL). rewrite drop_spaces_app by (assumption || reflexivity). cbn [app]. change (Ascii.eqb "_" "_") with true. cbv iota. rewrite <- app_assoc. cbn [app].
    pose proof (scan_app s (d :: rest) NU ST) as SC. replace (peek (s ++ d :: rest)) with (first s) by (rewrite E; reflexivity). rewrite NSL, D, SC, Hp. cbn [bind]. rewrite Hq. reflexivity.
  - destruct rest; [|discriminate]. destruct (number_first s NU) as (D & s' & E). destruct (digit_other _ D) as (_ & _ & NSL). rewrite drop_spaces_app by (assumption || reflexivity). cbn [app]. change (Ascii.eqb "_" "_") with true. cbv iota.
    pose proof (scan_app s [] NU I) as SC. replace (peek (s ++ [])) with (first s) by (rewrite E; reflexivity). rewrite NSL, D, SC, Hp. cbn [bind]. rewrite Hq. reflexivity.
  - rewrite drop_spaces_app by (assumption || reflexivity). reflexivity.
  - destruct (op_other _ OC) as (N_ & NSP & ND). rewrite drop_spaces_app; [|assumption|exact NSP]. cbn [app]. rewrite N_, ND, OC. replace (Ascii.eqb c "*" && Ascii.eqb (peek rest) "*")%bool with false; [reflexivity|]. symmetry. apply andb_false_iff. destruct NS as [NS|NS]; [left; now apply Ascii.eqb_neq|right].
    destruct rest as [|d rest]; [reflexivity|]. cbn [peek hd_error] in *. apply Ascii.eqb_neq. congruence.
  - rewrite drop_spaces_app by (assumption || reflexivity). reflexivity.
  - rewrite drop_spaces_app by (assumption || reflexivity). reflexivity.
  - destruct (alpha_other _ AL) as (N_ & NSP & ND & NO & NL & NR & NB). rewrite drop_spaces_app; [|assumption|exact NSP]. cbn [app]. rewrite N_, ND, NO, NL, NR, AL, NB. cbn [orb]. change (string_of_list_ascii [c]) with (String c EmptyString). rewrite Hf. reflexivity.
  - rewrite drop_spaces_app by (assumption || reflexivity). cbn [app]. rewrite <- app_assoc. cbn [app]. change (Ascii.eqb "{" "_") with false. change (is_digit "{" || is_dot "{")%bool with false. change (is_opchar "{") with false. change (Ascii.eqb "{" "(") with false. change (Ascii.eqb "{" ")") with false. change (is_alpha "{" || Ascii.eqb "{" "{")%bool with true. change (Ascii.eqb "{" "{") with true. cbv iota.
    rewrite span_app; [|now apply notbrace|reflexivity]. rewrite Hf. reflexivity.
  - destruct rest; [|discriminate]. rewrite drop_spaces_app by (assumption || reflexivity). cbn [app]. change (Ascii.eqb "{" "_") with false. change (is_digit "{" || is_dot "{")%bool with false. change (is_opchar "{") with false. change (Ascii.eqb "{" "(") with false. change (Ascii.eqb "{" ")") with false. change (is_alpha "{" || Ascii.eqb "{" "{")%bool with true. change (Ascii.eqb "{" "{") with true. cbv iota.
    rewrite span_app; [|now apply notbrace|exact I]. rewrite Hf. reflexivity.
Qed.
Lemma get_token_end P dec s : spaces s -> get_token P dec s = Ok (TEnd, []).
Proof. intros S. unfold get_token. replace (drop_spaces s) with (@nil ascii); [reflexivity|]. rewrite <- (app_nil_r s). now rewrite drop_spaces_app. Qed.
Lemma lexeme_not_end P dec l t n : lexeme P dec l t n -> t <> TEnd /\ l <> [] /\ t <> TBegin.
Proof. intros H. destruct H; repeat split; try discriminate. all: intros ->; cbn in *; tauto. Qed.

(** ** the loop *)
Definition not_end (acc : list tok) : Prop := match acc with TEnd :: _ => False | [] => False | _ => True end.
Lemma loop_unfold P dec fuel acc s : not_end acc -> token_loop P dec (S fuel) acc s = ('(t, s') <- get_token P dec s ;; acc' <- push_token P acc t ;; token_loop P dec fuel acc' s').
Proof. intros N. destruct acc as [|[] acc]; try contradiction; reflexivity. Qed.
Lemma push_not_end P acc t acc' : push_token P acc t = Ok acc' -> t <> TEnd -> not_end acc'.
Proof.
  unfold push_token. destruct acc as [|back acc]; [discriminate|]. intros H N. unfold add_token in H. destruct (starts_factor t && ends_factor back)%bool eqn:B; [injection H as <-; destruct t; (exact I || congruence)|].
  destruct back; try (injection H as <-; destruct t; (exact I || congruence)).
  - destruct (is_sign t); [apply bind_ok in H as (z & _ & H)|]; injection H as <-; destruct t; (exact I || congruence).
  - destruct t; try discriminate. apply bind_ok in H as (z & _ & H). injection H as <-. exact I.
  - destruct (is_sign t); [apply bind_ok in H as (z & _ & H)|]; injection H as <-; destruct t; (exact I || congruence).
Qed.
Lemma loop_sound P dec fuel : forall acc s acc', not_end acc -> token_loop P dec fuel acc s = Ok acc' -> exists ts, lexes P dec s ts /\ push_all P acc (ts ++ [TEnd]) = Ok acc'.
Proof.
  induction fuel as [|fuel IH]; intros acc s acc' N H; [destruct acc as [|[] ?]; try contradiction; discriminate|]. rewrite loop_unfold in H by assumption. apply bind_ok in H as ([t s'] & Ht & H). apply bind_ok in H as (a1 & Ha & H).
  apply get_token_sound in Ht as [(-> & -> & S)|(NT & sp & l & -> & NE & S & L)].
  - exists []. split; [now constructor|]. cbn [app push_all]. rewrite Ha. cbn [bind]. enough (E : a1 = acc') by now rewrite E. unfold push_token in Ha. destruct acc as [|back acc]; [discriminate|]. unfold add_token in Ha. cbn [starts_factor andb is_sign] in Ha.
    assert (E : a1 = TEnd :: back :: acc) by (destruct back; try discriminate; congruence). subst a1. destruct fuel; cbn [token_loop] in H; congruence.
  - pose proof (push_not_end _ _ _ _ Ha NT) as N1. apply IH in H as (ts & A & B); [|assumption]. exists (t :: ts). split; [now constructor|]. cbn [app push_all]. rewrite Ha. exact B.
Qed.
Lemma lexes_length P dec s ts : lexes P dec s ts -> (length ts <= length s)%nat.
Proof. induction 1 as [s S|sp l t rest ts S L H IH]; [cbn; lia|]. apply lexeme_not_end in L as (_ & NE & _). rewrite !app_length. destruct l; [congruence|]. cbn [length]. lia. Qed.
Lemma loop_complete P dec : forall ts s, lexes P dec s ts -> forall fuel acc acc', not_end acc -> (length ts < fuel)%nat -> push_all P acc (ts ++ [TEnd]) = Ok acc' -> token_loop P dec fuel acc s = Ok acc'.
Proof.
  intros ts s L. induction L as [s S|sp l t rest ts S L H IH]; intros fuel acc acc' N F PA; (destruct fuel as [|fuel]; [cbn in F; lia|]); rewrite loop_unfold by assumption.
  - rewrite get_token_end by assumption. cbn [bind app push_all] in *. apply bind_ok in PA as (a1 & Ha & PA). injection PA as <-. rewrite Ha. cbn [bind].
    unfold push_token in Ha. destruct acc as [|back acc]; [discriminate|]. unfold add_token in Ha. cbn [starts_factor andb is_sign] in Ha. assert (E : a1 = TEnd :: back :: acc) by (destruct back; try discriminate; congruence). subst a1. destruct fuel; reflexivity.
  - rewrite (get_token_complete P dec sp l t rest S L). cbn [bind app push_all] in *. apply bind_ok in PA as (a1 & Ha & PA). rewrite Ha. cbn [bind]. apply lexeme_not_end in L as (NT & _ & _). apply IH; auto; [now apply (push_not_end P acc t)|cbn in F; lia].
Qed.
Theorem all_tokens_iff P dec raw l : get_all_tokens P dec raw = Ok l <-> exists ts, lexes P dec raw ts /\ push_all P [TBegin] (ts ++ [TEnd]) = Ok (rev l).
Proof.
  unfold get_all_tokens. split.
  - intros H. apply bind_ok in H as (acc & H & E). injection E as <-. apply loop_sound in H as (ts & A & B); [|exact I]. exists ts. now rewrite rev_involutive.
  - intros (ts & A & B). rewrite (loop_complete P dec ts raw A _ [TBegin] (rev l)); [cbn [bind]; now rewrite rev_involutive|exact I| |assumption]. pose proof (lexes_length _ _ _ _ A). lia.
Qed.
Theorem parse_iff P dec raw e : parse P dec raw = Ok e <-> exists ts, lexes P dec raw ts /\ parse_lexemes P ts = Ok e.
Proof.
  unfold parse, parse_lexemes. split.
  - intros H. apply bind_ok in H as (l & Hl & H). apply all_tokens_iff in Hl as (ts & A & B). exists ts. split; [assumption|]. rewrite B. cbn [bind]. now rewrite rev_involutive.
  - intros (ts & A & B). apply bind_ok in B as (acc & Ha & B). assert (G : get_all_tokens P dec raw = Ok (rev acc)) by (apply all_tokens_iff; exists ts; now rewrite rev_involutive). rewrite G. exact B.
Qed.
(** one text, one sequence of lexemes *)
Theorem lexes_unique P dec s ts : lexes P dec s ts -> forall ts', lexes P dec s ts' -> ts = ts'.
Proof.
  intros L. induction L as [s S|sp l t rest ts S L H IH]; intros ts' L'.
  - inversion L' as [? S'|sp l t rest ts0 S' L0 H0]; subst; [reflexivity|]. pose proof (get_token_complete P dec sp l t rest S' L0) as A. rewrite get_token_end in A by assumption. injection A as A _. apply lexeme_not_end in L0. intuition congruence.
  - pose proof (get_token_complete P dec sp l t rest S L) as A. inversion L' as [? S'|sp' l' t' rest' ts0 S' L0 H0 E]; subst.
    + rewrite get_token_end in A by assumption. injection A as A _. apply lexeme_not_end in L. intuition congruence.
    + rewrite <- E, (get_token_complete P dec sp' l' t' rest' S' L0) in A. injection A as -> ->. f_equal. now apply IH.
Qed.
(** the loop itself always ends: a fuel result can only come from building a number or a symbol *)
Theorem tokens_fuel P dec raw : get_all_tokens P dec raw = Fuel -> exists s t back acc, get_token P dec s = Fuel \/ add_token P back acc t = Fuel.
Proof.
  unfold get_all_tokens. assert (G : forall fuel acc s, not_end acc -> (length s < fuel)%nat -> token_loop P dec fuel acc s = Fuel -> exists s0 t back acc0, get_token P dec s0 = Fuel \/ add_token P back acc0 t = Fuel).
  { induction fuel as [|fuel IH]; intros acc s N L H; [lia|]. rewrite loop_unfold in H by assumption. destruct (get_token P dec s) as [[t s']|m|m|] eqn:G; try discriminate; [|exists s, TEnd, TEnd, []; now left]. cbn [bind] in H.
    destruct (push_token P acc t) as [a1|m|m|] eqn:Ha; try discriminate; cbn [bind] in H; [|unfold push_token in Ha; destruct acc as [|back acc]; [discriminate|]; exists s, t, back, acc; now right].
    apply get_token_sound in G as [(-> & -> & S)|(NT & sp & l & -> & NE & S & Lx)].
    - exfalso. unfold push_token in Ha. destruct acc as [|back acc]; [discriminate|]. unfold add_token in Ha. cbn [starts_factor andb is_sign] in Ha. assert (E : a1 = TEnd :: back :: acc) by (destruct back; try discriminate; congruence). subst a1. destruct fuel; discriminate.
    - apply (IH a1 s'); [now apply (push_not_end P acc t)| |assumption]. rewrite !app_length in L. destruct l; [congruence|]. cbn [length] in L. lia. }
  intros H. destruct (token_loop P dec (S (length raw)) [TBegin] raw) eqn:E; try discriminate. exact (G _ [TBegin] _ I (Nat.lt_succ_diag_r _) E).
Qed.
(** operators *)
Lemma lexes_proper P dec s ts : lexes P dec s ts -> Forall proper_op ts.
Proof. induction 1 as [|sp l t rest ts S L H IH]; constructor; auto. destruct L; cbn; auto. Qed.
Lemma push_proper P acc t acc' : Forall proper_op acc -> proper_op t -> push_token P acc t = Ok acc' -> Forall proper_op acc'.
Proof.
  unfold push_token. intros A T H. destruct acc as [|back acc]; [discriminate|]. inversion A as [|? ? Ab Aa]; subst. unfold add_token in H. destruct (starts_factor t && ends_factor back)%bool eqn:B; [injection H as <-; repeat constructor; auto|].
  destruct back; try (injection H as <-; repeat constructor; auto; fail).
  - destruct (is_sign t); [apply bind_ok in H as (z & _ & H)|]; injection H as <-; repeat constructor; auto.
  - destruct t; try discriminate. apply bind_ok in H as (z & _ & H). injection H as <-. repeat constructor; auto.
  - destruct (is_sign t); [apply bind_ok in H as (z & _ & H)|]; injection H as <-; repeat constructor; auto.
Qed.
Lemma push_all_proper P ts : forall acc acc', Forall proper_op acc -> Forall proper_op ts -> push_all P acc ts = Ok acc' -> Forall proper_op acc'.
Proof.
  induction ts as [|t ts IH]; intros acc acc' A T H; cbn [push_all] in H; [congruence|]. inversion T; subst. apply bind_ok in H as (a & Ha & H). apply IH in H; auto. now apply (push_proper P acc t).
Qed.
Lemma tokens_proper P dec raw l : get_all_tokens P dec raw = Ok l -> Forall proper_op l.
Proof.
  intros H. apply all_tokens_iff in H as (ts & A & B). apply push_all_proper in B; [|repeat constructor|apply Forall_app; split; [now apply (lexes_proper P dec raw)|repeat constructor]]. rewrite <- (rev_involutive l). now apply Forall_rev.
Qed.
