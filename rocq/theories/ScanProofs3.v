(** Proofs: where the parser comes across a high byte outside braces, it would have rejected the text anyway, but for a byte behind the index of a radical. *)
From Coq Require Import ZArith NArith String Ascii Lia Bool List.
From Verif Require Import Base AdapterModel HugeModel RationalModel RationalProofs RealModel PolyModel ExprModel ParserModel CliModel ScanModel ScanSpec ScanProofs1.
Import ListNotations.
Open Scope Z_scope.

Lemma sbind_bad {A B} (x : scan A) (f : A -> scan B) : sbind x f = BadChar -> x = BadChar \/ exists a, x = Scan (Ok a) /\ f a = BadChar.
Proof. destruct x as [| |[a|e|e|]]; cbn [sbind]; intros H; try discriminate; [now left|right; exists a; now split]. Qed.
Lemma ctype_bad f c : ctype f c = BadChar -> high c.
Proof. unfold ctype, high, ret. destruct (N.ltb_spec (N_of_ascii c) 128); [discriminate|]. intros _. exact H. Qed.
Lemma ctype_good f c b : ctype f c = Scan (Ok b) -> b = f c.
Proof. unfold ctype, ret. destruct (N_of_ascii c <? 128)%N; [intros E; injection E as <-; reflexivity|discriminate]. Qed.
Lemma high_range a b c : (b < 128)%N -> high c -> in_range a b c = false.
Proof. intros B H. unfold in_range, high in *. destruct (N.leb_spec (N_of_ascii c) b); [lia|]. apply andb_false_r. Qed.
Lemma high_eqb c d : high c -> (N_of_ascii d < 128)%N -> Ascii.eqb c d = false.
Proof. intros H D. destruct (Ascii.eqb_spec c d) as [->|]; [unfold high in H; lia|reflexivity]. Qed.
Lemma high_classes c : high c -> is_digit c = false /\ is_alpha c = false /\ is_space c = false /\ is_dot c = false /\ is_opchar c = false.
Proof.
  intros H. unfold is_digit, is_alpha, is_space, is_dot, is_opchar, is_pm, is_md. rewrite !(high_range _ _ _) by (assumption || reflexivity). rewrite !high_eqb by (assumption || reflexivity). auto.
Qed.
Lemma get_token_high P dec x b : high x -> exists m, get_token P dec (x :: b) = Throw m.
Proof.
  intros H. destruct (high_classes x H) as (A & B & C & D & E). unfold get_token. cbv zeta. cbn [drop_spaces]. rewrite C. rewrite (high_eqb x "_") by (assumption || reflexivity). rewrite A, D, E. cbn [orb]. rewrite (high_eqb x "("), (high_eqb x ")"), (high_eqb x "{") by (assumption || reflexivity). rewrite B. eexists. reflexivity.
Qed.
Lemma number_bad raw d : forall fuel temp p c r, (p < length raw)%nat -> skipn p raw = c :: r -> number_loop fuel raw (is_dot d) temp p = BadChar -> exists a x b, span (number_char d) r = (a, x :: b) /\ high x.
Proof.
  induction fuel as [|f IH]; intros temp p c r L S H; [discriminate|]. destruct (read_in raw p L) as (c' & r' & S1 & S2 & RD & _). rewrite S in S1. injection S1 as <- <-. cbn [number_loop] in H. rewrite RD in H. rewrite ?sbind_ret in H.
  destruct (Nat.ltb_spec (Datatypes.S p) (length raw)) as [L2|L2]; [|discriminate]. destruct (read_in raw (Datatypes.S p) L2) as (c2 & r2 & T1 & T2 & RD2 & I2). rewrite S2 in T1. rewrite T1. rewrite RD2 in H. rewrite ?sbind_ret in H.
  apply sbind_bad in H as [H|(v & Hv & H)].
  - apply ctype_bad in H. destruct (high_classes c2 H) as (A & _ & _ & D & _). cbn [span]. unfold number_char. rewrite A, D, andb_false_r. cbn [orb]. exists [], c2, r2. auto.
  - apply ctype_good in Hv. subst v. assert (X : number_loop f raw (is_dot d) (temp ++ [c]) (Datatypes.S p) = BadChar -> number_char d c2 = true -> exists a x b, span (number_char d) (c2 :: r2) = (a, x :: b) /\ high x).
    { intros Y N. destruct (IH _ _ c2 r2 L2 ltac:(congruence) Y) as (a & x & b & E & Hx). cbn [span]. rewrite N, E. exists (c2 :: a), x, b. auto. }
    unfold number_char at 1 in X. destruct (is_digit c2); [now apply X|]. destruct (is_dot d); [discriminate|]. rewrite ?sbind_ret in H. cbn [negb andb orb] in X. destruct (is_dot c2); [now apply X|discriminate].
Qed.
Lemma token_bad P dec raw p : ~ In "_"%char raw -> token_at P dec raw p = BadChar -> forall t s, get_token P dec (skipn p raw) = Ok (t, s) -> exists f x b, t = TNum f /\ s = x :: b /\ high x.
Proof.
  intros NU H t s G. unfold token_at in H. apply sbind_bad in H as [H|(q & Hq & H)].
  - exfalso. assert (K : forall fuel p, skip_spaces fuel raw p = BadChar -> exists x b, drop_spaces (skipn p raw) = x :: b /\ high x).
    { clear. induction fuel as [|f IH]; intros p H; [discriminate|]. cbn [skip_spaces] in H. destruct (Nat.ltb_spec p (length raw)) as [L|L]; [|discriminate]. destruct (read_in raw p L) as (c & r & S1 & S2 & RD & I). rewrite RD in H. rewrite ?sbind_ret in H. rewrite S1. cbn [drop_spaces]. apply sbind_bad in H as [H|(v & Hv & H)].
      - apply ctype_bad in H. destruct (high_classes c H) as (_ & _ & -> & _). eauto.
      - apply ctype_good in Hv. subst v. destruct (is_space c); [|discriminate]. rewrite <- S2. now apply IH. }
    apply K in H as (x & b & E & Hx). destruct (get_token_high P dec x b Hx) as (m & M). unfold get_token in G, M. cbv zeta in G, M. rewrite E in G. cbn [drop_spaces] in M. destruct (high_classes x Hx) as (_ & _ & SP & _). rewrite SP in M. rewrite M in G. discriminate.
  - pose proof (skip_spaces_ok raw (S (length raw)) p ltac:(lia)) as K. rewrite Hq in K. cbn [keeps] in K. destruct K as (s' & E & K). injection E as <-. unfold get_token in G. cbv zeta in G. rewrite <- K in G. clear Hq K p. rename q into p.
    destruct (Nat.leb_spec (length raw) p) as [L|L]; [discriminate|]. destruct (read_in raw p L) as (c & r & S1 & S2 & RD & I). rewrite S1 in G. rewrite RD in H. rewrite ?sbind_ret in H. assert (U : Ascii.eqb c "_" = false) by (apply Ascii.eqb_neq; intros X; rewrite X in I; contradiction). rewrite U in *.
    assert (HC : high c -> False).
    { intros Hc. destruct (get_token_high P dec c r Hc) as (m & M). unfold get_token in M. cbv zeta in M. cbn [drop_spaces] in M. destruct (high_classes c Hc) as (_ & _ & SP & _). rewrite SP, U in M. rewrite M in G. discriminate. }
    apply sbind_bad in H as [H|(v & Hv & H)]; [apply ctype_bad in H; exfalso; auto|]. apply ctype_good in Hv. subst v. destruct (is_digit c || is_dot c)%bool.
    { apply sbind_bad in H as [H|([v q] & _ & H)].
      - unfold parse_a_number in H. rewrite RD, ?sbind_ret in H. apply sbind_bad in H as [H|([v q] & _ & H)].
        + apply (number_bad raw c _ _ _ c r L S1) in H as (a & x & b & SP & Hx). cbn [scan_number] in G. rewrite SP in G. apply bind_ok in G as (u & _ & G). apply bind_ok in G as (f & _ & G). injection G as <- <-. eauto 10.
        + destruct (rat_of_string (ew (pe P)) dec v); discriminate.
      - destruct (frac_of_rat P v); discriminate. }
    destruct (is_opchar c).
    { destruct (Ascii.eqb c "*"); [|discriminate]. destruct (Nat.ltb_spec (p + 1) (length raw)) as [L2|L2]; [|discriminate]. destruct (read_in raw (p + 1) L2) as (c2 & r2 & _ & _ & RD2 & _). rewrite RD2, ?sbind_ret in H. destruct (Ascii.eqb c2 "*"); discriminate. }
    destruct (Ascii.eqb c "("); [discriminate|]. destruct (Ascii.eqb c ")"); [discriminate|]. apply sbind_bad in H as [H|(v & Hv & H)]; [apply ctype_bad in H; exfalso; auto|]. apply ctype_good in Hv. subst v. destruct (is_alpha c || Ascii.eqb c "{")%bool; [|discriminate].
    apply sbind_bad in H as [H|([k q] & _ & H)]; [|destruct (frac_of_sym P (string_of_list_ascii k)); discriminate]. destruct (Ascii.eqb c "{"); [|discriminate]. exfalso.
    assert (K : forall fuel sym p, braced fuel raw sym p <> BadChar).
    { clear. induction fuel as [|f IH]; intros sym p; cbn [braced]; [discriminate|]. destruct (Nat.ltb_spec p (length raw)) as [L|L]; [|discriminate]. destruct (read_in raw p L) as (c & r & _ & _ & RD & _). rewrite RD, ?sbind_ret. destruct (Ascii.eqb c "}"); [discriminate|apply IH]. }
    exact (K _ _ _ H).
Qed.
Lemma push_number P acc f acc' : push_token P acc (TNum f) = Ok acc' -> exists x a, acc' = x :: a /\ x <> TEnd.
Proof.
  unfold push_token, add_token. destruct acc as [|back acc]; [discriminate|]. cbn [starts_factor andb]. destruct back; cbn [is_sign]; intros H; try (injection H as <-; do 2 eexists; split; [reflexivity|discriminate]).
  apply bind_ok in H as (g & _ & H). injection H as <-. do 2 eexists. split; [reflexivity|discriminate].
Qed.
Lemma tokens_from_bad P dec raw : ~ In "_"%char raw -> forall fuel acc p, tokens_from P dec fuel raw acc p = BadChar -> forall l, token_loop P dec fuel acc (skipn p raw) <> Ok l.
Proof.
  intros NU. induction fuel as [|f IH]; intros acc p H l E; cbn [tokens_from token_loop] in *; [destruct acc as [|[] ?]; discriminate|].
  assert (G : ('(t, pos) <~ token_at P dec raw p ;; acc <~ Scan (push_token P acc t) ;; tokens_from P dec f raw acc pos) = BadChar -> ('(t, s') <- get_token P dec (skipn p raw) ;; acc' <- push_token P acc t ;; token_loop P dec f acc' s') = Ok l -> False).
  { clear H E. intros H E. apply bind_ok in E as ([t s] & Ht & E). apply bind_ok in E as (acc' & Hp & E). apply sbind_bad in H as [H|([t' q] & Ht' & H)].
    - destruct (token_bad P dec raw p NU H t s Ht) as (g & x & b & -> & -> & Hx). destruct (push_number _ _ _ _ Hp) as (y & a & -> & NE). destruct (get_token_high P dec x b Hx) as (m & M). destruct f; cbn [token_loop] in E; destruct y; try contradiction; try discriminate; rewrite M in E; discriminate.
    - pose proof (token_at_ok P dec raw p) as K. rewrite Ht' in K. cbn [keeps] in K. destruct K as ([t2 s2] & K & E1 & E2). rewrite Ht in K. injection K as <- <-. cbn [fst snd] in *. subst t' s. apply sbind_bad in H as [H|(a & Ha & H)]; [discriminate|]. injection Ha as Ha. rewrite Hp in Ha. injection Ha as <-. exact (IH _ _ H l E). }
  destruct acc as [|[] ?]; try exact (G H E). discriminate.
Qed.
Lemma accepted P dec raw l : ~ In "_"%char raw -> get_all_tokens P dec raw = Ok l -> tokens_at P dec raw = Scan (Ok l).
Proof.
  intros NU H. destruct (tokens_ok P dec raw) as [E|[E _]]; [congruence|]. exfalso. unfold tokens_at in E. apply sbind_bad in E as [E|(a & _ & E)]; [|discriminate]. unfold get_all_tokens in H. apply bind_ok in H as (a & Ha & _). exact (tokens_from_bad P dec raw NU _ _ 0%nat E a Ha).
Qed.
Lemma first_byte P dec c s : high c -> tokens_at P dec (c :: s) = BadChar.
Proof.
  intros H. unfold tokens_at. cbn [tokens_from length]. unfold token_at at 1. cbn [skip_spaces length]. change (0 <? S (length s))%nat with true. cbv iota. change (read (c :: s) 0) with (ret c). rewrite sbind_ret. unfold ctype. rewrite (proj2 (N.ltb_ge _ _) H). reflexivity.
Qed.
