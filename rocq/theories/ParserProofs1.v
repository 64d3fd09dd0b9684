(** The shunting-yard loop builds the tree of the grammar. *)
From Coq Require Import ZArith String Ascii Lia Bool List.
From Verif Require Import Base AdapterModel RationalModel RationalProofs RealModel PolyModel ExprModel ParserModel ParserSpec.
Import ListNotations.
Open Scope Z_scope.

(** ** the loop *)
Lemma steps_app st a b : steps st (a ++ b) = (st' <- steps st a ;; steps st' b).
Proof. revert st. induction a as [|t a IH]; intros st; cbn [steps app]; [reflexivity|]. destruct (step st t); cbn [bind]; auto. Qed.

Fixpoint flush (P : list ascii) (N : list expr) : option (list expr) :=
  match P with
  | [] => Some N
  | c :: P' => match N with r :: l :: N' => flush P' (Op c l r :: N') | _ => None end
  end.
Definition pge (p : Z) (c : ascii) : Prop := exists x, priority c = Some x /\ p <= x.
Definition top_lt (O : list ascii) (p : Z) : Prop := match O with [] => True | o :: _ => exists x, priority o = Some x /\ x < p end.
Lemma flush_app P Q N : flush (P ++ Q) N = match flush P N with Some M => flush Q M | None => None end.
Proof. revert N. induction P as [|c P IH]; intros N; cbn [flush app]; [reflexivity|]. destruct N as [|r [|l N]]; auto. Qed.
Lemma pge_le p q c : p <= q -> pge q c -> pge p c.
Proof. intros H (x & A & B). exists x. split; [assumption|lia]. Qed.
Lemma top_lt_le O p q : p <= q -> top_lt O p -> top_lt O q.
Proof. intros H. destruct O as [|o O]; cbn; [auto|]. intros (x & A & B). exists x. split; [assumption|lia]. Qed.

Lemma pop_ge_flush P : forall N M O c p q fuel, flush P N = Some M -> Forall (pge q) P -> priority c = Some p -> p <= q -> top_lt O p -> (length P <= fuel)%nat ->
  pop_ge fuel c (N, P ++ O) = Ok (M, O).
Proof.
  induction P as [|o P IH]; intros N M O c p q fuel F G C L T U.
  - injection F as <-. cbn [app]. destruct O as [|o O]; [destruct fuel; reflexivity|]. destruct T as (x & X & Y). destruct fuel; cbn [pop_ge snd]; unfold great_or_equal; rewrite X, C; cbn [bind]; (replace (p <=? x) with false by lia); reflexivity.
  - cbn [flush] in F. destruct N as [|r [|l N]]; try discriminate. inversion G as [|? ? (x & X & Y) G']; subst. destruct fuel as [|fuel]; [cbn in U; lia|]. cbn [pop_ge snd app]. unfold great_or_equal. rewrite X, C. cbn [bind]. replace (p <=? x) with true by lia.
    cbn [handle bind]. apply (IH _ M O c p q fuel F G' C L T). cbn [length] in U. lia.
Qed.
Lemma pop_all_flush P : forall N M fuel, flush P N = Some M -> (length P <= fuel)%nat -> pop_all fuel (N, P) = Ok (M, []).
Proof.
  induction P as [|o P IH]; intros N M fuel F U.
  - injection F as <-. destruct fuel; reflexivity.
  - cbn [flush] in F. destruct N as [|r [|l N]]; try discriminate. destruct fuel as [|fuel]; [cbn in U; lia|]. cbn [pop_all snd handle bind]. apply IH; [assumption|]. cbn in U. lia.
Qed.
Lemma pop_paren_flush P : forall N M O fuel, flush P N = Some M -> M <> [] -> Forall (pge 10) P -> (length P <= fuel)%nat ->
  pop_paren fuel (N, P ++ "("%char :: O) = Ok (M, "("%char :: O).
Proof.
  induction P as [|o P IH]; intros N M O fuel F NE G U.
  - injection F as <-. destruct N as [|n N]; [congruence|]. destruct fuel; reflexivity.
  - cbn [flush] in F. destruct N as [|r [|l N]]; try discriminate. inversion G as [|? ? (x & X & Y) G']; subst. destruct fuel as [|fuel]; [cbn in U; lia|]. cbn [pop_paren fst snd app].
    destruct (Ascii.eqb_spec o "(") as [->|_]; [cbn in X; injection X as <-; lia|]. cbn [handle bind snd]. destruct (P ++ "("%char :: O) eqn:EQ; [destruct P; discriminate|]. rewrite <- EQ. apply IH; auto. cbn in U. lia.
Qed.

(** ** the grammar on completed tokens *)
Inductive xd : level -> list tok -> expr -> Prop :=
| x_expr ts t : xd Sum ts t -> xd Expr ts t
| x_sum ts t : xd Prod ts t -> xd Sum ts t
| x_pm c a b x y : c = "+"%char \/ c = "-"%char -> xd Sum a x -> xd Prod b y -> xd Sum (a ++ TOp c :: b) (Op c x y)
| x_prod ts t : xd Pow ts t -> xd Prod ts t
| x_md c a b x y : c = "*"%char \/ c = "/"%char -> xd Prod a x -> xd Pow b y -> xd Prod (a ++ TOp c :: b) (Op c x y)
| x_pow ts t : xd Atom ts t -> xd Pow ts t
| x_hat a b x y : xd Pow a x -> xd Atom b y -> xd Pow (a ++ TOp "^" :: b) (Op "^" x y)
| x_num f : xd Atom [TNum f] (Leaf f)
| x_sym f : xd Atom [TSym f] (Leaf f)
| x_paren ts t : xd Expr ts t -> xd Atom (TL :: ts ++ [TR]) t.
Definition lprio (l : level) : Z := match l with Expr | Sum => 10 | Prod => 100 | Pow => 1000 | Atom => 2000 end.
Definition built (l : level) (ts : list tok) (t : expr) : Prop :=
  forall N O, top_lt O (lprio l) -> exists N' P, steps (N, O) ts = Ok (N', P ++ O) /\ flush P N' = Some (t :: N) /\ Forall (pge (lprio l)) P.
Lemma built_up l m ts t : lprio m <= lprio l -> built l ts t -> built m ts t.
Proof.
  intros H B N O T. destruct (B N O (top_lt_le O _ _ H T)) as (N' & P & A & F & G). exists N', P. split; [assumption|]. split; [assumption|]. eapply Forall_impl; [|exact G]. intros c. now apply pge_le.
Qed.
Lemma built_op l m c a b x y : priority c = Some (lprio l) -> lprio l < lprio m -> built l a x -> built m b y -> built l (a ++ TOp c :: b) (Op c x y).
Proof.
  intros Hc L A B N O T. destruct (A N O T) as (N1 & P1 & S1 & F1 & G1). rewrite steps_app, S1. cbn [bind steps step fst snd].
  rewrite (pop_ge_flush P1 N1 (x :: N) O c (lprio l) (lprio l) _ F1 G1 Hc (Z.le_refl _) T) by (rewrite app_length; lia). cbn [bind fst snd].
  destruct (B (x :: N) (c :: O)) as (N2 & P2 & S2 & F2 & G2); [exists (lprio l); auto|]. exists N2, (P2 ++ [c]). rewrite S2, <- app_assoc. split; [reflexivity|]. split.
  - rewrite flush_app, F2. reflexivity.
  - apply Forall_app. split; [eapply Forall_impl; [|exact G2]; intros d; apply pge_le; lia|]. constructor; [|constructor]. exists (lprio l). split; [assumption|lia].
Qed.
Lemma no_2000 P : Forall (pge 2000) P -> P = [].
Proof.
  destruct P as [|c P]; [reflexivity|]. intros H. inversion H as [|? ? (x & X & Y) _]; subst. unfold priority in X. repeat destruct (_ : bool) in X; try congruence; injection X as <-; lia.
Qed.
Lemma xd_built l ts t : xd l ts t -> built l ts t.
Proof.
  induction 1 as [ts t H IH|ts t H IH|c a b x y C H1 IH1 H2 IH2|ts t H IH|c a b x y C H1 IH1 H2 IH2|ts t H IH|a b x y H1 IH1 H2 IH2|f|f|ts t H IH].
  - exact IH.
  - now apply (built_up Prod).
  - apply (built_op Sum Prod); auto; [destruct C as [-> | ->]; reflexivity|reflexivity].
  - now apply (built_up Pow).
  - apply (built_op Prod Pow); auto; [destruct C as [-> | ->]; reflexivity|reflexivity].
  - now apply (built_up Atom).
  - apply (built_op Pow Atom); auto; reflexivity.
  - intros N O T. exists (Leaf f :: N), []. repeat constructor.
  - intros N O T. exists (Leaf f :: N), []. repeat constructor.
  - intros N O T. destruct (IH N ("("%char :: O)) as (N' & P & S & F & G); [exists 0; split; [reflexivity|cbn; lia]|]. exists (t :: N), []. split; [|split; [reflexivity|constructor]].
    cbn [steps step fst snd bind]. rewrite steps_app, S. cbn [bind steps step fst snd]. destruct (P ++ "("%char :: O) eqn:EQ; [destruct P; discriminate|]. rewrite <- EQ.
    rewrite (pop_paren_flush P N' (t :: N) O _ F); [reflexivity|discriminate|exact G|rewrite app_length; lia].
Qed.
Lemma xd_parse ts t : xd Expr ts t -> parse_tokens ts = Ok t.
Proof.
  intros H. apply xd_built in H. destruct (H [] [] I) as (N & P & S & F & G). rewrite app_nil_r in S. unfold parse_tokens. rewrite S. cbn [bind snd]. rewrite (pop_all_flush P N [t] _ F (le_n _)). reflexivity.
Qed.

(** ** completing the tokens *)
Lemma push_all_app P acc a b : push_all P acc (a ++ b) = (x <- push_all P acc a ;; push_all P x b).
Proof. revert acc. induction a as [|t a IH]; intros acc; cbn [push_all app bind]; [reflexivity|]. destruct (push_token P acc t); cbn [bind]; auto. Qed.
Definition open_back (t : tok) : bool := match t with TBegin | TL | TOp _ => true | _ => false end.
Lemma starts_push P back acc ts : ends_factor back = true -> starts ts -> push_all P (back :: acc) ts = push_all P (TOp "*" :: back :: acc) ts.
Proof.
  destruct ts as [|t ts]; cbn [starts]; [tauto|]. intros B S. cbn [push_all push_token]. unfold add_token. rewrite S, B. cbn [andb ends_factor]. cbn [bind]. reflexivity.
Qed.
(** the first token of a derivation never continues what precedes it, and the last one ends a factor *)
Definition completed (P : penv) (l : level) (ts : list tok) (t : expr) : Prop :=
  forall back acc, (match l with Expr => back = TBegin \/ back = TL | _ => open_back back = true end) ->
    exists ts' last, push_all P (back :: acc) ts = Ok (rev ts' ++ back :: acc) /\ xd l ts' t /\ ends_factor last = true /\ exists ts0, ts' = ts0 ++ [last].
Lemma rev_last (ts0 : list tok) last rest : rev (ts0 ++ [last]) ++ rest = last :: rev ts0 ++ rest.
Proof. now rewrite rev_app_distr. Qed.
Lemma completed_op P l m c a b x y : is_opchar c = true -> (forall a' b' x' y', xd l a' x' -> xd m b' y' -> xd l (a' ++ TOp c :: b') (Op c x' y')) -> l <> Expr -> m <> Expr ->
  completed P l a x -> completed P m b y -> completed P l (a ++ TOp c :: b) (Op c x y).
Proof.
  intros Hc X Nl Nm A B back acc O. destruct (A back acc) as (a' & la & Ea & Xa & La & a0 & ->); [destruct l; congruence|]. rewrite push_all_app, Ea. cbn [bind]. rewrite rev_last. cbn [push_all push_token]. unfold add_token. cbn [starts_factor andb].
  assert (Q : (match la with TRad q => match TOp c with TNum _ => f <- frac_of_rat P q ;; Ok (TR :: TNum f :: TOp "^" :: TOp c :: TL :: (rev a0 ++ back :: acc)) | _ => Throw "Radical needs a rational." end
               | TL | TBegin => if is_sign (TOp c) then z <- frac_of_int P 0 ;; Ok (TOp c :: TNum z :: la :: rev a0 ++ back :: acc) else Ok (TOp c :: la :: rev a0 ++ back :: acc)
               | _ => Ok (TOp c :: la :: rev a0 ++ back :: acc) end) = Ok (TOp c :: la :: rev a0 ++ back :: acc)) by (destruct la; try discriminate; reflexivity).
  rewrite Q. cbn [bind]. destruct (B (TOp c) (la :: rev a0 ++ back :: acc)) as (b' & lb & Eb & Xb & Lb & b0 & ->); [destruct m; [congruence|reflexivity..]|].
  rewrite Eb. exists ((a0 ++ [la]) ++ TOp c :: b0 ++ [lb]), lb. split; [|split; [apply X; assumption|split; [assumption|exists ((a0 ++ [la]) ++ TOp c :: b0); rewrite <- !app_assoc; reflexivity]]].
  f_equal. rewrite !rev_app_distr. cbn [rev app]. rewrite !rev_app_distr. cbn [rev app]. rewrite <- !app_assoc. reflexivity.
Qed.
Lemma derives_completed P l ts t : derives P l ts t -> completed P l ts t.
Proof.
  induction 1 as [ts t H IH|c z ts t C Z H IH|ts t H IH|c a b x y C H1 IH1 H2 IH2|ts t H IH|c a b x y C H1 IH1 H2 IH2|a b x y H1 IH1 H2 IH2 S|ts t H IH|a b x y H1 IH1 H2 IH2|f|f|q f g G|ts t H IH].
  - intros back acc B. destruct (IH back acc) as (ts' & la & E & X & L); [destruct B as [-> | ->]; reflexivity|]. exists ts', la. split; [assumption|]. split; [now constructor|assumption].
  - intros back acc B. destruct (IH back acc) as (ts' & la & E & X & L); [destruct B as [-> | ->]; reflexivity|]. exists ts', la. split; [|split; [now constructor|assumption]].
    rewrite <- E. assert (S : is_sign (TOp c) = true) by (destruct C as [-> | ->]; reflexivity). cbn [push_all push_token]. destruct B as [-> | ->]; unfold add_token; cbn [starts_factor andb]; rewrite S, Z; cbn [is_sign bind push_token]; unfold add_token; cbn [starts_factor andb bind]; reflexivity.
  - intros back acc B. destruct (IH back acc B) as (ts' & la & E & X & L). exists ts', la. split; [assumption|]. split; [now constructor|assumption].
  - apply (completed_op P Sum Prod); auto; try discriminate; [destruct C as [-> | ->]; reflexivity|]. intros. now apply x_pm.
  - intros back acc B. destruct (IH back acc B) as (ts' & la & E & X & L). exists ts', la. split; [assumption|]. split; [now constructor|assumption].
  - apply (completed_op P Prod Pow); auto; try discriminate; [destruct C as [-> | ->]; reflexivity|]. intros. now apply x_md.
  - (* juxtaposition: the same as with an explicit '*' *)
    assert (Q : completed P Prod (a ++ TOp "*" :: b) (Op "*" x y)) by (apply (completed_op P Prod Pow); auto; try discriminate; intros; apply x_md; auto).
    intros back acc B. destruct (Q back acc B) as (ts' & la & E & X & L). exists ts', la. split; [|now split]. rewrite <- E. destruct (IH1 back acc B) as (a' & l1 & E1 & X1 & L1 & a0 & ->).
    rewrite !push_all_app, E1. cbn [bind]. rewrite rev_last. rewrite starts_push by assumption. cbn [push_all push_token]. unfold add_token. cbn [starts_factor andb]. destruct l1; try discriminate; reflexivity.
  - intros back acc B. destruct (IH back acc B) as (ts' & la & E & X & L). exists ts', la. split; [assumption|]. split; [now constructor|assumption].
  - apply (completed_op P Pow Atom); auto; try discriminate. intros. now apply x_hat.
  - intros back acc B. exists [TNum f], (TNum f). split; [|split; [constructor|split; [reflexivity|now exists []]]]. cbn [push_all push_token]. unfold add_token. cbn [starts_factor andb is_sign]. destruct back; try discriminate; reflexivity.
  - intros back acc B. exists [TSym f], (TSym f). split; [|split; [constructor|split; [reflexivity|now exists []]]]. cbn [push_all push_token]. unfold add_token. destruct back; try discriminate; reflexivity.
  - intros back acc B. exists [TL; TNum f; TOp "^"; TNum g; TR], TR. split; [|split; [|split; [reflexivity|now exists [TL; TNum f; TOp "^"; TNum g]]]].
    + cbn [push_all push_token]. unfold add_token. destruct back; try discriminate; cbn [starts_factor ends_factor andb is_sign bind push_token]; unfold add_token; cbn [starts_factor andb bind]; rewrite G; reflexivity.
    + change [TL; TNum f; TOp "^"; TNum g; TR] with (TL :: ([TNum f] ++ TOp "^" :: [TNum g]) ++ [TR]). apply x_paren, x_expr, x_sum, x_prod, x_hat; repeat constructor.
  - intros back acc B. destruct (IH TL (back :: acc)) as (ts' & la & E & X & L & t0 & ->); [now right|]. exists (TL :: (t0 ++ [la]) ++ [TR]), TR. split; [|split; [now constructor|split; [reflexivity|now exists (TL :: t0 ++ [la])]]].
    cbn [push_all push_token]. assert (Q : add_token P back acc TL = Ok (TL :: back :: acc)) by (destruct back; try discriminate; reflexivity). rewrite Q. cbn [bind]. rewrite push_all_app, E. cbn [bind]. rewrite rev_last. cbn [push_all push_token]. unfold add_token. cbn [starts_factor andb is_sign].
    assert (Q2 : rev (TL :: (t0 ++ [la]) ++ [TR]) ++ back :: acc = TR :: la :: rev t0 ++ TL :: back :: acc). { cbn [rev]. rewrite !rev_app_distr. cbn [rev app]. rewrite <- !app_assoc. reflexivity. }
    rewrite Q2. destruct la; try discriminate; reflexivity.
Qed.
(** ** C40 *)
Theorem grammar_parse P ts t : derives P Expr ts t -> parse_lexemes P ts = Ok t.
Proof.
  intros H. apply derives_completed in H. destruct (H TBegin [] (or_introl eq_refl)) as (ts' & la & E & X & L & t0 & ->). unfold parse_lexemes. rewrite push_all_app, E. cbn [bind]. rewrite rev_last. cbn [push_all push_token]. unfold add_token. cbn [starts_factor andb is_sign].
  assert (Q : forall r, (match la with TRad q => match TEnd with TNum _ => f <- frac_of_rat P q ;; Ok (TR :: TNum f :: TOp "^" :: TEnd :: TL :: r) | _ => Throw "Radical needs a rational." end
      | TL | TBegin => Ok (TEnd :: la :: r) | _ => Ok (TEnd :: la :: r) end) = Ok (TEnd :: la :: r)) by (intros r; destruct la; try discriminate; reflexivity).
  rewrite Q. cbn [bind]. cbn [rev]. rewrite !rev_app_distr, rev_involutive. cbn [rev app tl]. rewrite removelast_last. now apply xd_parse.
Qed.
