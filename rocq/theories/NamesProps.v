(** C73: the symbols of an expression.  Parsing takes them from the text; simplification, the operations and substitution introduce none; substitution removes the bound ones; values depend on nothing else.
    Vocabulary: NamesSpec.v ([mentions], [occurs], [maps]), ExprSpec.v ([ev], the value of a tree), ParserSpec.v ([lexes]). *)
From Coq Require Import ZArith QArith Qreals Reals String Ascii Lia Bool List Sorted.
From Verif Require Import Base AdapterModel FactorizeModel RationalModel RationalSpec RationalProofs RealModel RealSpec RealProofs3 RealProofs6 PolyModel PolySpec PolyProofs6 ExprModel ExprSpec ParserModel ParserSpec TextSpec TextProofs1 TextProofs2 NamesSpec NamesProofs NamesProofs2.
Import ListNotations.
Open Scope Z_scope.

Local Definition E64 : env := std_env 64 true (fun k => Z.of_nat k * Z.of_nat k * 3 + 1) 200 0.
Local Definition P64 : penv := PEnv E64 (isort 64).
Local Definition dec (s : text) : res rat := Throw "decimal".
Local Definition p (s : string) : res expr := parse P64 dec (txt s).
Local Definition show (e : res expr) : res string := t <- e ;; x <- expr_to_string E64 t ;; Ok (string_of_list_ascii x).
Local Definition norm (e : res expr) : res expr := t <- e ;; expr_normalize P64 t.
Local Lemma P64_ok : machine P64 /\ sort_orders P64.
Proof. apply (isort_machine E64). split; [cbn; lia|]. split; [apply std_sound|apply std_exact; lia]. Qed.
Local Lemma P64_reads : reads P64. Proof. apply std_reads; lia. Qed.
Local Lemma P64_sort : sort_permutes P64. Proof. apply P64_ok. Qed.

(** ** simplification *)
Theorem C73_simplify P e e' k : sort_permutes P -> expr_normalize P e = Ok e' -> mentions k e' -> mentions k e.
Proof. intros HS H. revert k. apply (ne_iff (fun k => mentions k e)). refine (n_normalize _ (named_closed _) P HS _ _ H _). now apply ne_iff. Qed.
Print Assumptions C73_simplify.
(** ** substitution: what is bound is gone, nothing is new *)
Theorem C73_substitute P env e e' k : sort_permutes P -> maps e -> expr_subst P env e = Ok e' -> mentions k e' -> mentions k e /\ efind k env = None.
Proof. intros HS M H. revert k. apply (ne_iff (fun k => mentions k e /\ efind k env = None)). exact (n_esubst P HS env e e' H M). Qed.
Print Assumptions C73_substitute.
(** with a value for every symbol, a number is left *)
Theorem C73_all_bound P env e e' : sort_permutes P -> maps e -> expr_subst P env e = Ok e' -> (forall k, mentions k e -> efind k env <> None) -> (forall k, ~ mentions k e') /\ forall s s', ev s e' = ev s' e'.
Proof.
  intros HS M H B. assert (N : forall k, ~ mentions k e') by (intros k I; destruct (C73_substitute P env e e' k HS M H I) as [J K]; exact (B k J K)). split; [exact N|]. intros s s'. apply ev_agree. intros k I. now apply N in I.
Qed.
Print Assumptions C73_all_bound.
(** ** the operations on fractions *)
Theorem C73_operations P a b r k : sort_permutes P -> frac_add P a b = Ok r \/ frac_sub P a b = Ok r \/ frac_mul P a b = Ok r \/ frac_div P a b = Ok r -> fmentions k r -> fmentions k a \/ fmentions k b.
Proof.
  intros HS H. revert k. apply (nf_iff (fun k => fmentions k a \/ fmentions k b)). assert (A : Nf (named (fun k => fmentions k a \/ fmentions k b)) a) by (apply nf_iff; auto). assert (B : Nf (named (fun k => fmentions k a \/ fmentions k b)) b) by (apply nf_iff; auto).
  destruct H as [H|[H|[H|H]]]; [exact (n_fadd _ (named_closed _) P HS a b r H A B)|exact (n_fsub _ (named_closed _) P HS a b r H A B)|exact (n_fmul _ (named_closed _) P HS a b r H A B)|exact (n_fdiv _ (named_closed _) P HS a b r H A B)].
Qed.
Print Assumptions C73_operations.
Theorem C73_unary P a q r k : sort_permutes P -> frac_negate P a = Ok r \/ frac_pow P a q = Ok r \/ frac_normalize P a = Ok r -> fmentions k r -> fmentions k a.
Proof.
  intros HS H. revert k. apply (nf_iff (fun k => fmentions k a)). assert (A : Nf (named (fun k => fmentions k a)) a) by now apply nf_iff.
  destruct H as [H|[H|H]]; [exact (n_fneg _ (named_closed _) P HS a r H A)|exact (n_fpow _ (named_closed _) P HS a q r H A)|exact (n_fnorm _ (named_closed _) P HS a r H A)].
Qed.
Print Assumptions C73_unary.
(** ** parsing: the symbols of the tree are the symbol lexemes of the text, all of them; each is written in the text *)
Theorem C73_parse P dec raw e k : reads P -> sort_permutes P -> parse P dec raw = Ok e -> (mentions k e <-> exists ts, lexes P dec raw ts /\ In (TSym (leaf_sym k)) ts).
Proof. intros HR HS. exact (parse_names P HR HS dec raw e k). Qed.
Print Assumptions C73_parse.
Theorem C73_written P dec raw e k : reads P -> sort_permutes P -> parse P dec raw = Ok e -> mentions k e -> occurs k raw.
Proof. intros HR HS H M. apply (C73_parse P dec raw e k HR HS H) in M as (ts & L & I). exact (lexes_occurs P HR dec raw ts L k I). Qed.
Print Assumptions C73_written.
(** so a text without letters and braces is a number *)
Theorem C73_no_letters P dec raw e : reads P -> sort_permutes P -> parse P dec raw = Ok e -> Forall (fun c => is_alpha c = false /\ c <> "{"%char) raw -> (forall k, ~ mentions k e) /\ forall s s', ev s e = ev s' e.
Proof.
  intros HR HS H F. rewrite Forall_forall in F. assert (N : forall k, ~ mentions k e).
  { intros k M. destruct (C73_written P dec raw e k HR HS H M) as [(c & _ & A & I)|(a & b & E & _)]; [apply F in I as [I _]; congruence|]. assert (I : In "{"%char raw) by (rewrite E; apply in_or_app; right; now left). apply F in I as [_ I]. now apply I. }
  split; [exact N|]. intros s s'. apply ev_agree. intros k I. now apply N in I.
Qed.
Print Assumptions C73_no_letters.
(** ** the terms are maps, as substitution requires: after parsing, and after everything else *)
Theorem C73_maps P dec raw e : reads P -> sort_permutes P -> parse P dec raw = Ok e -> maps e.
Proof. intros HR HS. exact (parse_maps P HR HS dec raw e). Qed.
Print Assumptions C73_maps.
Theorem C73_maps_kept P env e e' : sort_permutes P -> maps e -> expr_normalize P e = Ok e' \/ expr_subst P env e = Ok e' -> maps e'.
Proof.
  intros HS M [H|H]; [|exact (esubst_maps P env e HS e' H M)]. apply maps_ne. apply (n_normalize _ ascending_closed P HS _ _ H). now apply maps_ne.
Qed.
Print Assumptions C73_maps_kept.
(** ** values: only the symbols that occur matter *)
Theorem C73_value s s' e : (forall k, mentions k e -> s k = s' k) -> ev s e = ev s' e.
Proof. exact (ev_agree s s' e). Qed.
Print Assumptions C73_value.
(** text, simplified, substituted: the whole way *)
Theorem C73_pipeline P dec raw env e e1 e2 k : reads P -> sort_permutes P -> parse P dec raw = Ok e -> expr_normalize P e = Ok e1 -> expr_subst P env e1 = Ok e2 -> mentions k e2 -> occurs k raw /\ efind k env = None.
Proof.
  intros HR HS H N S M. assert (M1 : maps e1) by (apply (C73_maps_kept P [] e e1 HS); [exact (C73_maps P dec raw e HR HS H)|now left]). destruct (C73_substitute P env e1 e2 k HS M1 S M) as [A B]. split; [|exact B]. apply (C73_written P dec raw e k HR HS H). exact (C73_simplify P e e1 k HS N A).
Qed.
Print Assumptions C73_pipeline.

(** ** cases *)
Local Definition get (e : res expr) : expr := match e with Ok e => e | _ => Leaf (leaf_int 0) end.
Example C73_text : exists e, p "x*{rate}^2-3*y" = Ok e /\ mentions "x" e /\ mentions "rate" e /\ mentions "y" e /\ ~ mentions "r" e.
Proof.
  exists (get (p "x*{rate}^2-3*y")). split; [vm_compute; reflexivity|]. set (e := get _). vm_compute in e. subst e. unfold mentions, fmentions, pmentions, tmentions. cbn [fnum fden]. repeat split.
  - left. left. left. repeat constructor.
  - left. right. left. left. repeat constructor.
  - right. right. left. repeat constructor.
  - intros H. repeat match goal with H : _ \/ _ |- _ => destruct H as [H|H] end; inversion H as [? ? X|? ? X]; subst; cbn in X; try solve [inversion X]; repeat (destruct X as [X|X]; [discriminate|]); destruct X.
Qed.
(** substitution removes x: x*{rate}^2-3*y with x := 5 *)
Example C73_substituted : exists e e', norm (p "x*{rate}^2-3*y") = Ok e /\ expr_subst P64 [("x"%string, rint 5)] e = Ok e' /\ (show (Ok e') = Ok "-3y+5({rate}**2)"%string) /\ ~ mentions "x" e' /\ mentions "rate" e'.
Proof.
  exists (get (norm (p "x*{rate}^2-3*y"))), (get (expr_subst P64 [("x"%string, rint 5)] (get (norm (p "x*{rate}^2-3*y"))))). split; [vm_compute; reflexivity|]. assert (S : expr_subst P64 [("x"%string, rint 5)] (get (norm (p "x*{rate}^2-3*y"))) = Ok (get (expr_subst P64 [("x"%string, rint 5)] (get (norm (p "x*{rate}^2-3*y")))))) by (vm_compute; reflexivity). split; [exact S|]. split; [vm_compute; reflexivity|]. split.
  - intros M. destruct (C73_pipeline P64 dec (txt "x*{rate}^2-3*y") [("x"%string, rint 5)] (get (p "x*{rate}^2-3*y")) (get (norm (p "x*{rate}^2-3*y"))) _ "x" P64_reads P64_sort ltac:(vm_compute; reflexivity) ltac:(vm_compute; reflexivity) S M) as [_ B]. discriminate B.
  - set (e := get (expr_subst _ _ _)). vm_compute in e. subst e. cbn [mentions]. left. unfold pmentions, tmentions. cbn [fnum]. repeat (first [apply Exists_cons_hd; cbn; left; reflexivity|apply Exists_cons_tl]).
Qed.
(** the converse of C73_simplify fails: x^0+y simplifies to a number without x *)
Example C73_symbols_lost_refuted : exists e e', p "x^0+y" = Ok e /\ norm (p "x^0+y") = Ok e' /\ mentions "x" e /\ ~ mentions "x" e'.
Proof.
  exists (get (p "x^0+y")), (get (norm (p "x^0+y"))). split; [vm_compute; reflexivity|]. split; [vm_compute; reflexivity|]. split; [set (e := get _); vm_compute in e; subst e; left; left; left; repeat constructor|].
  set (e := get _). vm_compute in e. subst e. intros H. unfold mentions, fmentions, pmentions, tmentions in H. cbn [fnum fden] in H. repeat match goal with H : _ \/ _ |- _ => destruct H as [H|H] end; repeat (inversion H as [? ? X|? ? X]; subst; clear H; [cbn in X; repeat (destruct X as [X|X]; [discriminate|]); destruct X|rename X into H]); inversion H.
Qed.
(** without the order of a map, substitution leaves a second copy of a bound symbol; [maps] is needed (no such value arises, C73_maps, C73_maps_kept) *)
Example C73_repeated_refuted : exists e e', expr_subst P64 [("x"%string, rint 5)] e = Ok e' /\ ~ maps e /\ mentions "x" e'.
Proof.
  exists (Leaf (Frac [Term (rint 1) [("x"%string, Rat 1 1); ("x"%string, Rat 1 1)]] [term_const (rint 1)])). eexists. split; [vm_compute; reflexivity|]. split.
  - intros (A & _). inversion A as [|? ? B _]; subst. inversion B as [|? ? _ F]; subst. inversion F as [|? ? X _]; subst. discriminate X.
  - left. left. left. reflexivity.
Qed.
