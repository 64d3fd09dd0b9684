(** The symbols of a parsed text; values depend on the symbols that occur only. *)
From Coq Require Import ZArith QArith Reals String Ascii Lia Bool List.
From Verif Require Import Base RationalModel RationalSpec RationalProofs RealModel RealSpec PolyModel PolySpec ExprModel ExprSpec ParserModel ParserSpec ParserProofs1 ParserProofs2 ParserProofs3 TextSpec TextProofs1 TextProofs2 NamesSpec NamesProofs.
Import ListNotations.
Open Scope Z_scope.

Lemma tv_agree s s' t : (forall k, tmentions k t -> s k = s' k) -> tv s t = tv s' t.
Proof.
  unfold tmentions. destruct t as [c m]. unfold tv. cbn [syms tco]. intros H. f_equal. induction m as [|p m IH]; [reflexivity|]. unfold sv. cbn [fold_right]. fold (sv s m) (sv s' m). rewrite (H (fst p)) by now left. rewrite IH; [reflexivity|]. intros k I. apply H. now right.
Qed.
Lemma pv_agree s s' l : (forall k, pmentions k l -> s k = s' k) -> pv s l = pv s' l.
Proof.
  intros H. induction l as [|t l IH]; [reflexivity|]. unfold pv. cbn [fold_right]. fold (pv s l) (pv s' l). rewrite IH by (intros k I; apply H; now right). rewrite (tv_agree s s' t); [reflexivity|]. intros k I. apply H. now left.
Qed.
Lemma fv_agree s s' f : (forall k, fmentions k f -> s k = s' k) -> fv s f = fv s' f.
Proof. intros H. unfold fv. rewrite (pv_agree s s' (fnum f)) by (intros k I; apply H; now left). rewrite (pv_agree s s' (fden f)) by (intros k I; apply H; now right). reflexivity. Qed.
Lemma ev_agree s s' e : (forall k, mentions k e -> s k = s' k) -> ev s e = ev s' e.
Proof. induction e as [f|c l IHl r IHr]; intros H; [now apply fv_agree|]. cbn [ev]. rewrite IHl by (intros k I; apply H; now left). rewrite IHr by (intros k I; apply H; now right). reflexivity. Qed.

(** ** parsing *)
Lemma mentions_operands k e : mentions k e <-> exists f, In f (operands e) /\ fmentions k f.
Proof.
  induction e as [f|c l IHl r IHr]; cbn [mentions operands].
  - split; [intros H; exists f; split; [now left|exact H]|]. intros (g & [<-|[]] & H). exact H.
  - rewrite IHl, IHr. split.
    + intros [(f & I & H)|(f & I & H)]; exists f; (split; [apply in_or_app|exact H]); auto.
    + intros (f & I & H). apply in_app_or in I as [I|I]; [left|right]; now exists f.
Qed.
Lemma fmentions_sym k k' : fmentions k (leaf_sym k') <-> k = k'.
Proof.
  unfold fmentions, pmentions, tmentions, leaf_sym. cbn [fnum fden]. split.
  - intros [H|H]; inversion H as [? ? X|? ? X]; subst; try solve [inversion X]; cbn in X; destruct X as [X|[]]; congruence.
  - intros ->. left. constructor. now left.
Qed.
(** numbers mention no symbol *)
Definition silent (t : tok) : Prop := match t with TNum f => forall k, ~ fmentions k f | _ => True end.
Section R.
Variable P : penv.
Hypothesis HR : reads P.
Hypothesis HS : sort_permutes P.
Lemma silent_real c f : frac_of_real P c = Ok f -> forall k, ~ fmentions k f.
Proof. intros H. apply (n_ofreal _ (named_closed (fun _ => False)) P HS) in H. intros k M. exact (proj1 (nf_iff (fun _ => False) f) H k M). Qed.
Lemma silent_rat q f : frac_of_rat P q = Ok f -> forall k, ~ fmentions k f. Proof. unfold frac_of_rat. intros H. apply bind_ok in H as (c & _ & H). exact (silent_real _ _ H). Qed.
Lemma silent_int n f : frac_of_int P n = Ok f -> forall k, ~ fmentions k f. Proof. unfold frac_of_int. intros H. apply bind_ok in H as (c & _ & H). exact (silent_real _ _ H). Qed.
Lemma push_names acc t acc' : push_token P acc t = Ok acc' -> Forall silent acc -> silent t -> Forall silent acc' /\ (forall f, In (TSym f) acc' <-> TSym f = t \/ In (TSym f) acc).
Proof.
  unfold push_token. destruct acc as [|back acc]; [discriminate|]. intros H F T. inversion F as [|? ? FB FA]; subst. unfold add_token in H.
  destruct (starts_factor t && ends_factor back)%bool.
  { injection H as <-. split; [repeat constructor; assumption|]. intros f. cbn [In]. intuition congruence. }
  assert (D : forall x, x = t :: back :: acc -> Forall silent x /\ forall f, In (TSym f) x <-> TSym f = t \/ In (TSym f) (back :: acc)). { intros x ->. split; [repeat constructor; assumption|]. intros f. cbn [In]. intuition congruence. }
  destruct back; try (injection H as <-; now apply D).
  - destruct (is_sign t); [|injection H as <-; now apply D]. apply bind_ok in H as (z & Hz & H). injection H as <-. split; [repeat constructor; try assumption; cbn; now apply (silent_int 0)|]. intros f. cbn [In]. intuition congruence.
  - destruct t; try discriminate. apply bind_ok in H as (z & Hz & H). injection H as <-. split; [repeat constructor; try assumption; cbn; now apply (silent_rat q)|]. intros g. cbn [In]. intuition congruence.
  - destruct (is_sign t); [|injection H as <-; now apply D]. apply bind_ok in H as (z & Hz & H). injection H as <-. split; [repeat constructor; try assumption; cbn; now apply (silent_int 0)|]. intros f. cbn [In]. intuition congruence.
Qed.
Lemma push_all_names ts : forall acc acc', push_all P acc ts = Ok acc' -> Forall silent acc -> Forall silent ts -> Forall silent acc' /\ (forall f, In (TSym f) acc' <-> In (TSym f) ts \/ In (TSym f) acc).
Proof.
  induction ts as [|t ts IH]; intros acc acc' H F G; cbn [push_all] in H; [injection H as <-; split; [exact F|intros f; cbn; tauto]|]. inversion G as [|? ? G1 G2]; subst. apply bind_ok in H as (a & Ha & H). destruct (push_names _ _ _ Ha F G1) as [A B]. destruct (IH _ _ H A G2) as [C D]. split; [exact C|]. intros f. rewrite D, B. cbn [In]. intuition congruence.
Qed.
Lemma push_last acc t acc' : push_token P acc t = Ok acc' -> (exists y, acc = y ++ [TBegin]) -> exists y, acc' = y ++ [TBegin].
Proof.
  intros H (y & ->). unfold push_token in H. destruct (y ++ [TBegin]) as [|back acc] eqn:E; [discriminate|]. unfold add_token in H. destruct (starts_factor t && ends_factor back)%bool; [injection H as <-; rewrite <- E; exists (t :: TOp "*" :: y); reflexivity|].
  assert (D : exists z, t :: back :: acc = z ++ [TBegin]) by (rewrite <- E; exists (t :: y); reflexivity).
  destruct back; try (injection H as <-; exact D).
  - destruct (is_sign t); [|injection H as <-; exact D]. apply bind_ok in H as (z & _ & H). injection H as <-. rewrite <- E. exists (t :: TNum z :: y). reflexivity.
  - destruct t; try discriminate. apply bind_ok in H as (z & _ & H). injection H as <-. destruct y as [|y0 y]; [discriminate|]. injection E as -> <-. eexists. rewrite !app_comm_cons. reflexivity.
  - destruct (is_sign t); [|injection H as <-; exact D]. apply bind_ok in H as (z & _ & H). injection H as <-. rewrite <- E. exists (t :: TNum z :: y). reflexivity.
Qed.
Lemma push_all_last ts : forall acc acc', push_all P acc ts = Ok acc' -> (exists y, acc = y ++ [TBegin]) -> exists y, acc' = y ++ [TBegin].
Proof. induction ts as [|t ts IH]; intros acc acc' H B; cbn [push_all] in H; [now injection H as <-|]. apply bind_ok in H as (a & Ha & H). apply push_last in Ha; [|exact B]. now apply IH in H. Qed.
Lemma lexes_silent dec s ts : lexes P dec s ts -> Forall silent ts.
Proof. induction 1 as [|sp l t rest ts _ L _ IH]; constructor; [|exact IH]. destruct L; cbn [silent]; try exact I. now apply (silent_rat q). Qed.
Lemma lexes_proper dec s ts : lexes P dec s ts -> Forall proper_op ts.
Proof. induction 1 as [|sp l t rest ts _ L _ IH]; constructor; [|exact IH]. destruct L; cbn [proper_op]; try exact I; [reflexivity|assumption]. Qed.
Lemma push_end acc acc' : push_token P acc TEnd = Ok acc' -> acc' = TEnd :: acc.
Proof. unfold push_token. destruct acc as [|back acc]; [discriminate|]. unfold add_token. cbn [starts_factor andb is_sign]. intros H. destruct back; try discriminate; now injection H as <-. Qed.
Lemma parse_parts dec raw e : parse P dec raw = Ok e -> exists ts, lexes P dec raw ts /\
  (forall f, In f (operands e) -> (forall k, ~ fmentions k f) \/ exists k, f = leaf_sym k /\ In (TSym f) ts) /\ (forall f, In (TSym f) ts -> In f (operands e)).
Proof.
  intros H. apply parse_iff in H as (ts & L & H). exists ts. split; [exact L|]. unfold parse_lexemes in H. apply bind_ok in H as (acc & A & H). pose proof A as A0. rewrite push_all_app in A. apply bind_ok in A as (a & A & B). cbn [push_all] in B. apply bind_ok in B as (b & B & C). injection C as <-. apply push_end in B. subst b.
  destruct (push_all_names ts [TBegin] a A ltac:(repeat constructor) (lexes_silent _ _ _ L)) as [S N]. destruct (push_all_last ts [TBegin] a A ltac:(now exists [])) as (y & ->). cbn [rev] in H. rewrite rev_app_distr in H. cbn [rev app tl] in H. rewrite removelast_last in H.
  assert (PR : Forall proper_op (rev y)).
  { assert (G : exists l, get_all_tokens P dec raw = Ok l /\ rev l = TEnd :: y ++ [TBegin]) by (exists (rev (TEnd :: y ++ [TBegin])); rewrite rev_involutive; split; [|reflexivity]; apply all_tokens_iff; exists ts; split; [exact L|now rewrite rev_involutive]).
    destruct G as (l & G & R). apply tokens_proper in G. apply Forall_rev in G. rewrite R in G. inversion G as [|? ? _ G']; subst. apply Forall_app in G' as [G' _]. now apply Forall_rev. }
  destruct (parse_structure (rev y) e PR H) as [O _]. rewrite O. split.
  - intros f I. apply in_flat_map in I as (t & It & If). rewrite <- in_rev in It. assert (Ia : In t (y ++ [TBegin])) by (apply in_or_app; now left). destruct t; cbn [tok_operand] in If; try contradiction; destruct If as [<-|[]].
    + rewrite Forall_forall in S. left. exact (S _ Ia).
    + right. apply N in Ia as [Ia|[Ia|[]]]; [|discriminate]. assert (E : exists k', f0 = leaf_sym k'). { clear - L Ia HR. induction L as [|sp l t rest ts _ L _ IH]; [destruct Ia|]. destruct Ia as [->|Ia]; [|auto]. inversion L; subst; match goal with X : frac_of_sym _ _ = _ |- _ => rewrite (read_sym P HR) in X; injection X as X; subst f0; eexists; reflexivity end. } destruct E as (k & ->). now exists k.
  - intros f I. apply in_flat_map. exists (TSym f). split; [|now left]. rewrite <- in_rev. assert (J : In (TSym f) (y ++ [TBegin])) by (apply N; now left). apply in_app_or in J as [J|[J|[]]]; [exact J|discriminate].
Qed.
Theorem parse_names dec raw e k : parse P dec raw = Ok e -> (mentions k e <-> exists ts, lexes P dec raw ts /\ In (TSym (leaf_sym k)) ts).
Proof.
  intros H. apply parse_parts in H as (ts & L & A & B). rewrite mentions_operands. split.
  - intros (f & I & M). exists ts. split; [exact L|]. destruct (A f I) as [S|(k' & -> & J)]; [now apply S in M|]. apply fmentions_sym in M. now subst k'.
  - intros (ts' & L' & I). assert (ts' = ts) as -> by now apply (lexes_unique P dec raw ts' L' ts). exists (leaf_sym k). split; [now apply B|now apply fmentions_sym].
Qed.
Lemma silent_maps f : (forall k, ~ fmentions k f) -> fmaps f.
Proof.
  intros H. assert (Q : forall l, (forall k, ~ pmentions k l) -> Forall (fun t => ascending (syms t)) l).
  { clear. intros l H. apply Forall_forall. intros t I. destruct (syms t) as [|[k q] m] eqn:E; [constructor|]. exfalso. apply (H k). apply Exists_exists. exists t. split; [exact I|]. unfold tmentions. rewrite E. now left. }
  split; apply Q; intros k M; apply (H k); [now left|now right].
Qed.
Lemma sym_maps k : fmaps (leaf_sym k). Proof. split; repeat constructor. Qed.
Lemma maps_operands e : maps e <-> Forall fmaps (operands e).
Proof. induction e as [f|c l IHl r IHr]; cbn [maps operands]; [split; [intros H; constructor; [exact H|constructor]|now inversion 1]|]. now rewrite Forall_app, IHl, IHr. Qed.
Lemma lexes_occurs dec s ts : lexes P dec s ts -> forall k, In (TSym (leaf_sym k)) ts -> occurs k s.
Proof.
  induction 1 as [|sp l t rest ts _ L _ IH]; intros k I; [destruct I|]. destruct I as [->|I].
  - inversion L as [| | | | | | | |c f n A B| |]; subst.
    + rewrite (read_sym P HR) in B. injection B as B. subst k. left. exists c. split; [reflexivity|]. split; [exact A|]. apply in_or_app. right. now left.
    + match goal with X : frac_of_sym _ _ = _ |- _ => rewrite (read_sym P HR) in X; injection X as X; subst k end. right. exists sp, ("}"%char :: rest). split; [|now right]. unfold txt. rewrite list_ascii_of_string_of_list_ascii. cbn. f_equal. f_equal. rewrite <- !app_assoc. reflexivity.
    + match goal with X : frac_of_sym _ _ = _ |- _ => rewrite (read_sym P HR) in X; injection X as X; subst k end. destruct rest; [|discriminate]. right. exists sp, []. split; [|now left]. unfold txt. rewrite list_ascii_of_string_of_list_ascii. cbn. reflexivity.
  - destruct (IH k I) as [(c & E & A & J)|(a & b & -> & J)]; [left; exists c; split; [exact E|]; split; [exact A|]; apply in_or_app; right; apply in_or_app; now right|]. right. exists (sp ++ l ++ a), b. split; [|exact J]. now rewrite <- !app_assoc.
Qed.
Theorem parse_maps dec raw e : parse P dec raw = Ok e -> maps e.
Proof. intros H. apply parse_parts in H as (ts & _ & A & _). apply maps_operands, Forall_forall. intros f I. destruct (A f I) as [S|(k & -> & _)]; [now apply silent_maps|apply sym_maps]. Qed.
End R.

(** ** substitution keeps the order *)
Lemma erase_forall (X : string * rat -> Prop) k m : Forall X m -> Forall X (serase k m).
Proof. induction 1 as [|[a q] m A F IH]; cbn [serase]; [constructor|]. destruct (String.eqb k a); [exact F|now constructor]. Qed.
Lemma erase_ascending k m : ascending m -> ascending (serase k m).
Proof. unfold ascending. induction 1 as [|[a q] m S IH F]; cbn [serase]; [constructor|]. destruct (String.eqb k a); [exact S|]. constructor; [exact IH|now apply erase_forall]. Qed.
Lemma erase_all_ascending (e : envmap) : forall m, ascending m -> ascending (fold_left (fun m p => serase (fst p) m) e m).
Proof. induction e as [|p e IH]; intros m S; cbn [fold_left]; [exact S|]. now apply IH, erase_ascending. Qed.
Lemma psubst_maps E e l : forall r, poly_subst E e l = Ok r -> Forall (fun t => ascending (syms t)) l -> Forall (fun t => ascending (syms t)) r.
Proof. unfold poly_subst. intros r H F. refine (n_mapr _ _ _ l _ r H F). intros a b K A. unfold term_subst in K. apply bind_ok in K as (c & _ & K). injection K as <-. now apply erase_all_ascending. Qed.
Lemma fsubst_maps P e f r : sort_permutes P -> frac_subst P e f = Ok r -> fmaps f -> fmaps r.
Proof.
  intros HS H (A & B). unfold frac_subst in H. apply bind_ok in H as (n & Hn & H). apply bind_ok in H as (d & Hd & H). apply bind_ok in H as (g & Hg & H). apply bind_ok in H as (z & _ & H). destruct z; [discriminate|]. injection H as <-. apply (n_fnorm ascending ascending_closed P HS _ _ Hg). split; [exact (psubst_maps _ _ _ _ Hn A)|exact (psubst_maps _ _ _ _ Hd B)].
Qed.
Lemma esubst_maps P e t : sort_permutes P -> forall r, expr_subst P e t = Ok r -> maps t -> maps r.
Proof.
  intros HS. induction t as [f|c l IHl x IHr]; intros r H D; cbn [expr_subst] in H.
  - apply bind_ok in H as (g & Hg & H). injection H as <-. exact (fsubst_maps P e f g HS Hg D).
  - destruct D as (Dl & Dr). apply bind_ok in H as (l' & Hl & H). apply bind_ok in H as (r' & Hr & H). apply maps_ne. refine (n_normalize _ ascending_closed P HS _ _ H _). apply maps_ne. split; [now apply IHl|now apply IHr].
Qed.
