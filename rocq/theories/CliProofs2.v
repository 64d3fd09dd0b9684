(** Proofs: exceptions and members. *)
From Coq Require Import ZArith String Ascii Lia Bool List Sorted.
From Verif Require Import Base AdapterModel RationalModel RealModel PolyModel ExprModel ParserModel CliModel ErrSpec ErrProofs1 ErrProofs2 ErrProofs3 CliSpec CliProofs1.
Import ListNotations.
Open Scope Z_scope.

Lemma rout_weak {C} (X Y : string -> Prop) (r : result C) : (forall m, X m -> Y m) -> rout X r -> rout Y r.
Proof. unfold rout. destruct (fin r); auto. Qed.
Lemma o_expr_ld F v e : outcome err any (expr_ld F v e).
Proof.
  induction e as [f|c l IHl r IHr]; cbn [expr_ld]; [exact I|]. eapply o_bind; [exact IHl|intros a _]. eapply o_bind; [exact IHr|intros b _].
  destruct a, b; try exact I. destruct (Ascii.eqb c "+"); [exact I|]. destruct (Ascii.eqb c "-"); [exact I|]. destruct (Ascii.eqb c "*"); [exact I|]. destruct (Ascii.eqb c "/"); [exact I|].
  destruct (Ascii.eqb c "^"); [exact I|reflexivity].
Qed.

Section Calm.
Context (C : cenv) (K : calm_program C).
Local Notation P := (cp C).
Let KP : calm P := proj1 K.
Let KF : fac_calm (pe P) := calm_fac P KP.

Lemma o_parse_normal t : outcome err sane_expr (parse_normal C t).
Proof. unfold parse_normal. eapply o_bind; [apply o_parse, KP|]. intros e S. now apply o_expr_normalize. Qed.
Lemma o_shows_integer e : sane_expr e -> outcome err any (shows_integer C e).
Proof.
  intros S. unfold shows_integer. eapply o_bind; [apply o_expr_try_eval; [exact KP|exact S]|]. intros [f|] Sf; [|exact I]. cbn [sane_opt] in Sf. destruct (frac_no_symbols f); [|exact I].
  eapply o_bind; [apply o_frac_is_rational|]. intros [] _; [|exact I]. eapply o_bind; [apply o_frac_to_rational, Sf|]. intros; exact I.
Qed.
Lemma r_print_result e (s : cstate C) : sane_expr e -> rout err (print_result C e s).
Proof.
  intros S. unfold print_result. eapply r_run with (Q := fun nt => sane_expr (fst nt)).
  - eapply o_bind; [apply o_expr_normalize; [exact KP|exact S]|]. intros n Sn. eapply o_bind; [apply o_expr_to_string; [exact KF|exact Sn]|]. intros; exact Sn.
  - intros [n t] Sn. apply r_follow; [apply r_say|]. eapply r_run; [apply o_shows_integer, Sn|]. intros [] _; [apply r_say|]. eapply r_run; [apply o_expr_ld|]. intros [x|] _; apply r_say.
Qed.
Lemma r_normalize b (s : cstate C) : rout err (cmd_normalize C b s).
Proof. eapply r_run; [apply o_parse_normal|]. intros; now apply r_print_result. Qed.
Lemma r_tex b (s : cstate C) : rout err (cmd_tex C b s).
Proof.
  eapply r_run with (Q := any); [|intros; apply r_say]. eapply o_bind; [apply o_parse, KP|]. intros e S. apply o_expr_to_tex; [exact KF|exact S].
Qed.
Lemma r_ntex b (s : cstate C) : rout err (cmd_ntex C b s).
Proof.
  eapply r_run with (Q := any); [|intros; apply r_say]. eapply o_bind; [apply o_parse_normal|]. intros e S. apply o_expr_to_tex; [exact KF|exact S].
Qed.
Lemma r_factor b (s : cstate C) : rout err (cmd_factor C b s).
Proof.
  eapply r_run with (Q := any); [|intros; apply r_say]. eapply o_bind; [apply o_parse_normal|]. intros e S.
  eapply o_bind; [apply o_expr_try_eval; [exact KP|exact S]|]. intros v Sv. eapply o_bind with (Q := sane_frac); [destruct v; [exact Sv|reflexivity]|]. intros f Sf.
  eapply o_bind; [apply o_frac_try_eval; [exact KP|exact Sf]|]. intros c Sc. eapply o_bind with (Q := sane_real); [destruct c; [exact Sc|reflexivity]|]. intros x Sx.
  eapply o_bind with (Q := any).
  - unfold real_to_int. eapply o_bind; [apply o_to_t|intros q _]. eapply o_bind; [apply o_no_exception, (proj2 K)|intros r _]. eapply o_any, o_chk.
  - intros n _. apply o_no_exception, KF.
Qed.
Lemma o_split_args t : forall temp, outcome err any (split_args t temp).
Proof.
  induction t as [|c t IH]; intros temp; cbn [split_args]; [exact I|]. destruct (is_space c); [apply IH|]. destruct (Ascii.eqb c ","); [|apply IH].
  destruct temp; [reflexivity|]. eapply o_bind; [apply IH|]. intros; exact I.
Qed.
Lemma o_read_func b : outcome err (fun nd => sane_expr (snd (snd nd))) (read_func C b).
Proof.
  unfold read_func. destruct (find_char "(" b) as [[n r]|]; [|reflexivity]. destruct (find_char ")" r) as [[a r2]|]; [|reflexivity].
  eapply o_bind; [apply o_split_args|intros args _]. destruct (drop_spaces r2) as [|c def]; [reflexivity|]. destruct (Ascii.eqb c "="); [|reflexivity].
  eapply o_bind; [apply o_parse_normal|]. intros e S. exact S.
Qed.
Lemma r_print_func n (s : cstate C) : sane_members s -> (exists v, mget n (funcs s) = Some v) -> rout (fun _ => False) (print_func C n s).
Proof.
  intros (S & _ & _) [[a e] E]. unfold print_func. rewrite E. apply mget_in in E. rewrite Forall_forall in S. specialize (S _ E). cbn [snd] in S.
  pose proof (o_expr_to_string (fun _ => False) _ e KF S) as O. destruct (expr_to_string (pe P) e); [exact I|exact O|exact I|exact I].
Qed.
Lemma r_print_constant n (s : cstate C) : (exists v, mget n (consts s) = Some v) -> rout (fun _ => False) (print_constant C n s).
Proof. intros [x E]. unfold print_constant. rewrite E. exact I. Qed.
(** cmd_func *)
Lemma store_sane n d (s s' : cstate C) : sane_members s -> sane_expr (snd d) -> store_func n d s = Ok s' -> sane_members s' /\ consts s' = consts s /\ funcs s' = mput n d (funcs s).
Proof.
  intros (S & O1 & O2) Sd. unfold store_func.
  assert (G : sane_members (CState (mput n d (funcs s)) (consts s))).
  { split; [apply mput_forall; [exact S|exact Sd]|]. split; [now apply mput_ordered|exact O2]. }
  destruct (mget n (funcs s)) as [[a old]|]; [destruct (is_op old && is_op (snd d))%bool; [discriminate|]|]; intros E; injection E as <-; (split; [exact G|split; reflexivity]).
Qed.
Lemma r_func b (s : cstate C) : sane_members s -> rout err (cmd_func C b s).
Proof.
  intros S. eapply r_run; [apply o_read_func|]. intros [n d] Sd. cbn [fst snd] in *. destruct (store_func n d s) as [s'|m|u|] eqn:E; cbn [run].
  - apply (rout_weak (fun _ => False) err); [intros ? []|]. apply r_print_func.
    + now apply (store_sane n d s s').
    + destruct (store_sane n d s s' S Sd E) as (_ & _ & ->). exists d. rewrite mget_mput, String.eqb_refl. reflexivity.
  - unfold store_func in E. destruct (mget n (funcs s)) as [[a old]|]; [destruct (is_op old && is_op (snd d))%bool|]; discriminate.
  - exact I.
  - exact I.
Qed.
(** the two commands that change the members: the new members, if the command ends normally *)
Lemma p_func b (s : cstate C) : sane_members s ->
  match fin (cmd_func C b s) with
  | Ok _ => exists nd, read_func C b = Ok nd /\ funcs (post (cmd_func C b s)) = mput (fst nd) (snd nd) (funcs s) /\ consts (post (cmd_func C b s)) = consts s /\ sane_members (post (cmd_func C b s))
  | Throw _ => post (cmd_func C b s) = s /\ exists m, read_func C b = Throw m
  | _ => sane_members (post (cmd_func C b s))
  end.
Proof.
  intros S. unfold cmd_func. pose proof (o_read_func b) as O. destruct (read_func C b) as [[n d]|m|u|] eqn:R; cbn [run outcome fst snd] in *;
    [|cbn [fin stop post bind]; eauto|cbn [fin stop post bind]; exact S|cbn [fin stop post bind]; exact S].
  destruct (store_func n d s) as [s'|m|u|] eqn:E; cbn [run].
  - destruct (store_sane n d s s' S O E) as (S' & E1 & E2). pose proof (k_print_func C n s') as KP'. unfold keeps in KP'.
    assert (X : exists v, mget n (funcs s') = Some v) by (exists d; rewrite E2, mget_mput, String.eqb_refl; reflexivity).
    pose proof (r_print_func n s' S' X) as R'. unfold rout in R'. destruct (fin (print_func C n s')) eqn:F; rewrite ?KP'; try exact S'; [|contradiction].
    exists (n, d). auto.
  - exfalso. unfold store_func in E. destruct (mget n (funcs s)) as [[a old]|]; [destruct (is_op old && is_op (snd d))%bool|]; discriminate.
  - exact S.
  - exact S.
Qed.
Lemma p_constant b (s : cstate C) : sane_members s ->
  match fin (cmd_constant C b s) with
  | Ok _ => exists kx, read_constant C b = Ok kx /\ consts (post (cmd_constant C b s)) = mput (fst kx) (snd kx) (consts s) /\ funcs (post (cmd_constant C b s)) = funcs s /\ sane_members (post (cmd_constant C b s))
  | Throw m => post (cmd_constant C b s) = s /\ read_constant C b = Throw m
  | _ => sane_members (post (cmd_constant C b s))
  end.
Proof.
  intros (S & O1 & O2). unfold cmd_constant. destruct (read_constant C b) as [[k x]|m|u|] eqn:R; cbn [run fst snd];
    [|cbn [fin stop post bind]; split; reflexivity|cbn [fin stop post bind]; repeat split; assumption|cbn [fin stop post bind]; repeat split; assumption].
  unfold print_constant. cbn [consts]. rewrite mget_mput, String.eqb_refl. cbn [fin say post consts funcs]. exists (k, x). repeat split; try assumption. now apply mput_ordered.
Qed.
Lemma r_print b (s : cstate C) : sane_members s -> rout (fun _ => False) (cmd_print C b s).
Proof.
  intros S. unfold cmd_print.
  assert (EF : forall l, (forall n, In n l -> exists v, mget n (funcs s) = Some v) -> rout (fun _ => False) (for_each (print_func C) l s)).
  { induction l as [|n l IH]; intros H; cbn [for_each]; [exact I|]. apply r_follow; [apply r_print_func; [exact S|apply H; now left]|]. rewrite k_print_func. apply IH. intros; apply H; now right. }
  assert (EC : forall l, (forall n, In n l -> exists v, mget n (consts s) = Some v) -> rout (fun _ => False) (for_each (print_constant C) l s)).
  { induction l as [|n l IH]; intros H; cbn [for_each]; [exact I|]. apply r_follow; [apply r_print_constant; apply H; now left|]. rewrite k_print_constant. apply IH. intros; apply H; now right. }
  destruct b as [|c b].
  - apply r_follow; [apply EF; intros; now apply mget_key|]. rewrite (k_each s); [|intros; apply k_print_func]. apply EC. intros; now apply mget_key.
  - set (n := string_of_list_ascii (c :: b)). unfold has. apply r_follow.
    + destruct (mget n (funcs s)) eqn:E; [apply r_print_func; eauto|exact I].
    + replace (post (if match mget n (funcs s) with Some _ => true | None => false end then print_func C n s else say [] s)) with s;
        [|destruct (mget n (funcs s)); [symmetry; apply k_print_func|reflexivity]].
      destruct (mget n (consts s)) eqn:E; [apply r_print_constant; eauto|exact I].
Qed.
Lemma o_read_args t : forall temp, outcome err (Forall sane_real) (read_args C t temp).
Proof.
  induction t as [|c t IH]; intros temp; cbn [read_args].
  - destruct temp; [constructor|]. eapply o_bind; [apply o_rat_of_string|intros q Q]. eapply o_bind; [apply o_real_of_rat; [exact KF|exact Q]|]. intros x X. constructor; [exact X|constructor].
  - destruct (is_space c); [apply IH|]. destruct (Ascii.eqb c ","); [|apply IH]. destruct temp; [reflexivity|].
    eapply o_bind; [apply o_rat_of_string|intros q Q]. eapply o_bind; [apply o_real_of_rat; [exact KF|exact Q]|]. intros x X. eapply o_bind; [apply IH|]. intros r R. constructor; assumption.
Qed.
Lemma args_sane l a m : Forall sane_real a -> sane_env m -> sane_env (fold_left (fun m kv => mput (fst kv) (snd kv) m) (combine l a) m).
Proof.
  intros A. revert l m. induction A as [|x a X A IH]; intros [|k l] m M; cbn [combine fold_left]; try exact M. apply IH. apply mput_forall; [exact M|exact X].
Qed.
Lemma r_call n a (s : cstate C) : sane_members s -> (exists v, mget n (funcs s) = Some v) -> rout err (cmd_call C n a s).
Proof.
  intros (S & _) [[p e] E]. unfold cmd_call. eapply r_run; [apply o_read_args|]. intros args A. rewrite E.
  destruct (Nat.eqb _ _); [|reflexivity]. apply mget_in in E. rewrite Forall_forall in S. specialize (S _ E). cbn [snd] in S.
  eapply r_run; [apply o_expr_subst; [exact KP|apply args_sane; [exact A|constructor]|exact S]|]. intros; now apply r_print_result.
Qed.
Lemma r_evaluate line cmd (s : cstate C) : sane_members s -> rout err (evaluate C line cmd s).
Proof.
  intros S. unfold evaluate. destruct (find_char "(" cmd) as [[n r]|]; [|apply r_normalize]. destruct (find_char ")" r) as [[a r2]|]; [|apply r_normalize].
  unfold has. destruct (mget _ (funcs s)) eqn:E; [apply r_call; eauto|apply r_normalize].
Qed.

(** ** one round *)
(** everything but func and constant keeps the members and throws Errors only *)
Lemma round_steady line (s : cstate C) : sane_members s -> (forall body, ~ reads line (txt "func") body) -> (forall body, ~ reads line (txt "constant") body) ->
  members (round C line s) = s /\ forall m, then_ (round C line s) <> Escape m.
Proof.
  intros S NF NC.
  assert (G : forall r : result C, rout err r -> forall m, ends (fin r) <> Escape m).
  { intros r. unfold rout, ends. destruct (fin r); try discriminate. intros H m. unfold err in H. rewrite H. discriminate. }
  destruct (round_cases C line s) as [(b & R)|[(n & f & b & R & I)|[(n & f & b & R & I)|(cmd & b & R & O)]]].
  - rewrite (does_quit C line b s R). split; [reflexivity|discriminate].
  - pose proof (does_word C line n b s f R I) as W. unfold does in W. rewrite W. cbn [members then_].
    destruct I as [I|[I|[I|[I|[I|[I|[]]]]]]]; injection I as <- <-; try (exfalso; (eapply NF; exact R) || (eapply NC; exact R)).
    + split; [apply k_ntex|apply G, r_ntex].
    + split; [apply k_print|apply G]. apply (rout_weak (fun _ => False) err); [intros ? []|]. apply r_print, S.
    + split; [apply k_factor|apply G, r_factor].
    + split; [reflexivity|discriminate].
  - pose proof (does_twice C line n b s f R I) as W. unfold does_both in W. rewrite W. clear W. pose proof (r_normalize line s) as R2. pose proof (k_normalize C line s) as K2. unfold keeps in K2.
    assert (R1 : rout err (f b s)) by (destruct I as [I|[I|[]]]; injection I as <- <-; [apply r_normalize|apply r_tex]).
    assert (K1 : keeps s (f b s)) by (destruct I as [I|[I|[]]]; injection I as <- <-; [apply k_normalize|apply k_tex]).
    pose proof (G _ R1) as G1. pose proof (G _ R2) as G2.
    destruct (fin (f b s)) eqn:F; cbn [members then_]; (split; [assumption|]); first [exact G2|exact G1|discriminate].
  - pose proof (round_does C line s _ (dispatch_other C line cmd b s R O)) as W. unfold does in W. rewrite W. cbn [members then_]. split; [apply k_evaluate|apply G, r_evaluate, S].
Qed.
Lemma round_func line body (s : cstate C) : sane_members s -> reads line (txt "func") body -> does line s (cmd_func C body s).
Proof. intros S R. exact (does_word C line "func" body s (cmd_func C) R (or_intror (or_introl eq_refl))). Qed.
Lemma round_constant line body (s : cstate C) : sane_members s -> reads line (txt "constant") body -> does line s (cmd_constant C body s).
Proof. intros S R. exact (does_word C line "constant" body s (cmd_constant C) R (or_intror (or_intror (or_introl eq_refl)))). Qed.
Lemma reads_unique line w b w' b' : reads line w b -> reads line w' b' -> w = w' /\ b = b'.
Proof. intros R R'. apply reads_split in R, R'. rewrite R in R'. injection R' as -> ->. auto. Qed.
Lemma reads_dec line n : (exists body, reads line (txt n) body) \/ (forall body, ~ reads line (txt n) body).
Proof.
  pose proof (split_reads line) as R. destruct (list_eq_dec Ascii.ascii_dec (fst (split_line line)) (txt n)) as [E|N].
  - left. exists (snd (split_line line)). now rewrite <- E.
  - right. intros b R'. apply N. now destruct (reads_unique _ _ _ _ _ R R').
Qed.
End Calm.
