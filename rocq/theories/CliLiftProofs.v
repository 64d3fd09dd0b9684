(** The command line does the same with double arithmetic as with exact arithmetic, wherever the exact model says what happens. *)
From Coq Require Import ZArith QArith String Ascii Lia Bool List.
From Verif Require Import Base AdapterModel RationalModel RealModel PolyModel ExprModel ParserModel CliModel DecModel NumModel DblModel DblSpec DblProofs1 LiftModel PolySpec LiftSpec LiftProofs CliLiftModel CliLiftSpec.
Import ListNotations.
Open Scope Z_scope.

Definition ragrees {C} (r r' : result C) : Prop := match fin r with Ok _ | Throw _ => r' = r | _ => True end.
Lemma ragrees_refl {C} (r : result C) : ragrees r r. Proof. unfold ragrees. now destruct (fin r). Qed.
Lemma run_agrees {C A} (r r' : res A) (s : cstate C) k k' : agrees r r' -> (forall x, r = Ok x -> ragrees (k x) (k' x)) -> ragrees (run r s k) (run r' s k').
Proof.
  intros H K. destruct r as [x|m|m|]; cbn [agrees] in H; cbn [run]; [subst r'; now apply K|subst r'; apply ragrees_refl|exact I|exact I].
Qed.
Lemma follow_agrees {C} (r r' : result C) k k' : ragrees r r' -> (forall s, ragrees (k s) (k' s)) -> ragrees (follow r k) (follow r' k').
Proof.
  intros H K. unfold follow. unfold ragrees in H. destruct (fin r) as [u|m|m|] eqn:E.
  - subst r'. rewrite E. specialize (K (post r)). unfold ragrees in *. cbn [fin]. destruct (fin (k (post r))) eqn:F; trivial; rewrite K, F; reflexivity.
  - subst r'. rewrite E. apply ragrees_refl.
  - unfold ragrees. rewrite E. exact I.
  - unfold ragrees. rewrite E. exact I.
Qed.

Section CliLift.
Context (M : dpenv) (C : cenv) (sort : poly -> res poly) (HC : cp C = PEnv (de (dpe M)) sort) (G : good_double (dpe M)) (HS : forall l, agrees (sort l) (dsort M l)).
Notation X := (dpe M).
Notation E := (de (dpe M)).
Notation P := (PEnv (de (dpe M)) sort).
Let l_parse dec raw : agrees (parse P dec raw) (parse_d M dec raw) := parse_lift M G sort HS dec raw.
Let l_norm e : agrees (expr_normalize P e) (expr_normalize_d M e) := expr_normalize_lift M G sort HS e.
Let l_str e : agrees (expr_to_string E e) (expr_to_string_d X e) := expr_to_string_lift M G e.
Let l_tex e : agrees (expr_to_tex E e) (expr_to_tex_d X e) := expr_to_tex_lift M G e.
Let l_try e : agrees (expr_try_eval P e) (expr_try_eval_d M e) := expr_try_eval_lift M G sort HS e.
Let l_ftry f : agrees (frac_try_eval P f) (frac_try_eval_d M f) := frac_try_eval_lift M G _ f.
Let l_sub v e : agrees (expr_subst P v e) (expr_subst_d M v e) := expr_subst_lift M G sort HS e v.
Let l_rat q : agrees (real_of_rat E q) (real_of_rat_d X q) := of_rat_agrees M G q.
Local Hint Resolve l_parse l_norm l_str l_tex l_try l_ftry l_sub l_rat : lift.
Lemma print_func_lift name s : ragrees (print_func C name s) (print_func_d M C name s).
Proof.
  unfold print_func, print_func_d. rewrite HC. cbn [pe]. destruct (mget name (funcs s)) as [[args e]|]; [|apply ragrees_refl].
  pose proof (expr_to_string_lift M G e) as H. destruct (expr_to_string (de (dpe M)) e) as [t|m|m|]; cbn [agrees] in H; [rewrite H; apply ragrees_refl|rewrite H; apply ragrees_refl|exact I|exact I].
Qed.
Lemma shows_integer_lift e : agrees (shows_integer C e) (shows_integer_d M C e).
Proof. unfold shows_integer, shows_integer_d. rewrite HC. lift. Qed.
Local Hint Resolve shows_integer_lift : lift.
Lemma parse_normal_lift t : agrees (parse_normal C t) (parse_normal_d M C t).
Proof. unfold parse_normal, parse_normal_d. rewrite HC. lift. Qed.
Local Hint Resolve parse_normal_lift : lift.
Lemma print_result_lift e s : ragrees (print_result C e s) (print_result_d M C e s).
Proof.
  unfold print_result, print_result_d. rewrite HC. apply run_agrees; [lift|intros nt _]. apply follow_agrees; [apply ragrees_refl|intros s']. apply run_agrees; [lift|intros i _]. apply ragrees_refl.
Qed.
Lemma cmd_normalize_lift b s : ragrees (cmd_normalize C b s) (cmd_normalize_d M C b s).
Proof. apply run_agrees; [lift|intros e _; apply print_result_lift]. Qed.
Lemma cmd_tex_lift b s : ragrees (cmd_tex C b s) (cmd_tex_d M C b s).
Proof. unfold cmd_tex, cmd_tex_d. rewrite HC. apply run_agrees; [lift|intros e _; apply ragrees_refl]. Qed.
Lemma cmd_ntex_lift b s : ragrees (cmd_ntex C b s) (cmd_ntex_d M C b s).
Proof. unfold cmd_ntex, cmd_ntex_d. rewrite HC. apply run_agrees; [lift|intros e _; apply ragrees_refl]. Qed.
Lemma cmd_factor_lift b s : ragrees (cmd_factor C b s) (cmd_factor_d M C b s).
Proof. unfold cmd_factor, cmd_factor_d, real_to_int, real_to_int_d. rewrite HC. apply run_agrees; [lift|intros e _; apply ragrees_refl]. Qed.
Lemma read_func_lift b : agrees (read_func C b) (read_func_d M C b).
Proof. unfold read_func, read_func_d. lift. Qed.
Lemma cmd_func_lift b s : ragrees (cmd_func C b s) (cmd_func_d M C b s).
Proof. apply run_agrees; [apply read_func_lift|intros nd _]. apply run_agrees; [apply agrees_refl|intros s' _; apply print_func_lift]. Qed.
Lemma for_each_lift f f' l : (forall k s, ragrees (C := C) (f k s) (f' k s)) -> forall s, ragrees (for_each f l s) (for_each f' l s).
Proof. intros H. induction l as [|k l IH]; intros s; cbn [for_each]; [apply ragrees_refl|]. now apply follow_agrees. Qed.
Lemma cmd_print_lift b s : ragrees (cmd_print C b s) (cmd_print_d M C b s).
Proof.
  unfold cmd_print, cmd_print_d. destruct b as [|c b].
  - apply follow_agrees; [apply for_each_lift; intros; apply print_func_lift|intros; apply ragrees_refl].
  - cbv zeta. apply follow_agrees; [|intros; apply ragrees_refl]. destruct (has _ _); [apply print_func_lift|apply ragrees_refl].
Qed.
Lemma read_args_lift t : forall temp, agrees (read_args C t temp) (read_args_d M C t temp).
Proof. induction t as [|c t IH]; intros temp; cbn [read_args read_args_d]; rewrite HC; lift. Qed.
Lemma cmd_call_lift name a s : ragrees (cmd_call C name a s) (cmd_call_d M C name a s).
Proof.
  unfold cmd_call, cmd_call_d. apply run_agrees; [apply read_args_lift|intros args _]. destruct (mget name (funcs s)) as [[fargs e]|]; [|apply ragrees_refl].
  destruct (Nat.eqb _ _); [|apply ragrees_refl]. cbv zeta. rewrite HC. apply run_agrees; [lift|intros e' _; apply print_result_lift].
Qed.
Lemma evaluate_lift line cmd s : ragrees (evaluate C line cmd s) (evaluate_d M C line cmd s).
Proof.
  unfold evaluate, evaluate_d. destruct (find_char "(" cmd) as [[name rest]|]; [|apply cmd_normalize_lift]. destruct (find_char ")" rest) as [[a r]|]; [|apply cmd_normalize_lift].
  destruct (has _ _); [apply cmd_call_lift|apply cmd_normalize_lift].
Qed.
Lemma dispatch_lift line s : match dispatch C line s with None => dispatch_d M C line s = None | Some r => exists r', dispatch_d M C line s = Some r' /\ ragrees r r' end.
Proof.
  unfold dispatch, dispatch_d. destruct (split_line line) as [cmd body]. cbv zeta.
  set (a := follow (if is_cmd cmd "normalize" then cmd_normalize C body s else say [] s) (fun s => if is_cmd cmd "tex" then cmd_tex C body s else say [] s)).
  set (b := follow (if is_cmd cmd "normalize" then cmd_normalize_d M C body s else say [] s) (fun s => if is_cmd cmd "tex" then cmd_tex_d M C body s else say [] s)).
  assert (H : ragrees a b).
  { subst a b. apply follow_agrees; [destruct (is_cmd _ _); [apply cmd_normalize_lift|apply ragrees_refl]|intros s']. destruct (is_cmd _ _); [apply cmd_tex_lift|apply ragrees_refl]. }
  clearbody a b.
  destruct (is_cmd cmd "ntex"); [eexists; split; [reflexivity|]; apply follow_agrees; [exact H|intros; apply cmd_ntex_lift]|].
  destruct (is_cmd cmd "func"); [eexists; split; [reflexivity|]; apply follow_agrees; [exact H|intros; apply cmd_func_lift]|].
  destruct (is_cmd cmd "constant"); [eexists; split; [reflexivity|]; apply follow_agrees; [exact H|intros; apply ragrees_refl]|].
  destruct (is_cmd cmd "print"); [eexists; split; [reflexivity|]; apply follow_agrees; [exact H|intros; apply cmd_print_lift]|].
  destruct (is_cmd cmd "factor"); [eexists; split; [reflexivity|]; apply follow_agrees; [exact H|intros; apply cmd_factor_lift]|].
  destruct (is_cmd cmd "version"); [eexists; split; [reflexivity|]; apply follow_agrees; [exact H|intros; apply ragrees_refl]|].
  destruct (is_cmd cmd "quit"); [reflexivity|]. eexists; split; [reflexivity|]; apply follow_agrees; [exact H|intros; apply evaluate_lift].
Qed.
Lemma round_lift line s : match then_ (round C line s) with Undefined _ | Hang => True | _ => round_d M C line s = round C line s end.
Proof.
  unfold round, round_d. pose proof (dispatch_lift line s) as H. destruct (dispatch C line s) as [r|].
  - destruct H as (r' & -> & H). unfold ragrees in H. cbn [then_]. destruct (fin r) as [u|m|m|] eqn:E; try exact I.
    + subst r'. now rewrite E.
    + subst r'. rewrite E. now destruct (is_std m).
  - rewrite H. reflexivity.
Qed.
Lemma loop_lift i n : forall k s, lost (loop C i k n s) \/ loop_d M C i k n s = loop C i k n s.
Proof.
  induction n as [|n IH]; intros k s; cbn [loop loop_d]; [now right|]. pose proof (round_lift (nth_line i k) s) as H. cbv zeta.
  destruct (then_ (round C (nth_line i k) s)) eqn:E.
  - rewrite H, E. specialize (IH (S k) (members (round C (nth_line i k) s))). destruct (loop C i (S k) n _) as [[t e] s']. destruct IH as [IH|IH]; [left; exact IH|right]. now rewrite IH.
  - right. now rewrite H, E.
  - right. now rewrite H, E.
  - left. exact I.
  - left. exact I.
Qed.
Lemma mainloop_lift i n s : lost (mainloop C i n s) \/ mainloop_d M C i n s = mainloop C i n s.
Proof.
  unfold mainloop, mainloop_d. destruct (loop_lift i n 0%nat s) as [H|H].
  - left. destruct (loop C i 0 n s) as [[t e] s']. exact H.
  - right. now rewrite H.
Qed.
Lemma boot_lift pi e phi egamma : agrees (boot C pi e phi egamma) (boot_d M C pi e phi egamma).
Proof. unfold boot, boot_d. lift. Qed.
End CliLift.
