(** C49, C50, C61-C64: the command line, for a machine integer T.
    Vocabulary (CliSpec.v): [reads line word body] splits a line at its first blank; [does line s r]: the round on that line is the action r and nothing else;
    [sane_members], [calm_program]: what holds of the program and of its members between rounds (C50_start, C50_invariant); [defines_constant],
    [defines_function]: the line is a definition; [latest]: what the last definition says; [shown]: what is printed for an expression. *)
From Coq Require Import ZArith Znumtheory QArith Qreals Reals String Ascii Lia Lra Bool List Permutation Sorted.
From Verif Require Import Base AdapterModel FactorizeModel FactorizeProps RationalModel RationalSpec RealModel RealSpec PolyModel PolySpec ExprModel ExprSpec ExprProofs1 ParserModel TextSpec CliModel
  ErrSpec ErrProofs1 ErrProofs2 ErrProofs3 ErrProofs4 CliSpec CliProofs1 CliProofs2 CliProofs3 CliProofs4 CliProofs5.
Import ListNotations.
Open Scope Z_scope.

(** the program of the examples: 64 bits; of long double only the texts of four numbers *)
Local Definition E64 : env := std_env 64 true (fun k => Z.of_nat k * Z.of_nat k * 3 + 1)%Z 200 0.
Local Definition P64 : penv := PEnv E64 (isort 64).
Local Definition dec (s : text) : res rat := if String.eqb (string_of_list_ascii s) "0.5" then Ok (Rat 1 2) else Throw "invalid_argument".
Local Definition F0 : fops := FOps Z (fun _ => 0) (fun _ => 0) 0 Z.add Z.sub Z.mul Z.div Z.pow (fun n => txt "~" ++ adapter_to_string n)
  (fun t => if String.eqb (string_of_list_ascii t) "7" then Ok 7 else if String.eqb (string_of_list_ascii t) "8" then Ok 8 else Throw "invalid_argument") (fun r i => Ok 1).
Local Definition C0 : cenv := CEnv P64 dec F0 (txt "long").
Local Definition s0 : cstate C0 := CState (C := C0) [] [("pi"%string, 3)].
Local Definition see (line : string) (s : cstate C0) : string * next := (string_of_list_ascii (printed (round C0 (txt line) s)), then_ (round C0 (txt line) s)).
Local Definition after (lines : list string) (s : cstate C0) : cstate C0 := snd (loop C0 (Input (map txt lines) []) 0 (length lines) s).
Local Definition said (lines : list string) (s : cstate C0) : string := string_of_list_ascii (fst (fst (loop C0 (Input (map txt lines) []) 0 (length lines) s))).
Local Lemma C0_calm : calm_program C0.
Proof. split; [exact (std_calm 64 true _ 200 0)|]. intros r i m. cbn. discriminate. Qed.
Local Lemma s0_sane : sane_members s0.
Proof. repeat split; repeat constructor. Qed.

(** ** C49 one command, one action *)
(** every line has exactly one word and body *)
Theorem C49_line line : exists word body, reads line word body /\ forall word' body', reads line word' body' -> word' = word /\ body' = body.
Proof.
  exists (fst (split_line line)), (snd (split_line line)). split; [apply split_reads|]. intros w b R. exact (reads_unique _ _ _ _ _ R (split_reads line)).
Qed.
Print Assumptions C49_line.
(** six command words do what they name and nothing else, quit ends the loop *)
Theorem C49_commands C (s : cstate C) line body :
  (reads line (txt "ntex") body -> does line s (cmd_ntex C body s)) /\ (reads line (txt "func") body -> does line s (cmd_func C body s)) /\
  (reads line (txt "constant") body -> does line s (cmd_constant C body s)) /\ (reads line (txt "print") body -> does line s (cmd_print C body s)) /\
  (reads line (txt "factor") body -> does line s (cmd_factor C body s)) /\ (reads line (txt "version") body -> does line s (cmd_version C s)) /\
  (reads line (txt "quit") body -> round C line s = RoundEnd prompt Quit s).
Proof.
  split; [|split; [|split; [|split; [|split; [|split]]]]]; intros R.
  - eapply (does_word C line "ntex" body s _ R). now left.
  - eapply (does_word C line "func" body s _ R). right; now left.
  - eapply (does_word C line "constant" body s _ R). do 2 right; now left.
  - eapply (does_word C line "print" body s _ R). do 3 right; now left.
  - eapply (does_word C line "factor" body s _ R). do 4 right; now left.
  - apply (does_word C line "version" body s (fun _ => cmd_version C) R). do 5 right; now left.
  - exact (does_quit C line body s R).
Qed.
Print Assumptions C49_commands.
Theorem C49_quit_only C (s : cstate C) line : then_ (round C line s) = Quit <-> exists body, reads line (txt "quit") body.
Proof. exact (round_quit C line s). Qed.
Print Assumptions C49_quit_only.
(** version prints one line, which the program also prints first, and changes nothing *)
Theorem C49_version C (s : cstate C) line body : reads line (txt "version") body ->
  round C line s = RoundEnd (txt "symxx> " ++ txt "symxx | version - 0.0.1 | int - " ++ ctype C ++ newline) (Continue None) s.
Proof. intros R. destruct (C49_commands C s line body) as (_ & _ & _ & _ & _ & V & _). specialize (V R). unfold does in V. rewrite V. reflexivity. Qed.
Print Assumptions C49_version.
Theorem C49_first_line C i n (s : cstate C) t e s' : mainloop C i n s = (t, e, s') -> exists u, t = txt "symxx | version - 0.0.1 | int - " ++ ctype C ++ newline ++ u.
Proof. unfold mainloop. destruct (loop C i 0 n s) as [[u e0] s0]. intros H. injection H as <- _ _. exists u. unfold version_text. now rewrite <- !app_assoc. Qed.
Print Assumptions C49_first_line.
(** normalize and tex do what they name and then, if that succeeded, treat the whole line, command word included, as an expression *)
Theorem C49_normalize_tex C (s : cstate C) line body :
  (reads line (txt "normalize") body -> does_both line s (cmd_normalize C body s) (cmd_normalize C line s)) /\
  (reads line (txt "tex") body -> does_both line s (cmd_tex C body s) (cmd_normalize C line s)).
Proof. split; intros R; eapply does_twice; try exact R; [now left|right; now left]. Qed.
Print Assumptions C49_normalize_tex.
Theorem C49_one_action_refuted :
  see "normalize x+1" s0 = ("symxx> x+1
aeilmnorxz+1
", Continue None)%string /\
  see "normalize 1+1" s0 = ("symxx> 2
", Continue (Some "Invaild string."))%string /\
  see "tex x/2" s0 = ("symxx> \frac{x}{2}
et(x**2)/2
", Continue None)%string.
Proof. vm_compute. repeat split. Qed.
Print Assumptions C49_one_action_refuted.
(** a call: what is behind the ')' is ignored, and so is everything behind the first blank *)
Theorem C49_call C (s : cstate C) line word body name args d : reads line word body -> calls word name args -> mget (string_of_list_ascii name) (funcs s) = Some d ->
  does line s (cmd_call C (string_of_list_ascii name) args s).
Proof.
  intros R (rest & -> & L1 & L2) M. apply round_does. rewrite (dispatch_other C line _ body s R).
  - unfold evaluate. rewrite (proj2 (find_some "(" _ name _)) by (split; [reflexivity|exact L1]). rewrite (proj2 (find_some ")" _ args _)) by (split; [reflexivity|exact L2]).
    unfold has. now rewrite M.
  - unfold words. intros I. assert (P : forall w, In w words_of -> ~ In "("%char (txt w)).
    { intros w W. change (lacks "(" (txt w)). apply lacks_all. repeat (destruct W as [<-|W]; [repeat constructor|]). destruct W. }
    apply in_map_iff in I. destruct I as (w & E & W). apply (P w W). rewrite E. apply in_or_app. right. now left.
Qed.
Print Assumptions C49_call.
Theorem C49_call_rest_refuted : let s := after ["func f(x)=x+1"]%string s0 in
  see "f(1)+1" s = see "f(1)" s /\ see "f(1) + 1" s = see "f(1)" s /\ see "f(1)" s = ("symxx> 2
", Continue None)%string.
Proof. vm_compute. repeat split. Qed.
Print Assumptions C49_call_rest_refuted.
(** every other line is an expression *)
Theorem C49_expression C (s : cstate C) line word body : reads line word body -> ~ In word words ->
  (forall name args, calls word name args -> mget (string_of_list_ascii name) (funcs s) = None) -> does line s (cmd_normalize C line s).
Proof.
  intros R O N. apply round_does. rewrite (dispatch_other C line word body s R O). unfold evaluate.
  destruct (find_char "(" word) as [[name rest]|] eqn:F; [|reflexivity]. destruct (find_char ")" rest) as [[args rest2]|] eqn:F2; [|reflexivity].
  apply find_some in F, F2. destruct F as [-> L1], F2 as [-> L2]. unfold has. rewrite (N name args); [reflexivity|]. exists rest2. auto.
Qed.
Print Assumptions C49_expression.
(** what the actions print when they succeed *)
Theorem C49_normalize_prints C (s : cstate C) body : fin (cmd_normalize C body s) = Ok tt ->
  exists e e1, parse (cp C) (cdec C) body = Ok e /\ expr_normalize (cp C) e = Ok e1 /\ shown C e1 s (out (cmd_normalize C body s)).
Proof.
  unfold cmd_normalize, parse_normal. destruct (parse (cp C) (cdec C) body) as [e|m|m|]; cbn [bind run stop fin]; try discriminate.
  destruct (expr_normalize (cp C) e) as [e1|m|m|] eqn:N; cbn [bind run stop fin]; try discriminate. intros E. exists e, e1. split; [reflexivity|]. split; [exact N|]. now apply print_result_shown.
Qed.
Print Assumptions C49_normalize_prints.
(** hence the number printed is the number read, wherever both simplifications are defined *)
Theorem C49_value C (s : cstate C) body v : machine (cp C) -> fin (cmd_normalize C body s) = Ok tt ->
  exists e e1 e2 u rest, parse (cp C) (cdec C) body = Ok e /\ out (cmd_normalize C body s) = u ++ rest /\ expr_to_string (pe (cp C)) e2 = Ok u /\
    expr_normalize (cp C) e = Ok e1 /\ (edefined (cp C) v e -> edefined (cp C) v e1 -> ev v e2 = ev v e).
Proof.
  intros M E. destruct (C49_normalize_prints C s body E) as (e & e1 & P & N & e2 & u & N2 & T & H).
  exists e, e1, e2, u. destruct H as [[-> _]|(x & _ & _ & ->)]; eexists; (split; [exact P|]); (split; [reflexivity|]); (split; [exact T|]); (split; [exact N|]); intros D D1;
    (rewrite (normalize_value (cp C) v e1 M D1 e2 N2); exact (normalize_value (cp C) v e M D e1 N)).
Qed.
Print Assumptions C49_value.
Theorem C49_tex_prints C (s : cstate C) body :
  (fin (cmd_tex C body s) = Ok tt -> exists e t, parse (cp C) (cdec C) body = Ok e /\ expr_to_tex (pe (cp C)) e = Ok t /\ out (cmd_tex C body s) = t ++ newline) /\
  (fin (cmd_ntex C body s) = Ok tt -> exists e e1 t, parse (cp C) (cdec C) body = Ok e /\ expr_normalize (cp C) e = Ok e1 /\ expr_to_tex (pe (cp C)) e1 = Ok t /\ out (cmd_ntex C body s) = t ++ newline).
Proof.
  unfold cmd_tex, cmd_ntex, parse_normal. destruct (parse (cp C) (cdec C) body) as [e|m|m|]; cbn [bind run stop fin]; try (split; discriminate). split.
  - destruct (expr_to_tex (pe (cp C)) e) as [t|m|m|] eqn:T; cbn [bind run stop fin]; try discriminate. intros _. exists e, t. auto.
  - destruct (expr_normalize (cp C) e) as [e1|m|m|] eqn:N; cbn [bind run stop fin]; try discriminate. destruct (expr_to_tex (pe (cp C)) e1) as [t|m|m|] eqn:T; cbn [bind run stop fin]; try discriminate.
    intros _. exists e, e1, t. auto.
Qed.
Print Assumptions C49_tex_prints.
(** factor: numbers greater than 1 whose product is the number, in ascending order (and prime below 9006401), if the expression is a positive integer n *)
Theorem C49_factor_prints C (s : cstate C) body e f n : 1 < ew (pe (cp C)) -> fac_sound (pe (cp C)) -> d_root (cf C) (Rat 1 1) 1 = Ok 1 ->
  parse_normal C body = Ok e -> expr_try_eval (cp C) e = Ok (Some f) -> frac_try_eval (cp C) f = Ok (Some (Real 1 (Rat 1 1) (Rat n 1))) -> 1 <= n <= 2 ^ (ew (pe (cp C)) - 2) ->
  fin (cmd_factor C body s) = Ok tt ->
  exists l, fold_right Z.mul 1 l = n /\ Forall (fun p => 1 < p) l /\ Sorted Z.le l /\ (n < 9006401 -> Forall prime l) /\ out (cmd_factor C body s) = flat_map (fun p => adapter_to_string p ++ txt " ") l ++ newline.
Proof.
  intros W FS DR PN TE FE Hn.
  assert (IR : AdapterModel.in_range (ew (pe (cp C))) n = true).
  { assert (P : 2 ^ (ew (pe (cp C)) - 1) = 2 * 2 ^ (ew (pe (cp C)) - 2)) by (rewrite <- Z.pow_succ_r by lia; f_equal; lia).
    unfold AdapterModel.in_range. apply andb_true_intro. split; [apply Z.leb_le|apply Z.ltb_lt]; lia. }
  assert (RI : real_to_int C (Real 1 (Rat 1 1) (Rat n 1)) = Ok n).
  { unfold real_to_int, rat_to_t, quot_w. cbn [coe rad idx num den Z.eqb]. rewrite Z.quot_1_r. unfold chk. rewrite IR. cbn [bind]. rewrite DR. cbn [bind]. rewrite Z.mul_1_r. now rewrite IR. }
  unfold cmd_factor. rewrite PN. cbn [bind]. rewrite TE. cbn [bind]. rewrite FE. cbn [bind]. rewrite RI. cbn [bind].
  destruct (efac (pe (cp C)) n) as [l|m|m|] eqn:EF; cbn [bind run stop fin]; try discriminate. intros _. exists l.
  destruct (FS n l EF) as (i & rnd & fuel & k & k' & FE'). destruct (C20_product _ i rnd fuel n [] k l k' W Hn FE') as (fs & PM & PR & FP). rewrite app_nil_r in PM.
  split; [|split; [|split; [|split; [|reflexivity]]]].
  - rewrite <- PR. clear - PM. induction PM as [|x a b PM IH|x y a|a b c P1 IH1 P2 IH2]; cbn [fold_right]; [reflexivity|now rewrite IH|ring|congruence].
  - eapply Permutation_Forall; [apply Permutation_sym, PM|]. eapply Forall_impl; [|exact FP]. intros p [H _]. exact H.
  - eapply C20_sorted; [|exact FE']. constructor.
  - intros L. exact (proj1 (C20_prime_factorization _ i rnd fuel n k l k' W Hn L FE')).
Qed.
Print Assumptions C49_factor_prints.
Example C49_example_factor : parse_normal C0 (txt "6*14") = Ok (Leaf (leaf_int 84)) /\ frac_try_eval P64 (leaf_int 84) = Ok (Some (Real 1 (Rat 1 1) (Rat 84 1))) /\ see "factor 6*14" s0 = ("symxx> 2 2 3 7 
", Continue None)%string.
Proof. vm_compute. repeat split. Qed.
Example C49_example_reads : reads (txt "ntex x / 2") (txt "ntex") (txt "x / 2") /\ reads (txt "print") (txt "print") [] /\ calls (txt "f(1,2)+1") (txt "f") (txt "1,2") /\
  see "ntex x / 2" s0 = ("symxx> \frac{x}{2}
", Continue None)%string.
Proof.
  split; [split; [apply lacks_all; repeat constructor|left; reflexivity]|]. split; [split; [apply lacks_all; repeat constructor|right; split; reflexivity]|].
  split; [|vm_compute; reflexivity]. exists (txt "+1"). split; [reflexivity|]. split; apply lacks_all; repeat constructor.
Qed.
(** a function named "" takes every line that starts with '(' and has a ')' in its first word *)
Theorem C49_empty_name_refuted : see "(1)+1" s0 = ("symxx> 2
", Continue None)%string /\ see "(1)+1" (after ["func (x)=x"]%string s0) = ("symxx> 1
", Continue None)%string.
Proof. vm_compute. split; reflexivity. Qed.
Print Assumptions C49_empty_name_refuted.

(** ** C50 errors do not end the session and change nothing *)
(** the members at the start *)
Theorem C50_start C pi e phi egamma s : calm_program C -> boot C pi e phi egamma = Ok s -> sane_members s.
Proof.
  intros K. unfold boot. pose proof (o_parse_normal C K fib_text) as O. destruct (parse_normal C fib_text) as [f|m|m|]; cbn [bind]; try discriminate. intros E. injection E as <-.
  cbn [outcome] in O. repeat split; cbn [funcs consts]; repeat constructor; assumption.
Qed.
Print Assumptions C50_start.
(** the invariant, over any number of lines *)
Theorem C50_invariant C i n s : calm_program C -> sane_members s -> sane_members (snd (loop C i 0 n s)).
Proof. intros K S. exact (loop_sane C K i n 0 s S). Qed.
Print Assumptions C50_invariant.
(** a line that fails with an Error leaves functions and constants as they were *)
Theorem C50_error_changes_nothing C line s m : calm_program C -> sane_members s -> then_ (round C line s) = Continue (Some m) -> members (round C line s) = s.
Proof. intros K S. exact (proj1 (proj2 (round_members C K line s S)) m). Qed.
Print Assumptions C50_error_changes_nothing.
(** exactly one kind of line ends the session with an exception: a constant whose value std::stold does not accept *)
Theorem C50_escape C line s m : calm_program C -> sane_members s ->
  then_ (round C line s) = Escape m <->
  is_std m = true /\ exists name val, line = txt "constant " ++ name ++ "="%char :: val /\ lacks "=" name /\ unspaced name <> [] /\ d_read (cf C) val = Throw m.
Proof. intros K S. exact (round_escape C K line s m S). Qed.
Print Assumptions C50_escape.
(** sessions: the loop ends with quit or such a constant only *)
Theorem C50_session C i n s t e s' : calm_program C -> sane_members s -> loop C i 0 n s = (t, e, s') ->
  match e with
  | Continue _ | Undefined _ | Hang => True
  | Quit => exists k body, (k < n)%nat /\ reads (nth_line i k) (txt "quit") body
  | Escape m => exists k name val, (k < n)%nat /\ nth_line i k = txt "constant " ++ name ++ "="%char :: val /\ d_read (cf C) val = Throw m
  end.
Proof.
  intros K.
  assert (G : forall n k s t e s', sane_members s -> loop C i k n s = (t, e, s') ->
    match e with
    | Continue _ | Undefined _ | Hang => True
    | Quit => exists j body, (k <= j < k + n)%nat /\ reads (nth_line i j) (txt "quit") body
    | Escape m => exists j name val, (k <= j < k + n)%nat /\ nth_line i j = txt "constant " ++ name ++ "="%char :: val /\ d_read (cf C) val = Throw m
    end).
  { clear - K. induction n as [|n IH]; intros k s t e s' S E; cbn [loop] in E; [injection E as <- <- <-; exact I|].
    destruct (then_ (round C (nth_line i k) s)) as [e0| |m|w|] eqn:T.
    - destruct (loop C i (Datatypes.S k) n (members (round C (nth_line i k) s))) as [[t' e'] s2] eqn:L. injection E as <- <- <-.
      specialize (IH (Datatypes.S k) _ _ _ _ (proj1 (round_members C K (nth_line i k) s S)) L). destruct e'; auto.
      + destruct IH as (j & b & J & H). exists j, b. split; [lia|exact H].
      + destruct IH as (j & b & v & J & H). exists j, b, v. split; [lia|exact H].
    - injection E as <- <- <-. apply (round_quit C) in T. destruct T as (b & R). exists k, b. split; [lia|exact R].
    - injection E as <- <- <-. apply (round_escape C K) in T; [|exact S]. destruct T as (_ & name & val & E1 & _ & _ & E2). exists k, name, val. split; [lia|auto].
    - injection E as <- <- <-. exact I.
    - injection E as <- <- <-. exact I. }
  intros S E. specialize (G n 0%nat s t e s' S E). destruct e; auto.
  - destruct G as (j & b & J & H). exists j, b. split; [lia|exact H].
  - destruct G as (j & b & v & J & H). exists j, b, v. split; [lia|exact H].
Qed.
Print Assumptions C50_session.
Theorem C50_escape_refuted : see "constant a=b" s0 = ("symxx> ", Escape "invalid_argument")%string. Proof. vm_compute. reflexivity. Qed.
Print Assumptions C50_escape_refuted.
(** and undefined behaviour ends it too: redefining a function whose old and new bodies are both operator trees (C51_redefinition) *)
Theorem C50_redefinition_refuted : see "func f(x)=x^x" (after ["func f(x)=x^x"]%string s0) = ("symxx> ", Undefined "use after free")%string /\
  see "func f(x)=x^2" (after ["func f(x)=x^x"]%string s0) = ("symxx> Function: f(x) = (x**2)
", Continue None)%string.
Proof. vm_compute. split; reflexivity. Qed.
Print Assumptions C50_redefinition_refuted.
Example C50_example_errors : let s := after ["func f(x)=x+1"; "constant a=7"]%string s0 in
  see "func f(x)" s = ("symxx> ", Continue (Some "Expected '='."))%string /\ see "func f(,)=1" s = ("symxx> ", Continue (Some "Argument can not be """"."))%string /\
  see "constant a" s = ("symxx> ", Continue (Some "Expected '='."))%string /\ see "constant  =7" s = ("symxx> ", Continue (Some "Constant's name can not be empty."))%string /\
  see "f(1,2)" s = ("symxx> ", Continue (Some "Expected 1 arguments"))%string /\ see "factor x" s = ("symxx> ", Continue (Some "Invailed string"))%string /\
  see "1/0" s = ("symxx> ", Continue (Some "Division by zero"))%string.
Proof. vm_compute. repeat split. Qed.
Example C50_example_state : calm_program C0 /\ sane_members (after ["func f(x)=x+1"; "constant a=7"]%string s0).
Proof. split; [exact C0_calm|]. exact (C50_invariant C0 _ 2 s0 C0_calm s0_sane). Qed.

(** ** C61 evaluation in long double *)
(** there is a value exactly if every symbol has a constant, whatever the floating-point operations are *)
Theorem C61_some F (v : list (string * D F)) e : proper e -> (exists x, expr_ld F v e = Ok (Some x)) <-> (forall k, symbol k e -> exists x, mget k v = Some x).
Proof.
  intros W. split; [|exact (expr_ld_some F v e W)]. intros (x & E) k S. destruct (mget k v) as [y|] eqn:M; [eauto|]. rewrite (expr_ld_none F v e W) in E by eauto. discriminate.
Qed.
Print Assumptions C61_some.
Theorem C61_none F (v : list (string * D F)) e : proper e -> expr_ld F v e = Ok None <-> (exists k, symbol k e /\ mget k v = None).
Proof.
  intros W. split; [|exact (expr_ld_none F v e W)]. intros E.
  assert (G : (forall k, symbol k e -> exists x, mget k v = Some x) \/ exists k, symbol k e /\ mget k v = None).
  { clear. induction e as [f|c l IHl r IHr].
    - assert (T : forall m : smap, (forall k, In k (map fst m) -> exists x, mget k v = Some x) \/ exists k, In k (map fst m) /\ mget k v = None).
      { induction m as [|[k q] m IH]; [left; intros k []|]. destruct (mget k v) as [x|] eqn:M; [|right; exists k; split; [now left|exact M]].
        destruct IH as [IH|(k' & I & N)]; [left|right; exists k'; split; [now right|exact N]]. intros k' [<-|I]; [eauto|auto]. }
      assert (Q : forall l : poly, (forall k, psymbol k l -> exists x, mget k v = Some x) \/ exists k, psymbol k l /\ mget k v = None).
      { induction l as [|t l IH]; [left; intros k (t & [] & _)|]. destruct (T (syms t)) as [A|(k & I & N)]; [|right; exists k; split; [exists t; split; [now left|exact I]|exact N]].
        destruct IH as [IH|(k & (u & I & U) & N)]; [left|right; exists k; split; [exists u; split; [now right|exact U]|exact N]]. intros k (u & [<-|I] & U); [exact (A k U)|apply IH; exists u; auto]. }
      destruct (Q (fnum f)) as [A|(k & S & N)]; [|right; exists k; split; [left; exact S|exact N]]. destruct (Q (fden f)) as [B|(k & S & N)]; [|right; exists k; split; [right; exact S|exact N]].
      left. intros k [S|S]; auto.
    - destruct IHl as [A|(k & S & N)]; [|right; exists k; split; [left; exact S|exact N]]. destruct IHr as [B|(k & S & N)]; [|right; exists k; split; [right; exact S|exact N]].
      left. intros k [S|S]; auto. }
  destruct G as [A|B]; [|exact B]. apply (C61_some F v e W) in A. destruct A as (x & X). rewrite X in E. discriminate.
Qed.
Print Assumptions C61_none.
(** with exact arithmetic it is the value of the expression; so what is printed differs from that by rounding only *)
Theorem C61_exact show read root (v : list (string * R)) s e (x : R) : (forall k y, mget k v = Some y -> s k = y) -> plain s e ->
  expr_ld (exact show read root) v e = Ok (Some x) -> x = ev s e.
Proof. intros A W. exact (expr_exact show read root v s A e W x). Qed.
Print Assumptions C61_exact.
(** any other operator character (an unclosed parenthesis) is reported *)
Theorem C61_operator F v e x : expr_ld F v e = Ok (Some x) -> proper e.
Proof. exact (expr_ld_proper F v e x). Qed.
Print Assumptions C61_operator.
Example C61_example show read root : exists x, expr_ld (exact show read root) [("x"%string, 2%R)] (Op "/" (Op "+" (Leaf (leaf_sym "x")) (Leaf (leaf_int 1))) (Leaf (leaf_sym "x"))) = Ok (Some x) /\ x = (3 / 2)%R.
Proof.
  set (e := Op "/" _ _). set (s := fun k : string => if String.eqb k "x" then 2%R else 0%R).
  assert (W : proper e) by (repeat split; cbn; tauto).
  destruct (proj2 (C61_some (exact show read root) [("x"%string, 2%R)] e W)) as (x & X).
  { intros k S. exists 2%R. cbn [symbol e] in S. unfold fsymbol, psymbol, tsymbol in S. cbn in S. cbn [mget].
    assert (K : k = "x"%string).
    { repeat match goal with H : _ \/ _ |- _ => destruct H | H : exists _, _ |- _ => destruct H | H : _ /\ _ |- _ => destruct H | H : False |- _ => destruct H | x : term |- _ => subst x; cbn in * end; auto. }
    subst k. reflexivity. }
  exists x. split; [exact X|]. apply (C61_exact show read root _ s) in X.
  - rewrite X. unfold e. cbn [ev Ascii.eqb Bool.eqb]. unfold fv, pv, tv, sv, pwr, rv, qv, s. cbn. unfold Q2R. cbn. rewrite !Rinv_1. unfold Rpower. rewrite !Rmult_1_r, ln_1, !Rmult_0_r, exp_0. change (Pos.to_nat 1) with 1%nat. cbn [pow]. field.
  - intros k y. cbn [mget]. unfold s. destruct (String.eqb k "x"); [|discriminate]. intros E. now injection E.
  - repeat split; repeat constructor; right; reflexivity.
Qed.

(** ** C62 definitions *)
(** after any session, a constant has the value of the last line that defines it, a function the body of the last line that defines it, and everything
    else is as at the start *)
Theorem C62_constants C i n s t e s' k : calm_program C -> sane_members s -> loop C i 0 n s = (t, Continue e, s') ->
  latest (defines_constant C) (first_lines i n) (mget k (consts s)) k (mget k (consts s')).
Proof. intros K S E. exact (proj1 (loop_latest C K i n 0 s t e s' S E k)). Qed.
Print Assumptions C62_constants.
Theorem C62_functions C i n s t e s' k : calm_program C -> sane_members s -> loop C i 0 n s = (t, Continue e, s') ->
  latest (defines_function C) (first_lines i n) (mget k (funcs s)) k (mget k (funcs s')).
Proof. intros K S E. exact (proj2 (loop_latest C K i n 0 s t e s' S E k)). Qed.
Print Assumptions C62_functions.
(** a line defines at most one constant or function *)
Theorem C62_one_definition C line : (forall k x k' x', defines_constant C line k x -> defines_constant C line k' x' -> k = k' /\ x = x') /\
  (forall k d k' d', defines_function C line k d -> defines_function C line k' d' -> k = k' /\ d = d') /\ (forall k x k' d, defines_constant C line k x -> ~ defines_function C line k' d).
Proof.
  split; [|split]; intros k x k' x'; [exact (defines_constant_unique C line k x k' x')|exact (defines_function_unique C line k x k' x')|].
  intros (n & v & -> & _) (n' & a & b & d & p & e & E & _). discriminate E.
Qed.
Print Assumptions C62_one_definition.
(** "print" lists all functions, then all constants, each list in the order of the names *)
Theorem C62_print C (s : cstate C) : calm_program C -> sane_members s ->
  fin (cmd_print C [] s) = Ok tt ->
  exists texts, Forall2 (fun f t => expr_to_string (pe (cp C)) (snd (snd f)) = Ok t) (funcs s) texts /\
    out (cmd_print C [] s) =
      flat_map (fun ft => txt "Function: " ++ txt (fst (fst ft)) ++ txt "(" ++ joined (map txt (fst (snd (fst ft)))) ++ txt ") = " ++ snd ft ++ newline) (combine (funcs s) texts) ++
      flat_map (fun c => txt "Constant: " ++ txt (fst c) ++ txt " = " ++ d_show (cf C) (snd c) ++ newline) (consts s).
Proof. exact (print_all C s). Qed.
Print Assumptions C62_print.
Example C62_example : calm_program C0 /\ defines_constant C0 (txt "constant a b =7") "ab" 7 /\ defines_function C0 (txt "func g(x, y,) =xy") "g" (["x"; "y"]%string, Leaf (Frac [Term (rint 1) [("x", Rat 1 1); ("y", Rat 1 1)]%string] [term_const (rint 1)])).
Proof.
  split; [exact C0_calm|]. split.
  - exists (txt "a b "), (txt "7"). split; [reflexivity|]. split; [apply lacks_all; repeat constructor|]. split; [reflexivity|]. split; [discriminate|reflexivity].
  - exists (txt "g"), (txt "x, y,"), (txt " "), (txt "xy"), [txt "x"; txt "y"], (Op "*" (Leaf (leaf_sym "x")) (Leaf (leaf_sym "y"))). split; [reflexivity|].
    split; [apply lacks_all; repeat constructor|]. split; [apply lacks_all; repeat constructor|]. split; [repeat constructor|]. split; [reflexivity|].
    split; [|split; [reflexivity|split; vm_compute; reflexivity]]. split; [repeat constructor; try discriminate; apply lacks_all; repeat constructor|]. right. split; [discriminate|reflexivity].
Qed.
Example C62_example_session : said ["constant a=7"; "func f(x)=x+1"; "constant a=8"; "x+"; "func f(x,y)=2"; "print"]%string s0 =
"symxx> Constant: a = ~7
symxx> Function: f(x) = x+1
symxx> Constant: a = ~8
symxx> symxx> Function: f(x,y) = 2
symxx> Function: f(x,y) = 2
Constant: a = ~8
Constant: pi = ~3
"%string.
Proof. vm_compute. reflexivity. Qed.

(** ** C63 calls *)
(** the arguments are rational numbers separated by commas; a call prints the body with the arguments in place of the parameters *)
Theorem C63_arguments C t vals : read_args C t [] = Ok vals <-> exists texts, pieces t texts /\ Forall2 (argument_value C) texts vals.
Proof. exact (read_args_iff C t vals). Qed.
Print Assumptions C63_arguments.
Theorem C63_prints C (s : cstate C) name t texts vals params e : mget name (funcs s) = Some (params, e) -> pieces t texts -> Forall2 (argument_value C) texts vals ->
  length vals = length params -> fin (cmd_call C name t s) = Ok tt ->
  exists env e', (forall k, efind k env = argument params vals k) /\ expr_subst (cp C) env e = Ok e' /\ shown C e' s (out (cmd_call C name t s)).
Proof.
  intros M PC F2 L. unfold cmd_call. rewrite (proj2 (read_args_iff C t vals)) by eauto. cbn [run]. rewrite M. rewrite (proj2 (Nat.eqb_eq _ _) L).
  change (fold_left _ (combine params vals) []) with (binding params vals). destruct (expr_subst (cp C) (binding params vals) e) as [e'|m|m|] eqn:E; cbn [run stop fin bind]; try discriminate.
  intros H. exists (binding params vals), e'. split; [exact (binding_argument params vals)|]. split; [exact E|]. now apply print_result_shown.
Qed.
Print Assumptions C63_prints.
(** the value: that of the body with the parameters set to the arguments, a repeated parameter to its last argument *)
Theorem C63_value C (s : cstate C) name t texts vals params e v : machine (cp C) ->
  mget name (funcs s) = Some (params, e) -> pieces t texts -> Forall2 (argument_value C) texts vals -> length vals = length params -> fin (cmd_call C name t s) = Ok tt ->
  exists env e' e2 u rest, (forall k, efind k env = argument params vals k) /\ expr_subst (cp C) env e = Ok e' /\ expr_to_string (pe (cp C)) e2 = Ok u /\ out (cmd_call C name t s) = u ++ rest /\
    (sdefined (cp C) env v e -> edefined (cp C) v e' -> ev v e2 = ev (with_arguments params vals v) e).
Proof.
  intros MA M PC F2 L E. destruct (C63_prints C s name t texts vals params e M PC F2 L E) as (env & e' & B & SB & e2 & u & N & T & H).
  exists env, e', e2, u. destruct H as [[-> _]|(x & _ & _ & ->)]; eexists; (split; [exact B|]); (split; [exact SB|]); (split; [exact T|]); (split; [reflexivity|]); intros D1 D2;
    rewrite (normalize_value (cp C) v e' MA D2 e2 N), (subst_value (cp C) env v e MA D1 e' SB); apply ev_ext; intros k; unfold extend, with_arguments; now rewrite B.
Qed.
Print Assumptions C63_value.
(** a wrong number of arguments is an Error that names the right one *)
Theorem C63_arity C (s : cstate C) name t texts vals params e : mget name (funcs s) = Some (params, e) -> pieces t texts -> Forall2 (argument_value C) texts vals ->
  length vals <> length params -> cmd_call C name t s = Result [] (Throw (expected_arguments (length params))) s.
Proof.
  intros M PC F2 L. unfold cmd_call. rewrite (proj2 (read_args_iff C t vals)) by eauto. cbn [run]. rewrite M. destruct (Nat.eqb_spec (length vals) (length params)); [contradiction|]. reflexivity.
Qed.
Print Assumptions C63_arity.
Example C63_example : let s := after ["func f(x,y)=x-2y"; "func g(x,x)=x"]%string s0 in
  see "f(3,1/2)" s = ("symxx> 2
", Continue None)%string /\ see "g(1,2)" s = ("symxx> 2
", Continue None)%string /\ pieces (txt "3,1/2") [txt "3"; txt "1/2"] /\ argument_value C0 (txt "1/2") (Real 1 (Rat 1 1) (Rat 1 2)).
Proof.
  cbv zeta. split; [vm_compute; reflexivity|]. split; [vm_compute; reflexivity|]. split.
  - split; [|left; reflexivity]. repeat constructor; try discriminate; apply lacks_all; repeat constructor.
  - exists (Rat 1 2). split; vm_compute; reflexivity.
Qed.
(** the built-in function fib gives the Fibonacci numbers, as far as was tried *)
Example C63_example_fib : match boot C0 0 0 0 0 with Ok s => map (fun l => see l s) ["fib(1)"; "fib(2)"; "fib(4)"; "fib(6)"]%string | _ => [] end =
  map (fun n => ("symxx> " ++ n ++ String (ascii_of_nat 10) "", Continue None))%string ["1"; "1"; "3"; "8"]%string.
Proof. vm_compute. reflexivity. Qed.

(** ** C64 the end of the input *)
(** the loop does not look at the state of the stream.  After the last complete line it goes on for ever: with empty lines, each of which is an Error, and with unchanged members *)
Theorem C64_end_of_input C i m s t e s' : tail i = [] -> loop C i 0 (length (full i)) s = (t, Continue e, s') ->
  exists e', loop C i 0 (length (full i) + m) s = (t ++ concat (repeat prompt m), Continue e', s').
Proof. exact (end_of_input C i m s t e s'). Qed.
Print Assumptions C64_end_of_input.
(** a last line without a newline is executed again and again: any number of further rounds is what as many copies of that line would do *)
Theorem C64_unterminated C i m s : loop C i 0 (length (full i) + m) s = loop C (Input (full i ++ repeat (tail i) m) []) 0 (length (full i) + m) s.
Proof. exact (unterminated C i m s). Qed.
Print Assumptions C64_unterminated.
Theorem C64_unterminated_refuted : string_of_list_ascii (fst (fst (loop C0 (Input [txt "constant a=7"] (txt "print a")) 0 4 s0))) =
"symxx> Constant: a = ~7
symxx> Constant: a = ~7
symxx> Constant: a = ~7
symxx> Constant: a = ~7
"%string.
Proof. vm_compute. reflexivity. Qed.
Print Assumptions C64_unterminated_refuted.
Example C64_example : loop C0 (Input [txt "constant a=7"] []) 0 1 s0 = (prompt ++ txt "Constant: a = ~7" ++ newline, Continue None, CState (C := C0) [] [("a"%string, 7); ("pi"%string, 3)]) /\
  see "" s0 = ("symxx> ", Continue (Some "Invaild string."))%string.
Proof. split; [reflexivity|vm_compute; reflexivity]. Qed.
