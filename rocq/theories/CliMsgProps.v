(** C62, C63, C50: what is written to std::cerr for a line that is refused, and the members the program starts with. *)
From Coq Require Import ZArith QArith Qreals Reals String Ascii Lia Bool List.
From Verif Require Import Base AdapterModel RationalModel RealModel RealSpec PolyModel ExprModel ParserModel CliModel ErrSpec CliSpec CliProofs1 CliProofs2 CliProofs3 CliProofs4 CliProofs5 CliProps.
Import ListNotations.
Open Scope Z_scope.

(** the round prints the prompt only, writes m to std::cerr, goes on and leaves the members alone *)
Definition refused {C} (line : text) (s : cstate C) (m : string) : Prop := round C line s = RoundEnd (txt "symxx> ") (Continue (Some m)) s.

Lemma refused_func C (s : cstate C) line body m : reads line (txt "func") body -> read_func C body = Throw m -> is_std m = false -> refused line s m.
Proof.
  intros R E N. destruct (C49_commands C s line body) as (_ & D & _). specialize (D R). unfold does in D. unfold refused. rewrite D. unfold cmd_func. rewrite E. cbn [run stop out fin post bind ends]. rewrite N, app_nil_r. reflexivity.
Qed.
Lemma refused_constant C (s : cstate C) line body m : reads line (txt "constant") body -> read_constant C body = Throw m -> is_std m = false -> refused line s m.
Proof.
  intros R E N. destruct (C49_commands C s line body) as (_ & _ & D & _). specialize (D R). unfold does in D. unfold refused. rewrite D. unfold cmd_constant. rewrite E. cbn [run stop out fin post bind ends]. rewrite N, app_nil_r. reflexivity.
Qed.
Lemma split_args_throws t : forall temp m, split_args t temp = Throw m -> m = empty_argument.
Proof.
  induction t as [|c t IH]; intros temp m; cbn [split_args]; [destruct temp; discriminate|]. destruct (is_space c); [apply IH|]. destruct (Ascii.eqb c ","); [|apply IH].
  destruct temp; [congruence|]. destruct (split_args t []) as [l|m'|w|] eqn:E; cbn [bind]; try discriminate. intros K. injection K as <-. exact (IH _ _ E).
Qed.
Lemma split_args_total t : forall temp, (exists l, split_args t temp = Ok l) \/ split_args t temp = Throw empty_argument.
Proof.
  induction t as [|c t IH]; intros temp; cbn [split_args]; [left; destruct temp; eauto|]. destruct (is_space c); [apply IH|]. destruct (Ascii.eqb c ","); [|apply IH].
  destruct temp; [now right|]. destruct (IH []) as [[l ->] | ->]; cbn [bind]; eauto.
Qed.
Lemma no_pieces t : (forall l, ~ pieces t l) -> split_args t [] = Throw empty_argument.
Proof. intros N. destruct (split_args_total t []) as [[l E]|E]; [|exact E]. apply split_args_pieces in E. now destruct (N l). Qed.

(** ** func: a line that is no definition, and why it is refused *)
Theorem C62_func_needs_parentheses C (s : cstate C) line body : reads line (txt "func") body ->
  (lacks "(" body \/ exists name rest, body = name ++ "("%char :: rest /\ lacks "(" name /\ lacks ")" rest) -> refused line s "Function needs '(' and ')'.".
Proof.
  intros R H. apply (refused_func C s line body _ R); [|reflexivity]. unfold read_func. destruct H as [H|(name & rest & -> & H1 & H2)].
  - rewrite (proj2 (find_none _ _) H). reflexivity.
  - rewrite (proj2 (find_some "(" (name ++ "("%char :: rest) name rest) (conj eq_refl H1)). rewrite (proj2 (find_none _ _) H2). reflexivity.
Qed.
Print Assumptions C62_func_needs_parentheses.
Theorem C62_func_empty_parameter C (s : cstate C) line name a rest : reads line (txt "func") (name ++ "("%char :: a ++ ")"%char :: rest) -> lacks "(" name -> lacks ")" a ->
  (forall l, ~ pieces a l) -> refused line s "Argument can not be """".".
Proof.
  intros R H1 H2 N. apply (refused_func C s line _ _ R); [|reflexivity]. unfold read_func.
  rewrite (proj2 (find_some "(" _ name (a ++ ")"%char :: rest)) (conj eq_refl H1)). rewrite (proj2 (find_some ")" _ a rest) (conj eq_refl H2)). rewrite (no_pieces a N). reflexivity.
Qed.
Print Assumptions C62_func_empty_parameter.
Theorem C62_func_needs_equals C (s : cstate C) line name a params blanks rest : reads line (txt "func") (name ++ "("%char :: a ++ ")"%char :: blanks ++ rest) -> lacks "(" name -> lacks ")" a ->
  pieces a params -> Forall (fun c => is_space c = true) blanks -> (rest = [] \/ exists c r, rest = c :: r /\ is_space c = false /\ c <> "="%char) -> refused line s "Expected '='.".
Proof.
  intros R H1 H2 PC B H. apply (refused_func C s line _ _ R); [|reflexivity]. unfold read_func.
  rewrite (proj2 (find_some "(" _ name (a ++ ")"%char :: blanks ++ rest)) (conj eq_refl H1)). rewrite (proj2 (find_some ")" _ a (blanks ++ rest)) (conj eq_refl H2)). rewrite (proj2 (split_args_pieces a params) PC). cbn [bind].
  destruct H as [-> | (c & r & -> & S & N)].
  - rewrite app_nil_r. assert (drop_spaces blanks = []) as ->; [|reflexivity]. clear - B. induction B as [|c l HC _ IH]; [reflexivity|]. cbn [drop_spaces]. rewrite HC. exact IH.
  - rewrite (proj2 (drop_spaces_eq (blanks ++ c :: r) c r)); [|split; [exact S|eauto]]. destruct (Ascii.eqb_spec c "="); [contradiction|]. reflexivity.
Qed.
Print Assumptions C62_func_needs_equals.
(** ** constant *)
Theorem C62_constant_refused C (s : cstate C) line body : reads line (txt "constant") body ->
  (lacks "=" body -> refused line s "Expected '='.") /\
  (forall name val, body = name ++ "="%char :: val -> lacks "=" name -> unspaced name = [] -> refused line s "Constant's name can not be empty.").
Proof.
  intros R. split.
  - intros H. apply (refused_constant C s line body _ R); [|reflexivity]. unfold read_constant. now rewrite (proj2 (find_none _ _) H).
  - intros name val -> L U. apply (refused_constant C s line _ _ R); [|reflexivity]. unfold read_constant. rewrite (proj2 (find_some "=" _ name val) (conj eq_refl L)). change (no_spaces name) with (unspaced name). rewrite U. reflexivity.
Qed.
Print Assumptions C62_constant_refused.
(** ** factor: what does not evaluate to a number *)
Theorem C62_factor_refused C (s : cstate C) line body e n : reads line (txt "factor") body -> parse (cp C) (cdec C) body = Ok e -> expr_normalize (cp C) e = Ok n ->
  (expr_try_eval (cp C) n = Ok None \/ exists f, expr_try_eval (cp C) n = Ok (Some f) /\ frac_try_eval (cp C) f = Ok None) -> refused line s "Invailed string".
Proof.
  intros R E1 E2 H. destruct (C49_commands C s line body) as (_ & _ & _ & _ & D & _). specialize (D R). unfold does in D. unfold refused. rewrite D. unfold cmd_factor, parse_normal. rewrite E1. cbn [bind]. rewrite E2. cbn [bind].
  destruct H as [-> | (f & -> & Hf)]; cbn [bind]; [reflexivity|]. rewrite Hf. reflexivity.
Qed.
Print Assumptions C62_factor_refused.
(** ** calls *)
Lemma refused_call C (s : cstate C) line word body name t d m : reads line word body -> calls word (list_ascii_of_string name) t -> mget name (funcs s) = Some d ->
  cmd_call C name t s = Result [] (Throw m) s -> is_std m = false -> refused line s m.
Proof.
  intros R K M E N. pose proof (C49_call C s line word body (list_ascii_of_string name) t d R K) as D. rewrite string_of_list_ascii_of_string in D. specialize (D M). unfold does in D. unfold refused. rewrite D, E. cbn [out fin post ends]. rewrite N, app_nil_r. reflexivity.
Qed.
Theorem C63_wrong_arity C (s : cstate C) line word body name t texts vals params e : reads line word body -> calls word (list_ascii_of_string name) t ->
  mget name (funcs s) = Some (params, e) -> pieces t texts -> Forall2 (argument_value C) texts vals -> length vals <> length params ->
  refused line s ("Expected " ++ string_of_list_ascii (numeral (Z.of_nat (length params))) ++ " arguments").
Proof.
  intros R K M PC F N. refine (refused_call C s line word body name t _ _ R K M (C63_arity C s name t texts vals params e M PC F N) _). reflexivity.
Qed.
Print Assumptions C63_wrong_arity.
Lemma read_args_empty C after b : forall temp texts vals, split_args b temp = Ok texts -> Forall2 (argument_value C) texts vals ->
  (unspaced b = [] /\ temp = [] \/ exists u, unspaced b = u ++ [","%char]) -> read_args C (b ++ ","%char :: after) temp = Throw empty_argument.
Proof.
  induction b as [|c b IH]; intros temp texts vals S F U; cbn [app read_args].
  - change (is_space ",") with false. change (Ascii.eqb "," ",") with true. cbv iota. destruct U as [[_ ->]|[u U]]; [reflexivity|]. destruct u; discriminate.
  - cbn [split_args] in S. unfold unspaced in U. cbn [filter] in U. destruct (is_space c) eqn:SC; cbn [negb] in U; [exact (IH _ _ _ S F U)|]. destruct (Ascii.eqb_spec c ",") as [->|NC].
    + destruct temp as [|x temp]; [discriminate|]. destruct (split_args b []) as [l|m|w|] eqn:E; cbn [bind] in S; try discriminate. injection S as <-. inversion F as [|? v ? vals' V F']; subst. destruct V as (q & V1 & V2). cbn [rev] in V1 |- *. rewrite V1. cbn [bind]. rewrite V2. cbn [bind].
      rewrite (IH [] l vals' E F'); [reflexivity|]. destruct U as [[U _]|[u U]]; [discriminate|]. destruct u as [|a u]; cbn [app] in U; injection U as U1; [left; auto|]. right. exists u. assumption.
    + apply (IH _ _ _ S F). right. destruct U as [[U _]|[u U]]; [discriminate|]. destruct u as [|a u]; cbn [app] in U; injection U as U1; [contradiction|]. exists u. assumption.
Qed.
(** an empty argument is refused as soon as it is met: the arguments before it are numbers *)
Theorem C63_empty_argument C (s : cstate C) line word body name before after texts vals params e : reads line word body -> calls word (list_ascii_of_string name) (before ++ ","%char :: after) ->
  mget name (funcs s) = Some (params, e) -> pieces before texts -> (unspaced before = [] \/ exists u, unspaced before = u ++ [","%char]) -> Forall2 (argument_value C) texts vals ->
  refused line s "Argument can not be """".".
Proof.
  intros R K M PC U F. refine (refused_call C s line word body name _ _ _ R K M _ _); [|reflexivity]. unfold cmd_call.
  rewrite (read_args_empty C after before [] texts vals); [reflexivity|now apply split_args_pieces|exact F|]. destruct U as [U|U]; [left; auto|now right].
Qed.
Print Assumptions C63_empty_argument.

(** ** The members at the start: one function and four constants, with these names and no others *)
Theorem C62_start C pi e phi egamma s : boot C pi e phi egamma = Ok s ->
  (exists f t, parse (cp C) (cdec C) (txt "((1/5)^0.5)*(((1+5^0.5)/2)^n-((1-5^0.5)/2)^n)") = Ok t /\ expr_normalize (cp C) t = Ok f /\ mget "fib" (funcs s) = Some (["n"%string], f)) /\
  (forall k, mget k (funcs s) <> None <-> k = "fib"%string) /\
  mget "pi" (consts s) = Some pi /\ mget "e" (consts s) = Some e /\ mget "phi" (consts s) = Some phi /\ mget "egamma" (consts s) = Some egamma /\
  (forall k, mget k (consts s) <> None <-> In k ["pi"; "e"; "phi"; "egamma"]%string).
Proof.
  unfold boot, parse_normal. change fib_text with (txt "((1/5)^0.5)*(((1+5^0.5)/2)^n-((1-5^0.5)/2)^n)"). destruct (parse (cp C) (cdec C) _) as [t|m|m|]; cbn [bind]; try discriminate. destruct (expr_normalize (cp C) t) as [f|m|m|] eqn:N; cbn [bind]; try discriminate. intros E. injection E as <-. cbn [funcs consts].
  split; [exists f, t; split; [reflexivity|]; split; [exact N|reflexivity]|].
  split. { intros k. cbn [mget]. destruct (String.eqb_spec k "fib"); [split; congruence|]. split; congruence. }
  do 4 (split; [reflexivity|]). intros k. cbn [mget In].
  destruct (String.eqb_spec k "e"); [subst; split; [intros _; auto|discriminate]|]. destruct (String.eqb_spec k "egamma"); [subst; split; [intros _; auto|discriminate]|].
  destruct (String.eqb_spec k "phi"); [subst; split; [intros _; auto|discriminate]|]. destruct (String.eqb_spec k "pi"); [subst; split; [intros _; auto|discriminate]|].
  split; [congruence|]. intros [H|[H|[H|[H|[]]]]]; congruence.
Qed.
Print Assumptions C62_start.

(** ** cases *)
Local Notation C0 := CliProps.C0.
Local Notation s0 := CliProps.s0.
Local Lemma lacks_by c t : existsb (Ascii.eqb c) t = false -> lacks c t.
Proof. intros H I. rewrite <- not_true_iff_false in H. apply H. apply existsb_exists. exists c. split; [exact I|apply Ascii.eqb_refl]. Qed.
Example C62_messages_hyp :
  reads (txt "func f=x") (txt "func") (txt "f=x") /\ lacks "(" (txt "f=x") /\
  reads (txt "func f(x,,y)=x") (txt "func") (txt "f(x,,y)=x") /\ CliProps.see "func f(x,,y)=x" s0 = ("symxx> ", Continue (Some "Argument can not be """"."))%string /\
  reads (txt "func f(x) 3") (txt "func") (txt "f(x) 3") /\ pieces (txt "x") [txt "x"] /\ CliProps.see "func f(x) 3" s0 = ("symxx> ", Continue (Some "Expected '='."))%string /\
  reads (txt "constant a7") (txt "constant") (txt "a7") /\ lacks "=" (txt "a7") /\ CliProps.see "constant  =7" s0 = ("symxx> ", Continue (Some "Constant's name can not be empty."))%string /\
  CliProps.see "factor x+1" s0 = ("symxx> ", Continue (Some "Invailed string"))%string /\ CliProps.see "factor (x+1)^y" s0 = ("symxx> ", Continue (Some "Invailed string"))%string.
Proof.
  split; [split; [now apply lacks_by|now left]|]. split; [now apply lacks_by|].
  split; [split; [now apply lacks_by|now left]|]. split; [vm_compute; reflexivity|].
  split; [split; [now apply lacks_by|now left]|]. split; [split; [|left; reflexivity]; repeat constructor; [discriminate|now apply lacks_by]|]. split; [vm_compute; reflexivity|].
  split; [split; [now apply lacks_by|now left]|]. split; [now apply lacks_by|]. split; [vm_compute; reflexivity|]. split; vm_compute; reflexivity.
Qed.
(** three empty pieces, in front, in between, and none behind: a comma behind the last name is accepted *)
Example C62_pieces_hyp : (forall l, ~ pieces (txt "x,,y") l) /\ (forall l, ~ pieces (txt " ,x") l) /\ pieces (txt "x,") [txt "x"].
Proof.
  split; [|split].
  - intros l H. apply split_args_pieces in H. discriminate H.
  - intros l H. apply split_args_pieces in H. discriminate H.
  - apply split_args_pieces. reflexivity.
Qed.
Example C63_messages_hyp : let s := CliProps.after ["func f(x,y)=x-2y"]%string s0 in
  CliProps.see "f(1)" s = ("symxx> ", Continue (Some "Expected 2 arguments"))%string /\ CliProps.see "f(1,,2)" s = ("symxx> ", Continue (Some "Argument can not be """"."))%string /\ CliProps.see "f(,1)" s = ("symxx> ", Continue (Some "Argument can not be """"."))%string /\
  calls (txt "f(1,,2)") (list_ascii_of_string "f") (txt "1," ++ ","%char :: txt "2") /\ pieces (txt "1,") [txt "1"] /\ (exists u, unspaced (txt "1,") = u ++ [","%char]) /\
  Forall2 (argument_value C0) [txt "1"] [Real 1 (Rat 1 1) (Rat 1 1)].
Proof.
  cbv zeta. do 3 (split; [vm_compute; reflexivity|]). split; [exists []; split; [reflexivity|split; now apply lacks_by]|]. split; [apply split_args_pieces; reflexivity|]. split; [exists (txt "1"); reflexivity|].
  constructor; [|constructor]. exists (Rat 1 1). split; vm_compute; reflexivity.
Qed.
(** the line of an empty argument is refused only when it is reached: an argument before it that is no number is reported instead *)
Example C63_first_problem : let s := CliProps.after ["func f(x,y)=x-2y"]%string s0 in CliProps.see "f(q,,2)" s = ("symxx> ", Continue (Some "Invaild string."))%string.
Proof. vm_compute. reflexivity. Qed.
Example C62_start_hyp : match boot C0 1 2 3 4 with Ok s => mget "phi" (consts s) = Some 3 | _ => False end.
Proof. vm_compute. reflexivity. Qed.
