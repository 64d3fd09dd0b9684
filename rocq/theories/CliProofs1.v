(** Proofs: the command line. *)
From Coq Require Import ZArith String Ascii Lia Bool List Sorted.
From Verif Require Import Base AdapterModel RationalModel RationalProofs2 RealModel PolyModel ExprModel ParserModel CliModel ErrSpec ErrProofs1 ErrProofs2 ErrProofs3 CliSpec.
Import ListNotations.
Open Scope Z_scope.

(** ** text *)
Lemma lacks_all c t : lacks c t <-> Forall (fun x => Ascii.eqb x c = false) t.
Proof.
  unfold lacks. induction t as [|x t IH]; cbn [In]; [split; [constructor|tauto]|]. split.
  - intros H. constructor; [apply Ascii.eqb_neq; intros ->; tauto|tauto].
  - intros H [->|I]; inversion H as [|? ? H1 H2]; subst; [now rewrite Ascii.eqb_refl in H1|tauto].
Qed.
Lemma find_some c t a b : find_char c t = Some (a, b) <-> t = a ++ c :: b /\ lacks c a.
Proof.
  split.
  - revert a b. induction t as [|x t IH]; intros a b; cbn [find_char]; [discriminate|]. destruct (Ascii.eqb_spec x c) as [->|N].
    + intros E. injection E as <- <-. split; [reflexivity|]. intros [].
    + destruct (find_char c t) as [[a' b']|]; [|discriminate]. intros E. injection E as <- <-. destruct (IH a' b' eq_refl) as [-> L]. split; [reflexivity|]. intros [?|?]; [congruence|exact (L H)].
  - intros [-> L]. apply find_char_app. now apply lacks_all.
Qed.
Lemma find_none c t : find_char c t = None <-> lacks c t.
Proof.
  split; [|intros L; apply find_char_none; now apply lacks_all]. induction t as [|x t IH]; cbn [find_char]; [intros _ []|].
  destruct (Ascii.eqb_spec x c) as [->|N]; [discriminate|]. destruct (find_char c t) as [[a b]|]; [discriminate|]. intros _ [?|I]; [congruence|]. exact (IH eq_refl I).
Qed.
Lemma split_reads line : reads line (fst (split_line line)) (snd (split_line line)).
Proof.
  unfold split_line. destruct (find_char " " line) as [[a b]|] eqn:E.
  - apply find_some in E. destruct E as [E L]. split; [exact L|left; exact E].
  - apply find_none in E. split; [exact E|right; split; reflexivity].
Qed.
Lemma reads_split line word body : reads line word body -> split_line line = (word, body).
Proof.
  intros [L [->|[-> ->]]]; unfold split_line.
  - rewrite (proj2 (find_some " " _ word body)); [reflexivity|]. split; [reflexivity|exact L].
  - rewrite (proj2 (find_none " " word)); [reflexivity|exact L].
Qed.
Lemma text_string t u : string_of_list_ascii t = string_of_list_ascii u <-> t = u.
Proof. split; [|congruence]. intros E. rewrite <- (list_ascii_of_string_of_list_ascii t), <- (list_ascii_of_string_of_list_ascii u). congruence. Qed.
Lemma string_txt s : string_of_list_ascii (txt s) = s. Proof. apply string_of_list_ascii_of_string. Qed.
Lemma is_cmd_spec t n : is_cmd t n = true <-> t = txt n.
Proof.
  unfold is_cmd. rewrite String.eqb_eq. split; intros E.
  - apply text_string. now rewrite E, string_txt.
  - subst. apply string_txt.
Qed.
Lemma is_cmd_txt n m : is_cmd (txt n) m = String.eqb n m. Proof. unfold is_cmd. now rewrite string_txt. Qed.
Lemma is_cmd_not t n : t <> txt n -> is_cmd t n = false.
Proof. intros N. destruct (is_cmd t n) eqn:E; [|reflexivity]. apply is_cmd_spec in E. contradiction. Qed.

Lemma follow_say {C} (s : cstate C) k : follow (say [] s) k = k s.
Proof. unfold follow, say. cbn [fin post out app]. destruct (k s) as [o f p]. reflexivity. Qed.
Lemma follow_ok {C} (r : result C) s : post r = s -> follow r (say []) = r.
Proof. intros E. unfold follow, say. destruct r as [o [[]|m|m|] p]; cbn [fin out post] in *; try reflexivity. now rewrite app_nil_r. Qed.

(** ** maps *)
Lemma str_refl k : String.compare k k = Eq.
Proof. induction k as [|c k IH]; cbn [String.compare]; [reflexivity|]. unfold Ascii.compare. now rewrite N.compare_refl. Qed.
Lemma mget_mput {A} k k' (v : A) m : mget k (mput k' v m) = if String.eqb k k' then Some v else mget k m.
Proof.
  induction m as [|[k1 v1] m IH]; cbn [mput mget]; [reflexivity|]. destruct (String.compare k' k1) eqn:Cp; cbn [mget].
  - apply String.compare_eq_iff in Cp. subst k1. destruct (String.eqb_spec k k'); reflexivity.
  - reflexivity.
  - rewrite IH. destruct (String.eqb_spec k k') as [->|N]; [|reflexivity]. destruct (String.eqb_spec k' k1) as [->|]; [|reflexivity].
    rewrite str_refl in Cp. discriminate Cp.
Qed.
Lemma mget_in {A} k (v : A) m : mget k m = Some v -> In (k, v) m.
Proof. induction m as [|[k1 v1] m IH]; cbn [mget]; [discriminate|]. destruct (String.eqb_spec k k1) as [->|N]; [intros E; injection E as ->; now left|right; auto]. Qed.
Lemma mget_key {A} k (m : list (string * A)) : In k (map fst m) -> exists v, mget k m = Some v.
Proof. induction m as [|[k1 v1] m IH]; cbn [mget map fst]; [intros []|]. intros [->|I]; [rewrite String.eqb_refl; eauto|]. destruct (String.eqb k k1); eauto. Qed.
Lemma mput_forall {A} (Q : string * A -> Prop) k v m : Forall Q m -> Q (k, v) -> Forall Q (mput k v m).
Proof.
  intros H K. induction H as [|[k1 v1] m H1 H IH]; cbn [mput]; [constructor; [exact K|constructor]|].
  destruct (String.compare k k1); repeat (constructor; try assumption).
Qed.
Lemma str_trans a b c : String.compare a b = Lt -> String.compare b c = Lt -> String.compare a c = Lt.
Proof.
  revert b c. induction a as [|x a IH]; intros [|y b] [|z c]; cbn [String.compare]; try discriminate; auto. intros H1 H2.
  unfold Ascii.compare in *. destruct (N.compare_spec (N_of_ascii x) (N_of_ascii y)) as [E1|L1|L1]; try discriminate H1;
    destruct (N.compare_spec (N_of_ascii y) (N_of_ascii z)) as [E2|L2|L2]; try discriminate H2.
  - rewrite E1, E2, N.compare_refl. eauto.
  - rewrite E1. now rewrite (proj2 (N.compare_lt_iff _ _) L2).
  - rewrite <- E2. now rewrite (proj2 (N.compare_lt_iff _ _) L1).
  - assert (L : (N_of_ascii x < N_of_ascii z)%N) by lia. now rewrite (proj2 (N.compare_lt_iff _ _) L).
Qed.
Lemma mput_ordered {A} k (v : A) m : ordered m -> ordered (mput k v m).
Proof.
  unfold ordered. intros H. induction H as [|[k1 v1] m H IH F]; cbn [mput]; [constructor; constructor|]. destruct (String.compare k k1) eqn:Cp.
  - apply String.compare_eq_iff in Cp. subst k1. constructor; [exact H|exact F].
  - constructor; [constructor; [exact H|exact F]|]. constructor; [exact Cp|]. eapply Forall_impl; [|exact F]. cbn [fst]. intros b. now apply str_trans.
  - constructor; [exact IH|]. apply mput_forall; [exact F|]. cbn [fst]. rewrite String.compare_antisym, Cp. reflexivity.
Qed.

(** ** the exceptions of an action *)
Definition rout {C} (X : string -> Prop) (r : result C) : Prop := match fin r with Throw m => X m | _ => True end.
Definition keeps {C} (s : cstate C) (r : result C) : Prop := post r = s.
Lemma r_say {C} X t (s : cstate C) : rout X (say t s). Proof. exact I. Qed.
Lemma r_run {C A} X (Q : A -> Prop) (r : res A) (s : cstate C) k : outcome X Q r -> (forall x, Q x -> rout X (k x)) -> rout X (run r s k).
Proof. destruct r as [x|m|u|]; cbn [outcome run]; intros H K; [exact (K x H)|exact H|exact I|exact I]. Qed.
Lemma r_follow {C} X (r : result C) k : rout X r -> rout X (k (post r)) -> rout X (follow r k).
Proof. unfold rout, follow. destruct (fin r) eqn:E; cbn [fin]; rewrite ?E; auto. Qed.
Lemma k_run {C A} (r : res A) (s : cstate C) k : (forall x, r = Ok x -> keeps s (k x)) -> keeps s (run r s k).
Proof. destruct r as [x|m|u|]; cbn [run]; intros K; [exact (K x eq_refl)|reflexivity ..]. Qed.
Lemma k_follow {C} (s : cstate C) r k : keeps s r -> keeps s (k s) -> keeps s (follow r k).
Proof. unfold keeps, follow. intros A B. destruct (fin r); try exact A. cbn [post]. now rewrite A. Qed.

Lemma k_print_func C n (s : cstate C) : keeps s (print_func C n s).
Proof. unfold print_func. destruct (mget n (funcs s)) as [[a e]|]; [|reflexivity]. destruct (expr_to_string (pe (cp C)) e); reflexivity. Qed.
Lemma k_print_constant C n (s : cstate C) : keeps s (print_constant C n s).
Proof. unfold print_constant. destruct (mget n (consts s)); reflexivity. Qed.
Lemma k_print_result C e (s : cstate C) : keeps s (print_result C e s).
Proof.
  unfold print_result. apply k_run. intros [n t] _. apply k_follow; [reflexivity|]. apply k_run. intros [] _; [reflexivity|]. apply k_run. intros [x|] _; reflexivity.
Qed.
Lemma k_normalize C b (s : cstate C) : keeps s (cmd_normalize C b s).
Proof. apply k_run. intros; apply k_print_result. Qed.
Lemma k_tex C b (s : cstate C) : keeps s (cmd_tex C b s). Proof. apply k_run. reflexivity. Qed.
Lemma k_ntex C b (s : cstate C) : keeps s (cmd_ntex C b s). Proof. apply k_run. reflexivity. Qed.
Lemma k_factor C b (s : cstate C) : keeps s (cmd_factor C b s). Proof. apply k_run. reflexivity. Qed.
Lemma k_each {C} (s : cstate C) f l : (forall n, keeps s (f n s)) -> keeps s (for_each f l s).
Proof. intros H. induction l as [|k l IH]; cbn [for_each]; [reflexivity|]. now apply k_follow. Qed.
Lemma k_print C b (s : cstate C) : keeps s (cmd_print C b s).
Proof.
  unfold cmd_print. destruct b as [|c b].
  - apply k_follow; apply k_each; intros; [apply k_print_func|apply k_print_constant].
  - apply k_follow; [destruct (has _ (funcs s)); [apply k_print_func|reflexivity]|destruct (has _ (consts s)); [apply k_print_constant|reflexivity]].
Qed.
Lemma k_call C n a (s : cstate C) : keeps s (cmd_call C n a s).
Proof.
  apply k_run. intros args _. destruct (mget n (funcs s)) as [[p e]|]; [|reflexivity]. destruct (Nat.eqb _ _); [|reflexivity]. apply k_run. intros; apply k_print_result.
Qed.
Lemma k_evaluate C line cmd (s : cstate C) : keeps s (evaluate C line cmd s).
Proof.
  unfold evaluate. destruct (find_char "(" cmd) as [[n r]|]; [|apply k_normalize]. destruct (find_char ")" r) as [[a r2]|]; [|apply k_normalize].
  destruct (has _ _); [apply k_call|apply k_normalize].
Qed.

(** ** the dispatch *)
Definition words_of : list string := ["normalize"; "tex"; "ntex"; "func"; "constant"; "print"; "factor"; "version"; "quit"]%string.
Lemma other_word cmd : ~ In cmd words -> Forall (fun n => is_cmd cmd n = false) words_of.
Proof. intros H. apply Forall_forall. intros n I. apply is_cmd_not. intros ->. apply H. unfold words. apply (in_map txt words_of n I). Qed.
Lemma dispatch_word C line n body (s : cstate C) : reads line (txt n) body ->
  dispatch C line s =
    let first := follow (if String.eqb n "normalize" then cmd_normalize C body s else say [] s) (fun s => if String.eqb n "tex" then cmd_tex C body s else say [] s) in
    if String.eqb n "ntex" then Some (follow first (cmd_ntex C body))
    else if String.eqb n "func" then Some (follow first (cmd_func C body))
    else if String.eqb n "constant" then Some (follow first (cmd_constant C body))
    else if String.eqb n "print" then Some (follow first (cmd_print C body))
    else if String.eqb n "factor" then Some (follow first (cmd_factor C body))
    else if String.eqb n "version" then Some (follow first (cmd_version C))
    else if String.eqb n "quit" then None
    else Some (follow first (evaluate C line (txt n))).
Proof. intros R. unfold dispatch. rewrite (reads_split _ _ _ R). rewrite !is_cmd_txt. reflexivity. Qed.
Lemma dispatch_other C line cmd body (s : cstate C) : reads line cmd body -> ~ In cmd words -> dispatch C line s = Some (evaluate C line cmd s).
Proof.
  intros R O. unfold dispatch. rewrite (reads_split _ _ _ R). apply other_word in O. unfold words_of in O.
  repeat match goal with H : Forall _ (_ :: _) |- _ => inversion H; clear H; subst end.
  repeat match goal with H : is_cmd cmd _ = false |- _ => rewrite H; clear H end. cbv zeta. rewrite !follow_say. reflexivity.
Qed.
Lemma round_does C line (s : cstate C) r : dispatch C line s = Some r -> does line s r.
Proof. intros E. unfold does, round. rewrite E. reflexivity. Qed.
Lemma does_word C line n body (s : cstate C) f : reads line (txt n) body ->
  In (n, f) [("ntex", cmd_ntex C); ("func", cmd_func C); ("constant", cmd_constant C); ("print", cmd_print C); ("factor", cmd_factor C); ("version", fun _ => cmd_version C)]%string ->
  does line s (f body s).
Proof.
  intros R I. apply round_does. rewrite (dispatch_word C line n body s R).
  repeat (destruct I as [I|I]; [injection I as <- <-; cbn [String.eqb Ascii.eqb Bool.eqb]; rewrite ?follow_say; reflexivity|]). destruct I.
Qed.
Lemma does_quit C line body (s : cstate C) : reads line (txt "quit") body -> round C line s = RoundEnd prompt Quit s.
Proof. intros R. unfold round. rewrite (dispatch_word C line "quit" body s R). reflexivity. Qed.
Lemma does_twice C line n body (s : cstate C) f : reads line (txt n) body -> In (n, f) [("normalize", cmd_normalize C); ("tex", cmd_tex C)]%string ->
  does_both line s (f body s) (cmd_normalize C line s).
Proof.
  intros R I. unfold does_both, round. rewrite (dispatch_word C line n body s R).
  destruct I as [I|[I|[]]]; injection I as <- <-; cbn [String.eqb Ascii.eqb Bool.eqb]; rewrite ?follow_say.
  - rewrite (follow_ok _ s) by apply k_normalize. unfold follow. destruct (fin (cmd_normalize C body s)) eqn:E; rewrite ?E; try reflexivity. cbn [out fin post].
    rewrite (k_normalize C body s). cbn [evaluate find_char txt list_ascii_of_string]. reflexivity.
  - unfold follow. destruct (fin (cmd_tex C body s)) eqn:E; rewrite ?E; try reflexivity. cbn [out fin post].
    rewrite (k_tex C body s). reflexivity.
Qed.
Lemma word_none cmd : In cmd words \/ ~ In cmd words.
Proof. destruct (in_dec (list_eq_dec Ascii.ascii_dec) cmd words); auto. Qed.
(** every line is one of four kinds *)
Lemma round_cases C line (s : cstate C) :
  (exists body, reads line (txt "quit") body) \/
  (exists n f body, reads line (txt n) body /\
     In (n, f) [("ntex", cmd_ntex C); ("func", cmd_func C); ("constant", cmd_constant C); ("print", cmd_print C); ("factor", cmd_factor C); ("version", fun _ => cmd_version C)]%string) \/
  (exists n f body, reads line (txt n) body /\ In (n, f) [("normalize", cmd_normalize C); ("tex", cmd_tex C)]%string) \/
  (exists cmd body, reads line cmd body /\ ~ In cmd words).
Proof.
  pose proof (split_reads line) as R. set (cmd := fst (split_line line)) in *. set (body := snd (split_line line)) in *. destruct (word_none cmd) as [I|O]; [|right; right; right; eauto].
  unfold words in I. cbn [map] in I.
  destruct I as [I|[I|[I|[I|[I|[I|[I|[I|[I|[]]]]]]]]]]; rewrite <- I in R.
  - right; right; left. exists "normalize"%string. do 2 eexists. split; [exact R|left; reflexivity].
  - right; right; left. exists "tex"%string. do 2 eexists. split; [exact R|right; left; reflexivity].
  - right; left. exists "ntex"%string. do 2 eexists. split; [exact R|]. left; reflexivity.
  - right; left. exists "func"%string. do 2 eexists. split; [exact R|]. do 1 right; left; reflexivity.
  - right; left. exists "constant"%string. do 2 eexists. split; [exact R|]. do 2 right; left; reflexivity.
  - right; left. exists "print"%string. do 2 eexists. split; [exact R|]. do 3 right; left; reflexivity.
  - right; left. exists "factor"%string. do 2 eexists. split; [exact R|]. do 4 right; left; reflexivity.
  - right; left. exists "version"%string. do 2 eexists. split; [exact R|]. do 5 right; left; reflexivity.
  - left. eauto.
Qed.
