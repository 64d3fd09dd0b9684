(** Proofs: the splitting of a line, and Huge(const std::string &), with positions. *)
From Coq Require Import ZArith NArith String Ascii Lia Bool List.
From Verif Require Import Base AdapterModel HugeModel RationalModel RationalProofs RealModel PolyModel ExprModel ParserModel CliModel ScanModel ScanSpec ScanProofs1.
Import ListNotations.
Open Scope Z_scope.

Lemma find_from_ok c s : forall i, find_from c s i = match find_char c s with Some (a, _) => Some (i + length a)%nat | None => None end.
Proof.
  induction s as [|x s IH]; intros i; cbn [find_from find_char]; [reflexivity|]. destruct (Ascii.eqb x c); [cbn [length]; f_equal; lia|]. rewrite IH. destruct (find_char c s) as [[a b]|]; [cbn [length]; f_equal; lia|reflexivity].
Qed.
Lemma find_char_split c s a b : find_char c s = Some (a, b) -> s = a ++ c :: b.
Proof.
  revert a b. induction s as [|x s IH]; intros a b; cbn [find_char]; [discriminate|]. destruct (Ascii.eqb_spec x c) as [->|]; [intros E; injection E as <- <-; reflexivity|]. destruct (find_char c s) as [[a' b']|]; [|discriminate]. intros E. injection E as <- <-. cbn [app]. f_equal. now apply IH.
Qed.
Lemma find_zero c s : find_first_of c s 0 = match find_char c s with Some (a, _) => Some (length a) | None => None end.
Proof. unfold find_first_of. cbn [skipn]. rewrite find_from_ok. destruct (find_char c s) as [[a b]|]; reflexivity. Qed.
Lemma skipn_app_exact {A} (a b : list A) : skipn (length a) (a ++ b) = b. Proof. rewrite skipn_app, skipn_all, Nat.sub_diag. reflexivity. Qed.
Lemma firstn_app_exact {A} (a b : list A) : firstn (length a) (a ++ b) = a. Proof. rewrite firstn_app, firstn_all, Nat.sub_diag. cbn [firstn]. apply app_nil_r. Qed.
(** both parentheses *)
Lemma find_parens s name rest : find_char "(" s = Some (name, rest) ->
  find_first_of ")" s (length name) = match find_char ")" rest with Some (a, _) => Some (length name + 1 + length a)%nat | None => None end.
Proof.
  intros H. apply find_char_split in H. subst s. unfold find_first_of. rewrite skipn_app_exact. cbn [find_from]. change (Ascii.eqb "(" ")") with false. cbn match. rewrite find_from_ok. destruct (find_char ")" rest) as [[a b]|]; [f_equal; lia|reflexivity].
Qed.
Lemma substr_ok s i n : (i <= length s)%nat -> substr s i n = ret (firstn n (skipn i s)).
Proof. intros H. unfold substr. now rewrite (proj2 (Nat.leb_le _ _) H). Qed.
Lemma line_at_ok str : line_at str = ret (split_line str).
Proof.
  unfold line_at, split_line. rewrite find_zero. destruct (find_char " " str) as [[a b]|] eqn:F; [|reflexivity]. apply find_char_split in F. subst str. assert (L : length (a ++ " "%char :: b) = (length a + 1 + length b)%nat) by (rewrite app_length; cbn [length]; lia).
  rewrite substr_ok by lia. rewrite sbind_ret, substr_ok by lia. rewrite sbind_ret. cbn [skipn]. rewrite firstn_app_exact. replace (a ++ " "%char :: b) with ((a ++ [" "%char]) ++ b) by (rewrite <- app_assoc; reflexivity). replace (length a + 1)%nat with (length (a ++ [" "%char])) by (rewrite app_length; reflexivity). rewrite skipn_app_exact. rewrite firstn_all2; [reflexivity|]. rewrite !app_length. lia.
Qed.
Lemma call_at_ok cmd : call_at cmd = ret (match find_char "(" cmd with Some (name, rest) => match find_char ")" rest with Some (a, _) => Some (name, a) | None => None end | None => None end).
Proof.
  unfold call_at. cbv zeta. rewrite find_zero. destruct (find_char "(" cmd) as [[name rest]|] eqn:F; [|reflexivity]. rewrite (find_parens cmd name rest F). destruct (find_char ")" rest) as [[a b]|] eqn:F2; [|reflexivity].
  apply find_char_split in F, F2. subst rest cmd. assert (L : length (name ++ "("%char :: a ++ ")"%char :: b) = (length name + 1 + length a + 1 + length b)%nat) by (rewrite app_length; cbn [length]; rewrite app_length; cbn [length]; lia).
  rewrite substr_ok by lia. rewrite sbind_ret, substr_ok by lia. rewrite sbind_ret. cbn [skipn]. rewrite firstn_app_exact. replace (name ++ "("%char :: a ++ ")"%char :: b) with ((name ++ ["("%char]) ++ a ++ ")"%char :: b) by (rewrite <- app_assoc; reflexivity).
  replace (length name + 1)%nat with (length (name ++ ["("%char])) by (rewrite app_length; reflexivity). rewrite skipn_app_exact. replace (length (name ++ ["("%char]) + length a - length name - 1)%nat with (length a) by (rewrite app_length; cbn [length]; lia). rewrite firstn_app_exact. reflexivity.
Qed.
Lemma args_at_ok body rp : (rp <= length body)%nat -> forall fuel i temp, (rp - i < fuel)%nat ->
  keeps body eq (args_at fuel body i rp temp) (split_args (firstn (rp - i) (skipn i body)) (rev temp)).
Proof.
  intros R. induction fuel as [|f IH]; intros i temp F; [lia|]. cbn [args_at]. destruct (Nat.ltb_spec i rp) as [L|L].
  - destruct (read_in body i ltac:(lia)) as (c & r & S1 & S2 & RD & I). rewrite RD, S1. rewrite ?sbind_ret. destruct (rp - i)%nat as [|k] eqn:K; [lia|]. cbn [firstn split_args]. replace k with (rp - S i)%nat by lia. rewrite <- S2.
    apply (keeps_let body _ _ (is_space c)); [apply ctype_ok; now left|]. destruct (is_space c); [apply IH; lia|]. rewrite ?sbind_ret. destruct (Ascii.eqb c ",").
    + destruct temp as [|x temp]; [exact eq_refl|]. destruct (rev (x :: temp)) as [|y v] eqn:RV; [apply (f_equal (@length _)) in RV; rewrite rev_length in RV; discriminate|]. eapply keeps_bind; [apply (IH (S i) []); lia|]. intros a b <-. apply keeps_ret. rewrite <- RV, rev_involutive. reflexivity.
    + replace (c :: rev temp) with (rev (temp ++ [c])) by (rewrite rev_app_distr; reflexivity). apply IH. lia.
  - replace (rp - i)%nat with O by lia. cbn [firstn split_args]. apply keeps_ret. destruct temp as [|x temp]; [reflexivity|]. destruct (rev (x :: temp)) as [|y v] eqn:RV; [apply (f_equal (@length _)) in RV; rewrite rev_length in RV; discriminate|]. rewrite <- RV, rev_involutive. reflexivity.
Qed.
Lemma spaces_at_ok body : forall fuel i, (i <= length body)%nat -> (length body - i < fuel)%nat ->
  keeps body (fun q s => (q <= length body)%nat /\ skipn q body = s) (spaces_at fuel body i) (Ok (drop_spaces (skipn i body))).
Proof.
  induction fuel as [|f IH]; intros i L F; [lia|]. cbn [spaces_at]. destruct (Nat.eq_dec i (length body)) as [->|N].
  - rewrite read_end by reflexivity. rewrite ?sbind_ret. change (ctype is_space "000") with (ret false). rewrite sbind_ret. rewrite skipn_all. apply keeps_ret. split; [lia|apply skipn_all].
  - destruct (read_in body i ltac:(lia)) as (c & r & S1 & S2 & RD & I). rewrite RD, S1. rewrite ?sbind_ret. apply (keeps_let body _ _ (is_space c)); [apply ctype_ok; now left|]. cbn [drop_spaces]. destruct (is_space c); [rewrite <- S2; apply IH; lia|]. apply keeps_ret. split; [lia|exact S1].
Qed.
(** the parts of the body of func *)
Definition func_parts (body : text) : res (text * list text * text) :=
  match find_char "(" body with
  | None => Throw needs_parens
  | Some (name, rest) =>
      match find_char ")" rest with
      | None => Throw needs_parens
      | Some (argtext, rest2) =>
          args <- split_args argtext [] ;;
          match drop_spaces rest2 with
          | c :: def => if Ascii.eqb c "=" then Ok (name, args, def) else Throw expected_equals
          | [] => Throw expected_equals
          end
      end
  end.
Lemma read_func_parts C body : read_func C body = ('(n, a, d) <- func_parts body ;; e <- parse_normal C d ;; Ok (string_of_list_ascii n, (map string_of_list_ascii a, e))).
Proof.
  unfold read_func, func_parts. destruct (find_char "(" body) as [[n r]|]; [|reflexivity]. destruct (find_char ")" r) as [[a r2]|]; [|reflexivity]. destruct (split_args a []); try reflexivity. cbn [bind]. destruct (drop_spaces r2) as [|c d]; [reflexivity|]. destruct (Ascii.eqb c "="); reflexivity.
Qed.
Lemma func_at_ok body : reads_as body (func_at body) (func_parts body).
Proof.
  apply keeps_reads. unfold func_at, func_parts. cbv zeta. rewrite find_zero. destruct (find_char "(" body) as [[name rest]|] eqn:F; [|exact eq_refl]. rewrite (find_parens body name rest F). destruct (find_char ")" rest) as [[a b]|] eqn:F2; [|exact eq_refl].
  apply find_char_split in F, F2. subst rest. assert (L : length body = (length name + 1 + length a + 1 + length b)%nat) by (rewrite F, app_length; cbn [length]; rewrite app_length; cbn [length]; lia).
  assert (S1 : skipn (length name + 1) body = a ++ ")"%char :: b).
  { rewrite F. replace (name ++ "("%char :: a ++ ")"%char :: b) with ((name ++ ["("%char]) ++ a ++ ")"%char :: b) by (rewrite <- app_assoc; reflexivity). replace (length name + 1)%nat with (length (name ++ ["("%char])) by (rewrite app_length; reflexivity). apply skipn_app_exact. }
  assert (S2 : skipn (length name + 1 + length a + 1) body = b).
  { rewrite F. replace (name ++ "("%char :: a ++ ")"%char :: b) with ((name ++ "("%char :: a ++ [")"%char]) ++ b) by (rewrite <- app_assoc; cbn [app]; rewrite <- app_assoc; reflexivity). replace (length name + 1 + length a + 1)%nat with (length (name ++ "("%char :: a ++ [")"%char])) by (rewrite app_length; cbn [length]; rewrite app_length; cbn [length]; lia). apply skipn_app_exact. }
  rewrite substr_ok by lia. rewrite sbind_ret. replace (firstn (length name) (skipn 0 body)) with name by (cbn [skipn]; rewrite F; symmetry; apply firstn_app_exact).
  eapply keeps_bind.
  { pose proof (args_at_ok body (length name + 1 + length a) ltac:(lia) (S (length body)) (length name + 1) [] ltac:(lia)) as H. replace (length name + 1 + length a - (length name + 1))%nat with (length a) in H by lia. rewrite S1, firstn_app_exact in H. exact H. }
  intros x y <-. eapply keeps_val; [apply spaces_at_ok; lia|]. intros i [Li Si]. rewrite S2 in Si. destruct (drop_spaces b) as [|c def].
  - assert (i = length body). { destruct (Nat.eq_dec i (length body)); [assumption|]. destruct (read_in body i ltac:(lia)) as (c & r & X & _). congruence. } rewrite read_end by assumption. rewrite sbind_ret. change (Ascii.eqb "000" "=") with false. exact eq_refl.
  - assert (Hi : (i < length body)%nat). { destruct (Nat.eq_dec i (length body)) as [->|]; [rewrite skipn_all in Si; discriminate|lia]. } destruct (read_in body i Hi) as (c' & r & X1 & X2 & RD & _). rewrite Si in X1. injection X1 as <- <-. rewrite RD, sbind_ret. destruct (Ascii.eqb c "="); [|exact eq_refl].
    rewrite substr_ok by lia. rewrite sbind_ret. rewrite Nat.add_1_r, X2. rewrite firstn_all2; [now apply keeps_ret|]. rewrite <- X2, skipn_length. lia.
Qed.
(** the parts of the body of constant *)
Definition constant_parts (body : text) : res (text * text) :=
  match find_char "=" body with
  | None => Throw expected_equals
  | Some (name, val) => match no_spaces name with [] => Throw "Constant's name can not be empty." | k => Ok (k, val) end
  end.
Lemma read_constant_parts C body : read_constant C body = ('(k, v) <- constant_parts body ;; x <- d_read (cf C) v ;; Ok (string_of_list_ascii k, x)).
Proof. unfold read_constant, constant_parts. destruct (find_char "=" body) as [[n v]|]; [|reflexivity]. destruct (no_spaces n); reflexivity. Qed.
Lemma name_at_ok body eq_ : (eq_ <= length body)%nat -> forall fuel i temp, (eq_ - i < fuel)%nat ->
  keeps body eq (name_at fuel body i eq_ temp) (Ok (temp ++ no_spaces (firstn (eq_ - i) (skipn i body)))).
Proof.
  intros R. induction fuel as [|f IH]; intros i temp F; [lia|]. cbn [name_at]. destruct (Nat.ltb_spec i eq_) as [L|L].
  - destruct (read_in body i ltac:(lia)) as (c & r & S1 & S2 & RD & I). rewrite RD, S1. rewrite ?sbind_ret. destruct (eq_ - i)%nat as [|k] eqn:K; [lia|]. cbn [firstn]. unfold no_spaces. cbn [filter]. replace k with (eq_ - S i)%nat by lia. rewrite <- S2.
    apply (keeps_let body _ _ (is_space c)); [apply ctype_ok; now left|]. destruct (is_space c); cbn [negb]; [apply IH; lia|]. rewrite ?sbind_ret. replace (temp ++ c :: filter (fun c0 => negb (is_space c0)) (firstn (eq_ - S i) (skipn (S i) body))) with ((temp ++ [c]) ++ no_spaces (firstn (eq_ - S i) (skipn (S i) body))) by (rewrite <- app_assoc; reflexivity). apply IH. lia.
  - replace (eq_ - i)%nat with O by lia. cbn. rewrite app_nil_r. now apply keeps_ret.
Qed.
Lemma constant_at_ok body : reads_as body (constant_at body) (constant_parts body).
Proof.
  apply keeps_reads. unfold constant_at, constant_parts. rewrite find_zero. destruct (find_char "=" body) as [[name val]|] eqn:F; [|exact eq_refl]. apply find_char_split in F. assert (L : length body = (length name + 1 + length val)%nat) by (rewrite F, app_length; cbn [length]; lia).
  eapply keeps_val; [apply name_at_ok; lia|]. intros x H. cbn beta in H. cbn [app skipn] in H. rewrite Nat.sub_0_r in H. rewrite F in H at 1. rewrite firstn_app_exact in H. subst x. destruct (no_spaces name) as [|c k]; [exact eq_refl|].
  rewrite substr_ok by lia. rewrite sbind_ret. replace (skipn (length name + 1) body) with val.
  - rewrite firstn_all2 by lia. now apply keeps_ret.
  - rewrite F. replace (name ++ "="%char :: val) with ((name ++ ["="%char]) ++ val) by (rewrite <- app_assoc; reflexivity). replace (length name + 1)%nat with (length (name ++ ["="%char])) by (rewrite app_length; reflexivity). symmetry. apply skipn_app_exact.
Qed.
Lemma call_args_keeps C all : forall t, (forall c, In c t -> In c all) -> forall temp, keeps all eq (call_args C t temp) (read_args C t (rev temp)).
Proof.
  induction t as [|c t IH]; intros HI temp; cbn [call_args read_args]; cbv zeta.
  - destruct temp as [|x temp]; [now apply keeps_ret|]. destruct (rev (x :: temp)) as [|y v] eqn:RV; [apply (f_equal (@length _)) in RV; rewrite rev_length in RV; discriminate|]. rewrite <- RV, rev_involutive. eapply keeps_bind; [apply keeps_res|]. intros q ? <-. eapply keeps_bind; [apply keeps_res|]. intros r ? <-. now apply keeps_ret.
  - assert (IH' := IH (fun d I => HI d (or_intror I))). apply (keeps_let all _ _ (is_space c)); [apply ctype_ok; left; apply HI; now left|]. destruct (is_space c); [apply IH'|]. destruct (Ascii.eqb c ",").
    + destruct temp as [|x temp]; [exact eq_refl|]. destruct (rev (x :: temp)) as [|y v] eqn:RV; [apply (f_equal (@length _)) in RV; rewrite rev_length in RV; discriminate|]. rewrite <- RV, rev_involutive. eapply keeps_bind; [apply keeps_res|]. intros q ? <-. eapply keeps_bind; [apply keeps_res|]. intros r ? <-. eapply keeps_bind; [apply (IH' [])|]. intros l ? <-. now apply keeps_ret.
    + replace (c :: rev temp) with (rev (temp ++ [c])) by (rewrite rev_app_distr; reflexivity). apply IH'.
Qed.
Lemma call_args_ok C t : reads_as t (call_args C t []) (read_args C t []).
Proof. apply keeps_reads. apply (call_args_keeps C t t); auto. Qed.

(** ** Huge *)
Lemma huge_skip_ok s : forall fuel p, (p <= length s)%nat -> (length s - p < fuel)%nat ->
  keeps s (fun q r => (q <= length s)%nat /\ skipn q s = r) (huge_skip fuel s (length s) p) (Ok (skip_prefix (skipn p s))).
Proof.
  induction fuel as [|f IH]; intros p L F; [lia|]. cbn [huge_skip]. destruct (Nat.eq_dec p (length s)) as [->|N].
  - rewrite read_end by reflexivity. rewrite ?sbind_ret. change (ctype isdigit "000") with (ret false). rewrite ?sbind_ret. change (Ascii.eqb "000" "+") with false. cbv iota. rewrite ?sbind_ret. change (Ascii.eqb "000" "-") with false. cbv iota. rewrite Nat.ltb_irrefl, skipn_all. apply keeps_ret. split; [lia|apply skipn_all].
  - destruct (read_in s p ltac:(lia)) as (c & r & S1 & S2 & RD & I). rewrite RD, S1. rewrite ?sbind_ret. apply (keeps_let s _ _ (isdigit c)); [apply ctype_ok; now left|]. cbn [skip_prefix]. destruct (isdigit c); cbn [orb]; [apply keeps_ret; split; [lia|exact S1]|]. rewrite ?sbind_ret. destruct (Ascii.eqb c "+"); cbn [orb]; [apply keeps_ret; split; [lia|exact S1]|]. rewrite ?sbind_ret. destruct (Ascii.eqb c "-"); [apply keeps_ret; split; [lia|exact S1]|].
    rewrite (proj2 (Nat.ltb_lt p (length s))) by lia. rewrite <- S2. apply IH; lia.
Qed.
Definition chunk_rel (s : text) (p0 : nat) (x : Z * Z * nat * nat) (y : Z * Z * list ascii * bool) : Prop :=
  let '(c, i, p, e) := x in let '(c', i', rest, stop) := y in c = c' /\ i = i' /\ if stop then p = S e else e = length s /\ (p0 <= p <= length s)%nat /\ skipn p s = rest.
Lemma chunk_at_ok s : forall n fuel p c i, (p <= length s)%nat -> i = 9 - Z.of_nat n -> (n + 2 <= fuel)%nat ->
  forall p0, (p0 <= p)%nat -> keeps s (chunk_rel s p0) (chunk_at fuel s (length s) p c i) (Ok (read_chunk n c i (skipn p s))).
Proof.
  induction n as [|n IH]; intros [|f] p c i L E F p0 L0; try lia; cbn [chunk_at read_chunk].
  - rewrite (proj2 (Z.ltb_ge i 9)) by lia. cbn [andb]. apply keeps_ret. cbn. repeat split; lia.
  - rewrite (proj2 (Z.ltb_lt i 9)) by lia. cbn [andb]. destruct (Nat.ltb_spec p (length s)) as [L2|L2].
    + destruct (read_in s p L2) as (ch & r & S1 & S2 & RD & I). rewrite RD, S1. rewrite ?sbind_ret. apply (keeps_let s _ _ (isdigit ch)); [apply ctype_ok; now left|]. destruct (isdigit ch).
      * rewrite ?sbind_ret, <- ?S2. apply IH; lia.
      * destruct f as [|f]; [lia|]. cbn [chunk_at]. rewrite (proj2 (Nat.ltb_ge (S p) p)) by lia. rewrite andb_false_r. apply keeps_ret. cbn. auto.
    + rewrite skipn_end by lia. apply keeps_ret. cbn. repeat split; try lia. apply skipn_end. lia.
Qed.
Lemma huge_loop_ok s : forall f1 f2 p ds, (p <= length s)%nat -> (length s - p < f1)%nat -> (length s - p <= f2)%nat ->
  keeps s eq (huge_loop f1 s (length s) p ds) (parse_loop f2 (skipn p s) ds).
Proof.
  induction f1 as [|f1 IH]; intros f2 p ds L F1 F2; [lia|]. cbn [huge_loop]. destruct (Nat.ltb_spec p (length s)) as [L2|L2].
  - destruct (read_in s p L2) as (ch & r & S1 & S2 & RD & I). rewrite RD, S1. rewrite ?sbind_ret. apply (keeps_let s _ _ (isdigit ch)); [apply ctype_ok; now left|]. destruct f2 as [|f2]; [lia|]. cbn [parse_loop]. destruct (isdigit ch); cbn [negb]; [|now apply keeps_ret]. rewrite ?sbind_ret.
    pose proof (chunk_at_ok s 8 10 (S p) (digit_of ch) 1 ltac:(lia) eq_refl ltac:(lia) (S p) ltac:(lia)) as H. rewrite S2 in H. eapply keeps_val; [exact H|]. destruct (read_chunk 8 (digit_of ch) 1 r) as [[[c i] rest] stop]. intros [[[c' i'] p'] e'] (-> & -> & R).
    eapply keeps_bind; [apply keeps_res|]. intros ds' ? <-. destruct stop.
    + subst p'. destruct f1 as [|f1]; [lia|]. cbn [huge_loop]. rewrite (proj2 (Nat.ltb_ge (S e') e')) by lia. now apply keeps_ret.
    + destruct R as (-> & Lp & <-). apply IH; lia.
  - rewrite skipn_end by lia. destruct f2; now apply keeps_ret.
Qed.
Lemma huge_at_ok s : reads_as s (huge_at s) (huge_of_string s).
Proof.
  apply keeps_reads. unfold huge_at, huge_of_string. cbv zeta. eapply keeps_val; [apply huge_skip_ok; lia|]. intros p [L H]. cbn [skipn] in H. destruct (Nat.ltb_spec p (length s)) as [L2|L2].
  - destruct (read_in s p L2) as (c & r & S1 & S2 & _). rewrite S1 in H. rewrite <- H. destruct s as [|c0 s]; [cbn in L2; lia|]. change (read (c0 :: s) 0) with (ret c0). rewrite ?sbind_ret. cbn [tl].
    destruct (Ascii.eqb_spec c0 "+") as [->|N].
    + change (Ascii.eqb "+" "-") with false. cbv iota. rewrite <- S2. eapply keeps_bind; [apply huge_loop_ok; lia|]. intros a b <-. now apply keeps_ret.
    + destruct (Ascii.eqb c0 "-"); cbv iota; [rewrite <- S2|rewrite <- S1]; (eapply keeps_bind; [apply huge_loop_ok; lia|]; intros a b <-; now apply keeps_ret).
  - rewrite skipn_end in H by lia. rewrite <- H. exact eq_refl.
Qed.
