(** The list of all definitions, the end of the input, extensionality of values. *)
From Coq Require Import ZArith QArith Qreals Reals String Ascii Lia Bool List Sorted.
From Verif Require Import Base AdapterModel RationalModel RationalSpec RealModel RealSpec PolyModel PolySpec ExprModel ExprSpec ParserModel CliModel ErrSpec ErrProofs1 ErrProofs2 ErrProofs3 ErrProofs4 CliSpec
  CliProofs1 CliProofs2 CliProofs3 CliProofs4.
Import ListNotations.
Open Scope Z_scope.

Lemma ev_ext s s' e : (forall k, s k = s' k) -> ev s e = ev s' e.
Proof.
  intros X. assert (S : forall m, sv s m = sv s' m) by (induction m as [|p m IH]; cbn [sv fold_right]; [reflexivity|]; unfold sv in IH; now rewrite IH, X).
  assert (Q : forall l, pv s l = pv s' l) by (induction l as [|t l IH]; cbn [pv fold_right]; [reflexivity|]; unfold pv in IH; rewrite IH; unfold tv; now rewrite S).
  induction e as [f|c l IHl r IHr]; cbn [ev]; [unfold fv; now rewrite !Q|now rewrite IHl, IHr].
Qed.

Lemma ordered_get {A} (m : list (string * A)) k v : ordered m -> In (k, v) m -> mget k m = Some v.
Proof.
  unfold ordered. induction 1 as [|[k0 v0] m S IH F]; intros I; [destruct I|]. cbn [mget]. destruct I as [E|I].
  - injection E as -> ->. now rewrite String.eqb_refl.
  - rewrite Forall_forall in F. specialize (F _ I). cbn [fst] in F. destruct (String.eqb_spec k k0) as [->|]; [rewrite str_refl in F; discriminate|]. auto.
Qed.
Lemma comma_joined l : comma_list l = joined (map txt l).
Proof. induction l as [|a [|b l] IH]; [reflexivity..|]. change (comma_list (a :: b :: l)) with (txt a ++ txt "," ++ comma_list (b :: l)). rewrite IH. reflexivity. Qed.

Section Print.
Context (C : cenv) (s : cstate C).
Lemma each_funcs l : (forall k d, In (k, d) l -> mget k (funcs s) = Some d) -> fin (for_each (print_func C) (map fst l) s) = Ok tt ->
  exists texts, Forall2 (fun f t => expr_to_string (pe (cp C)) (snd (snd f)) = Ok t) l texts /\
    out (for_each (print_func C) (map fst l) s) =
      flat_map (fun ft => txt "Function: " ++ txt (fst (fst ft)) ++ txt "(" ++ joined (map txt (fst (snd (fst ft)))) ++ txt ") = " ++ snd ft ++ newline) (combine l texts).
Proof.
  induction l as [|[k [a e]] l IH]; intros M E; cbn [map fst for_each] in *; [exists []; split; [constructor|reflexivity]|].
  assert (X : print_func C k s = match expr_to_string (pe (cp C)) e with
      | Ok t => say ((txt "Function: " ++ txt k ++ txt "(" ++ comma_list a ++ txt ") = ") ++ t ++ newline) s
      | r => Result (txt "Function: " ++ txt k ++ txt "(" ++ comma_list a ++ txt ") = ") (_ <- r ;; Ok tt) s end) by (unfold print_func; now rewrite (M k (a, e)) by now left).
  rewrite X in *. clear X. destruct (expr_to_string (pe (cp C)) e) as [t|m|m|] eqn:T; unfold follow in *; cbn [fin out say bind post] in *; try discriminate.
  destruct IH as (ts & F & O); [intros k' d I; apply M; now right|exact E|]. exists (t :: ts). split; [constructor; [exact T|exact F]|]. rewrite O.
  cbn [combine flat_map fst snd]. rewrite comma_joined. now rewrite <- !app_assoc.
Qed.
Lemma each_consts l : (forall k d, In (k, d) l -> mget k (consts s) = Some d) ->
  out (for_each (print_constant C) (map fst l) s) = flat_map (fun c => txt "Constant: " ++ txt (fst c) ++ txt " = " ++ d_show (cf C) (snd c) ++ newline) l.
Proof.
  induction l as [|[k x] l IH]; intros M; cbn [map fst for_each flat_map snd] in *; [reflexivity|].
  assert (E : print_constant C k s = say (txt "Constant: " ++ txt k ++ txt " = " ++ d_show (cf C) x ++ newline) s) by (unfold print_constant; now rewrite (M k x) by now left).
  rewrite E. unfold follow. cbn [fin say out post]. rewrite IH by (intros; apply M; now right). now rewrite <- !app_assoc.
Qed.
Lemma print_all : calm_program C -> sane_members s ->
  fin (cmd_print C [] s) = Ok tt ->
  exists texts, Forall2 (fun f t => expr_to_string (pe (cp C)) (snd (snd f)) = Ok t) (funcs s) texts /\
    out (cmd_print C [] s) =
      flat_map (fun ft => txt "Function: " ++ txt (fst (fst ft)) ++ txt "(" ++ joined (map txt (fst (snd (fst ft)))) ++ txt ") = " ++ snd ft ++ newline) (combine (funcs s) texts) ++
      flat_map (fun c => txt "Constant: " ++ txt (fst c) ++ txt " = " ++ d_show (cf C) (snd c) ++ newline) (consts s).
Proof.
  intros _ (_ & OF & OC). unfold cmd_print. unfold follow. pose proof (k_each s (print_func C) (map fst (funcs s)) (fun n => k_print_func C n s)) as KE. unfold keeps in KE. rewrite KE.
  destruct (fin (for_each (print_func C) (map fst (funcs s)) s)) as [[]|m|m|] eqn:F; cbn [fin out]; intros E; try (rewrite F in E; discriminate).
  destruct (each_funcs (funcs s)) as (ts & H & O); [intros k d; now apply ordered_get|exact F|]. exists ts. split; [exact H|]. rewrite O. f_equal. apply each_consts. intros k d. now apply ordered_get.
Qed.
End Print.

(** ** the end of the input *)
Lemma empty_parse C : parse (cp C) (cdec C) [] = Throw "Invaild string.".
Proof. reflexivity. Qed.
Lemma empty_round C (s : cstate C) : round C [] s = RoundEnd prompt (Continue (Some "Invaild string."%string)) s.
Proof.
  assert (D : dispatch C [] s = Some (cmd_normalize C [] s)) by (apply (dispatch_other C [] [] [] s); [split; [intros []|right; auto]|intros I; cbn in I; repeat (destruct I as [I|I]; [discriminate|]); destruct I]).
  unfold round. rewrite D. unfold cmd_normalize, parse_normal. rewrite empty_parse. cbn [bind run stop out fin post]. now rewrite app_nil_r.
Qed.
Lemma loop_app C i n m : forall k (s : cstate C) t e s', loop C i k n s = (t, Continue e, s') ->
  loop C i k (n + m) s = let '(t2, e2, s2) := loop C i (k + n) m s' in (t ++ t2, match m with O => Continue e | _ => e2 end, s2).
Proof.
  induction n as [|n IH]; intros k s t e s' E; cbn [loop plus] in *.
  - injection E as <- <- <-. rewrite Nat.add_0_r. destruct m; [reflexivity|]. now destruct (loop C i k (S m) s) as [[? ?] ?].
  - destruct (then_ (round C (nth_line i k) s)) as [e0| |x|w|]; try discriminate.
    destruct (loop C i (S k) n (members (round C (nth_line i k) s))) as [[t1 e1] s1] eqn:L. injection E as <- -> <-. rewrite (IH _ _ _ _ _ L). rewrite Nat.add_succ_r. cbn [plus].
    destruct (loop C i (S (k + n)) m s1) as [[t2 e2] s2]. now rewrite app_assoc.
Qed.
Lemma idle C i m : tail i = [] -> forall k (s : cstate C), (length (full i) <= k)%nat -> exists e, loop C i k m s = (concat (repeat prompt m), Continue e, s).
Proof.
  intros T. induction m as [|m IH]; intros k s H; cbn [loop repeat concat]; [eauto|]. unfold nth_line. rewrite nth_overflow by exact H. rewrite T, empty_round. cbn [then_ printed members].
  destruct (IH (S k) s ltac:(lia)) as (e & ->). eauto.
Qed.
Lemma end_of_input C i m (s : cstate C) t e s' : tail i = [] -> loop C i 0 (length (full i)) s = (t, Continue e, s') ->
  exists e', loop C i 0 (length (full i) + m) s = (t ++ concat (repeat prompt m), Continue e', s').
Proof.
  intros T L. rewrite (loop_app _ _ _ m _ _ _ _ _ L). destruct (idle C i m T (0 + length (full i)) s' ltac:(lia)) as (e2 & ->). destruct m; eauto.
Qed.
Lemma loop_lines C i i' n : forall k (s : cstate C), (forall j, (k <= j < k + n)%nat -> nth_line i j = nth_line i' j) -> loop C i k n s = loop C i' k n s.
Proof.
  induction n as [|n IH]; intros k s H; cbn [loop]; [reflexivity|]. rewrite (H k) by lia. destruct (then_ (round C (nth_line i' k) s)); try reflexivity.
  rewrite IH; [reflexivity|]. intros j J. apply H. lia.
Qed.
Lemma unterminated C i m (s : cstate C) : loop C i 0 (length (full i) + m) s = loop C (Input (full i ++ repeat (tail i) m) []) 0 (length (full i) + m) s.
Proof.
  apply loop_lines. intros j J. unfold nth_line. cbn [full tail]. destruct (Nat.lt_ge_cases j (length (full i))) as [L|L].
  - rewrite app_nth1 by exact L. now apply nth_indep.
  - rewrite app_nth2 by exact L. rewrite nth_overflow by exact L. assert (I : In (nth (j - length (full i)) (repeat (tail i) m) []) (repeat (tail i) m)) by (apply nth_In; rewrite repeat_length; lia).
    symmetry. exact (repeat_spec _ _ _ I).
Qed.
