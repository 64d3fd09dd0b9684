(** C86: the double arithmetic inside expressions.  Vocabulary: LiftSpec.v ([exact_machine], [sorts_alike], [sorts_same], [rootless_leaves], [powerless], [rational_history], [frun_d]),
    DblSpec.v ([good_double], [agrees]), PolySpec.v ([machine], [frun], [fdenotes], [fdefined], [fv], [pv]), ExprSpec.v ([ev], [edefined], [sdefined]). *)
From Coq Require Import ZArith QArith Reals String Ascii Lia Bool List.
From Verif Require Import Base AdapterModel RationalModel RealModel RealSpec PolyModel PolySpec PolyProps ExprModel ExprSpec ExprProps ParserModel DecModel NumModel DblModel DblSpec DblProofs1 DblProofs2 DblProps LiftModel LiftSpec LiftProofs LiftProofs2
  TextSpec TextProofs1 RingSpec RingProofs11 RingProps IdemProps.
Import ListNotations.
Open Scope Z_scope.

(** ** whatever the exact models say happens, happens with double arithmetic *)
Theorem C86_parse D sort dec raw : good_double (dpe D) -> sorts_alike sort D -> agrees (parse (exact_machine sort D) dec raw) (parse_d D dec raw).
Proof. exact (fun G HS => parse_lift D G sort HS dec raw). Qed.
Print Assumptions C86_parse.
Theorem C86_normalize D sort e : good_double (dpe D) -> sorts_alike sort D -> agrees (expr_normalize (exact_machine sort D) e) (expr_normalize_d D e).
Proof. exact (fun G HS => expr_normalize_lift D G sort HS e). Qed.
Print Assumptions C86_normalize.
Theorem C86_substitute D sort v e : good_double (dpe D) -> sorts_alike sort D -> agrees (expr_subst (exact_machine sort D) v e) (expr_subst_d D v e).
Proof. exact (fun G HS => expr_subst_lift D G sort HS e v). Qed.
Print Assumptions C86_substitute.
Theorem C86_print D e : good_double (dpe D) ->
  agrees (expr_to_string (de (dpe D)) e) (expr_to_string_d (dpe D) e) /\ agrees (expr_to_tex (de (dpe D)) e) (expr_to_tex_d (dpe D) e).
Proof. exact (fun G => conj (expr_to_string_lift D G e) (expr_to_tex_lift D G e)). Qed.
Print Assumptions C86_print.
Theorem C86_history D sort h : good_double (dpe D) -> sorts_alike sort D -> agrees (frun (exact_machine sort D) h) (frun_d D h).
Proof. exact (fun G HS => history_lift D G sort HS h). Qed.
Print Assumptions C86_history.
(** so the values are right there: normalize and substitute (C44), histories of Frac operations (C38) *)
Theorem C86_normalize_value D sort s e e' : good_double (dpe D) -> sorts_alike sort D -> machine (exact_machine sort D) -> edefined (exact_machine sort D) s e ->
  expr_normalize (exact_machine sort D) e = Ok e' -> expr_normalize_d D e = Ok e' /\ ev s e' = ev s e.
Proof. intros G HS M DF H. split; [exact (agrees_ok _ _ _ (C86_normalize D sort e G HS) H)|exact (C44_normalize _ s e e' M DF H)]. Qed.
Print Assumptions C86_normalize_value.
Theorem C86_substitute_value D sort v s e e' : good_double (dpe D) -> sorts_alike sort D -> machine (exact_machine sort D) -> sdefined (exact_machine sort D) v s e ->
  expr_subst (exact_machine sort D) v e = Ok e' -> expr_subst_d D v e = Ok e' /\ ev s e' = ev (extend v s) e.
Proof. intros G HS M DF H. split; [exact (agrees_ok _ _ _ (C86_substitute D sort v e G HS) H)|exact (C44_substitute _ v s e e' M DF H)]. Qed.
Print Assumptions C86_substitute_value.
Theorem C86_history_value D sort h f : good_double (dpe D) -> sorts_alike sort D -> machine (exact_machine sort D) -> fwf (ew (de (dpe D))) h -> frun (exact_machine sort D) h = Ok f ->
  frun_d D h = Ok f /\ forall s, fdefined s h -> pv s (fden f) <> 0%R /\ fv s f = fdenotes s h.
Proof. intros G HS M WF H. split; [exact (agrees_ok _ _ _ (C86_history D sort h G HS) H)|exact (C38_histories _ h f M WF H)]. Qed.
Print Assumptions C86_history_value.

(** ** without roots and powers no double is computed: the two machines do the same, undefined behaviour included, whatever std::pow is *)
Theorem C86_parse_exact D sort dec raw : 2 <= ew (de (dpe D)) -> efac (de (dpe D)) 1 = Ok [] -> sorts_same sort D ->
  parse_d D dec raw = parse (exact_machine sort D) dec raw /\ forall e, parse (exact_machine sort D) dec raw = Ok e -> rootless_leaves e.
Proof. exact (fun W F HS => conj (parse_same D W F sort HS dec raw) (parse_leaves D W F sort HS dec raw)). Qed.
Print Assumptions C86_parse_exact.
Theorem C86_normalize_exact D sort e : 2 <= ew (de (dpe D)) -> efac (de (dpe D)) 1 = Ok [] -> sorts_same sort D -> rootless_leaves e -> powerless e ->
  expr_normalize_d D e = expr_normalize (exact_machine sort D) e /\
  forall e', expr_normalize (exact_machine sort D) e = Ok e' -> expr_to_string_d (dpe D) e' = expr_to_string (de (dpe D)) e' /\ expr_to_tex_d (dpe D) e' = expr_to_tex (de (dpe D)) e'.
Proof.
  intros W F HS L N. destruct (expr_normalize_same D W F sort HS e (rootless_both e L N)) as [A B]. split; [exact A|]. intros e' K. specialize (B e' K).
  exact (conj (proj1 (expr_to_string_same D W F e' B)) (proj1 (expr_to_tex_same D W F e' B))).
Qed.
Print Assumptions C86_normalize_exact.
Theorem C86_history_exact D sort h : 2 <= ew (de (dpe D)) -> efac (de (dpe D)) 1 = Ok [] -> sorts_same sort D -> rational_history h -> frun_d D h = frun (exact_machine sort D) h.
Proof. exact (fun W F HS R => proj1 (history_same D W F sort HS h R)). Qed.
Print Assumptions C86_history_exact.
(** so what comes out of such a history with double arithmetic has the right value *)
Theorem C86_history_exact_value D sort h f : machine (exact_machine sort D) -> efac (de (dpe D)) 1 = Ok [] -> sorts_same sort D -> rational_history h -> fwf (ew (de (dpe D))) h -> frun_d D h = Ok f ->
  forall s, fdefined s h -> pv s (fden f) <> 0%R /\ fv s f = fdenotes s h.
Proof.
  intros M F HS R WF H. assert (W : 2 <= ew (de (dpe D))) by (destruct M as [W _]; cbn [pe exact_machine] in W; lia). rewrite (C86_history_exact D sort h W F HS R) in H. exact (C38_histories _ h f M WF H).
Qed.
Print Assumptions C86_history_exact_value.
(** a std::sort that meets the two hypotheses: insertion with the comparator of either machine *)
Theorem C86_sorts X : (good_double X -> sorts_alike (isort (ew (de X))) (DPEnv X (isort_d X))) /\
  (2 <= ew (de X) -> sorts_same (isort (ew (de X))) (DPEnv X (isort_d X))).
Proof.
  split.
  - intros G l. exact (isort_lift (DPEnv X (isort_d X)) G l).
  - intros W l L. exact (isort_same (DPEnv X (isort_d X)) W l L).
Qed.
Print Assumptions C86_sorts.

(** ** polynomial expressions: C70 and C78 with double arithmetic *)
Local Lemma simplify_lift D sort e t : good_double (dpe D) -> sorts_alike sort D -> simplifies_to (exact_machine sort D) e t -> simplifies_to_d D e t.
Proof. intros G HS (e' & H & T). exists e'. split; [exact (agrees_ok _ _ _ (C86_normalize D sort e G HS) H)|exact (agrees_ok _ _ _ (proj1 (C86_print D e' G)) T)]. Qed.
Local Lemma typeset_lift D sort e t : good_double (dpe D) -> sorts_alike sort D -> typeset_as (exact_machine sort D) e t -> typeset_as_d D e t.
Proof. intros G HS (e' & H & T). exists e'. split; [exact (agrees_ok _ _ _ (C86_normalize D sort e G HS) H)|exact (agrees_ok _ _ _ (proj2 (C86_print D e' G)) T)]. Qed.
(** a polynomial expression whose weight and degree are representable is simplified and printed, and the text that double arithmetic prints decides whether two of them have the same values: no rounding shows *)
Theorem C86_decides D sort e1 e2 : good_double (dpe D) -> sorts_alike sort D -> let P := exact_machine sort D in
  machine P -> sort_orders P -> sort_returns P -> reads P -> ew (pe P) <= 128 ->
  (forall e, e = e1 \/ e = e2 -> polynomial (ew (pe P)) e /\ weight e < 2 ^ (ew (pe P) - 1) /\ weight e <= 2 ^ 53 /\ degree e < 2 ^ (ew (pe P) - 1)) ->
  exists t1 t2, simplifies_to_d D e1 t1 /\ simplifies_to_d D e2 t2 /\ (t1 = t2 <-> forall s, ev s e1 = ev s e2).
Proof.
  intros G HS P HM HO HT HR W Q. destruct (C70_decides P e1 e2 HM HO HT HR W Q) as (t1 & t2 & A & B & C). exists t1, t2. split; [exact (simplify_lift D sort e1 t1 G HS A)|]. split; [exact (simplify_lift D sort e2 t2 G HS B)|exact C].
Qed.
Print Assumptions C86_decides.
(** the answer to the answer is the answer *)
Theorem C86_fixed_point D sort dec line e : good_double (dpe D) -> sorts_alike sort D -> let P := exact_machine sort D in
  machine P -> sort_orders P -> sort_returns P -> reads P -> ew (pe P) <= 128 -> parse P dec line = Ok e ->
  polynomial (ew (pe P)) e -> weight e + 1 < 2 ^ (ew (pe P) - 1) -> weight e < 2 ^ 53 -> degree e < 2 ^ (ew (pe P) - 1) -> degree e <= 2 ^ 53 ->
  exists t u, answers_d D dec line t /\ answers_d D dec t t /\ typesets_d D dec line u /\ typesets_d D dec t u.
Proof.
  intros G HS P HM HO HT HR W HP Q A1 A2 A3 A4. destruct (C78_fixed_point P dec line e HM HO HT HR W HP Q A1 A2 A3 A4) as (t & u & (e1 & P1 & S1) & (e2 & P2 & S2) & (e3 & P3 & S3) & (e4 & P4 & S4)). exists t, u.
  pose proof (fun l x (H : parse P dec l = Ok x) => agrees_ok _ _ _ (C86_parse D sort dec l G HS) H) as K.
  split; [exists e1; split; [exact (K _ _ P1)|exact (simplify_lift D sort _ _ G HS S1)]|]. split; [exists e2; split; [exact (K _ _ P2)|exact (simplify_lift D sort _ _ G HS S2)]|].
  split; [exists e3; split; [exact (K _ _ P3)|exact (typeset_lift D sort _ _ G HS S3)]|exists e4; split; [exact (K _ _ P4)|exact (typeset_lift D sort _ _ G HS S4)]].
Qed.
Print Assumptions C86_fixed_point.

(** ** cases: 64 bits, x87 long double, a correctly rounded pow *)
Local Definition E64 : env := std_env 64 true (fun k => Z.of_nat k * Z.of_nat k * 3 + 1) 200 0.
Local Definition X64 : denv := DEnv E64 nearest_pow x87.
Local Definition D64 : dpenv := DPEnv X64 (isort_d X64).
Local Definition run_text (s : string) : res string :=
  e <- parse_d D64 (fun _ => Ub "decimal") (txt s) ;; n <- expr_normalize_d D64 e ;; t <- expr_to_string_d X64 n ;; Ok (string_of_list_ascii t).
Example C86_hyp : good_double (dpe D64) /\ sorts_alike (isort 64) D64 /\ sorts_same (isort 64) D64 /\ machine (exact_machine (isort 64) D64) /\ efac (de (dpe D64)) 1 = Ok [] /\ 2 <= ew (de (dpe D64)) /\
  rational_history (FDiv (FAdd (FSym "x") (FReal (Real 1 (Rat 1 1) (Rat 9007199254740993 1)))) (FSym "y")) /\
  (exists e, parse (exact_machine (isort 64) D64) (fun _ => Ub "decimal") (txt "9007199254740993*x-y/3") = Ok e /\ powerless e).
Proof.
  assert (G : good_double X64) by exact (conj (proj1 Xd_good) (proj2 Xd_good)).
  destruct (C86_sorts X64) as [A B]. split; [exact G|]. split; [exact (A G)|]. split; [apply B; cbn; lia|]. split; [exact (proj1 (C34_standard_machine 64 true (fun k => Z.of_nat k * Z.of_nat k * 3 + 1) 200 0 ltac:(lia)))|].
  split; [vm_compute; reflexivity|]. split; [cbn; lia|]. split; [cbn; repeat split|]. eexists. split; [vm_compute; reflexivity|]. cbn. repeat split; discriminate.
Qed.
(** coefficients beyond 2^53 are exact as long as nothing is raised to a power *)
Example C86_beyond_double : run_text "9007199254740993*x+9007199254740993*x-y/3" = Ok "(-y+54043195528445958x)/3"%string.
Proof. vm_compute. reflexivity. Qed.
(** 3^34 = 16677181699666569, and nothing says that it is not what is printed *)
Theorem C86_power_refuted : run_text "3^34" = Ok "16677181699666568"%string /\ run_text "(3x)^34" = Ok "16677181699666568(x**34)"%string /\ 3 ^ 34 = 16677181699666569.
Proof. split; [vm_compute; reflexivity|]. split; vm_compute; reflexivity. Qed.
Print Assumptions C86_power_refuted.

(** the hypotheses of C86_decides and C86_fixed_point hold of the standard machine and of (2x^1000 - yx)^2 - 3 *)
Example C86_polynomial_hyp : let P := exact_machine (isort 64) D64 in machine P /\ sort_orders P /\ sort_returns P /\ reads P /\
  exists e, parse P (fun _ => Ub "decimal") (txt "(2*x^1000-y*x)^2-3") = Ok e /\ polynomial (ew (pe P)) e /\ weight e = 12 /\ degree e = 2000.
Proof.
  cbv zeta. destruct (C34_standard_machine 64 true (fun k => Z.of_nat k * Z.of_nat k * 3 + 1) 200 0 ltac:(lia)) as (A & B). split; [exact A|]. split; [exact B|]. split; [exact (isort_returns E64)|]. split; [apply std_reads; lia|].
  destruct C78_meets as (H & Q & W & DG). eexists. split; [|split; [exact Q|split; [exact W|exact DG]]]. vm_compute. reflexivity.
Qed.
Example C86_polynomial_text : run_text "(2*x^1000-y*x)^2-3" = Ok "4(x**2000)-4(x**1001)y+(x**2)(y**2)-3"%string.
Proof. vm_compute. reflexivity. Qed.
