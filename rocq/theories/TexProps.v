(** C72: the TeX text of a number, polynomial, fraction or tree, read as a formula in the usual way, has the value of what was printed.
    Vocabulary: TexSpec.v ([formula] and its [value], [means], a reader of TeX formulas; what can be written in TeX). *)
From Coq Require Import ZArith QArith Qreals Reals String Ascii Lia Lra Bool List Sorted.
From Verif Require Import Base AdapterModel FactorizeModel RationalModel RationalSpec RationalProofs RealModel RealSpec RealProofs3 RealProofs6 PolyModel PolySpec PolyProofs6 ExprModel ExprSpec ExprProofs1 ParserModel ParserSpec TextSpec TextProofs1 TextProofs2
  PrintSpec PrintProofs2 PrintProofs5 RingSpec RingProofs1 RingProofs2 RingProofs3 RingProps NamesSpec NamesProofs NamesProps TexSpec TexProofs1 TexProofs2 TexProofs3.
Import ListNotations.
Open Scope Z_scope.

Local Definition E64 : env := std_env 64 true (fun k => Z.of_nat k * Z.of_nat k * 3 + 1) 200 0.
Local Definition P64 : penv := PEnv E64 (isort 64).
Local Definition dec (s : text) : res rat := Throw "decimal".
Local Definition p (s : string) : res expr := parse P64 dec (txt s).
Local Definition tex (e : res expr) : res string := t <- e ;; x <- expr_to_tex E64 t ;; Ok (string_of_list_ascii x).
Local Definition norm (e : res expr) : res expr := t <- e ;; expr_normalize P64 t.
Local Lemma P64_ok : machine P64 /\ sort_orders P64.
Proof. apply (isort_machine E64). split; [cbn; lia|]. split; [apply std_sound|apply std_exact; lia]. Qed.
Local Lemma P64_reads : reads P64. Proof. apply std_reads; lia. Qed.

(** a text has one reading *)
Theorem C72_one_reading t f g : means t f -> means t g -> f = g.
Proof. intros (n & A) (m & B). specialize (A (Nat.max n m) ltac:(lia)). specialize (B (Nat.max n m) ltac:(lia)). congruence. Qed.
Print Assumptions C72_one_reading.
(** rational numbers *)
Theorem C72_rational q : 0 < den q -> exists f, means (rat_to_tex q) f /\ forall s, value s f = Q2R (qv q).
Proof. intros D. destruct (tx_means (fun _ => True) _ _ (tx_rat (fun _ => True) q D)) as (f & M & V). exists f. split; [exact M|]. intros s. now apply V. Qed.
Print Assumptions C72_rational.
(** numbers with a square root: printed, and the text denotes the number.  The text of -(\sqrt m) starts with a sign *)
Theorem C72_number P c : reads P -> tex_real (ew (pe P)) c -> exists t f, real_to_tex (ew (pe P)) c = Ok t /\ means t f /\ forall s, value s f = rv c.
Proof.
  intros HR T. exists (real_tx c). assert (X : TX (fun _ => True) (real_tx c) (fun _ => rv c)).
  { destruct (Z.eq_dec (num (coe c)) 0) as [N|N]. { unfold real_tx. rewrite N. cbn [Z.eqb]. apply tb_tx. apply (tb_ext _ _ (fun _ => 0%R)); [|apply tb_zero]. intros s _. unfold rv. assert (Q : (qv (coe c) == 0)%Q) by (unfold qv, Qeq; cbn; rewrite N; destruct (den (coe c)); reflexivity). rewrite (Qeq_eqR _ _ Q), RMicromega.Q2R_0. ring. }
    assert (G : 0 < num (coe c) -> TX (fun _ => True) (real_tx c) (fun _ => rv c)) by (intros L; apply tp_tx; apply (tp_real (fun _ => True) (ew (pe P)) c T N); [now left|]; right; destruct T as ((_ & (D & _) & _) & _); lia).
    destruct (Z.ltb_spec 0 (num (coe c))) as [L|L]; [now apply G|]. clear G. destruct (Z.eq_dec (den (coe c)) 1) as [D|D].
    - rewrite (real_tx_neg _ c T) by lia. apply (tx_ext _ _ (fun _ => - rv (nreal c))%R); [intros s _; rewrite rv_nreal by apply T; ring|]. apply tx_neg.
      assert (Tn : tex_real (ew (pe P)) (nreal c)) by (destruct T as [A B]; split; [now apply plain_nreal|exact B]). apply (tp_real (fun _ => True) (ew (pe P)) (nreal c) Tn); cbn; [lia|left; lia|]. right. lia.
    - apply tp_tx. apply (tp_real (fun _ => True) (ew (pe P)) c T N); [now right|]. right. intros E. destruct T as ((_ & Q & _) & _). apply D. now rewrite (lowest_unit _ (-1) Q ltac:(auto) ltac:(lia)). }
  destruct (tx_means _ _ _ X) as (f & M & V). exists f. split; [exact (real_print_tex P HR c T)|]. split; [exact M|]. intros s. now apply V.
Qed.
Print Assumptions C72_number.
Theorem C72_polynomial P l t : reads P -> machine P -> tex_poly (ew (pe P)) l -> poly_to_tex (pe P) l = Ok t -> exists f, means t f /\ forall s, roots_ok s l -> value s f = pv s l.
Proof. intros HR HM. exact (poly_typeset P HR HM l t). Qed.
Print Assumptions C72_polynomial.
Theorem C72_fraction P f t : reads P -> machine P -> tex_frac (ew (pe P)) f -> frac_to_tex (pe P) f = Ok t -> exists g, means t g /\ forall s, froots_ok s f -> value s g = fv s f.
Proof. intros HR HM. exact (frac_typeset P HR HM f t). Qed.
Print Assumptions C72_fraction.
(** an empty numerator: 0 *)
Theorem C72_empty P f : fnum f = [] -> exists t g, frac_to_tex (pe P) f = Ok t /\ means t g /\ forall s, value s g = fv s f.
Proof.
  intros N. exists (txt "0"). destruct (tx_means (fun _ => True) _ _ (tb_tx (fun _ => True) _ _ (tb_zero (fun _ => True)))) as (g & M & V). exists g. unfold frac_to_tex. rewrite N. split; [reflexivity|]. split; [exact M|].
  intros s. rewrite V by exact I. unfold fv. rewrite N. cbn [pv]. unfold pv. cbn. lra.
Qed.
Print Assumptions C72_empty.
Theorem C72_tree P e t : reads P -> machine P -> tex_fits (ew (pe P)) true e -> expr_to_tex (pe P) e = Ok t -> exists g, means t g /\ forall s, eroots_ok s e -> value s g = ev s e.
Proof. intros HR HM. exact (tree_typeset P HR HM e t). Qed.
Print Assumptions C72_tree.
(** simplified polynomial expressions: the text has the value of the expression that was simplified, everywhere; so equal texts mean equal functions *)
Theorem C72_simplified P e t : reads P -> machine P -> sort_orders P -> polynomial (ew (pe P)) e -> (forall k, mentions k e -> tex_name k) -> typeset_as P e t -> exists f, means t f /\ forall s, value s f = ev s e.
Proof.
  intros HR HM HS Q N (e' & H & T). destruct (C70_expanded P e e' HM HS HR Q H) as (f & -> & (U & NE & F & _) & V). pose proof (proj1 HR) as W.
  assert (Fn : Forall (fun t => forall k, tmentions k t -> tex_name k) (fnum f)).
  { apply Forall_forall. intros x I k M. apply N. apply (C73_simplify P e (Leaf f) k (proj2 (proj2 (proj2 HM))) H). left. apply Exists_exists. now exists x. }
  assert (P1 : forall n, - 2 ^ (ew (pe P) - 1) < n < 2 ^ (ew (pe P) - 1) -> tex_real (ew (pe P)) (rint n)).
  { intros n L. assert (4 <= 2 ^ (ew (pe P) - 1)) by (change 4 with (2 ^ 2); apply Z.pow_le_mono_r; lia). split; [|cbn; lia]. split; [apply canonical_rint|]. split; [apply qok_z|]. cbn [rint coe rad idx num den]. lia. }
  assert (X : tex_frac (ew (pe P)) f).
  { split.
    - unfold tex_poly. rewrite Forall_forall in *. intros x I. specialize (F x I). specialize (Fn x I). destruct F as ((n & En & Ln) & (_ & Fm)). split; [rewrite En; now apply P1|]. rewrite Forall_forall in *. intros [k q] J. destruct (Fm _ J) as (_ & D & B). cbn [fst snd] in *. split; [apply Fn; unfold tmentions; apply in_map_iff; now exists (k, q)|]. cbn [snd]. split; [split; [lia|unfold lowest_terms; rewrite D; apply Z.gcd_1_r]|]. split; [lia|]. assert (4 <= 2 ^ (ew (pe P) - 1)) by (change 4 with (2 ^ 2); apply Z.pow_le_mono_r; lia). lia.
    - rewrite U. constructor; [|constructor]. split; [apply P1; assert (4 <= 2 ^ (ew (pe P) - 1)) by (change 4 with (2 ^ 2); apply Z.pow_le_mono_r; lia); lia|constructor]. }
  destruct (C72_fraction P f t HR HM X T) as (g & M & Vg). exists g. split; [exact M|]. intros s. rewrite <- V. apply Vg. split.
  - unfold roots_ok. rewrite Forall_forall in *. intros x I. destruct (F x I) as (_ & (_ & Fm)). rewrite Forall_forall in *. intros q J. left. apply (Fm q J).
  - rewrite U. repeat constructor.
Qed.
Print Assumptions C72_simplified.
Theorem C72_equal_texts P e1 e2 t : reads P -> machine P -> sort_orders P -> polynomial (ew (pe P)) e1 -> polynomial (ew (pe P)) e2 -> (forall k, mentions k e1 \/ mentions k e2 -> tex_name k) -> typeset_as P e1 t -> typeset_as P e2 t -> forall s, ev s e1 = ev s e2.
Proof.
  intros HR HM HS Q1 Q2 N T1 T2 s. destruct (C72_simplified P e1 t HR HM HS Q1 ltac:(auto) T1) as (f & Mf & Vf). destruct (C72_simplified P e2 t HR HM HS Q2 ltac:(auto) T2) as (g & Mg & Vg). rewrite (C72_one_reading t f g Mf Mg) in Vf. now rewrite <- Vf, Vg.
Qed.
Print Assumptions C72_equal_texts.

(** ** cases *)
Local Definition get (e : res expr) : expr := match e with Ok e => e | _ => Leaf (leaf_int 0) end.
Local Definition reading (s : string) : option formula := match tex (norm (p s)) with Ok t => read_tex 60 (txt t) | _ => None end.
Example C72_case_text : tex (norm (p "3*_/2*x/(y+1)-{alpha}^2")) = Ok "\frac{3\sqrt{2}x-\alpha^{2}y-\alpha^{2}}{y+1}"%string /\
  reading "3*_/2*x/(y+1)-{alpha}^2" = Some (FDiv (FSub (FSub (FMul (FMul (FNum 3) (FRoot (FNum 2) (FNum 2))) (FSym "x")) (FMul (FPow (FSym "alpha") (FNum 2)) (FSym "y"))) (FPow (FSym "alpha") (FNum 2))) (FAdd (FSym "y") (FNum 1))).
Proof. split; vm_compute; reflexivity. Qed.
Local Lemma t_int n : - 2 ^ 63 < n < 2 ^ 63 -> tex_real 64 (rint n).
Proof. intros L. split; [|cbn; lia]. split; [apply canonical_rint|]. split; [apply qok_z|]. cbn [rint coe rad idx num den]. lia. Qed.
Local Lemma t_name k : forallb letter (list_ascii_of_string k) = true -> (1 <=? String.length k)%nat = true -> existsb (String.eqb k) ["frac"; "sqrt"; "times"]%string = false -> tex_name k.
Proof.
  intros A B C. split; [apply Forall_forall; intros c I; rewrite forallb_forall in A; now apply A|]. split; [now apply Nat.leb_le|]. intros I. assert (X : existsb (String.eqb k) ["frac"; "sqrt"; "times"]%string = true) by (apply existsb_exists; exists k; split; [exact I|apply String.eqb_refl]). congruence.
Qed.
(** a fraction with a rational exponent and names of several letters: (2 x^(1/2) - {alpha} y^3) / (y + 1) *)
Local Definition q1 : rat := Rat 1 1.
Local Definition ex : frac := Frac [Term (rint 2) [("x"%string, Rat 1 2)]; Term (rint (-1)) [("alpha"%string, q1); ("y"%string, Rat 3 1)]] [Term (rint 1) [("y"%string, q1)]; term_const (rint 1)].
Example C72_case : tex_frac 64 ex /\ frac_to_tex E64 ex = Ok (txt "\frac{2x^{\frac{1}{2}}-\alpha y^{3}}{y+1}").
Proof.
  split; [|vm_compute; reflexivity]. assert (S : forall k q, tex_name k -> qok q -> num q <> 0 -> Z.abs (num q) < 2 ^ 63 -> den q < 2 ^ 63 -> tex_sym 64 (k, q)) by (intros; split; auto).
  assert (Q : forall q, 0 < den q -> Z.gcd (num q) (den q) = 1 -> qok q) by (intros q A B; split; assumption).
  split; repeat constructor; try (apply t_int; lia); repeat constructor; try (apply t_name; reflexivity); cbn; try lia.
Qed.
(** a tree that is not one fraction: 2 * 3^x - y^x / z *)
Example C72_case_tree : tex_fits 64 true (get (p "2*3^x-y^x/z")) /\ expr_to_tex E64 (get (p "2*3^x-y^x/z")) = Ok (txt "2\times 3^{x}-\frac{y^{x}}{z}").
Proof.
  split; [|vm_compute; reflexivity]. set (e := get _). vm_compute in e. subst e.
  assert (LI : forall n, 0 < n < 2 ^ 63 -> tex_frac 64 (leaf_int n)) by (intros n L; split; (constructor; [split; [apply t_int; lia|constructor]|constructor])).
  assert (LS : forall k, tex_name k -> tex_frac 64 (leaf_sym k)) by (intros k N; split; (constructor; [split; [apply t_int; lia|]|constructor]); constructor; [|constructor]; split; [exact N|]; cbn; split; [apply qok_z|]; lia).
  assert (SI : forall n, 0 < n -> tex_binds Single (leaf_int n)) by (intros n L; right; right; right; eexists; split; [reflexivity|]; split; [exact L|left; cbn; auto]).
  assert (FI : forall n, 0 < n -> tex_binds Factors (leaf_int n)) by (intros n L; right; right; right; eexists; split; [reflexivity|exact L]).
  assert (SS : forall k, tex_binds Single (leaf_sym k)) by (intros k; right; right; right; eexists; split; [reflexivity|]; split; [reflexivity|right; split; [reflexivity|eexists; reflexivity]]).
  assert (X2 := LI 2 ltac:(lia)). assert (X3 := LI 3 ltac:(lia)). assert (X := LS "x"%string ltac:(apply t_name; reflexivity)). assert (Y := LS "y"%string ltac:(apply t_name; reflexivity)). assert (Z := LS "z"%string ltac:(apply t_name; reflexivity)).
  split; [reflexivity|]. split; (split; [reflexivity|]); split.
  - split; [exact X2|]. right. exact (FI 2 ltac:(lia)).
  - split; [reflexivity|]. split; [split; [exact X3|right; exact (SI 3 ltac:(lia))]|]. split; [exact X|left; now right].
  - split; [reflexivity|]. split; [split; [exact Y|right; exact (SS "y"%string)]|]. split; [exact X|left; now right].
  - split; [exact Z|left; now left].
Qed.
Local Lemma poly_ok : polynomial 64 (get (p "({alpha}-x)^2")).
Proof.
  set (e := get _). vm_compute in e. subst e. split; [|right; split; [reflexivity|]; exists 2; split; [lia|split; [left; reflexivity|reflexivity]]]. split; [|left; split; [right; now left|]].
  - right. exists "alpha"%string. split; [right; split; [discriminate|repeat constructor; discriminate]|reflexivity].
  - right. exists "x"%string. split; [left; exists "x"%char; now split|reflexivity].
Qed.
Example C72_case_simplified : exists f, means (txt "x^{2}+\alpha^{2}-2\alpha x") f /\ forall s, value s f = ((s "alpha"%string - s "x"%string) * (s "alpha"%string - s "x"%string))%R.
Proof.
  destruct P64_ok as [HM HS]. destruct (C72_simplified P64 (get (p "({alpha}-x)^2")) (txt "x^{2}+\alpha^{2}-2\alpha x") P64_reads HM HS poly_ok) as (f & M & V).
  - intros k H. set (e := get _) in H. vm_compute in e. subst e. unfold mentions, fmentions, pmentions, tmentions in H. cbn [fnum fden] in H. apply t_name; repeat match goal with H : _ \/ _ |- _ => destruct H as [H|H] end; inversion H as [? ? X|? ? X]; subst; cbn in X; try solve [inversion X]; repeat (destruct X as [X|X]; [subst k; reflexivity|]); destruct X.
  - exists (get (norm (p "({alpha}-x)^2"))). split; vm_compute; reflexivity.
  - exists f. split; [exact M|]. intros s. rewrite V. assert (E : get (p "({alpha}-x)^2") = Op "^" (Op "-" (Leaf (leaf_sym "alpha")) (Leaf (leaf_sym "x"))) (Leaf (leaf_int 2))) by (vm_compute; reflexivity). rewrite E.
    change (epow (fv s (leaf_sym "alpha") - fv s (leaf_sym "x")) (fv s (leaf_int 2)) = ((s "alpha"%string - s "x"%string) * (s "alpha"%string - s "x"%string))%R). rewrite !fv_sym, fv_int, epow_int. simpl. ring.
Qed.
(** ** where the text does not denote the value *)
(** cube roots: "\sqrt[n3]{2}" reads as the (3n)-th root of 2; C72_number needs index at most 2 *)
Example C72_cube_root_refuted : tex (norm (p "2^(1/3)")) = Ok "\sqrt[n3]{2}"%string /\ reading "2^(1/3)" = Some (FRoot (FMul (FSym "n") (FNum 3)) (FNum 2)).
Proof. split; vm_compute; reflexivity. Qed.
(** a power of a power: two superscripts, no reading *)
Example C72_double_superscript_refuted : tex (norm (p "(x^2)^y")) = Ok "x^{2}^{y}"%string /\ forall f, ~ means (txt "x^{2}^{y}") f.
Proof.
  split; [vm_compute; reflexivity|]. intros f (n & H). specialize (H (20 + n)%nat ltac:(lia)). cbn [Nat.add] in H. vm_compute in H. discriminate H.
Qed.
(** a sum or product below an exponent loses its parentheses: (x-y)^z reads as -y + x^z, (x y)^z as x y^z, (-1)^y as -(1^y) *)
Example C72_lost_parentheses_refuted :
  tex (norm (p "(x-y)^z")) = Ok "-y+x^{z}"%string /\ reading "(x-y)^z" = Some (FAdd (FNeg (FSym "y")) (FPow (FSym "x") (FSym "z"))) /\
  tex (norm (p "(x*y)^z")) = Ok "xy^{z}"%string /\ reading "(x*y)^z" = Some (FMul (FSym "x") (FPow (FSym "y") (FSym "z"))) /\
  tex (norm (p "(0-1)^y")) = Ok "-1^{y}"%string /\ reading "(0-1)^y" = Some (FNeg (FPow (FNum 1) (FSym "y"))).
Proof. repeat split; vm_compute; reflexivity. Qed.
(** with other values: for x = 2, y = 1, z = 1 the value of (x y)^z and of its text agree, for x = 2, y = 1, z = 2 they are 4 and 2 *)
Example C72_lost_parentheses_value_refuted : let s := fun k => if String.eqb k "y" then 1%R else 2%R in
  ev s (get (p "(x*y)^z")) = 4%R /\ value s (FMul (FSym "x") (FPow (FSym "y") (FSym "z"))) = 2%R.
Proof.
  cbv zeta. set (s := fun k => if String.eqb k "y" then 1%R else 2%R). assert (E : get (p "(x*y)^z") = Op "^" (Op "*" (Leaf (leaf_sym "x")) (Leaf (leaf_sym "y"))) (Leaf (leaf_sym "z"))) by (vm_compute; reflexivity). rewrite E. split.
  - change (epow (fv s (leaf_sym "x") * fv s (leaf_sym "y")) (fv s (leaf_sym "z")) = 4%R). rewrite !fv_sym. change (epow (2 * 1) 2 = 4)%R. change 2%R with (IZR 2) at 2. rewrite epow_int. simpl. ring.
  - change (2 * epow 1 2 = 2)%R. change 2%R with (IZR 2) at 2. rewrite epow_int. simpl. ring.
Qed.
(** names: digits in a name, the empty name, and names TeX uses are not readable *)
Example C72_names_refuted : tex (norm (p "{x1}+1")) = Ok "\x1 +1"%string /\ reading "{x1}+1" = None /\ tex (norm (p "{frac}+1")) = Ok "\frac +1"%string /\ reading "{frac}+1" = None /\ tex (norm (p "{}+1")) = Ok "\ +1"%string /\ reading "{}+1" = None.
Proof. repeat split; vm_compute; reflexivity. Qed.
(** a negative number as a factor: "x\times -3^{y}" *)
Example C72_negative_factor_refuted : tex (norm (p "x*(0-3)^y")) = Ok "x\times -3^{y}"%string /\ reading "x*(0-3)^y" = None.
Proof. repeat split; vm_compute; reflexivity. Qed.
