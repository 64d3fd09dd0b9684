(** Reading the text of numbers and terms. *)
From Coq Require Import ZArith QArith Qreals Reals String Ascii Lia Lra Bool List Permutation.
From Verif Require Import Base HugeSpec AdapterModel AdapterProofs FactorizeModel RationalModel RationalSpec RationalProofs RationalProofs2 RealModel RealSpec RealProofs1 RealProofs3 RealProofs8 PolyModel PolySpec ExprModel ExprSpec ExprProofs1 ParserModel
  ParserSpec ParserProofs1 ParserProofs3 TextSpec TextProofs1 TextProofs2 PrintSpec.
Import ListNotations.
Open Scope Z_scope.

(** a text that can follow a factor without an operator, and a number without a blank *)
Definition opens (l : text) : Prop := match l with [] => False | c :: _ => is_digit c = false /\ c <> "."%char /\ c <> "*"%char end.
Lemma opens_brk l rest : opens l -> brk (l ++ rest). Proof. destruct l as [|c l]; [intros []|]. intros (A & B & _). cbn. auto. Qed.
Lemma opens_heads l : opens l -> heads l. Proof. destruct l as [|c l]; [intros []|]. intros (_ & _ & C). exact C. Qed.

Section A.
Variable P : penv.
Variable dec : text -> res rat.
Hypothesis HR : reads P.
Local Notation w := (ew (pe P)).
Local Notation RD := (Rd P dec).

Definition RdS (l : text) (v : (string -> R) -> R) : Prop :=
  opens l /\ exists ts t, seg P dec l ts /\ derives P Atom ts t /\ starts ts /\ forall s, ev s t = v s.
Lemma rds_atom l v : RdS l v -> RD Atom l v.
Proof. intros (O & ts & t & S & D & _ & V). split; [now apply opens_heads|]. exists ts, t. auto. Qed.
Lemma rd_juxt a b x y : RD Prod a x -> RdS b y -> RD Prod (a ++ b) (fun s => x s * y s)%R.
Proof.
  intros (Ha & ta & e & Sa & Da & Va) (O & tb & f & Sb & Db & St & Vb). split; [destruct a; [contradiction|exact Ha]|]. exists (ta ++ tb), (Op "*" e f). split; [|split].
  - apply seg_app; [exact Sa|exact Sb|]. intros rest _. now apply opens_brk.
  - apply d_juxt; [exact Da|now apply d_pow|exact St].
  - intros s. cbn [ev Ascii.eqb Bool.eqb]. now rewrite Va, Vb.
Qed.
Lemma rds_ext l v v' : (forall s, v s = v' s) -> RdS l v -> RdS l v'.
Proof. intros E (O & ts & t & S & D & St & V). split; [exact O|]. exists ts, t. repeat (split; [assumption|]). intros s. now rewrite V. Qed.

(** ** rationals *)
Lemma numeral_text n : 0 <= n -> adapter_to_string n = numeral n.
Proof. intros H. unfold adapter_to_string. destruct (Z.ltb_spec n 0); [lia|reflexivity]. Qed.
Lemma numeral_neg n : n < 0 -> adapter_to_string n = "-"%char :: adapter_to_string (- n).
Proof. intros H. unfold adapter_to_string. destruct (Z.ltb_spec n 0); [|lia]. destruct (Z.ltb_spec (- n) 0); [lia|reflexivity]. Qed.
Lemma rat_neg_text q : num q < 0 -> rat_to_string q = "-"%char :: rat_to_string (Rat (- num q) (den q)).
Proof. intros H. unfold rat_to_string. cbn [num den]. rewrite numeral_neg by exact H. destruct (negb (den q =? 1)); reflexivity. Qed.
Lemma rd_rat q : 0 < num q < 2 ^ (w - 1) -> 0 < den q < 2 ^ (w - 1) ->
  RD Prod (rat_to_string q) (fun _ => Q2R (qv q)) /\ (den q = 1 -> RD Atom (rat_to_string q) (fun _ => Q2R (qv q))).
Proof.
  intros N D. unfold rat_to_string. rewrite !numeral_text by lia. rewrite qv_R by lia.
  assert (A : den q = 1 -> RD Atom (numeral (num q)) (fun _ => (IZR (num q) / IZR (den q))%R)).
  { intros E. rewrite E. apply (rd_ext P dec _ _ (fun _ => IZR (num q))); [intros _; field|]. apply rd_num; [exact HR|lia]. }
  destruct (Z.eqb_spec (den q) 1) as [E|E]; cbn [negb].
  - split; [apply atom_prod|]; auto.
  - split; [|contradiction]. refine (rd_ext P dec _ _ _ _ _ (rd_md P dec "/" _ _ _ _ _ _ _)).
    3: apply atom_prod, (rd_num P dec HR); lia. 3: apply (rd_up P dec Atom), (rd_num P dec HR); lia. 2: now right. reflexivity.
Qed.
Lemma mul_coe a b c : rat_mul w a b = Ok c -> Z.abs (num c) < 2 ^ (w - 1) -> Z.abs (den c) < 2 ^ (w - 1) ->
  real_mul (pe P) (Real 1 (Rat 1 1) a) (Real 1 (Rat 1 1) b) = Ok (Real 1 (Rat 1 1) c).
Proof.
  intros M N D. pose proof (w3 P HR) as W3. pose proof (w4 P HR) as W4. assert (4 <= 2 ^ w) by (change 4 with (2 ^ 2); apply Z.pow_le_mono_r; lia).
  unfold real_mul. cbv zeta. cbn [idx rad coe]. unfold ulcm. change (Z.lcm 1 1) with 1. destruct (Z.ltb_spec 1 (2 ^ w)); [|lia]. cbn [bind]. change (uquot 1 1) with (Ok 1). cbn [bind].
  assert (I : rat_of_index w 1 = Ok (Rat 1 1)) by (unfold rat_of_index; rewrite swrap_id by lia; apply of_int_ok; lia).
  rewrite I. cbn [bind]. rewrite (rpow_one P HR). cbn [bind]. rewrite mul_ints by lia. cbn [bind]. change (1 * 1) with 1. rewrite M. cbn [bind]. destruct HR as (_ & F1 & _). exact (make_one (pe P) c W3 F1 N D).
Qed.
Lemma div_one k : Z.abs k < 2 ^ (w - 1) -> poly_div_to P [term_const (rint k)] (rint 1) = Ok [term_const (rint k)].
Proof.
  intros H. unfold poly_div_to. cbn [mapr]. unfold term_div. cbn [tco syms term_const]. rewrite (div_int1 P HR) by exact H. cbn [bind]. unfold term_normalize. cbn [tco syms drop_zero bind]. now rewrite (normalize_one P HR).
Qed.
(** 1/i as the parser makes it *)
Lemma read_inv i : 1 <= i < 2 ^ (w - 1) -> exists g, frac_of_rat P (Rat 1 i) = Ok g /\ forall s, fv s g = (/ IZR i)%R.
Proof.
  intros H. pose proof (w3 P HR) as W3. pose proof (w4 P HR) as W4. exists (Frac [term_const (rint 1)] [term_const (rint i)]). split.
  - unfold frac_of_rat, real_of_rat. destruct HR as (W & F1 & SO). rewrite make_one; try assumption; try (cbn [num den]; lia). cbn [bind]. unfold frac_of_real, frac_of_term, poly_make. rewrite (normalize_one P HR). cbn [bind].
    unfold frac_of_poly. rewrite (poly_one_ok P HR). cbn [bind]. unfold frac_normalize. cbv zeta. cbn [fnum fden]. rewrite !(normalize_one P HR). cbn [bind].
    cbn [dens tco term_const coe rint den]. rewrite !Z.mul_1_l. repeat (rewrite chk_ok by lia; cbn [bind]). cbn [mapr]. rewrite !(of_int P HR) by lia. cbn [bind].
    assert (RI : rat_mul w (Rat 1 i) (Rat i 1) = Ok (Rat 1 1)).
    { unfold rat_mul. cbn [num den]. rewrite gcd_ok' by lia. cbn [bind]. rewrite Z.gcd_1_r. rewrite gcd_ok' by lia. cbn [bind]. rewrite Z.gcd_diag, Z.abs_eq by lia.
      repeat (rewrite quot_ok by lia; cbn [bind]). rewrite ?Z.quot_1_r, ?Z.quot_same by lia. repeat (rewrite chk_ok by lia; cbn [bind]). reflexivity. }
    unfold term_mul. cbn [tco syms term_const merge_syms bind]. assert (MC : real_mul (pe P) (Real 1 (Rat 1 1) (Rat 1 i)) (rint i) = Ok (rint 1)) by (apply (mul_coe _ _ _ RI); cbn [num den]; lia).
    rewrite ?Z.mul_1_l. rewrite MC. cbn [bind]. unfold term_normalize. cbn [tco syms drop_zero bind].
    rewrite (mul_int P HR 1 i) by (rewrite ?Z.mul_1_l; lia). rewrite Z.mul_1_l. cbn [bind tco syms]. cbn [drop_zero bind tco].
    assert (T : forall k, Z.abs k < 2 ^ (w - 1) -> rat_to_t w (coe (rint k)) = Ok k) by (intros k Hk; unfold rat_to_t; cbn [coe rint num den]; rewrite quot_ok by lia; now rewrite Z.quot_1_r).
    rewrite !T by lia. cbn [bind]. rewrite gcd_ok' by lia. cbn [bind]. rewrite Z.gcd_1_l. cbn [gcd_outer bind]. rewrite !(of_int P HR) by lia. cbn [bind].
    fold (term_const (rint 1)). fold (term_const (rint i)). rewrite !div_one by lia. reflexivity.
  - intros s. unfold fv, pv, tv. cbn [fnum fden fold_right tco syms term_const sv]. rewrite !rv_int. field. apply not_0_IZR. lia.
Qed.
End A.
