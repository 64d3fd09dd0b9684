(** Reading the text of numbers, terms. *)
From Coq Require Import ZArith Znumtheory QArith Qreals Reals String Ascii Lia Lra Bool List Permutation.
From Verif Require Import Base HugeSpec AdapterModel AdapterProofs FactorizeModel FactorizeProofs1 RationalModel RationalSpec RationalProofs RationalProofs2 RealModel RealSpec RealProofs1 RealProofs3 RealProofs8 PolyModel PolySpec ExprModel ExprSpec ExprProofs1 ParserModel
  ParserSpec ParserProofs1 ParserProofs3 TextSpec TextProofs1 TextProofs2 PrintSpec PrintProofs1.
Import ListNotations.
Open Scope Z_scope.

Definition nreal (c : real) : real := Real (idx c) (rad c) (Rat (- num (coe c)) (den (coe c))).
Definition nterm (t : term) : term := Term (nreal (tco t)) (syms t).
Definition root_text (i m : Z) : text := (if i =? 2 then txt "_/" else "_"%char :: numeral i ++ ["/"%char]) ++ numeral m.

(** a canonical number is an integer radicand 1 with index 1, or both are greater *)
Lemma canonical_split c : canonical c -> exists m, rad c = Rat m 1 /\ (idx c = 1 /\ m = 1 \/ 2 <= idx c /\ 2 <= m).
Proof.
  intros (m & E & M & I & D & P1 & P2 & Z0). exists m. split; [exact E|]. destruct (Z.eq_dec (idx c) 1) as [J|J].
  - left. split; [exact J|]. destruct (Z.eq_dec m 1) as [K|K]; [exact K|]. exfalso. destruct (prime_factor_exists m) as (p & Pp & Dp); [lia|]. apply (P1 p Pp). rewrite J, Z.pow_1_r. exact Dp.
  - right. split; [lia|]. destruct (Z.eq_dec m 1) as [K|K]; [|lia]. exfalso. apply (P2 (idx c) 1); [lia|exists 1; lia|]. rewrite Z.pow_1_l by lia. exact K.
Qed.

Section A.
Variable P : penv.
Variable dec : text -> res rat.
Hypothesis HR : reads P.
Local Notation w := (ew (pe P)).
Local Notation RD := (Rd P dec).

(** ** roots *)
Lemma inv_ok i : 1 <= i < 2 ^ (w - 1) -> rat_inverse w (Rat i 1) = Ok (Rat 1 i).
Proof.
  intros H. pose proof (w3 P HR) as W3. pose proof (w4 P HR) as W4. unfold rat_inverse, rat_make. cbn [num den]. destruct (Z.eqb_spec i 0); [lia|]. unfold rat_normalize. cbn [num den]. unfold adapter_abs.
  rewrite !Z.abs_eq by lia. rewrite !chk_ok by lia. cbn [bind]. rewrite gcd_ok' by lia. cbn [bind]. rewrite Z.gcd_1_l. rewrite !quot_ok by lia. cbn [bind]. rewrite !Z.quot_1_r. destruct (Z.eqb_spec i (-1)); [lia|reflexivity].
Qed.
Lemma lex_rad i n : 2 <= i < 2 ^ (w - 1) -> lexeme P dec (if i =? 2 then txt "_/" else "_"%char :: numeral i ++ ["/"%char]) (TRad (Rat 1 i)) n.
Proof.
  intros H. pose proof (w3 P HR) as W3. pose proof (w4 P HR) as W4. destruct (Z.eqb_spec i 2) as [->|N].
  - apply (lx_sqrt P dec (Rat 2 1)); [|apply inv_ok; lia]. apply of_int_ok; lia.
  - destruct (numeral_number i) as [NU D]; [lia|]. apply (lx_root P dec (numeral i) "/" (Rat i 1)); [assumption| |apply (numeral_rat P dec HR); lia|apply inv_ok; lia].
    cbn. unfold number_char. cbn. now rewrite andb_false_r.
Qed.
Lemma rds_root i m : 2 <= i < 2 ^ (w - 1) -> 1 <= m < 2 ^ (w - 1) -> RdS P dec (root_text i m) (fun _ => Rpower (IZR m) (/ IZR i)).
Proof.
  intros I M. destruct (read_inv P HR i) as (g & G & V); [lia|]. split; [unfold root_text; destruct (i =? 2); (split; [reflexivity|split; discriminate])|].
  exists [TRad (Rat 1 i); TNum (leaf_int m)], (Op "^" (Leaf (leaf_int m)) (Leaf g)). split; [|split; [now apply d_rad|split; [reflexivity|]]].
  - intros rest ts K L. unfold root_text. rewrite <- app_assoc. refine (ls_tok P dec [] _ (TRad (Rat 1 i)) (numeral m ++ rest) ([TNum (leaf_int m)] ++ ts) (Forall_nil _) (lex_rad i _ I) _).
    apply (seg_num P dec HR m); [lia|exact K|exact L].
  - intros s. cbn [ev Ascii.eqb Bool.eqb]. rewrite fv_int, V. unfold epow. destruct (Rlt_dec 0 (IZR m)) as [J|J]; [reflexivity|]. exfalso. apply J, IZR_lt. lia.
Qed.

(** ** numbers *)
Lemma eq_small a n : Z.abs (num a) < 2 ^ (w - 1) -> 0 < den a < 2 ^ (w - 1) -> -1 <= n <= 1 -> rat_eq w a (Rat n 1) = Ok (num a =? n * den a).
Proof. intros A B N. unfold rat_eq. cbn [num den]. rewrite Z.mul_1_r. rewrite !chk_ok by nia. reflexivity. Qed.
Lemma ne_small a n : Z.abs (num a) < 2 ^ (w - 1) -> 0 < den a < 2 ^ (w - 1) -> -1 <= n <= 1 -> rat_ne w a (Rat n 1) = Ok (negb (num a =? n * den a)).
Proof. intros A B N. unfold rat_ne. cbn [num den]. rewrite Z.mul_1_r. rewrite !chk_ok by nia. reflexivity. Qed.
Lemma lowest_unit q n : qok q -> n = 1 \/ n = -1 -> num q = n * den q -> q = Rat n 1.
Proof.
  intros (D & L) N E. unfold lowest_terms in L. rewrite E in L. assert (den q = 1). { destruct N as [-> | ->]; [rewrite Z.mul_1_l, Z.gcd_diag in L; lia|]. replace (-1 * den q) with (- den q) in L by lia. rewrite Z.gcd_opp_l, Z.gcd_diag in L. lia. }
  destruct q as [a b]. cbn in *. subst b. f_equal. lia.
Qed.
(** the text of a number, as a function *)
Definition real_text (c : real) : text :=
  if num (coe c) =? 0 then txt "0" else if idx c =? 1 then rat_to_string (coe c) else
  (if negb (num (coe c) =? den (coe c)) then (if num (coe c) =? - den (coe c) then txt "-" else rat_to_string (coe c)) else []) ++ root_text (idx c) (num (rad c)).
Lemma plain_nreal c : plain_real w c -> plain_real w (nreal c).
Proof.
  intros ((m & E & M & I & D & P1 & P2 & Z0) & (QD & QL) & A & B & C & F). unfold nreal. split; [|unfold qok, lowest_terms in *; cbn [coe rad idx num den]; rewrite Z.abs_opp, Z.gcd_opp_l; tauto].
  exists m. cbn [coe rad idx num den]. repeat (split; [assumption|]). intros X. apply Z0. lia.
Qed.
Lemma real_print c : plain_real w c -> real_to_string w c = Ok (real_text c).
Proof.
  intros (Ca & Q & A & B & C & F). pose proof (w3 P HR) as W3. pose proof (w4 P HR) as W4. destruct (canonical_split c Ca) as (m & E & S). unfold real_to_string, real_text. pose proof (proj1 Q) as QD.
  rewrite eq_small by lia. cbn [bind]. rewrite Z.mul_0_l. destruct (Z.eqb_spec (num (coe c)) 0) as [N0|N0]; [reflexivity|]. unfold is_rational. rewrite eq_small by lia. cbn [bind]. rewrite Z.mul_0_l. destruct (Z.eqb_spec (num (coe c)) 0); [contradiction|].
  rewrite E in C |- *. cbn [num den] in C. rewrite !eq_small by (cbn [num den]; lia). cbn [bind num den]. destruct S as [[-> ->]|[S1 S2]]; [reflexivity|].
  destruct (Z.eqb_spec m (1 * 1)); [lia|]. cbn [bind]. destruct (Z.eqb_spec m (0 * 1)); [lia|]. cbn [bind]. destruct (Z.eqb_spec (idx c) 1); [lia|]. destruct (Z.eqb_spec (idx c) 0); [lia|]. cbn [orb bind]. rewrite ne_small by lia. cbn [bind]. rewrite Z.mul_1_l.
  replace (-1 * den (coe c)) with (- den (coe c)) by lia. unfold root_text, rat_to_string at 2. cbn [num den Z.eqb Pos.eqb negb]. rewrite numeral_text by lia. reflexivity.
Qed.
Lemma real_text_neg c : plain_real w c -> num (coe c) < 0 -> real_text c = "-"%char :: real_text (nreal c).
Proof.
  intros (Ca & Q & A & B & C & F) N. unfold real_text, nreal. cbn [coe rad idx num den]. destruct (Z.eqb_spec (num (coe c)) 0); [lia|]. destruct (Z.eqb_spec (- num (coe c)) 0); [lia|]. destruct (idx c =? 1); [now apply rat_neg_text|]. pose proof (proj1 Q).
  destruct (Z.eqb_spec (num (coe c)) (den (coe c))); [lia|]. cbn [negb]. destruct (Z.eqb_spec (num (coe c)) (- den (coe c))); destruct (Z.eqb_spec (- num (coe c)) (den (coe c))); try lia; cbn [negb]; [reflexivity|].
  destruct (Z.eqb_spec (- num (coe c)) (- den (coe c))); [lia|]. rewrite (rat_neg_text _ N). reflexivity.
Qed.
Lemma rv_nreal c : 0 < den (coe c) -> rv (nreal c) = (- rv c)%R.
Proof. intros D. unfold rv, nreal. cbn [coe rad idx]. rewrite (qv_R (Rat _ _)) by (cbn [den]; lia). rewrite (qv_R (coe c)) by lia. cbn [num den]. rewrite opp_IZR. unfold Rdiv. ring. Qed.
Lemma rd_real c : plain_real w c -> 0 < num (coe c) -> RD Prod (real_text c) (fun _ => rv c) /\ (den (coe c) = 1 -> idx c = 1 \/ num (coe c) = 1 -> RD Atom (real_text c) (fun _ => rv c)).
Proof.
  intros (Ca & Q & A & B & C & F) N. pose proof (w3 P HR) as W3. pose proof (w4 P HR) as W4. destruct (canonical_split c Ca) as (m & E & S). pose proof (proj1 Q) as QD. unfold real_text. destruct (Z.eqb_spec (num (coe c)) 0); [lia|].
  destruct (rd_rat P dec HR (coe c)) as [R1 R2]; [lia|lia|]. destruct S as [[S1 ->]|[S1 S2]].
  - assert (V : rv c = Q2R (qv (coe c))). { unfold rv. rewrite E, S1. rewrite (qv_R (Rat 1 1)) by (cbn; lia). cbn [num den]. unfold Rdiv. rewrite Rinv_1, Rmult_1_r. unfold Rpower. rewrite ln_1, Rmult_0_r, exp_0. ring. }
    rewrite S1. cbn [Z.eqb Pos.eqb]. split; [|intros X _]; apply (rd_ext P dec _ _ (fun _ => Q2R (qv (coe c)))); auto.
  - destruct (Z.eqb_spec (idx c) 1); [lia|]. rewrite E in C |- *. cbn [num] in C |- *. pose proof (rds_root (idx c) m ltac:(lia) ltac:(lia)) as RT.
    assert (V : rv c = (Q2R (qv (coe c)) * Rpower (IZR m) (/ IZR (idx c)))%R). { unfold rv. rewrite E. rewrite (qv_R (Rat m 1)) by (cbn; lia). cbn [num den]. unfold Rdiv. now rewrite Rinv_1, Rmult_1_r. }
    destruct (Z.eqb_spec (num (coe c)) (den (coe c))) as [U|U]; cbn [negb].
    + pose proof (lowest_unit _ 1 Q ltac:(auto) ltac:(lia)) as X. assert (V1 : rv c = Rpower (IZR m) (/ IZR (idx c))). { rewrite V, X, (qv_R (Rat 1 1)) by (cbn; lia). cbn [num den]. field. }
      assert (RA : RD Atom (root_text (idx c) m) (fun _ => rv c)) by (apply (rd_ext P dec _ _ (fun _ => Rpower (IZR m) (/ IZR (idx c)))); [auto|now apply rds_atom]). split; [now apply atom_prod|auto].
    + destruct (Z.eqb_spec (num (coe c)) (- den (coe c))); [lia|]. split; [|intros X [Y|Y]; lia].
      refine (rd_ext P dec _ _ _ _ _ (rd_juxt P dec _ _ _ _ R1 RT)). intros _. now rewrite V.
Qed.
End A.
