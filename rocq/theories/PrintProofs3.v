(** Reading the text of terms. *)
From Coq Require Import ZArith Znumtheory QArith Qreals Reals String Ascii Lia Lra Bool List Permutation.
From Verif Require Import Base HugeSpec AdapterModel AdapterProofs FactorizeModel FactorizeProofs1 RationalModel RationalSpec RationalProofs RationalProofs2 RealModel RealSpec RealProofs1 RealProofs3 RealProofs8 PolyModel PolySpec ExprModel ExprSpec ExprProofs1 ParserModel
  ParserSpec ParserProofs1 ParserProofs3 TextSpec TextProofs1 TextProofs2 PrintSpec PrintProofs1 PrintProofs2.
Import ListNotations.
Open Scope Z_scope.

Definition plain_sym (w : Z) (p : string * rat) : Prop := name_ok (fst p) /\ den (snd p) = 1 /\ 0 < num (snd p) < 2 ^ (w - 1).
Definition sym_text (p : string * rat) : text := if num (snd p) =? 1 then name_text (fst p) else txt "(" ++ name_text (fst p) ++ txt "**" ++ numeral (num (snd p)) ++ txt ")".
Definition smtext (m : smap) : text := flat_map sym_text m.
Definition is_unit (n : Z) (c : real) : bool := ((num (coe c) =? n * den (coe c)) && (idx c =? 1))%bool.
Definition term_text (t : term) : text :=
  if num (coe (tco t)) =? 0 then txt "0" else
  (if no_symbols t then real_text (tco t) else if is_unit 1 (tco t) then [] else if is_unit (-1) (tco t) then txt "-" else real_text (tco t)) ++ smtext (syms t).

Section A.
Variable P : penv.
Variable dec : text -> res rat.
Hypothesis HR : reads P.
Local Notation w := (ew (pe P)).
Local Notation RD := (Rd P dec).

Lemma real_eq_unit c n : plain_real w c -> -1 <= n <= 1 -> real_eq w c (rint n) = Ok (is_unit n c).
Proof.
  intros (Ca & Q & A & B & C & F) N. pose proof (w3 P HR) as W3. pose proof (w4 P HR) as W4. destruct (canonical_split c Ca) as (m & E & S). pose proof (proj1 Q) as QD. unfold real_eq, is_unit. cbn [rint coe rad idx]. rewrite eq_small by lia. cbn [bind].
  destruct (Z.eqb_spec (num (coe c)) (n * den (coe c))) as [X|X]; cbn [negb andb]; [|reflexivity]. rewrite E in C |- *. cbn [num] in C. rewrite (eq_small P) by (cbn [num den]; lia). cbn [bind num den]. destruct S as [[-> ->]|[S1 S2]]; [reflexivity|]. destruct (Z.eqb_spec m (1 * 1)); [lia|]. destruct (Z.eqb_spec (idx c) 1); [lia|reflexivity].
Qed.
Lemma unit_rint c n : plain_real w c -> n = 1 \/ n = -1 -> (is_unit n c = true <-> c = rint n).
Proof.
  intros (Ca & Q & A & B & C & F) N. unfold is_unit. rewrite andb_true_iff, !Z.eqb_eq. split; [|intros ->; cbn; lia]. intros [X Y]. destruct (canonical_split c Ca) as (m & E & [[S1 S2]|[S1 S2]]); [|lia]. apply (lowest_unit _ n Q N) in X. destruct c as [i r k]. cbn in *. subst. reflexivity.
Qed.
Lemma zero_rint c : plain_real w c -> num (coe c) = 0 -> c = rint 0.
Proof.
  intros (Ca & Q & A & B & C & F) X. destruct (canonical_split c Ca) as (m & E & S). destruct Ca as (_ & _ & _ & _ & _ & _ & _ & Z0). specialize (Z0 X). destruct S as [[S1 S2]|[S1 S2]]; [|lia].
  destruct Q as [QD QL]. unfold lowest_terms in QL. rewrite X, Z.gcd_0_l in QL. destruct c as [i r [a b]]. cbn in *. subst. unfold rint. repeat f_equal. lia.
Qed.
Lemma unit_zero c : plain_real w c -> is_unit 0 c = (num (coe c) =? 0).
Proof.
  intros H. unfold is_unit. rewrite Z.mul_0_l. destruct (Z.eqb_spec (num (coe c)) 0) as [X|X]; [|reflexivity]. rewrite (zero_rint c H X). reflexivity.
Qed.
Lemma syms_print m : Forall (plain_sym w) m -> syms_text w m = Ok (smtext m).
Proof.
  pose proof (w4 P HR) as W4. induction 1 as [|[k q] m (N & D & B) F IH]; [reflexivity|]. cbn [fst snd] in *. cbn [syms_text smtext flat_map]. fold (smtext m). rewrite ne_small by lia. cbn [bind]. rewrite IH. cbn [bind]. rewrite D. change (1 * 1) with 1. unfold sym_text. cbn [fst snd].
  unfold rat_to_string. rewrite D. cbn [Z.eqb Pos.eqb negb]. rewrite numeral_text by lia. destruct (Z.eqb_spec (num q) 1); reflexivity.
Qed.
Lemma term_print t : plain_term w t -> term_to_string (pe P) t = Ok (term_text t).
Proof.
  intros (C & _ & S). pose proof (w3 P HR) as W3. pose proof (w4 P HR) as W4. unfold term_to_string, term_text. cbv zeta. rewrite !(of_int P HR) by lia. cbn [bind]. rewrite real_eq_unit by (auto; lia). cbn [bind]. rewrite unit_zero by exact C.
  destruct (Z.eqb_spec (num (coe (tco t))) 0) as [N|N]; [reflexivity|]. unfold real_ne. rewrite !real_eq_unit by (auto; lia). cbn [bind]. rewrite (syms_print _ S). rewrite (real_print P HR _ C). destruct (no_symbols t); [rewrite orb_true_r, andb_false_r; reflexivity|]. rewrite orb_false_r, andb_true_r. destruct (is_unit 1 (tco t)); [reflexivity|]. cbn [negb]. destruct (is_unit (-1) (tco t)); reflexivity.
Qed.
Lemma unit_neg c : is_unit 1 (nreal c) = is_unit (-1) c /\ is_unit (-1) (nreal c) = is_unit 1 c.
Proof. unfold is_unit, nreal. cbn [coe rad idx num den]. split; f_equal; match goal with |- (?a =? ?b) = (?c =? ?d) => destruct (Z.eqb_spec a b); destruct (Z.eqb_spec c d); lia end. Qed.
Lemma plain_nterm t : plain_term w t -> plain_term w (nterm t).
Proof. intros (C & S). split; [now apply plain_nreal|exact S]. Qed.
Lemma term_text_neg t : plain_term w t -> num (coe (tco t)) < 0 -> term_text t = "-"%char :: term_text (nterm t).
Proof.
  intros (C & _) N. pose proof (real_text_neg P _ C N) as TN. unfold term_text. cbn [nterm tco syms]. change (no_symbols (nterm t)) with (no_symbols t). destruct (unit_neg (tco t)) as [-> ->]. cbn [nreal coe num]. destruct (Z.eqb_spec (num (coe (tco t))) 0); [lia|]. destruct (Z.eqb_spec (- num (coe (tco t))) 0); [lia|].
  fold (nreal (tco t)). rewrite TN. destruct (no_symbols t); [reflexivity|]. assert (is_unit 1 (tco t) = false) as ->. { unfold is_unit. destruct C as (_ & (D & _) & _). destruct (Z.eqb_spec (num (coe (tco t))) (1 * den (coe (tco t)))); [lia|reflexivity]. }
  destruct (is_unit (-1) (tco t)); reflexivity.
Qed.
(** ** reading *)
Lemma alpha_opens c : is_alpha c = true -> is_digit c = false /\ c <> "."%char /\ c <> "*"%char.
Proof. intros A. destruct (alpha_other c A) as (_ & _ & D & _). apply orb_false_iff in D as [D1 D2]. split; [exact D1|]. split; intros ->; discriminate. Qed.
Lemma name_opens k : name_ok k -> opens (name_text k).
Proof.
  intros [(c & -> & A)|[L _]]; [exact (alpha_opens c A)|]. unfold name_text. destruct (Nat.eqb_spec (String.length k) 1); [contradiction|]. split; [reflexivity|split; discriminate].
Qed.
Lemma rds_sym p : plain_sym w p -> RdS P dec (sym_text p) (fun s => pwr (s (fst p)) (snd p)).
Proof.
  intros (N & D & B). unfold sym_text. destruct (Z.eqb_spec (num (snd p)) 1) as [O|O].
  - split; [now apply name_opens|]. exists [TSym (leaf_sym (fst p))], (Leaf (leaf_sym (fst p))). split; [now apply seg_sym|]. split; [apply d_sym|]. split; [reflexivity|]. intros s. cbn [ev]. rewrite fv_sym. unfold pwr. rewrite D, O. cbn [Z.eqb Pos.eqb]. now rewrite powerRZ_1.
  - split; [split; [reflexivity|split; discriminate]|]. exists (TL :: ([TSym (leaf_sym (fst p))] ++ TOp "^" :: [TNum (leaf_int (num (snd p)))]) ++ [TR]), (Op "^" (Leaf (leaf_sym (fst p))) (Leaf (leaf_int (num (snd p))))).
    split; [|split; [apply d_paren, d_expr, d_sum, d_prod, d_hat; [apply d_pow, d_sym|apply d_num]|split; [reflexivity|]]].
    + intros rest ts K L. cbn [txt list_ascii_of_string app]. rewrite <- !app_assoc. refine (ls_tok P dec [] ["("%char] TL _ _ (Forall_nil _) _ _); [constructor|]. apply (seg_sym P dec HR _ N _ (TOp "^" :: TNum (leaf_int (num (snd p))) :: TR :: ts)); [split; [reflexivity|discriminate]|].
      cbn [app]. refine (ls_tok P dec [] ["*"; "*"]%char (TOp "^") _ _ (Forall_nil _) _ _); [constructor|]. rewrite <- app_assoc. apply (seg_num P dec HR (num (snd p)) ltac:(lia) _ (TR :: ts)); [split; [reflexivity|discriminate]|].
      refine (ls_tok P dec [] [")"%char] TR _ _ (Forall_nil _) _ _); [constructor|exact L].
    + intros s. cbn [ev Ascii.eqb Bool.eqb]. rewrite fv_sym, fv_int, epow_int. unfold pwr. now rewrite D.
Qed.
Lemma rd_syms m : Forall (plain_sym w) m -> forall a x, RD Prod a x -> RD Prod (a ++ smtext m) (fun s => x s * sv s m)%R.
Proof.
  induction 1 as [|p m Hp F IH]; intros a x A.
  - cbn [smtext flat_map]. rewrite app_nil_r. apply (rd_ext P dec _ _ x); [intros s; cbn; ring|exact A].
  - cbn [smtext flat_map]. fold (smtext m). rewrite app_assoc. refine (rd_ext P dec _ _ _ _ _ (IH _ _ (rd_juxt P dec _ _ _ _ A (rds_sym p Hp)))). intros s. cbn [sv fold_right]. fold (sv s m). ring.
Qed.
Lemma rd_term t : plain_term w t -> positive t -> RD Prod (term_text t) (fun s => tv s t) /\ (factor_term t -> RD Atom (term_text t) (fun s => tv s t)).
Proof.
  intros (C & _ & S) N. change (Forall (plain_sym w) (syms t)) in S. unfold positive in N. destruct (rd_real P dec HR (tco t) C N) as [R1 R2]. unfold term_text. destruct (Z.eqb_spec (num (coe (tco t))) 0); [lia|].
  pose proof (unit_rint (tco t) 1 C ltac:(auto)) as U. destruct t as [c m]. cbn [tco syms] in *. unfold no_symbols. cbn [syms]. assert (X : forall s, tv s (Term c m) = (rv c * sv s m)%R) by reflexivity. destruct m as [|p m].
  - cbn [smtext flat_map]. rewrite app_nil_r. split; [|intros (_ & [(_ & F1 & F2)|(_ & F)])].
    + apply (rd_ext P dec _ _ (fun _ => rv c)); [intros s; rewrite X; cbn; ring|exact R1].
    + apply (rd_ext P dec _ _ (fun _ => rv c)); [intros s; rewrite X; cbn; ring|]. now apply R2.
    + discriminate.
  - destruct (is_unit 1 c) eqn:EU.
    + pose proof (proj1 U eq_refl) as EC. cbn [app smtext flat_map]. fold (smtext m). inversion S as [|? ? Sp Sm]; subst. pose proof (rds_sym p Sp) as RP. split.
      * refine (rd_ext P dec _ _ _ _ _ (rd_syms m Sm _ _ (atom_prod P dec _ _ (rds_atom P dec _ _ RP)))). intros s. rewrite X, rv_int. cbn [sv fold_right]. fold (sv s m). ring.
      * intros (_ & [(F & _)|(_ & F)]); [discriminate|]. cbn [length] in F. destruct m; [|discriminate]. cbn [smtext flat_map]. rewrite app_nil_r. refine (rd_ext P dec _ _ _ _ _ (rds_atom P dec _ _ RP)). intros s. rewrite X, rv_int. cbn [sv fold_right]. ring.
    + assert (is_unit (-1) c = false) as ->. { unfold is_unit. destruct C as (_ & (D & _) & _). destruct (Z.eqb_spec (num (coe c)) (-1 * den (coe c))); [lia|reflexivity]. }
      split; [|intros (_ & [(F & _)|(F & _)]); [discriminate|]; cbn [tco] in F; apply U in F; discriminate].
      refine (rd_ext P dec _ _ _ _ _ (rd_syms (p :: m) S _ _ R1)). intros s. now rewrite X.
Qed.
End A.
