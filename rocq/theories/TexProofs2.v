(** The TeX text of numbers and terms. *)
From Coq Require Import ZArith Znumtheory QArith Qreals Reals String Ascii Lia Lra Bool List.
From Verif Require Import Base HugeSpec AdapterModel AdapterProofs FactorizeModel RationalModel RationalSpec RationalProofs RationalProofs2 RealModel RealSpec RealProofs1 RealProofs3 PolyModel PolySpec ExprModel ExprSpec ExprProofs1 ParserModel
  TextSpec TextProofs1 TextProofs2 PrintSpec PrintProofs1 PrintProofs2 PrintProofs3 TexSpec TexProofs1.
Import ListNotations.
Open Scope Z_scope.

Section T.
Variable dom : (string -> R) -> Prop.
Definition TB (t : text) (v : (string -> R) -> R) : Prop := exists ts, Lx t ts /\ PBase dom ts v.
Definition TF (t : text) (v : (string -> R) -> R) : Prop := exists ts, Lx t ts /\ PFac dom ts v.
Definition TP (t : text) (v : (string -> R) -> R) : Prop := exists ts, Lx t ts /\ PProd dom ts v.
Definition TS (t : text) (v : (string -> R) -> R) : Prop := exists ts, Lx t ts /\ PSum dom ts v.
Definition TX (t : text) (v : (string -> R) -> R) : Prop := exists ts, Lx t ts /\ PStart dom ts v.
Lemma tb_tf t v : TB t v -> TF t v. Proof. intros (ts & L & P). exists ts. split; [exact L|now apply p_base_fac]. Qed.
Lemma tf_tp t v : TF t v -> TP t v. Proof. intros (ts & L & P). exists ts. split; [exact L|now apply p_fac_prod]. Qed.
Lemma tb_tp t v : TB t v -> TP t v. Proof. intros H. now apply tf_tp, tb_tf. Qed.
Lemma tp_ts t v : TP t v -> TS t v. Proof. intros (ts & L & P). exists ts. split; [exact L|now apply p_prod_sum]. Qed.
Lemma ts_tx t v : TS t v -> TX t v. Proof. intros (ts & L & P). exists ts. split; [exact L|now apply p_sum_start]. Qed.
Lemma tp_tx t v : TP t v -> TX t v. Proof. intros H. now apply ts_tx, tp_ts. Qed.
Lemma tb_tx t v : TB t v -> TX t v. Proof. intros H. now apply tp_tx, tb_tp. Qed.
Lemma tb_ext t v v' : (forall s, dom s -> v s = v' s) -> TB t v -> TB t v'. Proof. intros E (ts & L & P). exists ts. split; [exact L|now apply (p_ext_base dom ts v)]. Qed.
Lemma tf_ext t v v' : (forall s, dom s -> v s = v' s) -> TF t v -> TF t v'. Proof. intros E (ts & L & P). exists ts. split; [exact L|now apply (p_ext_fac dom ts v)]. Qed.
Lemma tp_ext t v v' : (forall s, dom s -> v s = v' s) -> TP t v -> TP t v'. Proof. intros E (ts & L & P). exists ts. split; [exact L|now apply (p_ext_prod dom ts v)]. Qed.
Lemma ts_ext t v v' : (forall s, dom s -> v s = v' s) -> TS t v -> TS t v'. Proof. intros E (ts & L & P). exists ts. split; [exact L|now apply (p_ext_sum dom ts v)]. Qed.
Lemma tx_ext t v v' : (forall s, dom s -> v s = v' s) -> TX t v -> TX t v'. Proof. intros E (ts & L & P). exists ts. split; [exact L|now apply (p_ext_start dom ts v)]. Qed.
Lemma tx_means t v : TX t v -> exists f, means t f /\ forall s, dom s -> value s f = v s.
Proof.
  intros (ts & L & e & V & H). exists e. split; [|exact V]. assert (E : evt (fun n => r_sum n ts) (e, [])). { rewrite <- (app_nil_r ts). apply H; [repeat split|]. apply e_terms; reflexivity. }
  destruct E as (n & E). exists n. intros m K. unfold read_tex. specialize (L [] I). rewrite app_nil_r in L. rewrite L. cbn [tokens finish]. rewrite app_nil_r, E by exact K. reflexivity.
Qed.
(** ** fixed pieces of text *)
Lemma lc_frac : Lc (txt "\frac{") [KFrac; KChar "{"]. Proof. intros rest. reflexivity. Qed.
Lemma lc_sqrt : Lc (txt "\sqrt{") [KSqrt; KChar "{"]. Proof. intros rest. reflexivity. Qed.
Lemma lc_times : Lc (txt "\times ") [KTimes]. Proof. intros rest. reflexivity. Qed.
Lemma lc_mid : Lc (txt "}{") [KChar "}"; KChar "{"]. Proof. intros rest. reflexivity. Qed.
Lemma lc_close : Lc (txt "}") [KChar "}"]. Proof. intros rest. reflexivity. Qed.
Lemma lc_hat : Lc (txt "^{") [KChar "^"; KChar "{"]. Proof. intros rest. reflexivity. Qed.
Lemma lc_lp : Lc (txt "(") [KChar "("]. Proof. intros rest. reflexivity. Qed.
Lemma lc_rp : Lc (txt ")") [KChar ")"]. Proof. intros rest. reflexivity. Qed.
Lemma lc_plus : Lc (txt "+") [KChar "+"]. Proof. intros rest. reflexivity. Qed.
Lemma lc_minus : Lc (txt "-") [KChar "-"]. Proof. intros rest. reflexivity. Qed.
(** ** combinations *)
Lemma tb_frac a b x y : TX a x -> TX b y -> TB (txt "\frac{" ++ a ++ txt "}{" ++ b ++ txt "}") (fun s => x s / y s)%R.
Proof.
  intros (ta & La & Pa) (tb & Lb & Pb). eexists. split; [|exact (p_frac dom _ _ _ _ Pa Pb)]. apply lc_lx. apply (lc_app _ _ _ (ta ++ KChar "}" :: KChar "{" :: tb ++ [KChar "}"]) lc_frac). apply (lxc_app _ _ _ _ La); [|reflexivity].
  apply (lc_app _ _ _ _ lc_mid). apply (lxc_app _ _ _ _ Lb lc_close). reflexivity.
Qed.
Lemma tb_sqrt a x : TX a x -> TB (txt "\sqrt{" ++ a ++ txt "}") (fun s => Rpower (x s) (/ 2))%R.
Proof. intros (ta & La & Pa). eexists. split; [|exact (p_sqrt dom _ _ Pa)]. apply lc_lx. apply (lc_app _ _ _ (ta ++ [KChar "}"]) lc_sqrt). apply (lxc_app _ _ _ _ La lc_close). reflexivity. Qed.
Lemma tb_paren a x : TX a x -> TB (txt "(" ++ a ++ txt ")") x.
Proof. intros (ta & La & Pa). eexists. split; [|exact (p_paren dom _ _ Pa)]. apply lc_lx. apply (lc_app _ _ _ (ta ++ [KChar ")"]) lc_lp). apply (lxc_app _ _ _ _ La lc_rp). reflexivity. Qed.
Lemma tf_pow a b x y : TB a x -> TX b y -> TF (a ++ txt "^{" ++ b ++ txt "}") (fun s => epow (x s) (y s)).
Proof. intros (ta & La & Pa) (tb & Lb & Pb). eexists. split; [|exact (p_power dom _ _ _ _ Pa Pb)]. apply lc_lx. apply (lxc_app _ _ _ _ La); [|reflexivity]. apply (lc_app _ _ _ (tb ++ [KChar "}"]) lc_hat). apply (lxc_app _ _ _ _ Lb lc_close). reflexivity. Qed.
Lemma tp_juxt a b x y : TP a x -> opens b -> TF b y -> TP (a ++ b) (fun s => x s * y s)%R.
Proof. intros (ta & La & Pa) O (tb & Lb & Pb). eexists. split; [|exact (p_juxt dom _ _ _ _ Pa Pb)]. now apply lx_app. Qed.
Lemma tp_times a b x y : TP a x -> TP b y -> TP (a ++ txt "\times " ++ b) (fun s => x s * y s)%R.
Proof. intros (ta & La & Pa) (tb & Lb & Pb). eexists. split; [|exact (p_times dom _ _ _ _ Pa Pb)]. apply (lx_app _ _ _ _ La); [|reflexivity]. exact (lcx_app _ _ _ _ lc_times Lb). Qed.
Lemma ts_sum a b x y : TS a x -> TS b y -> TS (a ++ txt "+" ++ b) (fun s => x s + y s)%R.
Proof. intros (ta & La & Pa) (tb & Lb & Pb). eexists. split; [|exact (p_sum_sum dom _ _ _ _ Pa Pb)]. apply (lx_app _ _ _ _ La); [|reflexivity]. exact (lcx_app _ _ _ _ lc_plus Lb). Qed.
Lemma tx_sum a b x y : TX a x -> TS b y -> TX (a ++ txt "+" ++ b) (fun s => x s + y s)%R.
Proof. intros (ta & La & Pa) (tb & Lb & Pb). eexists. split; [|exact (p_start_sum dom _ _ _ _ Pa Pb)]. apply (lx_app _ _ _ _ La); [|reflexivity]. exact (lcx_app _ _ _ _ lc_plus Lb). Qed.
Lemma ts_sub a b x y : TS a x -> TP b y -> TS (a ++ txt "-" ++ b) (fun s => x s - y s)%R.
Proof. intros (ta & La & Pa) (tb & Lb & Pb). eexists. split; [|exact (p_sum_sub dom _ _ _ _ Pa Pb)]. apply (lx_app _ _ _ _ La); [|reflexivity]. exact (lcx_app _ _ _ _ lc_minus Lb). Qed.
Lemma tx_sub a b x y : TX a x -> TP b y -> TX (a ++ txt "-" ++ b) (fun s => x s - y s)%R.
Proof. intros (ta & La & Pa) (tb & Lb & Pb). eexists. split; [|exact (p_start_sub dom _ _ _ _ Pa Pb)]. apply (lx_app _ _ _ _ La); [|reflexivity]. exact (lcx_app _ _ _ _ lc_minus Lb). Qed.
Lemma tx_neg a x : TP a x -> TX ("-"%char :: a) (fun s => - x s)%R.
Proof. intros (ta & La & Pa). eexists. split; [|exact (p_neg dom _ _ Pa)]. exact (lcx_app _ _ _ _ lc_minus La). Qed.

(** ** numbers *)
Lemma tb_num n : 0 <= n -> TB (numeral n) (fun _ => IZR n). Proof. intros H. exists [KNum n]. split; [now apply lx_numeral|apply p_num]. Qed.
Lemma tb_zero : TB (txt "0") (fun _ => 0%R). Proof. exact (tb_num 0 (Z.le_refl 0)). Qed.
Lemma tx_int n : TX (adapter_to_string n) (fun _ => IZR n).
Proof.
  destruct (Z.ltb_spec n 0) as [N|N]; [|rewrite numeral_text by lia; now apply tb_tx, tb_num]. rewrite (numeral_neg n N), numeral_text by lia. apply (tx_ext _ (fun _ => - IZR (- n))%R); [intros s _; rewrite opp_IZR; ring|]. apply tx_neg, tb_tp, tb_num. lia.
Qed.
Lemma tb_rat q : 0 < den q -> 0 <= num q \/ den q <> 1 -> TB (rat_to_tex q) (fun _ => Q2R (qv q)).
Proof.
  intros D H. unfold rat_to_tex. rewrite qv_R by lia. destruct (Z.eqb_spec (den q) 1) as [E|E]; cbn [negb].
  - rewrite numeral_text by lia. apply (tb_ext _ (fun _ => IZR (num q))); [intros s _; rewrite E; field|]. apply tb_num. lia.
  - exact (tb_frac _ _ _ _ (tx_int (num q)) (tx_int (den q))).
Qed.
Lemma tx_rat q : 0 < den q -> TX (rat_to_tex q) (fun _ => Q2R (qv q)).
Proof.
  intros D. destruct (Z.eq_dec (den q) 1) as [E|E]; [|apply tb_tx, tb_rat; auto]. unfold rat_to_tex. rewrite E, qv_R by lia. cbn [negb Z.eqb Pos.eqb]. apply (tx_ext _ (fun _ => IZR (num q))); [intros s _; rewrite E; field|]. apply tx_int.
Qed.
(** the text of a number, as a function *)
Definition real_tx (c : real) : text :=
  if num (coe c) =? 0 then txt "0" else if idx c =? 1 then rat_to_tex (coe c) else
  (if negb (num (coe c) =? den (coe c)) then (if num (coe c) =? - den (coe c) then txt "-" else rat_to_tex (coe c)) else []) ++ txt "\sqrt{" ++ rat_to_tex (rad c) ++ txt "}".
Lemma real_tx_neg w c : tex_real w c -> num (coe c) < 0 -> den (coe c) = 1 -> real_tx c = "-"%char :: real_tx (nreal c).
Proof.
  intros (P & I) N D. unfold real_tx, nreal. cbn [coe rad idx num den]. destruct (Z.eqb_spec (num (coe c)) 0); [lia|]. destruct (Z.eqb_spec (- num (coe c)) 0); [lia|]. assert (X : forall q, num q < 0 -> den q = 1 -> rat_to_tex q = "-"%char :: rat_to_tex (Rat (- num q) (den q))). { intros q A B. unfold rat_to_tex. cbn [num den]. rewrite B. cbn [Z.eqb Pos.eqb negb]. now apply numeral_neg. }
  destruct (idx c =? 1); [now apply X|]. destruct (Z.eqb_spec (num (coe c)) (den (coe c))); [lia|]. cbn [negb]. destruct (Z.eqb_spec (num (coe c)) (- den (coe c))); destruct (Z.eqb_spec (- num (coe c)) (den (coe c))); try lia; cbn [negb]; [reflexivity|].
  destruct (Z.eqb_spec (- num (coe c)) (- den (coe c))); [lia|]. rewrite (X _ N D). reflexivity.
Qed.
Lemma tp_real w c : tex_real w c -> num (coe c) <> 0 -> 0 < num (coe c) \/ den (coe c) <> 1 -> (idx c = 1 \/ num (coe c) <> - den (coe c)) ->
  TP (real_tx c) (fun _ => rv c) /\ (0 < num (coe c) -> idx c = 1 \/ num (coe c) = den (coe c) -> TB (real_tx c) (fun _ => rv c)).
Proof.
  intros ((Ca & Q & A & B & C & F) & I2) N H NU. destruct (canonical_split c Ca) as (m & E & S). pose proof (proj1 Q) as QD. unfold real_tx. destruct (Z.eqb_spec (num (coe c)) 0); [contradiction|]. pose proof (tb_rat (coe c) QD ltac:(lia)) as R1. destruct S as [[S1 ->]|[S1 S2]].
  - assert (V : rv c = Q2R (qv (coe c))). { unfold rv. rewrite E, S1. rewrite (qv_R (Rat 1 1)) by (cbn; lia). cbn [num den]. unfold Rdiv. rewrite Rinv_1, Rmult_1_r. unfold Rpower. rewrite ln_1, Rmult_0_r, exp_0. ring. }
    rewrite S1. cbn [Z.eqb Pos.eqb]. split; [apply tb_tp|intros X _]; apply (tb_ext _ (fun _ => Q2R (qv (coe c)))); auto.
  - assert (idx c = 2) as J by lia. rewrite J. cbn [Z.eqb Pos.eqb]. rewrite E. assert (RT : TB (txt "\sqrt{" ++ rat_to_tex (Rat m 1) ++ txt "}") (fun _ => Rpower (IZR m) (/ 2))).
    { apply (tb_ext _ (fun _ => Rpower (Q2R (qv (Rat m 1))) (/ 2))%R); [intros s _; rewrite qv_R by (cbn; lia); cbn [num den]; f_equal; field|]. apply tb_sqrt, tx_rat. cbn. lia. }
    assert (V : rv c = (Q2R (qv (coe c)) * Rpower (IZR m) (/ 2))%R). { unfold rv. rewrite E, J. rewrite (qv_R (Rat m 1)) by (cbn; lia). cbn [num den]. unfold Rdiv. now rewrite Rinv_1, Rmult_1_r. }
    destruct (Z.eqb_spec (num (coe c)) (den (coe c))) as [U|U]; cbn [negb].
    + pose proof (lowest_unit _ 1 Q ltac:(auto) ltac:(lia)) as X. assert (V1 : rv c = Rpower (IZR m) (/ 2)). { rewrite V, X, (qv_R (Rat 1 1)) by (cbn; lia). cbn [num den]. field. }
      assert (RA : TB (txt "\sqrt{" ++ rat_to_tex (Rat m 1) ++ txt "}") (fun _ => rv c)) by (apply (tb_ext _ (fun _ => Rpower (IZR m) (/ 2))); [auto|exact RT]). split; [now apply tb_tp|auto].
    + destruct (Z.eqb_spec (num (coe c)) (- den (coe c))); [lia|]. split; [|intros X [Y|Y]; lia].
      refine (tp_ext _ _ _ _ (tp_juxt _ _ _ _ (tb_tp _ _ R1) _ (tb_tf _ _ RT))); [intros s _; now rewrite V|reflexivity].
Qed.
(** ** symbols *)
Definition sym_tx (p : string * rat) : text :=
  let long := negb (Nat.eqb (String.length (fst p)) 1) in
  if num (snd p) =? den (snd p) then (if long then txt "\" ++ txt (fst p) ++ txt " " else txt (fst p))
  else (if long then txt "\" else []) ++ txt (fst p) ++ txt "^{" ++ rat_to_tex (snd p) ++ txt "}".
Definition smtx (m : smap) : text := flat_map sym_tx m.
Definition proot (s : string -> R) (p : string * rat) : Prop := den (snd p) = 1 \/ (0 < s (fst p))%R.
Lemma epow_pwr s p : qok (snd p) -> proot s p -> epow (s (fst p)) (Q2R (qv (snd p))) = pwr (s (fst p)) (snd p).
Proof.
  intros (D & _) H. unfold pwr. destruct (Z.eqb_spec (den (snd p)) 1) as [E|E].
  - rewrite qv_R by lia. rewrite E. unfold Rdiv. rewrite Rinv_1, Rmult_1_r. apply epow_int.
  - destruct H as [H|H]; [contradiction|]. unfold epow. destruct (Rlt_dec 0 (s (fst p))); [reflexivity|contradiction].
Qed.
Lemma name_control k : tex_name k -> (String.length k =? 1)%nat = false -> control k = KSym k.
Proof.
  intros (_ & L & N) L1. apply Nat.eqb_neq in L1. unfold control. destruct (String.eqb_spec k "frac") as [->|_]; [exfalso; apply N; cbn; auto|]. destruct (String.eqb_spec k "sqrt") as [->|_]; [exfalso; apply N; cbn; auto|]. destruct (String.eqb_spec k "times") as [->|_]; [exfalso; apply N; cbn; auto|].
  destruct (Nat.leb_spec 2 (String.length k)); [reflexivity|lia].
Qed.
Lemma name_letter k : tex_name k -> (String.length k =? 1)%nat = true -> exists c, k = String c "" /\ letter c = true.
Proof. intros (F & _) L. apply Nat.eqb_eq in L. destruct k as [|c [|c' k]]; try discriminate. exists c. split; [reflexivity|]. cbn in F. now inversion F. Qed.
Lemma letter_opens c : letter c = true -> digit c = false.
Proof. unfold letter, digit. rewrite orb_true_iff, !andb_true_iff, !Z.leb_le, andb_false_iff, !Z.leb_gt. lia. Qed.
Lemma tf_sym w p : tex_sym w p -> (forall s, dom s -> proot s p) -> opens (sym_tx p) /\ TF (sym_tx p) (fun s => pwr (s (fst p)) (snd p)) /\ (snd p = Rat 1 1 -> TB (sym_tx p) (fun s => s (fst p))).
Proof.
  intros (N & Q & _ & _ & _) H. pose proof N as (NL & _). unfold sym_tx. cbv zeta. destruct p as [k q]. cbn [fst snd] in *. destruct (Z.eqb_spec (num q) (den q)) as [U|U].
  - pose proof (lowest_unit _ 1 Q ltac:(auto) ltac:(lia)) as ->. assert (X : opens (if negb (String.length k =? 1)%nat then txt "\" ++ txt k ++ txt " " else txt k) /\ TB (if negb (String.length k =? 1)%nat then txt "\" ++ txt k ++ txt " " else txt k) (fun s => s k)).
    { destruct (String.length k =? 1)%nat eqn:L; cbn [negb].
      - destruct (name_letter k N L) as (c & -> & A). split; [exact (letter_opens c A)|]. exists [KSym (String c "")]. split; [apply lc_lx; now apply lc_letter|apply p_sym].
      - split; [reflexivity|]. exists [KSym k]. split; [|apply p_sym]. rewrite <- (name_control k N L). apply lc_lx. now apply lc_word_space. }
    split; [apply X|]. split; [|intros _; apply X]. apply (tf_ext _ (fun s => s k)); [intros s _; unfold pwr; cbn [den num Z.eqb Pos.eqb]; now rewrite powerRZ_1|]. apply tb_tf, X.
  - split; [|split; [|intros ->; contradiction]].
    + destruct (String.length k =? 1)%nat eqn:L; cbn [negb]; [|reflexivity]. destruct (name_letter k N L) as (c & -> & A). exact (letter_opens c A).
    + apply (tf_ext _ (fun s => epow (s k) (Q2R (qv q)))); [intros s D; exact (epow_pwr s (k, q) Q (H s D))|]. destruct (String.length k =? 1)%nat eqn:L; cbn [negb].
      * destruct (name_letter k N L) as (c & -> & A). cbn [app]. apply tf_pow; [|apply tx_rat, Q]. exists [KSym (String c "")]. split; [apply lc_lx; now apply lc_letter|apply p_sym].
      * destruct (tx_rat q (proj1 Q)) as (tb & Lb & Pb). eexists. split; [|exact (p_power dom _ _ _ _ (p_sym dom k) Pb)]. cbn [app]. rewrite <- (name_control k N L). apply lc_lx.
        apply (lc_word k "^"%char NL eq_refl ltac:(discriminate) ("{"%char :: rat_to_tex q ++ txt "}") (KChar "^" :: KChar "{" :: tb ++ [KChar "}"])).
        apply (lc_app (txt "^{") (rat_to_tex q ++ txt "}") _ (tb ++ [KChar "}"]) lc_hat). apply (lxc_app _ _ _ _ Lb lc_close). reflexivity.
Qed.
Lemma tp_syms w m : Forall (tex_sym w) m -> (forall s, dom s -> Forall (proot s) m) -> forall a x, TP a x -> TP (a ++ smtx m) (fun s => x s * sv s m)%R.
Proof.
  induction 1 as [|p m Hp F IH]; intros D a x A.
  - cbn [smtx flat_map]. rewrite app_nil_r. apply (tp_ext _ x); [intros s _; cbn; ring|exact A].
  - cbn [smtx flat_map]. fold (smtx m). rewrite app_assoc. destruct (tf_sym w p Hp) as (O & T & _); [intros s Ds; specialize (D s Ds); now inversion D|].
    refine (tp_ext _ _ _ _ (IH _ _ _ (tp_juxt _ _ _ _ A O T))); [intros s _; cbn [sv fold_right]; fold (sv s m); ring|intros s Ds; specialize (D s Ds); now inversion D].
Qed.
(** ** terms *)
Definition term_tx (t : term) : text :=
  if num (coe (tco t)) =? 0 then txt "0" else
  (if no_symbols t then real_tx (tco t) else if is_unit 1 (tco t) then [] else if is_unit (-1) (tco t) then txt "-" else real_tx (tco t)) ++ smtx (syms t).
Definition troot (s : string -> R) (t : term) : Prop := Forall (proot s) (syms t).
Lemma term_tx_neg w t : tex_term w t -> num (coe (tco t)) < 0 -> den (coe (tco t)) = 1 -> term_tx t = "-"%char :: term_tx (nterm t).
Proof.
  intros (C & _) N D. pose proof (real_tx_neg w _ C N D) as TN. unfold term_tx. cbn [nterm tco syms]. change (no_symbols (nterm t)) with (no_symbols t). destruct (unit_neg (tco t)) as [-> ->]. cbn [nreal coe num]. destruct (Z.eqb_spec (num (coe (tco t))) 0); [lia|]. destruct (Z.eqb_spec (- num (coe (tco t))) 0); [lia|].
  fold (nreal (tco t)). rewrite TN. destruct (no_symbols t); [reflexivity|]. assert (is_unit 1 (tco t) = false) as ->. { unfold is_unit. destruct (Z.eqb_spec (num (coe (tco t))) (1 * den (coe (tco t)))); [lia|reflexivity]. }
  destruct (is_unit (-1) (tco t)); reflexivity.
Qed.
Lemma unit_1 w c : plain_real w c -> is_unit 1 c = true -> c = rint 1.
Proof.
  intros (Ca & Q & _) U. unfold is_unit in U. rewrite andb_true_iff, !Z.eqb_eq in U. destruct U as [X Y]. destruct (canonical_split c Ca) as (m & E & [[S1 S2]|[S1 S2]]); [|lia]. apply (lowest_unit _ 1 Q ltac:(auto)) in X. destruct c as [i r k]. cbn in *. subst. reflexivity.
Qed.
Lemma tp_term w t : tex_term w t -> (forall s, dom s -> troot s t) -> num (coe (tco t)) <> 0 -> 0 < num (coe (tco t)) \/ den (coe (tco t)) <> 1 ->
  TP (term_tx t) (fun s => tv s t) /\ (base_term t -> TB (term_tx t) (fun s => tv s t)).
Proof.
  intros (C & S) D N H. pose proof (proj1 C) as CP. assert (L : qok (coe (tco t))) by apply CP. assert (NU : num (coe (tco t)) <> - den (coe (tco t))). { intros X. destruct L as (L1 & L2). unfold lowest_terms in L2. rewrite X, Z.gcd_opp_l, Z.gcd_diag in L2. lia. }
  destruct (tp_real w (tco t) C N H (or_intror NU)) as [R1 R2]. unfold term_tx. destruct (Z.eqb_spec (num (coe (tco t))) 0); [contradiction|]. pose proof (unit_1 w (tco t) CP) as U. destruct t as [c m]. cbn [tco syms] in *. unfold no_symbols. cbn [syms]. assert (X : forall s, tv s (Term c m) = (rv c * sv s m)%R) by reflexivity. destruct m as [|p m].
  - cbn [smtx flat_map]. rewrite app_nil_r. split; [|intros (B0 & [(_ & F1 & F2)|(_ & k & F)])].
    + apply (tp_ext _ (fun _ => rv c)); [intros s _; rewrite X; cbn; ring|exact R1].
    + apply (tb_ext _ (fun _ => rv c)); [intros s _; rewrite X; cbn; ring|]. apply R2; [exact B0|]. cbn [tco] in F1, F2. rewrite F1. exact F2.
    + discriminate.
  - destruct (is_unit 1 c) eqn:EU.
    + pose proof (U eq_refl) as EC. cbn [app smtx flat_map]. fold (smtx m). inversion S as [|? ? Sp Sm]; subst. destruct (tf_sym w p Sp) as (O & TFp & TBp); [intros s Ds; specialize (D s Ds); now inversion D|]. split.
      * refine (tp_ext _ _ _ _ (tp_syms w m Sm _ _ _ (tf_tp _ _ TFp))); [intros s _; rewrite X, rv_int; cbn [sv fold_right]; fold (sv s m); ring|]. intros s Ds; specialize (D s Ds); now inversion D.
      * intros (_ & [(F & _)|(_ & k & F)]); [discriminate|]. cbn [syms] in F. injection F as Fp Fm. subst p m. cbn [smtx flat_map]. rewrite app_nil_r. refine (tb_ext _ _ _ _ (TBp eq_refl)). intros s _. rewrite X, rv_int. cbn [sv fold_right fst snd]. unfold pwr. cbn [den num Z.eqb Pos.eqb]. rewrite powerRZ_1. ring.
    + assert (is_unit (-1) c = false) as ->. { unfold is_unit. destruct (Z.eqb_spec (num (coe c)) (-1 * den (coe c))); [lia|reflexivity]. }
      split; [|intros (_ & [(F & _)|(F & _)]); [discriminate|]; cbn [tco] in F; subst c; discriminate EU].
      refine (tp_ext _ _ _ _ (tp_syms w (p :: m) S D _ _ R1)). intros s _. now rewrite X.
Qed.
End T.
