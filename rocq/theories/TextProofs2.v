(** Proofs for the text round trip: reading the printed text of a tree. *)
From Coq Require Import ZArith QArith Qreals Reals String Ascii Lia Lra Bool List Permutation.
From Verif Require Import Base HugeSpec AdapterModel AdapterProofs FactorizeModel RationalModel RationalSpec RationalProofs RationalProofs2 RealModel RealSpec RealProofs1 RealProofs3 RealProofs8 PolyModel PolySpec ExprModel ExprSpec ParserModel ParserSpec ParserProofs1 ParserProofs3 TextSpec TextProofs1.
Import ListNotations.
Open Scope Z_scope.

(** a text followed by [rest] where no number goes on *)
Definition brk (rest : text) : Prop := match rest with [] => True | d :: _ => is_digit d = false /\ d <> "."%char end.
Definition seg (P : penv) (dec : text -> res rat) (l : text) (ts : list tok) : Prop :=
  forall rest ts', brk rest -> lexes P dec rest ts' -> lexes P dec (l ++ rest) (ts ++ ts').
Definition heads (l : text) : Prop := match l with [] => False | c :: _ => c <> "*"%char end.
(** the text l reads, at a level of the grammar, as a tree with the value v s *)
Definition Rd (P : penv) (dec : text -> res rat) (lv : level) (l : text) (v : (string -> R) -> R) : Prop :=
  heads l /\ exists ts t, seg P dec l ts /\ derives P lv ts t /\ forall s, ev s t = v s.

Section RD.
  Variable P : penv.
  Variable dec : text -> res rat.
  Local Notation RD := (Rd P dec).
  Lemma seg_app a ta b tb : seg P dec a ta -> seg P dec b tb -> (forall rest, brk rest -> brk (b ++ rest)) -> seg P dec (a ++ b) (ta ++ tb).
  Proof. intros A B C rest ts K L. rewrite <- !app_assoc. apply A; [now apply C|]. now apply B. Qed.
  Lemma lex1 l t : (forall rest, brk rest -> lexeme P dec l t (hd_error rest)) -> seg P dec l [t].
  Proof. intros H rest ts K L. exact (ls_tok P dec [] l t rest ts (Forall_nil _) (H rest K) L). Qed.
  Lemma seg_tok l t : (forall n, lexeme P dec l t n) -> seg P dec l [t].
  Proof. intros H. apply lex1. auto. Qed.
  (** an operator between two texts *)
  Lemma seg_op c a ta b tb : is_opchar c = true -> heads b -> seg P dec a ta -> seg P dec b tb -> seg P dec (a ++ [c] ++ b) (ta ++ TOp c :: tb).
  Proof.
    intros O Hb A B rest ts K L. rewrite <- !app_assoc. apply A.
    - cbn. unfold is_opchar, is_pm, is_md in O. split; [|intros ->; discriminate]. destruct c as [[] [] [] [] [] [] [] []]; try discriminate; reflexivity.
    - cbn [app]. apply (ls_tok P dec [] [c] (TOp c) (b ++ rest) (tb ++ ts) (Forall_nil _)); [|now apply B]. apply lx_op; [assumption|]. right. destruct b as [|d b]; [contradiction|]. cbn in *. congruence.
  Qed.
  Lemma rd_up lv l v : RD lv l v -> match lv with Atom => RD Pow l v | Pow => RD Prod l v | Prod => RD Sum l v | Sum => RD Expr l v | Expr => True end.
  Proof. intros (H & ts & t & S & D & V). destruct lv; trivial; (split; [assumption|]; exists ts, t; split; [assumption|]; split; [|assumption]). - now apply d_expr. - now apply d_sum. - now apply d_prod. - now apply d_pow. Qed.
  Lemma atom_prod l v : RD Atom l v -> RD Prod l v. Proof. intros H. now apply (rd_up Pow), (rd_up Atom). Qed.
  Lemma atom_expr l v : RD Atom l v -> RD Expr l v. Proof. intros H. now apply (rd_up Sum), (rd_up Prod), (rd_up Pow), (rd_up Atom). Qed.
  Lemma rd_ext lv l v v' : (forall s, v s = v' s) -> RD lv l v -> RD lv l v'.
  Proof. intros E (H & ts & t & S & D & V). split; [assumption|]. exists ts, t. split; [assumption|]. split; [assumption|]. intros s. now rewrite V. Qed.
  Lemma rd_paren l v : RD Expr l v -> RD Atom (txt "(" ++ l ++ txt ")") v.
  Proof.
    intros (H & ts & t & S & D & V). split; [discriminate|]. exists (TL :: ts ++ [TR]), t. split; [|split; [now apply d_paren|assumption]]. intros rest us K L. cbn [txt list_ascii_of_string app].
    apply (ls_tok P dec [] ["("%char] TL ((l ++ [")"%char]) ++ rest) ((ts ++ [TR]) ++ us) (Forall_nil _)); [constructor|]. rewrite <- !app_assoc. apply S; [cbn; split; [reflexivity|discriminate]|]. cbn [app]. apply (ls_tok P dec [] [")"%char] TR rest us (Forall_nil _)); [constructor|assumption].
  Qed.
  (** the operators *)
  Lemma rd_pm c a b x y : c = "+"%char \/ c = "-"%char -> RD Sum a x -> RD Prod b y -> RD Sum (a ++ [c] ++ b) (fun s => if Ascii.eqb c "+" then x s + y s else x s - y s)%R.
  Proof.
    intros C (Ha & ta & e & Sa & Da & Va) (Hb & tb & f & Sb & Db & Vb). split; [destruct a; [contradiction|exact Ha]|]. exists (ta ++ TOp c :: tb), (Op c e f). split; [apply seg_op; try assumption; destruct C as [-> | ->]; reflexivity|]. split; [now apply d_pm|].
    intros s. cbn [ev]. rewrite Va, Vb. destruct C as [-> | ->]; reflexivity.
  Qed.
  Lemma rd_md c a b x y : c = "*"%char \/ c = "/"%char -> RD Prod a x -> RD Pow b y -> RD Prod (a ++ [c] ++ b) (fun s => if Ascii.eqb c "*" then x s * y s else x s / y s)%R.
  Proof.
    intros C (Ha & ta & e & Sa & Da & Va) (Hb & tb & f & Sb & Db & Vb). split; [destruct a; [contradiction|exact Ha]|]. exists (ta ++ TOp c :: tb), (Op c e f). split; [apply seg_op; try assumption; destruct C as [-> | ->]; reflexivity|]. split; [now apply d_md|].
    intros s. cbn [ev]. rewrite Va, Vb. destruct C as [-> | ->]; reflexivity.
  Qed.
  Lemma rd_hat a b x y : RD Pow a x -> RD Atom b y -> RD Pow (a ++ ["^"%char] ++ b) (fun s => epow (x s) (y s)).
  Proof.
    intros (Ha & ta & e & Sa & Da & Va) (Hb & tb & f & Sb & Db & Vb). split; [destruct a; [contradiction|exact Ha]|]. exists (ta ++ TOp "^" :: tb), (Op "^" e f). split; [now apply seg_op|]. split; [now apply d_hat|].
    intros s. cbn [ev]. rewrite Va, Vb. reflexivity.
  Qed.
  (** sums of sums and products of products *)
  Lemma sum_sum a x : derives P Sum a x -> forall b y, derives P Sum b y -> exists t, derives P Sum (a ++ TOp "+" :: b) t /\ forall s, ev s t = (ev s x + ev s y)%R.
  Proof.
    intros A b y B. remember Sum as lv eqn:E. revert E. induction B; intros EL; try discriminate.
    - exists (Op "+" x t). split; [apply d_pm; auto|]. reflexivity.
    - subst. destruct (IHB1 A eq_refl) as (t & Dt & Vt). exists (Op c t y). split; [|intros s; cbn [ev]; rewrite Vt; destruct H as [-> | ->]; cbn [Ascii.eqb Bool.eqb]; ring].
      rewrite app_comm_cons, app_assoc. now apply d_pm.
  Qed.
  Lemma prod_prod a x : derives P Prod a x -> forall b y, derives P Prod b y -> exists t, derives P Prod (a ++ TOp "*" :: b) t /\ forall s, ev s t = (ev s x * ev s y)%R.
  Proof.
    intros A b y B. remember Prod as lv eqn:E. revert E. induction B; intros EL; try discriminate.
    - exists (Op "*" x t). split; [apply d_md; auto|]. reflexivity.
    - subst. destruct (IHB1 A eq_refl) as (t & Dt & Vt). exists (Op c t y). split; [|intros s; cbn [ev]; rewrite Vt; destruct H as [-> | ->]; cbn [Ascii.eqb Bool.eqb]; unfold Rdiv; ring].
      rewrite app_comm_cons, app_assoc. now apply d_md.
    - subst. destruct (IHB1 A eq_refl) as (t & Dt & Vt). exists (Op "*" t y). split; [|intros s; cbn [ev]; rewrite Vt; cbn [Ascii.eqb Bool.eqb]; ring].
      rewrite app_comm_cons, app_assoc. now apply d_juxt.
  Qed.
  Lemma rd_sum a b x y : RD Sum a x -> RD Sum b y -> RD Sum (a ++ ["+"%char] ++ b) (fun s => x s + y s)%R.
  Proof.
    intros (Ha & ta & e & Sa & Da & Va) (Hb & tb & f & Sb & Db & Vb). split; [destruct a; [contradiction|exact Ha]|]. destruct (sum_sum _ _ Da _ _ Db) as (t & Dt & Vt). exists (ta ++ TOp "+" :: tb), t. split; [now apply seg_op|]. split; [assumption|]. intros s. now rewrite Vt, Va, Vb.
  Qed.
  Lemma rd_prod a b x y : RD Prod a x -> RD Prod b y -> RD Prod (a ++ ["*"%char] ++ b) (fun s => x s * y s)%R.
  Proof.
    intros (Ha & ta & e & Sa & Da & Va) (Hb & tb & f & Sb & Db & Vb). split; [destruct a; [contradiction|exact Ha]|]. destruct (prod_prod _ _ Da _ _ Db) as (t & Dt & Vt). exists (ta ++ TOp "*" :: tb), t. split; [now apply seg_op|]. split; [assumption|]. intros s. now rewrite Vt, Va, Vb.
  Qed.
  (** trees *)
  Definition leaf_reads (f : frac) (t : text) : Prop := RD Expr t (fun s => fv s f) /\ (den_is_one (pe P) (fden f) = Ok true -> RD Atom t (fun s => fv s f)).
  Fixpoint leaves_read (e : expr) : Prop :=
    match e with
    | Leaf f => forall t, frac_to_string (pe P) f = Ok t -> leaf_reads f t
    | Op c l r => is_opchar c = true /\ leaves_read l /\ leaves_read r
    end.
  Definition op_level (c : ascii) : level := if is_pm c then Sum else if is_md c then Prod else Pow.
  Lemma op_up c l v : RD (op_level c) l v -> RD Sum l v /\ (is_pm c = false -> RD Prod l v) /\ (is_pm c = false -> is_md c = false -> RD Pow l v).
  Proof.
    unfold op_level. destruct (is_pm c); [intros H; split; [assumption|split; discriminate]|]. destruct (is_md c); intros H.
    - split; [now apply (rd_up Prod)|]. split; [auto|discriminate].
    - split; [now apply (rd_up Prod), (rd_up Pow)|]. split; [intros _; now apply (rd_up Pow)|auto].
  Qed.
  Lemma tree_reads e : leaves_read e -> forall t, expr_to_string (pe P) e = Ok t ->
    match e with Leaf f => leaf_reads f t | Op c _ _ => RD (op_level c) t (fun s => ev s e) end.
  Proof.
    induction e as [f|c l IHl r IHr]; intros LR t H; [now apply LR|]. cbn [leaves_read] in LR. destruct LR as (O & Ll & Lr). cbn [expr_to_string] in H.
    apply bind_ok in H as (pl & Hpl & H). apply bind_ok in H as (sl & Hsl & H). apply bind_ok in H as (pr & Hpr & H). apply bind_ok in H as (sr & Hsr & H). injection H as <-. specialize (IHl Ll _ Hsl). specialize (IHr Lr _ Hsr).
    (* the operands *)
    assert (XL : match l with Leaf f => RD Atom (in_parens pl sl) (fun s => ev s l) | Op lc _ _ => if pl then RD Atom (in_parens pl sl) (fun s => ev s l) else RD (op_level lc) (in_parens pl sl) (fun s => ev s l) end).
    { destruct l as [f|lc l1 l2].
      - cbn [paren_left] in Hpl. unfold output_need_paren in Hpl. apply bind_ok in Hpl as (b & Hb & Hpl). injection Hpl as <-. destruct IHl as [A B]. destruct b; cbn [negb in_parens]; [now apply B|now apply rd_paren].
      - destruct pl; cbn [in_parens]; [|exact IHl]. apply rd_paren. now apply (rd_up Sum), (op_up lc). }
    assert (XR : match r with Leaf f => RD Atom (in_parens pr sr) (fun s => ev s r) | Op rc _ _ => if pr then RD Atom (in_parens pr sr) (fun s => ev s r) else RD (op_level rc) (in_parens pr sr) (fun s => ev s r) end).
    { destruct r as [f|rc r1 r2].
      - cbn [paren_right] in Hpr. unfold output_need_paren in Hpr. apply bind_ok in Hpr as (b & Hb & Hpr). injection Hpr as <-. destruct IHr as [A B]. destruct b; cbn [negb in_parens]; [now apply B|now apply rd_paren].
      - destruct pr; cbn [in_parens]; [|exact IHr]. apply rd_paren. now apply (rd_up Sum), (op_up rc). }
    clear IHl IHr. remember (in_parens pl sl) as tl eqn:El. remember (in_parens pr sr) as tr eqn:Er. clear El Er Hsl Hsr.
    assert (SL : RD Sum tl (fun s => ev s l)) by (destruct l; [now apply (rd_up Prod), atom_prod|]; destruct pl; [now apply (rd_up Prod), atom_prod|now apply (op_up c0)]).
    assert (SR : RD Sum tr (fun s => ev s r)) by (destruct r; [now apply (rd_up Prod), atom_prod|]; destruct pr; [now apply (rd_up Prod), atom_prod|now apply (op_up c0)]).
    assert (PR : (match r with Op rc _ _ => pr = false -> is_pm rc = false | _ => True end) -> RD Prod tr (fun s => ev s r)) by (destruct r; [intros _; now apply atom_prod|]; destruct pr; intros Q; [now apply atom_prod|apply (op_up c0); auto]).
    assert (PL : (match l with Op lc _ _ => pl = false -> is_pm lc = false | _ => True end) -> RD Prod tl (fun s => ev s l)) by (destruct l; [intros _; now apply atom_prod|]; destruct pl; intros Q; [now apply atom_prod|apply (op_up c0); auto]).
    unfold op_level. destruct (is_pm c) eqn:EP; [|destruct (is_md c) eqn:EM].
    - apply orb_true_iff in EP as [EP|EP]; apply Ascii.eqb_eq in EP; subst c.
      + now apply rd_sum.
      + refine (rd_ext _ _ _ _ _ (rd_pm "-" tl tr (fun s => ev s l) (fun s => ev s r) _ SL _)); [reflexivity|now right|]. apply PR. destruct r as [f|rc r1 r2]; [trivial|]. intros ->. cbn [paren_right] in Hpr. now injection Hpr.
    - apply orb_true_iff in EM as [EM|EM]; apply Ascii.eqb_eq in EM; subst c.
      + apply rd_prod; [apply PL|apply PR].
        * destruct l as [f|lc l1 l2]; [trivial|]. intros ->. cbn [paren_left] in Hpl. now injection Hpl.
        * destruct r as [f|rc r1 r2]; [trivial|]. intros ->. cbn [paren_right] in Hpr. now injection Hpr.
      + refine (rd_ext _ _ _ _ _ (rd_md "/" tl tr (fun s => ev s l) (fun s => ev s r) _ _ _)); [reflexivity|now right| |].
        * apply PL. destruct l as [f|lc l1 l2]; [trivial|]. intros ->. cbn [paren_left] in Hpl. now injection Hpl.
        * destruct r as [f|rc r1 r2]; [now apply (rd_up Atom)|]. destruct pr; [now apply (rd_up Atom)|]. cbn [paren_right] in Hpr. injection Hpr as Hpr. cbn in Hpr. apply orb_false_iff in Hpr as [A B]. now apply (op_up rc).
    - assert (c = "^"%char) as ->. { unfold is_opchar in O. rewrite EP, EM in O. cbn in O. now apply Ascii.eqb_eq in O. }
      refine (rd_ext _ _ _ _ _ (rd_hat tl tr (fun s => ev s l) (fun s => ev s r) _ _)); [reflexivity| |].
      + apply (rd_up Atom). destruct l as [f|lc l1 l2]; [assumption|]. cbn [paren_left] in Hpl. injection Hpl as <-. exact XL.
      + destruct r as [f|rc r1 r2]; [assumption|]. cbn [paren_right] in Hpr. injection Hpr as <-. exact XR.
  Qed.
  Lemma rd_parse l v : RD Expr l v -> exists t, parse P dec l = Ok t /\ forall s, ev s t = v s.
  Proof.
    intros (H & ts & t & S & D & V). exists t. split; [|assumption]. apply parse_iff. exists ts. split; [|now apply grammar_parse]. specialize (S [] [] I (ls_end P dec [] (Forall_nil _))). now rewrite !app_nil_r in S.
  Qed.
  Theorem print_parse e : leaves_read e -> forall t, expr_to_string (pe P) e = Ok t -> exists e', parse P dec t = Ok e' /\ forall s, ev s e' = ev s e.
  Proof.
    intros L t H. apply (tree_reads e L) in H. apply rd_parse. destruct e as [f|c l r]; [apply H|]. now apply (rd_up Sum), (op_up c).
  Qed.
End RD.

(** ** leaves *)
Lemma digit_same c : is_dec_digit c -> is_digit c = true.
Proof. unfold is_dec_digit. intros H. unfold is_digit, in_range. rewrite andb_true_iff, !N.leb_le. unfold nat_of_ascii in H. lia. Qed.
Lemma find_no c s : Forall (fun d => d <> c) s -> find_char c s = None.
Proof. induction 1 as [|d s D F IH]; [reflexivity|]. cbn [find_char]. destruct (Ascii.eqb_spec d c); [contradiction|]. now rewrite IH. Qed.
Lemma digit_not d c : is_dec_digit d -> is_digit c = false -> d <> c.
Proof. intros D C ->. apply digit_same in D. congruence. Qed.
Section LEAF.
  Variable P : penv.
  Variable dec : text -> res rat.
  Hypothesis R : reads P.
  Local Notation w := (ew (pe P)).
  Lemma numeral_number n : 0 <= n -> number (numeral n) /\ is_digit (first (numeral n)) = true.
  Proof.
    intros H. destruct (numeral_spec n H) as ((NE & F & _) & _). destruct F as [|c s D F]; [contradiction|]. split; [|cbn; now apply digit_same]. cbn. split; [left; now apply digit_same|].
    eapply Forall_impl; [|exact F]. intros d Dd. unfold number_char. now rewrite (digit_same d Dd).
  Qed.
  Lemma numeral_rat n : 0 <= n < 2 ^ (w - 1) -> rat_of_string w dec (numeral n) = Ok (Rat n 1).
  Proof.
    intros H. destruct (numeral_spec n) as ((NE & F & _) & _); [lia|]. unfold rat_of_string. rewrite !find_no by (eapply Forall_impl; [|exact F]; intros d D; now apply (digit_not d)). destruct R as (W & _).
    pose proof (int_text_round_trip w n) as T. unfold adapter_to_string in T. destruct (Z.ltb_spec n 0); [lia|]. rewrite T by lia. reflexivity.
  Qed.
  Lemma brk_stops s rest : is_digit (first s) = true -> brk rest -> stops (first s) (hd_error rest).
  Proof. intros D K. destruct rest as [|d rest]; [exact I|]. cbn in *. destruct K as [K1 K2]. unfold number_char. rewrite K1. unfold is_dot. destruct (Ascii.eqb_spec d "."); [contradiction|]. now rewrite andb_false_r. Qed.
  Lemma seg_num n : 0 <= n < 2 ^ (w - 1) -> seg P dec (numeral n) [TNum (leaf_int n)].
  Proof.
    intros H. destruct (numeral_number n) as [NU D]; [lia|]. apply lex1. intros rest K. apply (lx_num P dec (numeral n) (Rat n 1)); [assumption|now apply brk_stops|now apply numeral_rat|apply read_rat; [assumption|lia]].
  Qed.
  Lemma seg_sym k : name_ok k -> seg P dec (name_text k) [TSym (leaf_sym k)].
  Proof.
    intros [(c & -> & A)|[L F]]; apply seg_tok; intros n.
    - cbn [name_text String.length Nat.eqb txt list_ascii_of_string]. apply lx_letter; [assumption|now apply read_sym].
    - unfold name_text. destruct (Nat.eqb_spec (String.length k) 1); [contradiction|]. apply (lx_name P dec (list_ascii_of_string k)); [assumption|]. rewrite string_of_list_ascii_of_string. now apply read_sym.
  Qed.
  Lemma digit_head n : 0 <= n -> heads (numeral n).
  Proof. intros H. destruct (numeral_spec n H) as ((NE & F & _) & _). destruct F as [|c s D F]; [contradiction|]. cbn. now apply (digit_not c). Qed.
  Lemma name_head k : name_ok k -> heads (name_text k).
  Proof. intros [(c & -> & A)|[L F]]; [cbn; intros ->; discriminate|]. unfold name_text. destruct (Nat.eqb_spec (String.length k) 1); [contradiction|]. cbn. discriminate. Qed.
  Lemma rv_int n : rv (rint n) = IZR n.
  Proof. unfold rv. cbn [coe rad idx rint]. rewrite !qv_R by (cbn; lia). cbn [num den]. unfold Rdiv. rewrite Rinv_1, !Rmult_1_r. unfold Rpower. rewrite ln_1, Rmult_0_r, exp_0. ring. Qed.
  Lemma fv_int s n : fv s (leaf_int n) = IZR n.
  Proof. unfold fv, leaf_int, pv, tv. cbn [fnum fden fold_right tco syms term_const sv]. rewrite !rv_int. field. Qed.
  Lemma fv_sym s k : fv s (leaf_sym k) = s k.
  Proof. unfold fv, leaf_sym, pv, tv. cbn [fnum fden fold_right tco syms term_const term_sym sv fst snd]. rewrite !rv_int. unfold pwr. cbn [num den Z.eqb Pos.eqb]. rewrite powerRZ_1. field. Qed.
  Lemma rd_num n : 0 <= n < 2 ^ (w - 1) -> Rd P dec Atom (numeral n) (fun _ => IZR n).
  Proof. intros H. split; [apply digit_head; lia|]. exists [TNum (leaf_int n)], (Leaf (leaf_int n)). split; [now apply seg_num|]. split; [apply d_num|]. intros s. apply fv_int. Qed.
  Lemma rd_sym k : name_ok k -> Rd P dec Atom (name_text k) (fun s => s k).
  Proof. intros H. split; [now apply name_head|]. exists [TSym (leaf_sym k)], (Leaf (leaf_sym k)). split; [now apply seg_sym|]. split; [apply d_sym|]. intros s. apply fv_sym. Qed.
  (** what is printed for them *)
  Lemma int_eq a b : Z.abs a < 2 ^ (w - 1) -> Z.abs b < 2 ^ (w - 1) -> real_eq w (rint a) (rint b) = Ok (a =? b).
  Proof.
    intros A B. pose proof (w4 P R). unfold real_eq, rat_eq. cbn [coe rad idx rint num den]. rewrite !Z.mul_1_r. repeat (rewrite chk_ok by lia; cbn [bind]). destruct (a =? b); [|reflexivity]. cbn [negb]. repeat (rewrite chk_ok by lia; cbn [bind]). reflexivity.
  Qed.
  Lemma den_one : den_is_one (pe P) [term_const (rint 1)] = Ok true.
  Proof. pose proof (w4 P R). unfold den_is_one. rewrite (of_int P R) by lia. cbn [bind]. change (tco (term_const (rint 1))) with (rint 1). rewrite int_eq by lia. reflexivity. Qed.
  Lemma print_int n : 0 <= n < 2 ^ (w - 1) -> frac_to_string (pe P) (leaf_int n) = Ok (numeral n).
  Proof.
    intros H. pose proof (w4 P R). unfold frac_to_string, leaf_int. cbn [fnum fden]. rewrite den_one. cbn [bind]. unfold poly_to_string, poly_print. cbn [poly_is_zero]. rewrite (of_int P R 0) by lia. cbn [bind]. change (tco (term_const (rint n))) with (rint n). unfold real_ne. rewrite int_eq by lia. cbn [bind].
    destruct (Z.eqb_spec n 0) as [->|N]; [reflexivity|]. cbn [negb bind poly_text]. unfold term_zero. rewrite (of_int P R 0) by lia. cbn [bind]. change (tco (term_const (rint n))) with (rint n). rewrite int_eq by lia. cbn [bind]. destruct (Z.eqb_spec n 0); [contradiction|]. unfold term_to_string. cbv zeta. rewrite (of_int P R 0) by lia. cbn [bind]. change (tco (term_const (rint n))) with (rint n). rewrite int_eq by lia. cbn [bind]. destruct (Z.eqb_spec n 0); [contradiction|].
    rewrite (of_int P R 1) by lia. cbn [bind]. unfold real_ne. rewrite int_eq by lia. cbn [bind]. change (no_symbols (term_const (rint n))) with true. rewrite orb_true_r. rewrite (of_int P R (-1)) by lia. cbn [bind]. rewrite int_eq by lia. cbn [bind negb]. rewrite andb_false_r.
    unfold real_to_string. cbn [coe rint]. rewrite pow_eq0 by (cbn [num den]; destruct R; lia). cbn [bind num]. destruct (Z.eqb_spec n 0); [contradiction|]. unfold is_rational. cbn [coe rad idx rint]. rewrite pow_eq0 by (cbn [num den]; destruct R; lia). cbn [bind num]. destruct (Z.eqb_spec n 0); [contradiction|]. rewrite pow_eq1 by (cbn [num den]; lia). cbn [bind num den Z.eqb Pos.eqb]. unfold rat_to_string. cbn [num den Z.eqb Pos.eqb negb]. unfold adapter_to_string. destruct (Z.ltb_spec n 0); [lia|]. cbn [bind syms term_const syms_text]. now rewrite !app_nil_r.
  Qed.
  Lemma print_sym k : frac_to_string (pe P) (leaf_sym k) = Ok (name_text k).
  Proof.
    pose proof (w4 P R). unfold frac_to_string, leaf_sym. cbn [fnum fden]. rewrite den_one. cbn [bind]. unfold poly_to_string, poly_print. cbn [poly_is_zero]. rewrite (of_int P R 0) by lia. cbn [bind]. change (tco (term_sym (rint 1) k)) with (rint 1). unfold real_ne. rewrite int_eq by lia. cbn [bind Z.eqb negb poly_text].
    unfold term_zero. rewrite (of_int P R 0) by lia. cbn [bind]. change (tco (term_sym (rint 1) k)) with (rint 1). rewrite int_eq by lia. cbn [bind Z.eqb]. unfold term_to_string. cbv zeta. rewrite (of_int P R 0) by lia. cbn [bind]. change (tco (term_sym (rint 1) k)) with (rint 1). rewrite int_eq by lia. cbn [bind Z.eqb].
    rewrite (of_int P R 1) by lia. cbn [bind]. unfold real_ne. rewrite int_eq by lia. cbn [bind Z.eqb Pos.eqb negb no_symbols term_sym syms orb]. cbn [syms_text]. unfold rat_ne. cbn [num den]. change (1 * 1) with 1. repeat (rewrite chk_ok by lia; cbn [bind]). cbn [Z.eqb Pos.eqb negb app]. now rewrite !app_nil_r.
  Qed.
  Lemma simple_leaves e : simple w e -> leaves_read P dec e.
  Proof.
    induction e as [f|c l IHl r IHr]; cbn [simple leaves_read]; [|tauto]. intros [(n & H & ->)|(k & H & ->)] t Ht.
    - rewrite print_int in Ht by assumption. injection Ht as <-. assert (A : Rd P dec Atom (numeral n) (fun s => fv s (leaf_int n))) by (apply (rd_ext P dec _ _ (fun _ => IZR n)); [intros s; symmetry; apply fv_int|now apply rd_num]). split; [now apply atom_expr|auto].
    - rewrite print_sym in Ht. injection Ht as <-. assert (A : Rd P dec Atom (name_text k) (fun s => fv s (leaf_sym k))) by (apply (rd_ext P dec _ _ (fun s => s k)); [intros s; symmetry; apply fv_sym|now apply rd_sym]). split; [now apply atom_expr|auto].
  Qed.
  Lemma simple_prints e : simple w e -> exists t, expr_to_string (pe P) e = Ok t.
  Proof.
    assert (PL : forall f, ((exists n, 0 <= n < 2 ^ (w - 1) /\ f = leaf_int n) \/ (exists k, name_ok k /\ f = leaf_sym k)) -> output_need_paren (pe P) f = Ok false) by (intros f [(n & _ & ->)|(k & _ & ->)]; unfold output_need_paren; cbn [fden leaf_int leaf_sym]; now rewrite den_one).
    induction e as [f|c l IHl r IHr]; cbn [simple].
    - intros [(n & H & ->)|(k & H & ->)]; cbn [expr_to_string]; [rewrite print_int by assumption|rewrite print_sym]; eauto.
    - intros (_ & Sl & Sr). destruct (IHl Sl) as [tl Hl]. destruct (IHr Sr) as [tr Hr]. cbn [expr_to_string].
      assert (XL : exists b, paren_left (pe P) c l = Ok b) by (destruct l; cbn [paren_left]; [rewrite PL by exact Sl|]; eauto). assert (XR : exists b, paren_right (pe P) c r = Ok b) by (destruct r; cbn [paren_right]; [rewrite PL by exact Sr|]; eauto).
      destruct XL as [bl ->], XR as [br ->]. cbn [bind]. rewrite Hl. cbn [bind]. rewrite Hr. cbn [bind]. eauto.
  Qed.
  Theorem simple_round_trip e : simple w e -> exists t e', expr_to_string (pe P) e = Ok t /\ parse P dec t = Ok e' /\ forall s, ev s e' = ev s e.
  Proof. intros S. destruct (simple_prints e S) as [t Ht]. destruct (print_parse P dec e (simple_leaves e S) t Ht) as (e' & A & B). eauto. Qed.
End LEAF.
