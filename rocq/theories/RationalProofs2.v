(** pow, text, and histories of Rational operations. *)
From Coq Require Import ZArith Znumtheory QArith Qpower String Ascii Lia Bool List.
From Verif Require Import Base HugeModel HugeSpec HugeProofs6 AdapterModel AdapterProofs RationalModel RationalSpec RationalProofs.
Import ListNotations.
Open Scope Z_scope.

(** ** pow *)
Lemma inject_pow b e : 0 <= e -> (inject_Z (b ^ e) == inject_Z b ^ e)%Q.
Proof. intros H. apply Zpower_Qpower. assumption. Qed.
Lemma qv_pow r e : den r <> 0 -> 0 <= e -> (qv r ^ e == inject_Z (num r ^ e) / inject_Z (den r ^ e))%Q.
Proof.
  intros Hd He. unfold qv, Qdiv. rewrite Qmult_power, Qinv_power, !inject_pow by assumption. reflexivity.
Qed.
Lemma pow_eq0 w p : - 2 ^ (w - 1) <= num p < 2 ^ (w - 1) -> 0 < w -> rat_eq w p (Rat 0 1) = Ok (num p =? 0).
Proof.
  intros H Hw. assert (0 < 2 ^ (w - 1)) by (apply Z.pow_pos_nonneg; lia). unfold rat_eq. cbn [num den]. rewrite Z.mul_1_r, Z.mul_0_l, !chk_ok by lia. reflexivity.
Qed.
Lemma pow_eq1 w p : - 2 ^ (w - 1) <= num p < 2 ^ (w - 1) -> - 2 ^ (w - 1) <= den p < 2 ^ (w - 1) -> rat_eq w p (Rat 1 1) = Ok (num p =? den p).
Proof. intros H H'. unfold rat_eq. cbn [num den]. rewrite Z.mul_1_r, Z.mul_1_l, !chk_ok by lia. reflexivity. Qed.
Lemma of_int_ok w n : 1 < w -> Z.abs n < 2 ^ (w - 1) -> rat_of_int w n = Ok (Rat n 1).
Proof.
  intros Hw Hn. assert (2 <= 2 ^ (w - 1)) by (change 2 with (2 ^ 1) at 1; apply Z.pow_le_mono_r; lia).
  unfold rat_of_int, rat_normalize, adapter_abs. cbn [num den]. rewrite !chk_ok by lia. cbn [bind].
  rewrite gcd_ok' by lia. cbn [bind]. rewrite Z.gcd_abs_l. change (Z.abs 1) with 1. rewrite Z.gcd_1_r.
  rewrite !quot_ok by lia. cbn [bind]. rewrite !Z.quot_1_r. reflexivity.
Qed.
Lemma rat_pow_exact w fp r p e : 1 < w -> pow_exact w fp -> den r <> 0 -> den p <> 0 -> 0 <= e -> num p = e * den p ->
  Z.abs (num p) < 2 ^ (w - 1) -> Z.abs (den p) < 2 ^ (w - 1) -> Z.abs (num p) <= 2 ^ 53 -> Z.abs (den p) <= 2 ^ 53 ->
  Z.abs (num r) <= 2 ^ 53 -> Z.abs (den r) <= 2 ^ 53 ->
  Z.abs (num r ^ e) <= 2 ^ 53 -> Z.abs (den r ^ e) <= 2 ^ 53 -> Z.abs (num r ^ e) < 2 ^ (w - 1) -> Z.abs (den r ^ e) < 2 ^ (w - 1) ->
  exists r', rat_pow w fp r p = Ok r' /\ den r' <> 0 /\ (qv r' == qv r ^ e)%Q.
Proof.
  intros Hw HP Hr Hp He E Np Dp Np53 Dp53 Nr Dr NE DE NEw DEw.
  assert (W2 : 2 <= 2 ^ (w - 1)) by (change 2 with (2 ^ 1) at 1; apply Z.pow_le_mono_r; lia).
  unfold rat_pow. rewrite pow_eq0 by lia. cbn [bind]. destruct (Z.eqb_spec (num p) 0) as [Z0|N0].
  { assert (e = 0) by nia. subst e. rewrite of_int_ok by lia. eexists. split; [reflexivity|]. split; [cbn; lia|]. reflexivity. }
  rewrite pow_eq1 by lia. cbn [bind]. destruct (Z.eqb_spec (num p) (den p)) as [E1|N1].
  { assert (e = 1) by (clear - E E1 Hp; nia). subst e. exists r. split; [reflexivity|]. split; [assumption|]. symmetry. apply Qpower_1_r. }
  rewrite E. rewrite (HP (num r) e (den p)) by (rewrite <- ?E; try assumption; lia). cbn [bind].
  rewrite (HP (den r) e (den p)) by (rewrite <- ?E; try assumption; lia). cbn [bind].
  assert (DE0 : den r ^ e <> 0) by (apply Z.pow_nonzero; assumption).
  destruct (normalize_ok w (Rat (num r ^ e) (den r ^ e))) as (r' & R & _); cbn [num den]; try assumption.
  exists r'. split; [assumption|]. apply rat_normalize_val in R; [|assumption]. cbn [num den] in R. destruct R as [R1 R2].
  split; [assumption|]. rewrite qv_pow by assumption. apply qdiv_eq; auto.
Qed.
Lemma rat_pow_negative w fp n e : 1 < w -> pow_truncates fp -> 2 <= Z.abs n < 2 ^ (w - 1) -> - 2 ^ (w - 1) <= e < 0 ->
  rat_pow w fp (Rat n 1) (Rat e 1) = Ok (Rat 0 1) /\ (e = -1 -> rat_pow w fp (Rat 1 n) (Rat e 1) = Ok (Rat 1 0)).
Proof.
  intros Hw [T1 T2] Hn He.
  assert (W2 : 2 <= 2 ^ (w - 1)) by (change 2 with (2 ^ 1) at 1; apply Z.pow_le_mono_r; lia).
  unfold rat_pow. rewrite pow_eq0 by (cbn [num]; lia). cbn [bind num den]. destruct (Z.eqb_spec e 0); [lia|].
  rewrite pow_eq1 by (cbn [num den]; lia). cbn [bind num den]. destruct (Z.eqb_spec e 1); [lia|].
  rewrite (T1 n e), (T2 e 1) by lia. cbn [bind]. unfold rat_normalize, adapter_abs, adapter_gcd. cbn [num den].
  change (Z.abs 0) with 0. change (Z.abs 1) with 1. rewrite !(chk_ok w 0), !(chk_ok w 1) by lia. cbn [bind].
  change (Z.abs 0) with 0. change (Z.abs 1) with 1. rewrite !(chk_ok w 0), !(chk_ok w 1) by lia. cbn [bind].
  change (Z.gcd 0 1) with 1. change (Z.gcd 1 0) with 1. rewrite !quot_ok by lia. cbn [bind]. rewrite !Z.quot_1_r. split; [reflexivity|intros _; reflexivity].
Qed.
(** a machine pow that satisfies both assumptions *)
Definition ideal_pow (w : Z) (b n d : Z) : res Z :=
  if b =? 1 then Ok 1 else
  if d =? 0 then Ub "pow" else
  if n mod d =? 0 then
    let e := n / d in
    if 0 <=? e then chk w (b ^ e) else if b =? 0 then Ub "cast of inf" else if b =? -1 then Ok (if Z.even e then 1 else -1) else Ok 0
  else Ok 0.
Lemma ideal_pow_exact w : 1 < w -> pow_exact w (ideal_pow w) /\ pow_truncates (ideal_pow w).
Proof.
  intros Hw. split.
  - intros b e d Hd He _ _ _ _ R. unfold ideal_pow. destruct (Z.eqb_spec b 1) as [->|]; [now rewrite Z.pow_1_l by lia|].
    destruct (Z.eqb_spec d 0); [contradiction|]. rewrite Z.mod_mul, Z.div_mul by assumption. cbn [Z.eqb].
    destruct (Z.leb_spec 0 e); [|lia]. now apply chk_ok.
  - split.
    + intros b e Hb He. unfold ideal_pow. destruct (Z.eqb_spec b 1); [lia|]. destruct (Z.eqb_spec 1 0); [lia|].
      rewrite Z.mod_1_r, Z.div_1_r. cbn [Z.eqb]. destruct (Z.leb_spec 0 e); [lia|]. destruct (Z.eqb_spec b 0); [lia|].
      destruct (Z.eqb_spec b (-1)); [lia|reflexivity].
    + reflexivity.
Qed.

(** ** text *)
Lemma find_char_none c s : Forall (fun x => Ascii.eqb x c = false) s -> find_char c s = None.
Proof. induction 1 as [|x s H F IH]; cbn [find_char]; [reflexivity|]. now rewrite H, IH. Qed.
Lemma find_char_app c a b : Forall (fun x => Ascii.eqb x c = false) a -> find_char c (a ++ c :: b) = Some (a, b).
Proof.
  induction 1 as [|x s H F IH]; cbn [find_char app].
  - now rewrite Ascii.eqb_refl.
  - now rewrite H, IH.
Qed.
Lemma digit_neq c d : is_dec_digit c -> (nat_of_ascii d < 48)%nat -> Ascii.eqb c d = false.
Proof. intros D L. destruct (Ascii.eqb_spec c d) as [->|]; [|reflexivity]. unfold is_dec_digit in D. lia. Qed.
Lemma to_string_no n d : (nat_of_ascii d < 48)%nat -> d <> "-"%char -> Forall (fun x => Ascii.eqb x d = false) (adapter_to_string n).
Proof.
  intros L Nd. unfold adapter_to_string.
  assert (F : forall m, 0 <= m -> Forall (fun x => Ascii.eqb x d = false) (numeral m)).
  { intros m Hm. destruct (numeral_spec m Hm) as ((_ & F & _) & _). eapply Forall_impl; [|exact F]. intros. now apply digit_neq. }
  destruct (Z.ltb_spec n 0); [|apply F; lia]. constructor; [|apply F; lia]. destruct (Ascii.eqb_spec "-" d); [congruence|reflexivity].
Qed.
Lemma rat_text_round_trip w fd r : 1 < w <= 64 -> den r <> 0 ->
  - 2 ^ (w - 1) <= num r < 2 ^ (w - 1) -> - 2 ^ (w - 1) <= den r < 2 ^ (w - 1) ->
  rat_of_string w fd (rat_to_string r) = Ok r.
Proof.
  intros Hw Hd Hn Hdr. unfold rat_of_string, rat_to_string.
  assert (L1 : (nat_of_ascii "." < 48)%nat) by (cbn; lia). assert (L2 : (nat_of_ascii "/" < 48)%nat) by (cbn; lia).
  destruct (Z.eqb_spec (den r) 1) as [E|N]; cbn [negb].
  - rewrite find_char_none by (apply to_string_no; [assumption|discriminate]).
    rewrite find_char_none by (apply to_string_no; [assumption|discriminate]).
    rewrite int_text_round_trip by assumption. cbn. destruct r; cbn in *; subst. reflexivity.
  - rewrite find_char_none.
    2:{ repeat (apply Forall_app; split); try (apply to_string_no; [assumption|discriminate]). repeat constructor. }
    cbn [app]. rewrite find_char_app by (apply to_string_no; [assumption|discriminate]).
    rewrite !int_text_round_trip by assumption. cbn [bind map_std_exn den]. destruct (Z.eqb_spec (den r) 0); [contradiction|].
    destruct r; reflexivity.
Qed.

(** ** histories: expressions over the public operations *)
Lemma rat_of_string_den w fd s r : rat_of_string w fd s = Ok r -> den r <> 0.
Proof.
  unfold rat_of_string. intros H. apply bind_ok in H as (x & _ & H). destruct (Z.eqb_spec (den x) 0); [discriminate|]. now injection H as <-.
Qed.
Lemma run_exact w fd e : forall r, run w fd e = Ok r -> den r <> 0 /\ (qv r == denotes w fd e)%Q.
Proof.
  induction e as [n d|n|s|a IHa b IHb|a IHa b IHb|a IHa b IHb|a IHa b IHb|a IHa|a IHa]; intros r H; cbn [run denotes] in *.
  - now apply rat_make_exact in H.
  - unfold rat_of_int in H. apply rat_normalize_val in H; [|cbn; lia]. cbn [num den] in H. destruct H as [H1 H2]. split; [assumption|].
    transitivity (inject_Z n / inject_Z 1)%Q; [|unfold Qdiv; rewrite Qmult_1_r; reflexivity]. apply qdiv_eq; auto; lia.
  - rewrite H. split; [now apply rat_of_string_den in H|reflexivity].
  - apply bind_ok in H as (x & Hx & H). apply bind_ok in H as (y & Hy & H). apply IHa in Hx as [X1 X2]. apply IHb in Hy as [Y1 Y2].
    apply rat_add_exact in H as [H1 H2]; try assumption. split; [assumption|]. now rewrite H2, X2, Y2.
  - apply bind_ok in H as (x & Hx & H). apply bind_ok in H as (y & Hy & H). apply IHa in Hx as [X1 X2]. apply IHb in Hy as [Y1 Y2].
    apply rat_sub_exact in H as [H1 H2]; try assumption. split; [assumption|]. now rewrite H2, X2, Y2.
  - apply bind_ok in H as (x & Hx & H). apply bind_ok in H as (y & Hy & H). apply IHa in Hx as [X1 X2]. apply IHb in Hy as [Y1 Y2].
    apply rat_mul_exact in H as (_ & _ & H1 & H2). split; [assumption|]. now rewrite H2, X2, Y2.
  - apply bind_ok in H as (x & Hx & H). apply bind_ok in H as (y & Hy & H). apply IHa in Hx as [X1 X2]. apply IHb in Hy as [Y1 Y2].
    apply rat_div_exact in H as (H1 & _ & H2); try assumption. split; [assumption|]. now rewrite H2, X2, Y2.
  - apply bind_ok in H as (x & Hx & H). apply IHa in Hx as [X1 X2]. apply rat_negate_exact in H as [H1 H2]; try assumption.
    split; [assumption|]. now rewrite H2, X2.
  - apply bind_ok in H as (x & Hx & H). apply IHa in Hx as [X1 X2]. apply rat_inverse_exact in H as (H1 & _ & H2); try assumption.
    split; [assumption|]. now rewrite H2, X2.
Qed.
Lemma run_lowest w fd e : no_text e -> forall r, run w fd e = Ok r -> lowest_terms r.
Proof.
  induction e as [n d|n|s|a IHa b IHb|a IHa b IHb|a IHa b IHb|a IHa b IHb|a IHa|a IHa]; intros NT r H; cbn [run no_text] in *;
    try contradiction; try (lazymatch type of NT with _ /\ _ => destruct NT as [NA NB] end).
  - now apply rat_make_lowest in H.
  - unfold rat_of_int in H. now apply rat_normalize_lowest in H.
  - apply bind_ok in H as (x & Hx & H). apply bind_ok in H as (y & Hy & H). now apply rat_add_lowest in H.
  - apply bind_ok in H as (x & Hx & H). apply bind_ok in H as (y & Hy & H). now apply rat_sub_lowest in H.
  - apply bind_ok in H as (x & Hx & H). apply bind_ok in H as (y & Hy & H). apply IHa in Hx; [|assumption]. apply IHb in Hy; [|assumption].
    now apply rat_mul_lowest in H.
  - apply bind_ok in H as (x & Hx & H). apply bind_ok in H as (y & Hy & H). apply IHa in Hx; [|assumption]. now apply rat_div_lowest in H.
  - apply bind_ok in H as (x & Hx & H). now apply rat_negate_lowest in H.
  - apply bind_ok in H as (x & Hx & H). now apply rat_inverse_lowest in H.
Qed.
Lemma run_positive w fd e : positive_only e -> forall r, run w fd e = Ok r -> 0 < den r.
Proof.
  induction e as [n d|n|s|a IHa b IHb|a IHa b IHb|a IHa b IHb|a IHa b IHb|a IHa|a IHa]; intros NT r H; cbn [run positive_only] in *;
    try contradiction; try (lazymatch type of NT with _ /\ _ => destruct NT as [NA NB] end).
  - now apply rat_make_pos in H.
  - unfold rat_of_int in H. apply rat_normalize_pos in H; [assumption|]. cbn. lia.
  - apply bind_ok in H as (x & Hx & H). apply bind_ok in H as (y & Hy & H). apply IHa in Hx; [|assumption]. apply IHb in Hy; [|assumption].
    apply rat_add_pos in H; lia.
  - apply bind_ok in H as (x & Hx & H). apply bind_ok in H as (y & Hy & H). apply IHa in Hx; [|assumption]. apply IHb in Hy; [|assumption].
    unfold rat_sub in H. apply bind_ok in H as (z & Hz & H). apply rat_negate_pos in Hz; [|assumption]. apply rat_add_pos in H; lia.
  - apply bind_ok in H as (x & Hx & H). apply bind_ok in H as (y & Hy & H). apply IHa in Hx; [|assumption]. apply IHb in Hy; [|assumption].
    apply rat_mul_pos in H. apply H. nia.
  - apply bind_ok in H as (x & Hx & H). apply IHa in Hx; [|assumption]. now apply rat_negate_pos in H.
Qed.
(** histories end in a value, undefined behaviour or the division-by-zero error; reading a text can also fail *)
Lemma run_outcome w fd e : no_text e -> ok_ub_div (run w fd e).
Proof.
  induction e as [n d|n|s|a IHa b IHb|a IHa b IHb|a IHa b IHb|a IHa b IHb|a IHa|a IHa]; intros NT; cbn [run no_text] in *;
    try contradiction; try (lazymatch type of NT with _ /\ _ => destruct NT as [NA NB] end).
  - destruct (make_outcome w n d) as [[_ ->]|[_ X]]; [right; reflexivity|left; assumption].
  - left. apply normalize_outcome.
  - apply oud_bind; [auto|intros x Hx]. apply oud_bind; [auto|intros y Hy]. left. apply add_outcome.
  - apply oud_bind; [auto|intros x Hx]. apply oud_bind; [auto|intros y Hy]. left. apply sub_outcome. now apply run_exact in Hy.
  - apply oud_bind; [auto|intros x Hx]. apply oud_bind; [auto|intros y Hy]. left. apply run_exact in Hx. apply run_exact in Hy. now apply mul_outcome.
  - apply oud_bind; [auto|intros x Hx]. apply oud_bind; [auto|intros y Hy]. apply run_exact in Hx as [Hx _]. apply run_exact in Hy as [Hy _].
    destruct (div_outcome w x y Hx Hy) as [[_ ->]|[_ X]]; [right; reflexivity|left; assumption].
  - apply oud_bind; [auto|intros x Hx]. left. apply negate_outcome. now apply run_exact in Hx.
  - apply oud_bind; [auto|intros x Hx]. destruct (inverse_outcome w x) as [[_ ->]|[_ X]]; [right; reflexivity|left; assumption].
Qed.

(** ** statements of the Props file *)
Lemma rat_lt_exact w a b x : 0 < den a -> 0 < den b -> rat_lt w a b = Ok x -> (x = true <-> (qv a < qv b)%Q).
Proof.
  intros A B H. unfold rat_lt in H. apply bind_ok in H as (c & H & E). apply rat_cmp_same_sign in H; [|now apply Z.mul_pos_pos].
  injection E as <-. rewrite Qlt_alt, H. destruct (qv a ?= qv b)%Q; split; congruence.
Qed.
Lemma rat_le_exact w a b x : 0 < den a -> 0 < den b -> rat_le w a b = Ok x -> (x = true <-> (qv a <= qv b)%Q).
Proof.
  intros A B H. unfold rat_le in H. apply bind_ok in H as (c & H & E). apply rat_cmp_same_sign in H; [|now apply Z.mul_pos_pos].
  injection E as <-. rewrite Qle_alt, H. destruct (qv a ?= qv b)%Q; split; congruence.
Qed.
Lemma run_trichotomy w fd e : no_text e ->
  (exists r, run w fd e = Ok r /\ den r <> 0 /\ (qv r == denotes w fd e)%Q) \/ (exists u, run w fd e = Ub u) \/ run w fd e = Throw division_by_zero.
Proof.
  intros N. destruct (run_outcome w fd e N) as [[[r E]|[u E]]|E].
  - left. exists r. split; [assumption|]. now apply run_exact.
  - right; left; eauto.
  - right; right; assumption.
Qed.
Lemma no_overflow w B a b : small B a -> small B b -> den a <> 0 -> den b <> 0 -> 2 * (B * B) < 2 ^ (w - 1) ->
  (exists r, rat_add w a b = Ok r) /\ (exists r, rat_sub w a b = Ok r) /\ (exists r, rat_mul w a b = Ok r) /\
  (num b <> 0 -> exists r, rat_div w a b = Ok r) /\ (exists r, rat_negate w a = Ok r) /\ (num a <> 0 -> exists r, rat_inverse w a = Ok r) /\
  (exists c, rat_cmp w a b = Ok c) /\ (exists c, rat_eq w a b = Ok c) /\ (exists c, rat_ne w a b = Ok c).
Proof.
  intros SA SB Ha Hb HB. assert (P : 0 < B) by (destruct SA; lia). assert (L : B * B < 2 ^ (w - 1)) by nia. assert (L' : B < 2 ^ (w - 1)) by nia.
  destruct (add_ok w B a b SA SB Ha Hb HB) as (r1 & E1 & _). destruct (sub_ok w B a b SA SB Ha Hb HB) as (r2 & E2 & _).
  destruct (mul_ok w B a b SA SB Ha Hb L) as (r3 & E3 & _). destruct (negate_ok w B a SA Ha L') as (r4 & E4 & _).
  destruct (cmp_ok w B a b SA SB L) as (E5 & E6 & E7).
  split; [eauto|]. split; [eauto|]. split; [eauto|].
  split; [intros Nb; destruct (div_ok w B a b SA SB Ha Hb Nb L) as (r & E & _); eauto|].
  split; [eauto|]. split; [intros Na; destruct (inverse_ok w B a SA Na L') as (r & E & _); eauto|].
  split; [eauto|]. split; eauto.
Qed.
Lemma inverse_zero w a : num a = 0 -> rat_inverse w a = Throw division_by_zero.
Proof. intros H. unfold rat_inverse, rat_make. now rewrite H. Qed.
Lemma div_zero w a b : num b = 0 -> rat_div w a b = Throw division_by_zero.
Proof. intros H. unfold rat_div. now rewrite inverse_zero. Qed.
Lemma rat_text_injective w r r' : 1 < w <= 64 -> den r <> 0 -> den r' <> 0 ->
  - 2 ^ (w - 1) <= num r < 2 ^ (w - 1) -> - 2 ^ (w - 1) <= den r < 2 ^ (w - 1) ->
  - 2 ^ (w - 1) <= num r' < 2 ^ (w - 1) -> - 2 ^ (w - 1) <= den r' < 2 ^ (w - 1) ->
  rat_to_string r = rat_to_string r' -> r = r'.
Proof.
  intros Hw H H' A1 A2 B1 B2 E.
  assert (X := rat_text_round_trip w (fun _ => Throw ""%string) r Hw H A1 A2). rewrite E, rat_text_round_trip in X by assumption. now injection X.
Qed.
Lemma rat_tex_form n d : rat_to_tex (Rat n d) =
  if d =? 1 then adapter_to_string n else
  list_ascii_of_string "\frac{" ++ adapter_to_string n ++ list_ascii_of_string "}{" ++ adapter_to_string d ++ list_ascii_of_string "}".
Proof. unfold rat_to_tex. cbn [num den]. destruct (d =? 1); reflexivity. Qed.
Lemma text_zero_den w fd s n ds : 1 < w <= 64 -> - 2 ^ (w - 1) <= n < 2 ^ (w - 1) -> s = adapter_to_string n -> ds <> [] ->
  Forall (fun c => c = "0"%char) ds -> rat_of_string w fd (s ++ "/"%char :: ds) = Throw division_by_zero.
Proof.
  intros Hw Hn -> Nd F. unfold rat_of_string.
  assert (FD : Forall is_dec_digit ds) by (eapply Forall_impl; [|exact F]; intros ? ->; red; cbn; lia).
  rewrite find_char_none.
  2:{ apply Forall_app. split; [apply to_string_no; [cbn; lia|discriminate]|]. constructor; [reflexivity|].
      eapply Forall_impl; [|exact F]. intros ? ->. reflexivity. }
  rewrite find_char_app by (apply to_string_no; [cbn; lia|discriminate]).
  rewrite int_text_round_trip by assumption. cbn [bind].
  assert (Z0 : dec_value ds = 0) by (clear -F; unfold dec_value; induction F as [|c l -> F IH]; [reflexivity|exact IH]).
  pose proof (stoll_spec [] None ds [] (Forall_nil _) Nd FD I) as S. rewrite app_nil_r, Z0 in S. cbn [app sign_text] in S. change (in_range 64 (sign_val None 0)) with true in S. cbn in S.
  unfold adapter_to_int at 1. rewrite S. cbn [bind]. pose proof (Z.pow_pos_nonneg 2 (w - 1) ltac:(lia) ltac:(lia)). rewrite swrap_id by lia.
  reflexivity.
Qed.
