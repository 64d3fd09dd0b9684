(** Decimal texts whose value is outside the range of the floating-point type. *)
From Coq Require Import ZArith QArith Qabs Qpower String Ascii Lia Lqa Bool List.
From Verif Require Import Base AdapterModel AdapterProofs RationalModel RationalProofs DecModel DecSpec DecProofs1 DecProofs2 DecProofs3 DecProofs4 ErrSpec ErrProofs1.
Import ListNotations.
Open Scope Z_scope.

Lemma rnd_le p x z : 1 <= p -> (0 < x)%Q -> rep p z -> (x <= z)%Q -> (rnd p x <= z)%Q.
Proof.
  intros Hp Hx Hz L. pose proof (rnd_nearest_pos p x z Hp Hx Hz) as N. apply Qnot_lt_le. intros C.
  rewrite (Qabs_neg (x - rnd p x)), (Qabs_neg (x - z)) in N by lra. lra.
Qed.
Lemma rep_P2 p s : 1 <= p -> rep p (P2 s).
Proof. intros Hp. exists 1, s. split; [|change (inject_Z 1) with 1%Q; ring]. split; [lia|]. pose proof (Z.pow_le_mono_r 2 0 p). lia. Qed.
Lemma rep_top p s : 1 <= p -> rep p (inject_Z (2 ^ p - 1) * P2 s)%Q.
Proof. intros Hp. exists (2 ^ p - 1), s. split; [|reflexivity]. pose proof (Z.pow_pos_nonneg 2 p). lia. Qed.
Lemma top_lt p s : 1 <= p -> (inject_Z (2 ^ p - 1) * P2 (s - p) < P2 s)%Q.
Proof.
  intros Hp. replace (P2 s) with (P2 (p + (s - p))) by (f_equal; lia). rewrite P2_plus, (P2_nonneg p) by lia. apply Qmult_lt_r; [apply P2_pos|]. rewrite <- Zlt_Qlt. lia.
Qed.
Lemma rnd_positive p x : 1 <= p -> (0 < x)%Q -> (0 < rnd p x)%Q.
Proof.
  intros Hp Hx. destruct (rnd_rel p x) as [L _]; [lra|]. assert (P2 (- p) < 1)%Q; [|nra]. change 1%Q with (P2 0). pose proof (P2_le (- p) (-1) ltac:(lia)). assert (P2 (-1) < P2 0)%Q by reflexivity. lra.
Qed.
(** too large, too small, in range *)
Lemma range_large F x : 1 <= fprec F -> (P2 (femax F) <= x)%Q -> out_of_normal_range F (rnd (fprec F) x) = true.
Proof.
  intros Hp L. assert (X : (0 < x)%Q) by (pose proof (P2_pos (femax F)); lra). pose proof (rnd_ge (fprec F) x _ Hp X (rep_P2 (fprec F) (femax F) Hp) L) as G. pose proof (rnd_positive _ _ Hp X) as N.
  unfold out_of_normal_range. apply andb_true_intro. split.
  - apply negb_true_iff. destruct (Qeq_bool _ 0) eqn:E; [|reflexivity]. apply Qeq_bool_iff in E. lra.
  - apply orb_true_intro. left. apply Qle_bool_iff. rewrite dyadic_value. change (inject_Z 1) with 1%Q. rewrite Qmult_1_l. exact G.
Qed.
Lemma range_small F x : 1 <= fprec F -> (0 < x)%Q -> (x <= inject_Z (2 ^ fprec F - 1) * P2 (femin F - fprec F))%Q -> out_of_normal_range F (rnd (fprec F) x) = true.
Proof.
  intros Hp X L. pose proof (rnd_le (fprec F) x _ Hp X (rep_top (fprec F) (femin F - fprec F) Hp) L) as G. pose proof (top_lt (fprec F) (femin F) Hp) as T. pose proof (rnd_positive _ _ Hp X) as N.
  unfold out_of_normal_range. apply andb_true_intro. split.
  - apply negb_true_iff. destruct (Qeq_bool _ 0) eqn:E; [|reflexivity]. apply Qeq_bool_iff in E. lra.
  - apply orb_true_intro. right. unfold flt. apply negb_true_iff. destruct (Qle_bool _ _) eqn:E; [|reflexivity]. apply Qle_bool_iff in E. rewrite dyadic_value in E. change (inject_Z 1) with 1%Q in E. rewrite Qmult_1_l in E. lra.
Qed.
Lemma range_inside F x : 1 <= fprec F -> (x == 0 \/ P2 (femin F) <= x /\ x <= inject_Z (2 ^ fprec F - 1) * P2 (femax F - fprec F))%Q -> out_of_normal_range F (rnd (fprec F) x) = false.
Proof.
  intros Hp [Z0|[L U]].
  - rewrite (rnd_0 _ _ Z0). reflexivity.
  - assert (X : (0 < x)%Q) by (pose proof (P2_pos (femin F)); lra). pose proof (rnd_le (fprec F) x _ Hp X (rep_top (fprec F) (femax F - fprec F) Hp) U) as G. pose proof (top_lt (fprec F) (femax F) Hp) as T.
    pose proof (rnd_ge (fprec F) x _ Hp X (rep_P2 (fprec F) (femin F) Hp) L) as G2. unfold out_of_normal_range. apply andb_false_iff. right. apply orb_false_iff. split.
    + destruct (Qle_bool _ _) eqn:E; [|reflexivity]. apply Qle_bool_iff in E. rewrite dyadic_value in E. change (inject_Z 1) with 1%Q in E. rewrite Qmult_1_l in E. lra.
    + unfold flt. apply negb_false_iff. apply Qle_bool_iff. rewrite dyadic_value. change (inject_Z 1) with 1%Q. rewrite Qmult_1_l. exact G2.
Qed.

(** the constructor Rational(std::string) *)
Definition range_message : string := "The number is out of range.".
Lemma stold_value F s i f : decimal_literal s i f -> exists x, (x == literal_value i f)%Q /\
  stold F s = (if out_of_normal_range F (rnd (fprec F) x) then Throw "out_of_range" else Ok (rnd (fprec F) x)).
Proof.
  intros L. exists (row_value (i ++ f) # pow10 (List.length f)). split; [symmetry; apply literal_row|].
  destruct (first_not_sign s i f L) as (c & r & Es & C1 & C2). unfold stold. rewrite Es, C1, C2, <- Es. unfold stold_unsigned. rewrite (scan_decimal_literal _ _ _ L). cbn [plain_rest negb].
  destruct L as (_ & _ & NE). destruct (i ++ f) as [|c' r'] eqn:E; [contradiction|]. rewrite digits_value_row. reflexivity.
Qed.
Lemma of_float_silent w F x m : rat_of_float w F x <> Throw m.
Proof.
  intros E. assert (O : outcome (fun _ => False) any (rat_of_float w F x)).
  { unfold rat_of_float. eapply o_bind; [apply o_chk|]. intros n _. apply o_norm0. }
  rewrite E in O. exact O.
Qed.
Lemma read_range w F s i f : decimal_literal s i f -> exists x, (x == literal_value i f)%Q /\
  (rat_of_string w (dec_of w F) s = Throw range_message <-> out_of_normal_range F (rnd (fprec F) x) = true) /\
  (rat_of_string w (dec_of w F) ("-"%char :: s) = Throw range_message <-> out_of_normal_range F (rnd (fprec F) x) = true).
Proof.
  intros L. destruct (stold_value F s i f L) as (x & X & S). exists x. split; [exact X|].
  assert (DI : Forall is_dec_digit i) by (destruct L as (_ & A & _); apply Forall_app in A; tauto).
  destruct (find_dot i f DI) as (a & b & FD). assert (Es' : s = i ++ ["."%char] ++ f) by (destruct L; assumption). rewrite <- Es' in FD.
  assert (T : forall (r : res rat), (forall m, r <> Throw m) -> (v <- map_std_exn r ;; if den v =? 0 then Throw division_by_zero else Ok v) <> Throw range_message).
  { intros r N. destruct r as [v|m| |]; cbn [map_std_exn bind]; try discriminate; [|now destruct (N m)]. destruct (den v =? 0); discriminate. }
  assert (U : stold_unsigned F s = stold F s). { destruct (first_not_sign s i f L) as (c & r & Es & C1 & C2). unfold stold. now rewrite Es, C1, C2. }
  split.
  - unfold rat_of_string. rewrite FD. unfold dec_of. rewrite S. destruct (out_of_normal_range F _); cbn [bind]; [split; reflexivity|]. split; [|discriminate]. intros E. exfalso. revert E. apply T. intros m. apply of_float_silent.
  - unfold rat_of_string. cbn [find_char]. change (Ascii.eqb "-" ".") with false. cbv iota. rewrite FD. unfold dec_of. cbn [stold]. change (Ascii.eqb "-" "-") with true. cbv iota. rewrite U, S.
    destruct (out_of_normal_range F _); cbn [bind]; [split; reflexivity|]. split; [|discriminate]. intros E. exfalso. revert E. apply T. intros m. apply of_float_silent.
Qed.
