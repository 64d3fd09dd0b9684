(** Lemmas: decimal parsing and printing. *)
From Coq Require Import ZArith String Ascii Lia Bool List.
From Verif Require Import Base HugeModel HugeSpec HugeProofs1 HugeProofs2 HugeProofs3.
Import ListNotations.
Open Scope Z_scope.

(** ** decimal numerals *)
Lemma isdigit_spec c : isdigit c = true <-> is_dec_digit c.
Proof.
  unfold isdigit, is_dec_digit. rewrite andb_true_iff, !Z.leb_le. lia.
Qed.
Lemma digit_of_bound c : is_dec_digit c -> 0 <= digit_of c <= 9.
Proof. unfold is_dec_digit, digit_of. lia. Qed.
Lemma dec_acc_cons acc c s : dec_value_acc acc (c :: s) = dec_value_acc (10 * acc + digit_of c) s.
Proof. reflexivity. Qed.
Lemma dec_acc_app a : forall acc b, dec_value_acc acc (a ++ b) = dec_value_acc (dec_value_acc acc a) b.
Proof. induction a as [|c a IH]; intros acc b; [reflexivity|]. cbn [app]. rewrite !dec_acc_cons. apply IH. Qed.
Lemma dec_acc_split s : forall acc, dec_value_acc acc s = acc * 10 ^ Z.of_nat (length s) + dec_value s.
Proof.
  unfold dec_value. induction s as [|c s IH]; intros acc.
  - cbn [dec_value_acc length]. change (Z.of_nat 0) with 0. rewrite Z.pow_0_r. lia.
  - rewrite !dec_acc_cons. rewrite IH, (IH (10 * 0 + digit_of c)). cbn [length].
    rewrite Nat2Z.inj_succ, Z.pow_succ_r by lia. ring.
Qed.
Lemma dec_value_app a b : dec_value (a ++ b) = dec_value a * 10 ^ Z.of_nat (length b) + dec_value b.
Proof. unfold dec_value at 1. rewrite dec_acc_app, dec_acc_split. reflexivity. Qed.
Lemma dec_value_cons c s : dec_value (c :: s) = digit_of c * 10 ^ Z.of_nat (length s) + dec_value s.
Proof. unfold dec_value at 1. rewrite dec_acc_cons, dec_acc_split. rewrite Z.mul_0_r, Z.add_0_l. reflexivity. Qed.
Lemma dec_value_bound s : Forall is_dec_digit s -> 0 <= dec_value s < 10 ^ Z.of_nat (length s).
Proof.
  induction s as [|c s IH]; intros H.
  - cbn [length]. change (Z.of_nat 0) with 0. rewrite Z.pow_0_r. cbn. lia.
  - inversion H; subst. specialize (IH H3). pose proof (digit_of_bound c H2).
    rewrite dec_value_cons. cbn [length]. rewrite Nat2Z.inj_succ, Z.pow_succ_r by lia. nia.
Qed.

Lemma digit_of_inj c d : is_dec_digit c -> is_dec_digit d -> digit_of c = digit_of d -> c = d.
Proof.
  unfold digit_of. intros _ _ E. rewrite <- (ascii_nat_embedding c), <- (ascii_nat_embedding d). f_equal. lia.
Qed.

(** no leading zero *)
Definition nlz (s : list ascii) : Prop := match s with [] => True | c :: _ => c <> "0"%char end.
Lemma nlz_pos s : Forall is_dec_digit s -> nlz s -> s <> [] -> 0 < dec_value s.
Proof.
  intros F N Ne. destruct s as [|c s]; [congruence|]. inversion F; subst. cbn in N.
  pose proof (digit_of_bound c H1). pose proof (dec_value_bound s H2).
  assert (digit_of c <> 0).
  { intros E. apply N. apply digit_of_inj; [assumption| |exact E]. unfold is_dec_digit. cbn. lia. }
  rewrite dec_value_cons. assert (0 < 10 ^ Z.of_nat (length s)) by (apply Z.pow_pos_nonneg; lia). nia.
Qed.
Lemma nlz_removelast s c : nlz (s ++ [c]) -> nlz s.
Proof. destruct s; cbn; auto. Qed.
Lemma nlz_inj : forall s t, Forall is_dec_digit s -> Forall is_dec_digit t -> nlz s -> nlz t ->
  dec_value s = dec_value t -> s = t.
Proof.
  induction s as [|c s IH] using rev_ind; intros t Fs Ft Ns Nt E.
  - destruct t as [|d t]; [reflexivity|]. pose proof (nlz_pos (d :: t) Ft Nt ltac:(discriminate)). change (dec_value []) with 0 in E. lia.
  - destruct (@exists_last _ t) as (t' & d & ->).
    + intros ->. assert (s ++ [c] <> []) by (destruct s; discriminate).
      pose proof (nlz_pos (s ++ [c]) Fs Ns H). change (dec_value []) with 0 in E. lia.
    + apply Forall_app in Fs, Ft. destruct Fs as [Fs Fc], Ft as [Ft Fd].
      inversion Fc; inversion Fd; subst.
      rewrite !dec_value_app in E. cbn [length] in E. change (Z.of_nat 1) with 1 in E. rewrite Z.pow_1_r in E.
      rewrite !dec_value_cons in E. cbn [length] in E. change (Z.of_nat 0) with 0 in E. rewrite Z.pow_0_r in E.
      change (dec_value []) with 0 in E.
      pose proof (digit_of_bound c H1). pose proof (digit_of_bound d H5).
      assert (E1 : digit_of c = digit_of d) by lia. assert (E2 : dec_value s = dec_value t') by lia.
      rewrite (digit_of_inj c d) by assumption. f_equal.
      apply IH; auto; eapply nlz_removelast; eauto.
Qed.
Lemma canonical_numeral_cases s : canonical_numeral s ->
  Forall is_dec_digit s /\ (s = ["0"%char] \/ (s <> [] /\ nlz s)).
Proof.
  intros (H1 & H2 & H3). split; [assumption|]. destruct s as [|c s]; [congruence|]. cbn in H3.
  destruct (ascii_dec c "0") as [->|N]; [left; auto|right]. split; [discriminate|assumption].
Qed.
Lemma canonical_numeral_inj s t : canonical_numeral s -> canonical_numeral t -> dec_value s = dec_value t -> s = t.
Proof.
  intros Hs Ht E. destruct (canonical_numeral_cases s Hs) as [Fs Cs], (canonical_numeral_cases t Ht) as [Ft Ct].
  destruct Cs as [->|[Ns Zs]], Ct as [->|[Nt Zt]]; [reflexivity| | |].
  - pose proof (nlz_pos t Ft Zt Nt). change (dec_value ["0"%char]) with 0 in E. lia.
  - pose proof (nlz_pos s Fs Zs Ns). change (dec_value ["0"%char]) with 0 in E. lia.
  - apply nlz_inj; assumption.
Qed.

(** ** parsing *)
Lemma canon_tail x l : canon (x :: l) -> canon l.
Proof.
  intros [Hw Hl]. apply wf_cons in Hw. split; [tauto|]. intros N. rewrite <- (last_cons_ne x) by assumption.
  apply Hl. discriminate.
Qed.
Lemma canon_cons x l : 0 <= x < BASE -> canon l -> (l = [] -> x <> 0) -> canon (x :: l).
Proof.
  intros Hx [Hw Hl] H. split; [apply wf_cons; auto|]. intros _. destruct l as [|y l]; [cbn; auto|].
  rewrite last_cons_ne by discriminate. apply Hl. discriminate.
Qed.

Lemma push_carry_spec c : 0 <= c < BASE -> exists r, push_carry 3 c = Ok r /\ canon r /\ dval r = c.
Proof.
  intros Hc. cbn [push_carry]. destruct (Z.eqb_spec c 0) as [->|N].
  - exists []. split; [reflexivity|]. split; [apply canon_nil|reflexivity].
  - rewrite shiftr_SHIFT, Z.div_small by assumption. cbn [push_carry Z.eqb bind].
    rewrite land_MASK, Z.mod_small by assumption. rewrite u32_small by (rewrite p32; rewrite BASE_val in *; lia).
    exists [c]. split; [reflexivity|]. split; [apply canon_cons; auto using canon_nil|cbn [dval]; lia].
Qed.

Lemma muladd_spec mult : 1 <= mult <= 1000000000 -> forall ds c, canon ds -> 0 <= c <= 1000000000 ->
  exists r, muladd_loop mult c ds = Ok r /\ canon r /\ dval r = dval ds * mult + c.
Proof.
  intros Hm. induction ds as [|p ds IH]; intros c Hd Hc; cbn [muladd_loop].
  - destruct (push_carry_spec c) as (r & R1 & R2 & R3); [rewrite BASE_val; lia|]. exists r. cbn [dval]. repeat split; auto; try apply R2; lia.
  - pose proof (canon_tail _ _ Hd) as Hd'. destruct Hd as [Hw Hl]. apply wf_cons in Hw. destruct Hw as [Hp Hw].
    assert (B : 0 <= p * mult <= 1073741823 * 1000000000) by (rewrite BASE_val in Hp; nia).
    rewrite (u64_small (p * mult)) by (rewrite p64; lia).
    rewrite u64_small by (rewrite p64; lia).
    set (c1 := c + p * mult). rewrite shiftr_SHIFT, land_MASK.
    pose proof (Z.mod_pos_bound c1 BASE ltac:(reflexivity)) as MB.
    pose proof (Z.div_mod c1 BASE ltac:(discriminate)) as DM.
    destruct (IH (c1 / BASE) Hd') as (r & R1 & R2 & R3).
    { rewrite BASE_val in *. unfold c1 in *. lia. }
    rewrite R1. cbn [bind]. rewrite u32_small by (rewrite p32; rewrite BASE_val in *; lia).
    exists (c1 mod BASE :: r). split; [reflexivity|]. split.
    + apply canon_cons; auto. intros ->. cbn [dval] in R3.
      pose proof (dval_nonneg ds Hw). assert (0 <= c1 / BASE) by (apply Z.div_pos; [unfold c1; lia|reflexivity]).
      assert (c1 / BASE = 0 /\ dval ds = 0) as [E1 E2] by nia.
      apply canon_zero in E2; [|assumption]. subst ds. specialize (Hl ltac:(discriminate)). cbn in Hl.
      rewrite E1 in DM. unfold c1 in *. assert (1 <= p * mult) by nia. lia.
    + rewrite !dval_cons, R3. unfold c1 in *. nia.
Qed.

Lemma read_chunk_spec : forall n ds rest c i, Forall is_dec_digit ds ->
  match rest with [] => True | x :: _ => isdigit x = false end ->
  0 <= c -> (c + 1) * 10 ^ Z.of_nat n <= 2 ^ 64 ->
  let k := Nat.min n (length ds) in
  read_chunk n c i (ds ++ rest) =
   (dec_value_acc c (firstn k ds), i + Z.of_nat k, skipn k ds ++ rest,
    (Nat.ltb k n && match rest with [] => false | _ => true end)%bool).
Proof.
  induction n as [|n IH]; intros ds rest c i F Hr Hc HB k.
  - unfold k. cbn [Nat.min]. cbn [firstn skipn dec_value_acc read_chunk]. change (Nat.ltb 0 0) with false. rewrite Z.add_0_r. reflexivity.
  - destruct ds as [|d ds].
    + unfold k. cbn [length Nat.min firstn skipn dec_value_acc app read_chunk].
      rewrite Z.add_0_r. destruct rest as [|x rest]; [rewrite andb_false_r; reflexivity|]. rewrite Hr. reflexivity.
    + inversion F as [|? ? F1 F2]; subst. cbn [app read_chunk]. rewrite (proj2 (isdigit_spec d) F1).
      pose proof (digit_of_bound d F1).
      rewrite Nat2Z.inj_succ, Z.pow_succ_r in HB by lia.
      assert (P10 : 0 < 10 ^ Z.of_nat n) by (apply Z.pow_pos_nonneg; lia).
      rewrite u64_small by nia.
      rewrite IH; auto; try lia; try nia.
      unfold k. cbn [length Nat.min firstn skipn]. rewrite dec_acc_cons.
      replace (c * 10 + digit_of d) with (10 * c + digit_of d) by lia.
      replace (i + 1 + Z.of_nat (Nat.min n (length ds))) with (i + Z.of_nat (S (Nat.min n (length ds)))) by lia.
      reflexivity.
Qed.

Lemma mul10_spec n : forall m, 0 <= m -> m * 10 ^ Z.of_nat n < 2 ^ 64 -> mul10 n m = m * 10 ^ Z.of_nat n.
Proof.
  induction n as [|n IH]; intros m Hm H; cbn [mul10].
  - change (Z.of_nat 0) with 0. rewrite Z.pow_0_r. lia.
  - rewrite Nat2Z.inj_succ, Z.pow_succ_r in * by lia. assert (0 < 10 ^ Z.of_nat n) by (apply Z.pow_pos_nonneg; lia).
    rewrite u64_small by nia. rewrite IH by nia. ring.
Qed.
Lemma convmult_spec i : 1 <= i <= 9 -> convmult i = 10 ^ i.
Proof.
  intros H. unfold convmult. destruct (Z.eqb_spec i 9) as [->|]; [reflexivity|].
  rewrite mul10_spec; try lia.
  - rewrite Z2Nat.id by lia. rewrite <- Z.pow_succ_r by lia. f_equal. lia.
  - rewrite Z2Nat.id by lia. rewrite <- Z.pow_succ_r by lia.
    apply Z.le_lt_trans with (10 ^ 9); [apply Z.pow_le_mono_r; lia|reflexivity].
Qed.

Lemma parse_loop_spec : forall fuel ds rest acc, Forall is_dec_digit ds ->
  match rest with [] => True | x :: _ => isdigit x = false end ->
  canon acc -> (length ds <= fuel)%nat ->
  exists r, parse_loop fuel (ds ++ rest) acc = Ok r /\ canon r /\
    dval r = dval acc * 10 ^ Z.of_nat (length ds) + dec_value ds.
Proof.
  induction fuel as [|fuel IH]; intros ds rest acc F Hr Ha L.
  - destruct ds as [|d ds]; [|cbn in L; lia]. cbn [app length].
    exists acc. change (Z.of_nat 0) with 0. rewrite Z.pow_0_r. change (dec_value []) with 0.
    split; [|split; [assumption|lia]]. destruct rest as [|x rest]; cbn [parse_loop]; [reflexivity|]. rewrite Hr. reflexivity.
  - destruct ds as [|d ds].
    + cbn [app length]. exists acc. change (Z.of_nat 0) with 0. rewrite Z.pow_0_r. change (dec_value []) with 0.
      split; [|split; [assumption|lia]]. destruct rest as [|x rest]; cbn [parse_loop]; [reflexivity|]. rewrite Hr. reflexivity.
    + inversion F as [|? ? F1 F2]; subst. cbn [app parse_loop].
      rewrite (proj2 (isdigit_spec d) F1). cbn [negb].
      pose proof (digit_of_bound d F1) as Bd.
      assert (HB64 : (digit_of d + 1) * 10 ^ Z.of_nat 8 <= 2 ^ 64) by (change (10 ^ Z.of_nat 8) with 100000000; rewrite p64; lia).
      rewrite read_chunk_spec by (auto; lia).
      set (k := Nat.min 8 (length ds)).
      assert (Lk : length (firstn k ds) = k) by (rewrite firstn_length_le; unfold k; lia).
      assert (Fk : Forall is_dec_digit (firstn k ds)).
      { apply Forall_forall. intros x Hx. rewrite Forall_forall in F2. apply F2.
        rewrite <- (firstn_skipn k ds). apply in_or_app. auto. }
      assert (Fk2 : Forall is_dec_digit (skipn k ds)).
      { apply Forall_forall. intros x Hx. rewrite Forall_forall in F2. apply F2.
        rewrite <- (firstn_skipn k ds). apply in_or_app. auto. }
      assert (V : dec_value_acc (digit_of d) (firstn k ds) = dec_value (d :: firstn k ds)).
      { unfold dec_value. rewrite dec_acc_cons. reflexivity. }
      rewrite V. assert (Ki : 1 <= 1 + Z.of_nat k <= 9) by (unfold k; lia).
      rewrite convmult_spec by assumption.
      assert (B9 : 10 ^ (1 + Z.of_nat k) <= 10 ^ 9) by (apply Z.pow_le_mono_r; lia).
      change (10 ^ 9) with 1000000000 in B9.
      pose proof (dec_value_bound (d :: firstn k ds) ltac:(constructor; assumption)) as BV.
      cbn [length] in BV. rewrite Lk in BV. replace (Z.of_nat (S k)) with (1 + Z.of_nat k) in BV by lia.
      destruct (muladd_spec (10 ^ (1 + Z.of_nat k)) ltac:(lia) acc (dec_value (d :: firstn k ds)) Ha ltac:(lia))
        as (r & R1 & R2 & R3).
      rewrite R1. cbn [bind].
      assert (Goal : forall r', canon r' -> dval r' = dval r * 10 ^ Z.of_nat (length (skipn k ds)) + dec_value (skipn k ds) ->
         dval r' = dval acc * 10 ^ Z.of_nat (length (d :: ds)) + dec_value (d :: ds)).
      { intros r' _ E. rewrite E, R3.
        assert (ES : dec_value (d :: ds) = dec_value (d :: firstn k ds) * 10 ^ Z.of_nat (length (skipn k ds)) + dec_value (skipn k ds)).
        { rewrite <- (firstn_skipn k ds) at 1. change (d :: firstn k ds ++ skipn k ds) with ((d :: firstn k ds) ++ skipn k ds).
          apply dec_value_app. }
        assert (EL : 10 ^ Z.of_nat (length (d :: ds)) = 10 ^ (1 + Z.of_nat k) * 10 ^ Z.of_nat (length (skipn k ds))).
        { rewrite <- Z.pow_add_r by lia. f_equal. cbn [length]. rewrite skipn_length. unfold k. lia. }
        rewrite ES, EL. ring. }
      destruct (Nat.ltb k 8 && match rest with [] => false | _ => true end)%bool eqn:Est.
      * apply andb_true_iff in Est. destruct Est as [Est _]. apply Nat.ltb_lt in Est.
        exists r. split; [reflexivity|]. split; [assumption|]. apply Goal; [assumption|].
        assert (E : skipn k ds = []) by (apply skipn_all2; unfold k in *; lia).
        rewrite E. cbn [length]. change (Z.of_nat 0) with 0. rewrite Z.pow_0_r. change (dec_value []) with 0. lia.
      * destruct (IH (skipn k ds) rest r Fk2 Hr R2) as (r' & I1 & I2 & I3).
        { rewrite skipn_length. cbn [length] in L. lia. }
        rewrite I1. eauto.
Qed.

Lemma parse_plain ds rest : ds <> [] -> Forall is_dec_digit ds ->
  match rest with [] => True | x :: _ => isdigit x = false end ->
  exists h, huge_of_string (ds ++ rest) = Ok h /\ hcanon h /\ is_positive h = true /\ hval h = dec_value ds.
Proof.
  intros N F Hr. destruct ds as [|d ds]; [congruence|]. inversion F as [|? ? F1 F2]; subst.
  unfold huge_of_string. cbn [app skip_prefix]. rewrite (proj2 (isdigit_spec d) F1). cbn [orb].
  destruct (Ascii.eqb_spec d "+") as [->|_]; [unfold is_dec_digit in F1; cbn in F1; lia|].
  destruct (Ascii.eqb_spec d "-") as [->|_]; [unfold is_dec_digit in F1; cbn in F1; lia|].
  destruct (parse_loop_spec (length (d :: ds ++ rest)) (d :: ds) rest [] F Hr canon_nil) as (r & R1 & R2 & R3).
  { cbn [length]. rewrite app_length. lia. }
  change (d :: ds ++ rest) with ((d :: ds) ++ rest) at 2. rewrite R1. cbn [bind].
  eexists. split; [reflexivity|]. split; [exact R2|]. split; [reflexivity|].
  unfold hval. cbn [is_positive digits]. rewrite R3. cbn [dval]. lia.
Qed.

Lemma parse_signed c ds rest : c = "+"%char \/ c = "-"%char -> Forall is_dec_digit ds ->
  match rest with [] => True | x :: _ => isdigit x = false end ->
  exists h, huge_of_string (c :: ds ++ rest) = Ok h /\ hcanon h /\ is_positive h = Ascii.eqb c "+" /\
    hval h = if Ascii.eqb c "+" then dec_value ds else - dec_value ds.
Proof.
  intros Hc F Hr.
  destruct (parse_loop_spec (length (c :: ds ++ rest)) ds rest [] F Hr canon_nil) as (r & R1 & R2 & R3).
  { cbn [length]. rewrite app_length. lia. }
  assert (E : huge_of_string (c :: ds ++ rest) =
     (r <- parse_loop (length (c :: ds ++ rest)) (ds ++ rest) [] ;; Ok (mkHuge r (Ascii.eqb c "+")))).
  { destruct Hc as [-> | ->]; reflexivity. }
  rewrite E, R1. cbn [bind]. eexists. split; [reflexivity|]. split; [exact R2|]. split; [reflexivity|].
  unfold hval. cbn [is_positive digits]. cbn [dval] in R3. destruct (Ascii.eqb c "+"); lia.
Qed.

(** ** printing *)
Fixpoint val9 (l : list Z) : Z := match l with [] => 0 | d :: l' => d + 1000000000 * val9 l' end.
Definition wf9 (l : list Z) : Prop := Forall (fun d => 0 <= d < 1000000000) l.
Definition canon9 (l : list Z) : Prop := wf9 l /\ (l <> [] -> last l 0 <> 0).
Lemma val9_app a b : val9 (a ++ b) = val9 a + 1000000000 ^ Z.of_nat (length a) * val9 b.
Proof.
  induction a as [|x a IH]; cbn [val9 app length].
  - change (Z.of_nat 0) with 0. rewrite Z.pow_0_r. lia.
  - rewrite IH, Nat2Z.inj_succ, Z.pow_succ_r by lia. ring.
Qed.

Lemma dec_loop_spec : forall out hi, wf9 out -> 0 <= hi < BASE ->
  wf9 (fst (dec_loop hi out)) /\ length (fst (dec_loop hi out)) = length out /\
  0 <= snd (dec_loop hi out) < BASE /\
  val9 (fst (dec_loop hi out)) + 1000000000 ^ Z.of_nat (length out) * snd (dec_loop hi out) = BASE * val9 out + hi /\
  (out <> [] -> last out 0 <> 0 -> snd (dec_loop hi out) = 0 -> last (fst (dec_loop hi out)) 0 <> 0).
Proof.
  induction out as [|j out IH]; intros hi Hw Hh; cbn [dec_loop].
  - cbn [fst snd length val9]. change (Z.of_nat 0) with 0. rewrite Z.pow_0_r.
    repeat split; try constructor; try lia; congruence.
  - inversion Hw as [|? ? Hj Hw']; subst. rewrite shiftl_SHIFT.
    rewrite (u64_small (j * BASE)) by (rewrite p64; rewrite BASE_val; lia).
    rewrite lor_BASE by assumption. set (z := j * BASE + hi). change DEC_BASE with 1000000000.
    pose proof (Z.mod_pos_bound z 1000000000 ltac:(lia)) as MB.
    pose proof (Z.div_mod z 1000000000 ltac:(lia)) as DM.
    assert (Bq : 0 <= z / 1000000000 < BASE).
    { split; [apply Z.div_pos; [unfold z; rewrite BASE_val in *; lia|lia]|].
      apply Z.div_lt_upper_bound; [lia|]. unfold z. rewrite BASE_val in *. lia. }
    rewrite (u32_small (z / 1000000000)) by (rewrite p32; rewrite BASE_val in *; lia).
    replace (z - z / 1000000000 * 1000000000) with (z mod 1000000000) by lia.
    rewrite (u32_small (z mod 1000000000)) by (rewrite p32; lia).
    specialize (IH (z / 1000000000) Hw' Bq). destruct (dec_loop (z / 1000000000) out) as [r hf]. cbn [fst snd] in *.
    destruct IH as (I1 & I2 & I3 & I4 & I5).
    split; [constructor; assumption|]. split; [cbn [length]; lia|]. split; [assumption|]. split.
    + cbn [length val9]. rewrite Nat2Z.inj_succ, Z.pow_succ_r by lia. unfold z in *. nia.
    + intros _ Hl H0. destruct out as [|j2 out].
      * destruct r; [|cbn in I2; lia]. cbn [last] in *. cbn [val9 length] in I4.
        change (Z.of_nat 0) with 0 in I4. rewrite Z.pow_0_r in I4.
        unfold z in *. rewrite BASE_val in *. lia.
      * rewrite last_cons_ne in Hl by discriminate.
        rewrite last_cons_ne by (destruct r; [cbn in I2; lia|discriminate]).
        apply I5; auto. discriminate.
Qed.

Lemma dec_push_spec hi : 0 <= hi < BASE -> exists r, dec_push 2 hi = Ok r /\ canon9 r /\ val9 r = hi.
Proof.
  intros H. cbn [dec_push]. change DEC_BASE with 1000000000.
  destruct (Z.eqb_spec hi 0) as [->|N].
  { exists []. repeat split; try constructor; congruence. }
  destruct (Z.eqb_spec (hi / 1000000000) 0) as [E|E]; cbn [bind].
  - exists [hi mod 1000000000]. pose proof (Z.mod_pos_bound hi 1000000000 ltac:(lia)).
    pose proof (Z.div_mod hi 1000000000 ltac:(lia)). split; [reflexivity|]. cbn [val9].
    repeat split; [repeat constructor; lia|cbn [last]; lia|lia].
  - pose proof (Z.mod_pos_bound hi 1000000000 ltac:(lia)).
    pose proof (Z.div_mod hi 1000000000 ltac:(lia)).
    assert (Q : hi / 1000000000 = 1).
    { assert (0 <= hi / 1000000000) by (apply Z.div_pos; lia).
      assert (hi / 1000000000 < 2) by (apply Z.div_lt_upper_bound; rewrite BASE_val in *; lia). lia. }
    rewrite Q. change (1 / 1000000000) with 0. change (1 mod 1000000000) with 1. cbn [Z.eqb bind].
    exists [hi mod 1000000000; 1]. split; [reflexivity|]. cbn [val9].
    repeat split; [repeat constructor; lia|cbn [last]; lia|lia].
Qed.

Lemma dec_digits_spec ds : wf ds -> exists out, dec_digits ds = Ok out /\ canon9 out /\ val9 out = dval ds.
Proof.
  induction ds as [|d ds IH]; intros Hw; cbn [dec_digits].
  - exists []. repeat split; try constructor; congruence.
  - apply wf_cons in Hw. destruct Hw as [Hd Hw]. destruct (IH Hw) as (out & O1 & [O2 O3] & O4).
    rewrite O1. cbn [bind]. destruct (dec_loop_spec out d O2 Hd) as (L1 & L2 & L3 & L4 & L5).
    destruct (dec_loop d out) as [out1 hi]. cbn [fst snd] in *.
    destruct (dec_push_spec hi L3) as (m & M1 & [M2 M3] & M4). rewrite M1. cbn [bind].
    exists (out1 ++ m). split; [reflexivity|]. split; [split|].
    + apply Forall_app; auto.
    + intros N. destruct m as [|y m].
      * rewrite app_nil_r in *. cbn in M4. apply L5; auto; try congruence.
        -- intros ->. destruct out1; cbn in *; congruence.
        -- apply O3. intros ->. destruct out1; cbn in *; congruence.
      * destruct (@exists_last _ (y :: m) ltac:(discriminate)) as (m' & z & E). rewrite E in *.
        rewrite app_assoc, last_last. specialize (M3 ltac:(destruct m'; discriminate)). rewrite last_last in M3. assumption.
    + rewrite val9_app, M4, L2. rewrite dval_cons, <- O4. lia.
Qed.

Lemma char_of_digit_spec d : 0 <= d <= 9 -> is_dec_digit (char_of_digit d) /\ digit_of (char_of_digit d) = d.
Proof.
  intros H. unfold char_of_digit, is_dec_digit, digit_of.
  rewrite nat_ascii_embedding by lia. lia.
Qed.

Lemma fill9_spec n : forall rem, 0 <= rem ->
  Forall is_dec_digit (fill9 n rem) /\ length (fill9 n rem) = n /\ dec_value (rev (fill9 n rem)) = rem mod 10 ^ Z.of_nat n.
Proof.
  induction n as [|n IH]; intros rem Hr; cbn [fill9].
  - repeat split; try constructor. change (Z.of_nat 0) with 0. rewrite Z.pow_0_r, Z.mod_1_r. reflexivity.
  - pose proof (Z.mod_pos_bound rem 10 ltac:(lia)) as MB.
    destruct (char_of_digit_spec (rem mod 10) ltac:(lia)) as [C1 C2].
    destruct (IH (rem / 10) ltac:(apply Z.div_pos; lia)) as (I1 & I2 & I3).
    repeat split; [constructor; assumption|cbn [length]; lia|].
    cbn [rev]. rewrite dec_value_app, I3. cbn [length]. change (Z.of_nat 1) with 1. rewrite Z.pow_1_r.
    rewrite dec_value_cons, C2. cbn [length]. change (Z.of_nat 0) with 0. rewrite Z.pow_0_r. change (dec_value []) with 0.
    rewrite Nat2Z.inj_succ, Z.pow_succ_r by lia.
    rewrite (Z.rem_mul_r rem 10 (10 ^ Z.of_nat n)) by (try lia; apply Z.pow_pos_nonneg; lia). lia.
Qed.

(** number of decimal digits beyond the first *)
Lemma fill_top_spec : forall fuel rem, 0 <= rem < 10 ^ Z.of_nat fuel -> (1 <= fuel)%nat ->
  exists r, fill_top fuel rem = Ok r /\ Forall is_dec_digit r /\ dec_value (rev r) = rem /\
    r <> [] /\ (rem <> 0 -> nlz (rev r)) /\ (rem = 0 -> r = ["0"%char]) /\
    (1 < Z.of_nat (length r) -> 10 ^ (Z.of_nat (length r) - 1) <= rem).
Proof.
  induction fuel as [|fuel IH]; intros rem Hr Hf; [lia|]. cbn [fill_top].
  pose proof (Z.mod_pos_bound rem 10 ltac:(lia)) as MB. pose proof (Z.div_mod rem 10 ltac:(lia)) as DM.
  destruct (char_of_digit_spec (rem mod 10) ltac:(lia)) as [C1 C2].
  assert (S1 : forall c, dec_value [c] = digit_of c) by (intros; unfold dec_value; cbn [dec_value_acc]; unfold digit_of; lia).
  destruct (Z.eqb_spec (rem / 10) 0) as [E|E].
  - exists [char_of_digit (rem mod 10)]. split; [reflexivity|]. split; [constructor; [exact C1|constructor]|].
    split; [cbn [rev app]; rewrite S1, C2; lia|]. split; [discriminate|]. split; [|split].
    + intros N. cbn. intros Q. rewrite Q in C2. change (digit_of "0") with 0 in C2. lia.
    + intros ->. reflexivity.
    + cbn [length]. lia.
  - rewrite Nat2Z.inj_succ, Z.pow_succ_r in Hr by lia.
    assert (0 < rem / 10) by (assert (0 <= rem / 10) by (apply Z.div_pos; lia); lia).
    destruct (IH (rem / 10)) as (r & R1 & R2 & R3 & R4 & R5 & R6 & R7).
    { split; [lia|]. apply Z.div_lt_upper_bound; lia. }
    { destruct fuel; [|lia]. change (Z.of_nat 0) with 0 in Hr. rewrite Z.pow_0_r in Hr. lia. }
    rewrite R1. cbn [bind]. exists (char_of_digit (rem mod 10) :: r).
    split; [reflexivity|]. split; [constructor; assumption|].
    split; [|split; [discriminate|split; [|split]]].
    + cbn [rev]. rewrite dec_value_app, R3. cbn [length]. change (Z.of_nat 1) with 1. rewrite Z.pow_1_r, S1, C2. lia.
    + intros _. cbn [rev]. specialize (R5 ltac:(lia)). destruct (rev r) as [|y s] eqn:ER.
      * destruct r; [congruence|]. cbn in ER. destruct (rev r); discriminate.
      * cbn in *. assumption.
    + lia.
    + intros _. cbn [length]. replace (Z.of_nat (S (length r)) - 1) with (Z.of_nat (length r)) by lia.
      destruct (Z.eq_dec (Z.of_nat (length r)) 1) as [E1|E1].
      * rewrite E1, Z.pow_1_r. lia.
      * assert (length r <> 0%nat) by (destruct r; [congruence|cbn; lia]).
        specialize (R7 ltac:(lia)).
        replace (Z.of_nat (length r)) with (Z.succ (Z.of_nat (length r) - 1)) by lia.
        rewrite Z.pow_succ_r by lia. lia.
Qed.

Lemma count_tenpow_spec : forall fuel rem e, 0 <= e -> 10 ^ e <= 10 ^ 9 -> 0 <= rem < 10 ^ 9 -> (Z.to_nat (10 - e) <= fuel)%nat -> 1 <= e <= 9 ->
  exists n, count_tenpow fuel rem (10 ^ e) = Ok n /\ 
    (n = 0%nat /\ rem < 10 ^ e \/ (0 < n)%nat /\ 10 ^ (e + Z.of_nat n - 1) <= rem < 10 ^ (e + Z.of_nat n)).
Proof.
  induction fuel as [|fuel IH]; intros rem e He HB Hr HF H1; [lia|]. cbn [count_tenpow].
  destruct (rem >=? 10 ^ e) eqn:T.
  - apply Z.geb_le in T. assert (e < 9) by (destruct (Z.eq_dec e 9) as [->|]; lia).
    rewrite u32_small.
    2: { assert (10 ^ e <= 10 ^ 8) by (apply Z.pow_le_mono_r; lia). change (10 ^ 8) with 100000000 in *. rewrite p32. lia. }
    replace (10 ^ e * 10) with (10 ^ (e + 1)) by (rewrite Z.pow_add_r, Z.pow_1_r by lia; reflexivity).
    destruct (IH rem (e + 1)) as (n & N1 & N2); try lia.
    { apply Z.pow_le_mono_r; lia. }
    rewrite N1. cbn [bind]. exists (S n). split; [reflexivity|]. right. split; [lia|].
    replace (e + Z.of_nat (S n)) with (e + 1 + Z.of_nat n) by lia.
    destruct N2 as [[-> N2]|[N2 N3]].
    + rewrite Z.add_0_r. replace (e + 1 - 1) with e by lia. lia.
    + assumption.
  - rewrite Z.geb_leb, Z.leb_gt in T. exists 0%nat. auto.
Qed.

Lemma pow10_lt_inv a b : 0 <= a -> 0 <= b -> 10 ^ a < 10 ^ b -> a < b.
Proof. intros. apply (Z.pow_lt_mono_r_iff 10); lia. Qed.

Lemma chunks_spec low : wf9 low ->
  Forall is_dec_digit (flat_map (fill9 9) low) /\ length (flat_map (fill9 9) low) = (9 * length low)%nat /\
  dec_value (rev (flat_map (fill9 9) low)) = val9 low.
Proof.
  induction low as [|x low IH]; intros Hw; cbn [flat_map].
  - repeat split; constructor.
  - inversion Hw as [|? ? Hx Hw']; subst. destruct (IH Hw') as (I1 & I2 & I3).
    destruct (fill9_spec 9 x ltac:(lia)) as (F1 & F2 & F3).
    split; [apply Forall_app; auto|]. split; [rewrite app_length, I2, F2; cbn [length]; lia|].
    rewrite rev_app_distr, dec_value_app, I3, F3, rev_length, F2.
    change (10 ^ Z.of_nat 9) with 1000000000. rewrite Z.mod_small by assumption. cbn [val9]. lia.
Qed.

Lemma print_spec x : wf (digits x) ->
  exists num, huge_to_string x = Ok ((if is_positive x then [] else ["-"%char]) ++ num) /\
    canonical_numeral num /\ dec_value num = dval (digits x).
Proof.
  intros Hw. unfold huge_to_string. destruct (dec_digits_spec (digits x) Hw) as (out0 & O1 & [O2 O3] & O4).
  rewrite O1. cbn [bind].
  set (out := match out0 with [] => [0] | _ => out0 end).
  assert (Hout : wf9 out /\ out <> [] /\ val9 out = dval (digits x) /\ (last out 0 = 0 -> out = [0])).
  { unfold out. destruct out0 as [|y out0].
    - repeat split; [repeat constructor; lia|discriminate|cbn in O4; cbn [val9]; lia].
    - repeat split; auto; try discriminate. intros E. exfalso. apply O3; [discriminate|assumption]. }
  clearbody out. destruct Hout as (W & N & V & Z0).
  assert (Eout : out = removelast out ++ [last out 0]) by (apply app_removelast_last; assumption).
  set (low := removelast out) in *. set (top := last out 0) in *.
  rewrite Eout in W. apply Forall_app in W. destruct W as [Wlow Wtop]. pose proof (Forall_inv Wtop) as Htop. cbv beta in Htop.
  destruct (count_tenpow_spec 10 top 1) as (extra & E1 & E2); try lia.
  change (10 ^ 1) with 10 in E1. rewrite E1. cbn [bind].
  destruct (fill_top_spec 10 top) as (tops & T1 & T2 & T3 & T4 & T5 & T6 & T7); [change (10 ^ Z.of_nat 10) with 10000000000; lia|lia|].
  rewrite T1. cbn [bind].
  destruct (chunks_spec low Wlow) as (K1 & K2 & K3).
  assert (LT : length tops = S extra).
  { pose proof (dec_value_bound (rev tops) ltac:(now apply Forall_rev)) as B. rewrite T3, rev_length in B.
    assert (L0 : (0 < length tops)%nat) by (destruct tops; [congruence|cbn; lia]).
    destruct E2 as [[-> E2]|[E2 E3]].
    - destruct (Z_lt_le_dec 1 (Z.of_nat (length tops))) as [G|G]; [|lia]. specialize (T7 G).
      assert (10 ^ 1 <= 10 ^ (Z.of_nat (length tops) - 1)) by (apply Z.pow_le_mono_r; lia). lia.
    - assert (Z.of_nat extra < Z.of_nat (length tops)).
      { apply pow10_lt_inv; [lia|lia|]. replace (1 + Z.of_nat extra - 1) with (Z.of_nat extra) in E3 by lia. lia. }
      assert (Z.of_nat (length tops) - 1 < 1 + Z.of_nat extra).
      { apply pow10_lt_inv; [lia|lia|]. specialize (T7 ltac:(lia)). lia. }
      lia. }
  assert (Llow : length out = S (length low)) by (rewrite Eout, app_length; cbn [length]; lia).
  rewrite Llow. replace (S (length low) - 1)%nat with (length low) by lia.
  unfold place.
  set (sg := if is_positive x then [] else ["-"%char]).
  assert (Lsg : (if is_positive x then 0%nat else 1%nat) = length sg) by (unfold sg; destruct (is_positive x); reflexivity).
  rewrite Lsg. set (filled := flat_map (fill9 9) low ++ tops ++ sg).
  assert (LF : length filled = (length sg + 1 + length low * 9 + extra)%nat).
  { unfold filled. rewrite !app_length, K2, LT. lia. }
  rewrite LF, Nat.ltb_irrefl, Nat.sub_diag. cbn [repeat app].
  exists (rev tops ++ rev (flat_map (fill9 9) low)). split; [|split; [split; [|split]|]].
  - f_equal. unfold filled. rewrite !rev_app_distr, <- app_assoc. f_equal. unfold sg. destruct (is_positive x); reflexivity.
  - destruct tops; [congruence|]. cbn [rev]. destruct (rev tops); discriminate.
  - apply Forall_app; split; apply Forall_rev; assumption.
  - intros Hhd. destruct (Z.eq_dec top 0) as [Et|Et].
    + specialize (Z0 Et). specialize (T6 Et). rewrite T6 in *. unfold low. rewrite Z0. reflexivity.
    + exfalso. specialize (T5 Et). destruct (rev tops) as [|y s] eqn:ER.
      * destruct tops; [congruence|]. cbn in ER. destruct (rev tops); discriminate.
      * cbn in *. congruence.
  - rewrite dec_value_app, T3, K3, rev_length, K2. rewrite <- V, Eout at 1. rewrite val9_app. cbn [val9].
    replace (10 ^ Z.of_nat (9 * length low)) with (1000000000 ^ Z.of_nat (length low)).
    + fold low top. lia.
    + change 1000000000 with (10 ^ 9). rewrite <- Z.pow_mul_r by lia. f_equal. lia.
Qed.
