(** Powers, the table, k_comp, and products of DiyFps. *)
From Coq Require Import ZArith QArith Qabs Qpower Lia Lqa Bool List.
From Verif Require Import Base DtoaTable DtoaModel DtoaSpec.
Import ListNotations.
Open Scope Z_scope.

Lemma pow2_pos e : (0 < pow2 e)%Q. Proof. apply Qpower_0_lt. reflexivity. Qed.
Lemma pow10_pos e : (0 < pow10 e)%Q. Proof. apply Qpower_0_lt. reflexivity. Qed.
Lemma pow2_add a b : (pow2 (a + b) == pow2 a * pow2 b)%Q. Proof. apply Qpower_plus. discriminate. Qed.
Lemma pow10_add a b : (pow10 (a + b) == pow10 a * pow10 b)%Q. Proof. apply Qpower_plus. discriminate. Qed.
Lemma pow2_Z n : 0 <= n -> (pow2 n == IQ (2 ^ n))%Q.
Proof. intros H. unfold pow2, IQ. symmetry. apply Zpower_Qpower. exact H. Qed.
Lemma pow10_Z n : 0 <= n -> (pow10 n == IQ (10 ^ n))%Q.
Proof. intros H. unfold pow10, IQ. symmetry. apply Zpower_Qpower. exact H. Qed.
Lemma IQ_add a b : IQ (a + b) = (IQ a + IQ b)%Q. Proof. apply inject_Z_plus. Qed.
Lemma IQ_mul a b : IQ (a * b) = (IQ a * IQ b)%Q. Proof. apply inject_Z_mult. Qed.
Lemma IQ_sub a b : IQ (a - b) = (IQ a - IQ b)%Q. Proof. unfold Z.sub, Qminus, IQ. now rewrite inject_Z_plus, inject_Z_opp. Qed.
Lemma IQ_le a b : a <= b <-> (IQ a <= IQ b)%Q. Proof. rewrite Zle_Qle. reflexivity. Qed.
Lemma IQ_lt a b : a < b <-> (IQ a < IQ b)%Q. Proof. rewrite Zlt_Qlt. reflexivity. Qed.

(** every entry: 64 bits, and within half a unit of the power of ten *)
Definition entry_ok (k f e : Z) : Prop := 2 ^ 63 <= f < 2 ^ 64 /\ (Qabs (IQ f * pow2 e - pow10 k) <= (1 # 2) * pow2 e)%Q.
Definition entry_check (k f e : Z) : bool := ((2 ^ 63 <=? f) && (f <? 2 ^ 64) && Qle_bool (Qabs (IQ f * pow2 e - pow10 k)) ((1 # 2) * pow2 e))%bool.
Lemma entry_check_ok k f e : entry_check k f e = true -> entry_ok k f e.
Proof. unfold entry_check, entry_ok. rewrite !andb_true_iff, Z.leb_le, Z.ltb_lt, Qle_bool_iff. tauto. Qed.
Definition table_check (n : nat) : bool := match nth_error powers_ten n, nth_error powers_ten_e n with Some f, Some e => entry_check (Z.of_nat n - 343) f e | _, _ => false end.
Lemma table_checked : forallb table_check (seq 0 687) = true. Proof. vm_compute. reflexivity. Qed.
Lemma table_ok k : -343 <= k <= 343 -> exists f e, cached_power k = Ok (Diy f e) /\ entry_ok k f e.
Proof.
  intros H. pose proof (proj1 (forallb_forall _ _) table_checked (Z.to_nat (343 + k)) ltac:(apply in_seq; lia)) as C. unfold table_check in C. unfold cached_power.
  replace (343 + k <? 0) with false by (symmetry; apply Z.ltb_ge; lia).
  destruct (nth_error powers_ten _) as [f|]; [|discriminate]. destruct (nth_error powers_ten_e _) as [e|]; [|discriminate].
  exists f, e. split; [reflexivity|]. apply entry_check_ok. now replace (Z.of_nat (Z.to_nat (343 + k)) - 343) with k in C by lia.
Qed.

(** k_comp: for every exponent a boundary can have, the power exists and brings the exponent into [-59, -56] *)
Definition kcomp_check (e : Z) : bool :=
  match cached_power (k_comp (e + 64) (-59)) with
  | Ok c => ((-343 <=? k_comp (e + 64) (-59)) && (k_comp (e + 64) (-59) <=? 343) && (-59 <=? e + de c + 64) && (e + de c + 64 <=? -56))%bool
  | _ => false
  end.
Lemma kcomp_checked : forallb (fun n => kcomp_check (Z.of_nat n - 1137)) (seq 0 2098) = true. Proof. vm_compute. reflexivity. Qed.
Lemma kcomp_ok e : -1137 <= e <= 960 -> -343 <= k_comp (e + 64) (-59) <= 343 /\ forall c, cached_power (k_comp (e + 64) (-59)) = Ok c -> -59 <= e + de c + 64 <= -56.
Proof.
  intros H. pose proof (proj1 (forallb_forall _ _) kcomp_checked (Z.to_nat (e + 1137)) ltac:(apply in_seq; lia)) as C. cbv beta in C.
  replace (Z.of_nat (Z.to_nat (e + 1137)) - 1137) with e in C by lia. unfold kcomp_check in C.
  destruct (cached_power _) as [c| | |]; try discriminate. rewrite !andb_true_iff, !Z.leb_le in C. split; [lia|]. intros c' [= <-]. lia.
Qed.

(** the product is rounded to nearest *)
Lemma shr_div x n : 0 <= n -> Z.shiftr x n = x / 2 ^ n. Proof. intros. now rewrite Z.shiftr_div_pow2. Qed.
Lemma land_ones x n : 0 <= n -> Z.land x (2 ^ n - 1) = x mod 2 ^ n.
Proof. intros. rewrite <- Z.land_ones by assumption. f_equal. rewrite Z.ones_equiv. lia. Qed.
Lemma u64_id x : 0 <= x < 2 ^ 64 -> u64 x = x. Proof. intros. unfold u64. now apply Z.mod_small. Qed.
Lemma u32_id x : 0 <= x < 2 ^ 32 -> u32 x = x. Proof. intros. unfold u32. now apply Z.mod_small. Qed.
Lemma diy_mul_ok x y : 0 <= df x < 2 ^ 64 -> 0 <= df y < 2 ^ 64 -> df (diy_mul x y) = (df x * df y + 2 ^ 63) / 2 ^ 64 /\ de (diy_mul x y) = de x + de y + 64.
Proof.
  intros Hx Hy. split; [|reflexivity]. unfold diy_mul. cbn [df]. change M32 with (2 ^ 32 - 1). rewrite !(land_ones _ 32), !(shr_div _ 32) by lia.
  set (X := df x) in *. set (Y := df y) in *. clearbody X Y. clear x y.
  set (a := X / 2 ^ 32). set (b := X mod 2 ^ 32). set (c := Y / 2 ^ 32). set (d := Y mod 2 ^ 32).
  assert (A : 0 <= a < 2 ^ 32) by (split; [apply Z.div_pos; lia|apply Z.div_lt_upper_bound; lia]).
  assert (C : 0 <= c < 2 ^ 32) by (split; [apply Z.div_pos; lia|apply Z.div_lt_upper_bound; lia]).
  assert (B : 0 <= b < 2 ^ 32) by (apply Z.mod_pos_bound; lia). assert (D : 0 <= d < 2 ^ 32) by (apply Z.mod_pos_bound; lia).
  assert (EX : X = a * 2 ^ 32 + b) by (unfold a, b; rewrite Z.mul_comm; now apply Z.div_mod). assert (EY : Y = c * 2 ^ 32 + d) by (unfold c, d; rewrite Z.mul_comm; now apply Z.div_mod).
  assert (XY : X * Y <= (2 ^ 64 - 1) * (2 ^ 64 - 1)) by (apply Z.mul_le_mono_nonneg; lia).
  clearbody a b c d. clear Hx Hy. subst X Y.
  assert (P : forall u v, 0 <= u < 2 ^ 32 -> 0 <= v < 2 ^ 32 -> 0 <= u * v <= (2 ^ 32 - 1) * (2 ^ 32 - 1)) by (intros u v Hu Hv; split; [nia|apply Z.mul_le_mono_nonneg; lia]).
  pose proof (P a c A C) as Pac. pose proof (P b c B C) as Pbc. pose proof (P a d A D) as Pad. pose proof (P b d B D) as Pbd.
  rewrite (u64_id (a * c)), (u64_id (b * c)), (u64_id (a * d)), (u64_id (b * d)) by lia.
  replace ((a * 2 ^ 32 + b) * (c * 2 ^ 32 + d)) with (a * c * 2 ^ 64 + (a * d + b * c) * 2 ^ 32 + b * d) in * by ring.
  set (ac := a * c) in *. set (bc := b * c) in *. set (ad := a * d) in *. set (bd := b * d) in *. clearbody ac bc ad bd. clear P A B C D a b c d.
  pose proof (Z.div_mod ad (2 ^ 32) ltac:(lia)) as Ead. pose proof (Z.div_mod bc (2 ^ 32) ltac:(lia)) as Ebc. pose proof (Z.div_mod bd (2 ^ 32) ltac:(lia)) as Ebd.
  pose proof (Z.mod_pos_bound ad (2 ^ 32) ltac:(lia)) as Mad. pose proof (Z.mod_pos_bound bc (2 ^ 32) ltac:(lia)) as Mbc. pose proof (Z.mod_pos_bound bd (2 ^ 32) ltac:(lia)) as Mbd.
  assert (Dad : 0 <= ad / 2 ^ 32 <= 2 ^ 32 - 2) by (split; [apply Z.div_pos; lia|]; assert (ad / 2 ^ 32 < 2 ^ 32 - 1) by (apply Z.div_lt_upper_bound; lia); lia).
  assert (Dbc : 0 <= bc / 2 ^ 32 <= 2 ^ 32 - 2) by (split; [apply Z.div_pos; lia|]; assert (bc / 2 ^ 32 < 2 ^ 32 - 1) by (apply Z.div_lt_upper_bound; lia); lia).
  assert (Dbd : 0 <= bd / 2 ^ 32 <= 2 ^ 32 - 2) by (split; [apply Z.div_pos; lia|]; assert (bd / 2 ^ 32 < 2 ^ 32 - 1) by (apply Z.div_lt_upper_bound; lia); lia).
  rewrite (u64_id (bd / 2 ^ 32 + ad mod 2 ^ 32)), (u64_id (_ + bc mod 2 ^ 32)), (u64_id (_ + 2 ^ 31)) by lia.
  set (t := bd / 2 ^ 32 + ad mod 2 ^ 32 + bc mod 2 ^ 32 + 2 ^ 31) in *.
  assert (T : 0 <= t / 2 ^ 32 <= 3) by (split; [apply Z.div_pos; unfold t; lia|]; assert (t / 2 ^ 32 < 4) by (apply Z.div_lt_upper_bound; unfold t; lia); lia).
  pose proof (Z.div_mod t (2 ^ 32) ltac:(lia)) as Et. pose proof (Z.mod_pos_bound t (2 ^ 32) ltac:(lia)) as Mt.
  assert (S64 : ac + ad / 2 ^ 32 + bc / 2 ^ 32 + t / 2 ^ 32 < 2 ^ 64) by (unfold t in *; lia).
  rewrite (u64_id (ac + _)), (u64_id (_ + bc / 2 ^ 32)), (u64_id (_ + t / 2 ^ 32)) by lia.
  apply Z.div_unique with (r := (t mod 2 ^ 32) * 2 ^ 32 + bd mod 2 ^ 32); [left; lia|]. unfold t in *. lia.
Qed.
(** the error: less than one unit against x.f * 10^k / 2^ce / 2^64, where 10^k = T * 2^ce *)
Lemma mul_error x k f e : 0 <= df x < 2 ^ 64 -> entry_ok k f e ->
  (Qabs (IQ (df (diy_mul x (Diy f e))) * pow2 64 - IQ (df x) * (pow10 k / pow2 e)) < pow2 64)%Q.
Proof.
  intros Hx [Hf He]. destruct (diy_mul_ok x (Diy f e) Hx ltac:(cbn [df]; lia)) as [E _]. rewrite E. cbn [df]. set (X := df x) in *. clearbody X. clear x E.
  set (p := (X * f + 2 ^ 63) / 2 ^ 64). set (T := (pow10 k / pow2 e)%Q).
  assert (P : -(2 ^ 63) <= p * 2 ^ 64 - X * f <= 2 ^ 63).
  { pose proof (Z.div_mod (X * f + 2 ^ 63) (2 ^ 64) ltac:(lia)). pose proof (Z.mod_pos_bound (X * f + 2 ^ 63) (2 ^ 64) ltac:(lia)). fold p in H. lia. }
  clearbody p. assert (HT : (Qabs (IQ f - T) <= 1 # 2)%Q).
  { pose proof (pow2_pos e) as Pe. apply Qmult_le_r with (z := pow2 e); [exact Pe|]. rewrite <- (Qabs_pos (pow2 e)) at 1 by (apply Qlt_le_weak; exact Pe). rewrite <- Qabs_Qmult.
    assert (R : ((IQ f - T) * pow2 e == IQ f * pow2 e - pow10 k)%Q) by (unfold T; field; intros Z; rewrite Z in Pe; discriminate). rewrite R. exact He. }
  clearbody T. apply Qabs_Qle_condition in HT. apply Qabs_Qlt_condition. rewrite (pow2_Z 64) by lia.
  assert (PQ : (IQ (-(2 ^ 63)) <= IQ p * IQ (2 ^ 64) - IQ X * IQ f)%Q /\ (IQ p * IQ (2 ^ 64) - IQ X * IQ f <= IQ (2 ^ 63))%Q).
  { destruct P as [P1 P2]. apply IQ_le in P1, P2. rewrite IQ_sub, !IQ_mul in P1, P2. split; assumption. }
  assert (HX0 : (0 <= IQ X)%Q) by (apply (proj1 (IQ_le 0 X)); lia). assert (HX1 : (IQ X + 1 <= IQ (2 ^ 64))%Q) by (change 1%Q with (IQ 1); rewrite <- IQ_add; apply (proj1 (IQ_le _ _)); lia).
  change (IQ (-(2 ^ 63))) with (-(IQ (2 ^ 63)))%Q in PQ. assert (H64 : (IQ (2 ^ 64) == 2 * IQ (2 ^ 63))%Q) by reflexivity.
  set (A := IQ (2 ^ 63)) in *. clearbody A. set (B := IQ (2 ^ 64)) in *. clearbody B. set (x := IQ X) in *. clearbody x. set (q := IQ p) in *. clearbody q. set (F := IQ f) in *. clearbody F.
  destruct HT as [T1 T2]. destruct PQ as [P1 P2].
  assert (N1 : (x * (F - T) <= x * (1 # 2))%Q) by (rewrite !(Qmult_comm x); apply Qmult_le_compat_r; assumption).
  assert (N2 : (- (x * (1 # 2)) <= x * (F - T))%Q) by (setoid_replace (- (x * (1 # 2)))%Q with (-(1 # 2) * x)%Q by ring; rewrite (Qmult_comm x); apply Qmult_le_compat_r; assumption).
  split; lra.
Qed.
