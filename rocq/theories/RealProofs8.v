(** The text of a normalised Real determines its value. *)
From Coq Require Import ZArith Znumtheory QArith Qreals Reals String Ascii Lia Lra Bool List.
From Verif Require Import Base HugeSpec AdapterModel AdapterProofs RationalModel RationalSpec RationalProofs RationalProofs2 RealModel RealSpec RealProofs1 RealProofs3 RealProofs4 RealProofs5.
Import ListNotations.
Open Scope Z_scope.

Lemma rat_ne_inv w a b e : rat_ne w a b = Ok e -> e = negb (num a * den b =? num b * den a).
Proof. unfold rat_ne. intros H. apply bind_ok in H as (x & Hx & H). apply chk_inv in Hx as [-> _]. apply bind_ok in H as (y & Hy & H). apply chk_inv in Hy as [-> _]. now injection H. Qed.
Definition pre_text (c : rat) : list ascii := if num c =? den c then [] else if num c =? - den c then ["-"%char] else rat_to_string c.
Definition index_text (i : Z) : list ascii := if i =? 2 then [] else numeral i.
Lemma canonical_rational x m : canonical x -> rad x = Rat m 1 -> (idx x = 1 <-> m = 1).
Proof.
  intros C E. split; [now apply canonical_trivial|]. intros ->. destruct C as (m & E2 & _ & I & _ & _ & B & _). rewrite E in E2. injection E2 as <-.
  destruct (Z.eq_dec (idx x) 1) as [|N]; [assumption|exfalso]. apply (B (idx x) 1); [lia|apply Z.divide_refl|]. now rewrite Z.pow_1_l by lia.
Qed.
Lemma text_form w x m s : canonical x -> rad x = Rat m 1 -> real_to_string w x = Ok s ->
  (num (coe x) = 0 /\ s = ["0"%char]) \/ (num (coe x) <> 0 /\ idx x = 1 /\ s = rat_to_string (coe x)) \/
  (num (coe x) <> 0 /\ 1 < idx x /\ s = pre_text (coe x) ++ "_"%char :: index_text (idx x) ++ "/"%char :: numeral m).
Proof.
  intros C E H. pose proof C as (m' & E' & Hm & Hi & Dc & _). rewrite E in E'. injection E' as <-. pose proof (canonical_rational _ _ C E) as CR. unfold real_to_string, is_rational in H. rewrite E in H.
  apply bind_ok in H as (c0 & Hc & H). pose proof Hc as Hc2. apply rat_eq_inv in Hc. cbn [num den] in Hc. rewrite Z.mul_1_r, Z.mul_0_l in Hc. destruct c0.
  { symmetry in Hc. apply Z.eqb_eq in Hc. injection H as <-. auto. }
  symmetry in Hc. apply Z.eqb_neq in Hc. right. apply bind_ok in H as (q & Hq & H).
  rewrite Hc2 in Hq. cbn [bind] in Hq. apply bind_ok in Hq as (r1 & Hr & Hq). apply rat_eq_inv in Hr. cbn [num den] in Hr. rewrite Z.mul_1_r in Hr. change (1 * 1) with 1 in Hr. destruct r1.
  { injection Hq as <-. symmetry in Hr. apply Z.eqb_eq in Hr. injection H as <-. left. split; [assumption|]. split; [now apply CR|reflexivity]. }
  symmetry in Hr. apply Z.eqb_neq in Hr. apply bind_ok in Hq as (r0 & Hr0 & Hq). apply rat_eq_inv in Hr0. cbn [num den] in Hr0. rewrite Z.mul_1_r, Z.mul_0_l in Hr0. destruct r0; [symmetry in Hr0; apply Z.eqb_eq in Hr0; lia|].
  injection Hq as <-. assert (I1 : 1 < idx x) by (assert (idx x <> 1) by tauto; lia). destruct (Z.eqb_spec (idx x) 1); [lia|]. destruct (Z.eqb_spec (idx x) 0); [lia|]. cbn [orb] in H.
  right. split; [assumption|]. split; [assumption|]. apply bind_ok in H as (n1 & Hn & H). apply rat_ne_inv in Hn. apply bind_ok in H as (m1 & H1 & H). apply rat_eq_inv in H1. cbn [num den] in *. rewrite Z.mul_1_r, Z.mul_1_l in Hn. rewrite Z.mul_1_r in H1.
  injection H as <-. unfold pre_text, index_text. subst n1 m1. replace (-1 * den (coe x)) with (- den (coe x)) by ring.
  unfold rat_to_string at 2. cbn [den num Z.eqb Pos.eqb negb]. unfold adapter_to_string at 1. destruct (Z.ltb_spec m 0); [lia|].
  destruct (num (coe x) =? den (coe x)); cbn [negb]; destruct (num (coe x) =? - den (coe x)); destruct (idx x =? 2); cbn [app list_ascii_of_string]; rewrite <- ?app_assoc; reflexivity.
Qed.
Definition no_us (s : list ascii) := Forall (fun x => Ascii.eqb x "_"%char = false) s.
Lemma numeral_no n c : 0 <= n -> (nat_of_ascii c < 48 \/ 57 < nat_of_ascii c)%nat -> Forall (fun x => Ascii.eqb x c = false) (numeral n).
Proof.
  intros H L. destruct (numeral_spec n H) as ((_ & F & _) & _). eapply Forall_impl; [|exact F]. intros d D. destruct (Ascii.eqb_spec d c) as [->|]; [|reflexivity]. unfold is_dec_digit in D. lia.
Qed.
Lemma int_no_us n : no_us (adapter_to_string n).
Proof.
  unfold adapter_to_string. destruct (Z.ltb_spec n 0); [constructor; [reflexivity|]|]; apply numeral_no; try lia; right; cbn; lia.
Qed.
Lemma rat_no_us r : no_us (rat_to_string r).
Proof.
  unfold rat_to_string, no_us. destruct (negb _); [|apply int_no_us]. apply Forall_app. split; [apply int_no_us|]. apply Forall_app. split; [repeat constructor|apply int_no_us].
Qed.
Lemma pre_no_us c : no_us (pre_text c).
Proof. unfold pre_text. destruct (_ =? _); [constructor|]. destruct (_ =? _); [repeat constructor|apply rat_no_us]. Qed.
Lemma rat_text_head r : exists a t, rat_to_string r = a :: t /\ (a = "-"%char -> t <> []).
Proof.
  assert (N : forall n, 0 <= n -> exists a t, numeral n = a :: t /\ is_dec_digit a).
  { intros n H. destruct (numeral_spec n H) as ((NE & F & _) & _). destruct (numeral n) as [|a t]; [congruence|]. inversion F; subst. eauto. }
  assert (A : forall n, exists a t, adapter_to_string n = a :: t /\ (a = "-"%char -> t <> [])).
  { intros n. unfold adapter_to_string. destruct (Z.ltb_spec n 0).
    - exists "-"%char, (numeral (- n)). split; [reflexivity|]. intros _. destruct (N (- n) ltac:(lia)) as (a & t & -> & _). discriminate.
    - destruct (N n ltac:(lia)) as (a & t & -> & D). exists a, t. split; [reflexivity|]. intros ->. unfold is_dec_digit in D. cbn in D. lia. }
  unfold rat_to_string. destruct (negb _); [|apply A]. destruct (A (num r)) as (a & t & -> & P). exists a, (t ++ ["/"%char] ++ adapter_to_string (den r)). split; [reflexivity|].
  intros E. specialize (P E). destruct t; [congruence|discriminate].
Qed.

Lemma pre_text_inj w c c' : 1 < w <= 64 -> den c <> 0 -> den c' <> 0 -> in_w w c -> in_w w c' -> pre_text c = pre_text c' -> (qv c == qv c')%Q.
Proof.
  intros Hw D D' [R1 R2] [R1' R2']. unfold pre_text.
  destruct (rat_text_head c) as (a & t & E & P). destruct (rat_text_head c') as (a' & t' & E' & P').
  destruct (Z.eqb_spec (num c) (den c)) as [A|A]; destruct (Z.eqb_spec (num c') (den c')) as [B|B].
  - intros _. unfold qv. rewrite A, B. apply qdiv_eq; try assumption. lia.
  - destruct (_ =? - _); [discriminate|rewrite E'; discriminate].
  - destruct (_ =? - _); [discriminate|rewrite E; discriminate].
  - destruct (Z.eqb_spec (num c) (- den c)) as [A2|A2]; destruct (Z.eqb_spec (num c') (- den c')) as [B2|B2].
    + intros _. unfold qv. rewrite A2, B2. apply qdiv_eq; try assumption. lia.
    + rewrite E'. intros [= X Y]. symmetry in X, Y. elim (P' X Y).
    + rewrite E. intros [= X Y]. elim (P X Y).
    + intros X. apply (rat_text_injective w) in X; try assumption. subst. reflexivity.
Qed.
Lemma numeral_inj a b : 0 <= a -> 0 <= b -> numeral a = numeral b -> a = b.
Proof. intros A B E. rewrite <- (proj2 (numeral_spec a A)), <- (proj2 (numeral_spec b B)), E. reflexivity. Qed.
Lemma index_text_inj i j : 1 < i -> 1 < j -> index_text i = index_text j -> i = j.
Proof.
  intros Hi Hj. unfold index_text. pose proof (proj1 (proj1 (numeral_spec i ltac:(lia)))) as Ni. pose proof (proj1 (proj1 (numeral_spec j ltac:(lia)))) as Nj.
  destruct (Z.eqb_spec i 2); destruct (Z.eqb_spec j 2); intros E; try lia; [congruence|congruence|apply numeral_inj; auto; lia].
Qed.
Lemma index_no_slash i : 1 < i -> Forall (fun x => Ascii.eqb x "/"%char = false) (index_text i).
Proof. intros H. unfold index_text. destruct (i =? 2); [constructor|]. apply numeral_no; [lia|left; cbn; lia]. Qed.
Lemma find_in (c : ascii) a b : In c (a ++ c :: b). Proof. apply in_or_app. right. now left. Qed.
Lemma no_us_in s : no_us s -> ~ In "_"%char s.
Proof. intros F I. unfold no_us in F. rewrite Forall_forall in F. specialize (F _ I). discriminate. Qed.
Lemma zero_text : ["0"%char] = rat_to_string (Rat 0 1). Proof. reflexivity. Qed.
Lemma real_text_injective w x y s : 1 < w <= 64 -> canonical x -> canonical y -> in_w w (coe x) -> in_w w (coe y) ->
  real_to_string w x = Ok s -> real_to_string w y = Ok s -> rv x = rv y.
Proof.
  intros Hw Cx Cy Rx Ry Hx Hy. pose proof Cx as (m & Em & Hm & Ix & Dx & _). pose proof Cy as (n & En & Hn & Iy & Dy & _).
  assert (RV0 : forall z : real, num (coe z) = 0 -> den (coe z) <> 0 -> rv z = 0%R) by (intros z Z D; rewrite rv_radical, qv_R by assumption; rewrite Z; unfold Rdiv; ring).
  assert (PW : 0 < 2 ^ (w - 1)) by (apply Z.pow_pos_nonneg; lia). assert (P1 : 2 <= 2 ^ (w - 1)) by (change 2 with (2 ^ 1) at 1; apply Z.pow_le_mono_r; lia).
  assert (Z01 : forall c, den c <> 0 -> in_w w c -> ["0"%char] = rat_to_string c -> num c = 0).
  { intros c D [R1 R2] X. rewrite zero_text in X. apply (rat_text_injective w) in X; cbn [num den]; try assumption; try lia. now rewrite <- X. }
  assert (TR : forall (z : real) k, canonical z -> rad z = Rat k 1 -> idx z = 1 -> rv z = Q2R (qv (coe z))).
  { intros z k C E I. rewrite rv_radical, radical_one; [ring|rewrite E; cbn [num den]; now apply (canonical_rational z)|rewrite E; cbn; lia]. }
  pose proof (text_form _ _ _ _ Cx Em Hx) as [[A1 A2]|[(A1 & A2 & A3)|(A1 & A2 & A3)]]; pose proof (text_form _ _ _ _ Cy En Hy) as [[B1 B2]|[(B1 & B2 & B3)|(B1 & B2 & B3)]].
  - rewrite !RV0 by assumption. reflexivity.
  - rewrite A2 in B3. apply Z01 in B3; [contradiction|assumption|assumption].
  - exfalso. rewrite A2 in B3. assert (I := find_in "_"%char (pre_text (coe y)) (index_text (idx y) ++ "/"%char :: numeral n)). rewrite <- B3 in I. destruct I as [I|[]]. discriminate.
  - rewrite B2 in A3. apply Z01 in A3; [contradiction|assumption|assumption].
  - rewrite A3 in B3. destruct Rx, Ry. apply (rat_text_injective w) in B3; try assumption. rewrite (TR x m), (TR y n) by assumption. now rewrite B3.
  - exfalso. rewrite A3 in B3. assert (I := find_in "_"%char (pre_text (coe y)) (index_text (idx y) ++ "/"%char :: numeral n)). rewrite <- B3 in I. revert I. apply no_us_in, rat_no_us.
  - exfalso. rewrite B2 in A3. assert (I := find_in "_"%char (pre_text (coe x)) (index_text (idx x) ++ "/"%char :: numeral m)). rewrite <- A3 in I. destruct I as [I|[]]. discriminate.
  - exfalso. rewrite B3 in A3. assert (I := find_in "_"%char (pre_text (coe x)) (index_text (idx x) ++ "/"%char :: numeral m)). rewrite <- A3 in I. revert I. apply no_us_in, rat_no_us.
  - rewrite A3 in B3. apply (f_equal (find_char "_"%char)) in B3. rewrite !find_char_app in B3 by apply pre_no_us. injection B3 as P T.
    apply (f_equal (find_char "/"%char)) in T. rewrite !find_char_app in T by (now apply index_no_slash). injection T as T1 T2.
    apply index_text_inj in T1; [|assumption|assumption]. apply numeral_inj in T2; [|lia|lia]. apply (pre_text_inj w) in P; try assumption.
    rewrite !rv_root, (Q2R_eq _ _ P), Em, En, T1, T2. reflexivity.
Qed.
