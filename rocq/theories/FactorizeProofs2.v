(** The fast path: soundness of its outcome, primes are accepted, exactness below 9006403 (except 9006401). *)
From Coq Require Import ZArith Znumtheory Zpow_facts String Lia Bool List.
From Verif Require Import Base AdapterModel AdapterProofs FactorizeModel FactorizeProofs1.
Import ListNotations.
Open Scope Z_scope.

Definition euler_b (a n : Z) : bool := ((a ^ (n / 2) mod n =? 1) || (a ^ (n / 2) mod n =? n - 1))%bool.
Definition fermat_b (a n : Z) : bool := a ^ (n - 1) mod n =? 1.
(** n - 1 = d * 2^s *)
Definition mr_b (n : Z) (ws : list Z) : bool :=
  match split2 (bits_fuel n) (n - 1) 0 with Ok (d, s) => mr_pure n d s ws | _ => false end.
Definition fast_b (n : Z) (ws : list Z) : bool :=
  if n >=? 9006403 then no_divisor_to 89 n && mr_b n ws
  else if n >=? 489997 then no_divisor_to 101 n && (euler_b 2 n && (euler_b 3 n && euler_b 5 n))
  else if n >=? 42799 then no_divisor_to 43 n && (fermat_b 2 n && fermat_b 5 n)
  else if n >=? 841 then no_divisor_to 103 n && fermat_b 2 n
  else if n >=? 25 then no_divisor_to 23 n
  else if n >=? 4 then no_divisor_to 3 n
  else n >? 1.

Lemma shiftr1 n : Z.shiftr n 1 = n / 2.
Proof. now rewrite Z.shiftr_div_pow2 by lia. Qed.
Lemma euler_sound w a n b : 0 <= a -> 1 < n -> euler_test w a n = Ok b -> b = euler_b a n.
Proof.
  intros Ha Hn. unfold euler_test. rewrite shiftr1.
  destruct (adapter_modpow w a (n / 2) n) as [x| | |] eqn:M; cbn [bind]; try discriminate.
  apply modpow_sound in M; try lia; [|apply Z.div_pos; lia]. subst x. now intros [= <-].
Qed.
Lemma fermat_sound w a n b : 0 <= a -> 1 < n -> fermat_test w a n = Ok b -> b = fermat_b a n.
Proof.
  intros Ha Hn. unfold fermat_test.
  destruct (adapter_modpow w a (n - 1) n) as [x| | |] eqn:M; cbn [bind]; try discriminate.
  apply modpow_sound in M; try lia. subst x. now intros [= <-].
Qed.
Lemma euler_ok w a n : 0 <= a < 2 ^ (w - 1) -> 1 < n -> (n - 1) * (n - 1) < 2 ^ (w - 1) -> euler_test w a n = Ok (euler_b a n).
Proof. intros. unfold euler_test. rewrite shiftr1, modpow_spec; try assumption; [reflexivity|apply Z.div_pos; lia]. Qed.
Lemma fermat_ok w a n : 0 <= a < 2 ^ (w - 1) -> 1 < n -> (n - 1) * (n - 1) < 2 ^ (w - 1) -> fermat_test w a n = Ok (fermat_b a n).
Proof. intros. unfold fermat_test. rewrite modpow_spec; try assumption; [reflexivity|lia]. Qed.
Lemma andb_res_inv x y b : andb_res x y = Ok b -> exists bx, x = Ok bx /\ ((bx = false /\ b = false) \/ (bx = true /\ y = Ok b)).
Proof.
  unfold andb_res. destruct x as [[|]| | |]; cbn [bind]; try discriminate; intros H; eexists; split; eauto.
  injection H as <-. auto.
Qed.

Lemma mr_sound w n ws b : 1 < w -> 1 < n <= 2 ^ (w - 2) -> Forall (fun a => 0 <= a) ws ->
  miller_rabin w n ws = Ok b -> b = mr_b n ws.
Proof.
  intros Hw Hn F. unfold miller_rabin, mr_b.
  destruct (split2_spec (bits_fuel n) (n - 1) 0) as (d & s & -> & O & P & L & E).
  { pose proof (bits_fuel_bound n ltac:(lia)). lia. }
  cbn [bind]. intros H. apply mr_loop_sound in H; try assumption. lia.
Qed.
Lemma mr_ok w n ws : 1 < w -> 1 < n <= 2 ^ (w - 2) -> (n - 1) * (n - 1) < 2 ^ (w - 1) ->
  Forall (fun a => 0 <= a < 2 ^ (w - 1)) ws -> miller_rabin w n ws = Ok (mr_b n ws).
Proof.
  intros Hw Hn H2 F. unfold miller_rabin, mr_b.
  destruct (split2_spec (bits_fuel n) (n - 1) 0) as (d & s & -> & O & P & L & E).
  { pose proof (bits_fuel_bound n ltac:(lia)). lia. }
  cbn [bind]. apply mr_loop_ok; try assumption. lia.
Qed.

Lemma fast_sound w n ws b : 1 < w -> n <= 2 ^ (w - 2) -> Forall (fun a => 0 <= a) ws ->
  fast_path_with w n ws = Ok b -> b = fast_b n ws.
Proof.
  intros Hw Hn F. unfold fast_path_with, fast_b.
  destruct (Z.geb_spec n 9006403).
  { destruct (no_divisor_to 89 n); cbn [andb]; [|now intros [= <-]]. apply mr_sound; try assumption. lia. }
  destruct (Z.geb_spec n 489997).
  { destruct (no_divisor_to 101 n); cbn [andb]; [|now intros [= <-]].
    intros E. apply andb_res_inv in E as (b1 & E1 & E). apply euler_sound in E1; try lia. rewrite <- E1.
    destruct E as [[-> ->]|[-> E]]; [reflexivity|]. cbn [andb].
    apply andb_res_inv in E as (b2 & E2 & E). apply euler_sound in E2; try lia. rewrite <- E2.
    destruct E as [[-> ->]|[-> E]]; [reflexivity|]. cbn [andb]. apply euler_sound in E; lia || assumption. }
  destruct (Z.geb_spec n 42799).
  { destruct (no_divisor_to 43 n); cbn [andb]; [|now intros [= <-]].
    intros E. apply andb_res_inv in E as (b1 & E1 & E). apply fermat_sound in E1; try lia. rewrite <- E1.
    destruct E as [[-> ->]|[-> E]]; [reflexivity|]. cbn [andb]. apply fermat_sound in E; lia || assumption. }
  destruct (Z.geb_spec n 841).
  { destruct (no_divisor_to 103 n); cbn [andb]; [|now intros [= <-]].
    intros E. apply fermat_sound in E; lia || assumption. }
  destruct (n >=? 25); [now intros [= <-]|]. destruct (n >=? 4); now intros [= <-].
Qed.
(** without the bound on n when n < 9006403 *)
Lemma fast_sound_small w n ws b : n < 9006403 -> fast_path_with w n ws = Ok b -> b = fast_b n ws.
Proof.
  intros Hn. unfold fast_path_with, fast_b.
  destruct (Z.geb_spec n 9006403); [lia|].
  destruct (Z.geb_spec n 489997).
  { destruct (no_divisor_to 101 n); cbn [andb]; [|now intros [= <-]].
    intros E. apply andb_res_inv in E as (b1 & E1 & E). apply euler_sound in E1; try lia. rewrite <- E1.
    destruct E as [[-> ->]|[-> E]]; [reflexivity|]. cbn [andb].
    apply andb_res_inv in E as (b2 & E2 & E). apply euler_sound in E2; try lia. rewrite <- E2.
    destruct E as [[-> ->]|[-> E]]; [reflexivity|]. cbn [andb]. apply euler_sound in E; lia || assumption. }
  destruct (Z.geb_spec n 42799).
  { destruct (no_divisor_to 43 n); cbn [andb]; [|now intros [= <-]].
    intros E. apply andb_res_inv in E as (b1 & E1 & E). apply fermat_sound in E1; try lia. rewrite <- E1.
    destruct E as [[-> ->]|[-> E]]; [reflexivity|]. cbn [andb]. apply fermat_sound in E; lia || assumption. }
  destruct (Z.geb_spec n 841).
  { destruct (no_divisor_to 103 n); cbn [andb]; [|now intros [= <-]].
    intros E. apply fermat_sound in E; lia || assumption. }
  destruct (n >=? 25); [now intros [= <-]|]. destruct (n >=? 4); now intros [= <-].
Qed.

Lemma pow_split w : 1 < w -> 2 ^ (w - 1) = 2 * 2 ^ (w - 2).
Proof. intros. rewrite <- Z.pow_succ_r by lia. f_equal. lia. Qed.
(** a modulus whose square fits is far below 2^(w-2) *)
Lemma square_fits w n : 4 <= w -> 1 < n -> (n - 1) * (n - 1) < 2 ^ (w - 1) -> n <= 2 ^ (w - 2).
Proof.
  intros Hw Hn H. pose proof (pow_split w ltac:(lia)) as P.
  assert (4 <= 2 ^ (w - 2)) by (change 4 with (2 ^ 2); apply Z.pow_le_mono_r; lia).
  set (m := 2 ^ (w - 2)) in *. nia.
Qed.

Lemma fast_ok w n ws : 10 <= w -> (n - 1) * (n - 1) < 2 ^ (w - 1) -> Forall (fun a => 0 <= a < 2 ^ (w - 1)) ws ->
  fast_path_with w n ws = Ok (fast_b n ws).
Proof.
  intros Hw Hn F.
  assert (B : 512 <= 2 ^ (w - 1)) by (change 512 with (2 ^ 9); apply Z.pow_le_mono_r; lia).
  unfold fast_path_with, fast_b.
  destruct (Z.geb_spec n 9006403).
  { destruct (no_divisor_to 89 n); cbn [andb]; [|reflexivity]. apply mr_ok; try assumption; try lia.
    split; [lia|]. apply square_fits; lia. }
  destruct (Z.geb_spec n 489997).
  { destruct (no_divisor_to 101 n); cbn [andb]; [|reflexivity]. unfold andb_res.
    rewrite !euler_ok by lia. cbn [bind]. destruct (euler_b 2 n); [|reflexivity]. cbn [bind andb]. destruct (euler_b 3 n); reflexivity. }
  destruct (Z.geb_spec n 42799).
  { destruct (no_divisor_to 43 n); cbn [andb]; [|reflexivity]. unfold andb_res.
    rewrite !fermat_ok by lia. cbn [bind]. destruct (fermat_b 2 n); reflexivity. }
  destruct (Z.geb_spec n 841).
  { destruct (no_divisor_to 103 n); cbn [andb]; [|reflexivity]. apply fermat_ok; lia. }
  destruct (n >=? 25); [reflexivity|]. destruct (n >=? 4); reflexivity.
Qed.

Definition ok_or_ub {A} (x : res A) : Prop := (exists a, x = Ok a) \/ (exists u, x = Ub u).
Lemma euler_outcome w a n : 0 <= n -> ok_or_ub (euler_test w a n).
Proof.
  intros Hn. unfold euler_test, ok_or_ub. rewrite shiftr1.
  destruct (modpow_outcome w a (n / 2) n ltac:(apply Z.div_pos; lia)) as [[x ->]|[u ->]]; cbn [bind]; eauto.
Qed.
Lemma fermat_outcome w a n : 1 <= n -> ok_or_ub (fermat_test w a n).
Proof.
  intros Hn. unfold fermat_test, ok_or_ub.
  destruct (modpow_outcome w a (n - 1) n ltac:(lia)) as [[x ->]|[u ->]]; cbn [bind]; eauto.
Qed.
Lemma andb_outcome x y : ok_or_ub x -> ok_or_ub y -> ok_or_ub (andb_res x y).
Proof. unfold andb_res, ok_or_ub. intros [[[|] ->]|[u ->]] Hy; cbn [bind]; eauto. Qed.
Lemma ok_ok {A} (a : A) : ok_or_ub (Ok a). Proof. left; eauto. Qed.
Lemma fast_outcome w n ws : 1 < w -> n <= 2 ^ (w - 2) -> Forall (fun a => 0 <= a) ws -> ok_or_ub (fast_path_with w n ws).
Proof.
  intros Hw Hn F. unfold fast_path_with.
  destruct (Z.geb_spec n 9006403).
  { destruct (no_divisor_to 89 n); [|apply ok_ok]. unfold miller_rabin.
    destruct (split2_spec (bits_fuel n) (n - 1) 0) as (d & s & -> & O & P & L & E).
    { pose proof (bits_fuel_bound n ltac:(lia)). lia. }
    cbn [bind]. apply mr_loop_outcome; try assumption; lia. }
  destruct (Z.geb_spec n 489997).
  { destruct (no_divisor_to 101 n); [|apply ok_ok]. repeat apply andb_outcome; apply euler_outcome; lia. }
  destruct (Z.geb_spec n 42799).
  { destruct (no_divisor_to 43 n); [|apply ok_ok]. repeat apply andb_outcome; apply fermat_outcome; lia. }
  destruct (Z.geb_spec n 841).
  { destruct (no_divisor_to 103 n); [|apply ok_ok]. apply fermat_outcome; lia. }
  destruct (n >=? 25); [apply ok_ok|]. destruct (n >=? 4); apply ok_ok.
Qed.

(** ** primes are accepted *)
Lemma euler_b_prime a n : prime n -> 0 < a < n -> 2 < n -> euler_b a n = true.
Proof.
  intros P A H. unfold euler_b. destruct (euler_prime n a P H ltac:(lia) (not_div_small n a A)) as [-> | ->].
  - reflexivity.
  - rewrite Z.eqb_refl. apply orb_true_r.
Qed.
Lemma fermat_b_prime a n : prime n -> 0 < a < n -> fermat_b a n = true.
Proof. intros P A. unfold fermat_b. rewrite fermat1; [reflexivity|assumption|lia|now apply not_div_small]. Qed.
Lemma mr_b_prime n ws : prime n -> Forall (fun a => 0 < a < n) ws -> mr_b n ws = true.
Proof.
  intros P F. assert (1 < n) by (destruct P; lia). unfold mr_b.
  destruct (split2_spec (bits_fuel n) (n - 1) 0) as (d & s & -> & O & Pd & L & E).
  { pose proof (bits_fuel_bound n ltac:(lia)). lia. }
  rewrite Nat.sub_0_r in E. now apply mr_pure_prime.
Qed.
Lemma fast_b_prime n ws : prime n -> (9006403 <= n -> Forall (fun a => 0 < a < n) ws) -> fast_b n ws = true.
Proof.
  intros P F. assert (1 < n) by (destruct P; lia). unfold fast_b.
  destruct (Z.geb_spec n 9006403).
  { rewrite no_divisor_prime, mr_b_prime; auto; lia. }
  destruct (Z.geb_spec n 489997). { rewrite no_divisor_prime, !euler_b_prime by (try assumption; lia). reflexivity. }
  destruct (Z.geb_spec n 42799). { rewrite no_divisor_prime, !fermat_b_prime by (try assumption; lia). reflexivity. }
  destruct (Z.geb_spec n 841). { rewrite no_divisor_prime, !fermat_b_prime by (try assumption; lia). reflexivity. }
  destruct (Z.geb_spec n 25). { apply no_divisor_prime; [assumption|lia]. }
  destruct (Z.geb_spec n 4). { apply no_divisor_prime; [assumption|lia]. }
  rewrite Z.gtb_ltb. now apply Z.ltb_lt.
Qed.

Lemma witnesses_bound i128 n : Forall (fun a => 2 <= a <= 71) (witnesses i128 n).
Proof.
  unfold witnesses. repeat match goal with |- context [if ?c then _ else _] => destruct c end; cbn; repeat constructor; lia.
Qed.
Lemma draws_bound rnd n : 5 <= n -> forall len k, Forall (fun a => 2 <= a <= n - 3) (draws rnd k n len).
Proof.
  intros Hn. induction len as [|l IH]; intros k; cbn [draws]; constructor; [|apply IH].
  pose proof (Z.mod_pos_bound (rnd k) (n - 3 - 2 + 1)). lia.
Qed.

(** ** the sweep for composites below 9006403 *)
(** x = 2^i mod p: first i >= 1 with 2^i = 1 *)
Fixpoint ord_loop (fuel : nat) (p x i : Z) : Z :=
  match fuel with
  | O => 0
  | S f => if x =? 1 then i else ord_loop f p (let y := 2 * x in if y <? p then y else y - p) (i + 1)
  end.
Lemma dbl_mod p x : 0 <= x < p -> (let y := 2 * x in if y <? p then y else y - p) = (2 * x) mod p.
Proof.
  intros H. cbv zeta. destruct (Z.ltb_spec (2 * x) p); [now rewrite Z.mod_small by lia|].
  apply (Z.mod_unique_pos _ _ 1); lia.
Qed.
Definition ord2 (p : Z) : Z := ord_loop (Z.to_nat p) p (2 mod p) 1.
Lemma ord_loop_spec : forall fuel p x i o, 1 < p -> 0 < i -> x = 2 ^ i mod p -> ord_loop fuel p x i = o -> 0 < o ->
  i <= o /\ 2 ^ o mod p = 1 /\ forall j, i <= j < o -> 2 ^ j mod p <> 1.
Proof.
  induction fuel as [|f IH]; intros p x i o Hp Hi Hx E Ho; cbn [ord_loop] in E; [lia|].
  destruct (Z.eqb_spec x 1) as [->|N].
  - subst o. split; [lia|]. split; [congruence|]. intros j Hj. lia.
  - apply IH in E; try lia.
    + destruct E as (A & B & C). split; [lia|]. split; [assumption|]. intros j Hj.
      destruct (Z.eq_dec j i) as [->|]; [congruence|]. apply C. lia.
    + pose proof (Z.mod_pos_bound (2 ^ i) p ltac:(lia)). rewrite dbl_mod by lia.
      rewrite Hx, Z.mul_mod_idemp_r by lia. f_equal. rewrite Z.pow_add_r by lia. lia.
Qed.
Lemma ord_divides p o e : 1 < p -> 0 < o -> 2 ^ o mod p = 1 -> (forall j, 1 <= j < o -> 2 ^ j mod p <> 1) -> 0 <= e ->
  2 ^ e mod p = 1 -> (o | e).
Proof.
  intros Hp Ho H1 Hmin He E. apply Z.mod_divide; [lia|].
  pose proof (Z.mod_pos_bound e o Ho) as B. pose proof (Z.div_mod e o ltac:(lia)) as D.
  pose proof (Z.div_pos e o He Ho) as Dp.
  destruct (Z.eq_dec (e mod o) 0) as [|N]; [assumption|exfalso].
  apply (Hmin (e mod o)); [lia|].
  rewrite D in E. rewrite Z.pow_add_r, Z.pow_mul_r in E by lia.
  rewrite <- Z.mul_mod_idemp_l in E by lia. rewrite (Zpower_mod (2 ^ o)) in E by lia.
  rewrite H1, Z.pow_1_l, Z.mod_1_l, Z.mul_1_l in E by lia. exact E.
Qed.

(** computation-friendly a^e mod n *)
Fixpoint pm (a n : Z) (e : positive) : Z :=
  match e with
  | xH => a mod n
  | xO e' => let x := pm a n e' in (x * x) mod n
  | xI e' => let x := pm a n e' in (((x * x) mod n) * a) mod n
  end.
Lemma pm_spec a n e : n <> 0 -> pm a n e = a ^ Zpos e mod n.
Proof.
  intros Hn. induction e as [e IH|e IH|]; cbn [pm].
  - rewrite IH. rewrite <- Z.mul_mod by lia. rewrite Z.mul_mod_idemp_l by lia.
    f_equal. rewrite Pos2Z.inj_xI. rewrite (Z.mul_comm 2), Z.pow_add_r, Z.pow_mul_r, Z.pow_2_r, Z.pow_1_r by lia. reflexivity.
  - rewrite IH, <- Z.mul_mod by lia. f_equal. rewrite Pos2Z.inj_xO, (Z.mul_comm 2), Z.pow_mul_r, Z.pow_2_r by lia. reflexivity.
  - now rewrite Z.pow_1_r.
Qed.
Definition pmz (a n e : Z) : Z := match e with Zpos p => pm a n p | _ => 1 mod n end.
Lemma pmz_spec a n e : n <> 0 -> 0 <= e -> pmz a n e = a ^ e mod n.
Proof. intros Hn He. destruct e; cbn [pmz]; [reflexivity|now apply pm_spec|lia]. Qed.

Definition euler_c (a n : Z) : bool := let x := pmz a n (n / 2) in ((x =? 1) || (x =? n - 1))%bool.
Definition fermat_c (a n : Z) : bool := pmz a n (n - 1) =? 1.
Lemma euler_c_spec a n : 1 < n -> euler_c a n = euler_b a n.
Proof. intros. unfold euler_c, euler_b. cbv zeta. rewrite pmz_spec; [reflexivity|lia|apply Z.div_pos; lia]. Qed.
Lemma fermat_c_spec a n : 1 < n -> fermat_c a n = fermat_b a n.
Proof. intros. unfold fermat_c, fermat_b. rewrite pmz_spec; [reflexivity|lia|lia]. Qed.

(** all m = m0 + j * o with p * m < bound *)
Fixpoint sweep_m (fuel : nat) (p o m bound : Z) (bad : Z -> Z -> bool) : bool :=
  match fuel with
  | O => bound <=? p * m
  | S f => if bound <=? p * m then true
           else if bad p m then false else sweep_m f p o (m + o) bound bad
  end.
Lemma sweep_m_spec bad bound p o : 0 < p -> 0 < o -> forall fuel m, sweep_m fuel p o m bound bad = true ->
  forall j, 0 <= j -> p * (m + j * o) < bound -> bad p (m + j * o) = false.
Proof.
  intros Hp Ho. induction fuel as [|f IH]; intros m H j Hj H2; cbn [sweep_m] in H.
  - apply Z.leb_le in H. nia.
  - destruct (Z.leb_spec bound (p * m)); [nia|].
    destruct (bad p m) eqn:A; [discriminate|]. rename H into B.
    destruct (Z.eq_dec j 0) as [->|].
    + now replace (m + 0 * o) with m in * by lia.
    + replace (m + j * o) with (m + o + (j - 1) * o) in * by lia. apply IH; try assumption; lia.
Qed.
Definition sweep_p (bound : Z) (bad : Z -> Z -> bool) (p : Z) : bool :=
  let o := ord2 p in if negb (0 <? o) then false else sweep_m (Z.to_nat (bound / (p * o) + 1)) p o p bound bad.
(** if every candidate m with 2^(p*m-1) = 1 mod p is refuted, no composite with smallest prime factor p survives *)
Lemma sweep_p_spec bound bad p m : prime p -> 2 < p -> p <= m -> sweep_p bound bad p = true ->
  p * m < bound -> 2 ^ (p * m - 1) mod (p * m) = 1 -> bad p m = false.
Proof.
  intros P P2 Hm S B F. unfold sweep_p in S. cbv zeta in S. destruct (Z.ltb_spec 0 (ord2 p)) as [S1|]; cbn [negb] in S; [|discriminate]. rename S into S2.
  destruct (ord_loop_spec (Z.to_nat p) p (2 mod p) 1 (ord2 p)) as (_ & O1 & O2); try lia.
  { now rewrite Z.pow_1_r. } { reflexivity. }
  assert (F2 : 2 ^ (p * m - 1) mod p = 1).
  { rewrite (Znumtheory.Zmod_div_mod p (p * m)) by (try nia; exists m; ring). rewrite F. apply Z.mod_small. lia. }
  assert (D1 : (ord2 p | p * m - 1)) by (apply (ord_divides p); try assumption; try lia; nia).
  assert (D2 : (ord2 p | p - 1)).
  { apply (ord_divides p); try assumption; try lia. apply fermat1; try assumption; try lia. apply not_div_small. lia. }
  assert (D3 : (ord2 p | m - p)).
  { replace (m - p) with (p * m - 1 - (p - 1) * (m + 1)) by ring. apply Z.divide_sub_r; [assumption|]. now apply Z.divide_mul_l. }
  destruct D3 as [j J]. replace m with (p + j * ord2 p) by lia. apply sweep_m_spec with (bound := bound) (fuel := Z.to_nat (bound / (p * ord2 p) + 1)); try assumption; try lia; nia.
Qed.

(** trial division that stops at the first divisor (call by value) *)
Fixpoint nd_c (l : list Z) (n : Z) : bool := match l with [] => true | p :: l' => if n mod p =? 0 then false else nd_c l' n end.
Lemma nd_c_forallb l n : nd_c l n = forallb (fun p => negb (n mod p =? 0)) l.
Proof. induction l as [|p l IH]; cbn [nd_c forallb]; [reflexivity|]. destruct (n mod p =? 0); [reflexivity|exact IH]. Qed.
Definition small_ps : list Z := [2; 3; 5; 7; 11; 13; 17; 19; 23; 29; 31; 37; 41; 43].
Definition mid_ps : list Z := [2; 3; 5; 7; 11; 13; 17; 19; 23; 29; 31; 37; 41; 43; 47; 53; 59; 61; 67; 71; 73; 79; 83; 89; 97; 101].
Lemma small_ps_prime : Forall (fun q => prime q /\ q <= 43) small_ps.
Proof. unfold small_ps. repeat (constructor; [split; [apply slow_path_correct; reflexivity|lia]|]). constructor. Qed.
Lemma mid_ps_prime : Forall (fun q => prime q /\ q <= 101) mid_ps.
Proof. unfold mid_ps. repeat (constructor; [split; [apply slow_path_correct; reflexivity|lia]|]). constructor. Qed.
Lemma nd_list l c b n m p : Forall (fun q => prime q /\ q <= c) l -> c <= b <= 103 -> no_divisor_to b n = true -> n = p * m -> nd_c l m = true.
Proof.
  intros F Hb H E. rewrite nd_c_forallb. apply forallb_forall. intros q I. apply negb_true_iff, Z.eqb_neq. intros M.
  pose proof (proj1 (Forall_forall _ _) F q I) as [Pq Lq]. apply Z.mod_divide in M; [|destruct Pq; lia].
  pose proof (no_divisor_inv b n q H Pq ltac:(rewrite E; now apply Z.divide_mul_r) ltac:(lia)). lia.
Qed.
Definition nd_small b n m p := nd_list small_ps 43 b n m p small_ps_prime.
Definition nd_mid b n m p := nd_list mid_ps 101 b n m p mid_ps_prime.
Definition bad2 (p m : Z) : bool :=
  if nd_c mid_ps m then
    if (if 208 <? p then pmz 2 m (p - 1) =? 1 else true) then
      let n := p * m in
      if euler_c 2 n then (euler_c 3 n && euler_c 5 n && negb (n =? 9006401))%bool else false
    else false
  else false.
Definition bad1 (p m : Z) : bool :=
  if nd_c small_ps m then let n := p * m in if fermat_c 2 n then (fermat_c 5 n && (42799 <=? n))%bool else false else false.
Definition bad0 (p m : Z) : bool :=
  if nd_c small_ps m then let n := p * m in (fermat_c 2 n && (841 <=? n))%bool else false.
Definition sweep_range (lo hi bound : Z) (bad : Z -> Z -> bool) : bool :=
  forallb (fun k => let p := lo + Z.of_nat k in if is_prime_slow_path p then sweep_p bound bad p else true) (seq 0 (Z.to_nat (hi - lo))).
Lemma sweep_range_spec lo hi bound bad p : sweep_range lo hi bound bad = true -> prime p -> lo <= p < hi -> sweep_p bound bad p = true.
Proof.
  intros S P H. unfold sweep_range in S. rewrite forallb_forall in S. specialize (S (Z.to_nat (p - lo))).
  rewrite in_seq in S. specialize (S ltac:(lia)). cbv zeta in S. rewrite Z2Nat.id in S by lia.
  replace (lo + (p - lo)) with p in S by lia. apply slow_path_correct in P. rewrite P in S. exact S.
Qed.
Lemma sweep1 : sweep_range 44 700 489997 bad1 = true.
Proof. vm_cast_no_check (eq_refl true). Qed.
Lemma sweep2 : sweep_range 102 3002 9006403 bad2 = true.
Proof. vm_cast_no_check (eq_refl true). Qed.
Lemma sweep0 : sweep_range 104 207 42799 bad0 = true.
Proof. vm_cast_no_check (eq_refl true). Qed.

Definition tiny_b (n : Z) : bool := if n >=? 25 then no_divisor_to 23 n else if n >=? 4 then no_divisor_to 3 n else n >? 1.
Definition tiny_check (k : nat) : bool := implb (tiny_b (Z.of_nat k)) (is_prime_slow_path (Z.of_nat k)).
Lemma brute : forallb tiny_check (seq 0 841) = true.
Proof. vm_compute. reflexivity. Qed.
Lemma brute_spec n : 0 <= n < 841 -> tiny_b n = true -> prime n.
Proof.
  intros H T. pose proof (proj1 (forallb_forall tiny_check (seq 0 841)) brute (Z.to_nat n)) as B.
  assert (I : In (Z.to_nat n) (seq 0 841)) by (apply in_seq; lia). specialize (B I).
  unfold tiny_check in B. rewrite Z2Nat.id, T, implb_t in B by lia. now apply slow_path_correct.
Qed.

Lemma euler_fermat2 n : 1 < n -> Z.odd n = true -> euler_b 2 n = true -> 2 ^ (n - 1) mod n = 1.
Proof.
  intros Hn O E. unfold euler_b in E. apply orb_true_iff in E.
  pose proof (Z.div_mod n 2 ltac:(lia)) as D. rewrite Zmod_odd, O in D.
  replace (n - 1) with (n / 2 * 2) by lia. rewrite Z.pow_mul_r, Z.pow_2_r by (try apply Z.div_pos; lia).
  rewrite Z.mul_mod by lia. destruct E as [E|E]; apply Z.eqb_eq in E; rewrite E.
  - apply Z.mod_small. lia.
  - transitivity (1 mod n); [|apply Z.mod_small; lia]. apply mod_divide; [lia|]. exists (n - 2). ring.
Qed.
Lemma no_divisor_odd b n : 2 <= b <= 103 -> no_divisor_to b n = true -> Z.odd n = true.
Proof.
  intros Hb H. rewrite <- Z.negb_even. destruct (Z.even n) eqn:E; [|reflexivity]. exfalso.
  apply Z.even_spec in E as [k E]. assert (b < 2); [|lia].
  apply (no_divisor_inv b n 2 H prime_2); [exists k; lia|lia].
Qed.

