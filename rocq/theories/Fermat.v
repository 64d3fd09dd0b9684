(** Fermat's little theorem for Z, from the standard library alone (x -> a*x mod p permutes 1..p-1). *)
From Coq Require Import ZArith Znumtheory Lia List Permutation.
Import ListNotations.
Open Scope Z_scope.

Definition lprod (l : list Z) : Z := fold_right Z.mul 1 l.
Lemma lprod_perm l l' : Permutation l l' -> lprod l = lprod l'.
Proof. induction 1; cbn [lprod fold_right] in *; try lia. fold (lprod l) (lprod l') in *. now rewrite IHPermutation. Qed.
Lemma lprod_map_mod a p l : p <> 0 -> lprod (map (fun x => (a * x) mod p) l) mod p = (a ^ Z.of_nat (length l) * lprod l) mod p.
Proof.
  intros Hp. induction l as [|x l IH]; [reflexivity|]. cbn [map lprod fold_right length].
  fold (lprod (map (fun x => (a * x) mod p) l)) (lprod l).
  rewrite Z.mul_mod, Z.mod_mod, <- Z.mul_mod by assumption. rewrite <- Z.mul_mod_idemp_r, IH, Z.mul_mod_idemp_r by assumption.
  rewrite Nat2Z.inj_succ, Z.pow_succ_r by lia. f_equal. ring.
Qed.
Lemma lprod_not_div p l : prime p -> (forall x, In x l -> ~ (p | x)) -> ~ (p | lprod l).
Proof.
  intros P. induction l as [|x l IH]; intros H D.
  - cbn in D. apply Z.divide_1_r_nonneg in D; [|destruct P; lia]. destruct P; lia.
  - cbn [lprod fold_right] in D. apply prime_mult in D; [|assumption]. destruct D as [D|D].
    + apply (H x); [now left|assumption].
    + apply IH; [|assumption]. intros y Y. apply H. now right.
Qed.
Definition residues (p : Z) : list Z := map Z.of_nat (seq 1 (Z.to_nat (p - 1))).
Lemma residues_in p x : 1 < p -> In x (residues p) <-> 1 <= x < p.
Proof.
  intros Hp. unfold residues. rewrite in_map_iff. split.
  - intros (n & <- & I). apply in_seq in I. lia.
  - intros H. exists (Z.to_nat x). split; [lia|]. apply in_seq. lia.
Qed.
Lemma residues_length p : 1 < p -> Z.of_nat (length (residues p)) = p - 1.
Proof. intros. unfold residues. rewrite map_length, seq_length. lia. Qed.
Lemma fermat_Z a p : prime p -> 0 <= a -> a ^ p mod p = a mod p.
Proof.
  intros P Ha. assert (Hp : 1 < p) by (destruct P; lia).
  destruct (Zdivide_dec p a) as [D|N].
  { rewrite (proj2 (Z.mod_divide a p ltac:(lia)) D). apply Z.mod_divide; [lia|].
    replace p with (Z.succ (p - 1)) at 2 by lia. rewrite Z.pow_succ_r by lia. now apply Z.divide_mul_l. }
  assert (PM : Permutation (map (fun x => (a * x) mod p) (residues p)) (residues p)).
  { apply NoDup_Permutation_bis.
    - apply NoDup_nth with (d := 0). rewrite map_length. intros i j Hi Hj.
      set (f := fun x => (a * x) mod p).
      assert (Nf : forall k, (k < length (residues p))%nat -> nth k (map f (residues p)) 0 = f (nth k (residues p) 0)).
      { intros k Hk. rewrite (nth_indep _ 0 (f 0)) by now rewrite map_length. apply map_nth. }
      rewrite !Nf by assumption. unfold f. intros E.
      assert (V : forall k, (k < length (residues p))%nat -> nth k (residues p) 0 = Z.of_nat k + 1).
      { intros k Hk. unfold residues in *. rewrite map_length, seq_length in Hk.
        rewrite (nth_indep _ 0 (Z.of_nat 0)) by now rewrite map_length, seq_length. rewrite map_nth, seq_nth by assumption. lia. }
      rewrite !V in E by assumption. pose proof (residues_length p Hp) as L.
      assert (DD : (p | a * ((Z.of_nat i + 1) - (Z.of_nat j + 1)))).
      { apply Z.mod_divide; [lia|]. rewrite Z.mul_sub_distr_l, Zminus_mod, E, Z.sub_diag. apply Z.mod_0_l. lia. }
      apply prime_mult in DD; [|assumption]. destruct DD as [DD|[k DD]]; [contradiction|]. assert (k = 0) by nia. nia.
    - rewrite map_length. lia.
    - intros y Y. apply in_map_iff in Y as (x & <- & I). apply residues_in in I; [|assumption]. apply residues_in; [assumption|].
      pose proof (Z.mod_pos_bound (a * x) p ltac:(lia)) as B. assert ((a * x) mod p <> 0); [|lia].
      intros E. apply Z.mod_divide in E; [|lia]. apply prime_mult in E; [|assumption]. destruct E as [E|E]; [contradiction|].
      apply Z.divide_pos_le in E; lia. }
  pose proof (lprod_map_mod a p (residues p) ltac:(lia)) as E. rewrite (lprod_perm _ _ PM), residues_length in E by assumption.
  assert (D : (p | (a ^ (p - 1) - 1) * lprod (residues p))).
  { apply Z.mod_divide; [lia|]. rewrite Z.mul_sub_distr_r, Zminus_mod, <- E, Z.mul_1_l, Z.sub_diag. apply Z.mod_0_l. lia. }
  apply prime_mult in D; [|assumption]. destruct D as [[k D]|D].
  - replace (a ^ p) with (a + (k * a) * p).
    + apply Z.mod_add. lia.
    + replace p with (Z.succ (p - 1)) at 2 by lia. rewrite Z.pow_succ_r by lia. replace (a ^ (p - 1)) with (k * p + 1) by lia. ring.
  - exfalso. revert D. apply lprod_not_div; [assumption|]. intros x I D. apply residues_in in I; [|assumption].
    apply Z.divide_pos_le in D; lia.
Qed.
