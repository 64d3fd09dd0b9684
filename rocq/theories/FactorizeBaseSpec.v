(** The bases of the Miller-Rabin part of is_prime, as published: psi_k is the least composite that passes the strong test to the first k primes
    (OEIS A014233 and its conjectured continuation). *)
From Coq Require Import ZArith List.
Import ListNotations.
Open Scope Z_scope.

Definition primes_below_73 : list Z := [2; 3; 5; 7; 11; 13; 17; 19; 23; 29; 31; 37; 41; 43; 47; 53; 59; 61; 67; 71].
Definition psi_64 : list (nat * Z) := [(5%nat, 2152302898747); (6%nat, 3474749660383); (7%nat, 341550071728321); (9%nat, 3825123056546413051)].
Definition psi_128 : list (nat * Z) := psi_64 ++
  [(12%nat, 318665857834031151167461); (13%nat, 3317044064679887385961981); (14%nat, 6003094289670105800312596501); (15%nat, 59276361075595573263446330101);
   (16%nat, 564132928021909221014087501701); (18%nat, 1543267864443420616877677640751301)].
(** the first k primes for the first k with n < psi_k *)
Fixpoint count_for (table : list (nat * Z)) (last : nat) (n : Z) : nat :=
  match table with [] => last | (k, psi) :: t => if n <? psi then k else count_for t last n end.
Definition bases (i128 : bool) (n : Z) : list Z :=
  if n <? 4759123141 then [2; 7; 61]
  else firstn (if i128 then count_for psi_128 20 n else count_for psi_64 12 n) primes_below_73.
(** n - 1 = d 2^s: n passes the strong test to base a *)
Definition passes (n d : Z) (s : nat) (a : Z) : Prop := a ^ d mod n = 1 \/ exists j, (j < s)%nat /\ a ^ (d * 2 ^ Z.of_nat j) mod n = n - 1.
