(** Model of include/symxx/factorize.hpp (all citations are to that file), for a machine integer type T of [w] bits (AdapterModel.v).
    Not modelled: the SYMXX_ENABLE_HUGE branches (66-68, 78-87, 256-258, 271-276), which use std::log of a Huge.
    [i128] says whether SYMXX_ENABLE_INT128 is defined (it only adds larger thresholds).

    Random numbers: [rnd k] is the raw value of the k-th draw of the program; every function that draws takes the index of the
    next draw and returns the new one.  Theorems quantify over [rnd], i.e. over everything the generator can produce. *)
From Coq Require Import ZArith String Lia Bool List.
From Verif Require Import Base AdapterModel.
Import ListNotations.
Open Scope Z_scope.

(** 27-34 random_digit: a value in [a,b]; a > b violates the precondition of uniform_int_distribution *)
Definition random_digit (rnd : nat -> Z) (k : nat) (a b : Z) : res Z :=
  if b <? a then Ub "uniform_int_distribution with a > b" else Ok (a + rnd k mod (b - a + 1)).

(** 49-55: for (T i = 5; i < sqrt_n; i += 6).  The fuel is the number of rounds that can fit. *)
Fixpoint slow_loop (fuel : nat) (num i sqrt_n : Z) : bool :=
  match fuel with
  | O => true
  | S f => if i <? sqrt_n
           then if (num mod i =? 0) || (num mod (i + 2) =? 0) then false else slow_loop f num (i + 6) sqrt_n
           else true
  end.
(** 40-57 is_prime_slow_path.  Simplification: static_cast<T>(std::sqrt(num)) is the integer square root (true of a correctly
    rounded double square root for num < 2^52; the path is only taken below 100000). *)
Definition is_prime_slow_path (num : Z) : bool :=
  if num <? 2 then false
  else if (num =? 2) || (num =? 3) then true
  else if num mod 2 =? 0 then false
  else if num mod 3 =? 0 then false
  else if num <? 9 then true
  else let sqrt_n := Z.sqrt num + 1 in slow_loop (Z.to_nat sqrt_n) num 5 sqrt_n.

(** the trial divisors that occur at 145-148, 167-168, 174-180, 184, 188, 195-197 (n & 1 is n % 2) *)
Definition primes_to (b : Z) : list Z :=
  filter (fun p => p <=? b)
    [2; 3; 5; 7; 11; 13; 17; 19; 23; 29; 31; 37; 41; 43; 47; 53; 59; 61; 67; 71; 73; 79; 83; 89; 97; 101; 103].
Definition no_divisor_to (b n : Z) : bool := forallb (fun p => negb (n mod p =? 0)) (primes_to b).

(** 62-63 *)
Definition first_prime : list Z := [2; 3; 5; 7; 11; 13; 17; 19; 23; 29; 31; 37; 41; 43; 47; 53; 59; 61; 67; 71].
(** 77-141: the witness list for n >= 9006403 *)
Definition witnesses (i128 : bool) (n : Z) : list Z :=
  if i128 && (n >=? 1543267864443420616877677640751301) then firstn 20 first_prime
  else if i128 && (n >=? 564132928021909221014087501701) then firstn 18 first_prime
  else if i128 && (n >=? 59276361075595573263446330101) then firstn 16 first_prime
  else if i128 && (n >=? 6003094289670105800312596501) then firstn 15 first_prime
  else if i128 && (n >=? 3317044064679887385961981) then firstn 14 first_prime
  else if i128 && (n >=? 318665857834031151167461) then firstn 13 first_prime
  else if n >=? 3825123056546413051 then firstn 12 first_prime
  else if n >=? 341550071728321 then firstn 9 first_prime
  else if n >=? 3474749660383 then firstn 7 first_prime
  else if n >=? 2152302898747 then firstn 6 first_prime
  else if n >=? 4759123141 then firstn 5 first_prime
  else [2; 7; 61].

(** 203-209: n - 1 = 2^s * d *)
Fixpoint split2 (fuel : nat) (d : Z) (s : nat) : res (Z * nat) :=
  match fuel with
  | O => Fuel
  | S f => if Z.odd d then Ok (d, s) else split2 f (Z.shiftr d 1) (S s)
  end.

(** 230-239: for (T i = 0; i < s; ++i); the result is [!next] *)
Fixpoint mr_inner (w n : Z) (s : nat) (x : Z) : res bool :=
  match s with
  | O => Ok false
  | S s' =>
      x1 <- chk w (x + 1) ;;
      if x1 =? n then Ok true
      else x' <- adapter_mulmod w x x n ;; mr_inner w n s' x'
  end.
(** 210-250: [continue] when the power is 1, [break] (hence accept) as soon as one witness reaches n-1 *)
Fixpoint mr_loop (w n d : Z) (s : nat) (ws : list Z) : res bool :=
  match ws with
  | [] => Ok true
  | p :: ws' =>
      x <- adapter_modpow w p d n ;;
      if x =? 1 then mr_loop w n d s ws'
      else found <- mr_inner w n s x ;;
           if found : bool then Ok true else Ok false
  end.
Definition miller_rabin (w n : Z) (ws : list Z) : res bool :=
  '(d, s) <- split2 (bits_fuel n) (n - 1) 0 ;; mr_loop w n d s ws.

(** 153-162: p == 1 || p == nm1 *)
Definition euler_test (w a n : Z) : res bool :=
  p <- adapter_modpow w a (Z.shiftr n 1) n ;; Ok ((p =? 1) || (p =? n - 1))%bool.
(** 169-170, 180 *)
Definition fermat_test (w a n : Z) : res bool :=
  p <- adapter_modpow w a (n - 1) n ;; Ok (p =? 1).
(** short-circuit && *)
Definition andb_res (a b : res bool) : res bool := x <- a ;; if x : bool then b else Ok false.

(** 59-251 is_prime_fast_path with the witnesses [ws] used by the Miller-Rabin part. *)
Definition fast_path_with (w : Z) (n : Z) (ws : list Z) : res bool :=
  if n >=? 9006403 then
    if no_divisor_to 89 n then miller_rabin w n ws else Ok false                    (* 195-250 *)
  else if n >=? 489997 then                                                          (* 142-164 *)
    if no_divisor_to 101 n
    then andb_res (euler_test w 2 n) (andb_res (euler_test w 3 n) (euler_test w 5 n))
    else Ok false
  else if n >=? 42799 then                                                           (* 165-171 *)
    if no_divisor_to 43 n then andb_res (fermat_test w 2 n) (fermat_test w 5 n) else Ok false
  else if n >=? 841 then                                                             (* 172-181 *)
    if no_divisor_to 103 n then fermat_test w 2 n else Ok false
  else if n >=? 25 then Ok (no_divisor_to 23 n)                                      (* 182-185 *)
  else if n >=? 4 then Ok (no_divisor_to 3 n)                                        (* 186-189 *)
  else Ok (n >? 1).                                                                  (* 190-193 *)
(** use_probabilistic = false *)
Definition is_prime_fast_path (w : Z) (i128 : bool) (n : Z) : res bool := fast_path_with w n (witnesses i128 n).

(** 214-217: use_probabilistic = true replaces each witness by a draw from [2, n-3] *)
Fixpoint draws (rnd : nat -> Z) (k : nat) (n : Z) (len : nat) : list Z :=
  match len with O => [] | S l => (2 + rnd k mod (n - 3 - 2 + 1)) :: draws rnd (S k) n l end.
Definition is_prime_fast_path_prob (w : Z) (i128 : bool) (rnd : nat -> Z) (k : nat) (n : Z) : res bool :=
  fast_path_with w n (draws rnd k n (length (witnesses i128 n))).

(** 253-283 is_prime(n) (use_probabilistic = false, the default) *)
Definition is_prime (w : Z) (i128 : bool) (n : Z) : res bool :=
  if n <? 100000 then Ok (is_prime_slow_path n) else is_prime_fast_path w i128 n.
(** is_prime(n, true, tolerance) *)
Definition is_prime_prob (w : Z) (i128 : bool) (rnd : nat -> Z) (k : nat) (n : Z) : res bool :=
  if n <? 100000 then Ok (is_prime_slow_path n) else is_prime_fast_path_prob w i128 rnd k n.

(** ** Pollard_Rho (287-327) *)
(** 301-305 the lambda f *)
Definition rho_f (w c num x : Z) : res Z :=
  m <- adapter_mulmod w x x num ;; cm <- rem_w w c num ;; s <- chk w (m + cm) ;; rem_w w s num.
(** 309-317: at most 128 rounds; returns (t, r, p) *)
Fixpoint rho_inner (w c num : Z) (i : nat) (t r p : Z) : res (Z * Z * Z) :=
  match i with
  | O => Ok (t, r, p)
  | S i' =>
      t' <- rho_f w c num t ;;
      r1 <- rho_f w c num r ;;
      r' <- rho_f w c num r1 ;;
      if t' =? r' then Ok (t', r', p) else
      diff <- chk w (t' - r') ;;
      ad <- adapter_abs w diff ;;
      q <- adapter_mulmod w p ad num ;;
      if q =? 0 then Ok (t', r', p) else rho_inner w c num i' t' r' q
  end.
(** 307-323 do ... while (t != r): [Some d] is [return d], [None] means the loop ended without a divisor *)
Fixpoint rho_do (w c num : Z) (fuel : nat) (t r p : Z) : res (option Z) :=
  match fuel with
  | O => Fuel
  | S f =>
      '(t', r', p') <- rho_inner w c num 128 t r p ;;
      d <- adapter_gcd w p' num ;;
      if d >? 1 then Ok (Some d)
      else if t' =? r' then Ok None else rho_do w c num f t' r' p'
  end.
(** 298-324 while (true); each round draws one number *)
Fixpoint rho_while (w num : Z) (rnd : nat -> Z) (fuel : nat) (k : nat) : res (Z * nat) :=
  match fuel with
  | O => Fuel
  | S f =>
      c <- random_digit rnd k 1 (num - 2) ;;
      o <- rho_do w c num fuel 0 0 1 ;;
      match o with
      | Some d => Ok (d, S k)
      | None => rho_while w num rnd f (S k)
      end
  end.
(** 287-297: returns the divisor and the index of the next draw *)
Definition pollard_rho (w : Z) (i128 : bool) (rnd : nat -> Z) (fuel : nat) (num : Z) (k : nat) : res (Z * nat) :=
  if num =? 4 then Ok (2, k) else
  b <- is_prime w i128 num ;;
  if b : bool then Ok (num, k) else rho_while w num rnd fuel k.

(** ** factorize (330-353); std::multiset<T> is an ascending list *)
Fixpoint ms_insert (x : Z) (l : list Z) : list Z :=
  match l with
  | [] => [x]
  | y :: l' => if x <? y then x :: l else y :: ms_insert x l'
  end.
Fixpoint factorize (w : Z) (i128 : bool) (rnd : nat -> Z) (fuel : nat) (n : Z) (ret : list Z) (k : nat) : res (list Z * nat) :=
  match fuel with
  | O => Fuel
  | S f =>
      if n =? 1 then Ok (ret, k) else
      '(fac, k) <- pollard_rho w i128 rnd f n k ;;
      n' <- quot_w w n fac ;;
      b <- is_prime w i128 fac ;;
      '(ret, k) <- (if b : bool then Ok (ms_insert fac ret, k) else factorize w i128 rnd f fac ret k) ;;
      b <- is_prime w i128 n' ;;
      (if b : bool then Ok (ms_insert n' ret, k) else factorize w i128 rnd f n' ret k)
  end.
