(** Loops over containers again, with positions: where the other models take a list apart, here every iterator is a position in its container.
    Moving an iterator before the first or behind the end, and dereferencing or erasing the end, is undefined: [Outside] (ScanModel.v).
    The vector and the map of a loop are never touched through another iterator than the one of the loop, and [erase] returns the iterator that replaces it, so a position says all there is to say
    about an iterator.  A std::map or std::multiset is the list of its entries in order. *)
From Coq Require Import ZArith String Ascii Lia Bool List.
From Verif Require Import Base AdapterModel HugeModel RationalModel RealModel PolyModel ScanModel DtoaModel.
Import ListNotations.
Open Scope Z_scope.

(** ++it, it + 1, std::next(it) for a container of n elements; --it; *it; c.erase(it): the rest and the position behind the erased element; *it = a *)
Definition next_it (n i : nat) : scan nat := if (i <? n)%nat then ret (S i) else Outside.
Definition prev_it (i : nat) : scan nat := match i with O => Outside | S k => ret k end.
Definition deref {A} (l : list A) (i : nat) : scan A := match nth_error l i with Some a => ret a | None => Outside end.
Definition erase_it {A} (l : list A) (i : nat) : scan (list A * nat) := if (i <? length l)%nat then ret (firstn i l ++ skipn (S i) l, i) else Outside.
Definition store_it {A} (l : list A) (i : nat) (a : A) : scan (list A) := if (i <? length l)%nat then ret (firstn i l ++ a :: skipn (S i) l) else Outside.
(** it + k for any k *)
Definition plus_it (n : nat) (i k : Z) : scan nat := if ((0 <=? i + k) && (i + k <=? Z.of_nat n))%bool then ret (Z.to_nat (i + k)) else Outside.

(** frac.hpp 627-639: the second loop of Poly::normalize *)
Fixpoint merge_at (fuel : nat) (E : env) (l : poly) (it : nat) : scan poly :=
  match fuel with
  | O => Scan Fuel
  | S f =>
      if (it <? length l)%nat then
        j <~ next_it (length l) it ;;
        e <~ (if (j <? length l)%nat then a <~ deref l it ;; j <~ next_it (length l) it ;; b <~ deref l j ;; Scan (term_equivalent (ew E) a b) else ret false) ;;
        if e : bool then
          a <~ deref l it ;; j <~ next_it (length l) it ;; b <~ deref l j ;;
          c <~ Scan (real_add E (tco a) (tco b)) ;; t <~ Scan (term_make (ew E) c (syms a)) ;;
          l <~ store_it l it t ;;
          j <~ next_it (length l) it ;; '(l, it) <~ erase_it l j ;;
          it <~ prev_it it ;; merge_at f E l it
        else it <~ next_it (length l) it ;; merge_at f E l it
      else ret l
  end.
Definition normalize_at (P : penv) (l : poly) : scan poly := s <~ Scan (psort P l) ;; merge_at (S (S (length s))) (pe P) s 0.
(** frac.hpp 216-225 Term::normalize *)
Fixpoint drop_at (fuel : nat) (w : Z) (m : smap) (it : nat) : scan smap :=
  match fuel with
  | O => Scan Fuel
  | S f =>
      if (it =? length m)%nat then ret m else
        e <~ deref m it ;; z <~ Scan (rat_eq w (snd e) (Rat 0 1)) ;;
        if z : bool then '(m, it) <~ erase_it m it ;; drop_at f w m it else it <~ next_it (length m) it ;; drop_at f w m it
  end.
Definition term_normalize_at (w : Z) (t : term) : scan term := s <~ drop_at (S (length (syms t))) w (syms t) 0 ;; ret (Term (tco t) s).
(** std::map::find: the position of the key, or the end *)
Fixpoint find_at {K V} (eqb : K -> K -> bool) (k : K) (m : list (K * V)) : nat :=
  match m with [] => O | (k', _) :: m' => if eqb k k' then O else S (find_at eqb k m') end.
(** frac.hpp 57-75 Term::substitute *)
Fixpoint subst_coe_at (E : env) (e : envmap) (m : smap) (c : real) : scan real :=
  match m with
  | [] => ret c
  | (k, q) :: m' =>
      let it := find_at String.eqb k e in
      if (it =? length e)%nat then subst_coe_at E e m' c
      else v <~ deref e it ;; p <~ Scan (real_pow E (snd v) q) ;; c' <~ Scan (real_mul E c p) ;; subst_coe_at E e m' c'
  end.
Fixpoint subst_erase_at (e : envmap) (m : smap) : scan smap :=
  match e with
  | [] => ret m
  | (k, _) :: e' =>
      let it := find_at String.eqb k m in
      if (it =? length m)%nat then subst_erase_at e' m else '(m, _) <~ erase_it m it ;; subst_erase_at e' m
  end.
Definition term_subst_at (E : env) (e : envmap) (t : term) : scan term :=
  c <~ subst_coe_at E e (syms t) (tco t) ;; m <~ subst_erase_at e (syms t) ;; ret (Term c m).
(** frac.hpp 110-117 Term::operator*=: the symbols of the argument (another object; C79 for the same one) *)
Fixpoint merge_syms_at (w : Z) (b a : smap) : scan smap :=
  match b with
  | [] => ret a
  | (k, q) :: b' =>
      let it := find_at String.eqb k a in
      if (it =? length a)%nat then merge_syms_at w b' (sinsert k q a)
      else e <~ deref a it ;; q1 <~ Scan (rat_add w (snd e) q) ;; a <~ store_it a it (fst e, q1) ;; merge_syms_at w b' a
  end.
(** num.hpp 347-376 decompose_radicand, from the sorted factors.  ret.insert puts the new entry in order *)
Fixpoint insert_entry (e : Z) (v : list Z) (m : list (Z * list Z)) : list (Z * list Z) :=
  match m with [] => [(e, v)] | (k, u) :: m' => if e <? k then (e, v) :: m else (k, u) :: insert_entry e v m' end.
Fixpoint decompose_at (fuel : nat) (factors : list Z) (it : nat) (exp : Z) (m : list (Z * list Z)) : scan (list (Z * list Z)) :=
  match fuel with
  | O => Scan Fuel
  | S f =>
      if (it =? length factors)%nat then ret m else
        nit <~ next_it (length factors) it ;;
        same <~ (if (nit =? length factors)%nat then ret false else x <~ deref factors it ;; y <~ deref factors nit ;; ret (x =? y)) ;;
        '(exp, m) <~ (if same : bool then ret (exp + 1, m) else
                      let itr := find_at Z.eqb exp m in
                      m <~ (if (itr =? length m)%nat then x <~ deref factors it ;; ret (insert_entry exp [x] m)
                            else r <~ deref m itr ;; x <~ deref factors it ;; store_it m itr (fst r, snd r ++ [x])) ;;
                      ret (1, m)) ;;
        it <~ next_it (length factors) it ;; decompose_at f factors it exp m
  end.
(** dtoa.hpp 543-581 prettify_string: the ranges of buffer *)
Definition range_at (s : text) (a b : nat) : scan text := if (a <=? b)%nat then ret (firstn (b - a) (skipn a s)) else Outside.
Definition prettify_at (buffer : text) (k : Z) : scan text :=
  let nb_digits := Z.of_nat (length buffer) in
  let kk := nb_digits + k in
  if ((nb_digits <=? kk) && (kk <=? 21))%bool then z <~ Scan (zeros (kk - 1)) ;; ret (buffer ++ z ++ list_ascii_of_string ".0")
  else if ((0 <? kk) && (kk <=? 21))%bool then
    i <~ plus_it (length buffer) 0 kk ;; a <~ range_at buffer 0 i ;; i <~ plus_it (length buffer) 0 kk ;; b <~ range_at buffer i (length buffer) ;; ret (a ++ list_ascii_of_string "." ++ b)
  else if ((-6 <? kk) && (kk <=? 0))%bool then z <~ Scan (zeros (- kk)) ;; ret (list_ascii_of_string "0." ++ z ++ buffer)
  else if nb_digits =? 1 then ret (fill_exponent (kk - 1) (buffer ++ list_ascii_of_string "e"))
  else
    c <~ read buffer 0 ;; i <~ plus_it (length buffer) 0 1 ;; j <~ plus_it (length buffer) 0 nb_digits ;; r <~ range_at buffer i j ;;
    ret (fill_exponent (kk - 1) ([c] ++ list_ascii_of_string "." ++ r ++ list_ascii_of_string "e")).
