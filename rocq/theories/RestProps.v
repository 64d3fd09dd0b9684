(** C84: Term::operator<.  Vocabulary: RestSpec.v ([degree], [less], [strict_partial_order]), SortSpec.v ([plain_term], [strict_weak_ordering]). *)
From Coq Require Import ZArith QArith Reals String Ascii Lia Bool List.
From Verif Require Import Base AdapterModel RationalModel RationalSpec RealModel RealSpec PolyModel PolySpec SortSpec SortProofs RestModel RestSpec RestProofs.
Import ListNotations.
Open Scope Z_scope.

(** what it decides *)
Theorem C84_less w a b t : 1 < w -> plain_term w a -> plain_term w b -> term_lt w a b = Ok t -> (t = true <-> less a b).
Proof. exact (less_value w a b t). Qed.
(** that is a strict partial order *)
Theorem C84_partial_order w : 1 < w ->
  (forall a, plain_term w a -> term_lt w a a <> Ok true) /\
  (forall a b, plain_term w a -> plain_term w b -> term_lt w a b = Ok true -> term_lt w b a <> Ok true) /\
  (forall a b c, plain_term w a -> plain_term w b -> plain_term w c -> term_lt w a b = Ok true -> term_lt w b c = Ok true -> term_lt w a c <> Ok false).
Proof. exact (less_partial_order w). Qed.
(** two terms of different degree, neither of them 0, are never ordered, whatever the degrees (the last line of the function is never reached) *)
Theorem C84_degrees_ignored w a b t : 1 < w -> plain_term w a -> plain_term w b -> ~ (degree a == degree b)%Q -> ~ (degree b == 0)%Q -> term_lt w a b = Ok t -> t = false.
Proof.
  intros Hw A B N Z H. apply C84_less in H; try assumption. destruct t; [|reflexivity]. destruct (proj1 H eq_refl) as [[X _]|[_ X]]; contradiction.
Qed.

Local Definition x (n e : Z) : term := Term (Real 1 (Rat 1 1) (Rat n 1)) [("x"%string, Rat e 1)].
Local Lemma plain_x n e : e <> 0 -> 0 < Z.abs n < 100 -> plain_term 64 (x n e).
Proof.
  intros E N. split; [split; [unfold good; cbn; unfold wf; cbn; repeat split; lia|split; [repeat constructor; cbn; auto|repeat constructor; unfold lowest_terms; cbn; apply Z.gcd_1_r]]|].
  split; [|cbn; lia]. exists 1. cbn [x tco rad idx coe num den]. repeat split; try lia.
  - intros p P X. apply Znumtheory.prime_ge_2 in P. rewrite Z.pow_1_r in X. apply Z.divide_1_r_nonneg in X; lia.
  - intros d k D X. apply Z.divide_1_r_nonneg in X; lia.
Qed.
(** so it is no order to sort by: x^2 is level with x and with 2x, but x is less than 2x *)
Theorem C84_weak_refuted : ~ strict_weak_ordering (plain_term 64) (term_lt 64).
Proof.
  intros (_ & _ & _ & W). destruct (W (x 1 1) (x 1 2) (x 2 1)) as [X _]; try (apply plain_x; lia); try (vm_compute; reflexivity). apply X. vm_compute. reflexivity.
Qed.
(** x is less than 5, and less than -5; x/y counts as a number *)
Theorem C84_constants_last : term_lt 64 (x 1 1) (Term (Real 1 (Rat 1 1) (Rat (-5) 1)) []) = Ok true /\
  term_lt 64 (x 1 1) (Term (Real 1 (Rat 1 1) (Rat 1 1)) [("x"%string, Rat 1 1); ("y"%string, Rat (-1) 1)]) = Ok true.
Proof. vm_compute. auto. Qed.
Example C84_ex : plain_term 64 (x 1 1) /\ plain_term 64 (x 2 1) /\ term_lt 64 (x 1 1) (x 2 1) = Ok true /\ term_lt 64 (x 2 1) (x 1 1) = Ok false /\ term_lt 64 (x 1 1) (x 1 2) = Ok false /\ ~ (degree (x 1 1) == degree (x 1 2))%Q.
Proof. split; [apply plain_x; lia|]. split; [apply plain_x; lia|]. vm_compute. intuition discriminate. Qed.

Print Assumptions C84_less.
Print Assumptions C84_partial_order.
Print Assumptions C84_degrees_ignored.
Print Assumptions C84_weak_refuted.
Print Assumptions C84_constants_last.
