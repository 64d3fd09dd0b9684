(** Exceptions of Rational and Real. *)
From Coq Require Import ZArith String Ascii Lia Bool List.
From Verif Require Import Base AdapterModel AdapterProofs RationalModel RationalProofs RealModel PolyModel ExprModel CliModel ErrSpec.
Import ListNotations.
Open Scope Z_scope.

(** a result in Q, or an exception with a message in B *)
Definition outcome {A} (B : string -> Prop) (Q : A -> Prop) (r : res A) : Prop :=
  match r with Ok x => Q x | Throw m => B m | _ => True end.
Definition err (m : string) : Prop := is_std m = false.
Definition any {A} (x : A) : Prop := True.

Lemma o_bind {A B} X (Q : A -> Prop) (R : B -> Prop) (r : res A) (f : A -> res B) :
  outcome X Q r -> (forall x, Q x -> outcome X R (f x)) -> outcome X R (bind r f).
Proof. destruct r; cbn [outcome bind]; auto. Qed.
Lemma o_weak {A} X (Q R : A -> Prop) (r : res A) : outcome X Q r -> (forall x, Q x -> R x) -> outcome X R r.
Proof. destruct r; cbn [outcome]; auto. Qed.
Lemma o_of_ok {A} X (Q R : A -> Prop) (r : res A) : outcome X Q r -> (forall x, r = Ok x -> R x) -> outcome X R r.
Proof. destruct r; cbn [outcome]; auto. Qed.
Lemma o_err {A} (Q : A -> Prop) (r : res A) : outcome err Q r -> only_errors r.
Proof. destruct r; cbn [outcome]; intros H m' E; try discriminate. inversion E; subst; exact H. Qed.
Lemma o_none {A} (Q : A -> Prop) (r : res A) : outcome (fun _ => False) Q r -> no_exception r.
Proof. destruct r; cbn [outcome]; intros H m' E; try discriminate. exact H. Qed.
Lemma o_any {A} X (Q : A -> Prop) (r : res A) : outcome X Q r -> outcome X any r.
Proof. intros H. eapply o_weak; [exact H|]. intros; exact I. Qed.
Lemma o_no_exception {A} X (r : res A) : no_exception r -> outcome X any r.
Proof. intros H. destruct r; cbn [outcome]; try exact I. exfalso. exact (H msg eq_refl). Qed.

Lemma o_chk X w x : outcome X (eq x) (chk w x).
Proof. unfold chk. destruct (in_range w x); cbn; auto. Qed.
Lemma o_quot X w a b : outcome X (fun q => b <> 0 /\ q = Z.quot a b) (quot_w w a b).
Proof. unfold quot_w. destruct (Z.eqb_spec b 0); cbn [outcome]; auto. eapply o_weak; [apply o_chk|]. intros; subst; auto. Qed.
Lemma o_abs X w a : outcome X any (adapter_abs w a).
Proof. eapply o_any, o_chk. Qed.
Lemma o_gcd X w a b : outcome X (eq (Z.gcd a b)) (adapter_gcd w a b).
Proof. unfold adapter_gcd. do 2 (eapply o_bind; [apply o_chk|intros ? _]). reflexivity. Qed.
Lemma o_lcm X w a b : outcome X (eq (Z.lcm a b)) (adapter_lcm w a b).
Proof. unfold adapter_lcm. do 2 (eapply o_bind; [apply o_chk|intros ? _]). apply o_chk. Qed.

Create HintDb calm.
#[export] Hint Resolve o_chk o_quot o_abs o_gcd o_lcm : calm.
Ltac step := match goal with
  | |- outcome _ _ (bind _ _) => eapply o_bind; [solve [eauto with calm]|intros ? ?]
  | |- outcome _ _ (if ?b then _ else _) => destruct b eqn:?
  | |- outcome _ _ (Ok _) => cbn [outcome]
  end.

Lemma sane1 : sane_rat (Rat 1 1). Proof. cbn. discriminate. Qed.
Lemma sane_int n : sane_rat (Rat n 1). Proof. cbn. discriminate. Qed.
#[export] Hint Resolve sane1 sane_int : calm.
Lemma o_norm0 X w r : outcome X any (rat_normalize w r).
Proof. unfold rat_normalize. repeat step; exact I. Qed.
Lemma o_normalize X w r : sane_rat r -> outcome X sane_rat (rat_normalize w r).
Proof. intros S. eapply o_of_ok; [apply o_norm0|]. intros x E. exact (proj1 (rat_normalize_val _ _ _ E S)). Qed.
Lemma o_make X w n d : d <> 0 -> outcome X sane_rat (rat_make w n d).
Proof. intros S. unfold rat_make. destruct (Z.eqb_spec d 0); [lia|]. apply o_normalize. exact S. Qed.
Lemma o_make_err w n d : outcome err sane_rat (rat_make w n d).
Proof. unfold rat_make. destruct (Z.eqb_spec d 0); [reflexivity|]. apply o_normalize. assumption. Qed.
Lemma o_of_int X w n : outcome X sane_rat (rat_of_int w n).
Proof. apply o_normalize, sane_int. Qed.
Lemma o_of_int_nz X w n : n <> 0 -> outcome X (fun q => sane_rat q /\ num q <> 0) (rat_of_int w n).
Proof.
  intros N. eapply o_of_ok; [apply o_of_int|]. intros x E. unfold rat_of_int in E. destruct (rat_normalize_val _ _ _ E (sane_int n)) as [S V]. cbn [num den] in V.
  split; [exact S|]. intros Z0. rewrite Z0 in V. assert (n * den x <> 0) by (apply Z.neq_mul_0; split; [exact N|exact S]). lia.
Qed.
Lemma o_add X w a b : sane_rat a -> sane_rat b -> outcome X sane_rat (rat_add w a b).
Proof.
  intros SA SB. eapply o_of_ok with (Q := any).
  - unfold rat_add. repeat step. eapply o_norm0.
  - intros x E. exact (proj1 (rat_add_exact _ _ _ _ SA SB E)).
Qed.
Lemma o_negate X w a : sane_rat a -> outcome X sane_rat (rat_negate w a).
Proof. intros S. unfold rat_negate. step. apply o_make. exact S. Qed.
Lemma o_mul X w a b : sane_rat a -> sane_rat b -> outcome X sane_rat (rat_mul w a b).
Proof.
  intros SA SB. unfold rat_mul. do 5 step. eapply o_bind; [apply o_quot|intros d1 [G2 ->]]. eapply o_bind; [apply o_quot|intros d2 [G1 ->]].
  eapply o_bind; [apply o_chk|intros d Ed]. destruct (Z.eqb_spec d 0) as [Z0|NZ]; cbn [outcome]; [|exact NZ]. exfalso.
  assert (Q : forall p g, g <> 0 -> (g | p) -> p <> 0 -> Z.quot p g <> 0).
  { intros p g Hg Hd Hp HZ. pose proof (quot_exact p g Hg Hd). nia. }
  assert (D1 : Z.quot (den a) x0 <> 0). { apply Q; [exact G2| |exact SA]. match goal with H : Z.gcd _ (den a) = x0 |- _ => rewrite <- H end. apply Z.gcd_divide_r. }
  assert (D2 : Z.quot (den b) x <> 0). { apply Q; [exact G1| |exact SB]. match goal with H : Z.gcd _ (den b) = x |- _ => rewrite <- H end. apply Z.gcd_divide_r. }
  rewrite Z0 in Ed. apply Z.mul_eq_0 in Ed. tauto.
Qed.
Lemma o_inverse w a : outcome err sane_rat (rat_inverse w a).
Proof. apply o_make_err. Qed.
Lemma o_inverse_nz X w a : num a <> 0 -> outcome X sane_rat (rat_inverse w a).
Proof. apply o_make. Qed.
Lemma o_div w a b : sane_rat a -> outcome err sane_rat (rat_div w a b).
Proof. intros S. unfold rat_div. eapply o_bind; [apply o_inverse|]. intros. apply o_mul; assumption. Qed.
Lemma o_div_nz X w a b : sane_rat a -> num b <> 0 -> outcome X sane_rat (rat_div w a b).
Proof. intros S N. unfold rat_div. eapply o_bind; [apply o_inverse_nz, N|]. intros. apply o_mul; assumption. Qed.
Lemma o_cmp X w a b : outcome X any (rat_cmp w a b). Proof. unfold rat_cmp. repeat step. exact I. Qed.
Lemma o_eq X w a b : outcome X any (rat_eq w a b). Proof. unfold rat_eq. repeat step. exact I. Qed.
Lemma o_ne X w a b : outcome X any (rat_ne w a b). Proof. unfold rat_ne. repeat step. exact I. Qed.
#[export] Hint Resolve o_normalize o_of_int o_add o_negate o_mul o_cmp o_eq o_ne o_inverse o_div : calm.
Lemma o_lt X w a b : outcome X any (rat_lt w a b). Proof. unfold rat_lt. repeat step. exact I. Qed.
Lemma o_gt X w a b : outcome X any (rat_gt w a b). Proof. unfold rat_gt. repeat step. exact I. Qed.
Lemma o_le X w a b : outcome X any (rat_le w a b). Proof. unfold rat_le. repeat step. exact I. Qed.
Lemma o_ge X w a b : outcome X any (rat_ge w a b). Proof. unfold rat_ge. repeat step. exact I. Qed.
Lemma o_to_t X w a : outcome X any (rat_to_t w a). Proof. eapply o_any, o_quot. Qed.
#[export] Hint Resolve o_lt o_gt o_le o_ge o_to_t : calm.

Lemma o_dpow X b e : outcome X (fun x => b <> 0 -> x <> 0) (dpow b e).
Proof.
  unfold dpow. destruct ((0 <=? e) && fits53 b && fits53 e && fits53 (b ^ e))%bool eqn:C; cbn [outcome]; auto. intros N.
  assert (0 <= e) by (destruct (Z.leb_spec 0 e); [assumption|discriminate C]). apply Z.pow_nonzero; assumption.
Qed.
Lemma o_pow_cast X w b n d : outcome X (fun x => b <> 0 -> x <> 0) (pow_cast w b n d).
Proof.
  unfold pow_cast. destruct (d =? 0); [exact I|]. destruct (fits53 n && fits53 d && (n mod d =? 0))%bool; [|exact I].
  eapply o_bind; [apply o_dpow|]. intros x H. eapply o_weak; [apply o_chk|]. intros; subst; auto.
Qed.
Lemma o_rpow X w r p : sane_rat r -> outcome X sane_rat (rpow w r p).
Proof.
  intros S. unfold rpow, rat_pow. step. destruct x; [apply o_of_int|]. step. destruct x; [exact S|].
  eapply o_bind; [apply o_pow_cast|intros n _]. eapply o_bind; [apply o_pow_cast|intros d N]. apply o_normalize. exact (N S).
Qed.
Lemma o_pow_rat X w b e : outcome X sane_rat (pow_rat w b e).
Proof. unfold pow_rat. eapply o_bind; [apply o_dpow|intros]. step. apply o_of_int. Qed.
Lemma o_div_pow X w x b e : outcome X any (div_pow w x b e).
Proof. unfold div_pow. eapply o_bind; [apply o_dpow|intros p _]. destruct (fits53 x && negb (p =? 0) && (x mod p =? 0))%bool; [eapply o_any, o_chk|exact I]. Qed.
Lemma o_mul_pow X w x b e : outcome X any (mul_pow w x b e).
Proof. unfold mul_pow. eapply o_bind; [apply o_dpow|intros p _]. destruct (fits53 x && fits53 (x * p))%bool; [eapply o_any, o_chk|exact I]. Qed.
#[export] Hint Resolve o_rpow o_pow_rat o_div_pow o_mul_pow : calm.

Definition fac_calm (E : env) : Prop := forall n, no_exception (efac E n).
Lemma o_decompose X E n : fac_calm E -> outcome X any (decompose E n).
Proof. intros F. unfold decompose. destruct (n <=? 2 ^ (ew E - 2)); [|exact I]. eapply o_bind; [apply o_no_exception, F|]. intros; exact I. Qed.
Lemma o_pull_vals X w i vs : forall st, sane_rat (snd st) -> outcome X (fun st => sane_rat (snd st)) (pull_vals w i vs st).
Proof. induction vs as [|v vs IH]; intros [r c] S; cbn [pull_vals]; [exact S|]. repeat step. apply IH. assumption. Qed.
Lemma o_pull_exp X w i vs fuel : forall e st, sane_rat (snd st) -> outcome X (fun st => sane_rat (snd st)) (pull_exp w i fuel e vs st).
Proof.
  induction fuel as [|f IH]; intros e st S; cbn [pull_exp]; (destruct (e <? i); [exact S|]); [exact I|].
  eapply o_bind; [apply o_pull_vals, S|]. intros; apply IH; assumption.
Qed.
Lemma o_pull_all X w i m : forall st, sane_rat (snd st) -> outcome X (fun st => sane_rat (snd st)) (pull_all w i m st).
Proof. induction m as [|[e vs] m IH]; intros st S; cbn [pull_all]; [exact S|]. eapply o_bind; [apply o_pull_exp, S|]. intros; apply IH; assumption. Qed.
Lemma o_mul_vals X w e vs : forall r, outcome X any (mul_vals w e vs r).
Proof. induction vs as [|v vs IH]; intros r; cbn [mul_vals]; [exact I|]. step. apply IH. Qed.
Lemma o_mul_all X w g m : forall r, outcome X any (mul_all w g m r).
Proof. induction m as [|[e vs] m IH]; intros r; cbn [mul_all]; [exact I|]. eapply o_bind; [apply o_mul_vals|]. intros; apply IH. Qed.
#[export] Hint Resolve o_decompose o_pull_all o_mul_all : calm.

Lemma o_real_normalize X E x : fac_calm E -> sane_real x -> outcome X sane_real (real_normalize E x).
Proof.
  intros F [SC SR]. unfold real_normalize.
  eapply o_bind with (Q := fun p : rat * rat => sane_rat (fst p) /\ sane_rat (snd p)).
  { destruct (is_int (rad x)); [split; assumption|].
    eapply o_bind; [apply o_of_int_nz, SR|intros d [Sd Nd]]. eapply o_bind; [apply o_div_nz; assumption|intros c Sc]. repeat step. split; assumption. }
  intros [c rd] [Sc Sr]. cbn [fst snd] in *. step. eapply o_bind; [apply o_pull_all; exact Sc|]. intros [r c'] Sc'. cbn [snd] in Sc'.
  eapply o_bind with (Q := fun p : rat * list (Z * list Z) => sane_rat (fst p)).
  { destruct (r =? num rd); [exact Sr|]. repeat step. exact Sr. }
  intros [rd' m'] Sr'. cbn [fst] in Sr'.
  eapply o_bind with (Q := fun p : Z * rat => sane_rat (snd p)).
  { match goal with |- context [if ?b then Ok (idx x, rd') else _] => destruct b end; [exact Sr'|].
    match goal with |- context [if ?b then Ub _ else _] => destruct b end; [exact I|]. repeat step. assumption. }
  intros [i' rd''] Sr''. cbn [snd] in Sr''. do 2 step. destruct x2; cbn [outcome]; split; cbn [coe rad]; auto using sane1.
Qed.
Lemma o_real_make X E c r i : fac_calm E -> sane_rat c -> sane_rat r -> outcome X sane_real (real_make E c r i).
Proof. intros F Sc Sr. apply o_real_normalize; [exact F|split; assumption]. Qed.
Lemma o_real_of_int X E n : fac_calm E -> outcome X sane_real (real_of_int E n).
Proof. intros F. unfold real_of_int. step. apply o_real_make; auto using sane1. Qed.
Lemma o_real_of_rat X E c : fac_calm E -> sane_rat c -> outcome X sane_real (real_of_rat E c).
Proof. intros F S. apply o_real_make; auto using sane1. Qed.
#[export] Hint Resolve o_real_normalize o_real_make o_real_of_int o_real_of_rat : calm.
Lemma o_is_equivalent X w a b : outcome X any (is_equivalent w a b).
Proof. unfold is_equivalent. repeat step; exact I. Qed.
#[export] Hint Resolve o_is_equivalent : calm.
Lemma o_real_add E a b : fac_calm E -> sane_real a -> sane_real b -> outcome err sane_real (real_add E a b).
Proof. intros F [A1 A2] [B1 B2]. unfold real_add. step. destruct x; [|reflexivity]. step. apply o_real_normalize; [exact F|split; assumption]. Qed.
Lemma o_real_negate X E a : fac_calm E -> sane_real a -> outcome X sane_real (real_negate E a).
Proof. intros F [A1 A2]. unfold real_negate. step. apply o_real_make; assumption. Qed.
#[export] Hint Resolve o_real_add o_real_negate : calm.
Lemma o_real_sub E a b : fac_calm E -> sane_real a -> sane_real b -> outcome err sane_real (real_sub E a b).
Proof. intros F A B. unfold real_sub. repeat step. apply o_real_normalize; assumption. Qed.
Lemma o_ulcm X w a b : outcome X any (ulcm w a b). Proof. unfold ulcm. destruct (Z.lcm a b <? 2 ^ w); exact I. Qed.
Lemma o_uquot X a b : outcome X any (uquot a b). Proof. unfold uquot. destruct (b =? 0); exact I. Qed.
Lemma o_of_index X w n : outcome X sane_rat (rat_of_index w n). Proof. apply o_of_int. Qed.
#[export] Hint Resolve o_real_sub o_ulcm o_uquot o_of_index : calm.
Lemma o_real_mul X E a b : fac_calm E -> sane_real a -> sane_real b -> outcome X sane_real (real_mul E a b).
Proof. intros F [A1 A2] [B1 B2]. unfold real_mul. repeat step. apply o_real_normalize; [exact F|split; assumption]. Qed.
Lemma o_real_inverse w a : outcome err sane_real (real_inverse w a).
Proof. unfold real_inverse. repeat step. split; assumption. Qed.
#[export] Hint Resolve o_real_mul o_real_inverse : calm.
Lemma o_real_div E a b : fac_calm E -> sane_real a -> outcome err sane_real (real_div E a b).
Proof. intros F A. unfold real_div. repeat step. apply o_real_mul; assumption. Qed.
Lemma o_real_pow_pos X E a p : fac_calm E -> sane_real a -> outcome X sane_real (real_pow_pos E a p).
Proof.
  intros F [A1 A2]. unfold real_pow_pos. destruct (is_int p).
  - repeat step. apply o_real_normalize; [exact F|split; assumption].
  - do 3 step. eapply o_bind; [apply o_real_make; auto using sane1|intros b Sb]. 
    eapply o_bind; [apply o_real_mul; [exact F|split; auto using sane1|exact Sb]|intros y Sy]. apply o_real_normalize; assumption.
Qed.
Lemma o_real_pow E a p : fac_calm E -> sane_real a -> sane_rat p -> outcome err sane_real (real_pow E a p).
Proof.
  unfold real_pow. generalize 3%nat as fuel. intros fuel F. revert a p. induction fuel as [|f IH]; intros a p SA SP; cbn [real_pow_fuel]; [exact I|].
  step. destruct x; [apply o_real_of_int, F|]. step. destruct x; [exact SA|]. step. destruct x; [|apply o_real_pow_pos; assumption].
  repeat step. apply IH; assumption.
Qed.
#[export] Hint Resolve o_real_div o_real_pow_pos o_real_pow : calm.
Lemma o_real_eq X w a b : outcome X any (real_eq w a b).
Proof. unfold real_eq. step. destruct (negb x); [exact I|]. repeat step. exact I. Qed.
#[export] Hint Resolve o_real_eq : calm.
Lemma o_real_ne X w a b : outcome X any (real_ne w a b). Proof. unfold real_ne. repeat step. exact I. Qed.
Lemma o_power_form X w c r ij j : sane_rat c -> sane_rat r -> outcome X sane_rat (power_form w c r ij j).
Proof. intros C R. unfold power_form. repeat step. apply o_mul; assumption. Qed.
#[export] Hint Resolve o_real_ne o_power_form : calm.
Lemma o_real_lt X w a b : sane_real a -> sane_real b -> outcome X any (real_lt w a b).
Proof.
  intros [A1 A2] [B1 B2]. unfold real_lt. step. destruct x; [exact I|]. repeat step; try exact I; apply o_gt || apply o_lt.
Qed.
#[export] Hint Resolve o_real_lt : calm.
Lemma o_real_gt X w a b : sane_real a -> sane_real b -> outcome X any (real_gt w a b).
Proof. intros A B. unfold real_gt. step. destruct x; [exact I|]. repeat step. exact I. Qed.
Lemma o_is_rational X w a : outcome X any (is_rational w a).
Proof. unfold is_rational. step. destruct x; [exact I|]. step. destruct x; [exact I|]. step. destruct x; exact I. Qed.
#[export] Hint Resolve o_real_gt o_is_rational : calm.
Lemma o_real_to_rational w a : sane_real a -> outcome err sane_rat (real_to_rational w a).
Proof. intros [A1 A2]. unfold real_to_rational. step. destruct x; [|reflexivity]. apply o_mul; assumption. Qed.
Lemma o_real_to_string X w a : outcome X any (real_to_string w a).
Proof. unfold real_to_string. step. destruct x; [exact I|]. step. destruct x; [exact I|]. repeat step. exact I. Qed.
Lemma o_real_to_tex X w a : outcome X any (real_to_tex w a).
Proof. unfold real_to_tex. step. destruct x; [exact I|]. step. destruct x; [exact I|]. repeat step. exact I. Qed.
#[export] Hint Resolve o_real_to_rational o_real_to_string o_real_to_tex : calm.
