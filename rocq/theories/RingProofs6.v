(** Proofs: an expanded form is always printed; the text decides equality. *)
From Coq Require Import ZArith Znumtheory QArith Qreals Reals String Ascii Lia Lra Bool List Permutation Sorted.
From Verif Require Import Base AdapterModel AdapterProofs RationalModel RationalSpec RationalProofs RationalProofs2 RealModel RealSpec RealProofs1 RealProofs3 PolyModel PolySpec PolyProofs1 PolyProofs2 PolyProofs3 PolyProofs4 PolyProofs6 ExprModel ExprSpec ExprProofs1 ParserModel TextSpec TextProofs1 TextProofs2 PrintSpec PrintProofs5 RingSpec RingProofs1 RingProofs2 RingProofs3 RingProofs4 RingProofs5.
Import ListNotations.
Open Scope Z_scope.

Section H.
  Variable P : penv.
  Hypothesis HR : reads P.
  Local Notation E := (pe P).
  Local Notation w := (ew (pe P)).
  Lemma rat_eq_ok a b : Z.abs a < 2 ^ (w - 1) -> Z.abs b < 2 ^ (w - 1) -> rat_eq w (Rat a 1) (Rat b 1) = Ok (a =? b).
  Proof. intros A B. unfold rat_eq. cbn [num den]. rewrite !Z.mul_1_r, !chk_ok by lia. reflexivity. Qed.
  Lemma rat_ne_ok a b : Z.abs a < 2 ^ (w - 1) -> Z.abs b < 2 ^ (w - 1) -> rat_ne w (Rat a 1) (Rat b 1) = Ok (negb (a =? b)).
  Proof. intros A B. unfold rat_ne. cbn [num den]. rewrite !Z.mul_1_r, !chk_ok by lia. reflexivity. Qed.
  Lemma rat_cmp_ok a b : Z.abs a < 2 ^ (w - 1) -> Z.abs b < 2 ^ (w - 1) -> rat_cmp w (Rat a 1) (Rat b 1) = Ok (a ?= b).
  Proof. intros A B. unfold rat_cmp. cbn [num den]. rewrite !Z.mul_1_r, !chk_ok by lia. reflexivity. Qed.
  Lemma real_eq_ok a b : Z.abs a < 2 ^ (w - 1) -> Z.abs b < 2 ^ (w - 1) -> real_eq w (rint a) (rint b) = Ok (a =? b).
  Proof. intros A B. pose proof (w4 P HR). unfold real_eq. cbn [rint coe rad idx]. rewrite rat_eq_ok by assumption. cbn [bind]. destruct (a =? b); [|reflexivity]. cbn [negb]. rewrite rat_eq_ok by lia. reflexivity. Qed.
  Lemma real_gt_ok a : Z.abs a < 2 ^ (w - 1) -> a <> 0 -> real_gt w (rint a) (rint 0) = Ok (0 <? a).
  Proof.
    intros A Z0. pose proof (w4 P HR). unfold real_gt, real_lt. rewrite real_eq_ok by lia. cbn [bind]. replace (a =? 0) with false by (symmetry; now apply Z.eqb_neq). cbn [rint coe]. unfold rat_le, rat_ge. rewrite !rat_cmp_ok by lia. cbn [bind]. change (0 ?= 0) with Eq. cbn iota.
    destruct (Z.compare_spec a 0); [lia| |]; cbn [andb bind negb]; destruct (Z.ltb_spec 0 a); try reflexivity; lia.
  Qed.
  Lemma neg_ok a : Z.abs a < 2 ^ (w - 1) -> real_negate E (rint a) = Ok (rint (- a)).
  Proof.
    intros A. unfold real_negate. cbn [rint coe rad idx]. unfold rat_negate. cbn [num den]. rewrite chk_ok by lia. cbn [bind]. unfold rat_make. cbn [Z.eqb]. change (rat_normalize w (Rat (- a) 1)) with (rat_of_int w (- a)). pose proof (w3 P HR). rewrite of_int_ok by lia. cbn [bind]. apply (make_int P HR). lia.
  Qed.
  Lemma drop_zero_ok : forall m, Forall (fun p => den (snd p) = 1 /\ 0 < num (snd p) < 2 ^ (w - 1)) m -> drop_zero w m = Ok m.
  Proof.
    pose proof (w4 P HR). induction m as [|[k [n d]] m IH]; intros F; [reflexivity|]. inversion F as [|? ? (D & B) F']; subst. cbn [snd num den] in D, B. subst d. cbn [drop_zero]. rewrite rat_eq_ok by lia. cbn [bind]. rewrite (IH F'). cbn [bind]. destruct (Z.eqb_spec n 0); [lia|reflexivity].
  Qed.
  Lemma is_rational_ok n : Z.abs n < 2 ^ (w - 1) -> is_rational w (rint n) = Ok true.
  Proof. intros B. pose proof (w4 P HR). unfold is_rational. cbn [rint coe rad]. rewrite rat_eq_ok by lia. cbn [bind]. destruct (n =? 0); [reflexivity|]. rewrite rat_eq_ok by lia. reflexivity. Qed.
  Lemma real_string_ok n : Z.abs n < 2 ^ (w - 1) -> exists t, real_to_string w (rint n) = Ok t.
  Proof. intros B. pose proof (w4 P HR). unfold real_to_string. rewrite is_rational_ok by assumption. cbn [rint coe]. rewrite rat_eq_ok by lia. cbn [bind]. destruct (n =? 0); eauto. Qed.
  Lemma real_tex_ok n : Z.abs n < 2 ^ (w - 1) -> exists t, real_to_tex w (rint n) = Ok t.
  Proof. intros B. pose proof (w4 P HR). unfold real_to_tex. rewrite is_rational_ok by assumption. cbn [rint coe]. rewrite rat_eq_ok by lia. cbn [bind]. destruct (n =? 0); eauto. Qed.
  Lemma syms_text_ok : forall m, Forall (fun p => den (snd p) = 1 /\ 0 < num (snd p) < 2 ^ (w - 1)) m -> (exists t, syms_text w m = Ok t) /\ (exists t, syms_tex w m = Ok t).
  Proof.
    pose proof (w4 P HR). induction m as [|[k [n d]] m IH]; intros F; [split; eexists; reflexivity|]. inversion F as [|? ? (D & B) F']; subst. cbn [snd num den] in D, B. subst d. destruct (IH F') as [(t & Ht) (u & Hu)]. cbn [syms_text syms_tex]. rewrite rat_ne_ok by lia. cbn [bind]. rewrite Ht, Hu. cbn [bind]. eauto.
  Qed.
  Definition small (t : term) : Prop := (exists n, tco t = rint n /\ Z.abs n < 2 ^ (w - 1)) /\ Forall (fun p => den (snd p) = 1 /\ 0 < num (snd p) < 2 ^ (w - 1)) (syms t).
  Lemma term_ok t : small t -> (exists s, term_to_string E t = Ok s) /\ (exists s, term_to_tex E t = Ok s).
  Proof.
    intros [(n & Hn & B) F]. pose proof (w4 P HR). destruct (syms_text_ok _ F) as [(a & Ha) (b & Hb)]. destruct (real_string_ok n B) as (c & Hc). destruct (real_tex_ok n B) as (d & Hd). unfold term_to_string, term_to_tex. cbv zeta. rewrite !(of_int P HR) by (cbn; lia). cbn [bind]. rewrite Hn. unfold real_ne. rewrite !real_eq_ok by (cbn; lia). cbn [bind]. rewrite Ha, Hb, Hc, Hd.
    destruct (n =? 0); [eauto|]. cbn [bind]. destruct (negb (n =? 1) || no_symbols t)%bool; [destruct ((n =? -1) && negb (no_symbols t))%bool|]; cbn [bind]; eauto.
  Qed.
  Lemma negate_small t : small t -> exists u, term_negate E t = Ok u /\ small u.
  Proof.
    intros [(n & Hn & B) F]. unfold term_negate. rewrite Hn, neg_ok by assumption. cbn [bind]. unfold term_make, term_normalize. cbn [tco syms]. rewrite drop_zero_ok by assumption. cbn [bind]. eexists. split; [reflexivity|]. split; [exists (- n); split; [reflexivity|lia]|exact F].
  Qed.
  Lemma poly_text_ok g : (forall t, small t -> exists s, g t = Ok s) -> forall l first, Forall small l -> exists s, poly_text E g first l = Ok s.
  Proof.
    intros G. pose proof (w4 P HR). induction l as [|t l IH]; intros first F; [eexists; reflexivity|]. inversion F as [|? ? T F']; subst. pose proof T as [(n & Hn & B) _]. cbn [poly_text]. unfold term_zero. rewrite (of_int P HR) by (cbn; lia). cbn [bind]. rewrite Hn, real_eq_ok by (cbn; lia). cbn [bind]. destruct (Z.eqb_spec n 0) as [N|N]; [now apply IH|].
    destruct (G t T) as (s & Hs). destruct (IH false F') as (r & Hr). rewrite Hr. destruct first; [rewrite Hs; cbn [bind]; eauto|]. unfold term_positive. rewrite (of_int P HR) by (cbn; lia). cbn [bind]. rewrite Hn, real_gt_ok by assumption. cbn [bind]. destruct (0 <? n); [rewrite Hs; cbn [bind]; eauto|].
    destruct (negate_small t T) as (u & Hu & U). destruct (G u U) as (v & Hv). rewrite Hu. cbn [bind]. rewrite Hv. cbn [bind]. eauto.
  Qed.
  Lemma is_zero_ok : forall l, Forall small l -> exists z, poly_is_zero E l = Ok z.
  Proof.
    pose proof (w4 P HR). induction l as [|t l IH]; intros F; [eexists; reflexivity|]. inversion F as [|? ? [(n & Hn & B) _] F']; subst. cbn [poly_is_zero]. rewrite (of_int P HR) by (cbn; lia). cbn [bind]. unfold real_ne. rewrite Hn, real_eq_ok by (cbn; lia). cbn [bind]. destruct (negb (n =? 0)); [eauto|now apply IH].
  Qed.
  Lemma poly_print_ok g l : (forall t, small t -> exists s, g t = Ok s) -> Forall small l -> exists s, poly_print E g l = Ok s.
  Proof. intros G F. destruct l as [|t l]; [eexists; reflexivity|]. unfold poly_print. destruct (is_zero_ok _ F) as (z & Hz). rewrite Hz. cbn [bind]. destruct z; [eauto|]. now apply poly_text_ok. Qed.
  Lemma expanded_small f : expanded w f -> Forall small (fnum f).
  Proof. intros (_ & _ & F & _). eapply Forall_impl; [|exact F]. intros t ((n & Hn & B) & (_ & M)). split; [exists n; split; [exact Hn|lia]|]. eapply Forall_impl; [|exact M]. intros p (_ & D & X). now split. Qed.
  Theorem expanded_prints f : expanded w f -> (exists t, frac_to_string E f = Ok t) /\ (exists t, frac_to_tex E f = Ok t).
  Proof.
    intros X. pose proof (expanded_small f X) as S. destruct X as (D & N & _). unfold undivided in D. unfold frac_to_string, frac_to_tex. destruct (fnum f) as [|t l] eqn:Q; [contradiction|]. rewrite D. pose proof (w4 P HR). cbn [den_is_one]. rewrite (of_int P HR) by (cbn; lia). cbn [bind]. change (tco (term_const (rint 1))) with (rint 1). rewrite real_eq_ok by (cbn; lia). cbn [bind]. change ((1 =? 1) && no_symbols (term_const (rint 1)))%bool with true. cbv iota.
    split; [apply poly_print_ok|apply poly_print_ok]; try exact S; intros u U; now destruct (term_ok u U).
  Qed.
End H.
