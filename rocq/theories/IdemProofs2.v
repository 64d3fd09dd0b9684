(** Proofs: the text of a simplified polynomial expression is simplified to itself. *)
From Coq Require Import ZArith Reals String Ascii Lia Bool List Sorted.
From Verif Require Import Base RationalModel RationalSpec RationalProofs RealModel RealSpec RealProofs1 RealProofs3 PolyModel PolySpec PolyProofs6 ExprModel ExprSpec ParserModel TextSpec PrintSpec PrintProofs2 PrintProofs4 PrintProofs5 RingSpec RingProofs1 RingProofs2 RingProofs3 RingProofs4 RingProofs5 RingProofs7 RingProofs8 RingProofs11 IdemProofs1.
Import ListNotations.
Open Scope Z_scope.

Section I.
  Variable P : penv.
  Variable dec : text -> res rat.
  Hypothesis HR : reads P.
  Hypothesis HM : machine P.
  Hypothesis HS : sort_orders P.
  Hypothesis HT : sort_returns P.
  Hypothesis H128 : ew (pe P) <= 128.
  Local Notation w := (ew (pe P)).
  Local Notation B := (2 ^ (ew (pe P) - 1)).
  Lemma reparse e f t : polynomial w e -> weight e < B -> weight e <= 2 ^ 53 -> degree e < B -> degree e <= 2 ^ 53 -> expr_normalize P e = Ok (Leaf f) -> expr_to_string (pe P) (Leaf f) = Ok t ->
    exists e', parse P dec t = Ok e' /\ fit P (1 + weight e) (degree e) e'.
  Proof.
    intros Q WB W53 DB D53 H T. destruct (normalize_fit P HR HM HS HT H128 e Q WB W53 DB) as (f' & H' & (D1 & (F & WT & DG) & NE)). rewrite H in H'. injection H' as <-. destruct (normalize_try P HR HM HS e (Leaf f) Q H) as (f' & X & SF). injection X as <-. pose proof (plain_i P HR f SF) as PL. pose proof (degree_pos e) as DP.
    change (expr_to_string (pe P) (Leaf f)) with (frac_to_string (pe P) f) in T. unfold frac_to_string in T. destruct PL as (_ & PN & PD & _). assert (T' : (o <- den_is_one (pe P) (fden f) ;; if o : bool then poly_to_string (pe P) (fnum f) else n <- poly_to_string (pe P) (fnum f) ;; d <- poly_to_string (pe P) (fden f) ;; Ok (in_parens (several (fnum f)) n ++ txt "/" ++ in_parens (several (fden f)) d)) = Ok t) by (destruct (fnum f); [contradiction|exact T]). clear T. rename T' into T. apply bind_ok in T as (b & Hb & T). apply (den_one_ok P HR _ _ PD) in Hb. destruct b; [|exfalso; assert (false = true) by (apply Hb; exact D1); discriminate].
    destruct (poly_rp P dec HR HM (degree e) (fnum f) t DP PN) as (e' & HP & FT); [|exact DG|exact T|].
    - apply Forall_forall. intros u U. rewrite Forall_forall in F, DG. pose proof (F u U) as IU. split; [exact (iterm_co P u IU)|]. unfold modest. apply Forall_forall. intros p Hp. pose proof (tdeg_in (syms u) p (iterm_nonneg P u IU) Hp). specialize (DG u U). cbn beta in DG. lia.
    - exists e'. split; [exact HP|]. apply (fit_le P (1 + wt (fnum f)) (degree e)); [lia|lia|exact FT].
  Qed.
End I.
