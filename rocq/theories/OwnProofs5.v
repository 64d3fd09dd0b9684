(** Proofs about OwnModel: assigning one operator tree to another. *)
From Coq Require Import ZArith String Ascii Lia Bool List Arith Permutation.
From Verif Require Import Base AdapterModel RationalModel RealModel PolyModel ExprModel ParserModel OwnModel OwnSpec OwnProofs1 OwnProofs2 OwnProofs3 OwnProofs4.
Import ListNotations.
Open Scope nat_scope.

Lemma lookup_setvar_same {A} x (n m : A) s : lookup x s = Some m -> lookup x (setvar x n s) = Some n.
Proof. induction s as [|[y k] s IH]; cbn [lookup setvar]; [discriminate|]. destruct (String.eqb x y) eqn:E; cbn [lookup]; rewrite E; auto. Qed.
Lemma lookup_setvar_other {A} x y (n : A) s : x <> y -> lookup y (setvar x n s) = lookup y s.
Proof.
  intros N. induction s as [|[z k] s IH]; cbn [setvar]; [reflexivity|]. destruct (String.eqb_spec x z) as [<-|Nz]; cbn [lookup].
  - destruct (String.eqb_spec y x); [congruence|reflexivity].
  - destruct (String.eqb y z); [reflexivity|exact IH].
Qed.
Lemma lookup_delvar_other {A} x y (s : list (string * A)) : x <> y -> lookup y (delvar x s) = lookup y s.
Proof.
  intros N. induction s as [|[z k] s IH]; cbn [delvar]; [reflexivity|]. destruct (String.eqb_spec x z) as [<-|Nz]; cbn [lookup].
  - destruct (String.eqb_spec y x); [congruence|reflexivity].
  - destruct (String.eqb y z); [reflexivity|exact IH].
Qed.
Lemma lookup_cons_other {A} x y (n : A) s : x <> y -> lookup y ((x, n) :: s) = lookup y s.
Proof. intros N. cbn [lookup]. destruct (String.eqb_spec y x); [congruence|reflexivity]. Qed.

Section Sharing.
Variables (P : penv) (dec : text -> res rat).
(** after "x = y" between operator trees and the end of y *)
Lemma shared h s vs L x y tx ty : inv h s vs L -> x <> y -> lookup x vs = Some tx -> lookup y vs = Some ty -> is_op tx = true -> is_op ty = true ->
  exists s2 h2 c a b, exec1 P dec (Assign x y) s h = (Ok [], setvar x (NOp c (At a) (At b)) s, h) /\
    exec1 P dec (Destroy y) (setvar x (NOp c (At a) (At b)) s) h = (Ok [], s2, h2) /\
    lookup x s2 = Some (NOp c (At a) (At b)) /\ fetch h2 a = None /\ live h2 + below ty = live h.
Proof.
  intros (G & O & X) N Ex Ey Ox Oy.
  destruct (lookup x s) as [nx|] eqn:Lx; [|apply (own_lookup_none _ _ _ _ x O) in Lx; congruence].
  destruct (lookup y s) as [ny|] eqn:Ly; [|apply (own_lookup_none _ _ _ _ y O) in Ly; congruence].
  destruct (own_split _ _ _ _ _ _ O Lx) as (tx' & Fx & Gx & Ex' & Rx & _). assert (tx' = tx) by congruence. subst tx'.
  destruct (own_split _ _ _ _ _ _ O Ly) as (ty' & Fy & Gy & Ey' & Ry & Py & _ & _). assert (ty' = ty) by congruence. subst ty'.
  destruct nx as [fx|cx lx rx]; [inversion Rx; subst; discriminate|]. inversion Ry as [|c a b nl nr l r Fl Fr Ha Hb RL RR]; subst; [discriminate|].
  assert (XX : exactly h ((a :: b :: Fl ++ Fr) ++ (Gy ++ L))) by (rewrite app_assoc; apply (exactly_permutation _ _ _ X), Permutation_app_tail, Py).
  assert (Dy : NoDup (a :: b :: Fl ++ Fr)) by (destruct XX as [D _]; apply NoDup_app_iff in D; tauto).
  destruct (destroy_spec h _ _ _ Ry Dy) as (h2 & E2 & Fr2). pose proof (freed_exactly _ _ _ _ XX Fr2) as XX2.
  exists (delvar y (setvar x (NOp c (At a) (At b)) s)), h2, c, a, b. split; [|split; [|split; [|split]]].
  - unfold exec1. cbn [exec]. unfold getvar. rewrite Lx, Ly. reflexivity.
  - unfold exec1. cbn [exec]. unfold getvar. rewrite lookup_setvar_other by exact N. rewrite Ly. rewrite (hbind_ok (ret _) _ h _ h eq_refl). rewrite (hbind_ok _ _ _ _ _ E2). reflexivity.
  - rewrite lookup_delvar_other by congruence. eapply lookup_setvar_same; eauto.
  - destruct Fr2 as (_ & Z & _). apply Z. left. reflexivity.
  - rewrite (exactly_live _ _ XX2), (exactly_live _ _ XX). pose proof (repr_below _ _ _ _ Ry) as B. rewrite (app_length (a :: b :: Fl ++ Fr)), B. lia.
Qed.
Lemma dangling h s x c a b : lookup x s = Some (NOp c (At a) (At b)) -> fetch h a = None ->
  exec1 P dec (Destroy x) s h = (Ub "double free", s, h) /\ exec1 P dec (Print x) s h = (Ub "use after free", s, h) /\
  exec1 P dec (Normalize x) s h = (Ub "use after free", s, h) /\
  (forall env, exec1 P dec (Substitute x env) s h = (Ub "use after free", s, h)) /\
  (forall z, lookup z s = None -> exec1 P dec (Copy z x) s h = (Ub "use after free", s, h)).
Proof.
  intros E F. unfold exec1. cbn [exec]. unfold getvar. rewrite E. split; [|split; [|split; [|split]]].
  - unfold hbind, ret, destroy, sized, destroy_node, hbind. rewrite F. reflexivity.
  - unfold hbind, ret, to_string, sized, view_node, hbind, load. rewrite F. reflexivity.
  - unfold hbind, ret, normalize, sized, normalize_node, hbind, load. rewrite F. reflexivity.
  - intros env. unfold hbind, ret, substitute, sized, subst_node, hbind, load. rewrite F. reflexivity.
  - intros z Ez. unfold fresh. rewrite Ez. unfold hbind, lift, ret, copy, sized, copy_node, hbind, load. rewrite F. reflexivity.
Qed.
End Sharing.
