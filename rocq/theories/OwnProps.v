(** C51: who owns the nodes of an expression.
    Vocabulary (OwnSpec.v): a program is a list of commands over named ExprNode variables; [vrun] runs it on plain values (a variable holds a tree, a copy is
    the same tree); [run] runs it on a heap of nodes with pointers (OwnModel.v).  [live h] counts the nodes not deleted; [owned s] the nodes the trees of the
    variables need below their roots; [leaks] the least and the greatest number of nodes lost by parsing; [no_op_to_op] says that the program never
    assigns a variable that holds an operator tree to another variable that holds one. *)
From Coq Require Import ZArith String Ascii Lia Bool List.
From Verif Require Import Base AdapterModel FactorizeModel RationalModel RealModel RealSpec PolyModel ExprModel ParserModel TextSpec OwnModel OwnSpec OwnProofs1 OwnProofs2 OwnProofs3 OwnProofs4 OwnProofs5.
Import ListNotations.
Open Scope nat_scope.

Local Definition E64 : env := std_env 64 true (fun k => Z.of_nat k * Z.of_nat k * 3 + 1)%Z 200 0.
Local Definition P64 : penv := PEnv E64 (isort 64).
Local Definition nodec (s : text) : res rat := Throw "decimal".
Local Definition outs (p : list cmd) : list (res string) :=
  map (fun o => t <- o ;; Ok (string_of_list_ascii t))%Z (fst (fst (run P64 nodec p [] []))).
Local Definition alive (p : list cmd) : nat := live (snd (run P64 nodec p [] [])).

(** copies, in-place changes and destruction in any order behave as if variables held plain trees: same output, same exceptions, and undefined
    behaviour only where the arithmetic itself has it *)
Theorem C51_refines P dec p : no_op_to_op P dec p [] = true -> fst (fst (run P dec p [] [])) = fst (vrun P dec p []).
Proof. intros N. destruct (run_ok P dec p [] [] [] [] inv_start N) as (s & h & L & E & _). rewrite E. reflexivity. Qed.
Print Assumptions C51_refines.
(** every node is owned by exactly one variable or has been lost by the parser *)
Theorem C51_memory P dec p : no_op_to_op P dec p [] = true ->
  owned (snd (vrun P dec p [])) + fst (leaks P dec p []) <= live (snd (run P dec p [] [])) <= owned (snd (vrun P dec p [])) + snd (leaks P dec p []).
Proof. intros N. destruct (run_ok P dec p [] [] [] [] inv_start N) as (s & h & L & E & I & B). rewrite E. cbn [snd]. rewrite (inv_live _ _ _ _ I). cbn [length] in B. lia. Qed.
Print Assumptions C51_memory.
Definition no_parse (p : list cmd) : bool := forallb (fun c => match c with Parse _ _ => false | _ => true end) p.
Lemma no_parse_leaks P dec p : no_parse p = true -> forall s, leaks P dec p s = (0, 0).
Proof.
  induction p as [|c p IH]; intros N s; [reflexivity|]. cbn [no_parse forallb] in N. apply andb_prop in N. destruct N as [N1 N2]. cbn [leaks].
  assert (E : leak P dec c s = (0, 0)) by (destruct c; [reflexivity ..|discriminate|reflexivity|reflexivity]). rewrite E.
  destruct (vexec P dec c s) as [[] s']; try reflexivity; rewrite (IH N2 s'); reflexivity.
Qed.
(** without parsing nothing is lost, and when all variables are gone every node has been deleted *)
Theorem C51_no_leak P dec p : no_op_to_op P dec p [] = true -> no_parse p = true -> live (snd (run P dec p [] [])) = owned (snd (vrun P dec p [])).
Proof. intros N NP. pose proof (C51_memory P dec p N) as M. rewrite (no_parse_leaks P dec p NP) in M. cbn [fst snd] in M. lia. Qed.
Print Assumptions C51_no_leak.
Theorem C51_all_freed P dec p : no_op_to_op P dec p [] = true -> no_parse p = true -> snd (vrun P dec p []) = [] -> live (snd (run P dec p [] [])) = 0.
Proof. intros N NP E. rewrite C51_no_leak by assumption. rewrite E. reflexivity. Qed.
Print Assumptions C51_all_freed.
(** normalize and substitute of the specification are those of the functional model *)
Theorem C51_in_place P env t : expr_normalize P t = (_ <- fst (norm_value P t) ;; Ok (snd (norm_value P t)))%Z /\
  expr_subst P env t = (_ <- fst (subst_value P env t) ;; Ok (snd (subst_value P env t)))%Z.
Proof. split; [apply norm_value_normalize|apply subst_value_subst]. Qed.
Print Assumptions C51_in_place.
(** a copy is independent: whatever is done to the copy, the original prints as if the copy had never been made *)
Definition only (x : string) (c : cmd) : Prop := c = Normalize x \/ (exists e, c = Substitute x e) \/ c = Destroy x.
Definition goes_on (r : res text) : Prop := match r with Ok _ | Throw _ => True | _ => False end.
Lemma vrun_app P dec p q s : Forall goes_on (fst (vrun P dec p s)) ->
  vrun P dec (p ++ q) s = (fst (vrun P dec p s) ++ fst (vrun P dec q (snd (vrun P dec p s))), snd (vrun P dec q (snd (vrun P dec p s)))).
Proof.
  revert s. induction p as [|c p IH]; intros s F; cbn [app vrun fst snd]; [apply surjective_pairing|].
  cbn [vrun] in F. destruct (vexec P dec c s) as [o s1]. specialize (IH s1).
  destruct o as [u|m|m|]; [| |inversion F as [|? ? G]; destruct G|inversion F as [|? ? G]; destruct G];
    (destruct (vrun P dec p s1) as [os s2]; cbn [fst snd] in *; rewrite IH by (inversion F; assumption); reflexivity).
Qed.
Lemma only_keeps P dec x y q s : x <> y -> Forall (only x) q -> lookup y (snd (vrun P dec q s)) = lookup y s.
Proof.
  intros N F. revert s. induction F as [|c q C F IH]; intros s; [reflexivity|]. cbn [vrun].
  assert (K : lookup y (snd (vexec P dec c s)) = lookup y s).
  { destruct C as [->|[(e & ->)| ->]]; cbn [vexec]; unfold change, value; destruct (lookup x s) as [t|] eqn:Lx; try reflexivity.
    - destruct (norm_value P t) as [o t']. apply lookup_setvar_other, N.
    - destruct (subst_value P e t) as [o t']. apply lookup_setvar_other, N.
    - apply lookup_delvar_other, N. }
  destruct (vexec P dec c s) as [o s1]. specialize (IH s1). cbn [snd] in *. destruct o; try exact K; (destruct (vrun P dec q s1); cbn [snd] in *; congruence).
Qed.
Theorem C51_independent P dec p x y q : x <> y -> Forall (only x) q ->
  no_op_to_op P dec (p ++ (Copy x y :: q) ++ [Print y]) [] = true -> no_op_to_op P dec (p ++ [Print y]) [] = true ->
  Forall goes_on (fst (vrun P dec p [])) -> Forall goes_on (fst (vrun P dec (Copy x y :: q) (snd (vrun P dec p [])))) ->
  last (fst (fst (run P dec (p ++ (Copy x y :: q) ++ [Print y]) [] []))) Fuel = last (fst (fst (run P dec (p ++ [Print y]) [] []))) Fuel.
Proof.
  intros N F N1 N2 G1 G2. rewrite (C51_refines P dec _ N1), (C51_refines P dec _ N2). rewrite !vrun_app by assumption. cbn [fst].
  set (vs := snd (vrun P dec p [])) in *.
  assert (K : lookup y (snd (vrun P dec (Copy x y :: q) vs)) = lookup y vs).
  { cbn [vrun]. assert (K : lookup y (snd (vexec P dec (Copy x y) vs)) = lookup y vs).
    { cbn [vexec]. unfold declare. destruct (_ <- fresh x vs ;; value y vs)%Z; try reflexivity. cbn [snd]. apply lookup_cons_other, N. }
    destruct (vexec P dec (Copy x y) vs) as [o s1]. cbn [snd] in K. pose proof (only_keeps P dec x y q s1 N F) as K2.
    destruct o; try exact K; (destruct (vrun P dec q s1); cbn [snd] in *; congruence). }
  assert (L : forall s, fst (vrun P dec [Print y] s) = [(t <- value y s ;; expr_to_string (pe P) t)%Z]).
  { intros s. cbn [vrun vexec]. destruct (t <- value y s ;; expr_to_string (pe P) t)%Z; reflexivity. }
  rewrite !L, app_assoc, !last_last. unfold value. rewrite K. reflexivity.
Qed.
Print Assumptions C51_independent.

(** parsing succeeds: the caller's tree is freed, but the parser's own nodes, as many as the tree has, stay for ever *)
Theorem C51_parse_leaks P dec x raw t : parse P dec raw = Ok t -> live (snd (run P dec [Parse x raw; Destroy x] [] [])) = S (below t).
Proof.
  intros E.
  assert (V : vexec P dec (Parse x raw) [] = (Ok [], [(x, t)])) by (cbn [vexec]; unfold declare; cbn [fresh lookup bind]; rewrite E; reflexivity).
  assert (V2 : vexec P dec (Destroy x) [(x, t)] = (Ok [], [])) by (cbn [vexec]; unfold value; cbn [lookup delvar]; rewrite String.eqb_refl; reflexivity).
  assert (LK : leak P dec (Parse x raw) [] = (S (below t), S (below t))).
  { cbn [leak lookup]. unfold parse in E. destruct (get_all_tokens P dec raw) as [ts|m|m|]; try discriminate E. cbn [bind] in E. rewrite E. reflexivity. }
  assert (N : no_op_to_op P dec [Parse x raw; Destroy x] [] = true).
  { cbn [no_op_to_op op_to_op negb andb]. rewrite V, V2. reflexivity. }
  specialize (C51_memory P dec [Parse x raw; Destroy x] N). intros M'. cbn [vrun leaks] in M'. rewrite V, V2, LK in M'. cbn [fst snd owned fold_right] in M'.
  cbn [leak fst snd] in M'. lia.
Qed.
Print Assumptions C51_parse_leaks.

(** assigning an operator tree to a variable that holds another operator tree copies the two pointers: in every state a program can reach, after
    "x = y" and the end of y, any use of x is undefined behaviour: ending it frees the nodes a second time, printing, normalising, substituting or copying reads freed nodes *)
Theorem C51_assign_shares P dec p x y tx ty : no_op_to_op P dec p [] = true -> x <> y ->
  lookup x (snd (vrun P dec p [])) = Some tx -> lookup y (snd (vrun P dec p [])) = Some ty -> is_op tx = true -> is_op ty = true ->
  let s := snd (fst (run P dec p [] [])) in let h := snd (run P dec p [] []) in
  forall use bad,
    (use = Destroy x /\ bad = "double free"%string) \/
    (bad = "use after free"%string /\ (use = Print x \/ use = Normalize x \/ (exists env, use = Substitute x env))) ->
  fst (fst (run P dec [Assign x y; Destroy y; use] s h)) = [Ok []; Ok []; Ub bad].
Proof.
  intros N NE Ex Ey Ox Oy. destruct (run_ok P dec p [] [] [] [] inv_start N) as (s0 & h0 & L & E & I & _). rewrite E. cbn [fst snd].
  destruct (shared P dec h0 s0 _ L x y tx ty I NE Ex Ey Ox Oy) as (s2 & h2 & c & a & b & E1 & E2 & Lx & Fa & _).
  destruct (dangling P dec h2 s2 x c a b Lx Fa) as (D1 & D2 & D3 & D4 & _).
  intros use bad U. cbn [run]. rewrite E1, E2.
  assert (D : exec1 P dec use s2 h2 = (Ub bad, s2, h2)).
  { destruct U as [(-> & ->)|(-> & [->|[->|(env & ->)]])]; auto. }
  rewrite D. reflexivity.
Qed.
Print Assumptions C51_assign_shares.
(** and the nodes x had are lost: only y's nodes are freed *)
Theorem C51_assign_leaks P dec p x y tx ty : no_op_to_op P dec p [] = true -> x <> y ->
  lookup x (snd (vrun P dec p [])) = Some tx -> lookup y (snd (vrun P dec p [])) = Some ty -> is_op tx = true -> is_op ty = true ->
  let s := snd (fst (run P dec p [] [])) in let h := snd (run P dec p [] []) in
  live (snd (run P dec [Assign x y; Destroy y] s h)) + below ty = live h.
Proof.
  intros N NE Ex Ey Ox Oy. destruct (run_ok P dec p [] [] [] [] inv_start N) as (s0 & h0 & L & E & I & _). rewrite E. cbn [fst snd].
  destruct (shared P dec h0 s0 _ L x y tx ty I NE Ex Ey Ox Oy) as (s2 & h2 & c & a & b & E1 & E2 & _ & _ & LV). cbn [run]. rewrite E1, E2. exact LV.
Qed.
Print Assumptions C51_assign_leaks.

(** what cli.hpp 170 does to redefine a function: the new body is copied into a temporary, which is assigned to the slot of the map and destroyed; then
    the slot is printed.  With an operator tree in the slot and an operator tree as the new body that is undefined behaviour; in all other cases the
    new body is printed *)
Theorem C51_redefinition P dec p slot body tmp told tnew : no_op_to_op P dec p [] = true -> slot <> tmp ->
  lookup slot (snd (vrun P dec p [])) = Some told -> lookup body (snd (vrun P dec p [])) = Some tnew -> lookup tmp (snd (vrun P dec p [])) = None ->
  fst (fst (run P dec [Copy tmp body; Assign slot tmp; Destroy tmp; Print slot] (snd (fst (run P dec p [] []))) (snd (run P dec p [] [])))) =
    if (is_op told && is_op tnew)%bool then [Ok []; Ok []; Ok []; Ub "use after free"] else [Ok []; Ok []; Ok []; expr_to_string (pe P) tnew].
Proof.
  intros N NE Es Eb Et. destruct (run_ok P dec p [] [] [] [] inv_start N) as (s0 & h0 & L & E & I & _). rewrite E. cbn [fst snd]. set (vs := snd (vrun P dec p [])) in *.
  assert (V1 : vexec P dec (Copy tmp body) vs = (Ok [], (tmp, tnew) :: vs)) by (cbn [vexec]; unfold declare, fresh, value; rewrite Et, Eb; reflexivity).
  assert (Ls : lookup slot ((tmp, tnew) :: vs) = Some told) by (rewrite lookup_cons_other by congruence; exact Es).
  assert (Lt : lookup tmp ((tmp, tnew) :: vs) = Some tnew) by (cbn [lookup]; rewrite String.eqb_refl; reflexivity).
  destruct (is_op told && is_op tnew)%bool eqn:O.
  - apply andb_prop in O. destruct O as [O1 O2].
    destruct (run_ok P dec [Copy tmp body] s0 vs h0 L I) as (s1 & h1 & L1 & E1 & I1 & _). { cbn [no_op_to_op op_to_op negb andb]. rewrite V1. reflexivity. }
    cbn [vrun] in E1, I1. rewrite V1 in E1, I1. cbn [fst snd vrun] in E1, I1. cbn [run] in E1 |- *.
    destruct (exec1 P dec (Copy tmp body) s0 h0) as [[o s'] h']. destruct o; try discriminate E1; injection E1; intros; subst; try discriminate.
    destruct (shared P dec h1 s1 _ L1 slot tmp told tnew I1 NE Ls Lt O1 O2) as (s2 & h2 & c & a & b & F1 & F2 & Lx & Fa & _).
    destruct (dangling P dec h2 s2 slot c a b Lx Fa) as (_ & D & _). rewrite F1, F2, D. reflexivity.
  - assert (V2 : vexec P dec (Assign slot tmp) ((tmp, tnew) :: vs) = (Ok [], setvar slot tnew ((tmp, tnew) :: vs))) by (cbn [vexec]; unfold value; rewrite Ls, Lt; reflexivity).
    assert (Lt2 : lookup tmp (setvar slot tnew ((tmp, tnew) :: vs)) = Some tnew) by (rewrite lookup_setvar_other by congruence; exact Lt).
    assert (V3 : vexec P dec (Destroy tmp) (setvar slot tnew ((tmp, tnew) :: vs)) = (Ok [], delvar tmp (setvar slot tnew ((tmp, tnew) :: vs)))) by (cbn [vexec]; unfold value; rewrite Lt2; reflexivity).
    assert (Ls3 : lookup slot (delvar tmp (setvar slot tnew ((tmp, tnew) :: vs))) = Some tnew).
    { rewrite lookup_delvar_other by congruence. eapply lookup_setvar_same; exact Ls. }
    destruct (run_ok P dec [Copy tmp body; Assign slot tmp; Destroy tmp; Print slot] s0 vs h0 L I) as (s1 & h1 & L1 & E1 & _).
    { cbn [no_op_to_op]. rewrite V1, V2, V3. cbn [op_to_op]. rewrite Ls, Lt. destruct (String.eqb_spec slot tmp); [contradiction|]. cbn [negb andb]. rewrite O. cbn [negb andb].
      destruct (vexec P dec (Print slot) _) as [[] ?]; reflexivity. }
    rewrite E1. cbn [fst vrun]. rewrite V1, V2, V3. cbn [vexec]. unfold value. rewrite Ls3. cbn [bind]. destruct (expr_to_string (pe P) tnew); reflexivity.
Qed.
Print Assumptions C51_redefinition.

(** ** cases *)
Local Definition one_plus_x : list cmd := [Make "one" (leaf_int 1); Make "x" (leaf_sym "x"); MakeOp "e" "+" "one" "x"].
Local Definition history : list cmd := one_plus_x ++ [MakeOp "f" "^" "e" "x"; Copy "g" "f"; Normalize "e"; Print "e"; Destroy "f"; Print "g"; Assign "x" "g"; Print "x"; Normalize "x"; Print "x"].
Example C51_example_history : no_op_to_op P64 nodec history [] = true /\
  outs history = map (fun s => Ok s) [""; ""; ""; ""; ""; ""; "x+1"; ""; "(1+x)^x"; ""; "(1+x)^x"; ""; "x+1^x"]%string /\
  alive history = 6 /\ alive (history ++ map Destroy ["one"; "e"; "g"; "x"]%string) = 0.
Proof. vm_compute. repeat split. Qed.
(** the two refuting cases: double free, and lost nodes *)
Theorem C51_assign_refuted : outs (one_plus_x ++ [MakeOp "f" "*" "x" "x"; Assign "f" "e"; Destroy "e"; Destroy "f"])
  = map (fun s => Ok s) [""; ""; ""; ""; ""; ""]%string ++ [Ub "double free"].
Proof. vm_compute. reflexivity. Qed.
Example C51_example_assign : lookup "f" (snd (vrun P64 nodec (one_plus_x ++ [MakeOp "f" "*" "x" "x"]) [])) = Some (Op "*" (Leaf (leaf_sym "x")) (Leaf (leaf_sym "x"))).
Proof. vm_compute. reflexivity. Qed.
Theorem C51_parse_leak_refuted : alive [Parse "a" (txt "(x+1)*(x-2)"); Destroy "a"] = 7.
Proof. vm_compute. reflexivity. Qed.
(** an exception in the parser loses what was built so far *)
Example C51_example_throw : outs [Parse "a" (txt "(x+1)(*)")] = [Throw "Invaild string."] /\ alive [Parse "a" (txt "(x+1)(*)")] = 3.
Proof. vm_compute. repeat split. Qed.
(** self assignment is harmless *)
Example C51_example_self : outs (one_plus_x ++ [Assign "e" "e"; Print "e"; Destroy "e"]) = map (fun s => Ok s) [""; ""; ""; ""; "1+x"; ""]%string.
Proof. vm_compute. reflexivity. Qed.
(** "func f(x)=x^x" over an operator tree, and over a leaf *)
Example C51_example_redefinition :
  outs (one_plus_x ++ [MakeOp "slot" "*" "x" "x"; Copy "tmp" "e"; Assign "slot" "tmp"; Destroy "tmp"; Print "slot"]) = map (fun s => Ok s) [""; ""; ""; ""; ""; ""; ""]%string ++ [Ub "use after free"] /\
  outs (one_plus_x ++ [Copy "slot" "x"; Copy "tmp" "e"; Assign "slot" "tmp"; Destroy "tmp"; Print "slot"]) = map (fun s => Ok s) [""; ""; ""; ""; ""; ""; ""; "1+x"]%string.
Proof. vm_compute. repeat split. Qed.
