(** Specification for OwnModel: expression variables as plain values.  A variable holds a tree; a copy is the same tree; nothing is shared. *)
From Coq Require Import ZArith String Ascii Lia Bool List.
From Verif Require Import Base AdapterModel RationalModel RealModel PolyModel ExprModel ParserModel OwnModel.
Import ListNotations.
Open Scope Z_scope.

(** normalize and substitute on a tree, as in ExprModel, but telling also what is left behind when they throw half way *)
Definition andthen (r : res unit * expr) (k : expr -> res unit * expr) (wrap : expr -> expr) : res unit * expr :=
  match r with (Ok _, e) => k e | (o, e) => (o, wrap e) end.
Fixpoint norm_value (P : penv) (e : expr) : res unit * expr :=
  match e with
  | Leaf _ => (Ok tt, e)
  | Op c l r =>
      let both_rl := andthen (norm_value P r) (fun r' => andthen (norm_value P l) (fun l' => (Ok tt, Op c l' r')) (fun l' => Op c l' r')) (fun r' => Op c l r') in
      let both_lr := andthen (norm_value P l) (fun l' => andthen (norm_value P r) (fun r' => (Ok tt, Op c l' r')) (fun r' => Op c l' r')) (fun l' => Op c l' r) in
      match expr_try_eval P l, expr_try_eval P r with
      | Ok (Some a), Ok (Some b) =>
          if Ascii.eqb c "^" then
            match exponent_of P b with
            | Ok None => both_lr
            | Ok (Some p) => match (q <- real_to_rational (ew (pe P)) p ;; frac_pow P a q) with Ok x => (Ok tt, Leaf x) | o => (_ <- o ;; Ok tt, e) end
            | o => (_ <- o ;; Ok tt, e)
            end
          else match apply_op P c a b with Ok x => (Ok tt, Leaf x) | o => (_ <- o ;; Ok tt, e) end
      | Ok _, Ok _ => both_rl
      | Ok _, o => (_ <- o ;; Ok tt, e)
      | o, _ => (_ <- o ;; Ok tt, e)
      end
  end.
Fixpoint subst_value (P : penv) (env : envmap) (e : expr) : res unit * expr :=
  match e with
  | Leaf f => match frac_subst P env f with Ok x => (Ok tt, Leaf x) | o => (_ <- o ;; Ok tt, e) end
  | Op c l r =>
      andthen (subst_value P env l) (fun l' => andthen (subst_value P env r) (fun r' => norm_value P (Op c l' r')) (fun r' => Op c l' r')) (fun l' => Op c l' r)
  end.

Definition values := list (string * expr).
Definition value (x : string) (s : values) : res expr := match lookup x s with Some t => Ok t | None => Throw rejected end.
Definition declare (x : string) (s : values) (r : res expr) : res text * values :=
  match (_ <- fresh x s ;; r) with Ok t => (Ok [], (x, t) :: s) | o => (_ <- o ;; Ok [], s) end.
Definition change (x : string) (s : values) (f : expr -> res unit * expr) : res text * values :=
  match value x s with Ok t => let (o, t') := f t in (_ <- o ;; Ok [], setvar x t' s) | o => (_ <- o ;; Ok [], s) end.
Definition vexec (P : penv) (dec : text -> res rat) (c : cmd) (s : values) : res text * values :=
  match c with
  | Make x f => declare x s (Ok (Leaf f))
  | MakeOp x c y z => declare x s (ty <- value y s ;; tz <- value z s ;; Ok (Op c ty tz))
  | Copy x y => declare x s (value y s)
  | Assign x y => match value x s, value y s with Ok _, Ok t => (Ok [], setvar x t s) | _, _ => (Throw rejected, s) end
  | Normalize x => change x s (norm_value P)
  | Substitute x env => change x s (subst_value P env)
  | Parse x t => declare x s (parse P dec t)
  | Print x => (t <- value x s ;; expr_to_string (pe P) t, s)
  | Destroy x => match value x s with Ok _ => (Ok [], delvar x s) | _ => (Throw rejected, s) end
  end.
Fixpoint vrun (P : penv) (dec : text -> res rat) (p : list cmd) (s : values) : list (res text) * values :=
  match p with
  | [] => ([], s)
  | c :: p' =>
      match vexec P dec c s with
      | ((Ok _ | Throw _) as o, s') => let (os, s2) := vrun P dec p' s' in (o :: os, s2)
      | (o, s') => ([o], s')
      end
  end.

(** assignment between two different variables that both hold an operator tree *)
Definition is_op (t : expr) : bool := match t with Op _ _ _ => true | Leaf _ => false end.
Definition op_to_op (c : cmd) (s : values) : bool :=
  match c with
  | Assign x y => match lookup x s, lookup y s with Some a, Some b => (negb (String.eqb x y) && is_op a && is_op b)%bool | _, _ => false end
  | _ => false
  end.
(** no command of the program is one *)
Fixpoint no_op_to_op (P : penv) (dec : text -> res rat) (p : list cmd) (s : values) : bool :=
  match p with
  | [] => true
  | c :: p' =>
      (negb (op_to_op c s) &&
       match vexec P dec c s with ((Ok _ | Throw _), s') => no_op_to_op P dec p' s' | _ => true end)%bool
  end.

(** heap nodes a tree needs below its root *)
Fixpoint below (t : expr) : nat := match t with Leaf _ => 0 | Op _ l r => S (below l) + S (below r) end.
Definition owned (s : values) : nat := fold_right (fun xt n => (below (snd xt) + n)%nat) 0%nat s.

(** nodes a call of the parser never gives back: everything it built, the tree it returns having been copied.  [dropped] counts the nodes on
    the stack when the parser ends normally or by an exception. *)
Fixpoint stack_size (ns : list expr) : nat := match ns with [] => 0 | t :: ns' => S (below t) + stack_size ns' end.

(** least and greatest number of nodes lost by a command: only parsing loses nodes; if it succeeds it loses exactly as many as the tree has, if it
    throws, at most one for each token *)
Definition leak (P : penv) (dec : text -> res rat) (c : cmd) (s : values) : nat * nat :=
  match c with
  | Parse x raw =>
      match lookup x s, get_all_tokens P dec raw with
      | None, Ok ts => match parse_tokens (removelast (tl ts)) with Ok t => (S (below t), S (below t)) | _ => (0, length ts)%nat end
      | _, _ => (0, 0)%nat
      end
  | _ => (0, 0)%nat
  end.
Fixpoint leaks (P : penv) (dec : text -> res rat) (p : list cmd) (s : values) : nat * nat :=
  match p with
  | [] => (0, 0)%nat
  | c :: p' =>
      let l := leak P dec c s in
      match vexec P dec c s with
      | ((Ok _ | Throw _), s') => let l' := leaks P dec p' s' in (fst l + fst l', snd l + snd l')%nat
      | _ => l
      end
  end.
