(** Memory model of ExprNode<T> and OpData<T> (include/symxx/expr.hpp) and of the nodes made by ExprParser<T>::parse (include/symxx/parser.hpp).

    The heap holds the ExprNode objects made by "new ExprNode".  An ExprNode, in the heap or in a variable, holds a fraction or an operator
    with two pointers.  Deleting keeps the cell as "freed" and addresses are not used again, so that reading or deleting a freed node is always
    visible as undefined behaviour.  node_type is not modelled: it always says which alternative of the variant is held (it is set with it).
    Simplifications: allocation never fails; the memory inside a Frac is not modelled; if Frac::substitute throws half way the fraction is
    left as it was (in the code it may be left half substituted).  Functions on trees have fuel; heap size is enough for every tree. *)
From Coq Require Import ZArith String Ascii Lia Bool List.
From Verif Require Import Base AdapterModel RationalModel RealModel PolyModel ExprModel ParserModel.
Import ListNotations.
Open Scope Z_scope.

Inductive ptr := Null | At (a : nat) | Wild.
Inductive node := NLeaf (f : frac) | NOp (c : ascii) (l r : ptr).
(** None: deleted *)
Definition heap := list (option node).

(** a command of the model ends normally, with an exception or with undefined behaviour, and the heap it leaves *)
Definition hm (A : Type) := heap -> res A * heap.
Definition ret {A} (x : A) : hm A := fun h => (Ok x, h).
Definition lift {A} (r : res A) : hm A := fun h => (r, h).
Definition hbind {A B} (m : hm A) (f : A -> hm B) : hm B :=
  fun h => match m h with
           | (Ok x, h') => f x h'
           | (Throw s, h') => (Throw s, h')
           | (Ub s, h') => (Ub s, h')
           | (Fuel, h') => (Fuel, h')
           end.
Notation "x <~ e ;; f" := (hbind e (fun x => f)) (at level 61, e at next level, right associativity).

Definition fetch (h : heap) (a : nat) : option node := match nth_error h a with Some (Some n) => Some n | _ => None end.
Fixpoint update (h : heap) (a : nat) (v : option node) : heap :=
  match h, a with
  | [], _ => []
  | _ :: h', O => v :: h'
  | x :: h', S a' => x :: update h' a' v
  end.
(** reading through a pointer *)
Definition load (p : ptr) : hm node := fun h =>
  match p with
  | At a => match fetch h a with Some n => (Ok n, h) | None => (Ub "use after free", h) end
  | Null => (Ub "null pointer", h)
  | Wild => (Ub "uninitialised pointer", h)
  end.
Definition store (p : ptr) (n : node) : hm unit := fun h =>
  match p with
  | At a => match fetch h a with Some _ => (Ok tt, update h a (Some n)) | None => (Ub "use after free", h) end
  | _ => (Ub "bad pointer", h)
  end.
Definition alloc (n : node) : hm ptr := fun h => (Ok (At (length h)), h ++ [Some n]).
Definition release (a : nat) : hm unit := fun h => (Ok tt, update h a None).

(** 44-51 OpData(const OpData&), reached from 82 ExprNode(const ExprNode&): new nodes for both operands; a null pointer leaves the member
    uninitialised *)
Fixpoint copy_node (fuel : nat) (n : node) : hm node :=
  match n with
  | NLeaf f => ret (NLeaf f)
  | NOp c l r =>
      match fuel with
      | O => lift Fuel
      | S k =>
          let copy_ptr (p : ptr) : hm ptr :=
            match p with Null => ret Wild | _ => m <~ load p ;; m' <~ copy_node k m ;; alloc m' end in
          l' <~ copy_ptr l ;; r' <~ copy_ptr r ;; ret (NOp c l' r')
      end
  end.
(** 53-63 ~OpData *)
Fixpoint destroy_node (fuel : nat) (n : node) : hm unit :=
  match n with
  | NLeaf _ => ret tt
  | NOp _ l r =>
      match fuel with
      | O => lift Fuel
      | S k =>
          let delete (p : ptr) : hm unit :=
            match p with
            | Null => ret tt
            | Wild => lift (Ub "delete of an uninitialised pointer")
            | At a => fun h => match fetch h a with
                               | Some m => (_ <~ destroy_node k m ;; release a) h
                               | None => (Ub "double free", h)
                               end
            end in
          _ <~ delete l ;; delete r
      end
  end.
(** enough fuel for any tree in the heap *)
Definition sized {A} (f : nat -> hm A) : hm A := fun h => f (S (length h)) h.
Definition copy (n : node) : hm node := sized (fun k => copy_node k n).
Definition destroy (n : node) : hm unit := sized (fun k => destroy_node k n).
(** 77-78 ExprNode(char, ExprNode *, ExprNode * ): the temporary OpData holding the two pointers is copied into val (OpData has no move
    constructor, so its operands are copied) and then destroyed *)
Definition make_op (c : ascii) (l r : ptr) : hm node := n <~ copy (NOp c l r) ;; _ <~ destroy (NOp c l r) ;; ret n.
(** the implicit ExprNode::operator=(const ExprNode&): std::variant assigns the held OpData member by member if both sides hold one; otherwise the
    old value is destroyed and the new one copy-constructed *)
Definition assign (dst src : node) : hm node :=
  match dst, src with
  | NOp _ _ _, NOp _ _ _ => ret src
  | _, _ => _ <~ destroy dst ;; copy src
  end.

(** 98-132 try_eval *)
Fixpoint try_eval_node (P : penv) (fuel : nat) (n : node) : hm (option frac) :=
  match n with
  | NLeaf f => ret (Some f)
  | NOp c l r =>
      match fuel with
      | O => lift Fuel
      | S k =>
          ml <~ load l ;; lv <~ try_eval_node P k ml ;;
          mr <~ load r ;; rv <~ try_eval_node P k mr ;;
          lift match lv, rv with
               | Some a, Some b =>
                   if Ascii.eqb c "^" then
                     p <- exponent_of P b ;;
                     match p with
                     | None => Ok None
                     | Some _ => q <- frac_to_rational (ew (pe P)) b ;; x <- frac_pow P a q ;; Ok (Some x)
                     end
                   else x <- apply_op P c a b ;; Ok (Some x)
               | _, _ => Ok None
               end
      end
  end.
Definition try_eval (P : penv) (n : node) : hm (option frac) := sized (fun k => try_eval_node P k n).
(** 168-217 normalize: the new content of the node.  "val = {fraction}" destroys the operands (181-207). *)
Fixpoint normalize_node (P : penv) (fuel : nat) (n : node) : hm node :=
  match n with
  | NLeaf _ => ret n
  | NOp c l r =>
      match fuel with
      | O => lift Fuel
      | S k =>
          let inside (p : ptr) : hm unit := m <~ load p ;; m' <~ normalize_node P k m ;; store p m' in
          let become (x : frac) : hm node := _ <~ destroy n ;; ret (NLeaf x) in
          ml <~ load l ;; lv <~ try_eval P ml ;;
          mr <~ load r ;; rv <~ try_eval P mr ;;
          match lv, rv with
          | Some a, Some b =>
              if Ascii.eqb c "^" then
                p <~ lift (exponent_of P b) ;;
                match p with
                | None => _ <~ inside l ;; _ <~ inside r ;; ret n
                | Some p => x <~ lift (q <- real_to_rational (ew (pe P)) p ;; frac_pow P a q) ;; become x
                end
              else x <~ lift (apply_op P c a b) ;; become x
          | _, _ => _ <~ inside r ;; _ <~ inside l ;; ret n
          end
      end
  end.
Definition normalize (P : penv) (n : node) : hm node := sized (fun k => normalize_node P k n).
(** 84-96 substitute *)
Fixpoint subst_node (P : penv) (env : envmap) (fuel : nat) (n : node) : hm node :=
  match n with
  | NLeaf f => x <~ lift (frac_subst P env f) ;; ret (NLeaf x)
  | NOp c l r =>
      match fuel with
      | O => lift Fuel
      | S k =>
          let inside (p : ptr) : hm unit := m <~ load p ;; m' <~ subst_node P env k m ;; store p m' in
          _ <~ inside l ;; _ <~ inside r ;; normalize P n
      end
  end.
Definition substitute (P : penv) (env : envmap) (n : node) : hm node := sized (fun k => subst_node P env k n).
(** the tree a node stands for; to_string (219-244) reads exactly this tree *)
Fixpoint view_node (fuel : nat) (n : node) : hm expr :=
  match n with
  | NLeaf f => ret (Leaf f)
  | NOp c l r =>
      match fuel with
      | O => lift Fuel
      | S k => ml <~ load l ;; tl <~ view_node k ml ;; mr <~ load r ;; tr <~ view_node k mr ;; ret (Op c tl tr)
      end
  end.
Definition to_string (E : env) (n : node) : hm text := t <~ sized (fun k => view_node k n) ;; lift (expr_to_string E t).

(** parser.hpp 97-157 with the nodes in the heap: std::stack<ExprNode<T> *> nodes *)
Definition pstate := (list ptr * list ascii)%type.
(** 102-111 handle *)
Definition hhandle (st : pstate) : hm pstate :=
  match st with
  | (r :: l :: ns, c :: os) => n <~ make_op c l r ;; p <~ alloc n ;; ret (p :: ns, os)
  | _ => lift (Throw invalid)
  end.
(** 117-120 *)
Fixpoint hpop_ge (fuel : nat) (c : ascii) (st : pstate) : hm pstate :=
  match snd st with
  | [] => ret st
  | o :: _ =>
      g <~ lift (great_or_equal o c) ;;
      if g : bool then match fuel with O => lift Fuel | S f => st' <~ hhandle st ;; hpop_ge f c st' end else ret st
  end.
(** 132-136 *)
Fixpoint hpop_paren (fuel : nat) (st : pstate) : hm pstate :=
  match fst st, snd st with
  | _, [] => lift (Ub "top of empty stack")
  | [], _ => ret st
  | _, o :: _ =>
      if Ascii.eqb o "(" then ret st else
      match fuel with
      | O => lift Fuel
      | S f => st' <~ hhandle st ;; match snd st' with [] => lift (Throw expected_paren) | _ => hpop_paren f st' end
      end
  end.
(** 112-150: one token *)
Definition hstep (st : pstate) (t : tok) : hm pstate :=
  match t with
  | TOp c => st' <~ hpop_ge (length (snd st)) c st ;; ret (fst st', c :: snd st')
  | TL => ret (fst st, "("%char :: snd st)
  | TR =>
      match snd st with
      | [] => lift (Throw expected_paren)
      | _ => st' <~ hpop_paren (length (snd st)) st ;; match snd st' with [] => lift (Throw invalid) | _ :: os => ret (fst st', os) end
      end
  | TNum f | TSym f => p <~ alloc (NLeaf f) ;; ret (p :: fst st, snd st)
  | _ => lift (unreachable "unexpected ExprToken.")
  end.
Fixpoint hsteps (st : pstate) (ts : list tok) : hm pstate :=
  match ts with [] => ret st | t :: ts' => st' <~ hstep st t ;; hsteps st' ts' end.
(** 151-154 *)
Fixpoint hpop_all (fuel : nat) (st : pstate) : hm pstate :=
  match snd st with
  | [] => ret st
  | _ => match fuel with O => lift Fuel | S f => st' <~ hhandle st ;; hpop_all f st' end
  end.
(** 155-157: the result is copied from *nodes.top(); the stack of pointers goes away without deleting anything *)
Definition hparse_tokens (ts : list tok) : hm node :=
  st <~ hsteps ([], []) ts ;; st' <~ hpop_all (length (snd st)) st ;;
  match fst st' with [p] => n <~ load p ;; copy n | _ => lift (Throw invalid) end.
Definition hparse (P : penv) (dec : text -> res rat) (raw : text) : hm node :=
  ts <~ lift (get_all_tokens P dec raw) ;; hparse_tokens (removelast (tl ts)).

(** A user's program over named ExprNode variables.  Exceptions are caught after each command and the program goes on. *)
Inductive cmd :=
| Make (x : string) (f : frac)                        (* ExprNode<T> x(f);                                         75-76, 80 *)
| MakeOp (x : string) (c : ascii) (y z : string)      (* ExprNode<T> x(c, new ExprNode<T>(y), new ExprNode<T>(z));  77-78, 82 *)
| Copy (x y : string)                                 (* ExprNode<T> x(y);                                         82 *)
| Assign (x y : string)                               (* x = y; *)
| Normalize (x : string)                              (* x.normalize(); *)
| Substitute (x : string) (env : envmap)              (* x.substitute(env); *)
| Parse (x : string) (s : text)                       (* ExprNode<T> x = ExprParser<T>(s).parse(); *)
| Print (x : string)                                  (* std::cout << x; *)
| Destroy (x : string).                               (* the lifetime of x ends *)

Definition vars := list (string * node).
Fixpoint lookup {A} (x : string) (s : list (string * A)) : option A :=
  match s with [] => None | (y, n) :: s' => if String.eqb x y then Some n else lookup x s' end.
Fixpoint setvar {A} (x : string) (n : A) (s : list (string * A)) : list (string * A) :=
  match s with [] => [] | (y, m) :: s' => if String.eqb x y then (y, n) :: s' else (y, m) :: setvar x n s' end.
Fixpoint delvar {A} (x : string) (s : list (string * A)) : list (string * A) :=
  match s with [] => [] | (y, m) :: s' => if String.eqb x y then s' else (y, m) :: delvar x s' end.
(** a program that does not compile *)
Definition rejected : string := "does not compile".
Definition getvar (x : string) (s : vars) : hm node := match lookup x s with Some n => ret n | None => lift (Throw rejected) end.
Definition fresh {A} (x : string) (s : list (string * A)) : res unit := match lookup x s with Some _ => Throw rejected | None => Ok tt end.

Definition exec (P : penv) (dec : text -> res rat) (c : cmd) (s : vars) : hm (vars * text) :=
  match c with
  | Make x f => _ <~ lift (fresh x s) ;; ret ((x, NLeaf f) :: s, [])
  | MakeOp x c y z =>
      _ <~ lift (fresh x s) ;; ny <~ getvar y s ;; nz <~ getvar z s ;;
      l <~ (n <~ copy ny ;; alloc n) ;; r <~ (n <~ copy nz ;; alloc n) ;; n <~ make_op c l r ;; ret ((x, n) :: s, [])
  | Copy x y => _ <~ lift (fresh x s) ;; ny <~ getvar y s ;; n <~ copy ny ;; ret ((x, n) :: s, [])
  | Assign x y => nx <~ getvar x s ;; ny <~ getvar y s ;; n <~ assign nx ny ;; ret (setvar x n s, [])
  | Normalize x => nx <~ getvar x s ;; n <~ normalize P nx ;; ret (setvar x n s, [])
  | Substitute x env => nx <~ getvar x s ;; n <~ substitute P env nx ;; ret (setvar x n s, [])
  | Parse x t => _ <~ lift (fresh x s) ;; n <~ hparse P dec t ;; ret ((x, n) :: s, [])
  | Print x => nx <~ getvar x s ;; t <~ to_string (pe P) nx ;; ret (s, t)
  | Destroy x => nx <~ getvar x s ;; _ <~ destroy nx ;; ret (delvar x s, [])
  end.
(** one command: what it prints or throws, and the memory afterwards *)
Definition exec1 (P : penv) (dec : text -> res rat) (c : cmd) (s : vars) (h : heap) : res text * vars * heap :=
  match exec P dec c s h with
  | (Ok (s', t), h') => (Ok t, s', h')
  | (Throw m, h') => (Throw m, s, h')
  | (Ub m, h') => (Ub m, s, h')
  | (Fuel, h') => (Fuel, s, h')
  end.
(** undefined behaviour ends the run *)
Fixpoint run (P : penv) (dec : text -> res rat) (p : list cmd) (s : vars) (h : heap) : list (res text) * vars * heap :=
  match p with
  | [] => ([], s, h)
  | c :: p' =>
      match exec1 P dec c s h with
      | ((Ok _ | Throw _) as o, s', h') => let '(os, s2, h2) := run P dec p' s' h' in (o :: os, s2, h2)
      | (o, s', h') => ([o], s', h')
      end
  end.
(** the ExprNode objects in the heap that have not been deleted *)
Definition live (h : heap) : nat := length (filter (fun c => match c with Some _ => true | None => false end) h).
