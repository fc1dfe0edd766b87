(** Named expressions: `auto d = a + b;` followed by uses of d.  An operator makes a node that holds
    references to its operands (boost::ref in binary_function.hpp:64-66 and unary_function.hpp:31-36,
    combined with boost::proto::make_expr), variables or nodes; it does not copy them.  Nodes made inside a
    declaration are temporaries of the full expression; all but the outermost, which becomes the named
    object, are destroyed at its end.  Unary minus is made by BOOST_PROTO_DEFINE_UNARY_OPERATOR
    (expression_generator.hpp:74), whose nodes also hold references (proto's as_child).
    Evaluation (terminals.hpp and the functions directory) follows the references. *)
Set Warnings "-notation-overridden,-ambiguous-paths".
From mathcomp Require Import ssreflect ssrfun ssrbool ssrnat eqtype seq ssralg ssrnum.
From Verif Require Import ExprModel.
Set Implicit Arguments.
Unset Strict Implicit.

Inductive op1 := ONeg | OAbs | ORec | OMag | ONorm | ODet | OTransp | OInv.
Inductive op2 := OPlus | OMinus | OTimes | OOver | OCross | OTensor.
Definition app1 (o : op1) : ex -> ex :=
  match o with ONeg => Neg | OAbs => Abs | ORec => Rec | OMag => Mag | ONorm => Norm | ODet => Det | OTransp => Transp | OInv => Inv end.
Definition app2 (o : op2) : ex -> ex -> ex :=
  match o with OPlus => Plus | OMinus => Minus | OTimes => Times | OOver => Over | OCross => Cross | OTensor => Tensor end.

(** Source text: variables, earlier named expressions (by number), operators. *)
Inductive src := SVar (x : nat) | SName (d : nat) | S1 (o : op1) (a : src) | S2 (o : op2) (a b : src).

(** Objects.  A reference is to a variable or to a node; a destroyed node is None. *)
Inductive ref := RVar (x : nat) | RNode (p : nat).
Inductive node := N1 (o : op1) (r : ref) | N2 (o : op2) (r s : ref).
Definition heap := seq (option node).

(** Evaluating operands left to right makes the nodes of a source expression in postorder; the result
    is the reference to the outermost one.  A name is the object itself. *)
Fixpoint build (names : seq nat) (h : heap) (e : src) : option (ref * heap) :=
  match e with
  | SVar x => Some (RVar x, h)
  | SName d => if (d < size names)%N then Some (RNode (nth 0 names d), h) else None
  | S1 o a =>
      match build names h a with
      | Some (r, h1) => Some (RNode (size h1), rcons h1 (Some (N1 o r)))
      | None => None end
  | S2 o a b =>
      match build names h a with
      | Some (r, h1) =>
          match build names h1 b with
          | Some (s, h2) => Some (RNode (size h2), rcons h2 (Some (N2 o r s)))
          | None => None end
      | None => None end
  end.
(** End of the full expression: the nodes numbered from [old] up are destroyed, except [keep]. *)
Definition sweep (old keep : nat) (h : heap) : heap :=
  take old h ++ [seq (if p == keep then nth None h p else None) | p <- iota old (size h - old)].

(** Following the references; None if a destroyed node is reached.  A node refers to older nodes only,
    so its number bounds the depth. *)
Fixpoint follow (fuel : nat) (h : heap) (r : ref) : option ex :=
  match r, fuel with
  | RVar x, _ => Some (Var x)
  | RNode p, S fuel' =>
      match nth None h p with
      | Some (N1 o a) => omap (app1 o) (follow fuel' h a)
      | Some (N2 o a b) =>
          match follow fuel' h a, follow fuel' h b with Some x, Some y => Some (app2 o x y) | _, _ => None end
      | None => None
      end
  | RNode _, 0 => None
  end.
Definition seen (h : heap) (r : ref) : option ex := follow (size h) h r.

Section Programs.
Variable F : realFieldType.
Variable sqrt : F -> F.

(** `auto d = e;` with d the next number, and `x <<= e;`. *)
Inductive stmt := NameIt (e : src) | Store (x : nat) (e : src).
Record state := mk_state { vars : store F; nodes : heap; named : seq nat }.
Inductive result := Ok (s : state) | Undefined | Error (f : fault) | Unknown_name.

Definition exec (s : state) (c : stmt) : result :=
  match c with
  | NameIt e =>
      match build (named s) (nodes s) e with
      | Some (RNode p, h) =>
          match e with
          | SName _ => (* a copy of a named expression: a new node with the same references *)
              Ok (mk_state (vars s) (rcons h (nth None h p)) (rcons (named s) (size h)))
          | _ => Ok (mk_state (vars s) (sweep (size (nodes s)) p h) (rcons (named s) p))
          end
      | Some (RVar _, _) => Error ill_formed (* a copy of a variable, not an expression: left out *)
      | None => Unknown_name
      end
  | Store x e =>
      match build (named s) (nodes s) e with
      | Some (r, h) =>
          match seen h r with
          | Some t => match shift_assign sqrt (vars s) x t with
                      | Done st' => Ok (mk_state st' (sweep (size (nodes s)) (size h) h) (named s))
                      | Failed f => Error f end
          | None => Undefined
          end
      | None => Unknown_name
      end
  end.
Fixpoint run (s : state) (p : seq stmt) : result :=
  match p with
  | [::] => Ok s
  | c :: p' => match exec s c with Ok s' => run s' p' | e => e end
  end.
End Programs.
