(** Specification for C120: named expressions as a reader expects them, a name standing for the text of
    its definition, with the variables' values at the time of use. *)
Set Warnings "-notation-overridden,-ambiguous-paths".
From mathcomp Require Import ssreflect ssrfun ssrbool ssrnat eqtype seq ssralg ssrnum.
From Verif Require Import ExprModel ExprLifeModel.
Set Implicit Arguments.
Unset Strict Implicit.

(** Every name replaced by its text. *)
Fixpoint expand (texts : seq ex) (e : src) : option ex :=
  match e with
  | SVar x => Some (Var x)
  | SName d => if (d < size texts)%N then Some (nth (Var 0) texts d) else None
  | S1 o a => omap (app1 o) (expand texts a)
  | S2 o a b => match expand texts a, expand texts b with Some x, Some y => Some (app2 o x y) | _, _ => None end
  end.

(** One operator, on variables and names only; or another name for a named expression. *)
Definition leaf (e : src) : bool := match e with SVar _ | SName _ => true | _ => false end.
Definition flat (e : src) : bool :=
  match e with SVar _ => false | SName _ => true | S1 _ a => leaf a | S2 _ a b => leaf a && leaf b end.
(** An operator with an operator below it. *)
Definition nested (e : src) : bool :=
  match e with SVar _ | SName _ => false | S1 _ a => ~~ leaf a | S2 _ a b => ~~ (leaf a && leaf b) end.
Fixpoint mentions (d : nat) (e : src) : bool :=
  match e with SVar _ => false | SName d' => d' == d | S1 _ a => mentions d a | S2 _ a b => mentions d a || mentions d b end.

Section Intended.
Variable F : realFieldType.
Variable sqrt : F -> F.
Inductive intended := IOk (st : store F) (texts : seq ex) | IError (f : fault) | IUnknown.
Fixpoint intend (st : store F) (texts : seq ex) (p : seq stmt) : intended :=
  match p with
  | [::] => IOk st texts
  | NameIt e :: p' => match expand texts e with Some t => intend st (rcons texts t) p' | None => IUnknown end
  | Store x e :: p' =>
      match expand texts e with
      | Some t => match shift_assign sqrt st x t with Done st' => intend st' texts p' | Failed f => IError f end
      | None => IUnknown end
  end.
(** Every declaration in the program is flat. *)
Definition all_flat (p : seq stmt) : bool := all (fun c => match c with NameIt e => flat e | Store _ _ => true end) p.
(** The program did what was intended. *)
Definition as_intended (r : result F) (i : intended) : Prop :=
  match r, i with
  | Ok s, IOk st texts => vars s = st /\ size (named s) = size texts
      /\ forall d, (d < size texts)%N -> seen (nodes s) (RNode (nth 0 (named s) d)) = Some (nth (Var 0) texts d)
  | Error f, IError f' => f = f'
  | Unknown_name, IUnknown => True
  | _, _ => False
  end.
End Intended.
