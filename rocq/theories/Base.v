(** Shared vocabulary of the model: Python exceptions as values. *)
From Coq Require Import List ZArith String.
Import ListNotations.

(** The exceptions the modelled code can raise.  [TypeErr], [ValueErr], ... stand for
    the Python classes of the same name. *)
Inductive exn :=
  ValueErr | AssertionErr | TypeErr | IndexErr | AttributeErr | KeyErr | NameErr
| UnboundLocalErr | FileNotFoundErr | NotImplementedErr | ZeroDivisionErr | OverflowErr
| ImportErr | RuntimeErr | SystemExitErr.

(** Result of running a Python function: a value or an uncaught exception. *)
Inductive res (A : Type) := Ok (a : A) | Err (e : exn).
Arguments Ok {A}. Arguments Err {A}.

Definition bind {A B} (r : res A) (f : A -> res B) : res B :=
  match r with Ok a => f a | Err e => Err e end.
Notation "'do' x <- r ; k" := (bind r (fun x => k))
  (at level 200, x pattern, r at level 100, k at level 200).

Definition rmap {A B} (f : A -> B) (r : res A) : res B :=
  match r with Ok a => Ok (f a) | Err e => Err e end.

(** [f(x) for x in l], left to right, stopping at the first exception. *)
Fixpoint mapM {A B} (f : A -> res B) (l : list A) : res (list B) :=
  match l with
  | [] => Ok []
  | a :: l' => do b <- f a; do bs <- mapM f l'; Ok (b :: bs)
  end.

Definition raises {A} (r : res A) : Prop := exists e, r = Err e.
