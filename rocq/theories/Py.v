(** Python conventions shared by all model files: exceptions as values.

    Every Python function of /repo that may raise is modelled by a Gallina
    function returning [res A]; the constructor [Err e] carries the class of
    the exception that the interpreter would raise.  No message is modelled. *)
From Coq Require Export List Arith ZArith Lia Bool.
Export ListNotations.

Inductive exn : Type :=
| TypeError | ValueError | OverflowError | IndexError | KeyError | AttributeError
| RuntimeError | NotImplementedError | AssertionError | NameError
| UnboundLocalError | ZeroDivisionError | StopIteration.

Inductive res (A : Type) : Type :=
| Ok (a : A)
| Err (e : exn).
Arguments Ok {A} a.
Arguments Err {A} e.

Definition bind {A B} (x : res A) (f : A -> res B) : res B :=
  match x with Ok a => f a | Err e => Err e end.
Notation "x <- a ;; b" := (bind a (fun x => b))
  (at level 61, a at next level, right associativity).
Notation "' p <- a ;; b" := (bind a (fun p => b))
  (at level 61, p pattern, a at next level, right associativity).

Definition is_ok {A} (x : res A) : Prop := exists a, x = Ok a.

(** [mapM f l]: a Python list comprehension [[f(x) for x in l]]; the first
    exception interrupts it. *)
Definition mapM {A B} (f : A -> res B) : list A -> res (list B) :=
  fix mapM l :=
    match l with
    | [] => Ok []
    | a :: l' => b <- f a ;; bs <- mapM l' ;; Ok (b :: bs)
    end.

(** A Python assertion. *)
Definition py_assert (b : bool) : res unit := if b then Ok tt else Err AssertionError.
