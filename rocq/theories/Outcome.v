(** Outcomes of a C++ call: a value, an exception, undefined behaviour, or a loop that
    did not finish within the fuel given to the model.  Every model function that can fail
    returns one of these, so that exceptions and undefined behaviour stay visible. *)
From Coq Require Import List String.
Import ListNotations.

Inductive exn : Type :=
| RuntimeError (what : string)        (* std::runtime_error *)
| Rethrown     (what : string)        (* throw; of whatever is in flight *)
| OutOfRange   (what : string)        (* std::out_of_range and friends of the libraries *)
| BadOptional                          (* std::bad_optional_access *)
| BadVariant.                          (* std::bad_variant_access *)

Inductive outcome (A : Type) : Type :=
| Ok (a : A)
| Throw (e : exn)
| UB (why : string)
| Diverge.
Arguments Ok {A} a.
Arguments Throw {A} e.
Arguments UB {A} why.
Arguments Diverge {A}.

Definition bind {A B : Type} (o : outcome A) (f : A -> outcome B) : outcome B :=
  match o with
  | Ok a => f a
  | Throw e => Throw e
  | UB w => UB w
  | Diverge => Diverge
  end.

Notation "'do' x <- o ; k" := (bind o (fun x => k))
  (at level 200, x pattern, o at level 100, k at level 200).

Definition omap {A B : Type} (f : A -> B) (o : outcome A) : outcome B :=
  bind o (fun a => Ok (f a)).

(** Left to right evaluation of a list of calls, stopping at the first failure. *)
Fixpoint mapM {A B : Type} (f : A -> outcome B) (l : list A) : outcome (list B) :=
  match l with
  | [] => Ok []
  | x :: r => bind (f x) (fun y => bind (mapM f r) (fun ys => Ok (y :: ys)))
  end.

Fixpoint foldM {A S : Type} (f : S -> A -> outcome S) (l : list A) (s : S) : outcome S :=
  match l with
  | [] => Ok s
  | x :: r => bind (f s x) (fun s' => foldM f r s')
  end.

Definition is_ok {A} (o : outcome A) : Prop := exists a, o = Ok a.
Definition throws {A} (o : outcome A) : Prop := exists e, o = Throw e.
Definition is_ub {A} (o : outcome A) : Prop := exists w, o = UB w.

(** std::vector::operator[] with an index that may be out of bounds. *)
Definition at_or_ub {A} (l : list A) (i : nat) (why : string) : outcome A :=
  match nth_error l i with Some a => Ok a | None => UB why end.
