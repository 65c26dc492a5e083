(** A double holds the half-integer a/2. *)
From Coq Require Import List ZArith Reals.
From Flocq Require Import IEEE754.BinarySingleNaN.
From Verif Require Import Outcome QuantumModel DoubleModel.
Open Scope Z_scope.

Definition holds (x : double) (a : Z) : Prop := is_finite x = true /\ B2R x = (IZR a / 2)%R.
Definition holds_number (q : qnum64) (n : qnum) : Prop :=
  xl q = ql n /\ holds (xs q) (qs n) /\ holds (xJ q) (qJ n) /\ xp q = qp n.
(** Both computations return, and return the same; or both end in the same other way. *)
Definition same_outcome {A B} (R : A -> B -> Prop) (o : outcome A) (o' : outcome B) : Prop :=
  match o, o' with
  | Ok a, Ok b => R a b
  | Throw e, Throw e' => e = e'
  | UB s, UB s' => s = s'
  | Diverge, Diverge => True
  | _, _ => False
  end.
