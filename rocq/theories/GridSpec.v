(** What the energy grids should be. *)
From Coq Require Import List ZArith Reals Sorted.
Import ListNotations.
Open Scope R_scope.

Definition increasing (l : list R) : Prop := StronglySorted Rlt l.

(** Neighbours in a list *)
Definition consecutive (l : list R) (x y : R) : Prop := exists a b, l = a ++ x :: y :: b.

(** The fixed points of every decade *)
Definition mantissas : list R := [1; 5/4; 3/2; 17/10; 2; 5/2; 3; 7/2; 4; 5; 6; 36/5; 17/2].
Definition decade_point (x : R) : Prop := exists m e, In m mantissas /\ x = m * powerRZ 10 e.

(** A refinement of a list of energies *)
Record refinement (es out : list R) : Prop := Refinement
  { rf_increasing : increasing out;
    rf_keeps : forall e, In e es -> In e out;
    rf_adds : forall x, In x out -> In x es \/
      (decade_point x /\ exists p c, In p es /\ In c es /\ 0 < p /\ p < x < c /\ 5/4 * p < c /\
         forall e, In e es -> ~ p < e < c);
    rf_steps : forall x y, consecutive out x y -> 0 < x -> y <= 5/4 * x }.
