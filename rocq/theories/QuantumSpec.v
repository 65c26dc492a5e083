(** Specification of spin coupling, independent of the model: the triangle rule. *)
From Coq Require Import String Ascii List ZArith Reals.
From Verif Require Import QuantumModel.
Import ListNotations.
Open Scope Z_scope.

(** Doubled angular momenta a, b couple to c. *)
Definition triangle (a b c : Z) : Prop :=
  Z.abs (a - b) <= c <= a + b /\ Z.Even (a + b + c).

(** A spin is an integer or half-integer that is not negative (doubled: any Z >= 0). *)
Definition is_spin (a : Z) : Prop := 0 <= a.

(** Identifiers that do not use the brackets reserved for quantum numbers. *)
Fixpoint no_brace (s : string) : Prop :=
  match s with
  | EmptyString => True
  | String c r => c <> "{"%char /\ c <> "}"%char /\ no_brace r
  end.

(** What the enumeration should contain (the record [qnum] is the only thing taken from the
    model). *)
Definition spec_number (i I : Z) (lmax : nat) (q : qnum) : Prop :=
  (ql q < lmax)%nat /\ triangle i I (qs q) /\ triangle (2 * Z.of_nat (ql q)) (qs q) (qJ q) /\
  qp q = (if Nat.even (ql q) then 1 else -1).

(** The observable behaviour of one call: a matching entry is taken out, nothing else
    changes, and the sign of j decides between the first and the last match. *)
Definition retrieved (l : nat) (j : Z) (av : list qnum) (q : qnum) (left : list qnum) : Prop :=
  ql q = l /\ qJ q = Z.abs j /\
  exists a b, av = a ++ q :: b /\ left = a ++ b /\
    (j < 0 -> forall q', In q' a -> ~ (ql q' = l /\ qJ q' = Z.abs j)) /\
    (0 <= j -> NoDup av -> forall q', In q' b -> ~ (ql q' = l /\ qJ q' = Z.abs j)).

(** Quantum numbers that can occur: spins that are not negative, a parity of +1 or -1. *)
Definition valid_qnum (q : qnum) : Prop := 0 <= qs q /\ 0 <= qJ q /\ (qp q = 1 \/ qp q = -1).

(** [js] lists, once each, the J values that orbital l can couple to for a projectile of
    spin 1/2 on a target of (doubled) spin I. *)
Definition all_J_of (I : Z) (l : nat) (js : list Z) : Prop :=
  NoDup js /\ forall J, In J js <-> exists s, triangle 1 I s /\ triangle (2 * Z.of_nat l) s J.

Definition Rsum (l : list R) : R := fold_right Rplus 0%R l.

(** The statistical factor (2J+1)/(2(2I+1)), from the doubled J and I. *)
Definition g_neutron (I J : Z) : R := ((IZR J + 1) / (2 * (IZR I + 1)))%R.
