(** Quantum numbers: spin coupling, enumeration, retrieval and identifiers.

    All paths are relative to /repo/src/resonanceReconstruction.
    A spin (C++ double) is stored as twice its value in Z; the model therefore covers
    integer and half-integer spins, for which double arithmetic is exact. *)
From Coq Require Import String List ZArith DecimalString.
From Verif Require Import Outcome.
Import ListNotations.
Open Scope Z_scope.

(** rmatrix/ChannelQuantumNumbers.hpp:9-15 and src/ctor.hpp:9-13.
    [ql] is the unsigned l, [qs] and [qJ] are twice the channel spin and twice J. *)
Record qnum : Type := mkQ { ql : nat; qs : Z; qJ : Z; qp : Z }.

(** The loop shared by possibleChannelSpinValues.hpp:18-22 and
    possibleChannelTotalAngularMomentumValues.hpp:23-27 and 50-54:
      values = { min }; while ( max > values.back() ) values.push_back( values.back() + 1.0 );
    [back] is values.back(); the list returned is the final vector. *)
Fixpoint coupling_loop (fuel : nat) (max back : Z) : outcome (list Z) :=
  match fuel with
  | O => Diverge
  | S f => if max >? back
           then bind (coupling_loop f max (back + 2)) (fun r => Ok (back :: r))
           else Ok [back]
  end.

(** Enough iterations for the loop above (see QuantumProofs). *)
Definition coupling_fuel (min max : Z) : nat := S (Z.to_nat (max - min)).

(** rmatrix/src/possibleChannelSpinValues.hpp:14-24 *)
Definition possibleChannelSpinValues (i I : Z) : outcome (list Z) :=
  let min := Z.abs (i - I) in
  let max := i + I in
  coupling_loop (coupling_fuel min max) max min.

(** rmatrix/src/possibleChannelTotalAngularMomentumValues.hpp:45-56 *)
Definition possibleJ (l : nat) (s : Z) : outcome (list Z) :=
  let l2 := 2 * Z.of_nat l in
  let min := Z.abs (l2 - s) in
  let max := l2 + s in
  coupling_loop (coupling_fuel min max) max min.

(** rmatrix/src/possibleChannelTotalAngularMomentumValues.hpp:17-29 *)
Definition possibleJ3 (l : nat) (i I : Z) : outcome (list Z) :=
  let l2 := 2 * Z.of_nat l in
  let min := Z.abs (Z.abs (l2 - I) - i) in
  let max := l2 + I + i in
  coupling_loop (coupling_fuel min max) max min.

(** std::pow( -1, l ) >= 0. ? +1 : -1, rmatrix/src/makeQuantumNumbers.hpp:16 *)
Definition natural_parity (l : nat) : Z :=
  if (-1) ^ Z.of_nat l >=? 0 then 1 else -1.

(** rmatrix/src/makeQuantumNumbers.hpp:1-21.  The particle pair only contributes its two
    spins [i] and [I]. *)
Definition numbers_l_s (l : nat) (s : Z) : outcome (list qnum) :=
  bind (possibleJ l s) (fun js =>
  Ok (map (fun J => mkQ l s J (natural_parity l)) js)).

Definition numbers_l (l : nat) (spins : list Z) : outcome (list qnum) :=
  bind (mapM (numbers_l_s l) spins) (fun r => Ok (concat r)).

Definition makeQuantumNumbers (i I : Z) (lmax : nat) : outcome (list qnum) :=
  bind (possibleChannelSpinValues i I) (fun spins =>
  bind (mapM (fun l => numbers_l l spins) (seq 0 lmax)) (fun r =>
  Ok (concat r))).

(** The lambda of rmatrix/src/makeQuantumNumbers.hpp:38-41; [j] is twice the signed J. *)
Definition matches (l : nat) (j : Z) (q : qnum) : bool :=
  Nat.eqb (ql q) l && (qJ q =? Z.abs j).

(** rmatrix/src/makeQuantumNumbers.hpp:28-35 *)
Definition compareNumbers (a b : qnum) : bool :=
  Nat.eqb (ql a) (ql b) && (qs a =? qs b) && (qJ a =? qJ b) && (qp a =? qp b).

(** available.erase( std::find_if( ... ) ), makeQuantumNumbers.hpp:59-62.  Erasing the end
    iterator is undefined behaviour. *)
Fixpoint erase_first (n : qnum) (l : list qnum) : outcome (list qnum) :=
  match l with
  | [] => UB "erase(end())"
  | x :: r => if compareNumbers x n then Ok r
              else bind (erase_first n r) (fun r' => Ok (x :: r'))
  end.

(** rmatrix/src/makeQuantumNumbers.hpp:23-71.  The C++ function changes [available] in
    place; the model returns the changed list.  The message of the exception does not
    carry the numbers. *)
Definition retrieveQuantumNumber (l : nat) (j : Z) (available : list qnum)
  : outcome (qnum * list qnum) :=
  let filtered := filter (matches l j) available in
  match filtered with
  | [] => Throw (RuntimeError "None of the expected spin groups has this l and J")
  | front :: rest =>
      let numbers :=
        match rest with
        | [] => front
        | _ => if j <? 0 then front else last rest front
        end in
      bind (erase_first numbers available) (fun left => Ok (numbers, left))
  end.

(** A sequence of calls on the same vector, as done by
    rmatrix/src/makeReichMooreChannelData.hpp and makeLegacyBreitWignerSpinGroups.hpp. *)
Fixpoint retrieveAll (reqs : list (nat * Z)) (available : list qnum)
  : outcome (list qnum * list qnum) :=
  match reqs with
  | [] => Ok ([], available)
  | (l, j) :: r =>
      bind (retrieveQuantumNumber l j available) (fun '(q, rest) =>
      bind (retrieveAll r rest) (fun '(qs, rest') => Ok (q :: qs, rest')))
  end.

(** std::to_string on an integer *)
Definition to_string (z : Z) : string := NilZero.string_of_int (Z.to_int z).

(** rmatrix/ChannelQuantumNumbers/src/toString.hpp:10-18: std::modf splits off the
    fraction and truncates towards zero. *)
Definition toHalfIntegerString (a : Z) : string :=
  let half := Z.quot a 2 in
  if Z.rem a 2 =? 0 then to_string half
  else (to_string (2 * half + 1) ++ "/2")%string.

(** rmatrix/ChannelQuantumNumbers/src/toString.hpp:8-24 *)
Definition toString (q : qnum) : string :=
  ("{" ++ to_string (Z.of_nat (ql q)) ++ "," ++ toHalfIntegerString (qs q) ++ ","
       ++ toHalfIntegerString (qJ q) ++ (if (qp q >? 0)%Z then "+" else "-") ++ "}")%string.

(** rmatrix/Channel/src/makeChannelID.hpp:1-6 *)
Definition makeChannelID (id : string) (q : qnum) : string := (id ++ toString q)%string.

(** The key built in rmatrix/SpinGroup/src/evaluateTMatrix.hpp: current + "->" + id *)
Definition reactionChannelID (from to : string) : string := (from ++ "->" ++ to)%string.
