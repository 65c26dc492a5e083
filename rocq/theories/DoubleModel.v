(** The quantum number code on doubles: the functions of QuantumModel.v with the arithmetic they
    have in the source, IEEE 754 binary64 rounded to nearest (Flocq).
    Paths are relative to /repo/src/resonanceReconstruction. *)
From Coq Require Import String List ZArith.
From Flocq Require Import Core.Zaux IEEE754.BinarySingleNaN.
From Verif Require Import Outcome QuantumModel.
Import ListNotations.
Open Scope Z_scope.

Definition double : Type := binary_float 53 1024.
Definition plus : double -> double -> double := Bplus (prec := 53) (emax := 1024) (prec_gt_0_ := eq_refl) (prec_lt_emax_ := eq_refl) mode_NE.
Definition minus : double -> double -> double := Bminus (prec := 53) (emax := 1024) (prec_gt_0_ := eq_refl) (prec_lt_emax_ := eq_refl) mode_NE.
(** conversion from an integer type *)
Definition double_of (z : Z) : double := binary_normalize 53 1024 eq_refl eq_refl mode_NE z 0 false.

(** rmatrix/ChannelQuantumNumbers.hpp:9-15 *)
Record qnum64 : Type := mkQ64 { xl : nat; xs : double; xJ : double; xp : Z }.

(** values = { min }; while ( max > values.back() ) values.push_back( values.back() + 1.0 );
    with [fuel] iterations at most *)
Fixpoint loop64 (fuel : nat) (max back : double) : outcome (list double) :=
  match fuel with
  | O => Diverge
  | S f => if Bltb back max
           then bind (loop64 f max (plus back (double_of 1))) (fun r => Ok (back :: r))
           else Ok [back]
  end.

(** rmatrix/src/possibleChannelSpinValues.hpp:14-24 *)
Definition spins64 (fuel : nat) (i I : double) : outcome (list double) :=
  loop64 fuel (plus i I) (Babs (minus i I)).
(** rmatrix/src/possibleChannelTotalAngularMomentumValues.hpp:45-56; the unsigned l is converted *)
Definition J64 (fuel : nat) (l : nat) (s : double) : outcome (list double) :=
  loop64 fuel (plus (double_of (Z.of_nat l)) s) (Babs (minus (double_of (Z.of_nat l)) s)).
(** rmatrix/src/possibleChannelTotalAngularMomentumValues.hpp:17-29 *)
Definition J3_64 (fuel : nat) (l : nat) (i I : double) : outcome (list double) :=
  let l' := double_of (Z.of_nat l) in
  loop64 fuel (plus (plus l' I) i) (Babs (minus (Babs (minus l' I)) i)).

(** rmatrix/src/makeQuantumNumbers.hpp:1-21 *)
Definition numbers_l_s64 (fuel : nat) (l : nat) (s : double) : outcome (list qnum64) :=
  bind (J64 fuel l s) (fun js => Ok (map (fun J => mkQ64 l s J (natural_parity l)) js)).
Definition numbers_l64 (fuel : nat) (l : nat) (spins : list double) : outcome (list qnum64) :=
  bind (mapM (numbers_l_s64 fuel l) spins) (fun r => Ok (concat r)).
Definition makeQuantumNumbers64 (fuel : nat) (i I : double) (lmax : nat) : outcome (list qnum64) :=
  bind (spins64 fuel i I) (fun spins =>
  bind (mapM (fun l => numbers_l64 fuel l spins) (seq 0 lmax)) (fun r =>
  Ok (concat r))).

(** rmatrix/src/makeQuantumNumbers.hpp:23-71 *)
Definition matches64 (l : nat) (j : double) (q : qnum64) : bool :=
  (Nat.eqb (xl q) l && Beqb (xJ q) (Babs j))%bool.
Definition compareNumbers64 (a b : qnum64) : bool :=
  (Nat.eqb (xl a) (xl b) && Beqb (xs a) (xs b) && Beqb (xJ a) (xJ b) && (xp a =? xp b))%bool.
Fixpoint erase_first64 (n : qnum64) (l : list qnum64) : outcome (list qnum64) :=
  match l with
  | [] => UB "erase(end())"
  | x :: r => if compareNumbers64 x n then Ok r
              else bind (erase_first64 n r) (fun r' => Ok (x :: r'))
  end.
Definition retrieveQuantumNumber64 (l : nat) (j : double) (available : list qnum64)
  : outcome (qnum64 * list qnum64) :=
  match filter (matches64 l j) available with
  | [] => Throw (RuntimeError "None of the expected spin groups has this l and J")
  | front :: rest =>
      let numbers := match rest with
                     | [] => front
                     | _ => if Bltb j (double_of 0) then front else last rest front
                     end in
      bind (erase_first64 numbers available) (fun left => Ok (numbers, left))
  end.

(** static_cast<int>: undefined behaviour for a number that is not finite or does not fit *)
Definition to_int (x : double) : outcome Z :=
  if (is_finite x && (- 2 ^ 31 <=? Btrunc x) && (Btrunc x <? 2 ^ 31))%bool then Ok (Btrunc x) else UB "conversion to int".
Definition in_int (z : Z) : outcome Z :=
  if ((- 2 ^ 31 <=? z) && (z <? 2 ^ 31))%bool then Ok z else UB "signed overflow".
(** rmatrix/ChannelQuantumNumbers/src/toString.hpp:10-18: std::modf gives the part before the point
    and what is left, both exact; for an infinity the conversion is undefined anyway *)
Definition toHalfIntegerString64 (a : double) : outcome string :=
  let half := if is_finite a then double_of (Btrunc a) else a in
  bind (to_int half) (fun h =>
  if (is_finite a && Beqb a half)%bool then Ok (to_string h)
  else bind (in_int (2 * h)) (fun h2 => bind (in_int (h2 + 1)) (fun n => Ok (to_string n ++ "/2")%string))).
(** rmatrix/ChannelQuantumNumbers/src/toString.hpp:8-24 *)
Definition toString64 (q : qnum64) : outcome string :=
  bind (toHalfIntegerString64 (xs q)) (fun s => bind (toHalfIntegerString64 (xJ q)) (fun J =>
  Ok ("{" ++ to_string (Z.of_nat (xl q)) ++ "," ++ s ++ "," ++ J ++ (if (xp q >? 0)%Z then "+" else "-") ++ "}")%string)).
