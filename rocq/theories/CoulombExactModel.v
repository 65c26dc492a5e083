(** Exact arithmetic for the Coulomb wave functions: real numbers together with what doubles
    have beyond them, the infinities and not-a-number.  Nothing is rounded, zero has no sign
    (it counts as positive in a quotient) and nothing overflows. *)
From Coq Require Import ZArith Reals Bool.
From Verif Require Import ListFacts CoulombWaveModel.
Open Scope R_scope.

Definition Rltb (x y : R) : bool := if Rlt_dec x y then true else false.
Definition Rleb (x y : R) : bool := if Rle_dec x y then true else false.

Inductive ext : Type := Fin (r : R) | Inf (positive : bool) | NaN.

Definition ext_opp (x : ext) : ext := match x with Fin a => Fin (- a) | Inf p => Inf (negb p) | NaN => NaN end.
Definition ext_add (x y : ext) : ext :=
  match x, y with
  | Fin a, Fin b => Fin (a + b)
  | NaN, _ | _, NaN => NaN
  | Inf p, Inf q => if Bool.eqb p q then Inf p else NaN
  | Inf p, _ | _, Inf p => Inf p
  end.
Definition ext_sub (x y : ext) : ext :=
  match x, y with
  | Fin a, Fin b => Fin (a - b)
  | _, _ => ext_add x (ext_opp y)
  end.
(** an infinity times or over a finite number other than zero *)
Definition signed (p : bool) (b : R) : ext := Inf (if Rltb b 0 then negb p else p).
Definition ext_mul (x y : ext) : ext :=
  match x, y with
  | Fin a, Fin b => Fin (a * b)
  | NaN, _ | _, NaN => NaN
  | Inf p, Inf q => Inf (Bool.eqb p q)
  | Inf p, Fin b | Fin b, Inf p => if Reqb b 0 then NaN else signed p b
  end.
Definition ext_div (x y : ext) : ext :=
  match x, y with
  | Fin a, Fin b => if Reqb b 0 then (if Reqb a 0 then NaN else signed true a) else Fin (a / b)
  | NaN, _ | _, NaN => NaN
  | Inf p, Inf q => NaN
  | Inf p, Fin b => signed p b
  | Fin a, Inf _ => Fin 0
  end.
Definition ext_abs (x : ext) : ext := match x with Fin a => Fin (Rabs a) | Inf _ => Inf true | NaN => NaN end.
Definition ext_lt (x y : ext) : bool :=
  match x, y with
  | Fin a, Fin b => Rltb a b
  | NaN, _ | _, NaN => false
  | Inf p, Inf q => negb p && q
  | Inf p, Fin _ => negb p
  | Fin _, Inf q => q
  end.
Definition ext_eq (x y : ext) : bool :=
  match x, y with
  | Fin a, Fin b => Reqb a b
  | Inf p, Inf q => Bool.eqb p q
  | _, _ => false
  end.
Definition ext_le (x y : ext) : bool := ext_lt x y || ext_eq x y.
(** fmax ignores an argument that is not a number *)
Definition ext_max (x y : ext) : ext :=
  match x, y with
  | NaN, z | z, NaN => z
  | _, _ => if ext_lt x y then y else x
  end.
Definition ext_sqrt (x : ext) : ext :=
  match x with
  | Fin a => if Rltb a 0 then NaN else Fin (sqrt a)
  | Inf true => Inf true
  | _ => NaN
  end.
Definition ext_exp (x : ext) : ext := match x with Fin a => Fin (exp a) | Inf true => Inf true | Inf false => Fin 0 | NaN => NaN end.
Definition ext_log (x : ext) : ext :=
  match x with
  | Fin a => if Rltb 0 a then Fin (ln a) else if Reqb a 0 then Inf false else NaN
  | Inf true => Inf true
  | _ => NaN
  end.
(** a function that wants a finite number *)
Definition finite (f : R -> R) (x : ext) : ext := match x with Fin a => Fin (f a) | _ => NaN end.
Definition ext_asin (x : ext) : ext :=
  match x with
  | Fin a => if Rleb (Rabs a) 1 then Fin (asin a) else NaN
  | _ => NaN
  end.
Definition ext_atan (x : ext) : ext :=
  match x with Fin a => Fin (atan a) | Inf p => Fin (if p then PI / 2 else - (PI / 2)) | NaN => NaN end.
(** std::pow for a positive base; the code takes powers of positive numbers only, so the rest
    is not worked out *)
Definition ext_pow (x y : ext) : ext :=
  match x, y with
  | Fin a, Fin b => if Rltb 0 a then Fin (Rpower a b) else NaN
  | _, _ => NaN
  end.
(** towards zero *)
Definition Rtrunc (a : R) : Z := if Rltb a 0 then (- Int_part (- a))%Z else Int_part a.
Definition ext_trunc (x : ext) : option Z :=
  match x with
  | Fin a => if ((-2147483648 <=? Rtrunc a) && (Rtrunc a <=? 2147483647))%Z then Some (Rtrunc a) else None
  | _ => None
  end.
Definition ext_dec (m e : Z) : ext :=
  Fin (match e with Z0 => IZR m | Zpos _ => IZR (m * 10 ^ e) | Zneg p => IZR m / IZR (10 ^ Zpos p) end).

Definition exact : arithmetic :=
  {| num := ext; dec := ext_dec; add := ext_add; sub := ext_sub; mul := ext_mul; div := ext_div; opp := ext_opp; fabs := ext_abs; fmax := ext_max;
     fsqrt := ext_sqrt; fexp := ext_exp; flog := ext_log; fsin := finite sin; fcos := finite cos; fasin := ext_asin; fatan := ext_atan; fpow := ext_pow;
     lt := ext_lt; le := ext_le; eqb := ext_eq; trunc := ext_trunc |}.
Canonical exact.
