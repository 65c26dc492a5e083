(** The Coulomb wave functions: coulombWaveFunctions and what it calls.
    Paths are relative to /repo/src/resonanceReconstruction/rmatrix/src.
    The arithmetic is a parameter, so that what is proved for all of them holds for doubles.
    omAsymptoticClosed and omExternalClosed (coh3-asympt.hpp:279-375, coh3-extwave.hpp:123-188) are never
    called and are left out. *)
From Coq Require Import String List ZArith Bool.
From Verif Require Import Outcome.
Import ListNotations.

(** What the code needs of double and cmath.  [dec m e] is the literal m * 10^e, [trunc] the
    conversion to int, which is undefined outside the range of int. *)
Record arithmetic : Type := mkArithmetic
  { num :> Type;
    dec : Z -> Z -> num;
    add : num -> num -> num; sub : num -> num -> num; mul : num -> num -> num; div : num -> num -> num;
    opp : num -> num; fabs : num -> num; fmax : num -> num -> num;
    fsqrt : num -> num; fexp : num -> num; flog : num -> num; fsin : num -> num; fcos : num -> num;
    fasin : num -> num; fatan : num -> num; fpow : num -> num -> num;
    lt : num -> num -> bool; le : num -> num -> bool; eqb : num -> num -> bool;
    trunc : num -> option Z }.
Arguments dec {a}. Arguments add {a}. Arguments sub {a}. Arguments mul {a}. Arguments div {a}. Arguments opp {a}.
Arguments fabs {a}. Arguments fmax {a}. Arguments fsqrt {a}. Arguments fexp {a}. Arguments flog {a}. Arguments fsin {a}.
Arguments fcos {a}. Arguments fasin {a}. Arguments fatan {a}. Arguments fpow {a}. Arguments lt {a}. Arguments le {a}.
Arguments eqb {a}. Arguments trunc {a}.
Declare Scope num_scope.
Delimit Scope num_scope with num.
Bind Scope num_scope with num.
Infix "+" := add : num_scope.
Infix "-" := sub : num_scope.
Infix "*" := mul : num_scope.
Infix "/" := div : num_scope.
Notation "- x" := (opp x) : num_scope.
Notation "# n" := (dec n%Z 0%Z) (at level 1, format "# n") : num_scope.

(** coh3-coulomb.hpp:8-13, coh3-asympt.hpp:11-17; MAX_ITER = 100, MAX_L = 60, MAX_L0 = 100 *)
Section Constants.
Variable A : arithmetic.
Definition CRIT_WRONSK : A := dec 1 (-6).
Definition CRIT_LMAX : A := dec 1 (-10).
Definition CRIT_ITER : A := dec 1 (-16).
Definition MESH_RHO : A := dec 1 (-2).
Definition CRIT_CNVRG : A := dec 1 (-10).
Definition BETA : A := dec 1 (-1).
Definition PI_2 : A := dec 157079632679489661923 (-20).
Definition PI_4 : A := dec 785398163397448309616 (-21).
End Constants.
Arguments CRIT_WRONSK {A}. Arguments CRIT_LMAX {A}. Arguments CRIT_ITER {A}. Arguments MESH_RHO {A}. Arguments CRIT_CNVRG {A}.
Arguments BETA {A}. Arguments PI_2 {A}. Arguments PI_4 {A}.

Section Coulomb.
Variable A : arithmetic.
Local Open Scope num_scope.

(** coh3-asympt.hpp:22-68 *)
Definition omGcase1 (ra y : A) : A * A :=
  let y1 := #1 / (#2 * y) in
  let t := ra * y1 in
  let t1 := #1 - t in
  let t2 := t * t1 * t1 * t1 in
  let t3 := fsqrt t2 in
  let g0 := fsqrt (t * t1) + fasin (fsqrt t) - PI_2 in
  let g1 := flog (t / t1) / #4 in
  let g2 := - (#8 * t * t - #12 * t + #9) / (#48 * t3) in
  let g3 := (#8 * t - #3) / (#64 * t2) in
  let g4 := (t * (t * (t * (t * (t * (#2048 * t - #9216) + #16128) - #13440) - #12240) + #7560) - #1890) / (#92160 * t2 * t3) in
  let g5 := #3 * (t * (t * (#1024 * t - #448) + #208) - #39) / (#8192 * t2 * t2) in
  let g6 := - (t * (t * (t * (t * (t * (t * (t * (t * (t * (#262144 * t - #1966080) + #6389760) - #11714560)
                 + #13178880) - #9225216) + #13520640) - #3588480) + #2487240) - #873180) + #130977) / (#10321920 * t2 * t2 * t3) in
  let g7 := (t * (t * (t * (t * (#1105920 * t - #55296) + #314624) - #159552) + #45576) - #5697) / (#393216 * t2 * t2 * t2) in
  let q := #(-2) * y * g0 + g1 - y1 * (g2 - y1 * (g3 - y1 * (g4 - y1 * (g5 - y1 * (g6 - g7 * y1))))) in
  if lt #100 q then (#0, #0)
  else
    let p0 := fexp q in
    let g0 := fsqrt (t1 / t) in
    let g1 := #1 / (#4 * t * t1) in
    let g2 := - (#8 * t - #3) / (#32 * fsqrt (fpow t #3 * fpow t1 #5)) in
    let g3 := #3 * (#8 * t * t - #4 * t + #1) / (#64 * t * t * fpow t1 #4) in
    let g4 := - (t * (t * (#1536 * t - #704) + #336) - #63) / (#2048 * fsqrt (fpow t #5 * fpow t1 #11)) in
    let g5 := #3 * (t * (t * (t * (#2560 * t - #832) + #728) - #260) + #39) / (#4096 * t * t * t * fpow t1 #7) in
    let g6 := (t * (t * (t * (t * (#(-368640) * t - #30720) + #114944) - #57792) + #16632) - #2079)
              / (#65536 * fsqrt (fpow t #7 * fpow t1 #17)) in
    let g7 := #3 * (t * (t * (t * (t * (t * (#860160 * t + #196608) + #308480) - #177280) + #73432) - #17724) + #1899)
              / (#131072 * fpow t #4 * fpow t1 #10) in
    (p0, p0 * y1 * (#(-2) * y * g0 + g1 - y1 * (g2 - y1 * (g3 - y1 * (g4 - y1 * (g5 - y1 * (g6 - g7 * y1))))))).

(** coh3-asympt.hpp:73-83 *)
Definition omGcase2 (y : A) : A * A :=
  (dec 1223404016 (-9) * fpow y (#1 / #6)
     * (#1 + dec 4959570165 (-11) * fpow y (#(-4) / #3) - dec 8888888889 (-12) * fpow y #(-2)
        + dec 2455199181 (-12) * fpow y (#(-10) / #3) - dec 9108958061 (-13) * fpow y #(-4)
        + dec 2534684115 (-13) * fpow y (#(-16) / #3)),
   dec (-7078817734) (-10) * fpow y (#(-1) / #6)
     * (#1 - dec 1728260369 (-10) * fpow y (#(-2) / #3) + dec 3174603174 (-13) * fpow y #(-2)
        - dec 3581214850 (-12) * fpow y (#(-8) / #3) + dec 3117824680 (-13) * fpow y #(-4)
        - dec 9073966427 (-13) * fpow y (#(-14) / #3))).

(** The for loop of coh3-asympt.hpp:100-118 from index [i], [n] turns before MAX_ITER; the
    state is gs, gt, ps, pt and gs0, gt0, ps0, pt0.  The variable flag set by the break has no
    effect, since the code sets it or leaves the outer loop right after. *)
Fixpoint asymptoticSeries (n : nat) (i : Z) (ra y gs gt ps pt gs0 gt0 ps0 pt0 : A) : A * A * A * A :=
  match n with
  | O => (gs, gt, ps, pt)
  | S n =>
      let c := dec (2 * (i + 1))%Z 0 * ra in
      let a := dec (2 * i + 1)%Z 0 * y / c in
      let b := (y * y - dec (i * (i + 1))%Z 0) / c in
      if lt #1 (a * a + b * b) then (gs, gt, ps, pt)
      else
        let gs1 := a * gs0 - b * gt0 in
        let gt1 := a * gt0 + b * gs0 in
        let ps1 := a * ps0 - b * pt0 - gs1 / ra in
        let pt1 := a * pt0 + b * ps0 - gt1 / ra in
        if lt (fabs (#1 - gs1 / gs0)) CRIT_ITER && lt (fabs (#1 - ps1 / ps0)) CRIT_ITER then (gs, gt, ps, pt)
        else asymptoticSeries n (i + 1) ra y (gs + gs1) (gt + gt1) (ps + ps1) (pt + pt1) gs1 gt1 ps1 pt1
  end.
(** The do loop of coh3-asympt.hpp:95-128; None is the early return *)
Fixpoint asymptoticLoop (fuel : nat) (iter : Z) (ra y : A) : outcome (option (A * A * A * A)) :=
  match fuel with
  | O => Diverge
  | S fuel =>
      let '(gs, gt, ps, pt) := asymptoticSeries 100 0 ra y #1 #0 #0 (#1 - y / ra) #1 #0 #0 (#1 - y / ra) in
      if le (fabs (gs * pt - ps * gt - #1)) CRIT_WRONSK then Ok (Some (gs, gt, ps, pt))
      else if (100 <? iter + 1)%Z then Ok None
      else asymptoticLoop fuel (iter + 1) (ra + #5) y
  end.
(** coh3-asympt.hpp:88-132 *)
Definition omGcase3 (ra y sig : A) : outcome (A * A) :=
  let phi := ra - y * flog (#2 * ra) + sig in
  do o <- asymptoticLoop 101 0 ra y ;
  Ok match o with
     | None => (#0, #0)
     | Some (gs, gt, ps, pt) => (gs * fcos phi - gt * fsin phi, ps * fcos phi - pt * fsin phi)
     end.

(** coh3-asympt.hpp:137-180 *)
Definition omGcase4 (ra y : A) : A * A :=
  let x := #2 * y / ra in
  let x1 := #1 / (#1 - x) in
  let x2 := fsqrt (#1 - x) in
  let y1 := #1 / (#2 * y) in
  let y2 := y1 * y1 in
  let g0 := y2 * x1 * x1 * x1 in
  let g1 := - (x * (#9 * x - #12) + #8) / #48 in
  let g2 := - (x * (x * (x * (x * (x * (#(-1890) * x + #7560) - #12240) - #13440) + #16128) - #9216) + #2048) / #92160 in
  let g3 := - (x * (x * (x * (x * (x * (x * (x * (x * (x * (#130977 * x - #873180) + #2487240) - #3588480) + #13520640) - #9225216)
                 + #15178880) - #11714560) + #6389760) - #1966080) + #262144) / #10321920 in
  let g4 := #2 * y * (x2 / x + dec 5 (-1) * flog ((#1 - x2) / (#1 + x2))) + PI_4 in
  let fai := g4 + fsqrt g0 * (g1 + g0 * (g2 + g0 * g3)) in
  let g0 := g0 * (x * x) in
  let g1 := - (#8 - #3 * x) / #64 in
  let g2 := #3 * (x * (x * (#(-39) * x + #208) - #448) + #1024) / #8192 in
  let g3 := - (x * (x * (x * (x * (#(-5697) * x + #45576) - #159552) + #314624) - #55296) + #1105920) / #393216 in
  let psi := x * g0 * (g1 + g0 * (g2 + g0 * g3)) in
  let g1 := (#8 - #3 * x) / #32 in
  let g2 := - (x * (x * (#(-63) * x + #336) - #704) + #1536) / #2048 in
  let g3 := (x * (x * (x * (x * (#(-2079) * x + #16632) - #57792) + #114944) - #30720) + #368640) / #65536 in
  let a := x2 / x * (#1 / x + g0 * (g1 + g0 * (g2 + g0 * g3))) in
  let g1 := #(-3) * (x * (x - #4) + #8) / #64 in
  let g2 := #3 * (x * (x * (x * (#39 * x - #260) + #728) - #832) + #2560) / #4096 in
  let g3 := #(-3) * (x * (x * (x * (x * (x * (#1899 * x - #17724) + #73432) - #177280) + #308480) + #196608) + #860160) / #131072 in
  let b := x1 * y1 / #4 + g0 * (g1 + g0 * (g2 + g0 * g3)) in
  let m := #1 / fsqrt x2 * fexp psi in
  let p0 := m * fcos fai in
  (p0, - x * x * (a * m * fsin fai + b * p0)).

(** The do loop of coh3-asympt.hpp:203-215: g1, f1 and r1, or the early return *)
Fixpoint newmarkStep (fuel : nat) (itr : Z) (h h2 bt y x g0 f0 r0 r1 : A) : outcome (option (A * A * A)) :=
  match fuel with
  | O => Diverge
  | S fuel =>
      let f1 := f0 + h * (r0 + r1) / #2 in
      let g1 := g0 + h * f0 + h2 * r0 / #2 + bt * (r1 - r0) in
      let s1 := (y / x - #1) * g1 in
      let e := if negb (eqb s1 #0) then fabs (#1 - r1 / s1) else fabs (s1 - r1) in
      if (100 <? itr + 1)%Z then Ok None
      else if lt CRIT_CNVRG e then newmarkStep fuel (itr + 1) h h2 bt y x g0 f0 r0 s1
      else Ok (Some (g1, f1, s1))
  end.
(** The for loop of coh3-asympt.hpp:200-219, [n] turns from index [i] *)
Fixpoint newmarkLoop (n : nat) (i : Z) (h h2 bt y ra g0 f0 r0 r1 : A) : outcome (A * A) :=
  match n with
  | O => Ok (g0, f0)
  | S n =>
      do o <- newmarkStep 101 0 h h2 bt y (ra + dec i 0 * h) g0 f0 r0 r1 ;
      match o with
      | None => Ok (#0, #0)
      | Some (g1, f1, r1) => newmarkLoop n (i + 1) h h2 bt y ra g1 f1 r1 r1
      end
  end.
(** coh3-asympt.hpp:188-222; y *= 2.0 is y * 2.0 *)
Definition omNewmark (n : Z) (h y ra p0 p1 : A) : outcome (A * A) :=
  let y := y * #2 in
  let h := - h in
  let h2 := h * h in
  let bt := h2 * BETA in
  let r0 := (y / ra - #1) * p0 in
  newmarkLoop (Z.to_nat n) 1 h h2 bt y ra p0 p1 r0 r0.

(** coh3-asympt.hpp:233-260: where the values are known, and the values *)
Definition startAsymptotic (rm coulomb sigma0 : A) : outcome (A * (A * A)) :=
  if le #15 coulomb then
    let ra := #16 in
    if lt ra rm then
      if le rm (#5 * coulomb / #3 - #5) then Ok (rm, omGcase1 rm coulomb)
      else Ok (#2 * coulomb, omGcase2 coulomb)
    else Ok (ra, omGcase1 ra coulomb)
  else if le #5 coulomb then
    let ra := #2 * coulomb in
    if lt ra rm then
      let ra := dec 25 (-1) * coulomb + dec 75 (-1) in
      let ra := if lt ra rm then rm else ra in
      Ok (ra, omGcase4 ra coulomb)
    else Ok (ra, omGcase2 coulomb)
  else
    let ra := #2 * coulomb + #10 in
    let ra := if lt ra rm then rm else ra in
    do p <- omGcase3 ra coulomb sigma0 ; Ok (ra, p).
(** An int that does not fit *)
Definition int_value (z : Z) : outcome Z :=
  if ((-2147483648 <=? z) && (z <=? 2147483647))%Z then Ok z else UB "signed integer overflow".
(** coh3-asympt.hpp:228-271 *)
Definition omAsymptotic (rm coulomb sigma0 : A) : outcome (A * A) :=
  do (ra, p) <- startAsymptotic rm coulomb sigma0 ;
  let (p0, p1) := p in
  if negb (eqb p0 #0) && negb (eqb p1 #0) then
    let dr := ra - rm in
    if negb (eqb dr #0) then
      match trunc (dr / MESH_RHO) with
      | None => UB "conversion to int out of range"
      | Some k =>
          do m <- int_value (k + 1) ;
          do n <- int_value (Z.abs m) ;
          omNewmark n (dr / dec n 0) coulomb ra p0 p1
      end
    else Ok (p0, p1)
  else Ok (p0, p1).

(** coh3-extwave.hpp:14-40 *)
Definition omGfunction (l : Z) (eta rho g1 g2 : A) : A :=
  let j := dec l 0 in
  let j1 := dec (l + 1)%Z 0 in
  ((j + j1) * (eta + j * j1 / rho) * g2 - j1 * fsqrt (j * j + eta * eta) * g1) / (j * fsqrt (j1 * j1 + eta * eta)).
Definition omFfunction (l : Z) (eta rho g1 g2 : A) : A :=
  let j := dec l 0 in
  let j1 := dec (l + 1)%Z 0 in
  ((j + j1) * (eta + j * j1 / rho) * g2 - j * fsqrt (j1 * j1 + eta * eta) * g1) / (j1 * fsqrt (j * j + eta * eta)).
Definition omDfunction (l : Z) (eta rho g1 g2 : A) : A :=
  let j1 := dec (l + 1)%Z 0 in
  ((eta + j1 * j1 / rho) * g1 - fsqrt (j1 * j1 + eta * eta) * g2) / j1.

(** A complex number, and an array of them *)
Definition pair_of : Type := A * A.
Definition array_get (a : list pair_of) (l : Z) : outcome pair_of :=
  if (l <? 0)%Z then UB "array index out of bounds" else at_or_ub a (Z.to_nat l) "array index out of bounds".
Definition array_set (a : list pair_of) (l : Z) (x : pair_of) : outcome (list pair_of) :=
  do _ <- array_get a l ;
  Ok (firstn (Z.to_nat l) a ++ x :: skipn (S (Z.to_nat l)) a).
Definition array_imag (a : list pair_of) (l : Z) (x : A) : outcome (list pair_of) :=
  do v <- array_get a l ; array_set a l (fst v, x).

(** The loop of coh3-extwave.hpp:71-76 from [l]: the last l and the array *)
Fixpoint gLoop (fuel : nat) (lmax l : Z) (eta rho a p1 p2 : A) (wfn : list pair_of) : outcome (Z * list pair_of) :=
  match fuel with
  | O => Diverge
  | S fuel =>
      if (l <? 59)%Z then
        let p3 := omGfunction l eta rho p1 p2 in
        do wfn <- array_set wfn (l + 1) (p3, #0) ;
        if lt (a / (p3 * p3)) CRIT_LMAX && (lmax <=? l)%Z then Ok (l, wfn)
        else gLoop fuel lmax (l + 1) eta rho a p2 p3 wfn
      else Ok (l, wfn)
  end.
(** The loop of coh3-extwave.hpp:85-89 down from [l] *)
Fixpoint fLoop (l : nat) (lmax : Z) (eta rho p1 p2 : A) (wfn : list pair_of) : outcome (list pair_of) :=
  match l with
  | O => Ok wfn
  | S k =>
      let p3 := omFfunction (Z.of_nat l) eta rho p1 p2 in
      do wfn <- (if (Z.of_nat l <=? lmax + 2)%Z then array_imag wfn (Z.of_nat k) p3 else Ok wfn) ;
      fLoop k lmax eta rho p2 p3 wfn
  end.
(** The loop of coh3-extwave.hpp:95, [n] turns from [l] *)
Fixpoint scaleLoop (n : nat) (l : Z) (a : A) (wfn : list pair_of) : outcome (list pair_of) :=
  match n with
  | O => Ok wfn
  | S n =>
      do v <- array_get wfn l ;
      do wfn <- array_imag wfn l (snd v * a) ;
      scaleLoop n (l + 1) a wfn
  end.
(** The loop of coh3-extwave.hpp:96-109, [n] turns from [l]: whether the check failed, and
    the derivatives *)
Fixpoint checkLoop (n : nat) (l : Z) (eta rho : A) (wfn dfn : list pair_of) : outcome (bool * list pair_of) :=
  match n with
  | O => Ok (false, dfn)
  | S n =>
      do v <- array_get wfn l ;
      do v1 <- array_get wfn (l + 1) ;
      let wr := omDfunction l eta rho (fst v) (fst v1) in
      let wi := omDfunction l eta rho (snd v) (snd v1) in
      do dfn <- array_set dfn l (wr, wi) ;
      let a := wi * fst v - wr * snd v in
      if lt CRIT_WRONSK (fabs (a - #1)) then Ok (true, dfn)
      else checkLoop n (l + 1) eta rho wfn dfn
  end.
(** The do loop of coh3-extwave.hpp:82-115 *)
Fixpoint passes (fuel : nat) (l0 lmax : Z) (eta rho g0 g1 : A) (wfn dfn : list pair_of) : outcome (list pair_of * list pair_of) :=
  match fuel with
  | O => Diverge
  | S fuel =>
      do wfn <- fLoop (Z.to_nat l0) lmax eta rho #0 (dec 1 (-36)) wfn ;
      do v0 <- array_get wfn 0 ;
      do v1 <- array_get wfn 1 ;
      let a := #1 / ((snd v0 * g1 - g0 * snd v1) * fsqrt (#1 + eta * eta)) in
      do wfn <- scaleLoop (Z.to_nat (lmax + 2)) 0 a wfn ;
      do (failed, dfn) <- checkLoop (Z.to_nat (lmax + 1)) 0 eta rho wfn dfn ;
      let l0 := if failed then (l0 + 10)%Z else l0 in
      if (100 <? l0)%Z then Throw (RuntimeError "std::exception")
      else if failed then passes fuel l0 lmax eta rho g0 g1 wfn dfn
      else Ok (wfn, dfn)
  end.
(** coh3-extwave.hpp:51-67: g0 and g1, or the early return *)
Definition startValues (rho eta sigma0 : A) : outcome (option (A * A)) :=
  if eqb eta #0 then
    let g0 := fcos rho in Ok (Some (g0, g0 / rho + fsin rho))
  else
    do (p1, p2) <- omAsymptotic rho eta sigma0 ;
    if eqb p1 #0 && eqb p2 #0 then Ok None
    else Ok (Some (p1, ((eta + #1 / rho) * p1 - p2) / fsqrt (#1 + eta * eta))).
(** coh3-extwave.hpp:46-118: what follows the starting values; the value returned is not used *)
Definition omWaves (lmax : Z) (rho eta g0 g1 : A) (wfn dfn : list pair_of) : outcome (list pair_of * list pair_of) :=
  do wfn <- array_set wfn 0 (g0, #0) ;
  do wfn <- array_set wfn 1 (g1, #0) ;
  let a := if eqb eta #0 then #1 else fmax (g0 * g0) (g1 * g1) in
  do (l, wfn) <- gLoop 59 lmax 1 eta rho a g0 g1 wfn ;
  let lmax := if (l =? 59)%Z then (l - 1)%Z else l in
  passes 11 (lmax + 10) lmax eta rho g0 g1 wfn dfn.
Definition omExternalFunction (lmax : Z) (rho eta sigma0 : A) (wfn dfn : list pair_of) : outcome (list pair_of * list pair_of) :=
  do start <- startValues rho eta sigma0 ;
  match start with
  | None => do wfn <- array_set wfn 0 (#0, #0) ; Ok (wfn, dfn)
  | Some (g0, g1) => omWaves lmax rho eta g0 g1 wfn dfn
  end.

(** coh3-coulomb.hpp:18-38; std::complex is zero when it is made *)
Definition sigma0_of (eta : A) : A :=
  let y2 := eta * eta in
  let y3 := #16 + y2 in
  let y4 := y3 * y3 in
  - eta + eta * flog y3 / #2 + dec 35 (-1) * fatan (eta / #4)
  - (fatan eta + fatan (eta / #2) + fatan (eta / #3))
  - eta * (#1 + (y2 - #48) / (#30 * y4) + (y2 * y2 - #160 * y2 + #1280) / (#105 * y4 * y4)) / (#12 * y3).
Definition coulombWaveFunctions (l : Z) (rho eta : A) : outcome (pair_of * pair_of) :=
  let zeros := repeat (#0, #0) 60 in
  do (wfn, dfn) <- omExternalFunction l rho eta (sigma0_of eta) zeros zeros ;
  do gf <- array_get wfn l ;
  do dgf <- array_get dfn l ;
  Ok (gf, dgf).
End Coulomb.
