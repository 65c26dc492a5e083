(** Specification of the unresolved resonance cross sections: averages over chi-square
    distributed widths by a quadrature rule, and the average collision function. *)
From Coq Require Import List ZArith Reals Bool.
From Verif Require Import QuantumSpec HardSphereSpec Cplx BreitWignerSpec.
Import ListNotations.
Open Scope R_scope.

(** The 10 point rules of MC^2-II for the chi-square distribution with n degrees of freedom and
    mean one: (weight, node) *)
Definition chi2_rule (n : nat) : list (R * R) :=
  match n with
  | 1%nat => [ (1.1120413e-1, 3.0013465e-3); (2.3546798e-1, 7.8592886e-2);
                (2.8440987e-1, 4.3282415e-1); (2.2419127e-1, 1.3345267);
                (1.0967668e-1, 3.0481846); (3.0493789e-2, 5.8263198);
                (4.2930874e-3, 9.9452656); (2.5827047e-4, 1.5782128e1);
                (4.9031965e-6, 2.3996824e1); (1.4079206e-8, 3.6216208e1) ]
  | 2%nat => [ (3.3773418e-2, 1.3219203e-2); (7.9932171e-2, 7.2349624e-2);
                (1.2835937e-1, 1.9089473e-1); (1.7652616e-1, 3.9528842e-1);
                (2.1347043e-1, 7.4083443e-1); (2.1154965e-1, 1.3498293);
                (1.3365186e-1, 2.5297983); (2.2630659e-2, 5.2384894);
                (1.6313638e-5, 1.3821772e1); (2.7453830e-31, 7.5647525e1) ]
  | 3%nat => [ (3.3376214e-4, 1.0004488e-3); (1.8506108e-2, 2.6197629e-2);
                (1.2309946e-1, 1.4427472e-1); (2.9918923e-1, 4.4484223e-1);
                (3.3431475e-1, 1.0160615); (1.7766657e-1, 1.9421066);
                (4.2695894e-2, 3.3150885); (4.0760575e-3, 5.2607092);
                (1.1766115e-4, 7.9989414); (5.0989546e-7, 1.2072069e1) ]
  | 4%nat => [ (1.7623788e-3, 1.3219203e-2); (2.1517749e-2, 7.2349624e-2);
                (8.0979849e-2, 1.9089473e-1); (1.8797998e-1, 3.9528842e-1);
                (3.0156335e-1, 7.4083443e-1); (2.9616091e-1, 1.3498293);
                (1.0775649e-1, 2.5297983); (2.5171914e-3, 5.2384894);
                (8.9630388e-10, 1.3821772e1); (0.0000000, 7.5647525e1) ]
  | _ => []
  end.
(** A width that does not fluctuate *)
Definition constant_rule : list (R * R) := [(1, 1)].

(** Average of a function of one, and of three independent, variables *)
Definition average (rule : list (R * R)) (f : R -> R) : R :=
  Rsum (map (fun p => fst p * f (snd p)) rule).
Definition average3 (r1 r2 r3 : list (R * R)) (f : R -> R -> R -> R) : R :=
  average r1 (fun a => average r2 (fun b => average r3 (f a b))).

(** Average of Gamma_n Gamma_x / Gamma over the widths, divided by the average widths *)
Section Integrals.
Variables (Gn Gg Gf Gx : R) (rn rf rx : list (R * R)).
Definition total_width (a b c : R) : R := a * Gn + Gg + b * Gf + c * Gx.
Definition I_elastic : R := average3 rn rf rx (fun a b c => a * a / total_width a b c).
Definition I_capture : R := average3 rn rf rx (fun a b c => a / total_width a b c).
Definition I_fission : R := average3 rn rf rx (fun a b c => a * b / total_width a b c).
Definition I_competition : R := average3 rn rf rx (fun a b c => a * c / total_width a b c).
End Integrals.

(** The straight line through two tabulated points that enclose x *)
Definition interpolated (pts : list (R * R)) (x y : R) : Prop :=
  exists l x0 y0 x1 y1 r, pts = l ++ (x0, y0) :: (x1, y1) :: r /\ x0 <= x <= x1 /\ x0 < x1 /\
    (x1 - x0) * (y - y0) = (y1 - y0) * (x - x0).

(** Energy-averaged collision function for phase phi and strength s = <Gamma_n> / D,
    e^{-2 i phi} (1 - pi s), and the total cross section 2 (1 - Re U) of the optical theorem in
    units of pi / k^2 g *)
Definition average_collision (pi : R) (U0 : cx) (s : R) : cx := cx_mul U0 (rcx (1 - pi * s)).
Definition optical_total (U : cx) : R := 2 * (1 - re U).

(** The rule for a width whose average may be zero *)
Definition width_rule (G : R) (n : nat) : list (R * R) :=
  if Req_EM_T G 0 then constant_rule else chi2_rule n.

(** The average parameters of one (l, J) at one energy: spacing, average widths, degrees of
    freedom *)
Record averages : Type := Averages
  { v_l : nat; v_J : Z; v_D : R; v_Gn : R; v_Gg : R; v_Gf : R; v_Gx : R;
    v_n : nat; v_f : nat; v_x : nat }.

(** Cross sections in units of pi / k^2 g.  Compound nucleus formation 2 pi Gn / D, shared out
    over the reactions; the elastic part interferes with the potential scattering. *)
Section Group.
Variables (pi : R) (v : averages) (U0 : cx).
Let rn := chi2_rule (v_n v).
Let rf := width_rule (v_Gf v) (v_f v).
Let rx := width_rule (v_Gx v) (v_x v).
Let integral (I : R -> R -> R -> R -> list (R * R) -> list (R * R) -> list (R * R) -> R) : R :=
  I (v_Gn v) (v_Gg v) (v_Gf v) (v_Gx v) rn rf rx.
Definition formation : R := 2 * pi * v_Gn v / v_D v.
Definition U_elastic : R :=
  formation * (v_Gn v * integral I_elastic) - formation * (1 - re U0).
Definition U_capture : R := formation * (v_Gg v * integral I_capture).
Definition U_fission : R := formation * (v_Gf v * integral I_fission).
Definition U_competition : R := formation * (v_Gx v * integral I_competition).
(** What the rules make of the average of 1: one for exact rules *)
Definition rule_total : R :=
  average rn (fun x => x) * average rf (fun _ => 1) * average rx (fun _ => 1).
End Group.

(** The total cross section, from the optical theorem: the hard sphere for every l up to lmax,
    and for each (l, J) the average collision function instead *)
Definition U_total (pi : R) (rho : R) (g : Z -> R) (lmax : nat) (vs : list averages) : R :=
  Rsum (map (fun l => (2 * INR l + 1) * optical_total (hard_sphere_U l rho)) (seq 0 (S lmax)))
  + Rsum (map (fun v =>
      let U0 := hard_sphere_U (v_l v) rho in
      g (v_J v) * (optical_total (average_collision pi U0 (v_Gn v / v_D v)) - optical_total U0)) vs).
