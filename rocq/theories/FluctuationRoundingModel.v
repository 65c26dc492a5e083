(** The fluctuation integrals on doubles: calculateFluctuationIntegrals of UnresolvedModel.v with
    every operation rounded to nearest.  Each operation of the source is taken to be one IEEE
    operation (no fused multiply-add, no extended precision), in the order the source has them.
    Paths are relative to /repo/src/resonanceReconstruction/rmatrix. *)
From Coq Require Import String List ZArith.
From Flocq Require Import Core.Zaux IEEE754.BinarySingleNaN.
From Verif Require Import Outcome QuantumModel UnresolvedModel DoubleModel RoundingModel.
Import ListNotations.
Open Scope Z_scope.

(** The double m * 2^e *)
Definition literal (p : Z * Z) : double := binary_normalize 53 1024 eq_refl eq_refl mode_NE (fst p) (snd p) false.
(** legacy/unresolved/src/calculateFluctuationIntegrals.hpp:16-28, the weights: for each decimal
    number, which is given in the comment, the nearest double *)
Definition weight_literals : list (list (Z * Z)) :=
  [
    [(8013102054880963, -56); (4867262487034496, -57); (6156824778073618, -64); (8127537671132838, -62)] (* 1.1120413E-01 3.3773418E-02 3.3376214E-04 1.7623788E-03 *);
    [(8483628055885467, -55); (5759719928488236, -56); (5334022469944202, -58); (6202068888208119, -58)] (* 2.3546798E-01 7.9932171E-02 1.8506108E-02 2.1517749E-02 *);
    [(5123472738209965, -54); (4624633687212093, -55); (8870250914968148, -56); (5835213084494705, -56)] (* 2.8440987E-01 1.2835937E-01 1.2309946E-01 8.0979849E-02 *);
    [(8077341760253746, -55); (6360025187177156, -55); (5389714018965062, -54); (6772692543048906, -55)] (* 2.2419127E-01 1.7652616E-01 2.9918923E-01 1.8797998E-01 *);
    [(7903037682867730, -56); (7691082792020956, -55); (6022479134097842, -54); (5432482362754394, -54)] (* 1.0967668E-01 2.1347043E-01 3.3431475E-01 3.0156335E-01 *);
    [(8789236273760930, -58); (7621879399282871, -55); (6401112787585553, -55); (5335160655670828, -54)] (* 3.0493789E-02 2.1154965E-01 1.7766657E-01 2.9616091E-01 *);
    [(4949592784616697, -60); (4815315735146990, -55); (6153126793876806, -57); (7764673411372041, -56)] (* 4.2930874E-03 1.3365186E-01 4.2695894E-02 1.0775649E-01 *);
    [(4764249261886681, -64); (6522843356131121, -58); (4699374345764023, -60); (5804248192542831, -61)] (* 2.5827047E-04 2.2630659E-02 4.0760575E-03 2.5171914E-03 *);
    [(5788672702630939, -70); (4814936081554287, -68); (8681860485873402, -66); (8668519222022178, -83)] (* 4.9031965E-06 1.6313638E-05 1.1766115E-04 8.9630388E-10 *);
    [(8510357826536602, -79); (6269346483750666, -154); (4815826460142800, -73); (0, 0)] (* 1.4079206E-08 2.7453830E-31 5.0989546E-07 0.0000000E+00 *)
  ].
(** legacy/unresolved/src/calculateFluctuationIntegrals.hpp:30-42, the nodes *)
Definition node_literals : list (list (Z * Z)) :=
  [
    [(6920633845252988, -61); (7620351706231673, -59); (4613755743112458, -62); (7620351706231673, -59)] (* 3.0013465E-03 1.3219203E-02 1.0004488E-03 1.3219203E-02 *);
    [(5663214273657150, -56); (5213339834988728, -56); (7550952460952992, -58); (5213339834988728, -56)] (* 7.8592886E-02 7.2349624E-02 2.6197629E-02 7.2349624E-02 *);
    [(7797066722627807, -54); (6877707479159932, -55); (5198044601847861, -55); (6877707479159932, -55)] (* 4.3282415E-01 1.9089473E-01 1.4427472E-01 1.9089473E-01 *);
    [(6010173948835978, -52); (7120883124063488, -54); (8013565205066642, -54); (7120883124063488, -54)] (* 1.3345267E+00 3.9528842E-01 4.4484223E-01 3.9528842E-01 *);
    [(6863901514358242, -51); (6672843325782468, -53); (4575934192785507, -52); (6672843325782468, -53)] (* 3.0481846E+00 7.4083443E-01 1.0160615E+00 7.4083443E-01 *);
    [(6559852920055336, -50); (6079090732493777, -52); (8746470560073781, -52); (6079090732493777, -52)] (* 5.8263198E+00 1.3498293E+00 1.9421066E+00 1.3498293E+00 *);
    [(5598686806282577, -49); (5696599340601257, -51); (7464915666650108, -51); (5696599340601257, -51)] (* 9.9452656E+00 2.5297983E+00 3.3150885E+00 2.5297983E+00 *);
    [(8884548222489184, -49); (5898014727456073, -50); (5923031998206135, -50); (5898014727456073, -50)] (* 1.5782128E+01 5.2384894E+00 5.2607092E+00 5.2384894E+00 *);
    [(6754505476529711, -48); (7780965903599994, -49); (9006007377099608, -50); (7780965903599994, -49)] (* 2.3996824E+01 1.3821772E+01 7.9989414E+00 1.3821772E+01 *);
    [(5096978151674137, -47); (5323221334398442, -46); (6795970681248865, -49); (5323221334398442, -46)] (* 3.6216208E+01 7.5647525E+01 1.2072069E+01 7.5647525E+01 *)
  ].
(** std::array operator[] twice, unchecked *)
Definition entry64 (t : list (list (Z * Z))) (i : nat) (column : Z) : outcome double :=
  do row <- at_or_ub t i "row index out of bounds" ;
  if column <? 4 then omap literal (at_or_ub row (Z.to_nat column) "column index out of bounds")
  else UB "column index out of bounds".

(** legacy/Data.hpp:32-38, 50-51 *)
Definition data_add64 (x y : data double) : data double :=
  mkData (d_elastic x + d_elastic y)%D (d_capture x + d_capture y)%D
         (d_fission x + d_fission y)%D (d_competition x + d_competition y)%D.
Definition nonzero64 (x : double) : bool := negb (Beqb x (double_of 0)).

(** The body of the loops, e.g. lines 113-121; a part without width is the literal zero *)
Definition term64 (factor denominator qi : double) (qj qk : option double) : data double :=
  let part (q : option double) : double :=
    match q with Some x => (qi * x * factor / denominator)%D | None => #0%D end in
  mkData (qi * qi * factor / denominator)%D (qi * factor / denominator)%D (part qj) (part qk).

(** legacy/unresolved/src/calculateFluctuationIntegrals.hpp:44-128 *)
Definition fluctuationIntegrals64 (widths : data double) (degrees : data nat) : outcome (data double) :=
  let mu := unsigned_pred (d_elastic degrees) in
  let nu := if nonzero_degree (d_fission degrees) then unsigned_pred (d_fission degrees) else 0 in
  let lambda := if nonzero_degree (d_competition degrees) then unsigned_pred (d_competition degrees) else 0 in
  let zero := mkData #0%D #0%D #0%D #0%D in
  match nonzero64 (d_fission widths), nonzero64 (d_competition widths) with
  | false, false =>
      foldM (fun acc i =>
        do wi <- entry64 weight_literals i mu ;
        do qi <- entry64 node_literals i mu ;
        Ok (data_add64 acc (term64 wi (qi * d_elastic widths + d_capture widths)%D qi None None))) ten zero
  | true, false =>
      foldM (fun acc i => foldM (fun acc j =>
        do wi <- entry64 weight_literals i mu ;
        do wj <- entry64 weight_literals j nu ;
        do qi <- entry64 node_literals i mu ;
        do qj <- entry64 node_literals j nu ;
        Ok (data_add64 acc (term64 (wi * wj)%D
              (qi * d_elastic widths + d_capture widths + qj * d_fission widths)%D
              qi (Some qj) None))) ten acc) ten zero
  | false, true =>
      foldM (fun acc i => foldM (fun acc k =>
        do wi <- entry64 weight_literals i mu ;
        do wk <- entry64 weight_literals k lambda ;
        do qi <- entry64 node_literals i mu ;
        do qk <- entry64 node_literals k lambda ;
        Ok (data_add64 acc (term64 (wi * wk)%D
              (qi * d_elastic widths + d_capture widths + qk * d_competition widths)%D
              qi None (Some qk)))) ten acc) ten zero
  | true, true =>
      foldM (fun acc i => foldM (fun acc j => foldM (fun acc k =>
        do wi <- entry64 weight_literals i mu ;
        do wj <- entry64 weight_literals j nu ;
        do wk <- entry64 weight_literals k lambda ;
        do qi <- entry64 node_literals i mu ;
        do qj <- entry64 node_literals j nu ;
        do qk <- entry64 node_literals k lambda ;
        Ok (data_add64 acc (term64 (wi * wj * wk)%D
              (qi * d_elastic widths + d_capture widths + qj * d_fission widths
               + qk * d_competition widths)%D
              qi (Some qj) (Some qk)))) ten acc) ten acc) ten zero
  end.
