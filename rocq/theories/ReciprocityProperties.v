(** C71: detailed balance between the two directions of a reaction. *)
From Coq Require Import Reals Lra String ZArith.
From mathcomp Require Import all_ssreflect all_algebra.
From Verif Require Import Outcome Cplx QuantumModel SpinFactorModel HardSphereModel KinematicsModel CoulombModel RMatrixModel RMatrixSpec ChannelModel SpinGroupModel SpinGroupSpec
  SpinGroupChannelProofs SpinGroupTheorems SpinGroupExample ReciprocitySpec ReciprocityProofs.
Set Implicit Arguments.
Unset Strict Implicit.
Unset Printing Implicit Defensive.

(** The cross section from the pair a to the pair b, and the one from b to a of the spin group
    that describes the same nucleus with the entrance channel b, at the same energy of the
    compound system: multiplied by (2i+1)(2I+1) k^2 they are equal.  k^2 is given by the reduced
    mass and the energy in the centre of mass. *)
Theorem C71_detailed_balance hbar epsilon0 cwf bo a b ra rb mua mub qb energy channels rs g g'
    (s s1 : cache (gsize g)) (s' : cache (gsize g')) m1 : (0 < hbar)%re ->
  pair_numbers a ra mua -> pair_numbers b rb mub -> entrance a b qb channels ->
  constructed channels rs g ->
  constructed [seq switched_channel b qb c | c <- channels] [seq switched_resonance ra rb qb r | r <- rs] g' ->
  (ra * energy <> 0)%re -> (ra * energy + qb <> 0)%re ->
  evaluateGroup hbar epsilon0 cwf bo energy s empty_map = Ok (Some (s1, m1)) ->
  exists s1' m1' ab ba, evaluateGroup hbar epsilon0 cwf bo (switched_energy ra rb qb energy) s' empty_map = Ok (Some (s1', m1')) /\
    m1 (Transfer (pp_id a) (pp_id b)) = Some ab /\ m1' (Transfer (pp_id b) (pp_id a)) = Some ba /\
    (multiplicity a * (mua * Rabs (ra * energy)) * ab = multiplicity b * (mub * Rabs (ra * energy + qb)) * ba)%re.
Proof. move=> H1 H2 H3 H4 H5 H6 H7 H8; exact: (reciprocity H1 H2 H3 H4 H5 H6 H7 H8). Qed.
Print Assumptions C71_detailed_balance.

(** Elastic and inelastic scattering, the level of spin 5/2 lying one unit higher *)
Definition jr_level := mkParticle "U235_e1" 235%re 92%re (Zpos 5) (Zneg 1).
Definition jr_pair := makeParticlePair ex_neutron jr_level "n,U235_e1".
Definition jr_elastic := makeChannel Neutron ex_pair ex_pair "n,U235" 0%re ex_numbers (radii2 (Fixed 1%re) (Fixed 2%re)) 0%re.
Definition jr_inelastic := makeChannel Neutron ex_pair jr_pair "n,U235_e1" (-1)%re (mkQ 0 (Zpos 6) (Zpos 6) (Zneg 1)) (radii2 (Fixed 1%re) (Fixed 2%re)) 0%re.
Definition jr_channels := [:: jr_elastic; jr_inelastic].
Definition jr_resonances := [:: Resonance 10%re [:: 1%re; 2%re] 1%re; Resonance 20%re [:: (-1)%re; 3%re] 1%re].
Lemma jr_numbers p : p = ex_pair \/ p = jr_pair -> pair_numbers p (235 / 236)%re (235 / 236)%re.
Proof.
  have fd x y z : y <> 0%re -> (x / y = z)%re -> fdiv x y = Some z by rewrite /fdiv; case: Req_EM_T => // _ _ ->.
  by case=> ->; constructor; rewrite /=; try lra; try (by split); apply: fd; lra.
Qed.
Lemma jr_group channels rs c1 c2 : channels = [:: c1; c2] -> c_id c1 <> c_id c2 -> pp_id (c_incident c1) = pp_id (c_incident c2) ->
  qJ (c_numbers c1) = qJ (c_numbers c2) -> qp (c_numbers c1) = qp (c_numbers c2) ->
  isIncidentChannel c1 || isIncidentChannel c2 -> (forall r, List.In r rs -> size (rs_widths r) = 2%N) ->
  exists g, constructed channels rs g.
Proof.
  move=> -> Hi Hp HJ Hq Hn Hw; have [t Ht] : exists t, makeTable [:: c_id c1; c_id c2] rs = Ok t.
    rewrite /makeTable; have -> : foldM (fun _ r => check (Nat.eqb (List.length [:: c_id c1; c_id c2]) (List.length (rs_widths r)))) rs tt = Ok tt; last by eexists.
    elim: rs Hw => //= r rs IH Hw; have := Hw r (or_introl erefl); rewrite /size; case: (rs_widths r) => [|x [|y [|z w]]] //= _.
    by apply: IH => r' Hr'; apply: Hw; right.
  have Et : t_channels t = [:: c_id c1; c_id c2] by move: Ht; rewrite /makeTable; case: (foldM _ _ _) => //= _ [<-].
  have [H _] := group_accepts c1 [:: c2] t; case: H => [|g Hg].
  - split; [|split; [|split; [|split]]] => //.
    + by move=> c c' [<-|[<-|[]]] [<-|[<-|[]]].
    + constructor; first by case=> // e; apply: Hi.
      by constructor=> //; constructor.
    + by move=> c c' [<-|[<-|[]]] [<-|[<-|[]]].
    + case/orP: Hn => /String.eqb_eq H; [exists c1 | exists c2]; split=> //=; by [left | right; left].
  - by exists g, [:: c_id c1; c_id c2], t.
Qed.
Example C71_case hbar epsilon0 cwf bo : (0 < hbar)%re -> entrance ex_pair jr_pair (-1)%re jr_channels /\
  exists g g' (s : cache (gsize g)), constructed jr_channels jr_resonances g /\
    constructed [seq switched_channel jr_pair (-1) c | c <- jr_channels] [seq switched_resonance (235 / 236) (235 / 236) (-1) r | r <- jr_resonances] g' /\
    exists s1 m1, evaluateGroup hbar epsilon0 cwf bo 100%re s empty_map = Ok (Some (s1, m1)).
Proof.
  move=> hb; split.
    constructor; [move=> c [<-|[<-|[]]] | by [] | by []].
    - exists Neutron, ex_pair, 0%re, ex_numbers, (radii2 (Fixed 1%re) (Fixed 2%re)), 0%re; split; first by [].
      by split; [do 3 eexists; reflexivity | split].
    - exists Neutron, jr_pair, (-1)%re, (mkQ 0 (Zpos 6) (Zpos 6) (Zneg 1)), (radii2 (Fixed 1%re) (Fixed 2%re)), 0%re; split; first by [].
      by split; [do 3 eexists; reflexivity | split].
  have [g con] : exists g, constructed jr_channels jr_resonances g by apply: (jr_group (c1 := jr_elastic) (c2 := jr_inelastic)) => // r [<-|[<-|[]]].
  have [g' con'] : exists g', constructed [seq switched_channel jr_pair (-1) c | c <- jr_channels] [seq switched_resonance (235 / 236) (235 / 236) (-1) r | r <- jr_resonances] g'.
    by apply: (jr_group (c1 := switched_channel jr_pair (-1) jr_elastic) (c2 := switched_channel jr_pair (-1) jr_inelastic)) => // r [<-|[<-|[]]].
  exists g, g', (Cache (GRing.zero _) (GRing.zero _) (GRing.zero _)); split=> //; split=> //.
  have [t [made _]] := constructed_made con; have [Ec _] := SpinGroupProofs.makeGroup_ok made.
  have [N1 _ N2 _ _] := jr_numbers (or_introl erefl); have [_ _ N3 _ _] := jr_numbers (or_intror erefl).
  have neutral : neutral_channels 100 g.
    rewrite /neutral_channels Ec => c [<-|[<-|[]]]; (split; first by []); (split; first by rewrite /=; ring); split;
      try (by exists 1%re, 2%re; split=> //; lra).
    - by exists (235 / 236)%re, (235 / 236)%re; split=> //; split; [lra | split=> //=; lra].
    - by exists (235 / 236)%re, (235 / 236)%re; split=> //; split; [lra | split=> //=; lra].
  have [vs [Ev [ph _]]] := tame_group epsilon0 cwf bo hb neutral.
  have [F0 [F1 [F2 [I1 L1]]]] := SpinGroupEvalProofs.first_incident_spec made.
  have Ef : exists f, channelFactor hbar (first_incident g) 100 = Some f.
    rewrite Ec in L1; case: L1 => [<-|[H|[]]]; last by rewrite -H in I1.
    by eexists; apply: (factor_pos (mu := (235 / 236)%re) (ratio := (235 / 236)%re)) => //=; lra.
  case: Ef => f Ef; apply: (evaluate_succeeds con Ev Ef ph) => r [<-|[<-|[]]]; left=> /=; lra.
Qed.
