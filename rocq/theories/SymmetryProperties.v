(** C66: other ways to write down the same spin group. *)
From Coq Require Import Reals Lra String ZArith Permutation.
From mathcomp Require Import all_ssreflect all_algebra.
From Verif Require Import Outcome Cplx KinematicsModel CoulombModel RMatrixModel RMatrixSpec ChannelModel SpinGroupModel SpinGroupSpec SpinGroupExample
  SymmetrySpec SymmetryProofs SymmetryTheorems.
Set Implicit Arguments.
Unset Strict Implicit.
Unset Printing Implicit Defensive.

(** * The order of the resonances in the table, the common sign of the widths of a resonance and
    the sign of its eliminated width have no influence on cross sections or on the T matrix,
    neither on the values nor on whether there are any. *)
Theorem C66_resonances hbar epsilon0 cwf b channels rs rs' g g' energy (s : cache (gsize g)) (s' : cache (gsize g')) m :
  constructed channels rs g -> constructed channels rs' g' -> same_resonances rs rs' ->
  visible (evaluateGroup hbar epsilon0 cwf b energy s m) = visible (evaluateGroup hbar epsilon0 cwf b energy s' m).
Proof. exact: same_evaluation. Qed.
Print Assumptions C66_resonances.
Theorem C66_T_matrix hbar epsilon0 cwf b channels rs rs' g g' energy (s : cache (gsize g)) (s' : cache (gsize g')) m :
  constructed channels rs g -> constructed channels rs' g' -> same_resonances rs rs' ->
  visible (evaluateTGroup hbar epsilon0 cwf b energy s m) = visible (evaluateTGroup hbar epsilon0 cwf b energy s' m).
Proof. exact: same_T. Qed.
Print Assumptions C66_T_matrix.

(** * The order of the channels and the sign of all the widths of a channel have no influence on
    the cross sections. *)
Theorem C66_channels hbar epsilon0 cwf b channels channels' rs rs' g g' idx minus energy
    (s s1 : cache (gsize g)) (s' : cache (gsize g')) m m1 :
  constructed channels rs g -> constructed channels' rs' g' ->
  perm_eq idx (iota 0 (size channels)) -> one_entrance channels ->
  channels' = [seq nth dummy_channel channels i | i <- idx] ->
  rs' = [seq reordered idx minus r | r <- rs] ->
  evaluateGroup hbar epsilon0 cwf b energy s m = Ok (Some (s1, m1)) ->
  exists s1', evaluateGroup hbar epsilon0 cwf b energy s' m = Ok (Some (s1', m1)).
Proof. move=> H1 H2 H3 H4 H5 H6; exact: (reordered_evaluation H1 H2 H3 H4 H5 H6). Qed.
Print Assumptions C66_channels.

(** The elastic and the fission channel of the example, with the resonances exchanged and one of
    them with the other sign; and with the channels exchanged and the sign of fission changed. *)
Definition ex_swapped := [:: ex_fission; ex_elastic].
Definition ex_other := [:: Resonance 20%re [:: 1%re; (-3)%re] (-1)%re; Resonance 10%re [:: 1%re; 2%re] 1%re].
Definition ex_flipped := [:: Resonance 10%re [:: (-2)%re; 1%re] 1%re; Resonance 20%re [:: (-3)%re; (-1)%re] 1%re].
Example C66_cases : same_resonances (ex_resonances 1%re) ex_other /\
  (exists g, constructed ex_channels ex_other g) /\
  perm_eq [:: 1%N; 0%N] (iota 0 (size ex_channels)) /\ one_entrance ex_channels /\
  ex_swapped = [seq nth dummy_channel ex_channels i | i <- [:: 1%N; 0%N]] /\
  ex_flipped = [seq reordered [:: 1%N; 0%N] (fun i => i == 1%N) r | r <- ex_resonances 1%re] /\
  exists g, constructed ex_swapped ex_flipped g.
Proof.
  split; [|split; [|split; [by []|split; [|split; [by []|split]]]]].
  - exists (rev (ex_resonances 1%re)); split; first by apply: perm_swap.
    constructor; last first.
      by constructor; [split; [|split; [|left]] | constructor].
    split=> //; split; first by rewrite /= Rabs_Ropp.
    by right; congr [:: _; _] => /=; ring.
  - by exists (ex_group_of (mkTable [seq c_id c | c <- ex_channels] ex_other)), [seq c_id c | c <- ex_channels],
      (mkTable [seq c_id c | c <- ex_channels] ex_other).
  - by move=> c c' [<-|[<-|[]]] [<-|[<-|[]]].
  - by rewrite /ex_flipped /reordered /=; congr [:: _; _]; congr Resonance; congr [:: _; _]; ring.
  - by eexists; exists [seq c_id c | c <- ex_swapped], (mkTable [seq c_id c | c <- ex_swapped] ex_flipped); split; reflexivity.
Qed.
