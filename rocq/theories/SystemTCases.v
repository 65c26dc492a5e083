(** Two spin groups that form a compound system. *)
From Coq Require Import Reals Lra String ZArith Ascii List.
From mathcomp Require Import all_ssreflect all_algebra.
From Verif Require Import Outcome QuantumModel QuantumSpec SpinFactorModel HardSphereModel
  KinematicsModel CoulombModel Cplx RMatrixModel RMatrixSpec
  RMatrixCodeProofs RMatrixObservableProofs ChannelModel SpinGroupModel SpinGroupSpec SpinGroupProofs
  SpinGroupEvalProofs SpinGroupSystemProofs SpinGroupChannelProofs SpinGroupTheorems SpinGroupExample AssemblyModel SystemTSpec SystemTProofs.
Set Implicit Arguments.
Unset Strict Implicit.
Unset Printing Implicit Defensive.
Import GRing.Theory.
Local Open Scope ring_scope.

(** the group of J = 4 beside the one of J = 3 of SpinGroupExample.v *)
Definition four_elastic := makeChannel Neutron ex_pair ex_pair "n,U235" 0%re (mkQ 0 (Zpos 8) (Zpos 8) (Zneg 1)) (radii2 (Fixed 1%re) (Fixed 2%re)) 0%re.
Definition four_fission := makeChannel Fission ex_pair ex_fission_pair "fission" 100%re (mkQ 0 Z0 (Zpos 8) (Zneg 1)) (radii1 (Fixed 0%re)) 0%re.
Definition four_channels := [:: four_elastic; four_fission].
Definition four_table := mkTable [seq c_id c | c <- four_channels] (ex_resonances 1%re).
Definition four_group := mkGroup [:: c_reaction four_elastic; c_reaction four_fission; Transfer "n,U235" "capture"] [:: 0%N] four_channels four_table.
Definition two_groups : seq group := [:: ex_group 1%re; four_group].

Lemma four_constructed : constructed four_channels (ex_resonances 1%re) four_group.
Proof. by exists [seq c_id c | c <- four_channels], four_table; split. Qed.
Lemma four_neutral energy : energy <> 0%re -> neutral_channels energy four_group.
Proof.
  move=> ne c [<- | [<- | []]]; last by left; exists 0%re.
  split=> //; split; first by rewrite /=; ring.
  split; last by exists 1%re, 2%re; split=> //; lra.
  exists (235 / 236)%re, (235 / 236)%re; split; first exact: ex_mu.
  by split; [lra | split; [exact: ex_ratio | rewrite /=; lra]].
Qed.
Lemma four_factor hbar energy : (0 < hbar)%re -> energy <> 0%re ->
  exists f, channelFactor hbar (first_incident four_group) energy = Some f.
Proof.
  move=> hb ne; have ne' : (energy * (235 / 236) + 0 <> 0)%re by lra.
  have := @factor_pos hbar (first_incident four_group) energy (235/236)%re (235/236)%re hb ex_mu ltac:(lra) ex_ratio ne'.
  by move=> ->; eexists.
Qed.
Lemma no_arrow (s : string) : forallb (fun a => negb (Ascii.eqb a ">"%char)) (list_ascii_of_string s) -> arrow_free s.
Proof.
  elim: s => [|a s IH] /=; first by move=> _ [].
  move=> /andP [ne /IH H] [|i] /=; last exact: H.
  by case=> E; move: ne; rewrite E.
Qed.
Lemma two_ready hbar epsilon0 cwf b energy : (0 < hbar)%re -> energy <> 0%re -> energy <> 10%re -> energy <> 20%re ->
  forall g, List.In g two_groups -> ready hbar epsilon0 cwf b energy g.
Proof.
  move=> hb ne n1 n2 g [<- | [<- | []]].
  - have [vs [Ev [ph _]]] := tame_group epsilon0 cwf b hb (ex_neutral (t := ex_table 1%re) ne).
    have [f [Ef _]] := ex_factor (ex_table 1%re) hb ne.
    exists ex_channels, (ex_resonances 1%re), vs, f; split; first exact: ex_constructed.
    split=> //; split=> //; split=> //; split; first exact: ex_regular.
    by move=> c [<- | [<- | []]]; apply: no_arrow.
  - have [vs [Ev [ph _]]] := tame_group epsilon0 cwf b hb (four_neutral ne).
    have [f Ef] := four_factor hb ne.
    exists four_channels, (ex_resonances 1%re), vs, f; split; first exact: four_constructed.
    split=> //; split=> //; split=> //; split; first exact: ex_regular.
    by move=> c [<- | [<- | []]]; apply: no_arrow.
Qed.
Lemma two_system : makeSystem two_groups = Ok two_groups.
Proof. by []. Qed.
Lemma two_made g : List.In g two_groups -> exists channels rs, constructed channels rs g.
Proof. move=> [<- | [<- | []]]; [by exists ex_channels, (ex_resonances 1%re); apply: ex_constructed | by exists four_channels, (ex_resonances 1%re); apply: four_constructed]. Qed.
Lemma two_ids g c : List.In g two_groups -> List.In c (g_channels g) -> default_id c.
Proof.
  move=> [<- | [<- | []]] [<- | [<- | []]].
  - by exists "n,U235"%string; split; [cbn; repeat split; discriminate | split; [split; [|split; [|right]] |]].
  - by exists "fission"%string; split; [cbn; repeat split; discriminate | split; [split; [|split; [|right]] |]].
  - by exists "n,U235"%string; split; [cbn; repeat split; discriminate | split; [split; [|split; [|right]] |]].
  - by exists "fission"%string; split; [cbn; repeat split; discriminate | split; [split; [|split; [|right]] |]].
Qed.
Lemma two_apart : apart two_groups.
Proof. exact: default_apart two_made two_ids two_system. Qed.
(** fission is a reaction that the T matrix describes *)
Lemma two_fission : forall g, List.In g two_groups -> transfer_only g (c_reaction ex_fission) /\ written g (c_reaction ex_fission).
Proof. by move=> g [<- | [<- | []]]; (split; [split=> // -[[|[|i]] lt] // | ]). Qed.
