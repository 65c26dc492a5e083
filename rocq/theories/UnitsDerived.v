(** NAPS = 0: the radius derived from the mass has fixed units. *)
From Coq Require Import String List ZArith Reals Lra Lia.
From Verif Require Import Outcome QuantumModel QuantumSpec SpinFactorModel HardSphereModel KinematicsModel CoulombModel RMatrixModel ChannelModel BreitWignerModel BreitWignerSpec ListFacts BreitWignerProofs BreitWignerSystemProofs BreitWignerTheorems LegacyModel LegacyProofs LegacySystemProofs LegacyTotalSpec LegacyTotal BreitWignerCases NewerFrom FormatsCases JumpCases UnitsSpec UnitsProofs.
Import ListNotations.
Open Scope R_scope.

Section Radii.
Variables (hbar epsilon0 : R) (cwf : nat -> R -> R -> outcome coulomb) (mn : R) (incident target : string) (rad : radii).
Lemma Js_radii ls pr js : forall av gs av', legacyJs hbar epsilon0 cwf ls pr rad js av = Ok (Some gs, av') -> forall g, In g gs -> c_radii (lg_channel g) = rad.
Proof.
  induction js as [|j js IH]; intros av gs av' H g G; cbn [legacyJs] in H; [injection H as <- _; destruct G|].
  apply bind_is in H as ([og rem] & J & H). apply bind_is in H as ([ogs rem'] & K & H). injection H as H _. destruct og as [g0|]; [|discriminate]. destruct ogs as [gs0|]; [|discriminate]. injection H as <-.
  destruct G as [<-|G]; [|exact (IH _ _ _ K g G)]. unfold legacyJ in J. apply bind_is in J as ([q rem1] & _ & J). apply bind_is in J as (rs & _ & J). injection J as J _. destruct (all_finite rs); [|discriminate]. injection J as <-. reflexivity.
Qed.
Lemma all_radii spin ap nro naps lss : (forall ls, In ls lss -> makeChannelRadii ap nro naps (ls_AWRI ls) mn = Ok rad) ->
  forall av gs, legacyAllGroups hbar epsilon0 cwf mn incident target spin ap nro naps lss av = Ok (Some gs) -> forall g, In g gs -> c_radii (lg_channel g) = rad.
Proof.
  intros S. induction lss as [|ls lss IH]; intros av gs H g G; cbn [legacyAllGroups] in H; [injection H as <-; destruct G|].
  apply bind_is in H as ([ogs rem] & L & H). apply bind_is in H as (ohs & K & H). injection H as H. destruct ogs as [g1|]; [|discriminate]. destruct ohs as [h1|]; [|discriminate]. injection H as <-.
  apply in_app_or in G as [G|G]; [|exact (IH (fun x X => S x (or_intror X)) _ _ K g G)]. unfold legacyGroups in L. apply bind_is in L as (pr & P & L). rewrite (S ls (or_introl eq_refl)) in L. cbn [bind] in L. exact (Js_radii _ _ _ _ _ _ L g G).
Qed.
Lemma file_radii f nro naps s : (forall ls, In ls (f_lstates f) -> makeChannelRadii (f_AP f) nro naps (ls_AWRI ls) mn = Ok rad) -> makeLegacyBreitWigner hbar epsilon0 cwf mn incident target f nro naps = Ok (Some s) ->
  ly_groups s <> [] /\ forall g, In g (ly_groups s) -> c_radii (lg_channel g) = rad.
Proof.
  intros S H. unfold makeLegacyBreitWigner in H. destruct (f_lstates f); [discriminate|]. apply bind_is in H as (pr & _ & H). apply bind_is in H as (av & _ & H). apply bind_is in H as (ogs & K & H). destruct ogs as [gs|]; [|discriminate].
  unfold omap in H. apply bind_is in H as (s0 & M & H). injection H as <-. unfold makeLegacySystem in M. apply bind_is in M as (u & V & M). injection M as <-. split; [|exact (all_radii _ _ _ _ _ S _ _ K)]. cbn [ly_groups]. intros ->. discriminate.
Qed.
End Radii.
Definition derived_radius : R := 0.123 * Rpower (1 * 2) (1 / 3) + 0.08.
Lemma derived_positive : 0 < derived_radius.
Proof. unfold derived_radius. assert (0 < Rpower (1 * 2) (1 / 3)) by (unfold Rpower; apply exp_pos). lra. Qed.
Lemma derived_input : input_new 2 2 jump_file 1 None 0 (radii2 (Fixed derived_radius) (Fixed 1)) 2.
Proof. pose proof derived_positive as D. constructor; cbn - [derived_radius]; try lra; try reflexivity; try (intros e r H0; injection H0 as <-; lra); try (intros l [<-|[<-|[<-|[]]]]; first [reflexivity | discriminate]). unfold QuantumSpec.is_spin; lia. Qed.
Lemma derived_usable : lines_usable jump_file (radii2 (Fixed derived_radius) (Fixed 1)).
Proof. intros ls x [<-|[<-|[<-|[]]]] Hx; cbn in Hx; destruct Hx as [<-|[]]; cbn; (split; [lra|]); (split; [eexists; reflexivity | discriminate]). Qed.
Lemma derived_made epsilon0 cwf : exists s, makeLegacyBreitWigner 2 epsilon0 cwf 2 "n" "t" jump_file None 0 = Ok (Some s).
Proof.
  refine (proj1 (legacy_made 2 epsilon0 cwf 2 "n" "t" jump_file 1 None 0 (radii2 (Fixed derived_radius) (Fixed 1)) 2 derived_input ltac:(lia) derived_usable _) _).
  - exists [mkQ 0 1 1 1; mkQ 1 1 3 (-1); mkQ 2 1 3 1]. split; [repeat constructor; cbn; intros H; repeat destruct H as [H|H]; try discriminate; contradiction|]. split; [intros q [<-|[<-|[<-|[]]]]; number | cbn; repeat constructor].
  - intros (ls & x & y & [<-|[<-|[<-|[]]]] & Hx & Hy & _ & N); cbn in Hx, Hy; destruct Hx as [<-|[]], Hy as [<-|[]]; apply N; reflexivity.
Qed.
Theorem derived_fixed epsilon0 cwf : exists t s, 0 < t /\ makeLegacyBreitWigner 2 epsilon0 cwf 2 "n" "t" jump_file None 0 = Ok (Some s) /\
  makeLegacyBreitWigner 2 epsilon0 cwf 2 "n" "t" (units_file t jump_file) None 0 <> Ok (Some (units_system t s)).
Proof.
  destruct (derived_made epsilon0 cwf) as (s & S). exists 2, s. split; [lra|]. split; [exact S|]. intros H. pose proof derived_positive as D.
  destruct (file_radii 2 epsilon0 cwf 2 "n" "t" (radii2 (Fixed derived_radius) (Fixed 1)) jump_file None 0 s) as [N A]; [intros ls [<-|[<-|[<-|[]]]]; reflexivity | exact S|].
  destruct (file_radii 2 epsilon0 cwf 2 "n" "t" (radii2 (Fixed derived_radius) (Fixed (1 / 2))) (units_file 2 jump_file) None 0 (units_system 2 s)) as [_ B]; [intros ls [<-|[<-|[<-|[]]]]; reflexivity | exact H|].
  destruct (ly_groups s) as [|g gs] eqn:G; [contradiction|]. specialize (A g (or_introl eq_refl)). specialize (B (units_group 2 g)). unfold units_system in B. cbn [ly_groups] in B. rewrite G in B. specialize (B (or_introl eq_refl)).
  cbn [units_group units_channel lg_channel c_radii] in B. rewrite A in B. cbn in B. injection B as B. lra.
Qed.
