(** C85: an evaluation in the Reich-Moore format and the same evaluation in the R-Matrix Limited
    format. *)
From Coq Require Import String List ZArith Reals Bool Lra Lia.
From Verif Require Import Outcome QuantumModel KinematicsModel CoulombModel RMatrixModel ChannelModel SpinGroupModel ReichMooreModel GridModel EndfModel EndfSpec
  NewerFacts NewerRMSpec FormatsFrom ConversionSpec ConversionFrom ConversionCases.
Import ListNotations.
Open Scope R_scope.

(** Wherever the Reich-Moore file gives cross sections, its conversion gives the same ones, for
    every reaction *)
Theorem C85_conversion hbar epsilon0 cwf mn ec incident target products multiRegion initial r3 r7 f nlsc A rad rad0 g rc3 rc7 e rc3' o3 :
  0 < hbar -> 0 < mn ->
  range_at multiRegion None (er_NAPS r3) e 3 (ParametersReichMoore f nlsc) r3 ->
  er_LRU r7 = 1%Z -> er_LRF r7 = 7%Z -> er_parameters r7 = ParametersLimited g -> er_lower r7 <= e <= er_upper r7 -> 0 < e ->
  newer_input mn f A None (er_NAPS r3) rad rad0 -> converted f nlsc A rad rad0 g ->
  (forall a b, products 102%Z = Ok (a, b) -> (a ++ "," ++ b)%string <> (incident ++ "," ++ target)%string) ->
  fromENDF hbar epsilon0 cwf mn ec incident target products multiRegion initial r3 = Ok (Some rc3) ->
  fromENDF hbar epsilon0 cwf mn ec incident target products multiRegion initial r7 = Ok (Some rc7) ->
  reconstruct hbar epsilon0 cwf rc3 e = Ok (Some (rc3', o3)) ->
  exists rc7' m3 m7, o3 = Matrix m3 /\ reconstruct hbar epsilon0 cwf rc7 e = Ok (Some (rc7', Matrix m7)) /\
    forall x, value_of (m7 x) = value_of (m3 x).
Proof. intros Hh Hmn. exact (conversion hbar epsilon0 cwf mn ec incident target products multiRegion initial Hh Hmn r3 r7 f nlsc A rad rad0 g rc3 rc7 e rc3' o3). Qed.
Print Assumptions C85_conversion.
(** A file with a fissile s-wave, a p-wave and a p-wave without resonances *)
Example C85_case epsilon0 cwf multiRegion initial : exists rc3 rc7 rc3' o3,
  range_at multiRegion None (er_NAPS cv_r3) 9 3 (ParametersReichMoore cv_file 2) cv_r3 /\
  er_LRU cv_r7 = 1%Z /\ er_LRF cv_r7 = 7%Z /\ er_parameters cv_r7 = ParametersLimited cv_limited /\ er_lower cv_r7 <= 9 <= er_upper cv_r7 /\
  newer_input 1 cv_file 2 None (er_NAPS cv_r3) cv_rad (radii1 (Fixed 1)) /\ converted cv_file 2 2 cv_rad (radii1 (Fixed 1)) cv_limited /\
  (forall a b, cv_products 102%Z = Ok (a, b) -> (a ++ "," ++ b)%string <> ("n" ++ "," ++ "t")%string) /\
  fromENDF 1 epsilon0 cwf 1 1 "n" "t" cv_products multiRegion initial cv_r3 = Ok (Some rc3) /\
  fromENDF 1 epsilon0 cwf 1 1 "n" "t" cv_products multiRegion initial cv_r7 = Ok (Some rc7) /\
  reconstruct 1 epsilon0 cwf rc3 9 = Ok (Some (rc3', o3)).
Proof.
  destruct (cv_both epsilon0 cwf multiRegion initial) as (rc3 & rc7 & rc3' & o3 & E3 & E7 & Er). exists rc3, rc7, rc3', o3.
  split; [unfold range_at; cbn; repeat split; lra|]. split; [reflexivity|]. split; [reflexivity|]. split; [reflexivity|]. split; [cbn; lra|].
  split; [exact cv_input|]. split; [exact cv_converted|]. split; [intros a b H; injection H as <- <-; discriminate|]. auto.
Qed.
