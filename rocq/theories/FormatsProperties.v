(** C84: the same resonances in the single-level Breit-Wigner, the multi-level Breit-Wigner and
    the Reich-Moore format. *)
From Coq Require Import String List ZArith Reals Bool Lra Lia.
From Verif Require Import Outcome QuantumModel QuantumSpec CoulombModel RMatrixModel ChannelModel SpinGroupModel BreitWignerModel BreitWignerSpec BreitWignerSystemProofs BreitWignerTheorems ReichMooreModel LegacyModel LegacyProofs
  GridModel AssemblyModel EndfModel EndfSpec ReconstructionTheorems NewerRMSpec FormatsSpec FormatsFrom FormatsCases.
Import ListNotations.
Open Scope R_scope.

(** One resonance for each l and J, and none that the Breit-Wigner formats move: the elastic,
    capture and fission cross sections made from the three files are the same. *)
Theorem C84_formats hbar epsilon0 cwf mn elementaryCharge incident target products multiRegion initial b f nlsc nro naps A rad n e r1 r2 r3 rc1 rc2 rc3 o1 o2 o3 :
  let from := fromENDF hbar epsilon0 cwf mn elementaryCharge incident target products multiRegion initial in
  range_at multiRegion nro naps e 1 (ParametersSLBW b) r1 -> range_at multiRegion nro naps e 2 (ParametersMLBW b) r2 -> range_at multiRegion nro naps e 3 (ParametersReichMoore f nlsc) r3 ->
  input_new hbar mn b A nro naps rad n -> newer_input mn f A nro naps (fun _ => rad) rad -> nlsc = S n -> same_file b f -> 0 < e ->
  (forall t x, nro = Some t -> x = e \/ (exists ls y, In ls (f_lstates b) /\ In y (ls_lines ls) /\ x = ln_ER y) -> exists z, t x = Ok z) ->
  (forall ls y, In ls (f_lstates b) -> In y (ls_lines ls) -> ln_ER y <> 0 /\ (ln_ER y <> e \/ ln_GG y <> 0)) ->
  unmoved (k_old (C_new hbar mn) A) (fun x => oval (radius_at (r_P rad) x)) e b ->
  from r1 = Ok (Some rc1) -> from r2 = Ok (Some rc2) -> from r3 = Ok (Some rc3) ->
  reconstruct hbar epsilon0 cwf rc1 e = Ok (Some o1) -> reconstruct hbar epsilon0 cwf rc2 e = Ok (Some o2) -> reconstruct hbar epsilon0 cwf rc3 e = Ok (Some o3) ->
  exists el ca fi, legacy_gives hbar epsilon0 cwf incident target rc1 e el ca fi /\ legacy_gives hbar epsilon0 cwf incident target rc2 e el ca fi /\
    matrix_gives hbar epsilon0 cwf incident target rc3 e el ca fi.
Proof. cbv zeta. exact (formats hbar epsilon0 cwf mn elementaryCharge incident target products multiRegion initial b f nlsc nro naps A rad n e r1 r2 r3 rc1 rc2 rc3 o1 o2 o3). Qed.

(** Without the condition on the shift they are not: a resonance with l = 1 *)
Theorem C84_p_wave_refuted : exists hbar mn b f, same_file b f /\ input_new hbar mn b 1 None 1 (radii1 (Fixed 1)) 1 /\
  newer_input mn f 1 None 1 (fun _ => radii1 (Fixed 1)) (radii1 (Fixed 1)) /\ forall epsilon0 cwf elementaryCharge products multiRegion initial,
  let from := fromENDF hbar epsilon0 cwf mn elementaryCharge "n" "t" products multiRegion initial in
  exists r1 r3 rc1 rc3 el1 ca1 fi1 el3 ca3 fi3, range_at multiRegion None 1 4 1 (ParametersSLBW b) r1 /\ range_at multiRegion None 1 4 3 (ParametersReichMoore f 2) r3 /\
    from r1 = Ok (Some rc1) /\ from r3 = Ok (Some rc3) /\
    legacy_gives hbar epsilon0 cwf "n" "t" rc1 4 el1 ca1 fi1 /\ matrix_gives hbar epsilon0 cwf "n" "t" rc3 4 el3 ca3 fi3 /\ ca1 < ca3.
Proof.
  assert (H : 1 <> 0 /\ 1 <> 4 /\ 1 <> 5) by lra.
  exists 2, 2, (bw_pair 1), (rm_pair 1). split; [exact (same_pair 1 H)|]. split; [exact (bw_pair_input 1 H)|]. split; [exact (rm_pair_input 1 H)|].
  intros epsilon0 cwf ec products multiRegion initial. cbv zeta. destruct (p_wave epsilon0 cwf ec products multiRegion initial) as (rc1 & rc3 & el1 & ca1 & fi1 & el3 & ca3 & fi3 & D).
  exists (r_slbw 1), (r_rm 1), rc1, rc3, el1, ca1, fi1, el3, ca3, fi3. split; [|split; [|exact D]]; (repeat split; cbn; try reflexivity; lra).
Qed.
Print Assumptions C84_formats.
Print Assumptions C84_p_wave_refuted.

(** The same two l values with the p-wave resonance at -4: its shift at 4 is the one at 4 *)
Example C84_case epsilon0 cwf elementaryCharge products multiRegion initial : let from := fromENDF 2 epsilon0 cwf 2 elementaryCharge "n" "t" products multiRegion initial in
  range_at multiRegion None 1 4 1 (ParametersSLBW (bw_pair (-4))) (r_slbw (-4)) /\ range_at multiRegion None 1 4 2 (ParametersMLBW (bw_pair (-4))) (r_mlbw (-4)) /\
  range_at multiRegion None 1 4 3 (ParametersReichMoore (rm_pair (-4)) 2) (r_rm (-4)) /\
  input_new 2 2 (bw_pair (-4)) 1 None 1 (radii1 (Fixed 1)) 1 /\ newer_input 2 (rm_pair (-4)) 1 None 1 (fun _ => radii1 (Fixed 1)) (radii1 (Fixed 1)) /\ same_file (bw_pair (-4)) (rm_pair (-4)) /\
  (forall ls y, In ls (f_lstates (bw_pair (-4))) -> In y (ls_lines ls) -> ln_ER y <> 0 /\ (ln_ER y <> 4 \/ ln_GG y <> 0)) /\
  unmoved (k_old (C_new 2 2) 1) (fun x => oval (radius_at (r_P (radii1 (Fixed 1))) x)) 4 (bw_pair (-4)) /\
  exists rc1 rc2 rc3 o1 o2 o3, from (r_slbw (-4)) = Ok (Some rc1) /\ from (r_mlbw (-4)) = Ok (Some rc2) /\ from (r_rm (-4)) = Ok (Some rc3) /\
    reconstruct 2 epsilon0 cwf rc1 4 = Ok (Some o1) /\ reconstruct 2 epsilon0 cwf rc2 4 = Ok (Some o2) /\ reconstruct 2 epsilon0 cwf rc3 4 = Ok (Some o3).
Proof.
  assert (H : -4 <> 0 /\ -4 <> 4 /\ -4 <> 5) by lra. cbv zeta.
  split; [repeat split; cbn; try reflexivity; lra|]. split; [repeat split; cbn; try reflexivity; lra|]. split; [repeat split; cbn; try reflexivity; lra|].
  split; [exact (bw_pair_input (-4) H)|]. split; [exact (rm_pair_input (-4) H)|]. split; [exact (same_pair (-4) H)|].
  split; [intros ls y [<-|[<-|[]]]; cbn; intros [<-|[]]; cbn; lra|].
  split; [|exact (all_three (-4) H epsilon0 cwf elementaryCharge products multiRegion initial)].
  intros ls x [<-|[<-|[]]]; cbn; intros [<-|[]]; cbn; [left; reflexivity|]. right. right. unfold S_at. rewrite k4, k_neg. reflexivity.
Qed.
