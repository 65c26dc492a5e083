(** Files for which the two interfaces differ. *)
From Coq Require Import String List ZArith Reals Bool Lra Lia Permutation.
From Verif Require Import Outcome QuantumModel QuantumSpec HardSphereModel HardSphereSpec HardSphereProofs KinematicsModel CoulombModel
  Cplx RMatrixModel ChannelModel SpinGroupModel BreitWignerModel BreitWignerSpec BreitWignerProofs BreitWignerSystemProofs BreitWignerCases ReichMooreModel LegacyModel LegacyProofs ListFacts GridModel AssemblyModel
  EndfModel EndfSpec EndfFlagProofs EndfReichMooreProofs EndfTheorems ReichMooreSpec ReichMooreProofs ReichMooreTheory ReichMooreCases KMatrixModel KMatrixSpec KMatrixMore ReconstructionTheorems
  NewerFacts NewerRMSpec NewerWhole NewerTheorems NewerAgreement NewerFrom.
Import ListNotations.
Open Scope R_scope.

(** One resonance with l = 0 and J = 0 on a target of spin 1/2; J = 1 has none *)
Definition s_state (apl : R) : rm_lstate := mkRMState 0 1 apl [mkRMLine 5 0 1 1 0 0].
Definition s_file (ap apl : R) : rm_file := mkRMFile 1 ap [s_state apl].
Section Case.
Variables (ap apl : R) (nlsc : nat).
Hypotheses (Hap : 0 < ap) (Hapl : 0 <= apl) (Hn : (1 <= nlsc <= 2)%nat).
Let f := s_file ap apl.
Lemma s_ap : 0 < or_ap f (s_state apl).
Proof. unfold or_ap. cbn. destruct (Req_EM_T apl 0); lra. Qed.
Lemma s_sensible : sensible f nlsc None 1.
Proof.
  constructor; cbn; try lia; try lra; try discriminate; try (unfold is_spin; lia).
  - intros ls [<-|[]]; cbn; lra.
  - intros ls [<-|[]]; cbn; lia.
  - intros ls [<-|[]]; cbn; lra.
  - intros ls r [<-|[]]; cbn; intros [<-|[]]; cbn; lra.
  - exists [mkQ 0 0 0 1]. split; [|split].
    + repeat constructor. intros [].
    + intros q [<-|[]]; number.
    + cbn. repeat constructor.
Qed.
Lemma s_fine : ~ clash f.
Proof.
  unfold fissile; intros [(ls & r & r' & H & A & B & C & D & E & F)|(a & ls & b & ls' & c & r & r' & H & L & _)].
  - destruct H as [<-|[]]; cbn in A, B. destruct A as [<-|[]], B as [<-|[]]. apply F. reflexivity.
  - cbn in H. destruct a as [|x a]; cbn in H; [injection H as _ H; destruct b; discriminate | injection H as _ H; destruct a; discriminate].
Qed.
Lemma s_input : newer_input 2 f 1 None 1 (ap_radii f) (radii1 (Fixed ap)).
Proof.
  constructor.
  - lra.
  - intros ls [<-|[]]; reflexivity.
  - cbn. unfold is_spin. lia.
  - intros ls [<-|[]]. split; [exact s_ap | cbn; auto].
  - split; [exact Hap | cbn; auto].
  - discriminate.
  - intros J even. unfold of_wave, f, s_file, s_state. destruct even; cbn [rf_lstates filter rs_L Nat.even Bool.eqb]; cbn [map concat rs_lines]; rewrite ?app_nil_r; [|constructor].
    apply filter_nodup; cbn; repeat constructor; intros [].
Qed.
Lemma s_old : rm_input (C_new 2 2) f 1 false 1 None (fun ls _ => Ok (or_ap f ls)) (fun ls _ => Ok (or_ap f ls)).
Proof.
  rewrite C_one. constructor; try lra.
  - eexists; eexists; split; reflexivity.
  - cbn. unfold is_spin. lia.
  - exact (NRO0_NAPS1 f 1 None).
  - intros ls [<-|[]] e r H; injection H as <-; exact s_ap.
  - intros ls [<-|[]] e r H; injection H as <-; exact s_ap.
  - intros ls x [<-|[]]; cbn; intros [<-|[]]; cbn; lra.
Qed.
Lemma s_old_values : exists s e c fi, rm_apply (C_new 2 2) (insertion_sort rm_flagged) f false 1 None = Ok s /\ rm_evaluate (C_new 2 2) s 4 = Ok (Some (e, c, fi)).
Proof.
  destruct (rm_apply_ok (C_new 2 2) (insertion_sort rm_flagged) f 1 false 1 None _ _ 4 s_old (insertion_sorts rm_flagged)) as (s & [[e c] fi] & Hs & He).
  - split; [lra|]. intros ls [<-|[]]; (split; [cbn; lia|]); cbn; intros x Hx; repeat destruct Hx as [<-|Hx]; try contradiction; cbn; (split; [lra|]); (split; [lra|]); (split; [eexists; reflexivity | left; lra]).
  - exact Logic.I.
  - exists s, e, c, fi. auto.
Qed.
Lemma s_new_values epsilon0 cwf (initial : forall g, cache (gsize g)) m : exists gs gs' m',
  makeReichMooreCompoundSystem 2 epsilon0 cwf 2 "n" "t" f nlsc None 1 = Ok (Some gs) /\
  evaluateSystem 2 epsilon0 cwf ShiftFactor (fresh initial gs) 4 m = Ok (Some (gs', m')).
Proof.
  destruct (sensible_made 2 epsilon0 cwf 2 "n" "t" ltac:(lra) ltac:(lra) f nlsc None 1 s_sensible ltac:(cbn; repeat split; discriminate) ltac:(cbn; repeat split; discriminate)) as [H _].
  destruct (H s_fine) as (gs & Hgs). exists gs.
  assert (Hobj : map (@projT1 _ _) (fresh initial gs) = gs) by (unfold fresh; rewrite map_map; cbn [projT1]; apply map_id).
  destruct (newer_evaluates 2 epsilon0 cwf 2 "n" "t" ltac:(lra) ltac:(lra) f 1 None 1 (ap_radii f) (radii1 (Fixed ap)) s_input 4 ltac:(lra) nlsc gs (fresh initial gs) m Hgs Hobj ltac:(discriminate)) as [S _].
  destruct S as (gs' & m' & Ev).
  - split; [lia|]. intros ls x [<-|[]]; cbn; intros Hx; repeat destruct Hx as [<-|Hx]; try contradiction; cbn; left; lra.
  - exists gs', m'. auto.
Qed.
Lemma s_differ epsilon0 cwf initial : exists s e c fi gs gs' m',
  rm_apply (C_new 2 2) (insertion_sort rm_flagged) f false 1 None = Ok s /\ rm_evaluate (C_new 2 2) s 4 = Ok (Some (e, c, fi)) /\
  makeReichMooreCompoundSystem 2 epsilon0 cwf 2 "n" "t" f nlsc None 1 = Ok (Some gs) /\
  evaluateSystem 2 epsilon0 cwf ShiftFactor (fresh initial gs) 4 (fun _ => None) = Ok (Some (gs', m')) /\
  value_of (m' (Elastic "n" "t")) = e + barns (k_old 1 1) 4 *
    (3 / 4 * (4 * (sin ap * sin ap) - 4 * (sin (or_ap f (s_state apl)) * sin (or_ap f (s_state apl))))
     + if Nat.eqb nlsc 2 then 3 * (4 * (sin (ap - atan ap) * sin (ap - atan ap))) else 0).
Proof.
  destruct s_old_values as (s & e & c & fi & Hs & He). destruct (s_new_values epsilon0 cwf initial (fun _ => None)) as (gs & gs' & m' & Hgs & Hev).
  exists s, e, c, fi, gs, gs', m'. split; [exact Hs|]. split; [exact He|]. split; [exact Hgs|]. split; [exact Hev|].
  assert (Hobj : map (@projT1 _ _) (fresh initial gs) = gs) by (unfold fresh; rewrite map_map; cbn [projT1]; apply map_id).
  destruct (difference 2 epsilon0 cwf 2 "n" "t" ltac:(lra) ltac:(lra) (insertion_sort rm_flagged) f 1 false 1 None _ _ (ap_radii f) (radii1 (Fixed ap)) 4 s_old s_input (insertion_sorts rm_flagged)
    ltac:(discriminate) ltac:(lra) (or_introl eq_refl) s e c fi Hs He nlsc gs (fresh initial gs) gs' (fun _ => None) m' Hgs Hobj Hev
    (fun _ => or_ap f (s_state apl)) (fun l => match l with O => ap | _ => ap - atan ap end) (seq 1 (nlsc - 1))) as (_ & _ & D).
  - intros ls [<-|[]]. rewrite C_one, k_4. unfold values_of. cbn [oval rs_L s_state]. rewrite Rmult_1_l. apply is_phase_l0.
  - intros l Hl. rewrite C_one, k_4, Rmult_1_l. cbn [oval radius_at r_phi radii1]. destruct l as [|[|l]]; [apply is_phase_l0 | | lia].
    destruct (phase_code 1 ap Hap ltac:(lia)) as (p & Ep & Hp). cbn in Ep. injection Ep as <-. exact Hp.
  - cbn. destruct nlsc as [|n]; [lia|]. cbn. replace (n - 0)%nat with n by lia. apply Permutation_refl.
  - rewrite D. cbn [value_of]. rewrite C_one, Rplus_0_l. f_equal. f_equal. f_equal.
    + cbn [f s_file rf_lstates map]. rewrite Rsum_cons'. change (Rsum []) with 0. rewrite !scattered_hard. cbn [s_state rs_L INR rf_SPI]. rewrite Rplus_0_r. f_equal.
      unfold accounted. cbn. unfold g_neutron. lra.
    + destruct nlsc as [|[|[|n]]]; try lia; cbn [Nat.sub seq map Nat.eqb]; [reflexivity|]. rewrite Rsum_cons', scattered_hard. change (Rsum []) with 0. cbn [INR]. lra.
Qed.
End Case.

Lemma sin_between x : 0 < x < PI -> 0 < sin x * sin x.
Proof. intros [A B]. pose proof (sin_gt_0 x A B). apply Rmult_lt_0_compat; assumption. Qed.
Lemma barns_4 : 0 < barns (k_old 1 1) 4.
Proof. unfold barns, pi_value. rewrite k_4. lra. Qed.
(** AP = 1 for both l, and nothing in the file for l = 1 *)
Lemma more_l epsilon0 cwf initial : exists s e c fi gs gs' m',
  rm_apply (C_new 2 2) (insertion_sort rm_flagged) (s_file 1 0) false 1 None = Ok s /\ rm_evaluate (C_new 2 2) s 4 = Ok (Some (e, c, fi)) /\
  makeReichMooreCompoundSystem 2 epsilon0 cwf 2 "n" "t" (s_file 1 0) 2 None 1 = Ok (Some gs) /\
  evaluateSystem 2 epsilon0 cwf ShiftFactor (fresh initial gs) 4 (fun _ => None) = Ok (Some (gs', m')) /\
  e < value_of (m' (Elastic "n" "t")).
Proof.
  destruct (s_differ 1 0 2 ltac:(lra) ltac:(lra) ltac:(lia) epsilon0 cwf initial) as (s & e & c & fi & gs & gs' & m' & H1 & H2 & H3 & H4 & D).
  exists s, e, c, fi, gs, gs', m'. repeat (split; [assumption|]). rewrite D. unfold or_ap. cbn [s_state s_file rs_APL rf_AP]. rewrite apl_0. cbn [Nat.eqb].
  pose proof barns_4 as B. assert (Q : 0 < sin (1 - atan 1) * sin (1 - atan 1)).
  { apply sin_between. rewrite atan_1. pose proof PI_4. pose proof PI2_1. pose proof PI_RGT_0. split; [|lra].
    pose proof (atan_bound 1). assert (PI / 4 < 1); [|lra]. destruct (Rle_lt_or_eq_dec PI 4 ltac:(assumption)); [lra|].
    exfalso. pose proof (sin_gt_0 2). pose proof PI_ineq 1 as [_ U]. unfold tg_alt, PI_tg in U. cbn in U. lra. }
  assert (0 < barns (k_old 1 1) 4 * (12 * (sin (1 - atan 1) * sin (1 - atan 1)))) by (apply Rmult_lt_0_compat; [exact B | lra]). lra.
Qed.
(** APL differs from AP: a radius of pi for J = 0, and pi / 2 for J = 1 *)
Lemma other_radius epsilon0 cwf initial : exists s e c fi gs gs' m',
  rm_apply (C_new 2 2) (insertion_sort rm_flagged) (s_file (PI / 2) PI) false 1 None = Ok s /\ rm_evaluate (C_new 2 2) s 4 = Ok (Some (e, c, fi)) /\
  makeReichMooreCompoundSystem 2 epsilon0 cwf 2 "n" "t" (s_file (PI / 2) PI) 1 None 1 = Ok (Some gs) /\
  evaluateSystem 2 epsilon0 cwf ShiftFactor (fresh initial gs) 4 (fun _ => None) = Ok (Some (gs', m')) /\
  e < value_of (m' (Elastic "n" "t")).
Proof.
  pose proof PI_RGT_0 as Hp.
  destruct (s_differ (PI / 2) PI 1 ltac:(lra) ltac:(lra) ltac:(lia) epsilon0 cwf initial) as (s & e & c & fi & gs & gs' & m' & H1 & H2 & H3 & H4 & D).
  exists s, e, c, fi, gs, gs', m'. repeat (split; [assumption|]). rewrite D. unfold or_ap. cbn [s_state s_file rs_APL rf_AP]. destruct (Req_EM_T PI 0); [lra|]. cbn [Nat.eqb].
  rewrite sin_PI2, sin_PI. pose proof barns_4 as B. assert (0 < barns (k_old 1 1) 4 * 3) by (apply Rmult_lt_0_compat; lra). lra.
Qed.
