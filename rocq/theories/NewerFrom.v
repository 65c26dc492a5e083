(** From a file with Reich-Moore parameters to the cross sections, in the newer interface. *)
From Coq Require Import String List ZArith Reals Bool Lra Lia Permutation.
From Verif Require Import Outcome QuantumModel QuantumSpec HardSphereModel HardSphereSpec KinematicsModel CoulombModel
  Cplx RMatrixModel ChannelModel SpinGroupModel BreitWignerModel BreitWignerSpec BreitWignerSystemProofs BreitWignerCases ReichMooreModel LegacyModel LegacyProofs ListFacts GridModel AssemblyModel
  EndfModel EndfSpec EndfFlagProofs EndfReichMooreProofs EndfTheorems ReichMooreSpec ReichMooreProofs ReichMooreTheory ReichMooreCases KMatrixModel KMatrixSpec KMatrixMore ReconstructionTheorems
  NewerFacts NewerRMSpec NewerWhole NewerTheorems NewerAgreement.
Import ListNotations.
Open Scope R_scope.

Section File.
Variables (hbar epsilon0 : R) (cwf : nat -> R -> R -> outcome coulomb) (mn elementaryCharge : R) (incident target : string)
  (products : Z -> outcome (string * string)) (multiRegion : endf_radius -> outcome (R -> outcome R)) (initial : forall g, cache (gsize g)).
Hypotheses (Hh : 0 < hbar) (Hmn : 0 < mn).
Let from := fromENDF hbar epsilon0 cwf mn elementaryCharge incident target products multiRegion initial.
Theorem from_reich_moore r f nlsc nro rc e rc' o A rad rad0 phi phi0 : er_LRU r = 1%Z -> er_LRF r = 3%Z -> er_parameters r = ParametersReichMoore f nlsc ->
  makeChannelRadiusTable multiRegion (er_radius r) = Ok nro -> newer_input mn f A nro (er_NAPS r) rad rad0 -> 0 < e ->
  from r = Ok (Some rc) -> er_lower r <= e <= er_upper r -> reconstruct hbar epsilon0 cwf rc e = Ok (Some (rc', o)) ->
  let k := k_old (C_new hbar mn) A in let a ls x := oval (radius_at (r_P (rad ls)) x) in
  (forall ls, In ls (rf_lstates f) -> is_phase (rs_L ls) (k e * oval (radius_at (r_phi (rad ls)) e)) (phi ls)) ->
  (forall l, (l < nlsc)%nat -> is_phase l (k e * oval (radius_at (r_phi rad0) e)) (phi0 l)) ->
  exists m, o = Matrix m /\
  value_of (m (Elastic incident target)) = newer_elastic k e (rf_SPI f) a phi phi0 nlsc (rf_lstates f) /\
  value_of (m (Transfer (incident ++ "," ++ target) "fission")) = newer_fission k e (rf_SPI f) a phi (rf_lstates f) /\
  value_of (m (Transfer (incident ++ "," ++ target) "capture")) = newer_capture k e (rf_SPI f) a phi (rf_lstates f) /\
  (forall x, x <> Elastic incident target -> x <> Transfer (incident ++ "," ++ target) "fission" -> x <> Transfer (incident ++ "," ++ target) "capture" -> m x = None).
Proof.
  intros H1 H2 H3 H4 Hin He Hf Hr Ho k a Hphi Hphi0. unfold from, fromENDF in Hf. rewrite H4, H1, H2, H3 in Hf. cbn [bind Z.eqb Pos.eqb] in Hf. unfold reconstructorOf, omap in Hf.
  apply bind_Ok in Hf as (os & Hs & Hf). destruct os as [gs|]; [|discriminate]. injection Hf as <-. rewrite in_range in Ho by exact Hr.
  cbn [rc_system evaluateCompound] in Ho. destruct (evaluateSystem hbar epsilon0 cwf ShiftFactor (fresh initial gs) e (fun _ => None)) as [[[gs' m']|]| | |] eqn:Ev; try discriminate.
  cbn in Ho. injection Ho as _ <-. exists m'. split; [reflexivity|].
  assert (Hobj : map (@projT1 _ _) (fresh initial gs) = gs) by (unfold fresh; rewrite map_map; cbn [projT1]; apply map_id).
  destruct (newer_file hbar epsilon0 cwf mn incident target Hh Hmn f A nro (er_NAPS r) rad rad0 Hin e He nlsc gs _ _ gs' m' phi phi0 Hs Hobj Ev Hphi Hphi0) as (N1 & N2 & N3 & N4).
  cbn [value_of] in N1, N2, N3. rewrite Rplus_0_l in N1, N2, N3. auto.
Qed.
End File.

(** * Concrete files *)
Lemma C_one : C_new 2 2 = 1.
Proof. unfold C_new. replace (2 * 2) with (Rsqr 2) by (unfold Rsqr; lra). rewrite sqrt_Rsqr by lra. lra. Qed.

(** Two l values with all J, one of them with fission *)
Definition pd_file : rm_file :=
  mkRMFile 1 1 [mkRMState 0 1 0 [mkRMLine 5 0 1 1 0 0];
                mkRMState 1 1 0 [mkRMLine 10 2 1 2 3 0; mkRMLine 20 (-2) 1 2 0 0; mkRMLine 30 4 1 2 0 4]].
Lemma apl_0 ap : (if Req_EM_T 0 0 then ap else 0) = ap.
Proof. destruct (Req_EM_T 0 0); [reflexivity | congruence]. Qed.
Ltac number := unfold spec_number, triangle; cbn; (split; [lia|]); (split; [split; [lia|]; first [exists 0%Z; lia | exists 1%Z; lia | exists 2%Z; lia | exists 3%Z; lia | exists 4%Z; lia]|]);
        (split; [|reflexivity]); (split; [lia|]); first [exists 0%Z; lia | exists 1%Z; lia | exists 2%Z; lia | exists 3%Z; lia | exists 4%Z; lia].
Lemma pd_sensible : sensible pd_file 2 None 1.
Proof.
  constructor; cbn; try lia; try lra; try discriminate; try (unfold is_spin; lia).
  - intros ls [<-|[<-|[]]]; cbn; lra.
  - intros ls [<-|[<-|[]]]; cbn; lia.
  - intros ls [<-|[<-|[]]]; cbn; lra.
  - intros ls r [<-|[<-|[]]]; cbn; [intros [<-|[]] | intros [<-|[<-|[<-|[]]]]]; cbn; lra.
  - exists [mkQ 0 0 0 1; mkQ 1 2 2 (-1); mkQ 1 0 2 (-1); mkQ 1 2 4 (-1)]. split; [|split].
    + repeat constructor; cbn; intros H; repeat destruct H as [H|H]; try discriminate; contradiction.
    + intros q [<-|[<-|[<-|[<-|[]]]]]; number.
    + cbn. repeat constructor.
Qed.
Lemma pd_fine : ~ clash pd_file.
Proof.
  unfold fissile; intros [(ls & r & r' & H & A & B & C & D & E & F)|(a & ls & b & ls' & c & r & r' & H & L & _)].
  - destruct H as [<-|[<-|[]]]; cbn in A, B.
    + destruct A as [<-|[]], B as [<-|[]]. apply F. reflexivity.
    + destruct A as [<-|[<-|[<-|[]]]], B as [<-|[<-|[<-|[]]]]; cbn in *; try (apply F; reflexivity); try discriminate; destruct C as [C|C], D as [D|D]; first [exact (C eq_refl) | exact (D eq_refl)].
  - cbn in H. destruct a as [|x [|y a]]; cbn in H.
    + injection H as <- H. destruct b as [|z b]; [injection H as <- _; discriminate|]. injection H as _ H. destruct b; discriminate.
    + injection H as _ _ H. destruct b; discriminate.
    + injection H as _ _ H. destruct a; discriminate.
Qed.
Lemma filter_nodup {T} (key : T -> R) p l : NoDup (map key l) -> NoDup (map key (filter p l)).
Proof.
  induction l as [|x l IH]; intros H; [exact H|]. inversion H as [|? ? N1 N2]; subst. cbn [filter]. destruct (p x); [|apply IH; exact N2].
  cbn [map]. constructor; [|apply IH; exact N2]. intros Q. apply N1. apply in_map_iff in Q as (y & E & Hy). apply filter_In in Hy as [Hy _]. rewrite <- E. apply in_map. exact Hy.
Qed.
Definition ap_radii (f : rm_file) (ls : rm_lstate) : radii := radii1 (Fixed (or_ap f ls)).
Lemma pd_input : newer_input 2 pd_file 1 None 1 (ap_radii pd_file) (radii1 (Fixed 1)).
Proof.
  constructor.
  - lra.
  - intros ls [<-|[<-|[]]]; reflexivity.
  - cbn. unfold is_spin. lia.
  - intros ls [<-|[<-|[]]]; unfold or_ap; cbn; destruct (Req_EM_T 0 0); try congruence; (split; [lra|]); unfold ap_radii, or_ap; cbn; destruct (Req_EM_T 0 0); try congruence; auto.
  - split; [cbn; lra | cbn; auto].
  - discriminate.
  - intros J even. unfold of_wave, pd_file. destruct even; cbn [rf_lstates filter rs_L Nat.even Bool.eqb]; cbn [map concat rs_lines]; rewrite app_nil_r; apply filter_nodup; cbn;
      repeat constructor; cbn; intros H; repeat destruct H as [H|H]; lra || contradiction.
Qed.
Lemma pd_old : rm_input (C_new 2 2) pd_file 1 false 1 None (fun ls _ => Ok (or_ap pd_file ls)) (fun ls _ => Ok (or_ap pd_file ls)).
Proof.
  rewrite C_one. constructor; try lra.
  - eexists; eexists; split; reflexivity.
  - cbn. unfold is_spin. lia.
  - exact (NRO0_NAPS1 pd_file 1 None).
  - intros ls [<-|[<-|[]]] e r H; injection H as <-; unfold or_ap; cbn; destruct (Req_EM_T 0 0); cbn; lra.
  - intros ls [<-|[<-|[]]] e r H; injection H as <-; unfold or_ap; cbn; destruct (Req_EM_T 0 0); cbn; lra.
  - intros ls x [<-|[<-|[]]]; cbn; [intros [<-|[]] | intros [<-|[<-|[<-|[]]]]]; cbn; lra.
Qed.
Lemma pd_old_values : exists s e c fi, rm_apply (C_new 2 2) (insertion_sort rm_flagged) pd_file false 1 None = Ok s /\
  rm_evaluate (C_new 2 2) s 4 = Ok (Some (e, c, fi)).
Proof.
  destruct (rm_apply_ok (C_new 2 2) (insertion_sort rm_flagged) pd_file 1 false 1 None _ _ 4 pd_old (insertion_sorts rm_flagged)) as (s & [[e c] fi] & Hs & He).
  - split; [lra|]. intros ls [<-|[<-|[]]]; (split; [cbn; lia|]); cbn; intros x Hx; repeat destruct Hx as [<-|Hx]; try contradiction; cbn; (split; [lra|]); (split; [lra|]); (split; [eexists; reflexivity | left; lra]).
  - exact Logic.I.
  - exists s, e, c, fi. auto.
Qed.
Lemma pd_new_values epsilon0 cwf (initial : forall g, cache (gsize g)) m : exists gs gs' m',
  makeReichMooreCompoundSystem 2 epsilon0 cwf 2 "n" "t" pd_file 2 None 1 = Ok (Some gs) /\
  evaluateSystem 2 epsilon0 cwf ShiftFactor (fresh initial gs) 4 m = Ok (Some (gs', m')).
Proof.
  destruct (sensible_made 2 epsilon0 cwf 2 "n" "t" ltac:(lra) ltac:(lra) pd_file 2 None 1 pd_sensible ltac:(cbn; repeat split; discriminate) ltac:(cbn; repeat split; discriminate)) as [H _].
  destruct (H pd_fine) as (gs & Hgs). exists gs.
  assert (Hobj : map (@projT1 _ _) (fresh initial gs) = gs) by (unfold fresh; rewrite map_map; cbn [projT1]; apply map_id).
  destruct (newer_evaluates 2 epsilon0 cwf 2 "n" "t" ltac:(lra) ltac:(lra) pd_file 1 None 1 (ap_radii pd_file) (radii1 (Fixed 1)) pd_input 4 ltac:(lra) 2%nat gs (fresh initial gs) m Hgs Hobj ltac:(discriminate)) as [S _].
  destruct S as (gs' & m' & Ev).
  - split; [lia|]. intros ls x [<-|[<-|[]]]; cbn; intros Hx; repeat destruct Hx as [<-|Hx]; try contradiction; cbn; left; lra.
  - exists gs', m'. auto.
Qed.
