(** Properties C47 (refined unresolved grid), C48 (resolved grids) and C49 (Reconstructor). *)
From Coq Require Import String List ZArith Reals Lra Lia Bool Sorted.
From Verif Require Import Outcome QuantumModel QuantumSpec HardSphereModel KinematicsModel CoulombModel Cplx RMatrixModel
  ChannelModel SpinGroupModel SpinGroupProofs SpinGroupChannelProofs SpinGroupTheorems SpinGroupExample BreitWignerModel LegacyModel UnresolvedModel ListFacts
  GridModel GridSpec GridProofs GridTheorems.
Import ListNotations.
Open Scope R_scope.

(** * C47: the refined grid of an unresolved system *)

(** The loop ends (any sufficient fuel gives the same list), the grid is strictly increasing,
    keeps all energies, adds only decade points in gaps of more than 25 per cent, and no step
    from a positive energy exceeds a factor 1.25.  Energies may be negative; only zero together
    with a positive energy is excluded. *)
Theorem C47_refined s : ~ zero_start (system_energies s) ->
  exists n out, (forall fuel, (n <= fuel)%nat -> unresolvedGrid fuel s = Ok out) /\
    refinement (system_energies s) out.
Proof. exact (unresolved_grid s). Qed.
Print Assumptions C47_refined.

(** Positive energies: ends kept, every step at most a factor 1.25 *)
Theorem C47_positive s : (forall e, In e (system_energies s) -> 0 < e) ->
  exists n out, (forall fuel, (n <= fuel)%nat -> unresolvedGrid fuel s = Ok out) /\
    increasing out /\ (forall e, In e (system_energies s) -> In e out) /\
    (forall x, In x out -> exists lo hi, In lo (system_energies s) /\ In hi (system_energies s) /\ lo <= x <= hi) /\
    (forall x y, consecutive out x y -> y <= 1.25 * x).
Proof.
  intros Hp. destruct (unresolved_grid s) as (n & out & Hf & [R1 R2 R3 R4]).
  { intros [H0 _]. specialize (Hp 0 H0). lra. }
  assert (B : forall x, In x out -> exists lo hi, In lo (system_energies s) /\ In hi (system_energies s) /\ lo <= x <= hi).
  { intros x Hx. destruct (R3 x Hx) as [H | (_ & p & c & H1 & H2 & _ & H3 & _)]; [exists x, x | exists p, c]; (split; [assumption|]; split; [assumption | lra]). }
  exists n, out. split; [exact Hf|]. split; [exact R1|]. split; [exact R2|]. split; [exact B|].
  intros x y C. replace 1.25 with (5/4) by lra. apply R4; [exact C|]. destruct C as (a & b & E).
  destruct (B x) as (lo & hi & H1 & _ & H2); [rewrite E; apply in_or_app; right; left; reflexivity|]. specialize (Hp lo H1). lra.
Qed.
Print Assumptions C47_positive.

(** A grid without large steps is left alone *)
Theorem C47_unchanged s : ~ zero_start (system_energies s) ->
  (forall p c, In p (system_energies s) -> In c (system_energies s) -> 0 < p -> 5/4 * p < c ->
     exists e, In e (system_energies s) /\ p < e < c) ->
  exists n, forall fuel, (n <= fuel)%nat -> exists out, unresolvedGrid fuel s = Ok out /\
    forall x, In x out <-> In x (system_energies s).
Proof.
  intros Z H. destruct (unresolved_grid s Z) as (n & out & Hf & [R1 R2 R3 R4]). exists n. intros fuel F. exists out. split; [exact (Hf fuel F)|].
  intros x. split; [|apply R2]. intros Hx. destruct (R3 x Hx) as [?|(_ & p & c & H1 & H2 & H3 & H4 & H5 & H6)]; [assumption|].
  exfalso. destruct (H p c H1 H2 H3 H5) as (e & He & Hb). exact (H6 e He Hb).
Qed.
Print Assumptions C47_unchanged.

(** Finding: with an energy of zero below a positive one, minus infinity is converted to int *)
Theorem C47_zero s : zero_start (system_energies s) ->
  exists n, forall fuel, (n <= fuel)%nat -> is_ub (unresolvedGrid fuel s).
Proof. exact (unresolved_grid_zero s). Qed.
Print Assumptions C47_zero.

Definition grid_case (es : list R) : unresolved_system :=
  mkUSystem [mkUGroup ex_elastic (mkUTable (map (fun e => mkUnresolved e 1 1 1 0 0) es) (mkData 1 0 0 0)%nat)] 0.
Example C47_case : let s := grid_case [1000; 2; 30000; 2; 2.1] in
  (forall e, In e (system_energies s) -> 0 < e) /\ ~ zero_start (system_energies s).
Proof.
  assert (H : forall e, In e (system_energies (grid_case [1000; 2; 30000; 2; 2.1])) -> 0 < e).
  { cbn. intros e H. repeat (destruct H as [<-|H]; [lra|]). destruct H. }
  split; [exact H|]. intros [H0 _]. specialize (H 0 H0). lra.
Qed.
Example C47_zero_case : zero_start (system_energies (grid_case [0; 2])).
Proof. split; [left; reflexivity|]. exists 2. split; [right; left; reflexivity | lra]. Qed.

(** * C48: resolved systems *)
Theorem C48_group hbar epsilon0 cwf g out : groupGrid hbar epsilon0 cwf g = Ok (Some out) ->
  increasing out /\ forall x, In x out <->
    exists r t, In r (t_resonances (g_table g)) /\ 0 < rs_energy r /\ has_width hbar epsilon0 cwf g r t /\
      point_of (rs_energy r) t x.
Proof. exact (group_grid_spec hbar epsilon0 cwf g out). Qed.
Print Assumptions C48_group.

Theorem C48_system hbar epsilon0 cwf gs out : systemGrid hbar epsilon0 cwf gs = Ok (Some out) ->
  increasing out /\ forall x, In x out <->
    exists g r t, In g gs /\ In r (t_resonances (g_table g)) /\ 0 < rs_energy r /\ has_width hbar epsilon0 cwf g r t /\
      point_of (rs_energy r) t x.
Proof. exact (system_grid_spec hbar epsilon0 cwf gs out). Qed.
Print Assumptions C48_system.

(** The grid exists as soon as the penetrabilities at the positive energies do *)
Theorem C48_group_ok hbar epsilon0 cwf g :
  (forall r, In r (t_resonances (g_table g)) -> 0 < rs_energy r -> exists t, has_width hbar epsilon0 cwf g r t) ->
  exists out, groupGrid hbar epsilon0 cwf g = Ok (Some out).
Proof. exact (group_grid_ok hbar epsilon0 cwf g). Qed.
Print Assumptions C48_group_ok.

Theorem C48_legacy_group g : increasing (legacyGrid g) /\ forall x, In x (legacyGrid g) <->
  exists r, In r (lg_resonances g) /\ 0 < q_energy r /\
    point_of (q_energy r) (q_elastic r + q_capture r + q_fission r + q_competition r) x.
Proof. exact (legacy_group_grid_spec g). Qed.
Print Assumptions C48_legacy_group.

Theorem C48_legacy_system s : increasing (legacySystemGrid s) /\ forall x, In x (legacySystemGrid s) <->
  exists g r, In g (ly_groups s) /\ In r (lg_resonances g) /\ 0 < q_energy r /\
    point_of (q_energy r) (q_elastic r + q_capture r + q_fission r + q_competition r) x.
Proof. exact (legacy_grid_spec s). Qed.
Print Assumptions C48_legacy_system.

(** Only one increasing list has given elements, so the four theorems determine the grids *)
Theorem C48_determined l l' : increasing l -> increasing l' -> (forall x, In x l <-> In x l') -> l = l'.
Proof. exact (increasing_unique l l'). Qed.
Print Assumptions C48_determined.

(** Finding: the points are not all positive, although the resonances without positive energy
    are left out: a width larger than twice the energy gives a negative energy *)
Theorem C48_positive_refuted : exists g x, In x (legacyGrid g) /\ x < 0.
Proof.
  exists (mkLegacyGroup ex_elastic [mkLegacy 1 4 0 0 0 None None 0] 0), (-1). split; [|lra].
  apply legacy_group_grid_spec. eexists. split; [left; reflexivity|]. cbn. split; [lra|]. left. lra.
Qed.
Print Assumptions C48_positive_refuted.

Lemma values_penetrability hbar epsilon0 cwf b c e v : channelValues hbar epsilon0 cwf b c e = Ok (Some v) ->
  exists p, channelPenetrability hbar epsilon0 cwf c e = Ok (Some p).
Proof.
  unfold channelValues. intros H. apply bind_Ok in H as (op & Hp & H). destruct op as [p|]; [exists p; exact Hp|].
  apply bind_Ok in H as (os & _ & H). apply bind_Ok in H as (oi & _ & H). discriminate.
Qed.
Example C48_case epsilon0 cwf : exists out, groupGrid 1 epsilon0 cwf (ex_group 1) = Ok (Some out) /\ In 10 out /\ In 20 out.
Proof.
  assert (W : forall e, e <> 0 -> exists p q, channelPenetrability 1 epsilon0 cwf ex_elastic e = Ok (Some p) /\
                        channelPenetrability 1 epsilon0 cwf ex_fission e = Ok (Some q)).
  { intros e He. destruct (tame_group epsilon0 cwf Constant Rlt_0_1 (ex_neutral (t := ex_table 1) He)) as (vs & Ev & _).
    unfold groupValues, omap in Ev. apply bind_Ok in Ev as (l & El & Ev). injection Ev as Ev.
    cbn [g_channels ex_group_of ex_channels mapM] in El. apply bind_Ok in El as (o1 & E1 & El). apply bind_Ok in El as (l2 & E2 & El).
    apply bind_Ok in E2 as (o2 & E2 & E3). cbn in E3. injection E3 as <-. injection El as <-.
    destruct o1 as [v1|]; [|discriminate]. destruct o2 as [v2|]; [|discriminate].
    destruct (values_penetrability _ _ _ _ _ _ _ E1) as [p Hp]. destruct (values_penetrability _ _ _ _ _ _ _ E2) as [q Hq].
    exists p, q. split; assumption. }
  assert (HW : forall r, In r (t_resonances (g_table (ex_group 1))) -> 0 < rs_energy r -> exists t, has_width 1 epsilon0 cwf (ex_group 1) r t).
  { intros r Hr P. destruct (W (rs_energy r) ltac:(lra)) as (p & q & Hp & Hq). eexists. exists [p; q]. split; [|reflexivity].
    cbn [g_channels ex_group ex_group_of ex_channels]. constructor; [exact Hp | constructor; [exact Hq | constructor]]. }
  destruct (group_grid_ok 1 epsilon0 cwf (ex_group 1) HW) as [out Ho]. exists out. split; [exact Ho|].
  destruct (group_grid_spec _ _ _ _ _ Ho) as [_ G].
  split; apply G; [exists (Resonance 10 [1; 2] 1) | exists (Resonance 20 [-1; 3] 1)];
    match goal with |- exists t, In ?r _ /\ _ => destruct (HW r) as [t Ht]; [cbn; auto | cbn; lra|] end;
    exists t; (split; [cbn; auto|]; split; [cbn; lra|]; split; [exact Ht|]; right; left; reflexivity).
Qed.

(** * C49: the Reconstructor *)
Theorem C49_outside hbar epsilon0 cwf r e : ~ (rc_lower r <= e <= rc_upper r) ->
  reconstruct hbar epsilon0 cwf r e = Ok (Some (r, Empty)).
Proof. exact (reconstruct_outside hbar epsilon0 cwf r e). Qed.
Print Assumptions C49_outside.

(** Inside the range (both ends included) the answer is the compound system's *)
Theorem C49_inside hbar epsilon0 cwf r e : rc_lower r <= e <= rc_upper r ->
  reconstruct hbar epsilon0 cwf r e =
  omap (option_map (fun p => (mkReconstructor (rc_lower r) (rc_upper r) (fst p), snd p)))
       (evaluateCompound hbar epsilon0 cwf (rc_system r) e).
Proof. exact (reconstruct_inside hbar epsilon0 cwf r e). Qed.
Print Assumptions C49_inside.

Theorem C49_grid hbar epsilon0 cwf fuel r out : reconstructorGrid hbar epsilon0 cwf fuel r = Ok (Some out) ->
  exists all, compoundGrid hbar epsilon0 cwf fuel (rc_system r) = Ok (Some all) /\
    (forall x, In x out <-> In x all /\ rc_lower r <= x <= rc_upper r) /\ (increasing all -> increasing out).
Proof.
  intros H. apply reconstructor_grid in H as (all & Ha & ->). exists all. split; [exact Ha|]. split; [|apply filter_increasing].
  intros x. rewrite filter_In, inside_spec. reflexivity.
Qed.
Print Assumptions C49_grid.

(** A grid that can be had at all is strictly increasing *)
Theorem C49_grid_increasing hbar epsilon0 cwf r : exists n, forall fuel out, (n <= fuel)%nat ->
  reconstructorGrid hbar epsilon0 cwf fuel r = Ok (Some out) -> increasing out.
Proof.
  assert (G : exists n, forall fuel all, (n <= fuel)%nat -> compoundGrid hbar epsilon0 cwf fuel (rc_system r) = Ok (Some all) -> increasing all).
  { destruct (rc_system r) as [s|s|gs|gs|s]; cbn [compoundGrid].
    1,2: exists 0%nat; intros fuel all _ H; injection H as <-; apply legacy_grid_spec.
    1,2: exists 0%nat; intros fuel all _ H; apply (system_grid_spec _ _ _ _ _ H).
    destruct (zero_start_dec (system_energies s)) as [Hz|Hz].
    - destruct (unresolved_grid_zero s Hz) as [n Hn]. exists n. intros fuel all Hf H. destruct (Hn fuel Hf) as [w Hw]. rewrite Hw in H. discriminate.
    - destruct (unresolved_grid s Hz) as (n & out & Hn & R). exists n. intros fuel all Hf H. rewrite (Hn fuel Hf) in H. injection H as <-. apply (rf_increasing _ _ R). }
  destruct G as [n Hn]. exists n. intros fuel out Hf H. apply reconstructor_grid in H as (all & Ha & ->).
  apply filter_increasing, (Hn fuel all Hf Ha).
Qed.
Print Assumptions C49_grid_increasing.

(** Both ends belong to the range *)
Example C49_case : let r := mkReconstructor 1 5 (SLBW (mkLegacySystem [mkLegacyGroup ex_elastic [mkLegacy 3 4 0 0 0 None None 0] 0] 0)) in
  (rc_lower r <= 1 <= rc_upper r) /\ (rc_lower r <= 5 <= rc_upper r) /\ ~ (rc_lower r <= 6 <= rc_upper r) /\
  forall hbar epsilon0 cwf, exists out, reconstructorGrid hbar epsilon0 cwf 0 r = Ok (Some out) /\ In 1 out /\ In 5 out.
Proof.
  cbn [rc_lower rc_upper]. split; [lra|]. split; [lra|]. split; [lra|]. intros. eexists. split; [reflexivity|].
  assert (P : forall x, x = 1 \/ x = 5 -> In x (filter (inside (mkReconstructor 1 5 (SLBW (mkLegacySystem [mkLegacyGroup ex_elastic [mkLegacy 3 4 0 0 0 None None 0] 0] 0))))
     (legacySystemGrid (mkLegacySystem [mkLegacyGroup ex_elastic [mkLegacy 3 4 0 0 0 None None 0] 0] 0)))) .
  { intros x Hx. apply filter_In. split; [|apply inside_spec; cbn; lra]. apply legacy_grid_spec.
    eexists; eexists. split; [left; reflexivity|]. split; [left; reflexivity|]. cbn. split; [lra|]. unfold point_of. lra. }
  split; apply P; auto.
Qed.
