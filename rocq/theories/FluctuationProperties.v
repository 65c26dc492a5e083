(** Property C86: how close the fluctuation integrals are to averages over chi-square
    distributions. *)
From Coq Require Import String List ZArith Reals Lra Lia Bool Sorted.
From Verif Require Import Outcome QuantumModel QuantumSpec HardSphereSpec KinematicsModel Cplx RMatrixModel ChannelModel
  BreitWignerModel BreitWignerSpec LegacyModel ListFacts BreitWignerProofs BreitWignerSystemProofs LegacyProofs LegacySystemProofs
  UnresolvedModel UnresolvedSpec UnresolvedProofs UnresolvedSystemProofs UnresolvedTheorems.
From Verif Require Import FluctuationSpec ChiSquareProofs RuleErrorProofs FluctuationProofs FluctuationTheorems FluctuationSystem FluctuationCases.
Import ListNotations.
Open Scope R_scope.

(** The distributions have mean one, for any number of degrees of freedom, and a mean is
    one number. *)
Theorem C86_distribution n : (1 <= n)%nat -> mean n (fun _ => 1) 1 /\ mean n (fun y => y) 1 /\
  forall f v w, mean n f v -> mean n f w -> v = w.
Proof. intros Hn. exact (Logic.conj (mean_const n Hn 1) (Logic.conj (mean_id n Hn) (mean_unique n))). Qed.
Print Assumptions C86_distribution.

(** Each 10 point rule against the distribution it stands for, for the two functions the
    integrals are made of *)
Theorem C86_rules n s : (1 <= n <= 4)%nat -> 0 < s -> exists v w,
  mean n (fun y => s / (y + s)) v /\ Rabs (average (chi2_rule n) (fun y => s / (y + s)) - v) <= other_error n /\
  mean n (fun y => y * y / (y + s)) w /\ Rabs (average (chi2_rule n) (fun y => y * y / (y + s)) - w) <= own_error n.
Proof. exact (rules_accurate n s). Qed.
Print Assumptions C86_rules.

(** The integrals of the code times the widths.  A fluctuating width with no degrees of
    freedom is read as having one. *)
Theorem C86_integrals w d : (1 <= d_elastic d <= 4)%nat -> (d_fission w <> 0 -> (d_fission d <= 4)%nat) -> (d_competition w <> 0 -> (d_competition d <= 4)%nat) ->
  0 < d_elastic w -> 0 <= d_capture w -> 0 <= d_fission w -> 0 <= d_competition w ->
  let df := Nat.max 1 (d_fission d) in let dx := Nat.max 1 (d_competition d) in
  let a := allowed_error (d_fission w) (d_competition w) (d_elastic d) df dx in
  exists i e c f x, calculateFluctuationIntegrals w d = Ok (Some i) /\
    exact (d_elastic w) (d_capture w) (d_fission w) (d_competition w) (d_elastic d) df dx e c f x /\ e + c + f + x = 1 /\
    Rabs (d_elastic w * d_elastic i - e) <= a /\ Rabs (d_capture w * d_capture i - c) <= a /\
    Rabs (d_fission w * d_fission i - f) <= a /\ Rabs (d_competition w * d_competition i - x) <= a.
Proof. exact (integrals_accurate w d). Qed.
Print Assumptions C86_integrals.

(** The exact values are determined. *)
Theorem C86_unique Gn Gg Gf Gx dn df dx e c f x e' c' f' x' : (1 <= dn)%nat -> (1 <= df)%nat -> (1 <= dx)%nat ->
  exact Gn Gg Gf Gx dn df dx e c f x -> exact Gn Gg Gf Gx dn df dx e' c' f' x' -> e = e' /\ c = c' /\ f = f' /\ x = x'.
Proof. exact (exact_unique Gn Gg Gf Gx dn df dx e c f x e' c' f' x'). Qed.
Print Assumptions C86_unique.

(** The cross sections of a system in the unresolved region *)
Theorem C86_cross hbar epsilon0 cwf mn incident target A I rad E s m m' :
  0 < hbar -> 0 < mn -> 0 < A -> is_spin I -> 0 < E ->
  positive (radius_at (r_P rad)) -> positive (radius_at (r_phi rad)) -> (exists r, radius_at (r_P rad) E = Ok r) ->
  (forall u, In u (uy_groups s) -> legacy_channel mn incident target A I (ug_channel u) rad /\ well_formed u /\ degrees_in u /\
     (0 <= qJ (c_numbers (ug_channel u)))%Z /\
     (forall r, In r (ut_resonances (ug_table u)) -> 0 < ur_spacing r /\ 0 < ur_elastic r /\ 0 <= ur_capture r /\
        0 <= ur_fission r /\ 0 <= ur_competition r)) ->
  unresolved_system_evaluate hbar epsilon0 cwf s E m = Ok (Some m') ->
  let k := k_old (C_new hbar mn) A in let rho := k E * oval (radius_at (r_phi rad) E) in let U0 l := hard_sphere_U l rho in
  let g := g_neutron I in let F := formation pi_value in
  exists vts, Forall2 (fun u vt => parameters_of hbar mn A rad E u (fst vt) /\ with_exact (fst vt) (snd vt)) (uy_groups s) vts /\
    let error := barns k E * Rsum (map (fun vt => g (v_J (fst vt)) * (F (fst vt) * group_error (fst vt))) vts) in
    Rabs (mval m' (elastic_key incident target) - (mval m (elastic_key incident target) + barns k E *
      (Rsum (map (fun vt => g (v_J (fst vt)) * (F (fst vt) * (part_elastic (snd vt) - (1 - re (U0 (v_l (fst vt))))))) vts)
       + Rsum (map (fun l => (2 * INR l + 1) * optical_total (U0 l)) (seq 0 (S (uy_lmax s))))))) <= error /\
    Rabs (mval m' (capture_key incident target) - (mval m (capture_key incident target) + barns k E *
      Rsum (map (fun vt => g (v_J (fst vt)) * (F (fst vt) * part_capture (snd vt))) vts))) <= error /\
    Rabs (mval m' (fission_key incident target) - (mval m (fission_key incident target) + barns k E *
      Rsum (map (fun vt => g (v_J (fst vt)) * (F (fst vt) * part_fission (snd vt))) vts))) <= error.
Proof. exact (system_accurate hbar epsilon0 cwf mn incident target A I rad E s m m'). Qed.
Print Assumptions C86_cross.

(** Three fluctuating widths, with one, two and three degrees of freedom *)
Example C86_integrals_case : exists i e c f x, calculateFluctuationIntegrals (mkData 1 2 3 4) (mkData 1 0 2 3)%nat = Ok (Some i) /\
  exact 1 2 3 4 1 2 3 e c f x /\ e + c + f + x = 1 /\
  Rabs (1 * d_elastic i - e) <= 0.0025 /\ Rabs (2 * d_capture i - c) <= 0.0025.
Proof.
  destruct (C86_integrals (mkData 1 2 3 4) (mkData 1 0 2 3)%nat) as (i & e & c & f & x & H1 & H2 & H3 & B1 & B2 & _);
    cbn [d_elastic d_capture d_fission d_competition] in *; try lra; try lia.
  assert (A : allowed_error 3 4 1 2 3 <= 0.0025). { unfold allowed_error, own_error, other_error. destruct (Req_EM_T 3 0); [lra|]. destruct (Req_EM_T 4 0); lra. }
  exists i, e, c, f, x. repeat split; try assumption; try apply H2; eapply Rle_trans; try apply A; assumption.
Qed.

(** The file of C46_case at 2 eV *)
Example C86_cross_case epsilon0 cwf m : exists s m', case_system = Ok s /\
  unresolved_system_evaluate 1 epsilon0 cwf s 2 m = Ok (Some m') /\ 0 < 1 /\ is_spin 0 /\
  positive (radius_at (r_P (radii1 (Fixed 1)))) /\ positive (radius_at (r_phi (radii1 (Fixed 1)))) /\
  (exists r, radius_at (r_P (radii1 (Fixed 1))) 2 = Ok r) /\ uy_groups s <> nil /\
  (forall u, In u (uy_groups s) -> legacy_channel 1 "n" "t" 1 0 (ug_channel u) (radii1 (Fixed 1)) /\ well_formed u /\ degrees_in u /\
     (0 <= qJ (c_numbers (ug_channel u)))%Z /\
     (forall r, In r (ut_resonances (ug_table u)) -> 0 < ur_spacing r /\ 0 < ur_elastic r /\ 0 <= ur_capture r /\
        0 <= ur_fission r /\ 0 <= ur_competition r)).
Proof.
  destruct (case_evaluated 1 epsilon0 cwf m eq_refl) as (s & m' & Hs & Hm). exists s, m'.
  destruct case_input as (_ & _ & _ & HI & HAW & Hrad & Hch & Hsc).
  destruct (file_groups 1 "n" "t" 1 0 1 None 1 None 1 4 case_file _ HAW Hrad s Hs) as (_ & _ & Hne).
  split; [exact Hs|]. split; [exact Hm|]. split; [lra|]. split; [exact HI|]. split; [exact Hch|]. split; [exact Hsc|].
  split; [eexists; reflexivity|]. split; [exact Hne|]. exact (case_groups s Hs).
Qed.

(** What is allowed when only the neutron width fluctuates *)
Example C86_bound_case dn : allowed_error 0 0 dn 1 1 = own_error dn.
Proof. unfold allowed_error. destruct (Req_EM_T 0 0); lra. Qed.
