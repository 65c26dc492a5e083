(** C83: for which files the Breit-Wigner formats give cross sections. *)
From Coq Require Import String List ZArith Reals Bool Lra Lia.
From Verif Require Import Outcome QuantumModel QuantumSpec CoulombModel Cplx RMatrixModel ChannelModel BreitWignerModel BreitWignerSpec BreitWignerSystemProofs BreitWignerTheorems LegacyModel LegacyProofs LegacySystemProofs
  NewerFrom LegacyTotalSpec LegacyTotal FormatsCases.
Import ListNotations.
Open Scope R_scope.

(** If every l and J asked for has a channel of its own and no resonance is at zero energy, the
    compound system is made, unless both signs of some J are given for the same l: *)
Theorem C83_made hbar epsilon0 cwf mn incident target f A nro naps rad n :
  input_new hbar mn f A nro naps rad n -> (n <= 4)%nat -> lines_usable f rad -> own_channels f (S n) -> ~ opposite_spins f ->
  exists s, makeLegacyBreitWigner hbar epsilon0 cwf mn incident target f nro naps = Ok (Some s).
Proof. intros H Hn Hu Hq No. exact (proj1 (legacy_made hbar epsilon0 cwf mn incident target f A nro naps rad n H Hn Hu Hq) No). Qed.
(** ... then an exception is thrown, although the quantum numbers were looked up by that sign *)
Theorem C83_opposite hbar epsilon0 cwf mn incident target f A nro naps rad n :
  input_new hbar mn f A nro naps rad n -> (n <= 4)%nat -> lines_usable f rad -> own_channels f (S n) -> opposite_spins f ->
  makeLegacyBreitWigner hbar epsilon0 cwf mn incident target f nro naps = std_exception.
Proof. intros H Hn Hu Hq No. exact (proj2 (legacy_made hbar epsilon0 cwf mn incident target f A nro naps rad n H Hn Hu Hq) No). Qed.

(** A system that was made is evaluated without trouble exactly when no level has its pole on the
    real axis at that energy, in both formats. *)
Theorem C83_evaluates hbar epsilon0 cwf mn incident target f A nro naps rad n E s m :
  input_new hbar mn f A nro naps rad n -> (n <= 4)%nat -> lines_usable f rad -> E <> 0 ->
  (exists r, radius_at (r_P rad) E = Ok r) -> (exists r, radius_at (r_phi rad) E = Ok r) ->
  (forall ls, In ls (f_lstates f) -> ls_QX ls <> 0 -> E - ls_QX ls <> 0 /\ exists r, radius_at (r_P rad) (E - ls_QX ls) = Ok r) ->
  makeLegacyBreitWigner hbar epsilon0 cwf mn incident target f nro naps = Ok (Some s) ->
  let off_axis := forall ls x, In ls (f_lstates f) -> In x (ls_lines ls) ->
    norm2 (pole E (level_of (k_old (C_new hbar mn) A) (fun e => oval (radius_at (r_P rad) e)) E q_new ls x)) <> 0 in
  (off_axis <-> exists m', legacy_evaluate hbar (legacySLBW hbar epsilon0 cwf) s E m = Ok (Some m')) /\
  (off_axis <-> exists m', legacy_evaluate hbar (legacyMLBW hbar epsilon0 cwf) s E m = Ok (Some m')).
Proof. intros H Hn Hu HE H1 H2 HQ Hs. exact (legacy_evaluates hbar epsilon0 cwf mn incident target f A nro naps rad n H Hn Hu E HE H1 H2 HQ s m Hs). Qed.
Print Assumptions C83_made.
Print Assumptions C83_opposite.
Print Assumptions C83_evaluates.

(** Two l values with a resonance each *)
Example C83_case : input_new 2 2 (bw_pair 1) 1 None 1 (radii1 (Fixed 1)) 1 /\ lines_usable (bw_pair 1) (radii1 (Fixed 1)) /\ own_channels (bw_pair 1) 2 /\ ~ opposite_spins (bw_pair 1) /\
  off_axis 2 2 (bw_pair 1) 1 (radii1 (Fixed 1)) 4.
Proof.
  assert (H : 1 <> 0 /\ 1 <> 4 /\ 1 <> 5) by lra. split; [exact (bw_pair_input 1 H)|]. split; [exact (bw_pair_usable 1 H)|]. split; [exact (bw_pair_channels 1)|].
  split; [exact (bw_pair_fine 1) | exact (bw_pair_off 1 H)].
Qed.
(** A target of spin 1/2 and J = 1 with both channel spins for l = 1: a channel for each, and still rejected *)
Definition both_signs : bw_file := mkFile 1 1 [mkLState 0 1 false 0 [mkLine 5 0 1 1 0 0]; mkLState 1 1 false 0 [mkLine 6 2 1 1 0 0; mkLine 7 (-2) 1 1 0 0]].
Example C83_opposite_case : input_new 2 2 both_signs 1 None 1 (radii1 (Fixed 1)) 1 /\ lines_usable both_signs (radii1 (Fixed 1)) /\ own_channels both_signs 2 /\ opposite_spins both_signs.
Proof.
  split; [|split; [|split]].
  - constructor; cbn; try lra; try reflexivity; try (unfold is_spin; lia); try (intros e r H; injection H as <-; lra); intros l [<-|[<-|[]]]; first [reflexivity | discriminate].
  - intros ls x [<-|[<-|[]]]; cbn; intros H; repeat destruct H as [<-|H]; try contradiction; cbn; (split; [lra|]); (split; [eexists; reflexivity | discriminate]).
  - exists [mkQ 0 0 0 1; mkQ 1 0 2 (-1); mkQ 1 2 2 (-1)]. split; [|split].
    + repeat constructor; cbn; intros H; repeat destruct H as [H|H]; try discriminate; contradiction.
    + intros q [<-|[<-|[<-|[]]]]; number.
    + cbn. repeat constructor.
  - exists (mkLState 1 1 false 0 [mkLine 6 2 1 1 0 0; mkLine 7 (-2) 1 1 0 0]), (mkLine 6 2 1 1 0 0), (mkLine 7 (-2) 1 1 0 0). cbn. repeat split; auto. discriminate.
Qed.
