(** C98: unresolved cross sections depend on average widths and spacings through their ratios. *)
From Coq Require Import List ZArith Reals Lra Lia.
From Verif Require Import Outcome CoulombModel UnresolvedModel UnresolvedTheorems OpeningProofs RatioSpec RatioProofs.
Open Scope R_scope.

(** With all widths multiplied by a number the integrals are divided by it; errors are the same *)
Theorem C98_integrals : forall k Gn Gg Gf Gx d, k <> 0 ->
  calculateFluctuationIntegrals (mkData (k * Gn) (k * Gg) (k * Gf) (k * Gx)) d =
  match calculateFluctuationIntegrals (mkData Gn Gg Gf Gx) d with
  | Ok (Some i) => Ok (Some (mkData (d_elastic i / k) (d_capture i / k) (d_fission i / k) (d_competition i / k)))
  | o => o
  end.
Proof. exact integrals_quotient. Qed.
Print Assumptions C98_integrals.
(** With the widths and the spacings of all groups multiplied by a number the system is made as before and gives the same cross sections or error *)
Theorem C98_system : forall k s hbar epsilon0 cwf energy m, k <> 0 ->
  unresolved_system_evaluate hbar epsilon0 cwf (scaled_system k s) energy m = unresolved_system_evaluate hbar epsilon0 cwf s energy m.
Proof. intros k s hbar epsilon0 cwf energy m K. exact (system_scaled k K hbar epsilon0 cwf s energy m). Qed.
Print Assumptions C98_system.
Theorem C98_made : forall k gs, makeUnresolvedSystem (map (scaled_group k) gs) =
  match makeUnresolvedSystem gs with Ok s => Ok (scaled_system k s) | Throw e => Throw e | UB e => UB e | Diverge => Diverge end.
Proof. exact make_scaled. Qed.
Print Assumptions C98_made.

(** Widths in meV instead of eV *)
Example case_integrals : exists i, calculateFluctuationIntegrals (mkData (1000 * 1) (1000 * 2) (1000 * 3) (1000 * 4)) (mkData 1 0 2 3)%nat = Ok (Some i) /\
  exists j, calculateFluctuationIntegrals (mkData 1 2 3 4) (mkData 1 0 2 3)%nat = Ok (Some j) /\ d_capture i = d_capture j / 1000.
Proof.
  destruct (code_value (mkData 1 0 2 3)%nat ltac:(cbn; lia) 1 2 3 4) as (_ & _ & _ & j & Hj & _); cbn; try lia; try lra.
  rewrite C98_integrals by lra. rewrite Hj. eexists. split; [reflexivity|]. exists j. split; reflexivity.
Qed.
(** The file of C46 with widths and spacings in meV: three groups are evaluated at 2 eV *)
Example case_scaled epsilon0 cwf m : exists s m', case_system = Ok s /\ makeUnresolvedSystem (uy_groups s) = Ok s /\
  makeUnresolvedSystem (map (scaled_group 1000) (uy_groups s)) = Ok (scaled_system 1000 s) /\
  unresolved_system_evaluate 1 epsilon0 cwf (scaled_system 1000 s) 2 m = Ok (Some m').
Proof.
  destruct (case_evaluated 1 epsilon0 cwf m eq_refl) as (s & m' & Hs & Hm). exists s, m'. split; [exact Hs|].
  assert (H : makeUnresolvedSystem (uy_groups s) = Ok s) by exact (made_again _ _ _ _ _ _ _ _ _ _ _ s Hs).
  split; [exact H|]. split; [rewrite C98_made, H; reflexivity|]. rewrite C98_system by lra. exact Hm.
Qed.
