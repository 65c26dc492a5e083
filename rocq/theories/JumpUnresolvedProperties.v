(** C99: cross sections of the unresolved range do not jump, except where a width starts from zero. *)
From Coq Require Import String List ZArith Reals Lra Lia Sorted.
From Verif Require Import Outcome CoulombModel LegacyModel UnresolvedModel UnresolvedTheorems JumpSpec JumpTheorems JumpUnresolvedSpec JumpUnresolved JumpOpening.
Import ListNotations.
Open Scope R_scope.

(** Where the cross sections are finite, at or between tabulated energies, they are finite at all energies around and do not jump *)
Theorem C99_system_partial : forall hbar epsilon0 cwf s E m m', 0 < E -> (forall u, In u (uy_groups s) -> settled_group u E) ->
  unresolved_system_evaluate hbar epsilon0 cwf s E m = Ok (Some m') -> no_jump_map (fun e => unresolved_system_evaluate hbar epsilon0 cwf s e m) E.
Proof. exact unresolved_no_jump. Qed.
Print Assumptions C99_system_partial.
Theorem C99_file_partial : forall hbar epsilon0 cwf mn incident target spin ap nro naps grid lower upper uls s E m m', steady_radii nro ->
  makeLegacyUnresolvedSystem mn incident target spin ap nro naps grid lower upper uls = Ok s -> 0 < E -> (forall u, In u (uy_groups s) -> inside (ug_table u) E) ->
  unresolved_system_evaluate hbar epsilon0 cwf s E m = Ok (Some m') -> no_jump_map (fun e => unresolved_system_evaluate hbar epsilon0 cwf s e m) E.
Proof. exact file_no_jump. Qed.
Print Assumptions C99_file_partial.
(** A file with positive spacings, neutron and capture widths and fission from 2 eV on, for which capture jumps at 2 eV *)
Theorem C99_opening_refuted : exists uls, forall epsilon0 cwf m, exists s m', makeLegacyUnresolvedSystem 1 "n" "t" 0 1 None 1 None 1 4 uls = Ok s /\
  unresolved_system_evaluate 1 epsilon0 cwf s 2 m = Ok (Some m') /\ ~ no_jump_map (fun e => unresolved_system_evaluate 1 epsilon0 cwf s e m) 2.
Proof. exists opening_file. exact fission_opening. Qed.
Print Assumptions C99_opening_refuted.

(** The file of C46 at 2 eV: three groups with fission *)
Example case_file_steady epsilon0 cwf m : exists s m', case_system = Ok s /\ unresolved_system_evaluate 1 epsilon0 cwf s 2 m = Ok (Some m') /\
  (forall u, In u (uy_groups s) -> inside (ug_table u) 2) /\ no_jump_map (fun e => unresolved_system_evaluate 1 epsilon0 cwf s e m) 2.
Proof.
  destruct (case_evaluated 1 epsilon0 cwf m eq_refl) as (s & m' & Hs & Hm). exists s, m'. split; [exact Hs|]. split; [exact Hm|].
  assert (IN : forall u, In u (uy_groups s) -> inside (ug_table u) 2) by exact (case_inside s Hs).
  split; [exact IN|]. apply (C99_file_partial 1 epsilon0 cwf 1 "n" "t" 0 1 None 1 None 1 4 case_file s 2 m m'); [intros t T; discriminate | exact Hs | lra | exact IN | exact Hm].
Qed.
(** A tabulated energy where all slopes change *)
Example case_point : inside (mkUTable [mkUnresolved 1 10 1 1 3 0; mkUnresolved 2 7 2 1 1 0; mkUnresolved 4 5 1 3 2 0] (mkData 1 0 2 0)%nat) 2.
Proof.
  split; [repeat constructor; cbn; lra|]. split; [eexists; split; [left; reflexivity|]; cbn; lra|]. split; [eexists; split; [right; right; left; reflexivity|]; cbn; lra|]. split.
  - right. intros p H. unfold unresolvedAt, column_table in H. cbn [ut_resonances] in H. rewrite !line_ok in H by (cbn; lra). cbn in H. injection H as <-. cbn. lra.
  - left. intros r [<-|[<-|[<-|[]]]]; reflexivity.
Qed.
