(** C101: the units of energy and length do not matter for the Breit-Wigner cross sections of the older
    interface.  The constant of the wave number is arbitrary. *)
From Coq Require Import String List ZArith Reals Lra.
From Verif Require Import Outcome KinematicsModel BreitWignerModel ListFacts JumpCases UnitsSpec UnitsOldSpec UnitsOldProofs.
Open Scope R_scope.

(** Energies and widths multiplied by t^2 and lengths divided by t divide the cross sections by t^2;
    errors and numbers that are not finite stay *)
Theorem C101_slbw : forall t C s e, 0 < t -> slbw_evaluate C (units_older t s) (t * t * e) = units_triple t (slbw_evaluate C s e).
Proof. intros t C s e T. exact (slbw_older_units t T C s e). Qed.
Print Assumptions C101_slbw.
Theorem C101_mlbw : forall t C s e, 0 < t -> mlbw_evaluate C (units_older t s) (t * t * e) = units_triple t (mlbw_evaluate C s e).
Proof. intros t C s e T. exact (mlbw_older_units t T C s e). Qed.
Print Assumptions C101_mlbw.
(** From the file and any pair of radii, and with the radii of the file unless NAPS is 0.  The sort of
    the levels is any that looks at their statistical factors only *)
Theorem C101_made : forall t C sort ordered f ch sc, 0 < t -> (ordered = true -> keyed sort) ->
  bw_build C sort ordered (units_file t f) (units_length t ch) (units_length t sc) =
  units_made t (bw_build C sort ordered f ch sc).
Proof. intros t C sort ordered f ch sc T K. exact (build_units t T C sort ordered f ch sc K). Qed.
Print Assumptions C101_made.
Theorem C101_file : forall t C sort ordered f NRO NAPS table, 0 < t -> (ordered = true -> keyed sort) -> NAPS <> 0%Z ->
  bw_apply C sort ordered (units_file t f) NRO NAPS (units_table t table) =
  units_made t (bw_apply C sort ordered f NRO NAPS table).
Proof. intros t C sort ordered f NRO NAPS table T K N. exact (apply_units t T C sort ordered f NRO NAPS table K N). Qed.
Print Assumptions C101_file.

(** A sort by the statistical factor *)
Example C101_sort : sorts b_g (insertion_sort b_g) /\ keyed (insertion_sort b_g).
Proof. split; [apply insertion_sorts | exact insertion_keyed]. Qed.
(** The file of C95 in units 9 times smaller for energies and 3 times larger for lengths: both formulas give cross sections *)
Example C101_case : exists s x y z, bw_build 1 (insertion_sort b_g) true (units_file 3 jump_file) (fun _ => Ok (1 / 3)) (fun _ => Ok (1 / 3)) = Ok (units_older 3 s) /\
  mlbw_evaluate 1 s 12 = Ok (Some (x, y, z)) /\ mlbw_evaluate 1 (units_older 3 s) (3 * 3 * 12) = Ok (Some (x / (3 * 3), y / (3 * 3), z / (3 * 3))).
Proof.
  destruct (jump_old (insertion_sort b_g) ltac:(apply insertion_sorts)) as (_ & s & ((x & y) & z) & B & V). exists s, x, y, z.
  split; [|split; [exact V|]].
  - change (fun _ : R => Ok (1 / 3)) with (units_length 3 (fun _ => Ok 1)). rewrite C101_made; [rewrite B; reflexivity | lra | intros _; exact insertion_keyed].
  - rewrite C101_mlbw by lra. rewrite V. reflexivity.
Qed.
