(** The total angular momenta of a particle pair, for every projectile: C03. *)
From Coq Require Import List ZArith Lia Sorted.
From Verif Require Import Outcome QuantumModel QuantumSpec TripleProofs.
Import ListNotations.
Open Scope Z_scope.

(** What is listed for any spins: the values that some channel spin allows, but only those from
    ||l - I| - i| on (all doubled) *)
Theorem C03_listed l i I : is_spin i -> is_spin I -> exists js, possibleJ3 l i I = Ok js /\ StronglySorted Z.lt js /\
  forall J, In J js <-> (exists s, triangle i I s /\ triangle (2 * Z.of_nat l) s J) /\ Z.abs (Z.abs (2 * Z.of_nat l - I) - i) <= J.
Proof. exact (triple_values l i I). Qed.
Print Assumptions C03_listed.
(** ... so that the list is complete exactly when the spin of the projectile exceeds |l - I| by
    at most one half, or l or the spin of the target is zero *)
Theorem C03_exact l i I js : is_spin i -> is_spin I -> possibleJ3 l i I = Ok js ->
  ((forall J, In J js <-> exists s, triangle i I s /\ triangle (2 * Z.of_nat l) s J) <->
   i <= Z.abs (2 * Z.of_nat l - I) + 1 \/ l = 0%nat \/ I = 0).
Proof. exact (triple_complete l i I js). Qed.
Print Assumptions C03_exact.
(** Spins 1 and 5/2 with l = 1 are complete, a deuteron on a target of spin 1 with l = 1 is not *)
Example C03_exact_case : possibleJ3 1 2 5 = Ok [1; 3; 5; 7; 9] /\ 2 <= Z.abs (2 * Z.of_nat 1 - 5) + 1 /\
  possibleJ3 1 2 2 = Ok [2; 4; 6] /\ ~ (2 <= Z.abs (2 * Z.of_nat 1 - 2) + 1 \/ 1%nat = 0%nat \/ 2 = 0).
Proof. split; [reflexivity|]. split; [lia|]. split; [reflexivity | lia]. Qed.
