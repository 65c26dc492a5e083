(** The particle pairs of the R-Matrix Limited format: C70. *)
From Coq Require Import String List ZArith Reals Bool Lra Lia.
From Verif Require Import Outcome KinematicsModel EndfModel EndfSpec EndfPairSpec EndfPairProofs.
Import ListNotations.
Open Scope R_scope.

(** One pair for each column, in their order, with the identifiers, masses, charges, spins and
    parities of the column *)
Theorem C70_pairs mn ec incident target products es ps : 0 < mn -> 0 < ec ->
  makeParticlePairs mn ec incident target products es = Ok ps ->
  Forall acceptable es /\ Forall2 (endf_pair_of mn ec incident target products) es ps.
Proof. intros A B. exact (pairs_made mn ec incident target products A B es ps). Qed.
Print Assumptions C70_pairs.
(** Columns with a negative mass or charge are refused, all others accepted *)
Theorem C70_accepts mn ec incident target products es : 0 < mn -> 0 < ec -> (forall mt, exists ab, products mt = Ok ab) ->
  (Forall acceptable es -> exists ps, makeParticlePairs mn ec incident target products es = Ok ps) /\
  (~ Forall acceptable es -> exists m, makeParticlePairs mn ec incident target products es = Throw (RuntimeError (m ++ " value cannot be negative."))).
Proof. intros A B P. exact (Logic.conj (pairs_exist mn ec incident target products A B es P) (pairs_thrown mn ec incident target products A B es P)). Qed.
Print Assumptions C70_accepts.
(** The fission pair has the particles of the elastic pair, but fission is not elastic scattering *)
Theorem C70_fission mn ec incident target products es ps i j e x inc p : 0 < mn -> 0 < ec ->
  makeParticlePairs mn ec incident target products es = Ok ps ->
  nth_error es i = Some e -> ep_MT e = 2%Z -> nth_error ps i = Some inc ->
  nth_error es j = Some x -> ep_MT x = 18%Z -> nth_error ps j = Some p ->
  makeReactionID inc p = Transfer (incident ++ "," ++ target) "fission" /\ makeReactionID inc inc = Elastic incident target.
Proof. intros A B. exact (fission_transfer mn ec incident target products A B es ps i j e x inc p). Qed.
Print Assumptions C70_fission.

(** Elastic scattering on a target of spin 7/2 and negative parity, and fission *)
Definition ex70 : list endf_pair := [mkEPair 1 235 0 92 1 (-7) 0 0 2 1 1; mkEPair 1 235 0 92 1 (-7) 0 0 18 1 1; mkEPair 0 236 0 92 2 0 6 0 102 0 (-1)].
Definition ex70_products (mt : Z) : outcome (string * string) := Ok ("g", "U236")%string.
Example C70_case : exists ps inc fi ga, makeParticlePairs 1 1 "n" "U235" ex70_products ex70 = Ok ps /\ ps = [inc; fi; ga] /\
  p_spin (pp_residual inc) = 7%Z /\ p_parity (pp_residual inc) = (-1)%Z /\ p_mass (pp_residual fi) = 235 /\ p_parity (pp_residual ga) = (-1)%Z /\ pp_id ga = "g,U236"%string /\
  makeReactionID inc fi = Transfer "n,U235" "fission".
Proof.
  assert (A : Forall acceptable ex70) by (unfold acceptable; repeat constructor; cbn; lra).
  destruct (proj1 (C70_accepts 1 1 "n" "U235" ex70_products ex70 Rlt_0_1 Rlt_0_1 (fun mt => ex_intro _ _ eq_refl)) A) as [ps P].
  destruct (C70_pairs _ _ _ _ _ _ _ Rlt_0_1 Rlt_0_1 P) as [_ F]. unfold ex70 in F.
  inversion F as [|? inc ? ? F1 F']; subst. inversion F' as [|? fi ? ? F2 F'']; subst. inversion F'' as [|? ga ? ? F3 F''']; subst. inversion F'''; subst.
  exists [inc; fi; ga], inc, fi, ga. split; [exact P|]. split; [reflexivity|].
  destruct F1 as (I1 & _ & [_ _ _ S1 Q1] & _). destruct F2 as (I2 & _ & [_ M2 _ _ _] & _). destruct F3 as (I3 & _ & [_ _ _ _ Q3] & _). cbn [ep_IB ep_PB ep_MB ep_MT] in *.
  split; [lia|]. split; [exact (proj1 (proj2 Q1) eq_refl)|]. split; [lra|]. split; [exact (proj2 (proj2 (proj2 Q3)) eq_refl eq_refl)|]. split.
  - destruct I3 as [(W & _)|[(W & _)|(_ & _ & W & ->)]]; [discriminate | discriminate|]. injection W as W1 W2. rewrite <- W1, <- W2. reflexivity.
  - exact (proj1 (C70_fission 1 1 "n" "U235" ex70_products ex70 _ 0 1 _ _ inc fi Rlt_0_1 Rlt_0_1 P eq_refl eq_refl eq_refl eq_refl eq_refl eq_refl)).
Qed.
