(** C75: the asymptotic expansion of the Coulomb function. *)
From Coq Require Import String List ZArith Reals Lra Lia.
From Coquelicot Require Import Coquelicot.
From Verif Require Import Outcome CoulombWaveModel CoulombWaveSpec CoulombExactModel NewmarkSpec AsymptoticSpec AsymptoticProofs.
Open Scope R_scope.

(** ** C75: the code adds the terms of the expansion up to the last that shrinks, or a hundred.  Sums with a
    Wronskian that is not one to six digits are made again at rho + 5, and so on, but the phase stays that
    at rho. *)
Theorem C75_sum rho eta sigma : 0 < rho -> exists N : nat -> nat, let at_ i := rho + 5 * INR i in
  let accepted i := Rabs (wronskian eta (N i) (at_ i) - 1) <= / 1000000 in
  (forall i, last_term eta (at_ i) (N i)) /\
  ((exists j, (j <= 100)%nat /\ (forall i, (i < j)%nat -> ~ accepted i) /\ accepted j /\
      omGcase3 exact (Fin rho) (Fin eta) (Fin sigma) =
        Ok (Fin (terms eta (N j) (at_ j) (theta eta sigma rho)), Fin (slopes eta (N j) (at_ j) (theta eta sigma rho)))) \/
   ((forall i, (i <= 100)%nat -> ~ accepted i) /\ omGcase3 exact (Fin rho) (Fin eta) (Fin sigma) = Ok (Fin 0, Fin 0))).
Proof. exact (case3_exact rho eta sigma). Qed.
Print Assumptions C75_sum.
(** The slope belongs to the value, for any number of terms ... *)
Theorem C75_slope eta sigma N rho : 0 < rho -> is_derive (wave eta sigma N) rho (slopes eta N rho (theta eta sigma rho)).
Proof. exact (wave_slope eta sigma N rho). Qed.
Print Assumptions C75_slope.
(** ... and the value solves the Coulomb equation but for the term after the last. *)
Theorem C75_equation eta sigma N rho : 0 < rho ->
  is_derive (fun r => slopes eta N r (theta eta sigma r)) rho (acceleration eta rho (wave eta sigma N rho) + remainder eta sigma N rho).
Proof. exact (wave_equation eta sigma N rho). Qed.
Print Assumptions C75_equation.
(** Without charges all terms but the first vanish, and the sum is accepted at once. *)
Example C75_neutral : (forall k, expansion 0 (S k) = (0, 0)) /\ (forall N rho, 0 < rho -> wronskian 0 N rho = 1).
Proof.
  assert (E : forall k, expansion 0 (S k) = (0, 0)).
  { induction k as [|k IH]; [cbn; f_equal; field|]. change (expansion 0 (S (S k))) with (let (a, b) := multiplier 0 (S k) in let (s, t) := expansion 0 (S k) in (a * s - b * t, a * t + b * s)). rewrite IH. destruct (multiplier 0 (S k)). f_equal; ring. }
  split; [exact E|]. intros N rho H. rewrite wronskian_is by exact H.
  assert (Z : forall k, zs rho 0 (S k) = 0 /\ zt rho 0 (S k) = 0) by (intros k; unfold zs, zt; rewrite E; cbn [fst snd]; unfold Rdiv; split; ring).
  assert (S1 : sum_f_R0 (zs rho 0) N = 1 /\ sum_f_R0 (zt rho 0) N = 0 /\ sum_f_R0 (qt rho 0) N = 1).
  { induction N as [|N IH]; [cbn [sum_f_R0]; unfold qt, zs, zt; cbn [expansion fst snd pow INR]; repeat split; field; lra|].
    cbn [sum_f_R0]. unfold qt at 2. destruct (Z N) as [-> ->]. destruct IH as (-> & -> & ->). repeat split; field; lra. }
  destruct S1 as (-> & -> & ->). ring.
Qed.
(** With charges they do not. *)
Example C75_case : 0 < 14 /\ expansion 2 1 = (1, 2) /\ expansion 2 2 = (1 / 2, 7 / 2) /\ shrinking 2 14 0 /\ shrinking 2 14 1 /\ ~ shrinking 2 1 0.
Proof.
  split; [lra|]. unfold shrinking. cbn [expansion]. unfold multiplier. cbn [INR fst snd]. split; [f_equal; field|]. split; [f_equal; field|]. lra.
Qed.
