(** A file that meets the hypotheses of the theorems on the accuracy of the unresolved cross
    sections. *)
From Coq Require Import String List ZArith Reals Lra Lia Bool Sorted.
From Verif Require Import Outcome QuantumModel QuantumSpec KinematicsModel RMatrixModel ChannelModel
  BreitWignerModel BreitWignerSpec LegacyModel BreitWignerProofs LegacyProofs LegacySystemProofs UnresolvedModel UnresolvedSpec
  UnresolvedProofs UnresolvedSystemProofs UnresolvedTheorems.
Import ListNotations.
Open Scope R_scope.

Lemma case_groups s : case_system = Ok s -> forall u, In u (uy_groups s) ->
  legacy_channel 1 "n" "t" 1 0 (ug_channel u) (radii1 (Fixed 1)) /\ well_formed u /\ degrees_in u /\
  (0 <= qJ (c_numbers (ug_channel u)))%Z /\
  (forall r, In r (ut_resonances (ug_table u)) -> 0 < ur_spacing r /\ 0 < ur_elastic r /\ 0 <= ur_capture r /\
     0 <= ur_fission r /\ 0 <= ur_competition r).
Proof.
  intros Hs u Hu. destruct case_input as (_ & _ & _ & _ & HAW & Hrad & _).
  destruct (file_groups 1 "n" "t" 1 0 1 None 1 None 1 4 case_file _ HAW Hrad s Hs) as (F & _ & _).
  destruct (made_groups _ _ _ _ _ _ _ _ _ _ _ F u Hu) as (C & D). pose proof (case_tables s Hs u Hu) as (W & _).
  split; [exact C|]. split; [exact W|]. split; [exact D|].
  assert (T : (0 <= qJ (c_numbers (ug_channel u)))%Z /\ exists n,
     ug_table u = mkUTable [mkUnresolved 1 10 1 1 1 0; mkUnresolved 4 10 1 1 1 0] (mkData n 0 2 0)%nat).
  { clear -F Hu. set (us := uy_groups s) in *. clearbody us.
    cbn in F. assert (G : Forall (fun x => exists J n, (1 <= n <= 4)%nat /\ (0 <= J)%Z /\ snd x = case_j J n)
       [(0%nat, case_j 1 1); (1%nat, case_j 1 1); (1%nat, case_j 3 2)]).
    { repeat (apply Forall_cons || apply Forall_nil); eexists; eexists; (split; [|split; [|reflexivity]]); cbn; lia. }
    revert F G. generalize [(0%nat, case_j 1 1); (1%nat, case_j 1 1); (1%nat, case_j 3 2)]. intros l F.
    induction F as [|x u' l us (_ & _ & HJ & Ht) F IH]; intros G; [destruct Hu|].
    apply Forall_inv_tail in G as G'. apply Forall_inv in G as (J & n & Hn & HJ0 & Ex). destruct Hu as [<-|Hu].
    - rewrite Ex in HJ. cbn in HJ. split; [lia|]. exists n. rewrite Ex, case_table in Ht by (reflexivity || exact Hn). congruence.
    - apply IH; [exact Hu | exact G']. }
  destruct T as (HJ & n & Et). split; [exact HJ|]. rewrite Et. intros r [<-|[<-|[]]]; cbn; lra.
Qed.
