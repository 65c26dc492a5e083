(** A file in the R-Matrix Limited format with two spin groups. *)
From Coq Require Import String List ZArith Reals Bool Lra Lia.
From Verif Require Import Outcome QuantumModel HardSphereModel HardSphereSpec HardSphereProofs KinematicsModel CoulombModel RMatrixModel ChannelModel
  AssemblyModel AssemblySpec EndfModel EndfSpec EndfProofs EndfProperties LimitedSpec LimitedProofs LimitedTheorems.
Import ListNotations.
Open Scope R_scope.

Definition li_pairs : list endf_pair := [ex_capture_pair; ex_elastic_pair].
Definition li_first : endf_group := mkEGroup 6 0 [ex_echannel 1; ex_echannel 2] 2 [10; 20] [[1; 2]; [3; 0]].
Definition li_second : endf_group := mkEGroup (-8) 0 [ex_echannel 1; ex_echannel 2] 0 [] [].
Definition li_file (ifg : Z) : endf_limited := mkELimited 3 ifg li_pairs [li_first; li_second].

Lemma li_made : exists pairs cap, makeParticlePairs 1 1 "n" "U235" ex_products li_pairs = Ok pairs /\ pairs = [cap; ex_inc] /\
  pp_id cap = "g,U236"%string.
Proof.
  unfold li_pairs. ex_particles. rewrite !Rmult_1_r. eexists _, _. split; [reflexivity|]. split; reflexivity.
Qed.

Section Case.
Variables (epsilon0 : R) (cwf : nat -> R -> R -> outcome coulomb).
Notation pen := (channelPenetrability 1 epsilon0 cwf).
Variables (cap : particlePair).
Hypothesis Hcap : pp_id cap = "g,U236"%string.
Notation pairs := [cap; ex_inc].

Lemma li_channel g i c : g = li_first \/ g = li_second -> channel_at ex_inc pairs li_pairs g i c ->
  (i = 0%nat /\ c_pair c = cap /\ c_type c = Photon) \/ (i = 1%nat /\ c_pair c = ex_inc /\ c_type c = Neutron).
Proof.
  intros Hg (e & x & E1 & E2 & D). assert (K : eg_channels g = [ex_echannel 1; ex_echannel 2]) by (destruct Hg as [->| ->]; reflexivity). rewrite K in E1.
  destruct (de_pair _ _ _ _ _ _ _ D) as (n & En & Hn). pose proof (de_type _ _ _ _ _ _ _ D) as T.
  destruct i as [|[|i]]; cbn in E1, E2; try discriminate; [left | right | destruct i; discriminate]; injection E1 as <-; injection E2 as <-; cbn in En; injection En as <-; cbn in Hn; injection Hn as Hn.
  - split; [reflexivity|]. split; [symmetry; exact Hn|]. destruct T as [[_ T]|[[T _]|[[T _]|[T _]]]]; [exact T | cbn in T; lia | exfalso; apply T; reflexivity | exfalso; apply T; reflexivity].
  - split; [reflexivity|]. split; [symmetry; exact Hn|]. destruct T as [[T _]|[[T _]|[(_ & _ & T & _)|(_ & _ & _ & T)]]]; [cbn in T; lia | cbn in T; lia | | exact T].
    rewrite <- Hn in T. cbn in T. lra.
Qed.
Lemma li_exists g i : g = li_first \/ g = li_second -> (i < 2)%nat -> exists c, channel_at ex_inc pairs li_pairs g i c.
Proof.
  intros Hg Hi. assert (K : eg_channels g = [ex_echannel 1; ex_echannel 2]) by (destruct Hg as [->| ->]; reflexivity).
  destruct (channels_positional ex_inc pairs li_pairs g eq_refl) as [A _]. destruct A as (cs & Ec & F).
  { rewrite K. cbn. intros e [<-|[<-|[]]]; unfold valid_number; cbn; lia. }
  rewrite K in F. pose proof (channels_length ex_inc pairs li_pairs eq_refl g cs Ec) as Hl. rewrite K in Hl. cbn in Hl.
  destruct (nth_error cs i) as [c|] eqn:E; [|apply nth_error_None in E; lia]. exists c. exact (made_channels ex_inc pairs li_pairs eq_refl g cs i c Ec E).
Qed.
Lemma li_removed g i : g = li_first \/ g = li_second -> (removed pairs li_pairs g i <-> i = 0%nat).
Proof.
  intros Hg. assert (K : eg_channels g = [ex_echannel 1; ex_echannel 2]) by (destruct Hg as [->| ->]; reflexivity).
  assert (R : removed pairs li_pairs g 0).
  { exists 0%nat, cap. split; [exists [], [2%Z]; cbn; auto|]. split; [reflexivity|]. split; [|intros; lia]. exists (ex_echannel 1), cap. rewrite K. split; [reflexivity|]. split; [exists 0%nat; auto | reflexivity]. }
  split; [|intros ->; exact R]. intros H. exact (removed_unique pairs li_pairs eq_refl g i 0 H R).
Qed.
Lemma li_penetrable c e : channel_at ex_inc pairs li_pairs li_first 1 c -> 0 < e -> exists p, pen c e = Ok (Some p) /\ 0 < p.
Proof.
  intros At He. destruct (li_channel li_first 1 c (or_introl eq_refl) At) as [[Q _]|(_ & Hp & Ht)]; [discriminate|].
  destruct At as (ec & x & E1 & E2 & D). cbn in E1, E2. injection E1 as <-. injection E2 as <-.
  unfold channelPenetrability, channelFunction. rewrite (de_P _ _ _ _ _ _ _ D). cbn [radius_at bind]. rewrite Ht.
  destruct (de_q _ _ _ _ _ _ _ D) as (n & y & En & Hn & Hq). cbn in En. injection En as <-. cbn in Hn. injection Hn as <-. cbn in Hq.
  unfold channelWaveNumber, channelEta. rewrite Hp, (de_incident _ _ _ _ _ _ _ D), Hq.
  assert (Q1 : pp_reduced ex_inc = Some (1 * 235 / (1 + 235))) by (unfold ex_inc, makeParticlePair; cbn; unfold fdiv; repeat destruct (Req_EM_T _ _); try lra; reflexivity).
  assert (Q2 : pp_ratio ex_inc = Some (235 / (1 + 235))) by (unfold ex_inc, makeParticlePair; cbn; unfold fdiv; repeat destruct (Req_EM_T _ _); try lra; reflexivity).
  rewrite Q1, Q2. destruct (Req_EM_T (p_charge (pp_particle ex_inc) * p_charge (pp_residual ex_inc)) 0) as [_|N]; [|exfalso; apply N; cbn; ring].
  unfold calculatePenetrability. rewrite (de_l _ _ _ _ _ _ _ D). cbn [ec_L ex_echannel].
  match goal with |- context [penetrability_neutron _ ?r] => assert (Hr : 0 < r) end.
  { apply Rmult_lt_0_compat; [|cbn; lra]. unfold waveNumber. apply Rdiv_lt_0_compat; [|lra]. apply sqrt_lt_R0.
    rewrite Rabs_right; apply Rmult_lt_0_compat || idtac; lra || idtac. all: cbn [ep_Q ex_elastic_pair]; lra. }
  rewrite (penetrability_code 0 _ Hr) by lia. cbn [omap]. eexists. split; [reflexivity | apply ReichMooreProofs.P_spec_pos, Hr].
Qed.

Lemma li_well_formed ifg : well_formed pen (li_file ifg) pairs ex_inc.
Proof.
  assert (Gr : forall g, In g [li_first; li_second] -> g = li_first \/ g = li_second) by (intros g [<-|[<-|[]]]; auto).
  constructor; cbn [li_file el_pairs el_groups el_IFG].
  - exists 1%nat. split; [exists [102%Z], []; cbn; repeat split; intros [H|[]]; discriminate | reflexivity].
  - cbn. auto.
  - discriminate.
  - intros g Hg. destruct (Gr g Hg) as [->| ->].
    + exists [], [li_second]. split; [reflexivity|]. intros g' [<-|[]] [H _]. cbn in H. lia.
    + exists [li_first], []. split; [reflexivity|]. intros g' [<-|[]] [H _]. cbn in H. lia.
  - intros g e Hg. destruct (Gr g Hg) as [->| ->]; cbn; intros [<-|[<-|[]]]; unfold valid_number; cbn; lia.
  - intros g row Hg. destruct (Gr g Hg) as [->| ->]; cbn; [intros [<-|[<-|[]]]; cbn; lia | intros []].
  - intros g Hg. destruct (li_exists g 1 (Gr g Hg) (Nat.lt_succ_diag_r 1)) as (c & At). exists 1%nat, c. split; [exact At|].
    split; [destruct (li_channel g 1 c (Gr g Hg) At) as [[Q _]|(_ & -> & _)]; [discriminate | reflexivity]|]. rewrite (li_removed g 1 (Gr g Hg)). discriminate.
  - intros g i k c c' Hg A1 A2 Q. pose proof A1 as (e1 & x1 & _ & _ & D1). pose proof A2 as (e2 & x2 & _ & _ & D2).
    rewrite (de_id _ _ _ _ _ _ _ D1), (de_id _ _ _ _ _ _ _ D2) in Q. unfold makeChannelID in Q.
    destruct (li_channel g i c (Gr g Hg) A1) as [(-> & P1 & _)|(-> & P1 & _)], (li_channel g k c' (Gr g Hg) A2) as [(-> & P2 & _)|(-> & P2 & _)]; try reflexivity;
      rewrite P1, P2, Hcap in Q; cbn in Q; discriminate.
  - intros g i c e w Z0 Hg At Gv Hw. destruct (Gr g Hg) as [->| ->]; [|destruct Gv as [N _]; cbn in N; contradiction].
    destruct (li_channel li_first i c (or_introl eq_refl) At) as [(-> & _ & Ht)|(-> & _ & Ht)].
    + unfold channelPenetrability, channelFunction. destruct At as (ec & x & _ & _ & D). rewrite (de_P _ _ _ _ _ _ _ D). cbn [radius_at bind]. rewrite Ht. cbn. exists 1. split; [reflexivity | lra].
    + apply li_penetrable; [exact At|]. destruct Gv as [_ (k & row & Ek & _)]. destruct k as [|[|k]]; cbn in Ek; [injection Ek as <-; lra | injection Ek as <-; lra | destruct k; discriminate].
Qed.
Lemma li_given : given li_first 1 10 2 /\ given li_first 0 20 3 /\ NoDup (eg_ER li_first).
Proof.
  split; [split; [discriminate|]; exists 0%nat, [1; 2]; auto|]. split; [split; [discriminate|]; exists 1%nat, [3; 0]; auto|].
  cbn. repeat constructor; cbn; intros H; repeat destruct H as [H|H]; lra || contradiction.
Qed.
End Case.
