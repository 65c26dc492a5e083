(** The legacy Breit-Wigner compound system against the collision matrix. *)
From Coq Require Import String List ZArith Reals Lra Lia Permutation Bool Psatz.
From Verif Require Import Outcome QuantumModel QuantumSpec QuantumProofs SpinFactorModel SpinFactorProofs
  HardSphereModel HardSphereSpec HardSphereProofs KinematicsModel CoulombModel Cplx RMatrixModel ChannelModel
  BreitWignerModel LegacyModel BreitWignerSpec ListFacts BreitWignerProofs BreitWignerSystemProofs LegacyProofs.
Import ListNotations.
Open Scope R_scope.

(** The energy that the legacy interface adds for the competitive channel *)
Definition q_new (ls : bw_lstate) : R := - ls_QX ls.

Lemma Some_inj {X} (x y : X) : Some x = Some y -> x = y.
Proof. congruence. Qed.

Lemma all_finite_Forall2 {X Y} (f : X -> option Y) l ys :
  all_finite (map f l) = Some ys -> Forall2 (fun x y => f x = Some y) l ys.
Proof.
  revert ys; induction l as [|x l IH]; intros ys H; cbn in H.
  - injection H as <-; constructor.
  - destruct (f x) as [y|] eqn:E; [|discriminate].
    destruct (all_finite (map f l)) as [zs|]; [|discriminate]. injection H as <-. constructor; auto.
Qed.
Lemma Forall2_trans {X Y Z} (P : X -> Y -> Prop) (Q : Y -> Z -> Prop) (S : X -> Z -> Prop) l m n :
  Forall2 P l m -> Forall2 Q m n -> (forall x y z, In x l -> P x y -> Q y z -> S x z) -> Forall2 S l n.
Proof.
  intros F; revert n; induction F as [|x y l m H F IH]; intros n G HS; inversion G; subst; constructor.
  - eapply HS; eauto. left; reflexivity.
  - apply IH; [assumption|]. intros ? ? ? ? ? ?; eapply HS; eauto. right; assumption.
Qed.
Lemma Forall2_map_eq {X Y} (f : X -> Y) l m : Forall2 (fun x y => y = f x) l m -> m = map f l.
Proof. induction 1; cbn; congruence. Qed.

(** The stored numbers of a level *)
Definition stored (E : R) (v : level) : precomputed :=
  mkPre (w_n v) (w_c v) (w_f v) (w_T v) (E - w_E v) (norm2 (pole E v)).

Lemma inner_loop_sum x before : forall term t, inner_loop x before term = Some t ->
  t = term + Rsum (map (fun y => match cross_term x y with Some c => c | None => 0 end) before).
Proof.
  induction before as [|y r IH]; intros term t H; cbn in H.
  - injection H as <-. cbn [map]; rewrite Rsum_nil; ring.
  - destruct (cross_term x y) as [c|] eqn:E; [|discriminate]. apply IH in H. cbn [map]. rewrite Rsum_cons, E. lra.
Qed.
Lemma outer_loop_sum rest : forall before term t, outer_loop before rest term = Some t ->
  let c x y := match cross_term y x with Some c => c | None => 0 end in
  t = term + Rsum (map (fun y => Rsum (map (c y) rest)) before) + pair_sum c rest.
Proof.
  induction rest as [|x r IH]; intros before term t H; cbn in H.
  - injection H as <-. cbn [map pair_sum]. rewrite (Rsum_ext _ (fun _ => 0)) by reflexivity.
    assert (Z : forall l : list precomputed, Rsum (map (fun _ => 0) l) = 0).
    { induction l; cbn [map]; rewrite ?Rsum_cons, ?Rsum_nil; lra. }
    rewrite Z; ring.
  - destruct (inner_loop x before term) as [t'|] eqn:E; [|discriminate].
    apply inner_loop_sum in E. apply IH in H. cbn zeta in *. rewrite H, E. cbn [pair_sum].
    rewrite map_app, Rsum_app. cbn [map]. rewrite Rsum_cons, Rsum_nil.
    rewrite (Rsum_ext (fun y => Rsum (_ :: _)) (fun y => match cross_term x y with Some c => c | None => 0 end
       + Rsum (map (fun y0 => match cross_term y0 y with Some c => c | None => 0 end) r))) by reflexivity.
    rewrite (Rsum_plus (fun y => match cross_term x y with Some c => c | None => 0 end)). ring.
Qed.

Lemma cross_term_interference E v w : norm2 (pole E v) <> 0 -> norm2 (pole E w) <> 0 ->
  cross_term (stored E v) (stored E w) = Some (interference E v w).
Proof.
  intros Hv Hw. unfold cross_term, fdiv, stored; cbn.
  destruct (Req_EM_T (norm2 (pole E v)) 0); [contradiction|].
  destruct (Req_EM_T (norm2 (pole E w)) 0); [contradiction|]. f_equal. unfold interference. replace 0.25 with (1 / 4) by lra. field. auto.
Qed.
Lemma interference_sym E v w : norm2 (pole E v) <> 0 -> norm2 (pole E w) <> 0 ->
  interference E v w = interference E w v.
Proof. intros Hv Hw. unfold interference. field. auto. Qed.

Section System.
Variables (hbar epsilon0 : R) (cwf : nat -> R -> R -> outcome coulomb) (mn : R).
Hypotheses (Hh : 0 < hbar) (Hmn : 0 < mn).
Variables (incident target : string) (A : R) (I : Z) (rad : radii) (E : R).
Hypotheses (HA : 0 < A) (HI : is_spin I) (HE : E <> 0).
Let ch := radius_at (r_P rad).
Let sc := radius_at (r_phi rad).
Hypotheses (Hrad : r_S rad = r_P rad) (Hch : positive ch) (Hsc : positive sc).
Let k := k_old (C_new hbar mn) A.
Let a e := oval (ch e).
Let ahat := oval (sc E).
Let lchannel c := legacy_channel mn incident target A I c rad.

Lemma rho_pos e : e <> 0 -> forall r, ch e = Ok r -> 0 < k e * r.
Proof.
  intros He r H. apply Rmult_lt_0_compat; [|apply (Hch e r H)].
  apply k_old_pos; [apply C_new_pos; assumption | assumption | assumption].
Qed.

(** ** One resonance *)
Lemma P_value c e p : lchannel c -> channelPenetrability hbar epsilon0 cwf c e = Ok (Some p) ->
  p = P_at k a (ql (c_numbers c)) e.
Proof.
  intros Hc H. destruct (channel_P hbar epsilon0 cwf mn Hh Hmn incident target A I HA c rad e _ Hc Hch H)
    as (r & p' & Er & Ep & _ & _ & Hp). injection Ep as <-.
  unfold P_at. unfold a. fold ch in Er. rewrite Er. exact Hp.
Qed.
Lemma S_value c e s : lchannel c -> channelShiftFactor hbar epsilon0 cwf c e = Ok (Some s) -> e <> 0 ->
  s = S_at k a (ql (c_numbers c)) e.
Proof.
  intros Hc H He. assert (Hp : positive (radius_at (r_S rad))) by (rewrite Hrad; exact Hch).
  destruct (channel_S hbar epsilon0 cwf mn Hmn incident target A I HA c rad e _ Hc Hp H)
    as (r & s' & Er & Es & Hs). injection Es as <-. rewrite Hrad in Er. fold ch in Er.
  unfold S_at, a. rewrite Er. apply Hs. apply rho_pos; assumption.
Qed.
Lemma P_at_0 l : P_at k a l 0 = 0.
Proof. unfold P_at, k, k_old. rewrite Rabs_R0, sqrt_0, Rmult_0_r, Rmult_0_l. apply P_spec_0. Qed.

Lemma stored_level c rs ls x r p q s pre : lchannel c -> ql (c_numbers c) = ls_L ls ->
  legacyLine hbar epsilon0 cwf c (ls_LRX ls) (ls_QX ls) x = Ok (Some r) ->
  legacyPQS hbar epsilon0 cwf (mkLegacyGroup c rs (ls_QX ls)) E = Ok (Some (p, q, s)) ->
  precompute1 E p q s r = Some pre ->
  pre = stored E (level_of k a E q_new ls x).
Proof.
  intros Hc Hl Hline HPQS Hpre.
  unfold legacyLine in Hline. apply bind_Ok in Hline as (op & Eop & Hline).
  apply bind_Ok in Hline as (oq & Eoq & Hline). apply bind_Ok in Hline as (os & Eos & Hline).
  injection Hline as Hline. destruct op as [P0|]; [|discriminate]. destruct oq as [Q0|]; [|discriminate].
  destruct os as [S0|]; [|discriminate]. injection Hline as <-.
  unfold legacyPQS in HPQS. cbn [lg_channel lg_qx] in HPQS.
  apply bind_Ok in HPQS as (op & Eop' & HPQS). apply bind_Ok in HPQS as (oq & Eoq' & HPQS).
  apply bind_Ok in HPQS as (os & Eos' & HPQS). injection HPQS as HPQS.
  destruct op as [P1|]; [|discriminate]. destruct oq as [Q1|]; [|discriminate].
  destruct os as [S1|]; [|discriminate]. injection HPQS as -> -> ->.
  apply P_value in Eop; [|exact Hc]. apply P_value in Eop'; [|exact Hc].
  apply S_value in Eos'; [|exact Hc|exact HE]. rewrite Hl in *.
  unfold precompute1, legacyElasticAt, legacyTotalAt, energyPrime, legacyCompetitionAt, legacyElasticAt,
    makeLegacyResonance in Hpre. cbn [q_toP q_toQ q_capture q_fission q_energy q_shift] in Hpre.
  unfold fdiv in Hpre. destruct (Req_EM_T P0 0) as [Z|NP]; [discriminate|].
  destruct (Req_EM_T Q0 0) as [Z|NQ]; [discriminate|]. injection Hpre as <-.
  assert (HER : ln_ER x <> 0).
  { intros Z. apply NP. rewrite Eop, Z. apply P_at_0. }
  apply S_value in Eos; [|exact Hc|exact HER]. rewrite Hl in *.
  assert (Hcomp : q * ((if ls_LRX ls then ln_GX x else 0) / Q0) =
    if ls_LRX ls then ln_GX x * P_at k a (ls_L ls) (E + q_new ls) / P_at k a (ls_L ls) (ln_ER x + q_new ls) else 0).
  { destruct (ls_LRX ls); [|field; exact NQ]. apply P_value in Eoq; [|exact Hc].
    rewrite Hl in Eoq. change (ln_ER x + q_new ls) with (ln_ER x - ls_QX ls). rewrite <- Eoq.
    destruct (Req_EM_T (ls_QX ls) 0) as [Z|NZ].
    - injection Eoq' as ->. unfold q_new. rewrite Z, Ropp_0, Rplus_0_r, <- Eop'. field; exact NQ.
    - apply P_value in Eoq'; [|exact Hc]. rewrite Hl in Eoq'.
      change (E + q_new ls) with (E - ls_QX ls). rewrite <- Eoq'. field; exact NQ. }
  unfold stored. rewrite norm2_pole.
  unfold level_of; cbn [w_n w_c w_f w_T w_E].
  rewrite <- Eop, <- Eop', <- Eos, <- Eos'. rewrite Hcomp.
  set (cw := if ls_LRX ls then _ else 0) in *.
  replace 0.25 with (1 / 4) by lra. f_equal; field; exact NP.
Qed.

(** ** One spin group *)
Definition elastic_key : legacy_key := (incident, target, "elastic"%string).
Definition capture_key : legacy_key := (incident, target, "capture"%string).
Definition fission_key : legacy_key := (incident, target, "fission"%string).

(** A group built from the lines [xs] of [ls], with J [j] (doubled, with its sign) *)
Definition group_of (ls : bw_lstate) (j : Z) (g : legacy_group) : Prop :=
  let xs := filter (fun x => (ln_AJ x =? j)%Z) (ls_lines ls) in
  exists rs, g = mkLegacyGroup (lg_channel g) rs (ls_QX ls) /\ lchannel (lg_channel g) /\
    ql (c_numbers (lg_channel g)) = ls_L ls /\ qJ (c_numbers (lg_channel g)) = Z.abs j /\
    Forall2 (fun x r => legacyLine hbar epsilon0 cwf (lg_channel g) (ls_LRX ls) (ls_QX ls) x = Ok (Some r)) xs rs.

Definition lines_of (ls : bw_lstate) (j : Z) : list bw_line :=
  filter (fun x => (ln_AJ x =? j)%Z) (ls_lines ls).

Lemma precompute_levels ls j g xs : group_of ls j g -> precompute hbar epsilon0 cwf g E = Ok (Some xs) ->
  xs = map (fun x => stored E (level_of k a E q_new ls x)) (lines_of ls j).
Proof.
  intros (rs & Hg & Hc & Hl & HJ & F) H. unfold precompute in H.
  apply bind_Ok in H as (o & Epqs & H). injection H as H.
  destruct o as [[[p q] s]|]; [|discriminate]. rewrite Hg in Epqs, H. cbn [lg_resonances lg_channel] in *.
  apply all_finite_Forall2 in H. apply Forall2_map_eq.
  eapply Forall2_trans; [exact F | exact H |].
  intros x r pre _ Hline Hpre. cbv beta in *. eapply stored_level; eauto.
Qed.

Definition one_elastic (ls : bw_lstate) (x : bw_line) : R :=
  scattered (collision (U0_of k E ahat ls) E [level_of k a E q_new ls x]) - scattered (U0_of k E ahat ls).

Lemma keys_distinct : elastic_key <> capture_key /\ elastic_key <> fission_key /\ capture_key <> fission_key.
Proof. unfold elastic_key, capture_key, fission_key; repeat split; intros H; injection H; discriminate. Qed.

Lemma channelFactor_value c : lchannel c ->
  channelFactor hbar c E = Some (barns k E * g_neutron I (qJ (c_numbers c))).
Proof.
  intros Hc. unfold channelFactor. rewrite (channel_k hbar mn Hmn incident target A I HA c rad E Hc).
  fold k. assert (Pk : 0 < k E) by (apply k_old_pos; [apply C_new_pos|..]; assumption).
  unfold fdiv. destruct (Req_EM_T (k E * k E) 0); [nra|]. cbn.
  destruct (channel_spin mn Hmn incident target A I HA c rad HI Hc) as (-> & _). reflexivity.
Qed.

Lemma legacySLBW_value ls j g m m' : group_of ls j g -> legacySLBW hbar epsilon0 cwf g E m = Ok (Some m') ->
  let v := level_of k a E q_new ls in let gJ := g_neutron I (Z.abs j) in
  (forall x, In x (lines_of ls j) -> norm2 (pole E (v x)) <> 0) /\
  mval m' elastic_key = mval m elastic_key + barns k E * (gJ * Rsum (map (one_elastic ls) (lines_of ls j))) /\
  mval m' capture_key = mval m capture_key
    + barns k E * (gJ * Rsum (map (fun x => reaction E (w_c (v x)) (v x)) (lines_of ls j))) /\
  mval m' fission_key = mval m fission_key
    + barns k E * (gJ * Rsum (map (fun x => reaction E (w_f (v x)) (v x)) (lines_of ls j))).
Proof.
  intros Hg H v gJ. pose proof Hg as (rs & Hg1 & Hc & Hl & HJ & _).
  unfold legacySLBW in H. apply bind_Ok in H as (ophi & Ephi & H). apply bind_Ok in H as (oxs & Exs & H).
  injection H as H.
  destruct (channel_phi hbar epsilon0 cwf mn Hh Hmn incident target A I HA _ rad E ophi Hc Hsc HE Ephi)
    as (ra & phi & Era & -> & Hphi). fold sc in Era.
  rewrite (channelFactor_value _ Hc), HJ in H. fold gJ in H.
  destruct oxs as [xs|]; [|discriminate]. apply (precompute_levels ls j g xs Hg) in Exs. fold v in Exs.
  destruct (all_finite _) as [ys|] eqn:Eys; [|discriminate].
  rewrite Exs, map_map in Eys. apply all_finite_Forall2 in Eys.
  rewrite Hl in Hphi. apply hard_sphere_phase in Hphi.
  assert (HU : U0_of k E ahat ls = cis (- (2 * phi))).
  { rewrite <- Hphi. unfold U0_of, ahat. rewrite Era. reflexivity. }
  assert (F : Forall2 (fun x y => norm2 (pole E (v x)) <> 0 /\
     y = (one_elastic ls x, reaction E (w_c (v x)) (v x), reaction E (w_f (v x)) (v x))) (lines_of ls j) ys).
  { clear -Eys HU. induction Eys as [|x y xs ys Hy F IH]; constructor; [|exact IH].
    unfold one_elastic. rewrite HU. change (level_of k a E q_new ls x) with (v x).
    revert Hy. clear. generalize (v x). clear. intros w Hy.
    unfold slbw_components, stored, fdiv in Hy; cbn [pre_elastic pre_total pre_delta pre_denominator pre_capture pre_fission] in Hy.
    destruct (Req_EM_T (norm2 (pole E w)) 0) as [Z|NZ]; [discriminate|]. split; [exact NZ|].
    injection Hy as <-. rewrite scattered_one by exact NZ. unfold reaction.
    apply eq3; field; exact NZ. }
  split.
  { clear -F. intros x Hx. induction F as [|x0 y xs ys [Hn _] F IH]; [destruct Hx|].
    destruct Hx as [<-|Hx]; [exact Hn | apply IH; exact Hx]. }
  rewrite taccumulate_sum in H.
  assert (H0 : Rsum (map t0 ys) = Rsum (map (one_elastic ls) (lines_of ls j))).
  { symmetry. eapply Rsum_Forall2; [exact F|]. intros x y [_ ->]; reflexivity. }
  assert (H1 : Rsum (map t1 ys) = Rsum (map (fun x => reaction E (w_c (v x)) (v x)) (lines_of ls j))).
  { symmetry. eapply Rsum_Forall2; [exact F|]. intros x y [_ ->]; reflexivity. }
  assert (H2 : Rsum (map t2 ys) = Rsum (map (fun x => reaction E (w_f (v x)) (v x)) (lines_of ls j))).
  { symmetry. eapply Rsum_Forall2; [exact F|]. intros x y [_ ->]; reflexivity. }
  rewrite H0, H1, H2, !Rplus_0_l in H. clear H0 H1 H2.
  destruct (channel_spin mn Hmn incident target A I HA _ rad HI Hc) as (_ & _ & Hkey).
  rewrite !Hkey in H. fold elastic_key capture_key fission_key in H.
  destruct keys_distinct as (D1 & D2 & D3).
  destruct (Req_EM_T (Rsum (map (fun x => reaction E (w_f (v x)) (v x)) (lines_of ls j))) 0) as [Z|NZ];
    apply Some_inj in H; subst m'.
  - rewrite Z. repeat rewrite ?mval_at, ?mval_other by (first [assumption | apply not_eq_sym; assumption]).
    repeat split; ring.
  - repeat rewrite ?mval_at, ?mval_other by (first [assumption | apply not_eq_sym; assumption]).
    repeat split; ring.
Qed.

Lemma legacyMLBW_value ls j g m m' : group_of ls j g -> legacyMLBW hbar epsilon0 cwf g E m = Ok (Some m') ->
  let v := level_of k a E q_new ls in let gJ := g_neutron I (Z.abs j) in
  mval m' elastic_key = mval m elastic_key + barns k E * (gJ *
    (scattered (collision (U0_of k E ahat ls) E (map v (lines_of ls j))) - scattered (U0_of k E ahat ls))) /\
  mval m' capture_key = mval m capture_key
    + barns k E * (gJ * Rsum (map (fun x => reaction E (w_c (v x)) (v x)) (lines_of ls j))) /\
  mval m' fission_key = mval m fission_key
    + barns k E * (gJ * Rsum (map (fun x => reaction E (w_f (v x)) (v x)) (lines_of ls j))).
Proof.
  intros Hg H v gJ. unfold legacyMLBW in H. apply bind_Ok in H as (om & Em & H).
  apply bind_Ok in H as (oxs & Exs & H). injection H as H.
  destruct om as [m1|]; [|discriminate].
  pose proof Hg as (rs & Hg1 & Hc & Hl & HJ & _).
  rewrite (channelFactor_value _ Hc), HJ in H. fold gJ in H.
  destruct oxs as [xs|]; [|discriminate]. apply (precompute_levels ls j g xs Hg) in Exs. fold v in Exs.
  destruct (outer_loop [] xs 0) as [term|] eqn:Et; [|discriminate]. injection H as <-.
  assert (Hphi : exists phi, U0_of k E ahat ls = cis (- (2 * phi))).
  { unfold legacySLBW in Em. apply bind_Ok in Em as (ophi & Ephi & _).
    destruct (channel_phi hbar epsilon0 cwf mn Hh Hmn incident target A I HA _ rad E ophi Hc Hsc HE Ephi)
      as (ra & phi & Era & -> & Hphi). fold sc in Era. exists phi. rewrite Hl in Hphi.
    apply hard_sphere_phase in Hphi. rewrite <- Hphi. unfold U0_of, ahat. rewrite Era. reflexivity. }
  destruct Hphi as (phi & HU).
  destruct (legacySLBW_value ls j g m m1 Hg Em) as (Hn & HE1 & HC1 & HF1). fold v in Hn, HC1, HF1. fold gJ in HE1, HC1, HF1.
  destruct (channel_spin mn Hmn incident target A I HA _ rad HI Hc) as (_ & _ & Hkey).
  rewrite !Hkey. fold elastic_key. destruct keys_distinct as (D1 & D2 & D3).
  rewrite mval_at, !mval_other by (apply not_eq_sym; assumption). split; [|split; assumption].
  rewrite HE1, Rplus_assoc. f_equal.
  assert (Hterm : term = pair_sum (interference E) (map v (lines_of ls j))).
  { apply outer_loop_sum in Et. cbn zeta in Et. rewrite Et. cbn [map]. rewrite Rsum_nil, !Rplus_0_l.
    rewrite Exs, <- (map_map v (stored E)), pair_sum_map. apply pair_sum_ext. intros y z Hy Hz.
    apply in_map_iff in Hy as (x & <- & Hx). apply in_map_iff in Hz as (x' & <- & Hx').
    rewrite cross_term_interference by (apply Hn; assumption).
    apply interference_sym; apply Hn; assumption. }
  rewrite Hterm. rewrite HU.
  rewrite (scattered_many phi E (map v (lines_of ls j))).
  2:{ intros w Hw. apply in_map_iff in Hw as (x & <- & Hx). apply Hn; exact Hx. }
  rewrite map_map. unfold one_elastic. rewrite HU. fold v. ring.
Qed.

(** ** The groups of a file *)
Variables (f_ap : R) (nro : option (R -> outcome R)) (naps : nat).
Hypothesis Hradii : makeChannelRadii f_ap nro naps A mn = Ok rad.

Lemma legacyJs_groups ls pr : legacyPair mn incident target A I = Ok pr ->
  forall js av gs rem, legacyJs hbar epsilon0 cwf ls pr rad js av = Ok (Some gs, rem) ->
  Forall2 (group_of ls) js gs.
Proof.
  intros Hpr js; induction js as [|j js IH]; intros av gs rem H; cbn [legacyJs] in H.
  - injection H as <- _. constructor.
  - apply bind_Ok in H as ([og rem1] & Eg & H). apply bind_Ok in H as ([ogs rem2] & Egs & H).
    injection H as H _. destruct og as [g|]; [|discriminate]. destruct ogs as [gs'|]; [|discriminate].
    apply Some_inj in H; subst gs. constructor; [|eapply IH; exact Egs].
    unfold legacyJ in Eg. apply bind_Ok in Eg as ([q rem3] & Eq & Eg).
    apply bind_Ok in Eg as (ors & Ers & Eg). injection Eg as Eg _.
    destruct (all_finite ors) as [rs|] eqn:Eors; [|discriminate]. apply Some_inj in Eg; subst g.
    apply all_finite_Some in Eors. subst ors.
    apply retrieve_ok in Eq as (Hl & HJ & _).
    exists rs. split; [reflexivity|]. split; [exists pr, q; split; [exact Hpr | reflexivity]|].
    split; [exact Hl|]. split; [exact HJ|]. cbn [lg_channel].
    apply mapM_Ok in Ers. clear -Ers. revert rs Ers.
    induction (filter (fun r => (ln_AJ r =? j)%Z) (ls_lines ls)) as [|x xs IHx]; intros rs F.
    + destruct rs; [constructor | inversion F].
    + destruct rs as [|r rs]; [inversion F|]. cbn in F. inversion F; subst. constructor; auto.
Qed.

Definition js_of (ls : bw_lstate) : list Z := sort_unique (map ln_AJ (ls_lines ls)).

Lemma legacyAllGroups_groups lss : (forall ls, In ls lss -> ls_AWRI ls = A) -> forall av gs,
  legacyAllGroups hbar epsilon0 cwf mn incident target I f_ap nro naps lss av = Ok (Some gs) ->
  exists gss, gs = concat gss /\ Forall2 (fun ls gs => Forall2 (group_of ls) (js_of ls) gs) lss gss.
Proof.
  induction lss as [|ls lss IH]; intros HAll av gs H; cbn [legacyAllGroups] in H.
  - injection H as <-. exists []. split; [reflexivity | constructor].
  - apply bind_Ok in H as ([ogs rem] & Eg & H). apply bind_Ok in H as (ohs & Eh & H).
    injection H as H. destruct ogs as [gs1|]; [|discriminate]. destruct ohs as [hs|]; [|discriminate].
    apply Some_inj in H; subst gs.
    destruct (IH (fun x Hx => HAll x (or_intror Hx)) _ _ Eh) as (gss & -> & F).
    exists (gs1 :: gss). split; [reflexivity|]. constructor; [|exact F].
    unfold legacyGroups in Eg. rewrite (HAll ls (or_introl eq_refl)) in Eg.
    apply bind_Ok in Eg as (pr & Epr & Eg). rewrite Hradii in Eg. cbn [bind] in Eg.
    eapply legacyJs_groups; eauto.
Qed.

(** A sum over the groups *)
Lemma fold_groups one X (c : bw_lstate -> Z -> R) :
  (forall ls j g m m', group_of ls j g -> one g E m = Ok (Some m') -> mval m' X = mval m X + c ls j) ->
  forall lss gss m m',
  Forall2 (fun ls gs => Forall2 (group_of ls) (js_of ls) gs) lss gss ->
  foldM (fun om g => match om with None => Ok None | Some m => one g E m end) (concat gss) (Some m) = Ok (Some m') ->
  mval m' X = mval m X + Rsum (map (fun ls => Rsum (map (c ls) (js_of ls))) lss).
Proof.
  intros Hone.
  assert (HN : forall gs m', foldM (fun om g => match om with None => Ok None | Some m => one g E m end) gs None = Ok (Some m') -> False).
  { induction gs as [|g gs IH]; cbn; intros m' H; [discriminate | eapply IH; exact H]. }
  assert (H1 : forall ls js gs hs m m', Forall2 (group_of ls) js gs ->
    foldM (fun om g => match om with None => Ok None | Some m => one g E m end) (gs ++ hs) (Some m) = Ok (Some m') ->
    exists m1, mval m1 X = mval m X + Rsum (map (c ls) js) /\
      foldM (fun om g => match om with None => Ok None | Some m => one g E m end) hs (Some m1) = Ok (Some m')).
  { intros ls js gs hs m m' F. revert m. induction F as [|j g js gs Hg F IH]; intros m H.
    - exists m. split; [cbn [map]; rewrite Rsum_nil; ring | exact H].
    - cbn [app foldM] in H. apply bind_Ok in H as (om & Em & H).
      destruct om as [m2|]; [|destruct (HN _ _ H)].
      apply (Hone ls j g m m2 Hg) in Em. destruct (IH m2 H) as (m1 & Hm1 & H').
      exists m1. split; [|exact H']. cbn [map]. rewrite Rsum_cons, Hm1, Em. ring. }
  intros lss gss m m' F. revert m. induction F as [|ls gs lss gss Hgs F IH]; intros m H.
  - cbn in H. injection H as <-. cbn [map]. rewrite Rsum_nil. ring.
  - cbn [concat] in H. destruct (H1 ls (js_of ls) gs (concat gss) m m' Hgs H) as (m1 & Hm1 & H').
    rewrite (IH m1 H'), Hm1. cbn [map]. rewrite Rsum_cons. ring.
Qed.

(** *** sort and unique *)
Lemma insert_unique_in j l x : In x (insert_unique j l) <-> x = j \/ In x l.
Proof.
  induction l as [|y l IH]; cbn; [intuition|]. destruct (Z.ltb_spec j y); [cbn; intuition|].
  destruct (Z.eqb_spec j y); [subst; cbn; intuition|]. cbn; rewrite IH; intuition.
Qed.
Lemma sort_unique_in l x : In x (sort_unique l) <-> In x l.
Proof. induction l as [|y l IH]; cbn; [reflexivity|]. rewrite insert_unique_in, IH. intuition. Qed.
Lemma insert_unique_sorted j l : Sorted.StronglySorted Z.lt l -> Sorted.StronglySorted Z.lt (insert_unique j l).
Proof.
  induction l as [|y l IH]; intros H; cbn; [repeat constructor|]. inversion H as [|? ? H1 H2]; subst.
  destruct (Z.ltb_spec j y).
  - constructor; [exact H|]. constructor; [assumption|]. rewrite Forall_forall in *. intros z Hz; specialize (H2 z Hz); lia.
  - destruct (Z.eqb_spec j y); [exact H|]. constructor; [apply IH; exact H1|].
    rewrite Forall_forall in *. intros z Hz. apply insert_unique_in in Hz as [->|Hz]; [lia | apply H2; exact Hz].
Qed.
Lemma sort_unique_nodup l : NoDup (sort_unique l).
Proof.
  apply sorted_nodup. induction l as [|y l IH]; cbn; [constructor | apply insert_unique_sorted; exact IH].
Qed.

(** A sum over the lines, by value of J *)
Lemma partition_sum {X} (J : X -> Z) (F : X -> R) js l : NoDup js -> (forall x, In x l -> In (J x) js) ->
  Rsum (map (fun j => Rsum (map F (filter (fun x => (J x =? j)%Z) l))) js) = Rsum (map F l).
Proof.
  intros Hn; induction l as [|x l IH]; intros Hin.
  - cbn [filter map]. clear. rewrite Rsum_nil.
    induction js; cbn [map]; rewrite ?Rsum_cons, ?Rsum_nil; lra.
  - cbn [map]. rewrite Rsum_cons, <- IH by (intros; apply Hin; right; assumption). clear IH.
    assert (Hx : In (J x) js) by (apply Hin; left; reflexivity). clear Hin.
    induction js as [|j js IH]; [destruct Hx|]. inversion Hn as [|? ? Hj Hn']; subst.
    cbn [map]. rewrite !Rsum_cons. destruct Hx as [->|Hx].
    + cbn [filter]. rewrite Z.eqb_refl. cbn [map]. rewrite Rsum_cons.
      rewrite (Rsum_ext (fun j => Rsum (map F (if (J x =? j)%Z then _ else _)))
         (fun j => Rsum (map F (filter (fun y => (J y =? j)%Z) l)))); [ring|].
      intros j Hj'. destruct (Z.eqb_spec (J x) j); [subst; contradiction | reflexivity].
    + rewrite (IH Hn' Hx). cbn [filter]. destruct (Z.eqb_spec (J x) j); [subst; contradiction | ring].
Qed.

Lemma lines_sum (F : bw_line -> R) ls :
  Rsum (map (fun j => g_neutron I (Z.abs j) * Rsum (map F (lines_of ls j))) (js_of ls)) =
  Rsum (map (fun x => g_of I x * F x) (ls_lines ls)).
Proof.
  rewrite <- (partition_sum ln_AJ (fun x => g_of I x * F x) (js_of ls)).
  - apply Rsum_ext. intros j _. rewrite <- Rsum_scale. apply Rsum_ext. intros x Hx.
    apply filter_In in Hx as [_ Hx]. apply Z.eqb_eq in Hx. unfold g_of, abs_J. rewrite Hx. reflexivity.
  - apply sort_unique_nodup.
  - intros x Hx. apply sort_unique_in, in_map. exact Hx.
Qed.

(** *** No J is given with both signs *)
Lemma count_two {X} (f : X -> bool) l x y : In x l -> In y l -> x <> y -> f x = true -> f y = true ->
  (2 <= count f l)%nat.
Proof.
  assert (H1 : forall l x, In x l -> f x = true -> (1 <= count f l)%nat).
  { clear. intros l; induction l as [|z l IH]; intros x Hx Hf; [destruct Hx|]. cbn.
    destruct Hx as [->|Hx]; [rewrite Hf; lia|]. specialize (IH x Hx Hf); lia. }
  induction l as [|z l IH]; intros Hx Hy Hne Hfx Hfy; [destruct Hx|]. cbn.
  destruct Hx as [->|Hx], Hy as [Hy|Hy].
  - congruence.
  - rewrite Hfx. specialize (H1 l y Hy Hfy). lia.
  - subst z. rewrite Hfy. specialize (H1 l x Hx Hfx). lia.
  - specialize (IH Hx Hy Hne Hfx Hfy). lia.
Qed.
Lemma count_app {X} (f : X -> bool) l m : count f (l ++ m) = (count f l + count f m)%nat.
Proof. induction l as [|x l IH]; cbn; [reflexivity|]. rewrite IH; lia. Qed.

Lemma verify_distinct lss gss : Forall2 (fun ls gs => Forall2 (group_of ls) (js_of ls) gs) lss gss ->
  legacyVerify (concat gss) = Ok tt ->
  forall ls, In ls lss -> forall j j', In j (js_of ls) -> In j' (js_of ls) -> Z.abs j = Z.abs j' -> j = j'.
Proof.
  intros F HV. unfold legacyVerify in HV. apply bind_Ok in HV as (_ & _ & HV).
  assert (Hall : forall g, In g (concat gss) ->
    (count (fun h => same_lJ (c_numbers (lg_channel h)) (c_numbers (lg_channel g))) (concat gss) <= 1)%nat).
  { revert HV. generalize (concat gss) at 2 3. intros l. induction l as [|g l IH]; cbn [foldM]; intros HV h Hin; [destruct Hin|].
    apply bind_Ok in HV as (u & Hc & HV). destruct u. destruct Hin as [<-|Hin]; [|apply IH; assumption].
    unfold check in Hc. destruct (Nat.ltb_spec 1 (count (fun h => same_lJ (c_numbers (lg_channel h)) (c_numbers (lg_channel g))) (concat gss)));
      [discriminate | lia]. }
  intros ls Hin j j' Hj Hj' Habs. destruct (Z.eq_dec j j') as [|Hne]; [assumption|]. exfalso.
  assert (Hgs : exists gs, In gs gss /\ Forall2 (group_of ls) (js_of ls) gs).
  { clear -F Hin. induction F as [|l0 g0 lss gss H0 F IH]; [destruct Hin|].
    destruct Hin as [->|Hin]; [exists g0; split; [left; reflexivity | exact H0]|].
    destruct (IH Hin) as (gs & H1 & H2). exists gs; split; [right; exact H1 | exact H2]. }
  destruct Hgs as (gs & Hgs & FG).
  assert (Hcount : forall f : legacy_group -> bool, (count f gs <= count f (concat gss))%nat).
  { intros f0. clear -Hgs. induction gss as [|g0 gss IH]; [destruct Hgs|]. cbn [concat]. rewrite count_app.
    destruct Hgs as [->|Hgs]; [lia|]. specialize (IH Hgs). lia. }
  assert (Hg : exists g, In g gs /\ group_of ls j g).
  { clear -FG Hj. induction FG as [|j0 g0 js gs H0 F IH]; [destruct Hj|].
    destruct Hj as [->|Hj]; [exists g0; split; [left; reflexivity | exact H0]|].
    destruct (IH Hj) as (g & H1 & H2). exists g; split; [right; exact H1 | exact H2]. }
  destruct Hg as (g & Hg & (rs & _ & _ & Hl & HJ & _)).
  assert (Hge : (count (fun i => (Z.abs i =? Z.abs j)%Z) (js_of ls) <=
    count (fun h => same_lJ (c_numbers (lg_channel h)) (c_numbers (lg_channel g))) gs)%nat).
  { clear -FG Hl HJ. induction FG as [|j0 g0 js gs (rs & _ & _ & H1 & H2 & _) F IH]; [cbn; lia|]. cbn.
    unfold same_lJ at 1. rewrite H1, H2, Hl, HJ, Nat.eqb_refl. cbn [andb]. destruct (Z.abs j0 =? Z.abs j)%Z; lia. }
  assert (H2 : (2 <= count (fun i => (Z.abs i =? Z.abs j)%Z) (js_of ls))%nat).
  { apply (count_two _ _ j j'); try assumption; [apply Z.eqb_refl | apply Z.eqb_eq; auto]. }
  assert (HgC : In g (concat gss)) by (apply in_concat; exists gs; auto).
  specialize (Hall g HgC). specialize (Hcount (fun h => same_lJ (c_numbers (lg_channel h)) (c_numbers (lg_channel g)))).
  lia.
Qed.

Lemma ML_lines ls : (forall j j', In j (js_of ls) -> In j' (js_of ls) -> Z.abs j = Z.abs j' -> j = j') ->
  let v := level_of k a E q_new ls in let U0 := U0_of k E ahat ls in
  Rsum (map (fun j => g_neutron I (Z.abs j) * (scattered (collision U0 E (map v (lines_of ls j))) - scattered U0)) (js_of ls))
  + (2 * INR (ls_L ls) + 1) * scattered U0
  = ML_elastic (ls_L ls) U0 E v I abs_J (ls_lines ls).
Proof.
  intros Hinj v U0. unfold ML_elastic.
  assert (HP : Permutation (map Z.abs (js_of ls)) (Js abs_J (ls_lines ls))).
  { apply NoDup_Permutation.
    - assert (G : forall js, NoDup js -> (forall j, In j js -> In j (js_of ls)) -> NoDup (map Z.abs js)).
      { induction js as [|j js IH]; intros Hn Hin; cbn; [constructor|]. inversion Hn; subst. constructor.
        - intros H. apply in_map_iff in H as (j' & E' & Hj'). apply Hinj in E'; [subst; contradiction|apply Hin; right; exact Hj'|apply Hin; left; reflexivity].
        - apply IH; [assumption|]. intros; apply Hin; right; assumption. }
      apply G; [apply sort_unique_nodup | auto].
    - apply NoDup_nodup.
    - intros x. unfold Js. rewrite nodup_In, !in_map_iff. split.
      + intros (j & <- & Hj). apply sort_unique_in, in_map_iff in Hj as (y & <- & Hy). exists y; auto.
      + intros (y & <- & Hy). exists (ln_AJ y). split; [reflexivity|]. apply sort_unique_in, in_map; exact Hy. }
  rewrite <- !(Rsum_perm _ _ (Permutation_map _ HP)), !map_map.
  rewrite (Rsum_ext (fun j => g_neutron I (Z.abs j) * (_ - _)) (fun j => g_neutron I (Z.abs j) *
     scattered (collision U0 E (map v (of_J abs_J (Z.abs j) (ls_lines ls)))) - scattered U0 * g_neutron I (Z.abs j))).
  - rewrite Rsum_minus, Rsum_scale. ring.
  - intros j Hj. replace (of_J abs_J (Z.abs j) (ls_lines ls)) with (lines_of ls j); [ring|].
    unfold of_J, lines_of, abs_J. apply filter_ext_in. intros x Hx.
    destruct (Z.eqb_spec (ln_AJ x) j) as [->|N]; [rewrite Z.eqb_refl; reflexivity|].
    destruct (Z.eqb_spec (Z.abs (ln_AJ x)) (Z.abs j)) as [H|]; [|reflexivity].
    exfalso; apply N, Hinj; [apply sort_unique_in, in_map; exact Hx | exact Hj | exact H].
Qed.

(** *** Potential scattering *)
Lemma potential_sum ratio n : 0 < ratio -> forall l v v', potential ratio n l v = Ok v' ->
  v' = v + Rsum (map (fun i => (2 * INR i + 1) * scattered (hard_sphere_U i ratio)) (seq l n)) / 4.
Proof.
  intros Hr; induction n as [|n IH]; intros l v v' H; cbn [potential seq map] in *.
  - injection H as <-. rewrite Rsum_nil. lra.
  - apply bind_Ok in H as (phi & Ephi & H). apply IH in H. rewrite Rsum_cons.
    assert (Hl : (l <= 4)%nat).
    { destruct (le_lt_dec l 4) as [|G]; [assumption|]. destruct (new_unsupported l ratio G) as (_ & _ & U).
      rewrite U in Ephi; discriminate. }
    destruct (phase_code l ratio Hr Hl) as (phi' & E' & Hp). rewrite Ephi in E'. injection E' as <-.
    rewrite (hard_sphere_phase _ _ _ Hp), scattered_hard. lra.
Qed.

Lemma fold_max (h : legacy_group -> nat) gs : forall m,
  fold_left (fun m g => Nat.max m (h g)) gs m = Nat.max m (list_max (map h gs)).
Proof.
  induction gs as [|g gs IH]; intros m; cbn [fold_left map]; [cbn; lia|]. rewrite IH.
  change (list_max (h g :: map h gs)) with (Nat.max (h g) (list_max (map h gs))). lia.
Qed.

Lemma group_of_l ls j g : group_of ls j g -> ql (c_numbers (lg_channel g)) = ls_L ls /\ lchannel (lg_channel g).
Proof. intros (rs & _ & Hc & Hl & _). auto. Qed.

Lemma lmax_value lss gss n : Forall2 (fun ls gs => Forall2 (group_of ls) (js_of ls) gs) lss gss ->
  map ls_L lss = seq 0 (S n) -> (forall ls, In ls lss -> ls_lines ls <> []) ->
  getLMax (concat gss) = n.
Proof.
  intros F Hs Hne. unfold getLMax. rewrite fold_max. rewrite Nat.max_0_l.
  apply Nat.le_antisymm.
  - apply list_max_le, Forall_forall. intros x Hx. apply in_map_iff in Hx as (g & <- & Hg).
    apply in_concat in Hg as (gs & Hgs & Hg).
    assert (H : exists ls, In ls lss /\ ql (c_numbers (lg_channel g)) = ls_L ls).
    { clear -F Hgs Hg. induction F as [|ls gs0 lss gss H0 F IH]; [destruct Hgs|].
      destruct Hgs as [->|Hgs].
      - exists ls. split; [left; reflexivity|]. clear -H0 Hg. induction H0 as [|j g0 js gs H0 F IH]; [destruct Hg|].
        destruct Hg as [->|Hg]; [apply (group_of_l ls j g H0) | apply IH; exact Hg].
      - destruct (IH Hgs) as (ls' & H1 & H2). exists ls'; split; [right; exact H1 | exact H2]. }
    destruct H as (ls & Hin & ->).
    assert (Hl : In (ls_L ls) (seq 0 (S n))) by (rewrite <- Hs; apply in_map; exact Hin).
    apply in_seq in Hl. lia.
  - assert (Hn : In n (map ls_L lss)) by (rewrite Hs; apply in_seq; lia).
    apply in_map_iff in Hn as (ls & Hl & Hin).
    assert (H : exists g, In g (concat gss) /\ ql (c_numbers (lg_channel g)) = n).
    { clear Hs. specialize (Hne ls Hin). induction F as [|ls0 gs lss gss H0 F IH]; [destruct Hin|].
      destruct Hin as [->|Hin].
      - destruct (js_of ls) as [|j js] eqn:Ej.
        + exfalso. destruct (ls_lines ls) as [|x xs] eqn:Ex; [congruence|].
          assert (In (ln_AJ x) (js_of ls)) by (apply sort_unique_in; rewrite Ex; left; reflexivity).
          rewrite Ej in H; destruct H.
        + inversion H0 as [|? g ? gs' Hg F' E1 E2]; subst. exists g. split; [left; reflexivity|].
          apply (group_of_l ls j g Hg).
      - destruct (IH Hin) as (g & H1 & H2). exists g. split; [cbn [concat]; apply in_or_app; right; exact H1 | exact H2]. }
    destruct H as (g & Hg & <-).
    assert (Hle := proj1 (list_max_le (map (fun g => ql (c_numbers (lg_channel g))) (concat gss)) _) (Nat.le_refl _)).
    rewrite Forall_forall in Hle. apply Hle. apply (in_map (fun g => ql (c_numbers (lg_channel g)))) in Hg. exact Hg.
Qed.

(** *** The compound system *)
Variables (lss : list bw_lstate) (n : nat).
Hypotheses (HAll : forall ls, In ls lss -> ls_AWRI ls = A) (Hls : map ls_L lss = seq 0 (S n))
  (Hne : forall ls, In ls lss -> ls_lines ls <> []).
Let f := mkFile I f_ap lss.

Lemma legacy_built s : makeLegacyBreitWigner hbar epsilon0 cwf mn incident target f nro naps = Ok (Some s) ->
  exists gss, ly_groups s = concat gss /\ Forall2 (fun ls gs => Forall2 (group_of ls) (js_of ls) gs) lss gss
    /\ legacyVerify (concat gss) = Ok tt /\ ly_lmax s = n.
Proof.
  unfold makeLegacyBreitWigner, f; cbn [f_lstates f_SPI f_AP]. intros H.
  destruct lss as [|first rest] eqn:Elss; [discriminate|].
  apply bind_Ok in H as (pr & _ & H). apply bind_Ok in H as (av & _ & H).
  apply bind_Ok in H as (ogs & Egs & H). destruct ogs as [gs|]; [|discriminate].
  unfold omap in H. apply bind_Ok in H as (s' & Es & H). injection H as ->.
  apply legacyAllGroups_groups in Egs; [|exact HAll]. destruct Egs as (gss & -> & F).
  unfold makeLegacySystem in Es. apply bind_Ok in Es as ([] & Ev & Es). injection Es as <-.
  exists gss. split; [reflexivity|]. split; [exact F|]. split; [exact Ev|]. cbn [ly_lmax].
  eapply lmax_value; eauto.
Qed.

Lemma legacy_evaluate_sum one s (c0 c1 c2 : bw_lstate -> Z -> R) m m' :
  makeLegacyBreitWigner hbar epsilon0 cwf mn incident target f nro naps = Ok (Some s) ->
  (forall ls j g m m', group_of ls j g -> one g E m = Ok (Some m') ->
     mval m' elastic_key = mval m elastic_key + barns k E * c0 ls j /\
     mval m' capture_key = mval m capture_key + barns k E * c1 ls j /\
     mval m' fission_key = mval m fission_key + barns k E * c2 ls j) ->
  legacy_evaluate hbar one s E m = Ok (Some m') ->
  mval m' elastic_key = mval m elastic_key + barns k E *
    Rsum (map (fun ls => Rsum (map (c0 ls) (js_of ls)) + (2 * INR (ls_L ls) + 1) * scattered (U0_of k E ahat ls)) lss) /\
  mval m' capture_key = mval m capture_key + barns k E * Rsum (map (fun ls => Rsum (map (c1 ls) (js_of ls))) lss) /\
  mval m' fission_key = mval m fission_key + barns k E * Rsum (map (fun ls => Rsum (map (c2 ls) (js_of ls))) lss).
Proof.
  intros Hb Hone H. destruct (legacy_built s Hb) as (gss & Hgs & F & _ & Hmax).
  unfold legacy_evaluate in H. rewrite Hgs, Hmax in H.
  apply bind_Ok in H as (om & Efold & H).
  destruct (concat gss) as [|g gs] eqn:Ec; [discriminate|]. rewrite <- Ec in Efold.
  assert (Hg : lchannel (lg_channel g)).
  { assert (Hin : In g (concat gss)) by (rewrite Ec; left; reflexivity).
    apply in_concat in Hin as (gs' & Hgs' & Hin). clear -F Hgs' Hin.
    induction F as [|ls gs0 lss gss H0 F IH]; [destruct Hgs'|]. destruct Hgs' as [->|Hgs']; [|apply IH; exact Hgs'].
    clear -H0 Hin. induction H0 as [|j g0 js gs H0 F IH]; [destruct Hin|].
    destruct Hin as [->|Hin]; [apply (group_of_l ls j g H0) | apply IH; exact Hin]. }
  rewrite (channel_k hbar mn Hmn incident target A I HA _ rad E Hg) in H. fold k in H.
  destruct (channel_spin mn Hmn incident target A I HA _ rad HI Hg) as (_ & Hr & Hkey).
  rewrite Hr in H. apply bind_Ok in H as (ra & Era & H). fold sc in Era.
  apply bind_Ok in H as (value & Ev & H). apply (f_equal (fun o => match o with Ok x => x | _ => None end)) in H.
  cbv beta iota in H. destruct om as [m1|]; [|discriminate].
  assert (Pk : 0 < k E) by (apply k_old_pos; [apply C_new_pos|..]; assumption).
  unfold fdiv in H. destruct (Req_EM_T (k E * k E) 0); [nra|]. apply Some_inj in H; subst m'.
  rewrite Hkey. fold elastic_key. destruct keys_distinct as (D1 & D2 & D3).
  rewrite mval_at, !mval_other by (apply not_eq_sym; assumption).
  apply potential_sum in Ev; [|apply Rmult_lt_0_compat; [exact Pk | apply (Hsc E ra Era)]].
  assert (Hf0 := fold_groups one elastic_key (fun ls j => barns k E * c0 ls j)
     (fun ls j g m m' Hgg He => proj1 (Hone ls j g m m' Hgg He)) lss gss m m1 F Efold).
  assert (Hf1 := fold_groups one capture_key (fun ls j => barns k E * c1 ls j)
     (fun ls j g m m' Hgg He => proj1 (proj2 (Hone ls j g m m' Hgg He))) lss gss m m1 F Efold).
  assert (Hf2 := fold_groups one fission_key (fun ls j => barns k E * c2 ls j)
     (fun ls j g m m' Hgg He => proj2 (proj2 (Hone ls j g m m' Hgg He))) lss gss m m1 F Efold).
  assert (HS : forall c : bw_lstate -> Z -> R,
    Rsum (map (fun ls => Rsum (map (fun j => barns k E * c ls j) (js_of ls))) lss)
    = barns k E * Rsum (map (fun ls => Rsum (map (c ls) (js_of ls))) lss)).
  { intros c. rewrite <- Rsum_scale. apply Rsum_ext. intros ls _. apply Rsum_scale. }
  cbv beta in Hf0, Hf1, Hf2. rewrite HS in Hf0, Hf1, Hf2. split; [|split; [exact Hf1 | exact Hf2]].
  rewrite Hf0, (Rsum_plus (fun ls => Rsum (map (c0 ls) (js_of ls)))), Rmult_plus_distr_l, Rplus_assoc.
  do 2 f_equal. rewrite Ev, Rplus_0_l. unfold barns.
  assert (HU : Rsum (map (fun ls => (2 * INR (ls_L ls) + 1) * scattered (U0_of k E ahat ls)) lss)
    = Rsum (map (fun i => (2 * INR i + 1) * scattered (hard_sphere_U i (k E * ra))) (seq 0 (S n)))).
  { rewrite <- Hls, map_map. apply Rsum_ext. intros ls _. unfold U0_of, ahat. rewrite Era. reflexivity. }
  rewrite HU. field. nra.
Qed.

Theorem legacy_slbw_file s m m' :
  makeLegacyBreitWigner hbar epsilon0 cwf mn incident target f nro naps = Ok (Some s) ->
  legacy_evaluate hbar (legacySLBW hbar epsilon0 cwf) s E m = Ok (Some m') ->
  mval m' elastic_key = mval m elastic_key + SLBW_elastic k a E q_new ahat I lss /\
  mval m' capture_key = mval m capture_key + BW_capture k a E q_new I lss /\
  mval m' fission_key = mval m fission_key + BW_fission k a E q_new I lss.
Proof.
  intros Hb He.
  destruct (legacy_evaluate_sum (legacySLBW hbar epsilon0 cwf) s
    (fun ls j => g_neutron I (Z.abs j) * Rsum (map (one_elastic ls) (lines_of ls j)))
    (fun ls j => let v := level_of k a E q_new ls in
       g_neutron I (Z.abs j) * Rsum (map (fun x => reaction E (w_c (v x)) (v x)) (lines_of ls j)))
    (fun ls j => let v := level_of k a E q_new ls in
       g_neutron I (Z.abs j) * Rsum (map (fun x => reaction E (w_f (v x)) (v x)) (lines_of ls j))) m m' Hb)
    as (H0 & H1 & H2); [|exact He|].
  - intros ls j g m0 m0' Hg Hg'. apply (legacySLBW_value ls j g m0 m0' Hg Hg').
  - rewrite H0, H1, H2. unfold SLBW_elastic, BW_capture, BW_fission.
    repeat split; do 2 f_equal; apply Rsum_ext; intros ls _; cbn zeta.
    + rewrite (lines_sum (one_elastic ls) ls). unfold SL_elastic, one_elastic. ring.
    + rewrite (lines_sum (fun x => reaction E (w_c (level_of k a E q_new ls x)) (level_of k a E q_new ls x)) ls).
      reflexivity.
    + rewrite (lines_sum (fun x => reaction E (w_f (level_of k a E q_new ls x)) (level_of k a E q_new ls x)) ls).
      reflexivity.
Qed.

Theorem legacy_mlbw_file s m m' :
  makeLegacyBreitWigner hbar epsilon0 cwf mn incident target f nro naps = Ok (Some s) ->
  legacy_evaluate hbar (legacyMLBW hbar epsilon0 cwf) s E m = Ok (Some m') ->
  mval m' elastic_key = mval m elastic_key + MLBW_elastic k a E q_new ahat I lss /\
  mval m' capture_key = mval m capture_key + BW_capture k a E q_new I lss /\
  mval m' fission_key = mval m fission_key + BW_fission k a E q_new I lss.
Proof.
  intros Hb He. destruct (legacy_built s Hb) as (gss & _ & F & HV & _).
  pose proof (verify_distinct lss gss F HV) as Hd.
  destruct (legacy_evaluate_sum (legacyMLBW hbar epsilon0 cwf) s
    (fun ls j => g_neutron I (Z.abs j) * (scattered (collision (U0_of k E ahat ls) E
        (map (level_of k a E q_new ls) (lines_of ls j))) - scattered (U0_of k E ahat ls)))
    (fun ls j => let v := level_of k a E q_new ls in
       g_neutron I (Z.abs j) * Rsum (map (fun x => reaction E (w_c (v x)) (v x)) (lines_of ls j)))
    (fun ls j => let v := level_of k a E q_new ls in
       g_neutron I (Z.abs j) * Rsum (map (fun x => reaction E (w_f (v x)) (v x)) (lines_of ls j))) m m' Hb)
    as (H0 & H1 & H2); [|exact He|].
  - intros ls j g m0 m0' Hg Hg'. apply (legacyMLBW_value ls j g m0 m0' Hg Hg').
  - rewrite H0, H1, H2. unfold MLBW_elastic, BW_capture, BW_fission.
    repeat split; do 2 f_equal; apply Rsum_ext; intros ls Hin; cbn zeta.
    + apply (ML_lines ls). apply Hd; exact Hin.
    + rewrite (lines_sum (fun x => reaction E (w_c (level_of k a E q_new ls x)) (level_of k a E q_new ls x)) ls).
      reflexivity.
    + rewrite (lines_sum (fun x => reaction E (w_f (level_of k a E q_new ls x)) (level_of k a E q_new ls x)) ls).
      reflexivity.
Qed.

(** *** Every level that is used has a pole off the real axis, and every J can be coupled *)
Lemma fold_each (one : legacy_group -> R -> legacy_map -> outcome (option legacy_map)) gs : forall m m',
  foldM (fun om g => match om with None => Ok None | Some m => one g E m end) gs (Some m) = Ok (Some m') ->
  forall g, In g gs -> exists m1 m2, one g E m1 = Ok (Some m2).
Proof.
  assert (HN : forall gs m', foldM (fun om g => match om with None => Ok None | Some m => one g E m end) gs None = Ok (Some m') -> False).
  { clear; induction gs as [|g gs IH]; cbn; intros m' H; [discriminate | eapply IH; exact H]. }
  induction gs as [|g gs IH]; intros m m' H h Hin; [destruct Hin|]. cbn [foldM] in H.
  apply bind_Ok in H as (om & Em & H). destruct om as [m2|]; [|destruct (HN _ _ H)].
  destruct Hin as [<-|Hin]; [exists m, m2; exact Em | eapply IH; eauto].
Qed.

Lemma legacy_poles one s m m' :
  makeLegacyBreitWigner hbar epsilon0 cwf mn incident target f nro naps = Ok (Some s) ->
  (forall g m1 m2, one g E m1 = Ok (Some m2) -> exists m3, legacySLBW hbar epsilon0 cwf g E m1 = Ok (Some m3)) ->
  legacy_evaluate hbar one s E m = Ok (Some m') ->
  forall ls x, In ls lss -> In x (ls_lines ls) -> norm2 (pole E (level_of k a E q_new ls x)) <> 0.
Proof.
  intros Hb Hone He ls x Hls0 Hx. destruct (legacy_built s Hb) as (gss & Hgs & F & _ & _).
  unfold legacy_evaluate in He. apply bind_Ok in He as (om & Efold & He).
  destruct om as [m1|].
  2:{ exfalso. destruct (ly_groups s); [discriminate|]. destruct (channelWaveNumber _ _ _); [|discriminate].
      apply bind_Ok in He as (? & _ & He). apply bind_Ok in He as (? & _ & He). discriminate. }
  rewrite Hgs in Efold.
  assert (Hj : In (ln_AJ x) (js_of ls)) by (apply sort_unique_in, in_map; exact Hx).
  assert (Hg : exists g, In g (concat gss) /\ group_of ls (ln_AJ x) g).
  { clear -F Hls0 Hj. induction F as [|l0 gs lss gss H0 F IH]; [destruct Hls0|].
    destruct Hls0 as [->|Hin].
    - clear IH. cbn [concat]. revert Hj H0. generalize (js_of ls). intros js Hj FG.
      induction FG as [|j0 g0 js gs H0 F0 IH]; [destruct Hj|].
      destruct Hj as [->|Hj]; [exists g0; split; [left; reflexivity | exact H0]|].
      destruct (IH Hj) as (g & H1 & H2). exists g; split; [right; exact H1 | exact H2].
    - destruct (IH Hin) as (g & H1 & H2). exists g; split; [cbn [concat]; apply in_or_app; right; exact H1 | exact H2]. }
  destruct Hg as (g & Hin & Hg).
  destruct (fold_each one _ _ _ Efold g Hin) as (m2 & m3 & H3). apply Hone in H3 as (m4 & H4).
  destruct (legacySLBW_value ls (ln_AJ x) g m2 m4 Hg H4) as (Hn & _). apply Hn.
  apply filter_In. split; [exact Hx | apply Z.eqb_refl].
Qed.

Lemma mlbw_slbw g m1 m2 : legacyMLBW hbar epsilon0 cwf g E m1 = Ok (Some m2) ->
  exists m3, legacySLBW hbar epsilon0 cwf g E m1 = Ok (Some m3).
Proof.
  unfold legacyMLBW. intros H. apply bind_Ok in H as ([m3|] & H3 & H); [exists m3; exact H3|].
  apply bind_Ok in H as (? & _ & H). discriminate.
Qed.

Lemma legacyJs_allowed ls pr : forall js av gs rem,
  legacyJs hbar epsilon0 cwf ls pr rad js av = Ok (gs, rem) ->
  (forall q, In q rem -> In q av) /\
  forall j, In j js -> exists q, In q av /\ ql q = ls_L ls /\ qJ q = Z.abs j.
Proof.
  intros js; induction js as [|j js IH]; intros av gs rem H; cbn [legacyJs] in H.
  - injection H as _ <-. split; [auto | intros j []].
  - apply bind_Ok in H as ([og rem1] & Eg & H). apply bind_Ok in H as ([ogs rem2] & Egs & H).
    injection H as _ <-. destruct (IH _ _ _ Egs) as [H1 H2].
    unfold legacyJ in Eg. apply bind_Ok in Eg as ([q rem3] & Eq & Eg).
    apply bind_Ok in Eg as (ors & Ers & Eg). injection Eg as _ ->.
    pose proof (retrieve_perm _ _ _ _ _ Eq) as HP. apply retrieve_ok in Eq as (Hl & HJ & _).
    assert (Hsub : forall q', In q' rem1 -> In q' av).
    { intros q' Hq. eapply Permutation_in; [apply Permutation_sym; exact HP | right; exact Hq]. }
    split; [intros q' Hq; apply Hsub, H1; exact Hq|].
    intros j' [<-|Hj]; [|destruct (H2 j' Hj) as (q' & Hq & Hq'); exists q'; split; [apply Hsub; exact Hq | exact Hq']].
    exists q. split; [eapply Permutation_in; [apply Permutation_sym; exact HP | left; reflexivity] | auto].
Qed.

Lemma legacyAll_allowed l0 : (forall ls, In ls l0 -> ls_AWRI ls = A) -> forall av gs,
  legacyAllGroups hbar epsilon0 cwf mn incident target I f_ap nro naps l0 av = Ok gs ->
  forall ls x, In ls l0 -> In x (ls_lines ls) -> exists q, In q av /\ ql q = ls_L ls /\ qJ q = abs_J x.
Proof.
  induction l0 as [|l1 l0 IH]; intros HA0 av gs H ls x Hin Hx; [destruct Hin|]. cbn [legacyAllGroups] in H.
  apply bind_Ok in H as ([ogs rem] & Eg & H). apply bind_Ok in H as (ohs & Eh & H).
  unfold legacyGroups in Eg. rewrite (HA0 l1 (or_introl eq_refl)) in Eg.
  apply bind_Ok in Eg as (pr & Epr & Eg). rewrite Hradii in Eg. cbn [bind] in Eg.
  destruct (legacyJs_allowed _ _ _ _ _ _ Eg) as [H1 H2].
  destruct Hin as [<-|Hin].
  - apply (H2 (ln_AJ x)). apply sort_unique_in, in_map. exact Hx.
  - destruct (IH (fun y Hy => HA0 y (or_intror Hy)) _ _ Eh ls x Hin Hx) as (q & Hq & Hq').
    exists q. split; [apply H1; exact Hq | exact Hq'].
Qed.

Lemma legacy_allowed s : makeLegacyBreitWigner hbar epsilon0 cwf mn incident target f nro naps = Ok s ->
  forall ls x, In ls lss -> In x (ls_lines ls) ->
  exists sp, triangle 1 I sp /\ triangle (2 * Z.of_nat (ls_L ls)) sp (abs_J x).
Proof.
  unfold makeLegacyBreitWigner, f; cbn [f_lstates f_SPI f_AP]. intros H ls x Hin Hx.
  assert (H' : exists av ogs, makeQuantumNumbers 1 I (length lss) = Ok av /\
    legacyAllGroups hbar epsilon0 cwf mn incident target I f_ap nro naps lss av = Ok ogs).
  { destruct lss as [|first rest]; [discriminate|].
    apply bind_Ok in H as (pr & _ & H). apply bind_Ok in H as (av & Eav & H).
    apply bind_Ok in H as (ogs & Egs & H). eauto. }
  destruct H' as (av & ogs & Eav & Egs).
  destruct (legacyAll_allowed lss HAll av ogs Egs ls x Hin Hx) as (q & Hq & Hl & HJ).
  destruct (makeQuantumNumbers_spec 1 I (length lss)) as (qs & Eqs & _ & Hqs); [unfold is_spin; lia | exact HI |].
  rewrite Eav in Eqs. injection Eqs as <-. apply Hqs in Hq. destruct Hq as (_ & H1 & H2 & _).
  exists (QuantumModel.qs q). rewrite <- Hl, <- HJ. auto.
Qed.
End System.
