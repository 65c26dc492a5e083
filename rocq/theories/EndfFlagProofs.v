(** The flags of a resonance range: radii and the choice of the formalism. *)
From Coq Require Import String List ZArith Reals Bool Lra Lia.
From Verif Require Import Outcome QuantumModel HardSphereModel KinematicsModel CoulombModel RMatrixModel ChannelModel SpinGroupModel
  BreitWignerModel ReichMooreModel LegacyModel UnresolvedModel GridModel ListFacts AssemblyModel AssemblySpec AssemblyTheorems EndfModel EndfSpec EndfProofs.
Import ListNotations.
Open Scope R_scope.

Lemma derived_ok m : 0 < m -> derived_radius m (0.123 * Rpower m (1 / 3) + 0.08).
Proof.
  intros Hm. exists (Rpower m (1 / 3)). split; [|reflexivity]. rewrite <- !Rpower_plus.
  replace (1 / 3 + 1 / 3 + 1 / 3) with 1 by field. apply Rpower_1. exact Hm.
Qed.
Lemma cube_unique x y : x * x * x = y * y * y -> x = y.
Proof.
  intros H. destruct (Rtotal_order x y) as [L|[E|L]]; [exfalso|exact E|exfalso].
  - assert (Q : (y - x) * (y * y + y * x + x * x) = 0) by (ring_simplify; lra).
    apply Rmult_integral in Q as [Q|Q]; [lra|]. assert (0 <= (y + x / 2) * (y + x / 2) /\ 0 <= x * x) as [A B] by (split; apply Rle_0_sqr).
    assert (x * x = 0 /\ (y + x / 2) * (y + x / 2) = 0) as [X Y] by (split; lra).
    apply Rmult_integral in X. apply Rmult_integral in Y. lra.
  - assert (Q : (x - y) * (y * y + y * x + x * x) = 0) by (ring_simplify; lra).
    apply Rmult_integral in Q as [Q|Q]; [lra|]. assert (0 <= (y + x / 2) * (y + x / 2) /\ 0 <= x * x) as [A B] by (split; apply Rle_0_sqr).
    assert (x * x = 0 /\ (y + x / 2) * (y + x / 2) = 0) as [X Y] by (split; lra).
    apply Rmult_integral in X. apply Rmult_integral in Y. lra.
Qed.
Lemma derived_unique m a b : derived_radius m a -> derived_radius m b -> a = b.
Proof. intros (r & H & ->) (s & H' & ->). rewrite (cube_unique r s); [reflexivity | congruence]. Qed.
Lemma prescribed_unique ap m nro naps rad rad' : prescribed ap m nro naps rad -> prescribed ap m nro naps rad' -> rad = rad'.
Proof.
  destruct rad as [p s f], rad' as [p' s' f'].
  destruct nro as [t|], naps as [|[|[|n]]]; cbn; try contradiction.
  - intros [(a & A & -> & ->) ->] [(b & B & -> & ->) ->]. rewrite (derived_unique m a b A B). reflexivity.
  - intros (-> & -> & ->) (-> & -> & ->). reflexivity.
  - intros (-> & -> & ->) (-> & -> & ->). reflexivity.
  - intros [(a & A & -> & ->) ->] [(b & B & -> & ->) ->]. rewrite (derived_unique m a b A B). reflexivity.
  - intros (-> & -> & ->) (-> & -> & ->). reflexivity.
Qed.

Theorem radii_prescribed ap nro naps awri mn : 0 < awri * mn -> legal (match nro with Some _ => true | None => false end) (Z.of_nat naps) ->
  exists rad, makeChannelRadii ap nro naps awri mn = Ok rad /\ prescribed ap (awri * mn) nro naps rad.
Proof.
  intros Hm L. unfold makeChannelRadii. destruct nro as [t|], naps as [|[|[|n]]]; unfold legal in L; try lia; eexists; (split; [reflexivity|]); cbn.
  - split; [|reflexivity]. eexists. split; [apply derived_ok, Hm | split; reflexivity].
  - auto.
  - auto.
  - split; [|reflexivity]. eexists. split; [apply derived_ok, Hm | split; reflexivity].
  - auto.
Qed.
Theorem radii_throws ap t naps awri mn : (2 < naps)%nat ->
  makeChannelRadii ap (Some t) naps awri mn = Throw (RuntimeError "You somehow reached unreachable code").
Proof. intros H. destruct naps as [|[|[|n]]]; try lia. reflexivity. Qed.
Theorem radii_unprescribed ap naps awri mn : (1 < naps)%nat ->
  exists rad, makeChannelRadii ap None naps awri mn = Ok rad /\ r_P rad = Fixed ap /\ r_S rad = Fixed ap /\ r_phi rad = Fixed ap.
Proof. intros H. destruct naps as [|n]; [lia|]. eexists. split; [reflexivity|]. auto. Qed.

(** * The older interface *)
Definition bw_wrap {A} (o : outcome A) : outcome A :=
  match o with
  | Throw BadOptional => Throw BadOptional
  | Throw _ => Throw (RuntimeError "The resonance range does not appear to contain parameters")
  | o => o
  end.
Definition rm_wrap {A} (o : outcome A) : outcome A :=
  match o with
  | Throw _ => Throw (RuntimeError "The resonance range does not appear to contain Reich-Moore parameters")
  | o => o
  end.
Theorem older_breit_wigner C sort ordered f NRO NAPS t first rest rad :
  f_lstates f = first :: rest -> legal NRO NAPS -> 0 < ls_AWRI first ->
  prescribed (f_AP f) (ls_AWRI first * 1.00866491582) (if NRO then Some t else None) (Z.to_nat NAPS) rad ->
  bw_apply C sort ordered f NRO NAPS (Some t) = bw_wrap (bw_build C sort ordered f (radius_at (r_P rad)) (radius_at (r_phi rad))).
Proof.
  intros Hf L Ha P. assert (Hm : 0 < ls_AWRI first * 1.00866491582) by lra.
  assert (L' : legal (match (if NRO then Some t else None) with Some _ => true | None => false end) (Z.of_nat (Z.to_nat NAPS))).
  { rewrite Z2Nat.id; [destruct NRO; exact L|]. destruct NRO; unfold legal in L; lia. }
  destruct (radii_prescribed (f_AP f) (if NRO then Some t else None) (Z.to_nat NAPS) (ls_AWRI first) 1.00866491582 Hm L') as (rad' & Hr & P').
  assert (rad' = rad) as -> by exact (prescribed_unique _ _ _ _ _ _ P' P). clear P P'.
  unfold bw_apply. rewrite Hf. unfold legal in L. unfold makeChannelRadii in Hr.
  assert (Hd : 0.123 * Rpower (ls_AWRI first * 1.00866491582) (1 / 3) + 0.08 = channelRadius (ls_AWRI first)).
  { unfold channelRadius. rewrite (Rmult_comm (ls_AWRI first)). reflexivity. }
  rewrite Hd in Hr. destruct NRO; destruct L as [->|L]; try (destruct L as [->| ->]); try subst NAPS;
    cbn in Hr; injection Hr as <-; reflexivity.
Qed.
Theorem older_no_return_bw C sort ordered f NRO NAPS table : ~ legal NRO NAPS -> bw_apply C sort ordered f NRO NAPS table = UB "no return".
Proof.
  intros L. unfold bw_apply, legal in *. destruct NRO; destruct (Z.eqb_spec NAPS 0); try lia; destruct (Z.eqb_spec NAPS 1); try lia; try reflexivity.
  destruct (Z.eqb_spec NAPS 2); try lia. reflexivity.
Qed.
Theorem older_no_return_rm C sort f NRO NAPS table : ~ legal NRO NAPS -> rm_apply C sort f NRO NAPS table = UB "no return".
Proof.
  intros L. unfold rm_apply, legal in *. destruct NRO; destruct (Z.eqb_spec NAPS 0); try lia; destruct (Z.eqb_spec NAPS 1); try lia; try reflexivity.
  destruct (Z.eqb_spec NAPS 2); try lia. reflexivity.
Qed.

Lemma defined_bind {A B} (o : outcome A) (k : A -> outcome B) : defined o -> (forall x, o = Ok x -> defined (k x)) -> defined (bind o k).
Proof. intros [[x ->]|[e ->]] H; cbn; [apply H; reflexivity | right; exists e; reflexivity]. Qed.
Lemma defined_Ok {A} (x : A) : defined (Ok x). Proof. left. exists x. reflexivity. Qed.
Lemma defined_mapM {A B} (f : A -> outcome B) l : (forall x, In x l -> defined (f x)) -> defined (mapM f l).
Proof.
  induction l as [|x l IH]; intros H; cbn [mapM]; [apply defined_Ok|]. apply defined_bind; [apply H; left; reflexivity|]. intros y _.
  apply defined_bind; [apply IH; intros z Hz; apply H; right; exact Hz | intros ys _; apply defined_Ok].
Qed.
Lemma defined_omap {A B} (f : A -> B) o : defined o -> defined (omap f o).
Proof. intros [[x ->]|[e ->]]; [left | right]; eexists; reflexivity. Qed.
Lemma defined_ps l x : defined (penetrationShift (Z.of_nat l) x).
Proof.
  unfold penetrationShift. repeat match goal with |- defined (match ?c with _ => _ end) => destruct c end; try apply defined_Ok; right; eexists; reflexivity.
Qed.
Lemma defined_wrap_bw {A} (o : outcome A) : defined o -> defined (bw_wrap o).
Proof. intros [[x ->]|[e ->]]; [apply defined_Ok|]. right. destruct e; eexists; reflexivity. Qed.
Lemma defined_wrap_rm {A} (o : outcome A) : defined o -> defined (rm_wrap o).
Proof. intros [[x ->]|[e ->]]; [apply defined_Ok|]. right. eexists; reflexivity. Qed.
Lemma defined_bw C sort ordered f ch sc : f_lstates f <> [] -> (forall e, defined (ch e)) -> defined (bw_build C sort ordered f ch sc).
Proof.
  intros Hf Hc. unfold bw_build. destruct (f_lstates f) as [|first rest] eqn:Ef; [contradiction|].
  apply defined_bind; [|intros lvs _; apply defined_Ok]. apply defined_mapM. intros ls _. unfold bw_build_lvalue.
  destruct (4 <? ls_L ls)%nat; [right; eexists; reflexivity|]. apply defined_bind; [|intros rs _; apply defined_Ok].
  apply defined_mapM. intros r _. unfold bw_build_resonance. apply defined_bind.
  - destruct (if ls_LRX ls then _ else None); [|apply defined_Ok]. apply defined_bind; [apply defined_omap, Hc|]. intros x _.
    apply defined_bind; [apply defined_ps | intros y _; apply defined_Ok].
  - intros x _. apply defined_bind; [apply defined_omap, Hc|]. intros y _. apply defined_bind; [apply defined_ps | intros z _; apply defined_Ok].
Qed.
Lemma defined_rm C sort f tag ch sc b : rf_lstates f <> [] -> (forall e, defined (ch e)) -> defined (rm_build C sort f tag ch sc b).
Proof.
  intros Hf Hc. unfold rm_build. destruct (rf_lstates f) as [|first rest] eqn:Ef; [contradiction|].
  apply defined_bind; [|intros lvs _; apply defined_Ok]. apply defined_mapM. intros ls _. unfold rm_build_lvalue.
  destruct (4 <? rs_L ls)%nat; [right; eexists; reflexivity|]. apply defined_bind; [|intros rs _; apply defined_Ok].
  apply defined_mapM. intros r _. unfold rm_build_resonance. apply defined_bind; [|intros x _; apply defined_bind; [apply defined_ps | intros z _; apply defined_Ok]].
  match goal with |- defined (if ?c then _ else _) => destruct c end; [apply defined_Ok | apply defined_omap, Hc].
Qed.
(** For the legal flags nothing is undefined *)
Theorem older_defined_bw C sort ordered f NRO NAPS table : f_lstates f <> [] -> legal NRO NAPS ->
  (forall t e, table = Some t -> defined (t e)) -> defined (bw_apply C sort ordered f NRO NAPS table).
Proof.
  intros Hf L Ht. unfold bw_apply. match goal with |- defined (match ?o with _ => _ end) => change (defined (bw_wrap o)) end.
  apply defined_wrap_bw. destruct (f_lstates f) as [|first rest] eqn:Ef; [contradiction|]. rewrite <- Ef in Hf.
  assert (F : forall a sc, defined (bw_build C sort ordered f (fun _ => Ok a) sc)) by (intros; apply defined_bw; [exact Hf | intros; apply defined_Ok]).
  unfold legal in L. destruct NRO; destruct L as [->|L]; try (destruct L as [->| ->]); try subst NAPS; cbn [Z.eqb Pos.eqb bind]; try apply F;
    (destruct table as [t|]; [cbn [bind] | right; eexists; reflexivity]); try apply F.
  apply defined_bw; [exact Hf | intros e; exact (Ht t e eq_refl)].
Qed.
Theorem older_defined_rm C sort f NRO NAPS table : rf_lstates f <> [] -> legal NRO NAPS ->
  (forall t e, table = Some t -> defined (t e)) -> defined (rm_apply C sort f NRO NAPS table).
Proof.
  intros Hf L Ht. unfold rm_apply. match goal with |- defined (match ?o with _ => _ end) => change (defined (rm_wrap o)) end.
  apply defined_wrap_rm. destruct (rf_lstates f) as [|first rest] eqn:Ef; [contradiction|]. rewrite <- Ef in Hf.
  assert (F : forall a tag sc b, defined (rm_build C sort f tag (fun _ => Ok a) sc b)) by (intros; apply defined_rm; [exact Hf | intros; apply defined_Ok]).
  unfold legal in L. destruct NRO; destruct L as [->|L]; try (destruct L as [->| ->]); try subst NAPS; cbn [Z.eqb Pos.eqb bind]; try apply F;
    (destruct table as [t|]; [cbn [bind] | right; eexists; reflexivity]); try apply F.
  apply defined_rm; [exact Hf | intros e; exact (Ht t e eq_refl)].
Qed.

(** The radii of the older Reich-Moore object for one l value *)
Lemma omap_Ok {A B} (f : A -> B) x : omap f (Ok x) = Ok (f x). Proof. reflexivity. Qed.
Theorem older_reich_moore C sort f NRO NAPS t s first rest : rf_lstates f = first :: rest -> 0 < rs_AWRI first ->
  rm_apply C sort f NRO NAPS (Some t) = Ok s ->
  exists lvs, rt_lvalues s = rm_order sort lvs /\
    Forall2 (fun ls lv => forall rad, prescribed (if Req_EM_T (rs_APL ls) 0 then rf_AP f else rs_APL ls) (rs_AWRI first * 1.00866491582)
                                                 (if NRO then Some t else None) (Z.to_nat NAPS) rad ->
       rm_build_lvalue (rf_SPI f) (neutronWaveNumber C (rs_AWRI first)) (radius_at (r_P rad)) false ls = Ok lv /\
       forall E k c p a a', rt_channel s E = Ok c -> rt_scattering s E = Ok p -> radius_at (r_P rad) E = Ok a -> radius_at (r_phi rad) E = Ok a' ->
         inspect (rt_tag s) k (k * c) (k * p) (rv_ap lv) = (k * a, k * a'))
      (rf_lstates f) lvs.
Proof.
  intros Hf HA H.
  destruct (Classical_Prop.classic (legal NRO NAPS)) as [L|L]; [|rewrite older_no_return_rm in H by exact L; discriminate].
  assert (Hd : forall rad ap, prescribed ap (rs_AWRI first * 1.00866491582) (if NRO then Some t else None) (Z.to_nat NAPS) rad ->
    makeChannelRadii ap (if NRO then Some t else None) (Z.to_nat NAPS) (rs_AWRI first) 1.00866491582 = Ok rad).
  { intros rad ap P. destruct (radii_prescribed ap (if NRO then Some t else None) (Z.to_nat NAPS) (rs_AWRI first) 1.00866491582) as (rad' & Hr & P').
    - lra.
    - rewrite Z2Nat.id; [destruct NRO; exact L|]. destruct NRO; unfold legal in L; lia.
    - rewrite (prescribed_unique _ _ _ _ _ _ P P'). exact Hr. }
  assert (Hc : 0.123 * Rpower (rs_AWRI first * 1.00866491582) (1 / 3) + 0.08 = channelRadius (rs_AWRI first)).
  { unfold channelRadius. rewrite (Rmult_comm (rs_AWRI first)). reflexivity. }
  unfold makeChannelRadii in Hd. rewrite Hc in Hd. clear Hc.
  assert (U : forall tag ch sc b, rm_build C sort f tag ch sc b = Ok s ->
     rt_tag s = tag /\ rt_channel s = ch /\ rt_scattering s = sc /\ exists lvs, rt_lvalues s = rm_order sort lvs /\
       Forall2 (fun ls lv => rm_build_lvalue (rf_SPI f) (neutronWaveNumber C (rs_AWRI first)) ch b ls = Ok lv) (rf_lstates f) lvs).
  { intros tag ch sc b Q. unfold rm_build in Q. rewrite Hf in Q. apply bind_Ok in Q as (lvs & E & Q). injection Q as <-. cbn.
    split; [reflexivity|]. split; [reflexivity|]. split; [reflexivity|]. exists lvs. split; [reflexivity|]. apply mapM_Ok in E. rewrite Hf. exact E. }
  assert (G : forall ch b ls lv, rm_build_lvalue (rf_SPI f) (neutronWaveNumber C (rs_AWRI first)) ch b ls = Ok lv ->
     rv_ap lv = (if Req_EM_T (rs_APL ls) 0 then None else Some (rs_APL ls)) /\
     (forall ch', (b = false -> ch' = ch) -> (b = true -> ch' = (if Req_EM_T (rs_APL ls) 0 then ch else fun _ => Ok (rs_APL ls))) ->
        rm_build_lvalue (rf_SPI f) (neutronWaveNumber C (rs_AWRI first)) ch' false ls = Ok lv)).
  { intros ch b ls lv Q. split.
    - unfold rm_build_lvalue in Q. destruct (4 <? rs_L ls)%nat; [discriminate|]. apply bind_Ok in Q as (rs & _ & Q). injection Q as <-. cbn. destruct (Req_EM_T (rs_APL ls) 0); reflexivity.
    - intros ch' E1 E2. rewrite <- Q. unfold rm_build_lvalue. destruct b; [rewrite (E2 eq_refl) | rewrite (E1 eq_refl)].
      + destruct (Req_EM_T (rs_APL ls) 0); cbn [andb]; [reflexivity|]. cbn [omap bind]. reflexivity.
      + destruct (Req_EM_T (rs_APL ls) 0); reflexivity. }
  unfold rm_apply in H. rewrite Hf in H.
  match type of H with match ?o with _ => _ end = _ => assert (Hr : o = Ok s) by (destruct o; try discriminate; exact H) end. clear H.
  assert (K : forall tag ch sc b, rm_build C sort f tag ch sc b = Ok s ->
    (forall ls rad, prescribed (if Req_EM_T (rs_APL ls) 0 then rf_AP f else rs_APL ls) (rs_AWRI first * 1.00866491582)
                                                 (if NRO then Some t else None) (Z.to_nat NAPS) rad ->
       (b = false -> radius_at (r_P rad) = ch) /\ (b = true -> radius_at (r_P rad) = (if Req_EM_T (rs_APL ls) 0 then ch else fun _ => Ok (rs_APL ls))) /\
       forall E k c p a a', ch E = Ok c -> sc E = Ok p -> radius_at (r_P rad) E = Ok a -> radius_at (r_phi rad) E = Ok a' ->
         inspect tag k (k * c) (k * p) (if Req_EM_T (rs_APL ls) 0 then None else Some (rs_APL ls)) = (k * a, k * a')) ->
    exists lvs, rt_lvalues s = rm_order sort lvs /\
    Forall2 (fun ls lv => forall rad, prescribed (if Req_EM_T (rs_APL ls) 0 then rf_AP f else rs_APL ls) (rs_AWRI first * 1.00866491582)
                                                 (if NRO then Some t else None) (Z.to_nat NAPS) rad ->
       rm_build_lvalue (rf_SPI f) (neutronWaveNumber C (rs_AWRI first)) (radius_at (r_P rad)) false ls = Ok lv /\
       forall E k c p a a', rt_channel s E = Ok c -> rt_scattering s E = Ok p -> radius_at (r_P rad) E = Ok a -> radius_at (r_phi rad) E = Ok a' ->
         inspect (rt_tag s) k (k * c) (k * p) (rv_ap lv) = (k * a, k * a'))
      (rf_lstates f) lvs).
  { intros tag ch sc b Q P. destruct (U tag ch sc b Q) as (-> & -> & -> & lvs & E & F). exists lvs. split; [exact E|].
    clear -F P G. induction F as [|ls lv l m F0 _ IH]; constructor; [|exact IH]. intros rad Pr. destruct (P ls rad Pr) as (P1 & P2 & P3).
    destruct (G ch b ls lv F0) as [G1 G2]. split; [apply G2; assumption|]. rewrite G1. exact P3. }
  unfold legal in L. destruct NRO; destruct L as [->|L]; try (destruct L as [->| ->]); try subst NAPS; cbn [Z.eqb Pos.eqb bind] in Hr; cbn [Z.to_nat Pos.to_nat Pos.iter_op Nat.add] in *;
    apply (K _ _ _ _ Hr); intros ls rad Pr; apply Hd in Pr; injection Pr as <-; cbn [radii1 radii2 r_P r_phi radius_at].
  - split; [reflexivity|]. split; [discriminate|]. intros E k c p a a' Q1 Q2 Q3 Q4. cbn [inspect]. congruence.
  - split; [reflexivity|]. split; [discriminate|]. intros E k c p a a' Q1 Q2 Q3 Q4. cbn [inspect]. congruence.
  - split; [discriminate|]. split; [intros _; destruct (Req_EM_T (rs_APL ls) 0); reflexivity|]. intros E k c p a a' Q1 Q2 Q3 Q4.
    destruct (Req_EM_T (rs_APL ls) 0); cbn [inspect]; congruence.
  - split; [reflexivity|]. split; [discriminate|]. intros E k c p a a' Q1 Q2 Q3 Q4. destruct (Req_EM_T (rs_APL ls) 0); cbn [inspect]; congruence.
  - split; [discriminate|]. split; [intros _; destruct (Req_EM_T (rs_APL ls) 0); reflexivity|]. intros E k c p a a' Q1 Q2 Q3 Q4.
    destruct (Req_EM_T (rs_APL ls) 0); cbn [inspect]; congruence.
Qed.

(** * The choice of the formalism *)
Section Dispatch.
Variables (hbar epsilon0 : R) (cwf : nat -> R -> R -> outcome coulomb) (neutronMass elementaryCharge : R) (incident target : string)
  (products : Z -> outcome (string * string)) (multiRegion : endf_radius -> outcome (R -> outcome R)) (initial : forall g, cache (gsize g)).
Let from := fromENDF hbar epsilon0 cwf neutronMass elementaryCharge incident target products multiRegion initial.
(** What kind of system is made of what *)
Definition matching (r : endf_range) (nro : option (R -> outcome R)) (system : compound_system) : Prop :=
  match system with
  | SLBW s => er_LRU r = 1%Z /\ er_LRF r = 1%Z /\ exists f, er_parameters r = ParametersSLBW f /\
      makeLegacyBreitWigner hbar epsilon0 cwf neutronMass incident target f nro (er_NAPS r) = Ok (Some s)
  | MLBW s => er_LRU r = 1%Z /\ er_LRF r = 2%Z /\ exists f, er_parameters r = ParametersMLBW f /\
      makeLegacyBreitWigner hbar epsilon0 cwf neutronMass incident target f nro (er_NAPS r) = Ok (Some s)
  | ReichMooreShift objects => er_LRU r = 1%Z /\ exists gs, objects = fresh initial gs /\
      ((er_LRF r = 3%Z /\ exists f n, er_parameters r = ParametersReichMoore f n /\
          makeReichMooreCompoundSystem hbar epsilon0 cwf neutronMass incident target f n nro (er_NAPS r) = Ok (Some gs)) \/
       (er_LRF r = 7%Z /\ exists f p ps, er_parameters r = ParametersLimited f /\ el_KRM f = 3%Z /\ el_pairs f = p :: ps /\ ep_SHF p = 0%Z /\
          makeCompoundSystem hbar epsilon0 cwf neutronMass elementaryCharge incident target products f = Ok (Some gs)))
  | ReichMooreConstant objects => er_LRU r = 1%Z /\ exists gs, objects = fresh initial gs /\
       er_LRF r = 7%Z /\ exists f p ps, er_parameters r = ParametersLimited f /\ el_KRM f = 3%Z /\ el_pairs f = p :: ps /\ ep_SHF p <> 0%Z /\
          makeCompoundSystem hbar epsilon0 cwf neutronMass elementaryCharge incident target products f = Ok (Some gs)
  | Unresolved s => er_LRU r = 2%Z /\
      ((exists spin ap u, er_parameters r = ParametersIndependent spin ap u /\
          makeLegacyUnresolvedSystem neutronMass incident target spin ap nro (er_NAPS r) None (er_lower r) (er_upper r) u = Ok s) \/
       (exists spin ap e u, er_parameters r = ParametersFission spin ap e u /\
          makeLegacyUnresolvedSystem neutronMass incident target spin ap nro (er_NAPS r) (Some e) (er_lower r) (er_upper r) u = Ok s) \/
       (exists spin ap u, er_parameters r = ParametersDependent spin ap u /\
          makeLegacyUnresolvedSystem neutronMass incident target spin ap nro (er_NAPS r) None (er_lower r) (er_upper r) u = Ok s))
  end.
Lemma reconstructorOf_some {A} r (f : A -> compound_system) o rc : reconstructorOf r f o = Ok (Some rc) <->
  exists s, o = Ok (Some s) /\ rc = mkReconstructor (er_lower r) (er_upper r) (f s).
Proof.
  unfold reconstructorOf. split.
  - destruct o as [[s|]| | |]; cbn; intros H; try discriminate. injection H as <-. exists s. auto.
  - intros (s & -> & ->). reflexivity.
Qed.
Theorem dispatch r rc : from r = Ok (Some rc) <->
  exists nro, makeChannelRadiusTable multiRegion (er_radius r) = Ok nro /\ rc_lower rc = er_lower r /\ rc_upper rc = er_upper r /\
    matching r nro (rc_system rc).
Proof.
  unfold from, fromENDF. split.
  - intros H. apply bind_Ok in H as (nro & En & H). exists nro. split; [exact En|].
    destruct (Z.eqb_spec (er_LRU r) 1) as [U|U].
    + destruct (Z.eqb_spec (er_LRF r) 1) as [F|F1].
      { destruct (er_parameters r) eqn:P; try discriminate. apply reconstructorOf_some in H as (s & Hs & ->). cbn. split; [reflexivity|]. split; [reflexivity|]. split; [exact U|]. split; [exact F|]. eauto. }
      destruct (Z.eqb_spec (er_LRF r) 2) as [F|F2].
      { destruct (er_parameters r) eqn:P; try discriminate. apply reconstructorOf_some in H as (s & Hs & ->). cbn. split; [reflexivity|]. split; [reflexivity|]. split; [exact U|]. split; [exact F|]. eauto. }
      destruct (Z.eqb_spec (er_LRF r) 3) as [F|F3].
      { destruct (er_parameters r) eqn:P; try discriminate. apply reconstructorOf_some in H as (s & Hs & ->). cbn. split; [reflexivity|]. split; [reflexivity|]. split; [exact U|]. exists s. split; [reflexivity|]. left. split; [exact F|]. eauto. }
      destruct (Z.eqb_spec (er_LRF r) 7) as [F|F7]; [|discriminate].
      destruct (er_parameters r) as [| | | |f| | |] eqn:P; try discriminate. apply bind_Ok in H as (flag & Ef & H).
      destruct (el_pairs f) as [|p ps] eqn:Ep; [discriminate|]. cbn in Ef. injection Ef as <-.
      destruct (Z.eqb_spec (el_KRM f) 3) as [K|K]; [|destruct (Z.eqb_spec (el_KRM f) 4); discriminate].
      destruct (Z.eqb_spec (ep_SHF p) 0) as [S|S]; apply reconstructorOf_some in H as (s & Hs & ->); cbn; (split; [reflexivity|]); (split; [reflexivity|]); (split; [exact U|]); exists s; (split; [reflexivity|]).
      * right. split; [exact F|]. exists f, p, ps. auto.
      * split; [exact F|]. exists f, p, ps. auto.
    + destruct (Z.eqb_spec (er_LRU r) 2) as [U2|U2]; [|discriminate].
      destruct (er_parameters r) eqn:P; try discriminate; apply reconstructorOf_some in H as (s & Hs & ->); cbn; (split; [reflexivity|]); (split; [reflexivity|]); (split; [exact U2|]);
        match type of Hs with omap _ ?o = _ => destruct o as [x| | |] eqn:Hm; try discriminate end; injection Hs as ->; eauto 10.
  - intros (nro & En & El & Eu & M). rewrite En. cbn [bind].
    assert (Erc : rc = mkReconstructor (er_lower r) (er_upper r) (rc_system rc)) by (rewrite <- El, <- Eu; destruct rc; reflexivity).
    destruct (rc_system rc) as [s|s|objects|objects|s]; cbn in M.
    + destruct M as (U & F & f & P & H). rewrite U, F, P. cbn. apply reconstructorOf_some. eauto.
    + destruct M as (U & F & f & P & H). rewrite U, F, P. cbn. apply reconstructorOf_some. eauto.
    + destruct M as (U & gs & -> & [(F & f & n & P & H)|(F & f & p & ps & P & K & Ep & S & H)]); rewrite U, F, P; cbn [Z.eqb Pos.eqb].
      * apply reconstructorOf_some. eauto.
      * rewrite Ep, K. cbn [map at_or_ub nth_error bind Z.eqb Pos.eqb]. rewrite S. apply reconstructorOf_some. eauto.
    + destruct M as (U & gs & -> & F & f & p & ps & P & K & Ep & S & H); rewrite U, F, P; cbn [Z.eqb Pos.eqb].
      rewrite Ep, K. cbn [map at_or_ub nth_error bind Z.eqb Pos.eqb]. rewrite (proj2 (Z.eqb_neq _ _) S). apply reconstructorOf_some. eauto.
    + destruct M as (U & [(spin & ap & u & P & H)|[(spin & ap & e & u & P & H)|(spin & ap & u & P & H)]]); rewrite U, P; cbn [Z.eqb Pos.eqb];
        apply reconstructorOf_some; exists s; (split; [rewrite H; reflexivity | exact Erc]).
Qed.
Theorem dispatch_resolved r rc : from r = Ok (Some rc) -> (isResolved rc = true <-> er_LRU r = 1%Z) /\ (isResolved rc = false <-> er_LRU r = 2%Z).
Proof.
  intros H. apply dispatch in H as (nro & _ & _ & _ & M). unfold isResolved. destruct (rc_system rc); cbn in *; destruct M as (U & _); rewrite U; split; split; intros Q; try reflexivity; discriminate.
Qed.
Theorem dispatch_rest r : defined (makeChannelRadiusTable multiRegion (er_radius r)) -> ~ accepted r ->
  (forall f, er_parameters r = ParametersLimited f -> el_pairs f <> []) -> exists e, from r = Throw e.
Proof.
  intros D N L. unfold from, fromENDF, accepted in *. destruct D as [[nro E]|[e E]]; rewrite E; cbn [bind]; [|eauto].
  destruct (Z.eqb_spec (er_LRU r) 1) as [U|U].
  - destruct (Z.eqb_spec (er_LRF r) 1) as [F|F1]; [destruct (er_parameters r) eqn:P; eauto; exfalso; apply N; left; eauto|].
    destruct (Z.eqb_spec (er_LRF r) 2) as [F|F2]; [destruct (er_parameters r) eqn:P; eauto; exfalso; apply N; right; left; eauto|].
    destruct (Z.eqb_spec (er_LRF r) 3) as [F|F3]; [destruct (er_parameters r) eqn:P; eauto; exfalso; apply N; right; right; left; eauto|].
    destruct (Z.eqb_spec (er_LRF r) 7) as [F|F7]; [|eauto]. destruct (er_parameters r) as [| | | |f| | |] eqn:P; eauto.
    destruct (el_pairs f) as [|p ps] eqn:Ep; [exfalso; exact (L f eq_refl Ep)|]. cbn [map at_or_ub nth_error bind].
    destruct (Z.eqb_spec (el_KRM f) 3) as [K|K]; [exfalso; apply N; right; right; right; left; eauto 10|]. destruct (Z.eqb_spec (el_KRM f) 4); eauto.
  - destruct (Z.eqb_spec (er_LRU r) 2) as [U2|U2]; [|eauto]. destruct (er_parameters r) eqn:P; eauto; exfalso; apply N; right; right; right; right; split; eauto 10.
Qed.
End Dispatch.
