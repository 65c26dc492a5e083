(** From one resonance to the cross sections of the older Breit-Wigner interface. *)
From Coq Require Import String List ZArith Reals Lra Lia Bool.
From Coquelicot Require Import Coquelicot.
From Verif Require Import Outcome QuantumModel SpinFactorModel HardSphereModel KinematicsModel RMatrixModel ChannelModel BreitWignerModel JumpSpec JumpProofs.
Import ListNotations.
Open Scope R_scope.

(** Finite and continuous at an energy *)
Definition smooth1 (f : R -> option R) (E : R) : Prop := exists g, continuity_pt g E /\ locally E (fun e => f e = Some (g e)).
Definition smooth3 (f : R -> option triple) (E : R) : Prop :=
  exists a b c, continuity_pt a E /\ continuity_pt b E /\ continuity_pt c E /\ locally E (fun e => f e = Some (a e, b e, c e)).
Definition smooth4 (f : R -> option (R * R * R * R)) (E : R) : Prop :=
  exists a b c d, continuity_pt a E /\ continuity_pt b E /\ continuity_pt c E /\ continuity_pt d E /\ locally E (fun e => f e = Some (a e, b e, c e, d e)).
Definition smooth_outcome (f : R -> outcome (option triple)) (E : R) : Prop :=
  exists h, smooth3 h E /\ locally E (fun e => f e = Ok (h e)).

Lemma everywhere (P : R -> Prop) E : (forall e, P e) -> locally E P.
Proof. intros H. exists (mkposreal 1 Rlt_0_1). intros y _. apply H. Qed.
Lemma fdiv_some x y z : fdiv x y = Some z -> y <> 0.
Proof. unfold fdiv. destruct (Req_EM_T y 0); [discriminate | auto]. Qed.
Lemma fdiv_ok x y : y <> 0 -> fdiv x y = Some (x / y).
Proof. unfold fdiv. destruct (Req_EM_T y 0); [contradiction | auto]. Qed.

(** The part of a resonance that both formats share *)
Lemma common_smooth r P S c E : continuity_pt P E -> continuity_pt S E -> continuity_pt c E -> (exists v, bw_common r (P E) (S E) (c E) (psiChi E) = Some v) ->
  smooth4 (fun e => bw_common r (P e) (S e) (c e) (psiChi e)) E.
Proof.
  intros CP CS Cc [v V]. unfold bw_common in *. destruct (b_inverse r) as [i|]; [|discriminate].
  set (T := fun e => b_neutron r * i * P e + b_capture r + b_fission r + c e).
  assert (N : T E <> 0). { fold (T E) in V. destruct (fdiv 1 (T E)) eqn:D; [exact (fdiv_some _ _ _ D) | discriminate]. }
  assert (CT : continuity_pt T E) by (unfold T; auto 20 with cont).
  set (p := fun e => b_energy r + 0.5 * (b_neutron r * i) * (b_shift r - S e)). assert (Cp : continuity_pt p E) by (unfold p; auto 20 with cont).
  set (x := fun e => 2 * (e - p e) * (1 / T e)). assert (CI : continuity_pt (fun e => 1 / T e) E) by (apply c_div; auto with cont).
  assert (Cx : continuity_pt x E) by (unfold x; auto 20 with cont).
  set (psi := fun e => 1 / (1 + x e * x e)). assert (Cpsi : continuity_pt psi E) by (apply c_div; auto with cont; nra).
  exists psi, (fun e => x e * psi e), (fun e => b_neutron r * i * P e * (1 / T e)), (fun e => 1 / T e).
  split; [exact Cpsi|]. split; [auto with cont|]. split; [auto with cont|]. split; [exact CI|].
  apply (filter_imp (fun e => T e <> 0)); [|apply near_not_zero; assumption]. intros e Ne. fold (T e). rewrite (fdiv_ok _ _ Ne). reflexivity.
Qed.
Lemma slbw_call_smooth r P S A B c E : continuity_pt P E -> continuity_pt S E -> continuity_pt A E -> continuity_pt B E -> continuity_pt c E ->
  (exists v, slbw_call r (P E) (S E) (A E) (B E) (c E) (psiChi E) = Some v) -> smooth3 (fun e => slbw_call r (P e) (S e) (A e) (B e) (c e) (psiChi e)) E.
Proof.
  intros CP CS CA CB Cc [v V]. unfold slbw_call in *.
  destruct (common_smooth r P S c E CP CS Cc) as (psi & chi & w & i & C1 & C2 & C3 & C4 & L). { destruct (bw_common _ _ _ _ _) as [y|]; [exists y; reflexivity | discriminate]. }
  exists (fun e => ((w e - 2 * A e) * psi e + B e * chi e) * (b_g r * w e)), (fun e => psi e * i e * b_capture r * (b_g r * w e)), (fun e => psi e * i e * b_fission r * (b_g r * w e)).
  split; [auto 20 with cont|]. split; [auto 20 with cont|]. split; [auto 20 with cont|]. revert L. apply filter_imp. intros e ->. reflexivity.
Qed.
Lemma mlbw_call_smooth r P S c E : continuity_pt P E -> continuity_pt S E -> continuity_pt c E ->
  (exists v, mlbw_call r (P E) (S E) (c E) (psiChi E) = Some v) -> smooth4 (fun e => mlbw_call r (P e) (S e) (c e) (psiChi e)) E.
Proof.
  intros CP CS Cc [v V]. unfold mlbw_call in *.
  destruct (common_smooth r P S c E CP CS Cc) as (psi & chi & w & i & C1 & C2 & C3 & C4 & L). { destruct (bw_common _ _ _ _ _) as [y|]; [exists y; reflexivity | discriminate]. }
  exists (fun e => psi e * w e), (fun e => chi e * w e), (fun e => psi e * i e * w e * b_capture r), (fun e => psi e * i e * w e * b_fission r).
  split; [auto 20 with cont|]. split; [auto 20 with cont|]. split; [auto 20 with cont|]. split; [auto 20 with cont|]. revert L. apply filter_imp. intros e ->. reflexivity.
Qed.

(** Sums *)
Lemma sum_smooth {X} (F : X -> R -> option triple) l a b c E : (forall x, In x l -> smooth3 (F x) E) -> continuity_pt a E -> continuity_pt b E -> continuity_pt c E ->
  smooth3 (fun e => let? xs := all_finite (map (fun x => F x e) l) in Some (taccumulate xs (a e, b e, c e))) E.
Proof.
  revert a b c. induction l as [|x l IH]; intros a b c H Ca Cb Cc.
  - exists a, b, c. repeat (split; [assumption|]). apply everywhere. reflexivity.
  - destruct (H x (or_introl eq_refl)) as (a' & b' & c' & A & B & C & L).
    destruct (IH (fun e => a e + a' e) (fun e => b e + b' e) (fun e => c e + c' e)) as (u & v & w & U & V & W & M); auto with cont; [intros y Y; apply H; right; exact Y|].
    exists u, v, w. repeat (split; [assumption|]). apply (filter_imp (fun e => F x e = Some (a' e, b' e, c' e) /\ (let? xs := all_finite (map (fun x => F x e) l) in Some (taccumulate xs (a e + a' e, b e + b' e, c e + c' e))) = Some (u e, v e, w e)));
      [|apply filter_and; assumption]. intros e [Q K]. cbn [map all_finite]. rewrite Q. destruct (all_finite (map (fun x0 => F x0 e) l)) as [xs|]; [exact K | discriminate].
Qed.
Lemma sum4_smooth {X} (F : X -> R -> option (R * R * R * R)) l a b c d E : (forall x, In x l -> smooth4 (F x) E) -> continuity_pt a E -> continuity_pt b E -> continuity_pt c E -> continuity_pt d E ->
  smooth4 (fun e => let? xs := all_finite (map (fun x => F x e) l) in Some (fold_left qadd xs (a e, b e, c e, d e))) E.
Proof.
  revert a b c d. induction l as [|x l IH]; intros a b c d H Ca Cb Cc Cd.
  - exists a, b, c, d. repeat (split; [assumption|]). apply everywhere. reflexivity.
  - destruct (H x (or_introl eq_refl)) as (a' & b' & c' & d' & A & B & C & D & L).
    destruct (IH (fun e => a e + a' e) (fun e => b e + b' e) (fun e => c e + c' e) (fun e => d e + d' e)) as (u & v & w & z & U & V & W & Z & M); auto with cont; [intros y Y; apply H; right; exact Y|].
    exists u, v, w, z. repeat (split; [assumption|]).
    apply (filter_imp (fun e => F x e = Some (a' e, b' e, c' e, d' e) /\ (let? xs := all_finite (map (fun x => F x e) l) in Some (fold_left qadd xs (a e + a' e, b e + b' e, c e + c' e, d e + d' e))) = Some (u e, v e, w e, z e)));
      [|apply filter_and; assumption]. intros e [Q K]. cbn [map all_finite]. rewrite Q. destruct (all_finite (map (fun x0 => F x0 e) l)) as [xs|]; [exact K | discriminate].
Qed.
Lemma all_finite_each {X Y} (f : X -> option Y) l ys : all_finite (map f l) = Some ys -> forall x, In x l -> exists y, f x = Some y.
Proof.
  revert ys. induction l as [|z l IH]; intros ys H x Hx; [destruct Hx|]. destruct Hx as [<-|Hx]; cbn [map all_finite] in H; destruct (f z) eqn:Z; try discriminate.
  - eexists. reflexivity.
  - destruct (all_finite (map f l)) eqn:K; [|discriminate]. exact (IH _ eq_refl x Hx).
Qed.

(** One l value: the competitive width of each resonance is a continuous function *)
Definition widths_smooth (comp : R -> bw_resonance -> option R) (E : R) : Prop :=
  forall r, (exists v, comp E r = Some v) -> exists c, continuity_pt c E /\ forall e, comp e r = Some (c e).

Lemma slbw_lvalue_smooth lv cr sr comp E : continuity_pt cr E -> continuity_pt sr E -> widths_smooth comp E ->
  (exists v, slbw_lvalue lv (psiChi E) (cr E) (sr E) (comp E) = Ok (Some v)) -> smooth_outcome (fun e => slbw_lvalue lv (psiChi e) (cr e) (sr e) (comp e)) E.
Proof.
  intros Cr Cs W [v V]. unfold slbw_lvalue in *.
  destruct (penetration_continuous (lv_l lv) cr E Cr) as (P & S & CP & CS & HP). { destruct (penetrationShift _ _) as [y| | |]; [exists y; reflexivity | discriminate..]. }
  destruct (phase_continuous (lv_l lv) sr E Cs) as (A & B & CA & CB & HA). { rewrite HP in V. cbn [bind] in V. destruct (phaseShift _ _) as [y| | |]; [exists y; reflexivity | discriminate..]. }
  set (F := fun r e => let? c := comp e r in slbw_call r (P e) (S e) (A e) (B e) c (psiChi e)).
  assert (Q : forall e, slbw_lvalue lv (psiChi e) (cr e) (sr e) (comp e) =
    Ok (let? xs := all_finite (map (fun r => F r e) (lv_resonances lv)) in Some (taccumulate xs (A e * (2 * INR (lv_l lv) + 1), 0, 0)))).
  { intros e. unfold slbw_lvalue. rewrite HP. cbn [bind fst snd]. destruct (HA e) as (phi & -> & HA1 & HA2). cbn [bind]. rewrite HA1, HA2. reflexivity. }
  fold (slbw_lvalue lv (psiChi E) (cr E) (sr E) (comp E)) in V. rewrite Q in V.
  eexists (fun e => _). split; [|apply everywhere; exact Q].
  apply (sum_smooth F (lv_resonances lv) (fun e => A e * (2 * INR (lv_l lv) + 1)) (fun _ => 0) (fun _ => 0)); auto 20 with cont.
  intros r Hr. assert (X : exists y, F r E = Some y). { destruct (all_finite (map (fun r => F r E) (lv_resonances lv))) as [xs|] eqn:K; [|discriminate]. exact (all_finite_each _ _ _ K r Hr). }
  destruct X as [y Y]. unfold F in Y. destruct (comp E r) as [w|] eqn:CE; [|discriminate]. destruct (W r (ex_intro _ w CE)) as (c & Cc & Hc). rewrite (Hc E) in CE. injection CE as <-.
  destruct (slbw_call_smooth r P S A B c E CP CS CA CB Cc (ex_intro _ y Y)) as (x1 & x2 & x3 & H1 & H2 & H3 & L). exists x1, x2, x3. repeat (split; [assumption|]).
  apply (filter_imp _ _ (fun e K => K) (filter_imp _ _ (fun e K => eq_trans (f_equal (fun o => let? c := o in slbw_call r (P e) (S e) (A e) (B e) c (psiChi e)) (Hc e)) K) L)).
Qed.

Lemma mlbw_lvalue_smooth spin lv cr sr comp E : continuity_pt cr E -> continuity_pt sr E -> widths_smooth comp E ->
  (exists v, mlbw_lvalue spin lv (psiChi E) (cr E) (sr E) (comp E) = Ok (Some v)) -> smooth_outcome (fun e => mlbw_lvalue spin lv (psiChi e) (cr e) (sr e) (comp e)) E.
Proof.
  intros Cr Cs W [v V]. unfold mlbw_lvalue in *.
  destruct (penetration_continuous (lv_l lv) cr E Cr) as (P & S & CP & CS & HP). { destruct (penetrationShift _ _) as [y| | |]; [exists y; reflexivity | discriminate..]. }
  destruct (phase_continuous (lv_l lv) sr E Cs) as (A & B & CA & CB & HA). { rewrite HP in V. cbn [bind] in V. destruct (phaseShift _ _) as [y| | |]; [exists y; reflexivity | discriminate..]. }
  rewrite HP in V. cbn [bind] in V. destruct (HA E) as (phi & Hphi & HA1 & HA2). rewrite Hphi in V. cbn [bind] in V. rewrite HA1, HA2 in V.
  destruct (D spin (Z.of_nat (lv_l lv))) as [d| | |] eqn:HD; try discriminate. cbn [bind] in V.
  set (F := fun g e => mlbw_Jgroup (P e, S e) (A e) (B e) (psiChi e) (comp e) g).
  exists (fun e => let? xs := all_finite (map (fun g => F g e) (group_by b_g (lv_resonances lv))) in
    Some (taccumulate xs (d * A e + lv_gsum lv * (A e * A e + 0.25 * B e * B e), 0, 0))). split.
  2: { apply everywhere. intros e. rewrite HP. cbn [bind]. destruct (HA e) as (f & -> & K1 & K2). cbn [bind]. rewrite K1, K2. reflexivity. }
  apply (sum_smooth F _ (fun e => d * A e + lv_gsum lv * (A e * A e + 0.25 * B e * B e)) (fun _ => 0) (fun _ => 0)); auto 20 with cont.
  intros g Hg. assert (X : exists y, F g E = Some y). { destruct (all_finite (map _ (group_by b_g (lv_resonances lv)))) as [xs|] eqn:K in V; [|discriminate]. exact (all_finite_each _ _ _ K g Hg). }
  destruct X as [y Y]. unfold F, mlbw_Jgroup in Y. cbn [fst snd] in Y.
  set (G := fun r e => let? c := comp e r in mlbw_call r (P e) (S e) c (psiChi e)).
  destruct (all_finite _) as [xs|] eqn:K in Y; [|discriminate].
  destruct (sum4_smooth G (fst g :: snd g) (fun _ => 0) (fun _ => 0) (fun _ => 0) (fun _ => 0) E) as (a & b & c & f & Ca & Cb & Cc & Cf & L); auto with cont.
  - intros r Hr. destruct (all_finite_each _ _ _ K r Hr) as [z Z]. cbv beta in Z. destruct (comp E r) as [w|] eqn:CE; [|discriminate]. destruct (W r (ex_intro _ w CE)) as (c & Cc & Hc). rewrite (Hc E) in CE. injection CE as <-.
    destruct (mlbw_call_smooth r P S c E CP CS Cc (ex_intro _ z Z)) as (x1 & x2 & x3 & x4 & H1 & H2 & H3 & H4 & L). exists x1, x2, x3, x4. repeat (split; [assumption|]).
    apply (filter_imp _ _ (fun e K => eq_trans (f_equal (fun o => let? c := o in mlbw_call r (P e) (S e) c (psiChi e)) (Hc e)) K) L).
  - exists (fun e => (a e * (a e - 2 * A e) + b e * (b e + B e)) * b_g (fst g)), (fun e => c e * b_g (fst g)), (fun e => f e * b_g (fst g)).
    split; [auto 20 with cont|]. split; [auto with cont|]. split; [auto with cont|].
    apply (filter_imp _ _ (fun e H => H)). revert L. apply filter_imp. intros e H. unfold F, mlbw_Jgroup. cbn [fst snd].
    change (map (fun r => let? c := comp e r in mlbw_call r (P e) (S e) c (psiChi e)) (fst g :: snd g)) with (map (fun r => G r e) (fst g :: snd g)).
    destruct (all_finite (map (fun r => G r e) (fst g :: snd g))) as [ys|]; [|discriminate]. injection H as ->. reflexivity.
Qed.

(** All l values *)
Lemma all_smooth {X} (F : X -> R -> outcome (option triple)) l E : (forall x, In x l -> smooth_outcome (F x) E) ->
  exists hs, (forall h, In h hs -> smooth3 h E) /\ locally E (fun e => mapM (fun x => F x e) l = Ok (map (fun h => h e) hs)).
Proof.
  induction l as [|x l IH]; intros H.
  - exists []. split; [intros h []|]. apply everywhere. reflexivity.
  - destruct (H x (or_introl eq_refl)) as (h & Sh & Lh). destruct (IH (fun y Y => H y (or_intror Y))) as (hs & Ss & Ls).
    exists (h :: hs). split; [intros k [<-|K]; auto|]. apply (filter_imp (fun e => F x e = Ok (h e) /\ mapM (fun x => F x e) l = Ok (map (fun h => h e) hs))); [|apply filter_and; assumption].
    intros e [A B]. cbn [mapM map]. rewrite A. cbn [bind]. rewrite B. reflexivity.
Qed.
Lemma mapM_each {X Y} (f : X -> outcome Y) l ys : mapM f l = Ok ys -> forall x, In x l -> exists y, f x = Ok y /\ In y ys.
Proof.
  revert ys. induction l as [|z l IH]; intros ys H x Hx; [destruct Hx|]; destruct Hx as [<-|Hx]; cbn [mapM] in H; destruct (f z) eqn:Z; try discriminate; cbn [bind] in H; destruct (mapM f l) eqn:K; try discriminate; cbn [bind] in H; injection H as <-.
  - eexists. split; [reflexivity | left; reflexivity].
  - destruct (IH _ eq_refl x Hx) as (y & A & B). exists y. split; [exact A | right; exact B].
Qed.
Lemma all_finite_in {Y} (l : list (option Y)) ys : all_finite l = Some ys -> forall o, In o l -> exists y, o = Some y.
Proof. intros H o Ho. rewrite <- (map_id l) in H. exact (all_finite_each (fun o => o) l ys H o Ho). Qed.

Lemma settled_smooth f E : settled f E -> exists g, continuity_pt g E /\ locally E (fun e => f e = Ok (g e)).
Proof.
  intros (a & A & H). exists (fun e => match f e with Ok b => b | _ => 0 end). split.
  - apply continuity_pt_filterlim. rewrite A. apply filterlim_locally. intros eps. destruct (H eps (cond_pos eps)) as (d & D & K). exists (mkposreal d D). intros e B. destruct (K e B) as (b & -> & Hb). exact Hb.
  - destruct (H 1 Rlt_0_1) as (d & D & K). exists (mkposreal d D). intros e B. destruct (K e B) as (b & -> & _). reflexivity.
Qed.
Lemma smooth_no_jump f E : smooth_outcome f E -> no_jump f E.
Proof.
  intros (h & (a & b & c & A & B & C & L) & M).
  assert (Q : locally E (fun e => f e = Ok (Some (a e, b e, c e)))).
  { apply (filter_imp (fun e => f e = Ok (h e) /\ h e = Some (a e, b e, c e))); [intros e [-> ->]; reflexivity | apply filter_and; assumption]. }
  exists (a E), (b E), (c E). split; [exact (near_at _ _ Q)|]. intros eps He.
  assert (K : forall g, continuity_pt g E -> locally E (fun e => Rabs (g e - g E) < eps)).
  { intros g G. apply continuity_pt_filterlim in G. apply (proj1 (filterlim_locally g (g E)) G (mkposreal eps He)). }
  pose proof (filter_and _ _ Q (filter_and _ _ (K a A) (filter_and _ _ (K b B) (K c C)))) as [d D]. exists d. split; [apply cond_pos|].
  intros e H. destruct (D e H) as (X & Y & Z & W). exists (a e), (b e), (c e). tauto.
Qed.

Section System.
Variable C : R.

Lemma wave_continuous w E : continuity_pt (waveNumberOld C w) E.
Proof. unfold waveNumberOld. apply c_mult; [apply c_const | apply (c_sqrt (fun e => e)), c_id]. Qed.

(** [radii_settled]: the radii around the energy, and the channel radius around the energy in
    the competitive channel *)
Definition radii_settled (s : bw_system) (E : R) : Prop :=
  settled (s_channel s) E /\ settled (s_scattering s) E /\ forall lv q, In lv (s_lvalues s) -> lv_q lv = Some q -> settled (s_channel s) (E + q).

Lemma competitive_smooth w ch lv E : (forall q, lv_q lv = Some q -> settled ch (E + q)) ->
  (exists v, competitiveWidth lv E (fun e => omap (fun a => waveNumberOld C w e * a) (ch e)) = Ok v) ->
  exists comp, widths_smooth comp E /\ locally E (fun e => competitiveWidth lv e (fun e => omap (fun a => waveNumberOld C w e * a) (ch e)) = Ok (comp e)).
Proof.
  intros H [v V]. unfold competitiveWidth in *. destruct (lv_q lv) as [q|].
  - destruct (settled_smooth _ _ (H q eq_refl)) as (a & Ca & La).
    set (rho := fun e => waveNumberOld C w (e + q) * a (e + q)).
    assert (Cr : continuity_pt rho E). { unfold rho. apply c_mult; [apply (c_shifted (waveNumberOld C w)), wave_continuous | apply (c_shifted a), Ca]. }
    destruct (penetration_continuous (lv_l lv) rho E Cr) as (P & S & CP & CS & HP).
    { pose proof (near_at _ _ La) as A0. cbv beta in A0. rewrite A0 in V. unfold omap in V. cbn [bind] in V. fold (rho E) in V. destruct (penetrationShift _ _) as [y| | |]; [exists y; reflexivity | discriminate..]. }
    exists (fun e r => let? x := b_competitive r in Some (x * P e)). split.
    + intros r [x X]. destruct (b_competitive r) as [b|]; [|discriminate]. exists (fun e => b * P e). split; [auto with cont | reflexivity].
    + apply (filter_imp (fun e => ch (e + q) = Ok (a (e + q)))); [|exact (shifted (fun e => ch e = Ok (a e)) E q La)]. intros e K. rewrite K. unfold omap. cbn [bind]. fold (rho e). rewrite HP. reflexivity.
  - exists (fun _ _ => Some 0). split; [intros r _; exists (fun _ => 0); split; [auto with cont | reflexivity] | apply everywhere; reflexivity].
Qed.

Lemma evaluate_smooth lvalue s E :
  (forall lv cr sr comp, In lv (s_lvalues s) -> continuity_pt cr E -> continuity_pt sr E -> widths_smooth comp E ->
    (exists v, lvalue lv (psiChi E) (cr E) (sr E) (comp E) = Ok (Some v)) -> smooth_outcome (fun e => lvalue lv (psiChi e) (cr e) (sr e) (comp e)) E) ->
  radii_settled s E -> (exists t, bw_evaluate C lvalue s E = Ok (Some t)) -> no_jump (bw_evaluate C lvalue s) E.
Proof.
  intros HL (Hc & Hs & Hq) [t T]. apply smooth_no_jump. unfold bw_evaluate in T.
  destruct (settled_smooth _ _ Hc) as (a & Ca & La). destruct (settled_smooth _ _ Hs) as (b & Cb & Lb).
  set (k := waveNumberOld C (s_ratio s)) in *. assert (Ck : continuity_pt k E) by apply wave_continuous.
  set (rho := fun e => omap (fun a => k e * a) (s_channel s e)) in *.
  rewrite (near_at _ _ La) in T. cbn [bind] in T. rewrite (near_at _ _ Lb) in T. cbn [bind] in T.
  set (F := fun lv e => do comp <- competitiveWidth lv e rho ; lvalue lv (psiChi e) (a e * k e) (b e * k e) comp) in *.
  assert (T1 : exists xs, mapM (fun lv => F lv E) (s_lvalues s) = Ok xs /\ exists ys, all_finite xs = Some ys /\ k E * k E <> 0).
  { change (bind (mapM (fun lv => F lv E) (s_lvalues s)) (fun xs => Ok (let? scaling := fdiv (4 * pi_value) (k E * k E) in let? xs := all_finite xs in Some (tmul (taccumulate xs (0, 0, 0)) scaling))) = Ok (Some t)) in T.
    destruct (mapM _ _) as [xs| | |]; try discriminate. exists xs. split; [reflexivity|]. cbn [bind] in T. destruct (fdiv _ _) eqn:FD; [|discriminate]. destruct (all_finite xs) as [ys|]; [|discriminate].
    exists ys. split; [reflexivity | exact (fdiv_some _ _ _ FD)]. }
  destruct T1 as (xs & M & ys & Y & N).
  destruct (all_smooth F (s_lvalues s) E) as (hs & Sh & Lh).
  { intros lv Hlv. destruct (mapM_each _ _ _ M lv Hlv) as (o & O & Oin). destruct (all_finite_in _ _ Y o Oin) as (v & ->). cbv beta in O. unfold F in O.
    destruct (competitive_smooth (s_ratio s) (s_channel s) lv E (fun q => Hq lv q Hlv)) as (comp & Wc & Lc). { fold k. fold rho. destruct (competitiveWidth lv E rho) as [y| | |]; [exists y; reflexivity | discriminate..]. }
    pose proof (near_at _ _ Lc) as Q. cbv beta in Q. fold k in Q. fold rho in Q. rewrite Q in O. cbn [bind] in O.
    destruct (HL lv (fun e => a e * k e) (fun e => b e * k e) comp Hlv) as (h & Sm & Lm); auto with cont; [exists v; exact O|].
    exists h. split; [exact Sm|]. apply (filter_imp (fun e => competitiveWidth lv e rho = Ok (comp e) /\ lvalue lv (psiChi e) (a e * k e) (b e * k e) (comp e) = Ok (h e))); [|apply filter_and; [exact Lc | exact Lm]].
    intros e [X Z]. unfold F. rewrite X. exact Z. }
  destruct (sum_smooth (fun h e => h e) hs (fun _ => 0) (fun _ => 0) (fun _ => 0) E Sh) as (u & v & w & Cu & Cv & Cw & L); auto with cont.
  set (f := fun e => 4 * pi_value / (k e * k e)). assert (Cf : continuity_pt f E) by (apply c_div; auto with cont).
  exists (fun e => Some (u e * f e, v e * f e, w e * f e)). split.
  - exists (fun e => u e * f e), (fun e => v e * f e), (fun e => w e * f e). split; [auto with cont|]. split; [auto with cont|]. split; [auto with cont|]. apply everywhere. reflexivity.
  - pose proof (near_not_zero (fun e => k e * k e) E (c_mult _ _ _ Ck Ck) N) as Nk.
    pose proof (filter_and _ _ La (filter_and _ _ Lb (filter_and _ _ Lh (filter_and _ _ L Nk)))) as All. revert All. apply filter_imp. intros e (A1 & A2 & A3 & A4 & A5).
    unfold bw_evaluate. rewrite A1. cbn [bind]. rewrite A2. cbn [bind]. fold k. fold rho.
    change (bind (mapM (fun lv => F lv e) (s_lvalues s)) (fun xs => Ok (let? scaling := fdiv (4 * pi_value) (k e * k e) in let? xs := all_finite xs in Some (tmul (taccumulate xs (0, 0, 0)) scaling))) = Ok (Some (u e * f e, v e * f e, w e * f e))).
    rewrite A3. cbn [bind]. rewrite (fdiv_ok _ _ A5). change (map _ hs) with (map (fun x : R -> option triple => x e) hs). cbv beta in A4.
    destruct (all_finite (map (fun x : R -> option triple => x e) hs)) as [zs|]; [|discriminate A4]. injection A4 as ->. reflexivity.
Qed.

Theorem slbw_no_jump s E : radii_settled s E -> (exists t, slbw_evaluate C s E = Ok (Some t)) -> no_jump (slbw_evaluate C s) E.
Proof. apply evaluate_smooth. intros lv cr sr comp _. apply slbw_lvalue_smooth. Qed.
Theorem mlbw_no_jump s E : radii_settled s E -> (exists t, mlbw_evaluate C s E = Ok (Some t)) -> no_jump (mlbw_evaluate C s) E.
Proof. intros H T. unfold mlbw_evaluate in *. apply evaluate_smooth; [|assumption..]. intros lv cr sr comp _. apply mlbw_lvalue_smooth. Qed.
End System.
