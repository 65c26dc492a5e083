(** The limits of the fluctuation integrals. *)
From Coq Require Import List ZArith Reals Lra Lia Bool.
From Coquelicot Require Import Coquelicot.
From Verif Require Import Outcome QuantumSpec UnresolvedModel UnresolvedSpec UnresolvedProofs UnresolvedTheorems FluctuationSpec RuleErrorProofs FluctuationProofs FluctuationTheorems FluctuationSystem JumpProofs JumpSystem OpeningSpec.
Import ListNotations.
Open Scope R_scope.

Lemma mass_sum n : (1 <= n <= 4)%nat -> mass (chi2_rule n) = rule_sum n.
Proof.
  intros H. assert (K : (n = 1 \/ n = 2 \/ n = 3 \/ n = 4)%nat) by lia. unfold mass, average.
  destruct K as [-> | [-> | [-> | ->]]]; unfold chi2_rule, rule_sum; cbn [map fst snd Rsum fold_right]; lra.
Qed.
Lemma average_continuous r (f : R -> R -> R) E : (forall p, In p r -> continuity_pt (fun e => f e (snd p)) E) -> continuity_pt (fun e => average r (f e)) E.
Proof.
  induction r as [|p r IH]; intros H; [apply (continuity_pt_ext (fun _ => 0)); [reflexivity | apply c_const]|].
  apply (continuity_pt_ext (fun e => fst p * f e (snd p) + average r (f e))); [reflexivity|].
  apply c_plus; [apply c_mult; [apply c_const | apply H; left; reflexivity] | apply IH; intros q Q; apply H; right; exact Q].
Qed.
Lemma average3_continuous r1 r2 r3 (f : R -> R -> R -> R -> R) E :
  (forall a b c, In a r1 -> In b r2 -> In c r3 -> continuity_pt (fun e => f e (snd a) (snd b) (snd c)) E) -> continuity_pt (fun e => average3 r1 r2 r3 (f e)) E.
Proof.
  intros H. unfold average3. apply (average_continuous r1 (fun e a => average r2 (fun b => average r3 (f e a b)))). intros a A.
  apply (average_continuous r2 (fun e b => average r3 (f e (snd a) b))). intros b B. apply (average_continuous r3 (fun e => f e (snd a) (snd b))). intros c C. apply H; assumption.
Qed.
Lemma average_factor r k f g : (forall x, f x = k * g x) -> average r f = k * average r g.
Proof.
  intros H. unfold average. induction r as [|p r IH]; cbn [map Rsum fold_right]; [ring|]. fold (Rsum (map (fun p => fst p * f (snd p)) r)). fold (Rsum (map (fun p => fst p * g (snd p)) r)). rewrite IH, H. ring.
Qed.
Lemma average_constant r k : average r (fun _ => k) = mass r * k.
Proof. unfold mass. rewrite (average_factor r k (fun _ => k) (fun _ => 1)) by (intros; ring). ring. Qed.

Section Path.
Variables (gn gg gf gx : R -> R) (E : R) (rn rf rx : list (R * R)).
Hypotheses (Cn : continuity_pt gn E) (Cg : continuity_pt gg E) (Cf : continuity_pt gf E) (Cx : continuity_pt gx E).
Hypotheses (Pn : 0 < gn E) (Pg : 0 <= gg E) (Pf : 0 <= gf E) (Px : 0 <= gx E).
Hypotheses (Nn : positive_nodes rn) (Nf : positive_nodes rf) (Nx : positive_nodes rx).
Lemma quotient_continuous (u : R -> R -> R -> R) : continuity_pt (fun e => average3 rn rf rx (fun a b c => u a b c / total_width (gn e) (gg e) (gf e) (gx e) a b c)) E.
Proof.
  apply (average3_continuous rn rf rx (fun e a b c => u a b c / total_width (gn e) (gg e) (gf e) (gx e) a b c)). intros a b c A B C. unfold total_width. apply c_div; [apply c_const | auto 20 with cont |].
  destruct (Nn a A) as [_ Pa]. destruct (Nf b B) as [_ Pb]. destruct (Nx c C) as [_ Pc]. pose proof (Rmult_lt_0_compat _ _ Pa Pn). pose proof (Rmult_le_pos _ _ (Rlt_le _ _ Pb) Pf). pose proof (Rmult_le_pos _ _ (Rlt_le _ _ Pc) Px). lra.
Qed.
End Path.

Section Code.
Variable d : data nat.
Hypotheses (Hn : (1 <= d_elastic d <= 4)%nat).
Notation calc Gn Gg Gf Gx := (calculateFluctuationIntegrals (mkData Gn Gg Gf Gx) d).
Let df := Nat.max 1 (d_fission d).
Let dx := Nat.max 1 (d_competition d).

(** The value of the code for widths that are not negative *)
Lemma code_value Gn Gg Gf Gx : 0 < Gn -> 0 <= Gg -> 0 <= Gf -> 0 <= Gx -> (Gf <> 0 -> (d_fission d <= 4)%nat) -> (Gx <> 0 -> (d_competition d <= 4)%nat) ->
  let rn := chi2_rule (d_elastic d) in let rf := width_rule Gf df in let rx := width_rule Gx dx in
  positive_nodes rn /\ positive_nodes rf /\ positive_nodes rx /\ exists i, calc Gn Gg Gf Gx = Ok (Some i) /\
  d_elastic i = I_elastic Gn Gg Gf Gx rn rf rx /\ d_capture i = I_capture Gn Gg Gf Gx rn rf rx /\
  (Gf <> 0 -> d_fission i = I_fission Gn Gg Gf Gx rn rf rx) /\ (Gf = 0 -> d_fission i = 0) /\
  (Gx <> 0 -> d_competition i = I_competition Gn Gg Gf Gx rn rf rx) /\ (Gx = 0 -> d_competition i = 0).
Proof.
  intros P1 P2 P3 P4 H2 H3 rn rf rx.
  assert (Kn : positive_nodes rn) by (apply nodes_positive; exact Hn).
  assert (Kf : positive_nodes rf) by (apply width_nodes; intros N; specialize (H2 N); unfold df; lia).
  assert (Kx : positive_nodes rx) by (apply width_nodes; intros N; specialize (H3 N); unfold dx; lia).
  split; [exact Kn|]. split; [exact Kf|]. split; [exact Kx|].
  assert (N2 : nonzero Gf = true -> (d_fission d <= 4)%nat). { intros N. apply H2. intros Z. apply nonzero_0 in Z. rewrite Z in N. discriminate. }
  assert (N3 : nonzero Gx = true -> (d_competition d <= 4)%nat). { intros N. apply H3. intros Z. apply nonzero_0 in Z. rewrite Z in N. discriminate. }
  destruct (integrals_value_spec (mkData Gn Gg Gf Gx) d Hn N2 N3) as [(V & _) | (_ & i & Hi & V)]; cbn [d_elastic d_capture d_fission d_competition] in V; rewrite !width_rule_max in V; fold df dx in V; fold rn rf rx in V.
  - exfalso. destruct V as (a & b & c & A & B & C & Z). destruct (Kn a A) as [_ Pa]. destruct (Kf b B) as [_ Pb]. destruct (Kx c C) as [_ Pc].
    unfold total_width in Z. pose proof (Rmult_lt_0_compat _ _ Pa P1). pose proof (Rmult_le_pos _ _ (Rlt_le _ _ Pb) P3). pose proof (Rmult_le_pos _ _ (Rlt_le _ _ Pc) P4). lra.
  - exists i. split; [exact Hi | exact V].
Qed.

Lemma near_value g E eps : continuity_pt g E -> 0 < eps -> locally E (fun e => Rabs (g e - g E) < eps).
Proof. intros G He. apply continuity_pt_filterlim in G. apply (proj1 (filterlim_locally g (g E)) G (mkposreal eps He)). Qed.

(** Where no width starts from zero *)
Theorem integrals_steady gn gg gf gx E : continuity_pt gn E -> continuity_pt gg E -> continuity_pt gf E -> continuity_pt gx E ->
  (forall e, 0 < gn e /\ 0 <= gg e /\ 0 <= gf e /\ 0 <= gx e) -> (gf E <> 0 /\ (d_fission d <= 4)%nat \/ forall e, gf e = 0) -> (gx E <> 0 /\ (d_competition d <= 4)%nat \/ forall e, gx e = 0) ->
  steady_integrals (fun e => calc (gn e) (gg e) (gf e) (gx e)) E.
Proof.
  intros Cn Cg Cf Cx P Hf Hx.
  assert (F0 : forall e, gf e <> 0 -> (d_fission d <= 4)%nat) by (intros e N; destruct Hf as [[_ H]|Z]; [exact H | contradiction (N (Z e))]).
  assert (X0 : forall e, gx e <> 0 -> (d_competition d <= 4)%nat) by (intros e N; destruct Hx as [[_ H]|Z]; [exact H | contradiction (N (Z e))]).
  assert (V : forall e, _) by (intros e; destruct (P e) as (P1 & P2 & P3 & P4); exact (code_value (gn e) (gg e) (gf e) (gx e) P1 P2 P3 P4 (F0 e) (X0 e))). cbv zeta in V.
  assert (LF : locally E (fun e => gf e = 0 <-> gf E = 0)).
  { destruct Hf as [[N _]|Z]; [|apply everywhere; intros e; rewrite !Z; tauto]. generalize (near_not_zero gf E Cf N). apply filter_imp. intros e Ne. tauto. }
  assert (LX : locally E (fun e => gx e = 0 <-> gx E = 0)).
  { destruct Hx as [[N _]|Z]; [|apply everywhere; intros e; rewrite !Z; tauto]. generalize (near_not_zero gx E Cx N). apply filter_imp. intros e Ne. tauto. }
  assert (W : forall G G' n, (G = 0 <-> G' = 0) -> width_rule G n = width_rule G' n).
  { intros G G' n H. unfold width_rule. destruct (Req_EM_T G 0), (Req_EM_T G' 0); tauto. }
  destruct (V E) as (Kn & Kf & Kx & i & Hi & I1 & I2 & I3 & I3' & I4 & I4'). destruct (P E) as (P1 & P2 & P3 & P4).
  set (rn := chi2_rule (d_elastic d)) in *. set (rf := width_rule (gf E) df) in *. set (rx := width_rule (gx E) dx) in *.
  exists i. split; [exact Hi|]. intros eps He.
  pose proof (fun u => near_value _ E eps (quotient_continuous gn gg gf gx E rn rf rx Cn Cg Cf Cx P1 P2 P3 P4 Kn Kf Kx u) He) as Q.
  pose proof (filter_and _ _ (filter_and _ _ LF LX) (filter_and _ _ (filter_and _ _ (Q (fun a b c => a * a)) (Q (fun a b c => a))) (filter_and _ _ (Q (fun a b c => a * b)) (Q (fun a b c => a * c))))) as [r D]. exists r. split; [apply cond_pos|].
  intros e B. destruct (D e B) as ((LF1 & LX1) & (Q1 & Q2) & (Q3 & Q4)). destruct (V e) as (_ & _ & _ & j & Hj & J1 & J2 & J3 & J3' & J4 & J4').
  rewrite (W _ _ df LF1) in J1, J2, J3, J4. rewrite (W _ _ dx LX1) in J1, J2, J3, J4. exists j. split; [exact Hj|].
  split; [rewrite I1, J1; exact Q1|]. split; [rewrite I2, J2; exact Q2|]. split.
  - destruct (Req_dec (gf E) 0) as [Z|Z]; [rewrite (I3' Z), (J3' (proj2 LF1 Z)), Rminus_eq_0, Rabs_R0; exact He | rewrite (I3 Z), (J3 (fun y => Z (proj1 LF1 y))); exact Q3].
  - destruct (Req_dec (gx E) 0) as [Z|Z]; [rewrite (I4' Z), (J4' (proj2 LX1 Z)), Rminus_eq_0, Rabs_R0; exact He | rewrite (I4 Z), (J4 (fun y => Z (proj1 LX1 y))); exact Q4].
Qed.

(** Where the fission width starts from zero *)
Theorem fission_opens Gn Gg Gx : 0 < Gn -> 0 <= Gg -> 0 <= Gx -> (d_fission d <= 4)%nat -> (Gx <> 0 -> (d_competition d <= 4)%nat) ->
  exists i, calc Gn Gg 0 Gx = Ok (Some i) /\ approaches (fun G => calc Gn Gg G Gx) (rule_sum df * d_elastic i) (rule_sum df * d_capture i).
Proof.
  intros P1 P2 P4 H2 H3. destruct (code_value Gn Gg 0 Gx P1 P2 (Rle_refl 0) P4 (fun _ => H2) H3) as (Kn & _ & Kx & i & Hi & I1 & I2 & _).
  set (rn := chi2_rule (d_elastic d)) in *. set (rx := width_rule Gx dx) in *.
  replace (width_rule 0 df) with constant_rule in I1, I2 by (unfold width_rule; destruct (Req_EM_T 0 0); [reflexivity | lra]).
  assert (Hdf : (1 <= df <= 4)%nat) by (unfold df; lia). pose proof (nodes_positive df Hdf) as Kf. set (rf := chi2_rule df) in *.
  exists i. split; [exact Hi|].
  assert (S : forall u : R -> R -> R, average3 rn rf rx (fun a b c => u a c / total_width Gn Gg 0 Gx a b c) = rule_sum df * average3 rn constant_rule rx (fun a b c => u a c / total_width Gn Gg 0 Gx a b c)).
  { intros u. unfold average3. apply average_factor. intros a. rewrite <- (mass_sum df Hdf). fold rf.
    set (k := average rx (fun c => u a c / total_width Gn Gg 0 Gx a 1 c)).
    assert (Q : forall r, average r (fun b => average rx (fun c => u a c / total_width Gn Gg 0 Gx a b c)) = mass r * k).
    { intros r. rewrite <- average_constant. unfold average at 1 3. f_equal. apply map_ext. intros p. f_equal. unfold k. unfold average. f_equal. apply map_ext. intros q. unfold total_width. rewrite !Rmult_0_r. reflexivity. }
    rewrite !Q. unfold mass, constant_rule, average. cbn. ring. }
  intros eps He.
  pose proof (fun u => near_value _ 0 eps (quotient_continuous (fun _ => Gn) (fun _ => Gg) (fun e => e) (fun _ => Gx) 0 rn rf rx (c_const _ _) (c_const _ _) (c_id _) (c_const _ _) P1 P2 (Rle_refl 0) P4 Kn Kf Kx u) He) as Q.
  destruct (filter_and _ _ (Q (fun a b c => a * a)) (Q (fun a b c => a))) as [r D]. exists r. split; [apply cond_pos|]. intros G HG.
  destruct (D G) as [Q1 Q2]. { change (Rabs (G - 0) < r). rewrite Rminus_0_r, Rabs_pos_eq; lra. }
  destruct (code_value Gn Gg G Gx P1 P2 ltac:(lra) P4 (fun _ => H2) H3) as (_ & _ & _ & j & Hj & J1 & J2 & _). exists j. split; [exact Hj|]. fold rn rx in J1, J2.
  replace (width_rule G df) with rf in J1, J2 by (unfold width_rule; destruct (Req_EM_T G 0); [lra | reflexivity]).
  rewrite I1, I2, J1, J2. unfold I_elastic, I_capture. rewrite <- (S (fun a c => a * a)), <- (S (fun a c => a)). split; [exact Q1 | exact Q2].
Qed.
(** Where the competitive width starts from zero *)
Theorem competition_opens Gn Gg Gf : 0 < Gn -> 0 <= Gg -> 0 <= Gf -> (Gf <> 0 -> (d_fission d <= 4)%nat) -> (d_competition d <= 4)%nat ->
  exists i, calc Gn Gg Gf 0 = Ok (Some i) /\ approaches (fun G => calc Gn Gg Gf G) (rule_sum dx * d_elastic i) (rule_sum dx * d_capture i).
Proof.
  intros P1 P2 P3 H2 H3. destruct (code_value Gn Gg Gf 0 P1 P2 P3 (Rle_refl 0) H2 (fun _ => H3)) as (Kn & Kf & _ & i & Hi & I1 & I2 & _).
  set (rn := chi2_rule (d_elastic d)) in *. set (rf := width_rule Gf df) in *.
  replace (width_rule 0 dx) with constant_rule in I1, I2 by (unfold width_rule; destruct (Req_EM_T 0 0); [reflexivity | lra]).
  assert (Hdx : (1 <= dx <= 4)%nat) by (unfold dx; lia). pose proof (nodes_positive dx Hdx) as Kx. set (rx := chi2_rule dx) in *.
  exists i. split; [exact Hi|].
  assert (S : forall u : R -> R -> R, average3 rn rf rx (fun a b c => u a b / total_width Gn Gg Gf 0 a b c) = rule_sum dx * average3 rn rf constant_rule (fun a b c => u a b / total_width Gn Gg Gf 0 a b c)).
  { intros u. unfold average3. apply average_factor. intros a. apply average_factor. intros b. rewrite <- (mass_sum dx Hdx). fold rx.
    set (k := u a b / total_width Gn Gg Gf 0 a b 1).
    assert (Q : forall r, average r (fun c => u a b / total_width Gn Gg Gf 0 a b c) = mass r * k).
    { intros r. rewrite <- average_constant. unfold average. f_equal. apply map_ext. intros p. f_equal. unfold k, total_width. rewrite !Rmult_0_r. reflexivity. }
    rewrite !Q. unfold mass, constant_rule, average. cbn. ring. }
  intros eps He.
  pose proof (fun u => near_value _ 0 eps (quotient_continuous (fun _ => Gn) (fun _ => Gg) (fun _ => Gf) (fun e => e) 0 rn rf rx (c_const _ _) (c_const _ _) (c_const _ _) (c_id _) P1 P2 P3 (Rle_refl 0) Kn Kf Kx u) He) as Q.
  destruct (filter_and _ _ (Q (fun a b c => a * a)) (Q (fun a b c => a))) as [r D]. exists r. split; [apply cond_pos|]. intros G HG.
  destruct (D G) as [Q1 Q2]. { change (Rabs (G - 0) < r). rewrite Rminus_0_r, Rabs_pos_eq; lra. }
  destruct (code_value Gn Gg Gf G P1 P2 P3 ltac:(lra) H2 (fun _ => H3)) as (_ & _ & _ & j & Hj & J1 & J2 & _). exists j. split; [exact Hj|]. fold rn rf in J1, J2.
  replace (width_rule G dx) with rx in J1, J2 by (unfold width_rule; destruct (Req_EM_T G 0); [lra | reflexivity]).
  rewrite I1, I2, J1, J2. unfold I_elastic, I_capture. rewrite <- (S (fun a b => a * a)), <- (S (fun a b => a)). split; [exact Q1 | exact Q2].
Qed.
(** There the integrals jump *)
Lemma sum_not_one n : rule_sum n <> 1.
Proof. destruct n as [|[|[|[|n]]]]; cbn [rule_sum]; lra. Qed.
Theorem fission_jumps Gn Gg : 0 < Gn -> 0 <= Gg -> (d_fission d <= 4)%nat ->
  exists i, calc Gn Gg 0 0 = Ok (Some i) /\ ~ approaches (fun G => calc Gn Gg G 0) (d_elastic i) (d_capture i).
Proof.
  intros P1 P2 H2. destruct (fission_opens Gn Gg 0 P1 P2 (Rle_refl 0) H2 ltac:(intros N; lra)) as (i & Hi & A). exists i. split; [exact Hi|]. intros B.
  assert (N0 : nonzero 0 = true -> False). { intros N. pose proof (proj2 (nonzero_0 0) eq_refl) as Z. rewrite Z in N. discriminate. }
  pose proof (integrals_conserved_close (mkData Gn Gg 0 0) d i Hn ltac:(intros N; contradiction (N0 N)) ltac:(intros N; contradiction (N0 N)) Hi) as S. cbn [d_elastic d_capture d_fission d_competition] in S.
  assert (U : forall x y, (forall eps, 0 < eps -> Rabs (x - y) < eps) -> x = y).
  { intros x y H. destruct (Req_dec x y) as [Z|Z]; [exact Z|]. exfalso. assert (K : 0 < Rabs (x - y)) by (apply Rabs_pos_lt; lra). specialize (H _ K). lra. }
  assert (M : forall eps, 0 < eps -> Rabs (rule_sum df * d_elastic i - d_elastic i) < eps /\ Rabs (rule_sum df * d_capture i - d_capture i) < eps).
  { intros eps He. destruct (A (eps / 2) ltac:(lra)) as (d1 & D1 & A1). destruct (B (eps / 2) ltac:(lra)) as (d2 & D2 & B2). pose proof (Rmin_glb_lt _ _ _ D1 D2). pose proof (Rmin_l d1 d2). pose proof (Rmin_r d1 d2).
    destruct (A1 (Rmin d1 d2 / 2) ltac:(lra)) as (j & Hj & E1 & E2). destruct (B2 (Rmin d1 d2 / 2) ltac:(lra)) as (j' & Hj' & E3 & E4). rewrite Hj in Hj'. injection Hj' as <-.
    apply Rabs_def2 in E1, E2, E3, E4. split; apply Rabs_def1; lra. }
  pose proof (U _ _ (fun eps He => proj1 (M eps He))) as Z1. pose proof (U _ _ (fun eps He => proj2 (M eps He))) as Z2. pose proof (sum_not_one df) as N1.
  assert (E0 : d_elastic i = 0). { apply (Rmult_eq_reg_l (rule_sum df - 1)); lra. } assert (C0 : d_capture i = 0). { apply (Rmult_eq_reg_l (rule_sum df - 1)); lra. }
  rewrite E0, C0 in S. apply Rabs_le_between in S. lra.
Qed.
End Code.
