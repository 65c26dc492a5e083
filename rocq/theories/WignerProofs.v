(** Channels and R matrix close to energy zero. *)
From Coq Require Import Reals Lra String.
From mathcomp Require Import all_ssreflect all_algebra.
From Verif Require Import Outcome HardSphereModel HardSphereProofs KinematicsModel CoulombModel Cplx RMatrixModel RMatrixSpec
  RMatrixObservableProofs ChannelModel SpinGroupModel SpinGroupSpec SpinGroupChannelProofs
  ContinuitySpec ContinuityProofs ContinuityMatrixProofs ContinuityChannelProofs ContinuityTheorems WignerSpec HardSphereThresholdProofs.
Set Implicit Arguments.
Unset Strict Implicit.
Unset Printing Implicit Defensive.
Import GRing.Theory.
Local Open Scope ring_scope.

Lemma at_zero_cont f x w : (exists d, (0 < d)%re /\ forall e, (0 < e < d)%re -> x e = f e) -> continuity_pt f 0%re -> f 0%re = w -> at_zero x w.
Proof.
  move=> [d [d0 E]] C <- eps h; have [a [a0 Ha]] := C eps h.
  exists (Rmin a d); split; first exact: Rmin_pos.
  move=> e [e0 e1]; have m1 := Rmin_l a d; have m2 := Rmin_r a d.
  rewrite E; last lra.
  apply: (Ha e); split; first by split=> // h0; lra.
  by rewrite /= /R_dist Rminus_0_r Rabs_right; lra.
Qed.
Lemma abs_0 : Rabs 0 = 0%re. Proof. exact: Rabs_R0. Qed.
Lemma abs_cont : continuity_pt Rabs 0%re. Proof. exact: Rcontinuity_abs. Qed.
Lemma pow_cont n x : continuity_pt (fun e => e ^ n)%re x.
Proof. exact: derivable_continuous_pt (derivable_pt_pow n x). Qed.

Section Channels.
Variables (hbar epsilon0 : R) (cwf : nat -> R -> R -> outcome coulomb) (b : boundary_option).
Hypothesis hb : (0 < hbar)%re.
Notation cv := (channelValues hbar epsilon0 cwf b).
Notation va := (vals hbar epsilon0 cwf b).

Record soft (c : channel) : Prop := Soft
  { sf_near : exists d, (0 < d)%re /\ forall e, (0 <= e < d)%re ->
      cv c e = Ok (Some (va c e)) /\ (0 <= v_P (va c e))%re /\ v_w (va c e) = 0%re /\
      (v_closed (va c e) \/ (0 < v_P (va c e))%re \/ lvalue b (va c e) = 0) /\
      v_closed (va c e) = v_closed (va c 0%re);
    sf_P : continuity_pt (fun e => v_P (va c (Rabs e))) 0%re;
    sf_L : ccont (fun e => lvalue b (va c (Rabs e))) 0%re }.

Lemma below_const ratio q : (0 < ratio)%re -> exists d, (0 < d)%re /\ forall e, (0 <= e < d)%re ->
  (q <> 0 -> e * ratio + q <> 0)%re /\ belowThreshold ratio q e = belowThreshold ratio q 0%re.
Proof.
  move=> r0; exists (if Rlt_dec q 0 then - q / ratio else 1)%re; rewrite /belowThreshold Rmult_0_r Rplus_0_l.
  case: Rlt_dec => q0.
  - split; first by apply: Rdiv_lt_0_compat; lra.
    move=> e /= [e0 e1]; have h : (e * ratio < - q)%re.
      by have := Rmult_lt_compat_r _ _ _ r0 e1; rewrite /Rdiv Rmult_assoc Rinv_l ?Rmult_1_r //; lra.
    by split; [lra | case: Rlt_dec => //; rewrite Rmult_comm; lra].
  - split; first by rewrite /=; lra.
    move=> e /= [e0 _]; have h : (0 <= e * ratio)%re by apply: Rmult_le_pos; lra.
    by split; [lra | case: Rlt_dec => //; rewrite Rmult_comm; lra].
Qed.

Lemma fixed_soft c ratio : pp_ratio (c_incident c) = Some ratio -> (0 < ratio)%re ->
  (forall e, cv c e = Ok (Some (Values 1%re 0%re (c_boundary c) 0%re 0%re (channelBelowThreshold c e)))) -> soft c.
Proof.
  move=> Er r0 E; have Ev e : va c e = Values 1%re 0%re (c_boundary c) 0%re 0%re (channelBelowThreshold c e) by rewrite /vals E.
  split.
  - have [d [d0 Hd]] := below_const (c_q c) r0; exists d; split=> // e /Hd [_ h].
    rewrite E !Ev /=; split=> //; split; first lra; split=> //; split; first by right; left; lra.
    by rewrite /channelBelowThreshold Er.
  - by apply: (@cont_ext (fun _ => 1%re)) => [e|]; [rewrite Ev | exact: cont_const].
  - by apply: (@ccont_ext (fun _ => lvalue b (Values 1%re 0%re (c_boundary c) 0%re 0%re false))) => [e|]; [rewrite Ev; case: (b) | exact: ccont_const].
Qed.

Lemma slow_soft c : slow b c -> soft c.
Proof.
  move=> [[ratio [Er r0]]]; case Et: (c_type c) => // H.
  - have [Hl [Hz [[mu [Emu m0]] [[a [a' [Ea [Ha Ha']]]] [_ bd]]]]] := H.
    have Hl' : (QuantumModel.ql (c_numbers c) <= 4)%coq_nat by apply/leP.
    have E e := neutron_values hbar epsilon0 cwf b e Et Hl Hz Emu Er Ea.
    have Ev e : va c e = neutronValues hbar b c mu ratio a a' e by rewrite /vals E.
    set l := QuantumModel.ql _ in Hl Hl' bd.
    set k := waveNumber hbar mu ratio (c_q c).
    have kc : continuity_pt (fun e => k (Rabs e)) 0%re.
      by apply: (@cont_comp k); [exact: abs_cont | exact: wave_cont].
    have ac r : continuity_pt (fun e => k (Rabs e) * r)%re 0%re by apply: cont_mul => //; exact: cont_const.
    have kpos e : (e * ratio + c_q c <> 0)%re -> (0 < Pv l (k e * a))%re.
      move=> ne; have kp := wave_pos hb m0 ne.
      have p0 : (0 < k e * a)%re by apply: Rmult_lt_0_compat.
      by have [Pp _] := P_range _ _ p0 Hl'; rewrite /Pv (penetrability_code _ _ p0 Hl').
    have k0 e : (e * ratio + c_q c = 0)%re -> k e = 0%re.
      by move=> h; rewrite /k /waveNumber h Rabs_R0 Rmult_0_r sqrt_0 /Rdiv Rmult_0_l.
    split.
    + have [d [d0 Hd]] := below_const (c_q c) r0; exists d; split=> // e He; have [ne be] := Hd e He.
      rewrite E !Ev /= -/k -/l; split=> //.
      case: (Req_EM_T (e * ratio + c_q c) 0) => h.
      * have q0 : c_q c = 0%re by case: (Req_EM_T (c_q c) 0) => // n; case: (ne n).
        have Lz : lvalue b (neutronValues hbar b c mu ratio a a' e) = 0.
          rewrite /lvalue /neutronValues /= -/k -/l k0 // Rmult_0_l Pv_0 //.
          by case: (bd q0) => [->//|Eb]; case: (b) => //=; rewrite Sv_0 // Eb; apply: cx_ext => /=; ring.
        move: Lz; rewrite k0 // Rmult_0_l Pv_0 // => Lz; split; first lra.
        by split=> //; split; [right; right; rewrite -Lz /neutronValues -/k -/l k0 // Rmult_0_l Pv_0 | exact: be].
      * have pp := kpos e h; split; first lra.
        by split=> //; split; [right; left | exact: be].
    + apply: (@cont_ext (fun e => Pv l (k (Rabs e) * a))) => [e|]; first by rewrite Ev.
      by apply: (@cont_comp (Pv l)) => //; exact: Pv_cont.
    + apply: (@ccont_ext (fun e => Cx (if b is Constant then Sv l (k (Rabs e) * a) - c_boundary c else 0)%re (Pv l (k (Rabs e) * a)))) => [e|].
        by rewrite Ev /lvalue; case: (b).
      apply: ccont_Cx; last by apply: (@cont_comp (Pv l)) => //; exact: Pv_cont.
      case: (b); last exact: cont_const.
      apply: cont_sub; last exact: cont_const.
      by apply: (@cont_comp (Sv l)) => //; exact: Sv_cont.
  - have [rad _] := H; apply: (fixed_soft Er r0) => e.
    rewrite /channelValues /channelPenetrability /channelShiftFactor /channelPhaseShift /channelCoulombShift /channelFunction Et.
    by case: rad => [[a ->]|[a [a' ->]]] /=; case: (b).
  - have [rad _] := H; apply: (fixed_soft Er r0) => e.
    rewrite /channelValues /channelPenetrability /channelShiftFactor /channelPhaseShift /channelCoulombShift /channelFunction Et.
    by case: rad => [[a ->]|[a [a' ->]]] /=; case: (b).
Qed.

(** P and phi of an incident channel divided by e^(l + 1/2) *)
Section Incident.
Variables (c : channel) (l : nat).
Hypotheses (sl : slow b c) (inc : isIncidentChannel c) (le : (l <= QuantumModel.ql (c_numbers c))%N).
Let lc := QuantumModel.ql (c_numbers c).
Let kap := sqrt (kappa2 hbar c).
Definition ratio_P (e : R) : R :=
  ((Rabs e) ^ (lc - l) * ((kap * channel_radius c) ^ (2 * lc + 1) * reduced_P lc (kap * channel_radius c * sqrt (Rabs e))))%re.
Definition ratio_phi (e : R) : R :=
  ((Rabs e) ^ (lc - l) * ((kap * scattering_radius c) ^ (2 * lc + 1) * reduced_phi lc (kap * scattering_radius c * sqrt (Rabs e))))%re.

Lemma incident_wave : exists mu ratio a a', [/\ (0 < mu)%re, (0 < ratio)%re, (0 < a)%re & (0 < a')%re] /\ (lc <= 4)%N /\
  (forall e, (0 <= e)%re -> waveNumber hbar mu ratio (c_q c) e = (kap * sqrt e)%re) /\
  channel_radius c = a /\ scattering_radius c = a' /\ kappa2 hbar c = (2 * mu * ratio / (hbar * hbar))%re /\
  (pp_reduced (c_pair c) = Some mu /\ pp_ratio (c_incident c) = Some ratio /\ c_q c = 0%re) /\
  (forall e, va c e = neutronValues hbar b c mu ratio a a' e).
Proof.
  move: sl => [[ratio [Er r0]]]; case Et: (c_type c) => // H; last 2 first.
  - by have [_ n] := H; rewrite inc in n.
  - by have [_ n] := H; rewrite inc in n.
  have [Hl [Hz [[mu [Emu m0]] [[a [a' [Ea [Ha Ha']]]] [q0 _]]]]] := H.
  exists mu, ratio, a, a'; split=> //; split=> //.
  have K : kappa2 hbar c = (2 * mu * ratio / (hbar * hbar))%re by rewrite /kappa2 Emu Er.
  split.
    move=> e e0; rewrite /waveNumber (q0 inc) Rplus_0_r Rabs_right; last by apply: Rle_ge; apply: Rmult_le_pos; lra.
    rewrite /kap K.
    have -> : (2 * mu * (e * ratio) = (2 * mu * ratio) * e)%re by ring.
    rewrite sqrt_mult; [|by apply: Rmult_le_pos; [apply: Rmult_le_pos|]; lra|lra].
    rewrite sqrt_div; [|by apply: Rmult_le_pos; [apply: Rmult_le_pos|]; lra|by apply: Rmult_lt_0_compat].
    rewrite sqrt_square; last lra.
    by field; lra.
  rewrite /channel_radius /scattering_radius Ea /=; do 3 (split; first by []); split; first by do 2 split=> //; exact: q0.
  by move=> e; rewrite /vals (neutron_values hbar epsilon0 cwf b e Et Hl Hz Emu Er Ea).
Qed.
Lemma sqrt_pow e : (0 <= e)%re -> (sqrt e ^ (2 * lc + 1) = e ^ (lc - l) * (e ^ l * sqrt e))%re.
Proof.
  move=> e0.
  change ((sqrt e ^ (Nat.add (Nat.mul 2 lc) 1))%re = (e ^ (lc - l) * (e ^ l * sqrt e))%re).
  rewrite pow_add pow_1 pow_mult; have -> : (sqrt e ^ 2 = e)%re by rewrite /= Rmult_1_r sqrt_sqrt.
  have El : lc = Nat.add (lc - l)%N l by exact: (esym (subnK le)).
  by rewrite {1}El pow_add; ring.
Qed.
Lemma incident_P e : (0 <= e)%re -> v_P (va c e) = (ratio_P e * (e ^ l * sqrt e))%re.
Proof.
  move=> e0; have [mu [ratio [a [a' [[m0 r0 Ha Ha'] [Hl [W [Ea [Ea' [_ [_ Ev]]]]]]]]]]] := incident_wave.
  have Hl' : (lc <= 4)%coq_nat by apply/leP.
  rewrite Ev /neutronValues /= -/lc W // reduced_P_spec // /ratio_P Ea Rabs_right; last lra.
  have -> : (kap * sqrt e * a = (kap * a) * sqrt e)%re by ring.
  rewrite Rpow_mult_distr; have -> : Nat.add (Nat.mul 2 lc) 1 = (2 * lc + 1)%N by [].
  by rewrite sqrt_pow //; ring.
Qed.
Lemma incident_phi e : (0 <= e)%re -> v_phi (va c e) = (ratio_phi e * (e ^ l * sqrt e))%re.
Proof.
  move=> e0; have [mu [ratio [a [a' [[m0 r0 Ha Ha'] [Hl [W [Ea [Ea' [_ [_ Ev]]]]]]]]]]] := incident_wave.
  have Hl' : (lc <= 4)%coq_nat by apply/leP.
  rewrite Ev /neutronValues /= -/lc W // reduced_phi_spec // /ratio_phi Ea' Rabs_right; last lra.
  have -> : (kap * sqrt e * a' = (kap * a') * sqrt e)%re by ring.
  rewrite Rpow_mult_distr; have -> : Nat.add (Nat.mul 2 lc) 1 = (2 * lc + 1)%N by [].
  by rewrite sqrt_pow //; ring.
Qed.
Lemma incident_closed e : (0 <= e)%re -> v_closed (va c e) = false.
Proof.
  move=> e0; have [mu [ratio [a [a' [[m0 r0 _ _] [_ [_ [_ [_ [_ [[_ [_ q0]] Ev]]]]]]]]]]] := incident_wave.
  rewrite Ev /neutronValues /= q0 /belowThreshold; case: Rlt_dec => // h.
  by have := Rmult_le_pos ratio e (Rlt_le _ _ r0) e0; lra.
Qed.
Lemma sqrt_abs_cont r : continuity_pt (fun e => r * sqrt (Rabs e))%re 0%re.
Proof.
  apply: cont_mul; first exact: cont_const.
  apply: (@cont_comp sqrt); first exact: abs_cont.
  by rewrite abs_0; apply: continuity_pt_sqrt; lra.
Qed.
Lemma abs_pow_cont n : continuity_pt (fun e => Rabs e ^ n)%re 0%re.
Proof. by apply: (@cont_comp (fun y => y ^ n)%re); [exact: abs_cont | exact: pow_cont]. Qed.
Lemma ratio_P_cont : continuity_pt ratio_P 0%re.
Proof.
  have [_ [_ [_ [_ [_ [Hl _]]]]]] := incident_wave; have Hl' : (lc <= 4)%coq_nat by apply/leP.
  apply: cont_mul; first exact: abs_pow_cont.
  apply: cont_mul; first exact: cont_const.
  apply: (@cont_comp (reduced_P lc)); first exact: sqrt_abs_cont.
  exact: reduced_P_cont.
Qed.
Lemma ratio_phi_cont : continuity_pt ratio_phi 0%re.
Proof.
  have [mu [ratio [a [a' [[m0 r0 Ha Ha'] [Hl [W [Ea [Ea' [K _]]]]]]]]]] := incident_wave; have Hl' : (lc <= 4)%coq_nat by apply/leP.
  apply: cont_mul; first exact: abs_pow_cont.
  apply: cont_mul; first exact: cont_const.
  apply: (@cont_ext (fun e => reduced_phi lc (Rabs (kap * scattering_radius c * sqrt (Rabs e))))) => [e|].
    rewrite [Rabs (_ * _)]Rabs_right //; apply: Rle_ge; apply: Rmult_le_pos; last exact: sqrt_pos.
    by apply: Rmult_le_pos; [exact: sqrt_pos | rewrite Ea'; lra].
  apply: (@cont_comp (fun x => reduced_phi lc (Rabs x))); first exact: sqrt_abs_cont.
  by rewrite abs_0 sqrt_0 Rmult_0_r; exact: reduced_phi_cont.
Qed.
Lemma pow_0_sub : (0 ^ (lc - l) = if lc == l then 1 else 0)%re.
Proof.
  case: eqP => [->|ne]; first by rewrite subnn.
  have : (0 < lc - l)%N by rewrite subn_gt0 ltn_neqAle le andbT; apply/eqP => h; apply: ne.
  by case: (lc - l)%N => // n _; rewrite /= Rmult_0_l.
Qed.
Lemma ratio_P_0 : ratio_P 0%re = lead_P hbar l c.
Proof.
  have [_ [_ [_ [_ [_ [Hl _]]]]]] := incident_wave; have Hl' : (lc <= 4)%coq_nat by apply/leP.
  rewrite /ratio_P abs_0 sqrt_0 Rmult_0_r pow_0_sub reduced_P_0 // /lead_P -/lc -/kap.
  by case: eqP => [->|_]; rewrite ?Rmult_1_l ?Rmult_0_l.
Qed.
Lemma ratio_phi_0 : ratio_phi 0%re = lead_phi hbar l c.
Proof.
  rewrite /ratio_phi abs_0 sqrt_0 Rmult_0_r pow_0_sub /reduced_phi; case: Req_EM_T => // _.
  by rewrite /lead_phi -/lc -/kap; case: eqP => [->|_]; rewrite ?Rmult_1_l ?Rmult_0_l.
Qed.
Lemma lead_P_ge0 : (0 <= lead_P hbar l c)%re.
Proof.
  have [mu [ratio [a [a' [[m0 r0 Ha Ha'] [Hl [W [Ea [Ea' [K _]]]]]]]]]] := incident_wave.
  rewrite /lead_P; case: eqP => _; last lra.
  have o := odd_factorial_pos l.
  apply: Rmult_le_pos; last by apply: Rlt_le; apply: Rinv_0_lt_compat; apply: Rmult_lt_0_compat.
  by apply: pow_le; apply: Rmult_le_pos; [exact: sqrt_pos | rewrite Ea; lra].
Qed.
End Incident.
End Channels.

(** R_L as long as no channel opens or closes *)
Section Matrix.
Variables (n : nat) (b : boundary_option) (table : seq resonance) (a : R) (vs : R -> seq values).
Let near (e : R) : Prop := (Rabs (e - 0) < a)%re.
Hypothesis a0 : (0 < a)%re.
Hypothesis reg : forall e, near e -> regular e table.
Hypothesis ok : forall e (i : 'I_n), near e -> (0 <= v_P (val_of (vs e) i))%re /\
  (v_closed (val_of (vs e) i) \/ (0 < v_P (val_of (vs e) i))%re \/ lvalue b (val_of (vs e) i) = 0).
Hypothesis same : forall e (i : 'I_n), near e -> v_closed (val_of (vs e) i) = v_closed (val_of (vs 0%re) i).
Hypothesis contL : forall i : 'I_n, ccont (fun e => lvalue b (val_of (vs e) i)) 0%re.
Lemma RL_cont : mcont (RL_at n b table vs) 0%re.
Proof.
  have near0 : near 0%re by rewrite /near Rminus_0_r abs_0.
  have cR : mcont (fun e => R_spec n e table (vs e)) 0%re.
    move=> p q; apply: (@ccont_near (fun e => \sum_(k < size table) rcx (open_width (vs 0%re) (nth (Resonance 0%re [::] 0%re) table k) p * open_width (vs 0%re) (nth (Resonance 0%re [::] 0%re) table k) q)%re / denominator e (nth (Resonance 0%re [::] 0%re) table k)) _ 0%re a a0).
      move=> e He; rewrite mxE (big_nth (Resonance 0%re [::] 0%re)) big_mkord; apply: eq_bigr => k _.
      by rewrite /open_width /isclosed !(same _ He).
    apply: ccont_sum => k _; apply: ccont_mul; first exact: ccont_const.
    have kin : List.In (nth (Resonance 0%re [::] 0%re) table k) table.
      have := ltn_ord k; move: (nat_of_ord k) => m.
      by elim: (table) m => //= r l IH [|m] lt; [left | right; apply: IH].
    apply: ccont_inv.
    + apply: ccont_Cx; last exact: cont_const.
      by apply: cont_sub; [exact: cont_const | exact: cont_id].
    + by case; have := reg near0 kin => -[h|h] /= h1 h2; [apply: h; lra | nra].
  have cL : mcont (fun e => L_spec n b (vs e)) 0%re.
    move=> p q; apply: (@ccont_ext (fun e => lvalue b (val_of (vs e) p) *+ (p == q))).
      by move=> e; rewrite mxE mxE; congr (_ *+ _); rewrite /lvalue; case: (b).
    by case: (p == q); [exact: contL | exact: ccont_const].
  apply: mcont_mul => //; apply: (@mcont_inv _ _ 0%re a _ a0).
    by apply: mcont_sub; [exact: mcont_const | exact: mcont_mul].
  by move=> e He; exact: (@near_unit n b table 0%re a vs ok e He).
Qed.
End Matrix.
