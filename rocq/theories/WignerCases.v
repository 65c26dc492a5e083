(** The limits for one incident s wave, and a group for which they can be computed. *)
From Coq Require Import Reals Lra String ZArith.
From mathcomp Require Import all_ssreflect all_algebra.
From Verif Require Import Outcome QuantumModel SpinFactorModel HardSphereModel KinematicsModel CoulombModel Cplx RMatrixModel RMatrixSpec
  ChannelModel SpinGroupModel SpinGroupSpec SpinGroupProofs SpinGroupEvalProofs SpinGroupChannelProofs SpinGroupTheorems
  ContinuitySpec ContinuityProofs ContinuityChannelProofs ContinuityTheorems ContinuityCases WignerSpec WignerProofs WignerTheorems.
Set Implicit Arguments.
Unset Strict Implicit.
Unset Printing Implicit Defensive.
Import GRing.Theory.
Local Open Scope ring_scope.

Lemma only_one n (P : pred 'I_n) (c : 'I_n) (f : 'I_n -> R) : (forall i, P i = (i == c)) -> \big[Rplus/0%re]_(i | P i) f i = f c.
Proof.
  move=> H; rewrite (bigD1 c) /=; last by rewrite H.
  by rewrite big1 ?Rplus_0_r // => i /andP [h1 h2]; rewrite H (negbTE h2) in h1.
Qed.

Lemma scattering_length hbar b channels rs g (c : 'I_(gsize g)) k (A : 'M[cx]_(gsize g)) :
  (0 < hbar)%re -> constructed channels rs g -> (forall c, List.In c channels -> slow b c) ->
  (forall i, isIncidentChannel (chan i) = (i == c)) -> (forall i, (c_reaction (chan i) == k) = (i == c)) ->
  ql (c_numbers (chan c)) = 0%N ->
  elastic_limit hbar 0 A k = (4 * pi_value * spinFactor (chan c) *
    norm2 (rcx (scattering_radius (chan c)) - rcx (channel_radius (chan c)) * A c c)%R)%re.
Proof.
  move=> hb con sl inc ik l0.
  have [t [made _]] := constructed_made con; have [Eg _] := makeGroup_ok made.
  have [first [F1 [F2 [ic inn]]]] := first_incident_spec made.
  have Ec : first_incident g = chan c.
    have [_ [_ [Ei _]]] := makeGroup_ok made.
    have [i [lt E]] : exists i, (i < gsize g)%N /\ first_incident g = nth dummy_channel (g_channels g) i.
      exists (head 0%N (g_incident g)); split=> //.
      have := incident_in_range made; move: Ei; case: (g_incident g) (makeGroup_ok made) => [|i s] H _ R.
        by move: H => -[_ [_ [_ [_ [_ [_ /(_ erefl)]]]]]].
      by apply: R; rewrite inE eqxx.
    by have := inc (Ordinal lt); rewrite /chan /= -E ic => /esym /eqP <-.
  have inc' : List.In (chan c) channels by rewrite -Eg -Ec.
  have icc : isIncidentChannel (chan c) by rewrite inc eqxx.
  have [mu [ratio [a [a' [[m0 r0 Ha Ha'] [Hl [W [Ea [Ea' [K _]]]]]]]]]] := incident_wave 0%re (fun _ _ _ => UB "") hb (sl _ inc') icc.
  have k0 : (0 < kappa2 hbar (chan c))%re.
    rewrite K; apply: Rdiv_lt_0_compat; last by apply: Rmult_lt_0_compat.
    by apply: Rmult_lt_0_compat => //; lra.
  rewrite /elastic_limit (only_one _ inc) (only_one _ ik) eqxx Ec /lead_P /lead_phi /lead_factor l0 /= !Rmult_1_r.
  set q := kappa2 _ _ in k0 *; set s := spinFactor _; rewrite Ea Ea'.
  have sq : (sqrt q * sqrt q = q)%re by apply: sqrt_sqrt; lra.
  have -> : (sqrt q * a / 1 = sqrt q * a)%re by field.
  have -> : (sqrt q * a' / 1 = sqrt q * a')%re by field.
  rewrite sqrt_sqrt; last by apply: Rmult_le_pos; [exact: sqrt_pos | lra].
  have -> : rcx (sqrt q * a')%re - rcx (sqrt q * a)%re * A c c = rcx (sqrt q) * (rcx a' - rcx a * A c c).
    by apply: cx_ext; rewrite !cxE /=; ring.
  by rewrite norm2M norm2_rcx sq; field; lra.
Qed.

Section Example.
Variables (epsilon0 : R) (cwf : nat -> R -> R -> outcome coulomb).
Notation g := (jp_group 0%re).
Lemma jp_slow c : List.In c (jp_channels 0%re) -> slow Constant c.
Proof.
  have [m1 [m2 m3]] := jp_mu.
  case=> [<-|[<-|[]]]; (split; first by exists (1/2)%re; split; [exact: m2 | lra]).
  - split=> //; split; first by rewrite /=; ring.
    split; first by exists (1/2)%re; split; [exact: m1 | lra].
    split; first by exists 1%re, 1%re; split=> //; lra.
    by split=> // _; right; rewrite /=; ring.
  - split=> //; split; first by rewrite /=; ring.
    split; first by exists (1/2)%re; split; [exact: m3 | lra].
    split; first by exists 1%re, 1%re; split=> //; lra.
    by split=> //= h; lra.
Qed.
Let v1 := Values 0%re 0%re 0%re 0%re 0%re false.
Lemma jp_at_zero vs (A : 'M[cx]_(gsize g)) : groupValues 1%re epsilon0 cwf Constant g 0%re = Ok (Some vs) ->
  is_RL Constant 0%re [:: jp_level] vs A ->
  v_P (val_of vs (ord0 : 'I_(gsize g))) = 0%re /\ A ord0 ord0 = Cx (1/2)%re (1/2)%re /\ A ord0 (lift ord0 ord0) = 0.
Proof.
  have [m1 [m2 m3]] := jp_mu.
  rewrite /groupValues [mapM _ _]/=.
  rewrite (@neutron_values 1%re epsilon0 cwf Constant jp_elastic (1/2)%re (1/2)%re 1%re 1%re 0%re) //; last by rewrite /=; ring.
  rewrite (@neutron_values 1%re epsilon0 cwf Constant (jp_inelastic 0%re) (1/2)%re (1/2)%re 1%re 1%re 0%re) //; last by rewrite /=; ring.
  rewrite /= => -[<-].
  rewrite /neutronValues /=.
  have z : waveNumber 1%re (1/2)%re (1/2)%re 0%re 0%re = 0%re.
    by rewrite /waveNumber Rmult_0_l Rplus_0_r Rabs_R0 Rmult_0_r sqrt_0; field.
  have o1 : belowThreshold (1/2)%re 0%re 0%re = false by rewrite /belowThreshold; case: Rlt_dec => //; lra.
  have o2 : belowThreshold (1/2)%re (-1)%re 0%re = true by rewrite /belowThreshold; case: Rlt_dec => //; lra.
  rewrite z o1 o2 Rmult_0_l; set w1 := Values _ _ _ _ _ false; set w2 := Values _ _ _ _ _ true.
  have wP : v_P w1 = 0%re by [].
  have wS : v_S w1 = 0%re by [].
  move=> [_ E]; split=> //.
  have RL0 : R_spec (gsize g) 0%re [:: jp_level] [:: w1; w2] *m L_spec (gsize g) Constant [:: w1; w2] = 0.
    apply/matrixP => i j; rewrite mul_mx_diag !mxE big_seq1 /open_width /isclosed /val_of.
    case: j => -[|[|j]] Hj //=; last by rewrite Rmult_0_r rcx0 !mul0r.
    rewrite [X in _ * X](_ : _ = 0) ?mulr0 //; apply: cx_ext => /=; last by [].
    by have -> : Sv 0 0 = 0%re; [ | ring].
  move: E; rewrite RL0 subr0 mul1mx => ->.
  rewrite !mxE !big_seq1 /open_width /isclosed /val_of /width /denominator /=; split.
    by apply: cx_ext; rewrite /= /norm2 /=; field.
  by rewrite Rmult_0_r rcx0 mul0r.
Qed.
Lemma jp_limits vs (A : 'M[cx]_(gsize g)) : groupValues 1%re epsilon0 cwf Constant g 0%re = Ok (Some vs) ->
  is_RL Constant 0%re [:: jp_level] vs A ->
  reaction_limit 1%re 0 vs A (capture_id g) = (4 * pi_value / sqrt 2)%re /\
  elastic_limit 1%re 0 A (c_reaction jp_elastic) = (2 * pi_value)%re.
Proof.
  move=> E rl; have [P0 [A0 A1]] := jp_at_zero E rl; have [m1 [m2 m3]] := jp_mu.
  have sf : spinFactor (jp_elastic) = 1%re.
    by rewrite /spinFactor /statisticalSpinFactor /spin_value /=; field.
  have inc (i : 'I_(gsize g)) : isIncidentChannel (chan i) = (i == ord0) by case: i => -[|[|i]] Hi.
  have s2 : (0 < sqrt 2)%re by apply: sqrt_lt_R0; lra.
  have ss : (sqrt 2 * sqrt 2 = 2)%re by apply: sqrt_sqrt; lra.
  have K : kappa2 1%re jp_elastic = (1/2)%re by rewrite /kappa2 m1 m2; field.
  split.
  - rewrite /reaction_limit (only_one _ inc) eqxx /lead_P /lead_factor.
    have -> : first_incident g = jp_elastic by [].
    have -> : chan (ord0 : 'I_(gsize g)) = jp_elastic by [].
    rewrite sf K /=.
    have -> : channel_radius jp_elastic = 1%re by [].
    rewrite [X in (X + _)%re]big_pred0; last by case=> -[|[|i]] Hi.
    rewrite !big_ord_recl big_ord0 /= P0 A0 A1 /=.
    have -> : sqrt (1/2) = (1 / sqrt 2)%re by rewrite sqrt_div ?sqrt_1 //; lra.
    have -> : norm2 0 = 0%re by rewrite /norm2 /=; ring.
    by move: (v_P _) (norm2 _) => p q; field; lra.
  - rewrite (@scattering_length 1%re Constant (jp_channels 0%re) [:: jp_level] g ord0) //; last 4 first.
    + exact: Rlt_0_1.
    + exact: jp_constructed.
    + exact: jp_slow.
    + by case=> -[|[|i]] Hi.
    have -> : chan (ord0 : 'I_(gsize g)) = jp_elastic by [].
    rewrite sf A0 /scattering_radius /channel_radius /= /norm2 !cxE /=; field.
Qed.
End Example.
