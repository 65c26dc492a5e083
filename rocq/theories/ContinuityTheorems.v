(** Cross sections are continuous functions of the energy. *)
From Coq Require Import Reals Lra String.
From mathcomp Require Import all_ssreflect all_algebra.
From Verif Require Import Outcome HardSphereModel HardSphereProofs KinematicsModel CoulombModel Cplx RMatrixModel RMatrixSpec
  RMatrixObservableProofs ChannelModel SpinGroupModel SpinGroupSpec SpinGroupProofs SpinGroupEvalProofs SpinGroupChannelProofs SpinGroupTheorems SymmetryTheorems
  ContinuitySpec ContinuityProofs ContinuityMatrixProofs ContinuityChannelProofs.
Set Implicit Arguments.
Unset Strict Implicit.
Unset Printing Implicit Defensive.
Import GRing.Theory.
Local Open Scope ring_scope.

Lemma cont_cases (t : R -> bool) (f g : R -> R) x : continuity_pt f x -> continuity_pt g x -> f x = g x ->
  continuity_pt (fun e => if t e then f e else g e) x.
Proof.
  move=> Hf Hg E d d0; have [a [a0 Ha]] := Hf d d0; have [c [c0 Hc]] := Hg d d0.
  exists (Rmin a c); split; first exact: Rmin_pos.
  move=> y [Hd Hy]; have ex : (if t x then f x else g x) = f x by case: (t x).
  rewrite ex; case: (t y).
  - by apply: Ha; split=> //; apply: Rlt_le_trans Hy (Rmin_l _ _).
  - by rewrite E; apply: Hc; split=> //; apply: Rlt_le_trans Hy (Rmin_r _ _).
Qed.

Section Channels.
Variables (hbar epsilon0 : R) (cwf : nat -> R -> R -> outcome coulomb) (b : boundary_option).
Hypothesis hb : (0 < hbar)%re.
Notation cv := (channelValues hbar epsilon0 cwf b).
Definition vals (c : channel) (e : R) : values := match cv c e with Ok (Some v) => v | _ => no_values end.

Record steady (x : R) (c : channel) : Prop := Steady
  { st_near : exists a, (0 < a)%re /\ forall e, (Rabs (e - x) < a)%re ->
      cv c e = Ok (Some (vals c e)) /\ (0 <= v_P (vals c e))%re /\ v_w (vals c e) = 0%re /\
      (v_closed (vals c e) \/ (0 < v_P (vals c e))%re \/ lvalue b (vals c e) = 0);
    st_P : continuity_pt (fun e => effP (vals c e)) x;
    st_L : ccont (fun e => effL b (vals c e)) x;
    st_phi : isIncidentChannel c -> ccont (fun e => cis (- (2 * v_phi (vals c e)))%re) x }.

Lemma line_cont ratio q x : continuity_pt (fun e => e * ratio + q)%re x.
Proof.
  apply: cont_add; last exact: cont_const.
  by apply: cont_mul; [exact: cont_id | exact: cont_const].
Qed.
Lemma wave_cont mu ratio q x : (0 < mu)%re -> continuity_pt (waveNumber hbar mu ratio q) x.
Proof.
  move=> m0; apply: cont_div; [|exact: cont_const|lra].
  apply: (@cont_comp sqrt).
    apply: cont_mul; first exact: cont_const.
    by apply: (@cont_comp Rabs); [exact: line_cont | exact: Rcontinuity_abs].
  by apply: continuity_pt_sqrt; apply: Rmult_le_pos; [lra | exact: Rabs_pos].
Qed.
(* near an energy that is no threshold the channel stays open or stays closed *)
Lemma below_near ratio q x : (x * ratio + q <> 0)%re -> exists a, (0 < a)%re /\ forall e, (Rabs (e - x) < a)%re ->
  (e * ratio + q <> 0)%re /\ belowThreshold ratio q e = belowThreshold ratio q x.
Proof.
  move=> n0; have H := line_cont ratio q x.
  case: (H (Rabs (x * ratio + q))) => [|a [a0 Ha]]; first exact: Rabs_pos_lt.
  exists a; split=> // e He; case: (Req_EM_T e x) => [->//|ne].
  have := Ha e; rewrite /dist /= /R_dist => /(_ (Logic.conj (Logic.conj Logic.I (not_eq_sym ne)) He)).
  rewrite /belowThreshold [(ratio * e)%re]Rmult_comm [(ratio * x)%re]Rmult_comm.
  set y := (e * ratio + q)%re; set z := (x * ratio + q)%re in n0 *.
  by rewrite /Rabs; do 2 case: Rcase_abs => ?; move=> h; (split; first lra); do 2 case: Rlt_dec => ? //; lra.
Qed.

Lemma same_closed (f : R -> R) (t : bool) x : continuity_pt f x -> continuity_pt (fun e => if t then 0%re else f e) x.
Proof. by case: t => // _; exact: cont_const. Qed.
Lemma csame_closed (f : R -> cx) (t : bool) x : ccont f x -> ccont (fun e => if t then 0 else f e) x.
Proof. by case: t => // _; exact: ccont_const. Qed.

(* photon and fission channels *)
Lemma fixed_steady x c (f : boundary_option -> bool -> values) :
  (forall e, cv c e = Ok (Some (f b (channelBelowThreshold c e)))) ->
  (forall t, f b t = Values 1%re (v_S (f b true)) (v_B (f b true)) 0%re 0%re t) ->
  (forall ratio, pp_ratio (c_incident c) = Some ratio -> (x * ratio + c_q c <> 0)%re) -> steady x c.
Proof.
  move=> E F n0; have Ev e : vals c e = f b (channelBelowThreshold c e) by rewrite /vals E.
  have [d [d0 Hd]] : exists d, (0 < d)%re /\ forall e, (Rabs (e - x) < d)%re -> vals c e = vals c x.
    case Er: (pp_ratio (c_incident c)) => [ratio|]; last first.
      by exists 1%re; split; [exact: Rlt_0_1 | move=> e _; rewrite !Ev /channelBelowThreshold Er].
    have [d [d0 Hd]] := below_near (n0 _ Er); exists d; split=> // e /Hd [_ h].
    by rewrite !Ev /channelBelowThreshold Er h.
  split.
  - exists d; split=> // e He; rewrite E Ev F /=; split=> //; split; first lra.
    by split=> //; right; left; lra.
  - by apply: (@cont_near (fun _ => effP (vals c x)) _ x d d0) => [e /Hd ->|] //; exact: cont_const.
  - by apply: (@ccont_near (fun _ => effL b (vals c x)) _ x d d0) => [e /Hd ->|] //; exact: ccont_const.
  - by move=> _; apply: (@ccont_near (fun _ => cis (- (2 * v_phi (vals c x)))%re) _ x d d0) => [e /Hd ->|] //; exact: ccont_const.
Qed.

Definition neutronValues (c : channel) (mu ratio a a' e : R) : values :=
  let l := QuantumModel.ql (c_numbers c) in let k := waveNumber hbar mu ratio (c_q c) in
  Values (Pv l (k e * a)) (if b is Constant then Sv l (k e * a) else 0)%re (c_boundary c)
         (phiv l (k e * a')) 0%re (belowThreshold ratio (c_q c) e).
Lemma neutron_values c mu ratio a a' e : c_type c = Neutron -> (QuantumModel.ql (c_numbers c) <= 4)%N ->
  (p_charge (pp_particle (c_pair c)) * p_charge (pp_residual (c_pair c)) = 0)%re ->
  pp_reduced (c_pair c) = Some mu -> pp_ratio (c_incident c) = Some ratio ->
  c_radii c = radii2 (Fixed a) (Fixed a') ->
  cv c e = Ok (Some (neutronValues c mu ratio a a' e)).
Proof.
  move=> Et Hl Hz Emu Er Ea; have Hl' : (QuantumModel.ql (c_numbers c) <= 4)%coq_nat by apply/leP.
  rewrite /channelValues /channelPenetrability /channelShiftFactor /channelPhaseShift
    /channelCoulombShift /channelFunction Et Ea /= /channelEta /channelWaveNumber /channelBelowThreshold Emu Er.
  case: Req_EM_T => // _; rewrite /calculatePenetrability /calculateShiftFactor /calculatePhaseShift.
  by rewrite Pv_ok // Sv_ok // phiv_ok //= /neutronValues; case: (b).
Qed.

Lemma plain_steady x c : plain b x c -> steady x c.
Proof.
  rewrite /plain; case Et: (c_type c) => // H.
  - have [Hl [Hz [[mu [ratio [Emu [Hmu [Er thr]]]]] [a [a' [Ea [Ha Ha']]]]]]] := H.
    have Hl' : (QuantumModel.ql (c_numbers c) <= 4)%coq_nat by apply/leP.
    set l := QuantumModel.ql _ in Hl Hl' thr.
    set k := waveNumber hbar mu ratio (c_q c).
    have kc : continuity_pt k x by exact: wave_cont.
    pose V e := Values (Pv l (k e * a)) (if b is Constant then Sv l (k e * a) else 0)%re (c_boundary c)
                 (phiv l (k e * a')) 0%re (belowThreshold ratio (c_q c) e).
    have E e : cv c e = Ok (Some (V e)).
      exact: (neutron_values e Et Hl Hz Emu Er Ea).
    have Ev e : vals c e = V e by rewrite /vals E.
    have ac r : continuity_pt (fun e => k e * r)%re x by apply: cont_mul => //; exact: cont_const.
    have Pc : continuity_pt (fun e => Pv l (k e * a)) x by apply: (@cont_comp (Pv l)) => //; exact: Pv_cont.
    have Sc : continuity_pt (fun e => if b is Constant then Sv l (k e * a) - c_boundary c else 0)%re x.
      case: (b); last exact: cont_const.
      apply: cont_sub; last exact: cont_const.
      by apply: (@cont_comp (Sv l)) => //; exact: Sv_cont.
    have Lc : ccont (fun e => Cx (if b is Constant then Sv l (k e * a) - c_boundary c else 0)%re (Pv l (k e * a))) x.
      exact: ccont_Cx.
    have LE e : lvalue b (vals c e) = Cx (if b is Constant then Sv l (k e * a) - c_boundary c else 0)%re (Pv l (k e * a)).
      by rewrite Ev /lvalue /V; case: (b).
    have kpos e : (e * ratio + c_q c <> 0)%re -> (0 < k e * a /\ 0 < k e * a' /\ 0 < Pv l (k e * a))%re.
      move=> ne; have kp := wave_pos hb Hmu ne.
      have r0 : (0 < k e * a)%re by apply: Rmult_lt_0_compat.
      split=> //; split; first by apply: Rmult_lt_0_compat.
      by have [Pp _] := P_range _ _ r0 Hl'; rewrite /Pv (penetrability_code _ _ r0 Hl').
    have k0 e : (e * ratio + c_q c = 0)%re -> k e = 0%re.
      by move=> h; rewrite /k /waveNumber h Rabs_R0 Rmult_0_r sqrt_0 /Rdiv Rmult_0_l.
    have Pnn e : (0 <= Pv l (k e * a))%re.
      case: (Req_EM_T (e * ratio + c_q c) 0) => h; last by have := kpos e h; lra.
      by rewrite k0 // Rmult_0_l Pv_0 //; lra.
    case: (Req_EM_T (x * ratio + c_q c) 0) => h0.
    + have [ni bd] : isIncidentChannel c = false /\ (b = ShiftFactor \/ c_boundary c = (- INR l)%re) by case: thr.
      have z e : (e * ratio + c_q c = 0)%re -> Pv l (k e * a) = 0%re /\ (if b is Constant then Sv l (k e * a) - c_boundary c else 0)%re = 0%re.
        move=> h; rewrite k0 // Rmult_0_l Pv_0 // Sv_0 //; split=> //.
        by case: bd => [->//|->]; case: (b) => //; ring.
      have [zP zS] := z x h0.
      split.
      * exists 1%re; split; first exact: Rlt_0_1.
        move=> e _; rewrite LE Ev /=; split; first exact: E.
        split; first exact: Pnn.
        split=> //; right; case: (Req_EM_T (e * ratio + c_q c) 0) => h; last by left; have := kpos e h; lra.
        by right; have [-> ->] := z e h.
      * apply: (@cont_ext (fun e => if belowThreshold ratio (c_q c) e then 0%re else Pv l (k e * a))) => [y|].
          by rewrite /effP Ev.
        by apply: cont_cases => //; exact: cont_const.
      * apply: (@ccont_ext (fun e => if belowThreshold ratio (c_q c) e then 0 else Cx (if b is Constant then Sv l (k e * a) - c_boundary c else 0)%re (Pv l (k e * a)))) => [y|].
          by rewrite /effL LE Ev.
        split.
        -- apply: (@cont_ext (fun e => if belowThreshold ratio (c_q c) e then 0%re else (if b is Constant then Sv l (k e * a) - c_boundary c else 0)%re)) => [y|]; first by case: (belowThreshold _ _ y).
           by apply: cont_cases => //; exact: cont_const.
        -- apply: (@cont_ext (fun e => if belowThreshold ratio (c_q c) e then 0%re else Pv l (k e * a))) => [y|]; first by case: (belowThreshold _ _ y).
           by apply: cont_cases => //; exact: cont_const.
      * by rewrite ni.
    + have [d [d0 Hd]] := below_near h0.
      split.
      * exists d; split=> // e He; have [ne _] := Hd e He; have [_ [_ pp]] := kpos e ne.
        by rewrite E Ev /=; split=> //; split; [lra | split=> //; right; left].
      * apply: (@cont_near (fun e => if belowThreshold ratio (c_q c) x then 0%re else Pv l (k e * a)) _ x d d0); last exact: same_closed.
        by move=> e /Hd [_ be]; rewrite /effP Ev /= be.
      * apply: (@ccont_near (fun e => if belowThreshold ratio (c_q c) x then 0 else Cx (if b is Constant then Sv l (k e * a) - c_boundary c else 0)%re (Pv l (k e * a))) _ x d d0); last exact: csame_closed.
        by move=> e /Hd [_ be]; rewrite /effL LE Ev /= be.
      * move=> _; have [_ [r' _]] := kpos x h0; have [c1 c2] := double_cont _ _ Hl' r'.
        apply: (@ccont_ext (fun e => Cx (cos (2 * phiv l (k e * a'))) (- sin (2 * phiv l (k e * a')))%re)) => [y|].
          by rewrite Ev /cis cos_neg sin_neg.
        apply: ccont_Cx; first by apply: (@cont_comp (fun r => cos (2 * phiv l r))).
        by apply: cont_opp; apply: (@cont_comp (fun r => sin (2 * phiv l r))).
  - have [rad n0] := H.
    apply: (@fixed_steady x c (fun _ t => Values 1%re 0%re (c_boundary c) 0%re 0%re t)) => // e.
    rewrite /channelValues /channelPenetrability /channelShiftFactor /channelPhaseShift /channelCoulombShift /channelFunction Et.
    by case: rad => [[a ->]|[a [a' ->]]] /=; case: (b).
  - have [rad n0] := H.
    apply: (@fixed_steady x c (fun _ t => Values 1%re 0%re (c_boundary c) 0%re 0%re t)) => // e.
    rewrite /channelValues /channelPenetrability /channelShiftFactor /channelPhaseShift /channelCoulombShift /channelFunction Et.
    by case: rad => [[a ->]|[a [a' ->]]] /=; case: (b).
Qed.
End Channels.

Lemma common (T : Type) (l : list T) (Q : T -> R -> Prop) x :
  (forall c, List.In c l -> exists a, (0 < a)%re /\ forall e, (Rabs (e - x) < a)%re -> Q c e) ->
  exists a, (0 < a)%re /\ forall e, (Rabs (e - x) < a)%re -> forall c, List.In c l -> Q c e.
Proof.
  elim: l => [|c l IH] H; first by exists 1%re; split; [exact: Rlt_0_1 | move=> e _ c []].
  have [|a [a0 Ha]] := IH; first by move=> c' h; apply: H; right.
  have [d [d0 Hd]] := H c (or_introl erefl).
  exists (Rmin a d); split; first exact: Rmin_pos.
  move=> e He c' [<-|h].
  - by apply: Hd; apply: Rlt_le_trans He (Rmin_r _ _).
  - by apply: Ha => //; apply: Rlt_le_trans He (Rmin_l _ _).
Qed.
Lemma regular_near x rs : regular x rs -> exists a, (0 < a)%re /\ forall e, (Rabs (e - x) < a)%re -> regular e rs.
Proof.
  move=> H; apply: (@common _ rs (fun r e => rs_energy r <> e \/ rs_eliminated r <> 0%re)) => r /H [h|h].
  - exists (Rabs (rs_energy r - x)); split; first by apply: Rabs_pos_lt; lra.
    by move=> e He; left=> E; move: He; rewrite E; lra.
  - by exists 1%re; split; [exact: Rlt_0_1 | move=> e _; right].
Qed.

Section Main.
Variables (hbar epsilon0 : R) (cwf : nat -> R -> R -> outcome coulomb) (b : boundary_option).
Hypothesis hb : (0 < hbar)%re.
Variables (channels : seq channel) (rs : seq resonance) (g : group) (x factor : R).
Hypotheses (con : constructed channels rs g) (pl : forall c, List.In c channels -> plain b x c).
Hypotheses (reg : regular x rs) (fac : channelFactor hbar (first_incident g) x = Some factor).
Notation n := (gsize g).
Let Eg : g_channels g = channels.
Proof. by have [t [made _]] := constructed_made con; have [E1 _] := makeGroup_ok made. Qed.
Let vs e := [seq vals hbar epsilon0 cwf b c e | c <- g_channels g].
Let v e (i : 'I_n) : val_of (vs e) i = vals hbar epsilon0 cwf b (chan i) e.
Proof. by rewrite /val_of /vs (nth_map dummy_channel) // ltn_ord. Qed.
Let chan_in (i : 'I_n) : List.In (chan i) (g_channels g).
Proof.
  rewrite /chan; have := ltn_ord i; rewrite {2}/gsize.
  by elim: (g_channels g) (nat_of_ord i) => //= y l IH [|j] lt; [left | right; apply: IH].
Qed.
Let st c : List.In c (g_channels g) -> steady hbar epsilon0 cwf b x c.
Proof. by rewrite Eg => /pl; exact: plain_steady. Qed.

Let fac_of e := odflt 0%re (channelFactor hbar (first_incident g) e).
Let fac_near : continuity_pt fac_of x /\ exists a, (0 < a)%re /\ forall e, (Rabs (e - x) < a)%re -> channelFactor hbar (first_incident g) e = Some (fac_of e).
Proof.
  move: fac; rewrite /fac_of /channelFactor /channelWaveNumber.
  case: (pp_reduced _) => [mu|] //; case: (pp_ratio _) => [ratio|] //.
  set q := c_q _; set k := waveNumber hbar mu ratio q; rewrite /fdiv -/(k x).
  case: Req_EM_T => // kk _.
  have kc : continuity_pt k x.
    apply: cont_div; [|exact: cont_const|lra].
    apply: (@cont_comp sqrt).
      apply: cont_mul; first exact: cont_const.
      by apply: (@cont_comp Rabs); [exact: line_cont | exact: Rcontinuity_abs].
    apply: continuity_pt_sqrt; case: (Rle_lt_dec 0 (2 * mu * Rabs (x * ratio + q))) => // h.
    by case: kk; rewrite /k /waveNumber (sqrt_neg_0 _ (Rlt_le _ _ h)) /Rdiv !Rmult_0_l.
  have k2c : continuity_pt (fun e => k e * k e)%re x by apply: cont_mul.
  have [a [a0 Ha]] := pos_near k2c kk; split.
  - apply: (@cont_near (fun e => pi_value / (k e * k e) * spinFactor (first_incident g))%re _ x a a0).
      by move=> e /Ha h; rewrite -/(k e); case: Req_EM_T.
    apply: cont_mul; last exact: cont_const.
    by apply: cont_div => //; exact: cont_const.
  - by exists a; split=> // e /Ha h; rewrite -/(k e); case: Req_EM_T.
Qed.

Let contrib e := @contribution g (vs e) (RL_at n b rs vs e) (fac_of e).
Lemma continuous : continuous_at hbar epsilon0 cwf b g x.
Proof.
  have [t [made [Ers sz]]] := constructed_made con; have [_ [Et _]] := makeGroup_ok made.
  have szg : sized n rs by rewrite /gsize Eg -Ers.
  have [fc [a1 [a10 H1]]] := fac_near.
  have [a2 [a20 H2]] := regular_near reg.
  have [a3 [a30 H3]] := common (fun c h => st_near (st h)).
  set a := Rmin a1 (Rmin a2 a3).
  have a0 : (0 < a)%re by do 2 apply: Rmin_pos => //.
  have near e : (Rabs (e - x) < a)%re -> (Rabs (e - x) < a1 /\ Rabs (e - x) < a2 /\ Rabs (e - x) < a3)%re.
    move=> h; have := Rmin_l a1 (Rmin a2 a3); have := Rmin_r a1 (Rmin a2 a3); have := Rmin_l a2 a3; have := Rmin_r a2 a3.
    by move: h; rewrite /a; lra.
  have szv e : (Rabs (e - x) < a)%re -> size (vs e) = n by rewrite size_map.
  have reg' e : (Rabs (e - x) < a)%re -> regular e rs by move=> /near [_ [h _]]; exact: H2.
  have ok e i : (Rabs (e - x) < a)%re -> (0 <= v_P (@val_of n (vs e) i))%re /\
      (v_closed (@val_of n (vs e) i) \/ (0 < v_P (@val_of n (vs e) i))%re \/ lvalue b (@val_of n (vs e) i) = 0).
    by move=> /near [_ [_ /H3 /(_ _ (chan_in i)) [_ [h1 [_ h2]]]]]; rewrite v.
  have w0 e i : (Rabs (e - x) < a)%re -> v_w (@val_of n (vs e) i) = 0%re.
    by move=> /near [_ [_ /H3 /(_ _ (chan_in i)) [_ [_ [h _]]]]]; rewrite v.
  have cP i : continuity_pt (fun e => effP (@val_of n (vs e) i)) x.
    by apply: cont_ext (st_P (st (chan_in i))) => e; rewrite v.
  have cL i : ccont (fun e => effL b (@val_of n (vs e) i)) x.
    by apply: ccont_ext (st_L (st (chan_in i))) => e; rewrite v.
  have cT := T_cont a0 szv reg' ok cP cL.
  exists contrib; split.
    exists a; split=> // e He s m.
    have rl := RL_at_is rs ok He.
    have [s' Er] := call_of_RL s szg (reg' e He) rl.
    have Ev : groupValues hbar epsilon0 cwf b g e = Ok (Some (vs e)).
      have [h1 [_ /H3 h3]] := near e He; rewrite /groupValues /vs; move: h3.
      elim: (g_channels g) => //= c l IH h.
      have [-> _] := h c (or_introl erefl) => /=.
      by move: IH; case: (mapM _ l) => [o|?|?|] /= IH; have := IH (fun c' hc => h c' (or_intror hc)) => // -[->].
    have [first [F1 [F2 _]]] := first_incident_spec made.
    exists s'; eexists; split.
      have [h1 _] := near e He.
      by rewrite /evaluateGroup Ev [bind _ _]/= F1 [bind _ _]/= F2 [bind _ _]/= H1 // Et Ers Er.
    have rl' : is_RL b e (t_resonances t) (vs e) (RL_at n b rs vs e) by rewrite Ers.
    exact: (process_spec made (fac_of e) rl' m).
  move=> k.
  set T := fun e => T_spec (vs e) (RL_at n b rs vs e) in cT.
  pose U e (c j : 'I_n) : cx := (if j == c then 1 else 0) + (ci + ci) * T e c j.
  have cU c j : ccont (fun e => U e c j) x.
    by apply: ccont_add; [exact: ccont_const | apply: ccont_mul; [exact: ccont_const | exact: cT]].
  apply: (@cont_near (fun e => fac_of e * \big[Rplus/0]_(c : 'I_n | isIncidentChannel (chan c))
     (\big[Rplus/0]_(j : 'I_n | c_reaction (chan j) == k)
         (if j == c then norm2 (1 - cis (- (2 * v_phi (@val_of n (vs e) c)))%re * U e c c)%R else norm2 (U e c j))
      + (if k == capture_id g then 1 - \big[Rplus/0]_j norm2 (U e c j) else 0)))%re _ x a a0).
    move=> e He; rewrite /contrib /contribution; congr (_ * _)%re; apply: eq_bigr => c _.
    have EU j : U_spec (vs e) (RL_at n b rs vs e) c j = omega (vs e) c * U e c j * omega (vs e) j by rewrite U_entry.
    have om (j : 'I_n) : omega (vs e) j = cis (- v_phi (@val_of n (vs e) j))%re.
      by rewrite /omega -/(val_of (vs e) j) w0 //; congr cis; ring.
    congr (_ + _)%re.
    - apply: eq_bigr => j _; rewrite EU; case: eqP => [->|_].
      + rewrite w0 // !om; congr norm2; congr (_ - _); first by apply: cx_ext; rewrite /= ?cos_0 ?sin_0.
        have -> : (- (2 * v_phi (@val_of n (vs e) c)) = - v_phi (@val_of n (vs e) c) + - v_phi (@val_of n (vs e) c))%re by ring.
        by rewrite cisD mulrAC.
      + by rewrite sub0r norm2N !norm2M !om !norm2_cis Rmult_1_l Rmult_1_r.
    - case: (k == _) => //; congr (_ - _)%re; apply: eq_bigr => j _.
      by rewrite EU !norm2M !om !norm2_cis Rmult_1_l Rmult_1_r.
  apply: cont_mul => //; apply: cont_sum => c ic; apply: cont_add.
    apply: cont_sum => j _; case: (j == c); last exact: cont_norm2.
    apply: cont_norm2; apply: ccont_sub; first exact: ccont_const.
    apply: ccont_mul => //.
    by apply: ccont_ext (st_phi (st (chan_in c)) ic) => e; rewrite v.
  case: (k == _); last exact: cont_const.
  apply: cont_sub; first exact: cont_const.
  by apply: cont_sum => j _; exact: cont_norm2.
Qed.
End Main.
