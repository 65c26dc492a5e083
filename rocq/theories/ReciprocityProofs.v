From Coq Require Import Reals Lra String ZArith.
From mathcomp Require Import all_ssreflect all_algebra.
From Verif Require Import Outcome Cplx QuantumModel SpinFactorModel KinematicsModel CoulombModel RMatrixModel RMatrixSpec RMatrixProofs RMatrixCodeProofs RMatrixObservableProofs
  ChannelModel SpinGroupModel SpinGroupSpec SpinGroupProofs SpinGroupEvalProofs SpinGroupTheorems SymmetryProofs SymmetryTheorems ReciprocitySpec.
Set Implicit Arguments.
Unset Strict Implicit.
Unset Printing Implicit Defensive.
Import GRing.Theory.
Local Open Scope ring_scope.

Section Matrices.
Variables (ra rb qb energy : R) (bo : boundary_option) (rs : seq resonance) (vs : seq values).
Hypotheses (Ha : (0 < ra)%re) (Hb : (0 < rb)%re).
Let kappa := (ra / rb)%re.
Let k0 : (0 < kappa)%re.
Proof. exact: Rdiv_lt_0_compat. Qed.
Notation E' := (switched_energy ra rb qb energy).
Notation rs' := [seq switched_resonance ra rb qb r | r <- rs].
Lemma switched_denominator r : denominator E' (switched_resonance ra rb qb r) = rcx kappa * denominator energy r.
Proof.
  have S : (sqrt kappa * sqrt kappa = kappa)%re by apply: sqrt_sqrt; lra.
  apply: cx_ext; rewrite /denominator /switched_resonance /= /switched_energy -/kappa.
  - rewrite /kappa; field; lra.
  - rewrite (_ : (sqrt kappa * rs_eliminated r * (sqrt kappa * rs_eliminated r))%re = (sqrt kappa * sqrt kappa * (rs_eliminated r * rs_eliminated r))%re); last by ring.
    rewrite S; ring.
Qed.
Lemma switched_regular : regular energy rs -> regular E' rs'.
Proof.
  move=> reg r /List.in_map_iff [x [<- Hx]]; case: (reg x Hx) => H; [left=> /= | right=> /=].
  - rewrite /switched_energy => e; apply: H; apply: (Rmult_eq_reg_l ra); last lra.
    have {}e : ((ra * rs_energy x + qb) / rb * rb = (ra * energy + qb) / rb * rb)%re by rewrite e.
    move: e; rewrite /Rdiv !Rmult_assoc Rinv_l; last lra. lra.
  - have := sqrt_lt_R0 _ k0; rewrite -/kappa => S e; apply: H; apply: (Rmult_eq_reg_l (sqrt kappa)); lra.
Qed.
Lemma switched_sized n : sized n rs -> sized n rs'.
Proof. by move=> sz r /List.in_map_iff [x [<- Hx]]; rewrite /= size_map; apply: sz. Qed.
Lemma switched_R n : R_spec n E' rs' vs = R_spec n energy rs vs.
Proof.
  apply/matrixP => i j; rewrite !mxE big_map; apply: eq_bigr => r _; rewrite switched_denominator.
  have S : (sqrt kappa * sqrt kappa = kappa)%re by apply: sqrt_sqrt; lra.
  have W (c : 'I_n) : open_width vs (switched_resonance ra rb qb r) c = (sqrt kappa * open_width vs r c)%re.
    rewrite /open_width /width; case: (isclosed _ _); first by ring.
    rewrite /= -/kappa; case: (ltnP c (size (rs_widths r))) => Hc; first by rewrite (nth_map 0%re).
    by rewrite !nth_default ?size_map //; ring.
  rewrite !W (_ : (sqrt kappa * open_width vs r i * (sqrt kappa * open_width vs r j))%re = (kappa * (open_width vs r i * open_width vs r j))%re); last first.
    by rewrite -{3}S; ring.
  have Kn : rcx kappa != 0 by apply/eqP => /(congr1 re) /=; lra.
  by rewrite rcxM -mulf_div divff // mul1r.
Qed.
Lemma switched_RL n n' (e : n' = n) (A : 'M[cx]_n) : is_RL bo energy rs vs A -> exists B : 'M[cx]_n', is_RL bo E' rs' vs B /\
  forall i j, U_spec vs B i j = U_spec vs A (cast_ord e i) (cast_ord e j).
Proof. by subst n' => H; exists A; split; [rewrite /is_RL switched_R | move=> i j; rewrite !cast_ord_id]. Qed.
End Matrices.

Section Groups.
Variables (hbar epsilon0 : R) (cwf : nat -> R -> R -> outcome coulomb) (bo : boundary_option).
Variables (a b : particlePair) (ra rb mua mub qb energy : R) (channels : seq channel) (rs : seq resonance) (g g' : group).
Hypotheses (Hh : (0 < hbar)%re) (Na : pair_numbers a ra mua) (Nb : pair_numbers b rb mub) (En : entrance a b qb channels).
Notation E' := (switched_energy ra rb qb energy).
Hypotheses (con : constructed channels rs g)
  (con' : constructed [seq switched_channel b qb c | c <- channels] [seq switched_resonance ra rb qb r | r <- rs] g').
Hypotheses (Oa : (ra * energy <> 0)%re) (Ob : (ra * energy + qb <> 0)%re).

Let chans : g_channels g = channels.
Proof. by have [t [made _]] := constructed_made con; have [] := makeGroup_ok made. Qed.
Let chans' : g_channels g' = [seq switched_channel b qb c | c <- channels].
Proof. by have [t [made _]] := constructed_made con'; have [] := makeGroup_ok made. Qed.
Let ra0 : (0 < ra)%re. Proof. by case: Na. Qed.
Let rb0 : (0 < rb)%re. Proof. by case: Nb. Qed.
Let nn : gsize g' = gsize g.
Proof. by rewrite /gsize chans chans' size_map. Qed.
Let flow : (E' * rb = ra * energy + qb)%re.
Proof. rewrite /switched_energy; field; lra. Qed.

(** the same centre of mass energy *)
Lemma switched_wave c : List.In c channels -> channelWaveNumber hbar (switched_channel b qb c) E' = channelWaveNumber hbar c energy.
Proof.
  move=> /(en_made En) [t [pr [q [nu [rad [bd [-> _]]]]]]]; rewrite /channelWaveNumber /=; case: (pp_reduced pr) => // mu.
  rewrite (pn_ratio Na) (pn_ratio Nb) /waveNumber; congr (Some (sqrt (_ * Rabs _) / _)%re); rewrite flow; ring.
Qed.
Lemma switched_below c : List.In c channels -> channelBelowThreshold (switched_channel b qb c) E' = channelBelowThreshold c energy.
Proof.
  move=> /(en_made En) [t [pr [q [nu [rad [bd [-> _]]]]]]]; rewrite /channelBelowThreshold /=.
  rewrite (pn_ratio Na) (pn_ratio Nb) /belowThreshold (_ : (rb * E' + (q - qb) = ra * energy + q)%re) //.
  rewrite Rmult_comm flow; ring.
Qed.
Lemma switched_eta c : List.In c channels -> channelEta hbar epsilon0 (switched_channel b qb c) E' = channelEta hbar epsilon0 c energy.
Proof. by move=> Hc; rewrite /channelEta (switched_wave Hc). Qed.
Lemma switched_values c : List.In c channels -> channelValues hbar epsilon0 cwf bo (switched_channel b qb c) E' = channelValues hbar epsilon0 cwf bo c energy.
Proof.
  move=> Hc; have W := switched_wave Hc; have T := switched_below Hc; have Y := switched_eta Hc.
  have [t [pr [q [nu [rad [bd [Ec [[x [y [z Er]]] _]]]]]]]] := en_made En Hc.
  have F f r (w : R) : r = Fixed w -> channelFunction hbar epsilon0 f (switched_channel b qb c) r E' = channelFunction hbar epsilon0 f c r energy.
    by move=> ->; rewrite /channelFunction W Y.
  have HR : c_radii (switched_channel b qb c) = mkRadii (Fixed x) (Fixed y) (Fixed z) by rewrite Ec /= Er.
  have HR' : c_radii c = mkRadii (Fixed x) (Fixed y) (Fixed z) by rewrite Ec /= Er.
  have C : channelCoulombShift hbar epsilon0 (switched_channel b qb c) E' = channelCoulombShift hbar epsilon0 c energy.
    by rewrite /channelCoulombShift Y.
  rewrite /channelValues /channelPenetrability /channelShiftFactor /channelPhaseShift C T HR HR' /=.
  by rewrite !(F _ _ _ erefl).
Qed.
Lemma switched_group : groupValues hbar epsilon0 cwf bo g' E' = groupValues hbar epsilon0 cwf bo g energy.
Proof.
  rewrite /groupValues chans chans'; congr Outcome.omap.
  have : forall c, List.In c channels -> List.In c channels by [].
  elim: {-2}channels => //= c l IH H; rewrite switched_values; last by apply: H; left.
  by case: (channelValues _ _ _ _ _ _) => //= v; rewrite IH // => c' Hc'; apply: H; right.
Qed.

(** who is who *)
Lemma is_incident c : List.In c channels -> isIncidentChannel c = String.eqb (pp_id (c_pair c)) (pp_id a).
Proof. by move=> /(en_made En) [t [pr [q [nu [rad [bd [-> _]]]]]]]. Qed.
Lemma is_incident' c : isIncidentChannel (switched_channel b qb c) = String.eqb (pp_id (c_pair c)) (pp_id b).
Proof. by []. Qed.
Lemma leads c : List.In c channels -> (c_reaction c == Transfer (pp_id a) (pp_id b)) = String.eqb (pp_id (c_pair c)) (pp_id b).
Proof.
  move=> /(en_made En) [t [pr [q [nu [rad [bd [-> _]]]]]]] /=; rewrite /makeReactionID; case: (string_dec _ _) => H.
  - by symmetry; apply/String.eqb_neq => H'; apply: (en_different En); rewrite H.
  - apply/eqP/idP => [[->]|/String.eqb_eq ->] //; exact: String.eqb_refl.
Qed.
Lemma leads' c : List.In c channels -> (c_reaction (switched_channel b qb c) == Transfer (pp_id b) (pp_id a)) = String.eqb (pp_id (c_pair c)) (pp_id a).
Proof.
  move=> Hc; rewrite /= /makeReactionID; case: (string_dec _ _) => H.
  - by symmetry; apply/String.eqb_neq => H'; apply: (en_different En); rewrite H H'.
  - apply/eqP/idP => [[->]|/String.eqb_eq ->] //; exact: String.eqb_refl.
Qed.
Let chan_in (i : 'I_(gsize g)) : List.In (chan i) channels.
Proof. by rewrite /chan -chans; apply: In_nth. Qed.
Let chan_cast (i : 'I_(gsize g')) : chan i = switched_channel b qb (chan (cast_ord nn i)).
Proof. by rewrite /chan chans chans' (nth_map dummy_channel) //= -chans -/(gsize g) -nn. Qed.
Let not_capture : (Transfer (pp_id a) (pp_id b) == capture_id g) = false.
Proof. by apply/eqP => -[_ H]; apply: (proj2 (en_capture En)). Qed.
Let not_capture' : (Transfer (pp_id b) (pp_id a) == capture_id g') = false.
Proof. by apply/eqP => -[_ H]; apply: (proj1 (en_capture En)). Qed.

Definition exchange (vs : seq values) (A : 'M[cx]_(gsize g)) : R :=
  \big[Rplus/0%re]_(c | String.eqb (pp_id (c_pair (chan c))) (pp_id a))
    \big[Rplus/0%re]_(j | String.eqb (pp_id (c_pair (chan j))) (pp_id b)) norm2 (U_spec vs A c j).
Lemma other c j : String.eqb (pp_id (c_pair (chan c))) (pp_id a) -> String.eqb (pp_id (c_pair (chan j))) (pp_id b) -> (j == c :> 'I_(gsize g)) = false.
Proof. by move=> /String.eqb_eq H1 /String.eqb_eq H2; apply/eqP => e; apply: (en_different En); rewrite -H1 -H2 e. Qed.
Lemma out_contribution vs A factor : @contribution g vs A factor (Transfer (pp_id a) (pp_id b)) = (factor * exchange vs A)%re.
Proof.
  rewrite /contribution not_capture /exchange; congr (_ * _)%re.
  apply: eq_big => [c|c Hc]; first by rewrite is_incident.
  rewrite Rplus_0_r; apply: eq_big => [j|j]; first by rewrite leads.
  by rewrite leads // => Hj; rewrite other -?is_incident // sub0r norm2N.
Qed.
Lemma back_contribution vs (A : 'M[cx]_(gsize g)) (B : 'M[cx]_(gsize g')) factor : is_RL bo energy rs vs A ->
  (forall i j, U_spec vs B i j = U_spec vs A (cast_ord nn i) (cast_ord nn j)) ->
  @contribution g' vs B factor (Transfer (pp_id b) (pp_id a)) = (factor * exchange vs A)%re.
Proof.
  move=> rl HU; rewrite /contribution not_capture' /exchange; congr (_ * _)%re.
  rewrite [RHS](exchange_big_dep (fun j => String.eqb (pp_id (c_pair (chan j))) (pp_id b))) //=.
  have bij : bijective (cast_ord nn) by exists (cast_ord (esym nn)) => i; rewrite ?cast_ordK ?cast_ordKV.
  rewrite [RHS](reindex (cast_ord nn)) /=; last exact: (onW_bij _ bij).
  apply: eq_big => [c|c Hc]; first by rewrite chan_cast is_incident'.
  rewrite Rplus_0_r [RHS](reindex (cast_ord nn)) /=; last exact: (onW_bij _ bij).
  rewrite chan_cast is_incident' in Hc.
  apply: eq_big => [j|j]; first by rewrite chan_cast leads' // Hc andbT.
  rewrite chan_cast leads' // => Hj; rewrite HU (U_sym rl) (_ : (j == c) = false) ?sub0r ?norm2N //.
  apply/eqP => e; have := other Hj Hc; by rewrite e eqxx.
Qed.

(** the factors *)
Lemma wave_sq mu x : (0 < mu)%re -> (sqrt (2 * mu * Rabs x) / hbar * (sqrt (2 * mu * Rabs x) / hbar) = 2 * mu * Rabs x / (hbar * hbar))%re.
Proof.
  move=> Hm; have P := Rabs_pos x; have S := sqrt_sqrt (2 * mu * Rabs x) ltac:(nra).
  rewrite -{3}S; field; lra.
Qed.
Lemma abs_pos x : x <> 0%re -> (0 < Rabs x)%re.
Proof. exact: Rabs_pos_lt. Qed.
Lemma factor_of (p : particlePair) c ratio mu x E : pair_numbers p ratio mu -> c_pair c = p ->
  pp_ratio (c_incident c) = Some ratio -> (E * ratio + c_q c = x)%re -> x <> 0%re ->
  channelFactor hbar c E = Some (pi_value * (hbar * hbar) / (2 * mu * Rabs x) * ((IZR (qJ (c_numbers c)) + 1) / multiplicity p))%re.
Proof.
  move=> [_ _ Hm Hm0 [S1 S2]] Hp Hr Hx Nx; rewrite /channelFactor /channelWaveNumber Hr Hp Hm /waveNumber Hx /= wave_sq // /fdiv.
  have A := abs_pos Nx.
  have P : (0 < 2 * mu * Rabs x / (hbar * hbar))%re by apply: Rdiv_lt_0_compat; nra.
  case: Req_EM_T => [H|_]; first lra.
  rewrite /= /spinFactor /statisticalSpinFactor /spin_value Hp /multiplicity; congr Some.
  apply IZR_le in S1; apply IZR_le in S2. field; nra.
Qed.
Lemma same_J c c' : List.In c channels -> List.In c' channels -> qJ (c_numbers c) = qJ (c_numbers c').
Proof.
  have [t [made _]] := constructed_made con; case: (channels) made => [|c0 cs] // made L1 L2.
  have [_ H] := group_accepts c0 cs t; case: (Classical_Prop.classic (acceptable_group (c0 :: cs) t)) => [[_ [_ [HJ _]]]|Hn].
  - by have [] := HJ _ _ L1 L2.
  - by rewrite H in made.
Qed.

Theorem reciprocity (s s1 : cache (gsize g)) (s' : cache (gsize g')) m1 :
  evaluateGroup hbar epsilon0 cwf bo energy s empty_map = Ok (Some (s1, m1)) ->
  exists s1' m1' ab ba, evaluateGroup hbar epsilon0 cwf bo E' s' empty_map = Ok (Some (s1', m1')) /\
    m1 (Transfer (pp_id a) (pp_id b)) = Some ab /\ m1' (Transfer (pp_id b) (pp_id a)) = Some ba /\
    (multiplicity a * (mua * Rabs (ra * energy)) * ab = multiplicity b * (mub * Rabs (ra * energy + qb)) * ba)%re.
Proof.
  move=> ev; have [vs [A [factor [[Ev [Ef rl]] ad]]]] := evaluate_inv con ev.
  have reg : regular energy rs.
    case: (regular_dec energy rs) => // -[r [Hr [He Hz]]].
    by rewrite (evaluate_fails con Ev Ef Hr He Hz) in ev.
  have Ev' : groupValues hbar epsilon0 cwf bo g' E' = Ok (Some vs) by rewrite switched_group.
  have [B [rlB HB]] := switched_RL qb ra0 rb0 nn rl.
  have [t [made [Ers sz]]] := constructed_made con; have [F0 [F1 [F2 [I1 L1]]]] := first_incident_spec made.
  have [t' [made' [Ers' sz']]] := constructed_made con'; have [E1 [Et _]] := makeGroup_ok made'.
  have [first [G1 [G2 [I2 L2]]]] := first_incident_spec made'.
  rewrite chans in L1; rewrite chans' in L2; have [d [Ed Hd]] := proj1 (List.in_map_iff _ _ _) L2.
  rewrite is_incident // in I1; rewrite -Ed is_incident' in I2.
  have [ta [pra [qa [nua [rada [bda [Ea [_ [Ia _]]]]]]]]] := en_made En L1.
  have [tb [prb [qb' [nub [radb [bdb [Eb [_ [_ Ib]]]]]]]]] := en_made En Hd.
  have {}Ia : pra = a /\ qa = 0%re by apply: Ia; apply/String.eqb_eq; rewrite Ea in I1.
  have {}Ib : prb = b /\ qb' = qb by apply: Ib; apply/String.eqb_eq; rewrite Eb in I2.
  have Fa := factor_of (c := first_incident g) (E := energy) (x := (ra * energy)%re) Na.
  have Fb := factor_of (c := first_incident g') (E := E') (x := (ra * energy + qb)%re) Nb.
  rewrite Ef in Fa.
  have {}Fa := Fa ltac:(by rewrite Ea /=; case: Ia) ltac:(by rewrite Ea /=; case: Na) ltac:(by rewrite Ea /=; case: Ia => _ ->; ring) Oa.
  have {}Fb := Fb ltac:(by rewrite -Ed Eb /=; case: Ib) ltac:(by rewrite -Ed /=; case: Nb) ltac:(by rewrite -Ed Eb /= flow; case: Ib => _ ->; ring) Ob.
  have szB : sized (gsize g') [seq switched_resonance ra rb qb r | r <- rs] by rewrite /gsize E1 -Ers'.
  have [s1' Hc] := call_of_RL s' szB (switched_regular (qb := qb) ra0 rb0 reg) rlB.
  have rlB' := rlB; rewrite -Ers' in rlB'.
  set fb := (_ * (_ / _))%re in Fb.
  have ad' := process_spec made' fb rlB' empty_map.
  exists s1', (processIncidentChannels (g_reactions g') fb vs B (incident_ord g') empty_map).
  exists (factor * exchange vs A)%re, (fb * exchange vs A)%re.
  have wr : written g (Transfer (pp_id a) (pp_id b)).
    apply/orP; right; rewrite chans; elim: (channels) Hd (leads Hd) => // c cs IH [->|H] /= E; first by rewrite E I2.
    by rewrite IH // orbT.
  have wr' : written g' (Transfer (pp_id b) (pp_id a)).
    apply/orP; right; rewrite chans' has_map; elim: (channels) L1 (leads' L1) => // c cs IH [->|H] /= E; first by rewrite E I1.
    by rewrite IH // orbT.
  split; first by rewrite /evaluateGroup Ev' [bind _ _]/= G1 [bind _ _]/= G2 [bind _ _]/= Fb Et Ers' Hc.
  split; first by rewrite ad wr /= out_contribution; congr Some; ring.
  split; first by rewrite ad' wr' /= (back_contribution _ rl HB); congr Some; ring.
  case: Fa => ->; rewrite /fb (same_J L1 Hd) -Ed /=.
  case: (Na) => _ _ _ ma [S1 S2]; case: (Nb) => _ _ _ mb [S3 S4]; have A1 := abs_pos Oa; have A2 := abs_pos Ob.
  apply IZR_le in S1; apply IZR_le in S2; apply IZR_le in S3; apply IZR_le in S4.
  rewrite /multiplicity; field; nra.
Qed.
End Groups.
