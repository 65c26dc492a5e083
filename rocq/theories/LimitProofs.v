From Coq Require Import Reals Lra String.
From mathcomp Require Import all_ssreflect all_algebra.
From Verif Require Import Outcome Cplx QuantumModel KinematicsModel CoulombModel RMatrixModel RMatrixSpec RMatrixProofs RMatrixCodeProofs RMatrixObservableProofs
  ChannelModel SpinGroupModel SpinGroupSpec SpinGroupProofs SpinGroupEvalProofs SpinGroupChannelProofs SpinGroupTheorems LimitSpec.
Set Implicit Arguments.
Unset Strict Implicit.
Unset Printing Implicit Defensive.
Import GRing.Theory.
Local Open Scope ring_scope.

Lemma Rsum_split (I : finType) (P : pred I) (F : I -> R) :
  \big[Rplus/0%re]_i F i = (\big[Rplus/0%re]_(i | P i) F i + \big[Rplus/0%re]_(i | ~~ P i) F i)%re.
Proof. by rewrite (bigID P). Qed.
Lemma Rsum_one (I : finType) (P : pred I) : \big[Rplus/0%re]_(i | P i) 1%re = INR #|P|.
Proof.
  rewrite big_const; elim: #|P| => // k IH; rewrite iterS IH S_INR; ring.
Qed.
Lemma Rsum_const (I : finType) (P : pred I) (x : R) : \big[Rplus/0%re]_(i | P i) x = (x * INR #|P|)%re.
Proof. rewrite -Rsum_one big_distrr /=; apply: eq_bigr => i _; ring. Qed.

Section Limits.
Variables (channels : seq channel) (t : table) (g : group).
Hypothesis made : makeGroup channels t = Ok g.
Variables (b : boundary_option) (energy : R) (vs : seq values) (A : 'M[cx]_(gsize g)) (factor : R).
Hypothesis rl : is_RL b energy (t_resonances t) vs A.
Hypothesis P0 : forall i : 'I_(gsize g), (0 <= v_P (val_of vs i))%re.
Hypothesis f0 : (0 <= factor)%re.

Lemma count_entrances : INR #|[pred c : 'I_(gsize g) | isIncidentChannel (chan c)]| = entrances g.
Proof.
  congr INR; rewrite -sum1_card -sum1_count (big_nth dummy_channel) big_mkord; exact: eq_bigl.
Qed.
(** the sum over some of the keys *)
Lemma keys_contribution (P : pred reactionID) :
  \big[Rplus/0%re]_(k <- undup (g_reactions g) | P k) @contribution g vs A factor k =
  (factor * \big[Rplus/0]_(c | isIncidentChannel (chan c))
     (\big[Rplus/0]_(j | P (c_reaction (chan j))) norm2 ((if j == c then cis (v_w (val_of vs c)) else 0%R) - U_spec vs A c j)%R
      + (if P (capture_id g) then 1 - \big[Rplus/0]_j norm2 (U_spec vs A c j) else 0)))%re.
Proof.
  rewrite /contribution -big_distrr exchange_big /=; congr Rmult; apply: eq_bigr => c _.
  rewrite big_split /=; congr Rplus.
  - rewrite (exchange_big_dep (fun j => P (c_reaction (chan j)))) /=; last by move=> k j Hk /eqP ->.
    apply: eq_bigr => j Hj; rewrite -big_filter.
    have -> : [seq i <- undup (g_reactions g) | P i && (c_reaction (chan j) == i)] = [:: c_reaction (chan j)].
      have in_r : c_reaction (chan j) \in undup (g_reactions g).
        by rewrite mem_undup (reactions_enum made) mem_cat map_f ?mem_enum.
      rewrite (eq_filter (a2 := pred1 (c_reaction (chan j)))); last first.
        by move=> i; rewrite /= eq_sym; case: eqP => [->|_]; rewrite ?andbF // Hj.
      by apply: filter_pred1_uniq; rewrite ?undup_uniq.
    by rewrite big_seq1.
  - rewrite -big_mkcondr -big_filter /=; case HP: (P (capture_id g)).
    + have -> : [seq i <- undup (g_reactions g) | P i && (i == capture_id g)] = [:: capture_id g].
        rewrite (eq_filter (a2 := pred1 (capture_id g))); last by move=> i /=; case: eqP => [->|_]; rewrite ?andbF // HP.
        apply: filter_pred1_uniq; first exact: undup_uniq.
        by rewrite mem_undup (reactions_enum made) mem_cat inE eqxx orbT.
      by rewrite big_seq1.
    + rewrite (eq_filter (a2 := pred0)); last by move=> i /=; case: eqP => [->|_]; rewrite ?andbF // HP.
      by rewrite filter_pred0 big_nil.
Qed.
Lemma row_le1 (c : 'I_(gsize g)) : (\big[Rplus/0]_j norm2 (U_spec vs A c j) <= 1)%re.
Proof. have := capture_ge0 rl P0 c; rewrite (capture_code rl); lra. Qed.

(** everything but scattering *)
Lemma reaction_limit : (\big[Rplus/0%re]_(k <- undup (g_reactions g) | ~~ scattering g k) @contribution g vs A factor k <= factor * entrances g)%re.
Proof.
  rewrite keys_contribution; apply: Rmult_le_compat_l => //; rewrite -count_entrances -Rsum_one.
  apply: Rsum_le => c Hc.
  have scat (j : 'I_(gsize g)) : isIncidentChannel (chan j) -> scattering g (c_reaction (chan j)).
    move=> Hj; apply/(has_nthP dummy_channel); exists j => //; by rewrite -/(chan j) Hj eqxx.
  rewrite (eq_bigr (fun j => norm2 (U_spec vs A c j))); last first.
    by move=> j Hj; case: eqP => [E|_]; [rewrite E (scat _ Hc) in Hj | rewrite sub0r norm2N].
  have := row_le1 c; rewrite (Rsum_split (fun j => scattering g (c_reaction (chan j)))).
  set x := \big[_/_]_(j | scattering _ _) _; set y := \big[_/_]_(j | ~~ _) _ => H.
  have x0 : (0 <= x)%re by apply: Rsum_ge0 => j _; exact: norm2_ge0.
  have y0 : (0 <= y)%re by apply: Rsum_ge0 => j _; exact: norm2_ge0.
  case: (~~ _); lra.
Qed.
Hypothesis w0 : forall i : 'I_(gsize g), v_w (val_of vs i) = 0%re.
Lemma total_limit : (\big[Rplus/0%re]_(k <- undup (g_reactions g)) @contribution g vs A factor k <= 4 * (factor * entrances g))%re.
Proof.
  rewrite (total_contribution made factor rl) -count_entrances.
  apply: (Rle_trans _ (factor * \big[Rplus/0]_(c | isIncidentChannel (chan c : channel)) 4)%re); last first.
    rewrite Rsum_const; right; rewrite (_ : INR #|_| = INR #|[pred c : 'I_(gsize g) | isIncidentChannel (chan c)]|); first ring.
    by congr INR; apply: eq_card.
  apply: Rmult_le_compat_l => //; apply: Rsum_le => c _.
  rewrite (@uncharged_total (gsize g) vs A c (w0 c)).
  have := U_le1 rl P0 c c; rewrite /norm2; set u := re _; set v := im _ => H.
  have : (-1 <= u)%re by case: (Rle_lt_dec (-1) u) => // Hu; have := Rle_0_sqr v; rewrite /Rsqr; nra.
  lra.
Qed.
(** one incident channel *)
Variable c : 'I_(gsize g).
Hypothesis only_c : forall i : 'I_(gsize g), isIncidentChannel (chan i) = (i == c).
Hypothesis own : forall i : 'I_(gsize g), c_reaction (chan i) = c_reaction (chan c) -> i = c.
Hypothesis cap : capture_id g <> c_reaction (chan c).
Lemma one_scattering k : scattering g k = (k == c_reaction (chan c)).
Proof.
  apply/(has_nthP dummy_channel)/eqP => [[i Hi /andP [H /eqP <-]] | ->].
  - have := only_c (Ordinal Hi); rewrite /chan /= H => /esym/eqP <- //.
  - by exists c => //; rewrite -/(chan c) only_c !eqxx.
Qed.
Lemma one_scattered : \big[Rplus/0%re]_(k <- undup (g_reactions g) | scattering g k) @contribution g vs A factor k =
  (factor * norm2 (1 - U_spec vs A c c)%R)%re.
Proof.
  rewrite keys_contribution (eq_bigl (pred1 c)) ?big_pred1_eq; last by move=> i; rewrite only_c.
  rewrite one_scattering; move/eqP/negbTE: cap => ->; rewrite Rplus_0_r (eq_bigl (pred1 c)) ?big_pred1_eq ?eqxx; last first.
    by move=> i; rewrite one_scattering; apply/eqP/eqP => [/own|->].
  by rewrite w0 cis0.
Qed.
Lemma one_reaction : \big[Rplus/0%re]_(k <- undup (g_reactions g) | ~~ scattering g k) @contribution g vs A factor k =
  (factor * (1 - norm2 (U_spec vs A c c)%R))%re.
Proof.
  rewrite keys_contribution (eq_bigl (pred1 c)) ?big_pred1_eq; last by move=> i; rewrite only_c.
  rewrite one_scattering; move/eqP/negbTE: cap => -> /=.
  rewrite (Rsum_split (pred1 c)) big_pred1_eq (eq_bigl (fun i => i != c)); last first.
    by move=> i; rewrite one_scattering; congr negb; apply/eqP/eqP => [/own|->].
  rewrite (eq_bigr (fun j => norm2 (U_spec vs A c j))); last first.
    by move=> j Hj; rewrite (negbTE Hj) sub0r norm2N.
  set x := (X in (X + _)%re); set y := (X in (_ - (_ + X))%re); have -> : y = x by []; congr Rmult; ring.
Qed.
End Limits.

(** The code *)
Section Code.
Variables (hbar epsilon0 : R) (cwf : nat -> R -> R -> outcome coulomb) (b : boundary_option).
Variables (channels : seq channel) (rs : seq resonance) (g : group) (energy : R) (s s' : cache (gsize g)) (m m' : reaction_map).
Hypotheses (con : constructed channels rs g) (hb : (0 < hbar)%re) (nt : neutral_channels energy g)
  (g0 : (0 <= spinFactor (first_incident g))%re)
  (ev : evaluateGroup hbar epsilon0 cwf b energy s m = Ok (Some (s', m'))).

Theorem limits : exists factor, channelFactor hbar (first_incident g) energy = Some factor /\
  (gain_over (fun k => ~~ scattering g k) g m m' <= factor * entrances g)%re /\
  (gain_over predT g m m' <= 4 * (factor * entrances g))%re /\
  (forall k, 0 <= gain m m' k)%re.
Proof.
  have [vs [A [factor [[Ev [Ef rl]] ad]]]] := evaluate_inv con ev.
  have [w0 ph] := neutral_w hb nt Ev.
  have [t [made [Ers sz]]] := constructed_made con; rewrite -Ers in rl.
  have f0 : (0 <= factor)%re.
    move: Ef; rewrite /channelFactor; case: (channelWaveNumber _ _ _) => // k; rewrite /fdiv.
    case: Req_EM_T => //= Hk [<-]; apply: Rmult_le_pos => //.
    by apply: Rlt_le; apply: Rdiv_lt_0_compat; rewrite ?/pi_value; nra.
  have P0 i := proj1 (ph i).
  have G (P : pred reactionID) : gain_over P g m m' = \big[Rplus/0%re]_(k <- undup (g_reactions g) | P k) @contribution g vs A factor k.
    rewrite /gain_over big_seq_cond [RHS]big_seq_cond; apply: eq_bigr => k /andP [].
    by rewrite mem_undup (written_reactions made) /gain ad => -> _ /=; ring.
  exists factor; split=> //; split; [|split].
  - rewrite G; exact: (reaction_limit made rl P0 f0).
  - rewrite G; exact: (total_limit made rl P0 f0 w0).
  - move=> k; rewrite /gain; suff : (odflt 0 (m k) <= odflt 0 (m' k))%re by lra.
    exact: (neutral_nonneg k con hb nt g0 ev).
Qed.
End Code.

(** the region of scattering and reaction cross sections *)
Lemma disk (z : cx) : (norm2 z <= 1)%re ->
  ((1 - sqrt (norm2 z)) * (1 - sqrt (norm2 z)) <= norm2 (1 - z)%R <= (1 + sqrt (norm2 z)) * (1 + sqrt (norm2 z)))%re.
Proof.
  move=> _; have q : (norm2 (1 - z)%R = 1 - 2 * re z + norm2 z)%re by rewrite /norm2 !cxE; ring.
  have S := sqrt_sqrt _ (norm2_ge0 z); have S0 := sqrt_pos (norm2 z); rewrite q; set r := sqrt _ in S S0 *.
  have : (re z * re z <= r * r)%re by rewrite S /norm2; have := Rle_0_sqr (im z); rewrite /Rsqr; lra.
  move=> H; have [] : (- r <= re z <= r)%re by split; apply: Rnot_lt_le; nra.
  lra.
Qed.
Section One.
Variables (hbar epsilon0 : R) (cwf : nat -> R -> R -> outcome coulomb) (b : boundary_option).
Variables (channels : seq channel) (rs : seq resonance) (g : group) (energy : R) (s s' : cache (gsize g)) (m m' : reaction_map).
Hypotheses (con : constructed channels rs g) (hb : (0 < hbar)%re) (nt : neutral_channels energy g)
  (g0 : (0 < spinFactor (first_incident g))%re)
  (ev : evaluateGroup hbar epsilon0 cwf b energy s m = Ok (Some (s', m'))).
Variable c : 'I_(gsize g).
Hypothesis only_c : forall i : 'I_(gsize g), isIncidentChannel (chan i) = (i == c).
Hypothesis own : forall i : 'I_(gsize g), c_reaction (chan i) = c_reaction (chan c) -> i = c.
Hypothesis cap : capture_id g <> c_reaction (chan c).

Theorem shadow : exists factor, channelFactor hbar (first_incident g) energy = Some factor /\ (0 < factor)%re /\
  let x := (gain_over (fun k => ~~ scattering g k) g m m' / factor)%re in
  let y := (gain_over (scattering g) g m m' / factor)%re in
  ((1 - sqrt (1 - x)) * (1 - sqrt (1 - x)) <= y <= (1 + sqrt (1 - x)) * (1 + sqrt (1 - x)))%re.
Proof.
  have [vs [A [factor [[Ev [Ef rl]] ad]]]] := evaluate_inv con ev.
  have [w0 ph] := neutral_w hb nt Ev.
  have [t [made [Ers sz]]] := constructed_made con; rewrite -Ers in rl.
  have f0 : (0 < factor)%re.
    move: Ef; rewrite /channelFactor; case: (channelWaveNumber _ _ _) => // k; rewrite /fdiv.
    case: Req_EM_T => //= Hk [<-]; apply: Rmult_lt_0_compat => //.
    by apply: Rdiv_lt_0_compat; rewrite ?/pi_value; nra.
  have P0 i := proj1 (ph i).
  have G (P : pred reactionID) : gain_over P g m m' = \big[Rplus/0%re]_(k <- undup (g_reactions g) | P k) @contribution g vs A factor k.
    rewrite /gain_over big_seq_cond [RHS]big_seq_cond; apply: eq_bigr => k /andP [].
    by rewrite mem_undup (written_reactions made) /gain ad => -> _ /=; ring.
  exists factor; split=> //; split=> //.
  cbv zeta; rewrite !G (one_scattered made A factor w0 only_c own cap) (one_reaction made vs A factor only_c own cap).
  set u := U_spec _ _ _ _.
  have -> : (factor * (1 - norm2 u) / factor = 1 - norm2 u)%re by field; lra.
  have -> : (factor * norm2 (1 - u)%R / factor = norm2 (1 - u)%R)%re by field; lra.
  have -> : (1 - (1 - norm2 u) = norm2 u)%re by ring.
  by apply: disk; exact: (U_le1 rl P0).
Qed.
End One.
