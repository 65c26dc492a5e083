(** With one resonance the R matrix has rank one, and R_L is known in closed form. *)
From Coq Require Import Reals Lra String.
From mathcomp Require Import all_ssreflect all_algebra.
From Verif Require Import Outcome HardSphereModel KinematicsModel CoulombModel Cplx RMatrixModel RMatrixSpec RMatrixObservableProofs ChannelModel
  SpinGroupModel SpinGroupSpec SpinGroupProofs SpinGroupEvalProofs SpinGroupChannelProofs SpinGroupTheorems SymmetryTheorems SingleLevelSpec.
Set Implicit Arguments.
Unset Strict Implicit.
Unset Printing Implicit Defensive.
Import GRing.Theory.
Local Open Scope ring_scope.

Section Base.
Variables (n : nat) (b : boundary_option) (energy : R) (r : resonance) (vs : seq values).
Hypothesis reg : regular energy [:: r].
Let o (i : 'I_n) : R := open_width vs r i.
Let d := denominator energy r.
Let l (i : 'I_n) : cx := Cx (if b is Constant then v_S (val_of vs i) - v_B (val_of vs i) else 0)%re (v_P (val_of vs i)).
Let S := \sum_i rcx (o i * o i)%re * l i.
Let z := d - S.
Notation Gam := (@full n r vs).
Notation dist := (@distance n b energy r vs).
Notation N := (@resonant n b energy r vs).
Notation w := (@partial n r vs).

Lemma level_d : d <> 0.
Proof. by case; have [h|h] := reg (or_introl erefl); move=> h1 h2; [apply: h; lra | nra]. Qed.
Lemma level_z : z = Cx (- dist)%re (- (Gam / 2))%re.
Proof.
  apply: cx_ext; rewrite !cxE /= /S ?re_sum ?im_sum.
  - rewrite /distance /shifted.
    have -> : \big[Rplus/0%re]_i re (rcx (o i * o i)%re * l i) =
      \big[Rplus/0%re]_(i < n) ((if b is Constant then v_S (val_of vs i) - v_B (val_of vs i) else 0) * (open_width vs r i * open_width vs r i))%re.
      by apply: eq_bigr => i _; rewrite !cxE /= /o; ring.
    by ring.
  - rewrite /full /eliminated.
    have -> : \big[Rplus/0%re]_(i < n) partial r vs i = (2 * \big[Rplus/0%re]_i im (rcx (o i * o i)%re * l i)%R)%re.
      by rewrite big_distrr /=; apply: eq_bigr => i _; rewrite /partial /= -/(o i); ring.
    by field.
Qed.
Lemma level_R : R_spec n energy [:: r] vs = \matrix_(i, j) (rcx (o i * o j)%re / d).
Proof. by apply/matrixP => i j; rewrite !mxE big_seq1. Qed.
Lemma level_L : L_spec n b vs = diag_mx (\row_i l i).
Proof. by congr diag_mx. Qed.

Lemma level_nonzero : N <> 0%re -> z <> 0.
Proof.
  move=> h; rewrite level_z => -[h1 h2]; apply: h; rewrite /resonant; move: h1 h2; set x := dist; set y := Gam => h1 h2.
  have -> : x = 0%re by lra. have -> : y = 0%re by lra. by field.
Qed.
Definition level_B : 'M[cx]_n := \matrix_(i, j) (rcx (o i * o j)%re / z).
Lemma level_solves : z <> 0 -> (1%:M - R_spec n energy [:: r] vs *m L_spec n b vs) *m level_B = R_spec n energy [:: r] vs.
Proof.
  move=> z0; rewrite level_R level_L /level_B; set B := (\matrix_(i, j) (rcx (o i * o j)%re / z)).
  rewrite mulmxBl mul1mx; apply/matrixP => p q; rewrite mul_mx_diag !mxE.
  have -> : \sum_k (\matrix_(i0, j0) ((\matrix_(i, j) (rcx (o i * o j)%re / d)) i0 j0 * (\row_i l i) 0 j0)) p k * B k q = rcx (o p * o q)%re / d / z * S.
    rewrite /S big_distrr /=; apply: eq_bigr => k _; rewrite !mxE.
    move: (d^-1) (z^-1) (l k) => x y t; by apply: cx_ext; rewrite !cxE /=; ring.
  have ud : d \is a GRing.unit by rewrite unitfE; apply/eqP; exact: level_d.
  have uz : z \is a GRing.unit by rewrite unitfE; apply/eqP.
  have -> : rcx (o p * o q)%re / z = rcx (o p * o q)%re / d / z * d by rewrite -!mulrA [z^-1 * d]mulrC mulKr.
  by rewrite -mulrBr -/z -mulrA mulVr // mulr1.
Qed.
Lemma level_is : N <> 0%re -> is_RL b energy [:: r] vs level_B.
Proof.
  move=> /level_nonzero z0; have e := level_solves z0; split=> //.
  set t := (1%:M - _) in e *; have h : t *m (1%:M + level_B *m L_spec n b vs) = 1%:M.
    by rewrite mulmxDr mulmx1 mulmxA e /t subrK.
  by case: (mulmx1_unit h).
Qed.
End Base.

Section Level.
Variables (n : nat) (b : boundary_option) (energy : R) (r : resonance) (vs : seq values) (A : 'M[cx]_n).
Hypotheses (rl : is_RL b energy [:: r] vs A) (reg : regular energy [:: r]).
Let o (i : 'I_n) : R := open_width vs r i.
Let d := denominator energy r.
Let l (i : 'I_n) : cx := Cx (if b is Constant then v_S (val_of vs i) - v_B (val_of vs i) else 0)%re (v_P (val_of vs i)).
Let S := \sum_i rcx (o i * o i)%re * l i.
Let z := d - S.
Notation Gam := (@full n r vs).
Notation dist := (@distance n b energy r vs).
Notation N := (@resonant n b energy r vs).
Notation w := (@partial n r vs).

Let d0 : d <> 0 := level_d reg.
Let zE : z = Cx (- dist)%re (- (Gam / 2))%re := level_z n b energy r vs.
Let RE : R_spec n energy [:: r] vs = \matrix_(i, j) (rcx (o i * o j)%re / d) := level_R n energy r vs.
Let LE : L_spec n b vs = diag_mx (\row_i l i) := level_L n b vs.
Let z0 : z <> 0.
Proof.
  move=> zz; case: rl; rewrite RE LE => u _.
  have Sd : S = d by move/eqP: zz; rewrite /z subr_eq0 eq_sym => /eqP.
  pose v : 'cV[cx]_n := \col_i rcx (o i).
  have e : (1%:M - (\matrix_(i, j) (rcx (o i * o j)%re / d)) *m diag_mx (\row_i l i)) *m v = 0.
    rewrite mulmxBl mul1mx; apply/eqP; rewrite subr_eq0; apply/eqP/matrixP => i j.
    rewrite mul_mx_diag !mxE.
    have -> : \sum_k (\matrix_(i0, j0) ((\matrix_(i, j) (rcx (o i * o j)%re / d)) i0 j0 * (\row_i l i) 0 j0)) i k * v k j = rcx (o i) / d * S.
      rewrite /S big_distrr /=; apply: eq_bigr => k _; rewrite !mxE !rcxM.
      by rewrite -!mulrA; congr (_ * _); rewrite mulrCA; congr (_ * _); rewrite [RHS]mulrC mulrA.
    by rewrite Sd -mulrA mulVr ?mulr1 // unitfE; apply/eqP.
  have v0 : v = 0 by rewrite -(mulKmx u v) e mulmx0.
  apply: d0; rewrite -Sd /S big1 // => i _.
  have oi : o i = 0%re by move/matrixP/(_ i 0): v0; rewrite !mxE => -[].
  by rewrite oi Rmult_0_l rcx0 mul0r.
Qed.
Lemma resonant_pos : (0 < N)%re.
Proof.
  rewrite /resonant; have := norm2_ge0 z; have := norm2_neq0 z0; rewrite zE /norm2 /=.
  by set x := dist; set y := Gam; nra.
Qed.
Lemma level_A i j : A i j = rcx (o i * o j)%re / z.
Proof.
  case: rl => u e; have eB := level_solves reg z0.
  by rewrite -(mulKmx u A) e -[X in invmx _ *m X]eB mulKmx // mxE.
Qed.
Hypothesis P0 : forall i : 'I_n, (0 <= v_P (val_of vs i))%re.
Lemma level_T c j : T_spec vs A c j = rcx (sqrt (v_P (val_of vs c)) * o c * (sqrt (v_P (val_of vs j)) * o j))%re / z.
Proof.
  rewrite T_entry level_A /sqrtP -!/(val_of _ _); move: (z^-1) => y.
  by apply: cx_ext; rewrite !cxE /=; ring.
Qed.
Let sP i : (sqrt (v_P (val_of vs i)) * o i * (sqrt (v_P (val_of vs i)) * o i) = w i / 2)%re.
Proof.
  rewrite /partial -/(o i).
  have := sqrt_sqrt _ (P0 i); set x := sqrt _ => E; rewrite -[in RHS]E; field.
Qed.
Lemma norm2_inv y : y <> 0 -> norm2 (y^-1) = (/ norm2 y)%re.
Proof.
  move=> /norm2_neq0 h; rewrite /norm2 /GRing.inv /= -/(norm2 y) in h *; move: h; rewrite /norm2 => h; field; exact: h.
Qed.
Lemma level_transfer c j : norm2 ((ci + ci) * T_spec vs A c j) = transfer b energy r vs c j.
Proof.
  rewrite level_T !norm2M norm2_inv //.
  have -> : norm2 (ci + ci) = 4%re by rewrite /norm2 !cxE /=; ring.
  have -> : norm2 z = N by rewrite zE /norm2 /resonant /=; field.
  have -> x y : norm2 (rcx (x * y)%re) = ((x * x) * (y * y))%re by rewrite /norm2 /=; ring.
  rewrite !sP /transfer; have := resonant_pos; move: N => M h; field; lra.
Qed.
Lemma level_scatter c : norm2 (1 - cis (- (2 * v_phi (val_of vs c)))%re * (1 + (ci + ci) * T_spec vs A c c)) = scatter b energy r vs c.
Proof.
  have p := resonant_pos.
  have -> : (ci + ci) * T_spec vs A c c = Cx (- (w c * Gam / 2 / N))%re (- (w c * dist / N))%re.
    rewrite level_T sP.
    have -> : z^-1 = Cx (- dist / N)%re (Gam / 2 / N)%re.
      rewrite zE; apply: cx_ext; rewrite /GRing.inv /= /norm2 /= /resonant; move: p; rewrite /resonant;
        set x := dist; set y := Gam => p; field; lra.
    by apply: cx_ext; rewrite !cxE /=; field; lra.
  rewrite /scatter /cis cos_neg sin_neg cos_2a_sin sin_2a.
  set phi := v_phi _; have := sin2_cos2 phi; rewrite /Rsqr.
  set s := sin phi; set co := cos phi => sc.
  have NE : (dist * dist = N - Gam * Gam / 4)%re by rewrite /resonant; field.
  move: p NE; set M := N; set x := dist; set y := Gam; set a := w c => p NE.
  have c2 : (co * co = 1 - s * s)%re by lra.
  set u := (1 - a * y / 2 / M)%re; set v := (- (a * x / M))%re.
  have uv : (u * u + v * v = 1 - a * y / M + a * a / M)%re.
    have -> : (u * u + v * v = 1 - a * y / M + a * a * (x * x + y * y / 4) / (M * M))%re by rewrite /u /v; field; lra.
    by rewrite NE; field; lra.
  have -> : norm2 (1 - Cx (1 - 2 * s * s)%re (- (2 * s * co))%re * (1 + Cx (- (a * y / 2 / M))%re v)) =
    (1 + (u * u + v * v) * ((1 - 2 * s * s) * (1 - 2 * s * s) + 4 * (s * s) * (co * co))
     - 2 * ((1 - 2 * s * s) * u + 2 * s * co * v))%re.
    by rewrite /norm2 !cxE /= /u; ring.
  by rewrite c2 uv /u /v; field; lra.
Qed.
Lemma level_capture c : (1 - \big[Rplus/0]_j norm2 ((if j == c then 1%R else 0%R) + (ci + ci) * T_spec vs A c j)%R = captured b energy r vs c)%re.
Proof.
  have p := resonant_pos.
  have diag : (norm2 (1 + (ci + ci) * T_spec vs A c c)%R = transfer b energy r vs c c + (1 - w c * Gam / N))%re.
    rewrite -level_transfer level_T sP.
    have -> : z^-1 = Cx (- dist / N)%re (Gam / 2 / N)%re.
      rewrite zE; apply: cx_ext; rewrite /GRing.inv /= /norm2 /= /resonant; move: p; rewrite /resonant;
        set x := dist; set y := Gam => p; field; lra.
    by rewrite /norm2 !cxE /=; field; lra.
  rewrite (bigD1 c) //= eqxx diag.
  have -> : \big[Rplus/0%re]_(i < n | i != c) norm2 ((if i == c then 1 else 0) + (ci + ci) * T_spec vs A c i) =
            \big[Rplus/0%re]_(i < n | i != c) transfer b energy r vs c i.
    by apply: eq_bigr => i /negbTE ->; rewrite add0r level_transfer.
  have E : (transfer b energy r vs c c + \big[Rplus/0]_(i < n | i != c) transfer b energy r vs c i = w c * (Gam - eliminated r) / N)%re.
    have -> : (transfer b energy r vs c c + \big[Rplus/0]_(i < n | i != c) transfer b energy r vs c i = \big[Rplus/0]_i transfer b energy r vs c i)%re.
      by rewrite [RHS](bigD1 c).
    rewrite /full.
    have -> : (eliminated r + \big[Rplus/0]_i w i - eliminated r = \big[Rplus/0]_i w i)%re by ring.
    rewrite /Rdiv big_distrr big_distrl /=; apply: eq_bigr => i _; by rewrite /transfer.
  rewrite /captured; move: E; set t := transfer _ _ _ _ c c; set q := \big[_/_]_(_ < _ | _) _ => E.
  have -> : (1 - (t + (1 - w c * Gam / N) + q) = w c * Gam / N - (t + q))%re by ring.
  by rewrite E; field; lra.
Qed.
End Level.

Section Eval.
Variables (hbar epsilon0 : R) (cwf : nat -> R -> R -> outcome coulomb) (b : boundary_option).
Lemma uncharged_w c energy v : c_type c <> ChargedParticle -> channelValues hbar epsilon0 cwf b c energy = Ok (Some v) -> v_w v = 0%re.
Proof.
  rewrite /channelValues /channelCoulombShift; case: (channelPenetrability _ _ _ _ _) => //= p.
  case: (match b with Constant => _ | ShiftFactor => _ end) => //= s; case: (channelPhaseShift _ _ _ _ _) => //= phi.
  by case: (c_type c) => // _; case: p => // p; case: s => // s; case: phi => // phi /= [<-].
Qed.
Lemma single_contribution r g energy vs A factor : (forall c, List.In c (g_channels g) -> c_type c <> ChargedParticle) ->
  groupValues hbar epsilon0 cwf b g energy = Ok (Some vs) -> (forall i : 'I_(gsize g), 0 <= v_P (val_of vs i))%re ->
  regular energy [:: r] -> is_RL b energy [:: r] vs A -> forall k, @contribution g vs A factor k = single_level b energy r g vs factor k.
Proof.
  move=> nc Ev P0 reg rl k.
  have w0 (i : 'I_(gsize g)) : v_w (val_of vs i) = 0%re.
    have [_ Hi] := mapM_all Ev.
    apply: (@uncharged_w (nth dummy_channel (g_channels g) i) energy); last exact: (Hi i dummy_channel no_values (ltn_ord i)).
    apply: nc; have := ltn_ord i; rewrite {2}/gsize.
    by elim: (g_channels g) (nat_of_ord i) => //= y l IH [|j] lt; [left | right; apply: IH].
  rewrite /contribution /single_level; congr (_ * _)%re; apply: eq_bigr => c _.
  have om (j : 'I_(gsize g)) : omega vs j = cis (- v_phi (val_of vs j))%re.
    by rewrite /omega -/(val_of vs j) w0; congr cis; ring.
  congr (_ + _)%re.
  - apply: eq_bigr => j _; rewrite U_entry; case: eqP => [->|_].
    + rewrite w0 !om -(level_scatter rl reg P0); congr norm2; congr (_ - _); first by apply: cx_ext; rewrite /= ?cos_0 ?sin_0.
      have -> : (- (2 * v_phi (val_of vs c)) = - v_phi (val_of vs c) + - v_phi (val_of vs c))%re by ring.
      by rewrite cisD mulrAC.
    + by rewrite sub0r norm2N add0r norm2M [in X in (X * _)%re]norm2M !om !norm2_cis Rmult_1_l Rmult_1_r (level_transfer rl reg P0).
  - case: (k == _) => //; rewrite -(level_capture rl reg P0); congr (_ - _)%re; apply: eq_bigr => j _.
    by rewrite U_entry norm2M [in X in (X * _)%re]norm2M !om !norm2_cis Rmult_1_l Rmult_1_r.
Qed.
Lemma single channels r g energy vs factor (s s' : cache (gsize g)) m m' : constructed channels [:: r] g ->
  (forall c, List.In c channels -> c_type c <> ChargedParticle) ->
  groupValues hbar epsilon0 cwf b g energy = Ok (Some vs) -> (forall i : 'I_(gsize g), 0 <= v_P (val_of vs i))%re ->
  channelFactor hbar (first_incident g) energy = Some factor ->
  evaluateGroup hbar epsilon0 cwf b energy s m = Ok (Some (s', m')) ->
  added (written g) (single_level b energy r g vs factor) m m'.
Proof.
  move=> con nc Ev P0 Ef ev.
  have [vs' [A [f' [[Ev' [Ef' rl]] ad]]]] := evaluate_inv con ev.
  rewrite Ev in Ev'; case: Ev' => Evs; rewrite -{}Evs in rl ad; rewrite Ef in Ef'; case: Ef' => Ef'; rewrite -{}Ef' in ad.
  have reg : regular energy [:: r].
    move=> x [<-|[]]; case: (Req_EM_T (rs_energy r) energy) => h; last by left.
    right=> h'; by rewrite (evaluate_fails con Ev Ef (or_introl erefl) h h') in ev.
  have [t [made _]] := constructed_made con; have [E1 _] := makeGroup_ok made.
  by move=> k; rewrite ad (single_contribution factor _ Ev P0 reg rl) // E1.
Qed.
Lemma single_exists channels r g energy vs factor (s : cache (gsize g)) m : constructed channels [:: r] g ->
  groupValues hbar epsilon0 cwf b g energy = Ok (Some vs) ->
  channelFactor hbar (first_incident g) energy = Some factor ->
  ((exists s' m', evaluateGroup hbar epsilon0 cwf b energy s m = Ok (Some (s', m'))) <->
   (rs_energy r <> energy \/ rs_eliminated r <> 0%re) /\ @resonant (gsize g) b energy r vs <> 0%re).
Proof.
  move=> con Ev Ef; split.
  - move=> [s' [m' ev]].
    have [vs' [A [f' [[Ev' [Ef' rl]] ad]]]] := evaluate_inv con ev.
    rewrite Ev in Ev'; case: Ev' => Evs; rewrite -{}Evs in rl ad.
    have reg : rs_energy r <> energy \/ rs_eliminated r <> 0%re.
      case: (Req_EM_T (rs_energy r) energy) => h; last by left.
      right=> h'; by rewrite (evaluate_fails con Ev Ef (or_introl erefl) h h') in ev.
    split=> //; have reg' : regular energy [:: r] by move=> x [<-|[]].
    by have := resonant_pos rl reg'; lra.
  - move=> [reg n0]; have reg' : regular energy [:: r] by move=> x [<-|[]].
    have rl := level_is reg' n0.
    have [t [made [Ers sz]]] := constructed_made con; have [E1 [Et _]] := makeGroup_ok made.
    have szg : sized (gsize g) [:: r] by rewrite /gsize E1 -Ers.
    have [s' Er] := call_of_RL s szg reg' rl.
    have [first [F1 [F2 _]]] := first_incident_spec made.
    exists s'; eexists.
    by rewrite /evaluateGroup Ev [bind _ _]/= F1 [bind _ _]/= F2 [bind _ _]/= Ef Et Ers Er.
Qed.
End Eval.
