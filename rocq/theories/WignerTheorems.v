(** The threshold laws. *)
From Coq Require Import Reals Lra String.
From mathcomp Require Import all_ssreflect all_algebra.
From Verif Require Import Outcome HardSphereModel HardSphereProofs KinematicsModel CoulombModel Cplx RMatrixModel RMatrixSpec
  RMatrixObservableProofs ChannelModel SpinGroupModel SpinGroupSpec SpinGroupProofs SpinGroupEvalProofs SpinGroupChannelProofs SpinGroupTheorems SymmetryTheorems
  ContinuitySpec ContinuityProofs ContinuityMatrixProofs ContinuityChannelProofs ContinuityTheorems WignerSpec WignerProofs.
Set Implicit Arguments.
Unset Strict Implicit.
Unset Printing Implicit Defensive.
Import GRing.Theory.
Local Open Scope ring_scope.

(** sin x / x *)
Definition sinc (x : R) : R := if Req_EM_T x 0 then 1%re else (sin x / x)%re.
Lemma sinc_spec x : sin x = (x * sinc x)%re.
Proof. by rewrite /sinc; case: Req_EM_T => /= [E|n]; [rewrite E sin_0; ring | field]. Qed.
Lemma sinc_cont : continuity_pt sinc 0%re.
Proof.
  move=> eps h; have [d Hd] := derivable_pt_lim_sin_0 eps h.
  exists d; split; first exact: (cond_pos d).
  move=> x [[_ n] Hx]; rewrite /= /R_dist /sinc; case: (Req_EM_T x 0) => /= n'; first by case: n.
  case: Req_EM_T => /= z; last by case: z.
  move: Hx; rewrite /= /R_dist Rminus_0_r => Hx.
  by have := Hd x n' Hx; rewrite Rplus_0_l sin_0 Rminus_0_r.
Qed.

Section Entries.
Variables (n : nat) (vs : seq values) (A : 'M[cx]_n).
Hypothesis P0 : forall i : 'I_n, (0 <= v_P (val_of vs i))%re.
Hypothesis w0 : forall i : 'I_n, v_w (val_of vs i) = 0%re.
Let P (i : 'I_n) := v_P (val_of vs i).
Lemma T_norm i j : norm2 (T_spec vs A i j) = (P i * P j * norm2 (A i j))%re.
Proof.
  rewrite T_entry !norm2M /sqrtP -/(val_of vs i) -/(val_of vs j).
  have k (z : 'I_n) : norm2 (rcx (sqrt (v_P (val_of vs z)))) = P z.
    by rewrite /norm2 /= Rmult_0_r Rplus_0_r sqrt_sqrt.
  by rewrite !k; ring.
Qed.
Lemma T_diag i : T_spec vs A i i = rcx (P i) * A i i.
Proof.
  rewrite T_entry /sqrtP -/(val_of vs i) mulrAC -rcxM sqrt_sqrt //.
Qed.
Lemma capture_of c : (1 - \big[Rplus/0]_(j : 'I_n) norm2 (U_spec vs A c j) =
  4 * (P c * (im (A c c) - \big[Rplus/0]_(j : 'I_n) (P j * norm2 (A c j)))))%re.
Proof.
  have one : norm2 (U_spec vs A c c) = (1 - 4 * (P c * im (A c c)) + 4 * (P c * (P c * norm2 (A c c))))%re.
    rewrite U_entry eqxx !norm2M !norm2_omega T_diag.
    by rewrite /norm2 !cxE /=; ring.
  rewrite (bigD1 c) //= one [X in (im _ - X)%re](bigD1 c) //=.
  have -> : \big[Rplus/0%re]_(i < n | i != c) norm2 (U_spec vs A c i) = (4 * P c * \big[Rplus/0%re]_(i < n | i != c) (P i * norm2 (A c i)))%re.
    rewrite big_distrr /=; apply: eq_bigr => j ne; rewrite U_T // T_norm; ring.
  by move: (bigop _ _ _) => S /=; ring.
Qed.
Lemma elastic_of c : norm2 (cis (v_w (val_of vs c)) - U_spec vs A c c) =
  (4 * norm2 (rcx (sin (v_phi (val_of vs c))) - cis (- v_phi (val_of vs c)) * (rcx (P c) * A c c))%R)%re.
Proof.
  set phi := v_phi _.
  have om : omega vs c = cis (- phi)%re by rewrite /omega -/(val_of vs c) w0; congr cis; rewrite /phi; ring.
  rewrite U_entry eqxx T_diag om w0.
  have -> : cis 0%re - cis (- phi)%re * (1 + (ci + ci) * (rcx (P c) * A c c)) * cis (- phi)%re =
    (ci + ci) * cis (- phi)%re * (rcx (sin phi) - cis (- phi)%re * (rcx (P c) * A c c)).
    have e : cis 0%re = cis (- phi)%re * cis phi by rewrite -cisD; congr cis; ring.
    rewrite e /cis cos_neg sin_neg; apply: cx_ext; rewrite !cxE /=; ring.
  rewrite !norm2M norm2_cis.
  by have -> : norm2 (ci + ci) = 4%re; [rewrite /norm2 !cxE /=; ring | ring].
Qed.
End Entries.

Lemma common0 (T : Type) (l : list T) (Q : T -> R -> Prop) :
  (forall c, List.In c l -> exists a, (0 < a)%re /\ forall e, (0 <= e < a)%re -> Q c e) ->
  exists a, (0 < a)%re /\ forall e, (0 <= e < a)%re -> forall c, List.In c l -> Q c e.
Proof.
  elim: l => [|c l IH] H; first by exists 1%re; split; [exact: Rlt_0_1 | move=> e _ c []].
  have [|a [a0 Ha]] := IH; first by move=> c' h; apply: H; right.
  have [d [d0 Hd]] := H c (or_introl erefl).
  exists (Rmin a d); split; first exact: Rmin_pos.
  have m1 := Rmin_l a d; have m2 := Rmin_r a d.
  by move=> e He c' [<-|h]; [apply: Hd; lra | apply: Ha => //; lra].
Qed.

Section Main.
Variables (hbar epsilon0 : R) (cwf : nat -> R -> R -> outcome coulomb) (b : boundary_option).
Hypothesis hb : (0 < hbar)%re.
Variables (channels : seq channel) (rs : seq resonance) (g : group) (l : nat).
Hypotheses (con : constructed channels rs g) (sl : forall c, List.In c channels -> slow b c).
Hypothesis low : forall c, List.In c channels -> isIncidentChannel c -> (l <= QuantumModel.ql (c_numbers c))%N.
Hypothesis reg : regular 0%re rs.
Notation n := (gsize g).
Notation va := (vals hbar epsilon0 cwf b).
Let Eg : g_channels g = channels.
Proof. by have [t [made _]] := constructed_made con; have [E1 _] := makeGroup_ok made. Qed.
Let vs e := [seq va c (Rabs e) | c <- g_channels g].
Let v e (i : 'I_n) : val_of (vs e) i = va (chan i) (Rabs e).
Proof. by rewrite /val_of /vs (nth_map dummy_channel) // ltn_ord. Qed.
Let chan_in (i : 'I_n) : List.In (chan i) channels.
Proof.
  rewrite -Eg /chan; have := ltn_ord i; rewrite {2}/gsize.
  by elim: (g_channels g) (nat_of_ord i) => //= y r IH [|j] lt; [left | right; apply: IH].
Qed.
Let so c : List.In c channels -> soft hbar epsilon0 cwf b c.
Proof. by move/sl; exact: slow_soft. Qed.
Let F := lead_factor hbar (first_incident g).
Let fac e : (0 < e)%re -> channelFactor hbar (first_incident g) e = Some (F / e)%re.
Proof.
  move=> e0; have [t [made _]] := constructed_made con.
  have [first [F1 [F2 [inc inn]]]] := first_incident_spec made; rewrite Eg in inn.
  have [mu [ratio [a [a' [[m0 r0 Ha Ha'] [Hl [W [Ea [Ea' [K [[E1 [E2 q0]] _]]]]]]]]]]] := incident_wave epsilon0 cwf hb (sl inn) inc.
  rewrite /channelFactor /channelWaveNumber E1 E2 W; last lra.
  have k0 : (0 < kappa2 hbar (first_incident g))%re.
    rewrite K; apply: Rdiv_lt_0_compat; last by apply: Rmult_lt_0_compat.
    by apply: Rmult_lt_0_compat => //; lra.
  set kk := (_ * _)%re.
  have E : kk = (kappa2 hbar (first_incident g) * e)%re.
    rewrite /kk; have -> : forall x y : R, (x * y * (x * y) = (x * x) * (y * y))%re by move=> *; ring.
    by rewrite !sqrt_sqrt //; lra.
  have kp : (0 < kk)%re by rewrite E; apply: Rmult_lt_0_compat.
  rewrite /fdiv; case: Req_EM_T => /= [h|_]; first lra.
  by congr Some; rewrite /F /lead_factor E; field; lra.
Qed.

Let A e := RL_at n b rs vs e.
Lemma all_near : exists a, (0 < a)%re /\
  (forall e, (Rabs (e - 0) < a)%re -> regular e rs) /\
  (forall e (i : 'I_n), (Rabs (e - 0) < a)%re -> (0 <= v_P (val_of (vs e) i))%re /\
     (v_closed (val_of (vs e) i) \/ (0 < v_P (val_of (vs e) i))%re \/ lvalue b (val_of (vs e) i) = 0)) /\
  (forall e (i : 'I_n), (Rabs (e - 0) < a)%re -> v_closed (val_of (vs e) i) = v_closed (val_of (vs 0%re) i)) /\
  (forall e (i : 'I_n), (Rabs (e - 0) < a)%re -> v_w (val_of (vs e) i) = 0%re) /\
  (forall e, (0 <= e < a)%re -> groupValues hbar epsilon0 cwf b g e = Ok (Some (vs e))).
Proof.
  have [a2 [a20 H2]] := regular_near reg.
  have [a3 [a30 H3]] := common0 (fun c h => sf_near (so h)).
  exists (Rmin a2 a3); have m1 := Rmin_l a2 a3; have m2 := Rmin_r a2 a3.
  have ab e : (Rabs (e - 0) < Rmin a2 a3)%re -> (0 <= Rabs e < a3)%re.
    by rewrite Rminus_0_r => h; split; [exact: Rabs_pos | lra].
  split; first exact: Rmin_pos.
  split; first by move=> e h; apply: H2; lra.
  split; first by move=> e i /ab /H3 /(_ _ (chan_in i)) [_ [h1 [_ [h2 _]]]]; rewrite v.
  split; first by move=> e i /ab /H3 /(_ _ (chan_in i)) [_ [_ [_ [_ h]]]]; rewrite !v abs_0.
  split; first by move=> e i /ab /H3 /(_ _ (chan_in i)) [_ [_ [h _]]]; rewrite v.
  move=> e He; rewrite /groupValues /vs Rabs_right; last lra.
  have {}He : (0 <= e < a3)%re by lra.
  move: (H3 _ He); rewrite -Eg; elim: (g_channels g) => //= c r IH h.
  have [-> _] := h c (or_introl erefl) => /=.
  by move: IH; case: (mapM _ r) => [o|?|?|] /= IH; have := IH (fun c' hc => h c' (or_intror hc)) => // -[->].
Qed.

Let contA : mcont A 0%re.
Proof.
  have [a [a0 [H1 [H2 [H3 _]]]]] := all_near.
  apply: (RL_cont a0 H1 H2 H3) => i.
  by apply: ccont_ext (sf_L (so (chan_in i))) => e; rewrite v.
Qed.
Let Pc (i : 'I_n) e := v_P (val_of (vs e) i).
Let contP i : continuity_pt (Pc i) 0%re.
Proof. by apply: cont_ext (sf_P (so (chan_in i))) => e; rewrite /Pc v. Qed.
Let rP (i : 'I_n) := ratio_P hbar (chan i) l.
Let rphi (i : 'I_n) := ratio_phi hbar (chan i) l.
Let x e := @contribution g (vs e) (A e) (F / e)%re.

Lemma evaluates : exists d, (0 < d)%re /\ forall e, (0 < e < d)%re -> forall s m, exists s' m',
  @evaluateGroup hbar epsilon0 cwf b g e s m = Ok (Some (s', m')) /\ added (written g) (x e) m m'.
Proof.
  have [a [a0 [H1 [H2 [H3 [_ H4]]]]]] := all_near; exists a; split=> // e He s m.
  have [t [made [Ers sz]]] := constructed_made con; have [_ [Et _]] := makeGroup_ok made.
  have szg : sized n rs by rewrite /gsize Eg -Ers.
  have ne : (Rabs (e - 0) < a)%re by rewrite Rminus_0_r Rabs_right; lra.
  have rl := RL_at_is rs H2 ne.
  have [s' Er] := call_of_RL s szg (H1 e ne) rl.
  have [first [F1 [F2 _]]] := first_incident_spec made.
  exists s'; eexists; split.
    by rewrite /evaluateGroup H4; [rewrite [bind _ _]/= F1 [bind _ _]/= F2 [bind _ _]/= fac; [rewrite Et Ers Er | lra] | lra].
  have rl' : is_RL b e (t_resonances t) (vs e) (A e) by rewrite Ers.
  exact: (process_spec made (F / e)%re rl' m).
Qed.
Lemma at_threshold : groupValues hbar epsilon0 cwf b g 0%re = Ok (Some (vs 0%re)) /\ is_RL b 0%re rs (vs 0%re) (A 0%re).
Proof.
  have [a [a0 [H1 [H2 [H3 [_ H4]]]]]] := all_near; split; first by apply: H4; lra.
  by apply: (RL_at_is rs H2); rewrite Rminus_0_r abs_0.
Qed.

Let incP (c : 'I_n) e : isIncidentChannel (chan c) -> (0 < e)%re -> Pc c e = (rP c e * (e ^ l * sqrt e))%re.
Proof.
  move=> ic e0; rewrite /Pc v Rabs_right; last lra.
  by apply: (incident_P epsilon0 cwf hb (sl (chan_in c)) ic (low (chan_in c) ic)); lra.
Qed.
Let incphi (c : 'I_n) e : isIncidentChannel (chan c) -> (0 < e)%re -> v_phi (val_of (vs e) c) = (rphi c e * (e ^ l * sqrt e))%re.
Proof.
  move=> ic e0; rewrite v Rabs_right; last lra.
  by apply: (incident_phi epsilon0 cwf hb (sl (chan_in c)) ic (low (chan_in c) ic)); lra.
Qed.

Lemma reaction_law k : (forall j : 'I_n, c_reaction (chan j) = k -> isIncidentChannel (chan j) = false) ->
  at_zero (fun e => x e k * sqrt e / e ^ l)%re (reaction_limit hbar l (vs 0%re) (A 0%re) k).
Proof.
  move=> nk; have [a [a0 [H1 [H2 [H3 [w0 _]]]]]] := all_near.
  apply: (@at_zero_cont (fun e => 4 * F * \big[Rplus/0]_(c : 'I_n | isIncidentChannel (chan c))
     (rP c e * (\big[Rplus/0]_(j | c_reaction (chan j) == k) (Pc j e * norm2 (A e c j))
       + (if k == capture_id g then im (A e c c) - \big[Rplus/0]_j (Pc j e * norm2 (A e c j)) else 0))))%re).
  - exists a; split=> // e [e0 e1].
    have ne : (Rabs (e - 0) < a)%re by rewrite Rminus_0_r Rabs_right; lra.
    have s0 : (0 < sqrt e)%re by apply: sqrt_lt_R0.
    have l0 : (0 < e ^ l)%re by apply: pow_lt.
    have P0 i : (0 <= v_P (@val_of n (vs e) i))%re by have [] := H2 e i ne.
    rewrite /x /contribution.
    have -> : \big[Rplus/0%re]_(c : 'I_n | isIncidentChannel (chan c))
       (\big[Rplus/0%re]_(j | c_reaction (chan j) == k) norm2 ((if j == c then cis (v_w (val_of (vs e) c)) else 0%R) - U_spec (vs e) (A e) c j)%R
        + (if k == capture_id g then 1 - \big[Rplus/0%re]_j norm2 (U_spec (vs e) (A e) c j) else 0))%re =
      (4 * (e ^ l * sqrt e) * \big[Rplus/0]_(c : 'I_n | isIncidentChannel (chan c))
       (rP c e * (\big[Rplus/0]_(j | c_reaction (chan j) == k) (Pc j e * norm2 (A e c j))
       + (if k == capture_id g then im (A e c c) - \big[Rplus/0]_j (Pc j e * norm2 (A e c j)) else 0))))%re.
      rewrite big_distrr /=; apply: eq_bigr => c ic.
      have Ep := incP ic e0.
      rewrite [in RHS]Rmult_plus_distr_l Rmult_plus_distr_l; congr (_ + _)%re.
        rewrite !big_distrr /=; apply: eq_bigr => j /eqP jk.
        have jc : j != c by apply/eqP => h; move: (nk j jk); rewrite h ic.
        rewrite (negbTE jc) sub0r norm2N U_T // T_norm // -/(Pc c e) -/(Pc j e) Ep; ring.
      case: (k == _); last ring.
      by rewrite capture_of // -/(Pc c e) Ep; move: (bigop _ _ _) => S; ring.
    move: (bigop _ _ _) => S; have se : (sqrt e * sqrt e = e)%re by apply: sqrt_sqrt; lra.
    have -> : (F / e * (4 * (e ^ l * sqrt e) * S) * sqrt e / e ^ l = F / e * (4 * (e ^ l * (sqrt e * sqrt e)) * S) / e ^ l)%re by rewrite /Rdiv; ring.
    by rewrite se; field; lra.
  - apply: cont_mul; first exact: cont_const.
    apply: cont_sum => c ic; apply: cont_mul; first exact: (ratio_P_cont epsilon0 cwf hb l (sl (chan_in c)) ic).
    have S1 (Q : pred 'I_n) : continuity_pt (fun e => \big[Rplus/0%re]_(j | Q j) (Pc j e * norm2 (A e c j))%re) 0%re.
      by apply: cont_sum => j _; apply: cont_mul => //; apply: cont_norm2; exact: contA.
    apply: cont_add; first exact: S1.
    case: (k == _); last exact: cont_const.
    by apply: cont_sub; [have [_ h] := contA c c | exact: S1].
  - congr (_ * _)%re; apply: eq_bigr => c ic.
    by rewrite /rP (ratio_P_0 epsilon0 cwf hb (sl (chan_in c)) ic (low (chan_in c) ic)).
Qed.

Lemma elastic_law k : (forall j : 'I_n, c_reaction (chan j) = k -> isIncidentChannel (chan j)) -> k <> capture_id g ->
  at_zero (fun e => x e k / e ^ (2 * l))%re (elastic_limit hbar l (A 0%re) k).
Proof.
  move=> ik nc; have [a [a0 [H1 [H2 [H3 [w0 _]]]]]] := all_near.
  apply: (@at_zero_cont (fun e => 4 * F * \big[Rplus/0]_(c : 'I_n | isIncidentChannel (chan c))
     \big[Rplus/0]_(j : 'I_n | c_reaction (chan j) == k)
       if j == c then norm2 (rcx (rphi c e * sinc (rphi c e * (Rabs e ^ l * sqrt (Rabs e)))) - cis (- (rphi c e * (Rabs e ^ l * sqrt (Rabs e)))) * (rcx (rP c e) * A e c c))%R
       else rP c e * rP j e * norm2 (A e c j))%re).
  - exists a; split=> // e [e0 e1].
    have ne : (Rabs (e - 0) < a)%re by rewrite Rminus_0_r Rabs_right; lra.
    have s0 : (0 < sqrt e)%re by apply: sqrt_lt_R0.
    have l0 : (0 < e ^ l)%re by apply: pow_lt.
    have P0 i : (0 <= v_P (@val_of n (vs e) i))%re by have [] := H2 e i ne.
    have w i : v_w (@val_of n (vs e) i) = 0%re by apply: w0.
    have se : (sqrt e * sqrt e = e)%re by apply: sqrt_sqrt; lra.
    have e2 : (e ^ (2 * l) = e ^ l * e ^ l)%re.
      change ((e ^ Nat.mul 2 l)%re = (e ^ l * e ^ l)%re); rewrite -pow_add; congr (_ ^ _)%re.
      by rewrite /= Nat.add_0_r.
    set M := (e ^ l * sqrt e)%re.
    have MM : (M * M = e ^ l * e ^ l * e)%re by transitivity (e ^ l * e ^ l * (sqrt e * sqrt e))%re; [rewrite /M; ring | rewrite se].
    rewrite /x /contribution (Rabs_right e); last lra.
    have -> : \big[Rplus/0%re]_(c : 'I_n | isIncidentChannel (chan c))
       (\big[Rplus/0%re]_(j | c_reaction (chan j) == k) norm2 ((if j == c then cis (v_w (val_of (vs e) c)) else 0%R) - U_spec (vs e) (A e) c j)%R
        + (if k == capture_id g then 1 - \big[Rplus/0%re]_j norm2 (U_spec (vs e) (A e) c j) else 0))%re =
      (4 * (M * M) * \big[Rplus/0]_(c : 'I_n | isIncidentChannel (chan c))
       \big[Rplus/0]_(j : 'I_n | c_reaction (chan j) == k)
         if j == c then norm2 (rcx (rphi c e * sinc (rphi c e * M)) - cis (- (rphi c e * M)) * (rcx (rP c e) * A e c c))%R
         else rP c e * rP j e * norm2 (A e c j))%re.
      rewrite big_distrr /=; apply: eq_bigr => c ic.
      have -> : (k == capture_id g) = false by apply/eqP.
      rewrite Rplus_0_r big_distrr /=; apply: eq_bigr => j /eqP jk.
      have Ep := incP ic e0; have Eq := incP (ik j jk) e0; have Ef := incphi ic e0.
      case: eqP => [->|/eqP jc].
        rewrite elastic_of // Ef -/(Pc c e) Ep -/M sinc_spec.
        have -> : rcx (rphi c e * M * sinc (rphi c e * M))%re - cis (- (rphi c e * M))%re * (rcx (rP c e * M)%re * A e c c) =
          rcx M * (rcx (rphi c e * sinc (rphi c e * M))%re - cis (- (rphi c e * M))%re * (rcx (rP c e) * A e c c)).
          by apply: cx_ext; rewrite !cxE /=; ring.
        by rewrite norm2M norm2_rcx; ring.
      by rewrite sub0r norm2N U_T // T_norm // -/(Pc c e) -/(Pc j e) Ep Eq -/M; ring.
    by rewrite MM e2; move: (bigop _ _ _) => S; field; lra.
  - have cf c : isIncidentChannel (chan c) -> continuity_pt (rphi c) 0%re by move=> ic; exact: (ratio_phi_cont epsilon0 cwf hb l (sl (chan_in c)) ic).
    have cP c : isIncidentChannel (chan c) -> continuity_pt (rP c) 0%re by move=> ic; exact: (ratio_P_cont epsilon0 cwf hb l (sl (chan_in c)) ic).
    have cm c : isIncidentChannel (chan c) -> continuity_pt (fun e => rphi c e * (Rabs e ^ l * sqrt (Rabs e)))%re 0%re.
      move=> ic; apply: cont_mul; first exact: cf.
      apply: cont_mul; first exact: abs_pow_cont.
      by apply: (@cont_ext (fun e => 1 * sqrt (Rabs e))%re) => [e|]; [ring | exact: sqrt_abs_cont].
    have z c : (rphi c 0 * (Rabs 0 ^ l * sqrt (Rabs 0)) = 0)%re by rewrite abs_0 sqrt_0 !Rmult_0_r.
    apply: cont_mul; first exact: cont_const.
    apply: cont_sum => c ic; apply: cont_sum => j /eqP jk; case: (j == c).
    + apply: cont_norm2; apply: ccont_sub.
        apply: ccont_rcx; apply: cont_mul; first exact: cf.
        by apply: (@cont_comp sinc); [exact: cm | rewrite z; exact: sinc_cont].
      apply: ccont_mul; last by apply: ccont_mul; [apply: ccont_rcx; exact: cP | exact: contA].
      have cn : continuity_pt (fun e => - (rphi c e * (Rabs e ^ l * sqrt (Rabs e))))%re 0%re by apply: cont_opp; exact: cm.
      by apply: ccont_Cx; [apply: (@cont_comp cos) => //; exact: continuity_cos | apply: (@cont_comp sin) => //; exact: continuity_sin].
    + by apply: cont_mul; [apply: cont_mul; apply: cP => //; exact: ik | apply: cont_norm2; exact: contA].
  - congr (_ * _)%re; apply: eq_bigr => c ic; apply: eq_bigr => j /eqP jk.
    have Ec i : isIncidentChannel (chan i) -> rP i 0%re = lead_P hbar l (chan i) /\ (0 <= lead_P hbar l (chan i))%re.
      move=> ii; split; first exact: (ratio_P_0 epsilon0 cwf hb (sl (chan_in i)) ii (low (chan_in i) ii)).
      exact: (lead_P_ge0 epsilon0 cwf hb l (sl (chan_in i)) ii).
    have [E1 p1] := Ec c ic; have [E2 p2] := Ec j (ik j jk).
    have Ef : rphi c 0%re = lead_phi hbar l (chan c) by exact: (ratio_phi_0 hbar (low (chan_in c) ic)).
    case: eqP => [->|_].
    + rewrite abs_0 sqrt_0 !Rmult_0_r Ropp_0 Ef E1 sqrt_sqrt // /sinc; case: Req_EM_T => // _ /=.
      by rewrite Rmult_1_r /cis cos_0 sin_0; congr norm2; congr (_ - _); apply: cx_ext; rewrite !cxE /=; ring.
    + rewrite sub0r norm2N norm2M norm2_rcx E1 E2.
      by rewrite -{1}(sqrt_sqrt _ p1) -{1}(sqrt_sqrt _ p2); ring.
Qed.

Lemma wigner : exists vs (A : 'M[cx]_n) x, groupValues hbar epsilon0 cwf b g 0%re = Ok (Some vs) /\ is_RL b 0%re rs vs A /\
  (exists d, (0 < d)%re /\ forall e, (0 < e < d)%re -> forall s m, exists s' m',
     @evaluateGroup hbar epsilon0 cwf b g e s m = Ok (Some (s', m')) /\ added (written g) (x e) m m') /\
  forall k,
    ((forall j : 'I_n, c_reaction (chan j) = k -> isIncidentChannel (chan j) = false) ->
       at_zero (fun e => x e k * sqrt e / e ^ l)%re (reaction_limit hbar l vs A k)) /\
    ((forall j : 'I_n, c_reaction (chan j) = k -> isIncidentChannel (chan j)) -> k <> capture_id g ->
       at_zero (fun e => x e k / e ^ (2 * l))%re (elastic_limit hbar l A k)).
Proof.
  exists (vs 0%re), (A 0%re), x; have [T1 T2] := at_threshold.
  split; [exact: T1 | split; [exact: T2 | split; [exact: evaluates|]]].
  by move=> k; split; [exact: reaction_law | exact: elastic_law].
Qed.
End Main.
