(** The statements of SpinGroupProperties, assembled from the lemmas. *)
From Coq Require Import Reals Lra Lia Ascii String ZArith Permutation.
From mathcomp Require Import all_ssreflect all_algebra.
From Verif Require Import Outcome QuantumModel HardSphereModel HardSphereSpec HardSphereProofs
  KinematicsModel CoulombModel Cplx RMatrixModel RMatrixSpec RMatrixProofs
  RMatrixCodeProofs RMatrixObservableProofs ChannelModel SpinGroupModel SpinGroupSpec SpinGroupProofs
  SpinGroupEvalProofs SpinGroupSystemProofs SpinGroupChannelProofs.
Set Implicit Arguments.
Unset Strict Implicit.
Unset Printing Implicit Defensive.
Import GRing.Theory.
Local Open Scope ring_scope.

(** * Constructors *)
Lemma foldM_check (A : Type) (f : A -> bool) l :
  foldM (fun (_ : unit) x => check (f x)) l tt = if all f l then Ok tt else std_exception.
Proof. by elim: l => //= x l IH; rewrite /check; case: (f x) => //=. Qed.

Lemma table_accepts cs rs : 
  (acceptable_table cs rs -> makeTable cs rs = Ok (mkTable cs rs)) /\
  (~ acceptable_table cs rs -> makeTable cs rs = std_exception).
Proof.
  rewrite /makeTable foldM_check.
  have E : (all (fun r => PeanoNat.Nat.eqb (List.length cs) (List.length (rs_widths r))) rs) <-> acceptable_table cs rs.
    rewrite /acceptable_table; elim: rs => //= r rs IH; split.
      move=> /andP [/PeanoNat.Nat.eqb_eq H /IH H'] r' [<- | Hr]; [by symmetry | exact: H'].
    move=> H; apply/andP; split; first by apply/PeanoNat.Nat.eqb_eq; symmetry; apply: H; left.
    by apply/IH => r' Hr; apply: H; right.
  case: (all _ _) E => [[E1 E2]|[E1 E2]]; split=> //=.
    by move=> H; case: H; apply: E1.
  by move=> /E2.
Qed.

Lemma count_all (f : channel -> bool) l : (ChannelModel.count f l < size l)%N = ~~ all f l.
Proof.
  have le : forall l', (ChannelModel.count f l' <= size l')%N.
    by elim=> //= x l' IH; case: (f x) => //=; apply: leqW.
  elim: l => //= x l IH; case: (f x) => /=; first by rewrite ltnS IH.
  by rewrite ltnS le.
Qed.
Lemma ids_uniq l : all (fun e => negb (PeanoNat.Nat.ltb 1
    (ChannelModel.count (fun c => String.eqb (c_id c) (c_id e)) l))) l = uniq [seq c_id c | c <- l].
Proof.
  have E e : ChannelModel.count (fun c : channel => (c_id c =? c_id e)%string) l = count_mem (c_id e) [seq c_id c | c <- l].
    by elim: l => //= x l0 ->; rewrite /eq_op /=; case: String.eqb.
  have lt m : negb (PeanoNat.Nat.ltb 1 m) = (m <= 1)%N.
    by case: m => [|[|m]].
  rewrite (eq_all (a2 := preim c_id (fun i => (count_mem i [seq c_id c | c <- l] <= 1)%N))); last first.
    by move=> e; rewrite lt E.
  rewrite -all_map; elim: [seq c_id c | c <- l] => //= i s IH.
  apply/andP/andP => [[H1 H2] | [H1 H2]].
    rewrite eqxx add1n ltnS leqn0 in H1; rewrite -has_pred1 has_count (eqP H1); split=> //.
    rewrite -IH; apply: sub_all H2 => j; apply: leq_trans; exact: leq_addl.
  split; first by rewrite eqxx add1n ltnS leqn0; rewrite -has_pred1 has_count lt0n negbK in H1.
  rewrite -IH in H2; apply/allP => j Hj; move/allP: H2 => /(_ j Hj).
  case: (i =P j) => [E' | _]; last by rewrite add0n.
  by rewrite -E' in Hj; rewrite Hj in H1.
Qed.
Lemma uniq_NoDup (s : seq string) : uniq s <-> List.NoDup s.
Proof.
  elim: s => [|x s IH] /=; first by split=> // _; constructor.
  split=> [/andP [H1 H2] | H].
    constructor; last exact/IH.
    by move=> Hin; move: H1; elim: s Hin {IH H2} => //= y s IH [-> | Hin]; rewrite inE ?eqxx // negb_or => /andP [_]; apply: IH.
  inversion H as [|? ? H1 H2]; subst; apply/andP; split; last exact/IH.
  by apply/negP => Hin; apply: H1; apply: In_mem.
Qed.

Lemma all_In (A : Type) (f : A -> bool) l : all f l <-> (forall x, List.In x l -> f x).
Proof.
  elim: l => //= x l IH; split=> [/andP [H1 /IH H2] y [<- | Hy] | H] //; first exact: H2.
  by apply/andP; split; [apply: H; left | apply/IH => y Hy; apply: H; right].
Qed.

Lemma determine_nonempty start channels :
  (determineIncident start channels <> [::]) <->
  (exists c, List.In c channels /\ pp_id (c_pair c) = pp_id (c_incident c)).
Proof.
  elim: channels start => [|c cs IH] start /=; first by split=> // -[c []].
  rewrite /isIncidentChannel; case: String.eqb_spec => E; split=> //.
  - by move=> _; exists c; split=> //; left.
  - by move=> /IH [c' [H1 H2]]; exists c'; split=> //; right.
  - by move=> [c' [[<- | H1] H2]] //; apply/IH; exists c'.
Qed.

Lemma combine_eq (s1 s2 : seq string) : size s1 = size s2 ->
  all (fun p => String.eqb p.1 p.2) (List.combine s1 s2) <-> s2 = s1.
Proof.
  elim: s1 s2 => [|x s1 IH] [|y s2] //= [E]; split.
    by move=> /andP [/String.eqb_eq -> /(IH _ E) ->].
  by move=> [-> ->]; rewrite String.eqb_refl; apply/IH.
Qed.

Lemma Jpi_eqb (a b : qnum) : same_Jpi a b <-> qJ a = qJ b /\ qp a = qp b.
Proof.
  rewrite /same_Jpi; split.
    by move=> /andP [/Z.eqb_eq -> /Z.eqb_eq ->].
  by move=> [-> ->]; rewrite !Z.eqb_refl.
Qed.

Lemma group_accepts c0 cs t : let channels := c0 :: cs in
  (acceptable_group channels t -> exists g, makeGroup channels t = Ok g) /\
  (~ acceptable_group channels t -> makeGroup channels t = std_exception).
Proof.
  set channels := c0 :: cs => /=.
  pose a1 := all (fun c => String.eqb (pp_id (c_incident c)) (pp_id (c_incident c0))) channels.
  pose a2 := uniq [seq c_id c | c <- channels].
  pose a3 := all (fun e => same_Jpi (c_numbers e) (c_numbers c0)) cs.
  pose a4 := determineIncident 0 channels != [::].
  pose a5 := PeanoNat.Nat.eqb (List.length channels) (List.length (t_channels t)).
  pose a6 := all (fun p => String.eqb p.1 p.2) (List.combine (List.map c_id channels) (t_channels t)).
  have E : makeGroup channels t = if [&& a1, a2, a3, a4, a5 & a6]
    then Ok (mkGroup (List.app (List.map c_reaction channels) (cons (Transfer (pp_id (c_incident c0)) "capture") nil))
                     (determineIncident 0 channels) channels t) else std_exception.
    set g := mkGroup _ _ _ _.
    have -> : makeGroup channels t = (do _ <- verifyChannels channels ;
      do _ <- verifyIncidentChannels (determineIncident 0 channels) ;
      do _ <- verifyResonanceChannels channels t ; Ok g) by [].
    have -> : verifyChannels channels = (do _ <- check a1; do _ <- check a2; check a3).
      have c1 : ~~ PeanoNat.Nat.ltb (ChannelModel.count (fun c => (pp_id (c_incident c) =? pp_id (c_incident c0))%string) channels)
        (List.length channels) = a1.
        rewrite /a1 -[RHS]negbK -count_all; congr negb.
        by apply/idP/idP => [/PeanoNat.Nat.ltb_lt /ltP | /ltP /PeanoNat.Nat.ltb_lt].
      have C (A : Type) (f : A -> bool) l : check (all f l) = foldM (fun (_ : unit) x => check (f x)) l tt.
        by rewrite foldM_check /check.
      by rewrite /a2 -ids_uniq /a3 -c1 !C.
    rewrite {1}/check; case: a1 => //=; case: a2 => //=; case: a3 => //=.
    rewrite /verifyIncidentChannels.
    have -> : check (~~ PeanoNat.Nat.eqb (List.length (determineIncident 0 channels)) 0) = check a4.
      by congr check; rewrite /a4; case: (determineIncident 0 channels).
    rewrite {1}/check; case: a4 => //=.
    rewrite /verifyResonanceChannels -/a5 foldM_check -/a6 {1}/check; case: a5 => //=.
    by case: a6.
  have S : [&& a1, a2, a3, a4, a5 & a6] <-> acceptable_group channels t.
    split.
      case/and5P=> H1 H2 H3 H4 /andP [H5 H6].
      have H1' c : List.In c channels -> pp_id (c_incident c) = pp_id (c_incident c0).
        by move=> Hc; apply/String.eqb_eq; move: c Hc; apply/all_In.
      have H3' c : List.In c channels -> qJ (c_numbers c) = qJ (c_numbers c0) /\ qp (c_numbers c) = qp (c_numbers c0).
        by move=> [<- // | Hc]; apply/Jpi_eqb; move: c Hc; apply/all_In.
      split; first by move=> c c' /H1' -> /H1' ->.
      split; first by apply/uniq_NoDup.
      split; first by move=> c c' /H3' [-> ->] /H3' [-> ->].
      split; first by apply/(determine_nonempty 0)/eqP.
      apply/(combine_eq (s1 := List.map c_id channels)); last by [].
      move/PeanoNat.Nat.eqb_eq: H5; rewrite -[List.map _ _]/([seq c_id c | c <- channels]) size_map.
      exact.
    move=> [H1 [H2 [H3 [H4 H5]]]].
    apply/and5P; split.
    - by apply/all_In => c Hc; apply/String.eqb_eq; apply: H1 => //; left.
    - by apply/uniq_NoDup.
    - by apply/all_In => c Hc; apply/Jpi_eqb; apply: H3; [right | left].
    - by apply/eqP; apply/determine_nonempty.
    - rewrite /a5 /a6 H5; apply/andP; split; first by apply/PeanoNat.Nat.eqb_eq; rewrite List.map_length.
      by apply/combine_eq.
  rewrite E; case: [&& _, _, _, _, _ & _] S => [[S1 S2]|[S1 S2]]; split.
  - by move=> _; eexists.
  - by move=> H; case: H; apply: S1.
  - by move=> /S2.
  - by [].
Qed.

(** * Evaluation *)
Lemma constructed_made channels rs g : constructed channels rs g -> exists t,
  makeGroup channels t = Ok g /\ t_resonances t = rs /\ sized (size channels) (t_resonances t).
Proof.
  move=> [cs [t [Et Eg]]]; exists t; split=> //.
  have [E1 [E2 sz]] := makeTable_sized Et; have [_ [_ [_ [_ [_ [E3 _]]]]]] := makeGroup_ok Eg.
  by rewrite E2 -E3 E1.
Qed.

Section Eval.
Variables (hbar epsilon0 : R) (cwf : nat -> R -> R -> outcome coulomb) (b : boundary_option).
Notation evalG := (@evaluateGroup hbar epsilon0 cwf b).
Notation evalT := (@evaluateTGroup hbar epsilon0 cwf b).

Lemma evaluate_inv channels rs g energy (s s' : cache (gsize g)) m m' : constructed channels rs g ->
  evalG energy s m = Ok (Some (s', m')) ->
  exists vs A factor, evaluated hbar epsilon0 cwf b rs energy vs A factor /\
    added (written g) (@contribution g vs A factor) m m'.
Proof.
  move=> /constructed_made [t [made [Ers sz]]].
  have [first [F1 [F2 _]]] := first_incident_spec made.
  have [E1 [Et _]] := makeGroup_ok made.
  rewrite /evaluateGroup; case Ev: (groupValues _ _ _ _ _ _) => [ovs| | |] //=.
  rewrite F1 [bind _ _]/= F2 [bind _ _]/=.
  case: ovs Ev => [vs|] // Ev; case Ef: (channelFactor _ _ _) => [factor|] //.
  case Er: (rl_call _ _ _ _ _) => [[s1 A]|] // [_ <-].
  rewrite Et in Er; have sz' : sized (gsize g) (t_resonances t) by rewrite /gsize E1.
  have rl := rl_call_is_RL sz' Er.
  exists vs, A, factor; split; last exact: (process_spec made factor rl m).
  by rewrite /evaluated -Ers.
Qed.

(** C17, existence *)
Lemma evaluate_succeeds channels rs g energy vs factor : constructed channels rs g ->
  groupValues hbar epsilon0 cwf b g energy = Ok (Some vs) ->
  channelFactor hbar (first_incident g) energy = Some factor ->
  physical (gsize g) b vs -> regular energy rs ->
  forall (s : cache (gsize g)) m, exists s' m', evalG energy s m = Ok (Some (s', m')).
Proof.
  move=> /constructed_made [t [made [Ers sz]]] Ev Ef ph reg s m.
  rewrite -Ers in reg.
  have [s' [A [_ H]]] := evaluate_ok made sz Ev Ef ph reg.
  by have [m' [E _]] := H s m; exists s', m'.
Qed.

(** and never when a resonance without eliminated width sits at the energy *)
Lemma evaluate_fails channels rs g energy vs factor r : constructed channels rs g ->
  groupValues hbar epsilon0 cwf b g energy = Ok (Some vs) ->
  channelFactor hbar (first_incident g) energy = Some factor ->
  List.In r rs -> rs_energy r = energy -> rs_eliminated r = 0%re ->
  forall (s : cache (gsize g)) m, evalG energy s m = Ok None.
Proof.
  move=> /constructed_made [t [made [Ers sz]]] Ev Ef Hr He Hg s m.
  rewrite -Ers in Hr; exact: (evaluate_irregular made s m Ev Ef Hr He Hg).
Qed.

(** a single incident channel's factor: pi g/k^2 *)
Lemma gained_total channels rs g energy vs A factor m m' : constructed channels rs g ->
  @evaluated hbar epsilon0 cwf b rs g energy vs A factor -> added (written g) (@contribution g vs A factor) m m' ->
  gained g m m' = (factor * \big[Rplus/0]_(c | isIncidentChannel (chan c))
     (2 - 2 * re (conj (cis (v_w (val_of vs c))) * U_spec vs A c c)%R))%re.
Proof.
  move=> /constructed_made [t [made [Ers sz]]] [Ev [Ef rl]] ad.
  rewrite -Ers in rl; rewrite -(total_contribution made factor rl) /gained big_seq [RHS]big_seq.
  apply: eq_bigr => k; rewrite mem_undup (written_reactions made) => w.
  by rewrite ad w /=; ring.
Qed.

Lemma uncharged_total n vs (A : 'M[cx]_n) c : v_w (val_of vs c) = 0%re ->
  (2 - 2 * re (conj (cis (v_w (val_of vs c))) * U_spec vs A c c)%R = 2 * (1 - re (U_spec vs A c c)))%re.
Proof.
  move=> ->; have -> : conj (cis 0%re) = 1.
    by apply: cx_ext; rewrite /= ?cos_0 ?sin_0 /=; ring.
  by rewrite mul1r; ring.
Qed.

Lemma neutral_w g energy vs : (0 < hbar)%re -> neutral_channels energy g ->
  groupValues hbar epsilon0 cwf b g energy = Ok (Some vs) ->
  (forall i : 'I_(gsize g), v_w (val_of vs i) = 0%re) /\ physical (gsize g) b vs.
Proof.
  move=> hb nt Ev; have [vs' [Ev' [ph H]]] := tame_group epsilon0 cwf b hb nt.
  by rewrite Ev in Ev'; case: Ev' => ->.
Qed.

Lemma optical channels rs g energy (s s' : cache (gsize g)) m m' : constructed channels rs g ->
  (0 < hbar)%re -> neutral_channels energy g -> evalG energy s m = Ok (Some (s', m')) ->
  exists vs A factor, @evaluated hbar epsilon0 cwf b rs g energy vs A factor /\
    gained g m m' = (factor * \big[Rplus/0]_(c : 'I_(gsize g) | isIncidentChannel (chan c))
                       (2 * (1 - re (U_spec vs A c c))))%re.
Proof.
  move=> con hb nt ev; have [vs [A [factor [E ad]]]] := evaluate_inv con ev.
  exists vs, A, factor; split=> //; rewrite (gained_total con E ad); congr Rmult.
  have [w _] := neutral_w hb nt (proj1 E).
  by apply: eq_bigr => c _; rewrite uncharged_total.
Qed.

Lemma optical_charged channels rs g energy (s s' : cache (gsize g)) m m' : constructed channels rs g ->
  evalG energy s m = Ok (Some (s', m')) ->
  exists vs A factor, @evaluated hbar epsilon0 cwf b rs g energy vs A factor /\
    gained g m m' = (factor * \big[Rplus/0]_(c : 'I_(gsize g) | isIncidentChannel (chan c))
                       (2 - 2 * re (conj (cis (v_w (val_of vs c))) * U_spec vs A c c)%R))%re.
Proof.
  move=> con ev; have [vs [A [factor [E ad]]]] := evaluate_inv con ev.
  by exists vs, A, factor; split=> //; rewrite (gained_total con E ad).
Qed.

Lemma nonneg channels rs g energy (s s' : cache (gsize g)) m m' k : constructed channels rs g ->
  evalG energy s m = Ok (Some (s', m')) ->
  (forall vs, groupValues hbar epsilon0 cwf b g energy = Ok (Some vs) ->
     forall i : 'I_(gsize g), (0 <= v_P (val_of vs i))%re) ->
  (forall f, channelFactor hbar (first_incident g) energy = Some f -> (0 <= f)%re) ->
  (odflt 0 (m k) <= odflt 0 (m' k))%re.
Proof.
  move=> con ev P0 f0; have [vs [A [factor [[Ev [Ef rl]] ad]]]] := evaluate_inv con ev.
  rewrite ad; case: (written g k) => /=; last lra.
  have [t [made [Ers _]]] := constructed_made con; rewrite -Ers in rl.
  have := @contribution_ge0 b t g vs energy A factor k rl (P0 _ Ev) (f0 _ Ef); lra.
Qed.

Lemma pi_value_pos : (0 < pi_value)%re.
Proof. rewrite /pi_value; lra. Qed.

Lemma neutral_nonneg channels rs g energy (s s' : cache (gsize g)) m m' k : constructed channels rs g ->
  (0 < hbar)%re -> neutral_channels energy g -> (0 <= spinFactor (first_incident g))%re ->
  evalG energy s m = Ok (Some (s', m')) ->
  (odflt 0 (m k) <= odflt 0 (m' k))%re.
Proof.
  move=> con hb nt g0 ev; apply: (nonneg k con ev) => [vs /(neutral_w hb nt) [_ ph] i | f].
    by have [H _] := ph i.
  rewrite /channelFactor; case: (channelWaveNumber _ _ _) => // k0; rewrite /fdiv.
  case: Req_EM_T => //= ne [<-]; apply: Rmult_le_pos => //; apply: Rlt_le; apply: Rdiv_lt_0_compat.
    exact: pi_value_pos.
  have := Rle_0_sqr k0; rewrite /Rsqr => H; case: (Rle_lt_or_eq_dec _ _ H) => // E.
  by case: ne; rewrite -E.
Qed.

(** C18 *)
Lemma no_capture channels rs g energy (s s' : cache (gsize g)) m m' : constructed channels rs g ->
  evalG energy s m = Ok (Some (s', m')) ->
  (forall vs, groupValues hbar epsilon0 cwf b g energy = Ok (Some vs) ->
     forall i : 'I_(gsize g), (0 <= v_P (val_of vs i))%re) ->
  (forall r, List.In r rs -> rs_eliminated r = 0%re) ->
  (forall c, List.In c channels -> c_reaction c <> capture_id g) ->
  m' (capture_id g) = Some (odflt 0%re (m (capture_id g))) /\
  exists vs A factor, @evaluated hbar epsilon0 cwf b rs g energy vs A factor /\ U_spec vs A *m dag (U_spec vs A) = 1%:M.
Proof.
  move=> con ev P0 el nc; have [vs [A [factor [E ad]]]] := evaluate_inv con ev.
  have [Ev [Ef rl]] := E; split; last first.
    exists vs, A, factor; split=> //; exact: (U_unitary rl (P0 _ Ev) el).
  rewrite ad /written eqxx /contribution /=; congr Some.
  rewrite big1 ?Rmult_0_r ?Rplus_0_r // => c _.
  rewrite eqxx -(capture_code rl) (capture_zero rl (P0 _ Ev) _ el) big1 ?Rplus_0_r // => j /eqP Hj.
  case: (nc (chan j)) => //; have [t [made _]] := constructed_made con; have [E1 _] := makeGroup_ok made.
  rewrite -E1 /chan; have := ltn_ord j; rewrite {2}/gsize.
  by elim: (g_channels g) (nat_of_ord j) => //= x l IH [|i] lt; [left | right; apply: IH].
Qed.

(** C19 *)
Lemma closed_nothing n rs energy vs (A : 'M[cx]_n) c j : is_RL b energy rs vs A ->
  isclosed vs c || isclosed vs j ->
  T_spec vs A c j = 0 /\ (j != c -> norm2 (0 - U_spec vs A c j) = 0%re).
Proof.
  move=> rl cl.
  have T0 : T_spec vs A c j = 0 by rewrite T_entry (closed_row rl cl) mulr0 mul0r.
  split=> // ne; rewrite sub0r; have -> z : norm2 (- z) = norm2 z by rewrite /norm2 !cxE; ring.
  rewrite U_T // T0 /norm2 /=; ring.
Qed.

(** a reaction all of whose channels are closed *)
Lemma closed_reaction channels rs g energy (s s' : cache (gsize g)) m m' k : constructed channels rs g ->
  evalG energy s m = Ok (Some (s', m')) -> written g k -> k <> capture_id g ->
  (forall c, List.In c channels -> c_reaction c = k ->
     channelBelowThreshold c energy /\ isIncidentChannel c = false) ->
  m' k = Some (odflt 0%re (m k)).
Proof.
  move=> con ev wr nc cl; have [vs [A [factor [[Ev [Ef rl]] ad]]]] := evaluate_inv con ev.
  rewrite ad wr; congr Some; rewrite /contribution big1 ?Rmult_0_r ?Rplus_0_r // => c Hc.
  move/eqP/negbTE: nc => ->; rewrite Rplus_0_r big1 // => j /eqP Hj.
  have [t [made _]] := constructed_made con; have [E1 _] := makeGroup_ok made.
  have Hin : List.In (chan j) channels.
    rewrite -E1 /chan; have := ltn_ord j; rewrite {2}/gsize.
    by elim: (g_channels g) (nat_of_ord j) => //= x l IH [|i] lt; [left | right; apply: IH].
  have [bt ni] := cl _ Hin Hj.
  have cj : isclosed vs j.
    have [_ Hi] := mapM_all Ev; have := Hi j dummy_channel no_values (ltn_ord j).
    rewrite -/(chan j) -/(val_of vs j) /isclosed /channelValues.
    case: (channelPenetrability _ _ _ _ _) => // p /=.
    case: (match b with Constant => _ | ShiftFactor => _ end) => // sh /=.
    case: (channelPhaseShift _ _ _ _ _) => // phi /=.
    by case: p => // p; case: sh => // sh; case: phi => // phi; case: channelCoulombShift => // w [<-].
  have ne : j != c by apply/eqP => E; rewrite E Hc in ni.
  rewrite (negbTE ne); have [_ H] := closed_nothing rl (c := c) (j := j) ltac:(by rewrite cj orbT).
  exact: H.
Qed.

(** C20 *)
Lemma hard_sphere channels g energy (s s' : cache (gsize g)) m m' : constructed channels [::] g ->
  (0 < hbar)%re -> neutral_channels energy g -> evalG energy s m = Ok (Some (s', m')) ->
  exists vs factor, groupValues hbar epsilon0 cwf b g energy = Ok (Some vs) /\
    channelFactor hbar (first_incident g) energy = Some factor /\
    forall k, written g k -> m' k = Some (odflt 0 (m k) + factor *
      \big[Rplus/0]_(c : 'I_(gsize g) | isIncidentChannel (chan c) && (c_reaction (chan c) == k))
         (4 * (sin (v_phi (val_of vs c)) * sin (v_phi (val_of vs c)))))%re.
Proof.
  move=> con hb nt ev; have [vs [A [factor [[Ev [Ef rl]] ad]]]] := evaluate_inv con ev.
  exists vs, factor; split=> //; split=> // k wr; rewrite ad wr /contribution.
  have [w _] := neutral_w hb nt Ev; rewrite (empty_RL rl).
  congr (Some (_ + _ * _))%re; rewrite [RHS]big_mkcondr /=; apply: eq_bigr => c _.
  have -> : (if k == capture_id g then 1 - \big[Rplus/0]_j norm2 (U_spec vs 0 c j) else 0)%re = 0%re.
    case: ifP => // _; rewrite (bigD1 c) //= U_zero eqxx norm2_cis big1; first by ring.
    by move=> j /negbTE ne; rewrite U_zero ne /norm2 /=; ring.
  rewrite Rplus_0_r.
  have z (j : 'I_(gsize g)) : j != c -> norm2 ((if j == c then cis (v_w (val_of vs c)) else 0) - U_spec vs 0 c j) = 0%re.
    by move=> /negbTE ne; rewrite U_zero ne /norm2 /=; ring.
  case: eqP => Hc.
    rewrite (bigD1 c) /=; last by apply/eqP.
    rewrite big1; last by move=> j /andP [_ /z].
    rewrite Rplus_0_r eqxx U_zero eqxx dist_cis w.
    have -> : ((0 - 2 * (0 - v_phi (val_of vs c))) / 2 = v_phi (val_of vs c))%re by field.
    by [].
  by rewrite big1 // => j /eqP Hj; apply: z; apply/eqP => E; rewrite E in Hj.
Qed.

(** C21 *)
Lemma adds channels rs g energy (s s' : cache (gsize g)) m m' : constructed channels rs g ->
  evalG energy s m = Ok (Some (s', m')) ->
  exists x : reactionID -> R, added (written g) x m m' /\
    forall (s2 : cache (gsize g)) m2, exists m2', evalG energy s2 m2 = Ok (Some (s', m2')) /\ added (written g) x m2 m2'.
Proof.
  move=> con ev; have [vs [A [factor [E ad]]]] := evaluate_inv con ev.
  exists (@contribution g vs A factor); split=> // s2 m2.
  have [d [Hd T]] := evaluate_increments ev; have Em := T m2.
  exists (foldl (@map_add _) m2 d); split; first by rewrite (evaluate_cache hbar epsilon0 cwf b energy s2 s).
  have [vs2 [A2 [f2 [E2 ad2]]]] := evaluate_inv con Em.
  have [Ev [Ef rl]] := E; have [Ev2 [Ef2 rl2]] := E2.
  rewrite Ev in Ev2; case: Ev2 => Evs; rewrite Ef in Ef2; case: Ef2 => Eff; subst vs2 f2.
  by rewrite (is_RL_unique rl rl2).
Qed.

(** C23 *)
Lemma T_consistent channels rs g energy vs factor : constructed channels rs g ->
  groupValues hbar epsilon0 cwf b g energy = Ok (Some vs) ->
  channelFactor hbar (first_incident g) energy = Some factor ->
  physical (gsize g) b vs -> regular energy rs ->
  (forall c, List.In c channels -> arrow_free (c_id c)) ->
  exists A, @evaluated hbar epsilon0 cwf b rs g energy vs A factor /\
    (forall (s : cache (gsize g)) (m : element_map), exists s' m', evalT energy s m = Ok (Some (s', m')) /\
      (forall c j : 'I_(gsize g), m' (c_id (chan c) ++ "->" ++ c_id (chan j))%string = Some (T_spec vs A c j)) /\
      (forall k, (forall c j : 'I_(gsize g), k <> c_id (chan c) ++ "->" ++ c_id (chan j))%string -> m' k = m k)) /\
    (forall (s : cache (gsize g)) (m : reaction_map), exists s' m', evalG energy s m = Ok (Some (s', m')) /\
      forall k, written g k -> k <> capture_id g ->
        (forall j : 'I_(gsize g), c_reaction (chan j) = k -> isIncidentChannel (chan j) = false) ->
        m' k = Some (odflt 0 (m k) + factor *
          \big[Rplus/0]_(c : 'I_(gsize g) | isIncidentChannel (chan c))
            \big[Rplus/0]_(j | c_reaction (chan j) == k) (4 * norm2 (T_spec vs A c j)))%re).
Proof.
  move=> con Ev Ef ph reg af.
  have [t [made [Ers sz]]] := constructed_made con; rewrite -Ers in reg.
  have [s' [A [rl H]]] := evaluate_ok made sz Ev Ef ph reg.
  have [vs' Ev'] := valuesT_exist Ev; have core := values_core Ev Ev'.
  have [sT [A' [rl' HT]]] := evaluateT_ok made sz Ev' (core_physical core ph) reg af.
  have EA := is_RL_unique (core_RL core rl) rl'; subst A'.
  exists A; split; first by rewrite /evaluated -Ers.
  split=> s m.
    have [m' [E1 [E2 E3]]] := HT s m; exists sT, m'; split=> //; split=> // c j.
    by rewrite E2 (core_T A core).
  have [m' [E1 ad]] := H s m; exists s', m'; split=> // k wr nc ni.
  rewrite ad wr /contribution; congr (Some (_ + _ * _))%re; apply: eq_bigr => c Hc.
  move/eqP/negbTE: nc => ->; rewrite Rplus_0_r; apply: eq_bigr => j /eqP Hj.
  have ne : j != c by apply/eqP => E; move: (ni _ Hj); rewrite E Hc.
  rewrite (negbTE ne) sub0r -U_T //; by rewrite /norm2 !cxE; ring.
Qed.
End Eval.
