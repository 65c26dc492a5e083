(** T matrix of a group and its relation to the cross sections; channels without charge. *)
From Coq Require Import Reals Lra Lia Ascii String.
From mathcomp Require Import all_ssreflect all_algebra.
From Verif Require Import Outcome QuantumModel HardSphereModel HardSphereSpec HardSphereProofs
  KinematicsModel CoulombModel Cplx RMatrixModel RMatrixSpec RMatrixProofs
  RMatrixCodeProofs RMatrixObservableProofs ChannelModel SpinGroupModel SpinGroupSpec SpinGroupProofs
  SpinGroupEvalProofs SpinGroupSystemProofs.
Set Implicit Arguments.
Unset Strict Implicit.
Unset Printing Implicit Defensive.
Import GRing.Theory.
Local Open Scope ring_scope.

Section Eval.
Variables (hbar epsilon0 : R) (cwf : nat -> R -> R -> outcome coulomb) (b : boundary_option).
Notation evalG := (@evaluateGroup hbar epsilon0 cwf b).
Notation evalT := (@evaluateTGroup hbar epsilon0 cwf b).

(** two lists of values with the same part relevant to R_L *)
Definition same_core (v v' : values) : Prop :=
  v_P v = v_P v' /\ v_S v = v_S v' /\ v_B v = v_B v' /\ v_closed v = v_closed v'.

Lemma mapM_all (A B : Type) (f : A -> outcome (option B)) l (vs : seq B) :
  Outcome.omap (@all_some _) (mapM f l) = Ok (Some vs) ->
  size vs = size l /\ forall i a0 b0, (i < size l)%N -> f (nth a0 l i) = Ok (Some (nth b0 vs i)).
Proof.
  elim: l vs => [|x l IH] vs; first by case=> <-.
  rewrite /Outcome.omap /=; case E: (f x) => [o| | |] //=; case E2: (mapM f l) => [os| | |] //=.
  case: o E => [y|] //= E; case E3: (all_some os) => [ys|] //= [<-].
  have [|Es Hi] := IH ys; first by rewrite E2 /Outcome.omap /= E3.
  by split=> [|[|i] a0 b0 lt] /=; [rewrite Es | | apply: Hi].
Qed.
Lemma mapM_all_conv (A B : Type) (f : A -> outcome (option B)) l :
  (forall a, List.In a l -> exists b, f a = Ok (Some b)) ->
  exists vs, Outcome.omap (@all_some _) (mapM f l) = Ok (Some vs).
Proof.
  elim: l => [|x l IH] H; first by exists [::].
  have [y Ey] := H x (or_introl erefl).
  have [|ys Eys] := IH; first by move=> a Ha; apply: H; right.
  exists (y :: ys); rewrite /Outcome.omap /= Ey /=.
  by move: Eys; rewrite /Outcome.omap; case: (mapM f l) => //= os [->].
Qed.

Lemma values_core g energy vs vs' :
  groupValues hbar epsilon0 cwf b g energy = Ok (Some vs) ->
  groupValuesT hbar epsilon0 cwf b g energy = Ok (Some vs') ->
  forall i : 'I_(gsize g), same_core (val_of vs i) (val_of vs' i).
Proof.
  move=> /mapM_all [_ H1] /mapM_all [_ H2] i.
  have := H1 i dummy_channel no_values (ltn_ord i); have := H2 i dummy_channel no_values (ltn_ord i).
  rewrite -/(val_of vs i) -/(val_of vs' i) /channelValues.
  case: (channelPenetrability _ _ _ _ _) => //= p.
  case: b => /=.
    case: (channelShiftFactor _ _ _ _ _) => //= s; case: (channelPhaseShift _ _ _ _ _) => //= phi.
    by case: p => // p; case: s => // s [<-]; case: phi => // phi; case: channelCoulombShift => // w [<-].
  case: (channelPhaseShift _ _ _ _ _) => //= phi.
  by case: p => // p [<-]; case: phi => // phi; case: channelCoulombShift => // w [<-].
Qed.
Lemma valuesT_exist g energy vs :
  groupValues hbar epsilon0 cwf b g energy = Ok (Some vs) ->
  exists vs', groupValuesT hbar epsilon0 cwf b g energy = Ok (Some vs').
Proof.
  move=> /mapM_all [_ H]; apply: mapM_all_conv => c Hc.
  have [i [lt Ei]] : exists i, (i < size (g_channels g))%N /\ nth dummy_channel (g_channels g) i = c.
    elim: (g_channels g) Hc => //= x l IH [-> | /IH [i [lt E]]]; first by exists 0%N.
    by exists i.+1.
  have := H i dummy_channel no_values lt; rewrite Ei /channelValues.
  case: (channelPenetrability _ _ _ _ _) => //= p.
  case: b => /=.
    case: (channelShiftFactor _ _ _ _ _) => //= s; case: (channelPhaseShift _ _ _ _ _) => //= phi.
    by case: p => // p; case: s => // s _; eexists.
  case: (channelPhaseShift _ _ _ _ _) => //= phi.
  by case: p => // p _; eexists.
Qed.

Lemma core_R n energy table vs vs' : (forall i : 'I_n, same_core (val_of vs i) (val_of vs' i)) ->
  R_spec n energy table vs = R_spec n energy table vs'.
Proof.
  move=> H; apply/matrixP => i j; rewrite !mxE; apply: eq_bigr => r _.
  by rewrite /open_width /isclosed; have [_ [_ [_ ->]]] := H i; have [_ [_ [_ ->]]] := H j.
Qed.
Lemma core_L n vs vs' : (forall i : 'I_n, same_core (val_of vs i) (val_of vs' i)) ->
  L_spec n b vs = L_spec n b vs'.
Proof.
  move=> H; congr diag_mx; apply/rowP => i; rewrite !mxE.
  by have [-> [-> [-> _]]] := H i.
Qed.
Lemma core_RL n energy table vs vs' (A : 'M[cx]_n) : (forall i : 'I_n, same_core (val_of vs i) (val_of vs' i)) ->
  is_RL b energy table vs A -> is_RL b energy table vs' A.
Proof. by move=> H; rewrite /is_RL (core_R _ _ H) (core_L H). Qed.
Lemma core_T n vs vs' (A : 'M[cx]_n) : (forall i : 'I_n, same_core (val_of vs i) (val_of vs' i)) ->
  T_spec vs A = T_spec vs' A.
Proof.
  move=> H; rewrite /T_spec.
  suff -> : sqrtP_mx n vs = sqrtP_mx n vs' by [].
  by congr diag_mx; apply/rowP => i; rewrite !mxE; have [-> _] := H i.
Qed.
Lemma core_physical n vs vs' : (forall i : 'I_n, same_core (val_of vs i) (val_of vs' i)) ->
  physical n b vs -> physical n b vs'.
Proof.
  move=> H ph i; have [<- [_ [_ E]]] := H i; have := ph i.
  by rewrite /isclosed E.
Qed.
Lemma is_RL_unique n energy table vs (A A' : 'M[cx]_n) :
  is_RL b energy table vs A -> is_RL b energy table vs A' -> A = A'.
Proof. by move=> [u E] [_ E']; rewrite -(mulKmx u A) -(mulKmx u A') E E'. Qed.

(** away from c itself, |U_cj|^2 is 4 |T_cj|^2 *)
Lemma U_T n vs (A : 'M[cx]_n) c j : j != c ->
  norm2 (U_spec vs A c j) = (4 * norm2 (T_spec vs A c j))%re.
Proof.
  move=> /negbTE ne; rewrite U_entry ne add0r !norm2M !norm2_omega.
  have -> : norm2 (ci + ci) = 4%re by rewrite /norm2 !cxE /=; ring.
  ring.
Qed.
Lemma U_T_diag n vs (A : 'M[cx]_n) c :
  norm2 (cis (2 * (v_w (val_of vs c) - v_phi (val_of vs c)))%re - U_spec vs A c c) = (4 * norm2 (T_spec vs A c c))%re.
Proof.
  rewrite U_entry eqxx.
  have -> : cis (2 * (v_w (val_of vs c) - v_phi (val_of vs c)))%re = omega vs c * omega vs c.
    by rewrite /omega -cisD; congr cis; rewrite /val_of; ring.
  set t := T_spec vs A c c; set o := omega vs c.
  have -> : o * o - o * (1 + (ci + ci) * t) * o = - ((ci + ci) * (o * o) * t).
    by apply: cx_ext; rewrite !cxE /=; ring.
  have -> z : norm2 (- z) = norm2 z by rewrite /norm2 !cxE; ring.
  rewrite !norm2M norm2_omega.
  have -> : norm2 (ci + ci) = 4%re by rewrite /norm2 !cxE /=; ring.
  ring.
Qed.

Section Made.
Variables (channels : seq channel) (t : table) (g : group).
Hypothesis made : makeGroup channels t = Ok g.
Hypothesis tsized : sized (size channels) (t_resonances t).

Lemma made_ids : uniq [seq c_id c | c <- g_channels g].
Proof.
  have [E _] := makeGroup_ok made; rewrite E.
  move: made; rewrite /makeGroup => H.
  have [rs [_ {}H]] := bind_ok H; have [[] [H1 _]] := bind_ok H; exact: verify_ids.
Qed.
Lemma channel_nameE (i : 'I_(gsize g)) : channel_name g i = c_id (chan i).
Proof.
  rewrite /channel_name /chan -[List.map _ _]/([seq c_id c | c <- g_channels g]).
  by rewrite (nth_map dummy_channel).
Qed.
Lemma name_inj (i j : 'I_(gsize g)) : c_id (chan i) = c_id (chan j) -> i = j.
Proof.
  rewrite -!channel_nameE /channel_name -[List.map _ _]/([seq c_id c | c <- g_channels g]) => E.
  apply/val_inj/eqP => /=; move/eqP: E; rewrite nth_uniq ?made_ids // size_map; exact: ltn_ord.
Qed.

Lemma evaluateT_ok energy vs :
  groupValuesT hbar epsilon0 cwf b g energy = Ok (Some vs) ->
  physical (gsize g) b vs -> regular energy (t_resonances t) ->
  (forall c, List.In c channels -> arrow_free (c_id c)) ->
  exists s' A, is_RL b energy (t_resonances t) vs A /\
    forall (s : cache (gsize g)) (m : element_map), exists m', evalT energy s m = Ok (Some (s', m')) /\
      (forall c j : 'I_(gsize g), m' (c_id (chan c) ++ "->" ++ c_id (chan j))%string = Some (T_spec vs A c j)) /\
      (forall k, (forall c j : 'I_(gsize g), k <> c_id (chan c) ++ "->" ++ c_id (chan j))%string -> m' k = m k).
Proof.
  move=> Ev ph reg af.
  have [E1 [Et _]] := makeGroup_ok made.
  have sz : sized (gsize g) (t_resonances t) by rewrite /gsize E1.
  have [s' [A [_ [rl H]]]] := rl_call_ok (Cache 0 0 0) sz ph reg.
  exists s', A; split=> // s m.
  eexists; split; first by rewrite /evaluateTGroup Ev [bind _ _]/= Et H.
  have afc (c : 'I_(gsize g)) : arrow_free (c_id (chan c)).
    apply: af; rewrite -E1 /chan.
    have := ltn_ord c; rewrite {2}/gsize.
    by elim: (g_channels g) (nat_of_ord c) => //= x l IH [|i] lt; [left | right; apply: IH].
  have inj (c j c' j' : 'I_(gsize g)) : element_key c j = element_key c' j' -> c = c' /\ j = j'.
    rewrite /element_key !channel_nameE => /(key_inj (afc c) (afc c')) [/name_inj -> /name_inj ->] //.
  have [H1 H2] := process_T m rl inj.
  split=> [c j | k Hk]; first by rewrite -H1 /element_key !channel_nameE.
  by apply: H2 => c j; rewrite /element_key !channel_nameE.
Qed.
End Made.

(** * Channels without charge *)
Lemma wave_pos mu ratio q energy : (0 < hbar)%re -> (0 < mu)%re -> (energy * ratio + q <> 0)%re ->
  (0 < waveNumber hbar mu ratio q energy)%re.
Proof.
  move=> hb m ne; rewrite /waveNumber; apply: Rdiv_lt_0_compat => //; apply: sqrt_lt_R0.
  apply: Rmult_lt_0_compat; [lra | exact: Rabs_pos_lt].
Qed.

Lemma tame_values energy c : (0 < hbar)%re -> tame energy c ->
  exists v, channelValues hbar epsilon0 cwf b c energy = Ok (Some v) /\ (0 < v_P v)%re /\ v_w v = 0%re.
Proof.
  move=> hb; rewrite /tame /channelValues /channelPenetrability /channelShiftFactor /channelPhaseShift
    /channelCoulombShift /channelFunction; case E: (c_type c) => //=.
  - move=> [Hl [Hz [[mu [ratio [Emu [Hmu [Er ne]]]]] [a [a' [Ea [Ha Ha']]]]]]].
    rewrite Ea /= /channelEta /channelWaveNumber Emu Er; case: Req_EM_T => // _.
    have kp := wave_pos hb Hmu ne; set k := waveNumber _ _ _ _ _ in kp *.
    have ka : (0 < k * a)%re by apply: Rmult_lt_0_compat.
    have ka' : (0 < k * a')%re by apply: Rmult_lt_0_compat.
    have Hl' : (ql (c_numbers c) <= 4)%coq_nat by apply/leP.
    rewrite (penetrability_code _ _ ka Hl') (shift_code _ _ ka Hl').
    have [phi [Ephi _]] := phase_code _ _ ka' Hl'; rewrite Ephi /=.
    have [Pp _] := P_range _ _ ka Hl'.
    by case: b => /=; eexists; split; try reflexivity.
  - by move=> [[a ->] | [a [a' ->]]] /=; case: b => /=; eexists; (split; first reflexivity) => /=; split=> //; lra.
  - by move=> [[a ->] | [a [a' ->]]] /=; case: b => /=; eexists; (split; first reflexivity) => /=; split=> //; lra.
Qed.

Lemma tame_group g energy : (0 < hbar)%re -> (forall c, List.In c (g_channels g) -> tame energy c) ->
  exists vs, groupValues hbar epsilon0 cwf b g energy = Ok (Some vs) /\ physical (gsize g) b vs /\
    forall i : 'I_(gsize g), v_w (val_of vs i) = 0%re.
Proof.
  move=> hb H.
  have [vs Evs] : exists vs, groupValues hbar epsilon0 cwf b g energy = Ok (Some vs).
    by apply: mapM_all_conv => c /H /(tame_values hb) [v [E _]]; exists v.
  have [Es Hi] := mapM_all Evs.
  have key (i : 'I_(gsize g)) : (0 < v_P (val_of vs i))%re /\ v_w (val_of vs i) = 0%re.
    have Hin : List.In (nth dummy_channel (g_channels g) i) (g_channels g).
      have := ltn_ord i; rewrite {2}/gsize.
      by elim: (g_channels g) (nat_of_ord i) => //= x l IH [|j] lt; [left | right; apply: IH].
    have [v [Ev P]] := tame_values hb (H _ Hin).
    have := Hi i dummy_channel no_values (ltn_ord i); rewrite Ev => -[E].
    by rewrite /val_of -E.
  exists vs; split=> //; split=> i; last by have [_ ] := key i.
  by have [P _] := key i; split; [lra | right; left].
Qed.

Lemma factor_pos c energy mu ratio : (0 < hbar)%re -> pp_reduced (c_pair c) = Some mu -> (0 < mu)%re ->
  pp_ratio (c_incident c) = Some ratio -> (energy * ratio + c_q c <> 0)%re ->
  channelFactor hbar c energy =
    Some (pi_value / (waveNumber hbar mu ratio (c_q c) energy * waveNumber hbar mu ratio (c_q c) energy)
          * spinFactor c)%re.
Proof.
  move=> hb E1 m E2 ne; rewrite /channelFactor /channelWaveNumber E1 E2 /fdiv.
  have kp := wave_pos hb m ne; case: Req_EM_T => //= H.
  by move: (Rmult_lt_0_compat _ _ kp kp); rewrite H; lra.
Qed.
End Eval.
