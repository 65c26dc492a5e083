From Coq Require Import Reals Lra String Permutation FunctionalExtensionality.
From mathcomp Require Import all_ssreflect all_algebra.
From Verif Require Import Outcome QuantumModel HardSphereModel HardSphereSpec HardSphereProofs
  KinematicsModel CoulombModel Cplx RMatrixModel RMatrixSpec RMatrixProofs
  RMatrixCodeProofs RMatrixObservableProofs ChannelModel SpinGroupModel SpinGroupSpec SpinGroupProofs.
Set Implicit Arguments.
Unset Strict Implicit.
Unset Printing Implicit Defensive.
Import GRing.Theory.
Local Open Scope ring_scope.

Lemma rl_call_cache n b energy table vs (s1 s2 : cache n) :
  rl_call b energy table vs s1 = rl_call b energy table vs s2.
Proof.
  rewrite /rl_call; case: (all_some _) => // ms.
  by rewrite /accumulate /lmatrix !scale0r.
Qed.

Section Eval.
Variables (hbar epsilon0 : R) (cwf : nat -> R -> R -> outcome coulomb) (b : boundary_option).
Notation evalG := (@evaluateGroup hbar epsilon0 cwf b).
Notation evalT := (@evaluateTGroup hbar epsilon0 cwf b).

Lemma evaluate_cache g energy (s1 s2 : cache (gsize g)) m : evalG energy s1 m = evalG energy s2 m.
Proof.
  rewrite /evaluateGroup; case: (groupValues _ _ _ _ _ _) => //= ovs.
  case: (at_or_ub _ _ _) => //= i; case: (at_or_ub _ _ _) => //= c.
  case: ovs => // vs; case: (channelFactor _ _ _) => // f.
  by rewrite (rl_call_cache _ _ _ _ s1 s2).
Qed.
Lemma evaluateT_cache g energy (s1 s2 : cache (gsize g)) m : evalT energy s1 m = evalT energy s2 m.
Proof.
  rewrite /evaluateTGroup; case: (groupValuesT _ _ _ _ _ _) => //= -[vs|] //.
  by rewrite (rl_call_cache _ _ _ _ s1 s2).
Qed.

Lemma mem_In (i : nat) s : i \in s -> List.In i s.
Proof. by elim: s => //= x s IH; rewrite inE => /orP [/eqP -> | /IH]; [left | right]. Qed.

Lemma nth_error_nth (A : Type) (d : A) (l : seq A) i : (i < size l)%N -> List.nth_error l i = Some (nth d l i).
Proof. by elim: l i => //= x l IH [|i] // /IH. Qed.

Section Made.
Variables (channels : seq channel) (t : table) (g : group).
Hypothesis made : makeGroup channels t = Ok g.
Hypothesis tsized : sized (size channels) (t_resonances t).

Lemma first_incident_spec :
  exists first, at_or_ub (g_incident g) 0 "front() of an empty vector" = Ok first /\
    at_or_ub (g_channels g) first "index out of bounds" = Ok (first_incident g) /\
    isIncidentChannel (first_incident g) /\ List.In (first_incident g) (g_channels g).
Proof.
  have [E1 [_ [E2 [_ [_ [_ ne]]]]]] := makeGroup_ok made.
  rewrite /(first_incident g); case E: (g_incident g) ne => [|i s] // _.
  have Hi : i \in g_incident g by rewrite E inE eqxx.
  have lt := incident_in_range made Hi.
  exists i; split=> //; split; first by rewrite /at_or_ub (nth_error_nth dummy_channel).
  move: Hi; rewrite E2 incident_spec subn0 -E1 => /andP [_ H]; split=> //=.
  by move: lt; rewrite /gsize; elim: (g_channels g) (i) => //= c cs IH [|j] lt; [left | right; apply: IH].
Qed.

Lemma evaluate_ok energy vs factor :
  groupValues hbar epsilon0 cwf b g energy = Ok (Some vs) ->
  channelFactor hbar (first_incident g) energy = Some factor ->
  physical (gsize g) b vs -> regular energy (t_resonances t) ->
  exists s' A, is_RL b energy (t_resonances t) vs A /\
    forall (s : cache (gsize g)) m, exists m', evalG energy s m = Ok (Some (s', m')) /\
      added (written g) (@contribution g vs A factor) m m'.
Proof.
  move=> Ev Ef ph reg.
  have [E1 [Et _]] := makeGroup_ok made.
  have sz : sized (gsize g) (t_resonances t) by rewrite /gsize E1.
  have [s' [A [_ [rl H]]]] := rl_call_ok (Cache 0 0 0) sz ph reg.
  exists s', A; split=> // s m.
  have [first [F1 [F2 _]]] := first_incident_spec.
  eexists; split; last exact: (process_spec made factor rl m).
  by rewrite /evaluateGroup Ev [bind _ _]/= F1 [bind _ _]/= F2 [bind _ _]/= Ef Et H.
Qed.

(** not finite exactly when a resonance without eliminated width sits at the energy *)
Lemma evaluate_irregular energy vs factor r (s : cache (gsize g)) m :
  groupValues hbar epsilon0 cwf b g energy = Ok (Some vs) ->
  channelFactor hbar (first_incident g) energy = Some factor ->
  List.In r (t_resonances t) -> rs_energy r = energy -> rs_eliminated r = 0%re ->
  evalG energy s m = Ok None.
Proof.
  move=> Ev Ef Hr He Hg.
  have [E1 [Et _]] := makeGroup_ok made.
  have [first [F1 [F2 _]]] := first_incident_spec.
  by rewrite /evaluateGroup Ev [bind _ _]/= F1 [bind _ _]/= F2 [bind _ _]/= Ef Et (rl_call_none _ _ _ Hr He Hg).
Qed.

Lemma total_contribution vs energy A factor : is_RL b energy (t_resonances t) vs A ->
  \big[Rplus/0%re]_(k <- undup (g_reactions g)) @contribution g vs A factor k =
  (factor * \big[Rplus/0]_(c | isIncidentChannel (chan c))
     (2 - 2 * re (conj (cis (v_w (val_of vs c))) * U_spec vs A c c)%R))%re.
Proof.
  move=> rl; rewrite /contribution -big_distrr exchange_big /=; congr Rmult.
  apply: eq_bigr => c _; rewrite -(total_code rl) /total_of big_cat big_seq1 /=.
  rewrite big_split /= (sigma_code rl) big_map big_enum (capture_code rl) /=; congr Rplus.
  - rewrite (exchange_big_dep predT) //=; apply: eq_bigr => j _.
    rewrite -big_filter.
    have -> : [seq i <- undup (g_reactions g) | c_reaction (chan j) == i] = [:: c_reaction (chan j)].
      have in_r : c_reaction (chan j) \in undup (g_reactions g).
        by rewrite mem_undup (reactions_enum made) mem_cat map_f ?mem_enum.
      rewrite (eq_filter (a2 := pred1 (c_reaction (chan j)))); last by move=> i; rewrite /= eq_sym.
      by apply: filter_pred1_uniq; rewrite ?undup_uniq.
    by rewrite big_seq1.
  - rewrite -big_mkcond -big_filter.
    have -> : [seq i <- undup (g_reactions g) | i == capture_id g] = [:: capture_id g].
      apply: filter_pred1_uniq; first exact: undup_uniq.
      by rewrite mem_undup (reactions_enum made) mem_cat inE eqxx orbT.
    by rewrite big_seq1.
Qed.

Lemma contribution_ge0 vs energy A factor k : is_RL b energy (t_resonances t) vs A ->
  (forall i : 'I_(gsize g), (0 <= v_P (val_of vs i))%re) -> (0 <= factor)%re ->
  (0 <= @contribution g vs A factor k)%re.
Proof.
  move=> rl P0 f0; apply: Rmult_le_pos => //; apply: Rsum_ge0 => c _.
  apply: Rplus_le_le_0_compat; first by apply: Rsum_ge0 => j _; apply: norm2_ge0.
  case: ifP => _; last lra.
  by rewrite -(capture_code rl); apply: capture_ge0 rl P0 _.
Qed.
End Made.

(** * Call histories *)
Lemma seen_spec g energies (s0 s1 : cache (gsize g)) m :
  seen hbar epsilon0 cwf b energies s0 m = [seq Outcome.omap (ssrfun.omap snd) (evalG e s1 m) | e <- energies].
Proof.
  elim: energies s0 => //= e es IH s0; rewrite (evaluate_cache e s0 s1); congr (_ :: _); exact: IH.
Qed.

(** * Systems *)
Definition increment (x : object) (energy : R) : outcome (option (object * seq (reactionID * R))) :=
  let g := projT1 x in let s := projT2 x in
  do ovs <- groupValues hbar epsilon0 cwf b g energy ;
  do first <- at_or_ub (g_incident g) 0 "front() of an empty vector" ;
  do c <- at_or_ub (g_channels g) first "index out of bounds" ;
  match ovs, channelFactor hbar c energy with
  | Some vs, Some factor =>
      match rl_call b energy (t_resonances (g_table g)) vs s with
      | Some (s', rl) =>
          Ok (Some (existT (fun g => cache (gsize g)) g s',
                    flatten [seq zip (g_reactions g) (crossSections factor vs rl c) | c <- incident_ord g]))
      | None => Ok None
      end
  | _, _ => Ok None
  end.

Lemma foldl_process (K : eqType) n ids factor vs (rl : 'M[cx]_n) inc (m : K -> option R) :
  processIncidentChannels ids factor vs rl inc m =
  foldl (@map_add K) m (flatten [seq zip ids (crossSections factor vs rl c) | c <- inc]).
Proof.
  rewrite /processIncidentChannels; elim: inc m => //= c inc IH m.
  by rewrite IH foldl_cat.
Qed.

End Eval.
