(** Reich-Moore spin groups: C14 to C23, C25 and C51.
    hbar, epsilon0 and the Coulomb wave functions are arbitrary throughout. *)
From Coq Require Import Reals Lra String ZArith Permutation.
From mathcomp Require Import all_ssreflect all_algebra.
From Verif Require Import Outcome QuantumModel HardSphereModel KinematicsModel CoulombModel
  Cplx RMatrixModel RMatrixSpec RMatrixCodeProofs RMatrixObservableProofs ChannelModel
  SpinGroupModel SpinGroupSpec SpinGroupProofs SpinGroupEvalProofs SpinGroupSystemProofs
  SpinGroupChannelProofs SpinGroupTheorems SpinGroupExample SpinGroupCoulombProofs.
Set Implicit Arguments.
Unset Strict Implicit.
Unset Printing Implicit Defensive.
Import GRing.Theory.
Local Open Scope ring_scope.

(** * C14: the constructors *)
Theorem C14_resonance_table cs rs :
  (acceptable_table cs rs -> makeTable cs rs = Ok (mkTable cs rs)) /\
  (~ acceptable_table cs rs -> makeTable cs rs = Throw (RuntimeError "std::exception")).
Proof. exact (table_accepts cs rs). Qed.
Print Assumptions C14_resonance_table.

Theorem C14_spin_group c0 cs t :
  (acceptable_group (c0 :: cs) t -> exists g, makeGroup (c0 :: cs) t = Ok g) /\
  (~ acceptable_group (c0 :: cs) t -> makeGroup (c0 :: cs) t = Throw (RuntimeError "std::exception")).
Proof. exact (group_accepts c0 cs t). Qed.
Print Assumptions C14_spin_group.

Example C14_group_case : acceptable_group ex_channels (ex_table 1%re).
Proof.
  case: (Classical_Prop.classic (acceptable_group ex_channels (ex_table 1%re))) => // H.
  by have [_ /(_ H)] := group_accepts ex_elastic [:: ex_fission] (ex_table 1%re).
Qed.

(** * C51: a group without channels is not rejected, front() of an empty vector comes first *)
Theorem C51_empty_group_refuted : exists channels t,
  ~ acceptable_group channels t /\ ~ throws (makeGroup channels t).
Proof.
  exists [::], (mkTable [::] [::]); split; first by move=> [_ [_ [_ [[c [[]]]]]]].
  by move=> [e].
Qed.
Print Assumptions C51_empty_group_refuted.
Theorem C51_empty_group_ub t : is_ub (makeGroup [::] t).
Proof. by exists "front() of an empty vector"%string. Qed.
Print Assumptions C51_empty_group_ub.
(** For any other list of channels the group is made or an exception thrown. *)
Theorem C51_empty_group_partial c0 cs t :
  (exists g, makeGroup (c0 :: cs) t = Ok g) \/ throws (makeGroup (c0 :: cs) t).
Proof.
  case: (Classical_Prop.classic (acceptable_group (c0 :: cs) t)) => H;
    have [H1 H2] := group_accepts c0 cs t; [left; exact: H1 | right; by eexists; apply: H2].
Qed.
Print Assumptions C51_empty_group_partial.

(** * C15 *)
(** rl_call gives the solution of (1 - R L) R_L = R, which is symmetric ... *)
Theorem C15_RL n b energy table vs (s s' : cache n) A : sized n table ->
  rl_call b energy table vs s = Some (s', A) ->
  is_RL b energy table vs A /\ A^T = A.
Proof.
  by move=> sz H; have rl := rl_call_is_RL sz H; split=> //; apply: is_RL_sym rl.
Qed.
Print Assumptions C15_RL.
(** ... so that the elements read by columns are the row of U, and U is symmetric. *)
Theorem C15_rows n b energy table vs (A : 'M[cx]_n) c : is_RL b energy table vs A ->
  uElements vs A c = [seq U_spec vs A c j | j <- enum 'I_n] /\
  (U_spec vs A)^T = U_spec vs A.
Proof.
  move=> rl; split; first exact: u_elements rl _.
  by apply/matrixP => i j; rewrite mxE; apply: U_sym rl _ _.
Qed.
Print Assumptions C15_rows.
(** Reciprocity: the same number for c -> j and j -> c. *)
Theorem C15_reciprocity n b energy table vs (A : 'M[cx]_n) (c j : 'I_n) : is_RL b energy table vs A ->
  c != j -> nth 0%re (sigma vs A c) j = nth 0%re (sigma vs A j) c.
Proof.
  move=> rl ne; rewrite !(sigma_code rl).
  have e (i k : 'I_n) (f : 'I_n -> R) : nth 0%re [seq f x | x <- enum 'I_n] i = f i.
    by rewrite (nth_map k) ?size_enum_ord // nth_ord_enum.
  by rewrite (e _ c) (e _ c) eq_sym (negbTE ne) (U_sym rl).
Qed.
Print Assumptions C15_reciprocity.
Example C15_case : exists (s' : cache 2) A,
  rl_call ShiftFactor 15%re (ex_resonances 1%re) [:: Values 1 0 0 0 0 false; Values 2 0 0 0 0 false]
    (Cache 0 0 0) = Some (s', A).
Proof.
  have [|||s' [A [H _]]] := @rl_call_ok 2 ShiftFactor 15%re (ex_resonances 1%re)
      [:: Values 1 0 0 0 0 false; Values 2 0 0 0 0 false] (Cache 0 0 0).
  - by move=> r [<- | [<- | []]].
  - by move=> i; split; [case: i => -[|[|i]] //= _; rewrite /val_of /=; lra | right; right].
  - by apply: ex_regular; lra.
  - by exists s', A.
Qed.

(** * C16: the optical theorem, summed over everything a group adds to the map *)
Theorem C16_optical_theorem hbar epsilon0 cwf b channels rs g energy (s s' : cache (gsize g)) m m' :
  constructed channels rs g -> (0 < hbar)%re -> neutral_channels energy g ->
  evaluateGroup hbar epsilon0 cwf b energy s m = Ok (Some (s', m')) ->
  exists vs A factor, @evaluated hbar epsilon0 cwf b rs g energy vs A factor /\
    gained g m m' = (factor * \big[Rplus/0]_(c : 'I_(gsize g) | isIncidentChannel (chan c))
                       (2 * (1 - re (U_spec vs A c c))))%re.
Proof. exact: optical. Qed.
Print Assumptions C16_optical_theorem.
(** With a Coulomb phase w the code compares with exp(iw). *)
Theorem C16_optical_theorem_charged hbar epsilon0 cwf b channels rs g energy (s s' : cache (gsize g)) m m' :
  constructed channels rs g ->
  evaluateGroup hbar epsilon0 cwf b energy s m = Ok (Some (s', m')) ->
  exists vs A factor, @evaluated hbar epsilon0 cwf b rs g energy vs A factor /\
    gained g m m' = (factor * \big[Rplus/0]_(c : 'I_(gsize g) | isIncidentChannel (chan c))
                       (2 - 2 * re (conj (cis (v_w (val_of vs c))) * U_spec vs A c c)%R))%re.
Proof. exact: optical_charged. Qed.
Print Assumptions C16_optical_theorem_charged.
(** One incident channel at a time *)
Theorem C16_one_channel n b energy rs vs (A : 'M[cx]_n) c : is_RL b energy rs vs A ->
  v_w (val_of vs c) = 0%re ->
  total_of (sigma vs A c ++ [:: capture vs A c]) = (2 * (1 - re (U_spec vs A c c)))%re.
Proof. by move=> rl w; rewrite (total_code rl) uncharged_total. Qed.
Print Assumptions C16_one_channel.
Example C16_case hbar epsilon0 cwf b : (0 < hbar)%re ->
  constructed ex_channels (ex_resonances 1%re) (ex_group 1%re) /\ neutral_channels 15%re (ex_group 1%re) /\
  forall s m, exists s' m', @evaluateGroup hbar epsilon0 cwf b (ex_group 1%re) 15%re s m = Ok (Some (s', m')).
Proof.
  move=> hb; split; first exact: ex_constructed. split; first by apply: ex_neutral; lra.
  have n0 : (15 <> 0)%re by lra.
  have reg : regular 15%re (ex_resonances 1%re) by apply: ex_regular; lra.
  exact: (ex_evaluates epsilon0 cwf b hb n0 (ex_constructed 1%re) reg).
Qed.

(** * C17: nothing negative is added ... *)
Theorem C17_nonnegative hbar epsilon0 cwf b channels rs g energy (s s' : cache (gsize g)) m m' k :
  constructed channels rs g ->
  evaluateGroup hbar epsilon0 cwf b energy s m = Ok (Some (s', m')) ->
  (forall vs, groupValues hbar epsilon0 cwf b g energy = Ok (Some vs) ->
     forall i : 'I_(gsize g), (0 <= v_P (val_of vs i))%re) ->
  (forall f, channelFactor hbar (first_incident g) energy = Some f -> (0 <= f)%re) ->
  (odflt 0 (m k) <= odflt 0 (m' k))%re.
Proof. exact: nonneg. Qed.
Print Assumptions C17_nonnegative.
(** ... in particular for neutron, photon and fission channels ... *)
Theorem C17_nonnegative_neutral hbar epsilon0 cwf b channels rs g energy (s s' : cache (gsize g)) m m' k :
  constructed channels rs g -> (0 < hbar)%re -> neutral_channels energy g ->
  (0 <= spinFactor (first_incident g))%re ->
  evaluateGroup hbar epsilon0 cwf b energy s m = Ok (Some (s', m')) ->
  (odflt 0 (m k) <= odflt 0 (m' k))%re.
Proof. exact: neutral_nonneg. Qed.
Print Assumptions C17_nonnegative_neutral.
(** ... no element of U exceeds one in modulus ... *)
Theorem C17_U_bound n b energy rs vs (A : 'M[cx]_n) c j : is_RL b energy rs vs A ->
  (forall i : 'I_n, (0 <= v_P (val_of vs i))%re) -> (norm2 (U_spec vs A c j) <= 1)%re.
Proof. by move=> rl P0; apply: U_le1 rl P0 _ _. Qed.
Print Assumptions C17_U_bound.
(** ... the evaluation succeeds away from resonances without eliminated width ... *)
Theorem C17_exists hbar epsilon0 cwf b channels rs g energy : constructed channels rs g ->
  (0 < hbar)%re -> neutral_channels energy g ->
  (exists f, channelFactor hbar (first_incident g) energy = Some f) -> regular energy rs ->
  forall (s : cache (gsize g)) m, exists s' m',
    evaluateGroup hbar epsilon0 cwf b energy s m = Ok (Some (s', m')).
Proof.
  move=> con hb nt [f Ef] reg; have [vs [Ev [ph _]]] := tame_group epsilon0 cwf b hb nt.
  exact: (evaluate_succeeds con Ev Ef ph reg).
Qed.
Print Assumptions C17_exists.
(** ... also with charged particles, if the penetrabilities are positive where needed ... *)
Theorem C17_exists_charged hbar epsilon0 cwf b channels rs g energy vs factor : constructed channels rs g ->
  groupValues hbar epsilon0 cwf b g energy = Ok (Some vs) ->
  channelFactor hbar (first_incident g) energy = Some factor ->
  physical (gsize g) b vs -> regular energy rs ->
  forall (s : cache (gsize g)) m, exists s' m',
    evaluateGroup hbar epsilon0 cwf b energy s m = Ok (Some (s', m')).
Proof. exact: evaluate_succeeds. Qed.
Print Assumptions C17_exists_charged.
(** ... and not at such a resonance. *)
Theorem C17_singular hbar epsilon0 cwf b channels rs g energy vs factor r : constructed channels rs g ->
  groupValues hbar epsilon0 cwf b g energy = Ok (Some vs) ->
  channelFactor hbar (first_incident g) energy = Some factor ->
  List.In r rs -> rs_energy r = energy -> rs_eliminated r = 0%re ->
  forall (s : cache (gsize g)) m, evaluateGroup hbar epsilon0 cwf b energy s m = Ok None.
Proof. exact: evaluate_fails. Qed.
Print Assumptions C17_singular.
Example C17_case hbar : (0 < hbar)%re ->
  (exists f, channelFactor hbar (first_incident (ex_group 0%re)) 10%re = Some f) /\
  spinFactor (first_incident (ex_group 0%re)) = (7 / 16)%re /\
  (exists r, List.In r (ex_resonances 0%re) /\ rs_energy r = 10%re /\ rs_eliminated r = 0%re).
Proof.
  move=> hb; split; first by have [|f [E _]] := @ex_factor hbar (ex_table 0%re) 10%re hb; [lra | exists f].
  by split; [exact: ex_spin | eexists; split; [left; reflexivity | ]].
Qed.

(** * C18 *)
Theorem C18_unitary hbar epsilon0 cwf b channels rs g energy (s s' : cache (gsize g)) m m' :
  constructed channels rs g ->
  evaluateGroup hbar epsilon0 cwf b energy s m = Ok (Some (s', m')) ->
  (forall vs, groupValues hbar epsilon0 cwf b g energy = Ok (Some vs) ->
     forall i : 'I_(gsize g), (0 <= v_P (val_of vs i))%re) ->
  (forall r, List.In r rs -> rs_eliminated r = 0%re) ->
  (forall c, List.In c channels -> c_reaction c <> capture_id g) ->
  m' (capture_id g) = Some (odflt 0%re (m (capture_id g))) /\
  exists vs A factor, @evaluated hbar epsilon0 cwf b rs g energy vs A factor /\
    U_spec vs A *m dag (U_spec vs A) = 1%:M.
Proof. exact: no_capture. Qed.
Print Assumptions C18_unitary.
Example C18_case : (forall r, List.In r (ex_resonances 0%re) -> rs_eliminated r = 0%re) /\
  (forall c, List.In c ex_channels -> c_reaction c <> capture_id (ex_group 0%re)).
Proof. by split=> [r [<- | [<- | []]] | c [<- | [<- | []]]]. Qed.

(** * C19 *)
Theorem C19_closed_channels n b energy rs vs (A : 'M[cx]_n) c j : is_RL b energy rs vs A ->
  isclosed vs c || isclosed vs j ->
  T_spec vs A c j = 0 /\ (j != c -> norm2 (0 - U_spec vs A c j) = 0%re).
Proof. exact: closed_nothing. Qed.
Print Assumptions C19_closed_channels.
Theorem C19_closed_reaction hbar epsilon0 cwf b channels rs g energy (s s' : cache (gsize g)) m m' k :
  constructed channels rs g ->
  evaluateGroup hbar epsilon0 cwf b energy s m = Ok (Some (s', m')) ->
  written g k -> k <> capture_id g ->
  (forall c, List.In c channels -> c_reaction c = k ->
     channelBelowThreshold c energy /\ isIncidentChannel c = false) ->
  m' k = Some (odflt 0%re (m k)).
Proof. exact: closed_reaction. Qed.
Print Assumptions C19_closed_reaction.
(** as if the widths of the closed channels were zero and no channel closed *)
Theorem C19_as_zero_widths n b energy rs vs (A : 'M[cx]_n) : sized n rs ->
  is_RL b energy [seq mask_closed vs r | r <- rs] [seq open_all v | v <- vs] A <-> is_RL b energy rs vs A.
Proof. exact: closed_mask. Qed.
Print Assumptions C19_as_zero_widths.
Example C19_case : @isclosed 2 [:: Values 1 0 0 0 0 false; Values 2 0 0 0 0 true] ord_max.
Proof. by []. Qed.

(** * C20 *)
Theorem C20_hard_sphere hbar epsilon0 cwf b channels g energy (s s' : cache (gsize g)) m m' :
  constructed channels [::] g -> (0 < hbar)%re -> neutral_channels energy g ->
  evaluateGroup hbar epsilon0 cwf b energy s m = Ok (Some (s', m')) ->
  exists vs factor, groupValues hbar epsilon0 cwf b g energy = Ok (Some vs) /\
    channelFactor hbar (first_incident g) energy = Some factor /\
    forall k, written g k -> m' k = Some (odflt 0 (m k) + factor *
      \big[Rplus/0]_(c : 'I_(gsize g) | isIncidentChannel (chan c) && (c_reaction (chan c) == k))
         (4 * (sin (v_phi (val_of vs c)) * sin (v_phi (val_of vs c)))))%re.
Proof. exact: hard_sphere. Qed.
Print Assumptions C20_hard_sphere.
Example C20_case hbar epsilon0 cwf b : (0 < hbar)%re -> forall s m, exists s' m',
  @evaluateGroup hbar epsilon0 cwf b (ex_group_of (mkTable [seq c_id c | c <- ex_channels] [::])) 3%re s m
  = Ok (Some (s', m')).
Proof.
  move=> hb; have n0 : (3 <> 0)%re by lra.
  have reg : regular 3%re [::] by [].
  exact: (ex_evaluates epsilon0 cwf b hb n0 ex_constructed_empty reg).
Qed.

(** * C21 *)
(** [x] does not depend on what the map or the stored matrices held before. *)
Theorem C21_adds hbar epsilon0 cwf b channels rs g energy (s s' : cache (gsize g)) m m' :
  constructed channels rs g ->
  evaluateGroup hbar epsilon0 cwf b energy s m = Ok (Some (s', m')) ->
  exists x : reactionID -> R, added (written g) x m m' /\
    forall (s2 : cache (gsize g)) m2, exists m2',
      evaluateGroup hbar epsilon0 cwf b energy s2 m2 = Ok (Some (s', m2')) /\ added (written g) x m2 m2'.
Proof. exact: adds. Qed.
Print Assumptions C21_adds.
Theorem C21_group_order hbar epsilon0 cwf b gs1 gs2 energy m gs1' m' : Permutation gs1 gs2 ->
  evaluateSystem hbar epsilon0 cwf b gs1 energy m = Ok (Some (gs1', m')) ->
  exists gs2', evaluateSystem hbar epsilon0 cwf b gs2 energy m = Ok (Some (gs2', m')) /\
    Permutation gs1' gs2'.
Proof. exact: system_order. Qed.
Print Assumptions C21_group_order.
Example C21_case hbar epsilon0 cwf b : (0 < hbar)%re -> exists gs' m',
  evaluateSystem hbar epsilon0 cwf b
    [:: existT _ (ex_group 1%re) (Cache 0 0 0); existT _ (ex_group 2%re) (Cache 0 0 0)] 15%re (fun _ => None)
  = Ok (Some (gs', m')).
Proof.
  move=> hb; have n0 : (15 <> 0)%re by lra.
  have reg e : regular 15%re (ex_resonances e) by apply: ex_regular; lra.
  have [s1 [m1 E1]] := ex_evaluates epsilon0 cwf b hb n0 (ex_constructed 1%re) (reg _) (Cache 0 0 0) (fun _ => None).
  have [s2 [m2 E2]] := ex_evaluates epsilon0 cwf b hb n0 (ex_constructed 2%re) (reg _) (Cache 0 0 0) m1.
  by eexists; eexists; rewrite /= E1 /= E2 /=.
Qed.

(** * C22 *)
Theorem C22_history hbar epsilon0 cwf b g energies (s0 s1 : cache (gsize g)) m :
  seen hbar epsilon0 cwf b energies s0 m =
  [seq Outcome.omap (ssrfun.omap snd) (evaluateGroup hbar epsilon0 cwf b e s1 m) | e <- energies].
Proof. exact: seen_spec. Qed.
Print Assumptions C22_history.
Theorem C22_stored_matrices hbar epsilon0 cwf b (gs1 gs2 : seq object) energy m :
  map (@projT1 _ _) gs1 = map (@projT1 _ _) gs2 ->
  evaluateSystem hbar epsilon0 cwf b gs1 energy m = evaluateSystem hbar epsilon0 cwf b gs2 energy m.
Proof. exact: system_cache. Qed.
Print Assumptions C22_stored_matrices.
Theorem C22_T_matrix hbar epsilon0 cwf b g energy (s1 s2 : cache (gsize g)) m :
  evaluateTGroup hbar epsilon0 cwf b energy s1 m = evaluateTGroup hbar epsilon0 cwf b energy s2 m.
Proof. exact: evaluateT_cache. Qed.
Print Assumptions C22_T_matrix.
(** * C23 *)
Theorem C23_T_matrix hbar epsilon0 cwf b channels rs g energy vs factor : constructed channels rs g ->
  groupValues hbar epsilon0 cwf b g energy = Ok (Some vs) ->
  channelFactor hbar (first_incident g) energy = Some factor ->
  physical (gsize g) b vs -> regular energy rs ->
  (forall c, List.In c channels -> arrow_free (c_id c)) ->
  exists A, @evaluated hbar epsilon0 cwf b rs g energy vs A factor /\
    (forall (s : cache (gsize g)) (m : element_map), exists s' m',
      evaluateTGroup hbar epsilon0 cwf b energy s m = Ok (Some (s', m')) /\
      (forall c j : 'I_(gsize g),
         m' (c_id (chan c) ++ "->" ++ c_id (chan j))%string = Some (T_spec vs A c j)) /\
      (forall k, (forall c j : 'I_(gsize g), k <> c_id (chan c) ++ "->" ++ c_id (chan j))%string ->
         m' k = m k)) /\
    (forall (s : cache (gsize g)) (m : reaction_map), exists s' m',
      evaluateGroup hbar epsilon0 cwf b energy s m = Ok (Some (s', m')) /\
      forall k, written g k -> k <> capture_id g ->
        (forall j : 'I_(gsize g), c_reaction (chan j) = k -> isIncidentChannel (chan j) = false) ->
        m' k = Some (odflt 0 (m k) + factor *
          \big[Rplus/0]_(c : 'I_(gsize g) | isIncidentChannel (chan c))
            \big[Rplus/0]_(j | c_reaction (chan j) == k) (4 * norm2 (T_spec vs A c j)))%re).
Proof. exact: T_consistent. Qed.
Print Assumptions C23_T_matrix.
(** The condition on the identifiers is needed: distinct channels can share a key. *)
Theorem C23_key_collision : exists a c a' c' : string, a <> a' /\
  (a ++ "->" ++ c = a' ++ "->" ++ c')%string.
Proof. by exists "a"%string, "b->c"%string, "a->b"%string, "c"%string. Qed.
Print Assumptions C23_key_collision.
(** Elastic: the T matrix gives the distance to hard-sphere scattering. *)
Theorem C23_elastic n vs (A : 'M[cx]_n) c :
  norm2 (cis (2 * (v_w (val_of vs c) - v_phi (val_of vs c)))%re - U_spec vs A c c)
  = (4 * norm2 (T_spec vs A c c))%re.
Proof. exact: U_T_diag. Qed.
Print Assumptions C23_elastic.
Example C23_case : forall c, List.In c ex_channels -> arrow_free (c_id c).
Proof.
  move=> c [<- | [<- | []]] i; rewrite /=.
  - by do 30 (case: i => [|i] //=).
  - by do 30 (case: i => [|i] //=).
Qed.

(** * C25 *)
Theorem C25_charged_elastic_refuted :
  exists hbar epsilon0 cwf b channels g energy (s s' : cache (gsize g)) m m' vs,
  constructed channels [::] g /\
  evaluateGroup hbar epsilon0 cwf b energy s m = Ok (Some (s', m')) /\
  groupValues hbar epsilon0 cwf b g energy = Ok (Some vs) /\
  (forall c : 'I_(gsize g), v_phi (val_of vs c) = 0%re) /\
  m (Elastic "p" "H1") = Some 0%re /\ m' (Elastic "p" "H1") <> Some 0%re.
Proof. exact co_refuted. Qed.
Print Assumptions C25_charged_elastic_refuted.
(** What is computed instead: 4 sin^2(phi - w/2). *)
Theorem C25_charged_elastic hbar epsilon0 cwf b channels g energy (s s' : cache (gsize g)) m m' :
  constructed channels [::] g ->
  evaluateGroup hbar epsilon0 cwf b energy s m = Ok (Some (s', m')) ->
  exists vs factor, groupValues hbar epsilon0 cwf b g energy = Ok (Some vs) /\
    channelFactor hbar (first_incident g) energy = Some factor /\
    forall k, written g k -> m' k = Some (odflt 0 (m k) + factor *
      \big[Rplus/0]_(c : 'I_(gsize g) | isIncidentChannel (chan c) && (c_reaction (chan c) == k))
         (4 * (sin (v_phi (val_of vs c) - v_w (val_of vs c) / 2) *
               sin (v_phi (val_of vs c) - v_w (val_of vs c) / 2))))%re.
Proof. exact: empty_elastic. Qed.
Print Assumptions C25_charged_elastic.
