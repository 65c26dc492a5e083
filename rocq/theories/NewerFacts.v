(** The system assembled from items, for files without ssreflect; items without resonances. *)
From Coq Require Import Reals ZArith String Lra.
From mathcomp Require Import all_ssreflect all_algebra.
From Coq Require List.
From Verif Require Import Outcome QuantumSpec KinematicsModel CoulombModel Cplx RMatrixModel RMatrixSpec RMatrixProofs RMatrixCodeProofs RMatrixObservableProofs KMatrixModel KMatrixProofs ChannelModel SpinGroupSpec SpinGroupChannelProofs ListFacts AssemblyTheorems
  SpinGroupModel AssemblyModel AssemblySpec KMatrixSpec KMatrixMore BreitWignerSpec NewerItems NewerGroup NewerSystem.
Set Implicit Arguments.
Unset Strict Implicit.
Unset Printing Implicit Defensive.
Local Open Scope ring_scope.
Import GRing.Theory.

Definition value_of (m : option R) : R := match m with Some x => x | None => 0%re end.

Section System.
Variables (hbar epsilon0 : R) (cwf : nat -> R -> R -> outcome coulomb) (E : R).
Variables (its : list item) (out : list channel_data) (X : string) (kE kF : reactionID) (P phi : item -> R) (fac : Jpi -> R).
Let kC := Transfer X "capture".
Hypotheses (Hok : forall i, List.In i its -> item_ok i) (Hout : consolidated (List.concat (List.map it_ds its)) out).
Hypothesis HN : forall jp, List.NoDup (List.concat (List.map it_energies (sel its jp))).
Hypothesis Hreact : forall i k d, List.In i its -> List.nth_error (it_D i) k = Some d ->
  c_reaction (cd_channel d) = (match k with O => kE | _ => kF end) /\ isIncidentChannel (cd_channel d) = (match k with O => true | _ => false end) /\
  pp_id (c_incident (cd_channel d)) = X.
Hypotheses (HkE : kE <> kF) (HkEC : kE <> kC) (HkFC : kF <> kC).
Hypothesis HP : forall i, List.In i its -> (0 < P i)%re.
Hypothesis Hval : forall i k d v, List.In i its -> List.nth_error (it_D i) k = Some d ->
  channelValues hbar epsilon0 cwf ShiftFactor (cd_channel d) E = Ok (Some v) ->
  v = List.nth (List.nth k (it_which i) O) (three_channels (P i) (phi i)) no_values.
Hypothesis Hfac : forall i f, List.In i its -> channelFactor hbar (it_el i) E = Some f -> f = fac (it_Jpi i).
Theorem newer_plain gs objects m gs' m' : makeSystemFromData out = Ok gs -> List.map (@projT1 _ _) objects = gs ->
  evaluateSystem hbar epsilon0 cwf ShiftFactor objects E m = Ok (Some (gs', m')) ->
  (value_of (m' kE) = value_of (m kE) + Rsum (List.map (fun i => fac (it_Jpi i) * J_elastic E (P i) (phi i) (it_rows i)) its))%re /\
  (value_of (m' kF) = value_of (m kF) + Rsum (List.map (fun i => fac (it_Jpi i) * J_fission E (P i) (phi i) (it_rows i)) its))%re /\
  (value_of (m' kC) = value_of (m kC) + Rsum (List.map (fun i => fac (it_Jpi i) * J_capture E (P i) (phi i) (it_rows i)) its))%re /\
  (forall k, k <> kE -> k <> kF -> k <> kC -> m' k = m k).
Proof.
  move=> Hs Ho He.
  have [] := @newer_system hbar epsilon0 cwf E its out X kE kF P phi fac Hok Hout HN _ _ HkE HkEC HkFC HP _ Hfac gs objects m gs' m' Hs Ho He.
  - by move=> i [|k] d Hi Hd; have [-> [-> _]] := Hreact Hi Hd.
  - by move=> i k d Hi Hd; have [_ [_ ->]] := Hreact Hi Hd.
  - by move=> i k d v Hi Hd Hv; rewrite (Hval Hi Hd Hv) !nth_list.
  have E1 : (kF == kE) = false by apply/eqP => Q; apply: HkE.
  have E2 : (kC == kE) = false by apply/eqP => Q; apply: HkEC.
  have E3 : (kC == kF) = false by apply/eqP => Q; apply: HkFC.
  have Hv o : odflt 0%re o = value_of o by case: o.
  move=> A B; have := A kE; have := A kF; have := A kC; rewrite !Hv => -> -> ->.
  repeat split=> //; congr Rplus; apply: f_equal; apply: List.map_ext => i; by rewrite /V ?E1 ?E2 ?E3 ?eqxx.
Qed.
End System.

(** ** A system is evaluated only if every channel is *)
Lemma system_values hbar epsilon0 cwf b E objects m gs' m' : evaluateSystem hbar epsilon0 cwf b objects E m = Ok (Some (gs', m')) ->
  forall g c, List.In g (List.map (@projT1 _ _) objects) -> List.In c (g_channels g) -> exists v, channelValues hbar epsilon0 cwf b c E = Ok (Some v).
Proof.
  elim: objects m gs' m' => [|[g s] objects IH] m gs' m' /= ev g' c; first by case.
  move=> Hg Hc.
  have [[[s' m1]|] [E1 {}ev]] := bind_Ok _ _ _ ev; last by [].
  have [[[r' m2]|] [E2 {}ev]] := bind_Ok _ _ _ ev; last by [].
  move=> {ev}.
  case: Hg => [Eg|Hg]; last exact: (IH _ _ _ E2 g' c Hg Hc).
  subst g'; rewrite /evaluateGroup in E1; have [[vs|] [Ev {}E1]] := bind_Ok _ _ _ E1; last first.
    by have [? [_ {}E1]] := bind_Ok _ _ _ E1; have [? [_ {}E1]] := bind_Ok _ _ _ E1.
  have [_ H] := @mapM_all _ _ _ _ _ Ev; have [n Hn] := List.In_nth_error _ _ Hc.
  have Hlt : (n < size (g_channels g))%N by apply/ltP; apply: (proj1 (List.nth_error_Some _ _)); rewrite Hn.
  exists (nth no_values vs n); rewrite -(H n dummy_channel no_values Hlt) nth_list; congr channelValues.
  by symmetry; apply: List.nth_error_nth.
Qed.
Lemma system_items hbar epsilon0 cwf b E its out gs objects m gs' m' : (forall i, List.In i its -> item_ok i) ->
  consolidated (List.concat (List.map it_ds its)) out -> makeSystemFromData out = Ok gs -> List.map (@projT1 _ _) objects = gs ->
  evaluateSystem hbar epsilon0 cwf b objects E m = Ok (Some (gs', m')) ->
  forall i, List.In i its -> exists v, channelValues hbar epsilon0 cwf b (it_el i) E = Ok (Some v).
Proof.
  move=> Hok Hout Hs Ho He i Hi; have [d0 [fis [ED Eel]]] := io_first _ (Hok _ Hi).
  have [js [N [J F]]] := system_made_of (co_consistent _ _ Hout) Hs.
  have Hin : List.In d0 (List.filter (fun d => ~~ cd_eliminated d) out).
    rewrite (co_ordinary _ _ Hout); have Hd : List.In d0 (it_D i) by rewrite ED; left.
    apply/List.filter_In; move/List.filter_In: Hd => [H1 H2]; split=> //.
    apply/List.in_concat; exists (it_ds i); split=> //; exact: List.in_map.
  have [g [Hg Hc]] : exists g, List.In g gs /\ List.In (it_el i) (g_channels g).
    have Hj : List.In (Jpi_data d0) js by apply/J; exists d0; split=> //; move/List.filter_In: Hin => [].
    elim: F Hj => [|jp g js' gs'' Hg _ IH] //= [Ej|/IH [g' [H1 H2]]]; last by exists g'; split=> //; right.
    exists g; split; [by left | rewrite (mo_channels Hg) -Eel].
    apply: List.in_map; apply/List.filter_In; move/List.filter_In: Hin => [H1 H2]; split=> //.
    by apply/of_Jpi_In.
  by apply: (system_values He (g := g)) => //; rewrite Ho.
Qed.

(** ** No resonances *)
Lemma U3_nil E P phi i j : U3 E P phi [::] i j = if i == j then omega (three_channels P phi) i * omega (three_channels P phi) i else 0.
Proof.
  rewrite /U3 U_entry; have -> : RL3 E P phi [::] = 0.
    rewrite /RL3; have -> : R_spec 3 E [::] (three_channels P phi) = 0 by apply/matrixP => a b; rewrite !mxE big_nil.
    by rewrite mulmx0.
  have -> : T_spec (three_channels P phi) (0 : 'M[cx]_3) = 0 by rewrite /T_spec mulmx0 mul0mx.
  rewrite mxE mulr0 addr0 eq_sym; case: (altP (i =P j)) => [->|_]; first by rewrite mulr1.
  by rewrite mulr0 mul0r.
Qed.
Lemma J_nil E P phi : J_elastic E P phi [::] = scattered (cis (- (2 * phi))%re) /\ J_fission E P phi [::] = 0%re /\ J_capture E P phi [::] = 0%re.
Proof.
  have H0 : U3 E P phi [::] ord0 ord0 = cis (- (2 * phi))%re.
    by rewrite U3_nil eqxx !omega3 ord0_o0 eqxx -cisD; congr cis; ring.
  have Hj j : j != ord0 -> U3 E P phi [::] ord0 j = 0 by rewrite eq_sym U3_nil => /negbTE ->.
  have Z : norm2 (0 : cx) = 0%re by rewrite /norm2 /=; ring.
  split; first by rewrite /J_elastic H0.
  split; first by rewrite /J_fission inord1_o1 inord2_o2 !Hj // Z; ring.
  rewrite /J_capture sum3 -ord0_o0 H0 !Hj // Z norm2_cis; ring.
Qed.
