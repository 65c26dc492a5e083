(** When the system assembled from items can be evaluated. *)
From Coq Require Import Reals ZArith String Lra Lia.
From mathcomp Require Import all_ssreflect all_algebra.
From Coq Require List.
From Verif Require Import Outcome QuantumSpec KinematicsModel CoulombModel Cplx RMatrixModel RMatrixSpec ChannelModel SpinGroupSpec SpinGroupChannelProofs SpinGroupEvalProofs SpinGroupTheorems ListFacts AssemblyProofs AssemblyTheorems
  SpinGroupModel AssemblyModel AssemblySpec NewerItems NewerGroup NewerSystem.
Set Implicit Arguments.
Unset Strict Implicit.
Unset Printing Implicit Defensive.
Local Open Scope ring_scope.

Section System.
Variables (hbar epsilon0 : R) (cwf : nat -> R -> R -> outcome coulomb) (E : R).
Variables (its : list item) (out : list channel_data).
Hypotheses (Hok : forall i, List.In i its -> item_ok i) (Hout : consolidated (List.concat (List.map it_ds its)) out).
Hypothesis HN : forall jp, List.NoDup (List.concat (List.map it_energies (sel its jp))).
Hypothesis Hlead : forall i k d, List.In i its -> List.nth_error (it_D i) k = Some d ->
  isIncidentChannel (cd_channel d) = (match k with O => true | _ => false end).
Hypothesis Hval : forall i k d, List.In i its -> List.nth_error (it_D i) k = Some d -> exists v,
  channelValues hbar epsilon0 cwf ShiftFactor (cd_channel d) E = Ok (Some v) /\ (0 <= v_P v)%re.
Hypothesis Hfac : forall i, List.In i its -> exists fc, channelFactor hbar (it_el i) E = Some fc.
Hypothesis Hreg : forall i x, List.In i its -> List.In x (it_rows i) -> rs_energy x <> E \/ rs_eliminated x <> 0%re.

Lemma values_all (cs : seq channel) : (forall c, List.In c cs -> exists v, channelValues hbar epsilon0 cwf ShiftFactor c E = Ok (Some v) /\ (0 <= v_P v)%re) ->
  exists vs, Outcome.omap (@all_some _) (mapM (fun c => channelValues hbar epsilon0 cwf ShiftFactor c E) cs) = Ok (Some vs) /\ size vs = size cs /\
    forall j, (j < size cs)%N -> (0 <= v_P (nth no_values vs j))%re.
Proof.
  elim: cs => [|c cs IH] H; first by exists [::].
  have [v [Ev Pv]] := H c (or_introl erefl); have [|vs [Evs [Sz Pvs]]] := IH; first by move=> x Hx; apply: H; right.
  exists (v :: vs); split; last by split=> [|[|j]] //=; [rewrite Sz | exact: Pvs].
  move: Evs; rewrite /= Ev /= /Outcome.omap; case: (mapM _ cs) => [o| | |] //= [] Eo.
  by rewrite /= Eo.
Qed.
Lemma group_succeeds jp g (s : cache (gsize g)) m : made_of out jp g ->
  exists s' m', evaluateGroup hbar epsilon0 cwf ShiftFactor E s m = Ok (Some (s', m')).
Proof.
  case=> [[channels [t made]] [channels' con] Hc Ht].
  have [first [_ [_ [F1 F2]]]] := first_incident_spec made.
  have Hsel i : List.In i (sel its jp) -> List.In i its by rewrite /sel => /List.filter_In [].
  have place c : List.In c (g_channels g) -> exists i k d, List.In i (sel its jp) /\ List.nth_error (it_D i) k = Some d /\ c = cd_channel d.
    move=> Hc'; have [n Hn] := List.In_nth_error _ _ Hc'.
    have Hlt : (n < gsize g)%N by apply/ltP; apply: (proj1 (List.nth_error_Some _ _)); rewrite Hn.
    have [a [i [b [k [d [Es [_ [Hd Ec]]]]]]]] := group_at Hok Hout Hc (Ordinal Hlt).
    exists i, k, d; split; first exact: (sel_mid Es); split=> //.
    by rewrite -Ec /chan nth_list; symmetry; apply: List.nth_error_nth.
  have [|vs [Evs [_ Pvs]]] := @values_all (g_channels g).
    by move=> c /place [i [k [d [/Hsel Hi [Hd ->]]]]]; exact: (Hval Hi Hd).
  have [factor Ef] : exists fc, channelFactor hbar (first_incident g) E = Some fc.
    have [i [k [d [/Hsel Hi [Hd Ec]]]]] := place _ F2.
    move: F1; rewrite Ec (Hlead Hi Hd); case: k Hd => // Hd _.
    have [d0 [fis [ED Eel]]] := io_first _ (Hok Hi); rewrite ED in Hd; case: Hd => Hd; subst d0.
    by rewrite Eel; exact: Hfac.
  apply: (evaluate_succeeds con Evs Ef).
    by move=> i; split; [exact: Pvs (ltn_ord i) | right; right].
  move=> r Hr; have HNg := HN jp.
  have [i [x [Hi [Hx Ex]]]] : exists i x, List.In i (sel its jp) /\ List.In x (it_rows i) /\ rs_energy x = rs_energy r.
    have /(ft_energies _ _ Ht) [d [Hd He]] : List.In (rs_energy r) (List.map rs_energy (t_resonances (g_table g))) by exact: List.in_map.
    case Ed: (cd_eliminated d).
      have Z := sel_eliminated _ _ _ Hok Hout.
      have Hin : List.In (rs_energy r) (List.map fst (elim_rows its jp)).
        have Cd := out_consistent _ _ _ Hout d Hd.
        rewrite -Z; move: He; rewrite -(fst_entries d Cd) => /List.in_map_iff [p [Ep Hp]].
        apply/List.in_map_iff; exists p; split=> //; apply/List.in_concat; exists (entries d); split=> //.
        by apply: List.in_map; apply/List.filter_In.
      move: Hin; rewrite elim_energies => /List.in_concat [l [/List.in_map_iff [i [El Hi]] Hl]]; subst l.
      by move: Hl => /List.in_map_iff [x [Ex Hx]]; exists i, x.
    have F : List.In d (List.filter (fun d => ~~ cd_eliminated d) (of_Jpi jp out)) by apply/List.filter_In; rewrite Ed.
    have [k Hk] := List.In_nth_error _ _ F; have [a [i [b [c [Es [_ Hcd]]]]]] := ordinary_place its out jp Hok Hout k d Hk.
    have Hi : List.In i (sel its jp) by rewrite Es; apply: List.in_or_app; right; left.
    move: He; rewrite (proj1 (io_widths _ (Hok (Hsel _ Hi)) c d Hcd)) => /List.in_map_iff [x [Ex Hx]].
    by exists i, x.
  have [a [b Es]] := List.in_split _ _ Hi.
  have [r' [Hr' [Er' [El _]]]] := table_row its out jp (g_table g) Hok Hout Ht HNg a i b x Es Hx.
  have -> : r = r'.
    have Nd := increasing_nodup _ (ft_increasing _ _ Ht).
    have : rs_energy r = rs_energy r' by rewrite -Ex Er'.
    move: Hr Hr' Nd; elim: (t_resonances (g_table g)) => [|y l IH] //= [<-|H1] [<-|H2] // Nd Ee; inversion Nd as [|? ? N1 N2]; subst=> //.
    - by case: N1; rewrite Ee; apply: List.in_map.
    - by case: N1; rewrite -Ee; apply: List.in_map.
    - exact: IH.
  by rewrite Er' El; apply: (Hreg (Hsel _ Hi) Hx).
Qed.
Theorem system_succeeds gs objects m : makeSystemFromData out = Ok gs -> List.map (@projT1 _ _) objects = gs ->
  exists gs' m', evaluateSystem hbar epsilon0 cwf ShiftFactor objects E m = Ok (Some (gs', m')).
Proof.
  move=> Hs Ho; have [js [_ [_ F]]] := system_made_of (co_consistent _ _ Hout) Hs; subst gs.
  elim: objects js m F {Hs} => [|[g s] objects IH] js m F; first by exists [::], m.
  inversion F as [|jp ? js' ? Hg F']; subst.
  have [s' [m1 E1]] := group_succeeds s m Hg; have [r' [m2 E2]] := IH _ m1 F'.
  by rewrite /= E1 /= E2 /=; eexists; eexists.
Qed.
End System.

(** ... and only then *)
Section Only.
Variables (hbar epsilon0 : R) (cwf : nat -> R -> R -> outcome coulomb) (E : R).
Variables (its : list item) (out : list channel_data).
Hypotheses (Hok : forall i, List.In i its -> item_ok i) (Hout : consolidated (List.concat (List.map it_ds its)) out).
Hypothesis HN : forall jp, List.NoDup (List.concat (List.map it_energies (sel its jp))).
Lemma group_regular jp g (s s' : cache (gsize g)) m m' : made_of out jp g ->
  evaluateGroup hbar epsilon0 cwf ShiftFactor E s m = Ok (Some (s', m')) ->
  forall i x, List.In i (sel its jp) -> List.In x (it_rows i) -> rs_energy x <> E \/ rs_eliminated x <> 0%re.
Proof.
  case=> [[channels [t made]] [channels' con] Hc Ht] ev i x Hi Hx.
  have [vs [A [factor [[Ev [Ef rl]] _]]]] := evaluate_inv con ev.
  have HNg := HN jp; have [a [b Es]] := List.in_split _ _ Hi.
  have [r [Hr [Er [El _]]]] := table_row its out jp (g_table g) Hok Hout Ht HNg a i b x Es Hx.
  case: (Req_EM_T (rs_energy x) E) => [Q1|]; last by left.
  case: (Req_EM_T (rs_eliminated x) 0) => [Q2|]; last by right.
  by rewrite -Er in Q1; rewrite -El in Q2; rewrite (evaluate_fails con Ev Ef Hr Q1 Q2) in ev.
Qed.
Theorem system_regular gs objects m gs' m' : makeSystemFromData out = Ok gs -> List.map (@projT1 _ _) objects = gs ->
  evaluateSystem hbar epsilon0 cwf ShiftFactor objects E m = Ok (Some (gs', m')) ->
  forall i x, List.In i its -> List.In x (it_rows i) -> rs_energy x <> E \/ rs_eliminated x <> 0%re.
Proof.
  move=> Hs Ho ev i x Hi Hx; have [js [_ [J F]]] := system_made_of (co_consistent _ _ Hout) Hs; subst gs.
  have [d0 [fis [ED Eel]]] := io_first _ (Hok Hi).
  have Hj : List.In (it_Jpi i) js.
    apply/J; have Hd : List.In d0 (it_D i) by rewrite ED; left.
    have : List.In d0 (List.filter (fun d => ~~ cd_eliminated d) out).
      rewrite (co_ordinary _ _ Hout); apply/List.filter_In; move/List.filter_In: Hd => [H1 H2]; split=> //.
      apply/List.in_concat; exists (it_ds i); split=> //; exact: List.in_map.
    move/List.filter_In => [H1 _]; exists d0; split=> //; rewrite /it_Jpi -Eel; reflexivity.
  have Hsel : List.In i (sel its (it_Jpi i)).
    by apply/List.filter_In; split=> //; rewrite /has_Jpi /it_Jpi /Jpi_of /= !Z.eqb_refl.
  elim: objects js m gs' m' F ev Hj {Hs J} => [|[g s] objects IH] js m gs' m' F ev; first by inversion F; subst.
  inversion F as [|jp ? js' ? Hg F']; subst; move: ev => /= ev.
  have [[[s' m1]|] [E1 {}ev]] := bind_Ok _ _ _ ev; last by [].
  have [[[r' m2]|] [E2 {}ev]] := bind_Ok _ _ _ ev; last by [].
  case=> [Ej|Hj]; first by apply: (group_regular Hg E1 _ Hx); rewrite Ej.
  exact: (IH _ _ _ _ F' E2 Hj).
Qed.
End Only.
