(** A compound system made of items: the cross sections it evaluates to. *)
From Coq Require Import Reals Lra Lia String Permutation.
From mathcomp Require Import all_ssreflect all_algebra.
From Verif Require Import Outcome QuantumModel QuantumSpec KinematicsModel CoulombModel Cplx RMatrixModel RMatrixSpec
  KMatrixModel KMatrixSpec ChannelModel SpinGroupModel SpinGroupSpec SpinGroupProofs SpinGroupEvalProofs SpinGroupTheorems SpinGroupSystemProofs ListFacts
  AssemblyModel AssemblySpec AssemblyTheorems NewerItems NewerGroup.
Set Implicit Arguments.
Unset Strict Implicit.
Unset Printing Implicit Defensive.
Import GRing.Theory.
Local Open Scope ring_scope.
Local Arguments Rsum : simpl never.

(** A group made of the data of one J and parity *)
Record made_of (out : seq channel_data) (jp : Jpi) (g : group) : Prop := mkMadeOf
  { mo_made : exists channels t, makeGroup channels t = Ok g;
    mo_constructed : exists channels, constructed channels (t_resonances (g_table g)) g;
    mo_channels : g_channels g = ordinary_channels (of_Jpi jp out);
    mo_table : faithful_table (of_Jpi jp out) (g_table g) }.
Lemma system_made_of out gs : (forall d, List.In d out -> consistent d) -> makeSystemFromData out = Ok gs ->
  exists js, List.NoDup js /\ (forall j, List.In j js <-> exists d, List.In d out /\ Jpi_data d = j) /\ List.Forall2 (made_of out) js gs.
Proof.
  move=> C H; rewrite /makeSystemFromData in H; have [gs' [H1 H2]] := bind_Ok _ _ _ H.
  have Eg : gs' = gs by move: H2; rewrite /makeSystem; case: (verifySpinGroups gs') => //= _ [].
  subst gs'; rewrite /makeSpinGroups in H1.
  have [S I] := sortUniqueJpi_spec (List.map getJpi out).
  exists (sortUniqueJpi (List.map getJpi out)); split; first exact: sorted_nodup.
  split; first by move=> j; rewrite I List.in_map_iff; split=> -[d [A B]]; exists d.
  have acc := spin_groups_back _ _ _ C H1.
  move/mapM_Ok: H1; move: (sortUniqueJpi _) acc {S I} => js acc F; elim: F acc => [|j g js' gs' Hg _ IH] acc; first by constructor.
  constructor; last by apply: IH => k Hk; apply: acc; right.
  rewrite filter_hasJpi in Hg.
  have Cj d : List.In d (of_Jpi j out) -> consistent d by move/of_Jpi_In => [/C].
  have Jj d : List.In d (of_Jpi j out) -> Jpi_data d = j by move/of_Jpi_In => [].
  have [G _] := group_from_data j _ Cj Jj; have [g' [E1 [E2 E3]]] := G (acc j (or_introl erefl)).
  rewrite Hg in E1; case: E1 => E1; subst g'.
  rewrite /makeGroupFromData in Hg; have [t [Et Em]] := bind_Ok _ _ _ Hg.
  split=> //; first by eexists; exists t; exact: Em.
  have [_ [Eg _]] := makeGroup_ok Em.
  eexists; rewrite Eg; move: Et; rewrite /makeResonanceTable; case: ifP => // _.
  set cs := (X in makeTable X _); set rs := (X in makeTable _ X) => Et.
  have [_ [Er _]] := makeTable_sized Et; exists cs, t; rewrite Er; split=> //; exact: Em.
Qed.

(** Sums over a partition *)
Lemma partition_sum (A : Type) (key : A -> Jpi) (F : A -> R) (js : list Jpi) (l : list A) : List.NoDup js ->
  (forall x, List.In x l -> List.In (key x) js) ->
  Rsum (List.map (fun j => Rsum (List.map F (List.filter (fun x => Jpi_eqb (key x) j) l))) js) = Rsum (List.map F l).
Proof.
  move=> N; elim: l => [|x l IH] H.
    rewrite (Rsum_ext _ (fun _ => (0 * 0)%re)); last by move=> j _ /=; rewrite Rsum_nil; ring.
    by rewrite Rsum_scale /= Rsum_nil; ring.
  rewrite /= Rsum_cons -IH; last by move=> y Hy; apply: H; right.
  have Hx : List.In (key x) js by apply: H; left.
  rewrite (Rsum_ext _ (fun j => ((if Jpi_eqb (key x) j then F x else 0) +
     Rsum (List.map F (List.filter (fun x => Jpi_eqb (key x) j) l)))%re)); last first.
    by move=> j _; case: (Jpi_eqb _ _) => /=; rewrite ?Rsum_cons //; ring.
  rewrite Rsum_plus; congr Rplus.
  elim: N Hx => [|j js' Nj N' IHj] //= Hx; rewrite Rsum_cons.
  case: Hx => [Ej|Hx].
    subst j.
    rewrite (proj2 (Jpi_eqb_spec _ _) erefl) (Rsum_ext _ (fun _ => (0 * 0)%re)).
      by rewrite Rsum_scale; ring.
    move=> k Hk; case E: (Jpi_eqb (key x) k); last by ring.
    by case: Nj; move/Jpi_eqb_spec: E => ->.
  have -> : Jpi_eqb (key x) j = false.
    by case E: (Jpi_eqb (key x) j) => //; case: Nj; move/Jpi_eqb_spec: E => <-.
  by rewrite IHj //; ring.
Qed.

Section System.
Variables (hbar epsilon0 : R) (cwf : nat -> R -> R -> outcome coulomb) (E : R).
Variables (its : seq item) (out : seq channel_data) (X : string) (kE kF : reactionID) (P phi : item -> R) (fac : Jpi -> R).
Let kC := Transfer X "capture".
Hypotheses (Hok : forall i, List.In i its -> item_ok i) (Hout : consolidated (List.concat (List.map it_ds its)) out).
Hypothesis HN : forall jp, List.NoDup (List.concat (List.map it_energies (sel its jp))).
Hypothesis Hreact : forall i k d, List.In i its -> List.nth_error (it_D i) k = Some d ->
  c_reaction (cd_channel d) = (if k == 0%N then kE else kF) /\ isIncidentChannel (cd_channel d) = (k == 0%N).
Hypothesis Hinc : forall i k d, List.In i its -> List.nth_error (it_D i) k = Some d -> pp_id (c_incident (cd_channel d)) = X.
Hypotheses (HkE : kE <> kF) (HkEC : kE <> kC) (HkFC : kF <> kC).
Hypothesis HP : forall i, List.In i its -> (0 < P i)%re.
Hypothesis Hval : forall i k d v, List.In i its -> List.nth_error (it_D i) k = Some d ->
  channelValues hbar epsilon0 cwf ShiftFactor (cd_channel d) E = Ok (Some v) ->
  v = nth no_values (three_channels (P i) (phi i)) (nth 0%N (it_which i) k).
Hypothesis Hfac : forall i f, List.In i its -> channelFactor hbar (it_el i) E = Some f -> f = fac (it_Jpi i).
Notation Vi := (V E kE kF kC P phi).

Lemma sel_Jpi jp i : List.In i (sel its jp) -> it_Jpi i = jp.
Proof.
  rewrite /sel => /List.filter_In [_]; rewrite /has_Jpi /it_Jpi /Jpi_of => /andP [/Z.eqb_eq -> /Z.eqb_eq ->].
  by case: jp.
Qed.
Lemma group_eval jp g (s s' : cache (gsize g)) m m' : made_of out jp g ->
  evaluateGroup hbar epsilon0 cwf ShiftFactor E s m = Ok (Some (s', m')) ->
  (forall k, odflt 0%re (m' k) = (odflt 0 (m k) + Rsum (List.map (fun i => fac (it_Jpi i) * Vi k i) (sel its jp)))%re) /\
  (forall k, k <> kE -> k <> kF -> k <> kC -> m' k = m k).
Proof.
  case=> [[channels [t made]] [channels' con] Hc Ht] ev.
  have [vs [A [factor [[Ev [Ef rl]] ad]]]] := evaluate_inv con ev.
  have [first [_ [_ [F1 F2]]]] := first_incident_spec made.
  have Hsel i : List.In i (sel its jp) -> List.In i its by rewrite /sel => /List.filter_In [].
  have Efac : factor = fac jp.
    have [n Hn] := List.In_nth_error _ _ F2.
    have Hlt : (n < gsize g)%N by apply/ltP; apply: (proj1 (List.nth_error_Some _ _)); rewrite Hn.
    have [a [i [b [k [d [Es [_ [Hd Ec]]]]]]]] := group_at Hok Hout Hc (Ordinal Hlt).
    have Ed : cd_channel d = first_incident g.
      by rewrite -Ec /chan nth_list; apply: List.nth_error_nth.
    have Hi := Hsel _ (sel_mid Es); have [_ HI] := Hreact Hi Hd.
    move: F1; rewrite -Ed HI => /eqP Ek; subst k.
    have [d0 [fis [ED Eel]]] := io_first _ (Hok Hi); rewrite ED in Hd; case: Hd => Hd; subst d0.
    by rewrite -(sel_Jpi (sel_mid Es)); apply: Hfac => //; rewrite -Eel Ed.
  have Hcap : capture_id g = kC.
    rewrite /capture_id; case Ech: (g_channels g) => [|c cs]; first by rewrite Ech in F2.
    have Hlt : (0 < gsize g)%N by rewrite /gsize Ech.
    have [a [i [b [k [d [Es [_ [Hd Ec]]]]]]]] := group_at Hok Hout Hc (Ordinal Hlt).
    by rewrite /kC -(Hinc (Hsel _ (sel_mid Es)) Hd) -Ec /chan Ech.
  have con_k k : contribution vs A factor k = Rsum (List.map (fun i => fac (it_Jpi i) * Vi k i)%re (sel its jp)).
    rewrite (@group_contribution hbar epsilon0 cwf E its out jp g channels t kE kF kC P phi Hok Hout made Hc Ht (HN jp) Hreact HkE HkEC HkFC Hcap vs A factor Ev rl).
    - rewrite -Rsum_scale; apply: Rsum_ext => i Hi; by rewrite (sel_Jpi Hi) Efac.
    - by move=> i /Hsel /HP.
    - by move=> i k' d v /Hsel; apply: Hval.
  have wr k : written g k -> k = kE \/ k = kF \/ k = kC.
    exact: (group_written Hok Hout Hc Hreact Hcap).
  split=> k; last first.
    by move=> N1 N2 N3; rewrite ad; case W: (written g k) => //; case: (wr _ W) => [|[|]].
  rewrite ad -con_k; case W: (written g k) => //=.
  have Z : contribution vs A factor k = 0%re; last by rewrite Z; case: (m k) => [x|] /=; ring.
  move: W; rewrite /written => /norP [Wc Wh].
  rewrite /contribution big1 ?Rmult_0_r // => c _; rewrite (negbTE Wc) Rplus_0_r big_pred0 // => j.
  apply/negbTE/negP => Q; case/negP: Wh; apply/(has_nthP dummy_channel); exists (j : nat) => //; exact: (ltn_ord j).
Qed.
Theorem system_eval js gs m gs' m' : List.Forall2 (made_of out) js (map (@projT1 _ _) gs) ->
  evaluateSystem hbar epsilon0 cwf ShiftFactor gs E m = Ok (Some (gs', m')) ->
  (forall k, odflt 0%re (m' k) = (odflt 0 (m k) + Rsum (List.map (fun jp => Rsum (List.map (fun i => fac (it_Jpi i) * Vi k i) (sel its jp))) js))%re) /\
  (forall k, k <> kE -> k <> kF -> k <> kC -> m' k = m k).
Proof.
  elim: gs js m gs' m' => [|[g s] gs IH] js m gs' m' F /= ev.
    by inversion F; subst; case: ev => _ <-; split=> // k; rewrite /= Rsum_nil Rplus_0_r.
  inversion F as [|jp ? js' ? Hg F']; subst => {F}.
  have [[[s' m1]|] [E1 {}ev]] := bind_Ok _ _ _ ev; last by [].
  have [[[r' m2]|] [E2 {}ev]] := bind_Ok _ _ _ ev; last by [].
  case: ev => _ <-; have [A1 A2] := group_eval Hg E1; have [B1 B2] := IH _ _ _ _ F' E2.
  split=> k; first by rewrite /= Rsum_cons B1 A1 Rplus_assoc.
  by move=> N1 N2 N3; rewrite B2 // A2.
Qed.
Theorem newer_system gs objects m gs' m' : makeSystemFromData out = Ok gs -> map (@projT1 _ _) objects = gs ->
  evaluateSystem hbar epsilon0 cwf ShiftFactor objects E m = Ok (Some (gs', m')) ->
  (forall k, odflt 0%re (m' k) = (odflt 0 (m k) + Rsum (List.map (fun i => fac (it_Jpi i) * Vi k i) its))%re) /\
  (forall k, k <> kE -> k <> kF -> k <> kC -> m' k = m k).
Proof.
  move=> Hs Eo ev; have [js [N [J F]]] := system_made_of (co_consistent _ _ Hout) Hs.
  rewrite -Eo in F; have [A B] := system_eval F ev; split=> // k; rewrite A; congr Rplus.
  rewrite -(@partition_sum _ it_Jpi (fun i => fac (it_Jpi i) * Vi k i)%re js its N) //.
  move=> i Hi; apply/J; have [d0 [fis [ED Eel]]] := io_first _ (Hok Hi); exists d0.
  have Hd : List.In d0 (it_D i) by rewrite ED; left.
  have Hin : List.In d0 (List.filter (fun d => ~~ cd_eliminated d) out).
    rewrite (co_ordinary _ _ Hout); apply/List.filter_In; move/List.filter_In: Hd => [H1 H2]; split=> //.
    apply/List.in_concat; exists (it_ds i); split=> //; exact: List.in_map.
  split; first by move/List.filter_In: Hin => [].
  by rewrite /Jpi_data Eel.
Qed.
End System.
