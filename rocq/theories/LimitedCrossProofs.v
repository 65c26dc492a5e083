(** From the lines of an R-Matrix Limited file to the cross sections. *)
From Coq Require Import Reals Lra Lia ZArith String Permutation.
From mathcomp Require Import all_ssreflect all_algebra.
From Verif Require Import Outcome QuantumModel QuantumSpec KinematicsModel CoulombModel Cplx RMatrixModel RMatrixSpec
  KMatrixModel KMatrixSpec ChannelModel SpinGroupModel SpinGroupSpec SpinGroupProofs SpinGroupEvalProofs SpinGroupChannelProofs SpinGroupTheorems SpinGroupSystemProofs ListFacts
  AssemblyModel AssemblySpec AssemblyProofs AssemblyTheorems NewerItems NewerGroup NewerSystem
  EndfModel EndfSpec LimitedSpec LimitedProofs LimitedTheorems LimitedFileSpec LimitedFileProofs LimitedRowProofs LimitedCrossSpec.
Set Implicit Arguments.
Unset Strict Implicit.
Unset Printing Implicit Defensive.
Import GRing.Theory.
Local Open Scope ring_scope.
Local Arguments Rsum : simpl never.

(** * Sums that differ by zeros *)
Lemma sum_subset (F : R -> cx) (l l' : seq R) : List.NoDup l -> List.NoDup l' -> (forall e, List.In e l -> List.In e l') ->
  (forall e, List.In e l' -> ~ List.In e l -> F e = 0) -> \sum_(e <- l) F e = \sum_(e <- l') F e.
Proof.
  move=> N; elim: N l' => [|a {}l Ha N IH] l' N' sub zero.
    rewrite big_nil; elim: l' {N' sub} zero => [|x l' IHl] zero; first by rewrite big_nil.
    by rewrite big_cons zero; [rewrite add0r; apply: IHl => e He; apply: zero; right | left | case].
  have [x [y El]] := List.in_split _ _ (sub a (or_introl erefl)); subst l'.
  have [Nr Na] := List.NoDup_remove _ _ _ N'.
  rewrite big_cons (IH (x ++ y)) //.
  - by rewrite !big_cat /= big_cons addrCA.
  - move=> e He; have := sub e (or_intror He); rewrite !List.in_app_iff /= => -[H|[H|H]]; [by left | | by right].
    by subst e.
  - move=> e He Hn; apply: zero; first by move: He; rewrite !List.in_app_iff /= => -[H|H]; [left | right; right].
    by case=> // Ea; subst e.
Qed.
Lemma R_rows n energy (data : seq channel_data) (l : seq R) vs :
  R_spec n energy (List.map (row_of data) l) vs
  = \matrix_(i, j) \sum_(e <- l) rcx (open_width vs (row_of data e) i * open_width vs (row_of data e) j)%re / denominator energy (row_of data e).
Proof. by apply/matrixP => i j; rewrite !mxE; elim: l => [|e l IH]; rewrite /= ?big_nil // !big_cons IH. Qed.
Lemma nth_zero (A : Type) (F : A -> R) (l : seq A) i : (forall a, List.In a l -> F a = 0%re) -> nth 0%re (List.map F l) i = 0%re.
Proof. by elim: l i => [|a l IH] [|i] H //=; [apply: H; left | apply: IH => x Hx; apply: H; right]. Qed.
Lemma absent_zero n (data : seq channel_data) e vs (i : 'I_n) : (forall d, List.In d data -> look d e = 0%re) -> open_width vs (row_of data e) i = 0%re.
Proof.
  move=> H; rewrite /open_width; case: (isclosed vs i) => //; rewrite /width /row_of /=; apply: nth_zero => d.
  by move/List.filter_In => [Hd _]; apply: H.
Qed.

(** * A system *)
Section System.
Variables (hbar epsilon0 : R) (cwf : nat -> R -> R -> outcome coulomb) (b : boundary_option) (E : R).
(** What each group adds *)
Lemma system_gives gs m gs' m' :
  (forall G, List.In G (List.map (@projT1 _ _) gs) -> exists channels, constructed channels (t_resonances (g_table G)) G) ->
  evaluateSystem hbar epsilon0 cwf b gs E m = Ok (Some (gs', m')) ->
  exists xs : seq (reactionID -> R),
    List.Forall2 (fun G x => exists vs A factor, @evaluated hbar epsilon0 cwf b (t_resonances (g_table G)) G E vs A factor /\ forall k, x k = contribution vs A factor k)
      (List.map (@projT1 _ _) gs) xs /\
    (forall k, odflt 0%re (m' k) = (odflt 0 (m k) + Rsum (List.map (fun x => x k) xs))%re) /\
    (forall k, (forall G, List.In G (List.map (@projT1 _ _) gs) -> ~~ written G k) -> m' k = m k).
Proof.
  elim: gs m gs' m' => [|[G s] gs IH] m gs' m' con /= ev.
    by exists [::]; case: ev => _ <-; split; [constructor | split=> // k; rewrite Rsum_nil Rplus_0_r].
  have [[[s' m1]|] [E1 {}ev]] := bind_Ok _ _ _ ev; last by [].
  have [[[r' m2]|] [E2 {}ev]] := bind_Ok _ _ _ ev; last by [].
  case: ev => _ <-.
  have [channels con0] := con G (or_introl erefl).
  have [vs [A [factor [eva ad]]]] := evaluate_inv con0 E1.
  have [|xs [F [S U]]] := IH _ _ _ _ E2; first by move=> G' HG'; apply: con; right.
  exists ((fun k => contribution vs A factor k) :: xs); split; first by constructor=> //; exists vs, A, factor.
  split=> k; last by move=> H; rewrite U ?ad ?(negbTE (H G (or_introl erefl))) // => G' HG'; apply: H; right.
  rewrite S /= Rsum_cons -Rplus_assoc; congr Rplus; rewrite ad; case W: (written G k) => //=.
  have -> : contribution vs A factor k = 0%re; last by rewrite Rplus_0_r.
  move: W; rewrite /written => /norP [Wc Wh].
  rewrite /contribution big1 ?Rmult_0_r // => c _; rewrite (negbTE Wc) Rplus_0_r big_pred0 // => j.
  apply/negbTE/negP => Q; case/negP: Wh; apply/(has_nthP dummy_channel); exists (j : nat) => //; exact: (ltn_ord j).
Qed.

Variables (nm ec : R) (incident target : string) (products : Z -> outcome (string * string)).
Variables (f : endf_limited) (pairs : seq particlePair) (inc : particlePair) (ds : seq (seq channel_data)) (out : seq channel_data) (gs : seq group).
Hypothesis A : assembled hbar epsilon0 cwf nm ec incident target products f pairs inc ds out gs.
Notation es := (el_pairs f).
Notation pen := (channelPenetrability hbar epsilon0 cwf).
Notation make g := (makeParticleChannelData hbar epsilon0 cwf inc pairs es (negb (el_IFG f =? 0)%Z) g).
Hypothesis Single : forall g, List.In g (el_groups f) -> alone (el_groups f) g.
Hypothesis Distinct : forall g, List.In g (el_groups f) -> List.NoDup (eg_ER g).

(** The R matrix of the table is the one of the lines *)
Lemma table_lines g dg G vs n : List.In g (el_groups f) -> make g = Ok (Some dg) -> made_of out (st g) G ->
  R_spec n E (t_resonances (g_table G)) vs
  = R_spec n E (if Nat.eqb (eg_NRS g) 0 then nil else List.map (fun l => row_of dg (fst l)) (List.combine (eg_ER g) (eg_GAM g))) vs.
Proof.
  move=> Hg Eg [_ _ _ T]; have N := Distinct Hg.
  set T0 := t_resonances (g_table G).
  have Et : T0 = List.map (row_of dg) (List.map rs_energy T0).
    rewrite List.map_map -{1}[T0]List.map_id; apply: List.map_ext_in => r Hr.
    exact: (mine_row _ _ _ _ _ _ _ _ _ _ _ _ _ _ A Single g dg Hg Eg N _ r T Hr).
  set l := List.map fst (List.combine (eg_ER g) (eg_GAM g)).
  have N1 : List.NoDup (List.map rs_energy T0) by apply: increasing_nodup; case: T.
  case: (Nat.eqb_spec (eg_NRS g) 0) => [Z0|NZ].
    have T00 : T0 = nil.
      case ET : T0 => [|r T'] //; have [] // := @present_rows hbar epsilon0 cwf nm ec incident target products f pairs inc ds out gs A Single g dg Hg Eg N _ (rs_energy r) T.
      by rewrite -/T0 ET; left.
    by rewrite T00.
  have -> : List.map (fun l => row_of dg (fst l)) (List.combine (eg_ER g) (eg_GAM g)) = List.map (row_of dg) l by rewrite /l List.map_map.
  rewrite {}Et !R_rows; apply/matrixP => i j; rewrite !mxE; apply: sum_subset => //.
  - exact: listed_nodup N.
  - by move=> e He; have [] := @present_rows hbar epsilon0 cwf nm ec incident target products f pairs inc ds out gs A Single g dg Hg Eg N _ e T He.
  - move=> e _ Ne; rewrite (absent_zero vs i (data:=dg)) ?Rmult_0_l; last first.
      exact: (absent_row _ _ _ _ _ _ _ _ _ _ _ _ _ _ A Single g dg Hg Eg N _ e T Ne).
    by rewrite /rcx -/(0 : cx) mul0r.
Qed.

(** Every group of the file, and what it gives *)
Lemma Rsum_zero (X : Type) (F : X -> R) l : (forall x, List.In x l -> F x = 0%re) -> Rsum (List.map F l) = 0%re.
Proof. by elim: l => [|x l IH] H //=; rewrite Rsum_cons H ?IH ?Rplus_0_l //; [move=> y Hy; apply: H; right | left]. Qed.
Definition share (js : seq Jpi) (xs : seq (reactionID -> R)) (j : Jpi) (k : reactionID) : R :=
  Rsum (List.map (fun p => if Jpi_eqb j p.1 then p.2 k else 0%re) (List.combine js xs)).
Lemma share_out js xs j k : ~ List.In j js -> share js xs j k = 0%re.
Proof.
  rewrite /share => H; apply: Rsum_zero => -[j1 x1] Hin; have H1 := List.in_combine_l _ _ _ _ Hin.
  by case Q: (Jpi_eqb _ _) => //; have Q' := proj1 (Jpi_eqb_spec _ _) Q; subst j; move/H: H1.
Qed.
Lemma share_cons j0 js x0 xs j k : share (j0 :: js) (x0 :: xs) j k = ((if Jpi_eqb j j0 then x0 k else 0) + share js xs j k)%re.
Proof. by rewrite /share /= Rsum_cons. Qed.
Lemma share_in js xs j x k : List.NoDup js -> List.In (j, x) (List.combine js xs) -> share js xs j k = x k.
Proof.
  move=> N; elim: N xs => [|j0 {}js Hj N IH] [|x0 xs] // H; rewrite share_cons; case: H => [[Ej Ex]|H].
    by subst j0 x0; rewrite (proj2 (Jpi_eqb_spec _ _) erefl) share_out ?Rplus_0_r.
  rewrite IH //; case Q: (Jpi_eqb j j0); last by rewrite Rplus_0_l.
  by have Q' := proj1 (Jpi_eqb_spec _ _) Q; subst j0; case: Hj; exact: List.in_combine_l H.
Qed.
Lemma share_sum js xs sts k : List.NoDup sts -> List.length js = List.length xs -> (forall j, List.In j js -> List.In j sts) ->
  Rsum (List.map (fun j => share js xs j k) sts) = Rsum (List.map (fun x => x k) xs).
Proof.
  move=> N; elim: js xs => [|j js IH] [|x xs] // Hl sub.
    by rewrite /= Rsum_nil; apply: Rsum_zero => j _; apply: share_out.
  rewrite (Rsum_ext _ (fun j' => ((if Jpi_eqb j' j then x k else 0) + share js xs j' k)%re)); last by move=> j' _; rewrite share_cons.
  rewrite Rsum_plus [RHS]Rsum_cons IH; [|by case: Hl | by move=> j' H; apply: sub; right].
  congr Rplus; have := sub j (or_introl erefl); elim: N {sub} => [|j0 l Hj N' IHl] // H; rewrite Rsum_cons; case: H => [Ej|H].
    subst j0; rewrite (proj2 (Jpi_eqb_spec _ _) erefl) Rsum_zero ?Rplus_0_r // => j1 H1.
    by case Q: (Jpi_eqb j1 j) => //; have Q' := proj1 (Jpi_eqb_spec _ _) Q; subst j1.
  rewrite IHl //; case Q: (Jpi_eqb j0 j); last by rewrite Rplus_0_l.
  by have Q' := proj1 (Jpi_eqb_spec _ _) Q; subst j0.
Qed.

Lemma state_group js j : reads hbar epsilon0 cwf nm ec incident target products f pairs inc ds -> consolidated (List.concat ds) out ->
  (forall j, List.In j js <-> exists d, List.In d out /\ Jpi_data d = j) -> List.In j js ->
  exists g dg, List.In g (el_groups f) /\ make g = Ok (Some dg) /\ st g = j.
Proof.
  move=> Rd Co J /J [d [Hd <-]].
  have [d' [Hd' Ed]] : exists d', List.In d' (List.concat ds) /\ cd_channel d' = cd_channel d.
    case Q: (cd_eliminated d).
      have [|d' [/List.filter_In [H _] Ed]] := co_channels _ _ Co d; first by apply/List.filter_In.
      by exists d'.
    exists d; split=> //.
    have : List.In d (List.filter (fun d => negb (cd_eliminated d)) (List.concat ds)).
      by rewrite -(co_ordinary _ _ Co); apply/List.filter_In; rewrite Q.
    by move/List.filter_In => [].
  have [dg [Hdg Hd'']] := proj1 (List.in_concat _ _) Hd'.
  have [g [Hg Eg]] : exists g, List.In g (el_groups f) /\ make g = Ok (Some dg).
    by case: Rd => _ [_ F']; exact: (Forall2_right _ _ _ _ F' Hdg).
  exists g, dg; do 2 (split=> //); rewrite -(own_state _ _ _ _ _ _ _ _ _ _ _ _ _ _ A g dg d' Eg Hd'').
  by rewrite /Jpi_data Ed.
Qed.

Theorem limited_cross objects m objects' m' : List.map (@projT1 _ _) objects = gs ->
  evaluateSystem hbar epsilon0 cwf b objects E m = Ok (Some (objects', m')) ->
  exists xs, List.Forall2 (group_gives hbar epsilon0 cwf b E f pairs inc) (el_groups f) xs /\
    (forall k, odflt 0%re (m' k) = (odflt 0 (m k) + Rsum (List.map (fun x => x k) xs))%re) /\
    (forall k, ~ some_reaction f pairs inc k -> m' k = m k).
Proof.
  move=> Eo ev; have [Rd [Ec Em]] := A; have Co := out_consolidated _ _ _ _ _ _ _ _ _ _ _ _ Rd _ Ec.
  have [js [N [J F]]] := system_made_of (co_consistent _ _ Co) Em.
  have con G : List.In G gs -> exists channels, constructed channels (t_resonances (g_table G)) G.
    by move=> HG; have [j [_ [_ ? _ _]]] := Forall2_right _ _ _ _ F HG.
  rewrite -Eo in F con; have [xs [X [S U]]] := system_gives con ev; rewrite Eo in F X U.
  have Ln := L _ _ _ _ _ _ _ _ _ _ _ _ Rd.
  have Lj : List.length js = List.length xs by rewrite (Forall2_len _ _ _ F) (Forall2_len _ _ _ X).
  have Data g : List.In g (el_groups f) -> exists dg, List.In dg ds /\ make g = Ok (Some dg).
    by case: Rd => _ [_ F'] Hg; exact: Forall2_left F' Hg.
  have Back j : List.In j js -> exists g, List.In g (el_groups f) /\ st g = j by move=> Hj; have [g [dg [H1 [_ H2]]]] := state_group Rd Co J Hj; exists g.
  exists (List.map (fun g => share js xs (st g)) (el_groups f)); split; last split.
  - have sub g : List.In g (el_groups f) -> List.In g (el_groups f) by [].
    elim: {1 3 4}(el_groups f) sub => [|g l IH] sub /=; first by constructor.
    constructor; last by apply: IH => g' Hg'; apply: sub; right.
    have Hg := sub g (or_introl erefl); have [dg [_ Eg]] := Data g Hg.
    case: (Classical_Prop.classic (List.In (st g) js)) => Hj.
      have [q Hq] := List.In_nth_error _ _ Hj.
      have [G [HG MG]] := Forall2_nth _ _ _ _ _ F Hq; have [x [Hx [vs [B [factor [eva Hk]]]]]] := Forall2_nth _ _ _ _ _ X HG.
      left; exists G; eexists; exists vs, B, factor; split; last (split; last (split; last split)).
      + have Ech : g_channels G = ordinary_channels dg.
          by rewrite (mo_channels MG) (mine_channels _ _ _ _ _ _ _ _ _ _ _ _ _ _ A Single g dg Hg Eg).
        rewrite Ech; exact: (file_rows _ _ _ _ _ _ Ln g _ dg Eg (Distinct Hg)).
      + by case: (mo_made MG) => ch [t made]; have [first [_ [_ [_ F2]]]] := first_incident_spec made.
      + by case: (mo_made MG) => ch [t made]; have [first [_ [_ [F1 _]]]] := first_incident_spec made.
      + case: eva => e1 [e2 rl]; split=> //; split=> //.
        by move: rl; rewrite /is_RL (@table_lines g dg G vs (gsize G) Hg Eg MG).
      + move=> k; rewrite -Hk; apply: share_in => //.
        by apply: (proj2 (combine_In _ _ _ _)); exists q.
    right; split; last by move=> k; apply: share_out.
    apply: (no_data _ _ _ _ _ _ Ln g _ dg Eg).
    apply: (mine_empty _ _ _ _ _ _ _ _ _ _ _ _ _ _ A Single g dg Hg Eg).
    case Q: (of_Jpi (st g) out) => [|d l'] //; case: Hj; apply/J; exists d.
    by have /of_Jpi_In [] : List.In d (of_Jpi (st g) out) by rewrite Q; left.
  - move=> k; rewrite S; congr Rplus; rewrite List.map_map -(@share_sum js xs (List.map st (el_groups f)) k) //.
    + by rewrite List.map_map.
    + exact: (states_nodup _ _ _ _ _ _ _ _ _ _ _ _ _ _ A Single).
    + by move=> j /Back [g [Hg <-]]; exact: List.in_map.
  - move=> k Hk; apply: U => G HG; apply/negP => W; apply: Hk.
    have [j [Hj MG]] := Forall2_right _ _ _ _ F HG; have [g [Hg Ej]] := Back j Hj; subst j.
    have [dg [_ Eg]] := Data g Hg.
    have Us c : List.In c (g_channels G) -> exists i, used inc pairs es g i c.
      rewrite (mo_channels MG) (mine_channels _ _ _ _ _ _ _ _ _ _ _ _ _ _ A Single g dg Hg Eg) => Hc.
      have [idx [_ [F2 _]]] := file_rows _ _ _ _ _ _ Ln g _ dg Eg (Distinct Hg).
      by have [i [_ Hi]] := Forall2_right _ _ _ _ F2 Hc; exists i.
    have Inc c i : used inc pairs es g i c -> c_incident c = inc by move=> [[e [x [_ [_ []]]]]].
    move: W; rewrite /written => /orP [/eqP Ek|/(has_nthP dummy_channel) [q Hq /eqP Ek]].
      case Ech: (g_channels G) => [|c cs].
        by case: (mo_made MG) => ch [t made]; have [first [_ [_ [_ F2]]]] := first_incident_spec made; rewrite Ech in F2.
      have [|i Hi] := Us c; first by rewrite Ech; left.
      by exists g, i, c; split=> //; split=> //; right; rewrite Ek /capture_id Ech /= (Inc _ _ Hi).
    have [|i Hi] := Us (nth dummy_channel (g_channels G) q); first by rewrite nth_list; apply: List.nth_In; apply/ltP.
    by exists g, i, (nth dummy_channel (g_channels G) q); split=> //; split=> //; left.
Qed.

(** * Which files can be evaluated *)
Lemma system_evaluates objects m : (forall G, List.In G (List.map (@projT1 _ _) objects) ->
    forall s m, exists s' m', @evaluateGroup hbar epsilon0 cwf b G E s m = Ok (Some (s', m'))) ->
  exists objects' m', evaluateSystem hbar epsilon0 cwf b objects E m = Ok (Some (objects', m')).
Proof.
  elim: objects m => [|[G s] l IH] m H /=; first by exists [::], m.
  have [s' [m1 ->]] := H G (or_introl erefl) s m.
  have [|l' [m2 E2]] := IH m1; first by move=> G' HG'; apply: H; right.
  by rewrite /= E2; eexists; eexists.
Qed.
Lemma stored_nonzero ifg c e w gamma : stored pen ifg c e w gamma -> w <> 0%re -> gamma <> 0%re.
Proof.
  move=> [H1 H2] Hw; case: (Z.eq_dec ifg 0) => [Z0|NZ]; last by rewrite H1.
  have [p [_ [_ [H _]]]] := H2 Z0; move=> G; rewrite G Rmult_0_l Rmult_0_r in H.
  by have := Rabs_pos_lt _ Hw; lra.
Qed.
Theorem limited_evaluates objects m : List.map (@projT1 _ _) objects = gs -> (0 < hbar)%re ->
  evaluable hbar E f pairs inc ->
  exists objects' m', evaluateSystem hbar epsilon0 cwf b objects E m = Ok (Some (objects', m')).
Proof.
  move=> Eo hb [Ht Hf Hr]; apply: system_evaluates => G; rewrite Eo => HG.
  have [Rd [Ec Em]] := A; have Co := out_consolidated _ _ _ _ _ _ _ _ _ _ _ _ Rd _ Ec.
  have [js [N [J F]]] := system_made_of (co_consistent _ _ Co) Em.
  have Ln := L _ _ _ _ _ _ _ _ _ _ _ _ Rd.
  have [j [Hj MG]] := Forall2_right _ _ _ _ F HG; have [g [dg [Hg [Eg Ej]]]] := state_group Rd Co J Hj; subst j.
  have Us c : List.In c (g_channels G) -> exists i, used inc pairs es g i c.
    rewrite (mo_channels MG) (mine_channels _ _ _ _ _ _ _ _ _ _ _ _ _ _ A Single g dg Hg Eg) => Hc.
    have [idx [_ [F2 _]]] := file_rows _ _ _ _ _ _ Ln g _ dg Eg (Distinct Hg).
    by have [i [_ Hi]] := Forall2_right _ _ _ _ F2 Hc; exists i.
  have [channels con] := mo_constructed MG.
  have nt : neutral_channels E G by move=> c /Us [i Hi]; exact: Ht Hi.
  have [x Ex] : exists x, channelFactor hbar (first_incident G) E = Some x.
    have [ch [t made]] := mo_made MG; have [first [_ [_ [F1 F2]]]] := first_incident_spec made.
    have [i Hi] := Us _ F2; apply: (Hf g i) => //; move: F1; rewrite /isIncidentChannel => /String.eqb_eq ->.
    by have [[e [y [_ [_ D]]]] _] := Hi; rewrite (de_incident _ _ _ _ _ _ _ D).
  have [vs [Ev [ph _]]] := tame_group epsilon0 cwf b hb nt.
  apply: (evaluate_succeeds con Ev Ex ph) => r Hin.
  case: (Req_EM_T (rs_energy r) E) => Er; [right | by left].
  have Nd := Distinct Hg; have T := mo_table MG.
  have Row := mine_row _ _ _ _ _ _ _ _ _ _ _ _ _ _ A Single g dg Hg Eg Nd _ r T Hin.
  have [d [Hd He]] : exists d, List.In d dg /\ List.In E (cd_energies d).
    apply: (proj1 (mine_energies _ _ _ _ _ _ _ _ _ _ _ _ _ _ A Single g dg Hg Eg Nd E)).
    by case: (T) => _ Te _; apply/Te; rewrite -Er; exact: List.in_map.
  have [Gd _] := group_data _ _ _ _ _ _ Ln g _ dg Eg.
  have [i Gi] := Gd d Hd.
  have [gamma Hent] : exists gamma, List.In (E, gamma) (entries d).
    move: He; rewrite -(fst_entries d (go_consistent _ _ _ _ _ _ _ _ _ _ Gi)) => /List.in_map_iff [[e0 y] [/= Q H]].
    by exists y; rewrite -Q.
  have [w [Gv [Hw _]]] := go_given _ _ _ _ _ _ _ _ _ _ Gi _ _ Hent.
  have [i' [c' [w' [El [At [[NZ [k [row [K1 [K2 K3]]]]] Hw']]]]]] := Hr g i w Hg Gv Hw.
  have [idx [_ [_ [_ [_ Fl]]]]] := file_rows _ _ _ _ _ _ Ln g _ dg Eg Nd.
  have {}Fl := Fl NZ; rewrite (proj2 (Nat.eqb_neq _ _) NZ) in Fl.
  have Hc : List.In (E, row) (List.combine (eg_ER g) (eg_GAM g)) by apply/combine_In; exists k.
  have Lr : line_of pen (el_IFG f) inc pairs es g idx (ordinary_channels dg) E row r.
    rewrite Row Er; move: Fl Hc; elim: (List.combine _ _) => [|[e0 row0] l IH] //= Fl; inversion Fl as [|? ? ? ? F1 F2]; subst.
    by case=> [[Q1 Q2]|H]; [subst; exact: F1 | apply: IH].
  have [w2 [K4 [_ S]]] := li_eliminated _ _ _ _ _ _ _ _ _ _ _ Lr i' c' El At.
  have Ew : w2 = w' by rewrite K3 in K4; case: K4.
  by subst w2; exact: stored_nonzero (S Hw') Hw'.
Qed.
End System.
