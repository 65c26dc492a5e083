(** The refined grid of unresolved systems as a whole, the grids of resolved systems, and the
    Reconstructor. *)
From Coq Require Import String List ZArith Reals Lra Lia Permutation Bool Psatz Sorted.
From Verif Require Import Outcome QuantumModel HardSphereModel KinematicsModel CoulombModel Cplx RMatrixModel
  ChannelModel SpinGroupModel BreitWignerModel LegacyModel UnresolvedModel ListFacts QuantumSpec GridModel GridSpec GridProofs.
Import ListNotations.
Open Scope R_scope.

(** Consecutive energies, and what is put in between *)
Definition gap (p c : R) (l : list R) : Prop :=
  (0 < p -> Sorted step (p :: l ++ [c]) /\ (forall x, In x l -> decade_point x) /\ (c <= 5/4 * p -> l = [])) /\
  (p <= 0 -> l = []).
Inductive filled : list R -> list R -> Prop :=
| filled_one p : filled [p] [p]
| filled_gap p c r l out : p < c -> gap p c l -> filled (c :: r) (c :: out) -> filled (p :: c :: r) (p :: l ++ c :: out).

Definition zero_start (es : list R) : Prop := In 0 es /\ exists e, In e es /\ 0 < e.

Lemma run_filled r : forall p, increasing (p :: r) -> ~ zero_start (p :: r) ->
  exists n out, filled (p :: r) (p :: out) /\ forall fuel b, state (n + fuel) b p r = Ok (b ++ p :: out).
Proof.
  induction r as [|c r IH]; intros p Hinc Hz.
  - exists 0%nat, []. split; [constructor|]. intros fuel b. apply state_end.
  - apply StronglySorted_inv in Hinc as [Hinc F]. apply Forall_inv in F as Hpc.
    destruct (IH c Hinc) as (n & out & Hf & Hrun).
    { intros [H0 (e & He & Pe)]. apply Hz. split; [right; exact H0|]. exists e. split; [right; exact He | exact Pe]. }
    destruct (Rlt_le_dec 0 p) as [Pp|Np].
    + destruct (fill p c (Logic.conj Pp Hpc)) as (n1 & l & R1 & S1 & D1 & L1).
      exists (n1 + n)%nat, (l ++ c :: out). split.
      * apply filled_gap; [exact Hpc | | exact Hf]. split; [auto | lra].
      * intros fuel b. rewrite <- Nat.add_assoc, R1, Hrun, <- app_assoc. reflexivity.
    + exists (S n), (c :: out). split.
      * apply (filled_gap p c r []); [exact Hpc | | exact Hf]. split; [lra | reflexivity].
      * intros fuel b. change (S n + fuel)%nat with (S (n + fuel)). rewrite state_next; [rewrite Hrun, <- app_assoc; reflexivity|].
        apply compare_not; [exact Hpc|]. left. destruct Np as [|E]; [assumption|]. exfalso. subst p. apply Hz.
        split; [left; reflexivity|]. exists c. split; [right; left; reflexivity | exact Hpc].
Qed.

(** * From the gaps to the properties *)
Definition step' (a b : R) : Prop := a < b /\ (0 < a -> b <= 5/4 * a).
Lemma gap_sorted p c l : p < c -> gap p c l -> Sorted step' (p :: l ++ [c]).
Proof.
  intros H [G1 G2]. destruct (Rlt_le_dec 0 p) as [P|P].
  - destruct (G1 P) as (S & _ & _). clear - S. revert p S. induction l as [|y l IH]; intros p S; cbn [app] in *.
    + apply Sorted_inv in S as [_ S]. apply HdRel_inv in S. unfold step in S.
      constructor; [constructor; [constructor | constructor] | constructor; unfold step'; lra].
    + apply Sorted_inv in S as [S S']. apply HdRel_inv in S'. unfold step in S'.
      constructor; [apply IH, S | constructor; unfold step'; lra].
  - rewrite (G2 P). cbn. constructor; [constructor; [constructor | constructor] | constructor; unfold step'; lra].
Qed.
Lemma sorted_join' l : forall (p c : R) r, Sorted step' (p :: l ++ [c]) -> Sorted step' (c :: r) -> Sorted step' (p :: l ++ c :: r).
Proof.
  induction l as [|y l IH]; intros p c r H H'; cbn [app] in *.
  - apply Sorted_inv in H as [_ H]. apply HdRel_inv in H. constructor; [exact H' | constructor; exact H].
  - apply Sorted_inv in H as [S H]. apply HdRel_inv in H. constructor; [apply IH; assumption | constructor; exact H].
Qed.
Lemma filled_sorted es out : filled es out -> Sorted step' out.
Proof.
  induction 1 as [p | p c r l out Hpc G F IH]; [constructor; constructor|].
  apply sorted_join'; [apply gap_sorted; assumption | exact IH].
Qed.
Lemma step'_increasing l : Sorted step' l -> increasing l.
Proof.
  intros H. apply Sorted_StronglySorted; [intros x y z; apply Rlt_trans|].
  induction H as [|x l S IH Hd]; constructor; [exact IH|]. destruct Hd; constructor. apply H.
Qed.
Lemma sorted_consecutive (P : R -> R -> Prop) l x y : Sorted P l -> consecutive l x y -> P x y.
Proof.
  intros S (a & b & ->). induction a as [|z a IH]; cbn in S; apply Sorted_inv in S as [S H].
  - apply HdRel_inv in H. exact H.
  - apply IH, S.
Qed.
Lemma filled_keeps es out : filled es out -> forall e, In e es -> In e out.
Proof.
  induction 1 as [p | p c r l out Hpc G F IH]; intros e He; [exact He|].
  destruct He as [<-|He]; [left; reflexivity|]. right. apply in_or_app. right. apply IH, He.
Qed.
Lemma increasing_app l : forall (a b : list R), increasing (a ++ l ++ b) -> increasing l.
Proof.
  intros a b H. induction a as [|x a IH]; cbn in H.
  - induction l as [|y l IHl]; [constructor|]. cbn in H. apply StronglySorted_inv in H as [S F]. constructor; [apply IHl, S|].
    rewrite Forall_forall in *. intros z Hz. apply F. apply in_or_app. left; exact Hz.
  - apply StronglySorted_inv in H as [S _]. apply IH, S.
Qed.
Lemma between p c l : increasing (p :: l ++ [c]) -> forall x, In x l -> p < x < c.
Proof.
  intros H x Hx. apply StronglySorted_inv in H as [S F]. rewrite Forall_forall in F. split; [apply F, in_or_app; left; exact Hx|].
  clear F. induction l as [|y l IH]; [destruct Hx|]. cbn in S. apply StronglySorted_inv in S as [S F]. rewrite Forall_forall in F.
  destruct Hx as [<-|Hx]; [apply F, in_or_app; right; left; reflexivity | apply IH; assumption].
Qed.
Lemma filled_adds es out : filled es out -> increasing es -> forall x, In x out -> In x es \/
  (decade_point x /\ exists p c, In p es /\ In c es /\ 0 < p /\ p < x < c /\ 5/4 * p < c /\ forall e, In e es -> ~ p < e < c).
Proof.
  induction 1 as [p | p c r l out Hpc G F IH]; intros Hinc x Hx; [left; exact Hx|].
  apply StronglySorted_inv in Hinc as [Hinc FA]. rewrite Forall_forall in FA.
  destruct Hx as [<-|Hx]; [left; left; reflexivity|]. apply in_app_or in Hx as [Hx|Hx].
  - right. destruct G as [G1 G2]. destruct (Rlt_le_dec 0 p) as [P|P]; [|rewrite (G2 P) in Hx; destruct Hx].
    destruct (G1 P) as (S & D & L). split; [apply D, Hx|]. exists p, c.
    split; [left; reflexivity|]. split; [right; left; reflexivity|]. split; [exact P|].
    split; [apply (between p c l); [|exact Hx]; apply step'_increasing, gap_sorted; [exact Hpc | split; assumption]|].
    split.
    + apply Rnot_le_lt. intros N. rewrite (L N) in Hx. destruct Hx.
    + intros e He [E1 E2]. apply StronglySorted_inv in Hinc as [_ FC]. rewrite Forall_forall in FC.
      destruct He as [<-|[<-|He]]; [lra | lra | specialize (FC e He); lra].
  - destruct (IH Hinc x Hx) as [H | (D & q & d & Hq & Hd & Pq & Hx' & Hqd & Hno)]; [left; right; exact H|].
    right. split; [exact D|]. exists q, d. split; [right; exact Hq|]. split; [right; exact Hd|]. split; [exact Pq|].
    split; [exact Hx'|]. split; [exact Hqd|]. intros e [<-|He]; [specialize (FA q Hq); lra | apply Hno, He].
Qed.
Lemma filled_refinement es out : filled es out -> increasing es -> refinement es out.
Proof.
  intros F H. constructor.
  - apply step'_increasing, (filled_sorted es out F).
  - apply (filled_keeps es out F).
  - apply (filled_adds es out F H).
  - intros x y C P. apply (sorted_consecutive _ _ _ _ (filled_sorted es out F) C). exact P.
Qed.

(** All the energies of a system *)
Definition system_energies (s : unresolved_system) : list R :=
  concat (map (fun u => map ur_energy (ut_resonances (ug_table u))) (uy_groups s)).
Lemma zero_start_same es es' : (forall x, In x es <-> In x es') -> zero_start es -> zero_start es'.
Proof. intros H [H0 (e & He & P)]. split; [apply H, H0|]. exists e. split; [apply H, He | exact P]. Qed.

Lemma zero_start_dec es : zero_start es \/ ~ zero_start es.
Proof.
  unfold zero_start. destruct (in_dec Req_EM_T 0 es) as [H|H]; [|right; intros [H' _]; contradiction].
  destruct (Exists_dec (fun e => 0 < e) es (fun e => Rlt_dec 0 e)) as [G|G].
  - left. split; [exact H|]. apply Exists_exists in G. exact G.
  - right. intros [_ G']. apply G, Exists_exists, G'.
Qed.
Theorem unresolved_grid s : ~ zero_start (system_energies s) ->
  exists n out, (forall fuel, (n <= fuel)%nat -> unresolvedGrid fuel s = Ok out) /\ refinement (system_energies s) out.
Proof.
  intros Hz. unfold unresolvedGrid. fold (system_energies s).
  destruct (sortUnique_spec (system_energies s)) as [HI HE]. set (g := sortUnique (system_energies s)) in *.
  assert (Hz' : ~ zero_start g) by (intros Z; apply Hz, (zero_start_same g); assumption).
  assert (T : forall out, refinement g out -> refinement (system_energies s) out).
  { intros out [R1 R2 R3 R4]. constructor; [exact R1 | | | exact R4].
    - intros e He. apply R2, HE, He.
    - intros x Hx. destruct (R3 x Hx) as [H | (D & p & c & Hp & Hc & H1 & H2 & H3 & H4)]; [left; apply HE, H|].
      right. split; [exact D|]. exists p, c. split; [apply HE, Hp|]. split; [apply HE, Hc|]. split; [exact H1|]. split; [exact H2|].
      split; [exact H3|]. intros e He. apply H4, HE, He. }
  assert (Same : forall l, increasing l -> (length l <= 1)%nat -> refinement l l).
  { intros l Hl Hlen. constructor; auto. intros x y (a & b & E) _. exfalso. subst l. rewrite app_length in Hlen. cbn in Hlen. lia. }
  destruct g as [|p [|c r]] eqn:Eg.
  - exists 0%nat, []. split; [reflexivity|]. apply T, Same; [exact HI | cbn; lia].
  - exists 0%nat, [p]. split; [reflexivity|]. apply T, Same; [exact HI | cbn; lia].
  - destruct (run_filled (c :: r) p HI Hz') as (n & out & F & Hrun). exists n, (p :: out). split.
    + intros fuel Hf. replace fuel with (n + (fuel - n))%nat by lia. apply (Hrun _ []).
    + apply T, filled_refinement; assumption.
Qed.

(** An energy of zero below others: undefined behaviour *)
Lemma run_zero r : forall p, increasing (p :: r) -> zero_start (p :: r) ->
  exists n, forall fuel b, is_ub (state (n + fuel) b p r).
Proof.
  induction r as [|c r IH]; intros p Hinc [H0 (e & He & Pe)].
  - destruct H0 as [->|[]]. destruct He as [<-|[]]. lra.
  - apply StronglySorted_inv in Hinc as [Hinc F]. rewrite Forall_forall in F. assert (Hpc : p < c) by (apply F; left; reflexivity).
    destruct H0 as [->|H0].
    + exists 1%nat. intros fuel b. apply state_zero. unfold compare_ratio. destruct (Req_EM_T 0 0); [|lra]. destruct (Rlt_dec 0 c); [reflexivity | lra].
    + assert (Np : p < 0) by (apply F, H0).
      destruct (IH c Hinc) as [n Hn]. { split; [exact H0|]. exists e. split; [|exact Pe]. destruct He as [->|He]; [lra | exact He]. }
      exists (S n). intros fuel b. change (S n + fuel)%nat with (S (n + fuel)). rewrite state_next; [apply Hn|]. apply compare_not; [exact Hpc | left; exact Np].
Qed.
Theorem unresolved_grid_zero s : zero_start (system_energies s) ->
  exists n, forall fuel, (n <= fuel)%nat -> is_ub (unresolvedGrid fuel s).
Proof.
  intros Hz. unfold unresolvedGrid. fold (system_energies s).
  destruct (sortUnique_spec (system_energies s)) as [HI HE]. set (g := sortUnique (system_energies s)) in *.
  assert (Hz' : zero_start g) by (apply (zero_start_same (system_energies s)); [intros x; symmetry; apply HE | exact Hz]).
  destruct g as [|p [|c r]] eqn:Eg.
  - destruct Hz' as [[] _].
  - destruct Hz' as [[->|[]] (e & [<-|[]] & P)]. lra.
  - destruct (run_zero (c :: r) p HI Hz') as [n Hn]. exists n. intros fuel Hf. replace fuel with (n + (fuel - n))%nat by lia. apply (Hn _ []).
Qed.

(** * Resolved systems *)
Section Resolved.
Variables (hbar epsilon0 : R) (cwf : nat -> R -> R -> outcome coulomb).

(** The total width of a resonance: sum over the channels of 2 P gamma^2, and the eliminated one *)
Definition has_width (g : group) (r : resonance) (t : R) : Prop :=
  exists ps, Forall2 (fun c p => channelPenetrability hbar epsilon0 cwf c (rs_energy r) = Ok (Some p)) (g_channels g) ps /\
  t = 2 * (rs_eliminated r * rs_eliminated r) + Rsum (map (fun x => 2 * (snd x) * (fst x * fst x)) (combine (rs_widths r) ps)).

Lemma accumulate_sum ws : forall ps t, accumulateWidths t ws ps = t + Rsum (map (fun x => 2 * (snd x) * (fst x * fst x)) (combine ws ps)).
Proof.
  induction ws as [|w ws IH]; intros [|p ps] t; cbn [accumulateWidths combine map]; rewrite ?Rsum_nil; [ring..|].
  rewrite IH, Rsum_cons. cbn [fst snd]. ring.
Qed.
Lemma all_some_Forall2 {A} (l : list (option A)) : forall vs, all_some l = Some vs <-> l = map Some vs.
Proof.
  induction l as [|[a|] l IH]; intros vs.
  - cbn. split; [intros H; injection H as <-; reflexivity | destruct vs; [reflexivity | discriminate]].
  - cbn [all_some]. destruct (all_some l) as [r|].
    + split; [intros H; injection H as <-; cbn; f_equal; apply IH; reflexivity|].
      destruct vs as [|v vs]; [discriminate|]. cbn. intros H. injection H as <- H. apply IH in H. injection H as <-. reflexivity.
    + split; [discriminate|]. destruct vs as [|v vs]; [discriminate|]. cbn. intros H. injection H as _ H. apply IH in H. discriminate.
  - cbn. split; [discriminate | destruct vs; discriminate].
Qed.
Lemma totalWidth_spec g r t : totalWidth hbar epsilon0 cwf g r = Ok (Some t) <-> has_width g r t.
Proof.
  unfold totalWidth, groupPenetrabilities, omap, has_width. split.
  - intros H. apply bind_Ok in H as (o & Ho & H). apply bind_Ok in Ho as (l & Hl & Ho). injection Ho as <-.
    injection H as H. destruct (all_some l) as [ps|] eqn:E; [|discriminate]. apply all_some_Forall2 in E. cbn in H. injection H as <-.
    exists ps. split; [|rewrite accumulate_sum; ring]. apply mapM_Ok in Hl. subst l. clear -Hl.
    revert ps Hl. induction (g_channels g) as [|c cs IH]; intros ps H; destruct ps as [|p ps]; cbn [map] in H.
    + constructor.
    + inversion H.
    + inversion H.
    + inversion H as [|? ? ? ? H1 H2]; subst. constructor; [exact H1 | apply IH, H2].
  - intros (ps & F & ->).
    assert (Hl : mapM (fun c => channelPenetrability hbar epsilon0 cwf c (rs_energy r)) (g_channels g) = Ok (map Some ps)).
    { apply mapM_Ok. clear -F. induction F; constructor; assumption. }
    rewrite Hl. cbn [bind]. replace (all_some (map Some ps)) with (Some ps) by (symmetry; apply all_some_Forall2; reflexivity).
    cbn. rewrite accumulate_sum. do 2 f_equal. ring.
Qed.

(** The points that belong to a resonance *)
Definition point_of (e t x : R) : Prop := x = e - t / 2 \/ x = e \/ x = e + t / 2.
Lemma groupPoints_spec g rs out : groupPoints hbar epsilon0 cwf g rs = Ok (Some out) ->
  (forall r, In r rs -> 0 < rs_energy r -> exists t, has_width g r t) /\
  forall x, In x out <-> exists r t, In r rs /\ 0 < rs_energy r /\ has_width g r t /\ point_of (rs_energy r) t x.
Proof.
  revert out. induction rs as [|r rs IH]; intros out H; cbn [groupPoints] in H.
  - injection H as <-. split; [intros r []|]. intros x. split; [intros [] | intros (r & t & [] & _)].
  - destruct (Rlt_dec 0 (rs_energy r)) as [P|P].
    + apply bind_Ok in H as (ot & Ht & H). apply bind_Ok in H as (ops & Hps & H).
      apply (f_equal (fun o => match o with Ok z => z | _ => None end)) in H. cbv beta iota in H.
      destruct ot as [t|]; [|discriminate]. destruct ops as [ps|]; [|discriminate]. injection H as <-.
      apply totalWidth_spec in Ht. destruct (IH ps Hps) as [I1 I2]. split.
      * intros r' [<-|Hr] Pr; [exists t; exact Ht | apply I1; assumption].
      * intros x. cbn [In]. rewrite I2. split.
        { intros [<-|[<-|[<-|(r' & t' & Hr & Hp & Hw & Hx)]]].
          - exists r, t. repeat split; auto. left. lra.
          - exists r, t. repeat split; auto. right; left. reflexivity.
          - exists r, t. repeat split; auto. right; right. lra.
          - exists r', t'. auto. }
        { intros (r' & t' & [<-|Hr] & Hp & Hw & Hx).
          - assert (t' = t). { apply totalWidth_spec in Hw, Ht. rewrite Hw in Ht. injection Ht as ->. reflexivity. }
            subst t'. destruct Hx as [->|[->| ->]]; [left | right; left | right; right; left]; lra.
          - right; right; right. exists r', t'. auto. }
    + destruct (IH out H) as [I1 I2]. split.
      * intros r' [<-|Hr] Pr; [contradiction | apply I1; assumption].
      * intros x. rewrite I2. split; intros (r' & t' & Hr & Hp & Hw & Hx); exists r', t'; (split; [|auto]); [right; exact Hr|].
        destruct Hr as [<-|Hr]; [contradiction | exact Hr].
Qed.
Theorem group_grid_spec g out : groupGrid hbar epsilon0 cwf g = Ok (Some out) ->
  increasing out /\ forall x, In x out <-> exists r t, In r (t_resonances (g_table g)) /\ 0 < rs_energy r /\ has_width g r t /\ point_of (rs_energy r) t x.
Proof.
  unfold groupGrid, omap. intros H. apply bind_Ok in H as (o & Ho & H). destruct o as [ps|]; [|discriminate]. injection H as <-.
  destruct (sortUnique_spec ps) as [S1 S2]. split; [exact S1|]. intros x. rewrite S2. apply (groupPoints_spec g _ ps Ho).
Qed.
Theorem group_grid_ok g : (forall r, In r (t_resonances (g_table g)) -> 0 < rs_energy r -> exists t, has_width g r t) ->
  exists out, groupGrid hbar epsilon0 cwf g = Ok (Some out).
Proof.
  intros H. unfold groupGrid, omap.
  assert (G : exists ps, groupPoints hbar epsilon0 cwf g (t_resonances (g_table g)) = Ok (Some ps)).
  { induction (t_resonances (g_table g)) as [|r rs IH]; cbn [groupPoints]; [eexists; reflexivity|].
    destruct IH as [ps Hps]; [intros r' Hr; apply H; right; exact Hr|]. destruct (Rlt_dec 0 (rs_energy r)) as [P|P]; [|eexists; exact Hps].
    destruct (H r (or_introl eq_refl) P) as [t Ht]. apply totalWidth_spec in Ht. rewrite Ht, Hps. cbn. eexists; reflexivity. }
  destruct G as [ps ->]. cbn. eexists; reflexivity.
Qed.
Lemma concat_spec {A} (grid : A -> outcome (option (list R))) gs out : concatGrids grid gs = Ok (Some out) ->
  exists gr, Forall2 (fun g x => grid g = Ok (Some x)) gs gr /\ out = concat gr.
Proof.
  revert out. induction gs as [|g gs IH]; intros out H; cbn [concatGrids] in H.
  - injection H as <-. exists []. split; constructor.
  - apply bind_Ok in H as (og & Hg & H). apply bind_Ok in H as (os & Hs & H).
    apply (f_equal (fun o => match o with Ok z => z | _ => None end)) in H. cbv beta iota in H.
    destruct og as [x|]; [|discriminate]. destruct os as [y|]; [|discriminate]. injection H as <-.
    destruct (IH y Hs) as (gr & F & ->). exists (x :: gr). split; [constructor; assumption | reflexivity].
Qed.
Theorem system_grid_spec gs out : systemGrid hbar epsilon0 cwf gs = Ok (Some out) ->
  increasing out /\ forall x, In x out <-> exists g r t, In g gs /\ In r (t_resonances (g_table g)) /\ 0 < rs_energy r /\
    has_width g r t /\ point_of (rs_energy r) t x.
Proof.
  unfold systemGrid, omap. intros H. apply bind_Ok in H as (o & Ho & H). destruct o as [ps|]; [|discriminate]. injection H as <-.
  destruct (sortUnique_spec ps) as [S1 S2]. split; [exact S1|]. intros x. rewrite S2.
  destruct (concat_spec _ _ _ Ho) as (gr & F & ->). clear -F. induction F as [|g y gs gr Hg F IH].
  - cbn. split; [intros [] | intros (g & r & t & [] & _)].
  - cbn [concat]. rewrite in_app_iff, IH. destruct (group_grid_spec g y Hg) as [_ G]. rewrite G. split.
    + intros [(r & t & H) | (g' & r & t & Hg' & H)]; [exists g, r, t; split; [left; reflexivity | exact H] | exists g', r, t; split; [right; exact Hg' | exact H]].
    + intros (g' & r & t & [<-|Hg'] & H); [left; exists r, t; exact H | right; exists g', r, t; split; [exact Hg' | exact H]].
Qed.
End Resolved.

Lemma legacyPoints_spec rs x : In x (legacyPoints rs) <->
  exists r, In r rs /\ 0 < q_energy r /\ point_of (q_energy r) (q_elastic r + q_capture r + q_fission r + q_competition r) x.
Proof.
  induction rs as [|r rs IH]; cbn [legacyPoints]; [split; [intros [] | intros (r & [] & _)]|].
  unfold point_of, legacyTotal in *. destruct (Rlt_dec 0 (q_energy r)) as [P|P]; cbn [In]; rewrite IH; split.
  - intros [<-|[<-|[<-|(r' & Hr & H)]]]; [exists r | exists r | exists r | exists r'; split; [right; exact Hr | exact H]];
      (split; [left; reflexivity|]; split; [exact P|]); [left | right; left | right; right]; lra.
  - intros (r' & [<-|Hr] & Hp & H); [destruct H as [->|[->| ->]]; [left | right; left | right; right; left]; lra|].
    right; right; right. exists r'. auto.
  - intros (r' & Hr & H). exists r'. split; [right; exact Hr | exact H].
  - intros (r' & [<-|Hr] & Hp & H); [contradiction|]. exists r'. auto.
Qed.
Theorem legacy_grid_spec s : increasing (legacySystemGrid s) /\ forall x, In x (legacySystemGrid s) <->
  exists g r, In g (ly_groups s) /\ In r (lg_resonances g) /\ 0 < q_energy r /\
    point_of (q_energy r) (q_elastic r + q_capture r + q_fission r + q_competition r) x.
Proof.
  unfold legacySystemGrid. destruct (sortUnique_spec (concat (map legacyGrid (ly_groups s)))) as [S1 S2].
  split; [exact S1|]. intros x. rewrite S2. clear S1 S2. induction (ly_groups s) as [|g gs IH]; cbn [map concat].
  - split; [intros [] | intros (g & r & [] & _)].
  - rewrite in_app_iff, IH. unfold legacyGrid at 1. rewrite (proj2 (sortUnique_spec (legacyPoints (lg_resonances g)))), legacyPoints_spec. split.
    + intros [(r & H) | (g' & r & Hg & H)]; [exists g, r; split; [left; reflexivity | exact H] | exists g', r; split; [right; exact Hg | exact H]].
    + intros (g' & r & [<-|Hg] & H); [left; exists r; exact H | right; exists g', r; split; [exact Hg | exact H]].
Qed.
Theorem legacy_group_grid_spec g : increasing (legacyGrid g) /\ forall x, In x (legacyGrid g) <->
  exists r, In r (lg_resonances g) /\ 0 < q_energy r /\
    point_of (q_energy r) (q_elastic r + q_capture r + q_fission r + q_competition r) x.
Proof.
  unfold legacyGrid. destruct (sortUnique_spec (legacyPoints (lg_resonances g))) as [S1 S2].
  split; [exact S1|]. intros x. rewrite S2. apply legacyPoints_spec.
Qed.

(** * The Reconstructor *)
Lemma inside_spec r e : inside r e = true <-> rc_lower r <= e <= rc_upper r.
Proof.
  unfold inside. destruct (Rle_dec (rc_lower r) e), (Rle_dec e (rc_upper r)); cbn; split; intros H; try reflexivity; try discriminate; try lra.
Qed.
Lemma filter_increasing f l : increasing l -> increasing (filter f l).
Proof.
  induction 1 as [|x l S IH F]; cbn [filter]; [constructor|]. destruct (f x); [|exact IH]. constructor; [exact IH|].
  rewrite Forall_forall in *. intros y Hy. apply filter_In in Hy as [Hy _]. apply F, Hy.
Qed.
Theorem reconstructor_grid hbar epsilon0 cwf fuel r out : reconstructorGrid hbar epsilon0 cwf fuel r = Ok (Some out) <->
  exists all, compoundGrid hbar epsilon0 cwf fuel (rc_system r) = Ok (Some all) /\ out = filter (inside r) all.
Proof.
  unfold reconstructorGrid, omap. split.
  - intros H. apply bind_Ok in H as (o & Ho & H). destruct o as [all|]; [|discriminate]. injection H as <-. exists all. auto.
  - intros (all & -> & ->). reflexivity.
Qed.
Theorem reconstruct_outside hbar epsilon0 cwf r e : ~ (rc_lower r <= e <= rc_upper r) ->
  reconstruct hbar epsilon0 cwf r e = Ok (Some (r, Empty)).
Proof.
  intros H. unfold reconstruct. destruct (Rle_dec (rc_lower r) e), (Rle_dec e (rc_upper r)); cbn; try reflexivity. exfalso. apply H. lra.
Qed.
Theorem reconstruct_inside hbar epsilon0 cwf r e : rc_lower r <= e <= rc_upper r ->
  reconstruct hbar epsilon0 cwf r e =
  omap (option_map (fun p => (mkReconstructor (rc_lower r) (rc_upper r) (fst p), snd p))) (evaluateCompound hbar epsilon0 cwf (rc_system r) e).
Proof.
  intros H. unfold reconstruct. destruct (Rle_dec (rc_lower r) e), (Rle_dec e (rc_upper r)); cbn; try reflexivity; lra.
Qed.
