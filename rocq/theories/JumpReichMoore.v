(** The older Reich-Moore interface: from one J to the cross sections of a file. *)
From Coq Require Import String List ZArith Reals Lra Lia Bool Permutation.
From Coquelicot Require Import Coquelicot.
From Verif Require Import Outcome SpinFactorModel HardSphereModel KinematicsModel ChannelModel BreitWignerModel ListFacts BreitWignerProofs BreitWignerSystemProofs KMatrixModel KMatrixProofs ReichMooreModel JumpSpec JumpProofs JumpSystem JumpTheorems JumpMatrix.
Import ListNotations.
Open Scope R_scope.

Lemma near_locally x P : near x P -> locally x P.
Proof. intros (a & A & H). exists (mkposreal a A). intros y B. apply H. exact B. Qed.
Lemma four_smooth f x : four f x -> smooth4 f x.
Proof. intros (a & b & c & d & A & B & C & D & N). exists a, b, c, d. repeat (split; [assumption|]). apply near_locally. exact N. Qed.
Lemma root_continuous f x : continuity_pt f x -> continuity_pt (fun e => sqrt (f e)) x.
Proof.
  intros H. assert (Q : forall y, sqrt y = sqrt (Rabs ((y + Rabs y) / 2))).
  { intros y. destruct (Rle_dec 0 y) as [P|P].
    - rewrite (Rabs_pos_eq y P). replace ((y + y) / 2) with y by field. rewrite (Rabs_pos_eq y P). reflexivity.
    - rewrite (Rabs_left y) by lra. replace ((y + - y) / 2) with 0 by field. rewrite Rabs_R0, sqrt_0. apply sqrt_neg_0. lra. }
  apply (continuity_pt_ext (fun e => sqrt (Rabs ((f e + Rabs (f e)) / 2)))); [intros e; symmetry; apply Q|].
  apply c_sqrt. apply c_div; auto with cont.
Qed.
Lemma group_from_in {A} (key : A -> R) l : forall x acc g a, In g (group_from key x acc l) -> In a (fst g :: snd g) -> a = x \/ In a acc \/ In a l.
Proof.
  induction l as [|y l IH]; intros x acc g a G H; cbn [group_from] in G.
  - destruct G as [<-|[]]. cbn [fst snd] in H. destruct H as [<-|H]; [left; reflexivity | right; left; apply in_rev; exact H].
  - destruct (Req_EM_T _ _) as [Q|Q].
    + destruct (IH _ _ _ _ G H) as [->|[K|K]]; [left; reflexivity | destruct K as [<-|K] | ]; cbn; auto.
    + destruct G as [<-|G].
      * cbn [fst snd] in H. destruct H as [<-|H]; [left; reflexivity | right; left; apply in_rev; exact H].
      * destruct (IH _ _ _ _ G H) as [->|[[]|K]]; cbn; auto.
Qed.
Lemma group_by_in {A} (key : A -> R) l g a : In g (group_by key l) -> In a (fst g :: snd g) -> In a l.
Proof. destruct l as [|x l]; [intros []|]. cbn [group_by]. intros G H. destruct (group_from_in _ _ _ _ _ _ G H) as [->|[[]|K]]; cbn; auto. Qed.

Lemma rm_lvalue_smooth lv cr sr E : (forall r, In r (rv_resonances lv) -> 0 <= rm_capture r) -> continuity_pt cr E -> continuity_pt sr E ->
  (exists v, rm_lvalue_call lv E (cr E) (sr E) = Ok (Some v)) -> smooth_outcome (fun e => rm_lvalue_call lv e (cr e) (sr e)) E.
Proof.
  intros Hc Cr Cs [v V]. pose proof V as V0. unfold rm_lvalue_call in V.
  destruct (penetration_continuous (rv_l lv) cr E Cr) as (P & S & CP & CS & HP). { destruct (penetrationShift _ _) as [y| | |]; [exists y; reflexivity | discriminate..]. }
  destruct (phase_continuous (rv_l lv) sr E Cs) as (A & B & CA & CB & HA). { rewrite HP in V. cbn [bind] in V. destruct (phaseShift _ _) as [y| | |]; [exists y; reflexivity | discriminate..]. }
  set (phi := fun e => match phaseShift (Z.of_nat (rv_l lv)) (sr e) with Ok f => f | _ => 0 end).
  assert (Hphi : forall e, phaseShift (Z.of_nat (rv_l lv)) (sr e) = Ok (phi e) /\ sin (phi e) * sin (phi e) = A e /\ sin (2 * phi e) = B e).
  { intros e. destruct (HA e) as (f & F & H). unfold phi. rewrite F. split; [reflexivity | exact H]. }
  set (F := fun g e => rm_Jgroup e (sqrt (P e)) (phi e) (fst g) (fst g :: snd g)).
  set (gs := group_by rm_flagged (rv_resonances lv)) in *.
  assert (Q : forall e, rm_lvalue_call lv e (cr e) (sr e) = Ok (let? xs := all_finite (map (fun g => F g e) gs) in
    let '(s0, s1, s2, s3) := fold_left qadd xs (0, 0, 0, 0) in Some (s1 + ((2 * INR (rv_l lv) + 1) - s3) * 4 * A e, s0 - s1 - s2, s2))).
  { intros e. unfold rm_lvalue_call. rewrite HP. cbn [bind fst snd]. destruct (Hphi e) as (-> & K & _). cbn [bind]. rewrite K. reflexivity. }
  rewrite Q in V0. injection V0 as V0.
  destruct (all_finite (map (fun g => F g E) gs)) as [xs|] eqn:X; [|discriminate].
  destruct (sum4_smooth F gs (fun _ => 0) (fun _ => 0) (fun _ => 0) (fun _ => 0) E) as (a & b & c & d & Ca & Cb & Cc & Cd & L); auto with cont.
  - intros g Hg. destruct (all_finite_each _ _ _ X g Hg) as [y Y]. cbv beta in Y. apply four_smooth. unfold F in *.
    apply (@Jgroup_four P phi (fun e => 1 - 2 * A e) B (fst g) (fst g :: snd g) E).
    + intros r Hr. apply Hc. exact (group_by_in _ _ _ _ Hg Hr).
    + apply root_continuous. exact CP.
    + auto with cont.
    + exact CB.
    + intros e. destruct (Hphi e) as (_ & K & _). rewrite cos_2a_sin, <- K. ring.
    + intros e. apply Hphi.
    + unfold rm_Jgroup in Y. destruct (rm_sum _ _ _ _ _) as [[K b]|] eqn:S0; [|discriminate]. apply rm_sum_value in S0. apply S0.
    + rewrite Y. discriminate.
  - exists (fun e => Some (b e + ((2 * INR (rv_l lv) + 1) - d e) * 4 * A e, a e - b e - c e, c e)). split.
    + exists (fun e => b e + ((2 * INR (rv_l lv) + 1) - d e) * 4 * A e), (fun e => a e - b e - c e), c.
      split; [auto 20 with cont|]. split; [auto 20 with cont|]. split; [exact Cc|]. apply everywhere. reflexivity.
    + revert L. apply filter_imp. intros e H. rewrite Q. destruct (all_finite (map (fun g => F g e) gs)) as [ys|]; [|discriminate]. injection H as ->. reflexivity.
Qed.

Section System.
Variable C : R.
Lemma rm_no_jump s E : (forall lv r, In lv (rt_lvalues s) -> In r (rv_resonances lv) -> 0 <= rm_capture r) -> settled (rt_channel s) E -> settled (rt_scattering s) E ->
  (exists t, rm_evaluate C s E = Ok (Some t)) -> no_jump (rm_evaluate C s) E.
Proof.
  intros HG Hc Hs [t T]. apply smooth_no_jump. unfold rm_evaluate in T.
  destruct (settled_smooth _ _ Hc) as (a & Ca & La). destruct (settled_smooth _ _ Hs) as (b & Cb & Lb).
  set (k := waveNumberOld C (rt_ratio s)) in *. assert (Ck : continuity_pt k E) by apply wave_continuous.
  rewrite (near_at _ _ La) in T. cbn [bind] in T. rewrite (near_at _ _ Lb) in T. cbn [bind] in T.
  set (F := fun lv e => let '(c, p) := inspect (rt_tag s) (k e) (k e * a e) (k e * b e) (rv_ap lv) in rm_lvalue_call lv e c p) in *.
  change (bind (mapM (fun lv => F lv E) (rt_lvalues s)) (fun xs => Ok (let? xs := all_finite xs in let? scaling := fdiv pi_value (k E * k E) in Some (tmul (taccumulate xs (0, 0, 0)) scaling))) = Ok (Some t)) in T.
  destruct (mapM (fun lv => F lv E) (rt_lvalues s)) as [xs| | |] eqn:M; try discriminate. cbn [bind] in T.
  destruct (all_finite xs) as [ys|] eqn:Y; [|discriminate]. destruct (fdiv _ _) as [fd|] eqn:FD; [|discriminate]. pose proof (fdiv_some _ _ _ FD) as N.
  destruct (all_smooth F (rt_lvalues s) E) as (hs & Sh & Lh).
  { intros lv Hlv. destruct (mapM_each _ _ _ M lv Hlv) as (o & O & Oin). destruct (all_finite_in _ _ Y o Oin) as (v & ->). cbv beta in O.
    assert (I : exists cr sr, continuity_pt cr E /\ continuity_pt sr E /\ forall e, inspect (rt_tag s) (k e) (k e * a e) (k e * b e) (rv_ap lv) = (cr e, sr e)).
    { assert (K0 : continuity_pt (fun e => k e * a e) E) by auto with cont. assert (K1 : continuity_pt (fun e => k e * b e) E) by auto with cont.
      assert (K2 : forall r, continuity_pt (fun e => k e * r) E) by (intros r; auto with cont).
      unfold inspect. destruct (rt_tag s); destruct (rv_ap lv) as [r|];
        first [exists (fun e => k e * a e), (fun e => k e * b e); split; [exact K0|]; split; [exact K1|]; reflexivity
              | exists (fun e => k e * r), (fun e => k e * r); split; [exact (K2 r)|]; split; [exact (K2 r)|]; reflexivity
              | exists (fun e => k e * a e), (fun e => k e * r); split; [exact K0|]; split; [exact (K2 r)|]; reflexivity
              | exists (fun e => k e * r), (fun e => k e * b e); split; [exact (K2 r)|]; split; [exact K1|]; reflexivity]. }
    destruct I as (cr & sr & I1 & I2 & I3).
    assert (FF : forall e, F lv e = rm_lvalue_call lv e (cr e) (sr e)). { intros e. unfold F. rewrite I3. reflexivity. }
    rewrite FF in O. destruct (rm_lvalue_smooth lv cr sr E (fun r => HG lv r Hlv) I1 I2 (ex_intro _ v O)) as (h & Sm & Lm).
    exists h. split; [exact Sm|]. revert Lm. apply filter_imp. intros e K. rewrite FF. exact K. }
  destruct (sum_smooth (fun h e => h e) hs (fun _ => 0) (fun _ => 0) (fun _ => 0) E Sh) as (u & v & w & Cu & Cv & Cw & L); auto with cont.
  set (f := fun e => pi_value / (k e * k e)). assert (Cf : continuity_pt f E) by (apply c_div; auto with cont).
  exists (fun e => Some (u e * f e, v e * f e, w e * f e)). split.
  - exists (fun e => u e * f e), (fun e => v e * f e), (fun e => w e * f e). split; [auto with cont|]. split; [auto with cont|]. split; [auto with cont|]. apply everywhere. reflexivity.
  - pose proof (near_not_zero (fun e => k e * k e) E (c_mult _ _ _ Ck Ck) N) as Nk.
    pose proof (filter_and _ _ La (filter_and _ _ Lb (filter_and _ _ Lh (filter_and _ _ L Nk)))) as All. revert All. apply filter_imp. intros e (A1 & A2 & A3 & A4 & A5).
    unfold rm_evaluate. rewrite A1. cbn [bind]. rewrite A2. cbn [bind]. fold k.
    change (bind (mapM (fun lv => F lv e) (rt_lvalues s)) (fun xs => Ok (let? xs := all_finite xs in let? scaling := fdiv pi_value (k e * k e) in Some (tmul (taccumulate xs (0, 0, 0)) scaling))) = Ok (Some (u e * f e, v e * f e, w e * f e))).
    rewrite A3. cbn [bind]. change (map _ hs) with (map (fun x : R -> option triple => x e) hs). cbv beta in A4.
    destruct (all_finite (map (fun x : R -> option triple => x e) hs)) as [zs|]; [|discriminate A4]. rewrite (fdiv_ok _ _ A5). injection A4 as ->. reflexivity.
Qed.

(** The capture widths of a system are those of its file, and the radii are given *)
Variable sort : list rm_resonance -> list rm_resonance.
Hypothesis Hsort : sorts rm_flagged sort.
Lemma lvalue_captures SPI k r useAPL ls lv : rm_build_lvalue SPI k r useAPL ls = Ok lv -> forall x, In x (rv_resonances lv) -> exists y, In y (rs_lines ls) /\ rm_capture x = rl_GG y.
Proof.
  unfold rm_build_lvalue. destruct (4 <? rs_L ls)%nat; [discriminate|]. intros H. apply bind_Ok in H as (rs & M & H). injection H as <-. cbn [rv_resonances].
  revert rs M. induction (rs_lines ls) as [|y l IH]; intros rs M x X; cbn [mapM] in M; [injection M as <-; destruct X|].
  apply bind_Ok in M as (z & Z & M). apply bind_Ok in M as (zs & Zs & M). injection M as <-. destruct X as [<-|X].
  - exists y. split; [left; reflexivity|]. unfold rm_build_resonance in Z. apply bind_Ok in Z as (q & _ & Z). apply bind_Ok in Z as (ps & _ & Z). injection Z as <-. reflexivity.
  - destruct (IH _ Zs x X) as (w & W & K). exists w. split; [right; exact W | exact K].
Qed.
Lemma build_captures f tag ch sc use s : rm_build C sort f tag ch sc use = Ok s ->
  rt_channel s = ch /\ rt_scattering s = sc /\ forall lv x, In lv (rt_lvalues s) -> In x (rv_resonances lv) -> exists ls y, In ls (rf_lstates f) /\ In y (rs_lines ls) /\ rm_capture x = rl_GG y.
Proof.
  unfold rm_build. destruct (rf_lstates f) as [|first rest] eqn:LS; [discriminate|]. rewrite <- LS. clear LS. intros H. apply bind_Ok in H as (lvs & M & H). injection H as <-. cbn [rt_channel rt_scattering rt_lvalues].
  split; [reflexivity|]. split; [reflexivity|]. intros lv x Hlv Hx. unfold rm_order in Hlv. apply in_map_iff in Hlv as (lv0 & <- & L0). cbn [rv_resonances] in Hx.
  apply (Permutation_in _ (Permutation_sym (proj1 (Hsort _)))) in Hx.
  revert lvs M L0. induction (rf_lstates f) as [|ls l IH]; intros lvs M L0; cbn [mapM] in M; [injection M as <-; destruct L0|].
  apply bind_Ok in M as (z & Z & M). apply bind_Ok in M as (zs & Zs & M). injection M as <-. destruct L0 as [<-|L0].
  - destruct (lvalue_captures _ _ _ _ _ _ Z x Hx) as (y & Y & K). exists ls, y. split; [left; reflexivity | split; assumption].
  - destruct (IH _ Zs L0) as (ls' & y & A & B). exists ls', y. split; [right; exact A | exact B].
Qed.
Theorem rm_file_no_jump f NRO NAPS table s E t : (forall ls x, In ls (rf_lstates f) -> In x (rs_lines ls) -> 0 <= rl_GG x) -> steady_radii table ->
  rm_apply C sort f NRO NAPS table = Ok s -> rm_evaluate C s E = Ok (Some t) -> no_jump (rm_evaluate C s) E.
Proof.
  intros HG HT A V.
  assert (B : exists tag ch sc use, (forall e, settled ch e) /\ (forall e, settled sc e) /\ rm_build C sort f tag ch sc use = Ok s).
  { unfold rm_apply in A. cbv zeta in A.
    match type of A with (match ?o with Ok _ => _ | _ => _ end) = _ => assert (A' : o = Ok s) by (destruct o; [exact A | discriminate | exact A | exact A]) end. clear A.
    destruct NRO; (destruct (NAPS =? 0)%Z; [|destruct (NAPS =? 1)%Z; [|try destruct (NAPS =? 2)%Z; try discriminate]]).
    - apply bind_Ok in A' as (a & Ha & A'). apply bind_Ok in A' as (q & Q & A'). destruct table as [u|]; [|discriminate]. injection Q as <-. destruct (rf_lstates f); [discriminate|]. injection Ha as <-.
      do 4 eexists. split; [|split; [|exact A']]; [apply fixed_settled | apply (HT u eq_refl)].
    - apply bind_Ok in A' as (q & Q & A'). destruct table as [u|]; [|discriminate]. injection Q as <-. do 4 eexists. split; [|split; [|exact A']]; apply (HT u eq_refl).
    - apply bind_Ok in A' as (q & Q & A'). destruct table as [u|]; [|discriminate]. injection Q as <-. do 4 eexists. split; [|split; [|exact A']]; [apply fixed_settled | apply (HT u eq_refl)].
    - apply bind_Ok in A' as (a & Ha & A'). destruct (rf_lstates f); [discriminate|]. injection Ha as <-. do 4 eexists. split; [|split; [|exact A']]; apply fixed_settled.
    - do 4 eexists. split; [|split; [|exact A']]; apply fixed_settled. }
  destruct B as (tag & ch & sc & use & S1 & S2 & B). destruct (build_captures _ _ _ _ _ _ B) as (R1 & R2 & R3).
  apply rm_no_jump; [|rewrite R1; apply S1 | rewrite R2; apply S2 | exists t; exact V].
  intros lv r Hlv Hr. destruct (R3 lv r Hlv Hr) as (ls & y & H1 & H2 & ->). exact (HG ls y H1 H2).
Qed.
End System.
