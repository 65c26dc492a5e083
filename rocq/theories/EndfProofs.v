(** R-Matrix Limited parameters. *)
From Coq Require Import String List ZArith Reals Bool Lra Lia.
From Verif Require Import Outcome QuantumModel HardSphereModel KinematicsModel CoulombModel RMatrixModel ChannelModel SpinGroupModel
  BreitWignerModel UnresolvedModel ListFacts AssemblyModel AssemblySpec AssemblyProofs AssemblyTheorems EndfModel EndfSpec.
Import ListNotations.
Open Scope R_scope.

(** * Positions *)
Lemma find_index_first {A} (f : A -> bool) l : (exists x, In x l /\ f x = true) ->
  exists a x b, l = a ++ x :: b /\ f x = true /\ length a = find_index f l /\ forall y, In y a -> f y = false.
Proof.
  induction l as [|y l IH]; intros (x & Hx & Fx); [destruct Hx|]. cbn [find_index]. destruct (f y) eqn:Fy.
  - exists [], y, l. split; [reflexivity|]. split; [exact Fy|]. split; [reflexivity | intros z []].
  - destruct IH as (a & z & b & E & Fz & L & N). { destruct Hx as [<-|Hx]; [congruence|]. exists x. auto. }
    exists (y :: a), z, b. split; [rewrite E; reflexivity|]. split; [exact Fz|]. split; [cbn; rewrite L; reflexivity|].
    intros w [<-|Hw]; [exact Fy | exact (N w Hw)].
Qed.
Lemma find_index_last {A} (f : A -> bool) l : (forall x, In x l -> f x = false) -> find_index f l = length l.
Proof.
  induction l as [|x l IH]; intros H; cbn [find_index length]; [reflexivity|]. rewrite (H x (or_introl eq_refl)). f_equal. apply IH. intros y Hy. apply H. right. exact Hy.
Qed.
Lemma find_pair mts mt : (In mt mts -> first_at mt mts (findParticlePairForReaction mts mt)) /\
  (~ In mt mts -> findParticlePairForReaction mts mt = length mts).
Proof.
  unfold findParticlePairForReaction. split; intros H.
  - destruct (find_index_first (fun x => (mt =? x)%Z) mts) as (a & x & b & E & F & L & N); [exists mt; split; [exact H | apply Z.eqb_refl]|].
    apply Z.eqb_eq in F. subst x. exists a, b. split; [exact E|]. split; [exact L|]. intros Q. specialize (N mt Q). rewrite Z.eqb_refl in N. discriminate.
  - apply find_index_last. intros x Hx. apply Z.eqb_neq. intros ->. contradiction.
Qed.

(** * Types *)
Lemma channelType_kind mt pr : kind mt (p_charge (pp_particle pr)) (channelType mt pr).
Proof.
  unfold kind, channelType. destruct (Z.eqb_spec mt 102) as [->|N]; [left; auto|].
  destruct (existsb (Z.eqb mt) [18; 19; 20; 21; 38]%Z) eqn:E.
  - apply existsb_exists in E as (x & Hx & Q). apply Z.eqb_eq in Q. subst x. auto.
  - assert (K : ~ In mt [18; 19; 20; 21; 38]%Z).
    { intros Q. rewrite <- not_true_iff_false in E. apply E. apply existsb_exists. exists mt. split; [exact Q | apply Z.eqb_refl]. }
    destruct (Rlt_dec 0 (p_charge (pp_particle pr))); auto 10.
Qed.
Lemma kind_unique mt x t t' : kind mt x t -> kind mt x t' -> t = t'.
Proof.
  assert (N : ~ In 102%Z [18; 19; 20; 21; 38]%Z) by (cbn; lia).
  intros [(A & ->)|[(A & ->)|[(A & B & C & ->)|(A & B & C & ->)]]] [(A' & ->)|[(A' & ->)|[(A' & B' & C' & ->)|(A' & B' & C' & ->)]]];
    first [reflexivity | contradiction | exfalso; rewrite A in *; contradiction | exfalso; rewrite A' in *; contradiction].
Qed.
Lemma parity_spec spin parity : parity_of spin parity (endfParity spin parity).
Proof.
  unfold parity_of, endfParity. destruct (Z.eqb_spec spin 0); destruct (Z.leb_spec 0 parity); destruct (Z.ltb_spec 0 spin); repeat split; intros; lia.
Qed.

(** * Channels *)
Lemma pair_at_Ok {A} (l : list A) i x : pair_at l i = Ok x <-> exists n, i = S n /\ nth_error l n = Some x.
Proof.
  destruct i as [|n]; cbn [pair_at]; [split; [discriminate | intros (n & Q & _); discriminate]|].
  unfold at_or_ub. split.
  - intros H. exists n. split; [reflexivity|]. destruct (nth_error l n); [injection H as ->; reflexivity | discriminate].
  - intros (m & Q & H). injection Q as <-. rewrite H. reflexivity.
Qed.
Lemma pair_at_UB {A} (l : list A) i : ~ (1 <= i <= length l)%nat -> pair_at l i = UB "operator[] past the end".
Proof.
  destruct i as [|n]; cbn [pair_at]; [reflexivity|]. intros H. unfold at_or_ub. replace (nth_error l n) with (@None A); [reflexivity|].
  symmetry. apply nth_error_None. lia.
Qed.
Lemma makeEndfChannel_ok inc pairs es g e mt : length pairs = length es -> valid_number es e ->
  exists c, makeEndfChannel inc pairs es g (e, mt) = Ok c /\ described inc pairs es g e mt c.
Proof.
  intros L [V1 V2]. unfold makeEndfChannel. destruct (ec_PPI e) as [|n] eqn:P; [lia|].
  destruct (nth_error pairs n) as [pr|] eqn:Epr; [|apply nth_error_None in Epr; lia].
  destruct (nth_error es n) as [x|] eqn:Ex; [|apply nth_error_None in Ex; lia].
  assert (Eq : nth_error (map ep_Q es) n = Some (ep_Q x)) by (rewrite nth_error_map, Ex; reflexivity).
  cbn [pair_at]. unfold at_or_ub. rewrite Epr, Eq. cbn [bind]. eexists. split; [reflexivity|].
  constructor; unfold makeChannel; cbn [c_pair c_q c_type c_incident c_numbers c_radii c_boundary c_id c_reaction ql qs qJ qp radii2 r_P r_S r_phi].
  - exists n. auto.
  - exists n, x. auto.
  - apply channelType_kind.
  - reflexivity.
  - reflexivity.
  - reflexivity.
  - reflexivity.
  - apply parity_spec.
  - reflexivity.
  - reflexivity.
  - reflexivity.
  - reflexivity.
  - reflexivity.
  - reflexivity.
Qed.
Lemma makeEndfChannel_UB inc pairs es g e mt : length pairs = length es -> ~ valid_number es e ->
  makeEndfChannel inc pairs es g (e, mt) = UB "operator[] past the end".
Proof. intros L V. unfold makeEndfChannel. rewrite pair_at_UB; [reflexivity|]. rewrite L. exact V. Qed.

Lemma mapM_or {A B} (f : A -> outcome B) w l : (forall x, In x l -> (exists y, f x = Ok y) \/ f x = UB w) ->
  (exists ys, mapM f l = Ok ys) \/ (mapM f l = UB w /\ exists x, In x l /\ f x = UB w).
Proof.
  induction l as [|x l IH]; intros H; cbn [mapM]; [left; exists []; reflexivity|].
  destruct (H x (or_introl eq_refl)) as [[y Hy]|Hy]; rewrite Hy; cbn [bind].
  - destruct IH as [[ys E]|[E (z & Hz & Fz)]]; [intros z Hz; apply H; right; exact Hz| |]; rewrite E; cbn [bind].
    + left. eexists. reflexivity.
    + right. split; [reflexivity|]. exists z. split; [right; exact Hz | exact Fz].
  - right. split; [reflexivity|]. exists x. split; [left; reflexivity | exact Hy].
Qed.
Lemma mapM_some {A B} (f : A -> outcome B) (Q : A -> B -> Prop) l : (forall x, In x l -> exists y, f x = Ok y /\ Q x y) ->
  exists ys, mapM f l = Ok ys /\ Forall2 Q l ys.
Proof.
  induction l as [|x l IH]; intros H; cbn [mapM]; [exists []; split; [reflexivity | constructor]|].
  destruct (H x (or_introl eq_refl)) as (y & Hy & Qy). destruct IH as (ys & E & F); [intros z Hz; apply H; right; exact Hz|].
  rewrite Hy, E. exists (y :: ys). split; [reflexivity | constructor; assumption].
Qed.

Lemma combine_firstn_l' {A B} (l : list A) (m : list B) : combine (firstn (length m) l) m = combine l m.
Proof. revert m. induction l as [|x l IH]; intros [|y m]; cbn; try reflexivity. f_equal. apply IH. Qed.
Lemma nth_combine {A B} (l : list A) (m : list B) i x y : nth_error l i = Some x -> nth_error m i = Some y -> nth_error (combine l m) i = Some (x, y).
Proof.
  revert m i. induction l as [|a l IH]; intros [|b m] [|i] H1 H2; cbn in *; try discriminate.
  - injection H1 as ->. injection H2 as ->. reflexivity.
  - exact (IH m i H1 H2).
Qed.
(** What the function does: types by position, as many channels as the shorter list *)
Theorem channels_positional inc pairs es g : length pairs = length es ->
  ((forall e, In e (firstn (length es) (eg_channels g)) -> valid_number es e) ->
     exists cs, makeParticleChannels inc pairs es g = Ok cs /\
       Forall2 (fun p c => described inc pairs es g (fst p) (snd p) c) (combine (eg_channels g) (map ep_MT es)) cs) /\
  (~ (forall e, In e (firstn (length es) (eg_channels g)) -> valid_number es e) ->
     makeParticleChannels inc pairs es g = UB "operator[] past the end").
Proof.
  intros L. unfold makeParticleChannels. rewrite L. replace (firstn (length es) (eg_channels g)) with (firstn (length (map ep_MT es)) (eg_channels g)) by (rewrite map_length; reflexivity). rewrite combine_firstn_l'. split; intros V.
  - apply mapM_some. intros [e mt] He. apply makeEndfChannel_ok; [exact L|]. apply V.
    rewrite <- (combine_firstn_l' (eg_channels g)) in He. apply in_combine_l in He. exact He.
  - destruct (mapM_or (makeEndfChannel inc pairs es g) "operator[] past the end" (combine (eg_channels g) (map ep_MT es))) as [[ys E]|[E _]]; [|exfalso|exact E].
    + intros [e mt] _. destruct (le_lt_dec 1 (ec_PPI e)) as [A|A]; [destruct (le_lt_dec (ec_PPI e) (length es)) as [B|B]|].
      * left. destruct (makeEndfChannel_ok inc pairs es g e mt L (Logic.conj A B)) as (c & Ec & _). exists c. exact Ec.
      * right. apply makeEndfChannel_UB; [exact L|]. intros [_ Q]. lia.
      * right. apply makeEndfChannel_UB; [exact L|]. intros [Q _]. lia.
    + apply V. intros e He. apply mapM_Ok in E.
      assert (G : exists mt, In (e, mt) (combine (eg_channels g) (map ep_MT es))).
      { rewrite <- (combine_firstn_l' (eg_channels g)). apply In_nth_error in He as (i & Hi).
        assert (Hl : (i < length (map ep_MT es))%nat).
        { assert (Q : (i < length (firstn (length (map ep_MT es)) (eg_channels g)))%nat) by (apply nth_error_Some; congruence). rewrite firstn_length in Q. lia. }
        destruct (nth_error (map ep_MT es) i) as [mt|] eqn:Em; [|apply nth_error_None in Em; lia]. exists mt.
        apply (nth_error_In _ i). apply nth_combine; assumption. }
      destruct G as (mt & G). assert (K : exists c, makeEndfChannel inc pairs es g (e, mt) = Ok c).
      { clear -E G. induction E as [|x y l ys H _ IH]; [destruct G|]. destruct G as [->|G]; [exists y; exact H | exact (IH G)]. }
      destruct K as (c & K). destruct (le_lt_dec 1 (ec_PPI e)) as [A|A]; [destruct (le_lt_dec (ec_PPI e) (length es)) as [B|B]|]; [split; assumption| |].
      * rewrite makeEndfChannel_UB in K; [discriminate | exact L | intros [_ Q]; lia].
      * rewrite makeEndfChannel_UB in K; [discriminate | exact L | intros [Q _]; lia].
Qed.

Lemma described_pair inc pairs es g e mt mt' c c' : described inc pairs es g e mt c -> described inc pairs es g e mt' c' -> c_pair c = c_pair c'.
Proof.
  intros [(n & E & H) _ _ _ _ _ _ _ _ _ _ _ _ _] [(n' & E' & H') _ _ _ _ _ _ _ _ _ _ _ _ _]. rewrite E in E'. injection E' as <-. congruence.
Qed.
(** When this is what the file means *)
Theorem channels_right inc pairs es g cs : length pairs = length es -> makeParticleChannels inc pairs es g = Ok cs ->
  (forall e, In e (eg_channels g) -> valid_number es e) ->
  (Forall2 (fun e c => exists mt, own_mt es e mt /\ described inc pairs es g e mt c) (eg_channels g) cs <->
   (length (eg_channels g) <= length es)%nat /\
   forall i e x pr mt t, nth_error (eg_channels g) i = Some e -> nth_error es i = Some x ->
     nth_error pairs (ec_PPI e - 1) = Some pr -> own_mt es e mt ->
     kind (ep_MT x) (p_charge (pp_particle pr)) t <-> kind mt (p_charge (pp_particle pr)) t).
Proof.
  intros L H V. destruct (channels_positional inc pairs es g L) as [P _].
  destruct P as (cs' & E & F); [intros e He; apply V; rewrite <- (firstn_skipn (length es)); apply in_or_app; left; exact He|]. rewrite H in E. injection E as <-.
  split.
  - intros G. assert (Lc : length (eg_channels g) = length (combine (eg_channels g) (map ep_MT es))).
    { rewrite (Forall2_len _ _ _ G). symmetry. exact (Forall2_len _ _ _ F). }
    split; [rewrite combine_length, map_length in Lc; lia|]. intros i e x pr mt t He Hx Hp Ho.
    destruct (Forall2_nth _ _ _ i e G He) as (c & Hc & mt' & Ho' & Dc).
    assert (Hpair : nth_error (combine (eg_channels g) (map ep_MT es)) i = Some (e, ep_MT x)).
    { apply nth_combine; [exact He | rewrite nth_error_map, Hx; reflexivity]. }
    destruct (Forall2_nth _ _ _ i _ F Hpair) as (c' & Hc' & Dc'). rewrite Hc in Hc'. injection Hc' as <-. cbn [fst snd] in Dc'.
    assert (mt' = mt) as ->. { destruct Ho as (n & y & A1 & A2 & A3), Ho' as (n' & y' & B1 & B2 & B3). rewrite A1 in B1. injection B1 as <-. congruence. }
    assert (Epr : c_pair c = pr). { destruct (de_pair _ _ _ _ _ _ _ Dc) as (n & A1 & A2). rewrite A1 in Hp. cbn [Nat.sub] in Hp. rewrite Nat.sub_0_r in Hp. congruence. }
    pose proof (de_type _ _ _ _ _ _ _ Dc) as K1. pose proof (de_type _ _ _ _ _ _ _ Dc') as K2. rewrite Epr in K1, K2.
    split; intros Kt; [rewrite (kind_unique _ _ _ _ Kt K2); exact K1 | rewrite (kind_unique _ _ _ _ Kt K1); exact K2].
  - intros [Le K].
    assert (G : forall i e c, nth_error (eg_channels g) i = Some e -> nth_error cs i = Some c -> exists mt, own_mt es e mt /\ described inc pairs es g e mt c).
    { intros i e c He Hc. assert (Hi : (i < length es)%nat) by (apply Nat.lt_le_trans with (length (eg_channels g)); [apply nth_error_Some; congruence | exact Le]).
      destruct (nth_error es i) as [x|] eqn:Hx; [|apply nth_error_None in Hx; lia].
      assert (Hpair : nth_error (combine (eg_channels g) (map ep_MT es)) i = Some (e, ep_MT x)).
      { apply nth_combine; [exact He | rewrite nth_error_map, Hx; reflexivity]. }
      destruct (Forall2_nth _ _ _ i _ F Hpair) as (c' & Hc' & D). rewrite Hc in Hc'. injection Hc' as <-. cbn [fst snd] in D.
      destruct (de_pair _ _ _ _ _ _ _ D) as (n & N1 & N2). destruct (de_q _ _ _ _ _ _ _ D) as (n' & y & N3 & N4 & _). rewrite N1 in N3. injection N3 as <-.
      exists (ep_MT y). assert (O : own_mt es e (ep_MT y)) by (exists n, y; auto). split; [exact O|].
      destruct D; constructor; auto.
      apply (K i e x (c_pair c) (ep_MT y) (c_type c) He Hx); [rewrite N1; cbn [Nat.sub]; rewrite Nat.sub_0_r; exact N2 | exact O | exact de_type]. }
    assert (Lc : length cs = length (eg_channels g)).
    { rewrite <- (Forall2_len _ _ _ F), combine_length, map_length. lia. }
    revert G Lc. clear. revert cs. induction (eg_channels g) as [|e l IH]; intros [|c cs] G Lc; cbn in Lc; try discriminate; [constructor|].
    constructor; [exact (G 0%nat e c eq_refl eq_refl)|]. apply IH; [|lia]. intros i x y Hx Hy. exact (G (S i) x y Hx Hy).
Qed.

(** * Widths *)
Section Widths.
Variables (hbar epsilon0 : R) (cwf : nat -> R -> R -> outcome coulomb).
Lemma sqrt_reduced p w : 0 < p -> reduced p w ((if Rlt_dec w 0 then -1 else 1) * sqrt (Rabs w / 2 / p)).
Proof.
  intros Hp. assert (N : 0 <= Rabs w / 2 / p). { pose proof (Rabs_pos w). apply Rmult_le_pos; [lra | left; apply Rinv_0_lt_compat; exact Hp]. }
  assert (S : sqrt (Rabs w / 2 / p) * sqrt (Rabs w / 2 / p) = Rabs w / 2 / p) by (apply sqrt_sqrt; exact N).
  assert (P : w <> 0 -> 0 < sqrt (Rabs w / 2 / p)).
  { intros Hw. apply sqrt_lt_R0. pose proof (Rabs_pos_lt w Hw). apply Rmult_lt_0_compat; [lra | apply Rinv_0_lt_compat; exact Hp]. }
  unfold reduced. split.
  - transitivity (2 * p * (sqrt (Rabs w / 2 / p) * sqrt (Rabs w / 2 / p))); [destruct (Rlt_dec w 0); ring|]. rewrite S. field. lra.
  - destruct (Rlt_dec w 0) as [H|H].
    + split; [intros; lra|]. split; [|intros; lra]. intros _. assert (0 < sqrt (Rabs w / 2 / p)) by (apply P; lra). lra.
    + split; [intros Hw; assert (0 < sqrt (Rabs w / 2 / p)) by (apply P; lra); lra|]. split; [intros; lra|].
      intros ->. rewrite Rabs_R0. replace (0 / 2 / p) with 0 by (field; lra). rewrite sqrt_0. ring.
Qed.
Theorem reduced_width c e w p : channelPenetrability hbar epsilon0 cwf c e = Ok (Some p) ->
  (0 < p -> exists gamma, calculateReducedWidth hbar epsilon0 cwf c e w = Ok (Some gamma) /\ reduced p w gamma) /\
  (p = 0 -> calculateReducedWidth hbar epsilon0 cwf c e w = Ok None).
Proof.
  intros H. unfold calculateReducedWidth. rewrite H. cbn [bind]. unfold fdiv, fsqrt. split; intros Hp.
  - destruct (Req_EM_T p 0) as [Q|_]; [lra|]. destruct (Rlt_dec (Rabs w / 2 / p) 0) as [Q|_].
    { exfalso. pose proof (Rabs_pos w). assert (0 <= Rabs w / 2 / p); [|lra]. apply Rmult_le_pos; [lra | left; apply Rinv_0_lt_compat; exact Hp]. }
    eexists. split; [reflexivity | apply sqrt_reduced; exact Hp].
  - destruct (Req_EM_T p 0) as [_|Q]; [reflexivity | contradiction].
Qed.
Lemma reduced_width_some c e w gamma : w <> 0 -> calculateReducedWidth hbar epsilon0 cwf c e w = Ok (Some gamma) ->
  exists p, channelPenetrability hbar epsilon0 cwf c e = Ok (Some p) /\ 0 < p /\ reduced p w gamma.
Proof.
  intros Hw H. unfold calculateReducedWidth in H. apply bind_Ok in H as (op & Ep & H). apply Some_Ok in H || injection H as H.
  destruct op as [p|]; [|discriminate]. unfold fdiv, fsqrt in H. destruct (Req_EM_T p 0) as [|Np]; [discriminate|].
  destruct (Rlt_dec (Rabs w / 2 / p) 0) as [|N]; [discriminate|]. exists p. split; [exact Ep|].
  assert (Hp : 0 < p).
  { destruct (Rlt_dec 0 p) as [|G]; [assumption|]. exfalso. apply N. pose proof (Rabs_pos_lt w Hw).
    assert (/ p < 0) by (apply Rinv_lt_0_compat; lra). unfold Rdiv. replace (Rabs w * / 2 * / p) with (- (Rabs w * / 2 * - / p)) by ring.
    apply Ropp_lt_gt_0_contravar. apply Rmult_gt_0_compat; lra. }
  split; [exact Hp|]. injection H as <-. apply sqrt_reduced. exact Hp.
Qed.

Lemma Forall2_combine {A B C} (P : A -> C -> Prop) (l : list (A * B)) (m : list C) :
  Forall2 (fun x y => P (fst x) y) l m -> Forall2 P (map fst l) m.
Proof. induction 1; constructor; auto. Qed.

Theorem data_of_channel g flag eliminated c i ods : makeDataOfChannel hbar epsilon0 cwf g flag eliminated (c, i) = Ok (Some ods) ->
  channel_result (fun c e => match channelPenetrability hbar epsilon0 cwf c e with Ok (Some p) => Some p | _ => None end)
                 g flag (Nat.eqb i eliminated) i c ods.
Proof.
  unfold makeDataOfChannel, channel_result. intros H.
  assert (Em : forall o, (if isIncidentChannel c then do d <- makeChannelData c [] [] false ; Ok (Some [d]) else Ok (Some [])) = Ok (Some o) ->
    o = (if isIncidentChannel c then [mkChannelData c [] [] false] else [])).
  { intros o. destruct (isIncidentChannel c); cbn; intros Q; injection Q as <-; reflexivity. }
  destruct (Nat.eqb_spec (eg_NRS g) 0) as [Z|Z]; [left; split; [exact Z | exact (Em _ H)]|]. right. split; [exact Z|].
  apply bind_Ok in H as (ws & Ew & H). exists (combine (eg_ER g) ws). split.
  { exists ws. split; [|reflexivity]. apply mapM_Ok in Ew. clear -Ew. induction Ew as [|r w l m Q _ IH]; constructor; [|exact IH].
    unfold at_or_ub in Q. destruct (nth_error r i); [injection Q as ->; reflexivity | discriminate]. }
  fold (nonzero_entries (combine (eg_ER g) ws)) in H. destruct (nonzero_entries (combine (eg_ER g) ws)) as [|x0 xs] eqn:En.
  { left. split; [reflexivity | exact (Em _ H)]. }
  right. split; [discriminate|]. rewrite <- En in *. set (nz := nonzero_entries (combine (eg_ER g) ws)) in *.
  assert (NZ : forall x, In x nz -> snd x <> 0). { intros x Hx. apply filter_In in Hx as [_ Hx]. destruct (Req_EM_T (snd x) 0); [discriminate | assumption]. }
  clearbody nz. clear En.
  apply bind_Ok in H as (ors & Eo & H). destruct ors as [rs|]; [|discriminate]. apply bind_Ok in H as (d & Ed & H). injection H as <-.
  exists d. split; [reflexivity|]. unfold makeChannelData in Ed. destruct (Nat.eqb_spec (length (map fst nz)) (length rs)) as [Q|Q]; [|discriminate].
  cbn [check bind] in Ed. injection Ed as <-. split; [reflexivity|]. split; [reflexivity|]. split; [exact Q|].
  unfold entries. cbn [cd_energies cd_widths]. unfold toReducedWidths in Eo. destruct flag.
  - injection Eo as <-. clear -NZ. induction nz as [|[e w] nz IH]; cbn [map combine]; constructor; [|apply IH; intros x Hx; apply NZ; right; exact Hx].
    split; [reflexivity|]. split; [reflexivity | discriminate].
  - apply bind_Ok in Eo as (os & Eo & Ef). injection Ef as Ef. apply all_finite_Some in Ef. subst os. apply mapM_Ok in Eo.
    clear Q. revert rs Eo. induction nz as [|[e w] nz IH]; intros [|r rs] Eo; cbn [map combine fst snd] in *; inversion Eo as [|? ? ? ? E1 E2]; subst; constructor.
    + cbn [fst snd] in *. split; [reflexivity|]. split; [discriminate|]. intros _.
      destruct (reduced_width_some c e w r (NZ (e, w) (or_introl eq_refl)) E1) as (p & Ep & Hp & Hr). exists p. rewrite Ep. auto.
    + apply IH; [intros x Hx; apply NZ; right; exact Hx | exact E2].
Qed.
Theorem data_of_group inc pairs es flag g data :
  makeParticleChannelData hbar epsilon0 cwf inc pairs es flag g = Ok (Some data) ->
  exists cs pr dss, makeParticleChannels inc pairs es g = Ok cs /\ nth_error pairs (eliminatedIndex es) = Some pr /\ data = concat dss /\
    Forall2 (fun ci ds => exists eliminated : bool,
               (eliminated = true <-> pp_id (c_pair (fst ci)) = pp_id pr /\ forall k c', (k < snd ci)%nat -> nth_error cs k = Some c' -> pp_id (c_pair c') <> pp_id pr) /\
               channel_result (fun c e => match channelPenetrability hbar epsilon0 cwf c e with Ok (Some p) => Some p | _ => None end)
                              g flag eliminated (snd ci) (fst ci) ds)
            (combine cs (seq 0 (length cs))) dss.
Proof.
  unfold makeParticleChannelData. intros H. apply bind_Ok in H as (cs & Ec & H). apply bind_Ok in H as (pr & Ep & H). apply bind_Ok in H as (ods & Ed & H).
  injection H as H. destruct (all_finite ods) as [dss|] eqn:Ef; [|discriminate]. cbn [option_map] in H. injection H as <-.
  exists cs, pr, dss. split; [exact Ec|]. split; [unfold at_or_ub in Ep; destruct (nth_error pairs (eliminatedIndex es)); [injection Ep as ->; reflexivity | discriminate]|].
  split; [reflexivity|]. apply all_finite_Some in Ef. subst ods. apply mapM_Ok in Ed.
  set (f := fun c => String.eqb (pp_id pr) (pp_id (c_pair c))) in *.
  assert (S : forall c i, In (c, i) (combine cs (seq 0 (length cs))) -> nth_error cs i = Some c).
  { intros c i Hi. assert (G : forall l s, In (c, i) (combine l (seq s (length l))) -> (s <= i)%nat /\ nth_error l (i - s) = Some c).
    { clear. induction l as [|x l IH]; intros s Hs; cbn in Hs; [destruct Hs|]. destruct Hs as [Q|Hs].
      - injection Q as -> ->. rewrite Nat.sub_diag. split; [lia | reflexivity].
      - apply IH in Hs as [A B]. split; [lia|]. replace (i - s)%nat with (S (i - S s)) by lia. exact B. }
    apply G in Hi as [_ Hi]. rewrite Nat.sub_0_r in Hi. exact Hi. }
  assert (W : forall c i, nth_error cs i = Some c -> (Nat.eqb i (find_index f cs) = true <-> pp_id (c_pair c) = pp_id pr /\ forall k c', (k < i)%nat -> nth_error cs k = Some c' -> pp_id (c_pair c') <> pp_id pr)).
  { intros c i Hc. rewrite Nat.eqb_eq. destruct (Classical_Prop.classic (exists x, In x cs /\ f x = true)) as [X|X].
    - destruct (find_index_first f cs X) as (a & x & b & E & Fx & La & Na). rewrite <- La. unfold f in Fx. apply String.eqb_eq in Fx. split.
      + intros ->. rewrite E, nth_error_app2, Nat.sub_diag in Hc by lia. injection Hc as ->. split; [symmetry; exact Fx|].
        intros k c' Hk Hc'. rewrite E, nth_error_app1 in Hc' by exact Hk. apply nth_error_In in Hc'. specialize (Na c' Hc'). unfold f in Na. apply String.eqb_neq in Na. congruence.
      + intros [Q N]. destruct (Nat.lt_trichotomy i (length a)) as [Hl|[Hl|Hl]]; [exfalso| exact Hl |exfalso].
        * rewrite E, nth_error_app1 in Hc by exact Hl. apply nth_error_In in Hc. specialize (Na c Hc). unfold f in Na. apply String.eqb_neq in Na. congruence.
        * apply (N (length a) x Hl); [rewrite E, nth_error_app2, Nat.sub_diag by lia; reflexivity | symmetry; exact Fx].
    - rewrite find_index_last by (intros x Hx; destruct (f x) eqn:Q; [exfalso; apply X; exists x; auto | reflexivity]). split.
      + intros ->. assert (K : (length cs < length cs)%nat) by (apply nth_error_Some; congruence). lia.
      + intros [Q _]. exfalso. apply X. exists c. split; [exact (nth_error_In _ _ Hc) | unfold f; apply String.eqb_eq; symmetry; exact Q]. }
  revert S Ed. generalize (combine cs (seq 0 (length cs))). intros l S Ed. revert dss Ed. induction l as [|[c i] l IH]; intros [|ds dss] Ed; cbn [map] in Ed; inversion Ed as [|? ? ? ? E1 E2]; subst; constructor.
  - exists (Nat.eqb i (find_index f cs)). cbn [fst snd]. split; [apply W, S; left; reflexivity | apply data_of_channel; exact E1].
  - apply IH; [intros c' i' Hi; apply S; right; exact Hi | exact E2].
Qed.
End Widths.

(** * Missing reactions *)
Theorem no_capture hbar epsilon0 cwf inc pairs es flag g : length pairs = length es -> ~ In 102%Z (map ep_MT es) ->
  makeParticleChannelData hbar epsilon0 cwf inc pairs es flag g = UB "operator[] past the end".
Proof.
  intros L N. unfold makeParticleChannelData.
  assert (Q : at_or_ub pairs (eliminatedIndex es) "operator[] past the end" = UB "operator[] past the end").
  { unfold eliminatedIndex. rewrite (proj2 (find_pair _ _) N), map_length, <- L. unfold at_or_ub. replace (nth_error pairs (length pairs)) with (@None particlePair); [reflexivity|].
    symmetry. apply nth_error_None. lia. }
  destruct (channels_positional inc pairs es g L) as [A B].
  destruct (Classical_Prop.classic (forall e, In e (firstn (length es) (eg_channels g)) -> valid_number es e)) as [V|V].
  - destruct (A V) as (cs & -> & _). cbn [bind]. rewrite Q. reflexivity.
  - rewrite (B V). reflexivity.
Qed.
Lemma pairs_length nm ec inc tgt products es pairs : makeParticlePairs nm ec inc tgt products es = Ok pairs -> length pairs = length es.
Proof. intros H. unfold makeParticlePairs in H. apply mapM_Ok in H. symmetry. exact (Forall2_len _ _ _ H). Qed.
Theorem no_elastic hbar epsilon0 cwf nm ec inc tgt products f pairs : makeParticlePairs nm ec inc tgt products (el_pairs f) = Ok pairs ->
  ~ In 2%Z (map ep_MT (el_pairs f)) ->
  makeCompoundSystem hbar epsilon0 cwf nm ec inc tgt products f = UB "operator[] past the end".
Proof.
  intros H N. unfold makeCompoundSystem. rewrite H. cbn [bind]. unfold incidentIndex. rewrite (proj2 (find_pair _ _) N), map_length, <- (pairs_length _ _ _ _ _ _ _ H).
  unfold at_or_ub. replace (nth_error pairs (length pairs)) with (@None particlePair); [reflexivity|]. symmetry. apply nth_error_None. lia.
Qed.
