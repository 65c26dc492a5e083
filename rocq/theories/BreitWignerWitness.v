(** Order of the resonances in the legacy interface; the two counterexamples. *)
From Coq Require Import String List ZArith Reals Lra Lia Permutation Bool Psatz.
From Verif Require Import Outcome QuantumModel QuantumSpec QuantumProofs SpinFactorModel HardSphereModel
  HardSphereSpec KinematicsModel CoulombModel Cplx RMatrixModel ChannelModel BreitWignerModel
  BreitWignerSpec ListFacts BreitWignerProofs BreitWignerSystemProofs LegacyModel LegacyProofs LegacySystemProofs
  BreitWignerTheory BreitWignerTheorems BreitWignerCases.
Import ListNotations.
Open Scope R_scope.

(** * The order of the lines of an l value *)
Lemma filter_perm {X} (p : X -> bool) l m : Permutation l m -> Permutation (filter p l) (filter p m).
Proof.
  induction 1; cbn; try destruct (p x); try destruct (p y); auto using perm_skip, perm_swap.
  eapply Permutation_trans; eassumption.
Qed.
Lemma ML_elastic_perm {X} l U0 E (v : X -> level) I J rs rs' : Permutation rs rs' ->
  ML_elastic l U0 E v I J rs = ML_elastic l U0 E v I J rs'.
Proof.
  intros P. unfold ML_elastic, Js.
  assert (PJ := nodup_perm Z.eq_dec _ _ (Permutation_map J P)).
  rewrite (Rsum_perm _ _ (Permutation_map (g_neutron I) PJ)).
  rewrite (Rsum_perm _ _ (Permutation_map (fun j => g_neutron I j * scattered (collision U0 E (map v (of_J J j rs)))) PJ)).
  f_equal. apply Rsum_ext. intros j _. do 2 f_equal. apply collision_perm, Permutation_map, filter_perm, P.
Qed.
Lemma level_of_same k a E q ls ls' x : same_lines ls ls' -> q ls = q ls' -> level_of k a E q ls x = level_of k a E q ls' x.
Proof. intros (H1 & H2 & H3 & H4 & _) Hq. unfold level_of. rewrite H1, H3, Hq. reflexivity. Qed.

Section Order.
Variables (k a : R -> R) (E : R) (q : bw_lstate -> R) (ahat : R) (I : Z).
Hypothesis Hq : forall ls ls', same_lines ls ls' -> q ls = q ls'.

Lemma sums_order lss lss' : Forall2 same_lines lss lss' ->
  SLBW_elastic k a E q ahat I lss = SLBW_elastic k a E q ahat I lss' /\
  MLBW_elastic k a E q ahat I lss = MLBW_elastic k a E q ahat I lss' /\
  BW_capture k a E q I lss = BW_capture k a E q I lss' /\
  BW_fission k a E q I lss = BW_fission k a E q I lss'.
Proof.
  intros F. unfold SLBW_elastic, MLBW_elastic, BW_capture, BW_fission. 
  assert (G : forall g h : bw_lstate -> R, (forall ls ls', same_lines ls ls' -> g ls = h ls') ->
     Rsum (map g lss) = Rsum (map h lss')).
  { intros g h H. induction F as [|x y l m Hs F IH]; cbn [map]; rewrite ?Rsum_nil, ?Rsum_cons; [reflexivity|].
    rewrite (H x y Hs), IH. reflexivity. }
  repeat split; f_equal; apply G; intros ls ls' Hs; pose proof Hs as (H1 & _ & _ & _ & HP);
    pose proof (fun x => level_of_same k a E q ls ls' x Hs (Hq ls ls' Hs)) as Hl.
  - unfold SL_elastic, U0_of. rewrite H1, (Rsum_perm _ _ (Permutation_map _ HP)). f_equal. apply Rsum_ext. intros x _.
    rewrite Hl. reflexivity.
  - rewrite (ML_elastic_perm _ _ _ _ _ _ _ _ HP). unfold ML_elastic, U0_of. rewrite H1. f_equal.
    apply Rsum_ext. intros j _. rewrite (map_ext _ _ Hl). reflexivity.
  - unfold capture_sum. rewrite (Rsum_perm _ _ (Permutation_map _ HP)). apply Rsum_ext. intros x _. rewrite Hl. reflexivity.
  - unfold fission_sum. rewrite (Rsum_perm _ _ (Permutation_map _ HP)). apply Rsum_ext. intros x _. rewrite Hl. reflexivity.
Qed.
End Order.

Section LegacyOrder.
Variables (hbar epsilon0 : R) (cwf : nat -> R -> R -> outcome coulomb) (mn : R) (incident target : string)
  (f f' : bw_file) (A : R) (nro : option (R -> outcome R)) (naps : nat) (rad : radii) (n : nat).
Hypotheses (Hin : input_new hbar mn f A nro naps rad n) (Hff : reordered f f').

Lemma reordered_input : input_new hbar mn f' A nro naps rad n.
Proof.
  destruct Hin as [Hh Hmn HA HI Hr Hch Hsc Hawri Hl Hne]. destruct Hff as (H1 & H2 & F).
  assert (G : forall ls', In ls' (f_lstates f') -> exists ls, In ls (f_lstates f) /\ same_lines ls ls').
  { clear -F. induction F as [|x y l m Hs F IH]; intros ls' []; [subst; exists x; split; [left; reflexivity | exact Hs]|].
    destruct (IH ls' H) as (ls & Hi & Hs'). exists ls. split; [right; exact Hi | exact Hs']. }
  constructor; rewrite <- ?H1, <- ?H2; try assumption.
  - intros ls' Hi. destruct (G ls' Hi) as (ls & Hi' & (_ & <- & _)). auto.
  - rewrite <- Hl. clear -F. induction F as [|x y l m (Hs & _) F IH]; cbn; [reflexivity|]. rewrite IH, Hs. reflexivity.
  - intros ls' Hi Hnil. destruct (G ls' Hi) as (ls & Hi' & (_ & _ & _ & _ & HP)). apply (Hne ls Hi').
    rewrite Hnil in HP. apply Permutation_sym, Permutation_nil in HP. exact HP.
Qed.

Lemma legacy_order s s' E m m1 m1' m2 m2' : E <> 0 ->
  makeLegacyBreitWigner hbar epsilon0 cwf mn incident target f nro naps = Ok (Some s) ->
  makeLegacyBreitWigner hbar epsilon0 cwf mn incident target f' nro naps = Ok (Some s') ->
  legacy_evaluate hbar (legacySLBW hbar epsilon0 cwf) s E m = Ok (Some m1) ->
  legacy_evaluate hbar (legacySLBW hbar epsilon0 cwf) s' E m = Ok (Some m1') ->
  legacy_evaluate hbar (legacyMLBW hbar epsilon0 cwf) s E m = Ok (Some m2) ->
  legacy_evaluate hbar (legacyMLBW hbar epsilon0 cwf) s' E m = Ok (Some m2') ->
  forall key, In key [elastic_key incident target; capture_key incident target; fission_key incident target] ->
  mval m1 key = mval m1' key /\ mval m2 key = mval m2' key.
Proof.
  intros HE Hb Hb' H1 H1' H2 H2'.
  destruct (new_slbw hbar epsilon0 cwf mn incident target f A nro naps rad n Hin s E m m1 HE Hb H1) as (S1 & S2 & S3).
  destruct (new_slbw hbar epsilon0 cwf mn incident target f' A nro naps rad n reordered_input s' E m m1' HE Hb' H1') as (S1' & S2' & S3').
  destruct (new_mlbw hbar epsilon0 cwf mn incident target f A nro naps rad n Hin s E m m2 HE Hb H2) as (M1 & M2 & M3).
  destruct (new_mlbw hbar epsilon0 cwf mn incident target f' A nro naps rad n reordered_input s' E m m2' HE Hb' H2') as (M1' & M2' & M3').
  destruct Hff as (HI & _ & F). rewrite <- HI in *.
  destruct (sums_order (k_old (C_new hbar mn) A) (fun e => oval (radius_at (r_P rad) e)) E q_new (oval (radius_at (r_phi rad) E)) (f_SPI f)
    ltac:(intros ls ls' (_ & _ & _ & H & _); unfold q_new; rewrite H; reflexivity) _ _ F) as (Q1 & Q2 & Q3 & Q4).
  intros key [<-|[<-|[<-|[]]]]; split; congruence.
Qed.
End LegacyOrder.

(** * A negative elastic cross section *)
Definition neg_line : bw_line := mkLine 4 1 12 6 0 0.
Definition neg_file : bw_file := one_l (PI / 4) 1 false 0 [neg_line; neg_line].

Lemma C_2 : C_new 1 2 = 2.
Proof. unfold C_new. replace (2 * 2) with (2²) by (unfold Rsqr; ring). rewrite sqrt_Rsqr by lra. field. Qed.
Lemma k_1 e : k_old 2 1 e = sqrt (Rabs e).
Proof. unfold k_old. field. Qed.
Lemma sqrt_4 : sqrt 4 = 2.
Proof. replace 4 with (2²) by (unfold Rsqr; ring). apply sqrt_Rsqr; lra. Qed.

Lemma neg_level q : level_of (k_old 2 1) (fun _ => PI / 4) 1 q (mkLState 0 1 false 0 [neg_line; neg_line]) neg_line
  = Level 4 6 6 0 12.
Proof.
  unfold level_of; cbn [ls_L ls_LRX neg_line ln_ER ln_GN ln_GG ln_GF ln_GX].
  unfold P_at, S_at. rewrite !P_spec_l0, !S_spec_l0, !k_1, !Rabs_right, sqrt_1, sqrt_4 by lra.
  pose proof PI_RGT_0. f_equal; field; lra.
Qed.

Lemma neg_value q : SLBW_elastic (k_old 2 1) (fun _ => PI / 4) 1 q (PI / 4) 0 (f_lstates neg_file) < 0.
Proof.
  unfold SLBW_elastic, neg_file, one_l; cbn [f_lstates map]. rewrite Rsum_cons, Rsum_nil.
  unfold SL_elastic; cbn [ls_L ls_lines map]. rewrite !Rsum_cons, Rsum_nil, !neg_level.
  unfold g_of, abs_J, U0_of; cbn [neg_line ln_AJ Z.abs ls_L].
  rewrite k_1, Rabs_right, sqrt_1 by lra. rewrite Rmult_1_l, (hard_sphere_phase _ _ _ (is_phase_l0 (PI / 4))).
  assert (HN : norm2 (pole 1 (Level 4 6 6 0 12)) = 45) by (unfold norm2, pole; cbn; lra).
  rewrite scattered_one by (rewrite HN; lra). rewrite HN. cbn [w_E w_n w_T].
  rewrite scattered_hard. replace (2 * (PI / 4)) with (PI / 2) by field. rewrite sin_PI2.
  assert (Hs : sin (PI / 4) * sin (PI / 4) = 1 / 2).
  { rewrite sin_PI4. pose proof (sqrt_sqrt 2 ltac:(lra)) as Hq. pose proof (sqrt_lt_R0 2 ltac:(lra)).
    replace (1 / sqrt 2 * (1 / sqrt 2)) with (1 / (sqrt 2 * sqrt 2)) by (field; lra). rewrite Hq. reflexivity. }
  rewrite Hs. unfold g_neutron, barns. rewrite k_1, Rabs_right, sqrt_1 by lra. unfold pi_value. cbn [INR]. lra.
Qed.

Lemma neg_lines : forall x, In x [neg_line; neg_line] -> ln_AJ x = 1%Z /\ ln_ER x <> 0 /\ (false = true -> ln_ER x - 0 <> 0) /\
  0 <= ln_GN x /\ 0 < ln_GG x /\ 0 <= ln_GF x /\ 0 <= ln_GX x.
Proof. intros x [<-|[<-|[]]]; cbn; repeat split; try lra; discriminate. Qed.

Lemma PI4_pos : 0 < PI / 4.
Proof. pose proof PI_RGT_0. lra. Qed.

Lemma elastic_negative_old sort : sorts b_g sort -> exists s e c fi,
  bw_build 2 sort false neg_file (fun _ => Ok (PI / 4)) (fun _ => Ok (PI / 4)) = Ok s /\
  slbw_evaluate 2 s 1 = Ok (Some (e, c, fi)) /\ e < 0.
Proof.
  intros Hs. pose proof (one_old_total 1 2 (PI / 4) 1 false 0 [neg_line; neg_line] ltac:(lra) ltac:(lra) PI4_pos ltac:(lra)
    neg_lines sort 1 ltac:(lra) ltac:(discriminate) ltac:(discriminate) Hs) as [(s & [[e c] fi] & Hb & He) _].
  rewrite C_2 in *. exists s, e, c, fi. split; [exact Hb|]. split; [exact He|].
  assert (Hin : input_old 2 neg_file 1 (fun _ => Ok (PI / 4)) (fun _ => Ok (PI / 4))).
  { rewrite <- C_2. apply one_old_input; try lra. apply PI4_pos. }
  destruct (old_slbw 2 sort neg_file 1 _ _ Hin s 1 e c fi Hb He) as (_ & -> & _). apply neg_value.
Qed.

Lemma elastic_negative_new epsilon0 cwf : exists s m,
  makeLegacyBreitWigner 1 epsilon0 cwf 2 "n" "t" neg_file None 1 = Ok (Some s) /\
  legacy_evaluate 1 (legacySLBW 1 epsilon0 cwf) s 1 (fun _ => None) = Ok (Some m) /\
  mval m (elastic_key "n" "t") < 0.
Proof.
  destruct (one_total 1 epsilon0 cwf 2 "n" "t" (PI / 4) 1 false 0 [neg_line; neg_line] ltac:(lra) ltac:(lra) PI4_pos ltac:(lra)
    ltac:(discriminate) neg_lines 1 ltac:(lra) ltac:(lra) (fun _ => None)) as (s & Hb & (m & Hm) & _).
  exists s, m. split; [exact Hb|]. split; [exact Hm|].
  pose proof (one_input 1 2 (PI / 4) 1 false 0 [neg_line; neg_line] ltac:(lra) ltac:(lra) PI4_pos ltac:(lra) ltac:(discriminate)) as Hin.
  destruct (new_slbw 1 epsilon0 cwf 2 "n" "t" neg_file 1 None 1 _ 0 Hin s 1 _ m ltac:(lra) Hb Hm) as (-> & _).
  rewrite C_2. cbn [mval]. pose proof (neg_value q_new) as H. cbn [r_P r_phi radii1 radius_at oval]. 
  change (f_SPI neg_file) with 0%Z. unfold mval. lra.
Qed.

(** * The competitive width *)
Definition comp_line : bw_line := mkLine 1 1 1 1 0 1.
Definition comp_file : bw_file := one_l 1 1 true 16 [comp_line].

Lemma comp_lines : forall x, In x [comp_line] -> ln_AJ x = 1%Z /\ ln_ER x <> 0 /\ (true = true -> ln_ER x - 16 <> 0) /\
  0 <= ln_GN x /\ 0 < ln_GG x /\ 0 <= ln_GF x /\ 0 <= ln_GX x.
Proof. intros x [<-|[]]; cbn; repeat split; lra. Qed.

Definition comp_ls : bw_lstate := mkLState 0 1 true 16 [comp_line].
Lemma comp_level (q : bw_lstate -> R) y : sqrt (Rabs (4 + q comp_ls)) / sqrt (Rabs (1 + q comp_ls)) = y ->
  sqrt (Rabs (1 + q comp_ls)) <> 0 ->
  level_of (k_old 2 1) (fun _ => 1) 4 q comp_ls comp_line = Level 1 2 1 0 (3 + y).
Proof.
  intros Hy Hn. unfold level_of; cbn [comp_ls ls_L ls_LRX comp_line ln_ER ln_GN ln_GG ln_GF ln_GX]. fold comp_ls.
  unfold P_at, S_at. rewrite !P_spec_l0, !S_spec_l0, !k_1.
  rewrite (Rabs_right 4), (Rabs_right 1), sqrt_1, sqrt_4 by lra. rewrite <- Hy. f_equal; field; lra.
Qed.
Lemma comp_capture (q : bw_lstate -> R) y : sqrt (Rabs (4 + q comp_ls)) / sqrt (Rabs (1 + q comp_ls)) = y ->
  sqrt (Rabs (1 + q comp_ls)) <> 0 ->
  BW_capture (k_old 2 1) (fun _ => 1) 4 q 0 (f_lstates comp_file) =
  barns (k_old 2 1) 4 * (2 / (9 + (3 + y) * (3 + y) / 4)).
Proof.
  intros Hy Hn. unfold BW_capture, comp_file, one_l; cbn [f_lstates map]. fold comp_ls. rewrite Rsum_cons, Rsum_nil.
  unfold capture_sum; cbn [ls_lines comp_ls map]. fold comp_ls. rewrite Rsum_cons, Rsum_nil, (comp_level q y Hy Hn).
  unfold reaction, norm2, pole, g_of, g_neutron, abs_J; cbn [w_n w_c w_E w_T re im comp_line ln_AJ Z.abs].
  assert (0 <= (3 + y) * (3 + y)) by (pose proof (Rle_0_sqr (3 + y)) as Hz; unfold Rsqr in Hz; exact Hz).
  f_equal. replace ((1 - 4) * (1 - 4) + - ((3 + y) / 2) * - ((3 + y) / 2)) with (9 + (3 + y) * (3 + y) / 4) by field.
  field. lra.
Qed.

Lemma competitive_differs epsilon0 cwf sort : sorts b_g sort -> exists f s s' e c fi m',
  input_new 1 2 f 1 None 1 (radii1 (Fixed 1)) 0 /\
  bw_apply (C_new 1 2) sort false f false 1 None = Ok s /\ slbw_evaluate (C_new 1 2) s 4 = Ok (Some (e, c, fi)) /\
  makeLegacyBreitWigner 1 epsilon0 cwf 2 "n" "t" f None 1 = Ok (Some s') /\
  legacy_evaluate 1 (legacySLBW 1 epsilon0 cwf) s' 4 (fun _ => None) = Ok (Some m') /\
  mval m' (capture_key "n" "t") <> c.
Proof.
  intros Hs.
  pose proof (one_input 1 2 1 1 true 16 [comp_line] ltac:(lra) ltac:(lra) ltac:(lra) ltac:(lra) ltac:(discriminate)) as Hin.
  assert (Hq : q_old comp_ls = 8) by (unfold q_old, comp_ls; cbn; field).
  pose proof (one_old_total 1 2 1 1 true 16 [comp_line] ltac:(lra) ltac:(lra) ltac:(lra) ltac:(lra)
    comp_lines sort 4 ltac:(lra) ltac:(intros _; fold comp_ls; rewrite Hq; lra)
    ltac:(intros x [<-|[]] _; fold comp_ls; rewrite Hq; cbn; lra) Hs) as [(s & [[e c] fi] & Hb & He) _].
  destruct (one_total 1 epsilon0 cwf 2 "n" "t" 1 1 true 16 [comp_line] ltac:(lra) ltac:(lra) ltac:(lra) ltac:(lra)
    ltac:(discriminate) comp_lines 4 ltac:(lra) ltac:(lra) (fun _ => None)) as (s' & Hb' & (m & Hm) & _).
  exists comp_file, s, s', e, c, fi, m. split; [exact Hin|]. split.
  { unfold bw_apply. change (f_lstates comp_file) with [comp_ls]. cbn [Z.eqb f_AP]. change (f_AP comp_file) with 1.
    change (one_l 1 1 true 16 [comp_line]) with comp_file in Hb. cbn [Z.eqb Pos.eqb]. rewrite Hb. reflexivity. }
  split; [exact He|]. split; [exact Hb'|]. split; [exact Hm|].
  assert (Hold : input_old (C_new 1 2) comp_file 1 (fun _ => Ok 1) (fun _ => Ok 1)) by (apply one_old_input; lra).
  destruct (old_slbw _ sort comp_file 1 _ _ Hold s 4 e c fi Hb He) as (_ & _ & -> & _).
  destruct (new_slbw 1 epsilon0 cwf 2 "n" "t" comp_file 1 None 1 _ 0 Hin s' 4 _ m ltac:(lra) Hb' Hm) as (_ & -> & _).
  rewrite C_2. cbn [r_P radii1 radius_at oval]. change (f_SPI comp_file) with 0%Z.
  unfold mval; rewrite Rplus_0_l.
  assert (Hqn : q_new comp_ls = -16) by reflexivity.
  rewrite (comp_capture q_new (sqrt 12 / sqrt 15)).
  3:{ rewrite Hqn, Rabs_left by lra. apply Rgt_not_eq, sqrt_lt_R0; lra. }
  2:{ rewrite Hqn, !Rabs_left by lra. do 2 f_equal; lra. }
  rewrite (comp_capture q_old (sqrt 12 / sqrt 9)).
  3:{ rewrite Hq, Rabs_right by lra. apply Rgt_not_eq, sqrt_lt_R0; lra. }
  2:{ rewrite Hq, !Rabs_right by lra. do 2 f_equal; lra. }
  assert (H12 : 0 < sqrt 12) by (apply sqrt_lt_R0; lra). assert (H9 : 0 < sqrt 9) by (apply sqrt_lt_R0; lra).
  assert (H15 : sqrt 9 < sqrt 15) by (apply sqrt_lt_1; lra).
  assert (Hlt : sqrt 12 / sqrt 15 < sqrt 12 / sqrt 9).
  { apply Rmult_lt_compat_l; [exact H12|]. apply Rinv_lt_contravar; [nra | exact H15]. }
  assert (Hp : 0 < sqrt 12 / sqrt 15) by (apply Rdiv_lt_0_compat; lra).
  set (y := sqrt 12 / sqrt 15) in *. set (z := sqrt 12 / sqrt 9) in *.
  assert (Hbarns : 0 < barns (k_old 2 1) 4).
  { unfold barns. rewrite k_1, Rabs_right, sqrt_4 by lra. unfold pi_value. lra. }
  apply Rgt_not_eq, Rmult_gt_compat_l; [exact Hbarns|]. unfold Rgt. apply Rmult_lt_compat_l; [lra|].
  apply Rinv_lt_contravar; nra.
Qed.

(** * Groups and widths *)
Lemma groups_by_factor sort rs : sorts b_g sort ->
  let groups := map (fun g => fst g :: snd g) (group_by b_g (sort rs)) in
  Permutation (concat groups) rs /\
  (forall g r r', In g groups -> In r g -> In r' g -> b_g r = b_g r') /\
  (forall i j g h r r', nth_error groups i = Some g -> nth_error groups j = Some h ->
     In r g -> In r' h -> b_g r = b_g r' -> i = j).
Proof.
  intros Hs groups. destruct (Hs rs) as [HP Ha]. remember (sort rs) as l eqn:El. clear El Hs.
  assert (G1 : forall g r, In g groups -> In r g -> exists x, In x (group_by b_g l) /\ g = fst x :: snd x /\ b_g r = b_g (fst x)).
  { intros g r Hg Hr. apply in_map_iff in Hg as (x & <- & Hx). exists x. split; [exact Hx|]. split; [reflexivity|].
    destruct (group_by_front b_g l x Ha Hx) as [Hk _]. rewrite Hk in Hr. apply filter_In in Hr as [_ Hr].
    apply Reqb_eq in Hr. exact Hr. }
  assert (HN : NoDup (map (fun g => b_g (fst g)) (group_by b_g l))).
  { destruct l as [|first l]; [constructor|].
    apply (group_from_spec b_g l first [] Ha (fun a H => match H with end)). }
  split; [|split].
  - eapply Permutation_trans; [|apply Permutation_sym; exact HP].
    assert (Hc : concat groups = l).
    { unfold groups. clear. unfold group_by. destruct l as [|a l]; [reflexivity|].
      assert (H : forall l first acc, concat (map (fun g => fst g :: snd g) (group_from b_g first acc l)) = first :: rev acc ++ l).
      { clear. induction l as [|y l IH]; intros first acc; cbn.
        - rewrite !app_nil_r. reflexivity.
        - destruct (Req_EM_T (b_g first) (b_g y)); [rewrite IH; cbn; rewrite <- app_assoc; reflexivity|].
          cbn. rewrite IH. reflexivity. }
      apply H. }
    rewrite Hc. apply Permutation_refl.
  - intros g r r' Hg Hr Hr'. destruct (G1 g r Hg Hr) as (x & _ & Ex & ->). destruct (G1 g r' Hg Hr') as (x' & _ & Ex' & ->).
    rewrite Ex in Ex'. injection Ex' as -> _. reflexivity.
  - intros i j g h r r' Hi Hj Hr Hr' E.
    unfold groups in Hi, Hj. rewrite nth_error_map in Hi, Hj.
    destruct (nth_error (group_by b_g l) i) as [x|] eqn:Ei; [|discriminate].
    destruct (nth_error (group_by b_g l) j) as [y|] eqn:Ej; [|discriminate]. injection Hi as <-. injection Hj as <-.
    rewrite NoDup_nth_error in HN. apply HN.
    + rewrite map_length. apply nth_error_Some. congruence.
    + rewrite !nth_error_map, Ei, Ej. cbn. f_equal.
      pose proof (nth_error_In _ _ Ei) as Ix. pose proof (nth_error_In _ _ Ej) as Iy.
      destruct (group_by_front b_g l x Ha Ix) as [Kx _]. destruct (group_by_front b_g l y Ha Iy) as [Ky _].
      rewrite Kx in Hr. rewrite Ky in Hr'. apply filter_In in Hr as [_ Hr], Hr' as [_ Hr'].
      apply Reqb_eq in Hr, Hr'. congruence.
Qed.

Lemma legacy_at_resonance energy elastic capture fission competition P Q S : P <> 0 -> Q <> 0 ->
  let r := makeLegacyResonance energy elastic capture fission competition P Q S in
  legacyElasticAt r P = Some elastic /\ legacyCompetitionAt r Q = Some competition /\
  q_capture r = capture /\ q_fission r = fission /\
  legacyTotalAt r P Q = Some (elastic + capture + fission + competition) /\
  legacyTotal r = elastic + capture + fission + competition /\
  energyPrime r S = Some energy.
Proof.
  intros HP HQ r. unfold legacyTotalAt, legacyElasticAt, legacyCompetitionAt, energyPrime, r, makeLegacyResonance, fdiv.
  cbn. destruct (Req_EM_T P 0); [contradiction|]. destruct (Req_EM_T Q 0); [contradiction|].
  repeat split; f_equal; field; auto.
Qed.

Lemma old_at_resonance ER GN GG GF GX P Q S g w kernel : P <> 0 -> Q <> 0 ->
  let r := makeBW ER GN GG GF (fdiv GX Q) P S g in
  let T := GN + GG + GF + GX in
  T <> 0 -> b_competitive r = Some w ->
  bw_common r P S (w * Q) kernel =
  Some (fst (kernel ER (1 / T)), snd (kernel ER (1 / T)), GN / T, 1 / T).
Proof.
  intros HP HQ r T HT Hw. unfold r, makeBW in *. cbn [b_competitive] in Hw. unfold fdiv in Hw.
  destruct (Req_EM_T Q 0); [contradiction|]. injection Hw as <-.
  unfold bw_common; cbn [b_inverse b_neutron b_capture b_fission b_energy b_shift]. unfold fdiv at 1.
  destruct (Req_EM_T P 0); [contradiction|].
  replace (GN * (1 / P) * P + GG + GF + GX / Q * Q) with T by (unfold T; field; auto).
  unfold fdiv. destruct (Req_EM_T T 0); [contradiction|].
  replace (ER + 0.5 * (GN * (1 / P)) * (S - S)) with ER by ring.
  destruct (kernel ER (1 / T)) as [psi chi]. cbn [fst snd].
  replace (GN * (1 / P) * P * (1 / T)) with (GN / T) by (field; auto). reflexivity.
Qed.
