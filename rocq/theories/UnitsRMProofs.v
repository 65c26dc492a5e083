(** Reich-Moore cross sections of the older interface in other units. *)
From Coq Require Import String List ZArith Reals Lra Lia Bool.
From Verif Require Import Outcome SpinFactorModel HardSphereModel KinematicsModel ChannelModel Cplx KMatrixModel BreitWignerModel ReichMooreModel ListFacts UnitsSpec UnitsProofs UnitsOldSpec UnitsOldProofs UnitsRMSpec.
Import ListNotations.
Open Scope R_scope.

Section Units.
Variable t : R.
Hypothesis T : 0 < t.
Variable C : R.
Notation up x := (t * t * x).
Lemma frecip_units x : frecip (t * t * (t * t) * x) = match frecip x with Some y => Some (y / (t * t * (t * t))) | None => None end.
Proof.
  assert (0 < t * t) by nra. unfold frecip. destruct (Req_EM_T x 0) as [Z|Z], (Req_EM_T (t * t * (t * t) * x) 0) as [Y|Y]; [reflexivity | | | cbn [ssrbool.is_left]; f_equal; field; split; lra].
  - exfalso. apply Y. rewrite Z. ring.
  - exfalso. destruct (Rmult_integral _ _ Y) as [Q|Q]; [nra | contradiction].
Qed.
Lemma zero_units x : (if Req_EM_T (t * x) 0 then true else false) = (if Req_EM_T x 0 then true else false).
Proof. destruct (Req_EM_T x 0) as [Z|Z], (Req_EM_T (t * x) 0) as [Y|Y]; try reflexivity; exfalso; [apply Y; rewrite Z; ring | destruct (Rmult_integral _ _ Y); lra]. Qed.
Lemma entry w0 w1 F : t * w0 * (t * w1) * (F / (t * t)) = w0 * w1 * F.
Proof. field. lra. Qed.
Lemma call_units r e P K : rm_call (units_rm t r) (up e) P K = rm_call r e P K.
Proof.
  unfold rm_call. cbn [units_rm rm_energy rm_rootNeutron rm_inverseRoot rm_capture rm_rootA rm_rootB]. destruct (rm_rootNeutron r) as [n|]; [|reflexivity]. cbn [units_root]. destruct (rm_inverseRoot r) as [v|]; [|reflexivity]. cbv zeta.
  replace (4 * ((up (rm_energy r) - up e) * (up (rm_energy r) - up e)) + up (rm_capture r) * up (rm_capture r)) with (t * t * (t * t) * (4 * ((rm_energy r - e) * (rm_energy r - e)) + rm_capture r * rm_capture r)) by ring. rewrite frecip_units. destruct (frecip _) as [d|]; [|reflexivity].
  replace (t * n * v * P) with (t * (n * v * P)) by ring. replace (up (rm_capture r) * (d / (t * t * (t * t)))) with (rm_capture r * d / (t * t)) by (field; lra). replace (-2 * (up (rm_energy r) - up e) * (d / (t * t * (t * t)))) with (-2 * (rm_energy r - e) * d / (t * t)) by (field; lra).
  rewrite !entry. pose proof (zero_units (rm_rootA r)) as A. pose proof (zero_units (rm_rootB r)) as B.
  destruct (Req_EM_T (t * rm_rootA r) 0), (Req_EM_T (rm_rootA r) 0); try discriminate; [|reflexivity]. destruct (Req_EM_T (t * rm_rootB r) 0), (Req_EM_T (rm_rootB r) 0); try discriminate; reflexivity.
Qed.
Lemma sum_units rs e P : forall K b, rm_sum (map (units_rm t) rs) (up e) P K b = rm_sum rs e P K b.
Proof. induction rs as [|r rs IH]; intros K b; [reflexivity|]. cbn [map rm_sum]. rewrite call_units. destruct (rm_call r e P K) as [[K' b']|]; [apply IH | reflexivity]. Qed.
Lemma Jgroup_units e P phi x rs : rm_Jgroup (up e) P phi (units_rm t x) (map (units_rm t) rs) = rm_Jgroup e P phi x rs.
Proof. unfold rm_Jgroup. rewrite sum_units. reflexivity. Qed.
Lemma group_map {A} (h : A -> A) (key : A -> R) : (forall x, key (h x) = key x) -> forall l, group_by key (map h l) = map (fun g => (h (fst g), map h (snd g))) (group_by key l).
Proof.
  intros H. assert (G : forall l x acc, group_from key (h x) (map h acc) (map h l) = map (fun g => (h (fst g), map h (snd g))) (group_from key x acc l)).
  { induction l as [|y l IH]; intros x acc; cbn [map group_from fst snd]; [rewrite map_rev; reflexivity|]. rewrite !H. destruct (Req_EM_T (key x) (key y)); [exact (IH x (y :: acc))|]. cbn [map fst snd]. rewrite map_rev. f_equal. exact (IH y []). }
  intros [|x l]; [reflexivity|]. exact (G l x []).
Qed.
Lemma lvalue_call_units lv e c p : rm_lvalue_call (units_rm_lvalue t lv) (up e) c p = rm_lvalue_call lv e c p.
Proof.
  unfold rm_lvalue_call. cbn [units_rm_lvalue rv_l rv_resonances]. destruct (penetrationShift _ c) as [ps| | |]; cbn [bind]; [|reflexivity ..]. destruct (phaseShift _ p) as [phi| | |]; cbn [bind]; [|reflexivity ..].
  rewrite (group_map (units_rm t) rm_flagged) by reflexivity. rewrite map_map. rewrite (map_ext _ (fun g => rm_Jgroup e (sqrt (fst ps)) phi (fst g) (fst g :: snd g))); [reflexivity|].
  intros g. cbn [fst snd]. exact (Jgroup_units e (sqrt (fst ps)) phi (fst g) (fst g :: snd g)).
Qed.
Lemma inspect_units tag k c p ap : inspect tag (t * k) c p (units_radius_l t ap) = inspect tag k c p ap.
Proof. destruct ap as [a|]; [|destruct tag; reflexivity]. unfold inspect, units_radius_l. replace (t * k * (a / t)) with (k * a) by (field; lra). reflexivity. Qed.
Theorem rm_units s e : rm_evaluate C (units_rm_system t s) (up e) = units_triple t (rm_evaluate C s e).
Proof.
  unfold rm_evaluate. cbn [units_rm_system rt_channel rt_scattering rt_ratio rt_lvalues rt_tag]. rewrite !(length_units t T), (wave_old_units t T). destruct (rt_channel s e) as [a| | |]; cbn [bind]; [|reflexivity ..]. destruct (rt_scattering s e) as [b| | |]; cbn [bind]; [|reflexivity ..]. cbv zeta.
  set (k := waveNumberOld C (rt_ratio s) e). replace (t * k * (a / t)) with (k * a) by (field; lra). replace (t * k * (b / t)) with (k * b) by (field; lra). rewrite mapM_map.
  rewrite (mapM_ext _ (fun lv => let '(c, p) := inspect (rt_tag s) k (k * a) (k * b) (rv_ap lv) in rm_lvalue_call lv e c p)).
  - destruct (mapM _ (rt_lvalues s)) as [xs| | |]; cbn [bind]; [|reflexivity ..]. destruct (all_finite xs) as [ys|]; [|reflexivity]. replace (t * k * (t * k)) with (up (k * k)) by ring. rewrite fdiv_less by nra. destruct (fdiv pi_value (k * k)) as [f|]; [|reflexivity].
    destruct (taccumulate ys (0, 0, 0)) as [[x y] z]. cbn. do 2 f_equal. f_equal; [f_equal|]; field; lra.
  - intros lv. change (rv_ap (units_rm_lvalue t lv)) with (units_radius_l t (rv_ap lv)). rewrite inspect_units. destruct (inspect _ _ _ _ _). apply lvalue_call_units.
Qed.

Variable sort : list rm_resonance -> list rm_resonance.
Lemma fsqrt_units x : fsqrt (up x) = units_root t (fsqrt x).
Proof.
  assert (0 < t * t) by nra. unfold fsqrt. destruct (Rlt_dec x 0), (Rlt_dec (up x) 0); cbn [units_root]; [reflexivity | exfalso; nra | exfalso; nra|]. cbn [ssrbool.is_left units_root]. rewrite sqrt_mult_alt by lra. rewrite sqrt_square by lra. reflexivity.
Qed.
Lemma signed_units x : signed_root (up x) = t * signed_root x.
Proof.
  assert (0 < t * t) by nra. unfold signed_root. rewrite (root_units t T). destruct (Rlt_dec x 0), (Rlt_dec (up x) 0); try (exfalso; nra); cbn [ssrbool.is_left]; ring.
Qed.
Lemma build_rm_units SPI l r' r x : same_rho t r' r -> rm_build_resonance SPI l r' (units_rm_line t x) = match rm_build_resonance SPI l r x with Ok y => Ok (units_rm t y) | o => o end.
Proof.
  intros H. unfold rm_build_resonance. cbn [units_rm_line rl_ER rl_GN rl_GG rl_GFA rl_GFB rl_AJ]. rewrite Rabs_mult, (Rabs_pos_eq (t * t)) by nra. rewrite H. destruct (r (Rabs (rl_ER x))) as [a| | |]; cbn [bind]; [|reflexivity ..].
  destruct (penetrationShift _ a) as [p| | |]; cbn [bind]; [|reflexivity ..]. unfold makeRM. rewrite fsqrt_units, !signed_units. reflexivity.
Qed.
Lemma given_units a : (if Req_EM_T (a / t) 0 then false else true) = (if Req_EM_T a 0 then false else true).
Proof.
  destruct (Req_EM_T a 0) as [Z|Z], (Req_EM_T (a / t) 0) as [Y|Y]; try reflexivity; exfalso; [apply Y; rewrite Z; field; lra|]. apply Z. apply (Rmult_eq_compat_r t) in Y. unfold Rdiv in Y. rewrite Rmult_assoc, Rinv_l, Rmult_1_r, Rmult_0_l in Y by lra. exact Y.
Qed.
Lemma build_rm_lvalue_units SPI w ch useAPL ls : rm_build_lvalue SPI (neutronWaveNumber C w) (units_length t ch) useAPL (units_rm_lstate t ls) =
  match rm_build_lvalue SPI (neutronWaveNumber C w) ch useAPL ls with Ok y => Ok (units_rm_lvalue t y) | o => o end.
Proof.
  unfold rm_build_lvalue. cbn [units_rm_lstate rs_L rs_APL rs_lines]. destruct (4 <? rs_L ls)%nat; [reflexivity|]. rewrite given_units. cbv zeta. set (given := if Req_EM_T (rs_APL ls) 0 then false else true).
  set (r := fun e => if given && useAPL then Ok (rs_APL ls * neutronWaveNumber C w e) else omap (fun a => a * neutronWaveNumber C w e) (ch e)).
  set (r' := fun e => if given && useAPL then Ok (rs_APL ls / t * neutronWaveNumber C w e) else omap (fun a => a * neutronWaveNumber C w e) (units_length t ch e)).
  assert (H : same_rho t r' r).
  { intros e. unfold r', r. rewrite (length_units t T), (neutron_units t T). destruct (given && useAPL); [f_equal; field; lra|]. destruct (ch e); try reflexivity. cbn [omap bind]. f_equal. field. lra. }
  rewrite mapM_map. assert (M : forall l, mapM (fun x => rm_build_resonance SPI (rs_L ls) r' (units_rm_line t x)) l = match mapM (rm_build_resonance SPI (rs_L ls) r) l with Ok ys => Ok (map (units_rm t) ys) | o => o end).
  { induction l as [|x l IH]; [reflexivity|]. cbn [mapM]. rewrite (build_rm_units SPI (rs_L ls) r' r x H). destruct (rm_build_resonance SPI (rs_L ls) r x); cbn [bind]; [|reflexivity ..]. rewrite IH. destruct (mapM (rm_build_resonance SPI (rs_L ls) r) l); reflexivity. }
  rewrite M. destruct (mapM (rm_build_resonance SPI (rs_L ls) r) (rs_lines ls)); cbn [bind]; [|reflexivity ..]. unfold units_rm_lvalue. cbn. destruct given; reflexivity.
Qed.
Theorem rm_build_units f tag ch sc useAPL : rm_keyed sort -> rm_build C sort (units_rm_file t f) tag (units_length t ch) (units_length t sc) useAPL = units_rm_made t (rm_build C sort f tag ch sc useAPL).
Proof.
  intros K. unfold rm_build. cbn [units_rm_file rf_lstates rf_SPI]. destruct (rf_lstates f) as [|first lss]; [reflexivity|]. cbn [map]. change (units_rm_lstate t first :: map (units_rm_lstate t) lss) with (map (units_rm_lstate t) (first :: lss)). cbn [units_rm_lstate rs_AWRI].
  set (B := rm_build_lvalue (rf_SPI f) (neutronWaveNumber C (rs_AWRI first)) ch useAPL). rewrite mapM_map.
  assert (M : forall l, mapM (fun x => rm_build_lvalue (rf_SPI f) (neutronWaveNumber C (rs_AWRI first)) (units_length t ch) useAPL (units_rm_lstate t x)) l = match mapM B l with Ok ys => Ok (map (units_rm_lvalue t) ys) | o => o end).
  { induction l as [|x l IH]; [reflexivity|]. cbn [mapM]. rewrite build_rm_lvalue_units. fold B. destruct (B x); cbn [bind]; [|reflexivity ..]. rewrite IH. destruct (mapM B l); reflexivity. }
  rewrite M. destruct (mapM B (first :: lss)) as [lvs| | |]; cbn [bind]; [|reflexivity ..]. unfold units_rm_made, units_rm_system. cbn. do 2 f_equal. unfold rm_order. rewrite !map_map. apply map_ext. intros lv. unfold units_rm_lvalue. cbn. rewrite K by reflexivity. reflexivity.
Qed.
Theorem rm_apply_units f NRO NAPS table : rm_keyed sort -> NAPS <> 0%Z ->
  rm_apply C sort (units_rm_file t f) NRO NAPS (units_table t table) = units_rm_made t (rm_apply C sort f NRO NAPS table).
Proof.
  intros K N. unfold rm_apply. destruct (Z.eqb_spec NAPS 0) as [Z|_]; [contradiction|].
  assert (E : forall o' o, o' = units_rm_made t o -> match o' with Throw _ => Throw (RuntimeError "The resonance range does not appear to contain Reich-Moore parameters") | x => x end =
    units_rm_made t (match o with Throw _ => Throw (RuntimeError "The resonance range does not appear to contain Reich-Moore parameters") | x => x end)).
  { intros o' o ->. destruct o as [s|x|x|]; reflexivity. }
  apply E. clear E. destruct NRO.
  - destruct (NAPS =? 1)%Z; [|destruct (NAPS =? 2)%Z; [|reflexivity]]; destruct table as [g|]; cbn [units_table bind]; try reflexivity.
    + exact (rm_build_units f Neither g g false K).
    + exact (rm_build_units f ChannelTag (fun _ => Ok (rf_AP f)) g true K).
  - destruct (NAPS =? 1)%Z; [|reflexivity]. exact (rm_build_units f Both (fun _ => Ok (rf_AP f)) (fun _ => Ok (rf_AP f)) true K).
Qed.
End Units.
Lemma insertion_rm_keyed : rm_keyed (insertion_sort rm_flagged).
Proof.
  intros f l H. assert (I : forall x m, insert rm_flagged (f x) (map f m) = map f (insert rm_flagged x m)).
  { intros x m. induction m as [|y m IH]; [reflexivity|]. cbn [map insert]. rewrite !H. destruct (Rle_lt_dec (rm_flagged x) (rm_flagged y)); [reflexivity|]. cbn [map]. rewrite IH. reflexivity. }
  unfold insertion_sort. induction l as [|x l IH]; [reflexivity|]. cbn [map fold_right]. rewrite IH. apply I.
Qed.
