(** Breit-Wigner cross sections of the older interface in other units. *)
From Coq Require Import String List ZArith Reals Lra Lia Bool FunctionalExtensionality.
From Verif Require Import Outcome QuantumModel SpinFactorModel HardSphereModel KinematicsModel RMatrixModel ChannelModel BreitWignerModel ListFacts UnitsSpec UnitsProofs UnitsOldSpec.
Import ListNotations.
Open Scope R_scope.

Section Units.
Variable t : R.
Hypothesis T : 0 < t.
Variable C : R.
Notation up x := (t * t * x).
Lemma root_units e : sqrt (Rabs (up e)) = t * sqrt (Rabs e).
Proof. rewrite Rabs_mult, (Rabs_pos_eq (t * t)) by nra. rewrite sqrt_mult_alt by nra. rewrite sqrt_square by lra. reflexivity. Qed.
Lemma length_units f e : units_length t f (up e) = match f e with Ok a => Ok (a / t) | o => o end.
Proof. unfold units_length. replace (up e / (t * t)) with e by (field; lra). reflexivity. Qed.
Lemma psi_units e p i : psiChi (up e) (up p) (i / (t * t)) = psiChi e p i.
Proof. unfold psiChi. replace (2 * (up e - up p) * (i / (t * t))) with (2 * (e - p) * i) by (field; lra). reflexivity. Qed.
Definition same_kernel (k' k : R -> R -> R * R) : Prop := forall p i, k' (up p) (i / (t * t)) = k p i.
Lemma common_units r P S c k' k : same_kernel k' k -> bw_common (units_level t r) P S (up c) k' =
  match bw_common r P S c k with Some (a, b, w, i) => Some (a, b, w, i / (t * t)) | None => None end.
Proof.
  intros K. unfold bw_common. cbn [units_level b_inverse b_neutron b_capture b_fission b_energy b_shift]. destruct (b_inverse r) as [v|]; [|reflexivity].
  replace (up (b_neutron r) * v * P + up (b_capture r) + up (b_fission r) + up c) with (up (b_neutron r * v * P + b_capture r + b_fission r + c)) by ring. rewrite fdiv_less by nra. destruct (fdiv 1 _) as [i|]; [|reflexivity].
  replace (up (b_energy r) + 0.5 * (up (b_neutron r) * v) * (b_shift r - S)) with (up (b_energy r + 0.5 * (b_neutron r * v) * (b_shift r - S))) by ring. rewrite K. destruct (k _ i) as [a b].
  replace (up (b_neutron r) * v * P * (i / (t * t))) with (b_neutron r * v * P * i) by (field; lra). reflexivity.
Qed.
Lemma slbw_call_units r P S A B c k' k : same_kernel k' k -> slbw_call (units_level t r) P S A B (up c) k' = slbw_call r P S A B c k.
Proof.
  intros K. unfold slbw_call. rewrite (common_units r P S c k' k K). destruct (bw_common r P S c k) as [[[[a b] w] i]|]; [|reflexivity]. cbn [units_level b_capture b_fission b_g].
  replace (a * (i / (t * t)) * up (b_capture r)) with (a * i * b_capture r) by (field; lra). replace (a * (i / (t * t)) * up (b_fission r)) with (a * i * b_fission r) by (field; lra). reflexivity.
Qed.
Lemma mlbw_call_units r P S c k' k : same_kernel k' k -> mlbw_call (units_level t r) P S (up c) k' = mlbw_call r P S c k.
Proof.
  intros K. unfold mlbw_call. rewrite (common_units r P S c k' k K). destruct (bw_common r P S c k) as [[[[a b] w] i]|]; [|reflexivity]. cbn [units_level b_capture b_fission].
  replace (a * (i / (t * t)) * w * up (b_capture r)) with (a * i * w * b_capture r) by (field; lra). replace (a * (i / (t * t)) * w * up (b_fission r)) with (a * i * w * b_fission r) by (field; lra). reflexivity.
Qed.
Definition same_width (c' c : bw_resonance -> option R) : Prop := forall r, c' (units_level t r) = units_width t (c r).
Lemma slbw_lvalue_units lv k' k a b c' c : same_kernel k' k -> same_width c' c -> slbw_lvalue (units_lvalue t lv) k' a b c' = slbw_lvalue lv k a b c.
Proof.
  intros K W. unfold slbw_lvalue. cbn [units_lvalue lv_l lv_resonances]. destruct (penetrationShift _ a) as [ps| | |]; cbn [bind]; [|reflexivity ..]. destruct (phaseShift _ b) as [phi| | |]; cbn [bind]; [|reflexivity ..]. rewrite map_map.
  rewrite (map_ext _ (fun r => let? c := c r in slbw_call r (fst ps) (snd ps) (sin phi * sin phi) (sin (2 * phi)) c k)); [reflexivity|].
  intros r. rewrite W. destruct (c r) as [x|]; [|reflexivity]. cbn [units_width]. apply slbw_call_units, K.
Qed.
Lemma group_from_units l : forall x acc, group_from b_g (units_level t x) (map (units_level t) acc) (map (units_level t) l) = map (fun g => (units_level t (fst g), map (units_level t) (snd g))) (group_from b_g x acc l).
Proof.
  induction l as [|y l IH]; intros x acc; cbn [map group_from fst snd]; [rewrite map_rev; reflexivity|]. change (b_g (units_level t x)) with (b_g x). change (b_g (units_level t y)) with (b_g y).
  destruct (Req_EM_T (b_g x) (b_g y)); [exact (IH x (y :: acc))|]. cbn [map fst snd]. rewrite map_rev. f_equal. exact (IH y []).
Qed.
Lemma group_units l : group_by b_g (map (units_level t) l) = map (fun g => (units_level t (fst g), map (units_level t) (snd g))) (group_by b_g l).
Proof. destruct l as [|x l]; [reflexivity|]. exact (group_from_units l x []). Qed.
Lemma mlbw_lvalue_units spin lv k' k a b c' c : same_kernel k' k -> same_width c' c -> mlbw_lvalue spin (units_lvalue t lv) k' a b c' = mlbw_lvalue spin lv k a b c.
Proof.
  intros K W. unfold mlbw_lvalue. cbn [units_lvalue lv_l lv_resonances lv_gsum]. destruct (penetrationShift _ a) as [ps| | |]; cbn [bind]; [|reflexivity ..]. destruct (phaseShift _ b) as [phi| | |]; cbn [bind]; [|reflexivity ..]. rewrite group_units, map_map.
  rewrite (map_ext _ (mlbw_Jgroup ps (sin phi * sin phi) (sin (2 * phi)) k c)); [reflexivity|].
  intros [x xs]. unfold mlbw_Jgroup. cbn [fst snd]. change (units_level t x :: map (units_level t) xs) with (map (units_level t) (x :: xs)). rewrite map_map.
  rewrite (map_ext _ (fun r => let? c := c r in mlbw_call r (fst ps) (snd ps) c k)); [reflexivity|]. intros r. rewrite W. destruct (c r) as [y|]; [|reflexivity]. cbn [units_width]. apply mlbw_call_units, K.
Qed.
Lemma wave_old_units w e : waveNumberOld C w (up e) = t * waveNumberOld C w e.
Proof. unfold waveNumberOld. rewrite root_units. ring. Qed.
Lemma mapM_ext {A B} (f g : A -> outcome B) l : (forall x, f x = g x) -> mapM f l = mapM g l.
Proof. intros H. induction l as [|x l IH]; [reflexivity|]. cbn. rewrite H, IH. reflexivity. Qed.
Lemma mapM_map {A A' B} (h : A -> A') (f : A' -> outcome B) l : mapM f (map h l) = mapM (fun x => f (h x)) l.
Proof. induction l as [|x l IH]; [reflexivity|]. cbn. rewrite IH. reflexivity. Qed.
Lemma older_units lv1 s e : (forall lv k' k a b c' c, same_kernel k' k -> same_width c' c -> lv1 (units_lvalue t lv) k' a b c' = lv1 lv k a b c) ->
  bw_evaluate C lv1 (units_older t s) (up e) = units_triple t (bw_evaluate C lv1 s e).
Proof.
  intros H. unfold bw_evaluate. cbn [units_older s_channel s_scattering s_ratio s_lvalues]. rewrite !length_units, !wave_old_units. destruct (s_channel s e) as [a| | |]; cbn [bind]; [|reflexivity ..]. destruct (s_scattering s e) as [b| | |]; cbn [bind]; [|reflexivity ..].
  set (k := waveNumberOld C (s_ratio s) e). replace (a / t * (t * k)) with (a * k) by (field; lra). replace (b / t * (t * k)) with (b * k) by (field; lra). rewrite mapM_map.
  rewrite (mapM_ext _ (fun lv => do comp <- competitiveWidth lv e (fun e => omap (fun a => waveNumberOld C (s_ratio s) e * a) (s_channel s e)) ; lv1 lv (psiChi e) (a * k) (b * k) comp)).
  - destruct (mapM _ (s_lvalues s)) as [xs| | |]; cbn [bind]; [|reflexivity ..]. replace (t * k * (t * k)) with (up (k * k)) by ring. rewrite fdiv_less by nra. destruct (fdiv (4 * pi_value) (k * k)) as [f|]; [|reflexivity]. destruct (all_finite xs) as [ys|]; [|reflexivity].
    destruct (taccumulate ys (0, 0, 0)) as [[x y] z]. cbn. do 2 f_equal. f_equal; [f_equal|]; field; lra.
  - intros lv. unfold competitiveWidth. cbn [units_lvalue lv_q lv_l]. destruct (lv_q lv) as [q|]; cbn [units_width].
    + replace (up e + up q) with (up (e + q)) by ring. rewrite length_units, wave_old_units. destruct (s_channel s (e + q)) as [d| | |]; cbn [omap bind]; [|reflexivity ..]. replace (t * waveNumberOld C (s_ratio s) (e + q) * (d / t)) with (waveNumberOld C (s_ratio s) (e + q) * d) by (field; lra).
      destruct (penetrationShift _ _) as [ps| | |]; cbn [bind]; [|reflexivity ..]. apply H; [intros p i; apply psi_units|]. intros r. cbn [units_level b_competitive]. destruct (b_competitive r); [|reflexivity]. cbn [units_width]. f_equal. ring.
    + cbn [bind]. apply H; [intros p i; apply psi_units|]. intros r. cbn [units_width]. rewrite Rmult_0_r. reflexivity.
Qed.
Theorem slbw_older_units s e : slbw_evaluate C (units_older t s) (up e) = units_triple t (slbw_evaluate C s e).
Proof. unfold slbw_evaluate. apply older_units. intros. apply slbw_lvalue_units; assumption. Qed.
Theorem mlbw_older_units s e : mlbw_evaluate C (units_older t s) (up e) = units_triple t (mlbw_evaluate C s e).
Proof. unfold mlbw_evaluate. change (s_spin (units_older t s)) with (s_spin s). apply older_units. intros. apply mlbw_lvalue_units; assumption. Qed.

Variable sort : list bw_resonance -> list bw_resonance.
Lemma neutron_units w e : neutronWaveNumber C w (up e) = t * neutronWaveNumber C w e.
Proof. unfold neutronWaveNumber. rewrite root_units. ring. Qed.
Definition same_rho (r' r : R -> outcome R) : Prop := forall e, r' (up e) = r e.
Lemma build_level_units SPI l r' r off x : same_rho r' r -> bw_build_resonance SPI l r' (units_width t off) (units_line t x) =
  match bw_build_resonance SPI l r off x with Ok y => Ok (units_level t y) | o => o end.
Proof.
  intros H. unfold bw_build_resonance. cbn [units_line ln_ER ln_GN ln_GG ln_GF ln_GX ln_AJ]. destruct off as [q|]; cbn [units_width].
  - replace (up (ln_ER x) + up q) with (up (ln_ER x + q)) by ring. rewrite H. destruct (r (ln_ER x + q)) as [a| | |]; cbn [bind]; [|reflexivity ..]. destruct (penetrationShift _ a) as [p| | |]; cbn [bind]; [|reflexivity ..].
    rewrite Rabs_mult, (Rabs_pos_eq (t * t)) by nra. rewrite H. destruct (r (Rabs (ln_ER x))) as [b| | |]; cbn [bind]; [|reflexivity ..]. destruct (penetrationShift _ b) as [p'| | |]; cbn [bind]; [|reflexivity ..].
    unfold makeBW, units_level. cbn. rewrite fdiv_more. reflexivity.
  - cbn [bind]. rewrite H. destruct (r (ln_ER x)) as [b| | |]; cbn [bind]; [|reflexivity ..]. destruct (penetrationShift _ b) as [p'| | |]; cbn [bind]; [|reflexivity ..]. unfold makeBW, units_level. cbn. rewrite Rmult_0_r. reflexivity.
Qed.
Lemma build_lvalue_units SPI r' r ls : same_rho r' r -> bw_build_lvalue SPI r' (units_lstate t ls) = match bw_build_lvalue SPI r ls with Ok y => Ok (units_lvalue t y) | o => o end.
Proof.
  intros H. unfold bw_build_lvalue. cbn [units_lstate ls_L ls_LRX ls_QX ls_AWRI ls_lines]. destruct (4 <? ls_L ls)%nat; [reflexivity|].
  set (off := if ls_LRX ls then Some (ls_QX ls * (ls_AWRI ls / (ls_AWRI ls + 1))) else None).
  replace (if ls_LRX ls then Some (up (ls_QX ls) * (ls_AWRI ls / (ls_AWRI ls + 1))) else None) with (units_width t off) by (unfold off; destruct (ls_LRX ls); [cbn [units_width]; f_equal; unfold Rdiv; ring | reflexivity]).
  rewrite mapM_map. assert (M : forall l, mapM (fun x => bw_build_resonance SPI (ls_L ls) r' (units_width t off) (units_line t x)) l = match mapM (bw_build_resonance SPI (ls_L ls) r off) l with Ok ys => Ok (map (units_level t) ys) | o => o end).
  { induction l as [|x l IH]; [reflexivity|]. cbn [mapM]. rewrite (build_level_units SPI (ls_L ls) r' r off x H). destruct (bw_build_resonance SPI (ls_L ls) r off x); cbn [bind]; [|reflexivity ..]. rewrite IH. destruct (mapM (bw_build_resonance SPI (ls_L ls) r off) l); reflexivity. }
  rewrite M. destruct (mapM (bw_build_resonance SPI (ls_L ls) r off) (ls_lines ls)); reflexivity.
Qed.
Lemma order_units lvs : keyed sort -> order sort (map (units_lvalue t) lvs) = map (units_lvalue t) (order sort lvs).
Proof. intros K. unfold order. rewrite !map_map. apply map_ext. intros lv. unfold units_lvalue. cbn. rewrite K by reflexivity. reflexivity. Qed.
Theorem build_units ordered f ch sc : (ordered = true -> keyed sort) -> bw_build C sort ordered (units_file t f) (units_length t ch) (units_length t sc) = units_made t (bw_build C sort ordered f ch sc).
Proof.
  intros K. unfold bw_build. cbn [units_file f_lstates f_SPI]. destruct (f_lstates f) as [|first lss]; [reflexivity|]. cbn [map]. change (units_lstate t first :: map (units_lstate t) lss) with (map (units_lstate t) (first :: lss)). cbn [units_lstate ls_AWRI].
  set (r := fun e => omap (fun a => neutronWaveNumber C (ls_AWRI first) e * a) (ch e)). set (r' := fun e => omap (fun a => neutronWaveNumber C (ls_AWRI first) e * a) (units_length t ch e)).
  assert (H : same_rho r' r).
  { intros e. unfold r', r. rewrite length_units, neutron_units. destruct (ch e); try reflexivity. cbn [omap bind]. f_equal. field. lra. }
  rewrite mapM_map. assert (M : forall l, mapM (fun x => bw_build_lvalue (f_SPI f) r' (units_lstate t x)) l = match mapM (bw_build_lvalue (f_SPI f) r) l with Ok ys => Ok (map (units_lvalue t) ys) | o => o end).
  { induction l as [|x l IH]; [reflexivity|]. cbn [mapM]. rewrite (build_lvalue_units _ r' r x H). destruct (bw_build_lvalue (f_SPI f) r x); cbn [bind]; [|reflexivity ..]. rewrite IH. destruct (mapM (bw_build_lvalue (f_SPI f) r) l); reflexivity. }
  rewrite M. destruct (mapM (bw_build_lvalue (f_SPI f) r) (first :: lss)) as [lvs| | |]; cbn [bind]; [|reflexivity ..]. unfold units_made, units_older. cbn. destruct ordered; [rewrite (order_units lvs (K eq_refl))|]; reflexivity.
Qed.
Theorem apply_units ordered f NRO NAPS table : (ordered = true -> keyed sort) -> NAPS <> 0%Z ->
  bw_apply C sort ordered (units_file t f) NRO NAPS (units_table t table) = units_made t (bw_apply C sort ordered f NRO NAPS table).
Proof.
  intros K N. unfold bw_apply. destruct (Z.eqb_spec NAPS 0) as [Z|_]; [contradiction|].
  assert (E : forall o' o, o' = units_made t o -> match o' with Throw BadOptional => Throw BadOptional | Throw _ => Throw (RuntimeError "The resonance range does not appear to contain parameters") | x => x end =
    units_made t (match o with Throw BadOptional => Throw BadOptional | Throw _ => Throw (RuntimeError "The resonance range does not appear to contain parameters") | x => x end)).
  { intros o' o ->. destruct o as [s|x|x|]; try reflexivity. destruct x; reflexivity. }
  apply E. clear E. destruct NRO.
  - destruct (NAPS =? 1)%Z; [|destruct (NAPS =? 2)%Z; [|reflexivity]]; destruct table as [g|]; cbn [units_table bind]; try reflexivity.
    + exact (build_units ordered f g g K).
    + exact (build_units ordered f (fun _ => Ok (f_AP f)) g K).
  - destruct (NAPS =? 1)%Z; [|reflexivity]. exact (build_units ordered f (fun _ => Ok (f_AP f)) (fun _ => Ok (f_AP f)) K).
Qed.
End Units.
Lemma insertion_keyed : keyed (insertion_sort b_g).
Proof.
  intros f l H. assert (I : forall x m, insert b_g (f x) (map f m) = map f (insert b_g x m)).
  { intros x m. induction m as [|y m IH]; [reflexivity|]. cbn [map insert]. rewrite !H. destruct (Rle_lt_dec (b_g x) (b_g y)); [reflexivity|]. cbn [map]. rewrite IH. reflexivity. }
  unfold insertion_sort. induction l as [|x l IH]; [reflexivity|]. cbn [map fold_right]. rewrite IH. apply I.
Qed.
