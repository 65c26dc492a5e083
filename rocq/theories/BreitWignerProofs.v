(** The older Breit-Wigner interface against the collision matrix, one l value at a time. *)
From Coq Require Import List ZArith Reals Lra Lia Permutation Bool Psatz.
From Verif Require Import Outcome QuantumModel QuantumSpec SpinFactorModel SpinFactorProofs HardSphereModel
  HardSphereSpec HardSphereProofs KinematicsModel Cplx RMatrixModel ChannelModel BreitWignerModel
  BreitWignerSpec ListFacts.
Import ListNotations.
Open Scope R_scope.

(** * Complex algebra *)
Lemma csum_re l : re (csum l) = Rsum (map re l).
Proof. induction l as [|x l IH]; cbn [csum fold_right map]; [reflexivity|]. rewrite Rsum_cons, <- IH; reflexivity. Qed.
Lemma csum_im l : im (csum l) = Rsum (map im l).
Proof. induction l as [|x l IH]; cbn [csum fold_right map]; [reflexivity|]. rewrite Rsum_cons, <- IH; reflexivity. Qed.
Lemma csum_perm l m : Permutation l m -> csum l = csum m.
Proof.
  intros P. apply cx_ext; rewrite ?csum_re, ?csum_im; apply Rsum_perm, Permutation_map; exact P.
Qed.

Lemma hard_sphere_phase l rho phi : is_phase l rho phi -> hard_sphere_U l rho = cis (- (2 * phi)).
Proof.
  intros (s & Hs & HG & HF). pose proof (amplitude2_pos l rho) as Ha.
  assert (Hq : sqrt (amplitude2 l rho) * sqrt (amplitude2 l rho) = amplitude2 l rho)
    by (apply sqrt_sqrt; lra).
  assert (HA : waveG l rho * waveG l rho + waveF l rho * waveF l rho = amplitude2 l rho)
    by (unfold amplitude2; ring).
  assert (Hss : s * s = 1) by (destruct Hs; subst; lra).
  unfold hard_sphere_U, cdiv, cx_mul, cx_inv, norm2, cis. cbn [re im].
  rewrite HA, cos_neg, sin_neg, cos_2a, sin_2a, HG, HF. f_equal.
  - replace (_ - _) with ((s * s) * (sqrt (amplitude2 l rho) * sqrt (amplitude2 l rho))
      * (cos phi * cos phi - sin phi * sin phi) / amplitude2 l rho) by (field; lra).
    rewrite Hss, Hq. field; lra.
  - replace (_ + _) with (- ((s * s) * (sqrt (amplitude2 l rho) * sqrt (amplitude2 l rho))
      * (2 * sin phi * cos phi) / amplitude2 l rho)) by (field; lra).
    rewrite Hss, Hq. field; lra.
Qed.

(** A and B of the closed form of |1 - U|^2 *)
Definition sumA (E : R) (vs : list level) : R :=
  Rsum (map (fun v => w_n v * (w_T v / 2) / norm2 (pole E v)) vs).
Definition sumB (E : R) (vs : list level) : R :=
  Rsum (map (fun v => w_n v * (E - w_E v) / norm2 (pole E v)) vs).

Lemma collision_sum E vs :
  csum (map (fun v => cdiv (cx_mul ci (rcx (w_n v))) (pole E v)) vs) = Cx (- sumA E vs) (- sumB E vs).
Proof.
  apply cx_ext; rewrite ?csum_re, ?csum_im, map_map; cbn [re im].
  - unfold sumA.
    replace (- Rsum (map (fun v => w_n v * (w_T v / 2) / norm2 (pole E v)) vs))
      with (-1 * Rsum (map (fun v => w_n v * (w_T v / 2) / norm2 (pole E v)) vs)) by ring.
    rewrite <- Rsum_scale. apply Rsum_ext; intros v _.
    unfold cdiv, cx_mul, cx_inv; cbn [re im ci rcx pole]. unfold Rdiv; ring.
  - unfold sumB.
    replace (- Rsum (map (fun v => w_n v * (E - w_E v) / norm2 (pole E v)) vs))
      with (-1 * Rsum (map (fun v => w_n v * (E - w_E v) / norm2 (pole E v)) vs)) by ring.
    rewrite <- Rsum_scale. apply Rsum_ext; intros v _.
    unfold cdiv, cx_mul, cx_inv; cbn [re im ci rcx pole]. unfold Rdiv; ring.
Qed.

Lemma sin2_cos2' x : cos x * cos x + sin x * sin x = 1.
Proof. pose proof (sin2_cos2 x); unfold Rsqr in *; lra. Qed.

Lemma scattered_closed phi E vs :
  scattered (collision (cis (- (2 * phi))) E vs) =
  4 * (sin phi * sin phi) - 4 * (sin phi * sin phi) * sumA E vs + 2 * sin (2 * phi) * sumB E vs
  + sumA E vs * sumA E vs + sumB E vs * sumB E vs.
Proof.
  unfold collision. rewrite collision_sum. unfold scattered, cis.
  set (a := sumA E vs). set (b := sumB E vs).
  unfold norm2, cx_add, cx_opp, cx_mul, cx_one; cbn [re im].
  rewrite cos_neg, sin_neg, cos_2a_sin.
  set (t := sin (2 * phi)).
  set (c := 1 - 2 * sin phi * sin phi).
  assert (Ht : c * c + t * t = 1).
  { unfold t, c. rewrite sin_2a. pose proof (sin2_cos2' phi).
    replace (2 * sin phi * cos phi * (2 * sin phi * cos phi))
      with (4 * (sin phi * sin phi) * (cos phi * cos phi)) by ring.
    replace (cos phi * cos phi) with (1 - sin phi * sin phi) by lra. ring. }
  match goal with |- ?x = _ =>
    replace x with (1 - 2 * (c * (1 - a) - t * b) + (c * c + t * t) * ((1 - a) * (1 - a) + b * b)) by ring
  end.
  rewrite Ht. unfold c. ring.
Qed.

Lemma scattered_hard phi : scattered (cis (- (2 * phi))) = 4 * (sin phi * sin phi).
Proof.
  pose proof (scattered_closed phi 0 []) as H. unfold sumA, sumB in H. cbn [map] in H.
  rewrite !Rsum_nil in H. unfold collision in H. cbn [map csum fold_right] in H.
  replace (cx_mul (cis (- (2 * phi))) (cx_add cx_one cx_zero)) with (cis (- (2 * phi))) in H.
  - lra.
  - apply cx_ext; cbn; ring.
Qed.

Lemma sumA1 E v : sumA E [v] = w_n v * (w_T v / 2) / norm2 (pole E v).
Proof. unfold sumA; cbn; unfold Rsum; cbn; ring. Qed.
Lemma sumB1 E v : sumB E [v] = w_n v * (E - w_E v) / norm2 (pole E v).
Proof. unfold sumB; cbn; unfold Rsum; cbn; ring. Qed.

Lemma norm2_pole E v : norm2 (pole E v) = (E - w_E v) * (E - w_E v) + w_T v / 2 * (w_T v / 2).
Proof. unfold norm2, pole; cbn [re im]; ring. Qed.
Lemma norm2_pole_pos E v : w_T v <> 0 -> 0 < norm2 (pole E v).
Proof.
  intros H. rewrite norm2_pole. assert (0 < w_T v * w_T v) by nra.
  pose proof (Rle_0_sqr (E - w_E v)). unfold Rsqr in *. lra.
Qed.

(** |A + iB|^2 of one level is Gamma_n^2 / N *)
Lemma one_level_square E v : norm2 (pole E v) <> 0 ->
  sumA E [v] * sumA E [v] + sumB E [v] * sumB E [v] = w_n v * w_n v / norm2 (pole E v).
Proof.
  intros H. rewrite sumA1, sumB1.
  replace (_ + _) with (w_n v * w_n v * ((E - w_E v) * (E - w_E v) + w_T v / 2 * (w_T v / 2))
    / (norm2 (pole E v) * norm2 (pole E v))) by (field; exact H).
  rewrite <- norm2_pole. field; exact H.
Qed.

Lemma scattered_one phi E v : norm2 (pole E v) <> 0 ->
  scattered (collision (cis (- (2 * phi))) E [v]) - scattered (cis (- (2 * phi))) =
  w_n v * (w_n v - 2 * w_T v * (sin phi * sin phi) + 2 * (E - w_E v) * sin (2 * phi))
  / norm2 (pole E v).
Proof.
  intros H. rewrite scattered_closed, scattered_hard.
  pose proof (one_level_square E v H) as Q. rewrite sumA1, sumB1 in *.
  replace (w_n v * (w_n v - 2 * w_T v * (sin phi * sin phi) + 2 * (E - w_E v) * sin (2 * phi))
    / norm2 (pole E v)) with (w_n v * w_n v / norm2 (pole E v)
      - 4 * (sin phi * sin phi) * (w_n v * (w_T v / 2) / norm2 (pole E v))
      + 2 * sin (2 * phi) * (w_n v * (E - w_E v) / norm2 (pole E v))) by (field; exact H).
  lra.
Qed.

Lemma collision_perm U0 E vs ws : Permutation vs ws -> collision U0 E vs = collision U0 E ws.
Proof.
  intros P. unfold collision. do 2 f_equal. apply csum_perm, Permutation_map; exact P.
Qed.

Lemma eq3 {A B C} (a a' : A) (b b' : B) (c c' : C) : a = a' -> b = b' -> c = c' -> (a, b, c) = (a', b', c').
Proof. congruence. Qed.
Lemma eq4 {A B C D} (a a' : A) (b b' : B) (c c' : C) (d d' : D) :
  a = a' -> b = b' -> c = c' -> d = d' -> (a, b, c, d) = (a', b', c', d').
Proof. congruence. Qed.

(** * One resonance *)
Definition vopt (o : option R) : R := match o with Some x => x | None => 0 end.
Definition has {A} (o : option A) : bool := match o with Some _ => true | None => false end.

(** The level of a resonance of the older interface *)
Definition old_level (P S : R) (comp : bw_resonance -> option R) (r : bw_resonance) : level :=
  let w := b_neutron r * vopt (b_inverse r) in
  Level (b_energy r + w * (b_shift r - S) / 2) (w * P) (b_capture r) (b_fission r)
        (w * P + b_capture r + b_fission r + vopt (comp r)).
(** Everything that its evaluation needs is finite *)
Definition finite (P S : R) (comp : bw_resonance -> option R) (r : bw_resonance) : bool :=
  has (b_inverse r) && has (comp r) && negb (Reqb (w_T (old_level P S comp r)) 0).

Lemma common_value E P S comp r :
  (let? c := comp r in bw_common r P S c (psiChi E)) =
  if finite P S comp r then
    let v := old_level P S comp r in
    Some (w_T v * w_T v / 4 / norm2 (pole E v), (E - w_E v) * w_T v / 2 / norm2 (pole E v),
          w_n v / w_T v, / w_T v)
  else None.
Proof.
  unfold finite, bw_common, has. destruct (comp r) as [c|] eqn:Ec.
  2:{ destruct (b_inverse r); reflexivity. }
  destruct (b_inverse r) as [i|] eqn:Ei; [|reflexivity].
  set (v := old_level P S comp r).
  assert (ET : b_neutron r * i * P + b_capture r + b_fission r + c = w_T v)
    by (unfold v, old_level; rewrite Ec, Ei; reflexivity).
  assert (En : b_neutron r * i * P = w_n v) by (unfold v, old_level; rewrite Ei; reflexivity).
  assert (EE : b_energy r + 0.5 * (b_neutron r * i) * (b_shift r - S) = w_E v).
  { unfold v, old_level; rewrite Ei; cbn [w_E vopt]. lra. }
  rewrite ET, EE, En. unfold fdiv, Reqb.
  destruct (Req_EM_T (w_T v) 0) as [Z|NZ]; [reflexivity|]. cbn [andb negb].
  unfold psiChi. pose proof (norm2_pole_pos E v NZ) as Hn.
  assert (Hx : 1 + 2 * (E - w_E v) * (1 / w_T v) * (2 * (E - w_E v) * (1 / w_T v))
               = norm2 (pole E v) * (4 / (w_T v * w_T v))).
  { rewrite norm2_pole. field; exact NZ. }
  rewrite Hx. f_equal. apply eq4; field; repeat split; lra.
Qed.

(** The packs of the two formalisms, a quarter of the theory *)
Definition sl_value (phi E P S : R) comp (r : bw_resonance) : triple :=
  let v := old_level P S comp r in
  (b_g r * (scattered (collision (cis (- (2 * phi))) E [v]) - scattered (cis (- (2 * phi)))) / 4,
   b_g r * reaction E (w_c v) v / 4, b_g r * reaction E (w_f v) v / 4).
Definition ml_value (E P S : R) comp (r : bw_resonance) : R * R * R * R :=
  let v := old_level P S comp r in
  (sumA E [v] / 2, sumB E [v] / 2, reaction E (w_c v) v / 4, reaction E (w_f v) v / 4).

Lemma slbw_call_value phi E P S comp r :
  (let? c := comp r in slbw_call r P S (sin phi * sin phi) (sin (2 * phi)) c (psiChi E)) =
  if finite P S comp r then Some (sl_value phi E P S comp r) else None.
Proof.
  pose proof (common_value E P S comp r) as H. unfold slbw_call.
  destruct (comp r) as [c|] eqn:Ec.
  2:{ unfold finite, has. rewrite Ec, andb_false_r. reflexivity. }
  rewrite H. destruct (finite P S comp r) eqn:F; [|reflexivity].
  set (v := old_level P S comp r). cbn zeta.
  assert (NZ : w_T v <> 0).
  { unfold finite in F. apply andb_true_iff in F as [_ F]. fold v in F. unfold Reqb in F.
    destruct (Req_EM_T (w_T v) 0); [discriminate | assumption]. }
  pose proof (norm2_pole_pos E v NZ) as Hn.
  unfold sl_value. fold v. cbn zeta. rewrite scattered_one by lra. unfold reaction, tmul.
  assert (Ec' : b_capture r = w_c v) by reflexivity. assert (Ef' : b_fission r = w_f v) by reflexivity.
  rewrite Ec', Ef'. f_equal. apply eq3; field; repeat split; lra.
Qed.

Lemma mlbw_call_value E P S comp r :
  (let? c := comp r in mlbw_call r P S c (psiChi E)) =
  if finite P S comp r then Some (ml_value E P S comp r) else None.
Proof.
  pose proof (common_value E P S comp r) as H. unfold mlbw_call.
  destruct (comp r) as [c|] eqn:Ec.
  2:{ unfold finite, has. rewrite Ec, andb_false_r. reflexivity. }
  rewrite H. destruct (finite P S comp r) eqn:F; [|reflexivity].
  set (v := old_level P S comp r). cbn zeta.
  assert (NZ : w_T v <> 0).
  { unfold finite in F. apply andb_true_iff in F as [_ F]. fold v in F. unfold Reqb in F.
    destruct (Req_EM_T (w_T v) 0); [discriminate | assumption]. }
  pose proof (norm2_pole_pos E v NZ) as Hn.
  unfold ml_value. fold v. cbn zeta. rewrite sumA1, sumB1. unfold reaction.
  assert (Ec' : b_capture r = w_c v) by reflexivity. assert (Ef' : b_fission r = w_f v) by reflexivity.
  rewrite Ec', Ef'. f_equal. apply eq4; field; repeat split; lra.
Qed.

Lemma forallb_ext' {A} (f g : A -> bool) l : (forall x, f x = g x) -> forallb f l = forallb g l.
Proof. intros H; induction l as [|x l IH]; cbn; [reflexivity|]. rewrite H, IH; reflexivity. Qed.

Lemma all_finite_if {A B} (b : A -> bool) (d : A -> B) (f : A -> option B) l :
  (forall x, f x = if b x then Some (d x) else None) ->
  all_finite (map f l) = if forallb b l then Some (map d l) else None.
Proof.
  intros H. induction l as [|x l IH]; cbn; [reflexivity|].
  rewrite H, IH. destruct (b x), (forallb b l); reflexivity.
Qed.

(** * One l value *)
Lemma penetrationShift_ok l r : 0 < r -> (l <= 4)%nat ->
  penetrationShift (Z.of_nat l) r = Ok (P_spec l r, S_spec l r).
Proof.
  intros Hr Hl. destruct (interfaces_agree l r) as [HP HS]; [lra|].
  rewrite penetrability_code in HP by assumption. rewrite shift_code in HS by assumption.
  destruct (penetrationShift (Z.of_nat l) r) as [[p s]| | |]; cbn in *; try discriminate. congruence.
Qed.
Lemma phaseShift_ok l r : 0 < r -> (l <= 4)%nat ->
  exists phi, phaseShift (Z.of_nat l) r = Ok phi /\ is_phase l r phi.
Proof. intros Hr Hl. rewrite phases_agree by exact Hr. apply phase_code; assumption. Qed.
Lemma penetrationShift_l l r x : penetrationShift (Z.of_nat l) r = Ok x -> (l <= 4)%nat.
Proof.
  intros H. destruct (le_lt_dec l 4); [assumption|].
  destruct (old_unsupported (Z.of_nat l) r) as [E _]; [lia|]. rewrite E in H; discriminate.
Qed.

Lemma slbw_lvalue_value lv E cr sr comp : 0 < cr -> 0 < sr -> (lv_l lv <= 4)%nat ->
  let l := lv_l lv in
  let P := P_spec l cr in let S := S_spec l cr in
  let U0 := hard_sphere_U l sr in
  let v := old_level P S comp in
  slbw_lvalue lv (psiChi E) cr sr comp =
  Ok (if forallb (finite P S comp) (lv_resonances lv) then
        Some (SL_elastic l U0 E b_g v (lv_resonances lv) / 4,
              capture_sum E b_g v (lv_resonances lv) / 4, fission_sum E b_g v (lv_resonances lv) / 4)
      else None).
Proof.
  intros Hc Hs Hl. cbn zeta. unfold slbw_lvalue. rewrite penetrationShift_ok by assumption.
  destruct (phaseShift_ok (lv_l lv) sr Hs Hl) as (phi & -> & Hphi). cbn [bind fst snd].
  f_equal. rewrite (hard_sphere_phase _ _ _ Hphi).
  rewrite (all_finite_if _ _ _ _ (slbw_call_value phi E _ _ comp)).
  destruct (forallb _ _); [|reflexivity]. rewrite taccumulate_sum, !map_map.
  cbn [t0 t1 t2 fst snd sl_value]. unfold SL_elastic, capture_sum, fission_sum.
  rewrite scattered_hard. f_equal.
  assert (H4 : forall f : bw_resonance -> R, Rsum (map (fun x => f x / 4) (lv_resonances lv))
               = Rsum (map f (lv_resonances lv)) / 4).
  { intros f. rewrite (Rsum_ext _ (fun x => / 4 * f x)) by (intros; lra). rewrite Rsum_scale. lra. }
  unfold t0, t1, t2, sl_value; cbn [fst snd]. rewrite !H4. apply eq3; lra.
Qed.

(** ** Groups of equal statistical factor *)
Definition q0 (t : R * R * R * R) := fst (fst (fst t)).
Definition q1 (t : R * R * R * R) := snd (fst (fst t)).
Definition q2 (t : R * R * R * R) := snd (fst t).
Definition q3 (t : R * R * R * R) := snd t.
Lemma qaccumulate_sum l : forall a b c d,
  fold_left qadd l (a, b, c, d) =
  (a + Rsum (map q0 l), b + Rsum (map q1 l), c + Rsum (map q2 l), d + Rsum (map q3 l)).
Proof.
  induction l as [|[[[x y] z] w] l IH]; intros a b c d; cbn [fold_left qadd map].
  - rewrite Rsum_nil; repeat (f_equal; try lra).
  - rewrite IH. cbn [map q0 q1 q2 q3 fst snd]. rewrite !Rsum_cons. repeat (f_equal; try lra).
Qed.

Definition jgroup_value (phi E P S : R) comp (rs : list bw_resonance) (g : R) : triple :=
  let v := old_level P S comp in
  let A := sumA E (map v rs) in let B := sumB E (map v rs) in
  (g * ((A * A + B * B - 4 * (sin phi * sin phi) * A + 2 * sin (2 * phi) * B) / 4),
   g * (Rsum (map (fun r => reaction E (w_c (v r)) (v r)) rs) / 4),
   g * (Rsum (map (fun r => reaction E (w_f (v r)) (v r)) rs) / 4)).

Lemma Rsum_quarter {A} (f : A -> R) l : Rsum (map (fun x => f x / 4) l) = Rsum (map f l) / 4.
Proof. rewrite (Rsum_ext _ (fun x => / 4 * f x)) by (intros; lra). rewrite Rsum_scale. lra. Qed.
Lemma Rsum_half {A} (f : A -> R) l : Rsum (map (fun x => f x / 2) l) = Rsum (map f l) / 2.
Proof. rewrite (Rsum_ext _ (fun x => / 2 * f x)) by (intros; lra). rewrite Rsum_scale. lra. Qed.

Lemma jgroup_call_value phi E P S comp g :
  mlbw_Jgroup (P, S) (sin phi * sin phi) (sin (2 * phi)) (psiChi E) comp g =
  if forallb (finite P S comp) (fst g :: snd g)
  then Some (jgroup_value phi E P S comp (fst g :: snd g) (b_g (fst g))) else None.
Proof.
  unfold mlbw_Jgroup. cbn [fst snd].
  rewrite (all_finite_if _ _ _ (fst g :: snd g) (mlbw_call_value E P S comp)).
  destruct (forallb _ _); [|reflexivity]. rewrite qaccumulate_sum, !map_map.
  set (rs := fst g :: snd g). unfold ml_value, q0, q1, q2, q3; cbn [fst snd].
  assert (HA : Rsum (map (fun x => sumA E [old_level P S comp x] / 2) rs)
               = sumA E (map (old_level P S comp) rs) / 2).
  { rewrite Rsum_half. unfold sumA at 2. rewrite map_map. f_equal. apply Rsum_ext; intros; apply sumA1. }
  assert (HB : Rsum (map (fun x => sumB E [old_level P S comp x] / 2) rs)
               = sumB E (map (old_level P S comp) rs) / 2).
  { rewrite Rsum_half. unfold sumB at 2. rewrite map_map. f_equal. apply Rsum_ext; intros; apply sumB1. }
  rewrite HA, HB, !Rsum_quarter. unfold jgroup_value, tmul. cbn zeta. f_equal.
  apply eq3; lra.
Qed.

Lemma forallb_groups {A} (key : A -> R) (b : A -> bool) l : ascending key l ->
  forallb (fun g => forallb b (fst g :: snd g)) (group_by key l) = forallb b l.
Proof.
  intros Hs. apply eq_true_iff_eq. rewrite !forallb_forall. split.
  - intros H a Ha. apply (group_by_In key l a Hs) in Ha as (g & Hg & Ha).
    specialize (H g Hg). rewrite forallb_forall in H. apply H; exact Ha.
  - intros H g Hg. rewrite forallb_forall. intros a Ha. apply H.
    apply (group_by_In key l a Hs). exists g; auto.
Qed.

(** The elastic value of an l value: [d] is the value of the table D *)
Definition ml_old (l : nat) (d gsum : R) (U0 : cx) (E : R) (v : bw_resonance -> level)
    (rs : list bw_resonance) : R :=
  (d + gsum) * scattered U0
  + Rsum (map (fun x => x * (scattered (collision U0 E (map v (keyed b_g x rs))) - scattered U0))
              (nodup Req_EM_T (map b_g rs))).

(** The sum over groups whose value only uses the key of the front *)
Lemma group_by_sum2 {A} (key : A -> R) (F : list A -> R -> R) l : ascending key l ->
  Rsum (map (fun g => F (fst g :: snd g) (key (fst g))) (group_by key l)) =
  Rsum (map (fun x => F (keyed key x l) x) (nodup Req_EM_T (map key l))).
Proof.
  intros Hs.
  pose proof (group_by_sum key (fun rs => F rs (match rs with [] => 0 | a :: _ => key a end)) l Hs) as H.
  cbv beta in H.
  rewrite (Rsum_ext _ (fun g => F (fst g :: snd g) (key (fst g)))) in H by reflexivity.
  rewrite H. apply Rsum_ext. intros x Hx. f_equal.
  apply nodup_In, in_map_iff in Hx as (a & <- & Ha).
  assert (Hk : In a (keyed key (key a) l)).
  { apply filter_In. split; [exact Ha | apply Reqb_refl]. }
  destruct (keyed key (key a) l) as [|b bs] eqn:Eb; [destruct Hk|].
  assert (Hb : In b (keyed key (key a) l)) by (rewrite Eb; left; reflexivity).
  apply filter_In in Hb as [_ Hb]. apply Reqb_eq in Hb. congruence.
Qed.

(** Sums over all groups of a sum over the group *)
Lemma group_sum_all {A} (key f : A -> R) l : ascending key l ->
  Rsum (map (fun x => x * Rsum (map f (keyed key x l))) (nodup Req_EM_T (map key l))) =
  Rsum (map (fun a => key a * f a) l).
Proof.
  intros _.
  assert (G : forall ks m, NoDup ks -> (forall a, In a m -> In (key a) ks) ->
    Rsum (map (fun x => x * Rsum (map f (keyed key x m))) ks) = Rsum (map (fun a => key a * f a) m)).
  { intros ks m Hn; induction m as [|a m IH]; intros Hin.
    - change (Rsum (map (fun a => key a * f a) [])) with 0. rewrite (Rsum_ext _ (fun _ => 0)) by (intros; change (Rsum (map f (keyed key x []))) with 0; ring).
      clear; induction ks as [|k ks IH]; cbn [map]; rewrite ?Rsum_cons, ?Rsum_nil; lra.
    - cbn [map]. rewrite Rsum_cons, <- IH by (intros b Hb; apply Hin; right; exact Hb). clear IH.
      assert (Ha : In (key a) ks) by (apply Hin; left; reflexivity). clear Hin.
      assert (Off : forall ks', ~ In (key a) ks' ->
        Rsum (map (fun x => x * Rsum (map f (keyed key x (a :: m)))) ks')
        = Rsum (map (fun x => x * Rsum (map f (keyed key x m))) ks')).
      { intros ks' H. apply Rsum_ext. intros x Hx. rewrite keyed_cons, Reqb_neq; [reflexivity|].
        intros E'; apply H; rewrite E'; exact Hx. }
      induction ks as [|k ks IH]; [destruct Ha|]. inversion Hn as [|? ? Hk Hn']; subst.
      cbn [map]. rewrite !Rsum_cons. destruct Ha as [->|Ha].
      + rewrite (Off ks Hk), keyed_cons, Reqb_refl. cbn [map]. rewrite Rsum_cons. ring.
      + rewrite (IH Hn' Ha). rewrite keyed_cons, Reqb_neq; [ring|]. intros E'; apply Hk; rewrite <- E'; exact Ha. }
  apply G; [apply NoDup_nodup|]. intros a Ha. apply nodup_In, in_map; exact Ha.
Qed.

Lemma mlbw_lvalue_value I lv E cr sr comp : 0 < cr -> 0 < sr -> (lv_l lv <= 4)%nat ->
  ascending b_g (lv_resonances lv) ->
  let l := lv_l lv in
  let P := P_spec l cr in let S := S_spec l cr in
  let U0 := hard_sphere_U l sr in
  let v := old_level P S comp in
  mlbw_lvalue I lv (psiChi E) cr sr comp =
  do d <- D I (Z.of_nat l) ;
  Ok (if forallb (finite P S comp) (lv_resonances lv) then
        Some (ml_old l d (lv_gsum lv) U0 E v (lv_resonances lv) / 4,
              capture_sum E b_g v (lv_resonances lv) / 4, fission_sum E b_g v (lv_resonances lv) / 4)
      else None).
Proof.
  intros Hc Hs Hl Hasc. cbn zeta. unfold mlbw_lvalue. rewrite penetrationShift_ok by assumption.
  destruct (phaseShift_ok (lv_l lv) sr Hs Hl) as (phi & -> & Hphi). cbn [bind fst snd].
  destruct (D I (Z.of_nat (lv_l lv))) as [d| | |]; cbn [bind]; try reflexivity.
  f_equal. rewrite (hard_sphere_phase _ _ _ Hphi).
  rewrite (all_finite_if _ _ _ _ (jgroup_call_value phi E _ _ comp)).
  rewrite forallb_groups by exact Hasc.
  destruct (forallb _ _); [|reflexivity].
  rewrite taccumulate_sum, !map_map. unfold jgroup_value, t0, t1, t2; cbn [fst snd].
  set (v := old_level (P_spec (lv_l lv) cr) (S_spec (lv_l lv) cr) comp).
  set (rs := lv_resonances lv) in *.
  rewrite (group_by_sum2 b_g (fun rs g => g * ((sumA E (map v rs) * sumA E (map v rs)
     + sumB E (map v rs) * sumB E (map v rs) - 4 * (sin phi * sin phi) * sumA E (map v rs)
     + 2 * sin (2 * phi) * sumB E (map v rs)) / 4)) rs Hasc).
  rewrite (group_by_sum2 b_g (fun rs g => g * (Rsum (map (fun r => reaction E (w_c (v r)) (v r)) rs) / 4)) rs Hasc).
  rewrite (group_by_sum2 b_g (fun rs g => g * (Rsum (map (fun r => reaction E (w_f (v r)) (v r)) rs) / 4)) rs Hasc).
  unfold ml_old, capture_sum, fission_sum. rewrite scattered_hard.
  f_equal. apply eq3.
  - rewrite (Rsum_ext _ (fun x => x * (scattered (collision (cis (- (2 * phi))) E (map v (keyed b_g x rs)))
        - 4 * (sin phi * sin phi)) / 4)).
    2:{ intros x _. rewrite scattered_closed. field. }
    rewrite Rsum_quarter.
    assert (Hb : sin phi * sin phi * (sin phi * sin phi) + 0.25 * sin (2 * phi) * sin (2 * phi)
                 = sin phi * sin phi).
    { rewrite sin_2a. pose proof (sin2_cos2' phi).
      replace (0.25 * (2 * sin phi * cos phi) * (2 * sin phi * cos phi))
        with (sin phi * sin phi * (cos phi * cos phi)) by lra.
      replace (cos phi * cos phi) with (1 - sin phi * sin phi) by lra. ring. }
    rewrite Hb. field.
  - rewrite (Rsum_ext _ (fun x => x * Rsum (map (fun r => reaction E (w_c (v r)) (v r)) (keyed b_g x rs)) / 4))
      by (intros; field).
    rewrite Rsum_quarter, (group_sum_all b_g (fun r => reaction E (w_c (v r)) (v r)) rs Hasc). lra.
  - rewrite (Rsum_ext _ (fun x => x * Rsum (map (fun r => reaction E (w_f (v r)) (v r)) (keyed b_g x rs)) / 4))
      by (intros; field).
    rewrite Rsum_quarter, (group_sum_all b_g (fun r => reaction E (w_f (v r)) (v r)) rs Hasc). lra.
Qed.
