(** Limits for small energies. *)
From Coq Require Import List ZArith Reals Lra Lia Psatz.
From Coquelicot Require Import Coquelicot.
From Verif Require Import QuantumSpec HardSphereSpec HardSphereProofs Cplx ChannelModel BreitWignerModel BreitWignerSpec BreitWignerProofs LowEnergySpec.
Import ListNotations.
Open Scope R_scope.

Definition lim (f : R -> R) (w : R) : Prop := filterlim f (at_right 0) (locally w).

Lemma lim_eps f w : lim f w <-> forall eps, 0 < eps -> exists d, 0 < d /\ forall e, 0 < e < d -> Rabs (f e - w) < eps.
Proof.
  unfold lim. split.
  - intros H eps He. destruct (proj1 (filterlim_locally f w) H (mkposreal eps He)) as (d & Hd).
    exists d. split; [apply cond_pos|]. intros e [H1 H2]. apply (Hd e); [|exact H1].
    change (Rabs (e - 0) < d). rewrite Rminus_0_r, Rabs_pos_eq; lra.
  - intros H. apply filterlim_locally. intros eps. destruct (H eps (cond_pos eps)) as (d & Hd & K).
    exists (mkposreal d Hd). intros e He Hp. change (Rabs (f e - w) < eps). apply K. split; [exact Hp|].
    change (Rabs (e - 0) < d) in He. rewrite Rminus_0_r, Rabs_pos_eq in He; lra.
Qed.

Lemma lim_ext f g w : (forall e, 0 < e -> f e = g e) -> lim f w -> lim g w.
Proof. intros H. unfold lim. apply filterlim_ext_loc. exists (mkposreal 1 Rlt_0_1). intros e _ He. apply H, He. Qed.
Lemma lim_ext_near f g w : (exists d, 0 < d /\ forall e, 0 < e < d -> f e = g e) -> lim f w -> lim g w.
Proof.
  intros (d & Hd & H). unfold lim. apply filterlim_ext_loc. exists (mkposreal d Hd). intros e Hb He. apply H. split; [exact He|].
  change (Rabs (e - 0) < d) in Hb. rewrite Rminus_0_r, Rabs_pos_eq in Hb; lra.
Qed.
Lemma lim_eq f v w : lim f v -> v = w -> lim f w.
Proof. intros H <-. exact H. Qed.
Lemma lim_const c : lim (fun _ => c) c.
Proof. apply filterlim_const. Qed.
Lemma lim_plus f g v w : lim f v -> lim g w -> lim (fun e => f e + g e) (v + w).
Proof. intros Hf Hg. exact (filterlim_comp_2 _ _ Rplus Hf Hg (filterlim_plus v w)). Qed.
Lemma lim_mult f g v w : lim f v -> lim g w -> lim (fun e => f e * g e) (v * w).
Proof. intros Hf Hg. exact (filterlim_comp_2 _ _ Rmult Hf Hg (filterlim_mult v w)). Qed.
Lemma lim_opp f v : lim f v -> lim (fun e => - f e) (- v).
Proof. intros Hf. exact (filterlim_comp _ _ _ _ _ _ _ _ Hf (filterlim_opp v)). Qed.
Lemma lim_minus f g v w : lim f v -> lim g w -> lim (fun e => f e - g e) (v - w).
Proof. intros Hf Hg. apply lim_plus; [exact Hf | apply lim_opp, Hg]. Qed.
Lemma lim_cont f w (h : R -> R) : lim f w -> continuous h w -> lim (fun e => h (f e)) (h w).
Proof. intros Hf Hh. exact (filterlim_comp _ _ _ _ _ _ _ _ Hf Hh). Qed.
Lemma lim_inv f v : lim f v -> v <> 0 -> lim (fun e => / f e) (/ v).
Proof. intros Hf Hv. apply (lim_cont f v Rinv Hf). apply continuous_Rinv. exact Hv. Qed.
Lemma lim_div f g v w : lim f v -> lim g w -> w <> 0 -> lim (fun e => f e / g e) (v / w).
Proof. intros Hf Hg Hw. apply lim_mult; [exact Hf | apply lim_inv; assumption]. Qed.
Lemma lim_pow f v n : lim f v -> lim (fun e => f e ^ n) (v ^ n).
Proof. intros Hf. induction n as [|n IH]; cbn [pow]; [apply lim_const | apply lim_mult; assumption]. Qed.
Lemma lim_id : lim (fun e => e) 0.
Proof. apply lim_eps. intros eps He. exists eps. split; [exact He|]. intros e [H1 H2]. rewrite Rminus_0_r, Rabs_pos_eq; lra. Qed.
Lemma lim_sqrt : lim sqrt 0.
Proof. rewrite <- sqrt_0. apply (lim_cont (fun e => e) 0 sqrt lim_id). apply continuous_sqrt. Qed.
(** something bounded by what vanishes *)
Lemma lim_zero f g : lim g 0 -> (exists d, 0 < d /\ forall e, 0 < e < d -> Rabs (f e) <= g e) -> lim f 0.
Proof.
  intros Hg (d & Hd & K). apply lim_eps. intros eps He. destruct (proj1 (lim_eps g 0) Hg eps He) as (d' & Hd' & K').
  exists (Rmin d d'). split; [apply Rmin_pos; assumption|]. intros e [H1 H2]. pose proof (Rmin_l d d'). pose proof (Rmin_r d d').
  rewrite Rminus_0_r. eapply Rle_lt_trans; [apply K; lra|]. specialize (K' e ltac:(lra)). rewrite Rminus_0_r in K'. apply Rabs_def2 in K'. lra.
Qed.
Lemma lim_positive f v : lim f v -> 0 < v -> exists d, 0 < d /\ forall e, 0 < e < d -> 0 < f e.
Proof.
  intros Hf Hv. destruct (proj1 (lim_eps f v) Hf v Hv) as (d & Hd & K). exists d. split; [exact Hd|]. intros e He.
  apply K, Rabs_def2 in He. lra.
Qed.
Lemma lim_comp f g w c : (forall e, 0 < e -> 0 < g e) -> lim g 0 -> lim f w -> c = w -> lim (fun e => f (g e)) c.
Proof.
  intros Hp Hg Hf ->. apply lim_eps. intros eps He. destruct (proj1 (lim_eps f w) Hf eps He) as (d & Hd & K).
  destruct (proj1 (lim_eps g 0) Hg d Hd) as (d' & Hd' & K'). exists d'. split; [exact Hd'|]. intros e He'. apply K.
  specialize (K' e He'). rewrite Rminus_0_r in K'. apply Rabs_def2 in K'. split; [apply Hp; lra | lra].
Qed.
Lemma lim_sum {T} (f : T -> R -> R) (w : T -> R) l : (forall x, In x l -> lim (f x) (w x)) ->
  lim (fun e => Rsum (map (fun x => f x e) l)) (Rsum (map w l)).
Proof.
  induction l as [|x l IH]; intros H; cbn [map Rsum fold_right]; [apply lim_const|].
  apply lim_plus; [apply H; left; reflexivity|]. apply IH. intros y Hy. apply H. right; exact Hy.
Qed.
Lemma lim_sum_ext {T} (f : T -> R -> R) (w : T -> R) l c : (forall x, In x l -> lim (f x) (w x)) -> Rsum (map w l) = c ->
  lim (fun e => Rsum (map (fun x => f x e) l)) c.
Proof. intros H <-. apply lim_sum, H. Qed.

(** ** Complex limits *)
Definition clim (f : R -> cx) (w : cx) : Prop := lim (fun e => re (f e)) (re w) /\ lim (fun e => im (f e)) (im w).
Lemma clim_ext f g w : (forall e, 0 < e -> f e = g e) -> clim f w -> clim g w.
Proof. intros H [H1 H2]. split; [apply (lim_ext (fun e => re (f e)))|apply (lim_ext (fun e => im (f e)))]; auto; intros e He; rewrite H; auto. Qed.
Lemma clim_const c : clim (fun _ => c) c.
Proof. split; apply lim_const. Qed.
Lemma clim_add f g v w : clim f v -> clim g w -> clim (fun e => cx_add (f e) (g e)) (cx_add v w).
Proof. intros [? ?] [? ?]. split; cbn; apply lim_plus; assumption. Qed.
Lemma clim_opp f v : clim f v -> clim (fun e => cx_opp (f e)) (cx_opp v).
Proof. intros [? ?]. split; cbn; apply lim_opp; assumption. Qed.
Lemma clim_mul f g v w : clim f v -> clim g w -> clim (fun e => cx_mul (f e) (g e)) (cx_mul v w).
Proof. intros [? ?] [? ?]. split; cbn; [apply lim_minus | apply lim_plus]; apply lim_mult; assumption. Qed.
Lemma norm2_lim f v : clim f v -> lim (fun e => norm2 (f e)) (norm2 v).
Proof. intros [? ?]. unfold norm2. apply lim_plus; apply lim_mult; assumption. Qed.
Lemma clim_inv f v : clim f v -> norm2 v <> 0 -> clim (fun e => cx_inv (f e)) (cx_inv v).
Proof. intros H Hv. pose proof (norm2_lim f v H). destruct H. split; cbn; apply lim_div; auto. apply lim_opp; assumption. Qed.
Lemma clim_sum {T} (f : T -> R -> cx) (w : T -> cx) l : (forall x, In x l -> clim (f x) (w x)) ->
  clim (fun e => csum (map (fun x => f x e) l)) (csum (map w l)).
Proof.
  induction l as [|x l IH]; intros H; cbn [map csum fold_right]; [apply clim_const|].
  apply clim_add; [apply H; left; reflexivity|]. apply IH. intros y Hy. apply H. right; exact Hy.
Qed.
Lemma rcx_lim f v : lim f v -> clim (fun e => rcx (f e)) (rcx v).
Proof. intros H. split; cbn; [exact H | apply lim_const]. Qed.

(** ** The waves near the origin, for every l *)
Fixpoint double_factorial (l : nat) : R := match l with O => 1 | S p => (2 * INR p + 1) * double_factorial p end.
Lemma double_factorial_pos l : 0 < double_factorial l.
Proof. induction l as [|l IH]; cbn; [lra|]. apply Rmult_lt_0_compat; [pose proof (pos_INR l); lra | exact IH]. Qed.

Lemma lim_sin : lim sin 0.
Proof. rewrite <- sin_0. apply (lim_cont (fun e => e) 0 sin lim_id). apply continuous_sin. Qed.
Lemma lim_cos : lim cos 1.
Proof. rewrite <- cos_0. apply (lim_cont (fun e => e) 0 cos lim_id). apply continuous_cos. Qed.
Lemma lim_sinc : lim (fun r => sin r / r) 1.
Proof.
  apply lim_eps. intros eps He. destruct (derivable_pt_lim_sin 0 eps He) as (d & Hd). exists d. split; [apply cond_pos|].
  intros e [H1 H2]. specialize (Hd e ltac:(lra) ltac:(rewrite Rabs_pos_eq; lra)). rewrite Rplus_0_l, sin_0, cos_0, Rminus_0_r in Hd. exact Hd.
Qed.

Lemma G_step l r : waveG (S l) r = (2 * INR l + 1) / r * waveG l r - waveG' l r.
Proof. unfold waveG, waveG'. cbn [wave]. destruct (wave (fun x => - sin x) cos l r). reflexivity. Qed.
Lemma F_step l r : waveF (S l) r = (2 * INR l + 1) / r * waveF l r - waveF' l r.
Proof. unfold waveF, waveF'. cbn [wave]. destruct (wave cos sin l r). reflexivity. Qed.

Lemma G_near l : lim (fun r => r ^ l * waveG l r) (double_factorial l) /\ lim (fun r => r ^ S l * waveG' l r) 0.
Proof.
  induction l as [|l [IH1 IH2]].
  - split.
    + replace (double_factorial 0) with (1 * 1) by (cbn; ring). apply lim_mult; [apply lim_const | exact lim_cos].
    + apply (lim_eq _ (0 * 1 * - 0)); [|ring]. cbn [pow]. apply lim_mult; [apply lim_mult; [exact lim_id | apply lim_const] | exact (lim_opp _ _ lim_sin)].
  - split.
    + replace (double_factorial (S l)) with ((2 * INR l + 1) * double_factorial l - 0) by (cbn [double_factorial]; ring).
      apply (lim_ext (fun r => (2 * INR l + 1) * (r ^ l * waveG l r) - r ^ S l * waveG' l r)).
      * intros r Hr. rewrite G_step. cbn [pow]. field. lra.
      * apply lim_minus; [apply lim_mult; [apply lim_const | exact IH1] | exact IH2].
    + apply (lim_eq _ (0 * 0 * double_factorial l)); [|ring].
      apply (lim_ext (fun r => r * r * (r ^ l * waveG l r))).
      * intros r Hr. rewrite succG'. cbn [pow]. ring.
      * apply lim_mult; [apply lim_mult; exact lim_id | exact IH1].
Qed.

Lemma G_positive l : exists d, 0 < d /\ forall r, 0 < r < d -> 0 < waveG l r.
Proof.
  destruct (lim_positive _ _ (proj1 (G_near l)) (double_factorial_pos l)) as (d & Hd & K). exists d. split; [exact Hd|].
  intros r Hr. specialize (K r Hr). pose proof (pow_lt r l ltac:(lra)) as Hp. destruct (Rle_lt_dec (waveG l r) 0) as [H|H]; [|exact H].
  exfalso. assert (r ^ l * waveG l r <= 0) by nra. lra.
Qed.

(** P_l / rho vanishes for l > 0 *)
Lemma amplitude_near l : lim (fun r => / amplitude2 (S l) r) 0.
Proof.
  destruct (G_positive (S l)) as (d & Hd & K).
  assert (L : lim (fun r => r ^ (2 * S l) / (r ^ S l * waveG (S l) r * (r ^ S l * waveG (S l) r))) 0).
  { pose proof (double_factorial_pos (S l)).
    apply (lim_eq _ (0 ^ (2 * S l) / (double_factorial (S l) * double_factorial (S l)))); [|rewrite pow_i by lia; unfold Rdiv; ring].
    apply lim_div; [apply lim_pow, lim_id | apply lim_mult; apply (proj1 (G_near (S l))) | nra]. }
  apply (lim_zero _ _ L). exists d. split; [exact Hd|]. intros r Hr. specialize (K r Hr). pose proof (pow_lt r (S l) ltac:(lra)) as Hp.
  pose proof (amplitude2_pos (S l) r) as Ha. rewrite Rabs_pos_eq by (apply Rlt_le, Rinv_0_lt_compat, Ha).
  replace (r ^ (2 * S l) / (r ^ S l * waveG (S l) r * (r ^ S l * waveG (S l) r))) with (/ (waveG (S l) r ^ 2)).
  - apply Rinv_le_contravar; [nra|]. unfold amplitude2. pose proof (pow2_ge_0 (waveF (S l) r)). lra.
  - replace (2 * S l)%nat with (S l + S l)%nat by lia. rewrite pow_add. field. split; lra.
Qed.

(** tan phi_l / rho vanishes for l > 0 *)
Lemma tangent_near l : lim (fun r => waveF l r / waveG l r / r) (if Nat.eqb l 0 then 1 else 0).
Proof.
  induction l as [|l IH]; cbn [Nat.eqb].
  - apply (lim_ext (fun r => sin r / r * / cos r)).
    + intros r Hr. unfold waveF, waveG. cbn. unfold Rdiv. ring.
    + apply (lim_eq _ (1 * / 1)); [|field]. apply lim_mult; [exact lim_sinc | apply lim_inv; [exact lim_cos | lra]].
  - destruct (G_positive l) as (d & Hd & K). destruct (G_positive (S l)) as (d' & Hd' & K').
    assert (E : exists d, 0 < d /\ forall r, 0 < r < d ->
      waveF l r / waveG l r / r - r ^ (2 * l) / (r ^ l * waveG l r * (r ^ S l * waveG (S l) r)) = waveF (S l) r / waveG (S l) r / r).
    { exists (Rmin d d'). split; [apply Rmin_pos; assumption|]. intros r [H1 H2]. pose proof (Rmin_l d d'). pose proof (Rmin_r d d').
      specialize (K r ltac:(lra)). specialize (K' r ltac:(lra)). pose proof (pow_lt r l ltac:(lra)) as Hp. pose proof (wave_wronskian (S l) r) as W.
      rewrite succF', succG' in W. replace (2 * l)%nat with (l + l)%nat by lia. rewrite pow_add. cbn [pow].
      replace (waveF l r) with ((1 + waveF (S l) r * waveG l r) / waveG (S l) r).
      - field. repeat split; lra.
      - apply (Rmult_eq_reg_r (waveG (S l) r)); [|lra]. unfold Rdiv. rewrite Rmult_assoc, Rinv_l by lra. lra. }
    apply (lim_ext_near _ _ _ E).
    pose proof (double_factorial_pos l) as P1. pose proof (double_factorial_pos (S l)) as P2.
    assert (L : lim (fun r => r ^ (2 * l) / (r ^ l * waveG l r * (r ^ S l * waveG (S l) r))) (0 ^ (2 * l) / (double_factorial l * double_factorial (S l)))).
    { apply lim_div; [apply lim_pow, lim_id | apply lim_mult; apply (proj1 (G_near _)) | nra]. }
    pose proof (lim_minus _ _ _ _ IH L) as Q. apply (lim_eq _ _ _ Q).
    destruct l as [|l]; [cbn; field|]. rewrite pow_i by lia. cbn [Nat.eqb]. unfold Rdiv. ring.
Qed.

(** (1 - e^{-2 i phi}) / rho *)
Definition potential (l : nat) (r : R) : cx := cx_add cx_one (cx_opp (hard_sphere_U l r)).
Lemma potential_parts l r : potential l r = Cx (2 * waveF l r ^ 2 / amplitude2 l r) (2 * (waveF l r * waveG l r) / amplitude2 l r).
Proof.
  pose proof (amplitude2_pos l r) as H. unfold potential, hard_sphere_U, cdiv. unfold cx_mul, cx_inv, cx_add, cx_opp, cx_one; cbn [re im].
  unfold norm2; cbn [re im]. unfold amplitude2 in *. f_equal; field; cbn [pow] in H; nra.
Qed.
Lemma potential_near l : clim (fun r => cx_mul (rcx (/ r)) (potential l r)) (if Nat.eqb l 0 then Cx 0 2 else cx_zero).
Proof.
  destruct l as [|l]; cbn [Nat.eqb].
  - assert (A1 : forall r, amplitude2 0 r = 1) by (intros r; unfold amplitude2, waveF, waveG; cbn; pose proof (sin2_cos2 r) as H; unfold Rsqr in H; lra).
    split; cbn [re im].
    + apply (lim_eq _ (2 * 1 * 0)); [|ring]. apply (lim_ext (fun r => 2 * (sin r / r) * sin r)).
      * intros r Hr. rewrite potential_parts, A1. unfold waveF. cbn. field. lra.
      * apply lim_mult; [apply lim_mult; [apply lim_const | exact lim_sinc] | exact lim_sin].
    + apply (lim_eq _ (2 * 1 * 1)); [|ring]. apply (lim_ext (fun r => 2 * (sin r / r) * cos r)).
      * intros r Hr. rewrite potential_parts, A1. unfold waveF, waveG. cbn. field. lra.
      * apply lim_mult; [apply lim_mult; [apply lim_const | exact lim_sinc] | exact lim_cos].
  - destruct (G_positive (S l)) as (d & Hd & K). pose proof (tangent_near (S l)) as T. cbn [Nat.eqb] in T.
    assert (T2 : lim (fun r => 2 * Rabs (waveF (S l) r / waveG (S l) r / r)) 0).
    { apply (lim_eq _ (2 * Rabs 0)); [|rewrite Rabs_R0; ring]. apply lim_mult; [apply lim_const|]. apply (lim_cont _ _ Rabs T). apply continuous_Rabs. }
    assert (B : forall r, 0 < r < d -> forall u, Rabs u <= Rabs (waveF (S l) r) * waveG (S l) r \/ (Rabs u <= waveF (S l) r ^ 2) ->
      Rabs (/ r * (2 * u / amplitude2 (S l) r)) <= 2 * Rabs (waveF (S l) r / waveG (S l) r / r)).
    { intros r Hr u Hu. specialize (K r Hr). pose proof (amplitude2_pos (S l) r) as HA. set (F := waveF (S l) r) in *. set (G := waveG (S l) r) in *.
      assert (HF : amplitude2 (S l) r = F ^ 2 + G ^ 2) by reflexivity.
      assert (Hr' : 0 < / r) by (apply Rinv_0_lt_compat; lra).
      assert (HG' : 0 < / G) by (apply Rinv_0_lt_compat; lra).
      assert (HA' : 0 < / amplitude2 (S l) r) by (apply Rinv_0_lt_compat; lra).
      replace (/ r * (2 * u / amplitude2 (S l) r)) with (2 * (u * / amplitude2 (S l) r * / r)) by (unfold Rdiv; ring).
      unfold Rdiv. rewrite !Rabs_mult, (Rabs_pos_eq 2) by lra. rewrite (Rabs_pos_eq (/ r)), (Rabs_pos_eq (/ G)), (Rabs_pos_eq (/ amplitude2 _ _)) by lra.
      apply Rmult_le_compat_l; [lra|]. apply Rmult_le_compat_r; [lra|].
      assert (Ku : Rabs u * G <= Rabs F * amplitude2 (S l) r).
      { rewrite HF. pose proof (Rabs_pos F) as P. replace (F ^ 2) with (Rabs F * Rabs F) in * by (rewrite <- (pow2_abs F); ring).
        assert (0 <= (Rabs F - G) ^ 2) by apply pow2_ge_0. destruct Hu as [Hu|Hu].
        - apply Rle_trans with (Rabs F * G * G); [apply Rmult_le_compat_r; lra|]. assert (0 <= Rabs F * (Rabs F * Rabs F)) by (apply Rmult_le_pos; nra). nra.
        - apply Rle_trans with (Rabs F * Rabs F * G); [apply Rmult_le_compat_r; lra|]. rewrite Rmult_assoc. apply Rmult_le_compat_l; [lra|]. nra. }
      apply (Rmult_le_reg_r (amplitude2 (S l) r * G)); [nra|].
      replace (Rabs u * / amplitude2 (S l) r * (amplitude2 (S l) r * G)) with (Rabs u * G) by (field; lra).
      replace (Rabs F * / G * (amplitude2 (S l) r * G)) with (Rabs F * amplitude2 (S l) r) by (field; lra). exact Ku. }
    split; cbn [re im cx_zero cx_mul rcx]; apply (lim_zero _ _ T2); exists d; (split; [exact Hd|]); intros r Hr; rewrite potential_parts; cbn [re im].
    + rewrite Rmult_0_l, Rminus_0_r. apply (B r Hr). right. rewrite Rabs_pos_eq by apply pow2_ge_0. lra.
    + rewrite Rmult_0_l, Rplus_0_r. apply (B r Hr). left. rewrite Rabs_mult. apply Rmult_le_compat_l; [apply Rabs_pos|]. rewrite Rabs_pos_eq; [lra|]. apply Rlt_le, K, Hr.
Qed.
