(** Conservation of flux: the formulas. *)
From Coq Require Import List ZArith Reals Lra Lia Psatz Bool.
From Verif Require Import Outcome ListFacts QuantumModel QuantumSpec QuantumProofs SpinFactorModel HardSphereSpec HardSphereProofs Cplx ChannelModel BreitWignerModel BreitWignerSpec BreitWignerProofs BreitWignerSystemProofs BreitWignerTheory FluxSpec.
Import ListNotations.
Open Scope R_scope.

Lemma hard_sphere_unit l r : norm2 (hard_sphere_U l r) = 1.
Proof.
  pose proof (amplitude2_pos l r) as H. unfold amplitude2 in H. unfold hard_sphere_U, cdiv, cx_mul, cx_inv, norm2; cbn [re im]. field. cbn [pow] in H. nra.
Qed.
Lemma scattered_norm U : scattered U = 1 - 2 * re U + norm2 U.
Proof. unfold scattered, norm2, cx_add, cx_opp, cx_one; cbn [re im]. ring. Qed.
Lemma re_le U : norm2 U <= 1 -> -1 <= re U <= 1.
Proof. unfold norm2. intros H. pose proof (Rle_0_sqr (im U)) as Q. unfold Rsqr in Q. nra. Qed.

Section One.
Variables (U0 : cx) (E : R).
Hypothesis HU : norm2 U0 = 1.

Lemma one_norm v : norm2 (pole E v) <> 0 -> norm2 (collision U0 E [v]) = 1 - w_n v * (w_T v - w_n v) / norm2 (pole E v).
Proof.
  intros Hp. unfold collision; cbn [map csum fold_right].
  assert (M : forall x y, norm2 (cx_mul x y) = norm2 x * norm2 y) by (intros [x1 x2] [y1 y2]; unfold norm2, cx_mul; cbn [re im]; ring).
  rewrite M, HU. unfold cdiv, cx_inv. revert Hp. unfold norm2, pole, cx_add, cx_mul, cx_zero, cx_one, ci, rcx; cbn [re im].
  set (d := w_E v - E). set (t := w_T v) in *. set (n := w_n v) in *. intros Hp. field. intros H; apply Hp. lra.
Qed.
(** one level: what it adds to elastic scattering and to the reactions adds up to what the optical theorem says *)
Lemma one_flux v : norm2 (pole E v) <> 0 ->
  scattered (collision U0 E [v]) - scattered U0 + w_n v * (w_T v - w_n v) / norm2 (pole E v) = 2 * (re U0 - re (collision U0 E [v])).
Proof. intros H. rewrite !scattered_norm, (one_norm v H), HU. ring. Qed.
End One.
Lemma re_step U0 E v vs : re (collision U0 E (v :: vs)) = re (collision U0 E vs) + (re (collision U0 E [v]) - re U0).
Proof.
  unfold collision, csum; cbn [map fold_right]. match goal with |- context [fold_right cx_add cx_zero ?l] => set (S := fold_right cx_add cx_zero l) end.
  set (h := cdiv _ _). clearbody S h. unfold cx_mul, cx_add, cx_zero, cx_one; cbn [re im]. ring.
Qed.
Lemma re_linear U0 E vs : re (collision U0 E vs) = re U0 + Rsum (map (fun v => re (collision U0 E [v]) - re U0) vs).
Proof.
  induction vs as [|v vs IH]; cbn [map].
  - rewrite Rsum_nil. unfold collision, csum; cbn [map fold_right]. unfold cx_mul, cx_add, cx_zero, cx_one; cbn [re im]. ring.
  - rewrite Rsum_cons, re_step, IH. ring.
Qed.

Section File.
Variables (k a : R -> R) (E : R) (q : bw_lstate -> R) (ahat : R) (I : Z).
Notation v ls x := (level_of k a E q ls x).
Notation U0 ls := (U0_of k E ahat ls).

Lemma U0_unit ls : norm2 (U0 ls) = 1.
Proof. apply hard_sphere_unit. Qed.
Lemma others ls x : w_T (v ls x) - w_n (v ls x) = w_c (v ls x) + w_f (v ls x) + competitive_width k a E q ls x.
Proof. unfold level_of, competitive_width; cbn [w_T w_n w_c w_f]. ring. Qed.

Definition lines_sum (F : bw_lstate -> bw_line -> R) (lss : list bw_lstate) : R :=
  Rsum (map (fun ls => Rsum (map (fun x => g_of I x * F ls x) (ls_lines ls))) lss).
Lemma lines_sum_plus F G lss : lines_sum F lss + lines_sum G lss = lines_sum (fun ls x => F ls x + G ls x) lss.
Proof.
  unfold lines_sum. induction lss as [|ls lss IH]; cbn [map]; rewrite ?Rsum_nil, ?Rsum_cons; [ring|]. rewrite <- IH.
  assert (H : Rsum (map (fun x => g_of I x * (F ls x + G ls x)) (ls_lines ls)) = Rsum (map (fun x => g_of I x * F ls x) (ls_lines ls)) + Rsum (map (fun x => g_of I x * G ls x) (ls_lines ls))).
  { induction (ls_lines ls) as [|x l IHl]; cbn [map]; rewrite ?Rsum_nil, ?Rsum_cons; [ring | rewrite IHl; ring]. }
  rewrite H. ring.
Qed.
Lemma lines_sum_ext F G lss : (forall ls x, In ls lss -> In x (ls_lines ls) -> F ls x = G ls x) -> lines_sum F lss = lines_sum G lss.
Proof. intros H. unfold lines_sum. apply Rsum_ext. intros ls Hls. apply Rsum_ext. intros x Hx. rewrite (H ls x Hls Hx). reflexivity. Qed.

(** all reactions together *)
Lemma reactions_sum lss : BW_capture k a E q I lss + BW_fission k a E q I lss + BW_competitive k a E q I lss
  = barns k E * lines_sum (fun ls x => w_n (v ls x) * (w_T (v ls x) - w_n (v ls x)) / norm2 (pole E (v ls x))) lss.
Proof.
  unfold BW_capture, BW_fission, BW_competitive, capture_sum, fission_sum.
  change (barns k E * lines_sum (fun ls x => reaction E (w_c (v ls x)) (v ls x)) lss + barns k E * lines_sum (fun ls x => reaction E (w_f (v ls x)) (v ls x)) lss
    + barns k E * lines_sum (fun ls x => reaction E (competitive_width k a E q ls x) (v ls x)) lss = barns k E * lines_sum (fun ls x => w_n (v ls x) * (w_T (v ls x) - w_n (v ls x)) / norm2 (pole E (v ls x))) lss).
  rewrite <- !Rmult_plus_distr_l, !lines_sum_plus. f_equal. apply lines_sum_ext. intros ls x _ _. rewrite others. unfold reaction, Rdiv. ring.
Qed.

Variable lss : list bw_lstate.
Hypothesis Hpole : forall ls x, In ls lss -> In x (ls_lines ls) -> norm2 (pole E (v ls x)) <> 0.

(** The optical theorem *)
Lemma Js_line (F : bw_line -> R) (ls : bw_lstate) :
  Rsum (map (fun j => g_neutron I j * Rsum (map F (of_J abs_J j (ls_lines ls)))) (Js abs_J (ls_lines ls))) = Rsum (map (fun x => g_of I x * F x) (ls_lines ls)).
Proof.
  rewrite <- (by_J abs_J (fun x => g_of I x * F x)). apply Rsum_ext. intros j _. rewrite <- Rsum_scale. apply Rsum_ext. intros x Hx.
  apply filter_In in Hx as [_ Hx]. apply Z.eqb_eq in Hx. unfold g_of. rewrite Hx. reflexivity.
Qed.
Lemma optical_lines : optical k a E q ahat I lss =
  2 * barns k E * Rsum (map (fun ls => (2 * INR (ls_L ls) + 1) * (1 - re (U0 ls)) + Rsum (map (fun x => g_of I x * (re (U0 ls) - re (collision (U0 ls) E [v ls x]))) (ls_lines ls))) lss).
Proof.
  unfold optical. f_equal. apply Rsum_ext. intros ls _. rewrite <- (Js_line (fun x => re (U0 ls) - re (collision (U0 ls) E [v ls x]))).
  set (js := Js abs_J (ls_lines ls)).
  rewrite (Rsum_ext _ (fun j => g_neutron I j * (1 - re (U0 ls)) + g_neutron I j * Rsum (map (fun x => re (U0 ls) - re (collision (U0 ls) E [v ls x])) (of_J abs_J j (ls_lines ls))))).
  - set (h j := Rsum (map (fun x => re (U0 ls) - re (collision (U0 ls) E [v ls x])) (of_J abs_J j (ls_lines ls)))).
    change (Rsum (map (fun j => g_neutron I j * (1 - re (U0 ls)) + g_neutron I j * h j) js) + (2 * INR (ls_L ls) + 1 - Rsum (map (g_neutron I) js)) * (1 - re (U0 ls))
      = (2 * INR (ls_L ls) + 1) * (1 - re (U0 ls)) + Rsum (map (fun j => g_neutron I j * h j) js)). clearbody h.
    assert (S : Rsum (map (fun j => g_neutron I j * (1 - re (U0 ls)) + g_neutron I j * h j) js) = Rsum (map (g_neutron I) js) * (1 - re (U0 ls)) + Rsum (map (fun j => g_neutron I j * h j) js)).
    { induction js as [|j js IH]; cbn [map]; rewrite ?Rsum_nil, ?Rsum_cons; [ring | rewrite IH; ring]. }
    rewrite S. ring.
  - intros j _. unfold U_J. rewrite re_linear, map_map.
    rewrite (Rsum_ext _ (fun x => -1 * (re (U0 ls) - re (collision (U0 ls) E [v ls x])))) by (intros; ring). rewrite Rsum_scale. ring.
Qed.
Lemma SL_flux : SLBW_elastic k a E q ahat I lss + (BW_capture k a E q I lss + BW_fission k a E q I lss + BW_competitive k a E q I lss) = optical k a E q ahat I lss.
Proof.
  rewrite reactions_sum, optical_lines. unfold SLBW_elastic, SL_elastic. rewrite <- Rmult_plus_distr_l, (Rmult_comm 2), Rmult_assoc. f_equal.
  unfold lines_sum. revert Hpole. generalize lss. intros l Hp. induction l as [|ls l IH]; cbn [map]; rewrite ?Rsum_nil, ?Rsum_cons; [ring|].
  specialize (IH (fun ls' x H H' => Hp ls' x (or_intror H) H')).
  assert (H : Rsum (map (fun r => g_of I r * (scattered (collision (U0 ls) E [v ls r]) - scattered (U0 ls))) (ls_lines ls))
    + Rsum (map (fun x => g_of I x * (w_n (v ls x) * (w_T (v ls x) - w_n (v ls x)) / norm2 (pole E (v ls x)))) (ls_lines ls))
    = 2 * Rsum (map (fun x => g_of I x * (re (U0 ls) - re (collision (U0 ls) E [v ls x]))) (ls_lines ls))).
  { assert (G : forall x, In x (ls_lines ls) -> norm2 (pole E (v ls x)) <> 0) by (intros x; apply Hp; left; reflexivity).
    revert G. generalize (ls_lines ls). intros xs G. induction xs as [|x xs IHx]; cbn [map]; rewrite ?Rsum_nil, ?Rsum_cons; [ring|].
    specialize (IHx (fun y Hy => G y (or_intror Hy))). pose proof (one_flux (U0 ls) E (U0_unit ls) (v ls x) (G x (or_introl eq_refl))) as F.
    set (s1 := scattered (collision (U0 ls) E [v ls x])) in *. set (s0 := scattered (U0 ls)) in *. set (w := w_n (v ls x) * _ / _) in *. set (r := re (U0 ls) - re _) in *.
    set (A1 := Rsum _) in *. set (A2 := Rsum _) in *. set (A3 := Rsum _) in *. replace (s1 - s0) with (2 * r - w) by lra. lra. }
  pose proof (scattered_norm (U0 ls)) as S0. rewrite U0_unit in S0. rewrite S0 at 1.
  set (A1 := Rsum (map (fun r => g_of I r * _) (ls_lines ls))) in *. set (A2 := Rsum (map _ (ls_lines ls))) in *. set (A3 := Rsum (map _ (ls_lines ls))) in *. lra.
Qed.
Lemma ML_flux : SLBW_elastic k a E q ahat I lss + interference_sum k a E q I lss = MLBW_elastic k a E q ahat I lss ->
  MLBW_elastic k a E q ahat I lss + (BW_capture k a E q I lss + BW_fission k a E q I lss + BW_competitive k a E q I lss) = optical k a E q ahat I lss + interference_sum k a E q I lss.
Proof. intros <-. rewrite <- SL_flux. ring. Qed.

(** The limits *)
Hypotheses (HI : is_spin I) (Hk : forall e, 0 <= k e * a e).
Hypothesis Hw : forall ls x, In ls lss -> In x (ls_lines ls) -> 0 <= ln_GN x /\ 0 <= ln_GG x /\ 0 <= ln_GF x /\ (ls_LRX ls = true -> 0 <= ln_GX x).
Hypothesis Hi : forall ls, In ls lss -> NoDup (map abs_J (ls_lines ls)).
Hypothesis Hc : forall ls, In ls lss -> coupled I ls.

Lemma competitive_nonneg ls x : In ls lss -> In x (ls_lines ls) -> 0 <= competitive_width k a E q ls x.
Proof.
  intros H1 H2. destruct (Hw ls x H1 H2) as (_ & _ & _ & HX). unfold competitive_width. destruct (ls_LRX ls); [|lra].
  apply Rdiv_nonneg; [apply Rmult_le_pos; [apply HX; reflexivity|]|]; apply P_at_nonneg; exact Hk.
Qed.
Lemma width_parts ls x : In ls lss -> In x (ls_lines ls) -> 0 <= w_n (v ls x) /\ 0 <= w_T (v ls x) - w_n (v ls x).
Proof.
  intros H1 H2. destruct (Hw ls x H1 H2) as (HN & HG & HF & _). split.
  - unfold level_of; cbn [w_n]. apply Rdiv_nonneg; [apply Rmult_le_pos; [exact HN|]|]; apply P_at_nonneg; exact Hk.
  - rewrite others. pose proof (competitive_nonneg ls x H1 H2). unfold level_of at 1 2; cbn [w_c w_f]. lra.
Qed.
Lemma lost ls x : In ls lss -> In x (ls_lines ls) -> 0 <= w_n (v ls x) * (w_T (v ls x) - w_n (v ls x)) / norm2 (pole E (v ls x)) <= 1.
Proof.
  intros H1 H2. destruct (width_parts ls x H1 H2) as [N O]. pose proof (Hpole ls x H1 H2) as Hp. pose proof (norm2_nonneg (pole E (v ls x))) as Hq.
  assert (D : 0 < norm2 (pole E (v ls x))) by (destruct Hq as [Hq|Hq]; [exact Hq | exfalso; apply Hp; symmetry; exact Hq]).
  split; [apply Rdiv_nonneg; [apply Rmult_le_pos; assumption | lra]|]. apply (Rmult_le_reg_r _ _ _ D). unfold Rdiv. rewrite Rmult_assoc, Rinv_l, Rmult_1_r, Rmult_1_l by exact Hp.
  unfold norm2, pole; cbn [re im]. set (n := w_n (v ls x)) in *. set (t := w_T (v ls x)) in *.
  pose proof (Rle_0_sqr (w_E (v ls x) - E)) as Q1. pose proof (Rle_0_sqr (t - 2 * n)) as Q2. unfold Rsqr in *. lra.
Qed.
Lemma single_group ls j : In ls lss -> In j (Js abs_J (ls_lines ls)) -> exists x, In x (ls_lines ls) /\ abs_J x = j /\ of_J abs_J j (ls_lines ls) = [x].
Proof.
  intros Hls Hj. specialize (Hi ls Hls). apply nodup_In, in_map_iff in Hj as (x & Hx & Hin). exists x. split; [exact Hin|]. split; [exact Hx|].
  unfold of_J. revert Hi Hin. generalize (ls_lines ls). intros l. induction l as [|y l IH]; intros Hn Hin; [destruct Hin|]. cbn [map] in Hn. inversion Hn as [|? ? Hy Hn']; subst.
  cbn [filter]. destruct Hin as [->|Hin].
  - rewrite Z.eqb_refl. f_equal. clear -Hy. induction l as [|z l IH]; [reflexivity|]. cbn [filter map] in *.
    destruct (Z.eqb_spec (abs_J z) (abs_J x)) as [E0|]; [exfalso; apply Hy; left; exact E0|]. apply IH. intros H. apply Hy. right; exact H.
  - destruct (Z.eqb_spec (abs_J y) (abs_J x)) as [E0|]; [exfalso; apply Hy; rewrite E0; apply in_map, Hin | apply IH; assumption].
Qed.
Lemma U_J_bound ls j : In ls lss -> In j (Js abs_J (ls_lines ls)) -> norm2 (U_J k a E q ahat ls j) <= 1.
Proof.
  intros Hls Hj. destruct (single_group ls j Hls Hj) as (x & Hx & _ & Ex). unfold U_J. rewrite Ex. cbn [map].
  rewrite one_norm; [|apply U0_unit | apply Hpole; assumption]. pose proof (lost ls x Hls Hx). lra.
Qed.
Lemma weighted ls (F : Z -> R) (z c : R) : In ls lss -> 0 <= z <= c -> (forall j, In j (Js abs_J (ls_lines ls)) -> 0 <= F j <= c) ->
  0 <= Rsum (map (fun j => g_neutron I j * F j) (Js abs_J (ls_lines ls))) + (2 * INR (ls_L ls) + 1 - Rsum (map (g_neutron I) (Js abs_J (ls_lines ls)))) * z <= (2 * INR (ls_L ls) + 1) * c.
Proof.
  intros Hls Hz HF. pose proof (weight_2l1 I HI ls (Hc ls Hls)) as W. unfold weight in W. pose proof (fun j => J_nonneg ls j) as HJ.
  revert HF HJ W. generalize (Js abs_J (ls_lines ls)). intros js HF HJ W.
  assert (B : 0 <= Rsum (map (fun j => g_neutron I j * F j) js) <= Rsum (map (g_neutron I) js) * c).
  { clear W. induction js as [|j js IH]; cbn [map]; rewrite ?Rsum_nil, ?Rsum_cons; [lra|].
    destruct IH as [B1 B2]; [intros; apply HF; right; assumption | intros; apply HJ; right; assumption|].
    pose proof (HF j (or_introl eq_refl)) as B0. pose proof (g_neutron_nonneg I j HI (HJ j (or_introl eq_refl))) as G.
    assert (0 <= g_neutron I j * F j <= g_neutron I j * c) by (split; [apply Rmult_le_pos; lra | apply Rmult_le_compat_l; lra]). lra. }
  set (W0 := Rsum (map (g_neutron I) js)) in *. assert (0 <= (2 * INR (ls_L ls) + 1 - W0) * z <= (2 * INR (ls_L ls) + 1 - W0) * c) by (split; [apply Rmult_le_pos; lra | apply Rmult_le_compat_l; lra]). lra.
Qed.
Lemma sum_bound (F : bw_lstate -> R) c : (forall ls, In ls lss -> F ls <= (2 * INR (ls_L ls) + 1) * c) -> barns k E * Rsum (map F lss) <= c * unit_limit k E lss.
Proof.
  intros H. unfold unit_limit. rewrite <- Rmult_assoc, (Rmult_comm c), Rmult_assoc. apply Rmult_le_compat_l; [apply barns_nonneg|]. rewrite <- Rsum_scale.
  revert H. generalize lss. intros l H. induction l as [|ls l IH]; cbn [map]; rewrite ?Rsum_nil, ?Rsum_cons; [lra|].
  specialize (IH (fun ls' H' => H ls' (or_intror H'))). specialize (H ls (or_introl eq_refl)). lra.
Qed.
Lemma ML_limit : MLBW_elastic k a E q ahat I lss <= 4 * unit_limit k E lss.
Proof.
  unfold MLBW_elastic. apply sum_bound. intros ls Hls. unfold ML_elastic.
  assert (B : forall U, norm2 U <= 1 -> 0 <= scattered U <= 4) by (intros U HU; split; [apply scattered_nonneg|]; rewrite scattered_norm; pose proof (re_le U HU); lra).
  apply (weighted ls (fun j => scattered (U_J k a E q ahat ls j)) (scattered (U0 ls)) 4 Hls).
  - apply B. rewrite U0_unit. lra.
  - intros j Hj. apply B, U_J_bound; assumption.
Qed.
Lemma total_limit : optical k a E q ahat I lss <= 4 * unit_limit k E lss.
Proof.
  unfold optical. rewrite (Rmult_comm 2), Rmult_assoc, <- Rsum_scale.
  apply sum_bound. intros ls Hls.
  assert (B : forall U, norm2 U <= 1 -> 0 <= 1 - re U <= 2) by (intros U HU; pose proof (re_le U HU); lra).
  pose proof (weighted ls (fun j => 1 - re (U_J k a E q ahat ls j)) (1 - re (U0 ls)) 2 Hls) as W.
  destruct W as [_ W]; [apply B; rewrite U0_unit; lra | intros j Hj; apply B, U_J_bound; assumption|]. lra.
Qed.
Lemma reactions_limit : BW_capture k a E q I lss + BW_fission k a E q I lss + BW_competitive k a E q I lss <= unit_limit k E lss.
Proof.
  rewrite reactions_sum. rewrite <- (Rmult_1_l (unit_limit k E lss)). unfold lines_sum. apply sum_bound. intros ls Hls.
  set (L x := w_n (v ls x) * (w_T (v ls x) - w_n (v ls x)) / norm2 (pole E (v ls x))).
  change (Rsum (map (fun x => g_of I x * L x) (ls_lines ls)) <= (2 * INR (ls_L ls) + 1) * 1). rewrite <- (Js_line L).
  pose proof (weighted ls (fun j => Rsum (map L (of_J abs_J j (ls_lines ls)))) 0 1 Hls ltac:(lra)) as W.
  destruct W as [_ W]; [|rewrite Rmult_0_r, Rplus_0_r in W; exact W].
  intros j Hj. destruct (single_group ls j Hls Hj) as (x & Hx & _ & ->). cbn [map]. rewrite Rsum_cons, Rsum_nil, Rplus_0_r. apply lost; assumption.
Qed.
Lemma competitive_sum_nonneg : 0 <= BW_competitive k a E q I lss.
Proof.
  unfold BW_competitive. apply Rmult_le_pos; [apply barns_nonneg|]. apply Rsum_map_nonneg; intros ls Hls. apply Rsum_map_nonneg; intros x Hx.
  apply Rmult_le_pos; [apply g_of_nonneg; exact HI|]. apply reaction_nonneg; [exact Hk | apply (Hw ls x Hls Hx) | apply competitive_nonneg; assumption].
Qed.
End File.
