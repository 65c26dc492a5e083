(** From the expansions towards the origin. *)
From Coq Require Import String List ZArith Reals Bool Lia Lra Psatz.
From Coquelicot Require Import Coquelicot.
From Verif Require Import Outcome CoulombWaveModel CoulombWaveSpec CoulombExactModel CoulombExactProofs CoulombRealProofs CoulombMeshProofs NewmarkSpec NewmarkProofs NewmarkErrorProofs
  AsymptoticSpec SigmaSpec IrregularSpec IrregularCode OscillationCode InwardSpec InwardProofs.
Open Scope R_scope.

Lemma started_steps r y s ra p0 p1 : startAsymptotic exact (Fin r) (Fin y) s = Ok (Fin ra, (Fin p0, Fin p1)) -> p0 <> 0 -> p1 <> 0 -> r < ra -> ra - r < 9000 ->
  exists n h, omAsymptotic exact (Fin r) (Fin y) s = omNewmark exact n (Fin h) (Fin y) (Fin ra) (Fin p0) (Fin p1) /\ (0 < n)%Z /\ ra - IZR n * h = r /\ 0 < h <= 1 / 100.
Proof.
  intros St P0 P1 H2 H3. set (a := (ra - r) / (1 / 100)). assert (Ea : a = 100 * (ra - r)) by (unfold a; field). destruct (Int_part_bounds a) as [L U].
  assert (K : Rtrunc a = Int_part a) by (unfold Rtrunc; rewrite Rltb_false by lra; reflexivity).
  assert (B : (0 <= Int_part a <= 900000)%Z) by (split; [apply Z.lt_succ_r, lt_IZR; rewrite succ_IZR; lra | apply le_IZR; lra]).
  exists (Int_part a + 1)%Z, ((ra - r) / IZR (Int_part a + 1)).
  assert (P : 1 <= IZR (Int_part a) + 1) by (pose proof (IZR_le 0 (Int_part a) ltac:(lia)); lra).
  split.
  - unfold omAsymptotic. rewrite St. cbn [bind]. rewrite !eqb_nonzero by assumption. cbn [negb andb].
    change (sub (Fin ra : exact) (Fin r)) with (Fin (ra - r) : exact). rewrite eqb_nonzero by lra. cbn [negb].
    assert (E : div (Fin (ra - r) : exact) MESH_RHO = Fin a) by (change (ext_div (Fin (ra - r)) (Fin (1 / 100)) = Fin a); apply div_Fin; lra).
    rewrite E. assert (T : trunc (Fin a : exact) = Some (Int_part a)).
    { change (ext_trunc (Fin a) = Some (Int_part a)). unfold ext_trunc. rewrite K.
      replace ((-2147483648 <=? Int_part a)%Z) with true by (symmetry; apply Z.leb_le; lia). replace ((Int_part a <=? 2147483647)%Z) with true by (symmetry; apply Z.leb_le; lia). reflexivity. }
    rewrite T. unfold int_value.
    repeat match goal with |- context [(?a <=? ?b)%Z] => replace ((a <=? b)%Z) with true by (symmetry; apply Z.leb_le; lia) end. cbn [andb bind].
    rewrite (Z.abs_eq (Int_part a + 1)) by lia.
    repeat match goal with |- context [(?a <=? ?b)%Z] => replace ((a <=? b)%Z) with true by (symmetry; apply Z.leb_le; lia) end. cbn [andb bind].
    change (div (Fin (ra - r) : exact) (dec (Int_part a + 1) 0)) with (ext_div (Fin (ra - r)) (Fin (IZR (Int_part a + 1)))). rewrite div_Fin by (rewrite plus_IZR; lra). reflexivity.
  - rewrite plus_IZR. split; [lia|]. split; [field; lra|]. split.
    + apply Rdiv_lt_0_compat; lra.
    + apply (Rmult_le_reg_r (IZR (Int_part a) + 1)); [lra|]. unfold Rdiv at 1. rewrite Rmult_assoc, Rinv_l by lra. lra.
Qed.
Lemma growth_mono eta lo W h : 0 < lo -> 0 <= eta -> 1 <= W -> 0 <= h <= 1 / 100 -> step_growth eta lo W h <= step_growth eta lo W (1 / 100).
Proof.
  intros Hl He HW Hh. unfold step_growth. apply Rplus_le_compat_r. apply Rmult_le_compat_r; [|lra]. assert (0 <= 2 * eta / lo ^ 2) by (apply Rdiv_le_0_compat; [lra | apply pow_lt, Hl]). nra.
Qed.
Lemma loss_mono eta lo W U h : 0 < lo -> 0 <= eta -> 1 <= W -> 0 <= U -> 0 <= h <= 1 / 100 -> step_loss eta lo W U h <= step_loss eta lo W U (1 / 100).
Proof.
  intros Hl He HW HU Hh. unfold step_loss. apply Rplus_le_compat_l. assert (A : 0 <= 2 * eta / lo ^ 2) by (apply Rdiv_le_0_compat; [lra | apply pow_lt, Hl]). assert (B : 0 <= 4 * eta / lo ^ 3) by (apply Rdiv_le_0_compat; [lra | apply pow_lt, Hl]).
  apply Rmult_le_compat_r; [|apply pow_incr; lra].
  assert (0 <= (2 * eta / lo ^ 2 + W) * U) by (apply Rmult_le_pos; lra). assert (0 <= (4 * eta / lo ^ 3 + 2 * (2 * eta / lo ^ 2) + W ^ 2) * U) by (apply Rmult_le_pos; [nra | lra]). lra.
Qed.
Lemma loss_nonneg eta lo W U h : 0 < lo -> 0 <= eta -> 1 <= W -> 0 <= U -> 0 <= step_loss eta lo W U h.
Proof.
  intros Hl He HW HU. unfold step_loss. assert (A : 0 <= 2 * eta / lo ^ 2) by (apply Rdiv_le_0_compat; [lra | apply pow_lt, Hl]). assert (B : 0 <= 4 * eta / lo ^ 3) by (apply Rdiv_le_0_compat; [lra | apply pow_lt, Hl]).
  assert (0 < / 10 ^ 10) by (apply Rinv_0_lt_compat, pow_lt; lra). assert (0 <= W * U) by (apply Rmult_le_pos; lra).
  assert (0 <= (2 * eta / lo ^ 2 + W) * U) by (apply Rmult_le_pos; lra). assert (0 <= (4 * eta / lo ^ 3 + 2 * (2 * eta / lo ^ 2) + W ^ 2) * U) by (apply Rmult_le_pos; [nra | lra]).
  apply Rplus_le_le_0_compat; [apply Rmult_le_pos; lra | apply Rmult_le_pos; [apply pow2_ge_0 | lra]].
Qed.
Lemma error_mono eta lo hi W U h a b : 0 < lo -> lo <= hi -> 0 <= eta -> 1 <= W -> 0 <= U -> 0 <= h <= 1 / 100 -> 0 <= a <= b -> inward_error eta lo hi W U h a <= inward_error eta lo hi W U (1 / 100) b.
Proof.
  intros Hl Hlh He HW HU Hh Hab. unfold inward_error. pose proof (loss_nonneg eta lo W U h Hl He HW HU). pose proof (loss_mono eta lo W U h Hl He HW HU Hh). pose proof (growth_mono eta lo W h Hl He HW Hh).
  assert (P : 0 < growth eta lo hi) by apply exp_pos. apply Rmult_le_compat.
  - apply Rmult_le_pos; [lra | left; apply exp_pos].
  - apply Rplus_le_le_0_compat; [lra | apply Rmult_le_pos; lra].
  - apply Rmult_le_compat_l; [lra|]. apply exp_mono. apply Rmult_le_compat_l; lra.
  - apply Rplus_le_compat; [lra|]. apply Rmult_le_compat_l; lra.
Qed.
Theorem started r eta s ra p0 p1 W U u u1 e : startAsymptotic exact (Fin r) (Fin eta) s = Ok (Fin ra, (Fin p0, Fin p1)) -> p0 <> 0 -> p1 <> 0 -> r < ra -> ra - r < 9000 -> W <= 10 ->
  solution eta r ra u u1 -> limits eta r ra W U u u1 -> gap (p0 - u ra) (p1 - u1 ra) <= e ->
  exists a b, omAsymptotic exact (Fin r) (Fin eta) s = Ok (a, b) /\
    ((exists g f, a = Fin g /\ b = Fin f /\ gap (g - u r) (f - u1 r) <= inward_error eta r ra W U (1 / 100) e) \/
     (a = Fin 0 /\ b = Fin 0 /\ gave_up eta r ra p0 p1)).
Proof.
  intros St P0 P1 Hr H9 HW10 S L He. destruct (started_steps r eta s ra p0 p1 St P0 P1 Hr H9) as (n & h & En & Hn & Hnh & Hh).
  destruct L as [[Lp Ep] [W1 Wb] Ls]. assert (L : limits eta r ra W U u u1) by (split; [split | split |]; assumption).
  set (m := Z.to_nat n). assert (Em : INR m = IZR n) by (unfold m; rewrite INR_IZR_INZ, Z2Nat.id by lia; reflexivity). rewrite <- Em in Hnh.
  assert (X : forall k, (k <= m)%nat -> r <= ra - INR k * h <= ra) by (intros k Hk; pose proof (le_INR _ _ Hk); pose proof (pos_INR k); assert (INR k * h <= INR m * h) by (apply Rmult_le_compat_r; lra); assert (0 <= INR k * h) by (apply Rmult_le_pos; lra); lra).
  destruct (newmark_exact n h eta ra p0 p1 ltac:(lia) ltac:(intros k Hk; pose proof (X k Hk); lra)) as (a & b & Eo & C).
  exists a, b. split; [rewrite En; exact Eo|]. destruct C as [(g & f & I & Ea & Eb)|(Ea & Eb & Hv)].
  - left. exists (g m), (f m). split; [exact Ea|]. split; [exact Eb|].
    pose proof (integration_gap eta r ra W U u u1 S L h p0 p1 m g f ltac:(lra) ltac:(nra) ltac:(intros k Hk; apply X, Hk) I m (le_n m)) as Er. rewrite Hnh in Er. replace (INR m * h) with (ra - r) in Er by lra.
    eapply Rle_trans; [exact Er|]. apply error_mono; try lra; [|split; [apply gap_nonneg | exact He]].
    destruct (Ls r ltac:(lra)) as [Q _]. pose proof (Rabs_pos (u r)). lra.
  - right. split; [exact Ea|]. split; [exact Eb|]. exists m, h. split; [exact Hh|]. split; [exact Hnh|]. apply Hv. intros k Hk.
    pose proof (X k Hk) as Xk. pose proof (proj2 (w_bound eta r ra W U u u1 L (ra - INR k * h) (proj1 Xk))) as B. unfold w in B. assert (h ^ 2 <= 1 / 100) by nra. pose proof (pow2_ge_0 h). pose proof (Rabs_pos (2 * eta / (ra - INR k * h) - 1)). nra.
Qed.
(** It does not stop on the way if the solution keeps away from zero, and the equation from its turning point *)
Theorem never_gives_up eta rho ra p0 p1 W U u u1 e m : rho < ra -> W <= 10 -> solution eta rho ra u u1 -> limits eta rho ra W U u u1 -> gap (p0 - u ra) (p1 - u1 ra) <= e ->
  0 < m -> 2 * inward_error eta rho ra W U (1 / 100) e + U / 50 <= m ->
  (forall x, rho <= x <= ra -> m <= Rabs (u x) /\ / 10 ^ 10 <= Rabs (2 * eta / x - 1)) -> ~ gave_up eta rho ra p0 p1.
Proof.
  intros Hr HW10 S L He Hm HE Hu (n & h & Hh & Hn & k & g & f & Hk & I & V). cbv zeta in V. destruct V as (_ & _ & V).
  pose proof L as [[Lp Ep] [W1 Wb] Ls].
  assert (X : forall j, (j <= n)%nat -> rho <= ra - INR j * h <= ra) by (intros j Hj; pose proof (le_INR _ _ Hj); pose proof (pos_INR j); assert (INR j * h <= INR n * h) by (apply Rmult_le_compat_r; lra); assert (0 <= INR j * h) by (apply Rmult_le_pos; lra); lra).
  pose proof (X k ltac:(lia)) as Xk. pose proof (X (Datatypes.S k) Hk) as Xk1.
  assert (U0 : 0 <= U) by (destruct (Ls rho ltac:(lra)) as [Q _]; pose proof (Rabs_pos (u rho)); lra).
  pose proof (integration_gap eta rho ra W U u u1 S L h p0 p1 k g f ltac:(lra) ltac:(nra) ltac:(intros j Hj; apply X; lia) I k (le_n k)) as Er.
  set (x := ra - INR k * h) in *. set (x1 := ra - INR (Datatypes.S k) * h) in *.
  assert (B : gap (g k - u x) (f k - u1 x) <= inward_error eta rho ra W U (1 / 100) e).
  { eapply Rle_trans; [exact Er|]. eapply Rle_trans; [|apply (error_mono eta rho ra W U h (gap (p0 - u ra) (p1 - u1 ra)) e); try lra; split; [apply gap_nonneg | exact He]].
    unfold inward_error. assert (kh : INR k * h <= ra - rho) by (unfold x in Xk; lra). assert (kh0 : 0 <= INR k * h) by (apply Rmult_le_pos; [apply pos_INR | lra]). pose proof (loss_nonneg eta rho W U h Lp Ep W1 U0) as M0. pose proof (gap_nonneg (p0 - u ra) (p1 - u1 ra)) as G0.
    assert (K0 : 0 <= step_growth eta rho W h). { unfold step_growth. assert (0 <= 2 * eta / rho ^ 2) by (apply Rdiv_le_0_compat; [lra | apply pow_lt, Lp]). assert (0 < / 10 ^ 9) by (apply Rinv_0_lt_compat, pow_lt; lra). assert (0 <= h * (2 * W ^ 2 + 2 * eta / rho ^ 2)) by (apply Rmult_le_pos; [lra | nra]). nra. }
    apply Rmult_le_compat; [apply Rmult_le_pos; left; apply exp_pos | apply Rplus_le_le_0_compat; [exact G0 | apply Rmult_le_pos; lra] | | apply Rplus_le_compat_l, Rmult_le_compat_r; lra].
    apply Rmult_le_compat; [left; apply exp_pos | left; apply exp_pos | | apply exp_mono, Rmult_le_compat_r; lra].
    rewrite <- (growth_compose eta rho x ra) by lra. pose proof (growth_one eta rho ra W U u u1 L rho x Lp ltac:(lra)) as G1. assert (0 < growth eta x ra) by apply exp_pos. nra. }
  set (E := inward_error eta rho ra W U (1 / 100) e) in *. pose proof (Rle_trans _ _ _ (gap_fst _ _) B) as Bg. pose proof (Rle_trans _ _ _ (gap_snd _ _) B) as Bf. assert (E0 : 0 <= E) by (pose proof (gap_nonneg (g k - u x) (f k - u1 x)); lra).
  destruct (Ls x ltac:(lra)) as [Su Su1]. destruct (Hu x ltac:(lra)) as [Mu _]. destruct (Hu x1 ltac:(lra)) as [_ Wl]. pose proof (proj2 (w_bound eta rho ra W U u u1 L x (proj1 Xk))) as Wx. unfold w in Wx.
  assert (T : forall a b, Rabs a <= Rabs b + Rabs (a - b)) by (intros a b; replace a with (b + (a - b)) at 1 by ring; apply Rabs_triang).
  pose proof (T (g k) (u x)) as Tg. pose proof (T (f k) (u1 x)) as Tf. pose proof (T (u x) (g k)) as Tu. rewrite (Rabs_minus_sym (u x)) in Tu.
  unfold acceleration, predicted in V. set (w0 := 2 * eta / x - 1) in *. set (w1 := 2 * eta / x1 - 1) in *.
  assert (A0 : Rabs (w0 * g k) <= 10 * (U + E)) by (rewrite Rabs_mult; apply Rmult_le_compat; try apply Rabs_pos; lra).
  set (q := g k + - h * f k + (- h) ^ 2 * ((1 / 2 - 1 / 10) * (w0 * g k))) in *.
  assert (Q : Rabs (g k) <= Rabs q + h * (U + E) + h ^ 2 * (2 / 5 * (10 * (U + E)))).
  { replace (g k) with (q + (h * f k + - (h ^ 2 * (2 / 5 * (w0 * g k))))) at 1 by (unfold q; field). eapply Rle_trans; [apply Rabs_triang|]. rewrite Rplus_assoc. apply Rplus_le_compat_l. eapply Rle_trans; [apply Rabs_triang|]. rewrite Rabs_Ropp, !Rabs_mult, (Rabs_pos_eq h), (Rabs_pos_eq (h ^ 2)), (Rabs_pos_eq (2 / 5)) by (try lra; apply pow2_ge_0). rewrite <- (Rabs_mult w0).
    apply Rplus_le_compat; [apply Rmult_le_compat_l; lra|]. apply Rmult_le_compat_l; [apply pow2_ge_0 | lra]. }
  assert (H1 : h * (U + E) <= 1 / 100 * (U + E)) by (apply Rmult_le_compat_r; lra). assert (H2 : h ^ 2 * (2 / 5 * (10 * (U + E))) <= 1 / 10000 * (2 / 5 * (10 * (U + E)))) by (apply Rmult_le_compat_r; [lra | nra]).
  assert (UE : 0 < U + E) by lra. assert (Qp : 1 / 1000 * (U + E) <= Rabs q) by lra.
  rewrite Rabs_mult in V. assert (V' : / 10 ^ 10 * (1 / 1000 * (U + E)) <= / 10 ^ 80 * (10 * (U + E))).
  { eapply Rle_trans; [apply Rmult_le_compat; [left; apply Rinv_0_lt_compat, pow_lt; lra | lra | exact Wl | exact Qp]|]. eapply Rle_trans; [exact V|]. apply Rmult_le_compat_l; [left; apply Rinv_0_lt_compat, pow_lt; lra | exact A0]. }
  assert (Z : / 10 ^ 80 <= / 10 ^ 16) by (apply Rinv_le_contravar; [apply pow_lt; lra | apply Rle_pow; [lra | lia]]). assert (V2 : / 10 ^ 80 * (10 * (U + E)) <= / 10 ^ 16 * (10 * (U + E))) by (apply Rmult_le_compat_r; lra).
  assert (V3 := Rle_trans _ _ _ V' V2). lra.
Qed.
Lemma irregular_solution eta G G1 lo hi : 0 < lo -> irregular eta G G1 -> solution eta lo hi G G1.
Proof. intros Hl I. split; intros x Hx; [apply (ir_slope _ _ _ I) | apply (ir_equation _ _ _ I)]; lra. Qed.
Lemma Ok_inj {T} (a b : T) : Ok a = Ok b -> a = b.
Proof. intros H. injection H as H. exact H. Qed.
Lemma off_zero p v e : Rabs (p - v) <= e -> e < Rabs v -> p <> 0.
Proof. intros H1 H2 ->. rewrite Rminus_0_l, Rabs_Ropp in H1. lra. Qed.

(** Below eta = 5 *)
Theorem far_inward eta rho G G1 W U : let ra := 2 * eta + 10 in 0 <= eta < 5 -> 0 < rho < ra -> irregular eta G G1 -> (forall k, (k < 18)%nat -> ~ repeating eta ra k) ->
  / 10 ^ 7 < Rabs (G ra) -> 2 / 10 ^ 7 < Rabs (G1 ra) -> W <= 10 -> limits eta rho ra W U G G1 ->
  exists p0 p1 a b, Rabs (p0 - G ra) <= / 10 ^ 7 /\ Rabs (p1 - G1 ra) <= 2 / 10 ^ 7 /\
    omAsymptotic exact (Fin rho) (Fin eta) (sigma0_of exact (Fin eta)) = Ok (a, b) /\
    ((exists g g1, a = Fin g /\ b = Fin g1 /\ gap (g - G rho) (g1 - G1 rho) <= inward_error eta rho ra W U (1 / 100) (3 / 10 ^ 7)) \/
     (a = Fin 0 /\ b = Fin 0 /\ gave_up eta rho ra p0 p1)).
Proof.
  intros ra He Hr I Hn N0 N1 HW L. destruct (far_code eta ra G G1 ltac:(lra) ltac:(unfold ra; lra) I Hn) as (s & p0 & p1 & Es & E & A & B).
  exists p0, p1.
  assert (St : startAsymptotic exact (Fin rho) (Fin eta) (sigma0_of exact (Fin eta)) = Ok (Fin ra, (Fin p0, Fin p1))).
  { rewrite Es. unfold startAsymptotic. change (#15%num : exact) with (Fin 15 : exact). change (#5%num : exact) with (Fin 5 : exact). rewrite !le_false by lra. cbv zeta.
    change (#2%num * (Fin eta : exact) + #10)%num with (Fin (2 * eta + 10) : exact). fold ra. rewrite lt_false by lra. rewrite E. reflexivity. }
  assert (Gp : gap (p0 - G ra) (p1 - G1 ra) <= 3 / 10 ^ 7) by (eapply Rle_trans; [apply gap_sum|]; lra).
  destruct (started rho eta _ ra p0 p1 W U G G1 (3 / 10 ^ 7) St (off_zero _ _ _ A N0) (off_zero _ _ _ B N1) ltac:(lra) ltac:(unfold ra; lra) HW (irregular_solution eta G G1 rho ra ltac:(lra) I) L Gp) as (a & b & H1 & H2).
  exists a, b. split; [exact A|]. split; [exact B|]. split; [exact H1 | exact H2].
Qed.
(** From 5 to 15, beyond the turning point *)
Theorem oscillation_inward eta rho s G G1 W U : let ra := 25 / 10 * eta + 75 / 10 in 5 <= eta < 15 -> 2 * eta < rho < ra -> irregular eta G G1 ->
  / 1000 < Rabs (G ra) -> / 100 < Rabs (G1 ra) -> W <= 10 -> limits eta rho ra W U G G1 ->
  exists p0 p1 a b, Rabs (p0 - G ra) <= / 1000 /\ Rabs (p1 - G1 ra) <= / 100 /\
    omAsymptotic exact (Fin rho) (Fin eta) s = Ok (a, b) /\
    ((exists g g1, a = Fin g /\ b = Fin g1 /\ gap (g - G rho) (g1 - G1 rho) <= inward_error eta rho ra W U (1 / 100) (11 / 1000)) \/
     (a = Fin 0 /\ b = Fin 0 /\ gave_up eta rho ra p0 p1)).
Proof.
  intros ra He Hr I N0 N1 HW L. destruct (oscillation_code eta ra s G G1 He ltac:(unfold ra; lra) I) as (p0 & p1 & E & A & B).
  rewrite asymptotic_oscillation in E by (unfold ra; lra). apply Ok_inj in E.
  exists p0, p1.
  assert (St : startAsymptotic exact (Fin rho) (Fin eta) s = Ok (Fin ra, (Fin p0, Fin p1))).
  { unfold startAsymptotic. change (#15%num : exact) with (Fin 15 : exact). change (#5%num : exact) with (Fin 5 : exact). rewrite le_false, le_true by lra. cbv zeta.
    change (#2%num * (Fin eta : exact))%num with (Fin (2 * eta) : exact). rewrite lt_true by lra.
    change (dec 25 (-1) * (Fin eta : exact) + dec 75 (-1))%num with (Fin ra : exact). rewrite lt_false by lra. rewrite E. reflexivity. }
  assert (Gp : gap (p0 - G ra) (p1 - G1 ra) <= 11 / 1000) by (eapply Rle_trans; [apply gap_sum|]; lra).
  destruct (started rho eta _ ra p0 p1 W U G G1 (11 / 1000) St (off_zero _ _ _ A N0) (off_zero _ _ _ B N1) ltac:(lra) ltac:(unfold ra; lra) HW (irregular_solution eta G G1 rho ra ltac:(lra) I) L Gp) as (a & b & H1 & H2).
  exists a, b. split; [exact A|]. split; [exact B|]. split; [exact H1 | exact H2].
Qed.
