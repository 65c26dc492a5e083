(** The error of the fluctuation integrals. *)
From Coq Require Import List ZArith Reals Lra Lia Bool.
From Coquelicot Require Import Coquelicot.
From Verif Require Import QuantumSpec UnresolvedSpec FluctuationSpec ImproperProofs ChiSquareProofs RuleErrorProofs FluctuationProofs.
Import ListNotations.
Open Scope R_scope.

Definition err_node (n : nat) : R := IZR (node_units n) / IZR unit_w.
Definition err_own (n : nat) : R := IZR (own_units n) / IZR unit_w.
Lemma nodes_positive n : (1 <= n <= 4)%nat -> positive_nodes (chi2_rule n).
Proof. intros Hn. rewrite (rules_integer n Hn). apply rule_positive, (tests n Hn). Qed.
Lemma constants n : (1 <= n <= 4)%nat ->
  0 <= err_node n /\ 0 <= err_own n /\ 0 <= mass (chi2_rule n) <= 1.00024 /\
  (Rabs (mass (chi2_rule n) - 1) + err_node n) * 1.0005 <= other_error n /\ (Rabs (first_moment (chi2_rule n) - 1) + err_own n) * 1.0005 <= own_error n.
Proof.
  intros Hn. assert (B : forall z a, - a <= z <= a -> Rabs z <= a) by (intros; apply Rabs_le; lra).
  assert (E : (n = 1 \/ n = 2 \/ n = 3 \/ n = 4)%nat) by lia. unfold err_node, err_own, mass, first_moment, average, unit_w.
  destruct E as [-> | [-> | [-> | ->]]]; unfold chi2_rule, node_units, own_units, own_error, other_error; cbn [map fst snd Rsum fold_right];
  (split; [lra|]); (split; [lra|]); (split; [lra|]); (split; [match goal with |- (Rabs ?z + _) * _ <= _ => first [pose proof (B z 1e-7 ltac:(lra)) | pose proof (B z 9e-5 ltac:(lra)) | pose proof (B z 2.38e-4 ltac:(lra))] end; lra|]);
  match goal with |- (Rabs ?z + _) * _ <= _ => first [pose proof (B z 1e-7 ltac:(lra)) | pose proof (B z 3.1e-4 ltac:(lra)) | pose proof (B z 1.102e-3 ltac:(lra))] end; lra.
Qed.
Lemma quotient_unit a d : 0 <= a <= d -> 0 < d -> 0 <= a / d <= 1.
Proof.
  intros Ha Hd. split; [apply Rmult_le_pos; [lra | left; apply Rinv_0_lt_compat; lra]|]. apply Rmult_le_reg_r with d; [lra|]. replace (a / d * d) with a by (field; lra). lra.
Qed.
Lemma factors_le a b c d K : 0 <= a <= 1 -> 0 <= b <= K -> c = a * b * d -> Rabs c <= K * Rabs d.
Proof.
  intros Ha Hb ->. rewrite Rabs_mult, (Rabs_right (a * b)) by (apply Rle_ge, Rmult_le_pos; lra). apply Rmult_le_compat_r; [apply Rabs_pos|].
  rewrite <- (Rmult_1_l K). apply Rmult_le_compat; lra.
Qed.

Lemma node_close n s v : (1 <= n <= 4)%nat -> 0 < s -> mean n (fun y => s / (y + s)) v ->
  Rabs (node_rule (chi2_rule n) s - v) <= other_error n / 1.0005 /\ Rabs (mass (chi2_rule n) - node_rule (chi2_rule n) s - (1 - v)) <= other_error n / 1.0005.
Proof.
  intros Hn Hs Hv. pose proof (node_error n v s Hn Hs Hv) as E. fold (err_node n) in E. destruct (constants n Hn) as (A & _ & _ & B & _).
  assert (C : Rabs (mass (chi2_rule n) - 1) + err_node n <= other_error n / 1.0005) by (apply Rmult_le_reg_r with 1.0005; [lra|]; replace (other_error n / 1.0005 * 1.0005) with (other_error n) by lra; exact B).
  pose proof (Rabs_pos (mass (chi2_rule n) - 1)). split; [lra|].
  replace (mass (chi2_rule n) - node_rule (chi2_rule n) s - (1 - v)) with ((mass (chi2_rule n) - 1) + - (node_rule (chi2_rule n) s - v)) by ring.
  pose proof (Rabs_triang (mass (chi2_rule n) - 1) (- (node_rule (chi2_rule n) s - v))) as T. rewrite (Rabs_Ropp (node_rule (chi2_rule n) s - v)) in T. lra.
Qed.
(** ** A width that is not in front *)
Section Other.
Variables (G : R) (n : nat).
Hypotheses (HG : 0 <= G) (Hn : G <> 0 -> (1 <= n <= 4)%nat).
Definition other_tolerance : R := if Req_EM_T G 0 then 0 else other_error n / 1.0005.
Lemma width_nodes : positive_nodes (width_rule G n).
Proof.
  unfold width_rule. destruct (Req_EM_T G 0); [|apply nodes_positive, Hn; assumption]. intros p [<- | []]. cbn. lra.
Qed.
Lemma width_mass : 0 <= mass (width_rule G n) <= 1.00024.
Proof.
  unfold width_rule. destruct (Req_EM_T G 0); [|apply (constants n (Hn n0))]. unfold mass, average. cbn. lra.
Qed.
Lemma tolerance_sum : other_tolerance * 1.0005 = if Req_EM_T G 0 then 0 else other_error n.
Proof. unfold other_tolerance. destruct (Req_EM_T G 0); lra. Qed.
Lemma tolerance_nonneg : 0 <= other_tolerance.
Proof.
  unfold other_tolerance. destruct (Req_EM_T G 0) as [|N]; [lra|]. destruct (constants n (Hn N)) as (A & _ & _ & B & _). pose proof (Rabs_pos (mass (chi2_rule n) - 1)).
  assert (0 <= other_error n) by (apply Rle_trans with (2 := B); apply Rmult_le_pos; lra). apply Rmult_le_pos; [lra | lra].
Qed.
Lemma other_close (phi : R -> R) x c0 R0 : 0 < x -> 0 <= c0 <= R0 -> 0 < R0 -> (forall t, 0 < t -> phi t = x * c0 / (R0 + t * G)) ->
  close (mean_of G n) (width_rule G n) (x * other_tolerance) phi.
Proof.
  intros Hx Hc HR E v Hv. unfold width_rule, other_tolerance. destruct (Req_EM_T G 0) as [-> | N].
  - apply mean_of_zero in Hv. rewrite Hv. unfold average, constant_rule. cbn. replace (1 * phi 1 + 0 - phi 1) with 0 by ring. rewrite Rabs_R0. lra.
  - apply mean_of_nonzero in Hv; [|exact N]. assert (PG : 0 < G) by lra. set (s := R0 / G). assert (Hs : 0 < s) by (apply Rdiv_lt_0_compat; assumption).
    set (k := x * c0 / R0). assert (Hk : 0 <= k <= x). { pose proof (quotient_unit c0 R0 Hc HR). unfold k. replace (x * c0 / R0) with (x * (c0 / R0)) by (field; lra). nra. }
    assert (E' : forall t, 0 < t -> phi t = k * (s / (t + s))).
    { intros t Ht. rewrite E by exact Ht. unfold k, s. pose proof (Rmult_lt_0_compat _ _ Ht PG). field. repeat split; lra. }
    destruct (mean_exists n ltac:(specialize (Hn N); lia) _ (ratio_admissible s Hs)) as (w & Hw).
    assert (Ev : v = k * w). { apply (mean_unique n phi); [exact Hv|]. apply (mean_ext n (fun y => k * (s / (y + s)))); [intros; symmetry; apply E'; assumption | apply mean_scal; exact Hw]. }
    rewrite (average_ext _ phi (fun y => k * (s / (y + s)))) by (intros p Hp; apply E', (nodes_positive n (Hn N) p Hp)).
    rewrite average_scal, Ev, <- Rmult_minus_distr_l, Rabs_mult, (Rabs_right k) by lra. apply Rmult_le_compat; [lra | apply Rabs_pos | lra | apply (node_close n s w (Hn N) Hs Hw)].
Qed.
Lemma other_close_own (phi : R -> R) x R0 : 0 < x -> 0 < R0 -> (forall t, 0 < t -> phi t = x * (t * G) / (R0 + t * G)) ->
  close (mean_of G n) (width_rule G n) (x * other_tolerance) phi.
Proof.
  intros Hx HR E v Hv. unfold width_rule, other_tolerance. destruct (Req_EM_T G 0) as [-> | N].
  - apply mean_of_zero in Hv. rewrite Hv. unfold average, constant_rule. cbn. replace (1 * phi 1 + 0 - phi 1) with 0 by ring. rewrite Rabs_R0. lra.
  - apply mean_of_nonzero in Hv; [|exact N]. assert (PG : 0 < G) by lra. set (s := R0 / G). assert (Hs : 0 < s) by (apply Rdiv_lt_0_compat; assumption).
    assert (E' : forall t, 0 < t -> phi t = x * (1 + -1 * (s / (t + s)))).
    { intros t Ht. rewrite E by exact Ht. unfold s. pose proof (Rmult_lt_0_compat _ _ Ht PG). field. repeat split; lra. }
    destruct (mean_exists n ltac:(specialize (Hn N); lia) _ (ratio_admissible s Hs)) as (w & Hw).
    assert (Ev : v = x * (1 + -1 * w)).
    { apply (mean_unique n phi); [exact Hv|]. apply (mean_ext n (fun y => x * (1 + -1 * (s / (y + s))))); [intros; symmetry; apply E'; assumption|].
      apply mean_scal, mean_plus; [apply mean_const; specialize (Hn N); lia | apply mean_scal; exact Hw]. }
    rewrite (average_ext _ phi (fun y => x * (1 + -1 * (s / (y + s))))) by (intros p Hp; apply E', (nodes_positive n (Hn N) p Hp)).
    rewrite average_scal, Ev, <- Rmult_minus_distr_l, Rabs_mult, (Rabs_right x) by lra. apply Rmult_le_compat_l; [lra|].
    rewrite (average_plus _ (fun _ => 1) (fun y => -1 * (s / (y + s)))), average_scal. fold (mass (chi2_rule n)). fold (node_rule (chi2_rule n) s).
    replace (mass (chi2_rule n) + -1 * node_rule (chi2_rule n) s - (1 + -1 * w)) with (mass (chi2_rule n) - node_rule (chi2_rule n) s - (1 - w)) by ring. apply (node_close n s w (Hn N) Hs Hw).
Qed.
Lemma other_lip (phi : R -> R) x c0 R0 Gn t t' : 0 < x -> 0 < Gn -> 0 <= c0 <= R0 -> x * Gn <= R0 -> (forall t, 0 < t -> phi t = x * c0 / (R0 + t * G)) -> 0 < t -> 0 < t' ->
  Rabs (phi t' - phi t) <= G / Gn * Rabs (t' - t).
Proof.
  intros Hx HGn Hc HR E Ht Ht'. pose proof (Rmult_lt_0_compat _ _ Hx HGn). pose proof (Rmult_le_pos t G ltac:(lra) HG). pose proof (Rmult_le_pos t' G ltac:(lra) HG).
  rewrite <- (Rabs_Ropp (t' - t)). apply (factors_le (c0 / (R0 + t * G)) (x * Gn / (R0 + t' * G) * (G / Gn))).
  - apply quotient_unit; lra.
  - pose proof (quotient_unit (x * Gn) (R0 + t' * G) ltac:(lra) ltac:(lra)). assert (0 <= G / Gn) by (apply Rmult_le_pos; [lra | left; apply Rinv_0_lt_compat; lra]). nra.
  - rewrite !E by assumption. field. repeat split; lra.
Qed.
Lemma other_lip_own (phi : R -> R) x R0 Gn t t' : 0 < x -> 0 < Gn -> x * Gn <= R0 -> (forall t, 0 < t -> phi t = x * (t * G) / (R0 + t * G)) -> 0 < t -> 0 < t' ->
  Rabs (phi t' - phi t) <= G / Gn * Rabs (t' - t).
Proof.
  intros Hx HGn HR E Ht Ht'. pose proof (Rmult_lt_0_compat _ _ Hx HGn). pose proof (Rmult_le_pos t G ltac:(lra) HG). pose proof (Rmult_le_pos t' G ltac:(lra) HG).
  apply (factors_le (R0 / (R0 + t * G)) (x * Gn / (R0 + t' * G) * (G / Gn))).
  - apply quotient_unit; lra.
  - pose proof (quotient_unit (x * Gn) (R0 + t' * G) ltac:(lra) ltac:(lra)). assert (0 <= G / Gn) by (apply Rmult_le_pos; [lra | left; apply Rinv_0_lt_compat; lra]). nra.
  - rewrite !E by assumption. field. repeat split; lra.
Qed.
End Other.

(** ** The width in front *)
Section Front.
Variables (Gn : R) (n : nat).
Hypotheses (HGn : 0 < Gn) (Hn : (1 <= n <= 4)%nat).
Definition own_tolerance : R := own_error n / 1.0005.
Lemma own_close s v : 0 < s -> mean n (fun y => y * y / (y + s)) v ->
  Rabs (own_rule (chi2_rule n) s - v) <= own_tolerance /\ Rabs (first_moment (chi2_rule n) - own_rule (chi2_rule n) s - (1 - v)) <= own_tolerance.
Proof.
  intros Hs Hv. pose proof (own_error_rule n v s Hn Hs Hv) as E. fold (err_own n) in E. destruct (constants n Hn) as (_ & A & _ & _ & B).
  assert (C : Rabs (first_moment (chi2_rule n) - 1) + err_own n <= own_tolerance) by (unfold own_tolerance; apply Rmult_le_reg_r with 1.0005; [lra|]; replace (own_error n / 1.0005 * 1.0005) with (own_error n) by lra; exact B).
  pose proof (Rabs_pos (first_moment (chi2_rule n) - 1)). split; [lra|].
  replace (first_moment (chi2_rule n) - own_rule (chi2_rule n) s - (1 - v)) with ((first_moment (chi2_rule n) - 1) + - (own_rule (chi2_rule n) s - v)) by ring.
  pose proof (Rabs_triang (first_moment (chi2_rule n) - 1) (- (own_rule (chi2_rule n) s - v))) as T. rewrite (Rabs_Ropp (own_rule (chi2_rule n) s - v)) in T. lra.
Qed.
Lemma own_nonneg : 0 <= own_tolerance.
Proof.
  destruct (constants n Hn) as (_ & A & _ & _ & B). pose proof (Rabs_pos (first_moment (chi2_rule n) - 1)).
  assert (0 <= own_error n) by (apply Rle_trans with (2 := B); apply Rmult_le_pos; lra). unfold own_tolerance. apply Rmult_le_pos; [lra | lra].
Qed.
Lemma square_mean s : 0 < s -> exists w, mean n (fun y => y * y / (y + s)) w.
Proof.
  intros Hs. destruct (functions_exist n ltac:(lia)) as (F & F' & HF & _). eexists. apply (G_mean n ltac:(lia) F HF s Hs).
Qed.
Lemma front_close (phi : R -> R) c0 R0 : 0 <= c0 <= R0 -> (forall x, 0 < x -> phi x = x * c0 / (x * Gn + R0)) -> close (mean n) (chi2_rule n) own_tolerance phi.
Proof.
  intros Hc E v Hv. destruct (Req_dec R0 0) as [Z | N].
  - assert (E' : forall x, 0 < x -> phi x = 0). { intros x Hx. rewrite E by exact Hx. replace c0 with 0 by lra. unfold Rdiv. ring. }
    assert (Ev : v = 0). { apply (mean_unique n phi); [exact Hv|]. apply (mean_ext n (fun _ => 0)); [intros; symmetry; apply E'; assumption | apply mean_const; lia]. }
    rewrite (average_ext _ phi (fun _ => 0 * 1)) by (intros p Hp; rewrite E' by apply (nodes_positive n Hn p Hp); ring). rewrite average_scal, Ev, Rmult_0_l, Rminus_0_r, Rabs_R0. apply own_nonneg.
  - assert (PR : 0 < R0) by lra. set (s := R0 / Gn). assert (Hs : 0 < s) by (apply Rdiv_lt_0_compat; assumption). set (k := c0 / R0). pose proof (quotient_unit c0 R0 Hc PR) as Hk. fold k in Hk.
    assert (E' : forall x, 0 < x -> phi x = k * (x + -1 * (x * x / (x + s)))).
    { intros x Hx. rewrite E by exact Hx. unfold k, s. pose proof (Rmult_lt_0_compat _ _ Hx HGn). field. repeat split; lra. }
    destruct (square_mean s Hs) as (w & Hw).
    assert (Ev : v = k * (1 + -1 * w)).
    { apply (mean_unique n phi); [exact Hv|]. apply (mean_ext n (fun x => k * (x + -1 * (x * x / (x + s))))); [intros; symmetry; apply E'; assumption|].
      apply mean_scal, mean_plus; [apply mean_id; lia | apply mean_scal; exact Hw]. }
    rewrite (average_ext _ phi (fun x => k * (x + -1 * (x * x / (x + s))))) by (intros p Hp; apply E', (nodes_positive n Hn p Hp)).
    rewrite average_scal, Ev, <- Rmult_minus_distr_l, Rabs_mult, (Rabs_right k) by lra.
    rewrite (average_plus _ (fun x => x) (fun x => -1 * (x * x / (x + s)))), average_scal. fold (first_moment (chi2_rule n)). fold (own_rule (chi2_rule n) s).
    replace (first_moment (chi2_rule n) + -1 * own_rule (chi2_rule n) s - (1 + -1 * w)) with (first_moment (chi2_rule n) - own_rule (chi2_rule n) s - (1 - w)) by ring.
    destruct (own_close s w Hs Hw) as (_ & B). rewrite <- (Rmult_1_l own_tolerance). apply Rmult_le_compat; [lra | apply Rabs_pos | lra | exact B].
Qed.
Lemma front_close_own (phi : R -> R) R0 : 0 <= R0 -> (forall x, 0 < x -> phi x = x * (x * Gn) / (x * Gn + R0)) -> close (mean n) (chi2_rule n) own_tolerance phi.
Proof.
  intros HR E v Hv. destruct (Req_dec R0 0) as [Z | N].
  - assert (E' : forall x, 0 < x -> phi x = x). { intros x Hx. rewrite E by exact Hx. rewrite Z. field. split; lra. }
    assert (Ev : v = 1). { apply (mean_unique n phi); [exact Hv|]. apply (mean_ext n (fun x => x)); [intros; symmetry; apply E'; assumption | apply mean_id; lia]. }
    rewrite (average_ext _ phi (fun x => x)) by (intros p Hp; apply E', (nodes_positive n Hn p Hp)). rewrite Ev. fold (first_moment (chi2_rule n)).
    destruct (constants n Hn) as (_ & A & _ & _ & B). unfold own_tolerance. pose proof (Rabs_pos (first_moment (chi2_rule n) - 1)). lra.
  - assert (PR : 0 < R0) by lra. set (s := R0 / Gn). assert (Hs : 0 < s) by (apply Rdiv_lt_0_compat; assumption).
    assert (E' : forall x, 0 < x -> phi x = x * x / (x + s)).
    { intros x Hx. rewrite E by exact Hx. unfold s. pose proof (Rmult_lt_0_compat _ _ Hx HGn). field. repeat split; lra. }
    rewrite (average_ext _ phi (fun x => x * x / (x + s))) by (intros p Hp; apply E', (nodes_positive n Hn p Hp)).
    apply (own_close s v Hs). apply (mean_ext n phi); assumption.
Qed.
Lemma front_lip (phi : R -> R) c0 R0 x x' : 0 <= c0 <= R0 -> (forall x, 0 < x -> phi x = x * c0 / (x * Gn + R0)) -> 0 < x -> 0 < x' -> Rabs (phi x' - phi x) <= 1 * Rabs (x' - x).
Proof.
  intros Hc E Hx Hx'. pose proof (Rmult_lt_0_compat _ _ Hx HGn). pose proof (Rmult_lt_0_compat _ _ Hx' HGn).
  apply (factors_le (c0 / (x * Gn + R0)) (R0 / (x' * Gn + R0))); [apply quotient_unit; lra | apply quotient_unit; lra|]. rewrite !E by assumption. field. split; lra.
Qed.
Lemma front_lip_own (phi : R -> R) R0 x x' : 0 <= R0 -> (forall x, 0 < x -> phi x = x * (x * Gn) / (x * Gn + R0)) -> 0 < x -> 0 < x' -> Rabs (phi x' - phi x) <= 1 * Rabs (x' - x).
Proof.
  intros HR E Hx Hx'. pose proof (Rmult_lt_0_compat _ _ Hx HGn). pose proof (Rmult_lt_0_compat _ _ Hx' HGn).
  apply (factors_le 1 (1 - R0 / (x * Gn + R0) * (R0 / (x' * Gn + R0)))); [lra | |].
  - pose proof (quotient_unit R0 (x * Gn + R0) ltac:(lra) ltac:(lra)). pose proof (quotient_unit R0 (x' * Gn + R0) ltac:(lra) ltac:(lra)). nra.
  - rewrite !E by assumption. field. split; lra.
Qed.
End Front.

(** ** The four integrals *)
Section Integrals.
Variables (Gn Gg Gf Gx : R) (dn df dx : nat).
Hypotheses (HGn : 0 < Gn) (HGg : 0 <= Gg) (HGf : 0 <= Gf) (HGx : 0 <= Gx).
Hypotheses (Hdn : (1 <= dn <= 4)%nat) (Hdf : (1 <= df)%nat) (Hdx : (1 <= dx)%nat) (Hdf4 : Gf <> 0 -> (df <= 4)%nat) (Hdx4 : Gx <> 0 -> (dx <= 4)%nat).
Let Hf : Gf <> 0 -> (1 <= df <= 4)%nat. Proof. intros N. specialize (Hdf4 N). lia. Qed.
Let Hx : Gx <> 0 -> (1 <= dx <= 4)%nat. Proof. intros N. specialize (Hdx4 N). lia. Qed.
Let rn := chi2_rule dn.
Let rf := width_rule Gf df.
Let rx := width_rule Gx dx.
Let T := total Gn Gg Gf Gx.
Lemma total_parts x y z : 0 < x -> 0 < y -> 0 < z -> 0 < x * Gn /\ 0 <= y * Gf /\ 0 <= z * Gx.
Proof. intros H1 H2 H3. split; [apply Rmult_lt_0_compat; assumption|]. split; apply Rmult_le_pos; lra. Qed.
(** One integral, for any part of the total width *)
Lemma assembled (f : R -> R -> R -> R) :
  (forall x y z, 0 < x -> 0 < y -> 0 < z -> 0 <= f x y z <= x) ->
  (forall y z, 0 < y -> 0 < z -> (forall x x', 0 < x -> 0 < x' -> Rabs (f x' y z - f x y z) <= 1 * Rabs (x' - x)) /\ close (mean dn) rn (own_tolerance dn) (fun x => f x y z)) ->
  (forall x z, 0 < x -> 0 < z -> (forall y y', 0 < y -> 0 < y' -> Rabs (f x y' z - f x y z) <= Gf / Gn * Rabs (y' - y)) /\ close (mean_of Gf df) rf (x * other_tolerance Gf df) (fun y => f x y z)) ->
  (forall x y, 0 < x -> 0 < y -> (forall z z', 0 < z -> 0 < z' -> Rabs (f x y z' - f x y z) <= Gx / Gn * Rabs (z' - z)) /\ close (mean_of Gx dx) rx (x * other_tolerance Gx dx) (fun z => f x y z)) ->
  exists v, over_widths Gf Gx dn df dx f v /\ (forall v', over_widths Gf Gx dn df dx f v' -> v' = v) /\ Rabs (average3 rn rf rx f - v) <= allowed_error Gf Gx dn df dx.
Proof.
  intros B C1 C2 C3. pose proof (mean_averaging dn ltac:(lia)) as A1. pose proof (mean_of_averaging Gf df Hdf) as A2. pose proof (mean_of_averaging Gx dx Hdx) as A3.
  assert (L1 : forall x x' y z, 0 < x -> 0 < x' -> 0 < y -> 0 < z -> Rabs (f x' y z - f x y z) <= 1 * Rabs (x' - x)) by (intros; apply C1; assumption).
  assert (L2 : forall x y y' z, 0 < x -> 0 < y -> 0 < y' -> 0 < z -> Rabs (f x y' z - f x y z) <= Gf / Gn * Rabs (y' - y)) by (intros; apply C2; assumption).
  assert (L3 : forall x y z z', 0 < x -> 0 < y -> 0 < z -> 0 < z' -> Rabs (f x y z' - f x y z) <= Gx / Gn * Rabs (z' - z)) by (intros; apply C3; assumption).
  destruct (mean3_exists _ _ _ A1 A2 A3 f B _ _ L1 L2 L3) as (v & Hv). exists v. split; [exact Hv|]. split.
  - intros v' Hv'. exact (mean3_unique _ _ _ A1 A2 A3 f v' v Hv' Hv).
  - pose proof (mean3_near _ _ _ A1 A2 (mean_id dn ltac:(lia)) rn rf rx (width_nodes Gf df Hf) (width_nodes Gx dx Hx) f B _ L1 L2
      (own_tolerance dn) (other_tolerance Gf df) (other_tolerance Gx dx) (fun x y p q => proj2 (C3 x y p q)) (fun x z p q => proj2 (C2 x z p q)) (fun y z p q => proj2 (C1 y z p q)) v Hv) as N.
    apply Rle_trans with (1 := N). pose proof (width_mass Gf df Hf) as Mf. pose proof (width_mass Gx dx Hx) as Mx. fold rf in Mf. fold rx in Mx.
    pose proof (tolerance_nonneg Gf df HGf Hf) as Tf. pose proof (tolerance_nonneg Gx dx HGx Hx) as Tx. pose proof (own_nonneg dn Hdn) as Tn.
    unfold allowed_error. rewrite <- (tolerance_sum Gf df), <- (tolerance_sum Gx dx). replace (own_error dn) with (own_tolerance dn * 1.0005) by (unfold own_tolerance; lra).
    set (a := mass rf) in *. set (c := mass rx) in *. set (tf := other_tolerance Gf df) in *. set (tx := other_tolerance Gx dx) in *. set (tn := own_tolerance dn) in *.
    assert (c * tf <= 1.00024 * tf) by (apply Rmult_le_compat_r; lra). assert (c * tn <= 1.00024 * tn) by (apply Rmult_le_compat_r; lra). assert (0 <= c * tn) by (apply Rmult_le_pos; lra).
    assert (a * (c * tn) <= 1.00024 * (1.00024 * tn)) by (apply Rmult_le_compat; lra). lra.
Qed.
Lemma part_bounds x P t : 0 < x -> 0 <= P <= t -> 0 < t -> 0 <= x * P / t <= x.
Proof. intros H1 H2 H3. pose proof (quotient_unit P t H2 H3). replace (x * P / t) with (x * (P / t)) by (field; lra). nra. Qed.
Let result f := exists v, over_widths Gf Gx dn df dx f v /\ (forall v', over_widths Gf Gx dn df dx f v' -> v' = v) /\ Rabs (average3 rn rf rx f - v) <= allowed_error Gf Gx dn df dx.
Lemma elastic_result : result (fun x y z => x * (x * Gn) / T x y z).
Proof.
  unfold T, total. apply assembled.
  - intros x y z H1 H2 H3. destruct (total_parts x y z H1 H2 H3) as (? & ? & ?). apply part_bounds; lra.
  - intros y z H2 H3. destruct (total_parts 1 y z Rlt_0_1 H2 H3) as (_ & Q2 & Q3).
    assert (E : forall x, 0 < x -> x * (x * Gn) / (x * Gn + Gg + y * Gf + z * Gx) = x * (x * Gn) / (x * Gn + (Gg + y * Gf + z * Gx))) by (intros; f_equal; ring).
    split; [intros x x' H1 H1'; apply (front_lip_own Gn HGn (fun x => x * (x * Gn) / (x * Gn + Gg + y * Gf + z * Gx)) (Gg + y * Gf + z * Gx)) | apply (front_close_own Gn dn HGn Hdn _ (Gg + y * Gf + z * Gx))]; try assumption; lra.
  - intros x z H1 H3. destruct (total_parts x 1 z H1 Rlt_0_1 H3) as (Q1 & _ & Q3).
    assert (E : forall y, 0 < y -> x * (x * Gn) / (x * Gn + Gg + y * Gf + z * Gx) = x * (x * Gn) / ((x * Gn + Gg + z * Gx) + y * Gf)) by (intros; f_equal; ring).
    split; [intros y y' H2 H2'; apply (other_lip Gf HGf (fun y => x * (x * Gn) / (x * Gn + Gg + y * Gf + z * Gx)) x (x * Gn) (x * Gn + Gg + z * Gx) Gn) | apply (other_close Gf df HGf Hf _ x (x * Gn) (x * Gn + Gg + z * Gx))]; try assumption; lra.
  - intros x y H1 H2. destruct (total_parts x y 1 H1 H2 Rlt_0_1) as (Q1 & Q2 & _).
    assert (E : forall z, 0 < z -> x * (x * Gn) / (x * Gn + Gg + y * Gf + z * Gx) = x * (x * Gn) / ((x * Gn + Gg + y * Gf) + z * Gx)) by (intros; f_equal; ring).
    split; [intros z z' H3 H3'; apply (other_lip Gx HGx (fun z => x * (x * Gn) / (x * Gn + Gg + y * Gf + z * Gx)) x (x * Gn) (x * Gn + Gg + y * Gf) Gn) | apply (other_close Gx dx HGx Hx _ x (x * Gn) (x * Gn + Gg + y * Gf))]; try assumption; lra.
Qed.
Lemma capture_result : result (fun x y z => x * Gg / T x y z).
Proof.
  unfold T, total. apply assembled.
  - intros x y z H1 H2 H3. destruct (total_parts x y z H1 H2 H3) as (? & ? & ?). apply part_bounds; lra.
  - intros y z H2 H3. destruct (total_parts 1 y z Rlt_0_1 H2 H3) as (_ & Q2 & Q3).
    assert (E : forall x, 0 < x -> x * Gg / (x * Gn + Gg + y * Gf + z * Gx) = x * Gg / (x * Gn + (Gg + y * Gf + z * Gx))) by (intros; f_equal; ring).
    split; [intros x x' H1 H1'; apply (front_lip Gn HGn (fun x => x * Gg / (x * Gn + Gg + y * Gf + z * Gx)) Gg (Gg + y * Gf + z * Gx)) | apply (front_close Gn dn HGn Hdn _ Gg (Gg + y * Gf + z * Gx))]; try assumption; lra.
  - intros x z H1 H3. destruct (total_parts x 1 z H1 Rlt_0_1 H3) as (Q1 & _ & Q3).
    assert (E : forall y, 0 < y -> x * Gg / (x * Gn + Gg + y * Gf + z * Gx) = x * Gg / ((x * Gn + Gg + z * Gx) + y * Gf)) by (intros; f_equal; ring).
    split; [intros y y' H2 H2'; apply (other_lip Gf HGf (fun y => x * Gg / (x * Gn + Gg + y * Gf + z * Gx)) x Gg (x * Gn + Gg + z * Gx) Gn) | apply (other_close Gf df HGf Hf _ x Gg (x * Gn + Gg + z * Gx))]; try assumption; lra.
  - intros x y H1 H2. destruct (total_parts x y 1 H1 H2 Rlt_0_1) as (Q1 & Q2 & _).
    assert (E : forall z, 0 < z -> x * Gg / (x * Gn + Gg + y * Gf + z * Gx) = x * Gg / ((x * Gn + Gg + y * Gf) + z * Gx)) by (intros; f_equal; ring).
    split; [intros z z' H3 H3'; apply (other_lip Gx HGx (fun z => x * Gg / (x * Gn + Gg + y * Gf + z * Gx)) x Gg (x * Gn + Gg + y * Gf) Gn) | apply (other_close Gx dx HGx Hx _ x Gg (x * Gn + Gg + y * Gf))]; try assumption; lra.
Qed.
Lemma fission_result : result (fun x y z => x * (y * Gf) / T x y z).
Proof.
  unfold T, total. apply assembled.
  - intros x y z H1 H2 H3. destruct (total_parts x y z H1 H2 H3) as (? & ? & ?). apply part_bounds; lra.
  - intros y z H2 H3. destruct (total_parts 1 y z Rlt_0_1 H2 H3) as (_ & Q2 & Q3).
    assert (E : forall x, 0 < x -> x * (y * Gf) / (x * Gn + Gg + y * Gf + z * Gx) = x * (y * Gf) / (x * Gn + (Gg + y * Gf + z * Gx))) by (intros; f_equal; ring).
    split; [intros x x' H1 H1'; apply (front_lip Gn HGn (fun x => x * (y * Gf) / (x * Gn + Gg + y * Gf + z * Gx)) (y * Gf) (Gg + y * Gf + z * Gx)) | apply (front_close Gn dn HGn Hdn _ (y * Gf) (Gg + y * Gf + z * Gx))]; try assumption; lra.
  - intros x z H1 H3. destruct (total_parts x 1 z H1 Rlt_0_1 H3) as (Q1 & _ & Q3).
    assert (E : forall y, 0 < y -> x * (y * Gf) / (x * Gn + Gg + y * Gf + z * Gx) = x * (y * Gf) / ((x * Gn + Gg + z * Gx) + y * Gf)) by (intros; f_equal; ring).
    split; [intros y y' H2 H2'; apply (other_lip_own Gf HGf (fun y => x * (y * Gf) / (x * Gn + Gg + y * Gf + z * Gx)) x (x * Gn + Gg + z * Gx) Gn) | apply (other_close_own Gf df HGf Hf _ x (x * Gn + Gg + z * Gx))]; try assumption; lra.
  - intros x y H1 H2. destruct (total_parts x y 1 H1 H2 Rlt_0_1) as (Q1 & Q2 & _).
    assert (E : forall z, 0 < z -> x * (y * Gf) / (x * Gn + Gg + y * Gf + z * Gx) = x * (y * Gf) / ((x * Gn + Gg + y * Gf) + z * Gx)) by (intros; f_equal; ring).
    split; [intros z z' H3 H3'; apply (other_lip Gx HGx (fun z => x * (y * Gf) / (x * Gn + Gg + y * Gf + z * Gx)) x (y * Gf) (x * Gn + Gg + y * Gf) Gn) | apply (other_close Gx dx HGx Hx _ x (y * Gf) (x * Gn + Gg + y * Gf))]; try assumption; lra.
Qed.
Lemma competition_result : result (fun x y z => x * (z * Gx) / T x y z).
Proof.
  unfold T, total. apply assembled.
  - intros x y z H1 H2 H3. destruct (total_parts x y z H1 H2 H3) as (? & ? & ?). apply part_bounds; lra.
  - intros y z H2 H3. destruct (total_parts 1 y z Rlt_0_1 H2 H3) as (_ & Q2 & Q3).
    assert (E : forall x, 0 < x -> x * (z * Gx) / (x * Gn + Gg + y * Gf + z * Gx) = x * (z * Gx) / (x * Gn + (Gg + y * Gf + z * Gx))) by (intros; f_equal; ring).
    split; [intros x x' H1 H1'; apply (front_lip Gn HGn (fun x => x * (z * Gx) / (x * Gn + Gg + y * Gf + z * Gx)) (z * Gx) (Gg + y * Gf + z * Gx)) | apply (front_close Gn dn HGn Hdn _ (z * Gx) (Gg + y * Gf + z * Gx))]; try assumption; lra.
  - intros x z H1 H3. destruct (total_parts x 1 z H1 Rlt_0_1 H3) as (Q1 & _ & Q3).
    assert (E : forall y, 0 < y -> x * (z * Gx) / (x * Gn + Gg + y * Gf + z * Gx) = x * (z * Gx) / ((x * Gn + Gg + z * Gx) + y * Gf)) by (intros; f_equal; ring).
    split; [intros y y' H2 H2'; apply (other_lip Gf HGf (fun y => x * (z * Gx) / (x * Gn + Gg + y * Gf + z * Gx)) x (z * Gx) (x * Gn + Gg + z * Gx) Gn) | apply (other_close Gf df HGf Hf _ x (z * Gx) (x * Gn + Gg + z * Gx))]; try assumption; lra.
  - intros x y H1 H2. destruct (total_parts x y 1 H1 H2 Rlt_0_1) as (Q1 & Q2 & _).
    assert (E : forall z, 0 < z -> x * (z * Gx) / (x * Gn + Gg + y * Gf + z * Gx) = x * (z * Gx) / ((x * Gn + Gg + y * Gf) + z * Gx)) by (intros; f_equal; ring).
    split; [intros z z' H3 H3'; apply (other_lip_own Gx HGx (fun z => x * (z * Gx) / (x * Gn + Gg + y * Gf + z * Gx)) x (x * Gn + Gg + y * Gf) Gn) | apply (other_close_own Gx dx HGx Hx _ x (x * Gn + Gg + y * Gf))]; try assumption; lra.
Qed.
(** The exact integrals add up to one *)
Lemma exact_sum e c f x : exact_elastic Gn Gg Gf Gx dn df dx e -> exact_capture Gn Gg Gf Gx dn df dx c -> exact_fission Gn Gg Gf Gx dn df dx f -> exact_competition Gn Gg Gf Gx dn df dx x ->
  e + c + f + x = 1.
Proof.
  pose proof (mean_averaging dn ltac:(lia)) as A1. pose proof (mean_of_averaging Gf df Hdf) as A2. pose proof (mean_of_averaging Gx dx Hdx) as A3.
  intros (g1 & h1 & E1 & E2 & E3) (g2 & h2 & C1 & C2 & C3) (g3 & h3 & F1 & F2 & F3) (g4 & h4 & X1 & X2 & X3).
  apply (m_unique _ A1 (fun x => x)); [|apply mean_id; lia].
  apply (m_ext _ A1 (fun x => h1 x + h2 x + h3 x + h4 x)).
  2:{ apply (m_plus _ A1); [apply (m_plus _ A1); [apply (m_plus _ A1)|]|]; assumption. }
  intros u Hu. apply (m_unique _ A2 (fun y => u)); [|apply (m_const _ A2)].
  apply (m_ext _ A2 (fun y => g1 u y + g2 u y + g3 u y + g4 u y)).
  2:{ apply (m_plus _ A2); [apply (m_plus _ A2); [apply (m_plus _ A2)|]|]; auto. }
  intros y Hy. apply (m_unique _ A3 (fun z => u)); [|apply (m_const _ A3)].
  eapply (m_ext _ A3); [|apply (m_plus _ A3); [apply (m_plus _ A3); [apply (m_plus _ A3); [apply E1 | apply C1] | apply F1] | apply X1]; assumption].
  intros z Hz. cbv beta. unfold total. destruct (total_parts u y z Hu Hy Hz) as (? & ? & ?). field. lra.
Qed.
End Integrals.
