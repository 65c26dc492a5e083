(** The error of the 10 point rules for the functions s / (y + s) and y^2 / (y + s) of the
    chi-square distributions, for all s. *)
From Coq Require Import List ZArith Reals Lra Lia Bool Epsilon.
From Coquelicot Require Import Coquelicot.
From Verif Require Import QuantumSpec UnresolvedSpec FluctuationSpec ImproperProofs ChiSquareProofs PositivityProofs.
Import ListNotations.
Open Scope R_scope.

(** The quadrature rules with integer weights (in units of 10^-38) and nodes (in units of
    10^-10), and the errors and the pieces of the half line for the tests of the polynomials *)
Definition zrule (n : nat) : list (Z * Z) :=
  match n with
  | 1%nat => [(11120413000000000000000000000000000000, 30013465); (23546798000000000000000000000000000000, 785928860); (28440987000000000000000000000000000000, 4328241500); (22419127000000000000000000000000000000, 13345267000); (10967668000000000000000000000000000000, 30481846000); (3049378900000000000000000000000000000, 58263198000); (429308740000000000000000000000000000, 99452656000); (25827047000000000000000000000000000, 157821280000); (490319650000000000000000000000000, 239968240000); (1407920600000000000000000000000, 362162080000)]
  | 2%nat => [(3377341800000000000000000000000000000, 132192030); (7993217100000000000000000000000000000, 723496240); (12835937000000000000000000000000000000, 1908947300); (17652616000000000000000000000000000000, 3952884200); (21347043000000000000000000000000000000, 7408344300); (21154965000000000000000000000000000000, 13498293000); (13365186000000000000000000000000000000, 25297983000); (2263065900000000000000000000000000000, 52384894000); (1631363800000000000000000000000000, 138217720000); (27453830, 756475250000)]
  | 3%nat => [(33376214000000000000000000000000000, 10004488); (1850610800000000000000000000000000000, 261976290); (12309946000000000000000000000000000000, 1442747200); (29918923000000000000000000000000000000, 4448422300); (33431475000000000000000000000000000000, 10160615000); (17766657000000000000000000000000000000, 19421066000); (4269589400000000000000000000000000000, 33150885000); (407605750000000000000000000000000000, 52607092000); (11766115000000000000000000000000000, 79989414000); (50989546000000000000000000000000, 120720690000)]
  | 4%nat => [(176237880000000000000000000000000000, 132192030); (2151774900000000000000000000000000000, 723496240); (8097984900000000000000000000000000000, 1908947300); (18797998000000000000000000000000000000, 3952884200); (30156335000000000000000000000000000000, 7408344300); (29616091000000000000000000000000000000, 13498293000); (10775649000000000000000000000000000000, 25297983000); (251719140000000000000000000000000000, 52384894000); (89630388000000000000000000000, 138217720000); (0, 756475250000)]
  | _ => []
  end%Z.
Definition node_units (n : nat) : Z :=
  match n with 1%nat => 1960000000000000000000000000000000000 | 2%nat => 192000000000000000000000000000000000 | 3%nat => 7700000000000000000000000000000000 | _ => 24000000000000000000000000000000000 end%Z.
Definition own_units (n : nat) : Z :=
  match n with 1%nat => 7700000000000000000000000000000000 | 2%nat => 118500000000000000000000000000000000 | 3%nat => 190000000000000000000000000000000 | _ => 31100000000000000000000000000000000 end%Z.
Definition node_lower (n : nat) : list Z :=
  match n with 1%nat => [80000000] | 2%nat => [10000000] | 3%nat => [640000000] | _ => [10000000] end%Z.
Definition node_upper (n : nat) : list Z :=
  match n with 1%nat => [20000000; 80000000; 60000000] | 2%nat => [80000000] | 3%nat => [80000000; 320000000; 240000000] | _ => [10000000] end%Z.
Definition own_lower (n : nat) : list Z :=
  match n with 1%nat => [160000000; 160000000; 640000000; 320000000] | 2%nat => [10240000000] | 3%nat => [640000000; 1920000000] | _ => [10000000] end%Z.
Definition own_upper (n : nat) : list Z :=
  match n with 1%nat => [2560000000] | 2%nat => [10000000] | 3%nat => [1280000000; 1280000000] | _ => [10000000] end%Z.

Definition unit_w : Z := 10 ^ 38.
Definition unit_x : Z := 10 ^ 10.
Definition rule_of (zr : list (Z * Z)) : list (R * R) := map (fun p => (IZR (fst p) / IZR unit_w, IZR (snd p) / IZR unit_x)) zr.
Lemma rules_integer n : (1 <= n <= 4)%nat -> chi2_rule n = rule_of (zrule n).
Proof.
  intros Hn. assert (E : (n = 1 \/ n = 2 \/ n = 3 \/ n = 4)%nat) by lia.
  destruct E as [-> | [-> | [-> | ->]]]; unfold chi2_rule, rule_of, zrule; cbn [map fst snd]; unfold unit_w, unit_x;
    repeat (apply (f_equal2 cons); [apply (f_equal2 pair); lra|]); reflexivity.
Qed.

(** ** The rules as functions of s *)
Definition node_rule (r : list (R * R)) (s : R) : R := average r (fun x => s / (x + s)).
Definition node_rule' (r : list (R * R)) (s : R) : R := average r (fun x => x / (x + s) ^ 2).
Definition own_rule (r : list (R * R)) (s : R) : R := average r (fun x => x * x / (x + s)).
Definition own_rule' (r : list (R * R)) (s : R) : R := average r (fun x => - (x * x / (x + s) ^ 2)).
Definition positive_nodes (r : list (R * R)) : Prop := forall p, In p r -> 0 <= fst p /\ 0 < snd p.
Lemma average_cons p r f : average (p :: r) f = fst p * f (snd p) + average r f.
Proof. reflexivity. Qed.
Lemma average_derive r (f f' : R -> R -> R) s : (forall p, In p r -> is_derive (f (snd p)) s (f' (snd p) s)) ->
  is_derive (fun s => average r (fun x => f x s)) s (average r (fun x => f' x s)).
Proof.
  induction r as [|p r IH]; intros H; [apply (is_derive_const 0)|]. rewrite average_cons.
  apply (is_derive_ext (fun s => fst p * f (snd p) s + average r (fun x => f x s))); [intros; reflexivity|].
  apply (is_derive_plus (fun s => fst p * f (snd p) s) (fun s => average r (fun x => f x s))).
  - apply (is_derive_scal (f (snd p)) s (fst p)). apply H. left. reflexivity.
  - apply IH. intros q Hq. apply H. right. exact Hq.
Qed.
Lemma node_rule_derive r s : positive_nodes r -> 0 < s -> is_derive (node_rule r) s (node_rule' r s).
Proof.
  intros Hr Hs. apply (average_derive r (fun x s => s / (x + s)) (fun x s => x / (x + s) ^ 2)). intros p Hp. destruct (Hr p Hp) as (_ & Px).
  auto_derive; [lra|]. field. lra.
Qed.
Lemma own_rule_derive r s : positive_nodes r -> 0 < s -> is_derive (own_rule r) s (own_rule' r s).
Proof.
  intros Hr Hs. apply (average_derive r (fun x s => x * x / (x + s)) (fun x s => - (x * x / (x + s) ^ 2))). intros p Hp. destruct (Hr p Hp) as (_ & Px).
  auto_derive; [lra|]. field. lra.
Qed.
Lemma average_le r f g : (forall p, In p r -> 0 <= fst p /\ f (snd p) <= g (snd p)) -> average r f <= average r g.
Proof.
  induction r as [|p r IH]; intros H; [unfold average; cbn; lra|]. rewrite !average_cons. destruct (H p (or_introl eq_refl)) as (A & B).
  pose proof (Rmult_le_compat_l _ _ _ A B). specialize (IH (fun q Hq => H q (or_intror Hq))). lra.
Qed.
Lemma average_scal c r f : average r (fun x => c * f x) = c * average r f.
Proof. induction r as [|p r IH]; [unfold average; cbn; ring|]. rewrite !average_cons, IH. ring. Qed.
Lemma average_plus r f g : average r (fun x => f x + g x) = average r f + average r g.
Proof. induction r as [|p r IH]; [unfold average; cbn; ring|]. rewrite !average_cons, IH. ring. Qed.
Lemma average_ext r f g : (forall p, In p r -> f (snd p) = g (snd p)) -> average r f = average r g.
Proof.
  induction r as [|p r IH]; intros H; [reflexivity|]. rewrite !average_cons, IH by (intros q Hq; apply H; right; exact Hq). rewrite (H p (or_introl eq_refl)). reflexivity.
Qed.
Definition mass (r : list (R * R)) : R := average r (fun _ => 1).
Definition first_moment (r : list (R * R)) : R := average r (fun x => x).
Lemma node_rule_bounds r s : positive_nodes r -> 0 < s -> 0 <= node_rule r s <= mass r.
Proof.
  intros Hr Hs. unfold node_rule, mass. split.
  - replace 0 with (average r (fun _ => 0 * 1)) by (rewrite (average_scal 0 r (fun _ => 1)); ring). apply average_le. intros p Hp. destruct (Hr p Hp) as (A & B). split; [exact A|].
    rewrite Rmult_0_l. apply Rmult_le_pos; [lra | left; apply Rinv_0_lt_compat; lra].
  - apply average_le. intros p Hp. destruct (Hr p Hp) as (A & B). split; [exact A|]. apply Rmult_le_reg_r with (snd p + s); [lra|]. replace (s / (snd p + s) * (snd p + s)) with s by (field; lra). lra.
Qed.
Lemma own_rule_bounds r s : positive_nodes r -> 0 < s -> 0 <= own_rule r s <= first_moment r.
Proof.
  intros Hr Hs. unfold own_rule, first_moment. split.
  - replace 0 with (average r (fun _ => 0 * 1)) by (rewrite (average_scal 0 r (fun _ => 1)); ring). apply average_le. intros p Hp. destruct (Hr p Hp) as (A & B). split; [exact A|].
    rewrite Rmult_0_l. apply Rmult_le_pos; [nra | left; apply Rinv_0_lt_compat; lra].
  - apply average_le. intros p Hp. destruct (Hr p Hp) as (A & B). split; [exact A|]. apply Rmult_le_reg_r with (snd p + s); [lra|].
    replace (snd p * snd p / (snd p + s) * (snd p + s)) with (snd p * snd p) by (field; lra). nra.
Qed.

(** ** The residuals as polynomials *)
Section Residuals.
Variable n : nat.
Let nz := Z.of_nat n.
Let b := INR n / 2.
Definition node_term (p : Z * Z) : list Z * list Z :=
  let (w, x) := p in
  (padd [0; 2 * unit_x * x * w] (pscal (- nz * w) (pmul (pmul [unit_x; 1] [0; 1]) [x; 1])), pmul [x; 1] [x; 1])%Z.
Definition own_term (p : Z * Z) : list Z * list Z :=
  let (w, x) := p in
  (padd [0; - (2 * unit_x * x * x * w)] (pscal (- (w * x * x)) (pmul [(nz + 2) * unit_x; nz] [x; 1])), pmul [x; 1] [x; 1])%Z.
Definition node_poly (E sgn : Z) (zr : list (Z * Z)) : list Z :=
  let (N, D) := fractions (map node_term zr) in
  padd (pscal sgn (padd N (pmul [0; nz * unit_w]%Z D))) (pmul (pscal (nz * E)%Z [unit_x; 1]%Z) D).
Definition own_poly (E sgn : Z) (zr : list (Z * Z)) : list Z :=
  let (N, D) := fractions (map own_term zr) in
  padd (pscal sgn (padd N (pmul [(2 + nz) * unit_x * unit_x * unit_w]%Z D))) (pmul (pscal (E * unit_x)%Z [(nz + 2) * unit_x; nz]%Z) D).
Let U := IZR unit_x.
Let W := IZR unit_w.
Lemma U_positive : 0 < U. Proof. unfold U. apply IZR_lt. reflexivity. Qed.
Lemma W_positive : 0 < W. Proof. unfold W. apply IZR_lt. reflexivity. Qed.
Lemma nz_real : IZR nz = 2 * b.
Proof. unfold nz, b. rewrite <- INR_IZR_INZ. field. Qed.
Definition positive_integers (zr : list (Z * Z)) : bool := forallb (fun p => (0 <=? fst p) && (0 <? snd p))%Z zr.
Lemma rule_positive zr : positive_integers zr = true -> positive_nodes (rule_of zr).
Proof.
  intros H p Hp. unfold positive_integers in H. rewrite forallb_forall in H. apply in_map_iff in Hp as (z & <- & Hz). specialize (H z Hz). apply andb_prop in H as (H1 & H2).
  apply Z.leb_le, IZR_le in H1. apply Z.ltb_lt, IZR_lt in H2. cbn [fst snd]. fold U W. pose proof U_positive. pose proof W_positive.
  split; [apply Rmult_le_pos; [lra | left; apply Rinv_0_lt_compat; lra] | apply Rdiv_lt_0_compat; lra].
Qed.
Lemma node_den zr s : positive_integers zr = true -> 0 < s -> forall f, In f (map node_term zr) -> 0 < peval (snd f) s.
Proof.
  intros H Hs f Hf. unfold positive_integers in H. rewrite forallb_forall in H. apply in_map_iff in Hf as ((w & x) & <- & Hz). specialize (H _ Hz). apply andb_prop in H as (H1 & H2).
  apply Z.ltb_lt, IZR_lt in H2. cbn [fst snd] in H2. unfold node_term. cbn [snd]. rewrite pmul_eval. cbn [peval]. apply Rmult_lt_0_compat; lra.
Qed.
Lemma own_den zr s : positive_integers zr = true -> 0 < s -> forall f, In f (map own_term zr) -> 0 < peval (snd f) s.
Proof.
  intros H Hs f Hf. unfold positive_integers in H. rewrite forallb_forall in H. apply in_map_iff in Hf as ((w & x) & <- & Hz). specialize (H _ Hz). apply andb_prop in H as (H1 & H2).
  apply Z.ltb_lt, IZR_lt in H2. cbn [fst snd] in H2. unfold own_term. cbn [snd]. rewrite pmul_eval. cbn [peval]. apply Rmult_lt_0_compat; lra.
Qed.
Lemma node_sum zr s : positive_integers zr = true -> 0 < s ->
  fraction_sum (map node_term zr) (U * s) = 2 * U * W * (s * node_rule' (rule_of zr) s - (b + b * s) * node_rule (rule_of zr) s).
Proof.
  intros H Hs. pose proof U_positive as PU. pose proof W_positive as PW. induction zr as [|(w & x) zr IH]; [unfold fraction_sum, node_rule, node_rule', average; cbn; ring|].
  cbn in H. apply andb_prop in H as (H & H'). apply andb_prop in H as (H1 & H2). apply Z.ltb_lt, IZR_lt in H2.
  unfold fraction_sum in *. cbn [map fold_right]. rewrite IH by exact H'. unfold rule_of. cbn [map]. fold (rule_of zr). unfold node_rule, node_rule'. rewrite !average_cons. cbn [fst snd].
  fold U W. unfold node_term. cbn [fst snd]. rewrite !padd_eval, pscal_eval, !pmul_eval. cbn [peval]. rewrite !mult_IZR, opp_IZR, nz_real. fold U.
  assert (0 < IZR x + U * s) by (pose proof (Rmult_lt_0_compat _ _ PU Hs); lra).
  assert (0 < IZR x / U + s) by (pose proof (Rdiv_lt_0_compat _ _ H2 PU); lra). field. repeat split; lra.
Qed.
Lemma own_sum zr s : positive_integers zr = true -> 0 < s ->
  fraction_sum (map own_term zr) (U * s) = 2 * U * U * W * (s * own_rule' (rule_of zr) s - (1 + b + b * s) * own_rule (rule_of zr) s).
Proof.
  intros H Hs. pose proof U_positive as PU. pose proof W_positive as PW. induction zr as [|(w & x) zr IH]; [unfold fraction_sum, own_rule, own_rule', average; cbn; ring|].
  cbn in H. apply andb_prop in H as (H & H'). apply andb_prop in H as (H1 & H2). apply Z.ltb_lt, IZR_lt in H2.
  unfold fraction_sum in *. cbn [map fold_right]. rewrite IH by exact H'. unfold rule_of. cbn [map]. fold (rule_of zr). unfold own_rule, own_rule'. rewrite !average_cons. cbn [fst snd].
  fold U W. unfold own_term. cbn [fst snd]. rewrite !padd_eval, pscal_eval, !pmul_eval. cbn [peval]. rewrite !opp_IZR, !mult_IZR, plus_IZR, nz_real. fold U.
  assert (0 < IZR x + U * s) by (pose proof (Rmult_lt_0_compat _ _ PU Hs); lra).
  assert (0 < IZR x / U + s) by (pose proof (Rdiv_lt_0_compat _ _ H2 PU); lra). field. repeat split; lra.
Qed.
Lemma node_residual E sgn zr hs s : positive_integers zr = true -> nonneg_from 0 hs (node_poly E sgn zr) = true -> 0 < s ->
  0 <= IZR sgn * (s * node_rule' (rule_of zr) s - (b + b * s) * node_rule (rule_of zr) s + b * s) + IZR E / W * (b + b * s).
Proof.
  intros H C Hs. pose proof U_positive as PU. pose proof W_positive as PW. pose proof (Rmult_lt_0_compat _ _ PU Hs) as Us.
  pose proof (nonneg_from_eval hs 0 _ (U * s) C ltac:(lra)) as P. unfold node_poly in P.
  destruct (fractions_eval _ (U * s) (node_den zr (U * s) H Us)) as (PD & E1). rewrite (node_sum zr s H Hs) in E1.
  destruct (fractions (map node_term zr)) as (N & D). cbn [fst snd] in *. rewrite padd_eval, pscal_eval, padd_eval, !pmul_eval, pscal_eval, E1 in P. cbn [peval] in P. rewrite !mult_IZR, nz_real in P. fold U W in P.
  set (A := s * _ - _ * _) in *. set (d := peval D (U * s)) in *.
  replace (IZR sgn * (2 * U * W * A * d + (0 + U * s * (2 * b * W + U * s * 0)) * d) + 2 * b * IZR E * (U + U * s * (1 + U * s * 0)) * d)
    with ((2 * U * W * d) * (IZR sgn * (A + b * s) + IZR E / W * (b + b * s))) in P by (field; lra).
  pose proof (Rmult_lt_0_compat _ _ (Rmult_lt_0_compat _ _ (Rmult_lt_0_compat _ _ Rlt_0_2 PU) PW) PD : 0 < 2 * U * W * d) as Pall. destruct (Rle_dec 0 (IZR sgn * (A + b * s) + IZR E / W * (b + b * s))); [assumption|]. exfalso. clear -P Pall n0. set (X := IZR sgn * _ + _) in *. set (Y := 2 * _ * _ * _) in *. clearbody X Y. nra.
Qed.
Lemma own_residual E sgn zr hs s : positive_integers zr = true -> nonneg_from 0 hs (own_poly E sgn zr) = true -> 0 < s ->
  0 <= IZR sgn * (s * own_rule' (rule_of zr) s - (1 + b + b * s) * own_rule (rule_of zr) s + (1 + b)) + IZR E / W * (1 + b + b * s).
Proof.
  intros H C Hs. pose proof U_positive as PU. pose proof W_positive as PW. pose proof (Rmult_lt_0_compat _ _ PU Hs) as Us.
  pose proof (nonneg_from_eval hs 0 _ (U * s) C ltac:(lra)) as P. unfold own_poly in P.
  destruct (fractions_eval _ (U * s) (own_den zr (U * s) H Us)) as (PD & E1). rewrite (own_sum zr s H Hs) in E1.
  destruct (fractions (map own_term zr)) as (N & D). cbn [fst snd] in *. rewrite padd_eval, pscal_eval, padd_eval, !pmul_eval, pscal_eval, E1 in P. cbn [peval] in P. rewrite !mult_IZR, !plus_IZR, nz_real in P. fold U W in P.
  set (A := s * _ - _ * _) in *. set (d := peval D (U * s)) in *.
  match type of P with 0 <= ?t => replace t with ((2 * U * U * W * d) * (IZR sgn * (A + (1 + b)) + IZR E / W * (1 + b + b * s))) in P by (field; lra) end.
  pose proof (Rmult_lt_0_compat _ _ (Rmult_lt_0_compat _ _ (Rmult_lt_0_compat _ _ (Rmult_lt_0_compat _ _ Rlt_0_2 PU) PU) PW) PD : 0 < 2 * U * U * W * d) as Pall. destruct (Rle_dec 0 (IZR sgn * (A + (1 + b)) + IZR E / W * (1 + b + b * s))); [assumption|]. exfalso. clear -P Pall n0. set (X := IZR sgn * _ + _) in *. set (Y := 2 * _ * _ * _) in *. clearbody X Y. nra.
Qed.
End Residuals.

(** ** The tests *)
Lemma tests n : (1 <= n <= 4)%nat -> positive_integers (zrule n) = true /\
  nonneg_from 0 (node_lower n) (node_poly n (node_units n) 1 (zrule n)) = true /\
  nonneg_from 0 (node_upper n) (node_poly n (node_units n) (-1) (zrule n)) = true /\
  nonneg_from 0 (own_lower n) (own_poly n (own_units n) 1 (zrule n)) = true /\
  nonneg_from 0 (own_upper n) (own_poly n (own_units n) (-1) (zrule n)) = true.
Proof.
  intros Hn. assert (E : (n = 1 \/ n = 2 \/ n = 3 \/ n = 4)%nat) by lia.
  destruct E as [-> | [-> | [-> | ->]]]; (refine (Logic.conj _ (Logic.conj _ (Logic.conj _ (Logic.conj _ _))))); vm_compute; reflexivity.
Qed.

Lemma functions_exist n : (1 <= n)%nat -> exists F F', (forall s, 0 < s -> mean n (fun y => s / (y + s)) (F s)) /\ (forall s, 0 < s -> mean n (fun y => y / (y + s) ^ 2) (F' s)).
Proof.
  intros Hn. assert (A : forall s, exists v, 0 < s -> mean n (fun y => s / (y + s)) v).
  { intros s. destruct (Rlt_dec 0 s) as [P | N]; [|exists 0; tauto]. destruct (mean_exists n Hn _ (ratio_admissible s P)) as (v & Hv). exists v. auto. }
  assert (B : forall s, exists v, 0 < s -> mean n (fun y => y / (y + s) ^ 2) v).
  { intros s. destruct (Rlt_dec 0 s) as [P | N]; [|exists 0; tauto]. destruct (mean_exists n Hn _ (square_admissible s P)) as (v & Hv). exists v. auto. }
  exists (fun s => epsilon (inhabits 0) (fun v => 0 < s -> mean n (fun y => s / (y + s)) v)), (fun s => epsilon (inhabits 0) (fun v => 0 < s -> mean n (fun y => y / (y + s) ^ 2) v)).
  split; intros s Hs; [exact (epsilon_spec (inhabits 0) _ (A s) Hs) | exact (epsilon_spec (inhabits 0) _ (B s) Hs)].
Qed.
Theorem node_error n v s : (1 <= n <= 4)%nat -> 0 < s -> mean n (fun y => s / (y + s)) v ->
  Rabs (node_rule (chi2_rule n) s - v) <= IZR (node_units n) / IZR unit_w.
Proof.
  intros Hn Hs Hv. rewrite (rules_integer n Hn). destruct (tests n Hn) as (T0 & T1 & T2 & _). assert (H1 : (1 <= n)%nat) by lia.
  destruct (functions_exist n H1) as (F & F' & HF & HF'). rewrite (mean_unique n _ _ _ Hv (HF s Hs)). clear v Hv.
  pose proof (rule_positive _ T0) as PN. set (r := rule_of (zrule n)) in *. set (e := IZR (node_units n) / IZR unit_w). pose proof (half n H1) as Hb.
  assert (L : F s <= node_rule r s + e).
  { apply (comparison F F' (fun s => node_rule r s + e) (node_rule' r) (INR n / 2) (INR n / 2) (1 + Rabs e)); [lra | lra | | | | |exact Hs].
    - intros t Ht. apply (F_derive n H1 F F' HF HF' t Ht).
    - intros t Ht. rewrite <- (Rplus_0_r (node_rule' r t)). apply (is_derive_plus (node_rule r) (fun _ => e)); [apply node_rule_derive; assumption | apply (is_derive_const e)].
    - intros t Ht. pose proof (F_bounds n H1 F HF t Ht). pose proof (node_rule_bounds r t PN Ht). pose proof (Rle_abs (- e)). rewrite Rabs_Ropp in H2. lra.
    - intros t Ht. pose proof (node_residual n _ _ _ _ t T0 T2 Ht) as R0. fold r e in R0. rewrite Rmult_minus_distr_l, (F_equation n H1 F F' HF HF' t Ht). lra. }
  assert (M : node_rule r s - e <= F s).
  { apply (comparison (fun s => node_rule r s - e) (node_rule' r) F F' (INR n / 2) (INR n / 2) (mass r + Rabs e)); [lra | lra | | | | |exact Hs].
    - intros t Ht. rewrite <- (Rminus_0_r (node_rule' r t)). apply (is_derive_minus (node_rule r) (fun _ => e)); [apply node_rule_derive; assumption | apply (is_derive_const e)].
    - intros t Ht. apply (F_derive n H1 F F' HF HF' t Ht).
    - intros t Ht. pose proof (F_bounds n H1 F HF t Ht). pose proof (node_rule_bounds r t PN Ht). pose proof (Rle_abs (- e)). rewrite Rabs_Ropp in H2. lra.
    - intros t Ht. pose proof (node_residual n _ _ _ _ t T0 T1 Ht) as R0. fold r e in R0. rewrite Rmult_minus_distr_l, (F_equation n H1 F F' HF HF' t Ht). lra. }
  apply Rabs_le. lra.
Qed.

Theorem own_error_rule n v s : (1 <= n <= 4)%nat -> 0 < s -> mean n (fun y => y * y / (y + s)) v ->
  Rabs (own_rule (chi2_rule n) s - v) <= IZR (own_units n) / IZR unit_w.
Proof.
  intros Hn Hs Hv. rewrite (rules_integer n Hn). destruct (tests n Hn) as (T0 & _ & _ & T1 & T2). assert (H1 : (1 <= n)%nat) by lia.
  destruct (functions_exist n H1) as (F & F' & HF & HF'). rewrite (mean_unique n _ _ _ Hv (G_mean n H1 F HF s Hs)). clear v Hv.
  pose proof (rule_positive _ T0) as PN. set (r := rule_of (zrule n)) in *. set (e := IZR (own_units n) / IZR unit_w). pose proof (half n H1) as Hb.
  set (G := fun s => 1 - s + s * F s). set (G' := fun s => -1 + F s + s * F' s). change (1 - s + s * F s) with (G s).
  assert (L : G s <= own_rule r s + e).
  { apply (comparison G G' (fun s => own_rule r s + e) (own_rule' r) (1 + INR n / 2) (INR n / 2) (1 + Rabs e)); [lra | lra | | | | |exact Hs].
    - intros t Ht. apply (G_derive n H1 F F' HF HF' t Ht).
    - intros t Ht. rewrite <- (Rplus_0_r (own_rule' r t)). apply (is_derive_plus (own_rule r) (fun _ => e)); [apply own_rule_derive; assumption | apply (is_derive_const e)].
    - intros t Ht. pose proof (G_bounds n H1 F HF t Ht) as GB.  pose proof (own_rule_bounds r t PN Ht). pose proof (Rle_abs (- e)) as A. rewrite Rabs_Ropp in A. unfold G. lra.
    - intros t Ht. pose proof (own_residual n _ _ _ _ t T0 T2 Ht) as R0. fold r e in R0. rewrite Rmult_minus_distr_l. unfold G'. rewrite (G_equation n H1 F F' HF HF' t Ht). unfold G. lra. }
  assert (M : own_rule r s - e <= G s).
  { apply (comparison (fun s => own_rule r s - e) (own_rule' r) G G' (1 + INR n / 2) (INR n / 2) (first_moment r + Rabs e)); [lra | lra | | | | |exact Hs].
    - intros t Ht. rewrite <- (Rminus_0_r (own_rule' r t)). apply (is_derive_minus (own_rule r) (fun _ => e)); [apply own_rule_derive; assumption | apply (is_derive_const e)].
    - intros t Ht. apply (G_derive n H1 F F' HF HF' t Ht).
    - intros t Ht. pose proof (G_bounds n H1 F HF t Ht) as GB.  pose proof (own_rule_bounds r t PN Ht). pose proof (Rle_abs (- e)) as A. rewrite Rabs_Ropp in A. unfold G. lra.
    - intros t Ht. pose proof (own_residual n _ _ _ _ t T0 T1 Ht) as R0. fold r e in R0. rewrite Rmult_minus_distr_l. unfold G'. rewrite (G_equation n H1 F F' HF HF' t Ht). unfold G. lra. }
  apply Rabs_le. lra.
Qed.
