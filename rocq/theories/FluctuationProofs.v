(** Means over three widths, and their approximation by the rules. *)
From Coq Require Import List ZArith Reals Lra Lia Bool Epsilon.
From Coquelicot Require Import Coquelicot.
From Verif Require Import QuantumSpec UnresolvedSpec FluctuationSpec ImproperProofs ChiSquareProofs RuleErrorProofs.
Import ListNotations.
Open Scope R_scope.

(** What is used of a mean *)
Record averaging (m : (R -> R) -> R -> Prop) : Prop :=
  { m_unique : forall f v w, m f v -> m f w -> v = w;
    m_exists : forall f, admissible f -> exists v, m f v;
    m_ext : forall f g v, (forall y, 0 < y -> f y = g y) -> m f v -> m g v;
    m_plus : forall f g v w, m f v -> m g w -> m (fun y => f y + g y) (v + w);
    m_scal : forall c f v, m f v -> m (fun y => c * f y) (c * v);
    m_const : forall c, m (fun _ => c) c;
    m_le : forall f g v w, (forall y, 0 < y -> f y <= g y) -> m f v -> m g w -> v <= w }.
Lemma mean_averaging n : (1 <= n)%nat -> averaging (mean n).
Proof.
  intros Hn. split; [exact (mean_unique n) | exact (mean_exists n Hn) | exact (mean_ext n) | exact (mean_plus n) | exact (mean_scal n) | exact (mean_const n Hn) | exact (mean_le n)].
Qed.
Lemma mean_of_zero n f v : mean_of 0 n f v <-> v = f 1.
Proof. unfold mean_of. split; [intros (H & _); exact (H eq_refl) | intros ->; split; [reflexivity | intros H; exfalso; apply H; reflexivity]]. Qed.
Lemma mean_of_nonzero G n f v : G <> 0 -> (mean_of G n f v <-> mean n f v).
Proof. intros HG. unfold mean_of. split; [intros (_ & H); exact (H HG) | intros H; split; [intros E; contradiction | auto]]. Qed.
Lemma mean_of_averaging G n : (1 <= n)%nat -> averaging (mean_of G n).
Proof.
  intros Hn. destruct (Req_EM_T G 0) as [-> | N].
  - split; intros *; rewrite ?mean_of_zero.
    + intros -> ->. reflexivity.
    + intros _. exists (f 1). apply mean_of_zero. reflexivity.
    + intros H ->. apply H. lra.
    + intros -> ->. reflexivity.
    + intros ->. reflexivity.
    + reflexivity.
    + intros H -> ->. apply H. lra.
  - destruct (mean_averaging n Hn) as [A1 A2 A3 A4 A5 A6 A7]. split; intros *; rewrite ?(mean_of_nonzero G n) by exact N.
    + apply A1.
    + intros H. destruct (A2 f H) as (v & Hv). exists v. apply mean_of_nonzero; assumption.
    + apply A3.
    + apply A4.
    + apply A5.
    + apply A6.
    + apply A7.
Qed.
Lemma lipschitz_continuous (f : R -> R) K y : 0 < y -> (forall z, 0 < z -> Rabs (f z - f y) <= K * Rabs (z - y)) -> continuous f y.
Proof.
  intros Hy H Q (e & He). pose proof (cond_pos e) as Pe. assert (HK : 0 <= Rabs K) by apply Rabs_pos.
  assert (Hd : 0 < Rmin y (e / (Rabs K + 1))) by (apply Rmin_glb_lt; [exact Hy | apply Rdiv_lt_0_compat; lra]).
  exists (mkposreal _ Hd). intros z Hz0. assert (Hz : Rlt (Rabs (z - y)) (Rmin y (e / (Rabs K + 1)))) by (apply ball_sub in Hz0; exact Hz0). pose proof (Rmin_l y (e / (Rabs K + 1))). pose proof (Rmin_r y (e / (Rabs K + 1))).
  apply He, ball_sub. assert (Z : 0 < z) by (apply Rabs_def2 in Hz as (Z1 & Z2); change (0 < (z : R)); lra). apply Rle_lt_trans with (1 := H z Z).
  apply Rle_lt_trans with (Rabs K * Rabs (z - y)); [apply Rmult_le_compat_r; [apply Rabs_pos | apply Rle_abs]|].
  apply Rle_lt_trans with (Rabs K * (e / (Rabs K + 1))); [apply Rmult_le_compat_l; lra|].
  apply Rmult_lt_reg_r with (Rabs K + 1); [lra|]. replace (Rabs K * (e / (Rabs K + 1)) * (Rabs K + 1)) with (Rabs K * e) by (field; lra). nra.
Qed.
(** The error of a rule for a function *)
Definition close (m : (R -> R) -> R -> Prop) (r : list (R * R)) (e : R) (f : R -> R) : Prop := forall v, m f v -> Rabs (average r f - v) <= e.
Lemma average_mean m r r' (f : R -> R -> R) c : averaging m -> positive_nodes r ->
  (forall p, In p r -> exists v, m (fun y => f y (snd p)) v /\ Rabs (average r' (fun y => f y (snd p)) - v) <= c) ->
  exists w, m (fun y => average r (f y)) w /\ Rabs (average r' (fun y => average r (f y)) - w) <= mass r * c.
Proof.
  intros A. induction r as [|p r IH]; intros Pr H.
  - exists 0. split; [apply (m_ext m A (fun _ => 0)); [reflexivity | apply (m_const m A)]|]. unfold mass. unfold average at 2. cbn [map Rsum fold_right].
    rewrite (average_ext r' _ (fun _ => 0 * 1)) by (intros; unfold average; cbn; ring). rewrite average_scal, Rmult_0_l, Rminus_0_r, Rabs_R0. unfold average. cbn. lra.
  - destruct IH as (w & Hw & B); [intros q Hq; apply Pr; right; exact Hq | intros q Hq; apply H; right; exact Hq|].
    destruct (H p (or_introl eq_refl)) as (v & Hv & B1). destruct (Pr p (or_introl eq_refl)) as (P1 & _).
    exists (fst p * v + w). split.
    + apply (m_ext m A (fun y => fst p * f y (snd p) + average r (f y))); [intros; reflexivity|]. apply (m_plus m A); [apply (m_scal m A); exact Hv | exact Hw].
    + rewrite (average_ext r' (fun y => average (p :: r) (f y)) (fun y => fst p * f y (snd p) + average r (f y))) by (intros; reflexivity).
      rewrite average_plus, average_scal. unfold mass. rewrite average_cons. fold (mass r).
      replace (fst p * average r' (fun y => f y (snd p)) + average r' (fun y => average r (f y)) - (fst p * v + w))
        with (fst p * (average r' (fun y => f y (snd p)) - v) + (average r' (fun y => average r (f y)) - w)) by ring.
      eapply Rle_trans; [apply Rabs_triang|]. rewrite Rabs_mult, (Rabs_right (fst p)) by lra. pose proof (Rmult_le_compat_l _ _ _ P1 B1). lra.
Qed.

(** ** Three variables *)
Section Three.
Variables m1 m2 m3 : (R -> R) -> R -> Prop.
Hypotheses (A1 : averaging m1) (A2 : averaging m2) (A3 : averaging m3).
Hypothesis unit_mean : m1 (fun x => x) 1.
Variables r1 r2 r3 : list (R * R).
Hypotheses (P2 : positive_nodes r2) (P3 : positive_nodes r3).
Variable f : R -> R -> R -> R.
Hypothesis bound : forall x y z, 0 < x -> 0 < y -> 0 < z -> 0 <= f x y z <= x.
Variables K2 K3 : R.
Hypothesis lip1 : forall x x' y z, 0 < x -> 0 < x' -> 0 < y -> 0 < z -> Rabs (f x' y z - f x y z) <= 1 * Rabs (x' - x).
Hypothesis lip2 : forall x y y' z, 0 < x -> 0 < y -> 0 < y' -> 0 < z -> Rabs (f x y' z - f x y z) <= K2 * Rabs (y' - y).
Hypothesis lip3 : forall x y z z', 0 < x -> 0 < y -> 0 < z -> 0 < z' -> Rabs (f x y z' - f x y z) <= K3 * Rabs (z' - z).

(** From pointwise bounds to bounds of means *)
Lemma mean_near m g g' v v' c : averaging m -> (forall y, 0 < y -> Rabs (g' y - g y) <= c) -> m g v -> m g' v' -> Rabs (v' - v) <= c.
Proof.
  intros A H Hv Hv'. apply Rabs_le. split.
  - assert (v <= v' + c); [|lra]. apply (m_le m A g (fun y => g' y + c)); [|exact Hv | apply (m_plus m A); [exact Hv' | apply (m_const m A)]]. intros y Hy. specialize (H y Hy). apply Rabs_le_between in H. lra.
  - assert (v' <= v + c); [|lra]. apply (m_le m A g' (fun y => g y + c)); [|exact Hv' | apply (m_plus m A); [exact Hv | apply (m_const m A)]]. intros y Hy. specialize (H y Hy). apply Rabs_le_between in H. lra.
Qed.
Lemma mean_between m g v c : averaging m -> (forall y, 0 < y -> 0 <= g y <= c) -> m g v -> 0 <= v <= c.
Proof.
  intros A H Hv. split; [apply (m_le m A (fun _ => 0) g) | apply (m_le m A g (fun _ => c))]; try assumption; try apply (m_const m A); intros y Hy; apply H, Hy.
Qed.
Lemma f3_admissible x y : 0 < x -> 0 < y -> admissible (f x y).
Proof.
  intros Hx Hy. split; [intros z Hz; apply (lipschitz_continuous _ K3); [exact Hz | intros z' Hz'; apply lip3; assumption]|]. exists x. split; [lra|]. intros z Hz. specialize (bound x y z Hx Hy Hz). nra.
Qed.
Lemma f2_admissible x z : 0 < x -> 0 < z -> admissible (fun y => f x y z).
Proof.
  intros Hx Hz. split; [intros y Hy; apply (lipschitz_continuous _ K2); [exact Hy | intros y' Hy'; apply lip2; assumption]|]. exists x. split; [lra|]. intros y Hy. specialize (bound x y z Hx Hy Hz). nra.
Qed.
Lemma f1_admissible y z : 0 < y -> 0 < z -> admissible (fun x => f x y z).
Proof.
  intros Hy Hz. split; [intros x Hx; apply (lipschitz_continuous _ 1); [exact Hx | intros x' Hx'; apply lip1; assumption]|]. exists 1. split; [lra|]. intros x Hx. specialize (bound x y z Hx Hy Hz). lra.
Qed.
Lemma mean3_exists : exists v, mean3 m1 m2 m3 f v.
Proof.
  set (g := fun x y => epsilon (inhabits 0) (fun v => m3 (f x y) v)).
  assert (Hg : forall x y, 0 < x -> 0 < y -> m3 (f x y) (g x y)). { intros x y Hx Hy. unfold g. apply epsilon_spec. apply (m_exists m3 A3), f3_admissible; assumption. }
  assert (Bg : forall x y, 0 < x -> 0 < y -> 0 <= g x y <= x). { intros x y Hx Hy. apply (mean_between m3 (f x y) _ _ A3); [|apply Hg; assumption]. intros z Hz. apply bound; assumption. }
  assert (Ag : forall x, 0 < x -> admissible (g x)).
  { intros x Hx. split.
    - intros y Hy. apply (lipschitz_continuous _ K2); [exact Hy|]. intros y' Hy'. apply (mean_near m3 (f x y) (f x y') _ _ _ A3); [|apply Hg; assumption..]. intros z Hz. apply lip2; assumption.
    - exists x. split; [lra|]. intros y Hy. specialize (Bg x y Hx Hy). nra. }
  set (h := fun x => epsilon (inhabits 0) (fun v => m2 (g x) v)).
  assert (Hh : forall x, 0 < x -> m2 (g x) (h x)). { intros x Hx. unfold h. apply epsilon_spec. apply (m_exists m2 A2), Ag, Hx. }
  assert (Ah : admissible h).
  { split.
    - intros x Hx. apply (lipschitz_continuous _ 1); [exact Hx|]. intros x' Hx'. apply (mean_near m2 (g x) (g x') _ _ _ A2); [|apply Hh; assumption..].
      intros y Hy. apply (mean_near m3 (f x y) (f x' y) _ _ _ A3); [|apply Hg; assumption..]. intros z Hz. apply lip1; assumption.
    - exists 1. split; [lra|]. intros x Hx. assert (0 <= h x <= x); [|lra]. apply (mean_between m2 (g x) _ _ A2); [|apply Hh, Hx]. intros y Hy. apply Bg; assumption. }
  destruct (m_exists m1 A1 h Ah) as (v & Hv). exists v, g, h. repeat split; assumption.
Qed.
Lemma mean3_unique v w : mean3 m1 m2 m3 f v -> mean3 m1 m2 m3 f w -> v = w.
Proof.
  intros (g & h & H1 & H2 & H3) (g' & h' & H1' & H2' & H3'). apply (m_unique m1 A1 h'); [|exact H3']. apply (m_ext m1 A1 h); [|exact H3].
  intros x Hx. apply (m_unique m2 A2 (g' x)); [|apply H2', Hx]. apply (m_ext m2 A2 (g x)); [|apply H2, Hx]. intros y Hy. apply (m_unique m3 A3 (f x y)); [apply H1 | apply H1']; assumption.
Qed.
Variables e1 e2 e3 : R.
Hypothesis close3 : forall x y, 0 < x -> 0 < y -> close m3 r3 (x * e3) (f x y).
Hypothesis close2 : forall x z, 0 < x -> 0 < z -> close m2 r2 (x * e2) (fun y => f x y z).
Hypothesis close1 : forall y z, 0 < y -> 0 < z -> close m1 r1 e1 (fun x => f x y z).
Lemma mean3_near v : mean3 m1 m2 m3 f v -> Rabs (average3 r1 r2 r3 f - v) <= e3 + mass r3 * e2 + mass r2 * (mass r3 * e1).
Proof.
  intros (g & h & H1 & H2 & H3). set (B := fun x => average r2 (fun y => average r3 (f x y))).
  assert (Hh : forall x, 0 < x -> Rabs (h x - B x) <= x * (e3 + mass r3 * e2)).
  { intros x Hx. destruct (average_mean m2 r3 r2 (fun y z => f x y z) (x * e2) A2 P3) as (w & Hw & Bw).
    { intros p Hp. destruct (P3 p Hp) as (_ & Pz). destruct (m_exists m2 A2 _ (f2_admissible x (snd p) Hx Pz)) as (u & Hu). exists u. split; [exact Hu | apply close2; assumption]. }
    assert (D : Rabs (h x - w) <= x * e3).
    { apply (mean_near m2 (fun y => average r3 (f x y)) (g x) _ _ _ A2); [|exact Hw | apply H2, Hx]. intros y Hy. rewrite Rabs_minus_sym. apply close3; [assumption..|]. apply H1; assumption. }
    change (average r2 (fun y => average r3 (fun z => f x y z))) with (B x) in Bw. pose proof (Rabs_triang (h x - w) (- (B x - w))) as T. rewrite (Rabs_Ropp (B x - w)) in T.
    replace (h x - w + - (B x - w)) with (h x - B x) in T by ring. replace (x * (e3 + mass r3 * e2)) with (x * e3 + mass r3 * (x * e2)) by ring. lra. }
  destruct (average_mean m1 r2 r1 (fun x y => average r3 (f x y)) (mass r3 * e1) A1 P2) as (w & Hw & Bw).
  { intros p Hp. destruct (P2 p Hp) as (_ & Py). apply (average_mean m1 r3 r1 (fun x z => f x (snd p) z) e1 A1 P3). intros q Hq. destruct (P3 q Hq) as (_ & Pz).
    destruct (m_exists m1 A1 _ (f1_admissible (snd p) (snd q) Py Pz)) as (u & Hu). exists u. split; [exact Hu | apply close1; assumption]. }
  set (c := e3 + mass r3 * e2) in *. assert (D : Rabs (v - w) <= c).
  { assert (Mc : m1 (fun x => c * x) (c * 1)) by (apply (m_scal m1 A1); exact unit_mean).
    apply Rabs_le. split.
    - assert (w <= v + c * 1); [|lra]. apply (m_le m1 A1 B (fun x => h x + c * x)); [|exact Hw | apply (m_plus m1 A1); assumption]. intros x Hx. specialize (Hh x Hx). apply Rabs_le_between in Hh. lra.
    - assert (v <= w + c * 1); [|lra]. apply (m_le m1 A1 h (fun x => B x + c * x)); [|exact H3 | apply (m_plus m1 A1); assumption]. intros x Hx. specialize (Hh x Hx). apply Rabs_le_between in Hh. lra. }
  unfold average3. change (Rabs (average r1 B - v) <= c + mass r2 * (mass r3 * e1)).
  change (Rabs (average r1 B - w) <= mass r2 * (mass r3 * e1)) in Bw.
  replace (average r1 B - v) with ((average r1 B - w) + - (v - w)) by ring. pose proof (Rabs_triang (average r1 B - w) (- (v - w))) as T. rewrite (Rabs_Ropp (v - w)) in T. lra.
Qed.
End Three.
