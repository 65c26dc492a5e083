(** The fluctuation integrals: bounds, values, conservation. *)
From Coq Require Import String List ZArith Reals Lra Lia Permutation Bool Psatz.
From Coquelicot Require Import Rcomplements.
From Verif Require Import Outcome QuantumModel QuantumSpec KinematicsModel RMatrixModel ChannelModel
  BreitWignerModel LegacyModel ListFacts UnresolvedModel UnresolvedSpec.
Import ListNotations.
Open Scope R_scope.

(** * The quadrature rules *)
Definition rule_ok (r : list (R * R)) : Prop := forall p, In p r -> 0 <= fst p /\ 0 < snd p.
Definition norm (r : list (R * R)) : R := average r (fun _ => 1).
Definition mean (r : list (R * R)) : R := average r (fun x => x).
Definition second (r : list (R * R)) : R := average r (fun x => x * x).

Lemma chi2_ok n : rule_ok (chi2_rule n).
Proof.
  destruct n as [|[|[|[|[|n]]]]]; intros p; cbn [chi2_rule In]; intros H;
  repeat (destruct H as [<-|H]; [cbn [fst snd]; lra|]); contradiction.
Qed.
Lemma constant_ok : rule_ok constant_rule.
Proof. intros p [<-|[]]; cbn; lra. Qed.

Lemma chi2_norm n : (1 <= n <= 4)%nat -> Rabs (norm (chi2_rule n) - 1) <= 2.4e-4.
Proof.
  intros H. unfold norm. destruct n as [|[|[|[|[|n]]]]]; try lia; unfold average, Rsum;
  cbn [chi2_rule map fold_right fst snd]; apply Rabs_le; lra.
Qed.
Lemma chi2_mean n : (1 <= n <= 4)%nat -> Rabs (mean (chi2_rule n) - 1) <= 1.2e-3.
Proof.
  intros H. unfold mean. destruct n as [|[|[|[|[|n]]]]]; try lia; unfold average, Rsum;
  cbn [chi2_rule map fold_right fst snd]; apply Rabs_le; lra.
Qed.
(** <x^2> = 1 + 2 / n *)
Lemma chi2_second n : (1 <= n <= 4)%nat -> Rabs (second (chi2_rule n) - (1 + 2 / INR n)) <= 1.5e-2.
Proof.
  intros H. unfold second. destruct n as [|[|[|[|[|n]]]]]; try lia; unfold average, Rsum;
  cbn [chi2_rule map fold_right fst snd INR]; apply Rabs_le; lra.
Qed.
(** The rule for two degrees of freedom misses its mean by a tenth of a percent *)
Lemma chi2_mean_2 : 1.1e-3 < mean (chi2_rule 2) - 1.
Proof. unfold mean, average, Rsum; cbn [chi2_rule map fold_right fst snd]; lra. Qed.
Lemma mean_pos n : (1 <= n <= 4)%nat -> 0 < mean (chi2_rule n).
Proof. intros H. pose proof (chi2_mean n H) as M. apply Rcomplements.Rabs_le_between in M. lra. Qed.
Lemma norm_pos n : (1 <= n <= 4)%nat -> 0 < norm (chi2_rule n).
Proof. intros H. pose proof (chi2_norm n H) as M. apply Rcomplements.Rabs_le_between in M. lra. Qed.
Lemma norm_constant : norm constant_rule = 1.
Proof. unfold norm, average, constant_rule, Rsum; cbn; ring. Qed.

(** * Table look-ups *)
Definition reads (n : nat) (i : nat) (p : R * R) : Prop :=
  entry weights i (unsigned_pred n) = Ok (fst p) /\ entry nodes i (unsigned_pred n) = Ok (snd p).
Lemma reads_rule n : (1 <= n <= 4)%nat -> Forall2 (reads n) ten (chi2_rule n).
Proof.
  intros H. unfold ten. cbn [seq].
  destruct n as [|[|[|[|[|n]]]]]; try lia; cbn [chi2_rule];
  repeat (apply Forall2_cons; [split; reflexivity|]); apply Forall2_nil.
Qed.
Lemma unsigned_pred_out n : (n < 1 \/ 4 < n)%nat -> (Z.of_nat n < 4294967296)%Z ->
  (unsigned_pred n <? 4)%Z = false.
Proof.
  intros H Hn. apply Z.ltb_ge. unfold unsigned_pred. destruct H as [H|H].
  - replace n with 0%nat by lia. vm_compute. discriminate.
  - rewrite Z.mod_small; lia.
Qed.
Lemma entry_out t i n : (n < 1 \/ 4 < n)%nat -> (Z.of_nat n < 4294967296)%Z -> exists w, entry t i (unsigned_pred n) = UB w \/
  nth_error t i = None.
Proof.
  intros H Hn. unfold entry. rewrite (unsigned_pred_out n H Hn). unfold at_or_ub.
  destruct (nth_error t i) as [row|] eqn:E; [|exists ""%string; right; reflexivity].
  eexists; left; reflexivity.
Qed.
Lemma entry0_out t r n : nth_error t 0 = Some r -> (n < 1 \/ 4 < n)%nat -> (Z.of_nat n < 4294967296)%Z ->
  entry t 0 (unsigned_pred n) = UB "column index out of bounds".
Proof.
  intros Hr H Hn. unfold entry. rewrite (unsigned_pred_out n H Hn). unfold at_or_ub. rewrite Hr. reflexivity.
Qed.

(** * Folds *)
Lemma foldM_rule {A B S : Type} (P : A -> B -> Prop) (F : S -> A -> outcome S) (G : S -> B -> S) l r :
  Forall2 P l r -> (forall acc i p, P i p -> F acc i = Ok (G acc p)) ->
  forall acc, foldM F l acc = Ok (fold_left G r acc).
Proof.
  intros H HF. induction H as [|i p l r Hip H IH]; intros acc; cbn [foldM fold_left]; [reflexivity|].
  rewrite (HF acc i p Hip). cbn [bind]. apply IH.
Qed.

Definition dzero : data R := mkData 0 0 0 0.
Definition osum {A} (f : A -> option (data R)) (l : list A) : option (data R) :=
  fold_right (fun p s => add_term (f p) s) (Some dzero) l.
Lemma data_ext (x y : data R) : d_elastic x = d_elastic y -> d_capture x = d_capture y ->
  d_fission x = d_fission y -> d_competition x = d_competition y -> x = y.
Proof. destruct x, y; cbn; intros; subst; reflexivity. Qed.
Lemma data_add_assoc x y z : data_add x (data_add y z) = data_add (data_add x y) z.
Proof. apply data_ext; cbn; ring. Qed.
Lemma data_add_0_r x : data_add x dzero = x.
Proof. apply data_ext; cbn; ring. Qed.
Lemma data_add_0_l x : data_add dzero x = x.
Proof. apply data_ext; cbn; ring. Qed.
Lemma add_term_assoc a b c : add_term a (add_term b c) = add_term (add_term a b) c.
Proof.
  destruct a, b, c; cbn; rewrite ?data_add_assoc; reflexivity.
Qed.
Lemma fold_osum {A} (f : A -> option (data R)) l : forall acc,
  fold_left (fun a p => add_term a (f p)) l acc = add_term acc (osum f l).
Proof.
  induction l as [|p l IH]; intros acc; cbn [fold_left osum fold_right].
  - destruct acc; cbn; [rewrite data_add_0_r|]; reflexivity.
  - rewrite IH, add_term_assoc. reflexivity.
Qed.
Lemma add_zero o : add_term (Some dzero) o = o.
Proof. destruct o; cbn; [rewrite data_add_0_l|]; reflexivity. Qed.
Lemma fold_left_ext {A S} (f g : S -> A -> S) l : (forall a x, f a x = g a x) -> forall a, fold_left f l a = fold_left g l a.
Proof. intros H. induction l as [|x l IH]; intros a; cbn; [reflexivity|]. rewrite H. apply IH. Qed.

Lemma osum_Some {A} (f : A -> option (data R)) (d : A -> data R) l :
  (forall p, In p l -> f p = Some (d p)) ->
  osum f l = Some (mkData (Rsum (map (fun p => d_elastic (d p)) l)) (Rsum (map (fun p => d_capture (d p)) l))
                          (Rsum (map (fun p => d_fission (d p)) l)) (Rsum (map (fun p => d_competition (d p)) l))).
Proof.
  induction l as [|p l IH]; intros H; [reflexivity|].
  cbn [osum fold_right map]. change (fold_right _ _ l) with (osum f l).
  rewrite IH, (H p (or_introl eq_refl)) by (intros; apply H; right; assumption). reflexivity.
Qed.
Lemma osum_None {A} (f : A -> option (data R)) l : osum f l = None <-> exists p, In p l /\ f p = None.
Proof.
  induction l as [|p l IH]; cbn [osum fold_right In]; [split; [discriminate | intros (? & [] & _)]|].
  change (fold_right _ _ l) with (osum f l). split.
  - destruct (f p) eqn:E; [|intros _; exists p; split; [left; reflexivity | exact E]].
    destruct (osum f l) eqn:El; cbn; [discriminate|]. intros _. destruct (proj1 IH eq_refl) as (q & Hq & Hn).
    exists q; split; [right; exact Hq | exact Hn].
  - intros (q & [->|Hq] & Hn); [rewrite Hn; reflexivity|].
    assert (El : osum f l = None) by (apply IH; exists q; split; assumption).
    rewrite El. destruct (f p); reflexivity.
Qed.

Lemma average_ext r f g : (forall p, In p r -> f (snd p) = g (snd p)) -> average r f = average r g.
Proof. intros H. apply Rsum_ext. intros p Hp. rewrite (H p Hp). reflexivity. Qed.
Lemma average_scale c r f : average r (fun x => c * f x) = c * average r f.
Proof. unfold average. rewrite <- Rsum_scale. apply Rsum_ext. intros; ring. Qed.
Lemma average_plus r f g : average r (fun x => f x + g x) = average r f + average r g.
Proof. unfold average. rewrite <- Rsum_plus. apply Rsum_ext. intros; ring. Qed.
Lemma average_const r c : average r (fun _ => c) = c * norm r.
Proof. unfold norm. rewrite <- average_scale. apply Rsum_ext; intros; ring. Qed.
Lemma average_constant f : average constant_rule f = f 1.
Proof. unfold average, constant_rule, Rsum; cbn; ring. Qed.
Lemma average_nonneg r f : rule_ok r -> (forall p, In p r -> 0 <= f (snd p)) -> 0 <= average r f.
Proof.
  intros Hr Hf. apply Rsum_map_nonneg. intros p Hp. apply Rmult_le_pos; [apply (Hr p Hp) | apply Hf, Hp].
Qed.
Lemma average3_ext r1 r2 r3 f g : (forall a b c, In a r1 -> In b r2 -> In c r3 ->
    f (snd a) (snd b) (snd c) = g (snd a) (snd b) (snd c)) ->
  average3 r1 r2 r3 f = average3 r1 r2 r3 g.
Proof.
  intros H. unfold average3. apply average_ext; intros a Ha. apply average_ext; intros b Hb.
  apply average_ext; intros c Hc. apply H; assumption.
Qed.
Lemma average3_scale c r1 r2 r3 f : average3 r1 r2 r3 (fun x y z => c * f x y z) = c * average3 r1 r2 r3 f.
Proof.
  unfold average3. rewrite <- average_scale. apply average_ext; intros a _.
  rewrite <- average_scale. apply average_ext; intros b _. apply average_scale.
Qed.
Lemma average3_plus r1 r2 r3 f g :
  average3 r1 r2 r3 (fun x y z => f x y z + g x y z) = average3 r1 r2 r3 f + average3 r1 r2 r3 g.
Proof.
  unfold average3. rewrite <- average_plus. apply average_ext; intros a _.
  rewrite <- average_plus. apply average_ext; intros b _. apply average_plus.
Qed.
Lemma average3_nonneg r1 r2 r3 f : rule_ok r1 -> rule_ok r2 -> rule_ok r3 ->
  (forall a b c, In a r1 -> In b r2 -> In c r3 -> 0 <= f (snd a) (snd b) (snd c)) -> 0 <= average3 r1 r2 r3 f.
Proof.
  intros H1 H2 H3 H. apply average_nonneg; [exact H1|]. intros a Ha. apply average_nonneg; [exact H2|]. intros b Hb.
  apply average_nonneg; [exact H3|]. intros c Hc. apply H; assumption.
Qed.
Lemma average3_first r1 r2 r3 : average3 r1 r2 r3 (fun a _ _ => a) = mean r1 * norm r2 * norm r3.
Proof.
  unfold average3, mean.
  transitivity (average r1 (fun a => norm r2 * norm r3 * a)); [|rewrite average_scale; ring].
  apply average_ext. intros a _. rewrite average_const. rewrite <- (average_const r2) at 1.
  transitivity (average r2 (fun _ => snd a * norm r3)); [apply average_ext; intros; apply average_const|].
  rewrite average_const. ring.
Qed.

(** * The integrals *)
Lemma term_value f d qi qj qk : fluctuation_term f d qi qj qk =
  if Req_EM_T d 0 then None
  else Some (mkData (qi * qi * f / d) (qi * f / d)
       (match qj with Some q => qi * q * f / d | None => 0 end)
       (match qk with Some q => qi * q * f / d | None => 0 end)).
Proof.
  unfold fluctuation_term, fdiv. destruct (Req_EM_T d 0); [reflexivity|]. destruct qj, qk; reflexivity.
Qed.

(** The rule used for a reaction that is present *)
Definition rule_of (present : bool) (n : nat) : list (R * R) :=
  if present then chi2_rule (if nonzero_degree n then n else 1) else constant_rule.
Definition used (n : nat) : nat := if nonzero_degree n then n else 1.
Lemma nonzero_0 x : nonzero x = false <-> x = 0.
Proof. unfold nonzero. destruct (Req_EM_T x 0); split; intros; try discriminate; try contradiction; auto. Qed.
Lemma rule_of_ok b n : rule_ok (rule_of b n).
Proof. destruct b; [apply chi2_ok | apply constant_ok]. Qed.

Lemma used_in n : (n <= 4)%nat -> (1 <= used n <= 4)%nat.
Proof. unfold used, nonzero_degree. destruct n; cbn; lia. Qed.
Lemma index_used n : (if nonzero_degree n then unsigned_pred n else 0%Z) = unsigned_pred (used n).
Proof. unfold used. destruct (nonzero_degree n); reflexivity. Qed.


Section Value.
Variables (w : data R) (d : data nat).
Let Gn := d_elastic w. Let Gg := d_capture w. Let Gf := d_fission w. Let Gx := d_competition w.
Let rn := chi2_rule (d_elastic d).
Let rf := rule_of (nonzero Gf) (d_fission d).
Let rx := rule_of (nonzero Gx) (d_competition d).
Hypotheses (Hn : (1 <= d_elastic d <= 4)%nat)
  (Hf : nonzero Gf = true -> (d_fission d <= 4)%nat) (Hx : nonzero Gx = true -> (d_competition d <= 4)%nat).

Definition wanted (i : data R) : Prop :=
  d_elastic i = I_elastic Gn Gg Gf Gx rn rf rx /\ d_capture i = I_capture Gn Gg Gf Gx rn rf rx /\
  d_fission i = (if nonzero Gf then I_fission Gn Gg Gf Gx rn rf rx else 0) /\
  d_competition i = (if nonzero Gx then I_competition Gn Gg Gf Gx rn rf rx else 0).
Definition singular : Prop := exists a b c, In a rn /\ In b rf /\ In c rx /\
  total_width Gn Gg Gf Gx (snd a) (snd b) (snd c) = 0.

Definition part (p q s : R * R) : option (data R) :=
  let D := total_width Gn Gg Gf Gx (snd p) (snd q) (snd s) in
  let W := fst p * fst q * fst s in
  if Req_EM_T D 0 then None
  else Some (mkData (snd p * snd p * W / D) (snd p * W / D)
        (if nonzero Gf then snd p * snd q * W / D else 0) (if nonzero Gx then snd p * snd s * W / D else 0)).
Definition all_parts : option (data R) :=
  osum (fun p => osum (fun q => osum (part p q) rx) rf) rn.

Lemma osum1 {A} (f : A -> option (data R)) p : osum f [p] = f p.
Proof. cbn [osum fold_right]. destruct (f p); cbn; [rewrite data_add_0_r|]; reflexivity. Qed.
Lemma osum_ext {A} (f g : A -> option (data R)) l : (forall p, f p = g p) -> osum f l = osum g l.
Proof. intros H. induction l as [|p l IH]; [reflexivity|]. cbn [osum fold_right]. fold (osum f l) (osum g l). rewrite IH, H. reflexivity. Qed.

Lemma integrals_parts : calculateFluctuationIntegrals w d = Ok all_parts.
Proof.
  unfold calculateFluctuationIntegrals. cbv zeta. rewrite !index_used. fold dzero Gf Gx Gn Gg.
  pose proof (reads_rule _ Hn) as Rn.
  unfold all_parts, rf, rx, rule_of. fold (used (d_fission d)) (used (d_competition d)).
  destruct (nonzero Gf) eqn:Ef, (nonzero Gx) eqn:Ex.
  - pose proof (reads_rule _ (used_in _ (Hf eq_refl))) as Rf. pose proof (reads_rule _ (used_in _ (Hx eq_refl))) as Rx.
    rewrite (foldM_rule _ _ (fun a p => add_term a (osum (fun q => osum (part p q) (chi2_rule (used (d_competition d))))
               (chi2_rule (used (d_fission d))))) _ _ Rn).
    + rewrite fold_osum, add_zero. reflexivity.
    + intros acc i p [Wi Qi].
      rewrite (foldM_rule _ _ (fun a q => add_term a (osum (part p q) (chi2_rule (used (d_competition d))))) _ _ Rf).
      * rewrite fold_osum. reflexivity.
      * intros acc' j q [Wj Qj].
        rewrite (foldM_rule _ _ (fun a s => add_term a (part p q s)) _ _ Rx).
        -- rewrite fold_osum. reflexivity.
        -- intros acc2 k s [Wk Qk]. rewrite Wi, Wj, Wk, Qi, Qj, Qk. cbn [bind]. rewrite term_value.
           unfold part, total_width. rewrite Ef, Ex. reflexivity.
  - pose proof (reads_rule _ (used_in _ (Hf eq_refl))) as Rf.
    rewrite (foldM_rule _ _ (fun a p => add_term a (osum (fun q => osum (part p q) constant_rule)
               (chi2_rule (used (d_fission d))))) _ _ Rn).
    + rewrite fold_osum, add_zero. reflexivity.
    + intros acc i p [Wi Qi].
      rewrite (foldM_rule _ _ (fun a q => add_term a (osum (part p q) constant_rule)) _ _ Rf).
      * rewrite fold_osum. reflexivity.
      * intros acc' j q [Wj Qj]. rewrite Wi, Wj, Qi, Qj. cbn [bind]. rewrite term_value.
        unfold constant_rule. rewrite osum1. apply nonzero_0 in Ex as Ex'.
        unfold part, total_width; cbn [fst snd]. rewrite Ef, Ex, Ex'.
        replace (snd p * Gn + Gg + snd q * Gf + 1 * 0) with (snd p * Gn + Gg + snd q * Gf) by ring.
        rewrite Rmult_1_r. reflexivity.
  - pose proof (reads_rule _ (used_in _ (Hx eq_refl))) as Rx.
    rewrite (foldM_rule _ _ (fun a p => add_term a (osum (fun q => osum (part p q) (chi2_rule (used (d_competition d))))
               constant_rule)) _ _ Rn).
    + rewrite fold_osum, add_zero. reflexivity.
    + intros acc i p [Wi Qi]. unfold constant_rule. rewrite osum1.
      rewrite (foldM_rule _ _ (fun a s => add_term a (part p (1, 1) s)) _ _ Rx).
      * rewrite fold_osum. reflexivity.
      * intros acc' k s [Wk Qk]. rewrite Wi, Wk, Qi, Qk. cbn [bind]. rewrite term_value.
        apply nonzero_0 in Ef as Ef'. unfold part, total_width; cbn [fst snd]. rewrite Ef, Ex, Ef'.
        replace (snd p * Gn + Gg + 1 * 0 + snd s * Gx) with (snd p * Gn + Gg + snd s * Gx) by ring.
        rewrite Rmult_1_r. reflexivity.
  - rewrite (foldM_rule _ _ (fun a p => add_term a (part p (1, 1) (1, 1))) _ _ Rn).
    + rewrite fold_osum, add_zero. f_equal. apply osum_ext. intros p. unfold constant_rule. rewrite !osum1. reflexivity.
    + intros acc i p [Wi Qi]. rewrite Wi, Qi. cbn [bind]. rewrite term_value.
      apply nonzero_0 in Ef as Ef'. apply nonzero_0 in Ex as Ex'. unfold part, total_width; cbn [fst snd].
      rewrite Ef, Ex, Ef', Ex'.
      replace (snd p * Gn + Gg + 1 * 0 + 1 * 0) with (snd p * Gn + Gg) by ring.
      rewrite !Rmult_1_r. reflexivity.
Qed.

Lemma parts_none : all_parts = None <-> singular.
Proof.
  unfold all_parts, singular. rewrite osum_None. split.
  - intros (p & Hp & H). apply osum_None in H as (q & Hq & H). apply osum_None in H as (s & Hs & H).
    exists p, q, s. repeat (split; [assumption|]). unfold part in H. cbv zeta in H.
    destruct (Req_EM_T _ 0); [assumption | discriminate].
  - intros (p & q & s & Hp & Hq & Hs & H). exists p; split; [exact Hp|]. apply osum_None. exists q; split; [exact Hq|].
    apply osum_None. exists s; split; [exact Hs|]. unfold part; cbv zeta. destruct (Req_EM_T _ 0); [reflexivity | contradiction].
Qed.

Lemma parts_value : ~ singular -> exists i, all_parts = Some i /\ wanted i.
Proof.
  intros HS.
  assert (HD : forall p q s, In p rn -> In q rf -> In s rx -> total_width Gn Gg Gf Gx (snd p) (snd q) (snd s) <> 0).
  { intros p q s Hp Hq Hs E. apply HS. exists p, q, s. auto. }
  set (val := fun p q s : R * R =>
    let D := total_width Gn Gg Gf Gx (snd p) (snd q) (snd s) in
    let W := fst p * fst q * fst s in
    mkData (snd p * snd p * W / D) (snd p * W / D)
        (if nonzero Gf then snd p * snd q * W / D else 0) (if nonzero Gx then snd p * snd s * W / D else 0)).
  set (sm := fun (F : data R -> R) p q => Rsum (map (fun s => F (val p q s)) rx)).
  set (sm2 := fun (F : data R -> R) p => Rsum (map (fun q => sm F p q) rf)).
  set (sm3 := fun (F : data R -> R) => Rsum (map (fun p => sm2 F p) rn)).
  exists (mkData (sm3 d_elastic) (sm3 d_capture) (sm3 d_fission) (sm3 d_competition)). split.
  - unfold all_parts.
    apply (osum_Some _ (fun p => mkData (sm2 d_elastic p) (sm2 d_capture p) (sm2 d_fission p) (sm2 d_competition p))).
    intros p Hp.
    apply (osum_Some _ (fun q => mkData (sm d_elastic p q) (sm d_capture p q) (sm d_fission p q) (sm d_competition p q))).
    intros q Hq. apply (osum_Some _ (val p q)). intros s Hs. unfold part, val; cbv zeta.
    destruct (Req_EM_T _ 0) as [E|E]; [exfalso; apply (HD p q s Hp Hq Hs E) | reflexivity].
  - assert (HA : forall (F : data R -> R) (f : R -> R -> R -> R),
       (forall p q s, In p rn -> In q rf -> In s rx -> F (val p q s) = fst p * (fst q * (fst s * f (snd p) (snd q) (snd s)))) ->
       sm3 F = average3 rn rf rx f).
    { intros F f H. unfold sm3, sm2, sm, average3, average. apply Rsum_ext; intros p Hp.
      rewrite <- Rsum_scale. apply Rsum_ext; intros q Hq. rewrite <- !Rsum_scale. apply Rsum_ext; intros s Hs.
      rewrite (H p q s Hp Hq Hs). reflexivity. }
    unfold wanted; cbn [d_elastic d_capture d_fission d_competition]. repeat split.
    + apply HA. intros. unfold val; cbn [d_elastic]. field. apply HD; assumption.
    + apply HA. intros. unfold val; cbn [d_capture]. field. apply HD; assumption.
    + clearbody rf rx. destruct (nonzero Gf) eqn:E.
      * apply HA. intros. unfold val; cbn [d_fission]. field. apply HD; assumption.
      * unfold sm3, sm2, sm, val; cbn [d_fission].
        rewrite (Rsum_ext _ (fun _ => 0 * 0)); [rewrite (Rsum_scale 0 (fun _ => 0)); ring|]. intros p _.
        rewrite (Rsum_ext _ (fun _ => 0 * 0)); [rewrite (Rsum_scale 0 (fun _ => 0)); ring|]. intros q _.
        rewrite (Rsum_ext _ (fun _ => 0 * 0)); [rewrite (Rsum_scale 0 (fun _ => 0)); ring|]. intros; ring.
    + clearbody rf rx. destruct (nonzero Gx) eqn:E.
      * apply HA. intros. unfold val; cbn [d_competition]. field. apply HD; assumption.
      * unfold sm3, sm2, sm, val; cbn [d_competition].
        rewrite (Rsum_ext _ (fun _ => 0 * 0)); [rewrite (Rsum_scale 0 (fun _ => 0)); ring|]. intros p _.
        rewrite (Rsum_ext _ (fun _ => 0 * 0)); [rewrite (Rsum_scale 0 (fun _ => 0)); ring|]. intros q _.
        rewrite (Rsum_ext _ (fun _ => 0 * 0)); [rewrite (Rsum_scale 0 (fun _ => 0)); ring|]. intros; ring.
Qed.

Theorem integrals_value :
  (singular /\ calculateFluctuationIntegrals w d = Ok None) \/
  (~ singular /\ exists i, calculateFluctuationIntegrals w d = Ok (Some i) /\ wanted i).
Proof.
  rewrite integrals_parts. destruct all_parts as [i|] eqn:E.
  - right. assert (HS : ~ singular) by (intros H; apply parts_none in H; congruence). split; [exact HS|].
    destruct (parts_value HS) as (i' & E' & Hi). exists i'. split; [congruence | exact Hi].
  - left. split; [apply parts_none; exact E | reflexivity].
Qed.

(** The widths shared out over the reactions *)
Theorem integrals_conserved i : calculateFluctuationIntegrals w d = Ok (Some i) ->
  Gn * d_elastic i + Gg * d_capture i + Gf * d_fission i + Gx * d_competition i
  = mean rn * norm rf * norm rx.
Proof.
  intros H. destruct integrals_value as [[_ E]|[HS (i' & E & H1 & H2 & H3 & H4)]]; [congruence|].
  rewrite H in E. injection E as <-. rewrite H1, H2, H3, H4.
  assert (Ef : Gf * (if nonzero Gf then I_fission Gn Gg Gf Gx rn rf rx else 0) = Gf * I_fission Gn Gg Gf Gx rn rf rx).
  { clearbody rf rx. destruct (nonzero Gf) eqn:E; [reflexivity|]. apply nonzero_0 in E. rewrite E. ring. }
  assert (Ex : Gx * (if nonzero Gx then I_competition Gn Gg Gf Gx rn rf rx else 0) = Gx * I_competition Gn Gg Gf Gx rn rf rx).
  { clearbody rf rx. destruct (nonzero Gx) eqn:E; [reflexivity|]. apply nonzero_0 in E. rewrite E. ring. }
  rewrite Ef, Ex. rewrite <- average3_first. unfold I_elastic, I_capture, I_fission, I_competition.
  rewrite <- !average3_scale, <- !average3_plus. apply average3_ext. intros a b c Ha Hb Hc.
  assert (HD : total_width Gn Gg Gf Gx (snd a) (snd b) (snd c) <> 0) by (intros E'; apply HS; exists a, b, c; auto).
  unfold total_width in *. field. exact HD.
Qed.

Theorem integrals_nonneg i : 0 <= Gn -> 0 <= Gg -> 0 <= Gf -> 0 <= Gx ->
  calculateFluctuationIntegrals w d = Ok (Some i) ->
  0 <= d_elastic i /\ 0 <= d_capture i /\ 0 <= d_fission i /\ 0 <= d_competition i.
Proof.
  intros N1 N2 N3 N4 H. destruct integrals_value as [[_ E]|[HS (i' & E & H1 & H2 & H3 & H4)]]; [congruence|].
  rewrite H in E. injection E as <-.
  pose proof (chi2_ok (d_elastic d)) as O1. pose proof (rule_of_ok (nonzero Gf) (d_fission d)) as O2.
  pose proof (rule_of_ok (nonzero Gx) (d_competition d)) as O3. fold rn in O1. fold rf in O2. fold rx in O3.
  assert (HD : forall a b c, In a rn -> In b rf -> In c rx ->
            0 < snd a /\ 0 < snd b /\ 0 < snd c /\ 0 < total_width Gn Gg Gf Gx (snd a) (snd b) (snd c)).
  { intros a b c Ha Hb Hc. destruct (O1 a Ha), (O2 b Hb), (O3 c Hc). repeat (split; [assumption|]).
    assert (HD : total_width Gn Gg Gf Gx (snd a) (snd b) (snd c) <> 0) by (intros E'; apply HS; exists a, b, c; auto).
    assert (0 <= total_width Gn Gg Gf Gx (snd a) (snd b) (snd c)); [|lra].
    unfold total_width. repeat apply Rplus_le_le_0_compat; try assumption; apply Rmult_le_pos; lra. }
  assert (HA : forall f, (forall a b c, 0 < a -> 0 < b -> 0 < c -> 0 < total_width Gn Gg Gf Gx a b c -> 0 <= f a b c) ->
            0 <= average3 rn rf rx f).
  { intros f Hf0. apply average3_nonneg; try assumption. intros a b c Ha Hb Hc.
    destruct (HD a b c Ha Hb Hc) as (? & ? & ? & ?). apply Hf0; assumption. }
  rewrite H1, H2, H3, H4. repeat split.
  - apply HA. intros. apply Rdiv_le_0_compat; [nra | assumption].
  - apply HA. intros. apply Rdiv_le_0_compat; [lra | assumption].
  - clearbody rf rx. destruct (nonzero Gf); [|lra]. apply HA. intros. apply Rdiv_le_0_compat; [nra | assumption].
  - clearbody rf rx. destruct (nonzero Gx); [|lra]. apply HA. intros. apply Rdiv_le_0_compat; [nra | assumption].
Qed.

Theorem integrals_finite : 0 <= Gn -> 0 <= Gg -> 0 <= Gf -> 0 <= Gx -> 0 < Gn + Gg ->
  exists i, calculateFluctuationIntegrals w d = Ok (Some i).
Proof.
  intros N1 N2 N3 N4 N. destruct integrals_value as [[HS _]|[_ (i & E & _)]]; [|exists i; exact E].
  exfalso. destruct HS as (a & b & c & Ha & Hb & Hc & E).
  destruct (chi2_ok _ a Ha) as [_ Pa]. destruct (rule_of_ok _ _ b Hb) as [_ Pb]. destruct (rule_of_ok _ _ c Hc) as [_ Pc].
  unfold total_width in E.
  assert (0 <= snd b * Gf) by (apply Rmult_le_pos; lra). assert (0 <= snd c * Gx) by (apply Rmult_le_pos; lra).
  destruct (Rle_lt_or_eq_dec 0 Gn N1); [assert (0 < snd a * Gn) by (apply Rmult_lt_0_compat; assumption); lra|].
  rewrite <- e in E. lra.
Qed.
End Value.

(** * Undefined behaviour *)
Definition in_unsigned (n : nat) : Prop := (Z.of_nat n < 4294967296)%Z.
Theorem integrals_bounds w d : in_unsigned (d_elastic d) -> in_unsigned (d_fission d) -> in_unsigned (d_competition d) ->
  is_ub (calculateFluctuationIntegrals w d) <->
  ~ ((1 <= d_elastic d <= 4)%nat /\ (d_fission w <> 0 -> (d_fission d <= 4)%nat) /\
     (d_competition w <> 0 -> (d_competition d <= 4)%nat)).
Proof.
  intros U1 U2 U3. split.
  - intros [why H] (H1 & H2 & H3).
    assert (Hf : nonzero (d_fission w) = true -> (d_fission d <= 4)%nat).
    { intros E. apply H2. intros E0. apply nonzero_0 in E0. congruence. }
    assert (Hx : nonzero (d_competition w) = true -> (d_competition d <= 4)%nat).
    { intros E. apply H3. intros E0. apply nonzero_0 in E0. congruence. }
    rewrite (integrals_parts w d H1 Hf Hx) in H. discriminate.
  - intros H. unfold calculateFluctuationIntegrals. cbv zeta. rewrite !index_used.
    assert (Hw0 : nth_error weights 0 = Some [1.1120413e-1; 3.3773418e-2; 3.3376214e-4; 1.7623788e-3]) by reflexivity.
    assert (Hten : ten = 0%nat :: seq 1 9) by reflexivity.
    destruct (le_lt_dec 1 (d_elastic d)) as [L1|L1]; [destruct (le_lt_dec (d_elastic d) 4) as [L2|L2]|].
    2,3: rewrite Hten; destruct (nonzero (d_fission w)), (nonzero (d_competition w)); cbn [foldM];
      rewrite (entry0_out _ _ _ Hw0) by (assumption || (left; exact L1) || (right; exact L2)); cbn [bind]; eexists; reflexivity.
    assert (Hn : (1 <= d_elastic d <= 4)%nat) by lia.
    assert (R0 : exists p, reads (d_elastic d) 0 p).
    { pose proof (reads_rule _ Hn) as Rn. rewrite Hten in Rn. inversion Rn; subst. eexists; eassumption. }
    destruct R0 as [p [Rw Rq]].
    assert (Hbad : (d_fission w <> 0 /\ (4 < d_fission d)%nat) \/ (d_competition w <> 0 /\ (4 < d_competition d)%nat)).
    { destruct (Req_EM_T (d_fission w) 0) as [Zf|Zf], (Req_EM_T (d_competition w) 0) as [Zx|Zx].
      - exfalso. apply H. split; [exact Hn|]. split; intros; contradiction.
      - right. split; [exact Zx|]. destruct (le_lt_dec (d_competition d) 4); [|assumption].
        exfalso. apply H. split; [exact Hn|]. split; intros; [contradiction | assumption].
      - left. split; [exact Zf|]. destruct (le_lt_dec (d_fission d) 4); [|assumption].
        exfalso. apply H. split; [exact Hn|]. split; intros; [assumption | contradiction].
      - destruct (le_lt_dec (d_fission d) 4); [|left; split; assumption]. right. split; [exact Zx|].
        destruct (le_lt_dec (d_competition d) 4); [|assumption].
        exfalso. apply H. split; [exact Hn|]. split; intros; assumption. }
    assert (Hused : forall n, (4 < n)%nat -> used n = n) by (intros n Hn4; destruct n; [lia | reflexivity]).
    assert (Hnz : forall x, x <> 0 -> nonzero x = true).
    { intros x Hx. destruct (nonzero x) eqn:E; [reflexivity|]. apply nonzero_0 in E. contradiction. }
    rewrite Hten. destruct Hbad as [[Z D]|[Z D]].
    + rewrite (Hnz _ Z), (Hused _ D). destruct (nonzero (d_competition w)); cbn [foldM]; rewrite Rw; cbn [bind];
        rewrite (entry0_out _ _ _ Hw0) by (assumption || (right; exact D)); cbn [bind]; eexists; reflexivity.
    + rewrite (Hnz _ Z), (Hused _ D). destruct (nonzero (d_fission w)); cbn [foldM]; rewrite Rw; cbn [bind].
      * assert (Ew : (exists x, entry weights 0 (unsigned_pred (used (d_fission d))) = Ok x) \/
                    (exists x, entry weights 0 (unsigned_pred (used (d_fission d))) = UB x)).
        { unfold entry, at_or_ub. rewrite Hw0. cbn [bind].
          destruct (_ <? 4)%Z; [destruct (nth_error _ (Z.to_nat _))|]; (left; eexists; reflexivity) || (right; eexists; reflexivity). }
        destruct Ew as [[x Ew]|[x Ew]]; rewrite Ew; cbn [bind]; [|eexists; reflexivity].
        rewrite (entry0_out _ _ _ Hw0) by (assumption || (right; exact D)); cbn [bind]; eexists; reflexivity.
      * rewrite (entry0_out _ _ _ Hw0) by (assumption || (right; exact D)); cbn [bind]; eexists; reflexivity.
Qed.
