(** What the legacy compound systems accept, which keys they fill, and the tables of the
    unresolved resonances. *)
From Coq Require Import String List ZArith Reals Bool Lia Lra.
From Verif Require Import Outcome QuantumModel SpinFactorModel HardSphereModel KinematicsModel CoulombModel Cplx RMatrixModel ChannelModel BreitWignerModel LegacyModel ListFacts QuantumProofs LegacyProofs LegacySystemProofs UnresolvedModel.
Import ListNotations.
Open Scope R_scope.

(** * Verification *)
Definition lJ_of (q : qnum) : nat * Z := (ql q, qJ q).
Lemma same_lJ_spec a b : same_lJ a b = true <-> lJ_of a = lJ_of b.
Proof.
  unfold same_lJ, lJ_of. rewrite andb_true_iff, Nat.eqb_eq, Z.eqb_eq. split; [intros [-> ->]; reflexivity | intros H; injection H as -> ->; auto].
Qed.
Lemma lJ_dec (a b : nat * Z) : {a = b} + {a <> b}.
Proof. decide equality; [apply Z.eq_dec | apply Nat.eq_dec]. Qed.
Section Verify.
Context {G : Type} (num : G -> qnum).
Let counted (gs : list G) (g : G) : nat := count (fun h => same_lJ (num h) (num g)) gs.
Lemma counted_in gs g : In g gs -> (1 <= counted gs g)%nat.
Proof.
  unfold counted. induction gs as [|x gs IH]; [intros [] |]. cbn [count]. intros [->|H]; [|specialize (IH H); lia].
  replace (same_lJ (num g) (num g)) with true by (symmetry; apply same_lJ_spec; reflexivity). lia.
Qed.
Lemma counted_out gs g : ~ In (lJ_of (num g)) (map (fun h => lJ_of (num h)) gs) -> counted gs g = 0%nat.
Proof.
  unfold counted. induction gs as [|x gs IH]; [reflexivity|]. cbn [count map]. intros N. destruct (same_lJ (num x) (num g)) eqn:E.
  - apply same_lJ_spec in E. destruct N. left. exact E.
  - apply IH. intros H. apply N. right. exact H.
Qed.
Lemma counted_some gs g : In (lJ_of (num g)) (map (fun h => lJ_of (num h)) gs) -> (1 <= counted gs g)%nat.
Proof.
  unfold counted. induction gs as [|x gs IH]; [intros []|]. cbn [count map]. intros [E|H].
  - replace (same_lJ (num x) (num g)) with true by (symmetry; apply same_lJ_spec; exact E). lia.
  - specialize (IH H). lia.
Qed.
Lemma counted_nodup gs : NoDup (map (fun g => lJ_of (num g)) gs) <-> forall g, In g gs -> (counted gs g <= 1)%nat.
Proof.
  induction gs as [|x gs IH]; [split; [intros _ g [] | constructor]|]. cbn [map]. unfold counted in *. cbn [count]. split.
  - intros D g Hg. apply NoDup_cons_iff in D as [N D]. destruct Hg as [->|Hg].
    + pose proof (counted_out gs g N) as E. unfold counted in E. rewrite E. destruct (same_lJ (num g) (num g)); lia.
    + destruct (same_lJ (num x) (num g)) eqn:E; [|specialize (proj1 IH D g Hg); lia].
      destruct N. apply same_lJ_spec in E. rewrite E. exact (in_map (fun g => lJ_of (num g)) gs g Hg).
  - intros H. constructor.
    + intros I. specialize (H x (or_introl eq_refl)). pose proof (counted_some gs x I) as C. unfold counted in C.
      replace (same_lJ (num x) (num x)) with true in H by (symmetry; apply same_lJ_spec; reflexivity). lia.
    + apply IH. intros g Hg. specialize (H g (or_intror Hg)). lia.
Qed.
Lemma verify_checks gs l : foldM (fun _ g => check (negb (Nat.ltb 1 (counted gs g)))) l tt = Ok tt /\ (forall g, In g l -> (counted gs g <= 1)%nat) \/
  foldM (fun _ g => check (negb (Nat.ltb 1 (counted gs g)))) l tt = std_exception /\ ~ (forall g, In g l -> (counted gs g <= 1)%nat).
Proof.
  induction l as [|g l IH]; [left; split; [reflexivity | intros g []]|]. cbn [foldM]. destruct (Nat.ltb 1 (counted gs g)) eqn:E.
  - right. split; [reflexivity|]. intros H. specialize (H g (or_introl eq_refl)). apply Nat.ltb_lt in E. lia.
  - cbn [negb check bind]. apply Nat.ltb_ge in E. destruct IH as [[H1 H2]|[H1 H2]]; [left | right]; (split; [exact H1|]).
    + intros h [<-|Hh]; [exact E | apply H2; exact Hh].
    + intros H. apply H2. intros h Hh. apply H. right. exact Hh.
Qed.
Lemma verify_spec gs : let o := (do _ <- check (negb (Nat.eqb (length gs) 0)) ; foldM (fun _ g => check (negb (Nat.ltb 1 (counted gs g)))) gs tt) in
  (o = Ok tt /\ gs <> [] /\ NoDup (map (fun g => lJ_of (num g)) gs)) \/ (o = std_exception /\ ~ (gs <> [] /\ NoDup (map (fun g => lJ_of (num g)) gs))).
Proof.
  cbv zeta. destruct gs as [|g gs]; [right; split; [reflexivity | intros [H _]; apply H; reflexivity]|]. cbn [length Nat.eqb negb check bind].
  destruct (verify_checks (g :: gs) (g :: gs)) as [[H1 H2]|[H1 H2]]; [left | right]; (split; [exact H1|]).
  - split; [discriminate | apply counted_nodup; exact H2].
  - intros [_ H]. apply H2, counted_nodup, H.
Qed.
End Verify.
Theorem legacy_system_accepts gs : let ok := gs <> [] /\ NoDup (map (fun g => lJ_of (c_numbers (lg_channel g))) gs) in
  (ok /\ makeLegacySystem gs = Ok (mkLegacySystem gs (list_max (map (fun g => ql (c_numbers (lg_channel g))) gs)))) \/
  (~ ok /\ makeLegacySystem gs = Throw (RuntimeError "std::exception")).
Proof.
  cbv zeta. unfold makeLegacySystem, legacyVerify. destruct (verify_spec (fun g => c_numbers (lg_channel g)) gs) as [(E & H1 & H2)|[E H]]; cbv zeta in E; rewrite E; cbn [bind].
  - left. split; [auto|]. do 2 f_equal. unfold getLMax, list_max.
    assert (G : forall l m, fold_left (fun m g => Nat.max m (ql (c_numbers (lg_channel g)))) l m = Nat.max m (fold_right Nat.max 0%nat (map (fun g => ql (c_numbers (lg_channel g))) l))).
    { induction l as [|x l IH]; intros m; cbn [fold_left fold_right map]; [lia|]. rewrite IH. lia. }
    rewrite G. reflexivity.
  - right. split; [exact H | reflexivity].
Qed.
Theorem unresolved_system_accepts gs : let ok := gs <> [] /\ NoDup (map (fun g => lJ_of (c_numbers (ug_channel g))) gs) in
  (ok /\ makeUnresolvedSystem gs = Ok (mkUSystem gs (list_max (map (fun g => ql (c_numbers (ug_channel g))) gs)))) \/
  (~ ok /\ makeUnresolvedSystem gs = Throw (RuntimeError "std::exception")).
Proof.
  cbv zeta. unfold makeUnresolvedSystem, unresolvedVerify. destruct (verify_spec (fun g => c_numbers (ug_channel g)) gs) as [(E & H1 & H2)|[E H]]; cbv zeta in E; rewrite E; cbn [bind].
  - left. split; [auto|]. do 2 f_equal. unfold unresolvedLMax, list_max.
    assert (G : forall l m, fold_left (fun m g => Nat.max m (ql (c_numbers (ug_channel g)))) l m = Nat.max m (fold_right Nat.max 0%nat (map (fun g => ql (c_numbers (ug_channel g))) l))).
    { induction l as [|x l IH]; intros m; cbn [fold_left fold_right map]; [lia|]. rewrite IH. lia. }
    rewrite G. reflexivity.
  - right. split; [exact H | reflexivity].
Qed.

(** * Keys *)
Definition has (m : legacy_map) (k : legacy_key) : Prop := m k <> None.
Lemma has_accumulate m k x k' : has (accumulateAt m k x) k' <-> k' = k \/ has m k'.
Proof.
  unfold has, accumulateAt. destruct (legacy_key_eqb k' k) eqn:E.
  - apply key_eqb_eq in E as ->. split; [auto | discriminate].
  - split; [auto|]. intros [->|H]; [rewrite key_eqb_refl in E; discriminate | exact H].
Qed.
Section Keys.
Variables (hbar epsilon0 : R) (cwf : nat -> R -> R -> outcome coulomb).
Lemma factor_nonzero c e x : spinFactor c <> 0 -> channelFactor hbar c e = Some x -> x <> 0.
Proof.
  unfold channelFactor. intros S. destruct (channelWaveNumber hbar c e) as [k|]; [|discriminate]. unfold fdiv.
  destruct (Req_EM_T (k * k) 0) as [|N]; [discriminate|]. cbn [option_map]. intros H. injection H as <-.
  apply Rmult_integral_contrapositive_currified; [|exact S]. apply Rmult_integral_contrapositive_currified; [unfold pi_value; lra | apply Rinv_neq_0_compat, N].
Qed.
(** Elastic and capture are always there, fission only when there is some *)
Definition filled (c : channel) (m m' : legacy_map) : Prop := forall k,
  has m' k <-> has m k \/ k = legacyKey c "elastic" \/ k = legacyKey c "capture" \/
    (k = legacyKey c "fission" /\ mval m' k <> mval m k).
Lemma keys_differ c a b : a <> b -> legacyKey c a <> legacyKey c b.
Proof. unfold legacyKey. intros N H. injection H as H. contradiction. Qed.
Theorem slbw_keys g e m m' : spinFactor (lg_channel g) <> 0 -> legacySLBW hbar epsilon0 cwf g e m = Ok (Some m') -> filled (lg_channel g) m m'.
Proof.
  intros S H. unfold legacySLBW in H. apply bind_Ok in H as (op & _ & H). apply bind_Ok in H as (ox & _ & H).
  destruct op as [phi|]; [|discriminate]. destruct (channelFactor hbar (lg_channel g) e) as [x|] eqn:F; [|discriminate].
  destruct ox as [xs|]; [|discriminate]. destruct (all_finite _) as [ys|]; [|discriminate]. destruct (taccumulate ys (0, 0, 0)) as [[el ca] f].
  pose proof (factor_nonzero _ _ _ S F) as N. injection H as <-. intros k. set (c := lg_channel g).
  destruct (Req_EM_T f 0) as [->|Nf].
  - rewrite !has_accumulate. split; [tauto|]. intros [H|[H|[H|[-> H]]]]; try tauto. destruct H.
    rewrite !mval_other by (apply keys_differ; discriminate). reflexivity.
  - rewrite !has_accumulate. split; [|tauto]. intros [->|H]; [|tauto]. right. right. right. split; [reflexivity|].
    rewrite mval_at, !mval_other by (apply keys_differ; discriminate). intros E. assert (Z : x * f = 0) by lra. apply Rmult_integral in Z. tauto.
Qed.
Theorem mlbw_keys g e m m' : spinFactor (lg_channel g) <> 0 -> legacyMLBW hbar epsilon0 cwf g e m = Ok (Some m') -> filled (lg_channel g) m m'.
Proof.
  intros S H. unfold legacyMLBW in H. apply bind_Ok in H as (om & Hm & H). apply bind_Ok in H as (ox & _ & H). destruct om as [m1|]; [|discriminate].
  pose proof (slbw_keys g e m m1 S Hm) as K.
  destruct (channelFactor hbar (lg_channel g) e) as [x|]; [|discriminate]. destruct ox as [xs|]; [|discriminate]. destruct (outer_loop [] xs 0) as [t|]; [|discriminate].
  injection H as <-. intros k. specialize (K k). rewrite has_accumulate. set (c := lg_channel g) in *. split.
  - intros [->|H]; [tauto|]. apply K in H as [H|[H|[H|[-> H]]]]; try tauto. right. right. right. split; [reflexivity|]. rewrite mval_other by (apply keys_differ; discriminate). exact H.
  - intros [H|[H|[H|[-> H]]]]; try tauto. right. apply K. right. right. right. split; [reflexivity|]. rewrite mval_other in H by (apply keys_differ; discriminate). exact H.
Qed.
End Keys.

(** * The tables of the unresolved resonances *)
(** The rows that the file gives: those of the energies of the J value itself, the same numbers at
    the first and the last of the given energies, or the same numbers with a fission width at each *)
Inductive rows (energies : list R) : unresolved_parameters -> list unresolved_resonance -> Prop :=
| rows_independent d n g f x e0 rest : energies = e0 :: rest ->
    rows energies (EnergyIndependent d n g f x) [mkUnresolved e0 d n g f x; mkUnresolved (last energies e0) d n g f x]
| rows_fission d n g fs x rs : length rs = Nat.min (length energies) (length fs) ->
    (forall i r, nth_error rs i = Some r -> exists e f, nth_error energies i = Some e /\ nth_error fs i = Some f /\ r = mkUnresolved e d n g f x) ->
    rows energies (FissionWidths d n g fs x) rs
| rows_dependent es ds ns gs fs xs rs :
    length rs = fold_right Nat.min (length es) [length ds; length ns; length gs; length fs; length xs] ->
    (forall i r, nth_error rs i = Some r -> exists e d n g f x, nth_error es i = Some e /\ nth_error ds i = Some d /\
      nth_error ns i = Some n /\ nth_error gs i = Some g /\ nth_error fs i = Some f /\ nth_error xs i = Some x /\ r = mkUnresolved e d n g f x) ->
    rows energies (EnergyDependent es ds ns gs fs xs) rs.
Lemma zip_length es ds ns gs fs xs : length (zip_resonances es ds ns gs fs xs) = fold_right Nat.min (length es) [length ds; length ns; length gs; length fs; length xs].
Proof.
  revert ds ns gs fs xs. induction es as [|e es IH]; intros ds ns gs fs xs; [cbn; lia|].
  destruct ds as [|d ds]; [cbn; lia|]. destruct ns as [|n ns]; [cbn; lia|]. destruct gs as [|g gs]; [cbn; lia|]. destruct fs as [|f fs]; [cbn; lia|]. destruct xs as [|x xs]; [cbn; lia|].
  cbn [zip_resonances length fold_right]. rewrite IH. cbn [fold_right]. lia.
Qed.
Lemma zip_nth es ds ns gs fs xs i r : nth_error (zip_resonances es ds ns gs fs xs) i = Some r ->
  exists e d n g f x, nth_error es i = Some e /\ nth_error ds i = Some d /\
      nth_error ns i = Some n /\ nth_error gs i = Some g /\ nth_error fs i = Some f /\ nth_error xs i = Some x /\ r = mkUnresolved e d n g f x.
Proof.
  revert ds ns gs fs xs i. induction es as [|e es IH]; intros ds ns gs fs xs i; [destruct i; discriminate|].
  destruct ds as [|d ds]; [destruct i; discriminate|]. destruct ns as [|n ns]; [destruct i; discriminate|]. destruct gs as [|g gs]; [destruct i; discriminate|].
  destruct fs as [|f fs]; [destruct i; discriminate|]. destruct xs as [|x xs]; [destruct i; discriminate|]. destruct i as [|i]; cbn [zip_resonances nth_error].
  - intros H. injection H as <-. exists e, d, n, g, f, x. repeat split.
  - apply IH.
Qed.
Lemma nth_error_repeat {X} (a b : X) n i : nth_error (repeat a n) i = Some b -> b = a.
Proof. intros H. apply nth_error_In, repeat_spec in H. exact H. Qed.
(** The degrees of freedom are those of the file without their fraction *)
Definition degree (x : R) (n : nat) : Prop := INR n <= x < INR n + 1 \/ (-1 < x < 0 /\ (n = 0)%nat).
Lemma to_unsigned_degree x n : to_unsigned x = Ok n -> degree x n.
Proof.
  unfold to_unsigned, degree. destruct (Rlt_dec (-1) x) as [H1|]; [|discriminate]. destruct (Rlt_dec x 4294967296) as [H2|]; [|discriminate]. intros H. injection H as <-.
  destruct (base_Int_part x) as [L U]. destruct (Z_lt_le_dec (Int_part x) 0) as [N|P].
  - right. pose proof (IZR_le (Int_part x) (-1) ltac:(lia)). split; [lra|]. destruct (Int_part x); [lia | lia | reflexivity].
  - left. rewrite INR_IZR_INZ, Z2Nat.id by lia. lra.
Qed.
Theorem unresolved_table energies j t : makeLegacyUnresolvedTable energies j = Ok t ->
  rows energies (uj_parameters j) (ut_resonances t) /\ (2 <= length (ut_resonances t))%nat /\
  degree (uj_AMUN j) (d_elastic (ut_degrees t)) /\ degree (uj_AMUG j) (d_capture (ut_degrees t)) /\
  degree (uj_AMUF j) (d_fission (ut_degrees t)) /\ degree (uj_AMUX j) (d_competition (ut_degrees t)).
Proof.
  unfold makeLegacyUnresolvedTable. intros H. apply bind_Ok in H as (rs & Hr & H).
  apply bind_Ok in H as (n & Hn & H). apply bind_Ok in H as (g & Hg & H). apply bind_Ok in H as (f & Hf & H). apply bind_Ok in H as (x & Hx & H).
  apply to_unsigned_degree in Hn, Hg, Hf, Hx. unfold makeUnresolvedTable in H. 
  apply bind_Ok in H as (? & H0 & H). do 4 (apply bind_Ok in H as (? & _ & H)). injection H as <-. cbn [ut_resonances ut_degrees d_elastic d_capture d_fission d_competition].
  split; [|split; [unfold check in H0; destruct (Nat.ltb (length rs) 2) eqn:E; [discriminate | apply Nat.ltb_ge in E; exact E] | auto]].
  destruct (uj_parameters j) as [d n' g' f' x'|d n' g' fs x'|es ds ns gs fs xs].
  - destruct energies as [|e0 rest]; [discriminate|]. injection Hr as <-. exact (rows_independent (e0 :: rest) d n' g' f' x' e0 rest eq_refl).
  - injection Hr as <-. constructor.
    + rewrite zip_length. cbn [fold_right]. rewrite !repeat_length. lia.
    + intros i r Hi. apply zip_nth in Hi as (e & d' & n1 & g1 & f1 & y1 & He & Hd & Hn' & Hg' & Hf' & Hx' & ->).
      apply nth_error_repeat in Hd, Hn', Hg', Hx'. subst. exists e, f1. repeat split; assumption.
  - injection Hr as <-. constructor; [apply zip_length | apply zip_nth].
Qed.
