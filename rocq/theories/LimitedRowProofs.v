(** The tables of an R-Matrix Limited file whose spin groups have different spins and parities. *)
From Coq Require Import String List ZArith Reals Bool Lra Lia Permutation Sorted.
From Verif Require Import Outcome ListFacts QuantumModel HardSphereModel KinematicsModel CoulombModel RMatrixModel ChannelModel BreitWignerModel GridSpec
  AssemblyModel AssemblySpec AssemblyProofs AssemblyTheorems EndfModel EndfSpec EndfProofs LimitedSpec LimitedProofs LimitedTheorems LimitedFileSpec LimitedFileProofs.
Import ListNotations.
Open Scope R_scope.

Lemma of_Jpi_app j a b : of_Jpi j (a ++ b) = of_Jpi j a ++ of_Jpi j b.
Proof. unfold of_Jpi. apply filter_app. Qed.
Lemma of_Jpi_all j l : (forall d, In d l -> Jpi_data d = j) -> of_Jpi j l = l.
Proof.
  intros H. induction l as [|d l IH]; [reflexivity|]. unfold of_Jpi in *. cbn [filter]. pose proof (H d (or_introl eq_refl)) as Q. unfold Jpi_data, Jpi_of in Q. rewrite <- Q at 1 2. cbn [fst snd].
  rewrite !Z.eqb_refl. cbn [andb]. rewrite IH; [reflexivity|]. intros d' Hd'. apply H. right. exact Hd'.
Qed.
Lemma of_Jpi_none j l : (forall d, In d l -> Jpi_data d <> j) -> of_Jpi j l = [].
Proof.
  intros H. destruct (of_Jpi j l) as [|d r] eqn:E; [reflexivity|]. exfalso. assert (X : In d (of_Jpi j l)) by (rewrite E; left; reflexivity). apply of_Jpi_In in X as [X Y]. exact (H d X Y).
Qed.
Lemma increasing_nodup l : increasing l -> NoDup l.
Proof.
  unfold increasing. intros S. induction S as [|a l S IH H]; constructor; [|exact IH]. intros Q. rewrite Forall_forall in H. specialize (H a Q). lra.
Qed.

Section Limited.
Variables (hbar epsilon0 : R) (cwf : nat -> R -> R -> outcome coulomb).
Variables (nm ec : R) (incident target : string) (products : Z -> outcome (string * string)).
Notation pen := (channelPenetrability hbar epsilon0 cwf).
Variables (f : endf_limited) (pairs : list particlePair) (inc : particlePair) (ds : list (list channel_data)) (out : list channel_data) (gs : list group).
Hypothesis A : assembled hbar epsilon0 cwf nm ec incident target products f pairs inc ds out gs.
Notation es := (el_pairs f).
Notation data := (concat ds).
Notation make g := (makeParticleChannelData hbar epsilon0 cwf inc pairs es (negb (el_IFG f =? 0)%Z) g).
Hypothesis Single : forall g, In g (el_groups f) -> alone (el_groups f) g.
Let Rd : reads hbar epsilon0 cwf nm ec incident target products f pairs inc ds := proj1 A.
Let Ln : length pairs = length es := L hbar epsilon0 cwf nm ec incident target products f pairs inc ds Rd.
Let Co : consolidated data out := out_consolidated hbar epsilon0 cwf nm ec incident target products f pairs inc ds Rd out (proj1 (proj2 A)).

Lemma own_state g dg d : make g = Ok (Some dg) -> In d dg -> Jpi_data d = st g.
Proof.
  intros E Hd. destruct (group_data hbar epsilon0 cwf inc pairs es Ln g _ dg E) as (Gy & _). destruct (Gy d Hd) as (i & G).
  exact (channel_state f pairs inc g i _ (go_channel _ _ _ _ _ _ _ _ _ _ G)).
Qed.
Lemma st_same g g' : st g = st g' -> same_state g g'.
Proof.
  unfold st. intros Q. injection Q as Q1 Q2. split; [exact Q1|]. exists (endfParity (eg_AJ g) (eg_PJ g)). split; [apply parity_spec|]. rewrite Q2. apply parity_spec.
Qed.
Lemma states_nodup : NoDup (map st (el_groups f)).
Proof.
  revert Single. generalize (el_groups f). intros l H. apply (proj2 (NoDup_nth_error _)). intros i k Hi Q. rewrite map_length in Hi. rewrite !nth_error_map in Q.
  destruct (nth_error l i) as [g|] eqn:Ei; [|apply nth_error_None in Ei; lia]. cbn [option_map] in Q. destruct (nth_error l k) as [g'|] eqn:Ek; [|discriminate]. cbn [option_map] in Q; assert (Q' : st g = st g') by congruence.
  destruct (H g (nth_error_In _ _ Ei)) as (a & b & El & N). pose proof (st_same g g' Q') as Sm.
  assert (At : forall q x, nth_error l q = Some x -> same_state g x -> q = length a).
  { intros q x Hq Sx. destruct (Nat.lt_trichotomy q (length a)) as [Lt|[Eq|Gt]]; [exfalso | exact Eq | exfalso]; apply (N x); try exact Sx; apply in_or_app; rewrite El in Hq.
    - left. rewrite nth_error_app1 in Hq by exact Lt. exact (nth_error_In _ _ Hq).
    - right. rewrite nth_error_app2 in Hq by lia. replace (q - length a)%nat with (S (q - length a - 1)) in Hq by lia. cbn [nth_error] in Hq. exact (nth_error_In _ _ Hq). }
  rewrite (At i g Ei (st_same g g eq_refl)), (At k g' Ek Sm). reflexivity.
Qed.
Lemma state_data g dg : In g (el_groups f) -> make g = Ok (Some dg) -> of_Jpi (st g) data = dg.
Proof.
  intros Hg E. destruct (Single g Hg) as (a & b & Eg & Al). pose proof (proj2 (proj2 Rd)) as F.
  rewrite Eg in F. apply Forall2_app_inv_l in F as (da & drest & Fa & Fr & Eds). inversion Fr as [|? dg' ? db E' Fb Q1 Q2]. subst drest. clear Q1. rewrite E in E'. injection E' as <-.
  rewrite Eds, concat_app. cbn [concat]. rewrite !of_Jpi_app.
  assert (None : forall gl dl, (forall g', In g' gl -> ~ same_state g g') -> Forall2 (fun g d => make g = Ok (Some d)) gl dl -> of_Jpi (st g) (concat dl) = []).
  { intros gl dl Hn Fl. apply of_Jpi_none. intros d Hd Q. apply in_concat in Hd as (dy & Hdy & Hd). destruct (Forall2_right _ _ _ _ Fl Hdy) as (g' & Hg' & Ey).
    rewrite (own_state g' dy d Ey Hd) in Q. exact (Hn g' Hg' (st_same g g' (eq_sym Q))). }
  rewrite (None a da (fun g' Hg' => Al g' (in_or_app _ _ _ (or_introl Hg'))) Fa), (None b db (fun g' Hg' => Al g' (in_or_app _ _ _ (or_intror Hg'))) Fb), app_nil_r.
  cbn [app]. apply of_Jpi_all. intros d Hd. exact (own_state g dg d E Hd).
Qed.

Section One.
Variables (g : endf_group) (dg : list channel_data).
Hypotheses (Hg : In g (el_groups f)) (E : make g = Ok (Some dg)) (N : NoDup (eg_ER g)).
Notation mine := (of_Jpi (st g) out).
Lemma swap_filter h (l : list channel_data) : filter h (of_Jpi (st g) l) = of_Jpi (st g) (filter h l).
Proof. unfold of_Jpi. rewrite !filter_filter. apply filter_ext. intros z. apply Bool.andb_comm. Qed.
Lemma mine_ordinary : filter (fun d => negb (cd_eliminated d)) mine = filter (fun d => negb (cd_eliminated d)) dg.
Proof. rewrite swap_filter, (co_ordinary _ _ Co), <- swap_filter, (state_data g dg Hg E). reflexivity. Qed.
Lemma mine_eliminated : (filter cd_eliminated mine = [] /\ filter cd_eliminated dg = []) \/
  exists d d', filter cd_eliminated mine = [d'] /\ filter cd_eliminated dg = [d] /\ entries d' = entries d /\ consistent d'.
Proof.
  destruct (group_data hbar epsilon0 cwf inc pairs es Ln g _ dg E) as (Gd & _ & One & _).
  pose proof (proj1 (one_eliminated_count _) (consolidated_one data out (st g) Co)) as One'.
  pose proof (co_entries _ _ Co (st g)) as Ce. unfold eliminated_data in Ce. rewrite <- !swap_filter in Ce. rewrite (state_data g dg Hg E) in Ce.
  destruct (filter cd_eliminated dg) as [|d [|? ?]] eqn:Ed; [| |cbn in One; lia]; destruct (filter cd_eliminated mine) as [|d' [|? ?]] eqn:Em; try (cbn in One'; lia).
  - left. auto.
  - exfalso. assert (Hd : In d' (filter cd_eliminated mine)) by (rewrite Em; left; reflexivity). apply filter_In in Hd as [Hd El]. apply of_Jpi_In in Hd as [Hd Hj].
    destruct (co_channels _ _ Co d') as (d2 & Hd2 & Ec); [apply filter_In; auto|]. apply filter_In in Hd2 as [Hd2 El2].
    assert (X : In d2 (filter cd_eliminated dg)). { apply filter_In. split; [|exact El2]. rewrite <- (state_data g dg Hg E). apply of_Jpi_In. split; [exact Hd2|]. unfold Jpi_data in *. rewrite <- Ec. exact Hj. }
    rewrite Ed in X. exact X.
  - exfalso. cbn in Ce. rewrite app_nil_r in Ce. assert (Hd : In d (filter cd_eliminated dg)) by (rewrite Ed; left; reflexivity). apply filter_In in Hd as [Hd El].
    destruct (Gd d Hd) as (i & G). exact (go_nonempty _ _ _ _ _ _ _ _ _ _ G El (eq_sym Ce)).
  - right. exists d, d'. cbn in Ce. rewrite !app_nil_r in Ce. split; [reflexivity|]. split; [reflexivity|]. split; [exact Ce|].
    assert (Hd : In d' (filter cd_eliminated mine)) by (rewrite Em; left; reflexivity). apply filter_In in Hd as [Hd _]. apply of_Jpi_In in Hd as [Hd _]. exact (co_consistent _ _ Co d' Hd).
Qed.
Lemma mine_channels : ordinary_channels mine = ordinary_channels dg.
Proof. unfold ordinary_channels. rewrite mine_ordinary. reflexivity. Qed.
Lemma look_entries d d' e : entries d = entries d' -> look d e = look d' e.
Proof. unfold look. intros ->. reflexivity. Qed.
Lemma mine_energies e : (exists d, In d mine /\ In e (cd_energies d)) <-> exists d, In d dg /\ In e (cd_energies d).
Proof.
  assert (Half : forall x y, filter (fun d => negb (cd_eliminated d)) x = filter (fun d => negb (cd_eliminated d)) y ->
    (forall d, In d x -> cd_eliminated d = true -> In e (cd_energies d) -> exists d', In d' y /\ In e (cd_energies d')) ->
    (exists d, In d x /\ In e (cd_energies d)) -> exists d, In d y /\ In e (cd_energies d)).
  { intros x y Q El (d & Hd & He). destruct (cd_eliminated d) eqn:F; [exact (El d Hd F He)|]. exists d. split; [|exact He].
    assert (X : In d (filter (fun d => negb (cd_eliminated d)) y)) by (rewrite <- Q; apply filter_In; rewrite F; auto). apply filter_In in X. apply X. }
  assert (C : forall d, In d dg -> consistent d) by (intros d Hd; exact (proj1 (data_good_consistent hbar epsilon0 cwf inc pairs es Ln g _ dg E N d Hd))).
  assert (M : forall d, In d mine -> cd_eliminated d = true -> In d (filter cd_eliminated mine)) by (intros; apply filter_In; auto).
  assert (G : forall d, In d dg -> cd_eliminated d = true -> In d (filter cd_eliminated dg)) by (intros; apply filter_In; auto).
  destruct mine_eliminated as [[E1 E2]|(d0 & d1 & E1 & E2 & En & C1)].
  - split; apply Half; try (rewrite mine_ordinary; reflexivity).
    + intros d Hd F _. specialize (M d Hd F). rewrite E1 in M. destruct M.
    + intros d Hd F _. specialize (G d Hd F). rewrite E2 in G. destruct G.
  - assert (I0 : In d0 dg) by (assert (X : In d0 (filter cd_eliminated dg)) by (rewrite E2; left; reflexivity); apply filter_In in X; apply X).
    assert (I1 : In d1 mine) by (assert (X : In d1 (filter cd_eliminated mine)) by (rewrite E1; left; reflexivity); apply filter_In in X; apply X).
    assert (Q : cd_energies d0 = cd_energies d1) by (rewrite <- (fst_entries d0 (C d0 I0)), <- (fst_entries d1 C1), En; reflexivity).
    split; apply Half; try (rewrite mine_ordinary; reflexivity).
    + intros d Hd F He. specialize (M d Hd F). rewrite E1 in M. destruct M as [<-|[]]. exists d0. split; [exact I0 | congruence].
    + intros d Hd F He. specialize (G d Hd F). rewrite E2 in G. destruct G as [<-|[]]. exists d1. split; [exact I1 | congruence].
Qed.
Lemma mine_row t r : faithful_table mine t -> In r (t_resonances t) -> r = row_of dg (rs_energy r).
Proof.
  intros [_ _ T] Hr. pose proof (T r Hr) as Row. destruct (row_columns _ _ _ _ Row) as (Len & Cols & Elim & None). destruct r as [e ws x]. cbn [rs_energy rs_widths rs_eliminated] in *.
  assert (Ok : forall d, In d dg -> consistent d /\ distinct_energies d) by exact (data_good_consistent hbar epsilon0 cwf inc pairs es Ln g _ dg E N).
  unfold row_of. rewrite mine_ordinary in Cols. f_equal.
  - unfold ordinary_channels in Len. rewrite mine_ordinary, map_length in Len. clear -Len Cols Ok.
    assert (Ok' : forall d, In d (filter (fun d => negb (cd_eliminated d)) dg) -> consistent d /\ distinct_energies d) by (intros d Hd; apply Ok; apply filter_In in Hd; apply Hd).
    revert Len Cols Ok'. generalize (filter (fun d => negb (cd_eliminated d)) dg). intros l. revert ws. induction l as [|d l IH]; intros [|w ws] Len Cols Ok'; cbn in Len; try discriminate; [reflexivity|].
    cbn [map]. f_equal.
    + destruct (Cols 0%nat d eq_refl) as (w' & Q & W). injection Q as <-. destruct (Ok' d (or_introl eq_refl)) as [C D]. exact (width_at_unique d e w _ C W (look_width d e C D)).
    + apply IH; [congruence | intros k d' Hd'; exact (Cols (S k) d' Hd') | intros d' Hd'; apply Ok'; right; exact Hd'].
  - destruct mine_eliminated as [[E1 E2]|(d & d' & E1 & E2 & En & C1)].
    + rewrite E2. apply None. intros d Hd. unfold ordinary. destruct (cd_eliminated d) eqn:Q; [|reflexivity]. assert (X : In d (filter cd_eliminated mine)) by (apply filter_In; auto). rewrite E1 in X. destruct X.
    + rewrite E2. assert (X : In d' (filter cd_eliminated mine)) by (rewrite E1; left; reflexivity). apply filter_In in X as [X1 X2]. pose proof (Elim d' X1 X2) as W.
      assert (Y : In d (filter cd_eliminated dg)) by (rewrite E2; left; reflexivity). apply filter_In in Y as [Y1 _]. destruct (Ok d Y1) as [C D].
      rewrite <- (look_entries d' d e En). apply (width_at_unique d' e x _ C1 W). apply look_width; [exact C1|].
      unfold distinct_energies in *. rewrite <- (fst_entries d' C1), En, (fst_entries d C). exact D.
Qed.
(** Rows that are not in the table have no widths *)
Lemma absent_row t e : faithful_table mine t -> ~ In e (map rs_energy (t_resonances t)) -> forall d, In d dg -> look d e = 0.
Proof.
  intros [_ T _] Ne d Hd. destruct (data_good_consistent hbar epsilon0 cwf inc pairs es Ln g _ dg E N d Hd) as [C D].
  apply (width_at_unique d e _ _ C (look_width d e C D)). right. split; [|reflexivity]. intros He. apply Ne. apply T. apply mine_energies. exists d. auto.
Qed.
Lemma present_rows t e : faithful_table mine t -> In e (map rs_energy (t_resonances t)) -> eg_NRS g <> 0%nat /\ In e (map fst (combine (eg_ER g) (eg_GAM g))).
Proof.
  intros [_ T _] He. apply T in He. apply mine_energies in He as (d & Hd & He). exact (energies_listed hbar epsilon0 cwf inc pairs es Ln g _ dg E d e Hd He).
Qed.
Lemma listed_nodup : NoDup (map fst (combine (eg_ER g) (eg_GAM g))).
Proof.
  clear -N. revert N. generalize (eg_ER g), (eg_GAM g). intros l m Nd. pose proof (nodup_filter_combine (fun _ => true) l m Nd) as X. replace (filter (fun _ => true) (combine l m)) with (combine l m) in X; [exact X|]. clear. induction (combine l m) as [|x r IH]; [reflexivity|]. cbn. rewrite <- IH. reflexivity.
Qed.
Lemma mine_empty : mine = [] -> dg = [].
Proof.
  intros Q. pose proof mine_ordinary as X. pose proof mine_eliminated as Y. rewrite Q in X, Y. destruct Y as [[_ E2]|(d0 & d' & E1 & _)]; [|discriminate E1].
  clear -X E2. destruct dg as [|d l]; [reflexivity|]. cbn in X, E2. destruct (cd_eliminated d); discriminate.
Qed.
End One.
End Limited.
