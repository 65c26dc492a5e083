(** Consolidation, spin groups and compound systems. *)
From Coq Require Import String List ListDec ZArith Reals Bool Sorted Lra Lia Permutation.
From Verif Require Import Outcome QuantumModel KinematicsModel RMatrixModel ChannelModel SpinGroupModel SpinGroupSpec SpinGroupProofs SpinGroupTheorems BreitWignerModel ListFacts
  GridSpec AssemblyModel AssemblySpec AssemblyProofs.
Import ListNotations.
Open Scope R_scope.

(** * J and parity *)
Lemma Jpi_ltb_spec a b : Jpi_ltb a b = true <-> Jpi_lt a b.
Proof.
  unfold Jpi_ltb, Jpi_lt. rewrite orb_true_iff, andb_true_iff, !Z.ltb_lt, Z.eqb_eq. reflexivity.
Qed.
Lemma Jpi_eqb_spec a b : Jpi_eqb a b = true <-> a = b.
Proof.
  unfold Jpi_eqb. rewrite andb_true_iff, !Z.eqb_eq. destruct a, b; cbn. split; [intros [-> ->]; reflexivity | intros E; injection E as -> ->; auto].
Qed.
Lemma Jpi_dec (a b : Jpi) : {a = b} + {a <> b}.
Proof. decide equality; apply Z.eq_dec. Qed.
Lemma Jpi_total a b : Jpi_lt a b \/ a = b \/ Jpi_lt b a.
Proof. unfold Jpi_lt. destruct a as [a1 a2], b as [b1 b2]; cbn. destruct (Ztrichotomy a1 b1) as [?|[->|?]]; [lia| |lia].
  destruct (Ztrichotomy a2 b2) as [?|[->|?]]; [lia | auto | lia].
Qed.
Lemma Jpi_lt_irrefl a : ~ Jpi_lt a a.
Proof. unfold Jpi_lt. lia. Qed.
Lemma insertJpi_In j l x : In x (insertJpi j l) <-> x = j \/ In x l.
Proof.
  induction l as [|y l IH]; cbn [insertJpi]; [cbn; intuition|]. destruct (Jpi_ltb j y); [cbn; intuition|].
  destruct (Jpi_eqb j y) eqn:E; [apply Jpi_eqb_spec in E; subst; cbn; intuition|]. cbn [In]. rewrite IH. intuition.
Qed.
Lemma insertJpi_sorted j l : StronglySorted Jpi_lt l -> StronglySorted Jpi_lt (insertJpi j l).
Proof.
  induction 1 as [|y l H IH F]; cbn [insertJpi]; [repeat constructor|]. rewrite Forall_forall in F.
  destruct (Jpi_ltb j y) eqn:L.
  - apply Jpi_ltb_spec in L. constructor; [constructor; [exact H | apply Forall_forall; exact F]|]. constructor; [exact L|].
    apply Forall_forall. intros x Hx. specialize (F x Hx). unfold Jpi_lt in *. lia.
  - destruct (Jpi_eqb j y) eqn:E; [constructor; [exact H | apply Forall_forall; exact F]|]. constructor; [exact IH|].
    apply Forall_forall. intros x Hx. apply insertJpi_In in Hx as [-> | Hx]; [|exact (F x Hx)].
    destruct (Jpi_total j y) as [Q|[Q|Q]]; [apply Jpi_ltb_spec in Q; congruence | apply Jpi_eqb_spec in Q; congruence | exact Q].
Qed.
Lemma sortUniqueJpi_spec l : StronglySorted Jpi_lt (sortUniqueJpi l) /\ forall x, In x (sortUniqueJpi l) <-> In x l.
Proof.
  induction l as [|y l [IH1 IH2]]; cbn [sortUniqueJpi fold_right]; [split; [constructor | intros x; reflexivity]|].
  fold (sortUniqueJpi l). split; [apply insertJpi_sorted; exact IH1|]. intros x. rewrite insertJpi_In, IH2. cbn. intuition.
Qed.
Lemma sorted_nodup l : StronglySorted Jpi_lt l -> NoDup l.
Proof.
  induction 1 as [|y l H IH F]; constructor; [|exact IH]. intros Hy. rewrite Forall_forall in F. exact (Jpi_lt_irrefl y (F y Hy)).
Qed.
Lemma sorted_unique l m : StronglySorted Jpi_lt l -> StronglySorted Jpi_lt m -> (forall x, In x l <-> In x m) -> l = m.
Proof.
  intros H. revert m. induction H as [|y l H IH F]; intros [|z m] M E.
  - reflexivity.
  - destruct (proj2 (E z) (or_introl eq_refl)).
  - destruct (proj1 (E y) (or_introl eq_refl)).
  - inversion M as [|? ? M1 M2]; subst. rewrite Forall_forall in F, M2.
    assert (y = z) as ->.
    { destruct (proj1 (E y) (or_introl eq_refl)) as [?|A]; [congruence|]. destruct (proj2 (E z) (or_introl eq_refl)) as [?|B]; [assumption|].
      specialize (F z B). specialize (M2 y A). unfold Jpi_lt in *. lia. }
    f_equal. apply IH; [exact M1|]. intros x. split; intros Hx.
    + destruct (proj1 (E x) (or_intror Hx)) as [<-|?]; [|assumption]. destruct (Jpi_lt_irrefl z (F z Hx)).
    + destruct (proj2 (E x) (or_intror Hx)) as [<-|?]; [|assumption]. destruct (Jpi_lt_irrefl z (M2 z Hx)).
Qed.

Definition Jpi_data (d : channel_data) : Jpi := Jpi_of (c_numbers (cd_channel d)).
Lemma getJpi_spec d : getJpi d = Jpi_data d.
Proof. reflexivity. Qed.
Lemma hasJpi_spec j d : hasJpi j d = true <-> Jpi_data d = j.
Proof. unfold hasJpi. rewrite Jpi_eqb_spec, getJpi_spec. reflexivity. Qed.
Lemma filter_hasJpi j data : filter (hasJpi j) data = of_Jpi j data.
Proof. reflexivity. Qed.
Lemma of_Jpi_In j data d : In d (of_Jpi j data) <-> In d data /\ Jpi_data d = j.
Proof. rewrite <- filter_hasJpi, filter_In, hasJpi_spec. reflexivity. Qed.

(** * Consolidation *)
Lemma entries_app (es es' ws ws' : list R) : length es = length ws -> combine (es ++ es') (ws ++ ws') = combine es ws ++ combine es' ws'.
Proof.
  revert ws. induction es as [|e es IH]; intros [|w ws] H; cbn in *; try reflexivity; try discriminate. f_equal. apply IH. lia.
Qed.
Lemma concat_entries l : (forall d, In d l -> consistent d) ->
  combine (concat (map cd_energies l)) (concat (map cd_widths l)) = concat (map entries l) /\
  length (concat (map cd_energies l)) = length (concat (map cd_widths l)).
Proof.
  induction l as [|d l IH]; intros C; cbn [map concat]; [split; reflexivity|].
  destruct IH as [I1 I2]; [intros x Hx; apply C; right; exact Hx|]. pose proof (C d (or_introl eq_refl)) as Cd. unfold consistent in Cd.
  split; [rewrite entries_app by exact Cd; rewrite I1; reflexivity | rewrite !app_length; lia].
Qed.
Lemma consolidateOne_ok l : l <> [] -> (forall d, In d l -> consistent d /\ cd_eliminated d = true) ->
  exists d, consolidateOne l = Ok d /\ consistent d /\ cd_eliminated d = true /\ entries d = concat (map entries l) /\
    exists d', In d' l /\ cd_channel d = cd_channel d'.
Proof.
  intros N C. destruct (concat_entries l) as [E L]; [intros d Hd; apply C, Hd|]. destruct l as [|d [|d' l]]; [congruence| |].
  - exists d. cbn [consolidateOne]. destruct (C d (or_introl eq_refl)) as [C1 C2]. cbn [map concat]. rewrite app_nil_r.
    repeat split; try assumption. exists d. split; [left|]; reflexivity.
  - cbn [consolidateOne]. unfold makeChannelData. rewrite L, Nat.eqb_refl. cbn [check bind]. eexists. split; [reflexivity|].
    split; [exact L|]. split; [reflexivity|]. split; [exact E|]. exists d. split; [left|]; reflexivity.
Qed.

Lemma filter_filter {A} (f g : A -> bool) l : filter f (filter g l) = filter (fun x => g x && f x) l.
Proof.
  induction l as [|x l IH]; cbn [filter]; [reflexivity|]. destruct (g x) eqn:G; cbn [filter andb]; [|exact IH].
  destruct (f x) eqn:F; rewrite IH; reflexivity.
Qed.
Lemma filter_no {A} (f : A -> bool) l : (forall x, In x l -> f x = false) -> filter f l = [].
Proof.
  induction l as [|x l IH]; intros H; cbn [filter]; [reflexivity|]. rewrite (H x (or_introl eq_refl)). apply IH. intros y Hy. apply H. right. exact Hy.
Qed.
Lemma filter_all {A} (f : A -> bool) l : (forall x, In x l -> f x = true) -> filter f l = l.
Proof.
  induction l as [|x l IH]; intros H; cbn [filter]; [reflexivity|]. rewrite (H x (or_introl eq_refl)). f_equal. apply IH. intros y Hy. apply H. right. exact Hy.
Qed.
(** In a list with distinct keys, a key selects at most one element *)
Lemma filter_key {A} (key : A -> Jpi) l j : NoDup (map key l) ->
  (exists x, In x l /\ key x = j /\ filter (fun x => Jpi_eqb (key x) j) l = [x]) \/
  ((forall x, In x l -> key x <> j) /\ filter (fun x => Jpi_eqb (key x) j) l = []).
Proof.
  induction l as [|x l IH]; cbn [map filter]; intros H; [right; split; [intros x []|reflexivity]|]. inversion H as [|? ? H1 H2]; subst.
  destruct (Jpi_eqb (key x) j) eqn:E.
  - apply Jpi_eqb_spec in E. left. exists x. split; [left; reflexivity|]. split; [exact E|]. f_equal. apply filter_no.
    intros y Hy. destruct (Jpi_eqb (key y) j) eqn:F; [|reflexivity]. apply Jpi_eqb_spec in F. exfalso. apply H1. rewrite E, <- F. apply in_map. exact Hy.
  - destruct (IH H2) as [(y & A1 & A2 & A3)|[A1 A2]]; [left; exists y; split; [right; exact A1|]; split; assumption | right]. split; [|exact A2].
    intros y [<-|Hy]; [|exact (A1 y Hy)]. intros Q. apply Jpi_eqb_spec in Q. congruence.
Qed.

Lemma consolidate_inner (sel : Jpi -> list channel_data) js : NoDup js ->
  (forall j, In j js -> sel j <> [] /\ forall d, In d (sel j) -> consistent d /\ cd_eliminated d = true /\ Jpi_data d = j) ->
  exists es, mapM (fun j => consolidateOne (sel j)) js = Ok es /\ map Jpi_data es = js /\
    forall d, In d es -> consistent d /\ cd_eliminated d = true /\ entries d = concat (map entries (sel (Jpi_data d))) /\
      exists d', In d' (sel (Jpi_data d)) /\ cd_channel d = cd_channel d'.
Proof.
  induction js as [|j js IH]; intros N H.
  - exists []. split; [reflexivity|]. split; [reflexivity | intros d []].
  - inversion N as [|? ? N1 N2]; subst. destruct IH as (es & E1 & E2 & E3); [exact N2 | intros k Hk; apply H; right; exact Hk|].
    destruct (H j (or_introl eq_refl)) as [Ne Hj].
    destruct (consolidateOne_ok (sel j) Ne) as (d & D1 & D2 & D3 & D4 & d' & D5 & D6); [intros x Hx; destruct (Hj x Hx) as (? & ? & _); auto|].
    assert (Jd : Jpi_data d = j) by (unfold Jpi_data; rewrite D6; apply Hj; exact D5).
    exists (d :: es). cbn [mapM]. rewrite D1, E1. cbn [bind map]. split; [reflexivity|]. split; [rewrite Jd, E2; reflexivity|].
    intros x [<-|Hx]; [|exact (E3 x Hx)]. rewrite Jd. split; [exact D2|]. split; [exact D3|]. split; [exact D4|]. exists d'. split; assumption.
Qed.
Theorem consolidate_ok data : (forall d, In d data -> consistent d) ->
  exists out, consolidateChannelData data = Ok out /\ consolidated data out.
Proof.
  intros C. unfold consolidateChannelData. destruct (sortUniqueJpi_spec (map getJpi (filter cd_eliminated data))) as [S I].
  destruct (consolidate_inner (fun j => of_Jpi j (eliminated_data data)) _ (sorted_nodup _ S)) as (es & E1 & E2 & E3).
  { intros j Hj. apply I in Hj. apply in_map_iff in Hj as (d & <- & Hd). split.
    - assert (G : In d (of_Jpi (getJpi d) (eliminated_data data))) by (apply of_Jpi_In; split; [exact Hd | reflexivity]).
      intros Q. rewrite Q in G. destruct G.
    - intros x Hx. apply of_Jpi_In in Hx as [Hx Jx]. apply filter_In in Hx as [Hx Ex]. split; [exact (C x Hx)|]. split; [exact Ex | exact Jx]. }
  change (fun j => consolidateOne (of_Jpi j (eliminated_data data))) with (fun j => consolidateOne (filter (hasJpi j) (filter cd_eliminated data))) in E1.
  rewrite E1. cbn [bind]. eexists. split; [reflexivity|].
  assert (Fe : filter cd_eliminated (filter (fun d => negb (cd_eliminated d)) data ++ es) = es).
  { rewrite filter_app, filter_filter, filter_no, filter_all; [reflexivity | intros x Hx; apply E3, Hx|]. intros x _. destruct (cd_eliminated x); reflexivity. }
  constructor; unfold eliminated_data.
  - intros d Hd. apply in_app_or in Hd as [Hd|Hd]; [apply filter_In in Hd; apply C, Hd | apply E3, Hd].
  - rewrite filter_app, filter_filter. rewrite (filter_no _ es) by (intros x Hx; destruct (E3 x Hx) as (_ & -> & _); reflexivity). rewrite app_nil_r.
    apply filter_ext. intros x. destruct (cd_eliminated x); reflexivity.
  - exists es. split; [reflexivity|]. intros d Hd. apply E3, Hd.
  - rewrite Fe. change (StronglySorted Jpi_lt (map Jpi_data es)). rewrite E2. exact S.
  - intros j. rewrite Fe. change (of_Jpi j es) with (filter (fun d => Jpi_eqb (Jpi_data d) j) es).
    destruct (filter_key Jpi_data es j) as [(d & D1 & D2 & D3)|[D1 D2]]; [rewrite E2; apply sorted_nodup, S| |].
    + rewrite D3. cbn [map concat]. rewrite app_nil_r. destruct (E3 d D1) as (_ & _ & -> & _). rewrite D2. reflexivity.
    + rewrite D2. cbn [map concat]. replace (of_Jpi j _) with (@nil channel_data); [reflexivity|]. symmetry. apply filter_no.
      intros x Hx. change (Jpi_eqb (Jpi_data x) j = false). destruct (Jpi_eqb (Jpi_data x) j) eqn:F; [|reflexivity]. apply Jpi_eqb_spec in F. exfalso.
      assert (G : In j (map Jpi_data es)). { rewrite E2. apply I. rewrite <- F. apply (in_map getJpi). exact Hx. }
      apply in_map_iff in G as (d & Q & Hd). exact (D1 d Hd Q).
  - rewrite Fe. intros d Hd. destruct (E3 d Hd) as (_ & _ & _ & d' & D1 & D2). exists d'. split; [|exact D2]. apply of_Jpi_In in D1. apply D1.
Qed.

(** Consolidating again changes nothing *)
Lemma consolidate_singletons (l : list channel_data) (sel : Jpi -> list channel_data) :
  (forall d, In d l -> sel (Jpi_data d) = [d]) ->
  mapM (fun j => consolidateOne (sel j)) (map Jpi_data l) = Ok l.
Proof.
  induction l as [|d l IH]; intros H; cbn [map mapM]; [reflexivity|]. rewrite (H d (or_introl eq_refl)). cbn [consolidateOne bind].
  rewrite IH by (intros x Hx; apply H; right; exact Hx). reflexivity.
Qed.
Theorem consolidate_idempotent data out : (forall d, In d data -> consistent d) ->
  consolidateChannelData data = Ok out -> consolidateChannelData out = Ok out.
Proof.
  intros C H. destruct (consolidate_ok data C) as (out' & H' & K). rewrite H in H'. injection H' as <-.
  destruct K as [_ K2 (es & Eo & Ee) K4 _ _]. unfold eliminated_data in K4. unfold consolidateChannelData.
  assert (Fe : filter cd_eliminated out = es).
  { rewrite Eo, filter_app, filter_filter, filter_no, filter_all; [reflexivity | exact Ee|]. intros x _. destruct (cd_eliminated x); reflexivity. }
  rewrite Fe in *. replace (sortUniqueJpi (map getJpi es)) with (map Jpi_data es).
  - rewrite (consolidate_singletons es (fun j => filter (hasJpi j) es)); [cbn [bind]; rewrite K2; rewrite Eo; reflexivity|].
    intros d Hd. change (filter (fun x => Jpi_eqb (Jpi_data x) (Jpi_data d)) es = [d]).
    destruct (filter_key Jpi_data es (Jpi_data d) (sorted_nodup _ K4)) as [(x & D1 & D2 & D3)|[D1 _]]; [|destruct (D1 d Hd eq_refl)].
    rewrite D3. f_equal. assert (G : In d [x]); [|destruct G as [G|[]]; exact G]. rewrite <- D3. apply filter_In. split; [exact Hd|]. apply Jpi_eqb_spec. reflexivity.
  - apply sorted_unique; [exact K4 | apply sortUniqueJpi_spec|]. intros x. rewrite (proj2 (sortUniqueJpi_spec _)). reflexivity.
Qed.

(** Consolidated data has at most one eliminated channel for each J and parity *)
Lemma consolidated_one data out j : consolidated data out -> one_eliminated (of_Jpi j out).
Proof.
  intros [_ _ _ S _ _]. apply one_eliminated_count. unfold eliminated_data in S.
  assert (E : filter cd_eliminated (of_Jpi j out) = filter (fun d => Jpi_eqb (Jpi_data d) j) (filter cd_eliminated out)).
  { unfold of_Jpi. rewrite !filter_filter. apply filter_ext. intros d. apply andb_comm. }
  rewrite E. destruct (filter_key Jpi_data (filter cd_eliminated out) j (sorted_nodup _ S)) as [(d & _ & _ & ->)|[_ ->]]; cbn; lia.
Qed.

(** * Spin groups *)
Theorem group_from_data j data : (forall d, In d data -> consistent d) -> (forall d, In d data -> Jpi_data d = j) ->
  (acceptable_data data -> exists g, makeGroupFromData data = Ok g /\ g_channels g = ordinary_channels data /\ faithful_table data (g_table g)) /\
  (~ acceptable_data data -> makeGroupFromData data = Throw (RuntimeError "std::exception") \/
     (makeGroupFromData data = UB "front() of an empty vector" /\ ordinary_channels data = [])).
Proof.
  intros C J. unfold makeGroupFromData.
  assert (JO : forall c, In c (ordinary_channels data) -> qJ (c_numbers c) = fst j /\ qp (c_numbers c) = snd j).
  { intros c Hc. unfold ordinary_channels in Hc. apply in_map_iff in Hc as (d & <- & Hd). apply filter_In in Hd as [Hd _]. rewrite <- (J d Hd). split; reflexivity. }
  destruct (Classical_Prop.classic (one_eliminated data)) as [O|O].
  - destruct (resonance_table data C O) as (t & Et & Ft & It). rewrite Et. cbn [bind]. rewrite (make_channels data O). fold (ordinary_channels data).
    destruct (ordinary_channels data) as [|c0 cs] eqn:Eo.
    + split; [unfold acceptable_data; rewrite Eo; intros (_ & _ & _ & c & [] & _)|]. intros _. right. split; reflexivity.
    + destruct (group_accepts c0 cs t) as [A1 A2]. assert (Q : acceptable_data data <-> acceptable_group (c0 :: cs) t).
      { unfold acceptable_data, acceptable_group. rewrite Eo. split.
        - intros (_ & H1 & H2 & H3). split; [exact H1|]. split; [exact H2|]. split; [|split; [exact H3|]].
          + intros c c' Hc Hc'. destruct (JO c Hc) as [-> ->]. destruct (JO c' Hc') as [-> ->]. split; reflexivity.
          + rewrite It, <- Eo. unfold ordinary_channels. rewrite map_map. reflexivity.
        - intros (H1 & H2 & _ & H3 & _). split; [exact O|]. split; [exact H1|]. split; [exact H2 | exact H3]. }
      split; intros H.
      * destruct (A1 (proj1 Q H)) as [g Hg]. exists g. split; [exact Hg|]. destruct (makeGroup_ok Hg) as (E1 & E2 & _). rewrite E1, E2. split; [reflexivity | exact Ft].
      * left. apply A2. intros G. apply H, Q, G.
  - rewrite (resonance_table_throws data O). split; [intros [H _]; contradiction | intros _; left; reflexivity].
Qed.

Lemma at_front (g : group) c r : g_channels g = c :: r -> at_or_ub (g_channels g) 0 "front() of an empty vector" = Ok c.
Proof. intros ->. reflexivity. Qed.

(** The groups of a list of channel data *)
Definition groups_of (data : list channel_data) (js : list Jpi) (gs : list group) : Prop :=
  Forall2 (fun j g => g_channels g = ordinary_channels (of_Jpi j data) /\ faithful_table (of_Jpi j data) (g_table g)) js gs.

Lemma spin_groups_inner data js : (forall d, In d data -> consistent d) -> (forall j, In j js -> acceptable_data (of_Jpi j data)) ->
  exists gs, mapM (fun j => makeGroupFromData (filter (hasJpi j) data)) js = Ok gs /\ groups_of data js gs.
Proof.
  intros C. induction js as [|j js IH]; intros H; [exists []; split; [reflexivity | constructor]|].
  destruct IH as (gs & E & F); [intros k Hk; apply H; right; exact Hk|].
  destruct (group_from_data j (of_Jpi j data)) as [A _]; [intros d Hd; apply of_Jpi_In in Hd; apply C, Hd | intros d Hd; apply of_Jpi_In in Hd; apply Hd|].
  destruct (A (H j (or_introl eq_refl))) as (g & G1 & G2 & G3). exists (g :: gs). cbn [mapM]. rewrite filter_hasJpi, G1, E. split; [reflexivity|].
  constructor; [split; assumption | exact F].
Qed.
Lemma spin_groups_back data js gs : (forall d, In d data -> consistent d) ->
  mapM (fun j => makeGroupFromData (filter (hasJpi j) data)) js = Ok gs -> forall j, In j js -> acceptable_data (of_Jpi j data).
Proof.
  intros C. revert gs. induction js as [|k js IH]; intros gs H j Hj; [destruct Hj|]. cbn [mapM] in H. apply bind_Ok in H as (g & Hg & H).
  apply bind_Ok in H as (gs' & Hgs & _). destruct Hj as [->|Hj]; [|exact (IH gs' Hgs j Hj)].
  destruct (Classical_Prop.classic (acceptable_data (of_Jpi j data))) as [?|N]; [assumption|].
  destruct (group_from_data j (of_Jpi j data)) as [_ B]; [intros d Hd; apply of_Jpi_In in Hd; apply C, Hd | intros d Hd; apply of_Jpi_In in Hd; apply Hd|].
  rewrite filter_hasJpi in Hg. destruct (B N) as [Q|[Q _]]; rewrite Q in Hg; discriminate.
Qed.

Lemma groups_fronts data js gs : groups_of data js gs -> (forall j, In j js -> acceptable_data (of_Jpi j data)) ->
  exists ns, mapM (fun g => omap c_numbers (at_or_ub (g_channels g) 0 "front() of an empty vector")) gs = Ok ns /\ map Jpi_of ns = js.
Proof.
  induction 1 as [|j g js gs [H1 _] _ IH]; intros A; [exists []; split; reflexivity|].
  destruct IH as (ns & E & M); [intros k Hk; apply A; right; exact Hk|].
  destruct (A j (or_introl eq_refl)) as (_ & _ & _ & c & Hc & _). destruct (g_channels g) as [|c0 cs] eqn:Eg; [rewrite <- H1 in Hc; destruct Hc|].
  exists (c_numbers c0 :: ns). cbn [mapM]. rewrite Eg. cbn [at_or_ub nth_error omap bind]. rewrite E. split; [reflexivity|]. cbn [map]. f_equal; [|exact M].
  assert (G : In c0 (ordinary_channels (of_Jpi j data))) by (rewrite <- H1; left; reflexivity).
  unfold ordinary_channels in G. apply in_map_iff in G as (d & <- & Hd). apply filter_In in Hd as [Hd _]. apply of_Jpi_In in Hd. apply Hd.
Qed.
Lemma count_filter {A} (f : A -> bool) l : count f l = length (filter f l).
Proof. induction l as [|x l IH]; cbn [count filter]; [reflexivity|]. destruct (f x); cbn; rewrite IH; reflexivity. Qed.
Lemma same_Jpi_spec a b : same_Jpi a b = Jpi_eqb (Jpi_of a) (Jpi_of b).
Proof. reflexivity. Qed.
Lemma verify_unique ns : NoDup (map Jpi_of ns) ->
  foldM (fun _ reference => check (negb (Nat.ltb 1 (count (fun current => same_Jpi current reference) ns)))) ns tt = Ok tt.
Proof.
  intros N. assert (G : forall l, foldM (fun _ reference => check (negb (Nat.ltb 1 (count (fun current => same_Jpi current reference) ns)))) l tt = Ok tt); [|apply G].
  induction l as [|q l IH]; [reflexivity|]. cbn [foldM]. rewrite count_filter.
  change (filter (fun current => same_Jpi current q) ns) with (filter (fun x => Jpi_eqb (Jpi_of x) (Jpi_of q)) ns).
  destruct (filter_key Jpi_of ns (Jpi_of q) N) as [(x & _ & _ & ->)|[_ ->]]; cbn [length Nat.ltb Nat.leb negb check bind]; exact IH.
Qed.

Lemma Forall2_len {A B} (P : A -> B -> Prop) l m : Forall2 P l m -> length l = length m.
Proof. induction 1; cbn; congruence. Qed.
Theorem system_ok data : (forall d, In d data -> consistent d) -> data <> [] ->
  (forall j, of_Jpi j data <> [] -> acceptable_data (of_Jpi j data)) ->
  exists js gs, makeSystemFromData data = Ok gs /\ StronglySorted Jpi_lt js /\
    (forall j, In j js <-> of_Jpi j data <> []) /\ groups_of data js gs.
Proof.
  intros C N A. destruct (sortUniqueJpi_spec (map getJpi data)) as [S I].
  assert (J : forall j, In j (sortUniqueJpi (map getJpi data)) <-> of_Jpi j data <> []).
  { intros j. rewrite I, in_map_iff. split.
    - intros (d & <- & Hd) Q. assert (G : In d (of_Jpi (getJpi d) data)) by (apply of_Jpi_In; split; [exact Hd | reflexivity]). rewrite Q in G. destruct G.
    - intros Q. destruct (of_Jpi j data) as [|d r] eqn:E; [congruence|]. exists d. assert (G : In d (of_Jpi j data)) by (rewrite E; left; reflexivity).
      apply of_Jpi_In in G as [G1 G2]. split; [exact G2 | exact G1]. }
  destruct (spin_groups_inner data (sortUniqueJpi (map getJpi data)) C) as (gs & E & F); [intros j Hj; apply A, J, Hj|].
  exists (sortUniqueJpi (map getJpi data)), gs. split; [|split; [exact S|]; split; [exact J | exact F]].
  unfold makeSystemFromData, makeSpinGroups, makeSystem, verifySpinGroups. rewrite E. cbn [bind].
  destruct (groups_fronts _ _ _ F) as (ns & En & Mn); [intros j Hj; apply A, J, Hj|].
  assert (L : length gs <> 0%nat).
  { rewrite <- (Forall2_len _ _ _ F). destruct data as [|d data]; [congruence|]. intros Q.
    assert (G : In (getJpi d) (sortUniqueJpi (map getJpi (d :: data)))) by (apply I; left; reflexivity).
    destruct (sortUniqueJpi (map getJpi (d :: data))); [destruct G | discriminate]. }
  apply Nat.eqb_neq in L. rewrite L. cbn [negb check bind]. rewrite En. cbn [bind].
  rewrite verify_unique by (rewrite Mn; apply sorted_nodup, S). reflexivity.
Qed.
Theorem system_back data gs : (forall d, In d data -> consistent d) -> makeSystemFromData data = Ok gs ->
  data <> [] /\ forall j, of_Jpi j data <> [] -> acceptable_data (of_Jpi j data).
Proof.
  intros C H. unfold makeSystemFromData in H. apply bind_Ok in H as (gs' & H1 & H2). unfold makeSpinGroups in H1. split.
  - intros ->. cbn in H1. injection H1 as <-. discriminate.
  - intros j Hj. apply (spin_groups_back data _ _ C H1). apply sortUniqueJpi_spec.
    destruct (of_Jpi j data) as [|d r] eqn:E; [congruence|]. assert (G : In d (of_Jpi j data)) by (rewrite E; left; reflexivity).
    apply of_Jpi_In in G as [G1 G2]. rewrite <- G2. apply (in_map getJpi). exact G1.
Qed.

(** The groups partition the channels *)
Lemma partition_Jpi (js : list Jpi) : NoDup js -> forall data, (forall d, In d data -> In (Jpi_data d) js) ->
  Permutation data (concat (map (fun j => of_Jpi j data) js)).
Proof.
  induction js as [|j js IH]; intros N data H.
  - destruct data as [|d data]; [constructor|]. destruct (H d (or_introl eq_refl)).
  - inversion N as [|? ? N1 N2]; subst. cbn [map concat].
    assert (P : Permutation data (of_Jpi j data ++ filter (fun d => negb (Jpi_eqb (Jpi_data d) j)) data)).
    { clear. change (of_Jpi j data) with (filter (fun d => Jpi_eqb (Jpi_data d) j) data).
      induction data as [|d data IHd]; cbn [filter]; [constructor|]. destruct (Jpi_eqb (Jpi_data d) j); cbn [negb app].
      - constructor. exact IHd.
      - apply Permutation_cons_app. exact IHd. }
    rewrite P at 1. apply Permutation_app_head. rewrite (IH N2 (filter (fun d => negb (Jpi_eqb (Jpi_data d) j)) data)) at 1.
    + apply Permutation_refl'. f_equal. apply map_ext_in. intros k Hk. unfold of_Jpi. rewrite filter_filter. apply filter_ext_in. intros d _.
      change (negb (Jpi_eqb (Jpi_data d) j) && Jpi_eqb (Jpi_data d) k = Jpi_eqb (Jpi_data d) k).
      destruct (Jpi_eqb (Jpi_data d) k) eqn:E; [|apply andb_false_r]. apply Jpi_eqb_spec in E. rewrite andb_true_r.
      destruct (Jpi_eqb (Jpi_data d) j) eqn:F; [|reflexivity]. apply Jpi_eqb_spec in F. exfalso. apply N1. rewrite <- F, E. exact Hk.
    + intros d Hd. apply filter_In in Hd as [Hd Nd]. destruct (H d Hd) as [Q|Q]; [|exact Q]. exfalso. symmetry in Q. apply Jpi_eqb_spec in Q. rewrite Q in Nd. discriminate.
Qed.
Lemma concat_filter {A} (f : A -> bool) ls : filter f (concat ls) = concat (map (filter f) ls).
Proof. induction ls as [|l ls IH]; cbn [concat map]; [reflexivity|]. rewrite filter_app, IH. reflexivity. Qed.
Lemma filter_perm {A} (f : A -> bool) l m : Permutation l m -> Permutation (filter f l) (filter f m).
Proof.
  induction 1 as [|x l m H IH|x y l|l m k H1 IH1 H2 IH2]; cbn [filter]; [constructor| | |eapply Permutation_trans; eassumption].
  - destruct (f x); [constructor|]; exact IH.
  - destruct (f x), (f y); try reflexivity. constructor.
Qed.
Theorem groups_partition data js gs : NoDup js -> (forall j, In j js <-> of_Jpi j data <> []) -> groups_of data js gs ->
  Permutation (concat (map g_channels gs)) (ordinary_channels data) /\
  Forall2 (fun j g => forall c, In c (g_channels g) -> Jpi_of (c_numbers c) = j) js gs.
Proof.
  intros N J F. split.
  - assert (E : map g_channels gs = map (fun j => ordinary_channels (of_Jpi j data)) js).
    { clear -F. induction F as [|j g js gs [H _] _ IH]; [reflexivity|]. cbn [map]. rewrite H, IH. reflexivity. }
    rewrite E. assert (P : Permutation data (concat (map (fun j => of_Jpi j data) js))).
    { apply partition_Jpi; [exact N|]. intros d Hd. apply J. intros Q. assert (G : In d (of_Jpi (Jpi_data d) data)) by (apply of_Jpi_In; auto). rewrite Q in G. destruct G. }
    unfold ordinary_channels at 2. rewrite (filter_perm _ _ _ P). rewrite concat_filter, concat_map, !map_map. reflexivity.
  - clear -F. induction F as [|j g js gs [H _] _ IH]; constructor; [|exact IH]. intros c Hc. rewrite H in Hc. unfold ordinary_channels in Hc.
    apply in_map_iff in Hc as (d & <- & Hd). apply filter_In in Hd as [Hd _]. apply of_Jpi_In in Hd. apply Hd.
Qed.

(** * Columns of a table *)
Lemma Forall2_nth {A B} (P : A -> B -> Prop) l m k x : Forall2 P l m -> nth_error l k = Some x -> exists y, nth_error m k = Some y /\ P x y.
Proof.
  intros F. revert k. induction F as [|a b l m H _ IH]; intros [|k] E; cbn in *; try discriminate.
  - injection E as <-. exists b. auto.
  - exact (IH k E).
Qed.
Lemma row_columns e data ws x : row e data ws x ->
  length ws = length (ordinary_channels data) /\
  (forall k d, nth_error (filter (fun d => negb (cd_eliminated d)) data) k = Some d -> exists w, nth_error ws k = Some w /\ width_at d e w) /\
  (forall d, In d data -> cd_eliminated d = true -> width_at d e x) /\
  ((forall d, In d data -> ordinary d) -> x = 0).
Proof.
  unfold ordinary_channels. rewrite map_length. intros H.
  assert (G : forall l, Forall ordinary l -> filter (fun d => negb (cd_eliminated d)) l = l).
  { intros l Hl. rewrite Forall_forall in Hl. apply filter_all. intros y Hy. rewrite (Hl y Hy). reflexivity. }
  destruct H as [data ws O F | a d b ws vs x E Oa Ob Fa Fb Hx].
  - rewrite (G _ O). split; [symmetry; exact (Forall2_len _ _ _ F)|]. split; [intros k d; exact (Forall2_nth _ _ _ k d F)|]. split; [|reflexivity].
    intros d Hd E. rewrite Forall_forall in O. specialize (O d Hd). unfold ordinary in O. congruence.
  - assert (K : filter (fun d => negb (cd_eliminated d)) (a ++ d :: b) = a ++ b).
    { rewrite filter_app. cbn [filter]. rewrite E. cbn [negb]. rewrite (G _ Oa), (G _ Ob). reflexivity. }
    pose proof (Forall2_app Fa Fb) as F. rewrite K. split; [symmetry; exact (Forall2_len _ _ _ F)|]. split; [intros k y; exact (Forall2_nth _ _ _ k y F)|]. split.
    + intros y Hy Ey. apply in_app_or in Hy as [Hy|[<-|Hy]]; [|exact Hx|]; rewrite Forall_forall in Oa, Ob;
        [specialize (Oa y Hy); unfold ordinary in Oa | specialize (Ob y Hy); unfold ordinary in Ob]; congruence.
    + intros Q. specialize (Q d (in_or_app a (d :: b) d (or_intror (or_introl eq_refl)))). unfold ordinary in Q. congruence.
Qed.
(** With distinct energies every listed width is in its channel's column, and the rest is zero *)
Theorem table_complete data t : (forall d, In d data -> consistent d) -> (forall d, In d data -> distinct_energies d) -> faithful_table data t ->
  (forall d e w, In d data -> In (e, w) (entries d) -> exists r, In r (t_resonances t) /\ rs_energy r = e) /\
  forall r, In r (t_resonances t) ->
    length (rs_widths r) = length (ordinary_channels data) /\
    (forall k d, nth_error (filter (fun d => negb (cd_eliminated d)) data) k = Some d ->
       (forall w, In (rs_energy r, w) (entries d) -> nth_error (rs_widths r) k = Some w) /\
       (~ In (rs_energy r) (cd_energies d) -> nth_error (rs_widths r) k = Some 0)) /\
    (forall d, In d data -> cd_eliminated d = true ->
       (forall w, In (rs_energy r, w) (entries d) -> rs_eliminated r = w) /\
       (~ In (rs_energy r) (cd_energies d) -> rs_eliminated r = 0)) /\
    ((forall d, In d data -> ordinary d) -> rs_eliminated r = 0).
Proof.
  intros C D [_ E F]. split.
  - intros d e w Hd He. assert (G : In e (map rs_energy (t_resonances t))).
    { apply E. exists d. split; [exact Hd|]. rewrite <- (fst_entries d (C d Hd)). exact (in_map fst _ _ He). }
    apply in_map_iff in G as (r & Er & Hr). exists r. auto.
  - intros r Hr. destruct (row_columns _ _ _ _ (F r Hr)) as (L & K & X & Z). split; [exact L|]. split; [|split; [|exact Z]].
    + intros k d Hk. destruct (K k d Hk) as (w & Hw & Aw).
      assert (Hd : In d data) by (apply nth_error_In in Hk; apply filter_In in Hk; apply Hk). split.
      * intros v Hv. rewrite Hw. f_equal. apply (width_at_unique d (rs_energy r)); [exact (C d Hd) | exact Aw | apply width_at_listed; auto].
      * intros N. rewrite Hw. f_equal. apply (width_at_unique d (rs_energy r)); [exact (C d Hd) | exact Aw | right; auto].
    + intros d Hd Ed. specialize (X d Hd Ed). split.
      * intros v Hv. apply (width_at_unique d (rs_energy r)); [exact (C d Hd) | exact X | apply width_at_listed; auto].
      * intros N. apply (width_at_unique d (rs_energy r)); [exact (C d Hd) | exact X | right; auto].
Qed.

(** * Systems made of groups *)
Theorem system_accepts gs : (forall g, In g gs -> g_channels g <> []) ->
  (gs <> [] /\ NoDup (map (fun g => match g_channels g with c :: _ => Jpi_of (c_numbers c) | [] => (0, 0)%Z end) gs) <->
     makeSystem gs = Ok gs) /\
  (makeSystem gs = Ok gs \/ makeSystem gs = Throw (RuntimeError "std::exception")).
Proof.
  intros N. unfold makeSystem, verifySpinGroups. destruct gs as [|g0 gs'] eqn:Eg.
  { cbn. split; [split; [intros [H _]; congruence | discriminate] | right; reflexivity]. }
  rewrite <- Eg in *. replace (negb (Nat.eqb (length gs) 0)) with true by (rewrite Eg; reflexivity). cbn [check bind].
  assert (M : exists ns, mapM (fun g => omap c_numbers (at_or_ub (g_channels g) 0 "front() of an empty vector")) gs = Ok ns /\
      map Jpi_of ns = map (fun g => match g_channels g with c :: _ => Jpi_of (c_numbers c) | [] => (0, 0)%Z end) gs).
  { clear Eg. induction gs as [|g gs IH]; [exists []; split; reflexivity|]. destruct IH as (ns & E & Q); [intros x Hx; apply N; right; exact Hx|].
    specialize (N g (or_introl eq_refl)). cbn [mapM map]. destruct (g_channels g) as [|c r]; [congruence|].
    cbn [at_or_ub nth_error omap bind]. rewrite E. exists (c_numbers c :: ns). split; [reflexivity|]. cbn [map]. rewrite Q. reflexivity. }
  destruct M as (ns & -> & <-). cbn [bind].
  assert (K : forall l, (exists a b q, l = a ++ q :: b /\ (1 < count (fun current => same_Jpi current q) ns)%nat) ->
      foldM (fun _ reference => check (negb (Nat.ltb 1 (count (fun current => same_Jpi current reference) ns)))) l tt = Throw (RuntimeError "std::exception")).
  { induction l as [|q l IH]; intros (a & b & p & E & H).
    - destruct a; discriminate.
    - cbn [foldM]. destruct (Nat.ltb 1 (count (fun current => same_Jpi current q) ns)) eqn:L; [reflexivity|]. cbn [negb check bind].
      destruct a as [|q' a]; injection E as <- E; [apply Nat.ltb_ge in L; lia|]. apply IH. exists a, b, p. auto. }
  destruct (ListDec.NoDup_dec Jpi_dec (map Jpi_of ns)) as [D|D].
  - rewrite verify_unique by exact D. cbn [bind]. split; [|left; reflexivity]. split; [reflexivity|]. intros _. split; [congruence | exact D].
  - assert (Ex : exists a b q, ns = a ++ q :: b /\ (1 < count (fun current => same_Jpi current q) ns)%nat).
    { clear -D. assert (G : exists q, In q ns /\ (1 < count (fun current => same_Jpi current q) ns)%nat).
      - induction ns as [|p ns IH]; [destruct D; constructor|]. cbn [map] in D.
        destruct (In_dec Jpi_dec (Jpi_of p) (map Jpi_of ns)) as [I|I].
        + exists p. split; [left; reflexivity|]. cbn [count]. rewrite same_Jpi_spec. replace (Jpi_eqb (Jpi_of p) (Jpi_of p)) with true by (symmetry; apply Jpi_eqb_spec; reflexivity).
          rewrite count_filter. apply in_map_iff in I as (x & Ex & Hx). assert (J : In x (filter (fun current => same_Jpi current p) ns)).
          { apply filter_In. split; [exact Hx|]. rewrite same_Jpi_spec. apply Jpi_eqb_spec. exact Ex. }
          destruct (filter _ ns); [destruct J | cbn; lia].
        + destruct IH as (q & Hq & L); [intros Q; apply D; constructor; assumption|]. exists q. split; [right; exact Hq|]. cbn [count]. destruct (same_Jpi p q); lia.
      - destruct G as (q & Hq & L). apply in_split in Hq as (a & b & E). exists a, b, q. auto. }
    rewrite (K ns Ex). cbn [bind]. split; [|right; reflexivity]. split; [intros [_ Q]; contradiction | discriminate].
Qed.

(** * Every pair of an eliminated channel is kept *)
Lemma concat_perm {A} (l m : list (list A)) : Permutation l m -> Permutation (concat l) (concat m).
Proof.
  induction 1 as [|x l m _ IH|x y l|l m k _ IH1 _ IH2]; cbn [concat]; [constructor| | |eapply Permutation_trans; eassumption].
  - apply Permutation_app_head. exact IH.
  - rewrite !app_assoc. apply Permutation_app_tail, Permutation_app_comm.
Qed.
Lemma concat_entries_map (js : list Jpi) (f : Jpi -> list channel_data) :
  concat (map entries (concat (map f js))) = concat (map (fun j => concat (map entries (f j))) js).
Proof. induction js as [|j js IH]; [reflexivity|]. cbn [map concat]. rewrite map_app, concat_app, IH. reflexivity. Qed.
Theorem consolidated_entries data out : consolidated data out ->
  Permutation (concat (map entries (eliminated_data out))) (concat (map entries (eliminated_data data))).
Proof.
  intros [_ _ _ _ E _]. set (js := sortUniqueJpi (map Jpi_data (eliminated_data out ++ eliminated_data data))).
  destruct (sortUniqueJpi_spec (map Jpi_data (eliminated_data out ++ eliminated_data data))) as [S I]. fold js in S, I.
  assert (P : forall l, (forall d, In d l -> In (Jpi_data d) js) ->
    Permutation (concat (map entries l)) (concat (map (fun j => concat (map entries (of_Jpi j l))) js))).
  { intros l H. rewrite (concat_perm _ _ (Permutation_map entries (partition_Jpi js (sorted_nodup _ S) l H))).
    apply Permutation_refl', concat_entries_map. }
  rewrite (P (eliminated_data out)), (P (eliminated_data data)).
  - apply Permutation_refl'. f_equal. apply map_ext. exact E.
  - intros d Hd. apply I, in_map, in_or_app. right. exact Hd.
  - intros d Hd. apply I, in_map, in_or_app. left. exact Hd.
Qed.

(** * The statements of the property file *)
Lemma channel_data_accepts c es ws e :
  (length es = length ws -> makeChannelData c es ws e = Ok (mkChannelData c es ws e)) /\
  (length es <> length ws -> makeChannelData c es ws e = Throw (RuntimeError "std::exception")).
Proof.
  unfold makeChannelData. split; intros H; [apply Nat.eqb_eq in H | apply Nat.eqb_neq in H]; rewrite H; reflexivity.
Qed.
Lemma table_made data : (forall d, In d data -> consistent d) -> one_eliminated data ->
  exists t, makeResonanceTable data = Ok t /\ faithful_table data t /\ t_channels t = map c_id (ordinary_channels data).
Proof.
  intros C O. destruct (resonance_table data C O) as (t & E & F & I). exists t. split; [exact E|]. split; [exact F|].
  rewrite I. unfold ordinary_channels. rewrite map_map. reflexivity.
Qed.
Lemma table_made_complete data t : (forall d, In d data -> consistent d) -> (forall d, In d data -> distinct_energies d) ->
  one_eliminated data -> makeResonanceTable data = Ok t ->
  (forall d e w, In d data -> In (e, w) (entries d) -> exists r, In r (t_resonances t) /\ rs_energy r = e) /\
  forall r, In r (t_resonances t) ->
    length (rs_widths r) = length (ordinary_channels data) /\
    (forall k d, nth_error (filter (fun d => negb (cd_eliminated d)) data) k = Some d ->
       (forall w, In (rs_energy r, w) (entries d) -> nth_error (rs_widths r) k = Some w) /\
       (~ In (rs_energy r) (cd_energies d) -> nth_error (rs_widths r) k = Some 0)) /\
    (forall d, In d data -> cd_eliminated d = true ->
       (forall w, In (rs_energy r, w) (entries d) -> rs_eliminated r = w) /\
       (~ In (rs_energy r) (cd_energies d) -> rs_eliminated r = 0)) /\
    ((forall d, In d data -> ordinary d) -> rs_eliminated r = 0).
Proof.
  intros C D O H. destruct (resonance_table data C O) as (t' & E & F & _). rewrite H in E. injection E as <-. exact (table_complete data t C D F).
Qed.
Lemma table_loses (c : channel) : exists data t d e w, (forall d, In d data -> consistent d) /\ one_eliminated data /\
  makeResonanceTable data = Ok t /\ In d data /\ In (e, w) (entries d) /\
  forall r, In r (t_resonances t) -> ~ In w (rs_widths r) /\ rs_eliminated r <> w.
Proof.
  pose (d := mkChannelData c [10; 10] [1; 2] false).
  assert (C : forall x, In x [d] -> consistent x) by (intros x [<-|[]]; reflexivity).
  assert (O : one_eliminated [d]) by (left; intros x [<-|[]]; reflexivity).
  destruct (resonance_table [d] C O) as (t & E & [F1 F2 F3] & _). exists [d], t, d, 10, 1.
  split; [exact C|]. split; [exact O|]. split; [exact E|]. split; [left; reflexivity|]. split; [left; reflexivity|].
  intros r Hr. destruct (row_columns _ _ _ _ (F3 r Hr)) as (L & K & _ & Z).
  assert (Er : rs_energy r = 10). { destruct (proj1 (F2 (rs_energy r)) (in_map _ _ _ Hr)) as (x & [<-|[]] & [Q|[Q|[]]]); symmetry; exact Q. }
  split; [|rewrite Z by (intros x [<-|[]]; reflexivity); lra]. destruct (K 0%nat d eq_refl) as (w & Hw & Aw).
  assert (W : w = 2). { apply (width_at_unique d (rs_energy r)); [reflexivity | exact Aw|]. rewrite Er. left. exists [(10, 1)], []. split; [reflexivity | intros []]. }
  destruct (rs_widths r) as [|v [|v' vs]]; cbn in L, Hw; try discriminate. injection Hw as ->. subst w. intros [Q|[]]. lra.
Qed.
Lemma system_iff data : (forall d, In d data -> consistent d) ->
  (data <> [] /\ forall j, of_Jpi j data <> [] -> acceptable_data (of_Jpi j data)) <-> exists gs, makeSystemFromData data = Ok gs.
Proof.
  intros C. split.
  - intros [N A]. destruct (system_ok data C N A) as (js & gs & E & _). exists gs. exact E.
  - intros [gs E]. exact (system_back data gs C E).
Qed.
Lemma system_groups data gs : (forall d, In d data -> consistent d) -> makeSystemFromData data = Ok gs ->
  exists js, StronglySorted Jpi_lt js /\ (forall j, In j js <-> of_Jpi j data <> []) /\
    Forall2 (fun j g => g_channels g = ordinary_channels (of_Jpi j data) /\ faithful_table (of_Jpi j data) (g_table g)) js gs.
Proof.
  intros C H. destruct (system_back data gs C H) as [N A]. destruct (system_ok data C N A) as (js & gs' & E & S & J & F).
  rewrite H in E. injection E as <-. exists js. auto.
Qed.
Lemma system_partition data gs : (forall d, In d data -> consistent d) -> makeSystemFromData data = Ok gs ->
  Permutation (concat (map g_channels gs)) (ordinary_channels data) /\
  exists js, StronglySorted Jpi_lt js /\ Forall2 (fun j g => forall c, In c (g_channels g) -> Jpi_of (c_numbers c) = j) js gs.
Proof.
  intros C H. destruct (system_groups data gs C H) as (js & S & J & F). destruct (groups_partition data js gs (sorted_nodup _ S) J F) as [P Q].
  split; [exact P|]. exists js. auto.
Qed.
Lemma consolidate_all data : (forall d, In d data -> consistent d) ->
  exists out, consolidateChannelData data = Ok out /\ consolidated data out /\
    Permutation (concat (map entries (eliminated_data out))) (concat (map entries (eliminated_data data))).
Proof.
  intros C. destruct (consolidate_ok data C) as (out & E & K). exists out. split; [exact E|]. split; [exact K | exact (consolidated_entries _ _ K)].
Qed.
Lemma consolidate_result data out : (forall d, In d data -> consistent d) -> consolidateChannelData data = Ok out -> consolidated data out.
Proof. intros C H. destruct (consolidate_ok data C) as (out' & E & K). rewrite H in E. injection E as <-. exact K. Qed.
Lemma consolidated_tables data out : (forall d, In d data -> consistent d) -> consolidateChannelData data = Ok out ->
  forall j, exists t, makeResonanceTable (of_Jpi j out) = Ok t /\ faithful_table (of_Jpi j out) t.
Proof.
  intros C H j. pose proof (consolidate_result _ _ C H) as K. destruct (resonance_table (of_Jpi j out)) as (t & E & F & _).
  - intros d Hd. apply of_Jpi_In in Hd. apply (co_consistent _ _ K), Hd.
  - exact (consolidated_one _ _ j K).
  - exists t. auto.
Qed.
Lemma consolidated_channels data out j : consolidated data out -> ordinary_channels (of_Jpi j out) = ordinary_channels (of_Jpi j data).
Proof.
  intros K. unfold ordinary_channels. f_equal. unfold of_Jpi. rewrite !filter_filter.
  pose proof (f_equal (filter (fun d => (qJ (c_numbers (cd_channel d)) =? fst j)%Z && (qp (c_numbers (cd_channel d)) =? snd j)%Z)) (co_ordinary _ _ K)) as E.
  rewrite !filter_filter in E. etransitivity; [|etransitivity; [exact E|]]; apply filter_ext; intros d; apply andb_comm.
Qed.
Lemma consolidated_system data out : (forall d, In d data -> consistent d) -> consolidateChannelData data = Ok out ->
  (out <> [] /\ forall j, of_Jpi j out <> [] ->
     let cs := ordinary_channels (of_Jpi j data) in
     (forall c c', In c cs -> In c' cs -> pp_id (c_incident c) = pp_id (c_incident c')) /\ NoDup (map c_id cs) /\
     exists c, In c cs /\ pp_id (c_pair c) = pp_id (c_incident c)) <-> exists gs, makeSystemFromData out = Ok gs.
Proof.
  intros C H. pose proof (consolidate_result _ _ C H) as K. rewrite <- (system_iff out (co_consistent _ _ K)).
  split; intros [N A]; (split; [exact N|]); intros j Hj; specialize (A j Hj).
  - cbv zeta in A. rewrite <- (consolidated_channels _ _ j K) in A. split; [exact (consolidated_one _ _ j K) | exact A].
  - cbv zeta. rewrite <- (consolidated_channels _ _ j K). exact (proj2 A).
Qed.
Lemma consolidation_loses (c c' : channel) : exists data out t d e w, (forall d, In d data -> consistent d /\ distinct_energies d) /\
  consolidateChannelData data = Ok out /\ makeResonanceTable out = Ok t /\ In d data /\ In (e, w) (entries d) /\
  forall r, In r (t_resonances t) -> ~ In w (rs_widths r) /\ rs_eliminated r <> w.
Proof.
  pose (d0 := mkChannelData c [10] [7] false). pose (d1 := mkChannelData c' [10] [1] true). pose (d2 := mkChannelData c' [10] [2] true).
  pose (d := mkChannelData c' [10; 10] [1; 2] true).
  assert (Q : consolidateChannelData [d0; d1; d2] = Ok [d0; d]).
  { assert (J : sortUniqueJpi [getJpi d1; getJpi d2] = [getJpi d1]).
    { cbn. unfold insertJpi, Jpi_ltb, Jpi_eqb. rewrite !Z.ltb_irrefl, !Z.eqb_refl. reflexivity. }
    unfold consolidateChannelData. change (map getJpi (filter cd_eliminated [d0; d1; d2])) with [getJpi d1; getJpi d2]. rewrite J.
    cbn [mapM]. change (filter cd_eliminated [d0; d1; d2]) with [d1; d2].
    replace (filter (hasJpi (getJpi d1)) [d1; d2]) with [d1; d2]; [reflexivity|]. symmetry. apply filter_all. intros x [<-|[<-|[]]]; apply hasJpi_spec; reflexivity. }
  assert (C : forall x, In x [d0; d] -> consistent x) by (intros x [<-|[<-|[]]]; reflexivity).
  assert (O : one_eliminated [d0; d]) by (right; exists [d0], d, []; split; [reflexivity|]; split; [reflexivity|]; intros x [<-|[]]; reflexivity).
  destruct (resonance_table [d0; d] C O) as (t & E & [F1 F2 F3] & _). exists [d0; d1; d2], [d0; d], t, d1, 10, 1.
  split. { intros x [<-|[<-|[<-|[]]]]; (split; [reflexivity | repeat constructor; intros []]). }
  split; [exact Q|]. split; [exact E|]. split; [right; left; reflexivity|]. split; [left; reflexivity|].
  intros r Hr. destruct (row_columns _ _ _ _ (F3 r Hr)) as (L & K & X & _).
  assert (Er : rs_energy r = 10).
  { destruct (proj1 (F2 (rs_energy r)) (in_map _ _ _ Hr)) as (x & [<-|[<-|[]]] & Hx); cbn in Hx; repeat destruct Hx as [Hx|Hx]; try contradiction; symmetry; exact Hx. }
  split.
  - destruct (K 0%nat d0 eq_refl) as (w & Hw & Aw).
    assert (W : w = 7). { apply (width_at_unique d0 (rs_energy r)); [reflexivity | exact Aw|]. rewrite Er. left. exists [], []. split; [reflexivity | intros []]. }
    destruct (rs_widths r) as [|v [|v' vs]]; cbn in L, Hw; try discriminate. injection Hw as ->. subst w. intros [G|[]]. lra.
  - specialize (X d (or_intror (or_introl eq_refl)) eq_refl).
    assert (W : rs_eliminated r = 2). { apply (width_at_unique d (rs_energy r)); [reflexivity | exact X|]. rewrite Er. left. exists [(10, 1)], []. split; [reflexivity | intros []]. }
    rewrite W. lra.
Qed.
