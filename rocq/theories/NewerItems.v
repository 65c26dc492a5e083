(** The channels of one l and J of a Reich-Moore file inside the table of their J and parity. *)
From Coq Require Import String List ListDec ZArith Reals Bool Sorted Lra Lia Permutation.
From Verif Require Import Outcome QuantumModel QuantumSpec KinematicsModel RMatrixModel ChannelModel ListFacts GridSpec AssemblyModel AssemblySpec
  AssemblyProofs AssemblyTheorems.
Import ListNotations.
Open Scope R_scope.

(** ** Concatenations *)
Lemma chunk {A} (ls : list (list A)) : forall c d, nth_error (concat ls) c = Some d ->
  exists pre ch post k, ls = pre ++ ch :: post /\ c = (length (concat pre) + k)%nat /\ nth_error ch k = Some d.
Proof.
  induction ls as [|l ls IH]; intros c d H; cbn [concat] in H; [destruct c; discriminate|].
  destruct (lt_dec c (length l)) as [Hc|Hc].
  - rewrite nth_error_app1 in H by exact Hc. exists [], l, ls, c. auto.
  - rewrite nth_error_app2 in H by lia. destruct (IH _ _ H) as (pre & ch & post & k & -> & E & Hk).
    exists (l :: pre), ch, post, k. split; [reflexivity|]. split; [cbn [concat]; rewrite app_length; lia | exact Hk].
Qed.
Lemma chunk_at {A} (pre : list (list A)) ch post k d : nth_error ch k = Some d ->
  nth_error (concat (pre ++ ch :: post)) (length (concat pre) + k) = Some d.
Proof.
  intros H. rewrite concat_app. cbn [concat]. rewrite nth_error_app2 by lia. replace (length (concat pre) + k - length (concat pre))%nat with k by lia.
  rewrite nth_error_app1; [exact H|]. apply nth_error_Some. congruence.
Qed.
Lemma map_chunk {A B} (f : A -> list B) l pre ch post : map f l = pre ++ ch :: post -> exists a x b, l = a ++ x :: b /\ pre = map f a /\ ch = f x /\ post = map f b.
Proof.
  revert l. induction pre as [|p pre IH]; intros [|x l] H; try discriminate; cbn [map app] in H.
  - injection H as <- <-. exists [], x, l. auto.
  - injection H as <- H. destruct (IH l H) as (a & y & b & -> & -> & -> & ->). exists (x :: a), y, b. auto.
Qed.
Lemma nodup_app_elim {A} (l m : list A) : NoDup (l ++ m) -> NoDup l /\ NoDup m /\ forall x, In x l -> ~ In x m.
Proof.
  induction l as [|x l IH]; cbn; intros H; [repeat split; [constructor | exact H | intros y []]|]. inversion H as [|? ? N1 N2]; subst.
  destruct (IH N2) as (H1 & H2 & H3). split; [constructor; [intros Q; apply N1, in_or_app; left; exact Q | exact H1]|]. split; [exact H2|].
  intros y [<-|Hy]; [intros Q; apply N1, in_or_app; right; exact Q | exact (H3 y Hy)].
Qed.
(** an element found in two places of a list without duplicates *)
Lemma same_place {A B} (f : A -> list B) e : forall a x b a' x' b', a ++ x :: b = a' ++ x' :: b' -> NoDup (concat (map f (a ++ x :: b))) ->
  In e (f x) -> In e (f x') -> a = a' /\ x = x'.
Proof.
  assert (G : forall l y, In y l -> In e (f y) -> In e (concat (map f l))).
  { intros l y Hy He. apply in_concat. exists (f y). split; [apply in_map; exact Hy | exact He]. }
  induction a as [|y a IH]; intros x b [|y' a'] x' b' E N Hx Hx'; cbn [app] in E.
  - injection E as -> _. auto.
  - injection E as -> E. exfalso. subst b. cbn [map concat app] in N. apply nodup_app_elim in N as (_ & _ & D).
    apply (D e Hx). apply (G _ x'); [apply in_or_app; right; left; reflexivity | exact Hx'].
  - injection E as -> E. exfalso. cbn [map concat app] in N. apply nodup_app_elim in N as (_ & _ & D).
    apply (D e Hx'). apply (G _ x); [apply in_or_app; right; left; reflexivity | exact Hx].
  - injection E as -> E. cbn [map concat app] in N. apply nodup_app_elim in N as (_ & N & _).
    destruct (IH x b a' x' b' E N Hx Hx') as [-> ->]. auto.
Qed.
Lemma increasing_nodup l : increasing l -> NoDup l.
Proof.
  unfold increasing. induction 1 as [|x l H IH F]; constructor; [|exact IH]. intros Q. rewrite Forall_forall in F. specialize (F x Q). lra.
Qed.
Lemma filter_concat_const {A B} (p : B -> bool) (q : A -> bool) (f : A -> list B) l :
  (forall x y, In x l -> In y (f x) -> p y = q x) -> filter p (concat (map f l)) = concat (map f (filter q l)).
Proof.
  induction l as [|x l IH]; intros H; [reflexivity|]. cbn [map concat filter]. rewrite filter_app, IH by (intros; apply H; [right; assumption | assumption]).
  destruct (q x) eqn:Q.
  - cbn [map concat]. f_equal. apply filter_all. intros y Hy. rewrite (H x y (or_introl eq_refl) Hy). exact Q.
  - rewrite filter_no; [reflexivity|]. intros y Hy. rewrite (H x y (or_introl eq_refl) Hy). exact Q.
Qed.

(** ** Items: an elastic channel with what belongs to it.  The rows have three columns; [it_which]
    says which column an ordinary channel has. *)
Record item : Type := mkItem
  { it_el : channel; it_ds : list channel_data; it_rows : list resonance; it_which : list nat }.
Definition it_D (i : item) : list channel_data := filter (fun d => negb (cd_eliminated d)) (it_ds i).
Definition it_Jpi (i : item) : Jpi := Jpi_of (c_numbers (it_el i)).
Definition it_energies (i : item) : list R := map rs_energy (it_rows i).
Record item_ok (i : item) : Prop := mkItemOk
  { io_consistent : forall d, In d (it_ds i) -> consistent d;
    io_Jpi : forall d, In d (it_ds i) -> Jpi_data d = it_Jpi i;
    io_first : exists d0 fis, it_D i = d0 :: fis /\ cd_channel d0 = it_el i;
    io_which : (exists w, it_which i = 0%nat :: w) /\ length (it_which i) = length (it_D i) /\
      (forall k, In k (it_which i) -> (k < 3)%nat) /\ NoDup (it_which i);
    io_widths : forall k d, nth_error (it_D i) k = Some d -> cd_energies d = it_energies i /\
      cd_widths d = map (fun x => nth (nth k (it_which i) 0%nat) (rs_widths x) 0) (it_rows i);
    io_zero : forall x k, In x (it_rows i) -> (k < 3)%nat -> ~ In k (it_which i) -> nth k (rs_widths x) 0 = 0;
    io_elim : concat (map entries (filter cd_eliminated (it_ds i))) = map (fun x => (rs_energy x, rs_eliminated x)) (it_rows i) }.

Section Group.
Variables (its : list item) (out : list channel_data) (jp : Jpi) (t : table).
Hypothesis Hok : forall i, In i its -> item_ok i.
Let all := concat (map it_ds its).
Hypotheses (Hout : consolidated all out) (Ht : faithful_table (of_Jpi jp out) t).
Definition has_Jpi (i : item) : bool := (qJ (c_numbers (it_el i)) =? fst jp)%Z && (qp (c_numbers (it_el i)) =? snd jp)%Z.
Definition sel : list item := filter has_Jpi its.
Hypothesis HN : NoDup (concat (map it_energies sel)).

Lemma sel_ok i : In i sel -> item_ok i.
Proof. unfold sel. intros H. apply filter_In in H. apply Hok, H. Qed.
Lemma sel_data : of_Jpi jp all = concat (map it_ds sel).
Proof.
  unfold of_Jpi, all, sel. apply filter_concat_const. intros i d Hi Hd. unfold has_Jpi.
  pose proof (io_Jpi _ (Hok i Hi) d Hd) as E. unfold Jpi_data, it_Jpi, Jpi_of in E. injection E as -> ->. reflexivity.
Qed.
Lemma sel_ordinary : filter (fun d => negb (cd_eliminated d)) (of_Jpi jp out) = concat (map it_D sel).
Proof.
  transitivity (filter (fun d => negb (cd_eliminated d)) (of_Jpi jp all)).
  - unfold of_Jpi. rewrite !filter_filter.
    pose proof (f_equal (filter (fun d => (qJ (c_numbers (cd_channel d)) =? fst jp)%Z && (qp (c_numbers (cd_channel d)) =? snd jp)%Z)) (co_ordinary _ _ Hout)) as E.
    rewrite !filter_filter in E. etransitivity; [|etransitivity; [exact E|]]; apply filter_ext; intros d; apply andb_comm.
  - rewrite sel_data, concat_filter, map_map. reflexivity.
Qed.
Definition elim_rows : list (R * R) := concat (map (fun i => map (fun x => (rs_energy x, rs_eliminated x)) (it_rows i)) sel).
Lemma sel_eliminated : concat (map entries (filter cd_eliminated (of_Jpi jp out))) = elim_rows.
Proof.
  assert (S : forall l, filter cd_eliminated (of_Jpi jp l) = of_Jpi jp (eliminated_data l)).
  { intros l. unfold of_Jpi, eliminated_data. rewrite !filter_filter. apply filter_ext. intros d. apply andb_comm. }
  rewrite S, (co_entries _ _ Hout), <- S, sel_data, concat_filter, map_map. unfold elim_rows.
  assert (G : forall l, (forall i, In i l -> item_ok i) -> concat (map entries (concat (map (fun i => filter cd_eliminated (it_ds i)) l))) =
    concat (map (fun i => map (fun x => (rs_energy x, rs_eliminated x)) (it_rows i)) l)).
  { induction l as [|i l IH]; intros H; [reflexivity|]. cbn [map concat]. rewrite map_app, concat_app, IH by (intros x Hx; apply H; right; exact Hx).
    f_equal. apply io_elim. apply H. left. reflexivity. }
  apply G, sel_ok.
Qed.
Lemma elim_energies : map fst elim_rows = concat (map it_energies sel).
Proof.
  unfold elim_rows. rewrite concat_map, map_map. f_equal. apply map_ext. intros i. unfold it_energies. rewrite map_map. reflexivity.
Qed.
Lemma out_consistent d : In d (of_Jpi jp out) -> consistent d.
Proof. intros H. apply of_Jpi_In in H as [H _]. exact (co_consistent _ _ Hout d H). Qed.
Lemma item_nodup i : In i sel -> NoDup (it_energies i).
Proof.
  intros Hi. apply in_split in Hi as (a & b & E). rewrite E, map_app, concat_app in HN. cbn [map concat] in HN.
  apply nodup_app_elim in HN as (_ & H & _). apply nodup_app_elim in H as (H & _). exact H.
Qed.
Lemma ordinary_place k d : nth_error (filter (fun d => negb (cd_eliminated d)) (of_Jpi jp out)) k = Some d ->
  exists a i b c, sel = a ++ i :: b /\ k = (length (concat (map it_D a)) + c)%nat /\ nth_error (it_D i) c = Some d.
Proof.
  rewrite sel_ordinary. intros H. destruct (chunk _ _ _ H) as (pre & ch & post & c & E & Ek & Hc).
  destruct (map_chunk _ _ _ _ _ E) as (a & i & b & Ea & -> & -> & ->). exists a, i, b, c. auto.
Qed.
Lemma elim_cases : (forall d, In d (of_Jpi jp out) -> ordinary d) /\ elim_rows = [] \/
  exists d, In d (of_Jpi jp out) /\ cd_eliminated d = true /\ entries d = elim_rows.
Proof.
  destruct (consolidated_one _ _ jp Hout) as [H|(a & d & b & E & Ed & H)].
  - left. split; [exact H|]. rewrite <- sel_eliminated, filter_none by exact H. reflexivity.
  - right. exists d. split; [rewrite E; apply in_or_app; right; left; reflexivity|]. split; [exact Ed|].
    rewrite <- sel_eliminated, E, filter_app. cbn [filter]. rewrite Ed.
    rewrite !filter_none by (intros x Hx; apply H, in_or_app; auto). cbn. rewrite app_nil_r. reflexivity.
Qed.
Lemma out_distinct d : In d (of_Jpi jp out) -> distinct_energies d.
Proof.
  intros Hd. unfold distinct_energies. destruct (cd_eliminated d) eqn:Ed.
  - rewrite <- (fst_entries d (out_consistent d Hd)).
    destruct elim_cases as [[H _]|(d' & Hd' & Ed' & H)]; [specialize (H d Hd); unfold ordinary in H; congruence|].
    assert (d = d').
    { destruct (consolidated_one _ _ jp Hout) as [O|(a & x & b & E & Ex & O)]; [specialize (O d Hd); unfold ordinary in O; congruence|].
      assert (G : forall y, In y (of_Jpi jp out) -> cd_eliminated y = true -> y = x).
      { intros y Hy Ey. rewrite E in Hy. apply in_app_or in Hy as [Hy|[Hy|Hy]]; [| congruence |]; (assert (Oy : ordinary y) by (apply O, in_or_app; auto)); unfold ordinary in Oy; congruence. }
      rewrite (G d Hd Ed), (G d' Hd' Ed'). reflexivity. }
    subst d'. rewrite H, elim_energies. exact HN.
  - assert (F : In d (filter (fun d => negb (cd_eliminated d)) (of_Jpi jp out))) by (apply filter_In; split; [exact Hd | rewrite Ed; reflexivity]).
    apply In_nth_error in F as [k Hk]. destruct (ordinary_place k d Hk) as (a & i & b & c & E & _ & Hc).
    assert (Hi : In i sel) by (rewrite E; apply in_or_app; right; left; reflexivity).
    rewrite (proj1 (io_widths _ (sel_ok i Hi) c d Hc)). exact (item_nodup i Hi).
Qed.
Let whole := table_complete (of_Jpi jp out) t out_consistent out_distinct Ht.

Lemma table_nodup : NoDup (map rs_energy (t_resonances t)).
Proof. apply increasing_nodup. exact (ft_increasing _ _ Ht). Qed.
Lemma table_length r : In r (t_resonances t) -> length (rs_widths r) = length (concat (map it_D sel)).
Proof.
  intros Hr. rewrite (proj1 (proj2 whole r Hr)). unfold ordinary_channels. rewrite map_length, sel_ordinary. reflexivity.
Qed.
(** the width of a channel of an item *)
Lemma table_width a i b c d r : sel = a ++ i :: b -> nth_error (it_D i) c = Some d -> In r (t_resonances t) ->
  (forall x, In x (it_rows i) -> rs_energy r = rs_energy x ->
     nth (length (concat (map it_D a)) + c) (rs_widths r) 0 = nth (nth c (it_which i) 0%nat) (rs_widths x) 0) /\
  (~ In (rs_energy r) (it_energies i) -> nth (length (concat (map it_D a)) + c) (rs_widths r) 0 = 0).
Proof.
  intros E Hc Hr. set (k := (length (concat (map it_D a)) + c)%nat).
  assert (Hi : In i sel) by (rewrite E; apply in_or_app; right; left; reflexivity).
  assert (Hk : nth_error (filter (fun d => negb (cd_eliminated d)) (of_Jpi jp out)) k = Some d).
  { rewrite sel_ordinary, E, map_app. cbn [map]. apply chunk_at, Hc. }
  destruct (proj1 (proj2 (proj2 whole r Hr)) k d Hk) as [W1 W2]. destruct (io_widths _ (sel_ok i Hi) c d Hc) as [E1 E2]. split.
  - intros x Hx Ex. apply nth_error_nth. apply W1. rewrite Ex. unfold entries. rewrite E1, E2. unfold it_energies.
    clear -Hx. induction (it_rows i) as [|y l IH]; [destruct Hx|]. cbn [map combine]. destruct Hx as [->|Hx]; [left; reflexivity | right; apply IH, Hx].
  - intros N. apply nth_error_nth. apply W2. rewrite E1. exact N.
Qed.
Lemma table_row a i b x : sel = a ++ i :: b -> In x (it_rows i) -> exists r, In r (t_resonances t) /\ rs_energy r = rs_energy x /\
  rs_eliminated r = rs_eliminated x /\
  forall c, (c < length (it_D i))%nat -> nth (length (concat (map it_D a)) + c) (rs_widths r) 0 = nth (nth c (it_which i) 0%nat) (rs_widths x) 0.
Proof.
  intros E Hx. assert (Hi : In i sel) by (rewrite E; apply in_or_app; right; left; reflexivity).
  destruct (io_first _ (sel_ok i Hi)) as (d0 & fis & ED & _).
  assert (H0 : nth_error (it_D i) 0 = Some d0) by (rewrite ED; reflexivity).
  assert (Hd : In d0 (of_Jpi jp out)).
  { assert (F : nth_error (filter (fun d => negb (cd_eliminated d)) (of_Jpi jp out)) (length (concat (map it_D a)) + 0) = Some d0).
    { rewrite sel_ordinary, E, map_app. cbn [map]. apply chunk_at, H0. }
    apply nth_error_In in F. apply filter_In in F. apply F. }
  destruct (io_widths _ (sel_ok i Hi) 0%nat d0 H0) as [E1 E2].
  assert (He : In (rs_energy x) (cd_energies d0)) by (rewrite E1; apply in_map; exact Hx).
  rewrite <- (fst_entries d0 (out_consistent d0 Hd)) in He. apply in_map_iff in He as ([e w] & Q & He). cbn in Q. subst e.
  destruct (proj1 whole d0 _ _ Hd He) as (r & Hr & Er). exists r. split; [exact Hr|]. split; [exact Er|]. split.
  - assert (Hin : In (rs_energy x, rs_eliminated x) elim_rows).
    { unfold elim_rows. apply in_concat. eexists. split; [apply in_map; exact Hi|]. cbn beta. apply (in_map (fun x => (rs_energy x, rs_eliminated x))). exact Hx. }
    destruct elim_cases as [[_ Z]|(d & Hd' & Ed & Z)]; [rewrite Z in Hin; destruct Hin|].
    destruct (proj1 (proj2 (proj2 (proj2 whole r Hr))) d Hd' Ed) as [W _]. apply W. rewrite Er, Z. exact Hin.
  - intros c Hc. destruct (nth_error (it_D i) c) as [d|] eqn:Ec; [|apply nth_error_None in Ec; lia].
    exact (proj1 (table_width a i b c d r E Ec Hr) x Hx Er).
Qed.
Lemma table_other a i b r k : sel = a ++ i :: b -> In r (t_resonances t) -> (k < length (concat (map it_D sel)))%nat ->
  (k < length (concat (map it_D a)) \/ length (concat (map it_D a)) + length (it_D i) <= k)%nat -> In (rs_energy r) (it_energies i) ->
  nth k (rs_widths r) 0 = 0.
Proof.
  intros E Hr Hk Ho He. destruct (nth_error (filter (fun d => negb (cd_eliminated d)) (of_Jpi jp out)) k) as [d|] eqn:Ek.
  - destruct (ordinary_place k d Ek) as (a' & i' & b' & c & E' & Ek' & Hc).
    destruct (in_dec Req_EM_T (rs_energy r) (it_energies i')) as [He'|He'].
    + exfalso. rewrite E in E'. pose proof HN as HN'. rewrite E in HN'. destruct (same_place it_energies (rs_energy r) a i b a' i' b' E' HN' He He') as [<- <-].
      assert (c < length (it_D i))%nat by (apply nth_error_Some; congruence). lia.
    + rewrite Ek'. apply (proj2 (table_width a' i' b' c d r E' Hc Hr)). exact He'.
  - rewrite sel_ordinary in Ek. apply nth_error_None in Ek. lia.
Qed.
End Group.

(** ** The incident channels are the first channels of the items *)
Lemma incident_app s a b : determineIncident s (a ++ b) = determineIncident s a ++ determineIncident (s + length a) b.
Proof.
  revert s. induction a as [|c a IH]; intros s; cbn [app determineIncident length]; [rewrite Nat.add_0_r; reflexivity|].
  rewrite IH. replace (s + S (length a))%nat with (S s + length a)%nat by lia. destruct (isIncidentChannel c); reflexivity.
Qed.
Lemma incident_none s a : (forall c, In c a -> isIncidentChannel c = false) -> determineIncident s a = [].
Proof.
  revert s. induction a as [|c a IH]; intros s H; [reflexivity|]. cbn [determineIncident]. rewrite (H c (or_introl eq_refl)). apply IH. intros x Hx. apply H. right. exact Hx.
Qed.
(** only the first channel is an incident channel *)
Definition leads (i : item) : Prop := forall k d, nth_error (it_D i) k = Some d -> isIncidentChannel (cd_channel d) = Nat.eqb k 0.
Lemma offsets_sum (F : nat -> R) (V : item -> R) l : (forall i, In i l -> leads i /\ it_D i <> []) -> forall pre,
  (forall a i b, pre ++ l = a ++ i :: b -> (length pre <= length a)%nat -> F (length (concat (map it_D a))) = V i) ->
  Rsum (map F (determineIncident (length (concat (map it_D pre))) (map cd_channel (concat (map it_D l))))) = Rsum (map V l).
Proof.
  induction l as [|i l IH]; intros H pre HF; [reflexivity|]. cbn [map concat]. rewrite map_app, incident_app, map_app, Rsum_app, map_length.
  destruct (H i (or_introl eq_refl)) as [Hi Ni]. rewrite Rsum_cons. f_equal.
  - unfold leads in Hi. destruct (it_D i) as [|d ds] eqn:ED; [congruence|]. cbn [map determineIncident]. rewrite (Hi 0%nat d eq_refl). cbn [Nat.eqb].
    rewrite incident_none.
    + cbn [map]. rewrite Rsum_cons, Rsum_nil, Rplus_0_r. apply (HF pre i l); [reflexivity | lia].
    + intros c Hc. apply in_map_iff in Hc as (d' & <- & Hd). apply In_nth_error in Hd as [k Hk]. rewrite (Hi (S k) d' Hk). reflexivity.
  - replace (length (concat (map it_D pre)) + length (it_D i))%nat with (length (concat (map it_D (pre ++ [i])))).
    2:{ rewrite map_app, concat_app, app_length. cbn [map concat]. rewrite app_nil_r. reflexivity. }
    apply IH; [intros x Hx; apply H; right; exact Hx|]. intros a x b E L. rewrite <- app_assoc in E. apply (HF a x b E). rewrite app_length in L. lia.
Qed.
