(** Resonance tables from channel data. *)
From Coq Require Import String List ZArith Reals Bool Sorted Lra Lia Permutation.
From Verif Require Import Outcome QuantumModel RMatrixModel ChannelModel BreitWignerModel ListFacts GridSpec AssemblyModel AssemblySpec.
Import ListNotations.
Open Scope R_scope.

(** * Lists *)
Lemma assign_length {A} i (x : A) l : (i < length l)%nat -> length (assign_at i x l) = length l.
Proof.
  intros H. unfold assign_at. rewrite app_length, firstn_length_le by lia. cbn [length]. rewrite skipn_length. lia.
Qed.
Lemma assign_nth {A} i (x d : A) l k : (i < length l)%nat -> nth k (assign_at i x l) d = if Nat.eqb k i then x else nth k l d.
Proof.
  intros H. unfold assign_at. destruct (Nat.eqb_spec k i) as [->|N].
  - rewrite app_nth2; rewrite firstn_length_le by lia; [|lia]. rewrite Nat.sub_diag. reflexivity.
  - destruct (Nat.lt_ge_cases k i) as [L|G].
    + rewrite app_nth1 by (rewrite firstn_length_le by lia; lia).
      rewrite <- (firstn_skipn i l) at 2. rewrite app_nth1 by (rewrite firstn_length_le by lia; lia). reflexivity.
    + rewrite app_nth2; rewrite firstn_length_le by lia; [|lia]. destruct (k - i)%nat as [|m] eqn:E; [lia|]. cbn [nth].
      rewrite <- (firstn_skipn (S i) l) at 2. rewrite app_nth2; rewrite firstn_length_le by lia; [|lia]. f_equal. lia.
Qed.
Lemma erase_app {A} (a : list A) x b : erase_at (length a) (a ++ x :: b) = a ++ b.
Proof.
  unfold erase_at. rewrite firstn_app, Nat.sub_diag, firstn_all. cbn [firstn]. rewrite app_nil_r. f_equal.
  rewrite skipn_app. rewrite skipn_all2 by lia. replace (S (length a) - length a)%nat with 1%nat by lia. reflexivity.
Qed.

(** * The map *)
Section Map.
Variable n : nat.
Lemma addWidth_keys m e w i : increasing (map fst m) ->
  increasing (map fst (addWidth n m e w i)) /\ forall x, In x (map fst (addWidth n m e w i)) <-> x = e \/ In x (map fst m).
Proof.
  induction m as [|[e' ws] m IH]; cbn [addWidth map fst]; intros H.
  - split; [repeat constructor|]. intros x. cbn. intuition.
  - inversion H as [|? ? H1 H2]; subst. destruct (Rlt_dec e e') as [L|L]; cbn [map fst].
    + split; [|intros x; cbn; intuition]. constructor; [exact H|]. constructor; [exact L|].
      eapply Forall_impl; [|exact H2]. intros y Hy. cbn in Hy. lra.
    + destruct (Req_EM_T e e') as [E|E]; cbn [map fst].
      * subst. split; [exact H|]. intros x; cbn; intuition.
      * destruct (IH H1) as [I1 I2]. split; [|intros x; cbn; rewrite I2; intuition]. constructor; [exact I1|].
        apply Forall_forall. intros y Hy. apply I2 in Hy as [-> | Hy]; [lra|]. rewrite Forall_forall in H2. exact (H2 y Hy).
Qed.
Lemma addWidth_In m e w i x ws : increasing (map fst m) -> In (x, ws) (addWidth n m e w i) ->
  (x <> e /\ In (x, ws) m) \/
  (x = e /\ ((exists ws0, In (e, ws0) m /\ ws = assign_at i w ws0) \/ (~ In e (map fst m) /\ ws = assign_at i w (repeat 0 n)))).
Proof.
  induction m as [|[e' ws'] m IH]; cbn [addWidth map fst]; intros H Hx.
  - destruct Hx as [Hx|[]]. inversion Hx; subst. right. split; [reflexivity|]. right. split; [intros []|reflexivity].
  - inversion H as [|? ? H1 H2]; subst. rewrite Forall_forall in H2.
    assert (Big : forall y vs, In (y, vs) m -> e' < y) by (intros y vs Hy; apply H2, (in_map fst _ _ Hy)).
    destruct (Rlt_dec e e') as [L|L].
    + destruct Hx as [Hx|Hx].
      * inversion Hx; subst. right. split; [reflexivity|]. right. split; [|reflexivity]. intros [Q|Q]; [lra|]. specialize (H2 _ Q). lra.
      * left. split; [|exact Hx]. destruct Hx as [Hx|Hx]; [inversion Hx; subst; lra | specialize (Big _ _ Hx); lra].
    + destruct (Req_EM_T e e') as [E|E].
      * subst e'. destruct Hx as [Hx|Hx].
        -- inversion Hx; subst. right. split; [reflexivity|]. left. exists ws'. split; [left; reflexivity | reflexivity].
        -- left. specialize (Big _ _ Hx). split; [lra | right; exact Hx].
      * destruct Hx as [Hx|Hx].
        -- inversion Hx; subst. left. split; [lra | left; reflexivity].
        -- destruct (IH H1 Hx) as [[A B]|[A [[ws0 [B C]]|[B C]]]]; [left; split; [exact A | right; exact B]| |]; right; (split; [exact A|]).
           ++ left. exists ws0. split; [right; exact B | exact C].
           ++ right. split; [|exact C]. intros [Q|Q]; [lra | contradiction].
Qed.

(** A history of assignments and the number it leaves in a place *)
Definition update : Type := (R * R * nat)%type.
Definition value (ups : list update) (e : R) (i : nat) : R :=
  fold_left (fun v u => if Reqb (fst (fst u)) e && Nat.eqb (snd u) i then snd (fst u) else v) ups 0.
Record invariant (m : width_map) (ups : list update) : Prop := mkInv
  { iv_sorted : increasing (map fst m);
    iv_keys : forall x, In x (map fst m) <-> In x (map (fun u => fst (fst u)) ups);
    iv_length : forall x ws, In (x, ws) m -> length ws = n;
    iv_value : forall x ws i, In (x, ws) m -> (i < n)%nat -> nth i ws 0 = value ups x i }.
Lemma value_snoc ups e i u : value (ups ++ [u]) e i =
  if Reqb (fst (fst u)) e && Nat.eqb (snd u) i then snd (fst u) else value ups e i.
Proof. unfold value. rewrite fold_left_app. reflexivity. Qed.
Lemma value_absent ups e i : ~ In e (map (fun u => fst (fst u)) ups) -> value ups e i = 0.
Proof.
  unfold value. intros H. assert (G : forall v, fold_left (fun v u => if Reqb (fst (fst u)) e && Nat.eqb (snd u) i then snd (fst u) else v) ups v = v); [|apply G].
  induction ups as [|u ups IH]; intros v; cbn [fold_left]; [reflexivity|]. cbn [map] in H. rewrite Reqb_neq by (intros Q; apply H; left; exact Q). cbn [andb].
  apply IH. intros Q. apply H. right. exact Q.
Qed.
Lemma nth_zeros i k : nth i (repeat 0 k) 0 = 0.
Proof. revert i. induction k as [|k IH]; intros [|i]; cbn; try reflexivity. apply IH. Qed.
Lemma step_invariant m ups e w i : invariant m ups -> (i < n)%nat -> invariant (addWidth n m e w i) (ups ++ [(e, w, i)]).
Proof.
  intros [S K L V] Hi. destruct (addWidth_keys m e w i S) as [S' K']. constructor; [exact S'| | |].
  - intros x. rewrite K', K, map_app, in_app_iff. cbn. intuition.
  - intros x ws Hx. destruct (addWidth_In _ _ _ _ _ _ S Hx) as [[_ H]|[-> [[ws0 [H ->]]|[H ->]]]]; [exact (L _ _ H) | |].
    + rewrite assign_length; [exact (L _ _ H) | rewrite (L _ _ H); exact Hi].
    + rewrite assign_length; rewrite repeat_length; [reflexivity | exact Hi].
  - intros x ws k Hx Hk. rewrite value_snoc. cbn [fst snd].
    destruct (addWidth_In _ _ _ _ _ _ S Hx) as [[N H]|[-> [[ws0 [H ->]]|[H ->]]]].
    + rewrite Reqb_neq by (intros Q; apply N; symmetry; exact Q). cbn [andb]. exact (V _ _ _ H Hk).
    + rewrite Reqb_refl. cbn [andb]. rewrite assign_nth by (rewrite (L _ _ H); exact Hi). rewrite (Nat.eqb_sym i k).
      destruct (Nat.eqb k i); [reflexivity | exact (V _ _ _ H Hk)].
    + rewrite Reqb_refl. cbn [andb]. rewrite assign_nth by (rewrite repeat_length; exact Hi). rewrite (Nat.eqb_sym i k).
      destruct (Nat.eqb k i); [reflexivity|]. rewrite nth_zeros. symmetry. apply value_absent. rewrite <- K. exact H.
Qed.

Definition updates (p : channel_data * nat) : list update := map (fun ew => (fst ew, snd ew, snd p)) (entries (fst p)).
Lemma channel_invariant m ups p : invariant m ups -> (snd p < n)%nat -> invariant (addWidthsToMap n m p) (ups ++ updates p).
Proof.
  intros I Hp. unfold addWidthsToMap, updates. fold (entries (fst p)). revert m ups I.
  induction (entries (fst p)) as [|[e w] es IH]; intros m ups I; cbn [fold_left map fst snd]; [rewrite app_nil_r; exact I|].
  specialize (IH _ _ (step_invariant m ups e w (snd p) I Hp)). rewrite <- app_assoc in IH. exact IH.
Qed.
Lemma all_invariant ps : forall m ups, invariant m ups -> (forall p, In p ps -> (snd p < n)%nat) ->
  invariant (fold_left (addWidthsToMap n) ps m) (ups ++ concat (map updates ps)).
Proof.
  induction ps as [|p ps IH]; intros m ups I H; cbn [fold_left map concat]; [rewrite app_nil_r; exact I|].
  rewrite app_assoc. apply IH; [|intros q Hq; apply H; right; exact Hq]. apply channel_invariant; [exact I|]. apply H. left. reflexivity.
Qed.
Lemma empty_invariant : invariant [] [].
Proof. constructor; [constructor| intros x; reflexivity | intros x ws [] | intros x ws i []]. Qed.
End Map.

(** * The width a channel has at an energy *)
Definition width_value (d : channel_data) (e : R) : R :=
  fold_left (fun v ew => if Reqb (fst ew) e then snd ew else v) (entries d) 0.
Lemma last_entry (es : list (R * R)) e : forall v,
  (exists a w b, es = a ++ (e, w) :: b /\ ~ In e (map fst b) /\ fold_left (fun v ew => if Reqb (fst ew) e then snd ew else v) es v = w) \/
  (~ In e (map fst es) /\ fold_left (fun v ew => if Reqb (fst ew) e then snd ew else v) es v = v).
Proof.
  induction es as [|[x w] es IH]; intros v; cbn [fold_left map fst snd]; [right; split; [intros []|reflexivity]|].
  destruct (IH (if Reqb x e then w else v)) as [(a & u & b & -> & N & H)|[N H]].
  - left. exists ((x, w) :: a), u, b. split; [reflexivity|]. split; [exact N | exact H].
  - unfold Reqb in *. destruct (Req_EM_T x e) as [->|E].
    + left. exists [], w, es. split; [reflexivity|]. split; [exact N | exact H].
    + right. split; [|exact H]. intros [Q|Q]; contradiction.
Qed.
Lemma fst_entries d : consistent d -> map fst (entries d) = cd_energies d.
Proof.
  unfold consistent, entries. generalize (cd_widths d). induction (cd_energies d) as [|e es IH]; intros [|w ws] H; cbn in *; try reflexivity; try discriminate.
  f_equal. apply IH. lia.
Qed.
Lemma width_value_spec d e : consistent d -> width_at d e (width_value d e).
Proof.
  intros C. unfold width_value. destruct (last_entry (entries d) e 0) as [(a & w & b & E & N & H)|[N H]]; [left|right].
  - rewrite H. exists a, b. split; assumption.
  - rewrite H. rewrite fst_entries in N by exact C. split; [exact N | reflexivity].
Qed.
Lemma app_last_unique {A B} (a a' b b' : list (A * B)) e w w' : a ++ (e, w) :: b = a' ++ (e, w') :: b' ->
  ~ In e (map fst b) -> ~ In e (map fst b') -> w = w'.
Proof.
  revert a'. induction a as [|p a IH]; intros [|p' a'] E N N'; cbn [app] in E.
  - injection E as -> _. reflexivity.
  - injection E as _ E. exfalso. apply N. rewrite E, map_app. apply in_or_app. right. left. reflexivity.
  - injection E as _ E. exfalso. apply N'. rewrite <- E, map_app. apply in_or_app. right. left. reflexivity.
  - injection E as _ E. exact (IH _ E N N').
Qed.
Lemma width_at_unique d e w w' : consistent d -> width_at d e w -> width_at d e w' -> w = w'.
Proof.
  intros C [(a & b & E & N)|[N ->]] [(a' & b' & E' & N')|[N' ->]]; try reflexivity.
  - rewrite E in E'. exact (app_last_unique _ _ _ _ _ _ _ E' N N').
  - exfalso. apply N'. rewrite <- (fst_entries d C), E, map_app. apply in_or_app. right. left. reflexivity.
  - exfalso. apply N. rewrite <- (fst_entries d C), E', map_app. apply in_or_app. right. left. reflexivity.
Qed.
(** With distinct energies the width is the listed one *)
Lemma width_at_listed d e w : consistent d -> distinct_energies d -> In (e, w) (entries d) -> width_at d e w.
Proof.
  intros C D H. left. apply in_split in H as (a & b & E). exists a, b. split; [exact E|].
  unfold distinct_energies in D. rewrite <- (fst_entries d C), E, map_app in D. cbn [map fst] in D. apply NoDup_remove_2 in D.
  intros Q. apply D. apply in_or_app. right. exact Q.
Qed.

(** The history of all channels, seen from one of them *)
Lemma value_app ups vs e i : value (ups ++ vs) e i =
  fold_left (fun v u => if Reqb (fst (fst u)) e && Nat.eqb (snd u) i then snd (fst u) else v) vs (value ups e i).
Proof. unfold value. apply fold_left_app. Qed.
Lemma other_updates p e i : snd p <> i -> forall v,
  fold_left (fun v u => if Reqb (fst (fst u)) e && Nat.eqb (snd u) i then snd (fst u) else v) (updates p) v = v.
Proof.
  intros N. unfold updates. induction (entries (fst p)) as [|[x w] es IH]; intros v; cbn [map fold_left fst snd]; [reflexivity|].
  apply Nat.eqb_neq in N. rewrite N, andb_false_r. apply IH.
Qed.
Lemma own_updates p e : forall v,
  fold_left (fun v u => if Reqb (fst (fst u)) e && Nat.eqb (snd u) (snd p) then snd (fst u) else v) (updates p) v =
  fold_left (fun v ew => if Reqb (fst ew) e then snd ew else v) (entries (fst p)) v.
Proof.
  unfold updates. induction (entries (fst p)) as [|[x w] es IH]; intros v; cbn [map fold_left fst snd]; [reflexivity|].
  rewrite Nat.eqb_refl, andb_true_r. apply IH.
Qed.
Lemma history_before data : forall start ups e i, (i < start)%nat ->
  value (ups ++ concat (map updates (combine data (seq start (length data))))) e i = value ups e i.
Proof.
  induction data as [|d data IH]; intros start ups e i H; cbn [length seq combine map concat]; [rewrite app_nil_r; reflexivity|].
  rewrite app_assoc, IH by lia. rewrite value_app. apply other_updates. cbn. lia.
Qed.
Lemma history_value data : forall start ups e, (forall i, (start <= i)%nat -> value ups e i = 0) ->
  map (value (ups ++ concat (map updates (combine data (seq start (length data))))) e) (seq start (length data)) =
  map (fun d => width_value d e) data.
Proof.
  induction data as [|d data IH]; intros start ups e H; [reflexivity|]. cbn [length seq combine map concat]. rewrite app_assoc. f_equal.
  - rewrite history_before by lia. rewrite value_app. rewrite (own_updates (d, start)). cbn [fst snd]. rewrite H by lia. reflexivity.
  - apply IH. intros i Hi. rewrite value_app, other_updates by (cbn; lia). apply H. lia.
Qed.
Lemma seq_nth_map (ws : list R) : ws = map (fun i => nth i ws 0) (seq 0 (length ws)).
Proof.
  induction ws as [|w ws IH]; [reflexivity|]. cbn [length seq map nth]. f_equal. rewrite <- seq_shift, map_map. exact IH.
Qed.

(** * The map of all channels *)
Definition full_map (data : list channel_data) : width_map :=
  fold_left (addWidthsToMap (length data)) (combine data (seq 0 (length data))) [].
Lemma full_map_spec data : (forall d, In d data -> consistent d) ->
  increasing (map fst (full_map data)) /\
  (forall e, In e (map fst (full_map data)) <-> exists d, In d data /\ In e (cd_energies d)) /\
  (forall e ws, In (e, ws) (full_map data) -> ws = map (fun d => width_value d e) data).
Proof.
  intros C. unfold full_map.
  assert (I : invariant (length data) (fold_left (addWidthsToMap (length data)) (combine data (seq 0 (length data))) [])
                ([] ++ concat (map updates (combine data (seq 0 (length data)))))).
  { apply all_invariant; [apply empty_invariant|]. intros [d i] H. apply in_combine_r in H. apply in_seq in H. cbn. lia. }
  destruct I as [S K L V]. split; [exact S|]. split.
  - intros e. rewrite K. cbn [app]. rewrite in_map_iff. split.
    + intros (u & E & H). apply in_concat in H as (us & H1 & H2). apply in_map_iff in H1 as ([d i] & <- & H1).
      unfold updates in H2. apply in_map_iff in H2 as ([x w] & <- & H2). cbn in E, H2. subst x. exists d. split; [exact (in_combine_l _ _ _ _ H1)|].
      exact (in_combine_l _ _ _ _ H2).
    + intros (d & H1 & H2). rewrite <- (fst_entries d (C d H1)) in H2. apply in_map_iff in H2 as ([x w] & E & H2). cbn in E. subst x.
      assert (G : forall start, exists i, In (d, i) (combine data (seq start (length data)))).
      { clear -H1. induction data as [|d' data IH]; [destruct H1|]. intros start. cbn [length seq combine].
        destruct H1 as [-> | H1]; [exists start; left; reflexivity|]. destruct (IH H1 (S start)) as [i Hi]. exists i. right. exact Hi. }
      destruct (G 0%nat) as [i Hi]. exists (e, w, i). split; [reflexivity|]. apply in_concat. exists (updates (d, i)).
      split; [apply in_map; exact Hi|]. unfold updates. apply in_map_iff. exists (e, w). split; [reflexivity | exact H2].
  - intros e ws H. pose proof (L _ _ H) as Ll. rewrite (seq_nth_map ws), Ll.
    rewrite <- (history_value data 0 [] e) by (intros; reflexivity). apply map_ext_in. intros i Hi. apply in_seq in Hi.
    apply (V _ _ _ H). lia.
Qed.

(** * The eliminated channel *)
Lemma find_index_app (a : list channel_data) d b : cd_eliminated d = true -> (forall x, In x a -> ordinary x) ->
  find_index cd_eliminated (a ++ d :: b) = length a.
Proof.
  intros Hd. induction a as [|x a IH]; intros H; cbn [app find_index length]; [rewrite Hd; reflexivity|].
  rewrite (H x (or_introl eq_refl)). f_equal. apply IH. intros y Hy. apply H. right. exact Hy.
Qed.
Lemma find_index_none (l : list channel_data) : (forall x, In x l -> ordinary x) -> find_index cd_eliminated l = length l.
Proof.
  induction l as [|x l IH]; intros H; cbn [find_index length]; [reflexivity|]. rewrite (H x (or_introl eq_refl)). f_equal. apply IH.
  intros y Hy. apply H. right. exact Hy.
Qed.
Lemma filter_none (l : list channel_data) : (forall x, In x l -> ordinary x) -> filter cd_eliminated l = [].
Proof.
  induction l as [|x l IH]; intros H; cbn [filter]; [reflexivity|]. rewrite (H x (or_introl eq_refl)). apply IH. intros y Hy. apply H. right. exact Hy.
Qed.
Lemma ordinary_all (l : list channel_data) : (forall x, In x l -> ordinary x) -> filter (fun d => negb (cd_eliminated d)) l = l.
Proof.
  induction l as [|x l IH]; intros H; cbn [filter]; [reflexivity|]. rewrite (H x (or_introl eq_refl)). cbn [negb]. f_equal. apply IH. intros y Hy. apply H. right. exact Hy.
Qed.
Lemma eliminated_split (l : list channel_data) :
  (forall x, In x l -> ordinary x) \/ exists a d b, l = a ++ d :: b /\ cd_eliminated d = true /\ forall x, In x a -> ordinary x.
Proof.
  induction l as [|x l [IH|(a & d & b & -> & H1 & H2)]]; [left; intros x []| |].
  - destruct (cd_eliminated x) eqn:E; [right; exists [], x, l; split; [reflexivity|]; split; [exact E | intros y []]|].
    left. intros y [<-|Hy]; [exact E | exact (IH y Hy)].
  - right. destruct (cd_eliminated x) eqn:E; [exists [], x, (a ++ d :: b) | exists (x :: a), d, b]; (split; [reflexivity|]; split; [assumption|]).
    + intros y [].
    + intros y [<-|Hy]; [exact E | exact (H2 y Hy)].
Qed.
Lemma one_eliminated_count l : one_eliminated l <-> (length (filter cd_eliminated l) <= 1)%nat.
Proof.
  split.
  - intros [H|(a & d & b & -> & Hd & H)]; [rewrite filter_none by exact H; cbn; lia|].
    rewrite filter_app. cbn [filter]. rewrite Hd, !filter_none; [cbn; lia| |]; intros x Hx; apply H, in_or_app; auto.
  - intros L. destruct (eliminated_split l) as [H|(a & d & b & -> & Hd & H)]; [left; exact H | right]. exists a, d, b. split; [reflexivity|].
    split; [exact Hd|]. rewrite filter_app, (filter_none a H) in L. cbn [app filter] in L. rewrite Hd in L. cbn [length] in L.
    intros x Hx. apply in_app_or in Hx as [Hx|Hx]; [exact (H x Hx)|].
    destruct (cd_eliminated x) eqn:E; [|exact E]. exfalso. assert (G : In x (filter cd_eliminated b)) by (apply filter_In; split; assumption).
    destruct (filter cd_eliminated b); [destruct G | cbn in L; lia].
Qed.

Lemma makeTable_ok ids rs : (forall r, In r rs -> length (rs_widths r) = length ids) -> makeTable ids rs = Ok (mkTable ids rs).
Proof.
  intros H. unfold makeTable. assert (G : foldM (fun _ r => check (Nat.eqb (length ids) (length (rs_widths r)))) rs tt = Ok tt); [|rewrite G; reflexivity].
  induction rs as [|r rs IH]; [reflexivity|]. cbn [foldM]. rewrite (H r (or_introl eq_refl)), Nat.eqb_refl. cbn. apply IH. intros x Hx. apply H. right. exact Hx.
Qed.

Theorem resonance_table data : (forall d, In d data -> consistent d) -> one_eliminated data ->
  exists t, makeResonanceTable data = Ok t /\ faithful_table data t /\
    t_channels t = map (fun d => c_id (cd_channel d)) (filter (fun d => negb (cd_eliminated d)) data).
Proof.
  intros C O. destruct (full_map_spec data C) as (S & K & V). unfold makeResonanceTable. fold (full_map data).
  pose proof (proj1 (one_eliminated_count data) O) as N. replace (Nat.ltb 1 (length (filter cd_eliminated data))) with false by (symmetry; apply Nat.ltb_ge; lia).
  assert (W : forall e l, (forall d, In d l -> In d data) -> Forall2 (fun d w => width_at d e w) l (map (fun d => width_value d e) l)).
  { intros e l. induction l as [|d l IH]; intros H; cbn [map]; constructor; [apply width_value_spec, C, H; left; reflexivity|].
    apply IH. intros x Hx. apply H. right. exact Hx. }
  destruct O as [H|(a & d & b & E & Hd & H)].
  - rewrite (filter_none data H). cbn [length Nat.eqb]. rewrite (ordinary_all data H).
    rewrite makeTable_ok; [eexists; split; [reflexivity|]; split; [|reflexivity]; constructor; cbn [t_resonances]|].
    + rewrite map_map. rewrite (map_ext _ fst) by (intros [e ws]; reflexivity). exact S.
    + intros e. rewrite map_map, (map_ext _ fst) by (intros [x ws]; reflexivity). apply K.
    + intros r Hr. apply in_map_iff in Hr as ([e ws] & <- & Hr). cbn [toResonance rs_energy rs_widths rs_eliminated fst snd].
      rewrite (V _ _ Hr). constructor; [apply Forall_forall; exact H | apply W; auto].
    + intros r Hr. apply in_map_iff in Hr as ([e ws] & <- & Hr). cbn [toResonance rs_widths snd]. rewrite (V _ _ Hr), !map_length. reflexivity.
  - assert (Ha : forall x, In x a -> ordinary x) by (intros x Hx; apply H, in_or_app; auto).
    assert (Hb : forall x, In x b -> ordinary x) by (intros x Hx; apply H, in_or_app; auto).
    assert (F : find_index cd_eliminated data = length a) by (rewrite E; apply find_index_app; assumption). rewrite F.
    assert (L : length (filter cd_eliminated data) = 1%nat) by (rewrite E, filter_app; cbn [filter]; rewrite Hd, !filter_none by assumption; reflexivity).
    rewrite L. cbn [Nat.eqb]. assert (Er : forall B (f : channel_data -> B), erase_at (length a) (map f data) = map f a ++ map f b).
    { intros B f. rewrite E, map_app. cbn [map]. rewrite <- (map_length f a). apply erase_app. }
    assert (O : filter (fun d => negb (cd_eliminated d)) data = a ++ b).
    { rewrite E, filter_app. cbn [filter]. rewrite Hd. cbn [negb]. rewrite !ordinary_all by assumption. reflexivity. }
    rewrite Er, O. rewrite makeTable_ok; [eexists; split; [reflexivity|]; split; [|cbn [t_channels]; rewrite map_app; reflexivity]; constructor; cbn [t_resonances]|].
    + rewrite map_map. rewrite (map_ext _ fst) by (intros [e ws]; reflexivity). exact S.
    + intros e. rewrite map_map, (map_ext _ fst) by (intros [x ws]; reflexivity). apply K.
    + intros r Hr. apply in_map_iff in Hr as ([e ws] & <- & Hr). cbn [toResonance rs_energy rs_widths rs_eliminated fst snd].
      rewrite (V _ _ Hr), Er. rewrite E at 1 2. rewrite (map_app (fun d => width_value d e)). cbn [map].
      replace (nth (length a) _ 0) with (width_value d e) by (rewrite <- (map_length (fun d => width_value d e) a), nth_middle; reflexivity).
      apply row_one; [exact Hd | apply Forall_forall; exact Ha | apply Forall_forall; exact Hb | | |].
      * apply W. intros x Hx. rewrite E. apply in_or_app. left. exact Hx.
      * apply W. intros x Hx. rewrite E. apply in_or_app. right. right. exact Hx.
      * apply width_value_spec, C. rewrite E. apply in_or_app. right. left. reflexivity.
    + intros r Hr. apply in_map_iff in Hr as ([e ws] & <- & Hr). cbn [toResonance rs_widths snd]. rewrite (V _ _ Hr), Er, !app_length, !map_length. reflexivity.
Qed.
Theorem resonance_table_throws data : ~ one_eliminated data -> makeResonanceTable data = Throw (RuntimeError "std::exception").
Proof.
  intros H. unfold makeResonanceTable. replace (Nat.ltb 1 (length (filter cd_eliminated data))) with true; [reflexivity|].
  symmetry. apply Nat.ltb_lt. destruct (Nat.lt_ge_cases 1 (length (filter cd_eliminated data))) as [?|G]; [assumption|]. exfalso. apply H, one_eliminated_count. lia.
Qed.

(** The channels *)
Lemma make_channels data : one_eliminated data ->
  makeChannels data = map cd_channel (filter (fun d => negb (cd_eliminated d)) data).
Proof.
  intros [H|(a & d & b & -> & Hd & H)]; unfold makeChannels.
  - rewrite find_index_none, Nat.eqb_refl, ordinary_all by exact H. reflexivity.
  - assert (Ha : forall x, In x a -> ordinary x) by (intros x Hx; apply H, in_or_app; auto).
    assert (Hb : forall x, In x b -> ordinary x) by (intros x Hx; apply H, in_or_app; auto).
    rewrite find_index_app by assumption. rewrite app_length. cbn [length].
    replace (Nat.eqb _ _) with false by (symmetry; apply Nat.eqb_neq; lia).
    rewrite filter_app. cbn [filter]. rewrite Hd. cbn [negb]. rewrite !ordinary_all by assumption. rewrite !map_app. cbn [map].
    rewrite <- (map_length cd_channel a). apply erase_app.
Qed.
