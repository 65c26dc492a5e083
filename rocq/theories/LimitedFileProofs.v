(** The spin groups of an R-Matrix Limited file, row by row. *)
From Coq Require Import String List ZArith Reals Bool Lra Lia Permutation Sorted.
From Verif Require Import Outcome ListFacts QuantumModel HardSphereModel KinematicsModel CoulombModel RMatrixModel ChannelModel
  AssemblyModel AssemblySpec AssemblyProofs AssemblyTheorems EndfModel EndfSpec EndfProofs LimitedSpec LimitedProofs LimitedFileSpec.
Import ListNotations.
Open Scope R_scope.

(** * Lists *)
Definition picked {A B} (f : B -> bool) (l : list A) (m : list B) : list A := map fst (filter (fun p => f (snd p)) (combine l m)).
Lemma picked_Forall2 {A B} (P : A -> B -> Prop) f l m : Forall2 P l m -> Forall2 (fun a b => P a b /\ f b = true) (picked f l m) (filter f m).
Proof.
  unfold picked. induction 1 as [|a b l m H _ IH]; [constructor|]. cbn [combine filter snd]. destruct (f b) eqn:E; [|exact IH]. cbn [map fst]. constructor; auto.
Qed.
Lemma picked_sorted {A B} (R : A -> A -> Prop) f (l : list A) (m : list B) : StronglySorted R l -> StronglySorted R (picked f l m).
Proof.
  unfold picked. intros S. revert m. induction S as [|a l S IH H]; intros [|b m]; try constructor. cbn [combine filter snd]. destruct (f b); [|apply IH]. cbn [map fst]. constructor; [apply IH|].
  rewrite Forall_forall in *. intros x Hx. apply in_map_iff in Hx as ([x' y] & <- & Hx). apply filter_In in Hx as [Hx _]. apply in_combine_l in Hx. exact (H _ Hx).
Qed.
Lemma picked_In {A B} f (l : list A) (m : list B) x : In x (picked f l m) <-> exists k y, nth_error l k = Some x /\ nth_error m k = Some y /\ f y = true.
Proof.
  unfold picked. rewrite in_map_iff. split.
  - intros ([x' y] & <- & H). apply filter_In in H as [H F]. apply combine_In in H as (k & A1 & A2). exists k, y. auto.
  - intros (k & y & A1 & A2 & F). exists (x, y). split; [reflexivity|]. apply filter_In. split; [apply combine_In; exists k; auto | exact F].
Qed.

(** * The data of a group and the positions of its channels *)
Section Group.
Variables (hbar epsilon0 : R) (cwf : nat -> R -> R -> outcome coulomb).
Variables (inc : particlePair) (pairs : list particlePair) (es : list endf_pair).
Hypothesis L : length pairs = length es.
Notation pen := (channelPenetrability hbar epsilon0 cwf).
Notation good := (good hbar epsilon0 cwf inc pairs es).
Notation block := (block hbar epsilon0 cwf inc pairs es).

Record placed (g : endf_group) (ifg : Z) (i : nat) (d : channel_data) : Prop := mkPlaced
  { pl_good : good g ifg i d;
    pl_given : forall e w, given g i e w -> w <> 0 -> exists gamma, In (e, gamma) (entries d) /\ stored pen ifg (cd_channel d) e w gamma;
    pl_line : eg_NRS g <> 0%nat -> forall line, In line (eg_GAM g) -> exists w, nth_error line i = Some w }.

Lemma block_positions g ifg cs (l : list channel) : forall s dss,
  Forall2 (fun ci ds => nth_error cs (snd ci) = Some (fst ci) /\ block g ifg (snd ci) (fst ci) ds) (combine l (seq s (length l))) dss ->
  exists idx, StronglySorted lt idx /\ Forall (le s) idx /\ Forall2 (placed g ifg) idx (concat dss) /\
    forall k ds d, nth_error dss k = Some ds -> In d ds -> In (s + k)%nat idx.
Proof.
  induction l as [|c l IH]; intros s dss F; cbn [length seq combine] in F; inversion F as [|? ds ? rest [_ Hb] F']; subst.
  - exists []. split; [constructor|]. split; [constructor|]. split; [constructor|]. intros [|k] ds d E; discriminate.
  - cbn [fst snd] in Hb. destruct (IH (S s) rest F') as (idx & So & Le & Pl & In'). clear IH F F'. destruct ds as [|d [|d' ds]].
    + exists idx. split; [exact So|]. split; [eapply Forall_impl; [|exact Le]; intros; lia|]. split; [exact Pl|].
      intros [|k] ds d E Hd; cbn in E; [injection E as <-; destruct Hd|]. rewrite Nat.add_succ_r. exact (In' k ds d E Hd).
    + exists (s :: idx). split; [constructor; [exact So|]; eapply Forall_impl; [|exact Le]; intros; lia|].
      split; [constructor; [lia|]; eapply Forall_impl; [|exact Le]; intros; lia|]. split.
      * cbn [concat app]. constructor; [|exact Pl]. constructor; [apply (bl_good _ _ _ _ _ _ _ _ _ _ _ Hb); left; reflexivity | |].
        -- intros e w Hg Hw. destruct (bl_given _ _ _ _ _ _ _ _ _ _ _ Hb e w Hg Hw) as (d' & gamma & [<-|[]] & H1 & H2). exists gamma. auto.
        -- intros N line Hl. exact (bl_line _ _ _ _ _ _ _ _ _ _ _ Hb (fun X => ltac:(discriminate X)) N line Hl).
      * intros [|k] ds d0 E Hd; cbn in E; [left; lia|]. right. rewrite Nat.add_succ_r. exact (In' k ds d0 E Hd).
    + pose proof (bl_one _ _ _ _ _ _ _ _ _ _ _ Hb) as X. cbn in X. lia.
Qed.
Theorem group_positions g ifg data : makeParticleChannelData hbar epsilon0 cwf inc pairs es (negb (ifg =? 0)%Z) g = Ok (Some data) ->
  exists idx, StronglySorted lt idx /\ Forall2 (placed g ifg) idx data /\
    forall i c, channel_at inc pairs es g i c -> pp_id (c_pair c) = pp_id inc \/ has_width g i -> In i idx.
Proof.
  intros H. destruct (group_blocks hbar epsilon0 cwf inc pairs es L g ifg data H) as (cs & pr & dss & Ec & Ep & -> & F).
  destruct (block_positions g ifg cs cs 0 dss F) as (idx & So & _ & Pl & In'). exists idx. split; [exact So|]. split; [exact Pl|].
  intros i c At Hc. pose proof At as (ec & x & E1 & E2 & D). assert (Hl : (i < length cs)%nat).
  { rewrite (channels_length inc pairs es L g cs Ec). assert (A1 : (i < length (eg_channels g))%nat) by (apply nth_error_Some; congruence). assert (A2 : (i < length es)%nat) by (apply nth_error_Some; congruence). lia. }
  destruct (nth_error cs i) as [c'|] eqn:Hc'; [|apply nth_error_None in Hc'; lia].
  assert (Q : c' = c) by exact (channel_at_unique inc pairs es g i c' c (made_channels inc pairs es L g cs i c' Ec Hc') At). subst c'.
  assert (Hci : nth_error (combine cs (seq 0 (length cs))) i = Some (c, i)) by (apply combine_seq; auto).
  destruct (Forall2_nth _ _ _ _ _ F Hci) as (ds & Hds & _ & B). cbn [fst snd] in B.
  assert (X : exists d, In d ds). { destruct Hc as [Hc|(e & w & Hg & Hw)].
    - destruct (bl_incident _ _ _ _ _ _ _ _ _ _ _ B Hc) as (d & Hd & _). exists d. exact Hd.
    - destruct (bl_given _ _ _ _ _ _ _ _ _ _ _ B e w Hg Hw) as (d & gamma & Hd & _). exists d. exact Hd. }
  destruct X as (d & Hd). exact (In' i ds d Hds Hd).
Qed.

(** * The resonance of an energy *)
Definition look (d : channel_data) (e : R) : R :=
  match find (fun p => if Req_EM_T (fst p) e then true else false) (entries d) with Some p => snd p | None => 0 end.
Lemma look_width d e : consistent d -> distinct_energies d -> width_at d e (look d e).
Proof.
  intros C D. unfold look. destruct (find _ (entries d)) as [[e' w]|] eqn:E.
  - apply find_some in E as [H Q]. cbn [fst snd] in *. destruct (Req_EM_T e' e) as [->|]; [|discriminate]. exact (width_at_listed d e w C D H).
  - right. split; [|reflexivity]. intros H. rewrite <- (fst_entries d C) in H. apply in_map_iff in H as ([e' w] & Q & H). cbn in Q. subst e'.
    pose proof (find_none _ _ E _ H) as X. cbn in X. destruct (Req_EM_T e e); [discriminate | congruence].
Qed.
Definition row_of (data : list channel_data) (e : R) : resonance :=
  Resonance e (map (fun d => look d e) (filter (fun d => negb (cd_eliminated d)) data))
              (match filter cd_eliminated data with d :: _ => look d e | [] => 0 end).

Section Made.
Variables (g : endf_group) (ifg : Z) (data : list channel_data).
Hypothesis M : makeParticleChannelData hbar epsilon0 cwf inc pairs es (negb (ifg =? 0)%Z) g = Ok (Some data).
Hypothesis N : NoDup (eg_ER g).
Notation el_at := (eliminated_at pairs es g).
Notation us := (used inc pairs es g).

Lemma entries_width i d : placed g ifg i d -> entries d <> [] <-> has_width g i.
Proof.
  intros P. split.
  - destruct (entries d) as [|[e gamma] l] eqn:E; [contradiction|]. intros _. destruct (go_given _ _ _ _ _ _ _ _ _ _ (pl_good _ _ _ _ P) e gamma) as (w & Hw & Hz & _); [rewrite E; left; reflexivity|].
    exists e, w. auto.
  - intros (e & w & Hg & Hw) X. destruct (pl_given _ _ _ _ P e w Hg Hw) as (gamma & H & _). rewrite X in H. exact H.
Qed.
Lemma flag_spec i d : placed g ifg i d -> cd_eliminated d = true <-> el_at i.
Proof.
  intros P. pose proof (pl_good _ _ _ _ P) as G. split.
  - intros H. split; [exact (go_removed _ _ _ _ _ _ _ _ _ _ G H)|]. apply (entries_width i d P). exact (go_nonempty _ _ _ _ _ _ _ _ _ _ G H).
  - intros [H1 H2]. apply (go_eliminated _ _ _ _ _ _ _ _ _ _ G H1). apply (entries_width i d P). exact H2.
Qed.
Lemma used_spec i d : placed g ifg i d -> cd_eliminated d = false -> us i (cd_channel d).
Proof.
  intros P H. pose proof (pl_good _ _ _ _ P) as G. split; [exact (go_channel _ _ _ _ _ _ _ _ _ _ G)|]. split; [intros X; apply (flag_spec i d P) in X; congruence|].
  destruct (entries d) as [|x l] eqn:E; [left; exact (go_empty _ _ _ _ _ _ _ _ _ _ G E)|]. right. apply (entries_width i d P). rewrite E. discriminate.
Qed.
Lemma entry_spec i d k e line : placed g ifg i d -> eg_NRS g <> 0%nat -> nth_error (eg_ER g) k = Some e -> nth_error (eg_GAM g) k = Some line ->
  exists w, nth_error line i = Some w /\ entry pen ifg (cd_channel d) e w (look d e).
Proof.
  intros P N0 He Hl. pose proof (pl_good _ _ _ _ P) as G. destruct (pl_line _ _ _ _ P N0 line (nth_error_In _ _ Hl)) as (w & Hw). exists w. split; [exact Hw|].
  assert (Hg : given g i e w) by (split; [exact N0|]; exists k, line; auto).
  pose proof (go_consistent _ _ _ _ _ _ _ _ _ _ G) as C. pose proof (go_distinct _ _ _ _ _ _ _ _ _ _ G N) as D. pose proof (look_width d e C D) as W. split.
  - intros ->. apply (width_at_unique d e _ _ C W). right. split; [|reflexivity]. intros H. rewrite <- (fst_entries d C) in H. apply in_map_iff in H as ([e' gamma] & Q & H). cbn in Q. subst e'.
    destruct (go_given _ _ _ _ _ _ _ _ _ _ G e gamma H) as (w & (_ & k' & line' & A1 & A2 & A3) & Hz & _).
    assert (Q : k' = k). { apply (proj1 (NoDup_nth_error (eg_ER g)) N); [apply nth_error_Some; congruence | congruence]. } subst k'. rewrite Hl in A2. injection A2 as <-. congruence.
  - intros Hz. destruct (pl_given _ _ _ _ P e w Hg Hz) as (gamma & H & S). rewrite (width_at_unique d e _ gamma C W (width_at_listed d e gamma C D H)). exact S.
Qed.
Lemma eliminated_unique i k : el_at i -> el_at k -> i = k.
Proof. intros [H _] [H' _]. exact (removed_unique pairs es L g i k H H'). Qed.
Theorem file_rows : tabulated pen ifg inc pairs es g (ordinary_channels data)
  (if Nat.eqb (eg_NRS g) 0 then [] else map (fun l => row_of data (fst l)) (combine (eg_ER g) (eg_GAM g))).
Proof.
  destruct (group_positions g ifg data M) as (idx & So & Pl & All). set (f := fun d => negb (cd_eliminated d)).
  pose proof (picked_Forall2 _ f _ _ Pl) as Po. exists (picked f idx data). split; [exact (picked_sorted _ f idx data So)|]. split; [|split; [|split]].
  - unfold ordinary_channels. fold f. clear -Po. induction Po as [|i d l m [P F] _ IH]; [constructor|]. cbn [map]. constructor; [|exact IH].
    apply used_spec; [exact P|]. unfold f in F. apply negb_true_iff in F. exact F.
  - intros i c (At & Ne & Hc). pose proof (All i c At Hc) as Hi. apply In_nth_error in Hi as (k & Hk). destruct (Forall2_nth _ _ _ _ _ Pl Hk) as (d & Hd & P).
    apply picked_In. exists k, d. split; [exact Hk|]. split; [exact Hd|]. unfold f. destruct (cd_eliminated d) eqn:E; [|reflexivity]. exfalso. apply Ne. apply (flag_spec i d P). exact E.
  - intros ->. reflexivity.
  - intros N0. destruct (Nat.eqb_spec (eg_NRS g) 0) as [|_]; [contradiction|].
    assert (X : forall p, In p (combine (eg_ER g) (eg_GAM g)) -> line_of pen ifg inc pairs es g (picked f idx data) (ordinary_channels data) (fst p) (snd p) (row_of data (fst p))).
    { intros [e line] Hp. apply combine_In in Hp as (k & He & Hl). cbn [fst snd]. constructor.
      - reflexivity.
      - unfold row_of, ordinary_channels. cbn [rs_widths]. rewrite !map_length. reflexivity.
      - intros q i c Hi Hc. unfold ordinary_channels in Hc. fold f in Hc. rewrite nth_error_map in Hc. destruct (nth_error (filter f data) q) as [d|] eqn:Hd; [|discriminate]. injection Hc as <-.
        destruct (Forall2_at _ _ _ _ _ Po Hd) as (i' & Hi' & P & _). rewrite Hi in Hi'. injection Hi' as <-. destruct (entry_spec i d k e line P N0 He Hl) as (w & Hw & En).
        exists w, (look d e). split; [exact Hw|]. split; [|exact En]. unfold row_of. cbn [rs_widths]. fold f. rewrite nth_error_map, Hd. reflexivity.
      - intros i c Hel At. pose proof (All i c At (or_intror (proj2 Hel))) as Hi. apply In_nth_error in Hi as (q & Hq). destruct (Forall2_nth _ _ _ _ _ Pl Hq) as (d & Hd & P).
        assert (Ed : cd_eliminated d = true) by (apply (flag_spec i d P); exact Hel).
        destruct (entry_spec i d k e line P N0 He Hl) as (w & Hw & En). exists w. split; [exact Hw|].
        assert (Ec : cd_channel d = c) by exact (channel_at_unique inc pairs es g i _ _ (go_channel _ _ _ _ _ _ _ _ _ _ (pl_good _ _ _ _ P)) At). rewrite Ec in En.
        unfold row_of. cbn [rs_eliminated]. destruct (filter cd_eliminated data) as [|d' rest] eqn:Ef.
        + exfalso. assert (Hin : In d (filter cd_eliminated data)) by (apply filter_In; split; [exact (nth_error_In _ _ Hd) | exact Ed]). rewrite Ef in Hin. exact Hin.
        + replace d' with d; [exact En|]. destruct (group_data hbar epsilon0 cwf inc pairs es L g ifg data M) as (_ & _ & One & _). rewrite Ef in One.
          destruct rest; [|cbn in One; lia]. assert (Hin : In d (filter cd_eliminated data)) by (apply filter_In; split; [exact (nth_error_In _ _ Hd) | exact Ed]). rewrite Ef in Hin. destruct Hin as [->|[]]; reflexivity.
      - intros Ne. unfold row_of. cbn [rs_eliminated]. destruct (filter cd_eliminated data) as [|d' rest] eqn:Ef; [reflexivity|]. exfalso.
        assert (Hin : In d' (filter cd_eliminated data)) by (rewrite Ef; left; reflexivity). apply filter_In in Hin as [Hin Ed]. apply In_nth_error in Hin as (q & Hq).
        destruct (Forall2_at _ _ _ _ _ Pl Hq) as (i & _ & P). apply (Ne i). apply (flag_spec i d' P). exact Ed. }
    revert X. generalize (combine (eg_ER g) (eg_GAM g)). intros l X. induction l as [|p l IH]; [constructor|]. cbn [map]. constructor; [apply X; left; reflexivity | apply IH; intros q Hq; apply X; right; exact Hq].
Qed.
(** Energies without any data belong to lines without widths *)
Lemma energies_listed d e : In d data -> In e (cd_energies d) -> eg_NRS g <> 0%nat /\ In e (map fst (combine (eg_ER g) (eg_GAM g))).
Proof.
  intros Hd He. destruct (group_positions g ifg data M) as (idx & _ & Pl & _). apply In_nth_error in Hd as (k & Hk). destruct (Forall2_at _ _ _ _ _ Pl Hk) as (i & _ & P).
  pose proof (pl_good _ _ _ _ P) as G. rewrite <- (fst_entries d (go_consistent _ _ _ _ _ _ _ _ _ _ G)) in He. apply in_map_iff in He as ([e' gamma] & Q & He). cbn in Q. subst e'.
  destruct (go_given _ _ _ _ _ _ _ _ _ _ G e gamma He) as (w & (N0 & q & line & A1 & A2 & _) & _). split; [exact N0|]. change e with (fst (e, line)). apply in_map. apply combine_In. exists q. auto.
Qed.
Lemma data_good_consistent d : In d data -> consistent d /\ distinct_energies d.
Proof.
  intros Hd. destruct (group_positions g ifg data M) as (idx & _ & Pl & _). apply In_nth_error in Hd as (k & Hk). destruct (Forall2_at _ _ _ _ _ Pl Hk) as (i & _ & P).
  pose proof (pl_good _ _ _ _ P) as G. split; [exact (go_consistent _ _ _ _ _ _ _ _ _ _ G) | exact (go_distinct _ _ _ _ _ _ _ _ _ _ G N)].
Qed.
Lemma no_data : data = [] -> no_channel inc pairs es g.
Proof.
  intros Ed i c (At & _ & Hc). destruct (group_positions g ifg data M) as (idx & _ & Pl & All). specialize (All i c At Hc). rewrite Ed in Pl. inversion Pl. subst idx. destruct All.
Qed.
End Made.
End Group.
