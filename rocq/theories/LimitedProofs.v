(** Proofs about the widths of the R-Matrix Limited format. *)
From Coq Require Import String List ZArith Reals Bool Lra Lia Permutation Sorted.
From Verif Require Import Outcome ListFacts QuantumModel HardSphereModel KinematicsModel CoulombModel RMatrixModel ChannelModel
  AssemblyModel AssemblySpec AssemblyProofs AssemblyTheorems EndfModel EndfSpec EndfProofs LimitedSpec.
Import ListNotations.
Open Scope R_scope.

(** * Lists *)
Lemma combine_In {A B} (l : list A) (m : list B) x y :
  In (x, y) (combine l m) <-> exists k, nth_error l k = Some x /\ nth_error m k = Some y.
Proof.
  revert m. induction l as [|a l IH]; intros [|b m]; cbn [combine In].
  - split; [intros [] | intros ([|k] & H & _); discriminate].
  - split; [intros [] | intros ([|k] & H & _); discriminate].
  - split; [intros [] | intros ([|k] & _ & H); discriminate].
  - rewrite IH. split.
    + intros [H|(k & H & H')]; [injection H as -> ->; exists 0%nat; auto | exists (S k); auto].
    + intros ([|k] & H & H'); [left; injection H as ->; injection H' as ->; reflexivity | right; exists k; auto].
Qed.
Lemma Forall2_at {A B} (P : A -> B -> Prop) l m k y : Forall2 P l m -> nth_error m k = Some y -> exists x, nth_error l k = Some x /\ P x y.
Proof.
  intros F. revert k. induction F as [|a b l m H _ IH]; intros [|k] E; cbn in *; try discriminate.
  - injection E as <-. exists a. auto.
  - exact (IH k E).
Qed.
Lemma Forall2_left {A B} (P : A -> B -> Prop) l m x : Forall2 P l m -> In x l -> exists y, In y m /\ P x y.
Proof. intros F Hx. apply In_nth_error in Hx as (k & Hk). destruct (Forall2_nth _ _ _ _ _ F Hk) as (y & Hy & H). exists y. split; [exact (nth_error_In _ _ Hy) | exact H]. Qed.
Lemma Forall2_right {A B} (P : A -> B -> Prop) l m y : Forall2 P l m -> In y m -> exists x, In x l /\ P x y.
Proof. intros F Hy. apply In_nth_error in Hy as (k & Hk). destruct (Forall2_at _ _ _ _ _ F Hk) as (x & Hx & H). exists x. split; [exact (nth_error_In _ _ Hx) | exact H]. Qed.
Lemma combine_seq {A} (l : list A) i c : nth_error (combine l (seq 0 (length l))) i = Some c <-> nth_error l i = Some (fst c) /\ snd c = i.
Proof.
  assert (G : forall (l : list A) s i c, nth_error (combine l (seq s (length l))) i = Some c <-> nth_error l i = Some (fst c) /\ snd c = (s + i)%nat).
  { clear. induction l as [|x l IH]; intros s i c; cbn [length seq combine]; [destruct i; cbn; split; [discriminate | intros [H _]; discriminate | discriminate | intros [H _]; discriminate]|].
    destruct i as [|i]; cbn [nth_error].
    - rewrite Nat.add_0_r. destruct c as [a n]. cbn [fst snd]. split; [intros H; injection H as -> ->; auto | intros [H ->]; injection H as ->; reflexivity].
    - rewrite IH. rewrite Nat.add_succ_r. reflexivity. }
  apply G.
Qed.
Lemma nodup_filter_combine {A B} (f : A * B -> bool) (l : list A) (m : list B) : NoDup l -> NoDup (map fst (filter f (combine l m))).
Proof.
  intros N. revert m. induction N as [|x l Hx N IH]; intros [|y m]; try constructor. cbn [combine filter]. destruct (f (x, y)); [|apply IH].
  cbn [map fst]. constructor; [|apply IH]. intros H. apply in_map_iff in H as ([a b] & E & H). cbn in E. subst a.
  apply filter_In in H as [H _]. apply in_combine_l in H. contradiction.
Qed.

Lemma parity_unique s p a b : parity_of s p a -> parity_of s p b -> a = b.
Proof. unfold parity_of. intros. lia. Qed.

(** * One spin group *)
Section Group.
Variables (hbar epsilon0 : R) (cwf : nat -> R -> R -> outcome coulomb).
Variables (inc : particlePair) (pairs : list particlePair) (es : list endf_pair).
Hypothesis L : length pairs = length es.
Notation pen := (channelPenetrability hbar epsilon0 cwf).

Lemma made_channels g cs i c : makeParticleChannels inc pairs es g = Ok cs -> nth_error cs i = Some c -> channel_at inc pairs es g i c.
Proof.
  intros H Hc.
  destruct (channels_positional inc pairs es g L) as [A B].
  destruct (Classical_Prop.classic (forall e, In e (firstn (length es) (eg_channels g)) -> valid_number es e)) as [V|V];
    [|rewrite (B V) in H; discriminate]. destruct (A V) as (cs' & E & F). rewrite H in E. injection E as <-.
  destruct (Forall2_at _ _ _ _ _ F Hc) as ([e mt] & Hp & D). cbn [fst snd] in D.
  assert (Q : nth_error (eg_channels g) i = Some e /\ nth_error (map ep_MT es) i = Some mt).
  { clear -Hp. revert Hp. generalize (map ep_MT es), (eg_channels g). intros m l. revert m i. induction l as [|x l IH]; intros [|y m] [|i] Hp; cbn in *; try discriminate.
    - injection Hp as -> ->. auto.
    - exact (IH m i Hp). }
  destruct Q as [Q1 Q2]. rewrite nth_error_map in Q2. destruct (nth_error es i) as [x|] eqn:Ex; [|discriminate]. injection Q2 as <-. exists e, x. auto.
Qed.
Lemma channel_at_unique g i c c' : channel_at inc pairs es g i c -> channel_at inc pairs es g i c' -> c = c'.
Proof.
  intros (ec & x & E1 & E2 & D) (ec' & x' & E1' & E2' & D'). rewrite E1 in E1'. injection E1' as <-. rewrite E2 in E2'. injection E2' as <-.
  pose proof (described_pair _ _ _ _ _ _ _ _ _ D D') as P.
  destruct D as [_ (n & y & A1 & A2 & A3) B2 B3 B4 B5 B6 B7 B8 B9 B10 B11 B12 B13], D' as [_ (n' & y' & A1' & A2' & A3') C2 C3 C4 C5 C6 C7 C8 C9 C10 C11 C12 C13].
  rewrite A1 in A1'. injection A1' as <-. rewrite A2 in A2'. injection A2' as <-. rewrite <- P in C2. pose proof (kind_unique _ _ _ _ B2 C2) as T.
  pose proof (parity_unique _ _ _ _ B7 C7) as PP. destruct c as [ct ci cp cid cr cq cn crad cb], c' as [ct' ci' cp' cid' cr' cq' cn' crad' cb']. cbn in *.
  destruct cn as [l s J p], cn' as [l' s' J' p'], crad as [r1 r2 r3], crad' as [r1' r2' r3']. cbn in *. subst. congruence.
Qed.
Lemma channels_length g cs : makeParticleChannels inc pairs es g = Ok cs -> length cs = Nat.min (length (eg_channels g)) (length es).
Proof.
  intros H. destruct (channels_positional inc pairs es g L) as [A B].
  destruct (Classical_Prop.classic (forall e, In e (firstn (length es) (eg_channels g)) -> valid_number es e)) as [V|V];
    [|rewrite (B V) in H; discriminate]. destruct (A V) as (cs' & E & F). rewrite H in E. injection E as <-.
  rewrite <- (Forall2_len _ _ _ F), combine_length, map_length. reflexivity.
Qed.
Lemma capture_first n pr : nth_error pairs (eliminatedIndex es) = Some pr -> first_at 102%Z (map ep_MT es) n -> nth_error pairs n = Some pr.
Proof.
  intros H (a & b & E & <- & N). assert (I : In 102%Z (map ep_MT es)) by (rewrite E; apply in_or_app; right; left; reflexivity).
  destruct (proj1 (find_pair (map ep_MT es) 102) I) as (a' & b' & E' & La & N'). unfold eliminatedIndex in H. rewrite <- La in H.
  replace (length a) with (length a'); [exact H|]. rewrite E in E'. clear -E' N N'. revert a' E' N'. induction a as [|x a IH]; intros [|y a'] Q N'; cbn in *; try (injection Q as Qx Q).
  - reflexivity.
  - exfalso. apply N'. left. symmetry. exact Qx.
  - exfalso. apply N. left. exact Qx.
  - f_equal. apply IH; [intros X; apply N; right; exact X | exact Q | intros X; apply N'; right; exact X].
Qed.
Lemma capture_exists pr : nth_error pairs (eliminatedIndex es) = Some pr -> exists n, first_at 102%Z (map ep_MT es) n /\ nth_error pairs n = Some pr.
Proof.
  intros H. destruct (in_dec Z.eq_dec 102%Z (map ep_MT es)) as [I|I].
  - exists (eliminatedIndex es). split; [exact (proj1 (find_pair _ _) I) | exact H].
  - unfold eliminatedIndex in H. rewrite (proj2 (find_pair _ _) I), map_length, <- L in H. exfalso.
    assert (K : (length pairs < length pairs)%nat) by (apply nth_error_Some; congruence). lia.
Qed.

Lemma removed_unique g i k : removed pairs es g i -> removed pairs es g k -> i = k.
Proof.
  intros (n & cap & Hn & Hc & (e & p & He & Hp & Hi) & N) (n' & cap' & Hn' & Hc' & (e' & p' & He' & Hp' & Hi') & N').
  assert (Q : cap = cap').
  { destruct (nth_error pairs (eliminatedIndex es)) as [pr|] eqn:Ep.
    - rewrite (capture_first n pr Ep Hn) in Hc. rewrite (capture_first n' pr Ep Hn') in Hc'. congruence.
    - exfalso. destruct Hn as (a & b & E & La & Na). assert (I : In 102%Z (map ep_MT es)) by (rewrite E; apply in_or_app; right; left; reflexivity).
      destruct (proj1 (find_pair (map ep_MT es) 102) I) as (a' & b' & E' & La' & _). unfold eliminatedIndex in Ep. rewrite <- La' in Ep.
      apply nth_error_None in Ep. rewrite L, <- (map_length ep_MT es), E', app_length in Ep. cbn in Ep. lia. }
  subst cap'. destruct (Nat.lt_trichotomy i k) as [H|[H|H]]; [exfalso | exact H | exfalso].
  - exact (N' i e p H He Hp Hi).
  - exact (N k e' p' H He' Hp' Hi').
Qed.

(** What is known of one element of the data *)
Record good (g : endf_group) (ifg : Z) (i : nat) (d : channel_data) : Prop := mkGood
  { go_channel : channel_at inc pairs es g i (cd_channel d);
    go_consistent : consistent d;
    go_removed : cd_eliminated d = true -> removed pairs es g i;
    go_eliminated : removed pairs es g i -> entries d <> [] -> cd_eliminated d = true;
    go_nonempty : cd_eliminated d = true -> entries d <> [];
    go_empty : entries d = [] -> pp_id (c_pair (cd_channel d)) = pp_id inc;
    go_given : forall e gamma, In (e, gamma) (entries d) -> exists w, given g i e w /\ w <> 0 /\ stored pen ifg (cd_channel d) e w gamma;
    go_distinct : NoDup (eg_ER g) -> distinct_energies d }.

Lemma one_flag {A} (l : list A) E : forall s dss,
  Forall2 (fun ci ds => (length ds <= 1)%nat /\ forall d, In d ds -> cd_eliminated d = true -> snd ci = E) (combine l (seq s (length l))) dss ->
  (length (filter cd_eliminated (concat dss)) <= if Nat.leb s E then 1 else 0)%nat.
Proof.
  induction l as [|x l IH]; intros s dss F; cbn [length seq combine] in F; inversion F as [|? ds ? rest [Hl Hd] F']; subst; cbn [concat filter length]; [destruct (Nat.leb s E); lia|].
  rewrite filter_app, app_length. specialize (IH (S s) rest F'). cbn [snd] in Hd.
  assert (K : (length (filter cd_eliminated ds) <= if Nat.eqb s E then 1 else 0)%nat).
  { destruct (Nat.eqb_spec s E) as [->|Ne]; [destruct ds as [|d [|d' r]]; cbn in *; [lia | destruct (cd_eliminated d); cbn; lia | lia]|].
    rewrite filter_no; [cbn; lia|]. intros d Hd'. destruct (cd_eliminated d) eqn:Q; [exfalso; apply Ne; exact (Hd d Hd' Q) | reflexivity]. }
  destruct (Nat.eqb_spec s E), (Nat.leb_spec s E), (Nat.leb_spec (S s) E); lia.
Qed.

(** The data of one channel *)
Record block (g : endf_group) (ifg : Z) (i : nat) (c : channel) (ds : list channel_data) : Prop := mkBlock
  { bl_one : (length ds <= 1)%nat;
    bl_good : forall d, In d ds -> good g ifg i d;
    bl_given : forall e w, given g i e w -> w <> 0 -> exists d gamma, In d ds /\ In (e, gamma) (entries d) /\ stored pen ifg (cd_channel d) e w gamma;
    bl_incident : pp_id (c_pair c) = pp_id inc -> exists d, In d ds /\ cd_channel d = c;
    bl_line : ds <> [] -> eg_NRS g <> 0%nat -> forall row, In row (eg_GAM g) -> exists w, nth_error row i = Some w }.
Theorem group_blocks g ifg data : makeParticleChannelData hbar epsilon0 cwf inc pairs es (negb (ifg =? 0)%Z) g = Ok (Some data) ->
  exists cs pr dss, makeParticleChannels inc pairs es g = Ok cs /\ nth_error pairs (eliminatedIndex es) = Some pr /\ data = concat dss /\
    Forall2 (fun ci ds => nth_error cs (snd ci) = Some (fst ci) /\ block g ifg (snd ci) (fst ci) ds) (combine cs (seq 0 (length cs))) dss.
Proof.
  intros H. destruct (data_of_group hbar epsilon0 cwf inc pairs es _ g data H) as (cs & pr & dss & Ec & Ep & E & F).
  destruct (capture_exists pr Ep) as (n & Hn & Hpr).
  assert (Pair : forall i c ec p, channel_at inc pairs es g i c -> nth_error (eg_channels g) i = Some ec -> pair_of pairs ec p -> p = c_pair c).
  { intros i c ec p (ec' & x & E1 & _ & D) E2 (m & Em & Hm). rewrite E1 in E2. injection E2 as <-. destruct (de_pair _ _ _ _ _ _ _ D) as (m' & Em' & Hm').
    rewrite Em in Em'. injection Em' as <-. congruence. }
  assert (Flag : forall i c, nth_error cs i = Some c ->
    (pp_id (c_pair c) = pp_id pr /\ (forall k c', (k < i)%nat -> nth_error cs k = Some c' -> pp_id (c_pair c') <> pp_id pr)) <-> removed pairs es g i).
  { intros i c Hc. pose proof (made_channels g cs i c Ec Hc) as (ec & x & E1 & E2 & D). split.
    - intros [A B]. exists n, pr. split; [exact Hn|]. split; [exact Hpr|]. split.
      + exists ec, (c_pair c). split; [exact E1|]. split; [exact (de_pair _ _ _ _ _ _ _ D) | exact A].
      + intros k e p Hk He Hp. assert (Hl : (k < length cs)%nat) by (assert (i < length cs)%nat by (apply nth_error_Some; congruence); lia).
        destruct (nth_error cs k) as [c'|] eqn:Ek; [|apply nth_error_None in Ek; lia].
        rewrite (Pair k c' e p (made_channels g cs k c' Ec Ek) He Hp). exact (B k c' Hk Ek).
    - intros (n' & cap & Hn' & Hcap & (e & p & He & Hp & Hi) & N). pose proof (capture_first n' pr Ep Hn') as Q. rewrite Hcap in Q. injection Q as ->.
      rewrite (Pair i c e p (made_channels g cs i c Ec Hc) He Hp) in Hi. split; [exact Hi|].
      intros k c' Hk Ek. destruct (made_channels g cs k c' Ec Ek) as (ec' & x' & E1' & _ & D'). exact (N k ec' (c_pair c') Hk E1' (de_pair _ _ _ _ _ _ _ D')). }
  assert (Each : forall i c ds, nth_error cs i = Some c ->
     (exists eliminated : bool,
               (eliminated = true <-> pp_id (c_pair c) = pp_id pr /\ forall k c', (k < i)%nat -> nth_error cs k = Some c' -> pp_id (c_pair c') <> pp_id pr) /\
               channel_result (fun c e => match channelPenetrability hbar epsilon0 cwf c e with Ok (Some p) => Some p | _ => None end)
                              g (negb (ifg =? 0)%Z) eliminated i c ds) ->
     (length ds <= 1)%nat /\ (forall d, In d ds -> good g ifg i d) /\
     forall e w, given g i e w -> w <> 0 -> exists d gamma, In d ds /\ In (e, gamma) (entries d) /\ stored pen ifg (cd_channel d) e w gamma).
  { intros i c ds Hc (el & Hel & R). rewrite (Flag i c Hc) in Hel. pose proof (made_channels g cs i c Ec Hc) as At.
    assert (Empty : forall ds, ds = (if isIncidentChannel c then [mkChannelData c [] [] false] else []) -> (length ds <= 1)%nat /\ forall d, In d ds -> good g ifg i d).
    { clear ds R. intros ds ->. destruct (isIncidentChannel c) eqn:Q; [|split; [cbn; lia | intros d []]]. split; [cbn; lia|]. intros d [<-|[]]. constructor; cbn.
      - exact At.
      - reflexivity.
      - discriminate.
      - intros _ X. contradiction.
      - discriminate.
      - intros _. unfold isIncidentChannel in Q. apply String.eqb_eq in Q. destruct At as (ec & x & _ & _ & D). rewrite (de_incident _ _ _ _ _ _ _ D) in Q. exact Q.
      - intros e gamma [].
      - intros _. constructor. }
    destruct R as [[E0 Hds]|[E0 (l & (ws & Fw & Hl) & R)]].
    - destruct (Empty ds Hds) as [A B]. split; [exact A|]. split; [exact B|]. intros e w [N _]. contradiction.
    - assert (Given : forall e w, In (e, w) l <-> given g i e w).
      { intros e w. rewrite Hl, combine_In. split.
        - intros (k & A & B). split; [exact E0|]. destruct (Forall2_at _ _ _ _ _ Fw B) as (r & Hr & Hw). exists k, r. auto.
        - intros [_ (k & r & A & B & C)]. destruct (Forall2_nth _ _ _ _ _ Fw B) as (w' & Hw' & Q). exists k. split; [exact A|]. congruence. }
      assert (NZ : forall e w, In (e, w) (nonzero_entries l) <-> given g i e w /\ w <> 0).
      { intros e w. unfold nonzero_entries. rewrite filter_In, Given. cbn [snd]. destruct (Req_EM_T w 0); split; intros [A B]; split; auto; discriminate || contradiction. }
      destruct R as [[Nz Hds]|[Nz (d & -> & Hd & He & Cd & Fd)]].
      + destruct (Empty ds Hds) as [A B]. split; [exact A|]. split; [exact B|]. intros e w Hg Hw. exfalso. assert (X : In (e, w) (nonzero_entries l)) by (apply NZ; auto). rewrite Nz in X. exact X.
      + assert (Conv : forall x y, ((fst x = fst y /\ ((negb (ifg =? 0)%Z) = true -> snd x = snd y) /\ ((negb (ifg =? 0)%Z) = false -> exists p, (match channelPenetrability hbar epsilon0 cwf c (fst x) with Ok (Some p) => Some p | _ => None end) = Some p /\ 0 < p /\ reduced p (snd x) (snd y))))
                  -> stored pen ifg c (fst y) (snd x) (snd y)).
        { intros x y (A & B & C). split.
          - intros Hi. symmetry. apply B. apply Bool.negb_true_iff. apply Z.eqb_neq. exact Hi.
          - intros Hi. destruct C as (p & Hp & Pp & Rp); [apply Bool.negb_false_iff; apply Z.eqb_eq; exact Hi|]. exists p. rewrite <- A. split; [|auto].
            destruct (channelPenetrability hbar epsilon0 cwf c (fst x)) as [[q|]| | |]; try discriminate. injection Hp as ->. reflexivity. }
        assert (Keys : map fst (entries d) = map fst (nonzero_entries l)).
        { clear -Fd. induction Fd as [|x y l0 m0 (A & _) _ IH]; [reflexivity|]. cbn. rewrite A, IH. reflexivity. }
        split; [cbn; lia|]. split.
        * intros d' [<-|[]]. constructor.
          -- rewrite Hd. exact At.
          -- exact Cd.
          -- rewrite He. apply Hel.
          -- intros Rm _. rewrite He. apply Hel. exact Rm.
          -- intros _ X. apply Nz. rewrite X in Fd. inversion Fd. reflexivity.
          -- intros X. exfalso. apply Nz. rewrite X in Fd. inversion Fd. reflexivity.
          -- intros e gamma Hg. destruct (Forall2_right _ _ _ _ Fd Hg) as ([e' w] & Hw & Q). cbn [fst snd] in *. destruct Q as (-> & Q). apply NZ in Hw as [Hw Hz].
             exists w. split; [exact Hw|]. split; [exact Hz|]. rewrite Hd. apply (Conv (e, w) (e, gamma)). cbn [fst snd]. auto.
          -- intros N. unfold distinct_energies. rewrite <- (fst_entries d Cd), Keys, Hl. apply nodup_filter_combine. exact N.
        * intros e w Hg Hw. assert (X : In (e, w) (nonzero_entries l)) by (apply NZ; auto). destruct (Forall2_left _ _ _ _ Fd X) as ([e' gamma] & Hy & Q).
          cbn [fst snd] in Q. destruct Q as (<- & Q). exists d, gamma. split; [left; reflexivity|]. split; [exact Hy|]. rewrite Hd. apply (Conv (e, w) (e, gamma)). cbn [fst snd]. auto. }
  exists cs, pr, dss. split; [exact Ec|]. split; [exact Ep|]. split; [exact E|].
  assert (G : forall ci, In ci (combine cs (seq 0 (length cs))) -> nth_error cs (snd ci) = Some (fst ci)).
  { intros ci Hci. apply In_nth_error in Hci as (k & Hk). apply combine_seq in Hk as [A ->]. exact A. }
  clear H E. revert G F. generalize (combine cs (seq 0 (length cs))). intros l G F. induction F as [|[c i] ds l dss R F IH]; constructor.
  - cbn [fst snd] in *. pose proof (G _ (or_introl eq_refl)) as Gc. cbn [fst snd] in Gc. split; [exact Gc|].
    destruct (Each i c ds Gc R) as (A & B & K). constructor; [exact A | exact B | exact K | |].
    + intros Hi. destruct (made_channels g cs i c Ec Gc) as (ec & x & _ & _ & D).
      assert (I : isIncidentChannel c = true) by (unfold isIncidentChannel; apply String.eqb_eq; rewrite (de_incident _ _ _ _ _ _ _ D); exact Hi).
      destruct R as (el & _ & [[_ ->]|[_ (l' & _ & [[_ ->]|[_ (d & -> & Hd & _)]])]]); try rewrite I.
      * eexists. split; [left; reflexivity | reflexivity].
      * eexists. split; [left; reflexivity | reflexivity].
      * exists d. split; [left; reflexivity | exact Hd].
    + intros _ N0 row Hrow. destruct R as (el & _ & [[E0 _]|[_ (l' & (ws & Fw & _) & _)]]); [contradiction|].
      destruct (Forall2_left _ _ _ _ Fw Hrow) as (w & _ & Hw). exists w. exact Hw.
  - apply IH. intros ci Hci. apply G. right. exact Hci.
Qed.

Theorem group_data g ifg data : makeParticleChannelData hbar epsilon0 cwf inc pairs es (negb (ifg =? 0)%Z) g = Ok (Some data) ->
  (forall d, In d data -> exists i, good g ifg i d) /\
  (forall i e w, (i < length (eg_channels g))%nat -> (i < length es)%nat -> given g i e w -> w <> 0 ->
     exists d gamma, In d data /\ good g ifg i d /\ In (e, gamma) (entries d) /\ stored pen ifg (cd_channel d) e w gamma) /\
  (length (filter cd_eliminated data) <= 1)%nat /\
  (forall i c, channel_at inc pairs es g i c -> pp_id (c_pair c) = pp_id inc -> exists d, In d data /\ good g ifg i d /\ cd_channel d = c) /\
  exists cs pr, makeParticleChannels inc pairs es g = Ok cs /\ nth_error pairs (eliminatedIndex es) = Some pr.
Proof.
  intros H. destruct (group_blocks g ifg data H) as (cs & pr & dss & Ec & Ep & -> & F).
  split; [|split; [|split; [|split; [|exists cs, pr; auto]]]].
  - intros d Hd. apply in_concat in Hd as (ds & Hds & Hd). apply In_nth_error in Hds as (k & Hk). destruct (Forall2_at _ _ _ _ _ F Hk) as ([c i] & Hci & R).
    apply combine_seq in Hci as [Hc Hi]. cbn [fst snd] in *. subst i. exists k. destruct R as (_ & [_ G _ _ _]). exact (G d Hd).
  - intros i e w H1 H2 Hg Hw. assert (Hl : (i < length cs)%nat) by (rewrite (channels_length g cs Ec); lia).
    destruct (nth_error cs i) as [c|] eqn:Hc; [|apply nth_error_None in Hc; lia].
    assert (Hci : nth_error (combine cs (seq 0 (length cs))) i = Some (c, i)) by (apply combine_seq; auto).
    destruct (Forall2_nth _ _ _ _ _ F Hci) as (ds & Hds & R). cbn [fst snd] in R. destruct R as (_ & [_ G K _ _]).
    destruct (K e w Hg Hw) as (d & gamma & Hd & He & S). exists d, gamma. split; [apply in_concat; exists ds; split; [exact (nth_error_In _ _ Hds) | exact Hd]|]. split; [exact (G d Hd)|]. auto.
  - assert (X : exists E, forall i, removed pairs es g i -> i = E).
    { destruct (Classical_Prop.classic (exists E, removed pairs es g E)) as [[E HE]|N]; [exists E; intros i Hi; exact (removed_unique g i E Hi HE) | exists 0%nat; intros i Hi; exfalso; apply N; exists i; exact Hi]. }
    destruct X as [E HE]. apply (Nat.le_trans _ (if Nat.leb 0 E then 1 else 0)); [|destruct (Nat.leb 0 E); lia]. apply (one_flag cs E 0 dss).
    assert (G : forall ci, In ci (combine cs (seq 0 (length cs))) -> nth_error cs (snd ci) = Some (fst ci)).
    { intros ci Hci. apply In_nth_error in Hci as (k & Hk). apply combine_seq in Hk as [A ->]. exact A. }
    clear H. revert G F. generalize (combine cs (seq 0 (length cs))). intros l G F. induction F as [|[c i] ds l dss R F IH]; constructor.
    + cbn [fst snd] in R. pose proof (G _ (or_introl eq_refl)) as Gc; cbn [fst snd] in Gc; destruct R as (_ & [A B _ _ _]). split; [exact A|]. intros d Hd Q. cbn [snd]. apply HE. exact (go_removed _ _ _ _ (B d Hd) Q).
    + apply IH. intros ci Hci. apply G. right. exact Hci.
  - intros i c At Hi. pose proof At as (ec & x & E1 & E2 & D). assert (Hl : (i < length cs)%nat).
    { rewrite (channels_length g cs Ec). assert (A1 : (i < length (eg_channels g))%nat) by (apply nth_error_Some; congruence). assert (A2 : (i < length es)%nat) by (apply nth_error_Some; congruence). lia. }
    destruct (nth_error cs i) as [c'|] eqn:Hc; [|apply nth_error_None in Hc; lia].
    assert (Q : c' = c) by exact (channel_at_unique g i c' c (made_channels g cs i c' Ec Hc) At). subst c'.
    assert (Hci : nth_error (combine cs (seq 0 (length cs))) i = Some (c, i)) by (apply combine_seq; auto).
    destruct (Forall2_nth _ _ _ _ _ F Hci) as (ds & Hds & R). cbn [fst snd] in R. destruct R as (_ & [_ G _ R _]).
    pose proof (R Hi) as X.
    destruct X as (d & Hd & Hdc). exists d. split; [apply in_concat; exists ds; split; [exact (nth_error_In _ _ Hds) | exact Hd]|]. split; [exact (G d Hd) | exact Hdc].
Qed.
End Group.
