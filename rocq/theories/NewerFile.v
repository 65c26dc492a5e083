(** The newer interface on a Reich-Moore file: the items of the file. *)
From Coq Require Import String List ZArith Reals Bool Lra Lia Permutation.
From Verif Require Import Outcome QuantumModel QuantumSpec QuantumProofs SpinFactorProofs HardSphereModel HardSphereSpec KinematicsModel CoulombModel
  RMatrixModel ChannelModel SpinGroupModel BreitWignerModel BreitWignerSpec BreitWignerSystemProofs ReichMooreModel LegacyModel LegacyProofs UnresolvedModel ListFacts AssemblyModel
  AssemblySpec AssemblyTheorems ReichMooreProofs EndfModel EndfSpec EndfProofs EndfReichMooreProofs ReichMooreSpec KMatrixSpec NewerItems NewerFacts NewerRMSpec.
Import ListNotations.
Open Scope R_scope.

Lemma reduced_sqrt p w g : 0 <= p -> reduced p w g -> g = signed_sqrt (w / (2 * p)).
Proof.
  intros Hp (H & Pos & Neg & Zero). unfold signed_sqrt. destruct (Req_EM_T w 0) as [->|Nw].
  - rewrite (Zero eq_refl). unfold Rdiv. rewrite Rmult_0_l. destruct (Rlt_dec 0 0); [lra | rewrite sqrt_0; reflexivity].
  - assert (Hp' : 0 < p).
    { destruct (Req_EM_T p 0) as [->|]; [|lra]. exfalso. rewrite Rmult_0_r, Rmult_0_l in H. symmetry in H.
      exact (Rabs_no_R0 w Nw H). }
    assert (Q : Rabs w / (2 * p) = g * g) by (rewrite <- H; field; lra).
    destruct (Rlt_dec w 0) as [Hw|Hw].
    + rewrite Rabs_left in Q by exact Hw. destruct (Rlt_dec (w / (2 * p)) 0) as [_|N].
      * replace (- (w / (2 * p))) with (g * g) by (rewrite <- Q; field; lra).
        replace (g * g) with (- g * - g) by ring. rewrite sqrt_square by (specialize (Neg Hw); lra). ring.
      * exfalso. apply N. pose proof (Neg Hw). assert (0 < g * g) by nra. replace (w / (2 * p)) with (- (g * g)) by (rewrite <- Q; field; lra). lra.
    + assert (Hw' : 0 < w) by lra. rewrite Rabs_right in Q by lra. rewrite Q. destruct (Rlt_dec (g * g) 0) as [N|_]; [pose proof (Pos Hw'); nra|].
      rewrite sqrt_square by (specialize (Pos Hw'); lra). reflexivity.
Qed.

Section File.
Variables (hbar epsilon0 : R) (cwf : nat -> R -> R -> outcome coulomb) (mn : R) (incident target : string).
Hypotheses (Hh : 0 < hbar) (Hmn : 0 < mn).
Let X : string := (incident ++ "," ++ target)%string.
Let kE : reactionID := Elastic incident target.
Let kF : reactionID := Transfer X "fission".
Let kC : reactionID := Transfer X "capture".
Variables (A : R) (I : Z).
Hypotheses (HA : 0 < A) (HI : is_spin I).
Let k := k_old (C_new hbar mn) A.
Notation b_ok := (b_ok hbar epsilon0 cwf).
Notation elasticC := EndfReichMooreProofs.elasticC.

(** ** The item of a block *)
Definition which_of (b : block) : list nat :=
  let rows := rows_of (b_ls b) (b_j b) in
  0%nat :: (if isAllZero (map rl_GFA rows) then [] else [1%nat]) ++ (if isAllZero (map rl_GFB rows) then [] else [2%nat]).
Variable (rad_of : rm_lstate -> radii).
Let a (ls : rm_lstate) (e : R) : R := oval (radius_at (r_P (rad_of ls)) e).
Definition block_item (b : block) : item :=
  mkItem (elasticC b) (b_ds b) (map (newer_of k a (b_ls b)) (rows_of (b_ls b) (b_j b))) (which_of b).

Definition good_block (b : block) : Prop :=
  b_ok b /\ legacyPair mn incident target A I = Ok (b_inc b) /\ b_rad b = rad_of (b_ls b) /\
  positive (radius_at (r_P (b_rad b))) /\ Jpi_of (b_n b) = Jpi_of (other_numbers (b_ls b) (b_j b)).

Definition data_for (b : block) (w : nat) (d : channel_data) : Prop :=
  cd_eliminated d = false /\ cd_energies d = map rl_ER (rows_of (b_ls b) (b_j b)) /\
  cd_widths d = map (fun x => nth w (rs_widths (newer_of k a (b_ls b) x)) 0) (rows_of (b_ls b) (b_j b)) /\
  match w with
  | O => cd_channel d = elasticC b
  | _ => exists name, cd_channel d = rm_channel Fission (b_inc b) "fission" name (b_rad b) (other_numbers (b_ls b) (b_j b))
  end.
Lemma elastic_legacy b : good_block b -> legacy_channel mn incident target A I (elasticC b) (b_rad b).
Proof.
  intros (_ & Hi & _). exists (b_inc b), (b_n b). split; [exact Hi|]. unfold elasticC, rm_channel.
  destruct (pair_id mn incident target A I _ Hi) as (E & _ & _ & Q). rewrite <- E in Q. rewrite <- Q. reflexivity.
Qed.
Lemma fission_data b name width d w : w = 1%nat /\ width = rl_GFA \/ w = 2%nat /\ width = rl_GFB ->
  partial_data (rm_channel Fission (b_inc b) "fission" name (b_rad b) (other_numbers (b_ls b) (b_j b))) (rows_of (b_ls b) (b_j b))
    (fun r gamma => reduced 1 (width r) gamma) false d -> data_for b w d.
Proof.
  intros Hw (H1 & H2 & H3 & H4). split; [exact H2|]. split; [exact H3|].
  assert (G : cd_widths d = map (fun x => signed_sqrt (width x / 2)) (rows_of (b_ls b) (b_j b))).
  { clear -H4. induction H4 as [|x g l m H _ IH]; [reflexivity|]. cbn [map]. rewrite <- IH. f_equal.
    apply reduced_sqrt in H; [|lra]. rewrite Rmult_1_r in H. exact H. }
  destruct Hw as [[-> ->]|[-> ->]]; (split; [exact G | exists name; exact H1]).
Qed.
Lemma block_data b : good_block b -> exists el ca fis, b_ds b = el :: ca :: fis /\ Forall2 (data_for b) (which_of b) (el :: fis) /\
  cd_eliminated ca = true /\ entries ca = map (fun x => (rl_ER x, signed_sqrt (rl_GG x / 2))) (rows_of (b_ls b) (b_j b)).
Proof.
  intros G. pose proof G as (B & Hi & Hr & Hpos & _). pose proof (elastic_legacy b G) as L.
  destruct B as [_ (el & ca & fi & E & Pel & Pca & F1 & F2 & F3 & F4)]. exists el, ca, fi. split; [exact E|].
  assert (Del : data_for b 0 el).
  { destruct Pel as (H1 & H2 & H3 & H4). split; [exact H2|]. split; [exact H3|]. split; [|exact H1].
    fold (elasticC b) in H4. clear -H4 L Hh Hmn HA Hr Hpos G.
    assert (RL : forall x g, (exists p, (match channelPenetrability hbar epsilon0 cwf (elasticC b) (rl_ER x) with Ok (Some p) => Some p | _ => None end) = Some p /\ reduced p (rl_GN x) g) ->
      g = nth 0 (rs_widths (newer_of k a (b_ls b) x)) 0).
    { intros x g (p & Ep & Hp). destruct (channelPenetrability hbar epsilon0 cwf (elasticC b) (rl_ER x)) as [o| | |] eqn:Eo; try discriminate. destruct o as [p'|]; [|discriminate].
      injection Ep as ->. destruct (channel_P hbar epsilon0 cwf mn Hh Hmn incident target A I HA _ _ _ _ L Hpos Eo) as (r & p' & Er & Q & _ & Hk & Ep). injection Q as <-.
      change (ql (c_numbers (elasticC b))) with (ql (b_n b)) in Ep. destruct G as ([[El _] _] & _). rewrite El in Ep.
      cbn [nth newer_of rs_widths]. unfold P_rm, a. rewrite <- Hr, Er. cbn [oval]. unfold k. rewrite <- Ep. apply reduced_sqrt; [|exact Hp].
      rewrite Ep. unfold P_spec. destruct Hk as [Hk|Hk]; [left; apply ReichMooreProofs.P_spec_pos; exact Hk|]. rewrite <- Hk. unfold Rdiv. rewrite Rmult_0_l. lra. }
    revert H4. generalize (cd_widths el). generalize (rows_of (b_ls b) (b_j b)). induction l as [|x l IH]; intros ws F; inversion F as [|? g ? m H F']; subst; [reflexivity|].
    cbn [map]. rewrite <- (IH _ F'). f_equal. apply RL. exact H. }
  split; [|split].
  - unfold which_of. pose proof (all_zero_used rl_GFA (rows_of (b_ls b) (b_j b))) as ZA. pose proof (all_zero_used rl_GFB (rows_of (b_ls b) (b_j b))) as ZB.
    constructor; [exact Del|].
    destruct (isAllZero (map rl_GFA (rows_of (b_ls b) (b_j b)))); destruct (isAllZero (map rl_GFB (rows_of (b_ls b) (b_j b)))).
    + rewrite F1 by (intros Q; first [apply ZA in Q | apply ZB in Q]; discriminate). constructor.
    + destruct F3 as (d & -> & P); [intros Q; apply ZA in Q; discriminate | apply ZB; reflexivity|]. constructor; [|constructor]. eapply fission_data; [right; split; reflexivity | exact P].
    + destruct F2 as (d & -> & P); [apply ZA; reflexivity | intros Q; apply ZB in Q; discriminate|]. constructor; [|constructor]. eapply fission_data; [left; split; reflexivity | exact P].
    + destruct F4 as (d & d' & -> & P & P'); [apply ZA; reflexivity | apply ZB; reflexivity|]. constructor; [|constructor; [|constructor]]; eapply fission_data; [left; split; reflexivity | exact P | right; split; reflexivity | exact P'].
  - exact (proj1 (proj2 Pca)).
  - destruct Pca as (_ & _ & H3 & H4). unfold entries. rewrite H3. clear -H4. induction H4 as [|x g l m H _ IH]; [reflexivity|]. cbn [map combine]. rewrite IH. f_equal. f_equal.
    apply reduced_sqrt in H; [|lra]. rewrite Rmult_1_r in H. exact H.
Qed.
Lemma which_facts b : (exists w, which_of b = 0%nat :: w) /\ (forall w, In w (which_of b) -> (w < 3)%nat) /\ NoDup (which_of b) /\
  (forall w x, (w < 3)%nat -> ~ In w (which_of b) -> In x (rows_of (b_ls b) (b_j b)) -> nth w (rs_widths (newer_of k a (b_ls b) x)) 0 = 0).
Proof.
  split; [eexists; reflexivity|].
  assert (S0 : signed_sqrt (0 / 2) = 0) by (unfold signed_sqrt, Rdiv; rewrite Rmult_0_l; destruct (Rlt_dec 0 0); [lra | apply sqrt_0]).
  assert (NA : isAllZero (map rl_GFA (rows_of (b_ls b) (b_j b))) = true -> forall x, In x (rows_of (b_ls b) (b_j b)) -> rl_GFA x = 0).
  { intros H x Hx. rewrite isAllZero_spec in H. apply H, in_map, Hx. }
  assert (NB : isAllZero (map rl_GFB (rows_of (b_ls b) (b_j b))) = true -> forall x, In x (rows_of (b_ls b) (b_j b)) -> rl_GFB x = 0).
  { intros H x Hx. rewrite isAllZero_spec in H. apply H, in_map, Hx. }
  unfold which_of. destruct (isAllZero (map rl_GFA (rows_of (b_ls b) (b_j b)))); destruct (isAllZero (map rl_GFB (rows_of (b_ls b) (b_j b)))); cbn [app].
  all: split; [intros w Hw; cbn in Hw; lia|].
  all: split; [repeat constructor; cbn; lia|].
  all: intros w x Hw Nw Hx; destruct w as [|[|[|w]]]; try lia; cbn in Nw; try (exfalso; apply Nw; tauto); cbn [nth newer_of rs_widths];
    first [rewrite (NA eq_refl x Hx) | rewrite (NB eq_refl x Hx)]; exact S0.
Qed.
Lemma forall2_len {T U} (Q : T -> U -> Prop) l m : Forall2 Q l m -> length l = length m.
Proof. induction 1; cbn; congruence. Qed.
Lemma forall2_nth {T U} (Q : T -> U -> Prop) l m : Forall2 Q l m -> forall i y d0, nth_error m i = Some y -> Q (nth i l d0) y.
Proof. induction 1 as [|x y l m H _ IH]; intros [|i] z d0 E; try discriminate; cbn in *; [injection E as <-; exact H | exact (IH i z d0 E)]. Qed.
Lemma block_D b : good_block b -> exists el fis, it_D (block_item b) = el :: fis /\ Forall2 (data_for b) (which_of b) (el :: fis).
Proof.
  intros G. destruct (block_data b G) as (el & ca & fis & E & F & Eca & _). exists el, fis. split; [|exact F].
  unfold it_D, block_item. cbn [it_ds]. rewrite E. assert (H : forall d, In d (el :: fis) -> negb (cd_eliminated d) = true).
  { intros d Hd. apply In_nth_error in Hd as (i & Hi). pose proof (forall2_nth _ _ _ F i d 0%nat Hi) as (Q & _). rewrite Q. reflexivity. }
  cbn [filter]. rewrite (H el (or_introl eq_refl)), Eca. cbn [negb]. f_equal. apply filter_all. intros d Hd. apply H. right. exact Hd.
Qed.
Lemma block_item_ok b : good_block b -> item_ok (block_item b).
Proof.
  intros G. destruct (block_D b G) as (el & fis & ED & FD). destruct (block_data b G) as (el' & ca & fis' & E & F & Eca & Een).
  destruct (which_facts b) as (W1 & W2 & W3 & W4). pose proof G as (B & _ & _ & _ & HJ).
  destruct (block_channels hbar epsilon0 cwf b B) as (_ & _ & _ & _ & C).
  constructor.
  - intros d Hd. exact (proj1 (C d Hd)).
  - intros d Hd. unfold Jpi_data, it_Jpi, block_item. cbn [it_el]. change (c_numbers (elasticC b)) with (b_n b). destruct (C d Hd) as (_ & [Q|Q]); rewrite Q; [reflexivity | symmetry; exact HJ].
  - exists el, fis. split; [exact ED|]. exact (proj2 (proj2 (proj2 (forall2_nth _ _ _ FD 0%nat el 0%nat eq_refl)))).
  - split; [exact W1|]. split; [rewrite ED; exact (forall2_len _ _ _ FD)|]. split; [exact W2 | exact W3].
  - intros i d Hd. rewrite ED in Hd. pose proof (forall2_nth _ _ _ FD i d 0%nat Hd) as (_ & Q1 & Q2 & _). unfold it_energies, block_item. cbn [it_rows it_which]. rewrite !map_map.
    split; [rewrite Q1; reflexivity | exact Q2].
  - intros x w Hx Hw Nw. cbn [block_item it_rows it_which] in *. apply in_map_iff in Hx as (y & <- & Hy). exact (W4 w y Hw Nw Hy).
  - cbn [block_item it_ds it_rows]. rewrite map_map. cbn [rs_energy rs_eliminated newer_of]. rewrite E. cbn [filter].
    pose proof (forall2_nth _ _ _ F 0%nat el' 0%nat eq_refl) as (Q & _). rewrite Q, Eca.
    rewrite filter_no; [cbn [map concat]; rewrite app_nil_r; exact Een|].
    intros d Hd. apply In_nth_error in Hd as (i & Hi). exact (proj1 (forall2_nth _ _ _ F (S i) d 0%nat Hi)).
Qed.
End File.
