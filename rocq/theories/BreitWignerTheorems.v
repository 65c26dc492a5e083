(** The properties of the Breit-Wigner formalisms, from ENDF parameters to cross sections. *)
From Coq Require Import String List ZArith Reals Lra Lia Permutation Bool Psatz.
From Verif Require Import Outcome QuantumModel QuantumSpec QuantumProofs SpinFactorModel SpinFactorProofs HardSphereModel
  HardSphereSpec HardSphereProofs KinematicsModel CoulombModel Cplx RMatrixModel ChannelModel BreitWignerModel
  BreitWignerSpec ListFacts BreitWignerProofs BreitWignerSystemProofs LegacyModel LegacyProofs LegacySystemProofs
  BreitWignerTheory.
Import ListNotations.
Open Scope R_scope.

(** What is assumed of the input of the older interface: a positive constant in the wave number,
    mass ratio and radii, a spin, and (for the radius of bound levels with a competitive width)
    a radius that does not depend on the sign of the energy. *)
Record input_old (C : R) (f : bw_file) (A : R) (ch sc : R -> outcome R) : Prop := InputOld
  { io_C : 0 < C; io_A : 0 < A;
    io_first : exists first rest, f_lstates f = first :: rest /\ ls_AWRI first = A;
    io_channel : positive ch; io_scattering : positive sc; io_spin : is_spin (f_SPI f);
    io_even : forall ls, In ls (f_lstates f) -> even_radius ch ls }.

(** The same for the legacy R-matrix interface: one mass ratio, l = 0, 1, 2, ... with at least one
    resonance each, positive radii. *)
Record input_new (hbar mn : R) (f : bw_file) (A : R) (nro : option (R -> outcome R)) (naps : nat)
    (rad : radii) (n : nat) : Prop := InputNew
  { in_hbar : 0 < hbar; in_mn : 0 < mn; in_A : 0 < A; in_spin : is_spin (f_SPI f);
    in_radii : makeChannelRadii (f_AP f) nro naps A mn = Ok rad;
    in_channel : positive (radius_at (r_P rad)); in_scattering : positive (radius_at (r_phi rad));
    in_awri : forall ls, In ls (f_lstates f) -> ls_AWRI ls = A;
    in_l : map ls_L (f_lstates f) = seq 0 (S n);
    in_lines : forall ls, In ls (f_lstates f) -> ls_lines ls <> [] }.

Lemma radii_S_P ap nro naps A mn rad : makeChannelRadii ap nro naps A mn = Ok rad -> r_S rad = r_P rad.
Proof.
  unfold makeChannelRadii. destruct nro as [t|].
  - destruct naps as [|[|[|]]]; intros H; try discriminate; injection H as <-; reflexivity.
  - destruct naps; intros H; injection H as <-; reflexivity.
Qed.

Lemma oval_nonneg ch e : positive ch -> 0 <= oval (ch e).
Proof. intros H. destruct (ch e) eqn:E; cbn; try lra. apply Rlt_le, (H e a E). Qed.
Lemma old_rho C A ch e : 0 < C -> 0 < A -> positive ch -> 0 <= k_old C A e * oval (ch e).
Proof. intros. apply Rmult_le_pos; [apply k_old_nonneg; assumption | apply oval_nonneg; assumption]. Qed.

Section Old.
Variables (C : R) (sort : list bw_resonance -> list bw_resonance) (f : bw_file) (A : R) (ch sc : R -> outcome R).
Hypothesis Hin : input_old C f A ch sc.
Let k := k_old C A.
Let a e := oval (ch e).
Let ahat E := oval (sc E).
Let I := f_SPI f.
Let lss := f_lstates f.

Lemma old_slbw s E e c fi :
  bw_build C sort false f ch sc = Ok s -> slbw_evaluate C s E = Ok (Some (e, c, fi)) ->
  E <> 0 /\ e = SLBW_elastic k a E q_old (ahat E) I lss /\
  c = BW_capture k a E q_old I lss /\ fi = BW_fission k a E q_old I lss /\
  (forall ls x, In ls lss -> In x (ls_lines ls) -> w_T (level_of k a E q_old ls x) <> 0).
Proof.
  destruct Hin as [HC HA (first & rest & Hf & HA1) Hch Hsc HI Hev]. intros Hb He.
  unfold k. rewrite <- HA1 in HA |- *. exact (slbw_file C sort f first rest ch sc E HC Hf HA Hch Hsc HI Hev s e c fi Hb He).
Qed.

Lemma old_mlbw_parts s E t : sorts b_g sort ->
  bw_build C sort true f ch sc = Ok s -> mlbw_evaluate C s E = Ok (Some t) ->
  0 < a E /\ 0 < ahat E /\ E <> 0 /\
  (forall ls x, In ls lss -> In x (ls_lines ls) -> w_T (level_of k a E q_old ls x) <> 0) /\
  exists us, Forall2 (fun ls y => exists d, (ls_L ls <= 4)%nat /\ D I (Z.of_nat (ls_L ls)) = Ok d /\
    y = ML_elastic (ls_L ls) (U0_of k E (ahat E) ls) E (level_of k a E q_old ls) I abs_J (ls_lines ls)
        + (d - (2 * INR (ls_L ls) + 1 - statisticalFactorSummation I (ls_L ls))) * scattered (U0_of k E (ahat E) ls))
    lss us /\
  t = (barns k E * Rsum us, BW_capture k a E q_old I lss, BW_fission k a E q_old I lss).
Proof.
  destruct Hin as [HC HA (first & rest & Hf & HA1) Hch Hsc HI Hev]. intros Hs Hb He.
  unfold k. rewrite <- HA1 in HA |- *.
  exact (mlbw_file_parts C sort f first rest ch sc E HC Hf HA Hch Hsc HI Hev Hs s t Hb He).
Qed.

Lemma old_mlbw s E e c fi : sorts b_g sort ->
  bw_build C sort true f ch sc = Ok s -> mlbw_evaluate C s E = Ok (Some (e, c, fi)) ->
  Rabs (e - MLBW_elastic k a E q_old (ahat E) I lss)
    <= barns k E * literal_rounding * Rsum (map (fun ls => scattered (U0_of k E (ahat E) ls)) lss) /\
  c = BW_capture k a E q_old I lss /\ fi = BW_fission k a E q_old I lss /\
  (forall ls x, In ls lss -> In x (ls_lines ls) -> w_T (level_of k a E q_old ls x) <> 0).
Proof.
  destruct Hin as [HC HA (first & rest & Hf & HA1) Hch Hsc HI Hev]. intros Hs Hb He.
  unfold k. rewrite <- HA1 in HA |- *.
  exact (mlbw_file C sort f first rest ch sc E HC Hf HA Hch Hsc HI Hev Hs s e c fi Hb He).
Qed.

(** ** Signs *)
Definition positive_widths (lss : list bw_lstate) : Prop := forall ls x, In ls lss -> In x (ls_lines ls) ->
  0 <= ln_GN x /\ 0 <= ln_GG x /\ 0 <= ln_GF x.

Lemma old_slbw_signs s E e c fi : positive_widths lss ->
  bw_build C sort false f ch sc = Ok s -> slbw_evaluate C s E = Ok (Some (e, c, fi)) ->
  0 <= c /\ 0 <= fi /\
  ((forall ls, In ls lss -> scattered (U0_of k E (ahat E) ls) = 0) -> 0 <= e).
Proof.
  intros Hw Hb He. destruct (old_slbw s E e c fi Hb He) as (_ & -> & -> & -> & _).
  destruct Hin as [HC HA _ Hch Hsc HI _].
  assert (Hk : forall e, 0 <= k e * a e) by (intros; apply old_rho; assumption).
  split; [|split].
  - apply capture_nonneg; [exact HI | exact Hk |]. intros ls x H1 H2. destruct (Hw ls x H1 H2) as (? & ? & ?); auto.
  - apply fission_nonneg; [exact HI | exact Hk |]. intros ls x H1 H2. destruct (Hw ls x H1 H2) as (? & ? & ?); auto.
  - apply SL_elastic_nonneg; exact HI.
Qed.

Lemma D_nonneg l d : (l <= 4)%nat -> D I (Z.of_nat l) = Ok d -> 0 <= d.
Proof.
  intros Hl Hd. assert (HI := io_spin _ _ _ _ _ Hin). unfold is_spin in HI. fold I in HI.
  destruct (Z_lt_le_dec 7 I) as [H|H].
  - destruct (D_large I (Z.of_nat l) H) as [H1 _]; [lia|]. rewrite Hd in H1. injection H1 as ->. apply IZR_le; lia.
  - assert (HI' : (I = 0 \/ I = 1 \/ I = 2 \/ I = 3 \/ I = 4 \/ I = 5 \/ I = 6 \/ I = 7)%Z) by lia.
    assert (Hl' : (l = 0 \/ l = 1 \/ l = 2 \/ l = 3 \/ l = 4)%nat) by lia.
    destruct HI' as [E|[E|[E|[E|[E|[E|[E|E]]]]]]]; rewrite E in Hd;
      destruct Hl' as [->|[->|[->|[->| ->]]]]; injection Hd as <-; lra.
Qed.

Lemma old_mlbw_signs s E e c fi : sorts b_g sort ->
  bw_build C sort true f ch sc = Ok s -> mlbw_evaluate C s E = Ok (Some (e, c, fi)) ->
  (positive_widths lss -> 0 <= c /\ 0 <= fi) /\
  ((forall ls, In ls lss -> coupled I ls) -> 0 <= e).
Proof.
  intros Hs Hb He. destruct (old_mlbw_parts s E _ Hs Hb He) as (_ & _ & HE & _ & us & F & Ht).
  injection Ht as -> -> ->. assert (HI := io_spin _ _ _ _ _ Hin). fold I in HI.
  assert (Hk : forall e, 0 <= k e * a e) by (intros; destruct Hin; apply old_rho; assumption).
  split.
  - intros Hw. split.
    + apply capture_nonneg; [exact HI | exact Hk |]. intros ls x H1 H2. destruct (Hw ls x H1 H2) as (? & ? & ?); auto.
    + apply fission_nonneg; [exact HI | exact Hk |]. intros ls x H1 H2. destruct (Hw ls x H1 H2) as (? & ? & ?); auto.
  - intros Hc. apply Rmult_le_pos; [apply barns_nonneg|]. apply Rsum_nonneg. intros y Hy.
    assert (G : exists ls, In ls lss /\ exists d, (ls_L ls <= 4)%nat /\ D I (Z.of_nat (ls_L ls)) = Ok d /\
      y = ML_elastic (ls_L ls) (U0_of k E (ahat E) ls) E (level_of k a E q_old ls) I abs_J (ls_lines ls)
        + (d - (2 * INR (ls_L ls) + 1 - statisticalFactorSummation I (ls_L ls))) * scattered (U0_of k E (ahat E) ls)).
    { clear -F Hy. induction F as [|ls z lss us H F IH]; [destruct Hy|]. destruct Hy as [->|Hy].
      - exists ls. split; [left; reflexivity | exact H].
      - destruct (IH Hy) as (l0 & H1 & H2). exists l0. split; [right; exact H1 | exact H2]. }
    destruct G as (ls & Hls & d & Hl & Hd & ->). unfold ML_elastic.
    pose proof (ML_groups_nonneg k a E q_old I HI (ahat E) ls) as H1.
    pose proof (weight_bound I HI ls (Hc ls Hls)) as H2. unfold weight in H2.
    pose proof (scattered_nonneg (U0_of k E (ahat E) ls)) as H3. pose proof (D_nonneg _ d Hl Hd) as H4.
    set (G := Rsum (map (fun j => g_neutron I j * scattered _) _)) in *.
    set (W := Rsum (map (g_neutron I) _)) in *. set (sc0 := scattered _) in *.
    set (gs := statisticalFactorSummation I (ls_L ls)) in *. nra.
Qed.

(** ** Interference *)
Lemma U0_cis E ls : 0 < k E * ahat E -> (ls_L ls <= 4)%nat -> exists phi, U0_of k E (ahat E) ls = cis (- (2 * phi)).
Proof. intros. apply hard_sphere_is_cis; assumption. Qed.

Lemma old_interference s s' E e c fi e' c' fi' : sorts b_g sort ->
  bw_build C sort true f ch sc = Ok s -> mlbw_evaluate C s E = Ok (Some (e, c, fi)) ->
  bw_build C sort false f ch sc = Ok s' -> slbw_evaluate C s' E = Ok (Some (e', c', fi')) ->
  c = c' /\ fi = fi' /\
  Rabs (e - (e' + interference_sum k a E q_old I lss))
    <= barns k E * literal_rounding * Rsum (map (fun ls => scattered (U0_of k E (ahat E) ls)) lss).
Proof.
  intros Hs Hb He Hb' He'. destruct (old_mlbw s E e c fi Hs Hb He) as (He1 & -> & -> & HT).
  destruct (old_mlbw_parts s E _ Hs Hb He) as (_ & Hah & HE & _ & us & F & _).
  destruct (old_slbw s' E e' c' fi' Hb' He') as (_ & -> & -> & -> & _).
  split; [reflexivity|]. split; [reflexivity|].
  rewrite <- ML_minus_SL; [exact He1 | |].
  - intros ls Hls. apply U0_cis.
    + destruct Hin. apply Rmult_lt_0_compat; [apply k_old_pos; assumption | exact Hah].
    + clear -F Hls. induction F as [|l0 y lss us (d & H & _) F IH]; [destruct Hls|].
      destruct Hls as [->|Hls]; [exact H | apply IH; exact Hls].
  - intros ls x H1 H2. apply Rgt_not_eq, norm2_pole_pos. apply (HT ls x H1 H2).
Qed.

Lemma old_isolated s s' E e c fi e' c' fi' : sorts b_g sort ->
  (forall ls, In ls lss -> NoDup (map abs_J (ls_lines ls))) ->
  bw_build C sort true f ch sc = Ok s -> mlbw_evaluate C s E = Ok (Some (e, c, fi)) ->
  bw_build C sort false f ch sc = Ok s' -> slbw_evaluate C s' E = Ok (Some (e', c', fi')) ->
  c = c' /\ fi = fi' /\
  Rabs (e - e') <= barns k E * literal_rounding * Rsum (map (fun ls => scattered (U0_of k E (ahat E) ls)) lss).
Proof.
  intros Hs Hi Hb He Hb' He'. destruct (old_interference s s' E e c fi e' c' fi' Hs Hb He Hb' He') as (H1 & H2 & H3).
  rewrite isolated_no_interference, Rplus_0_r in H3 by exact Hi. auto.
Qed.
End Old.

Section New.
Variables (hbar epsilon0 : R) (cwf : nat -> R -> R -> outcome coulomb) (mn : R) (incident target : string)
  (f : bw_file) (A : R) (nro : option (R -> outcome R)) (naps : nat) (rad : radii) (n : nat).
Hypothesis Hin : input_new hbar mn f A nro naps rad n.
Let k := k_old (C_new hbar mn) A.
Let a e := oval (radius_at (r_P rad) e).
Let ahat E := oval (radius_at (r_phi rad) E).
Let I := f_SPI f.
Let lss := f_lstates f.
Let el := elastic_key incident target.
Let ca := capture_key incident target.
Let fi := fission_key incident target.
Let build := makeLegacyBreitWigner hbar epsilon0 cwf mn incident target f nro naps.
Let SL := legacy_evaluate hbar (legacySLBW hbar epsilon0 cwf).
Let ML := legacy_evaluate hbar (legacyMLBW hbar epsilon0 cwf).

Lemma file_eta : f = mkFile (f_SPI f) (f_AP f) (f_lstates f).
Proof. destruct f; reflexivity. Qed.

Lemma new_slbw s E m m' : E <> 0 -> build = Ok (Some s) -> SL s E m = Ok (Some m') ->
  mval m' el = mval m el + SLBW_elastic k a E q_new (ahat E) I lss /\
  mval m' ca = mval m ca + BW_capture k a E q_new I lss /\
  mval m' fi = mval m fi + BW_fission k a E q_new I lss.
Proof.
  intros HE Hb He. destruct Hin as [Hh Hmn HA HI Hr Hch Hsc Hawri Hl Hne].
  unfold build in Hb. rewrite file_eta in Hb.
  exact (legacy_slbw_file hbar epsilon0 cwf mn Hh Hmn incident target A (f_SPI f) rad E HA HI HE
    (radii_S_P _ _ _ _ _ _ Hr) Hch Hsc (f_AP f) nro naps Hr (f_lstates f) n Hawri Hl Hne s m m' Hb He).
Qed.
Lemma new_mlbw s E m m' : E <> 0 -> build = Ok (Some s) -> ML s E m = Ok (Some m') ->
  mval m' el = mval m el + MLBW_elastic k a E q_new (ahat E) I lss /\
  mval m' ca = mval m ca + BW_capture k a E q_new I lss /\
  mval m' fi = mval m fi + BW_fission k a E q_new I lss.
Proof.
  intros HE Hb He. destruct Hin as [Hh Hmn HA HI Hr Hch Hsc Hawri Hl Hne].
  unfold build in Hb. rewrite file_eta in Hb.
  exact (legacy_mlbw_file hbar epsilon0 cwf mn Hh Hmn incident target A (f_SPI f) rad E HA HI HE
    (radii_S_P _ _ _ _ _ _ Hr) Hch Hsc (f_AP f) nro naps Hr (f_lstates f) n Hawri Hl Hne s m m' Hb He).
Qed.
Lemma new_coupled s : build = Ok s -> forall ls, In ls lss -> coupled I ls.
Proof.
  intros Hb ls Hls x Hx. destruct Hin as [Hh Hmn HA HI Hr Hch Hsc Hawri Hl Hne].
  unfold build in Hb. rewrite file_eta in Hb. revert ls x Hls Hx.
  exact (legacy_allowed hbar epsilon0 cwf mn incident target A (f_SPI f) rad HI (f_AP f) nro naps Hr (f_lstates f) n
    Hawri Hl Hne s Hb).
Qed.
Lemma new_poles one s E m m' : E <> 0 -> build = Ok (Some s) ->
  (forall g m1 m2, one g E m1 = Ok (Some m2) -> exists m3, legacySLBW hbar epsilon0 cwf g E m1 = Ok (Some m3)) ->
  legacy_evaluate hbar one s E m = Ok (Some m') ->
  forall ls x, In ls lss -> In x (ls_lines ls) -> norm2 (pole E (level_of k a E q_new ls x)) <> 0.
Proof.
  intros HE Hb Hone He. destruct Hin as [Hh Hmn HA HI Hr Hch Hsc Hawri Hl Hne].
  unfold build in Hb. rewrite file_eta in Hb.
  exact (legacy_poles hbar epsilon0 cwf mn Hh Hmn incident target A (f_SPI f) rad E HA HI HE
    (radii_S_P _ _ _ _ _ _ Hr) Hch Hsc (f_AP f) nro naps Hr (f_lstates f) n Hawri Hl Hne one s m m' Hb Hone He).
Qed.

Lemma new_rho e : 0 <= k e * a e.
Proof. destruct Hin. apply old_rho; [apply C_new_pos|..]; assumption. Qed.

Lemma new_slbw_signs s E m m' : E <> 0 -> positive_widths lss -> build = Ok (Some s) -> SL s E m = Ok (Some m') ->
  mval m ca <= mval m' ca /\ mval m fi <= mval m' fi /\
  ((forall ls, In ls lss -> scattered (U0_of k E (ahat E) ls) = 0) -> mval m el <= mval m' el).
Proof.
  intros HE Hw Hb He. destruct (new_slbw s E m m' HE Hb He) as (-> & -> & ->).
  assert (HI := in_spin _ _ _ _ _ _ _ _ Hin).
  assert (0 <= BW_capture k a E q_new I lss).
  { apply capture_nonneg; [exact HI | apply new_rho |]. intros ls x H1 H2. destruct (Hw ls x H1 H2) as (? & ? & ?); auto. }
  assert (0 <= BW_fission k a E q_new I lss).
  { apply fission_nonneg; [exact HI | apply new_rho |]. intros ls x H1 H2. destruct (Hw ls x H1 H2) as (? & ? & ?); auto. }
  split; [lra|]. split; [lra|]. intros Hz.
  pose proof (SL_elastic_nonneg k a E q_new I HI (ahat E) lss Hz). lra.
Qed.
Lemma new_mlbw_signs s E m m' : E <> 0 -> build = Ok (Some s) -> ML s E m = Ok (Some m') ->
  mval m el <= mval m' el /\
  (positive_widths lss -> mval m ca <= mval m' ca /\ mval m fi <= mval m' fi).
Proof.
  intros HE Hb He. destruct (new_mlbw s E m m' HE Hb He) as (-> & -> & ->).
  assert (HI := in_spin _ _ _ _ _ _ _ _ Hin). split.
  - assert (0 <= MLBW_elastic k a E q_new (ahat E) I lss); [|lra].
    apply ML_elastic_nonneg; [exact HI|]. intros ls Hls. apply weight_2l1; [exact HI|].
    apply (new_coupled _ Hb); exact Hls.
  - intros Hw. assert (0 <= BW_capture k a E q_new I lss).
    { apply capture_nonneg; [exact HI | apply new_rho |]. intros ls x H1 H2. destruct (Hw ls x H1 H2) as (? & ? & ?); auto. }
    assert (0 <= BW_fission k a E q_new I lss).
    { apply fission_nonneg; [exact HI | apply new_rho |]. intros ls x H1 H2. destruct (Hw ls x H1 H2) as (? & ? & ?); auto. }
    split; lra.
Qed.

(** The potential scattering of every l of the system could be evaluated *)
Lemma potential_l ratio m : forall l v v', potential ratio m l v = Ok v' -> (0 < m)%nat -> (l + m <= 5)%nat.
Proof.
  induction m as [|m IH]; intros l v v' H Hm; [lia|]. cbn [potential] in H. apply bind_Ok in H as (phi & Ephi & H).
  assert (Hl : (l <= 4)%nat).
  { destruct (le_lt_dec l 4) as [|G]; [assumption|]. destruct (new_unsupported l ratio G) as (_ & _ & U).
    rewrite U in Ephi; discriminate. }
  destruct m as [|m]; [lia|]. specialize (IH _ _ _ H ltac:(lia)). lia.
Qed.
Lemma new_phase one s E m m' : E <> 0 -> build = Ok (Some s) -> legacy_evaluate hbar one s E m = Ok (Some m') ->
  forall ls, In ls lss -> exists phi, U0_of k E (ahat E) ls = cis (- (2 * phi)).
Proof.
  intros HE Hb He ls Hls. destruct Hin as [Hh Hmn HA HI Hr Hch Hsc Hawri Hl Hne].
  unfold build in Hb. rewrite file_eta in Hb.
  destruct (legacy_built hbar epsilon0 cwf mn incident target A (f_SPI f) rad (f_AP f) nro naps Hr (f_lstates f) n
    Hawri Hl Hne s Hb) as (gss & Hgs & F & _ & Hmax).
  unfold legacy_evaluate in He. rewrite Hgs, Hmax in He. apply bind_Ok in He as (om & _ & He).
  destruct (concat gss) as [|g gs] eqn:Ec; [discriminate|].
  assert (Hg : legacy_channel mn incident target A (f_SPI f) (lg_channel g) rad).
  { assert (Hin' : In g (concat gss)) by (rewrite Ec; left; reflexivity).
    apply in_concat in Hin' as (gs' & Hgs' & Hin'). clear -F Hgs' Hin'.
    induction F as [|l0 gs0 l1 gss H0 F IH]; [destruct Hgs'|]. destruct Hgs' as [->|Hgs']; [|apply IH; exact Hgs'].
    clear -H0 Hin'. induction H0 as [|j g0 js gs H0 F IH]; [destruct Hin'|].
    destruct Hin' as [->|Hin']; [destruct H0 as (rs & _ & H & _); exact H | apply IH; exact Hin']. }
  rewrite (channel_k hbar mn Hmn incident target A (f_SPI f) HA _ rad E Hg) in He.
  destruct (channel_spin mn Hmn incident target A (f_SPI f) HA _ rad HI Hg) as (_ & Hr' & _).
  rewrite Hr' in He. apply bind_Ok in He as (ra & Era & He). apply bind_Ok in He as (value & Ev & _).
  apply potential_l in Ev; [|lia].
  apply hard_sphere_is_cis.
  - unfold ahat. rewrite Era. cbn. apply Rmult_lt_0_compat; [|apply (Hsc E ra Era)].
    apply k_old_pos; [apply C_new_pos|..]; assumption.
  - assert (Hl' : In (ls_L ls) (seq 0 (S n))) by (rewrite <- Hl; apply in_map; exact Hls).
    apply in_seq in Hl'. lia.
Qed.

Lemma new_interference s E m m1 m2 : E <> 0 -> build = Ok (Some s) ->
  SL s E m = Ok (Some m1) -> ML s E m = Ok (Some m2) ->
  mval m2 ca = mval m1 ca /\ mval m2 fi = mval m1 fi /\
  mval m2 el = mval m1 el + interference_sum k a E q_new I lss.
Proof.
  intros HE Hb H1 H2. destruct (new_slbw s E m m1 HE Hb H1) as (-> & -> & ->).
  destruct (new_mlbw s E m m2 HE Hb H2) as (-> & -> & ->). split; [reflexivity|]. split; [reflexivity|].
  rewrite (ML_minus_SL k a E q_new (ahat E) I lss); [ring| |].
  - apply (new_phase _ s E m m1 HE Hb H1).
  - apply (new_poles _ s E m m1 HE Hb (fun g a1 a2 H => ex_intro _ a2 H) H1).
Qed.
Lemma new_isolated s E m m1 m2 : E <> 0 -> build = Ok (Some s) ->
  (forall ls, In ls lss -> NoDup (map abs_J (ls_lines ls))) ->
  SL s E m = Ok (Some m1) -> ML s E m = Ok (Some m2) ->
  mval m2 ca = mval m1 ca /\ mval m2 fi = mval m1 fi /\ mval m2 el = mval m1 el.
Proof.
  intros HE Hb Hi H1 H2. destruct (new_interference s E m m1 m2 HE Hb H1 H2) as (H3 & H4 & H5).
  rewrite isolated_no_interference, Rplus_0_r in H5 by exact Hi. auto.
Qed.
End New.

(** * The two interfaces *)
(** The radii that both interfaces choose for the same flags; the mass of the neutron is a literal
    of the older interface *)
Lemma apply_radii C sort ordered f NRO NAPS table s A mn :
  (exists first rest, f_lstates f = first :: rest /\ ls_AWRI first = A) ->
  (NAPS = 0%Z -> mn = 1.00866491582) ->
  bw_apply C sort ordered f NRO NAPS table = Ok s ->
  exists rad, makeChannelRadii (f_AP f) (if NRO then table else None) (Z.to_nat NAPS) A mn = Ok rad /\
    bw_build C sort ordered f (radius_at (r_P rad)) (radius_at (r_phi rad)) = Ok s.
Proof.
  intros (first & rest & Hf & HA) Hmn H. unfold bw_apply in H. rewrite Hf, HA in H.
  match type of H with match ?r with _ => _ end = _ => set (result := r) in H; assert (Hr : result = Ok s) end.
  { destruct result as [x|[]| |]; try discriminate; exact H. }
  clear H. unfold result in Hr. clear result. unfold makeChannelRadii.
  destruct NRO.
  - destruct table as [t|].
    2:{ destruct (NAPS =? 0)%Z; [discriminate|]. destruct (NAPS =? 1)%Z; [discriminate|].
        destruct (NAPS =? 2)%Z; discriminate. }
    destruct (Z.eqb_spec NAPS 0) as [->|N0].
    { exists (radii2 (Fixed (channelRadius A)) (Tabulated t)). split; [|exact Hr].
      cbn. rewrite (Hmn eq_refl). unfold channelRadius. rewrite (Rmult_comm A). reflexivity. }
    destruct (Z.eqb_spec NAPS 1) as [->|N1]; [exists (radii1 (Tabulated t)); split; [reflexivity | exact Hr]|].
    destruct (Z.eqb_spec NAPS 2) as [->|N2]; [|discriminate].
    exists (radii2 (Fixed (f_AP f)) (Tabulated t)); split; [reflexivity | exact Hr].
  - destruct (Z.eqb_spec NAPS 0) as [->|N0].
    { exists (radii2 (Fixed (channelRadius A)) (Fixed (f_AP f))). split; [|exact Hr].
      cbn. rewrite (Hmn eq_refl). unfold channelRadius. rewrite (Rmult_comm A). reflexivity. }
    destruct (Z.eqb_spec NAPS 1) as [->|N1]; [|discriminate].
    exists (radii1 (Fixed (f_AP f))); split; [reflexivity | exact Hr].
Qed.

Section Both.
Variables (hbar epsilon0 : R) (cwf : nat -> R -> R -> outcome coulomb) (mn : R) (incident target : string)
  (sort : list bw_resonance -> list bw_resonance)
  (f : bw_file) (A : R) (NRO : bool) (NAPS : Z) (table : option (R -> outcome R)) (rad : radii) (n : nat).
Let nro := if NRO then table else None.
Let naps := Z.to_nat NAPS.
Hypotheses (Hin : input_new hbar mn f A nro naps rad n) (Hmn0 : NAPS = 0%Z -> mn = 1.00866491582)
  (Hlrx : forall ls, In ls (f_lstates f) -> ls_LRX ls = false \/ ls_QX ls = 0 /\ even_radius (radius_at (r_P rad)) ls).
Let C := C_new hbar mn.
Let el := elastic_key incident target.
Let ca := capture_key incident target.
Let fi := fission_key incident target.

Lemma both_first : exists first rest, f_lstates f = first :: rest /\ ls_AWRI first = A.
Proof.
  destruct Hin as [_ _ _ _ _ _ _ Hawri Hl _]. destruct (f_lstates f) as [|first rest]; [discriminate|].
  exists first, rest. split; [reflexivity | apply Hawri; left; reflexivity].
Qed.
Lemma both_input : input_old C f A (radius_at (r_P rad)) (radius_at (r_phi rad)).
Proof.
  pose proof both_first as Hf. destruct Hin. constructor; try assumption; [apply C_new_pos; assumption|].
  intros ls Hls. destruct (Hlrx ls Hls) as [H|[_ H]]; [intros H'; congruence | exact H].
Qed.
Lemma both_q : forall ls, In ls (f_lstates f) -> ls_LRX ls = false \/ q_old ls = q_new ls.
Proof.
  intros ls Hls. destruct (Hlrx ls Hls) as [H|[H _]]; [left; exact H | right]. unfold q_old, q_new. rewrite H. ring.
Qed.
Lemma both_build ordered s : bw_apply C sort ordered f NRO NAPS table = Ok s ->
  bw_build C sort ordered f (radius_at (r_P rad)) (radius_at (r_phi rad)) = Ok s.
Proof.
  intros H. destruct (apply_radii C sort ordered f NRO NAPS table s A mn both_first Hmn0 H) as (rad' & H1 & H2).
  assert (Hr := in_radii _ _ _ _ _ _ _ _ Hin). unfold nro, naps in Hr. rewrite Hr in H1. injection H1 as <-. exact H2.
Qed.

Lemma slbw_agree s s' E e c fi0 m m' :
  bw_apply C sort false f NRO NAPS table = Ok s -> slbw_evaluate C s E = Ok (Some (e, c, fi0)) ->
  makeLegacyBreitWigner hbar epsilon0 cwf mn incident target f nro naps = Ok (Some s') ->
  legacy_evaluate hbar (legacySLBW hbar epsilon0 cwf) s' E m = Ok (Some m') ->
  mval m' el = mval m el + e /\ mval m' ca = mval m ca + c /\ mval m' fi = mval m fi + fi0.
Proof.
  intros Hb He Hb' He'. apply both_build in Hb.
  destruct (old_slbw C sort f A _ _ both_input s E e c fi0 Hb He) as (HE & -> & -> & -> & _).
  destruct (new_slbw hbar epsilon0 cwf mn incident target f A nro naps rad n Hin s' E m m' HE Hb' He') as (H1 & H2 & H3).
  destruct (no_comp (k_old C A) (fun e => oval (radius_at (r_P rad) e)) E q_old q_new (oval (radius_at (r_phi rad) E)) (f_SPI f)
    (f_lstates f) both_q) as (-> & _ & -> & ->). auto.
Qed.

Lemma mlbw_agree s s' E e c fi0 m m' : sorts b_g sort ->
  bw_apply C sort true f NRO NAPS table = Ok s -> mlbw_evaluate C s E = Ok (Some (e, c, fi0)) ->
  makeLegacyBreitWigner hbar epsilon0 cwf mn incident target f nro naps = Ok (Some s') ->
  legacy_evaluate hbar (legacyMLBW hbar epsilon0 cwf) s' E m = Ok (Some m') ->
  Rabs (mval m' el - (mval m el + e)) <= barns (k_old C A) E * literal_rounding *
     Rsum (map (fun ls => scattered (U0_of (k_old C A) E (oval (radius_at (r_phi rad) E)) ls)) (f_lstates f)) /\
  mval m' ca = mval m ca + c /\ mval m' fi = mval m fi + fi0.
Proof.
  intros Hs Hb He Hb' He'. apply both_build in Hb.
  destruct (old_mlbw C sort f A _ _ both_input s E e c fi0 Hs Hb He) as (H1 & -> & -> & _).
  destruct (old_mlbw_parts C sort f A _ _ both_input s E _ Hs Hb He) as (_ & _ & HE & _).
  destruct (new_mlbw hbar epsilon0 cwf mn incident target f A nro naps rad n Hin s' E m m' HE Hb' He') as (H2 & H3 & H4).
  destruct (no_comp (k_old C A) (fun e => oval (radius_at (r_P rad) e)) E q_old q_new (oval (radius_at (r_phi rad) E)) (f_SPI f)
    (f_lstates f) both_q) as (_ & Hq & -> & ->). rewrite Hq in H1.
  split; [|auto]. unfold el. rewrite H2. rewrite Rabs_minus_sym.
  replace (_ + e - _) with (e - MLBW_elastic (k_old C A) (fun e => oval (radius_at (r_P rad) e)) E q_new
    (oval (radius_at (r_phi rad) E)) (f_SPI f) (f_lstates f)) by (unfold C; ring). exact H1.
Qed.
End Both.
