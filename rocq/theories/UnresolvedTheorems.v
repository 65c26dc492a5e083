(** Unresolved compound systems: the sum over the spin groups, evaluation always succeeds on
    sensible data, and the systems made from ENDF files. *)
From Coq Require Import String List ZArith Reals Lra Lia Permutation Bool Psatz Sorted.
From Coquelicot Require Import Rcomplements.
From Verif Require Import Outcome QuantumModel QuantumSpec QuantumProofs SpinFactorModel SpinFactorProofs
  HardSphereModel HardSphereSpec HardSphereProofs KinematicsModel CoulombModel Cplx RMatrixModel ChannelModel
  BreitWignerModel LegacyModel BreitWignerSpec ListFacts BreitWignerProofs BreitWignerSystemProofs LegacyProofs
  LegacySystemProofs BreitWignerCases ReichMooreProofs UnresolvedModel UnresolvedSpec UnresolvedProofs UnresolvedSystemProofs.
Import ListNotations.
Open Scope R_scope.

Lemma hard_optical l rho phi : is_phase l rho phi ->
  optical_total (hard_sphere_U l rho) = 4 * (sin phi * sin phi).
Proof.
  intros H. rewrite (hard_sphere_phase _ _ _ H). unfold optical_total, cis; cbn [re]. rewrite cos_neg, cos_2a_sin. ring.
Qed.
Lemma potential_optical ratio n : 0 < ratio -> forall l v v', potential ratio n l v = Ok v' ->
  v' = v + Rsum (map (fun i => (2 * INR i + 1) * optical_total (hard_sphere_U i ratio)) (seq l n)) / 4.
Proof.
  intros Hr; induction n as [|n IH]; intros l v v' H; cbn [potential seq map] in *.
  - injection H as <-. rewrite Rsum_nil. lra.
  - apply bind_Ok in H as (phi & Ephi & H). apply IH in H. rewrite Rsum_cons.
    assert (Hl : (l <= 4)%nat).
    { destruct (le_lt_dec l 4) as [|G]; [assumption|]. destruct (new_unsupported l ratio G) as (_ & _ & U).
      rewrite U in Ephi; discriminate. }
    destruct (phase_code l ratio Hr Hl) as (phi' & E' & Hp). rewrite Ephi in E'. injection E' as <-.
    rewrite (hard_optical _ _ _ Hp). lra.
Qed.
Lemma potential_ok ratio n : 0 < ratio -> forall l v, (l + n <= 5)%nat -> exists v', potential ratio n l v = Ok v'.
Proof.
  intros Hr; induction n as [|n IH]; intros l v H; cbn [potential]; [eexists; reflexivity|].
  destruct (phase_code l ratio Hr ltac:(lia)) as (phi & E & _). rewrite E. cbn [bind]. apply IH. lia.
Qed.
Lemma ulmax gs : unresolvedLMax gs = list_max (map (fun u => ql (c_numbers (ug_channel u))) gs).
Proof.
  unfold unresolvedLMax.
  assert (H : forall m, fold_left (fun m g => Nat.max m (ql (c_numbers (ug_channel g)))) gs m
            = Nat.max m (list_max (map (fun u => ql (c_numbers (ug_channel u))) gs))).
  { induction gs as [|g gs IH]; intros m; cbn [fold_left map]; [cbn; lia|]. rewrite IH.
    change (list_max (?x :: ?l)) with (Nat.max x (list_max l)). lia. }
  rewrite H. apply Nat.max_0_l.
Qed.

Definition degrees_in (u : unresolved_group) : Prop :=
  let d := ut_degrees (ug_table u) in
  (d_elastic d <= 4 /\ d_capture d <= 4 /\ d_fission d <= 4 /\ d_competition d <= 4)%nat.
Lemma makeTable_degrees rs d t : makeUnresolvedTable rs d = Ok t <->
  t = mkUTable rs d /\ (2 <= length rs)%nat /\
  (d_elastic d <= 4 /\ d_capture d <= 4 /\ d_fission d <= 4 /\ d_competition d <= 4)%nat.
Proof.
  unfold makeUnresolvedTable, check. split.
  - destruct (Nat.ltb_spec (length rs) 2); cbn [negb bind]; [discriminate|].
    destruct (Nat.leb_spec (d_elastic d) 4); cbn [bind]; [|discriminate].
    destruct (Nat.leb_spec (d_capture d) 4); cbn [bind]; [|discriminate].
    destruct (Nat.leb_spec (d_fission d) 4); cbn [bind]; [|discriminate].
    destruct (Nat.leb_spec (d_competition d) 4); cbn [bind]; [|discriminate].
    intros Ht. injection Ht as <-. repeat split; assumption.
  - intros (Et & Hn & H1 & H2 & H3 & H4). subst t. destruct (Nat.ltb_spec (length rs) 2); [lia|]. cbn [negb bind].
    apply Nat.leb_le in H1, H2, H3, H4. rewrite H1, H2, H3, H4. reflexivity.
Qed.
Lemma makeTable_rejects rs d : ((length rs < 2)%nat \/ (4 < d_elastic d)%nat \/ (4 < d_capture d)%nat \/
  (4 < d_fission d)%nat \/ (4 < d_competition d)%nat) <-> throws (makeUnresolvedTable rs d).
Proof.
  split.
  - intros H. assert (N : forall t, makeUnresolvedTable rs d <> Ok t).
    { intros t E. apply makeTable_degrees in E as (_ & ? & ? & ? & ? & ?). lia. }
    unfold makeUnresolvedTable, check, std_exception in *. repeat (destruct (_ : bool); cbn [bind] in *; [|eexists; reflexivity]).
    exfalso. apply (N _ eq_refl).
  - intros [e E].
    destruct (le_lt_dec 2 (length rs)) as [L|L]; [|left; exact L]. right.
    destruct (le_lt_dec (d_elastic d) 4), (le_lt_dec (d_capture d) 4), (le_lt_dec (d_fission d) 4), (le_lt_dec (d_competition d) 4);
      try lia. exfalso.
    assert (makeUnresolvedTable rs d = Ok (mkUTable rs d)) by (apply makeTable_degrees; repeat split; assumption). congruence.
Qed.

Lemma partition_nat {X} (J : X -> nat) (F : X -> R) n l : (forall x, In x l -> (J x < n)%nat) ->
  Rsum (map (fun j => Rsum (map F (filter (fun x => Nat.eqb (J x) j) l))) (seq 0 n)) = Rsum (map F l).
Proof.
  intros H. rewrite <- (partition_sum (fun x => Z.of_nat (J x)) F (map Z.of_nat (seq 0 n)) l).
  - rewrite map_map. apply Rsum_ext. intros j _. f_equal. f_equal. apply filter_ext. intros x.
    destruct (Nat.eqb_spec (J x) j), (Z.eqb_spec (Z.of_nat (J x)) (Z.of_nat j)); try reflexivity; lia.
  - apply FinFun.Injective_map_NoDup; [intros a b Hab; lia | apply seq_NoDup].
  - intros x Hx. apply in_map, in_seq. specialize (H x Hx). lia.
Qed.

Lemma linlin_total pts x : StronglySorted (fun p q => fst p < fst q) pts -> (2 <= length pts)%nat ->
  (forall p r, pts = p :: r -> fst p <= x) -> (exists h, In h pts /\ x <= fst h) -> exists y, linlin pts x = Ok (Some y).
Proof.
  induction pts as [|[x0 y0] r IH]; intros S Hn Hf (h & Hh & Hx); [cbn in Hn; lia|].
  destruct r as [|[x1 y1] r]; [cbn in Hn; lia|]. cbn [linlin].
  assert (L0 : x0 <= x) by (apply (Hf (x0, y0) _ eq_refl)).
  apply StronglySorted_inv in S as [S HS]. apply Forall_inv in HS as L. cbn in L.
  destruct (Rlt_dec x x0); [lra|]. destruct (Rle_dec x x1).
  - unfold fdiv. destruct (Req_EM_T (x1 - x0) 0); [lra|]. eexists; reflexivity.
  - apply IH; [exact S| | |].
    + destruct r; [|cbn; lia]. exfalso. destruct Hh as [<-|[<-|[]]]; cbn in Hx; lra.
    + intros p q E. injection E as <- _. cbn. lra.
    + exists h. split; [|exact Hx]. destruct Hh as [<-|Hh]; [cbn in Hx; lra | exact Hh].
Qed.

Section System.
Variables (hbar epsilon0 : R) (cwf : nat -> R -> R -> outcome coulomb) (mn : R).
Hypotheses (Hh : 0 < hbar) (Hmn : 0 < mn).
Variables (incident target : string) (A : R) (I : Z) (rad : radii) (E : R).
Hypotheses (HA : 0 < A) (HI : is_spin I).
Let ch := radius_at (r_P rad).
Let sc := radius_at (r_phi rad).
Hypotheses (Hch : positive ch) (Hsc : positive sc).
Let k := k_old (C_new hbar mn) A.
Let a := oval (ch E).
Let ahat := oval (sc E).
Let rho := k E * ahat.
Let lchannel c := legacy_channel mn incident target A I c rad.
Let U0 l := hard_sphere_U l rho.
Let g := g_neutron I.
Let params := parameters_of hbar mn A rad E.
Notation ekey := (ekey incident target).
Notation ckey := (ckey incident target).
Notation fkey := (fkey incident target).

(** What one evaluated group satisfies *)
Definition sound (v : averages) : Prop :=
  v_D v <> 0 /\ (1 <= v_n v <= 4)%nat /\ (v_Gf v <> 0 -> (1 <= v_f v <= 4)%nat) /\ (v_Gx v <> 0 -> (1 <= v_x v <= 4)%nat) /\
  U_elastic pi_value v (U0 (v_l v)) + U_capture pi_value v + U_fission pi_value v + U_competition pi_value v
  = optical_total (average_collision pi_value (U0 (v_l v)) (v_Gn v / v_D v)) - optical_total (U0 (v_l v))
    + formation pi_value v * (rule_total v - 1) /\
  (0 <= v_Gn v -> 0 <= v_Gg v -> 0 <= v_Gf v -> 0 <= v_Gx v -> 0 < v_D v ->
     0 <= U_capture pi_value v /\ 0 <= U_fission pi_value v /\ 0 <= U_competition pi_value v).

Lemma fold_value gs : E <> 0 -> (forall u, In u gs -> lchannel (ug_channel u) /\ well_formed u /\ degrees_in u) -> forall m m',
  foldM (fun om g => match om with None => Ok None | Some m => unresolved_evaluate hbar epsilon0 cwf g E m end) gs (Some m)
    = Ok (Some m') ->
  exists vs, Forall2 params gs vs /\ Forall sound vs /\
  mval m' ekey = mval m ekey + barns k E * Rsum (map (fun v => g (v_J v) * U_elastic pi_value v (U0 (v_l v))) vs) /\
  mval m' ckey = mval m ckey + barns k E * Rsum (map (fun v => g (v_J v) * U_capture pi_value v) vs) /\
  mval m' fkey = mval m fkey + barns k E * Rsum (map (fun v => g (v_J v) * U_fission pi_value v) vs).
Proof.
  intros HE. induction gs as [|u gs IH]; intros Hgs m m' H.
  - cbn [foldM] in H. injection H as <-. exists []. split; [constructor|]. split; [constructor|].
    cbn [map]. rewrite Rsum_nil, !Rmult_0_r, !Rplus_0_r. auto.
  - cbn [foldM] in H. apply bind_Ok in H as (om & H1 & H2).
    destruct om as [m1|].
    2:{ exfalso. clear -H2. induction gs as [|x gs IH]; cbn [foldM] in H2; [discriminate|]. apply IH. exact H2. }
    destruct (Hgs u (or_introl eq_refl)) as (Hc & Hw & D1 & D2 & D3 & D4).
    destruct (group_value hbar epsilon0 cwf mn Hh Hmn incident target A I rad E HA HI HE Hch Hsc u m m1 Hc Hw)
      as (_ & v & P & V1 & V2 & V3 & V4 & E1 & E2 & E3 & C & N); [unfold in_unsigned; lia..|exact H1|].
    destruct (IH (fun x Hx => Hgs x (or_intror Hx)) m1 m' H2) as (vs & F & S & F1 & F2 & F3).
    exists (v :: vs). split; [constructor; assumption|]. split.
    { constructor; [|exact S]. unfold sound. repeat (split; [assumption|]). assumption. }
    cbn [map]. rewrite !Rsum_cons, F1, F2, F3, E1, E2, E3. fold g k sc ahat rho. unfold U0. repeat split; ring.
Qed.

Theorem system_value s m m' : (forall u, In u (uy_groups s) -> lchannel (ug_channel u) /\ well_formed u /\ degrees_in u) ->
  unresolved_system_evaluate hbar epsilon0 cwf s E m = Ok (Some m') ->
  exists vs, Forall2 params (uy_groups s) vs /\ Forall sound vs /\
  mval m' ekey = mval m ekey + barns k E *
    (Rsum (map (fun v => g (v_J v) * U_elastic pi_value v (U0 (v_l v))) vs)
     + Rsum (map (fun l => (2 * INR l + 1) * optical_total (U0 l)) (seq 0 (S (uy_lmax s))))) /\
  mval m' ckey = mval m ckey + barns k E * Rsum (map (fun v => g (v_J v) * U_capture pi_value v) vs) /\
  mval m' fkey = mval m fkey + barns k E * Rsum (map (fun v => g (v_J v) * U_fission pi_value v) vs).
Proof.
  intros Hgs H. unfold unresolved_system_evaluate in H. apply bind_Ok in H as (om & Hf & H).
  destruct (uy_groups s) as [|u gs] eqn:Eg; [discriminate|].
  destruct (Hgs u (or_introl eq_refl)) as (Hc & _).
  rewrite (channel_k hbar mn Hmn incident target A I HA _ rad E Hc) in H. fold k in H.
  destruct (channel_spin mn Hmn incident target A I HA _ rad HI Hc) as (_ & Hr & Hkey).
  rewrite Hr in H. apply bind_Ok in H as (ra & Era & H). fold sc in Era.
  apply bind_Ok in H as (value & Ev & H). apply (f_equal (fun o => match o with Ok x => x | _ => None end)) in H.
  cbv beta iota in H. destruct om as [m1|]; [|discriminate].
  assert (HE : E <> 0).
  { intros ->. unfold fdiv in H. destruct (Req_EM_T (k 0 * k 0) 0) as [|n]; [discriminate|]. apply n.
    unfold k, k_old. rewrite Rabs_R0, sqrt_0. ring. }
  assert (Pk : 0 < k E) by (apply k_old_pos; [apply C_new_pos|..]; assumption).
  unfold fdiv in H. destruct (Req_EM_T (k E * k E) 0); [nra|]. apply Some_inj in H; subst m'.
  rewrite Hkey. fold (elastic_key incident target). fold ekey.
  destruct (keys_distinct incident target) as (D1 & D2 & D3).
  rewrite mval_at, !mval_other by (apply not_eq_sym; assumption).
  apply potential_optical in Ev; [|apply Rmult_lt_0_compat; [exact Pk | apply (Hsc E ra Era)]].
  destruct (fold_value (u :: gs) HE Hgs m m1 Hf) as (vs & F & S & F1 & F2 & F3).
  exists vs. split; [exact F|]. split; [exact S|]. split; [|split; assumption].
  rewrite F1, Ev, Rplus_0_l. unfold barns, U0, rho, ahat. rewrite Era. cbn [oval].
  set (T := Rsum (map (fun l => (2 * INR l + 1) * optical_total (hard_sphere_U l (k E * ra))) _)).
  clearbody T. field. nra.
Qed.

(** Everything that is formed is accounted for *)
Theorem system_conserved s m m' : (forall u, In u (uy_groups s) -> lchannel (ug_channel u) /\ well_formed u /\ degrees_in u) ->
  unresolved_system_evaluate hbar epsilon0 cwf s E m = Ok (Some m') ->
  exists vs, Forall2 params (uy_groups s) vs /\ Forall sound vs /\
  (mval m' ekey - mval m ekey) + (mval m' ckey - mval m ckey) + (mval m' fkey - mval m fkey)
    + barns k E * Rsum (map (fun v => g (v_J v) * U_competition pi_value v) vs)
  = barns k E * (U_total pi_value rho g (uy_lmax s) vs
                 + Rsum (map (fun v => g (v_J v) * (formation pi_value v * (rule_total v - 1))) vs)).
Proof.
  intros Hgs H. destruct (system_value s m m' Hgs H) as (vs & F & S & E1 & E2 & E3).
  exists vs. split; [exact F|]. split; [exact S|].
  rewrite E1, E2, E3. unfold U_total. cbv zeta.
  set (L := Rsum (map (fun l => (2 * INR l + 1) * optical_total (hard_sphere_U l rho)) (seq 0 (Datatypes.S (uy_lmax s))))).
  assert (HT : forall l, Forall sound l ->
     Rsum (map (fun v => g (v_J v) * U_elastic pi_value v (U0 (v_l v))) l) + Rsum (map (fun v => g (v_J v) * U_capture pi_value v) l)
     + Rsum (map (fun v => g (v_J v) * U_fission pi_value v) l) + Rsum (map (fun v => g (v_J v) * U_competition pi_value v) l)
     = Rsum (map (fun v => g (v_J v) * (optical_total (average_collision pi_value (hard_sphere_U (v_l v) rho) (v_Gn v / v_D v))
              - optical_total (hard_sphere_U (v_l v) rho))) l)
       + Rsum (map (fun v => g (v_J v) * (formation pi_value v * (rule_total v - 1))) l)).
  { induction l as [|v l IH]; intros Hs; cbn [map]; rewrite ?Rsum_cons, ?Rsum_nil; [ring|].
    apply Forall_inv in Hs as Hv. apply Forall_inv_tail in Hs. specialize (IH Hs).
    destruct Hv as (_ & _ & _ & _ & C & _). fold (U0 (v_l v)).
    transitivity (g (v_J v) * (U_elastic pi_value v (U0 (v_l v)) + U_capture pi_value v + U_fission pi_value v + U_competition pi_value v)
      + (Rsum (map (fun v => g (v_J v) * U_elastic pi_value v (U0 (v_l v))) l) + Rsum (map (fun v => g (v_J v) * U_capture pi_value v) l)
     + Rsum (map (fun v => g (v_J v) * U_fission pi_value v) l) + Rsum (map (fun v => g (v_J v) * U_competition pi_value v) l))); [ring|].
    rewrite IH, C. ring. }
  specialize (HT vs S). change (Rsum (map (fun l => (2 * INR l + 1) * optical_total (U0 l)) (seq 0 (Datatypes.S (uy_lmax s))))) with L.
  clearbody L.
  transitivity (barns k E * ((Rsum (map (fun v => g (v_J v) * U_elastic pi_value v (U0 (v_l v))) vs) + Rsum (map (fun v => g (v_J v) * U_capture pi_value v) vs)
     + Rsum (map (fun v => g (v_J v) * U_fission pi_value v) vs) + Rsum (map (fun v => g (v_J v) * U_competition pi_value v) vs)) + L)); [ring|].
  rewrite HT. ring.
Qed.

(** * Evaluation succeeds *)
Definition sensible (u : unresolved_group) : Prop :=
  let t := ug_table u in let d := ut_degrees t in
  (ql (c_numbers (ug_channel u)) <= 4)%nat /\
  StronglySorted (fun x y => ur_energy x < ur_energy y) (ut_resonances t) /\ (2 <= length (ut_resonances t))%nat /\
  (forall r l, ut_resonances t = r :: l -> ur_energy r <= E) /\ (exists r, In r (ut_resonances t) /\ E <= ur_energy r) /\
  (forall r, In r (ut_resonances t) -> 0 < ur_spacing r /\ 0 <= ur_elastic r /\ 0 < ur_capture r /\ 0 <= ur_fission r /\ 0 <= ur_competition r) /\
  (1 <= d_elastic d <= 4 /\ d_fission d <= 4 /\ d_competition d <= 4)%nat.

Lemma group_succeeds u m ra : lchannel (ug_channel u) -> sensible u -> 0 < E ->
  (exists r, ch E = Ok r) -> sc E = Ok ra -> exists m', unresolved_evaluate hbar epsilon0 cwf u E m = Ok (Some m').
Proof.
  intros Hc (Hl & HS & Hn & Hlo & Hhi & Hpos & D1 & D2 & D3) PE [r Hr] Hra.
  set (t := ug_table u) in *. set (c := ug_channel u) in *. set (d := ut_degrees t) in *.
  assert (Pk : 0 < k E) by (apply k_old_pos; [apply C_new_pos|..]; try assumption; lra).
  assert (Pr : 0 < r) by (apply (Hch E r Hr)). assert (Pra : 0 < ra) by (apply (Hsc E ra Hra)).
  destruct (channel_spin mn Hmn incident target A I HA c rad HI Hc) as (Hg & Hrad & Hkey).
  assert (Et : c_type c = Neutron) by (destruct Hc as (? & ? & _ & ->); reflexivity).
  unfold unresolved_evaluate. cbv zeta. fold t c d.
  unfold channelPenetrability, channelPhaseShift, channelFunction. rewrite Hrad, Et. fold ch sc. rewrite Hr, Hra. cbn [bind].
  rewrite (channel_k hbar mn Hmn incident target A I HA c rad E Hc), (channel_eta hbar epsilon0 mn Hmn incident target A I HA c rad E Hc). fold k.
  cbn [calculatePenetrability calculatePhaseShift].
  rewrite (penetrability_code _ (k E * r)) by (try assumption; apply Rmult_lt_0_compat; assumption).
  destruct (phase_code (ql (c_numbers c)) (k E * ra)) as (phi & Ephi & _); [apply Rmult_lt_0_compat; assumption | assumption|].
  rewrite Ephi. unfold omap; cbn [bind].
  assert (Hcol : forall f, exists y, linlin (column_table f t) E = Ok (Some y)).
  { intros f. apply linlin_total.
    - apply column_sorted; exact HS.
    - unfold column_table. rewrite map_length. exact Hn.
    - intros p q Ep. unfold column_table in Ep. destruct (ut_resonances t) as [|x l] eqn:El; [discriminate|].
      cbn in Ep. injection Ep as <- _. cbn. apply (Hlo x l eq_refl).
    - destruct Hhi as (x & Hx & Hle). exists (ur_energy x, f x). split; [|exact Hle].
      unfold column_table. apply (in_map (fun r => (ur_energy r, f r))). exact Hx. }
  assert (Hin : forall f y, linlin (column_table f t) E = Ok (Some y) -> interpolated (column_table f t) E y).
  { intros f y. apply linlin_interpolated, column_sorted, HS. }
  destruct (Hcol ur_spacing) as [yd Ed]. destruct (Hcol ur_elastic) as [ye Ee]. destruct (Hcol ur_capture) as [yc Ec].
  destruct (Hcol ur_fission) as [yf Ef]. destruct (Hcol ur_competition) as [yx Ex].
  assert (Pd : 0 < yd) by (apply (interpolated_pos _ E _) with (2 := Hin _ _ Ed); intros p Hp; apply in_column in Hp as (x & Hx & ->); apply Hpos, Hx).
  assert (Pc : 0 < yc) by (apply (interpolated_pos _ E _) with (2 := Hin _ _ Ec); intros p Hp; apply in_column in Hp as (x & Hx & ->); apply Hpos, Hx).
  assert (Pe : 0 <= ye) by (apply (interpolated_nonneg _ E _) with (2 := Hin _ _ Ee); intros p Hp; apply in_column in Hp as (x & Hx & ->); apply Hpos, Hx).
  assert (Pf : 0 <= yf) by (apply (interpolated_nonneg _ E _) with (2 := Hin _ _ Ef); intros p Hp; apply in_column in Hp as (x & Hx & ->); apply Hpos, Hx).
  assert (Px : 0 <= yx) by (apply (interpolated_nonneg _ E _) with (2 := Hin _ _ Ex); intros p Hp; apply in_column in Hp as (x & Hx & ->); apply Hpos, Hx).
  unfold unresolvedAt. rewrite Ed, Ee, Ec, Ef, Ex. cbn [bind].
  assert (PP : 0 < P_spec (ql (c_numbers c)) (k E * r)) by (apply P_spec_pos, Rmult_lt_0_compat; assumption).
  unfold fdiv at 1. destruct (Req_EM_T (k E * k E) 0); [nra|].
  unfold unresolvedWidths. unfold fdiv at 1. destruct (Req_EM_T (k E * r) 0); [nra|].
  unfold fsqrt. destruct (Rlt_dec E 0); [lra|].
  cbn [ur_spacing ur_elastic ur_capture ur_fission ur_competition].
  set (w := mkData _ _ _ _).
  assert (Hf4 : nonzero (d_fission w) = true -> (d_fission d <= 4)%nat) by (intros; lia).
  assert (Hx4 : nonzero (d_competition w) = true -> (d_competition d <= 4)%nat) by (intros; lia).
  destruct (integrals_finite w d D1 Hf4 Hx4) as [i Hi].
  - unfold w; cbn [d_elastic]. apply Rmult_le_pos; [apply Rmult_le_pos; [exact Pe | apply sqrt_pos]|].
    apply Rdiv_le_0_compat; [apply Rmult_le_pos; [apply pos_INR | lra] | nra].
  - unfold w; cbn; lra.
  - exact Pf.
  - exact Px.
  - assert (0 <= d_elastic w).
    { unfold w; cbn [d_elastic]. apply Rmult_le_pos; [apply Rmult_le_pos; [exact Pe | apply sqrt_pos]|].
      apply Rdiv_le_0_compat; [apply Rmult_le_pos; [apply pos_INR | lra] | nra]. }
    assert (d_capture w = yc) by reflexivity. lra.
  - rewrite Hi. cbn [bind]. unfold unresolvedElastic, unresolvedReaction, fdiv. destruct (Req_EM_T yd 0); [lra|].
    eexists; reflexivity.
Qed.

Theorem system_succeeds s m : s = mkUSystem (uy_groups s) (unresolvedLMax (uy_groups s)) -> uy_groups s <> [] ->
  (forall u, In u (uy_groups s) -> lchannel (ug_channel u) /\ sensible u) -> 0 < E ->
  (exists r, ch E = Ok r) -> (exists r, sc E = Ok r) ->
  exists m', unresolved_system_evaluate hbar epsilon0 cwf s E m = Ok (Some m').
Proof.
  intros Hs Hne Hgs PE Hr [ra Hra]. unfold unresolved_system_evaluate.
  assert (Hf : forall gs, (forall u, In u gs -> lchannel (ug_channel u) /\ sensible u) -> forall m, exists m',
    foldM (fun om g => match om with None => Ok None | Some m => unresolved_evaluate hbar epsilon0 cwf g E m end) gs (Some m)
      = Ok (Some m')).
  { induction gs as [|u gs IH]; intros H m0; cbn [foldM]; [eexists; reflexivity|].
    destruct (H u (or_introl eq_refl)) as [Hc Hse]. destruct (group_succeeds u m0 ra Hc Hse PE Hr Hra) as [m1 ->]. cbn [bind].
    apply IH. intros x Hx. apply H. right; exact Hx. }
  destruct (Hf _ Hgs m) as [m1 ->]. cbn [bind].
  assert (Hlm : (uy_lmax s <= 4)%nat).
  { rewrite Hs. cbn [uy_lmax]. rewrite ulmax. apply list_max_le, Forall_forall. intros x Hx.
    apply in_map_iff in Hx as (u & <- & Hu). apply (Hgs u Hu). }
  destruct (uy_groups s) as [|u gs]; [contradiction|].
  destruct (Hgs u (or_introl eq_refl)) as (Hc & _).
  rewrite (channel_k hbar mn Hmn incident target A I HA _ rad E Hc). fold k.
  destruct (channel_spin mn Hmn incident target A I HA _ rad HI Hc) as (_ & Hrd & Hkey). rewrite Hrd. fold sc. rewrite Hra. cbn [bind].
  assert (Pk : 0 < k E) by (apply k_old_pos; [apply C_new_pos|..]; try assumption; lra).
  destruct (potential_ok (k E * ra) (S (uy_lmax s)) ltac:(apply Rmult_lt_0_compat; [exact Pk | apply (Hsc E ra Hra)]) 0%nat 0 ltac:(lia)) as [v ->].
  cbn [bind]. unfold fdiv. destruct (Req_EM_T (k E * k E) 0); [nra|]. eexists; reflexivity.
Qed.
End System.

(** * Files *)
Section File.
Variables (mn : R) (incident target : string) (A : R) (I : Z) (ap : R) (nro : option (R -> outcome R)) (naps : nat)
  (grid : option (list R)) (lower upper : R) (uls : list unresolved_lvalue) (rad : radii).
Hypotheses (HAW : forall ul, In ul uls -> ul_AWRI ul = A)
  (Hrad : makeChannelRadii ap nro naps A mn = Ok rad).

(** The J values of the file, l by l *)
Definition file_values : list (nat * unresolved_jvalue) :=
  flat_map (fun ul => map (fun j => (ul_L ul, j)) (ul_jvalues ul)) uls.
Definition made (x : nat * unresolved_jvalue) (u : unresolved_group) : Prop :=
  legacy_channel mn incident target A I (ug_channel u) rad /\
  ql (c_numbers (ug_channel u)) = fst x /\ qJ (c_numbers (ug_channel u)) = uj_AJ (snd x) /\
  makeLegacyUnresolvedTable (match grid with Some es => es | None => [lower; upper] end) (snd x) = Ok (ug_table u).

Lemma table_degrees es j t : makeLegacyUnresolvedTable es j = Ok t ->
  let d := ut_degrees t in (d_elastic d <= 4 /\ d_capture d <= 4 /\ d_fission d <= 4 /\ d_competition d <= 4)%nat.
Proof.
  unfold makeLegacyUnresolvedTable. intros H. apply bind_Ok in H as (rs & _ & H).
  apply bind_Ok in H as (n & _ & H). apply bind_Ok in H as (g & _ & H). apply bind_Ok in H as (f & _ & H).
  apply bind_Ok in H as (x & _ & H). apply makeTable_degrees in H as (-> & _ & H). exact H.
Qed.

Theorem file_groups s : makeLegacyUnresolvedSystem mn incident target I ap nro naps grid lower upper uls = Ok s ->
  Forall2 made file_values (uy_groups s) /\ s = mkUSystem (uy_groups s) (unresolvedLMax (uy_groups s)) /\ uy_groups s <> [].
Proof.
  unfold makeLegacyUnresolvedSystem. destruct uls as [|first rest] eqn:Eu; [discriminate|]. intros H.
  assert (HA1 : ul_AWRI first = A) by (apply HAW; left; reflexivity). rewrite HA1, Hrad in H.
  apply bind_Ok in H as (pr & Epr & H). cbn [bind] in H. apply bind_Ok in H as (gss & Eg & H). rewrite <- Eu in Eg.
  unfold makeUnresolvedSystem in H. apply bind_Ok in H as (x & Ev & H). injection H as <-. cbn [uy_groups].
  split; [|split; [reflexivity|]].
  - unfold file_values. set (l := uls) in *. clearbody l. clear - Eg Epr.
    revert gss Eg. induction l as [|ul l IH]; intros gss H; cbn [mapM] in H.
    + injection H as <-. constructor.
    + apply bind_Ok in H as (gs & Hgs & H). apply bind_Ok in H as (gss' & Hg & H). injection H as <-.
      cbn [flat_map concat]. apply Forall2_app; [|apply IH; exact Hg].
      unfold makeLegacyUnresolvedGroups in Hgs. apply mapM_Ok in Hgs.
      clear -Hgs Epr. induction Hgs as [|j u js us H F IH]; cbn [map]; constructor; [|exact IH].
      cbv zeta in H. apply bind_Ok in H as (t & Ht & H). injection H as <-. unfold made. cbn [ug_channel ug_table fst snd].
      split; [exists pr; eexists; split; [exact Epr | reflexivity]|]. repeat split. exact Ht.
  - intros E0. rewrite E0 in Ev. discriminate.
Qed.
End File.

(** One set of parameters for the whole range *)
Lemma interpolated_constant (x0 x1 y x z : R) : interpolated [(x0, y); (x1, y)] x z -> z = y.
Proof.
  intros H. apply (interpolated_between [(x0, y); (x1, y)] x z (fun w => w = y)); [intros; subst; ring | | exact H].
  intros p [<-|[<-|[]]]; reflexivity.
Qed.

(** The hypotheses on an input: constants, one mass ratio, radii *)
Definition uinput (hbar mn A : R) (I : Z) (ap : R) (nro : option (R -> outcome R)) (naps : nat)
    (uls : list unresolved_lvalue) (rad : radii) : Prop :=
  0 < hbar /\ 0 < mn /\ 0 < A /\ is_spin I /\ (forall ul, In ul uls -> ul_AWRI ul = A) /\
  makeChannelRadii ap nro naps A mn = Ok rad /\ positive (radius_at (r_P rad)) /\ positive (radius_at (r_phi rad)).

Lemma made_groups mn incident target A I grid lower upper uls rad s :
  Forall2 (made mn incident target A I grid lower upper rad) (file_values uls) (uy_groups s) ->
  forall u, In u (uy_groups s) -> legacy_channel mn incident target A I (ug_channel u) rad /\ degrees_in u.
Proof.
  intros F u Hu. induction F as [|x y l l' Hxy F IH]; [destruct Hu|]. destruct Hu as [<-|Hu]; [|apply IH, Hu].
  destruct Hxy as (Hc & _ & _ & Ht). split; [exact Hc|]. apply (table_degrees _ _ _ Ht).
Qed.

(** From the file to the cross sections *)
Theorem file_value hbar epsilon0 cwf mn incident target A I ap nro naps grid lower upper uls rad s E m m' :
  uinput hbar mn A I ap nro naps uls rad ->
  makeLegacyUnresolvedSystem mn incident target I ap nro naps grid lower upper uls = Ok s ->
  (forall u, In u (uy_groups s) -> well_formed u) ->
  unresolved_system_evaluate hbar epsilon0 cwf s E m = Ok (Some m') ->
  let k := k_old (C_new hbar mn) A in
  let rho := k E * oval (radius_at (r_phi rad) E) in
  let U0 l := hard_sphere_U l rho in
  let g := g_neutron I in
  let lmax := list_max (map fst (file_values uls)) in
  exists us vs, Forall2 (made mn incident target A I grid lower upper rad) (file_values uls) us /\
    Forall2 (parameters_of hbar mn A rad E) us vs /\
    mval m' (elastic_key incident target) = mval m (elastic_key incident target) + barns k E *
      (Rsum (map (fun v => g (v_J v) * U_elastic pi_value v (U0 (v_l v))) vs)
       + Rsum (map (fun l => (2 * INR l + 1) * optical_total (U0 l)) (seq 0 (S lmax)))) /\
    mval m' (capture_key incident target) = mval m (capture_key incident target)
      + barns k E * Rsum (map (fun v => g (v_J v) * U_capture pi_value v) vs) /\
    mval m' (fission_key incident target) = mval m (fission_key incident target)
      + barns k E * Rsum (map (fun v => g (v_J v) * U_fission pi_value v) vs).
Proof.
  intros (Hh & Hmn & HA & HI & HAW & Hrad & Hch & Hsc) Hs Hw H. cbv zeta.
  destruct (file_groups mn incident target A I ap nro naps grid lower upper uls rad HAW Hrad s Hs) as (F & Es & _).
  destruct (system_value hbar epsilon0 cwf mn Hh Hmn incident target A I rad E HA HI Hch Hsc s m m') as (vs & P & _ & E1 & E2 & E3).
  - intros u Hu. destruct (made_groups _ _ _ _ _ _ _ _ _ _ _ F u Hu) as [Hc Hd]. split; [exact Hc|]. split; [apply Hw, Hu | exact Hd].
  - exact H.
  - exists (uy_groups s), vs. split; [exact F|]. split; [exact P|]. split; [|split; assumption].
    replace (list_max (map fst (file_values uls))) with (uy_lmax s); [exact E1|].
    rewrite Es. cbn [uy_lmax]. rewrite ulmax. f_equal. clear -F.
    induction F as [|x u l us H F IH]; cbn [map]; [reflexivity|]. f_equal; [apply H | exact IH].
Qed.

(** The truncation of a whole number *)
Lemma to_unsigned_INR n : (n <= 4)%nat -> to_unsigned (INR n) = Ok n.
Proof.
  intros H. unfold to_unsigned. pose proof (pos_INR n). pose proof (le_INR _ _ H). change (INR 4) with (1+1+1+1) in *.
  destruct (Rlt_dec (-1) (INR n)); [|lra]. destruct (Rlt_dec (INR n) 4294967296); [|lra].
  f_equal. replace (Int_part (INR n)) with (Z.of_nat n); [apply Nat2Z.id|].
  rewrite INR_IZR_INZ. unfold Int_part. rewrite <- (tech_up (IZR (Z.of_nat n)) (Z.of_nat n + 1)); rewrite ?plus_IZR; try lra. lia.
Qed.

(** Energy independent parameters are what the file says, at every energy *)
Lemma independent_parameters hbar mn incident target A I lower upper rad E l J n g f x D Gn0 Gg Gf Gx u v :
  made mn incident target A I None lower upper rad (l, mkUJ J (INR n) (INR g) (INR f) (INR x) (EnergyIndependent D Gn0 Gg Gf Gx)) u ->
  (n <= 4 /\ g <= 4 /\ f <= 4 /\ x <= 4)%nat ->
  parameters_of hbar mn A rad E u v ->
  let k := k_old (C_new hbar mn) A in let a := oval (radius_at (r_P rad) E) in
  v = Averages l J D (Gn0 * sqrt E * (INR n * P_spec l (k E * a) / (k E * a))) Gg Gf Gx n f x.
Proof.
  intros (_ & Hl & HJ & Ht) (Hn & Hg & Hf & Hx) HP. cbv zeta. cbn [fst snd uj_AJ] in Hl, HJ, Ht.
  unfold makeLegacyUnresolvedTable in Ht. cbn [uj_parameters uj_AMUN uj_AMUG uj_AMUF uj_AMUX last bind] in Ht.
  rewrite !to_unsigned_INR in Ht by assumption. cbn [bind] in Ht.
  apply makeTable_degrees in Ht as (Et & _).
  unfold parameters_of in HP. rewrite Et, Hl, HJ in HP. cbv zeta in HP.
  unfold column_table in HP. cbn [ut_resonances ut_degrees map ur_energy ur_spacing ur_elastic ur_capture ur_fission ur_competition
    d_elastic d_fission d_competition] in HP.
  destruct HP as (P1 & P2 & P3 & (gn & P4 & P5) & P6 & P7 & P8 & P9 & P10 & P11).
  apply interpolated_constant in P3, P4, P6, P7, P8. destruct v as [vl vJ vD vGn vGg vGf vGx vn vf vx]; cbn [UnresolvedSpec.v_l UnresolvedSpec.v_J UnresolvedSpec.v_D UnresolvedSpec.v_Gn UnresolvedSpec.v_Gg UnresolvedSpec.v_Gf UnresolvedSpec.v_Gx UnresolvedSpec.v_n UnresolvedSpec.v_f UnresolvedSpec.v_x] in *.
  subst. reflexivity.
Qed.

(** A file with energy independent parameters between 1 and 4 eV: l = 0 and l = 1, every J *)
Definition case_j (J : Z) (n : nat) : unresolved_jvalue :=
  mkUJ J (INR n) (INR 0) (INR 2) (INR 0) (EnergyIndependent 10 1 1 1 0).
Definition case_file : list unresolved_lvalue := [mkUL 0 1 [case_j 1 1]; mkUL 1 1 [case_j 1 1; case_j 3 2]].
Definition case_system : outcome unresolved_system :=
  makeLegacyUnresolvedSystem 1 "n" "t" 0 1 None 1 None 1 4 case_file.

Lemma case_table J n es : es = [1; 4] -> (1 <= n <= 4)%nat -> makeLegacyUnresolvedTable es (case_j J n)
  = Ok (mkUTable [mkUnresolved 1 10 1 1 1 0; mkUnresolved 4 10 1 1 1 0] (mkData n 0 2 0)%nat).
Proof.
  intros -> Hn. unfold makeLegacyUnresolvedTable, case_j. cbn [uj_parameters uj_AMUN uj_AMUG uj_AMUF uj_AMUX last bind].
  rewrite !to_unsigned_INR by lia. cbn [bind]. apply makeTable_degrees. cbn. repeat split; lia.
Qed.
Lemma case_ok : exists s, case_system = Ok s.
Proof.
  unfold case_system, makeLegacyUnresolvedSystem, case_file. cbn [ul_AWRI].
  destruct (legacyPair_ok 1 ltac:(lra) "n" "t" 1 0 ltac:(lra)) as (pr & -> & _). cbn [bind makeChannelRadii mapM].
  unfold makeLegacyUnresolvedGroups. cbn [ul_jvalues mapM ul_L]. cbv zeta.
  rewrite !case_table by (reflexivity || lia). cbn [bind concat app].
  eexists. unfold makeUnresolvedSystem, unresolvedVerify. cbn. reflexivity.
Qed.
Lemma case_input : uinput 1 1 1 0 1 None 1 case_file (radii1 (Fixed 1)).
Proof.
  unfold uinput. repeat split; try lra.
  - red; lia.
  - intros ul [<-|[<-|[]]]; reflexivity.
  - intros e r H; cbn in H; injection H as <-; lra.
  - intros e r H; cbn in H; injection H as <-; lra.
Qed.
Lemma case_tables s : case_system = Ok s -> forall u, In u (uy_groups s) -> well_formed u /\ sensible 2 u.
Proof.
  intros Hs. destruct case_input as (_ & _ & _ & _ & HAW & Hrad & _).
  destruct (file_groups 1 "n" "t" 1 0 1 None 1 None 1 4 case_file _ HAW Hrad s Hs) as (F & _ & _).
  set (us := uy_groups s) in *. clearbody us.
  assert (T : forall u, In u us -> exists n, (1 <= n <= 4)%nat /\ (ql (c_numbers (ug_channel u)) <= 1)%nat /\
     ug_table u = mkUTable [mkUnresolved 1 10 1 1 1 0; mkUnresolved 4 10 1 1 1 0] (mkData n 0 2 0)%nat).
  { cbn in F. assert (G : Forall (fun x => exists J n, (1 <= n <= 4)%nat /\ (fst x <= 1)%nat /\ snd x = case_j J n)
       [(0%nat, case_j 1 1); (1%nat, case_j 1 1); (1%nat, case_j 3 2)]).
    { repeat (apply Forall_cons || apply Forall_nil); eexists; eexists; (split; [|split; [|reflexivity]]); cbn; lia. }
    revert F G. generalize [(0%nat, case_j 1 1); (1%nat, case_j 1 1); (1%nat, case_j 3 2)]. intros l F.
    induction F as [|x u l us (_ & Hl & _ & Ht) F IH]; intros G u' Hu; [destruct Hu|].
    apply Forall_inv_tail in G as G'. apply Forall_inv in G as (J & n & Hn & Hx & Ex). destruct Hu as [<-|Hu].
    - exists n. split; [exact Hn|]. split; [lia|]. rewrite Ex, case_table in Ht by (reflexivity || exact Hn). congruence.
    - apply IH; [exact G' | exact Hu]. }
  intros u Hu. destruct (T u Hu) as (n & Hn & Hl & Et). unfold well_formed, sensible. cbv zeta. rewrite Et.
  cbn [ut_resonances ut_degrees d_fission d_competition d_elastic].
  assert (S : StronglySorted (fun x y => ur_energy x < ur_energy y) [mkUnresolved 1 10 1 1 1 0; mkUnresolved 4 10 1 1 1 0]).
  { repeat constructor; cbn; lra. }
  split.
  - split; [exact S|]. split; [discriminate|]. intros _ r [<-|[<-|[]]]; reflexivity.
  - split; [lia|]. split; [exact S|]. split; [cbn; lia|]. split; [|split; [|split; [|lia]]].
    + intros r l E. injection E as <- _. cbn. lra.
    + eexists; split; [right; left; reflexivity|]. cbn. lra.
    + intros r [<-|[<-|[]]]; cbn; lra.
Qed.
Lemma case_evaluated hbar epsilon0 cwf m : hbar = 1 -> exists s m', case_system = Ok s /\
  unresolved_system_evaluate hbar epsilon0 cwf s 2 m = Ok (Some m').
Proof.
  intros ->. destruct case_ok as [s Hs]. exists s.
  destruct case_input as (Hh & Hmn & HA & HI & HAW & Hrad & Hch & Hsc).
  destruct (file_groups 1 "n" "t" 1 0 1 None 1 None 1 4 case_file _ HAW Hrad s Hs) as (F & Es & Hne).
  destruct (system_succeeds 1 epsilon0 cwf 1 Hh Hmn "n" "t" 1 0 _ 2 HA HI Hch Hsc s m Es Hne) as [m' Hm'].
  - intros u Hu. split; [apply (made_groups _ _ _ _ _ _ _ _ _ _ _ F u Hu) | apply (case_tables s Hs u Hu)].
  - lra.
  - eexists; reflexivity.
  - eexists; reflexivity.
  - exists m'. split; [exact Hs | exact Hm'].
Qed.

(** Capture and fission are never negative *)
Lemma Forall2_right {X Y} (P : X -> Y -> Prop) xs ys y : Forall2 P xs ys -> In y ys -> exists x, In x xs /\ P x y.
Proof.
  induction 1 as [|x z xs ys Hxz F IH]; intros Hy; [destruct Hy|]. destruct Hy as [<-|Hy].
  - exists x. split; [left; reflexivity | exact Hxz].
  - destruct (IH Hy) as (w & Hw & Hp). exists w. split; [right; exact Hw | exact Hp].
Qed.
Lemma g_neutron_nonneg I J : is_spin I -> (0 <= J)%Z -> 0 <= g_neutron I J.
Proof.
  unfold is_spin, g_neutron. intros HI HJ. apply IZR_le in HI, HJ. apply Rdiv_le_0_compat; lra.
Qed.
Lemma parameters_nonneg hbar mn A rad E u v : 0 < hbar -> 0 < mn -> 0 < A -> 0 < E ->
  positive (radius_at (r_P rad)) -> (exists r, radius_at (r_P rad) E = Ok r) -> parameters_of hbar mn A rad E u v ->
  (forall r, In r (ut_resonances (ug_table u)) -> 0 < ur_spacing r /\ 0 <= ur_elastic r /\ 0 <= ur_capture r /\
     0 <= ur_fission r /\ 0 <= ur_competition r) ->
  0 <= v_Gn v /\ 0 <= v_Gg v /\ 0 <= v_Gf v /\ 0 <= v_Gx v /\ 0 < v_D v.
Proof.
  intros Hh Hmn HA HE Hch [r Hr] (_ & _ & P3 & (gn & P4 & P5) & P6 & P7 & P8 & _) Hpos.
  assert (Pk : 0 < k_old (C_new hbar mn) A E) by (apply k_old_pos; [apply C_new_pos|..]; try assumption; lra).
  assert (Pr : 0 < r) by (apply (Hch E r Hr)).
  assert (N : forall f y, (forall r, In r (ut_resonances (ug_table u)) -> 0 <= f r) -> interpolated (column_table f (ug_table u)) E y -> 0 <= y).
  { intros f y Hf Hy. apply (interpolated_nonneg _ E _) with (2 := Hy). intros p Hp. apply in_column in Hp as (x & Hx & ->). apply Hf, Hx. }
  repeat split.
  - rewrite P5, Hr. cbn [oval]. apply Rmult_le_pos; [apply Rmult_le_pos; [|apply sqrt_pos]|].
    + apply (N ur_elastic gn); [intros x Hx; apply Hpos, Hx | exact P4].
    + apply Rdiv_le_0_compat; [|apply Rmult_lt_0_compat; assumption]. apply Rmult_le_pos; [apply pos_INR|].
      apply Rlt_le, P_spec_pos, Rmult_lt_0_compat; assumption.
  - apply (N ur_capture _); [intros x Hx; apply Hpos, Hx | exact P6].
  - apply (N ur_fission _); [intros x Hx; apply Hpos, Hx | exact P7].
  - apply (N ur_competition _); [intros x Hx; apply Hpos, Hx | exact P8].
  - apply (interpolated_pos _ E _) with (2 := P3). intros p Hp. apply in_column in Hp as (x & Hx & ->). apply Hpos, Hx.
Qed.
Lemma nonneg_sum {X} (G : X -> R) l : (forall x, In x l -> 0 <= G x) -> 0 <= Rsum (map G l).
Proof. intros H. apply Rsum_nonneg. intros y Hy. apply in_map_iff in Hy as (x & <- & Hx). apply H, Hx. Qed.

Theorem system_nonneg hbar epsilon0 cwf mn incident target A I rad E s m m' :
  0 < hbar -> 0 < mn -> 0 < A -> is_spin I -> 0 < E ->
  positive (radius_at (r_P rad)) -> positive (radius_at (r_phi rad)) -> (exists r, radius_at (r_P rad) E = Ok r) ->
  (forall u, In u (uy_groups s) -> legacy_channel mn incident target A I (ug_channel u) rad /\ well_formed u /\ degrees_in u /\
     (0 <= qJ (c_numbers (ug_channel u)))%Z /\
     (forall r, In r (ut_resonances (ug_table u)) -> 0 < ur_spacing r /\ 0 <= ur_elastic r /\ 0 <= ur_capture r /\
        0 <= ur_fission r /\ 0 <= ur_competition r)) ->
  unresolved_system_evaluate hbar epsilon0 cwf s E m = Ok (Some m') ->
  mval m (capture_key incident target) <= mval m' (capture_key incident target) /\
  mval m (fission_key incident target) <= mval m' (fission_key incident target).
Proof.
  intros Hh Hmn HA HI HE Hch Hsc Hr Hgs H.
  destruct (system_value hbar epsilon0 cwf mn Hh Hmn incident target A I rad E HA HI Hch Hsc s m m') as (vs & P & S & _ & E2 & E3);
    [intros u Hu; destruct (Hgs u Hu) as (? & ? & ? & _); auto | exact H|].
  unfold ckey, fkey in E2, E3. rewrite E2, E3.
  assert (V : forall v, In v vs -> 0 <= g_neutron I (v_J v) * U_capture pi_value v /\ 0 <= g_neutron I (v_J v) * U_fission pi_value v).
  { intros v Hv. rewrite Forall_forall in S. destruct (S v Hv) as (_ & _ & _ & _ & _ & N).
    destruct (Forall2_right _ _ _ _ P Hv) as (u & Hu & Puv). destruct (Hgs u Hu) as (_ & _ & _ & HJ & Hpos).
    destruct (parameters_nonneg _ _ _ _ _ _ _ Hh Hmn HA HE Hch Hr Puv Hpos) as (N1 & N2 & N3 & N4 & N5).
    destruct (N N1 N2 N3 N4 N5) as (C1 & C2 & _).
    assert (0 <= g_neutron I (v_J v)). { apply g_neutron_nonneg; [exact HI|]. destruct Puv as (_ & -> & _). exact HJ. }
    split; apply Rmult_le_pos; assumption. }
  assert (B : 0 <= barns (k_old (C_new hbar mn) A) E).
  { unfold barns. assert (Pk : 0 < k_old (C_new hbar mn) A E) by (apply k_old_pos; [apply C_new_pos|..]; try assumption; lra).
    apply Rdiv_le_0_compat; [unfold pi_value; lra | nra]. }
  pose proof (nonneg_sum (fun v => g_neutron I (v_J v) * U_capture pi_value v) vs (fun v Hv => proj1 (V v Hv))).
  pose proof (nonneg_sum (fun v => g_neutron I (v_J v) * U_fission pi_value v) vs (fun v Hv => proj2 (V v Hv))).
  split; match goal with |- ?a <= ?a + ?b * ?c => assert (0 <= b * c) by (apply Rmult_le_pos; assumption) end; lra.
Qed.

(** When the J of every l add up to 2l+1, the total is the sum over the groups of the optical
    theorem *)
Lemma complete_total_rho I rho lmax vs : (forall v, In v vs -> (v_l v <= lmax)%nat) ->
  (forall l, (l <= lmax)%nat -> Rsum (map (fun v => g_neutron I (v_J v)) (filter (fun v => Nat.eqb (v_l v) l) vs)) = 2 * INR l + 1) ->
  U_total pi_value rho (g_neutron I) lmax vs = Rsum (map (fun v =>
    g_neutron I (v_J v) * optical_total (average_collision pi_value (hard_sphere_U (v_l v) rho) (v_Gn v / v_D v))) vs).
Proof.
  intros Hl Hc. unfold U_total. cbv zeta.
  rewrite (Rsum_ext _ (fun l => Rsum (map (fun v => g_neutron I (v_J v) * optical_total (hard_sphere_U (v_l v) rho))
             (filter (fun v => Nat.eqb (v_l v) l) vs)))).
  2:{ intros l Hin. apply in_seq in Hin. rewrite <- (Hc l ltac:(lia)), Rmult_comm, <- Rsum_scale. apply Rsum_ext.
      intros v Hv. apply filter_In in Hv as [_ Hv]. apply Nat.eqb_eq in Hv. rewrite Hv. ring. }
  rewrite (partition_nat v_l (fun v => g_neutron I (v_J v) * optical_total (hard_sphere_U (v_l v) rho)))
    by (intros v Hv; specialize (Hl v Hv); lia).
  rewrite <- Rsum_plus. apply Rsum_ext. intros v _. ring.
Qed.

(** * Forms for the property file *)
Lemma rule_of_spec x n : rule_of (nonzero x) n = if Req_EM_T x 0 then constant_rule else chi2_rule (Nat.max 1 n).
Proof.
  unfold rule_of. destruct (Req_EM_T x 0) as [H|H].
  - apply nonzero_0 in H. rewrite H. reflexivity.
  - destruct (nonzero x) eqn:E; [|apply nonzero_0 in E; contradiction]. unfold nonzero_degree. destruct n as [|[|n]]; reflexivity.
Qed.
Lemma integrals_value_spec w d : (1 <= d_elastic d <= 4)%nat ->
  (nonzero (d_fission w) = true -> (d_fission d <= 4)%nat) -> (nonzero (d_competition w) = true -> (d_competition d <= 4)%nat) ->
  let Gn := d_elastic w in let Gg := d_capture w in let Gf := d_fission w in let Gx := d_competition w in
  let rn := chi2_rule (d_elastic d) in
  let rf := if Req_EM_T Gf 0 then constant_rule else chi2_rule (Nat.max 1 (d_fission d)) in
  let rx := if Req_EM_T Gx 0 then constant_rule else chi2_rule (Nat.max 1 (d_competition d)) in
  let vanishes := exists a b c, In a rn /\ In b rf /\ In c rx /\ total_width Gn Gg Gf Gx (snd a) (snd b) (snd c) = 0 in
  (vanishes /\ calculateFluctuationIntegrals w d = Ok None) \/
  (~ vanishes /\ exists i, calculateFluctuationIntegrals w d = Ok (Some i) /\
     d_elastic i = I_elastic Gn Gg Gf Gx rn rf rx /\ d_capture i = I_capture Gn Gg Gf Gx rn rf rx /\
     (Gf <> 0 -> d_fission i = I_fission Gn Gg Gf Gx rn rf rx) /\ (Gf = 0 -> d_fission i = 0) /\
     (Gx <> 0 -> d_competition i = I_competition Gn Gg Gf Gx rn rf rx) /\ (Gx = 0 -> d_competition i = 0)).
Proof.
  intros H1 H2 H3. cbv zeta. rewrite <- !rule_of_spec.
  destruct (integrals_value w d H1 H2 H3) as [[HS HI] | [HS (i & HI & W1 & W2 & W3 & W4)]]; [left | right].
  - split; [exact HS | exact HI].
  - split; [exact HS|]. exists i. split; [exact HI|]. split; [exact W1|]. split; [exact W2|].
    split; [|split; [|split]]; intros Hz; rewrite ?W3, ?W4.
    + destruct (nonzero (d_fission w)) eqn:Ez; [reflexivity | apply nonzero_0 in Ez; contradiction].
    + apply nonzero_0 in Hz. rewrite Hz. reflexivity.
    + destruct (nonzero (d_competition w)) eqn:Ez; [reflexivity | apply nonzero_0 in Ez; contradiction].
    + apply nonzero_0 in Hz. rewrite Hz. reflexivity.
Qed.
Lemma integrals_conserved_spec w d i : (1 <= d_elastic d <= 4)%nat ->
  (nonzero (d_fission w) = true -> (d_fission d <= 4)%nat) -> (nonzero (d_competition w) = true -> (d_competition d <= 4)%nat) ->
  calculateFluctuationIntegrals w d = Ok (Some i) ->
  d_elastic w * d_elastic i + d_capture w * d_capture i + d_fission w * d_fission i + d_competition w * d_competition i
  = average (chi2_rule (d_elastic d)) (fun x => x)
    * average (if Req_EM_T (d_fission w) 0 then constant_rule else chi2_rule (Nat.max 1 (d_fission d))) (fun _ => 1)
    * average (if Req_EM_T (d_competition w) 0 then constant_rule else chi2_rule (Nat.max 1 (d_competition d))) (fun _ => 1).
Proof. intros H1 H2 H3 H. rewrite <- !rule_of_spec. exact (integrals_conserved w d H1 H2 H3 i H). Qed.
Lemma integrals_conserved_close w d i : (1 <= d_elastic d <= 4)%nat ->
  (nonzero (d_fission w) = true -> (d_fission d <= 4)%nat) -> (nonzero (d_competition w) = true -> (d_competition d <= 4)%nat) ->
  calculateFluctuationIntegrals w d = Ok (Some i) ->
  Rabs (d_elastic w * d_elastic i + d_capture w * d_capture i + d_fission w * d_fission i + d_competition w * d_competition i - 1)
  <= 1.7e-3.
Proof.
  intros H1 H2 H3 H. rewrite (integrals_conserved_spec w d i H1 H2 H3 H).
  apply (rule_total_bound (Averages 0 0 0 0 0 (d_fission w) (d_competition w) (d_elastic d) (Nat.max 1 (d_fission d)) (Nat.max 1 (d_competition d))));
    cbn [v_n v_Gf v_f v_Gx v_x]; [exact H1| |]; intros Hz.
  - destruct (nonzero (d_fission w)) eqn:Ez; [|apply nonzero_0 in Ez; contradiction]. specialize (H2 eq_refl). lia.
  - destruct (nonzero (d_competition w)) eqn:Ez; [|apply nonzero_0 in Ez; contradiction]. specialize (H3 eq_refl). lia.
Qed.
