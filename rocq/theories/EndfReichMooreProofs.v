(** Reich-Moore parameters: the channel data and the spin groups made of them. *)
From Coq Require Import String Ascii List ZArith Reals Bool Lra Lia Permutation.
From Verif Require Import Outcome QuantumModel QuantumSpec QuantumProofs QuantumIdProofs SpinFactorProofs SpinFactorModel HardSphereModel KinematicsModel CoulombModel RMatrixModel ChannelModel SpinGroupModel
  BreitWignerModel ReichMooreModel LegacyModel UnresolvedModel ListFacts AssemblyModel AssemblySpec AssemblyTheorems EndfModel EndfSpec EndfProofs.
From Verif Require LegacySystemProofs.
Import ListNotations.
Open Scope R_scope.

Lemma su_in l x : In x (sort_unique l) <-> In x l.
Proof. exact (LegacySystemProofs.sort_unique_in 0 (fun _ _ _ => UB "") 0 0 (radii1 (Fixed 0)) 0 l x). Qed.
Lemma su_nodup l : NoDup (sort_unique l).
Proof. exact (LegacySystemProofs.sort_unique_nodup 0 (fun _ _ _ => UB "") 0 0 (radii1 (Fixed 0)) 0 l). Qed.

Lemma Forall2_cons_l {A B} (P : A -> B -> Prop) x l m : Forall2 P (x :: l) m -> exists y m', m = y :: m' /\ P x y /\ Forall2 P l m'.
Proof. intros H. inversion H; subst. eauto. Qed.

(** * Widths *)
Lemma elastic_reduced value p gamma : toElasticWidth value p = Some gamma -> reduced p value gamma.
Proof.
  unfold toElasticWidth, fdiv, fsqrt. destruct (Req_EM_T p 0) as [|Np]; [discriminate|]. destruct (Rlt_dec (Rabs value / 2 / p) 0) as [|N]; [discriminate|].
  intros H. injection H as <-. destruct (Req_EM_T value 0) as [->|V].
  - rewrite Rabs_R0. replace (0 / 2 / p) with 0 by (field; exact Np). rewrite sqrt_0. unfold reduced. rewrite Rabs_R0. destruct (Rle_dec 0 0); repeat split; intros; lra.
  - assert (Hp : 0 < p).
    { destruct (Rlt_dec 0 p) as [|G]; [assumption|]. exfalso. apply N. pose proof (Rabs_pos_lt value V).
      assert (/ p < 0) by (apply Rinv_lt_0_compat; lra). unfold Rdiv. replace (Rabs value * / 2 * / p) with (- (Rabs value * / 2 * - / p)) by ring.
      apply Ropp_lt_gt_0_contravar. apply Rmult_gt_0_compat; lra. }
    pose proof (sqrt_reduced p value Hp) as Q. destruct (Rlt_dec value 0), (Rle_dec 0 value); try lra; exact Q.
Qed.
Lemma elastic_total value p : 0 < p -> exists gamma, toElasticWidth value p = Some gamma.
Proof.
  intros Hp. unfold toElasticWidth, fdiv, fsqrt. destruct (Req_EM_T p 0); [lra|]. destruct (Rlt_dec (Rabs value / 2 / p) 0) as [Q|_]; [|eexists; reflexivity].
  exfalso. pose proof (Rabs_pos value). assert (0 <= Rabs value / 2 / p); [|lra]. apply Rmult_le_pos; [lra | left; apply Rinv_0_lt_compat; exact Hp].
Qed.
Lemma other_reduced value : reduced 1 value (toOtherWidth value).
Proof.
  unfold toOtherWidth. pose proof (sqrt_reduced 1 value Rlt_0_1) as Q. replace (Rabs value / 2 / 1) with (Rabs value / 2) in Q by field.
  destruct (Rlt_dec value 0), (Rle_dec 0 value); try lra; exact Q.
Qed.
Lemma isAllZero_spec l : isAllZero l = true <-> forall x, In x l -> x = 0.
Proof.
  unfold isAllZero. assert (G : forall l b, fold_left (fun b x => b && (if Req_EM_T x 0 then true else false)) l b = true <-> b = true /\ forall x, In x l -> x = 0).
  { clear l. induction l as [|x l IH]; intros b; cbn [fold_left]; [split; [intros ->; split; [reflexivity | intros x []] | intros [-> _]; reflexivity]|].
    rewrite IH. destruct (Req_EM_T x 0) as [->|N].
    - rewrite andb_true_r. split; intros [-> H]; (split; [reflexivity|]); [intros y [<-|Hy]; auto | intros y Hy; apply H; right; exact Hy].
    - rewrite andb_false_r. split; [intros [Q _]; discriminate|]. intros [_ H]. exfalso. apply N, H. left. reflexivity. }
  rewrite G. tauto.
Qed.
Lemma all_zero_used (w : rm_line -> R) rows : isAllZero (map w rows) = false <-> exists r, In r rows /\ w r <> 0.
Proof.
  split.
  - intros H. induction rows as [|r rows IH]; [discriminate|]. destruct (Req_EM_T (w r) 0) as [E|N]; [|exists r; split; [left; reflexivity | exact N]].
    destruct IH as (x & Hx & Nx); [|exists x; split; [right; exact Hx | exact Nx]].
    destruct (isAllZero (map w rows)) eqn:Z; [|reflexivity]. rewrite <- H. symmetry. apply isAllZero_spec. rewrite isAllZero_spec in Z. intros x [<-|Hx]; auto.
  - intros (r & Hr & N). destruct (isAllZero (map w rows)) eqn:Z; [|reflexivity]. exfalso. rewrite isAllZero_spec in Z. apply N, Z, in_map, Hr.
Qed.
Lemma natural_even l : natural_parity l = (if Nat.even l then 1 else -1)%Z.
Proof. apply natural_parity_spec. Qed.

Lemma made_data c es ws e d : makeChannelData c es ws e = Ok d -> d = mkChannelData c es ws e.
Proof. unfold makeChannelData. destruct (Nat.eqb (length es) (length ws)); cbn; intros H; [injection H as <-; reflexivity | discriminate]. Qed.
Lemma made_total c es ws e : length es = length ws -> makeChannelData c es ws e = Ok (mkChannelData c es ws e).
Proof. intros H. unfold makeChannelData. rewrite H, Nat.eqb_refl. reflexivity. Qed.

Section ReichMoore.
Variables (hbar epsilon0 : R) (cwf : nat -> R -> R -> outcome coulomb) (neutronMass : R) (incident target : string).
Let pen : channel -> R -> option R := fun c e => match channelPenetrability hbar epsilon0 cwf c e with Ok (Some p) => Some p | _ => None end.
Let X : string := (incident ++ "," ++ target)%string.

Lemma pair_id awri spin inc : legacyPair neutronMass incident target awri spin = Ok inc ->
  pp_id inc = X /\ p_spin (pp_particle inc) = 1%Z /\ p_spin (pp_residual inc) = spin /\ inc = makeParticlePair (pp_particle inc) (pp_residual inc) X.
Proof.
  unfold legacyPair. intros H. apply bind_Ok in H as (a & Ha & H). apply bind_Ok in H as (b & Hb & H). injection H as <-.
  unfold makeParticle in Ha, Hb. apply bind_Ok in Ha as (? & _ & Ha). apply bind_Ok in Ha as (? & _ & Ha). injection Ha as <-.
  apply bind_Ok in Hb as (? & _ & Hb). apply bind_Ok in Hb as (? & _ & Hb). injection Hb as <-. repeat split.
Qed.

Lemma Forall2_map_r {A B C} (P : A -> C -> Prop) (g : B -> C) l m : Forall2 (fun x y => P x (g y)) l m -> Forall2 P l (map g m).
Proof. induction 1; constructor; auto. Qed.
Lemma Forall2_self {A} (P : A -> A -> Prop) l : (forall x, P x x) -> Forall2 P l l.
Proof. intros H. induction l; constructor; auto. Qed.

Theorem block_made ls inc rad j av ds rem : makeParticlePair (pp_particle inc) (pp_residual inc) (pp_id inc) = inc ->
  reichMooreJ hbar epsilon0 cwf ls inc rad j av = Ok (Some ds, rem) ->
  exists n, retrieveQuantumNumber (rs_L ls) j av = Ok (n, rem) /\ rm_block pen ls inc rad j n ds.
Proof.
  intros Hi H. unfold reichMooreJ in H. apply bind_Ok in H as ([n rem'] & En & H). cbn [fst snd] in H.
  fold (rows_of ls j) in H. set (rows := rows_of ls j) in *.
  apply bind_Ok in H as (ops & Eo & H).
  set (cE := makeChannel Neutron inc inc (pp_id inc) 0 n rad 0) in *.
  destruct (all_finite ops) as [ps|] eqn:Ep; [|discriminate].
  destruct (all_finite (map (fun q => toElasticWidth (fst q) (snd q)) (combine (map rl_GN rows) ps))) as [rw|] eqn:Er; [|discriminate].
  apply bind_Ok in H as (el & Eel & H). apply bind_Ok in H as (ca & Eca & H). apply bind_Ok in H as (fi1 & Efi1 & H). apply bind_Ok in H as (fi2 & Efi2 & H).
  injection H as <- <-. exists n. split; [exact En|].
  constructor; [apply retrieve_ok in En; destruct En as (A & B & _); auto|].
  exists el, ca, (fi1 ++ fi2). split; [reflexivity|].
  apply made_data in Eel. subst el. apply made_data in Eca. subst ca.
  apply all_finite_Some in Ep. subst ops. apply all_finite_Some in Er. apply mapM_Ok in Eo.
  assert (EN : mkQ (rs_L ls) 0 (Z.abs j) (natural_parity (rs_L ls)) = other_numbers ls j) by (unfold other_numbers; rewrite natural_even; reflexivity).
  rewrite EN in *.
  assert (O : forall w : rm_line -> R, Forall2 (fun r gamma => reduced 1 (w r) gamma) rows (map toOtherWidth (map w rows))).
  { intros w. rewrite map_map. clear. induction rows; constructor; [apply other_reduced | assumption]. }
  split.
  { unfold rm_channel. rewrite Hi. fold cE. unfold partial_data. cbn [cd_channel cd_eliminated cd_energies cd_widths].
    split; [reflexivity|]. split; [reflexivity|]. split; [reflexivity|].
    change (rows_of ls j) with rows. clearbody rows. clear -Eo Er. revert ps rw Eo Er. induction rows as [|r rows IH]; intros [|p ps] [|g rw] Eo Er; cbn [map combine] in *; inversion Eo as [|? ? ? ? E1 E2]; subst; try discriminate; constructor.
    - injection Er as Er _. exists p. cbn [fst snd] in Er. split; [unfold pen; rewrite E1; reflexivity | apply elastic_reduced; exact Er].
    - injection Er as _ Er. apply (IH ps rw E2 Er). }
  split; [split; [reflexivity|]; split; [reflexivity|]; split; [reflexivity | apply (O rl_GG)]|].
  destruct (isAllZero (map rl_GFA rows)) eqn:Za; destruct (isAllZero (map rl_GFB rows)) eqn:Zb; cbn [negb] in *.
  - injection Efi1 as <-. injection Efi2 as <-. assert (NA : ~ exists r, In r rows /\ rl_GFA r <> 0) by (rewrite <- all_zero_used; congruence).
    assert (NB : ~ exists r, In r rows /\ rl_GFB r <> 0) by (rewrite <- all_zero_used; congruence).
    split; [reflexivity|]. split; [contradiction|]. split; [contradiction | contradiction].
  - injection Efi1 as <-. apply bind_Ok in Efi2 as (d & Ed & Q). injection Q as <-. apply made_data in Ed. subst d.
    assert (NA : ~ exists r, In r rows /\ rl_GFA r <> 0) by (rewrite <- all_zero_used; congruence). apply all_zero_used in Zb.
    split; [contradiction|]. split; [contradiction|]. split; [|contradiction]. intros _ _. eexists. split; [reflexivity|].
    split; [reflexivity|]; split; [reflexivity|]; split; [reflexivity | apply (O rl_GFB)].
  - injection Efi2 as <-. apply bind_Ok in Efi1 as (d & Ed & Q). injection Q as <-. apply made_data in Ed. subst d.
    assert (NB : ~ exists r, In r rows /\ rl_GFB r <> 0) by (rewrite <- all_zero_used; congruence). apply all_zero_used in Za.
    split; [contradiction|]. split; [|split; contradiction]. intros _ _. eexists. split; [reflexivity|].
    split; [reflexivity|]; split; [reflexivity|]; split; [reflexivity | apply (O rl_GFA)].
  - apply bind_Ok in Efi1 as (d & Ed & Q). injection Q as <-. apply made_data in Ed. subst d.
    apply bind_Ok in Efi2 as (d & Ed & Q). injection Q as <-. apply made_data in Ed. subst d. apply all_zero_used in Za. apply all_zero_used in Zb.
    split; [contradiction|]. split; [contradiction|]. split; [contradiction|]. intros _ _. eexists. eexists. split; [reflexivity|].
    split; (split; [reflexivity|]; split; [reflexivity|]; split; [reflexivity | apply O]).
Qed.

(** * All blocks *)
Record block : Type := mkBlock
  { b_ls : rm_lstate; b_inc : particlePair; b_rad : radii; b_j : Z; b_n : qnum; b_ds : list channel_data }.
Definition b_ok (b : block) : Prop := rm_block pen (b_ls b) (b_inc b) (b_rad b) (b_j b) (b_n b) (b_ds b).
Definition request (b : block) : nat * Z := (rs_L (b_ls b), b_j b).

Lemma retrieveAll_app r r' av got left got' left' : retrieveAll r av = Ok (got, left) -> retrieveAll r' left = Ok (got', left') ->
  retrieveAll (r ++ r') av = Ok (got ++ got', left').
Proof.
  revert av got. induction r as [|[l j] r IH]; intros av got H H'; cbn [retrieveAll app] in *; [injection H as <- <-; exact H'|].
  destruct (retrieveQuantumNumber l j av) as [[q rest]| | |]; try discriminate. cbn [bind] in *.
  destruct (retrieveAll r rest) as [[qs rest']| | |] eqn:E; try discriminate. cbn [bind] in H. injection H as <- <-.
  rewrite (IH rest qs E H'). reflexivity.
Qed.
Lemma blocks_J ls inc rad js : makeParticlePair (pp_particle inc) (pp_residual inc) (pp_id inc) = inc -> forall av ds rem,
  reichMooreJs hbar epsilon0 cwf ls inc rad js av = Ok (Some ds, rem) ->
  exists bs, map b_j bs = js /\ Forall (fun b => b_ok b /\ b_ls b = ls /\ b_inc b = inc /\ b_rad b = rad) bs /\ ds = concat (map b_ds bs) /\
    retrieveAll (map request bs) av = Ok (map b_n bs, rem).
Proof.
  intros Hi. induction js as [|j js IH]; intros av ds rem H; cbn [reichMooreJs] in H.
  - injection H as <- <-. exists []. repeat split; constructor.
  - apply bind_Ok in H as ([d r1] & E1 & H). cbn [fst snd] in H. apply bind_Ok in H as ([ds' r2] & E2 & H). cbn [fst snd] in H.
    destruct d as [d|]; [|discriminate]. destruct ds' as [ds'|]; [|discriminate]. injection H as <- <-.
    destruct (block_made ls inc rad j av d r1 Hi E1) as (n & En & B). destruct (IH r1 ds' r2 E2) as (bs & J & F & -> & Rt).
    exists (mkBlock ls inc rad j n d :: bs). split; [cbn; rewrite J; reflexivity|]. split; [constructor; [split; [exact B | auto] | exact F]|].
    split; [reflexivity|]. cbn [map request b_ls b_j b_n retrieveAll]. rewrite En. cbn [bind]. rewrite Rt. reflexivity.
Qed.
Definition js_rm (ls : rm_lstate) : list Z := sort_unique (map rl_AJ (rs_lines ls)).
Lemma blocks_all spin ap nro naps lss : forall av ds rem,
  reichMooreAll hbar epsilon0 cwf neutronMass incident target spin ap nro naps lss av = Ok (Some ds, rem) ->
  exists bss, Forall2 (fun ls bs => map b_j bs = js_rm ls /\ Forall (fun b => b_ok b /\ b_ls b = ls /\
       legacyPair neutronMass incident target (rs_AWRI ls) spin = Ok (b_inc b) /\
       makeChannelRadii (if Req_EM_T (rs_APL ls) 0 then ap else rs_APL ls) nro naps (rs_AWRI ls) neutronMass = Ok (b_rad b)) bs) lss bss /\
    ds = concat (map b_ds (concat bss)) /\ retrieveAll (map request (concat bss)) av = Ok (map b_n (concat bss), rem).
Proof.
  induction lss as [|ls lss IH]; intros av ds rem H; cbn [reichMooreAll] in H.
  - injection H as <- <-. exists []. repeat split; constructor.
  - apply bind_Ok in H as ([d r1] & E1 & H). cbn [fst snd] in H. apply bind_Ok in H as ([ds' r2] & E2 & H). cbn [fst snd] in H.
    destruct d as [d|]; [|discriminate]. destruct ds' as [ds'|]; [|discriminate]. injection H as <- <-.
    unfold makeReichMooreChannelData in E1. apply bind_Ok in E1 as (inc & Ei & E1). apply bind_Ok in E1 as (rad & Er & E1).
    destruct (pair_id _ _ _ Ei) as (Hid & _ & _ & Hi). rewrite <- Hid in Hi.
    destruct (blocks_J ls inc rad _ (eq_sym Hi) av d r1 E1) as (bs & J & F & -> & Rt). destruct (IH r1 ds' r2 E2) as (bss & F2 & -> & Rt2).
    exists (bs :: bss). split; [constructor; [|exact F2]|].
    + split; [exact J|]. rewrite Forall_forall in *. intros b Hb. destruct (F b Hb) as (A & B & -> & ->). auto.
    + cbn [concat]. rewrite !map_app, concat_app. split; [reflexivity|]. exact (retrieveAll_app _ _ _ _ _ _ _ Rt Rt2).
Qed.

(** * Identifiers *)
Definition id_of (k : string * qnum) : string := makeChannelID (fst k) (snd k).
Definition fkeys (b : block) : list (string * qnum) :=
  let o := other_numbers (b_ls b) (b_j b) in
  let rows := rows_of (b_ls b) (b_j b) in
  if isAllZero (map rl_GFA rows)
  then (if isAllZero (map rl_GFB rows) then [] else [("fission1"%string, o)])
  else ("fission1"%string, o) :: (if isAllZero (map rl_GFB rows) then [] else [("fission2"%string, o)]).
Definition fissile_block (b : block) : Prop := exists r, In r (rs_lines (b_ls b)) /\ rl_AJ r = b_j b /\ fissile r.
Lemma rows_In ls j r : In r (rows_of ls j) <-> In r (rs_lines ls) /\ rl_AJ r = j.
Proof. unfold rows_of. rewrite filter_In, Z.eqb_eq. reflexivity. Qed.
Lemma fkeys_spec b : (forall k, In k (fkeys b) -> (fst k = "fission1"%string \/ fst k = "fission2"%string) /\ snd k = other_numbers (b_ls b) (b_j b) /\ fissile_block b) /\
  NoDup (fkeys b) /\ (fissile_block b -> In ("fission1"%string, other_numbers (b_ls b) (b_j b)) (fkeys b)).
Proof.
  unfold fkeys. set (o := other_numbers (b_ls b) (b_j b)). set (rows := rows_of (b_ls b) (b_j b)).
  assert (FA : isAllZero (map rl_GFA rows) = false -> fissile_block b).
  { intros H. apply all_zero_used in H as (r & Hr & N). apply rows_In in Hr as [A B]. exists r. split; [exact A|]. split; [exact B | left; exact N]. }
  assert (FB : isAllZero (map rl_GFB rows) = false -> fissile_block b).
  { intros H. apply all_zero_used in H as (r & Hr & N). apply rows_In in Hr as [A B]. exists r. split; [exact A|]. split; [exact B | right; exact N]. }
  assert (FC : isAllZero (map rl_GFA rows) = true -> isAllZero (map rl_GFB rows) = true -> ~ fissile_block b).
  { intros Ha Hb (r & A & B & Q). rewrite isAllZero_spec in Ha, Hb. assert (Hr : In r rows) by (apply rows_In; auto).
    destruct Q as [Q|Q]; apply Q; [apply Ha | apply Hb]; apply in_map; exact Hr. }
  assert (NN : ("fission1"%string, o) <> ("fission2"%string, o)) by (intros Q; injection Q; discriminate).
  destruct (isAllZero (map rl_GFA rows)); destruct (isAllZero (map rl_GFB rows)).
  - split; [intros k []|]. split; [constructor | intros Q; exfalso; exact (FC eq_refl eq_refl Q)].
  - split; [intros k [<-|[]]; auto|]. split; [constructor; [intros []|constructor] | intros _; left; reflexivity].
  - split; [intros k [<-|[]]; auto|]. split; [constructor; [intros []|constructor] | intros _; left; reflexivity].
  - split; [intros k [<-|[<-|[]]]; auto|]. split; [|intros _; left; reflexivity].
    constructor; [intros [Q|[]]; exact (NN (eq_sym Q))|]. constructor; [intros [] | constructor].
Qed.

Definition elasticC (b : block) : channel := rm_channel Neutron (b_inc b) (pp_id (b_inc b)) (pp_id (b_inc b)) (b_rad b) (b_n b).
Lemma partial_In {c rows rel e d} : partial_data c rows rel e d -> consistent d.
Proof. intros (_ & _ & E & F). unfold consistent. rewrite E, map_length. exact (Forall2_len _ _ _ F). Qed.
Lemma block_channels b : b_ok b -> exists fs, ordinary_channels (b_ds b) = elasticC b :: fs /\ map c_id fs = map id_of (fkeys b) /\
  (forall c, In c fs -> pp_id (c_pair c) = "fission"%string /\ c_incident c = b_inc b /\ c_numbers c = other_numbers (b_ls b) (b_j b)) /\
  (forall d, In d (b_ds b) -> consistent d /\ (c_numbers (cd_channel d) = b_n b \/ c_numbers (cd_channel d) = other_numbers (b_ls b) (b_j b))).
Proof.
  intros [_ (el & ca & fi & E & Pel & Pca & F)]. cbv zeta in Pel, F. fold (elasticC b) in Pel.
  assert (K : exists fs, map cd_channel (filter (fun d => negb (cd_eliminated d)) fi) = fs /\ map c_id fs = map id_of (fkeys b) /\
    (forall c, In c fs -> pp_id (c_pair c) = "fission"%string /\ c_incident c = b_inc b /\ c_numbers c = other_numbers (b_ls b) (b_j b)) /\
    (forall d, In d fi -> consistent d /\ c_numbers (cd_channel d) = other_numbers (b_ls b) (b_j b))).
  { unfold fkeys. pose proof (all_zero_used rl_GFA (rows_of (b_ls b) (b_j b))) as ZA. pose proof (all_zero_used rl_GFB (rows_of (b_ls b) (b_j b))) as ZB.
    destruct F as (F1 & F2 & F3 & F4).
    destruct (isAllZero (map rl_GFA (rows_of (b_ls b) (b_j b)))); destruct (isAllZero (map rl_GFB (rows_of (b_ls b) (b_j b)))).
    - rewrite F1 by (intros Q; first [apply ZA in Q | apply ZB in Q]; discriminate). exists []. split; [reflexivity|]. split; [reflexivity|]. split; intros ? [].
    - destruct F3 as (d & -> & P); [intros Q; apply ZA in Q; discriminate | apply ZB; reflexivity|]. pose proof (partial_In P) as C. destruct P as (Pc & Pe & _).
      cbn [filter]. rewrite Pe. cbn [negb map]. rewrite Pc. eexists. split; [reflexivity|]. split; [reflexivity|].
      split; [intros c [<-|[]]; repeat split|]. intros x [<-|[]]. split; [exact C | rewrite Pc; reflexivity].
    - destruct F2 as (d & -> & P); [apply ZA; reflexivity | intros Q; apply ZB in Q; discriminate|]. pose proof (partial_In P) as C. destruct P as (Pc & Pe & _).
      cbn [filter]. rewrite Pe. cbn [negb map]. rewrite Pc. eexists. split; [reflexivity|]. split; [reflexivity|].
      split; [intros c [<-|[]]; repeat split|]. intros x [<-|[]]. split; [exact C | rewrite Pc; reflexivity].
    - destruct F4 as (d & d' & -> & P & P'); [apply ZA; reflexivity | apply ZB; reflexivity|]. pose proof (partial_In P) as C. pose proof (partial_In P') as C'. destruct P as (Pc & Pe & _). destruct P' as (Pc' & Pe' & _).
      cbn [filter]. rewrite Pe, Pe'. cbn [negb map]. rewrite Pc, Pc'. eexists. split; [reflexivity|]. split; [reflexivity|].
      split; [intros c [<-|[<-|[]]]; repeat split|]. intros x [<-|[<-|[]]]; (split; [assumption|]); [rewrite Pc | rewrite Pc']; reflexivity. }
  destruct K as (fs & K1 & K2 & K3 & K4). exists fs. pose proof (partial_In Pel) as Cel. pose proof (partial_In Pca) as Cca.
  destruct Pel as (E1 & E2 & _), Pca as (A1 & A2 & _). split.
  - rewrite E. unfold ordinary_channels. cbn [filter]. rewrite E2, A2. cbn [negb map]. rewrite E1, K1. reflexivity.
  - split; [exact K2|]. split; [exact K3|]. rewrite E. intros d [<-|[<-|Hd]].
    + split; [exact Cel|]. left. rewrite E1. reflexivity.
    + split; [exact Cca|]. right. rewrite A1. reflexivity.
    + destruct (K4 d Hd) as [G1 G2]. split; [exact G1 | right; exact G2].
Qed.

Lemma ordinary_app d d' : ordinary_channels (d ++ d') = ordinary_channels d ++ ordinary_channels d'.
Proof. unfold ordinary_channels. rewrite filter_app, map_app. reflexivity. Qed.
Lemma ordinary_concat l : ordinary_channels (concat l) = concat (map ordinary_channels l).
Proof. induction l as [|d l IH]; [reflexivity|]. cbn [concat map]. rewrite ordinary_app, IH. reflexivity. Qed.
Lemma cons_concat_perm {A B} (f : B -> A) (g : B -> list A) l : Permutation (concat (map (fun b => f b :: g b) l)) (map f l ++ concat (map g l)).
Proof.
  induction l as [|b l IH]; cbn [map concat app]; [constructor|]. constructor. etransitivity; [apply Permutation_app_head; exact IH|].
  rewrite !app_assoc. apply Permutation_app_tail. apply Permutation_app_comm.
Qed.

(** * No comma in the names of the other channels *)
Fixpoint comma (s : string) : bool :=
  match s with EmptyString => false | String c r => Ascii.eqb c ","%char || comma r end.
Lemma X_comma : comma X = true.
Proof.
  assert (G : forall t, comma t = true -> forall a, comma (a ++ t) = true).
  { intros t Ht. induction a as [|c r IH]; cbn [append comma]; [exact Ht|]. rewrite IH. apply orb_true_r. }
  apply G. reflexivity.
Qed.
Lemma X_not s : comma s = false -> X <> s.
Proof. intros H Q. rewrite <- Q, X_comma in H. discriminate. Qed.
Lemma no_brace_X : no_brace incident -> no_brace target -> no_brace X.
Proof.
  assert (G : forall t, no_brace t -> forall a, no_brace a -> no_brace (a ++ t)).
  { intros t Ht. induction a as [|c r IH]; cbn [append no_brace]; [intros _; exact Ht|]. intros (A & B & C). auto. }
  intros Hi Ht. apply G; [|exact Hi]. apply (G target Ht ","%string). cbn. repeat split; discriminate.
Qed.

(** * The whole list *)
Section Whole.
Variables (f : rm_file) (nlsc : nat) (nro : option (R -> outcome R)) (naps : nat).
Variables (first : rm_lstate) (inc0 : particlePair) (rad0 : radii) (required remaining : list qnum) (bss : list (list block)) (ds : list channel_data).
Hypotheses (Hspin : is_spin (rf_SPI f)) (Hreq : makeQuantumNumbers 1 (rf_SPI f) nlsc = Ok required)
  (Hinc : legacyPair neutronMass incident target (rs_AWRI first) (rf_SPI f) = Ok inc0)
  (Hbss : Forall2 (fun ls bs => map b_j bs = js_rm ls /\ Forall (fun b => b_ok b /\ b_ls b = ls /\
       legacyPair neutronMass incident target (rs_AWRI ls) (rf_SPI f) = Ok (b_inc b) /\
       makeChannelRadii (if Req_EM_T (rs_APL ls) 0 then rf_AP f else rs_APL ls) nro naps (rs_AWRI ls) neutronMass = Ok (b_rad b)) bs) (rf_lstates f) bss)
  (Hds : ds = concat (map b_ds (concat bss))) (Hret : retrieveAll (map request (concat bss)) required = Ok (map b_n (concat bss), remaining)).
Let emptyC (n : qnum) : channel := makeChannel Neutron inc0 inc0 (pp_id inc0) 0 n rad0 0.
Let all : list channel_data := ds ++ map (fun n => mkChannelData (emptyC n) [] [] false) remaining.
Let bs : list block := concat bss.

Lemma whole_block b : In b bs -> b_ok b /\ In (b_ls b) (rf_lstates f) /\ pp_id (b_inc b) = X /\ p_spin (pp_particle (b_inc b)) = 1%Z /\ p_spin (pp_residual (b_inc b)) = rf_SPI f.
Proof.
  intros Hb. unfold bs in Hb. clear -Hbss Hb. pose proof Hbss as G. clear Hbss. induction G as [|ls bl l m [_ F] _ IH]; [destruct Hb|]. cbn [concat] in Hb. apply in_app_or in Hb as [Hb|Hb].
  - rewrite Forall_forall in F. destruct (F b Hb) as (A & -> & C & _). apply pair_id in C as (C1 & C2 & C3 & _). split; [exact A|]. split; [left; reflexivity | auto].
  - destruct (IH Hb) as (A & B & C). split; [exact A|]. split; [right; exact B | exact C].
Qed.
Lemma whole_perm : Permutation required (map b_n bs ++ remaining).
Proof. exact (proj1 (retrieveAll_spec _ _ _ _ Hret)). Qed.
Lemma whole_required : NoDup required /\ forall q, In q required <-> spec_number 1 (rf_SPI f) nlsc q.
Proof.
  destruct (makeQuantumNumbers_spec 1 (rf_SPI f) nlsc) as (qs & E & N & I); [unfold is_spin; lia | exact Hspin|]. rewrite Hreq in E. injection E as <-. auto.
Qed.
Lemma whole_numbers q : In q (map b_n bs) \/ In q remaining -> valid_qnum q /\ qp q = (if Nat.even (ql q) then 1 else -1)%Z.
Proof.
  intros H. assert (Q : In q required) by (apply (Permutation_in q (Permutation_sym whole_perm)), in_or_app; exact H).
  apply whole_required in Q as (_ & T1 & T2 & P). unfold triangle in *. split; [|exact P]. unfold valid_qnum. split; [lia|]. split; [lia|]. rewrite P. destruct (Nat.even (ql q)); auto.
Qed.
Lemma other_valid ls j : valid_qnum (other_numbers ls j).
Proof. unfold valid_qnum, other_numbers. cbn. split; [lia|]. split; [lia|]. destruct (Nat.even (rs_L ls)); auto. Qed.
Lemma block_Jpi b : In b bs -> Jpi_of (b_n b) = Jpi_of (other_numbers (b_ls b) (b_j b)).
Proof.
  intros Hb. destruct (whole_block b Hb) as ([[A B] _] & _). destruct (whole_numbers (b_n b)) as [_ P]; [left; apply in_map; exact Hb|].
  unfold Jpi_of, other_numbers. cbn. rewrite B, P, A. reflexivity.
Qed.
Lemma whole_consistent d : In d all -> consistent d.
Proof.
  unfold all. rewrite Hds. intros H. apply in_app_or in H as [H|H].
  - apply in_concat in H as (l & Hl & Hd). apply in_map_iff in Hl as (b & <- & Hb). destruct (whole_block b Hb) as (Ok_ & _).
    destruct (block_channels b Ok_) as (_ & _ & _ & _ & C). exact (proj1 (C d Hd)).
  - apply in_map_iff in H as (n & <- & _). reflexivity.
Qed.
Lemma whole_channels : exists fss, Forall2 (fun b fs => map c_id fs = map id_of (fkeys b) /\
    (forall c, In c fs -> pp_id (c_pair c) = "fission"%string /\ c_incident c = b_inc b /\ c_numbers c = other_numbers (b_ls b) (b_j b))) bs fss /\
  ordinary_channels all = concat (map (fun p => elasticC (fst p) :: snd p) (combine bs fss)) ++ map emptyC remaining.
Proof.
  unfold all. rewrite Hds, ordinary_app, ordinary_concat. fold bs.
  assert (G : forall l, (forall b, In b l -> b_ok b) -> exists fss, Forall2 (fun b fs => map c_id fs = map id_of (fkeys b) /\
    (forall c, In c fs -> pp_id (c_pair c) = "fission"%string /\ c_incident c = b_inc b /\ c_numbers c = other_numbers (b_ls b) (b_j b))) l fss /\
    concat (map ordinary_channels (map b_ds l)) = concat (map (fun p => elasticC (fst p) :: snd p) (combine l fss))).
  { induction l as [|b l IH]; intros H; [exists []; split; [constructor | reflexivity]|].
    destruct IH as (fss & F & E); [intros x Hx; apply H; right; exact Hx|]. destruct (block_channels b (H b (or_introl eq_refl))) as (fs & A & B & C & _).
    exists (fs :: fss). split; [constructor; auto|]. cbn [map concat combine]. rewrite E, A. reflexivity. }
  destruct (G bs) as (fss & F & E); [intros b Hb; apply whole_block; exact Hb|]. exists fss. split; [exact F|]. rewrite E. f_equal.
  unfold ordinary_channels. clear. induction remaining as [|n l IH]; [reflexivity|]. cbn [map filter cd_eliminated negb cd_channel]. rewrite IH. reflexivity.
Qed.

(** * Complete potential scattering *)
Lemma incident_elastic b : In b bs -> isIncidentChannel (elasticC b) = true /\ spinFactor (elasticC b) = statisticalSpinFactor (qJ (b_n b)) 1 (rf_SPI f).
Proof.
  intros Hb. destruct (whole_block b Hb) as (_ & _ & _ & S1 & S2). unfold isIncidentChannel, elasticC, rm_channel, spinFactor. cbn. rewrite S1, S2. split; [apply String.eqb_refl | reflexivity].
Qed.
Lemma incident_empty n : isIncidentChannel (emptyC n) = true /\ spinFactor (emptyC n) = statisticalSpinFactor (qJ n) 1 (rf_SPI f).
Proof.
  apply pair_id in Hinc as (_ & S1 & S2 & _). unfold isIncidentChannel, emptyC, spinFactor. cbn. rewrite S1, S2. split; [apply String.eqb_refl | reflexivity].
Qed.
Lemma whole_incident : filter isIncidentChannel (ordinary_channels all) = map elasticC bs ++ map emptyC remaining.
Proof.
  destruct whole_channels as (fss & F & ->). rewrite filter_app. f_equal.
  - assert (G : forall l, (forall b, In b l -> In b bs) -> forall fss, Forall2 (fun b fs => map c_id fs = map id_of (fkeys b) /\
      (forall c, In c fs -> pp_id (c_pair c) = "fission"%string /\ c_incident c = b_inc b /\ c_numbers c = other_numbers (b_ls b) (b_j b))) l fss ->
      filter isIncidentChannel (concat (map (fun p => elasticC (fst p) :: snd p) (combine l fss))) = map elasticC l).
    { clear F fss. induction l as [|b l IH]; intros Hl fss F; inversion F as [|? fs ? fss' [_ G] F']; subst; [reflexivity|]. cbn [combine map concat fst snd app filter].
      rewrite (proj1 (incident_elastic b (Hl b (or_introl eq_refl)))). f_equal. rewrite filter_app, IH by (try exact F'; intros x Hx; apply Hl; right; exact Hx).
      rewrite filter_no; [reflexivity|]. intros c Hc. destruct (G c Hc) as (P & I & _). unfold isIncidentChannel. rewrite P, I.
      destruct (whole_block b (Hl b (or_introl eq_refl))) as (_ & _ & -> & _). apply String.eqb_neq. intros Q. exact (X_not "fission" eq_refl (eq_sym Q)). }
    apply G; [auto | exact F].
  - apply filter_all. intros c Hc. apply in_map_iff in Hc as (n & <- & _). apply incident_empty.
Qed.
Lemma whole_scattering chans : Permutation chans (ordinary_channels all) ->
  Permutation (map c_numbers (filter isIncidentChannel chans)) required /\
  forall l, (l < nlsc)%nat -> Rsum (map spinFactor (filter (fun c => Nat.eqb (ql (c_numbers c)) l) (filter isIncidentChannel chans))) = 2 * INR l + 1.
Proof.
  intros P. pose proof (filter_perm isIncidentChannel _ _ P) as Q. rewrite whole_incident in Q. split.
  - rewrite Q, map_app, !map_map. cbn. rewrite map_id. symmetry. exact whole_perm.
  - intros l Hl. rewrite (Rsum_perm _ _ (Permutation_map spinFactor (filter_perm (fun c => Nat.eqb (ql (c_numbers c)) l) _ _ Q))).
    rewrite <- (spin_factor_sum 1 (rf_SPI f) nlsc l required); [|unfold is_spin; lia | exact Hspin | exact Hl | exact Hreq].
    rewrite (Rsum_perm _ _ (Permutation_map _ (filter_perm (fun q => Nat.eqb (ql q) l) _ _ whole_perm))).
    rewrite !filter_app, !map_app. f_equal. f_equal.
    + assert (G : forall m, (forall b, In b m -> In b bs) -> map spinFactor (filter (fun c => Nat.eqb (ql (c_numbers c)) l) (map elasticC m)) =
        map (fun q => statisticalSpinFactor (qJ q) 1 (rf_SPI f)) (filter (fun q => Nat.eqb (ql q) l) (map b_n m))).
      { induction m as [|b m IH]; intros Hm; [reflexivity|]. cbn [map filter]. change (c_numbers (elasticC b)) with (b_n b).
        destruct (Nat.eqb (ql (b_n b)) l); cbn [map]; rewrite IH by (intros x Hx; apply Hm; right; exact Hx); [|reflexivity].
        rewrite (proj2 (incident_elastic b (Hm b (or_introl eq_refl)))). reflexivity. }
      apply G. auto.
    + generalize remaining. induction remaining0 as [|n m IH]; [reflexivity|]. cbn [map filter]. change (c_numbers (emptyC n)) with n.
      destruct (Nat.eqb (ql n) l); cbn [map]; rewrite IH; [rewrite (proj2 (incident_empty n)) | ]; reflexivity.
Qed.
(** * Duplicate identifiers *)
Lemma js_rm_In ls j : In j (js_rm ls) <-> exists r, In r (rs_lines ls) /\ rl_AJ r = j.
Proof.
  unfold js_rm. rewrite su_in, in_map_iff. split; intros (r & A & B); exists r; split; assumption.
Qed.
Lemma clash_cons a b ls lss : clash (mkRMFile a b lss) -> clash (mkRMFile a b (ls :: lss)).
Proof.
  unfold clash. cbn [rf_lstates]. intros [(l & r & r' & H & K)|(x & l & y & l' & z & r & r' & E & K)].
  - left. exists l, r, r'. split; [right; exact H | exact K].
  - right. exists (ls :: x), l, y, l', z, r, r'. split; [rewrite E; reflexivity | exact K].
Qed.
Lemma other_eq b b' : other_numbers (b_ls b) (b_j b) = other_numbers (b_ls b') (b_j b') -> rs_L (b_ls b) = rs_L (b_ls b') /\ Z.abs (b_j b) = Z.abs (b_j b').
Proof. unfold other_numbers. intros H. injection H as A B _. auto. Qed.
Lemma nodup_app_intro {A} (l m : list A) : NoDup l -> NoDup m -> (forall x, In x l -> ~ In x m) -> NoDup (l ++ m).
Proof.
  intros Hl Hm D. induction Hl as [|x l Hx Hl IH]; cbn; [exact Hm|]. constructor.
  - intros Q. apply in_app_or in Q as [Q|Q]; [exact (Hx Q) | exact (D x (or_introl eq_refl) Q)].
  - apply IH. intros y Hy. apply D. right. exact Hy.
Qed.
Lemma nodup_app_elim {A} (l m : list A) : NoDup (l ++ m) -> NoDup l /\ NoDup m /\ forall x, In x l -> ~ In x m.
Proof.
  induction l as [|x l IH]; cbn; intros H; [repeat split; [constructor | exact H | intros y []]|]. inversion H as [|? ? N1 N2]; subst.
  destruct (IH N2) as (H1 & H2 & H3). split; [constructor; [intros Q; apply N1, in_or_app; left; exact Q | exact H1]|]. split; [exact H2|].
  intros y [<-|Hy]; [intros Q; apply N1, in_or_app; right; exact Q | exact (H3 y Hy)].
Qed.
Lemma fkeys_nodup a b lss bss' : Forall2 (fun ls bl => map b_j bl = js_rm ls /\ Forall (fun b => b_ls b = ls) bl) lss bss' ->
  ~ clash (mkRMFile a b lss) -> NoDup (concat (map fkeys (concat bss'))).
Proof.
  intros F. induction F as [|ls bl lss bss' [J Fl] F IH]; intros N; [constructor|]. cbn [concat]. rewrite map_app, concat_app.
  apply nodup_app_intro; [| |].
  - assert (ND : NoDup (map b_j bl)) by (rewrite J; apply su_nodup).
    assert (Cl : forall x y, In x bl -> In y bl -> fissile_block x -> fissile_block y -> Z.abs (b_j x) = Z.abs (b_j y) -> b_j x = b_j y).
    { intros x y Hx Hy (r & A & B & C) (r' & A' & B' & C') E. destruct (Z.eq_dec (b_j x) (b_j y)) as [Q|Q]; [exact Q|]. exfalso. apply N. left.
      rewrite Forall_forall in Fl. exists ls, r, r'. rewrite (Fl x Hx) in A. rewrite (Fl y Hy) in A'. split; [left; reflexivity|]. rewrite B, B'. auto 10. }
    clear -ND Cl. induction bl as [|x bl IH]; [constructor|]. cbn [map concat] in *. inversion ND as [|? ? N1 N2]; subst. apply nodup_app_intro.
    + apply fkeys_spec.
    + apply IH; [exact N2|]. intros y z Hy Hz. apply Cl; right; assumption.
    + intros k Hk Q. apply in_concat in Q as (l & Hl & Hk'). apply in_map_iff in Hl as (y & <- & Hy).
      apply (proj1 (fkeys_spec x)) in Hk as (_ & K1 & F1). apply (proj1 (fkeys_spec y)) in Hk' as (_ & K2 & F2). rewrite K1 in K2. apply other_eq in K2 as [_ K2].
      apply N1. rewrite (Cl x y (or_introl eq_refl) (or_intror Hy) F1 F2 K2). apply in_map. exact Hy.
  - apply IH. intros Q. apply N, clash_cons, Q.
  - intros k Hk Q. apply in_concat in Hk as (l & Hl & Hk). apply in_map_iff in Hl as (x & <- & Hx). apply in_concat in Q as (l & Hl & Hk'). apply in_map_iff in Hl as (y & <- & Hy).
    apply (proj1 (fkeys_spec x)) in Hk as (_ & K1 & F1). apply (proj1 (fkeys_spec y)) in Hk' as (_ & K2 & F2). rewrite K1 in K2. apply other_eq in K2 as [K2 K3].
    apply N. right. apply in_concat in Hy as (bl' & Hbl' & Hy). apply in_split in Hbl' as (B1 & B2 & E). subst bss'.
    apply Forall2_app_inv_r in F as (L1 & L2 & F1' & F2' & EL). inversion F2' as [|ls' ? L2' ? [_ G] _]; subst.
    rewrite Forall_forall in Fl, G. destruct F1 as (r & A & B & C), F2 as (r' & A' & B' & C'). rewrite (Fl x Hx) in *. rewrite (G y Hy) in *.
    exists [], ls, L1, ls', L2', r, r'. rewrite B, B'. cbn [app]. auto 10.
Qed.

Lemma id_injective k k' : no_brace (fst k) -> no_brace (fst k') -> valid_qnum (snd k) -> valid_qnum (snd k') -> id_of k = id_of k' -> k = k'.
Proof.
  destruct k as [a p], k' as [b q]. cbn. intros A B C D H. destruct (channelID_inj a b p q A B C D H) as [-> ->]. reflexivity.
Qed.
Lemma nodup_map_in {A B} (g : A -> B) l : NoDup l -> (forall x y, In x l -> In y l -> g x = g y -> x = y) -> NoDup (map g l).
Proof.
  induction 1 as [|x l Hx Hl IH]; intros I; cbn [map]; constructor.
  - intros Q. apply in_map_iff in Q as (y & E & Hy). apply Hx. rewrite (I x y (or_introl eq_refl) (or_intror Hy) (eq_sym E)). exact Hy.
  - apply IH. intros y z Hy Hz. apply I; right; assumption.
Qed.
Theorem whole_distinct : no_brace incident -> no_brace target -> ~ clash f -> NoDup (map c_id (ordinary_channels all)).
Proof.
  intros Hi Ht N. destruct whole_channels as (fss & F & ->).
  assert (E : map c_id (concat (map (fun p => elasticC (fst p) :: snd p) (combine bs fss)) ++ map emptyC remaining) =
    map id_of (concat (map (fun b => (X, b_n b) :: fkeys b) bs) ++ map (fun n => (X, n)) remaining)).
  { rewrite !map_app. f_equal.
    - assert (G : forall l, (forall b, In b l -> In b bs) -> forall fss, Forall2 (fun b fs => map c_id fs = map id_of (fkeys b) /\
        (forall c, In c fs -> pp_id (c_pair c) = "fission"%string /\ c_incident c = b_inc b /\ c_numbers c = other_numbers (b_ls b) (b_j b))) l fss ->
        map c_id (concat (map (fun p => elasticC (fst p) :: snd p) (combine l fss))) = map id_of (concat (map (fun b => (X, b_n b) :: fkeys b) l))).
      { clear F fss. induction l as [|b l IH]; intros Hl fss F; inversion F as [|? fs ? fss' [G _] F']; subst; [reflexivity|].
        cbn [combine map concat fst snd app]. rewrite !map_app. rewrite (IH (fun x Hx => Hl x (or_intror Hx)) _ F'), G. f_equal.
        destruct (whole_block b (Hl b (or_introl eq_refl))) as (_ & _ & Q & _). unfold elasticC, rm_channel, id_of. cbn. rewrite Q. reflexivity. }
      apply G; [auto | exact F].
    - rewrite !map_map. apply map_ext. intros n. unfold emptyC, id_of. cbn. destruct (pair_id _ _ _ Hinc) as (-> & _). reflexivity. }
  rewrite E. clear E.
  assert (Ne : NoDup (map (fun n => (X, n)) (map b_n bs ++ remaining))).
  { apply FinFun.Injective_map_NoDup; [intros p q Q; injection Q as ->; reflexivity|]. apply (Permutation_NoDup whole_perm). apply whole_required. }
  assert (Nf : NoDup (concat (map fkeys bs))).
  { apply (fkeys_nodup (rf_SPI f) (rf_AP f) (rf_lstates f) bss).
    - revert Hbss. clear. intros G. induction G as [|ls bl l m [J K] _ IH]; constructor; [|exact IH]. split; [exact J|]. rewrite Forall_forall in *. intros b Hb. apply K, Hb.
    - destruct f; exact N. }
  assert (P : Permutation (concat (map (fun b => (X, b_n b) :: fkeys b) bs) ++ map (fun n => (X, n)) remaining)
                          (map (fun n => (X, n)) (map b_n bs ++ remaining) ++ concat (map fkeys bs))).
  { etransitivity; [apply Permutation_app_tail, cons_concat_perm|]. rewrite map_app, map_map, <- !app_assoc. apply Permutation_app_head, Permutation_app_comm. }
  assert (Fk : forall k, In k (concat (map fkeys bs)) -> (fst k = "fission1"%string \/ fst k = "fission2"%string) /\ valid_qnum (snd k)).
  { intros k Hk. apply in_concat in Hk as (l & Hl & Hk). apply in_map_iff in Hl as (b & <- & _). apply (proj1 (fkeys_spec b)) in Hk as (A & -> & _). split; [exact A | apply other_valid]. }
  apply nodup_map_in.
  - apply (Permutation_NoDup (Permutation_sym P)). apply nodup_app_intro; [exact Ne | exact Nf|].
    intros k Hk Q. apply Fk in Q as [Q _]. apply in_map_iff in Hk as (n & <- & _). cbn [fst] in Q. destruct Q as [Q|Q]; revert Q; apply X_not; reflexivity.
  - assert (V : forall k, In k (concat (map (fun b => (X, b_n b) :: fkeys b) bs) ++ map (fun n => (X, n)) remaining) -> no_brace (fst k) /\ valid_qnum (snd k)).
    { intros k Hk. apply (Permutation_in _ P) in Hk. apply in_app_or in Hk as [Hk|Hk].
      - apply in_map_iff in Hk as (n & <- & Hn). split; [apply no_brace_X; assumption|]. apply whole_numbers. apply in_app_or in Hn. exact Hn.
      - apply Fk in Hk as [[->| ->] V]; (split; [cbn; repeat split; discriminate | exact V]). }
    intros k k' Hk Hk'. apply V in Hk as [A B]. apply V in Hk' as [A' B']. apply id_injective; assumption.
Qed.

(** The identifiers of one J and parity *)
Let ids (jp : Jpi) (data : list channel_data) : list string := map c_id (ordinary_channels (of_Jpi jp data)).
Lemma ids_app jp d d' : ids jp (d ++ d') = ids jp d ++ ids jp d'.
Proof. unfold ids, of_Jpi. rewrite filter_app, ordinary_app, map_app. reflexivity. Qed.
Lemma ids_concat jp l : ids jp (concat l) = concat (map (ids jp) l).
Proof. induction l as [|d l IH]; [reflexivity|]. cbn [concat map]. rewrite ids_app, IH. reflexivity. Qed.
Lemma fission_id b : b_ok b -> fissile_block b ->
  In (id_of ("fission1"%string, other_numbers (b_ls b) (b_j b))) (ids (Jpi_of (other_numbers (b_ls b) (b_j b))) (b_ds b)).
Proof.
  intros Hb Hf. destruct (block_channels b Hb) as (fs & E & I & C & _).
  assert (G : In (id_of ("fission1"%string, other_numbers (b_ls b) (b_j b))) (map c_id fs)) by (rewrite I; apply in_map, fkeys_spec, Hf).
  apply in_map_iff in G as (c & Ec & Hc). rewrite <- Ec. apply in_map. destruct (C c Hc) as (_ & _ & Nc).
  assert (Hd : In c (ordinary_channels (b_ds b))) by (rewrite E; right; exact Hc). unfold ordinary_channels in *.
  apply in_map_iff in Hd as (d & <- & Hd). apply in_map. apply filter_In in Hd as [Hd He]. apply filter_In. split; [|exact He].
  apply of_Jpi_In. split; [exact Hd|]. unfold Jpi_data. rewrite Nc. reflexivity.
Qed.
Lemma nodup_concat_same {A B} (g : A -> list B) l x y k : NoDup (concat (map g l)) -> In x l -> In y l -> In k (g x) -> In k (g y) -> x = y.
Proof.
  induction l as [|z l IH]; intros N Hx Hy Kx Ky; [destruct Hx|]. cbn [map concat] in N. apply nodup_app_elim in N as (_ & N & D).
  assert (In_c : forall w, In w l -> In k (g w) -> In k (concat (map g l))) by (intros w Hw Kw; apply in_concat; exists (g w); split; [apply in_map; exact Hw | exact Kw]).
  destruct Hx as [->|Hx], Hy as [->|Hy]; [reflexivity| | |exact (IH N Hx Hy Kx Ky)].
  - exfalso. exact (D k Kx (In_c y Hy Ky)).
  - exfalso. exact (D k Ky (In_c x Hx Kx)).
Qed.
Lemma block_for ls bl r : map b_j bl = js_rm ls -> Forall (fun b => b_ok b /\ b_ls b = ls) bl -> In r (rs_lines ls) -> fissile r ->
  exists b, In b bl /\ b_ok b /\ b_ls b = ls /\ b_j b = rl_AJ r /\ fissile_block b.
Proof.
  intros J F Hr Fr. assert (Q : In (rl_AJ r) (map b_j bl)) by (rewrite J; apply js_rm_In; exists r; auto).
  apply in_map_iff in Q as (b & E & Hb). rewrite Forall_forall in F. destruct (F b Hb) as [A B]. exists b. split; [exact Hb|]. split; [exact A|]. split; [exact B|]. split; [exact E|].
  exists r. rewrite B. auto.
Qed.
Theorem whole_clash : clash f -> exists jp, of_Jpi jp all <> [] /\ ~ NoDup (map c_id (ordinary_channels (of_Jpi jp all))).
Proof.
  intros Cl.
  assert (Fb : Forall2 (fun ls bl => map b_j bl = js_rm ls /\ Forall (fun b => b_ok b /\ b_ls b = ls) bl) (rf_lstates f) bss).
  { revert Hbss. clear. intros G. induction G as [|ls bl l m [J K] _ IH]; constructor; [|exact IH]. split; [exact J|]. rewrite Forall_forall in *. intros b Hb. destruct (K b Hb) as (A & B & _). auto. }
  assert (Ids : forall jp, ids jp all = concat (map (fun b => ids jp (b_ds b)) bs) ++ ids jp (map (fun n => mkChannelData (emptyC n) [] [] false) remaining)).
  { intros jp. unfold all. rewrite ids_app, Hds, ids_concat, map_map. reflexivity. }
  assert (Ne : forall b jp, In b bs -> ids jp (b_ds b) <> [] -> of_Jpi jp all <> []).
  { intros b jp Hb Q Z. apply Q. assert (E : ids jp all = []) by (unfold ids; rewrite Z; reflexivity). rewrite Ids in E. apply app_eq_nil in E as [E _].
    destruct (ids jp (b_ds b)) as [|x l] eqn:Ei; [reflexivity|]. exfalso. assert (Hin : In x (concat (map (fun b => ids jp (b_ds b)) bs))).
    { apply in_concat. exists (ids jp (b_ds b)). split; [apply (in_map (fun b => ids jp (b_ds b))); exact Hb | rewrite Ei; left; reflexivity]. }
    rewrite E in Hin. destruct Hin. }
  destruct Cl as [(ls & r & r' & Hls & Hr & Hr' & Fr & Fr' & Eabs & Nj)|(A & ls & B & ls' & C & r & r' & Ef & El & Hr & Hr' & Fr & Fr' & Eabs)].
  - apply in_split in Hls as (L1 & L2 & EL). rewrite EL in Fb. apply Forall2_app_inv_l in Fb as (B1 & B2' & _ & F2 & EB). apply Forall2_cons_l in F2 as (bl & B2 & -> & [J K] & _).
    destruct (block_for ls bl r J K Hr Fr) as (b & Hb & Ok_ & Lb & Jb & Fb'). destruct (block_for ls bl r' J K Hr' Fr') as (b' & Hb' & Ok_' & Lb' & Jb' & Fb'').
    assert (Eo : other_numbers (b_ls b) (b_j b) = other_numbers (b_ls b') (b_j b')) by (unfold other_numbers; rewrite Lb, Lb', Jb, Jb', Eabs; reflexivity).
    assert (In_b : forall x, In x bl -> In x bs) by (intros x Hx; unfold bs; rewrite EB, concat_app; apply in_or_app; right; cbn [concat]; apply in_or_app; left; exact Hx).
    pose proof (fission_id b Ok_ Fb') as I1. pose proof (fission_id b' Ok_' Fb'') as I2. rewrite <- Eo in I2.
    exists (Jpi_of (other_numbers (b_ls b) (b_j b))). split; [apply (Ne b); [apply In_b, Hb | intros Q; rewrite Q in I1; destruct I1]|].
    intros ND. change (NoDup (ids (Jpi_of (other_numbers (b_ls b) (b_j b))) all)) in ND. rewrite Ids in ND. apply nodup_app_elim in ND as (ND & _).
    apply Nj. rewrite <- Jb, <- Jb'. f_equal.
    exact (nodup_concat_same (fun b0 => ids (Jpi_of (other_numbers (b_ls b) (b_j b))) (b_ds b0)) bs b b' _ ND (In_b b Hb) (In_b b' Hb') I1 I2).
  - rewrite Ef in Fb. apply Forall2_app_inv_l in Fb as (B1 & B2' & _ & F2 & EB). apply Forall2_cons_l in F2 as (bl & B3 & -> & [J K] & F3).
    apply Forall2_app_inv_l in F3 as (B2 & B4 & _ & F4 & EB3). apply Forall2_cons_l in F4 as (bl' & B5 & -> & [J' K'] & _). subst B3.
    destruct (block_for ls bl r J K Hr Fr) as (b & Hb & Ok_ & Lb & Jb & Fb'). destruct (block_for ls' bl' r' J' K' Hr' Fr') as (b' & Hb' & Ok_' & Lb' & Jb' & Fb'').
    assert (Eo : other_numbers (b_ls b) (b_j b) = other_numbers (b_ls b') (b_j b')) by (unfold other_numbers; rewrite Lb, Lb', Jb, Jb', Eabs, El; reflexivity).
    pose proof (fission_id b Ok_ Fb') as I1. pose proof (fission_id b' Ok_' Fb'') as I2. rewrite <- Eo in I2.
    assert (In_b : In b bs). { unfold bs. rewrite EB, concat_app. apply in_or_app. right. cbn [concat]. apply in_or_app. left. exact Hb. }
    exists (Jpi_of (other_numbers (b_ls b) (b_j b))). split; [apply (Ne b); [exact In_b | intros Q; rewrite Q in I1; destruct I1]|].
    intros ND. change (NoDup (ids (Jpi_of (other_numbers (b_ls b) (b_j b))) all)) in ND. rewrite Ids in ND. apply nodup_app_elim in ND as (ND & _).
    unfold bs in ND. rewrite EB, concat_app, map_app, concat_app in ND. apply nodup_app_elim in ND as (_ & ND & _). cbn [concat] in ND. rewrite map_app, concat_app in ND.
    apply nodup_app_elim in ND as (_ & _ & D). refine (D _ _ _).
    + apply in_concat. eexists. split; [apply in_map; exact Hb | exact I1].
    + rewrite concat_app, map_app, concat_app. apply in_or_app. right. cbn [concat]. rewrite map_app, concat_app. apply in_or_app. left.
      apply in_concat. eexists. split; [apply in_map; exact Hb' | exact I2].
Qed.

(** Every J and parity has an incident channel, and all incident pairs have one identifier *)
Lemma whole_incident_id c : In c (ordinary_channels all) -> pp_id (c_incident c) = X.
Proof.
  destruct whole_channels as (fss & F & ->). intros H. apply in_app_or in H as [H|H].
  - apply in_concat in H as (l & Hl & Hc). apply in_map_iff in Hl as ([b fs] & <- & Hp). cbn [fst snd] in Hc.
    assert (Hb : In b bs) by exact (in_combine_l _ _ _ _ Hp). destruct (whole_block b Hb) as (_ & _ & Q & _). destruct Hc as [<-|Hc]; [exact Q|].
    assert (G : c_incident c = b_inc b).
    { clear -F Hp Hc. revert fss F Hp. generalize bs. intros l fss F Hp. induction F as [|x y l m G _ IH]; [destruct Hp|]. destruct Hp as [Hp|Hp]; [injection Hp as -> ->; apply G, Hc | exact (IH Hp)]. }
    rewrite G. exact Q.
  - apply in_map_iff in H as (n & <- & _). destruct (pair_id _ _ _ Hinc) as (Q & _). exact Q.
Qed.
Lemma whole_has_incident jp : of_Jpi jp all <> [] -> exists c, In c (ordinary_channels (of_Jpi jp all)) /\ pp_id (c_pair c) = pp_id (c_incident c).
Proof.
  intros H. assert (G : exists d, In d (of_Jpi jp all)) by (destruct (of_Jpi jp all) as [|d l]; [contradiction | exists d; left; reflexivity]).
  destruct G as (d & Hd). apply of_Jpi_In in Hd as [Hd Jd]. unfold all in Hd. apply in_app_or in Hd as [Hd|Hd].
  - rewrite Hds in Hd. apply in_concat in Hd as (l & Hl & Hd'). apply in_map_iff in Hl as (b & <- & Hb).
    destruct (whole_block b Hb) as (Ok_ & _). destruct (block_channels b Ok_) as (fs & E & _ & _ & C). destruct (C d Hd') as [_ Nd].
    assert (Jb : Jpi_of (b_n b) = jp). { rewrite <- Jd. unfold Jpi_data. destruct Nd as [-> | ->]; [reflexivity | apply block_Jpi, Hb]. }
    exists (elasticC b). split; [|reflexivity]. assert (Q : In (elasticC b) (ordinary_channels (b_ds b))) by (rewrite E; left; reflexivity).
    unfold ordinary_channels in *. apply in_map_iff in Q as (x & Ex & Hx). rewrite <- Ex. apply in_map. apply filter_In in Hx as [Hx Hx']. apply filter_In. split; [|exact Hx'].
    apply of_Jpi_In. split; [unfold all; apply in_or_app; left; rewrite Hds; apply in_concat; exists (b_ds b); split; [apply in_map; exact Hb | exact Hx]|].
    unfold Jpi_data. rewrite Ex. exact Jb.
  - exists (cd_channel d). assert (Hd' := Hd). apply in_map_iff in Hd as (n & <- & _). cbn [cd_channel]. split; [|reflexivity].
    unfold ordinary_channels. change (emptyC n) with (cd_channel (mkChannelData (emptyC n) [] [] false)). apply in_map. apply filter_In. split; [|reflexivity]. apply of_Jpi_In. split; [|exact Jd]. unfold all. apply in_or_app. right. exact Hd'.
Qed.
Lemma whole_nonempty : (0 < nlsc)%nat -> all <> [].
Proof.
  intros Hn Q. unfold all in Q. apply app_eq_nil in Q as [Q1 Q2]. assert (E : remaining = []) by (destruct remaining; [reflexivity | discriminate]).
  assert (B : bs = []).
  { destruct bs as [|b l] eqn:Eb; [reflexivity|]. exfalso. assert (Hb : In b bs) by (rewrite Eb; left; reflexivity). destruct (whole_block b Hb) as ([_ (el & ca & fi & Ed & _)] & _).
    rewrite Hds in Q1. fold bs in Q1. rewrite Eb in Q1. cbn [map concat] in Q1. rewrite Ed in Q1. discriminate. }
  pose proof whole_perm as P. rewrite B, E in P. cbn in P. apply Permutation_sym, Permutation_nil in P.
  assert (In (mkQ 0 (rf_SPI f + 1) (rf_SPI f + 1) 1) required).
  { apply whole_required. unfold spec_number, triangle, is_spin in *. cbn [ql qs qJ qp Nat.even]. split; [exact Hn|].
    split; [split; [lia | exists (rf_SPI f + 1)%Z; lia]|]. split; [split; [lia | exists (rf_SPI f + 1)%Z; lia] | reflexivity]. }
  rewrite P in H. destruct H.
Qed.
Lemma of_Jpi_all jp out : consolidated all out -> of_Jpi jp out <> [] -> of_Jpi jp all <> [].
Proof.
  intros K H Q. apply H. destruct (of_Jpi jp out) as [|d l] eqn:E; [reflexivity|]. exfalso.
  assert (Hd : In d (of_Jpi jp out)) by (rewrite E; left; reflexivity). apply of_Jpi_In in Hd as [Hd Jd].
  destruct (co_last _ _ K) as (es & Eo & _). destruct (cd_eliminated d) eqn:El.
  - assert (Hd' : In d (eliminated_data out)) by (apply filter_In; auto). destruct (co_channels _ _ K d Hd') as (d' & Hd'' & Ec). apply filter_In in Hd'' as [Hd'' _].
    assert (G : In d' (of_Jpi jp all)) by (apply of_Jpi_In; split; [exact Hd''|]; unfold Jpi_data in *; rewrite <- Ec; exact Jd). rewrite Q in G. destruct G.
  - assert (Hd' : In d (filter (fun d => negb (cd_eliminated d)) out)) by (apply filter_In; rewrite El; auto). rewrite (co_ordinary _ _ K) in Hd'. apply filter_In in Hd' as [Hd' _].
    assert (G : In d (of_Jpi jp all)) by (apply of_Jpi_In; auto). rewrite Q in G. destruct G.
Qed.
Lemma of_Jpi_out jp out : consolidated all out -> of_Jpi jp all <> [] -> of_Jpi jp out <> [].
Proof.
  intros K H Q. destruct (whole_has_incident jp H) as (c & Hc & _). rewrite <- (consolidated_channels _ _ jp K) in Hc. rewrite Q in Hc. destruct Hc.
Qed.
End Whole.
End ReichMoore.
