(** When the Breit-Wigner formats of the R-matrix interface give cross sections. *)
From Coq Require Import String List ZArith Reals Bool Lra Lia Permutation.
From Verif Require Import ListFacts Outcome QuantumModel QuantumSpec QuantumProofs SpinFactorModel HardSphereModel HardSphereSpec HardSphereProofs KinematicsModel CoulombModel Cplx RMatrixModel ChannelModel
  BreitWignerModel BreitWignerSpec BreitWignerProofs BreitWignerSystemProofs BreitWignerTheorems LegacyModel LegacyProofs LegacySystemProofs BreitWignerCases EndfSpec EndfReichMooreProofs EndfTheorems LegacyTotalSpec.
From Verif Require ReichMooreProofs.
Import ListNotations.
Open Scope R_scope.

Section Total.
Variables (hbar epsilon0 : R) (cwf : nat -> R -> R -> outcome coulomb) (mn : R) (incident target : string).
Variables (f : bw_file) (A : R) (nro : option (R -> outcome R)) (naps : nat) (rad : radii) (n : nat).
Hypothesis H : input_new hbar mn f A nro naps rad n.
Hypothesis Hn : (n <= 4)%nat.
Let Hh := in_hbar _ _ _ _ _ _ _ _ H.
Let Hmn := in_mn _ _ _ _ _ _ _ _ H.
Let HA := in_A _ _ _ _ _ _ _ _ H.
Let HI := in_spin _ _ _ _ _ _ _ _ H.
Let Hch := in_channel _ _ _ _ _ _ _ _ H.
Let Hsc := in_scattering _ _ _ _ _ _ _ _ H.
Let Hrad : r_S rad = r_P rad := radii_S_P _ _ _ _ _ _ (in_radii _ _ _ _ _ _ _ _ H).
Let I := f_SPI f.
Let ch := radius_at (r_P rad).
Let sc := radius_at (r_phi rad).
Let k := k_old (C_new hbar mn) A.
Let a e := oval (ch e).
Let lchannel c := legacy_channel mn incident target A I c rad /\ (ql (c_numbers c) <= 4)%nat.

Lemma l_le ls : In ls (f_lstates f) -> (ls_L ls <= 4)%nat.
Proof.
  intros Hl. apply (in_map ls_L) in Hl. rewrite (in_l _ _ _ _ _ _ _ _ H) in Hl. apply in_seq in Hl. lia.
Qed.
Lemma k_positive e : e <> 0 -> 0 < k e.
Proof. intros. apply k_old_pos; [apply C_new_pos|..]; assumption. Qed.
Lemma parts c : lchannel c -> c_radii c = rad /\ c_type c = Neutron.
Proof. intros [Hc _]. destruct Hc as (? & ? & _ & ->). split; reflexivity. Qed.

Lemma total_P c e r : lchannel c -> e <> 0 -> ch e = Ok r ->
  exists p, channelPenetrability hbar epsilon0 cwf c e = Ok (Some p) /\ 0 < p.
Proof.
  intros Hc He Er. destruct (parts c Hc) as [Hr Ht]. destruct Hc as [Hc Hl]. unfold channelPenetrability, channelFunction.
  rewrite (channel_k hbar mn Hmn incident target A I HA c rad e Hc), (channel_eta hbar epsilon0 mn Hmn incident target A I HA c rad e Hc).
  rewrite Hr, Ht. fold ch. rewrite Er. cbn [bind calculatePenetrability]. fold k.
  assert (Q : 0 < k e * r) by (apply Rmult_lt_0_compat; [apply k_positive; exact He | exact (Hch e r Er)]).
  rewrite penetrability_code by assumption. eexists; split; [reflexivity|]. apply ReichMooreProofs.P_spec_pos; exact Q.
Qed.
Lemma total_S c e r : lchannel c -> e <> 0 -> ch e = Ok r ->
  exists s, channelShiftFactor hbar epsilon0 cwf c e = Ok (Some s).
Proof.
  intros Hc He Er. destruct (parts c Hc) as [Hr Ht]. destruct Hc as [Hc Hl]. unfold channelShiftFactor, channelFunction.
  rewrite (channel_k hbar mn Hmn incident target A I HA c rad e Hc), (channel_eta hbar epsilon0 mn Hmn incident target A I HA c rad e Hc).
  rewrite Hr, Ht, Hrad. fold ch. rewrite Er. cbn [bind calculateShiftFactor]. fold k.
  assert (Q : 0 < k e * r) by (apply Rmult_lt_0_compat; [apply k_positive; exact He | exact (Hch e r Er)]).
  rewrite shift_code by assumption. eexists; reflexivity.
Qed.
Lemma total_phi c e r : lchannel c -> e <> 0 -> sc e = Ok r ->
  exists phi, channelPhaseShift hbar epsilon0 cwf c e = Ok (Some phi).
Proof.
  intros Hc He Er. destruct (parts c Hc) as [Hr Ht]. destruct Hc as [Hc Hl]. unfold channelPhaseShift, channelFunction.
  rewrite (channel_k hbar mn Hmn incident target A I HA c rad e Hc), (channel_eta hbar epsilon0 mn Hmn incident target A I HA c rad e Hc).
  rewrite Hr, Ht. fold sc. rewrite Er. cbn [bind calculatePhaseShift]. fold k.
  assert (Q : 0 < k e * r) by (apply Rmult_lt_0_compat; [apply k_positive; exact He | exact (Hsc e r Er)]).
  destruct (phase_code (ql (c_numbers c)) (k e * r) Q Hl) as (phi & -> & _). eexists; reflexivity.
Qed.

(** * Making the compound system *)
Hypothesis Hlines : lines_usable f rad.

Lemma line_total c ls x : lchannel c -> In ls (f_lstates f) -> In x (ls_lines ls) ->
  exists r, legacyLine hbar epsilon0 cwf c (ls_LRX ls) (ls_QX ls) x = Ok (Some r).
Proof.
  intros Hc Hls Hx. destruct (Hlines ls x Hls Hx) as (N & (r & Er) & Q). unfold legacyLine.
  destruct (total_P c _ r Hc N Er) as (p & -> & _). destruct (total_S c _ r Hc N Er) as (s & Es). cbn [bind].
  destruct (ls_LRX ls).
  - destruct (Q eq_refl) as (NQ & (r' & Er')). destruct (total_P c _ r' Hc NQ Er') as (q & -> & _). cbn [bind]. rewrite Es. eexists; reflexivity.
  - cbn [bind]. rewrite Es. eexists; reflexivity.
Qed.

Lemma Js_made ls pr : legacyPair mn incident target A I = Ok pr -> In ls (f_lstates f) ->
  forall js av got left, retrieveAll (map (fun j => (ls_L ls, j)) js) av = Ok (got, left) ->
  exists gs, legacyJs hbar epsilon0 cwf ls pr rad js av = Ok (Some gs, left).
Proof.
  intros Hpr Hls. induction js as [|j js IH]; intros av got left R; cbn [map retrieveAll legacyJs] in *; [injection R as _ <-; eexists; reflexivity|].
  apply bind_Ok in R as ([q rest] & Eq & R). apply bind_Ok in R as ([qs rest'] & Er & R). injection R as _ <-.
  destruct (IH _ _ _ Er) as (gs & Egs). unfold legacyJ. rewrite Eq. cbn [bind].
  set (c := makeChannel Neutron pr pr (pp_id pr) 0 q rad 0).
  assert (Hc : lchannel c). { split; [exists pr, q; split; [exact Hpr | reflexivity]|]. apply retrieve_ok in Eq as (E & _). cbn [c makeChannel c_numbers]. rewrite E. apply l_le, Hls. }
  set (xs := filter _ _).
  destruct (list_choice (fun x r => legacyLine hbar epsilon0 cwf c (ls_LRX ls) (ls_QX ls) x = Ok (Some r)) xs) as (rs & F).
  { intros x Hx. apply filter_In in Hx as [Hx _]. exact (line_total c ls x Hc Hls Hx). }
  assert (Em : mapM (legacyLine hbar epsilon0 cwf c (ls_LRX ls) (ls_QX ls)) xs = Ok (map Some rs)).
  { clear -F. induction F as [|x r xs rs E F IH]; [reflexivity|]. cbn [mapM map]. rewrite E. cbn [bind]. rewrite IH. reflexivity. }
  rewrite Em. cbn [bind]. rewrite (all_some Some (fun r => r)) by reflexivity. rewrite map_id, Egs. cbn [bind]. eexists; reflexivity.
Qed.
Lemma All_made lss : (forall ls, In ls lss -> In ls (f_lstates f)) ->
  forall av got left, retrieveAll (concat (map (fun ls => map (fun j => (ls_L ls, j)) (js_of ls)) lss)) av = Ok (got, left) ->
  exists gs, legacyAllGroups hbar epsilon0 cwf mn incident target I (f_AP f) nro naps lss av = Ok (Some gs).
Proof.
  induction lss as [|ls lss IH]; intros Hin av got left R; cbn [map concat legacyAllGroups] in *; [eexists; reflexivity|].
  apply retrieveAll_split in R as (g1 & mid & g2 & R1 & R2).
  destruct (IH (fun x Hx => Hin x (or_intror Hx)) _ _ _ R2) as (hs & Eh). unfold legacyGroups.
  rewrite (in_awri _ _ _ _ _ _ _ _ H ls (Hin ls (or_introl eq_refl))), (in_radii _ _ _ _ _ _ _ _ H).
  destruct (legacyPair_ok mn Hmn incident target A I HA) as (pr & Hpr & _). rewrite Hpr. cbn [bind].
  destruct (Js_made ls pr Hpr (Hin ls (or_introl eq_refl)) _ _ _ _ R1) as (gs & E). unfold js_of in E. rewrite E. cbn [bind]. rewrite Eh. cbn [bind]. eexists; reflexivity.
Qed.
Lemma sort_unique_nodup_perm l : Permutation (nodup Z.eq_dec l) (sort_unique l).
Proof.
  apply NoDup_Permutation; [apply NoDup_nodup | apply su_nodup|]. intros x. rewrite nodup_In, su_in. reflexivity.
Qed.
Lemma requested_as_made : Permutation (bw_requested f) (concat (map (fun ls => map (fun j => (ls_L ls, j)) (js_of ls)) (f_lstates f))).
Proof.
  unfold bw_requested. induction (f_lstates f) as [|ls lss IH]; [constructor|]. cbn [map concat]. apply Permutation_app; [|exact IH].
  apply Permutation_map, sort_unique_nodup_perm.
Qed.
Lemma groups_made : own_channels f (S n) -> exists av gs, makeQuantumNumbers 1 I (length (f_lstates f)) = Ok av /\
  legacyAllGroups hbar epsilon0 cwf mn incident target I (f_AP f) nro naps (f_lstates f) av = Ok (Some gs).
Proof.
  intros (qs & Nq & Iq & Fq).
  assert (El : length (f_lstates f) = S n).
  { rewrite <- (map_length ls_L), (in_l _ _ _ _ _ _ _ _ H), seq_length. reflexivity. }
  rewrite El. destruct (makeQuantumNumbers_spec 1 I (S n)) as (av & Eav & _ & Hav); [unfold is_spin; lia | exact HI |].
  exists av. destruct (retrieveAll_count (concat (map (fun ls => map (fun j => (ls_L ls, j)) (js_of ls)) (f_lstates f))) av) as (got & left & Rt).
  { intros l J. rewrite <- (asks_perm l J _ _ requested_as_made). apply (enough _ _ qs Nq); [intros q Hq; apply Hav, Iq, Hq | exact Fq]. }
  destruct (All_made (f_lstates f) (fun _ Hx => Hx) _ _ _ Rt) as (gs & Egs). exists gs. split; assumption.
Qed.

(** ** The groups are distinct *)
Let group := group_of hbar epsilon0 cwf mn incident target A I rad.
Lemma verify_ok lss gss : Forall2 (fun ls gs => Forall2 (group ls) (js_of ls) gs) lss gss -> NoDup (map ls_L lss) ->
  (forall ls, In ls lss -> forall j j', In j (js_of ls) -> In j' (js_of ls) -> Z.abs j = Z.abs j' -> j = j') ->
  concat gss <> [] -> legacyVerify (concat gss) = Ok tt.
Proof.
  intros F N D Ne. unfold legacyVerify. destruct (length (concat gss)) eqn:El; [apply length_zero_iff_nil in El; contradiction|].
  cbn [Nat.eqb negb check bind]. clear n0 El Ne.
  assert (C : forall g, (count (fun h => same_lJ (c_numbers (lg_channel h)) (c_numbers (lg_channel g))) (concat gss) <= 1)%nat).
  { intros g. generalize (c_numbers (lg_channel g)). intros q.
    induction F as [|ls gs lss gss G F IH]; [cbn; lia|]. cbn [concat]. rewrite count_app. cbn [map] in N. apply NoDup_cons_iff in N as [N1 N2].
    assert (C1 : forall js gs, Forall2 (group ls) js gs -> NoDup js -> (forall j j', In j js -> In j' js -> Z.abs j = Z.abs j' -> j = j') ->
      (count (fun h => same_lJ (c_numbers (lg_channel h)) q) gs <= (if Nat.eqb (ls_L ls) (ql q) then 1 else 0))%nat).
    { clear. intros js gs G. induction G as [|j g js gs (rs & _ & _ & G1 & G2 & _) G IH]; intros Nd Dd; [cbn; lia|].
      apply NoDup_cons_iff in Nd as [Nd1 Nd2]. cbn [count]. unfold same_lJ at 1. rewrite G1, G2.
      specialize (IH Nd2 (fun x y Hx Hy => Dd x y (or_intror Hx) (or_intror Hy))).
      destruct (Nat.eqb (ls_L ls) (ql q)) eqn:El; cbn [andb]; [|exact IH].
      destruct (Z.eqb_spec (Z.abs j) (qJ q)) as [Ej|]; [|exact IH].
      assert (Z0 : count (fun h => same_lJ (c_numbers (lg_channel h)) q) gs = 0%nat).
      { clear IH. assert (Q : forall j', In j' js -> Z.abs j' <> qJ q).
        { intros j' Hj' E. apply Nd1. rewrite (Dd j j' (or_introl eq_refl) (or_intror Hj')); [exact Hj' | congruence]. }
        clear -G Q. induction G as [|j' g js gs (rs & _ & _ & G1 & G2 & _) G IH]; [reflexivity|]. cbn [count]. unfold same_lJ at 1.
        rewrite G1, G2. destruct (Z.eqb_spec (Z.abs j') (qJ q)) as [E|]; [destruct (Q j' (or_introl eq_refl) E)|].
        rewrite andb_false_r. apply IH. intros j'' Hj. apply Q. right; exact Hj. }
      rewrite Z0. cbn. lia. }
    specialize (C1 _ _ G (su_nodup _) (D ls (or_introl eq_refl))).
    destruct (Nat.eqb_spec (ls_L ls) (ql q)) as [El|].
    - assert (Z0 : count (fun h => same_lJ (c_numbers (lg_channel h)) q) (concat gss) = 0%nat).
      { rewrite El in N1. clear -F N1. induction F as [|ls gs lss gss G F IH]; [reflexivity|]. cbn [map] in N1. cbn [concat]. rewrite count_app, IH by (intros Q; apply N1; right; exact Q).
        assert (ls_L ls <> ql q) by (intros Q; apply N1; left; exact Q). clear -G H. induction G as [|j g js gs (rs & _ & _ & G1 & G2 & _) G IH]; [reflexivity|].
        cbn [count]. unfold same_lJ at 1. rewrite G1. destruct (Nat.eqb_spec (ls_L ls) (ql q)); [contradiction|]. exact IH. }
      lia.
    - specialize (IH N2 (fun x Hx => D x (or_intror Hx))). lia. }
  generalize (concat gss) at 2. intros l. induction l as [|g l IH]; [reflexivity|]. cbn [foldM]. specialize (C g).
  destruct (Nat.ltb_spec 1 (count (fun h => same_lJ (c_numbers (lg_channel h)) (c_numbers (lg_channel g))) (concat gss))); [lia|]. cbn [negb check bind]. exact IH.
Qed.
Lemma verify_cases gs : legacyVerify gs = Ok tt \/ legacyVerify gs = std_exception.
Proof.
  unfold legacyVerify. destruct (Nat.eqb (length gs) 0); cbn [negb check bind]; [right; reflexivity|].
  generalize gs at 2 4. intros l. induction l as [|g l IH]; cbn [foldM]; [left; reflexivity|].
  destruct (negb _); cbn [check bind]; [exact IH | right; reflexivity].
Qed.

Theorem legacy_made : own_channels f (S n) ->
  (~ opposite_spins f -> exists s, makeLegacyBreitWigner hbar epsilon0 cwf mn incident target f nro naps = Ok (Some s)) /\
  (opposite_spins f -> makeLegacyBreitWigner hbar epsilon0 cwf mn incident target f nro naps = std_exception).
Proof.
  intros Hq. destruct (groups_made Hq) as (av & gs & Eav & Egs).
  destruct (legacyPair_ok mn Hmn incident target A I HA) as (pr & Hpr & _).
  assert (Em : makeLegacyBreitWigner hbar epsilon0 cwf mn incident target f nro naps = omap Some (makeLegacySystem gs)).
  { unfold makeLegacyBreitWigner. destruct (f_lstates f) as [|first rest] eqn:Ef.
    - pose proof (in_l _ _ _ _ _ _ _ _ H) as Q. rewrite Ef in Q. discriminate.
    - rewrite (in_awri _ _ _ _ _ _ _ _ H first) by (rewrite Ef; left; reflexivity). fold I. rewrite Hpr. cbn [bind]. rewrite Eav. cbn [bind]. rewrite Egs. cbn [bind]. reflexivity. }
  rewrite Em. unfold makeLegacySystem.
  destruct (legacyAllGroups_groups hbar epsilon0 cwf mn incident target A I rad (f_AP f) nro naps (in_radii _ _ _ _ _ _ _ _ H) (f_lstates f) (in_awri _ _ _ _ _ _ _ _ H) av gs Egs) as (gss & -> & F).
  split.
  - intros No. rewrite (verify_ok (f_lstates f) gss F).
    + cbn [bind omap]. eexists; reflexivity.
    + rewrite (in_l _ _ _ _ _ _ _ _ H). apply seq_NoDup.
    + intros ls Hls j j' Hj Hj' E. destruct (Z.eq_dec j j') as [|Nj]; [assumption|]. destruct No.
      apply su_in, in_map_iff in Hj as (x & <- & Hx). apply su_in, in_map_iff in Hj' as (y & <- & Hy). exists ls, x, y. auto.
    + intros Q. pose proof (in_lines _ _ _ _ _ _ _ _ H) as L. pose proof (in_l _ _ _ _ _ _ _ _ H) as Ll.
      destruct F as [|ls gs lss gss G F]; [discriminate|]. specialize (L ls (or_introl eq_refl)).
      cbn [concat] in Q. apply app_eq_nil in Q as [-> _]. destruct (ls_lines ls) as [|x xs] eqn:Ex; [contradiction|].
      assert (Hx : In (ln_AJ x) (js_of ls)) by (apply su_in, in_map; rewrite Ex; left; reflexivity). inversion G as [E0|]. rewrite <- E0 in Hx. destruct Hx.
  - intros (ls & x & y & Hls & Hx & Hy & E & Nj). destruct (verify_cases (concat gss)) as [V|V]; [|rewrite V; reflexivity].
    destruct Nj. apply (verify_distinct hbar epsilon0 cwf mn incident target A I rad _ _ F V ls Hls); [apply su_in, in_map; exact Hx | apply su_in, in_map; exact Hy | exact E].
Qed.

(** * Evaluating it *)
Variable E : R.
Hypotheses (HE : E <> 0) (HrE : exists r, ch E = Ok r) (HsE : exists r, sc E = Ok r)
  (HQ : forall ls, In ls (f_lstates f) -> ls_QX ls <> 0 -> E - ls_QX ls <> 0 /\ exists r, ch (E - ls_QX ls) = Ok r).

Lemma line_parts c ls x r : lchannel c -> In ls (f_lstates f) -> In x (ls_lines ls) ->
  legacyLine hbar epsilon0 cwf c (ls_LRX ls) (ls_QX ls) x = Ok (Some r) ->
  (exists w, q_toP r = Some w) /\ (exists w, q_toQ r = Some w).
Proof.
  intros Hc Hls Hx. destruct (Hlines ls x Hls Hx) as (N & (r0 & Er) & Q). unfold legacyLine.
  destruct (total_P c _ r0 Hc N Er) as (p & -> & Pp). destruct (total_S c _ r0 Hc N Er) as (s & Es). cbn [bind].
  assert (Hd : forall u w, 0 < w -> exists z, fdiv u w = Some z) by (intros u w Hw; unfold fdiv; destruct (Req_EM_T w 0); [lra | eexists; reflexivity]).
  destruct (ls_LRX ls).
  - destruct (Q eq_refl) as (NQ & (r' & Er')). destruct (total_P c _ r' Hc NQ Er') as (q & -> & Pq). cbn [bind]. rewrite Es. cbn [bind]. intros G. injection G as <-. cbn [makeLegacyResonance q_toP q_toQ]. split; apply Hd; assumption.
  - cbn [bind]. rewrite Es. cbn [bind]. intros G. injection G as <-. cbn [makeLegacyResonance q_toP q_toQ]. split; apply Hd; assumption.
Qed.
Lemma precompute_total ls j g : group ls j g -> In ls (f_lstates f) -> exists xs, precompute hbar epsilon0 cwf g E = Ok (Some xs).
Proof.
  intros (rs & Hg & Hc0 & Hl & HJ & F) Hls.
  assert (Hc : lchannel (lg_channel g)) by (split; [exact Hc0 | rewrite Hl; apply l_le, Hls]).
  destruct HrE as (r & Er). unfold precompute, legacyPQS. rewrite Hg. cbn [lg_channel lg_qx lg_resonances].
  destruct (total_P _ E r Hc HE Er) as (p & Ep & _). destruct (total_S _ E r Hc HE Er) as (s & Es). rewrite Ep, Es. cbn [bind].
  assert (Eq : exists q, (if Req_EM_T (ls_QX ls) 0 then Ok (Some p) else channelPenetrability hbar epsilon0 cwf (lg_channel g) (E - ls_QX ls)) = Ok (Some q)).
  { destruct (Req_EM_T (ls_QX ls) 0) as [|Nq]; [eexists; reflexivity|]. destruct (HQ ls Hls Nq) as (Ne & r' & Er'). destruct (total_P _ _ r' Hc Ne Er') as (q & -> & _). eexists; reflexivity. }
  destruct Eq as (q & ->). cbn [bind].
  destruct (list_choice (fun r x => precompute1 E p q s r = Some x) rs) as (xs & Fx); [|rewrite (all_finite_of _ _ _ Fx); eexists; reflexivity].
  intros r0 Hr0. assert (Q : exists x, In x (ls_lines ls) /\ legacyLine hbar epsilon0 cwf (lg_channel g) (ls_LRX ls) (ls_QX ls) x = Ok (Some r0)).
  { assert (Sub : forall x, In x (filter (fun x => (ln_AJ x =? j)%Z) (ls_lines ls)) -> In x (ls_lines ls)) by (intros x Hx; apply filter_In in Hx as [Hx _]; exact Hx).
    clear -F Hr0 Sub. induction F as [|x r1 xs rs E0 F IH]; [destruct Hr0|]. destruct Hr0 as [<-|Hr0]; [exists x; split; [apply Sub; left; reflexivity | exact E0]|].
    apply IH; [exact Hr0 | intros y Hy; apply Sub; right; exact Hy]. }
  destruct Q as (x & Hx & El). destruct (line_parts _ ls x r0 Hc Hls Hx El) as ((w & Ew) & (v & Ev)).
  unfold precompute1, legacyElasticAt, legacyTotalAt, energyPrime, legacyElasticAt, legacyCompetitionAt. rewrite Ew, Ev. eexists; reflexivity.
Qed.

Definition off_axis : Prop := forall ls x, In ls (f_lstates f) -> In x (ls_lines ls) -> norm2 (pole E (level_of k a E q_new ls x)) <> 0.
Lemma group_total ls j g : off_axis -> group ls j g -> In ls (f_lstates f) -> forall m,
  (exists m1, legacySLBW hbar epsilon0 cwf g E m = Ok (Some m1)) /\ (exists m2, legacyMLBW hbar epsilon0 cwf g E m = Ok (Some m2)).
Proof.
  intros Ho Hg Hls. destruct (precompute_total ls j g Hg Hls) as (xs & Ex).
  pose proof (precompute_levels hbar epsilon0 cwf mn Hh Hmn incident target A I rad E HA HE Hrad Hch ls j g xs Hg Ex) as Exs.
  destruct Hg as (rs & Eg & Hc0 & Hl & HJ & F). assert (Hc : lchannel (lg_channel g)) by (split; [exact Hc0 | rewrite Hl; apply l_le, Hls]).
  assert (Hden : forall y, In y xs -> pre_denominator y <> 0).
  { intros y Hy. rewrite Exs in Hy. apply in_map_iff in Hy as (x & <- & Hx). cbn [stored pre_denominator]. apply filter_In in Hx as [Hx _]. exact (Ho ls x Hls Hx). }
  destruct HsE as (r & Er). destruct (total_phi _ E r Hc HE Er) as (phi & Hphi).
  assert (Hfac : exists factor, channelFactor hbar (lg_channel g) E = Some factor).
  { unfold channelFactor. rewrite (channel_k hbar mn Hmn incident target A I HA _ rad E Hc0). fold k. pose proof (k_positive E HE).
    unfold fdiv. destruct (Req_EM_T _ 0) as [e0|]; [nra|]. eexists; reflexivity. }
  destruct Hfac as (factor & Hfac).
  assert (H1 : forall m, exists m1, legacySLBW hbar epsilon0 cwf g E m = Ok (Some m1)).
  { intros m0. unfold legacySLBW. rewrite Hphi, Hfac. cbn [bind]. rewrite Ex. cbn [bind].
    destruct (list_choice (fun x y => slbw_components (sin phi * sin phi) (sin (2 * phi)) x = Some y) xs) as (ys & Hys).
    { intros x Hx. unfold slbw_components, fdiv. destruct (Req_EM_T (pre_denominator x) 0) as [e0|]; [destruct (Hden x Hx e0)|].
      eexists; reflexivity. }
    rewrite (all_finite_of _ _ _ Hys). destruct (taccumulate ys (0, 0, 0)) as [[e c] fi]. eexists; reflexivity. }
  intros m. split; [apply H1|]. unfold legacyMLBW. destruct (H1 m) as (m1 & Hm1). rewrite Hm1, Ex. cbn [bind]. rewrite Hfac.
  destruct (outer_some xs [] 0) as (t & ->); [intros y [] | exact Hden |]. eexists; reflexivity.
Qed.
Lemma potential_total ratio N : 0 < ratio -> forall l v, (l + N <= 5)%nat -> exists v', potential ratio N l v = Ok v'.
Proof.
  intros P. induction N as [|N IH]; intros l v Hle; cbn [potential]; [eexists; reflexivity|].
  destruct (phase_code l ratio P ltac:(lia)) as (phi & -> & _). cbn [bind]. apply IH. lia.
Qed.

Lemma evaluate_total one s m : makeLegacyBreitWigner hbar epsilon0 cwf mn incident target f nro naps = Ok (Some s) ->
  (forall ls j g m, group ls j g -> In ls (f_lstates f) -> exists m', one g E m = Ok (Some m')) ->
  exists m', legacy_evaluate hbar one s E m = Ok (Some m').
Proof.
  intros Hs Hone.
  assert (Hb : exists gss, ly_groups s = concat gss /\ Forall2 (fun ls gs => Forall2 (group ls) (js_of ls) gs) (f_lstates f) gss /\
    legacyVerify (concat gss) = Ok tt /\ ly_lmax s = n).
  { refine (legacy_built hbar epsilon0 cwf mn incident target A I rad (f_AP f) nro naps (in_radii _ _ _ _ _ _ _ _ H) (f_lstates f) n (in_awri _ _ _ _ _ _ _ _ H) (in_l _ _ _ _ _ _ _ _ H) (in_lines _ _ _ _ _ _ _ _ H) s _).
    unfold I. destruct f; exact Hs. }
  destruct Hb as (gss & Eg & F & V & Em). unfold legacy_evaluate.
  assert (Hall : forall g, In g (ly_groups s) -> exists ls j, group ls j g /\ In ls (f_lstates f)).
  { intros g Hg. rewrite Eg in Hg. apply in_concat in Hg as (gs & Hgs & Hg). clear V Eg. revert F Hgs. generalize (f_lstates f). intros lss F Hgs.
    induction F as [|ls gs0 lss gss G F IH]; [destruct Hgs|]. destruct Hgs as [->|Hgs].
    - clear -G Hg. revert G. generalize (js_of ls). intros js G. induction G as [|j g0 js gs G0 G IH]; [destruct Hg|]. destruct Hg as [<-|Hg]; [exists ls, j; split; [exact G0 | left; reflexivity]|].
      destruct (IH Hg) as (ls' & j' & ? & ?). exists ls', j'. auto.
    - destruct (IH Hgs) as (ls' & j' & ? & ?). exists ls', j'. split; [assumption | right; assumption]. }
  assert (Hf : forall gs, (forall g, In g gs -> exists ls j, group ls j g /\ In ls (f_lstates f)) -> forall m, exists m',
    foldM (fun om g => match om with None => Ok None | Some m => one g E m end) gs (Some m) = Ok (Some m')).
  { clear -Hone. induction gs as [|g gs IH]; intros Hg m; cbn [foldM]; [eexists; reflexivity|]. destruct (Hg g (or_introl eq_refl)) as (ls & j & G & L).
    destruct (Hone ls j g m G L) as (m1 & ->). cbn [bind]. apply IH. intros h Hh. apply Hg; right; exact Hh. }
  destruct (Hf (ly_groups s) Hall m) as (m1 & ->). cbn [bind].
  destruct (ly_groups s) as [|g gs] eqn:El.
  { exfalso. rewrite <- Eg in V. discriminate V. }
  destruct (Hall g (or_introl eq_refl)) as (ls & j & (rs & _ & Hc & _) & _).
  rewrite (channel_k hbar mn Hmn incident target A I HA _ rad E Hc). fold k.
  assert (Er : c_radii (lg_channel g) = rad) by (destruct Hc as (? & ? & _ & ->); reflexivity). rewrite Er. fold sc. destruct HsE as (r & Hr). rewrite Hr. cbn [bind].
  pose proof (k_positive E HE) as Pk.
  destruct (potential_total (k E * r) (S (ly_lmax s)) ltac:(apply Rmult_lt_0_compat; [exact Pk | exact (Hsc E r Hr)]) 0 0 ltac:(rewrite Em; lia)) as (v & ->). cbn [bind].
  unfold fdiv. destruct (Req_EM_T _ 0) as [e0|]; [nra|]. eexists; reflexivity.
Qed.

Theorem legacy_evaluates s m : makeLegacyBreitWigner hbar epsilon0 cwf mn incident target f nro naps = Ok (Some s) ->
  (off_axis <-> exists m', legacy_evaluate hbar (legacySLBW hbar epsilon0 cwf) s E m = Ok (Some m')) /\
  (off_axis <-> exists m', legacy_evaluate hbar (legacyMLBW hbar epsilon0 cwf) s E m = Ok (Some m')).
Proof.
  intros Hs. assert (Hs' : makeLegacyBreitWigner hbar epsilon0 cwf mn incident target (mkFile I (f_AP f) (f_lstates f)) nro naps = Ok (Some s)) by (unfold I; destruct f; exact Hs).
  pose proof (fun one m' => legacy_poles hbar epsilon0 cwf mn Hh Hmn incident target A I rad E HA HI HE Hrad Hch Hsc (f_AP f) nro naps (in_radii _ _ _ _ _ _ _ _ H) (f_lstates f) n (in_awri _ _ _ _ _ _ _ _ H) (in_l _ _ _ _ _ _ _ _ H) (in_lines _ _ _ _ _ _ _ _ H) one s m m' Hs') as Hp.
  split; split.
  - intros Ho. apply evaluate_total; [exact Hs|]. intros ls j g m0 G L. apply (group_total ls j g Ho G L).
  - intros (m' & Em). exact (Hp _ m' (fun g m1 m2 Q => ex_intro _ m2 Q) Em).
  - intros Ho. apply evaluate_total; [exact Hs|]. intros ls j g m0 G L. apply (group_total ls j g Ho G L).
  - intros (m' & Em). exact (Hp _ m' (fun g m1 m2 Q => mlbw_slbw hbar epsilon0 cwf E g m1 m2 Q) Em).
Qed.
End Total.
