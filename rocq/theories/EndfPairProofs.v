From Coq Require Import String List ZArith Reals Bool Lra Lia.
From Verif Require Import Outcome QuantumModel ListFacts KinematicsModel EndfModel EndfSpec EndfPairSpec.
Import ListNotations.
Open Scope R_scope.

Lemma parity_ok spin parity : parity_of spin parity (endfParity spin parity).
Proof.
  unfold parity_of, endfParity. destruct (Z.eqb_spec spin 0), (Z.leb_spec 0 parity), (Z.ltb_spec 0 spin); repeat split; intros; try lia.
Qed.
Lemma parity_unique spin parity p : parity_of spin parity p -> p = endfParity spin parity.
Proof.
  unfold parity_of, endfParity. intros (A & B & C & D). destruct (Z.eqb_spec spin 0), (Z.leb_spec 0 parity), (Z.ltb_spec 0 spin); first [apply A; lia | apply B; lia | apply C; lia | apply D; lia].
Qed.

Section Pairs.
Variables (mn ec : R) (incident target : string) (products : Z -> outcome (string * string)).
Hypotheses (Hm : 0 < mn) (He : 0 < ec).

Lemma part_made id mass charge spin parity : 0 <= mass -> 0 <= charge ->
  exists p, makeEndfParticle mn ec id mass charge spin parity = Ok p /\ endf_particle mn ec id mass charge spin parity p.
Proof.
  intros A B. unfold makeEndfParticle, makeParticle, verifyNotNegative.
  destruct (Rlt_dec (mass * mn) 0) as [L|_]; [exfalso; nra|]. destruct (Rlt_dec (charge * ec) 0) as [L|_]; [exfalso; nra|].
  cbn [bind]. eexists. split; [reflexivity|]. constructor; cbn; [reflexivity | ring | ring | lia | apply parity_ok].
Qed.
Lemma part_thrown id mass charge spin parity : ~ (0 <= mass /\ 0 <= charge) ->
  exists m, makeEndfParticle mn ec id mass charge spin parity = Throw (RuntimeError (m ++ " value cannot be negative.")).
Proof.
  intros N. unfold makeEndfParticle, makeParticle, verifyNotNegative.
  destruct (Rlt_dec (mass * mn) 0) as [L|L]; [eexists; reflexivity|]. destruct (Rlt_dec (charge * ec) 0) as [L'|L']; [eexists; reflexivity|].
  exfalso. apply N. split; nra.
Qed.
Lemma part_unique id mass charge spin parity p p' : endf_particle mn ec id mass charge spin parity p ->
  endf_particle mn ec id mass charge spin parity p' -> p = p'.
Proof.
  intros [A B C [D D'] E] [A' B' C' [F F'] G]. apply parity_unique in E. apply parity_unique in G. destruct p, p'; cbn in *. subst.
  f_equal. lia.
Qed.
Lemma ids_made mt a b id : makeParticleIDs incident target products mt = Ok (a, b, id) <-> endf_ids incident target products mt a b id.
Proof.
  unfold makeParticleIDs, endf_ids. destruct (Z.eqb_spec mt 2) as [->|N]; [|destruct (Z.eqb_spec mt 18) as [->|N']].
  - split; [intros H; injection H as <- <- <-; auto | intros [(_ & -> & -> & ->)|[(H & _)|(H & _)]]; [reflexivity | discriminate | contradiction]].
  - split; [intros H; injection H as <- <- <-; right; left; auto | intros [(H & _)|[(_ & -> & -> & ->)|(_ & H & _)]]; [discriminate | reflexivity | contradiction]].
  - split.
    + intros H. apply bind_Ok in H as ([x y] & E & H). injection H as <- <- <-. auto 6.
    + intros [(H & _)|[(H & _)|(_ & _ & E & ->)]]; [contradiction | contradiction | rewrite E; reflexivity].
Qed.
Lemma pair_made e p : makeEndfPair mn ec incident target products e = Ok p <-> acceptable e /\
  endf_pair_of mn ec incident target products e p /\ p = makeParticlePair (pp_particle p) (pp_residual p) (pp_id p).
Proof.
  unfold makeEndfPair, acceptable, endf_pair_of. split.
  - intros H. apply bind_Ok in H as ([[a b] id] & I & H). cbn beta iota in H. apply bind_Ok in H as (x & X & H). apply bind_Ok in H as (y & Y & H). injection H as <-.
    apply ids_made in I.
    assert (A : 0 <= ep_MA e /\ 0 <= ep_ZA e).
    { destruct (Rle_dec 0 (ep_MA e)), (Rle_dec 0 (ep_ZA e)); auto; exfalso; edestruct part_thrown with (mass := ep_MA e) (charge := ep_ZA e) as [m M]; try rewrite X in M; try discriminate; tauto. }
    assert (B : 0 <= ep_MB e /\ 0 <= ep_ZB e).
    { destruct (Rle_dec 0 (ep_MB e)), (Rle_dec 0 (ep_ZB e)); auto; exfalso; edestruct part_thrown with (mass := ep_MB e) (charge := ep_ZB e) as [m M]; try rewrite Y in M; try discriminate; tauto. }
    destruct A as [A A'], B as [B B'].
    destruct (part_made a _ _ (ep_IA e) (ep_PA e) A A') as (x' & X' & PX). rewrite X in X'. injection X' as <-.
    destruct (part_made b _ _ (ep_IB e) (ep_PB e) B B') as (y' & Y' & PY). rewrite Y in Y'. injection Y' as <-.
    split; [auto|]. cbn [pp_particle pp_residual pp_id makeParticlePair]. split; [|reflexivity].
    pose proof (ep_id _ _ _ _ _ _ _ _ PX) as IX. pose proof (ep_id _ _ _ _ _ _ _ _ PY) as IY.
    pose proof (ep_mass _ _ _ _ _ _ _ _ PX) as MX. pose proof (ep_mass _ _ _ _ _ _ _ _ PY) as MY. subst a b.
    split; [exact I|]. split; [exact PX|]. split; [exact PY|]. intros S. unfold makeParticlePair; cbn [pp_reduced pp_ratio]. rewrite MX, MY.
    unfold fdiv. destruct (Req_EM_T (mn * ep_MA e + mn * ep_MB e) 0) as [Z|Z]; [exfalso; nra|].
    eexists _, _. split; [reflexivity|]. split; [reflexivity|]. split; field; nra.
  - intros ((A & B & A' & B') & (I & PX & PY & _) & E). apply ids_made in I. rewrite I. cbn [bind].
    destruct (part_made (p_id (pp_particle p)) _ _ (ep_IA e) (ep_PA e) A A') as (x' & -> & PX'). cbn [bind].
    destruct (part_made (p_id (pp_residual p)) _ _ (ep_IB e) (ep_PB e) B B') as (y' & -> & PY'). cbn [bind].
    rewrite (part_unique _ _ _ _ _ _ _ PX' PX), (part_unique _ _ _ _ _ _ _ PY' PY), <- E. reflexivity.
Qed.
Lemma pair_thrown e : ~ acceptable e -> (forall mt, exists ab, products mt = Ok ab) ->
  exists m, makeEndfPair mn ec incident target products e = Throw (RuntimeError (m ++ " value cannot be negative.")).
Proof.
  intros N P. unfold makeEndfPair. assert (I : exists i, makeParticleIDs incident target products (ep_MT e) = Ok i).
  { unfold makeParticleIDs. destruct (_ =? 2)%Z; [eauto|]. destruct (_ =? 18)%Z; [eauto|]. destruct (P (ep_MT e)) as [[a b] ->]. cbn. eauto. }
  destruct I as [[[a b] id] ->]. cbn [bind].
  destruct (Rle_dec 0 (ep_MA e)) as [A|A]; [destruct (Rle_dec 0 (ep_ZA e)) as [A'|A']|].
  - destruct (part_made a _ _ (ep_IA e) (ep_PA e) A A') as (x' & -> & _). cbn [bind].
    edestruct part_thrown with (mass := ep_MB e) (charge := ep_ZB e) as [m ->]; [unfold acceptable in N; tauto|]. cbn. eauto.
  - edestruct part_thrown with (mass := ep_MA e) (charge := ep_ZA e) as [m ->]; [tauto|]. cbn. eauto.
  - edestruct part_thrown with (mass := ep_MA e) (charge := ep_ZA e) as [m ->]; [tauto|]. cbn. eauto.
Qed.
Lemma pair_exists e : acceptable e -> (forall mt, exists ab, products mt = Ok ab) ->
  exists p, makeEndfPair mn ec incident target products e = Ok p.
Proof.
  intros (A & B & A' & B') P. unfold makeEndfPair. assert (I : exists i, makeParticleIDs incident target products (ep_MT e) = Ok i).
  { unfold makeParticleIDs. destruct (_ =? 2)%Z; [eauto|]. destruct (_ =? 18)%Z; [eauto|]. destruct (P (ep_MT e)) as [[a b] ->]. cbn. eauto. }
  destruct I as [[[a b] id] ->]. cbn [bind].
  destruct (part_made a _ _ (ep_IA e) (ep_PA e) A A') as (x' & -> & _). cbn [bind].
  destruct (part_made b _ _ (ep_IB e) (ep_PB e) B B') as (y' & -> & _). cbn [bind]. eauto.
Qed.
Lemma pairs_made es ps : makeParticlePairs mn ec incident target products es = Ok ps ->
  Forall acceptable es /\ Forall2 (endf_pair_of mn ec incident target products) es ps.
Proof.
  unfold makeParticlePairs. revert ps. induction es as [|e es IH]; cbn [mapM]; intros ps H.
  - injection H as <-. split; constructor.
  - apply bind_Ok in H as (p & E & H). apply bind_Ok in H as (qs & E' & H). injection H as <-. apply pair_made in E as (A & B & _).
    destruct (IH qs E') as [F G]. split; constructor; auto.
Qed.
Lemma pairs_exist es : (forall mt, exists ab, products mt = Ok ab) -> Forall acceptable es ->
  exists ps, makeParticlePairs mn ec incident target products es = Ok ps.
Proof.
  unfold makeParticlePairs. intros P. induction 1 as [|e es A _ [qs E]]; cbn [mapM]; [eauto|].
  destruct (pair_exists e A P) as [p ->]. cbn [bind]. rewrite E. cbn. eauto.
Qed.
Lemma pairs_thrown es : (forall mt, exists ab, products mt = Ok ab) -> ~ Forall acceptable es ->
  exists m, makeParticlePairs mn ec incident target products es = Throw (RuntimeError (m ++ " value cannot be negative.")).
Proof.
  unfold makeParticlePairs. intros P. induction es as [|e es IH]; intros N; cbn [mapM]; [exfalso; apply N; constructor|].
  assert (D : acceptable e \/ ~ acceptable e).
  { unfold acceptable. destruct (Rle_dec 0 (ep_MA e)), (Rle_dec 0 (ep_MB e)), (Rle_dec 0 (ep_ZA e)), (Rle_dec 0 (ep_ZB e)); tauto. }
  destruct D as [D|D].
  - destruct (pair_exists e D P) as [p ->]. cbn [bind]. destruct IH as [m ->]; [intros F; apply N; constructor; assumption|]. cbn. eauto.
  - destruct (pair_thrown e D P) as [m ->]. cbn. eauto.
Qed.
(** An identifier with a comma is not "fission" *)
Lemma comma_fission a b : (a ++ "," ++ b)%string <> "fission"%string.
Proof. do 7 (destruct a as [|? a]; [discriminate|cbn; let H := fresh in intros H; injection H as _ H; revert H]). destruct a; discriminate. Qed.
Lemma fission_transfer es ps i j e x inc p : makeParticlePairs mn ec incident target products es = Ok ps ->
  nth_error es i = Some e -> ep_MT e = 2%Z -> nth_error ps i = Some inc ->
  nth_error es j = Some x -> ep_MT x = 18%Z -> nth_error ps j = Some p ->
  makeReactionID inc p = Transfer (incident ++ "," ++ target) "fission" /\ makeReactionID inc inc = Elastic incident target.
Proof.
  intros H A B C D E F. apply pairs_made in H as [_ H].
  assert (G : forall k y q, nth_error es k = Some y -> nth_error ps k = Some q -> endf_pair_of mn ec incident target products y q).
  { clear - H. induction H; intros [|k] y' q' U V; cbn in U, V; try discriminate; [injection U as <-; injection V as <-; assumption | eauto]. }
  destruct (G _ _ _ A C) as ([(_ & I1 & I2 & I3)|[(W & _)|(W & _)]] & _); [|congruence|congruence].
  destruct (G _ _ _ D F) as ([(W & _)|[(_ & J1 & J2 & J3)|(_ & W & _)]] & _); [congruence| |congruence].
  unfold makeReactionID. destruct (string_dec (pp_id inc) (pp_id p)) as [Q|Q]; [rewrite I3, J3 in Q; destruct (comma_fission _ _ Q)|].
  destruct (string_dec (pp_id inc) (pp_id inc)) as [_|Q']; [|contradiction]. rewrite I1, I2, I3, J3. auto.
Qed.
End Pairs.
