(** A spin group made of items: its contribution to the cross sections. *)
From Coq Require Import Reals Lra Lia String.
From mathcomp Require Import all_ssreflect all_algebra.
From Verif Require Import Outcome QuantumModel QuantumSpec KinematicsModel CoulombModel Cplx RMatrixModel RMatrixSpec RMatrixProofs RMatrixCodeProofs RMatrixObservableProofs
  KMatrixModel KMatrixSpec KMatrixProofs KMatrixMore ChannelModel SpinGroupModel SpinGroupSpec SpinGroupProofs SpinGroupEvalProofs SpinGroupChannelProofs
  AssemblyModel AssemblySpec AssemblyTheorems DecoupleProofs NewerBlock NewerItems.
Set Implicit Arguments.
Unset Strict Implicit.
Unset Printing Implicit Defensive.
Import GRing.Theory.
Local Open Scope ring_scope.

Lemma nth_list (A : Type) (d : A) (l : seq A) i : nth d l i = List.nth i l d.
Proof. by elim: l i => [|x l IH] [|i] //=. Qed.
Lemma In_memN (k : nat) s : (k \in s) <-> List.In k s.
Proof.
  elim: s => //= x s IH; rewrite inE; split=> [/orP [/eqP ->|/IH H]|[->|/IH H]]; [by left | by right | by rewrite eqxx | by rewrite H orbT].
Qed.
Lemma NoDup_uniqN (s : seq nat) : List.NoDup s -> uniq s.
Proof. by elim=> //= x l N _ ->; rewrite andbT; apply/negP => /In_memN. Qed.

(** ** The sum over the incident channels *)
Definition at_nat n (F : 'I_n -> R) (i : nat) : R := if insub i is Some c then F c else 0%re.
Lemma at_ord n (F : 'I_n -> R) (c : 'I_n) : at_nat F c = F c.
Proof. by rewrite /at_nat valK. Qed.
Lemma incident_sum channels t g (F : 'I_(gsize g) -> R) : makeGroup channels t = Ok g ->
  \big[Rplus/0%re]_(c | isIncidentChannel (chan c)) F c = Rsum (List.map (at_nat F) (g_incident g)).
Proof.
  move=> made; rewrite (eq_bigl (mem (incident_ord g))); last by move=> c; rewrite /= (incident_ord_spec made).
  rewrite -big_uniq /=; last exact: (incident_ord_uniq made).
  rewrite /incident_ord; have := @incident_in_range _ _ _ made.
  elim: (g_incident g) => [|i s IH] H /=; first by rewrite big_nil.
  have Hi : (i < gsize g)%N by apply: H; rewrite inE eqxx.
  rewrite insubT /= big_cons IH; last by move=> j Hj; apply: H; rewrite inE Hj orbT.
  by congr Rplus; rewrite /at_nat insubT.
Qed.

Section Group.
Variables (hbar epsilon0 : R) (cwf : nat -> R -> R -> outcome coulomb) (E : R).
Variables (its : seq item) (out : seq channel_data) (jp : Jpi) (g : group) (channels : seq channel) (t : table).
Variables (kE kF kC : reactionID) (P phi : item -> R).
Hypotheses (Hok : forall i, List.In i its -> item_ok i) (Hout : consolidated (List.concat (List.map it_ds its)) out)
  (made : makeGroup channels t = Ok g)
  (Hchan : g_channels g = ordinary_channels (of_Jpi jp out)) (Ht : faithful_table (of_Jpi jp out) (g_table g)).
Notation sl := (sel its jp).
Hypothesis HN : List.NoDup (List.concat (List.map it_energies sl)).
(** the first channel of an item is elastic, the others lead to fission *)
Hypothesis Hreact : forall i k d, List.In i its -> List.nth_error (it_D i) k = Some d ->
  c_reaction (cd_channel d) = (if k == 0%N then kE else kF) /\ isIncidentChannel (cd_channel d) = (k == 0%N).
Hypotheses (HkE : kE <> kF) (HkEC : kE <> kC) (HkFC : kF <> kC) (Hcap : capture_id g = kC).
Variables (vs : seq values) (A : 'M[cx]_(gsize g)) (factor : R).
Hypotheses (Hvs : groupValues hbar epsilon0 cwf ShiftFactor g E = Ok (Some vs)) (rl : is_RL ShiftFactor E (t_resonances (g_table g)) vs A).
Hypothesis HP : forall i, List.In i sl -> (0 < P i)%re.
Hypothesis Hval : forall i k d v, List.In i sl -> List.nth_error (it_D i) k = Some d ->
  channelValues hbar epsilon0 cwf ShiftFactor (cd_channel d) E = Ok (Some v) ->
  v = nth no_values (three_channels (P i) (phi i)) (nth 0%N (it_which i) k).

Let D := List.concat (List.map it_D sl).
Lemma group_channels : g_channels g = List.map cd_channel D.
Proof. by rewrite Hchan /ordinary_channels (sel_ordinary _ _ _ Hok Hout). Qed.
Lemma group_size : gsize g = List.length D.
Proof. by rewrite /gsize group_channels; apply: List.map_length. Qed.
Lemma group_at (j : 'I_(gsize g)) : exists a i b k d, sl = (a ++ i :: b)%list /\ (j : nat) = (List.length (List.concat (List.map it_D a)) + k)%coq_nat /\
  List.nth_error (it_D i) k = Some d /\ chan j = cd_channel d.
Proof.
  have Hj : (j < List.length D)%coq_nat by apply/ltP; rewrite -group_size.
  case Ed: (List.nth_error D j) => [d|]; last by move/List.nth_error_None: Ed; lia.
  have [a [i [b [c [H1 [H2 H3]]]]]] := ordinary_place its out jp Hok Hout j d ltac:(by rewrite (sel_ordinary _ _ _ Hok Hout)).
  exists a, i, b, c, d; split=> //; split=> //; split=> //.
  rewrite /chan group_channels nth_list (List.nth_indep _ dummy_channel (cd_channel d)); last by rewrite List.map_length.
  by rewrite List.map_nth; congr cd_channel; apply: List.nth_error_nth.
Qed.
Lemma sel_In i : List.In i sl -> List.In i its.
Proof. by rewrite /sel => /List.filter_In []. Qed.
Lemma sel_mid a i b : sl = (a ++ i :: b)%list -> List.In i sl.
Proof. by move=> ->; apply: List.in_or_app; right; left. Qed.
Lemma group_value j : nth no_values vs (j : 'I_(gsize g)) = nth no_values vs j /\
  channelValues hbar epsilon0 cwf ShiftFactor (chan j) E = Ok (Some (nth no_values vs j)).
Proof.
  split=> //; have [_ H] := @mapM_all _ _ _ _ _ Hvs.
  exact: (H j dummy_channel no_values (ltn_ord j)).
Qed.

Section One.
Variables (a : seq item) (i : item) (b : seq item) (c : 'I_(gsize g)).
Hypotheses (Es : sl = (a ++ i :: b)%list) (Ec : (c : nat) = List.length (List.concat (List.map it_D a))).
Let len := List.length (it_D i).
Let pos := iota c len.
Let Hi : List.In i sl := sel_mid Es.
Let ok := sel_ok its jp Hok i Hi.
Lemma one_len : (c + len <= gsize g)%N.
Proof.
  rewrite Ec; have -> : gsize g = List.length D := group_size.
  rewrite /D Es List.map_app List.concat_app List.app_length /= List.app_length /len.
  by apply/leP; rewrite -plusE; lia.
Qed.
Lemma one_size : size (it_which i) = len.
Proof. by have [_ [H _]] := io_which _ ok. Qed.
Lemma one_pos k : (k < len)%N -> nth 0%N pos k = (List.length (List.concat (List.map it_D a)) + k)%coq_nat.
Proof. by move=> Hk; rewrite /pos nth_iota // Ec. Qed.
Lemma one_mem (j : nat) : (j \in pos) = (c <= j < c + len)%N.
Proof. by rewrite /pos mem_iota. Qed.
Lemma one_chan (j : 'I_(gsize g)) k : (k < len)%N -> (j : nat) = (c + k)%N -> exists d, List.nth_error (it_D i) k = Some d /\ chan j = cd_channel d.
Proof.
  move=> Hk Ej; case Ed: (List.nth_error (it_D i) k) => [d|]; last by move/List.nth_error_None: Ed => H; move/ltP: Hk; rewrite /len; lia.
  exists d; split=> //.
  have Hn : List.nth_error D j = Some d.
    by rewrite /D Es List.map_app Ej Ec; apply: chunk_at.
  have Hj : (j < List.length D)%coq_nat by apply: (proj1 (List.nth_error_Some _ _)); rewrite Hn.
  rewrite /chan group_channels nth_list (List.nth_indep _ dummy_channel (cd_channel d)); last by rewrite List.map_length.
  by rewrite List.map_nth; congr cd_channel; apply: List.nth_error_nth.
Qed.
Lemma len_pos : (0 < len)%N.
Proof. by have [d0 [fis [H _]]] := io_first _ ok; rewrite /len H. Qed.

Lemma one_placed : placed E (P i) (phi i) (t_resonances (g_table g)) (it_rows i) vs A pos (it_which i) c kE kF.
Proof.
  have sz k : (k < size pos)%N -> (k < len)%N by rewrite /pos size_iota.
  have wd r k : (k < len)%N -> nth 0%re (rs_widths r) (nth 0%N pos k) = List.nth (List.length (List.concat (List.map it_D a)) + k)%coq_nat (rs_widths r) 0%re.
    by move=> Hk; rewrite (one_pos Hk) nth_list.
  have W r (Hr : List.In r (t_resonances (g_table g))) : ~ List.In (rs_energy r) (it_energies i) ->
      forall k, (k < size pos)%N -> nth 0%re (rs_widths r) (nth 0%N pos k) = 0%re.
    move=> N k /sz Hk; rewrite wd //.
    have Hj : (c + k < gsize g)%N by apply: leq_trans one_len; rewrite ltn_add2l.
    have [d [Hd _]] := @one_chan (Ordinal Hj) k Hk erefl.
    exact: (proj2 (table_width its out jp _ Hok Hout Ht HN a i b k d r Es Hd Hr) N).
  split.
  - exact: rl.
  - exact: HP.
  - apply/allP => j; rewrite one_mem => /andP [_ H]; exact: leq_trans H one_len.
  - exact: iota_uniq.
  - by have [_ [_ [H _]]] := io_which _ ok; apply/allP => k /In_memN /H /ltP.
  - by have [_ [_ [_ H]]] := io_which _ ok; apply: NoDup_uniqN.
  - by rewrite one_size /pos size_iota.
  - move=> k /sz Hk; have Hj : (c + k < gsize g)%N by apply: leq_trans one_len; rewrite ltn_add2l.
    have [d [Hd Hc]] := @one_chan (Ordinal Hj) k Hk erefl.
    have [_ Hv] := group_value (Ordinal Hj); rewrite Hc in Hv.
    rewrite /pos nth_iota //; exact: (Hval Hi Hd Hv).
  - exact: (table_nodup _ _ _ Ht).
  - exact: (item_nodup _ _ HN i Hi).
  - move=> x Hx; have [r [Hr [E1 [E2 E3]]]] := table_row its out jp _ Hok Hout Ht HN a i b x Es Hx.
    exists r; split=> //; split=> //; rewrite E2; split=> // k /sz Hk; rewrite wd // E3 ?nth_list //.
    by apply/ltP.
  - move=> r Hr; case: (List.in_dec Req_EM_T (rs_energy r) (it_energies i)) => [H|N]; last by right; apply: W.
    by left; move/List.in_map_iff: H => [x [E1 E2]]; exists x.
  - move=> r k Hr Hk; rewrite one_mem => Hn.
    case: (List.in_dec Req_EM_T (rs_energy r) (it_energies i)) => [H|N]; last by left; apply: W.
    right; rewrite nth_list; apply: (table_other its out jp _ Hok Hout Ht HN a i b r k Es Hr _ _ H).
      by apply/ltP; rewrite -group_size.
    move: Hn; rewrite negb_and -leqNgt -ltnNge Ec => /orP [/ltP|/leP]; [by left | by right].
  - move=> x k Hx /ltP Hk N; rewrite nth_list; apply: (io_zero _ ok x k Hx Hk) => Q; by move/In_memN: Q => Q; rewrite Q in N.
  - rewrite /pos; have := len_pos; case: (len) => // m _; by exists (iota c.+1 m).
  - by have [[w H] _] := io_which _ ok; exists w.
  - have [d [Hd ->]] := @one_chan c 0 len_pos ltac:(by rewrite addn0).
    by have [-> _] := Hreact (sel_In Hi) Hd.
  - move=> j; rewrite one_mem => /andP [H1 H2] Hj.
    have Hk : (j - c < len)%N by rewrite ltn_subLR.
    have [d [Hd ->]] := @one_chan j (j - c) Hk ltac:(by rewrite subnKC).
    have [-> _] := Hreact (sel_In Hi) Hd; rewrite subn_eq0 leqNgt.
    by rewrite (_ : (c < j)%N) // ltn_neqAle H1 andbT eq_sym; apply: contra Hj => /eqP /val_inj ->.
  - by rewrite Hcap.
  - move=> j; rewrite Hcap; have [a' [i' [b' [k [d [E1 [_ [Hd ->]]]]]]]] := group_at j.
    have [-> _] := Hreact (sel_In (sel_mid E1)) Hd; by case: ifP => _.
Qed.
End One.

(** ** The contribution of the group *)
Definition V (k : reactionID) (i : item) : R :=
  if k == kE then J_elastic E (P i) (phi i) (it_rows i)
  else if k == kF then J_fission E (P i) (phi i) (it_rows i)
  else if k == kC then J_capture E (P i) (phi i) (it_rows i) else 0%re.
Lemma group_reactions (j : 'I_(gsize g)) : c_reaction (chan j) = kE \/ c_reaction (chan j) = kF.
Proof.
  have [a' [i' [b' [k [d [E1 [_ [Hd ->]]]]]]]] := group_at j.
  have [-> _] := Hreact (sel_In (sel_mid E1)) Hd; case: ifP => _; [by left | by right].
Qed.
Theorem group_contribution k : contribution vs A factor k = (factor * Rsum (List.map (V k) sl))%re.
Proof.
  rewrite /contribution; congr Rmult.
  have Einc : g_incident g = determineIncident 0 (List.map cd_channel D).
    have [E1 [_ [E2 _]]] := makeGroup_ok made; by rewrite E2 -E1 group_channels.
  rewrite (incident_sum _ made) Einc.
  apply: (offsets_sum _ (V k) sl _ [::]) => [i Hi|a i b Es _].
    split; last by have [d0 [fis [-> _]]] := io_first _ (sel_ok its jp Hok _ Hi).
    move=> n d Hd; have [_ ->] := Hreact (sel_In Hi) Hd; by case: n Hd.
  have Hc : (List.length (List.concat (List.map it_D a)) < gsize g)%N.
    have Hi := sel_mid Es; have [d0 [fis [H _]]] := io_first _ (sel_ok its jp Hok _ Hi).
    have -> : gsize g = List.length D := group_size.
    rewrite /D (Es : sl = (a ++ i :: b)%list) List.map_app List.concat_app List.app_length /= List.app_length H /=.
    by apply/ltP; lia.
  rewrite -[X in at_nat _ X]/(val (Ordinal Hc)) at_ord.
  have [e [f cp]] := inner_values (one_placed Es (c := Ordinal Hc) erefl).
  rewrite -/(inner vs A (Ordinal Hc) k) /V.
  case: (altP (k =P kE)) => [-> //|N1]; case: (altP (k =P kF)) => [-> //|N2]; case: (altP (k =P kC)) => [->|N3].
    by rewrite Hcap in cp.
  rewrite /inner Hcap (negbTE N3) Rplus_0_r big_pred0 // => j.
  by case: (group_reactions j) => ->; rewrite eq_sym; apply: negbTE.
Qed.
Lemma group_written k : written g k -> k = kE \/ k = kF \/ k = kC.
Proof.
  rewrite /written Hcap => /orP [/eqP ->|]; first by right; right.
  move=> /(has_nthP dummy_channel) [n Hn /eqP <-]; by case: (group_reactions (Ordinal Hn)) => H; [left | right; left].
Qed.
End Group.
